(* P_Pointers2.v - programs over shared_pointer and cow_pointer variables. *)
From Verif Require Import Base M_Pointers Spec_Pointers P_Pointers.
Set Implicit Arguments.
Unset Strict Implicit.
Open Scope nat_scope.

(* --- environments --- *)
Definition erel A B (R : A -> B -> Prop) (e : env A) (f : env B) : Prop :=
  Forall2 (fun x y => fst x = fst y /\ R (snd x) (snd y)) e f.

Lemma erel_keys A B (R : A -> B -> Prop) e f : erel R e f -> map fst e = map fst f.
Proof. induction 1 as [|x y e f [H _] _ IH]; cbn; congruence. Qed.

Lemma erel_lookup A B (R : A -> B -> Prop) e f v : erel R e f ->
  match lookup e v, lookup f v with Some x, Some y => R x y | None, None => True | _, _ => False end.
Proof.
  induction 1 as [|[w x] [w' y] e f [H1 H2] _ IH]; cbn [lookup]; auto. cbn [fst snd] in *. subst w'.
  destruct (w =? v); auto.
Qed.

Lemma erel_assign A B (R : A -> B -> Prop) e f v x y : erel R e f -> R x y -> erel R (assign e v x) (assign f v y).
Proof.
  intros H Hxy. induction H as [|[w a] [w' b] e f [H1 H2] Ht IH]; cbn [assign]; [constructor|]. cbn [fst snd] in *. subst w'.
  destruct (w =? v); constructor; auto.
Qed.

Lemma erel_drop A B (R : A -> B -> Prop) e f v : erel R e f -> erel R (drop e v) (drop f v).
Proof.
  intros H. induction H as [|[w a] [w' b] e f [H1 H2] Ht IH]; cbn [drop]; [constructor|]. cbn [fst snd] in *. subst w'.
  destruct (w =? v); auto. constructor; auto.
Qed.

Lemma erel_cons A B (R : A -> B -> Prop) e f v x y : erel R e f -> R x y -> erel R ((v, x) :: e) ((v, y) :: f).
Proof. intros H1 H2. constructor; auto. Qed.

Lemma lookup_perm A (e : env A) v x : lookup e v = Some x -> Permutation (map snd e) (x :: map snd (drop e v)).
Proof.
  induction e as [|[w y] e IH]; cbn [lookup drop map snd]; [discriminate|].
  destruct (w =? v).
  - intros E. injection E as <-. apply Permutation_refl.
  - intros E. cbn [map snd]. rewrite IH at 1 by exact E. apply perm_swap.
Qed.
Lemma assign_perm A (e : env A) v x y : lookup e v = Some x -> Permutation (map snd (assign e v y)) (y :: map snd (drop e v)).
Proof.
  induction e as [|[w z] e IH]; cbn [lookup drop assign map snd]; [discriminate|].
  destruct (w =? v).
  - intros E. apply Permutation_refl.
  - intros E. cbn [map snd]. rewrite IH by exact E. apply perm_swap.
Qed.
Lemma assign_keys A (e : env A) v x : map fst (assign e v x) = map fst e.
Proof. induction e as [|[w z] e IH]; cbn; [reflexivity|]. destruct (w =? v); cbn; congruence. Qed.
Lemma drop_keys_incl A (e : env A) v w : In w (map fst (drop e v)) -> In w (map fst e).
Proof. induction e as [|[u z] e IH]; cbn; [auto|]. destruct (u =? v); cbn; intuition. Qed.
Lemma drop_nodup A (e : env A) v : NoDup (map fst e) -> NoDup (map fst (drop e v)).
Proof.
  induction e as [|[u z] e IH]; cbn; [auto|]. intros H. inversion H; subst. destruct (u =? v); auto.
  cbn. constructor; auto. intros X. now apply drop_keys_incl in X.
Qed.
Lemma lookup_none A (e : env A) v : lookup e v = None <-> ~ In v (map fst e).
Proof.
  induction e as [|[u z] e IH]; cbn; [tauto|]. destruct (Nat.eqb_spec u v) as [->|N].
  - split; [discriminate|tauto].
  - rewrite IH. tauto.
Qed.
Lemma drop_in A (e : env A) v w x : NoDup (map fst e) -> In (w, x) (drop e v) <-> In (w, x) e /\ w <> v.
Proof.
  induction e as [|[u z] e IH]; cbn [drop map fst]; intros N; [cbn; tauto|]. inversion N as [|? ? Hu Hn]; subst.
  destruct (Nat.eqb_spec u v) as [->|Ne].
  - split.
    + intros H. split; [now right|]. intros ->. apply Hu. apply in_map_iff. exists (v, x). auto.
    + intros [[E|H] Hne]; [congruence|exact H].
  - cbn [In]. rewrite IH by exact Hn. split.
    + intros [E|[H1 H2]]; [split; [now left|congruence]|tauto].
    + tauto.
Qed.
Lemma in_snd A (e : env A) x : In x (map snd e) <-> exists v, In (v, x) e.
Proof.
  rewrite in_map_iff. split.
  - intros ([v y] & <- & H). eauto.
  - intros (v & H). exists (v, x). auto.
Qed.
Lemma erel_in_r A B (R : A -> B -> Prop) e f v y : erel R e f -> In (v, y) f -> exists x, In (v, x) e /\ R x y.
Proof.
  induction 1 as [|[w a] [w' b] e f [H1 H2] _ IH]; intros H; [destruct H|]. cbn [fst snd] in *. subst w'.
  destruct H as [E|H].
  - injection E as -> ->. exists a. split; [now left|exact H2].
  - destruct (IH H) as (x & X1 & X2). exists x. split; [now right|exact X2].
Qed.
Lemma erel_in_l A B (R : A -> B -> Prop) e f v x : erel R e f -> In (v, x) e -> exists y, In (v, y) f /\ R x y.
Proof.
  induction 1 as [|[w a] [w' b] e f [H1 H2] _ IH]; intros H; [destruct H|]. cbn [fst snd] in *. subst w'.
  destruct H as [E|H].
  - injection E as -> ->. exists b. split; [now left|exact H2].
  - destruct (IH H) as (y & X1 & X2). exists y. split; [now right|exact X2].
Qed.

Lemma swap_perm A (e : env A) v w x y : lookup e v = Some x -> lookup e w = Some y ->
  Permutation (map snd (assign (assign e v y) w x)) (map snd e).
Proof.
  intros Lx Ly. apply Permutation_sym.
      destruct (Nat.eq_dec v w) as [<-|Ne].
      * assert (X : lookup (assign e v y) v = Some y).
        { clear - Lx. induction e as [|[u z] e IH]; cbn [lookup assign] in *; [discriminate|].
          destruct (Nat.eqb_spec u v); cbn [lookup]; [now destruct (Nat.eqb_spec u v)|].
          destruct (Nat.eqb_spec u v); [contradiction|auto]. }
        assert (Dv : forall (e : env A) z, drop (assign e v z) v = drop e v).
        { clear. induction e as [|[u z] e IH]; intros t; cbn; [reflexivity|].
          destruct (Nat.eqb_spec u v) as [->|Nu]; cbn; [now rewrite Nat.eqb_refl|]. destruct (Nat.eqb_spec u v); [contradiction|]. now rewrite IH. }
        rewrite (assign_perm x X), Dv. apply Permutation_sym. rewrite Lx in Ly. injection Ly as <-.
        apply Permutation_sym, lookup_perm, Lx.
      * clear - Lx Ly Ne. revert Lx Ly. induction e as [|[u z] e IH]; cbn [lookup assign]; [discriminate|].
        destruct (Nat.eqb_spec u v) as [->|Nu].
        -- intros E1. injection E1 as ->. destruct (Nat.eqb_spec v w); [contradiction|]. intros Ly.
           cbn [assign]. destruct (Nat.eqb_spec v w); [contradiction|]. cbn [map snd].
           rewrite (assign_perm x Ly), (lookup_perm Ly). apply perm_swap.
        -- intros Lx. destruct (Nat.eqb_spec u w) as [->|Nw].
           ++ intros E2. injection E2 as ->. cbn [assign]. rewrite Nat.eqb_refl. cbn [map snd].
              rewrite (assign_perm y Lx), (lookup_perm Lx). apply perm_swap.
           ++ intros Ly. cbn [assign]. destruct (Nat.eqb_spec u w); [contradiction|]. cbn [map snd]. constructor. now apply IH.
Qed.

(* --- shared_pointer programs --- *)
Definition srel (s : sptr) (r : option nat) : Prop := s_ptr s = r.
Definition good (st : sstate) (a : astate) : Prop :=
  erel srel (fst st) (fst a) /\ NoDup (map fst (fst a)) /\ inv (snd st) (map snd (fst st)) None None (snd a).

Lemma var_ok e f v : erel srel e f -> defined f v ->
  exists x, lookup e v = Some x /\ var e v = Ret x /\ s_ptr x = aget f v /\ lookup f v = Some (s_ptr x).
Proof.
  intros R D. assert (H := erel_lookup v R). unfold defined, aget, var in *.
  destruct (lookup e v) as [x|]; destruct (lookup f v) as [y|]; try contradiction; try congruence.
  exists x. repeat split; auto. now rewrite H.
Qed.

Lemma aget_defined e v : aget e v <> None -> defined e v.
Proof. unfold aget, defined. destruct (lookup e v); congruence. Qed.

Lemma step_good st a o : good st a -> a_ok a o ->
  exists st', s_step st o = Ret st' /\ good st' (a_step a o).
Proof.
  destruct st as [e h], a as [f ds]. intros (R & N & I). cbn [fst snd] in *.
  assert (Kd : forall v, ~ defined f v -> ~ In v (map fst f)).
  { intros v H. apply lookup_none. unfold defined in H. destruct (lookup f v); [|reflexivity]. exfalso. apply H. discriminate. }
  destruct o as [v d oom|v|v|v w|v w|v w|v oom|v|v|v]; cbn [a_ok s_step a_step fst snd].
  - (* new *)
    intros Hv. apply Kd in Hv.
    destruct (new_obj_inv 0 d I) as (I1 & E1 & _). destruct (new_obj h 0) as [p h1]. cbn [fst snd] in *. subst p.
    assert (Hd : nth_error (ds ++ [d]) (length ds) = Some d) by (rewrite nth_error_snoc, Nat.eqb_refl; reflexivity).
    destruct oom; cbn [s_new].
    + unfold s_new. destruct (del_obj_inv I1 (p := None) eq_refl Hd) as (h2 & E2 & I2 & _). rewrite E2. cbn [bind].
      eexists. split; [reflexivity|]. split; [exact R|]. split; [exact N|exact I2].
    + destruct (@new_handle_inv h1 _ _ _ I1 d) as [I2 _].
      { intros o E. injection E as <-. exact Hd. }
      unfold s_new. destruct (new_ctr h1 1) as [b h2]. cbn [fst snd bind] in *.
      eexists. split; [reflexivity|]. split; [|split].
      * apply erel_cons; [exact R|reflexivity].
      * cbn [map fst]. constructor; auto.
      * cbn [fst snd map]. exact I2.
  - (* null *)
    intros Hv. apply Kd in Hv. unfold s_new.
    destruct (@new_handle_inv h _ None _ I 0) as [I2 _]; [discriminate|].
    destruct (new_ctr h 1) as [b h2]. cbn [fst snd bind] in *.
    eexists. split; [reflexivity|]. split; [|split].
    + apply erel_cons; [exact R|reflexivity].
    + cbn [map fst]. constructor; auto.
    + exact I2.
  - (* default *)
    intros Hv. apply Kd in Hv. eexists. split; [reflexivity|]. split; [|split].
    + apply erel_cons; [exact R|reflexivity].
    + cbn [map fst]. constructor; auto.
    + cbn [fst snd map]. now apply bare_inv.
  - (* copy *)
    intros [Hv Hw]. apply Kd in Hv. destruct (var_ok R Hw) as (y & L & V & P & _). rewrite V. cbn [bind].
    assert (Hin : In y (map snd e)) by (apply (Permutation_in _ (Permutation_sym (lookup_perm L))); now left).
    destruct (copy_inv I Hin) as (h' & E & I' & _). rewrite E. cbn [bind].
    eexists. split; [reflexivity|]. split; [|split].
    + apply erel_cons; [exact R|exact P].
    + cbn [map fst]. constructor; auto.
    + exact I'.
  - (* assign *)
    intros [Hv Hw]. destruct (var_ok R Hv) as (x & Lx & Vx & Px & _). destruct (var_ok R Hw) as (y & Ly & Vy & Py & _).
    rewrite Vx, Vy. cbn [bind].
    assert (I1 := inv_perm (lookup_perm Lx) I).
    assert (Hin : In y (x :: map snd (drop e v))).
    { apply (Permutation_in _ (lookup_perm Lx)). apply (Permutation_in _ (Permutation_sym (lookup_perm Ly))). now left. }
    destruct (assign_inv I1 Hin) as (h' & E & I' & _). rewrite E. cbn [bind].
    eexists. split; [reflexivity|]. split; [|split].
    + apply erel_assign; [exact R|exact Py].
    + cbn [fst]. now rewrite assign_keys.
    + cbn [fst snd]. eapply inv_perm; [|exact I']. apply Permutation_sym, (assign_perm _ Lx).
  - (* swap *)
    intros [Hv Hw]. destruct (var_ok R Hv) as (x & Lx & Vx & Px & Fx). destruct (var_ok R Hw) as (y & Ly & Vy & Py & Fy).
    rewrite Vx, Vy. cbn [bind s_swap].
    eexists. split; [reflexivity|]. split; [|split].
    + cbn [fst]. apply erel_assign; [|exact Px]. apply erel_assign; [exact R|exact Py].
    + cbn [fst]. now rewrite !assign_keys.
    + cbn [fst snd]. eapply inv_perm; [|exact I].
      apply Permutation_sym, swap_perm; assumption.
  - (* reset *)
    destruct oom; intros Hv.
    + assert (Dv := aget_defined Hv). destruct (var_ok R Dv) as (x & Lx & Vx & Px & Fx). rewrite Vx. cbn [bind].
      destruct (new_obj_inv 0 0 I) as (I1 & E1 & _). destruct (new_obj h 0) as [p h1]. cbn [fst snd] in *. subst p.
      assert (Hd : nth_error (ds ++ [0]) (length ds) = Some 0) by (rewrite nth_error_snoc, Nat.eqb_refl; reflexivity).
      assert (I1' := inv_perm (lookup_perm Lx) I1).
      destruct (@reset_oom_inv h1 x (length ds) _ _ I1') as (s' & h' & E & I' & Ps); auto.
      { congruence. }
      rewrite E. cbn [bind]. eexists. split; [reflexivity|].
      assert (Ref : forall ox, s_ptr x = Some ox ->
         existsb (fun t => opt_eqb (s_ptr t) (s_ptr x)) (map snd (drop e v)) = refers_other f v ox).
      { intros ox Eox. rewrite Eox. apply eq_true_iff_eq. unfold refers_other. rewrite !existsb_exists. 
        assert (Ne : NoDup (map fst e)) by (rewrite (erel_keys R); exact N). split.
        - intros (t & Ht & Et). apply in_snd in Ht as (w & Ht). apply drop_in in Ht as [Ht Hw]; auto.
          destruct (erel_in_l R Ht) as (r & Hr & Sr). exists (w, r). split; [exact Hr|].
          unfold srel in Sr. rewrite Sr in Et. rewrite Et. destruct (Nat.eqb_spec w v); [contradiction|reflexivity].
        - intros ([w r] & Hr & B). apply andb_true_iff in B as [B1 B2].
          destruct (Nat.eqb_spec w v) as [|Hw]; [discriminate|].
          destruct (erel_in_r R Hr) as (t & Ht & St). exists t. split; [apply in_snd; exists w; now apply drop_in|].
          unfold srel in St. now rewrite St. }
      rewrite <- Px. destruct (s_ptr x) as [ox|] eqn:Eox; [|congruence].
      rewrite (Ref ox eq_refl) in Ps.
      assert (Same : forall (e : env (option nat)) r, lookup e v = Some r -> assign e v r = e).
      { clear. induction e as [|[u z] e IH]; intros r L; cbn in *; [reflexivity|].
        destruct (u =? v); [congruence|]. now rewrite IH. }
      destruct (refers_other f v ox).
      * split; [|split].
        -- cbn [fst]. rewrite <- (Same f _ Fx). apply erel_assign; [exact R|exact Ps].
        -- exact N.
        -- cbn [fst snd]. eapply inv_perm; [|exact I']. apply Permutation_sym, (assign_perm _ Lx).
      * split; [|split].
        -- cbn [fst]. apply erel_assign; [exact R|exact Ps].
        -- cbn [fst]. now rewrite assign_keys.
        -- cbn [fst snd]. eapply inv_perm; [|exact I']. apply Permutation_sym, (assign_perm _ Lx).
    + destruct (var_ok R Hv) as (x & Lx & Vx & Px & Fx). rewrite Vx. cbn [bind].
      destruct (new_obj_inv 0 0 I) as (I1 & E1 & _). destruct (new_obj h 0) as [p h1]. cbn [fst snd] in *. subst p.
      assert (Hd : nth_error (ds ++ [0]) (length ds) = Some 0) by (rewrite nth_error_snoc, Nat.eqb_refl; reflexivity).
      assert (I1' := inv_perm (lookup_perm Lx) I1).
      destruct (@reset_inv h1 x (Some (length ds)) _ _ I1') as (s' & h' & E & Ps & I' & _).
      { apply (i_pend I1' eq_refl). now left. }
      { intros o E. injection E as <-. exact Hd. }
      rewrite E. cbn [bind]. eexists. split; [reflexivity|]. split; [|split].
      * cbn [fst]. apply erel_assign; [exact R|exact Ps].
      * cbn [fst]. now rewrite assign_keys.
      * cbn [fst snd]. eapply inv_perm; [|exact I']. apply Permutation_sym, (assign_perm _ Lx).
  - (* reset null *)
    intros Hv. destruct (var_ok R Hv) as (x & Lx & Vx & Px & Fx). rewrite Vx. cbn [bind].
    destruct (s_ptr x) as [ox|] eqn:Eox.
    + assert (I1' := inv_perm (lookup_perm Lx) I).
      destruct (@reset_inv h x None _ _ I1') as (s' & h' & E & Ps & I' & _); [congruence|discriminate|].
      rewrite E. cbn [bind]. eexists. split; [reflexivity|]. split; [|split].
      * cbn [fst]. apply erel_assign; [exact R|exact Ps].
      * cbn [fst]. now rewrite assign_keys.
      * cbn [fst snd]. eapply inv_perm; [|exact I']. apply Permutation_sym, (assign_perm _ Lx).
    + unfold s_reset. rewrite Eox. cbn [opt_eqb bind]. eexists. split; [reflexivity|]. split; [|split].
      * cbn [fst]. apply erel_assign; [exact R|exact Eox].
      * cbn [fst]. now rewrite assign_keys.
      * cbn [fst snd]. eapply inv_perm; [|exact I]. rewrite (assign_perm x Lx). apply lookup_perm, Lx.
  - (* reset same *)
    intros Hv. destruct (var_ok R Hv) as (x & Lx & Vx & Px & Fx). rewrite Vx. cbn [bind].
    unfold s_reset. rewrite (proj2 (opt_eqb_spec _ _) eq_refl). cbn [bind]. eexists. split; [reflexivity|].
    assert (Same : assign e v x = e).
    { clear - Lx. induction e as [|[u z] e IH]; cbn in *; [reflexivity|]. destruct (u =? v); [congruence|]. now rewrite IH. }
    rewrite Same. split; [exact R|]. split; [exact N|exact I].
  - (* destroy *)
    intros Hv. destruct (var_ok R Hv) as (x & Lx & Vx & Px & Fx). rewrite Vx. cbn [bind].
    assert (I1' := inv_perm (lookup_perm Lx) I).
    destruct (destroy_inv I1') as (h' & E & I' & _); [discriminate|]. rewrite E. cbn [bind].
    eexists. split; [reflexivity|]. split; [|split].
    + now apply erel_drop.
    + now apply drop_nodup.
    + exact I'.
Qed.

Lemma run_good ops : forall st a, good st a -> a_program a ops ->
  exists st', forM ops s_step st = Ret st' /\ good st' (a_run a ops).
Proof.
  induction ops as [|o ops IH]; intros st a G P; cbn [forM a_run a_program] in *.
  - eauto.
  - destruct P as [P1 P2]. destruct (step_good G P1) as (st1 & E1 & G1). rewrite E1. cbn [bind]. eauto.
Qed.

Lemma nth_error_nil A (i : nat) : nth_error (@nil A) i = None.
Proof. destruct i; reflexivity. Qed.

Lemma good0 : good ([], heap0) ([], []).
Proof.
  split; [constructor|]. split; [constructor|]. cbn [fst snd map]. constructor; cbn; try tauto; try congruence.
  - intros a n H. now rewrite nth_error_nil in H.
  - intros o. split; [intros [x H]; now rewrite nth_error_nil in H|]. intros [H|(s & [] & _)]. discriminate.
  - intros o H. now rewrite nth_error_nil in H.
  - constructor.
Qed.

(* The theorem about shared_pointer programs. *)
Lemma shared_programs ops : a_program ([], []) ops ->
  exists e h, s_run ops = Ret (e, h) /\
  let '(f, ds) := a_run ([], []) ops in
    (forall v, option_map s_ptr (lookup e v) = lookup f v) /\
    (forall o, (exists x, get_obj h o = Ret x) <-> refers f o) /\
    (forall o, In o (map fst (h_log h)) <-> o < length ds /\ ~ refers f o) /\
    NoDup (map fst (h_log h)) /\
    (forall o d, In (o, d) (h_log h) -> nth_error ds o = Some d) /\
    (forall a n, get_ctr h a = Ret n -> exists v s, lookup e v = Some s /\ s_rc s = Some a).
Proof.
  intros P. destruct (run_good good0 P) as ([e h] & E & R & N & I). exists e, h. split; [exact E|].
  destruct (a_run ([], []) ops) as [f ds]. cbn [fst snd] in *.
  assert (Rf : forall o, refers f o <-> exists s, In s (map snd e) /\ s_ptr s = Some o).
  { intros o. unfold refers. split.
    - intros (v & H). destruct (erel_in_r R H) as (s & Hs & S). exists s. split; [|exact S]. apply in_snd. eauto.
    - intros (s & Hs & S). apply in_snd in Hs as (v & Hs). destruct (erel_in_l R Hs) as (r & Hr & Sr).
      unfold srel in Sr. exists v. congruence. }
  assert (Lv : forall o, (exists x, nth_error (h_objs h) o = Some (Some x)) <-> refers f o).
  { intros o. rewrite (i_objs I), Rf. split; [intros [X|X]; [discriminate|exact X]|auto]. }
  split; [|split; [|split; [|split; [|split]]]].
  - intros v. assert (H := erel_lookup v R). destruct (lookup e v), (lookup f v); try contradiction; cbn; auto. now rewrite H.
  - intros o. rewrite <- Lv. unfold get_obj. destruct (nth_error (h_objs h) o) as [[x|]|]; split; intros [y H]; try discriminate; eauto.
  - intros o. rewrite <- Lv. split.
    + intros H. apply in_map_iff in H as ([o' d] & Eo & H). cbn in Eo. subst o'. destruct (i_log I H) as [H1 H2].
      split; [eapply nth_error_lt, H1|]. intros [x H3]. congruence.
    + intros [H1 H2]. rewrite <- (i_len I) in H1. destruct (nth_error (h_objs h) o) as [[x|]|] eqn:Q.
      * exfalso. eauto.
      * now apply (i_gone I).
      * apply nth_error_None in Q. lia.
  - exact (i_once I).
  - intros o d H. apply (i_log I H).
  - intros a n H. unfold get_ctr in H. destruct (nth_error (h_ctrs h) a) as [[m|]|] eqn:Q; try discriminate.
    assert (X := i_ctr I Q). cbn [opt_eqb] in X. destruct X as [X1 X2]. unfold refs in X1.
    destruct (filter (has_rc a) (map snd e)) as [|t l] eqn:F; [cbn in X1; lia|].
    assert (Ht : In t (filter (has_rc a) (map snd e))) by (rewrite F; now left).
    apply filter_In in Ht as [Ht Rc]. apply opt_eqb_spec in Rc. apply in_snd in Ht as (v & Ht).
    exists v, t. split; [|exact Rc].
    assert (Ne : NoDup (map fst e)) by (rewrite (erel_keys R); exact N).
    clear - Ht Ne. induction e as [|[u z] e IH]; [destruct Ht|]. cbn [lookup map fst] in *. inversion Ne; subst.
    destruct Ht as [E|Ht]; [injection E as -> ->; now rewrite Nat.eqb_refl|].
    destruct (Nat.eqb_spec u v) as [->|]; [|auto]. exfalso. apply H1. apply in_map_iff. exists (v, t). auto.
Qed.
