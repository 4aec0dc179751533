(* P_Pointers3.v - programs over cow_pointer variables. *)
From Verif Require Import Base M_Pointers Spec_Pointers P_Pointers P_Pointers2.
Set Implicit Arguments.
Unset Strict Implicit.
Open Scope nat_scope.

(* a cow_pointer is a shared_pointer that is never bare, with the default deletor *)
Definition lift (c : cptr) : sptr := mkS (c_ptr c) 0 (Some (c_rc c)).
Definition liftp (x : cptr * heap) : sptr * heap := (lift (fst x), snd x).

Lemma c_destroy_lift h c : c_destroy h c = s_destroy h (lift c).
Proof. reflexivity. Qed.
Lemma c_copy_lift h c : s_copy h (lift c) = omap liftp (c_copy h c).
Proof. unfold s_copy, c_copy, omap. cbn. destruct (inc_ctr h (c_rc c)); reflexivity. Qed.
Lemma c_assign_lift h x y : s_assign h (lift x) (lift y) = omap liftp (c_assign h x y).
Proof.
  unfold s_assign, c_assign, omap. rewrite c_copy_lift. unfold omap. destruct (c_copy h y) as [[t h1]| | |]; cbn [bind liftp fst snd s_swap]; try reflexivity.
  rewrite c_destroy_lift. destruct (s_destroy h1 (lift x)); reflexivity.
Qed.
Lemma c_reset_lift h c src : s_reset h (lift c) src false = omap liftp (c_reset h c src).
Proof.
  unfold s_reset, c_reset, omap. cbn [lift s_ptr s_rc s_del]. destruct (opt_eqb (c_ptr c) src); [reflexivity|].
  destruct (dec_ctr h (c_rc c)) as [[n h1]| | |]; cbn [bind]; try reflexivity. destruct (n =? 0).
  - destruct (del_obj h1 0 (c_ptr c)); cbn [bind]; try reflexivity. destruct (set_ctr a (c_rc c) 1); reflexivity.
  - destruct (new_ctr h1 0) as [b h2]. destruct (set_ctr h2 b 1); reflexivity.
Qed.
Lemma liftp_inv m s h : omap liftp m = Ret (s, h) -> exists c, m = Ret (c, h) /\ lift c = s.
Proof. destruct m as [[c h1]| | |]; cbn; intros E; try discriminate. injection E as <- <-. eauto. Qed.

(* the value of a handle *)
Definition cval (h : heap) (c : cptr) (r : option nat) : Prop :=
  match c_ptr c with
  | None => r = None
  | Some o => exists x, nth_error (h_objs h) o = Some (Some x) /\ r = Some x
  end.

Definition lifts (e : env cptr) : list sptr := map lift (map snd e).
Definition cgood (st : cstate) (f : vstate) : Prop :=
  erel (cval (snd st)) (fst st) f /\ NoDup (map fst f) /\
  exists n, inv (snd st) (lifts (fst st)) None None (repeat 0 n).

Lemma lifts_perm e e' : Permutation (map snd e) (map snd e') -> Permutation (lifts e) (lifts e').
Proof. apply Permutation_map. Qed.

(* values survive when objects keep theirs and handles' objects stay live *)
Lemma erel_keeps h h' (e : env cptr) f :
  (forall o x, nth_error (h_objs h') o = Some (Some x) -> forall c, In c (map snd e) -> c_ptr c = Some o ->
     nth_error (h_objs h) o = Some (Some x)) ->
  (forall c o, In c (map snd e) -> c_ptr c = Some o -> exists x, nth_error (h_objs h') o = Some (Some x)) ->
  erel (cval h) e f -> erel (cval h') e f.
Proof.
  intros K L R. induction R as [|[v c] [w r] e f [H1 H2] Ht IH]; [constructor|]. constructor.
  - split; [exact H1|]. cbn [snd] in *. unfold cval in *. destruct (c_ptr c) as [o|] eqn:Ec; [|exact H2].
    destruct H2 as (x & Hx & ->). destruct (L c o (or_introl eq_refl) Ec) as [y Hy].
    assert (Z := K o y Hy c (or_introl eq_refl) Ec). exists y. split; [exact Hy|]. congruence.
  - apply IH.
    + intros o x Hx c' Hc'. apply (K o x Hx). now right.
    + intros c' o Hc'. apply L. now right.
Qed.

Lemma inv_live h (e : env cptr) q ds c o p : inv h (lifts e) p q ds -> In c (map snd e) -> c_ptr c = Some o ->
  exists x, nth_error (h_objs h) o = Some (Some x).
Proof. intros I H E. apply (i_objs I). right. exists (lift c). split; [now apply in_map|exact E]. Qed.

Lemma cvar_ok h e f v : erel (cval h) e f -> defined f v ->
  exists c, lookup e v = Some c /\ var e v = Ret c /\ cval h c (aget f v).
Proof.
  intros R D. assert (H := erel_lookup v R). unfold defined, aget, var in *.
  destruct (lookup e v) as [x|]; destruct (lookup f v) as [y|]; try contradiction; try congruence.
  exists x. auto.
Qed.

Lemma lookup_in A (e : env A) v c : lookup e v = Some c -> In c (map snd e).
Proof. intros L. apply (Permutation_in _ (Permutation_sym (lookup_perm L))). now left. Qed.

Lemma lifts_lookup e v c : lookup e v = Some c -> Permutation (lifts e) (lift c :: lifts (drop e v)).
Proof. intros L. apply (Permutation_map lift (lookup_perm L)). Qed.
Lemma lifts_assign e v c c' : lookup e v = Some c -> Permutation (lift c' :: lifts (drop e v)) (lifts (assign e v c')).
Proof. intros L. apply Permutation_sym, (Permutation_map lift (assign_perm c' L)). Qed.

Lemma in_assign (e : env cptr) v c c' x : lookup e v = Some c -> In x (map snd (assign e v c')) -> x = c' \/ In x (map snd (drop e v)).
Proof. intros L H. apply (Permutation_in _ (assign_perm c' L)) in H as [H|H]; auto. Qed.
Lemma in_drop (e : env cptr) v x : In x (map snd (drop e v)) -> In x (map snd e).
Proof. induction e as [|[u z] e IH]; cbn; [auto|]. destruct (u =? v); cbn; intuition. Qed.

(* the other variables keep their values, v gets a new handle *)
Lemma erel_update h h' (e : env cptr) f v c0 c r p q ds :
  erel (cval h) e f -> lookup e v = Some c0 -> NoDup (map fst f) ->
  (forall o x, nth_error (h_objs h') o = Some (Some x) -> forall c', In c' (map snd (drop e v)) -> c_ptr c' = Some o ->
     nth_error (h_objs h) o = Some (Some x)) ->
  inv h' (lifts (assign e v c)) p q ds -> cval h' c r ->
  erel (cval h') (assign e v c) (assign f v r).
Proof.
  intros R L N K I V.
  assert (Rd : erel (cval h') (drop e v) (drop f v)).
  { apply (@erel_keeps h h').
    - exact K.
    - intros c' o Hc' E. apply (i_objs I). right. exists (lift c'). split; [|exact E].
      apply (Permutation_in _ (lifts_assign c L)). right. now apply in_map.
    - now apply erel_drop. }
  clear K I N L c0. revert Rd. induction R as [|[w a] [w' b] e f [H1 H2] Ht IH]; cbn [assign drop]; [constructor|].
  cbn [fst snd] in *. subst w'. destruct (w =? v).
  - intros Rd. constructor; auto.
  - intros Rd. inversion Rd as [|? ? ? ? X Y]; subst. constructor; auto. now apply IH.
Qed.

Lemma cstep_good st f o : cgood st f -> v_ok f o ->
  exists st', c_step st o = Ret st' /\ cgood st' (v_step f o).
Proof.
  destruct st as [e h]. intros (R & N & n & I). cbn [fst snd] in *.
  assert (Kd : forall v, ~ defined f v -> ~ In v (map fst f)).
  { intros v H. apply lookup_none. unfold defined in H. destruct (lookup f v); [|reflexivity]. exfalso. apply H. discriminate. }
  assert (Rz : repeat 0 n ++ [0] = repeat 0 (S n)) by (symmetry; apply repeat_cons).
  destruct o as [v x|v|v w|v w|v w|v x|v|v x|v]; cbn [v_ok c_step v_step].
  - (* new *)
    intros Hv. apply Kd in Hv.
    destruct (new_obj_inv x 0 I) as (I1 & E1 & K1 & Hx & _). rewrite Rz, repeat_length in I1. rewrite repeat_length in *.
    destruct (new_obj h x) as [p h1]. cbn [fst snd] in *. subst p.
    destruct (@new_handle_inv h1 _ _ _ I1 0) as [I2 K2].
    { intros o E. injection E as <-. rewrite <- Rz, nth_error_snoc, repeat_length, Nat.eqb_refl. reflexivity. }
    unfold c_new. destruct (new_ctr h1 1) as [b h2] eqn:Q. cbn [fst snd] in *.
    assert (Ob : h_objs h2 = h_objs h1) by (unfold new_ctr in Q; injection Q as <- <-; reflexivity).
    eexists. split; [reflexivity|]. split; [|split].
    + cbn [fst snd]. apply erel_cons.
      * apply (@erel_keeps h h2); [| |exact R].
        -- intros o y Hy c Hc Ec. destruct (inv_live I Hc Ec) as [z Hz]. rewrite Ob in Hy. rewrite (K1 o z Hz) in Hy. congruence.
        -- intros c o Hc Ec. destruct (inv_live I Hc Ec) as [z Hz]. exists z. rewrite Ob. auto.
      * cbn [cval c_ptr]. exists x. rewrite Ob. auto.
    + cbn [map fst]. constructor; auto.
    + exists (S n). exact I2.
  - (* null *)
    intros Hv. apply Kd in Hv. 
    destruct (@new_handle_inv h _ None _ I 0) as [I2 K2]; [discriminate|].
    unfold c_new. destruct (new_ctr h 1) as [b h2] eqn:Q. cbn [fst snd] in *.
    assert (Ob : h_objs h2 = h_objs h) by (unfold new_ctr in Q; injection Q as <- <-; reflexivity).
    eexists. split; [reflexivity|]. split; [|split].
    + cbn [fst snd]. apply erel_cons; [|reflexivity].
      apply (@erel_keeps h h2); [| |exact R].
      * intros o y Hy. now rewrite Ob in Hy.
      * intros c o Hc Ec. rewrite Ob. apply (inv_live I Hc Ec).
    + cbn [map fst]. constructor; auto.
    + exists n. exact I2.
  - (* copy *)
    intros [Hv Hw]. apply Kd in Hv. destruct (cvar_ok R Hw) as (y & L & V & Cv). rewrite V. cbn [bind].
    assert (Hin := lookup_in L).
    destruct (copy_inv I (in_map lift _ _ Hin)) as (h' & E & I' & K). rewrite c_copy_lift in E.
    apply liftp_inv in E as (c & E & Ec). rewrite E. cbn [bind].
    eexists. split; [reflexivity|].
    assert (Rr : erel (cval h') e f).
    { apply (@erel_keeps h h'); [| |exact R].
      - intros o z Hz _ _ _. now apply K.
      - intros c' o Hc Ec'. apply (i_objs I'). right. exists (lift c'). split; [right; now apply in_map|exact Ec']. }
    split; [|split].
    + cbn [fst snd]. apply erel_cons; [exact Rr|].
      destruct (cvar_ok Rr Hw) as (y' & L' & _ & Cv'). rewrite L in L'. injection L' as <-.
      injection Ec as E1 E2. unfold cval in *. rewrite E1. exact Cv'.
    + cbn [map fst]. constructor; auto.
    + exists n. unfold lifts. cbn [fst snd map]. rewrite Ec. exact I'.
  - (* assign *)
    intros [Hv Hw]. destruct (cvar_ok R Hv) as (x & Lx & Vx & Cx). destruct (cvar_ok R Hw) as (y & Ly & Vy & Cy).
    rewrite Vx, Vy. cbn [bind].
    assert (I1 := inv_perm (lifts_lookup Lx) I).
    assert (Hin : In (lift y) (lift x :: lifts (drop e v))).
    { apply (Permutation_in _ (lifts_lookup Lx)). apply in_map, (lookup_in Ly). }
    destruct (assign_inv I1 Hin) as (h' & E & I' & K). rewrite c_assign_lift in E.
    apply liftp_inv in E as (c & E & Ec). rewrite E. cbn [bind].
    rewrite <- Ec in I'. assert (I2 := inv_perm (lifts_assign c Lx) I').
    eexists. split; [reflexivity|]. split; [|split].
    + cbn [fst snd]. eapply erel_update; [exact R|exact Lx|exact N| |exact I2|].
      * intros o z Hz _ _ _. now apply K.
      * injection Ec as E1 E2. unfold cval in *. rewrite E1. destruct (c_ptr y) as [o|] eqn:Ey; [|exact Cy].
        destruct Cy as (z & Hz & Ez). assert (X : exists z', nth_error (h_objs h') o = Some (Some z')).
        { apply (i_objs I'). right. exists (lift c). split; [now left|]. cbn. congruence. }
        destruct X as (z' & X). exists z'. split; [exact X|]. apply K in X. congruence.
    + cbn [fst]. now rewrite assign_keys.
    + exists n. exact I2.
  - (* swap *)
    intros [Hv Hw]. destruct (cvar_ok R Hv) as (x & Lx & Vx & Cx). destruct (cvar_ok R Hw) as (y & Ly & Vy & Cy).
    rewrite Vx, Vy. cbn [bind]. eexists. split; [reflexivity|]. split; [|split].
    + cbn [fst snd]. apply erel_assign; [|exact Cx]. apply erel_assign; [exact R|exact Cy].
    + now rewrite !assign_keys.
    + exists n. cbn [fst snd]. eapply inv_perm; [|exact I]. apply lifts_perm, Permutation_sym, swap_perm; assumption.
  - (* reset to a new object *)
    intros Hv. destruct (cvar_ok R Hv) as (c & L & V & Cv). rewrite V. cbn [bind].
    destruct (new_obj_inv x 0 I) as (I1 & E1 & K1 & Hx & _). rewrite Rz, repeat_length in I1. rewrite repeat_length in *.
    destruct (new_obj h x) as [p h1]. cbn [fst snd] in *. subst p.
    assert (I1' := inv_perm (lifts_lookup L) I1).
    destruct (@reset_inv h1 (lift c) (Some n) _ _ I1') as (s' & h' & E & Ps & I' & K & _).
    { apply (i_pend I1' eq_refl). now left. }
    { intros o E. injection E as <-. rewrite <- Rz, nth_error_snoc, repeat_length, Nat.eqb_refl. reflexivity. }
    rewrite c_reset_lift in E. apply liftp_inv in E as (c' & E & Ec). rewrite E. cbn [bind].
    rewrite <- Ec in I'. assert (I2 := inv_perm (lifts_assign c' L) I').
    eexists. split; [reflexivity|]. split; [|split].
    + cbn [fst snd]. eapply erel_update; [exact R|exact L|exact N| |exact I2|].
      * intros o z Hz c1 Hc1 Ec1. apply K in Hz. apply in_drop in Hc1. destruct (inv_live I Hc1 Ec1) as [z' Hz'].
        rewrite (K1 o z' Hz') in Hz. congruence.
      * unfold cval. replace (c_ptr c') with (Some n) by (rewrite <- Ps, <- Ec; reflexivity).
        assert (X : exists z', nth_error (h_objs h') n = Some (Some z')).
        { apply (i_objs I'). right. exists (lift c'). split; [now left|]. rewrite Ec. exact Ps. }
        destruct X as (z' & X). exists z'. split; [exact X|]. apply K in X. congruence.
    + now rewrite assign_keys.
    + exists (S n). exact I2.
  - (* reset to null *)
    intros Hv. destruct (cvar_ok R Hv) as (c & L & V & Cv). rewrite V. cbn [bind].
    destruct (c_ptr c) as [o|] eqn:Eo.
    + assert (I1' := inv_perm (lifts_lookup L) I).
      destruct (@reset_inv h (lift c) None _ _ I1') as (s' & h' & E & Ps & I' & K & _); [cbn; congruence|discriminate|].
      rewrite c_reset_lift in E. apply liftp_inv in E as (c' & E & Ec). rewrite E. cbn [bind].
      rewrite <- Ec in I'. assert (I2 := inv_perm (lifts_assign c' L) I').
      eexists. split; [reflexivity|]. split; [|split].
      * cbn [fst snd]. eapply erel_update; [exact R|exact L|exact N| |exact I2|].
        -- intros o' z Hz _ _ _. now apply K.
        -- unfold cval. replace (c_ptr c') with (@None nat) by (rewrite <- Ps, <- Ec; reflexivity). reflexivity.
      * now rewrite assign_keys.
      * exists n. exact I2.
    + unfold c_reset. rewrite Eo. cbn [opt_eqb bind].
      eexists. split; [reflexivity|]. split; [|split].
      * cbn [fst snd]. apply erel_assign; [exact R|]. unfold cval. now rewrite Eo.
      * now rewrite assign_keys.
      * exists n. cbn [fst snd]. eapply inv_perm; [|exact I]. rewrite (lifts_lookup L). exact (lifts_assign c L).
  - (* write *)
    intros Hv. assert (Dv := aget_defined Hv). destruct (cvar_ok R Dv) as (c & L & V & Cv). rewrite V. cbn [bind].
    unfold cval in Cv. destruct (c_ptr c) as [o|] eqn:Eo; [|congruence]. destruct Cv as (y & Hy & Ey).
    assert (I0 := inv_perm (lifts_lookup L) I).
    destruct (i_live I0 (s := lift c) (a := c_rc c) (or_introl eq_refl) eq_refl) as [k Ek].
    assert (Ck := i_ctr I0 Ek). cbn [opt_eqb] in Ck.
    (* after the clone: v's object is its own *)
    assert (Cl : exists c1 h1 o1 m, c_clone h c = Ret (c1, h1) /\ c_ptr c1 = Some o1 /\
       inv h1 (lift c1 :: lifts (drop e v)) None None (repeat 0 m) /\
       refs (c_rc c1) (lift c1 :: lifts (drop e v)) = 1 /\
       (forall o' z, nth_error (h_objs h1) o' = Some (Some z) -> forall c', In c' (map snd (drop e v)) -> c_ptr c' = Some o' ->
          nth_error (h_objs h) o' = Some (Some z))).
    { unfold c_clone, get_ctr. rewrite Ek. cbn [bind]. rewrite Eo.
      destruct (Nat.ltb_spec 1 k) as [B|B].
      - unfold get_obj. rewrite Hy. cbn [bind].
        destruct (new_obj_inv y 0 I) as (I1 & E1 & K1 & Hx & _). rewrite Rz, repeat_length in I1. rewrite repeat_length in *.
        destruct (new_obj h y) as [p h1]. cbn [fst snd] in *. subst p.
        assert (I1' := inv_perm (lifts_lookup L) I1).
        destruct (@reset_inv h1 (lift c) (Some n) _ _ I1') as (s' & h' & E & Ps & I' & K & a & Ra & R1).
        { apply (i_pend I1' eq_refl). now left. }
        { intros o' E. injection E as <-. rewrite <- Rz, nth_error_snoc, repeat_length, Nat.eqb_refl. reflexivity. }
        rewrite c_reset_lift in E. apply liftp_inv in E as (c' & E & Ec). rewrite E. subst s'.
        exists c', h', n, (S n). split; [reflexivity|]. split; [exact Ps|]. split; [exact I'|]. split.
        + cbn [lift s_rc] in Ra. injection Ra as <-. exact R1.
        + intros o' z Hz c1 Hc1 Ec1. apply K in Hz. apply in_drop in Hc1. destruct (inv_live I Hc1 Ec1) as [z' Hz'].
          rewrite (K1 o' z' Hz') in Hz. congruence.
      - exists c, h, o, n. split; [reflexivity|]. split; [exact Eo|]. split; [exact I0|]. split; [lia|]. auto. }
    destruct Cl as (c1 & h1 & o1 & m & E1 & Eo1 & I1 & R1 & K1).
    unfold c_write. rewrite E1. cbn [bind]. rewrite Eo1.
    assert (X : exists z, nth_error (h_objs h1) o1 = Some (Some z)).
    { apply (i_objs I1). right. exists (lift c1). split; [now left|exact Eo1]. }
    destruct X as (z & Hz). assert (Lz := nth_error_lt Hz).
    unfold set_obj, get_obj. rewrite Hz. cbn [bind].
    set (h2 := mkHeap (h_ctrs h1) (upd (h_objs h1) o1 (Some x)) (h_log h1)).
    assert (Own : forall c', In c' (map snd (drop e v)) -> c_ptr c' <> Some o1).
    { intros c' Hc' Ec'.
      assert (Rc := i_obj I1 (s := lift c1) (t := lift c') (o := o1) (or_introl eq_refl) (or_intror (in_map lift _ _ Hc')) Eo1 Ec').
      cbn [lift s_rc] in Rc. rewrite refs_cons in R1. unfold has_rc in R1. cbn [lift s_rc opt_eqb] in R1. rewrite Nat.eqb_refl in R1.
      assert (R0 : refs (c_rc c1) (lifts (drop e v)) = 0) by lia.
      apply (proj1 (refs_zero _ _) R0 (lift c') (in_map lift _ _ Hc')). cbn. congruence. }
    assert (I2 : inv h2 (lift c1 :: lifts (drop e v)) None None (repeat 0 m)).
    { destruct I1. constructor; cbn [h2 h_ctrs h_objs h_log]; auto.
      - now rewrite upd_length.
      - intros o'. rewrite <- i_objs. rewrite nth_error_upd by exact Lz. destruct (Nat.eqb_spec o' o1) as [->|]; [|reflexivity].
        split; eauto.
      - intros o' d' H. destruct (i_log o' d' H) as [H1 H2]. split; auto. rewrite nth_error_upd by exact Lz.
        destruct (Nat.eqb_spec o' o1) as [->|]; [congruence|exact H2].
      - intros o'. rewrite nth_error_upd by exact Lz. destruct (o' =? o1); [discriminate|auto]. }
    assert (I3 := inv_perm (lifts_assign c1 L) I2).
    eexists. split; [reflexivity|]. split; [|split].
    + cbn [fst snd]. eapply erel_update; [exact R|exact L|exact N| |exact I3|].
      * intros o' w Hw c' Hc' Ec'. cbn [h2 h_objs] in Hw. rewrite nth_error_upd in Hw by exact Lz.
        destruct (Nat.eqb_spec o' o1) as [->|]; [exfalso; exact (Own c' Hc' Ec')|]. eauto.
      * unfold cval. rewrite Eo1. exists x. split; [|reflexivity]. cbn [h2 h_objs]. rewrite nth_error_upd by exact Lz.
        now rewrite Nat.eqb_refl.
    + now rewrite assign_keys.
    + exists m. exact I3.
  - (* destroy *)
    intros Hv. destruct (cvar_ok R Hv) as (c & L & V & Cv). rewrite V. cbn [bind].
    assert (I0 := inv_perm (lifts_lookup L) I).
    destruct (destroy_inv I0) as (h' & E & I' & K); [discriminate|]. rewrite c_destroy_lift, E. cbn [bind].
    eexists. split; [reflexivity|]. split; [|split].
    + cbn [fst snd]. apply (@erel_keeps h h'); [| |now apply erel_drop].
      * intros o z Hz _ _ _. now apply K.
      * intros c' o Hc Ec'. apply (inv_live I' Hc Ec').
    + now apply drop_nodup.
    + exists n. exact I'.
Qed.

Lemma crun_good ops : forall st f, cgood st f -> v_program f ops ->
  exists st', forM ops c_step st = Ret st' /\ cgood st' (v_run f ops).
Proof.
  induction ops as [|o ops IH]; intros st f G P; cbn [forM v_run v_program] in *.
  - eauto.
  - destruct P as [P1 P2]. destruct (cstep_good G P1) as (st1 & E1 & G1). rewrite E1. cbn [bind]. eauto.
Qed.

Lemma cow_programs ops : v_program [] ops ->
  exists e h, c_run ops = Ret (e, h) /\
    (forall v, match lookup e v with
               | None => lookup (v_run [] ops) v = None
               | Some c => lookup (v_run [] ops) v = Some (match c_read h c with Ret x => Some x | _ => None end) /\
                           (c_read h c = UB -> c_ptr c = None)
               end) /\
    NoDup (map fst (h_log h)) /\
    (forall o, (exists x, get_obj h o = Ret x) <-> exists v c, In (v, c) e /\ c_ptr c = Some o) /\
    (forall o, o < length (h_objs h) -> In o (map fst (h_log h)) <-> ~ exists v c, In (v, c) e /\ c_ptr c = Some o).
Proof.
  intros P. destruct (@crun_good ops ([], heap0) []) as ([e h] & E & R & N & n & I); [|exact P|].
  { split; [constructor|]. split; [constructor|]. exists 0. apply good0. }
  cbn [fst snd] in *. exists e, h. split; [exact E|].
  assert (Lv : forall o, (exists x, nth_error (h_objs h) o = Some (Some x)) <-> exists v c, In (v, c) e /\ c_ptr c = Some o).
  { intros o. rewrite (i_objs I). split.
    - intros [X|(s & Hs & Es)]; [discriminate|]. unfold lifts in Hs. apply in_map_iff in Hs as (c & <- & Hc).
      apply in_snd in Hc as (v & Hc). exists v, c. auto.
    - intros (v & c & H & Ec). right. exists (lift c). split; [|exact Ec]. apply in_map, in_snd. eauto. }
  split; [|split; [|split]].
  - intros v. assert (H := erel_lookup v R). destruct (lookup e v) as [c|], (lookup (v_run [] ops) v) as [r|]; try contradiction; auto.
    unfold c_read, cval in *. destruct (c_ptr c) as [o|]; [|subst r; auto].
    destruct H as (x & Hx & ->). unfold get_obj. rewrite Hx. split; [reflexivity|discriminate].
  - exact (i_once I).
  - intros o. rewrite <- Lv. unfold get_obj. destruct (nth_error (h_objs h) o) as [[x|]|]; split; intros [y H]; try discriminate; eauto.
  - intros o Ho. rewrite <- Lv. split.
    + intros H. apply in_map_iff in H as ([o' d] & Eo & H). cbn in Eo. subst o'. destruct (i_log I H) as [H1 H2].
      intros [x H3]. congruence.
    + intros H2. destruct (nth_error (h_objs h) o) as [[x|]|] eqn:Q.
      * exfalso. eauto.
      * now apply (i_gone I).
      * apply nth_error_None in Q. lia.
Qed.
