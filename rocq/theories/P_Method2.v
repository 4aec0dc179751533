(* P_Method2.v - lead heads, and the path of one bell. *)
From Verif Require Import Base M_Bell M_Change M_Math M_Row M_PN M_Method Spec_Row Spec_Change Spec_Cycle Spec_PN Spec_Method
  P_Math P_Row P_Bell P_Change P_Change2 P_Change3 P_Cycle P_Order P_PN P_Format P_Method.
Set Implicit Arguments.
Unset Strict Implicit.
Open Scope nat_scope.

Section M.
Variable m : method.
Hypothesis WF : wf_method m.
Let L := mch m.
Let n := length L.
Let nb := mb m.

Lemma nb_le : nb <= 255. Proof. apply WF. Qed.
Lemma bell_mul_c i c x : nth_error L i = Some c -> bell_mul x c = swap_pos (cswaps c) x.
Proof. intros E. destruct (m_change WF E) as [Hc W]. apply bell_mul_spec; auto. destruct WF. lia. Qed.

Lemma path_S x k : path L x (S k) = match nth_error L (k mod n) with Some c => swap_pos (cswaps c) (path L x k) | None => path L x k end.
Proof. reflexivity. Qed.
Lemma path_lt x k : x < nb -> path L x k < nb.
Proof.
  intros H. induction k as [|k IH]; [exact H|]. rewrite path_S. destruct (nth_error L (k mod n)) as [c|] eqn:E; [|exact IH].
  destruct (m_change WF E) as [Hc W]. fold nb in Hc. rewrite <- Hc in *. now apply (swap_pos_lt W).
Qed.
Lemma path_add x k : 0 < n -> path L x (n + k) = path L (path L x n) k.
Proof.
  intros N. induction k as [|k IH]; [now rewrite Nat.add_0_r|]. rewrite Nat.add_succ_r, !path_S.
  replace ((n + k) mod n) with (k mod n); [now rewrite IH|]. rewrite <- (Nat.mod_add k 1 n) by lia. f_equal. lia.
Qed.
(* a change undoes itself *)
Lemma path_back x k c : nth_error L (k mod n) = Some c -> swap_pos (cswaps c) (path L x (S k)) = path L x k.
Proof. intros E. rewrite path_S, E. destruct (m_change WF E) as [_ W]. apply (swap_pos_invol _ W). Qed.
Lemma path_inj x y k : path L x k = path L y k -> x = y.
Proof.
  induction k as [|k IH]; [auto|]. rewrite !path_S. destruct (nth_error L (k mod n)) as [c|] eqn:E; [|exact IH].
  intros H. apply IH. destruct (m_change WF E) as [_ W]. now apply (swap_pos_inj W) in H.
Qed.

(* the rows of a lead *)
Lemma lead_rows k : k <= n -> exists r, forM (firstn k L) row_mul_change (rounds nb) = Ret r /\ row256 r /\ length r = nb /\
  forall x, x < nb -> act r (path L x k) = x.
Proof.
  assert (Hb := nb_le). induction k as [|k IH]; intros Hk.
  - exists (rounds nb). split; [reflexivity|]. split; [apply rounds_row256; lia|]. rewrite rounds_id by lia. split; [apply id_length|].
    intros x _. apply act_id.
  - destruct (IH ltac:(lia)) as (r & E & R & Lr & A). destruct (@nth_error_some _ L k) as (c & Ec); [fold n; lia|].
    assert (Ef : firstn (S k) L = firstn k L ++ [c]).
    { clear -Ec. revert k Ec. induction L as [|y l IHl]; intros [|k] Ec; try discriminate; cbn in *; [now injection Ec as ->|]. now rewrite (IHl k). }
    destruct (m_change WF Ec) as [Hc W]. fold nb in Hc. destruct (@row_mul_change_spec r c R W ltac:(lia)) as (r' & E' & R' & L' & A').
    exists r'. rewrite Ef, forM_app, E. cbn [bind forM]. rewrite E'. cbn [bind]. split; [reflexivity|]. split; [exact R'|]. split; [rewrite L', Lr, Hc; apply Nat.max_id|].
    intros x Hx. rewrite A'. rewrite path_S. rewrite Nat.mod_small by lia. rewrite Ec. rewrite (swap_pos_invol _ W). now apply A.
Qed.
Lemma lh_spec : exists r, lh m = Ret r /\ row256 r /\ length r = nb /\ forall x, x < nb -> act r (path L x n) = x.
Proof. destruct (@lead_rows n (le_n _)) as (r & E & H). exists r. split; [|exact H]. unfold lh. fold L nb. rewrite <- E. unfold n. now rewrite firstn_all. Qed.

Lemma lh_fixed r x : lh m = Ret r -> x < nb -> act r x = x <-> path L x n = x.
Proof.
  intros E Hx. destruct lh_spec as (r' & E' & R & Lr & A). rewrite E in E'. injection E' as <-. split; intros H.
  - apply (act_inj (proj1 R)). now rewrite A by exact Hx.
  - rewrite <- H at 1. now apply A.
Qed.

Lemma huntbells_spec : huntbells m = Ret (length (filter (fun x => path L x n =? x) (seq 0 nb))).
Proof.
  unfold huntbells. destruct lh_spec as (r & E & R & Lr & A). rewrite E. cbn [bind]. fold nb. unfold forN. rewrite Nat.sub_0_r.
  assert (X : forall l k, (forall x, In x l -> x < nb) -> forM l (fun n i => x <- vget r i ;; Ret (if x =? i then S n else n)) k =
     Ret (k + length (filter (fun x => path L x n =? x) l))).
  { induction l as [|x l IH]; intros k Hl; [cbn; now rewrite Nat.add_0_r|]. cbn [forM filter].
    assert (Hx : x < nb) by (apply Hl; now left). rewrite (@vget_lt _ r x 0) by lia. cbn [bind].
    rewrite <- (@act_nth r x 0) by lia. rewrite IH by (intros; apply Hl; now right).
    destruct (Nat.eqb_spec (act r x) x) as [F|F]; destruct (Nat.eqb_spec (path L x n) x) as [G|G]; cbn [length]; try (f_equal; lia).
    - exfalso. apply G. now apply (lh_fixed E Hx).
    - exfalso. apply F. now apply (lh_fixed E Hx). }
  rewrite X by (intros x Hx; apply in_seq in Hx; lia). reflexivity.
Qed.

(* k leads *)
Lemma leads_rounds r k : lh m = Ret r -> 0 < n -> (forall i, act_pow r k i = i) <-> forall x, x < nb -> path L x (k * n) = x.
Proof.
  intros E N. destruct lh_spec as (r' & E' & R & Lr & A). rewrite E in E'. injection E' as <-.
  assert (Y : forall k x, x < nb -> path L x (S k * n) = path L (path L x (k * n)) n).
  { intros j x Hx. clear k. revert x Hx. induction j as [|j IH]; intros x Hx; [cbn; now rewrite Nat.add_0_r|].
    replace (S (S j) * n) with (n + S j * n) by lia. rewrite path_add by exact N. rewrite IH by (now apply path_lt).
    replace (S j * n) with (n + j * n) by lia. now rewrite (path_add x) by exact N. }
  assert (X : forall j x, x < nb -> act_pow r j (path L x (j * n)) = x).
  { induction j as [|j IH]; intros x Hx; [reflexivity|]. rewrite act_pow_S_r, Y by exact Hx. rewrite A by (now apply path_lt). now apply IH. }
  split.
  - intros H x Hx. rewrite <- (H (path L x (k * n))). now apply X.
  - intros H i. destruct (lt_dec i nb) as [Hi|Hi]; [|apply act_pow_ge; lia]. rewrite <- (H i Hi) at 1. now apply X.
Qed.

(* ---- the path of one bell ---- *)
Lemma trace_spec k j x : 0 < n -> trace k m (Z.of_nat j) (path L x j) = Ret (path L x (j + k)).
Proof.
  intros N. revert j. induction k as [|k IH]; intros j; [cbn; now rewrite Nat.add_0_r|]. cbn [trace]. unfold mlen. fold L n.
  rewrite rem_nat, mget_nat. fold L. destruct (@nth_error_some _ L (j mod n)) as (c & Ec); [apply Nat.mod_upper_bound; lia|].
  rewrite (vget_some Ec). cbn [bind]. rewrite (bell_mul_c _ Ec). replace (Z.of_nat j + 1)%Z with (Z.of_nat (S j)) by lia.
  assert (E : swap_pos (cswaps c) (path L x j) = path L x (S j)) by (rewrite path_S, Ec; reflexivity). rewrite E, IH. do 2 f_equal. lia.
Qed.

Section Hunt.
Variable x : nat.
Hypothesis HB : path L x n = x.
Hypothesis EV : Nat.even n = true.
Hypothesis NZ : 0 < n.
Variable i : nat.
Hypothesis Hi : i < n / 2.

Lemma path_period k : path L x (n + k) = path L x k.
Proof. rewrite path_add by exact NZ. now rewrite HB. Qed.

Lemma refl_half : path_reflects_about L x i <-> forall k, k < n / 2 -> path L x (i + 1 + k) = path L x (i + n - k).
Proof.
  assert (E := even_half EV). unfold path_reflects_about. fold n. split; [intros H k Hk; apply H; lia|].
  intros H k Hk. destruct (lt_dec k (n / 2)) as [|G]; [auto|]. specialize (H (n - 1 - k) ltac:(lia)).
  replace (i + 1 + (n - 1 - k)) with (i + n - k) in H by lia. replace (i + n - (n - 1 - k)) with (i + 1 + k) in H by lia. auto.
Qed.

Lemma pal_bell_loop_spec k j : 1 <= j -> j + k = n / 2 -> path L x (i + j) = path L x (i + n - j + 1) ->
  exists o, pal_bell_loop k m (Z.of_nat i) (Z.of_nat j) (path L x (i + j)) = Ret o /\
    (forall b, o = Some b -> b = path L x (i + n / 2)) /\
    (o <> None <-> forall t, j <= t < n / 2 -> path L x (i + 1 + t) = path L x (i + n - t)).
Proof.
  assert (E := even_half EV). revert j. induction k as [|k IH]; intros j Hj Hk Hp; cbn [pal_bell_loop].
  - eexists. split; [reflexivity|]. split; [intros b [= <-]; do 2 f_equal; lia|]. split; [intros _ t Ht; lia|discriminate].
  - unfold mlen. fold L n. replace (Z.of_nat i + Z.of_nat j)%Z with (Z.of_nat (i + j)) by lia.
    replace (Z.of_nat i - Z.of_nat j + Z.of_nat n)%Z with (Z.of_nat (i + n - j)) by lia. rewrite !rem_nat, !mget_nat. fold L.
    destruct (@nth_error_some _ L ((i + j) mod n)) as (c1 & E1); [apply Nat.mod_upper_bound; lia|].
    destruct (@nth_error_some _ L ((i + n - j) mod n)) as (c2 & E2); [apply Nat.mod_upper_bound; lia|].
    rewrite (vget_some E1), (vget_some E2). cbn [bind]. rewrite (bell_mul_c _ E1), (bell_mul_c _ E2).
    assert (P1 : swap_pos (cswaps c1) (path L x (i + j)) = path L x (i + 1 + j)).
    { replace (i + 1 + j) with (S (i + j)) by lia. rewrite path_S, E1. reflexivity. }
    assert (P2 : swap_pos (cswaps c2) (path L x (i + j)) = path L x (i + n - j)).
    { rewrite Hp. replace (i + n - j + 1) with (S (i + n - j)) by lia. now apply path_back. }
    rewrite P1, P2. destruct (Nat.eqb_spec (path L x (i + 1 + j)) (path L x (i + n - j))) as [Q|Q].
    + replace (Z.of_nat j + 1)%Z with (Z.of_nat (S j)) by lia. replace (i + 1 + j) with (i + S j) by lia.
      destruct (IH (S j)) as (o & Eo & Ho & Hr); [lia|lia| |].
      { replace (i + S j) with (i + 1 + j) by lia. rewrite Q. f_equal. lia. }
      exists o. split; [exact Eo|]. split; [exact Ho|]. rewrite Hr. split.
      * intros H t Ht. destruct (Nat.eq_dec t j) as [->|]; [exact Q|]. apply H. lia.
      * intros H t Ht. apply H. lia.
    + exists None. split; [reflexivity|]. split; [discriminate|]. split; [intros X; now destruct X|].
      intros H. exfalso. apply Q. apply H. lia.
Qed.

Lemma pal_bell_spec : exists b, is_palindromic_about_bell m x (Z.of_nat i) = Ret b /\ (b = true <-> path_reflects_about L x i).
Proof.
  assert (E := even_half EV). unfold is_palindromic_about_bell, mlen. fold L n.
  destruct (Z.eqb_spec (Z.of_nat n) 0) as [|_]; [lia|]. replace (Z.of_nat i + 1)%Z with (Z.of_nat (i + 1)) by lia.
  rewrite rem_nat, Nat2Z.id, Nat.mod_small by lia.
  change 0%Z with (Z.of_nat 0). change x with (path L x 0) at 1. rewrite trace_spec by exact NZ. cbn [Nat.add bind].
  rewrite mget_nat. fold L. destruct (@nth_error_some _ L i) as (c & Ec); [fold n; lia|]. rewrite (vget_some Ec). cbn [bind].
  rewrite (bell_mul_c _ Ec).
  assert (Ec' : nth_error L (i mod n) = Some c) by (rewrite Nat.mod_small by lia; exact Ec).
  replace (i + 1) with (S i) by lia. rewrite (path_back x Ec').
  match goal with |- exists b, ?X = _ /\ _ => cut (exists b, X = Ret b /\ (b = true <-> forall k, k < n / 2 -> path L x (i + 1 + k) = path L x (i + n - k))); [intros (b0 & Z1 & Z2); exists b0; split; [exact Z1|]; rewrite Z2; symmetry; apply refl_half|] end.
  destruct (Nat.eqb_spec (path L x i) (path L x (S i))) as [Q|Q]; cbn [negb].
  2:{ exists false. split; [reflexivity|]. split; [discriminate|]. intros H. exfalso. apply Q. specialize (H 0 ltac:(lia)).
      replace (i + n - 0) with (n + i) in H by lia. rewrite path_period in H. rewrite <- H. f_equal. lia. }
  rewrite half_up_nat. unfold hu. rewrite EV. replace (Z.to_nat (Z.of_nat (n / 2) - 1)) with (n / 2 - 1) by lia.
  change 1%Z with (Z.of_nat 1). replace (S i) with (i + 1) by lia.
  assert (Q' : path L x (i + 1) = path L x (i + n - 1 + 1)).
  { replace (i + n - 1 + 1) with (n + i) by lia. rewrite path_period. replace (i + 1) with (S i) by lia. auto. }
  destruct (@pal_bell_loop_spec (n / 2 - 1) 1) as (o & Eo & Ho & Hr); [lia|lia|exact Q'|]. rewrite Eo. cbn [bind]. destruct o as [b|].
  - replace (Z.of_nat i + Z.of_nat (n / 2))%Z with (Z.of_nat (i + n / 2)) by lia. rewrite mget_nat. fold L.
    destruct (@nth_error_some _ L (i + n / 2)) as (d & Ed); [fold n; lia|]. rewrite (vget_some Ed). cbn [bind]. rewrite (bell_mul_c _ Ed).
    rewrite (Ho b eq_refl). eexists. split; [reflexivity|]. rewrite Nat.eqb_eq.
    assert (P : swap_pos (cswaps d) (path L x (i + n / 2)) = path L x (S (i + n / 2))) by (rewrite path_S, Nat.mod_small, Ed by lia; reflexivity).
    rewrite P. assert (R := proj1 Hr ltac:(discriminate)). split.
    + intros _ k Hk. destruct k as [|k]; [|apply R; lia]. replace (i + 1 + 0) with (i + 1) by lia. rewrite Q'. f_equal. lia.
    + intros H. specialize (H (n / 2 - 1) ltac:(lia)). replace (i + 1 + (n / 2 - 1)) with (i + n / 2) in H by lia. rewrite H. f_equal. lia.
  - exists false. split; [reflexivity|]. split; [discriminate|]. intros H. exfalso. apply (proj2 Hr); [|reflexivity]. intros t Ht. apply H. lia.
Qed.
End Hunt.

Lemma issym_bell_spec x : path L x n = x -> 0 < n -> exists b, issym_bell m x = Ret b /\
  (b = true <-> Nat.even n = true /\ path_reflects_about L x (n / 2 - 1)).
Proof.
  intros HB NZ. unfold issym_bell, mlen. fold L n. rewrite odd_nat, <- Nat.negb_even. destruct (Nat.even n) eqn:E; cbn [negb].
  - rewrite quot2_nat. assert (E' := even_half E). replace (Z.of_nat (n / 2) - 1)%Z with (Z.of_nat (n / 2 - 1)) by lia.
    destruct (@pal_bell_spec x HB E NZ (n / 2 - 1) ltac:(lia)) as (b & Eb & H). exists b. split; [exact Eb|]. rewrite H. tauto.
  - exists false. split; [reflexivity|]. split; [discriminate|tauto].
Qed.
Lemma symmetry_point_bell_spec x : path L x n = x ->
  (Nat.even n = false /\ symmetry_point_bell m x = Throw AssertFailed) \/
  (Nat.even n = true /\ ((exists p, symmetry_point_bell m x = Ret (Z.of_nat p) /\ least_below (n / 2) (path_reflects_about L x) p) \/
     (symmetry_point_bell m x = Ret (-1)%Z /\ forall p, p < n / 2 -> ~ path_reflects_about L x p))).
Proof.
  intros HB. unfold symmetry_point_bell, mlen. fold L n. rewrite (rem2_even m : (Z.rem (Z.of_nat n) 2 =? 0)%Z = _). destruct (Nat.even n) eqn:E; fold L n; rewrite E; cbn [negb]; [right|left; auto].
  split; [reflexivity|]. rewrite quot2_nat, Nat2Z.id. assert (E' := even_half E).
  destruct (@first_point_spec m (path_reflects_about L x) (is_palindromic_about_bell m x) (n / 2) 0) as [(q & Eq & Hq & Pq & Hl)|(Eq & Hl)].
  - intros q Hq. apply pal_bell_spec; auto; lia.
  - left. exists q. split; [exact Eq|]. split; [lia|]. split; [exact Pq|]. intros t Ht. apply Hl. lia.
  - right. split; [exact Eq|]. intros p Hp. apply Hl. lia.
Qed.

(* ---- dodges and places ---- *)
Lemma hasdodges_spec x : x < nb -> 0 < n -> exists b, hasdodges m x = Ret b /\
  (b = true <-> exists k, 1 <= k <= n /\ path L x (k + 1) = path L x (k - 1) /\ path L x (k + 1) <> path L x k).
Proof.
  intros Hx NZ. assert (Hb := nb_le).
  assert (X : forall k i j1, i + k = S n -> (1 <= i -> j1 = path L x (i - 1)) -> (i = 0 -> j1 = 255) -> exists b, hasdodges_loop k m (Z.of_nat i) (path L x i) j1 = Ret b /\
    (b = true <-> exists t, i <= t <= n /\ 1 <= t /\ path L x (t + 1) = path L x (t - 1) /\ path L x (t + 1) <> path L x t)).
  { induction k as [|k IH]; intros i j1 Hk H1 H0; cbn [hasdodges_loop].
    - exists false. split; [reflexivity|]. split; [discriminate|]. intros (t & Ht & _). lia.
    - unfold mlen. fold L n. destruct (Z.eqb_spec (Z.of_nat n) 0) as [|_]; [lia|]. rewrite rem_nat, mget_nat. fold L.
      destruct (@nth_error_some _ L (i mod n)) as (c & Ec); [apply Nat.mod_upper_bound; lia|]. rewrite (vget_some Ec). cbn [bind].
      rewrite (bell_mul_c _ Ec). assert (P : swap_pos (cswaps c) (path L x i) = path L x (S i)) by (rewrite path_S, Ec; reflexivity). rewrite P.
      destruct ((path L x (S i) =? j1) && negb (path L x (S i) =? path L x i)) eqn:B.
      + apply andb_true_iff in B as [B1 B2]. apply Nat.eqb_eq in B1. apply negb_true_iff, Nat.eqb_neq in B2.
        exists true. split; [reflexivity|]. split; [|reflexivity]. intros _. destruct (Nat.eq_dec i 0) as [->|Ni].
        * rewrite (H0 eq_refl) in B1. generalize (@path_lt x 1 Hx). lia.
        * exists i. split; [lia|]. split; [lia|]. replace (i + 1) with (S i) by lia. rewrite B1 at 1. split; [apply H1; lia|exact B2].
      + replace (Z.of_nat i + 1)%Z with (Z.of_nat (S i)) by lia. destruct (IH (S i) (path L x i)) as (b & Eb & Hr); [lia| |lia|].
        { intros _. f_equal. lia. }
        exists b. split; [exact Eb|]. rewrite Hr. split.
        * intros (t & Ht & H). exists t. split; [lia|exact H].
        * intros (t & Ht & H2 & H3 & H4). exists t. destruct (Nat.eq_dec t i) as [->|]; [|repeat split; auto; lia].
          exfalso. replace (i + 1) with (S i) in * by lia. rewrite H1 in B by lia. rewrite (proj2 (Nat.eqb_eq _ _) H3) in B. apply Nat.eqb_neq in H4. rewrite H4 in B. discriminate B. }
  unfold hasdodges. fold L n. change 0%Z with (Z.of_nat 0). change x with (path L x 0) at 1.
  destruct (X (S n) 0 255) as (b & Eb & Hr); [lia|lia|auto|]. exists b. split; [exact Eb|]. rewrite Hr. split.
  - intros (t & H1 & H2 & H3). exists t. split; [lia|exact H3].
  - intros (t & H1 & H3). exists t. split; [lia|]. split; [lia|exact H3].
Qed.

Lemma path_step l t : forall k, skipn k L = l -> k < n -> l = t -> exists c rest, t = c :: rest /\ nth_error L k = Some c /\ skipn (S k) L = rest.
Proof.
  intros k E Hk ->. destruct (@nth_error_some _ L k Hk) as (c & Ec). exists c, (skipn (S k) L). split; [|auto]. rewrite <- E. clear -Ec.
  revert k Ec. induction L as [|y l IHl]; intros [|k] Ec; try discriminate; cbn in *; [now injection Ec as ->|]. now apply IHl.
Qed.

Lemma hasplaces_spec x : hasplaces m x = true <-> exists k, k < n /\ path L x (k + 1) = path L x k /\ 0 < path L x k /\ path L x k + 1 < nb.
Proof.
  assert (X : forall l k, skipn k L = l -> k <= n -> hasplaces_loop l nb (path L x k) = true <->
    exists t, k <= t < n /\ path L x (t + 1) = path L x t /\ 0 < path L x t /\ path L x t + 1 < nb).
  { induction l as [|c l IH]; intros k E Hk; cbn [hasplaces_loop].
    - assert (Z := f_equal (@length _) E). rewrite skipn_length in Z. fold n in Z. cbn in Z. split; [discriminate|]. intros (t & Ht & _). lia.
    - assert (Hk' : k < n) by (assert (Z := f_equal (@length _) E); rewrite skipn_length in Z; fold n in Z; cbn in Z; lia).
      destruct (@path_step _ (c :: l) k E Hk' eq_refl) as (c' & rest & [= <- <-] & Ec & Es). rewrite (bell_mul_c _ Ec).
      assert (P : swap_pos (cswaps c) (path L x k) = path L x (S k)) by (rewrite path_S, Nat.mod_small, Ec by lia; reflexivity). rewrite P.
      destruct ((path L x (S k) =? path L x k) && (0 <? path L x (S k)) && (path L x (S k) + 1 <? nb)) eqn:B.
      + rewrite !andb_true_iff, Nat.eqb_eq, !Nat.ltb_lt in B. destruct B as [[B1 B2] B3]. split; [|reflexivity]. intros _. exists k.
        replace (k + 1) with (S k) by lia. rewrite <- B1. repeat split; auto; lia.
      + rewrite (IH (S k) Es) by lia. split.
        * intros (t & Ht & H). exists t. split; [lia|exact H].
        * intros (t & Ht & H1 & H2 & H3). exists t. destruct (Nat.eq_dec t k) as [->|]; [|repeat split; auto; lia].
          exfalso. replace (k + 1) with (S k) in H1 by lia. rewrite H1 in B. rewrite Nat.eqb_refl in B. apply Nat.ltb_lt in H2. apply Nat.ltb_lt in H3. rewrite H2, H3 in B. discriminate B. }
  unfold hasplaces. fold L nb. change x with (path L x 0) at 1. rewrite (X L 0 eq_refl) by lia. split; intros (t & Ht & H); exists t; (split; [lia|exact H]).
Qed.

(* ---- plain hunting ---- *)
Definition places_before (x k : nat) : nat := length (filter (fun t => path L x (t + 1) =? path L x t) (seq 0 k)).
Lemma places_before_S x k : places_before x (S k) = places_before x k + (if path L x (k + 1) =? path L x k then 1 else 0).
Proof. unfold places_before. rewrite seq_S, filter_app, app_length. cbn [Nat.add filter]. destruct (_ =? _); reflexivity. Qed.

(* it never turns round without making a place *)
Definition keeps_on (x k : nat) : Prop :=
  path L x (k + 1) = path L x k \/
  path L x (k + 1) = (if Nat.even (x + places_before x k) then path L x k + 1 else path L x k - 1) /\ path L x (k + 1) <> path L x k.

Lemma isplain_spec x : x < nb -> isplain m x = true <->
  path L x n = x /\ places_before x n = 2 /\ forall k, k < n -> keeps_on x k.
Proof.
  intros Hx. assert (Hb := nb_le).
  assert (X : forall l k, skipn k L = l -> k <= n -> (forall t, t < k -> keeps_on x t) ->
    isplain_loop l x (Z.of_nat (path L x k)) (if Nat.odd (x + places_before x k) then 1 else 0)%Z (places_before x k) = true <->
    path L x n = x /\ places_before x n = 2 /\ forall k, k < n -> keeps_on x k).
  { induction l as [|c l IH]; intros k E Hk HK; cbn [isplain_loop].
    - assert (Z := f_equal (@length _) E). rewrite skipn_length in Z. fold n in Z. cbn in Z. assert (k = n) by lia. subst k.
      rewrite andb_true_iff, Z.eqb_eq, Nat.eqb_eq. split; [intros [H1 H2]; repeat split; auto; lia|]. intros (H1 & H2 & _). split; [lia|exact H2].
    - assert (Hk' : k < n) by (assert (Z := f_equal (@length _) E); rewrite skipn_length in Z; fold n in Z; cbn in Z; lia).
      destruct (@path_step _ (c :: l) k E Hk' eq_refl) as (c' & rest & [= <- <-] & Ec & Es).
      assert (P : path L x (k + 1) = swap_pos (cswaps c) (path L x k)) by (replace (k + 1) with (S k) by lia; rewrite path_S, Nat.mod_small, Ec by lia; reflexivity).
      destruct (m_change WF Ec) as [Hc W]. fold nb in Hc. assert (Hp := @path_lt x k Hx). set (j := path L x k) in *.
      assert (FS : forall z, findswap c z = true <-> In z (cswaps c)) by (intros z; now apply findswap_spec).
      assert (SW : forall z, In z (cswaps c) -> z + 2 <= nb) by (intros z Hz; apply (pairs_ok_in W) in Hz; lia).
      set (d := places_before x k) in *.
      assert (DIR : exists dir, (if Nat.odd (x + d) then 1 else 0)%Z = dir /\ (dir = 0 /\ Nat.even (x + d) = true \/ dir = 1 /\ Nat.even (x + d) = false)%Z).
      { rewrite <- Nat.negb_even. destruct (Nat.even (x + d)); cbn [negb]; eexists; split; try reflexivity; auto. }
      destruct DIR as (dir & -> & Hd).
      (* the two swaps *)
      assert (UP : findswap c j = true -> path L x (k + 1) = j + 1) by (intros H; rewrite P; apply swap_pos_in; now apply FS).
      assert (DN : 1 <= j -> findswap c (j - 1) = true -> path L x (k + 1) = j - 1).
      { intros H1 H. rewrite P. apply FS in H. replace j with (j - 1 + 1) at 1 by lia. now apply (@swap_pos_in2 _ _ 0 (cn c) W). }
      assert (PL : findswap c j = false -> (j = 0 \/ findswap c (j - 1) = false) -> path L x (k + 1) = j).
      { intros H1 H2. rewrite P. apply swap_pos_out; [intros X; apply FS in X; congruence|]. destruct H2 as [|H2]; [auto|right]. intros X. apply FS in X. congruence. }
      assert (F255 : findswap c 255 = false) by (destruct (findswap c 255) eqn:F; auto; apply FS, SW in F; lia).
      assert (Z0 : zb8 (Z.of_nat j) = j) by (unfold zb8; rewrite Z.mod_small by lia; lia).
      assert (Z1 : 1 <= j -> zb8 (Z.of_nat j - 1) = j - 1) by (intros; unfold zb8; rewrite Z.mod_small by lia; lia).
      assert (Z2 : j = 0 -> zb8 (Z.of_nat j - 1) = 255) by (intros ->; reflexivity).
      assert (NX : keeps_on x k -> (forall t, t < S k -> keeps_on x t)) by (intros KO t Ht; destruct (Nat.eq_dec t k) as [->|]; [exact KO|apply HK; lia]).
      assert (PB := places_before_S x k). fold j d in PB.
      (* moving on, turning back, or a place *)
      assert (CASES : (path L x (k + 1) = j + 1 /\ findswap c j = true /\ (findswap c (zb8 (Z.of_nat j - 1)) = false)) \/
                      (1 <= j /\ path L x (k + 1) = j - 1 /\ findswap c j = false /\ findswap c (zb8 (Z.of_nat j - 1)) = true) \/
                      (path L x (k + 1) = j /\ findswap c j = false /\ findswap c (zb8 (Z.of_nat j - 1)) = false)).
      { destruct (findswap c j) eqn:F1.
        - left. split; [auto|]. split; [reflexivity|]. destruct (Nat.eq_dec j 0) as [J|J]; [rewrite Z2 by exact J; exact F255|]. rewrite Z1 by lia.
          destruct (findswap c (j - 1)) eqn:F2; auto. apply FS in F1. apply FS in F2. exfalso. apply (pairs_ok_gap W F2). replace (j - 1 + 1) with j by lia. exact F1.
        - right. destruct (Nat.eq_dec j 0) as [J|J]; [right; rewrite Z2 by exact J; auto|]. rewrite Z1 by lia.
          destruct (findswap c (j - 1)) eqn:F2; [left|right]; repeat split; auto; try lia. }
      assert (W1 : zb8 (Z.of_nat j - 1 + 0) = zb8 (Z.of_nat j - 1)) by (f_equal; lia).
      assert (W2 : zb8 (Z.of_nat j - 0) = j) by (rewrite Z.sub_0_r; exact Z0).
      assert (W3 : zb8 (Z.of_nat j - 1 + 1) = j) by (replace (Z.of_nat j - 1 + 1)%Z with (Z.of_nat j) by lia; exact Z0).
      destruct CASES as [(C1 & C2 & C3)|[(C0 & C1 & C2 & C3)|(C1 & C2 & C3)]].
      + (* up *) assert (NEQ : (path L x (k + 1) =? j) = false) by (apply Nat.eqb_neq; lia). rewrite NEQ, Nat.add_0_r in PB.
        destruct Hd as [[-> Hd]|[-> Hd]].
        * rewrite W1, W2, C3, C2. cbn [Z.eqb]. specialize (IH (S k) Es Hk'). rewrite PB in IH.
          replace (Z.of_nat j + 1)%Z with (Z.of_nat (path L x (S k))) by (replace (S k) with (k + 1) by lia; lia).
          rewrite <- Nat.negb_even, Hd in IH. cbn [negb] in IH. apply IH. apply NX. right. fold j d. rewrite Hd. split; lia.
        * rewrite W3, C2. split; [discriminate|]. intros (_ & _ & H). destruct (H k Hk') as [K|[K _]]; fold j d in K; [lia|]. rewrite Hd in K. lia.
      + (* down *) assert (NEQ : (path L x (k + 1) =? j) = false) by (apply Nat.eqb_neq; lia). rewrite NEQ, Nat.add_0_r in PB.
        destruct Hd as [[-> Hd]|[-> Hd]].
        * rewrite W1, C3. split; [discriminate|]. intros (_ & _ & H). destruct (H k Hk') as [K|[K _]]; fold j d in K; [lia|]. rewrite Hd in K. lia.
        * rewrite W3, C2, C3. cbn [Z.eqb Pos.eqb]. specialize (IH (S k) Es Hk'). rewrite PB in IH.
          replace (Z.of_nat j - 1)%Z with (Z.of_nat (path L x (S k))) by (replace (S k) with (k + 1) by lia; lia).
          rewrite <- Nat.negb_even, Hd in IH. cbn [negb] in IH. apply IH. apply NX. right. fold j d. rewrite Hd. split; lia.
      + (* place *) assert (EQ : (path L x (k + 1) =? j) = true) by (now apply Nat.eqb_eq). rewrite EQ in PB.
        assert (NOSW : findswap c (zb8 (Z.of_nat j - 1 + dir)) = false /\ findswap c (zb8 (Z.of_nat j - dir)) = false).
        { destruct Hd as [[-> _]|[-> _]]; [rewrite W1, W2|rewrite W3]; auto. }
        destruct NOSW as [-> ->]. specialize (IH (S k) Es Hk'). rewrite PB in IH.
        replace (path L x (S k)) with j in IH by (replace (S k) with (k + 1) by lia; auto).
        replace (d + 1) with (S d) in IH by lia. replace (x + S d) with (S (x + d)) in IH by lia. rewrite Nat.odd_succ in IH.
        assert (ND : (if Nat.even (x + d) then 1 else 0)%Z = (1 - dir)%Z) by (destruct Hd as [[-> ->]|[-> ->]]; reflexivity).
        rewrite ND in IH. apply IH. apply NX. left. exact C1. }
  unfold isplain. fold L. specialize (X L 0 eq_refl ltac:(lia) ltac:(intros; lia)). cbn [path] in X. change (places_before x 0) with 0 in X. rewrite Nat.add_0_r in X. exact X.
Qed.
End M.
