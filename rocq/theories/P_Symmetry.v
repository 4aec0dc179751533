(* P_Symmetry.v - the loops of methodutils.cpp find the symmetries. *)
From Verif Require Import Base M_Bell M_Change M_Math M_Row M_PN M_Method M_Symmetry Spec_Row Spec_Change Spec_Method Spec_Symmetry
  P_Change2 P_Change3 P_PN P_Method.
Set Implicit Arguments.
Unset Strict Implicit.
Open Scope nat_scope.

Lemma all_from_spec k j p (P : Z -> Prop) :
  (forall t, (j <= t < j + Z.of_nat k)%Z -> exists b, p t = Ret b /\ (b = true <-> P t)) ->
  exists b, all_from k j p = Ret b /\ (b = true <-> forall t, (j <= t < j + Z.of_nat k)%Z -> P t).
Proof.
  revert j. induction k as [|k IH]; intros j H; cbn [all_from].
  - exists true. split; [reflexivity|]. split; [intros _ t Ht; lia|reflexivity].
  - destruct (H j ltac:(lia)) as (b & -> & Hb). cbn [bind]. destruct b.
    + destruct (IH (j + 1)%Z) as (b & E & Hb2); [intros t Ht; apply H; lia|]. exists b. split; [exact E|]. rewrite Hb2. split.
      * intros X t Ht. destruct (Z.eq_dec t j) as [->|]; [now apply Hb|]. apply X. lia.
      * intros X t Ht. apply X. lia.
    + exists false. split; [reflexivity|]. split; [discriminate|]. intros X. apply Hb. apply X. lia.
Qed.
Lemma any_from_spec k j p (P : Z -> Prop) :
  (forall t, (j <= t < j + Z.of_nat k)%Z -> exists b, p t = Ret b /\ (b = true <-> P t)) ->
  exists b, any_from k j p = Ret b /\ (b = true <-> exists t, (j <= t < j + Z.of_nat k)%Z /\ P t).
Proof.
  revert j. induction k as [|k IH]; intros j H; cbn [any_from].
  - exists false. split; [reflexivity|]. split; [discriminate|intros (t & Ht & _); lia].
  - destruct (H j ltac:(lia)) as (b & -> & Hb). cbn [bind]. destruct b.
    + exists true. split; [reflexivity|]. split; [|reflexivity]. intros _. exists j. split; [lia|]. now apply Hb.
    + destruct (IH (j + 1)%Z) as (b & E & Hb2); [intros t Ht; apply H; lia|]. exists b. split; [exact E|]. rewrite Hb2. split.
      * intros (t & Ht & X). exists t. split; [lia|exact X].
      * intros (t & Ht & X). destruct (Z.eq_dec t j) as [->|]; [apply Hb in X; discriminate|]. exists t. split; [lia|exact X].
Qed.

Section M.
Variable m : method.
Hypothesis WF : wf_method m.
Hypothesis NE : mch m <> [].
Let L := mch m.
Let n := Z.of_nat (length L).
Notation at' := (at_change L).
Notation rv := (option_map change_reverse).

Lemma n_pos : (0 < n)%Z.
Proof. unfold n, L. destruct (mch m); [congruence|cbn [length]; lia]. Qed.

Lemma at_some i : exists c, at' i = Some c /\ wf_change c /\ cn c = mb m.
Proof.
  unfold at_change. fold n. assert (B : (0 <= i mod n < n)%Z) by (apply Z.mod_pos_bound, n_pos).
  destruct (@nth_error_some _ L (Z.to_nat (i mod n))) as (c & E); [unfold n in *; lia|]. exists c. split; [exact E|].
  destruct (m_change WF E). auto.
Qed.
Lemma at_period i k : at' (i + k * n) = at' i.
Proof. unfold at_change. fold n. rewrite Z.mod_add by (generalize n_pos; lia). reflexivity. Qed.
Lemma at_congr i j : (i mod n = j mod n)%Z -> at' i = at' j.
Proof. unfold at_change. fold n. now intros ->. Qed.
Lemma rv_rv i : rv (rv (at' i)) = at' i.
Proof.
  destruct (at_some i) as (c & -> & W & B). cbn [option_map]. rewrite reverse_reverse; [reflexivity| |exact W].
  destruct WF as (H & _). lia.
Qed.
Lemma get_rem i : (0 <= i)%Z -> exists c, mget_rem m i = Ret c /\ at' i = Some c /\ wf_change c.
Proof.
  intros H. destruct (at_some i) as (c & E & W & _). exists c. split; [|auto]. unfold mget_rem, mlen. fold L. fold n.
  destruct (Z.eqb_spec n 0) as [Z0|_]; [generalize n_pos; lia|]. rewrite Z.rem_mod_nonneg by (generalize n_pos; lia).
  unfold mget. assert (B : (0 <= i mod n < n)%Z) by (apply Z.mod_pos_bound, n_pos).
  destruct (Z.ltb_spec (i mod n) 0); [lia|]. fold L. apply vget_some. exact E.
Qed.
Lemma get_plain i : (0 <= i < n)%Z -> exists c, mget m i = Ret c /\ at' i = Some c /\ wf_change c.
Proof.
  intros H. destruct (at_some i) as (c & E & W & _). exists c. split; [|auto]. unfold mget.
  destruct (Z.ltb_spec i 0); [lia|]. apply vget_some. unfold at_change in E. fold n in E. rewrite Z.mod_small in E by lia. exact E.
Qed.
Lemma rev_eqb a b i j : at' i = Some a -> at' j = Some b -> wf_change a -> wf_change b ->
  (change_eqb a (change_reverse b) = true <-> at' i = rv (at' j)).
Proof.
  intros E1 E2 Wa Wb. rewrite E1, E2. cbn [option_map].
  assert (B : cn b <= 257). { destruct (at_some j) as (c & E & _ & B). rewrite E2 in E. injection E as <-. destruct WF as (H & _). lia. }
  rewrite (change_eqb_wf Wa (reverse_wf B Wb)). split; [now intros ->|intros X; injection X; auto].
Qed.
Lemma same_eqb a b i j : at' i = Some a -> at' j = Some b -> wf_change a -> wf_change b ->
  (change_eqb a b = true <-> at' i = at' j).
Proof.
  intros E1 E2 Wa Wb. rewrite E1, E2. rewrite (change_eqb_wf Wa Wb). split; [now intros ->|intros X; injection X; auto].
Qed.

Definition h := (n / 2)%Z.
Lemma quot_h : Z.quot (mlen m) 2 = h.
Proof. unfold mlen, h. fold L. fold n. apply Z.quot_div_nonneg; generalize n_pos; lia. Qed.
Lemma h_bounds : (0 <= h /\ 2 * h <= n < 2 * h + 2)%Z.
Proof. unfold h. generalize n_pos (Z.div_mod n 2) (Z.mod_pos_bound n 2). lia. Qed.

Lemma rot_change i : (0 <= i <= h)%Z ->
  exists b, rot_about_change m i = Ret b /\ (b = true <-> forall t, at' (i + t) = rv (at' (i - t))).
Proof.
  intros Hi. pose proof h_bounds. pose proof n_pos. unfold rot_about_change. rewrite quot_h. unfold mlen. fold L. fold n.
  destruct (@all_from_spec (Z.to_nat (h + 1)) 0
    (fun j => a <- mget_rem m (i + j)%Z ;; b <- mget_rem m (n + i - j)%Z ;; Ret (change_eqb a (change_reverse b)))
    (fun j => at' (i + j) = rv (at' (i - j)))) as (b & E & Hb).
  - intros t Ht. destruct (@get_rem (i + t)) as (a & E1 & E2 & Wa); [lia|]. destruct (@get_rem (n + i - t)) as (c & E3 & E4 & Wc); [lia|].
    rewrite E1, E3. cbn [bind]. eexists. split; [reflexivity|]. rewrite <- (@at_period (i - t) 1).
    replace (i - t + 1 * n)%Z with (n + i - t)%Z by lia. now apply rev_eqb.
  - exists b. split; [exact E|]. rewrite Hb. split; [|intros X t _; apply X].
    intros X t. pose proof (Z.div_mod t n ltac:(lia)) as D. pose proof (Z.mod_pos_bound t n ltac:(lia)) as B.
    destruct (Z_le_gt_dec (t mod n) h) as [G|G].
    + specialize (X (t mod n)%Z ltac:(lia)).
      rewrite <- (@at_period (i + t mod n) (t / n)), <- (@at_period (i - t mod n) (- (t / n))) in X.
      replace (i + t mod n + t / n * n)%Z with (i + t)%Z in X by lia. replace (i - t mod n + - (t / n) * n)%Z with (i - t)%Z in X by lia. exact X.
    + specialize (X (n - t mod n)%Z ltac:(lia)).
      rewrite <- (@at_period (i + (n - t mod n)) (- (t / n) - 1)), <- (@at_period (i - (n - t mod n)) (t / n + 1)) in X.
      replace (i + (n - t mod n) + (- (t / n) - 1) * n)%Z with (i - t)%Z in X by lia. replace (i - (n - t mod n) + (t / n + 1) * n)%Z with (i + t)%Z in X by lia.
      rewrite X. now rewrite rv_rv.
Qed.

Lemma rot_row i : (0 <= i <= h)%Z ->
  exists b, rot_about_row m i = Ret b /\ (b = true <-> forall t, (0 <= t < h)%Z -> at' (i + t + 1) = rv (at' (i - t))).
Proof.
  intros Hi. pose proof h_bounds. pose proof n_pos. unfold rot_about_row. rewrite quot_h. unfold mlen. fold L. fold n.
  destruct (@all_from_spec (Z.to_nat h) 0
    (fun j => a <- mget_rem m (i + j + 1)%Z ;; b <- mget_rem m (n + i - j)%Z ;; Ret (change_eqb a (change_reverse b)))
    (fun j => at' (i + j + 1) = rv (at' (i - j)))) as (b & E & Hb).
  - intros t Ht. destruct (@get_rem (i + t + 1)) as (a & E1 & E2 & Wa); [lia|]. destruct (@get_rem (n + i - t)) as (c & E3 & E4 & Wc); [lia|].
    rewrite E1, E3. cbn [bind]. eexists. split; [reflexivity|]. rewrite <- (@at_period (i - t) 1).
    replace (i - t + 1 * n)%Z with (n + i - t)%Z by lia. now apply rev_eqb.
  - exists b. split; [exact E|]. rewrite Hb. split; intros X t Ht; apply X; lia.
Qed.

(* what rot_row tells: everything but, for an odd number of changes, the change opposite *)
Lemma row_all i : (forall t, (0 <= t < h)%Z -> at' (i + t + 1) = rv (at' (i - t))) ->
  forall t, (t mod n <> h \/ n = 2 * h)%Z -> at' (i + t + 1) = rv (at' (i - t)).
Proof.
  intros X t N. pose proof h_bounds. pose proof n_pos.
  pose proof (Z.div_mod t n ltac:(lia)) as D. pose proof (Z.mod_pos_bound t n ltac:(lia)) as B.
  destruct (Z_lt_ge_dec (t mod n) h) as [G|G].
  - specialize (X (t mod n)%Z ltac:(lia)).
    rewrite <- (@at_period (i + t mod n + 1) (t / n)), <- (@at_period (i - t mod n) (- (t / n))) in X.
    replace (i + t mod n + 1 + t / n * n)%Z with (i + t + 1)%Z in X by lia. replace (i - t mod n + - (t / n) * n)%Z with (i - t)%Z in X by lia. exact X.
  - specialize (X (n - 1 - t mod n)%Z ltac:(lia)).
    rewrite <- (@at_period (i + (n - 1 - t mod n) + 1) (- (t / n) - 1)), <- (@at_period (i - (n - 1 - t mod n)) (t / n + 1)) in X.
    replace (i + (n - 1 - t mod n) + 1 + (- (t / n) - 1) * n)%Z with (i - t)%Z in X by lia.
    replace (i - (n - 1 - t mod n) + (t / n + 1) * n)%Z with (i + t + 1)%Z in X by lia.
    rewrite X. now rewrite rv_rv.
Qed.

Lemma rot_spec : exists b, has_rotational_symmetry m = Ret b /\
  (rotational L -> b = true) /\ (b = true -> n = (2 * h)%Z -> rotational L) /\ (b = true -> rotational_but_centre L).
Proof.
  pose proof h_bounds. pose proof n_pos.
  unfold has_rotational_symmetry. rewrite quot_h.
  destruct (@any_from_spec (Z.to_nat (h + 1)) 0 (rot_about_change m) (fun i => forall t, at' (i + t) = rv (at' (i - t)))) as (b1 & E1 & H1).
  { intros t Ht. apply rot_change. lia. }
  destruct (@any_from_spec (Z.to_nat (h + 1)) 0 (rot_about_row m) (fun i => forall t, (0 <= t < h)%Z -> at' (i + t + 1) = rv (at' (i - t)))) as (b2 & E2 & H2).
  { intros t Ht. apply rot_row. lia. }
  rewrite E1. cbn [bind].
  assert (Sound1 : b1 = true -> rotational L).
  { intros Hb. apply H1 in Hb as (i & _ & X). exists (2 * i)%Z. intros t. specialize (X (t - i)%Z).
    replace (i + (t - i))%Z with t in X by lia. replace (i - (t - i))%Z with (2 * i - t)%Z in X by lia. exact X. }
  assert (Weak : rotational L -> rotational_but_centre L).
  { intros (k & X). exists k. intros t _. apply X. }
  assert (Complete : rotational L -> b1 = true \/ b2 = true).
  { intros (k & X).
    assert (Xk : forall q, forall t, at' t = rv (at' (k + q * n - t))).
    { intros q t. rewrite (X t). replace (k + q * n - t)%Z with (k - t + q * n)%Z by lia. now rewrite at_period. }
    assert (K1 : forall i, (0 <= i <= h)%Z -> (exists q, k + q * n = 2 * i)%Z -> b1 = true).
    { intros i Hi (q & Q). apply H1. exists i. split; [lia|]. intros t. rewrite (Xk q (i + t)%Z). do 2 f_equal. lia. }
    assert (K2 : forall i, (0 <= i <= h)%Z -> (exists q, k + q * n = 2 * i + 1)%Z -> b2 = true).
    { intros i Hi (q & Q). apply H2. exists i. split; [lia|]. intros t _. rewrite (Xk q (i + t + 1)%Z). do 2 f_equal. lia. }
    pose proof (Z.div_mod k n ltac:(lia)) as D. pose proof (Z.mod_pos_bound k n ltac:(lia)) as B.
    pose proof (Z.div_mod (k mod n) 2 ltac:(lia)) as D2. pose proof (Z.mod_pos_bound (k mod n) 2 ltac:(lia)) as B2.
    destruct (Z.eq_dec ((k mod n) mod 2) 0) as [E|E].
    - left. apply (K1 ((k mod n) / 2)%Z); [lia|]. exists (- (k / n))%Z. lia.
    - right. apply (K2 ((k mod n) / 2)%Z); [lia|]. exists (- (k / n))%Z. lia. }
  destruct b1.
  - exists true. repeat split; auto.
  - exists b2. split; [exact E2|]. split; [intros R; destruct (Complete R); [discriminate|assumption]|]. split.
    + intros Hb Ev. apply H2 in Hb as (i & _ & X). exists (2 * i + 1)%Z. intros t.
      assert (Y := row_all X). specialize (Y (t - i - 1)%Z (or_intror Ev)).
      replace (i + (t - i - 1) + 1)%Z with t in Y by lia. replace (i - (t - i - 1))%Z with (2 * i + 1 - t)%Z in Y by lia. exact Y.
    + intros Hb. apply H2 in Hb as (i & _ & X). exists (2 * i + 1)%Z. intros t Ht. fold n in Ht.
      assert (Y := row_all X). specialize (Y (t - i - 1)%Z).
      replace (i + (t - i - 1) + 1)%Z with t in Y by lia. replace (i - (t - i - 1))%Z with (2 * i + 1 - t)%Z in Y by lia. apply Y.
      destruct (Z.eq_dec n (2 * h)) as [|Od]; [auto|]. left. intros C. apply Ht.
      pose proof (Z.div_mod (t - i - 1) n ltac:(lia)) as D. rewrite C in D.
      replace (2 * i + 1 - t - t)%Z with ((- 2 * ((t - i - 1) / n) - 1) * n)%Z by lia. apply Z.mod_mul. lia.
Qed.

Lemma rem2 : (Z.rem (mlen m) 2 = n - 2 * h)%Z.
Proof. unfold mlen. fold L. fold n. rewrite Z.rem_mod_nonneg by (generalize n_pos; lia). unfold h. generalize (Z.div_mod n 2). lia. Qed.

Lemma pal_spec : exists b, has_conventional_symmetry m = Ret b /\ (b = true <-> palindromic L).
Proof.
  pose proof h_bounds. pose proof n_pos.
  unfold has_conventional_symmetry. rewrite quot_h, rem2. unfold mlen. fold L. fold n.
  set (N := if (n - 2 * h =? 0)%Z then h else n). set (J := if (n - 2 * h =? 0)%Z then h else (h + 1)%Z). cbv zeta.
  assert (NJ : (n = 2 * h /\ N = h /\ J = h \/ n = 2 * h + 1 /\ N = n /\ J = h + 1)%Z).
  { unfold N, J. destruct (Z.eqb_spec (n - 2 * h) 0); lia. }
  destruct (@any_from_spec (Z.to_nat N) 0 (fun i => all_from (Z.to_nat (J - 1)) 1%Z (fun j =>
      a <- mget_rem m (i + j)%Z ;; b <- mget_rem m (i - j + n)%Z ;; Ret (change_eqb a b))) (fun i => forall t, at' (i + t) = at' (i - t))) as (b & E & Hb).
  - intros i Hi.
    destruct (@all_from_spec (Z.to_nat (J - 1)) 1 (fun j =>
      a <- mget_rem m (i + j)%Z ;; b <- mget_rem m (i - j + n)%Z ;; Ret (change_eqb a b)) (fun t => at' (i + t) = at' (i - t))) as (b & E & Hb).
    + intros t Ht. destruct (@get_rem (i + t)) as (a & E1 & E2 & Wa); [lia|]. destruct (@get_rem (i - t + n)) as (c & E3 & E4 & Wc); [lia|].
      rewrite E1, E3. cbn [bind]. eexists. split; [reflexivity|]. rewrite <- (@at_period (i - t) 1).
      replace (i - t + 1 * n)%Z with (i - t + n)%Z by lia. now apply same_eqb.
    + exists b. split; [exact E|]. rewrite Hb. split; [|intros X t _; apply X].
      intros X t. pose proof (Z.div_mod t n ltac:(lia)) as D. pose proof (Z.mod_pos_bound t n ltac:(lia)) as B.
      destruct (Z.eq_dec (t mod n) 0) as [Z0|NZ].
      { apply at_congr. replace (i + t)%Z with (i - t + (2 * (t / n)) * n)%Z by lia. apply Z.mod_add. lia. }
      destruct (Z.eq_dec (2 * (t mod n)) n) as [Z0|NH].
      { apply at_congr. replace (i + t)%Z with (i - t + (2 * (t / n) + 1) * n)%Z by lia. apply Z.mod_add. lia. }
      destruct (Z_lt_ge_dec (t mod n) J) as [G|G].
      * specialize (X (t mod n)%Z ltac:(lia)).
        rewrite <- (@at_period (i + t mod n) (t / n)), <- (@at_period (i - t mod n) (- (t / n))) in X.
        replace (i + t mod n + t / n * n)%Z with (i + t)%Z in X by lia. replace (i - t mod n + - (t / n) * n)%Z with (i - t)%Z in X by lia. exact X.
      * specialize (X (n - t mod n)%Z ltac:(lia)).
        rewrite <- (@at_period (i + (n - t mod n)) (- (t / n) - 1)), <- (@at_period (i - (n - t mod n)) (t / n + 1)) in X.
        replace (i + (n - t mod n) + (- (t / n) - 1) * n)%Z with (i - t)%Z in X by lia. replace (i - (n - t mod n) + (t / n + 1) * n)%Z with (i + t)%Z in X by lia.
        congruence.
  - exists b. split; [exact E|]. rewrite Hb. split.
    + intros (i & _ & X). exists i. exact X.
    + intros (c & X). pose proof (Z.div_mod c n ltac:(lia)) as D. pose proof (Z.mod_pos_bound c n ltac:(lia)) as B.
      assert (Y : forall q i, (c = i + q * n)%Z -> forall t, at' (i + t) = at' (i - t)).
      { intros q i Ei t. specialize (X t). subst c. replace (i + q * n + t)%Z with (i + t + q * n)%Z in X by lia. replace (i + q * n - t)%Z with (i - t + q * n)%Z in X by lia.
        now rewrite !at_period in X. }
      destruct NJ as [(N1 & N2 & N3)|(N1 & N2 & N3)].
      * destruct (Z_lt_ge_dec (c mod n) h) as [G|G].
        -- exists (c mod n)%Z. split; [lia|]. apply (Y (c / n)%Z). lia.
        -- exists (c mod n - h)%Z. split; [lia|]. intros t. assert (Z1 := Y (c / n)%Z (c mod n)%Z ltac:(lia) (t - h)%Z).
           replace (c mod n + (t - h))%Z with (c mod n - h + t)%Z in Z1 by lia. rewrite Z1.
           replace (c mod n - (t - h))%Z with (c mod n - h - t + 1 * n)%Z by lia. now rewrite at_period.
      * exists (c mod n)%Z. split; [lia|]. apply (Y (c / n)%Z). lia.
Qed.

Lemma mirror_spec : exists b, has_mirror_symmetry m = Ret b /\ (b = true <-> mirror L).
Proof.
  pose proof n_pos. unfold has_mirror_symmetry, mlen. fold L. fold n.
  destruct (@all_from_spec (Z.to_nat n) 0 (fun i => a <- mget m i ;; Ret (change_eqb a (change_reverse a))) (fun t => at' t = rv (at' t))) as (b & E & Hb).
  - intros t Ht. destruct (@get_plain t) as (a & E1 & E2 & Wa); [lia|]. rewrite E1. cbn [bind]. eexists. split; [reflexivity|]. now apply rev_eqb.
  - exists b. split; [exact E|]. rewrite Hb. split; [|intros X t _; apply X]. intros X t.
    pose proof (Z.div_mod t n ltac:(lia)) as D. pose proof (Z.mod_pos_bound t n ltac:(lia)) as B.
    specialize (X (t mod n)%Z ltac:(lia)). rewrite <- (@at_period (t mod n) (t / n)) in X.
    replace (t mod n + t / n * n)%Z with t in X by lia. exact X.
Qed.

Lemma glide_spec : exists b, has_glide_symmetry m = Ret b /\ (b = true <-> glide L).
Proof.
  pose proof n_pos. pose proof h_bounds. unfold has_glide_symmetry. rewrite quot_h, rem2.
  destruct (Z.eqb_spec (n - 2 * h) 1) as [Od|Ev].
  - exists false. split; [reflexivity|]. split; [discriminate|]. intros (k & K & _). unfold n in *. lia.
  - destruct (@all_from_spec (Z.to_nat h) 0 (fun i => a <- mget m i ;; b <- mget_rem m (i + h)%Z ;; Ret (change_eqb a (change_reverse b)))
      (fun t => at' t = rv (at' (t + h)))) as (b & E & Hb).
    + intros t Ht. destruct (@get_plain t) as (a & E1 & E2 & Wa); [lia|]. destruct (@get_rem (t + h)) as (c & E3 & E4 & Wc); [lia|].
      rewrite E1, E3. cbn [bind]. eexists. split; [reflexivity|]. now apply rev_eqb.
    + exists b. split; [exact E|]. rewrite Hb. split.
      * intros X. exists (Z.to_nat h). split; [unfold n in *; lia|]. rewrite Z2Nat.id by lia. intros t.
        pose proof (Z.div_mod t n ltac:(lia)) as D. pose proof (Z.mod_pos_bound t n ltac:(lia)) as B.
        destruct (Z_lt_ge_dec (t mod n) h) as [G|G].
        -- specialize (X (t mod n)%Z ltac:(lia)). rewrite <- (@at_period (t mod n) (t / n)), <- (@at_period (t mod n + h) (t / n)) in X.
           replace (t mod n + t / n * n)%Z with t in X by lia. replace (t mod n + h + t / n * n)%Z with (t + h)%Z in X by lia. rewrite X. now rewrite rv_rv.
        -- specialize (X (t mod n - h)%Z ltac:(lia)). rewrite <- (@at_period (t mod n - h) (t / n + 1)), <- (@at_period (t mod n - h + h) (t / n)) in X.
           replace (t mod n - h + (t / n + 1) * n)%Z with (t + h)%Z in X by lia. replace (t mod n - h + h + t / n * n)%Z with t in X by lia. exact X.
      * intros (k & K & X) t _. assert (Ek : Z.of_nat k = h) by (unfold n in *; lia). rewrite Ek in X. rewrite X. now rewrite rv_rv.
Qed.
End M.
