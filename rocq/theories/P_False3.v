(* P_False3.v - false course heads. *)
From Verif Require Import Base M_Bell M_Change M_Math M_Row M_Extent M_Group M_Touch M_PN M_Method M_False
  Spec_Row Spec_Change Spec_Touch Spec_Extent Spec_Cycle Spec_Group Spec_Method Spec_False
  P_Row P_Change2 P_Cycle P_Order P_Perm P_Extent P_Extent2 P_Group P_Group2 P_Touch P_Power P_Method P_Method2 P_False.
Set Implicit Arguments.
Unset Strict Implicit.
Open Scope nat_scope.

Lemma isrounds_spec r : isrounds r = true <-> forall i, act r i = i.
Proof.
  unfold isrounds. rewrite forallb_forall. split.
  - intros H i. destruct (lt_dec i (length r)) as [L|L]; [|apply act_ge; lia].
    rewrite (@act_nth r i 0) by exact L. apply Nat.eqb_eq, H, in_seq. lia.
  - intros H i Hi. apply in_seq in Hi. apply Nat.eqb_eq. rewrite <- (@act_nth r i 0) by lia. apply H.
Qed.
Lemma tenors_spec r w : are_tenors_together r w = true <-> forall i, w <= i -> act r i = i.
Proof.
  unfold are_tenors_together. rewrite forallb_forall. split.
  - intros H i Hw. destruct (lt_dec i (length r)) as [L|L]; [|apply act_ge; lia].
    rewrite (@act_nth r i 0) by exact L. apply Nat.eqb_eq, H, in_seq. lia.
  - intros H i Hi. apply in_seq in Hi. apply Nat.eqb_eq. rewrite <- (@act_nth r i 0) by lia. apply H. lia.
Qed.

Section Course.
Variables (sym : symtab) (flags : Z) (n : nat) (l : list nat).
Hypothesis (Hn : n <= 256) (OC : one_course n l).

Let Rl : row_b n l. Proof. apply OC. Qed.
Let Pl : is_row l. Proof. apply Rl. Qed.
Let Ll : length l = n. Proof. apply Rl. Qed.
Let N2 : 2 <= n. Proof. apply OC. Qed.
Let L256 : row256 l. Proof. now apply (@row_b_256 n). Qed.

Lemma treble_pow k : act_pow l k 0 = 0.
Proof. induction k as [|k IH]; cbn; auto. rewrite IH. apply OC. Qed.

(* two powers that agree on the tenor are equal *)
Lemma pow_eq j k : act_pow l j (n - 1) = act_pow l k (n - 1) -> forall i, act_pow l j i = act_pow l k i.
Proof.
  intros E i. destruct (Nat.eq_dec i 0) as [->|N0]; [now rewrite !treble_pow|].
  destruct (lt_dec i n) as [H|H]; [|rewrite !act_pow_ge by lia; reflexivity].
  destruct OC as (_ & _ & _ & T). destruct (T i ltac:(lia)) as (p & <-).
  rewrite <- !act_pow_add, (Nat.add_comm j), (Nat.add_comm k), !act_pow_add, E. reflexivity.
Qed.

(* c is the course head of the course the lead head x is in *)
Definition course_head_of (x c : list nat) : Prop :=
  row_b n c /\ act c (n - 1) = n - 1 /\ exists j, forall i, act c i = act x (act_pow l j i).
Lemma course_head_unique x c d : is_row x -> course_head_of x c -> course_head_of x d -> c = d.
Proof.
  intros Px (Rc & Tc & j & Hc) (Rd & Td & k & Hd). apply act_ext; [now rewrite (proj2 Rc), (proj2 Rd)|]. intros i _.
  rewrite Hc, Hd. f_equal. apply pow_eq. apply (act_inj Px). now rewrite <- Hc, <- Hd, Tc, Td.
Qed.

Lemma find_course_head x : row_b n x -> act x 0 = 0 -> exists j, act x (act_pow l j (n - 1)) = n - 1.
Proof.
  intros [Px Lx] T. destruct (act_surj (n - 1) Px) as (y & Ey & Hy).
  assert (0 < y < n). { split; [|lia]. destruct y; [|lia]. rewrite T in Ey. lia. }
  destruct OC as (_ & _ & _ & O). destruct (O y ltac:(lia)) as (k & Ek). exists k. now rewrite Ek.
Qed.

Lemma to_course_head_spec j : forall fuel x, j < fuel -> row_b n x -> act x (act_pow l j (n - 1)) = n - 1 ->
  exists c, to_course_head fuel l x n = Ret c /\ course_head_of x c.
Proof.
  induction j as [j IH] using lt_wf_ind. intros fuel x Hf Rx T. destruct fuel as [|fuel]; [lia|]. cbn [to_course_head].
  destruct (Nat.eqb_spec n 0); [lia|]. rewrite (@vget_lt _ _ _ 0) by (rewrite (proj2 Rx); lia). cbn [bind].
  rewrite <- (@act_nth x (n - 1) 0) by (rewrite (proj2 Rx); lia). destruct (Nat.eqb_spec (act x (n - 1)) (n - 1)) as [E|E].
  - exists x. split; auto. split; auto. split; auto. exists 0. reflexivity.
  - rewrite mul_comp by (auto; now apply (@row_b_256 n)). cbn [bind]. destruct j as [|j]; [contradiction|].
    destruct (IH j ltac:(lia) fuel (comp x l) ltac:(lia)) as (c & Ec & Rc & Tc & k & Hc).
    + apply comp_row_b; auto. lia.
    + rewrite act_comp by exact Pl. exact T.
    + exists c. split; auto. split; auto. split; auto. exists (S k). intros i. rewrite Hc, act_comp by exact Pl. reflexivity.
Qed.

Lemma add_course_spec fs c : StronglySorted lex_lt fs -> row_b n c ->
  exists fs', add_course sym flags fs c = Ret fs' /\ StronglySorted lex_lt fs' /\
    forall x, In x fs' <-> In x fs \/ (x = c /\ course_wanted sym flags c).
Proof.
  intros S Rc. unfold add_course, course_wanted. assert (Sg := @sign_pm sym c (row_b_256 Hn Rc)).
  assert (T := tenors_spec c 6).
  assert (Ins := @insert_if fs c true S). cbv iota in Ins. destruct Ins as [I1 I2].
  destruct (has flags FC_IN_COURSE).
  - destruct Sg as [Sg|Sg]; rewrite Sg; cbn [bind].
    + change (negb (1 =? -1)%Z) with true. cbn [negb]. destruct (has flags FC_TENORS); cbn [andb].
      * destruct (are_tenors_together c 6) eqn:Et; cbn [negb].
        -- eexists. split; [reflexivity|]. split; auto. intros x. rewrite I2. intuition auto.
        -- eexists. split; [reflexivity|]. split; auto. intros x. split; auto. intros [H|(_ & _ & H)]; auto.
           exfalso. specialize (H eq_refl). apply T in H. discriminate.
      * eexists. split; [reflexivity|]. split; auto. intros x. rewrite I2. intuition congruence.
    + change (negb (-1 =? -1)%Z) with false. cbn [negb]. eexists. split; [reflexivity|]. split; auto.
      intros x. split; auto. intros [H|(_ & H & _)]; auto. now specialize (H eq_refl).
  - cbn [bind negb]. destruct (has flags FC_TENORS); cbn [andb].
    + destruct (are_tenors_together c 6) eqn:Et; cbn [negb].
      * eexists. split; [reflexivity|]. split; auto. intros x. rewrite I2. intuition congruence.
      * eexists. split; [reflexivity|]. split; auto. intros x. split; auto. intros [H|(_ & _ & H)]; auto.
        exfalso. specialize (H eq_refl). apply T in H. discriminate.
    + eexists. split; [reflexivity|]. split; auto. intros x. rewrite I2. intuition congruence.
Qed.

(* the order of the lead head *)
Variable o : nat.
Hypothesis (O0 : 0 < o) (Oid : forall i, act_pow l o i = i) (Omin : forall j, 0 < j < o -> exists i, act_pow l j i <> i).

Lemma pow_mod j i : act_pow l (j mod o) i = act_pow l j i.
Proof.
  rewrite (Nat.div_mod j o) at 2 by lia. generalize (j mod o). intros r. revert i. induction (j / o) as [|q IH]; intros i.
  - now rewrite Nat.mul_0_r.
  - replace (o * S q + r) with (o + (o * q + r)) by lia. rewrite act_pow_add, Oid. apply IH.
Qed.

Variables (f : list nat).
Hypothesis (Rf : row_b n f) (Tf : act f 0 = 0).

(* the course heads found for the false lead head f *)
Definition found (k : nat) (c : list nat) : Prop :=
  course_wanted sym flags c /\ exists q, k <= q < o /\ exists x, row_b n x /\ (forall i, act x i = act_pow l q (act f i)) /\ course_head_of x c.

Lemma process_loop_spec k : forall fuel lead fs, 0 < k <= o -> k + o <= fuel -> StronglySorted lex_lt fs ->
  is_row lead -> length lead <= n -> (forall i, act lead i = act_pow l (o - k) i) ->
  exists fs', process_loop fuel sym flags l f lead fs = Ret fs' /\ StronglySorted lex_lt fs' /\
    forall c, In c fs' <-> In c fs \/ found (o - k) c.
Proof.
  induction k as [|k IH]; intros fuel lead fs Hk Hf Ss P L A; [lia|]. destruct fuel as [|fuel]; [lia|]. cbn [process_loop].
  assert (R256 : row256 lead) by (split; auto; lia). assert (F256 : row256 f) by now apply (@row_b_256 n).
  rewrite (mul_comp R256 F256). cbn [bind]. rewrite (mul_comp R256 L256). cbn [bind].
  set (x := comp lead f). assert (Rx : row_b n x).
  { split; [apply comp_row; auto; apply Rf|]. unfold x. rewrite comp_length, (proj2 Rf). lia. }
  assert (Ax : forall i, act x i = act_pow l (o - S k) (act f i)) by (intros i; unfold x; rewrite act_comp by apply Rf; apply A).
  destruct (@find_course_head x Rx) as (j & Hj). { rewrite Ax, Tf. apply treble_pow. }
  destruct (@to_course_head_spec (j mod o) (S fuel) x) as (c & Ec & Hc); auto.
  { assert (Q := Nat.mod_upper_bound j o). lia. }
  { now rewrite pow_mod. }
  rewrite (proj2 Rf). rewrite Ec. cbn [bind].
  destruct (@add_course_spec fs c Ss (proj1 Hc)) as (f1 & E1 & S1 & H1). rewrite E1. cbn [bind].
  assert (X : forall d, found (o - S k) d <-> (d = c /\ course_wanted sym flags c) \/ found (o - k) d).
  { intros d. split.
    - intros (W & q & Hq & y & Ry & Ay & Cy). destruct (Nat.eq_dec q (o - S k)) as [->|Nq].
      + left. assert (E : y = x). { apply act_ext; [now rewrite (proj2 Ry), (proj2 Rx)|]. intros i _. now rewrite Ay, Ax. }
        subst y. assert (E : d = c) by (apply (@course_head_unique x); auto; apply Rx). subst d. auto.
      + right. split; auto. exists q. split; [lia|]. eauto.
    - intros [[-> W]|(W & q & Hq & H)].
      + split; auto. exists (o - S k). split; [lia|]. exists x. auto.
      + split; auto. exists q. split; [lia|auto]. }
  assert (Al : forall i, act (comp lead l) i = act_pow l (o - k) i).
  { intros i. rewrite act_comp by exact Pl. rewrite A. replace (o - k) with (S (o - S k)) by lia. now rewrite act_pow_S_r. }
  destruct (isrounds (comp lead l)) eqn:Er.
  - assert (k = 0).
    { destruct k as [|k']; auto. exfalso. destruct (Omin (j := o - S k') ltac:(lia)) as (i & Hi). apply Hi.
      rewrite <- Al. apply (proj1 (isrounds_spec _) Er). }
    subst k. exists f1. split; auto. split; auto. intros d. rewrite H1, X. split; [tauto|].
    intros [H|[H|(_ & q & Hq & _)]]; auto. lia.
  - destruct k as [|k].
    { exfalso. assert (Q : isrounds (comp lead l) = true); [|congruence]. apply isrounds_spec. intros i. rewrite Al, Nat.sub_0_r. apply Oid. }
    destruct (IH fuel (comp lead l) f1) as (f2 & E2 & S2 & H2); auto; try lia.
    { now apply comp_row. } { rewrite comp_length. lia. }
    exists f2. split; auto. split; auto. intros d. rewrite H2, H1, X. tauto.
Qed.
End Course.
