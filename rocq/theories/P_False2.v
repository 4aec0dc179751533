(* P_False2.v - groups of falseness tables, and false course heads. *)
From Verif Require Import Base M_Bell M_Change M_Math M_Row M_Extent M_Group M_Touch M_PN M_Method M_False
  Spec_Row Spec_Change Spec_Touch Spec_Extent Spec_Cycle Spec_Group Spec_Method Spec_False
  P_Row P_Change2 P_Cycle P_Order P_Perm P_Extent P_Extent2 P_Group P_Group2 P_Touch P_Power P_Method P_Method2 P_False.
Set Implicit Arguments.
Unset Strict Implicit.
Open Scope nat_scope.

(* --- the group --- *)
(* the quotients of the rows of a table *)
Definition quotient_of (t : list row) (q : row) : Prop := exists i j, In i t /\ In j t /\ comp q j = i.

Lemma quotients_spec sym n t : 0 < n <= 256 -> Forall (row_b n) t -> (forall x, In x t -> sign sym x = Ret (-1)%Z) ->
  exists t2, quotients sym t = Ret t2 /\ Forall (row_b n) t2 /\ forall q, row_b n q -> In q t2 <-> quotient_of t q.
Proof.
  intros Hn HT HS. rewrite Forall_forall in HT. unfold quotients.
  assert (In2 : forall i, In i t -> forall l s, (forall j, In j l -> In j t) -> exists s', forM l (fun t2 j =>
      q <- div i j ;; s <- sign sym q ;; if (s =? 1)%Z then Ret (t2 ++ [q]) else Throw AssertFailed) s = Ret (s ++ s') /\
      Forall (row_b n) s' /\ forall q, row_b n q -> In q s' <-> exists j, In j l /\ comp q j = i).
  { intros i Hi. induction l as [|j l IH]; intros s Hl; cbn [forM].
    - exists []. rewrite app_nil_r. split; auto. split; auto. intros q _. split; [intros []|intros (j & [] & _)].
    - assert (Hj : In j t) by (apply Hl; now left).
      destruct (div_spec (row_b_256 (proj2 Hn) (HT i Hi)) (row_b_256 (proj2 Hn) (HT j Hj))) as (z & E & Z & L & A).
      assert (Zn : row_b n z). { split; [apply Z|]. rewrite L. rewrite (proj2 (HT i Hi)), (proj2 (HT j Hj)). lia. }
      assert (C : comp z j = i) by (apply (@div_quot n i j z (proj2 Hn) (HT i Hi) (HT j Hj) Zn); exact E).
      rewrite E. cbn [bind].
      assert (Sz : sign sym z = Ret 1%Z).
      { destruct (@sign_pm sym z Z) as [Q|Q]; auto. exfalso.
        assert (M := @sign_mul sym z j i Z (row_b_256 (proj2 Hn) (HT j Hj))).
        rewrite (mul_comp Z (row_b_256 (proj2 Hn) (HT j Hj))), C in M. specialize (M eq_refl).
        destruct M as (sx & sy & E1 & E2 & E3). rewrite (HS j Hj) in E2. rewrite (HS i Hi) in E3. rewrite Q in E1.
        injection E1 as <-. injection E2 as <-. discriminate E3. }
      rewrite Sz. cbn [bind Z.eqb Pos.eqb]. destruct (IH (s ++ [z])) as (s' & E' & F' & H'). { intros k Hk. apply Hl. now right. }
      exists (z :: s'). rewrite E', <- app_assoc. split; auto. split; [constructor; auto|].
      intros q Hq. cbn [In]. rewrite H' by exact Hq. split.
      + intros [<-|(k & Hk & Ck)]; [exists j; split; [now left|auto]|exists k; split; [now right|auto]].
      + intros (k & [<-|Hk] & Ck); [left|right; eauto]. apply (@div_quot n i j q (proj2 Hn) (HT i Hi) (HT j Hj) Hq) in Ck. congruence. }
  assert (Out : forall l s, (forall j, In j l -> In j t) -> exists s', forM l (fun t2 i => forM t (fun t2 j =>
      q <- div i j ;; s <- sign sym q ;; if (s =? 1)%Z then Ret (t2 ++ [q]) else Throw AssertFailed) t2) s = Ret (s ++ s') /\
      Forall (row_b n) s' /\ forall q, row_b n q -> In q s' <-> exists i j, In i l /\ In j t /\ comp q j = i).
  { induction l as [|i l IH]; intros s Hl; cbn [forM].
    - exists []. rewrite app_nil_r. split; auto. split; auto. intros q _. split; [intros []|intros (i & j & [] & _)].
    - destruct (In2 i (Hl i (or_introl eq_refl)) t s ltac:(auto)) as (s1 & E1 & F1 & H1). rewrite E1. cbn [bind].
      destruct (IH (s ++ s1)) as (s2 & E2 & F2 & H2). { intros k Hk. apply Hl. now right. }
      exists (s1 ++ s2). rewrite E2, <- app_assoc. split; auto. split; [now apply Forall_app|].
      intros q Hq. rewrite in_app_iff, H1, H2 by exact Hq. split.
      + intros [(j & Hj & C)|(i' & j & Hi & Hj & C)]; [exists i, j|exists i', j]; split; auto; [now left|now right].
      + intros (i' & j & [<-|Hi] & Hj & C); [left; eauto|right; eauto 6]. }
  destruct (Out t [] ltac:(auto)) as (s' & E & F & H). exists s'. split; [exact E|]. split; auto.
Qed.

Lemma falseness_group_spec sym flags n t : 0 < n <= 256 -> Forall (row_b n) t -> t <> [] ->
  (has flags F_OUT_OF_COURSE = true -> forall x, In x t -> sign sym x = Ret (-1)%Z) ->
  exists N, forall fuel, N <= fuel -> exists g, falseness_group fuel sym flags t = Ret g /\ wf_group g /\ gb g = n /\
    forall x, In x (gv g) <-> forall S, is_subgroup n S ->
      (if has flags F_OUT_OF_COURSE then forall q, row_b n q -> quotient_of t q -> S q else forall f, In f t -> S f) -> S x.
Proof.
  intros Hn HT NE HO. unfold falseness_group.
  assert (PadId : forall g, row_b n g -> pad n g = g).
  { intros g [_ L]. unfold pad. rewrite L, Nat.sub_diag. cbn. now rewrite app_nil_r. }
  assert (MB : forall l, Forall (row_b n) l -> l <> [] -> max_bells l = n).
  { intros l F N. apply Nat.le_antisymm.
    - apply max_bells_le. intros g Hg. rewrite Forall_forall in F. rewrite (proj2 (F g Hg)). lia.
    - destruct l as [|g l]; [congruence|]. inversion_clear F as [|? ? [_ L] _]. rewrite <- L. apply max_bells_ge. now left. }
  assert (R256 : forall l, Forall (row_b n) l -> Forall row256 l).
  { intros l F. eapply Forall_impl; [|exact F]. intros x. apply row_b_256. lia. }
  destruct (has flags F_OUT_OF_COURSE); cbn [negb].
  - destruct (@quotients_spec sym n t Hn HT (HO eq_refl)) as (t2 & E & F2 & H2). rewrite E. cbn [bind].
    destruct (@group_of_spec t2 (R256 _ F2)) as (N & G). exists N. intros fuel Hf. destruct (G fuel Hf) as (g & Eg & Bg & Wg & Hg).
    assert (NE2 : t2 <> []).
    { destruct t as [|x t]; [congruence|]. intros ->. rewrite Forall_forall in HT. assert (Hx := HT x (or_introl eq_refl)).
      apply (proj2 (H2 (id_row n) (row_b_id n))). exists x, x. repeat split; try now left. now apply comp_id_l. }
    rewrite (MB t2 F2 NE2) in *. exists g. split; auto. split; auto. split; auto. intros x. rewrite Hg. unfold generated.
    rewrite Forall_forall in F2. split; intros H S Sg HS; apply H; auto.
    + intros q Hq. rewrite PadId by auto. apply HS; auto. apply H2; auto.
    + intros q Rq Hq. rewrite <- (PadId q Rq). apply HS. now apply H2.
  - destruct (@group_of_spec t (R256 _ HT)) as (N & G). exists N. intros fuel Hf. destruct (G fuel Hf) as (g & Eg & Bg & Wg & Hg).
    rewrite (MB t HT NE) in *. exists g. split; auto. split; auto. split; auto. intros x. rewrite Hg. unfold generated.
    rewrite Forall_forall in HT. split; intros H S Sg HS; apply H; auto; intros q Hq; [rewrite PadId by auto|rewrite <- (PadId q (HT q Hq))]; auto.
Qed.
