(* P_Splices.v - splices: the falseness table, the group and the sets of lead heads. *)
From Verif Require Import Base M_Bell M_Change M_Math M_Row M_Extent M_Group M_Touch M_PN M_Method M_False M_Splices
  Spec_Row Spec_Change Spec_Touch Spec_Extent Spec_Cycle Spec_Group Spec_Method Spec_False Spec_RowCalc Spec_Splices
  P_Row P_Change2 P_Cycle P_Order P_Perm P_Extent P_Group P_Group2 P_Touch P_Method P_RowCalc P_RowCalc2 P_False P_False2 P_False4 Props_False Props_RowCalc.
From Coq Require Import Permutation.
Set Implicit Arguments.
Unset Strict Implicit.
Open Scope nat_scope.

Section Heads.
Variables (sym : symtab) (n : nat) (ic : bool).
Hypothesis (N0 : 0 < n) (N256 : n <= 256).
Notation LH := (lead_head sym n ic).

Lemma inv_b x : row_b n x -> row_b n (inv x) /\ comp x (inv x) = id_row n /\ comp (inv x) x = id_row n.
Proof.
  intros B. pose proof (row_b_256 N256 B) as R. destruct (inv_inverse R) as (_ & [R1 _] & L). destruct (C80_inverse R) as [E1 E2]. destruct B as [_ B]. rewrite B in *. split; [split; auto; congruence|auto].
Qed.
Lemma comp_b x y : row_b n x -> row_b n y -> row_b n (comp x y).
Proof. intros Hx [P L]. apply comp_row_b; auto. lia. Qed.
Lemma lh_id : LH (id_row n).
Proof. split; [apply row_b_id|]. split; [apply act_id|]. intros _. rewrite <- rounds_id by exact N256. now apply sign_rounds. Qed.
Lemma lh_comp x y : LH x -> LH y -> LH (comp x y).
Proof.
  intros (Bx & Tx & Sx) (By & Ty & Sy). split; [now apply comp_b|]. split; [rewrite act_comp by apply By; congruence|].
  intros I. destruct (@sign_comp sym n x y N256 Bx By) as (sx & sy & E1 & E2 & E3). rewrite (Sx I) in E1. rewrite (Sy I) in E2. injection E1 as <-. injection E2 as <-. exact E3.
Qed.
Lemma lh_inv x : LH x -> LH (inv x).
Proof.
  intros (Bx & Tx & Sx). destruct (inv_b Bx) as (Bi & E1 & E2). split; [exact Bi|]. split.
  - apply (f_equal (fun z => act z 0)) in E2. rewrite act_comp, act_id, Tx in E2 by apply Bx. exact E2.
  - intros I. destruct (@sign_comp sym n x (inv x) N256 Bx Bi) as (sx & sy & S1 & S2 & S3). rewrite (Sx I) in S1. injection S1 as <-. rewrite E1, Z.mul_1_l in S3.
    assert (S4 : sign sym (id_row n) = Ret 1%Z) by (rewrite <- rounds_id by exact N256; now apply sign_rounds). congruence.
Qed.
Lemma comp_inv_l x y : row_b n x -> row_b n y -> comp (inv x) (comp x y) = y.
Proof. intros Bx By. destruct (inv_b Bx) as (Bi & E1 & E2). rewrite <- (comp_assoc (b := n)) by auto. rewrite E2. now apply comp_id_l. Qed.
Lemma comp_inv_r x y : row_b n x -> row_b n y -> comp x (comp (inv x) y) = y.
Proof. intros Bx By. destruct (inv_b Bx) as (Bi & E1 & E2). rewrite <- (comp_assoc (b := n)) by auto. rewrite E1. now apply comp_id_l. Qed.
Lemma comp_inj x y z : row_b n x -> row_b n y -> row_b n z -> comp x y = comp x z -> y = z.
Proof. intros Bx By Bz E. rewrite <- (comp_inv_l Bx By), E. now apply comp_inv_l. Qed.

(* --- the leads --- *)
Variables A B : list change.
Hypothesis (WA : widest A <= n) (WB : widest B <= n).
Hypothesis RA : forall i, i < length A -> exists r, rung (id_row n) (firstn i A) r.
Hypothesis RB : forall i, i < length B -> exists r, rung (id_row n) (firstn i B) r.
Variable t V : list row.
Hypothesis FT : forall f, In f t <-> LH f /\ leads_share n A B (length A) (length B) f.
Hypothesis VG : is_subgroup n (fun x => In x V).
Hypothesis VT : forall x, In x V <-> forall S, is_subgroup n S -> (forall f, In f t -> S f) -> S x.

Lemma widest_firstn (M : list change) j : widest (firstn j M) <= widest M.
Proof. revert j. induction M as [|c l IH]; intros [|j]; cbn; try lia. specialize (IH j). unfold widest in IH. lia. Qed.

Lemma t_in_V f : In f t -> In f V.
Proof. intros H. apply VT. intros S _ F. now apply F. Qed.
Lemma V_lh x : In x V -> LH x.
Proof.
  intros H. apply (proj1 (VT x) H).
  - apply subset_group; [exact N256|intros y Hy; apply Hy|exact lh_id|exact lh_comp].
  - intros f Hf. now apply FT in Hf.
Qed.

Lemma splice_closed S : splice sym n ic A B S <-> (forall h, S h = true -> LH h) /\ (forall h g, S h = true -> In g V -> S (comp h g) = true).
Proof.
  split.
  - intros [SL SP]. split; [exact SL|]. intros h g Sh Hg. revert h Sh.
    assert (X : LH g /\ forall h, S h = true -> S (comp h g) = true); [|apply X].
    apply (proj1 (VT g) Hg (fun g => LH g /\ forall h, S h = true -> S (comp h g) = true)).
    + apply subset_group; [exact N256|intros x [Hx _]; apply Hx| |].
      * split; [exact lh_id|]. intros h Sh. rewrite comp_id_r; [exact Sh|]. apply (SL h Sh).
      * intros x y [Lx Hx] [Ly Hy]. split; [now apply lh_comp|]. intros h Sh. rewrite <- (comp_assoc (b := n)); [|apply (SL h Sh)|apply Lx|apply Ly]. auto.
    + intros f Hf. apply FT in Hf as [Lf (i & j & r & Hi & Hj & R1 & R2)]. split; [exact Lf|]. intros h Sh. assert (Lh := SL h Sh). destruct (S (comp h f)) eqn:E; [reflexivity|]. exfalso.
      assert (W1 : widest (firstn i A) <= n) by (pose proof (widest_firstn A i); lia). assert (W2 : widest (firstn j B) <= n) by (pose proof (widest_firstn B j); lia).
      destruct (RB Hj) as (b2 & E2). assert (Br : row_b n r) by (eapply rung_row_b; [apply row_b_id|exact W1|exact R1]). assert (B2 : row_b n b2) by (eapply rung_row_b; [apply row_b_id|exact W2|exact E2]).
      apply (rung_comp r N256 (proj1 Lf) W2 E2) in R2. apply (SP h (comp h f) (comp h r) Sh); [now apply lh_comp|exact E|exists i|exists j].
      * split; [exact Hi|]. now apply (rung_comp _ N256 (proj1 Lh) W1 R1).
      * split; [exact Hj|]. apply (rung_comp _ N256 (comp_b (proj1 Lh) (proj1 Lf)) W2 E2). rewrite R2. symmetry. apply (comp_assoc (b := n)); [apply Lh|apply Lf|exact B2].
  - intros [SL SC]. split; [exact SL|]. intros h1 h2 r S1 L2 S2 (i & Hi & R1) (j & Hj & R2). assert (L1 := SL h1 S1).
    assert (W1 : widest (firstn i A) <= n) by (pose proof (widest_firstn A i); lia). assert (W2 : widest (firstn j B) <= n) by (pose proof (widest_firstn B j); lia).
    destruct (RA Hi) as (b1 & E1). destruct (RB Hj) as (b2 & E2). assert (B1 : row_b n b1) by (eapply rung_row_b; [apply row_b_id|exact W1|exact E1]). assert (B2 : row_b n b2) by (eapply rung_row_b; [apply row_b_id|exact W2|exact E2]).
    apply (rung_comp r N256 (proj1 L1) W1 E1) in R1. apply (rung_comp r N256 (proj1 L2) W2 E2) in R2.
    set (f := comp (inv h1) h2). assert (Lf : LH f) by (apply lh_comp; [now apply lh_inv|exact L2]).
    assert (If : In f V). { apply t_in_V, FT. split; [exact Lf|]. exists i, j, b1. split; [exact Hi|]. split; [exact Hj|]. split; [exact E1|].
      apply (rung_comp _ N256 (proj1 Lf) W2 E2). apply (@comp_inj h1); [apply L1|exact B1|apply comp_b; [apply Lf|exact B2]|].
      rewrite <- R1, R2. unfold f. rewrite <- (comp_assoc (b := n)); [|apply L1|apply Lf|exact B2]. rewrite comp_inv_r; [reflexivity|apply L1|apply L2]. }
    specialize (SC h1 f S1 If). unfold f in SC. rewrite comp_inv_r in SC; [congruence|apply L1|apply L2].
Qed.

Definition row_dec : forall x y : list nat, {x = y} + {x <> y} := list_eq_dec Nat.eq_dec.
Definition in_V (x : list nat) : bool := if in_dec row_dec x V then true else false.
Lemma in_V_spec x : in_V x = true <-> In x V.
Proof. unfold in_V. destruct (in_dec row_dec x V); intuition discriminate. Qed.
Lemma splice_V : splice sym n ic A B in_V.
Proof.
  apply splice_closed. split; [intros h H; apply in_V_spec in H; now apply V_lh|]. intros h g H1 H2. apply in_V_spec in H1. apply in_V_spec. now apply VG.
Qed.
Hypothesis VN : NoDup V.
Lemma smallest_V : leads_of in_V (length V) /\ 0 < length V /\
  forall S k, splice sym n ic A B S -> leads_of S k -> 0 < k -> length V <= k.
Proof.
  split; [|split].
  - exists V. split; [exact VN|]. split; [intros h; now rewrite in_V_spec|reflexivity].
  - assert (I : In (id_row n) V) by apply VG. destruct V; [destruct I|cbn; lia].
  - intros S k SP (l & ND & E & <-) K. apply splice_closed in SP as [SL SC]. destruct l as [|h l']; [cbn in K; lia|]. set (l := h :: l') in *.
    assert (Sh : S h = true) by (apply E; now left). replace (length V) with (length (map (comp h) V)) by apply map_length. apply NoDup_incl_length.
    + assert (X : forall x y, In x V -> In y V -> comp h x = comp h y -> x = y).
      { intros x y Hx Hy. apply comp_inj; [apply (SL h Sh)|now apply (V_lh Hx)|now apply (V_lh Hy)]. }
      clear -VN X. revert VN X. clear. induction V as [|x v IH]; intros VN X; [constructor|]. inversion_clear VN as [|? ? Hx VN1]. cbn [map]. constructor.
      * intros I. apply in_map_iff in I as (y & Ey & Hy). apply X in Ey; [subst; auto|now right|now left].
      * apply IH; [exact VN1|]. intros y z Hy Hz. apply X; now right.
    + intros x Hx. apply in_map_iff in Hx as (g & <- & Hg). apply E. now apply SC.
Qed.
Lemma both_iff : (exists S, splice sym n ic A B S /\ both_rung sym n ic S) <-> exists h, LH h /\ ~ In h V.
Proof.
  split.
  - intros (S & SP & (h & Sh) & h2 & L2 & S2). apply splice_closed in SP as [SL SC]. exists (comp (inv h) h2). split; [apply lh_comp; [apply lh_inv; auto|exact L2]|].
    intros I. specialize (SC h _ Sh I). rewrite comp_inv_r in SC; [congruence|apply (SL h Sh)|apply L2].
  - intros (h & L & NI). exists in_V. split; [exact splice_V|]. split.
    + exists (id_row n). apply in_V_spec, VG.
    + exists h. split; [exact L|]. destruct (in_V h) eqn:E; [|reflexivity]. now apply in_V_spec in E.
Qed.
End Heads.
