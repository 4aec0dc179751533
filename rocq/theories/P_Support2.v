(* P_Support2.v - the graph of false lead heads. *)
From Verif Require Import Base M_Bell M_Change M_Row M_Group M_Method M_False M_Support Spec_Row Spec_Change Spec_Touch Spec_Extent Spec_Group Spec_Method Spec_False Spec_RowCalc Spec_Support.
From Verif Require Import P_Bell P_Row P_Touch P_Group P_Power P_False P_False3 P_False4 P_RowCalc2 P_Search4 P_Support Props_False Props_RowCalc.
From Verif Require Import M_Row.
Set Implicit Arguments. Unset Strict Implicit.
Open Scope nat_scope.

Section Graph.
Variable n : nat.
Hypothesis N256 : n <= 256.
Variable M : list change.
Hypothesis W : widest M <= n.
Hypothesis RUN : forall j, exists r, rung (id_row n) (firstn j M) r.
Variable P : list nat -> Prop.
Hypothesis PB : forall x, P x -> row_b n x.
Hypothesis PI : P (id_row n).
Hypothesis PC : forall x y, P x -> P y -> P (comp x y).
Hypothesis PV : forall x, P x -> P (inv x).
Notation share := (leads_share n M M (length M) (length M)).
Variable ft : list row.
Hypothesis FT : forall f, In f ft <-> P f /\ share f.

Lemma inv_b x : row_b n x -> row_b n (inv x) /\ comp x (inv x) = id_row n /\ comp (inv x) x = id_row n.
Proof.
  intros B. pose proof (row256_of N256 B) as R. destruct (inv_inverse R) as (_ & [R1 _] & L). destruct (C80_inverse R) as [E1 E2]. destruct B as [_ B]. rewrite B in *. split; [split; auto; congruence|auto].
Qed.
Lemma cancel x y z : row_b n x -> row_b n y -> row_b n z -> comp x y = comp x z -> y = z.
Proof.
  intros Bx By Bz E. destruct (inv_b Bx) as (Bi & _ & E2). apply (f_equal (comp (inv x))) in E. rewrite <- !(comp_assoc (b := n)) in E by auto. rewrite E2, !comp_id_l in E by auto. exact E.
Qed.
Lemma W1 j : widest (firstn j M) <= n.
Proof.
  eapply Nat.le_trans; [|exact W]. clear. revert j. unfold widest. induction M as [|c l IH]; intros [|j]; cbn; try lia. specialize (IH j). cbn in *. lia.
Qed.
Lemma false_leads_comp a f : row_b n a -> row_b n f -> (false_leads M a (comp a f) <-> share f).
Proof.
  intros Ba Bf. assert (Bc : row_b n (comp a f)) by (apply comp_row_b; auto; [apply Bf|destruct Bf; lia]). split.
  - intros (i & j & r & Hi & Hj & R1 & R2). destruct (RUN i) as (b1 & E1). destruct (RUN j) as (b2 & E2).
    assert (B1 : row_b n b1) by (eapply rung_row_b; [apply id_b|apply W1|exact E1]). assert (B2 : row_b n b2) by (eapply rung_row_b; [apply id_b|apply W1|exact E2]).
    apply (rung_comp r N256 Ba (W1 i) E1) in R1. apply (rung_comp r N256 Bc (W1 j) E2) in R2. exists i, j, b1. split; auto. split; auto. split; auto.
    apply (rung_comp b1 N256 Bf (W1 j) E2). apply (cancel (x := a)); auto; [apply comp_row_b; auto; [apply B2|destruct B2; lia]|]. rewrite <- (comp_assoc (b := n)) by auto. congruence.
  - intros (i & j & r & Hi & Hj & R1 & R2). destruct (RUN j) as (b2 & E2). assert (B1 : row_b n r) by (eapply rung_row_b; [apply id_b|apply W1|exact R1]). assert (B2 : row_b n b2) by (eapply rung_row_b; [apply id_b|apply W1|exact E2]).
    apply (rung_comp r N256 Bf (W1 j) E2) in R2. exists i, j, (comp a r). split; auto. split; auto. split; [now apply (rung_comp _ N256 Ba (W1 i) R1)|]. apply (rung_comp _ N256 Bc (W1 j) E2). rewrite R2. symmetry. now apply (comp_assoc (b := n)).
Qed.
Lemma false_sym a b : false_leads M a b -> false_leads M b a.
Proof. intros (i & j & r & Hi & Hj & R1 & R2). exists j, i, r. auto. Qed.
Lemma share_inv f : row_b n f -> share f -> share (inv f).
Proof.
  intros B S. destruct (inv_b B) as (Bi & E1 & E2). apply (false_leads_comp B Bi). rewrite E1. apply false_sym. rewrite <- (comp_id_l B).   apply false_leads_comp; auto using id_b.
Qed.
Lemma FTB : Forall (row_b n) ft.
Proof. apply Forall_forall. intros f Hf. apply PB, FT, Hf. Qed.
Notation edge := (edge n ft).
Notation reach := (reach n ft).
Lemma edge_inv f : edge f -> edge (inv f).
Proof.
  intros [I Nf]. apply FT in I as [Pf Sf]. split; [apply FT; split; auto; apply share_inv; auto|]. intro E. destruct (inv_b (PB Pf)) as (Bi & E1 & E2). rewrite E in E1. rewrite comp_id_r in E1 by auto. congruence.
Qed.
Lemma reach_P r : reach r -> P r.
Proof. induction 1 as [|r f R IH [E _]]; auto. apply PC; auto. now apply FT in E as [E _]. Qed.
Lemma reach_back x f : row_b n x -> edge f -> reach (comp x f) -> reach x.
Proof.
  intros B E R. assert (Bf : row_b n f) by (apply PB; now apply FT, E). destruct (inv_b Bf) as (Bi & E1 & E2). replace x with (comp (comp x f) (inv f)); [apply reach_f; auto; now apply edge_inv|].
  rewrite (comp_assoc (b := n)) by auto. rewrite E1. now apply comp_id_r.
Qed.
Definition some {A} (o : option A) : bool := match o with Some _ => true | None => false end.
Lemma find_same {A} (p q : A -> bool) l : (forall x, In x l -> p x = q x) -> List.find p l = List.find q l.
Proof. induction l as [|x l IH]; cbn [List.find]; intro H; auto. rewrite <- (H x) by now left. destruct (p x); auto. apply IH. intros y Hy. apply H. now right. Qed.
Theorem graph_spec : exists room, forall fuel, room <= fuel -> exists ok m, recurse fuel ft [] (id_row n) 1%Z = Ret (ok, m) /\ (ok = true <-> two_sets P M).
Proof.
  destruct (search_spec N256 FTB) as (room & H). exists room. intros fuel Hf. destruct (H fuel Hf) as (ok & m & E & Y & Z). exists ok, m. split; auto. split.
  - intro O. destruct (Y O) as (K & ED & PM). clear Y Z H E. destruct (all_rows N256) as (all & AL).
    set (here := fun x y => sign_at m (comp (inv y) x)).
    exists (fun x => match List.find (fun y => some (here x y)) all with Some y => match here x y with Some s => (s =? 1)%Z | None => false end | None => false end).
    intros a b Pa Pb Nab F. assert (Ba : row_b n a) by auto. assert (Bb : row_b n b) by auto. destruct (inv_b Ba) as (Bi & E1 & E2).
    set (f := comp (inv a) b). assert (Pf : P f) by (apply PC; auto). assert (Bf : row_b n f) by auto.
    assert (Eb : b = comp a f). { unfold f. rewrite <- (comp_assoc (b := n)) by auto. rewrite E1. symmetry. now apply comp_id_l. }
    assert (Ef : edge f). { split; [apply FT; split; auto; apply (false_leads_comp Ba Bf); congruence|]. intro C. rewrite C in Eb. rewrite comp_id_r in Eb by auto. congruence. }
    assert (STEP : forall y, In y all -> forall s, here a y = Some s -> here b y = Some (- s)%Z).
    { intros y Hy s Hs. apply AL in Hy. destruct (inv_b Hy) as (By & _). unfold here in *. rewrite Eb, <- (comp_assoc (b := n)) by auto. now apply ED. }
    assert (SAME : forall y, In y all -> some (here a y) = some (here b y)).
    { intros y Hy. destruct (here a y) as [s|] eqn:Ha; [now rewrite (STEP y Hy s Ha)|]. destruct (here b y) as [s|] eqn:Hb; auto. exfalso. apply AL in Hy. destruct (inv_b Hy) as (By & _).
      assert (R : reach (comp (inv y) b)) by (apply K; eauto). rewrite Eb, <- (comp_assoc (b := n)) in R by auto. apply reach_back in R; auto; [|apply comp_row_b; auto; [apply Ba|destruct Ba; lia]]. apply K in R as (s' & R). unfold here in Ha. congruence. }
    rewrite <- (find_same SAME). destruct (List.find (fun y => some (here a y)) all) as [y|] eqn:Fy.
    + apply List.find_some in Fy as [Iy Sy]. destruct (here a y) as [s|] eqn:Ha; [|discriminate]. rewrite (STEP y Iy s Ha). destruct (PM _ _ Ha) as [->| ->]; discriminate.
    + exfalso. assert (some (here a a) = false) by (apply (List.find_none _ _ Fy); now apply AL). unfold here in H. rewrite E2 in H. destruct (proj2 (K (id_row n))) as (s & Hs); [apply reach_0|]. rewrite Hs in H. discriminate.
  - intros (side & SD). apply Z. exists (fun x => if Bool.eqb (side x) (side (id_row n)) then 1%Z else (-1)%Z). split; [|now rewrite Bool.eqb_reflx].
    intros r f R Ef. assert (Pr : P r) by now apply reach_P. assert (If : In f ft) by apply Ef. apply FT in If as [Pf Sf].
    assert (D : side r <> side (comp r f)). { apply SD; auto; [|apply false_leads_comp; auto]. intro C. destruct Ef as [_ Nf]. apply Nf. apply (cancel (x := r)); auto using id_b. rewrite comp_id_r by auto. now symmetry. }
    destruct (side r), (side (comp r f)), (side (id_row n)); cbn; congruence.
Qed.
End Graph.
