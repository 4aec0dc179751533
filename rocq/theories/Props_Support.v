(* Props_Support.v - whether a method may have an extent (C82). *)
From Verif Require Import Base M_Bell M_Change M_Row M_Group M_Method M_False M_Search M_TSearch M_Support Spec_Row Spec_Change Spec_Touch Spec_Extent Spec_Group Spec_Method Spec_False Spec_RowCalc Spec_Support.
From Verif Require Import P_Bell P_Row P_Touch P_Group P_Power P_False P_False3 P_False4 P_Cycle P_RowCalc2 P_Support P_Support2 Props_False.
From Verif Require Import M_Row M_Support.
Set Implicit Arguments. Unset Strict Implicit.
Open Scope nat_scope.

Lemma method_runs m : wf_method m -> forall j, exists r, rung (id_row (mb m)) (firstn j (mch m)) r.
Proof.
  intros WF j. assert (O : Forall ok_change (firstn j (mch m))). { apply Forall_forall. intros c Hc. pose proof (wf_ok WF) as F. rewrite Forall_forall in F. apply F. rewrite <- (firstn_skipn j (mch m)). apply in_or_app. now left. }
  destruct (@ring_all (id_row (mb m)) (firstn j (mch m))) as (r & _ & H); eauto. apply (@row256_of (mb m)); [destruct WF; lia|apply id_b].
Qed.
Lemma widest_all m : wf_method m -> widest (mch m) <= mb m.
Proof. intro WF. rewrite <- (firstn_all (mch m)). now apply widest_le. Qed.
Section Heads.
Variable sym : symtab.
Variable n : nat.
Hypothesis N256 : n <= 256.
Lemma lh_id : lead_head n (id_row n).
Proof. split; [apply id_b|]. apply act_id. Qed.
Lemma lh_comp x y : lead_head n x -> lead_head n y -> lead_head n (comp x y).
Proof. intros [Bx Ex] [By Ey]. split; [apply comp_row_b; auto; [apply By|destruct By; lia]|]. rewrite act_comp by apply By. now rewrite Ey. Qed.
Lemma lh_inv x : lead_head n x -> lead_head n (inv x).
Proof.
  intros [Bx Ex]. destruct (inv_b N256 Bx) as (Bi & E1 & E2). split; auto. rewrite <- (act_id n 0) at 2. rewrite <- E2, act_comp by apply Bx. now rewrite Ex.
Qed.
Lemma ph_id : positive_head sym n (id_row n).
Proof. split; [apply lh_id|]. rewrite <- rounds_id by auto. now apply sign_rounds. Qed.
Lemma ph_comp x y : positive_head sym n x -> positive_head sym n y -> positive_head sym n (comp x y).
Proof.
  intros [Hx Sx] [Hy Sy]. split; [now apply lh_comp|]. destruct (@sign_comp sym n x y N256) as (a & b & Ea & Eb & E); [apply Hx|apply Hy|]. rewrite E. rewrite Sx in Ea. rewrite Sy in Eb. injection Ea as <-. injection Eb as <-. reflexivity.
Qed.
Lemma ph_inv x : positive_head sym n x -> positive_head sym n (inv x).
Proof.
  intros [Hx Sx]. split; [now apply lh_inv|]. destruct Hx as [Bx _]. destruct (inv_b N256 Bx) as (Bi & E1 & E2). destruct (@sign_comp sym n x (inv x) N256 Bx Bi) as (a & b & Ea & Eb & E). rewrite E1 in E. rewrite Sx in Ea. injection Ea as <-.
  rewrite <- rounds_id in E by auto. rewrite sign_rounds in E by auto. rewrite Eb. f_equal. assert (Q : (1 * b)%Z = 1%Z) by congruence. lia.
Qed.
End Heads.

(* For every method in which the treble plain hunts (the others are not to be asked about) the answer is yes exactly
   if the lead heads can be put in two sets, so that no two in one set are false against each other. *)
Theorem C82_extent : forall sym m, wf_method m -> 0 < mb m -> 1 <= length (mch m) -> isplain m 0 = true ->
  exists room, forall fuel, room <= fuel -> exists ok, might_support_extent fuel sym m = Ret ok /\
    (ok = true <-> two_sets (lead_head (mb m)) (mch m)).
Proof.
  intros sym m WF B L PL. destruct (@C32_method sym 0%Z m WF B L eq_refl) as (ft & E & _ & FT). assert (N : mb m <= 256) by (destruct WF; lia).
  destruct (@graph_spec (mb m) N (mch m) (widest_all WF) (method_runs WF) (lead_head (mb m)) (fun x H => proj1 H) (lh_id _) (@lh_comp (mb m) N) (@lh_inv (mb m) N) ft) as (room & H).
  { intro f. rewrite FT. unfold asked_for, lead_head. split; [intros (F1 & (F2 & _) & F3); auto|]. intros ((F1 & F2) & F3). split; auto. split; auto. split; auto. split; discriminate. }
  exists room. intros fuel Hf. destruct (H fuel Hf) as (ok & s & ES & I). exists ok. split; auto. unfold might_support_extent. rewrite PL. cbn [negb]. rewrite E. cbn [bind]. rewrite rounds_id by auto. now rewrite ES.
Qed.
Print Assumptions C82_extent.
(* the same for the lead heads which are in course *)
Theorem C82_positive : forall sym m, wf_method m -> 0 < mb m -> 1 <= length (mch m) ->
  exists room, forall fuel, room <= fuel -> exists ok, might_support_positive_extent fuel sym m = Ret ok /\
    (ok = true <-> two_sets (positive_head sym (mb m)) (mch m)).
Proof.
  intros sym m WF B L. destruct (@C32_method sym F_IN_COURSE m WF B L eq_refl) as (ft & E & _ & FT). assert (N : mb m <= 256) by (destruct WF; lia).
  destruct (@graph_spec (mb m) N (mch m) (widest_all WF) (method_runs WF) (positive_head sym (mb m)) (fun x H => proj1 (proj1 H)) (ph_id sym N) (ph_comp N) (ph_inv N) ft) as (room & H).
  { intro f. rewrite FT. unfold asked_for, positive_head, lead_head. split; [intros (F1 & (F2 & F3 & _) & F4); auto|]. intros (((F1 & F2) & F3) & F4). split; auto. split; auto. split; auto. split; auto. discriminate. }
  exists room. intros fuel Hf. destruct (H fuel Hf) as (ok & s & ES & I). exists ok. split; auto. unfold might_support_positive_extent. rewrite E. cbn [bind]. rewrite rounds_id by auto. now rewrite ES.
Qed.
Print Assumptions C82_positive.
(* A method which may have an extent with all the lead heads may have one with those in course. *)
Theorem C82_implies : forall sym m, wf_method m -> 0 < mb m -> 1 <= length (mch m) -> isplain m 0 = true ->
  exists room, forall fuel, room <= fuel -> might_support_extent fuel sym m = Ret true -> might_support_positive_extent fuel sym m = Ret true.
Proof.
  intros sym m WF B L PL. destruct (C82_extent sym WF B L PL) as (r1 & H1). destruct (C82_positive sym WF B L) as (r2 & H2). exists (Nat.max r1 r2). intros fuel Hf E.
  destruct (H1 fuel) as (ok & E1 & I1); [lia|]. destruct (H2 fuel) as (ok2 & E2 & I2); [lia|]. rewrite E2. f_equal. apply I2. assert (ok = true) by congruence. apply I1 in H as (side & S). exists side. intros a b [Pa _] [Pb _]. now apply S.
Qed.
Print Assumptions C82_implies.
(* The method has a clean proof scale on 8 bells or more exactly if no course but the plain course, of those in course
   with the tenors together, has a row in common with the plain course. *)
Theorem C82_cps : forall sym m l, wf_method m -> 8 <= mb m -> 1 <= length (mch m) -> lh m = Ret l -> one_course (mb m) l ->
  exists room, forall fuel, room <= fuel -> exists ok, is_cps fuel sym m = Ret ok /\
    (ok = true <-> forall c, row_b (mb m) c -> act c 0 = 0 -> sign sym c = Ret 1%Z -> (forall i, 6 <= i -> act c i = i) -> courses_share (mb m) (mch m) c -> c = id_row (mb m)).
Proof.
  intros sym m l WF B LN EL OC. destruct (@C33_false_courses sym (FC_IN_COURSE + FC_TENORS)%Z m l WF EL OC) as (room & H). exists room. intros fuel Hf. destruct (H fuel Hf) as (t & E & SS & T).
  assert (N : mb m <= 256) by (destruct WF; lia).
  exists (length t =? 1). split. { unfold is_cps. rewrite (proj2 (Nat.leb_le 8 (mb m)) B), E. reflexivity. }
  assert (I0 : In (id_row (mb m)) t).
  { apply T. split; [apply id_b|]. split; [apply act_id|]. split; [apply act_id|]. split.
    - split; [intros _; rewrite <- rounds_id by auto; now apply sign_rounds|]. intros _ i _. apply act_id.
    - exists (id_row (mb m)). assert (IC : in_course (mch m) (id_row (mb m)) (id_row (mb m))); [|auto]. exists 0, 0. split; [lia|]. cbn. apply rung_nil. apply (@row256_of (mb m)); auto. apply id_b. }
  rewrite Nat.eqb_eq. split.
  - intros L1 c Bc A0 Sc AT CS. destruct t as [|x [|y t]]; try discriminate. destruct I0 as [->|[]]. assert (Ic : In c [id_row (mb m)]); [|destruct Ic as [<-|[]]; auto]. apply T. split; auto. split; auto. split; [apply AT; lia|]. split; auto. split; auto.
  - intro U. destruct t as [|x [|y t]]; [destruct I0|reflexivity|exfalso]. assert (Q : forall z, In z (x :: y :: t) -> z = id_row (mb m)).
    { intros z Hz. apply T in Hz as (Z1 & Z2 & Z3 & (Z4 & Z5) & Z6). apply U; auto. }
    pose proof (Q x (or_introl eq_refl)). pose proof (Q y (or_intror (or_introl eq_refl))). subst x y. inversion SS as [|? ? _ F]; subst. inversion F as [|? ? LT _]; subst. clear - LT. induction (id_row (mb m)) as [|a u IH]; cbn in LT; [auto|]. destruct LT as [LT|[_ LT]]; [lia|auto].
Qed.
Print Assumptions C82_cps.

Definition doubles (pn : string) : method := mkMethod (match M_PN.interpret_pn default_symtab 5 (str pn) with Ret l => l | _ => [] end) 5.
Definition plain_bob : method := doubles "5.1.5.1.5.1.5.1.5.125".
Example C82_case : wf_method plain_bob /\ 1 <= length (mch plain_bob) /\ isplain plain_bob 0 = true /\
  might_support_extent 200 default_symtab plain_bob = Ret true /\ might_support_positive_extent 200 default_symtab plain_bob = Ret true /\
  might_support_positive_extent 200 default_symtab (doubles "5.1.5.123.5.1.5.123.5.125") = Ret false.
Proof.
  split.
  { split; [cbn; lia|]. split; [vm_compute; discriminate|]. let l := eval vm_compute in (mch plain_bob) in change (mch plain_bob) with l. repeat (apply Forall_cons; [split; [reflexivity|]|]); try apply Forall_nil; unfold wf_change; cbn; intuition lia. }
  split; [vm_compute; lia|]. repeat split; vm_compute; reflexivity.
Qed.
(* a method in which the treble does not plain hunt stops the program *)
Theorem C82_not_plain : forall fuel sym m, isplain m 0 = false -> might_support_extent fuel sym m = Throw AssertFailed.
Proof. intros fuel sym m H. unfold might_support_extent. now rewrite H. Qed.
Print Assumptions C82_not_plain.
