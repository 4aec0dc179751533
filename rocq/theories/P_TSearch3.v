(* P_TSearch3.v - what table_search prepares. *)
From Verif Require Import Base M_Bell M_Change M_Math M_Row M_Extent M_Group M_Multtab M_Touch M_PN M_Method M_False M_Search M_TSearch
  Spec_Row Spec_Change Spec_Touch Spec_Group Spec_Multtab Spec_Method Spec_False Spec_Extent Spec_Search
  P_Row P_Perm P_Change2 P_Change3 P_Cycle P_Extent P_Extent2 P_Extent3 P_Group P_Group2 P_Group3 P_Multtab P_Multtab2 P_Touch P_False P_False4 P_Search P_Search2 P_Search3 P_Search4 P_Search5 P_TSearch2 Props_False.
Set Implicit Arguments.
Unset Strict Implicit.
Open Scope nat_scope.

Section Prep.
Variables (m : method) (calls : list change).
Hypothesis WM : wf_method m.
Hypothesis POS : 0 < mb m.
Hypothesis LEN : 1 <= length (mch m).
Hypothesis CALLS : on_b (mb m) calls.
Variable sym : symtab.
Notation b := (mb m).
Notation L := (length (mch m)).
Notation K := (length calls).
Notation lhd := (lhd m calls).
Notation hd := (hd m calls).
Notation bk := (last (mch m) (mkChange 0 [])).

Lemma back_spec : meth_back m = Ret bk.
Proof using POS LEN. unfold meth_back. destruct (mch m) as [|c0 t] eqn:E; [cbn in LEN; lia|]. clear LEN. f_equal. assert (X : forall t (c0 : change) d d', last (c0 :: t) d = last (c0 :: t) d'); [|apply X]. clear. induction t as [|c t IH]; intros c0 d d'; [reflexivity|]. exact (IH c d d'). Qed.
Lemma fp0 c : wf_change c -> cn c <= 256 -> findplace c 0 = true -> swap_pos (cswaps c) 0 = 0.
Proof.
  intros W Hc F. assert (R0 : row256 (id_row 0)) by (split; [apply is_row_id|cbn; lia]). destruct (row_mul_change_spec R0 W Hc) as (r & E & _ & _ & A).
  apply (@findplace_row c 0 (id_row 0) r W Hc R0 E) in F. now rewrite A, !act_id in F.
Qed.
Lemma lead_split i : i <= K -> exists c, In c (bk :: calls) /\ nth_error (bk :: calls) i = Some c /\ cn c = b /\ wf_change c /\ on_b b (removelast (mch m)) /\ on_b b [c] /\ lead_called m calls i = removelast (mch m) ++ [c] /\
  lhd i = comp (row_of b (removelast (mch m))) (row_of b [c]).
Proof using WM POS LEN CALLS.
  intros Hi. destruct (lead_is WM POS LEN CALLS Hi) as (c & N & C1 & C2 & LC). exists c. pose proof (nth_error_In _ _ N) as Hin.
  destruct (mch_split WM POS LEN CALLS) as (l & c' & E & Er & _). pose proof (mch_on WM POS LEN CALLS) as O. rewrite E in O. apply on_b_app in O. destruct O as [O _]. rewrite <- Er in O.
  assert (Oc : on_b b [c]) by (repeat constructor; assumption). repeat (split; [assumption|]). unfold P_Search4.lhd. rewrite LC. apply row_of_app; [exact (b255 WM POS LEN CALLS)|exact O|exact Oc].
Qed.
Lemma mch_is : mch m = removelast (mch m) ++ [bk].
Proof using WM POS LEN CALLS. destruct (mch_split WM POS LEN CALLS) as (l & c & E & Er & El). now rewrite Er, El. Qed.
Lemma lhd0 : lhd 0 = row_of b (mch m).
Proof using WM POS LEN CALLS. unfold P_Search4.lhd. f_equal. destruct (@lead_split 0 ltac:(lia)) as (c & _ & N & _ & _ & _ & _ & -> & _). cbn in N. injection N as <-. symmetry. apply mch_is. Qed.

Lemma ft_spec : exists ft, ts_fixed_treble m calls = Ret ft /\ (ft = true -> forall i, i <= K -> act (lhd i) 0 = 0).
Proof using WM POS LEN CALLS.
  pose proof (b255 WM POS LEN CALLS) as B. unfold ts_fixed_treble. destruct (lh_rung WM) as (r & E & [R1 R2] & A). rewrite E. cbn [bind].
  rewrite (@vget_lt _ r 0 0) by (unfold row in *; lia). cbn [bind]. rewrite <- (@act_nth r 0 0) by (unfold row in *; lia). rewrite A.
  destruct (Nat.eqb_spec (came_from (mch m) 0) 0) as [Z|Z]; cbn [negb]; [|exists false; split; [reflexivity|discriminate]].
  rewrite back_spec. cbn [bind]. destruct (findplace bk 0) eqn:F; cbn [negb]; [|exists false; split; [reflexivity|discriminate]].
  eexists. split; [reflexivity|]. intros FA. rewrite forallb_forall in FA.
  assert (FF : forall c, In c (bk :: calls) -> findplace c 0 = true) by (intros c [<-|Hc]; auto).
  assert (G : forall i, i <= K -> act (lhd i) 0 = came_from (removelast (mch m)) 0).
  { intros i Hi. destruct (lead_split Hi) as (c & Hin & _ & C1 & C2 & O1 & O2 & _ & ->). rewrite act_comp by (apply (row_of_b B O2)). rewrite !act_row_of by assumption. cbn [came_from fold_right]. rewrite fp0; [reflexivity|exact C2|lia|now apply FF]. }
  intros i Hi. rewrite (G i Hi), <- (G 0 ltac:(lia)). rewrite lhd0. rewrite act_row_of; [exact Z|exact B|exact (mch_on WM POS LEN CALLS)].
Qed.
Lemma sign_one c : cn c = b -> wf_change c -> sign sym (row_of b [c]) = Ret (change_sign c).
Proof using WM POS LEN CALLS.
  intros C1 C2. pose proof (b255 WM POS LEN CALLS) as B. assert (O : on_b b [c]) by (repeat constructor; assumption).
  destruct (@ring_all (id_row b) [c]) as (r & E & R). { split; [apply is_row_id|rewrite id_length; lia]. } { now apply (@on_b_ok b). }
  apply (rung_iff B _ O) in R. subst r. cbn [forM] in E. apply bind_ret_inv in E. destruct E as (r & E & E'). injection E' as ->. apply change_sign_row; [exact C2|lia|]. rewrite C1, rounds_id by lia. exact E.
Qed.
Lemma ic_spec : exists ic, ts_in_course sym m calls = Ret ic /\ (ic = true -> forall i, i <= K -> sign sym (lhd i) = Ret 1%Z).
Proof using WM POS LEN CALLS.
  pose proof (b255 WM POS LEN CALLS) as B. unfold ts_in_course. destruct (lh_rung WM) as (r & E & Rr & A). rewrite E. cbn [bind].
  assert (Er : r = lhd 0). { rewrite lhd0. pose proof (mch_on WM POS LEN CALLS) as O. apply (@row_b_ext b); [exact Rr|now apply row_of_b|]. intros i. now rewrite A, act_row_of. }
  destruct (@sign_pm sym r (@row_b_256 b r ltac:(lia) Rr)) as [S|S]; rewrite S; cbn [bind].
  2: { change (-1 =? -1)%Z with true. cbn iota. exists false. split; [reflexivity|discriminate]. }
  change (1 =? -1)%Z with false. cbn iota. rewrite back_spec. cbn [bind]. eexists. split; [reflexivity|]. intros FA. rewrite forallb_forall in FA.
  assert (FF : forall c, In c (bk :: calls) -> change_sign c = change_sign bk) by (intros c [<-|Hc]; [reflexivity|apply Z.eqb_eq; now apply FA]).
  assert (G : forall i, i <= K -> sign sym (lhd i) = sign sym (lhd 0)).
  { assert (X : forall i, i <= K -> exists s, sign sym (row_of b (removelast (mch m))) = Ret s /\ sign sym (lhd i) = Ret (s * change_sign bk)%Z).
    { intros i Hi. destruct (lead_split Hi) as (c & Hin & _ & C1 & C2 & O1 & O2 & _ & ->). destruct (@sign_comp sym b (row_of b (removelast (mch m))) (row_of b [c])) as (s1 & s2 & E1 & E2 & E3); [lia|now apply row_of_b|now apply row_of_b|].
      exists s1. split; [exact E1|]. rewrite sign_one in E2 by assumption. injection E2 as <-. now rewrite <- (FF c Hin). }
    intros i Hi. destruct (X i Hi) as (s & E1 & E2). destruct (X 0 ltac:(lia)) as (s' & E1' & E2'). congruence. }
  intros i Hi. rewrite (G i Hi), <- Er. exact S.
Qed.

(* the rows of the table *)
Definition okr (ft : bool) (r : row) : Prop := row_b b r /\ (ft = true -> act r 0 = 0).
Lemma extent_rows ft fuel : (fac b <= Z.of_nat fuel)%Z -> exists RR, ei_traverse fuel (if ft : bool then ei_begin (b - 1) 1 (b - 1 + 1) else ei_begin b 0 b) (mkEI 0 0 0 true []) = Ret RR /\
  StronglySorted lex_lt RR /\ forall r, In r RR <-> okr ft r.
Proof using WM POS LEN CALLS.
  intros HF. pose proof (b255 WM POS LEN CALLS) as B. destruct ft.
  - assert (H1 : 1 + (b - 1) <= b - 1 + 1) by lia. destruct (@rounds_in_extent (b - 1) 1 (b - 1 + 1) H1 ltac:(lia)) as [I Rk].
    destruct (@ei_traverse_spec (b - 1) 1 (b - 1 + 1) (mkEI 0 0 0 true []) H1 eq_refl fuel (rounds (b - 1 + 1)) I) as (l & E & S & A).
    { rewrite Rk. pose proof (@fac_mono (b - 1) b ltac:(lia)). lia. }
    exists l. split; [exact E|]. split; [exact S|]. intros r. rewrite A. unfold okr, in_extent, row_b. replace (b - 1 + 1) with b by lia. split.
    + intros [(Hr & HL & HM) _]. split; [auto|]. intros _. apply HM. lia.
    + intros [[Hr HL] HM]. assert (X : in_extent (b - 1) 1 b r). { split; [exact Hr|]. split; [exact HL|]. intros i [Hi|Hi]; [replace i with 0 by lia; auto|]. apply act_ge. unfold row in *. lia. }
      split; [exact X|]. replace (b - 1 + 1) with b in Rk by lia. rewrite Rk. replace (b - 1 + 1) with b in H1 by lia. apply (erank_range H1 X).
  - assert (H1 : 0 + b <= b) by lia. destruct (@rounds_in_extent b 0 b H1 ltac:(lia)) as [I Rk].
    destruct (@ei_traverse_spec b 0 b (mkEI 0 0 0 true []) H1 eq_refl fuel (rounds b) I) as (l & E & S & A); [lia|].
    exists l. split; [exact E|]. split; [exact S|]. intros r. rewrite A. unfold okr, in_extent, row_b. split.
    + intros [(Hr & HL & HM) _]. split; [auto|discriminate].
    + intros [[Hr HL] HM]. assert (X : in_extent b 0 b r). { split; [exact Hr|]. split; [exact HL|]. intros i [Hi|Hi]; [lia|]. apply act_ge. unfold row in *. lia. }
      split; [exact X|]. rewrite Rk. apply (erank_range H1 X).
Qed.

(* leads of the kind the table of falsenesses is about *)
Definition tgood (ft ic : bool) (h : row) : Prop := okr ft h /\ (ic = true -> sign sym h = Ret 1%Z).
Lemma okr_comp ft x y : okr ft x -> okr ft y -> okr ft (comp x y).
Proof using WM POS LEN CALLS.
  intros [X1 X2] [Y1 Y2]. pose proof (b255 WM POS LEN CALLS). split; [apply comp_row_b; [exact X1|exact (proj1 Y1)|destruct Y1; lia]|].
  intros F. rewrite act_comp by exact (proj1 Y1). now rewrite Y2, X2.
Qed.
Lemma tgood_comp ft ic x y : tgood ft ic x -> tgood ft ic y -> tgood ft ic (comp x y).
Proof using WM POS LEN CALLS. intros [X1 X2] [Y1 Y2]. pose proof (b255 WM POS LEN CALLS). split; [now apply okr_comp|]. intros I. apply (@even_closed sym b); try (apply X1 || apply Y1); auto; lia. Qed.
Lemma tgood_id ft ic : tgood ft ic (id_row b).
Proof using WM POS LEN CALLS.
  split; [split; [apply row_b_id|intros _; apply act_id]|]. intros _. rewrite <- (@rounds_id b) by (pose proof (b255 WM POS LEN CALLS); lia). apply sign_rounds. pose proof (b255 WM POS LEN CALLS); lia.
Qed.
Lemma false_rows ft ic : exists t, falseness_method sym (ts_flags_of ft ic) m = Ret t /\ Forall (tgood ft ic) t /\ NoDup t /\
  forall h h', tgood ft ic h -> tgood ft ic h' -> ((exists f, In f t /\ comp h f = h') <-> clash m h h').
Proof using WM POS LEN CALLS.
  assert (HF : has (ts_flags_of ft ic) F_HALF_LEAD = false) by (destruct ft, ic; reflexivity).
  assert (H1 : has (ts_flags_of ft ic) F_NO_FIXED_TREBLE = negb ft) by (destruct ft, ic; reflexivity).
  assert (H2 : has (ts_flags_of ft ic) F_IN_COURSE = ic) by (destruct ft, ic; reflexivity).
  assert (H3 : has (ts_flags_of ft ic) F_OUT_OF_COURSE = false) by (destruct ft, ic; reflexivity).
  destruct (@C32_method sym _ m WM POS LEN HF) as (t & E & SS & S). exists t. split; [exact E|].
  assert (SH : forall f, row_b b f -> (leads_share b (mch m) (mch m) L L f <-> exists i j, i < L /\ j < L /\ R m i = comp f (R m j))).
  { intros f Hf. pose proof (b255 WM POS LEN CALLS) as B. pose proof (mch_on WM POS LEN CALLS) as O. unfold leads_share. split.
    - intros (i & j & r & Hi & Hj & R1 & R2). exists i, j. split; [exact Hi|]. split; [exact Hj|].
      apply (rung_iff B _ (on_b_firstn i O)) in R1. fold (R m i) in R1. rewrite <- R1.
      apply (@rung_comp b f (firstn j (mch m)) (R m j) r); [lia|exact Hf|apply on_b_widest; [exact B|now apply on_b_firstn]|apply rung_row_of; [exact B|now apply on_b_firstn]|exact R2].
    - intros (i & j & Hi & Hj & Q). exists i, j, (R m i). split; [exact Hi|]. split; [exact Hj|]. split; [apply rung_row_of; [exact B|now apply on_b_firstn]|].
      apply (@rung_comp b f (firstn j (mch m)) (R m j) (R m i)); [lia|exact Hf|apply on_b_widest; [exact B|now apply on_b_firstn]|apply rung_row_of; [exact B|now apply on_b_firstn]|exact Q]. }
  assert (TG : forall f, In f t <-> tgood ft ic f /\ leads_share b (mch m) (mch m) L L f).
  { intros f. rewrite S. unfold asked_for, tgood, okr. rewrite H1, H2, H3. split.
    - intros (A1 & (A2 & A3 & _) & A4). split; [|exact A4]. split; [split; [exact A1|intros ->; now apply A2]|exact A3].
    - intros (((A1 & A2) & A3) & A4). split; [exact A1|]. split; [|exact A4]. split; [destruct ft; auto; discriminate|]. split; [exact A3|discriminate]. }
  split; [apply Forall_forall; intros f Hf; now apply TG in Hf|]. split; [now apply row_sorted_nodup|].
  pose proof (b255 WM POS LEN CALLS) as B. intros h h' G G'. pose proof G as ((G1 & G2) & G3). pose proof G' as ((G1' & G2') & G3'). split.
  - intros (f & Hf & <-). apply TG in Hf. destruct Hf as (((Rf & _) & _) & Sh). apply (SH f Rf) in Sh. destruct Sh as (i & j & Hi & Hj & Q).
    exists i, j. split; [exact Hi|]. split; [exact Hj|]. rewrite (comp_assoc G1 Rf (R_row WM POS LEN CALLS j)). now rewrite Q.
  - intros (i & j & Hi & Hj & Q). destruct (@inverse_spec h (@row_b_256 b h ltac:(lia) G1)) as (z & Ez & Z1 & Z2 & Z3 & Z4).
    assert (Rz : row_b b z) by (split; [exact (proj1 Z1)|rewrite Z2; exact (proj2 G1)]).
    assert (Rf : row_b b (comp z h')) by (apply comp_row_b; [exact Rz|exact (proj1 G1')|destruct G1'; lia]).
    assert (HF' : comp h (comp z h') = h').
    { apply (@row_b_ext b); [apply comp_row_b; [exact G1|exact (proj1 Rf)|destruct Rf; lia]|exact G1'|]. intros k. rewrite act_comp by exact (proj1 Rf). rewrite act_comp by exact (proj1 G1'). apply Z4. }
    exists (comp z h'). split; [|exact HF']. apply TG. split; [split; [split; [exact Rf|]|]|].
    + intros F. rewrite act_comp by exact (proj1 G1'). rewrite (G2' F). rewrite <- (G2 F) at 1. apply Z3.
    + intros I. destruct (@sign_pm sym (comp z h') (@row_b_256 b _ ltac:(lia) Rf)) as [Y|Y]; [exact Y|exfalso].
      pose proof (@sign_comp sym b h (comp z h') ltac:(lia) G1 Rf) as (s1 & s2 & E1 & E2 & E3). rewrite HF' in E3. rewrite (G3 I) in E1. rewrite (G3' I) in E3. rewrite Y in E2. injection E1 as <-. injection E2 as <-. discriminate.
    + apply (SH _ Rf). exists i, j. split; [exact Hi|]. split; [exact Hj|]. pose proof (R_row WM POS LEN CALLS) as RR. apply (@comp_cancel m h); [exact G1|apply RR|apply comp_row_b; [exact Rf|exact (proj1 (RR j))|destruct (RR j); lia]|].
      rewrite <- (comp_assoc G1 Rf (RR j)). rewrite HF'. exact Q.
Qed.
End Prep.
