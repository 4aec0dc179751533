(* Props_HalfLead.v - C89: what a search asks of the change at the half lead, the quarter lead and of an offset lead head. *)
From Verif Require Import Base M_Bell M_Change M_Row M_Method M_MethSearch M_LeadHeads M_HalfLead Spec_Row Spec_Change Spec_Group Spec_MethSearch Spec_MethUtils Spec_LeadHeads Spec_HalfLead
  P_Row P_MethUtils P_LeadHeads P_LeadHeads2 P_HalfLead.
Set Implicit Arguments.
Unset Strict Implicit.
Open Scope nat_scope.

(* with the treble at the back in the two rows at the half lead, the test ends without an error and
   the answer is whether one of the kinds asked for is there; regular_half is looked for among the
   lead heads of bobs as they were kept by the calls before, at this stage *)
Theorem C89_half_lead : forall A n m ch static, 2 <= n <= 33 -> m <> [] -> Forall (on_bells n) m -> on_bells n ch ->
  act (row_after n m) (n - 1) = 0 -> act (row_after n (m ++ [ch])) (n - 1) = 0 ->
  (static = None \/ exists l, pblh n 1 = Ret l /\ static = Some l) ->
  exists N, forall fuel, N <= fuel -> exists st b, try_halflead_change default_symtab fuel A n static m ch = Ret (st, b) /\
    (b = true <-> half_lead_as_asked A n (row_after n m) (row_after n (m ++ [ch]))) /\ (st = None \/ exists l, pblh n 1 = Ret l /\ st = Some l).
Proof. exact halflead_spec. Qed.
Print Assumptions C89_half_lead.

(* the lead head tested is the one that turns the working bells round by one, seen from the row the
   method starts from; it is tested as any other lead head is (C87) *)
Theorem C89_offset_lead_head : forall A m ch, la_bells A <= 33 -> Forall (on_bells (la_bells A)) m -> on_bells (la_bells A) ch ->
  exists x, lead_head_turned (la_bells A) (la_hunts A) (row_after (la_bells A) (m ++ [ch])) x /\ try_offset_start_change default_symtab A m ch = is_acceptable_leadhead default_symtab A x.
Proof. exact offset_spec. Qed.
Print Assumptions C89_offset_lead_head.
(* there is only one such row *)
Theorem C89_offset_unique : forall n h r x y, row_b n r -> lead_head_turned n h r x -> lead_head_turned n h r y -> x = y.
Proof.
  intros n h r x y Hr [Hx X] [Hy Y]. apply act_ext; [now rewrite (proj2 Hx), (proj2 Hy)|]. intros j Hj. rewrite (proj2 Hx) in Hj.
  destruct Hr as [P L]. destruct (act_surj j P) as (i & E & Hi). rewrite <- E, X, Y by lia. reflexivity.
Qed.
Print Assumptions C89_offset_unique.

(* the change at the quarter lead is taken exactly when it is the same upside down and, when the
   half lead so far is rung backwards and upside down after it, no bell stays in a place too long *)
Theorem C89_quarter_lead : forall blows n hl m ch, n <= 255 -> on_bells n ch -> 0 < hl ->
  exists b, try_quarterlead_change blows n (2 * hl) m ch = Ret b /\
    (b = true <-> ch = change_reverse ch /\ (blows = 0 \/ let half := skipn (length m / hl * hl) m in ~ too_long blows n half ch (map change_reverse (rev half)))).
Proof. exact quarter_spec. Qed.
Print Assumptions C89_quarter_lead.
(* an odd lead fails an assertion *)
Theorem C89_odd_lead : forall blows n k m ch, try_quarterlead_change blows n (2 * k + 1) m ch = Throw AssertFailed.
Proof. intros blows n k m ch. unfold try_quarterlead_change. replace (2 * k + 1) with (1 + k * 2) by lia. rewrite Nat.mod_add by lia. reflexivity. Qed.
Print Assumptions C89_odd_lead.

(* half a lead of plain bob, whose half lead heads are regular; the rows are bells turned round
   backwards after the change and not before it; at the quarter lead a place may be 3 blows long *)
Definition x6 := mkChange 6 [0;2;4].
Definition f16 := mkChange 6 [1;3].
Definition half_pb := [x6; f16; x6; f16; x6].
Example C89_case : Forall (on_bells 6) half_pb /\ on_bells 6 f16 /\ act (row_after 6 half_pb) 5 = 0 /\ act (row_after 6 (half_pb ++ [f16])) 5 = 0 /\
  try_halflead_change default_symtab 20 (mkHlargs false false 1 false false false false true) 6 None half_pb f16 = Ret (Some [0;2;4;1;5;3], true) /\
  try_halflead_change default_symtab 20 (mkHlargs false false 1 true false false false false) 6 None half_pb f16 = Ret (None, true) /\
  try_halflead_change default_symtab 20 (mkHlargs false false 1 false true false false false) 6 None half_pb f16 = Ret (None, false) /\
  try_halflead_change default_symtab 20 (mkHlargs true true 1 false false false false false) 6 None half_pb f16 = Ret (None, false) /\
  try_quarterlead_change 4 6 6 [x6; f16] f16 = Ret true /\ try_quarterlead_change 3 6 6 [f16; f16] f16 = Ret false /\ try_quarterlead_change 4 6 6 [x6; f16] (mkChange 6 [1]) = Ret false.
Proof.
  assert (X : on_bells 6 x6) by (repeat constructor; cbn; lia). assert (F : on_bells 6 f16) by (repeat constructor; cbn; lia).
  split; [repeat (constructor; try assumption)|]. split; [exact F|]. vm_compute. repeat split.
Qed.
