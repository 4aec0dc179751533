(* Props_LeadHeads.v - C87: which lead heads and half lead heads a search asks for. *)
From Verif Require Import Base M_Bell M_Change M_Row M_LeadHeads Spec_Row Spec_Group Spec_LeadHeads P_Row P_LeadHeads P_LeadHeads2.
Set Implicit Arguments.
Unset Strict Implicit.
Open Scope nat_scope.

(* a lead head that leaves the hunt bells at home is taken exactly when the working bells all do
   the same work, unless that is not asked for, and it is one of the kind asked for *)
Theorem C87_lead_head : forall A lh, la_bells A <= 33 -> 1 <= la_front A -> la_front A - 1 + la_hunts A <= la_bells A -> 2 <= la_bells A - la_hunts A ->
  row_b (la_bells A) lh -> (forall i, hunt (la_front A - 1) (la_hunts A) i -> act lh i = i) ->
  exists b, is_acceptable_leadhead default_symtab A lh = Ret b /\
    (b = true <-> (la_all A = true \/ one_orbit (la_bells A) (la_front A - 1) (la_hunts A) lh) /\
      (if la_pb A then plain_bob_lh (la_bells A) (la_hunts A) lh
       else if la_cyclic A then cyclic_lh (la_bells A) (la_hunts A) lh
       else if la_regular A then exists h, h <= la_bells A /\ fixed_bells h lh /\ plain_bob_lh (la_bells A) h lh else True)).
Proof. exact acceptable_spec. Qed.
Print Assumptions C87_lead_head.

Theorem C87_cyclic_lead_head : forall n h lh, row_b n lh -> h < n -> exists b, is_cyclic_le lh h = Ret b /\ (b = true <-> cyclic_lh n h lh).
Proof. intros n h lh R H. now apply cyclic_le_spec. Qed.
Print Assumptions C87_cyclic_lead_head.

Theorem C87_cyclic_half : forall n hl, row_b n hl -> 2 <= n -> act hl (n - 1) = 0 -> exists b, is_cyclic_hl hl = Ret b /\ (b = true <-> cyclic_half n hl).
Proof. intros n hl R H T. now apply cyclic_hl_spec. Qed.
Print Assumptions C87_cyclic_half.

Theorem C87_rev_cyclic_half : forall n hl, row_b n hl -> 2 <= n -> act hl (n - 1) = 0 -> exists b, is_rev_cyclic_hl hl = Ret b /\ (b = true <-> rev_cyclic_half n hl).
Proof. intros n hl R H T. now apply rev_cyclic_hl_spec. Qed.
Print Assumptions C87_rev_cyclic_half.

(* with another bell at the back the two tests fail an assertion *)
Theorem C87_treble_last : forall n hl, row_b n hl -> 1 <= n -> act hl (n - 1) <> 0 -> is_cyclic_hl hl = Throw AssertFailed /\ is_rev_cyclic_hl hl = Throw AssertFailed.
Proof.
  intros n hl [P L] N H. unfold is_cyclic_hl, is_rev_cyclic_hl. rewrite L. destruct (Nat.eqb_spec n 0); [lia|].
  rewrite (@vget_lt nat _ _ 0) by lia. cbn [bind]. rewrite act_nth_lt by lia. apply Nat.eqb_neq in H. rewrite H. auto.
Qed.
Print Assumptions C87_treble_last.

(* the first call, or a later one at the same stage: the loops end, and the answer is whether the
   half lead head is that of a regular method *)
Theorem C87_regular_half : forall n hl static, 1 <= n <= 33 -> row_b n hl -> (static = None \/ exists l, pblh n 1 = Ret l /\ static = Some l) ->
  exists N l, pblh n 1 = Ret l /\ forall fuel, N <= fuel -> exists b, is_regular_hl default_symtab fuel static n hl = Ret (Some l, b) /\ (b = true <-> regular_half n hl).
Proof. exact regular_hl_spec. Qed.
Print Assumptions C87_regular_half.

(* ... but after a call on another number of bells a regular half lead head may be refused *)
Theorem C87_second_stage_refuted : ~ forall n hl m hl0, 1 <= n <= 33 -> 1 <= m <= 33 -> row_b n hl -> row_b m hl0 -> forall fuel static b0 static' b,
  is_regular_hl default_symtab fuel None m hl0 = Ret (static, b0) -> is_regular_hl default_symtab fuel static n hl = Ret (static', b) -> regular_half n hl -> b = true.
Proof.
  intros H. specialize (H 8 [5;7;3;6;1;4;2;0] 6 [5;4;3;2;1;0] ltac:(lia) ltac:(lia)).
  assert (R8 : row_b 8 [5;7;3;6;1;4;2;0]). { split; [|reflexivity]. apply is_row_iff. split; [repeat constructor; cbn; intuition discriminate|]. cbn. intros b Hb. intuition (subst; lia). }
  assert (R6 : row_b 6 [5;4;3;2;1;0]). { split; [|reflexivity]. apply is_row_iff. split; [repeat constructor; cbn; intuition discriminate|]. cbn. intros b Hb. intuition (subst; lia). }
  specialize (H R8 R6 20 (Some [0;2;4;1;5;3]) true (Some [0;2;4;1;5;3]) false eq_refl eq_refl). assert (X : regular_half 8 [5;7;3;6;1;4;2;0]); [|specialize (H X); discriminate].
  exists [0;2;4;1;6;3;7;5], 1. split; [reflexivity|]. left. intros i Hi. do 8 (destruct i as [|i]; [reflexivity|]). lia.
Qed.
Print Assumptions C87_second_stage_refuted.

Definition minor (all pb cyclic regular : bool) : lhargs := mkLhargs 6 1 1 all pb cyclic regular.
Example C87_case_plain_bob :
  is_acceptable_leadhead default_symtab (minor false true false false) [0;2;4;1;5;3] = Ret true /\
  is_acceptable_leadhead default_symtab (minor false true false false) [0;2;3;4;5;1] = Ret false /\
  is_acceptable_leadhead default_symtab (minor false false true false) [0;2;3;4;5;1] = Ret true /\
  is_acceptable_leadhead default_symtab (minor false false false false) [0;2;1;4;5;3] = Ret false /\
  is_acceptable_leadhead default_symtab (minor true false false false) [0;2;1;4;5;3] = Ret true.
Proof. repeat split; reflexivity. Qed.
Example C87_case_hypotheses : row_b 6 [0;2;4;1;5;3] /\ one_orbit 6 0 1 [0;2;4;1;5;3] /\ plain_bob_lh 6 1 [0;2;4;1;5;3].
Proof.
  assert (R6 : row_b 6 [0;2;4;1;5;3]). { split; [|reflexivity]. apply is_row_iff. split; [repeat constructor; cbn; intuition discriminate|]. cbn. intros b Hb. intuition (subst; lia). }
  split; [exact R6|]. assert (HF : forall i, hunt 0 1 i -> act [0;2;4;1;5;3] i = i). { intros i Hi. unfold hunt in Hi. assert (i = 0) by lia. now subst i. }
  destruct (@C87_lead_head (minor false true false false) [0;2;4;1;5;3]) as (b & E & S); try (cbn; lia); auto.
  assert (b = true) by (assert (Ret b = Ret true) by (rewrite <- E; reflexivity); congruence). apply S in H as [[H|H] P]; [discriminate|]. split; assumption.
Qed.
Example C87_case_half : is_cyclic_hl [2;3;4;5;1;0] = Ret true /\ is_rev_cyclic_hl [5;4;3;2;1;0] = Ret true /\ is_cyclic_hl [5;4;3;2;1;0] = Ret false /\
  is_regular_hl default_symtab 20 None 6 [5;4;3;2;1;0] = Ret (Some [0;2;4;1;5;3], true) /\ is_regular_hl default_symtab 20 None 6 [5;3;4;1;2;0] = Ret (Some [0;2;4;1;5;3], true) /\
  is_regular_hl default_symtab 20 None 6 [2;3;4;5;1;0] = Ret (Some [0;2;4;1;5;3], false).
Proof. repeat split; reflexivity. Qed.
