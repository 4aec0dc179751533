(* Props_Touch.v - property theorems about blocks of rows and touches. *)
From Verif Require Import Base M_Bell M_Change M_Row M_Touch Spec_Row Spec_Change Spec_Touch P_Touch P_Touch2.
Set Implicit Arguments.
Unset Strict Implicit.
Open Scope nat_scope.

(* C34: how many rows a block has *)
Theorem C34_size : forall c, row_block_base_size c false false = length c + 1 /\
  row_block_base_size c false true = length c /\
  row_block_base_size c true false = length c / 2 + 1 /\
  row_block_base_size c true true = length c / 2.
Proof. intros c. repeat split. Qed.
Print Assumptions C34_size.

(* starting from a given row; row j is the start with the first j changes rung *)
Theorem C34_block_from_row : forall c r half no_final, Forall ok_change c -> row256 r ->
  exists b, row_block_from c r half no_final = Ret b /\
    block_rows c r (row_block_base_size c half no_final) b.
Proof. exact row_block_from_spec. Qed.
Print Assumptions C34_block_from_row.

(* starting from rounds *)
Theorem C34_block_from_rounds : forall c0 c half no_final, Forall ok_change (c0 :: c) ->
  0 < row_block_base_size (c0 :: c) half no_final ->
  exists b, row_block_make (c0 :: c) half no_final = Ret b /\
    block_rows (c0 :: c) (rounds (cn c0)) (row_block_base_size (c0 :: c) half no_final) b.
Proof. exact row_block_make_spec. Qed.
Print Assumptions C34_block_from_rounds.

(* without changes the rounds constructor leaves default rows *)
Theorem C34_block_no_changes : forall half no_final,
  row_block_make [] half no_final = Ret (mkRB (repeat [] (if no_final then 0 else 1)) []).
Proof. intros [|] [|]; reflexivity. Qed.
Print Assumptions C34_block_no_changes.

(* recalculate(k): rows 0..k are kept, and the later ones follow from row k *)
Theorem C34_recalculate : forall b k, k < length (rb_rows b) -> length (rb_rows b) <= length (rb_ch b) + 1 ->
  Forall ok_change (rb_ch b) -> row256 (nth k (rb_rows b) []) ->
  exists b', recalculate b k = Ret b' /\ rb_ch b' = rb_ch b /\ length (rb_rows b') = length (rb_rows b) /\
    firstn (S k) (rb_rows b') = firstn (S k) (rb_rows b) /\
    forall j, k <= j < length (rb_rows b) ->
      rung (nth k (rb_rows b) []) (firstn (j - k) (skipn k (rb_ch b))) (nth j (rb_rows b') []).
Proof. exact recalculate_spec. Qed.
Print Assumptions C34_recalculate.

(* a single change with both flags: the block has no row to put rounds in *)
Theorem C34_one_change_refuted : forall c, row_block_make [c] true true = UB.
Proof. reflexivity. Qed.
Print Assumptions C34_one_change_refuted.

Definition ch4 (l : list nat) : change := mkChange 4 l.
Example C34_case : Forall ok_change [ch4 [0;2]; ch4 [1]; ch4 [0;2]] /\
  row_block_make [ch4 [0;2]; ch4 [1]; ch4 [0;2]] false false =
  Ret (mkRB [[0;1;2;3]; [1;0;3;2]; [1;3;0;2]; [3;1;2;0]] [ch4 [0;2]; ch4 [1]; ch4 [0;2]]).
Proof.
  split; [|vm_compute; reflexivity].
  assert (X : forall l, wf_change (ch4 l) -> ok_change (ch4 l)) by (intros l H; split; [exact H|cbn [ch4 cn]; apply Nat.leb_le; reflexivity]).
  repeat (constructor; [apply X; cbv; lia|]). constructor.
Qed.
Example C34_case_rung : rung [0;1;2;3] [ch4 [0;2]; ch4 [1]] [1;3;0;2].
Proof.
  split; [split|split].
  - apply is_row_iff. split; [repeat constructor; cbn; intuition lia|]. cbn. intros b H. intuition lia.
  - cbn. lia.
  - reflexivity.
  - intros i. do 4 (destruct i as [|i]; [reflexivity|]). rewrite !act_ge; [|cbn; unfold came_from; cbn|cbn; lia]; [|].
    + cbn. unfold swap_pos. cbn. repeat destruct Nat.eq_dec; try lia; reflexivity.
    + cbn. unfold swap_pos. cbn. repeat destruct Nat.eq_dec; try lia.
Qed.

(* C35: iterating over a touch gives each child's changes, repeated as often as it
   says, in order, however deeply the nodes are nested *)
Theorem C35_touch_iteration : forall n fuel, well_made n -> length (flatten n) <= fuel ->
  touch_changes fuel (Some n) = Ret (flatten n).
Proof. exact touch_spec. Qed.
Print Assumptions C35_touch_iteration.

(* two iterators got by stepping from the beginning are equal iff the steps are as many;
   after as many steps as there are changes the iterator is at the end *)
Fixpoint stepped (k : nat) (i : iter) : outcome iter := match k with O => Ret i | S k => i <- stepped k i ;; incr i end.
Theorem C35_positions : forall n j k, well_made n -> j <= length (flatten n) -> k <= length (flatten n) ->
  exists a b, stepped j (node_begin n) = Ret a /\ stepped k (node_begin n) = Ret b /\
    iter_eqb a b = Ret (j =? k) /\ iter_eqb a (node_end n) = Ret (j =? length (flatten n)) /\
    (forall c, nth_error (flatten n) j = Some c -> deref a = Ret c).
Proof.
  intros n j k W Hj Hk. change stepped with steps. destruct (steps_at W Hj) as (a & Ea & A). destruct (steps_at W Hk) as (b & Eb & B).
  exists a, b. split; [exact Ea|]. split; [exact Eb|]. split; [|split].
  - rewrite (at_eqb A B), !skipn_length. f_equal. destruct (Nat.eqb_spec j k); [apply Nat.eqb_eq|apply Nat.eqb_neq]; lia.
  - rewrite (at_end A). f_equal. destruct (skipn j (flatten n)) eqn:E; assert (L : length (skipn j (flatten n)) = length (flatten n) - j) by apply skipn_length;
      rewrite E in L; cbn in L; symmetry; [apply Nat.eqb_eq|apply Nat.eqb_neq]; lia.
  - intros c Hc. destruct (skipn j (flatten n)) as [|x r] eqn:E.
    + assert (L : length (skipn j (flatten n)) = length (flatten n) - j) by apply skipn_length. rewrite E in L. cbn in L.
      assert (j < length (flatten n)) by (apply nth_error_Some; congruence). lia.
    + destruct (at_step A) as [D _]. rewrite D. f_equal.
      clear -E Hc. revert j E Hc. generalize (flatten n) as l. induction l as [|y l IH]; intros [|j] E Hc; cbn in *; try discriminate; [congruence|eauto].
Qed.
Print Assumptions C35_positions.

Theorem C35_no_head : forall fuel, touch_changes fuel None = Ret [].
Proof. exact touch_null. Qed.
Print Assumptions C35_no_head.

(* a child without changes is dereferenced *)
Theorem C35_empty_child_refuted : forall k fuel t,
  touch_changes (S fuel) (Some (Children ((k, Changes []) :: t))) = UB.
Proof. exact touch_empty_child. Qed.
Print Assumptions C35_empty_child_refuted.

(* a child repeated no times is not skipped: iteration never ends normally *)
Theorem C35_zero_times_refuted : forall fuel k c l, (k <= 0)%Z ->
  touch_changes fuel (Some (Children [(k, Changes [c])])) <> Ret l.
Proof. exact touch_count_0. Qed.
Print Assumptions C35_zero_times_refuted.

Definition C35_touch : node :=
  Children [(2%Z, Changes [ch4 [0;2]; ch4 [1]]); (1%Z, Children [(3%Z, Changes [ch4 [0]]); (1%Z, Changes [ch4 [2]])])].
Example C35_case : well_made C35_touch /\
  map cswaps (flatten C35_touch) = [[0;2]; [1]; [0;2]; [1]; [0]; [0]; [0]; [2]].
Proof. split; [|reflexivity]. cbn [well_made C35_touch]. repeat split; try discriminate. Qed.
