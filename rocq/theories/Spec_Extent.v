(* Spec_Extent.v - extents: rows with some bells fixed, and their order. *)
From Verif Require Import Base Spec_Row M_Change Spec_Change.
Set Implicit Arguments.
Unset Strict Implicit.
Open Scope nat_scope.

(* r is a row on nt bells in which only the bells nh .. nh+nw-1 move *)
Definition in_extent (nw nh nt : nat) (r : list nat) : Prop :=
  is_row r /\ length r = nt /\ forall i, i < nh \/ nh + nw <= i -> act r i = i.

(* dictionary order *)
Fixpoint lex_lt (a b : list nat) : Prop :=
  match a, b with
  | _, [] => False
  | [], _ :: _ => True
  | x :: a', y :: b' => x < y \/ (x = y /\ lex_lt a' b')
  end.

(* the list l is the extent in order: every row of it once, increasing *)
Definition extent_in_order (P : list nat -> Prop) (l : list (list nat)) : Prop :=
  StronglySorted lex_lt l /\ forall r, In r l <-> P r.

(* n! *)
Fixpoint fac (n : nat) : Z := match n with O => 1 | S k => Z.of_nat n * fac k end%Z.

(* changes on nt bells that move only the places nh .. nh+nw-1 *)
Definition in_changes (nw nh nt : nat) (c : change) : Prop :=
  cn c = nt /\ wf_change c /\ forall s, In s (cswaps c) -> nh <= s /\ s + 2 <= nh + nw.
