(* Spec_Proof.v - specification of proving: histories of adding and removing rows
   and taking branches, and what they leave outstanding. *)
From Verif Require Import Base M_Row M_Proof.
Open Scope nat_scope.

Definition req := list_eq_dec Nat.eq_dec.

(* --- specification: histories --- *)
Inductive op := Add (r : row) | Remove (r : row) | Branch.

Fixpoint run (p : prover) (ops : list op) : outcome prover :=
  match ops with
  | [] => Ret p
  | Add r :: t => run (fst (add_row p r)) t
  | Remove r :: t => p' <- remove_row p r ;; run p' t
  | Branch :: t => run (create_branch p) t
  end.

(* delete one occurrence *)
Fixpoint remove1 (r : row) (l : list row) : list row :=
  match l with [] => [] | a :: t => if req a r then t else a :: remove1 r t end.

(* the rows outstanding after a history, newest first *)
Fixpoint outstanding (l : list row) (ops : list op) : list row :=
  match ops with
  | [] => l
  | Add r :: t => outstanding (r :: l) t
  | Remove r :: t => outstanding (remove1 r l) t
  | Branch :: t => outstanding l t
  end.

(* in a history, every Branch happens while the touch is true *)
Fixpoint true_branches (max : Z) (l : list row) (ops : list op) : Prop :=
  match ops with
  | [] => True
  | Add r :: t => true_branches max (r :: l) t
  | Remove r :: t => true_branches max (remove1 r l) t
  | Branch :: t => (forall r, (Z.of_nat (count_occ req l r) <= max)%Z) /\ true_branches max l t
  end.

(* lines (1, 2, ...) at which r was added *)
Fixpoint lines_from (k : Z) (rs : list row) (r : row) : list Z :=
  match rs with [] => [] | a :: t => if req a r then k :: lines_from (k + 1) t r else lines_from (k + 1) t r end.

