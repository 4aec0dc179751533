(* Spec_Multtab.v - what a multiplication table should hold. *)
From Verif Require Import Base M_Row M_Group M_Multtab Spec_Row Spec_Extent Spec_Group.
Set Implicit Arguments.
Unset Strict Implicit.
Open Scope nat_scope.

(* y is p * x * h with p a part end and h in the post group *)
Definition in_coset (P Q : group) (x y : list nat) : Prop :=
  exists p h, In p (gv P) /\ In h (gv Q) /\ y = comp (comp p x) h.

(* the rows given: on b bells, and with each row all rows of its coset *)
Definition closed_rows (b : nat) (P Q : group) (R : list (list nat)) : Prop :=
  (forall r, In r R -> is_row r /\ length r = b) /\
  (forall r y, In r R -> in_coset P Q r y -> In y R).

(* adding columns one after another; the columns returned *)
Fixpoint run_cols (t : multtab) (ops : list (pre_or_post * row)) : outcome (multtab * list nat) :=
  match ops with
  | [] => Ret (t, [])
  | (k, r) :: ops => '(t, c) <- mt_column k t r ;; '(t, cs) <- run_cols t ops ;; Ret (t, c :: cs)
  end.

(* the product a column stands for *)
Definition col_product (k : pre_or_post) (x r : list nat) : list nat :=
  match k with pre_mult => comp x r | post_mult => comp r x end.

(* x commutes with the group on its side *)
Definition commuting (P Q : group) (k : pre_or_post) (x : list nat) : Prop :=
  match k with
  | pre_mult => forall p, In p (gv P) -> comp x p = comp p x
  | post_mult => forall h, In h (gv Q) -> comp x h = comp h x
  end.
