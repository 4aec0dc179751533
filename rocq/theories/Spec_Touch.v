(* Spec_Touch.v - what blocks of rows and touches mean. *)
From Verif Require Import Base M_Change M_Row M_Touch Spec_Row Spec_Change.
Set Implicit Arguments.
Unset Strict Implicit.
Open Scope nat_scope.

(* the place in which the bell that ends in place i started, when the changes cs are rung in turn *)
Definition came_from (cs : list change) (i : nat) : nat := fold_right (fun c p => swap_pos (cswaps c) p) i cs.
(* the most bells any of the changes is on *)
Definition widest (cs : list change) : nat := fold_right (fun c m => Nat.max (cn c) m) 0 cs.

(* r' is what r becomes when the changes cs are rung in turn *)
Definition rung (r : list nat) (cs : list change) (r' : list nat) : Prop :=
  row256 r' /\ length r' = Nat.max (length r) (widest cs) /\ forall i, act r' i = act r (came_from cs i).

Definition ok_change (c : change) : Prop := wf_change c /\ cn c <= 256.
(* a block of n rows, each got from r by as many of the changes as precede it *)
Definition block_rows (c : list change) (r : row) (n : nat) (b : row_block) : Prop :=
  rb_ch b = c /\ length (rb_rows b) = n /\ forall j, j < n -> rung r (firstn j c) (nth j (rb_rows b) []).

(* the changes of a touch, written out in order *)
Definition times (n : Z) (l : list change) : list change := concat (repeat l (Z.to_nat n)).
Fixpoint flatten (n : node) : list change :=
  match n with
  | Changes c => c
  | Children l => flat_map (fun e => times (fst e) (flatten (snd e))) l
  end.
(* every child is repeated at least once (an int many times) and has a change *)
Fixpoint well_made (n : node) : Prop :=
  match n with
  | Changes c => True
  | Children l => (fix all l := match l with
      | [] => True
      | (k, c) :: t => (1 <= k <= int_max)%Z /\ flatten c <> [] /\ well_made c /\ all t
      end) l
  end.
