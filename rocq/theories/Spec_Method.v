(* Spec_Method.v - what the queries about a method mean. *)
From Verif Require Import Base M_Change M_Method Spec_Row Spec_Change.
Set Implicit Arguments.
Unset Strict Implicit.
Open Scope nat_scope.

(* a method the library can hold: every change is on its number of bells, at most 255 *)
Definition wf_method (m : method) : Prop :=
  mb m <= 255 /\ (Z.of_nat (length (mch m)) <= int_max)%Z /\ Forall (fun c => cn c = mb m /\ wf_change c) (mch m).

(* the changes, read cyclically, are the same when reflected about change i *)
Definition reflects_about (L : list change) (i : nat) : Prop :=
  forall j, j <= length L -> nth_error L ((i + j) mod length L) = nth_error L ((i + length L - j) mod length L).

(* where the bell starting in place b is after k changes of the method rung over and over *)
Fixpoint path (L : list change) (b k : nat) : nat :=
  match k with
  | O => b
  | S k => match nth_error L (k mod length L) with
           | Some c => swap_pos (cswaps c) (path L b k)
           | None => path L b k
           end
  end.

(* the bell's path is the same reflected about change i (the blows before and after it) *)
Definition path_reflects_about (L : list change) (b i : nat) : Prop :=
  forall k, k < length L -> path L b (i + 1 + k) = path L b (i + length L - k).

(* p is the least index below n with the property *)
Definition least_below (n : nat) (P : nat -> Prop) (p : nat) : Prop :=
  p < n /\ P p /\ forall q, q < p -> ~ P q.

(* in how many of the first k changes the bell stays in its place *)
Definition places_made (L : list change) (x k : nat) : nat :=
  length (filter (fun t => path L x (t + 1) =? path L x t) (seq 0 k)).
(* the bell does not dodge at change k: it stays, or moves on the way it was going, where it
   starts up (an odd bell, counting from 1) or down and turns round at every place *)
Definition keeps_direction (L : list change) (x k : nat) : Prop :=
  path L x (k + 1) = path L x k \/
  path L x (k + 1) = (if Nat.even (x + places_made L x k) then path L x k + 1 else path L x k - 1) /\
  path L x (k + 1) <> path L x k.
(* the k changes from change s on, cyclically, all make place p *)
Definition blows_in (L : list change) (p s k : nat) : Prop :=
  forall t, t < k -> exists c, nth_error L ((s + t) mod length L) = Some c /\ place_made c p.
(* a hunt bell is in its own place after a lead *)
Definition hunt_bell (L : list change) (x : nat) : Prop := path L x (length L) = x.
