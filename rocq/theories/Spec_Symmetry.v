(* Spec_Symmetry.v - the symmetries of a method rung over and over. *)
From Verif Require Import Base M_Change.
Set Implicit Arguments.
Unset Strict Implicit.

(* change number i of the changes rung over and over (and since ever) *)
Definition at_change (L : list change) (i : Z) : option change :=
  nth_error L (Z.to_nat (i mod Z.of_nat (length L))).

(* the line reads the same backwards from change c as forwards *)
Definition palindromic (L : list change) : Prop :=
  exists c : Z, forall t : Z, at_change L (c + t) = at_change L (c - t).
(* each change is symmetric *)
Definition mirror (L : list change) : Prop :=
  forall t : Z, at_change L t = option_map change_reverse (at_change L t).
(* the second half is the first with every change reversed *)
Definition glide (L : list change) : Prop :=
  exists h, length L = 2 * h /\
  forall t : Z, at_change L (t + Z.of_nat h) = option_map change_reverse (at_change L t).
(* turned upside down it is the same, read backwards: change t becomes change k - t *)
Definition rotational (L : list change) : Prop :=
  exists k : Z, forall t : Z, at_change L t = option_map change_reverse (at_change L (k - t)).
(* the same, but nothing is asked of a change which is its own partner *)
Definition rotational_but_centre (L : list change) : Prop :=
  exists k : Z, forall t : Z, ((k - t - t) mod Z.of_nat (length L) <> 0)%Z ->
    at_change L t = option_map change_reverse (at_change L (k - t)).
