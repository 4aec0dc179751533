(* Spec_Landau.v - the order of a permutation. *)
From Coq Require Import Znumtheory.
From Verif Require Import Base Spec_Row.
Set Implicit Arguments.
Unset Strict Implicit.
Open Scope nat_scope.

(* k is the least positive number of times the row has to be repeated to bring rounds *)
Definition has_order (r : list nat) (k : nat) : Prop :=
  0 < k /\ (forall i, act_pow r k i = i) /\ forall j, 0 < j < k -> exists i, act_pow r j i <> i.
(* a row of n bells of order k *)
Definition order_on (n : nat) (k : nat) : Prop := exists r, is_row r /\ length r = n /\ has_order r k.
Definition primes_upto (b : Z) (k : nat) : Prop := forall p, prime p -> (p | Z.of_nat k)%Z -> (p <= b)%Z.
