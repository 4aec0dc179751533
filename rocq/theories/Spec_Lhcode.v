(* Spec_Lhcode.v - lead head codes. *)
From Verif Require Import Base M_Bell M_Change M_Row M_Method Spec_Row Spec_Change Spec_Method.
Set Implicit Arguments.
Unset Strict Implicit.
Open Scope nat_scope.

(* the places made at a lead end with one hunt bell: 1sts, or 1sts and 2nds, and the back where
   a bell is left over *)
Definition firsts (n i : nat) : bool := (i =? 0) || (Nat.even n && (i =? n - 1)).
Definition seconds (n i : nat) : bool := (i =? 0) || (i =? 1) || (Nat.odd n && (i =? n - 1)).
(* with two hunt bells, at the first change of the lead: none, or 3rds *)
Definition cross (n i : nat) : bool := Nat.odd n && (i =? n - 1).
Definition thirds (n i : nat) : bool := (i =? 2) || (Nat.even n && (i =? n - 1)).
Definition places_are (f : nat -> nat -> bool) (c : change) : Prop := forall i, i < cn c -> (place_made c i <-> f (cn c) i = true).

(* the letters, low ones first, for the powers 1, 2, 3 of the lead head of plain bob and, from the
   other end, for -1, -2, -3; from then on the last of them with a number *)
Definition letters (odd low seconds : bool) : list ascii :=
  match odd, low, seconds with
  | true, true, true => str "abc"
  | true, false, true => str "fed"
  | true, true, false => str "ghj"
  | true, false, false => str "mlk"
  | false, true, true => str "p"
  | false, false, true => str "q"
  | false, true, false => str "r"
  | false, false, false => str "s"
  end.
Definition numbered (ls : list ascii) (k : nat) : list ascii :=
  if k <=? length ls then [nth (k - 1) ls "000"%char]
  else last ls "000"%char :: print_nat (k - length ls).
(* the code of the lead head k of o, with a lead end of the second kind or not *)
Definition lead_code (o k : nat) (second : bool) : list ascii :=
  if 2 * k <=? o then numbered (letters (Nat.odd o) true second) k else numbered (letters (Nat.odd o) false second) (o - k).

(* r is the k-th power of the lead head of plain bob with h hunt bells on n bells *)
Definition pb_power (n h k : nat) (r : list nat) : Prop :=
  exists l, pblh n h = Ret l /\ forall i, act r i = act_pow l k i.

(* a method with a code: the treble, or treble and 2, are the hunt bells, the lead head generates
   the course, and the lead end is one of the two *)
Definition coded (m : method) (h k : nat) (second : bool) : Prop :=
  exists r, lh m = Ret r /\ pb_power (mb m) h k r /\ 0 < k < mb m - h /\ Nat.gcd k (mb m - h) = 1 /\
  ((h = 1 /\ exists pre c, mch m = pre ++ [c] /\ places_are (if second then seconds else firsts) c) \/
   (h = 2 /\ exists c post, mch m = c :: post /\ places_are (if second then thirds else cross) c)).
Definition code_of (m : method) (h k : nat) (second : bool) : list ascii :=
  lead_code (mb m - h) (if h =? 1 then k else mb m - h - k) second.
