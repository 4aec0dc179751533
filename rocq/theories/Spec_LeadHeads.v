(* Spec_LeadHeads.v - lead heads and half lead heads. *)
From Verif Require Import Base M_Bell M_Row Spec_Row.
Set Implicit Arguments.
Unset Strict Implicit.
Open Scope nat_scope.

(* the hunt bells: h of them from place f (counted from 0) *)
Definition hunt (f h b : nat) : Prop := f <= b < f + h.
(* the other bells all do the same work: repeating the lead takes each to the place of every other *)
Definition one_orbit (n f h : nat) (lh : list nat) : Prop :=
  forall i j, i < n -> j < n -> ~ hunt f h i -> ~ hunt f h j -> exists k, act_pow lh k i = j.
(* one of the lead heads of plain bob with h hunt bells, other than rounds *)
Definition plain_bob_lh (n h : nat) (lh : list nat) : Prop :=
  exists l k, pblh n h = Ret l /\ 0 < k < n - h /\ forall i, act lh i = act_pow l k i.
(* the hunt bells are at home and the others are turned round, but not in rounds *)
Definition cyclic_lh (n h : nat) (lh : list nat) : Prop :=
  (forall i, i < h -> act lh i = i) /\ exists k, 0 < k < n - h /\ forall i, h <= i < n -> act lh i = h + (i - h + k) mod (n - h).
(* the treble is last and the others are turned round, upwards or downwards *)
Definition cyclic_half (n : nat) (hl : list nat) : Prop := exists k, forall i, i < n - 1 -> act hl i = 1 + (k + i) mod (n - 1).
Definition rev_cyclic_half (n : nat) (hl : list nat) : Prop := exists k, forall i, i < n - 1 -> act hl i = 1 + (k + (n - 1 - i)) mod (n - 1).

(* the first h are at home and the next is not *)
Definition fixed_bells (h : nat) (lh : list nat) : Prop := (forall i, i < h -> act lh i = i) /\ (h < length lh -> act lh h <> h).
(* the change with a place made at the back (and, with an even number of bells, at the front) and
   every other bell moving: who goes to place i *)
Definition back_place (n i : nat) : nat :=
  if i =? n - 1 then i else if Nat.even n && (i =? 0) then i else if Nat.even (i + n) then i - 1 else i + 1.
(* a half lead head of a regular method: reverse rounds, or reverse rounds after that change, moved
   on by plain bob lead heads *)
Definition regular_half (n : nat) (hl : list nat) : Prop :=
  exists l k, pblh n 1 = Ret l /\
    ((forall i, i < n -> act hl i = act_pow l k (n - 1 - i)) \/ (forall i, i < n -> act hl i = act_pow l k (n - 1 - back_place n i))).
