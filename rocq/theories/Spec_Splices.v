(* Spec_Splices.v - what a splice between two methods is. *)
From Verif Require Import Base M_Bell M_Change M_Row M_Method Spec_Row Spec_Change Spec_Touch Spec_Group.
From Coq Require Import Relations.
Set Implicit Arguments.
Unset Strict Implicit.
Open Scope nat_scope.

(* r is a row of the lead of the changes M from the lead head h *)
Definition in_lead (M : list change) (h r : list nat) : Prop := exists i, i < length M /\ rung h (firstn i M) r.
(* the lead heads: on n bells, with the treble leading; and in course if only those are wanted *)
Definition lead_head (sym : symtab) (n : nat) (ic : bool) (h : list nat) : Prop :=
  row_b n h /\ act h 0 = 0 /\ (ic = true -> sign sym h = Ret 1%Z).
(* ringing A from the lead heads in S, and B from all the others, no row comes in leads of both *)
Definition splice (sym : symtab) (n : nat) (ic : bool) (A B : list change) (S : list nat -> bool) : Prop :=
  (forall h, S h = true -> lead_head sym n ic h) /\
  forall h1 h2 r, S h1 = true -> lead_head sym n ic h2 -> S h2 = false -> in_lead A h1 r -> in_lead B h2 r -> False.
(* both are rung *)
Definition both_rung (sym : symtab) (n : nat) (ic : bool) (S : list nat -> bool) : Prop :=
  (exists h, S h = true) /\ exists h, lead_head sym n ic h /\ S h = false.
(* A is rung from k lead heads *)
Definition leads_of (S : list nat -> bool) (k : nat) : Prop := exists l, NoDup l /\ (forall h, In h l <-> S h = true) /\ length l = k.

(* methods go together if they are connected by pairs *)
Definition connected {X} (pairs : X -> X -> Prop) : X -> X -> Prop := clos_refl_sym_trans X pairs.
