(* Spec_HalfLead.v - what is asked of the change at the half lead. *)
From Verif Require Import Base M_Bell M_Change M_Row M_HalfLead Spec_Row Spec_Group Spec_MethUtils Spec_LeadHeads.
Set Implicit Arguments.
Unset Strict Implicit.
Open Scope nat_scope.

(* e is the row before the change at the half lead, h the row after it *)
Definition half_lead_as_asked (A : hlargs) (n : nat) (e h : list nat) : Prop :=
  (ha_skew A = true -> ha_cyclic A = true -> ha_hunts A = 1 -> cyclic_half n e) /\
  ((ha_rev_hlh A = false /\ ha_rev_hle A = false /\ ha_cyc_hlh A = false /\ ha_cyc_hle A = false /\ ha_reg A = false) \/
   (ha_rev_hlh A = true /\ rev_cyclic_half n h) \/ (ha_rev_hle A = true /\ rev_cyclic_half n e) \/
   (ha_cyc_hlh A = true /\ cyclic_half n h) \/ (ha_cyc_hle A = true /\ cyclic_half n e) \/
   (ha_reg A = true /\ regular_half n h /\ regular_half n e)).
(* x is the lead head of a method rung from row r which, started from r, has the working bells turned
   round by one *)
Definition lead_head_turned (n h : nat) (r x : list nat) : Prop := row_b n x /\ forall i, i < n -> act x (act r i) = act r (rot (n - h) h 1 i).
