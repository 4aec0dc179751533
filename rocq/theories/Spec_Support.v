(* Spec_Support.v - leads which have a row in common. *)
From Verif Require Import Base M_Bell M_Change M_Row M_Method Spec_Row Spec_Change Spec_Touch Spec_Group.
Set Implicit Arguments. Unset Strict Implicit.
Open Scope nat_scope.
(* the leads of the changes M from the rows a and b have a row in common *)
Definition false_leads (M : list change) (a b : list nat) : Prop :=
  exists i j r, i < length M /\ j < length M /\ rung a (firstn i M) r /\ rung b (firstn j M) r.
(* The lead heads among P can be put in two sets, so that no two in the same set have leads with a row in common:
   each set may be the lead heads of one of two true halves. *)
Definition two_sets (P : list nat -> Prop) (M : list change) : Prop :=
  exists side : list nat -> bool, forall a b, P a -> P b -> a <> b -> false_leads M a b -> side a <> side b.
(* rows of n bells which leave the treble at lead; of those, the rows which are in course *)
Definition lead_head (n : nat) (a : list nat) : Prop := row_b n a /\ act a 0 = 0.
Definition positive_head (sym : symtab) (n : nat) (a : list nat) : Prop := lead_head n a /\ sign sym a = Ret 1%Z.
