(* Spec_Search.v - touches, callings and rotations. *)
From Verif Require Import Base M_Bell M_Change M_Row M_Touch M_Method M_Search Spec_Row Spec_Change Spec_Touch Spec_Method Spec_Extent.
Set Implicit Arguments.
Unset Strict Implicit.
Open Scope nat_scope.

(* Rung from rounds on b bells, the changes cs come round at the end, and no row is rung
   twice on the way. *)
Definition true_touch (b : nat) (cs : list change) : Prop :=
  rung (id_row b) cs (id_row b) /\
  forall i j r, i < j < length cs -> rung (id_row b) (firstn i cs) r -> ~ rung (id_row b) (firstn j cs) r.

(* A calling says for each lead how it ends: 0 for plain, i + 1 for the i-th call.  These are the
   changes rung: the changes of the method, with the last one replaced by the call. *)
Definition lead_called (m : method) (calls : list change) (i : nat) : list change :=
  removelast (mch m) ++ firstn 1 (skipn i (skipn (length (mch m) - 1) (mch m) ++ calls)).
Definition changes_called (m : method) (calls : list change) (w : list nat) : list change :=
  flat_map (lead_called m calls) w.
Definition calling (calls : list change) (w : list nat) : Prop := Forall (fun i => i <= length calls) w.

(* w started k leads later *)
Definition turn {A} (k : nat) (w : list A) : list A := skipn k w ++ firstn k w.
(* no rotation of w comes before w in alphabetical order *)
Definition least (w : list nat) : Prop := forall k, k < length w -> ~ lex_lt (turn k w) w.

(* no row comes twice among the rows of a lead (the row at the lead end left out) *)
Definition lead_is_true (m : method) : Prop :=
  forall i j r, i < j < length (mch m) -> rung (id_row (mb m)) (firstn i (mch m)) r -> ~ rung (id_row (mb m)) (firstn j (mch m)) r.
(* A method and calls fit for a search: the method has bells and changes, the calls are on the
   same bells, whatever is called the treble leads at the end of the lead, and the lead is true *)
Definition searchable (m : method) (calls : list change) : Prop :=
  wf_method m /\ 0 < mb m /\ 1 <= length (mch m) /\ Forall (fun c => cn c = mb m /\ wf_change c) calls /\
  (forall i, i <= length calls -> came_from (lead_called m calls i) 0 = 0) /\ lead_is_true m.

(* outs is full as far as it is wanted: stop, asked after each with all so far, said no until the last *)
Definition until_stopped (stop : list node -> bool) (full outs : list node) : Prop :=
  (forall k, 0 < k < length outs -> stop (firstn k outs) = false) /\
  (outs = full \/ exists rest, full = outs ++ rest /\ outs <> [] /\ stop outs = true).
(* the search comes to an end, and gives the outputer the touches of full, in this order, as far as
   the outputer wants *)
Definition search_gives (sym : symtab) (s : search) (full : list node) : Prop :=
  exists n, forall fuel stop, n <= fuel -> exists st, search_run fuel sym s stop = Ret st /\ until_stopped stop full (st_outs st).
