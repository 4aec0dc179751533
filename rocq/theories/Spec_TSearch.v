(* Spec_TSearch.v - touches in parts, and what a table search gives. *)
From Verif Require Import Base M_Bell M_Change M_Math M_Row M_Touch M_Group M_Method M_Search M_TSearch Spec_Row Spec_Change Spec_Touch Spec_Extent Spec_Group Spec_Method Spec_Search.
Set Implicit Arguments.
Unset Strict Implicit.
Open Scope nat_scope.

(* h is the row at the end of the leads called by w, rung from rounds *)
Definition lead_head (m : method) (calls : list change) (w : list nat) (h : row) : Prop :=
  rung (id_row (mb m)) (changes_called m calls w) h.
(* the leads of the method that start from the rows h and h' have a row in common *)
Definition leads_meet (m : method) (h h' : row) : Prop :=
  exists i j r, i < length (mch m) /\ j < length (mch m) /\ rung h (firstn i (mch m)) r /\ rung h' (firstn j (mch m)) r.
(* A method, calls and part ends fit for a search: the method has bells and changes, the calls are on
   the same bells, the part ends form a group on no more bells, and if the treble leads at the end of
   every lead, however it is called, then it leads in all the part ends *)
Definition ts_fit (m : method) (calls : list change) (P : group) : Prop :=
  wf_method m /\ 0 < mb m /\ 1 <= length (mch m) /\ Forall (fun c => cn c = mb m /\ wf_change c) calls /\
  wf_group P /\ gb P <= mb m /\
  ((forall i, i <= length calls -> came_from (lead_called m calls i) 0 = 0) -> forall g, In g (gv P) -> act g 0 = 0).
(* k is the order of h: the least power of it that is rounds *)
Definition order_is (h : row) (k : nat) : Prop :=
  0 < k /\ (forall i, act_pow h k i = i) /\ forall j, 0 < j < k -> exists i, act_pow h j i <> i.
(* every lead is even, however it is called *)
Definition leads_even (sym : symtab) (m : method) (calls : list change) : Prop :=
  forall i h, i <= length calls -> lead_head m calls [i] h -> sign sym h = Ret 1%Z.
(* the search comes to an end, and gives the outputer the touches of full, in this order, as far as
   the outputer wants *)
Definition ts_gives (sym : symtab) (s : tsearch) (full : list node) : Prop :=
  exists n, forall fuel stop, n <= fuel -> exists st, ts_run fuel sym s stop = Ret st /\ until_stopped stop full (st_outs st).
(* the same changes n times over *)
Definition n_times {A} (n : nat) (cs : list A) : list A := concat (repeat cs n).
