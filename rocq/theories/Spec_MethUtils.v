(* Spec_MethUtils.v - what the helpers of the search for methods answer. *)
From Verif Require Import Base M_Bell M_Change M_Row Spec_Row Spec_Change Spec_Extent Spec_Touch.
Set Implicit Arguments.
Unset Strict Implicit.
Open Scope nat_scope.

(* the row that changes lead to from rounds on n bells *)
Definition row_after (n : nat) (cs : list change) : list nat := map (came_from cs) (seq 0 n).
(* places made at i, i+1, ... i+k-1 *)
Definition adjacent_places (c : change) (i k : nat) : Prop := i + k <= cn c /\ forall j, i <= j < i + k -> place_made c j.
(* of the rows after 0, 1, ... changes that come at one stroke (s = 0 or 1), how many are in course
   (sign z = 1), or out of course *)
Definition in_course (x : list nat) : bool := match sign default_symtab x with Ret z => (z =? 1)%Z | _ => false end.
Definition at_stroke (n : nat) (cs : list change) (s : nat) : list (list nat) :=
  map (fun k => row_after n (firstn k cs)) (filter (fun k => k mod 2 =? s) (seq 0 (S (length cs)))).
Definition as_many (l : list (list nat)) : Prop :=
  length (filter in_course l) = length (filter (fun x => negb (in_course x)) l).
(* the changes on n bells *)
Definition on_bells (n : nat) (c : change) : Prop := cn c = n /\ wf_change c.
(* the order of changes: the lists of places in dictionary order *)
Definition earlier (a b : change) : Prop := exists pa pb, places a = Ret pa /\ places b = Ret pb /\ lex_lt pa pb.
(* coursing order with the tenors together: i leads bring the last bell but one to the place of the
   tenor, and i is least; the bells are those that come there after i, 2i, ... leads, up to the tenor *)
Definition brings (lh : list nat) (n i : nat) : Prop := 0 < i /\ act_pow lh i (n - 1) = n - 2 /\ forall j, 0 < j < i -> act_pow lh j (n - 1) <> n - 2 /\ act_pow lh j (n - 1) <> n - 1.
Definition coursing_order (lh : list nat) (n : nat) (bs : list nat) : Prop :=
  exists i k, brings lh n i /\ 0 < k /\ act_pow lh (i * k) (n - 1) = n - 1 /\ (forall j, 0 < j < k -> act_pow lh (i * j) (n - 1) <> n - 1) /\
    bs = map (fun j => act_pow lh (i * j) (n - 1)) (seq 1 k).
