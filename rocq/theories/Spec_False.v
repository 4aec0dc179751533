(* Spec_False.v - falseness of leads and courses. *)
From Verif Require Import Base M_Bell M_Change M_Row M_Method M_False Spec_Row Spec_Change Spec_Touch Spec_Group.
Set Implicit Arguments.
Unset Strict Implicit.
Open Scope nat_scope.

(* among the first na rows of the changes A rung from rounds and the first nb of B rung from f
   there is a row in common *)
Definition leads_share (n : nat) (A B : list change) (na nb : nat) (f : list nat) : Prop :=
  exists i j r, i < na /\ j < nb /\ rung (id_row n) (firstn i A) r /\ rung f (firstn j B) r.

(* which false lead heads the flags ask for *)
Definition asked_for (sym : symtab) (flags : Z) (f : list nat) : Prop :=
  (has flags F_NO_FIXED_TREBLE = false -> act f 0 = 0) /\
  (has flags F_IN_COURSE = true -> sign sym f = Ret 1%Z) /\
  (has flags F_OUT_OF_COURSE = true -> sign sym f = Ret (-1)%Z).

(* a row of the course from c: some leads and then some changes of another *)
Definition in_course (M : list change) (c r : list nat) : Prop :=
  exists q j, j < length M /\ rung c (concat (repeat M q) ++ firstn j M) r.
(* the plain course and the course from c have a row in common *)
Definition courses_share (n : nat) (M : list change) (c : list nat) : Prop :=
  exists r, in_course M (id_row n) r /\ in_course M c r.
(* the treble is the only hunt bell and the others all do the same work *)
Definition one_course (n : nat) (l : list nat) : Prop :=
  row_b n l /\ 2 <= n /\ act l 0 = 0 /\ forall x, 0 < x < n -> exists k, act_pow l k (n - 1) = x.
Definition course_wanted (sym : symtab) (flags : Z) (c : list nat) : Prop :=
  (has flags FC_IN_COURSE = true -> sign sym c = Ret 1%Z) /\
  (has flags FC_TENORS = true -> forall i, 6 <= i -> act c i = i).
