(* M_False.v - model of ringing/falseness.{h,cpp} up to the symbols of falseness groups. *)
From Verif Require Import Base M_Bell M_Change M_Math M_Row M_Extent M_Group M_Touch M_PN M_Method.
Open Scope nat_scope.

(* falseness.h:56-62 *)
Definition F_IN_COURSE : Z := 1.  Definition F_NO_FIXED_TREBLE : Z := 2.
Definition F_HALF_LEAD : Z := 4.  Definition F_OUT_OF_COURSE : Z := 8.

(* falseness.cpp:87-94: the row is not skipped *)
Definition keep_false (sym : symtab) (flags : Z) (f : row) : outcome bool :=
  t <- (if has flags F_NO_FIXED_TREBLE then Ret true else x <- vget f 0 ;; Ret (x =? 0)) ;;
  if negb t then Ret false else
  i <- (if has flags F_IN_COURSE then s <- sign sym f ;; Ret (negb (s =? -1)%Z) else Ret true) ;;
  if negb i then Ret false else
  if has flags F_OUT_OF_COURSE then s <- sign sym f ;; Ret (negb (s =? 1)%Z) else Ret true.
(* falseness.cpp:79-80: the rows used *)
Definition rows_used (flags : Z) (m : list row) : list row :=
  if has flags F_HALF_LEAD then firstn (length m / 2) m else m.
(* falseness.cpp:69-103 init; the set<row> copied to t *)
Definition false_init (sym : symtab) (flags : Z) (m1 m2 : list row) : outcome (list row) :=
  forM (rows_used flags m1) (fun fs a => forM (rows_used flags m2) (fun fs b =>
    f <- div a b ;; k <- keep_false sym flags f ;;
    Ret (if (k : bool) then fst (set_insert row_ltb fs f) else fs)) fs) [].

(* falseness.cpp:105-111 row_block_flags *)
Definition lead_rows_of (flags : Z) (m : method) : outcome (list row) :=
  rb <- row_block_make (mch m) (has flags F_HALF_LEAD) true ;; Ret (rb_rows rb).
(* falseness.cpp:113-118, 127-132 *)
Definition falseness_methods (sym : symtab) (flags : Z) (a b : method) : outcome (list row) :=
  ra <- lead_rows_of flags a ;; rb <- lead_rows_of flags b ;; false_init sym flags ra rb.
Definition falseness_method (sym : symtab) (flags : Z) (m : method) : outcome (list row) :=
  r <- lead_rows_of flags m ;; false_init sym flags r r.
(* falseness.cpp:120-125 *)
Definition falseness_method_rows (sym : symtab) (flags : Z) (a : method) (b : list row) : outcome (list row) :=
  ra <- lead_rows_of flags a ;; false_init sym flags ra b.
(* falseness.cpp:134-139 is false_init itself; 65-67: one row without bells *)
Definition falseness_default : list row := [[]].

(* falseness.cpp:147-151: the assertion on the sign of each quotient *)
Definition quotients (sym : symtab) (t : list row) : outcome (list row) :=
  forM t (fun t2 i => forM t (fun t2 j =>
    q <- div i j ;; s <- sign sym q ;; if (s =? 1)%Z then Ret (t2 ++ [q]) else Throw AssertFailed) t2) [].
(* falseness.cpp:141-153 generate_group *)
Definition falseness_group (fuel : nat) (sym : symtab) (flags : Z) (t : list row) : outcome group :=
  if negb (has flags F_OUT_OF_COURSE) then group_of fuel t
  else t2 <- quotients sym t ;; group_of fuel t2.

(* ---- false course heads ---- *)
(* falseness.h:106-110 *)
Definition FC_IN_COURSE : Z := 1.  Definition FC_TENORS : Z := 2.
(* falseness.cpp:56-63 are_tenors_together *)
Definition are_tenors_together (r : row) (working : nat) : bool :=
  forallb (fun i => nth i r 0 =? i) (seq working (length r - working)).
(* falseness.cpp:182-183: while the tenor is not at home *)
Fixpoint to_course_head (fuel : nat) (lh c : row) (n : nat) : outcome row :=
  match fuel with
  | O => Diverge
  | S fuel =>
    if n =? 0 then UB else
    x <- vget c (n - 1) ;;
    if x =? n - 1 then Ret c else c <- mul c lh ;; to_course_head fuel lh c n
  end.
(* falseness.cpp:185-192 *)
Definition add_course (sym : symtab) (flags : Z) (fs : list row) (c : row) : outcome (list row) :=
  i <- (if has flags FC_IN_COURSE then s <- sign sym c ;; Ret (negb (s =? -1)%Z) else Ret true) ;;
  if negb i then Ret fs else
  if has flags FC_TENORS && negb (are_tenors_together c 6) then Ret fs
  else Ret (fst (set_insert row_ltb fs c)).
(* falseness.cpp:176-194: the do loop *)
Fixpoint process_loop (fuel : nat) (sym : symtab) (flags : Z) (lh f lead : row) (fs : list row) : outcome (list row) :=
  match fuel with
  | O => Diverge
  | S fuel =>
    c <- mul lead f ;;
    lead <- mul lead lh ;;
    c <- to_course_head (S fuel) lh c (length f) ;;
    fs <- add_course sym flags fs c ;;
    if isrounds lead then Ret fs else process_loop fuel sym flags lh f lead fs
  end.
(* falseness.cpp:165-195 process *)
Definition process (fuel : nat) (sym : symtab) (flags : Z) (lh : row) (fs : list row) (f : row) : outcome (list row) :=
  x <- vget f 0 ;;
  if negb (x =? 0) then Ret fs else
  skip <- (if has flags FC_IN_COURSE then
             s <- sign sym lh ;; (if (s =? 1)%Z then s2 <- sign sym f ;; Ret (s2 =? -1)%Z else Ret false)
           else Ret false) ;;
  if (skip : bool) then Ret fs else process_loop fuel sym flags lh f [] fs.
(* falseness.cpp:219-223: the body of the inner loop, r2 being moved on after each use *)
Definition courses_inner (fuel : nat) (sym : symtab) (flags : Z) (l r1 : row) (st : row * list row) (c2 : change) : outcome (row * list row) :=
  q <- div r1 (fst st) ;; fs <- process fuel sym flags l (snd st) q ;; r2 <- row_mul_change (fst st) c2 ;; Ret (r2, fs).
(* falseness.cpp:216-224: the body of the outer loop *)
Definition courses_outer (fuel : nat) (sym : symtab) (flags : Z) (m : method) (l : row) (st : row * list row) (c1 : change) : outcome (row * list row) :=
  p <- forM (mch m) (courses_inner fuel sym flags l (fst st)) (rounds (mb m), snd st) ;;
  r1 <- row_mul_change (fst st) c1 ;; Ret (r1, snd p).
(* falseness.cpp:209-227: the loop over pairs of rows *)
Definition false_courses (fuel : nat) (sym : symtab) (flags : Z) (m : method) : outcome (list row) :=
  l <- lh m ;;
  p <- forM (mch m) (courses_outer fuel sym flags m l) (rounds (mb m), []) ;;
  Ret (snd p).
