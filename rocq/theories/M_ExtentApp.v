(* M_ExtentApp.v - model of apps/extent/extent.cpp, after its arguments are parsed. *)
From Verif Require Import Base M_Bell M_Change M_Row M_Extent.
Set Implicit Arguments. Unset Strict Implicit.
Open Scope nat_scope.

(* extent.cpp:81-98 validate.  hunts + tenors may overflow an int *)
Definition extent_args_ok (bells hunts tenors : Z) : outcome bool :=
  if (bells <? 0)%Z || (hunts <? 0)%Z || (tenors <? 0)%Z then Ret false
  else if (int_max <? hunts + tenors)%Z then UB else Ret (negb (bells <? hunts + tenors)%Z).
(* extent.cpp:123-126: the loop, to an end iterator which is equal to every other; the lines written *)
Fixpoint extent_loop (fuel : nat) (sym : symtab) (in_course : bool) (i : extent_iter) : outcome (list (list ascii)) :=
  if ei_end i then Ret [] else
  match fuel with
  | O => Diverge
  | S fuel =>
    p <- (if negb in_course then Ret true else s <- sign sym (ei_row i) ;; Ret (0 <? s)%Z) ;;
    let line := if (p : bool) then [row_ostream sym (ei_row i)] else [] in
    i' <- ei_incr i ;; l <- extent_loop fuel sym in_course i' ;; Ret (line ++ l)
  end.
(* extent.cpp:100-127 main: None if the arguments are not valid *)
Definition extent_main (fuel : nat) (sym : symtab) (bells hunts tenors : Z) (in_course : bool) : outcome (option (list (list ascii))) :=
  v <- extent_args_ok bells hunts tenors ;;
  if negb v then Ret None else
  l <- extent_loop fuel sym in_course (ei_begin (Z.to_nat (bells - tenors - hunts)) (Z.to_nat hunts) (Z.to_nat bells)) ;;
  Ret (Some l).
