(* M_Support.v - model of apps/methsearch/falseness.cpp: whether a method may have an extent, and clean proof
   scales.  Not modelled: falseness_group_codes (lines 46-50), which only asks for the symbols. *)
From Verif Require Import Base M_Bell M_Change M_Row M_Group M_Touch M_Method M_False M_Search M_TSearch.
Set Implicit Arguments. Unset Strict Implicit.
Open Scope nat_scope.

(* falseness.cpp:102 signs: the map as a list of the pairs put into it; no row is put in twice *)
Definition signs := list (row * Z).
Fixpoint sign_at (m : signs) (r : row) : option Z :=
  match m with [] => None | (x, s) :: m => if row_eqb x r then Some s else sign_at m r end.
Section Recurse.
Variable rec : signs -> row -> Z -> outcome (bool * signs).
(* falseness.cpp:86-92: the loop *)
Fixpoint all_false (ft : list row) (m : signs) (r : row) (s : Z) : outcome (bool * signs) :=
  match ft with
  | [] => Ret (true, m)
  | f :: ft =>
    if isrounds f then all_false ft m r s
    else x <- mul r f ;; '(ok, m) <- rec m x (- s)%Z ;;
         if (ok : bool) then all_false ft m r s else Ret (false, m)
  end.
End Recurse.
(* falseness.cpp:78-98 recurse *)
Fixpoint recurse (fuel : nat) (ft : list row) (m : signs) (r : row) (s : Z) : outcome (bool * signs) :=
  match fuel with
  | O => Diverge
  | S fuel =>
    match sign_at m r with
    | Some t => Ret ((t =? s)%Z, m)
    | None => all_false (recurse fuel ft) ft ((r, s) :: m) r s
    end
  end.
(* falseness.cpp:105-108 might_support_positive_extent *)
Definition might_support_positive_extent (fuel : nat) (sym : symtab) (m : method) : outcome bool :=
  ft <- falseness_method sym F_IN_COURSE m ;; '(ok, _) <- recurse fuel ft [] (rounds (mb m)) 1%Z ;; Ret ok.
(* falseness.cpp:110-114 might_support_extent; method.h: isplain's argument is the treble *)
Definition might_support_extent (fuel : nat) (sym : symtab) (m : method) : outcome bool :=
  if negb (isplain m 0) then Throw AssertFailed else
  ft <- falseness_method sym 0 m ;; '(ok, _) <- recurse fuel ft [] (rounds (mb m)) 1%Z ;; Ret ok.
(* falseness.cpp:116-131 is_cps *)
Definition is_cps (fuel : nat) (sym : symtab) (m : method) : outcome bool :=
  if 8 <=? mb m then t <- false_courses fuel sym (FC_IN_COURSE + FC_TENORS)%Z m ;; Ret (length t =? 1)
  else t <- false_courses fuel sym FC_IN_COURSE m ;; c <- meth_back m ;;
       Ret (length t =? (if (change_sign c =? 1)%Z then 2 else 1)).
