(* M_MethUtils.v - model of apps/methsearch/methodutils.cpp: the tests of a division, of adjacent places, the order of
   changes and the coursing order. *)
From Verif Require Import Base M_Bell M_Change M_Row M_Method.
Set Implicit Arguments.
Unset Strict Implicit.
Open Scope nat_scope.

(* methodutils.cpp:67-74 and 120-128: the rows of a division, the first being rounds on n bells; last
   is the row reached *)
Definition div_rows (n : nat) (d : list change) : outcome (row * list row) :=
  forM d (fun '(r, rows) c => r <- row_mul_change r c ;; Ret (r, rows ++ [r])) (rounds n, [rounds n]).
(* methodutils.cpp:60-81 is_division_false.  The number of changes of the division so far is m.length() - div_start,
   taken with div_start at most the length (with more it wraps round; the search never does that).  len - div_start ==
   cur_div_len-1 is written with the 1 on the other side. *)
Definition is_division_false (m : list change) (c : change) (div_start cur_div_len : nat) : outcome bool :=
  let l := length m - div_start in
  if (l <? 3) || (l + 1 =? cur_div_len) then Ret false
  else '(r, rows) <- div_rows (cn c) (skipn div_start m) ;;
       r' <- row_mul_change r c ;; Ret (existsb (row_eqb r') rows).
(* methodutils.cpp:103-113 has_consec_places *)
Fixpoint consec_loop (c : change) (max : nat) (l : list nat) (count : nat) : nat :=
  match l with
  | [] => count
  | i :: l => if count <=? max then consec_loop c max l (if findplace c i then S count else 0) else count
  end.
Definition has_consec_places (c : change) (max : nat) : bool := max <? consec_loop c max (seq 0 (cn c)) 0.
(* methodutils.cpp:115-148 division_bad_parity_hack; the counts even[0], even[1], odd[0], odd[1] *)
Fixpoint count_signs (sym : symtab) (rows : list row) (second : bool) (e0 e1 o0 o1 : nat) : outcome (nat * nat * nat * nat) :=
  match rows with
  | [] => Ret (e0, e1, o0, o1)
  | r :: rows =>
    s <- sign sym r ;;
    if (s =? 1)%Z then (if second then count_signs sym rows (negb second) e0 (S e1) o0 o1 else count_signs sym rows (negb second) (S e0) e1 o0 o1)
    else (if second then count_signs sym rows (negb second) e0 e1 o0 (S o1) else count_signs sym rows (negb second) e0 e1 (S o0) o1)
  end.
Definition division_bad_parity_hack (sym : symtab) (m : list change) (c : change) (div_start cur_div_len : nat) : outcome bool :=
  '(r, rows) <- div_rows (cn c) (skipn div_start m) ;;
  r' <- row_mul_change r c ;;
  if negb (length (rows ++ [r']) =? cur_div_len) then Throw AssertFailed else
  '(e0, e1, o0, o1) <- count_signs sym (rows ++ [r']) false 0 0 0 0 ;;
  Ret (negb (e0 =? o0) || negb (e1 =? o1)).

(* methodutils.cpp:256-289 tenors_together_coursing_order.  The runtime_error "Unable to get a tenors together coursing
   order" is Ret None.  first_loop gives (b, i). *)
Fixpoint tt_first (fuel : nat) (lh : row) (n b i : nat) : outcome (nat * nat) :=
  match fuel with
  | O => Diverge
  | S fuel =>
    b <- vget lh b ;;
    if negb (S i <=? n) then Throw AssertFailed else
    if (Z.of_nat b <? Z.of_nat n - 2)%Z then tt_first fuel lh n b (S i) else Ret (b, S i)
  end.
Fixpoint tt_print (fuel : nat) (sym : symtab) (cg : row) (n b : nat) : outcome (list ascii) :=
  match fuel with
  | O => Diverge
  | S fuel =>
    b <- vget cg b ;;
    if negb (b =? n - 1) then s <- tt_print fuel sym cg n b ;; Ret (print_bell sym b ++ s) else Ret (print_bell sym b)
  end.
Definition tenors_together_coursing_order (sym : symtab) (fuel : nat) (m : method) : outcome (option (list ascii)) :=
  l <- lh m ;;
  let n := mb m in
  '(b, i) <- tt_first fuel l n (n - 1) 0 ;;
  if b =? n - 1 then Ret None
  else if negb (b =? n - 2) then Throw AssertFailed
  else
    cg <- forM (seq 1 (i - 1)) (fun cg _ => mul cg l) l ;;
    s <- tt_print fuel sym cg n b ;; Ret (Some (print_bell sym b ++ s)).

(* methodutils.cpp:291-305 compare_changes *)
Fixpoint lex_ltb (a b : list nat) : bool :=
  match a, b with
  | _, [] => false
  | [], _ :: _ => true
  | x :: a, y :: b => if x <? y then true else if y <? x then false else lex_ltb a b
  end.
Fixpoint read_chars (sym : symtab) (s : list ascii) : outcome (list nat) :=
  match s with [] => Ret [] | c :: s => b <- read_char sym c ;; l <- read_chars sym s ;; Ret (b :: l) end.
Definition compare_changes (sym : symtab) (a b : change) : outcome bool :=
  na <- count_places a ;;
  if na =? 0 then nb <- count_places b ;; Ret (0 <? nb)
  else nb <- count_places b ;;
       if nb =? 0 then Ret false
       else sa <- change_print sym Cross_default a ;; sb <- change_print sym Cross_default b ;;
            pa <- read_chars sym sa ;; pb <- read_chars sym sb ;; Ret (lex_ltb pa pb).
