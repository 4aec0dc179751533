(* M_LeadHeads.v - model of the tests of lead heads and half lead heads in apps/methsearch: methodutils.cpp is_cyclic_le and
   search.cpp is_cyclic_hl, is_rev_cyclic_hl, is_regular_hl, is_acceptable_leadhead and the half of
   try_halflead_change that deals with half lead heads. *)
From Verif Require Import Base M_Bell M_Change M_Row.
Set Implicit Arguments.
Unset Strict Implicit.
Open Scope nat_scope.

(* methodutils.cpp:41-58; bells are unsigned, the differences ints *)
Definition is_cyclic_le (lh : row) (hunts : nat) : outcome bool :=
  v <- vget lh hunts ;;
  if v =? hunts then Ret false
  else if negb (forallb (fun i => nth i lh 0 =? i) (seq 0 hunts)) then Ret false
  else let n := (Z.of_nat (length lh) - Z.of_nat hunts)%Z in
    Ret (forallb (fun i => Z.rem (Z.of_nat (nth i lh 0%nat) - Z.of_nat hunts) n =? Z.rem (Z.of_nat (nth (i - 1)%nat lh 0%nat) + 1 - Z.of_nat hunts) n)%Z
      (seq (hunts + 1) (length lh - (hunts + 1)))).

(* search.cpp:691-700 is_cyclic_hl and 702-711 is_rev_cyclic_hl; bells is length hl.  For no bells hl[bells-1] is
   out of range. *)
Definition is_cyclic_hl (hl : row) : outcome bool :=
  let bells := length hl in
  if bells =? 0 then UB else
  v <- vget hl (bells - 1) ;;
  if negb (v =? 0) then Throw AssertFailed else
  Ret (forallb (fun i => nth (i - 1) hl 0 mod (bells - 1) + 1 =? nth i hl 0) (seq 1 (bells - 2))).
Definition is_rev_cyclic_hl (hl : row) : outcome bool :=
  let bells := length hl in
  if bells =? 0 then UB else
  v <- vget hl (bells - 1) ;;
  if negb (v =? 0) then Throw AssertFailed else
  Ret (forallb (fun i => nth (i + 1) hl 0 mod (bells - 1) + 1 =? nth i hl 0) (seq 0 (bells - 2))).

(* search.cpp:713-740 is_regular_hl; the static variable pblh, once set, is p *)
Fixpoint reg_loop (fuel : nat) (p rr hl rhl : row) : outcome bool :=
  match fuel with
  | O => Diverge
  | S fuel =>
    if row_eqb rhl hl then Ret true
    else rhl <- mul p rhl ;; if row_eqb rhl rr then Ret false else reg_loop fuel p rr hl rhl
  end.
Definition is_regular_hl (sym : symtab) (fuel : nat) (static : option row) (bells : nat) (hl : row) : outcome (option row * bool) :=
  p <- (match static with Some p => Ret p | None => pblh bells 1 end) ;;
  rr <- reverse_rounds bells ;;
  b <- reg_loop fuel p rr hl rr ;;
  if (b : bool) then Ret (Some p, true)
  else ch <- change_of_pn sym bells [to_char sym (b8 (bells - 1))] ;;
       rr' <- row_mul_change rr ch ;;
       b <- reg_loop fuel p rr' hl rr' ;; Ret (Some p, b).

(* search.cpp arguments that is_acceptable_leadhead looks at *)
Record lhargs := mkLhargs { la_bells : nat; la_hunts : nat; la_front : nat; la_all : bool; la_pb : bool; la_cyclic : bool; la_regular : bool }.
Section A.
Variables (sym : symtab) (A : lhargs).
(* search.cpp:1302-1316: the loop over the text of the cycles; start is the text from i, len is
   j - i so far.  What follows the last comma is not looked at. *)
Fixpoint lh_scan (start : list ascii) (len : nat) (s : list ascii) : outcome bool :=
  match s with
  | [] => Ret true
  | c :: t =>
    if eqc c (chr ",") then
      if len =? 1 then
        h <- read_char sym (hd zero start) ;;
        if (Z.of_nat h <? Z.of_nat (la_front A) - 1)%Z || (Z.of_nat (la_front A) - 1 + Z.of_nat (la_hunts A) <=? Z.of_nat h)%Z then Ret false
        else lh_scan t 0 t
      else if negb (len + la_hunts A =? la_bells A) then Ret false else lh_scan t 0 t
    else lh_scan start (S len) t
  end.
(* search.cpp:1298-1336 is_acceptable_leadhead *)
Definition is_acceptable_leadhead (lh : row) : outcome bool :=
  ok <- (if la_all A then Ret true else s <- cycles sym lh ;; lh_scan s 0 s) ;;
  if negb (ok : bool) then Ret false
  else if la_pb A then v <- ispblh_h lh (la_hunts A) ;; Ret (negb (v =? 0))
  else if la_cyclic A then is_cyclic_le lh (la_hunts A)
  else if la_regular A then v <- ispblh_h lh (leading_fixed 0 (firstn (la_bells A) lh)) ;; Ret (negb (v =? 0))
  else Ret true.
End A.
