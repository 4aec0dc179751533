(* M_Lhcode.v - model of method::lhcode (ringing/method.cpp:459-537).  int is Z; the static
   buffer of 32 characters is always long enough (a letter and a number below 256). *)
From Verif Require Import Base M_Bell M_Change M_Math M_Row M_Method.
Open Scope nat_scope.

Definition chr_of (z : Z) : ascii := ascii_of_nat (Z.to_nat z).
(* method.cpp:478-493: the kind of lead end (lhplace), the order o and the power n *)
Definition lh_place (sym : symtab) (m : method) (twin : bool) : outcome Z :=
  if twin then
    c <- mget m 0 ;;
    x <- change_of_pn sym (mb m) (str "X") ;;
    if change_eqb c x then Ret 1%Z else
    y <- change_of_pn sym (mb m) (str "3") ;;
    Ret (if change_eqb c y then 2 else 0)%Z
  else
    c <- mget m (mlen m - 1) ;;
    x <- change_of_pn sym (mb m) (str "1") ;;
    if change_eqb c x then Ret 1%Z else
    y <- change_of_pn sym (mb m) (str "12") ;;
    Ret (if change_eqb c y then 2 else 0)%Z.
(* method.cpp:502-534: letter and number *)
Definition code_letter (lhplace n o : Z) : list ascii :=
  let m := if (Z.quot o 2 <? n)%Z then (o - n)%Z else n in
  let p := if Z.odd o then 3%Z else 1%Z in
  let b0 := if Z.odd o then (if (m <=? 3)%Z then 97 + m - 1 else 99)%Z else 112%Z in
  let tail := if (p <? m)%Z then print_nat (Z.to_nat (m - p)) else [] in
  let b1 := if (m =? n)%Z then b0 else if Z.odd o then (97 + 102 - b0)%Z else 113%Z in
  let b2 := if (lhplace =? 1)%Z then
              (if Z.odd o then let b := (b1 + (103 - 97))%Z in if (105 <=? b)%Z then (b + 1)%Z else b
               else (b1 + (114 - 112))%Z)
            else b1 in
  chr_of b2 :: tail.
(* method.cpp:459-537 lhcode *)
Definition lhcode (sym : symtab) (m : method) : outcome (list ascii) :=
  let z := str "z" in
  reg <- isregular m ;;
  if negb reg then Ret z else
  lhr <- lh m ;;
  r0 <- vget lhr 0 ;;
  (* || short-circuits *)
  if negb (r0 =? 0) then Ret z else
  r2 <- vget lhr 2 ;;
  if r2 =? 2 then Ret z else
  n <- ispblh lhr ;;
  if n =? 0 then Ret z else
  r1 <- vget lhr 1 ;;
  let twin := r1 =? 1 in
  lhplace <- lh_place sym m twin ;;
  let o := (Z.of_nat (mb m) - (if twin then 2 else 1))%Z in
  let n := (if twin then o - Z.of_nat n else Z.of_nat n)%Z in
  if (lhplace =? 0)%Z then Ret z else
  h <- hcf n o ;;
  if (1 <? h)%Z then Ret z else
  Ret (code_letter lhplace n o).
