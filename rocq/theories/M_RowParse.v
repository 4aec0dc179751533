(* M_RowParse.v - model of how apps/utils/row_calc.cpp reads an expression: its tokens (lines 66-168, with
   apps/utils/tokeniser.cpp:138-214) and rc_parser (lines 527-850).  Commands and files as sources of rows,
   $(...) and <(...), are not modelled: texts with $( or <( are not lexed. *)
From Verif Require Import Base M_Bell M_Change M_Row M_PN M_Mslib M_Gsiril M_Stream M_Token M_RowCalc.
Set Implicit Arguments. Unset Strict Implicit.
Open Scope nat_scope.

(* row_calc.cpp:66-88 tok_types; KId: a name, KOther: any other character *)
Inductive rk := KNum | KLit | KOpen | KClose | KTimes | KDivide | KLdivide | KPower | KMinus | KPlus
| KOpenSet | KCloseSet | KOpenGroup | KCloseGroup | KSep | KId | KOther.
Definition rk_eq_dec (a b : rk) : {a = b} + {a <> b}.
Proof. decide equality. Defined.
Definition rk_eqb (a b : rk) : bool := if rk_eq_dec a b then true else false.
Record rtok := rmk { tk : rk; tx : list ascii }.
(* row_calc.cpp:66-83: the characters which are tokens *)
Definition kinds : list (ascii * rk) :=
  [ (chr "(", KOpen); (chr ")", KClose); (chr "*", KTimes); (chr "/", KDivide); (chr "\", KLdivide); (chr "^", KPower);
    (chr "-", KMinus); (chr "+", KPlus); (chr "{", KOpenSet); (chr "}", KCloseSet); (chr "<", KOpenGroup); (chr ">", KCloseGroup);
    (chr ",", KSep) ].
Fixpoint kind_in (l : list (ascii * rk)) (c : ascii) : rk :=
  match l with [] => KOther | (d, k) :: l => if eqc c d then k else kind_in l c end.
(* row_calc.cpp:114-140, 142-150: $( and <( *)
Definition source (s : list ascii) : bool :=
  match s with c :: d :: _ => (eqc c (chr "$") || eqc c (chr "<")) && eqc d (chr "(") | _ => false end.
(* row_calc.cpp:90-112 rowlit_impl, and tokeniser.cpp:138-214 *)
Definition lex1 (sym : symtab) (s : list ascii) : rtok * list ascii :=
  match s with
  | [] => (rmk KOther [], [])
  | c :: u =>
    if eqc c (chr "x") || eqc c (chr "X") then (rmk KLit [c], u) else
    let '(w, r) := span (is_symbol sym) s in
    if existsb (fun d => negb (is_digit d)) w then (rmk KLit w, r)
    else if is_alpha c || eqc c (chr "_") then let '(w, r) := span (fun d => is_alnum d || eqc d (chr "_")) s in (rmk KId w, r)
    else if is_digit c then let '(w, r) := span is_digit s in (rmk KNum w, r)
    else (rmk (kind_in kinds c) [c], u)
  end.
Fixpoint lex_f (sym : symtab) (fuel : nat) (s : list ascii) : option (list rtok) :=
  match fuel with
  | O => None
  | S fuel =>
    match s with
    | [] => Some []
    | c :: u =>
      if is_space c then lex_f sym fuel u
      else if source s then None
      else let '(t, r) := lex1 sym s in match lex_f sym fuel r with Some ts => Some (t :: ts) | None => None end
    end
  end.
(* the tokens of a text; None if it has $( or <( *)
Definition lex (sym : symtab) (s : list ascii) : option (list rtok) := lex_f sym (S (length s)) s.
Definition oops {A} : outcome A := Throw InvalidArgument.       (* throw runtime_error(...) *)

(* row_calc.cpp:593-613, 622-643: the change of the depth.  It is kept without the bounds of an int. *)
Definition weight (t : rtok) : Z :=
  match tk t with KOpen | KOpenSet | KOpenGroup => 1 | KClose | KCloseSet | KCloseGroup => -1 | _ => 0 end%Z.
Definition among (ks : list rk) (t : rtok) : bool := existsb (rk_eqb (tk t)) ks.
(* row_calc.cpp:586-613 find_first: what is before, the token found, what is after *)
Fixpoint find_first (ks : list rk) (depth : Z) (ts : list rtok) : outcome (option (list rtok * rtok * list rtok)) :=
  match ts with
  | [] => if (depth =? 0)%Z then Ret None else oops
  | t :: u =>
    if (weight t =? 0)%Z && (depth =? 0)%Z && among ks t then Ret (Some ([], t, u))
    else f <- find_first ks (depth + weight t) u ;;
         Ret (match f with Some (a, x, b) => Some (t :: a, x, b) | None => None end)
  end.
(* row_calc.cpp:615-643 find_last: the same from the end *)
Definition find_last (ks : list rk) (ts : list rtok) : outcome (option (list rtok * rtok * list rtok)) :=
  f <- find_first ks 0 (rev ts) ;;
  Ret (match f with Some (a, x, b) => Some (rev b, x, rev a) | None => None end).
(* row_calc.cpp:645-671 find_close_paren: what follows the bracket that closes the first one *)
Fixpoint close_at (o c : rk) (depth : Z) (ts : list rtok) : outcome (list rtok) :=
  match ts with
  | [] => oops
  | t :: u =>
    let d := (if rk_eqb (tk t) o then depth + 1 else if rk_eqb (tk t) c then depth - 1 else depth)%Z in
    if (d =? 0)%Z then Ret u else close_at o c d u
  end.
(* row_calc.cpp:645-685 is_enclosed; the range is not empty where it is called *)
Definition is_enclosed (o c : rk) (ts : list rtok) : outcome bool :=
  match ts with
  | [] => UB
  | t :: u =>
    if negb (rk_eqb (tk t) o) then Ret false
    else r <- close_at o c 0 ts ;; if S (length r) =? length u then oops else Ret (is_empty r)
  end.
(* row_calc.cpp:572-584 check_binary_expr *)
Definition check_binary (a b : list rtok) : outcome unit := if is_empty a || is_empty b then oops else Ret tt.

Section Parse.
Variable sym : symtab.
Variable f : flags.
Variable bells : nat.
(* row_calc.cpp:687-698 parse_int, with sign +1 *)
Definition parse_int (ts : list rtok) : outcome cexpr :=
  match ts with
  | [t] => if rk_eqb (tk t) KNum then z <- lexical_cast_int (tx t) ;; Ret (CInt z) else oops
  | _ => oops
  end.
(* the same with sign -1; the product may overflow: -(-2^31) cannot be, as the text has no sign *)
Definition parse_neg (ts : list rtok) : outcome cexpr :=
  match ts with
  | [t] => if rk_eqb (tk t) KNum then z <- lexical_cast_int (tx t) ;; Ret (CInt (- z)) else oops
  | _ => oops
  end.
(* row_calc.cpp:700-721 make_row *)
Definition as_change (s : list ascii) : outcome (option row) :=
  if negb (f_changes f) then Ret None
  else match change_of_pn sym bells s with
       | Ret c => r <- row_mul_change [] c ;; Ret (Some r)
       | Throw ChangeInvalid => Ret None
       | Throw e => Throw e | UB => UB | Diverge => Diverge
       end.
Definition with_treble (s : list ascii) : list ascii :=
  let treble := to_char sym 0 in if f_treble f && negb (existsb (eqc treble) s) then treble :: s else s.
Definition make_row (s : list ascii) : outcome row :=
  o <- as_change s ;;
  match o with
  | Some r => Ret r
  | None => r <- row_of_string sym (with_treble s) ;;
            if negb (f_promote f) && negb (length r =? bells) then Throw RowInvalid else Ret r
  end.

Variable rec : list rtok -> outcome cexpr.      (* parse_expr, on fewer tokens *)
(* row_calc.cpp:723-760 parse_row_or_int *)
Definition row_or_int (ts : list rtok) : outcome cexpr :=
  match ts with
  | [] => oops
  | t :: u =>
    if rk_eqb (tk t) KMinus then parse_neg u
    else if rk_eqb (tk t) KPlus then parse_int u
    else if is_empty u && rk_eqb (tk t) KNum then
      if length (tx t) =? 1 then parse_int ts
      else match make_row (tx t) with Throw RowInvalid => parse_int ts | o => r <- o ;; Ret (CRow r) end
    else rec ts
  end.
(* row_calc.cpp:762-776 parse_set *)
Fixpoint parse_set (fuel : nat) (ts : list rtok) : outcome (list cexpr) :=
  match fuel with
  | O => Diverge
  | S fuel =>
    o <- find_first [KSep] 0 ts ;;
    match o with
    | Some (a, _, b) => _ <- check_binary a b ;; es <- parse_set fuel b ;; e <- rec a ;; Ret (e :: es)
    | None => e <- rec ts ;; Ret [e]
    end
  end.
(* first+1, last-1 of a range of two or more *)
Definition between (ts : list rtok) : list rtok := removelast (tl ts).
Definition op_of (k : rk) : mult_op := match k with KDivide => Divide | KLdivide => Ldivide | _ => Times end.
(* row_calc.cpp:778-850 parse_expr *)
Definition parse_step (fuel : nat) (ts : list rtok) : outcome cexpr :=
  match ts with
  | [] => oops
  | t :: u =>
    p <- is_enclosed KOpen KClose ts ;;
    if p : bool then rec (between ts) else
    p <- is_enclosed KOpenSet KCloseSet ts ;;
    if p : bool then es <- parse_set fuel (between ts) ;; Ret (CSet es) else
    p <- is_enclosed KOpenGroup KCloseGroup ts ;;
    if p : bool then es <- parse_set fuel (between ts) ;; Ret (CGroup es) else
    o <- find_last [KMinus] ts ;;
    match o with
    | Some (a, _, b) => _ <- check_binary a b ;; x <- rec a ;; y <- rec b ;; Ret (CDiff x y)
    | None =>
    o <- find_last [KTimes; KDivide; KLdivide] ts ;;
    match o with
    | Some (a, op, b) => _ <- check_binary a b ;; x <- rec a ;; y <- rec b ;; Ret (CMult (op_of (tk op)) x y)
    | None =>
    o <- find_first [KPower] 0 ts ;;
    match o with
    | Some (a, _, b) => _ <- check_binary a b ;; x <- rec a ;; y <- row_or_int b ;; Ret (CExp x y)
    | None => if is_empty u && (rk_eqb (tk t) KNum || rk_eqb (tk t) KLit) then r <- make_row (tx t) ;; Ret (CRow r) else oops
    end end end
  end.
End Parse.
Fixpoint parse_expr (sym : symtab) (f : flags) (bells fuel : nat) (ts : list rtok) : outcome cexpr :=
  match fuel with O => Diverge | S fuel => parse_step sym f bells (parse_expr sym f bells fuel) fuel ts end.
Definition parse (sym : symtab) (f : flags) (bells : nat) (ts : list rtok) : outcome cexpr := parse_expr sym f bells (S (S (length ts))) ts.
(* row_calc.cpp:532-536, 853-869: an expression from its text *)
Definition read_expr (sym : symtab) (f : flags) (bells : nat) (s : list ascii) : option (outcome cexpr) :=
  match lex sym s with Some ts => Some (parse sym f bells ts) | None => None end.
