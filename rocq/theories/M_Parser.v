(* M_Parser.v - model of how gsiril turns the tokens of an expression into an expression:
   msparser::make_expr and what it uses, apps/gsiril/parser.cpp:518-530, 566-1014. *)
From Verif Require Import Base M_Bell M_Change M_Row M_Method M_Gsiril.
Set Implicit Arguments. Unset Strict Implicit.
Open Scope nat_scope.

(* parser.cpp:55-101 tok_types.  KOdd: any other character. *)
Inductive tt :=
| KName | KNum | KOParen | KCParen | KOBrace | KCBrace | KOBrack | KCBrack
| KColon | KComma | KPlus | KMinus | KTimes | KDivide | KModulo | KAppend
| KAssign | KNewLine | KSemi | KReverse | KGreater | KLess | KNot | KMerge | KCtrlZ
| KComment | KString | KTransp | KPn | KDefAssign | KImmAssign | KAppAssign
| KAnd | KOr | KEq | KNe | KGe | KLe | KIncr | KDecr | KLsh | KRsh | KRegex | KOdd.
Definition tt_eq_dec (a b : tt) : {a = b} + {a <> b}.
Proof. decide equality. Defined.
Definition tt_eqb (a b : tt) : bool := if tt_eq_dec a b then true else false.

(* apps/utils/tokeniser.h: a token is a string with a type *)
Record token := mkTok { tk : tt; tx : text }.
(* the token is a name and its text is s *)
Definition is_word (s : text) (t : token) : bool := tt_eqb (tk t) KName && list_ascii_eqb (tx t) s.

(* The nodes built from the text of a literal: the constructors of pn_node, transp_node and
   pattern_node (expression.cpp), which depend on the number of bells and may throw. *)
Record lits := mkLits { l_pn : text -> outcome expr; l_transp : text -> outcome expr; l_regex : text -> outcome expr }.

Definition fail {A} : outcome A := Throw InvalidArgument.   (* throw runtime_error(...) *)

(* apps/utils/stringutils.cpp:72-86 string_to_int on the text of a number token, which is all
   digits (tokeniser.cpp:189-199): strtol stops at LONG_MAX and the long is made an int.
   Simplified: white space and a sign, which strtol would accept, cannot occur. *)
Definition num_value (s : text) : outcome Z :=
  if forallb is_digit s then Ret (to_int (Z.min ll_max (fst (read_digits 0 s)))) else fail.

Definition opens (k : tt) : bool := match k with KOParen | KOBrace | KOBrack => true | _ => false end.
Definition closes (k : tt) : bool := match k with KCParen | KCBrace | KCBrack => true | _ => false end.

(* parser.cpp:569-594 is_enclosed.  The loop; the range is not empty where it is called.
   The test for an empty pair at the end of it never holds, since first is last there.
   Here and below the depth is kept without the bounds of an int. *)
Fixpoint enclosed_from (o c : tt) (depth : Z) (ts : list token) : outcome bool :=
  match ts with
  | [] => if (depth =? 0)%Z then Ret true else fail
  | t :: ts =>
    let d := (if tt_eqb (tk t) o then depth + 1 else if tt_eqb (tk t) c then depth - 1 else depth)%Z in
    if (d =? 0)%Z && negb (match ts with [] => true | _ => false end) then Ret false else enclosed_from o c d ts
  end.
Definition is_enclosed (o c : tt) (ts : list token) : outcome bool :=
  match ts with
  | [] => UB
  | t :: _ => if negb (tt_eqb (tk t) o) || negb (tt_eqb (tk (last ts t)) c) then Ret false else enclosed_from o c 0 ts
  end.

(* parser.cpp:596-623 find_one_of, for the first and for the last: what is before, the token
   found, and what is after *)
Definition among (ks : list tt) (t : token) : bool := existsb (tt_eqb (tk t)) ks.
Definition found := option (list token * token * list token).
Definition past (t : token) (f : found) : found :=
  match f with Some (a, x, b) => Some (t :: a, x, b) | None => None end.
Fixpoint find_first (ks : list tt) (depth : Z) (ts : list token) : outcome found :=
  match ts with
  | [] => if (depth =? 0)%Z then Ret None else fail
  | t :: u =>
    if opens (tk t) then f <- find_first ks (depth + 1) u ;; Ret (past t f)
    else if closes (tk t) then f <- find_first ks (depth - 1) u ;; Ret (past t f)
    else if (depth =? 0)%Z && among ks t then Ret (Some ([], t, u))
    else f <- find_first ks depth u ;; Ret (past t f)
  end.
Fixpoint find_last (ks : list tt) (depth : Z) (ts : list token) : outcome found :=
  match ts with
  | [] => if (depth =? 0)%Z then Ret None else fail
  | t :: u =>
    if opens (tk t) then f <- find_last ks (depth + 1) u ;; Ret (past t f)
    else if closes (tk t) then f <- find_last ks (depth - 1) u ;; Ret (past t f)
    else
      f <- find_last ks depth u ;;
      match f with
      | Some _ => Ret (past t f)
      | None => Ret (if (depth =? 0)%Z && among ks t then Some ([], t, u) else None)
      end
  end.

Section Parse.
Variable L : lits.
Variable rec : list token -> outcome expr.       (* make_expr, on fewer tokens *)

(* parser.cpp:518-533 parse_list *)
Fixpoint parse_list_f (fuel : nat) (ts : list token) : outcome (list expr) :=
  match fuel with O => Diverge | S fuel =>
  f <- find_first [KComma] 0 ts ;;
  match f with
  | Some (a, _, b) => e <- rec a ;; es <- parse_list_f fuel b ;; Ret (e :: es)
  | None => match ts with [] => Ret [] | _ => e <- rec ts ;; Ret [e] end
  end end.

(* parser.cpp:994-1013 make_args: the loop, on a range which is not empty or follows a comma *)
Fixpoint make_args_f (fuel : nat) (ts : list token) : outcome (list expr) :=
  match fuel with O => Diverge | S fuel =>
  f <- find_first [KComma] 0 ts ;;
  match f with
  | Some (a, _, b) =>
    match a with [] => fail | _ => e <- rec a ;; es <- make_args_f fuel b ;; Ret (e :: es) end
  | None => match ts with [] => fail | _ => e <- rec ts ;; Ret [e] end
  end end.
Definition make_args (ts : list token) : outcome (list expr) :=
  match ts with [] => Ret [] | _ => make_args_f (S (length ts)) ts end.

(* parser.cpp:675-714 an alternative block: ts is what is between the opening brace and last *)
Fixpoint drop_semis (ts : list token) : list token :=      (* of the tokens in reverse order *)
  match ts with t :: u => if tt_eqb (tk t) KSemi then drop_semis u else ts | [] => [] end.
Definition strip_semis (ts : list token) : list token := rev (drop_semis (rev ts)).
Definition alternative (ts : list token) : outcome (expr * expr) :=
  f <- find_first [KColon] 0 ts ;;
  match f with
  | Some (a, _, b) =>
    test <- rec a ;;
    e <- match b with [] => Ret ENop | _ => rec b end ;; Ret (test, e)
  | None =>
    test <- l_regex L (str "*") ;;
    e <- match ts with [] => Ret ENop | _ => rec ts end ;; Ret (test, e)
  end.
Fixpoint braces_f (fuel : nat) (ts : list token) (chain : option expr) : outcome expr :=
  match fuel with O => Diverge | S fuel =>
  f <- find_last [KSemi] 0 ts ;;
  match f with
  | Some (a, _, b) => '(t, e) <- alternative b ;; braces_f fuel (strip_semis a) (Some (EIf t e chain))
  | None => '(t, e) <- alternative ts ;; Ret (EIf t e chain)
  end end.

(* parser.cpp:768-879 the binary operators from the lowest precedence to the highest, and
   check_bin_op:629-642 *)
Definition bin_levels : list (list tt) :=
  [ [KComma]; [KOr]; [KAnd]; [KEq; KNe; KGreater; KLess; KGe; KLe]; [KMerge]; [KLsh; KRsh];
    [KPlus; KMinus]; [KTimes; KAppend; KDivide; KModulo] ].
Definition bin_node (k : tt) (x y : expr) : expr :=
  match k with
  | KComma => EList x y | KOr => EOr x y | KAnd => EAnd x y
  | KEq => ECmp CEq x y | KNe => ECmp CNe x y | KGreater => ECmp CGt x y
  | KLess => ECmp CLt x y | KGe => ECmp CGe x y | KLe => ECmp CLe x y
  | KMerge => EMerge x y | KLsh => EReplace x y false | KRsh => EReplace x y true
  | KPlus => EAdd 1 x y | KMinus => EAdd (-1) x y
  | KTimes => EMult x y | KAppend => EAppend x y | KDivide => EDiv x y | KModulo => EMod x y
  | _ => ENop                             (* no other is looked for *)
  end.
Fixpoint binary (ls : list (list tt)) (ts : list token) : outcome (option expr) :=
  match ls with
  | [] => Ret None
  | ks :: ls =>
    f <- find_first ks 0 ts ;;
    match f with
    | Some ([], _, _) | Some (_, _, []) => fail
    | Some (a, t, b) => x <- rec a ;; y <- rec b ;; Ret (Some (bin_node (tk t) x y))
    | None => binary ls ts
    end
  end.

(* parser.cpp:723-766 assignment: None if there is no such operator *)
Definition assignment (ts : list token) : outcome (option expr) :=
  f <- find_first [KAssign; KAppAssign; KImmAssign] 0 ts ;;
  match f with
  | None => Ret None
  | Some ([x], t, b) =>
    if negb (tt_eqb (tk x) KName) then fail
    else if tt_eqb (tk t) KAssign then
      match b with [] => Ret (Some (EAssign (tx x) ENop)) | _ => e <- rec b ;; Ret (Some (EAssign (tx x) e)) end
    else match b with
         | [] => fail
         | _ => e <- rec b ;;
                Ret (Some (if tt_eqb (tk t) KAppAssign then EAppendAssign (tx x) e else EImmAssign (tx x) e))
         end
  | Some _ => fail
  end.

(* parser.cpp:881-888 the defined operator *)
Definition defined_op (t : token) (u : list token) : option expr :=
  if is_word (str "defined") t then
    match u with
    | [x] => if tt_eqb (tk x) KName then Some (EDefined (tx x)) else None
    | [o; x; c] =>
      if tt_eqb (tk o) KOParen && tt_eqb (tk c) KCParen && tt_eqb (tk x) KName then Some (EDefined (tx x)) else None
    | _ => None
    end
  else None.

(* parser.cpp:645-658 check_unary_op with the type of the argument; the tokens after that
   argument are not looked at *)
Definition unary_arg (k : tt) (u : list token) : outcome text :=
  match u with [] => fail | x :: _ => if tt_eqb (tk x) k then Ret (tx x) else fail end.

(* parser.cpp:948-991 the literals *)
Definition literal (t : token) : outcome expr :=
  match tk t with
  | KString => Ret (EString (tx t) true false false false)
  | KName =>
    Ret (if list_ascii_eqb (tx t) (str "break") then EExn SBreak
         else if list_ascii_eqb (tx t) (str "rounds") then EIsrounds
         else if list_ascii_eqb (tx t) (str "true") then EBool true
         else if list_ascii_eqb (tx t) (str "false") then EBool false
         else if list_ascii_eqb (tx t) (str "bells") then EBells
         else if list_ascii_eqb (tx t) (str "length") then ELength
         else if list_ascii_eqb (tx t) (str "endproof") then EEndproof
         else if list_ascii_eqb (tx t) (str "proving") then EIsproving
         else ESym (tx t))
  | KPn => l_pn L (tx t)
  | KTransp => l_transp L (tx t)
  | KRegex => l_regex L (tx t)
  | KNum => z <- num_value (tx t) ;; Ret (EInt z)
  | _ => fail
  end.

(* parser.cpp:890-952 what is left when there is no binary operator *)
Definition prefix (t : token) (u : list token) : outcome expr :=
  match defined_op t u with Some e => Ret e | None =>
  if tt_eqb (tk t) KNum && negb (match u with [] => true | _ => false end) || is_word (str "repeat") t then
    match u with
    | [] => fail
    | _ => z <- (if tt_eqb (tk t) KNum then num_value (tx t) else Ret (-1)%Z) ;; e <- rec u ;; Ret (ERepeat z e)
    end
  else if tt_eqb (tk t) KIncr || tt_eqb (tk t) KDecr then
    x <- unary_arg KName u ;; Ret (EIncr x (if tt_eqb (tk t) KDecr then -1 else 1)%Z)
  else if is_word (str "echo") t then
    x <- unary_arg KString u ;; Ret (EString x true true false false)
  else if is_word (str "save") t then
    x <- unary_arg KName u ;; Ret (ESave x)
  else if tt_eqb (tk t) KReverse then
    match u with [] => fail | _ => e <- rec u ;; Ret (EReverse e) end
  else if tt_eqb (tk t) KNot then
    match u with [] => fail | _ => e <- rec u ;; Ret (ENot e) end
  else
    call <- (if (2 <=? length u) && tt_eqb (tk t) KName then is_enclosed KOParen KCParen u else Ret false) ;;
    if call : bool then es <- make_args (removelast (tl u)) ;; Ret (ECall (tx t) es)
    else match u with [] => literal t | _ => fail end
  end.

(* parser.cpp:660-952 make_expr *)
Definition expr_step (ts : list token) : outcome expr :=
  match ts with
  | [] => fail
  | t :: u =>
    paren <- is_enclosed KOParen KCParen ts ;;
    if paren : bool then rec (removelast u) else
    brace <- is_enclosed KOBrace KCBrace ts ;;
    if brace : bool then braces_f (S (length u)) (strip_semis (removelast u)) None else
    brack <- is_enclosed KOBrack KCBrack ts ;;
    if brack : bool then es <- parse_list_f (S (length u)) (removelast u) ;; Ret (EArray es) else
    asg <- assignment ts ;;
    match asg with Some e => Ret e | None =>
    bin <- binary bin_levels ts ;;
    match bin with Some e => Ret e | None => prefix t u end
    end
  end.
End Parse.

Fixpoint make_expr_f (L : lits) (fuel : nat) (ts : list token) : outcome expr :=
  match fuel with O => Diverge | S fuel => expr_step L (make_expr_f L fuel) ts end.
Definition make_expr (L : lits) (ts : list token) : outcome expr := make_expr_f L (S (length ts)) ts.
