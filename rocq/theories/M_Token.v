(* M_Token.v - model of the tokeniser of gsiril: apps/utils/tokeniser.cpp:53-214 as set up by
   mstokeniser (apps/gsiril/parser.cpp:103-275), and of how the tokens are made into commands
   (parser.cpp:305-361). *)
From Verif Require Import Base M_Bell M_PN M_Mslib M_Gsiril M_Parser.
Set Implicit Arguments. Unset Strict Implicit.
Open Scope nat_scope.

Definition nl : ascii := ascii_of_nat 10.
(* tokeniser.cpp:63-66 basic_token::matches: what follows the initial sequence *)
Fixpoint after (p s : text) : option text :=
  match p, s with
  | [], _ => Some s
  | c :: p, d :: s => if eqc c d then after p s else None
  | _ :: _, [] => None
  end.

(* tokeniser.cpp:89-108 string_token::parse, when one line is all it may take: the text up to
   the closing quote and what follows it.  (more is never returned: a line ends in a new line.) *)
Fixpoint to_quote (q : ascii) (s : text) : option (text * text) :=
  match s with
  | [] => None
  | c :: s =>
    if eqc c q then Some ([], s) else if eqc c nl then None
    else match to_quote q s with Some (a, b) => Some (c :: a, b) | None => None end
  end.

(* parser.cpp:116-121 pn_impl::parse: the loop; s is what follows the & or + *)
Fixpoint pn_rest (fuel : nat) (s : text) : outcome text :=
  match fuel with O => Diverge | S fuel =>
  match s with
  | [] => Ret []
  | c :: u =>
    if eqc c (chr "{") then s' <- read_bell_expr s ;; pn_rest fuel s'
    else if eqc c (chr ".") || eqc c (chr "-") || is_alnum c then pn_rest fuel u
    else Ret s
  end end.
(* parser.cpp:110-126 pn_impl::parse of c :: s, c being the & or + *)
Definition pn_token (c : ascii) (s : text) : outcome (option (token * text)) :=
  r <- pn_rest (S (length s)) s ;;
  Ret (if length r <? length s then Some (mkTok KPn (c :: firstn (length s - length r) s), r) else None).

(* parser.cpp:136-145 line_comment_impl::parse *)
Fixpoint to_eol (s : text) : text * text :=
  match s with
  | [] => ([], [])
  | c :: u => if eqc c nl then ([], s) else let '(a, b) := to_eol u in (c :: a, b)
  end.

(* parser.cpp:172-193 the tokens with a fixed spelling of two characters, in the order in
   which they are tried *)
Definition pairs : list (text * tt) :=
  [ (str "?=", KDefAssign); (str ":=", KImmAssign); (str ".=", KAppAssign); (str "&&", KAnd); (str "||", KOr);
    (str "==", KEq); (str "!=", KNe); (str ">=", KGe); (str "<=", KLe); (str "++", KIncr); (str "--", KDecr);
    (str "<<", KLsh); (str ">>", KRsh) ].
Fixpoint fixed (ps : list (text * tt)) (s : text) : option (token * text) :=
  match ps with
  | [] => None
  | (p, k) :: ps => match after p s with Some r => Some (mkTok k p, r) | None => fixed ps s end
  end.

(* tokeniser.cpp:169-173 and parser.cpp:196-205: the characters of a name.  In MicroSiril
   mode they are looked for with strchr, which also finds the terminating NUL. *)
Definition under : ascii := chr "_".
Definition id_first (ms : bool) (c : ascii) : bool := is_alpha c || eqc c under || ms && eqc c zero.
Definition id_other (ms : bool) (c : ascii) : bool :=
  is_alnum c || eqc c under || ms && (eqc c zero || eqc c (chr "%") || eqc c (chr "-") || eqc c (chr "!")).
Fixpoint span (p : ascii -> bool) (s : text) : text * text :=
  match s with
  | [] => ([], [])
  | c :: u => if p c then let '(a, b) := span p u in (c :: a, b) else ([], s)
  end.

(* parser.cpp:55-82: the types of the tokens of one character *)
Definition singles : list (ascii * tt) :=
  [ (chr "(", KOParen); (chr ")", KCParen); (chr "{", KOBrace); (chr "}", KCBrace); (chr "[", KOBrack); (chr "]", KCBrack);
    (chr ":", KColon); (chr ",", KComma); (chr "+", KPlus); (chr "-", KMinus); (chr "*", KTimes); (chr "/", KDivide);
    (chr "%", KModulo); (chr ".", KAppend); (chr "=", KAssign); (nl, KNewLine); (chr ";", KSemi); (chr "~", KReverse);
    (chr ">", KGreater); (chr "<", KLess); (chr "!", KNot); (chr "&", KMerge); (ascii_of_nat 26, KCtrlZ) ].
Fixpoint single (l : list (ascii * tt)) (c : ascii) : tt :=
  match l with [] => KOdd | (d, k) :: l => if eqc c d then k else single l c end.

(* tokeniser.cpp:149-212 parse, at a character c at which a token starts.  ms: MicroSiril
   syntax; ci: names are made lower case. *)
Definition comment_mark (ms : bool) : text := if ms then str "/" else str "//".
Definition unquoted (ms ci : bool) (c : ascii) (u : text) : token * text :=
  if id_first ms c then
    let '(a, b) := span (id_other ms) u in (mkTok KName (if ci then map to_lower (c :: a) else c :: a), b)
  else if is_digit c then let '(a, b) := span is_digit u in (mkTok KNum (c :: a), b)
  else (mkTok (single singles c) [c], u).
Definition quote (q : ascii) (k : tt) (c : ascii) (u : text) : option (token * text) :=
  if eqc c q then match to_quote q u with Some (a, b) => Some (mkTok k a, b) | None => None end else None.
Definition lex1 (ms ci : bool) (c : ascii) (u : text) : outcome (token * text) :=
  let s := c :: u in
  match after (comment_mark ms) s with
  | Some _ => let '(a, b) := to_eol s in Ret (mkTok KComment a, b)
  | None =>
  match (if ms then None else quote (chr "/") KRegex c u) with Some r => Ret r | None =>
  match quote (chr "'") KTransp c u with Some r => Ret r | None =>
  match quote (chr """") KString c u with Some r => Ret r | None =>
  match fixed pairs s with Some r => Ret r | None =>
  o <- (if eqc c (chr "&") || eqc c (chr "+") then pn_token c u else Ret None) ;;
  Ret (match o with Some r => r | None => unquoted ms ci c u end)
  end end end end end.

(* tokeniser.cpp:134-146: the blanks that are passed over *)
Definition blank (c : ascii) : bool := is_space c && negb (eqc c nl).
(* The tokens of a line which ends in a new line.  The flag says that the next token cannot be
   read: read_bell_expr throws bell::invalid, the position stays where it is, and it does so
   whenever it is asked again. *)
Fixpoint lex_f (fuel : nat) (ms ci : bool) (s : text) : outcome (list token * bool) :=
  match fuel with O => Diverge | S fuel =>
  match s with
  | [] => Ret ([], false)
  | c :: u =>
    if blank c then lex_f fuel ms ci u
    else match lex1 ms ci c u with
         | Ret (t, r) => '(ts, b) <- lex_f fuel ms ci r ;; Ret (t :: ts, b)
         | Throw _ => Ret ([], true)
         | UB => UB
         | Diverge => Diverge
         end
  end end.
Definition lex_line (ms ci : bool) (s : text) : outcome (list token * bool) := lex_f (S (length s)) ms ci s.

(* getline (tokeniser.cpp:139): the lines of the input; an unfinished last line counts *)
Fixpoint lines_f (s acc : text) : list text :=
  match s with
  | [] => match acc with [] => [] | _ => [rev acc] end
  | c :: s => if eqc c nl then rev acc :: lines_f s [] else lines_f s (c :: acc)
  end.
Definition lines (s : text) : list text := lines_f s [].
(* The tokens of the input. *)
Fixpoint lex_lines (ms ci : bool) (ls : list text) : outcome (list token * bool) :=
  match ls with
  | [] => Ret ([], false)
  | l :: ls =>
    '(ts, b) <- lex_line ms ci (l ++ [nl]) ;;
    if b : bool then Ret (ts, true) else '(us, b') <- lex_lines ms ci ls ;; Ret (ts ++ us, b')
  end.
Definition lex (ms ci : bool) (s : text) : outcome (list token * bool) := lex_lines ms ci (lines s).

(* parser.cpp:207-247 mstokeniser::validate *)
Definition valid (ms : bool) (t : token) : bool :=
  match tk t with
  | KName | KNum | KOParen | KCParen | KComma | KTimes | KAssign | KNewLine | KSemi | KComment | KString
  | KTransp | KPn | KDefAssign | KImmAssign | KAppAssign | KReverse | KOBrace | KCBrace | KColon | KNot
  | KLess | KGreater | KLe | KGe => true
  | KCtrlZ => ms
  | KPlus | KMinus | KModulo | KAppend | KDivide | KMerge | KLsh | KRsh | KRegex | KAnd | KOr | KEq | KNe
  | KIncr | KDecr | KOBrack | KCBrack => negb ms
  | KOdd => false
  end.

(* The state of the parser: the tokens from the current one on (none: the end), and whether the
   last of them is followed by what cannot be read.  tokeniser.cpp:53-57 increment. *)
Record stream := mkStream { s_toks : list token; s_bad : bool }.
Definition stuck (bad : bool) (u : list token) : bool := match u with [] => bad | _ => false end.

Definition ends_command (t : token) : bool := tt_eqb (tk t) KNewLine || tt_eqb (tk t) KSemi.
Definition skipped (t : token) : bool := ends_command t || tt_eqb (tk t) KComment.
(* parser.cpp:305-307 is_bin_only_operator *)
Definition wants_more (acc : list token) : bool :=         (* the last token is the first of acc *)
  match acc with t :: _ => tt_eqb (tk t) KComma || tt_eqb (tk t) KAppend | [] => false end.
(* parser.cpp:309-361 tokenise_command, with the tokens left when it returns or throws; the
   command is kept in reverse.  skip: in the loop that skips empty commands.  The nesting is
   kept without the bounds of an int. *)
Fixpoint command (ms bad skip : bool) (ts acc : list token) (nest : nat) : list token * outcome (list token) :=
  match ts with
  | [] => ([], if match acc with [] => false | t :: _ => tt_eqb (tk t) KComma || (0 <? nest) end then fail else Ret (rev acc))
  | t :: u =>
    if skip && skipped t then
      if stuck bad u then (ts, Throw BellInvalid) else command ms bad true u acc nest
    else if ends_command t && (nest =? 0) then
      if wants_more acc then
        if stuck bad u then (ts, Throw BellInvalid) else command ms bad true u acc nest
      else (ts, Ret (rev acc))
    else
      let keep := negb (tt_eqb (tk t) KComment || tt_eqb (tk t) KNewLine) in
      if keep && negb (valid ms t) then
        if stuck bad u then (ts, Throw BellInvalid) else (u, fail)
      else if stuck bad u then (ts, Throw BellInvalid)
      else command ms bad false u (if keep then t :: acc else acc)
             (if opens (tk t) then S nest else if closes (tk t) then nest - 1 else nest)
  end.
