(* Spec_Token.v - how the tokens of gsiril are written. *)
From Verif Require Import Base M_Bell M_PN M_Mslib M_Gsiril M_Parser.
Set Implicit Arguments. Unset Strict Implicit.
Open Scope nat_scope.

(* the characters of names *)
Definition letter_ (c : ascii) : Prop := is_upper c = true \/ is_lower c = true \/ c = chr "_".
Definition name_first (ms : bool) (c : ascii) : Prop := letter_ c \/ (ms = true /\ c = zero).
Definition name_more (ms : bool) (c : ascii) : Prop :=
  name_first ms c \/ is_digit c = true \/ (ms = true /\ In c [chr "%"; chr "-"; chr "!"]).
Definition digit (c : ascii) : Prop := is_digit c = true.
(* the operators of two characters and of one *)
Definition two_chars : list (string * tt) :=
  [ ("?=", KDefAssign); (":=", KImmAssign); (".=", KAppAssign); ("&&", KAnd); ("||", KOr); ("==", KEq); ("!=", KNe);
    (">=", KGe); ("<=", KLe); ("++", KIncr); ("--", KDecr); ("<<", KLsh); (">>", KRsh) ]%string.
Definition one_char : list (string * tt) :=
  [ ("(", KOParen); (")", KCParen); ("{", KOBrace); ("}", KCBrace); ("[", KOBrack); ("]", KCBrack); (":", KColon);
    (",", KComma); ("-", KMinus); ("*", KTimes); ("%", KModulo); (".", KAppend); ("=", KAssign); (";", KSemi);
    ("~", KReverse); (">", KGreater); ("<", KLess); ("!", KNot); (String (ascii_of_nat 26) "", KCtrlZ) ]%string.
Definition signs : list (string * tt) := [ ("+", KPlus); ("&", KMerge) ]%string.
(* the characters of place notation after its sign: the places, dots, dashes, and bell
   expressions in braces, which do not nest *)
Definition place (c : ascii) : Prop := is_alnum c = true \/ c = chr "." \/ c = chr "-".
Inductive places : text -> Prop :=
| p_none : places []
| p_one c s : place c -> places s -> places (c :: s)
| p_expr g s : ~ In (chr "{") g -> ~ In (chr "}") g -> places s -> places (chr "{" :: g ++ chr "}" :: s).

(* what is next on the line, if anything, is not such a character *)
Definition not_next (p : ascii -> Prop) (s : text) : Prop := match s with [] => True | c :: _ => ~ p c end.
(* with it c is not an operator of two characters *)
Definition alone (c : ascii) (s : text) : Prop := not_next (fun d => exists p k, In (p, k) two_chars /\ str p = [c; d]) s.

(* written ms ci t w s: the token t is written w when s is the rest of the line.  In MicroSiril
   syntax (ms) there are no patterns and no division; with ci the case of names is ignored. *)
Inductive written (ms ci : bool) : token -> text -> text -> Prop :=
| w_name c w s : name_first ms c -> Forall (name_more ms) w -> not_next (name_more ms) s ->
    written ms ci (mkTok KName (if ci then map to_lower (c :: w) else c :: w)) (c :: w) s
| w_num c w s : digit c -> Forall digit w -> not_next digit s -> written ms ci (mkTok KNum (c :: w)) (c :: w) s
| w_str w s : ~ In (chr """") w -> written ms ci (mkTok KString w) (chr """" :: w ++ [chr """"]) s
| w_transpos w s : ~ In (chr "'") w -> written ms ci (mkTok KTransp w) (chr "'" :: w ++ [chr "'"]) s
| w_pattern w s : ms = false -> ~ In (chr "/") w -> w <> [] -> written ms ci (mkTok KRegex w) (chr "/" :: w ++ [chr "/"]) s
| w_places c w s : c = chr "&" \/ c = chr "+" -> places w -> w <> [] -> not_next (fun d => place d \/ d = chr "{") s ->
    written ms ci (mkTok KPn (c :: w)) (c :: w) s
| w_two p k s : In (p, k) two_chars -> written ms ci (mkTok k (str p)) (str p) s
| w_one c k s : In (String c "", k) one_char -> alone c s -> written ms ci (mkTok k [c]) [c] s
| w_sign c k s : In (String c "", k) signs -> alone c s -> not_next (fun d => place d \/ d = chr "{") s ->
    written ms ci (mkTok k [c]) [c] s
| w_divide s : ms = false -> ~ In (chr "/") s -> written ms ci (mkTok KDivide [chr "/"]) [chr "/"] s
(* any other character, which no command may have in it: a quote is one if it is not closed *)
| w_odd c s : ~ name_first ms c -> ~ digit c -> is_space c = false -> (forall k, ~ In (String c "", k) (one_char ++ signs)) ->
    c <> chr "/" -> alone c s -> (c = chr "'" \/ c = chr """" -> ~ In c s) -> written ms ci (mkTok KOdd [c]) [c] s.

(* reads ms ci s ts: the line s, without its end, is read as the tokens ts.  A comment is
   the rest of the line. *)
Inductive reads (ms ci : bool) : text -> list token -> Prop :=
| rd_end : reads ms ci [] []
| rd_blank c s ts : is_space c = true -> reads ms ci s ts -> reads ms ci (c :: s) ts
| rd_token t w s ts : written ms ci t w s -> reads ms ci s ts -> reads ms ci (w ++ s) (t :: ts)
| rd_comment s : reads ms ci (str (if ms then "/" else "//") ++ s) [mkTok KComment (str (if ms then "/" else "//") ++ s)].
