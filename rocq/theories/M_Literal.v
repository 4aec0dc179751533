(* M_Literal.v - model of the literals of gsiril: the constructors of pn_node, transp_node and
   pattern_node (apps/gsiril/expression.cpp), which M_Parser takes as parameters. *)
From Verif Require Import Base M_Bell M_Change M_Row M_PN M_Music M_Stream M_Gsiril M_Parser.
Set Implicit Arguments. Unset Strict Implicit.
Open Scope nat_scope.

(* expression.cpp:218-225 parse_int *)
Definition parse_int (s : text) : outcome Z := match lexical_cast_int s with Throw _ => fail | o => o end.
(* expression.cpp:227-245 parse_bell_expr; at the end *i is the terminating NUL *)
Definition parse_bell_expr (bells : nat) (expr : text) : outcome Z :=
  let i := skip_space expr in
  if starts_with (chr "N") i then
    match skip_space (tl i) with
    | [] => Ret (Z.of_nat bells)
    | c :: u => if negb (eqc c (chr "-")) then fail else z <- parse_int (skip_space u) ;; as_int (Z.of_nat bells - z)
    end
  else parse_int i.

(* expression.cpp:255-260: the bells strictly between two *)
Definition between (first last : nat) : list nat :=
  if first <? last then seq (first + 1) (last - first - 1)
  else rev (seq (last + 1) (first - last - 1)).
(* expression.cpp:247-266 expand_bell_ranges.  prev is what precedes the text s that is left
   (None: nothing); where a range starts there are at least four characters, so that the test of
   the size makes no difference. *)
Fixpoint fill_ranges (sym : symtab) (prev : option ascii) (s : text) : outcome text :=
  match s with
  | [] => Ret []
  | c :: u =>
    match prev, u with
    | Some a, d :: ((z :: _) as v) =>
      if eqc c (chr ".") && eqc d (chr ".") then
        first <- read_char sym a ;; last <- read_char sym z ;;
        r <- fill_ranges sym (Some d) v ;; Ret (concat (map (print_bell sym) (between first last)) ++ r)
      else r <- fill_ranges sym (Some c) u ;; Ret (c :: r)
    | _, _ => r <- fill_ranges sym (Some c) u ;; Ret (c :: r)
    end
  end.
Definition expand_bell_ranges (sym : symtab) (s : text) : outcome text := fill_ranges sym None s.
(* expression.cpp:268-279 expand_bell_exprs; bell(int) makes an unsigned char of an int *)
Definition bell_of_int (z : Z) : nat := Z.to_nat (z mod 256).
Fixpoint expand_f (fuel : nat) (sym : symtab) (bells : nat) (s : text) : outcome text :=
  match s with
  | [] => Ret []
  | c :: u =>
    match fuel with O => Diverge | S fuel =>
    if eqc c (chr "{") then
      j <- read_bell_expr s ;;
      z <- parse_bell_expr bells (firstn (length u - length j - 1) u) ;;
      z <- as_int (z - 1) ;;
      r <- expand_f fuel sym bells j ;; Ret (print_bell sym (bell_of_int z) ++ r)
    else r <- expand_f fuel sym bells u ;; Ret (c :: r)
    end
  end.
Definition expand_bell_exprs (sym : symtab) (bells : nat) (s : text) : outcome text :=
  r <- expand_f (length s) sym bells s ;; expand_bell_ranges sym r.

(* expression.cpp:281-289 pn_node *)
Definition pn_node (sym : symtab) (bells : nat) (s : text) : outcome expr :=
  if bells =? 0 then fail else
  p <- expand_bell_exprs sym bells s ;; cs <- interpret_pn sym bells p ;; Ret (EPn cs []).

(* expression.cpp:395-405 transp_node; the text is made a row (row.cpp:86-96) *)
Definition transp_node (sym : symtab) (bells : nat) (s : text) : outcome expr :=
  if bells =? 0 then fail else
  r <- row_of_string sym s ;; t <- mul (rounds bells) r ;;
  if length t =? bells then Ret (ETransp t) else fail.

(* expression.cpp:550-583 validate_regex *)
Fixpoint brackets (inbrack : bool) (s : text) : outcome unit :=
  match s with
  | [] => Ret Datatypes.tt
  | c :: u =>
    if eqc c c_open then if inbrack then fail else brackets true u
    else if eqc c c_close then if inbrack then brackets false u else fail
    else if eqc c c_star || eqc c c_any then if inbrack then fail else brackets inbrack u
    else brackets inbrack u
  end.
Definition validate_regex (sym : symtab) (bells : nat) (s : text) : outcome unit :=
  let allowed := row_print sym (rounds bells) ++ str "*?[]" in
  if forallb (fun c => has_char c allowed) s then brackets false s else fail.
(* expression.cpp:621-631 music_evaluate and bool_evaluate of a pattern: the score of a music
   object with this pattern only, after one row.  What it cannot do (C78_total) is false. *)
Definition pattern_score (sym : symtab) (junk bells : nat) (d : details) (r : row) : outcome Z :=
  m <- music_push sym (music_make bells) d ;;
  '(m, _) <- process_row junk m r false ;; get_score m eBoth.
Definition pattern_bool (sym : symtab) (junk bells : nat) (d : details) (r : row) : bool :=
  match pattern_score sym junk bells d r with Ret z => negb (z =? 0)%Z | _ => false end.
(* expression.cpp:615-619 pattern_node: music_details(s) has score 1 (music.h:69) *)
Definition pattern_node (sym : symtab) (junk bells : nat) (s : text) : outcome expr :=
  p <- expand_bell_exprs sym bells s ;; d <- md_make sym p 1 1 ;;
  _ <- validate_regex sym bells (md_pat d) ;; Ret (EPattern (pattern_bool sym junk bells d)).

(* parser.cpp:977-984 *)
Definition make_lits (sym : symtab) (junk bells : nat) : lits :=
  mkLits (pn_node sym bells) (transp_node sym bells) (pattern_node sym junk bells).
