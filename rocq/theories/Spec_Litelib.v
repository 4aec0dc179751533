(* Spec_Litelib.v - what a simple method library says, in terms of its lines. *)
From Verif Require Import Base M_Bell Spec_Dim.
Set Implicit Arguments.
Unset Strict Implicit.
Open Scope nat_scope.

Definition is_nl (c : ascii) : bool := nat_of_ascii c =? 10.
(* blanks: space and tab; white: these and carriage return and newline *)
Definition is_blank (c : ascii) : bool := (nat_of_ascii c =? 32) || (nat_of_ascii c =? 9).
Definition is_white (c : ascii) : bool := is_blank c || (nat_of_ascii c =? 13) || (nat_of_ascii c =? 10).

(* the lines of a text; a final newline ends the last line *)
Fixpoint lines (t : list ascii) : list (list ascii) :=
  match t with
  | [] => []
  | c :: u => if is_nl c then [] :: lines u
              else match lines u with [] => [[c]] | l :: ls => (c :: l) :: ls end
  end.

Fixpoint drop_while (p : ascii -> bool) (s : list ascii) : list ascii :=
  match s with c :: t => if p c then drop_while p t else s | [] => [] end.
Fixpoint take_while (p : ascii -> bool) (s : list ascii) : list ascii :=
  match s with c :: t => if p c then c :: take_while p t else [] | [] => [] end.
(* without white characters at either end *)
Definition trimmed (s : list ascii) : list ascii := rev (drop_while is_white (rev (drop_while is_white s))).
Definition nonwhite (c : ascii) : bool := negb (is_white c).
Definition is_colon (c : ascii) : bool := nat_of_ascii c =? 58.
Definition noncolon (c : ascii) : bool := negb (is_colon c).

(* a line: from the first character that is not blank *)
Definition body (line : list ascii) : list ascii := drop_while is_blank line.
Definition blank_line (line : list ascii) : bool := match body line with [] => true | _ => false end.
(* its first word, and the rest without white at the ends *)
Definition word (line : list ascii) : list ascii := take_while nonwhite (body line).
Definition payload_of (line : list ascii) : list ascii := trimmed (drop_while nonwhite (body line)).
(* the word is the place notation, after a number of bells and a colon if there is one *)
Definition bells_text (line : list ascii) : option (list ascii) :=
  if existsb is_colon (word line) then Some (take_while noncolon (word line)) else None.
Definition pn_of (line : list ascii) : list ascii :=
  if existsb is_colon (word line) then tl (drop_while noncolon (word line)) else word line.

(* t is a number that fits an int, with white space round it *)
Definition int_text (t : list ascii) (z : Z) : Prop :=
  exists ws sign ds ws', t = ws ++ sign ++ ds ++ ws' /\ all_space ws /\ all_space ws' /\ all_digits ds /\
    ((sign = str "-" /\ z = (- dec_value ds)%Z) \/ ((sign = str "+" \/ sign = []) /\ z = dec_value ds)) /\
    (int_min <= z <= int_max)%Z.

(* the number of bells the line gives (0 when it gives none) *)
Definition bells_given (line : list ascii) (z : Z) : Prop :=
  match bells_text line with Some t => int_text t z | None => z = 0%Z end.
(* the line is wanted by a library asked for req bells (0: any, but then the line must say) *)
Definition wanted (req given : Z) : Prop := if (req =? 0)%Z then given <> 0%Z else given = req \/ given = 0%Z.
(* the entry it makes: bells, place notation, payload *)
Definition entry_of (req given : Z) (line : list ascii) : Z * list ascii * list ascii :=
  ((if (req =? 0)%Z then given else req), pn_of line, payload_of line).
(* the entries of a list of lines, each line having a readable number of bells or none *)
Inductive entries (req : Z) : list (list ascii) -> list (Z * list ascii * list ascii) -> Prop :=
| en_nil : entries req [] []
| en_blank l ls es : blank_line l = true -> entries req ls es -> entries req (l :: ls) es
| en_other l z ls es : blank_line l = false -> bells_given l z -> ~ wanted req z -> entries req ls es -> entries req (l :: ls) es
| en_take l z ls es : blank_line l = false -> bells_given l z -> wanted req z -> entries req ls es ->
    entries req (l :: ls) (entry_of req z l :: es).
(* a line whose text before the colon is not a number *)
Definition bad_line (l : list ascii) : Prop := blank_line l = false /\ forall z, ~ bells_given l z.
