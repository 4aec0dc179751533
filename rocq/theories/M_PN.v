(* M_PN.v - model of ringing/place_notation.h.  The two iterators [first, last) into a text
   are the list of the characters between them.  Where the code reads *last (read_bell_expr)
   it reads the terminating NUL of the string. *)
From Verif Require Import Base M_Bell M_Change.

(* place_notation.h:124, 134: isalnum in the "C" locale *)
Definition is_alnum (c : ascii) : bool := is_digit c || is_upper c || is_lower c.
(* place_notation.h:76-79 skip_ws is skip_space (M_Bell) *)
(* place_notation.h:83-90 skip_sep; the flag returned is not used by interpret_pn *)
Definition skip_sep (s : list ascii) (sep : ascii) : list ascii :=
  let s := skip_space s in
  skip_space (if starts_with sep s then tl s else s).

(* place_notation.h:97-101: the loop; what is returned starts with the closing brace (or is
   empty).  *last is NUL, so depth is never decremented. *)
Fixpoint bell_expr_loop (s : list ascii) (depth : nat) : list ascii :=
  match s with
  | [] => []
  | c :: t =>
    if eqc c (chr "}") && (depth =? 0) then s
    else if eqc c (chr "{") then bell_expr_loop t (S depth)
    else if eqc zero (chr "}") then bell_expr_loop t (depth - 1)
    else bell_expr_loop t depth
  end.
(* place_notation.h:93-106 read_bell_expr: what is left *)
Definition read_bell_expr (s : list ascii) : outcome (list ascii) :=
  match s with
  | [] => UB
  | c :: t =>
    if eqc c (chr "{") then
      match bell_expr_loop t 0 with
      | [] => Throw BellInvalid
      | c' :: t' => if eqc c' (chr "}") then Ret t' else Throw BellInvalid
      end
    else Ret s
  end.

Definition is_x (c : ascii) : bool := eqc c (chr "X") || eqc c (chr "x").
(* place_notation.h:131-136: the characters of one change and what is left *)
Fixpoint read_places (fuel : nat) (j : list ascii) : outcome (list ascii) :=
  match j with
  | [] => Ret []
  | c :: t =>
    match fuel with
    | O => Diverge
    | S fuel =>
      if eqc c (chr "{") then (j' <- read_bell_expr j ;; read_places fuel j')
      else if is_alnum c && negb (is_x c) then read_places fuel t
      else Ret j
    end
  end.
(* place_notation.h:137: string(first, j) *)
Definition upto (first j : list ascii) : list ascii := firstn (length first - length j) first.

Definition starts_change (s : list ascii) : bool :=
  match s with c :: _ => is_alnum c || eqc c (chr "-") || eqc c (chr "{") | [] => false end.
(* place_notation.h:124-141: the changes of a block, and what is left *)
Fixpoint read_block (fuel : nat) (sym : symtab) (num : nat) (first : list ascii) (block : list change)
  : outcome (list change * list ascii) :=
  if starts_change first then
    match fuel with
    | O => Diverge
    | S fuel =>
      match first with
      | [] => UB
      | c :: t =>
        '(block, first) <-
          (if is_x c || eqc c (chr "-") then ch <- change_of_pn sym num (str "X") ;; Ret (block ++ [ch], t)
           else j <- read_places (length first) first ;;
                b <- (if length j =? length first then Ret block
                      else ch <- change_of_pn sym num (upto first j) ;; Ret (block ++ [ch])) ;;
                Ret (b, j)) ;;
        read_block fuel sym num (skip_sep first (chr ".")) block
      end
    end
  else Ret (block, first).

(* place_notation.h:143-147: a symmetric block is output, then all but its last change backwards *)
Definition output_block (symblock : bool) (block : list change) : list change :=
  block ++ (if symblock && negb (length block =? 0) then rev (removelast block) else []).

(* place_notation.h:114-152: the loop over blocks; out is what has been sent to the output iterator *)
Fixpoint pn_loop (fuel : nat) (sym : symtab) (num : nat) (first : list ascii) (out : list change) : outcome (list change) :=
  match first with
  | [] => Ret out
  | c :: t =>
    match fuel with
    | O => Diverge
    | S fuel =>
      let symblock := eqc c (chr "&") in
      let first := if eqc c (chr "&") || eqc c (chr "+") then skip_sep t (chr ".") else first in
      '(block, first) <- read_block (length first) sym num first [] ;;
      let out := out ++ output_block symblock block in
      match first with
      | [] => Ret out
      | c :: _ => if eqc c (chr ",") then pn_loop fuel sym num (skip_sep first (chr ",")) out else Throw PnInvalid
      end
    end
  end.
(* place_notation.h:110-153 interpret_pn: the changes sent to the output iterator *)
Definition interpret_pn (sym : symtab) (num : nat) (s : list ascii) : outcome (list change) :=
  let first := skip_space s in pn_loop (length first) sym num first [].
