(* M_Stream.v - the parts of std::istream and std::string that the library readers use, as the
   C++ standard describes them.  A stream is the characters left, and the eof and fail bits
   (bad never happens).  Positions in strings are numbers; None is npos. *)
From Verif Require Import Base M_Bell.
Open Scope nat_scope.

Record istr := mkIs { is_rest : list ascii; is_eof : bool; is_fail : bool }.
(* a stream just opened on a text *)
Definition is_open (t : list ascii) : istr := mkIs t false false.
(* operator bool *)
Definition is_good (s : istr) : bool := negb (is_fail s).
Definition newline : ascii := ascii_of_nat 10.
(* the characters before the first newline and what follows it (None at the end of the text) *)
Fixpoint cut_line (t : list ascii) : list ascii * option (list ascii) :=
  match t with
  | [] => ([], None)
  | c :: t => if eqc c newline then ([], Some t) else let '(a, r) := cut_line t in (c :: a, r)
  end.
(* getline(is, str): on a stream that is not good the string is left alone and fail is set *)
Definition getline (s : istr) (buf : list ascii) : istr * list ascii :=
  if is_eof s || is_fail s then (mkIs (is_rest s) (is_eof s) true, buf)
  else match cut_line (is_rest s) with
       | (l, Some r) => (mkIs r false false, l)
       | (l, None) => (mkIs [] true (match l with [] => true | _ => false end), l)
       end.
(* is.peek(): None is eof *)
Definition peek (s : istr) : istr * option ascii :=
  if is_eof s || is_fail s then (mkIs (is_rest s) (is_eof s) true, None)
  else match is_rest s with
       | [] => (mkIs [] true false, None)
       | c :: _ => (s, Some c)
       end.
(* is.get(), the character ignored *)
Definition get1 (s : istr) : istr :=
  if is_eof s || is_fail s then mkIs (is_rest s) (is_eof s) true
  else match is_rest s with
       | [] => mkIs [] true true
       | _ :: t => mkIs t false false
       end.

(* ---- strings ---- *)
Definition mem_chr (c : ascii) (set : list ascii) : bool := existsb (eqc c) set.
(* index of the first character satisfying p *)
Fixpoint find_idx (p : ascii -> bool) (s : list ascii) : option nat :=
  match s with
  | [] => None
  | c :: t => if p c then Some 0 else match find_idx p t with Some i => Some (S i) | None => None end
  end.
Definition shift (pos : nat) (o : option nat) : option nat := match o with Some i => Some (pos + i) | None => None end.
(* s.find_first_of(set, pos), s.find_first_not_of(set, pos) *)
Definition find_first_of (s set : list ascii) (pos : option nat) : option nat :=
  match pos with Some pos => shift pos (find_idx (fun c => mem_chr c set) (skipn pos s)) | None => None end.
Definition find_first_not_of (s set : list ascii) (pos : option nat) : option nat :=
  match pos with Some pos => shift pos (find_idx (fun c => negb (mem_chr c set)) (skipn pos s)) | None => None end.
(* s.find_last_not_of(set) *)
Definition find_last_not_of (s set : list ascii) : option nat :=
  match find_idx (fun c => negb (mem_chr c set)) (rev s) with Some i => Some (length s - 1 - i) | None => None end.
(* s.find(c, pos) *)
Definition find_chr (s : list ascii) (c : ascii) (pos : nat) : option nat :=
  shift pos (find_idx (fun x => eqc x c) (skipn pos s)).
(* s.find(p) *)
Fixpoint is_prefix (p s : list ascii) : bool :=
  match p, s with
  | [], _ => true
  | a :: p, b :: s => eqc a b && is_prefix p s
  | _, _ => false
  end.
Fixpoint find_sub (p s : list ascii) : option nat :=
  if is_prefix p s then Some 0 else
  match s with
  | [] => None
  | _ :: t => match find_sub p t with Some i => Some (S i) | None => None end
  end.
(* s.substr(pos, n): throws out_of_range beyond the end; n None is npos *)
Definition substr (s : list ascii) (pos : nat) (n : option nat) : outcome (list ascii) :=
  if length s <? pos then Throw OutOfRange
  else Ret (match n with Some n => firstn n (skipn pos s) | None => skipn pos s end).

(* istream >> int, as num_get does it in the C locale: white space, an optional sign, digits;
   no digits, or a value outside int, sets fail.  The value (if any) and the rest. *)
Definition read_int (t : list ascii) : option Z * list ascii :=
  let s1 := skip_space t in
  let '(neg, s2) :=
    match s1 with
    | c :: u => if eqc c (chr "-") then (true, u) else if eqc c (chr "+") then (false, u) else (false, s1)
    | [] => (false, s1)
    end in
  if starts_with_digit s2 then
    let '(v, rest) := read_digits 0%Z s2 in
    let z := if neg then (- v)%Z else v in
    if (int_min <=? z)%Z && (z <=? int_max)%Z then (Some z, rest) else (None, rest)
  else (None, s2).
(* lexical_cast.h:118-134 lexical_cast<int>(string): only white space may follow *)
Definition lexical_cast_int (t : list ascii) : outcome Z :=
  match read_int t with
  | (Some z, rest) => match skip_space rest with [] => Ret z | _ => Throw BadCast end
  | (None, _) => Throw BadCast
  end.
