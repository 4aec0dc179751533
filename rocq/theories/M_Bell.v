(* M_Bell.v - model of ringing/bell.{h,cpp}.
   A bell is a natural number below 256 (unsigned char).
   A C string is the list of its characters without the terminating NUL. *)
From Verif Require Import Base.

Definition chr (s : string) : ascii :=
  match s with String c _ => c | EmptyString => zero end.
Definition str (s : string) : list ascii := list_ascii_of_string s.
Definition code (c : ascii) : nat := nat_of_ascii c.

(* The (global, mutable) symbol table: bell.cpp:59-61, bell.h:77,136.
   sym_case is bells_case_mapper (None = NULL). *)
Record symtab := {
  sym_chars : list ascii;
  sym_max   : nat;
  sym_case  : option (ascii -> ascii)
}.

(* ctype functions in the "C" locale.  Characters >= 128 are left alone (the
   code passes a possibly negative char, which glibc tolerates). *)
Definition is_lower (c : ascii) : bool := (97 <=? code c) && (code c <=? 122).
Definition is_upper (c : ascii) : bool := (65 <=? code c) && (code c <=? 90).
Definition is_digit (c : ascii) : bool := (48 <=? code c) && (code c <=? 57).
Definition is_space (c : ascii) : bool :=
  ((9 <=? code c) && (code c <=? 13)) || (code c =? 32).
Definition to_upper (c : ascii) : ascii :=
  if is_lower c then ascii_of_nat (code c - 32) else c.
Definition to_lower (c : ascii) : ascii :=
  if is_upper c then ascii_of_nat (code c + 32) else c.

(* bell.cpp:59-61 (and 81-83): the default symbols *)
Definition default_chars : list ascii := str "1234567890ETABCDFGHJKLMNPQRSUVWYZ".
Definition default_symtab : symtab :=
  {| sym_chars := default_chars; sym_max := 33; sym_case := Some to_upper |}.

Definition list_ascii_eqb (a b : list ascii) : bool :=
  if list_eq_dec ascii_dec a b then true else false.

(* bell.cpp:69-85 set_symbols with a non-null argument and default n *)
Definition set_symbols (syms : list ascii) : symtab :=
  {| sym_chars := syms;
     sym_max := length syms;
     sym_case := if list_ascii_eqb (map to_upper syms) syms then Some to_upper
                 else if list_ascii_eqb (map to_lower syms) syms then Some to_lower
                 else None |}.

(* strchr: index of the first occurrence; the terminating NUL counts *)
Fixpoint strchr_from (i : nat) (s : list ascii) (c : ascii) : option nat :=
  match s with
  | [] => if ascii_dec c zero then Some i else None
  | x :: t => if ascii_dec x c then Some i else strchr_from (S i) t c
  end.
Definition strchr (s : list ascii) (c : ascii) : option nat := strchr_from 0 s c.
Definition has_chr (s : list ascii) (c : ascii) : bool :=
  match strchr s c with Some _ => true | None => false end.

Definition eqc (a b : ascii) : bool := if ascii_dec a b then true else false.

Definition map_case (st : symtab) (c : ascii) : ascii :=
  match sym_case st with Some f => f c | None => c end.

(* bell.cpp:96-110 is_symbol *)
Definition is_symbol (st : symtab) (c : ascii) : bool :=
  let c := map_case st c in
  if has_chr (sym_chars st) c then true
  else if eqc c (chr "I") || eqc c (chr "1") then
    xorb (negb (has_chr (sym_chars st) (chr "I"))) (negb (has_chr (sym_chars st) (chr "1")))
  else if eqc c (chr "O") || eqc c (chr "0") then
    xorb (negb (has_chr (sym_chars st) (chr "O"))) (negb (has_chr (sym_chars st) (chr "0")))
  else false.

(* bell.cpp:112-133 read_char, with the fall-through of its switch.  It calls
   itself; the recursion is at most four deep, which is its fuel. *)
Fixpoint read_char_f (fuel : nat) (st : symtab) (c : ascii) : outcome nat :=
  match fuel with
  | O => Diverge
  | S fuel =>
    let c := map_case st c in
    match strchr (sym_chars st) c with
    | Some i => Ret (b8 i)
    | None =>
      let try0 := fun (_ : unit) =>             (* case '0' *)
        if is_symbol st (chr "O") then read_char_f fuel st (chr "O") else Throw BellInvalid in
      let tryO := fun (_ : unit) =>             (* case 'O' *)
        if is_symbol st (chr "0") then read_char_f fuel st (chr "0") else try0 tt in
      let try1 := fun (_ : unit) =>             (* case '1' *)
        if is_symbol st (chr "I") then read_char_f fuel st (chr "I") else tryO tt in
      let tryI := fun (_ : unit) =>             (* case 'I' *)
        if is_symbol st (chr "1") then read_char_f fuel st (chr "1") else try1 tt in
      if eqc c (chr "I") then tryI tt
      else if eqc c (chr "1") then try1 tt
      else if eqc c (chr "O") then tryO tt
      else if eqc c (chr "0") then try0 tt
      else Throw BellInvalid
    end
  end.
Definition read_char (st : symtab) (c : ascii) : outcome nat := read_char_f 5 st c.

(* bell.h:100 to_char *)
Definition to_char (st : symtab) (b : nat) : ascii :=
  if b <? sym_max st then nth b (sym_chars st) zero else chr "*".

Definition digit_val (c : ascii) : Z := Z.of_nat (code c - 48).

(* Digits at the front of s, as a number added to acc, and the rest *)
Fixpoint read_digits (acc : Z) (s : list ascii) : Z * list ascii :=
  match s with
  | c :: t => if is_digit c then read_digits (acc * 10 + digit_val c)%Z t else (acc, s)
  | [] => (acc, [])
  end.

Fixpoint skip_space (s : list ascii) : list ascii :=
  match s with
  | c :: t => if is_space c then skip_space t else s
  | [] => []
  end.

Definition starts_with_digit (s : list ascii) : bool :=
  match s with c :: _ => is_digit c | [] => false end.

Definition ulong_max : Z := 18446744073709551615%Z.

(* strtoul(s, &end, 10) as specified by C11 7.22.1.4: white space, an optional
   sign, digits; no digits means value 0 and end = s; overflow gives ULONG_MAX;
   a minus sign negates modulo 2^64. *)
Definition strtoul (s : list ascii) : Z * list ascii :=
  let s1 := skip_space s in
  let '(neg, s2) :=
    match s1 with
    | c :: t => if eqc c (chr "-") then (true, t)
                else if eqc c (chr "+") then (false, t) else (false, s1)
    | [] => (false, s1)
    end in
  if starts_with_digit s2 then
    let '(v, rest) := read_digits 0%Z s2 in
    if (v >? ulong_max)%Z then (ulong_max, rest)
    else if neg then ((- v) mod 18446744073709551616, rest)%Z else (v, rest)
  else (0%Z, s).

Definition starts_with (c : ascii) (s : list ascii) : bool :=
  match s with x :: _ => eqc x c | [] => false end.

(* bell.cpp:135-158 read_extended.  Returns the bell and the rest of the
   string.  On an empty string the C++ steps over the terminating NUL; no
   caller does that, and it is modelled as UB. *)
Definition read_extended (st : symtab) (s : list ascii) : outcome (nat * list ascii) :=
  match s with
  | [] => UB
  | c :: t =>
    if negb (eqc c (chr "{")) then
      b <- read_char st c ;; Ret (b, t)
    else
      let '(val, e) := strtoul t in
      let e := skip_space e in
      if starts_with (chr "-") t || negb (starts_with (chr "}") e) || (val >? 256)%Z
      then Throw BellInvalid
      else Ret (Z.to_nat ((val - 1) mod 256)%Z, tl e)
  end.

(* Decimal printing of an unsigned value (ostream << unsigned long) *)
Definition digit_char (d : nat) : ascii := ascii_of_nat (48 + d).
Fixpoint print_nat_f (fuel n : nat) (acc : list ascii) : list ascii :=
  match fuel with
  | O => acc
  | S fuel =>
    let acc := digit_char (n mod 10) :: acc in
    if n <? 10 then acc else print_nat_f fuel (n / 10) acc
  end.
Definition print_nat (n : nat) : list ascii := print_nat_f (S n) n [].

(* bell.cpp:160-167 operator<< *)
Definition print_bell (st : symtab) (b : nat) : list ascii :=
  if b <? sym_max st then [to_char st b]
  else chr "{" :: print_nat (b + 1) ++ [chr "}"].

(* A std::string passed to code that works on c_str(): cut at the first NUL *)
Fixpoint c_str (s : list ascii) : list ascii :=
  match s with
  | [] => []
  | c :: t => if eqc c zero then [] else c :: c_str t
  end.
