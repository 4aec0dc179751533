(* M_Mslib.v - model of ringing/mslib.cpp (MicroSIRIL libraries). *)
From Verif Require Import Base M_Bell M_Change M_Row M_Method M_Stream.
Open Scope nat_scope.

(* isalpha in the "C" locale *)
Definition is_alpha (c : ascii) : bool := is_upper c || is_lower c.
(* atoi: white space, a sign, digits; no digits give 0; a value outside int is undefined *)
Definition atoi (t : list ascii) : outcome Z :=
  let s1 := skip_space t in
  let '(neg, s2) :=
    match s1 with
    | c :: u => if eqc c (chr "-") then (true, u) else if eqc c (chr "+") then (false, u) else (false, s1)
    | [] => (false, s1)
    end in
  let '(v, _) := read_digits 0%Z s2 in
  let z := if neg then (- v)%Z else v in
  if (int_min <=? z)%Z && (z <=? int_max)%Z then Ret z else UB.
(* count(begin, end, ' ') *)
Definition count_chr (c : ascii) (s : list ascii) : nat := length (filter (eqc c) s).
Definition starts_chr (c : ascii) (s : list ascii) : bool := match s with x :: _ => eqc x c | [] => false end.

(* mslib.cpp:93-115 entry_type *)
Record ms_entry := mkME { me_buf : list ascii; me_b : Z }.
(* mslib.cpp:146-149: ++p over the letters of the class code *)
Fixpoint skip_alpha (s : list ascii) (fuel p : nat) : nat :=
  match fuel with
  | O => p
  | S fuel => match nth_error s p with Some c => if is_alpha c then skip_alpha s fuel (S p) else p | None => p end
  end.
(* mslib.cpp:138-156: the bells after a header line *)
Definition ms_header (buf : list ascii) (b : Z) : outcome Z :=
  match find_chr buf (chr " ") 0 with
  | Some p =>
    let p := skip_alpha buf (length buf) (S p) in
    if p <? length buf then atoi (skipn p buf) else Ret b
  | None => Ret b
  end.
(* mslib.cpp:130-176 readentry *)
Fixpoint ms_read (fuel : nat) (s : istr) (e : ms_entry) : outcome (bool * ms_entry * istr) :=
  match fuel with
  | O => Diverge
  | S fuel =>
    if negb (is_good s) then Ret (false, e, s) else
    let '(s, buf) := getline s (me_buf e) in
    let e := mkME buf (me_b e) in
    if starts_chr (chr "*") buf then
      b <- ms_header buf (me_b e) ;; ms_read fuel s (mkME buf b)
    else match find_sub (str "Name") buf, find_sub (str "No.") buf with
    | Some _, Some _ => Ret (false, e, s)
    | _, _ =>
      if 0 <? length buf then
        if negb (count_chr (chr " ") buf =? 2) then Ret (false, e, s) else Ret (is_good s, e, s)
      else ms_read fuel s e
    end
  end.
Definition ms_next (s : istr) (e : ms_entry) : outcome (bool * ms_entry * istr) := ms_read (length (is_rest s) + 3) s e.
(* for (i = lib.begin(); i != lib.end(); ++i): the entries visited *)
Fixpoint ms_iter (fuel : nat) (s : istr) (e : ms_entry) : outcome (list ms_entry) :=
  match fuel with
  | O => Diverge
  | S fuel =>
    '(ok, e, s) <- ms_next s e ;;
    if ok : bool then r <- ms_iter fuel s e ;; Ret (e :: r) else Ret []
  end.
(* mslib.cpp:117-128: begin() rewinds the file; an entry starts with b = 0 *)
Definition ms_all (text : list ascii) : outcome (list ms_entry) := ms_iter (length text + 3) (is_open text) (mkME [] 0).

(* mslib.cpp:178-187 name, base_name *)
Definition ms_name (e : ms_entry) : outcome (list ascii) := substr (me_buf e) 0 (find_chr (me_buf e) (chr " ") 0).
(* mslib.cpp:197-202: spaces at the end taken off *)
Fixpoint trim_end_rev (r : list ascii) : list ascii := match r with c :: t => if is_space c then trim_end_rev t else r | [] => [] end.
Definition trim_end (s : list ascii) : list ascii := rev (trim_end_rev (rev s)).
(* mslib.cpp:189-229 pn.  The entry has two spaces in it, so that neither find gives npos; s[0]
   of an empty string is NUL. *)
Definition ms_pn (e : ms_entry) : outcome (list ascii) :=
  let buf := me_buf e in
  match find_chr buf (chr " ") 0 with
  | None => UB
  | Some s1 =>
    match find_chr buf (chr " ") (s1 + 1) with
    | None => UB
    | Some s2 =>
      lh <- substr buf (s1 + 1) (Some (s2 - s1 - 1)) ;;
      p <- substr buf (s2 + 1) None ;;
      let p := trim_end p in
      let l0 := List.hd zero lh in
      if negb (eqc (List.hd zero p) (chr "+")) then
        if negb (length lh =? 0) && eqc (last lh zero) (chr "z") then Ret (p ++ [chr ","] ++ firstn (length lh - 1) lh)
        else if (nat_of_ascii (chr "a") <=? nat_of_ascii l0) && (nat_of_ascii l0 <=? nat_of_ascii (chr "f"))
             || eqc l0 (chr "p") || eqc l0 (chr "q") then Ret (p ++ str ",2")
        else Ret (p ++ str ",1")
      else Ret p
    end
  end.
(* library.cpp:213-216 meth *)
Definition ms_meth (sym : symtab) (e : ms_entry) : outcome (method * list ascii) :=
  p <- ms_pn e ;; n <- ms_name e ;; m <- method_of_pn sym p (Z.to_nat (me_b e)) ;; Ret (m, n).
