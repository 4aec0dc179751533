(* M_Litelib.v - model of ringing/litelib.cpp and ringing/method_stream.cpp. *)
From Verif Require Import Base M_Bell M_Change M_Row M_Method M_MethClass M_Dim M_Names M_Stream.
Open Scope nat_scope.

Definition blank : list ascii := map ascii_of_nat [32; 9].            (* " \t" *)
Definition white : list ascii := map ascii_of_nat [32; 9; 13; 10].    (* " \t\r\n" *)
Definition tab : ascii := ascii_of_nat 9.

(* litelib.cpp:99-124 entry_type: the current line, where the place notation starts, the bells *)
Record lite_entry := mkLE { le_buf : list ascii; le_start : nat; le_b : Z }.
(* litelib.cpp:170-176 pn *)
Definition lite_pn (e : lite_entry) : outcome (list ascii) :=
  let i := find_first_of (le_buf e) white (Some (le_start e)) in
  substr (le_buf e) (le_start e) (match i with Some i => Some (i - le_start e) | None => None end).
(* litelib.cpp:228-238 get_payload; j - i + 1 in size_t *)
Definition lite_payload (e : lite_entry) : outcome (list ascii) :=
  let i := find_first_of (le_buf e) white (Some (le_start e)) in
  let i := find_first_not_of (le_buf e) white i in
  let j := find_last_not_of (le_buf e) white in
  match i with
  | Some i => if i <? length (le_buf e) then
                substr (le_buf e) i (match j with Some j => Some (j + 1 - i) | None => None end)
              else Ret []
  | None => Ret []
  end.
(* litelib.cpp:201-210 read_bells: the bells (0 for none) and the entry afterwards *)
Definition read_bells (e : lite_entry) : outcome (Z * lite_entry) :=
  b_pn <- lite_pn e ;;
  match find_chr b_pn (chr ":") 0 with
  | Some i => t <- substr b_pn 0 (Some i) ;; z <- lexical_cast_int t ;;
              Ret (z, mkLE (le_buf e) (le_start e + (i + 1)) (le_b e))
  | None => Ret (0%Z, e)
  end.
(* litelib.cpp:178-199 readentry; req is the number of bells of the library (0 for any).  Is
   there an entry, the entry and the stream.  (When a line is left blank linestart is npos; it
   is not used before it is set again, and is left as it was here.) *)
Fixpoint lite_read (fuel : nat) (req : Z) (s : istr) (e : lite_entry) : outcome (bool * lite_entry * istr) :=
  match fuel with
  | O => Diverge
  | S fuel =>
    if negb (is_good s) then Ret (false, e, s) else
    let '(s, buf) := getline s (le_buf e) in
    let e := mkLE buf (le_start e) (le_b e) in
    if negb (is_good s) then lite_read fuel req s e else
    match find_first_not_of buf blank (Some 0) with
    | None => lite_read fuel req s e
    | Some start =>
      '(lb, e) <- read_bells (mkLE buf start (le_b e)) ;;
      if (req =? 0)%Z && negb (lb =? 0)%Z then Ret (true, mkLE (le_buf e) (le_start e) lb, s)
      else if negb (req =? 0)%Z && ((lb =? req)%Z || (lb =? 0)%Z) then Ret (true, e, s)
      else lite_read fuel req s e
    end
  end.
Definition lite_next (req : Z) (s : istr) (e : lite_entry) : outcome (bool * lite_entry * istr) :=
  lite_read (length (is_rest s) + 3) req s e.
(* for (i = lib.begin(); i != lib.end(); ++i): the entries visited.  The iterator reads the
   first entry when made (library.h:129-133) and one more at each ++ (library.h:146-147). *)
Fixpoint lite_iter (fuel : nat) (req : Z) (s : istr) (e : lite_entry) : outcome (list lite_entry) :=
  match fuel with
  | O => Diverge
  | S fuel =>
    '(ok, e, s) <- lite_next req s e ;;
    if ok : bool then r <- lite_iter fuel req s e ;; Ret (e :: r) else Ret []
  end.
(* litelib.cpp:71-85 skip_bom: the stream afterwards (ok is never looked at) *)
Definition skip_bom (s : istr) : istr :=
  if negb (is_good s) then s else
  let '(s, c) := peek s in
  match c with
  | Some c => if eqc c (ascii_of_nat 239) then
      let s := get1 s in
      let '(s, c2) := if is_good s then peek s else (s, Some (ascii_of_nat 187)) in
      if is_good s && negb (match c2 with Some c2 => eqc c2 (ascii_of_nat 187) | None => false end) then s else
      let s := get1 s in
      let '(s, c3) := if is_good s then peek s else (s, Some (ascii_of_nat 191)) in
      if is_good s && negb (match c3 with Some c3 => eqc c3 (ascii_of_nat 191) | None => false end) then s else get1 s
    else s
  | None => s
  end.
(* litelib.cpp:90-91, 212-220: reading an istream through litelib(b, is): all its entries *)
Definition lite_all (req : Z) (text : list ascii) : outcome (list lite_entry) :=
  let s := skip_bom (is_open text) in
  lite_iter (length text + 3) req s (mkLE [] 0 req).
(* litelib.cpp:87-88, 212-217: a file is rewound when iteration starts, behind the byte order
   mark that was skipped *)
Definition lite_all_file (req : Z) (text : list ascii) : outcome (list lite_entry) :=
  lite_iter (length text + 3) req (is_open text) (mkLE [] 0 req).

(* litelib.cpp:126-132 name *)
Definition lite_name (payload_is_name : bool) (e : lite_entry) : outcome (list ascii) :=
  if payload_is_name then lite_payload e else Ret [].
(* litelib.cpp:134-139 trim_trailing_whitespace: on an empty string j-1 is before the beginning;
   the first character is never removed.  The loop runs from the end. *)
Fixpoint trim_rev (r : list ascii) : list ascii :=
  match r with
  | [] => []
  | c :: t => match t with [] => r | _ => if is_space c then trim_rev t else r end
  end.
Definition trim_trailing (s : list ascii) : outcome (list ascii) :=
  match s with [] => UB | _ => Ret (rev (trim_rev (rev s))) end.
(* litelib.cpp:141-149 remove_suffix; n.length() - suffix.length() wraps in size_t when the
   suffix is longer, and then equals no index *)
Definition remove_suffix (n suffix : list ascii) : outcome (list ascii * bool) :=
  match find_sub suffix n with
  | Some i => if (length suffix <=? length n) && (i =? length n - length suffix)
              then t <- trim_trailing (firstn i n) ;; Ret (t, true) else Ret (n, false)
  | None => Ret (n, false)
  end.
(* litelib.cpp:151-168 base_name; the classes tried, in order, are M_BOB = 2 .. M_SLOW_COURSE = 10 *)
Fixpoint try_classes (cs : list Z) (n : list ascii) : outcome (list ascii * bool) :=
  match cs with
  | [] => Ret (n, false)
  | c :: cs =>
    t <- classname c 9999 ;;
    '(n, had) <- remove_suffix n t ;;
    if had : bool then Ret (n, true) else try_classes cs n
  end.
Definition base_name_of (b : Z) (n : list ascii) : outcome (list ascii) :=
  st <- stagename b ;;
  '(n, had) <- remove_suffix n st ;;
  if had : bool then
    '(n, had) <- try_classes [2; 3; 4; 5; 6; 7; 8; 9; 10]%Z n ;;
    n <- (if had : bool then t <- classname M_LITTLE 9999 ;; '(n, _) <- remove_suffix n t ;; Ret n else Ret n) ;;
    t <- classname M_DIFFERENTIAL 9999 ;;
    '(n, _) <- remove_suffix n t ;; Ret n
  else Ret n.
Definition lite_base_name (pin : bool) (e : lite_entry) : outcome (list ascii) :=
  n <- lite_name pin e ;; base_name_of (le_b e) n.
(* libbase.h / library.cpp:213-216 meth: method(pn(), bells(), base_name()), with its name *)
Definition lite_meth (sym : symtab) (pin : bool) (e : lite_entry) : outcome (method * list ascii) :=
  p <- lite_pn e ;; n <- lite_base_name pin e ;; m <- method_of_pn sym p (Z.to_nat (le_b e)) ;; Ret (m, n).

(* method_stream.cpp:32-71 append: one line of output.  payload is the facet, if the entry has
   one; title is what fullname() gives. *)
Inductive name_form := nf_none | nf_payload_or_name | nf_payload | nf_name | nf_full_title.
Record out_entry := mkOE { oe_bells : Z; oe_pn : list ascii; oe_payload : option (list ascii); oe_name : list ascii; oe_title : list ascii }.
Definition stream_line (inc_bells : bool) (form : name_form) (e : out_entry) : list ascii :=
  (if inc_bells then print_int (oe_bells e) ++ [chr ":"] else []) ++
  oe_pn e ++
  (match form with nf_none => [] | _ => [tab] end) ++
  (match form with
   | nf_none => []
   | nf_payload_or_name => match oe_payload e with Some p => p | None => oe_name e end
   | nf_payload => match oe_payload e with Some p => p | None => [] end
   | nf_name => oe_name e
   | nf_full_title => oe_title e
   end) ++ [newline].
Definition stream_out (inc_bells : bool) (form : name_form) (es : list out_entry) : list ascii :=
  concat (map (stream_line inc_bells form) es).
