(* M_Gsiril.v - model of the interpreter of gsiril, the program that proves compositions:
   apps/gsiril/{expr_base,expression,proof_context,functions,symbol_table}.{h,cpp} and the
   prove statement of statement.cpp. *)
From Verif Require Import Base M_Bell M_Change M_Row M_Method M_Proof M_Dim M_Names M_Library.
Open Scope nat_scope.

Definition text := list ascii.

(* expr_base.h:166-176 script_exception *)
Inductive sexn := SAbort | SBreak.
(* expression.h cmp_node::cmp_t *)
Inductive cmp := CEq | CNe | CGt | CLt | CGe | CLe.
(* expr_base.h:70-75 type_t *)
Inductive ty := TyBool | TyInt | TyTransp | TyNone.
(* functions.cpp:234-266: the functions registered.  runs, frontruns, backruns and crus make
   music patterns and are left out. *)
Inductive fn := FAt | FPos | FRowno | FSwap | FLoad | FLoadm | FLoadlh | FStagename | FMusic | FMethname | FPnstr.

(* The nodes of expression.h.  A pattern node (and an opaque music node) is kept as the
   test it makes on the row.  The flags of a string node are interpolate, to_parent,
   suppress_nl and do_abort.  A null iffalse is None; no other null expressions occur. *)
Inductive expr :=
| EList (car cdr : expr) | ENop | ERepeat (count : Z) (child : expr) | EReverse (child : expr)
| EString (s : text) (interp par nonl ab : bool)
| EPn (cs : list change) (name : text)
| EReplace (pn shift : expr) (at_begin : bool) | EMerge (block repl : expr)
| ETransp (t : row) | ESym (s : text)
| EAssign (s : text) (v : expr) | EAppendAssign (s : text) (v : expr) | EImmAssign (s : text) (v : expr)
| EEndproof | EIsproving | EIsrounds | EPattern (p : row -> bool) | EDefined (s : text)
| EBool (b : bool) | EAnd (l r : expr) | EOr (l r : expr) | ENot (a : expr) | ECmp (c : cmp) (l r : expr)
| EBells | ELength | EInt (z : Z) | EAdd (sign : Z) (l r : expr) | EMod (l r : expr) | EDiv (l r : expr)
| EAppend (l r : expr) | EMult (l r : expr) | EIncr (s : text) (v : Z)
| EIf (test iftrue : expr) (iffalse : option expr) | EExn (x : sexn)
| ECall (name : text) (args : list expr) | ESave (s : text) | EArray (vals : list expr) | EFn (f : fn).

(* symbol_table.cpp:33-61: lookup, define (in place if there, and says so), undefine *)
Definition symbols := list (text * expr).
Fixpoint sym_lookup (t : symbols) (s : text) : option expr :=
  match t with [] => None | (a, e) :: t => if list_ascii_eqb a s then Some e else sym_lookup t s end.
Fixpoint sym_define (t : symbols) (s : text) (v : expr) : symbols :=
  match t with
  | [] => [(s, v)]
  | (a, e) :: t => if list_ascii_eqb a s then (a, v) :: t else (a, e) :: sym_define t s v
  end.
Definition sym_undefine (t : symbols) (s : text) : symbols := filter (fun p => negb (list_ascii_eqb (fst p) s)) t.

(* What does not change while an expression runs: the arguments (prog_args.h), and what the
   rest of the library supplies: the row as displayed by @ (row mask and bell format;
   None if the mask does not match), the score of the rows seen by the music, and the
   method library.  Tracing of symbols and underlining are not modelled. *)
Record cfg := mkCfg {
  c_bells : nat; c_rounds : row; c_extents : Z; c_min : nat; c_max : nat; c_limit : Z;
  c_everyrow_only : bool; c_filter : bool; c_quiet : Z; c_msiril : bool; c_sym : symtab;
  c_show : row -> option text; c_score : list (row * bool) -> Z;
  c_find : text -> outcome (option (method * text)) }.

(* proof_context.h:128-140 a proof context.  The parent of a clone is kept as whether it
   can write (is not silent and has an output); the music as the rows it has processed. *)
Record ctx := mkCtx {
  x_dsyms : symbols; x_r : row; x_last : row; x_maxlen : nat; x_p : prover; x_proving : bool;
  x_parent : option bool; x_mus : list (row * bool); x_output : bool; x_silent : bool }.
(* the mutable parts of the execution context: symbols, node count and the output written *)
Record glob := mkGlob { g_syms : symbols; g_nodes : Z; g_out : text }.
Record st := mkSt { s_x : ctx; s_g : glob }.

Definition set_dsyms x v := mkCtx v (x_r x) (x_last x) (x_maxlen x) (x_p x) (x_proving x) (x_parent x) (x_mus x) (x_output x) (x_silent x).
Definition set_r x v := mkCtx (x_dsyms x) v (x_last x) (x_maxlen x) (x_p x) (x_proving x) (x_parent x) (x_mus x) (x_output x) (x_silent x).
Definition set_silent x v := mkCtx (x_dsyms x) (x_r x) (x_last x) (x_maxlen x) (x_p x) (x_proving x) (x_parent x) (x_mus x) (x_output x) v.
Definition set_seen x p m := mkCtx (x_dsyms x) (x_r x) (x_last x) (x_maxlen x) p (x_proving x) (x_parent x) m (x_output x) (x_silent x).
(* proof_context.cpp:157-161 disable_proving *)
Definition set_ended x := mkCtx (x_dsyms x) (x_r x) (if x_proving x then x_r x else x_last x) (x_maxlen x) (x_p x) false (x_parent x) (x_mus x) (x_output x) (x_silent x).
Definition disable_p (p : prover) : prover := mkProver (p_head p) (p_chain p) (-1) (p_fi p).   (* proof.h: disable_proving *)
Definition can_write (x : ctx) : bool := negb (x_silent x) && x_output x.
(* proof_context.cpp:388-398 silent_clone *)
Definition clone (x : ctx) : ctx :=
  mkCtx (x_dsyms x) (x_r x) (x_last x) 0 (disable_p (create_branch (x_p x))) (x_proving x)
        (Some (can_write x)) (x_mus x) false true.

(* Running in a state: the new state with a result or a script exception, or a runtime_error
   (Throw), which abandons the statement. *)
Definition M A := st -> outcome (st * (A + sexn)).
Definition ret {A} (a : A) : M A := fun s => Ret (s, inl a).
Definition raise {A} (x : sexn) : M A := fun s => Ret (s, inr x).
Definition err {A} : M A := fun _ => Throw InvalidArgument.     (* throw runtime_error(...) *)
Definition mbind {A B} (m : M A) (f : A -> M B) : M B := fun s =>
  match m s with
  | Ret (s', inl a) => f a s'
  | Ret (s', inr x) => Ret (s', inr x)
  | Throw e => Throw e | UB => UB | Diverge => Diverge
  end.
Definition lift {A} (o : outcome A) : M A := fun s =>
  match o with Ret a => Ret (s, inl a) | Throw e => Throw e | UB => UB | Diverge => Diverge end.
Definition getx : M ctx := fun s => Ret (s, inl (s_x s)).
Definition getg : M glob := fun s => Ret (s, inl (s_g s)).
Definition modx (f : ctx -> ctx) : M unit := fun s => Ret (mkSt (f (s_x s)) (s_g s), inl tt).
Definition modg (f : glob -> glob) : M unit := fun s => Ret (mkSt (s_x s) (f (s_g s)), inl tt).
(* catch a script exception *)
Definition catch {A} (m : M A) (h : sexn -> M A) : M A := fun s =>
  match m s with Ret (s', inr x) => h x s' | o => o end.
(* run h on the way out, whether m returns or throws a script exception *)
Definition finally {A} (m : M A) (h : ctx -> ctx) : M A := fun s =>
  match m s with Ret (s', v) => Ret (mkSt (h (s_x s')) (s_g s'), v) | o => o end.
(* run in a silent clone, which is then discarded *)
Definition in_clone {A} (m : M A) : M A := fun s =>
  match m (mkSt (clone (s_x s)) (s_g s)) with
  | Ret (s', v) => Ret (mkSt (s_x s) (s_g s'), v) | Throw e => Throw e | UB => UB | Diverge => Diverge
  end.
Declare Scope gs_scope.
Delimit Scope gs_scope with gs.
Notation "x <- m ;; k" := (mbind m (fun x => k)) (at level 61, m at next level, right associativity) : gs_scope.
Notation "' p <- m ;; k" := (mbind m (fun p => k)) (at level 61, p pattern, m at next level, right associativity) : gs_scope.
Notation "m ;;; k" := (mbind m (fun _ => k)) (at level 61, right associativity) : gs_scope.

(* RINGING_LLONG arithmetic, and conversion of a RINGING_LLONG to an int (modulo 2^32) *)
Definition ll_max : Z := 9223372036854775807%Z.
Definition as_ll (z : Z) : outcome Z := if ((- ll_max - 1 <=? z) && (z <=? ll_max))%Z then Ret z else UB.
Definition to_int (z : Z) : Z := ((z + 2147483648) mod 4294967296 - 2147483648)%Z.

(* What can be asked of an expression. *)
Inductive ask : Type -> Type :=
| QExec (e : expr) (fwd : bool) : ask unit          (* execute; dir > 0 or dir < 0 *)
| QLoop (count i : Z) (e : expr) (fwd : bool) : ask unit  (* the rest of the loop of a repeated node *)
| QLoopPn (count i : Z) (e : expr) (acc : list change) : ask (list change)
| QEval (e : expr) : ask expr
| QBool (e : expr) : ask bool
| QInt (e : expr) : ask Z
| QStr (e : expr) : ask (text * bool)%type          (* string_evaluate, and what it sets *no_nl to *)
| QPn (e : expr) : ask (list change)
| QArr (e : expr) : ask (list expr)
| QRepl (e : expr) (m : list change) : ask (list change)
| QCall (e : expr) (args : list expr) : ask expr
| QType (e : expr) : ask ty
| QName (e : expr) : ask text.

(* proof_context.cpp:310-377 substitute_string: how the characters of the string group.
   PBad: ${ with no closing brace *)
Inductive piece := PCh (c : ascii) | PRow | PVar (n : text) | PDups | PSize | PExit | PNoNl | PEsc (c : ascii) | PBad.
Fixpoint upto (c : ascii) (s : text) : option (text * text) :=
  match s with
  | [] => None
  | a :: t => if Ascii.eqb a c then Some ([], t) else match upto c t with Some (u, v) => Some (a :: u, v) | None => None end
  end.
Fixpoint pieces (fuel : nat) (msiril : bool) (s : text) : list piece :=
  match fuel with O => [] | S fuel =>
  match s with
  | [] => []
  | c :: t =>
    if Ascii.eqb c (chr "@") then PRow :: pieces fuel msiril t
    else if Ascii.eqb c (chr "$") then
      match t with
      | d :: u =>
        if Ascii.eqb d (chr "{") && negb msiril then
          match upto (chr "}") u with Some (n, v) => PVar n :: pieces fuel msiril v | None => [PBad] end
        else if Ascii.eqb d (chr "$") then PExit :: pieces fuel msiril u
        else PDups :: pieces fuel msiril t
      | [] => [PDups]
      end
    else if Ascii.eqb c (chr "#") then PSize :: pieces fuel msiril t
    else if Ascii.eqb c (chr "\") then
      match t with [] => [PNoNl] | d :: u => PEsc d :: pieces fuel msiril u end
    else PCh c :: pieces fuel msiril t
  end end.

(* proof_context.cpp:242-280 do_escape_seq: the digits, then the character as UTF-8.
   The value is that of at most 8 hexadecimal digits. *)
Definition hex_val (c : ascii) : option Z :=
  let n := Z.of_nat (nat_of_ascii c) in
  if ((48 <=? n) && (n <=? 57))%Z then Some (n - 48)%Z
  else if ((65 <=? n) && (n <=? 70))%Z then Some (n - 65 + 10)%Z
  else if ((97 <=? n) && (n <=? 102))%Z then Some (n - 97 + 10)%Z else None.
Fixpoint hex_digits (len : nat) (v : Z) (s : text) : outcome (Z * text) :=
  match len with
  | O => Ret (v, s)
  | S len => match s with
             | [] => Throw InvalidArgument
             | c :: t => match hex_val c with Some d => hex_digits len (Z.lor (Z.shiftl v 4) d) t | None => Throw InvalidArgument end
             end
  end.
Definition byte (z : Z) : ascii := ascii_of_nat (Z.to_nat (z mod 256)).
Definition utf8 (v : Z) : outcome text :=
  if (v <? 128)%Z then Ret [byte v]
  else if (v <? 2048)%Z then Ret [byte (Z.lor 192 (Z.shiftr v 6)); byte (Z.lor 128 (Z.land v 63))]
  else if (v <? 65536)%Z then
    Ret [byte (Z.lor 224 (Z.shiftr v 12)); byte (Z.lor 128 (Z.land (Z.shiftr v 6) 63)); byte (Z.lor 128 (Z.land v 63))]
  else if (v <? 1114112)%Z then
    Ret [byte (Z.lor 240 (Z.shiftr v 18)); byte (Z.lor 128 (Z.land (Z.shiftr v 12) 63));
         byte (Z.lor 128 (Z.land (Z.shiftr v 6) 63)); byte (Z.lor 128 (Z.land v 63))]
  else Throw InvalidArgument.
(* proof_context.cpp:282-308 string_escapes *)
Fixpoint string_escapes (fuel : nat) (s : text) : outcome text :=
  match fuel with O => Diverge | S fuel =>
  match s with
  | [] => Ret []
  | c :: t =>
    if Ascii.eqb c (chr "\") then
      match t with
      | [] => Throw InvalidArgument
      | d :: u =>
        if Ascii.eqb d (chr "n") then omap (cons (ascii_of_nat 10)) (string_escapes fuel u)
        else if Ascii.eqb d (chr "t") then omap (cons (ascii_of_nat 9)) (string_escapes fuel u)
        else
          let len := if Ascii.eqb d (chr "x") then 2 else if Ascii.eqb d (chr "u") then 4
                     else if Ascii.eqb d (chr "U") then 8 else 0 in
          if 0 <? len then
            '(v, w) <- hex_digits len 0 u ;; x <- utf8 v ;; omap (app x) (string_escapes fuel w)
          else omap (cons (if Ascii.eqb d (chr "'") then ascii_of_nat 34 else d)) (string_escapes fuel u)
      end
    else omap (cons c) (string_escapes fuel t)
  end end.
Definition escapes (s : text) : outcome text := string_escapes (S (length s)) s.

(* expression.cpp:326-342 do_replacement *)
Definition splice {A} (mask : list A) (at_ : nat) (m : list A) : list A :=
  firstn at_ m ++ mask ++ skipn (at_ + length mask) m.
Definition do_replacement (mask : list change) (off : Z) (at_begin : bool) (m : list change) : outcome (list change) :=
  let len := Z.of_nat (length m) in let k := Z.of_nat (length mask) in
  if ((negb at_begin && ((len <=? off) || (off <? 0))) || (off <? 0) || ((off =? 0) && at_begin)
      || (at_begin && (len <? off - 1 + k)) || (negb at_begin && (off + 1 <? k)))%Z
  then Throw InvalidArgument
  else Ret (splice mask (Z.to_nat (if at_begin then off - 1 else len - (off + 1))%Z) m).

(* string comparison: characters as unsigned *)
Fixpoint text_cmp (a b : text) : comparison :=
  match a, b with
  | [], [] => Eq | [], _ => Lt | _, [] => Gt
  | x :: a, y :: b => match Nat.compare (nat_of_ascii x) (nat_of_ascii y) with Eq => text_cmp a b | o => o end
  end.
Definition cmp_result (c : cmp) (o : comparison) : bool :=
  match c, o with
  | CEq, Eq => true | CEq, _ => false | CNe, Eq => false | CNe, _ => true
  | CGt, Gt => true | CGt, _ => false | CLt, Lt => true | CLt, _ => false
  | CGe, Lt => false | CGe, _ => true | CLe, Gt => false | CLe, _ => true
  end.

Section Interp.
Variable c : cfg.
Local Open Scope gs_scope.

(* execution_context.cpp:149-154 increment_node_count: incremented twice, tested once *)
Definition count : M unit :=
  g <- getg ;;
  let n := (g_nodes g + 2)%Z in
  if (n =? c_limit c)%Z then err else modg (fun g => mkGlob (g_syms g) n (g_out g)).

(* proof_context.cpp:204-214 lookup_symbol, defined; execution_context.cpp:107-118 *)
Definition find_sym (s : st) (n : text) : option expr :=
  match sym_lookup (x_dsyms (s_x s)) n with Some e => Some e | None => sym_lookup (g_syms (s_g s)) n end.
Definition lookup (n : text) : M expr := fun s =>
  match find_sym s n with Some e => Ret (s, inl e) | None => Throw InvalidArgument end.
Definition defined (n : text) : M bool := fun s => Ret (s, inl (match find_sym s n with Some _ => true | None => false end)).
(* 223-231 define_symbol, undefine_symbol *)
Definition define (n : text) (v : expr) : M unit := modx (fun x => set_dsyms x (sym_define (x_dsyms x) n v)).
(* 216-221 save_symbol; execution_context.cpp:138-147 define_symbol *)
Definition first_name : text := str "__first__".
Definition ectx_define (t : symbols) (n : text) (v : expr) : symbols :=
  let t' := sym_define t n v in
  match sym_lookup t n with
  | Some _ => t'
  | None => match sym_lookup t' first_name with Some _ => t' | None => sym_define t' first_name v end
  end.
Definition save (n : text) : M unit :=
  x <- getx ;;
  match x_parent x with
  | Some _ => ret tt
  | None => e <- lookup n ;; modg (fun g => mkGlob (ectx_define (g_syms g) n e) (g_nodes g) (g_out g))
  end.

(* 97-107 do_output, output_string; 379-386 output_newline *)
Definition emit (t : text) (par : bool) : M unit :=
  x <- getx ;;
  let w := match x_parent x with Some b => if par then b else can_write x | None => can_write x end in
  if w : bool then modg (fun g => mkGlob (g_syms g) (g_nodes g) (g_out g ++ t)) else ret tt.

(* 163-166 isrounds *)
Definition at_rounds (x : ctx) : bool :=
  row_eqb (x_r x) (c_rounds c) && (Z.of_nat (count_row (x_p x) (x_r x)) =? c_extents c)%Z.

Variable rec : forall A, ask A -> M A.
Arguments rec {A} _.

(* 173-195 execute_symbol, without tracing *)
Definition exec_symbol (n : text) (fwd : bool) : M unit := e <- lookup n ;; rec (QExec e fwd).

(* 109-117 execute_everyrow: silent is not put back if the symbol throws *)
Definition exec_everyrow : M unit :=
  x <- getx ;;
  let s := x_silent x in
  (if c_everyrow_only c && negb (c_filter c) then modx (fun x => set_silent x false) else ret tt) ;;;
  exec_symbol (str "everyrow") true ;;;
  modx (fun x => set_silent x s).

(* 131-143 permute_and_prove_t::prove, at the stroke bs (true: backstroke); gives the next stroke *)
Definition prove_row (bs : bool) : M bool :=
  x <- getx ;;
  if negb (x_proving x) then ret bs else
  let '(p', rv) := add_row (x_p x) (x_r x) in
  modx (fun x => set_seen x p' (x_mus x ++ [(x_r x, bs)])) ;;;
  exec_everyrow ;;;
  x <- getx ;;
  (if negb (x_maxlen x =? 0) && (x_maxlen x <? p_size (x_p x)) then exec_symbol (str "toolong") true else ret tt) ;;;
  x <- getx ;;
  (if at_rounds x then exec_symbol (str "rounds") true else ret tt) ;;;
  (if negb rv then exec_symbol (str "conflict") true else ret tt) ;;;
  ret (negb bs).
(* 119-129 permute_and_prove_t::operator() *)
Definition ring_change (ch : change) (bs : bool) : M bool :=
  x <- getx ;; r <- lift (row_mul_change (x_r x) ch) ;; modx (fun x => set_r x r) ;;; prove_row bs.
Definition ring_row (t : row) : M unit :=
  x <- getx ;; r <- lift (mul (x_r x) t) ;; modx (fun x => set_r x r) ;;; _ <- prove_row false ;; ret tt.
(* expression.cpp:312-318: for_each over the changes *)
Fixpoint ring (cs : list change) (bs : bool) : M unit :=
  match cs with [] => ret tt | ch :: cs => bs' <- ring_change ch bs ;; ring cs bs' end.

(* 450-474 scoped_variable around m *)
Definition scoped {A} (n : text) (m : M A) : M A := fun s =>
  let old := find_sym s n in
  finally m (fun x => set_dsyms x (match old with
                                   | Some v => sym_define (x_dsyms x) n v
                                   | None => sym_undefine (x_dsyms x) n end)) s.
Definition loop_counter : text := str "loop_counter".

(* 310-377 substitute_string, with do_exit and no_nl *)
Fixpoint subst (ps : list piece) (acc : text) (ex nn : bool) : M (text * bool * bool) :=
  match ps with
  | [] => ret (acc, ex, nn)
  | p :: ps =>
    x <- getx ;;
    match p with
    | PCh a => subst ps (acc ++ [a]) ex nn
    | PEsc a => subst ps (acc ++ [chr "\"; a]) ex nn
    | PRow => match c_show c (x_r x) with Some t => subst ps (acc ++ t) ex nn | None => ret ([], ex, nn) end
    | PVar n => e <- lookup n ;; '(t, _) <- in_clone (rec (QStr e)) ;; subst ps (acc ++ t) ex nn
    | PDups => subst ps (acc ++ print_int (duplicates (x_p x))) ex nn
    | PSize => subst ps (acc ++ print_int (Z.of_nat (p_size (x_p x)))) ex nn
    | PExit => subst ps acc true nn
    | PNoNl => subst ps acc ex true
    | PBad => err
    end
  end.
(* expression.cpp:180-195 string_node::evaluate *)
Definition string_eval (t : text) (interp par nonl ab : bool) : M expr :=
  if interp then
    '(t', ex, nn) <- subst (pieces (length t) (c_msiril c) t) [] false false ;;
    ret (EString t' false par nn ex)
  else ret (EString t false par nonl ab).

(* expression.cpp:377-382 merge_node::pn_evaluate *)
Definition merge_pn (b r : expr) : M (list change) := m <- rec (QPn b) ;; rec (QRepl r m).
(* expression.cpp:1034-1038 call_node::evaluate *)
Definition call_eval (n : text) (args : list expr) : M expr := e <- lookup n ;; rec (QCall e args).
(* both operands are integers *)
Definition both_int (l r : expr) : M bool :=
  t <- rec (QType l) ;;
  match t with TyInt => u <- rec (QType r) ;; ret (match u with TyInt => true | _ => false end) | _ => ret false end.

(* the int_evaluate of the nodes; expression.cpp and the default, which throws *)
Definition int_impl (e : expr) : M Z :=
  match e with
  | EList a b => rec (QExec a true) ;;; rec (QInt b)                                (* 67-71 *)
  | ESym n => e <- lookup n ;; rec (QInt e)                                         (* 439-443 *)
  | EBells => ret (Z.of_nat (c_bells c))                                            (* 785-788 *)
  | ELength => x <- getx ;; ret (Z.of_nat (p_size (x_p x)))                         (* 795-798 *)
  | EInt z => ret z
  | EAdd sg l r => a <- rec (QInt l) ;; b <- rec (QInt r) ;; lift (as_ll (a + sg * b)%Z)    (* 805-809 *)
  | EMod l r => a <- rec (QInt l) ;; b <- rec (QInt r) ;; if (b =? 0)%Z then lift UB else lift (_ <- as_ll (Z.quot a b) ;; Ret (Z.rem a b))%outcome
  | EDiv l r => a <- rec (QInt l) ;; b <- rec (QInt r) ;; if (b =? 0)%Z then lift UB else lift (as_ll (Z.quot a b))
  | EMult l r => i <- both_int l r ;;                                               (* 887-895 *)
      if i : bool then a <- rec (QInt l) ;; b <- rec (QInt r) ;; lift (as_ll (a * b)%Z) else err
  | EIncr n v => e <- lookup n ;; a <- rec (QInt e) ;; r <- lift (as_ll (a + v)%Z) ;; define n (EInt r) ;;; ret r   (* 931-936 *)
  | ECall n args => e <- call_eval n args ;; rec (QInt e)                           (* 1045-1048 *)
  | _ => err
  end.

(* 712-759 cmp_node::bool_evaluate *)
Definition cmp_bool (o : cmp) (l r : expr) : M bool :=
  lt <- rec (QType l) ;; rt <- rec (QType r) ;;
  match lt, rt with
  | TyBool, TyBool => a <- rec (QBool l) ;; b <- rec (QBool r) ;;
      match o with CEq => ret (Bool.eqb a b) | CNe => ret (negb (Bool.eqb a b)) | _ => err end
  | TyBool, _ | _, TyBool => err
  | TyInt, TyInt => a <- rec (QInt l) ;; b <- rec (QInt r) ;; ret (cmp_result o (Z.compare a b))
  | TyInt, _ | _, TyInt => a <- rec (QStr l) ;; b <- rec (QStr r) ;;
      match o with CEq | CNe => ret (cmp_result o (text_cmp (fst a) (fst b))) | _ => err end
  | _, _ => a <- rec (QStr l) ;; b <- rec (QStr r) ;; ret (cmp_result o (text_cmp (fst a) (fst b)))
  end.

(* the bool_evaluate of the nodes *)
Definition bool_impl (e : expr) : M bool :=
  match e with
  | EList a b => rec (QExec a true) ;;; rec (QBool b)                               (* 61-65 *)
  | ESym n => e <- lookup n ;; rec (QBool e)                                        (* 433-437 *)
  | EIsproving => x <- getx ;; ret (x_proving x)                                    (* 595-598 *)
  | EIsrounds => x <- getx ;; ret (at_rounds x)                                     (* 605-608 *)
  | EPattern p => x <- getx ;; ret (p (x_r x))                                      (* 626-631, 647-652 *)
  | EDefined n => defined n                                                         (* 664-667 *)
  | EBool b => ret b
  | EAnd l r => a <- rec (QBool l) ;; if a : bool then rec (QBool r) else ret false (* 675-679 *)
  | EOr l r => a <- rec (QBool l) ;; if a : bool then ret true else rec (QBool r)   (* 688-692 *)
  | ENot a => b <- rec (QBool a) ;; ret (negb b)                                    (* 701-704 *)
  | ECmp o l r => cmp_bool o l r
  | ECall n args => e <- call_eval n args ;; rec (QBool e)                          (* 1040-1043 *)
  | _ => err
  end.

(* the string_evaluate of the nodes *)
Definition str_impl (e : expr) : M (text * bool) :=
  match e with
  | EList a b => rec (QExec a true) ;;; '(t, _) <- rec (QStr b) ;; ret (t, false)   (* 73-77 *)
  | EString t i p n ab =>                                                           (* 197-209 *)
      if i : bool then e <- string_eval t i p n ab ;; rec (QStr e) else ret (t, n)
  | ESym n => e <- lookup n ;; rec (QStr e)                                         (* 445-455 *)
  | EAppend l r => a <- rec (QStr l) ;; b <- rec (QStr r) ;; ret (fst a ++ fst b, false)    (* 845-849 *)
  | ECall n args => e <- call_eval n args ;; '(t, _) <- rec (QStr e) ;; ret (t, false)      (* 1050-1058 *)
  | EMult l r => i <- both_int l r ;;                                               (* 905-911 *)
      if i : bool then z <- int_impl e ;; ret (print_int z, false) else err
  | EBells | ELength | EInt _ | EAdd _ _ _ | EMod _ _ | EDiv _ _ | EIncr _ _ =>
      z <- int_impl e ;; ret (print_int z, false)                                   (* expr_base.cpp:121-123 *)
  | _ => err
  end.

(* the pn_evaluate of the nodes *)
Definition pn_impl (e : expr) : M (list change) :=
  match e with
  | EList a b => x <- rec (QPn a) ;; y <- rec (QPn b) ;; ret (x ++ y)               (* 79-85 *)
  | ERepeat n ch => if (n =? -1)%Z then err else scoped loop_counter (rec (QLoopPn n 1 ch []))   (* 129-148 *)
  | EReverse ch => x <- rec (QPn ch) ;; ret (rev x)                                 (* 161-165 *)
  | EPn cs _ => ret cs
  | EMerge b r => merge_pn b r                                                      (* 377-382 *)
  | ESym n => e <- lookup n ;; rec (QPn e)                                          (* 457-461 *)
  | ECall n args => e <- call_eval n args ;; rec (QPn e)                            (* 1060-1063 *)
  | _ => err
  end.

(* the evaluate of the nodes *)
Definition eval_impl (e : expr) : M expr :=
  match e with
  | EList a b => rec (QExec a true) ;;; rec (QEval b)                               (* 55-59 *)
  | EString t i p n ab => string_eval t i p n ab                                    (* 180-195 *)
  | EMerge b r => m <- merge_pn b r ;; ret (EPn m [])                               (* 384-387 *)
  | ESym n => e <- lookup n ;; rec (QEval e)                                        (* 427-431 *)
  | EIsproving | EIsrounds | EPattern _ | EDefined _ | EBool _ | EAnd _ _ | EOr _ _ | ENot _ | ECmp _ _ _ =>
      b <- bool_impl e ;; ret (EBool b)                                             (* expr_base.cpp:103-105 *)
  | EBells | ELength | EInt _ | EAdd _ _ _ | EMod _ _ | EDiv _ _ | EIncr _ _ =>
      z <- int_impl e ;; ret (EInt z)                                               (* expr_base.cpp:115-117 *)
  | EAppend _ _ => '(t, _) <- str_impl e ;; ret (EString t false false false false) (* expr_base.cpp:129-131 *)
  | EMult l r => i <- both_int l r ;;                                               (* 897-903 *)
      if i : bool then z <- int_impl e ;; ret (EInt z) else err
  | EIf t a b =>                                                                    (* 995-1002 *)
      x <- catch (in_clone (rec (QBool t))) (fun _ => ret false) ;;
      if x : bool then rec (QEval a) else match b with Some b => rec (QEval b) | None => err end
  | ECall n args => call_eval n args
  | _ => err
  end.

(* 956-983 evaluate_condition *)
Definition condition (t : expr) : M bool := catch (in_clone (rec (QBool t))) (fun _ => ret false).

(* the execute of the nodes; fwd is dir > 0 *)
Definition exec_impl (e : expr) (fwd : bool) : M unit :=
  match e with
  | EList a b =>                                                                    (* 48-53 *)
      if fwd then rec (QExec a fwd) ;;; rec (QExec b fwd) else rec (QExec b fwd) ;;; rec (QExec a fwd)
  | ENop => ret tt
  | ERepeat n ch =>                                                                 (* 114-127 *)
      scoped loop_counter (catch (rec (QLoop n 1 ch fwd)) (fun x => match x with SBreak => ret tt | SAbort => raise SAbort end))
  | EReverse ch => rec (QExec ch (negb fwd))                                        (* 156-159 *)
  | EString t i p n ab =>                                                           (* 167-178 *)
      if i : bool then e <- string_eval t i p n ab ;; rec (QExec e fwd)
      else
        t' <- lift (escapes t) ;; emit t' p ;;;
        (if n : bool then ret tt else emit [ascii_of_nat 10] p) ;;;
        (if ab : bool then raise SAbort else ret tt)
  | EPn cs _ => ring (if fwd then cs else rev cs) false                             (* 312-318 *)
  | EReplace _ _ _ => err
  | EMerge b r => m <- merge_pn b r ;; rec (QExec (EPn m []) fwd)                   (* 389-393 *)
  | ETransp t => ring_row t                                                         (* 412-415: whatever the direction *)
  | ESym n => exec_symbol n fwd                                                     (* 422-425 *)
  | EAssign n v => if fwd then define n v else err                                  (* 511-515 *)
  | EAppendAssign n v =>                                                            (* 524-535; the order of the two evaluations is not specified *)
      if fwd then e <- lookup n ;; a <- rec (QStr e) ;; b <- rec (QStr v) ;; define n (EString (fst a ++ fst b) false false false false) else err
  | EImmAssign n v => if fwd then e <- rec (QEval v) ;; define n e else err         (* 544-548 *)
  | EEndproof => modx set_ended                                                     (* 589-592 *)
  | EIsproving | EIsrounds | EPattern _ | EDefined _ | EBool _ | EAnd _ _ | EOr _ _ | ENot _ | ECmp _ _ _ =>
      if fwd then _ <- bool_impl e ;; ret tt else err                               (* expr_base.cpp:96-101 *)
  | EBells | ELength | EInt _ | EAdd _ _ _ | EMod _ _ | EDiv _ _ | EIncr _ _ =>
      if fwd then _ <- int_impl e ;; ret tt else err                                (* expr_base.cpp:107-113 *)
  | EAppend _ _ => '(t, _) <- str_impl e ;; emit t false                            (* expr_base.cpp:125-127 *)
  | EMult l r => i <- both_int l r ;;                                               (* 866-885 *)
      if i : bool then (if fwd then _ <- int_impl e ;; ret tt else err)
      else
        lt <- rec (QType l) ;;
        match lt with
        | TyInt => n <- rec (QInt l) ;; rec (QExec (ERepeat (to_int n) r) fwd)
        | _ => rt <- rec (QType r) ;;
               match rt with
               | TyInt => n <- rec (QInt r) ;; rec (QExec (ERepeat (to_int n) l) fwd)
               | _ => err
               end
        end
  | EIf t a b =>                                                                    (* 985-993 *)
      if fwd then
        x <- condition t ;;
        if x : bool then rec (QExec a fwd) else match b with Some b => rec (QExec b fwd) | None => ret tt end
      else err
  | EExn x => if fwd then raise x else err                                          (* 1009-1013 *)
  | ECall n args => if fwd then e <- call_eval n args ;; rec (QExec e fwd) else err
  | ESave n => save n                                                               (* 1080-1083 *)
  | EArray _ => err
  | EFn _ => err                                                                    (* functions.cpp:33-41 *)
  end.

(* the array_evaluate of the nodes: 1107-1110, 851-857, 469-473, 1070-1073 *)
Definition arr_impl (e : expr) : M (list expr) :=
  match e with
  | EArray vs => ret vs
  | EAppend l r => a <- rec (QArr l) ;; b <- rec (QArr r) ;; ret (a ++ b)
  | ESym n => e <- lookup n ;; rec (QArr e)
  | ECall n args => e <- call_eval n args ;; rec (QArr e)
  | _ => err
  end.
(* the apply_replacement of the nodes: 346-350, 364-368, 487-492 *)
Definition repl_impl (e : expr) (m : list change) : M (list change) :=
  match e with
  | EPn cs _ => lift (do_replacement cs (Z.of_nat (length cs - 1)) false m)
  | EReplace pn sh b => cs <- rec (QPn pn) ;; off <- rec (QInt sh) ;; lift (do_replacement cs off b m)
  | ESym n => e <- lookup n ;; rec (QRepl e m)
  | _ => err
  end.
(* the type of the nodes *)
Definition type_impl (e : expr) : M ty :=
  match e with
  | EList _ b => rec (QType b)
  | ESym n => e <- lookup n ;; rec (QType e)
  | ECall n _ => e <- lookup n ;; rec (QType e)
  | EMult l r => i <- both_int l r ;; ret (if i : bool then TyInt else TyNone)
  | EIsproving | EIsrounds | EPattern _ | EDefined _ | EBool _ | EAnd _ _ | EOr _ _ | ENot _ | ECmp _ _ _ => ret TyBool
  | EBells | ELength | EInt _ | EAdd _ _ _ | EMod _ _ | EDiv _ _ | EIncr _ _ => ret TyInt
  | EFn (FAt | FPos | FRowno | FMusic) => ret TyInt
  | EFn FSwap => ret TyTransp
  | _ => ret TyNone
  end.
(* the name of the nodes *)
Definition name_impl (e : expr) : M text :=
  match e with
  | EPn _ n => ret n
  | EReplace pn _ _ => rec (QName pn)
  | ESym n => e <- lookup n ;; rec (QName e)
  | _ => err
  end.

(* proof_context.cpp:427-448 load_method *)
Fixpoint first_found (name : text) (sfx : list text) : outcome (option (method * text)) :=
  match sfx with
  | [] => Ret None
  | s :: sfx =>
    bind (c_find c (if is_empty s then name else name ++ chr " " :: s))
         (fun r => match r with Some m => Ret (Some m) | None => first_found name sfx end)
  end.
Definition load_method (name : text) : M (method * text) :=
  g <- getg ;;
  sfx <- (match sym_lookup (g_syms g) (str "method_suffixes") with
          | Some _ => e <- lookup (str "method_suffixes") ;; '(t, _) <- rec (QStr e) ;; lift (split_path t)
          | None => ret [[]]
          end) ;;
  r <- lift (first_found name sfx) ;;
  match r with Some m => ret m | None => err end.

Fixpoint all_pn (args : list expr) : M (list change) :=
  match args with [] => ret [] | a :: args => x <- rec (QPn a) ;; y <- all_pn args ;; ret (x ++ y) end.

(* functions.cpp:43-233 the call of the functions *)
Definition call_fn (f : fn) (args : list expr) : M expr :=
  match f, args with
  | FAt, [a] =>
      z <- rec (QInt a) ;; x <- getx ;;
      let i := to_int z in
      if ((i <? 1) || (Z.of_nat (c_bells c) <=? i))%Z then err else
      if (Z.of_nat (length (x_r x)) <? i)%Z then ret (EInt i)
      else b <- lift (vget (x_r x) (Z.to_nat (i - 1))) ;; ret (EInt (Z.of_nat b + 1))
  | FPos, [a] =>
      x <- getx ;; z <- rec (QInt a) ;; y <- lift (as_ll (z - 1)%Z) ;;
      ret (EInt (Z.of_nat (find (x_r x) (zb8 (to_int y))) + 1))
  | FRowno, [] => x <- getx ;; ret (EInt (Z.of_nat (p_size (x_p x))))
  | FSwap, a :: rest =>
      match rest with _ :: _ :: _ => err | _ =>
        z <- rec (QInt a) ;; y <- lift (as_ll (z - 1)%Z) ;;
        let i := to_int y in
        j <- (match rest with
              | b :: _ => z <- rec (QInt b) ;; y <- lift (as_ll (z - 1)%Z) ;; ret (to_int y)
              | [] => lift (as_int (i + 1))
              end) ;;
        let n := Z.of_nat (c_bells c) in
        if ((n <=? i) || (n <=? j) || (i <? 0) || (j <? 0))%Z then err
        else if (i =? j)%Z then err
        else r <- lift (row_swap (rounds (c_bells c)) (Z.to_nat i) (Z.to_nat j)) ;; ret (ETransp r)
      end
  | FLoad, [a] => '(t, _) <- rec (QStr a) ;; m <- load_method t ;; ret (EPn (mch (fst m)) (snd m))
  | FLoadm, [a] => '(t, _) <- rec (QStr a) ;; m <- load_method t ;;
      match mch (fst m) with [] => lift UB | _ => ret (EPn (removelast (mch (fst m))) (snd m)) end
  | FLoadlh, [a] => '(t, _) <- rec (QStr a) ;; m <- load_method t ;;
      match mch (fst m) with [] => lift UB | ch :: l => ret (EPn [last l ch] []) end
  | FStagename, [a] => z <- rec (QInt a) ;; t <- lift (stagename (to_int z)) ;; ret (EString t false false false false)
  | FMusic, [] => x <- getx ;; ret (EInt (c_score c (x_mus x)))
  | FMethname, [a] => t <- rec (QName a) ;; ret (EString t false false false false)
  | FPnstr, _ :: _ =>
      cs <- in_clone (all_pn args) ;;
      t <- lift (format (c_sym c) (method_of_changes cs) M_EXTERNAL) ;; ret (EString t false false false false)
  | _, _ => err
  end.

(* expr_base.cpp:134-189: the node is counted and then asked (type and name are not counted) *)
Definition step {A} (q : ask A) : M A :=
  match q in ask A return M A with
  | QExec e fwd => count ;;; exec_impl e fwd
  | QLoop n i e fwd =>                                                              (* expression.cpp:119-122 *)
      if ((n =? -1) || (i <=? n))%Z then
        define loop_counter (EInt i) ;;; rec (QExec e fwd) ;;; rec (QLoop n (i + 1)%Z e fwd)
      else ret tt
  | QLoopPn n i e acc =>                                                            (* 137-145; a break keeps what there is *)
      if (i <=? n)%Z then
        define loop_counter (EInt i) ;;;
        r <- catch (x <- rec (QPn e) ;; ret (Some x)) (fun x => match x with SBreak => ret None | SAbort => raise SAbort end) ;;
        match r with Some x => rec (QLoopPn n (i + 1)%Z e (acc ++ x)) | None => ret acc end
      else ret acc
  | QEval e => count ;;; eval_impl e
  | QBool e => count ;;; bool_impl e
  | QInt e => count ;;; int_impl e
  | QStr e => count ;;; str_impl e
  | QPn e => count ;;; pn_impl e
  | QArr e => count ;;; arr_impl e
  | QRepl e m => count ;;; repl_impl e m
  | QCall e args => count ;;; match e with EFn f => call_fn f args | _ => err end
  | QType e => type_impl e
  | QName e => name_impl e
  end.
End Interp.

(* The interpreter: the fuel bounds the depth of the recursion. *)
Fixpoint gs_run (c : cfg) (fuel : nat) : forall A, ask A -> M A :=
  match fuel with
  | O => fun A q s => Diverge
  | S n => fun A q => step c (gs_run c n) q
  end.
Arguments gs_run c fuel {A} q.

(* proof_context.cpp:49-73 the constructor.  args.bells is 0 until set, so the test against -1
   does not fire for it. *)
Definition new_ctx (c : cfg) : outcome ctx :=
  if c_bells c <? length (c_rounds c) then Throw InvalidArgument else
  bind (mul (rounds (c_bells c)) (c_rounds c)) (fun r =>
  Ret (mkCtx [] r [] (c_max c) (prover_new (c_extents c) None) true None [] true
         (c_everyrow_only c || c_filter c || (2 <=? c_quiet c)%Z))).

(* proof_context.cpp:233-240 state *)
Inductive pstate := StRounds | StNotround | StFalse.
Definition state (c : cfg) (x : ctx) : pstate :=
  if truth (x_p x) then
    if row_eqb (if x_proving x then x_r x else x_last x) (c_rounds c) then StRounds else StNotround
  else StFalse.

(* How a proof can end: with one of the symbols true, tooshort, notround, false or abort,
   or at a break outside any loop (VStopped: nothing is run and no failure is set). *)
Inductive verdict := VTrue | VTooShort | VNotRound | VFalse | VAborted | VStopped.
Definition final_name (v : verdict) : text :=
  match v with
  | VTrue => str "true" | VTooShort => str "tooshort" | VNotRound => str "notround" | VFalse => str "false"
  | _ => str "abort"
  end.

(* statement.cpp:86-145 prove_stmt::execute, not verbose, without -P's test for a second proof.
   Result: how it ended, whether set_failure was called, the context as it was when the
   verdict was reached, and the execution context afterwards. *)
Definition final (c : cfg) (fuel : nat) (n : text) : M unit :=
  catch (exec_symbol (@gs_run c fuel) n true) (fun _ => ret tt).
Definition prove_body (c : cfg) (fuel : nat) (e : expr) : M unit :=
  mbind (exec_symbol (@gs_run c fuel) (str "start") true) (fun _ =>
  mbind (gs_run c fuel (QExec e true)) (fun _ =>
  exec_symbol (@gs_run c fuel) (str "finish") true)).
Definition verdict_of (c : cfg) (x : ctx) : verdict :=
  match state c x with
  | StRounds => if negb (c_min c =? 0) && (p_size (x_p x) <? c_min c) then VTooShort else VTrue
  | StNotround => VNotRound
  | StFalse => VFalse
  end.
Definition prove_stmt (c : cfg) (fuel : nat) (e : expr) (g : glob) : outcome (verdict * bool * ctx * glob) :=
  bind (new_ctx c) (fun x =>
  bind (prove_body c fuel e (mkSt x g)) (fun '(s, v) =>
  match v with
  | inr SBreak => Ret (VStopped, false, s_x s, s_g s)
  | inr SAbort => bind (final c fuel (str "abort") s) (fun '(s', _) => Ret (VAborted, true, s_x s, s_g s'))
  | inl _ =>
    let vd := verdict_of c (s_x s) in
    let s1 := match vd with VTrue => if (c_quiet c =? 0)%Z then s else mkSt (set_silent (s_x s) true) (s_g s) | _ => s end in
    bind (final c fuel (final_name vd) s1) (fun '(s', _) =>
    Ret (vd, match vd with VTrue => false | _ => true end, s_x s, s_g s'))
  end)).
