(* M_Statement.v - model of the statements of gsiril: how commands are parsed into statements
   (apps/gsiril/parser.cpp:363-562), what they do (statement.cpp, execution_context.cpp), and how a
   script is run (parser.cpp:1024-1055, main.cpp:159-244, 300-332).  Only runs which are not interactive are
   modelled: there the first error ends the program.  Not modelled: verbose messages,
   --determine-bells, --filter, the initialisation script, and what version and the
   options -v and -L print. *)
From Verif Require Import Base M_Bell M_Change M_Row M_Proof M_Gsiril M_Parser M_Token.
Set Implicit Arguments. Unset Strict Implicit.
Open Scope nat_scope.

(* statement.h *)
Inductive echo_mode := MEcho | MWarn | MError.
Inductive stmt :=
| SNone                                          (* statement(NULL): the end of the script *)
| SNull                                          (* null_stmt *)
| SBells (n : Z) | SExtents (n : Z) | SRows (a b : Z) | SRounds (r : row) | SMask (m : text) | SImport (f : text)
| SProve (e : expr) | SEcho (m : echo_mode) (e : expr) | SMusic (es : list expr)
| SIf (alts : list (expr * list stmt)) | SForeach (n : text) (e : expr) (b : list stmt)
| SDef (n : text) (e : expr) | SDefault (n : text) (e : expr) | SImm (n : text) (e : expr).

(* Parsing: the tokens that are left are kept when an exception is thrown. *)
Definition P A := list token -> list token * outcome A.
Definition pret {A} (o : outcome A) : P A := fun ts => (ts, o).
Definition pbind {A B} (m : P A) (f : A -> P B) : P B := fun ts =>
  let '(ts', o) := m ts in
  match o with Ret a => f a ts' | Throw x => (ts', Throw x) | UB => (ts', UB) | Diverge => (ts', Diverge) end.

Section Statements.
Variables (ms bad no_import : bool) (sym : symtab) (L : lits).
Definition next_command : P (list token) := fun ts => command ms bad true ts [] 0.

Definition tx_is (s : string) (t : token) : bool := list_ascii_eqb (tx t) (str s).
Definition word_is (s : string) (t : token) : bool := is_word (str s) t.
Definition kind_is (k : tt) (t : token) : bool := tt_eqb (tk t) k.

(* parser.cpp:370-374: the end of the script *)
Definition is_eof (cmd : list token) : bool :=
  match cmd with
  | [] => true
  | [t] => tx_is "end" t || tx_is "quit" t || tx_is "exit" t || kind_is KCtrlZ t
  | _ => false
  end.
(* 376-441, 451-471 the commands which are statements by themselves; None: none of them.
   In the range form of rows the second number is taken from the word "to". *)
Definition echo_kind (t : token) : option echo_mode :=      (* statement.cpp:252-256 *)
  if word_is "echo" t then Some MEcho else if word_is "warn" t then Some MWarn else if word_is "error" t then Some MError else None.
Definition one_command (cmd : list token) : option (outcome stmt) :=
  if is_eof cmd then Some (Ret SNone) else
  match cmd with
  | [] => None
  | t :: u =>
    if word_is "version" t && match u with [] => true | _ => false end then Some (Ret SNull)
    else if kind_is KNum t && match u with [x] => word_is "bells" x | _ => false end then
      Some (z <- num_value (tx t) ;; Ret (SBells z))
    else if kind_is KNum t && match u with [x] => word_is "extents" x | _ => false end then
      Some (z <- num_value (tx t) ;; Ret (SExtents z))
    else if kind_is KNum t && match u with [x] => word_is "rows" x | _ => false end then
      Some (z <- num_value (tx t) ;; Ret (SRows z z))
    else if kind_is KNum t && match u with [x; y; z] => word_is "to" x && kind_is KNum y && word_is "rows" z | _ => false end then
      Some (a <- num_value (tx t) ;; match u with x :: _ => b <- num_value (tx x) ;; Ret (SRows a b) | [] => UB end)
    else if word_is "rounds" t && match u with [x] => kind_is KTransp x | _ => false end then
      Some (match u with x :: _ => r <- row_of_string sym (tx x) ;; Ret (SRounds r) | [] => UB end)
    else if word_is "row_mask" t && match u with [x] => kind_is KRegex x | _ => false end then
      Some (match u with x :: _ => Ret (SMask (tx x)) | [] => UB end)
    else if negb no_import && word_is "import" t && match u with [x] => kind_is KName x || kind_is KString x | _ => false end then
      Some (match u with x :: _ => Ret (SImport (tx x)) | [] => UB end)
    else if word_is "prove" t && match u with x :: _ => negb (kind_is KAssign x || kind_is KImmAssign x || kind_is KDefAssign x) | [] => false end then
      Some (e <- make_expr L u ;; Ret (SProve e))
    else match echo_kind t with
    | Some m => Some (match u with [] => Ret (SEcho m (EString [] false false false false)) | _ => e <- make_expr L u ;; Ret (SEcho m e) end)
    | None =>
    if word_is "music" t then Some (es <- parse_list_f (make_expr L) (S (length u)) u ;; Ret (SMusic es))
    else if word_is "if" t && match u with [] => false | _ => true end || word_is "foreach" t then None
    else Some
      (match u with
       | x :: v =>
         if kind_is KName t && (kind_is KAssign x || kind_is KDefAssign x || kind_is KImmAssign x) then
           e <- match v with [] => Ret ENop | _ => make_expr L v end ;;
           Ret (if kind_is KAssign x then SDef (tx t) e else if kind_is KDefAssign x then SDefault (tx t) e else SImm (tx t) e)
         else fail
       | [] => fail
       end)
    end
  end.

Section Rec.
Variable rec : list token -> P stmt.                        (* parse_command *)
(* 475-516 parse_if, after the condition *)
Fixpoint if_f (fuel : nat) (cond : expr) (alts : list (expr * list stmt)) (block : list stmt) (had_else : bool) : P stmt :=
  match fuel with O => pret Diverge | S fuel =>
  pbind next_command (fun cmd =>
  match cmd with
  | [] => pret fail
  | t :: u =>
    let last := match u with [] => true | _ => false end in
    if last && word_is "endif" t then pret (Ret (SIf (alts ++ [(cond, block)])))
    else if negb last && word_is "elseif" t then
      if had_else then pret fail
      else pbind (pret (make_expr L u)) (fun e => if_f fuel e (alts ++ [(cond, block)]) [] had_else)
    else if last && word_is "else" t then
      if had_else then pret fail else if_f fuel (EBool true) (alts ++ [(cond, block)]) [] true
    else pbind (rec cmd) (fun s => if_f fuel cond alts (block ++ [s]) had_else)
  end) end.
(* 535-562 parse_foreach *)
Fixpoint foreach_f (fuel : nat) (n : text) (a : expr) (block : list stmt) : P stmt :=
  match fuel with O => pret Diverge | S fuel =>
  pbind next_command (fun cmd =>
  match cmd with
  | [] => pret fail
  | t :: u =>
    if match u with [] => true | _ => false end && word_is "endfor" t then pret (Ret (SForeach n a block))
    else pbind (rec cmd) (fun s => foreach_f fuel n a (block ++ [s]))
  end) end.
Definition foreach (cmd : list token) : P stmt :=
  match rev cmd with
  | y :: x :: r =>
    match r with
    | [] => pret fail
    | _ =>
      if word_is "as" x && kind_is KName y then
        pbind (pret (make_expr L (tl (rev r)))) (fun a ts => foreach_f (S (length ts)) (tx y) a [] ts)
      else pret fail
    end
  | _ => pret fail
  end.
(* 443-449 the commands which are followed by others *)
Definition parse_step (cmd : list token) : P stmt :=
  match one_command cmd with
  | Some o => pret o
  | None =>
    match cmd with
    | [] => pret UB
    | t :: u =>
      if word_is "if" t then pbind (pret (make_expr L u)) (fun e ts => if_f (S (length ts)) e [] [] false ts)
      else foreach cmd
    end
  end.
End Rec.
Fixpoint parse_command (fuel : nat) (cmd : list token) : P stmt :=
  match fuel with O => pret Diverge | S fuel => parse_step (parse_command fuel) cmd end.
(* parser.cpp:363-366 parse *)
Definition parse : P stmt := fun ts => pbind next_command (fun cmd ts => parse_command (S (length ts)) cmd ts) ts.
End Statements.

(* What the rest of the library supplies, besides what is in cfg: the literals on a number of
   bells, how a row is shown through a row mask on a number of bells, how many bells that shows,
   the score of some music patterns, and the files to import (import.cpp). *)
Record library := mkLib {
  lib_lits : nat -> lits; lib_show : text -> nat -> row -> option text; lib_line : text -> nat -> nat;
  lib_music : cfg -> glob -> list expr -> outcome ((list (row * bool) -> Z) * glob); lib_file : text -> option text }.
(* prog_args.h: what is not in cfg *)
Record opts := mkOpts { o_ci : bool; o_prove_one : bool; o_no_import : bool; o_prove : text }.
(* execution_context.h:52-125; w_log is not in the program: it records what was proved, where, and
   with which verdict, for the theorems *)
Record entry := mkEntry { en_c : cfg; en_g : glob; en_e : expr; en_v : verdict }.
Record world := mkWorld { w_c : cfg; w_mask : text; w_g : glob; w_failed : bool; w_done : bool; w_err : text; w_log : list entry }.
Definition set_c w c := mkWorld c (w_mask w) (w_g w) (w_failed w) (w_done w) (w_err w) (w_log w).
Definition set_mask w m := mkWorld (w_c w) m (w_g w) (w_failed w) (w_done w) (w_err w) (w_log w).
Definition set_g w g := mkWorld (w_c w) (w_mask w) g (w_failed w) (w_done w) (w_err w) (w_log w).
Definition set_failed w f := mkWorld (w_c w) (w_mask w) (w_g w) f (w_done w) (w_err w) (w_log w).
Definition set_proved w g f e v := mkWorld (w_c w) (w_mask w) g (w_failed w || f) true (w_err w) (w_log w ++ [mkEntry (w_c w) (w_g w) e v]).
Definition warn w t := mkWorld (w_c w) (w_mask w) (w_g w) (w_failed w) (w_done w) (w_err w ++ t) (w_log w).
Definition set_syms w t := set_g w (mkGlob t (g_nodes (w_g w)) (g_out (w_g w))).
Definition say w t := set_g w (mkGlob (g_syms (w_g w)) (g_nodes (w_g w)) (g_out (w_g w) ++ t)).
Definition syms (w : world) : symbols := g_syms (w_g w).
Definition with_bells c b r sh := mkCfg b r (c_extents c) (c_min c) (c_max c) (c_limit c) (c_everyrow_only c) (c_filter c) (c_quiet c) (c_msiril c) (c_sym c) sh (c_score c) (c_find c).
Definition with_rounds c r := with_bells c (c_bells c) r (c_show c).
Definition with_extents c n := mkCfg (c_bells c) (c_rounds c) n (c_min c) (c_max c) (c_limit c) (c_everyrow_only c) (c_filter c) (c_quiet c) (c_msiril c) (c_sym c) (c_show c) (c_score c) (c_find c).
Definition with_length c a b := mkCfg (c_bells c) (c_rounds c) (c_extents c) a b (c_limit c) (c_everyrow_only c) (c_filter c) (c_quiet c) (c_msiril c) (c_sym c) (c_show c) (c_score c) (c_find c).
Definition with_score c s := mkCfg (c_bells c) (c_rounds c) (c_extents c) (c_min c) (c_max c) (c_limit c) (c_everyrow_only c) (c_filter c) (c_quiet c) (c_msiril c) (c_sym c) (c_show c) s (c_find c).

Section Exec.
Variables (B : library) (opt : opts) (fuel : nat).

(* execution_context.cpp:56-67 define_line.  Simplified: a row mask which does not suit the new
   number of bells throws nothing *)
Definition line_name : text := str "__line__".
Definition define_line (w : world) : world :=
  let c := w_c w in
  set_syms (set_c w (with_bells c (c_bells c) (c_rounds c) (lib_show B (w_mask w) (c_bells c))))
    (sym_define (syms w) line_name (EString (repeat (chr "-") (lib_line B (w_mask w) (c_bells c))) false false false false)).
(* execution_context.cpp:35-49 bells *)
Definition set_bells (b : nat) (w : world) : outcome world :=
  let c := w_c w in let r := c_rounds c in
  r' <- (if length r <? b then mul r (rounds b) else if b <? length r then Ret (rounds b) else Ret r) ;;
  let w' := if (b <? length r) && negb (isrounds r) then say w (str "Warning: Rounds reset") else w in
  Ret (define_line (set_c w' (with_bells c b r' (c_show c)))).
(* execution_context.cpp:69-89 expected_length; an int made a size_t *)
Definition size_of (z : Z) : nat := Z.to_nat (z mod 18446744073709551616).
Definition as_signed (z : Z) : Z := let m := (z mod 18446744073709551616)%Z in if (m <=? ll_max)%Z then m else (m - 18446744073709551616)%Z.
Definition min_name : text := str "min_length".
Definition max_name : text := str "max_length".
Definition set_length (a b : Z) (w : world) : world :=
  let t := if negb ((a mod 18446744073709551616 =? 0) || (b mod 18446744073709551616 =? 0))%Z
           then sym_define (sym_define (syms w) min_name (EInt (as_signed a))) max_name (EInt (as_signed b))
           else sym_undefine (sym_undefine (syms w) min_name) max_name in
  set_syms (set_c w (with_length (w_c w) (size_of a) (size_of b))) t.
(* execution_context.cpp:138-147 define_symbol is ectx_define (M_Gsiril); 125-136 default_define_symbol *)
Definition isnop (o : option expr) : bool := match o with None | Some ENop => true | _ => false end.
Definition default_define (t : symbols) (n : text) (v : expr) : symbols :=
  if isnop (sym_lookup t n) then
    let t' := sym_define t n v in
    match sym_lookup t' first_name with Some _ => t' | None => sym_define t' first_name v end
  else t.
(* An expression evaluated in a new proof context; a break or an abort is caught by main only.
   silence: set_silent first. *)
Definition consult {A} (silence : option bool) (q : ask A) (w : world) : outcome (A * world) :=
  x <- new_ctx (w_c w) ;;
  '(s, v) <- gs_run (w_c w) fuel q (mkSt (match silence with Some b => set_silent x b | None => x end) (w_g w)) ;;
  match v with inl a => Ret (a, set_g w (s_g s)) | inr _ => Throw LogicError end.

(* What a statement does: the world afterwards, or the status with which the program exits. *)
Definition res := outcome (world + nat).
Definition after_that (r : res) (k : world -> res) : res :=
  match r with Ret (inl w) => k w | _ => r end.
Definition ok (w : world) : res := Ret (inl w).
(* the statements which have no others in them *)
Definition exec_plain (s : stmt) (w : world) : res :=
  match s with
  | SNull => ok w
  | SBells n =>                                                                     (* 155-168 *)
    if (256 <? n)%Z || (n <=? 1)%Z then Throw InvalidArgument else w' <- set_bells (Z.to_nat n) w ;; ok w'
  | SExtents n => ok (set_c w (with_extents (w_c w) n))                             (* 147-153 *)
  | SRows a b => ok (set_length a b w)                                              (* 170-180 *)
  | SRounds r => ok (set_c w (with_rounds (w_c w) r))                               (* 182-188 *)
  | SMask m =>                                                                      (* 190-203 *)
    if c_bells (w_c w) =? 0 then Throw InvalidArgument
    else if c_everyrow_only (w_c w) then ok w
    else _ <- l_regex (lib_lits B (c_bells (w_c w))) m ;;
         ok (define_line (set_mask w m))
  | SProve e =>                                                                     (* 86-145 *)
    if o_prove_one opt && w_done w then Throw InvalidArgument
    else '(v, f, _, g) <- prove_stmt (w_c w) fuel e (w_g w) ;;
         ok (set_proved w g f e v)
  | SEcho m e =>                                                                    (* 258-276 *)
    '((t, nonl), w') <- consult (if (c_quiet (w_c w) <? 2)%Z || match m with MEcho => false | _ => true end then Some false else None) (QStr e) w ;;
    let t := if nonl : bool then t else t ++ [nl] in
    match m with
    | MEcho => ok (say w' t)
    | MWarn => ok (warn w' t)
    | MError => Ret (inr 1)
    end
  | SMusic es =>                                                                    (* 278-284 *)
    '(sc, g) <- lib_music B (w_c w) (w_g w) es ;; ok (set_c (set_g w g) (with_score (w_c w) sc))
  | SDef n e => ok (set_syms w (ectx_define (syms w) n e))                          (* 33-51 *)
  | SDefault n e => ok (set_syms w (default_define (syms w) n e))                   (* 53-62 *)
  | SImm n e => '(v, w') <- consult None (QEval e) w ;; ok (set_syms w' (ectx_define (syms w') n v))   (* 64-77 *)
  | SNone | SImport _ | SIf _ | SForeach _ _ _ => UB                                (* see exec_step *)
  end.
(* 222-231: what an import puts back *)
Definition restore (w w' : world) : outcome world :=
  w2 <- (if 0 <? c_bells (w_c w) then set_bells (c_bells (w_c w)) w' else Ret w') ;;
  Ret (set_syms w2 (match sym_lookup (syms w) first_name with
                    | None => sym_undefine (syms w2) first_name
                    | Some v => ectx_define (syms w2) first_name v
                    end)).
Section Rec.
Variable rec : stmt -> world -> res.                        (* statement::execute *)
Variable run : text -> world -> res.                        (* parser::run on the text of a file *)
Fixpoint exec_all (ss : list stmt) (w : world) : res :=     (* compound_stmt, statement.cpp:286-290 *)
  match ss with [] => ok w | s :: ss => after_that (rec s w) (exec_all ss) end.
(* 296-303 if_stmt; execution_context.cpp:156-160 evaluate_bool_const *)
Fixpoint exec_if (alts : list (expr * list stmt)) (w : world) : res :=
  match alts with
  | [] => ok w
  | (e, b) :: alts =>
    '(v, w') <- consult (Some true) (QBool e) w ;;
    if v : bool then exec_all b w' else exec_if alts w'
  end.
(* 305-314 foreach_stmt *)
Fixpoint exec_each (n : text) (es : list expr) (b : list stmt) (w : world) : res :=
  match es with
  | [] => ok w
  | e :: es => after_that (exec_all b (set_syms w (ectx_define (syms w) n e))) (exec_each n es b)
  end.
(* 205-250 import_stmt; an exception ends the program, so that what is restored then does not
   matter *)
Definition exec_import (f : text) (w : world) : res :=
  match lib_file B f with
  | None => Throw InvalidArgument
  | Some s =>
    after_that (run s w) (fun w' => w2 <- restore w w' ;; ok w2)
  end.
Definition exec_step (s : stmt) (w : world) : res :=
  match s with
  | SNone => UB                                                                     (* a null pointer *)
  | SImport f => exec_import f w
  | SIf alts => exec_if alts w
  | SForeach n e b => '(es, w') <- consult None (QArr e) w ;; exec_each n es b w'
  | _ => exec_plain s w
  end.
End Rec.

(* parser.cpp:1024-1055 parser::run with the errors fatal or propagated, from the current token on;
   the statements executed are counted *)
Fixpoint run_tokens (exec : stmt -> world -> res) (bad : bool) (n : nat) (ts : list token) (w : world) (count : nat) : outcome (world * nat + nat) :=
  match n with O => Diverge | S n =>
  let '(ts', o) := parse (c_msiril (w_c w)) bad (o_no_import opt) (c_sym (w_c w)) (lib_lits B (c_bells (w_c w))) ts in
  s <- o ;;
  match s with
  | SNone => Ret (inl (w, count))
  | _ => r <- exec s w ;;
         match r with inl w' => run_tokens exec bad n ts' w' (S count) | inr k => Ret (inr k) end
  end end.
(* a parser reads its first token when it is made (parser.cpp:248-251) *)
Definition run_text (exec : stmt -> world -> res) (s : text) (w : world) : outcome (world * nat + nat) :=
  '(ts, bad) <- lex (c_msiril (w_c w)) (o_ci opt) s ;;
  match ts, bad with [], true => Throw BellInvalid | _, _ => run_tokens exec bad (S (S (length ts))) ts w 0 end.
Definition file (exec : stmt -> world -> res) (s : text) (w : world) : res :=
  r <- run_text exec s w ;; Ret (match r with inl (w', _) => inl w' | inr k => inr k end).
Fixpoint exec_f (depth : nat) (s : stmt) (w : world) : res :=
  match depth with O => Diverge | S depth => exec_step (exec_f depth) (file (exec_f depth)) s w end.

(* main.cpp:159-192 prove_first_symbol: parser p("prove " + prove_symbol); exit(3) if there is more than one
   statement *)
Definition prove_symbol (depth : nat) (w : world) : res :=
  let first := list_ascii_eqb (o_prove opt) first_name in
  if negb first || negb (w_done w) && match sym_lookup (syms w) first_name with Some _ => true | None => false end then
    '(ts, bad) <- lex (c_msiril (w_c w)) (o_ci opt) (str "prove " ++ o_prove opt) ;;
    let p := parse (c_msiril (w_c w)) bad (o_no_import opt) (c_sym (w_c w)) (lib_lits B (c_bells (w_c w))) in
    let '(ts1, o1) := p ts in
    s <- o1 ;;
    let '(_, o2) := p ts1 in
    s2 <- o2 ;;
    match s2 with SNone => exec_f depth s w | _ => Ret (inr 3) end
  else ok w.
(* main.cpp:194-217 prove_stream and the status that main returns (300-332); an exception gives 2 *)
Definition gsiril (depth : nat) (s : text) (w : world) : outcome (nat * option world) :=
  match
    r <- run_text (exec_f depth) s (set_failed w false) ;;
    match r with
    | inr k => Ret (inr k)
    | inl (w1, n) =>
      after_that (if (0 <? n) && negb (match o_prove opt with [] => true | _ => false end) then prove_symbol depth w1 else ok w1) (fun w2 =>
      if o_prove_one opt && negb (w_done w2) then Ret (inr 2) else ok w2)
    end
  with
  | Ret (inl w2) => Ret (if w_failed w2 then 1 else 0, Some w2)
  | Ret (inr k) => Ret (k, None)
  | Throw _ => Ret (2, None)
  | UB => UB
  | Diverge => Diverge
  end.
End Exec.
