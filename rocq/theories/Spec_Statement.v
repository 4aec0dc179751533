(* Spec_Statement.v - the statements of gsiril, as a user would write them down. *)
From Verif Require Import Base M_Bell M_Row M_Gsiril M_Parser Spec_Parser M_Token M_Statement.
Set Implicit Arguments. Unset Strict Implicit.
Open Scope nat_scope.

Section Spec.
(* what is an expression, and what is a list of expressions with commas between them; which text is which row *)
Variables (phrase : list token -> expr -> Prop) (listed : list token -> list expr -> Prop) (row_text : text -> row -> Prop).
Variable imports : bool.                                    (* may other files be imported? *)

Definition number (t : token) (z : Z) : Prop := tk t = KNum /\ num_value (tx t) = Ret z.
Definition one_of (l : list string) (t : token) : Prop := In (tx t) (map str l).
(* the value of a definition may be left out *)
Definition value (u : list token) (e : expr) : Prop := (u = [] /\ e = ENop) \/ (u <> [] /\ phrase u e).
Inductive says : token -> echo_mode -> Prop :=
| says_echo t : word "echo" t -> says t MEcho
| says_warn t : word "warn" t -> says t MWarn
| says_error t : word "error" t -> says t MError.
(* the names that cannot be defined by a statement *)
Definition definable (t : token) : Prop := tk t = KName /\ ~ one_of ["echo"; "warn"; "error"; "music"; "if"; "foreach"]%string t.

(* The statements of one command.  SNone is the end of the script. *)
Inductive simple : list token -> stmt -> Prop :=
| s_end t : one_of ["end"; "quit"; "exit"]%string t \/ tk t = KCtrlZ -> simple [t] SNone
| s_version t : word "version" t -> simple [t] SNull
| s_bells n t z : number n z -> word "bells" t -> simple [n; t] (SBells z)
| s_extents n t z : number n z -> word "extents" t -> simple [n; t] (SExtents z)
| s_rows n t z : number n z -> word "rows" t -> simple [n; t] (SRows z z)
| s_rounds t x r : word "rounds" t -> tk x = KTransp -> row_text (tx x) r -> simple [t; x] (SRounds r)
| s_mask t x : word "row_mask" t -> tk x = KRegex -> simple [t; x] (SMask (tx x))
| s_import t x : imports = true -> word "import" t -> tk x = KName \/ tk x = KString -> simple [t; x] (SImport (tx x))
| s_prove t x u e : word "prove" t -> ~ In (tk x) [KAssign; KImmAssign; KDefAssign] -> phrase (x :: u) e -> simple (t :: x :: u) (SProve e)
| s_say t m u e : says t m -> u <> [] -> phrase u e -> simple (t :: u) (SEcho m e)
| s_say_nothing t m : says t m -> simple [t] (SEcho m (EString [] false false false false))
| s_music t u es : word "music" t -> listed u es -> simple (t :: u) (SMusic es)
| s_def t x u e : definable t -> tk x = KAssign -> value u e -> simple (t :: x :: u) (SDef (tx t) e)
| s_default t x u e : definable t -> tk x = KDefAssign -> value u e -> simple (t :: x :: u) (SDefault (tx t) e)
| s_imm t x u e : definable t -> tk x = KImmAssign -> value u e -> simple (t :: x :: u) (SImm (tx t) e).

Definition elseif_first (cs : list (list token)) : Prop := exists t u cs', cs = (t :: u) :: cs' /\ word "elseif" t.
(* stmt_of cs s: the commands cs make up the statement s. *)
Inductive stmt_of : list (list token) -> stmt -> Prop :=
| so_simple c s : simple c s -> stmt_of [c] s
| so_if t u e cs alts : word "if" t -> u <> [] -> phrase u e -> clauses true e cs alts -> stmt_of ((t :: u) :: cs) (SIf alts)
| so_foreach t u e a n cs ss z : word "foreach" t -> phrase u e -> word "as" a -> tk n = KName ->
    block false cs ss -> word "endfor" z -> stmt_of ((t :: u ++ [a; n]) :: cs ++ [[z]]) (SForeach (tx n) e ss)
(* clauses more e cs alts: cs is what follows the condition e.  There can be more alternatives
   unless else has been. *)
with clauses : bool -> expr -> list (list token) -> list (expr * list stmt) -> Prop :=
| cl_endif more e cs ss z : block true cs ss -> word "endif" z -> clauses more e (cs ++ [[z]]) [(e, ss)]
| cl_elseif e cs ss z u e' cs' alts : block true cs ss -> word "elseif" z -> u <> [] -> phrase u e' -> clauses true e' cs' alts ->
    clauses true e (cs ++ (z :: u) :: cs') ((e, ss) :: alts)
| cl_else e cs ss z cs' alts : block true cs ss -> word "else" z -> clauses false (EBool true) cs' alts ->
    clauses true e (cs ++ [z] :: cs') ((e, ss) :: alts)
(* the statements of a block; nothing called elseif can be defined in an alternative of an if *)
with block : bool -> list (list token) -> list stmt -> Prop :=
| bl_none b : block b [] []
| bl_more b cs s cs' ss : (b = true -> ~ elseif_first cs) -> stmt_of cs s -> block b cs' ss -> block b (cs ++ cs') (s :: ss).
End Spec.
Scheme stmt_of_ind2 := Induction for stmt_of Sort Prop
with clauses_ind2 := Induction for clauses Sort Prop
with block_ind2 := Induction for block Sort Prop.
Combined Scheme statement_ind from stmt_of_ind2, clauses_ind2, block_ind2.

(* Expressions are what the parser of expressions takes for them (C64: the grammar says what). *)
Definition phrase (L : lits) (u : list token) (e : expr) : Prop := make_expr L u = Ret e.
Definition listed (L : lits) (u : list token) (es : list expr) : Prop := parse_list_f (make_expr L) (S (length u)) u = Ret es.
Definition row_text (sym : symtab) (t : text) (r : row) : Prop := row_of_string sym t = Ret r.
Definition statement_of (imports : bool) (sym : symtab) (L : lits) := stmt_of (phrase L) (listed L) (row_text sym) imports.

(* splits ts cs us: the tokens ts begin with the commands cs, and us are what is left (see C69) *)
Inductive splits (ms bad : bool) : list token -> list (list token) -> list token -> Prop :=
| sp_none ts : splits ms bad ts [] ts
| sp_more ts c us cs vs : command ms bad true ts [] 0 = (us, Ret c) -> c <> [] -> splits ms bad us cs vs -> splits ms bad ts (c :: cs) vs.
