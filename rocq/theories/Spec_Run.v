(* Spec_Run.v - what the statements of a gsiril script do, without depths: the order in which
   statements are carried out. *)
From Verif Require Import Base M_Bell M_Row M_Gsiril M_Parser M_Token M_Statement Spec_Statement.
Set Implicit Arguments. Unset Strict Implicit.
Open Scope nat_scope.

Section Run.
Variables (B : library) (opt : opts) (fuel : nat).
(* the commands cs are the statement s when they are reached in the world w: the literals in them
   are those on the number of bells there is then *)
Definition reads_as (w : world) (cs : list (list token)) (s : stmt) : Prop :=
  statement_of (negb (o_no_import opt)) (c_sym (w_c w)) (lib_lits B (c_bells (w_c w))) cs s.
Definition tested (e : expr) (w : world) (v : bool) (w' : world) : Prop := consult fuel (Some true) (QBool e) w = Ret (v, w').
Definition array_of (e : expr) (w : world) (es : list expr) (w' : world) : Prop := consult fuel None (QArr e) w = Ret (es, w').
Definition defines (n : text) (e : expr) (w : world) : world := set_syms w (ectx_define (syms w) n e).
Definition plain (s : stmt) : Prop :=
  match s with SNone | SImport _ | SIf _ | SForeach _ _ _ => False | _ => True end.
(* all the tests fail *)
Inductive refuses : list (expr * list stmt) -> world -> world -> Prop :=
| rf_none w : refuses [] w w
| rf_more e b alts w w1 w2 : tested e w false w1 -> refuses alts w1 w2 -> refuses ((e, b) :: alts) w w2.

(* does s w r: s carried out in the world w leads to another world, or ends the program with some
   status. *)
Inductive does : stmt -> world -> world + nat -> Prop :=
| d_plain s w r : plain s -> exec_plain B opt fuel s w = Ret r -> does s w r
(* the first alternative whose test succeeds, and no other *)
| d_if pre e b post w w1 w2 r : refuses pre w w1 -> tested e w1 true w2 -> does_all b w2 r -> does (SIf (pre ++ (e, b) :: post)) w r
| d_if_none alts w w1 : refuses alts w w1 -> does (SIf alts) w (inl w1)
| d_foreach n e b es w w1 r : array_of e w es w1 -> does_each n b es w1 r -> does (SForeach n e b) w r
| d_import f s ts bad k w w1 w2 : lib_file B f = Some s -> lex (c_msiril (w_c w)) (o_ci opt) s = Ret (ts, bad) -> (ts = [] -> bad = false) ->
    runs bad ts w 0 (inl (w1, k)) -> restore B w w1 = Ret w2 -> does (SImport f) w (inl w2)
| d_import_exit f s ts bad w k : lib_file B f = Some s -> lex (c_msiril (w_c w)) (o_ci opt) s = Ret (ts, bad) -> (ts = [] -> bad = false) ->
    runs bad ts w 0 (inr k) -> does (SImport f) w (inr k)
(* the statements of a block, one after another *)
with does_all : list stmt -> world -> world + nat -> Prop :=
| da_none w : does_all [] w (inl w)
| da_more s ss w w1 r : does s w (inl w1) -> does_all ss w1 r -> does_all (s :: ss) w r
| da_exit s ss w k : does s w (inr k) -> does_all (s :: ss) w (inr k)
(* the body of a loop, once for each element in order *)
with does_each : text -> list stmt -> list expr -> world -> world + nat -> Prop :=
| de_none n b w : does_each n b [] w (inl w)
| de_more n b e es w w1 r : does_all b (defines n e w) (inl w1) -> does_each n b es w1 r -> does_each n b (e :: es) w r
| de_exit n b e es w k : does_all b (defines n e w) (inr k) -> does_each n b (e :: es) w (inr k)
(* a script: statement by statement until it ends; k counts the statements *)
with runs : bool -> list token -> world -> nat -> world * nat + nat -> Prop :=
| r_eof bad ts us w k : command (c_msiril (w_c w)) bad true ts [] 0 = (us, Ret []) -> runs bad ts w k (inl (w, k))
| r_end bad ts us cs w k : splits (c_msiril (w_c w)) bad ts cs us -> reads_as w cs SNone -> runs bad ts w k (inl (w, k))
| r_more bad ts us cs s w w1 k r : splits (c_msiril (w_c w)) bad ts cs us -> reads_as w cs s -> s <> SNone ->
    does s w (inl w1) -> runs bad us w1 (S k) r -> runs bad ts w k r
| r_exit bad ts us cs s w n k : splits (c_msiril (w_c w)) bad ts cs us -> reads_as w cs s -> s <> SNone ->
    does s w (inr n) -> runs bad ts w k (inr n).
End Run.
Scheme does_ind2 := Induction for does Sort Prop
with does_all_ind2 := Induction for does_all Sort Prop
with does_each_ind2 := Induction for does_each Sort Prop
with runs_ind2 := Induction for runs Sort Prop.
Combined Scheme doing_ind from does_ind2, does_all_ind2, does_each_ind2, runs_ind2.
