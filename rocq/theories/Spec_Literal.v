(* Spec_Literal.v - bells counted from the back, ranges of bells, and what the literals of gsiril
   stand for. *)
From Verif Require Import Base M_Bell Spec_Dim Spec_Litelib Spec_Music.
Set Implicit Arguments. Unset Strict Implicit.
Open Scope nat_scope.

(* What may be written in braces: N, N-k or k, for the bell whose number is z.  (int_text: an
   integer, with spaces around it.) *)
Inductive bell_expr (n : nat) : list ascii -> Z -> Prop :=
| be_tenor w w' : all_space w -> all_space w' -> bell_expr n (w ++ chr "N" :: w') (Z.of_nat n)
| be_minus w w' t k : all_space w -> all_space w' -> int_text t k -> bell_expr n (w ++ chr "N" :: w' ++ chr "-" :: t) (Z.of_nat n - k)
| be_number t z : int_text t z -> bell_expr n t z.
(* The bell whose number is z, counting from 1: bells are kept in eight bits. *)
Definition numbered (z : Z) : nat := Z.to_nat ((z - 1) mod 256).
Definition in_int (z : Z) : Prop := (int_min <= z <= int_max)%Z.
Definition in_braces (x t : list ascii) : list ascii := chr "{" :: x ++ chr "}" :: t.

Section Expanding.
Variables (sym : symtab) (n : nat).
(* the text with the braces replaced by the bells *)
Inductive expands : list ascii -> list ascii -> Prop :=
| ex_end : expands [] []
| ex_char c s t : c <> chr "{" -> expands s t -> expands (c :: s) (c :: t)
| ex_braces x z s t : ~ In (chr "{") x -> ~ In (chr "}") x -> bell_expr n x z -> in_int z -> in_int (z - 1) -> expands s t ->
    expands (in_braces x s) (print_bell sym (numbered z) ++ t).

(* the bells from a to b, without a and b *)
Definition gap (a b : nat) (l : list nat) : Prop :=
  (a < b /\ l = seq (a + 1) (b - a - 1)) \/ (b < a /\ l = rev (seq (b + 1) (a - b - 1))) \/ (a = b /\ l = []).
(* a range begins: something precedes, and two dots and something more follow *)
Definition range_here (prev : option ascii) (s : list ascii) : Prop :=
  prev <> None /\ exists c t, s = chr "." :: chr "." :: c :: t.
(* the text with the gaps of the ranges filled *)
Inductive filled : option ascii -> list ascii -> list ascii -> Prop :=
| fi_end prev : filled prev [] []
| fi_range a c s t x y l : read_char sym a = Ret x -> read_char sym c = Ret y -> gap x y l -> filled (Some (chr ".")) (c :: s) t ->
    filled (Some a) (chr "." :: chr "." :: c :: s) (concat (map (print_bell sym) l) ++ t)
| fi_char prev c s t : ~ range_here prev (c :: s) -> filled (Some c) s t -> filled prev (c :: s) (c :: t).

(* what a literal is read as *)
Definition read_as (s t : list ascii) : Prop := exists u, expands s u /\ filled None u t.
(* no number in the braces leaves the range of an int *)
Definition sane (s : list ascii) : Prop :=
  forall a x b z, s = a ++ in_braces x b -> ~ In (chr "{") x -> ~ In (chr "}") x -> bell_expr n x z -> in_int z /\ in_int (z - 1).
End Expanding.

(* The bells named in a pattern are among the first n, and written with their own symbols. *)
Definition spelled (n : nat) (p : pattern) : Prop :=
  forall t c, In t p -> In c (named_in t) -> exists b, b < n /\ b < 33 /\ c = to_char default_symtab b.
