(* Spec_RowParse2.v - a way to write each expression of the row calculator. *)
From Verif Require Import Base M_Bell M_Row M_Dim M_RowCalc Spec_Row.
Set Implicit Arguments. Unset Strict Implicit.
Open Scope nat_scope.

Fixpoint commas (l : list (list ascii)) : list ascii :=
  match l with [] => [] | [s] => s | s :: l => s ++ chr "," :: commas l end.
Definition par (s : list ascii) : list ascii := chr "(" :: s ++ [chr ")"].
Definition op_char (op : mult_op) : ascii := match op with Times => chr "*" | Divide => chr "/" | Ldivide => chr "\" end.
Fixpoint show (e : cexpr) : list ascii :=
  match e with
  | CInt z => chr "+" :: print_int z
  | CRow r => row_print default_symtab r
  | CSet es => chr "{" :: commas (map show es) ++ [chr "}"]
  | CGroup es => chr "<" :: chr " " :: commas (map show es) ++ [chr ">"]
  | CDiff a b => par (show a) ++ chr "-" :: par (show b)
  | CMult op a b => par (show a) ++ op_char op :: par (show b)
  | CExp a b => par (show a) ++ chr "^" :: match b with CInt _ => show b | _ => par (show b) end
  end.
(* The expressions that can be written: no set or group is without elements, integers are exponents and are
   not negative, and the rows are of at most 33 bells; of the number given, where rows are not to be extended. *)
Fixpoint writable (promote : bool) (bells : nat) (e : cexpr) : Prop :=
  match e with
  | CInt _ => False
  | CRow r => row256 r /\ r <> [] /\ length r <= 33 /\ (promote = true \/ length r = bells)
  | CSet es | CGroup es => es <> [] /\ Forall id (map (writable promote bells) es)
  | CDiff a b | CMult _ a b => writable promote bells a /\ writable promote bells b
  | CExp a b => writable promote bells a /\ match b with CInt z => (0 <= z <= int_max)%Z | _ => writable promote bells b end
  end.
