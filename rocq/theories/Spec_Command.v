(* Spec_Command.v - how the commands of gsiril are laid out. *)
From Verif Require Import Base M_Bell M_Gsiril M_Parser.
Set Implicit Arguments. Unset Strict Implicit.
Open Scope nat_scope.

(* Does more have to come?  At the start of a command, after a comma and after a dot. *)
Definition open_ended (last : option token) : Prop :=
  match last with None => True | Some t => tk t = KComma \/ tk t = KAppend end.
Definition nested (n : nat) (t : token) : nat :=
  match tk t with KOParen | KOBrace | KOBrack => S n | KCParen | KCBrace | KCBrack => n - 1 | _ => n end.
(* lay ok eof n last c ts: the tokens ts are a way of laying out the rest c of a command, n brackets
   deep and after the token last: a comment may be anywhere, a new line inside brackets, and new
   lines and semicolons where more has to come.  Where nothing but the end of the input
   follows (eof) the command may end in a dot, or have nothing in it. *)
Inductive lay (ok : token -> bool) (eof : bool) : nat -> option token -> list token -> list token -> Prop :=
| lay_end last : (eof = false -> ~ open_ended last) -> (forall t, last = Some t -> tk t <> KComma) -> lay ok eof 0 last [] []
| lay_token n last t c ts : ok t = true -> tk t <> KNewLine -> tk t <> KComment -> (n = 0 -> tk t <> KSemi) ->
    lay ok eof (nested n t) (Some t) c ts -> lay ok eof n last (t :: c) (t :: ts)
| lay_comment n last t c ts : tk t = KComment -> lay ok eof n last c ts -> lay ok eof n last c (t :: ts)
| lay_newline n last t c ts : n > 0 -> tk t = KNewLine -> lay ok eof n last c ts -> lay ok eof n last c (t :: ts)
| lay_more last t c ts : open_ended last -> tk t = KNewLine \/ tk t = KSemi -> lay ok eof 0 last c ts -> lay ok eof 0 last c (t :: ts).

(* A new line or a semicolon ends a command. *)
Inductive program (ok : token -> bool) : list (list token) -> list token -> Prop :=
| pr_end ts : lay ok true 0 None [] ts -> program ok [] ts
| pr_last c ts : c <> [] -> lay ok true 0 None c ts -> program ok [c] ts
| pr_more c ts t us cs : c <> [] -> lay ok false 0 None c ts -> tk t = KNewLine \/ tk t = KSemi -> program ok cs (t :: us) ->
    program ok (c :: cs) (ts ++ t :: us).

(* The tokens that may be used: not in MicroSiril, nor outside it. *)
Definition not_in_microsiril : list tt :=
  [KPlus; KMinus; KModulo; KAppend; KDivide; KMerge; KLsh; KRsh; KRegex; KAnd; KOr; KEq; KNe; KIncr; KDecr; KOBrack; KCBrack; KOdd].
Definition not_in_siril : list tt := [KCtrlZ; KOdd].
