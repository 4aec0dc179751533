(* Spec_Session.v - what the proofs and the definitions of a gsiril session amount to. *)
From Verif Require Import Base M_Bell M_Row M_Gsiril M_Statement.
Set Implicit Arguments. Unset Strict Implicit.
Open Scope nat_scope.

(* a proof which does not count as a failure *)
Definition fine (en : entry) : Prop := en_v en = VTrue \/ en_v en = VStopped.
(* the record of a proof is of a proof that took place, with that verdict *)
Definition real (fuel : nat) (en : entry) : Prop :=
  exists fl x g, prove_stmt (en_c en) fuel (en_e en) (en_g en) = Ret (en_v en, fl, x, g).

(* what n stands for after the definitions ss, if before it stood for o *)
Definition empty (o : option expr) : Prop := o = None \/ o = Some ENop.
Inductive stands (n : text) : option expr -> list stmt -> option expr -> Prop :=
| st_none o : stands n o [] o
| st_def e o ss o' : stands n (Some e) ss o' -> stands n o (SDef n e :: ss) o'
| st_default e o ss o' : empty o -> stands n (Some e) ss o' -> stands n o (SDefault n e :: ss) o'
| st_kept e o ss o' : ~ empty o -> stands n o ss o' -> stands n o (SDefault n e :: ss) o'
| st_other m e o ss o' : m <> n -> stands n o ss o' -> stands n o (SDef m e :: ss) o'
| st_other_default m e o ss o' : m <> n -> stands n o ss o' -> stands n o (SDefault m e :: ss) o'.
Definition definition (s : stmt) : Prop := match s with SDef _ _ | SDefault _ _ => True | _ => False end.
