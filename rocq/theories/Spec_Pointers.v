(* Spec_Pointers.v - what programs with shared_pointer and cow_pointer variables should do. *)
From Verif Require Import Base M_Pointers.

(* ---- shared_pointer: a variable is null or refers to an object; objects are
   numbered in order of creation, and carry the deletor they were given ---- *)
Definition aenv := env (option nat).
Definition refers (e : aenv) (o : nat) : Prop := exists v, In (v, Some o) e.
Definition refers_other (e : aenv) (v o : nat) : bool :=
  existsb (fun '(w, r) => negb (w =? v) && opt_eqb r (Some o)) e.
Definition aget (e : aenv) (v : nat) : option nat := match lookup e v with Some r => r | None => None end.

Definition astate := (aenv * list nat)%type.      (* variables; deletor of each object created *)
Definition a_step (st : astate) (o : sop) : astate :=
  let '(e, ds) := st in
  let n := length ds in
  match o with
  | SNew v d false => ((v, Some n) :: e, ds ++ [d])
  | SNew v d true => (e, ds ++ [d])               (* the object is created, and lost at once *)
  | SNull v | SDefault v => ((v, None) :: e, ds)
  | SCopy v w => ((v, aget e w) :: e, ds)
  | SAssign v w => (assign e v (aget e w), ds)
  | SSwap v w => (assign (assign e v (aget e w)) w (aget e v), ds)
  | SReset v false => (assign e v (Some n), ds ++ [0])
  | SReset v true =>                              (* fails if it needs memory: v keeps its object *)
    match aget e v with
    | Some x => if refers_other e v x then (e, ds ++ [0]) else (assign e v (Some n), ds ++ [0])
    | None => (e, ds ++ [0])
    end
  | SResetNull v => (assign e v None, ds)
  | SResetSame v => (e, ds)
  | SDestroy v => (drop e v, ds)
  end.
Definition defined {A} (e : env A) (v : nat) : Prop := lookup e v <> None.
(* the operations a program may do: construct new variables, use existing ones.  An
   allocation failure in reset is allowed only on a non-null pointer. *)
Definition a_ok (st : astate) (o : sop) : Prop :=
  let e := fst st in
  match o with
  | SNew v _ _ | SNull v | SDefault v => ~ defined e v
  | SCopy v w => ~ defined e v /\ defined e w
  | SAssign v w | SSwap v w => defined e v /\ defined e w
  | SReset v false | SResetNull v | SResetSame v | SDestroy v => defined e v
  | SReset v true => aget e v <> None
  end.
Fixpoint a_run (st : astate) (ops : list sop) : astate :=
  match ops with [] => st | o :: t => a_run (a_step st o) t end.
Fixpoint a_program (st : astate) (ops : list sop) : Prop :=
  match ops with [] => True | o :: t => a_ok st o /\ a_program (a_step st o) t end.

(* ---- cow_pointer: every variable has its own value ---- *)
Definition vstate := env (option nat).            (* null or the value *)
Definition v_step (e : vstate) (o : cop) : vstate :=
  match o with
  | CNew v x => (v, Some x) :: e
  | CNull v => (v, None) :: e
  | CCopy v w => (v, aget e w) :: e
  | CAssign v w => assign e v (aget e w)
  | CSwap v w => assign (assign e v (aget e w)) w (aget e v)
  | CReset v x | CWrite v x => assign e v (Some x)
  | CResetNull v => assign e v None
  | CDestroy v => drop e v
  end.
Definition v_ok (e : vstate) (o : cop) : Prop :=
  match o with
  | CNew v _ | CNull v => ~ defined e v
  | CCopy v w => ~ defined e v /\ defined e w
  | CAssign v w | CSwap v w => defined e v /\ defined e w
  | CReset v _ | CResetNull v | CDestroy v => defined e v
  | CWrite v _ => aget e v <> None
  end.
Fixpoint v_run (e : vstate) (ops : list cop) : vstate :=
  match ops with [] => e | o :: t => v_run (v_step e o) t end.
Fixpoint v_program (e : vstate) (ops : list cop) : Prop :=
  match ops with [] => True | o :: t => v_ok e o /\ v_program (v_step e o) t end.
