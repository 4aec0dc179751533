(* M_Proof.v - model of ringing/proof.{h,cpp}. *)
From Verif Require Import Base M_Row.

(* The multimap<row,int> of a prover: entries (row, line), with equal rows kept
   newest first, because the hint given to insert (proof.cpp:83-86) is the
   position before the range of equal rows.  Rows compare equal iff they are
   equal vectors. *)
Definition mmap := list (row * Z).
Definition rq (a b : row) : bool := row_eqb a b.
(* multimap::equal_range *)
Definition mrange (m : mmap) (r : row) : mmap := filter (fun e => rq (fst e) r) m.
(* m.erase(prior(rng.second)): the last entry equal to r *)
Fixpoint erase_last (m : mmap) (r : row) : mmap :=
  match m with
  | [] => []
  | e :: t => if rq (fst e) r && (match mrange t r with [] => true | _ => false end)
              then t else e :: erase_last t r
  end.

(* proof.h:52-57 linedetail; proof.h:62 failinfo *)
Definition failinfo := list (row * list Z).

(* One prover object, proof.h:104-111, without its chain pointer.  The counters
   are mathematical integers (a size_t does not wrap before memory runs out). *)
Record node := mkNode { n_m : mmap; n_lineno : Z; n_falsec : Z; n_dups : Z }.

(* A prover and the provers it is chained to, and the shared failinfo, if any.
   max_occurs is copied along the chain by create_branch. *)
Record prover := mkProver { p_head : node; p_chain : list node; p_max : Z; p_fi : option failinfo }.

(* proof.h:66-74 the constructors *)
Definition prover_new (max : Z) (fi : option failinfo) : prover :=
  mkProver (mkNode [] 0 0 0) [] max fi.

Definition p_nodes (p : prover) : list node := p_head p :: p_chain p.

(* proof.cpp:38-49 count_row *)
Definition count_row (p : prover) (r : row) : nat :=
  fold_left (fun n nd => n + length (mrange (n_m nd) r)) (p_nodes p) 0.
(* proof.cpp:51-56 size *)
Definition p_size (p : prover) : nat :=
  fold_left (fun n nd => n + length (n_m nd)) (p_nodes p) 0.
(* proof.h:92 duplicates *)
Definition duplicates (p : prover) : Z := n_dups (p_head p).
(* proof.h:94 truth *)
Definition truth (p : prover) : bool := (n_falsec (p_head p) =? 0)%Z.

(* proof.cpp:100-105: the entry of r in the failinfo, if there is one, gets the line *)
Fixpoint fi_append (fi : failinfo) (r : row) (line : Z) : option failinfo :=
  match fi with
  | [] => None
  | (r', ls) :: t => if rq r' r then Some ((r', ls ++ [line]) :: t)
                     else match fi_append t r line with Some t' => Some ((r', ls) :: t') | None => None end
  end.

(* proof.cpp:59-130 add_row: the new prover and the returned truth value *)
Definition add_row (p : prover) (r : row) : prover * bool :=
  let h := p_head p in
  let n := 1 + count_row p r in                                        (* 73-79 *)
  let rng := mrange (n_m h) r in
  let line := (n_lineno h + 1)%Z in
  let m' := (r, line) :: n_m h in                                      (* 83-85 *)
  let dups' := if 1 <? n then (n_dups h + 1)%Z else n_dups h in        (* 87-88 *)
  if negb (p_max p =? -1)%Z && (p_max p <? Z.of_nat n)%Z then          (* 90 *)
    let h' := mkNode m' line (n_falsec h + 1) dups' in
    match p_fi p with
    | Some fi =>
      let fi' := match fi_append fi r line with
                 | Some fi' => fi'
                 | None => fi ++ [(r, map snd rng ++ [line])]          (* 107-125 *)
                 end in
      (mkProver h' (p_chain p) (p_max p) (Some fi'), false)
    | None => let p' := mkProver h' (p_chain p) (p_max p) None in (p', truth p')
    end
  else
    let p' := mkProver (mkNode m' line (n_falsec h) dups') (p_chain p) (p_max p) (p_fi p) in
    (p', truth p').

(* proof.cpp:165-171: the last line of the entry of r goes, and an empty entry too *)
Fixpoint fi_pop (fi : failinfo) (r : row) : failinfo :=
  match fi with
  | [] => []
  | (r', ls) :: t =>
    if rq r' r then match removelast ls with [] => t | ls' => (r', ls') :: t end
    else (r', ls) :: fi_pop t r
  end.

(* proof.cpp:133-174 remove_row *)
Definition remove_row (p : prover) (r : row) : outcome prover :=
  let h := p_head p in
  let n := count_row p r in
  if n =? 0 then Throw LogicError else
  match mrange (n_m h) r with
  | [] => Throw LogicError
  | _ :: _ =>
    let m' := erase_last (n_m h) r in
    let dups' := if 1 <? n then (n_dups h - 1)%Z else n_dups h in
    if negb (p_max p =? -1)%Z && (p_max p <? Z.of_nat n)%Z then
      Ret (mkProver (mkNode m' (n_lineno h - 1) (n_falsec h - 1) dups') (p_chain p) (p_max p)
             (match p_fi p with Some fi => Some (fi_pop fi r) | None => None end))
    else Ret (mkProver (mkNode m' (n_lineno h - 1) (n_falsec h) dups') (p_chain p) (p_max p) (p_fi p))
  end.

(* proof.cpp:176-187 create_branch.  falsec is not copied. *)
Definition create_branch (p : prover) : prover :=
  mkProver (mkNode [] (n_lineno (p_head p)) 0 (n_dups (p_head p))) (p_nodes p) (p_max p) (p_fi p).

(* proof.h:231-236: one of the two loops of proof::prove *)
Fixpoint prove_loop (qp : bool) (rows : list row) (st : prover * bool) : prover * bool :=
  match rows with
  | [] => st
  | r :: t =>
    let '(p, ok) := st in
    if negb qp || ok then
      prove_loop qp t (if ok then add_row p r else st)
    else st
  end.
(* proof.h:220-238 proof::prove: returns istrue and the failinfo of the caller *)
Definition prove (tr un : list row) (max : Z) (qp : bool) (fi0 : failinfo) : bool * failinfo :=
  let p := prover_new max (if qp then None else Some fi0) in
  let '(p, ok) := prove_loop qp un (prove_loop qp tr (p, true)) in
  (ok, match p_fi p with Some fi => fi | None => fi0 end).
