(* M_RowCalc.v - model of apps/utils/row_calc.cpp and apps/rowcalc: the calculator for rows.
   Commands and files as sources of rows ($(...) and <(...)) are not modelled. *)
From Verif Require Import Base M_Bell M_Change M_Row M_Group.
Set Implicit Arguments. Unset Strict Implicit.
Open Scope nat_scope.

Inductive mult_op := Times | Divide | Ldivide.
(* row_calc.cpp:208-435: the classes of nodes with the state they keep: an iterator is the number of
   elements it has passed *)
Inductive node :=
| NInt (i : Z)
| NRow (r : row)
| NSet (l : list node) (started : bool) (i : nat)
| NGroup (gens : node) (started : bool) (g : list row) (i : nat)
| NDiff (lhs rhs : node) (started : bool) (exclude : list row)
| NMult (op : mult_op) (lhs rhs : node) (l r : row)
| NExp (lhs rhs : node) (r l : row).

(* row_calc.cpp:216, 258-259, 292-293, 318, 334, 349-357, 404: count_vectors *)
Fixpoint count_vectors (n : node) : nat :=
  match n with
  | NInt _ | NRow _ => 0
  | NSet l _ _ => S (length (filter (fun x => negb (count_vectors x =? 0)) l))
  | NGroup gens _ _ _ => count_vectors gens
  | NDiff lhs _ _ _ => count_vectors lhs
  | NMult _ lhs rhs _ _ | NExp lhs rhs _ _ => count_vectors lhs + count_vectors rhs
  end.
(* row_calc.cpp:215, 257, 291, 317, 333, 348, 403: restart *)
Fixpoint restart (n : node) : node :=
  match n with
  | NInt i => NInt i
  | NRow r => NRow r
  | NSet l _ i => NSet l false i
  | NGroup gens _ g i => NGroup (restart gens) false g i
  | NDiff lhs rhs s ex => NDiff (restart lhs) rhs s ex
  | NMult op lhs rhs l r => NMult op (restart lhs) (restart rhs) l r
  | NExp lhs rhs r l => NExp (restart lhs) rhs r l
  end.
(* bells() == 0 *)
Definition is_empty {A} (l : list A) : bool := match l with [] => true | _ => false end.

Section Eval.
Variable sym : symtab.
(* evaluate() of the nodes below; None: vector_end is thrown *)
Variable rec : node -> outcome (option row * node).

(* row_calc.cpp:173-206 evaluate_binary_arguments, as it is called: (lhs, l) are its parameters
   (rhs, r) and (rhs, r) its (lhs, l).  Nothing here reads standard input. *)
Fixpoint cross_f (fuel : nat) (lhs : node) (l : row) (rhs : node) (r : row) : outcome (bool * (node * row * node * row)) :=
  match fuel with
  | O => Diverge
  | S fuel =>
    '(o, rhs) <- (if is_empty r then rec rhs else Ret (Some r, rhs)) ;;
    match o with
    | None => Ret (false, (lhs, l, rhs, r))
    | Some r =>
      '(o, lhs) <- rec lhs ;;
      match o with
      | None => cross_f fuel (restart lhs) l rhs []
      | Some l => if is_empty r then cross_f fuel lhs l rhs r else Ret (true, (lhs, l, rhs, r))
      end
    end
  end.
Definition binary_arguments (fuel : nat) (lhs : node) (l : row) (rhs : node) (r : row) : outcome (bool * (node * row * node * row)) :=
  if (count_vectors rhs =? 0) || (count_vectors lhs =? 0) then
    '(o, rhs) <- rec rhs ;;
    match o with
    | None => Ret (false, (lhs, l, rhs, r))
    | Some r =>
      '(o, lhs) <- rec lhs ;;
      match o with None => Ret (false, (lhs, l, rhs, r)) | Some l => Ret (true, (lhs, l, rhs, r)) end
    end
  else cross_f fuel lhs l rhs r.
(* row_calc.cpp:225-230, 413-417: all the rows, up to vector_end *)
Fixpoint drain (fuel : nat) (n : node) : outcome (list row * node) :=
  match fuel with
  | O => Diverge
  | S fuel => '(o, n) <- rec n ;;
    match o with None => Ret ([], n) | Some r => '(rs, n) <- drain fuel n ;; Ret (r :: rs, n) end
  end.
Definition excluded (ex : list row) (r : row) : bool := existsb (row_eqb r) ex.
(* row_calc.cpp:236-240; the set of rows is kept as a list *)
Fixpoint skip_f (fuel : nat) (lhs : node) (ex : list row) : outcome (option row * node) :=
  match fuel with
  | O => Diverge
  | S fuel => '(o, lhs) <- rec lhs ;;
    match o with
    | None => Ret (None, lhs)
    | Some r => if negb (count_vectors lhs =? 0) && excluded ex r then skip_f fuel lhs ex
                else Ret (if excluded ex r then None else Some r, lhs)
    end
  end.
(* row_calc.cpp:372-390 set_node::evaluate, from iterator i: where an element which is not a vector throws
   vector_end the iterator has been moved on *)
Fixpoint set_next (fuel : nat) (l : list node) (i : nat) : outcome (option row * (list node * nat)) :=
  match fuel with
  | O => Diverge
  | S fuel =>
    match nth_error l i with
    | None => Ret (None, (l, i))
    | Some x =>
      '(o, x') <- rec x ;; l' <- vset l i x' ;;
      if count_vectors x =? 0 then Ret (o, (l', S i))
      else match o with Some r => Ret (Some r, (l', i)) | None => set_next fuel l' (S i) end
    end
  end.
(* row_calc.cpp:268-275 *)
Definition multiply (op : mult_op) (l r : row) : outcome row :=
  match op with
  | Times => mul l r
  | Divide => i <- inverse r ;; mul l i
  | Ldivide => i <- inverse l ;; mul i r
  end.
(* evaluate() of each class: 222-242, 265-277, 299-306, 871-874 (abort), 338, 372-390, 409-428 *)
Definition eval_step (fuel : nat) (n : node) : outcome (option row * node) :=
  match n with
  | NInt _ => UB
  | NRow r => Ret (Some r, n)
  | NSet l started i =>
    '(o, (l, i)) <- set_next (S (length l)) l (if started : bool then i else 0) ;; Ret (o, NSet l true i)
  | NGroup gens started g i =>
    '(gens, g, i) <- (if started : bool then Ret (gens, g, i)
                      else '(gs, gens) <- drain fuel gens ;; G <- group_of fuel gs ;; Ret (gens, gv G, 0)) ;;
    match nth_error g i with Some r => Ret (Some r, NGroup gens true g (S i)) | None => Ret (None, NGroup gens true g i) end
  | NDiff lhs rhs started ex =>
    '(b, rhs, ex) <- (if started : bool then Ret (true, rhs, ex)
                      else if negb (count_vectors rhs =? 0) then '(rs, rhs) <- drain fuel rhs ;; Ret (true, rhs, rs)
                      else '(o, rhs) <- rec rhs ;; match o with Some r => Ret (true, rhs, [r]) | None => Ret (false, rhs, []) end) ;;
    if negb b then Ret (None, NDiff lhs rhs false ex)
    else '(o, lhs) <- skip_f fuel lhs ex ;; Ret (o, NDiff lhs rhs true ex)
  | NMult op lhs rhs l r =>
    '(b, (lhs, l, rhs, r)) <- binary_arguments fuel lhs l rhs r ;;
    if b : bool then v <- multiply op l r ;; Ret (Some v, NMult op lhs rhs l r) else Ret (None, NMult op lhs rhs l r)
  | NExp lhs rhs r l =>
    match rhs with
    | NInt z => '(o, lhs) <- rec lhs ;;
      match o with Some x => v <- power sym x z ;; Ret (Some v, NExp lhs rhs r l) | None => Ret (None, NExp lhs rhs r l) end
    | _ =>
      '(b, (lhs, l, rhs, r)) <- binary_arguments fuel lhs l rhs r ;;
      if b : bool then i <- inverse r ;; p <- mul i l ;; v <- mul p r ;; Ret (Some v, NExp lhs rhs r l) else Ret (None, NExp lhs rhs r l)
    end
  end.
End Eval.
Fixpoint ev (sym : symtab) (fuel : nat) (n : node) : outcome (option row * node) :=
  match fuel with O => Diverge | S fuel => eval_step sym (ev sym fuel) fuel n end.

(* row_calc.h:32-37 flags *)
Record flags := mkFlags { f_treble : bool; f_promote : bool; f_changes : bool }.
(* row_calc.cpp:891-896 *)
Definition fit (f : flags) (bells : nat) (v : row) : outcome row :=
  if bells =? 0 then Ret v
  else if f_promote f then resize v bells
  else if length v =? bells then Ret v else Throw RowInvalid.
(* row_calc.cpp:881-897 const_iterator::increment, and the loop over the iterators (rowcalc.cpp:137-141);
   val is the value of the iterator, if it has been incremented; the rows written before an exception are lost *)
Fixpoint calc_f (sym : symtab) (f : flags) (bells : nat) (k fuel : nat) (n : node) (val : row) : outcome (list row) :=
  match k with
  | O => Diverge
  | S k =>
    if (count_vectors n =? 0) && negb (is_empty val) then Ret []
    else
      '(o, n) <- ev sym fuel n ;;
      match o with
      | None => Ret []
      | Some v => v <- fit f bells v ;; rs <- calc_f sym f bells k fuel n v ;; Ret (v :: rs)
      end
  end.
Definition calc (sym : symtab) (f : flags) (bells fuel : nat) (n : node) : outcome (list row) := calc_f sym f bells fuel fuel n [].

(* What the parser builds; init: the nodes as their constructors make them (row_calc.cpp:210, 251, 286, 314, 330, 345, 399). *)
Inductive cexpr :=
| CInt (z : Z) | CRow (r : row) | CSet (es : list cexpr) | CGroup (es : list cexpr)
| CDiff (a b : cexpr) | CMult (op : mult_op) (a b : cexpr) | CExp (a b : cexpr).
Fixpoint init (e : cexpr) : node :=
  match e with
  | CInt z => NInt z
  | CRow r => NRow r
  | CSet es => NSet (map init es) false 0
  | CGroup es => NGroup (NSet (map init es) false 0) false [] 0
  | CDiff a b => NDiff (init a) (init b) false []
  | CMult op a b => NMult op (init a) (init b) [] []
  | CExp a b => NExp (init a) (init b) [] []
  end.
