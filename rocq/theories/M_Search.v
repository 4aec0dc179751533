(* M_Search.v - model of ringing/basic_search.{h,cpp} and search_base.{h,cpp}. *)
From Verif Require Import Base M_Bell M_Change M_Math M_Row M_Extent M_Group M_Touch M_PN M_Method M_False.
Open Scope nat_scope.

(* basic_search.h:46-66; the lengths are size_t *)
Record search := mkSearch { se_meth : method; se_calls : list change; se_min : Z; se_max : Z; se_ignore : bool }.
(* basic_search.cpp:39-45 *)
Definition search_make (m : method) (calls : list change) (ignore : bool) : search :=
  mkSearch m calls 0 18446744073709551615 ignore.

(* basic_search.cpp:222-232; t.get_node(2 * (1 + i)) is the i-th of nodes *)
Record context := mkCtx { cx_min : Z; cx_max : Z; cx_ignore : bool; cx_lhs : list row; cx_nodes : list node; cx_false : list row }.

(* basic_search.cpp:79-95 init_falseness *)
Fixpoint any_odd (sym : symtab) (l : list row) : outcome bool :=
  match l with
  | [] => Ret false
  | x :: l => s <- sign sym x ;; if (s =? -1)%Z then Ret true else any_odd sym l
  end.
Definition init_falseness (sym : symtab) (m : method) (lhs : list row) : outcome (list row) :=
  o <- any_odd sym lhs ;; if (o : bool) then falseness_method sym 0 m else falseness_method sym F_IN_COURSE m.
(* basic_search.cpp:97-110 init_call, lead being the changes of node 0 *)
Definition init_call (lead : list change) (le : row) (st : list row * list node) (ch : change) : outcome (list row * list node) :=
  r <- row_mul_change le ch ;;
  Ret (fst st ++ [r], snd st ++ [Children [(1%Z, Changes lead); (1%Z, Changes [ch])]]).
(* basic_search.cpp:58-76; end()-1 and back() of an empty method are undefined *)
Definition context_make (sym : symtab) (s : search) : outcome context :=
  match mch (se_meth s) with
  | [] => UB
  | c0 :: _ =>
    let lead := removelast (mch (se_meth s)) in
    le <- forM lead row_mul_change ([] : row) ;;
    st <- forM (last (mch (se_meth s)) c0 :: se_calls s) (init_call lead le) ([], []) ;;
    f <- init_falseness sym (se_meth s) (fst st) ;;
    Ret (mkCtx (se_min s) (se_max s) (se_ignore s) (fst st) (snd st) f)
  end.

(* basic_search.cpp:224, 227, 230: force_halt, the children of tl, leads; and the touches the
   outputer has been given, as they were when it was given them *)
Record sstate := mkSt { st_halt : bool; st_tl : list (Z * node); st_leads : list row; st_outs : list node }.
Definition has_lead (l : list row) (r : row) : bool := existsb (row_eqb r) l.
Definition lead_insert (l : list row) (r : row) : list row := if has_lead l r then l else r :: l.
Definition lead_erase (l : list row) (r : row) : list row := filter (fun x => negb (row_eqb r x)) l.

(* basic_search.cpp:121-129 is_row_false *)
Fixpoint is_row_false (fs leads : list row) (r : row) : outcome bool :=
  match fs with
  | [] => Ret false
  | f :: fs => x <- mul r f ;; if has_lead leads x then Ret true else is_row_false fs leads r
  end.

(* basic_search.cpp:144, 151: the outputer is given the touch.  What it returns may depend
   on all it has been given. *)
Definition emit (stop : list node -> bool) (st : sstate) : sstate :=
  let outs := st_outs st ++ [Children (st_tl st)] in
  mkSt (stop outs) (st_tl st) (st_leads st) outs.
(* basic_search.cpp:150: the first child to the end *)
Definition rotate1 {A} (l : list A) : list A := match l with [] => [] | x :: l => l ++ [x] end.
(* basic_search.cpp:147-152 for k further rotations *)
Fixpoint rotations_loop (k : nat) (stop : list node -> bool) (st : sstate) : sstate :=
  match k with
  | O => st
  | S k => if st_halt st then st
           else rotations_loop k stop (emit stop (mkSt (st_halt st) (rotate1 (st_tl st)) (st_leads st) (st_outs st)))
  end.
(* basic_search.cpp:132-153 output_touches *)
Definition output_touches (cx : context) (stop : list node -> bool) (w : list nat) (cur : nat) (st : sstate) : outcome sstate :=
  let len := length w in
  if cur =? 0 then UB else
  let parts := if negb (len mod cur =? 0) then cur else len / cur in
  tl <- forM w (fun l i => n <- vget (cx_nodes cx) i ;; Ret (l ++ [(1%Z, n)])) [] ;;
  let st := emit stop (mkSt (st_halt st) tl (st_leads st) (st_outs st)) in
  if cx_ignore cx then Ret st
  else if parts =? 0 then UB
  else Ret (rotations_loop (len / parts - 1) stop st).

(* basic_search.cpp:160-172 is_possibly_canonical: the new cur, or None for false *)
Definition is_possibly_canonical (w : list nat) (cur : nat) : outcome (option nat) :=
  match w with
  | [] => Ret (Some cur)
  | _ :: _ =>
    last <- vget w (length w - 1) ;;
    if cur =? 0 then Ret (Some (length w)) else
    if length w <=? cur then UB else
    prev <- vget w (length w - 1 - cur) ;;
    if prev <? last then Ret (Some (length w))
    else if last <? prev then Ret None
    else Ret (Some cur)
  end.
(* basic_search.cpp:176-183 is_really_canonical *)
Definition is_really_canonical (w : list nat) : bool :=
  match w with
  | [] => true
  | a :: _ => if existsb (fun x => negb (x =? a)) w then negb (last w a =? a) else true
  end.

(* basic_search.cpp:186-214 run_recursive; calls, which is restored, is passed as w *)
Fixpoint run_recursive (fuel : nat) (cx : context) (stop : list node -> bool) (r : row) (depth : nat) (w : list nat) (cur : nat) (st : sstate) : outcome sstate :=
  match fuel with
  | O => Diverge
  | S fuel =>
    c <- is_possibly_canonical w cur ;;
    match c with
    | None => Ret st
    | Some cur =>
      f <- is_row_false (cx_false cx) (st_leads st) r ;;
      if (f : bool) then
        if (cx_min cx <=? Z.of_nat depth)%Z && isrounds r && is_really_canonical w then output_touches cx stop w cur st else Ret st
      else if (Z.of_nat depth <? cx_max cx)%Z then
        st <- forM (seq 0 (length (cx_lhs cx))) (fun st i =>
          if st_halt st then Ret st else
          l <- vget (cx_lhs cx) i ;; r' <- mul r l ;; run_recursive fuel cx stop r' (depth + 1) (w ++ [i]) cur st)
          (mkSt (st_halt st) (st_tl st) (lead_insert (st_leads st) r) (st_outs st)) ;;
        Ret (mkSt (st_halt st) (st_tl st) (lead_erase (st_leads st) r) (st_outs st))
      else Ret st
    end
  end.
(* basic_search.cpp:113-118 run, search_base.cpp:32-36; the state after the search *)
Definition search_run (fuel : nat) (sym : symtab) (s : search) (stop : list node -> bool) : outcome sstate :=
  cx <- context_make sym s ;;
  match cx_lhs cx with
  | [] => UB
  | l0 :: _ => run_recursive fuel cx stop (rounds (length l0)) 0 [] 0 (mkSt false [] [] [])
  end.
