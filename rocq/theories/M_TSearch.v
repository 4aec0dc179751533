(* M_TSearch.v - model of ringing/table_search.{h,cpp}.  The state of the outputer and of the touch is
   that of M_Search, whose set of leads is not used. *)
From Verif Require Import Base M_Bell M_Change M_Math M_Row M_Extent M_Group M_Multtab M_Touch M_PN M_Method M_False M_Search.
Open Scope nat_scope.

(* table_search.h:59-77 *)
Definition TS_IGNORE : Z := 1.  Definition TS_MUTUAL : Z := 2.
Definition TS_CHANGES : Z := 4. Definition TS_NONROUND : Z := 8.
Definition size_max : Z := 18446744073709551615.
(* table_search.h:105-110 *)
Record tsearch := mkTS { ts_meth : method; ts_calls : list change; ts_ends : group; ts_min : Z; ts_max : Z; ts_flags : Z }.
(* table_search.cpp:56-71 range_div *)
Definition range_div (lo hi leadlen : Z) : outcome (Z * Z) :=
  if (leadlen =? 0)%Z then UB else
  Ret (if negb (lo mod leadlen =? 0)%Z then u64 (lo / leadlen + 1) else (lo / leadlen)%Z,
       if (hi =? size_max)%Z then hi else (hi / leadlen)%Z).
(* table_search.cpp:73-77 *)
Definition ts_make (m : method) (calls : list change) (ends : group) (f : Z) : tsearch := mkTS m calls ends 0 size_max f.
(* table_search.cpp:79-89 *)
Definition ts_make_range (m : method) (calls : list change) (ends : group) (lo hi f : Z) : outcome tsearch :=
  '(lo, hi) <- range_div lo hi (if has f TS_CHANGES then u64 (Z.of_nat (length (gv ends)) * mlen m) else 1) ;;
  Ret (mkTS m calls ends lo hi f).
(* table_search.cpp:91-95: lenrange is left as a default pair, (0, 0) *)
Definition ts_make_old (m : method) (calls : list change) (ig : bool) : tsearch :=
  mkTS m calls group_default 0 0 (if ig then TS_IGNORE else 0).
(* table_search.cpp:97-106: f is read before it is set; junk is what is read *)
Definition ts_make_old_range (junk : Z) (m : method) (calls : list change) (lo hi : Z) (ig : bool) : outcome tsearch :=
  '(lo, hi) <- range_div lo hi (if has junk TS_CHANGES then u64 (Z.of_nat (length (gv group_default)) * mlen m) else 1) ;;
  Ret (mkTS m calls group_default lo hi (if ig then TS_IGNORE else 0)).

(* back() of an empty vector is undefined *)
Definition meth_back (m : method) : outcome change := match mch m with [] => UB | c0 :: _ => Ret (last (mch m) c0) end.
(* table_search.cpp:146-163 is_in_course *)
Definition ts_in_course (sym : symtab) (m : method) (calls : list change) : outcome bool :=
  r <- lh m ;; s <- sign sym r ;; if (s =? -1)%Z then Ret false else
  c <- meth_back m ;; Ret (forallb (fun x => (change_sign x =? change_sign c)%Z) calls).
(* table_search.cpp:165-175 is_fixed_treble *)
Definition ts_fixed_treble (m : method) (calls : list change) : outcome bool :=
  r <- lh m ;; x <- vget r 0 ;; if negb (x =? 0) then Ret false else
  c <- meth_back m ;; if negb (findplace c 0) then Ret false else
  Ret (forallb (fun x => findplace x 0) calls).
(* table_search.cpp:177-189 make_table; fuel bounds the number of rows *)
Definition ts_table (fuel : nat) (s : tsearch) : outcome multtab :=
  ft <- ts_fixed_treble (ts_meth s) (ts_calls s) ;;
  let b := mb (ts_meth s) in
  let e := if (ft : bool) then ei_begin (b - 1) 1 (b - 1 + 1) else ei_begin b 0 b in
  rows <- ei_traverse fuel e (mkEI 0 0 0 true []) ;;
  mt_init rows (ts_ends s) group_default.

(* table_search.cpp:355-364; call_lhs and falsenesses are columns of the table *)
Record tcontext := mkTC { tc_min : Z; tc_max : Z; tc_impossible : bool; tc_table : multtab; tc_flags : Z;
  tc_lhs : list nat; tc_nodes : list node; tc_false : list nat }.
(* table_search.cpp:214-226 init_call *)
Definition ts_init_call (lead : list change) (le : row) (st : multtab * list nat * list node) (ch : change) : outcome (multtab * list nat * list node) :=
  let '(t, lhs, nodes) := st in
  r <- row_mul_change le ch ;; '(t, c) <- compute_post_mult t r ;;
  Ret (t, lhs ++ [c], nodes ++ [Children [(1%Z, Changes lead); (1%Z, Changes [ch])]]).
(* table_search.cpp:191-212 init_falseness *)
Definition ts_init_false (st : multtab * list nat * bool) (f : row) : outcome (multtab * list nat * bool) :=
  let '(t, fs, imp) := st in
  let imp := imp || (negb (isrounds f) && existsb (row_eqb f) (gv (mpends t))) in
  '(t, c) <- compute_post_mult t f ;; Ret (t, fs ++ [c], imp).
Definition ts_flags_of (ft ic : bool) : Z := ((if ft then 0 else F_NO_FIXED_TREBLE) + (if ic then F_IN_COURSE else 0))%Z.
(* table_search.cpp:111-139 *)
Definition ts_context (fuel : nat) (sym : symtab) (s : tsearch) : outcome tcontext :=
  let m := ts_meth s in
  t <- ts_table fuel s ;;
  match mch m with
  | [] => UB
  | _ :: _ =>
    let lead := removelast (mch m) in
    le <- forM lead row_mul_change ([] : row) ;;
    back <- meth_back m ;;
    '(t, lhs, nodes) <- forM (back :: ts_calls s) (ts_init_call lead le) (t, [], []) ;;
    ft <- ts_fixed_treble m (ts_calls s) ;;
    ic <- ts_in_course sym m (ts_calls s) ;;
    fs <- falseness_method sym (ts_flags_of ft ic) m ;;
    '(t, cols, imp) <- forM fs ts_init_false (t, [], false) ;;
    Ret (mkTC (ts_min s) (ts_max s) imp t (ts_flags s) lhs nodes cols)
  end.

Definition parts_of (cx : tcontext) : nat := length (gv (mpends (tc_table cx))).
(* table_search.cpp:244-253 is_row_false; leads is a vector<char> *)
Fixpoint ts_row_false (t : multtab) (fs : list nat) (leads : list bool) (r : nat) : outcome bool :=
  match fs with
  | [] => Ret false
  | f :: fs => i <- mt_mul t r f ;; x <- vget leads i ;; if (x : bool) then Ret true else ts_row_false t fs leads r
  end.
(* the number of changes of a touch; only a bound on the number of steps *)
Fixpoint node_len (n : node) : nat :=
  match n with Changes c => length c | Children l => list_sum (map (fun x => Z.to_nat (fst x) * node_len (snd x)) l) end.
(* table_search.cpp:268-272: is it an n-part?  The touch is rung from rounds on table.bells(), 
   which is rows.front().bells(); the order, an int, is converted to size_t *)
Definition ts_is_n_part (sym : symtab) (cx : tcontext) (n : node) : outcome bool :=
  cs <- touch_changes (node_len n) (Some n) ;;
  r <- forM cs row_mul_change (rounds (length (hd [] (mrows (tc_table cx))))) ;;
  o <- order sym r ;; Ret (u64 o =? Z.of_nat (parts_of cx))%Z.
(* table_search.cpp:256-284 output_touch *)
Definition ts_output (sym : symtab) (cx : tcontext) (stop : list node -> bool) (w : list nat) (cur : nat) (st : sstate) : outcome sstate :=
  tl <- forM w (fun l i => n <- vget (tc_nodes cx) i ;; Ret (l ++ [(1%Z, n)])) [] ;;
  let st := mkSt (st_halt st) tl (st_leads st) (st_outs st) in
  ok <- (if negb (has (tc_flags cx) TS_MUTUAL) && (1 <? parts_of cx) then ts_is_n_part sym cx (Children tl) else Ret true) ;;
  if negb ok then Ret st else
  let st := emit stop st in
  if negb (has (tc_flags cx) TS_IGNORE) && (parts_of cx =? 1) then
    if cur =? 0 then UB else
    let parts := if negb (length w mod cur =? 0) then cur else length w / cur in
    if parts =? 0 then UB else Ret (rotations_loop (length w / parts - 1) stop st)
  else Ret st.
(* table_search.cpp:291-307 is_possibly_canonical *)
Definition ts_possibly (cx : tcontext) (w : list nat) (cur : nat) : outcome (option nat) :=
  match w with
  | [] => Ret (Some cur)
  | _ :: _ => if 1 <? parts_of cx then Ret (Some cur) else is_possibly_canonical w cur
  end.
(* table_search.cpp:311-322 is_really_canonical *)
Definition ts_really (cx : tcontext) (w : list nat) : bool := (1 <? parts_of cx) || is_really_canonical w.

(* table_search.cpp:325-352 run_recursive; calls is passed as w, and a row_t is its index *)
Fixpoint ts_recursive (fuel : nat) (sym : symtab) (cx : tcontext) (stop : list node -> bool) (r depth : nat) (w : list nat) (cur : nat) (s : sstate * list bool) : outcome (sstate * list bool) :=
  match fuel with
  | O => Diverge
  | S fuel =>
    c <- ts_possibly cx w cur ;;
    match c with
    | None => Ret s
    | Some cur =>
      f <- ts_row_false (tc_table cx) (tc_false cx) (snd s) r ;;
      if (f : bool) then
        if (tc_min cx <=? Z.of_nat depth)%Z && (has (tc_flags cx) TS_NONROUND || (r =? 0)) && ts_really cx w
        then st <- ts_output sym cx stop w cur (fst s) ;; Ret (st, snd s) else Ret s
      else if (Z.of_nat depth <? tc_max cx)%Z then
        leads <- vset (snd s) r true ;;
        s <- forM (seq 0 (length (tc_lhs cx))) (fun s i =>
          if st_halt (fst s) then Ret s else
          l <- vget (tc_lhs cx) i ;; r' <- mt_mul (tc_table cx) r l ;; ts_recursive fuel sym cx stop r' (depth + 1) (w ++ [i]) cur s)
          (fst s, leads) ;;
        leads <- vset (snd s) r false ;;
        Ret (fst s, leads)
      else Ret s
    end
  end.
(* table_search.cpp:229-241 run, search_base.cpp:32-36; the state after the search *)
Definition ts_run (fuel : nat) (sym : symtab) (s : tsearch) (stop : list node -> bool) : outcome sstate :=
  cx <- ts_context fuel sym s ;;
  if tc_impossible cx then Ret (mkSt false [] [] []) else
  '(st, _) <- ts_recursive fuel sym cx stop 0 0 [] 0 (mkSt false [] [] [], repeat false (length (mtab (tc_table cx)))) ;;
  Ret st.
