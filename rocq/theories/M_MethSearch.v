(* M_MethSearch.v - model of the search of apps/methsearch/search.cpp: the class searcher
   with general_recurse, the changes it tries and the symmetries it folds.
   Simplifications:
   - the group of part ends is trivial (rcoset_label then returns its argument, group.cpp:274),
     there are no row_matches, no --start-at, no -E, no --long-le-place, no random order, no
     status line and no timeout; the length of a lead is known (lead_len > 0);
   - of the tests on a change (try_..._change) those on repeated changes and on the number of
     blows are modelled; the others look at the options, the changes so far and the change
     tried, and are one parameter (sa_try) here.  So are the tests of a whole method
     (is_acceptable_method: sa_accept);
   - the vector of changes has its capacity from the start (search.cpp:158), so that
     iterators stay valid;
   - search_limit -1 (no limit) is 0 here. *)
From Verif Require Import Base M_Bell M_Change M_Math M_Row M_PN M_Method M_Proof.
Open Scope nat_scope.

(* prog_args.h: the options used here *)
Record sargs := mkSargs {
  sa_bells : nat; sa_len : nat; sa_hunts : nat; sa_dodges : nat;
  sa_allowed : list (list change);              (* allowed_changes *)
  sa_trivial : bool;                            (* true_trivial *)
  sa_blows : nat;                               (* max_consec_blows, 0: any *)
  sa_prefix : list change;
  sa_sym : bool; sa_doubsym : bool; sa_skewsym : bool; sa_floating : bool;
  sa_true_lead : bool; sa_true_half : bool; sa_parity : bool;   (* same_place_parity *)
  sa_extents : Z; sa_avoid : list row; sa_start : row;
  sa_limit : nat; sa_invert : bool;
  sa_try : list change -> change -> bool;
  sa_accept : list change -> bool }.

(* the members of searcher that change during a search, and what has been output *)
Record sst := mkSst { ss_m : list change; ss_div : nat; ss_r : row; ss_prv : option prover;
  ss_count : nat; ss_out : list (list change) }.

(* operator== of vector<change> *)
Fixpoint same_changes (a b : list change) : bool :=
  match a, b with
  | [], [] => true
  | x :: a, y :: b => change_eqb x y && same_changes a b
  | _, _ => false
  end.

Section A.
Variable A : sargs.
(* search.cpp:152 div_len, 669-672 calc_cur_div_len *)
Definition div_len : nat := (1 + sa_dodges A) * 2.
(* search.cpp:153-154 *)
Definition sym_offset : nat :=
  if negb (sa_hunts A =? 0) && (sa_hunts A mod 2 =? 0) then 1 + sa_dodges A else 0.
(* search.cpp:172-175: is there a prover (part ends are trivial) *)
Definition use_prover : bool :=
  (sa_true_lead A && (negb (sa_sym A) || (negb (sa_dodges A =? 0) && negb (sa_parity A)))) ||
  (sa_true_half A && ((sa_hunts A =? 0) || (1 <? sa_dodges A))).
(* search.cpp:162 and 183 maintain_r *)
Definition maintain_r : bool := use_prover || negb (match sa_avoid A with [] => true | _ => false end).

(* search.cpp:165-187 reset *)
Definition searcher_reset : outcome sst :=
  prv <- (if use_prover then
    let p := fst (add_row (fold_left (fun p r => fst (add_row p r)) (sa_avoid A) (prover_new (sa_extents A) None)) (sa_start A)) in
    if truth p then Ret (Some p) else Throw AssertFailed
    else Ret None) ;;
  Ret (mkSst [] 0 (sa_start A) prv 0 []).

(* search.cpp:602-604 and 644-646: the row after k changes is not proved *)
Definition unproved (k : nat) : bool :=
  (k =? sa_len A) || (negb (sa_true_lead A) && sa_true_half A && (sa_len A / 2 <=? k)).

(* search.cpp:596-634 push_change *)
Definition push_change (s : sst) (ch : change) : outcome (sst * bool) :=
  let m := ss_m s ++ [ch] in
  '(r, prv, ok) <- (if maintain_r then
      r <- row_mul_change (ss_r s) ch ;;
      if unproved (length m) then Ret (r, ss_prv s, true) else
      match ss_prv s with
      | Some p => let '(p', ok) := add_row p r in Ret (r, Some p', ok)
      | None => Ret (r, None, negb (existsb (row_eqb r) (sa_avoid A)))
      end
    else Ret (ss_r s, ss_prv s, true)) ;;
  let s' := mkSst m (ss_div s) r prv (ss_count s) (ss_out s) in
  if (ok : bool) then
    Ret (if length m =? ss_div s + div_len then mkSst m (ss_div s + div_len) r prv (ss_count s) (ss_out s) else s', true)
  else Ret (s', false).

(* method.cpp:131-137: lh of the changes so far *)
Definition lh_of (m : list change) : outcome row := forM m row_mul_change (rounds (sa_bells A)).

(* search.cpp:636-653 pop_change *)
Definition pop_change (s : sst) (r_old : option row) : outcome sst :=
  match ss_m s with
  | [] => UB                                    (* pop_back of an empty vector *)
  | _ :: _ =>
    let m := removelast (ss_m s) in
    let dv := if length m <? ss_div s then ss_div s - div_len else ss_div s in
    if maintain_r then
      prv <- (if unproved (S (length m)) then Ret (ss_prv s)
              else match ss_prv s with Some p => p' <- remove_row p (ss_r s) ;; Ret (Some p') | None => Ret None end) ;;
      r <- (match r_old with Some r => Ret r | None => lh_of m end) ;;
      Ret (mkSst m dv r prv (ss_count s) (ss_out s))
    else Ret (mkSst m dv (ss_r s) (ss_prv s) (ss_count s) (ss_out s))
  end.
(* while ( m.length() > depth ) pop_change(); *)
Fixpoint pop_to (fuel depth : nat) (s : sst) : outcome sst :=
  if depth <? length (ss_m s) then
    match fuel with
    | O => Diverge
    | S fuel => s <- pop_change s None ;; pop_to fuel depth s
    end
  else Ret s.

(* --- tests on a change --- *)
(* methodutils.cpp:90-96: how many of the changes, from the last one back, make place i *)
Fixpoint back_run (i : nat) (l : list change) : nat :=      (* l is the method backwards *)
  match l with
  | c :: l => if findplace c i then S (back_run i l) else 0
  | [] => 0
  end.
(* methodutils.cpp:83-101 is_too_many_places, without stopoff *)
Definition is_too_many_places (m : list change) (c : change) (max : nat) : bool :=
  existsb (fun i => findplace c i && (max <? 2 + back_run i (rev m))) (seq 0 (cn c)).
(* search.cpp:847-865: a loop as above, which stops when count > limit *)
Fixpoint run_limited (limit count i : nat) (l : list change) : nat :=
  match l with
  | c :: l => if count <=? limit then (if findplace c i then run_limited limit (S count) i l else count) else count
  | [] => count
  end.
(* search.cpp:836-879 try_leadend_change *)
Definition try_leadend_change (m : list change) (ch : change) : bool :=
  (if sa_blows A =? 0 then true else
    negb (existsb (fun i => findplace ch i &&
      (let c1 := run_limited (sa_blows A) 2 i (rev m) in
       if sa_blows A <? c1 then true else sa_blows A <? run_limited (sa_blows A) c1 i m))
      (seq 0 (sa_bells A)))) &&
  negb ((sa_hunts A =? 0) && sa_trivial A && match m with c :: _ => change_eqb ch c | [] => false end).
(* search.cpp:899-1057 try_midlead_change: the repeated change and the number of blows *)
Definition try_midlead_change (m : list change) (ch : change) : bool :=
  negb (sa_trivial A && match rev m with c :: _ => change_eqb c ch | [] => false end) &&
  negb (negb (sa_blows A =? 0) && is_too_many_places m ch (sa_blows A)).
(* search.cpp:809-813 in try_halflead_sym_change and 892-894 in try_leadend_sym_change *)
Definition try_sym_change (m : list change) (ch : change) : bool :=
  negb (sa_sym A && negb (sa_blows A =? 0) && is_too_many_places m ch (sa_blows A / 2 + 1)).

(* search.cpp:1174-1228: all the tests in the loop of new_midlead_change; flt is filter_method *)
Definition try_change (flt m : list change) (ch : change) : bool :=
  let depth := length m in
  match nth_error (sa_prefix A) depth with Some c => change_eqb ch c | None => true end &&
  match nth_error flt depth with Some c => change_eqb ch c | None => true end &&
  try_midlead_change m ch &&
  (if ((sa_hunts A mod 2 =? 1) && (depth + 1 =? sa_len A / 2)) ||
      (negb (sa_hunts A =? 0) && (sa_hunts A mod 2 =? 0) && (depth + 1 =? sa_len A / 2 + div_len / 2))
   then try_sym_change m ch else true) &&
  (if depth + 1 =? sa_len A then try_leadend_change m ch else true) &&
  (if ((sym_offset =? 0) && (depth + 1 =? sa_len A)) || (negb (sym_offset =? 0) && (depth + 1 =? sym_offset))
   then try_sym_change m ch else true) &&
  sa_try A m ch.

(* --- the recursion --- *)
Section R.
Variable flt : list change.
Variable general_recurse : sst -> outcome sst.

(* search.cpp:655-666 call_recurse *)
Definition call_recurse (s : sst) (ch : change) : outcome sst :=
  let old := ss_r s in
  '(s, ok) <- push_change s ch ;;
  s <- (if (ok : bool) then general_recurse s else Ret s) ;;
  pop_change s (Some old).

(* search.cpp:1137-1230 new_midlead_change; at() throws if there is no such list, and the
   list may not be empty *)
Definition new_midlead_change (s : sst) : outcome sst :=
  match nth_error (sa_allowed A) (length (ss_m s)) with
  | None => Throw OutOfRange
  | Some [] => Throw AssertFailed
  | Some l => forM l (fun s ch => if try_change flt (ss_m s) ch then call_recurse s ch else Ret s) s
  end.

(* push the changes of a list as long as push_change likes them *)
Fixpoint push_all (l : list change) (s : sst) : outcome (sst * bool) :=
  match l with
  | [] => Ret (s, true)
  | c :: l => '(s, ok) <- push_change s c ;; if (ok : bool) then push_all l s else Ret (s, false)
  end.
(* m[i] with an index of type size_t which may have wrapped round *)
Definition zget (m : list change) (i : Z) : outcome change := if (i <? 0)%Z then UB else vget m (Z.to_nat i).
(* while ( ok && m.length() < end ) ok = ok && push_change( m[ pt - m.length() ].reverse() ) *)
Fixpoint push_mirror (k : nat) (pt : Z) (s : sst) : outcome (sst * bool) :=
  match k with
  | O => Ret (s, true)
  | S k => c <- zget (ss_m s) (pt - Z.of_nat (length (ss_m s)))%Z ;;
           '(s, ok) <- push_change s (change_reverse c) ;;
           if (ok : bool) then push_mirror k pt s else Ret (s, false)
  end.
(* search.cpp:1402-1413 and others: push the changes found by symmetry, recurse, pop them *)
Definition folded (s : sst) (push : sst -> outcome (sst * bool)) : outcome sst :=
  '(s', ok) <- push s ;;
  s' <- (if (ok : bool) then general_recurse s' else Ret s') ;;
  pop_to (S (length (ss_m s'))) (length (ss_m s)) s'.

(* search.cpp:1235-1255: blows of the places of the last change, back and then forwards
   through the first half reversed *)
Definition double_first_test (m : list change) : bool :=
  match rev m with
  | [] => true
  | b :: back =>
    negb (existsb (fun i => findplace b i &&
      (sa_blows A <? run_limited (S (sa_blows A)) (run_limited (S (sa_blows A)) 2 i back) i (map change_reverse m)))
      (seq 0 (sa_bells A)))
  end.
(* search.cpp:1271-1288 *)
Definition double_second_test (m : list change) (ch : change) : bool :=
  negb (existsb (fun i => findplace ch i && (sa_blows A <? 2 + back_run i (rev m) + back_run i m)) (seq 0 (sa_bells A))).
(* search.cpp:1262-1267: the loop from the half lead to the lead end: m[depth - hl] reversed *)
Fixpoint push_reversed (k hl : nat) (s : sst) : outcome (sst * bool) :=
  match k with
  | O => Ret (s, true)
  | S k => c <- zget (ss_m s) (Z.of_nat (length (ss_m s)) - Z.of_nat hl)%Z ;;
           '(s, ok) <- push_change s (change_reverse c) ;;
           if (ok : bool) then push_reversed k hl s else Ret (s, false)
  end.
(* search.cpp:1233-1296 double_existing *)
Definition double_existing (s : sst) : outcome sst :=
  if negb (sa_blows A =? 0) && negb (double_first_test (ss_m s)) then Ret s else
  if negb (sa_len A mod 2 =? 0) then Throw AssertFailed else
  let hl := sa_len A / 2 in
  if negb (length (ss_m s) =? hl) then Throw AssertFailed else
  folded s (fun s =>
    '(s, ok) <- push_reversed (sa_len A - 1 - hl) hl s ;;
    c <- zget (ss_m s) (Z.of_nat hl - 1)%Z ;;
    let ch := change_reverse c in
    let ok := ok && ((sa_blows A =? 0) || double_second_test (ss_m s) ch) in
    if (ok : bool) then push_change s ch else Ret (s, false)).

(* search.cpp:1363-1376: a whole lead *)
Definition found (s : sst) : sst :=
  if negb (match flt with [] => true | _ => false end) && negb (same_changes flt (ss_m s)) then s
  else if sa_accept A (ss_m s) then
    mkSst (ss_m s) (ss_div s) (ss_r s) (ss_prv s) (S (ss_count s))
      (if sa_invert A then ss_out s else ss_out s ++ [ss_m s])
  else s.
End R.

(* search.cpp:1340-1472 general_recurse.  The symmetry points are compared with depth - 1, as
   in C++ their arithmetic may wrap round, and does so when depth + 1 is added *)
Fixpoint general_recurse (fuel : nat) (flt : list change) (s : sst) : outcome sst :=
  match fuel with
  | O => Diverge
  | S fuel =>
    let rec := general_recurse fuel flt in
    let depth := length (ss_m s) in
    let L := sa_len A in
    let so := sym_offset in
    if negb (depth - ss_div s =? depth mod div_len) || (depth <? ss_div s) then Throw AssertFailed else
    if negb (sa_limit A =? 0) && (ss_count s =? sa_limit A) then Ret s else
    if depth =? L then Ret (found flt s) else
    if sa_floating A then new_midlead_change flt rec s else
    let extra := if L mod 4 =? 0 then 0%Z else 1%Z in                        (* has_qlead_change *)
    if sa_skewsym A && (depth =? L / 4 + so) && (4 <? L) then                (* 1386-1414 *)
      let q := (Z.of_nat (L / 4) - 1 + Z.of_nat so)%Z in
      let e := if sa_doubsym A && negb (so =? 0) then L / 2
               else if so =? 0 then L / 2 - 1 + so else L / 2 - 1 + so + so in
      folded rec s (push_mirror (e - depth) (2 * q + extra)%Z)
    else if sa_doubsym A && (depth =? L / 2) then double_existing rec s      (* 1417-1420 *)
    else if sa_sym A && (depth =? L / 2 + so) && (2 <? L) then               (* 1423-1438 *)
      if sa_skewsym A || sa_doubsym A then Throw AssertFailed else
      let k := if so =? 0 then 0 else 2 * so - 1 in
      if depth <? k + 1 then UB else
      folded rec s (push_all (rev (skipn k (removelast (ss_m s)))))
    else if sa_sym A && (1 <? so) && (depth =? so) then                      (* 1442-1453 *)
      folded rec s (push_all (rev (removelast (ss_m s))))
    else if sa_skewsym A && (depth =? 3 * L / 4 + so) && (4 <? L) then       (* 1456-1470 *)
      if sa_doubsym A || sa_sym A then Throw AssertFailed else
      let tq := (Z.of_nat (3 * L / 4) - 1 + Z.of_nat so)%Z in
      folded rec s (push_mirror (L - depth) (2 * tq + extra)%Z)
    else new_midlead_change flt rec s
  end.

(* search.cpp:261-267 run_search, neither filtering nor at random *)
Definition run_search : outcome sst :=
  s <- searcher_reset ;;
  s <- general_recurse (S (sa_len A)) [] s ;;
  match ss_m s with [] => Ret s | _ => Throw AssertFailed end.

(* search.cpp:198-251 filter, for methods with the right number of bells and changes *)
Fixpoint filter_loop (l : list (list change)) (s : sst) : outcome sst :=
  match l with
  | [] => Ret s
  | x :: l =>
    if negb (length x =? sa_len A) then filter_loop l s else
    let old := ss_count s in
    s <- general_recurse (S (sa_len A)) x s ;;
    match ss_m s with
    | _ :: _ => Throw AssertFailed
    | [] =>
      if sa_invert A then
        if negb ((ss_count s =? old) || (ss_count s =? S old)) then Throw AssertFailed else
        if ss_count s =? old then filter_loop l (mkSst [] (ss_div s) (ss_r s) (ss_prv s) (S (ss_count s)) (ss_out s ++ [x]))
        else filter_loop l (mkSst [] (ss_div s) (ss_r s) (ss_prv s) (ss_count s - 1) (ss_out s))
      else filter_loop l s
    end
  end.
Definition run_filter (lib : list (list change)) : outcome sst :=
  s <- searcher_reset ;; filter_loop lib s.
End A.
