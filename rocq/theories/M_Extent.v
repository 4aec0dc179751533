(* M_Extent.v - model of ringing/extent.{h,cpp}.  unsigned counts of bells are nat;
   size_t positions are Z, wrapping modulo 2^64.  Not modelled: random_row. *)
From Verif Require Import Base M_Bell M_Change M_Math M_Row.

Definition u64 (z : Z) : Z := (z mod 18446744073709551616)%Z.

(* extent.cpp:97-122 position_in_extent *)
Definition position_in_extent (r : row) (nw nh nt : nat) : outcome Z :=
  if nt <? length r then Throw OutOfRange else
  _ <- forN 0 nh (fun _ i => b <- vget r i ;; if b =? i then Ret tt else Throw OutOfRange) tt ;;
  _ <- forN (nh + nw) nt (fun _ i => b <- vget r i ;; if b =? i then Ret tt else Throw OutOfRange) tt ;;
  forN nh (nw + nh) (fun x i =>
    forN (i + 1) (nw + nh) (fun x j =>
      if j <? length r then
        a <- vget r j ;; b <- vget r i ;; Ret (if a <? b then u64 (x + 1) else x)
      else Ret x) (u64 (x * Z.of_nat (nw + nh - i)))) 0%Z.

(* extent.cpp:135-139: for (bell ob(nh); ob <= b; ++ob) for (j < i) if (ob == v[j]) { ++b; break; }.
   bells wrap at 256, so that with b = 255 the test never fails. *)
Fixpoint ob_loop (fuel : nat) (ob b : nat) (used : list nat) : outcome nat :=
  if ob <=? b then
    match fuel with
    | O => Diverge
    | S fuel => ob_loop fuel (b8 (ob + 1)) (if existsb (Nat.eqb ob) used then b8 (b + 1) else b) used
    end
  else Ret b.
Definition ob_fuel : nat := 600.

(* extent.cpp:129-142: one round of the loop over the working bells.  The division is
   undefined if the 32-bit factorial is 0. *)
Definition nth_row_step (nw nh : nat) (st : list nat * Z) (i : nat) : outcome (list nat * Z) :=
  let '(v, n) := st in
  let fact := factorial (nw + nh - i - 1) in
  if (fact =? 0)%Z then UB else
  b <- ob_loop ob_fuel (b8 nh) (zb8 (n / fact + Z.of_nat nh)) (firstn i v) ;;
  v <- vset v i b ;;
  Ret (v, (n mod fact)%Z).
(* extent.cpp:124-146 nth_row_of_extent *)
Definition nth_row_of_extent (n : Z) (nw nh nt : nat) : outcome row :=
  v <- forN 0 nh (fun v i => vset v i (b8 i)) (repeat 0 nt) ;;
  '(v, _) <- forN nh (nw + nh) (nth_row_step nw nh) (v, n) ;;
  v <- forN (nw + nh) nt (fun v i => vset v i (b8 i)) v ;;
  row_of_vector v.

(* extent.cpp:154-157: i is unsigned; f is never used *)
Fixpoint sign_loop (fuel : nat) (i n sign : Z) : outcome Z :=
  if (n =? 0)%Z then Ret sign else
  match fuel with
  | O => Diverge
  | S fuel => sign_loop fuel (i + 1) (n / i) (if ((n mod i) mod 2 =? 0)%Z then sign else - sign)%Z
  end.
(* extent.cpp:148-159 sign_of_nth_row_of_extent *)
Definition sign_of_nth_row_of_extent (n : Z) : outcome Z := sign_loop 70 1 n 1.

(* extent.cpp:182-192 nth_row_of_incourse_extent *)
Definition nth_row_of_incourse_extent (sym : symtab) (n : Z) (nw nh nt : nat) : outcome row :=
  r <- nth_row_of_extent (u64 (n * 2)) nw nh nt ;;
  s <- sign sym r ;;
  if (s <? 0)%Z then
    '(c, _) <- swappair (change_empty nt) (zb8 (Z.of_nat (nw + nh) - 2)) ;;
    row_mul_change r c
  else Ret r.
(* extent.h:211-216 position_in_incourse_extent *)
Definition position_in_incourse_extent (r : row) (nw nh nt : nat) : outcome Z :=
  x <- position_in_extent r nw nh nt ;; Ret (x / 2)%Z.

(* extent.cpp:177-180 extent::size *)
Definition extent_size (nw : nat) : Z := factorial nw.

(* std::next_permutation: the result of the standard algorithm (find the last ascent, swap
   its left end with the last larger element, reverse what follows), written by recursion:
   when the tail is its last permutation it has been reversed, i.e. is in order. *)
Fixpoint swap_in (x : nat) (l : list nat) : option (nat * list nat) :=   (* first y > x *)
  match l with
  | [] => None
  | y :: t => if x <? y then Some (y, x :: t) else
              match swap_in x t with Some (z, t') => Some (z, y :: t') | None => None end
  end.
Fixpoint next_permutation (l : list nat) : list nat * bool :=
  match l with
  | [] => ([], false)
  | x :: t =>
    match next_permutation t with
    | (t', true) => (x :: t', true)
    | (t', false) => match swap_in x t' with
                     | Some (y, t'') => (y :: t'', true)
                     | None => (t' ++ [x], false)
                     end
    end
  end.
(* std::prev_permutation likewise *)
Fixpoint swap_down (x : nat) (l : list nat) : option (nat * list nat) :=  (* first y < x *)
  match l with
  | [] => None
  | y :: t => if y <? x then Some (y, x :: t) else
              match swap_down x t with Some (z, t') => Some (z, y :: t') | None => None end
  end.
Fixpoint prev_permutation (l : list nat) : list nat * bool :=
  match l with
  | [] => ([], false)
  | x :: t =>
    match prev_permutation t with
    | (t', true) => (x :: t', true)
    | (t', false) => match swap_down x t' with
                     | Some (y, t'') => (y :: t'', true)
                     | None => (t' ++ [x], false)
                     end
    end
  end.
(* applied to v.begin()+nh .. v.begin()+nh+nw *)
Definition permute_range (f : list nat -> list nat * bool) (v : list nat) (nh nw : nat) : outcome (list nat * bool) :=
  if length v <? nh + nw then UB else
  let '(w, ok) := f (firstn nw (skipn nh v)) in
  Ret (firstn nh v ++ w ++ skipn (nh + nw) v, ok).

(* extent.h:56-117 *)
Record extent_iter := mkEI { ei_nw : nat; ei_nh : nat; ei_nt : nat; ei_end : bool; ei_row : row }.
(* extent.cpp:52-60 *)
Definition ei_begin (nw nh nt : nat) : extent_iter := mkEI nw nh nt false (rounds nt).
(* extent.cpp:90-95 end(nw, nh, nt) *)
Definition ei_end_of (nw nh nt : nat) : extent_iter := mkEI nw nh nt true (rounds nt).
(* extent.cpp:62-68 operator++ (row.h:134: swap validates) *)
Definition ei_incr (e : extent_iter) : outcome extent_iter :=
  '(v, ok) <- permute_range next_permutation (ei_row e) (ei_nh e) (ei_nw e) ;;
  if (ok : bool) then
    _ <- validate v ;; Ret (mkEI (ei_nw e) (ei_nh e) (ei_nt e) false v)
  else Ret (mkEI (ei_nw e) (ei_nh e) (ei_nt e) true []).
(* extent.cpp:70-85 operator--.  end_ is not reset. *)
Definition ei_decr (e : extent_iter) : outcome extent_iter :=
  if ei_end e then
    let nw := ei_nw e in let nh := ei_nh e in let nt := ei_nt e in
    v <- forN 0 nh (fun v i => vset v i (b8 i)) (repeat 0 nt) ;;
    v <- forN nh (nw + nh) (fun v i => vset v i (b8 (nw + nh - 1 - i + nh))) v ;;
    v <- forN (nw + nh) nt (fun v i => vset v i (b8 i)) v ;;
    _ <- validate v ;; Ret (mkEI nw nh nt true v)
  else
    '(v, _) <- permute_range prev_permutation (ei_row e) (ei_nh e) (ei_nw e) ;;
    _ <- validate v ;; Ret (mkEI (ei_nw e) (ei_nh e) (ei_nt e) false v).
(* vector<bell>::operator<, row.h:146 *)
Fixpoint row_ltb (a b : list nat) : bool :=
  match a, b with
  | _, [] => false
  | [], _ :: _ => true
  | x :: a', y :: b' => if x <? y then true else if y <? x then false else row_ltb a' b'
  end.
(* row::operator== *)
Fixpoint row_eqb (a b : list nat) : bool :=
  match a, b with
  | [], [] => true
  | x :: a', y :: b' => (x =? y) && row_eqb a' b'
  | _, _ => false
  end.
(* extent.h:81-82 operator==, extent.cpp:87-92 operator< *)
Definition ei_eqb (a b : extent_iter) : bool :=
  Bool.eqb (ei_end a) (ei_end b) && (ei_end a || row_eqb (ei_row a) (ei_row b)).
Definition ei_ltb (a b : extent_iter) : bool :=
  if ei_end b then negb (ei_end a) else if ei_end a then false else row_ltb (ei_row a) (ei_row b).

(* for (e = begin; e != last; ++e) out.push_back( *e) *)
Fixpoint ei_traverse (fuel : nat) (e last : extent_iter) : outcome (list row) :=
  if ei_eqb e last then Ret [] else
  match fuel with
  | O => Diverge
  | S fuel => e' <- ei_incr e ;; l <- ei_traverse fuel e' last ;; Ret (ei_row e :: l)
  end.

(* extent.cpp:195-201 incourse_extent_iterator::operator++; the do-while repeats while
   the row is odd *)
Fixpoint ici_incr (fuel : nat) (sym : symtab) (e : extent_iter) : outcome extent_iter :=
  match fuel with
  | O => Diverge
  | S fuel =>
    e <- ei_incr e ;;
    if ei_end e then Ret e else
    s <- sign sym (ei_row e) ;;
    if (s <? 0)%Z then ici_incr fuel sym e else Ret e
  end.
Fixpoint ici_traverse (fuel : nat) (sym : symtab) (e last : extent_iter) : outcome (list row) :=
  if ei_eqb e last then Ret [] else
  match fuel with
  | O => Diverge
  | S fuel' => e' <- ici_incr fuel sym e ;; l <- ici_traverse fuel' sym e' last ;; Ret (ei_row e :: l)
  end.

(* extent.h:236-283 *)
Record changes_iter := mkCI { ci_nw : nat; ci_nh : nat; ci_end : bool; ci_c : change; ci_stk : list nat }.
(* the stack, top first; stk.back() on an empty stack is undefined.  Unsigned
   subtraction below 0 is followed by conversion to a bell, as is the difference in Z. *)
(* extent.cpp:211-212: while (stk.back() > nh+1 && !c.findswap(stk.back()-2)) stk.pop_back() *)
Fixpoint pop_places (nh : nat) (c : change) (stk : list nat) : outcome (list nat) :=
  match stk with
  | [] => UB
  | b :: t => if (nh + 1 <? b) && negb (findswap c (zb8 (Z.of_nat b - 2))) then pop_places nh c t else Ret stk
  end.
(* extent.cpp:220-224: while (stk.back() < nw+nh-1) { c.swappair(stk.back()); stk.push_back(stk.back() + 2); } *)
Fixpoint push_swaps (fuel last : nat) (c : change) (stk : list nat) : outcome (change * list nat) :=
  match stk with
  | [] => UB
  | b :: _ =>
    if b <? last then
      match fuel with
      | O => Diverge
      | S fuel => '(c, _) <- swappair c (b8 b) ;; push_swaps fuel last c (b + 2 :: stk)
      end
    else Ret (c, stk)
  end.
(* extent.cpp:203-225 next *)
Definition ci_next (e : changes_iter) : outcome changes_iter :=
  let '(mkCI nw nh en c stk) := e in
  match stk with
  | [] => UB
  | b :: _ =>
    if (nw =? 0) || ((length stk =? nw) && (b =? nw + nh - 1)) then Ret (mkCI nw nh true c stk) else
    stk <- pop_places nh c stk ;;
    match stk with
    | [] => UB
    | b :: t =>
      '(c, stk) <- (if findswap c (zb8 (Z.of_nat b - 2)) then
                      '(c, _) <- swappair c (zb8 (Z.of_nat b - 2)) ;; Ret (c, b - 1 :: t)
                    else Ret (c, stk)) ;;
      '(c, stk) <- push_swaps nw (nw + nh - 1) c stk ;;
      Ret (mkCI nw nh en c stk)
    end
  end.
(* extent.cpp:227-239 *)
Definition ci_begin (nw nh nt : nat) : outcome changes_iter :=
  let e := mkCI nw nh false (change_empty nt) [nh] in
  if 1 <? nw then ci_next e else Ret e.
(* for (e = begin; e != changes_iterator(); ++e) out.push_back( *e) *)
Fixpoint ci_traverse (fuel : nat) (e : changes_iter) : outcome (list change) :=
  if ci_end e then Ret [] else
  match fuel with
  | O => Diverge
  | S fuel => e' <- ci_next e ;; l <- ci_traverse fuel e' ;; Ret (ci_c e :: l)
  end.
