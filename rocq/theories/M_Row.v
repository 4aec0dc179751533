(* M_Row.v - model of ringing/row.{h,cpp}. A row is its vector of bells. *)
From Verif Require Import Base M_Bell M_Change M_Math.

Definition row := list nat.

(* row.cpp:72-76, 236-241 row(int), rounds(int): data[i] = i, a bell *)
Definition rounds (n : nat) : row := map b8 (seq 0 n).

(* row.cpp:96-107 validate: found[] is a vector<bool> of size bells() *)
Definition validate (d : row) : outcome unit :=
  _ <- forN 0 (length d) (fun found i =>
        b <- vget d i ;;
        if length d <=? b then Throw RowInvalid else
        f <- vget found b ;;
        if (f : bool) then Throw RowInvalid else vset found b true)
      (repeat false (length d)) ;;
  Ret tt.

(* row.cpp:109-113 row(vector<bell>) *)
Definition row_of_vector (d : list nat) : outcome row :=
  _ <- validate d ;; Ret d.

(* row.cpp:82-83, 91-92: while ( *s ) data.push_back(read_extended(s, &s)) *)
Fixpoint read_bells (fuel : nat) (sym : symtab) (s : list ascii) : outcome (list nat) :=
  match s with
  | [] => Ret []
  | _ :: _ =>
    match fuel with
    | O => Diverge
    | S fuel =>
      '(b, s') <- read_extended sym s ;;
      l <- read_bells fuel sym s' ;; Ret (b :: l)
    end
  end.
(* row.cpp:79-94 row(const char* ), row(string) *)
Definition row_of_string (sym : symtab) (s : list ascii) : outcome row :=
  d <- read_bells (length s) sym (c_str s) ;;
  row_of_vector d.

(* row.cpp:136-149 operator* *)
Definition mul (x r : row) : outcome row :=
  let m := Nat.max (length x) (length r) in
  p <- forN 0 (length r) (fun p i =>
         b <- vget r i ;;
         if b <? length x then a <- vget x b ;; vset p i a
         else vset p i b) (rounds m) ;;
  forN (length r) m (fun p i => a <- vget x i ;; vset p i a) p.

(* row.cpp:158-170 operator/ *)
Definition div (x r : row) : outcome row :=
  let m := Nat.max (length x) (length r) in
  let k := Nat.min (length x) (length r) in
  q <- forN 0 k (fun q i =>
         b <- vget r i ;; a <- vget x i ;; vset q b a) (rounds m) ;;
  q <- forN k (length x) (fun q i => a <- vget x i ;; vset q i a) q ;;
  forN (Nat.max k (length x)) (length r) (fun q i => b <- vget r i ;; vset q b (b8 i)) q.

(* row.cpp:179-187 inverse *)
Definition inverse (x : row) : outcome row :=
  match x with
  | [] => Ret []
  | _ :: _ => forN 0 (length x) (fun q i => b <- vget x i ;; vset q b (b8 i)) (rounds (length x))
  end.

(* row.h:138 swap(int,int) *)
Definition row_swap (r : row) (i j : nat) : outcome row :=
  a <- vget r i ;; b <- vget r j ;;
  r <- vset r i b ;; vset r j a.

(* row.cpp:192-193: while (r.bells() < c.bells()) r.data.push_back(r.bells()).
   At most n iterations. *)
Definition row_pad (n : nat) (r : row) : row :=
  r ++ map b8 (seq (length r) (n - length r)).

(* row.cpp:196-198 *)
Fixpoint apply_swaps (r : row) (l : list nat) : outcome row :=
  match l with
  | [] => Ret r
  | s :: t => if s + 1 <? length r then r' <- row_swap r s (s + 1) ;; apply_swaps r' t
              else Ret r
  end.
(* row.cpp:190-208 operator*=(row, change), row::operator*(change) *)
Definition row_mul_change (r : row) (c : change) : outcome row :=
  let r := row_pad (cn c) r in
  if negb (cn c =? 0) && negb (length r =? 0) then apply_swaps r (cswaps c) else Ret r.

(* row.cpp:210-213 conjugate *)
Definition conjugate (x r : row) : outcome row :=
  i <- inverse r ;; p <- mul i x ;; mul p r.

(* row.cpp:216-226 print *)
Definition row_print (sym : symtab) (r : row) : list ascii := map (to_char sym) r.

(* row.cpp:550-554 operator<< *)
Definition row_ostream (sym : symtab) (r : row) : list ascii := concat (map (print_bell sym) r).

(* row.cpp:244-262 queens *)
Definition queens (n : nat) : outcome row :=
  if n <=? 2 then Ret (rounds n) else
  let half := if n mod 2 =? 1 then (n + 1) / 2 else n / 2 in
  r <- forN 0 (half + 1) (fun r i => vset r i (b8 (i * 2))) (rounds n) ;;
  forN 0 (n / 2) (fun r i => vset r (i + half) (b8 (i * 2 + 1))) r.

(* int to bell conversion *)
Definition zb8 (z : Z) : nat := Z.to_nat (z mod 256).

(* row.cpp:265-283 kings *)
Definition kings (n : nat) : outcome row :=
  if n <=? 2 then Ret (rounds n) else
  let half := if n mod 2 =? 1 then (n + 1) / 2 else n / 2 in
  r <- forN 0 (half + 1) (fun r i =>
         vset r i (zb8 (Z.of_nat half * 2 - Z.of_nat i * 2 - 2)%Z)) (rounds n) ;;
  forN 0 (n / 2) (fun r i => vset r (i + half) (b8 (i * 2 + 1))) r.

(* row.cpp:286-298 tittums: i = 0, 2, ... then i = 1, 3, ...; j counts *)
Definition tittums (n : nat) : outcome row :=
  '(r, j) <- forN 0 ((n + 1) / 2) (fun '(r, j) k =>
         r <- vset r (2 * k) (b8 j) ;; Ret (r, S j)) (rounds n, 0) ;;
  '(r, _) <- forN 0 (n / 2) (fun '(r, j) k =>
         r <- vset r (2 * k + 1) (b8 j) ;; Ret (r, S j)) (r, j) ;;
  Ret r.

(* row.cpp:301-308 reverse_rounds(n) *)
Definition reverse_rounds (n : nat) : outcome row :=
  forN 0 n (fun r i => vset r i (b8 (n - i - 1))) (rounds n).

(* row.cpp:311-321 reverse_rounds(nw, nh, nt) *)
Definition reverse_rounds3 (nw nh nt : nat) : outcome row :=
  let nt := if nt =? 0 then nh + nw else nt in
  r <- forN 0 nh (fun r i => vset r i (b8 i)) (rounds nt) ;;
  forN nh (nh + nw) (fun r i => vset r i (b8 (2 * nh + nw - i - 1))) r.

(* row.cpp:331-334: swap pairs i, i+2, ... below n-1 *)
Definition pair_swaps (n i : nat) : outcome change :=
  forM (map (fun k => i + 2 * k) (seq 0 ((n - i) / 2)))
    (fun c i => '(c, _) <- swappair c (b8 i) ;; Ret c) (change_empty n).
(* row.cpp:326-344 pblh *)
Definition pblh (n h : nat) : outcome row :=
  c1 <- pair_swaps n h ;;
  r <- row_mul_change (rounds n) c1 ;;
  c2 <- pair_swaps n (h + 1) ;;
  row_mul_change r c2.

(* row.cpp:346-355 cyclic; std::rotate of [h,end) by c *)
Definition cyclic (n h : nat) (c : Z) : row :=
  if h <? n then
    let m := Z.of_nat (n - h) in
    let c := Z.rem c m in
    let c := Z.to_nat (if (c <? 0)%Z then (c + m)%Z else c) in
    let r := rounds n in
    firstn h r ++ skipn c (skipn h r) ++ firstn c (skipn h r)
  else rounds n.

(* row.cpp:358-364 isrounds *)
Definition isrounds (r : row) : bool :=
  forallb (fun i => nth i r 0 =? i) (seq 0 (length r)).

Definition row_eqb (a b : row) : bool := if list_eq_dec Nat.eq_dec a b then true else false.

(* row.cpp:370-373 *)
Fixpoint ispblh_loop (k i : nat) (x l r : row) : outcome nat :=
  match k with
  | O => Ret 0
  | S k => if row_eqb x r then Ret i else r' <- mul r l ;; ispblh_loop k (S i) x l r'
  end.
(* row.cpp:367-375 ispblh(h) *)
Definition ispblh_h (x : row) (h : nat) : outcome nat :=
  l <- pblh (length x) h ;;
  ispblh_loop (length x - h - 1) 1 x l l.

(* row.cpp:382 *)
Fixpoint leading_fixed (h : nat) (x : row) : nat :=
  match x with b :: t => if b =? h then leading_fixed (S h) t else h | [] => h end.
(* row.cpp:378-385 ispblh() *)
Definition ispblh (x : row) : outcome nat :=
  match x with
  | [] => Ret 1
  | _ :: _ => let h := leading_fixed 0 x in if h =? 0 then Ret 0 else ispblh_h x h
  end.

(* row.cpp:390-393: do { i = data[i]; ++n; } while (i != b) *)
Fixpoint cycle_size_loop (fuel : nat) (x : row) (b i n : nat) : outcome nat :=
  match fuel with
  | O => Diverge
  | S fuel => i' <- vget x i ;;
              if i' =? b then Ret (S n) else cycle_size_loop fuel x b i' (S n)
  end.
(* row.cpp:387-395 cycle_size *)
Definition cycle_size (x : row) (b : nat) : outcome nat :=
  cycle_size_loop (S (length x)) x b b 0.

(* row.cpp:408/436: while (i < bells() && done[i]) ++i *)
Fixpoint next_undone (fuel : nat) (done : list bool) (i : nat) : outcome nat :=
  match fuel with
  | O => Diverge
  | S fuel =>
    if i <? length done then
      d <- vget done i ;; if (d : bool) then next_undone fuel done (S i) else Ret i
    else Ret i
  end.

(* row.cpp:410-413/438-442: follow one cycle; returns the bells met, done, i *)
Fixpoint walk_cycle (fuel : nat) (x : row) (done : list bool) (i : nat)
  : outcome (list nat * list bool * nat) :=
  match fuel with
  | O => Diverge
  | S fuel =>
    done <- vset done i true ;;
    i' <- vget x i ;;
    d <- vget done i' ;;
    if (d : bool) then Ret ([i], done, i')
    else '(l, done, i'') <- walk_cycle fuel x done i' ;; Ret (i :: l, done, i'')
  end.

(* row.cpp:405-415/433-444: the common outer loop; the list of walks *)
Fixpoint cycles_loop (fuel : nat) (x : row) (done : list bool) (i : nat)
  : outcome (list (list nat)) :=
  match fuel with
  | O => Diverge
  | S fuel =>
    i <- next_undone (S (length x)) done i ;;
    if i =? length x then Ret [] else
    '(l, done, i') <- walk_cycle (S (length x)) x done i ;;
    ls <- cycles_loop fuel x done i' ;; Ret (l :: ls)
  end.
Definition cycle_lists (x : row) : outcome (list (list nat)) :=
  cycles_loop (S (length x)) x (repeat false (length x)) 0.

(* row.cpp:398-418 num_cycles *)
Definition num_cycles (x : row) : outcome nat :=
  match x with [] => Ret 0 | _ :: _ => ls <- cycle_lists x ;; Ret (length ls) end.

(* row.cpp:421-448 cycles: each walk followed by ',', then the final one erased.
   bell(i).to_char() with bell(i) = i mod 256. *)
Definition cycles (sym : symtab) (x : row) : outcome (list ascii) :=
  match x with
  | [] => Ret []
  | _ :: _ =>
    ls <- cycle_lists x ;;
    Ret (removelast (concat (map (fun l => map (fun i => to_char sym (b8 i)) l ++ [chr ","]) ls)))
  end.

(* row.cpp:476-480: the scan of the cycles string; len is j - i *)
Fixpoint order_loop (s : list ascii) (len : nat) (o : Z) : outcome Z :=
  match s with
  | [] => lcm o (Z.of_nat len)
  | c :: t => if eqc c (chr ",") then
                o <- lcm o (Z.of_nat len) ;;
                match t with [] => Ret o | _ :: _ => order_loop t 0 o end
              else order_loop t (S len) o
  end.
(* row.cpp:459-483 order *)
Definition order (sym : symtab) (x : row) : outcome Z :=
  match x with
  | [] => Ret 1%Z
  | _ :: _ => s <- cycles sym x ;; match s with [] => Ret 1%Z | _ :: _ => order_loop s 0 1%Z end
  end.

(* row.cpp:486-491 sign *)
Definition sign (sym : symtab) (x : row) : outcome Z :=
  match x with
  | [] => Ret 1%Z
  | _ :: _ => s <- cycles sym x ;; Ret (if Nat.odd (length s) then 1%Z else (-1)%Z)
  end.

(* row.cpp:493-506 hash (64-bit size_t) *)
Definition hash (x : row) : Z :=
  fold_left (fun h b => ((31 * h + Z.of_nat b) mod 18446744073709551616)%Z) x (Z.of_nat (length x)).

(* row.cpp:508-517 find *)
Fixpoint find_from (i : nat) (x : row) (b : nat) : nat :=
  match x with [] => b | a :: t => if a =? b then i else find_from (S i) t b end.
Definition find (x : row) (b : nat) : nat := find_from 0 x b.

(* row.cpp:519-535 power.  The argument is an int (Z); the recursion needs fuel. *)
Fixpoint power_f (fuel : nat) (sym : symtab) (x : row) (n : Z) : outcome row :=
  match fuel with
  | O => Diverge
  | S fuel =>
    let b := Z.of_nat (length x) in
    if (n =? 0)%Z then Ret (rounds (length x))
    else if (n <? 0)%Z then
      m <- as_int (- n)%Z ;; i <- inverse x ;; power_f fuel sym i m
    else if (n >? b * b)%Z then
      o <- order sym x ;;
      if (o =? 0)%Z then UB else power_f fuel sym x (Z.rem n o)
    else if negb (Z.rem n 2 =? 0)%Z then
      p <- power_f fuel sym x (n - 1)%Z ;; mul x p
    else
      t <- power_f fuel sym x (Z.quot n 2) ;; mul t t
  end.
Definition power (sym : symtab) (x : row) (n : Z) : outcome row := power_f 100 sym x n.

(* row.cpp:537-548 resize *)
Definition resize (x : row) (b : nat) : outcome row :=
  if b <? length x then row_of_vector (firstn b x) else Ret (row_pad b x).

(* row.cpp:641-653 conjugacy_class_vector: split at ',', then std::sort with
   cycle_cmp.  std::sort is any function returning a sorted permutation; the
   theorems quantify over it. *)
Fixpoint split_comma (cur s : list ascii) : list (list ascii) :=
  match s with
  | [] => [cur]
  | c :: t => if eqc c (chr ",") then cur :: split_comma [] t else split_comma (cur ++ [c]) t
  end.
Definition conjugacy_class_vector (srt : list (list ascii) -> list (list ascii))
  (sym : symtab) (x : row) : outcome (list (list ascii)) :=
  c <- cycles sym x ;; Ret (srt (split_comma [] c)).

(* row.cpp:655-659 are_conjugate_impl *)
Fixpoint are_conjugate_impl (xc yc : list (list ascii)) : bool :=
  match xc, yc with
  | [], [] => true
  | a :: xc, b :: yc => (length a =? length b) && are_conjugate_impl xc yc
  | _, _ => false
  end.
(* row.cpp:661-668 cycles_as_row *)
Definition cycles_as_row (sym : symtab) (rc : list (list ascii)) : outcome row :=
  row_of_string sym (concat rc).

(* row.cpp:672-676 are_conjugate *)
Definition are_conjugate srt (sym : symtab) (x y : row) : outcome bool :=
  xc <- conjugacy_class_vector srt sym x ;;
  yc <- conjugacy_class_vector srt sym y ;;
  Ret (are_conjugate_impl xc yc).

(* row.cpp:686-695 conjugator *)
Definition conjugator srt (sym : symtab) (x y : row) : outcome row :=
  xc <- conjugacy_class_vector srt sym x ;;
  yc <- conjugacy_class_vector srt sym y ;;
  if are_conjugate_impl xc yc then
    a <- cycles_as_row sym xc ;; b <- cycles_as_row sym yc ;;
    bi <- inverse b ;; mul a bi
  else Ret [].
