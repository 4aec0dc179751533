(* M_MethClass.v - model of method::methclass (ringing/method.cpp:298-411).
   The loops at 307 and 313 read lhr[n], one past the end of the lead head, before they test
   the bound.  That value (junk) is a parameter of the model. *)
From Verif Require Import Base M_Bell M_Change M_Math M_Row M_PN M_Method.
Open Scope nat_scope.

Definition row_at (junk : nat) (r : row) (i : nat) : outcome nat :=
  if i =? length r then Ret junk else vget r i.

(* method.h:57-72 *)
Definition M_PRINCIPLE : Z := 1.    Definition M_BOB : Z := 2.
Definition M_PLACE : Z := 3.        Definition M_TREBLE_BOB : Z := 4.
Definition M_SURPRISE : Z := 5.     Definition M_DELIGHT : Z := 6.
Definition M_TREBLE_PLACE : Z := 7. Definition M_ALLIANCE : Z := 8.
Definition M_HYBRID : Z := 9.       Definition M_SLOW_COURSE : Z := 10.
Definition M_DIFFERENTIAL : Z := 16. Definition M_LITTLE : Z := 128.

(* method.cpp:307: for (hb = 0; lhr[hb] != hb && hb < n; ++hb) *)
Fixpoint first_hunt_loop (fuel junk : nat) (r : row) (n i : nat) : outcome nat :=
  match fuel with
  | O => Diverge
  | S fuel => x <- row_at junk r i ;; if negb (x =? i) && (i <? n) then first_hunt_loop fuel junk r n (b8 (i + 1)) else Ret i
  end.
(* method.cpp:313: for (i = 0; lhr[i] == i && i < n; ++i) *)
Fixpoint first_work_loop (fuel junk : nat) (r : row) (n i : nat) : outcome nat :=
  match fuel with
  | O => Diverge
  | S fuel => x <- row_at junk r i ;; if (x =? i) && (i <? n) then first_work_loop fuel junk r n (i + 1) else Ret i
  end.
(* method.cpp:323-327 *)
Fixpoint diff_loop (k : nat) (r : row) (wb i : nat) : outcome bool :=
  match k with
  | O => Ret false
  | S k =>
    x <- vget r i ;;
    if x =? i then diff_loop k r wb (S i)
    else s <- cycle_size r i ;; if s =? wb then diff_loop k r wb (S i) else Ret true
  end.
(* method.cpp:341-347: how far the treble gets: j, tmin, tmax *)
Fixpoint range_loop (l : list change) (j tmin tmax : nat) : nat * nat :=
  match l with
  | [] => (tmin, tmax)
  | c :: l => let j := bell_mul j c in range_loop l j (if j <? tmin then j else tmin) (if tmax <? j then j else tmax)
  end.
(* method.cpp:364-365: for (i = 1; i < bells(); i++) if (hasdodges(i)) *)
Fixpoint any_dodges (k : nat) (m : method) (i : nat) : outcome bool :=
  match k with
  | O => Ret false
  | S k => d <- hasdodges m (b8 i) ;; if (d : bool) then Ret true else any_dodges k m (S i)
  end.
(* method.cpp:374-382: count (chars, compared only with each other: mod 256), place, j *)
Fixpoint count_loop (k : nat) (m : method) (tmin : nat) (i : Z) (st : list nat * bool * nat) : outcome (list nat * bool * nat) :=
  match k with
  | O => Ret st
  | S k =>
    let '(count, place, j) := st in
    if j <? tmin then UB else
    x <- vget count (j - tmin) ;; count <- vset count (j - tmin) (b8 (x + 1)) ;;
    c <- mget m (Z.rem i (mlen m)) ;;
    let j' := bell_mul j c in
    count_loop k m tmin (i + 1) (count, place || (j' =? j), j')
  end.
(* method.cpp:388-389 *)
Fixpoint all_same (k : nat) (count : list nat) (i : nat) : outcome bool :=
  match k with
  | O => Ret true
  | S k => a <- vget count i ;; b <- vget count (i - 1) ;; r <- all_same k count (S i) ;; Ret ((a =? b) && r)
  end.
(* method.cpp:399-404: y and n *)
Fixpoint sections_loop (fuel : nat) (m : method) (step i : Z) (y no : bool) : outcome (bool * bool) :=
  if (i <? Z.quot (mlen m) 2 - 1)%Z then
    match fuel with
    | O => Diverge
    | S fuel =>
      a <- mget m i ;;
      b <- mget m (mlen m - i - 2) ;;
      let y := y || internal a || internal b in
      let no := no || negb (internal a) || negb (internal b) in
      sections_loop fuel m step (i + step)%Z y no
    end
  else Ret (y, no).

(* method.cpp:386-410: once the blows of the half lead are counted *)
Definition mc_dodging (m : method) (cl : Z) (tmin tmax : nat) (count : list nat) (place : bool) : outcome Z :=
  same <- all_same (tmax - tmin) count 1 ;;
  if (same : bool) then
    if (place : bool) then Ret (Z.lor cl M_TREBLE_PLACE)
    else if tmax - tmin =? 1 then Ret (Z.lor cl M_TREBLE_BOB)
    else
      let step := Z.quot (mlen m) (Z.of_nat (tmax - tmin + 1)) in
      '(y, no) <- sections_loop (S (length (mch m))) m step (step - 1) false false ;;
      Ret (Z.lor cl (if negb y && no then M_TREBLE_BOB else if y && negb no then M_SURPRISE else M_DELIGHT))
  else Ret (Z.lor cl M_ALLIANCE).
(* method.cpp:357-384: a treble with a palindromic path *)
Definition mc_symmetric (junk : nat) (m : method) (lhr : row) (year cl : Z) (hb tmin tmax : nat) (sp : Z) : outcome Z :=
  if isplain m hb then
    slow <- (if (year <? 2019)%Z && (hb =? 0) then x <- row_at junk lhr 1 ;; (if x =? 1 then issym_bell m 1 else Ret false) else Ret false) ;;
    if (slow : bool) then Ret (Z.lor cl M_SLOW_COURSE) else
    d <- any_dodges (mb m - 1) m 1 ;;
    Ret (Z.lor cl (if (d : bool) then M_BOB else M_PLACE))
  else
    j <- trace (Z.to_nat (sp + 1)) m 0 hb ;;
    '(count, place, j) <- count_loop (Z.to_nat (Z.quot (mlen m) 2 - 1)) m tmin (sp + 1) (repeat 0 (tmax - tmin + 1), false, j) ;;
    (if j <? tmin then UB else
     x <- vget count (j - tmin) ;; count <- vset count (j - tmin) (b8 (x + 1)) ;;
     mc_dodging m cl tmin tmax count place).
(* method.cpp:339-354: a method with a hunt bell *)
Definition mc_hunting (junk : nat) (m : method) (lhr : row) (year cl : Z) (hb : nat) : outcome Z :=
  let '(tmin, tmax) := range_loop (mch m) hb hb hb in
  let cl := if (Z.of_nat tmax <? Z.of_nat (mb m) - 1)%Z || (0 <? tmin) then Z.lor cl M_LITTLE else cl in
  if negb (Z.rem (mlen m) 2 =? 0)%Z then Ret (Z.lor cl M_HYBRID) else
  sp <- symmetry_point_bell m hb ;;
  if (sp =? -1)%Z then Ret (Z.lor cl M_HYBRID) else mc_symmetric junk m lhr year cl hb tmin tmax sp.
(* method.cpp:298-411 methclass *)
Definition methclass (junk : nat) (m : method) (year : Z) : outcome Z :=
  lhr <- lh m ;;
  let n := mb m in
  hb <- first_hunt_loop 257 junk lhr n 0 ;;
  i <- first_work_loop 257 junk lhr n 0 ;;
  wb <- (if i <? n then cycle_size lhr i else Ret 0) ;;
  diff <- (if (2019 <=? year)%Z then diff_loop n lhr wb 0
           else h <- huntbells m ;; Ret (wb <? n - h)) ;;
  let cl := if (diff : bool) then M_DIFFERENTIAL else 0%Z in
  if hb =? n then Ret (Z.lor cl M_PRINCIPLE) else mc_hunting junk m lhr year cl hb.
