(* M_Dim.v - model of ringing/dimension.{h,cpp} (not set_float, in_points). *)
From Verif Require Import Base M_Bell.

(* dimension.h:50-55 *)
Inductive units := points | inches | cm | mm.
Record dim := mkDim { dn : Z; dd : Z; du : units }.

(* dimension.cpp:57: while(b != 0) { r = a % b; a = b; b = r; }.  |b| decreases,
   which bounds the iterations.  % truncates; INT_MIN % -1 overflows. *)
Definition int_rem (a b : Z) : outcome Z :=
  if (b =? 0)%Z then UB else _ <- as_int (Z.quot a b) ;; Ret (Z.rem a b).
Definition int_quot (a b : Z) : outcome Z :=
  if (b =? 0)%Z then UB else as_int (Z.quot a b).
Fixpoint euclid (fuel : nat) (a b : Z) : outcome Z :=
  if (b =? 0)%Z then Ret a else
  match fuel with
  | O => Diverge
  | S fuel => r <- int_rem a b ;; euclid fuel b r
  end.
(* dimension.cpp:54-60 reduce *)
Definition reduce (x : dim) : outcome dim :=
  a <- euclid (Z.to_nat (Z.abs (dd x))) (dn x) (dd x) ;;
  n <- int_quot (dn x) a ;;
  d <- int_quot (dd x) a ;;
  if (d <? 0)%Z then d <- as_int (- d) ;; n <- as_int (- n) ;; Ret (mkDim n d (du x))
  else Ret (mkDim n d (du x)).

(* dimension.h:73-74 operator*=, operator/= *)
Definition dim_mul (x : dim) (i : Z) : outcome dim := n <- as_int (dn x * i) ;; reduce (mkDim n (dd x) (du x)).
Definition dim_div (x : dim) (i : Z) : outcome dim := d <- as_int (dd x * i) ;; reduce (mkDim (dn x) d (du x)).

(* dimension.cpp:37 unit_strings *)
Definition unit_string (u : units) : list ascii :=
  match u with points => str "pt" | inches => str "in" | cm => str "cm" | mm => str "mm" end.
(* dimension.cpp:41-52 unit_names *)
Definition dquote : ascii := ascii_of_nat 34.
Definition unit_names : list (list ascii * units) :=
  [(str "pt", points); (str "points", points); (str "point", points);
   (str "in", inches); ([dquote], inches); (str "inches", inches); (str "inch", inches);
   (str "cm", cm); (str "mm", mm)].

(* ostream << int *)
Definition print_int (z : Z) : list ascii :=
  if (z <? 0)%Z then chr "-" :: print_nat (Z.to_nat (- z)) else print_nat (Z.to_nat z).

(* dimension.cpp:69-81 operator<< *)
Definition dim_print (x : dim) : outcome (list ascii) :=
  if (dd x =? 0)%Z then Ret [] else
  if (dn x =? 0)%Z then Ret [chr "0"] else
  r <- int_rem (dn x) (dd x) ;;
  m <- as_int (dn x - r) ;;
  q <- int_quot m (dd x) ;;
  r' <- (if (r <? 0)%Z then as_int (- r) else Ret r) ;;
  Ret ((if (q =? 0)%Z then [] else print_int q) ++
       (if negb (q =? 0)%Z && negb (r =? 0)%Z then [chr " "] else []) ++
       (if (r' =? 0)%Z then [] else print_int r' ++ chr "/" :: print_int (dd x)) ++
       chr " " :: unit_string (du x)).
(* dimension.cpp:83-86 write: the ends manipulator appends a NUL to the string *)
Definition dim_write (x : dim) : outcome (list ascii) := t <- dim_print x ;; Ret (t ++ [zero]).

(* while(isdigit( *s)) a = 10*a + ( *s++ - '0') *)
Fixpoint digits_loop (a : Z) (s : list ascii) : outcome (Z * list ascii) :=
  match s with
  | c :: t => if is_digit c then a <- as_int (10 * a + digit_val c) ;; digits_loop a t else Ret (a, s)
  | [] => Ret (a, [])
  end.
(* the same with b = 10*b (dimension.cpp:107) *)
Fixpoint decimals_loop (a b : Z) (s : list ascii) : outcome (Z * Z * list ascii) :=
  match s with
  | c :: t => if is_digit c then
      a <- as_int (10 * a + digit_val c) ;; b <- as_int (10 * b) ;; decimals_loop a b t
    else Ret (a, b, s)
  | [] => Ret (a, b, [])
  end.
(* if(!isdigit( *s)) throw; a = *s++ - '0'; loop *)
Definition number (s : list ascii) : outcome (Z * list ascii) :=
  match s with
  | c :: t => if is_digit c then digits_loop (digit_val c) t else Throw DimInvalid
  | [] => Throw DimInvalid
  end.

Fixpoint take_word (s : list ascii) : list ascii :=
  match s with c :: t => if is_space c then [] else c :: take_word t | [] => [] end.
Fixpoint find_unit (l : list (list ascii * units)) (w : list ascii) : option units :=
  match l with
  | [] => None
  | (k, u) :: t => if list_ascii_eqb k w then Some u else find_unit t w
  end.
(* dimension.cpp:142-151 read_units: a word up to white space; what follows is ignored *)
Definition read_units (s : list ascii) : outcome units :=
  match find_unit unit_names (take_word (skip_space s)) with
  | Some u => Ret u
  | None => Throw DimInvalid
  end.

(* dimension.cpp:89-140 read, on the characters before the terminating NUL *)
Definition dim_read (s : list ascii) : outcome dim :=
  let s := skip_space s in
  let '(neg, s) := match s with c :: t => if eqc c (chr "-") then (true, t) else (false, s) | [] => (false, s) end in
  let s := skip_space s in
  let signed z := if (neg : bool) then as_int (- z) else Ret z in
  '(a, s) <- number s ;;
  x <- (if starts_with (chr ".") s then
    '(a, b, s) <- decimals_loop a 1 (tl s) ;;
    u <- read_units s ;; n <- signed a ;; Ret (mkDim n b u)
  else
    let s := skip_space s in
    if starts_with_digit s then
      '(b, s) <- number s ;;
      let s := skip_space s in
      if starts_with (chr "/") s then
        '(c, s) <- number (skip_space (tl s)) ;;
        u <- read_units s ;;
        p <- as_int (a * c) ;; n <- as_int (p + b) ;; n <- signed n ;; Ret (mkDim n c u)
      else Throw DimInvalid
    else if starts_with (chr "/") s then
      '(c, s) <- number (skip_space (tl s)) ;;
      u <- read_units s ;; n <- signed a ;; Ret (mkDim n c u)
    else
      u <- read_units s ;; n <- signed a ;; Ret (mkDim n 1%Z u)) ;;
  reduce x.
