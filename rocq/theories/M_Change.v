(* M_Change.v - model of ringing/change.{h,cpp}. *)
From Verif Require Import Base M_Bell.

(* change.h:113-115.  n is a C++ int; negative n is not modelled. *)
Record change := mkChange { cn : nat; cswaps : list nat }.

(* change.h:50-51 *)
Definition change_empty (n : nat) : change := mkChange n [].

(* change.cpp:51: for (bell s = from; s < to-1; s += 2) swaps.push_back(s) *)
Fixpoint asb_loop (fuel s to : nat) : outcome (list nat) :=
  match fuel with
  | O => Diverge
  | S fuel =>
    if s + 1 <? to then l <- asb_loop fuel (b8 (s + 2)) to ;; Ret (s :: l)
    else Ret []
  end.

(* change.cpp:49-53 append_swaps_between.  Parameters are bells (mod 256). *)
Definition append_swaps_between (swaps : list nat) (from to : nat)
  : outcome (list nat * nat) :=
  l <- asb_loop 257 from to ;; Ret (swaps ++ l, b8 (to + 1)).

(* change.cpp:73-76 and 88-91: one place p, current position b *)
Definition add_place (n : nat) (st : list nat * nat) (p : nat) : outcome (list nat * nat) :=
  let '(swaps, b) := st in
  if (n <=? p) || (p <? b) || (negb (b =? 0) && negb ((p - b) mod 2 =? 0))
  then Throw ChangeInvalid
  else
    let b := if (b =? 0) && negb ((p - b) mod 2 =? 0) then 1 else b in
    append_swaps_between swaps b p.

(* change.cpp:70-77: the loop over the characters of the place notation *)
Fixpoint change_parse_loop (fuel : nat) (sym : symtab) (n : nat) (q : list ascii)
  (st : list nat * nat) : outcome (list nat * nat) :=
  match q with
  | [] => Ret st
  | _ :: _ =>
    match fuel with
    | O => Diverge
    | S fuel =>
      '(p, q') <- read_extended sym q ;;
      st' <- add_place n st p ;;
      change_parse_loop fuel sym n q' st'
    end
  end.

Definition is_cross (pn : list ascii) : bool :=
  list_ascii_eqb pn (str "X") || list_ascii_eqb pn (str "x") || list_ascii_eqb pn (str "-").

(* change.cpp:58-80 change(int, string) *)
Definition change_of_pn (sym : symtab) (n : nat) (pn : list ascii) : outcome change :=
  match pn with
  | [] => if n =? 0 then Ret (mkChange n []) else Throw ChangeInvalid
  | _ :: _ =>
    '(swaps, b) <- (if is_cross pn then Ret ([], 0)
                    else change_parse_loop (length pn) sym n (c_str pn) ([], 0)) ;;
    '(swaps, _) <- append_swaps_between swaps b (b8 n) ;;
    Ret (mkChange n swaps)
  end.

(* change.cpp:82-94 change(int, vector<bell>) *)
Definition change_of_places (n : nat) (places : list nat) : outcome change :=
  '(swaps, b) <- forM places (add_place n) ([], 0) ;;
  '(swaps, _) <- append_swaps_between swaps b (b8 n) ;;
  Ret (mkChange n swaps).

(* change.h:60-61 operator== *)
Definition change_eqb (a b : change) : bool :=
  (cn a =? cn b) && ((cn a =? 0) || (if list_eq_dec Nat.eq_dec (cswaps a) (cswaps b) then true else false)).

(* change.cpp:106-113 reverse: n - 2 - s converted to bell (mod 256) *)
Definition change_reverse (c : change) : change :=
  mkChange (cn c)
    (map (fun s => Z.to_nat ((Z.of_nat (cn c) - 2 - Z.of_nat s) mod 256)%Z) (rev (cswaps c))).

(* change.cpp:223/226: while (b < s) pl.push_back(b++), b a bell *)
Fixpoint push_while (fuel b s : nat) (pl : list nat) : outcome (list nat * nat) :=
  match fuel with
  | O => Diverge
  | S fuel => if b <? s then push_while fuel (b8 (b + 1)) s (pl ++ [b]) else Ret (pl, b)
  end.

(* change.cpp:219-228 places *)
Definition places (c : change) : outcome (list nat) :=
  '(pl, b) <- forM (cswaps c) (fun '(pl, b) s =>
       '(pl, _) <- push_while 257 b s pl ;; Ret (pl, b8 (s + 2))) ([], 0) ;;
  '(pl, _) <- push_while 257 b (cn c) pl ;;
  Ret pl.

(* change.cpp:215-217 count_places *)
Definition count_places (c : change) : outcome nat :=
  pl <- places c ;; Ret (length pl).

(* change.h:73-78: the format flags, as the character printed for a cross *)
Inductive cross_flag := Cross_default | Cross_lower | Cross_dash.
Definition cross_text (f : cross_flag) : list ascii :=
  match f with Cross_default => str "X" | Cross_lower => str "x" | Cross_dash => str "-" end.

(* change.cpp:116-131 print *)
Definition change_print (sym : symtab) (f : cross_flag) (c : change) : outcome (list ascii) :=
  pl <- places c ;;
  let ret := concat (map (print_bell sym) pl) in
  Ret (if negb (cn c =? 0) && (match ret with [] => true | _ => false end)
       then cross_text f else ret).

(* change.cpp:146-149 *)
Fixpoint findswap_loop (l : list nat) (which : nat) : bool :=
  match l with
  | [] => false
  | s :: t => if s <=? which then (if s =? which then true else findswap_loop t which) else false
  end.
(* change.cpp:143-150 findswap *)
Definition findswap (c : change) (which : nat) : bool :=
  if cn c =? 0 then false else findswap_loop (cswaps c) which.

(* change.cpp:156-159 *)
Fixpoint findplace_loop (l : list nat) (which : nat) : bool :=
  match l with
  | [] => true
  | s :: t => if s <=? which
              then (if (s =? which) || (S s =? which) then false else findplace_loop t which)
              else true
  end.
(* change.cpp:153-160 findplace *)
Definition findplace (c : change) (which : nat) : bool :=
  if cn c =? 0 then true else findplace_loop (cswaps c) which.

(* change.cpp:175-195: the loop of swappair; pre is the part before iterator s,
   rest the part from it on *)
Fixpoint swappair_loop (which : nat) (pre rest : list nat) : outcome (list nat * bool) :=
  match rest with
  | [] => Ret (pre ++ [which], true)                       (* 194: insert at end *)
  | s :: t =>
    if s <=? which + 1 then
      if s =? which then Ret (pre ++ t, false)              (* 176-179 *)
      else if S s =? which then                             (* 180-186 *)
        match t with
        | [] => UB                                          (* 183: *s with s == end() *)
        | s' :: t' => Ret (pre ++ which :: (if s' =? which + 1 then t' else t), true)
        end
      else if s =? which + 1 then Ret (pre ++ which :: t, true)   (* 187-191 *)
      else swappair_loop which (pre ++ [s]) t
    else Ret (pre ++ which :: rest, true)                   (* 194 *)
  end.
(* change.cpp:164-196 swappair: the new change and the returned flag *)
Definition swappair (c : change) (which : nat) : outcome (change * bool) :=
  if cn c <? which + 2 then Throw ChangeOutOfRange
  else '(sw, r) <- swappair_loop which [] (cswaps c) ;; Ret (mkChange (cn c) sw, r).

(* change.cpp:205-208 *)
Fixpoint internal_loop (b : nat) (l : list nat) : bool :=
  match l with
  | [] => false
  | s :: t => if (2 <? Z.of_nat s - Z.of_nat b)%Z then true else internal_loop s t
  end.
(* change.cpp:199-211 internal *)
Definition internal (c : change) : bool :=
  if cn c <? 3 then false else
  match cswaps c with
  | [] => true
  | s0 :: t =>
    if 1 <? s0 then true
    else if internal_loop s0 t then true
    else (3 <? Z.of_nat (cn c) - Z.of_nat (last (cswaps c) 0%nat))%Z
  end.

(* change.cpp:231-234 sign *)
Definition change_sign (c : change) : Z :=
  if cn c =? 0 then 1%Z else if Nat.odd (length (cswaps c)) then (-1)%Z else 1%Z.

(* change.cpp:240-244 *)
Fixpoint bell_mul_loop (l : list nat) (b : nat) : nat :=
  match l with
  | [] => b
  | s :: t => if s <=? b then
                bell_mul_loop t (if S s =? b then b - 1 else if s =? b then b8 (b + 1) else b)
              else b
  end.
(* change.cpp:237-246 operator*=(bell&, change) *)
Definition bell_mul (b : nat) (c : change) : nat := bell_mul_loop (cswaps c) b.

(* change.cpp:248-258 have_same_places (findplace takes a bell: i mod 256) *)
Definition have_same_places (a b : change) : outcome bool :=
  if negb (cn a =? cn b) then Throw LogicError
  else Ret (existsb (fun i => findplace a (b8 i) && findplace b (b8 i)) (seq 0 (cn a))).

(* vector<bell>::operator< (lexicographical_compare) *)
Fixpoint lex_ltb (a b : list nat) : bool :=
  match a, b with
  | _, [] => false
  | [], _ :: _ => true
  | x :: a', y :: b' => if x <? y then true else if y <? x then false else lex_ltb a' b'
  end.
(* change.h:90-92 operator< *)
Definition change_ltb (a b : change) : bool :=
  (cn a <? cn b) || ((cn a =? cn b) && lex_ltb (cswaps a) (cswaps b)).
