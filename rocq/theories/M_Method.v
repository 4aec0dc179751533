(* M_Method.v - model of ringing/method.{h,cpp}.  Names (fullname, classname, stagename,
   set_untitled) are not modelled.  Indices computed in int are Z, and reading the vector
   of changes with an index out of range is UB.  Sizes are below 2^31. *)
From Verif Require Import Base M_Bell M_Change M_Math M_Row M_PN.
Open Scope nat_scope.

(* method.h:150-151: the changes and b *)
Record method := mkMethod { mch : list change; mb : nat }.
Definition mlen (m : method) : Z := Z.of_nat (length (mch m)).
(* (this)[i] *)
Definition mget (m : method) (i : Z) : outcome change :=
  if (i <? 0)%Z then UB else vget (mch m) (Z.to_nat i).

(* method.cpp:113-115 method(vector<change>) *)
Definition method_of_changes (ch : list change) : method :=
  mkMethod ch (match ch with c :: _ => cn c | [] => 0 end).
(* method.cpp:117-129 method(pn, b) *)
Definition method_of_pn (sym : symtab) (pn : list ascii) (b : nat) : outcome method :=
  l <- interpret_pn sym b pn ;; Ret (mkMethod l b).
(* method.h:103-104 push_back(change) *)
Definition method_push (m : method) (c : change) : method :=
  mkMethod (mch m ++ [c]) (if cn c <? mb m then mb m else cn c).
(* method.h:105-106 push_back(string) *)
Definition method_push_pn (sym : symtab) (m : method) (s : list ascii) : outcome method :=
  c <- change_of_pn sym (mb m) s ;; Ret (mkMethod (mch m ++ [c]) (mb m)).

(* method.cpp:131-137 lh *)
Definition lh (m : method) : outcome row := forM (mch m) row_mul_change (rounds (mb m)).
(* method.cpp:139-142 leads *)
Definition leads (sym : symtab) (m : method) : outcome Z := r <- lh m ;; order sym r.
(* method.cpp:144-147 isregular *)
Definition isregular (m : method) : outcome bool := r <- lh m ;; n <- ispblh r ;; Ret (negb (n =? 0)).
(* method.cpp:203-210 huntbells *)
Definition huntbells (m : method) : outcome nat :=
  r <- lh m ;; forN 0 (mb m) (fun n i => x <- vget r i ;; Ret (if x =? i then S n else n)) 0.

(* method.cpp:175, 225, 235: n%2==0 ? n/2 : n/2+1 *)
Definition half_up (n : Z) : Z := if (Z.rem n 2 =? 0)%Z then Z.quot n 2 else (Z.quot n 2 + 1)%Z.
(* method.cpp:175-177: the loop of is_palindromic_about, k steps from j on *)
Fixpoint pal_loop (k : nat) (m : method) (i j : Z) : outcome bool :=
  match k with
  | O => Ret true
  | S k =>
    a <- mget m (Z.rem (i + j) (mlen m)) ;;
    b <- mget m (Z.rem (i - j + mlen m) (mlen m)) ;;
    if change_eqb a b then pal_loop k m i (j + 1) else Ret false
  end.
(* method.cpp:172-180 is_palindromic_about(int) *)
Definition is_palindromic_about (m : method) (i : Z) : outcome bool :=
  pal_loop (Z.to_nat (half_up (mlen m) - 1)) m i 1.
(* method.cpp:184-189 issym *)
Definition issym (m : method) : outcome bool :=
  if Z.odd (mlen m) then Ret false else is_palindromic_about m (Z.quot (mlen m) 2 - 1).
(* method.cpp:194-200 isdouble *)
Fixpoint isdouble_loop (k : nat) (m : method) (i : Z) : outcome bool :=
  match k with
  | O => Ret true
  | S k =>
    a <- mget m i ;; b <- mget m (Z.quot (mlen m) 2 + i) ;;
    if change_eqb a (change_reverse b) then isdouble_loop k m (i + 1) else Ret false
  end.
Definition isdouble (m : method) : outcome bool :=
  if Z.odd (mlen m) then Ret false else isdouble_loop (Z.to_nat (Z.quot (mlen m) 2)) m 0.
(* method.cpp:546-549, 557-560: the first i in [i, i+k) with a property, or -1 *)
Fixpoint first_point (k : nat) (p : Z -> outcome bool) (i : Z) : outcome Z :=
  match k with
  | O => Ret (-1)%Z
  | S k => b <- p i ;; if (b : bool) then Ret i else first_point k p (i + 1)%Z
  end.
(* method.cpp:542-551 symmetry_point *)
Definition symmetry_point (m : method) : outcome Z :=
  if negb (Z.rem (mlen m) 2 =? 0)%Z then Ret (-1)%Z
  else first_point (Z.to_nat (Z.quot (mlen m) 2)) (is_palindromic_about m) 0.
(* method.cpp:681-684 ispalindromic *)
Definition ispalindromic (m : method) : outcome bool :=
  s <- symmetry_point m ;; Ret (negb (s =? -1)%Z).

(* method.cpp:217-218, 375: b *= m[j%n] for j in [j, j+k) *)
Fixpoint trace (k : nat) (m : method) (j : Z) (b : nat) : outcome nat :=
  match k with
  | O => Ret b
  | S k => c <- mget m (Z.rem j (mlen m)) ;; trace k m (j + 1)%Z (bell_mul b c)
  end.
(* method.cpp:225-232 *)
Fixpoint pal_bell_loop (k : nat) (m : method) (i j : Z) (b : nat) : outcome (option nat) :=
  match k with
  | O => Ret (Some b)
  | S k =>
    c1 <- mget m (Z.rem (i + j) (mlen m)) ;;
    c2 <- mget m (Z.rem (i - j + mlen m) (mlen m)) ;;
    if bell_mul b c1 =? bell_mul b c2 then pal_bell_loop k m i (j + 1)%Z (bell_mul b c1) else Ret None
  end.
(* method.cpp:212-239 is_palindromic_about(bell, int); (i+1) % n is undefined when n is 0 *)
Definition is_palindromic_about_bell (m : method) (b : nat) (i : Z) : outcome bool :=
  if (mlen m =? 0)%Z then UB else
  b <- trace (Z.to_nat (Z.rem (i + 1) (mlen m))) m 0 b ;;
  c <- mget m i ;;
  if negb (bell_mul b c =? b) then Ret false else
  r <- pal_bell_loop (Z.to_nat (half_up (mlen m) - 1)) m i 1 b ;;
  match r with
  | None => Ret false
  | Some b => c <- mget m (i + half_up (mlen m)) ;; Ret (bell_mul b c =? b)
  end.
(* method.cpp:242-247 issym(bell) *)
Definition issym_bell (m : method) (b : nat) : outcome bool :=
  if Z.odd (mlen m) then Ret false else is_palindromic_about_bell m b (Z.quot (mlen m) 2 - 1).
(* method.cpp:553-562 symmetry_point(bell) *)
Definition symmetry_point_bell (m : method) (b : nat) : outcome Z :=
  if negb (Z.rem (mlen m) 2 =? 0)%Z then Throw AssertFailed
  else first_point (Z.to_nat (Z.quot (mlen m) 2)) (is_palindromic_about_bell m b) 0.
(* method.cpp:686-689 ispalindromic(bell) *)
Definition ispalindromic_bell (m : method) (b : nat) : outcome bool :=
  s <- symmetry_point_bell m b ;; Ret (negb (s =? -1)%Z).

(* method.cpp:250-265 isplain: the state is j, dir, dirchanges; findswap takes a bell (mod 256) *)
Fixpoint isplain_loop (l : list change) (b : nat) (j dir : Z) (dirchanges : nat) : bool :=
  match l with
  | [] => (j =? Z.of_nat b)%Z && (dirchanges =? 2)
  | c :: l =>
    if findswap c (zb8 (j - 1 + dir)) then false
    else if findswap c (zb8 (j - dir)) then isplain_loop l b (if (dir =? 1)%Z then j - 1 else j + 1)%Z dir dirchanges
    else isplain_loop l b j (1 - dir)%Z (S dirchanges)
  end.
Definition isplain (m : method) (b : nat) : bool :=
  isplain_loop (mch m) b (Z.of_nat b) (if Nat.odd b then 1 else 0)%Z 0.

(* method.cpp:268-281 hasdodges; i % n with n = 0 is undefined *)
Fixpoint hasdodges_loop (k : nat) (m : method) (i : Z) (j j1 : nat) : outcome bool :=
  match k with
  | O => Ret false
  | S k =>
    c <- (if (mlen m =? 0)%Z then UB else mget m (Z.rem i (mlen m))) ;;
    let j2 := j1 in let j1 := j in let j := bell_mul j c in
    if (j =? j2) && negb (j =? j1) then Ret true else hasdodges_loop k m (i + 1)%Z j j1
  end.
Definition hasdodges (m : method) (b : nat) : outcome bool :=
  hasdodges_loop (S (length (mch m))) m 0 b 255.

(* method.cpp:284-295 hasplaces *)
Fixpoint hasplaces_loop (l : list change) (n j : nat) : bool :=
  match l with
  | [] => false
  | c :: l =>
    let j1 := j in let j := bell_mul j c in
    if (j =? j1) && (0 <? j) && (j + 1 <? n) then true else hasplaces_loop l n j
  end.
Definition hasplaces (m : method) (b : nat) : bool := hasplaces_loop (mch m) (mb m) b.

(* method.cpp:642-679 maxblows *)
Fixpoint run_of (l : list change) (p : nat) : nat * bool :=   (* length of the run at the front; did it reach the end *)
  match l with
  | [] => (0, true)
  | c :: l => if findplace c p then let '(n, e) := run_of l p in (S n, e) else (0, false)
  end.
(* i is the position of the iterator i, l the changes from it on *)
Fixpoint maxblows_loop (all : list change) (n : nat) (prev : option change) (i : nat) (l : list change) (maxn : nat) : nat :=
  match l with
  | [] => maxn
  | c :: t =>
    let maxn := fold_left (fun maxn p =>
      if findplace c p then
        if (match prev with Some c' => findplace c' p | None => false end) then maxn
        else
          let '(a, e) := run_of l p in
          let blows := 2 + a + (if e then fst (run_of (firstn i all) p) else 0) in
          if maxn <? blows then blows else maxn
      else maxn) (map b8 (seq 0 n)) maxn in
    maxblows_loop all n (Some c) (S i) t maxn
  end.
Definition maxblows (m : method) : Z := (Z.of_nat (maxblows_loop (mch m) (mb m) None 0 (mch m) 0) - 1)%Z.

(* ---- format: method.h:131-141 ---- *)
Definition M_DOTS : Z := 1.      Definition M_EXTERNAL : Z := 2.
Definition M_UCROSS : Z := 4.    Definition M_LCROSS : Z := 8.
Definition M_DASH : Z := 16.     Definition M_SYMMETRY : Z := 32.
Definition M_FULL_SYMMETRY : Z := 96.
Definition M_OMIT_LH : Z := 128. Definition M_PLUS : Z := 256.
Definition has (flags f : Z) : bool := negb (Z.land flags f =? 0)%Z.

(* method.cpp:574-577 *)
Definition cross_symbol (flags : Z) : ascii :=
  if has flags M_UCROSS then chr "X" else if has flags M_LCROSS then chr "x" else if has flags M_DASH then chr "-" else chr "X".
(* method.cpp:585-593: external places left out *)
Definition drop_external (sym : symtab) (n : nat) (p : list ascii) : list ascii :=
  let p := if starts_with (to_char sym 0) p then tl p else p in
  let p := match p with [] => [] | _ :: _ => if eqc (last p zero) (to_char sym (b8 (n - 1))) then removelast p else p end in
  match p with [] => [to_char sym 0] | _ :: _ => p end.
(* method.cpp:566-601 do_single_compressed_pn: out, might_need_dot, first *)
Definition single_pn (sym : symtab) (flags : Z) (st : list ascii * bool * bool) (ch : change) : outcome (list ascii * bool * bool) :=
  let '(out, dot, first) := st in
  k <- count_places ch ;;
  if k =? 0 then
    Ret (out ++ (if has flags M_DOTS && negb first then [chr "."] else []) ++ [cross_symbol flags], false, false)
  else
    p <- change_print sym Cross_default ch ;;
    let p := if negb (has flags M_EXTERNAL) && (1 <? length p) then drop_external sym (cn ch) p else p in
    Ret (out ++ (if (dot || has flags M_DOTS) && negb first then [chr "."] else []) ++ p, true, false).
(* method.cpp:603-610 do_compressed_section: the changes from i to e (unsigned); the fuel is enough
   to come to the end of the method, where the next read is out of range *)
Fixpoint section_loop (fuel : nat) (sym : symtab) (m : method) (i e : Z) (flags : Z) (st : list ascii * bool * bool) : outcome (list ascii) :=
  if (i <? e)%Z then
    match fuel with
    | O => Diverge
    | S fuel => c <- mget m i ;; st <- single_pn sym flags st c ;; section_loop fuel sym m (i + 1)%Z e flags st
    end
  else Ret (fst (fst st)).
Definition section (sym : symtab) (m : method) (b e : Z) (flags : Z) (out : list ascii) : outcome (list ascii) :=
  section_loop (S (length (mch m))) sym m (b mod 2 ^ 32)%Z (e mod 2 ^ 32)%Z flags (out, false, true).

(* method.cpp:614-639 format *)
Definition format (sym : symtab) (m : method) (flags : Z) : outcome (list ascii) :=
  let n := mlen m in
  let sym0 := (Z.quot n 2 - 1)%Z in
  s <- (if has flags M_SYMMETRY && (2 <? n)%Z then
          b <- issym m ;;
          if (b : bool) then Ret (Some sym0)
          else if (Z.land flags M_FULL_SYMMETRY =? M_FULL_SYMMETRY)%Z && negb (has flags M_OMIT_LH) then
            sp <- symmetry_point m ;; Ret (if (sp =? -1)%Z then None else Some sp)
          else Ret None
        else Ret None) ;;
  match s with
  | Some sp =>
    let out := if negb (sp =? 0)%Z then str "&" else if has flags M_PLUS then str "+" else [] in
    out <- section sym m 0 (sp + 1) flags out ;;
    if has flags M_OMIT_LH then Ret out
    else
      let out := out ++ str "," ++ (if negb (sp =? sym0)%Z then str "&" else if has flags M_PLUS then str "+" else []) in
      section sym m (2 * sp + 1) (Z.quot n 2 + sp + 1) flags out
  | None =>
    let out := if has flags M_PLUS then str "+" else [] in
    section sym m 0 (n - (if has flags M_OMIT_LH then 1 else 0)) flags out
  end.
