(* M_Multtab.v - model of ringing/multtab.{h,cpp}.  A table is a value; handles of rows
   (row_t) and columns (pre_col_t, post_col_t) are indices, and are used only with the
   table that made them.  dump, swap and assignment are not modelled. *)
From Verif Require Import Base M_Bell M_Change M_Math M_Row M_Extent M_Group.

(* multtab.h:334-338: table, rows, pends, postgroup, cols *)
Inductive pre_or_post := pre_mult | post_mult.
Record multtab := mkMT { mtab : list (list nat); mrows : list row; mpends : group; mpost : group; mcols : list (row * pre_or_post) }.

(* multtab.cpp:69-87 make_post_representative *)
Definition make_post_representative (rows : list row) (post : group) (r : row) : outcome row :=
  if length (gv post) <? 2 then Ret r else
  forM (gv post) (fun res i => x <- mul r i ;;
    Ret (if ((length res =? 0) || row_ltb x res) && existsb (row_eqb x) rows then x else res)) [].
(* multtab.cpp:89-102 make_representative *)
Definition make_representative (rows : list row) (pends post : group) (r : row) : outcome row :=
  forM (gv pends) (fun res i => ir <- mul i r ;; x <- make_post_representative rows post ir ;;
    Ret (if negb (length x =? 0) && row_ltb x res then x else res)) r.
Definition mt_rep (t : multtab) (r : row) : outcome row := make_representative (mrows t) (mpends t) (mpost t) r.

(* multtab.h:245-248 the table of the rows given *)
Definition mt_plain (r : list row) : multtab := mkMT (repeat [] (length r)) r group_default group_default [].
(* multtab.cpp:104-132 init; h:250-268 the constructors with part ends and post group *)
Definition mt_init (r : list row) (pends post : group) : outcome multtab :=
  rows2 <- forM r (fun s i => x <- make_representative r pends post i ;; Ret (fst (set_insert row_ltb s x))) [] ;;
  (if length rows2 =? length r / length (gv pends)
   then Ret (mkMT (repeat [] (length rows2)) rows2 pends post [])
   else Throw AssertFailed).
Definition mt_partend (fuel : nat) (r : list row) (partend : row) : outcome multtab :=
  g <- group_of1 fuel partend ;; mt_init r g group_default.

(* multtab.cpp:185-187: finder[rows[i]] = i for each i; then finder[x]: the last i with rows[i] == x, else 0 *)
Fixpoint finder (rows : list row) (i : nat) (x : row) (found : nat) : nat :=
  match rows with
  | [] => found
  | r :: rows => finder rows (S i) x (if row_eqb r x then i else found)
  end.
(* r commutes with every row of the group: multtab.cpp:163-168, 198-203 *)
Definition commutes (g : group) (r : row) : outcome unit :=
  forM (gv g) (fun _ i => a <- mul r i ;; b <- mul i r ;; if row_eqb a b then Ret tt else Throw LogicError) tt.
(* multtab.cpp:170-172, 205-207: the column computed before *)
Definition pp_eqb (a b : pre_or_post) : bool := match a, b with pre_mult, pre_mult | post_mult, post_mult => true | _, _ => false end.
Fixpoint find_col (cols : list (row * pre_or_post)) (i : nat) (r : row) (k : pre_or_post) : option nat :=
  match cols with
  | [] => None
  | c :: cols => if pp_eqb (snd c) k && row_eqb (fst c) r then Some i else find_col cols (S i) r k
  end.
(* multtab.cpp:158-192 compute_pre_mult, 194-228 compute_post_mult: the table and the column *)
Definition mt_column (k : pre_or_post) (t : multtab) (r : row) : outcome (multtab * nat) :=
  _ <- commutes (match k with pre_mult => mpends t | post_mult => mpost t end) r ;;
  match find_col (mcols t) 0 r k with
  | Some i => Ret (t, i)
  | None =>
    tab <- forN 0 (length (mtab t)) (fun tab i =>
      ri <- vget (mrows t) i ;;
      p <- (match k with pre_mult => mul r ri | post_mult => mul ri r end) ;;
      x <- mt_rep t p ;;
      e <- vget tab i ;;
      vset tab i (e ++ [finder (mrows t) 0 x 0])) (mtab t) ;;
    Ret (mkMT tab (mrows t) (mpends t) (mpost t) (mcols t ++ [(r, k)]), length (mcols t))
  end.
Definition compute_pre_mult := mt_column pre_mult.
Definition compute_post_mult := mt_column post_mult.

(* multtab.cpp:230-241 find(row) *)
Fixpoint first_index (rows : list row) (i : nat) (x : row) : outcome nat :=
  match rows with [] => Throw AssertFailed | r :: rows => if row_eqb r x then Ret i else first_index rows (S i) x end.
Definition mt_find (t : multtab) (r : row) : outcome nat := r2 <- mt_rep t r ;; first_index (mrows t) 0 r2.
(* multtab.cpp:243-246 find(row_t) *)
Definition mt_row (t : multtab) (i : nat) : outcome row := vget (mrows t) i.
(* multtab.h:372-376 the products row_t * post_col_t and pre_col_t * row_t *)
Definition mt_mul (t : multtab) (i c : nat) : outcome nat := e <- vget (mtab t) i ;; vget e c.

(* multtab.cpp:258-262 sqinit; multtab.h:341-350 sqmulttab *)
Definition sq_make (r : list row) : outcome multtab :=
  forN 0 (length r) (fun t i => ri <- mt_row t i ;; '(t, _) <- compute_post_mult t ri ;; Ret t) (mt_plain r).
(* multtab.h:378-380 the product of two rows of a square table *)
Definition sq_mul (t : multtab) (l r : nat) : outcome nat := mt_mul t l r.
