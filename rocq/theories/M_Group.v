(* M_Group.v - model of ringing/group.{h,cpp}.  Sizes are nat; size_t products are Z.
   set<row> and set<bell> are strictly increasing lists; vector::reserve has no effect.
   Not modelled: swap, operator>. *)
From Verif Require Import Base M_Bell M_Change M_Math M_Row M_Extent.

(* set<T>::insert with a strict order ltb: the new set and .second *)
Section SetInsert.
Context {T : Type} (ltb : T -> T -> bool).
Fixpoint set_insert (s : list T) (x : T) : list T * bool :=
  match s with
  | [] => ([x], true)
  | y :: t => if ltb x y then (x :: s, true)
              else if ltb y x then let '(t', b) := set_insert t x in (y :: t', b)
              else (s, false)
  end.
(* std::sort then std::unique/erase, group.cpp:199-202 *)
Definition sort_unique (l : list T) : list T := fold_left (fun s x => fst (set_insert s x)) l [].
(* std::sort of a vector: its elements in order *)
Fixpoint sort_insert (x : T) (s : list T) : list T :=
  match s with [] => [x] | y :: t => if ltb y x then y :: sort_insert x t else x :: s end.
Definition std_sort (l : list T) : list T := fold_right sort_insert [] l.
End SetInsert.

(* group.h:48-117 *)
Record group := mkGroup { gb : nat; gv : list row; go : list (list nat) }.
(* group.h:51 *)
Definition group_default : group := mkGroup 0 [[]] [].

(* group.cpp:59-66: the loop over the generators for one row r *)
Definition gen_step (r : row) (st : list row * list row) (g : row) : outcome (list row * list row) :=
  let '(s, x) := st in
  r2 <- mul r g ;;
  let '(s', new) := set_insert row_ltb s r2 in
  Ret (s', if (new : bool) then r2 :: x else x).
(* group.cpp:51-68 generate_group: s, and the stack x (top first) *)
Fixpoint generate_group (fuel : nat) (s x : list row) (gens : list row) : outcome (list row) :=
  match x with
  | [] => Ret s
  | r :: x =>
    match fuel with
    | O => Diverge
    | S fuel => '(s, x) <- forM gens (gen_step r) (s, x) ;; generate_group fuel s x gens
    end
  end.

(* group.cpp:324-328: orbs[j].insert(( *i)[j]) *)
Definition orbit_of (v : list row) (j : nat) : outcome (list nat) :=
  forM v (fun s i => b <- vget i j ;; Ret (fst (set_insert Nat.ltb s b))) [].
(* group.cpp:322-336 calc_orbit_space *)
Definition calc_orbit_space (b : nat) (v : list row) : outcome (list (list nat)) :=
  forN 0 b (fun o j => oj <- orbit_of v j ;;
    Ret (if existsb (row_eqb oj) o then o else o ++ [oj])) [].
Definition with_orbits (b : nat) (v : list row) : outcome group :=
  o <- calc_orbit_space b v ;; Ret (mkGroup b v o).

(* group.cpp:166-174 group(gen) *)
Definition group_of1 (fuel : nat) (g : row) : outcome group :=
  s <- generate_group fuel [] [rounds (length g)] [g] ;;
  with_orbits (length g) s.
(* group.cpp:176-190 group(g1, g2) *)
Definition group_of2 (fuel : nat) (g1 g2 : row) : outcome group :=
  let gens := if row_eqb g2 g1 then [g1] else [g1; g2] in
  let b := if length g2 <? length g1 then length g1 else length g2 in
  s <- generate_group fuel [] [rounds b] gens ;;
  with_orbits b s.
(* group.cpp:192-214 group(gens) *)
Definition group_of (fuel : nat) (gens : list row) : outcome group :=
  match gens with
  | [] => Ret (mkGroup 0 [[]] [])
  | _ :: _ =>
    let u := sort_unique row_ltb gens in
    let b := fold_left (fun b g => if b <? length g then length g else b) u 0 in
    s <- generate_group fuel [] [rounds b] u ;;
    with_orbits b s
  end.

(* group.cpp:98-109 symmetric_group, 111-122 alternating_group *)
Definition symmetric_group (fuel nw nh nt : nat) : outcome group :=
  let nt := if nt =? 0 then nh + nw else nt in
  v <- ei_traverse fuel (ei_begin nw nh nt) (mkEI 0 0 0 true []) ;;
  with_orbits nt v.
Definition alternating_group (fuel : nat) (sym : symtab) (nw nh nt : nat) : outcome group :=
  let nt := if nt =? 0 then nh + nw else nt in
  v <- ici_traverse fuel sym (ei_begin nw nh nt) (mkEI 0 0 0 true []) ;;
  with_orbits nt v.
(* group.cpp:124-127 trivial *)
Definition trivial_group (fuel nt : nat) : outcome group := group_of1 fuel (rounds nt).
(* group.cpp:129-151 dihedral_c, dihedral_r, cyclic_c, cyclic_r *)
Definition dihedral_c (fuel nw nh nt : nat) : outcome group :=
  let nt := if nt =? 0 then nh + nw else nt in
  r <- reverse_rounds3 nw nh nt ;; group_of2 fuel (cyclic (nh + nw) nh 1) r.
Definition dihedral_r (fuel nw nh nt : nat) : outcome group :=
  let nt := if nt =? 0 then nh + nw else nt in
  p <- pblh (nh + nw) nh ;; r <- reverse_rounds3 nw nh nt ;; group_of2 fuel p r.
Definition cyclic_c (fuel nw nh nt : nat) : outcome group :=
  let nt := if nt =? 0 then nh + nw else nt in
  group_of2 fuel (cyclic (nh + nw) nh 1) (rounds nt).
Definition cyclic_r (fuel nw nh nt : nat) : outcome group :=
  let nt := if nt =? 0 then nh + nw else nt in
  p <- pblh (nh + nw) nh ;; group_of2 fuel p (rounds nt).

(* group.cpp:216-235 conjugate *)
Definition group_conjugate (g : group) (r : row) : outcome group :=
  ri <- inverse r ;;
  v <- forM (gv g) (fun v i => a <- mul ri i ;; c <- mul a r ;; Ret (v ++ [c])) [] ;;
  with_orbits (gb g) (std_sort row_ltb v).
(* group.cpp:237-255 even_subgroup *)
Definition even_subgroup (sym : symtab) (g : group) : outcome group :=
  v <- forM (gv g) (fun v i => s <- sign sym i ;; Ret (if (s =? 1)%Z then v ++ [i] else v)) [] ;;
  with_orbits (gb g) (std_sort row_ltb v).
(* group.cpp:153-164 direct_product *)
Definition direct_product (fuel : nat) (a b : group) : outcome group :=
  b2 <- group_conjugate b (cyclic (gb a + gb b) 0 (- Z.of_nat (gb a))) ;;
  group_of fuel (gv a ++ gv b2).

(* group.cpp:257-265 operator==, operator< *)
Definition group_eqb (a b : group) : bool :=
  (gb a =? gb b) && (if list_eq_dec (list_eq_dec Nat.eq_dec) (gv a) (gv b) then true else false).
Fixpoint rows_ltb (a b : list row) : bool :=
  match a, b with
  | _, [] => false
  | [], _ :: _ => true
  | x :: a', y :: b' => if row_ltb x y then true else if row_ltb y x then false else rows_ltb a' b'
  end.
Definition group_ltb (a b : group) : bool :=
  (gb a <? gb b) || (gb a =? gb b) && rows_ltb (gv a) (gv b).

(* group.cpp:70-94 is_direct_product_of_symmetric_groups; 64-bit size_t *)
Fixpoint idp_loop (o : list (list nat)) (gsize sz : Z) : bool :=
  match o with
  | [] => (sz =? gsize)%Z
  | i :: o =>
    if (20 <? length i) then false else
    let f := factorial (length i) in
    if (18446744073709551615 / sz <? f)%Z then false else
    let sz := u64 (sz * f) in
    if (gsize <? sz)%Z then false else idp_loop o gsize sz
  end.
Definition is_direct_product_of_symmetric_groups (o : list (list nat)) (gsize : Z) : bool := idp_loop o gsize 1.

(* group.cpp:278-296 the label from the orbits *)
Definition orbit_step (r : row) (label : list nat) (i : list nat) : outcome (list nat) :=
  let v := std_sort Nat.ltb (map (find r) i) in
  forN 0 (length i) (fun label j => p <- vget v j ;; b <- vget i j ;; vset label p b) label.
Definition orbit_label (o : list (list nat)) (r : row) : outcome row :=
  l <- forM o (orbit_step r) (repeat 0 (length r)) ;; row_of_vector l.
(* group.cpp:300-307, 312-319: the least of the products *)
Definition least_of (l : list row) : row :=
  fold_left (fun label ir => if (length label =? 0) || row_ltb ir label then ir else label) l [].
(* group.cpp:272-308 rcoset_label *)
Definition rcoset_label (g : group) (r : row) : outcome row :=
  if length (gv g) =? 1 then Ret r else
  if (6 <=? length (gv g)) && is_direct_product_of_symmetric_groups (go g) (Z.of_nat (length (gv g)))
  then orbit_label (go g) r
  else l <- forM (gv g) (fun l i => ir <- mul i r ;; Ret (l ++ [ir])) [] ;; Ret (least_of l).
(* group.cpp:310-320 lcoset_label *)
Definition lcoset_label (g : group) (r : row) : outcome row :=
  l <- forM (gv g) (fun l i => ir <- mul r i ;; Ret (l ++ [ir])) [] ;; Ret (least_of l).

(* group.cpp:338-350 invariants *)
Definition invariants (g : group) : outcome (list nat) :=
  o <- (if negb (gb g =? 0) && (length (go g) =? 0) then calc_orbit_space (gb g) (gv g) else Ret (go g)) ;;
  forM o (fun rv i => if length i =? 1 then b <- vget i 0 ;; Ret (rv ++ [b]) else Ret rv) [].
