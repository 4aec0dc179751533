(* M_Symmetry.v - model of the symmetries of a method as apps/methsearch finds them:
   methodutils.cpp (the has_..._symmetry functions and method_symmetry_string) and
   searcher::try_floating_symmetry in search.cpp.  Indices are C++ ints (Z); taking a
   remainder by 0 is undefined. *)
From Verif Require Import Base M_Bell M_Change M_Math M_Row M_PN M_Method.
Open Scope nat_scope.

(* for ( int j=j0; j<j0+k && ok; ++j ) if ( !p(j) ) ok = false *)
Fixpoint all_from (k : nat) (j : Z) (p : Z -> outcome bool) : outcome bool :=
  match k with
  | O => Ret true
  | S k => b <- p j ;; if (b : bool) then all_from k (j + 1)%Z p else Ret false
  end.
(* for ( int i=i0; i<i0+k; ++i ) if ( p(i) ) return true; return false *)
Fixpoint any_from (k : nat) (i : Z) (p : Z -> outcome bool) : outcome bool :=
  match k with
  | O => Ret false
  | S k => b <- p i ;; if (b : bool) then Ret true else any_from k (i + 1)%Z p
  end.
(* m[ i % n ] *)
Definition mget_rem (m : method) (i : Z) : outcome change :=
  if (mlen m =? 0)%Z then UB else mget m (Z.rem i (mlen m)).

(* methodutils.cpp:153-164: rotational symmetry about change i *)
Definition rot_about_change (m : method) (i : Z) : outcome bool :=
  all_from (Z.to_nat (Z.quot (mlen m) 2 + 1)) 0%Z (fun j =>
    a <- mget_rem m (i + j)%Z ;; b <- mget_rem m (mlen m + i - j)%Z ;;
    Ret (change_eqb a (change_reverse b))).
(* methodutils.cpp:166-177: rotational symmetry about the row after change i *)
Definition rot_about_row (m : method) (i : Z) : outcome bool :=
  all_from (Z.to_nat (Z.quot (mlen m) 2)) 0%Z (fun j =>
    a <- mget_rem m (i + j + 1)%Z ;; b <- mget_rem m (mlen m + i - j)%Z ;;
    Ret (change_eqb a (change_reverse b))).
(* methodutils.cpp:149-179 has_rotational_symmetry *)
Definition has_rotational_symmetry (m : method) : outcome bool :=
  b <- any_from (Z.to_nat (Z.quot (mlen m) 2 + 1)) 0%Z (rot_about_change m) ;;
  if (b : bool) then Ret true
  else any_from (Z.to_nat (Z.quot (mlen m) 2 + 1)) 0%Z (rot_about_row m).

(* methodutils.cpp:181-196 has_conventional_symmetry *)
Definition has_conventional_symmetry (m : method) : outcome bool :=
  let even := (Z.rem (mlen m) 2 =? 0)%Z in
  any_from (Z.to_nat (if even then Z.quot (mlen m) 2 else mlen m)) 0%Z (fun i =>
    all_from (Z.to_nat ((if even then Z.quot (mlen m) 2 else Z.quot (mlen m) 2 + 1) - 1)) 1%Z (fun j =>
      a <- mget_rem m (i + j)%Z ;; b <- mget_rem m (i - j + mlen m)%Z ;;
      Ret (change_eqb a b))).

(* methodutils.cpp:198-206 has_mirror_symmetry *)
Definition has_mirror_symmetry (m : method) : outcome bool :=
  all_from (Z.to_nat (mlen m)) 0%Z (fun i =>
    a <- mget m i ;; Ret (change_eqb a (change_reverse a))).

(* methodutils.cpp:208-218 has_glide_symmetry *)
Definition has_glide_symmetry (m : method) : outcome bool :=
  if (Z.rem (mlen m) 2 =? 1)%Z then Ret false else
  all_from (Z.to_nat (Z.quot (mlen m) 2)) 0%Z (fun i =>
    a <- mget m i ;; b <- mget_rem m (i + Z.quot (mlen m) 2)%Z ;;
    Ret (change_eqb a (change_reverse b))).

(* methodutils.cpp:220-228 method_symmetry_string *)
Definition method_symmetry_string (m : method) : outcome (list ascii) :=
  p <- has_conventional_symmetry m ;;
  mi <- has_mirror_symmetry m ;;
  g <- has_glide_symmetry m ;;
  r <- has_rotational_symmetry m ;;
  Ret ((if (p : bool) then ["P"%char] else []) ++ (if (mi : bool) then ["M"%char] else []) ++
       (if (g : bool) then ["G"%char] else []) ++ (if (r : bool) then ["R"%char] else [])).

(* string::find(c) != npos *)
Definition has_letter (c : ascii) (s : list ascii) : bool := existsb (Ascii.eqb c) s.

(* search.cpp:322-340 searcher::try_floating_symmetry: the three options are arguments *)
Definition try_floating_symmetry (skewsym sym doubsym : bool) (m : method) : outcome bool :=
  if skewsym || doubsym || sym then
    s <- method_symmetry_string m ;;
    if skewsym && negb (has_letter "R"%char s) then Ret false else
    if sym && negb (has_letter "P"%char s) then Ret false else
    if doubsym && negb (has_letter "G"%char s) then Ret false else
    Ret true
  else Ret true.
