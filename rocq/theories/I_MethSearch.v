(* I_MethSearch.v - what the search is shown to find at first, in terms of the tests of the model:
   a step on the way to Spec_MethSearch.v. *)
From Verif Require Import Base M_Change M_Row M_MethSearch Spec_Row Spec_Change Spec_MethSearch.
Set Implicit Arguments.
Unset Strict Implicit.
Open Scope nat_scope.

Section A.
Variable A : sargs.
Notation L := (sa_len A).
Notation so := (sym_offset A).

Notation asked := (asked A).
Definition symmetric0 (m : list change) : Prop :=
  (asked (sa_sym A) = true -> asked (sa_doubsym A) = false -> palindrome L so m) /\
  (asked (sa_doubsym A) = true -> double L m) /\
  (asked (sa_skewsym A) = true -> rotation L m).

(* the changes that are tried one by one: the others are found by symmetry *)
Definition chosen0 (i : nat) : Prop :=
  if asked (sa_skewsym A) then
    if sa_doubsym A then i < L / 4 \/ i = L / 2 - 1
    else i < L / 4 \/ L / 2 - 1 <= i < 3 * L / 4
  else if asked (sa_doubsym A) then i < L / 2
  else if asked (sa_sym A) then i < so \/ 2 * so - 1 <= i < L / 2 + so \/ (so = 0 /\ i = L - 1)
  else True.

(* --- truth --- *)
Definition true_method0 (m : list change) : Prop :=
  if use_prover A
  then forall r, (Z.of_nat (count_occ (list_eq_dec Nat.eq_dec) (sa_avoid A ++ sa_start A :: rows_looked_at A m) r) <= sa_extents A)%Z
  else forall r, In r (rows_looked_at A m) -> ~ In r (sa_avoid A).

(* for double methods: not too many blows about the half lead and the lead end *)
Definition double_blows0 (m : list change) : Prop :=
  asked (sa_doubsym A) = true -> sa_blows A <> 0 -> let h := firstn (L / 2) m in
  double_first_test A h = true /\
  double_second_test A (h ++ map change_reverse (removelast h)) (change_reverse (last h (mkChange 0 []))) = true.

(* what is asked of a method *)
Definition wanted0 (m : list change) : Prop :=
  length m = L /\ symmetric0 m /\
  (forall i, i < L -> chosen0 i -> exists c, nth_error m i = Some c /\ In c (nth i (sa_allowed A) []) /\ try_change A [] (firstn i m) c = true) /\
  true_method0 m /\ double_blows0 m /\ sa_accept A m = true.
End A.

(* what checking the options has made sure of before a search: prog_args.cpp validate,
   set_bells and generate_changes *)
Record checked0 (A : sargs) : Prop := mkChecked0 {
  ck0_bells : sa_bells A <= 255;
  ck0_start : row256 (sa_start A);
  ck0_extents : (1 <= sa_extents A)%Z;
  ck0_len : 1 <= sa_len A;
  (* for each place of the lead there are changes to try, on the right number of bells, none twice *)
  ck0_allowed : length (sa_allowed A) = sa_len A;
  ck0_changes : forall l c, In l (sa_allowed A) -> In c l -> cn c = sa_bells A /\ wf_change c;
  ck0_some : ~ In [] (sa_allowed A);
  ck0_twice : Forall (@NoDup change) (sa_allowed A);
  (* symmetries ask for a lead of an even length; two of them make all three *)
  ck0_even : sa_sym A || sa_doubsym A || sa_skewsym A = true -> sa_len A mod 2 = 0;
  ck0_two : (sa_sym A && sa_doubsym A) || (sa_sym A && sa_skewsym A) || (sa_doubsym A && sa_skewsym A) = true ->
     sa_sym A = true /\ sa_doubsym A = true /\ sa_skewsym A = true;
  (* rotational symmetry only with no hunt bells or an odd number, and in leads of more than four changes *)
  ck0_skew : sa_floating A = false -> sa_skewsym A = true -> sym_offset A = 0 /\ 4 < sa_len A;
  ck0_sym : sa_sym A = true -> sym_offset A <= sa_len A / 2;
  (* with symmetry the search starts from rounds (or from no row, when none is given) *)
  ck0_rounds : sa_floating A = false -> sa_sym A || sa_doubsym A || sa_skewsym A = true -> maintain_r A = true ->
     sa_start A = [] \/ sa_start A = rounds (sa_bells A);
  (* the rows to be avoided and the first row are not false themselves *)
  ck0_true : use_prover A = true -> forall r, (Z.of_nat (count_occ (list_eq_dec Nat.eq_dec) (sa_avoid A ++ [sa_start A]) r) <= sa_extents A)%Z }.

(* f tells0 the methods wanted0 *)
Definition tells0 (A : sargs) (f : list change -> bool) : Prop :=
  forall x, length x = sa_len A -> (forall c, In c x -> cn c = sa_bells A /\ wf_change c) -> (f x = true <-> wanted0 A x).
