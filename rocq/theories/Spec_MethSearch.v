(* Spec_MethSearch.v - what a search for methods is to find. *)
From Verif Require Import Base M_Change M_Row M_MethSearch Spec_Row Spec_Change.
Set Implicit Arguments.
Unset Strict Implicit.
Open Scope nat_scope.

(* --- symmetries of a lead of L changes m, counted from 0 and rung over and over --- *)
(* the same backwards as forwards, about change c - 1 (about the last change, when c is 0) *)
Definition palindrome (L c : nat) (m : list change) : Prop :=
  forall i, i < L -> nth_error m i = nth_error m ((2 * L + 2 * c - 2 - i) mod L).
(* the second half is the first upside down *)
Definition double (L : nat) (m : list change) : Prop :=
  forall i, i < L -> nth_error m i = option_map change_reverse (nth_error m ((i + L / 2) mod L)).
(* upside down it is the same backwards: change i is change L/2 - 2 - i; nothing is asked of a
   change which is its own partner *)
Definition rotation (L : nat) (m : list change) : Prop :=
  forall i, i < L -> (L + L / 2 - 2 - i) mod L <> i ->
    nth_error m i = option_map change_reverse (nth_error m ((L + L / 2 - 2 - i) mod L)).

Section A.
Variable A : sargs.
Notation L := (sa_len A).

(* the lead of a method with 2, 4, ... hunt bells is the same backwards about this change and half a lead later;
   of others about the last change and half a lead later *)
Definition middle : nat := if sa_hunts A =? 0 then 0 else if sa_hunts A mod 2 =? 0 then 1 + sa_dodges A else 0.
Notation so := middle.

Definition asked (b : bool) : bool := b && negb (sa_floating A).
Definition symmetric (m : list change) : Prop :=
  (asked (sa_sym A) = true -> asked (sa_doubsym A) = false -> palindrome L so m) /\
  (asked (sa_doubsym A) = true -> double L m) /\
  (asked (sa_skewsym A) = true -> rotation L m).

(* the changes that are tried one by one: the others are found by symmetry *)
Definition chosen (i : nat) : Prop :=
  if asked (sa_skewsym A) then
    if sa_doubsym A then i < L / 4 \/ i = L / 2 - 1
    else i < L / 4 \/ L / 2 - 1 <= i < 3 * L / 4
  else if asked (sa_doubsym A) then i < L / 2
  else if asked (sa_sym A) then i < so \/ 2 * so - 1 <= i < L / 2 + so \/ (so = 0 /\ i = L - 1)
  else True.

(* --- truth --- *)
(* the row after k changes *)
Definition row_after (m : list change) (k : nat) : row :=
  match forM (firstn k m) row_mul_change (sa_start A) with Ret r => r | _ => [] end.
(* is the row after k changes looked at: not at the lead end, nor past the half lead if only
   half a lead is to be true *)
Definition looked_at (k : nat) : bool := (k <? L) && (sa_true_lead A || negb (sa_true_half A) || (k <? L / 2)).
Definition rows_looked_at (m : list change) : list row := map (row_after m) (filter looked_at (seq 1 L)).
(* does the search prove the rows of the lead, or of the half lead *)
Definition proving : Prop :=
  (sa_true_lead A = true /\ (sa_sym A = false \/ (sa_dodges A <> 0 /\ sa_parity A = false))) \/
  (sa_true_half A = true /\ (sa_hunts A = 0 \/ 1 < sa_dodges A)).
Definition true_method (m : list change) : Prop :=
  (proving -> forall r, (Z.of_nat (count_occ (list_eq_dec Nat.eq_dec) (sa_avoid A ++ sa_start A :: rows_looked_at m) r) <= sa_extents A)%Z) /\
  (~ proving -> forall r, In r (rows_looked_at m) -> ~ In r (sa_avoid A)).

(* --- tests of a change --- *)
(* the first k of some changes all make place i *)
Definition stays (i k : nat) (l : list change) : Prop :=
  k <= length l /\ forall j, j < k -> exists c, nth_error l j = Some c /\ findplace c i = true.
(* change c makes a place, one of the first n, in which a bell then stays for more than k rows, with
   changes running before c (the last first) and after it *)
Definition too_long (k n : nat) (before : list change) (c : change) (after : list change) : Prop :=
  exists i a b, i < n /\ findplace c i = true /\ stays i a (rev before) /\ stays i b after /\ k < 2 + a + b.
(* c may follow the changes m *)
Definition passes (m : list change) (c : change) : Prop :=
  (forall p, nth_error (sa_prefix A) (length m) = Some p -> change_eqb c p = true) /\
  (* not the same change again *)
  (sa_trivial A = true -> forall m' p, m = m' ++ [p] -> change_eqb p c = false) /\
  (sa_blows A <> 0 -> ~ too_long (sa_blows A) (cn c) m c []) /\
  (* in the middle of a palindrome the changes before c will also come after it; this is not tested
     at the half lead when there are no hunt bells *)
  (sa_sym A = true -> sa_blows A <> 0 ->
     (sa_hunts A <> 0 /\ S (length m) = L / 2 + so) \/ S (length m) = (if so =? 0 then L else so) ->
     ~ too_long (sa_blows A / 2 + 1) (cn c) m c []) /\
  (* at the lead end the first changes come again *)
  (S (length m) = L -> (sa_blows A <> 0 -> ~ too_long (sa_blows A) (sa_bells A) m c m) /\
     (sa_hunts A = 0 -> sa_trivial A = true -> forall p m', m = p :: m' -> change_eqb c p = false)) /\
  sa_try A m c = true.

(* double methods: the half lead change and then the lead end change, which are found without the tests *)
Definition double_blows (m : list change) : Prop :=
  asked (sa_doubsym A) = true -> sa_blows A <> 0 ->
  forall h c, firstn (L / 2) m = h ++ [c] ->
    let up := map change_reverse in
    ~ too_long (sa_blows A) (sa_bells A) h c (up (h ++ [c])) /\
    ~ too_long (sa_blows A) (sa_bells A) (h ++ [c] ++ up h) (change_reverse c) (h ++ [c] ++ up h).

(* what is asked of a method *)
Definition wanted (m : list change) : Prop :=
  length m = L /\ symmetric m /\
  (forall i, i < L -> chosen i -> exists c, nth_error m i = Some c /\ In c (nth i (sa_allowed A) []) /\ passes (firstn i m) c) /\
  true_method m /\ double_blows m /\ sa_accept A m = true.
End A.

(* all the ways to choose one of each list, in order *)
Fixpoint choices {X} (l : list (list X)) : list (list X) :=
  match l with [] => [[]] | a :: l => flat_map (fun x => map (cons x) (choices l)) a end.

(* place i is made in all of k changes, from change s of the lead rung twice *)
Definition makes_run (m : list change) (i s k : nat) : Prop :=
  forall j, j < k -> exists c, nth_error (m ++ m) (s + j) = Some c /\ findplace c i = true.

(* what checking the options has made sure of before a search: prog_args.cpp validate,
   set_bells and generate_changes *)
Record checked (A : sargs) : Prop := mkChecked {
  ck_bells : sa_bells A <= 255;
  ck_start : row256 (sa_start A);
  ck_extents : (1 <= sa_extents A)%Z;
  ck_len : 1 <= sa_len A;
  (* for each place of the lead there are changes to try, on the right number of bells, none twice *)
  ck_allowed : length (sa_allowed A) = sa_len A;
  ck_changes : forall l c, In l (sa_allowed A) -> In c l -> cn c = sa_bells A /\ wf_change c;
  ck_some : ~ In [] (sa_allowed A);
  ck_twice : Forall (@NoDup change) (sa_allowed A);
  (* symmetries ask for a lead of an even length; two of them make all three *)
  ck_even : sa_sym A || sa_doubsym A || sa_skewsym A = true -> sa_len A mod 2 = 0;
  ck_two : (sa_sym A && sa_doubsym A) || (sa_sym A && sa_skewsym A) || (sa_doubsym A && sa_skewsym A) = true ->
     sa_sym A = true /\ sa_doubsym A = true /\ sa_skewsym A = true;
  (* rotational symmetry only with no hunt bells or an odd number, and in leads of more than four changes *)
  ck_skew : sa_floating A = false -> sa_skewsym A = true -> middle A = 0 /\ 4 < sa_len A;
  ck_sym : sa_sym A = true -> middle A <= sa_len A / 2;
  (* with symmetry the search starts from rounds (or from no row, when none is given) *)
  ck_rounds : sa_floating A = false -> sa_sym A || sa_doubsym A || sa_skewsym A = true -> proving A \/ sa_avoid A <> [] ->
     sa_start A = [] \/ sa_start A = rounds (sa_bells A);
  (* the rows to be avoided and the first row are not false themselves *)
  ck_true : proving A -> forall r, (Z.of_nat (count_occ (list_eq_dec Nat.eq_dec) (sa_avoid A ++ [sa_start A]) r) <= sa_extents A)%Z }.

(* at most as many as asked for (0: no limit) *)
Definition at_most {X} (k : nat) (l : list X) : list X := if k =? 0 then l else firstn k l.
(* f tells the methods wanted *)
Definition tells (A : sargs) (f : list change -> bool) : Prop :=
  forall x, length x = sa_len A -> (forall c, In c x -> cn c = sa_bells A /\ wf_change c) -> (f x = true <-> wanted A x).
(* the methods of a library are on the right number of bells *)
Definition right_bells (A : sargs) (lib : list (list change)) : Prop :=
  forall x, In x lib -> length x = sa_len A -> forall c, In c x -> cn c = sa_bells A /\ wf_change c.
