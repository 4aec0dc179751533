(* P_Bell.v - proofs about bell symbols. *)
From Verif Require Import Base M_Bell.
Set Implicit Arguments.
Unset Strict Implicit.

Lemma digit_char_ok d : d < 10 ->
  is_digit (digit_char d) = true /\ digit_val (digit_char d) = Z.of_nat d.
Proof.
  intros H. do 10 (destruct d as [|d]; [split; reflexivity|]). lia.
Qed.

Lemma print_nat_f_read fuel n : n < fuel ->
  exists k, (0 <= k)%Z /\ forall a acc, (0 <= a)%Z ->
    read_digits a (print_nat_f fuel n acc) = read_digits (a * 10 ^ k + Z.of_nat n)%Z acc.
Proof.
  revert n; induction fuel as [|fuel IH]; intros n Hn; [lia|].
  cbn [print_nat_f]. 
  assert (Hd : n mod 10 < 10) by (apply Nat.mod_upper_bound; lia).
  destruct (digit_char_ok Hd) as [D1 D2].
  destruct (Nat.ltb_spec n 10) as [H|H].
  - exists 1%Z. split; [lia|]. intros a acc Ha. cbn [read_digits].
    rewrite D1, D2. rewrite Nat.mod_small by lia. f_equal. 
  - assert (Hq : n / 10 < fuel).
    { assert (n / 10 < n) by (apply Nat.div_lt; lia). lia. }
    destruct (IH _ Hq) as (k & Hk & Hr). exists (k + 1)%Z. split; [lia|].
    intros a acc Ha. rewrite Hr by exact Ha. cbn [read_digits]. rewrite D1, D2.
    f_equal. rewrite Z.pow_add_r by lia.
    assert (E : n = 10 * (n / 10) + n mod 10) by (apply Nat.div_mod; lia).
    rewrite E at 3. rewrite Nat2Z.inj_add, Nat2Z.inj_mul. change (Z.of_nat 10) with 10%Z. lia.
Qed.

Lemma read_digits_stop a s : starts_with_digit s = false -> read_digits a s = (a, s).
Proof. destruct s as [|c t]; cbn; [reflexivity|]. now intros ->. Qed.

Lemma print_nat_read n rest : starts_with_digit rest = false ->
  read_digits 0 (print_nat n ++ rest) = (Z.of_nat n, rest).
Proof.
  intros H. unfold print_nat.
  assert (A : forall fuel m acc, print_nat_f fuel m acc ++ rest = print_nat_f fuel m (acc ++ rest)).
  { induction fuel as [|fuel IH]; intros m acc; cbn [print_nat_f]; [reflexivity|].
    destruct (m <? 10); [reflexivity|]. now rewrite IH. }
  rewrite A. destruct (@print_nat_f_read (S n) n) as (k & Hk & Hr); [lia|].
  rewrite Hr by lia. cbn [app]. now rewrite read_digits_stop.
Qed.

Lemma print_nat_f_head fuel n acc : n < fuel ->
  exists c t, print_nat_f fuel n acc = c :: t /\ is_digit c = true.
Proof.
  revert n acc; induction fuel as [|fuel IH]; intros n acc Hn; [lia|].
  cbn [print_nat_f].
  assert (Hd : n mod 10 < 10) by (apply Nat.mod_upper_bound; lia).
  destruct (Nat.ltb_spec n 10) as [H|H].
  - eexists _, _. split; [reflexivity|]. now apply digit_char_ok.
  - apply IH. assert (n / 10 < n) by (apply Nat.div_lt; lia). lia.
Qed.

Lemma print_nat_head n : exists c t, print_nat n = c :: t /\ is_digit c = true.
Proof. apply print_nat_f_head. lia. Qed.

Lemma digit_facts c : is_digit c = true ->
  is_space c = false /\ eqc c (chr "-") = false /\ eqc c (chr "+") = false
  /\ eqc c (chr "{") = false /\ eqc c zero = false.
Proof.
  destruct c as [b0 b1 b2 b3 b4 b5 b6 b7].
  destruct b0, b1, b2, b3, b4, b5, b6, b7; intros H; vm_compute in H; try discriminate H; clear H;
  vm_compute; auto.
Qed.

Lemma read_extended_print_num n rest : (0 < n <= 256) ->
  read_extended default_symtab (chr "{" :: print_nat n ++ chr "}" :: rest) = Ret (n - 1, rest).
Proof.
  intros Hn. unfold read_extended.
  change (negb (eqc (chr "{") (chr "{"))) with false. cbv iota.
  destruct (print_nat_head n) as (c & t & E & D).
  destruct (digit_facts D) as (F1 & F2 & F3 & F4 & _).
  assert (S : strtoul (print_nat n ++ chr "}" :: rest) = (Z.of_nat n, chr "}" :: rest)).
  { unfold strtoul. rewrite E. cbn [app skip_space]. rewrite F1, F2, F3.
    change (c :: t ++ chr "}" :: rest) with ((c :: t) ++ chr "}" :: rest).
    rewrite <- E. 
    assert (SD : starts_with_digit (print_nat n ++ chr "}" :: rest) = true) by (rewrite E; exact D).
    rewrite SD. rewrite print_nat_read by reflexivity.
    destruct (Z.gtb_spec (Z.of_nat n) ulong_max) as [H|H]; [unfold ulong_max in H; lia|reflexivity]. }
  rewrite S. cbn [skip_space].
  change (is_space (chr "}")) with false. cbv iota.
  assert (SW : starts_with (chr "-") (print_nat n ++ chr "}" :: rest) = false) by (rewrite E; exact F2).
  rewrite SW. change (starts_with (chr "}") (chr "}" :: rest)) with true.
  destruct (Z.gtb_spec (Z.of_nat n) 256) as [H|H]; [lia|]. cbn [orb negb tl].
  f_equal. f_equal. rewrite Z.mod_small by lia. lia.
Qed.

Definition char_ok (b : nat) : bool :=
  let c := to_char default_symtab b in
  match read_char default_symtab c with
  | Ret b' => (b' =? b) && negb (eqc c (chr "{")) && negb (eqc c zero) && negb (eqc c (chr ","))
              && negb (eqc c (chr "X"))
  | _ => false
  end.

Lemma char_ok_all : forallb char_ok (seq 0 33) = true.
Proof. vm_compute. reflexivity. Qed.

Lemma read_char_to_char b : b < 33 ->
  exists c, to_char default_symtab b = c /\ read_char default_symtab c = Ret b
    /\ eqc c (chr "{") = false /\ eqc c zero = false /\ eqc c (chr ",") = false /\
    eqc c (chr "X") = false.
Proof.
  intros H. exists (to_char default_symtab b). split; [reflexivity|].
  assert (K : char_ok b = true).
  { generalize char_ok_all. rewrite forallb_forall. intros F. apply F. apply in_seq. lia. }
  unfold char_ok in K. cbv zeta in K.
  destruct (read_char default_symtab (to_char default_symtab b)); try discriminate K.
  rewrite !andb_true_iff, !negb_true_iff, Nat.eqb_eq in K.
  destruct K as ((((-> & K1) & K2) & K3) & K4). auto.
Qed.

Lemma read_extended_print b rest : b < 256 ->
  read_extended default_symtab (print_bell default_symtab b ++ rest) = Ret (b, rest).
Proof.
  intros H. unfold print_bell. cbn [sym_max default_symtab].
  destruct (Nat.ltb_spec b 33) as [L|L].
  - destruct (read_char_to_char L) as (c & E & R & F & _). rewrite E. cbn [app].
    unfold read_extended. rewrite F. cbn [negb]. now rewrite R.
  - rewrite <- app_comm_cons, <- app_assoc. cbn [app].
    rewrite read_extended_print_num by lia. do 2 f_equal. lia.
Qed.

Lemma c_str_app_nonul l s : forallb (fun c => negb (eqc c zero)) l = true ->
  c_str (l ++ s) = l ++ c_str s.
Proof.
  induction l as [|c t IH]; cbn; [reflexivity|].
  destruct (eqc c zero); cbn; [discriminate|]. intros H. now rewrite IH.
Qed.

Lemma print_nat_f_digits fuel n acc :
  forallb is_digit acc = true -> forallb is_digit (print_nat_f fuel n acc) = true.
Proof.
  revert n acc; induction fuel as [|fuel IH]; intros n acc H; cbn [print_nat_f]; auto.
  assert (G : forallb is_digit (digit_char (n mod 10) :: acc) = true).
  { cbn [forallb]. rewrite H. apply andb_true_iff. split; [|reflexivity]. apply digit_char_ok.
    apply Nat.mod_upper_bound. discriminate. }
  destruct (n <? 10); auto.
Qed.

Lemma print_bell_nonul b : b < 256 ->
  forallb (fun c => negb (eqc c zero)) (print_bell default_symtab b) = true.
Proof.
  intros H. unfold print_bell. cbn [sym_max default_symtab].
  destruct (Nat.ltb_spec b 33) as [L|L].
  - destruct (read_char_to_char L) as (c & E & _ & _ & Z & _). rewrite E. cbn. now rewrite Z.
  - cbn [forallb]. change (eqc (chr "{") zero) with false. cbn [negb andb].
    rewrite forallb_app. apply andb_true_iff. split; [|reflexivity].
    apply forallb_forall. intros c Hc.
    assert (D : forallb is_digit (print_nat (b + 1)) = true)
      by (apply print_nat_f_digits; reflexivity).
    rewrite forallb_forall in D. apply D in Hc. apply digit_facts in Hc.
    destruct Hc as (_ & _ & _ & _ & ->). reflexivity.
Qed.

Lemma print_bell_nonempty b rest : print_bell default_symtab b ++ rest <> [].
Proof. unfold print_bell. destruct (b <? _); cbn; discriminate. Qed.

(* The characters read_char accepts *)
Definition accepts (c : ascii) : bool :=
  match read_char default_symtab c with Ret _ => true | _ => false end.

Lemma read_char_total c :
  (exists b, read_char default_symtab c = Ret b) \/ read_char default_symtab c = Throw BellInvalid.
Proof.
  destruct c as [b0 b1 b2 b3 b4 b5 b6 b7].
  destruct b0, b1, b2, b3, b4, b5, b6, b7;
  (right; vm_compute; reflexivity) || (left; eexists; vm_compute; reflexivity).
Qed.

Lemma read_char_accepts c b :
  read_char default_symtab c = Ret b <->
  (b < 33 /\ (to_char default_symtab b = c \/ to_char default_symtab b = to_upper c)) \/
  (b = 0 /\ (c = chr "I" \/ c = chr "i")) \/
  (b = 9 /\ (c = chr "O" \/ c = chr "o")) \/
  (b = 33 /\ c = zero).
Proof.
  split.
  - destruct c as [b0 b1 b2 b3 b4 b5 b6 b7].
    destruct b0, b1, b2, b3, b4, b5, b6, b7; intros H; vm_compute in H;
    (discriminate H || (injection H as <-;
    first [ left; split; [apply Nat.ltb_lt; reflexivity|left; reflexivity]
          | left; split; [apply Nat.ltb_lt; reflexivity|right; reflexivity]
          | right; left; split; [reflexivity|left; reflexivity]
          | right; left; split; [reflexivity|right; reflexivity]
          | right; right; left; split; [reflexivity|left; reflexivity]
          | right; right; left; split; [reflexivity|right; reflexivity]
          | right; right; right; split; reflexivity ])).
  - intros [[L [E|E]]|[[-> [-> | ->]]|[[-> [-> | ->]]|[-> ->]]]]; try (vm_compute; reflexivity).
    + destruct (read_char_to_char L) as (c' & E' & R & _). congruence.
    + destruct (read_char_to_char L) as (c' & E' & R & _).
      assert (U : to_upper c = c') by congruence.
      rewrite <- R, <- U. clear.
      destruct c as [b0 b1 b2 b3 b4 b5 b6 b7].
      destruct b0, b1, b2, b3, b4, b5, b6, b7; vm_compute; reflexivity.
Qed.

Lemma is_symbol_accepts c :
  is_symbol default_symtab c = true <-> exists b, read_char default_symtab c = Ret b.
Proof.
  destruct c as [b0 b1 b2 b3 b4 b5 b6 b7].
  destruct b0, b1, b2, b3, b4, b5, b6, b7; vm_compute;
  (split; [intros _; eexists; reflexivity|reflexivity]) ||
  (split; [discriminate|intros [b Hb]; discriminate]).
Qed.
