(* Props_RowCalc.v - the row calculator (C80). *)
From Verif Require Import Base M_Bell M_Row M_Group M_RowCalc Spec_Row Spec_Extent Spec_Group Spec_RowCalc.
From Verif Require Import P_Bell P_Row P_Power P_Group P_Group2 P_Extent P_RowCalc P_RowCalc2 P_RowCalc3 P_RowCalc4.
Set Implicit Arguments. Unset Strict Implicit.
Open Scope nat_scope.

(* The rows written are those the expression stands for, in that order: a product of sets has every row
   of the left with the first of the right, and so on. *)
Theorem C80_rows : forall f e xs, gives e xs -> regular e = true ->
  exists N, forall fuel, N <= fuel -> calc default_symtab f 0 fuel (init e) = Ret xs.
Proof.
  intros f e xs G R. destruct (@calc_spec f 0 e xs (Nat.le_0_l _) G R) as (N & H). exists N. intros fuel Hf. rewrite (H fuel Hf).
  apply (fit_all_spec f (proj1 gives_sound e xs G) (Nat.le_0_l _)). clear. induction xs; constructor; auto. now constructor.
Qed.
Print Assumptions C80_rows.
(* where the number of bells is given, each row is extended or cut to it, or must have it *)
Theorem C80_written : forall f bells e xs ys, bells <= 256 -> gives e xs -> regular e = true ->
  Forall2 (written (f_promote f) bells) xs ys ->
  exists N, forall fuel, N <= fuel -> calc default_symtab f bells fuel (init e) = Ret ys.
Proof.
  intros f bells e xs ys B G R W. destruct (@calc_spec f bells e xs B G R) as (N & H). exists N. intros fuel Hf. rewrite (H fuel Hf).
  now apply (fit_all_spec f (proj1 gives_sound e xs G) B).
Qed.
Print Assumptions C80_written.
Theorem C80_unfit : forall f bells e xs, bells <= 256 -> gives e xs -> regular e = true ->
  Exists (fun x => forall y, ~ written (f_promote f) bells x y) xs ->
  exists N, forall fuel, N <= fuel -> calc default_symtab f bells fuel (init e) = Throw RowInvalid.
Proof.
  intros f bells e xs B G R W. destruct (@calc_spec f bells e xs B G R) as (N & H). exists N. intros fuel Hf. rewrite (H fuel Hf).
  now apply (fit_all_spec f (proj1 gives_sound e xs G) B).
Qed.
Print Assumptions C80_unfit.
(* an expression stands for one list of rows only, and every one of them is a row *)
Theorem C80_unique : forall e xs ys, gives e xs -> gives e ys -> xs = ys.
Proof. intros. eapply gives_one; eauto. Qed.
Print Assumptions C80_unique.
Theorem C80_are_rows : forall e xs, gives e xs -> Forall (fun x => row256 x /\ x <> []) xs.
Proof. exact (proj1 gives_sound). Qed.
Print Assumptions C80_are_rows.
(* a product of sets has as many rows as the sets have pairs *)
Theorem C80_size : forall op a b xs ys, gives a xs -> gives b ys ->
  length (each (combined op) xs ys) = length xs * length ys /\ length (each conjugated xs ys) = length xs * length ys.
Proof.
  intros op a b xs ys _ _. assert (X : forall f, length (each f xs ys) = length xs * length ys).
  { intro f. unfold each. induction ys as [|y ys IH]; cbn [map concat length]; [lia|]. rewrite app_length, IH, map_length. lia. }
  split; apply X.
Qed.
Print Assumptions C80_size.
(* the rows combined act as they should: the inverse undoes, and a row to the power k is the row k times over *)
Theorem C80_inverse : forall x, row256 x -> comp x (inv x) = id_row (length x) /\ comp (inv x) x = id_row (length x).
Proof.
  intros x R. destruct (mul_inverse R) as (z & E & Rz & L & M1 & M2). destruct (inv_inverse R) as (E2 & _ & _). assert (z = inv x) by congruence. subst z.
  rewrite (mul_comp R Rz) in M1. rewrite (mul_comp Rz R) in M2. rewrite <- rounds_id by apply R. split; congruence.
Qed.
Print Assumptions C80_inverse.

(* Every expression stands for some rows, if the rows in it have at most 18 bells, integers are exponents, and each
   group has a generator which is a row. *)
Fixpoint proper (e : cexpr) : bool :=
  match e with
  | CInt _ => false
  | CRow r => match row_of_vector r with Ret _ => true | _ => false end && negb (length r =? 0) && (length r <=? 18)
  | CSet es => forallb proper es
  | CGroup es => forallb proper es && existsb one es
  | CExp a (CInt z) => proper a && (0 <=? z)%Z && (z <=? int_max)%Z
  | CDiff a b | CMult _ a b | CExp a b => proper a && proper b
  end.
Lemma pow_length x k : length (pow x k) = length x.
Proof. unfold pow. now rewrite map_length, seq_length. Qed.
Lemma inv_length x : length (inv x) = length x.
Proof. unfold inv. now rewrite map_length, seq_length. Qed.
Definition small (x : list nat) : Prop := length x <= 18.
Lemma each_small (f : list nat -> list nat -> list nat) xs ys : (forall x y, small x -> small y -> small (f x y)) -> Forall small xs -> Forall small ys -> Forall small (each f xs ys).
Proof.
  intros H Fx Fy. apply Forall_forall. intros z Hz. unfold each in Hz. apply in_concat in Hz as (l & Hl & Hz). apply in_map_iff in Hl as (y & <- & Hy). apply in_map_iff in Hz as (x & <- & Hx).
  rewrite Forall_forall in *. auto.
Qed.
Lemma comp_small x y : small x -> small y -> small (comp x y).
Proof. unfold small. intros. rewrite comp_length. lia. Qed.
Lemma inv_small x : small x -> small (inv x).
Proof. unfold small. intros. now rewrite inv_length. Qed.
Lemma proper_gives : forall e, proper e = true -> exists xs, gives e xs /\ Forall small xs /\ (one e = true -> xs <> []).
Proof.
  assert (ALL : forall es, Forall (fun e => proper e = true -> exists xs, gives e xs /\ Forall small xs /\ (one e = true -> xs <> [])) es -> forallb proper es = true ->
    exists xs, give_all es xs /\ Forall small xs /\ (existsb one es = true -> xs <> [])).
  { induction 1 as [|e es He F IH]; cbn [forallb existsb]; intros P.
    - exists []. split; [constructor|]. split; [constructor|discriminate].
    - apply andb_true_iff in P as [P1 P2]. destruct (He P1) as (xs & G & S1 & N1). destruct (IH P2) as (ys & Gs & S2 & N2). exists (xs ++ ys). split; [now constructor|]. split; [now apply Forall_app|].
      intros O C. apply app_eq_nil in C as [-> ->]. apply orb_true_iff in O as [O|O]; [now apply N1|now apply N2]. }
  intro e0. induction e0 as [| |es F|es F|a b IHa IHb|op a b IHa IHb|a b IHa IHb] using cexpr_all; cbn [proper]; intro P; [discriminate|..].
  - apply andb_true_iff in P as [P P3]. apply andb_true_iff in P as [P1 P2]. destruct (is_row_dec r) as [Q|Q]; [|rewrite (proj2 (row_of_vector_spec r) Q) in P1; discriminate]. apply Nat.leb_le in P3. apply negb_true_iff, Nat.eqb_neq in P2.
    exists [r]. split; [|split; [apply Forall_cons; [exact P3|apply Forall_nil]|discriminate]]. constructor; [split; auto; lia|]. intros ->. now apply P2.
  - destruct (ALL es F P) as (xs & G & Sx & _). exists xs. split; [now constructor|]. split; auto. discriminate.
  - apply andb_true_iff in P as [P O]. destruct (ALL es F P) as (xs & G & Sx & N). specialize (N O).
    assert (RG : Forall row256 xs) by (eapply Forall_impl; [|apply (proj2 gives_sound _ _ G)]; intros ? []; auto).
    destruct (group_of_spec RG) as (n & HN). destruct (HN n (le_n n)) as (Gr & E & GB & WG & GE). exists (gv Gr). split; [|split; [|discriminate]].
    + apply (g_group (gens := xs)); auto. apply WG.
    + apply Forall_forall. intros x Hx. destruct WG as (_ & LG & _). assert (row_b (gb Gr) x) as [_ LX] by (apply LG; exact Hx). unfold small. rewrite LX, GB. clear - Sx.
      induction Sx as [|y ys H F IH]; cbn; [lia|]. unfold small in H. unfold max_bells in IH. lia.
  - apply andb_true_iff in P as [P1 P2]. destruct (IHa P1) as (xs & G & S1 & N1). destruct (IHb P2) as (ys & Gs & S2 & N2). eexists. split; [econstructor; eauto|]. split; [|discriminate].
    apply Forall_forall. intros x Hx. apply filter_In in Hx as [Hx _]. rewrite Forall_forall in S1. auto.
  - apply andb_true_iff in P as [P1 P2]. destruct (IHa P1) as (xs & G & S1 & N1). destruct (IHb P2) as (ys & Gs & S2 & N2). eexists. split; [econstructor; eauto|]. split.
    + apply each_small; auto. intros x y Hx Hy. destruct op; apply comp_small; auto using inv_small.
    + cbn [one]. intro O. apply andb_true_iff in O as [Oa Ob]. specialize (N1 Oa). specialize (N2 Ob). intro C. apply (f_equal (@length _)) in C. rewrite (proj1 (C80_size op G Gs)) in C.
      destruct xs; [congruence|]. destruct ys; [congruence|]. discriminate.
  - assert (D : (exists z, b = CInt z) \/ (proper a && proper b = true /\ one (CExp a b) = one a && one b)).
    { destruct b; auto. left. eauto. }
    destruct D as [(z & ->)|[P' Oe]].
    + apply andb_true_iff in P as [P P3]. apply andb_true_iff in P as [P P2]. apply Z.leb_le in P2, P3. destruct (IHa P) as (xs & G & S1 & N1). eexists. split; [apply g_power; [exact G|]|split].
      * eapply Forall_impl; [|exact S1]. intros x Hx. split; [lia|right; exact Hx].
      * apply Forall_forall. intros x Hx. apply in_map_iff in Hx as (y & <- & Hy). unfold small. rewrite pow_length. rewrite Forall_forall in S1. now apply S1.
      * cbn [one]. intros O C. apply map_eq_nil in C. now apply N1.
    + apply andb_true_iff in P' as [P1 P2]. destruct (IHa P1) as (xs & G & S1 & N1). destruct (IHb P2) as (ys & Gs & S2 & N2). eexists. split; [apply g_conj; eauto|]. split.
      * apply each_small; auto. intros x y Hx Hy. repeat apply comp_small; auto using inv_small.
      * rewrite Oe. intro O. apply andb_true_iff in O as [Oa Ob]. specialize (N1 Oa). specialize (N2 Ob). intro C. apply (f_equal (@length _)) in C. rewrite (proj2 (C80_size Times G Gs)) in C.
        destruct xs; [congruence|]. destruct ys; [congruence|]. discriminate.
Qed.
Theorem C80_total : forall e, proper e = true -> exists xs, gives e xs.
Proof. intros e P. destruct (proper_gives P) as (xs & G & _). eauto. Qed.
Print Assumptions C80_total.
Theorem C80_answers : forall f e, proper e = true -> regular e = true -> exists xs N, forall fuel, N <= fuel -> calc default_symtab f 0 fuel (init e) = Ret xs.
Proof. intros f e P R. destruct (C80_total P) as (xs & G). destruct (C80_rows f G R) as (N & H). eauto. Qed.
Print Assumptions C80_answers.

(* Examples: <21>*{132,213}, and the rounds blocks of a difference. *)
Definition r21 : cexpr := CRow [1; 0].
Definition r132 : cexpr := CRow [0; 2; 1].
Definition r213 : cexpr := CRow [1; 0; 2].
Example C80_example : proper (CDiff (CMult Times (CGroup [r21]) (CSet [r132; r213])) r213) = true /\ regular (CDiff (CMult Times (CGroup [r21]) (CSet [r132; r213])) r213) = true /\
  calc default_symtab (mkFlags true true false) 4 30 (init (CDiff (CMult Times (CGroup [r21]) (CSet [r132; r213])) r213)) = Ret [[0; 2; 1; 3]; [1; 2; 0; 3]; [0; 1; 2; 3]].
Proof. vm_compute. auto. Qed.

(* Not so where an expression is not regular. *)
Definition std : flags := mkFlags true true false.
Definition answers (e : cexpr) (xs : list (list nat)) : Prop := exists N, forall fuel, N <= fuel -> calc default_symtab std 0 fuel (init e) = Ret xs.
Lemma answers_many e xs n' : produces (init e) xs n' -> Forall sound xs -> many e = true -> answers e xs.
Proof.
  intros P F M. destruct (@calc_many std 0 _ _ _ P) as (N & H). { apply Nat.eqb_neq. rewrite count_init, M. reflexivity. }
  exists N. intros fuel Hf. unfold calc. rewrite H by lia. apply (fit_all_spec std F (Nat.le_0_l _)). clear. induction xs; constructor; auto. now constructor.
Qed.
Ltac go := repeat (eapply p_more; [exists 12; vm_compute; reflexivity|]); eapply p_end; exists 12; vm_compute; reflexivity.
Ltac given := repeat first [apply ga_none | eapply ga_more | apply g_set | eapply g_mult | eapply g_conj | eapply g_diff; [| |reflexivity] | apply g_row; [apply row256_by; reflexivity|discriminate]].
Ltac sounds := repeat constructor; try discriminate; apply row256_by; reflexivity.
(* a set in a set has no rows the second time: {{21,132}}*{21,213} *)
Theorem C80_nested_refuted : exists e xs ys, gives e xs /\ answers e ys /\ length xs = 4 /\ length ys = 2.
Proof.
  exists (CMult Times (CSet [CSet [r21; r132]]) (CSet [r21; r213])). do 2 eexists. split; [given|]. split; [eapply answers_many; [go| |reflexivity]; sounds|]. split; reflexivity.
Qed.
Print Assumptions C80_nested_refuted.
(* nor are the rows by which others are conjugated gone through again: (21^{21,132})*{21,213} *)
Theorem C80_conjugates_refuted : exists e xs ys, gives e xs /\ answers e ys /\ length xs = 4 /\ length ys = 2.
Proof.
  exists (CMult Times (CExp r21 (CSet [r21; r132])) (CSet [r21; r213])). do 2 eexists. split; [given|]. split; [eapply answers_many; [go| |reflexivity]; sounds|]. split; reflexivity.
Qed.
Print Assumptions C80_conjugates_refuted.
(* a difference of two equal rows ends the set it is in: {21-21,132} *)
Theorem C80_difference_refuted : exists e xs, gives e xs /\ answers e [] /\ xs = [[0; 2; 1]].
Proof.
  exists (CSet [CDiff r21 r21; r132]). eexists. split; [given|]. split; [eapply answers_many; [go| |reflexivity]; sounds|]. reflexivity.
Qed.
Print Assumptions C80_difference_refuted.
