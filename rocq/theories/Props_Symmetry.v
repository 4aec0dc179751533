(* Props_Symmetry.v - C84: the symmetries methsearch finds in a method. *)
From Verif Require Import Base M_Bell M_Change M_Math M_Row M_PN M_Method M_Symmetry Spec_Row Spec_Change Spec_Method Spec_Symmetry
  P_Change2 P_Change3 P_PN P_Method P_Symmetry.
Set Implicit Arguments.
Unset Strict Implicit.
Open Scope nat_scope.

Theorem C84_palindromic : forall m, wf_method m -> mch m <> [] ->
  exists b, has_conventional_symmetry m = Ret b /\ (b = true <-> palindromic (mch m)).
Proof. intros m W N. exact (pal_spec W N). Qed.
Print Assumptions C84_palindromic.

Theorem C84_mirror : forall m, wf_method m -> mch m <> [] ->
  exists b, has_mirror_symmetry m = Ret b /\ (b = true <-> mirror (mch m)).
Proof. intros m W N. exact (mirror_spec W N). Qed.
Print Assumptions C84_mirror.

Theorem C84_glide : forall m, wf_method m -> mch m <> [] ->
  exists b, has_glide_symmetry m = Ret b /\ (b = true <-> glide (mch m)).
Proof. intros m W N. exact (glide_spec W N). Qed.
Print Assumptions C84_glide.

Theorem C84_rotational : forall m, wf_method m -> mch m <> [] -> Nat.even (length (mch m)) = true ->
  exists b, has_rotational_symmetry m = Ret b /\ (b = true <-> rotational (mch m)).
Proof.
  intros m W N Ev. destruct (rot_spec W N) as (b & E & C & S1 & _). exists b. split; [exact E|]. split; [|exact C].
  intros Hb. apply S1; [exact Hb|]. apply Nat.even_spec in Ev as [k Ek]. unfold h. rewrite Ek.
  replace (Z.of_nat (2 * k)) with (Z.of_nat k * 2)%Z by lia. rewrite Z.div_mul; lia.
Qed.
Print Assumptions C84_rotational.

(* with an odd number of changes no symmetry is missed, but the change opposite may be
   anything *)
Theorem C84_rotational_odd : forall m, wf_method m -> mch m <> [] ->
  exists b, has_rotational_symmetry m = Ret b /\
    (rotational (mch m) -> b = true) /\ (b = true -> rotational_but_centre (mch m)).
Proof. intros m W N. destruct (rot_spec W N) as (b & E & C & _ & S2). exists b. auto. Qed.
Print Assumptions C84_rotational_odd.

(* ... so for every odd length there is a method wrongly called rotationally symmetric:
   "x" rung an even number of times on four bells, then 12 *)
Definition wrong_rot (k : nat) : method := mkMethod (mkChange 4 [2] :: repeat (mkChange 4 [0; 2]) (2 * k)) 4.
Lemma wrong_wf k : (Z.of_nat (2 * k + 1) <= int_max)%Z -> wf_method (wrong_rot k).
Proof.
  intros H. unfold wf_method. cbn [mb mch wrong_rot length]. rewrite repeat_length. split; [lia|]. split; [lia|].
  constructor; [split; [reflexivity|cbn; auto with arith]|]. apply Forall_forall. intros c Hc. apply repeat_spec in Hc. subst c.
  split; [reflexivity|cbn; auto 10 with arith].
Qed.
Lemma wrong_at k i : at_change (mch (wrong_rot k)) i =
  Some (if (i mod Z.of_nat (2 * k + 1) =? 0)%Z then mkChange 4 [2] else mkChange 4 [0; 2]).
Proof.
  unfold at_change. cbn [mch wrong_rot length]. rewrite repeat_length. replace (S (2 * k)) with (2 * k + 1) by lia.
  pose proof (Z.mod_pos_bound i (Z.of_nat (2 * k + 1)) ltac:(lia)) as B.
  destruct (Z.eqb_spec (i mod Z.of_nat (2 * k + 1)) 0) as [->|N]; [reflexivity|].
  destruct (Z.to_nat (i mod Z.of_nat (2 * k + 1))) as [|t] eqn:E; [lia|]. cbn [nth_error].
  rewrite nth_error_repeat; [reflexivity|lia].
Qed.
Theorem C84_rotational_wrong : forall k, (Z.of_nat (2 * k + 1) <= int_max)%Z ->
  wf_method (wrong_rot k) /\ length (mch (wrong_rot k)) = 2 * k + 1 /\
  has_rotational_symmetry (wrong_rot k) = Ret true /\ ~ rotational (mch (wrong_rot k)).
Proof.
  intros k Hk. assert (W := wrong_wf Hk). assert (NE : mch (wrong_rot k) <> []) by discriminate.
  split; [exact W|]. split; [cbn [mch wrong_rot length]; rewrite repeat_length; lia|]. split.
  - unfold has_rotational_symmetry. pose proof (@h_bounds _ NE) as HB. rewrite (quot_h NE).
    assert (Eh : h (wrong_rot k) = Z.of_nat k).
    { revert HB. unfold h. cbn [mch wrong_rot length]. rewrite repeat_length. lia. }
    destruct (@any_from_spec (Z.to_nat (h (wrong_rot k) + 1)) 0 (rot_about_change (wrong_rot k))
      (fun i => forall t, at_change (mch (wrong_rot k)) (i + t) = option_map change_reverse (at_change (mch (wrong_rot k)) (i - t)))) as (b1 & E1 & _).
    { intros t Ht. apply rot_change; [exact W|exact NE|lia]. }
    rewrite E1. cbn [bind]. destruct b1; [reflexivity|].
    destruct (@any_from_spec (Z.to_nat (h (wrong_rot k) + 1)) 0 (rot_about_row (wrong_rot k))
      (fun i => forall t, (0 <= t < h (wrong_rot k))%Z -> at_change (mch (wrong_rot k)) (i + t + 1) = option_map change_reverse (at_change (mch (wrong_rot k)) (i - t)))) as (b2 & E2 & H2).
    { intros t Ht. apply rot_row; [exact W|exact NE|lia]. }
    rewrite E2. f_equal. apply H2. exists (Z.of_nat k). split; [lia|]. intros t Ht. rewrite !wrong_at.
    rewrite !Z.mod_small by lia. destruct (Z.eqb_spec (Z.of_nat k + t + 1) 0); [lia|]. destruct (Z.eqb_spec (Z.of_nat k - t) 0); [lia|]. reflexivity.
  - intros (q & X). specialize (X 0%Z). rewrite !wrong_at, Z.mod_0_l in X by lia. change (0 =? 0)%Z with true in X. cbv iota in X.
    destruct ((q - 0) mod Z.of_nat (2 * k + 1) =? 0)%Z; vm_compute in X; discriminate.
Qed.
Print Assumptions C84_rotational_wrong.

(* a method without changes has no remainder to take *)
Theorem C84_empty : forall b, has_rotational_symmetry (mkMethod [] b) = UB /\ method_symmetry_string (mkMethod [] b) = UB.
Proof. intros b. split; reflexivity. Qed.
Print Assumptions C84_empty.

(* the letters: for an even number of changes exactly the symmetries there are, each once
   and in the order PMGR *)
Definition letters_for (P M G R : Prop) (s : list ascii) : Prop :=
  exists p mi g r : bool, (p = true <-> P) /\ (mi = true <-> M) /\ (g = true <-> G) /\ (r = true <-> R) /\
  s = map snd (filter fst [(p, "P"%char); (mi, "M"%char); (g, "G"%char); (r, "R"%char)]).
Theorem C84_string : forall m, wf_method m -> mch m <> [] -> Nat.even (length (mch m)) = true ->
  exists s, method_symmetry_string m = Ret s /\
    letters_for (palindromic (mch m)) (mirror (mch m)) (glide (mch m)) (rotational (mch m)) s.
Proof.
  intros m W N Ev. unfold method_symmetry_string.
  destruct (C84_palindromic W N) as (p & -> & Hp). destruct (C84_mirror W N) as (mi & -> & Hm).
  destruct (C84_glide W N) as (g & -> & Hg). destruct (C84_rotational W N Ev) as (r & -> & Hr). cbn [bind].
  eexists. split; [reflexivity|]. exists p, mi, g, r. repeat split; try tauto; try (apply Hp); try apply Hm; try apply Hg; try apply Hr.
  destruct p, mi, g, r; reflexivity.
Qed.
Print Assumptions C84_string.

(* the test of --floating-sym: all the symmetries asked for are there *)
Theorem C84_floating : forall sk sy db m, wf_method m -> mch m <> [] -> Nat.even (length (mch m)) = true ->
  exists b, try_floating_symmetry sk sy db m = Ret b /\
    (b = true <-> ((sk = true -> rotational (mch m)) /\ (sy = true -> palindromic (mch m)) /\ (db = true -> glide (mch m)))).
Proof.
  intros sk sy db m W N Ev. destruct (C84_string W N Ev) as (s & E & p & mi & g & r & Hp & Hm & Hg & Hr & Es).
  unfold try_floating_symmetry. rewrite E. cbn [bind].
  assert (LR : has_letter "R"%char s = r) by (subst s; destruct p, mi, g, r; reflexivity).
  assert (LP : has_letter "P"%char s = p) by (subst s; destruct p, mi, g, r; reflexivity).
  assert (LG : has_letter "G"%char s = g) by (subst s; destruct p, mi, g, r; reflexivity).
  rewrite LR, LP, LG. clear E Es LR LP LG.
  destruct sk, sy, db, r, p, g; cbn [andb orb negb]; eexists; (split; [reflexivity|]); intuition (try congruence).
Qed.
Print Assumptions C84_floating.

(* two of them make a third *)
Theorem C84_third : forall m, wf_method m -> mch m <> [] -> palindromic (mch m) ->
  mirror (mch m) \/ glide (mch m) -> has_rotational_symmetry m = Ret true.
Proof.
  intros m W N (c & P) H. destruct (rot_spec W N) as (b & E & C & _). rewrite E. f_equal. apply C. destruct H as [M|(k & K & G)].
  - exists (2 * c)%Z. intros t. rewrite (M t). f_equal. specialize (P (t - c)%Z).
    replace (c + (t - c))%Z with t in P by lia. replace (c - (t - c))%Z with (2 * c - t)%Z in P by lia. exact P.
  - exists (2 * c + Z.of_nat k)%Z. intros t. specialize (P (t - c)%Z).
    replace (c + (t - c))%Z with t in P by lia. replace (c - (t - c))%Z with (2 * c - t)%Z in P by lia. rewrite P.
    specialize (G (2 * c - t)%Z). replace (2 * c - t + Z.of_nat k)%Z with (2 * c + Z.of_nat k - t)%Z in G by lia. rewrite G.
    symmetry. apply (rv_rv W N).
Qed.
Print Assumptions C84_third.

(* Plain Bob Minimus: palindromic about its half lead, no other symmetry.  Double Bob
   Minimus has them all but mirror. *)
Example C84_case :
  let x := mkChange 4 [0; 2] in let c14 := mkChange 4 [1] in let c12 := mkChange 4 [2] in
  let c34 := mkChange 4 [0] in
  let pb := mkMethod [x; c14; x; c14; x; c14; x; c12] 4 in
  let db := mkMethod [x; c14; x; c34; x; c14; x; c12] 4 in
  wf_method pb /\ method_symmetry_string pb = Ret ["P"%char] /\
  wf_method db /\ method_symmetry_string db = Ret ["P"%char; "G"%char; "R"%char] /\
  try_floating_symmetry false true true pb = Ret false /\ try_floating_symmetry true true true db = Ret true.
Proof.
  cbv zeta. assert (F : forall l, forallb (fun c => (cn c =? 4) && match cswaps c with [0; 2] | [1] | [2] | [0] => true | _ => false end) l = true ->
    Z.of_nat (length l) = 8%Z -> wf_method (mkMethod l 4)).
  { intros l Hl Ll. split; [cbn; lia|]. split; [cbn [mch]; rewrite Ll; vm_compute; discriminate|]. cbn [mch mb]. apply Forall_forall. intros c Hc.
    rewrite forallb_forall in Hl. apply Hl in Hc. apply andb_true_iff in Hc as [H1 H2]. apply Nat.eqb_eq in H1. split; [exact H1|].
    unfold wf_change. rewrite H1. destruct (cswaps c) as [|[|[|[|]]] [|[|[|[|]]] [|]]]; try discriminate H2; cbn; lia. }
  split; [apply F; reflexivity|]. split; [vm_compute; reflexivity|]. split; [apply F; reflexivity|]. split; [vm_compute; reflexivity|]. split; vm_compute; reflexivity.
Qed.
