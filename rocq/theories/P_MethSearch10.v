(* P_MethSearch10.v - the search of methsearch: no bell stays too long in a palindromic method with
   one hunt bell (or three, ...). *)
From Verif Require Import Base M_Bell M_Change M_Math M_Row M_PN M_Method M_Proof M_MethSearch
  Spec_Row Spec_Change Spec_Proof Spec_MethSearch P_Row P_Change2 P_Change3 P_Method P_Proof.
Set Implicit Arguments.
Unset Strict Implicit.
Open Scope nat_scope.

Lemma nth_rev_firstn2 {X} (m : list X) i j : i <= length m -> j < i -> nth_error (rev (firstn i m)) j = nth_error m (i - 1 - j).
Proof.
  intros Hi Hj. destruct (nth_error m (i - 1 - j)) as [x|] eqn:E; [|apply nth_error_None in E; lia].
  rewrite <- (firstn_skipn i m) in E. rewrite nth_error_app1 in E by (rewrite firstn_length; lia).
  assert (LF : length (firstn i m) = i) by (rewrite firstn_length; lia).
  rewrite nth_error_nth' with (d := x) by (rewrite rev_length; lia). rewrite rev_nth by lia. f_equal.
  replace (length (firstn i m) - S j) with (i - 1 - j) by lia. now apply nth_error_nth.
Qed.

Section A.
Variable A : sargs.
Hypothesis CK : checked A.
Notation L := (sa_len A).
Notation b := (sa_blows A).
Variable M : list change.
Hypothesis W : wanted A M.
Hypothesis SY : asked A (sa_sym A) = true.
Hypothesis ND : asked A (sa_doubsym A) = false.
Hypothesis NS : asked A (sa_skewsym A) = false.
Hypothesis OD : sa_hunts A mod 2 = 1.
Hypothesis B : 0 < b <= L.
Variable p : nat.
Hypothesis Hp : p < sa_bells A.

(* place p is made in change k, the lead being rung over and over *)
Definition mk (k : nat) : Prop := exists c, nth_error M (k mod L) = Some c /\ findplace c p = true.

Lemma mid0 : middle A = 0.
Proof. unfold middle. destruct (Nat.eqb_spec (sa_hunts A) 0); [reflexivity|]. destruct (Nat.eqb_spec (sa_hunts A mod 2) 0); [lia|reflexivity]. Qed.
Lemma len_even : exists H, L = 2 * H /\ L / 2 = H /\ 1 <= H.
Proof.
  unfold asked in SY. apply andb_prop in SY as [S _]. assert (E : L mod 2 = 0) by (apply (ck_even CK); now rewrite S).
  exists (L / 2). pose proof (ck_len CK). pose proof (Nat.div_mod L 2 ltac:(lia)). lia.
Qed.
Lemma mk_mod k k' : k mod L = k' mod L -> mk k -> mk k'.
Proof. unfold mk. intros ->. auto. Qed.
Lemma mk_pal k k' t : k + k' + 2 = t * L -> mk k -> mk k'.
Proof.
  intros E (c & Ec & F). pose proof (ck_len CK) as L1. destruct W as (_ & (P & _) & _). specialize (P SY ND). unfold palindrome in P. rewrite mid0 in P.
  exists c. split; [|exact F]. specialize (P (k mod L) (Nat.mod_upper_bound k L ltac:(lia))). rewrite <- Ec, P. f_equal.
  (* k' mod L = (2L - 2 - k mod L) mod L *)
  pose proof (Nat.mod_upper_bound k L ltac:(lia)) as R. pose proof (Nat.div_mod k L ltac:(lia)) as D.
  set (r := k mod L) in *. set (d := k / L) in *.
  destruct (Nat.eq_dec L 1) as [E1|N1]; [rewrite E1; now rewrite !Nat.mod_1_r|].
  replace (2 * L + 2 * 0 - 2 - r) with (2 * L - 2 - r) by lia.
  assert (X : k' + d * L + 2 * L = (2 * L - 2 - r) + t * L).
  { assert (D' : k = d * L + r) by (rewrite (Nat.mul_comm d); exact D). clear D. clearbody d r. set (x := d * L) in *. set (y := t * L) in *. clearbody x y. lia. }
  apply (f_equal (fun x => x mod L)) in X. rewrite <- Nat.add_assoc, <- Nat.mul_add_distr_r in X. rewrite !Nat.mod_add in X by lia. exact X.
Qed.
Lemma sym_on : sa_sym A = true.
Proof. unfold asked in SY. now apply andb_prop in SY as [S _]. Qed.

Lemma run_stays i a : i < L -> a <= i -> (forall j, j < a -> mk (i - 1 - j)) -> stays p a (rev (firstn i M)).
Proof.
  intros Hi Ha R. assert (LM : length M = L) by apply W. split; [rewrite rev_length, firstn_length; lia|].
  intros j Hj. destruct (R j Hj) as (c & E & F). rewrite Nat.mod_small in E by lia. exists c. split; [|exact F]. rewrite nth_rev_firstn2 by lia. exact E.
Qed.
Lemma tests i : i < L / 2 \/ i = L - 1 -> i < L ->
  exists c, nth_error M i = Some c /\ cn c = sa_bells A /\ passes A (firstn i M) c.
Proof.
  intros Ci Hi. assert (LM : length M = L) by apply W. destruct W as (_ & _ & C & _). destruct (C i Hi) as (c & E & I & P).
  { unfold chosen. rewrite SY, ND, NS, mid0. right. destruct Ci as [Ci|Ci]; [left|right]; lia. }
  exists c. split; [exact E|]. split; [|exact P]. apply (ck_changes CK (l := nth i (sa_allowed A) [])); [|exact I]. apply nth_In. rewrite (ck_allowed CK). exact Hi.
Qed.
(* the tests of each change *)
Lemma k1 i : i < L / 2 \/ i = L - 1 -> i < L -> b <= i + 1 -> ~ (forall j, j < b -> mk (i - j)).
Proof.
  intros Ci Hi Hb R. destruct (tests Ci Hi) as (c & E & N & (_ & _ & P & _)). assert (B0 : b <> 0) by lia. apply (P B0).
  exists p, (b - 1), 0. split; [lia|]. split. { destruct (R 0 ltac:(lia)) as (c' & E' & F). rewrite Nat.sub_0_r, Nat.mod_small in E' by lia. congruence. }
  split; [|split; [split; [lia|intros j Hj; lia]|lia]]. apply run_stays; [lia|lia|]. intros j Hj. replace (i - 1 - j) with (i - S j) by lia. apply R. lia.
Qed.
(* the tests at the half lead and the lead end *)
Lemma k2 i : i = L / 2 - 1 \/ i = L - 1 -> b / 2 + 1 <= i + 1 -> ~ (forall j, j < b / 2 + 1 -> mk (i - j)).
Proof.
  intros Ci Hb R. destruct len_even as (H & E1 & E2 & E3). assert (Hi : i < L) by lia. assert (Ci' : i < L / 2 \/ i = L - 1) by lia.
  assert (LM : length M = L) by apply W.
  destruct (tests Ci' Hi) as (c & E & N & (_ & _ & _ & P & _)). assert (B0 : b <> 0) by lia. rewrite mid0, firstn_length in P. revert P. rewrite Nat.min_l by lia. intros P.
  assert (HN : sa_hunts A <> 0) by (intros X; rewrite X in OD; discriminate OD).
  apply (P sym_on B0).
  { cbn [Nat.eqb]. destruct Ci as [Ci|Ci]; [left; split; [exact HN|lia]|right; lia]. }
  exists p, (b / 2), 0. split; [lia|]. split. { destruct (R 0 ltac:(lia)) as (c' & E' & F). rewrite Nat.sub_0_r, Nat.mod_small in E' by lia. congruence. }
  split; [|split; [split; [lia|intros j Hj; lia]|lia]]. apply run_stays; [lia|lia|]. intros j Hj. replace (i - 1 - j) with (i - S j) by lia. apply R. lia.
Qed.

Lemma no_long_pal s : s < L -> ~ makes_run M p s b.
Proof.
  intros Hs R0. destruct len_even as (H & E1 & E2 & E3). assert (LM : length M = L) by apply W.
  assert (R : forall k, s <= k < s + b -> mk k).
  { intros k Hk. destruct (R0 (k - s) ltac:(lia)) as (c & E & F). exists c. split; [|exact F]. replace (s + (k - s)) with k in E by lia.
    destruct (Nat.lt_ge_cases k L) as [G|G]; [rewrite nth_error_app1 in E by lia; now rewrite Nat.mod_small|].
    rewrite nth_error_app2 in E by lia. rewrite <- E. f_equal. rewrite LM. replace k with ((k - L) + 1 * L) at 1 by lia. rewrite Nat.mod_add by lia. apply Nat.mod_small. lia. }
  clear R0. pose proof (Nat.div_mod b 2 ltac:(lia)) as DB. pose proof (Nat.mod_upper_bound b 2 ltac:(lia)) as MB.
  destruct (Nat.eq_dec b L) as [EB|NB].
  - apply (@k1 (L - 1)); [lia|lia|lia|]. intros j Hj. destruct (Nat.lt_ge_cases (L - 1 - j) s) as [G|G]; [|apply R; lia].
    apply mk_mod with (k := L - 1 - j + 1 * L); [now rewrite Nat.mod_add by lia|]. apply R. lia.
  - assert (Q : forall q t, q = L / 2 - 1 \/ q = L - 1 -> 2 * q + 2 = t * L -> s <= q < s + b -> False).
    { intros q t Hq Ht In. assert (Hb : b / 2 + 1 <= L / 2) by lia. apply (@k2 q Hq); [lia|]. intros j Hj.
      destruct (Nat.lt_ge_cases (q - s) (b / 2)) as [G|G]; [|apply R; lia].
      apply mk_pal with (k := q + j) (t := t); [lia|]. apply R. lia. }
    destruct (Nat.lt_ge_cases s (L / 2)) as [G1|G1].
    + destruct (Nat.lt_ge_cases (s + b) (L / 2)) as [G2|G2].
      * apply (@k1 (s + b - 1)); [lia|lia|lia|]. intros j Hj. apply R. lia.
      * apply (Q (L / 2 - 1) 1); lia.
    + destruct (Nat.lt_ge_cases (s + b) L) as [G2|G2].
      * apply (@k1 (L - 2 - s)); [lia|lia|lia|]. intros j Hj. apply mk_pal with (k := s + j) (t := 1); [lia|]. apply R. lia.
      * apply (Q (L - 1) 2); lia.
Qed.
End A.
