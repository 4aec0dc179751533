(* P_Search.v - words least among their rotations (necklaces), and the test made of prefixes. *)
From Verif Require Import Base.
Set Implicit Arguments.
Unset Strict Implicit.
Open Scope nat_scope.

Section Words.
Implicit Types (w : list nat).
Notation "w ! i" := (nth i w 0) (at level 9, i at level 9, format "w ! i").

(* the shift of w by k is above w: there is a first place at which it differs, and it is greater there.
   All within n letters. *)
Definition above w n k : Prop := exists i, k + i < n /\ w!i < w!(k + i) /\ forall j, j < i -> w!(k + j) = w!j.
Definition below_at w n k : Prop := exists i, k + i < n /\ w!(k + i) < w!i /\ forall j, j < i -> w!(k + j) = w!j.
Lemma above_below w n n' k : above w n k -> below_at w n' k -> False.
Proof.
  intros (i & Hi & Li & Ei) (i' & Hi' & Li' & Ei'). destruct (Nat.lt_trichotomy i i') as [H|[H|H]].
  - rewrite (Ei' i H) in Li. lia.
  - subst. lia.
  - rewrite (Ei i' H) in Li'. lia.
Qed.

(* the invariant of the test after the letters w: cur letters make a Lyndon word of which w
   is (a beginning of) a power *)
Definition tracked w n cur : Prop :=
  0 < cur <= n /\ (forall i, cur <= i < n -> w!i = w!(i - cur)) /\ (forall k, 0 < k < cur -> above w cur k).

Lemma period_mod w n p : 0 < p -> (forall i, p <= i < n -> w!i = w!(i - p)) -> forall q i, q * p + i < n -> w!(q * p + i) = w!i.
Proof.
  intros Hp H. induction q as [|q IH]; intros i Hi; [reflexivity|].
  specialize (IH i). change (S q * p) with (p + q * p) in *. revert IH Hi. generalize (q * p) as z. intros z IH Hi. rewrite H by lia. rewrite <- IH by lia. f_equal. lia.
Qed.
Lemma tracked_same w n p : tracked w n p -> w!n = w!(n - p) -> tracked w (S n) p.
Proof.
  intros (Hp & P & L) E. split; [lia|]. split; [|exact L]. intros i Hi. destruct (Nat.eq_dec i n) as [->|N]; [exact E|]. apply P. lia.
Qed.
Lemma tracked_up w n p : tracked w n p -> w!(n - p) < w!n -> tracked w (S n) (S n).
Proof.
  intros (Hp & P & L) E. split; [lia|]. split; [lia|]. intros k Hk.
  pose proof (period_mod (proj1 Hp) P) as PM.
  pose proof (Nat.div_mod k p ltac:(lia)) as D. set (q := k / p) in *. set (s := k mod p) in *.
  assert (Hs : s < p) by (apply Nat.mod_upper_bound; lia).
  replace (p * q) with (q * p) in D by lia.
  destruct (Nat.eq_dec s 0) as [Es|Ns].
  - (* a multiple of p *)
    exists (n - k). assert (q <> 0) by (intros ->; lia). split; [lia|]. split.
    + replace (k + (n - k)) with n by lia.
      replace (n - p) with ((q - 1) * p + (n - k)) in E. { rewrite PM in E; [exact E|]. nia. }
      rewrite D, Es. rewrite Nat.mul_sub_distr_r. assert (p <= q * p) by nia. lia.
    + intros j Hj. rewrite D, Es, Nat.add_0_r. apply PM. lia.
  - destruct (L s ltac:(lia)) as (i & Hi & Li & Ei).
    destruct (Nat.lt_ge_cases (k + i) n) as [H|H].
    + exists i. split; [lia|]. assert (X : forall j, j <= i -> w!(k + j) = w!(s + j)). { intros j Hj. rewrite D, <- Nat.add_assoc. apply PM. lia. }
      split; [rewrite X by lia; exact Li|]. intros j Hj. rewrite X by lia. now apply Ei.
    + assert (Hq : q <> 0) by (intros ->; lia).
      exists (n - k). split; [lia|]. replace (k + (n - k)) with n by lia.
      assert (X : forall j, j < n - k -> w!(k + j) = w!(s + j)). { intros j Hj. rewrite D, <- Nat.add_assoc. apply PM. lia. }
      split.
      * assert (M : w!(n - p) = w!(s + (n - k))).
        { replace (n - p) with ((q - 1) * p + (s + (n - k))); [apply PM|]; rewrite Nat.mul_sub_distr_r; assert (p <= q * p) by nia; lia. }
        rewrite M in E. destruct (Nat.eq_dec (n - k) i) as [Ei'|Ni]; [rewrite <- Ei' in Li; lia|]. rewrite (Ei (n - k)) in E by lia. exact E.
      * intros j Hj. rewrite X by lia. apply Ei. lia.
Qed.
(* a word that is not below any of its shifts is never rejected *)
Lemma tracked_not_down w n p : tracked w n p -> w!n < w!(n - p) -> below_at w (S n) p.
Proof.
  intros (Hp & P & L) E. exists (n - p). split; [lia|]. replace (p + (n - p)) with n by lia. split; [exact E|].
  intros j Hj. rewrite P by lia. f_equal. lia.
Qed.
(* at the end of a necklace the period divides the length *)
Lemma tracked_divides w n p : tracked w n p -> n mod p <> 0 -> exists k, 0 < k < n /\
  (* the letters from k on are the first ones, and the word shifted by that many letters is above *)
  (forall j, k + j < n -> w!(k + j) = w!j) /\ above w n (n - k).
Proof.
  intros (Hp & P & L) N. pose proof (period_mod (proj1 Hp) P) as PM.
  pose proof (Nat.div_mod n p ltac:(lia)) as D. set (q := n / p) in *. set (s := n mod p) in *. replace (p * q) with (q * p) in D by lia.
  assert (Hs : s < p) by (apply Nat.mod_upper_bound; lia). assert (q <> 0) by (intros K; rewrite K in D; lia).
  exists (q * p). split; [nia|]. split; [intros j Hj; apply PM; lia|].
  replace (n - q * p) with s by lia. destruct (L s ltac:(lia)) as (i & Hi & Li & Ei). exists i. split; [lia|auto].
Qed.
End Words.
