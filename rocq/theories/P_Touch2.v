(* P_Touch2.v - comparing iterators of a touch. *)
From Verif Require Import Base M_Change M_Row M_Touch Spec_Row Spec_Change Spec_Touch P_Touch.
Set Implicit Arguments.
Unset Strict Implicit.
Open Scope nat_scope.

Lemma times_length n l : length (times n l) = Z.to_nat n * length l.
Proof. unfold times. induction (Z.to_nat n) as [|k IH]; [reflexivity|]. cbn [repeat concat]. rewrite app_length, IH. lia. Qed.
Lemma flatten_app l m : flatten (Children (l ++ m)) = flatten (Children l) ++ flatten (Children m).
Proof. cbn [flatten]. apply flat_map_app. Qed.
Lemma flatten_cons k c t : flatten (Children ((k, c) :: t)) = times k (flatten c) ++ flatten (Children t).
Proof. reflexivity. Qed.

Lemma at_length n : forall i r, at_node n i r -> length r <= length (flatten n).
Proof.
  induction n as [c|l IH] using node_ind'; intros i r A.
  - destruct i as [|rest|]; try (destruct A; fail). destruct A as [-> A]. exact A.
  - destruct i as [| |rest ci count]; try (destruct A; fail). destruct rest as [|[k c] t]; [cbn in A; subst r; cbn; lia|].
    apply at_children in A as (rc & pre & -> & A & N & Hc & K & ->). apply Forall_app in IH as [_ IH]. inversion_clear IH as [|? ? H H0].
    specialize (H _ _ A). cbn [snd] in H.
    rewrite flatten_app, flatten_cons, !app_length, !times_length.
    replace (Z.to_nat k) with (S (Z.to_nat (k - 1))) by lia. cbn [Nat.mul].
    assert (Z.to_nat (k - 1 - count) * length (flatten c) <= Z.to_nat (k - 1) * length (flatten c)) by (apply Nat.mul_le_mono_r; lia).
    lia.
Qed.

Lemma suffixes A (p q : list A) x y s t : p ++ x :: s = q ++ y :: t -> length s = length t -> x = y /\ s = t.
Proof.
  revert q; induction p as [|a p IH]; intros [|b q] E L; cbn in E.
  - injection E as -> ->. auto.
  - injection E as _ E. rewrite E, app_length in L. cbn in L. lia.
  - injection E as _ E. rewrite <- E, app_length in L. cbn in L. lia.
  - injection E as _ E. eauto.
Qed.
Lemma longer_suffix A (p q : list A) x y s t : p ++ x :: s = q ++ y :: t -> length t < length s -> exists u, s = u ++ y :: t.
Proof.
  revert q; induction p as [|a p IH]; intros [|b q] E L; cbn in E.
  - injection E as -> ->. lia.
  - injection E as _ E. eauto.
  - injection E as _ E. rewrite <- E, app_length in L. cbn in L. lia.
  - injection E as _ E. eauto.
Qed.

Lemma at_eqb n : forall i j r s, at_node n i r -> at_node n j s -> iter_eqb i j = Ret (length r =? length s).
Proof.
  induction n as [c|l IH] using node_ind'; intros i j r s A B.
  - destruct i as [|rest|]; try (destruct A; fail). destruct j as [|rest'|]; try (destruct B; fail).
    destruct A as [-> _], B as [-> _]. reflexivity.
  - destruct i as [| |rest ci count]; try (destruct A; fail). destruct j as [| |rest' cj count']; try (destruct B; fail).
    cbn [iter_eqb]. destruct rest as [|[k c] t], rest' as [|[k' c'] t'].
    + cbn in A, B. subst. reflexivity.
    + cbn in A. subst r. apply at_children in B as (rc & pre & _ & _ & N & _ & _ & ->). cbn [length Nat.eqb].
      destruct rc; [congruence|]. reflexivity.
    + cbn in B. subst s. apply at_children in A as (rc & pre & _ & _ & N & _ & _ & ->). cbn [length Nat.eqb].
      destruct rc; [congruence|]. reflexivity.
    + apply at_children in A as (rc & pre & El & A & N & Hc & K & ->). apply at_children in B as (rs & pre' & El' & B & N' & Hc' & K' & ->).
      assert (Lrc : length rc <= length (flatten c)) by (eapply at_length; exact A).
      assert (Lrs : length rs <= length (flatten c')) by (eapply at_length; exact B).
      assert (0 < length rc) by (destruct rc; [congruence|cbn; lia]).
      assert (0 < length rs) by (destruct rs; [congruence|cbn; lia]).
      (* what is left is at most the whole child and what follows, and more than what follows *)
      assert (Up : forall k c count (rc : list change), (0 <= count < k)%Z -> length rc <= length (flatten c) ->
        length rc + Z.to_nat (k - 1 - count) * length (flatten c) <= Z.to_nat k * length (flatten c)).
      { clear. intros k c count rc Hc L. replace (Z.to_nat k) with (S (Z.to_nat (k - 1))) by lia. cbn [Nat.mul].
        assert (Z.to_nat (k - 1 - count) * length (flatten c) <= Z.to_nat (k - 1) * length (flatten c)) by (apply Nat.mul_le_mono_r; lia). lia. }
      pose proof (Up k c count rc Hc Lrc) as U1. pose proof (Up k' c' count' rs Hc' Lrs) as U2.
      rewrite !app_length, !times_length. cbn [length Nat.eqb].
      destruct (Nat.eqb_spec (length t) (length t')) as [Et|Nt].
      * rewrite El in El'. destruct (suffixes El' Et) as [E ->]. injection E as <- <-.
        destruct (Z.eqb_spec count count') as [<-|Nc].
        -- rewrite El in IH. apply Forall_app in IH as [_ IH]. inversion_clear IH as [|? ? H1 _]. cbn [snd] in H1.
           rewrite (H1 _ _ _ _ A B). f_equal.
           destruct (Nat.eqb_spec (length rc) (length rs)); symmetry; [apply Nat.eqb_eq|apply Nat.eqb_neq]; lia.
        -- f_equal. symmetry. apply Nat.eqb_neq. destruct (Z.lt_total count count') as [L|[L|L]]; [|lia|].
           ++ assert (length (flatten c) + Z.to_nat (k - 1 - count') * length (flatten c) <= Z.to_nat (k - 1 - count) * length (flatten c)).
              { replace (Z.to_nat (k - 1 - count)) with (S (Z.to_nat (k - 1 - count')) + Z.to_nat (count' - count - 1)) by lia. nia. }
              lia.
           ++ assert (length (flatten c) + Z.to_nat (k - 1 - count) * length (flatten c) <= Z.to_nat (k - 1 - count') * length (flatten c)).
              { replace (Z.to_nat (k - 1 - count')) with (S (Z.to_nat (k - 1 - count)) + Z.to_nat (count - count' - 1)) by lia. nia. }
              lia.
      * f_equal. symmetry. apply Nat.eqb_neq. rewrite El in El'. destruct (Nat.lt_total (length t) (length t')) as [L|[L|L]]; [|lia|].
        -- destruct (longer_suffix (eq_sym El') L) as [u ->]. rewrite flatten_app, flatten_cons, !app_length, times_length. clear Up. revert U1 U2. generalize (Z.to_nat (k - 1 - count) * length (flatten c)) (Z.to_nat k * length (flatten c)) (Z.to_nat (k' - 1 - count') * length (flatten c')) (Z.to_nat k' * length (flatten c')). intros. lia.
        -- destruct (longer_suffix El' L) as [u ->]. rewrite flatten_app, flatten_cons, !app_length, times_length. clear Up. revert U1 U2. generalize (Z.to_nat (k - 1 - count) * length (flatten c)) (Z.to_nat k * length (flatten c)) (Z.to_nat (k' - 1 - count') * length (flatten c')) (Z.to_nat k' * length (flatten c')). intros. lia.
Qed.

(* the iterator after k steps from the beginning *)
Fixpoint steps (k : nat) (i : iter) : outcome iter := match k with O => Ret i | S k => i <- steps k i ;; incr i end.
Lemma steps_at n k : well_made n -> k <= length (flatten n) -> exists i, steps k (node_begin n) = Ret i /\ at_node n i (skipn k (flatten n)).
Proof.
  intros W. induction k as [|k IH]; intros Hk.
  - exists (node_begin n). split; [reflexivity|]. cbn [skipn]. now apply begin_at.
  - destruct IH as (i & E & A); [lia|]. cbn [steps]. rewrite E. cbn [bind].
    destruct (skipn k (flatten n)) as [|x r] eqn:Es.
    { assert (length (skipn k (flatten n)) = 0) by now rewrite Es. rewrite skipn_length in H. lia. }
    destruct (at_step A) as [_ (j & I & A')]. exists j. split; [exact I|].
    replace (skipn (S k) (flatten n)) with r; [exact A'|].
    clear -Es. revert k Es. generalize (flatten n) as l. induction l as [|y l IH]; intros [|k] Es; cbn in *; try congruence. now apply IH.
Qed.
