(* P_Landau.v - sums and products of prime powers, and the orders of permutations. *)
From Coq Require Import Znumtheory Zpow_facts Permutation.
From Verif Require Import Base M_Math M_Row Spec_Row Spec_Cycle Spec_Landau P_Math P_Row P_Cycle P_Order.
Set Implicit Arguments.
Unset Strict Implicit.
Open Scope Z_scope.

Lemma prime_pos p : prime p -> 2 <= p. Proof. apply prime_ge_2. Qed.
Lemma has_prime_divisor x : 1 < x -> exists p, prime p /\ (p | x).
Proof.
  intros H. assert (X : forall b, forall x, 1 < x < Z.of_nat b -> exists p, prime p /\ (p | x)).
  { induction b as [|b IH]; intros y Hy; [lia|]. destruct (prime_dec y) as [P|P]; [exists y; split; [exact P|apply Z.divide_refl]|].
    destruct (not_prime_divide y) as (d & Hd & D); [lia|exact P|]. destruct (IH d ltac:(lia)) as (p & Pp & Dp). exists p. split; [exact Pp|].
    now apply Z.divide_trans with d. }
  apply (X (Z.to_nat (x + 1))). lia.
Qed.
(* the power of p in x *)
Lemma p_part p x : prime p -> 0 < x -> exists a y, 0 <= a /\ 0 < y /\ x = p ^ a * y /\ ~ (p | y).
Proof.
  intros P H. assert (P2 := prime_pos P). assert (X : forall b x, 0 < x < Z.of_nat b -> exists a y, 0 <= a /\ 0 < y /\ x = p ^ a * y /\ ~ (p | y)).
  { induction b as [|b IH]; intros z Hz; [lia|]. destruct (Zdivide_dec p z) as [[q E]|N].
    - assert (0 < q) by nia. destruct (IH q) as (a & y & A & Y & Eq & N); [nia|]. exists (a + 1), y.
      split; [lia|]. split; [exact Y|]. split; [|exact N]. rewrite E, Eq, Z.pow_add_r, Z.pow_1_r by lia. ring.
    - exists 0, z. rewrite Z.pow_0_r, Z.mul_1_l. split; [lia|]. split; [lia|]. split; [reflexivity|exact N]. }
  apply (X (Z.to_nat (x + 1))). lia.
Qed.

(* products of powers of the primes ps, one of each, whose sum is at most m *)
Inductive ach : list Z -> Z -> Z -> Prop :=
| ach_nil : forall m, 0 <= m -> ach [] m 1
| ach_skip : forall p ps m k, ach ps m k -> ach (p :: ps) m k
| ach_take : forall p ps m k a, 0 < a -> ach ps m k -> ach (p :: ps) (m + p ^ a) (p ^ a * k).

Lemma ach_mono ps m m' k : ach ps m k -> m <= m' -> ach ps m' k.
Proof.
  intros H. revert m'. induction H as [m H|p ps m k H IH|p ps m k a A H IH]; intros m' L.
  - constructor. lia.
  - apply ach_skip. now apply IH.
  - replace m' with (m' - p ^ a + p ^ a) by lia. apply ach_take; [exact A|]. apply IH. lia.
Qed.
Lemma ach_pos ps m k : Forall prime ps -> ach ps m k -> 0 < k /\ 0 <= m.
Proof.
  intros F H. induction H as [m H|p ps m k H IH|p ps m k a A H IH]; [lia|now apply IH; inversion F|].
  inversion F as [|? ? P F']; subst. destruct (IH F') as [K M]. assert (P2 := prime_pos P).
  assert (0 < p ^ a) by (apply Z.pow_pos_nonneg; lia). split; [nia|lia].
Qed.
Lemma ach_one ps m : 0 <= m -> ach ps m 1.
Proof. intros H. induction ps as [|p ps IH]; [now constructor|now apply ach_skip]. Qed.
(* whatever is made of the primes of a list is prime to the others *)
Lemma ach_coprime ps m k p : Forall prime ps -> prime p -> ~ In p ps -> ach ps m k -> rel_prime p k.
Proof.
  intros F P N H. induction H as [m H|q ps m k H IH|q ps m k a A H IH].
  - apply rel_prime_sym, rel_prime_1.
  - apply IH; [now inversion F|]. intros X. apply N. now right.
  - inversion F as [|? ? Q F']; subst. apply rel_prime_mult.
    + apply rel_prime_Zpower_r; [lia|]. apply prime_rel_prime; [exact P|].
      intros D. apply prime_div_prime in D; auto. apply N. left. now symmetry.
    + apply IH; [exact F'|]. intros X. apply N. now right.
Qed.

Definition wgt (x : Z) : Z := if x =? 1 then 0 else x.
Fixpoint wsum (l : list Z) : Z := match l with [] => 0 | x :: l => wgt x + wsum l end.
Lemma wgt_le x : 0 < x -> 0 <= wgt x <= x.
Proof. unfold wgt. destruct (Z.eqb_spec x 1); lia. Qed.

(* taking the powers of p out of a list of numbers *)
Lemma take_out p l : prime p -> Forall (fun x => 0 < x) l -> exists a l',
  0 <= a /\ Forall (fun x => 0 < x) l' /\ (forall y, In y l' -> ~ (p | y) /\ exists x, In x l /\ (y | x)) /\
  (forall x, In x l -> exists y b, In y l' /\ 0 <= b <= a /\ x = p ^ b * y) /\
  wsum l' <= wsum l /\ (0 < a -> wsum l' + p ^ a <= wsum l).
Proof.
  intros P. assert (P2 := prime_pos P). induction l as [|x l IH]; intros F.
  - exists 0, []. split; [lia|]. split; [constructor|]. split; [intros y []|]. split; [intros y []|]. cbn. split; lia.
  - inversion F as [|? ? X F']; subst. destruct (IH F') as (a & l' & A & FL & H1 & H2 & W & WA). destruct (p_part P X) as (b & y & B & Y & E & N).
    assert (PB : 0 < p ^ b) by (apply Z.pow_pos_nonneg; lia).
    assert (WX : wgt y <= wgt x /\ (0 < b -> wgt y + p ^ b <= wgt x)).
    { destruct (Z.eq_dec b 0) as [->|B0]; [rewrite Z.pow_0_r, Z.mul_1_l in E; subst y; split; lia|].
      assert (2 <= p ^ b) by (replace b with ((b - 1) + 1) by lia; rewrite Z.pow_add_r, Z.pow_1_r by lia; assert (0 < p ^ (b - 1)) by (apply Z.pow_pos_nonneg; lia); nia).
      unfold wgt. destruct (Z.eqb_spec y 1) as [->|Y1]; destruct (Z.eqb_spec x 1) as [X1|X1]; try nia. }
    exists (Z.max a b), (y :: l'). split; [lia|]. split; [now constructor|]. split; [|split; [|split]].
    + intros z [<-|Hz].
      * split; [exact N|]. exists x. split; [now left|]. exists (p ^ b). exact E.
      * destruct (H1 z Hz) as [Nz (w & Hw & Dw)]. split; [exact Nz|]. exists w. split; [now right|exact Dw].
    + intros z [<-|Hz].
      * exists y, b. split; [now left|]. split; [lia|exact E].
      * destruct (H2 z Hz) as (w & c & Hw & C & Ec). exists w, c. split; [now right|]. split; [lia|exact Ec].
    + cbn [wsum]. lia.
    + intros M. cbn [wsum]. destruct (Z.max_spec a b) as [[D ->]|[D ->]]; [specialize (proj2 WX ltac:(lia)); lia|specialize (WA ltac:(lia)); lia].
Qed.
(* so the lcm of any list of numbers divides a product of prime powers with no greater sum *)
Lemma complete ps : Forall prime ps -> forall l, Forall (fun x => 0 < x) l ->
  (forall x p, In x l -> prime p -> (p | x) -> In p ps) ->
  exists k, ach ps (wsum l) k /\ forall x, In x l -> (x | k).
Proof.
  induction ps as [|p ps IH]; intros F l FL H.
  - assert (X : forall x, In x l -> x = 1).
    { intros x Hx. rewrite Forall_forall in FL. assert (X := FL x Hx). destruct (Z.eq_dec x 1) as [|N]; [assumption|]. exfalso.
      destruct (@has_prime_divisor x ltac:(lia)) as (p & P & D). destruct (H x p Hx P D). }
    exists 1. split.
    + constructor. clear -FL. induction FL as [|x l X F IH]; cbn [wsum]; [lia|]. assert (W := wgt_le X). lia.
    + intros x Hx. rewrite (X x Hx). apply Z.divide_refl.
  - inversion F as [|? ? P F']; subst. destruct (take_out P FL) as (a & l' & A & FL' & H1 & H2 & W & WA).
    destruct (IH F' l' FL') as (k & Ak & D).
    { intros y q Hy Q Dq. destruct (H1 y Hy) as [N (x & Hx & Dx)]. destruct (H x q Hx Q) as [E|E]; [now apply Z.divide_trans with y| |exact E].
      subst q. contradiction. }
    assert (PA : 0 < p ^ a) by (apply Z.pow_pos_nonneg; [assert (P2 := prime_pos P)|]; lia).
    exists (p ^ a * k). split.
    + destruct (Z.eq_dec a 0) as [->|A0].
      * rewrite Z.pow_0_r, Z.mul_1_l. apply ach_skip. now apply (ach_mono Ak).
      * specialize (WA ltac:(lia)). replace (wsum l) with (wsum l - p ^ a + p ^ a) by lia. apply ach_take; [lia|]. apply (ach_mono Ak). lia.
    + intros x Hx. destruct (H2 x Hx) as (y & b & Hy & B & ->). destruct (D y Hy) as [c ->]. exists (p ^ (a - b) * c). replace (p ^ a) with (p ^ (a - b) * p ^ b); [ring|]. rewrite <- Z.pow_add_r by lia. f_equal. lia.
Qed.

(* ---- products of prime powers are orders ---- *)
Lemma sound_list ps m k : Forall prime ps -> NoDup ps -> ach ps m k ->
  exists l, Forall (fun x => (0 < x)%nat) l /\ Z.of_nat (nsum l) <= m /\ forall j, (forall x, In x l -> (Z.of_nat x | j)) <-> (k | j).
Proof.
  intros F ND H. induction H as [m H|p ps m k H IH|p ps m k a A H IH].
  - exists []. split; [constructor|]. split; [cbn; lia|]. intros j. split; [intros _; apply Z.divide_1_l|intros _ x []].
  - inversion F; inversion ND; subst. now apply IH.
  - inversion F as [|? ? P F']; subst. inversion ND as [|? ? N ND']; subst. destruct (IH F' ND') as (l & FL & S & D).
    assert (P2 := prime_pos P). assert (PA : 0 < p ^ a) by (apply Z.pow_pos_nonneg; lia).
    exists (Z.to_nat (p ^ a) :: l). split; [constructor; [lia|exact FL]|]. split; [cbn [nsum]; lia|].
    assert (C : rel_prime (p ^ a) k).
    { apply rel_prime_sym. apply rel_prime_Zpower_r; [lia|]. apply rel_prime_sym. exact (ach_coprime F' P N H). }
    intros j. split.
    + intros X. assert (D1 : (p ^ a | j)) by (rewrite <- (Z2Nat.id (p ^ a)) by lia; apply X; now left).
      assert (D2 : (k | j)) by (apply D; intros x Hx; apply X; now right).
      destruct D1 as [c ->]. assert (DC : (k | c)) by (apply Gauss with (p ^ a); [now rewrite Z.mul_comm|now apply rel_prime_sym]).
      destruct DC as [e ->]. exists e. ring.
    + intros X x [<-|Hx].
      * rewrite Z2Nat.id by lia. apply Z.divide_trans with (p ^ a * k); [apply Z.divide_factor_l|exact X].
      * revert x Hx. apply D. apply Z.divide_trans with (p ^ a * k); [apply Z.divide_factor_r|exact X].
Qed.

Open Scope nat_scope.
Lemma cyc_perm lens b : Forall (fun x => 0 < x) lens -> Permutation (cyc_row lens b) (seq b (nsum lens)).
Proof.
  intros F. revert b. induction F as [|k t Hk F IH]; intros b; cbn [cyc_row nsum seq]; [constructor|].
  rewrite seq_app. rewrite app_assoc. apply Permutation_app; [|apply IH].
  replace (seq b k) with (b :: seq (b + 1) (k - 1)).
  - apply Permutation_sym. change (b :: seq (b + 1) (k - 1)) with ([b] ++ seq (b + 1) (k - 1)). apply Permutation_app_comm.
  - destruct k as [|k]; [lia|]. cbn [seq]. f_equal. f_equal; lia.
Qed.
Lemma cyc_length lens b : Forall (fun x => 0 < x) lens -> length (cyc_row lens b) = nsum lens.
Proof. intros F. rewrite (Permutation_length (cyc_perm b F)). apply seq_length. Qed.
Lemma chain_seq f b k d : (forall i, b <= i -> i + 1 < b + k -> f i = i + 1) -> (0 < k -> f (b + k - 1) = d) -> chain f (seq b k) d.
Proof.
  revert b. induction k as [|k IH]; intros b H1 H2; cbn [seq chain]; [exact I|]. split.
  - destruct k as [|k]; cbn [seq hd]; [rewrite <- H2 by lia; f_equal; lia|]. rewrite H1 by lia. lia.
  - apply IH; [intros i A B; apply H1; lia|]. intros K. rewrite <- H2 by lia. f_equal. lia.
Qed.
Fixpoint cyc_cycles (lens : list nat) (b : nat) : list (list nat) :=
  match lens with [] => [] | k :: t => seq b k :: cyc_cycles t (b + k) end.
Lemma cyc_cycles_length lens b : map (@length nat) (cyc_cycles lens b) = lens.
Proof. revert b. induction lens as [|k t IH]; intros b; cbn [cyc_cycles map]; [reflexivity|]. now rewrite seq_length, IH. Qed.
Lemma cyc_concat lens b : concat (cyc_cycles lens b) = seq b (nsum lens).
Proof. revert b. induction lens as [|k t IH]; intros b; cbn [cyc_cycles concat nsum]; [reflexivity|]. now rewrite IH, seq_app. Qed.
Lemma cyc_is_cycle lens : Forall (fun x => 0 < x) lens -> forall pre b, length pre = b ->
  Forall (is_cycle (act (pre ++ cyc_row lens b))) (cyc_cycles lens b).
Proof.
  intros F. induction F as [|k t Hk F IH]; intros pre b Lb; cbn [cyc_cycles cyc_row]; constructor.
  - split; [destruct k; [lia|discriminate]|]. replace (hd 0 (seq b k)) with b by (destruct k; [lia|reflexivity]).
    apply chain_seq.
    + intros i A B. unfold act. rewrite app_nth2 by lia. rewrite app_nth1 by (rewrite seq_length; lia). rewrite seq_nth by lia. lia.
    + intros _. unfold act. rewrite app_nth2 by lia. rewrite app_nth2 by (rewrite seq_length; lia). rewrite seq_length.
      replace (b + k - 1 - length pre - (k - 1)) with 0 by lia. reflexivity.
  - specialize (IH (pre ++ seq (b + 1) (k - 1) ++ [b]) (b + k)). rewrite <- !app_assoc in IH. apply IH.
    rewrite !app_length, seq_length. cbn. lia.
Qed.
Lemma cyc_decomp lens : Forall (fun x => 0 < x) lens -> is_row (cyc_row lens 0) /\ length (cyc_row lens 0) = nsum lens /\
  decomp (act (cyc_row lens 0)) (length (cyc_row lens 0)) (cyc_cycles lens 0).
Proof.
  intros F. assert (E := cyc_length 0 F). split; [|split; [exact E|]].
  - unfold is_row. rewrite E. now apply cyc_perm.
  - split; [rewrite cyc_concat, E; apply Permutation_refl|]. exact (cyc_is_cycle F (pre := []) (b := 0) eq_refl).
Qed.

Lemma not_home r j : ~ (forall i, act_pow r j i = i) -> exists i, act_pow r j i <> i.
Proof.
  intros N. destruct (forallb (fun i => act_pow r j i =? i) (seq 0 (length r))) eqn:F.
  - exfalso. apply N. intros i. destruct (lt_dec i (length r)); [|apply act_pow_ge; lia]. rewrite forallb_forall in F. apply Nat.eqb_eq, F, in_seq. lia.
  - assert (X : forall l, forallb (fun i => act_pow r j i =? i) l = false -> exists i, act_pow r j i <> i).
    { induction l as [|a l IH]; intros Q; [discriminate|]. cbn [forallb] in Q. destruct (Nat.eqb_spec (act_pow r j a) a) as [E|E]; [now apply IH|now exists a]. }
    exact (X _ F).
Qed.
Lemma nsum_app a b : nsum (a ++ b) = nsum a + nsum b.
Proof. induction a as [|x a IH]; cbn [app nsum]; [reflexivity|]. rewrite IH. lia. Qed.
Lemma nsum_ones k : nsum (repeat 1 k) = k.
Proof. induction k as [|k IH]; cbn [repeat nsum]; [reflexivity|]. lia. Qed.

Lemma ach_order ps n k : Forall prime ps -> NoDup ps -> ach ps (Z.of_nat n) k -> order_on n (Z.to_nat k).
Proof.
  intros F ND H. destruct (ach_pos F H) as [K _]. destruct (sound_list F ND H) as (l & FL & S & D).
  set (l1 := l ++ repeat 1 (n - nsum l)).
  assert (F1 : Forall (fun x => 0 < x) l1) by (apply Forall_app; split; [exact FL|]; apply Forall_forall; intros x Hx; apply repeat_spec in Hx; lia).
  assert (S1 : nsum l1 = n) by (unfold l1; rewrite nsum_app, nsum_ones; lia).
  assert (D1 : forall j, (forall x, In x l1 -> (Z.of_nat x | j)%Z) <-> (k | j)%Z).
  { intros j. rewrite <- D. unfold l1. split; intros X x Hx; [apply X, in_or_app; now left|].
    apply in_app_or in Hx as [Hx|Hx]; [now apply X|]. apply repeat_spec in Hx. subst x. apply Z.divide_1_l. }
  destruct (cyc_decomp F1) as (R & L & DC). exists (cyc_row l1 0). split; [exact R|]. split; [now rewrite L|].
  assert (Q : forall j, (forall i, act_pow (cyc_row l1 0) j i = i) <-> (k | Z.of_nat j)%Z).
  { intros j. rewrite (decomp_divides j DC), cyc_cycles_length. rewrite <- D1. split; intros X x Hx; apply divide_nat_Z; now apply X. }
  split; [lia|]. split; [apply Q; rewrite Z2Nat.id by lia; apply Z.divide_refl|].
  intros j Hj. apply not_home. rewrite Q. intros X. apply Z.divide_pos_le in X; lia.
Qed.
Lemma wsum_le l : Forall (fun x => 0 < x) l -> (wsum (map Z.of_nat l) <= Z.of_nat (nsum l))%Z.
Proof. induction 1 as [|x l X F IH]; cbn [map wsum nsum]; [lia|]. assert (W := @wgt_le (Z.of_nat x)). lia. Qed.
(* every order is at most a product of prime powers *)
Lemma order_ach ps n k : Forall prime ps -> order_on n k -> (forall p, prime p -> (p | Z.of_nat k)%Z -> In p ps) ->
  exists K, ach ps (Z.of_nat n) K /\ (Z.of_nat k <= K)%Z.
Proof.
  intros F (r & R & L & K0 & K1 & K2) H. destruct (cycle_lists_spec R) as (cs & _ & D & _).
  assert (FL := lens_pos (decomp_nonempty D)). set (l := map (@length nat) cs) in *.
  assert (DK := proj1 (decomp_divides k D) K1). fold l in DK.
  destruct (@complete ps F (map Z.of_nat l)) as (K & AK & DD).
  - apply Forall_map. eapply Forall_impl; [|exact FL]. intros a A. cbn in A. lia.
  - intros x p Hx P Dp. apply in_map_iff in Hx as (y & <- & Hy). apply H; [exact P|]. apply Z.divide_trans with (Z.of_nat y); [exact Dp|]. apply divide_nat_Z. now apply DK.
  - assert (N : Z.of_nat (nsum l) = Z.of_nat n) by (unfold l; rewrite nsum_concat, (Permutation_length (proj1 D)), seq_length; unfold row in *; now rewrite L).
    assert (AK' : ach ps (Z.of_nat n) K) by (apply (ach_mono AK); rewrite <- N; now apply wsum_le).
    exists K. split; [exact AK'|]. destruct (ach_pos F AK') as [KP _].
    destruct (Z_le_gt_dec (Z.of_nat k) K) as [|G]; [assumption|]. exfalso. destruct (K2 (Z.to_nat K)) as (i & Hi); [lia|]. apply Hi.
    revert i Hi. intros i _. apply (decomp_divides (Z.to_nat K) D). intros x Hx. apply divide_nat_Z. rewrite Z2Nat.id by lia. apply DD. now apply in_map.
Qed.
