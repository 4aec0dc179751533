(* P_Landau4.v - the greatest products when the primes are bounded by 1.328 sqrt(n log n) + 1. *)
From Coq Require Import Znumtheory Zpow_facts Permutation Reals Lra.
From Verif Require Import Base M_Math M_Landau Spec_Row Spec_Landau P_Math P_Landau P_Landau2 P_Landau3.
Set Implicit Arguments.
Unset Strict Implicit.
Open Scope Z_scope.

(* dp is attained *)
Lemma best_ach p m g (Q : Z -> Prop) : 2 <= p -> Q 0 -> forall fuel b, 0 <= b ->
  (forall c, b <= c -> p ^ c <= m -> Q (p ^ c * nth (Z.to_nat (m - p ^ c)) g 0)) -> Q (best fuel p (p ^ b) m g).
Proof.
  intros P Q0. induction fuel as [|fuel IH]; intros b B H; cbn [best]; [exact Q0|]. destruct (Z.leb_spec (p ^ b) m) as [L|L]; [|exact Q0].
  replace (p ^ b * p) with (p ^ (b + 1)) by (rewrite Z.pow_add_r, Z.pow_1_r by lia; reflexivity).
  destruct (Z.max_spec (p ^ b * nth (Z.to_nat (m - p ^ b)) g 0) (best fuel p (p ^ (b + 1)) m g)) as [[_ ->]|[_ ->]].
  - apply IH; [lia|]. intros c C. apply H. lia.
  - apply H; [lia|exact L].
Qed.
Lemma dp_ach N ps m : Forall prime ps -> 0 <= m <= Z.of_nat N -> ach ps m (nth (Z.to_nat m) (dp N ps) 0).
Proof.
  intros F. revert m. induction F as [|p ps P F IH]; intros m M; cbn [dp fold_right].
  - rewrite (nth_indep _ 0 1) by (rewrite repeat_length; lia). rewrite nth_repeat. constructor. lia.
  - fold (dp N ps). unfold dp_row. rewrite nth_zmap_seq by lia. cbn [Nat.add]. rewrite Z2Nat.id by lia. assert (P2 := prime_pos P).
    assert (B : ach (p :: ps) m (best N p (p ^ 1) m (dp N ps)) \/ best N p (p ^ 1) m (dp N ps) = 0).
    { apply (@best_ach p m (dp N ps) (fun x => ach (p :: ps) m x \/ x = 0)); [lia|now right|lia|]. intros c C L. left.
      assert (0 < p ^ c) by (apply Z.pow_pos_nonneg; lia). replace m with (m - p ^ c + p ^ c) at 1 by lia. apply ach_take; [lia|]. apply IH. lia. }
    rewrite Z.pow_1_r in B. specialize (IH m M). destruct (ach_pos F IH) as [K _].
    destruct (Z.max_spec (nth (Z.to_nat m) (dp N ps) 0) (best N p p m (dp N ps))) as [[L ->]|[L ->]]; [|now apply ach_skip].
    destruct B as [B|B]; [exact B|]. lia.
Qed.

(* a whole number no greater than n log n *)
Definition nlogn (n : Z) : Z :=
  if n =? 1 then 0 else if n =? 2 then 1 else if n =? 8 then 12 else if n <? 9 then n else if n <? 27 then 2 * n else if n <? 81 then 3 * n else 4 * n.
Definition need (n : Z) : Z := (Z.sqrt (1328 * 1328 * nlogn n) - 10) / 1000 + 1.
Definition below (n : nat) : list Z := filter (fun p => p <=? need (Z.of_nat n)) small_primes.
Definition v_all (n : nat) : Z := nth n (dp n small_primes) 0.
Definition v_below (n : nat) : Z := nth n (dp n (below n)) 0.
Lemma need_all : forallb (fun n => v_all n <=? v_below n) (seq 1 119) = true.
Proof. vm_compute. reflexivity. Qed.
Lemma forallb_leb (f g : nat -> Z) l : forallb (fun n => f n <=? g n) l = true -> forall n, In n l -> f n <= g n.
Proof. intros A n H. rewrite forallb_forall in A. specialize (A n H). now apply Z.leb_le. Qed.
Lemma below_spec n p : In p (below n) -> prime p /\ p <= need (Z.of_nat n).
Proof. unfold below. rewrite filter_In. intros [H E]. apply Z.leb_le in E. split; [|exact E]. assert (X := small_primes_prime). rewrite Forall_forall in X. now apply X. Qed.
Lemma need_le n : (1 <= n <= 119)%nat -> v_all n <= v_below n.
Proof. intros H. apply (@forallb_leb v_all v_below (seq 1 119) need_all). apply in_seq. lia. Qed.
Lemma v_all_ge n k : ach small_primes (Z.of_nat n) k -> k <= v_all n.
Proof. intros A. unfold v_all. rewrite <- (Nat2Z.id n) at 1. apply dp_ge; [exact small_primes_prime|exact A|lia]. Qed.
Lemma v_below_ach n : ach (below n) (Z.of_nat n) (v_below n).
Proof. unfold v_below. rewrite <- (Nat2Z.id n) at 3. apply dp_ach; [|lia]. apply Forall_forall. intros p Hp. now apply below_spec in Hp. Qed.
Lemma ach_incl ps ps' m k : ach ps m k -> NoDup ps -> Forall prime ps' -> Forall prime ps -> incl ps ps' -> exists K, ach ps' m K /\ k <= K.
Proof.
  intros A ND F' F I. destruct (ach_pos F A) as [K0 _]. destruct (sound_list F ND A) as (l & FL & S & D).
  destruct (@complete ps' F' (map Z.of_nat l)) as (K' & AK & DD).
  - apply Forall_map. eapply Forall_impl; [|exact FL]. intros a X. cbn in X. lia.
  - intros x p Hx P Dx. apply in_map_iff in Hx as (y & <- & Hy). apply I.
    destruct (in_dec Z.eq_dec p ps) as [|N]; [assumption|]. exfalso.
    assert (C := ach_coprime F P N A). assert (P2 := prime_pos P).
    assert (Y : (Z.of_nat y | k)) by (apply (proj2 (D k)); [apply Z.divide_refl|exact Hy]).
    assert (PK : (p | k)) by now apply Z.divide_trans with (Z.of_nat y).
    destruct C as [_ _ C]. specialize (C p (Z.divide_refl p) PK). apply Z.divide_1_r_nonneg in C; lia.
  - assert (W := wsum_le FL). destruct (ach_pos F' AK) as [KP _].
    assert (DK : (k | K')) by (apply D; intros x Hx; apply DD; now apply in_map). exists K'. split; [apply (ach_mono AK); lia|]. apply Z.divide_pos_le in DK; lia.
Qed.
Lemma nodup_small : NoDup small_primes.
Proof. unfold small_primes. repeat (constructor; [cbn; lia|]). constructor. Qed.

Lemma need_enough n ps v k : (1 <= n <= 119)%nat -> Forall prime ps -> (forall q, prime q -> q <= need (Z.of_nat n) -> In q ps) -> is_max ps (Z.of_nat n) v ->
  order_on n k -> Z.of_nat k <= v.
Proof.
  intros Hn F I [_ M] O. assert (A := need_le Hn). assert (FS : Forall prime (below n)) by (apply Forall_forall; intros p Hp; now apply below_spec in Hp).
  assert (IS : incl (below n) ps) by (intros p Hp; apply below_spec in Hp as [Pp E]; now apply I).
  assert (ND : NoDup (below n)) by (apply NoDup_filter, nodup_small). assert (B := v_below_ach n).
  destruct (order_ach small_primes_prime O) as (K & AK & LK).
  { intros p P D. apply small_primes_spec; [exact P|]. assert (X := order_primes O P D). lia. }
  assert (D := v_all_ge AK). destruct (@ach_incl (below n) ps (Z.of_nat n) _ B ND F FS IS) as (K' & AK' & LK').
  specialize (M K' AK'). lia.
Qed.

(* ---- the real bound ---- *)
Open Scope R_scope.
Lemma ln3 : 1 <= ln 3.
Proof. rewrite <- (ln_exp 1) at 1. destruct (Rle_lt_or_eq_dec _ _ exp_le_3) as [H|H]; [left; apply ln_increasing; [apply exp_pos|exact H]|right; now rewrite H]. Qed.
Lemma ln_le a b : 0 < a -> a <= b -> ln a <= ln b.
Proof. intros H [L| ->]; [left; now apply ln_increasing|right; reflexivity]. Qed.
Lemma ln_pow3 k : INR k <= ln (3 ^ k).
Proof. rewrite ln_pow by lra. assert (X := ln3). assert (Y := pos_INR k). nra. Qed.
Lemma nlogn_le n : (1 <= n <= 119)%Z -> IZR (nlogn n) <= IZR n * ln (IZR n).
Proof.
  intros H. unfold nlogn.
  assert (G : forall k, (3 ^ Z.of_nat k <= n)%Z -> IZR (Z.of_nat k) <= ln (IZR n)).
  { intros k L. rewrite <- INR_IZR_INZ. eapply Rle_trans; [apply ln_pow3|]. apply ln_le; [apply pow_lt; lra|]. rewrite pow_IZR. now apply IZR_le. }
  assert (N0 : 0 < IZR n) by (apply (IZR_lt 0); lia).
  destruct (Z.eqb_spec n 1) as [->|N1]; [rewrite ln_1; lra|].
  destruct (Z.eqb_spec n 2) as [->|N2]; [assert (X := ln_lt_2); lra|].
  destruct (Z.eqb_spec n 8) as [->|N8].
  { replace 8 with (2 ^ 3) at 2 by (cbn; lra). rewrite ln_pow by lra. replace (INR 3) with 3 by (cbn; lra). assert (X := ln_lt_2). lra. }
  assert (M : forall k, (3 ^ Z.of_nat k <= n)%Z -> IZR (Z.of_nat k * n) <= IZR n * ln (IZR n)).
  { intros k L. specialize (G k L). rewrite mult_IZR. nra. }
  destruct (Z.ltb_spec n 9) as [C1|C1]; [rewrite <- (Z.mul_1_l n) at 1; apply (M 1%nat); cbn; lia|].
  destruct (Z.ltb_spec n 27) as [C2|C2]; [apply (M 2%nat); cbn; lia|].
  destruct (Z.ltb_spec n 81) as [C3|C3]; [apply (M 3%nat); cbn; lia|]. apply (M 4%nat); cbn; lia.
Qed.
Lemma nlogn_pos n : (1 <= n)%Z -> (0 <= nlogn n)%Z.
Proof. intros H. unfold nlogn. repeat (match goal with |- context [if ?b then _ else _] => destruct b end); lia. Qed.
Lemma need_real n pmax x : (1 <= n <= 119)%Z -> 1328 / 1000 * sqrt (IZR n * ln (IZR n)) - 1 / 100 <= x -> x < IZR pmax -> (need n <= pmax)%Z.
Proof.
  intros Hn L U. unfold need. set (A := nlogn n). assert (A0 := @nlogn_pos n ltac:(lia)). fold A in A0. assert (AR := nlogn_le Hn). fold A in AR.
  assert (AP : 0 <= IZR A) by (apply (IZR_le 0); lia).
  assert (S : sqrt (IZR A) <= sqrt (IZR n * ln (IZR n))) by (apply sqrt_le_1_alt; exact AR).
  assert (S0 := sqrt_pos (IZR A)). assert (SS := sqrt_sqrt _ AP).
  assert (B : 1328 * sqrt (IZR A) < IZR (1000 * pmax + 10)) by (rewrite plus_IZR, mult_IZR; lra).
  assert (C : IZR (1328 * 1328 * A) < IZR ((1000 * pmax + 10) * (1000 * pmax + 10))) by (rewrite !mult_IZR; nra).
  apply lt_IZR in C. assert (P0 : (0 <= 1000 * pmax + 10)%Z) by (apply le_IZR; lra).
  assert (Q : (Z.sqrt (1328 * 1328 * A) < 1000 * pmax + 10)%Z).
  { apply Z.sqrt_lt_square; [lia|exact P0|exact C]. }
  assert (E : ((Z.sqrt (1328 * 1328 * A) - 10) / 1000 < pmax)%Z) by (apply Z.div_lt_upper_bound; lia). lia.
Qed.
