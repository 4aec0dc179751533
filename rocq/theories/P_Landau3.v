(* P_Landau3.v - products of sum at most 119 fit in 32 bits; the primes of an order. *)
From Coq Require Import Znumtheory Zpow_facts Permutation.
From Verif Require Import Base M_Math M_Row M_Landau Spec_Row Spec_Cycle Spec_Landau P_Math P_Row P_Cycle P_Order P_Landau P_Landau2.
Set Implicit Arguments.
Unset Strict Implicit.
Open Scope Z_scope.

(* the greatest product for each sum, over the integers *)
Fixpoint best (fuel : nat) (p q m : Z) (g : list Z) : Z :=
  match fuel with
  | O => 0
  | S fuel => if q <=? m then Z.max (q * nth (Z.to_nat (m - q)) g 0) (best fuel p (q * p) m g) else 0
  end.
Definition dp_row (N : nat) (p : Z) (g : list Z) : list Z :=
  map (fun i => Z.max (nth i g 0) (best N p p (Z.of_nat i) g)) (seq 0 (N + 1)).
Definition dp (N : nat) (ps : list Z) : list Z := fold_right (dp_row N) (repeat 1 (N + 1)) ps.

Lemma best_ge p m g : 2 <= p -> forall b fuel q, 0 < q -> (b < fuel)%nat -> q * p ^ Z.of_nat b <= m -> q * p ^ Z.of_nat b * nth (Z.to_nat (m - q * p ^ Z.of_nat b)) g 0 <= best fuel p q m g.
Proof.
  intros P. induction b as [|b IH]; intros fuel q Q F H; destruct fuel as [|fuel]; try lia; cbn [best].
  - change (Z.of_nat 0) with 0 in *. rewrite Z.pow_0_r, Z.mul_1_r in *. destruct (Z.leb_spec q m); lia.
  - assert (E : q * p ^ Z.of_nat (S b) = q * p * p ^ Z.of_nat b) by (rewrite Nat2Z.inj_succ, Z.pow_succ_r by lia; ring).
    rewrite E in *. assert (0 < p ^ Z.of_nat b) by (apply Z.pow_pos_nonneg; lia). destruct (Z.leb_spec q m); [|nia].
    specialize (IH fuel (q * p) ltac:(nia) ltac:(lia) H). lia.
Qed.
Lemma nth_zmap_seq (f : nat -> Z) a k i : (i < k)%nat -> nth i (map f (seq a k)) 0 = f (a + i)%nat.
Proof. intros H. rewrite (nth_indep _ 0 (f 0%nat)) by (rewrite map_length, seq_length; lia). rewrite map_nth, seq_nth by lia. reflexivity. Qed.
Lemma dp_ge N ps m k : Forall prime ps -> ach ps m k -> m <= Z.of_nat N -> k <= nth (Z.to_nat m) (dp N ps) 0.
Proof.
  intros F H. induction H as [m H|p ps m k H IH|p ps m k a A H IH]; intros L; cbn [dp fold_right].
  - rewrite (nth_indep _ 0 1) by (rewrite repeat_length; lia). rewrite nth_repeat. lia.
  - inversion F as [|? ? P F']; subst. destruct (ach_pos F' H) as [_ M]. fold (dp N ps). unfold dp_row. rewrite nth_zmap_seq by lia. specialize (IH F' L). cbn. lia.
  - inversion F as [|? ? P F']; subst. destruct (ach_pos F' H) as [K M]. assert (P2 := prime_pos P). assert (PA : 0 < p ^ a) by (apply Z.pow_pos_nonneg; lia).
    fold (dp N ps). unfold dp_row. rewrite nth_zmap_seq by lia. cbn. rewrite Z2Nat.id by lia.
    assert (AE : p ^ a = p * p ^ Z.of_nat (Z.to_nat (a - 1))) by (rewrite Z2Nat.id by lia; rewrite <- Z.pow_succ_r by lia; f_equal; lia).
    assert (AL : a < p ^ a) by (apply Z.pow_gt_lin_r; lia).
    assert (B := @best_ge p (m + p ^ a) (dp N ps) P2 (Z.to_nat (a - 1)) N p ltac:(lia) ltac:(lia) ltac:(lia)). rewrite <- AE in B.
    replace (m + p ^ a - p ^ a) with m in B by lia. specialize (IH F' ltac:(lia)). nia.
Qed.

Definition small_primes : list Z :=
  [2; 3; 5; 7; 11; 13; 17; 19; 23; 29; 31; 37; 41; 43; 47; 53; 59; 61; 67; 71; 73; 79; 83; 89; 97; 101; 103; 107; 109; 113].
Lemma small_primes_all : forallb (fun i => implb (is_prime (Z.of_nat i)) (existsb (Z.eqb (Z.of_nat i)) small_primes)) (seq 2 118) = true.
Proof. vm_compute. reflexivity. Qed.
Lemma small_primes_ok : forallb (fun p => (2 <=? p) && (p <=? 119) && is_prime p) small_primes = true.
Proof. vm_compute. reflexivity. Qed.
Lemma small_primes_spec p : prime p -> p <= 119 -> In p small_primes.
Proof.
  intros P L. assert (P2 := prime_pos P). assert (A := small_primes_all). rewrite forallb_forall in A. specialize (A (Z.to_nat p) ltac:(apply in_seq; lia)). cbv beta in A.
  rewrite Z2Nat.id in A by lia. apply is_prime_spec in P; [|lia]. rewrite P in A. cbn [implb] in A. apply existsb_exists in A as (x & Hx & E). apply Z.eqb_eq in E. now subst x.
Qed.
Lemma small_primes_prime : Forall prime small_primes.
Proof.
  apply Forall_forall. intros p H. assert (A := small_primes_ok). rewrite forallb_forall in A. specialize (A p H). cbv beta in A.
  apply andb_true_iff in A as [A B]. apply andb_true_iff in A as [A1 A2]. apply is_prime_spec; [apply Z.leb_le in A1; lia|exact B].
Qed.
Lemma dp_small : forallb (fun x => x <? 4294967296) (dp 119 small_primes) = true.
Proof. vm_compute. reflexivity. Qed.
Lemma ach_small m k : ach small_primes m k -> m <= 119 -> k < 4294967296.
Proof.
  intros A L. destruct (ach_pos small_primes_prime A) as [K M]. assert (D := dp_ge (N := 119) small_primes_prime A ltac:(lia)).
  assert (B := dp_small). rewrite forallb_forall in B. assert (LD : length (dp 119 small_primes) = 120%nat) by (vm_compute; reflexivity).
  specialize (B (nth (Z.to_nat m) (dp 119 small_primes) 0) ltac:(apply nth_In; rewrite LD; lia)). apply Z.ltb_lt in B. lia.
Qed.
Lemma nowrap_119 : nowrap 119.
Proof.
  intros ps m k F ND M A. destruct (ach_pos F A) as [K M0]. destruct (sound_list F ND A) as (l & FL & S & D).
  destruct (@complete small_primes small_primes_prime (map Z.of_nat l)) as (K' & AK & DD).
  - apply Forall_map. eapply Forall_impl; [|exact FL]. intros a X. cbn in X. lia.
  - intros x p Hx P Dx. apply in_map_iff in Hx as (y & <- & Hy). apply small_primes_spec; [exact P|].
    assert (Y : (y <= nsum l)%nat) by (clear -Hy; induction l as [|z l IH]; [destruct Hy|]; cbn [nsum]; destruct Hy as [->|Hy]; [lia|specialize (IH Hy); lia]).
    assert (Y0 : (0 < y)%nat) by (rewrite Forall_forall in FL; exact (FL y Hy)). apply Z.divide_pos_le in Dx; lia.
  - assert (W := wsum_le FL). assert (K2 := ach_small AK ltac:(lia)). destruct (ach_pos small_primes_prime AK) as [KP _].
    assert (DK : (k | K')) by (apply D; intros x Hx; apply DD; now apply in_map). apply Z.divide_pos_le in DK; lia.
Qed.

(* the primes of an order are at most the number of bells *)
Lemma order_primes n k p : order_on n k -> prime p -> (p | Z.of_nat k) -> p <= Z.of_nat n.
Proof.
  intros (r & R & L & K0 & K1 & K2) P D. assert (P2 := prime_pos P). destruct (cycle_lists_spec R) as (cs & _ & DC & _).
  assert (FL := lens_pos (decomp_nonempty DC)). set (l := map (@length nat) cs) in *.
  assert (DK := proj1 (decomp_divides k DC) K1). fold l in DK.
  assert (N : nsum l = n) by (unfold l; rewrite nsum_concat, (Permutation_length (proj1 DC)), seq_length; unfold row in *; now rewrite L).
  destruct (existsb (fun x => if Zdivide_dec p (Z.of_nat x) then true else false) l) eqn:X.
  - apply existsb_exists in X as (y & Hy & X). destruct (Zdivide_dec p (Z.of_nat y)) as [Dy|]; [|discriminate].
    assert (Y : (y <= nsum l)%nat) by (clear -Hy; induction l as [|z l IH]; [destruct Hy|]; cbn [nsum]; destruct Hy as [->|Hy]; [lia|specialize (IH Hy); lia]).
    assert (Y0 : (0 < y)%nat) by (rewrite Forall_forall in FL; exact (FL y Hy)). apply Z.divide_pos_le in Dy; lia.
  - exfalso. destruct D as [c E]. assert (C : 0 < c) by nia. destruct (K2 (Z.to_nat c)) as (i & Hi); [nia|]. apply Hi.
    apply (decomp_divides (Z.to_nat c) DC). intros x Hx. apply divide_nat_Z. rewrite Z2Nat.id by lia.
    apply Gauss with p; [rewrite Z.mul_comm, <- E; apply divide_nat_Z; now apply DK|]. apply rel_prime_sym, prime_rel_prime; [exact P|].
    intros Dx. assert (Y : existsb (fun x => if Zdivide_dec p (Z.of_nat x) then true else false) l = true).
    { apply existsb_exists. exists x. split; [exact Hx|]. now destruct (Zdivide_dec p (Z.of_nat x)). } congruence.
Qed.
