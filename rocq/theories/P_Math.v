(* P_Math.v - integer mathematics. *)
From Verif Require Import Base M_Math.
From Coq Require Import Znumtheory.
Set Implicit Arguments.
Unset Strict Implicit.
Open Scope Z_scope.

Lemma hcf_loop_spec fuel a b : 0 <= a -> 0 < b -> (Z.to_nat b < fuel)%nat ->
  hcf_loop fuel a b = Ret (Z.gcd a b).
Proof.
  revert a b; induction fuel as [|fuel IH]; intros a b Ha Hb Hf; [lia|].
  cbn [hcf_loop]. destruct (Z.eqb_spec b 0); [lia|].
  assert (R : 0 <= Z.rem a b < b) by (apply Z.rem_bound_pos; lia).
  assert (G : Z.gcd b (Z.rem a b) = Z.gcd a b).
  { rewrite Z.rem_mod_nonneg by lia. rewrite Z.gcd_comm, Z.gcd_mod by lia. apply Z.gcd_comm. }
  destruct (Z.gtb_spec (Z.rem a b) 0) as [H|H].
  - rewrite IH by lia. now rewrite G.
  - assert (E : Z.rem a b = 0) by lia. rewrite E in G. rewrite Z.gcd_0_r in G.
    f_equal. rewrite <- G. symmetry. apply Z.abs_eq. lia.
Qed.

Lemma hcf_spec a b : 0 < a -> 0 < b -> hcf a b = Ret (Z.gcd a b).
Proof.
  intros Ha Hb. unfold hcf. destruct (Z.ltb_spec a b).
  - rewrite hcf_loop_spec by lia. now rewrite Z.gcd_comm.
  - now rewrite hcf_loop_spec by lia.
Qed.

Lemma hcf_zero_ub a : 0 <= a -> hcf a 0 = UB.
Proof.
  intros H. unfold hcf. destruct (Z.ltb_spec a 0); [lia|]. reflexivity.
Qed.

Lemma lcm_val a b : 0 < a -> 0 < b -> Z.quot (a * b) (Z.gcd a b) = Z.lcm a b.
Proof.
  intros Ha Hb. unfold Z.lcm.
  assert (G : 0 < Z.gcd a b).
  { assert (0 <= Z.gcd a b) by apply Z.gcd_nonneg.
    assert (Z.gcd a b <> 0) by (intros E; apply Z.gcd_eq_0_l in E; lia). lia. }
  destruct (Z.gcd_divide_r a b) as [q Hq].
  set (g := Z.gcd a b) in *.
  assert (0 < q) by nia.
  replace (a * b) with (a * q * g) by (rewrite Hq; ring).
  rewrite Z.quot_mul by lia.
  replace (b / g) with q by (rewrite Hq; rewrite Z.div_mul; lia).
  rewrite Z.abs_eq; nia.
Qed.

Lemma lcm_spec a b : 0 < a -> 0 < b -> a * b <= int_max -> lcm a b = Ret (Z.lcm a b).
Proof.
  intros Ha Hb H. unfold lcm.
  destruct (Z.eqb_spec a 1) as [->|]; [now rewrite Z.lcm_1_l_nonneg by lia|].
  destruct (Z.eqb_spec b 1) as [->|]; [now rewrite Z.lcm_1_r_nonneg by lia|].
  rewrite as_int_ok by (unfold int_min; nia). cbn [bind].
  rewrite hcf_spec by lia. cbn [bind]. now rewrite lcm_val.
Qed.

Lemma lcm_ret a b o : 0 < a -> 0 < b -> lcm a b = Ret o -> o = Z.lcm a b.
Proof.
  intros Ha Hb. unfold lcm.
  destruct (Z.eqb_spec a 1) as [->|]; [rewrite Z.lcm_1_l_nonneg by lia; congruence|].
  destruct (Z.eqb_spec b 1) as [->|]; [rewrite Z.lcm_1_r_nonneg by lia; congruence|].
  unfold as_int. destruct (_ && _); [|discriminate]. cbn [bind].
  rewrite hcf_spec by lia. cbn [bind]. rewrite lcm_val by lia. congruence.
Qed.

Lemma lcm_pos a b : 0 < a -> 0 < b -> 0 < Z.lcm a b.
Proof.
  intros Ha Hb. assert (0 <= Z.lcm a b) by apply Z.lcm_nonneg.
  assert (Z.lcm a b <> 0) by (intros E; apply Z.lcm_eq_0 in E; lia). lia.
Qed.

Lemma lcm_le_mul a b : 0 < a -> 0 < b -> Z.lcm a b <= a * b.
Proof.
  intros Ha Hb. apply Z.divide_pos_le; [nia|]. apply Z.lcm_least.
  - apply Z.divide_factor_l.
  - apply Z.divide_factor_r.
Qed.

(* factorial, fibonacci *)
Fixpoint zfact (n : nat) : Z := match n with O => 1 | S k => Z.of_nat n * zfact k end.
Fixpoint zfib (n : nat) : Z := match n with O => 1 | S k => match k with O => 1 | S j => zfib k + zfib j end end.

Lemma u32_mul_l a b : u32 (u32 a * b) = u32 (a * b).
Proof. unfold u32. now rewrite Z.mul_mod_idemp_l by lia. Qed.

Lemma u32_idemp a : u32 (u32 a) = u32 a.
Proof. unfold u32. now rewrite Z.mod_mod by lia. Qed.

Lemma factorial_loop_spec n f : u32 (factorial_loop n f) = u32 (f * zfact n).
Proof.
  revert f; induction n as [|n IH]; intros f; cbn [factorial_loop zfact]; [now rewrite Z.mul_1_r|].
  rewrite IH, u32_mul_l. f_equal. lia.
Qed.

Lemma factorial_loop_u32 n f : u32 f = f -> u32 (factorial_loop n f) = factorial_loop n f.
Proof.
  revert f; induction n as [|n IH]; intros f H; cbn [factorial_loop]; auto. apply IH, u32_idemp.
Qed.

Lemma factorial_spec n : factorial n = u32 (zfact n).
Proof.
  destruct n as [|n]; [reflexivity|]. unfold factorial.
  rewrite <- factorial_loop_u32 by apply u32_idemp.
  rewrite factorial_loop_spec, u32_mul_l. reflexivity.
Qed.

Lemma fib_loop_spec n k f1 f2 : f1 = u32 (zfib k) -> f2 = u32 (zfib (S k)) ->
  fib_loop n f1 f2 = u32 (zfib (n + S k)).
Proof.
  revert k f1 f2; induction n as [|n IH]; intros k f1 f2 H1 H2; cbn [fib_loop]; [exact H2|].
  rewrite (IH (S k)); auto.
  - f_equal. f_equal. lia.
  - subst. unfold u32. rewrite <- Z.add_mod by lia. f_equal.
    change (zfib (S (S k))) with (zfib (S k) + zfib k). lia.
Qed.

Lemma fibonacci_spec n : fibonacci n = u32 (zfib n).
Proof.
  destruct n as [|n]; [reflexivity|]. unfold fibonacci.
  rewrite (@fib_loop_spec n 0 1 1) by reflexivity. f_equal. f_equal. lia.
Qed.

(* ipower *)
Definition llong_ok (z : Z) : Prop := - 9223372036854775808 <= z <= 9223372036854775807.

Lemma as_llong_ok z : llong_ok z -> as_llong z = Ret z.
Proof.
  intros [H1 H2]. unfold as_llong. apply Z.leb_le in H1. apply Z.leb_le in H2. now rewrite H1, H2.
Qed.

Lemma as_llong_ret z v : as_llong z = Ret v -> v = z.
Proof. unfold as_llong. destruct (_ && _); congruence. Qed.

Lemma pow_small_ok b e e' : 0 <= e <= e' -> llong_ok (b ^ e') -> b <> 0 -> llong_ok (b ^ e).
Proof.
  intros He H Hb. unfold llong_ok in *.
  assert (A : Z.abs (b ^ e) <= Z.abs (b ^ e')).
  { rewrite !Z.abs_pow. apply Z.pow_le_mono_r; lia. }
  destruct (Z.eq_dec e e') as [->|Hne]; [exact H|].
  destruct (Z.eq_dec (Z.abs b) 1) as [Hb1|Hb1].
  - assert (Z.abs (b ^ e) = 1) by (rewrite Z.abs_pow, Hb1; apply Z.pow_1_l; lia). lia.
  - assert (A' : Z.abs (b ^ e) < Z.abs (b ^ e')).
    { rewrite !Z.abs_pow. apply Z.pow_lt_mono_r; lia. }
    lia.
Qed.

Lemma ipower_f_spec k : forall fuel base exp, 0 <= exp < 2 ^ Z.of_nat k -> llong_ok (base ^ exp) ->
  ((2 * k + 1 <= fuel)%nat \/ (Z.even exp = true /\ (2 * k <= fuel)%nat /\ (1 <= fuel)%nat)) ->
  ipower_f fuel base exp = Ret (base ^ exp).
Proof.
  induction k as [|k IH]; intros fuel base exp He Hok Hf.
  - change (2 ^ Z.of_nat 0) with 1 in He. assert (exp = 0) by lia. subst.
    destruct fuel; [lia|]. reflexivity.
  - assert (P2 : 2 ^ Z.of_nat (S k) = 2 * 2 ^ Z.of_nat k).
    { rewrite Nat2Z.inj_succ, Z.pow_succ_r by lia. reflexivity. }
    assert (EV : forall fuel exp, 0 < exp < 2 ^ Z.of_nat (S k) -> llong_ok (base ^ exp) ->
       Z.even exp = true -> (2 * S k <= fuel)%nat -> ipower_f fuel base exp = Ret (base ^ exp)).
    { clear fuel exp He Hok Hf. intros fuel exp He Hok Hev Hf. destruct fuel as [|fuel]; [lia|].
      cbn [ipower_f]. destruct (Z.eqb_spec exp 0); [lia|]. destruct (Z.ltb_spec exp 0); [lia|].
      apply Z.even_spec in Hev. destruct Hev as [q ->].
      rewrite (Z.mul_comm 2 q), Z.rem_mul, Z.quot_mul by lia. change (0 =? 0) with true. cbn [negb].
      assert (Pq : base ^ (q * 2) = base ^ q * base ^ q).
      { replace (q * 2) with (q + q) by lia. apply Z.pow_add_r; lia. }
      assert (Okq : llong_ok (base ^ q)).
      { destruct (Z.eq_dec base 0) as [->|Hb].
        - rewrite Z.pow_0_l by lia. unfold llong_ok. lia.
        - apply (@pow_small_ok base q (2 * q)); auto. lia. }
      rewrite (IH fuel base q); auto; [|lia|left; lia]. cbn [bind]. rewrite Pq.
      apply as_llong_ok. rewrite <- Pq. now rewrite (Z.mul_comm q 2). }
    destruct (Z.eq_dec exp 0) as [->|Hnz].
    { destruct fuel; [lia|]. reflexivity. }
    destruct (Z.even exp) eqn:Ev.
    { apply EV; auto; lia. }
    destruct fuel as [|fuel]; [lia|]. cbn [ipower_f].
    destruct (Z.eqb_spec exp 0); [lia|]. destruct (Z.ltb_spec exp 0); [lia|].
    assert (Od : Z.odd exp = true) by (rewrite <- Z.negb_even, Ev; reflexivity).
    apply Z.odd_spec in Od. destruct Od as [q Eq].
    assert (RM : Z.rem exp 2 = 1).
    { rewrite Z.rem_mod_nonneg by lia. rewrite Eq. rewrite Z.add_comm, Z.mul_comm, Z.mod_add by lia. reflexivity. }
    rewrite RM. change (negb (1 =? 0)) with true. cbv iota.
    assert (Ok1 : llong_ok (base ^ (exp - 1))).
    { destruct (Z.eq_dec base 0) as [->|Hb].
      - destruct (Z.eq_dec exp 1) as [->|]; [cbn; unfold llong_ok; lia|].
        rewrite Z.pow_0_l by lia. unfold llong_ok. lia.
      - apply (@pow_small_ok base (exp - 1) exp); auto. lia. }
    assert (R1 : ipower_f fuel base (exp - 1) = Ret (base ^ (exp - 1))).
    { destruct (Z.eq_dec exp 1) as [->|].
      - destruct fuel; [lia|]. reflexivity.
      - apply EV; auto; try lia.
        replace (exp - 1) with (2 * q) by lia. now rewrite Z.even_mul. }
    rewrite R1. cbn [bind].
    assert (PP : base * base ^ (exp - 1) = base ^ exp).
    { rewrite <- Z.pow_succ_r by lia. f_equal. lia. }
    rewrite PP. now apply as_llong_ok.
Qed.

Lemma ipower_spec base exp : 0 <= exp -> llong_ok (base ^ exp) -> ipower base exp = Ret (base ^ exp).
Proof.
  intros He Hok. unfold ipower. destruct (Z.eq_dec exp 0) as [->|Hne].
  { reflexivity. }
  apply (@ipower_f_spec (Z.to_nat (Z.log2 exp + 1))); auto; [|left; lia].
  split; [lia|]. assert (0 <= Z.log2 exp) by apply Z.log2_nonneg.
  rewrite Z2Nat.id by lia. rewrite Z.add_1_r. apply Z.log2_spec. lia.
Qed.

Lemma ipower_neg base exp : exp < 0 -> ipower base exp = Ret 0.
Proof.
  intros H. unfold ipower. cbn [ipower_f].
  destruct (Z.eqb_spec exp 0); [lia|]. destruct (Z.ltb_spec exp 0); [reflexivity|lia].
Qed.

(* primes *)
Lemma trial_division_spec k p n : 0 < p -> 0 <= n ->
  trial_division k p n = true <-> forall d, p <= d < p + Z.of_nat k -> ~ (d | n).
Proof.
  revert p; induction k as [|k IH]; intros p Hp Hn; cbn [trial_division].
  - split; auto. intros _ d Hd. lia.
  - destruct (Z.eqb_spec (Z.rem n p) 0) as [E|E].
    + split; [discriminate|]. intros H. exfalso. apply (H p); [lia|].
      apply Z.rem_divide; [lia|exact E].
    + rewrite IH by lia. split.
      * intros H d Hd. destruct (Z.eq_dec d p) as [->|]; [|apply H; lia].
        intros X. apply E. apply Z.rem_divide; [lia|exact X].
      * intros H d Hd. apply H. lia.
Qed.

Lemma is_prime_spec n : 0 <= n -> is_prime n = true <-> prime n.
Proof.
  intros Hn. unfold is_prime. destruct (Z.ltb_spec n 2) as [H|H].
  - split; [discriminate|]. intros P. apply prime_ge_2 in P. lia.
  - assert (S1 : 1 <= Z.sqrt n).
    { change 1 with (Z.sqrt 1). apply Z.sqrt_le_mono. lia. }
    rewrite trial_division_spec by lia. rewrite Z2Nat.id by lia. rewrite <- prime_alt.
    unfold prime'. split.
    + intros T. split; [lia|]. intros d Hd Hdiv.
      destruct (Z.le_gt_cases d (Z.sqrt n)) as [L|G].
      * apply (T d); [lia|exact Hdiv].
      * destruct Hdiv as [q Hq].
        assert (1 < q < n) by nia.
        assert (q <= Z.sqrt n).
        { destruct (Z.le_gt_cases q (Z.sqrt n)) as [|G']; auto. exfalso.
          assert (n < (Z.sqrt n + 1) * (Z.sqrt n + 1)) by (generalize (Z.sqrt_spec n Hn); unfold Z.succ; lia).
          nia. }
        apply (T q); [lia|]. exists d. lia.
    + intros [_ P] d Hd. apply P.
      assert (Z.sqrt n < n) by (apply Z.sqrt_lt_lin; lia). lia.
Qed.

(* next_prime *)
Lemma biggest_prime : is_prime 4294967291 = true.
Proof. vm_compute. reflexivity. Qed.

Lemma next_prime_spec_aux k : forall n, 0 <= n -> n + Z.of_nat k = 4294967291 -> (0 < k)%nat ->
  exists fuel p, next_prime_loop fuel n = Ret p /\ n < p <= 4294967291 /\ prime p /\
    forall q, n < q < p -> ~ prime q.
Proof.
  induction k as [|k IH]; intros n Hn Hk Hp; [lia|].
  assert (U : u32 (n + 1) = n + 1) by (unfold u32; apply Z.mod_small; lia).
  destruct (is_prime (n + 1)) eqn:E.
  - exists 1%nat, (n + 1). cbn [next_prime_loop]. rewrite U, E.
    split; [reflexivity|]. split; [lia|]. split; [apply is_prime_spec; [lia|exact E]|]. intros q Hq; lia.
  - destruct (Nat.eq_dec k 0) as [->|Hk0].
    { replace (n + 1) with 4294967291 in E by lia. rewrite biggest_prime in E. discriminate. }
    destruct (IH (n + 1)) as (fuel & p & Ep & B & P & Q); [lia|lia|lia|].
    exists (S fuel), p. cbn [next_prime_loop]. rewrite U, E. split; [exact Ep|]. split; [lia|]. split; [exact P|].
    intros q Hq Pq. destruct (Z.eq_dec q (n + 1)) as [->|].
    + apply is_prime_spec in Pq; [congruence|lia].
    + apply (Q q); [lia|exact Pq].
Qed.

Lemma next_prime_spec n : 0 <= n < 4294967291 ->
  exists fuel p, next_prime_loop fuel n = Ret p /\ n < p /\ prime p /\
    forall q, n < q < p -> ~ prime q.
Proof.
  intros H. destruct (@next_prime_spec_aux (Z.to_nat (4294967291 - n)) n) as (f & p & E & B & P & Q); [lia|lia|lia|].
  exists f, p. split; [exact E|]. split; [lia|]. split; [exact P|exact Q].
Qed.
