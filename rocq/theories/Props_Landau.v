(* Props_Landau.v - C44: landau gives the greatest order of a permutation. *)
From Coq Require Import Znumtheory Permutation Reals.
From Verif Require Import Base M_Math M_Landau Spec_Row Spec_Landau P_Math P_Landau P_Landau2 P_Landau3 P_Landau4.
Set Implicit Arguments.
Unset Strict Implicit.
Open Scope nat_scope.

(* C44, for any bound on the primes: the loops end, and landau(n) is the order of some row of n
   bells, and the greatest of those with no prime factor above the bound *)
Theorem C44_landau n pmax : n <= 119 -> (0 <= pmax < 4294967291)%Z -> exists fuel0, forall fuel, fuel0 <= fuel -> exists v : nat,
  landau fuel pmax n = Ret (Z.of_nat v) /\ order_on n v /\ primes_upto pmax v /\
  forall k, order_on n k -> primes_upto pmax k -> k <= v.
Proof.
  intros Hn Hp. destruct (@landau_max pmax n ltac:(lia) (nowrap_le (m := Z.of_nat n) nowrap_119 ltac:(lia)) ltac:(lia)) as (f0 & H).
  exists f0. intros fuel Hf. destruct (H fuel Hf) as (v & ps & E & F & ND & I & A & M). destruct (ach_pos F A) as [V0 _].
  exists (Z.to_nat v). rewrite Z2Nat.id by lia. split; [exact E|]. split; [exact (ach_order F ND A)|]. split.
  - intros p P D. rewrite Z2Nat.id in D by lia. destruct (in_dec Z.eq_dec p ps) as [X|X]; [now apply I|]. exfalso.
    assert (C := ach_coprime F P X A). assert (P2 := prime_pos P). destruct C as [_ _ C]. specialize (C p (Z.divide_refl p) D). apply Z.divide_1_r_nonneg in C; lia.
  - intros k O U. destruct (order_ach F O) as (K & AK & LK); [intros p P D; apply I; split; [exact P|now apply U]|]. specialize (M K AK). lia.
Qed.

(* if the bound is at least the number of bells it excludes nothing *)
Theorem C44_full n pmax : n <= 119 -> (Z.of_nat n <= pmax < 4294967291)%Z -> exists fuel0, forall fuel, fuel0 <= fuel -> exists v : nat,
  landau fuel pmax n = Ret (Z.of_nat v) /\ order_on n v /\ forall k, order_on n k -> k <= v.
Proof.
  intros Hn Hp. destruct (@C44_landau n pmax Hn ltac:(lia)) as (f0 & H). exists f0. intros fuel Hf. destruct (H fuel Hf) as (v & E & O & _ & M).
  exists v. split; [exact E|]. split; [exact O|]. intros k Ok. apply M; [exact Ok|]. intros p P D. assert (X := order_primes Ok P D). lia.
Qed.

(* and the bound the code computes excludes nothing either: x is the value of the floating-point
   expression, taken to be within 1/100 of the real number it stands for, and pmax is
   floor(x) + 1 *)
Theorem C44_code n x pmax : 1 <= n <= 119 ->
  (Rabs (x - 1328 / 1000 * sqrt (INR n * ln (INR n))) <= 1 / 100)%R -> (IZR pmax - 1 <= x < IZR pmax)%R ->
  exists fuel0, forall fuel, fuel0 <= fuel -> exists v : nat,
  landau fuel pmax n = Ret (Z.of_nat v) /\ order_on n v /\ forall k, order_on n k -> k <= v.
Proof.
  intros Hn Hx Hp. rewrite INR_IZR_INZ in Hx.
  assert (B : (need (Z.of_nat n) <= pmax)%Z).
  { apply (@need_real (Z.of_nat n) pmax x); [lia| |apply Hp]. unfold Rabs in Hx. destruct (Rcase_abs _); Lra.lra. }
  assert (U : (pmax < 4294967291)%Z).
  { apply lt_IZR. assert (S : (sqrt (IZR (Z.of_nat n) * ln (IZR (Z.of_nat n))) <= 119)%R).
    { assert (N1 : (1 <= IZR (Z.of_nat n))%R) by (apply (IZR_le 1); lia). assert (N2 : (IZR (Z.of_nat n) <= 119)%R) by (apply (IZR_le _ 119); lia).
      assert (L : (ln (IZR (Z.of_nat n)) <= 119)%R).
      { destruct (Req_dec (IZR (Z.of_nat n)) 1) as [->|N]; [rewrite ln_1; Lra.lra|]. assert (Y := exp_ineq1 (ln (IZR (Z.of_nat n)))). rewrite exp_ln in Y by Lra.lra.
        assert (LN : ln (IZR (Z.of_nat n)) <> 0%R) by (rewrite <- ln_1; intros EQ; apply ln_inv in EQ; Lra.lra). specialize (Y LN). Lra.lra. }
      assert (L0 : (0 <= ln (IZR (Z.of_nat n)))%R) by (rewrite <- ln_1; apply ln_le; Lra.lra).
      rewrite <- (sqrt_square 119) by Lra.lra. apply sqrt_le_1_alt. Lra.nra. }
    unfold Rabs in Hx. destruct (Rcase_abs _); Lra.lra. }
  destruct (@landau_max pmax n U (nowrap_le (m := Z.of_nat n) nowrap_119 ltac:(lia)) ltac:(lia)) as (f0 & H).
  exists f0. intros fuel Hf. destruct (H fuel Hf) as (v & ps & E & F & ND & I & A). destruct (ach_pos F (proj1 A)) as [V0 _].
  exists (Z.to_nat v). rewrite Z2Nat.id by lia. split; [exact E|]. split; [exact (ach_order F ND (proj1 A))|].
  intros k O. assert (Q : (Z.of_nat k <= v)%Z); [|lia]. apply (need_enough Hn F); [|exact A|exact O]. intros q Q L. apply I. split; [exact Q|lia].
Qed.

(* from 120 bells on no 32-bit answer is right: there is a row of order 2^32 or more *)
Lemma prime_of p : is_prime p = true -> (0 <= p < 4294967296)%Z -> prime p.
Proof. intros E H. apply is_prime_spec; [lia|exact E]. Qed.
Definition nine : list Z := [2; 3; 5; 7; 11; 13; 17; 19; 23]%Z.
Definition word (x : Z) : Prop := (0 <= x < 4294967296)%Z.
Lemma vget_word (g : list Z) i x : Forall word g -> vget g i = Ret x -> word x.
Proof.
  intros F V. unfold vget in V. destruct (nth_error g i) eqn:E; [|discriminate]. injection V as <-. apply nth_error_In in E. rewrite Forall_forall in F. now apply F.
Qed.
Lemma vset_word (g g' : list Z) i x : Forall word g -> word x -> vset g i x = Ret g' -> Forall word g'.
Proof.
  intros F X V. unfold vset in V. destruct (i <? length g); [|discriminate]. injection V as <-. unfold upd. apply Forall_app. split; [|constructor; [exact X|]].
  - apply Forall_forall. intros y Hy. rewrite Forall_forall in F. apply F. rewrite <- (firstn_skipn i g). apply in_or_app. now left.
  - apply Forall_forall. intros y Hy. rewrite Forall_forall in F. apply F. rewrite <- (firstn_skipn (S i) g). apply in_or_app. now right.
Qed.
Lemma landau_q_word fuel p m : forall q g g', Forall word g -> landau_q fuel p m q g = Ret g' -> Forall word g'.
Proof.
  induction fuel as [|fuel IH]; intros q g g' F E; cbn [landau_q] in E; (destruct (q <=? m)%Z; [|injection E as <-; exact F]); [discriminate|].
  apply bind_ret_inv in E as (x & Ex & E). apply bind_ret_inv in E as (y & Ey & E). apply bind_ret_inv in E as (g1 & E1 & E). apply (IH _ _ _) in E; [exact E|].
  destruct (y <? u32 (q * x))%Z; [|injection E1 as <-; exact F]. apply (@vset_word g g1 _ _ F) in E1; [exact E1|]. unfold word, u32. apply Z.mod_pos_bound. lia.
Qed.
Lemma landau_m_word fuel p m : forall g g', Forall word g -> landau_m fuel p m g = Ret g' -> Forall word g'.
Proof.
  induction m as [|m IH]; intros g g' F E; cbn [landau_m] in E; [injection E as <-; exact F|].
  apply bind_ret_inv in E as (g1 & E1 & E). apply landau_q_word in E1; [|exact F]. exact (IH _ _ E1 E).
Qed.
Lemma landau_p_word k fuel pmax n : forall p g g', Forall word g -> landau_p k fuel pmax n p g = Ret g' -> Forall word g'.
Proof.
  induction k as [|k IH]; intros p g g' F E; cbn [landau_p] in E; (destruct (p <=? pmax)%Z; [|injection E as <-; exact F]); [discriminate|].
  apply bind_ret_inv in E as (g1 & E1 & E). apply bind_ret_inv in E as (p1 & E2 & E). apply landau_m_word in E1; [|exact F]. exact (IH _ _ _ E1 E).
Qed.
Lemma landau_word fuel pmax n v : landau fuel pmax n = Ret v -> word v.
Proof.
  unfold landau. intros E. apply bind_ret_inv in E as (g & E1 & E). apply landau_p_word in E1; [exact (vget_word E1 E)|].
  apply Forall_forall. intros x Hx. apply repeat_spec in Hx. subst x. unfold word. lia.
Qed.

Theorem C44_overflow n : 120 <= n ->
  (exists k, order_on n k /\ (4294967296 <= Z.of_nat k)%Z) /\
  forall fuel pmax v, landau fuel pmax n = Ret v -> exists k, order_on n k /\ (v < Z.of_nat k)%Z.
Proof.
  intros Hn.
  assert (F : Forall prime nine) by (unfold nine; repeat (constructor; [apply prime_of; [vm_compute; reflexivity|lia]|]); constructor).
  assert (ND : NoDup nine) by (unfold nine; repeat (constructor; [cbn; lia|]); constructor).
  assert (A : ach nine 120 5354228880).
  { unfold nine. change 5354228880%Z with (2 ^ 4 * (3 ^ 2 * (5 ^ 1 * (7 ^ 1 * (11 ^ 1 * (13 ^ 1 * (17 ^ 1 * (19 ^ 1 * (23 ^ 1 * 1)))))))))%Z.
    change 120%Z with (0 + 23 ^ 1 + 19 ^ 1 + 17 ^ 1 + 13 ^ 1 + 11 ^ 1 + 7 ^ 1 + 5 ^ 1 + 3 ^ 2 + 2 ^ 4)%Z.
    do 9 (apply ach_take; [reflexivity|]). constructor. lia. }
  assert (O : exists k, order_on n k /\ (4294967296 <= Z.of_nat k)%Z).
  { exists (Z.to_nat 5354228880). split; [apply (@ach_order nine); [exact F|exact ND|apply (ach_mono A); lia]|]. rewrite Z2Nat.id; lia. }
  split; [exact O|]. intros fuel pmax v E. destruct O as (k & O & K). exists k. split; [exact O|]. apply landau_word in E. unfold word in E. lia.
Qed.

(* the hypotheses are met: on 12 bells, with the bound of the code (8), the answer is 60, the
   order of a row with cycles of 3, 4 and 5 bells *)
Example landau_12 : landau 200 8 12 = Ret 60%Z.
Proof. vm_compute. reflexivity. Qed.
Example landau_119 : landau 300 32 119 = Ret 3375492120%Z.
Proof. vm_compute. reflexivity. Qed.
(* with the bound at 2 instead of the 8 of the code, a greater order is missed *)
Example landau_12_short : landau 200 2 12 = Ret 8%Z.
Proof. vm_compute. reflexivity. Qed.
(* from 125 bells, for instance, the products wrap and the answer is below that for 119 *)
Example landau_125 : landau 300 34 125 = Ret 1163962800%Z.
Proof. vm_compute. reflexivity. Qed.
