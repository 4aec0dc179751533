(* P_Power.v - row::power. *)
From Verif Require Import Base M_Bell M_Change M_Math M_Row Spec_Row Spec_Cycle P_Math P_Row P_Bell P_Cycle P_Order.
From Coq Require Import Znumtheory.
Set Implicit Arguments.
Unset Strict Implicit.
Open Scope Z_scope.

Definition is_power (x : row) (k : nat) (z : row) : Prop :=
  row256 z /\ length z = length x /\ forall i, act z i = act_pow x k i.

Lemma act_pow_ext x y k i : (forall j, act x j = act y j) -> act_pow x k i = act_pow y k i.
Proof. intros H. induction k as [|k IH]; cbn [act_pow]; congruence. Qed.

Lemma power_small sym x : row256 x -> forall (m : nat) n fuel, 0 <= n < 2 ^ Z.of_nat m ->
  n <= Z.of_nat (length x) * Z.of_nat (length x) -> (2 * m + 1 <= fuel)%nat ->
  exists z, power_f fuel sym x n = Ret z /\ is_power x (Z.to_nat n) z.
Proof.
  intros R. induction m as [|m IH]; intros n fuel Hn Hb Hf.
  - assert (n = 0) by (change (2 ^ Z.of_nat 0) with 1 in Hn; lia). subst n.
    destruct fuel as [|fuel]; [lia|]. cbn [power_f Z.eqb]. eexists; split; [reflexivity|].
    destruct R as [Px L]. rewrite rounds_id by lia. split; [now apply row256_id|].
    split; [apply id_length|]. intros i. rewrite act_id. reflexivity.
  - assert (E2 : 2 ^ Z.of_nat (S m) = 2 * 2 ^ Z.of_nat m)
      by (rewrite Nat2Z.inj_succ, Z.pow_succ_r by lia; reflexivity).
    assert (E0 : forall fuel, exists z, power_f (S fuel) sym x 0 = Ret z /\ is_power x 0 z).
    { intros g. cbn [power_f Z.eqb]. eexists; split; [reflexivity|].
      destruct R as [Px L]. rewrite rounds_id by lia. split; [now apply row256_id|].
      split; [apply id_length|]. intros i. rewrite act_id. reflexivity. }
    assert (Ev : forall k g, (2 * m + 2 <= g)%nat -> 0 < k -> k < 2 ^ Z.of_nat m ->
       2 * k <= Z.of_nat (length x) * Z.of_nat (length x) ->
       exists z, power_f g sym x (2 * k) = Ret z /\ is_power x (Z.to_nat (2 * k)) z).
    { intros k g Hg Hk0 Hk Hkb. destruct g as [|g]; [lia|]. cbn [power_f].
      destruct (Z.eqb_spec (2 * k) 0); [lia|]. destruct (Z.ltb_spec (2 * k) 0); [lia|].
      destruct (Z.gtb_spec (2 * k) (Z.of_nat (length x) * Z.of_nat (length x))); [lia|].
      assert (Er : Z.rem (2 * k) 2 = 0) by (rewrite Z.mul_comm; apply Z.rem_mul; lia).
      rewrite Er. cbn [Z.eqb negb].
      replace (Z.quot (2 * k) 2) with k by (rewrite Z.mul_comm, Z.quot_mul; lia).
      destruct (IH k g) as (t & Et & Rt & Lt & At); [lia|lia|lia|]. rewrite Et. cbn [bind].
      destruct (mul_spec Rt Rt) as (z & Ez & Rz & Lz & Az). exists z. split; auto.
      split; auto. split; [lia|]. intros i. rewrite Az, !At.
      replace (Z.to_nat (2 * k)) with (Z.to_nat k + Z.to_nat k)%nat by lia. now rewrite act_pow_add. }
    destruct fuel as [|fuel]; [lia|].
    destruct (Z.eq_dec n 0) as [->|Hn0]; [apply E0|].
    destruct (Z.Even_or_Odd n) as [[k Hk]|[k Hk]].
    + subst n. apply Ev; lia.
    + cbn [power_f].
      destruct (Z.eqb_spec n 0); [lia|]. destruct (Z.ltb_spec n 0); [lia|].
      destruct (Z.gtb_spec n (Z.of_nat (length x) * Z.of_nat (length x))); [lia|].
      assert (Er : Z.rem n 2 = 1).
      { rewrite Z.rem_mod_nonneg by lia. subst n. rewrite Z.add_comm, Z.mul_comm, Z.mod_add by lia. reflexivity. }
      rewrite Er. cbn [Z.eqb negb].
      assert (G : exists p, power_f fuel sym x (n - 1) = Ret p /\ is_power x (Z.to_nat (n - 1)) p).
      { replace (n - 1) with (2 * k) by lia. destruct (Z.eq_dec k 0) as [->|].
        - destruct fuel; [lia|]. apply E0.
        - apply Ev; lia. }
      destruct G as (p & Ep & Rp & Lp & Ap). rewrite Ep. cbn [bind].
      destruct (mul_spec R Rp) as (z & Ez & Rz & Lz & Az). exists z. split; auto.
      split; auto. split; [lia|]. intros i. rewrite Az, Ap.
      replace (Z.to_nat n) with (S (Z.to_nat (n - 1))) by lia. reflexivity.
Qed.

Lemma act_pow_mod x o k : 0 < o -> (forall i, act_pow x (Z.to_nat o) i = i) ->
  forall i, act_pow x (Z.to_nat (Z.of_nat k mod o)) i = act_pow x k i.
Proof.
  intros Ho H.
  assert (G : forall q i, act_pow x (q * Z.to_nat o) i = i).
  { induction q as [|q IH]; intros i; [reflexivity|]. cbn [Nat.mul]. now rewrite act_pow_add, IH, H. }
  intros i. 
  assert (E : k = (Z.to_nat (Z.of_nat k mod o) + Z.to_nat (Z.of_nat k / o) * Z.to_nat o)%nat).
  { assert (A := Z.div_mod (Z.of_nat k) o ltac:(lia)).
    assert (B := Z.mod_pos_bound (Z.of_nat k) o Ho).
    assert (0 <= Z.of_nat k / o) by (apply Z.div_pos; lia). nia. }
  rewrite E at 2. rewrite act_pow_add, G. reflexivity.
Qed.

Lemma sq_bound x : row256 x -> Z.of_nat (length x) * Z.of_nat (length x) < 2 ^ Z.of_nat 17.
Proof. intros [_ L]. change (2 ^ Z.of_nat 17) with 131072. nia. Qed.

Lemma power_f_nonneg fuel x n : row256 x -> 0 <= n -> (36 <= fuel)%nat ->
  n <= Z.of_nat (length x) * Z.of_nat (length x) \/
  (exists o, order default_symtab x = Ret o /\ o <= Z.of_nat (length x) * Z.of_nat (length x) + 1) ->
  exists z, power_f fuel default_symtab x n = Ret z /\ is_power x (Z.to_nat n) z.
Proof.
  intros R Hn Hf H. assert (B := sq_bound R).
  destruct (Z_le_gt_dec n (Z.of_nat (length x) * Z.of_nat (length x))) as [Hs|Hs].
  - apply (@power_small _ _ R 17 n); lia.
  - destruct H as [H|(o & Eo & Ho)]; [lia|].
    destruct fuel as [|fuel]; [lia|]. cbn [power_f].
    destruct (Z.eqb_spec n 0); [nia|]. destruct (Z.ltb_spec n 0); [lia|].
    destruct (Z.gtb_spec n (Z.of_nat (length x) * Z.of_nat (length x))); [|lia].
    rewrite Eo. cbn [bind]. destruct (order_divides R Eo) as [Hpos Hd].
    destruct (Z.eqb_spec o 0); [lia|].
    assert (Rb : 0 <= Z.rem n o < o) by (apply Z.rem_bound_pos; lia).
    destruct (@power_small default_symtab _ R 17 (Z.rem n o) fuel) as (z & Ez & Rz & Lz & Az); [lia|lia|lia|].
    exists z. split; auto. split; auto. split; auto. intros i. rewrite Az.
    rewrite Z.rem_mod_nonneg by lia.
    rewrite <- (Z2Nat.id n) at 1 by lia. apply act_pow_mod; auto.
    intros j. apply Hd. rewrite Z2Nat.id by lia. apply Z.divide_refl.
Qed.

Lemma inv_pow x y k : (forall i, act y (act x i) = i) -> forall i, act_pow y k (act_pow x k i) = i.
Proof.
  intros H. induction k as [|k IH]; intros i; [reflexivity|].
  rewrite act_pow_S_r. cbn [act_pow]. rewrite H. apply IH.
Qed.

Lemma order_inverse x y o : row256 x -> row256 y -> length y = length x ->
  (forall i, act y (act x i) = i) -> (forall i, act x (act y i) = i) ->
  order default_symtab x = Ret o ->
  forall o', order default_symtab y = Ret o' -> o' = o.
Proof.
  intros Rx Ry L H1 H2 Eo o' Eo'.
  destruct (order_divides Rx Eo) as [P D], (order_divides Ry Eo') as [P' D'].
  assert (T : forall k, (forall i, act_pow x k i = i) <-> (forall i, act_pow y k i = i)).
  { intros k. split; intros H i.
    - rewrite <- (H i) at 1. now apply inv_pow.
    - rewrite <- (H i) at 1. now apply inv_pow. }
  apply Z.divide_antisym_nonneg; try lia.
  - rewrite <- (Z2Nat.id o) by lia. apply D', T, D. rewrite Z2Nat.id by lia. apply Z.divide_refl.
  - rewrite <- (Z2Nat.id o') by lia. apply D, T, D'. rewrite Z2Nat.id by lia. apply Z.divide_refl.
Qed.

(* Landau's function by exhaustive tabulation: the possible lcms of positive
   integers with a given sum. *)
Fixpoint zip_lcm (k : Z) (t : list (list Z)) : list Z :=
  match t with [] => [] | s :: t => map (Z.lcm k) s ++ zip_lcm (k + 1) t end.
(* table n = [S(n-1); ...; S(0)] *)
Fixpoint table (n : nat) : list (list Z) :=
  match n with
  | O => [[1]]
  | S n => let t := table n in nodup Z.eq_dec (zip_lcm 1 t) :: t
  end.

Fixpoint zlcms (l : list nat) : Z := match l with [] => 1 | k :: l => Z.lcm (Z.of_nat k) (zlcms l) end.

Lemma zip_lcm_in t : forall k j s v, nth_error t j = Some s -> In v s ->
  In (Z.lcm (k + Z.of_nat j) v) (zip_lcm k t).
Proof.
  induction t as [|s0 t IH]; intros k j s v E Hv; [destruct j; discriminate|].
  cbn [zip_lcm]. apply in_or_app. destruct j as [|j]; cbn [nth_error] in E.
  - injection E as <-. left. apply in_map_iff. exists v. split; auto. f_equal. lia.
  - right. replace (k + Z.of_nat (S j)) with (k + 1 + Z.of_nat j) by lia. eapply IH; eauto.
Qed.

Lemma table_length n : length (table n) = S n.
Proof. induction n as [|n IH]; cbn [table length]; auto. Qed.

Lemma table_nth n j : (j <= n)%nat -> nth_error (table n) j = nth_error (table (n - j)) 0.
Proof.
  revert j; induction n as [|n IH]; intros [|j] H; cbn [Nat.sub]; auto; [lia|].
  cbn [table nth_error]. apply IH. lia.
Qed.

Lemma table_complete lens : Forall (fun k => (0 < k)%nat) lens ->
  exists s, nth_error (table (nsum lens)) 0 = Some s /\ In (zlcms lens) s.
Proof.
  induction 1 as [|k lens Hk F IH]; cbn [nsum zlcms].
  - exists [1]. split; [reflexivity|now left].
  - destruct IH as (s & E & H). 
    destruct k as [|k]; [lia|]. cbn [Nat.add table nth_error].
    eexists; split; [reflexivity|]. apply nodup_In.
    replace (Z.of_nat (S k)) with (1 + Z.of_nat k) by lia.
    apply (@zip_lcm_in _ 1 k s); auto.
    rewrite table_nth by lia. now replace (k + nsum lens - k)%nat with (nsum lens) by lia.
Qed.

Lemma forM_lcm_zlcms lens : Forall (fun k => (0 < k)%nat) lens -> forall v,
  forM lens (fun o k => lcm o (Z.of_nat k)) 1 = Ret v -> v = zlcms lens.
Proof.
  intros F v E. destruct (@forM_lcm_ret _ F 1 v ltac:(lia) E) as (H1 & _ & H3 & H4).
  assert (G : 0 < zlcms lens).
  { clear -F. induction F; cbn [zlcms]; [lia|]. apply lcm_pos; lia. }
  apply Z.divide_antisym_nonneg; try lia.
  - apply H4; [apply Z.divide_1_l|]. clear. intros k. induction lens as [|a l IH]; intros []; cbn [zlcms].
    + subst. apply Z.divide_lcm_l.
    + eapply Z.divide_trans; [now apply IH|apply Z.divide_lcm_r].
  - clear -H3. induction lens as [|a l IH]; cbn [zlcms]; [apply Z.divide_1_l|].
    apply Z.lcm_least; [apply H3; now left|]. apply IH. intros k Hk. apply H3. now right.
Qed.

Lemma landau_table : forallb (fun n => forallb (fun v => v <=? Z.of_nat n * Z.of_nat n + 1) (hd [] (table n))) (seq 0 19) = true.
Proof. vm_compute. reflexivity. Qed.

Lemma order_le_18 x : row256 x -> (length x <= 18)%nat ->
  exists o, order default_symtab x = Ret o /\ o <= Z.of_nat (length x) * Z.of_nat (length x) + 1.
Proof.
  intros R L. destruct (@order_exists x R) as (o & Eo); [lia|]. exists o. split; auto.
  destruct (cycle_lists_spec (proj1 R)) as (cs & Ec & D & _).
  rewrite (order_forM R Ec D) in Eo. assert (F := lens_pos (decomp_nonempty D)).
  apply forM_lcm_zlcms in Eo; auto. destruct (table_complete F) as (s & Es & Hs).
  rewrite nsum_concat in Es. destruct D as [D _]. rewrite (Permutation_length D), seq_length in Es.
  assert (T := landau_table). rewrite forallb_forall in T.
  specialize (T (length x) ltac:(apply in_seq; lia)). rewrite forallb_forall in T.
  destruct (table (length x)) as [|s0 t]; [discriminate|]. cbn in Es. injection Es as ->.
  cbn [hd] in T. apply Z.leb_le. subst o. now apply T.
Qed.

(* The main result: any int exponent other than INT_MIN, up to 18 bells. *)
Definition is_zpower (x : row) (n : Z) (z : row) : Prop :=
  row256 z /\ length z = length x /\
  if n <? 0 then forall i, act z (act_pow x (Z.to_nat (- n)) i) = i
  else forall i, act z i = act_pow x (Z.to_nat n) i.

Lemma power_f_gen fuel x n : (40 <= fuel)%nat -> row256 x -> int_min < n <= int_max ->
  Z.abs n <= Z.of_nat (length x) * Z.of_nat (length x) \/ (length x <= 18)%nat ->
  exists z, power_f fuel default_symtab x n = Ret z /\ is_zpower x n z.
Proof.
  intros Hf R Hn H. unfold is_zpower. destruct (Z.ltb_spec n 0) as [Hneg|Hpos].
  - destruct fuel as [|fu]; [lia|]. cbn [power_f].
    destruct (Z.eqb_spec n 0); [lia|]. destruct (Z.ltb_spec n 0); [|lia].
    rewrite as_int_ok by (unfold int_min, int_max in *; lia). cbn [bind].
    destruct (inverse_spec R) as (y & Ey & Ry & Ly & I1 & I2). rewrite Ey. cbn [bind].
    destruct (@power_f_nonneg fu y (- n) Ry) as (z & Ez & Rz & Lz & Az); [lia|lia| |].
    { rewrite Ly. destruct H as [H|H]; [left; lia|right].
      rewrite <- Ly. apply order_le_18; auto. lia. }
    exists z. split; auto. split; auto. split; [lia|]. intros i. rewrite Az. now apply inv_pow.
  - destruct (@power_f_nonneg fuel x n R) as (z & Ez & Rz & Lz & Az); [lia|lia| |].
    { destruct H as [H|H]; [left; lia|right]. now apply order_le_18. }
    exists z. split; auto.
Qed.

Lemma power_gen x n : row256 x -> int_min < n <= int_max ->
  Z.abs n <= Z.of_nat (length x) * Z.of_nat (length x) \/ (length x <= 18)%nat ->
  exists z, power default_symtab x n = Ret z /\ is_zpower x n z.
Proof. unfold power. apply power_f_gen. lia. Qed.

Lemma power_f_int_min fuel x : power_f (S fuel) default_symtab x int_min = UB.
Proof. reflexivity. Qed.

Lemma power_int_min x : row256 x -> power default_symtab x int_min = UB.
Proof.
  intros _. unfold power. apply power_f_int_min.
Qed.

(* A 19-bell row of order 420 = 3*4*5*7 > 19*19. *)
Definition row420 : row := [1;2;0; 4;5;6;3; 8;9;10;11;7; 13;14;15;16;17;18;12]%nat.
Lemma row420_ok : row256 row420 /\ order default_symtab row420 = Ret 420.
Proof.
  split; [|vm_compute; reflexivity]. split; [|cbn; lia].
  apply is_row_iff. split.
  - vm_compute. repeat constructor; cbn; intuition discriminate.
  - intros b Hb. assert (G : forallb (fun b => b <? length row420)%nat row420 = true) by reflexivity.
    rewrite forallb_forall in G. apply Nat.ltb_lt. now apply G.
Qed.
Lemma power_refuted fuel : power_f fuel default_symtab row420 400 = Diverge.
Proof.
  induction fuel as [|fuel IH]; [reflexivity|].
  cbn [power_f]. change (400 =? 0) with false. change (400 <? 0) with false.
  change (400 >? Z.of_nat (length row420) * Z.of_nat (length row420)) with true. cbv iota.
  rewrite (proj2 row420_ok). cbn [bind]. change (420 =? 0) with false. cbv iota.
  change (Z.rem 400 420) with 400. exact IH.
Qed.

Lemma power_signed x n : row256 x -> int_min < n <= int_max ->
  Z.abs n <= Z.of_nat (length x) * Z.of_nat (length x) \/ (length x <= 18)%nat ->
  exists z, power default_symtab x n = Ret z /\ row256 z /\ length z = length x /\
    (0 <= n -> forall i, act z i = act_pow x (Z.to_nat n) i) /\
    (n < 0 -> forall i, act z (act_pow x (Z.to_nat (- n)) i) = i).
Proof.
  intros R H1 H2. destruct (power_gen R H1 H2) as (z & E & Rz & Lz & A).
  exists z. split; [exact E|]. split; [exact Rz|]. split; [exact Lz|].
  destruct (Z.ltb_spec n 0); split; intros Hn; try lia; exact A.
Qed.

Lemma power_diverges : exists x n, row256 x /\ length x = 19%nat /\ n = 400 /\
  forall fuel, power_f fuel default_symtab x n = Diverge.
Proof.
  exists row420, 400. split; [apply row420_ok|]. split; [reflexivity|]. split; [reflexivity|].
  exact power_refuted.
Qed.
