(* P_Splices4.v - splices: testing a pair of methods. *)
From Verif Require Import Base M_Bell M_Change M_Math M_Row M_Extent M_Group M_Touch M_PN M_Method M_False M_Splices
  Spec_Row Spec_Change Spec_Touch Spec_Extent Spec_Cycle Spec_Group Spec_Method Spec_False Spec_RowCalc Spec_Splices
  P_Row P_Change2 P_Cycle P_Order P_Perm P_Extent P_Group P_Group2 P_Group3 P_Touch P_Method P_False P_False2 P_False4 P_Splices P_Splices2 P_Splices3 Props_False.
From Coq Require Import Permutation.
Set Implicit Arguments.
Unset Strict Implicit.
Open Scope nat_scope.

Section Pair.
Variables (sym : symtab) (A : slargs) (a b : method).
Notation n := (sl_bells A).
Notation ic := (sl_in A).
Hypothesis (N3 : 3 <= n) (N13 : n <= 13).
Hypothesis (Wa : wf_method a) (Wb : wf_method b) (Ba : mb a = n) (Bb : mb b = n).
Hypothesis (La : 1 <= length (mch a)) (Lb : 1 <= length (mch b)).
Hypothesis (NO : sl_out A = false) (NH : sl_half A = false).
Notation LH := (lead_head sym n ic).

Lemma flags_is : sl_flags A = if ic then 1%Z else 0%Z.
Proof. unfold sl_flags, F_IN_COURSE. rewrite NO, NH. destruct ic; reflexivity. Qed.
Lemma table_is : (rb <- row_block_from (mch b) (rounds n) (sl_half A) true ;; falseness_method_rows sym (sl_flags A) a (rb_rows rb)) = falseness_methods sym (sl_flags A) a b.
Proof.
  unfold falseness_method_rows, falseness_methods, lead_rows_of. rewrite flags_is, NH.
  replace (has (if ic then 1%Z else 0%Z) F_HALF_LEAD) with false by (destruct ic; reflexivity).
  assert (E : row_block_from (mch b) (rounds n) false true = row_block_make (mch b) false true).
  { unfold row_block_from, row_block_make. destruct Wb as (_ & _ & F). destruct (mch b) as [|c0 c]; [cbn in Lb; lia|]. inversion_clear F as [|? ? [E _] _]. rewrite E, Bb. cbn [row_block_base_size length repeat]. reflexivity. }
  rewrite E. destruct (@row_block_make_spec (hd (mkChange 0 []) (mch a)) (tl (mch a)) false true) as (ra & Ea & _).
  { replace (hd (mkChange 0 []) (mch a) :: tl (mch a)) with (mch a) by (destruct (mch a); [cbn in La; lia|reflexivity]). now apply wf_ok. }
  { cbn. lia. }
  replace (hd (mkChange 0 []) (mch a) :: tl (mch a)) with (mch a) in Ea by (destruct (mch a); [cbn in La; lia|reflexivity]).
  rewrite Ea. cbn [bind]. destruct (row_block_make (mch b) false true); reflexivity.
Qed.

Lemma rung_id : rung (id_row n) [] (id_row n).
Proof. split; [apply (row_b_256 (b := n)); [lia|apply row_b_id]|]. split; [cbn; lia|reflexivity]. Qed.

Lemma runs m i : wf_method m -> mb m = n -> i < length (mch m) -> exists r, rung (id_row n) (firstn i (mch m)) r.
Proof.
  intros W B Hi. destruct (@lead_rows_of_spec 0%Z m W ltac:(lia)) as (rows & _ & L & H); [cbn; lia|]. rewrite B in H. exists (nth i rows []). apply H. rewrite L. exact Hi.
Qed.
Lemma widest_m m : wf_method m -> mb m = n -> widest (mch m) <= n.
Proof. intros W B. pose proof (@widest_le m (length (mch m)) W) as X. rewrite firstn_all in X. lia. Qed.

Record good_group (g : group) : Prop := mkGood {
  gg_n : gb g = n;
  gg_nodup : NoDup (gv g);
  gg_group : is_subgroup n (fun x => In x (gv g));
  gg_lh : forall x, In x (gv g) -> LH x;
  gg_splice : forall S, splice sym n ic (mch a) (mch b) S <-> (forall h, S h = true -> LH h) /\ (forall h x, S h = true -> In x (gv g) -> S (comp h x) = true);
  gg_least : exists S, splice sym n ic (mch a) (mch b) S /\ leads_of S (length (gv g));
  gg_small : 0 < length (gv g) /\ forall S k, splice sym n ic (mch a) (mch b) S -> leads_of S k -> 0 < k -> length (gv g) <= k;
  gg_both : (exists S, splice sym n ic (mch a) (mch b) S /\ both_rung sym n ic S) <-> exists h, LH h /\ ~ In h (gv g) }.

Lemma test_pair_spec : exists N, forall fuel, N <= fuel -> exists g, good_group g /\
  test_pair sym fuel A a b =
    if negb (sl_group A) && sl_same_le A && negb (change_eqb (last (mch a) (mkChange 0 [])) (last (mch b) (mkChange 0 []))) then Ret None
    else let size := Z.of_nat (length (gv g)) in
      if negb (sl_null A) && (size =? max_size A)%Z then Ret None
      else if negb (sl_only A =? -1)%Z && negb (size =? sl_only A * 2)%Z then Ret None
      else Ret (Some (describe_splice g)).
Proof.
  assert (HF : has (sl_flags A) F_HALF_LEAD = false) by (rewrite flags_is; destruct ic; reflexivity).
  destruct (@C32_methods sym (sl_flags A) a b Wa Wb ltac:(congruence) ltac:(lia) La Lb HF) as (t & Et & _ & Ht). rewrite Ba in Ht.
  assert (FT : forall f, In f t <-> LH f /\ leads_share n (mch a) (mch b) (length (mch a)) (length (mch b)) f).
  { intros f. rewrite (Ht f). unfold lead_head, asked_for. rewrite flags_is.
    assert (F2 : has (if ic then 1%Z else 0%Z) F_NO_FIXED_TREBLE = false) by (destruct ic; reflexivity). assert (F3 : has (if ic then 1%Z else 0%Z) F_OUT_OF_COURSE = false) by (destruct ic; reflexivity).
    assert (F1 : has (if ic then 1%Z else 0%Z) F_IN_COURSE = ic) by (destruct ic; reflexivity). rewrite F1, F2, F3. intuition discriminate. }
  assert (NE : t <> []).
  { intros X. assert (I : In (id_row n) t). { apply FT. split; [apply lh_id; lia|]. exists 0, 0, (id_row n). split; [lia|]. split; [lia|]. split; apply rung_id. } rewrite X in I. destruct I. }
  destruct (@C32_group sym (sl_flags A) n t ltac:(lia)) as (N & HN); [|exact NE| |].
  { apply Forall_forall. intros x Hx. apply FT in Hx as [(Bx & _) _]. exact Bx. }
  { rewrite flags_is. destruct ic; intros X; discriminate X. }
  exists N. intros fuel Hf. destruct (HN fuel Hf) as (g & Eg & Wg & Bg & Mg). exists g.
  replace (has (sl_flags A) F_OUT_OF_COURSE) with false in Mg by (rewrite flags_is; destruct ic; reflexivity).
  assert (VG : is_subgroup n (fun x => In x (gv g))) by (destruct Wg as (_ & (_ & X) & _); now rewrite Bg in X).
  assert (VN : NoDup (gv g)) by (destruct Wg as (_ & (X & _) & _); now apply row_sorted_nodup).
  assert (N0 : 0 < n) by lia. assert (N256 : n <= 256) by lia.
  pose proof (widest_m Wa Ba) as W1. pose proof (widest_m Wb Bb) as W2.
  assert (R1 : forall i, i < length (mch a) -> exists r, rung (id_row n) (firstn i (mch a)) r) by (intros i Hi; now apply runs).
  assert (R2 : forall i, i < length (mch b) -> exists r, rung (id_row n) (firstn i (mch b)) r) by (intros i Hi; now apply runs).
  split.
  - constructor; auto.
    + intros x. apply (V_lh N0 N256 FT Mg).
    + intros S. apply (splice_closed N0 N256 W1 W2 R1 R2 FT Mg).
    + exists (in_V (gv g)). split; [apply (splice_V N0 N256 W1 W2 R1 R2 FT VG Mg)|]. apply (smallest_V N0 N256 W1 W2 R1 R2 FT VG Mg VN).
    + split; apply (smallest_V N0 N256 W1 W2 R1 R2 FT VG Mg VN).
    + apply (both_iff N0 N256 W1 W2 R1 R2 FT VG Mg).
  - unfold test_pair. destruct (negb (sl_group A) && sl_same_le A && _); [reflexivity|]. unfold test_rows. pose proof table_is as T. rewrite Et in T.
    destruct (row_block_from (mch b) (rounds n) (sl_half A) true) as [rb| | |]; cbn [bind] in T |- *; try discriminate T. rewrite T. cbn [bind]. rewrite Eg. cbn [bind]. reflexivity.
Qed.

Lemma max_is : max_size A = (if ic then fac (n - 1) / 2 else fac (n - 1))%Z.
Proof. unfold max_size. rewrite NO, orb_false_r, factorial_12 by lia. reflexivity. Qed.
Lemma f2_is : factorial_int (Z.of_nat n - 1 - 2) = fac (n - 3).
Proof. unfold factorial_int. destruct (Z.ltb_spec (Z.of_nat n - 1 - 2) 0); [lia|]. replace (Z.to_nat (Z.of_nat n - 1 - 2)) with (n - 3) by lia. apply factorial_12. lia. Qed.
Lemma f1_is : (fac (n - 3) * (Z.of_nat n - 1 - 1) = fac (n - 2))%Z.
Proof. replace (n - 2) with (S (n - 3)) by lia. rewrite fac_S. replace (Z.of_nat n - 1 - 1)%Z with (Z.of_nat (S (n - 3))) by lia. lia. Qed.

Variable g : group.
Hypothesis G : good_group g.
Lemma act_nth x i d : row_b n x -> i < n -> nth i x d = act x i.
Proof. intros [_ L] H. unfold act. apply nth_indep. lia. Qed.
Lemma lead_count : d_leads (describe_splice g) = length (gv g) / 2.
Proof. reflexivity. Qed.

Lemma closed_by (K : row -> Prop) (same : row -> row -> Prop) : (forall x, In x (gv g) -> K x) -> (forall x, LH x -> K x -> In x (gv g)) ->
  (forall h h', LH h -> LH h' -> (same h h' <-> K (comp (inv h) h'))) ->
  forall S, splice sym n ic (mch a) (mch b) S <-> (forall h, S h = true -> LH h) /\ (forall h h', LH h -> LH h' -> same h h' -> S h = S h').
Proof.
  intros K1 K2 K3 S. assert (N0 : 0 < n) by lia. assert (N256 : n <= 256) by lia. rewrite (gg_splice G). split; intros [SL SC]; (split; [exact SL|]).
  - assert (X : forall h h', LH h -> LH h' -> same h h' -> S h = true -> S h' = true).
    { intros h h' Lh Lh' Sa Sh. apply K3 in Sa; auto. apply K2 in Sa; [|apply lh_comp; auto; now apply lh_inv]. specialize (SC h _ Sh Sa). rewrite (comp_inv_r N256) in SC; [exact SC|apply Lh|apply Lh']. }
    intros h h' Lh Lh' Sa. destruct (S h) eqn:E; [symmetry; now apply (X h h')|]. destruct (S h') eqn:E'; [|reflexivity].
    (* the way back, by the inverse *)
    apply K3 in Sa; auto. apply K2 in Sa; [|apply lh_comp; auto; now apply lh_inv].
    assert (Iv : In (inv (comp (inv h) h')) (gv g)).
    { destruct (gg_group G) as (_ & _ & _ & Ginv). destruct (Ginv _ Sa) as (y & Hy & Ey). assert (By : row_b n y) by apply (gg_lh G Hy).
      assert (Bx : row_b n (comp (inv h) h')) by apply (gg_lh G Sa). destruct (inv_b N256 Bx) as (Bi & I1 & I2).
      replace (inv (comp (inv h) h')) with y; [exact Hy|]. apply (@comp_inj n N256 (comp (inv h) h')); auto. congruence. }
    specialize (SC h' _ E' Iv). assert (Bx : row_b n (comp (inv h) h')) by apply (gg_lh G Sa). destruct (inv_b N256 Bx) as (Bi & I1 & I2).
    assert (Eh : comp h (comp (inv h) h') = h') by (apply (comp_inv_r N256); [apply Lh|apply Lh']).
    rewrite <- Eh in SC at 1. rewrite (comp_assoc (b := n)) in SC; [|apply Lh|exact Bx|exact Bi]. rewrite I1, comp_id_r in SC by apply Lh. congruence.
  - intros h x Sh Hx. assert (Lh := SL h Sh). assert (Lx := gg_lh G Hx). rewrite <- (SC h (comp h x)); auto; [now apply lh_comp|].
    apply K3; auto; [now apply lh_comp|]. rewrite (comp_inv_l N256); [now apply K1|apply Lh|apply Lx].
Qed.

Lemma pivot_ok p : d_pivot (describe_splice g) = Some p -> (ic = false -> Z.of_nat (d_leads (describe_splice g)) = fac (n - 2) / 2)%Z ->
  1 <= p < n /\ forall S, splice sym n ic (mch a) (mch b) S <-> (forall h, S h = true -> LH h) /\ (forall h h', LH h -> LH h' -> act h p = act h' p -> S h = S h').
Proof.
  assert (N0 : 0 < n) by lia. assert (N256 : n <= 256) by lia.
  intros E D. rewrite lead_count in D. unfold describe_splice in E. cbn [d_pivot] in E. rewrite (gg_n G), f2_is, f1_is in E. set (size := Z.of_nat (length (gv g))) in *.
  destruct (Z.ltb_spec 2 size) as [S2|]; [|discriminate E]. cbn [andb] in E.
  assert (SZ : (size = fac (n - 2) \/ size = Z.quot (fac (n - 2)) 2)%Z) by (destruct (Z.eqb_spec size (fac (n - 2))) as [X1|X1]; [now left|]; destruct (Z.eqb_spec size (Z.quot (fac (n - 2)) 2)) as [X2|X2]; [now right|discriminate E]).
  destruct (_ || _); [|discriminate E]. destruct (get_pivot g) as [q|] eqn:Gp; [|discriminate E]. destruct (q =? 255); [discriminate E|]. injection E as ->.
  apply find_some in Gp as [Ip Fp]. apply in_seq in Ip. rewrite (gg_n G) in Ip. split; [lia|].
  assert (Hp : 1 <= p < n) by lia. assert (FX : forall x, In x (gv g) -> act x p = p).
  { intros x Hx. rewrite forallb_forall in Fp. specialize (Fp x Hx). apply Nat.eqb_eq in Fp. rewrite <- Fp at 2. symmetry. apply act_nth; [apply (gg_lh G Hx)|lia]. }
  rewrite Z.quot_div_nonneg in SZ by (try (pose proof (fac_pos (n - 2))); lia).
  assert (N5 : 5 <= n). { destruct (Nat.lt_ge_cases n 5) as [X|X]; [|exact X]. assert (C : n = 3 \/ n = 4) by lia. destruct C as [C|C]; rewrite C in SZ; cbn in SZ; lia. }
  destruct (@pivot_full sym n ic N0 N256 (gv g) (gg_lh G) (gg_nodup G) p Hp ltac:(lia) FX) as [UP FULL].
  destruct (@fac_even (n - 4)) as (m & Em). replace (S (S (n - 4))) with (n - 2) in Em by lia. rewrite Em in *.
  assert (DV : (2 * m / 2 = m)%Z) by (rewrite Z.mul_comm; now apply Z.div_mul). rewrite DV in *.
  assert (F : (2 * m <= (if ic then 2 else 1) * size)%Z).
  { destruct ic eqn:I; [destruct SZ as [-> | ->]; lia|]. specialize (D eq_refl). destruct SZ as [-> | SZ]; [lia|]. exfalso. rewrite Nat2Z.inj_div in D. change (Z.of_nat 2) with 2%Z in D. fold size in D. rewrite SZ in D.
    pose proof (Z.div_lt_upper_bound m 2 m). lia. }
  apply closed_by with (K := fun x => act x p = p); [exact FX|exact (FULL F)|].
  intros h h' Lh Lh'. assert (Bi := inv_b N256 (proj1 Lh)). rewrite act_comp by apply Lh'. destruct Bi as (Bi & I1 & I2). split.
  - intros <-. rewrite <- act_comp by apply Lh. now rewrite I2, act_id.
  - intros X. rewrite <- X at 1. rewrite <- act_comp by apply Bi. now rewrite I1, act_id.
Qed.

Lemma swaps_ok p q : d_swaps (describe_splice g) = Some (p, q) -> ic = true -> Z.of_nat (d_leads (describe_splice g)) = (fac (n - 3) / 2)%Z ->
  1 <= p < q /\ q < n /\ forall S, splice sym n ic (mch a) (mch b) S <-> (forall h, S h = true -> LH h) /\
    (forall h h', LH h -> LH h' -> (act h p = act h' p /\ act h q = act h' q) \/ (act h p = act h' q /\ act h q = act h' p) -> S h = S h').
Proof.
  assert (N0 : 0 < n) by lia. assert (N256 : n <= 256) by lia.
  intros E I D. rewrite lead_count in D. unfold describe_splice in E. cbn [d_swaps] in E. rewrite (gg_n G), f2_is in E. set (size := Z.of_nat (length (gv g))) in *.
  destruct (Z.ltb_spec 2 size) as [S2|]; [|discriminate E]. cbn [andb] in E.
  assert (SZ : (size = fac (n - 3) \/ size = Z.quot (fac (n - 3)) 2)%Z) by (destruct (Z.eqb_spec size (fac (n - 3))) as [X1|X1]; [now left|]; destruct (Z.eqb_spec size (Z.quot (fac (n - 3)) 2)) as [X2|X2]; [now right|discriminate E]).
  destruct (_ || _); [|discriminate E]. destruct (get_swapping_pair g) as [[u v]|] eqn:Gp; [|discriminate E]. destruct (_ || _); [discriminate E|]. injection E as -> ->.
  apply find_some in Gp as [Ip Fp]. apply in_flat_map in Ip as (x & Hx & Ip). apply in_map_iff in Ip as (y & Exy & Hy). injection Exy as -> ->. apply in_seq in Hx. apply in_seq in Hy. rewrite (gg_n G) in Hx, Hy.
  split; [lia|]. split; [lia|].
  assert (FX : forall x, In x (gv g) -> keeps_pair p q x).
  { intros x Hx'. rewrite forallb_forall in Fp. specialize (Fp x Hx'). assert (Bx : row_b n x) by apply (gg_lh G Hx'). rewrite !act_nth in Fp by (auto; lia). unfold keeps_pair.
    destruct (Nat.eqb_spec (act x p) p) as [X1|X1], (Nat.eqb_spec (act x q) q) as [X2|X2], (Nat.eqb_spec (act x p) q) as [X3|X3], (Nat.eqb_spec (act x q) p) as [X4|X4]; cbn in Fp; try discriminate Fp; intuition congruence. }
  rewrite Z.quot_div_nonneg in SZ by (try (pose proof (fac_pos (n - 3))); lia).
  assert (N6 : 6 <= n). { destruct (Nat.lt_ge_cases n 6) as [X|X]; [|exact X]. assert (C : n = 3 \/ n = 4 \/ n = 5) by lia. destruct C as [C|[C|C]]; rewrite C in SZ; cbn in SZ; lia. }
  destruct (@fac_even (n - 5)) as (m & Em). replace (S (S (n - 5))) with (n - 3) in Em by lia.
  assert (F : (fac (n - 3) <= size)%Z).
  { rewrite Em in *. assert (DV : (2 * m / 2 = m)%Z) by (rewrite Z.mul_comm; now apply Z.div_mul). rewrite DV in *. destruct SZ as [-> | SZ]; [lia|]. exfalso. rewrite Nat2Z.inj_div in D. change (Z.of_nat 2) with 2%Z in D. fold size in D. rewrite SZ in D.
    pose proof (Z.div_lt_upper_bound m 2 m). lia. }
  apply closed_by with (K := keeps_pair p q) (same := fun h h' => (act h p = act h' p /\ act h q = act h' q) \/ (act h p = act h' q /\ act h q = act h' p)); [exact FX| |].
  { apply (@swaps_full sym n ic N0 N256 (gv g) (gg_lh G) (gg_nodup G) p q I); try lia; auto. }
  intros h h' Lh Lh'. destruct (inv_b N256 (proj1 Lh)) as (Bi & I1 & I2).
  assert (Q : forall u v, act h u = act h' v <-> act (comp (inv h) h') v = u).
  { intros u v. rewrite act_comp by apply Lh'. split; [intros <-; rewrite <- act_comp by apply Lh; now rewrite I2, act_id|]. intros <-. rewrite <- act_comp by apply Bi. now rewrite I1, act_id. }
  unfold keeps_pair. rewrite !Q. tauto.
Qed.
End Pair.
