(* P_Named.v - named rows, and recognising plain bob lead heads. *)
From Verif Require Import Base M_Bell M_Change M_Math M_Row Spec_Row Spec_Change P_Row P_Change P_Change2.
From Coq Require Import ZifyBool ZifyNat.
Set Implicit Arguments.
Unset Strict Implicit.
Open Scope nat_scope.
Local Ltac Zify.zify_post_hook ::= Z.div_mod_to_equations.

Lemma filter_even_seq n : filter Nat.even (seq 0 n) = map (fun i => 2 * i) (seq 0 ((n + 1) / 2)).
Proof.
  induction n as [|n IH]; [reflexivity|]. rewrite seq_S, filter_app, IH, Nat.add_0_l. cbn [filter].
  destruct (Nat.even n) eqn:E.
  - apply Nat.even_spec in E. destruct E as [k ->].
    replace ((S (2 * k) + 1) / 2) with (S k) by lia. replace ((2 * k + 1) / 2) with k by lia.
    rewrite seq_S, map_app. reflexivity.
  - rewrite app_nil_r. assert (O : Nat.odd n = true) by (unfold Nat.odd; now rewrite E).
    apply Nat.odd_spec in O. destruct O as [k ->]. do 2 f_equal. lia.
Qed.

Lemma filter_odd_seq n : filter Nat.odd (seq 0 n) = map (fun i => 2 * i + 1) (seq 0 (n / 2)).
Proof.
  induction n as [|n IH]; [reflexivity|]. rewrite seq_S, filter_app, IH, Nat.add_0_l. cbn [filter].
  destruct (Nat.odd n) eqn:O.
  - apply Nat.odd_spec in O. destruct O as [k ->].
    replace (S (2 * k + 1) / 2) with (S k) by lia. replace ((2 * k + 1) / 2) with k by lia.
    rewrite seq_S, map_app. reflexivity.
  - rewrite app_nil_r. assert (E : Nat.even n = true).
    { rewrite <- (negb_involutive (Nat.even n)), Nat.negb_even, O. reflexivity. }
    apply Nat.even_spec in E. destruct E as [k ->]. do 2 f_equal. lia.
Qed.

Lemma filter_split A (p q : A -> bool) l : (forall x, q x = negb (p x)) ->
  Permutation (filter p l ++ filter q l) l.
Proof.
  intros H. induction l as [|a l IH]; [constructor|]. cbn [filter]. rewrite H.
  destruct (p a); cbn [negb app]; [now constructor|].
  apply Permutation_sym, Permutation_cons_app, Permutation_sym, IH.
Qed.

Lemma parity_split n : Permutation (filter Nat.even (seq 0 n) ++ filter Nat.odd (seq 0 n)) (seq 0 n).
Proof. apply filter_split. intros x. now rewrite Nat.negb_even. Qed.

(* A loop writing f i at g i for a <= i < b *)
Lemma forN_fill (g f : nat -> nat) a b (v : row) : 
  (forall i, a <= i < b -> g i < length v) ->
  (forall i j, a <= i < b -> a <= j < b -> g i = g j -> i = j) ->
  exists w, forN a b (fun v i => vset v (g i) (f i)) v = Ret w /\ length w = length v /\
    (forall i, a <= i < b -> nth (g i) w 0 = f i) /\
    (forall j, (forall i, a <= i < b -> g i <> j) -> nth j w 0 = nth j v 0).
Proof.
  intros H1 H2. unfold forN.
  destruct (@forM_vset nat nat (seq a (b - a)) g f v 0) as (w & E & L & A & B).
  - intros x Hx. apply in_seq in Hx. apply H1. lia.
  - apply NoDup_map_inj; [|apply seq_NoDup]. intros x y Hx Hy. apply in_seq in Hx, Hy. apply H2; lia.
  - exists w. split; [exact E|]. split; [exact L|]. split.
    + intros i Hi. apply A. apply in_seq. lia.
    + intros j Hj. apply B. rewrite in_map_iff. intros (i & E' & Hi). apply in_seq in Hi.
      apply (Hj i); [lia|exact E'].
Qed.

Lemma nth_map_seq (f : nat -> nat) a k i : i < k -> nth i (map f (seq a k)) 0 = f (a + i).
Proof.
  intros H. rewrite (nth_indep _ 0 (f 0)) by (now rewrite map_length, seq_length).
  rewrite map_nth, seq_nth by exact H. reflexivity.
Qed.

Lemma queens_spec n : n <= 256 ->
  queens n = Ret (filter Nat.even (seq 0 n) ++ filter Nat.odd (seq 0 n)).
Proof.
  intros Hn. unfold queens. destruct (Nat.leb_spec n 2) as [H|H].
  { destruct n as [|[|[|]]]; try lia; reflexivity. }
  set (half := if n mod 2 =? 1 then (n + 1) / 2 else n / 2).
  assert (Hh : half = (n + 1) / 2) by (unfold half; destruct (Nat.eqb_spec (n mod 2) 1); lia).
  destruct (@forN_fill (fun i => i) (fun i => b8 (i * 2)) 0 (half + 1) (rounds n)) as (w & E & L & A & B);
    [intros; rewrite rounds_length; lia|auto|]. rewrite E. cbn [bind].
  rewrite rounds_length in L.
  destruct (@forN_fill (fun i => i + half) (fun i => b8 (i * 2 + 1)) 0 (n / 2) w) as (z & Ez & Lz & Az & Bz);
    [intros; lia|intros; lia|]. rewrite Ez. f_equal.
  rewrite filter_even_seq, filter_odd_seq, <- Hh.
  apply (@nth_ext_d _ _ _ 0).
  - rewrite app_length, !map_length, !seq_length. lia.
  - intros i Hi. destruct (lt_dec i half) as [Hl|Hl].
    + rewrite app_nth1 by (rewrite map_length, seq_length; lia). rewrite nth_map_seq by lia.
      rewrite Bz by (intros; lia). rewrite A by lia. rewrite b8_small; lia.
    + rewrite app_nth2 by (rewrite map_length, seq_length; lia). rewrite map_length, seq_length.
      rewrite nth_map_seq by lia.
      replace i with ((i - half) + half) at 1 by lia. rewrite Az by lia. rewrite b8_small; lia.
Qed.

Lemma kings_spec n : n <= 256 ->
  kings n = Ret (if n <=? 2 then seq 0 n else rev (filter Nat.even (seq 0 n)) ++ filter Nat.odd (seq 0 n)).
Proof.
  intros Hn. unfold kings. destruct (Nat.leb_spec n 2) as [H|H].
  { destruct n as [|[|[|]]]; try lia; reflexivity. }
  set (half := if n mod 2 =? 1 then (n + 1) / 2 else n / 2).
  assert (Hh : half = (n + 1) / 2) by (unfold half; destruct (Nat.eqb_spec (n mod 2) 1); lia).
  destruct (@forN_fill (fun i => i) (fun i => zb8 (Z.of_nat half * 2 - Z.of_nat i * 2 - 2)%Z) 0 (half + 1) (rounds n))
    as (w & E & L & A & B);
    [intros; rewrite rounds_length; lia|auto|]. rewrite E. cbn [bind].
  rewrite rounds_length in L.
  destruct (@forN_fill (fun i => i + half) (fun i => b8 (i * 2 + 1)) 0 (n / 2) w) as (z & Ez & Lz & Az & Bz);
    [intros; lia|intros; lia|]. rewrite Ez. f_equal.
  rewrite filter_even_seq, filter_odd_seq, <- Hh.
  apply (@nth_ext_d _ _ _ 0).
  - rewrite app_length, rev_length, !map_length, !seq_length. lia.
  - intros i Hi. destruct (lt_dec i half) as [Hl|Hl].
    + rewrite app_nth1 by (rewrite rev_length, map_length, seq_length; lia).
      rewrite rev_nth by (rewrite map_length, seq_length; lia). rewrite map_length, seq_length.
      rewrite nth_map_seq by lia.
      rewrite Bz by (intros; lia). rewrite A by lia. unfold zb8. rewrite Z.mod_small by lia. lia.
    + rewrite app_nth2 by (rewrite rev_length, map_length, seq_length; lia). rewrite rev_length, map_length, seq_length.
      rewrite nth_map_seq by lia.
      replace i with ((i - half) + half) at 1 by lia. rewrite Az by lia. rewrite b8_small; lia.
Qed.

(* the counter of tittums *)
Lemma counter_loop (g : nat -> nat) k a v j :
  forM (seq a k) (fun '(r, j) i => r <- vset r (g i) (b8 j) ;; Ret (r, S j)) (v, j) =
  bind (forM (seq a k) (fun r i => vset r (g i) (b8 (j + (i - a)))) v) (fun r => Ret (r, j + k)).
Proof.
  revert a v j; induction k as [|k IH]; intros a v j; cbn [seq forM bind]; [now rewrite Nat.add_0_r|].
  rewrite Nat.sub_diag, Nat.add_0_r.
  destruct (vset v (g a) (b8 j)) as [v'| | |]; cbn [bind]; auto.
  rewrite IH. f_equal.
  - apply forM_ext. intros s x Hx. apply in_seq in Hx. do 2 f_equal. lia.
  - replace (S j + k) with (j + S k) by lia. reflexivity.
Qed.

Lemma tittums_spec n : n <= 256 ->
  exists r, tittums n = Ret r /\ length r = n /\
    (forall k, 2 * k < n -> act r (2 * k) = k) /\
    (forall k, 2 * k + 1 < n -> act r (2 * k + 1) = (n + 1) / 2 + k).
Proof.
  intros Hn. unfold tittums, forN. rewrite !Nat.sub_0_r.
  rewrite (counter_loop (fun k => 2 * k)).
  destruct (@forN_fill (fun k => 2 * k) (fun i => b8 (0 + (i - 0))) 0 ((n + 1) / 2) (rounds n)) as (w & E & L & A & B);
    [intros; rewrite rounds_length; lia|intros; lia|]. 
  unfold forN in E. rewrite Nat.sub_0_r in E. rewrite E. cbn [bind]. rewrite rounds_length in L.
  rewrite (counter_loop (fun k => 2 * k + 1)).
  destruct (@forN_fill (fun k => 2 * k + 1) (fun i => b8 (0 + (n + 1) / 2 + (i - 0))) 0 (n / 2) w) as (z & Ez & Lz & Az & Bz);
    [intros; lia|intros; lia|].
  unfold forN in Ez. rewrite Nat.sub_0_r in Ez. rewrite Ez. cbn [bind].
  exists z. split; [reflexivity|]. split; [lia|]. split.
  - intros k Hk. rewrite (@act_nth _ _ 0) by lia. rewrite Bz by (intros; lia). rewrite A by lia.
    rewrite b8_small; lia.
  - intros k Hk. rewrite (@act_nth _ _ 0) by lia. rewrite Az by lia. rewrite b8_small; lia.
Qed.

Lemma reverse_rounds_spec n : n <= 256 -> reverse_rounds n = Ret (rev (seq 0 n)).
Proof.
  intros Hn. unfold reverse_rounds.
  destruct (@forN_fill (fun i => i) (fun i => b8 (n - i - 1)) 0 n (rounds n)) as (w & E & L & A & B);
    [intros; rewrite rounds_length; lia|auto|]. rewrite E. f_equal. rewrite rounds_length in L.
  apply (@nth_ext_d _ _ _ 0); [rewrite rev_length, seq_length; lia|].
  intros i Hi. rewrite A by lia. rewrite rev_nth by (rewrite seq_length; lia).
  rewrite seq_length, seq_nth by lia. rewrite b8_small; lia.
Qed.

Lemma reverse_rounds3_spec nw nh nt : (nt = 0 \/ nh + nw <= nt) -> nh + nw <= 256 -> nt <= 256 ->
  reverse_rounds3 nw nh nt =
  Ret (seq 0 nh ++ rev (seq nh nw) ++ seq (nh + nw) ((if nt =? 0 then nh + nw else nt) - (nh + nw))).
Proof.
  intros H0 H1 H2. unfold reverse_rounds3. set (m := if nt =? 0 then nh + nw else nt).
  assert (Hm : nh + nw <= m <= 256) by (unfold m; destruct (Nat.eqb_spec nt 0); lia).
  destruct (@forN_fill (fun i => i) b8 0 nh (rounds m)) as (w & E & L & A & B);
    [intros; rewrite rounds_length; lia|auto|]. rewrite E. cbn [bind]. rewrite rounds_length in L.
  destruct (@forN_fill (fun i => i) (fun i => b8 (2 * nh + nw - i - 1)) nh (nh + nw) w) as (z & Ez & Lz & Az & Bz);
    [intros; lia|intros; lia|]. rewrite Ez. f_equal.
  apply (@nth_ext_d _ _ _ 0); [rewrite !app_length, rev_length, !seq_length; lia|].
  intros i Hi. destruct (lt_dec i nh) as [C1|C1].
  - rewrite app_nth1 by (rewrite seq_length; lia). rewrite seq_nth by lia.
    rewrite Bz by (intros; lia). rewrite A by lia. apply b8_small. lia.
  - rewrite app_nth2 by (rewrite seq_length; lia). rewrite seq_length.
    destruct (lt_dec i (nh + nw)) as [C2|C2].
    + rewrite app_nth1 by (rewrite rev_length, seq_length; lia).
      rewrite rev_nth by (rewrite seq_length; lia). rewrite seq_length, seq_nth by lia.
      rewrite Az by lia. rewrite b8_small; lia.
    + rewrite app_nth2 by (rewrite rev_length, seq_length; lia). rewrite rev_length, seq_length, seq_nth by lia.
      rewrite Bz by (intros; lia). rewrite B by (intros; lia).
      rewrite rounds_id by lia. unfold id_row. rewrite seq_nth by lia. lia.
Qed.

Lemma reverse_rounds3_short nw nh nt : nt <> 0 -> nh <= nt -> nt < nh + nw -> nh + nw <= 256 -> reverse_rounds3 nw nh nt = UB.
Proof.
  intros H0 H1 H2 H3. unfold reverse_rounds3. destruct (Nat.eqb_spec nt 0); [lia|].
  destruct (@forN_fill (fun i => i) b8 0 nh (rounds nt)) as (w & E & L & A & B);
    [intros; rewrite rounds_length; lia|auto|]. rewrite E. cbn [bind]. rewrite rounds_length in L.
  unfold forN. replace (seq nh (nh + nw - nh)) with (seq nh (nt - nh) ++ seq nt (nh + nw - nt)).
  2:{ replace (nh + nw - nh) with ((nt - nh) + (nh + nw - nt)) by lia. rewrite seq_app. do 2 f_equal. lia. }
  rewrite forM_app.
  destruct (@forN_fill (fun i => i) (fun i => b8 (2 * nh + nw - i - 1)) nh nt w) as (z & Ez & Lz & Az & Bz);
    [intros; lia|intros; lia|].
  unfold forN in Ez. rewrite Ez. cbn [bind].
  destruct (nh + nw - nt) as [|k] eqn:Q; [lia|]. cbn [seq forM].
  unfold vset. destruct (Nat.ltb_spec nt (length z)); [lia|]. reflexivity.
Qed.

Local Ltac Zify.zify_post_hook ::= idtac.

Lemma nth_skipn_nat (l : list nat) k i : nth i (skipn k l) 0 = nth (k + i) l 0.
Proof.
  revert l; induction k as [|k IH]; intros l; [reflexivity|]. destruct l as [|a l]; [destruct i; reflexivity|].
  cbn [skipn Nat.add nth]. apply IH.
Qed.
Lemma nth_firstn_nat (l : list nat) k i : i < k -> nth i (firstn k l) 0 = nth i l 0.
Proof.
  revert l i; induction k as [|k IH]; intros l i H; [lia|]. destruct l as [|a l]; [reflexivity|].
  destruct i; [reflexivity|]. cbn [firstn nth]. apply IH. lia.
Qed.

Lemma cyclic_spec n h c : n <= 256 ->
  length (cyclic n h c) = n /\
  forall i, act (cyclic n h c) i =
    if (h <=? i) && (i <? n) then h + Z.to_nat ((Z.of_nat (i - h) + c) mod Z.of_nat (n - h)) else i.
Proof.
  intros Hn. unfold cyclic. destruct (Nat.ltb_spec h n) as [H|H].
  2:{ rewrite rounds_id by lia. split; [apply id_length|]. intros i. rewrite act_id.
      destruct (Nat.leb_spec h i), (Nat.ltb_spec i n); cbn [andb]; auto; lia. }
  set (m := Z.of_nat (n - h)).
  set (k := Z.to_nat (if (Z.rem c m <? 0)%Z then (Z.rem c m + m)%Z else Z.rem c m)).
  assert (Hk : Z.of_nat k = (c mod m)%Z).
  { assert (Hm : (0 < m)%Z) by (unfold m; lia).
    assert (M := Z.mod_pos_bound c m Hm).
    assert (E : (if (Z.rem c m <? 0)%Z then (Z.rem c m + m)%Z else Z.rem c m) = (c mod m)%Z).
    { destruct (Z_lt_le_dec c 0) as [Hc|Hc].
      - assert (Hr : (Z.rem c m <= 0 /\ - m < Z.rem c m)%Z).
        { assert (RB := Z.rem_bound_abs c m ltac:(lia)). assert (RN := Z.rem_nonpos c m ltac:(lia) ltac:(lia)). lia. }
        assert (Q : exists q, c = (m * q + Z.rem c m)%Z) by (exists (Z.quot c m); apply Z.quot_rem; clear - Hm; lia).
        destruct Q as (q & Q).
        destruct (Z.ltb_spec (Z.rem c m) 0).
        + apply (Z.mod_unique_pos c m (q - 1)); [lia|]. lia.
        + apply (Z.mod_unique_pos c m q); lia.
      - rewrite Z.rem_mod_nonneg by lia. destruct (Z.ltb_spec (c mod m) 0); lia. }
    unfold k. rewrite E. lia. }
  clearbody k. rewrite rounds_id by lia. unfold id_row.
  assert (Hkm : k < n - h) by (assert (M := Z.mod_pos_bound c m ltac:(unfold m; lia)); unfold m in *; lia).
  assert (Len : length (firstn h (seq 0 n) ++ skipn k (skipn h (seq 0 n)) ++ firstn k (skipn h (seq 0 n))) = n).
  { rewrite !app_length, !firstn_length, !skipn_length, seq_length. lia. }
  split; [exact Len|]. intros i.
  destruct (Nat.ltb_spec i n) as [Hi|Hi]; [|rewrite andb_false_r; apply act_ge; lia].
  rewrite (@act_nth _ _ 0) by lia. rewrite andb_true_r.
  assert (L1 : length (firstn h (seq 0 n)) = h) by (rewrite firstn_length, seq_length; lia).
  destruct (Nat.leb_spec h i) as [Hhi|Hhi].
  - rewrite app_nth2 by lia. rewrite L1.
    assert (L2 : length (skipn k (skipn h (seq 0 n))) = n - h - k) by (rewrite !skipn_length, seq_length; lia).
    destruct (lt_dec (i - h) (n - h - k)) as [C|C].
    + rewrite app_nth1 by lia. rewrite !nth_skipn_nat, seq_nth by lia.
      replace ((Z.of_nat (i - h) + c) mod m)%Z with (Z.of_nat (i - h) + Z.of_nat k)%Z; [lia|].
      rewrite <- Z.add_mod_idemp_r by (unfold m; lia). rewrite <- Hk. symmetry. apply Z.mod_small. unfold m. lia.
    + rewrite app_nth2 by lia. rewrite L2. rewrite nth_firstn_nat by lia. rewrite nth_skipn_nat, seq_nth by lia.
      replace ((Z.of_nat (i - h) + c) mod m)%Z with (Z.of_nat (i - h) + Z.of_nat k - m)%Z; [unfold m in *; lia|].
      rewrite <- Z.add_mod_idemp_r by (unfold m; lia). rewrite <- Hk.
      apply (Z.mod_unique_pos _ m 1); unfold m in *; lia.
  - rewrite app_nth1 by lia. rewrite nth_firstn_nat by lia. rewrite seq_nth; lia.
Qed.

Lemma cyclic_is_row n h c : n <= 256 -> row256 (cyclic n h c).
Proof.
  intros Hn. destruct (cyclic_spec h c Hn) as [L A]. split; [|lia].
  apply act_bij_is_row; rewrite L.
  - intros i j Hi Hj. rewrite !A.
    destruct (Nat.ltb_spec i n); [|lia]. destruct (Nat.ltb_spec j n); [|lia]. rewrite !andb_true_r.
    set (m := Z.of_nat (n - h)).
    destruct (Nat.leb_spec h i), (Nat.leb_spec h j).
    + assert (Hm : (0 < m)%Z) by (unfold m; lia).
      assert (M1 := Z.mod_pos_bound (Z.of_nat (i - h) + c) m Hm).
      assert (M2 := Z.mod_pos_bound (Z.of_nat (j - h) + c) m Hm).
      intros E. assert (E' : ((Z.of_nat (i - h) + c) mod m = (Z.of_nat (j - h) + c) mod m)%Z) by lia.
      assert (D1 := Z.div_mod (Z.of_nat (i - h) + c) m ltac:(lia)).
      assert (D2 := Z.div_mod (Z.of_nat (j - h) + c) m ltac:(lia)).
      rewrite E' in D1. set (q1 := ((Z.of_nat (i - h) + c) / m)%Z) in *. set (q2 := ((Z.of_nat (j - h) + c) / m)%Z) in *.
      assert (q1 = q2) by (unfold m in *; nia). subst q1. lia.
    + lia.
    + lia.
    + auto.
  - intros i Hi. rewrite A. destruct (Nat.ltb_spec i n); [|lia]. rewrite andb_true_r.
    destruct (Nat.leb_spec h i); [|lia].
    assert (M1 := Z.mod_pos_bound (Z.of_nat (i - h) + c) (Z.of_nat (n - h)) ltac:(lia)). lia.
Qed.

Local Ltac Zify.zify_post_hook ::= Z.div_mod_to_equations.

(* --- plain bob lead heads --- *)
Lemma swappair_append l n w : (forall s, In s l -> s + 2 <= w) -> w + 2 <= n ->
  swappair (mkChange n l) w = Ret (mkChange n (l ++ [w]), true).
Proof.
  intros H Hn. unfold swappair. cbn [cn cswaps]. destruct (Nat.ltb_spec n (w + 2)); [lia|].
  assert (G : forall rest pre, (forall s, In s rest -> s + 2 <= w) ->
     swappair_loop w pre rest = Ret (pre ++ rest ++ [w], true)).
  { induction rest as [|s rest IH]; intros pre Hr; cbn [swappair_loop]; [reflexivity|].
    assert (s + 2 <= w) by (apply Hr; now left).
    destruct (Nat.leb_spec s (w + 1)); [|lia]. destruct (Nat.eqb_spec s w); [lia|].
    destruct (Nat.eqb_spec (S s) w); [lia|]. destruct (Nat.eqb_spec s (w + 1)); [lia|].
    rewrite IH by (intros; apply Hr; now right). rewrite <- app_assoc. reflexivity. }
  rewrite G by exact H. reflexivity.
Qed.

Lemma evens_in k b s : In s (evens k b) <-> exists j, j < k /\ s = b + 2 * j.
Proof.
  revert b; induction k as [|k IH]; intros b; cbn [evens In].
  - split; [tauto|]. intros (j & H & _). lia.
  - rewrite IH. split.
    + intros [<-|(j & H & ->)]; [exists 0; lia|]. exists (S j). lia.
    + intros (j & H & ->). destruct j as [|j]; [left; lia|]. right. exists j. lia.
Qed.

Lemma pair_swaps_spec n i : n <= 256 -> pair_swaps n i = Ret (mkChange n (pairs_between i n)).
Proof.
  intros Hn. unfold pair_swaps, pairs_between, change_empty.
  assert (G : forall k, k <= (n - i) / 2 ->
    forM (map (fun k => i + 2 * k) (seq 0 k)) (fun c i => '(c, _) <- swappair c (b8 i) ;; Ret c) (mkChange n [])
    = Ret (mkChange n (evens k i))).
  { induction k as [|k IH]; intros Hk; [reflexivity|].
    rewrite seq_S, map_app, forM_app, IH by lia. cbn [bind map forM Nat.add].
    rewrite b8_small by lia. rewrite swappair_append.
    - cbn [bind]. now rewrite evens_snoc.
    - intros s Hs. apply evens_in in Hs. destruct Hs as (j & Hj & ->). lia.
    - lia. }
  now apply G.
Qed.

Lemma swap_pos_between h n i :
  swap_pos (pairs_between h n) i =
  if i <? h then i
  else if Nat.even (i - h) then (if i + 1 <? n then i + 1 else i)
  else if i <? n then i - 1
  else if (i - h) mod 2 =? 1 then (if i - 1 <? n - 1 then i - 1 else i) else i.
Proof.
  assert (I : forall s, In s (pairs_between h n) <-> h <= s /\ s + 1 < n /\ Nat.even (s - h) = true).
  { intros s. unfold pairs_between. rewrite evens_in. split.
    - intros (j & H & ->). split; [lia|]. split; [lia|]. apply Nat.even_spec. exists j. lia.
    - intros (H1 & H2 & H3). apply Nat.even_spec in H3. destruct H3 as [j Hj]. exists j. lia. }
  unfold swap_pos. destruct (in_dec Nat.eq_dec i (pairs_between h n)) as [H|H].
  - apply I in H. destruct H as (H1 & H2 & H3). rewrite H3.
    destruct (Nat.ltb_spec i h); [lia|]. destruct (Nat.ltb_spec (i + 1) n); [reflexivity|lia].
  - destruct (in_dec Nat.eq_dec (i - 1) (pairs_between h n)) as [H'|H'].
    + apply I in H'. destruct H' as (H1 & H2 & H3).
      destruct (Nat.eqb_spec i 0) as [->|Hi].
      { exfalso. apply H. apply I. cbn in *. auto. }
      destruct (Nat.ltb_spec i h); [exfalso; lia|].
      destruct (Nat.even (i - h)) eqn:E.
      { exfalso. apply Nat.even_spec in H3, E. destruct H3 as [a Ha], E as [b Hb].
        assert (i = h) by lia. subst i. apply H. apply I. rewrite Nat.sub_diag. repeat split; lia. }
      destruct (Nat.ltb_spec i n); [reflexivity|lia].
    + destruct (Nat.ltb_spec i h); [reflexivity|].
      destruct (Nat.even (i - h)) eqn:E.
      * destruct (Nat.ltb_spec (i + 1) n); [|reflexivity]. exfalso. apply H. apply I. auto.
      * assert (O : Nat.odd (i - h) = true) by (unfold Nat.odd; now rewrite E).
        apply Nat.odd_spec in O. destruct O as [k Hk].
        destruct (Nat.ltb_spec i n).
        -- exfalso. apply H'. apply I. repeat split; try lia. apply Nat.even_spec. exists k. lia.
        -- destruct (Nat.eqb_spec ((i - h) mod 2) 1); [|lia].
           destruct (Nat.ltb_spec (i - 1) (n - 1)); [|reflexivity]. lia.
Qed.

(* The plain bob lead head, on the m working bells numbered from 0: place 0 has
   bell 1, even places j > 0 have bell j-2, odd places have bell j+2, turning
   round at the back. *)
Definition pb (m j : nat) : nat :=
  if m <=? j then j else if m <? 2 then j
  else if j =? 0 then 1
  else if Nat.even j then j - 2
  else if j + 2 <? m then j + 2
  else if j + 1 <? m then j + 1 else j - 1.

Lemma pblh_spec n h : n <= 256 ->
  exists r, pblh n h = Ret r /\ row256 r /\ length r = n /\
    forall i, act r i = if i <? h then i else h + pb (n - h) (i - h).
Proof.
  intros Hn. unfold pblh. rewrite !pair_swaps_spec by exact Hn. cbn [bind].
  assert (W : forall k, wf_change (mkChange n (pairs_between k n))).
  { intros k. unfold wf_change. cbn [cn cswaps]. eapply pairs_ok_weaken; [|apply pairs_ok_between]. lia. }
  destruct (@row_mul_change_spec (rounds n) _ (proj1 (rounds_row256 Hn)) (W h) Hn) as (r1 & E1 & R1 & L1 & A1).
  rewrite E1. cbn [bind]. 
  destruct (@row_mul_change_spec r1 _ R1 (W (h + 1)) Hn) as (r2 & E2 & R2 & L2 & A2).
  exists r2. split; [exact E2|]. split; [exact R2|].
  rewrite rounds_length in L1. cbn [cn] in *. split; [lia|]. intros i.
  rewrite A2, A1, rounds_id, act_id by lia. cbn [cswaps]. unfold pb.
  rewrite (swap_pos_between (h + 1) n i).
  destruct (Nat.ltb_spec i h).
  - destruct (Nat.ltb_spec i (h + 1)); [|lia]. rewrite swap_pos_between.
    destruct (Nat.ltb_spec i h); [reflexivity|lia].
  - assert (X : exists j, i = h + j) by (exists (i - h); lia). destruct X as (j & ->).
    replace (h + j - h) with j by lia.
    destruct (Nat.ltb_spec (h + j) (h + 1)) as [J0|J0].
    { assert (J : j = 0) by lia. subst j. rewrite Nat.add_0_r. rewrite swap_pos_between.
      rewrite Nat.sub_diag. destruct (Nat.ltb_spec h h); [lia|]. cbn [Nat.even].
      destruct (Nat.ltb_spec (h + 1) n), (Nat.leb_spec (n - h) 0), (Nat.ltb_spec (n - h) 2); cbn [Nat.eqb]; lia. }
    destruct (Nat.eqb_spec j 0) as [|J1]; [lia|].
    assert (P : Nat.even (h + j - (h + 1)) = negb (Nat.even j)).
    { replace (h + j - (h + 1)) with (j - 1) by lia. rewrite <- (Nat.sub_add 1 j) at 2 by lia.
      rewrite Nat.add_1_r, Nat.even_succ, <- Nat.negb_even, negb_involutive. reflexivity. }
    rewrite P. destruct (Nat.even j) eqn:Ej; cbn [negb].
    + (* even, > 0 *)
      destruct (Nat.even_spec j) as [Q _]. destruct (Q Ej) as [k Hk].
      destruct (Nat.ltb_spec (h + j) n).
      * replace (h + j - 1) with (h + (j - 1)) by lia. rewrite swap_pos_between.
        destruct (Nat.ltb_spec (h + (j - 1)) h); [lia|].
        replace (h + (j - 1) - h) with (j - 1) by lia.
        assert (Nat.even (j - 1) = false).
        { destruct (Nat.even (j - 1)) eqn:Z; auto. apply Nat.even_spec in Z. destruct Z. lia. }
        rewrite H2. destruct (Nat.ltb_spec (h + (j - 1)) n); [|lia].
        destruct (Nat.leb_spec (n - h) j); [lia|]. destruct (Nat.ltb_spec (n - h) 2); [lia|]. lia.
      * assert (Q1 : (if (h + j - (h + 1)) mod 2 =? 1 then (if h + j - 1 <? n - 1 then h + j - 1 else h + j) else h + j) = h + j).
        { destruct (Nat.eqb_spec ((h + j - (h + 1)) mod 2) 1); [|reflexivity].
          destruct (Nat.ltb_spec (h + j - 1) (n - 1)); [lia|reflexivity]. }
        rewrite Q1, swap_pos_between. destruct (Nat.ltb_spec (h + j) h); [lia|].
        replace (h + j - h) with j by lia. rewrite Ej.
        destruct (Nat.ltb_spec (h + j + 1) n); [lia|].
        destruct (Nat.leb_spec (n - h) j); [lia|]. lia.
    + (* odd *)
      assert (O : Nat.odd j = true) by (unfold Nat.odd; now rewrite Ej).
      apply Nat.odd_spec in O. destruct O as [k Hk].
      destruct (Nat.ltb_spec (h + j + 1) n).
      * rewrite swap_pos_between. destruct (Nat.ltb_spec (h + j + 1) h); [lia|].
        replace (h + j + 1 - h) with (j + 1) by lia.
        assert (Nat.even (j + 1) = true) by (apply Nat.even_spec; exists (k + 1); lia).
        rewrite H2. destruct (Nat.ltb_spec (h + j + 1 + 1) n), (Nat.leb_spec (n - h) j), (Nat.ltb_spec (n - h) 2),
          (Nat.ltb_spec (j + 2) (n - h)), (Nat.ltb_spec (j + 1) (n - h)); lia.
      * rewrite swap_pos_between. destruct (Nat.ltb_spec (h + j) h); [lia|].
        replace (h + j - h) with j by lia. rewrite Ej.
        destruct (Nat.ltb_spec (h + j) n).
        -- destruct (Nat.leb_spec (n - h) j), (Nat.ltb_spec (n - h) 2),
          (Nat.ltb_spec (j + 2) (n - h)), (Nat.ltb_spec (j + 1) (n - h)); lia.
        -- destruct (Nat.leb_spec (n - h) j); [|lia].
           destruct (Nat.eqb_spec (j mod 2) 1); [|reflexivity].
           destruct (Nat.ltb_spec (h + j - 1) (n - 1)); lia.
Qed.

(* The orbit of working place 0 under pb visits all m places. *)
Definition pbs (m k : nat) : nat := if 2 * k - 1 <? m then 2 * k - 1 else 2 * (m - k).

Lemma pb_step m k : 2 <= m -> k + 1 < m -> pb m (pbs m k) = pbs m (k + 1).
Proof.
  intros Hm Hk. unfold pbs, pb.
  assert (E : forall a, Nat.even a = (a mod 2 =? 0)).
  { intros a. destruct (Nat.even a) eqn:Q.
    - apply Nat.even_spec in Q. destruct Q as [q ->]. symmetry. apply Nat.eqb_eq. lia.
    - assert (O : Nat.odd a = true) by (unfold Nat.odd; now rewrite Q).
      apply Nat.odd_spec in O. destruct O as [q ->]. symmetry. apply Nat.eqb_neq. lia. }
  rewrite !E.
  destruct (Nat.ltb_spec (2 * k - 1) m), (Nat.ltb_spec (2 * (k + 1) - 1) m); try lia.
  - destruct (Nat.leb_spec m (2 * k - 1)); [lia|]. destruct (Nat.ltb_spec m 2); [lia|].
    destruct (Nat.eqb_spec (2 * k - 1) 0); [lia|].
    destruct (Nat.eqb_spec ((2 * k - 1) mod 2) 0); [lia|].
    destruct (Nat.ltb_spec (2 * k - 1 + 2) m); lia.
  - destruct (Nat.leb_spec m (2 * k - 1)); [lia|]. destruct (Nat.ltb_spec m 2); [lia|].
    destruct (Nat.eqb_spec (2 * k - 1) 0); [lia|].
    destruct (Nat.eqb_spec ((2 * k - 1) mod 2) 0); [lia|].
    destruct (Nat.ltb_spec (2 * k - 1 + 2) m); [lia|].
    destruct (Nat.ltb_spec (2 * k - 1 + 1) m); lia.
  - destruct (Nat.leb_spec m (2 * (m - k))); [lia|]. destruct (Nat.ltb_spec m 2); [lia|].
    destruct (Nat.eqb_spec (2 * (m - k)) 0); [lia|].
    destruct (Nat.eqb_spec ((2 * (m - k)) mod 2) 0); lia.
Qed.

Lemma pbs_inj m i j : i < m -> j < m -> 2 <= m -> pbs m i = pbs m j -> i = j.
Proof.
  intros Hi Hj Hm. unfold pbs.
  destruct (Nat.ltb_spec (2 * i - 1) m), (Nat.ltb_spec (2 * j - 1) m); lia.
Qed.

Lemma pblh_pow n h r : n <= 256 -> pblh n h = Ret r -> h + 2 <= n ->
  forall k, k < n - h -> act_pow r k h = h + pbs (n - h) k.
Proof.
  intros Hn E Hh. destruct (pblh_spec h Hn) as (r' & E' & _ & _ & A). rewrite E in E'. injection E' as <-.
  induction k as [|k IH]; intros Hk.
  - cbn. unfold pbs. destruct (Nat.ltb_spec (2 * 0 - 1) (n - h)); lia.
  - cbn [act_pow]. rewrite IH by lia. rewrite A.
    destruct (Nat.ltb_spec (h + pbs (n - h) k) h); [lia|].
    replace (h + pbs (n - h) k - h) with (pbs (n - h) k) by lia.
    rewrite pb_step by lia. now rewrite Nat.add_1_r.
Qed.

(* x is the i-th power of the row l *)
Definition is_pow (x l : row) (i : nat) : Prop := length x = length l /\ forall j, act x j = act_pow l i j.

Lemma ispblh_loop_spec l x : row256 l -> forall k i r, row256 r -> is_pow r l i ->
  exists v, ispblh_loop k i x l r = Ret v /\
    (v <> 0 -> i <= v < i + k /\ is_pow x l v) /\
    (v = 0 -> i <> 0 -> forall j, i <= j < i + k -> ~ is_pow x l j) /\
    (forall j, i <= j < v -> ~ is_pow x l j).
Proof.
  intros Rl. induction k as [|k IH]; intros i r Rr [Lr Ar]; cbn [ispblh_loop].
  - exists 0. split; [reflexivity|]. split; [congruence|]. split; intros; lia.
  - unfold row_eqb. destruct (list_eq_dec Nat.eq_dec x r) as [->|Hne].
    + exists i. split; [reflexivity|]. split; [|split].
      * intros _. split; [lia|]. split; auto.
      * congruence.
      * intros; lia.
    + destruct (mul_spec Rr Rl) as (r' & E' & Rr' & Lr' & Ar'). rewrite E'. cbn [bind].
      destruct (IH (S i) r' Rr') as (v & Ev & H1 & H2 & H3).
      { split; [lia|]. intros j. rewrite Ar', Ar. symmetry. apply act_pow_S_r. }
      assert (Hx : ~ is_pow x l i).
      { intros [Lx Ax]. apply Hne. apply row_eq; [lia|]. intros j. now rewrite Ax, Ar. }
      exists v. split; [exact Ev|]. split; [|split].
      * intros Hv. destruct (H1 Hv). split; [lia|auto].
      * intros Hv Hi j Hj. destruct (Nat.eq_dec j i) as [->|]; [exact Hx|]. apply H2; lia.
      * intros j Hj. destruct (Nat.eq_dec j i) as [->|]; [exact Hx|]. apply H3. lia.
Qed.

Lemma ispblh_h_spec x h : row256 x ->
  exists l v, pblh (length x) h = Ret l /\ ispblh_h x h = Ret v /\
    (forall i, 0 < i < length x - h -> (v = i <-> is_pow x l i)) /\
    (v <> 0 -> 0 < v < length x - h).
Proof.
  intros R. assert (Hn : length x <= 256) by apply R.
  destruct (pblh_spec h Hn) as (l & El & Rl & Ll & Al).
  unfold ispblh_h. rewrite El. cbn [bind].
  destruct (@ispblh_loop_spec l x Rl (length x - h - 1) 1 l Rl) as (v & Ev & H1 & H2 & H3).
  { split; auto. }
  exists l, v. split; [reflexivity|]. split; [exact Ev|]. split.
  - intros i Hi. split.
    + intros ->. apply H1. lia.
    + intros P. destruct (Nat.eq_dec v 0) as [Hv|Hv].
      * exfalso. apply (H2 Hv ltac:(lia) i); [lia|exact P].
      * destruct (H1 Hv) as [B [_ P']]. destruct P as [_ P].
        assert (E : act_pow l v h = act_pow l i h) by now rewrite <- P, <- P'.
        rewrite (pblh_pow Hn El) in E by lia. rewrite (pblh_pow Hn El) in E by lia.
        apply (@pbs_inj (length x - h)); lia.
  - intros Hv. destruct (H1 Hv). lia.
Qed.

Lemma leading_fixed_spec x : forall h, 
  h <= leading_fixed h x <= h + length x /\
  (forall i, i < leading_fixed h x - h -> nth i x 0 = h + i) /\
  (leading_fixed h x < h + length x -> nth (leading_fixed h x - h) x 0 <> leading_fixed h x).
Proof.
  induction x as [|b x IH]; intros h; cbn [leading_fixed length].
  - split; [lia|]. split; intros; lia.
  - destruct (Nat.eqb_spec b h) as [->|Hb].
    + destruct (IH (S h)) as (H1 & H2 & H3). split; [lia|]. split.
      * intros [|i] Hi; cbn [nth]; [lia|]. rewrite H2 by lia. lia.
      * intros H. replace (leading_fixed (S h) x - h) with (S (leading_fixed (S h) x - S h)) by lia.
        cbn [nth]. apply H3. lia.
    + split; [lia|]. split; [intros; lia|]. intros _. rewrite Nat.sub_diag. exact Hb.
Qed.

(* ispblh() with the number of hunt bells taken from the row *)
Lemma ispblh_spec x : row256 x -> x <> [] ->
  exists h, h <= length x /\ (forall i, i < h -> act x i = i) /\ (h < length x -> act x h <> h) /\
    ispblh x = if h =? 0 then Ret 0 else ispblh_h x h.
Proof.
  intros R N. exists (leading_fixed 0 x). destruct (leading_fixed_spec x 0) as (H1 & H2 & H3).
  split; [lia|]. split; [|split].
  - intros i Hi. rewrite (@act_nth _ _ 0) by lia. apply H2. lia.
  - intros H. rewrite (@act_nth _ _ 0) by lia. specialize (H3 ltac:(lia)). now rewrite Nat.sub_0_r in H3.
  - destruct x; [congruence|reflexivity].
Qed.

Lemma is_row_filter n : row256 (filter Nat.even (seq 0 n) ++ filter Nat.odd (seq 0 n)) <-> n <= 256.
Proof.
  assert (L : length (filter Nat.even (seq 0 n) ++ filter Nat.odd (seq 0 n)) = n).
  { rewrite (Permutation_length (parity_split n)). apply seq_length. }
  split; [intros [_ H]; lia|]. intros H. split; [|lia]. unfold is_row. rewrite L. apply parity_split.
Qed.

Lemma queens_full n : n <= 256 ->
  exists r, queens n = Ret r /\ row256 r /\ r = filter Nat.even (seq 0 n) ++ filter Nat.odd (seq 0 n).
Proof. intros H. eexists. split; [now apply queens_spec|]. split; [now apply is_row_filter|reflexivity]. Qed.

Lemma kings_full n : 2 < n <= 256 ->
  exists r, kings n = Ret r /\ row256 r /\ r = rev (filter Nat.even (seq 0 n)) ++ filter Nat.odd (seq 0 n).
Proof.
  intros H. eexists. split; [apply kings_spec; lia|]. destruct (Nat.leb_spec n 2); [lia|].
  split; [|reflexivity].
  assert (P : Permutation (rev (filter Nat.even (seq 0 n)) ++ filter Nat.odd (seq 0 n)) (seq 0 n)).
  { eapply Permutation_trans; [|apply parity_split]. apply Permutation_app_tail, Permutation_sym, Permutation_rev. }
  split; [|rewrite (Permutation_length P), seq_length; lia].
  unfold is_row. rewrite (Permutation_length P), seq_length. exact P.
Qed.

Lemma tittums_full n : n <= 256 ->
  exists r, tittums n = Ret r /\ row256 r /\ length r = n /\
    (forall k, 2 * k < n -> act r (2 * k) = k) /\
    (forall k, 2 * k + 1 < n -> act r (2 * k + 1) = (n + 1) / 2 + k).
Proof.
  intros Hn. destruct (tittums_spec Hn) as (r & E & L & A & B). exists r.
  split; [exact E|]. split; [|auto]. split; [|lia].
  assert (F : forall i, i < n -> act r i = if Nat.even i then i / 2 else (n + 1) / 2 + i / 2).
  { intros i Hi. destruct (Nat.even i) eqn:Q.
    - apply Nat.even_spec in Q. destruct Q as [k ->]. rewrite A by lia. lia.
    - assert (O : Nat.odd i = true) by (unfold Nat.odd; now rewrite Q).
      apply Nat.odd_spec in O. destruct O as [k ->]. rewrite B by lia. lia. }
  assert (Ev : forall a, Nat.even a = (a mod 2 =? 0)).
  { intros a. destruct (Nat.even a) eqn:Q.
    - apply Nat.even_spec in Q. destruct Q as [q ->]. symmetry. apply Nat.eqb_eq. lia.
    - assert (O : Nat.odd a = true) by (unfold Nat.odd; now rewrite Q).
      apply Nat.odd_spec in O. destruct O as [q ->]. symmetry. apply Nat.eqb_neq. lia. }
  apply act_bij_is_row; rewrite L.
  - intros i j Hi Hj. rewrite !F by auto. rewrite !Ev.
    destruct (Nat.eqb_spec (i mod 2) 0), (Nat.eqb_spec (j mod 2) 0); lia.
  - intros i Hi. rewrite F by auto. rewrite Ev. destruct (Nat.eqb_spec (i mod 2) 0); lia.
Qed.

Lemma reverse_rounds_full n : n <= 256 ->
  exists r, reverse_rounds n = Ret r /\ row256 r /\ r = rev (seq 0 n).
Proof.
  intros H. eexists. split; [now apply reverse_rounds_spec|]. split; [|reflexivity].
  split; [|rewrite rev_length, seq_length; lia]. unfold is_row. rewrite rev_length, seq_length.
  apply Permutation_sym, Permutation_rev.
Qed.

Lemma reverse_rounds3_full nw nh nt : (nt = 0 \/ nh + nw <= nt) -> nh + nw <= 256 -> nt <= 256 ->
  exists r, reverse_rounds3 nw nh nt = Ret r /\ row256 r /\
    r = seq 0 nh ++ rev (seq nh nw) ++ seq (nh + nw) ((if nt =? 0 then nh + nw else nt) - (nh + nw)).
Proof.
  intros H1 H2 H3. eexists. split; [now apply reverse_rounds3_spec|]. split; [|reflexivity].
  set (m := if nt =? 0 then nh + nw else nt).
  assert (Hm : nh + nw <= m <= 256) by (unfold m; destruct (Nat.eqb_spec nt 0); lia).
  assert (P : Permutation (seq 0 nh ++ rev (seq nh nw) ++ seq (nh + nw) (m - (nh + nw))) (seq 0 m)).
  { replace m with (nh + (nw + (m - (nh + nw)))) at 2 by lia. rewrite seq_app, (seq_app nw).
    apply Permutation_app_head. apply Permutation_app_tail. apply Permutation_sym, Permutation_rev. }
  split; [|rewrite (Permutation_length P), seq_length; lia].
  unfold is_row. rewrite (Permutation_length P), seq_length. exact P.
Qed.
