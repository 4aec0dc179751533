(* P_Dim.v - proofs about dimensions. *)
From Verif Require Import Base M_Bell M_Dim Spec_Dim P_Bell.
Set Implicit Arguments.
Unset Strict Implicit.
Open Scope nat_scope.


Lemma in_int_ok z : in_int z -> as_int z = Ret z.
Proof. intros H. apply as_int_ok. unfold in_int, int_min, int_max in *. lia. Qed.

Lemma quot_abs a b : b <> 0%Z -> (Z.abs (Z.quot a b) <= Z.abs a)%Z.
Proof.
  intros H. rewrite <- Z.quot_abs by exact H. rewrite Z.quot_div_nonneg by lia.
  destruct (Z.eq_dec (Z.abs b) 1) as [->|]; [rewrite Z.div_1_r; lia|].
  apply Z.div_le_upper_bound; [lia|]. nia.
Qed.

Lemma int_quot_ok a b : in_int a -> b <> 0%Z -> int_quot a b = Ret (Z.quot a b).
Proof.
  intros H Hb. unfold int_quot. destruct (Z.eqb_spec b 0); [contradiction|].
  apply in_int_ok. assert (X := @quot_abs a b Hb). unfold in_int in *. lia.
Qed.

Lemma int_rem_ok a b : in_int a -> b <> 0%Z -> int_rem a b = Ret (Z.rem a b).
Proof.
  intros H Hb. unfold int_rem. destruct (Z.eqb_spec b 0); [contradiction|].
  rewrite in_int_ok; [reflexivity|]. assert (X := @quot_abs a b Hb). unfold in_int in *. lia.
Qed.

Lemma rem_abs a b : b <> 0%Z -> (Z.abs (Z.rem a b) < Z.abs b)%Z.
Proof. intros H. apply Z.rem_bound_abs. exact H. Qed.

Lemma gcd_rem a b : b <> 0%Z -> Z.gcd b (Z.rem a b) = Z.gcd a b.
Proof.
  intros H. rewrite (Z.gcd_comm a b). apply Z.gcd_unique.
  - apply Z.gcd_nonneg.
  - apply Z.gcd_divide_l.
  - rewrite Z.rem_eq by exact H. apply Z.divide_sub_r; [apply Z.gcd_divide_r|].
    apply Z.divide_mul_l, Z.gcd_divide_l.
  - intros q H1 H2. apply Z.gcd_greatest; [exact H1|].
    rewrite (Z.quot_rem' a b). apply Z.divide_add_r; [now apply Z.divide_mul_l|exact H2].
Qed.

Lemma euclid_spec fuel : forall a b, in_int a -> in_int b -> (Z.abs b <= Z.of_nat fuel)%Z ->
  exists g, euclid fuel a b = Ret g /\ Z.abs g = Z.gcd a b.
Proof.
  induction fuel as [|fuel IH]; intros a b Ha Hb Hf; cbn [euclid].
  - destruct (Z.eqb_spec b 0) as [->|]; [|lia]. exists a. split; auto. now rewrite Z.gcd_0_r.
  - destruct (Z.eqb_spec b 0) as [->|Nb]; [exists a; split; auto; now rewrite Z.gcd_0_r|].
    rewrite int_rem_ok by assumption. cbn [bind].
    assert (X := @rem_abs a b Nb).
    destruct (IH b (Z.rem a b)) as (g & E & G); auto.
    { unfold in_int in *. lia. } { lia. }
    exists g. split; auto. rewrite G. now apply gcd_rem.
Qed.

Lemma reduce_spec n d u : in_int n -> in_int d -> d <> 0%Z ->
  exists x, reduce (mkDim n d u) = Ret x /\ reduced x /\ worth x n d /\ du x = u.
Proof.
  intros Hn Hd Nd. unfold reduce. cbn [dn dd du].
  destruct (@euclid_spec (Z.to_nat (Z.abs d)) n d) as (g & E & G); auto; [lia|]. rewrite E. cbn [bind].
  assert (Gp : (0 < Z.gcd n d)%Z).
  { assert (X := Z.gcd_nonneg n d). assert (Y : Z.gcd n d <> 0%Z) by (intros Y; apply Z.gcd_eq_0_r in Y; contradiction). lia. }
  assert (Ng : g <> 0%Z) by lia.
  rewrite (int_quot_ok Hn Ng), (int_quot_ok Hd Ng). cbn [bind].
  assert (Dn : (g | n)%Z). { apply Z.divide_abs_l. rewrite G. apply Z.gcd_divide_l. }
  assert (Dd : (g | d)%Z). { apply Z.divide_abs_l. rewrite G. apply Z.gcd_divide_r. }
  destruct Dn as (n' & ->), Dd as (d' & ->). rewrite !Z.quot_mul by exact Ng.
  assert (C : Z.gcd n' d' = 1%Z).
  { rewrite Z.gcd_mul_mono_r in G. assert (X := Z.gcd_nonneg n' d'). nia. }
  assert (Nd' : d' <> 0%Z) by nia.
  assert (Bn : in_int n') by (unfold in_int in *; nia).
  assert (Bd : in_int d') by (unfold in_int in *; nia).
  destruct (Z.ltb_spec d' 0).
  - rewrite !in_int_ok by (unfold in_int in *; lia). cbn [bind].
    exists (mkDim (- n') (- d') u). split; [reflexivity|]. split; [|split; [|reflexivity]].
    + split; cbn [dn dd]; [lia|]. now rewrite Z.gcd_opp_l, Z.gcd_opp_r.
    + unfold worth; cbn [dn dd]. ring.
  - exists (mkDim n' d' u). split; [reflexivity|]. split; [|split; [|reflexivity]].
    + split; cbn [dn dd]; [lia|exact C].
    + unfold worth; cbn [dn dd]. ring.
Qed.

Lemma reduced_unique x y n d : reduced x -> reduced y -> du x = du y -> d <> 0%Z ->
  worth x n d -> worth y n d -> x = y.
Proof.
  intros [Px Gx] [Py Gy] U Nd Wx Wy. unfold worth in *.
  assert (C : (dn x * dd y = dn y * dd x)%Z) by nia.
  assert (D1 : (dd x | dd y)%Z).
  { apply Z.gauss with (dn x); [|now rewrite Z.gcd_comm]. exists (dn y). rewrite C. ring. }
  assert (D2 : (dd y | dd x)%Z).
  { apply Z.gauss with (dn y); [|now rewrite Z.gcd_comm]. exists (dn x). rewrite <- C. ring. }
  assert (E : dd x = dd y) by (apply Z.divide_antisym_nonneg; auto; lia).
  destruct x as [xn xd xu], y as [yn yd yu]; cbn in *. subst. f_equal. nia.
Qed.

(* --- text --- *)
Lemma skip_space_app w s : all_space w -> skip_space (w ++ s) = skip_space s.
Proof.
  unfold all_space. induction w as [|c w IH]; cbn; auto. intros H. apply andb_true_iff in H as [H1 H2].
  rewrite H1. auto.
Qed.
Lemma skip_space_nonspace c s : is_space c = false -> skip_space (c :: s) = c :: s.
Proof. intros H. cbn. now rewrite H. Qed.
Lemma digit_not_space c : is_digit c = true -> is_space c = false.
Proof. intros H. now destruct (digit_facts H) as [H1 _]. Qed.

Lemma digit_val_range c : is_digit c = true -> (0 <= digit_val c <= 9)%Z.
Proof. unfold is_digit, digit_val. intros H. apply andb_true_iff in H as [H1 H2]. apply Nat.leb_le in H1, H2. lia. Qed.

Lemma dec_value_nonneg l : forallb is_digit l = true -> (0 <= dec_value l)%Z.
Proof.
  induction l as [|c l IH]; cbn [forallb dec_value]; intros H; [lia|]. apply andb_true_iff in H as [H1 H2].
  assert (X := digit_val_range H1). assert (Y := Z.pow_nonneg 10 (Z.of_nat (length l))). specialize (IH H2). nia.
Qed.

Lemma dec_value_app a b : dec_value (a ++ b) = (dec_value a * 10 ^ Z.of_nat (length b) + dec_value b)%Z.
Proof.
  induction a as [|c a IH]; cbn [app dec_value]; [lia|]. rewrite IH, app_length, Nat2Z.inj_add, Z.pow_add_r by lia. ring.
Qed.

Lemma pow10_ge n : (1 <= 10 ^ Z.of_nat n)%Z.
Proof. assert (X := Z.pow_pos_nonneg 10 (Z.of_nat n)). lia. Qed.

Lemma digits_loop_spec ds rest : forall a, (0 <= a)%Z -> forallb is_digit ds = true -> starts_with_digit rest = false ->
  (a * 10 ^ Z.of_nat (length ds) + dec_value ds <= int_max)%Z ->
  digits_loop a (ds ++ rest) = Ret ((a * 10 ^ Z.of_nat (length ds) + dec_value ds)%Z, rest).
Proof.
  induction ds as [|c ds IH]; intros a Ha Hd Hr Hb; cbn [app digits_loop dec_value length forallb] in *.
  - rewrite Z.pow_0_r in *. replace (a * 1 + 0)%Z with a by ring. destruct rest as [|c rest]; [reflexivity|].
    cbn in Hr. cbn [digits_loop]. now rewrite Hr.
  - apply andb_true_iff in Hd as [Hc Hd]. rewrite Hc.
    rewrite Nat2Z.inj_succ, Z.pow_succ_r in * by lia.
    assert (P := @pow10_ge (length ds)). assert (V := digit_val_range Hc). assert (N := dec_value_nonneg Hd).
    rewrite in_int_ok; [|unfold in_int, int_max in *; nia]. cbn [bind]. rewrite IH; auto; try nia.
    do 2 f_equal. ring.
Qed.

Lemma number_spec ds rest : all_digits ds -> starts_with_digit rest = false -> (dec_value ds <= int_max)%Z ->
  number (ds ++ rest) = Ret (dec_value ds, rest).
Proof.
  intros [Hd Hn] Hr Hb. destruct ds as [|c ds]; [congruence|]. cbn [app number forallb dec_value] in *.
  apply andb_true_iff in Hd as [Hc Hd]. rewrite Hc. apply digits_loop_spec; auto.
  apply digit_val_range in Hc. lia.
Qed.

Lemma decimals_loop_spec fs rest : forall a b, (0 <= a)%Z -> (0 <= b)%Z -> forallb is_digit fs = true -> starts_with_digit rest = false ->
  (a * 10 ^ Z.of_nat (length fs) + dec_value fs <= int_max)%Z -> (b * 10 ^ Z.of_nat (length fs) <= int_max)%Z ->
  decimals_loop a b (fs ++ rest) =
  Ret ((a * 10 ^ Z.of_nat (length fs) + dec_value fs)%Z, (b * 10 ^ Z.of_nat (length fs))%Z, rest).
Proof.
  induction fs as [|c fs IH]; intros a b Ha Hb0 Hd Hr Hb Hb'; cbn [app decimals_loop dec_value length forallb] in *.
  - rewrite Z.pow_0_r in *. replace (a * 1 + 0)%Z with a by ring. replace (b * 1)%Z with b by ring.
    destruct rest as [|c rest]; [reflexivity|].
    cbn in Hr. cbn [decimals_loop]. now rewrite Hr.
  - apply andb_true_iff in Hd as [Hc Hd]. rewrite Hc.
    rewrite Nat2Z.inj_succ, Z.pow_succ_r in * by lia.
    assert (P := @pow10_ge (length fs)). assert (V := digit_val_range Hc). assert (N := dec_value_nonneg Hd).
    rewrite in_int_ok; [|unfold in_int, int_max in *; nia]. cbn [bind].
    rewrite in_int_ok; [|unfold in_int, int_max in *; nia]. cbn [bind]. rewrite IH; auto; try nia.
    do 2 f_equal; f_equal; ring.
Qed.

(* the units *)
Lemma unit_word_cases (P : list ascii -> units -> Prop) :
  (forall k, k < length unit_names -> let e := nth k unit_names ([], points) in P (fst e) (snd e)) ->
  forall w u, unit_word w u -> P w u.
Proof.
  intros H w u Hin. destruct (In_nth _ _ ([], points) Hin) as (k & Hk & E). specialize (H k Hk). cbn zeta in H.
  rewrite E in H. exact H.
Qed.

Lemma unit_head w u : unit_word w u -> exists c t, w = c :: t /\ is_space c = false /\ is_digit c = false /\
  eqc c (chr ".") = false /\ eqc c (chr "/") = false.
Proof.
  revert w u. apply (unit_word_cases (P := fun w u => exists c t, w = c :: t /\ is_space c = false /\ is_digit c = false /\
    eqc c (chr ".") = false /\ eqc c (chr "/") = false)).
  intros k Hk. cbn in Hk. do 9 (destruct k as [|k]; [cbn; eexists; eexists; repeat split|]). lia.
Qed.

Lemma take_word_app w tail : forallb (fun c => negb (is_space c)) w = true -> ends tail -> take_word (w ++ tail) = w.
Proof.
  intros H E. induction w as [|c w IH]; cbn [app take_word forallb] in *.
  - destruct tail as [|c t]; cbn in *; [reflexivity|now rewrite E].
  - apply andb_true_iff in H as [H1 H2]. apply negb_true_iff in H1. rewrite H1. f_equal. auto.
Qed.

Lemma read_units_spec ws w u tail : all_space ws -> unit_word w u -> ends tail ->
  read_units (ws ++ w ++ tail) = Ret u.
Proof.
  intros Hs Hw Ht. unfold read_units. rewrite skip_space_app by exact Hs.
  destruct (unit_head Hw) as (c & t & -> & Hc & _). cbn [app]. rewrite skip_space_nonspace by exact Hc.
  change (c :: t ++ tail) with ((c :: t) ++ tail).
  assert (X : forallb (fun c => negb (is_space c)) (c :: t) = true /\ find_unit unit_names (c :: t) = Some u).
  { clear Hc. revert Hw. generalize (c :: t). intros w. revert w u.
    apply (unit_word_cases (P := fun w u => forallb (fun c => negb (is_space c)) w = true /\ find_unit unit_names w = Some u)).
    intros k Hk. cbn in Hk. do 9 (destruct k as [|k]; [vm_compute; split; reflexivity|]). lia. }
  destruct X as [X1 X2]. rewrite take_word_app by assumption. now rewrite X2.
Qed.

Lemma space_not c : is_space c = true -> is_digit c = false /\ eqc c (chr ".") = false /\ eqc c (chr "/") = false.
Proof.
  intros H. unfold is_space, is_digit, eqc in *.
  apply orb_true_iff in H. rewrite andb_true_iff, !Nat.leb_le, Nat.eqb_eq in H.
  split; [|split].
  - apply andb_false_iff. rewrite !Nat.leb_gt. lia.
  - destruct (ascii_dec c (chr ".")) as [->|]; [|reflexivity]. exfalso. revert H. vm_compute. lia.
  - destruct (ascii_dec c (chr "/")) as [->|]; [|reflexivity]. exfalso. revert H. vm_compute. lia.
Qed.

(* what follows a number: white space and the unit *)
Lemma after_number ws w u tail : all_space ws -> unit_word w u ->
  starts_with_digit (ws ++ w ++ tail) = false /\ starts_with (chr ".") (ws ++ w ++ tail) = false /\
  starts_with (chr "/") (skip_space (ws ++ w ++ tail)) = false /\ starts_with_digit (skip_space (ws ++ w ++ tail)) = false.
Proof.
  intros Hs Hw. destruct (unit_head Hw) as (c & t & -> & H1 & H2 & H3 & H4).
  rewrite skip_space_app by exact Hs. cbn [app]. rewrite skip_space_nonspace by exact H1. cbn [starts_with starts_with_digit].
  destruct ws as [|s ws]; cbn [app starts_with starts_with_digit]; [auto|].
  unfold all_space in Hs. cbn [forallb] in Hs. apply andb_true_iff in Hs as [Hs _]. destruct (space_not Hs) as (X1 & X2 & X3). auto.
Qed.

Lemma digits_head ds rest : all_digits ds -> skip_space (ds ++ rest) = ds ++ rest /\ starts_with_digit (ds ++ rest) = true /\
  starts_with (chr "-") (ds ++ rest) = false.
Proof.
  intros [H N]. destruct ds as [|c ds]; [congruence|]. cbn [app forallb] in *. apply andb_true_iff in H as [H _].
  rewrite skip_space_nonspace by now apply digit_not_space. split; auto. split; [exact H|]. cbn. now destruct (digit_facts H) as (_ & X & _).
Qed.

Lemma space_slash w rest : all_space w -> starts_with_digit (w ++ chr "/" :: rest) = false /\
  starts_with (chr ".") (w ++ chr "/" :: rest) = false /\ skip_space (w ++ chr "/" :: rest) = chr "/" :: rest.
Proof.
  intros H. rewrite skip_space_app by exact H. split; [|split; [|reflexivity]].
  - destruct w as [|s w]; [reflexivity|]. unfold all_space in H. cbn [forallb] in H. apply andb_true_iff in H as [H _].
    cbn. now destruct (space_not H).
  - destruct w as [|s w]; [reflexivity|]. unfold all_space in H. cbn [forallb] in H. apply andb_true_iff in H as [H _].
    cbn. now destruct (space_not H) as (_ & X & _).
Qed.

Lemma dim_read_spec ws1 (neg : bool) ws2 text ws3 w u tail N D :
  all_space ws1 -> all_space ws2 -> all_space ws3 -> unit_word w u -> ends tail ->
  writes text N D -> (0 < D <= int_max)%Z -> (N <= int_max)%Z ->
  exists x, dim_read (ws1 ++ (if neg then [chr "-"] else []) ++ ws2 ++ text ++ ws3 ++ w ++ tail) = Ret x /\
    reduced x /\ worth x (if neg then - N else N)%Z D /\ du x = u.
Proof.
  intros H1 H2 H3 Hw Ht W HD HN. unfold dim_read. rewrite skip_space_app by exact H1.
  destruct (after_number tail H3 Hw) as (A1 & A2 & A3 & A4). set (after := ws3 ++ w ++ tail) in *.
  assert (RU : read_units after = Ret u) by now apply read_units_spec.
  assert (Hd : exists ds rest, text = ds ++ rest /\ all_digits ds).
  { destruct W; eauto. exists ds, []. rewrite app_nil_r. auto. }
  destruct Hd as (ds0 & rest0 & E0 & D0).
  assert (Sp : forall s, (let '(ng, s0) := match skip_space ((if neg then [chr "-"] else []) ++ ws2 ++ text ++ after) with
       c :: t => if eqc c (chr "-") then (true, t) else (false, skip_space ((if neg then [chr "-"] else []) ++ ws2 ++ text ++ after))
       | [] => (false, skip_space ((if neg then [chr "-"] else []) ++ ws2 ++ text ++ after)) end in
       (ng, skip_space s0)) = s -> s = (neg, text ++ after)).
  { intros s <-. subst text. rewrite <- app_assoc. destruct (digits_head (rest0 ++ after) D0) as (S1 & S2 & S3).
    destruct neg.
    - cbn [app]. rewrite skip_space_nonspace by reflexivity. replace (eqc (chr "-") (chr "-")) with true by reflexivity. cbv iota beta. rewrite skip_space_app by exact H2. now rewrite S1.
    - cbn [app]. rewrite skip_space_app by exact H2. rewrite S1.
      destruct (ds0 ++ rest0 ++ after) as [|c t] eqn:Q; [discriminate|]. cbn [starts_with] in S3. rewrite S3. now rewrite S1. }
  destruct (match skip_space ((if neg then [chr "-"] else []) ++ ws2 ++ text ++ after) with
       c :: t => if eqc c (chr "-") then (true, t) else (false, skip_space ((if neg then [chr "-"] else []) ++ ws2 ++ text ++ after))
       | [] => (false, skip_space ((if neg then [chr "-"] else []) ++ ws2 ++ text ++ after)) end) as [ng s0].
  specialize (Sp _ eq_refl). injection Sp as -> Es. rewrite Es. clear Es s0 H1 H2.
  assert (Fin : forall n, (0 <= n <= int_max)%Z -> (if neg then as_int (- n) else Ret n) = Ret (if neg then - n else n)%Z).
  { intros n Hn. destruct neg; auto. apply in_int_ok. unfold in_int, int_max in *. lia. }
  assert (Red : forall n, (0 <= n <= int_max)%Z -> n = N ->
     exists x, reduce (mkDim (if neg then - n else n)%Z D u) = Ret x /\ reduced x /\ worth x (if neg then - N else N)%Z D /\ du x = u).
  { intros n Hn <-. apply reduce_spec; unfold in_int, int_max in *; destruct neg; lia. }
  assert (NN : (0 <= N)%Z).
  { destruct W as [ds [X _]|ds fs [X _] Y|ns w1 w2 ms [X _] [Y _] _ _|ds w0 ns w1 w2 ms [X _] _ _ [Y _] [Z _] _ _].
    - now apply dec_value_nonneg.
    - apply dec_value_nonneg. rewrite forallb_app, X. exact Y.
    - now apply dec_value_nonneg.
    - apply dec_value_nonneg in X, Y, Z. nia. }
  clear ds0 rest0 E0 D0.
  destruct W as [ds Hds|ds fs Hds Hfs|ns w1 w2 ms Hns Hms Hw1 Hw2|ds w0 ns w1 w2 ms Hds Hw0 Nw0 Hns Hms Hw1 Hw2].
  - rewrite (number_spec Hds A1 HN). cbn [bind]. rewrite A2, A4, A3. 
    assert (RU' : read_units (skip_space after) = Ret u).
    { unfold after in *. rewrite skip_space_app by exact H3. unfold read_units in *. rewrite skip_space_app in RU by exact H3.
      destruct (unit_head Hw) as (c & t & -> & Hc & _). cbn [app] in *. now rewrite !skip_space_nonspace in * by exact Hc. }
    rewrite RU'. cbn [bind]. rewrite (Fin _ (conj NN HN)). cbn [bind]. now apply Red.
  - assert (P := @pow10_ge (length fs)). assert (V1 := dec_value_nonneg (proj1 Hds)). assert (V2 := dec_value_nonneg Hfs).
    rewrite dec_value_app in *.
    rewrite <- app_assoc. cbn [app]. rewrite (number_spec Hds); [|reflexivity|nia].
    cbn [bind starts_with]. replace (eqc (chr ".") (chr ".")) with true by reflexivity. cbn [tl].
    rewrite decimals_loop_spec; auto; try lia. cbn [bind]. rewrite RU. cbn [bind].
    rewrite (Fin _ (conj NN HN)). cbn [bind]. rewrite Z.mul_1_l. now apply Red.
  - rewrite <- !app_assoc. cbn [app]. rewrite <- !app_assoc.
    destruct (space_slash (w2 ++ ms ++ after) Hw1) as (S1 & S2 & S3).
    rewrite (number_spec Hns S1 HN). cbn [bind]. rewrite S2, S3. cbn [starts_with_digit starts_with].
    replace (is_digit (chr "/")) with false by reflexivity. replace (eqc (chr "/") (chr "/")) with true by reflexivity.
    cbn [tl]. rewrite skip_space_app by exact Hw2. destruct (digits_head after Hms) as (T1 & T2 & _). rewrite T1.
    rewrite (number_spec Hms A1) by lia. cbn [bind]. rewrite RU. cbn [bind].
    rewrite (Fin _ (conj NN HN)). cbn [bind]. now apply Red.
  - rewrite <- !app_assoc. cbn [app]. rewrite <- !app_assoc.
    assert (V1 := dec_value_nonneg (proj1 Hds)). assert (V2 := dec_value_nonneg (proj1 Hns)).
    destruct (space_slash (w2 ++ ms ++ after) Hw1) as (S1 & S2 & S3).
    set (rest := ns ++ w1 ++ chr "/" :: w2 ++ ms ++ after) in *.
    assert (Q : starts_with_digit (w0 ++ rest) = false /\ starts_with (chr ".") (w0 ++ rest) = false).
    { destruct w0 as [|s w0]; [congruence|]. unfold all_space in Hw0. cbn [forallb] in Hw0. apply andb_true_iff in Hw0 as [Hs _].
      destruct (space_not Hs) as (X1 & X2 & _). cbn. auto. }
    destruct Q as [Q1 Q2].
    rewrite (number_spec Hds Q1) by nia. cbn [bind]. rewrite Q2. rewrite skip_space_app by exact Hw0.
    unfold rest. destruct (digits_head (w1 ++ chr "/" :: w2 ++ ms ++ after) Hns) as (T1 & T2 & _). rewrite T1, T2.
    rewrite (number_spec Hns S1) by nia. cbn [bind]. rewrite S3. cbn [starts_with].
    replace (eqc (chr "/") (chr "/")) with true by reflexivity.
    cbn [tl]. rewrite skip_space_app by exact Hw2. destruct (digits_head after Hms) as (U1 & U2 & _). rewrite U1.
    rewrite (number_spec Hms A1) by lia. cbn [bind]. rewrite RU. cbn [bind].
    rewrite in_int_ok by (unfold in_int, int_max in *; nia). cbn [bind].
    rewrite in_int_ok by (unfold in_int, int_max in *; nia). cbn [bind].
    rewrite (Fin _ (conj NN HN)). cbn [bind]. now apply Red.
Qed.

(* --- printing --- *)
Lemma read_digits_dec l rest : forall a, forallb is_digit l = true -> starts_with_digit rest = false ->
  read_digits a (l ++ rest) = ((a * 10 ^ Z.of_nat (length l) + dec_value l)%Z, rest).
Proof.
  induction l as [|c l IH]; intros a H Hr; cbn [app read_digits forallb length dec_value] in *.
  - rewrite read_digits_stop by exact Hr. f_equal. rewrite Z.pow_0_r. ring.
  - apply andb_true_iff in H as [Hc H]. rewrite Hc, IH by assumption. f_equal.
    rewrite Nat2Z.inj_succ, Z.pow_succ_r by lia. ring.
Qed.

Lemma print_nat_digits n : all_digits (print_nat n) /\ dec_value (print_nat n) = Z.of_nat n.
Proof.
  assert (D : forallb is_digit (print_nat n) = true) by (apply print_nat_f_digits; reflexivity).
  split.
  - split; [exact D|]. destruct (print_nat_head n) as (c & t & E & _). rewrite E. discriminate.
  - assert (X := @print_nat_read n [] eq_refl). rewrite read_digits_dec in X by auto. injection X as X. lia.
Qed.

Lemma print_int_pos z : (0 <= z)%Z -> all_digits (print_int z) /\ dec_value (print_int z) = z.
Proof.
  intros H. unfold print_int. destruct (Z.ltb_spec z 0); [lia|]. destruct (print_nat_digits (Z.to_nat z)) as [A B].
  split; auto. rewrite B. lia.
Qed.
Lemma print_int_neg z : (z < 0)%Z -> print_int z = chr "-" :: print_int (- z).
Proof. intros H. unfold print_int. destruct (Z.ltb_spec z 0); [|lia]. destruct (Z.ltb_spec (- z) 0); [lia|reflexivity]. Qed.

Lemma unit_string_word u : unit_word (unit_string u) u.
Proof. unfold unit_word. destruct u; cbn; tauto. Qed.

Lemma dim_print_read x : reduced x -> in_int (dn x) -> in_int (dd x) -> dn x <> 0%Z ->
  (0 < dn x \/ dd x <= - dn x)%Z ->
  exists t, dim_print x = Ret t /\ dim_read t = Ret x.
Proof.
  intros R Bn Bd N0 Hm. destruct x as [n d u]. destruct R as [Dp G]. cbn [dn dd] in *.
  unfold dim_print. cbn [dn dd du]. destruct (Z.eqb_spec d 0); [lia|]. destruct (Z.eqb_spec n 0); [contradiction|].
  rewrite int_rem_ok by (auto; lia). cbn [bind].
  assert (Q := Z.quot_rem' n d). assert (Rb := @rem_abs n d). set (r := Z.rem n d) in *. set (q := Z.quot n d) in *.
  assert (Rs : (0 <= r * n)%Z) by (apply Z.rem_sign_mul; lia).
  assert (Rab : (Z.abs r < d)%Z) by (specialize (Rb ltac:(lia)); lia).
  assert (Rn : (Z.abs r <= Z.abs n)%Z).
  { unfold r. rewrite <- Z.rem_abs by lia. rewrite Z.rem_mod_nonneg by lia. apply Z.mod_le; lia. }
  rewrite in_int_ok by (unfold in_int, int_max in *; nia). cbn [bind].
  replace (n - r)%Z with (q * d)%Z by lia.
  assert (Bq : in_int (q * d)) by (unfold in_int, int_max in *; nia).
  rewrite int_quot_ok by (auto; lia). rewrite Z.quot_mul by lia. cbn [bind].
  set (r' := Z.abs r).
  replace (if (r <? 0)%Z then as_int (- r) else Ret r) with (Ret r').
  2:{ unfold r'. destruct (Z.ltb_spec r 0); [rewrite in_int_ok by (unfold in_int, int_max in *; lia)|]; f_equal; lia. }
  cbn [bind]. eexists. split; [reflexivity|].
  set (neg := (n <? 0)%Z).
  assert (Q0 : q <> 0%Z \/ (q = 0%Z /\ r' <> 0%Z /\ neg = false)).
  { unfold r', neg. destruct (Z.eq_dec q 0) as [E|]; [right|now left]. rewrite E in *.
    destruct (Z.ltb_spec n 0); [exfalso|]; repeat split; try lia. }
  assert (Fin : forall text N D, writes text N D -> (0 < D <= int_max)%Z -> (0 <= N <= int_max)%Z ->
     (N * d = Z.abs n * D)%Z ->
     dim_read ((if neg then [chr "-"] else []) ++ text ++ [chr " "] ++ unit_string u) = Ret (mkDim n d u)).
  { intros text N D W HD HN E.
    destruct (@dim_read_spec [] neg [] text [chr " "] (unit_string u) u [] N D) as (x & Ex & Rx & Wx & Ux);
      auto; try reflexivity; try exact I; try lia.
    { apply unit_string_word. }
    cbn [app] in Ex. rewrite app_nil_r in Ex. cbn [app]. rewrite Ex. f_equal.
    apply (@reduced_unique x (mkDim n d u) (if neg then - N else N)%Z D); auto.
    - split; auto.
    - lia.
    - unfold worth. cbn [dn dd]. unfold neg in *. destruct (Z.ltb_spec n 0); lia. }
  destruct (print_int_pos (z := d) ltac:(lia)) as [Ad Vd].
  destruct (print_int_pos (z := r') ltac:(lia)) as [Ar Vr].
  destruct (print_int_pos (z := Z.abs q) ltac:(lia)) as [Aq Vq].
  assert (Bd' : (0 < d <= int_max)%Z) by (unfold in_int in *; lia).
  assert (Pq : q <> 0%Z -> print_int q = (if neg then [chr "-"] else []) ++ print_int (Z.abs q)).
  { intros Nq. unfold neg. destruct (Z.ltb_spec n 0).
    - rewrite print_int_neg by nia. cbn [app]. do 2 f_equal. nia.
    - cbn [app]. f_equal. nia. }
  assert (Ea : (Z.abs n = Z.abs q * d + r')%Z) by (unfold r'; nia).
  assert (Ban : (Z.abs n <= int_max)%Z) by (unfold in_int in *; lia).
  destruct (Z.eqb_spec q 0) as [Eq|Nq].
  - destruct Q0 as [|(_ & Nr & Ng)]; [contradiction|].
    cbn [negb andb app]. destruct (Z.eqb_spec r' 0); [contradiction|].
    assert (X := Fin (print_int r' ++ chr "/" :: print_int d) r' d). rewrite Ng in X. cbn [app] in X.
    rewrite <- app_assoc in *. cbn [app] in *. apply X; auto.
    + rewrite <- Vr at 2. rewrite <- Vd at 2. apply (@w_frac (print_int r') [] [] (print_int d)); auto; reflexivity.
    + unfold in_int, int_max in *. lia.
    + rewrite Ea. replace (Z.abs q) with 0%Z by lia. ring.
  - rewrite (Pq Nq). destruct (Z.eqb_spec r 0) as [Er|Nr].
    + replace r' with 0%Z by (unfold r'; lia). cbn [negb andb app Z.eqb]. rewrite <- app_assoc.
      apply (Fin (print_int (Z.abs q)) (Z.abs q) 1%Z); auto.
      * rewrite <- Vq at 2. now constructor.
      * unfold int_max; lia.
      * unfold in_int, int_max in *. nia.
      * unfold r' in Ea. nia.
    + destruct (Z.eqb_spec r' 0); [unfold r' in *; lia|]. cbn [negb andb app].
      assert (X := Fin (print_int (Z.abs q) ++ [chr " "] ++ print_int r' ++ [] ++ chr "/" :: [] ++ print_int d) (Z.abs q * d + r')%Z d).
      repeat rewrite <- app_assoc in X. cbn [app] in X. repeat rewrite <- app_assoc. cbn [app]. apply X; auto.
      * rewrite <- Vr at 2. rewrite <- Vd at 2 3. rewrite <- Vq at 2.
        apply (@w_mixed (print_int (Z.abs q)) [chr " "] (print_int r') [] [] (print_int d)); auto; try reflexivity. discriminate.
      * unfold in_int, int_max in *. nia.
      * rewrite Ea. ring.
Qed.

Lemma dim_print_half : exists t x, dim_print (mkDim (-1) 2 inches) = Ret t /\ dim_read t = Ret x /\ dn x = 1%Z /\ dd x = 2%Z.
Proof. eexists. eexists. split; [vm_compute; reflexivity|]. split; [vm_compute; reflexivity|]. split; reflexivity. Qed.
Lemma dim_print_zero u : exists t, dim_print (mkDim 0 1 u) = Ret t /\ dim_read t = Throw DimInvalid.
Proof. eexists. split; [reflexivity|]. vm_compute. reflexivity. Qed.
Lemma dim_read_zero : dim_read (str "0/0pt") = UB.
Proof. vm_compute. reflexivity. Qed.

Lemma dim_scale x i : reduced x -> in_int (dn x) -> in_int (dd x) -> in_int i ->
  (in_int (dn x * i) -> exists y, dim_mul x i = Ret y /\ reduced y /\ worth y (dn x * i) (dd x) /\ du y = du x) /\
  (in_int (dd x * i) -> i <> 0%Z -> exists y, dim_div x i = Ret y /\ reduced y /\ worth y (dn x) (dd x * i) /\ du y = du x).
Proof.
  intros [R1 R2] Bn Bd Bi. split.
  - intros H. unfold dim_mul. rewrite in_int_ok by exact H. cbn [bind]. apply reduce_spec; auto. lia.
  - intros H Ni. unfold dim_div. rewrite in_int_ok by exact H. cbn [bind]. apply reduce_spec; auto. nia.
Qed.

Lemma dim_print_small_neg x : reduced x -> in_int (dn x) -> in_int (dd x) ->
  (dn x < 0 -> - dn x < dd x ->
   exists t, dim_print x = Ret t /\ dim_read t = Ret (mkDim (- dn x) (dd x) (du x)))%Z.
Proof.
  intros [R1 R2] Bn Bd Hn Hs. destruct x as [n d u]. cbn [dn dd du] in *.
  destruct (@dim_print_read (mkDim (- n) d u)) as (t & E1 & E2); cbn [dn dd du]; auto; try lia.
  - split; cbn [dn dd]; auto. now rewrite Z.gcd_opp_l.
  - unfold in_int in *; lia.
  - exists t. split; [|exact E2]. rewrite <- E1. unfold dim_print. cbn [dn dd du].
    destruct (Z.eqb_spec d 0); [lia|]. destruct (Z.eqb_spec n 0); [lia|]. destruct (Z.eqb_spec (- n) 0); [lia|].
    rewrite !int_rem_ok by (unfold in_int in *; lia). cbn [bind].
    assert (Er : Z.rem n d = n). { rewrite <- (Z.opp_involutive n) at 1. rewrite Z.rem_opp_l, Z.rem_small by lia. lia. }
    rewrite Er, (Z.rem_small (- n) d) by lia.
    rewrite !in_int_ok by (unfold in_int, int_max in *; lia). cbn [bind].
    rewrite !Z.sub_diag.
    rewrite int_quot_ok by (unfold in_int, int_max; lia). rewrite Z.quot_0_l by lia. cbn [bind].
    destruct (Z.ltb_spec (- n) 0); [lia|]. destruct (Z.ltb_spec n 0); [|lia]. cbn [bind].
    reflexivity.
Qed.

Lemma dim_write_nul x t : dim_print x = Ret t -> dim_write x = Ret (t ++ [zero]) /\ t ++ [zero] <> t.
Proof.
  intros H. unfold dim_write. rewrite H. split; [reflexivity|]. intros E. apply (f_equal (@length ascii)) in E.
  rewrite app_length in E. cbn in E. lia.
Qed.
