(* P_Group4.v - the groups made from plain bob lead heads. *)
From Verif Require Import Base M_Bell M_Change M_Math M_Row M_Extent M_Group Spec_Row Spec_Change Spec_Extent Spec_Group
  P_Row P_Named P_Perm P_Extent P_Group P_Group2 P_Group3 P_Power.
Set Implicit Arguments.
Unset Strict Implicit.
Open Scope nat_scope.

(* the places in the order a bell doing the work visits them *)
Lemma pbs_surj m x : x < m -> exists k, k < m /\ pbs m k = x.
Proof.
  intros H. unfold pbs. destruct (Nat.even x) eqn:E.
  - apply Nat.even_spec in E as [j ->]. destruct (Nat.eq_dec j 0) as [->|N]; [exists 0; split; [lia|]; destruct (Nat.ltb_spec (2 * 0 - 1) m); lia|].
    exists (m - j). split; [lia|]. destruct (Nat.ltb_spec (2 * (m - j) - 1) m); lia.
  - assert (O : Nat.odd x = true) by (unfold Nat.odd; now rewrite E). apply Nat.odd_spec in O as [j ->].
    exists (j + 1). split; [lia|]. destruct (Nat.ltb_spec (2 * (j + 1) - 1) m); lia.
Qed.
Lemma pbs_lt m k : k < m -> pbs m k < m.
Proof. intros H. unfold pbs. destruct (Nat.ltb_spec (2 * k - 1) m); lia. Qed.
Lemma pb_wrap m : 2 <= m -> pb m (pbs m (m - 1)) = pbs m 0.
Proof.
  intros H. unfold pbs. replace (2 * 0 - 1) with 0 by lia. destruct (Nat.ltb_spec 0 m); [|lia].
  destruct (Nat.eq_dec m 2) as [->|N]; [reflexivity|]. destruct (Nat.ltb_spec (2 * (m - 1) - 1) m).
  - assert (m = 3 - 1 \/ m < 3) by lia. lia.
  - replace (2 * (m - (m - 1))) with 2 by lia. unfold pb. destruct (Nat.leb_spec m 2); [lia|]. destruct (Nat.ltb_spec m 2); [lia|]. reflexivity.
Qed.

Section PB.
Variables (nw nh : nat) (l : list nat).
Hypothesis (H0 : 0 < nw) (H256 : nh + nw <= 256) (El : pblh (nh + nw) nh = Ret l).

Lemma l_row : row256 l /\ length l = nh + nw /\ forall i, act l i = if i <? nh then i else nh + pb nw (i - nh).
Proof.
  destruct (pblh_spec nh H256) as (r & E & R & L & A). rewrite El in E. injection E as <-. split; auto. split; auto.
  intros i. rewrite A. now replace (nh + nw - nh) with nw by lia.
Qed.
Lemma l_step k : k < nw -> act l (nh + pbs nw k) = nh + pbs nw ((k + 1) mod nw).
Proof.
  intros Hk. rewrite (proj2 (proj2 l_row)). destruct (Nat.ltb_spec (nh + pbs nw k) nh); [lia|].
  replace (nh + pbs nw k - nh) with (pbs nw k) by lia. f_equal.
  destruct (Nat.eq_dec nw 1) as [->|N]. { replace k with 0 by lia. reflexivity. }
  destruct (Nat.eq_dec k (nw - 1)) as [->|Nk].
  - rewrite pb_wrap by lia. replace (nw - 1 + 1) with nw by lia. rewrite Nat.mod_same by lia. reflexivity.
  - rewrite pb_step by lia. rewrite Nat.mod_small by lia. reflexivity.
Qed.
Lemma l_pow j k : k < nw -> act_pow l j (nh + pbs nw k) = nh + pbs nw ((k + j) mod nw).
Proof.
  intros Hk. induction j as [|j IH]; cbn [act_pow]; [rewrite Nat.add_0_r, Nat.mod_small; auto|].
  rewrite IH, l_step by (apply Nat.mod_upper_bound; lia). f_equal. f_equal.
  rewrite Nat.add_mod_idemp_l by lia. f_equal. lia.
Qed.
Lemma l_pow_out j i : i < nh \/ nh + nw <= i -> act_pow l j i = i.
Proof.
  intros H. induction j as [|j IH]; cbn [act_pow]; auto. rewrite IH, (proj2 (proj2 l_row)).
  destruct (Nat.ltb_spec i nh); auto. unfold pb. destruct (Nat.leb_spec nw (i - nh)); lia.
Qed.
Lemma place_cases i : (i < nh \/ nh + nw <= i) \/ exists k, k < nw /\ i = nh + pbs nw k.
Proof.
  destruct (lt_dec i nh); [auto|]. destruct (le_lt_dec (nh + nw) i); [auto|]. right.
  destruct (@pbs_surj nw (i - nh) ltac:(lia)) as (k & Hk & E). exists k. split; auto. lia.
Qed.
Lemma l_pow_mod j i : act_pow l (j mod nw) i = act_pow l j i.
Proof.
  destruct (place_cases i) as [H|(k & Hk & ->)]; [now rewrite !l_pow_out|]. rewrite !l_pow by auto.
  now rewrite Nat.add_mod_idemp_r by lia.
Qed.
(* reversing the places: on an even number it is half way round, on an odd number it runs backwards *)
Lemma flip_pbs_even k : Nat.even nw = true -> k < nw -> flip nw nh (nh + pbs nw k) = nh + pbs nw ((k + nw / 2) mod nw).
Proof.
  intros E Hk. apply Nat.even_spec in E as [q E]. assert (B := pbs_lt Hk). rewrite flip_in by lia. f_equal.
  replace (nh + pbs nw k - nh) with (pbs nw k) by lia. replace (nw / 2) with q by (rewrite E, Nat.mul_comm, Nat.div_mul; lia).
  destruct (lt_dec (k + q) nw) as [H|H].
  - rewrite Nat.mod_small by auto. unfold pbs. destruct (Nat.ltb_spec (2 * k - 1) nw), (Nat.ltb_spec (2 * (k + q) - 1) nw); lia.
  - replace (k + q) with (k + q - nw + 1 * nw) by lia. rewrite Nat.mod_add, Nat.mod_small by lia.
    unfold pbs. destruct (Nat.ltb_spec (2 * k - 1) nw), (Nat.ltb_spec (2 * (k + q - nw) - 1) nw); lia.
Qed.
Lemma flip_pbs_odd k : Nat.even nw = false -> k < nw -> flip nw nh (nh + pbs nw k) = nh + pbs nw (((nw + 1) / 2 + nw - k) mod nw).
Proof.
  intros E Hk. assert (O : Nat.odd nw = true) by (unfold Nat.odd; now rewrite E). apply Nat.odd_spec in O as [q E2].
  assert (B := pbs_lt Hk). rewrite flip_in by lia. f_equal.
  replace (nh + pbs nw k - nh) with (pbs nw k) by lia. replace ((nw + 1) / 2) with (q + 1) by (rewrite E2; replace (2 * q + 1 + 1) with ((q + 1) * 2) by lia; rewrite Nat.div_mul; lia).
  destruct (le_lt_dec k (q + 1)) as [H|H].
  - destruct (Nat.eq_dec nw 1) as [->|N1].
    { replace k with 0 by lia. rewrite Nat.mod_1_r. reflexivity. }
    replace (q + 1 + nw - k) with (q + 1 - k + 1 * nw) by lia. rewrite Nat.mod_add, Nat.mod_small by lia.
    unfold pbs. destruct (Nat.ltb_spec (2 * k - 1) nw), (Nat.ltb_spec (2 * (q + 1 - k) - 1) nw); lia.
  - rewrite Nat.mod_small by lia. unfold pbs. destruct (Nat.ltb_spec (2 * k - 1) nw), (Nat.ltb_spec (2 * (q + 1 + nw - k) - 1) nw); lia.
Qed.
Lemma flip_even i : Nat.even nw = true -> flip nw nh i = act_pow l (nw / 2) i.
Proof.
  intros E. destruct (place_cases i) as [H|(k & Hk & ->)]; [rewrite flip_out, l_pow_out by lia; auto|].
  now rewrite flip_pbs_even, l_pow.
Qed.
Lemma flip_odd j i : Nat.even nw = false -> flip nw nh (act_pow l j i) = act_pow l (j * (nw - 1)) (flip nw nh i).
Proof.
  intros E. destruct (place_cases i) as [H|(k & Hk & ->)]; [rewrite (@flip_out nw nh i), !l_pow_out, flip_out by lia; auto|].
  assert (M : forall a, a mod nw < nw) by (intros; apply Nat.mod_upper_bound; lia).
  rewrite l_pow, !flip_pbs_odd, l_pow by auto. f_equal. f_equal.
  rewrite Nat.add_mod_idemp_l by lia. set (c := (nw + 1) / 2).
  assert (D := Nat.div_mod (k + j) nw ltac:(lia)). set (q := (k + j) / nw) in *. set (v := (k + j) mod nw) in *. assert (v < nw) by apply M.
  assert (q <= j) by nia.
  replace (c + nw - k + j * (nw - 1)) with (c + nw - v + (j - q) * nw) by nia. now rewrite Nat.mod_add by lia.
Qed.

(* a row on m bells for each power *)
Variable m : nat.
Hypothesis (Hm : nh + nw <= m) (M256 : m <= 256).
Definition power_row (k : nat) : list nat := pw m (pad m l) k.
Lemma pad_l : row_b m (pad m l).
Proof. destruct l_row as (R & L & _). apply pad_row_b; [apply R|lia]. Qed.
Lemma act_pow_pad k i : act_pow (pad m l) k i = act_pow l k i.
Proof. induction k as [|k IH]; cbn; auto. now rewrite IH, act_pad. Qed.
Lemma power_row_b k : row_b m (power_row k) /\ forall i, act (power_row k) i = act_pow l k i.
Proof.
  split; [apply pw_row; [apply pad_l|rewrite (proj2 pad_l); lia]|]. intros i. unfold power_row.
  rewrite act_pw by (try apply pad_l; rewrite (proj2 pad_l); lia). apply act_pow_pad.
Qed.
Definition powers (x : list nat) : Prop := row_b m x /\ exists k, k < nw /\ forall i, act x i = act_pow l k i.
Definition powers_flip (x : list nat) : Prop := row_b m x /\
  exists k, k < nw /\ ((forall i, act x i = act_pow l k i) \/ (forall i, act x i = act_pow l k (flip nw nh i))).
Lemma powers_mod x k : row_b m x -> (forall i, act x i = act_pow l k i) -> powers x.
Proof. intros R A. split; auto. exists (k mod nw). split; [apply Nat.mod_upper_bound; lia|]. intros i. now rewrite l_pow_mod. Qed.
Lemma powers_flip_mod x k : row_b m x -> (forall i, act x i = act_pow l k i) \/ (forall i, act x i = act_pow l k (flip nw nh i)) -> powers_flip x.
Proof. intros R A. split; auto. exists (k mod nw). split; [apply Nat.mod_upper_bound; lia|]. destruct A as [A|A]; [left|right]; intros i; now rewrite l_pow_mod. Qed.

Lemma powers_generated gens : In l gens -> (forall g, In g gens -> powers (pad m g)) -> forall x, generated m gens x <-> powers x.
Proof.
  intros Il Ig x. apply generated_is; auto.
  - apply subset_group; auto.
    + intros y [R _]. exact R.
    + apply (@powers_mod _ 0); [apply row_b_id|]. intros i. now rewrite act_id.
    + intros y z [Ry (k & Hk & Ay)] [Rz (j & Hj & Az)]. apply (@powers_mod _ (k + j)).
      * apply comp_row_b; auto; [apply Rz|]. destruct Rz as [_ ->]. lia.
      * intros i. rewrite act_comp by apply Rz. now rewrite Az, Ay, act_pow_add.
  - intros U GU IU y [Ry (k & _ & Ay)]. replace y with (power_row k).
    + clear y Ry Ay. unfold power_row. induction k as [|k IH]; cbn [pw]; [apply GU|]. apply GU; auto.
    + apply (@row_b_ext m); auto; [apply power_row_b|]. intros i. now rewrite (proj2 (power_row_b k)), Ay.
Qed.
Lemma powers_count v : NoDup v -> (forall x, In x v <-> powers x) -> length v = nw.
Proof.
  intros ND C. transitivity (length (map power_row (seq 0 nw))); [|now rewrite map_length, seq_length].
  apply Permutation_length. apply NoDup_Permutation; auto.
  - apply NoDup_map_inj; [|apply seq_NoDup]. intros a c Ha Hc Eq. apply in_seq in Ha, Hc.
    assert (X : act_pow l a (nh + pbs nw 0) = act_pow l c (nh + pbs nw 0)) by (rewrite <- !(proj2 (power_row_b _)); now rewrite Eq).
    rewrite !l_pow, !Nat.mod_small in X by (cbn; lia). cbn [Nat.add] in X.
    destruct (Nat.eq_dec nw 1); [lia|]. apply (@pbs_inj nw); lia.
  - intros x. rewrite C. split.
    + intros [R (k & Hk & Ax)]. apply in_map_iff. exists k. split; [|apply in_seq; lia].
      apply (@row_b_ext m); auto; [apply power_row_b|]. intros i. now rewrite (proj2 (power_row_b k)), Ax.
    + intros Hx. apply in_map_iff in Hx as (k & <- & Hk). apply in_seq in Hk. apply (@powers_mod _ k); apply power_row_b.
Qed.

Section Flip.
Variable r : list nat.
Hypothesis (Rr : row_b m r) (Ar : forall i, act r i = flip nw nh i) (Odd : Nat.even nw = false).
Lemma flips_generated x : generated m [l; r] x <-> powers_flip x.
Proof.
  assert (Pr : pad m r = r). { unfold pad. rewrite (proj2 Rr), Nat.sub_diag. cbn. apply app_nil_r. }
  apply generated_is; auto.
  - apply subset_group; auto.
    + intros y [R _]. exact R.
    + apply (@powers_flip_mod _ 0); [apply row_b_id|]. left. intros i. now rewrite act_id.
    + intros y z [Ry (k & Hk & Ay)] [Rz (j & Hj & Az)].
      assert (Rc : row_b m (comp y z)) by (apply comp_row_b; auto; [apply Rz|]; destruct Rz as [_ ->]; lia).
      destruct Ay as [Ay|Ay], Az as [Az|Az].
      * apply (@powers_flip_mod _ (k + j)); auto. left. intros i. rewrite act_comp by apply Rz. now rewrite Az, Ay, act_pow_add.
      * apply (@powers_flip_mod _ (k + j)); auto. right. intros i. rewrite act_comp by apply Rz. now rewrite Az, Ay, act_pow_add.
      * apply (@powers_flip_mod _ (k + j * (nw - 1))); auto. right. intros i. rewrite act_comp by apply Rz. now rewrite Az, Ay, flip_odd, act_pow_add.
      * apply (@powers_flip_mod _ (k + j * (nw - 1))); auto. left. intros i. rewrite act_comp by apply Rz. now rewrite Az, Ay, flip_odd, act_pow_add, flip_flip.
  - intros y [<-|[<-|[]]].
    + apply (@powers_flip_mod _ 1); [apply pad_l|]. left. intros i. now rewrite act_pad.
    + rewrite Pr. apply (@powers_flip_mod _ 0); auto.
  - intros U GU IU.
    assert (Pw : forall k, U (power_row k)).
    { unfold power_row. induction k as [|k IH]; cbn [pw]; [apply GU|]. apply GU; auto. apply IU. now left. }
    intros y [Ry (k & _ & [Ay|Ay])].
    + replace y with (power_row k); auto. apply (@row_b_ext m); auto; [apply power_row_b|]. intros i. now rewrite (proj2 (power_row_b k)), Ay.
    + replace y with (comp (power_row k) r).
      * destruct GU as (_ & _ & M & _). apply M; auto. rewrite <- Pr. apply IU. right. now left.
      * apply (@row_b_ext m); auto; [apply comp_row_b; [apply power_row_b|apply Rr|rewrite (proj2 Rr); lia]|].
        intros i. rewrite act_comp by apply Rr. now rewrite (proj2 (power_row_b k)), Ar, Ay.
Qed.
Lemma flips_count v : 3 <= nw -> NoDup v -> (forall x, In x v <-> powers_flip x) -> length v = 2 * nw.
Proof.
  intros H3 ND C. set (f := power_row). set (h := fun k => comp (f k) r).
  assert (Rf : forall k, row_b m (f k)) by (intros; apply power_row_b).
  assert (Af : forall k i, act (f k) i = act_pow l k i) by (intros; apply power_row_b).
  assert (Rh : forall k, row_b m (h k)) by (intros k; apply comp_row_b; auto; [apply Rr|rewrite (proj2 Rr); lia]).
  assert (Ah : forall k i, act (h k) i = act_pow l k (flip nw nh i)) by (intros k i; unfold h; rewrite act_comp by apply Rr; now rewrite Af, Ar).
  transitivity (length (map f (seq 0 nw) ++ map h (seq 0 nw))); [|rewrite app_length, !map_length, seq_length; lia].
  assert (Inj : forall a c, a < nw -> c < nw -> act_pow l a (nh + pbs nw 0) = act_pow l c (nh + pbs nw 0) -> a = c).
  { intros a c Ha Hc X. rewrite !l_pow, !Nat.mod_small in X by (cbn; lia). cbn [Nat.add] in X. apply (@pbs_inj nw); lia. }
  apply Permutation_length. apply NoDup_Permutation; auto.
  - apply NoDup_app_iff. split; [|split].
    + apply NoDup_map_inj; [|apply seq_NoDup]. intros a c Ha Hc Eq. apply in_seq in Ha, Hc. apply Inj; try lia. rewrite <- !Af. now rewrite Eq.
    + apply NoDup_map_inj; [|apply seq_NoDup]. intros a c Ha Hc Eq. apply in_seq in Ha, Hc. apply Inj; try lia.
      rewrite <- (flip_flip nw nh (nh + pbs nw 0)). rewrite <- !Ah. now rewrite Eq.
    + intros x Hx Hy. apply in_map_iff in Hx as (a & <- & Ha). apply in_map_iff in Hy as (c & Eq & Hc). apply in_seq in Ha, Hc.
      assert (X : forall i, act_pow l a i = act_pow l c (flip nw nh i)) by (intros i; rewrite <- Af, <- Ah; now rewrite Eq).
      assert (M : forall a, a mod nw < nw) by (intros; apply Nat.mod_upper_bound; lia).
      assert (Y : forall k, k < nw -> (k + a) mod nw = ((nw + 1) / 2 + nw - k + c) mod nw).
      { intros k Hk. specialize (X (nh + pbs nw k)). rewrite flip_pbs_odd, !l_pow in X by auto.
        rewrite Nat.add_mod_idemp_l in X by lia. apply (@pbs_inj nw); auto; lia. }
      assert (Y0 := Y 0 ltac:(lia)). assert (Y1 := Y 1 ltac:(lia)). set (e := (nw + 1) / 2) in *.
      assert (Z : (2 + (e + nw - 1 + c)) mod nw = (e + nw - 0 + c + 1) mod nw) by (f_equal; lia).
      rewrite <- (Nat.add_mod_idemp_r 2) in Z by lia. rewrite <- (Nat.add_mod_idemp_l (e + nw - 0 + c)) in Z by lia.
      rewrite <- Y0, <- Y1 in Z. rewrite Nat.add_mod_idemp_r, Nat.add_mod_idemp_l in Z by lia.
      assert (D1 := Nat.div_mod (2 + (1 + a)) nw ltac:(lia)). assert (D2 := Nat.div_mod (0 + a + 1) nw ltac:(lia)). rewrite Z in D1.
      assert (T : 2 = nw * ((2 + (1 + a)) / nw) - nw * ((0 + a + 1) / nw)) by lia.
      rewrite <- Nat.mul_sub_distr_l in T. destruct ((2 + (1 + a)) / nw - (0 + a + 1) / nw); nia.
  - intros x. rewrite C, in_app_iff, !in_map_iff. split.
    + intros [R (k & Hk & [Ax|Ax])]; [left|right]; exists k; (split; [|apply in_seq; lia]); apply (@row_b_ext m); auto; intros i; [rewrite Af|rewrite Ah]; now rewrite Ax.
    + intros [(k & <- & Hk)|(k & <- & Hk)]; apply in_seq in Hk; apply (@powers_flip_mod _ k); auto.
Qed.
End Flip.
End PB.

Lemma total_pblh nw nh : nh + nw <= 256 -> exists l, pblh (nh + nw) nh = Ret l /\ row256 l /\ length l = nh + nw.
Proof. intros H. destruct (@pblh_spec (nh + nw) nh H) as (l & E & R & L & _). eauto. Qed.

Lemma cyclic_r_spec nw nh nt l : 0 < nw -> nh + nw <= total nw nh nt <= 256 -> pblh (nh + nw) nh = Ret l -> exists n, forall fuel, n <= fuel ->
  exists g, cyclic_r fuel nw nh nt = Ret g /\ gb g = total nw nh nt /\ wf_group g /\ length (gv g) = nw /\
    forall x, In x (gv g) <-> row_b (total nw nh nt) x /\ exists k, k < nw /\ forall i, act x i = act_pow l k i.
Proof.
  intros Hn [H H256] El. unfold cyclic_r. fold (total nw nh nt). set (m := total nw nh nt) in *. rewrite El. cbn [bind].
  destruct (@l_row nw nh l Hn ltac:(lia) El) as (R & L & _).
  destruct (@group_of2_spec l (rounds m)) as [n Hf]; [auto|now apply rounds_row256|].
  exists n. intros fuel Hfu. destruct (Hf fuel Hfu) as (g & E & B & W & A). clear Hf.
  rewrite rounds_id in A, B by exact H256. rewrite id_length, L in *. replace (Nat.max (nh + nw) m) with m in * by lia.
  exists g. split; auto. split; auto. split; auto.
  assert (C : forall x, In x (gv g) <-> powers nw l m x).
  { intros x. rewrite A. apply (@powers_generated nw nh l Hn ltac:(lia) El m H H256); [now left|].
    intros y [<-|[<-|[]]].
    - apply (@powers_mod nw nh l Hn ltac:(lia) El m H H256 _ 1); [apply (@pad_l nw nh l Hn ltac:(lia) El m); lia|]. intros i. now rewrite act_pad.
    - apply (@powers_mod nw nh l Hn ltac:(lia) El m H H256 _ 0); [apply pad_row_b; [apply is_row_id|rewrite id_length; lia]|]. intros i. now rewrite act_pad, act_id. }
  split; [|exact C]. apply (@powers_count nw nh l Hn ltac:(lia) El m H H256 (gv g)); [apply row_sorted_nodup, W|exact C].
Qed.

Lemma dihedral_r_spec nw nh nt l : 0 < nw -> nh + nw <= total nw nh nt <= 256 -> pblh (nh + nw) nh = Ret l -> exists n, forall fuel, n <= fuel ->
  exists g, dihedral_r fuel nw nh nt = Ret g /\ gb g = total nw nh nt /\ wf_group g /\
    (Nat.even nw = false -> (3 <= nw -> length (gv g) = 2 * nw) /\
      forall x, In x (gv g) <-> row_b (total nw nh nt) x /\
        exists k, k < nw /\ ((forall i, act x i = act_pow l k i) \/ (forall i, act x i = act_pow l k (flip nw nh i)))) /\
    (Nat.even nw = true -> length (gv g) = nw /\
      forall x, In x (gv g) <-> row_b (total nw nh nt) x /\ exists k, k < nw /\ forall i, act x i = act_pow l k i).
Proof.
  intros Hn HH El. assert (H := proj1 HH). assert (H256 := proj2 HH). unfold dihedral_r. fold (total nw nh nt).
  destruct (@reverse_flip nw nh nt HH) as (r & Er & Rr & Ar). set (m := total nw nh nt) in *.
  assert (Er' : reverse_rounds3 nw nh m = Ret r).
  { unfold m, total in *. destruct (Nat.eqb_spec nt 0) as [->|]; auto. revert Er. unfold reverse_rounds3. cbn [Nat.eqb].
    destruct (Nat.eqb_spec (nh + nw) 0) as [E0|]; auto. }
  rewrite El. cbn [bind]. rewrite Er'. cbn [bind].
  destruct (@l_row nw nh l Hn ltac:(lia) El) as (R & L & _).
  destruct (@group_of2_spec l r) as [n Hf]; [auto|now apply (row_b_256 H256)|].
  exists n. intros fuel Hfu. destruct (Hf fuel Hfu) as (g & E & B & W & A). clear Hf.
  rewrite (proj2 Rr), L in *. replace (Nat.max (nh + nw) m) with m in * by lia.
  exists g. split; auto. split; auto. split; auto. assert (ND : NoDup (gv g)) by (apply row_sorted_nodup, W).
  split; intros Ev.
  - assert (C : forall x, In x (gv g) <-> powers_flip nw nh l m x).
    { intros x. rewrite A. apply (@flips_generated nw nh l Hn ltac:(lia) El m H H256 r Rr Ar Ev). }
    split; [|exact C]. intros H3. now apply (@flips_count nw nh l Hn ltac:(lia) El m H H256 r Rr Ar Ev (gv g)).
  - assert (C : forall x, In x (gv g) <-> powers nw l m x).
    { intros x. rewrite A. apply (@powers_generated nw nh l Hn ltac:(lia) El m H H256); [now left|].
      intros y [<-|[<-|[]]].
      - apply (@powers_mod nw nh l Hn ltac:(lia) El m H H256 _ 1); [apply (@pad_l nw nh l Hn ltac:(lia) El m); lia|]. intros i. now rewrite act_pad.
      - apply (@powers_mod nw nh l Hn ltac:(lia) El m H H256 _ (nw / 2)); [apply pad_row_b; [apply Rr|rewrite (proj2 Rr); lia]|].
        intros i. rewrite act_pad, Ar. apply (@flip_even nw nh l Hn ltac:(lia) El); auto. }
    split; [|exact C]. now apply (@powers_count nw nh l Hn ltac:(lia) El m H H256 (gv g)).
Qed.
