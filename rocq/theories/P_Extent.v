(* P_Extent.v - numbering of the extent. *)
From Verif Require Import Base M_Bell M_Change M_Math M_Row M_Extent Spec_Row Spec_Change Spec_Extent P_Math P_Row P_Perm.
Set Implicit Arguments.
Unset Strict Implicit.
Open Scope nat_scope.

(* --- the shape of a row of the extent --- *)
Definition ext_row (nw nh nt : nat) (w : list nat) : list nat := seq 0 nh ++ w ++ seq (nh + nw) (nt - (nh + nw)).
Definition working (nw nh : nat) (r : list nat) : list nat := firstn nw (skipn nh r).

Lemma ext_row_length nw nh nt w : nh + nw <= nt -> length w = nw -> length (ext_row nw nh nt w) = nt.
Proof. intros H L. unfold ext_row. rewrite !app_length, !seq_length. lia. Qed.

Lemma seq_split3 nw nh nt : nh + nw <= nt -> seq 0 nt = ext_row nw nh nt (seq nh nw).
Proof.
  intros H. unfold ext_row. replace nt with (nh + (nw + (nt - (nh + nw)))) at 1 by lia.
  rewrite !seq_app. reflexivity.
Qed.

Lemma act_ext_row nw nh nt w i : nh + nw <= nt -> length w = nw ->
  act (ext_row nw nh nt w) i = if (i <? nh) then i else if i <? nh + nw then nth (i - nh) w 0 else i.
Proof.
  intros H L. unfold act, ext_row. destruct (Nat.ltb_spec i nh).
  - rewrite app_nth1 by (rewrite seq_length; lia). rewrite seq_nth by lia. reflexivity.
  - rewrite app_nth2 by (rewrite seq_length; lia). rewrite seq_length. destruct (Nat.ltb_spec i (nh + nw)).
    + rewrite app_nth1 by lia. apply nth_indep. lia.
    + rewrite app_nth2 by lia. destruct (lt_dec i nt).
      * rewrite seq_nth by lia. lia.
      * rewrite nth_overflow; [reflexivity|rewrite seq_length; lia].
Qed.

Lemma in_extent_ext_row nw nh nt w : nh + nw <= nt -> Permutation w (seq nh nw) -> in_extent nw nh nt (ext_row nw nh nt w).
Proof.
  intros H P. assert (L : length w = nw) by (apply Permutation_length in P; now rewrite seq_length in P).
  split; [|split; [now apply ext_row_length|]].
  - unfold is_row. rewrite ext_row_length by auto. rewrite (seq_split3 H). unfold ext_row.
    apply Permutation_app_head, Permutation_app_tail. exact P.
  - intros i Hi. rewrite act_ext_row by auto. destruct (Nat.ltb_spec i nh); auto. destruct (Nat.ltb_spec i (nh + nw)); [lia|auto].
Qed.

Lemma working_ext_row nw nh nt w : length w = nw -> working nw nh (ext_row nw nh nt w) = w.
Proof.
  intros L. unfold working, ext_row. rewrite skipn_app, seq_length, Nat.sub_diag. rewrite (skipn_all2 (seq 0 nh)) by (rewrite seq_length; lia).
  cbn [app skipn]. rewrite firstn_app, L, Nat.sub_diag. cbn [firstn]. rewrite app_nil_r. rewrite <- L. apply firstn_all.
Qed.

Lemma in_extent_shape nw nh nt r : nh + nw <= nt -> in_extent nw nh nt r ->
  r = ext_row nw nh nt (working nw nh r) /\ Permutation (working nw nh r) (seq nh nw).
Proof.
  intros H (P & L & F). assert (Lw : length (working nw nh r) = nw) by (unfold working; rewrite firstn_length, skipn_length; lia).
  assert (E : r = ext_row nw nh nt (working nw nh r)).
  { apply act_ext; [now rewrite ext_row_length|]. intros i Hi. rewrite act_ext_row by auto.
    destruct (Nat.ltb_spec i nh); [apply F; lia|]. destruct (Nat.ltb_spec i (nh + nw)); [|apply F; lia].
    unfold working. rewrite <- (firstn_skipn nh r) at 1. rewrite (@act_nth _ _ 0) by (rewrite app_length, firstn_length, skipn_length; lia).
    rewrite app_nth2 by (rewrite firstn_length; lia). rewrite firstn_length. replace (Nat.min nh (length r)) with nh by lia.
    rewrite <- (firstn_skipn nw (skipn nh r)) at 1. rewrite app_nth1; [reflexivity|]. rewrite firstn_length, skipn_length. lia. }
  split; auto. unfold is_row in P. rewrite L, (seq_split3 H), E in P. unfold ext_row in P.
  apply Permutation_app_inv_l in P. now apply Permutation_app_inv_r in P.
Qed.

Lemma working_perm nw nh nt r : nh + nw <= nt -> in_extent nw nh nt r -> Permutation (working nw nh r) (seq nh nw).
Proof. intros H E. now apply (in_extent_shape H E). Qed.
Lemma working_NoDup nw nh nt r : nh + nw <= nt -> in_extent nw nh nt r -> NoDup (working nw nh r).
Proof. intros H E. apply (Permutation_NoDup (Permutation_sym (working_perm H E))), seq_NoDup. Qed.
Lemma working_length nw nh nt r : nh + nw <= nt -> in_extent nw nh nt r -> length (working nw nh r) = nw.
Proof. intros H E. rewrite (Permutation_length (working_perm H E)). apply seq_length. Qed.

(* the number of a row of the extent *)
Definition erank (nw nh : nat) (r : list nat) : Z := rank (working nw nh r).
Lemma erank_range nw nh nt r : nh + nw <= nt -> in_extent nw nh nt r -> (0 <= erank nw nh r < fac nw)%Z.
Proof. intros H E. unfold erank. assert (X := rank_range (working nw nh r)). now rewrite (working_length H E) in X. Qed.
Lemma erank_inj nw nh nt r r' : nh + nw <= nt -> in_extent nw nh nt r -> in_extent nw nh nt r' ->
  erank nw nh r = erank nw nh r' -> r = r'.
Proof.
  intros H E E' R. rewrite (proj1 (in_extent_shape H E)), (proj1 (in_extent_shape H E')). f_equal.
  apply rank_inj; auto. { rewrite (working_perm H E). apply Permutation_sym, (working_perm H E'). } now apply working_NoDup with (nt := nt).
Qed.

Lemma lex_app_l a x y : lex_lt (a ++ x) (a ++ y) <-> lex_lt x y.
Proof. induction a as [|z a IH]; cbn; [tauto|]. rewrite IH. split; [intros [H|[_ H]]; [lia|auto]|auto]. Qed.
Lemma lex_app_r z : forall x y, length x = length y -> lex_lt (x ++ z) (y ++ z) <-> lex_lt x y.
Proof.
  induction x as [|a x IH]; intros [|b y] L; try discriminate; cbn.
  - split; [intros H; exfalso; exact (lex_irrefl H)|tauto].
  - cbn in L. rewrite IH by lia. tauto.
Qed.
Lemma erank_lex nw nh nt r r' : nh + nw <= nt -> in_extent nw nh nt r -> in_extent nw nh nt r' ->
  lex_lt r r' <-> (erank nw nh r < erank nw nh r')%Z.
Proof.
  intros H E E'. unfold erank. rewrite <- rank_iff.
  - rewrite (proj1 (in_extent_shape H E)) at 1. rewrite (proj1 (in_extent_shape H E')) at 1. unfold ext_row. rewrite lex_app_l.
    apply lex_app_r. now rewrite (working_length H E), (working_length H E').
  - rewrite (working_perm H E). apply Permutation_sym, (working_perm H E').
  - now apply working_NoDup with (nt := nt).
Qed.

(* --- position_in_extent --- *)
Lemma check_loop r a b : b <= length r ->
  forN a b (fun (_ : unit) i => b <- vget r i ;; if b =? i then Ret tt else Throw OutOfRange) tt =
  if forallb (fun i => act r i =? i) (seq a (b - a)) then Ret tt else Throw OutOfRange.
Proof.
  intros H. unfold forN. assert (G : forall l, (forall i, In i l -> i < length r) ->
    forM l (fun (_ : unit) i => b <- vget r i ;; if b =? i then Ret tt else Throw OutOfRange) tt =
    if forallb (fun i => act r i =? i) l then Ret tt else Throw OutOfRange).
  { induction l as [|i l IH]; intros Hl; [reflexivity|]. cbn [forM forallb].
    rewrite (@vget_lt _ _ _ i) by (apply Hl; now left). cbn [bind]. fold (act r i).
    destruct (act r i =? i); cbn [bind andb]; [|reflexivity]. apply IH. intros; apply Hl; now right. }
  apply G. intros i Hi. apply in_seq in Hi. lia.
Qed.

Definition two64 : Z := 18446744073709551616%Z.
Lemma u64_small z : (0 <= z < two64)%Z -> u64 z = z.
Proof. intros H. unfold u64. apply Z.mod_small. exact H. Qed.

Section Position.
Variables (r : list nat) (nw nh nt : nat).
Hypothesis (Hn : nh + nw <= nt) (Hh : nh <= length r) (Hr : is_row r).

Let ibody (i : nat) := fun (x : Z) (j : nat) => if j <? length r then
        a <- vget r j ;; b <- vget r i ;; Ret (if a <? b then u64 (x + 1) else x)
      else Ret x.
Lemma inner_loop i : forall m j x, i < j -> (0 <= x)%Z -> (x + Z.of_nat m < two64)%Z ->
  forM (seq j m) (ibody i) x = Ret (x + below (act r i) (map (act r) (seq j m)))%Z.
Proof.
  induction m as [|m IH]; intros j x Hj Hx Hb; cbn [seq forM map].
  - unfold below. cbn. f_equal. lia.
  - rewrite below_cons.
    assert (E : ibody i x j = Ret (x + if (act r j <? act r i)%nat then 1 else 0)%Z).
    { unfold ibody. destruct (Nat.ltb_spec j (length r)) as [Lj|Lj].
      - rewrite (@vget_lt _ _ j j) by exact Lj. rewrite (@vget_lt _ _ i i) by lia. cbn [bind].
        fold (act r j) (act r i). destruct (act r j <? act r i).
        + rewrite u64_small by (unfold two64 in *; lia). reflexivity.
        + f_equal. lia.
      - f_equal. rewrite (act_ge Lj).
        assert (~ j < act r i); [|destruct (Nat.ltb_spec j (act r i)); lia].
        destruct (lt_dec i (length r)) as [Li|Li]; [generalize (act_lt Hr Li); lia|rewrite act_ge by lia; lia]. }
    rewrite E. cbn [bind]. destruct (act r j <? act r i); rewrite IH by lia; f_equal; lia.
Qed.

Lemma outer_loop : forall m i x, i + m = nw + nh -> (0 <= x)%Z -> (x * fac m + fac m <= two64)%Z ->
  forM (seq i m) (fun x i => forN (i + 1) (nw + nh) (ibody i) (u64 (x * Z.of_nat (nw + nh - i)))) x =
  Ret (x * fac m + rank (map (act r) (seq i m)))%Z.
Proof.
  induction m as [|m IH]; intros i x Hm Hx Hb; cbn [seq forM map rank].
  - f_equal. cbn. lia.
  - rewrite map_length, seq_length. rewrite fac_S in *.
    assert (F := fac_pos m). replace (nw + nh - i) with (S m) by lia.
    assert (B := below_range (act r i) (map (act r) (seq (S i) m))). rewrite map_length, seq_length in B.
    assert (F2 : (Z.of_nat m + 1 <= fac (S m))%Z) by (rewrite fac_S; nia).
    rewrite u64_small by nia.
    unfold forN at 1. replace (nw + nh - (i + 1)) with m by lia. replace (i + 1) with (S i) by lia.
    rewrite inner_loop; [|lia|nia|rewrite fac_S in F2; nia]. cbn [bind].
    rewrite IH; [|lia|nia|nia]. f_equal. ring_simplify. nia.
Qed.
End Position.

Lemma fac_mono a b : a <= b -> (fac a <= fac b)%Z.
Proof. induction 1 as [|b H IH]; [lia|]. rewrite fac_S. assert (X := fac_pos b). nia. Qed.
Lemma fac_20 nw : nw <= 20 -> (fac nw <= two64)%Z.
Proof. intros H. apply fac_mono in H. replace (fac 20) with 2432902008176640000%Z in H by reflexivity. unfold two64. lia. Qed.

Lemma working_acts nw nh nt r : nh + nw <= nt -> in_extent nw nh nt (pad nt r) ->
  working nw nh (pad nt r) = map (act r) (seq nh nw).
Proof.
  intros H E. apply (nth_ext_d _ _ 0).
  - rewrite (working_length H E), map_length, seq_length. reflexivity.
  - rewrite (working_length H E). intros i Hi.
    assert (X := proj1 (in_extent_shape H E)).
    assert (Y : act (pad nt r) (nh + i) = nth i (working nw nh (pad nt r)) 0).
    { rewrite X at 1. rewrite act_ext_row by (auto; now apply working_length with (nt := nt)).
      destruct (Nat.ltb_spec (nh + i) nh); [lia|]. destruct (Nat.ltb_spec (nh + i) (nh + nw)); [|lia]. f_equal. lia. }
    rewrite <- Y, act_pad. rewrite nth_indep with (d' := act r 0) by (rewrite map_length, seq_length; lia).
    rewrite map_nth, seq_nth by lia. reflexivity.
Qed.

(* a row may be given on fewer bells than nt if there are no tenors *)
Lemma position_spec r nw nh nt : nh + nw <= nt -> nw <= 20 -> is_row r ->
  nh <= length r <= nt -> (nh + nw < nt -> length r = nt) -> in_extent nw nh nt (pad nt r) ->
  position_in_extent r nw nh nt = Ret (erank nw nh (pad nt r)).
Proof.
  intros H H20 Hr HL HT E. unfold position_in_extent. destruct (Nat.ltb_spec nt (length r)); [lia|].
  assert (A : forall i, i < nh \/ nh + nw <= i -> act r i = i).
  { intros i Hi. rewrite <- (@act_pad nt). now apply E. }
  rewrite check_loop by lia.
  replace (forallb (fun i => act r i =? i) (seq 0 (nh - 0))) with true.
  2:{ symmetry. apply forallb_forall. intros i Hi. apply in_seq in Hi. apply Nat.eqb_eq, A. lia. }
  cbn [bind].
  replace (forN (nh + nw) nt _ tt) with (@Ret unit tt).
  2:{ destruct (lt_dec (nh + nw) nt) as [L|L].
      - rewrite check_loop by (rewrite HT by exact L; lia). symmetry.
        replace (forallb (fun i => act r i =? i) (seq (nh + nw) (nt - (nh + nw)))) with true; auto.
        symmetry. apply forallb_forall. intros i Hi. apply in_seq in Hi. apply Nat.eqb_eq, A. lia.
      - unfold forN. replace (nt - (nh + nw)) with 0 by lia. reflexivity. }
  cbn [bind]. unfold forN at 1. replace (nw + nh - nh) with nw by lia.
  rewrite outer_loop with (nt := nt); try (assumption || lia || (rewrite Z.mul_0_l; now apply fac_20)).
  unfold erank. rewrite (working_acts H E). f_equal.
Qed.

Lemma position_reject r nw nh nt : nh + nw <= nt -> is_row r -> length r = nt -> ~ in_extent nw nh nt r ->
  position_in_extent r nw nh nt = Throw OutOfRange.
Proof.
  intros H Hr HL N. unfold position_in_extent. destruct (Nat.ltb_spec nt (length r)); [lia|].
  rewrite !check_loop by lia.
  destruct (forallb (fun i => act r i =? i) (seq 0 (nh - 0))) eqn:F1; [|reflexivity]. cbn [bind].
  destruct (forallb (fun i => act r i =? i) (seq (nh + nw) (nt - (nh + nw)))) eqn:F2; [|reflexivity]. exfalso. apply N.
  rewrite forallb_forall in F1, F2. split; auto. split; auto. intros i [Hi|Hi].
  - apply Nat.eqb_eq, F1, in_seq. lia.
  - destruct (lt_dec i nt); [apply Nat.eqb_eq, F2, in_seq; lia|]. apply act_ge. lia.
Qed.
Lemma position_too_long r nw nh nt : nt < length r -> position_in_extent r nw nh nt = Throw OutOfRange.
Proof. intros H. unfold position_in_extent. destruct (Nat.ltb_spec nt (length r)); [reflexivity|lia]. Qed.

(* --- nth_row_of_extent --- *)
Lemma upd_app A (a : list A) x b y : upd (a ++ x :: b) (length a) y = a ++ y :: b.
Proof.
  unfold upd. rewrite firstn_app, Nat.sub_diag, firstn_all. cbn [firstn]. rewrite app_nil_r. f_equal. f_equal.
  replace (S (length a)) with (length (a ++ [x])) by (rewrite app_length; cbn; lia).
  replace (a ++ x :: b) with ((a ++ [x]) ++ b) by (now rewrite <- app_assoc). rewrite skipn_app, Nat.sub_diag, skipn_all. reflexivity.
Qed.

Lemma fill_loop m : forall a c z, length c = m -> length a + m <= 256 ->
  forM (seq (length a) m) (fun v i => vset v i (b8 i)) (a ++ c ++ z) = Ret (a ++ seq (length a) m ++ z).
Proof.
  induction m as [|m IH]; intros a c z L B.
  - destruct c; [reflexivity|discriminate].
  - destruct c as [|x c]; [discriminate|]. cbn [seq forM app]. rewrite vset_lt by (rewrite app_length; cbn; lia). cbn [bind].
    rewrite upd_app, b8_small by lia.
    replace (a ++ length a :: c ++ z) with ((a ++ [length a]) ++ c ++ z) by (now rewrite <- app_assoc).
    assert (La : length (a ++ [length a]) = S (length a)) by (rewrite app_length; cbn; lia).
    specialize (IH (a ++ [length a]) c z). rewrite La in IH. rewrite IH; [|cbn in L; lia|lia].
    rewrite <- app_assoc. reflexivity.
Qed.

Lemma below_S x s : NoDup s -> below (S x) s = (below x s + if existsb (Nat.eqb x) s then 1 else 0)%Z.
Proof.
  induction s as [|y s IH]; intros N; [reflexivity|]. inversion_clear N as [|? ? N1 N2]. rewrite !below_cons, IH by exact N2.
  cbn [existsb]. destruct (Nat.eqb_spec x y) as [->|Ne].
  - cbn [orb]. destruct (Nat.ltb_spec y (S y)); [|lia]. rewrite Nat.ltb_irrefl.
    destruct (existsb (Nat.eqb y) s) eqn:Ex; [|lia]. apply existsb_exists in Ex as (z & Hz & Ez). apply Nat.eqb_eq in Ez. subst. contradiction.
  - cbn [orb]. destruct (Nat.ltb_spec y (S x)), (Nat.ltb_spec y x); lia.
Qed.

Lemma below_gap x y s : NoDup s -> x <= y -> (below y s - below x s <= Z.of_nat y - Z.of_nat x)%Z.
Proof.
  intros N. induction 1 as [|y H IH]; [lia|]. rewrite below_S by exact N. destruct existsb; lia.
Qed.

Lemma ob_loop_spec nh nw p s k : nh + nw <= 255 -> Permutation (p ++ s) (seq nh nw) -> StronglySorted lt s -> k < length s ->
  forall fuel ob b, nh <= ob <= S (nth k s 0) -> S (nth k s 0) - ob <= fuel ->
  Z.of_nat b = (Z.of_nat k + Z.of_nat ob - below ob s)%Z ->
  ob_loop fuel ob b (seq 0 nh ++ p) = Ret (nth k s 0).
Proof.
  intros H P S Hk. set (bs := nth k s 0).
  assert (N : NoDup (p ++ s)) by (apply (Permutation_NoDup (Permutation_sym P)), seq_NoDup).
  assert (Ns : NoDup s) by (apply NoDup_app_iff in N; tauto).
  assert (Bs := @sorted_below s k S Hk). fold bs in Bs.
  assert (Ins : In bs s) by (apply nth_In; exact Hk).
  assert (Bs' : below (Datatypes.S bs) s = (Z.of_nat k + 1)%Z).
  { rewrite below_S, Bs by exact Ns. replace (existsb (Nat.eqb bs) s) with true; [reflexivity|].
    symmetry. apply existsb_exists. exists bs. split; auto. apply Nat.eqb_refl. }
  assert (Rg : nh <= bs < nh + nw).
  { assert (X : In bs (seq nh nw)) by (apply (Permutation_in _ P), in_or_app; auto). apply in_seq in X. lia. }
  induction fuel as [|fuel IH]; intros ob b Ho Hf Hb.
  - assert (ob = Datatypes.S bs) by lia. subst ob. cbn [ob_loop].
    rewrite Bs' in Hb. assert (b = bs) by lia. subst b. destruct (Nat.leb_spec (Datatypes.S bs) bs); [lia|reflexivity].
  - cbn [ob_loop]. destruct (Nat.leb_spec ob b) as [L|L].
    + assert (Ho' : ob <= bs).
      { destruct (Nat.eq_dec ob (Datatypes.S bs)) as [->|]; [|lia]. rewrite Bs' in Hb. lia. }
      assert (G := @below_gap ob bs s Ns Ho'). rewrite Bs in G.
      assert (Hbb : b <= bs) by lia.
      rewrite b8_small by lia. replace (ob + 1) with (Datatypes.S ob) by lia.
      assert (Ino : In ob (p ++ s)) by (apply (Permutation_in _ (Permutation_sym P)), in_seq; lia).
      destruct (in_dec Nat.eq_dec ob p) as [Ip|Np].
      * replace (existsb (Nat.eqb ob) (seq 0 nh ++ p)) with true.
        2:{ symmetry. apply existsb_exists. exists ob. split; [apply in_or_app; auto|apply Nat.eqb_refl]. }
        assert (Nos : ~ In ob s) by (intros X; apply NoDup_app_iff in N as (_ & _ & N); exact (N ob Ip X)).
        assert (Ob : ob <> bs) by (intros ->; contradiction).
        assert (Bo : below (Datatypes.S ob) s = below ob s).
        { rewrite below_S by exact Ns. destruct (existsb (Nat.eqb ob) s) eqn:Ex; [|lia].
          apply existsb_exists in Ex as (z & Hz & Ez). apply Nat.eqb_eq in Ez. subst. contradiction. }
        assert (G' := @below_gap (Datatypes.S ob) bs s Ns ltac:(lia)). rewrite Bs, Bo in G'.
        rewrite b8_small by lia. apply IH; [lia|lia|]. rewrite Bo. lia.
      * replace (existsb (Nat.eqb ob) (seq 0 nh ++ p)) with false.
        2:{ symmetry. destruct (existsb (Nat.eqb ob) (seq 0 nh ++ p)) eqn:Ex; auto. apply existsb_exists in Ex as (z & Hz & Ez).
            apply Nat.eqb_eq in Ez. subst z. apply in_app_or in Hz as [Hz|Hz]; [apply in_seq in Hz; lia|contradiction]. }
        apply in_app_or in Ino as [|Ins']; [contradiction|].
        apply IH; [lia|lia|]. rewrite below_S by exact Ns.
        replace (existsb (Nat.eqb ob) s) with true; [lia|]. symmetry. apply existsb_exists. exists ob. split; auto. apply Nat.eqb_refl.
    + assert (ob = Datatypes.S bs); [|subst ob; rewrite Bs' in Hb; f_equal; lia].
      assert (Z.of_nat k < below ob s)%Z by lia. destruct (Nat.eq_dec ob (Datatypes.S bs)); auto. exfalso.
      assert (X := @below_mono ob bs s ltac:(lia)). lia.
Qed.

Lemma fac_zfact n : fac n = zfact n.
Proof. induction n as [|n IH]; [reflexivity|]. cbn [fac zfact]. now rewrite IH. Qed.
Lemma factorial_12 n : n <= 12 -> factorial n = fac n.
Proof.
  intros H. rewrite factorial_spec, <- fac_zfact. unfold u32. apply Z.mod_small. split; [assert (X := fac_pos n); lia|].
  apply fac_mono in H. replace (fac 12) with 479001600%Z in H by reflexivity. lia.
Qed.

Lemma sorted_remove s k : StronglySorted lt s -> k < length s ->
  exists s', Permutation s (nth k s 0 :: s') /\ StronglySorted lt s'.
Proof.
  intros S Hk. exists (firstn k s ++ skipn (Datatypes.S k) s).
  assert (E : s = firstn k s ++ nth k s 0 :: skipn (Datatypes.S k) s).
  { clear S. revert k Hk. induction s as [|a s IH]; intros k Hk; [cbn in Hk; lia|]. destruct k; cbn; [reflexivity|]. f_equal. apply IH. cbn in Hk. lia. }
  split; [rewrite E at 1; apply Permutation_sym, Permutation_middle|].
  rewrite E in S at 1. apply SSorted_app_iff in S as (S1 & S2 & S3). inversion_clear S2 as [|? ? S4 S5].
  apply SSorted_app_iff. split; auto. split; auto. intros x y Hx Hy. apply S3; auto. now right.
Qed.

Lemma nth_row_loop nw nh nt : nh + nw <= 255 -> nh + nw <= nt -> nw <= 13 ->
  forall m p s n, length s = m -> StronglySorted lt s -> Permutation (p ++ s) (seq nh nw) -> (0 <= n < fac m)%Z ->
  exists q n', forM (seq (nh + length p) m) (nth_row_step nw nh) (seq 0 nh ++ p ++ repeat 0 (nt - nh - length p), n) =
    Ret (seq 0 nh ++ (p ++ q) ++ repeat 0 (nt - nh - nw), n') /\ Permutation q s /\ rank q = n.
Proof.
  intros H255 H H13. induction m as [|m IH]; intros p s n Ls S P Hn.
  - destruct s; [|discriminate]. exists [], n. cbn [seq forM]. rewrite !app_nil_r in *.
    assert (L : length p = nw) by (apply Permutation_length in P; now rewrite seq_length in P).
    rewrite L. split; auto. split; auto. cbn in *. lia.
  - assert (Lp : length p + Datatypes.S m = nw) by (apply Permutation_length in P; rewrite app_length, seq_length in P; lia).
    cbn [seq forM]. unfold nth_row_step at 1. replace (nw + nh - (nh + length p) - 1) with m by lia.
    rewrite factorial_12 by lia. assert (F := fac_pos m). destruct (Z.eqb_spec (fac m) 0); [lia|].
    rewrite fac_S in Hn. set (k := Z.to_nat (n / fac m)).
    assert (Hk : (0 <= n / fac m < Z.of_nat (Datatypes.S m))%Z).
    { split; [apply Z.div_pos; lia|apply Z.div_lt_upper_bound; lia]. }
    assert (Hkl : k < length s) by (unfold k; lia).
    rewrite b8_small by lia.
    replace (zb8 (n / fac m + Z.of_nat nh)) with (k + nh).
    2:{ unfold zb8. rewrite Z.mod_small by (split; lia). unfold k. lia. }
    assert (Lf : length (seq 0 nh ++ p) = nh + length p) by (rewrite app_length, seq_length; reflexivity).
    assert (Fi : firstn (nh + length p) (seq 0 nh ++ p ++ repeat 0 (nt - nh - length p)) = seq 0 nh ++ p).
    { rewrite app_assoc. rewrite firstn_app, <- Lf, Nat.sub_diag, firstn_all. cbn [firstn]. apply app_nil_r. }
    rewrite Fi.
    assert (Ink : In (nth k s 0) (seq nh nw)).
    { apply (Permutation_in _ P), in_or_app. right. now apply nth_In. }
    apply in_seq in Ink.
    rewrite (@ob_loop_spec nh nw p s k); auto; [|lia|unfold ob_fuel; lia|].
    2:{ rewrite below_none; [lia|]. intros y Hy.
        assert (In y (seq nh nw)) by (apply (Permutation_in _ P), in_or_app; auto). apply (in_seq nw nh y) in H0. lia. }
    cbn [bind].
    destruct (nt - nh - length p) as [|t] eqn:Et; [lia|]. cbn [repeat].
    rewrite vset_lt by (rewrite !app_length, seq_length; cbn; lia). cbn [bind].
    rewrite app_assoc, <- Lf, upd_app.
    destruct (sorted_remove S Hkl) as (s' & Ps & Ss).
    destruct (IH (p ++ [nth k s 0]) s' (n mod fac m)%Z) as (q & n' & E & Pq & Rq).
    + apply Permutation_length in Ps. cbn in Ps. lia.
    + exact Ss.
    + rewrite <- app_assoc. cbn [app]. rewrite <- P. apply Permutation_app_head. now apply Permutation_sym.
    + apply Z.mod_pos_bound. lia.
    + exists (nth k s 0 :: q), n'. split; [|split].
      * rewrite app_length in E. cbn [length] in E. replace (nt - nh - (length p + 1)) with t in E by lia.
        replace (nh + (length p + 1)) with (Datatypes.S (nh + length p)) in E by lia.
        rewrite Lf. rewrite <- !app_assoc in E. cbn [app] in E. rewrite <- !app_assoc. cbn [app]. exact E.
      * apply Permutation_sym. apply (Permutation_trans Ps). constructor. now apply Permutation_sym.
      * cbn [rank]. rewrite Rq.
        assert (Lq : length q = m) by (rewrite (Permutation_length Pq); apply Permutation_length in Ps; cbn in Ps; lia).
        rewrite Lq. assert (Bq : below (nth k s 0) q = Z.of_nat k).
        { rewrite (below_perm _ Pq). rewrite <- (@sorted_below s k S Hkl). rewrite (below_perm _ Ps), below_cons, Nat.ltb_irrefl. lia. }
        rewrite Bq. unfold k. rewrite Z2Nat.id by lia. rewrite Z.mul_comm. symmetry. apply Z.div_mod. lia.
Qed.

Lemma nth_row_spec n nw nh nt : nh + nw <= 255 -> nh + nw <= nt -> nt <= 256 -> nw <= 13 -> (0 <= n < fac nw)%Z ->
  exists r, nth_row_of_extent n nw nh nt = Ret r /\ in_extent nw nh nt r /\ erank nw nh r = n.
Proof.
  intros H255 H H256 H13 Hn. unfold nth_row_of_extent, forN. rewrite Nat.sub_0_r.
  assert (R0 : repeat 0 nt = [] ++ repeat 0 nh ++ repeat 0 (nt - nh)).
  { cbn [app]. rewrite <- repeat_app. f_equal. lia. }
  assert (F0 := @fill_loop nh [] (repeat 0 nh) (repeat 0 (nt - nh))). cbn [length app] in F0, R0. rewrite repeat_length in F0.
  rewrite R0, F0 by lia.
  cbn [bind app length]. replace (nw + nh - nh) with nw by lia.
  destruct (@nth_row_loop nw nh nt H255 H H13 nw [] (seq nh nw) n) as (q & n' & E & Pq & Rq).
  - apply seq_length. - apply sorted_seq. - reflexivity. - exact Hn.
  - cbn [length app] in E. rewrite Nat.add_0_r, Nat.sub_0_r in E. rewrite E. cbn [bind].
    assert (Lq : length q = nw) by (rewrite (Permutation_length Pq); apply seq_length).
    replace (nw + nh) with (length (seq 0 nh ++ q)) by (rewrite app_length, seq_length; lia).
    rewrite app_assoc. replace (repeat 0 (nt - nh - nw)) with (repeat 0 (nt - nh - nw) ++ []) by apply app_nil_r.
    rewrite (@fill_loop (nt - length (seq 0 nh ++ q))).
    2:{ rewrite repeat_length, app_length, seq_length. lia. }
    2:{ rewrite app_length, seq_length. lia. }
    cbn [bind]. rewrite app_nil_r.
    assert (X : (seq 0 nh ++ q) ++ seq (length (seq 0 nh ++ q)) (nt - length (seq 0 nh ++ q)) = ext_row nw nh nt q).
    { unfold ext_row. rewrite <- app_assoc. rewrite app_length, seq_length, Lq. reflexivity. }
    rewrite X. assert (I := in_extent_ext_row H Pq). exists (ext_row nw nh nt q). split; [apply row_of_vector_spec, I|]. split; auto.
    unfold erank. now rewrite working_ext_row.
Qed.
