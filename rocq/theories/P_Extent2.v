(* P_Extent2.v - signs of the rows of the extent; the in-course half. *)
From Verif Require Import Base M_Bell M_Change M_Math M_Row M_Extent Spec_Row Spec_Change Spec_Extent Spec_Cycle
  P_Math P_Row P_Change2 P_Cycle P_Perm P_Extent.
Set Implicit Arguments.
Unset Strict Implicit.
Open Scope nat_scope.

Fixpoint invs (l : list nat) : Z := match l with [] => 0%Z | x :: t => (below x t + invs t)%Z end.
Definition sgnZ (n : Z) : Z := if Z.even n then 1%Z else (-1)%Z.

Lemma sgnZ_add a b : sgnZ (a + b) = (sgnZ a * sgnZ b)%Z.
Proof. unfold sgnZ. rewrite Z.even_add. destruct (Z.even a), (Z.even b); reflexivity. Qed.
Lemma sgnZ_succ a : sgnZ (a + 1) = (- sgnZ a)%Z.
Proof. rewrite sgnZ_add. change (sgnZ 1) with (-1)%Z. lia. Qed.

Lemma invs_nonneg l : (0 <= invs l)%Z.
Proof. induction l as [|x t IH]; cbn [invs]; [lia|]. assert (X := @below_range x t). lia. Qed.

Lemma invs_swap a x y b : y < x -> invs (a ++ x :: y :: b) = (invs (a ++ y :: x :: b) + 1)%Z.
Proof.
  intros H. induction a as [|z a IH]; cbn [app invs].
  - rewrite !below_cons. destruct (Nat.ltb_spec y x); [|lia]. destruct (Nat.ltb_spec x y); lia.
  - rewrite IH. rewrite (@below_perm z (a ++ x :: y :: b) (a ++ y :: x :: b)); [lia|].
    apply Permutation_app_head, perm_swap.
Qed.

Lemma below_0 x l : below x l = 0%Z -> forall y, In y l -> x <= y.
Proof.
  induction l as [|z l IH]; intros H y Hy; [destruct Hy|]. rewrite below_cons in H. assert (B := @below_range x l).
  destruct (Nat.ltb_spec z x); [lia|]. destruct Hy as [->|Hy]; [lia|]. apply IH; auto.
Qed.

Lemma invs_0_sorted l : NoDup l -> invs l = 0%Z -> StronglySorted lt l.
Proof.
  induction l as [|x t IH]; intros N H; [constructor|]. constructor; inversion_clear N as [|? ? N1 N2]; cbn [invs] in H;
    assert (B := @below_range x t); assert (I := @invs_nonneg t).
  - apply IH; auto. lia.
  - apply Forall_forall. intros y Hy. assert (x <= y) by (apply (@below_0 x t); auto; lia). assert (x <> y); [|lia]. intros ->. contradiction.
Qed.
Lemma sorted_invs l : StronglySorted lt l -> invs l = 0%Z.
Proof.
  induction 1 as [|x l S IH F]; [reflexivity|]. cbn [invs]. rewrite IH, below_none; [lia|].
  intros y Hy. rewrite Forall_forall in F. specialize (F y Hy). lia.
Qed.

Lemma descent l : NoDup l -> (0 < invs l)%Z -> exists a x y b, l = a ++ x :: y :: b /\ y < x.
Proof.
  induction l as [|x t IH]; intros N H; [cbn in H; lia|]. inversion_clear N as [|? ? N1 N2]. cbn [invs] in H.
  destruct (Z_lt_dec 0 (invs t)) as [P|P].
  - destruct (IH N2 P) as (a & u & v & b & -> & L). exists (x :: a), u, v, b. auto.
  - assert (I := @invs_nonneg t). assert (S := invs_0_sorted N2 ltac:(lia)).
    destruct t as [|y t]; [cbn in H; lia|]. exists [], x, y, t. split; auto.
    destruct (lt_dec y x); auto. exfalso. inversion_clear S as [|? ? S1 S2]. rewrite Forall_forall in S2.
    rewrite below_none in H; [lia|]. intros z [<-|Hz]; [lia|]. specialize (S2 z Hz). lia.
Qed.

Lemma sign_invs sym r : row256 r -> sign sym r = Ret (sgnZ (invs r)).
Proof.
  remember (Z.to_nat (invs r)) as n eqn:En. revert r En. induction n as [|n IH]; intros r En [P L].
  - assert (I := @invs_nonneg r). assert (N : NoDup r) by now apply is_row_iff in P.
    assert (S := invs_0_sorted N ltac:(lia)).
    assert (E : r = seq 0 (length r)) by (apply sorted_perm_unique; auto; apply sorted_seq).
    replace (invs r) with 0%Z by lia. rewrite E. change (seq 0 (length r)) with (id_row (length r)).
    rewrite <- rounds_id by exact L. rewrite sign_rounds by exact L. reflexivity.
  - assert (N : NoDup r) by now apply is_row_iff in P.
    destruct (@descent r N ltac:(lia)) as (a & x & y & b & -> & Lt).
    rewrite invs_swap in * by exact Lt. set (r' := a ++ y :: x :: b).
    assert (Pm : Permutation (a ++ x :: y :: b) r') by (apply Permutation_app_head, perm_swap).
    assert (Ll : length r' = length (a ++ x :: y :: b)) by (now rewrite (Permutation_length Pm)).
    assert (P' : is_row r'). { unfold is_row in *. rewrite Ll, <- P. now apply Permutation_sym. }
    assert (I := @invs_nonneg r').
    assert (S' : sign sym r' = Ret (sgnZ (invs r'))).
    { apply IH; [unfold r' in *; lia|]. split; auto. rewrite Ll. exact L. }
    destruct (@sign_transp sym r' (a ++ x :: y :: b) (length a) (length a + 1) P' P) as (s & _ & E1 & E2).
    + now rewrite Ll.
    + unfold r'. rewrite app_length. cbn. lia.
    + unfold r'. rewrite app_length. cbn. lia.
    + lia.
    + intros i. unfold transp, act, r'.
      destruct (Nat.eqb_spec i (length a)) as [->|N1].
      { rewrite !app_nth2 by lia. rewrite Nat.sub_diag. replace (length a + 1 - length a) with 1 by lia. reflexivity. }
      destruct (Nat.eqb_spec i (length a + 1)) as [->|N2].
      { rewrite !app_nth2 by lia. rewrite Nat.sub_diag. replace (length a + 1 - length a) with 1 by lia. reflexivity. }
      destruct (lt_dec i (length a)); [now rewrite !app_nth1 by lia|]. rewrite !app_nth2 by lia.
      destruct (i - length a) as [|[|k]] eqn:Ek; [lia|lia|reflexivity].
    + rewrite E2. rewrite S' in E1. injection E1 as <-. unfold r'. now rewrite sgnZ_succ.
Qed.

Lemma invs_app a b : (forall x y, In x a -> In y b -> x <= y) -> invs (a ++ b) = (invs a + invs b)%Z.
Proof.
  induction a as [|z a IH]; intros H; [reflexivity|]. cbn [app invs]. rewrite IH by (intros; apply H; auto; now right).
  rewrite below_app, (@below_none z b); [lia|]. intros y Hy. apply H; auto. now left.
Qed.

Lemma invs_ext_row nw nh nt w : Permutation w (seq nh nw) -> invs (ext_row nw nh nt w) = invs w.
Proof.
  intros P. assert (R : forall x, In x w -> nh <= x < nh + nw).
  { intros x Hx. apply (Permutation_in _ P) in Hx. apply in_seq in Hx. lia. }
  unfold ext_row. rewrite invs_app, invs_app, !(sorted_invs (sorted_seq _ _)); [lia| |].
  - intros x y Hx Hy. apply in_seq in Hy. apply R in Hx. lia.
  - intros x y Hx Hy. apply in_seq in Hx. apply in_app_or in Hy as [Hy|Hy]; [apply R in Hy; lia|apply in_seq in Hy; lia].
Qed.

(* --- factorial digits --- *)
Fixpoint digs (l : list nat) : list Z := match l with [] => [] | x :: t => digs t ++ [below x t] end.
Fixpoint val (i : Z) (ds : list Z) : Z := match ds with [] => 0 | d :: t => d + i * val (i + 1) t end%Z.
Fixpoint sumZ (ds : list Z) : Z := match ds with [] => 0 | d :: t => d + sumZ t end%Z.
Fixpoint digs_ok (i : Z) (ds : list Z) : Prop := match ds with [] => True | d :: t => (0 <= d < i)%Z /\ digs_ok (i + 1) t end.
Fixpoint rising (i : Z) (k : nat) : Z := match k with O => 1 | S k => i * rising (i + 1) k end%Z.

Lemma rising_S k : forall i, rising i (S k) = (rising i k * (i + Z.of_nat k))%Z.
Proof.
  induction k as [|k IH]; intros i; [cbn [rising]; lia|]. change (rising i (S (S k))) with (i * rising (i + 1) (S k))%Z.
  rewrite IH. change (rising i (S k)) with (i * rising (i + 1) k)%Z. lia.
Qed.
Lemma rising_fac k : rising 1 k = fac k.
Proof. induction k as [|k IH]; [reflexivity|]. rewrite rising_S, IH, fac_S. lia. Qed.
Lemma val_snoc ds d : forall i, val i (ds ++ [d]) = (val i ds + rising i (length ds) * d)%Z.
Proof. induction ds as [|e ds IH]; intros i; cbn [app val length rising]; [lia|]. rewrite IH. lia. Qed.
Lemma digs_ok_snoc ds d : forall i, digs_ok i ds -> (0 <= d < i + Z.of_nat (length ds))%Z -> digs_ok i (ds ++ [d]).
Proof.
  induction ds as [|e ds IH]; intros i H Hd; cbn [app digs_ok length] in *; [split; [lia|exact I]|].
  destruct H as [H1 H2]. split; auto. apply IH; auto. lia.
Qed.
Lemma digs_length l : length (digs l) = length l.
Proof. induction l as [|x t IH]; [reflexivity|]. cbn [digs]. rewrite app_length, IH. cbn. lia. Qed.
Lemma rank_val l : rank l = val 1 (digs l).
Proof. induction l as [|x t IH]; [reflexivity|]. cbn [rank digs]. rewrite val_snoc, rising_fac, digs_length, IH. lia. Qed.
Lemma digs_digs_ok l : digs_ok 1 (digs l).
Proof.
  induction l as [|x t IH]; [exact I|]. cbn [digs]. apply digs_ok_snoc; auto. rewrite digs_length.
  assert (B := @below_range x t). lia.
Qed.
Lemma sumZ_app a b : sumZ (a ++ b) = (sumZ a + sumZ b)%Z.
Proof. induction a; cbn; lia. Qed.
Lemma sum_digs l : sumZ (digs l) = invs l.
Proof. induction l as [|x t IH]; [reflexivity|]. cbn [digs invs]. rewrite sumZ_app, IH. cbn. lia. Qed.

Lemma val_nonneg ds : forall i, (0 <= i)%Z -> digs_ok i ds -> (0 <= val i ds)%Z.
Proof. induction ds as [|d ds IH]; intros i Hi H; cbn [val digs_ok] in *; [lia|]. destruct H as [H1 H2]. specialize (IH (i + 1)%Z ltac:(lia) H2). nia. Qed.
Lemma val_zero ds : forall i, (0 < i)%Z -> digs_ok i ds -> val i ds = 0%Z -> sumZ ds = 0%Z.
Proof.
  induction ds as [|d ds IH]; intros i Hi H E; cbn [val digs_ok sumZ] in *; [lia|]. destruct H as [H1 H2].
  assert (V := @val_nonneg ds (i + 1)%Z ltac:(lia) H2). rewrite (IH (i + 1)%Z); auto; nia.
Qed.

Lemma sign_loop_val ds : forall fuel i s, (0 < i)%Z -> digs_ok i ds -> length ds <= fuel ->
  sign_loop fuel i (val i ds) s = Ret (s * sgnZ (sumZ ds))%Z.
Proof.
  induction ds as [|d ds IH]; intros fuel i s Hi H Hf.
  - cbn [val sumZ]. destruct fuel; cbn [sign_loop Z.eqb]; f_equal; change (sgnZ 0) with 1%Z; lia.
  - destruct (Z.eq_dec (val i (d :: ds)) 0) as [E|N].
    + rewrite (@val_zero (d :: ds) i Hi H E), E. destruct fuel; cbn [sign_loop Z.eqb]; f_equal; change (sgnZ 0) with 1%Z; lia.
    + destruct fuel as [|fuel]; [cbn in Hf; lia|]. cbn [sign_loop]. destruct (Z.eqb_spec (val i (d :: ds)) 0); [contradiction|].
      cbn [val digs_ok sumZ] in *. destruct H as [H1 H2].
      replace ((d + i * val (i + 1) ds) / i)%Z with (val (i + 1) ds).
      2:{ rewrite Z.mul_comm, Z.div_add by lia. rewrite Z.div_small by lia. lia. }
      replace ((d + i * val (i + 1) ds) mod i)%Z with d.
      2:{ rewrite Z.mul_comm, Z.mod_add by lia. rewrite Z.mod_small by lia. lia. }
      rewrite IH; [|lia|auto|cbn in Hf; lia]. f_equal. rewrite sgnZ_add.
      unfold sgnZ at 2. rewrite Zeven_mod. destruct (d mod 2 =? 0)%Z eqn:Ed.
      * unfold Zeq_bool. apply Z.eqb_eq in Ed. rewrite Ed. cbn [Z.compare]. lia.
      * unfold Zeq_bool. apply Z.eqb_neq in Ed. assert (X := Z.mod_pos_bound d 2 ltac:(lia)).
        replace (d mod 2)%Z with 1%Z by lia. cbn [Z.compare]. lia.
Qed.

Lemma sign_rank_fuel l f : length l <= f -> sign_loop f 1 (rank l) 1 = Ret (sgnZ (invs l)).
Proof.
  intros H. rewrite rank_val, sign_loop_val; [|lia|apply digs_digs_ok|now rewrite digs_length].
  rewrite sum_digs. f_equal. lia.
Qed.
Lemma sign_of_rank l : length l <= 70 -> sign_of_nth_row_of_extent (rank l) = Ret (sgnZ (invs l)).
Proof.
  intros H. unfold sign_of_nth_row_of_extent. rewrite rank_val, sign_loop_val; [|lia|apply digs_digs_ok|now rewrite digs_length].
  rewrite sum_digs. f_equal. lia.
Qed.

Lemma in_extent_row256 nw nh nt r : nt <= 256 -> in_extent nw nh nt r -> row256 r.
Proof. intros H (P & L & _). split; auto. lia. Qed.

Lemma sign_in_extent sym nw nh nt r : nh + nw <= nt -> nt <= 256 -> in_extent nw nh nt r ->
  sign sym r = Ret (sgnZ (invs (working nw nh r))).
Proof.
  intros H H256 E. rewrite sign_invs by (now apply in_extent_row256 with (nw := nw) (nh := nh) (nt := nt)).
  rewrite (proj1 (in_extent_shape H E)) at 1. rewrite invs_ext_row by now apply working_perm with (nt := nt). reflexivity.
Qed.

Lemma sign_of_position sym nw nh nt r : nh + nw <= nt -> nt <= 256 -> nw <= 70 -> in_extent nw nh nt r ->
  sign sym r = sign_of_nth_row_of_extent (erank nw nh r).
Proof.
  intros H H256 H70 E. rewrite (sign_in_extent sym H H256 E). unfold erank.
  rewrite sign_of_rank; [reflexivity|]. now rewrite (working_length H E).
Qed.

(* --- the in-course half --- *)
Lemma last_two (l : list nat) : 2 <= length l -> exists a x y, l = a ++ [x; y].
Proof.
  intros H. destruct (@exists_last _ l) as (l1 & y & ->); [destruct l; [cbn in H; lia|discriminate]|].
  destruct (@exists_last _ l1) as (a & x & ->).
  - intros ->. cbn in H. lia.
  - exists a, x, y. now rewrite <- app_assoc.
Qed.
Lemma rank_swap a x y : x < y -> rank (a ++ [y; x]) = (rank (a ++ [x; y]) + 1)%Z.
Proof.
  intros H. induction a as [|z a IH]; cbn [app rank].
  - cbn. rewrite !below_cons. unfold below. cbn [filter length]. destruct (Nat.ltb_spec x y); [|lia]. destruct (Nat.ltb_spec y x); [lia|]. cbn. lia.
  - rewrite IH. rewrite !app_length. cbn [length]. rewrite (@below_perm z (a ++ [y; x]) (a ++ [x; y])); [lia|]. apply Permutation_app_head, perm_swap.
Qed.
Lemma fac_even n : 2 <= n -> Z.even (fac n) = true.
Proof.
  induction 1 as [|n H IH]; [reflexivity|]. rewrite fac_S, Z.even_mul, IH. apply orb_true_r.
Qed.
Lemma rank_parity a x y : Z.even (rank (a ++ [x; y])) = negb (y <? x).
Proof.
  induction a as [|z a IH]; cbn [app rank].
  - cbn [length]. rewrite below_cons. unfold below. cbn [filter length rank fac]. destruct (y <? x); reflexivity.
  - rewrite Z.even_add, Z.even_mul, fac_even, IH by (rewrite app_length; cbn; lia). rewrite orb_true_r. destruct (negb _); reflexivity.
Qed.

Lemma sign_loop_neg fuel : forall i m s, (s = 1 \/ s = -1)%Z ->
  match sign_loop fuel i m s with Ret z => (z = 1 \/ z = -1)%Z /\ sign_loop fuel i m (- s) = Ret (- z)%Z | _ => True end.
Proof.
  induction fuel as [|fuel IH]; intros i m s Hs; cbn [sign_loop]; destruct (m =? 0)%Z; auto.
  destruct ((m mod i) mod 2 =? 0)%Z; [apply IH; auto|].
  exact (IH (i + 1)%Z (m / i)%Z (- s)%Z ltac:(lia)).
Qed.
Lemma sign_loop_pair f n z : (0 <= n)%Z -> sign_loop (S (S f)) 1 (2 * n) 1 = Ret z ->
  sign_loop (S (S f)) 1 (2 * n + 1) 1 <> Ret z.
Proof.
  intros Hn E. cbn [sign_loop] in *. rewrite !Z.div_1_r, !Z.mod_1_r in *. change (0 mod 2 =? 0)%Z with true in *. cbn iota in *.
  change (1 + 1)%Z with 2%Z in *.
  destruct (Z.eqb_spec (2 * n + 1) 0); [lia|].
  replace ((2 * n + 1) / 2)%Z with n by (rewrite Z.mul_comm, Z.div_add_l by lia; cbn; lia).
  replace ((2 * n + 1) mod 2)%Z with 1%Z by (rewrite Z.add_comm, Z.mul_comm, Z.mod_add by lia; reflexivity).
  change (1 mod 2 =? 0)%Z with false. cbn iota.
  assert (G := @sign_loop_neg f (2 + 1)%Z n 1%Z (or_introl eq_refl)).
  assert (E' : sign_loop f (2 + 1) n 1 = Ret z).
  { destruct (Z.eqb_spec (2 * n) 0).
    - assert (n = 0%Z) by lia. subst n. injection E as <-. destruct f; reflexivity.
    - replace (2 * n / 2)%Z with n in E by (rewrite Z.mul_comm, Z.div_mul by lia; lia).
      replace ((2 * n) mod 2)%Z with 0%Z in E by (rewrite Z.mul_comm, Z.mod_mul by lia; reflexivity).
      change (0 mod 2 =? 0)%Z with true in E. exact E. }
  rewrite E' in G. destruct G as [G1 G2]. rewrite G2. intros X. injection X as X. lia.
Qed.
Lemma sign_pair l l' : length l = length l' -> (rank l / 2 = rank l' / 2)%Z -> sgnZ (invs l) = sgnZ (invs l') ->
  rank l = rank l'.
Proof.
  intros L R S. assert (A := @sign_rank_fuel l (Datatypes.S (Datatypes.S (length l))) ltac:(lia)).
  assert (B := @sign_rank_fuel l' (Datatypes.S (Datatypes.S (length l))) ltac:(lia)). rewrite S in A. clear S.
  revert A B. generalize (sgnZ (invs l')). intros z A B.
  assert (Rl := @rank_range l). assert (Rl' := @rank_range l').
  assert (D1 := Z.div_mod (rank l) 2 ltac:(lia)). assert (D2 := Z.div_mod (rank l') 2 ltac:(lia)).
  assert (M1 := Z.mod_pos_bound (rank l) 2 ltac:(lia)). assert (M2 := Z.mod_pos_bound (rank l') 2 ltac:(lia)).
  assert (Hk : (0 <= rank l / 2)%Z) by (apply Z.div_pos; lia).
  set (k := (rank l / 2)%Z) in *. rewrite <- R in D2.
  destruct (Z.eq_dec (rank l) (rank l')) as [|Ne]; auto. exfalso.
  assert (C : (rank l = 2 * k /\ rank l' = 2 * k + 1 \/ rank l = 2 * k + 1 /\ rank l' = 2 * k)%Z) by lia.
  destruct C as [[C1 C2]|[C1 C2]]; rewrite C1 in A; rewrite C2 in B.
  - exact (sign_loop_pair Hk A B).
  - exact (sign_loop_pair Hk B A).
Qed.

Lemma row_swap_last nw nh nt a x y r' c : nh + nw <= nt -> Permutation (a ++ [x; y]) (seq nh nw) ->
  cswaps c = [nh + nw - 2] -> length r' = nt ->
  (forall i, act r' i = act (ext_row nw nh nt (a ++ [x; y])) (swap_pos (cswaps c) i)) ->
  r' = ext_row nw nh nt (a ++ [y; x]).
Proof.
  intros H P C L A. assert (Lw : length (a ++ [x; y]) = nw) by (rewrite (Permutation_length P); apply seq_length).
  assert (La : length a + 2 = nw) by (rewrite app_length in Lw; cbn in Lw; lia).
  assert (Lw' : length (a ++ [y; x]) = nw) by (rewrite app_length in *; exact Lw).
  apply act_ext; [now rewrite ext_row_length|]. intros i Hi. rewrite A, !act_ext_row by auto.
  unfold swap_pos. rewrite C.
  destruct (in_dec Nat.eq_dec i [nh + nw - 2]) as [[E|[]]|N1].
  - subst i. destruct (Nat.ltb_spec (nh + nw - 2 + 1) nh); [lia|]. destruct (Nat.ltb_spec (nh + nw - 2) nh); [lia|].
    destruct (Nat.ltb_spec (nh + nw - 2 + 1) (nh + nw)); [|lia]. destruct (Nat.ltb_spec (nh + nw - 2) (nh + nw)); [|lia].
    rewrite !app_nth2 by lia. replace (nh + nw - 2 + 1 - nh - length a) with 1 by lia. replace (nh + nw - 2 - nh - length a) with 0 by lia. reflexivity.
  - destruct (in_dec Nat.eq_dec (i - 1) [nh + nw - 2]) as [[E|[]]|N2].
    + destruct (Nat.eqb_spec i 0) as [Ei|Ei]; [exfalso; apply N1; left; lia|].
      assert (i = nh + nw - 1) by lia. subst i. destruct (Nat.ltb_spec (nh + nw - 1 - 1) nh); [lia|]. destruct (Nat.ltb_spec (nh + nw - 1) nh); [lia|].
      destruct (Nat.ltb_spec (nh + nw - 1 - 1) (nh + nw)); [|lia]. destruct (Nat.ltb_spec (nh + nw - 1) (nh + nw)); [|lia].
      rewrite !app_nth2 by lia. replace (nh + nw - 1 - nh - length a) with 1 by lia. replace (nh + nw - 1 - 1 - nh - length a) with 0 by lia. reflexivity.
    + destruct (Nat.ltb_spec i nh); auto. destruct (Nat.ltb_spec i (nh + nw)); auto.
      assert (i - nh < length a). { destruct (lt_dec (i - nh) (length a)); auto. exfalso. cbn in N1, N2. lia. }
      now rewrite !app_nth1 by lia.
Qed.

Lemma nth_incourse_spec sym n nw nh nt : nh + nw <= 255 -> nh + nw <= nt -> nt <= 256 -> nw <= 13 ->
  (0 <= n)%Z -> (2 * n < fac nw)%Z ->
  exists r, nth_row_of_incourse_extent sym n nw nh nt = Ret r /\ in_extent nw nh nt r /\ sign sym r = Ret 1%Z /\
    (erank nw nh r / 2 = n)%Z.
Proof.
  intros H255 H H256 H13 Hn Hn2. unfold nth_row_of_incourse_extent.
  rewrite u64_small by (split; [lia|]; assert (X := @fac_20 nw ltac:(lia)); lia).
  destruct (@nth_row_spec (n * 2) nw nh nt) as (r & E & I & R); auto; [lia|]. rewrite E. cbn [bind].
  rewrite (sign_in_extent sym H H256 I). cbn [bind]. unfold sgnZ. destruct (Z.even (invs (working nw nh r))) eqn:Ev.
  - cbn [Z.ltb Z.compare]. exists r. split; auto. split; auto. split.
    + rewrite (sign_in_extent sym H H256 I). unfold sgnZ. now rewrite Ev.
    + rewrite R. now rewrite Z.div_mul by lia.
  - cbn [Z.ltb Z.compare]. assert (Lw := working_length H I).
    assert (L2 : 2 <= nw).
    { destruct (le_lt_dec 2 nw); auto. exfalso. destruct (working nw nh r) as [|x [|y t]]; cbn in Ev, Lw; try discriminate. lia. }
    destruct (@last_two (working nw nh r)) as (a & x & y & Ew); [lia|].
    assert (Pw := working_perm H I). assert (Sh := proj1 (in_extent_shape H I)). unfold erank in R. rewrite Ew in *.
    assert (Lxy : x < y).
    { assert (P2 := rank_parity a x y). rewrite R in P2. rewrite Z.mul_comm, Z.even_mul in P2. cbn [Z.even orb] in P2.
      assert (Nd : NoDup (a ++ [x; y])) by (apply (Permutation_NoDup (Permutation_sym Pw)), seq_NoDup).
      apply NoDup_app_iff in Nd as (_ & Nd & _). inversion_clear Nd as [|? ? Nd1 _].
      destruct (Nat.ltb_spec y x); [discriminate|]. assert (x <> y) by (intros ->; apply Nd1; now left). lia. }
    unfold swappair, change_empty. cbn [cn cswaps]. replace (zb8 (Z.of_nat (nw + nh) - 2)) with (nh + nw - 2).
    2:{ unfold zb8. rewrite Z.mod_small by (split; lia). lia. }
    destruct (Nat.ltb_spec nt (nh + nw - 2 + 2)); [lia|]. cbn [swappair_loop bind app].
    set (c := mkChange nt [nh + nw - 2]).
    assert (Wc : wf_change c) by (unfold wf_change, c; cbn [cn cswaps pairs_ok]; lia).
    destruct (@row_mul_change_spec r c (in_extent_row256 H256 I) Wc ltac:(cbn; lia)) as (r' & E' & V' & L' & A').
    rewrite E'. exists r'. split; auto.
    assert (Lr : length r = nt) by apply I.
    assert (X : r' = ext_row nw nh nt (a ++ [y; x])).
    { apply row_swap_last with (c := c); auto. { rewrite L', Lr. cbn. lia. } intros i. rewrite A'. rewrite Sh at 1. reflexivity. }
    assert (Pw' : Permutation (a ++ [y; x]) (seq nh nw)).
    { rewrite <- Pw. apply Permutation_app_head, perm_swap. }
    assert (Lw' : length (a ++ [y; x]) = nw) by (rewrite (Permutation_length Pw'); apply seq_length).
    subst r'. assert (I' := in_extent_ext_row H Pw'). split; auto. split.
    + rewrite (sign_in_extent sym H H256 I'), working_ext_row by auto. rewrite invs_swap by exact Lxy. rewrite sgnZ_succ.
      unfold sgnZ. now rewrite Ev.
    + unfold erank. rewrite working_ext_row by auto. rewrite rank_swap by exact Lxy. rewrite R.
      rewrite Z.div_add_l by lia. cbn. lia.
Qed.
