(* P_MethUtils2.v - the coursing order. *)
From Verif Require Import Base M_Bell M_Change M_Row M_Method M_MethUtils Spec_Row Spec_Change Spec_Group Spec_Touch Spec_Method Spec_MethUtils
  P_Bell P_Row P_Change P_Change2 P_Named P_Cycle P_Group P_TSearch6 P_False4 P_LeadHeads P_LeadHeads2.
Set Implicit Arguments.
Unset Strict Implicit.
Open Scope nat_scope.

Lemma least_nat (P : nat -> Prop) (D : forall k, P k \/ ~ P k) k : P k -> exists j, j <= k /\ P j /\ forall i, i < j -> ~ P i.
Proof.
  revert P D; induction k as [|k IH]; intros P D H; [exists 0; split; [lia|]; split; [exact H|lia]|].
  destruct (D 0) as [Z|Z]; [exists 0; split; [lia|]; split; [exact Z|lia]|].
  destruct (IH (fun j => P (S j)) (fun j => D (S j)) H) as (j & J1 & J2 & J3). exists (S j). split; [lia|]. split; [exact J2|]. intros [|i] Hi; [exact Z|]. apply J3. lia.
Qed.
Section O.
Variables (n : nat) (l : row).
Hypothesis (N2 : 2 <= n) (B : n <= 255) (R : row_b n l).
Lemma pow_lt k b : b < n -> act_pow l k b < n.
Proof using N2 B R. intros H. rewrite <- (proj2 R). apply act_pow_lt; [apply R|]. now rewrite (proj2 R). Qed.
Lemma step_get b : b < n -> vget l b = Ret (act l b).
Proof using N2 B R. intros H. rewrite (@vget_lt nat _ _ 0) by (rewrite (proj2 R); exact H). now rewrite act_nth_lt by (rewrite (proj2 R); exact H). Qed.
(* the tenor comes back within n leads *)
Lemma back_in_n : exists k, 0 < k <= n /\ act_pow l k (n - 1) = n - 1.
Proof using N2 B R.
  destruct (@cycle_size_spec l (n - 1) (proj1 R)) as (k & _ & Hk & E & _); [rewrite (proj2 R); lia|]. exists k. rewrite (proj2 R) in Hk. auto.
Qed.
Definition tenor j := act_pow l j (n - 1).
Lemma first_stop : exists i, 0 < i <= n /\ n - 2 <= tenor i /\ forall j, 0 < j < i -> tenor j < n - 2.
Proof using N2 B R.
  destruct back_in_n as (k & Hk & E). destruct (@least_nat (fun j => 0 < j /\ n - 2 <= tenor j)) with (k := k) as (j & J1 & [J2 J3] & J4).
  - intros j. destruct (le_lt_dec j 0), (le_lt_dec (n - 2) (tenor j)); [right|right|left|right]; lia.
  - unfold tenor. lia.
  - exists j. split; [lia|]. split; [exact J3|]. intros i Hi. destruct (le_lt_dec (n - 2) (tenor i)) as [X|X]; [|exact X]. exfalso. apply (J4 i); [lia|]. split; [lia|exact X].
Qed.
Lemma tt_first_spec i : 0 < i <= n -> n - 2 <= tenor i -> (forall j, 0 < j < i -> tenor j < n - 2) -> forall fuel, i <= fuel -> tt_first fuel l n (n - 1) 0 = Ret (tenor i, i).
Proof using N2 B R.
  intros Hi Ti NT. assert (G : forall d j, j + d = i -> 0 < d -> forall fuel, d <= fuel -> tt_first fuel l n (tenor j) j = Ret (tenor i, i)).
  { induction d as [|d IH]; intros j E D fuel F; [lia|]. destruct fuel as [|fuel]; [lia|]. cbn [tt_first]. rewrite step_get by (apply pow_lt; lia). cbn [bind]. change (act l (tenor j)) with (tenor (S j)).
    destruct (Nat.leb_spec (S j) n); [|lia]. cbn [negb]. destruct (Nat.eq_dec d 0) as [->|Nd].
    - replace (S j) with i by lia. destruct (Z.ltb_spec (Z.of_nat (tenor i)) (Z.of_nat n - 2)); [lia|reflexivity].
    - specialize (NT (S j) ltac:(lia)). destruct (Z.ltb_spec (Z.of_nat (tenor (S j))) (Z.of_nat n - 2)); [|lia]. apply IH; lia. }
  intros fuel F. apply (G i 0); lia.
Qed.
Lemma cg_spec i : 0 < i -> forM (seq 1 (i - 1)) (fun cg _ => mul cg l) l = Ret (pw n l i).
Proof using N2 B R.
  intros Hi. assert (G : forall k a, forM (seq a k) (fun cg _ => mul cg l) l = Ret (pw n l (S k))).
  { induction k as [|k IH]; intros a; [cbn [seq forM pw]; now rewrite (comp_id_l R)|]. rewrite seq_S, forM_app, IH. cbn [bind forM].
    rewrite mul_comp by (eapply row_b_256; [|first [apply (pwb R)|exact R]]; lia). reflexivity. }
  rewrite G. now replace (S (i - 1)) with i by lia.
Qed.
Lemma cg_get i b : b < n -> vget (pw n l i) b = Ret (act_pow l i b).
Proof using N2 B R. intros H. assert (P := pwb R i). rewrite (@vget_lt nat _ _ 0) by (rewrite (proj2 P); exact H). rewrite act_nth_lt by (rewrite (proj2 P); exact H). rewrite act_pw by (apply R || (rewrite (proj2 R); lia)). reflexivity. Qed.
Lemma tenor_step i j : act_pow l i (tenor (i * j)) = tenor (i * S j).
Proof. unfold tenor. rewrite <- act_pow_add. f_equal. lia. Qed.
Lemma tt_print_spec i k : 1 < k -> tenor (i * k) = n - 1 -> (forall j, 0 < j < k -> tenor (i * j) <> n - 1) -> forall fuel, k <= fuel ->
  tt_print fuel default_symtab (pw n l i) n (tenor (i * 1)) = Ret (concat (map (print_bell default_symtab) (map (fun j => tenor (i * j)) (seq 2 (k - 1))))).
Proof using N2 B R.
  intros Hk E NE. assert (G : forall d j, 0 < j -> j + d = k -> 0 < d -> forall fuel, d <= fuel -> tt_print fuel default_symtab (pw n l i) n (tenor (i * j)) = Ret (concat (map (print_bell default_symtab) (map (fun j => tenor (i * j)) (seq (S j) d))))).
  { induction d as [|d IH]; intros j Hj Ej D fuel F; [lia|]. destruct fuel as [|fuel]; [lia|]. cbn [tt_print]. rewrite cg_get by (apply pow_lt; lia). cbn [bind]. rewrite tenor_step. cbn [seq map concat].
    destruct (Nat.eq_dec d 0) as [->|Nd].
    - replace (S j) with k by lia. rewrite E, Nat.eqb_refl. cbn [negb seq map concat]. now rewrite app_nil_r.
    - assert (X := NE (S j) ltac:(lia)). destruct (Nat.eqb_spec (tenor (i * S j)) (n - 1)); [contradiction|]. cbn [negb]. rewrite IH by lia. reflexivity. }
  intros fuel F. apply G; lia.
Qed.
End O.

Lemma coursing_spec m : wf_method m -> 2 <= mb m -> exists l, lh m = Ret l /\ exists N, forall fuel, N <= fuel ->
  ((forall k, act_pow l k (mb m - 1) <> mb m - 2) /\ tenors_together_coursing_order default_symtab fuel m = Ret None) \/
  (exists bs, coursing_order l (mb m) bs /\ tenors_together_coursing_order default_symtab fuel m = Ret (Some (concat (map (print_bell default_symtab) bs)))).
Proof.
  intros W N2. assert (B := proj1 W). destruct (lh_rung W) as (l & El & R & _). exists l. split; [exact El|]. set (n := mb m) in *.
  destruct (first_stop N2 B R) as (i & Hi & Ti & NT). fold n in Hi, Ti, NT. unfold tenors_together_coursing_order. rewrite El. cbn [bind]. fold n.
  assert (T1 : tenor n l i < n) by (apply (pow_lt N2 B R); lia). destruct (Nat.eq_dec (tenor n l i) (n - 1)) as [E|E].
  - exists i. intros fuel F. left. rewrite (tt_first_spec N2 B R Hi Ti NT F). cbn [bind]. rewrite E, Nat.eqb_refl. split; [|reflexivity].
    intros k Hk. assert (P : forall q r, act_pow l (q * i + r) (n - 1) = act_pow l r (n - 1)).
    { intros q r. rewrite Nat.add_comm, act_pow_add. f_equal. induction q as [|q IH]; [reflexivity|]. cbn [Nat.mul]. rewrite act_pow_add, IH. exact E. }
    rewrite (Nat.div_mod k i), Nat.mul_comm, P in Hk by lia. assert (M := Nat.mod_upper_bound k i ltac:(lia)). destruct (k mod i) as [|r] eqn:Er; [cbn in Hk; lia|]. specialize (NT (S r) ltac:(lia)). unfold tenor in NT. lia.
  - assert (E2 : tenor n l i = n - 2) by lia. destruct (@pw_order n l (proj1 R) ltac:(rewrite (proj2 R); lia)) as (o & Eo).
    assert (Fo : forall b, act_pow l (S o) b = b) by now apply (pw_id R).
    assert (Fi : act_pow l (i * S o) (n - 1) = n - 1). { clear -Fo. induction i as [|i IH]; [reflexivity|]. cbn [Nat.mul]. rewrite act_pow_add, IH. apply Fo. }
    destruct (@least_nat (fun k => 0 < k /\ act_pow l (i * k) (n - 1) = n - 1)) with (k := S o) as (k & _ & [K1 K2] & K3).
    { intros k. destruct (le_lt_dec k 0), (Nat.eq_dec (act_pow l (i * k) (n - 1)) (n - 1)); [right|right|left|right]; lia. }
    { split; [lia|exact Fi]. }
    assert (K : 1 < k). { destruct (Nat.eq_dec k 1) as [->|]; [|lia]. rewrite Nat.mul_1_r in K2. unfold tenor in E2. lia. }
    exists (i + k). intros fuel F. right. exists (map (fun j => act_pow l (i * j) (n - 1)) (seq 1 k)). split.
    + exists i, k. split; [|split; [lia|]; split; [exact K2|]; split; [|reflexivity]].
      * split; [lia|]. split; [exact E2|]. intros j Hj. specialize (NT j Hj). unfold tenor in NT. lia.
      * intros j Hj X. apply (K3 j); [lia|]. split; [lia|exact X].
    + rewrite (tt_first_spec N2 B R Hi Ti NT) by lia. cbn [bind]. destruct (Nat.eqb_spec (tenor n l i) (n - 1)); [contradiction|]. rewrite E2, Nat.eqb_refl. cbn [negb]. rewrite (cg_spec N2 B R) by lia. cbn [bind]. rewrite <- E2. replace i with (i * 1) at 2 by lia.
      rewrite (@tt_print_spec n l N2 B R i k) by (assumption || lia || (intros j Hj X; apply (K3 j); [lia|split; [lia|exact X]])). cbn [bind]. do 2 f_equal.
      replace (seq 1 k) with (1 :: seq 2 (k - 1)) by (replace k with (S (k - 1)) at 2 by lia; reflexivity). cbn [map concat]. f_equal. now rewrite Nat.mul_1_r.
Qed.
