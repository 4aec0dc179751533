(* P_LeadHeads.v - lead heads and half lead heads. *)
From Verif Require Import Base M_Bell M_Change M_Row M_LeadHeads Spec_Row Spec_Change Spec_Cycle Spec_Group Spec_LeadHeads
  P_Bell P_Row P_Change2 P_Cycle P_Order P_Named P_Group P_TSearch6.
Set Implicit Arguments.
Unset Strict Implicit.
Open Scope nat_scope.

(* --- the scan of the cycles --- *)
Section Scan.
Variables (A : lhargs).
Definition seg_ok (l : list nat) : bool :=
  if length l =? 1 then (la_front A - 1 <=? hd 0 l) && (hd 0 l <? la_front A - 1 + la_hunts A)
  else length l + la_hunts A =? la_bells A.
Hypothesis F1 : 1 <= la_front A.
Lemma scan_map l s start k : lh_scan default_symtab A start k (map (to_char default_symtab) l ++ s) = lh_scan default_symtab A start (k + length l) s.
Proof.
  revert k; induction l as [|b l IH]; intros k; cbn [map app length]; [now rewrite Nat.add_0_r|].
  cbn [lh_scan]. rewrite to_char_comma, IH. f_equal. lia.
Qed.
Lemma scan_join cs : forall l, Forall (fun l => l <> [] /\ forall b, In b l -> b < 33) (l :: cs) ->
  let s := join_comma (map (map (to_char default_symtab)) (l :: cs)) in
  lh_scan default_symtab A s 0 s = Ret (forallb seg_ok (removelast (l :: cs))).
Proof.
  induction cs as [|l' cs IH]; intros l F; cbv zeta.
  - cbn [map join_comma removelast forallb]. set (s := map (to_char default_symtab) l) at 1. rewrite <- (app_nil_r (map (to_char default_symtab) l)), scan_map. reflexivity.
  - change (join_comma (map (map (to_char default_symtab)) (l :: l' :: cs)))
      with (map (to_char default_symtab) l ++ chr "," :: join_comma (map (map (to_char default_symtab)) (l' :: cs))).
    inversion_clear F as [|? ? [Nl Bl] F']. rewrite scan_map. cbn [Nat.add lh_scan]. change (eqc (chr ",") (chr ",")) with true. cbv iota.
    change (removelast (l :: l' :: cs)) with (l :: removelast (l' :: cs)). cbn [forallb]. rewrite (IH l' F'). set (fb := forallb seg_ok _). unfold seg_ok. clearbody fb.
    destruct (Nat.eqb_spec (length l) 1) as [E|E].
    + destruct l as [|b l]; [congruence|]. destruct (read_char_to_char (Bl b (or_introl eq_refl))) as (c & Ec & R & _). cbn [map app hd]. rewrite Ec, R. cbn [bind].
      destruct (Z.ltb_spec (Z.of_nat b) (Z.of_nat (la_front A) - 1)), (Z.leb_spec (Z.of_nat (la_front A) - 1 + Z.of_nat (la_hunts A)) (Z.of_nat b)), (Nat.leb_spec (la_front A - 1) b), (Nat.ltb_spec b (la_front A - 1 + la_hunts A)); cbn [orb andb]; try lia; reflexivity.
    + destruct (length l + la_hunts A =? la_bells A); reflexivity.
Qed.
End Scan.

Lemma removelast_in {X} (l : list X) x : In x l -> In x (removelast l) \/ exists l', l = l' ++ [x].
Proof.
  induction l as [|a l IH]; [intros []|]. intros H. destruct l as [|b l]; [destruct H as [<-|[]]; right; exists []; reflexivity|].
  change (removelast (a :: b :: l)) with (a :: removelast (b :: l)). destruct H as [<-|H]; [left; now left|]. destruct (IH H) as [I|(l' & E)]; [left; now right|]. right. exists (a :: l'). now rewrite E.
Qed.
Lemma removelast_sub {X} (l : list X) x : In x (removelast l) -> In x l.
Proof. induction l as [|a [|b l] IH]; [intros []|intros []|]. change (removelast (a :: b :: l)) with (a :: removelast (b :: l)). intros [<-|H]; [now left|right; auto]. Qed.

Section Orbit.
Variables (A : lhargs) (lh : list nat).
Notation n := (la_bells A).
Notation h := (la_hunts A).
Notation f := (la_front A - 1).
Hypothesis (R : is_row lh) (L : length lh = n) (F1 : 1 <= la_front A) (FH : f + h <= n) (H2 : 2 <= n - h).
Hypothesis HF : forall i, hunt f h i -> act lh i = i.
Variable cs : list (list nat).
Hypothesis D : decomp (act lh) n cs.

Lemma pow_is k i : fpow (act lh) k i = act_pow lh k i.
Proof. apply fpow_act_pow. Qed.
Lemma hunt_dec b : {hunt f h b} + {~ hunt f h b}.
Proof. unfold hunt. destruct (le_dec f b), (lt_dec b (f + h)); [left|right|right|right]; lia. Qed.
Lemma hunt_alone c b : In c cs -> In b c -> hunt f h b -> length c = 1.
Proof.
  intros Hc Hb H. destruct (decomp_in D Hc) as (C & ND & _ & _).
  assert (X : fpow (act lh) 1 b = b) by (cbn; now apply HF). apply (cycle_period 1 C ND Hb) in X. apply Nat.divide_1_r in X. exact X.
Qed.
Definition workers : list nat := filter (fun b => if hunt_dec b then false else true) (seq 0 n).
Lemma workers_in b : In b workers <-> b < n /\ ~ hunt f h b.
Proof. unfold workers. rewrite filter_In, in_seq. destruct (hunt_dec b); intuition (try discriminate; lia). Qed.
Lemma workers_length : length workers = n - h.
Proof.
  assert (P : Permutation (workers ++ seq f h) (seq 0 n)).
  { apply NoDup_Permutation; [|apply seq_NoDup|].
    - apply NoDup_app_iff. split; [apply NoDup_filter, seq_NoDup|]. split; [apply seq_NoDup|]. intros x Hx Hy. apply workers_in in Hx as [_ Hx]. apply in_seq in Hy. apply Hx. unfold hunt. lia.
    - intros x. rewrite in_app_iff, workers_in, !in_seq. unfold hunt. destruct (le_lt_dec f x), (le_lt_dec (f + h) x); lia. }
  apply Permutation_length in P. rewrite app_length, !seq_length in P. lia.
Qed.
(* a cycle with a working bell that passes has them all *)
Lemma full_cycle c b : In c cs -> In b c -> ~ hunt f h b -> seg_ok A c = true -> forall j, j < n -> ~ hunt f h j -> In j c.
Proof.
  intros Hc Hb NH S j Hj NJ. destruct (decomp_in D Hc) as (C & ND & B & _). unfold seg_ok in S. destruct (Nat.eqb_spec (length c) 1) as [E|E].
  - exfalso. destruct c as [|x [|y c]]; cbn in E; try lia. destruct Hb as [->|[]]. cbn [hd] in S. apply andb_true_iff in S as [S1 S2]. apply Nat.leb_le in S1. apply Nat.ltb_lt in S2. apply NH. unfold hunt. lia.
  - apply Nat.eqb_eq in S. assert (I : incl c workers).
    { intros x Hx. apply workers_in. split; [now apply B|]. intros HX. apply E. now apply (hunt_alone Hc Hx). }
    assert (I2 : incl workers c) by (apply NoDup_length_incl; [exact ND|rewrite workers_length; lia|exact I]). apply I2, workers_in. auto.
Qed.
Lemma scan_orbit : forallb (seg_ok A) (removelast cs) = true <-> one_orbit n f h lh.
Proof.
  rewrite forallb_forall. split.
  - intros S i j Hi Hj Ni Nj. destruct (decomp_cover D Hi) as (ci & Ci & Ii). destruct (decomp_cover D Hj) as (cj & Cj & Ij).
    assert (G : forall c, In c cs -> In i c -> In j c -> exists k, act_pow lh k i = j).
    { intros c Hc X Y. destruct (decomp_in D Hc) as (C & _). destruct (cycle_reach C X Y) as (k & _ & E). exists k. now rewrite <- pow_is. }
    destruct (removelast_in Ci) as [Ri|(l1 & E1)].
    { apply (G ci Ci Ii). apply (full_cycle Ci Ii Ni (S ci Ri)); auto. }
    destruct (removelast_in Cj) as [Rj|(l2 & E2)].
    { apply (G cj Cj); [|exact Ij]. apply (full_cycle Cj Ij Nj (S cj Rj)); auto. }
    rewrite E1 in E2. apply app_inj_tail in E2 as [_ <-]. now apply (G ci).
  - intros O c Hr. assert (Hc := removelast_sub Hr). destruct (decomp_in D Hc) as (C & ND & B & _).
    destruct c as [|b c'] eqn:Ec; [destruct C as [C _]; congruence|]. rewrite <- Ec in *. assert (Hb : In b c) by (rewrite Ec; now left).
    destruct (hunt_dec b) as [HB|NB].
    + unfold seg_ok. rewrite (hunt_alone Hc Hb HB). cbn [Nat.eqb]. rewrite Ec. cbn [hd]. unfold hunt in HB. apply andb_true_iff. split; [apply Nat.leb_le|apply Nat.ltb_lt]; lia.
    + assert (P : Permutation c workers).
      { apply NoDup_Permutation; [exact ND|apply NoDup_filter, seq_NoDup|]. intros x. rewrite workers_in. split.
        - intros Hx. split; [now apply B|]. intros HX. assert (E := hunt_alone Hc Hx HX). rewrite Ec in E, Hx. destruct c'; [|discriminate E]. destruct Hx as [<-|[]]. contradiction.
        - intros [X1 X2]. destruct (O b x (B b Hb) X1 NB X2) as (k & <-). rewrite <- pow_is. now apply cycle_closed. }
      apply Permutation_length in P. rewrite workers_length in P. unfold seg_ok. destruct (Nat.eqb_spec (length c) 1); [lia|]. apply Nat.eqb_eq. lia.
Qed.
End Orbit.

(* --- cyclic lead heads --- *)
Lemma act_nth_lt x i d : i < length x -> nth i x d = act x i.
Proof. intros H. unfold act. now apply nth_indep. Qed.
Lemma act_inj_row n x i j : row_b n x -> i < n -> j < n -> act x i = act x j -> i = j.
Proof. intros [P L] Hi Hj E. apply (@act_pow_inj x 1 i j P). exact E. Qed.
Lemma cyclic_le_spec n h lh : row_b n lh -> h < n -> exists b, is_cyclic_le lh h = Ret b /\ (b = true <-> cyclic_lh n h lh).
Proof.
  intros B Hh. assert (L := proj2 B). unfold is_cyclic_le. rewrite (@vget_lt nat _ _ 0) by lia. cbn [bind]. rewrite act_nth_lt by lia.
  assert (Bd : forall i, i < n -> act lh i < n) by (intros i Hi; rewrite <- L; apply (@act_pow_lt lh 1 i (proj1 B)); lia).
  destruct (Nat.eqb_spec (act lh h) h) as [E|E].
  { exists false. split; [reflexivity|]. split; [discriminate|]. intros (_ & k & Hk & C). specialize (C h ltac:(lia)). rewrite Nat.sub_diag, Nat.add_0_l, Nat.mod_small in C by lia. lia. }
  destruct (forallb (fun i => nth i lh 0 =? i) (seq 0 h)) eqn:F; cbn [negb].
  2: { exists false. split; [reflexivity|]. split; [discriminate|]. intros (C & _). exfalso. enough (X : forallb (fun i => nth i lh 0 =? i) (seq 0 h) = true) by congruence.
    apply forallb_forall. intros i Hi. apply in_seq in Hi. rewrite act_nth_lt by lia. apply Nat.eqb_eq, C. lia. }
  assert (HF : forall i, i < h -> act lh i = i).
  { intros i Hi. rewrite forallb_forall in F. specialize (F i ltac:(apply in_seq; lia)). rewrite act_nth_lt in F by lia. now apply Nat.eqb_eq. }
  assert (GE : forall i, h <= i < n -> h <= act lh i < n).
  { intros i Hi. split; [|apply Bd; lia]. destruct (le_lt_dec h (act lh i)) as [X|X]; [exact X|]. assert (E2 := HF _ X). apply (act_inj_row B) in E2; [lia|apply Bd; lia|lia]. }
  eexists. split; [reflexivity|]. rewrite forallb_forall, L.
  assert (ST : forall i, h < i < n -> (Z.rem (Z.of_nat (nth i lh 0%nat) - Z.of_nat h) (Z.of_nat n - Z.of_nat h) =? Z.rem (Z.of_nat (nth (i - 1)%nat lh 0%nat) + 1 - Z.of_nat h) (Z.of_nat n - Z.of_nat h))%Z = true <->
    act lh i = h + (act lh (i - 1) - h + 1) mod (n - h)).
  { intros i Hi. rewrite !act_nth_lt by lia. assert (G1 := GE i ltac:(lia)). assert (G2 := GE (i - 1) ltac:(lia)).
    replace (Z.of_nat (act lh i) - Z.of_nat h)%Z with (Z.of_nat (act lh i - h)) by lia. replace (Z.of_nat (act lh (i - 1)) + 1 - Z.of_nat h)%Z with (Z.of_nat (act lh (i - 1) - h + 1)) by lia.
    replace (Z.of_nat n - Z.of_nat h)%Z with (Z.of_nat (n - h)) by lia. rewrite !Z.rem_mod_nonneg by lia. rewrite <- !Nat2Z.inj_mod, Z.eqb_eq. rewrite (Nat.mod_small (act lh i - h)) by lia. lia. }
  split.
  - intros H. split; [exact HF|]. exists (act lh h - h). assert (G := GE h ltac:(lia)). split; [lia|].
    intros i Hi. replace i with (h + (i - h)) by lia. assert (Hm : i - h < n - h) by lia. generalize dependent (i - h). clear Hi i. intros m Hm. replace (h + m - h) with m by lia. induction m as [|m IH].
    + rewrite Nat.add_0_r, Nat.add_0_l, Nat.mod_small by lia. lia.
    + specialize (IH ltac:(lia)). specialize (H (h + S m) ltac:(apply in_seq; lia)). apply ST in H; [|lia]. replace (h + S m - 1) with (h + m) in H by lia. rewrite IH in H. rewrite H. f_equal.
      replace (h + (m + (act lh h - h)) mod (n - h) - h + 1) with (1 + (m + (act lh h - h)) mod (n - h)) by lia. rewrite Nat.add_mod_idemp_r by lia. f_equal.
  - intros (_ & k & Hk & C) i Hi. apply in_seq in Hi. apply ST; [lia|]. rewrite (C i), (C (i - 1)) by lia. f_equal. replace (h + (i - 1 - h + k) mod (n - h) - h + 1) with (1 + (i - 1 - h + k) mod (n - h)) by lia. rewrite Nat.add_mod_idemp_r by lia. f_equal. lia.
Qed.

(* --- half lead heads --- *)
Lemma half_step m c : 1 <= c <= m -> c mod m + 1 = 1 + c mod m.
Proof. lia. Qed.
Lemma cyclic_hl_spec n hl : row_b n hl -> 2 <= n -> act hl (n - 1) = 0 -> exists b, is_cyclic_hl hl = Ret b /\ (b = true <-> cyclic_half n hl).
Proof.
  intros B N2 T. assert (L := proj2 B). unfold is_cyclic_hl. rewrite L. destruct (Nat.eqb_spec n 0); [lia|]. rewrite (@vget_lt nat _ _ 0) by lia. cbn [bind]. rewrite act_nth_lt by lia. rewrite T. cbn [Nat.eqb negb].
  eexists. split; [reflexivity|]. rewrite forallb_forall.
  assert (GE : forall i, i < n - 1 -> 1 <= act hl i <= n - 1).
  { intros i Hi. assert (act hl i < n) by (rewrite <- L; apply (@act_pow_lt hl 1 i (proj1 B)); lia). split; [|lia]. destruct (act hl i) eqn:E; [|lia]. rewrite <- T in E. apply (act_inj_row B) in E; lia. }
  split.
  - intros H. exists (act hl 0 - 1). intros i. assert (G := GE 0 ltac:(lia)). induction i as [|i IH]; intros Hi.
    + rewrite Nat.add_0_r, Nat.mod_small by lia. lia.
    + specialize (IH ltac:(lia)). specialize (H (S i) ltac:(apply in_seq; lia)). rewrite !act_nth_lt in H by lia. apply Nat.eqb_eq in H. replace (S i - 1) with i in H by lia. rewrite <- H, IH, Nat.add_comm. f_equal. rewrite Nat.add_mod_idemp_r by lia. f_equal. lia.
  - intros (k & C) i Hi. apply in_seq in Hi. rewrite !act_nth_lt by lia. apply Nat.eqb_eq. rewrite (C i), (C (i - 1)) by lia. rewrite Nat.add_mod_idemp_r by lia. rewrite Nat.add_comm. do 2 f_equal. lia.
Qed.
Lemma rev_cyclic_hl_spec n hl : row_b n hl -> 2 <= n -> act hl (n - 1) = 0 -> exists b, is_rev_cyclic_hl hl = Ret b /\ (b = true <-> rev_cyclic_half n hl).
Proof.
  intros B N2 T. assert (L := proj2 B). unfold is_rev_cyclic_hl. rewrite L. destruct (Nat.eqb_spec n 0); [lia|]. rewrite (@vget_lt nat _ _ 0) by lia. cbn [bind]. rewrite act_nth_lt by lia. rewrite T. cbn [Nat.eqb negb].
  eexists. split; [reflexivity|]. rewrite forallb_forall.
  assert (GE : forall i, i < n - 1 -> 1 <= act hl i <= n - 1).
  { intros i Hi. assert (act hl i < n) by (rewrite <- L; apply (@act_pow_lt hl 1 i (proj1 B)); lia). split; [|lia]. destruct (act hl i) eqn:E; [|lia]. rewrite <- T in E. apply (act_inj_row B) in E; lia. }
  split.
  - intros H. exists (act hl (n - 2) + n - 3). intros i Hi. assert (G := GE (n - 2) ltac:(lia)).
    replace i with (n - 2 - (n - 2 - i)) by lia. assert (Hm : n - 2 - i <= n - 2) by lia. generalize dependent (n - 2 - i). clear Hi i. intros m Hm.
    replace (n - 1 - (n - 2 - m)) with (S m) by lia. induction m as [|m IH].
    + rewrite Nat.sub_0_r. replace (act hl (n - 2) + n - 3 + 1) with (act hl (n - 2) - 1 + 1 * (n - 1)) by lia. rewrite Nat.mod_add, Nat.mod_small by lia. lia.
    + specialize (IH ltac:(lia)). specialize (H (n - 2 - S m) ltac:(apply in_seq; lia)). rewrite !act_nth_lt in H by lia. apply Nat.eqb_eq in H. replace (n - 2 - S m + 1) with (n - 2 - m) in H by lia. rewrite <- H, IH. rewrite Nat.add_mod_idemp_r by lia. rewrite Nat.add_comm. do 2 f_equal. lia.
  - intros (k & C) i Hi. apply in_seq in Hi. rewrite !act_nth_lt by lia. apply Nat.eqb_eq. rewrite (C i), (C (i + 1)) by lia. rewrite Nat.add_mod_idemp_r by lia. rewrite Nat.add_comm. do 2 f_equal. lia.
Qed.
