(* P_HalfLead.v - the tests at the half lead, the quarter lead and of an offset lead head. *)
From Verif Require Import Base M_Bell M_Change M_Row M_Method M_MethSearch M_LeadHeads M_HalfLead Spec_Row Spec_Change Spec_Group Spec_Touch Spec_MethSearch Spec_MethUtils Spec_LeadHeads Spec_HalfLead
  P_Bell P_Row P_Change P_Change2 P_Change3 P_Named P_Cycle P_Group P_Method P_TSearch6 P_False4 P_MethSearch6 P_MethSearch9 P_LeadHeads P_LeadHeads2 P_MethUtils.
Set Implicit Arguments.
Unset Strict Implicit.
Open Scope nat_scope.

Lemma from_rounds n m : n <= 255 -> Forall (on_bells n) m -> forM m row_mul_change (rounds n) = Ret (row_after n m).
Proof.
  intros B. induction m as [|c m IH] using rev_ind; intros F; [destruct (row_after_nil n) as [->|H]; [reflexivity|lia]|].
  apply Forall_app in F as [F1 F2]. inversion_clear F2 as [|? ? Hc _]. rewrite forM_app, (IH F1). cbn [bind forM]. destruct (row_after_step B Hc (row_after_b B F1)) as [E _]. now rewrite E.
Qed.
(* from the row of no bells the first change gives the bells *)
Lemma from_nothing n m : n <= 255 -> m <> [] -> Forall (on_bells n) m -> forM m row_mul_change [] = Ret (row_after n m).
Proof.
  intros B. destruct m as [|c m]; [congruence|]. intros _ F. inversion_clear F as [|? ? Hc F']. rewrite <- (from_rounds B (m := c :: m)) by (constructor; assumption). cbn [forM]. f_equal.
  destruct Hc as [Nc Wc]. destruct (@row_mul_change_spec [] c) as (r & E & R & L & A); [split; [apply is_row_nil|cbn; lia]|exact Wc|lia|].
  destruct (@row_mul_change_spec (rounds n) c) as (r' & E' & R' & L' & A'); [apply rounds_row256; lia|exact Wc|lia|]. rewrite E, E'. f_equal. rewrite rounds_id in L', A' by lia. apply act_ext; [rewrite L, L', id_length; cbn [length]; lia|].
  intros i _. rewrite A, A'. rewrite act_id. unfold act. destruct (swap_pos (cswaps c) i); reflexivity.
Qed.

Lemma halflead_spec A n m ch static : 2 <= n <= 33 -> m <> [] -> Forall (on_bells n) m -> on_bells n ch ->
  act (row_after n m) (n - 1) = 0 -> act (row_after n (m ++ [ch])) (n - 1) = 0 ->
  (static = None \/ exists l, pblh n 1 = Ret l /\ static = Some l) ->
  exists N, forall fuel, N <= fuel -> exists st b, try_halflead_change default_symtab fuel A n static m ch = Ret (st, b) /\
    (b = true <-> half_lead_as_asked A n (row_after n m) (row_after n (m ++ [ch]))) /\ (st = None \/ exists l, pblh n 1 = Ret l /\ st = Some l).
Proof.
  intros Hn NE F Hc Te Th Hs. assert (B : n <= 255) by lia. assert (Re := row_after_b B F). destruct (row_after_step B Hc Re) as [Eh Rh].
  set (e := row_after n m) in *. set (h := row_after n (m ++ [ch])) in *.
  destruct (cyclic_hl_spec Re ltac:(lia) Te) as (b1 & E1 & S1). destruct (cyclic_hl_spec Rh ltac:(lia) Th) as (b2 & E2 & S2).
  destruct (rev_cyclic_hl_spec Re ltac:(lia) Te) as (b3 & E3 & S3). destruct (rev_cyclic_hl_spec Rh ltac:(lia) Th) as (b4 & E4 & S4).
  destruct (@regular_hl_spec n h static ltac:(lia) Rh Hs) as (N1 & l & El & H1). destruct (@regular_hl_spec n e (Some l) ltac:(lia) Re) as (N2 & l2 & El2 & H2); [right; eauto|].
  exists (N1 + N2). intros fuel Fu. destruct (H1 fuel ltac:(lia)) as (b5 & E5 & S5). destruct (H2 fuel ltac:(lia)) as (b6 & E6 & S6).
  set (sk := ha_skew A && ha_cyclic A && (ha_hunts A =? 1)).
  assert (Q : half_lead_as_asked A n e h <-> (implb sk b1 && (negb (ha_rev_hlh A || ha_rev_hle A || ha_cyc_hlh A || ha_cyc_hle A || ha_reg A) ||
     (ha_rev_hlh A && b4) || (ha_rev_hle A && b3) || (ha_cyc_hlh A && b2) || (ha_cyc_hle A && b1) || (ha_reg A && (b5 && b6)))) = true).
  { unfold half_lead_as_asked. rewrite <- S1, <- S2, <- S3, <- S4, <- S5, <- S6. rewrite andb_true_iff, !orb_true_iff, negb_true_iff, !orb_false_iff, !andb_true_iff. rewrite Bool.implb_true_iff. unfold sk. rewrite !andb_true_iff, Nat.eqb_eq. tauto. }
  unfold try_halflead_change. rewrite (from_nothing B NE F). fold e. cbn [bind]. rewrite Eh. cbn [bind]. rewrite E1, E2, E3, E4, E5.
  fold sk. clearbody sk. clear S1 S2 S3 S4 S5 S6.
  assert (OL : exists l, pblh n 1 = Ret l /\ Some l2 = Some l) by eauto. assert (OL1 : exists l0, pblh n 1 = Ret l0 /\ Some l = Some l0) by eauto.
  destruct sk, b1; cbn [bind negb]; try (eexists; eexists; split; [reflexivity|]; split; [rewrite Q; reflexivity|exact Hs]);
  destruct (ha_rev_hlh A), (ha_rev_hle A), (ha_cyc_hlh A), (ha_cyc_hle A), (ha_reg A), b2, b3, b4; cbn [orb negb bind];
    try (eexists; eexists; split; [reflexivity|]; split; [rewrite Q; reflexivity|exact Hs]);
    destruct b5; cbn [bind]; rewrite ?E6; destruct b6; (eexists; eexists; split; [reflexivity|]; split; [rewrite Q; reflexivity|right; assumption]).
Qed.

Lemma offset_spec A m ch : la_bells A <= 33 -> Forall (on_bells (la_bells A)) m -> on_bells (la_bells A) ch ->
  exists x, lead_head_turned (la_bells A) (la_hunts A) (row_after (la_bells A) (m ++ [ch])) x /\ try_offset_start_change default_symtab A m ch = is_acceptable_leadhead default_symtab A x.
Proof.
  intros Hn F Hc. set (n := la_bells A) in *. set (h := la_hunts A). assert (B : n <= 255) by lia. assert (Rm := row_after_b B F). destruct (row_after_step B Hc Rm) as [Er Rr].
  set (r := row_after n (m ++ [ch])) in *. assert (R256 : row256 r) by (eapply row_b_256; [|exact Rr]; lia).
  assert (C256 := @cyclic_is_row n h 1%Z ltac:(lia)). destruct (@cyclic_spec n h 1%Z ltac:(lia)) as [Lc Ac]. set (cy := cyclic n h 1) in *.
  assert (Rc : row_b n cy) by (split; [apply C256|exact Lc]). destruct (inverse_spec R256) as (ri & Ei & Ri & Li & I1 & I2).
  assert (Rri : row_b n ri) by (split; [apply Ri|rewrite Li; apply Rr]). assert (Rx : row_b n (comp r cy)) by (apply comp_row_b; [exact Rr|apply Rc|lia]).
  exists (comp (comp r cy) ri). split.
  - split; [apply comp_row_b; [exact Rx|apply Rri|rewrite (proj2 Rri); lia]|]. intros i Hi. rewrite act_comp by apply Rri. rewrite I1. rewrite act_comp by apply Rc. f_equal. rewrite Ac. unfold rot.
    destruct (Nat.leb_spec h i); cbn [andb]; [|reflexivity]. destruct (Nat.ltb_spec i n), (Nat.ltb_spec i (h + (n - h))); lia.
  - unfold try_offset_start_change. fold n. fold h. rewrite (from_rounds B F). cbn [bind]. rewrite Er. cbn [bind]. change (cyclic n h 1) with cy. rewrite (mul_comp R256 C256). cbn [bind]. rewrite Ei. cbn [bind].
    rewrite mul_comp by (eapply row_b_256; [|eassumption]; lia). reflexivity.
Qed.

Lemma quarter_spec blows n hl m ch : n <= 255 -> on_bells n ch -> 0 < hl ->
  exists b, try_quarterlead_change blows n (2 * hl) m ch = Ret b /\
    (b = true <-> ch = change_reverse ch /\ (blows = 0 \/ let half := skipn (length m / hl * hl) m in ~ too_long blows n half ch (map change_reverse (rev half)))).
Proof.
  intros B [Nc Wc] Hl. unfold try_quarterlead_change. replace (2 * hl) with (hl * 2) by lia. rewrite Nat.mod_mul, Nat.div_mul by lia. cbn [Nat.eqb negb].
  assert (Wr : wf_change (change_reverse ch)) by (apply reverse_wf; [lia|exact Wc]). assert (CE := change_eqb_wf Wc Wr). destruct (change_eqb ch (change_reverse ch)) eqn:EC; cbn [negb].
  2: { exists false. split; [reflexivity|]. split; [discriminate|]. intros [X _]. apply CE in X. discriminate X. }
  assert (X := proj1 CE eq_refl). clear CE EC Wr. destruct (Nat.eqb_spec blows 0) as [->|NB]; [exists true; split; [reflexivity|]; split; auto|].
  destruct (Nat.eqb_spec hl 0); [lia|]. rewrite andb_false_r. cbv zeta. set (half := skipn (length m / hl * hl) m). eexists. split; [reflexivity|]. rewrite too_long_spec.
  assert (EQ : forall i, (blows <? run_limited (S blows) (run_limited (S blows) 2 i (rev half)) i (map change_reverse (rev half))) = (blows <? 2 + back_run i (rev half) + back_run i (map change_reverse (rev half)))).
  { intros i. rewrite (@run_limited_min (S blows) i (rev half) 2) by lia. rewrite run_limited_min by lia. destruct (Nat.ltb_spec blows (2 + back_run i (rev half) + back_run i (map change_reverse (rev half)))); [apply Nat.ltb_lt|apply Nat.ltb_ge]; lia. }
  assert (EX : forall l, existsb (fun i => findplace ch i && (blows <? run_limited (S blows) (run_limited (S blows) 2 i (rev half)) i (map change_reverse (rev half)))) l =
    existsb (fun i => findplace ch i && (blows <? 2 + back_run i (rev half) + back_run i (map change_reverse (rev half)))) l).
  { induction l as [|i l IH]; [reflexivity|]. cbn [existsb]. now rewrite EQ, IH. }
  rewrite EX. destruct (existsb _ (seq 0 n)); cbn [negb]; split; intros H; try discriminate; auto.
  destruct H as [_ [H|H]]; [lia|]. contradiction H. reflexivity.
Qed.
