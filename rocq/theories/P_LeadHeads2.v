(* P_LeadHeads2.v - the tests of lead heads as a whole, and the half leads of regular methods. *)
From Verif Require Import Base M_Bell M_Change M_Row M_LeadHeads Spec_Row Spec_Change Spec_Cycle Spec_Group Spec_LeadHeads
  P_Bell P_Row P_Change P_Change2 P_Cycle P_Order P_Named P_Group P_TSearch6 P_LeadHeads.
Set Implicit Arguments.
Unset Strict Implicit.
Open Scope nat_scope.

Lemma pblh_row n h : n <= 256 -> exists l, pblh n h = Ret l /\ row_b n l.
Proof. intros H. destruct (pblh_spec h H) as (l & E & R & L & _). exists l. split; [exact E|]. split; [apply R|exact L]. Qed.
Lemma ispblh_iff n lh h : row_b n lh -> n <= 256 -> exists v, ispblh_h lh h = Ret v /\ (negb (v =? 0) = true <-> plain_bob_lh n h lh).
Proof.
  intros [P L] B. destruct (@ispblh_h_spec lh h) as (l & v & El & Ev & S1 & S2); [split; [exact P|lia]|]. rewrite L in *. exists v. split; [exact Ev|].
  destruct (pblh_row h B) as (l' & El' & Rl). rewrite El in El'. injection El' as <-. unfold plain_bob_lh. split.
  - intros Hv. apply negb_true_iff, Nat.eqb_neq in Hv. specialize (S2 Hv). exists l, v. split; [exact El|]. split; [exact S2|]. exact (proj2 (proj1 (S1 v S2) eq_refl)).
  - intros (l2 & k & E2 & Hk & A). rewrite El in E2. injection E2 as <-. assert (v = k) as -> by (apply S1; [exact Hk|]; split; [destruct Rl; lia|exact A]). apply negb_true_iff, Nat.eqb_neq. lia.
Qed.
Lemma leading_fixed_gen x : forall s, s <= leading_fixed s x /\ leading_fixed s x <= s + length x /\
  (forall i, s <= i < leading_fixed s x -> nth (i - s) x 0 = i) /\ (leading_fixed s x < s + length x -> nth (leading_fixed s x - s) x 0 <> leading_fixed s x).
Proof.
  induction x as [|b t IH]; intros s; cbn [leading_fixed length].
  - split; [lia|]. split; [lia|]. split; [intros; lia|lia].
  - destruct (Nat.eqb_spec b s) as [E|E].
    + subst b. destruct (IH (S s)) as (I1 & I2 & I3 & I4). split; [lia|]. split; [lia|]. split.
      * intros i Hi. destruct (Nat.eq_dec i s) as [->|Hn]; [rewrite Nat.sub_diag; reflexivity|]. replace (i - s) with (S (i - S s)) by lia. cbn [nth]. apply I3. lia.
      * intros Hi. replace (leading_fixed (S s) t - s) with (S (leading_fixed (S s) t - S s)) by lia. cbn [nth]. apply I4. lia.
    + split; [lia|]. split; [lia|]. split; [intros; lia|]. intros _. rewrite Nat.sub_diag. exact E.
Qed.
Lemma leading_fixed_spec lh : fixed_bells (leading_fixed 0 lh) lh.
Proof.
  destruct (leading_fixed_gen lh 0) as (_ & I2 & I3 & I4). split.
  - intros i Hi. rewrite <- (@act_nth_lt lh i 0) by lia. specialize (I3 i ltac:(lia)). now rewrite Nat.sub_0_r in I3.
  - intros H. rewrite <- (@act_nth_lt lh _ 0) by lia. specialize (I4 ltac:(lia)). now rewrite Nat.sub_0_r in I4.
Qed.
Lemma fixed_unique h h' lh : h <= length lh -> h' <= length lh -> fixed_bells h lh -> fixed_bells h' lh -> h = h'.
Proof.
  intros B B' [H1 H2] [H3 H4]. destruct (lt_eq_lt_dec h h') as [[X|X]|X]; [|exact X|]; exfalso.
  - apply H2; [lia|]. now apply H3.
  - apply H4; [lia|]. now apply H1.
Qed.

Lemma acceptable_spec A lh : la_bells A <= 33 -> 1 <= la_front A -> la_front A - 1 + la_hunts A <= la_bells A -> 2 <= la_bells A - la_hunts A ->
  row_b (la_bells A) lh -> (forall i, hunt (la_front A - 1) (la_hunts A) i -> act lh i = i) ->
  exists b, is_acceptable_leadhead default_symtab A lh = Ret b /\
    (b = true <-> (la_all A = true \/ one_orbit (la_bells A) (la_front A - 1) (la_hunts A) lh) /\
      (if la_pb A then plain_bob_lh (la_bells A) (la_hunts A) lh
       else if la_cyclic A then cyclic_lh (la_bells A) (la_hunts A) lh
       else if la_regular A then exists h, h <= la_bells A /\ fixed_bells h lh /\ plain_bob_lh (la_bells A) h lh else True)).
Proof.
  intros B F1 FH H2 R HF. assert (P := proj1 R). assert (L := proj2 R). unfold is_acceptable_leadhead.
  assert (S1 : exists ok, (if la_all A then Ret true else s <- cycles default_symtab lh ;; lh_scan default_symtab A s 0 s) = Ret ok /\ (ok = true <-> la_all A = true \/ one_orbit (la_bells A) (la_front A - 1) (la_hunts A) lh)).
  { destruct (la_all A); [exists true; split; [reflexivity|tauto]|]. destruct (@cycles_spec default_symtab lh) as (cs & D & _ & _ & E); [split; [exact P|lia]|]. rewrite E. cbn [bind]. rewrite L in D.
    destruct cs as [|l cs]. { exfalso. destruct (decomp_cover D (i := 0) ltac:(lia)) as (c & [] & _). }
    rewrite (scan_join F1) by (apply Forall_forall; intros c Hc; destruct (decomp_in D Hc) as (C & _ & Bc & _); split; [intros ->; destruct C as [C _]; congruence|intros b Hb; specialize (Bc b Hb); lia]).
    eexists. split; [reflexivity|]. rewrite (@scan_orbit A lh L F1 FH H2 HF _ D). intuition discriminate. }
  destruct S1 as (ok & E1 & S1). rewrite E1. cbn [bind]. destruct ok; cbn [negb].
  2: { exists false. split; [reflexivity|]. split; [discriminate|]. intros [X _]. apply S1 in X. discriminate X. }
  assert (G := proj1 S1 eq_refl). destruct (la_pb A).
  { destruct (ispblh_iff (la_hunts A) R ltac:(lia)) as (v & Ev & Sv). rewrite Ev. cbn [bind]. eexists. split; [reflexivity|]. rewrite Sv. tauto. }
  destruct (la_cyclic A).
  { destruct (cyclic_le_spec R (h := la_hunts A) ltac:(lia)) as (b & Eb & Sb). exists b. split; [exact Eb|]. rewrite Sb. tauto. }
  destruct (la_regular A); [|exists true; split; [reflexivity|]; tauto].
  rewrite <- L, firstn_all, L. destruct (ispblh_iff (leading_fixed 0 lh) R ltac:(lia)) as (v & Ev & Sv). rewrite Ev. cbn [bind]. eexists. split; [reflexivity|]. rewrite Sv.
  assert (LE : leading_fixed 0 lh <= la_bells A) by (destruct (leading_fixed_gen lh 0) as (_ & I2 & _); rewrite L in I2; lia). split.
  - intros X. split; [exact G|]. exists (leading_fixed 0 lh). split; [exact LE|]. split; [apply leading_fixed_spec|exact X].
  - intros (_ & h & Hh & Fh & X). rewrite <- L in Hh, LE. rewrite <- (fixed_unique Hh LE Fh (leading_fixed_spec lh)). exact X.
Qed.

(* --- the change with a place made at the back --- *)
Lemma no_cross : forallb (fun b => negb (is_cross [to_char default_symtab b])) (seq 0 33) = true.
Proof. vm_compute. reflexivity. Qed.
Lemma back_change n : 1 <= n <= 33 -> change_of_pn default_symtab n [to_char default_symtab (b8 (n - 1))] = Ret (mkChange n (pairs_between (if Nat.even n then 1 else 0) (n - 1))).
Proof.
  intros H. rewrite b8_small by lia. unfold change_of_pn. assert (NC := no_cross). rewrite forallb_forall in NC. specialize (NC (n - 1) ltac:(apply in_seq; lia)). apply negb_true_iff in NC. rewrite NC.
  destruct (@read_char_to_char (n - 1) ltac:(lia)) as (c & -> & Rc & Br & Z & _). cbn [c_str length]. rewrite Z. cbn [change_parse_loop]. unfold read_extended. rewrite Br. cbn [negb]. rewrite Rc. cbn [bind].
  assert (AP : add_place n ([], 0) (n - 1) = Ret (pairs_between (if Nat.even n then 1 else 0) (n - 1), n)).
  { unfold add_place. destruct (Nat.leb_spec n (n - 1)); [lia|]. cbn [Nat.ltb Nat.leb orb Nat.eqb negb andb]. rewrite Nat.sub_0_r.
    assert (M : negb ((n - 1) mod 2 =? 0) = Nat.even n).
    { destruct (Nat.even n) eqn:E.
      - apply Nat.even_spec in E as (k & ->). replace (2 * k - 1) with (1 + (k - 1) * 2) by lia. rewrite Nat.mod_add by lia. reflexivity.
      - assert (O : Nat.odd n = true) by (unfold Nat.odd; now rewrite E). apply Nat.odd_spec in O as (k & ->). replace (2 * k + 1 - 1) with (k * 2) by lia. rewrite Nat.mod_mul by lia. reflexivity. }
    rewrite M. assert (X : (if Nat.even n then 1 else 0) = (if Nat.even n then 1 else 0)) by reflexivity. destruct (Nat.even n); rewrite asb_spec by lia; rewrite b8_small by lia; cbn [app]; do 2 f_equal; lia. }
  rewrite AP. cbn [bind]. rewrite b8_small by lia. rewrite asb_spec by lia. cbn [bind]. rewrite (@pairs_between_nil n n) by lia. now rewrite app_nil_r.
Qed.
Lemma back_swap n i : 1 <= n -> i < n -> swap_pos (pairs_between (if Nat.even n then 1 else 0) (n - 1)) i = back_place n i.
Proof.
  intros N Hi. rewrite swap_pos_between. unfold back_place.
  assert (EV : Nat.even (i + n) = Bool.eqb (Nat.even i) (Nat.even n)) by apply Nat.even_add. rewrite EV.
  destruct (Nat.even n) eqn:En.
  - cbn [andb]. apply Nat.even_spec in En as (k & Ek). destruct (Nat.ltb_spec i 1).
    { assert (i = 0) by lia. subst i. destruct (0 =? n - 1); reflexivity. }
    assert (E1 : Nat.even (i - 1) = negb (Nat.even i)) by (replace i with (S (i - 1)) at 2 by lia; rewrite Nat.even_succ, <- Nat.negb_even, negb_involutive; reflexivity).
    rewrite E1. destruct (Nat.eqb_spec i 0); [lia|]. destruct (Nat.eqb_spec i (n - 1)) as [E|E].
    + assert (O : Nat.even i = false). { destruct (Nat.even i) eqn:Q; [|reflexivity]. apply Nat.even_spec in Q as (q & Q). lia. }
      rewrite O. cbn [negb]. destruct (Nat.ltb_spec (i + 1) (n - 1)); lia.
    + destruct (Nat.even i) eqn:Q; cbn [negb Bool.eqb].
      * destruct (Nat.ltb_spec i (n - 1)); lia.
      * assert (O : Nat.odd i = true) by (unfold Nat.odd; now rewrite Q). apply Nat.odd_spec in O as (q & O). destruct (Nat.ltb_spec (i + 1) (n - 1)); lia.
  - cbn [andb]. assert (O : Nat.odd n = true) by (unfold Nat.odd; now rewrite En). apply Nat.odd_spec in O as (k & Ek). destruct (Nat.ltb_spec i 0); [lia|]. rewrite Nat.sub_0_r. destruct (Nat.eqb_spec i (n - 1)) as [E|E].
    + assert (Q : Nat.even i = true) by (apply Nat.even_spec; exists k; lia). rewrite Q. destruct (Nat.ltb_spec (i + 1) (n - 1)); lia.
    + destruct (Nat.even i) eqn:Q; cbn [Bool.eqb].
      * apply Nat.even_spec in Q as (q & Q). destruct (Nat.ltb_spec (i + 1) (n - 1)); lia.
      * destruct (Nat.ltb_spec i (n - 1)); lia.
Qed.

(* --- the loop --- *)
Lemma row_eqb_iff a b : row_eqb a b = true <-> a = b.
Proof. unfold row_eqb. destruct (list_eq_dec Nat.eq_dec a b); split; congruence. Qed.
Section Loop.
Variables (n : nat) (p q hl : row).
Hypothesis (B : n <= 256) (Rp : row_b n p) (Rq : row_b n q).
Definition st k : row := comp (pw n p k) q.
Lemma pw_b k : row_b n (pw n p k). Proof using B Rp. apply pwb. exact Rp. Qed.
Lemma st_row k : row_b n (st k).
Proof using B Rp Rq. unfold st. apply comp_row_b; [apply pw_b|apply Rq|destruct Rq; lia]. Qed.
Lemma st_next k : mul p (st k) = Ret (st (S k)).
Proof using B Rp Rq. rewrite mul_comp by (eapply row_b_256; [exact B|eauto using st_row]). f_equal. unfold st. rewrite <- (@comp_assoc n) by (apply pw_b || assumption). f_equal. apply pw_shift; [exact B|exact Rp]. Qed.
Lemma st_0 : st 0 = q.
Proof using B Rp Rq. unfold st. cbn [pw]. now apply (@comp_id_l n). Qed.
Lemma st_add j k : st k = q -> st (j + k) = st j.
Proof using B Rp Rq. intros E. unfold st in *. rewrite <- (@pw_add n p Rp), (@comp_assoc n) by (apply pw_b || assumption). now rewrite E. Qed.
Lemma st_mul j k : st k = q -> st (j * k) = q.
Proof using B Rp Rq. intros E. induction j as [|j IH]; cbn [Nat.mul]; [apply st_0|]. rewrite Nat.add_comm, st_add; assumption. Qed.
Lemma st_mod j k : k <> 0 -> st k = q -> st j = st (j mod k).
Proof using B Rp Rq. intros K E. rewrite (Nat.div_mod j k K) at 1. rewrite Nat.add_comm, Nat.mul_comm. apply st_add. now apply st_mul. Qed.
Lemma reg_loop_from M : st M = q -> forall j i, i + j = M -> 0 < j -> (forall i', i' < i -> st i' <> hl) -> forall fuel, j <= fuel ->
  exists b, reg_loop fuel p q hl (st i) = Ret b /\ (b = true <-> exists k, hl = st k).
Proof using B Rp Rq.
  intros EM. induction j as [|j IH]; intros i Ei J NH fuel F; [lia|]. destruct fuel as [|fuel]; [lia|]. cbn [reg_loop].
  destruct (row_eqb (st i) hl) eqn:E1. { apply row_eqb_iff in E1. exists true. split; [reflexivity|]. split; [intros _; now exists i|reflexivity]. }
  assert (N1 : st i <> hl) by (intros X; apply row_eqb_iff in X; congruence). rewrite st_next. cbn [bind].
  assert (NH' : forall i', i' < S i -> st i' <> hl) by (intros i' Hi'; destruct (Nat.eq_dec i' i) as [->|]; [exact N1|apply NH; lia]).
  destruct (row_eqb (st (S i)) q) eqn:E2.
  - apply row_eqb_iff in E2. exists false. split; [reflexivity|]. split; [discriminate|]. intros (k & ->). exfalso. apply (NH' (k mod S i)); [apply Nat.mod_upper_bound; lia|]. symmetry. now apply st_mod.
  - destruct (Nat.eq_dec j 0) as [->|Nj].
    { exfalso. replace (S i) with M in E2 by lia. rewrite EM in E2. rewrite (proj2 (row_eqb_iff q q) eq_refl) in E2. discriminate. }
    apply IH; lia || assumption.
Qed.
Lemma reg_loop_spec : exists N, forall fuel, N <= fuel -> exists b, reg_loop fuel p q hl q = Ret b /\ (b = true <-> exists k, hl = st k).
Proof using B Rp Rq.
  destruct (@pw_order n p (proj1 Rp) ltac:(destruct Rp; lia)) as (k & E). exists (S k). intros fuel F.
  assert (EM : st (S k) = q) by (unfold st; rewrite E; now apply (@comp_id_l n)).
  destruct (@reg_loop_from (S k) EM (S k) 0 ltac:(lia) ltac:(lia) ltac:(intros; lia) fuel F) as (b & E1 & S1). rewrite st_0 in E1. exists b. auto.
Qed.
Lemma st_act k i : act (st k) i = act_pow p k (act q i).
Proof using B Rp Rq. unfold st. rewrite act_comp by apply Rq. apply act_pw; [apply Rp|destruct Rp; lia]. Qed.
Lemma st_iff : row_b n hl -> (exists k, hl = st k) <-> exists k, forall i, i < n -> act hl i = act_pow p k (act q i).
Proof using B Rp Rq.
  intros R. split.
  - intros (k & ->). exists k. intros i _. apply st_act.
  - intros (k & H). exists k. apply act_ext; [rewrite (proj2 (st_row k)); apply R|]. intros i Hi. rewrite st_act. apply H. destruct R. lia.
Qed.
End Loop.

Lemma act_rev n i : i < n -> act (rev (seq 0 n)) i = n - 1 - i.
Proof. intros H. rewrite <- (@act_nth_lt _ i 0) by (rewrite rev_length, seq_length; exact H). rewrite rev_nth by (rewrite seq_length; exact H). rewrite seq_length, seq_nth by lia. lia. Qed.
Lemma row_rev n : row_b n (rev (seq 0 n)).
Proof. split; [|now rewrite rev_length, seq_length]. unfold is_row. rewrite rev_length, seq_length. apply Permutation_sym, Permutation_rev. Qed.
Lemma regular_hl_spec n hl static : 1 <= n <= 33 -> row_b n hl -> (static = None \/ exists l, pblh n 1 = Ret l /\ static = Some l) ->
  exists N l, pblh n 1 = Ret l /\ forall fuel, N <= fuel -> exists b, is_regular_hl default_symtab fuel static n hl = Ret (Some l, b) /\ (b = true <-> regular_half n hl).
Proof.
  intros N R Hs. destruct (@pblh_row n 1 ltac:(lia)) as (l & El & Rl).
  assert (Es : (match static with Some p => Ret p | None => pblh n 1 end) = Ret l) by (destruct Hs as [->|(l' & E' & ->)]; congruence).
  assert (B256 : n <= 256) by lia. set (rr := rev (seq 0 n)). assert (Rr : row_b n rr) by apply row_rev.
  set (c := mkChange n (pairs_between (if Nat.even n then 1 else 0) (n - 1))). assert (Ec := back_change N). fold c in Ec.
  assert (Wc : wf_change c). { destruct (@change_of_pn_wf n [to_char default_symtab (b8 (n - 1))] ltac:(lia)) as [(c' & E' & W & _)|[E|E]]; congruence. }
  destruct (@row_mul_change_spec rr c) as (rr' & Er' & R256 & Lr' & Ar'); [eapply row_b_256; [|exact Rr]; lia|exact Wc|cbn; lia|].
  assert (Rr' : row_b n rr') by (split; [apply R256|rewrite Lr'; cbn [cn c]; destruct Rr; lia]).
  destruct (@reg_loop_spec n l rr hl ltac:(lia) Rl Rr) as (N1 & H1). destruct (@reg_loop_spec n l rr' hl ltac:(lia) Rl Rr') as (N2 & H2).
  exists (N1 + N2), l. split; [exact El|]. intros fuel F. unfold is_regular_hl. rewrite Es. cbn [bind]. rewrite reverse_rounds_spec by lia. cbn [bind]. fold rr.
  destruct (H1 fuel ltac:(lia)) as (b1 & E1 & S1). rewrite E1. cbn [bind]. rewrite (st_iff B256 Rl Rr R) in S1.
  destruct (H2 fuel ltac:(lia)) as (b2 & E2 & S2). rewrite (st_iff B256 Rl Rr' R) in S2.
  assert (Q1 : (exists k, forall i, i < n -> act hl i = act_pow l k (act rr i)) <-> exists k, forall i, i < n -> act hl i = act_pow l k (n - 1 - i)).
  { split; intros (k & H); exists k; intros i Hi; rewrite (H i Hi); unfold rr; now rewrite act_rev. }
  assert (Q2 : (exists k, forall i, i < n -> act hl i = act_pow l k (act rr' i)) <-> exists k, forall i, i < n -> act hl i = act_pow l k (n - 1 - back_place n i)).
  { assert (BP : forall i, i < n -> act rr' i = n - 1 - back_place n i).
    { intros i Hi. rewrite Ar'. cbn [cswaps c]. rewrite back_swap by lia. unfold rr. apply act_rev. unfold back_place. destruct (Nat.eqb_spec i (n - 1)); [lia|]. destruct (Nat.even n && (i =? 0)); [lia|]. destruct (Nat.even (i + n)); lia. }
    split; intros (k & H); exists k; intros i Hi; rewrite (H i Hi); now rewrite BP. }
  rewrite Q1 in S1. rewrite Q2 in S2. unfold regular_half. destruct b1.
  - exists true. split; [reflexivity|]. split; [intros _|reflexivity]. destruct (proj1 S1 eq_refl) as (k & H). exists l, k. auto.
  - rewrite Ec. cbn [bind]. rewrite Er'. cbn [bind]. rewrite E2. cbn [bind]. exists b2. split; [reflexivity|]. rewrite S2. split.
    + intros (k & H). exists l, k. auto.
    + intros (l' & k & El' & [H|H]); rewrite El in El'; injection El' as <-; [|now exists k]. assert (false = true) by (apply S1; now exists k). discriminate.
Qed.
