(* P_Lhcode2.v - when lhcode gives a code, and which. *)
From Verif Require Import Base M_Bell M_Change M_Math M_Row M_Method M_Lhcode Spec_Row Spec_Change Spec_Method Spec_Cycle Spec_Group Spec_Lhcode
  P_Bell P_Change P_Math P_Perm P_Row P_Group P_Named P_Method P_Cycle P_Order P_Group3 P_False P_False4 P_Lhcode Props_Row Props_More.
Set Implicit Arguments.
Unset Strict Implicit.
Open Scope nat_scope.

Lemma gcd_Z a b : Z.gcd (Z.of_nat a) (Z.of_nat b) = Z.of_nat (Nat.gcd a b).
Proof.
  apply Z.gcd_unique; [lia|apply divide_nat_Z, Nat.gcd_divide_l|apply divide_nat_Z, Nat.gcd_divide_r|].
  intros q A B. apply Z.divide_abs_l. rewrite <- (Z2Nat.id (Z.abs q)) by lia. apply divide_nat_Z. apply Nat.gcd_greatest; apply divide_nat_Z; rewrite Z2Nat.id by lia; now apply Z.divide_abs_l.
Qed.
Lemma gcd_co k o : 0 < k < o -> Nat.gcd (o - k) o = Nat.gcd k o.
Proof.
  intros H. rewrite (Nat.gcd_comm k), (Nat.gcd_comm (o - k)). replace o with ((o - k) + k) at 1 by lia. rewrite Nat.gcd_comm, Nat.add_comm.
  rewrite <- (Nat.mul_1_l (o - k)) at 2. rewrite Nat.gcd_add_mult_diag_r. replace (Nat.gcd o k) with (Nat.gcd (o - k + k) k) by (f_equal; lia).
  rewrite (Nat.gcd_comm (o - k + k)), <- (Nat.mul_1_l k) at 1. rewrite (Nat.add_comm (o - k)). rewrite Nat.mul_1_l.
  replace (k + (o - k)) with ((o - k) + 1 * k) by lia. rewrite Nat.gcd_add_mult_diag_r. apply Nat.gcd_comm.
Qed.

Section Power.
Variables (n h k : nat) (r l : list nat).
Hypothesis (Hn : n <= 255) (R : row_b n r) (El : pblh n h = Ret l) (P : forall i, act r i = act_pow l k i) (K : 0 < k < n - h).
Lemma pow_hunt i : i < h -> act r i = i.
Proof.
  intros H. rewrite P. destruct (@pblh_spec n h ltac:(lia)) as (l' & El' & _ & _ & A). rewrite El in El'. injection El' as <-.
  clear P K. induction k as [|j IH]; [reflexivity|]. cbn [act_pow]. rewrite IH, A. destruct (Nat.ltb_spec i h); lia.
Qed.
Lemma pow_work : act r h <> h.
Proof.
  rewrite P, (@pblh_pow n h l ltac:(lia) El ltac:(lia) k ltac:(lia)). intros E.
  assert (X : pbs (n - h) k = pbs (n - h) 0).
  { unfold pbs at 2. destruct (Nat.ltb_spec (2 * 0 - 1) (n - h)); lia. }
  apply (@pbs_inj (n - h)) in X; lia.
Qed.
Lemma pow_work2 : act r (h + 1) <> h + 1.
Proof.
  intros E. assert (X : act_pow l 1 h = h + 1). { rewrite (@pblh_pow n h l ltac:(lia) El ltac:(lia) 1 ltac:(lia)). unfold pbs. destruct (Nat.ltb_spec (2 * 1 - 1) (n - h)); lia. }
  rewrite P, <- X, <- act_pow_add in E. rewrite Nat.add_comm, act_pow_add in E. cbn [act_pow] in E.
  destruct (@pblh_spec n h ltac:(lia)) as (l' & El' & Rl & _ & _). rewrite El in El'. injection El' as <-.
  apply (act_inj (proj1 Rl)) in E. rewrite <- P in E. now apply pow_work.
Qed.
Lemma pow_ispblh : 0 < h -> ispblh r = Ret k.
Proof.
  intros H0. assert (R256 := @row_b_256 n r ltac:(lia) R). assert (L := proj2 R).
  destruct (@C16_ispblh_auto r R256) as (h0 & Hh & F & NF & Ei). { intros ->. cbn in L. lia. }
  unfold row in *. assert (h0 = h).
  { destruct (lt_eq_lt_dec h0 h) as [[X|X]|X]; [|exact X|].
    - exfalso. rewrite L in *. apply NF; [lia|]. now apply pow_hunt.
    - exfalso. apply pow_work. now apply F. }
  subst h0. rewrite Ei. destruct (Nat.eqb_spec h 0); [lia|].
  destruct (@C16_ispblh r h R256) as (l' & v & El' & Ev & P1 & _). unfold row in *. rewrite L in *. rewrite El in El'. injection El' as <-. rewrite Ev. f_equal.
  apply (P1 k K). split; [|exact P]. destruct (@pblh_spec n h ltac:(lia)) as (l' & El' & _ & Ll & _). rewrite El in El'. injection El' as <-. unfold row in *. lia.
Qed.
End Power.

(* and only then *)
Lemma ispblh_power n r v : n <= 255 -> 0 < n -> row_b n r -> ispblh r = Ret v -> v <> 0 -> exists h l, 0 < h /\ pblh n h = Ret l /\ (forall i, act r i = act_pow l v i) /\ 0 < v < n - h.
Proof.
  intros Hn N0 R E V. assert (R256 := @row_b_256 n r ltac:(lia) R). assert (L := proj2 R).
  destruct (@C16_ispblh_auto r R256) as (h & Hh & F & NF & Ei). { intros ->. cbn in L. lia. }
  unfold row in *. rewrite Ei in E. destruct (Nat.eqb_spec h 0) as [|H0]; [congruence|].
  destruct (@C16_ispblh r h R256) as (l & v' & El & Ev & P1 & P2). unfold row in *. rewrite L in *. rewrite Ev in E. injection E as <-.
  specialize (P2 V). exists h, l. split; [lia|]. split; [exact El|]. split; [|exact P2]. apply (P1 v' P2). reflexivity.
Qed.
Lemma ispblh_total n r : n <= 255 -> 0 < n -> row_b n r -> exists v, ispblh r = Ret v.
Proof.
  intros Hn N0 R. assert (R256 := @row_b_256 n r ltac:(lia) R). assert (L := proj2 R).
  destruct (@C16_ispblh_auto r R256) as (h & Hh & F & NF & Ei). { intros ->. cbn in L. lia. }
  unfold row in *. rewrite Ei. destruct (h =? 0); [eauto|]. destruct (@C16_ispblh r h R256) as (l & v' & El & Ev & _). unfold row in *. eauto.
Qed.

Lemma vget_act (r : list nat) i : i < length r -> vget r i = Ret (act r i).
Proof. intros H. rewrite (@vget_lt _ _ _ 0) by exact H. now rewrite (@act_nth r i 0). Qed.

(* the lead end *)
Lemma lh_place_spec m (twin : bool) : wf_method m -> 3 <= mb m -> mch m <> [] -> exists v, lh_place default_symtab m twin = Ret v /\
  let c := if twin then hd (mkChange 0 []) (mch m) else last (mch m) (mkChange 0 []) in
  (v = 1%Z /\ places_are (if twin then cross else firsts) c \/
   v = 2%Z /\ places_are (if twin then thirds else seconds) c \/
   v = 0%Z /\ ~ places_are (if twin then cross else firsts) c /\ ~ places_are (if twin then thirds else seconds) c).
Proof.
  intros WF H NE. destruct WF as (Hb & HL & F). rewrite Forall_forall in F. destruct (@four (mb m) ltac:(lia)) as (E1 & E2 & E3 & E4).
  destruct (four_places H) as (P1 & P2 & P3 & P4). destruct (four_wf H) as (W1 & W2 & W3 & W4).
  destruct twin; unfold lh_place.
  - destruct (mch m) as [|c t] eqn:Em; [contradiction|]. destruct (F c ltac:(now left)) as [Lc Wc].
    assert (G : mget m 0 = Ret c) by (unfold mget; rewrite Em; reflexivity). rewrite G. cbn [bind hd]. rewrite E1. cbn [bind].
    assert (S1 := @same_places cross c _ Wc W1 Lc P1). assert (S2 := @same_places thirds c _ Wc W2 Lc P2).
    destruct (change_eqb c (mkChange (mb m) (pairs_between 0 (mb m)))) eqn:Q1; [exists 1%Z; split; [reflexivity|]; left; split; [reflexivity|now apply S1]|].
    rewrite E2. cbn [bind]. destruct (change_eqb c (mkChange (mb m) (0 :: pairs_between 3 (mb m)))) eqn:Q2.
    + exists 2%Z. split; [reflexivity|]. right. left. split; [reflexivity|now apply S2].
    + exists 0%Z. split; [reflexivity|]. right. right. split; [reflexivity|]. split; intros X; [apply S1 in X|apply S2 in X]; congruence.
  - destruct (exists_last NE) as (pre & c & Em). rewrite Em, last_last in *. destruct (F c ltac:(apply in_or_app; right; now left)) as [Lc Wc].
    assert (G : mget m (mlen m - 1) = Ret c).
    { unfold mget, mlen. rewrite Em, app_length. cbn [length]. destruct (Z.ltb_spec (Z.of_nat (length pre + 1) - 1) 0); [lia|].
      replace (Z.to_nat (Z.of_nat (length pre + 1) - 1)) with (length pre) by lia. unfold vget. rewrite nth_error_app2 by lia. now rewrite Nat.sub_diag. }
    rewrite G. cbn [bind]. rewrite E3. cbn [bind].
    assert (S1 := @same_places firsts c _ Wc W3 Lc P3). assert (S2 := @same_places seconds c _ Wc W4 Lc P4).
    destruct (change_eqb c (mkChange (mb m) (pairs_between 1 (mb m)))) eqn:Q1; [exists 1%Z; split; [reflexivity|]; left; split; [reflexivity|now apply S1]|].
    rewrite E4. cbn [bind]. destruct (change_eqb c (mkChange (mb m) (pairs_between 2 (mb m)))) eqn:Q2.
    + exists 2%Z. split; [reflexivity|]. right. left. split; [reflexivity|now apply S2].
    + exists 0%Z. split; [reflexivity|]. right. right. split; [reflexivity|]. split; intros X; [apply S1 in X|apply S2 in X]; congruence.
Qed.
(* the two kinds differ *)
Lemma kinds_differ (twin : bool) c : 3 <= cn c -> (twin = true -> 4 <= cn c) -> places_are (if twin then cross else firsts) c -> places_are (if twin then thirds else seconds) c -> False.
Proof.
  intros H H4 A B. destruct twin.
  - specialize (H4 eq_refl). specialize (A 2 ltac:(lia)). specialize (B 2 ltac:(lia)). rewrite A in B. unfold cross, thirds in B. replace (2 =? 2) with true in B by reflexivity. cbn [orb] in B.
    assert (X := proj2 B eq_refl). apply andb_true_iff in X as [O E]. apply Nat.eqb_eq in E. assert (E3 : cn c = 3) by lia. lia.
  - specialize (A 1 ltac:(lia)). specialize (B 1 ltac:(lia)). rewrite A in B. unfold firsts, seconds in B. replace (1 =? 0) with false in B by reflexivity. replace (1 =? 1) with true in B by reflexivity. cbn [orb] in B.
    assert (X := proj2 B eq_refl). apply andb_true_iff in X as [O E]. apply Nat.eqb_eq in E. lia.
Qed.

(* ---- lhcode ---- *)
Lemma hcf_gcd a b : 0 < a -> 0 < b -> hcf (Z.of_nat a) (Z.of_nat b) = Ret (Z.of_nat (Nat.gcd a b)).
Proof. intros A B. rewrite hcf_spec by lia. now rewrite gcd_Z. Qed.
(* what lhcode gives for the k-th power of the lead head with h hunt bells *)
Lemma lhcode_power m r h l k : wf_method m -> lh m = Ret r -> row_b (mb m) r -> 0 < h -> pblh (mb m) h = Ret l -> (forall i, act r i = act_pow l k i) -> 0 < k < mb m - h ->
  lhcode default_symtab m =
    if 3 <=? h then Ret (str "z") else
    v <- lh_place default_symtab m (h =? 2) ;;
    if (v =? 0)%Z then Ret (str "z") else
    if 1 <? Nat.gcd k (mb m - h) then Ret (str "z") else
    Ret (code_letter v (Z.of_nat (if h =? 1 then k else mb m - h - k)) (Z.of_nat (mb m - h))).
Proof.
  intros WF Er R H0 El P K. assert (Hb := proj1 WF). assert (Ei := @pow_ispblh (mb m) h k r l Hb R El P K H0). assert (L := proj2 R).
  assert (PH := @pow_hunt (mb m) h k r l Hb El P K). assert (PW := @pow_work (mb m) h k r l Hb El P K). assert (PW2 := @pow_work2 (mb m) h k r l Hb El P K).
  unfold lhcode, isregular. rewrite Er. cbn [bind]. rewrite Ei. cbn [bind]. destruct (Nat.eqb_spec k 0); [lia|]. cbn [negb].
  rewrite vget_act by lia. cbn [bind]. rewrite (PH 0) by lia. cbn [Nat.eqb negb]. rewrite vget_act by lia. cbn [bind].
  destruct (Nat.leb_spec 3 h) as [G|G]; [rewrite (PH 2) by lia; reflexivity|].
  assert (R2 : act r 2 <> 2) by (destruct (Nat.eq_dec h 2) as [->|]; [exact PW|replace h with 1 in PW2 by lia; exact PW2]).
  destruct (Nat.eqb_spec (act r 2) 2); [contradiction|]. rewrite vget_act by lia. cbn [bind].
  assert (T : (act r 1 =? 1) = (h =? 2)).
  { destruct (Nat.eqb_spec h 2) as [E2|]; [rewrite (PH 1) by lia; reflexivity|]. replace h with 1 in PW by lia. now apply Nat.eqb_neq. }
  rewrite T. destruct (lh_place default_symtab m (h =? 2)) as [v| | |]; cbn [bind]; try reflexivity. destruct (Z.eqb_spec v 0); [reflexivity|].
  destruct (Nat.eqb_spec h 2) as [->|N2].
  - replace (2 =? 1) with false by reflexivity. replace (Z.of_nat (mb m) - 2)%Z with (Z.of_nat (mb m - 2)) by lia. replace (Z.of_nat (mb m - 2) - Z.of_nat k)%Z with (Z.of_nat (mb m - 2 - k)) by lia.
    rewrite hcf_gcd by lia. cbn [bind]. rewrite gcd_co by lia. destruct (Z.ltb_spec 1 (Z.of_nat (Nat.gcd k (mb m - 2)))), (Nat.ltb_spec 1 (Nat.gcd k (mb m - 2))); try lia; reflexivity.
  - assert (h = 1) by lia. subst h. cbn [Nat.eqb]. replace (Z.of_nat (mb m) - 1)%Z with (Z.of_nat (mb m - 1)) by lia.
    rewrite hcf_gcd by lia. cbn [bind]. destruct (Z.ltb_spec 1 (Z.of_nat (Nat.gcd k (mb m - 1)))), (Nat.ltb_spec 1 (Nat.gcd k (mb m - 1))); try lia; reflexivity.
Qed.
Lemma rounds_no_power n h l k : n <= 255 -> pblh n h = Ret l -> 0 < k < n - h -> ~ (forall i, act (rounds n) i = act_pow l k i).
Proof.
  intros Hn El K P. assert (R : row_b n (rounds n)) by (rewrite rounds_id by lia; apply row_b_id).
  apply (@pow_work n h k (rounds n) l Hn El P K). rewrite rounds_id by lia. apply act_id.
Qed.
Lemma not_empty m r h l k : mb m <= 255 -> lh m = Ret r -> pblh (mb m) h = Ret l -> (forall i, act r i = act_pow l k i) -> 0 < k < mb m - h -> mch m <> [].
Proof. intros Hb Er El P K E. unfold lh in Er. rewrite E in Er. cbn in Er. injection Er as <-. exact (rounds_no_power Hb El K P). Qed.

Lemma lhcode_coded m h k s : wf_method m -> coded m h k s -> lhcode default_symtab m = Ret (code_of m h k s).
Proof.
  intros WF (r & Er & (l & El & P) & K & G & C). assert (Hb := proj1 WF). destruct (lh_rung WF) as (r' & Er' & R & _). rewrite Er in Er'. injection Er' as <-.
  assert (NE := not_empty Hb Er El P K). assert (H0 : 0 < h) by (destruct C as [[-> _]|[-> _]]; lia).
  rewrite (lhcode_power WF Er R H0 El P K).
  destruct (@lh_place_spec m (h =? 2) WF ltac:(destruct C as [[-> _]|[-> _]]; lia) NE) as (v & Ev & Q). cbv zeta in Q. rewrite Ev. cbn [bind]. rewrite G. replace (1 <? 1) with false by reflexivity.
  assert (V : v = (if s then 2 else 1)%Z).
  { destruct WF as (_ & _ & F). rewrite Forall_forall in F. destruct C as [[-> (pre & c & Em & Pc)]|[-> (c & post & Em & Pc)]]; cbn [Nat.eqb] in Q; rewrite Em in *; rewrite ?last_last in Q; cbn [hd] in Q.
    - destruct (F c ltac:(apply in_or_app; right; now left)) as [Lc _]. assert (KD := @kinds_differ false c ltac:(lia) ltac:(discriminate)).
      destruct s, Q as [[-> Q]|[[-> Q]|[-> [Q1 Q2]]]]; auto; exfalso; first [now apply KD|contradiction].
    - destruct (F c ltac:(now left)) as [Lc _]. assert (KD := @kinds_differ true c ltac:(lia) ltac:(lia)).
      destruct s, Q as [[-> Q]|[[-> Q]|[-> [Q1 Q2]]]]; auto; exfalso; first [now apply KD|contradiction]. }
  rewrite V. assert (X : ((if s then 2 else 1) =? 0)%Z = false) by (destruct s; reflexivity). rewrite X. destruct (Nat.leb_spec 3 h); [destruct C as [[-> _]|[-> _]]; lia|].
  f_equal. unfold code_of. apply code_letter_eq. destruct (h =? 1); lia.
Qed.
Lemma lhcode_dec m : wf_method m -> 0 < mb m -> (exists h k s, coded m h k s) \/ lhcode default_symtab m = Ret (str "z").
Proof.
  intros WF N0. assert (Hb := proj1 WF). destruct (lh_rung WF) as (r & Er & R & _). destruct (ispblh_total Hb N0 R) as (v & Ev).
  destruct (Nat.eq_dec v 0) as [->|V]; [right; unfold lhcode, isregular; rewrite Er; cbn [bind]; rewrite Ev; reflexivity|].
  destruct (ispblh_power Hb N0 R Ev V) as (h & l & H0 & El & P & K). rewrite (lhcode_power WF Er R H0 El P K).
  assert (NE := not_empty Hb Er El P K). destruct (Nat.leb_spec 3 h) as [|H3]; [right; reflexivity|].
  destruct (@lh_place_spec m (h =? 2) WF ltac:(lia) NE) as (w & Ew & Q). cbv zeta in Q. rewrite Ew. cbn [bind].
  destruct (Z.eqb_spec w 0) as [|W]; [right; reflexivity|]. destruct (Nat.ltb_spec 1 (Nat.gcd v (mb m - h))) as [|G]; [right; reflexivity|]. left.
  assert (G1 : Nat.gcd v (mb m - h) = 1). { assert (Nat.gcd v (mb m - h) <> 0) by (rewrite Nat.gcd_eq_0; lia). lia. }
  assert (X : exists s : bool, places_are (if h =? 2 then (if s then thirds else cross) else (if s then seconds else firsts)) (if h =? 2 then hd (mkChange 0 []) (mch m) else last (mch m) (mkChange 0 []))).
  { destruct Q as [[-> Q]|[[-> Q]|[-> _]]]; [exists false|exists true|lia]; destruct (h =? 2); exact Q. }
  destruct X as (s & X). exists h, v, s. exists r. split; [exact Er|]. split; [exists l; split; [exact El|exact P]|]. split; [exact K|]. split; [exact G1|].
  destruct (Nat.eqb_spec h 2) as [->|N2]; [right|left]; (split; [lia|]).
  - destruct (mch m) as [|c t]; [contradiction|]. exists c, t. split; [reflexivity|exact X].
  - destruct (exists_last NE) as (pre & c & E). rewrite E, last_last in X. exists pre, c. split; [exact E|exact X].
Qed.
