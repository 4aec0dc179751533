(* P_TSearch5.v - the whole of a table search. *)
From Verif Require Import Base M_Bell M_Change M_Math M_Row M_Extent M_Group M_Multtab M_Touch M_PN M_Method M_False M_Search M_TSearch
  Spec_Row Spec_Change Spec_Touch Spec_Group Spec_Multtab Spec_Method Spec_False Spec_Extent Spec_Search
  P_Row P_Perm P_Change2 P_Change3 P_Cycle P_Extent P_Extent2 P_Extent3 P_Group P_Group2 P_Group3 P_Multtab P_Multtab2 P_Touch P_False P_False3 P_False4 P_Search P_Search2 P_Search3 P_Search4 P_Search5 P_Search6 P_TSearch P_TSearch2 P_TSearch3 P_TSearch4 Props_False Props_Touch Props_Search.
Set Implicit Arguments.
Unset Strict Implicit.
Open Scope nat_scope.

Lemma ei_more d : forall f e l x, ei_traverse f e l = Ret x -> ei_traverse (d + f) e l = Ret x.
Proof.
  induction f as [|f IH]; intros e l x H.
  - cbn [ei_traverse] in H. destruct (ei_eqb e l) eqn:E; [|discriminate]. rewrite Nat.add_0_r. destruct d; cbn [ei_traverse]; rewrite E; exact H.
  - rewrite Nat.add_succ_r. cbn [ei_traverse] in *. destruct (ei_eqb e l); [exact H|]. apply bind_ret_inv in H. destruct H as (e' & E & H). rewrite E. cbn [bind]. apply bind_ret_inv in H. destruct H as (l' & E' & H). rewrite (IH _ _ _ E'). exact H.
Qed.
Lemma context_more f f' sym s cx : f <= f' -> ts_context f sym s = Ret cx -> ts_context f' sym s = Ret cx.
Proof.
  intros Hf. unfold ts_context. intros H. apply bind_ret_inv in H. destruct H as (t & Et & H). replace (ts_table f' s) with (Ret t); [exact H|]. symmetry.
  unfold ts_table in *. apply bind_ret_inv in Et. destruct Et as (ft & Ef & Et). rewrite Ef. cbn [bind]. apply bind_ret_inv in Et. destruct Et as (rows & Er & Et). replace f' with ((f' - f) + f) by lia. rewrite (ei_more _ Er). exact Et.
Qed.
Lemma recursive_more sym cx stop d : forall f r dep w cur s s', ts_recursive f sym cx stop r dep w cur s = Ret s' -> ts_recursive (d + f) sym cx stop r dep w cur s = Ret s'.
Proof.
  induction f as [|f IH]; intros r dep w cur s s' H; [discriminate|]. rewrite Nat.add_succ_r. cbn [ts_recursive] in *.
  apply bind_ret_inv in H. destruct H as (o & Eo & H). rewrite Eo. cbn [bind]. destruct o as [c|]; [|exact H].
  apply bind_ret_inv in H. destruct H as (fl & Ef & H). rewrite Ef. cbn [bind]. destruct fl; [exact H|].
  destruct (_ <? _)%Z; [|exact H]. apply bind_ret_inv in H. destruct H as (l & El & H). rewrite El. cbn [bind]. apply bind_ret_inv in H. destruct H as (s1 & E1 & H).
  match goal with |- bind ?a _ = _ => replace a with (Ret s1); [exact H|] end. symmetry. clear H Ef El Eo.
  revert E1. generalize (fst s, l) as s0. generalize (seq 0 (length (tc_lhs cx))) as I.
  induction I as [|i I IHI]; intros s0 E; cbn [forM] in *; [exact E|]. apply bind_ret_inv in E. destruct E as (s2 & E2 & E).
  match goal with |- bind ?a _ = _ => replace a with (Ret s2); [exact (IHI _ E)|] end. symmetry. destruct (st_halt (fst s0)); [exact E2|].
  apply bind_ret_inv in E2. destruct E2 as (l' & El & E2). rewrite El. cbn [bind]. apply bind_ret_inv in E2. destruct E2 as (r' & Er & E2). rewrite Er. cbn [bind]. now apply IH.
Qed.

Lemma touch_len m calls w : node_len (Children (map (fun i => (1%Z, nd m calls i)) w)) = length (changes_called m calls w).
Proof.
  cbn [node_len]. induction w as [|i w IH]; [reflexivity|]. cbn [map list_sum fold_right fst snd]. unfold list_sum in IH. rewrite IH. cbn [changes_called flat_map]. rewrite app_length. f_equal.
  change (Z.to_nat 1) with 1. rewrite Nat.mul_1_l. unfold nd, lead_called. cbn [node_len map list_sum fold_right fst snd]. change (Z.to_nat 1) with 1. rewrite !Nat.mul_1_l, Nat.add_0_r, app_length. reflexivity.
Qed.

Section Whole.
Variables (m : method) (calls : list change).
Hypothesis WM : wf_method m.
Hypothesis POS : 0 < mb m.
Hypothesis LEN : 1 <= length (mch m).
Hypothesis CALLS : on_b (mb m) calls.
Variable sym : symtab.
Notation b := (mb m).
Notation L := (length (mch m)).
Notation K := (length calls).
Notation lhd := (lhd m calls).
Notation hd := (hd m calls).
Notation nd := (nd m calls).
Variable P : group.
Hypothesis WP : wf_group P.
Hypothesis LP : gb P <= mb m.
Hypothesis TREB : (forall i, i <= K -> act (lhd i) 0 = 0) -> forall g, In g (gv P) -> act g 0 = 0.
Notation np := (length (gv P)).
Hypothesis NP : 1 < np -> 2 <= L /\ forall w, calling calls w -> exists o, order sym (hd w) = Ret o.
Definition npart (w : list nat) : bool := match order sym (hd w) with Ret o => (u64 o =? Z.of_nat np)%Z | _ => false end.

Lemma hd_tgood ft ic w : (forall i, i <= K -> tgood m sym ft ic (lhd i)) -> calling calls w -> tgood m sym ft ic (hd w).
Proof.
  intros G. induction w as [|i w IH] using rev_ind; intros C; [rewrite hd_nil; apply (tgood_id WM POS LEN CALLS)|].
  apply calling_app in C. destruct C as [C Ci]. inversion_clear Ci as [|? ? Hi _]. rewrite (hd_snoc WM POS LEN CALLS C Hi). apply (tgood_comp WM POS LEN CALLS); auto.
Qed.
Lemma P_pos : 1 <= np.
Proof. pose proof (id_P WP) as H. destruct (gv P); [destruct H|cbn; lia]. Qed.
(* the parts looked at *)
Definition inP (ic : bool) (g : row) : Prop := In g (gv P) /\ (ic = true -> sign sym g = Ret 1%Z).
Definition BB (ic : bool) (u w : list nat) : Prop := exists g, inP ic g /\ clash m (comp g (hd u)) (hd w).
Lemma part_sign ic g h : In g (gv P) -> row_b b h -> (ic = true -> sign sym h = Ret 1%Z) -> (ic = true -> sign sym (comp g h) = Ret 1%Z) -> ic = true -> sign sym g = Ret 1%Z.
Proof.
  intros Hg Hh S1 S2 I. pose proof (b255 WM POS LEN CALLS) as B. destruct (group_row WP Hg) as [G1 G2]. assert (RG : row256 g) by (split; [exact G1|unfold row in *; lia]). assert (RH : row256 h) by (apply (@row_b_256 b); [lia|exact Hh]).
  destruct (@sign_mul sym g h (comp g h) RG RH (mul_comp RG RH)) as (s1 & s2 & E1 & E2 & E3). rewrite (S1 I) in E2. rewrite (S2 I) in E3. injection E2 as <-. injection E3 as E3. rewrite E1. f_equal. lia.
Qed.
Lemma part_row g h : In g (gv P) -> row_b b h -> row_b b (comp g h).
Proof. intros Hg [H1 H2]. destruct (group_row WP Hg) as [G1 G2]. split; [now apply comp_row|]. rewrite comp_length. unfold row in *. lia. Qed.
Lemma part_good ft ic g h : (forall g, In g (gv P) -> ft = true -> act g 0 = 0) -> inP ic g -> tgood m sym ft ic h -> tgood m sym ft ic (comp g h).
Proof.
  intros T [Hg Sg] [[H1 H2] H3]. pose proof (b255 WM POS LEN CALLS) as B. split; [split; [now apply part_row|]|].
  - intros F. rewrite act_comp by apply H1. rewrite (H2 F). now apply T.
  - intros I. destruct (group_row WP Hg) as [G1 G2]. assert (RG : row256 g) by (split; [exact G1|unfold row in *; lia]). assert (RH : row256 h) by (apply (@row_b_256 b); [lia|exact H1]).
    destruct (@sign_mul sym g h (comp g h) RG RH (mul_comp RG RH)) as (s1 & s2 & E1 & E2 & E3). rewrite (Sg I) in E1. rewrite (H3 I) in E2. injection E1 as <-. injection E2 as <-. exact E3.
Qed.

Lemma row_false_spec tb idx ft t cols : Forall2 (fun f c => forall r, okr m ft r -> mt_mul tb (idx r) c = Ret (idx (comp r f))) t cols ->
  forall leads r, okr m ft r -> Forall (okr m ft) t -> (forall r, okr m ft r -> idx r < length leads) ->
  exists o, ts_row_false tb cols leads (idx r) = Ret o /\ (o = true <-> exists f, In f t /\ nth (idx (comp r f)) leads false = true).
Proof.
  intros F leads r Hr Ft LL. induction F as [|f c t cols H F IH]; [exists false; split; [reflexivity|split; [discriminate|intros (f & [] & _)]]|].
  inversion_clear Ft as [|? ? Hf Ft']. destruct (IH Ft') as (o & Eo & Ho). cbn [ts_row_false]. rewrite (H r Hr). cbn [bind].
  rewrite (@vget_lt _ _ _ false) by (apply LL; now apply (okr_comp WM POS LEN CALLS)). cbn [bind]. destruct (nth (idx (comp r f)) leads false) eqn:N.
  - exists true. split; [reflexivity|]. split; [intros _; exists f; split; [now left|exact N]|auto].
  - exists o. split; [exact Eo|]. rewrite Ho. split; intros (f' & Hf' & N').
    + exists f'. split; [now right|exact N'].
    + destruct Hf' as [<-|Hf']; [congruence|]. exists f'. auto.
Qed.

Definition acc (lo hi fl : Z) (ic : bool) (v : list nat) (cur : nat) : Prop :=
  v <> [] /\ calling calls v /\ (if 1 <? np then cur = 0 else kept v cur) /\ (1 <? np) || is_really_canonical v = true /\
  (forall p q, p < q < length v -> ~ BB ic (firstn p v) (firstn q v)) /\
  ((exists g, In g (gv P) /\ hd v = comp g (id_row b)) \/ has fl TS_NONROUND = true /\ exists p, p < length v /\ BB ic (firstn p v) v) /\
  (lo <= Z.of_nat (length v) <= hi)%Z.
Definition wants (fl : Z) (w : list nat) : bool := has fl TS_MUTUAL || negb (1 <? np) || npart w.
Definition nturns (fl : Z) (len cur : nat) : nat := if has fl TS_IGNORE || (1 <? np) then 1 else len / (if negb (len mod cur =? 0) then cur else len / cur).
Definition blk (fl : Z) (e : list nat * nat) : list (list nat) := if wants fl (fst e) then map (fun k => turn k (fst e)) (seq 0 (nturns fl (length (fst e)) (snd e))) else [].
Definition tof (w : list nat) : node := Children (map (fun i => (1%Z, nd i)) w).
Definition imp (ft ic : bool) : Prop := exists f, tgood m sym ft ic f /\ f <> id_row b /\ In f (gv P) /\ clash m (id_row b) f.

Lemma whole lo hi fl : exists n vs ft ic, ((forall i, i <= K -> tgood m sym ft ic (lhd i)) /\ (forall g, In g (gv P) -> ft = true -> act g 0 = 0)) /\
  (forall fuel stop, n <= fuel -> exists st, ts_run fuel sym (mkTS m calls P lo hi fl) stop = Ret st /\ (st_outs st, st_halt st) = feed stop [] (map tof (flat_map (blk fl) vs))) /\
  (forall e, In e vs <-> ~ imp ft ic /\ acc lo hi fl ic (fst e) (snd e)) /\ StronglySorted before vs.
Proof.
  pose proof (b255 WM POS LEN CALLS) as B0.
  set (f0 := Z.to_nat (fac b)). destruct (@context_spec m calls WM POS LEN CALLS sym P WP LP TREB lo hi fl f0) as (cx & ft & ic & t & lhs & idx & EC & (C1 & C2 & C3) & (C4 & C5) & (C6 & C7) & C8 & (GL & PT) & (Ft & Ct) & (IL & I0) & IE & STEP & MM); [unfold f0; pose proof (fac_pos b); lia|].
  assert (IMP : tc_impossible cx = true <-> imp ft ic).
  { rewrite C8. rewrite Forall_forall in Ft. split.
    - intros (f & Hf & N & HP). exists f. split; [now apply Ft|]. split; [exact N|]. split; [exact HP|]. apply Ct; [apply (tgood_id WM POS LEN CALLS)|now apply Ft|]. exists f. split; [exact Hf|]. apply (@comp_id_l b). apply (Ft f Hf).
    - intros (f & Tf & N & HP & Cl). apply Ct in Cl; [|apply (tgood_id WM POS LEN CALLS)|exact Tf]. destruct Cl as (f' & Hf' & E). rewrite (@comp_id_l b) in E by apply (Ft f' Hf'). subst f'. exists f. auto. }
  assert (HG : forall w, calling calls w -> tgood m sym ft ic (hd w)) by (intros w; now apply hd_tgood).
  assert (HO : forall w, calling calls w -> okr m ft (hd w)) by (intros w C; apply (HG w C)).
  set (N := length (mtab (tc_table cx))). set (ix := fun w => idx (hd w)).
  assert (PO : parts_of cx = np) by (unfold parts_of; now rewrite C4).
  assert (IE' : forall u v, calling calls u -> calling calls v -> (ix u = ix v <-> exists g, inP ic g /\ hd v = comp g (hd u))).
  { intros u v Cu Cv. unfold ix. rewrite (IE _ _ (HO u Cu) (HO v Cv)). split; intros (g & Hg & E); exists g; (split; [|exact E]); [|apply Hg]. split; [exact Hg|]. apply (@part_sign ic g (hd u) Hg); [apply (HO u Cu)|apply (HG u Cu)|]. rewrite <- E. apply (HG v Cv). }
  assert (SAME : forall u v, calling calls u -> calling calls v -> ix u = ix v -> BB ic u v).
  { intros u v Cu Cv E. apply (IE' u v Cu Cv) in E. destruct E as (g & Hg & E). exists g. split; [exact Hg|]. rewrite E. apply (clash_refl WM POS LEN CALLS). }
  assert (FAL : forall w l, calling calls w -> leads_ok N ix w l -> exists o, ts_row_false (tc_table cx) (tc_false cx) l (ix w) = Ret o /\ (o = true <-> exists p, p < length w /\ BB ic (firstn p w) w)).
  { intros w l C [LL LH]. destruct (@row_false_spec (tc_table cx) idx ft t (tc_false cx) MM l (hd w)) as (o & Eo & Ho); [now apply HO| | |].
    { eapply Forall_impl; [|exact Ft]. intros f Hf. apply Hf. }
    { intros r Hr. rewrite LL. now apply IL. }
    exists o. split; [exact Eo|]. rewrite Ho. rewrite Forall_forall in Ft. split.
    - intros (f & Hf & Hn). assert (TF : tgood m sym ft ic (comp (hd w) f)) by (apply (tgood_comp WM POS LEN CALLS); auto). apply LH in Hn; [|apply IL; apply TF]. destruct Hn as (p & Hp & E). exists p. split; [exact Hp|].
      pose proof (calling_firstn p C) as Cp. symmetry in E. unfold ix in E. apply (IE _ _ (HO _ Cp) (proj1 TF)) in E. destruct E as (g & Hg & E). exists g. split.
      + split; [exact Hg|]. apply (@part_sign ic g (hd (firstn p w)) Hg); [apply (HO _ Cp)|apply (HG _ Cp)|]. rewrite <- E. apply TF.
      + rewrite <- E. apply clash_sym. apply Ct; [now apply HG|exact TF|]. exists f. auto.
    - intros (p & Hp & g & Hg & Cl). pose proof (calling_firstn p C) as Cp. assert (TF : tgood m sym ft ic (comp g (hd (firstn p w)))) by (apply part_good; auto).
      apply clash_sym in Cl. apply Ct in Cl; [|now apply HG|exact TF]. destruct Cl as (f & Hf & E). exists f. split; [exact Hf|].
      assert (TF' : tgood m sym ft ic (comp (hd w) f)) by (apply (tgood_comp WM POS LEN CALLS); auto). apply LH; [apply IL; apply TF'|]. exists p. split; [exact Hp|]. symmetry. unfold ix. apply (IE _ _ (HO _ Cp) (proj1 TF')). exists g. split; [apply Hg|exact E]. }
  assert (NPA : forall w, calling calls w -> w <> [] -> multi cx = true -> ts_is_n_part sym cx (P_TSearch.touch_of nd w) = Ret (npart w)).
  { intros w C Hw M. unfold multi in M. rewrite PO in M. apply Nat.ltb_lt in M. destruct (NP M) as [L2 OR]. unfold ts_is_n_part. rewrite C5, PO.
    assert (FL : flatten (P_TSearch.touch_of nd w) = changes_called m calls w) by (exact (touch_flat m calls w)).
    assert (TC : touch_changes (node_len (P_TSearch.touch_of nd w)) (Some (P_TSearch.touch_of nd w)) = Ret (changes_called m calls w)).
    { rewrite <- FL. apply C35_touch_iteration; [|rewrite FL; rewrite <- touch_len; apply Nat.le_refl].
      unfold P_TSearch.touch_of. apply well_made_kids. apply Forall_forall. intros [z x] Hx. apply in_map_iff in Hx. destruct Hx as (i & E & Hi). injection E as <- <-.
      unfold calling in C. rewrite Forall_forall in C. specialize (C i Hi). destruct (lead_is WM POS LEN CALLS C) as (c & _ & _ & _ & LC).
      assert (NE : removelast (mch m) <> []). { destruct (mch m) as [|c1 [|c2 tl]]; [cbn in L2; lia|cbn in L2; lia|discriminate]. }
      unfold lead_called in LC. apply app_inv_head in LC. unfold kid_ok. cbn [fst snd]. split; [unfold int_max; lia|]. split.
      - rewrite nd_flat. unfold lead_called. rewrite LC. now destruct (removelast (mch m)).
      - unfold P_Search5.nd. rewrite LC. cbn [well_made flatten]. unfold int_max. repeat split; try lia; [exact NE|discriminate]. }
    rewrite TC. cbn [bind]. rewrite rounds_id by lia. destruct (@ring_all (id_row b) (changes_called m calls w)) as (r & E & R). { split; [apply is_row_id|rewrite id_length; lia]. } { apply (@on_b_ok b); [exact B0|]. now apply (changes_on WM POS LEN CALLS). }
    apply (rung_iff B0) in R; [|now apply (changes_on WM POS LEN CALLS)]. rewrite E. cbn [bind]. rewrite R. change (row_of b (changes_called m calls w)) with (hd w). unfold npart. destruct (OR w C) as (o & Eo). rewrite Eo. reflexivity. }
  assert (RUN : forall fuel, N + 1 <= fuel -> exists full, performs cx nd npart (fun stop s => ts_recursive fuel sym cx stop (ix []) 0 [] 0 s) (leads_ok N ix []) full /\
    (forall e, In e full <-> produced cx K ix (BB ic) [] e) /\ StronglySorted before full).
  { intros fuel Hf. apply (@run_spec sym cx K N ix (BB ic) lhs nd npart); auto.
    - rewrite PO. exact P_pos.
    - intros w C. apply IL. now apply HO.
    - unfold ix. now rewrite hd_nil.
    - intros w i C Hi. unfold ix. rewrite (hd_snoc WM POS LEN CALLS C Hi). apply STEP; auto.
    - left. auto.
    - constructor.
    - intros p q Hpq. cbn in Hpq. lia.
    - congruence.
    - cbn [length]. lia. }
  assert (BL : forall l, flat_map (block cx npart) l = flat_map (blk fl) l).
  { intros l. apply flat_map_ext. intros e. unfold block, blk, wanted, wants, turns, nturns, multi. now rewrite PO, C3. }
  assert (AC : forall e, produced cx K ix (BB ic) [] e <-> acc lo hi fl ic (fst e) (snd e)).
  { intros [v cur]. unfold produced, accepted, acc, ends, tkept, ts_really, multi, P_TSearch.nofalse. rewrite PO, C1, C2, C3. cbn [fst snd app].
    assert (EN : calling calls v -> (ix v = 0 <-> exists g, In g (gv P) /\ hd v = comp g (id_row b))).
    { intros C. pose proof (IE' [] v (Forall_nil _) C) as X. unfold ix in X at 1. rewrite hd_nil, I0 in X. split.
      - intros Z. symmetry in Z. apply X in Z. destruct Z as (g & [Hg _] & E). eauto.
      - intros (g & Hg & E). symmetry. unfold ix. rewrite <- I0. apply (IE _ _ (proj1 (tgood_id WM POS LEN CALLS sym ft ic)) (HO v C)). eauto. }
    split.
    - intros [(A1 & A2 & A3 & A4 & A5 & A6 & A7) _]. repeat (split; [assumption|]). split; [|assumption]. destruct A6 as [A6|A6]; [left; now apply EN|right; exact A6].
    - intros (A1 & A2 & A3 & A4 & A5 & A6 & A7). split; [|eauto]. repeat (split; [assumption|]). split; [|assumption]. destruct A6 as [A6|A6]; [left; now apply EN|right; exact A6]. }
  destruct (tc_impossible cx) eqn:EI.
  - exists f0, [], ft, ic. split; [split; [exact GL|exact PT]|]. split; [|split; [|constructor]].
    + intros fuel stop Hf. exists (mkSt false [] [] []). split; [|reflexivity]. unfold ts_run. rewrite (context_more Hf EC). cbn [bind]. rewrite EI. reflexivity.
    + intros e. split; [intros []|]. intros [X _]. apply X. now apply IMP.
  - destruct (RUN (N + 1) (Nat.le_refl _)) as (vs & PF & MV & SV). exists (f0 + (N + 1)), vs, ft, ic. split; [split; [exact GL|exact PT]|]. split; [|split; [|exact SV]].
    + intros fuel stop Hf. destruct (PF stop (mkSt false [] [] [], repeat false N)) as (s' & ES & _ & EO); [reflexivity| |].
      { split; [apply repeat_length|]. intros j Hj. cbn [snd]. rewrite nth_repeat. split; [discriminate|intros (p & Hp & _); cbn in Hp; lia]. }
      exists (fst s'). rewrite BL in EO. split; [|exact EO]. unfold ts_run. rewrite (@context_more f0 fuel _ _ _ ltac:(lia) EC). cbn [bind]. rewrite EI.
      replace fuel with ((fuel - (N + 1)) + (N + 1)) by lia. fold N. replace (ix []) with 0 in ES by (unfold ix; rewrite hd_nil; now symmetry). rewrite (recursive_more _ ES). cbn [bind]. now destruct s'.
    + intros e. rewrite MV, AC. split; [|tauto]. intros A. split; [|exact A]. intros Y. apply IMP in Y. discriminate.
Qed.
End Whole.
