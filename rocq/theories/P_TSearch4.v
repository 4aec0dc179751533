(* P_TSearch4.v - the context of table_search. *)
From Verif Require Import Base M_Bell M_Change M_Math M_Row M_Extent M_Group M_Multtab M_Touch M_PN M_Method M_False M_Search M_TSearch
  Spec_Row Spec_Change Spec_Touch Spec_Group Spec_Multtab Spec_Method Spec_False Spec_Extent Spec_Search
  P_Row P_Perm P_Change2 P_Change3 P_Cycle P_Extent P_Extent2 P_Extent3 P_Group P_Group2 P_Group3 P_Multtab P_Multtab2 P_Touch P_False P_False3 P_False4 P_Search P_Search2 P_Search3 P_Search4 P_Search5 P_TSearch2 P_TSearch3 Props_False.
Set Implicit Arguments.
Unset Strict Implicit.
Open Scope nat_scope.

Lemma map_nth_seq A (l : list A) d : map (fun i => nth i l d) (seq 0 (length l)) = l.
Proof.
  induction l as [|a l IH]; [reflexivity|]. cbn [length seq map nth]. f_equal. rewrite <- seq_shift, map_map. exact IH.
Qed.
Lemma isrounds_id b f : b <= 256 -> row_b b f -> (isrounds f = true <-> f = id_row b).
Proof.
  intros B H. rewrite isrounds_spec. split; [intros A; apply (@row_b_ext b); [exact H|apply row_b_id|]; intros i; now rewrite A, act_id|]. intros -> i. apply act_id.
Qed.
Lemma init_false_cols fs : forall t a imp t' cols, run_cols t (map (pair post_mult) fs) = Ret (t', cols) ->
  forM fs ts_init_false (t, a, imp) = Ret (t', a ++ cols, imp || existsb (fun f => negb (isrounds f) && existsb (row_eqb f) (gv (mpends t))) fs).
Proof.
  induction fs as [|f fs IH]; intros t a imp t' cols E; cbn [map run_cols] in E.
  - injection E as <- <-. cbn. now rewrite app_nil_r, orb_false_r.
  - apply bind_ret_inv in E. destruct E as ([t1 c] & E1 & E). apply bind_ret_inv in E. destruct E as ([t2 cs] & E2 & E). injection E as <- <-.
    cbn [forM]. unfold ts_init_false at 1. unfold compute_post_mult. rewrite E1. cbn [bind]. rewrite (IH _ _ _ _ _ E2). pose proof (column_same E1) as (_ & S2 & _). rewrite S2. rewrite <- app_assoc. cbn [app existsb]. rewrite orb_assoc. reflexivity.
Qed.

Lemma Forall2_len A B (R : A -> B -> Prop) l l' : Forall2 R l l' -> length l = length l'.
Proof. induction 1; cbn; congruence. Qed.
Lemma map_calls X (last : change) calls (f : change -> X) (g : nat -> X) : (forall i c, i <= length calls -> nth_error (last :: calls) i = Some c -> f c = g i) ->
  map f (last :: calls) = map g (seq 0 (S (length calls))).
Proof.
  set (l := last :: calls). change (S (length calls)) with (length l). intros H.
  assert (H' : forall i c, nth_error l i = Some c -> f c = g i). { intros i c E. apply H; [|exact E]. assert (i < length l) by (apply nth_error_Some; congruence). cbn in *. lia. }
  clear H. revert g H'. generalize l. clear. induction l as [|c l IH]; intros g H; [reflexivity|]. cbn [length seq map]. f_equal; [now apply H|].
  rewrite <- seq_shift, map_map. apply (IH (fun i => g (S i))). intros i x E. now apply H.
Qed.
Section Ctx.
Variables (m : method) (calls : list change).
Hypothesis WM : wf_method m.
Hypothesis POS : 0 < mb m.
Hypothesis LEN : 1 <= length (mch m).
Hypothesis CALLS : on_b (mb m) calls.
Variable sym : symtab.
Notation b := (mb m).
Notation L := (length (mch m)).
Notation K := (length calls).
Notation lhd := (lhd m calls).
Notation hd := (hd m calls).
Notation nd := (nd m calls).
Variable P : group.
Hypothesis WP : wf_group P.
Hypothesis LP : gb P <= mb m.
Hypothesis TREB : (forall i, i <= K -> act (lhd i) 0 = 0) -> forall g, In g (gv P) -> act g 0 = 0.

Lemma init_calls_cols le cs : row256 le -> rung [] (removelast (mch m)) le -> on_b b cs -> forall t a n t' cols,
  run_cols t (map (pair post_mult) (map (fun c => row_of b (removelast (mch m) ++ [c])) cs)) = Ret (t', cols) ->
  forM cs (ts_init_call (removelast (mch m)) le) (t, a, n) = Ret (t', a ++ cols, n ++ map (fun c => Children [(1%Z, Changes (removelast (mch m))); (1%Z, Changes [c])]) cs).
Proof.
  intros Rl Rg. assert (Rm : on_b b (removelast (mch m))). { destruct (mch_split WM POS LEN CALLS) as (l & c & E & Er & _). rewrite Er. pose proof (mch_on WM POS LEN CALLS) as O. rewrite E in O. now apply on_b_app in O. }
  induction 1 as [|c cs [C1 C2] Hcs IH]; intros t a n t' cols RC; cbn [map run_cols] in RC; [injection RC as <- <-; cbn; now rewrite !app_nil_r|]. pose proof (b255 WM POS LEN CALLS) as B.
  apply bind_ret_inv in RC. destruct RC as ([t1 c1] & E1 & E). apply bind_ret_inv in E. destruct E as ([t2 cs2] & E2 & E). injection E as <- <-.
  cbn [forM map]. unfold ts_init_call at 1. destruct (@rung_snoc [] (removelast (mch m)) le c Rg) as (r' & E' & R'); [split; [exact C2|lia]|]. rewrite E'. cbn [bind].
  assert (r' = row_of b (removelast (mch m) ++ [c])) as ->.
  { assert (O : on_b b (removelast (mch m) ++ [c])) by (apply on_b_app; split; [exact Rm|repeat constructor; assumption]).
    destruct R' as (_ & RL & RA). rewrite widest_snoc in RL. pose proof (on_b_widest B Rm) as W. cbn [length] in RL. 
    apply act_ext; [destruct (row_of_b B O); unfold row in *; lia|]. intros i _. rewrite RA. rewrite act_row_of by assumption. now destruct (came_from _ i). }
  unfold compute_post_mult. rewrite E1. cbn [bind]. rewrite (IH _ _ _ _ _ E2), <- !app_assoc. reflexivity.
Qed.

Lemma context_spec lo hi fl fuel : (fac b <= Z.of_nat fuel)%Z -> exists cx ft ic t lhs idx,
  ts_context fuel sym (mkTS m calls P lo hi fl) = Ret cx /\ (tc_min cx = lo /\ tc_max cx = hi /\ tc_flags cx = fl) /\
  (mpends (tc_table cx) = P /\ length (List.hd [] (mrows (tc_table cx))) = b) /\
  (tc_lhs cx = map lhs (seq 0 (S K)) /\ tc_nodes cx = map nd (seq 0 (S K))) /\
  (tc_impossible cx = true <-> exists f, In f t /\ f <> id_row b /\ In f (gv P)) /\
  ((forall i, i <= K -> tgood m sym ft ic (lhd i)) /\ (forall g, In g (gv P) -> ft = true -> act g 0 = 0)) /\
  (Forall (tgood m sym ft ic) t /\ forall h h', tgood m sym ft ic h -> tgood m sym ft ic h' -> ((exists f, In f t /\ comp h f = h') <-> clash m h h')) /\
  ((forall r, okr m ft r -> idx r < length (mtab (tc_table cx))) /\ idx (id_row b) = 0) /\
  (forall r r', okr m ft r -> okr m ft r' -> (idx r = idx r' <-> exists g, In g (gv P) /\ r' = comp g r)) /\
  (forall i r, i <= K -> okr m ft r -> mt_mul (tc_table cx) (idx r) (lhs i) = Ret (idx (comp r (lhd i)))) /\
  Forall2 (fun f c => forall r, okr m ft r -> mt_mul (tc_table cx) (idx r) c = Ret (idx (comp r f))) t (tc_false cx).
Proof.
  intros HF. pose proof (b255 WM POS LEN CALLS) as B.
  destruct (ft_spec WM POS LEN CALLS) as (ft & Eft & Hft). destruct (ic_spec WM POS LEN CALLS sym) as (ic & Eic & Hic).
  destruct (extent_rows WM POS LEN CALLS ft HF) as (RR & ER & SR & AR). destruct (false_rows WM POS LEN CALLS sym ft ic) as (t & Et & Ft & _ & Ct).
  assert (PT : forall g, In g (gv P) -> ft = true -> act g 0 = 0) by (intros g Hg F; apply TREB; auto).
  assert (GL : forall i, i <= K -> tgood m sym ft ic (lhd i)).
  { intros i Hi. split; [split; [now apply (lhd_row WM POS LEN CALLS)|intros F; now apply Hft]|intros F; now apply Hic]. }
  assert (CL : closed_rows b P group_default RR).
  { split; [intros r Hr; now apply AR in Hr as [Hr _]|]. intros r y Hr C. apply AR in Hr. destruct Hr as [H1 H2]. apply (@coset_default b P ltac:(lia) B WP LP r y H1) in C. destruct C as (g & Hg & ->). apply AR.
    destruct (group_row WP Hg) as [G1 G2]. split; [split; [apply comp_row; [exact G1|apply H1]|rewrite comp_length; destruct H1; unfold row in *; lia]|]. intros F. rewrite act_comp by apply H1. rewrite (H2 F). now apply PT. }
  assert (ND : NoDup RR) by (now apply row_sorted_nodup).
  assert (HID : In (id_row b) RR) by (apply AR; apply (tgood_id WM POS LEN CALLS sym ft ic)).
  destruct (@part_init b P group_default ltac:(lia) ltac:(lia) WP wf_default LP ltac:(cbn; lia) RR CL ltac:(cbn; lia) ND) as (t0 & E0 & _).
  set (xs1 := map (fun c => row_of b (removelast (mch m) ++ [c])) (last (mch m) (mkChange 0 []) :: calls)).
  assert (X1 : xs1 = map lhd (seq 0 (S K))).
  { unfold xs1. apply map_calls. intros i x Hi N. destruct (lead_is WM POS LEN CALLS Hi) as (x' & N' & _ & _ & LC). rewrite N in N'. injection N' as <-. unfold P_Search4.lhd. now rewrite LC. }
  assert (FX : Forall (tgood m sym ft ic) (xs1 ++ t)).
  { apply Forall_app. split; [|exact Ft]. rewrite X1. apply Forall_forall. intros x Hx. apply in_map_iff in Hx. destruct Hx as (i & <- & Hi). apply in_seq in Hi. apply GL. lia. }
  destruct (@table_ops b P RR ltac:(lia) B WP LP CL HID t0 (xs1 ++ t) E0) as (tb & cs & idx & RC & LC & MP & HB & IL & I0 & IE & MM).
  { eapply Forall_impl; [|exact FX]. intros x Hx. apply Hx. }
  { discriminate. }
  { intros r x Hr Hx. apply AR. apply AR in Hr. rewrite Forall_forall in FX. apply (okr_comp WM POS LEN CALLS Hr). now apply FX. }
  rewrite map_app in RC. apply cols_split in RC. destruct RC as (t1 & c1 & c2 & RC1 & RC2 & ->).
  assert (L1 : length c1 = S K) by (rewrite (cols_length RC1), map_length, X1, map_length, seq_length; reflexivity).
  assert (MM1 : Forall2 (fun x c => forall r, In r RR -> mt_mul tb (idx r) c = Ret (idx (comp r x))) xs1 c1 /\ Forall2 (fun x c => forall r, In r RR -> mt_mul tb (idx r) c = Ret (idx (comp r x))) t c2).
  { apply Forall2_app_inv_l in MM. destruct MM as (d1 & d2 & M1 & M2 & E). assert (length c1 = length d1) by (rewrite <- (Forall2_len M1); rewrite (cols_length RC1), map_length; reflexivity).
    apply app_eq_app in E. destruct E as (l & [[A1 A2]|[A1 A2]]); assert (l = []) by (destruct l; [reflexivity|exfalso; apply (f_equal (@length _)) in A1; rewrite app_length in A1; cbn in A1; lia]); subst l; rewrite app_nil_r in A1; cbn in A2; subst; auto. }
  destruct MM1 as [M1 M2].
  pose proof (mch_on WM POS LEN CALLS) as O. destruct (mch_split WM POS LEN CALLS) as (l & c & E & Er & El).
  assert (Rm : on_b b (removelast (mch m))) by (rewrite Er; rewrite E in O; now apply on_b_app in O).
  destruct (@ring_all [] (removelast (mch m))) as (le & El1 & R1). { split; [exact (is_row_id 0)|cbn; lia]. } { now apply (@on_b_ok b). }
  assert (OC : on_b b (last (mch m) (mkChange 0 []) :: calls)). { constructor; [|exact CALLS]. rewrite El. rewrite E in O. apply on_b_app in O. destruct O as [_ O]. now inversion O. }
  pose proof (@init_calls_cols le _ (proj1 R1) R1 OC t0 [] [] _ _ RC1) as EC. pose proof (@init_false_cols t t1 [] false _ _ RC2) as EF.
  pose proof (cols_same RC1) as (_ & SP & _). pose proof (cols_same RC2) as (_ & SP2 & _).
  eexists. exists ft, ic, t, (fun i => nth i c1 0), idx. split.
  { unfold ts_context. cbn [ts_meth ts_calls ts_ends ts_min ts_max ts_flags]. unfold ts_table. cbn [ts_meth ts_calls ts_ends]. rewrite Eft. cbn [bind]. rewrite ER. cbn [bind]. rewrite E0. cbn [bind].
    rewrite (back_spec POS LEN). rewrite El1. destruct (mch m) as [|c0 tl0] eqn:Em; [cbn in LEN; lia|]. rewrite <- Em in *. cbn [bind]. rewrite EC. cbn [bind app]. rewrite Eic. cbn [bind]. rewrite Et. cbn [bind]. rewrite EF. cbn [bind]. reflexivity. }
  cbn [tc_min tc_max tc_flags tc_table tc_lhs tc_nodes tc_false tc_impossible app].
  split; [auto|]. split; [split; [exact MP|exact HB]|]. split; [split|].
  { rewrite <- L1. symmetry. apply map_nth_seq. }
  { apply map_calls. intros i x Hi N. destruct (lead_is WM POS LEN CALLS Hi) as (x' & N' & _ & _ & LC'). rewrite N in N'. injection N' as <-.
    unfold lead_called in LC'. apply app_inv_head in LC'. unfold P_Search5.nd. now rewrite LC'. }
  split.
  { assert (PP : mpends t1 = P) by congruence. cbn [orb]. rewrite existsb_exists, PP. rewrite Forall_forall in Ft. split; intros (f & Hf & HH); exists f; (split; [exact Hf|]).
    - apply andb_true_iff in HH. destruct HH as [H1 H2]. apply existsb_exists in H2. destruct H2 as (g & Hg & Eg). apply row_eqb_spec in Eg. subst g. split; [|exact Hg]. intros Y. apply (@isrounds_id b f ltac:(lia)) in Y; [rewrite Y in H1; discriminate|]. apply (Ft f Hf).
    - destruct HH as [H1 H2]. apply andb_true_iff. split.
      + destruct (isrounds f) eqn:Y; [|reflexivity]. apply (@isrounds_id b f ltac:(lia)) in Y; [congruence|]. apply (Ft f Hf).
      + apply existsb_exists. exists f. split; [exact H2|]. now apply row_eqb_spec. }
  split; [split; [exact GL|exact PT]|]. split; [split; [exact Ft|exact Ct]|]. split; [split; [|exact I0]|].
  { intros r Hr. apply IL. now apply AR. }
  split. { intros r r' Hr Hr'. apply IE; now apply AR. }
  split.
  - intros i r Hi Hr. rewrite X1 in M1. apply AR in Hr. assert (X : forall q x c, nth_error (map lhd (seq 0 (S K))) q = Some x -> nth_error c1 q = Some c -> mt_mul tb (idx r) c = Ret (idx (comp r x))).
    { clear -M1 Hr. induction M1 as [|x y l l' H M IH]; intros [|q] x' c' N1 N2; cbn in N1, N2; try discriminate; [injection N1 as <-; injection N2 as <-; auto|]. exact (IH q x' c' N1 N2). }
    apply (X i); [rewrite nth_error_map; rewrite (nth_error_nth' _ 0) by (rewrite seq_length; lia); rewrite seq_nth by lia; reflexivity|apply nth_error_nth'; unfold row in *; lia].
  - clear -M2 AR. induction M2; constructor; auto. intros r Hr. apply H. now apply AR.
Qed.
End Ctx.
