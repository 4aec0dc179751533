(* P_TSearch2.v - the table table_search uses. *)
From Verif Require Import Base M_Bell M_Change M_Math M_Row M_Extent M_Group M_Multtab M_Touch M_PN M_Method M_False M_Search M_TSearch
  Spec_Row Spec_Change Spec_Touch Spec_Group Spec_Multtab Spec_Method Spec_False Spec_Extent Spec_Search
  P_Row P_Change3 P_Cycle P_Extent P_Extent2 P_Extent3 P_Group P_Group2 P_Group3 P_Multtab P_Multtab2 P_Touch P_False P_False4 P_Search P_Search2 P_Search3 P_Search4 P_Search5 Props_False.
Set Implicit Arguments.
Unset Strict Implicit.
Open Scope nat_scope.

Lemma column_same k t x t' c : mt_column k t x = Ret (t', c) -> same_set t t'.
Proof.
  unfold mt_column. intros E. apply bind_ret_inv in E. destruct E as (? & _ & E). destruct (find_col (mcols t) 0 x k); [injection E as <- _; repeat split|].
  apply bind_ret_inv in E. destruct E as (tab & _ & E). injection E as <- _. repeat split.
Qed.
Lemma cols_same ops : forall t t' cs, run_cols t ops = Ret (t', cs) -> same_set t t'.
Proof.
  induction ops as [|[k x] ops IH]; intros t t' cs E; cbn [run_cols] in E; [injection E as <- _; repeat split|].
  apply bind_ret_inv in E. destruct E as ([t1 c] & E1 & E). apply bind_ret_inv in E. destruct E as ([t2 cs2] & E2 & E). injection E as <- _.
  apply column_same in E1. apply IH in E2. destruct E1 as (A1 & A2 & A3), E2 as (B1 & B2 & B3). repeat split; congruence.
Qed.
Lemma cols_app a c : forall t t1 ca t2 cc, run_cols t a = Ret (t1, ca) -> run_cols t1 c = Ret (t2, cc) -> run_cols t (a ++ c) = Ret (t2, ca ++ cc).
Proof.
  induction a as [|[k x] a IH]; intros t t1 ca t2 cc E1 E2; cbn [run_cols app] in *; [injection E1 as <- <-; exact E2|].
  apply bind_ret_inv in E1. destruct E1 as ([t' c'] & E & E1). apply bind_ret_inv in E1. destruct E1 as ([t'' cs] & E' & E1). injection E1 as <- <-.
  rewrite E. cbn [bind]. rewrite (IH _ _ _ _ _ E' E2). reflexivity.
Qed.
Lemma cols_split a c : forall t t2 cs, run_cols t (a ++ c) = Ret (t2, cs) -> exists t1 ca cc, run_cols t a = Ret (t1, ca) /\ run_cols t1 c = Ret (t2, cc) /\ cs = ca ++ cc.
Proof.
  induction a as [|[k x] a IH]; intros t t2 cs E; cbn [run_cols app] in *; [exists t, [], cs; auto|].
  apply bind_ret_inv in E. destruct E as ([t' c'] & E1 & E). apply bind_ret_inv in E. destruct E as ([t'' cs'] & E2 & E). injection E as <- <-.
  destruct (IH _ _ _ E2) as (t1 & ca & cc & A & C & ->). rewrite E1. cbn [bind]. rewrite A. cbn [bind]. exists t1, (c' :: ca), cc. auto.
Qed.
Lemma cols_length ops : forall t t' cs, run_cols t ops = Ret (t', cs) -> length cs = length ops.
Proof.
  induction ops as [|[k x] ops IH]; intros t t' cs E; cbn [run_cols] in E; [injection E as _ <-; reflexivity|].
  apply bind_ret_inv in E. destruct E as ([t1 c] & E1 & E). apply bind_ret_inv in E. destruct E as ([t2 cs2] & E2 & E). injection E as _ <-. cbn. f_equal. exact (IH _ _ _ E2).
Qed.

Lemma comp_nil_b b x : row_b b x -> comp x [] = x /\ comp [] x = x.
Proof.
  intros [Hx L]. unfold comp. cbn [length]. rewrite Nat.max_0_r, Nat.max_0_l. split; apply act_ext; rewrite ?map_length, ?seq_length; auto; intros i Hi.
  - rewrite (@act_nth _ _ 0) by (rewrite map_length, seq_length; exact Hi). rewrite (nth_indep _ 0 ((fun i => act x (act [] i)) 0)) by (rewrite map_length, seq_length; exact Hi).
    rewrite (map_nth (fun i => act x (act [] i))), seq_nth by exact Hi. cbn [plus]. f_equal. now destruct i.
  - rewrite (@act_nth _ _ 0) by (rewrite map_length, seq_length; exact Hi). rewrite (nth_indep _ 0 ((fun i => act [] (act x i)) 0)) by (rewrite map_length, seq_length; exact Hi).
    rewrite (map_nth (fun i => act [] (act x i))), seq_nth by exact Hi. cbn [plus]. generalize (act x i). intros j. now destruct j.
Qed.

Section Table.
Variables (b : nat) (P : group) (RR : list row).
Hypothesis B1 : 1 <= b.
Hypothesis B2 : b <= 255.
Hypothesis WP : wf_group P.
Hypothesis LP : gb P <= b.
Hypothesis HR : closed_rows b P group_default RR.
Hypothesis ND : NoDup RR.
Hypothesis HID : In (id_row b) RR.

Lemma coset_default r y : row_b b r -> (in_coset P group_default r y <-> exists g, In g (gv P) /\ y = comp g r).
Proof.
  intros Hr. assert (X : forall g, In g (gv P) -> row_b b (comp g r)). { intros g Hg. destruct (group_row WP Hg) as [G1 G2]. destruct Hr as [R1 R2]. split; [now apply comp_row|]. rewrite comp_length. lia. }
  split.
  - intros (g & h & Hg & [<-|[]] & ->). exists g. split; [exact Hg|]. now apply (comp_nil_b (X g Hg)).
  - intros (g & Hg & ->). exists g, []. split; [exact Hg|]. split; [now left|]. symmetry. now apply (comp_nil_b (X g Hg)).
Qed.

Lemma table_ops t0 xs : mt_init RR P group_default = Ret t0 -> Forall (row_b b) xs -> xs <> [] -> (forall r x, In r RR -> In x xs -> In (comp r x) RR) ->
  exists t cs idx, run_cols t0 (map (pair post_mult) xs) = Ret (t, cs) /\ length cs = length xs /\ mpends t = P /\ length (List.hd [] (mrows t)) = b /\
    (forall r, In r RR -> idx r < length (mtab t)) /\ idx (id_row b) = 0 /\
    (forall r r', In r RR -> In r' RR -> (idx r = idx r' <-> exists g, In g (gv P) /\ r' = comp g r)) /\
    Forall2 (fun x c => forall r, In r RR -> mt_mul t (idx r) c = Ret (idx (comp r x))) xs cs.
Proof.
  intros Et FX NX CX.
  assert (RB : forall r, In r RR -> row_b b r) by (intros r Hr; now apply HR in Hr).
  destruct (@part_table b P group_default B1 ltac:(lia) WP wf_default LP ltac:(cbn; lia) RR HR t0 (map (pair post_mult) xs) Et) as (t & cs & E & LC & MR & TB).
  { apply Forall_forall. intros o Ho. apply in_map_iff in Ho. destruct Ho as (x & <- & Hx). rewrite Forall_forall in FX. specialize (FX x Hx). cbn [fst snd]. split; [apply (@row_b_256 b); [lia|exact FX]|]. split; [destruct FX as [_ FX]; lia|].
    cbn [commuting]. intros h [<-|[]]. destruct (comp_nil_b FX) as [-> ->]. reflexivity. }
  pose proof (cols_same E) as (_ & S2 & S3).
  (* the rows of the table *)
  assert (T0 : exists T, mrows t0 = T /\ reps P group_default RR T /\ mpends t0 = P /\ mpost t0 = group_default).
  { pose proof Et as Et'. unfold mt_init in Et'. destruct (@init_rows b P group_default B1 ltac:(lia) WP wf_default LP ltac:(cbn; lia) RR HR) as (T & ET & RT).
    replace (forM RR _ []) with (Ret T) in Et' by (symmetry; exact ET). cbn [bind] in Et'. destruct (length T =? _); [|discriminate]. injection Et' as <-. exists T. cbn. auto. }
  destruct T0 as (T & MT & RT & MP & MQ). rewrite MT in MR.
  assert (NT : NoDup T) by (apply row_sorted_nodup; exact (proj1 RT)).
  assert (TR : forall u, In u T -> row_b b u) by (intros u Hu; apply RB; exact (@reps_in_R b P group_default RR HR T u RT Hu)).
  set (idx := fun r => match mt_find t r with Ret i => i | _ => 0 end).
  assert (IX : forall r, In r RR -> exists u, vget (mrows t) (idx r) = Ret u /\ is_least (in_coset P group_default r) u).
  { intros r Hr. destruct (TB r Hr) as (i & u & F & V & L & _). exists u. unfold idx. rewrite F. split; [exact V|exact L]. }
  assert (UNI : forall i j u, vget (mrows t) i = Ret u -> vget (mrows t) j = Ret u -> i = j).
  { intros i j u Vi Vj. unfold vget in *. rewrite MR in *. destruct (nth_error T i) as [x|] eqn:Ni; [|discriminate]. destruct (nth_error T j) as [y|] eqn:Nj; [|discriminate]. injection Vi as ->. injection Vj as ->.
    apply (proj1 (NoDup_nth_error T) NT); [apply nth_error_Some; congruence|congruence]. }
  assert (CS : forall r r', row_b b r -> in_coset P group_default r r' -> forall u, is_least (in_coset P group_default r) u <-> is_least (in_coset P group_default r') u).
  { intros r r' Hr C u. pose proof (@coset_same b P group_default B1 ltac:(lia) WP wf_default LP ltac:(cbn; lia) r r' Hr C) as X. split; apply least_ext; [exact X|intros y; symmetry; apply X]. }
  exists t, cs, idx. split; [exact E|]. split; [rewrite LC; apply map_length|]. split; [congruence|]. split.
  { rewrite MR. destruct T as [|u T']; [|cbn [List.hd]; now apply TR; left]. exfalso. destruct RT as [_ RT]. destruct (@rep_R b P group_default B1 ltac:(lia) WP wf_default LP ltac:(cbn; lia) RR HR _ HID) as (u & _ & U). destruct (proj2 (RT u)). eauto. }
  assert (MUL : Forall2 (fun x c => forall r, In r RR -> mt_mul t (idx r) c = Ret (idx (comp r x))) xs cs).
  { assert (G : forall q x c, nth_error xs q = Some x -> nth_error cs q = Some c -> forall r, In r RR -> mt_mul t (idx r) c = Ret (idx (comp r x))).
    { intros q x c Nx Nc r Hr. destruct (TB r Hr) as (i & u & F & V & L & M). destruct (M q post_mult x) as (p & v & Mp & Vp & Lp); [rewrite nth_error_map, Nx; reflexivity|cbn [col_product]; apply CX; [exact Hr|exact (nth_error_In _ _ Nx)]|].
      cbn [col_product] in Lp. replace (idx r) with i by (unfold idx; now rewrite F). rewrite (nth_error_nth _ _ 0 Nc) in Mp. rewrite Mp. f_equal.
      destruct (IX (comp r x)) as (v' & V' & L'); [apply CX; [exact Hr|exact (nth_error_In _ _ Nx)]|]. apply (@UNI _ _ v); [exact Vp|]. rewrite V'. f_equal. exact (least_unique L' Lp). }
    assert (LL : length xs = length cs) by (rewrite LC, map_length; reflexivity). clear -G LL. revert cs LL G. induction xs as [|x xs IH]; intros [|c cs] LL G; try discriminate; [constructor|]. constructor.
    - intros r Hr. apply (G 0); auto.
    - apply IH; [now injection LL|]. intros q y d Ny Nd. apply (G (S q)); auto. }
  split; [|split; [|split; [|exact MUL]]].
  - intros r Hr. destruct MUL as [|x c xs cs M _]; [congruence|]. specialize (M r Hr). unfold mt_mul in M. apply bind_ret_inv in M. destruct M as (e & M & _). unfold vget in M. destruct (nth_error (mtab t) (idx r)) eqn:N; [|discriminate]. apply nth_error_Some. congruence.
  - pose proof (proj2 (@part_rounds b P group_default B1 ltac:(lia) WP wf_default LP ltac:(cbn; lia) RR HR t0 (id_row b) Et HID HID)) as F.
    unfold idx. replace (mt_find t (id_row b)) with (mt_find t0 (id_row b)); [rewrite F; [reflexivity|]|unfold mt_find, mt_rep; rewrite MR, MT, S2, S3; reflexivity].
    apply (@coset_refl b P group_default B1 ltac:(lia) WP wf_default LP ltac:(cbn; lia)). apply row_b_id.
  - intros r r' Hr Hr'. destruct (IX r Hr) as (u & V & L). destruct (IX r' Hr') as (u' & V' & L'). rewrite <- (coset_default r' (RB r Hr)). split.
    + intros Eq. rewrite Eq, V' in V. injection V as ->. destruct L as [L _], L' as [L' _].
      eapply (@coset_trans b P group_default B1 ltac:(lia) WP wf_default LP ltac:(cbn; lia)); [exact (RB r Hr)|exact L|]. apply (@coset_sym b P group_default B1 ltac:(lia) WP wf_default LP ltac:(cbn; lia)); [exact (RB r' Hr')|exact L'].
    + intros C. apply (@UNI _ _ u); [exact V|]. rewrite V'. f_equal. apply (least_unique (P := in_coset P group_default r')); [exact L'|]. apply (CS r r' (RB r Hr) C). exact L.
Qed.
End Table.
