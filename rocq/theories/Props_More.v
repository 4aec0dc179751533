(* Props_More.v - further property theorems about rows, changes, groups, methods and blocks. *)
From Verif Require Import Base M_Bell M_Change M_Math M_Row M_Extent M_Group M_Multtab M_Touch M_PN M_Method M_False
  Spec_Row Spec_Change Spec_Extent Spec_Group Spec_Touch Spec_Method Spec_Multtab Spec_False
  P_Row P_Change2 P_Change3 P_Named P_Perm P_Extent P_Extent3 P_Group P_Group2 P_Group3 P_Group4 P_Touch P_Multtab P_Method P_Method2 P_Method3
  P_False P_False3 P_False4 Props_Row Props_Method Props_Multtab.
Set Implicit Arguments.
Unset Strict Implicit.
Open Scope nat_scope.

(* C47: the comparisons of rows, changes and groups are strict total orders agreeing with ==, so
   the library's sets, maps and sorts of them are well defined *)
Definition strict_total {T} (ok : T -> Prop) (eqb ltb : T -> T -> bool) : Prop :=
  (forall a b, ok a -> ok b -> eqb a b = true <-> a = b) /\
  (forall a, ok a -> ltb a a = false) /\
  (forall a b c, ok a -> ok b -> ok c -> ltb a b = true -> ltb b c = true -> ltb a c = true) /\
  (forall a b, ok a -> ok b -> a = b \/ ltb a b = true \/ ltb b a = true).

Lemma row_strict_total : strict_total (fun _ => True) row_eqb row_ltb.
Proof.
  split; [intros a b _ _; apply row_eqb_spec|]. split.
  - intros a _. destruct (row_ltb a a) eqn:E; auto. apply row_ltb_spec, lex_irrefl in E. contradiction.
  - split.
    + intros a b c _ _ _ H1 H2. apply row_ltb_spec in H1, H2. apply row_ltb_spec. eapply lex_trans; eauto.
    + intros a b _ _. rewrite !row_ltb_spec. apply lex_total_all.
Qed.
Theorem C47_rows : strict_total (fun _ => True) row_eqb row_ltb /\
  forall a b, row_ltb a b = true <-> lex_lt a b.
Proof. split; [exact row_strict_total|]. intros a b. apply row_ltb_spec. Qed.
Print Assumptions C47_rows.

Lemma lex_ltb_row a b : lex_ltb a b = row_ltb a b.
Proof. reflexivity. Qed.
Lemma change_ext a b : cn a = cn b -> cswaps a = cswaps b -> a = b.
Proof. destruct a, b. cbn. congruence. Qed.
Theorem C47_changes : strict_total wf_change change_eqb change_ltb.
Proof.
  assert (L : forall a b, change_ltb a b = true <-> cn a < cn b \/ (cn a = cn b /\ lex_lt (cswaps a) (cswaps b))).
  { intros a b. unfold change_ltb. rewrite orb_true_iff, andb_true_iff, Nat.ltb_lt, Nat.eqb_eq, lex_ltb_row.
    assert (X := row_ltb_spec (cswaps a) (cswaps b)). tauto. }
  split; [|split; [|split]].
  - intros a b Wa Wb. unfold change_eqb. rewrite andb_true_iff, orb_true_iff, !Nat.eqb_eq. destruct list_eq_dec as [E|E].
    + split; [intros [H _]; now apply change_ext|]. intros ->. auto.
    + split; [|intros ->; congruence]. intros [H [Z|]]; [|discriminate]. exfalso. apply E. unfold wf_change in *.
      assert (N : forall c, cn c = 0 -> pairs_ok 0 (cn c) (cswaps c) -> cswaps c = []).
      { intros c Zc. destruct (cswaps c) as [|s t]; auto. cbn. rewrite Zc. intros (_ & K & _). lia. }
      rewrite (N a), (N b) by (auto; lia). reflexivity.
  - intros a _. destruct (change_ltb a a) eqn:E; auto. apply L in E as [E|[_ E]]; [lia|]. now apply lex_irrefl in E.
  - intros a b c _ _ _ H1 H2. apply L in H1, H2. apply L. destruct H1 as [H1|[E1 H1]], H2 as [H2|[E2 H2]]; try (left; lia).
    right. split; [lia|]. eapply lex_trans; eauto.
  - intros a b _ _. rewrite !L. destruct (lt_eq_lt_dec (cn a) (cn b)) as [[H|H]|H]; auto.
    destruct (lex_total_all (cswaps a) (cswaps b)) as [E|[E|E]]; auto. left. now apply change_ext.
Qed.
Print Assumptions C47_changes.

(* two group objects with the same rows on the same bells are equal in every respect *)
Theorem C47_groups : 
  (forall a b, group_eqb a b = true <-> gb a = gb b /\ gv a = gv b) /\
  (forall a b, wf_group a -> wf_group b -> group_eqb a b = true <-> gb a = gb b /\ forall x, In x (gv a) <-> In x (gv b)) /\
  (forall a, group_ltb a a = false) /\
  (forall a b c, group_ltb a b = true -> group_ltb b c = true -> group_ltb a c = true) /\
  (forall a b, group_eqb a b = true \/ group_ltb a b = true \/ group_ltb b a = true) /\
  (forall a b, group_ltb a b = true -> group_eqb a b = false).
Proof.
  assert (Q : forall a b, group_eqb a b = true <-> gb a = gb b /\ gv a = gv b).
  { intros a b. unfold group_eqb. rewrite andb_true_iff, Nat.eqb_eq. destruct list_eq_dec as [E|E]; intuition congruence. }
  assert (Irr : forall l, rows_ltb l l = false).
  { induction l as [|x l IH]; cbn; auto. destruct row_strict_total as (_ & J & _). now rewrite (J x I). }
  assert (T : forall x y z, rows_ltb x y = true -> rows_ltb y z = true -> rows_ltb x z = true).
  { destruct row_strict_total as (_ & J & TR & TT).
    induction x as [|x a IH]; intros [|y b] [|z c]; cbn; try discriminate; auto.
    destruct (row_ltb x y) eqn:E1; [|destruct (row_ltb y x) eqn:E2; [discriminate|]].
    - intros _. destruct (row_ltb y z) eqn:E3; [now rewrite (TR x y z)|]. destruct (row_ltb z y) eqn:E4; [discriminate|].
      intros _. destruct (TT y z I I) as [<-|[K|K]]; [now rewrite E1|congruence|congruence].
    - intros H1. destruct (TT x y I I) as [<-|[K|K]]; [|congruence|congruence].
      destruct (row_ltb x z); auto. destruct (row_ltb z x); [discriminate|]. now apply IH. }
  assert (TO : forall x y, x = y \/ rows_ltb x y = true \/ rows_ltb y x = true).
  { destruct row_strict_total as (_ & J & TR & TT). induction x as [|x a IH]; intros [|y b]; cbn; auto.
    destruct (TT x y I I) as [<-|[K|K]].
    - rewrite (J x I). destruct (IH b) as [->|[H|H]]; auto.
    - rewrite K. auto.
    - rewrite K. auto. }
  assert (L : forall a b, group_ltb a b = true <-> gb a < gb b \/ (gb a = gb b /\ rows_ltb (gv a) (gv b) = true)).
  { intros a b. unfold group_ltb. rewrite orb_true_iff, andb_true_iff, Nat.ltb_lt, Nat.eqb_eq. reflexivity. }
  split; [exact Q|]. split; [|split; [|split; [|split]]].
  - intros a b Wa Wb. rewrite Q. split; intros [E H]; split; auto; [now rewrite H|]. apply row_sorted_ext; auto; [apply Wa|apply Wb].
  - intros a. destruct (group_ltb a a) eqn:E; auto. apply L in E as [E|[_ E]]; [lia|]. now rewrite Irr in E.
  - intros a b c H1 H2. apply L in H1, H2. apply L. destruct H1 as [H1|[E1 H1]], H2 as [H2|[E2 H2]]; try (left; lia).
    right. split; [lia|]. eapply T; eauto.
  - intros a b. rewrite !L, Q. destruct (lt_eq_lt_dec (gb a) (gb b)) as [[H|H]|H]; auto.
    destruct (TO (gv a) (gv b)) as [E|[E|E]]; auto.
  - intros a b H. destruct (group_eqb a b) eqn:E; auto. apply Q in E as [E1 E2]. apply L in H as [H|[_ H]]; [lia|].
    rewrite E2, Irr in H. discriminate.
Qed.
Print Assumptions C47_groups.

Example C47_case : row_ltb [0;2;1] [0;2;1;3] = true /\ change_ltb (mkChange 4 [0]) (mkChange 4 [0;2]) = true /\ wf_change (mkChange 4 [0;2]) /\
  exists a b, group_of1 5 [1;0] = Ret a /\ group_of1 5 [0;1] = Ret b /\ group_ltb b a = true.
Proof.
  split; [reflexivity|]. split; [reflexivity|]. split; [unfold wf_change; cbn; lia|].
  do 2 eexists. split; [vm_compute; reflexivity|]. split; vm_compute; reflexivity.
Qed.

(* C48: find gives the place of a bell, or the bell itself when the row is on too few bells *)
Theorem C48_find : forall x b, is_row x -> act x (find x b) = b /\ (b < length x -> find x b < length x) /\ (length x <= b -> find x b = b).
Proof.
  intros x b P.
  assert (G : forall l i, (In b l -> exists j, find_from i l b = i + j /\ j < length l /\ nth j l 0 = b) /\ (~ In b l -> find_from i l b = b)).
  { induction l as [|a l IH]; intros i; cbn [find_from]; [split; [intros []|auto]|]. destruct (Nat.eqb_spec a b) as [->|N].
    - split; [|intros H; destruct H; now left]. intros _. exists 0. cbn. split; [lia|]. split; [lia|auto].
    - destruct (IH (S i)) as [I1 I2]. split.
      + intros [H|H]; [contradiction|]. destruct (I1 H) as (j & E & Hj & Ej). exists (S j). cbn. split; [lia|]. split; [lia|auto].
      + intros H. apply I2. intros K. apply H. now right. }
  destruct (G x 0) as [G1 G2]. assert (B := @is_row_in x b P). unfold find. split; [|split].
  - destruct (lt_dec b (length x)) as [H|H].
    + destruct (G1 (proj2 B H)) as (j & E & Hj & Ej). rewrite E. cbn. now rewrite (@act_nth x j 0).
    + rewrite G2 by (rewrite B; lia). apply act_ge. lia.
  - intros H. destruct (G1 (proj2 B H)) as (j & E & Hj & _). lia.
  - intros H. apply G2. rewrite B. lia.
Qed.
Print Assumptions C48_find.

(* find is the inverse of indexing *)
Theorem C48_find_at : forall x i, is_row x -> i < length x -> find x (nth i x 0) = i.
Proof.
  intros x i P H. destruct (@C48_find x (nth i x 0) P) as (A & _). apply (act_inj P). rewrite A. now rewrite (@act_nth x i 0).
Qed.
Print Assumptions C48_find_at.

(* resize to more bells puts them at home; to fewer, it works exactly when the bells dropped are at the end *)
Theorem C48_resize_up : forall x b, row256 x -> length x <= b <= 256 ->
  exists y, resize x b = Ret y /\ row_b b y /\ forall i, act y i = act x i.
Proof.
  intros x b [P L] Hb. unfold resize. destruct (Nat.ltb_spec b (length x)); [lia|]. exists (pad b x). split; [|split].
  - f_equal. apply row_pad_pad. lia.
  - apply pad_row_b; [exact P|lia].
  - intros i. apply act_pad.
Qed.
Print Assumptions C48_resize_up.
Theorem C48_resize_down : forall x b, is_row x -> b < length x ->
  ((forall i, i < b -> act x i < b) -> exists y, resize x b = Ret y /\ row_b b y /\ forall i, i < b -> act y i = act x i) /\
  (~ (forall i, i < b -> act x i < b) -> resize x b = Throw RowInvalid).
Proof.
  intros x b P Hb. unfold resize. destruct (Nat.ltb_spec b (length x)); [|lia].
  assert (Lf : length (firstn b x) = b) by (rewrite firstn_length; lia).
  assert (Af : forall i, i < b -> act (firstn b x) i = act x i).
  { intros i Hi. rewrite (@act_nth _ i 0), (@act_nth x i 0) by lia. rewrite <- (firstn_skipn b x) at 2. rewrite app_nth1 by lia. reflexivity. }
  assert (Iff : is_row (firstn b x) <-> forall i, i < b -> act x i < b).
  { split.
    - intros R i Hi. rewrite <- Af by auto. assert (X := @act_lt (firstn b x) i R). rewrite Lf in X. auto.
    - intros H'. apply is_row_iff. split.
      + apply is_row_iff in P as [ND _]. rewrite <- (firstn_skipn b x) in ND. now apply NoDup_app_iff in ND.
      + intros y Hy. rewrite Lf. apply (In_nth _ _ 0) in Hy as (i & Hi & <-). rewrite <- (@act_nth _ i 0) by auto. rewrite Af by lia. apply H'. lia. }
  split.
  - intros H'. exists (firstn b x). split; [|split; [split; [now apply Iff|auto]|auto]].
    destruct (@C01_row_constructor (firstn b x)) as [X _]. apply X. now apply Iff.
  - intros H'. apply row_of_vector_spec. now rewrite Iff.
Qed.
Print Assumptions C48_resize_down.
Theorem C48_isrounds : forall r, isrounds r = true <-> forall i, act r i = i.
Proof. exact isrounds_spec. Qed.
Print Assumptions C48_isrounds.
Example C48_case : find [2;0;1] 1 = 2 /\ find [2;0;1] 7 = 7 /\ resize [1;0;2;3] 2 = Ret [1;0] /\ resize [1;2;0] 2 = Throw RowInvalid /\
  resize [1;0] 4 = Ret [1;0;2;3] /\ isrounds [0;1;2] = true.
Proof. repeat split; vm_compute; reflexivity. Qed.

(* C08: have_same_places *)
Theorem C08_have_same_places : forall a b, wf_change a -> wf_change b -> cn a <= 256 ->
  (cn a <> cn b -> have_same_places a b = Throw LogicError) /\
  (cn a = cn b -> exists r, have_same_places a b = Ret r /\ (r = true <-> exists i, i < cn a /\ place_made a i /\ place_made b i)).
Proof.
  intros a b Wa Wb H. unfold have_same_places. split; intros E.
  - destruct (Nat.eqb_spec (cn a) (cn b)); [contradiction|reflexivity].
  - rewrite <- E, Nat.eqb_refl. cbn [negb]. eexists. split; [reflexivity|]. rewrite existsb_exists. split.
    + intros (i & Hi & Q). apply in_seq in Hi. rewrite b8_small in Q by lia. apply andb_true_iff in Q as [Q1 Q2].
      exists i. split; [lia|]. split; now apply findplace_spec.
    + intros (i & Hi & Q1 & Q2). exists i. split; [apply in_seq; lia|]. rewrite b8_small by lia.
      apply andb_true_iff. split; now apply findplace_spec.
Qed.
Print Assumptions C08_have_same_places.

(* C19: the bell version of ispalindromic *)
Theorem C19_bell_ispalindromic : forall m x, wf_method m -> hunt_bell (mch m) x -> Nat.even (length (mch m)) = true ->
  exists b, ispalindromic_bell m x = Ret b /\ (b = true <-> exists p, p < length (mch m) / 2 /\ path_reflects_about (mch m) x p).
Proof.
  intros m x WF H Ev. unfold ispalindromic_bell. destruct (symmetry_point_bell_spec WF H) as [[E _]|[_ [(p & E & Hp & P & _)|[E N]]]]; [congruence| |]; rewrite E; cbn [bind].
  - eexists. split; [reflexivity|]. split; [intros _; eauto|]. intros _. destruct (Z.eqb_spec (Z.of_nat p) (-1)); [lia|reflexivity].
  - eexists. split; [reflexivity|]. split; [discriminate|]. intros (p & Hp & Q). destruct (N p Hp Q).
Qed.
Print Assumptions C19_bell_ispalindromic.

(* C20: a method is regular exactly when its lead head, which has a hunt bell, is a power of the plain bob
   lead head with as many hunt bells as it has leading bells at home *)
Theorem C20_isregular : forall m, wf_method m -> 0 < mb m -> exists r l h b, lh m = Ret r /\ h <= mb m /\
  (forall i, i < h -> act r i = i) /\ (h < mb m -> act r h <> h) /\ pblh (mb m) h = Ret l /\
  isregular m = Ret b /\ (b = true <-> 0 < h /\ exists k, 0 < k < mb m - h /\ forall i, act r i = act_pow l k i).
Proof.
  intros m WF N. destruct (lh_rung WF) as (r & E & R & _). assert (H255 := proj1 WF). assert (R256 := @row_b_256 (mb m) r ltac:(lia) R).
  destruct (@C16_ispblh_auto r R256) as (h & Hh & F & NF & Ei). { intros ->. destruct R as [_ L]. cbn in L. lia. }
  rewrite (proj2 R) in *. destruct (@C16_ispblh r h R256) as (l & v & El & Ev & P1 & P2). rewrite (proj2 R) in *.
  exists r, l, h. unfold isregular. rewrite E. cbn [bind]. rewrite Ei.
  destruct (Nat.eqb_spec h 0) as [->|Nh].
  - exists false. do 5 (split; [first [assumption|reflexivity|lia]|]). split; [reflexivity|]. split; [discriminate|]. intros [K _]. lia.
  - rewrite Ev. cbn [bind]. exists (negb (v =? 0)). do 5 (split; [first [assumption|reflexivity|lia]|]). split; [reflexivity|].
    rewrite negb_true_iff, Nat.eqb_neq. split.
    + intros K. split; [lia|]. specialize (P2 K). exists v. split; auto. apply (P1 v P2). reflexivity.
    + intros [_ (k & Hk & A)].
      destruct (@pblh_spec (mb m) h ltac:(lia)) as (l' & El' & _ & Ll & _). rewrite El in El'. injection El' as <-.
      assert (v = k); [|lia]. apply (P1 k Hk). split; [rewrite (proj2 R); lia|exact A].
Qed.
Print Assumptions C20_isregular.

(* building a method by push_back keeps it one the library can hold when the change is on its bells *)
Theorem C20_push_back : forall m c, wf_method m -> cn c = mb m -> wf_change c -> (Z.of_nat (length (mch m)) < int_max)%Z ->
  wf_method (method_push m c) /\ mch (method_push m c) = mch m ++ [c] /\ mb (method_push m c) = mb m.
Proof.
  intros m c (A & B & F) E W L. unfold method_push. cbn [mch mb]. rewrite E, Nat.ltb_irrefl.
  split; [|auto]. split; [exact A|]. split; [cbn [mch]; rewrite app_length; cbn; lia|]. cbn [mch mb]. apply Forall_app. split; auto.
Qed.
Print Assumptions C20_push_back.

(* C27: the groups whose cycle is the plain bob lead head *)
Theorem C27_cyclic_r : forall nw nh nt l, 0 < nw -> nh + nw <= total nw nh nt <= 256 -> pblh (nh + nw) nh = Ret l ->
  exists n, forall fuel, n <= fuel ->
  exists g, cyclic_r fuel nw nh nt = Ret g /\ gb g = total nw nh nt /\ wf_group g /\ length (gv g) = nw /\
    forall x, In x (gv g) <-> row_b (total nw nh nt) x /\ exists k, k < nw /\ forall i, act x i = act_pow l k i.
Proof. exact cyclic_r_spec. Qed.
Print Assumptions C27_cyclic_r.
Theorem C27_dihedral_r_odd : forall nw nh nt l, 0 < nw -> nh + nw <= total nw nh nt <= 256 -> pblh (nh + nw) nh = Ret l ->
  Nat.even nw = false -> exists n, forall fuel, n <= fuel ->
  exists g, dihedral_r fuel nw nh nt = Ret g /\ gb g = total nw nh nt /\ wf_group g /\ (3 <= nw -> length (gv g) = 2 * nw) /\
    forall x, In x (gv g) <-> row_b (total nw nh nt) x /\
      exists k, k < nw /\ ((forall i, act x i = act_pow l k i) \/ (forall i, act x i = act_pow l k (flip nw nh i))).
Proof.
  intros nw nh nt l H0 H El Ev. destruct (@dihedral_r_spec nw nh nt l H0 H El) as (n & G). exists n. intros fuel Hf.
  destruct (G fuel Hf) as (g & E & B & W & O & _). destruct (O Ev) as [L X]. exists g. auto.
Qed.
Print Assumptions C27_dihedral_r_odd.
(* group.h says D(n) has order 2n: on an even number of working bells dihedral_r is only the cyclic group *)
Theorem C27_dihedral_r_even_refuted : forall nw nh nt l, 0 < nw -> nh + nw <= total nw nh nt <= 256 -> pblh (nh + nw) nh = Ret l ->
  Nat.even nw = true -> exists n, forall fuel, n <= fuel ->
  exists g, dihedral_r fuel nw nh nt = Ret g /\ length (gv g) = nw /\
    forall x, In x (gv g) <-> row_b (total nw nh nt) x /\ exists k, k < nw /\ forall i, act x i = act_pow l k i.
Proof.
  intros nw nh nt l H0 H El Ev. destruct (@dihedral_r_spec nw nh nt l H0 H El) as (n & G). exists n. intros fuel Hf.
  destruct (G fuel Hf) as (g & E & B & W & _ & O). destruct (O Ev) as [L X]. exists g. auto.
Qed.
Print Assumptions C27_dihedral_r_even_refuted.
Example C27_r_case : pblh 4 0 = Ret [1;3;0;2] /\ exists g, dihedral_r 50 4 0 0 = Ret g /\ length (gv g) = 4 /\
  exists g', dihedral_r 50 5 1 0 = Ret g' /\ length (gv g') = 10.
Proof. split; [vm_compute; reflexivity|]. eexists. split; [vm_compute; reflexivity|]. split; [reflexivity|]. eexists. split; vm_compute; reflexivity. Qed.

(* C32: the table of a method against given rows *)
Theorem C32_method_rows : forall sym flags a B, wf_method a -> 0 < mb a -> 2 <= length (mch a) -> has flags F_HALF_LEAD = false ->
  Forall (row_b (mb a)) B ->
  exists t, falseness_method_rows sym flags a B = Ret t /\ StronglySorted lex_lt t /\
    forall f, In f t <-> row_b (mb a) f /\ asked_for sym flags f /\
      exists i b, i < length (mch a) /\ In b B /\ rung (id_row (mb a)) (firstn i (mch a)) (comp f b).
Proof.
  intros sym flags a B WF N L HF HB. assert (H255 := proj1 WF).
  destruct (@lead_rows_of_spec flags a WF N) as (ra & Ea & La & Ha); [rewrite HF; cbn; lia|].
  assert (La' : length ra = length (mch a)) by (rewrite La, HF; reflexivity). rewrite HF in *. clear La. unfold falseness_method_rows. rewrite Ea. cbn [bind].
  assert (RA : forall j, j < length ra -> row_b (mb a) (nth j ra [])).
  { intros j Hj. apply (@rung_row_b (mb a) (id_row (mb a)) (firstn j (mch a))); [apply row_b_id|now apply widest_le|]. apply Ha. lia. }
  destruct (@false_init_spec sym flags (mb a) ra B) as (t & E & S & H); [lia| |auto|].
  { apply Forall_forall. intros x Hx. apply (In_nth _ _ []) in Hx as (j & Hj & <-). auto. }
  exists t. split; auto. split; auto. intros f. rewrite H. unfold rows_used. rewrite HF. split.
  - intros (Rf & A & b & Hb & Hc). split; auto. split; auto. apply (In_nth _ _ []) in Hc as (i & Hi & Ei). exists i, b. unfold row in *.
    split; [lia|]. split; auto. rewrite <- Ei. apply Ha. lia.
  - intros (Rf & A & i & b & Hi & Hb & Rg). split; auto. split; auto. exists b. split; auto.
    unfold row in *. rewrite (rung_unique Rg (Ha i ltac:(lia))). apply nth_In. lia.
Qed.
Print Assumptions C32_method_rows.

(* C34: set_start followed by recalculate gives the block from the new row *)
Theorem C34_set_start : forall b r, rb_rows b <> [] -> length (rb_rows b) <= length (rb_ch b) + 1 -> Forall ok_change (rb_ch b) -> row256 r ->
  exists b1 b2, rb_set_start b r = Ret b1 /\ recalculate b1 0 = Ret b2 /\ block_rows (rb_ch b) r (length (rb_rows b)) b2.
Proof.
  intros [rows ch] r NE L F R. cbn [rb_rows rb_ch] in *. unfold rb_set_start. cbn [rb_rows rb_ch].
  destruct rows as [|r0 rows]; [congruence|]. cbn [vset bind]. eexists. 
  destruct (@recalculate_spec (mkRB (r :: rows) ch) 0) as (b2 & E & C & Ln & _ & H); cbn [rb_rows rb_ch nth]; auto; [cbn; lia|].
  exists b2. split; [reflexivity|]. split; [exact E|]. cbn [rb_rows rb_ch] in *. split; [exact C|]. split; [exact Ln|].
  intros j Hj. specialize (H j). cbn [nth] in H. rewrite Nat.sub_0_r in H. apply H. cbn in *. lia.
Qed.
Print Assumptions C34_set_start.
