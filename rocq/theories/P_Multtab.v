(* P_Multtab.v - multiplication tables. *)
From Verif Require Import Base M_Bell M_Change M_Math M_Row M_Extent M_Group M_Multtab Spec_Row Spec_Change Spec_Extent Spec_Cycle Spec_Group Spec_Multtab
  P_Math P_Row P_Cycle P_Order P_Named P_Perm P_Extent P_Extent2 P_Extent3 P_Group P_Group2 P_Group3.
Set Implicit Arguments.
Unset Strict Implicit.
Open Scope nat_scope.

(* --- looking up --- *)
Lemma finder_spec x rows : forall i found, 
  (In x rows -> exists k, finder rows i x found = i + k /\ k < length rows /\ nth k rows [] = x) /\
  (~ In x rows -> finder rows i x found = found).
Proof.
  induction rows as [|r rows IH]; intros i found; cbn [finder].
  - split; [intros []|auto].
  - destruct (IH (S i) (if row_eqb r x then i else found)) as [A B]. split.
    + intros [->|H].
      * destruct (in_dec (list_eq_dec Nat.eq_dec) x rows) as [H|H].
        -- destruct (A H) as (k & E & L & N). exists (S k). rewrite E. cbn. split; [lia|]. split; [lia|auto].
        -- rewrite B by exact H. exists 0. assert (X : row_eqb x x = true) by now apply row_eqb_spec. rewrite X. cbn. split; [lia|]. split; [lia|auto].
      * destruct (A H) as (k & E & L & N). exists (S k). rewrite E. cbn. split; [lia|]. split; [lia|auto].
    + intros H. rewrite B by (intros X; apply H; now right). destruct (row_eqb r x) eqn:E; auto. apply row_eqb_spec in E. exfalso. apply H. now left.
Qed.
Lemma first_index_spec x rows : forall i, In x rows -> exists k, first_index rows i x = Ret (i + k) /\ k < length rows /\ nth k rows [] = x.
Proof.
  induction rows as [|r rows IH]; intros i H; [destruct H|]. cbn [first_index]. destruct (row_eqb r x) eqn:E.
  - apply row_eqb_spec in E. subst. exists 0. cbn. rewrite Nat.add_0_r. split; auto. split; [lia|auto].
  - destruct H as [->|H]; [assert (X : row_eqb x x = true) by (now apply row_eqb_spec); congruence|].
    destruct (IH (S i) H) as (k & Ek & L & N). exists (S k). rewrite Ek. cbn. split; [f_equal; lia|]. split; [lia|auto].
Qed.
Lemma find_col_spec cols r k : forall i c, find_col cols i r k = Some c -> exists j, c = i + j /\ nth_error cols j = Some (r, k).
Proof.
  induction cols as [|[r0 k0] cols IH]; intros i c; cbn [find_col fst snd]; [discriminate|].
  destruct (pp_eqb k0 k && row_eqb r0 r) eqn:E.
  - intros X. injection X as <-. apply andb_true_iff in E as [E1 E2]. apply row_eqb_spec in E2. subst r0.
    exists 0. split; [lia|]. destruct k0, k; try discriminate; reflexivity.
  - intros X. destruct (IH _ _ X) as (j & -> & N). exists (S j). split; [lia|auto].
Qed.

(* --- adding a column --- *)
Definition prod_of (k : pre_or_post) (x ri : row) : outcome row := match k with pre_mult => mul x ri | post_mult => mul ri x end.
Definition mt_inv (t : multtab) : Prop :=
  length (mtab t) = length (mrows t) /\
  (forall i, i < length (mrows t) -> length (nth i (mtab t) []) = length (mcols t)) /\
  (forall j x k i, nth_error (mcols t) j = Some (x, k) -> i < length (mrows t) ->
     exists p y, prod_of k x (nth i (mrows t) []) = Ret p /\ mt_rep t p = Ret y /\ nth j (nth i (mtab t) []) 0 = finder (mrows t) 0 y 0).

Definition same_set (t t' : multtab) : Prop := mrows t' = mrows t /\ mpends t' = mpends t /\ mpost t' = mpost t.

Lemma col_loop (f : nat -> nat) : forall n a (tab : list (list nat)), a + n <= length tab ->
  exists tab', forM (seq a n) (fun tab i => e <- vget tab i ;; vset tab i (e ++ [f i])) tab = Ret tab' /\ length tab' = length tab /\
    forall i, nth i tab' [] = if (a <=? i) && (i <? a + n) then nth i tab [] ++ [f i] else nth i tab [].
Proof.
  induction n as [|n IH]; intros a tab H; cbn [seq forM].
  - exists tab. split; auto. split; auto. intros i. destruct (Nat.leb_spec a i), (Nat.ltb_spec i (a + 0)); cbn [andb]; auto; lia.
  - rewrite (@vget_lt _ _ _ []) by lia. cbn [bind]. rewrite vset_lt by lia. cbn [bind].
    destruct (IH (S a) (upd tab a (nth a tab [] ++ [f a]))) as (tab' & E & L & A); [rewrite upd_length by lia; lia|].
    exists tab'. split; auto. rewrite upd_length in L by lia. split; auto. intros i. rewrite A.
    destruct (Nat.eq_dec i a) as [->|Ne].
    + destruct (Nat.leb_spec (S a) a); [lia|]. cbn [andb]. destruct (Nat.leb_spec a a); [|lia]. destruct (Nat.ltb_spec a (a + S n)); [|lia]. cbn [andb].
      rewrite nth_upd by lia. now rewrite Nat.eqb_refl.
    + rewrite nth_upd by lia. destruct (Nat.eqb_spec i a) as [|_]; [lia|].
      destruct (Nat.leb_spec (S a) i), (Nat.ltb_spec i (S a + n)), (Nat.leb_spec a i), (Nat.ltb_spec i (a + S n)); cbn [andb]; auto; lia.
Qed.

Lemma column_spec k t x : mt_inv t ->
  commutes (match k with pre_mult => mpends t | post_mult => mpost t end) x = Ret tt ->
  (forall r, In r (mrows t) -> exists p y, prod_of k x r = Ret p /\ mt_rep t p = Ret y) ->
  exists t' c, mt_column k t x = Ret (t', c) /\ mt_inv t' /\ same_set t t' /\
    nth_error (mcols t') c = Some (x, k) /\
    (forall j v, nth_error (mcols t) j = Some v -> nth_error (mcols t') j = Some v /\
       forall i, i < length (mrows t) -> nth j (nth i (mtab t') []) 0 = nth j (nth i (mtab t) []) 0).
Proof.
  intros (I1 & I2 & I3) C Hp. unfold mt_column. rewrite C. cbn [bind].
  destruct (find_col (mcols t) 0 x k) as [c|] eqn:F.
  { apply find_col_spec in F as (j & -> & N). exists t, (0 + j). split; auto. split; [split; auto|]. split; [split; auto|]. split; auto. }
  assert (Ch : exists f : nat -> row, forall i, i < length (mrows t) -> exists p, prod_of k x (nth i (mrows t) []) = Ret p /\ mt_rep t p = Ret (f i)).
  { exists (fun i => match prod_of k x (nth i (mrows t) []) with Ret p => match mt_rep t p with Ret y => y | _ => [] end | _ => [] end).
    intros i Hi. destruct (Hp (nth i (mrows t) [])) as (p & y & E1 & E2); [now apply nth_In|]. exists p. rewrite E1, E2. auto. }
  destruct Ch as [f Hf].
  destruct (@col_loop (fun i => finder (mrows t) 0 (f i) 0) (length (mtab t)) 0 (mtab t)) as (tab & E & L & A); [lia|].
  unfold forN. rewrite Nat.sub_0_r.
  rewrite forM_ext with (b2 := fun tab i => e <- vget tab i ;; vset tab i (e ++ [finder (mrows t) 0 (f i) 0])).
  2:{ intros tb i Hi. apply in_seq in Hi. rewrite (@vget_lt _ (mrows t) i []) by lia. cbn [bind].
      destruct (Hf i ltac:(lia)) as (p & E1 & E2).
      replace (match k with pre_mult => mul x (nth i (mrows t) []) | post_mult => mul (nth i (mrows t) []) x end) with (Ret p) by (symmetry; exact E1).
      cbn [bind]. rewrite E2. reflexivity. }
  rewrite E. cbn [bind].
  exists (mkMT tab (mrows t) (mpends t) (mpost t) (mcols t ++ [(x, k)])), (length (mcols t)).
  assert (A' : forall i, i < length (mrows t) -> nth i tab [] = nth i (mtab t) [] ++ [finder (mrows t) 0 (f i) 0]).
  { intros i Hi. rewrite A. cbn [Nat.leb andb Nat.add]. destruct (Nat.ltb_spec i (length (mtab t))); [auto|lia]. }
  split; auto. split; [|split; [repeat split|split]].
  - split; cbn [mtab mrows mcols]; [lia|]. split.
    + intros i Hi. rewrite A' by exact Hi. rewrite !app_length, I2 by exact Hi. reflexivity.
    + intros j x' k' i N Hi. rewrite A' by exact Hi. destruct (lt_dec j (length (mcols t))) as [Hj|Hj].
      * rewrite nth_error_app1 in N by exact Hj. rewrite app_nth1 by (rewrite I2 by exact Hi; exact Hj). apply (I3 j x' k' i N Hi).
      * rewrite nth_error_app2 in N by lia. destruct (j - length (mcols t)) as [|q] eqn:Ej; cbn in N; [|destruct q; discriminate]. injection N as <- <-.
        rewrite app_nth2 by (rewrite I2 by exact Hi; lia). rewrite I2, Ej by exact Hi. cbn [nth].
        destruct (Hf i Hi) as (p & E1 & E2). exists p, (f i). auto.
  - cbn [mcols]. rewrite nth_error_app2 by lia. now rewrite Nat.sub_diag.
  - intros j v N. cbn [mcols mtab]. assert (Hj : j < length (mcols t)) by (apply nth_error_Some; congruence).
    split; [now rewrite nth_error_app1 by exact Hj|]. intros i Hi. rewrite A' by exact Hi. apply app_nth1. rewrite I2 by exact Hi. exact Hj.
Qed.

(* a history of columns *)
Lemma run_cols_spec (ok : pre_or_post -> row -> Prop) ops : forall t, mt_inv t ->
  Forall (fun o => ok (fst o) (snd o)) ops ->
  (forall t' k x, same_set t t' -> ok k x -> commutes (match k with pre_mult => mpends t' | post_mult => mpost t' end) x = Ret tt /\
     forall r, In r (mrows t') -> exists p y, prod_of k x r = Ret p /\ mt_rep t' p = Ret y) ->
  exists t' cs, run_cols t ops = Ret (t', cs) /\ mt_inv t' /\ same_set t t' /\ length cs = length ops /\
    (forall j v, nth_error (mcols t) j = Some v -> nth_error (mcols t') j = Some v /\
       forall i, i < length (mrows t) -> nth j (nth i (mtab t') []) 0 = nth j (nth i (mtab t) []) 0) /\
    forall q k x, nth_error ops q = Some (k, x) -> nth_error (mcols t') (nth q cs 0) = Some (x, k).
Proof.
  induction ops as [|[k x] ops IH]; intros t I F Ok; cbn [run_cols].
  - exists t, []. split; auto. split; auto. split; [repeat split|]. split; auto. split; [auto|]. intros [|q] ? ? ?; discriminate.
  - inversion_clear F as [|? ? F1 F2]. cbn [fst snd] in F1.
    destruct (Ok t k x ltac:(repeat split) F1) as [C Hp].
    destruct (@column_spec k t x I C Hp) as (t1 & c & E & I1 & S1 & N1 & K1). rewrite E. cbn [bind].
    destruct (IH t1 I1 F2) as (t2 & cs & E2 & I2 & S2 & L2 & K2 & N2).
    { intros t' k' x' (Q1 & Q2 & Q3) Hk. destruct S1 as (S1 & S1' & S1''). apply Ok; auto. repeat split; congruence. }
    rewrite E2. cbn [bind]. exists t2, (c :: cs). split; auto. split; auto.
    destruct S1 as (Sa & Sb & Sc), S2 as (Sa' & Sb' & Sc'). split; [repeat split; congruence|]. split; [cbn; lia|]. split.
    + intros j v N. destruct (K1 j v N) as [N' V']. destruct (K2 j v N') as [N'' V'']. split; auto. intros i Hi. rewrite V'' by (rewrite Sa; exact Hi). now apply V'.
    + intros [|q] k' x' N; cbn in N.
      * injection N as <- <-. cbn [nth]. now apply (K2 c (x, k)).
      * cbn [nth]. now apply N2.
Qed.

(* the product read from the table *)
Lemma mt_mul_spec t j x k i : mt_inv t -> nth_error (mcols t) j = Some (x, k) -> i < length (mrows t) ->
  exists p y, prod_of k x (nth i (mrows t) []) = Ret p /\ mt_rep t p = Ret y /\ mt_mul t i j = Ret (finder (mrows t) 0 y 0).
Proof.
  intros (I1 & I2 & I3) N Hi. destruct (I3 j x k i N Hi) as (p & y & E1 & E2 & E3). exists p, y. split; auto. split; auto.
  unfold mt_mul. rewrite (@vget_lt _ _ _ []) by (unfold row in *; lia). cbn [bind].
  assert (Hj : j < length (mcols t)) by (apply nth_error_Some; congruence).
  rewrite (@vget_lt _ _ _ 0) by (rewrite I2 by exact Hi; exact Hj). now rewrite E3.
Qed.

(* --- the plain table --- *)
Lemma mul_nil_l x : row256 x -> mul [] x = Ret x.
Proof. intros H. rewrite mul_comp; auto; [|split; [apply is_row_nil|cbn; lia]]. f_equal. apply act_ext; [rewrite comp_length; reflexivity|]. intros i _. rewrite act_comp by apply H. apply (@act_ge []). cbn. lia. Qed.
Lemma mul_nil_r x : row256 x -> mul x [] = Ret x.
Proof. intros H. rewrite mul_comp; auto; [|split; [apply is_row_nil|cbn; lia]]. f_equal. apply act_ext; [rewrite comp_length; cbn [length]; lia|]. intros i _. rewrite act_comp by apply is_row_nil. rewrite (@act_ge [] i); [auto|cbn; lia]. Qed.
Lemma plain_rep rows x : row256 x -> make_representative rows group_default group_default x = Ret x.
Proof.
  intros H. unfold make_representative. cbn [gv group_default forM]. rewrite mul_nil_l by exact H. cbn [bind].
  unfold make_post_representative. cbn [gv group_default length Nat.ltb Nat.leb bind].
  destruct (row_ltb x x) eqn:E; [apply row_ltb_spec in E; exfalso; now apply lex_irrefl in E|]. now rewrite andb_false_r.
Qed.
Lemma prod_of_comp k x r : row256 x -> row256 r -> prod_of k x r = Ret (col_product k x r).
Proof. intros. destruct k; cbn; now apply mul_comp. Qed.
Lemma col_product_row k x r : row256 x -> row256 r -> row256 (col_product k x r).
Proof. intros [A B] [C D]. destruct k; cbn [col_product]; (split; [now apply comp_row|rewrite comp_length; lia]). Qed.
Lemma plain_commutes x : row256 x -> commutes group_default x = Ret tt.
Proof.
  intros H. unfold commutes. cbn [gv group_default forM]. rewrite mul_nil_r, mul_nil_l by exact H. cbn [bind].
  assert (X : row_eqb x x = true) by now apply row_eqb_spec. now rewrite X.
Qed.
Lemma plain_inv R : mt_inv (mt_plain R).
Proof.
  unfold mt_plain. split; cbn [mtab mrows mcols]; [apply repeat_length|]. split.
  - intros i Hi. now rewrite nth_repeat.
  - intros j x k i N. now destruct j.
Qed.

Lemma plain_table R ops : Forall row256 R -> Forall (fun o => row256 (snd o)) ops ->
  exists t cs, run_cols (mt_plain R) ops = Ret (t, cs) /\ mt_inv t /\ same_set (mt_plain R) t /\ length cs = length ops /\
    (forall q k x r, nth_error ops q = Some (k, x) -> In r R ->
      exists i, mt_find t r = Ret i /\ mt_row t i = Ret r /\
        (In (col_product k x r) R -> exists p, mt_mul t i (nth q cs 0) = Ret p /\ mt_row t p = Ret (col_product k x r)) /\
        (~ In (col_product k x r) R -> mt_mul t i (nth q cs 0) = Ret 0)) /\
    forall q k x, nth_error ops q = Some (k, x) -> nth_error (mcols t) (nth q cs 0) = Some (x, k).
Proof.
  intros FR FO. rewrite Forall_forall in FR.
  destruct (@run_cols_spec (fun _ x => row256 x) ops (mt_plain R) (plain_inv R) FO) as (t & cs & E & I & S & L & _ & N).
  { intros t' k x (S1 & S2 & S3) Hx. cbn in S1, S2, S3. split.
    - replace (match k with pre_mult => mpends t' | post_mult => mpost t' end) with group_default by (destruct k; congruence). now apply plain_commutes.
    - rewrite S1. intros r Hr. exists (col_product k x r), (col_product k x r). split; [apply prod_of_comp; auto|].
      unfold mt_rep. rewrite S2, S3. apply plain_rep. apply col_product_row; auto. }
  exists t, cs. split; auto. split; auto. split; auto. split; auto. split; auto. destruct S as (S1 & S2 & S3). cbn in S1, S2, S3.
  intros q k x r Hq Hr. assert (Hx : row256 x). { rewrite Forall_forall in FO. apply (FO (k, x)). eapply nth_error_In; eauto. }
  assert (Rep : forall y, row256 y -> mt_rep t y = Ret y) by (intros y Hy; unfold mt_rep; rewrite S2, S3; now apply plain_rep).
  destruct (@first_index_spec r R 0 Hr) as (i & Ei & Li & Ni). exists i.
  split; [unfold mt_find; rewrite Rep by auto; cbn [bind]; rewrite S1; exact Ei|].
  split; [unfold mt_row; rewrite S1, (@vget_lt row _ _ []) by exact Li; now rewrite Ni|].
  destruct (@mt_mul_spec t (nth q cs 0) x k i I (N q k x Hq) ltac:(rewrite S1; exact Li)) as (p & y & E1 & E2 & E3).
  rewrite S1, Ni in E1. rewrite prod_of_comp in E1 by auto. injection E1 as <-. rewrite Rep in E2 by (apply col_product_row; auto). injection E2 as <-.
  rewrite E3, S1. destruct (@finder_spec (col_product k x r) R 0 0) as [A B]. split.
  - intros H. destruct (A H) as (c & Ec & Lc & Nc). exists c. rewrite Ec. cbn. split; auto. unfold mt_row. rewrite S1, (@vget_lt row _ _ []) by exact Lc. now rewrite Nc.
  - intros H. now rewrite B.
Qed.
