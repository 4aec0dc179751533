(* P_False.v - falseness tables. *)
From Verif Require Import Base M_Bell M_Change M_Math M_Row M_Extent M_Group M_Touch M_PN M_Method M_False
  Spec_Row Spec_Change Spec_Touch Spec_Extent Spec_Cycle Spec_Group Spec_Method Spec_False
  P_Row P_Change2 P_Cycle P_Order P_Perm P_Extent P_Extent2 P_Group P_Group2 P_Touch P_Method P_Method2.
Set Implicit Arguments.
Unset Strict Implicit.
Open Scope nat_scope.

Lemma sign_pm sym r : row256 r -> sign sym r = Ret 1%Z \/ sign sym r = Ret (-1)%Z.
Proof. intros H. rewrite (sign_invs sym H). unfold sgnZ. destruct (Z.even (invs r)); auto. Qed.

Lemma keep_false_spec sym flags f n : 0 < n <= 256 -> row_b n f ->
  exists b, keep_false sym flags f = Ret b /\ (b = true <-> asked_for sym flags f).
Proof.
  intros Hn H. unfold keep_false, asked_for.
  assert (S := @sign_pm sym f (row_b_256 (proj2 Hn) H)). destruct H as [P L].
  rewrite (@vget_lt _ _ _ 0) by lia. rewrite (@act_nth f 0 0) by lia.
  destruct (has flags F_NO_FIXED_TREBLE); cbn [bind negb].
  2: destruct (Nat.eqb_spec (nth 0 f 0) 0) as [E|E]; cbn [negb]; [rewrite E|eexists; split; [reflexivity|]; split; [discriminate|intros (X & _); now destruct (E (X eq_refl))]].
  all: destruct (has flags F_IN_COURSE), (has flags F_OUT_OF_COURSE); destruct S as [S|S]; rewrite ?S; cbn [bind negb Z.eqb];
    eexists; (split; [reflexivity|]); split; try (intuition congruence); discriminate.
Qed.

Lemma forM_invariant A T (P : T -> Prop) (l : list A) (f : T -> A -> outcome T) s :
  P s -> (forall a t, In a l -> P t -> exists t', f t a = Ret t' /\ P t') -> exists t, forM l f s = Ret t /\ P t.
Proof.
  revert s. induction l as [|a l IH]; intros s H F; cbn [forM]; [eauto|].
  destruct (F a s (or_introl eq_refl) H) as (t & E & H'). rewrite E. cbn [bind]. apply IH; auto. intros b t' Hb. apply F. now right.
Qed.

(* inserting into a set, a loop adds just the elements it should *)
Lemma forM_collect A (l : list A) (f : list row -> A -> outcome (list row)) (Q : A -> row -> Prop) fs :
  StronglySorted lex_lt fs ->
  (forall a fs, In a l -> StronglySorted lex_lt fs -> exists fs', f fs a = Ret fs' /\ StronglySorted lex_lt fs' /\ forall x, In x fs' <-> In x fs \/ Q a x) ->
  exists fs', forM l f fs = Ret fs' /\ StronglySorted lex_lt fs' /\ forall x, In x fs' <-> In x fs \/ exists a, In a l /\ Q a x.
Proof.
  revert fs. induction l as [|a l IH]; intros fs S F; cbn [forM].
  - exists fs. split; auto. split; auto. intros x. split; auto. intros [H|(a & [] & _)]; auto.
  - destruct (F a fs (or_introl eq_refl) S) as (f1 & E & S1 & H1). rewrite E. cbn [bind].
    destruct (IH f1 S1) as (f2 & E2 & S2 & H2). { intros b fs' Hb. apply F. now right. }
    exists f2. split; auto. split; auto. intros x. rewrite H2, H1. split.
    + intros [[H|H]|(b & Hb & H)]; auto; right; [exists a|exists b]; split; auto; [now left|now right].
    + intros [H|(b & [<-|Hb] & H)]; auto. right. exists b. auto.
Qed.

Lemma insert_if fs f (b : bool) : StronglySorted lex_lt fs ->
  StronglySorted lex_lt (if b then fst (set_insert row_ltb fs f) else fs) /\
  forall x, In x (if b then fst (set_insert row_ltb fs f) else fs) <-> In x fs \/ (b = true /\ x = f).
Proof.
  intros S. destruct b.
  - assert (X := @row_insert_spec fs f S). destruct (set_insert row_ltb fs f) as [s' nw]. destruct X as (S' & H & _). cbn [fst].
    split; auto. intros x. rewrite H. intuition auto.
  - split; auto. intros x. split; auto. intros [H|[H _]]; [auto|discriminate].
Qed.

Lemma div_quot n a b f : n <= 256 -> row_b n a -> row_b n b -> row_b n f -> div a b = Ret f <-> comp f b = a.
Proof.
  intros Hn Ha Hb Hf. destruct (div_spec (row_b_256 Hn Ha) (row_b_256 Hn Hb)) as (z & E & Z & L & A).
  assert (Pb := proj1 Hb). assert (La := proj2 Ha). assert (Lb := proj2 Hb). assert (Lf := proj2 Hf).
  split.
  - rewrite E. intros [= ->]. apply act_ext; [rewrite comp_length; lia|]. intros i _. rewrite act_comp by exact Pb. apply A.
  - intros <-. rewrite E. f_equal. apply row_eq; [rewrite L, comp_length; lia|].
    intros i. destruct (act_surj i Pb) as (j & <- & _). rewrite A, act_comp by exact Pb. reflexivity.
Qed.

Lemma false_init_spec sym flags n A B : 0 < n <= 256 -> Forall (row_b n) A -> Forall (row_b n) B ->
  exists t, false_init sym flags A B = Ret t /\ StronglySorted lex_lt t /\
    forall f, In f t <-> row_b n f /\ asked_for sym flags f /\ exists b, In b (rows_used flags B) /\ In (comp f b) (rows_used flags A).
Proof.
  intros Hn HA HB. assert (U : forall m, Forall (row_b n) m -> Forall (row_b n) (rows_used flags m)).
  { intros m H. unfold rows_used. destruct (has flags F_HALF_LEAD); auto. apply Forall_forall. intros x Hx. rewrite Forall_forall in H. apply H.
    rewrite <- (firstn_skipn (length m / 2) m). apply in_or_app. now left. }
  apply U in HA. apply U in HB. unfold false_init. rewrite Forall_forall in HA, HB.
  destruct (@forM_collect row (rows_used flags A) (fun fs a => forM (rows_used flags B) (fun fs b =>
    f <- div a b ;; k <- keep_false sym flags f ;;
    Ret (if (k : bool) then fst (set_insert row_ltb fs f) else fs)) fs)
    (fun a f => row_b n f /\ asked_for sym flags f /\ exists b, In b (rows_used flags B) /\ comp f b = a) []) as (t & E & S & H).
  - constructor.
  - intros a fs Ha Sf.
    destruct (@forM_collect row (rows_used flags B) (fun fs b =>
      f <- div a b ;; k <- keep_false sym flags f ;; Ret (if (k : bool) then fst (set_insert row_ltb fs f) else fs))
      (fun b f => row_b n f /\ asked_for sym flags f /\ comp f b = a) fs) as (t & E & S & H); auto.
    + intros b fs' Hb S'. destruct (div_spec (row_b_256 (proj2 Hn) (HA a Ha)) (row_b_256 (proj2 Hn) (HB b Hb))) as (z & E & Z & L & _).
      assert (Zn : row_b n z). { split; [apply Z|]. rewrite L. rewrite (proj2 (HA a Ha)), (proj2 (HB b Hb)). lia. }
      rewrite E. cbn [bind]. destruct (@keep_false_spec sym flags z n Hn Zn) as (k & Ek & Hk). rewrite Ek. cbn [bind].
      eexists. split; [reflexivity|]. destruct (@insert_if fs' z k S') as [I1 I2]. split; auto. intros x. rewrite I2.
      assert (X : (k = true /\ x = z) <-> (row_b n x /\ asked_for sym flags x /\ comp x b = a)).
      { split.
        - intros [K ->]. split; auto. split; [now apply Hk|]. apply (@div_quot n a b z (proj2 Hn) (HA a Ha) (HB b Hb) Zn). exact E.
        - intros (Hx & W & C). apply (@div_quot n a b x (proj2 Hn) (HA a Ha) (HB b Hb) Hx) in C. rewrite E in C. injection C as <-. split; auto. now apply Hk. }
      rewrite X. reflexivity.
    + exists t. split; auto. split; auto. intros x. rewrite H. split; (intros [X|X]; [now left|right]).
      * destruct X as (b & Hb & R & W & C). eauto 7.
      * destruct X as (R & W & b & Hb & C). eauto 7.
  - exists t. split; [exact E|]. split; [exact S|]. intros f. rewrite H. split.
    + intros [[]|(a & Ha & R & W & b & Hb & C)]. split; auto. split; auto. exists b. split; auto. now rewrite C.
    + intros (R & W & b & Hb & Hc). right. exists (comp f b). split; auto. split; auto. split; auto. exists b. auto.
Qed.

(* the rows of a lead *)
Lemma wf_ok m : wf_method m -> Forall ok_change (mch m).
Proof. intros (Hb & _ & F). eapply Forall_impl; [|exact F]. intros c [E W]. split; auto. lia. Qed.
Lemma widest_le m k : wf_method m -> widest (firstn k (mch m)) <= mb m.
Proof.
  intros (_ & _ & F). revert k. induction F as [|c l [E _] F IH]; intros [|k]; cbn; try lia. specialize (IH k). unfold widest in IH. lia.
Qed.
Lemma rung_row_b n r cs r' : row_b n r -> widest cs <= n -> rung r cs r' -> row_b n r'.
Proof. intros [_ L] W ([P _] & L' & _). split; auto. lia. Qed.

Lemma lead_rows_of_spec flags m : wf_method m -> 0 < mb m -> 0 < row_block_base_size (mch m) (has flags F_HALF_LEAD) true ->
  exists rows, lead_rows_of flags m = Ret rows /\ length rows = row_block_base_size (mch m) (has flags F_HALF_LEAD) true /\
    forall j, j < length rows -> rung (id_row (mb m)) (firstn j (mch m)) (nth j rows []).
Proof.
  intros WF N0 N. unfold lead_rows_of. assert (O := wf_ok WF). destruct WF as (Hb & _ & F). destruct (mch m) as [|c0 c] eqn:Em.
  { destruct (has flags F_HALF_LEAD); cbn in N; lia. }
  destruct (@row_block_make_spec c0 c (has flags F_HALF_LEAD) true O N) as (b & E & H1 & H2 & H3). rewrite E. cbn [bind].
  exists (rb_rows b). split; auto. split; auto. intros j Hj. rewrite <- H1 at 1. rewrite <- rounds_id by lia.
  inversion_clear F as [|? ? [Ec _] _]. rewrite Ec in H3. rewrite H1. apply H3. lia.
Qed.

Lemma rung_comp n f cs b r : n <= 256 -> row_b n f -> widest cs <= n -> rung (id_row n) cs b -> (rung f cs r <-> r = comp f b).
Proof.
  intros Hn Hf W Rb. assert (Bb := rung_row_b (row_b_id n) W Rb). destruct Rb as (R1 & L1 & A1).
  assert (X : rung f cs (comp f b)).
  { split; [apply (@row_b_256 n _ Hn); apply comp_row_b; auto; [apply Bb|rewrite (proj2 Bb); lia]|]. split.
    - rewrite comp_length. rewrite (proj2 Hf), (proj2 Bb). lia.
    - intros i. rewrite act_comp by apply Bb. now rewrite A1, act_id. }
  split; [intros R; exact (rung_unique R X)|intros ->; exact X].
Qed.

Lemma nth_in_firstn A (l : list A) k x d : In x (firstn k l) <-> exists j, j < k /\ j < length l /\ nth j l d = x.
Proof.
  split.
  - intros H. apply (In_nth _ _ d) in H as (j & Hj & E). rewrite firstn_length in Hj. exists j. rewrite nth_firstn_d in E by lia. repeat split; auto; lia.
  - intros (j & H1 & H2 & <-). rewrite <- (nth_firstn_d l d H1). apply nth_In. rewrite firstn_length. lia.
Qed.

(* how many rows of a lead are compared *)
Definition rows_compared (flags : Z) (m : method) : nat :=
  if has flags F_HALF_LEAD then length (mch m) / 2 / 2 else length (mch m).

Lemma used_spec flags m rows x : length rows = row_block_base_size (mch m) (has flags F_HALF_LEAD) true ->
  In x (rows_used flags rows) <-> exists j, j < rows_compared flags m /\ nth j rows [] = x.
Proof.
  intros L. unfold rows_used, rows_compared, row_block_base_size in *. destruct (has flags F_HALF_LEAD).
  - eapply iff_trans; [exact (@nth_in_firstn row rows (length rows / 2) x [])|]. rewrite L. split; intros (j & H); exists j; [tauto|]. destruct H as [H E]. repeat split; auto.
    assert (X := Nat.div_le_upper_bound (length (mch m) / 2) 2 (length (mch m) / 2)). lia.
  - rewrite <- L. split.
    + intros H. apply (In_nth _ _ []) in H as (j & Hj & E). eauto.
    + intros (j & Hj & <-). now apply nth_In.
Qed.

Lemma falseness_methods_spec sym flags a b : wf_method a -> wf_method b -> mb a = mb b -> 0 < mb a ->
  (if has flags F_HALF_LEAD then 2 else 1) <= length (mch a) -> (if has flags F_HALF_LEAD then 2 else 1) <= length (mch b) ->
  exists t, falseness_methods sym flags a b = Ret t /\ StronglySorted lex_lt t /\
    forall f, In f t <-> row_b (mb a) f /\ asked_for sym flags f /\
      leads_share (mb a) (mch a) (mch b) (rows_compared flags a) (rows_compared flags b) f.
Proof.
  intros Wa Wb En N Na Nb.
  assert (P : forall m, (if has flags F_HALF_LEAD then 2 else 1) <= length (mch m) -> 0 < row_block_base_size (mch m) (has flags F_HALF_LEAD) true).
  { intros m H. unfold row_block_base_size. destruct (has flags F_HALF_LEAD); [|lia]. apply Nat.div_le_lower_bound; lia. }
  destruct (@lead_rows_of_spec flags a Wa N (P a Na)) as (ra & Ea & La & Ha).
  destruct (@lead_rows_of_spec flags b Wb) as (rb & Eb & Lb & Hb); [lia|auto|].
  unfold falseness_methods. rewrite Ea, Eb. cbn [bind]. rewrite <- En in Hb. assert (B255 := proj1 Wa).
  assert (RA : forall j, j < length ra -> row_b (mb a) (nth j ra [])).
  { intros j Hj. apply (@rung_row_b (mb a) (id_row (mb a)) (firstn j (mch a))); [apply row_b_id|now apply widest_le|now apply Ha]. }
  assert (RB : forall j, j < length rb -> row_b (mb a) (nth j rb [])).
  { intros j Hj. apply (@rung_row_b (mb a) (id_row (mb a)) (firstn j (mch b))); [apply row_b_id|rewrite En; now apply widest_le|now apply Hb]. }
  destruct (@false_init_spec sym flags (mb a) ra rb) as (t & E & S & H); try lia.
  { apply Forall_forall. intros x Hx. apply (In_nth _ _ []) in Hx as (j & Hj & <-). auto. }
  { apply Forall_forall. intros x Hx. apply (In_nth _ _ []) in Hx as (j & Hj & <-). auto. }
  exists t. split; auto. split; auto. intros f. rewrite H.
  assert (CA : forall m (rows : list row), length rows = row_block_base_size (mch m) (has flags F_HALF_LEAD) true -> forall j, j < rows_compared flags m -> j < length rows).
  { intros m rows L j Hj. unfold rows_compared, row_block_base_size in *. destruct (has flags F_HALF_LEAD); [|lia].
    assert (X := Nat.div_le_upper_bound (length (mch m) / 2) 2 (length (mch m) / 2)). lia. }
  assert (Q : row_b (mb a) f -> (exists b0, In b0 (rows_used flags rb) /\ In (comp f b0) (rows_used flags ra)) <->
     leads_share (mb a) (mch a) (mch b) (rows_compared flags a) (rows_compared flags b) f).
  { intros Hf. split.
    - intros (b0 & I1 & I2). apply (used_spec _ Lb) in I1 as (j & Hj & <-). apply (used_spec _ La) in I2 as (i & Hi & E2).
      exists i, j, (nth i ra []). split; auto. split; auto. split; [apply Ha; now apply (CA a)|].
      apply (@rung_comp (mb a) f (firstn j (mch b)) (nth j rb [])); auto; try lia; [rewrite En; now apply widest_le|apply Hb; now apply (CA b)].
    - intros (i & j & r & Hi & Hj & R1 & R2). exists (nth j rb []). split; [apply (used_spec _ Lb); eauto|].
      apply (used_spec _ La). exists i. split; auto.
      rewrite (rung_unique R1 (Ha i (CA a ra La i Hi))) in R2.
      apply (@rung_comp (mb a) f (firstn j (mch b)) (nth j rb [])) in R2; auto; try lia; [rewrite En; now apply widest_le|apply Hb; now apply (CA b)]. }
  split; intros (R & W & X); (split; [exact R|split; [exact W|]]); apply Q; auto.
Qed.
