(* Props_Names.v - property theorems about the titles of methods. *)
From Verif Require Import Base M_Bell M_Change M_Row M_Method M_MethClass M_Dim M_Names Spec_MethClass Spec_Method Spec_Names P_Names
  Props_Method Props_MethClass.
Set Implicit Arguments.
Unset Strict Implicit.
Open Scope nat_scope.

(* C52: the full title is the name, the words for the class (unless the method is one of the
   Grandsires or Unions) and the stage, with single spaces between *)
Theorem C52_title : forall name m year, wf_method m -> length (mch m) < 512 -> mb m <> 1 \/ (2019 <= year)%Z ->
  exists k d l stage ws, of_kind (mch m) (mb m) year k /\
    (d = true <-> is_differential (mch m) (mb m) year) /\ (l = true <-> is_little (mch m) (mb m)) /\
    stage_word (Z.of_nat (mb m)) stage /\ title_words name k d l year (mb m) stage ws /\
    forall junk, fullname junk name m year = Ret (spaced (name_word name ++ ws)).
Proof.
  intros name m year WF H H1. destruct (C46_class WF H H1) as (k & d & l & E & K & D & L). assert (Hb : mb m <= 255) by apply WF.
  destruct (@fullname_spec 0 name m year k d l (E 0) Hb) as (st & ws & S1 & S2 & S3). exists k, d, l, st, ws.
  repeat (split; [assumption|]). intros junk. destruct (@fullname_spec junk name m year k d l (E junk) Hb) as (st' & ws' & S1' & S2' & S3').
  rewrite S3'. assert (st' = st) by (eapply stage_fun; eauto). subst st'. do 3 f_equal.
  destruct S2 as [[A ->]|[A ->]], S2' as [[B ->]|[B ->]]; tauto || reflexivity.
Qed.
Print Assumptions C52_title.

(* classname of every class, whatever the year *)
Theorem C52_classname : forall k d l year, classname (class_code k d l) year = Ret (spaced (class_words k d l year)).
Proof. intros. apply classname_spec. Qed.
Print Assumptions C52_classname.

(* every stage has one word of its own *)
Theorem C52_stagename : forall n, (-999999 <= n <= 9999999)%Z -> exists w, stagename n = Ret w /\ stage_word n w /\
  forall n', (-999999 <= n' <= 9999999)%Z -> stagename n' = Ret w -> n' = n.
Proof.
  intros n H. destruct (stagename_spec H) as (w & E & S). exists w. repeat (split; [assumption|]). intros n' H' E'.
  destruct (stagename_spec H') as (w' & E2 & S'). rewrite E2 in E'. injection E' as ->. eapply stage_inj; eauto.
Qed.
Print Assumptions C52_stagename.
(* eight digits do not fit the buffer *)
Theorem C52_stagename_refuted : stagename 10000000 = stagename 10000001.
Proof. exact stage_collide. Qed.
Print Assumptions C52_stagename_refuted.

(* the title tells the number of bells, whatever the names and years *)
Theorem C52_bells : forall junk name m year junk' name' m' year' t,
  wf_method m -> length (mch m) < 512 -> mb m <> 1 \/ (2019 <= year)%Z ->
  wf_method m' -> length (mch m') < 512 -> mb m' <> 1 \/ (2019 <= year')%Z ->
  fullname junk name m year = Ret t -> fullname junk' name' m' year' = Ret t -> mb m = mb m'.
Proof.
  intros junk name m year junk' name' m' year' t WF H H1 WF' H' H1' E E'.
  destruct (C52_title name WF H H1) as (k & d & l & st & ws & _ & _ & _ & S & T & F).
  destruct (C52_title name' WF' H' H1') as (k' & d' & l' & st' & ws' & _ & _ & _ & S' & T' & F').
  rewrite F in E. rewrite F' in E'. injection E as E. injection E' as E'. rewrite <- E in E'.
  destruct (title_last T) as (p & Ep & Hp). destruct (title_last T') as (p' & Ep' & Hp'). rewrite Ep, Ep' in E'.
  destruct (last_word_unique (proj1 (stage_no_space S')) (proj1 (stage_no_space S)) Hp' Hp E') as [_ X]. subst st'.
  apply Nat2Z.inj. eapply stage_inj; eauto.
Qed.
Print Assumptions C52_bells.

(* and of two methods with the same name on the same bells with the same title, both are
   differential or neither, both little or neither, and they are of the same kind, if it has a name *)
Theorem C52_class : forall junk junk' name m m' year t,
  wf_method m -> length (mch m) < 512 -> wf_method m' -> length (mch m') < 512 ->
  mb m = mb m' -> mb m <> 1 \/ (2019 <= year)%Z -> ~ classless name (mb m) ->
  fullname junk name m year = Ret t -> fullname junk' name m' year = Ret t ->
  (is_differential (mch m) (mb m) year <-> is_differential (mch m') (mb m') year) /\
  (is_little (mch m) (mb m) <-> is_little (mch m') (mb m')) /\
  exists k k', of_kind (mch m) (mb m) year k /\ of_kind (mch m') (mb m') year k' /\
    (k = k' \/ (kind_words k year = [] /\ kind_words k' year = [])).
Proof.
  intros junk junk' name m m' year t WF H WF' H' EB H1 NC E E'. assert (H1' : mb m' <> 1 \/ (2019 <= year)%Z) by (rewrite <- EB; exact H1).
  destruct (C52_title name WF H H1) as (k & d & l & st & ws & K & D & L & S & T & F).
  destruct (C52_title name WF' H' H1') as (k' & d' & l' & st' & ws' & K' & D' & L' & S' & T' & F').
  rewrite F in E. rewrite F' in E'. injection E as E. injection E' as E'. rewrite <- E in E'. rewrite <- EB in S'.
  assert (st' = st) by (eapply stage_fun; eauto). subst st'.
  destruct T as [[A _]|[_ ->]]; [contradiction|]. destruct T' as [[A _]|[_ ->]]; [rewrite <- EB in A; contradiction|].
  assert (X : spaced (class_words k' d' l' year ++ [st]) = spaced (class_words k d l year ++ [st])).
  { revert E'. unfold name_word. destruct name as [|c name]; [auto|]. cbn [app]. assert (NE : forall ws : list (list ascii), ws ++ [st] <> []) by (intros []; discriminate). rewrite !spaced_cons by apply NE.
    intros X. apply app_inv_head in X. now injection X. }
  rewrite !spaced_snoc in X by apply class_words_ne. rewrite !app_assoc in X. apply app_inv_tail in X.
  assert (Y : spaced (class_words k d l year) = spaced (class_words k' d' l' year)).
  { unfold sep in X. destruct (spaced (class_words k d l year)) as [|c u] eqn:E1, (spaced (class_words k' d' l' year)) as [|c' u'] eqn:E2; cbn [is_empty] in X; rewrite ?app_nil_r in X.
    - reflexivity.
    - discriminate X.
    - discriminate X.
    - apply app_inj_tail in X. symmetry. apply X. }
  apply class_text_inj in Y as (Y1 & Y2 & Y3). subst d' l'. rewrite <- D, <- D', <- L, <- L'. split; [tauto|]. split; [tauto|]. exists k, k'. auto.
Qed.
Print Assumptions C52_class.

(* but a title does not tell the name: "X Bob" a principle and "X" a bob method *)
Definition a_principle : method := mkMethod [mkChange 6 [0; 2; 4]; mkChange 6 [1; 3]] 6.
Theorem C52_name_refuted : exists t, wf_method a_principle /\
  fullname 0 (str "X") plain_bob 9999 = Ret t /\ fullname 0 (str "X Bob") a_principle 9999 = Ret t /\ t = str "X Bob Minor".
Proof.
  exists (str "X Bob Minor"). split.
  - split; [cbn; lia|]. split; [vm_compute; discriminate|]. cbn [a_principle mch mb]. repeat constructor; cbn; lia.
  - repeat split; vm_compute; reflexivity.
Qed.
Print Assumptions C52_name_refuted.

(* the other class numbers read outside the table *)
Theorem C52_classname_ub : forall cl year, (11 <= Z.land cl 15)%Z -> classname cl year = UB.
Proof.
  intros cl year H. unfold classname. assert (L : (Z.land cl 15 <= 15)%Z).
  { change 15%Z with (Z.ones 4). rewrite Z.land_ones by lia. assert (X := Z.mod_pos_bound cl (2 ^ 4) ltac:(lia)). change (2 ^ 4)%Z with 16%Z in *. change (Z.ones 4) with 15%Z. lia. }
  replace (Z.land cl M_MASK =? M_HYBRID)%Z with false by (symmetry; apply Z.eqb_neq; unfold M_MASK, M_HYBRID; lia).
  rewrite andb_false_r. unfold vget. rewrite (proj2 (nth_error_None _ _)); [reflexivity|]. unfold M_MASK. cbn [txt_classes length]. lia.
Qed.
Print Assumptions C52_classname_ub.

Example C52_case_bob : fullname 0 (str "Plain") plain_bob 9999 = Ret (str "Plain Bob Minor").
Proof. vm_compute. reflexivity. Qed.
Example C52_case_grandsire : fullname 0 (str "Grandsire") plain_bob 9999 = Ret (str "Grandsire Minor").
Proof. vm_compute. reflexivity. Qed.
Example C52_case_none : fullname 0 [] cambridge 9999 = Ret (str "Surprise Minor").
Proof. vm_compute. reflexivity. Qed.
