(* Props_False.v - property theorems about falseness tables and false course heads. *)
From Verif Require Import Base M_Bell M_Change M_Math M_Row M_Extent M_Group M_Touch M_PN M_Method M_False
  Spec_Row Spec_Change Spec_Touch Spec_Extent Spec_Group Spec_Method Spec_False
  P_Row P_Group P_False P_False2 P_False3 P_False4 Props_Method.
Set Implicit Arguments.
Unset Strict Implicit.
Open Scope nat_scope.

(* C32: the table of two methods, whole leads being compared, holds exactly the lead heads f,
   of the kind the flags ask for, such that the lead of a from rounds and the lead of b from f
   have a row in common; in order, without repetition *)
Theorem C32_methods : forall sym flags a b, wf_method a -> wf_method b -> mb a = mb b -> 0 < mb a ->
  1 <= length (mch a) -> 1 <= length (mch b) -> has flags F_HALF_LEAD = false ->
  exists t, falseness_methods sym flags a b = Ret t /\ StronglySorted lex_lt t /\
    forall f, In f t <-> row_b (mb a) f /\ asked_for sym flags f /\
      leads_share (mb a) (mch a) (mch b) (length (mch a)) (length (mch b)) f.
Proof.
  intros sym flags a b Wa Wb E N La Lb H. assert (X := @falseness_methods_spec sym flags a b Wa Wb E N).
  unfold rows_compared in X. rewrite H in X. exact (X La Lb).
Qed.
Print Assumptions C32_methods.

(* the table of one method is that of the method against itself *)
Theorem C32_method : forall sym flags m, wf_method m -> 0 < mb m -> 1 <= length (mch m) -> has flags F_HALF_LEAD = false ->
  exists t, falseness_method sym flags m = Ret t /\ StronglySorted lex_lt t /\
    forall f, In f t <-> row_b (mb m) f /\ asked_for sym flags f /\
      leads_share (mb m) (mch m) (mch m) (length (mch m)) (length (mch m)) f.
Proof.
  intros sym flags m Wm N L H. destruct (@C32_methods sym flags m m Wm Wm eq_refl N L L H) as (t & E & R). exists t. split; auto.
  unfold falseness_methods in E. unfold falseness_method. destruct (lead_rows_of flags m); cbn [bind] in *; auto; discriminate.
Qed.
Print Assumptions C32_method.

(* given two lists of rows, the table holds the rows f of the kind asked for which take some row
   of the second list to a row of the first; with half_lead_only the first half of each list is used *)
Theorem C32_rows : forall sym flags n A B, 0 < n <= 256 -> Forall (row_b n) A -> Forall (row_b n) B ->
  exists t, false_init sym flags A B = Ret t /\ StronglySorted lex_lt t /\
    forall f, In f t <-> row_b n f /\ asked_for sym flags f /\
      exists b, In b (if has flags F_HALF_LEAD then firstn (length B / 2) B else B) /\
                In (comp f b) (if has flags F_HALF_LEAD then firstn (length A / 2) A else A).
Proof. exact false_init_spec. Qed.
Print Assumptions C32_rows.

(* generate_group gives the group the table generates; when only out-of-course lead heads were
   asked for, the group generated by the quotients of the table's rows *)
Theorem C32_group : forall sym flags n t, 0 < n <= 256 -> Forall (row_b n) t -> t <> [] ->
  (has flags F_OUT_OF_COURSE = true -> forall x, In x t -> sign sym x = Ret (-1)%Z) ->
  exists N, forall fuel, N <= fuel -> exists g, falseness_group fuel sym flags t = Ret g /\ wf_group g /\ gb g = n /\
    forall x, In x (gv g) <-> forall S, is_subgroup n S ->
      (if has flags F_OUT_OF_COURSE then forall q i j, row_b n q -> In i t -> In j t -> comp q j = i -> S q
       else forall f, In f t -> S f) -> S x.
Proof.
  intros sym flags n t Hn HT NE HO. destruct (@falseness_group_spec sym flags n t Hn HT NE HO) as (N & G). exists N. intros fuel Hf.
  destruct (G fuel Hf) as (g & E & W & B & H). exists g. split; auto. split; auto. split; auto. intros x. rewrite H.
  unfold quotient_of. destruct (has flags F_OUT_OF_COURSE); [|reflexivity].
  split; intros K S HS Q; apply K; auto.
  - intros q Rq (i & j & Hi & Hj & C). apply (Q q i j); auto.
  - intros q i j Rq Hi Hj C. apply Q; auto. exists i, j. auto.
Qed.
Print Assumptions C32_group.

(* half_lead_only given with methods halves twice: a quarter of each lead is compared *)
Theorem C32_half_lead : forall sym flags a b, wf_method a -> wf_method b -> mb a = mb b -> 0 < mb a ->
  2 <= length (mch a) -> 2 <= length (mch b) -> has flags F_HALF_LEAD = true ->
  exists t, falseness_methods sym flags a b = Ret t /\ StronglySorted lex_lt t /\
    forall f, In f t <-> row_b (mb a) f /\ asked_for sym flags f /\
      leads_share (mb a) (mch a) (mch b) (length (mch a) / 2 / 2) (length (mch b) / 2 / 2) f.
Proof.
  intros sym flags a b Wa Wb E N La Lb H. assert (X := @falseness_methods_spec sym flags a b Wa Wb E N).
  unfold rows_compared in X. rewrite H in X. exact (X La Lb).
Qed.
Print Assumptions C32_half_lead.

Definition cambridge : method :=
  mkMethod (map (mkChange 6) ([[0;2;4]; [0;3]; [0;2;4]; [1;4]; [0;2;4]; [2;4]; [0;2;4]; [0;3]; [0;2;4]; [1;4]; [0;2;4]; [0;2];
    [0;2;4]; [1;4]; [0;2;4]; [0;3]; [0;2;4]; [2;4]; [0;2;4]; [1;4]; [0;2;4]; [0;3]; [0;2;4]; [2;4]])) 6.
Lemma cambridge_wf : wf_method cambridge.
Proof.
  split; [cbn; lia|]. split; [vm_compute; discriminate|]. cbn [cambridge mch mb map].
  repeat (apply Forall_cons; [split; [reflexivity|]|]); try apply Forall_nil; unfold wf_change; cbn; intuition lia.
Qed.
(* so half leads of Cambridge Minor that have a row in common are not reported *)
Theorem C32_half_lead_refuted :
  exists f t, row_b 6 f /\ asked_for default_symtab F_HALF_LEAD f /\ leads_share 6 (mch cambridge) (mch cambridge) 12 12 f /\
    falseness_method default_symtab F_HALF_LEAD cambridge = Ret t /\ ~ In f t.
Proof.
  exists [0;5;2;3;4;1], [[0; 1; 2; 3; 4; 5]; [0; 1; 3; 5; 2; 4]; [0; 1; 4; 2; 5; 3]].
  assert (R : row_b 6 [0;5;2;3;4;1]).
  { split; [|reflexivity]. destruct (is_row_dec [0;5;2;3;4;1]) as [H|H]; [exact H|]. apply row_of_vector_spec in H. vm_compute in H. discriminate. }
  split; [exact R|]. split; [split; [reflexivity|]; split; intros H; vm_compute in H; discriminate|].
  assert (Ok := wf_ok cambridge_wf).
  assert (FN : forall k, Forall ok_change (firstn k (mch cambridge))).
  { intros k. apply Forall_forall. intros x Hx. rewrite Forall_forall in Ok. apply Ok. rewrite <- (firstn_skipn k (mch cambridge)). apply in_or_app. now left. }
  split.
  { exists 4, 6, [1;5;0;3;2;4]. split; [lia|]. split; [lia|]. split.
    - destruct (@ring_all (id_row 6) (firstn 4 (mch cambridge))) as (r & E & Rg); [apply row256_id; lia|apply FN|].
      vm_compute in E. injection E as <-. exact Rg.
    - destruct (@ring_all [0;5;2;3;4;1] (firstn 6 (mch cambridge))) as (r & E & Rg); [apply (@row_b_256 6); [lia|exact R]|apply FN|].
      vm_compute in E. injection E as <-. exact Rg. }
  split; [vm_compute; reflexivity|]. intros [H|[H|[H|[]]]]; discriminate.
Qed.
Print Assumptions C32_half_lead_refuted.

Example C32_case : wf_method cambridge /\ falseness_method default_symtab F_IN_COURSE cambridge = Ret [[0; 1; 2; 3; 4; 5]; [0; 4; 2; 5; 1; 3]] /\
  exists g, falseness_group 500 default_symtab F_IN_COURSE [[0; 1; 2; 3; 4; 5]; [0; 4; 2; 5; 1; 3]] = Ret g /\ length (gv g) = 2.
Proof. split; [apply cambridge_wf|]. split; [vm_compute; reflexivity|]. eexists. split; vm_compute; reflexivity. Qed.

(* C33: the treble being the only hunt bell and the other bells all doing the same work,
   false_courses returns and holds exactly the course heads (treble and tenor at home) of the kind
   the flags ask for, whose course has a row in common with the plain course; in order, each once *)
Theorem C33_false_courses : forall sym flags m l, wf_method m -> lh m = Ret l -> one_course (mb m) l ->
  exists N, forall fuel, N <= fuel -> exists t, false_courses fuel sym flags m = Ret t /\ StronglySorted lex_lt t /\
    forall c, In c t <-> row_b (mb m) c /\ act c 0 = 0 /\ act c (mb m - 1) = mb m - 1 /\
      course_wanted sym flags c /\ courses_share (mb m) (mch m) c.
Proof. exact false_courses_spec. Qed.
Print Assumptions C33_false_courses.

Lemma plain_bob_course : one_course 6 [0;2;4;1;5;3].
Proof.
  split. { split; [|reflexivity]. destruct (is_row_dec [0;2;4;1;5;3]) as [H|H]; [exact H|]. apply row_of_vector_spec in H. vm_compute in H. discriminate. }
  split; [lia|]. split; [reflexivity|]. intros x Hx.
  assert (E : exists k, k < 5 /\ act_pow [0;2;4;1;5;3] k 5 = x).
  { destruct x as [|[|[|[|[|[|x]]]]]]; try lia; [exists 2|exists 3|exists 1|exists 4|exists 0]; split; try lia; vm_compute; reflexivity. }
  destruct E as (k & _ & E). exists k. exact E.
Qed.
Example C33_case : wf_method plain_bob /\ lh plain_bob = Ret [0;2;4;1;5;3] /\ one_course (mb plain_bob) [0;2;4;1;5;3] /\
  false_courses 20 default_symtab 0 plain_bob = Ret [[0;1;2;3;4;5]; [0;2;1;4;3;5]] /\
  exists t, false_courses 20 default_symtab 0 cambridge = Ret t /\ length t = 12.
Proof.
  split; [apply plain_bob_wf|]. split; [vm_compute; reflexivity|]. split; [exact plain_bob_course|]. split; [vm_compute; reflexivity|].
  eexists. split; vm_compute; reflexivity.
Qed.

(* without that, the search for the course head need not end: here the lead head is rounds, so a
   tenor away from home stays there *)
Definition two_blows : method := mkMethod [mkChange 3 [1]; mkChange 3 [1]] 3.
Theorem C33_diverges_refuted : wf_method two_blows /\ forall fuel, false_courses fuel default_symtab 0 two_blows = Diverge.
Proof.
  split.
  { split; [cbn; lia|]. split; [vm_compute; discriminate|]. repeat (apply Forall_cons; [split; [reflexivity|]|]); try apply Forall_nil; unfold wf_change; cbn; intuition lia. }
  assert (L : forall fuel, to_course_head fuel [0;1;2] [0;2;1] 3 = Diverge).
  { induction fuel as [|fuel IH]; [reflexivity|]. exact IH. }
  intros [|[|fuel]]; [vm_compute; reflexivity| |].
  - vm_compute. reflexivity.
  - unfold false_courses. replace (lh two_blows) with (Ret [0;1;2]) by (vm_compute; reflexivity). cbn [bind].
    cbn [forM two_blows mch]. unfold courses_outer at 1. cbn [forM two_blows mch mb fst snd].
    replace (rounds 3) with [0;1;2] by (vm_compute; reflexivity). unfold courses_inner at 1. cbn [fst snd].
    replace (div [0;1;2] [0;1;2]) with (Ret [0;1;2]) by (vm_compute; reflexivity). cbn [bind].
    assert (P1 : process (S (S fuel)) default_symtab 0 [0;1;2] [] [0;1;2] = Ret [[0;1;2]]).
    { unfold process. cbn [vget nth_error bind]. change (0 =? 0) with true. cbn [negb]. replace (has 0 FC_IN_COURSE) with false by reflexivity. cbn [bind].
      cbn [process_loop]. replace (mul [] [0;1;2]) with (Ret [0;1;2]) by (vm_compute; reflexivity). cbn [bind length to_course_head].
      change (3 =? 0) with false. cbv iota. cbn [vget nth_error Nat.sub bind]. change (2 =? 2) with true. cbv iota. vm_compute. reflexivity. }
    rewrite P1. cbn [bind]. replace (row_mul_change [0;1;2] (mkChange 3 [1])) with (Ret [0;2;1]) by (vm_compute; reflexivity). cbn [bind].
    unfold courses_inner at 1. cbn [fst snd]. replace (div [0;1;2] [0;2;1]) with (Ret [0;2;1]) by (vm_compute; reflexivity). cbn [bind].
    assert (P2 : process (S (S fuel)) default_symtab 0 [0;1;2] [[0;1;2]] [0;2;1] = Diverge).
    { unfold process. cbn [vget nth_error bind]. change (0 =? 0) with true. cbn [negb]. replace (has 0 FC_IN_COURSE) with false by reflexivity. cbn [bind].
      cbn [process_loop]. replace (mul [] [0;2;1]) with (Ret [0;2;1]) by (vm_compute; reflexivity). cbn [bind length].
      replace (mul [] [0;1;2]) with (Ret [0;1;2]) by (vm_compute; reflexivity). cbn [bind]. now rewrite L. }
    rewrite P2. reflexivity.
Qed.
Print Assumptions C33_diverges_refuted.
