(* P_Statement.v - statements are parsed as specified. *)
From Verif Require Import Base M_Bell M_Row M_Gsiril M_Parser Spec_Parser M_Token M_Statement Spec_Statement P_PN P_Parser P_Token P_Command P_Lines Props_Token.
Set Implicit Arguments. Unset Strict Implicit.
Open Scope nat_scope.

Lemma lae_iff a b : list_ascii_eqb a b = true <-> a = b.
Proof. unfold list_ascii_eqb. destruct (list_eq_dec ascii_dec a b); split; congruence. Qed.
Lemma word_iff s t : word_is s t = true <-> word s t.
Proof.
  unfold word_is, is_word, word. rewrite andb_true_iff, lae_iff. destruct (tt_eqb_spec (tk t) KName); intuition discriminate.
Qed.
Lemma kind_iff k t : kind_is k t = true <-> tk t = k.
Proof. unfold kind_is. destruct (tt_eqb_spec (tk t) k); intuition discriminate. Qed.

Lemma some_inj A (a b : A) : Some a = Some b -> a = b.
Proof. congruence. Qed.

Section P.
Variables (ms bad no_import : bool) (sym : symtab) (L : lits).
Notation phrase := (phrase L).
Notation listed := (listed L).
Notation row_text := (row_text sym).
Notation simple := (simple phrase listed row_text (negb no_import)).
Notation stmt_of := (stmt_of phrase listed row_text (negb no_import)).
Notation clauses := (clauses phrase listed row_text (negb no_import)).
Notation block := (block phrase listed row_text (negb no_import)).
Notation one := (one_command no_import sym L).


Lemma one_of_end t : tx_is "end" t || tx_is "quit" t || tx_is "exit" t || kind_is KCtrlZ t = true <-> one_of ["end"; "quit"; "exit"]%string t \/ tk t = KCtrlZ.
Proof.
  unfold tx_is, one_of. rewrite !orb_true_iff, !lae_iff, kind_iff. cbn [map In].
  split; [intros [[[H|H]|H]|H]; auto 6; left; rewrite H; auto|].
  intros [[H|[H|[H|[]]]]|H]; auto 6; rewrite H; auto 6.
Qed.
Lemma echo_iff t m : echo_kind t = Some m <-> says t m.
Proof.
  unfold echo_kind. destruct (word_is "echo" t) eqn:E1; [|destruct (word_is "warn" t) eqn:E2; [|destruct (word_is "error" t) eqn:E3]].
  - apply word_iff in E1. split; [injection 1 as <-; now constructor|]. intro H; inversion H as [? [_ W]|? [_ W]|? [_ W]]; subst; auto; destruct E1 as [_ E1]; rewrite E1 in W; discriminate.
  - apply word_iff in E2. split; [injection 1 as <-; now constructor|].
    intro H; inversion H as [? W|? [_ W]|? [_ W]]; subst; auto; [apply word_iff in W; congruence|]. destruct E2 as [_ E2]; rewrite E2 in W; discriminate.
  - apply word_iff in E3. split; [injection 1 as <-; now constructor|].
    intro H; inversion H as [? W|? W|? W]; subst; auto; apply word_iff in W; congruence.
  - split; [discriminate|]. intro H; inversion H as [? W|? W|? W]; subst; apply word_iff in W; congruence.
Qed.
Lemma number_ret t (z : Z) A (k : Z -> A) s : kind_is KNum t = true -> (x <- num_value (tx t) ;; Ret (k x)) = Ret s -> exists z, number t z /\ s = k z.
Proof.
  intros K H. apply kind_iff in K. destruct (num_value (tx t)) eqn:E; cbn [bind] in H; try discriminate. injection H as <-.
  exists a. repeat split; auto.
Qed.
Lemma num_word s t : word s t -> forallb is_digit (str s) = false -> num_value (tx t) = fail.
Proof. intros [_ ->] H. unfold num_value. now rewrite H. Qed.
Definition starts_block (cmd : list token) : Prop := exists t u, cmd = t :: u /\ (word "if" t /\ u <> [] \/ word "foreach" t).
Ltac ands H := repeat match type of H with (_ && _ = true) => let H' := fresh H in apply andb_true_iff in H as [H H'] end.

Lemma one_sound cmd s : cmd <> [] -> one cmd = Some (Ret s) -> simple cmd s.
Proof.
  destruct cmd as [|t u]; [congruence|]. intros _. unfold one_command.
  destruct (is_eof (t :: u)) eqn:EOF.
  { injection 1 as <-. cbn in EOF. destruct u; [|discriminate]. apply s_end. now apply one_of_end. }
  destruct (word_is "version" t && _) eqn:E1.
  { injection 1 as <-. ands E1. destruct u; [|discriminate]. apply s_version. now apply word_iff. }
  destruct (kind_is KNum t && match u with [x] => word_is "bells" x | _ => false end) eqn:E2.
  { ands E2. destruct u as [|x [|]]; try discriminate. intro H; apply some_inj in H. apply number_ret in H as (z & N & ->); auto; [|exact 0%Z]. apply s_bells; auto. now apply word_iff. }
  destruct (kind_is KNum t && match u with [x] => word_is "extents" x | _ => false end) eqn:E3.
  { ands E3. destruct u as [|x [|]]; try discriminate. intro H; apply some_inj in H. apply number_ret in H as (z & N & ->); auto; [|exact 0%Z]. apply s_extents; auto. now apply word_iff. }
  destruct (kind_is KNum t && match u with [x] => word_is "rows" x | _ => false end) eqn:E4.
  { ands E4. destruct u as [|x [|]]; try discriminate. intro H; apply some_inj in H. apply number_ret in H as (z & N & ->); auto; [|exact 0%Z]. apply s_rows; auto. now apply word_iff. }
  destruct (kind_is KNum t && match u with [x; y; z] => _ | _ => false end) eqn:E5.
  { ands E5. destruct u as [|x [|y [|z [|]]]]; try discriminate. ands E0. apply word_iff in E0. intro H; apply some_inj in H.
    rewrite (num_word E0 eq_refl) in H. destruct (num_value (tx t)); discriminate. }
  destruct (word_is "rounds" t && _) eqn:E6.
  { ands E6. destruct u as [|x [|]]; try discriminate. intro H; apply some_inj in H. destruct (row_of_string sym (tx x)) eqn:R; try discriminate. injection H as <-.
    apply s_rounds; auto; [now apply word_iff|now apply kind_iff]. }
  destruct (word_is "row_mask" t && _) eqn:E7.
  { ands E7. destruct u as [|x [|]]; try discriminate. intro H; injection H as <-. apply s_mask; [now apply word_iff|now apply kind_iff]. }
  destruct (negb no_import && word_is "import" t && _) eqn:E8.
  { ands E8. destruct u as [|x [|]]; try discriminate. intro H; injection H as <-. apply s_import; auto; [now apply word_iff|].
    match goal with H : _ || _ = true |- _ => apply orb_true_iff in H as [H|H]; apply kind_iff in H; auto end. }
  destruct (word_is "prove" t && _) eqn:E9.
  { ands E9. destruct u as [|x u]; try discriminate. intro H; apply some_inj in H. destruct (make_expr L (x :: u)) eqn:M; try discriminate. injection H as <-.
    apply s_prove; auto; [now apply word_iff|]. apply negb_true_iff in E0. apply orb_false_iff in E0 as [E0 E0']. apply orb_false_iff in E0 as [E0 E0''].
    cbn [In]. intros [H|[H|[H|[]]]]; symmetry in H; apply kind_iff in H; congruence. }
  destruct (echo_kind t) as [m|] eqn:EK.
  { intro H; apply some_inj in H. apply echo_iff in EK. destruct u as [|x u]; [injection H as <-; now apply s_say_nothing|].
    destruct (make_expr L (x :: u)) eqn:M; try discriminate. injection H as <-. apply s_say; auto. discriminate. }
  destruct (word_is "music" t) eqn:E10.
  { intro H; apply some_inj in H. destruct (parse_list_f (make_expr L) (S (length u)) u) eqn:M; try discriminate. injection H as <-. apply s_music; auto. now apply word_iff. }
  destruct (_ || word_is "foreach" t) eqn:E11; [discriminate|]. apply orb_false_iff in E11 as [E11 E12].
  intro H; apply some_inj in H. destruct u as [|x v]; [discriminate|].
  destruct (kind_is KName t && _) eqn:E13; [|discriminate]. ands E13. apply kind_iff in E13. rewrite andb_true_r in E11.
  assert (D : definable t).
  { split; auto. intro I. unfold one_of in I. cbn [map In] in I. unfold echo_kind in EK.
    destruct (word_is "echo" t) eqn:W1; [discriminate|]. destruct (word_is "warn" t) eqn:W2; [discriminate|]. destruct (word_is "error" t) eqn:W3; [discriminate|].
    assert (X : forall w, tx t = str w -> word_is w t = false -> False).
    { intros w Hw F. assert (word w t) by (split; auto). apply word_iff in H0. congruence. }
    destruct I as [I|[I|[I|[I|[I|[I|[]]]]]]]; symmetry in I; eapply X; eauto. }
  assert (V : forall e, match v with [] => Ret ENop | _ => make_expr L v end = Ret e -> value phrase v e).
  { intros e Hv. destruct v; [injection Hv as <-; now left|right; split; auto; discriminate]. }
  destruct (match v with [] => Ret ENop | _ => make_expr L v end) as [e| | |] eqn:M; try discriminate. specialize (V e eq_refl). cbn [bind] in H.
  injection H as <-. destruct (kind_is KAssign x) eqn:K1; [apply kind_iff in K1; now apply s_def|].
  destruct (kind_is KDefAssign x) eqn:K2; [apply kind_iff in K2; now apply s_default|].
  cbn [orb] in E0. apply kind_iff in E0. now apply s_imm.
Qed.
Lemma one_none cmd : cmd <> [] -> one cmd = None <-> starts_block cmd.
Proof.
  destruct cmd as [|t u]; [congruence|]. intros _. split.
  - unfold one_command. repeat match goal with |- (if ?b then Some _ else _) = None -> _ => destruct b; [discriminate|] end.
    destruct (echo_kind t); [discriminate|]. destruct (word_is "music" t); [discriminate|].
    destruct (_ || word_is "foreach" t) eqn:E; [|discriminate]. intros _. exists t, u. split; auto.
    apply orb_true_iff in E as [E|E]; [|right; now apply word_iff]. ands E. left; split; [now apply word_iff|]. destruct u; discriminate.
  - intros (t' & u' & E & H). injection E as <- <-. destruct t as [k x].
    assert (W : k = KName /\ (x = str "if" /\ u <> [] \/ x = str "foreach")).
    { destruct H as [[[K W] N]|[K W]]; cbn in K, W; auto. }
    destruct W as [-> [[-> N]| ->]]; unfold one_command.
    + destruct u as [|y u]; [congruence|]. cbn -[make_expr parse_list_f]. now rewrite ?andb_false_r.
    + unfold is_eof. destruct u as [|y u]; cbn -[make_expr parse_list_f]; now rewrite ?andb_false_r.
Qed.
Lemma def_complete t x u e s : definable t -> value phrase u e ->
  (tk x = KAssign /\ s = SDef (tx t) e) \/ (tk x = KDefAssign /\ s = SDefault (tx t) e) \/ (tk x = KImmAssign /\ s = SImm (tx t) e) ->
  one (t :: x :: u) = Some (Ret s).
Proof.
  intros [K D] V S. assert (E : echo_kind t = None).
  { destruct (echo_kind t) eqn:E; auto. apply echo_iff in E. exfalso; apply D. unfold one_of.
    destruct E as [? [_ E]|? [_ E]|? [_ E]]; rewrite E; cbn; auto. }
  assert (N : forall w, In (str w) (map str ["music"; "if"; "foreach"]%string) -> word_is w t = false).
  { intros w I. destruct (word_is w t) eqn:W; auto. apply word_iff in W as [_ W]. exfalso; apply D. unfold one_of. rewrite W.
    cbn [map In] in I |- *. intuition. }
  assert (M : match u with [] => Ret ENop | _ => make_expr L u end = Ret e).
  { destruct V as [[-> ->]|[NE P]]; auto. destruct u; [congruence|auto]. }
  unfold one_command. cbn [is_eof]. rewrite E, (N "music"%string), (N "if"%string), (N "foreach"%string) by (cbn; auto).
  rewrite M. cbn [bind]. rewrite !andb_false_r. rewrite (proj2 (kind_iff KName t) K).
  assert (X : kind_is KNum t = false) by (unfold kind_is; rewrite K; reflexivity). rewrite X. cbn [andb orb].
  destruct S as [[S ->]|[[S ->]|[S ->]]]; unfold kind_is; rewrite S; cbn [tt_eqb andb orb negb];
    rewrite ?andb_false_r; destruct u as [|y u]; rewrite ?andb_false_r; reflexivity.
Qed.
Lemma one_complete cmd s : simple cmd s -> one cmd = Some (Ret s).
Proof.
  intro H; destruct H.
  - unfold one_command, is_eof. apply one_of_end in H. now rewrite H.
  - destruct t, H as [K W]; cbn in K, W; subst. reflexivity.
  - destruct n as [kn xn], t as [kt xt], H as [K N], H0 as [K' W]; cbn in K, N, K', W; subst. unfold one_command. cbn. rewrite N. reflexivity.
  - destruct n as [kn xn], t as [kt xt], H as [K N], H0 as [K' W]; cbn in K, N, K', W; subst. unfold one_command. cbn. rewrite N. reflexivity.
  - destruct n as [kn xn], t as [kt xt], H as [K N], H0 as [K' W]; cbn in K, N, K', W; subst. unfold one_command. cbn. rewrite N. reflexivity.
  - destruct t, x as [kx xx], H as [K W]; cbn in K, W, H0, H1; subst. unfold one_command. cbn. unfold Spec_Statement.row_text in H1. rewrite H1. reflexivity.
  - destruct t, x as [kx xx], H as [K W]; cbn in K, W, H0; subst. reflexivity.
  - destruct t, x as [kx xx], H0 as [K W]; cbn in K, W, H1; subst. unfold one_command. cbn. rewrite H. destruct H1 as [-> | ->]; reflexivity.
  - destruct t, H as [K W]; cbn in K, W; subst. unfold one_command. cbn -[make_expr kind_is].
    assert (N : kind_is KAssign x || kind_is KImmAssign x || kind_is KDefAssign x = false).
    { destruct (kind_is KAssign x) eqn:E1; [apply kind_iff in E1; exfalso; apply H0; rewrite E1; cbn; auto|].
      destruct (kind_is KImmAssign x) eqn:E2; [apply kind_iff in E2; exfalso; apply H0; rewrite E2; cbn; auto|].
      destruct (kind_is KDefAssign x) eqn:E3; [apply kind_iff in E3; exfalso; apply H0; rewrite E3; cbn; auto|]. reflexivity. }
    rewrite N, andb_false_r. cbn [negb]. unfold Spec_Statement.phrase in H1. rewrite H1. reflexivity.
  - apply echo_iff in H. assert (X : exists w, t = mkTok KName w /\ In w (map str ["echo"; "warn"; "error"]%string)).
    { apply echo_iff in H. destruct t, H as [[? ?] [K W]|[? ?] [K W]|[? ?] [K W]]; cbn in K, W; subst; eexists; split; eauto; cbn; auto. }
    destruct X as (w & -> & I). destruct u as [|x u]; [congruence|]. unfold Spec_Statement.phrase in H1.
    cbn in I; in_cases I; subst; unfold one_command; cbn -[make_expr]; rewrite ?andb_false_r, H1; cbn in H |- *; congruence.
  - destruct t, H as [[? ?] [K W]|[? ?] [K W]|[? ?] [K W]]; cbn in K, W; subst; unfold one_command; cbn; rewrite ?andb_false_r; reflexivity.
  - destruct t, H as [K W]; cbn in K, W; subst. unfold Spec_Statement.listed in H0. unfold one_command, is_eof. 
    destruct u as [|x u]; cbn -[parse_list_f make_expr length]; rewrite ?andb_false_r, H0; reflexivity.
  - eapply def_complete; eauto.
  - eapply def_complete; eauto.
  - eapply def_complete; eauto.
Qed.

Notation splits := (splits ms bad).
Notation next := (next_command ms bad).
Lemma splits_app ts cs us ds vs : splits ts cs us -> splits us ds vs -> splits ts (cs ++ ds) vs.
Proof. induction 1; cbn; auto. intro; eapply sp_more; eauto. Qed.
Lemma next_shorter ts us c : next ts = (us, Ret c) -> c <> [] -> length us < length ts.
Proof.
  unfold next_command. intros H N. destruct c as [|t c]; [congruence|]. apply command_progress in H as [H|[_ H]]; auto. discriminate.
Qed.
Lemma splits_shorter ts cs us : splits ts cs us -> length us <= length ts.
Proof. induction 1; auto. apply next_shorter in H; auto. lia. Qed.
Lemma splits_inv ts c cs us : splits ts (c :: cs) us -> exists vs, next ts = (vs, Ret c) /\ c <> [] /\ splits vs cs us.
Proof. intro H; inversion H; subst. eauto. Qed.
Lemma splits_split ts cs ds us : splits ts (cs ++ ds) us -> exists vs, splits ts cs vs /\ splits vs ds us.
Proof.
  revert ts; induction cs as [|c cs IH]; cbn; intros ts H; [exists ts; split; auto; constructor|].
  apply splits_inv in H as (vs & E & N & H). apply IH in H as (ws & H1 & H2). exists ws; split; auto. eapply sp_more; eauto.
Qed.
Lemma pret_bind A B (o : outcome A) (k : A -> P B) ts ts' b : pbind (pret o) k ts = (ts', Ret b) -> exists a, o = Ret a /\ k a ts = (ts', Ret b).
Proof. unfold pbind, pret. destruct o; try discriminate. eauto. Qed.
Lemma pbind_inv A B (m : P A) (k : A -> P B) ts ts' b : pbind m k ts = (ts', Ret b) -> exists a us, m ts = (us, Ret a) /\ k a us = (ts', Ret b).
Proof. unfold pbind. destruct (m ts) as [us [a| | |]]; try discriminate. eauto. Qed.
Lemma pbind_ret A B (m : P A) (k : A -> P B) ts us a : m ts = (us, Ret a) -> pbind m k ts = k a us.
Proof. unfold pbind. now intros ->. Qed.

Lemma clauses_cons may e cs s cs' ss alts : ~ elseif_first cs -> stmt_of cs s -> clauses may e cs' ((e, ss) :: alts) ->
  clauses may e (cs ++ cs') ((e, s :: ss) :: alts).
Proof.
  intros NE S C. inversion C; subst.
  - rewrite app_assoc. apply cl_endif; auto. now apply bl_more.
  - rewrite app_assoc. apply cl_elseif with e'; auto. now apply bl_more.
  - rewrite app_assoc. apply cl_else; auto. now apply bl_more.
Qed.
Definition rec_sound (rec : list token -> P stmt) : Prop := forall cmd ts us s, cmd <> [] -> rec cmd ts = (us, Ret s) ->
  exists cs, splits ts cs us /\ stmt_of (cmd :: cs) s.
Lemma if_sound rec : rec_sound rec -> forall g cond alts blk had ts us s, if_f ms bad L rec g cond alts blk had ts = (us, Ret s) ->
  exists cs ss more, splits ts cs us /\ s = SIf (alts ++ (cond, blk ++ ss) :: more) /\ clauses (negb had) cond cs ((cond, ss) :: more).
Proof.
  intros R. induction g as [|g IH]; intros cond alts blk had ts us s H; [discriminate|]. cbn [if_f] in H.
  apply pbind_inv in H as (cmd & vs & E & H). destruct cmd as [|t u]; [discriminate|].
  destruct ((match u with [] => true | _ => false end) && word_is "endif" t) eqn:E1.
  { ands E1. destruct u; [|discriminate]. apply pair_equal_spec in H as [<- H]. injection H as <-. apply word_iff in E0.
    exists [[t]], [], []. rewrite app_nil_r. repeat split; auto.
    - eapply sp_more; eauto; [discriminate|constructor].
    - apply (@cl_endif phrase listed row_text (negb no_import) (negb had) cond [] []); auto. constructor. }
  destruct (negb (match u with [] => true | _ => false end) && word_is "elseif" t) eqn:E2.
  { ands E2. destruct u as [|x u]; [discriminate|]. apply word_iff in E0. destruct had; [discriminate|].
    apply pret_bind in H as (e & M & H). apply IH in H as (cs & ss & more & S & -> & C).
    exists ((t :: x :: u) :: cs), [], ((e, ss) :: more). rewrite app_nil_r. repeat split; auto.
    - eapply sp_more; eauto. discriminate.
    - cbn [negb]. rewrite <- app_assoc. cbn [app]. reflexivity.
    - apply (@cl_elseif phrase listed row_text (negb no_import) cond [] [] t (x :: u) e cs); auto; [constructor|discriminate]. }
  destruct ((match u with [] => true | _ => false end) && word_is "else" t) eqn:E3.
  { ands E3. destruct u; [|discriminate]. apply word_iff in E0. destruct had; [discriminate|].
    apply IH in H as (cs & ss & more & S & -> & C).
    exists ([t] :: cs), [], ((EBool true, ss) :: more). rewrite app_nil_r. repeat split; auto.
    - eapply sp_more; eauto. discriminate.
    - rewrite <- app_assoc. reflexivity.
    - apply (@cl_else phrase listed row_text (negb no_import) cond [] [] t cs); auto. constructor. }
  apply pbind_inv in H as (s1 & ws & H1 & H). apply R in H1 as (cs1 & S1 & D1); [|discriminate].
  apply IH in H as (cs & ss & more & S & -> & C).
  exists ((t :: u) :: cs1 ++ cs), (s1 :: ss), more. repeat split.
  - eapply sp_more; eauto; [discriminate|]. eapply splits_app; eauto.
  - now rewrite <- app_assoc.
  - change ((t :: u) :: cs1 ++ cs) with (((t :: u) :: cs1) ++ cs). apply clauses_cons; auto.
    intros (t' & u' & cs' & Q & W). injection Q as <- <- <-. apply word_iff in W. rewrite W in E2. rewrite andb_true_r in E2.
    destruct u; [|discriminate]. apply word_iff in W. inversion D1 as [c0 s0 SM|? ? ? ? ? W' N'|? ? ? ? ? ? ? ? W']; subst.
    + destruct W as [K W]. inversion SM; subst.
      * destruct H0 as [I|I]; [|congruence]. unfold one_of in I. rewrite W in I. cbn in I. intuition discriminate.
      * destruct H0 as [_ I]; rewrite W in I; discriminate.
      * destruct H1 as [? [_ I]|? [_ I]|? [_ I]]; rewrite W in I; discriminate.
      * destruct H0 as [? [_ I]|? [_ I]|? [_ I]]; rewrite W in I; discriminate.
      * destruct H1 as [_ I]; rewrite W in I; discriminate.
    + congruence.
    + destruct W as [_ W], W' as [_ W']; rewrite W in W'; discriminate.
Qed.

Lemma foreach_f_sound rec : rec_sound rec -> forall g n a blk ts us s, foreach_f ms bad rec g n a blk ts = (us, Ret s) ->
  exists cs ss z, splits ts (cs ++ [[z]]) us /\ s = SForeach n a (blk ++ ss) /\ block false cs ss /\ word "endfor" z.
Proof.
  intros R. induction g as [|g IH]; intros n a blk ts us s H; [discriminate|]. cbn [foreach_f] in H.
  apply pbind_inv in H as (cmd & vs & E & H). destruct cmd as [|t u]; [discriminate|].
  destruct ((match u with [] => true | _ => false end) && word_is "endfor" t) eqn:E1.
  { ands E1. destruct u; [|discriminate]. apply pair_equal_spec in H as [<- H]. injection H as <-. apply word_iff in E0.
    exists [], [], t. rewrite app_nil_r. repeat split; auto; try apply E0; [|constructor]. cbn. eapply sp_more; eauto; [discriminate|constructor]. }
  apply pbind_inv in H as (s1 & ws & H1 & H). apply R in H1 as (cs1 & S1 & D1); [|discriminate].
  apply IH in H as (cs & ss & z & S & -> & BL & W). exists (((t :: u) :: cs1) ++ cs), (s1 :: ss), z. repeat split; try apply W.
  - cbn. eapply sp_more; eauto; [discriminate|]. rewrite <- app_assoc. eapply splits_app; eauto.
  - now rewrite <- app_assoc.
  - apply bl_more; auto. discriminate.
Qed.
Lemma parse_sound : forall f, rec_sound (parse_command ms bad no_import sym L f).
Proof.
  induction f as [|f IH]; intros cmd ts us s N H; [discriminate|]. cbn [parse_command] in H. unfold parse_step in H.
  destruct (one cmd) as [o|] eqn:E.
  - apply pair_equal_spec in H as [<- ->]. exists []. split; [constructor|]. apply so_simple. now apply one_sound.
  - apply one_none in E as (t & u & -> & W); auto. destruct (word_is "if" t) eqn:WI.
    + apply word_iff in WI. assert (NU : u <> []).
      { destruct W as [[_ W]|[_ W]]; auto. destruct WI as [_ WI]. rewrite WI in W. discriminate. }
      apply pret_bind in H as (e & M & H). apply (if_sound IH) in H as (cs & ss & more & S & -> & C). exists cs. split; auto. now apply so_if with e.
    + destruct W as [[W _]|W]; [apply word_iff in W; congruence|]. unfold foreach in H.
      destruct (rev (t :: u)) as [|y [|x r]] eqn:RV; try discriminate. destruct r as [|v r]; [discriminate|].
      destruct (word_is "as" x && kind_is KName y) eqn:E; [|discriminate]. ands E. apply word_iff in E. apply kind_iff in E0.
      apply pret_bind in H as (a & M & H). apply (foreach_f_sound IH) in H as (cs & ss & z & S & -> & BL & WZ).
      exists (cs ++ [[z]]). split; auto.
      apply (f_equal (@rev _)) in RV. rewrite rev_involutive in RV. cbn [rev] in RV, M. rewrite <- !app_assoc in RV. cbn [app] in RV.
      destruct (rev r ++ [v]) as [|v0 w] eqn:RW; [apply (f_equal (@length _)) in RW; rewrite app_length in RW; cbn in RW; lia|].
      replace (rev r ++ [v; x; y]) with ((rev r ++ [v]) ++ [x; y]) in RV by now rewrite <- app_assoc. rewrite RW in RV. cbn [app tl] in RV, M. injection RV as <- ->. apply so_foreach; auto.
Qed.

Lemma stmt_first cmd cs s : stmt_of (cmd :: cs) s -> cmd <> [] /\
  forall z, cmd = [z] -> ~ word "endif" z /\ ~ word "else" z /\ ~ word "endfor" z.
Proof.
  intro H; inversion H as [c0 s0 SM|t u e cs0 alts W N PH C|t u e a n cs0 ss z W]; subst.
  - split; [inversion SM; discriminate|]. intros z ->.
    assert (K : tk z = KName -> In (tx z) (map str ["endif"; "else"; "endfor"]%string) -> False).
    { intros K I. inversion SM; subst.
      - destruct H1 as [J|J]; [|congruence]. unfold one_of in J. cbn [map In] in I, J.
        destruct I as [I|[I|[I|[]]]], J as [J|[J|[J|[]]]]; rewrite <- I in J; discriminate.
      - destruct H1 as [_ J]. rewrite J in I. cbn in I. intuition discriminate.
      - congruence.
      - destruct H1 as [? [_ J]|? [_ J]|? [_ J]]; rewrite J in I; cbn in I; intuition discriminate.
      - destruct H2 as [_ J]. rewrite J in I. cbn in I. intuition discriminate. }
    repeat split; intros [KZ W]; apply K; auto; rewrite W; cbn; auto.
  - split; [discriminate|]. intros z Q. injection Q as -> ->. congruence.
  - split; [discriminate|]. intros z0 Q. injection Q as -> Q. destruct u; discriminate.
Qed.
Lemma stmt_nonempty s : ~ stmt_of [] s.
Proof. intro H; inversion H. Qed.
Notation rec f := (parse_command ms bad no_import sym L f).
Lemma statement_complete :
  (forall cs s, stmt_of cs s -> forall cmd used ts us f, cs = cmd :: used -> splits ts used us -> length ts < f -> rec f cmd ts = (us, Ret s)) /\
  (forall more e cs alts, clauses more e cs alts -> forall ts us f g pre blk, splits ts cs us -> length ts <= f -> length ts < g ->
     exists ss more', alts = (e, ss) :: more' /\ if_f ms bad L (rec f) g e pre blk (negb more) ts = (us, Ret (SIf (pre ++ (e, blk ++ ss) :: more')))) /\
  (forall b cs ss, block b cs ss -> forall ts us f g blk, splits ts cs us -> length ts <= f -> length ts < g ->
     if b then forall e pre had, exists g', length us < g' /\ if_f ms bad L (rec f) g e pre blk had ts = if_f ms bad L (rec f) g' e pre (blk ++ ss) had us
     else forall n a, exists g', length us < g' /\ foreach_f ms bad (rec f) g n a blk ts = foreach_f ms bad (rec f) g' n a (blk ++ ss) us).
Proof.
  apply statement_ind.
  - intros c s SM cmd used ts us f Q SP Hf. injection Q as -> <-. inversion SP; subst. destruct f as [|f]; [lia|]. cbn [parse_command].
    unfold parse_step. now rewrite (one_complete SM).
  - intros t u e cs alts W N PH C IH cmd used ts us f Q SP Hf. injection Q as <- <-. destruct f as [|f]; [lia|]. cbn [parse_command].
    unfold parse_step. rewrite (proj2 (one_none (ltac:(discriminate) : t :: u <> [])) (ex_intro _ t (ex_intro _ u (conj eq_refl (or_introl (conj W N)))))).
    rewrite (proj2 (word_iff "if" t) W). unfold Spec_Statement.phrase in PH. unfold pbind, pret. rewrite PH.
    destruct (IH ts us f (S (length ts)) [] [] SP) as (ss & more' & -> & E); [lia|lia|]. cbn [negb app] in E. exact E.
  - intros t u e a n cs ss z W PH WA K BL IH WZ cmd used ts us f Q SP Hf. injection Q as <- <-. destruct f as [|f]; [lia|]. cbn [parse_command].
    unfold parse_step. rewrite (proj2 (one_none (ltac:(discriminate) : t :: u ++ [a; n] <> [])) (ex_intro _ t (ex_intro _ _ (conj eq_refl (or_intror W))))).
    assert (WI : word_is "if" t = false).
    { destruct (word_is "if" t) eqn:WI; auto. apply word_iff in WI as [_ WI]. destruct W as [_ W]. rewrite WI in W. discriminate. }
    rewrite WI. unfold foreach. cbn [rev]. rewrite rev_app_distr. cbn [rev app].
    destruct (rev u ++ [t]) as [|v r] eqn:RV; [apply (f_equal (@length _)) in RV; rewrite app_length in RV; cbn in RV; lia|].
    rewrite (proj2 (word_iff "as" a) WA), (proj2 (kind_iff KName n) K). cbn [andb].
    assert (M : tl (rev (v :: r)) = u) by (rewrite <- RV, rev_app_distr, rev_involutive; reflexivity). rewrite M.
    unfold Spec_Statement.phrase in PH. unfold pbind at 1. unfold pret. rewrite PH.
    apply splits_split in SP as (vs & S1 & S2). destruct (IH ts vs f (S (length ts)) [] S1) with (n := tx n) (a := e) as (g' & Hg & E); [lia|lia|].
    rewrite E. destruct g' as [|g']; [lia|]. cbn [foreach_f app]. apply splits_inv in S2 as (ws & E2 & N2 & S3).
    rewrite (pbind_ret _ E2). cbn [andb]. rewrite (proj2 (word_iff "endfor" z) WZ). inversion S3; subst. reflexivity.
  - intros more e cs ss z BL IH W ts us f g pre blk SP Hf Hg. exists ss, []. split; auto.
    apply splits_split in SP as (vs & S1 & S2). destruct (IH ts vs f g blk S1 Hf Hg e pre (negb more)) as (g' & Hg' & E). rewrite E.
    destruct g' as [|g']; [lia|]. cbn [if_f]. apply splits_inv in S2 as (ws & E2 & N2 & S3). rewrite (pbind_ret _ E2). cbn [andb].
    rewrite (proj2 (word_iff "endif" z) W). inversion S3; subst. reflexivity.
  - intros e cs ss z u e' cs' alts BL IH W N PH C IHC ts us f g pre blk SP Hf Hg. exists ss, alts. split; auto.
    apply splits_split in SP as (vs & S1 & S2). destruct (IH ts vs f g blk S1 Hf Hg e pre false) as (g' & Hg' & E). cbn [negb]. rewrite E.
    destruct g' as [|g']; [lia|]. cbn [if_f]. apply splits_inv in S2 as (ws & E2 & N2 & S3). rewrite (pbind_ret _ E2).
    destruct u as [|x u]; [congruence|]. cbn [andb negb]. rewrite (proj2 (word_iff "elseif" z) W). unfold Spec_Statement.phrase in PH. unfold pbind at 1. unfold pret at 1. rewrite PH.
    apply next_shorter in E2; auto. apply splits_shorter in S1.
    destruct (IHC ws us f g' (pre ++ [(e, blk ++ ss)]) [] S3) as (ss' & more' & -> & E3); [lia|lia|]. cbn [negb] in E3. rewrite E3.
    rewrite <- app_assoc. reflexivity.
  - intros e cs ss z cs' alts BL IH W C IHC ts us f g pre blk SP Hf Hg. exists ss, alts. split; auto.
    apply splits_split in SP as (vs & S1 & S2). destruct (IH ts vs f g blk S1 Hf Hg e pre false) as (g' & Hg' & E). cbn [negb]. rewrite E.
    destruct g' as [|g']; [lia|]. cbn [if_f]. apply splits_inv in S2 as (ws & E2 & N2 & S3). rewrite (pbind_ret _ E2).
    cbn [andb negb]. rewrite (proj2 (word_iff "else" z) W).
    assert (WE : word_is "endif" z = false).
    { destruct (word_is "endif" z) eqn:WE; auto. apply word_iff in WE as [_ WE]. destruct W as [_ W]. rewrite WE in W. discriminate. }
    rewrite WE. apply next_shorter in E2; auto. apply splits_shorter in S1.
    destruct (IHC ws us f g' (pre ++ [(e, blk ++ ss)]) [] S3) as (ss' & more' & -> & E3); [lia|lia|]. cbn [negb] in E3. rewrite E3.
    rewrite <- app_assoc. reflexivity.
  - intros b ts us f g blk SP Hf Hg. inversion SP; subst. destruct b; intros; exists g; rewrite app_nil_r; auto.
  - intros b cs s cs' ss NE D IHD BL IH ts us f g blk SP Hf Hg.
    destruct cs as [|cmd used]; [now apply stmt_nonempty in D|]. cbn [app] in SP. apply splits_inv in SP as (vs & E & N & SP).
    apply splits_split in SP as (ws & S1 & S2). pose proof (next_shorter E N) as L1. pose proof (splits_shorter S1) as L2.
    destruct g as [|g]; [lia|].
    assert (E1 : rec f cmd vs = (ws, Ret s)) by (apply (IHD cmd used vs ws f eq_refl S1); lia).
    destruct (stmt_first D) as [_ F].
    specialize (IH ws us f g (blk ++ [s]) S2). destruct b.
    + intros e pre had. destruct (IH ltac:(lia) ltac:(lia) e pre had) as (g' & Hg' & E2). exists g'. split; auto.
      rewrite <- app_assoc in E2. cbn [app] in E2. rewrite <- E2. cbn [if_f]. rewrite (pbind_ret _ E).
      destruct cmd as [|t u]; [congruence|].
      assert (A1 : match u with [] => true | _ => false end && word_is "endif" t = false).
      { destruct u; auto. cbn [andb]. destruct (word_is "endif" t) eqn:WE; auto. apply word_iff in WE. now apply (F t eq_refl) in WE. }
      assert (A2 : negb match u with [] => true | _ => false end && word_is "elseif" t = false).
      { destruct (word_is "elseif" t) eqn:WE; [|apply andb_false_r]. apply word_iff in WE. exfalso. apply (NE eq_refl). exists t, u, used; auto. }
      assert (A3 : match u with [] => true | _ => false end && word_is "else" t = false).
      { destruct u; auto. cbn [andb]. destruct (word_is "else" t) eqn:WE; auto. apply word_iff in WE. now apply (F t eq_refl) in WE. }
      rewrite A1, A2, A3. now rewrite (pbind_ret _ E1).
    + intros n a. destruct (IH ltac:(lia) ltac:(lia) n a) as (g' & Hg' & E2). exists g'. split; auto.
      rewrite <- app_assoc in E2. cbn [app] in E2. rewrite <- E2. cbn [foreach_f]. rewrite (pbind_ret _ E).
      destruct cmd as [|t u]; [congruence|].
      assert (A1 : match u with [] => true | _ => false end && word_is "endfor" t = false).
      { destruct u; auto. cbn [andb]. destruct (word_is "endfor" t) eqn:WE; auto. apply word_iff in WE. now apply (F t eq_refl) in WE. }
      rewrite A1. now rewrite (pbind_ret _ E1).
Qed.
Theorem parse_iff ts us s : parse ms bad no_import sym L ts = (us, Ret s) <->
  (exists cs, splits ts cs us /\ stmt_of cs s) \/ (next ts = (us, Ret []) /\ s = SNone).
Proof.
  unfold parse. split.
  - intro H. apply pbind_inv in H as (cmd & vs & E & H). destruct cmd as [|t u].
    + right. cbn in H. apply pair_equal_spec in H as [<- H]. injection H as <-. auto.
    + left. apply parse_sound in H as (cs & S & D); [|discriminate]. exists ((t :: u) :: cs). split; auto. eapply sp_more; eauto. discriminate.
  - intros [(cs & S & D)|[E ->]].
    + destruct cs as [|cmd used]; [now apply stmt_nonempty in D|]. apply splits_inv in S as (vs & E & N & S).
      rewrite (pbind_ret _ E). eapply (proj1 statement_complete); eauto.
    + rewrite (pbind_ret _ E). reflexivity.
Qed.
End P.
