(* P_Run.v - the statements do what is specified. *)
From Verif Require Import Base M_Bell M_Row M_Gsiril M_Parser M_Token M_Statement Spec_Statement Spec_Run P_Statement.
Set Implicit Arguments. Unset Strict Implicit.
Open Scope nat_scope.

Section P.
Variables (B : library) (opt : opts) (fuel : nat).
Notation does := (does B opt fuel).
Notation does_all := (does_all B opt fuel).
Notation does_each := (does_each B opt fuel).
Notation runs := (runs B opt fuel).
Notation exec := (exec_f B opt fuel).

Lemma after_inv r k x : after_that r k = Ret x -> (exists w, r = Ret (inl w) /\ k w = Ret x) \/ (exists n, r = Ret (inr n) /\ x = inr n).
Proof. destruct r as [[w|n]| | |]; cbn; try discriminate; eauto. injection 1 as <-. eauto. Qed.
Definition sound (rec : stmt -> world -> res) : Prop := forall s w r, rec s w = Ret r -> does s w r.
Lemma all_sound rec : sound rec -> forall ss w r, exec_all rec ss w = Ret r -> does_all ss w r.
Proof.
  intro R. induction ss as [|s ss IH]; intros w r; cbn [exec_all]; [injection 1 as <-; constructor|].
  intro H; apply after_inv in H as [(w1 & E & H)|(n & E & ->)]; apply R in E; [eapply da_more; eauto|now apply da_exit].
Qed.
Lemma bind_inv A C (o : outcome A) (k : A -> outcome C) c : bind o k = Ret c -> exists a, o = Ret a /\ k a = Ret c.
Proof. destruct o; cbn; try discriminate. eauto. Qed.
Lemma if_sound rec : sound rec -> forall alts w r, exec_if fuel rec alts w = Ret r ->
  (exists pre e b post w1 w2, alts = pre ++ (e, b) :: post /\ refuses fuel pre w w1 /\ tested fuel e w1 true w2 /\ does_all b w2 r) \/
  (exists w1, refuses fuel alts w w1 /\ r = inl w1).
Proof.
  intro R. induction alts as [|[e b] alts IH]; intros w r; cbn [exec_if]; [injection 1 as <-; right; exists w; split; auto; constructor|].
  intro H; apply bind_inv in H as ([v w'] & E & H). destruct v.
  - left. exists [], e, b, alts, w, w'. repeat split; auto; [constructor|eapply all_sound; eauto].
  - apply IH in H as [(pre & e' & b' & post & w1 & w2 & -> & F & T & D)|(w1 & F & ->)].
    + left. exists ((e, b) :: pre), e', b', post, w1, w2. repeat split; auto. eapply rf_more; eauto.
    + right. exists w1; split; auto. eapply rf_more; eauto.
Qed.
Lemma each_sound rec : sound rec -> forall n b es w r, exec_each rec n es b w = Ret r -> does_each n b es w r.
Proof.
  intros R n b. induction es as [|e es IH]; intros w r; cbn [exec_each]; [injection 1 as <-; constructor|].
  intro H; apply after_inv in H as [(w1 & E & H)|(k & E & ->)]; apply (all_sound R) in E; [eapply de_more; eauto|now apply de_exit].
Qed.
Lemma run_sound rec : sound rec -> forall bad n ts w k r, run_tokens B opt rec bad n ts w k = Ret r -> runs bad ts w k r.
Proof.
  intros R bad. induction n as [|n IH]; intros ts w k r; cbn [run_tokens]; [discriminate|].
  destruct (parse _ _ _ _ _ ts) as [us o] eqn:E. intro H; apply bind_inv in H as (s & -> & H).
  apply parse_iff in E as [(cs & SP & D)|[E ->]].
  - assert (X : s = SNone \/ s <> SNone) by (destruct s; auto; right; discriminate). destruct X as [->|NS].
    + injection H as <-. eapply r_end; eauto.
    + assert (H' : (r0 <- rec s w ;; match r0 with inl w' => run_tokens B opt rec bad n us w' (S k) | inr j => Ret (inr j) end) = Ret r) by (destruct s; auto; congruence).
      apply bind_inv in H' as ([w'|j] & E & H'); apply R in E.
      * eapply r_more; eauto.
      * injection H' as <-. eapply r_exit; eauto.
  - injection H as <-. eapply r_eof; eauto.
Qed.
Lemma text_sound rec : sound rec -> forall s w r, run_text B opt rec s w = Ret r ->
  exists ts bad, lex (c_msiril (w_c w)) (o_ci opt) s = Ret (ts, bad) /\ (ts = [] -> bad = false) /\ runs bad ts w 0 r.
Proof.
  intros R s w r H. unfold run_text in H. apply bind_inv in H as ([ts bad] & E & H). exists ts, bad. split; auto.
  destruct ts as [|t ts], bad; try discriminate; (split; [congruence|]); eapply run_sound; eauto.
Qed.
Lemma exec_sound : forall d, sound (exec d).
Proof.
  induction d as [|d IH]; intros s w r H; [discriminate|]. cbn [exec_f] in H. unfold exec_step in H.
  destruct s; try (apply d_plain; [exact I|exact H]); try discriminate.
  - unfold exec_import in H. destruct (lib_file B f) as [s|] eqn:F; [|discriminate].
    apply after_inv in H as [(w1 & E & H)|(k & E & ->)].
    + unfold file in E. apply bind_inv in E as ([[w1' k]|j] & E & Q); [assert (w1' = w1) by congruence; subst w1'|discriminate].
      apply (text_sound IH) in E as (ts & bad & E & NB & RU). apply bind_inv in H as (w2 & RS & H). injection H as <-. eapply d_import; eauto.
    + unfold file in E. apply bind_inv in E as ([[w1' j]|j] & E & Q); [discriminate|assert (j = k) by congruence; subst j].
      apply (text_sound IH) in E as (ts & bad & E & NB & RU). eapply d_import_exit; eauto.
  - apply (if_sound IH) in H as [(pre & e' & b' & post & w1 & w2 & -> & F & T & D)|(w1 & F & ->)]; [eapply d_if; eauto|now apply d_if_none].
  - apply bind_inv in H as ([es w'] & E & H). apply (each_sound IH) in H. eapply d_foreach; eauto.
Qed.

Lemma refuses_exec rec pre w w1 : refuses fuel pre w w1 -> forall post, exec_if fuel rec (pre ++ post) w = exec_if fuel rec post w1.
Proof. induction 1 as [|e b alts w w1 w2 T _ IH]; intro post; auto. cbn [app exec_if]. unfold tested in T. rewrite T. cbn [bind]. apply IH. Qed.
Lemma doing_complete :
  (forall s w r, does s w r -> exists d0, forall d, d0 <= d -> exec d s w = Ret r) /\
  (forall ss w r, does_all ss w r -> exists d0, forall d, d0 <= d -> exec_all (exec d) ss w = Ret r) /\
  (forall n b es w r, does_each n b es w r -> exists d0, forall d, d0 <= d -> exec_each (exec d) n es b w = Ret r) /\
  (forall bad ts w k r, runs bad ts w k r -> exists d0, forall d n, d0 <= d -> length ts < n -> run_tokens B opt (exec d) bad n ts w k = Ret r).
Proof.
  apply doing_ind.
  - intros s w r PL E. exists 1. intros [|d] Hd; [lia|]. cbn [exec_f]. unfold exec_step. destruct s; auto; contradiction.
  - intros pre e b post w w1 w2 r F T D (d0 & IH). exists (S d0). intros [|d] Hd; [lia|]. cbn [exec_f exec_step].
    rewrite (refuses_exec _ F). cbn [exec_if]. unfold tested in T. rewrite T. cbn [bind]. apply IH; lia.
  - intros alts w w1 F. exists 1. intros [|d] Hd; [lia|]. cbn [exec_f exec_step]. rewrite <- (app_nil_r alts), (refuses_exec _ F). reflexivity.
  - intros n e b es w w1 r A D (d0 & IH). exists (S d0). intros [|d] Hd; [lia|]. cbn [exec_f exec_step]. unfold array_of in A. rewrite A. cbn [bind]. apply IH; lia.
  - intros f s ts bad k w w1 w2 F E NB RU (d0 & IH) RS. exists (S d0). intros [|d] Hd; [lia|]. cbn [exec_f exec_step]. unfold exec_import. rewrite F.
    unfold file, run_text. rewrite E. cbn [bind]. 
    assert (X : match ts, bad with [], true => Throw BellInvalid | _, _ => run_tokens B opt (exec d) bad (S (S (length ts))) ts w 0 end = Ret (inl (w1, k))).
    { destruct ts as [|t ts]; [rewrite (NB eq_refl) in IH |- *|]; apply IH; cbn [length]; lia. }
    rewrite X. cbn [bind after_that]. rewrite RS. reflexivity.
  - intros f s ts bad w k F E NB RU (d0 & IH). exists (S d0). intros [|d] Hd; [lia|]. cbn [exec_f exec_step]. unfold exec_import. rewrite F.
    unfold file, run_text. rewrite E. cbn [bind].
    assert (X : match ts, bad with [], true => Throw BellInvalid | _, _ => run_tokens B opt (exec d) bad (S (S (length ts))) ts w 0 end = Ret (inr k)).
    { destruct ts as [|t ts]; [rewrite (NB eq_refl) in IH |- *|]; apply IH; cbn [length]; lia. }
    rewrite X. reflexivity.
  - intros w. exists 0. reflexivity.
  - intros s ss w w1 r D (d1 & IH1) D2 (d2 & IH2). exists (max d1 d2). intros d Hd. cbn [exec_all]. rewrite IH1 by lia. cbn [after_that]. apply IH2; lia.
  - intros s ss w k D (d1 & IH1). exists d1. intros d Hd. cbn [exec_all]. rewrite IH1 by lia. reflexivity.
  - intros n b w. exists 0. reflexivity.
  - intros n b e es w w1 r D (d1 & IH1) D2 (d2 & IH2). exists (max d1 d2). intros d Hd. cbn [exec_each]. unfold defines in IH1. rewrite IH1 by lia. cbn [after_that]. apply IH2; lia.
  - intros n b e es w k D (d1 & IH1). exists d1. intros d Hd. cbn [exec_each]. unfold defines in IH1. rewrite IH1 by lia. reflexivity.
  - intros bad ts us w k E. exists 0. intros d [|n] _ Hn; [lia|]. cbn [run_tokens].
    rewrite (proj2 (@parse_iff _ bad _ _ _ ts us SNone) (or_intror (conj E eq_refl))). reflexivity.
  - intros bad ts us cs w k SP D. exists 0. intros d [|n] _ Hn; [lia|]. cbn [run_tokens].
    rewrite (proj2 (@parse_iff _ bad _ _ _ ts us SNone) (or_introl (ex_intro _ cs (conj SP D)))). reflexivity.
  - intros bad ts us cs s w w1 k r SP D NS DO (d1 & IH1) RU (d2 & IH2). exists (max d1 d2). intros d [|n] Hd Hn; [lia|]. cbn [run_tokens].
    rewrite (proj2 (@parse_iff _ bad _ _ _ ts us s) (or_introl (ex_intro _ cs (conj SP D)))). cbn [bind]. rewrite IH1 by lia. cbn [bind].
    assert (L : length us < length ts).
    { destruct cs as [|c cs]; [exfalso; eapply stmt_nonempty; eauto|]. apply splits_inv in SP as (vs & E & N & SP).
      apply next_shorter in E; auto. apply splits_shorter in SP. lia. }
    destruct s; try congruence; apply IH2; lia.
  - intros bad ts us cs s w j k SP D NS DO (d1 & IH1). exists d1. intros d [|n] Hd Hn; [lia|]. cbn [run_tokens].
    rewrite (proj2 (@parse_iff _ bad _ _ _ ts us s) (or_introl (ex_intro _ cs (conj SP D)))). cbn [bind]. rewrite IH1 by lia. cbn [bind].
    destruct s; try congruence; reflexivity.
Qed.
Theorem does_iff s w r : does s w r <-> exists d, exec d s w = Ret r.
Proof.
  split; [|intros (d & H); now apply exec_sound in H]. intro H. apply (proj1 doing_complete) in H as (d & H). exists d. auto.
Qed.
(* more depth changes nothing *)
Theorem exec_more d d' s w r : exec d s w = Ret r -> d <= d' -> exec d' s w = Ret r.
Proof.
  intros H L. pose proof H as H'. apply exec_sound in H'. apply (proj1 doing_complete) in H' as (d0 & H').
  assert (M : forall d s w r, exec d s w = Ret r -> exec (S d) s w = Ret r); [|].
  2:{ clear - M H L. induction L; auto. }
  clear. induction d as [|d IH]; intros s w r H; [discriminate|].
  assert (ALL : forall ss w r, exec_all (exec d) ss w = Ret r -> exec_all (exec (S d)) ss w = Ret r).
  { induction ss as [|x ss IHs]; intros v q; cbn [exec_all]; auto. intro Q; apply after_inv in Q as [(w1 & E & Q)|(k & E & ->)]; apply IH in E; rewrite E; cbn [after_that]; auto. }
  assert (RUN : forall bad n ts w k r, run_tokens B opt (exec d) bad n ts w k = Ret r -> run_tokens B opt (exec (S d)) bad n ts w k = Ret r).
  { intros bad n. induction n as [|n IHn]; intros ts v k q; cbn [run_tokens]; auto. destruct (parse _ _ _ _ _ ts) as [us o].
    intro Q; apply bind_inv in Q as (x & -> & Q). cbn [bind]. destruct x; auto; apply bind_inv in Q as ([w'|j] & E & Q); apply IH in E; rewrite E; cbn [bind]; auto. }
  change (exec_step B opt fuel (exec d) (file B opt (exec d)) s w = Ret r) in H.
  change (exec_step B opt fuel (exec (S d)) (file B opt (exec (S d))) s w = Ret r). unfold exec_step in H |- *. destruct s; auto.
  - unfold exec_import in H |- *. destruct (lib_file B f); auto. apply after_inv in H as [(w1 & E & H)|(k & E & ->)].
    + enough (E' : file B opt (exec (S d)) t w = Ret (inl w1)) by (rewrite E'; exact H).
      unfold file, run_text in E |- *. apply bind_inv in E as (q & E & Q). apply bind_inv in E as ([ts bad] & E & E2). rewrite E. cbn [bind].
      destruct ts, bad; try discriminate; apply RUN in E2; cbn [length] in *; rewrite E2; exact Q.
    + enough (E' : file B opt (exec (S d)) t w = Ret (inr k)) by (rewrite E'; reflexivity).
      unfold file, run_text in E |- *. apply bind_inv in E as (q & E & Q). apply bind_inv in E as ([ts bad] & E & E2). rewrite E. cbn [bind].
      destruct ts, bad; try discriminate; apply RUN in E2; cbn [length] in *; rewrite E2; exact Q.
  - revert w H. induction alts as [|[e b] alts IHa]; intros w; cbn [exec_if]; auto.
    intro Q; apply bind_inv in Q as ([v w'] & E & Q). rewrite E. cbn [bind]. destruct v; [now apply ALL|auto].
  - apply bind_inv in H as ([es w'] & E & H). rewrite E. cbn [bind]. clear E. revert w' H. induction es as [|x es IHe]; intros w'; cbn [exec_each]; auto.
    intro Q; apply after_inv in Q as [(w1 & E & Q)|(k & E & ->)]; apply ALL in E; rewrite E; cbn [after_that]; auto.
Qed.
End P.
