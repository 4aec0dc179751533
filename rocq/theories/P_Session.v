(* P_Session.v - proofs, definitions and bells over a whole session. *)
From Verif Require Import Base M_Bell M_Change M_Row M_Proof M_Gsiril M_Parser M_Token M_Statement Spec_Row Spec_Statement Spec_Run Spec_Session.
From Verif Require Import P_Row P_Statement P_Run P_Gsiril2 Props_Gsiril.
Set Implicit Arguments. Unset Strict Implicit.
Open Scope nat_scope.

Lemma lookup_define t a v n : sym_lookup (sym_define t a v) n = if list_ascii_eqb a n then Some v else sym_lookup t n.
Proof.
  induction t as [|[b e] t IH]; cbn [sym_define sym_lookup]; auto.
  destruct (list_ascii_eqb b a) eqn:E; cbn [sym_lookup].
  - apply lae_iff in E. subst b. destruct (list_ascii_eqb a n); auto.
  - rewrite IH. destruct (list_ascii_eqb b n) eqn:F; auto. destruct (list_ascii_eqb a n) eqn:G; auto.
    apply lae_iff in F, G. subst. assert (list_ascii_eqb n n = true) by now apply lae_iff. congruence.
Qed.
Lemma lae_refl n : list_ascii_eqb n n = true. Proof. now apply lae_iff. Qed.
Lemma lae_ne a b : a <> b -> list_ascii_eqb a b = false.
Proof. intro N. destruct (list_ascii_eqb a b) eqn:E; auto. now apply lae_iff in E. Qed.
Lemma lookup_undefine t a n : sym_lookup (sym_undefine t a) n = if list_ascii_eqb a n then None else sym_lookup t n.
Proof.
  unfold sym_undefine. induction t as [|[b e] t IH]; cbn [filter sym_lookup fst]; [destruct (list_ascii_eqb a n); auto|].
  destruct (list_ascii_eqb b a) eqn:E; cbn [negb sym_lookup].
  - rewrite IH. apply lae_iff in E. subst b. destruct (list_ascii_eqb a n); auto.
  - rewrite IH. destruct (list_ascii_eqb b n) eqn:F; auto. apply lae_iff in F. subst b.
    destruct (list_ascii_eqb a n) eqn:G; auto. apply lae_iff in G. subst. now rewrite lae_refl in E.
Qed.
(* defining a symbol changes that symbol, and __first__ if there is none and the symbol is new *)
Lemma ectx_lookup t n v m : m <> first_name -> sym_lookup (ectx_define t n v) m = if list_ascii_eqb n m then Some v else sym_lookup t m.
Proof.
  intro N. unfold ectx_define. destruct (sym_lookup t n); [apply lookup_define|].
  destruct (sym_lookup (sym_define t n v) first_name); [apply lookup_define|].
  rewrite lookup_define, lae_ne by congruence. apply lookup_define.
Qed.
Lemma ectx_first t n v : sym_lookup (ectx_define t n v) first_name =
  if list_ascii_eqb n first_name then Some v else
  match sym_lookup t first_name with Some e => Some e | None => match sym_lookup t n with Some _ => None | None => Some v end end.
Proof.
  unfold ectx_define. destruct (list_ascii_eqb n first_name) eqn:E.
  - apply lae_iff in E. subst n. destruct (sym_lookup t first_name) eqn:F; rewrite ?lookup_define, lae_refl; cbv iota beta; rewrite ?lookup_define, ?lae_refl; auto.
  - destruct (sym_lookup t n) eqn:F.
    + rewrite lookup_define, E. destruct (sym_lookup t first_name); auto.
    + rewrite lookup_define, E. destruct (sym_lookup t first_name) eqn:G; [rewrite lookup_define, E; auto|]. rewrite lookup_define, lae_refl. auto.
Qed.
Lemma default_lookup t n v m : m <> first_name -> sym_lookup (default_define t n v) m =
  if list_ascii_eqb n m then (if isnop (sym_lookup t n) then Some v else sym_lookup t n) else sym_lookup t m.
Proof.
  intro N. unfold default_define. destruct (isnop (sym_lookup t n)) eqn:E.
  - destruct (sym_lookup (sym_define t n v) first_name); [apply lookup_define|]. rewrite lookup_define, lae_ne by congruence. apply lookup_define.
  - destruct (list_ascii_eqb n m) eqn:F; auto. apply lae_iff in F. now subst.
Qed.
Lemma isnop_iff o : isnop o = true <-> empty o.
Proof. unfold empty. destruct o as [[]|]; cbn; split; auto; try (intros [H|H]; discriminate H); try discriminate. Qed.

Section P.
Variables (B : library) (opt : opts) (fuel : nat).
Notation does := (does B opt fuel).
Notation does_all := (does_all B opt fuel).
Notation does_each := (does_each B opt fuel).
Notation runs := (runs B opt fuel).

(* the parts of the world which only a proof changes *)
Definition still (w w' : world) : Prop := w_log w' = w_log w /\ w_failed w' = w_failed w /\ w_done w' = w_done w.
Lemma still_refl w : still w w. Proof. now repeat split. Qed.
Lemma still_trans w w1 w2 : still w w1 -> still w1 w2 -> still w w2.
Proof. intros (A & C & D) (A' & C' & D'). repeat split; congruence. Qed.
Lemma set_bells_still b w w' : set_bells B b w = Ret w' -> still w w'.
Proof.
  unfold set_bells. intro H. apply bind_inv in H as (r & _ & H). assert (E : define_line B (set_c (if (b <? length (c_rounds (w_c w))) && negb (isrounds (c_rounds (w_c w))) then say w (str "Warning: Rounds reset") else w) (with_bells (w_c w) b r (c_show (w_c w)))) = w') by congruence.
  subst w'. destruct (_ && _); repeat split.
Qed.
Lemma consult_still A sil (q : ask A) w a w' : consult fuel sil q w = Ret (a, w') -> still w w' /\ w_c w' = w_c w.
Proof.
  unfold consult. intro H. apply bind_inv in H as (x & _ & H). apply bind_inv in H as ([s v] & _ & H). destruct v; [|discriminate].
  assert (E : set_g w (s_g s) = w') by congruence. subst w'. split; [repeat split|reflexivity].
Qed.
Lemma plain_still s w w' : exec_plain B opt fuel s w = Ret (inl w') -> (forall e, s <> SProve e) -> still w w'.
Proof.
  intros H NP. destruct s; cbn [exec_plain] in H; try discriminate; try (exfalso; eapply NP; reflexivity);
    try (unfold ok in H; assert (E : forall a b : world, Ret (inl a) = @Ret (world + nat) (inl b) -> b = a) by congruence; apply E in H; subst w'; repeat split; fail).
  - destruct (_ || _); [discriminate|]. apply bind_inv in H as (w1 & E & H). assert (w1 = w') by (unfold ok in H; congruence). subst. eapply set_bells_still; eauto.
  - destruct (_ =? _); [discriminate|]. destruct (c_everyrow_only _); [assert (w = w') by (unfold ok in H; congruence); subst; apply still_refl|].
    apply bind_inv in H as (r & _ & H). assert (E : define_line B (set_mask w m) = w') by (unfold ok in H; congruence). subst; repeat split.
  - apply bind_inv in H as ([[t nonl] w1] & E & H). apply consult_still in E as [E _]. destruct m; try discriminate.
    + match type of H with ok ?x = _ => assert (Q : x = w') by (unfold ok in H; congruence) end. subst w'. exact E.
    + match type of H with ok ?x = _ => assert (Q : x = w') by (unfold ok in H; congruence) end. subst w'. exact E.
  - apply bind_inv in H as ([sc g] & _ & H). match type of H with ok ?x = _ => assert (Q : x = w') by (unfold ok in H; congruence) end. subst w'. repeat split.
  - apply bind_inv in H as ([v w1] & E & H). apply consult_still in E as [E _].
    match type of H with ok ?x = _ => assert (Q : x = w') by (unfold ok in H; congruence) end. subst w'. exact E.
Qed.
Lemma restore_still w w1 w2 : restore B w w1 = Ret w2 -> still w1 w2.
Proof.
  unfold restore. intro H. apply bind_inv in H as (w3 & E & H).
  assert (S3 : still w1 w3) by (destruct (_ <? _); [eapply set_bells_still; eauto|assert (w1 = w3) by congruence; subst; apply still_refl]).
  match type of H with Ret ?x = _ => assert (Q : x = w2) by congruence end. subst w2. exact S3.
Qed.
Lemma refuses_still alts w w' : refuses fuel alts w w' -> still w w'.
Proof. induction 1 as [|e b alts w w1 w2 T _ IH]; [apply still_refl|]. unfold tested in T. apply consult_still in T as [T _]. eapply still_trans; eauto. Qed.
Definition badb (en : entry) : bool := match en_v en with VTrue | VStopped => false | _ => true end.
Lemma badb_iff en : badb en = false <-> fine en.
Proof. unfold badb, fine. destruct (en_v en); split; auto; intro H; try discriminate H; destruct H; discriminate. Qed.
(* what happens to the record of proofs *)
Definition logs (w w' : world) : Prop := exists new, w_log w' = w_log w ++ new /\ Forall (real fuel) new /\
  w_failed w' = w_failed w || existsb badb new /\ w_done w' = w_done w || negb (match new with [] => true | _ => false end) /\
  (o_prove_one opt = true -> length new + (if w_done w then 1 else 0) <= 1).
Lemma still_logs w w' : still w w' -> logs w w'.
Proof. intros (A & C & D). exists []. rewrite app_nil_r. cbn. rewrite !orb_false_r. repeat split; auto. destruct (w_done w); lia. Qed.
Lemma logs_trans w w1 w2 : logs w w1 -> logs w1 w2 -> logs w w2.
Proof.
  intros (n1 & L1 & R1 & F1 & D1 & O1) (n2 & L2 & R2 & F2 & D2 & O2). exists (n1 ++ n2). repeat split.
  - now rewrite L2, L1, app_assoc.
  - apply Forall_app; auto.
  - rewrite F2, F1, existsb_app. now rewrite orb_assoc.
  - rewrite D2, D1. destruct n1, n2; cbn; rewrite ?orb_false_r, ?orb_true_r; auto.
  - intro PO. specialize (O1 PO). specialize (O2 PO). rewrite app_length. rewrite D1 in O2. destruct (w_done w), n1, n2; cbn in *; lia.
Qed.
Lemma logs_prove e w w' : exec_plain B opt fuel (SProve e) w = Ret (inl w') -> exists v,
  w_log w' = w_log w ++ [mkEntry (w_c w) (w_g w) e v] /\ logs w w'.
Proof.
  cbn [exec_plain]. destruct (o_prove_one opt && w_done w) eqn:PO; [discriminate|]. intro H. apply bind_inv in H as ([[[v f] x] g] & E & H).
  assert (Q : set_proved w g f e v = w') by (unfold ok in H; congruence). subst w'. exists v. split; auto.
  exists [mkEntry (w_c w) (w_g w) e v]. split; [reflexivity|]. split; [constructor; auto; unfold real; cbn; eauto|].
  split; [|split].
  - cbn. rewrite orb_false_r. f_equal. apply C58_failure in E. unfold badb; cbn. destruct f, v; auto; exfalso;
      try (destruct (proj1 E eq_refl); congruence); try (assert (false = true) by (apply E; split; discriminate); discriminate).
  - cbn. now rewrite orb_true_r.
  - intro P1. rewrite P1 in PO. cbn in PO |- *. rewrite PO. lia.
Qed.
Lemma doing_logs :
  (forall s w r, does s w r -> match r with inl w' => logs w w' | inr k => k = 1 end) /\
  (forall ss w r, does_all ss w r -> match r with inl w' => logs w w' | inr k => k = 1 end) /\
  (forall n b es w r, does_each n b es w r -> match r with inl w' => logs w w' | inr k => k = 1 end) /\
  (forall bad ts w k r, runs bad ts w k r -> match r with inl (w', _) => logs w w' | inr k => k = 1 end).
Proof.
  apply doing_ind.
  - intros s w r PL E. destruct r as [w'|k].
    + destruct s; try (apply still_logs; eapply plain_still; [exact E|discriminate]). apply logs_prove in E as (v & _ & E). exact E.
    + destruct s; cbn [exec_plain] in E; try discriminate; unfold ok in E; try discriminate.
      * destruct (_ || _); [discriminate|]. apply bind_inv in E as (w1 & _ & E). discriminate.
      * destruct (_ =? _); [discriminate|]. destruct (c_everyrow_only _); [discriminate|]. apply bind_inv in E as (w1 & _ & E). discriminate.
      * destruct (_ && _); [discriminate|]. apply bind_inv in E as ([[[v f] x] g] & _ & E). discriminate.
      * apply bind_inv in E as ([[t nonl] w1] & _ & E). destruct m; try discriminate. congruence.
      * apply bind_inv in E as ([sc g] & _ & E). discriminate.
      * apply bind_inv in E as ([v w1] & _ & E). discriminate.
  - intros pre e b post w w1 w2 r F T D IH. destruct r as [w'|k]; auto. apply refuses_still in F. unfold tested in T. apply consult_still in T as [T _].
    eapply logs_trans; [apply still_logs; eapply still_trans; eauto|exact IH].
  - intros alts w w1 F. apply still_logs. now apply refuses_still in F.
  - intros n e b es w w1 r A D IH. unfold array_of in A. apply consult_still in A as [A _]. destruct r as [w'|k]; auto. eapply logs_trans; [apply still_logs; eauto|exact IH].
  - intros f s ts bad k w w1 w2 F E NB RU IH RS. apply restore_still in RS. eapply logs_trans; [exact IH|now apply still_logs].
  - intros f s ts bad w k F E NB RU IH. exact IH.
  - intros w. apply still_logs, still_refl.
  - intros s ss w w1 r D IH1 D2 IH2. destruct r as [w'|k]; auto. eapply logs_trans; eauto.
  - intros s ss w k D IH. exact IH.
  - intros n b w. apply still_logs, still_refl.
  - intros n b e es w w1 r D IH1 D2 IH2. destruct r as [w'|k]; auto. eapply logs_trans; [|exact IH2]. 
    assert (S0 : still w (defines n e w)) by (repeat split). eapply logs_trans; [apply still_logs; exact S0|exact IH1].
  - intros n b e es w k D IH. exact IH.
  - intros bad ts us w k E. apply still_logs, still_refl.
  - intros bad ts us cs w k SP D. apply still_logs, still_refl.
  - intros bad ts us cs s w w1 k r SP D NS DO IH1 RU IH2. destruct r as [[w' j]|j]; auto. eapply logs_trans; eauto.
  - intros bad ts us cs s w j k SP D NS DO IH. exact IH.
Qed.
End P.
