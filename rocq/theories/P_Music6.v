(* P_Music6.v - runs; totals. *)
From Verif Require Import Base M_Bell M_Change M_Math M_Row M_Music Spec_Row Spec_Music Spec_Music2 P_Bell P_Music P_Music2 P_Music3 P_Music4 P_Music5.
Set Implicit Arguments.
Unset Strict Implicit.
Open Scope nat_scope.

Lemma tally_ext (P Q : list nat -> Prop) rows : (forall r, In r rows -> P r <-> Q r) ->
  forall back h bk, tally P rows back h bk -> tally Q rows back h bk.
Proof.
  intros H back h bk T. revert H. induction T as [back|r l h bk Hp T IH|r l h bk Hp T IH|r l back h bk Hp T IH]; intros H.
  - constructor.
  - apply tally_hand; [apply H; [now left|exact Hp]|]. apply IH. intros s Hs. apply H. now right.
  - apply tally_back; [apply H; [now left|exact Hp]|]. apply IH. intros s Hs. apply H. now right.
  - apply tally_miss; [rewrite <- (H r (or_introl eq_refl)); exact Hp|]. apply IH. intros s Hs. apply H. now right.
Qed.

Notation dsym := default_symtab.
Definition bells_pattern (l : list nat) : pattern := map (fun x => Named (to_char dsym x)) l.
Definition run_items (pos : match_pos) (l : list nat) : pattern :=
  (match pos with at_front => [] | _ => [AnyBells] end) ++ bells_pattern l ++
  (match pos with at_back => [] | _ => [AnyBells] end).

Lemma text_app p q : text (p ++ q) = text p ++ text q.
Proof. unfold text. now rewrite map_app, concat_app. Qed.
Lemma bells_text l : Forall (fun x => x < 33) l -> text (bells_pattern l) = concat (map (print_bell dsym) l).
Proof.
  induction 1 as [|x l Hx Hl IH]; [reflexivity|]. cbn [bells_pattern map concat]. rewrite text_cons. fold (bells_pattern l). rewrite IH.
  unfold print_bell. change (sym_max dsym) with 33. destruct (Nat.ltb_spec x 33); [reflexivity|lia].
Qed.
Lemma run_items_text pos l : Forall (fun x => x < 33) l -> text (run_items pos l) = run_pattern dsym pos l.
Proof. intros H. unfold run_items, run_pattern. rewrite !text_app, bells_text by exact H. destruct pos; reflexivity. Qed.

Lemma named_bell x y : x < 33 -> names dsym (to_char dsym x) y <-> y = x.
Proof. intros H. destruct (read_char_to_char H) as (c & -> & E & _). unfold names. rewrite E. split; congruence. Qed.
Lemma symbol_bell x : x < 33 -> is_symbol dsym (to_char dsym x) = true.
Proof. intros H. destruct (read_char_to_char H) as (c & Ec & E & _). rewrite Ec. apply is_symbol_accepts. eauto. Qed.

Lemma bells_ok l : Forall (fun x => x < 33) l -> pattern_ok dsym (bells_pattern l).
Proof. intros H. unfold pattern_ok, bells_pattern. rewrite Forall_map. eapply Forall_impl; [|exact H]. intros x Hx. cbn. now apply symbol_bell. Qed.
Lemma bells_nostar l : has_star (bells_pattern l) = false.
Proof. unfold has_star, bells_pattern. induction l; auto. Qed.
Lemma bells_width l q : width (bells_pattern l ++ q) = length l + width q.
Proof. unfold bells_pattern. induction l as [|x l IH]; [reflexivity|]. cbn [map app length]. rewrite width_cons, IH. reflexivity. Qed.
Lemma bells_text_len l : Forall (fun x => x < 33) l -> length (text (bells_pattern l)) = length l.
Proof. induction 1; [reflexivity|]. cbn [bells_pattern map]. rewrite text_cons, app_length. fold (bells_pattern l). cbn. now rewrite IHForall. Qed.
Lemma has_star_app p q : has_star (p ++ q) = has_star p || has_star q.
Proof. apply existsb_app. Qed.

Lemma fits_bells l q r w : Forall (fun x => x < 33) l -> fits dsym (bells_pattern l ++ q) r w <-> exists s, r = l ++ s /\ fits dsym q s w.
Proof.
  intros Hl. revert r. induction Hl as [|x l Hx Hl IH]; intros r; cbn [bells_pattern map app].
  - split; [eauto|]. now intros (s & -> & F).
  - fold (bells_pattern l). split.
    + intros F. inversion F as [|c y q' s' v Hn F' E1 E2 E3|y q' s' v F' E1 E2 E3|c ll y q' s' v Hc Hn F' E1 E2 E3|u q' s' v F' E1 E2 E3]; subst.
      apply named_bell in Hn; [subst|exact Hx]. apply IH in F' as (s & -> & F'). exists s. auto.
    + intros (s & -> & F). constructor; [now apply named_bell|]. apply IH. eauto.
Qed.
Lemma fits_end_star r w : fits dsym [AnyBells] r w <-> w = r.
Proof.
  split.
  - intros F. inversion F as [| | | |u q' s' v F' E1 E2 E3]; subst. inversion F'; subst. reflexivity.
  - intros ->. rewrite <- (app_nil_r r) at 2. rewrite <- (app_nil_r r) at 1. constructor. constructor.
Qed.
Lemma fits_end r w : fits dsym [] r w <-> r = [] /\ w = [].
Proof. split; [intros F; inversion F; auto|intros [-> ->]; constructor]. Qed.
Lemma fits_star_iff p r w : fits dsym (AnyBells :: p) r w <-> exists u s v, r = u ++ s /\ w = u ++ v /\ fits dsym p s v.
Proof.
  split.
  - intros F. inversion F as [| | | |u q' s' v F' E1 E2 E3]; subst. eauto 6.
  - intros (u & s & v & -> & -> & F). now constructor.
Qed.

Lemma run_matches pos l r : Forall (fun x => x < 33) l ->
  (exists w, matches dsym (run_items pos l) r w) <-> has_run pos l r.
Proof.
  intros Hl. unfold matches, run_items. rewrite !has_star_app, bells_nostar. destruct pos; cbn [app has_star existsb is_star orb has_run].
  - split.
    + intros [w F]. apply fits_star_iff in F as (u & s & v & -> & -> & F). apply fits_bells in F as (s' & -> & F); [|exact Hl].
      exists u, s'. reflexivity.
    + intros (u & v & ->). exists (u ++ v). apply fits_star_iff. exists u, (l ++ v), v. split; [reflexivity|]. split; [reflexivity|].
      apply fits_bells; [exact Hl|]. exists v. split; [reflexivity|]. now apply fits_end_star.
  - split.
    + intros [w F]. apply fits_bells in F as (s' & -> & F); [|exact Hl]. exists s'. reflexivity.
    + intros (v & ->). exists v. apply fits_bells; [exact Hl|]. exists v. split; [reflexivity|]. now apply fits_end_star.
  - rewrite app_nil_r. split.
    + intros [w F]. apply fits_star_iff in F as (u & s & v & -> & -> & F). rewrite <- (app_nil_r (bells_pattern l)) in F.
      apply fits_bells in F as (s' & -> & F); [|exact Hl]. apply fits_end in F as [-> _]. exists u. now rewrite app_nil_r.
    + intros (u & ->). exists (u ++ []). apply fits_star_iff. exists u, l, []. split; [reflexivity|]. split; [reflexivity|].
      rewrite <- (app_nil_r (bells_pattern l)). apply fits_bells; [exact Hl|]. exists []. rewrite app_nil_r. split; [reflexivity|]. constructor.
Qed.

Lemma anchored_bells l q seen : anchored (bells_pattern l ++ q) seen <-> anchored q (seen || negb (length l =? 0)).
Proof.
  unfold bells_pattern. revert seen. induction l as [|x l IH]; intros seen; cbn [map app anchored length].
  - now rewrite orb_false_r.
  - rewrite IH. cbn. now rewrite orb_true_r.
Qed.
Lemma reach_bells b l q : reach b (bells_pattern l ++ q) <-> reach b q.
Proof. unfold bells_pattern. induction l as [|x l IH]; cbn [map app reach]; tauto. Qed.

Lemma run_clean b pos l : Forall (fun x => x < 33) l -> l <> [] -> length l <= b -> run_room b pos l ->
  clean dsym b (run_items pos l) /\ open_ended b (run_items pos l).
Proof.
  intros Hl Hn Hb Hr. assert (Hl0 : negb (length l =? 0) = true) by (destruct l; [congruence|reflexivity]).
  assert (Hok : pattern_ok dsym (run_items pos l)).
  { unfold run_items, pattern_ok. rewrite !Forall_app. pose proof (bells_ok Hl). destruct pos; repeat split; auto; repeat constructor. }
  assert (Hch : choices_distinct dsym (run_items pos l)).
  { intros ll xs Hin _. exfalso. unfold run_items in Hin. rewrite !in_app_iff in Hin.
    assert (N : ~ In (OneOf ll) (bells_pattern l)) by (unfold bells_pattern; rewrite in_map_iff; now intros (x & E & _)).
    destruct pos; cbn in Hin; intuition discriminate. }
  split.
  - split; [exact Hok|]. split; [exact Hch|]. unfold run_items. split; [|split].
    + destruct pos; cbn [app].
      * cbn [anchored]. split; [reflexivity|]. rewrite anchored_bells, Hl0. cbn. auto.
      * rewrite anchored_bells. cbn. auto.
      * cbn [anchored]. split; [reflexivity|]. rewrite anchored_bells. cbn. auto.
    + destruct pos; cbn [app].
      * cbn [reach]. split.
        -- intros _. rewrite bells_width. rewrite text_cons, text_app, !app_length, bells_text_len by exact Hl. cbn. cbn in Hr. lia.
        -- rewrite reach_bells. cbn. split; [discriminate|exact I].
      * rewrite reach_bells. cbn. split; [discriminate|exact I].
      * cbn [reach]. rewrite reach_bells, has_star_app, bells_nostar. cbn. split; [discriminate|exact I].
    + rewrite !has_star_app, bells_nostar. destruct pos; cbn; discriminate.
  - unfold run_items. destruct pos; cbn [app].
    + right. left. exists (AnyBells :: bells_pattern l). reflexivity.
    + right. left. eauto.
    + right. right. rewrite app_nil_r. split.
      * rewrite width_cons. rewrite <- (app_nil_r (bells_pattern l)), bells_width. cbn in *. lia.
      * exists [], (bells_pattern l). rewrite bells_nostar. auto.
Qed.
Lemma run_below b pos l : Forall (fun x => x < 33 /\ x < b) l -> bells_below dsym b (run_items pos l).
Proof.
  intros Hl t c x Ht Hc Hx. unfold run_items in Ht. rewrite !in_app_iff in Ht. rewrite Forall_forall in Hl.
  assert (K : In t (bells_pattern l)) by (destruct pos; cbn in Ht; intuition (subst; contradiction)).
  unfold bells_pattern in K. apply in_map_iff in K as (y & <- & Hy). destruct Hc as [<-|[]].
  destruct (Hl y Hy) as [A B]. apply named_bell in Hx; [now subst|exact A].
Qed.

(* pushing runs *)
Lemma push_runs b pos ls sh sb : forall l0 m0, history dsym b l0 m0 ->
  Forall (fun l => Forall (fun x => x < 33 /\ x < b) l) ls ->
  exists m, push_patterns dsym (map (run_pattern dsym pos) ls) sh sb m0 = Ret m /\
    history dsym b (l0 ++ map (fun l => (run_items pos l, sh, sb)) ls) m.
Proof.
  induction ls as [|l ls IH]; intros l0 m0 H0 Hls.
  - exists m0. split; [reflexivity|]. now rewrite app_nil_r.
  - inversion Hls as [|? ? Hl Hls']; subst.
    assert (Hl33 : Forall (fun x => x < 33) l) by (eapply Forall_impl; [|exact Hl]; cbn; intros x [K _]; exact K).
    assert (Hok : pattern_ok dsym (run_items pos l)).
    { unfold run_items, pattern_ok. rewrite !Forall_app. pose proof (bells_ok Hl33). destruct pos; repeat split; auto; repeat constructor. }
    destruct (@history_push_total _ _ default_sym_ok _ _ _ sh sb H0 Hok (@run_below b pos l Hl)) as (d & m1 & Ed & Ep & H1).
    destruct (IH _ _ H1 Hls') as (m & Em & H). exists m. rewrite <- app_assoc in H. split; [|exact H].
    unfold push_patterns in *. cbn [map forM]. rewrite <- run_items_text by exact Hl33. rewrite Ed. cbn [bind]. rewrite Ep. exact Em.
Qed.

(* the counts of a music object made of runs *)
Lemma runs_counted b pos ls sh sb m : history dsym b (map (fun l => (run_items pos l, sh, sb)) ls) m ->
  Forall (fun l => Forall (fun x => x < 33) l /\ l <> [] /\ length l <= b /\ run_room b pos l) ls ->
  forall junk rows back, Forall (fun r => length r = b /\ NoDup r) rows ->
  exists m', process_rows junk m rows back = Ret m' /\
    Forall2 (fun l d => md_pat d = run_pattern dsym pos l /\ md_scoreh d = sh /\ md_scoreb d = sb /\
      exists h bk, tally (has_run pos l) rows back h bk /\ md_counth d = u32 (Z.of_nat h) /\ md_countb d = u32 (Z.of_nat bk)) ls (mu_info m').
Proof.
  intros H Hls junk rows back Hr. destruct (@history_counts _ _ default_sym_ok _ _ H junk rows back Hr) as (m' & E & L & K).
  exists m'. split; [exact E|]. rewrite map_length in L.
  assert (K' : forall k l, nth_error ls k = Some l -> exists d, nth_error (mu_info m') k = Some d /\
      (md_pat d = run_pattern dsym pos l /\ md_scoreh d = sh /\ md_scoreb d = sb /\
      exists h bk, tally (has_run pos l) rows back h bk /\ md_counth d = u32 (Z.of_nat h) /\ md_countb d = u32 (Z.of_nat bk))).
  { intros k l Hk. rewrite Forall_forall in Hls. destruct (Hls l (nth_error_In _ _ Hk)) as (A & B & C & D).
    destruct (run_clean A B C D) as [Hc Ho].
    destruct (K k (run_items pos l) sh sb) as (d & h & bk & Hd & Ep & Es & Eb & T & E1 & E2); [|exact Hc|].
    { erewrite map_nth_error by exact Hk. reflexivity. }
    exists d. split; [exact Hd|]. rewrite Ep, run_items_text by exact A. split; [reflexivity|]. split; [exact Es|]. split; [exact Eb|].
    exists h, bk. split; [|auto]. eapply tally_ext; [|exact T]. intros r Hin. rewrite Forall_forall in Hr. destruct (Hr r Hin) as [Lr _].
    rewrite <- (run_matches pos r A). split; intros [w M]; exists w; apply (matches1_matches _ w Ho Lr); exact M. }
  clear -L K'. revert L K'. generalize (mu_info m') as ds. induction ls as [|l ls IH]; intros [|d ds] L K; cbn in L; try discriminate; constructor.
  - destruct (K 0 l eq_refl) as (d' & Hd & X). cbn in Hd. injection Hd as <-. exact X.
  - apply IH; [lia|]. intros k l' Hk. exact (K (S k) l' Hk).
Qed.

Lemma run_patterns_runs b n pos dir : b <= 256 -> run_patterns dsym b n pos dir = map (run_pattern dsym pos) (runs b n dir).
Proof.
  intros Hb. unfold run_patterns, runs.
  assert (E : (if b <? n then [] else seq 0 (S (b - n))) = seq 0 (S b - n)).
  { destruct (Nat.ltb_spec b n); [replace (S b - n) with 0 by lia; reflexivity|f_equal; lia]. }
  rewrite E. rewrite map_app. f_equal.
  - destruct (0 <=? dir)%Z; [|reflexivity]. rewrite map_map. apply map_ext_in. intros i Hi. apply in_seq in Hi. f_equal.
    unfold run_up. rewrite <- (map_id (seq i n)) at 2. apply map_ext_in. intros x Hx. apply in_seq in Hx. unfold b8. apply Nat.mod_small. lia.
  - destruct (dir <=? 0)%Z; [|reflexivity]. rewrite map_map. apply map_ext_in. intros i Hi. apply in_seq in Hi. do 2 f_equal.
    unfold run_up. rewrite <- (map_id (seq i n)) at 2. apply map_ext_in. intros x Hx. apply in_seq in Hx. unfold b8. apply Nat.mod_small. lia.
Qed.
Lemma runs_in b n dir l : In l (runs b n dir) -> length l = n /\ Forall (fun x => x < b) l.
Proof.
  unfold runs. rewrite in_app_iff. intros [H|H].
  - destruct (0 <=? dir)%Z; [|destruct H]. apply in_map_iff in H as (i & <- & Hi). apply in_seq in Hi. rewrite seq_length. split; [reflexivity|].
    apply Forall_forall. intros x Hx. apply in_seq in Hx. lia.
  - destruct (dir <=? 0)%Z; [|destruct H]. apply in_map_iff in H as (i & <- & Hi). apply in_seq in Hi. rewrite rev_length, seq_length. split; [reflexivity|].
    apply Forall_forall. intros x Hx. apply in_rev, in_seq in Hx. lia.
Qed.
Lemma make_runs_spec b n pos dir sh sb : b <= 33 ->
  exists m, make_runs_match dsym b n pos dir sh sb = Ret m /\
    history dsym b (map (fun l => (run_items pos l, sh, sb)) (runs b n dir)) m.
Proof.
  intros Hb. unfold make_runs_match. rewrite run_patterns_runs by lia.
  apply (@push_runs b pos _ sh sb [] (music_make b)); [constructor|].
  apply Forall_forall. intros l Hl. apply runs_in in Hl as [_ Hl]. eapply Forall_impl; [|exact Hl]. cbn. lia.
Qed.
Lemma make_cru_spec b sh sb : b <= 33 ->
  exists m, make_cru_match dsym b sh sb = Ret m /\ history dsym b (map (fun l => (run_items at_back l, sh, sb)) (crus b)) m.
Proof.
  intros Hb. unfold make_cru_match.
  assert (E : cru_patterns dsym b = map (run_pattern dsym at_back) (crus b)).
  { unfold cru_patterns, crus. destruct (Nat.ltb_spec b 6); [reflexivity|].
    assert (Em : map b8 (seq 6 (b - 6)) = seq 6 (b - 6)).
    { rewrite <- (map_id (seq 6 (b - 6))) at 2. apply map_ext_in. intros x Hx. apply in_seq in Hx. unfold b8. apply Nat.mod_small. lia. }
    rewrite Em. cbn [map concat Nat.eqb app fst snd]. unfold run_pattern. cbn [map concat]. rewrite !app_nil_r. reflexivity. }
  rewrite E. apply (@push_runs b at_back _ sh sb [] (music_make b)); [constructor|].
  unfold crus. destruct (Nat.ltb_spec b 6); [constructor|]. rewrite Forall_map. apply Forall_forall. intros ij Hij.
  assert (fst ij < 6 /\ snd ij < 6) by (cbn in Hij; repeat (destruct Hij as [<-|Hij]; [cbn; lia|]); destruct Hij).
  constructor; [lia|]. constructor; [lia|]. apply Forall_forall. intros x Hx. apply in_seq in Hx. lia.
Qed.

(* ---- totals ---- *)
Definition sumZ (l : list Z) : Z := fold_right Z.add 0%Z l.
Lemma fold_u32 A (f : A -> Z) l : forall a, in_u32 a -> fold_left (fun t d => u32 (t + f d)) l a = u32 (a + sumZ (map f l)).
Proof.
  induction l as [|x l IH]; intros a Ha; cbn [fold_left map sumZ fold_right].
  - rewrite Z.add_0_r. symmetry. now apply u32_id.
  - rewrite IH by apply u32_range. rewrite u32_add. unfold sumZ. f_equal. lia.
Qed.
