(* P_Music4.v - sequences of rows; accepted patterns; runs. *)
From Verif Require Import Base M_Bell M_Change M_Math M_Row M_Music Spec_Row Spec_Music Spec_Music2 P_Bell P_Music P_Music2 P_Music3.
Set Implicit Arguments.
Unset Strict Implicit.
Open Scope nat_scope.

Lemma reset_holds sym b ps m : holds sym b ps m -> holds sym b ps (reset_music m).
Proof.
  intros (Eb & Elen & Hrg & Hpat & Hev). unfold holds, reset_music. cbn [mu_b mu_info mu_top].
  split; [exact Eb|]. rewrite map_length. split; [exact Elen|]. split; [|split; [|exact Hev]].
  - rewrite Forall_map. eapply Forall_impl; [|exact Hrg]. intros d _. split; cbn; unfold in_u32; lia.
  - intros k p d Hp Hd. destruct (nth_error (mu_info m) k) as [d0|] eqn:E.
    + rewrite (map_nth_error md_clear k (mu_info m) E) in Hd. injection Hd as <-. cbn. eauto.
    + apply nth_error_None in E. assert (nth_error (map md_clear (mu_info m)) k = None) by (apply nth_error_None; rewrite map_length; lia). congruence.
Qed.

Definition rows_step (junk : nat) (st : music * bool) (r : row) : outcome (music * bool) :=
  '(m, _) <- process_row junk (fst st) r (snd st) ;; Ret (m, negb (snd st)).

Lemma rows_spec sym b ps junk : sym_ok sym -> forall rows m back, holds sym b ps m ->
  Forall (fun r => length r = b /\ NoDup r) rows ->
  exists m' back', forM rows (rows_step junk) (m, back) = Ret (m', back') /\ holds sym b ps m' /\
    forall k p d, nth_error ps k = Some p -> good sym b p -> nth_error (mu_info m) k = Some d ->
      exists d' h bk, nth_error (mu_info m') k = Some d' /\ same_desc d d' /\
        tally (fun r => exists w, matches1 sym p r w) rows back h bk /\
        md_counth d' = u32 (md_counth d + Z.of_nat h) /\ md_countb d' = u32 (md_countb d + Z.of_nat bk).
Proof.
  intros OK. induction rows as [|r rows IH]; intros m back Hm Hrows.
  - exists m, back. split; [reflexivity|]. split; [exact Hm|]. intros k p d Hp _ Hd. exists d, 0, 0.
    split; [exact Hd|]. split; [repeat split|]. split; [constructor|]. cbn [Z.of_nat]. rewrite !Z.add_0_r.
    destruct Hm as (_ & _ & Hrg & _). rewrite Forall_forall in Hrg. destruct (Hrg d) as [A B]; [eapply nth_error_In; eauto|].
    now rewrite !u32_id.
  - inversion Hrows as [|? ? [Hlen Hnd] Hrows']; subst.
    destruct (@process_row_spec sym (length r) ps m junk r back OK Hm) as (m1 & ok & E1 & H1 & _ & K1).
    destruct (IH m1 (negb back) H1 Hrows') as (m2 & back2 & E2 & H2 & K2).
    exists m2, back2. split; [|split; [exact H2|]].
    + cbn [forM]. unfold rows_step at 1. cbn [fst snd]. rewrite E1. cbn [bind]. exact E2.
    + intros k p d Hp Hg Hd. destruct (K1 k p d Hp Hd) as (d1 & Hd1 & C & _).
      destruct (K2 k p d1 Hp Hg Hd1) as (d2 & h & bk & Hd2 & S2 & T & Eh & Eb).
      destruct C as (S1 & C1 & C2).
      assert (SS : same_desc d d2) by (unfold same_desc in *; intuition congruence).
      destruct (@good_ways sym (length r) junk r p OK Hg eq_refl Hnd) as [[W N]|(w & W & M)]; rewrite W in *; cbn [length] in *.
      * exists d2, h, bk. split; [exact Hd2|]. split; [exact SS|]. split.
        -- apply tally_miss; [|exact T]. intros [w Hw]. exact (N w Hw).
        -- rewrite Eh, Eb, C1, C2. cbn [Z.of_nat]. rewrite !Z.add_0_r. destruct back; rewrite ?u32_add; auto.
      * assert (Hex : exists w, matches1 sym p r w) by (exists w; now apply M).
        destruct back; cbn [negb] in *.
        -- exists d2, h, (S bk). split; [exact Hd2|]. split; [exact SS|]. split; [now apply tally_back|].
           rewrite Eh, Eb, C1, C2, u32_add. split; [reflexivity|]. f_equal. lia.
        -- exists d2, (S h), bk. split; [exact Hd2|]. split; [exact SS|]. split; [now apply tally_hand|].
           rewrite Eh, Eb, C1, C2, u32_add. split; [|reflexivity]. f_equal. lia.
Qed.

(* ---- accepted patterns ---- *)
Lemma check_parse sym : sym_ok sym -> forall s,
  (check_expression_from sym s false = Ret tt -> exists p, pattern_ok sym p /\ s = text p) /\
  (check_expression_from sym s true = Ret tt -> exists l p, Forall (fun c => is_symbol sym c = true) l /\ pattern_ok sym p /\ s = l ++ c_close :: text p).
Proof.
  intros OK. induction s as [|c s [IHf IHt]]; cbn [check_expression_from].
  { split; [exists []; split; [constructor|reflexivity]|discriminate]. }
  destruct (is_symbol sym c) eqn:Es.
  { split; intros H.
    - destruct (IHf H) as (p & Hp & ->). exists (Named c :: p). split; [constructor; assumption|reflexivity].
    - destruct (IHt H) as (l & p & Hl & Hp & ->). exists (c :: l), p. repeat split; auto. }
  destruct (eqc c c_any || eqc c c_star) eqn:Ea.
  { split; intros H; [|discriminate]. destruct (IHf H) as (p & Hp & ->).
    apply orb_true_iff in Ea as [E|E]; apply eqc_true in E; subst c.
    - exists (AnyBell :: p). split; [constructor; [exact I|exact Hp]|reflexivity].
    - exists (AnyBells :: p). split; [constructor; [exact I|exact Hp]|reflexivity]. }
  destruct (eqc c c_open) eqn:Eo.
  { split; intros H; [|discriminate]. apply eqc_true in Eo. subst c. destruct (IHt H) as (l & p & Hl & Hp & ->).
    exists (OneOf l :: p). split; [constructor; [exact Hl|exact Hp]|]. rewrite text_cons. cbn [item_text].
    change (chr "[") with c_open. change (chr "]") with c_close. rewrite <- app_comm_cons, <- app_assoc. reflexivity. }
  destruct (eqc c c_close) eqn:Ec; [|split; discriminate].
  split; intros H; [discriminate|]. apply eqc_true in Ec. subst c. destruct (IHf H) as (p & Hp & ->).
  exists [], p. repeat split; auto.
Qed.

(* ---- building ---- *)
Definition add_pattern (sym : symtab) (m : music) (e : pattern * Z * Z) : outcome music :=
  d <- md_make sym (text (fst (fst e))) (snd (fst e)) (snd e) ;; music_push sym m d.

Lemma empty_holds sym b : holds sym b [] (music_make b).
Proof.
  unfold holds. cbn. repeat split; auto. intros k p d Hp. destruct k; discriminate.
Qed.
Lemma scores_of sym m d m' e sh sb : md_make sym e sh sb = Ret d -> music_push sym m d = Ret m' ->
  mu_info m' = mu_info m ++ [mkMD e 0 0 sh sb []].
Proof.
  intros Hd Hp. unfold md_make, rw_set in Hd. apply bind_ret_inv in Hd as (rw & Erw & Hd). injection Hd as <-.
  apply bind_ret_inv in Erw as (? & _ & Erw). apply bind_ret_inv in Erw as (? & _ & Erw). injection Erw as <-.
  unfold music_push in Hp. apply bind_ret_inv in Hp as (? & _ & Hp). apply bind_ret_inv in Hp as (top & _ & Hp).
  now injection Hp as <-.
Qed.
Lemma built_holds sym b l : sym_ok sym -> forall m0 ps0 m, holds sym b ps0 m0 ->
  Forall (fun e => pattern_ok sym (fst (fst e))) l -> forM l (add_pattern sym) m0 = Ret m ->
  holds sym b (ps0 ++ map (fun e => fst (fst e)) l) m /\
  mu_info m = mu_info m0 ++ map (fun e => mkMD (text (fst (fst e))) 0 0 (snd (fst e)) (snd e) []) l.
Proof.
  intros OK. induction l as [|e l IH]; intros m0 ps0 m H0 Hl Hm.
  - cbn in Hm. injection Hm as <-. rewrite !app_nil_r. auto.
  - inversion Hl as [|? ? He Hl']; subst. cbn [forM] in Hm. apply bind_ret_inv in Hm as (m1 & E1 & Hm).
    unfold add_pattern in E1. apply bind_ret_inv in E1 as (d & Ed & Ep).
    pose proof (push_holds OK H0 He Ed Ep) as H1. pose proof (scores_of Ed Ep) as S1.
    destruct (IH _ _ _ H1 Hl' Hm) as [A B]. cbn [map]. rewrite <- app_assoc in A. split; [exact A|].
    rewrite B, S1, <- app_assoc. reflexivity.
Qed.
Lemma built_total sym b l : sym_ok sym -> forall m0 ps0, holds sym b ps0 m0 ->
  Forall (fun e => pattern_ok sym (fst (fst e)) /\ bells_below sym b (fst (fst e))) l ->
  exists m, forM l (add_pattern sym) m0 = Ret m.
Proof.
  intros OK. induction l as [|e l IH]; intros m0 ps0 H0 Hl; [cbn; eauto|].
  inversion Hl as [|? ? [He Hb] Hl']; subst.
  destruct (@push_total sym b ps0 m0 _ (snd (fst e)) (snd e) OK H0 He Hb) as (d & m1 & Ed & Ep).
  pose proof (push_holds OK H0 He Ed Ep) as H1. destruct (IH _ _ H1 Hl') as [m Em]. exists m.
  cbn [forM]. unfold add_pattern at 1. rewrite Ed. cbn [bind]. rewrite Ep. exact Em.
Qed.

(* ---- matches1 and matches ---- *)
Lemma fits1_fits sym p r w : fits1 sym p r w -> fits sym p r w.
Proof. induction 1; econstructor; eauto. Qed.
Lemma fits_nostar sym p s w : fits sym p s w -> has_star p = false -> fits1 sym p s w /\ length s = width p.
Proof.
  induction 1; unfold has_star in *; cbn [existsb is_star orb]; intros Hs;
    try (destruct (IHfits Hs) as [A B]; split; [econstructor; eauto|cbn [length]; rewrite width_cons; cbn; lia]).
  - split; [constructor|reflexivity].
  - discriminate.
Qed.
Lemma last_star l : has_star l = true -> exists a q, l = a ++ AnyBells :: q /\ has_star q = false.
Proof.
  induction l as [|z l IH]; unfold has_star in *; cbn [existsb]; intros Hl; [discriminate|].
  destruct (existsb is_star l) eqn:El.
  - destruct (IH eq_refl) as (a & q & -> & Hq). exists (z :: a), q. auto.
  - destruct z; try discriminate. exists [], l. auto.
Qed.
(* one *, not all bells named after it *)
Lemma fits_short sym p : (forall a q, p = a ++ AnyBells :: q -> q <> [] -> has_star q = false -> has_star a = false) ->
  forall r w, width p < length r \/ (exists a, p = a ++ [AnyBells]) \/ has_star p = false -> fits sym p r w -> fits1 sym p r w.
Proof.
  induction p as [|t p IH]; intros H1 r w Hw F; [inversion F; constructor|].
  assert (H1' : forall a q, p = a ++ AnyBells :: q -> q <> [] -> has_star q = false -> has_star a = false).
  { intros a q E Hq Hs. specialize (H1 (t :: a) q ltac:(now rewrite E) Hq Hs). unfold has_star in *. cbn [existsb] in H1. now apply orb_false_iff in H1. }
  assert (Hsub : forall s : list nat, is_star t = false -> S (length s) = length r ->
     width p < length s \/ (exists a, p = a ++ [AnyBells]) \/ has_star p = false).
  { intros s Hst Hl. destruct Hw as [Hw|[[a Ha]|Hs]].
    - left. rewrite width_cons, Hst in Hw. lia.
    - destruct a as [|t' a]; cbn in Ha; injection Ha as -> Ha; [subst; discriminate|]. right. left. eauto.
    - right. right. unfold has_star in *. cbn [existsb] in Hs. now apply orb_false_iff in Hs. }
  inversion F as [|c x q s v Hn F' E1 E2 E3|x q s v F' E1 E2 E3|c l x q s v Hc Hn F' E1 E2 E3|u q s v F' E1 E2 E3]; subst.
  - constructor; [exact Hn|]. apply IH; [assumption|apply Hsub; auto|assumption].
  - constructor. apply IH; [assumption|apply Hsub; auto|assumption].
  - econstructor; [exact Hc|exact Hn|]. apply IH; [assumption|apply Hsub; auto|assumption].
  - destruct p as [|t' p'] eqn:Ep.
    + inversion F'; subst. constructor; [congruence|constructor].
    + rewrite <- Ep in *. assert (Hpn : p <> []) by congruence.
      destruct (has_star p) eqn:Hs.
      * constructor; [congruence|]. apply IH; auto. right. left.
        destruct Hw as [Hw|[[a Ha]|K]]; [|destruct a as [|? a]; cbn in Ha; [congruence|injection Ha as _ Ha; eauto]|discriminate K].
        (* the last * of p is followed by nothing, for before it there is a * *)
        destruct (last_star Hs) as (a' & q' & Ea & Hq). destruct q' as [|y q']; [now exists a'|]. exfalso.
        assert (K : has_star (AnyBells :: a') = false).
        { eapply (H1 _ (y :: q')); [now rewrite Ea|discriminate|exact Hq]. }
        discriminate K.
      * destruct (fits_nostar F' Hs) as [F1 Ls]. constructor; [|exact F1].
        intros _ _ ->. destruct Hw as [Hw|[[a Ha]|K]].
        -- rewrite width_cons in Hw. cbn in Hw. lia.
        -- destruct a as [|? a]; cbn in Ha; [congruence|]. injection Ha as _ Ha. rewrite Ha in Hs. unfold has_star in Hs.
           rewrite existsb_app in Hs. cbn in Hs. rewrite orb_true_r in Hs. discriminate.
        -- discriminate K.
Qed.
