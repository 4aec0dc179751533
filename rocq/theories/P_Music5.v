(* P_Music5.v - histories of a music object; runs; totals. *)
From Verif Require Import Base M_Bell M_Change M_Math M_Row M_Music Spec_Row Spec_Music Spec_Music2 P_Bell P_Music P_Music2 P_Music3 P_Music4.
Set Implicit Arguments.
Unset Strict Implicit.
Open Scope nat_scope.

Lemma matches1_matches sym b p r w : open_ended b p -> length r = b -> matches1 sym p r w <-> matches sym p r w.
Proof.
  intros Ho Hr. unfold matches1, matches. split; [apply fits1_fits|]. destruct Ho as [Hs|[[a ->]|(Hw & a & q & -> & Ha & Hq)]].
  - rewrite Hs. apply fits_short; [|right; left; eauto].
    intros a q E Hq Hqs. destruct (@exists_last _ q Hq) as (q' & y & ->).
    change (AnyBells :: q' ++ [y]) with ((AnyBells :: q') ++ [y]) in E. rewrite app_assoc in E.
    apply app_inj_tail in E as [-> <-]. unfold has_star in Hqs. rewrite existsb_app in Hqs. cbn in Hqs.
    rewrite orb_true_r in Hqs. discriminate.
  - assert (Hst : has_star (a ++ [AnyBells]) = true) by (unfold has_star; rewrite existsb_app; cbn; apply orb_true_r).
    rewrite Hst. apply fits_short; [|right; left; eauto].
    intros a' q E Hq Hqs. destruct (@exists_last _ q Hq) as (q' & y & ->).
    change (AnyBells :: q' ++ [y]) with ((AnyBells :: q') ++ [y]) in E. rewrite app_assoc in E.
    apply app_inj_tail in E as [-> <-]. unfold has_star in Hqs. rewrite existsb_app in Hqs. cbn in Hqs.
    rewrite orb_true_r in Hqs. discriminate.
  - assert (Hst : has_star (a ++ AnyBells :: q) = true) by (unfold has_star; rewrite existsb_app; cbn; apply orb_true_r).
    rewrite Hst. apply fits_short; [|left; lia].
    (* both are split at a * with none after *)
    intros a' q' E _ Hq'. enough (a' = a) by now subst.
    clear -E Hq Hq' Ha. revert a E Ha. induction a' as [|x a' IH]; intros [|y a] E Ha; cbn in E; auto.
    + injection E as Ey E. subst y. unfold has_star in Ha. discriminate.
    + injection E as Ex E. subst q. unfold has_star in Hq. rewrite existsb_app in Hq. cbn in Hq. rewrite orb_true_r in Hq. discriminate.
    + injection E as Ex E. subst y. unfold has_star in Ha. cbn [existsb] in Ha. apply orb_false_iff in Ha as [_ Ha]. f_equal. now apply IH.
Qed.

(* ---- histories ---- *)
Section Hist.
Variables (sym : symtab) (b : nat).
Definition pats (l : list (pattern * Z * Z)) : list pattern := map (fun e => fst (fst e)) l.
Definition scores_kept (l : list (pattern * Z * Z)) (m : music) : Prop :=
  forall k p sh sb d, nth_error l k = Some (p, sh, sb) -> nth_error (mu_info m) k = Some d -> md_scoreh d = sh /\ md_scoreb d = sb.

Hypothesis OK : sym_ok sym.
Notation history := (history sym b).

Lemma step_desc m junk r back m' ok ps : holds sym b ps m -> process_row junk m r back = Ret (m', ok) ->
  holds sym b ps m' /\ forall k d, nth_error (mu_info m) k = Some d -> exists d', nth_error (mu_info m') k = Some d' /\ same_desc d d'.
Proof using OK.
  intros H E. destruct (@process_row_spec sym b ps m junk r back OK H) as (m1 & ok1 & E1 & H1 & _ & K).
  rewrite E1 in E. injection E as <- <-. split; [exact H1|]. intros k d Hd.
  destruct (nth_error ps k) as [p|] eqn:Ep.
  - destruct (K k p d Ep Hd) as (d' & Hd' & (C & _) & _). eauto.
  - apply nth_error_None in Ep. destruct H as (_ & L & _). assert (k < length (mu_info m)) by (apply nth_error_Some; congruence). lia.
Qed.
Lemma rows_desc junk ps rows : forall m back m' back', holds sym b ps m -> forM rows (rows_step junk) (m, back) = Ret (m', back') ->
  holds sym b ps m' /\ forall k d, nth_error (mu_info m) k = Some d -> exists d', nth_error (mu_info m') k = Some d' /\ same_desc d d'.
Proof using OK.
  induction rows as [|r rows IH]; intros m back m' back' H E; cbn [forM] in E.
  - injection E as <- <-. split; [exact H|]. intros k d Hd. exists d. split; [exact Hd|repeat split].
  - apply bind_ret_inv in E as ([m1 bk] & E1 & E). unfold rows_step in E1. cbn [fst snd] in E1.
    apply bind_ret_inv in E1 as ([m2 ok] & E2 & E1). injection E1 as <- <-.
    destruct (step_desc H E2) as [H2 K2]. destruct (IH _ _ _ _ H2 E) as [H3 K3]. split; [exact H3|].
    intros k d Hd. destruct (K2 k d Hd) as (d2 & Hd2 & S2). destruct (K3 k d2 Hd2) as (d3 & Hd3 & S3).
    exists d3. split; [exact Hd3|]. unfold same_desc in *. intuition congruence.
Qed.
Lemma process_rows_step junk m rows back m' : process_rows junk m rows back = Ret m' <->
  exists back', forM rows (rows_step junk) (reset_music m, back) = Ret (m', back').
Proof using.
  unfold process_rows. change (fun (st : music * bool) (r : row) => _) with (rows_step junk). split.
  - intros E. apply bind_ret_inv in E as ([m1 bk] & E1 & E). injection E as <-. eauto.
  - intros [bk ->]. reflexivity.
Qed.
Lemma history_holds l m : history l m -> holds sym b (pats l) m /\ scores_kept l m.
Proof using OK.
  induction 1 as [|l m p sh sb d m' H [I S] Hp Ed Ep|l m junk r back m' ok H [I S] Hr Hnd E|l m junk rows back m' H [I S] Hr E|l m H [I S]].
  - split; [apply empty_holds|]. intros k p sh sb d E. destruct k; discriminate.
  - pose proof (push_holds OK I Hp Ed Ep) as H'. pose proof (scores_of Ed Ep) as Sc. split.
    + unfold pats. rewrite map_app. exact H'.
    + intros k p0 sh0 sb0 d0 Hk Hd. rewrite Sc in Hd.
      assert (L : length (mu_info m) = length l) by (destruct I as (_ & L & _); unfold pats in L; now rewrite map_length in L).
      destruct (Nat.lt_ge_cases k (length l)) as [K|K].
      * rewrite nth_error_app1 in Hk, Hd by lia. eauto.
      * rewrite nth_error_app2 in Hk, Hd by lia. rewrite L in Hd. destruct (k - length l) as [|j]; cbn in Hk, Hd.
        -- injection Hk as <- <- <-. injection Hd as <-. auto.
        -- destruct j; discriminate.
  - destruct (step_desc I E) as [H' K]. split; [exact H'|]. intros k p sh sb d Hk Hd.
    destruct (nth_error (mu_info m) k) as [d0|] eqn:E0.
    + destruct (K k d0 E0) as (d' & Hd' & S'). rewrite Hd in Hd'. injection Hd' as <-. destruct (S _ _ _ _ _ Hk E0). unfold same_desc in S'. intuition congruence.
    + apply nth_error_None in E0. destruct I as (_ & L & _). unfold pats in L. rewrite map_length in L.
      assert (k < length l) by (apply nth_error_Some; congruence). lia.
  - apply process_rows_step in E as [bk E]. destruct (rows_desc (reset_holds I) E) as [H' K]. split; [exact H'|].
    intros k p sh sb d Hk Hd. destruct (nth_error (mu_info m) k) as [d0|] eqn:E0.
    + destruct (K k (md_clear d0)) as (d' & Hd' & S'). { cbn. now rewrite (map_nth_error md_clear k _ E0). }
      rewrite Hd in Hd'. injection Hd' as <-. destruct (S _ _ _ _ _ Hk E0). unfold same_desc in S'. cbn in S'. intuition congruence.
    + apply nth_error_None in E0. destruct I as (_ & L & _). unfold pats in L. rewrite map_length in L.
      assert (k < length l) by (apply nth_error_Some; congruence). lia.
  - split; [now apply reset_holds|]. intros k p sh sb d Hk Hd. cbn in Hd.
    destruct (nth_error (mu_info m) k) as [d0|] eqn:E0.
    + rewrite (map_nth_error md_clear k _ E0) in Hd. injection Hd as <-. cbn. eauto.
    + apply nth_error_None in E0. assert (nth_error (map md_clear (mu_info m)) k = None) by (apply nth_error_None; rewrite map_length; lia). congruence.
Qed.

Lemma nth_pats l k p sh sb : nth_error l k = Some (p, sh, sb) -> nth_error (pats l) k = Some p.
Proof using. intros H. unfold pats. erewrite map_nth_error; [|exact H]. reflexivity. Qed.

(* processing some rows counts those that match *)
Lemma history_counts l m : history l m -> forall junk rows back, Forall (fun r => length r = b /\ NoDup r) rows ->
  exists m', process_rows junk m rows back = Ret m' /\ length (mu_info m') = length l /\
    forall k p sh sb, nth_error l k = Some (p, sh, sb) -> clean sym b p ->
      exists d h bk, nth_error (mu_info m') k = Some d /\ md_pat d = text p /\ md_scoreh d = sh /\ md_scoreb d = sb /\
        tally (fun r => exists w, matches1 sym p r w) rows back h bk /\
        md_counth d = u32 (Z.of_nat h) /\ md_countb d = u32 (Z.of_nat bk).
Proof using OK.
  intros H junk rows back Hr. destruct (history_holds H) as [I S].
  destruct (@rows_spec sym b (pats l) junk OK rows _ back (reset_holds I) Hr) as (m' & bk & E & H' & K).
  exists m'. split; [apply process_rows_step; eauto|]. split.
  { destruct H' as (_ & L & _). rewrite L. unfold pats. apply map_length. }
  intros k p sh sb Hk Hc. pose proof (nth_pats Hk) as Hp.
  destruct (nth_error (mu_info m) k) as [d0|] eqn:E0.
  2:{ apply nth_error_None in E0. destruct I as (_ & L & _). unfold pats in L. rewrite map_length in L.
      assert (k < length l) by (apply nth_error_Some; congruence). lia. }
  destruct (K k p (md_clear d0) Hp Hc) as (d & h & bk2 & Hd & Sd & T & Eh & Eb).
  { cbn. now rewrite (map_nth_error md_clear k _ E0). }
  destruct (S _ _ _ _ _ Hk E0) as [S1 S2]. exists d, h, bk2. split; [exact Hd|].
  destruct Sd as (A1 & A2 & A3). cbn in A1, A2, A3, Eh, Eb.
  destruct I as (_ & _ & _ & Hpat & _). rewrite A1, A2, A3, (Hpat k p d0 Hp E0). repeat split; auto.
Qed.

Lemma any_ev_map A B (f : A -> B) l : any_ev (map f l) = any_ev l.
Proof using. unfold any_ev. now rewrite map_length. Qed.
Lemma pats_events_any junk r ps : any_ev (pats_events sym b junk r ps) = true <->
  exists k p, nth_error ps k = Some p /\ ways sym b junk r p 0 [] <> [].
Proof using.
  rewrite <- (rev_involutive ps). induction (rev ps) as [|p q IH]; cbn [rev].
  - cbn. split; [discriminate|]. intros (k & p & E & _). destruct k; discriminate.
  - rewrite pats_events_snoc, any_ev_app, orb_true_iff, IH, any_ev_map. split.
    + intros [(k & p' & E & N)|N].
      * exists k, p'. split; [|exact N]. rewrite nth_error_app1; [exact E|]. apply nth_error_Some. congruence.
      * exists (length (rev q)), p. split; [rewrite nth_error_app2, Nat.sub_diag by lia; reflexivity|]. intros K. now rewrite K in N.
    + intros (k & p' & E & N). destruct (Nat.lt_ge_cases k (length (rev q))) as [K|K].
      * left. rewrite nth_error_app1 in E by exact K. eauto.
      * right. rewrite nth_error_app2 in E by lia. destruct (k - length (rev q)) as [|j]; cbn in E; [|destruct j; discriminate].
        injection E as <-. destruct (ways sym b junk r p 0 []); [congruence|reflexivity].
Qed.

Lemma history_row l m : history l m -> Forall (fun e => clean sym b (fst (fst e))) l ->
  forall junk r back, length r = b -> NoDup r ->
  exists m' ok, process_row junk m r back = Ret (m', ok) /\
    (ok = true <-> exists p sh sb w, In (p, sh, sb) l /\ matches1 sym p r w) /\
    forall k p sh sb d, nth_error l k = Some (p, sh, sb) -> nth_error (mu_info m) k = Some d ->
      exists d', nth_error (mu_info m') k = Some d' /\ md_pat d' = md_pat d /\ md_scoreh d' = sh /\ md_scoreb d' = sb /\
        ((exists w, matches1 sym p r w /\ md_last d' = w /\
           md_counth d' = u32 (md_counth d + if back then 0 else 1) /\ md_countb d' = u32 (md_countb d + if back then 1 else 0)) \/
         ((forall w, ~ matches1 sym p r w) /\ md_last d' = [] /\ md_counth d' = md_counth d /\ md_countb d' = md_countb d)).
Proof using OK.
  intros H Hc junk r back Hr Hnd. destruct (history_holds H) as [I S].
  destruct (@process_row_spec sym b (pats l) m junk r back OK I) as (m' & ok & E & H' & Ok & K).
  exists m', ok. split; [exact E|]. rewrite Forall_forall in Hc.
  assert (Hin : forall k p, nth_error (pats l) k = Some p -> exists sh sb, nth_error l k = Some (p, sh, sb)).
  { intros k p Hp. unfold pats in Hp. destruct (nth_error l k) as [[[p' sh] sb]|] eqn:El.
    - erewrite map_nth_error in Hp by exact El. cbn in Hp. injection Hp as ->. eauto.
    - apply nth_error_None in El. assert (nth_error (map (fun e : pattern * Z * Z => fst (fst e)) l) k = None) by (apply nth_error_None; rewrite map_length; lia). congruence. }
  split.
  - rewrite Ok, pats_events_any. split.
    + intros (k & p & Hp & N). destruct (Hin k p Hp) as (sh & sb & El). pose proof (nth_error_In _ _ El) as J.
      destruct (@good_ways sym b junk r p OK (Hc _ J) Hr Hnd) as [[W _]|(w & W & M)]; [congruence|].
      exists p, sh, sb, w. split; [exact J|now apply M].
    + intros (p & sh & sb & w & J & M). destruct (In_nth_error _ _ J) as [k El]. exists k, p. split; [exact (nth_pats El)|].
      destruct (@good_ways sym b junk r p OK (Hc _ J) Hr Hnd) as [[W N]|(w' & W & _)]; [now destruct (N w)|congruence].
  - intros k p sh sb d El Hd. destruct (K k p d (nth_pats El) Hd) as (d' & Hd' & ((D1 & D2 & D3) & C1 & C2) & L1 & L0).
    destruct (S _ _ _ _ _ El Hd) as [S1 S2]. exists d'. split; [exact Hd'|]. split; [exact D1|]. split; [congruence|]. split; [congruence|].
    assert (Rg : ranged d) by (destruct I as (_ & _ & Rg & _); rewrite Forall_forall in Rg; apply Rg; eapply nth_error_In; eauto).
    destruct (@good_ways sym b junk r p OK (Hc _ (nth_error_In _ _ El)) Hr Hnd) as [[W N]|(w & W & M)].
    + right. split; [exact N|]. split; [now apply L0|]. rewrite W in C1, C2. cbn [length Z.of_nat] in C1, C2.
      destruct Rg as [R1 R2]. destruct back; rewrite C1, C2, !Z.add_0_r, ?u32_id; auto.
    + left. exists w. split; [now apply M|]. split; [now apply L1|]. rewrite W in C1, C2. cbn [length] in C1, C2.
      destruct Rg as [R1 R2]. change (Z.of_nat 1) with 1%Z in *. destruct back; rewrite C1, C2, !Z.add_0_r; split; auto; symmetry; now apply u32_id.
Qed.

Lemma history_push_total l m p sh sb : history l m -> pattern_ok sym p -> bells_below sym b p ->
  exists d m', md_make sym (text p) sh sb = Ret d /\ music_push sym m d = Ret m' /\ history (l ++ [(p, sh, sb)]) m'.
Proof using OK.
  intros H Hp Hb. destruct (history_holds H) as [I _]. destruct (push_total sh sb OK I Hp Hb) as (d & m' & Ed & Ep).
  exists d, m'. split; [exact Ed|]. split; [exact Ep|]. eapply hist_push; eauto.
Qed.
End Hist.
