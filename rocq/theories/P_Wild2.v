(* P_Wild2.v - rows described by a pattern: how the counting steps divide them. *)
From Verif Require Import Base M_Bell M_Row M_Music M_Wild Spec_Row Spec_Music Spec_Music2 Spec_Wild P_Row P_Music P_Music2 P_Music4 P_Music6 P_Wild.
Set Implicit Arguments.
Unset Strict Implicit.
Open Scope nat_scope.

Section Desc.
Variable sym : symtab.
Variable b : nat.
Definition cl (p : pattern) : pattern := if has_star p then p else p ++ [AnyBells].
Lemma explicit_nostar p : explicit p -> has_star p = false.
Proof. induction 1 as [|t p Ht He IH]; [reflexivity|]. unfold has_star in *. cbn [existsb]. rewrite IH. destruct t; try contradiction; reflexivity. Qed.
Lemma cl_app p q : has_star p = false -> cl (p ++ q) = p ++ cl q.
Proof. intros H. unfold cl. rewrite has_star_app, H. cbn [orb]. destruct (has_star q); [reflexivity|]. now rewrite <- app_assoc. Qed.
Lemma cl_star p : has_star p = true -> cl p = p.
Proof. unfold cl. now intros ->. Qed.
Lemma width_app p q : width (p ++ q) = width p + width q.
Proof. unfold width. now rewrite filter_app, app_length. Qed.

Lemma fits_app p q r w : fits sym (p ++ q) r w <-> exists r1 w1 r2 w2, r = r1 ++ r2 /\ w = w1 ++ w2 /\ fits sym p r1 w1 /\ fits sym q r2 w2.
Proof.
  split.
  - revert r w. induction p as [|t p IH]; intros r w F.
    + exists [], [], r, w. repeat split; [constructor|exact F].
    + inversion F as [|c x p' r' w' Hx F'|x p' r' w' F'|c l x p' r' w' Hc Hx F'|u p' r' w' F']; subst;
        destruct (IH _ _ F') as (r1 & w1 & r2 & w2 & -> & -> & F1 & F2).
      * exists (x :: r1), w1, r2, w2. repeat split; [now constructor|exact F2].
      * exists (x :: r1), (x :: w1), r2, w2. repeat split; [now constructor|exact F2].
      * exists (x :: r1), w1, r2, w2. repeat split; [now apply fits_one with c|exact F2].
      * exists (u ++ r1), (u ++ w1), r2, w2. rewrite <- !app_assoc. repeat split; [now constructor|exact F2].
  - intros (r1 & w1 & r2 & w2 & -> & -> & F1 & F2). induction F1; cbn [app]; try (econstructor; eauto).
    + exact F2.
    + rewrite <- !app_assoc. now constructor.
Qed.
Lemma fits_len p r w : fits sym p r w -> width p <= length r /\ (has_star p = false -> length r = width p).
Proof.
  induction 1 as [|c x p r w Hx F [IH IH2]|x p r w F [IH IH2]|c l x p r w Hc Hx F [IH IH2]|u p r w F [IH IH2]];
    rewrite ?width_cons; cbn [is_star length]; unfold has_star in *; cbn [existsb is_star orb]; try (split; [lia|intros K; rewrite IH2 by exact K; lia]).
  - split; [cbn; lia|reflexivity].
  - rewrite app_length. split; [lia|discriminate].
Qed.
Lemma fits_quests n r w : fits sym (repeat AnyBell n) r w <-> length r = n /\ w = r.
Proof.
  revert r w. induction n as [|n IH]; intros r w; cbn [repeat].
  - split; [intros F; inversion F; auto|]. intros [H ->]. destruct r; [constructor|discriminate].
  - split.
    + intros F. inversion F as [| |x p' r' w' F'| |]; subst. apply IH in F'. destruct F' as [<- ->]. auto.
    + intros [H ->]. destruct r as [|x r]; [discriminate|]. constructor. apply IH. split; [now injection H|reflexivity].
Qed.
Lemma fits_star_inv p r w : fits sym (AnyBells :: p) r w <-> exists u r' w', r = u ++ r' /\ w = u ++ w' /\ fits sym p r' w'.
Proof.
  split; [intros F; inversion F; subst; eauto 6|]. intros (u & r' & w' & -> & -> & F). now constructor.
Qed.

Lemma quests_width i : width (repeat AnyBell i) = i.
Proof. induction i as [|i IH]; [reflexivity|]. cbn [repeat]. rewrite width_cons, IH. reflexivity. Qed.
Lemma quests_nostar i : has_star (repeat AnyBell i) = false.
Proof. induction i; auto. Qed.
Definition desc (p : pattern) (r : list nat) : Prop := is_row r /\ length r = b /\ exists w, fits sym p r w.
Lemma described_desc p r : described sym b p r <-> desc (cl p) r.
Proof. reflexivity. Qed.

Lemma desc_full p r : has_star p = false -> width p = b -> (desc (cl p) r <-> desc p r).
Proof.
  intros Hp Hw. unfold desc, cl. rewrite Hp. split; intros (HR & LR & w & F); (split; [exact HR|split; [exact LR|]]).
  - apply fits_app in F. destruct F as (r1 & w1 & r2 & w2 & -> & -> & F1 & F2). pose proof (proj2 (fits_len F1) Hp) as L.
    rewrite app_length in LR. destruct r2 as [|x r2]; [|cbn in LR; lia]. rewrite app_nil_r. eauto.
  - exists (w ++ []). apply fits_app. exists r, w, [], []. repeat split; [now rewrite app_nil_r|exact F|].
    apply fits_star_inv. exists [], [], []. repeat split; constructor.
Qed.
(* a * with n or fewer bells *)
Lemma desc_star d t r : has_star d = false -> width d + width t <= b ->
  (desc (d ++ AnyBells :: t) r <-> exists i, i <= b - (width d + width t) /\ desc (d ++ repeat AnyBell i ++ t) r).
Proof.
  intros Hd Hw. split.
  - intros (HR & LR & w & F). apply fits_app in F. destruct F as (r1 & w1 & r2 & w2 & -> & -> & F1 & F2).
    apply fits_star_inv in F2. destruct F2 as (u & r3 & w3 & -> & -> & F3). rewrite !app_length in LR.
    pose proof (proj2 (fits_len F1) Hd). pose proof (proj1 (fits_len F3)). exists (length u). split; [lia|].
    split; [exact HR|]. split; [rewrite !app_length; lia|]. exists (w1 ++ u ++ w3).
    apply fits_app. exists r1, w1, (u ++ r3), (u ++ w3). repeat split; [exact F1|]. apply fits_app. exists u, u, r3, w3. repeat split; [|exact F3].
    now apply fits_quests.
  - intros (i & Hi & HR & LR & w & F). split; [exact HR|]. split; [exact LR|]. apply fits_app in F. destruct F as (r1 & w1 & r2 & w2 & -> & -> & F1 & F2).
    apply fits_app in F2. destruct F2 as (u & w' & r3 & w3 & -> & -> & F2 & F3). apply fits_quests in F2. destruct F2 as [L ->].
    exists (w1 ++ u ++ w3). apply fits_app. exists r1, w1, (u ++ r3), (u ++ w3). repeat split; [exact F1|]. now constructor.
Qed.
Lemma desc_last_star d t r : has_star d = false -> has_star t = false -> width d + width t <= b ->
  (desc (d ++ AnyBells :: t) r <-> desc (d ++ repeat AnyBell (b - (width d + width t)) ++ t) r).
Proof.
  intros Hd Ht Hw. rewrite (@desc_star d t r Hd Hw). split.
  - intros (i & Hi & D). assert (i = b - (width d + width t)) as <-; [|exact D]. destruct D as (HR & LR & w & F).
    apply fits_len in F. destruct F as [_ L]. rewrite LR in L. rewrite !width_app in L.
    rewrite quests_width in L. specialize (L ltac:(now rewrite !has_star_app, Hd, Ht, quests_nostar)). lia.
  - intros D. exists (b - (width d + width t)). split; [lia|exact D].
Qed.
Lemma desc_two_stars d t r : desc (d ++ AnyBells :: AnyBells :: t) r <-> desc (d ++ AnyBells :: t) r.
Proof.
  unfold desc. split; intros (HR & LR & w & F); (split; [exact HR|split; [exact LR|]]); apply fits_app in F; destruct F as (r1 & w1 & r2 & w2 & -> & -> & F1 & F2);
    exists (w1 ++ w2); apply fits_app; exists r1, w1, r2, w2; (repeat split; [exact F1|]).
  - apply fits_star_inv in F2. destruct F2 as (u & r3 & w3 & -> & -> & F2). apply fits_star_inv in F2. destruct F2 as (u' & r4 & w4 & -> & -> & F2).
    rewrite !app_assoc. now constructor.
  - change r2 with ([] ++ r2). change w2 with ([] ++ w2). now constructor.
Qed.
Lemma desc_choice d l t r : desc (d ++ OneOf l :: t) r <-> exists c, In c l /\ desc (d ++ Named c :: t) r.
Proof.
  unfold desc. split.
  - intros (HR & LR & w & F). apply fits_app in F. destruct F as (r1 & w1 & r2 & w2 & -> & -> & F1 & F2).
    inversion F2 as [| | |c l' x p' r' w' Hc Hx F'|]; subst. exists c. split; [exact Hc|]. repeat split; auto. exists (w1 ++ w2).
    apply fits_app. exists r1, w1, (x :: r'), w2. repeat split; [exact F1|]. now constructor.
  - intros (c & Hc & HR & LR & w & F). repeat split; auto. apply fits_app in F. destruct F as (r1 & w1 & r2 & w2 & -> & -> & F1 & F2).
    inversion F2 as [|c' x p' r' w' Hx F'| | |]; subst. exists (w1 ++ w2).
    apply fits_app. exists r1, w1, (x :: r'), w2. repeat split; [exact F1|]. now apply fits_one with c.
Qed.
(* a named bell after a starless part is at a known place *)
Lemma desc_at d c t r : has_star d = false -> desc (d ++ Named c :: t) r -> exists x, names sym c x /\ nth_error r (width d) = Some x.
Proof.
  intros Hd (HR & LR & w & F). apply fits_app in F. destruct F as (r1 & w1 & r2 & w2 & -> & -> & F1 & F2).
  inversion F2 as [|c' x p' r' w' Hx F'| | |]; subst. exists x. split; [exact Hx|]. rewrite <- (proj2 (fits_len F1) Hd).
  rewrite nth_error_app2, Nat.sub_diag by lia. reflexivity.
Qed.
Lemma row_nodup r : is_row r -> NoDup r.
Proof. intros H. unfold is_row in H. rewrite H. apply seq_NoDup. Qed.
Lemma desc_twice d c t r : has_star d = false -> In (Named c) d -> ~ desc (d ++ Named c :: t) r.
Proof.
  intros Hd Hc D. apply in_split in Hc. destruct Hc as (d1 & d2 & ->).
  destruct (@desc_at _ _ _ _ Hd D) as (x & Hx & E1). rewrite <- app_assoc in D. cbn [app] in D.
  rewrite has_star_app in Hd. apply orb_false_iff in Hd. destruct Hd as [Hd1 Hd2].
  destruct (@desc_at _ _ _ _ Hd1 D) as (y & Hy & E2). assert (x = y) as <- by (unfold names in *; congruence).
  destruct D as (HR & LR & _). pose proof (row_nodup HR) as N. rewrite width_app, width_cons in E1. cbn [is_star] in E1.
  pose proof (NoDup_nth_error r) as [G _]. specialize (G N (width d1) (width d1 + (1 + width d2))).
  assert (width d1 < length r) by (apply nth_error_Some; congruence). specialize (G H ltac:(congruence)). lia.
Qed.
Lemma desc_choices_disjoint d c c' t t' r : has_star d = false -> desc (d ++ Named c :: t) r -> desc (d ++ Named c' :: t') r ->
  exists x, names sym c x /\ names sym c' x.
Proof.
  intros Hd D D'. destruct (@desc_at _ _ _ _ Hd D) as (x & Hx & E). destruct (@desc_at _ _ _ _ Hd D') as (y & Hy & E').
  exists x. split; [exact Hx|]. congruence.
Qed.
Lemma desc_shift_disjoint d q c t i j r : has_star d = false -> has_star q = false ->
  desc (d ++ repeat AnyBell i ++ q ++ Named c :: t) r -> desc (d ++ repeat AnyBell j ++ q ++ Named c :: t) r -> i = j.
Proof.
  intros Hd Hq D D'. rewrite !app_assoc in D, D'.
  assert (S : forall k, has_star ((d ++ repeat AnyBell k) ++ q) = false) by (intros k; now rewrite !has_star_app, Hd, Hq, quests_nostar).
  destruct (@desc_at _ _ _ _ (S i) D) as (x & Hx & E). destruct (@desc_at _ _ _ _ (S j) D') as (y & Hy & E').
  assert (x = y) as <- by (unfold names in *; congruence).
  destruct D as (HR & _). pose proof (row_nodup HR) as N. rewrite !width_app, !quests_width in E, E'.
  pose proof (NoDup_nth_error r) as [G _]. specialize (G N (width d + i + width q) (width d + j + width q)).
  assert (H : width d + i + width q < length r) by (apply nth_error_Some; congruence). specialize (G H ltac:(congruence)). lia.
Qed.
End Desc.
