(* P_Music2.v - the ways a pattern is matched are the ways it fits. *)
From Verif Require Import Base M_Bell M_Change M_Math M_Row M_Music Spec_Row Spec_Music Spec_Music2 P_Bell P_Music.
Set Implicit Arguments.
Unset Strict Implicit.
Open Scope nat_scope.

Definition hat (p : pattern) : pattern := if has_star p then p else p ++ [AnyBells].

Section Fit.
Variables (sym : symtab) (b junk : nat) (r : row).
Hypothesis OK : sym_ok sym.
Hypothesis Hr : length r = b.
Notation ways := (ways sym b junk r).
Notation fits1 := (fits1 sym).
Notation bell_of := (bell_of sym).

Lemma rget_in pos d : pos < b -> rget junk r pos = nth pos r d.
Proof using Hr. intros H. unfold rget. apply nth_indep. unfold row in *. lia. Qed.
Lemma skipn_cons pos : pos < b -> skipn pos r = rget junk r pos :: skipn (S pos) r.
Proof using Hr.
  clear OK. intros H. unfold rget. revert pos b Hr H. unfold row in *. induction r as [|x l IH]; intros pos n E H; cbn in E; [lia|].
  destruct pos as [|pos]; [reflexivity|]. cbn [skipn nth]. apply (IH pos (n - 1)); lia.
Qed.
Lemma skipn_taken k : forall pos, pos + k <= b -> skipn pos r = taken junk r pos k ++ skipn (pos + k) r.
Proof using Hr.
  induction k as [|k IH]; intros pos H; [now rewrite Nat.add_0_r|].
  rewrite skipn_cons by lia. rewrite taken_S. cbn [app]. f_equal. rewrite (IH (S pos)) by lia.
  now rewrite <- plus_n_Sm.
Qed.
Lemma taken_length pos k : length (taken junk r pos k) = k.
Proof. unfold taken. now rewrite map_length, seq_length. Qed.

Lemma hat_cons t p : is_star t = false -> hat (t :: p) = t :: hat p.
Proof. intros H. unfold hat, has_star. cbn [existsb]. rewrite H. cbn [orb]. destruct (existsb is_star p); reflexivity. Qed.

Lemma width_cons t p : width (t :: p) = (if is_star t then 0 else 1) + width p.
Proof. unfold width. cbn [filter]. destruct (is_star t); reflexivity. Qed.

Lemma fits1_width p s u : fits1 p s u -> width p <= length s.
Proof.
  induction 1; rewrite ?width_cons; cbn [is_star]; rewrite ?app_length; cbn [length]; try lia. cbn. lia.
Qed.
Lemma fits1_nostar p s u : fits1 p s u -> has_star p = false -> length s = width p.
Proof.
  induction 1; intros Hs; rewrite ?width_cons; cbn [is_star has_star existsb orb] in *; cbn [length]; auto.
  discriminate.
Qed.
Lemma fits1_exact p : forall s u, has_star p = false -> fits1 (p ++ [AnyBells]) s u -> length s = width p -> fits1 p s u.
Proof.
  induction p as [|t p IH]; intros s u Hs H Hl; cbn [app] in H.
  - cbn in Hl. apply length_zero_iff_nil in Hl. subst s. inversion H as [| | | |u1 p0 s0 w1 Hn F1 E1 E2 E3]; subst. inversion F1; subst.
    apply app_eq_nil in E2 as [-> _]. constructor.
  - cbn [has_star existsb] in Hs. apply orb_false_iff in Hs as [Ht Hs]. rewrite width_cons, Ht in Hl.
    inversion H; subst; cbn [length] in Hl; try (econstructor; eauto; apply IH; auto; lia). discriminate Ht.
Qed.
Lemma fits1_extend p s u : fits1 p s u -> has_star p = false -> forall v, fits1 (p ++ [AnyBells]) (s ++ v) (u ++ v).
Proof.
  induction 1; intros Hs v; cbn [has_star existsb is_star orb] in Hs; cbn [app]; try (econstructor; eauto; fail).
  - rewrite <- (app_nil_r v). constructor; [congruence|constructor].
  - discriminate.
Qed.

Lemma in_ways_pos p pos w v : p <> [] -> In v (ways p pos w) -> pos <= b.
Proof. intros Hp H. destruct (Nat.le_gt_cases pos b); auto. rewrite ways_over in H; auto. destruct H. Qed.

Lemma has_star_ne p : has_star p = true -> p <> [].
Proof. destruct p; cbn; congruence. Qed.

Lemma ways_sound p : pattern_ok sym p -> forall pos w v, pos <= b -> (has_star p = false -> pos + width p <= b) ->
  In v (ways p pos w) -> exists u, v = w ++ u /\ fits1 (hat p) (skipn pos r) u.
Proof using OK Hr.
  induction 1 as [|t p Ht Hok IH]; intros pos w v Hpos Hw Hin.
  - cbn in Hin. destruct Hin as [<-|[]]. exists (skipn pos r). split; [reflexivity|].
    unfold hat. cbn. rewrite <- (app_nil_r (skipn pos r)). constructor; [congruence|constructor].
  - assert (Bf : (b <? pos) = false) by (apply Nat.ltb_ge; lia). cbn [P_Music.ways] in Hin. rewrite Bf in Hin.
    assert (Nx : is_star t = false -> forall w' v, In v (ways p (S pos) w') ->
      pos < b /\ exists u, v = w' ++ u /\ fits1 (hat p) (skipn (S pos) r) u).
    { intros Ns w' v' Hv. assert (S pos <= b).
      { destruct (has_star p) eqn:Hs.
        - eapply in_ways_pos; [|exact Hv]. now apply has_star_ne.
        - rewrite width_cons, Ns in Hw. cbn [has_star existsb] in Hw. rewrite Ns in Hw. specialize (Hw Hs). lia. }
      split; [lia|]. apply IH; auto. intros Hs. rewrite width_cons, Ns in Hw. cbn [has_star existsb] in Hw. rewrite Ns in Hw.
      specialize (Hw Hs). lia. }
    destruct t as [c| |l|]; cbn [item_ok] in Ht.
    + destruct (Nat.eqb_spec (bell_of c) (rget junk r pos)) as [E|]; [|destruct Hin].
      destruct (Nx eq_refl _ _ Hin) as (Hp & u & -> & F). exists u. split; [reflexivity|].
      rewrite (@hat_cons (Named c)) by reflexivity. rewrite skipn_cons by exact Hp. constructor; [|exact F].
      rewrite <- E. now apply names_bell_of.
    + destruct (Nx eq_refl _ _ Hin) as (Hp & u & -> & F). exists (rget junk r pos :: u). split; [now rewrite <- app_assoc|].
      rewrite (@hat_cons AnyBell) by reflexivity. rewrite skipn_cons by exact Hp. constructor. exact F.
    + apply in_concat in Hin as (l' & Hl' & Hin). apply in_map_iff in Hl' as (c & <- & Hc).
      destruct (Nat.eqb_spec (bell_of c) (rget junk r pos)) as [E|]; [|destruct Hin].
      destruct (Nx eq_refl _ _ Hin) as (Hp & u & -> & F). exists u. split; [reflexivity|].
      rewrite (@hat_cons (OneOf l)) by reflexivity. rewrite skipn_cons by exact Hp. econstructor; [exact Hc| |exact F].
      rewrite <- E. apply names_bell_of; auto. rewrite Forall_forall in Ht. auto.
    + unfold hat. cbn [has_star existsb is_star orb]. clear Nx.
      destruct (Nat.eqb_spec (length p) 0) as [Ep|Ep].
      * apply length_zero_iff_nil in Ep. subst p. destruct Hin as [<-|[]]. exists (skipn pos r). split; [reflexivity|].
        rewrite <- (app_nil_r (skipn pos r)). constructor; [congruence|constructor].
      * destruct (has_star p) eqn:Hs.
        -- apply in_concat in Hin as (l' & Hl' & Hin). apply in_map_iff in Hl' as (k & <- & _).
           assert (Hk : pos + k <= b) by (eapply in_ways_pos; [|exact Hin]; now apply has_star_ne).
           destruct (IH _ _ _ Hk ltac:(discriminate) Hin) as (u & -> & F).
           exists (taken junk r pos k ++ u). split; [now rewrite app_assoc|].
           rewrite (skipn_taken Hk). constructor; [congruence|]. unfold hat in F. now rewrite Hs in F.
        -- destruct (Nat.leb_spec (pos + width p + 1) b) as [L|]; [|destruct Hin].
           destruct (IH (b - width p) _ _ (Nat.le_sub_l _ _) ltac:(lia) Hin) as (u & -> & F).
           exists (taken junk r pos (b - width p - pos) ++ u). split; [now rewrite app_assoc|].
           rewrite (@skipn_taken (b - width p - pos) pos) by lia.
           replace (pos + (b - width p - pos)) with (b - width p) by lia.
           constructor.
           ++ intros _ _ K. apply (f_equal (@length nat)) in K. rewrite taken_length in K. cbn in K. lia.
           ++ apply fits1_exact; auto.
              ** unfold hat in F. now rewrite Hs in F.
              ** unfold row in *. rewrite skipn_length. lia.
Qed.

Lemma suffix_skipn pos u s : pos <= b -> skipn pos r = u ++ s -> pos + length u <= b /\ u = taken junk r pos (length u) /\ s = skipn (pos + length u) r.
Proof using Hr.
  intros Hp E. assert (Hl : pos + length u <= b).
  { apply (f_equal (@length nat)) in E. rewrite skipn_length, app_length in E. unfold row in *. lia. }
  split; [exact Hl|]. rewrite (skipn_taken Hl) in E.
  apply app_inj_pivot || idtac.
  assert (G : forall (a a' c c' : list nat), length a = length a' -> a ++ c = a' ++ c' -> a = a' /\ c = c').
  { induction a as [|x a IH]; destruct a'; cbn; intros c c' L K; try lia; [auto|]. injection K as -> K. destruct (IH a' c c'); auto. subst. auto. }
  destruct (G _ _ _ _ (taken_length pos (length u)) E) as [<- <-]. rewrite taken_length. auto.
Qed.

Lemma ways_complete p : pattern_ok sym p -> reach b p -> forall pos w u, pos <= b ->
  fits1 (hat p) (skipn pos r) u -> In (w ++ u) (ways p pos w).
Proof using OK Hr.
  induction 1 as [|t p Ht Hok IH]; intros Hreach pos w u Hpos F.
  - unfold hat in F. cbn in F. left. f_equal. inversion F as [| | | |u1 p0 s0 w1 Hn F1 E1 E2 E3]; subst. inversion F1; subst. rewrite app_nil_r in *. congruence.
  - assert (Bf : (b <? pos) = false) by (apply Nat.ltb_ge; lia). cbn [P_Music.ways]. rewrite Bf.
    assert (Sp : forall x s, skipn pos r = x :: s -> pos < b /\ x = rget junk r pos /\ s = skipn (S pos) r).
    { intros x s E. assert (pos < b).
      { destruct (Nat.eq_dec pos b) as [->|]; [|lia]. rewrite skipn_all2 in E by (unfold row in *; lia). discriminate. }
      split; [assumption|]. rewrite skipn_cons in E by assumption. injection E as <- <-. auto. }
    destruct t as [c| |l|]; cbn [item_ok reach] in *.
    + rewrite hat_cons in F by reflexivity. inversion F; subst.
      match goal with E : _ :: _ = skipn _ _ |- _ => destruct (Sp _ _ (eq_sym E)) as (Hp & -> & ->) end.
      match goal with N : names _ _ _ |- _ => unfold names in N; unfold P_Music.bell_of; rewrite N end.
      rewrite Nat.eqb_refl. apply IH; auto; lia.
    + rewrite hat_cons in F by reflexivity. inversion F; subst.
      match goal with E : _ :: _ = skipn _ _ |- _ => destruct (Sp _ _ (eq_sym E)) as (Hp & -> & ->) end.
      change (rget junk r pos :: w0) with ([rget junk r pos] ++ w0). rewrite app_assoc. apply IH; auto; lia.
    + rewrite hat_cons in F by reflexivity. inversion F; subst.
      match goal with E : _ :: _ = skipn _ _ |- _ => destruct (Sp _ _ (eq_sym E)) as (Hp & -> & ->) end.
      apply in_concat. eexists. split; [apply in_map; eassumption|]. cbn beta.
      match goal with N : names _ _ _ |- _ => unfold names in N; unfold P_Music.bell_of; rewrite N end.
      rewrite Nat.eqb_refl. apply IH; auto; lia.
    + unfold hat in F. cbn [has_star existsb is_star orb] in F.
      inversion F as [| | | |u1 p0 s w1 Hne F1 E1 E2 E3]; subst p0 u.
      destruct (suffix_skipn Hpos (eq_sym E2)) as (Hk & Eu & Es). rewrite Es in F1.
      set (k := length u1) in *.
      destruct (Nat.eqb_spec (length p) 0) as [Ep|Ep].
      * apply length_zero_iff_nil in Ep. subst p. inversion F1 as [E4 E5 E6| | | |]. left. f_equal. rewrite <- Es in E5. now rewrite <- E5.
      * destruct (has_star p) eqn:Hs.
        -- apply in_concat. exists (ways p (pos + k) (w ++ taken junk r pos k)). split.
           ++ apply in_map_iff. exists k. split; [reflexivity|]. apply in_seq. split; [lia|].
              destruct Hreach as [Hreach _]. specialize (Hreach eq_refl).
              change (length (text (AnyBells :: p))) with (S (length (text p))) in Hreach.
              pose proof (fits1_width F1) as Hwd. rewrite skipn_length in Hwd. unfold row in *.
              unfold kmax. destruct (Nat.leb_spec pos (S (length (text p)))); lia.
           ++ rewrite app_assoc. rewrite Eu. apply IH; [tauto|lia|]. unfold hat. now rewrite Hs.
        -- assert (Hpn : p <> []) by (intros ->; cbn in Ep; lia).
           assert (Hlen : b - (pos + k) = width p).
           { pose proof (fits1_nostar F1 Hs) as E. rewrite skipn_length in E. unfold row in *. lia. }
           assert (0 < k).
           { specialize (Hne Hpn eq_refl). subst k. destruct u1; [congruence|cbn; lia]. }
           destruct (Nat.leb_spec (pos + width p + 1) b); [|lia].
           replace (b - width p) with (pos + k) by lia. replace (pos + k - pos) with k by lia.
           rewrite app_assoc, Eu. apply IH; [tauto|lia|]. unfold hat. rewrite Hs.
           rewrite <- (app_nil_r (skipn (pos + k) r)), <- (app_nil_r w1). now apply fits1_extend.
Qed.
End Fit.
