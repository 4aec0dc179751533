(* P_Wild3.v - possible_matches counts the rows described. *)
From Verif Require Import Base M_Bell M_Row M_Music M_Wild Spec_Row Spec_Music Spec_Music2 Spec_Wild P_Row P_Music P_Music2 P_Music4 P_Music6 P_Wild P_Wild2.
Set Implicit Arguments.
Unset Strict Implicit.
Open Scope nat_scope.

Lemma u64_add a c : u64 (u64 a + c) = u64 (a + c).
Proof. unfold u64. now rewrite Zplus_mod_idemp_l. Qed.
Lemma u64_add2 a c : u64 (u64 a + u64 c) = u64 (a + c).
Proof. unfold u64. now rewrite <- Zplus_mod. Qed.
Lemma u64_mul a c : u64 (u64 a * c) = u64 (a * c).
Proof. unfold u64. now rewrite Zmult_mod_idemp_l. Qed.
Lemma fixed_app p q : fixed (p ++ q) = fixed p ++ fixed q.
Proof. unfold fixed. now rewrite map_app, concat_app. Qed.
Lemma fixed_quests i : fixed (repeat AnyBell i) = [].
Proof. induction i; auto. Qed.
Lemma fixed_in c p : In c (fixed p) <-> In (Named c) p.
Proof.
  unfold fixed. rewrite in_concat. split.
  - intros (y & Hy & Hc). apply in_map_iff in Hy. destruct Hy as (t & <- & Ht). destruct t; cbn in Hc; try contradiction. destruct Hc as [->|[]]. exact Ht.
  - intros H. exists [c]. split; [|now left]. apply in_map_iff. exists (Named c). auto.
Qed.
Lemma blanks_app p q : blanks (p ++ q) = blanks p + blanks q.
Proof. unfold blanks. now rewrite filter_app, app_length. Qed.
Lemma text_quests i : text (repeat AnyBell i) = quests i.
Proof. induction i as [|i IH]; [reflexivity|]. cbn [repeat]. rewrite text_cons, IH. reflexivity. Qed.

(* ---- the invariant ---- *)
Section Inv.
Variable sym : symtab.
Variable b : nat.
Hypothesis OK : sym_ok sym.

Definition letter (p : pattern) (c : ascii) : Prop := exists t, In t p /\ In c (named_in t).
Lemma below_incl p p' : (forall c, letter p' c -> letter p c) -> bells_below sym b p -> bells_below sym b p'.
Proof. intros I H t c x Ht Hc Hx. destruct (I c) as (t' & Ht' & Hc'); [now exists t|]. eauto. Qed.
Lemma spelling_incl p p' : (forall c, letter p' c -> letter p c) -> one_spelling sym p -> one_spelling sym p'.
Proof.
  intros I H t t' c c' x Ht Ht' Hc Hc' Hx Hx'. destruct (I c) as (u & Hu & Hcu); [now exists t|]. destruct (I c') as (u' & Hu' & Hcu'); [now exists t'|]. eauto.
Qed.

Record inv (d t : pattern) : Prop := {
  iv_exp : explicit d;
  iv_ok : pattern_ok sym (d ++ t);
  iv_below : bells_below sym b (d ++ t);
  iv_width : width (d ++ t) <= b;
  iv_nodup : NoDup (fixed (d ++ t));
  iv_free : choices_free t;
  iv_spell : one_spelling sym (d ++ t);
  iv_between : fixed_between t
}.
Lemma free_tail x p : choices_free (x :: p) -> choices_free p.
Proof. intros H a l z c E. apply (H (x :: a) l z c). cbn. now rewrite E. Qed.
Lemma between_tail x p : fixed_between (x :: p) -> fixed_between p.
Proof. intros H a q z E. apply (H (x :: a) q z). cbn. now rewrite E. Qed.
Lemma free_cons x p : (forall l, x <> OneOf l) -> choices_free p -> choices_free (x :: p).
Proof. intros Hx H a l z c E. destruct a as [|y a]; cbn in E; injection E as E1 E2; [now destruct (Hx l)|]. exact (H a l z c E2). Qed.
Lemma between_cons x p : x <> AnyBells -> fixed_between p -> fixed_between (x :: p).
Proof. intros Hx H a q z E. destruct a as [|y a]; cbn in E; injection E as E1 E2; [now destruct Hx|]. exact (H a q z E2). Qed.

Lemma inv_move d x t : match x with Named _ | AnyBell => True | _ => False end -> inv d (x :: t) -> inv (d ++ [x]) t.
Proof.
  intros Hx [E O B W N F S A]. change (x :: t) with ([x] ++ t) in O, B, W, N, S. rewrite app_assoc in O, B, W, N, S.
  constructor; auto.
  - apply Forall_app. split; [exact E|]. constructor; [exact Hx|constructor].
  - now apply free_tail in F.
  - now apply between_tail in A.
Qed.
Lemma inv_choice d l t c : In c l -> ~ In c (fixed d) -> inv d (OneOf l :: t) -> inv d (Named c :: t).
Proof.
  intros Hc Hd [E O B W N F S A].
  assert (I : forall c', letter (d ++ Named c :: t) c' -> letter (d ++ OneOf l :: t) c').
  { intros c' (x & Hx & Hc'). apply in_app_or in Hx. destruct Hx as [Hx|[<-|Hx]].
    - exists x. split; [apply in_or_app; now left|exact Hc'].
    - destruct Hc' as [<-|[]]. exists (OneOf l). split; [apply in_or_app; right; now left|exact Hc].
    - exists x. split; [apply in_or_app; right; now right|exact Hc']. }
  constructor; auto.
  - unfold pattern_ok in *. apply Forall_app in O. destruct O as [O1 O2]. inversion_clear O2 as [|? ? O2' O3].
    apply Forall_app. split; [exact O1|]. constructor; [|exact O3]. cbn in O2' |- *. rewrite Forall_forall in O2'. auto.
  - now apply below_incl with (d ++ OneOf l :: t).
  - rewrite width_app, width_cons in *. exact W.
  - rewrite fixed_app in N |- *. change (fixed (OneOf l :: t)) with (fixed t) in N. change (fixed (Named c :: t)) with (c :: fixed t).
    apply (Permutation_NoDup (Permutation_middle _ _ c)). constructor; [|exact N]. rewrite in_app_iff. intros [K|K]; [contradiction|].
    exact (F [] l t c eq_refl Hc K).
  - apply free_cons; [discriminate|]. now apply free_tail in F.
  - now apply spelling_incl with (d ++ OneOf l :: t).
  - apply between_cons; [discriminate|]. now apply between_tail in A.
Qed.
Lemma inv_quests d t i : i <= b - width (d ++ AnyBells :: t) -> inv d (AnyBells :: t) -> inv d (repeat AnyBell i ++ t).
Proof.
  intros Hi [E O B W N F S A]. rewrite width_app, width_cons in *. cbn [is_star] in *.
  assert (I : forall c', letter (d ++ repeat AnyBell i ++ t) c' -> letter (d ++ AnyBells :: t) c').
  { intros c' (x & Hx & Hc'). apply in_app_or in Hx. destruct Hx as [Hx|Hx].
    - exists x. split; [apply in_or_app; now left|exact Hc'].
    - apply in_app_or in Hx. destruct Hx as [Hx|Hx]; [apply repeat_spec in Hx; subst; destruct Hc'|].
      exists x. split; [apply in_or_app; right; now right|exact Hc']. }
  constructor; auto.
  - unfold pattern_ok in *. apply Forall_app in O. destruct O as [O1 O2]. inversion_clear O2 as [|? ? O2' O3].
    apply Forall_app. split; [exact O1|]. apply Forall_app. split; [|exact O3]. apply Forall_forall. intros x Hx. apply repeat_spec in Hx. now subst.
  - now apply below_incl with (d ++ AnyBells :: t).
  - rewrite !width_app, quests_width. lia.
  - rewrite !fixed_app, fixed_quests. rewrite fixed_app in N. exact N.
  - apply free_tail in F. induction i as [|i IH]; [exact F|]. cbn [repeat app]. apply free_cons; [discriminate|]. apply IH; [lia|].
    intros c' (x & Hx & Hc'). apply I. exists x. split; [|exact Hc']. apply in_app_or in Hx. apply in_or_app. destruct Hx; [now left|right; now right].
  - now apply spelling_incl with (d ++ AnyBells :: t).
  - apply between_tail in A. clear - A. induction i as [|i IH]; [exact A|]. cbn [repeat app]. apply between_cons; [discriminate|exact IH].
Qed.
Lemma inv_two_stars d t : inv d (AnyBells :: AnyBells :: t) -> inv d (AnyBells :: t).
Proof.
  intros [E O B W N F S A].
  assert (I : forall c', letter (d ++ AnyBells :: t) c' -> letter (d ++ AnyBells :: AnyBells :: t) c').
  { intros c' (x & Hx & Hc'). exists x. split; [|exact Hc']. apply in_app_or in Hx. apply in_or_app. destruct Hx; [now left|right; now right]. }
  constructor; auto.
  - unfold pattern_ok in *. apply Forall_app in O. destruct O as [O1 O2]. inversion_clear O2 as [|? ? O2' O3]. apply Forall_app. auto.
  - now apply below_incl with (d ++ AnyBells :: AnyBells :: t).
  - rewrite width_app, !width_cons in *. exact W.
  - rewrite fixed_app in *. exact N.
  - now apply free_tail in F.
  - now apply spelling_incl with (d ++ AnyBells :: AnyBells :: t).
  - now apply between_tail in A.
Qed.
Lemma inv_end d : inv d [] -> inv d [AnyBells].
Proof.
  intros [E O B W N F S A].
  assert (I : forall c', letter (d ++ [AnyBells]) c' -> letter (d ++ []) c').
  { intros c' (x & Hx & Hc'). exists x. split; [|exact Hc']. apply in_app_or in Hx. apply in_or_app. destruct Hx as [K|[<-|[]]]; [now left|destruct Hc']. }
  constructor; auto.
  - unfold pattern_ok in *. rewrite app_nil_r in O. apply Forall_app. split; [exact O|]. repeat constructor.
  - now apply below_incl with (d ++ []).
  - rewrite width_app in *. exact W.
  - rewrite fixed_app in *. exact N.
  - apply free_cons; [discriminate|exact F].
  - now apply spelling_incl with (d ++ []).
  - intros a q z K Hq. destruct a as [|y a]; cbn in K; [injection K as K|injection K as _ K]; [now destruct q|now destruct a].
Qed.

(* ---- texts ---- *)
Lemma before_close_text l s : Forall (fun x => is_symbol sym x = true) l -> before_close (l ++ c_close :: s) = Some l.
Proof.
  induction 1 as [|x l Hx _ IH]; cbn [app before_close]; [now rewrite eqc_refl|]. rewrite (sym_not Hx (so_close OK)), IH. reflexivity.
Qed.
Lemma has_char_done c d : explicit d -> is_symbol sym c = true -> (has_char c (text d) = true <-> In c (fixed d)).
Proof.
  intros He Hc. induction He as [|t d Ht He IH]; [cbn; split; [discriminate|intros []]|]. rewrite text_cons, in_app_has, orb_true_iff, IH.
  destruct t as [x| |l|]; try contradiction.
  - change (fixed (Named x :: d)) with (x :: fixed d). cbn [item_text In]. unfold has_char. cbn [existsb]. rewrite orb_false_r. split.
    + intros [K|K]; [left; apply eqc_true in K; now symmetry|now right].
    + intros [<-|K]; [left; apply eqc_refl|now right].
  - change (fixed (AnyBell :: d)) with (fixed d). cbn [item_text]. unfold has_char at 1. cbn [existsb]. rewrite orb_false_r.
    change (chr "?") with c_any. rewrite (sym_not Hc (so_any OK)). split; [intros [K|K]; [discriminate|exact K]|now right].
Qed.
Lemma no_fixed_text t : pattern_ok sym t -> forall q z, t = q ++ AnyBells :: z -> has_star q = false -> fixed q <> [] -> no_fixed_bell sym (text t) false = false.
Proof.
  intros Hok q z -> Hs Hf. induction q as [|x q IH]; [now destruct Hf|].
  cbn [app] in Hok |- *. inversion_clear Hok as [|? ? Hx Hok']. unfold has_star in Hs. cbn [existsb] in Hs. apply orb_false_iff in Hs. destruct Hs as [Hxs Hs].
  rewrite text_cons. destruct x as [c| |l|]; try discriminate; cbn [item_text app no_fixed_bell] in *; cbn [item_ok] in Hx.
  - rewrite (sym_not Hx (so_star OK)), (sym_not Hx (so_open OK)), (sym_not Hx (so_close OK)), Hx. reflexivity.
  - change (chr "?") with c_any. rewrite (so_any OK). cbn. now apply IH.
  - change (eqc (chr "[") c_star) with false. change (eqc (chr "[") c_open) with true. cbn iota.
    assert (G : forall s, no_fixed_bell sym (l ++ s) true = no_fixed_bell sym s true).
    { intros s. clear - Hx OK. induction Hx as [|y l Hy _ IHl]; [reflexivity|]. cbn [app no_fixed_bell]. rewrite (sym_not Hy (so_star OK)), (sym_not Hy (so_open OK)), (sym_not Hy (so_close OK)).
      cbn. exact IHl. }
    rewrite <- app_assoc, G. cbn [app no_fixed_bell]. change (eqc (chr "]") c_star) with false. change (eqc (chr "]") c_open) with false. change (eqc (chr "]") c_close) with true.
    cbn iota. now apply IH.
Qed.

Definition need (d t : pattern) : nat :=
  length (text t) + 3 * (b - width (d ++ t)) + 1 + (if has_star t then 0 else if b - width (d ++ t) =? 0 then 0 else 2).

Lemma bell_names c : is_symbol sym c = true -> names sym c (P_Wild.bell_of sym c).
Proof. intros H. unfold names, P_Wild.bell_of. destruct (so_names OK H) as (x & E). now rewrite E. Qed.

Notation dsc := (fun p => desc sym b (cl p)).

(* the loop over choices *)
Lemma choice_loop_spec pm d t k :
  forall l seen T, Forall (fun c => is_symbol sym c = true) l -> explicit d ->
  (forall c c' x, In c l -> In c' l -> names sym c x -> names sym c' x -> c = c') ->
  (forall c, In c l -> ~ In c (fixed d) -> exists V q', pm [c] = Ret (u64 (Z.of_nat V), q') /\ Card (dsc (d ++ Named c :: t)) (V * k)) ->
  exists V, choice_loop pm (text d) seen l (u64 T) = Ret (u64 (T + Z.of_nat V)) /\
    Card (fun r => exists c, In c l /\ ~ In c seen /\ dsc (d ++ Named c :: t) r) (V * k).
Proof.
  induction l as [|c l IH]; intros seen T Hl He Hsp Hpm; cbn [choice_loop].
  - exists 0. rewrite Z.add_0_r. split; [reflexivity|]. apply card_none. intros r (c & [] & _).
  - inversion_clear Hl as [|? ? Hc Hl']. pose proof (explicit_nostar He) as Hd.
    assert (HC : forall c t, cl (d ++ Named c :: t) = d ++ Named c :: cl t).
    { intros c0 t0. rewrite cl_app by exact Hd. f_equal. exact (@cl_app [Named c0] t0 eq_refl). }
    assert (Hpm' : forall c0, In c0 l -> ~ In c0 (fixed d) -> exists V q', pm [c0] = Ret (u64 (Z.of_nat V), q') /\ Card (dsc (d ++ Named c0 :: t)) (V * k)) by (intros c0 Hc0; apply Hpm; now right).
    assert (Hsp' : forall c c' x, In c l -> In c' l -> names sym c x -> names sym c' x -> c = c') by (intros c1 c2 x H1 H2; apply Hsp; now right).
    destruct (negb (has_char c (text d)) && negb (has_char c seen)) eqn:G.
    + apply andb_true_iff in G. destruct G as [G1 G2]. rewrite negb_true_iff in G1, G2.
      assert (Nd : ~ In c (fixed d)) by (intros K; apply (has_char_done He Hc) in K; congruence).
      assert (Ns : ~ In c seen). { intros K. apply not_true_iff_false in G2. apply G2. apply existsb_exists. exists c. split; [exact K|apply eqc_refl]. }
      destruct (Hpm c (or_introl eq_refl) Nd) as (V & q' & E & C). rewrite E. cbn [bind]. rewrite u64_add2.
      destruct (IH (seen ++ [c]) (T + Z.of_nat V)%Z Hl' He Hsp' Hpm') as (V' & E' & C'). rewrite E'. exists (V + V'). split; [f_equal; f_equal; lia|].
      rewrite Nat.mul_add_distr_r. eapply card_ext; [|apply (card_union C C')].
      * intros r. cbn beta. split.
        -- intros [K|(c' & Hc' & Hn & K)]; [exists c; auto using in_eq|]. exists c'. rewrite in_app_iff in Hn. split; [now right|]. tauto.
        -- intros (c' & [<-|Hc'] & Hn & K); [now left|]. destruct (ascii_dec c c') as [<-|Ne]; [now left|]. right. exists c'. rewrite in_app_iff. cbn. tauto.
      * intros r K (c' & Hc' & Hn & K'). cbn beta in K. rewrite HC in K, K'. destruct (desc_choices_disjoint Hd K K') as (x & H1 & H2).
        apply Hn. rewrite in_app_iff. right. left. apply (Hsp c c' x); auto; [now left|now right].
    + cbn [bind]. destruct (IH (seen ++ [c]) T Hl' He Hsp' Hpm') as (V' & E' & C'). rewrite E'. exists V'. split; [reflexivity|].
      eapply card_ext; [|exact C']. intros r. cbn beta. split.
      * intros (c' & Hc' & Hn & K). rewrite in_app_iff in Hn. exists c'. split; [now right|]. tauto.
      * intros (c' & Hc' & Hn & K). apply andb_false_iff in G. rewrite !negb_false_iff in G.
        assert (Ne : c' <> c).
        { intros ->. destruct G as [G|G].
          - apply (has_char_done He Hc) in G. apply fixed_in in G. rewrite HC in K. exact (desc_twice Hd G K).
          - apply Hn. apply existsb_exists in G. destruct G as (y & Hy & E). apply eqc_true in E. now subst. }
        exists c'. rewrite in_app_iff. cbn. split; [destruct Hc'; [congruence|assumption]|]. split; [|exact K]. intros [|[|[]]]; [tauto|congruence].
Qed.

Theorem pm_spec : forall fuel d t, inv d t -> need d t <= fuel ->
  exists V q', possible_matches fuel sym b (text d) (text t) (blanks d) = Ret (u64 (Z.of_nat V), q') /\ Card (dsc (d ++ t)) (V * fact (blanks d)).
Proof using OK.
  induction fuel as [|fuel IH]; intros d t I HF; [unfold need in HF; lia|].
  pose proof (iv_exp I) as He. pose proof (explicit_nostar He) as Hd.
  pose proof (iv_ok I) as Hok. pose proof (iv_width I) as Hw.
  assert (CB : count_bells sym (text d ++ text t) = width (d ++ t)).
  { rewrite <- text_app. unfold count_bells. rewrite (count_bells_text OK Hok). reflexivity. }
  destruct t as [|x t].
  - change (text []) with (@nil ascii) in CB |- *. cbn [possible_matches]. rewrite CB.
    destruct (Nat.ltb_spec (width (d ++ [])) b) as [H|H].
    + change [c_star] with (text [AnyBells]). apply inv_end in I.
      destruct (IH d [AnyBells] I) as (V & q' & E & C).
      * unfold need in *. rewrite !width_app in *. cbn [has_star existsb is_star orb text map concat item_text app length] in *. change (width [AnyBells]) with 0. change (width []) with 0 in *.
        destruct (Nat.eqb_spec (b - (width d + 0)) 0); lia.
      * exists V, q'. split; [exact E|]. eapply card_ext; [|exact C]. intros r. cbn beta. unfold cl.
        rewrite !has_star_app, Hd. cbn [orb has_star existsb is_star]. rewrite app_nil_r. reflexivity.
    + exists 1, (blanks d). split; [reflexivity|]. rewrite Nat.mul_1_l. rewrite app_nil_r in *.
      eapply card_ext; [|apply (@explicit_card sym b d He Hok (eq_ind _ (bells_below sym b) (iv_below I) _ (app_nil_r d)))].
      * intros r. symmetry. apply desc_full; [exact Hd|lia].
      * lia.
      * pose proof (iv_nodup I) as N. now rewrite app_nil_r in N.
      * pose proof (iv_spell I) as N. now rewrite app_nil_r in N.
      * exact bell_names.
  - assert (Hokx : item_ok sym x /\ pattern_ok sym t).
    { unfold pattern_ok in *. apply Forall_app in Hok. destruct Hok as [_ Hok]. inversion_clear Hok. auto. }
    destruct Hokx as [Hx Ht].
    rewrite text_cons in CB |- *. destruct x as [c| |l|]; cbn [item_text item_ok app] in *.
    + cbn [possible_matches]. rewrite Hx. change [c] with (text [Named c]). rewrite <- text_app.
      pose proof (@inv_move d (Named c) t Logic.I I) as I'.
      destruct (IH _ _ I') as (V & q' & E & C).
      * unfold need in *. rewrite <- app_assoc. cbn [app]. rewrite text_cons in HF. cbn [item_text app length] in HF.
        change (has_star (Named c :: t)) with (has_star t) in HF. lia.
      * rewrite blanks_app in E, C. change (blanks [Named c]) with 0 in E, C. rewrite Nat.add_0_r in E, C. rewrite <- app_assoc in C. eauto.
    + cbn [possible_matches]. change (chr "?") with c_any. rewrite (so_any OK), eqc_refl.
      change [c_any] with (text [AnyBell]). rewrite <- text_app.
      pose proof (@inv_move d AnyBell t Logic.I I) as I'.
      destruct (IH _ _ I') as (V & q' & E & C).
      * unfold need in *. rewrite <- app_assoc. cbn [app]. rewrite text_cons in HF. cbn [item_text app length] in HF.
        change (has_star (AnyBell :: t)) with (has_star t) in HF. lia.
      * rewrite blanks_app in E, C. change (blanks [AnyBell]) with 1 in E, C. rewrite E. cbn [bind]. rewrite u64_mul.
        exists (V * (blanks d + 1)), q'. split; [f_equal; f_equal; f_equal; lia|]. rewrite <- app_assoc in C. cbn [app] in C.
        replace (V * (blanks d + 1) * fact (blanks d)) with (V * fact (blanks d + 1)); [exact C|]. rewrite Nat.add_1_r. change (fact (S (blanks d))) with (S (blanks d) * fact (blanks d)). lia.
    + rewrite <- app_assoc. cbn [app]. cbn [possible_matches]. change (chr "[") with c_open. change (chr "]") with c_close. rewrite (so_open OK), eqc_refl.
      change (eqc c_open c_any) with false. cbn iota. rewrite before_close_text, (after_close_text OK) by exact Hx.
      destruct (@choice_loop_spec (fun ch => possible_matches fuel sym b (text d) (ch ++ text t) (blanks d)) d t (fact (blanks d)) l [] 0%Z Hx He) as (V & E & C).
      * intros c c' y H1 H2. apply (iv_spell I) with (t := OneOf l) (t' := OneOf l); auto; apply in_or_app; right; now left.
      * intros c Hc Hn. change ([c] ++ text t) with (text (Named c :: t)). pose proof (inv_choice Hc Hn I) as I'. apply (IH _ _ I').
        unfold need in *. rewrite !width_app, !width_cons, !text_cons in *. cbn [is_star item_text app length] in *. change (has_star (OneOf l :: t)) with (has_star t) in HF.
        change (has_star (Named c :: t)) with (has_star t). rewrite !app_length in HF. cbn [length] in HF. lia.
      * change (u64 0) with 0%Z in E. rewrite E. cbn [bind]. exists V, (blanks d). split; [reflexivity|].
        eapply card_ext; [|exact C]. intros r. cbn beta. rewrite cl_app by exact Hd. change (cl (OneOf l :: t)) with (cl ([OneOf l] ++ t)). rewrite cl_app by reflexivity. cbn [app].
        rewrite desc_choice. split.
        -- intros (c & Hc & _ & K). exists c. split; [exact Hc|]. rewrite cl_app in K by exact Hd. change (cl (Named c :: t)) with (cl ([Named c] ++ t)) in K. rewrite cl_app in K by reflexivity. exact K.
        -- intros (c & Hc & K). exists c. split; [exact Hc|]. split; [intros []|]. rewrite cl_app by exact Hd. change (cl (Named c :: t)) with (cl ([Named c] ++ t)). rewrite cl_app by reflexivity. exact K.
    + change (chr "*") with c_star in *. 
      assert (CL : cl (d ++ AnyBells :: t) = d ++ AnyBells :: t) by (apply cl_star; rewrite has_star_app; cbn; apply orb_true_r).
      assert (HW : width (d ++ AnyBells :: t) = width d + width t) by (rewrite width_app, width_cons; reflexivity).
      set (n := b - width (d ++ AnyBells :: t)).
      assert (Hn : n = b - (width d + width t)) by (unfold n; now rewrite HW).
      assert (LAST : has_star t = false -> exists V q', possible_matches fuel sym b (text d) (quests n ++ text t) (blanks d) = Ret (u64 (Z.of_nat V), q') /\
         Card (dsc (d ++ AnyBells :: t)) (V * fact (blanks d))).
      { intros Hs. rewrite <- text_quests, <- text_app. pose proof (@inv_quests d t n (le_n _) I) as I'. destruct (IH _ _ I') as (V & q' & E & C).
        - unfold need in *. rewrite text_app, app_length, text_quests. unfold quests. rewrite repeat_length. rewrite HW in HF, Hw. rewrite !width_app, quests_width. rewrite text_cons in HF. cbn [item_text app length] in HF.
          rewrite has_star_app, quests_nostar, Hs. cbn [orb]. destruct (Nat.eqb_spec (b - (width d + (n + width t))) 0); [|lia].
          change (has_star (AnyBells :: t)) with true in HF. cbn iota in HF |- *. lia.
        - exists V, q'. split; [exact E|]. eapply card_ext; [|exact C]. intros r. cbn beta. rewrite CL, (@desc_last_star sym b d t r Hd Hs) by lia.
          unfold n. rewrite HW. apply desc_full; [now rewrite !has_star_app, Hd, quests_nostar, Hs|]. rewrite !width_app, quests_width. lia. }
      destruct t as [|y t'].
      * change (text []) with (@nil ascii) in CB, LAST |- *. cbn [possible_matches]. rewrite (so_star OK), eqc_refl. change (eqc c_star c_any) with false. change (eqc c_star c_open) with false. cbn iota.
        rewrite CB. destruct (Nat.ltb_spec b (width (d ++ [AnyBells]))) as [K|_]; [lia|]. fold n. apply LAST. reflexivity.
      * remember (text (y :: t')) as tt eqn:Ett. destruct tt as [|c1 s1]; [symmetry in Ett; apply text_nil in Ett; discriminate|].
        cbn [possible_matches]. rewrite (so_star OK), eqc_refl. change (eqc c_star c_any) with false. change (eqc c_star c_open) with false. cbn iota.
        destruct (eqc c1 c_star) eqn:Ec.
        -- assert (y = AnyBells) as ->.
           { apply eqc_true in Ec. subst c1. destruct y; try reflexivity; exfalso; rewrite text_cons in Ett; cbn [item_text app] in Ett; injection Ett as E1 E2.
             - unfold pattern_ok in Ht. inversion_clear Ht as [|? ? Hy _]. cbn in Hy. rewrite <- E1, (so_star OK) in Hy. discriminate.
             - discriminate E1.
             - discriminate E1. }
           rewrite Ett. pose proof (inv_two_stars I) as I'. destruct (IH _ _ I') as (V & q' & E & C).
           ++ unfold need in *. rewrite !width_app, !width_cons, !text_cons in *. cbn [is_star item_text app length] in *. change (has_star (AnyBells :: t')) with true. change (has_star (AnyBells :: AnyBells :: t')) with true in HF. lia.
           ++ exists V, q'. split; [exact E|]. eapply card_ext; [|exact C]. intros r. cbn beta. rewrite CL.
              rewrite cl_star by (rewrite has_star_app; cbn; apply orb_true_r). now rewrite desc_two_stars.
        -- assert (Hy : y <> AnyBells) by (intros ->; rewrite text_cons in Ett; cbn [item_text app] in Ett; injection Ett as E1 E2; subst c1; discriminate Ec).
           rewrite Ett in *. clear Ett.
           rewrite CB. destruct (Nat.ltb_spec b (width (d ++ AnyBells :: y :: t'))) as [K|_]; [lia|]. fold n.
           rewrite (has_star_text OK Ht). remember (y :: t') as t eqn:Et.
           destruct (has_star t) eqn:Hs; cbn [negb]; [|now apply LAST].
           assert (SP : exists q z, t = q ++ AnyBells :: z /\ has_star q = false).
           { clear - Hs. induction t as [|x t IHt]; [discriminate|]. destruct (is_star x) eqn:Ex.
             - destruct x; try discriminate. exists [], t. auto.
             - unfold has_star in Hs. cbn [existsb] in Hs. rewrite Ex in Hs. destruct (IHt Hs) as (q & z & -> & Hq). exists (x :: q), z. split; [reflexivity|]. unfold has_star in *. cbn [existsb]. now rewrite Ex. }
           destruct SP as (q & z & Eq & Hq).
           assert (Hq0 : q <> []).
           { intros ->. rewrite Eq in Et. injection Et as Ey _. now apply Hy. }
           assert (Hf : fixed q <> []) by (apply (iv_between I) with (a := []) (z := z); auto; cbn; now rewrite Eq).
           rewrite (no_fixed_text Ht Eq Hq Hf).
           assert (L : forall l T, (forall i, In i l -> i <= n) -> NoDup l -> exists V,
             forM l (fun total i => '(v, _) <- possible_matches fuel sym b (text d) (quests i ++ text t) (blanks d);;
                forM [] (fun total0 j => m <- make_intersection (2 * (length (text d) + b + length (text t)) + 2) sym (text d ++ quests i ++ text t) (text d ++ quests j ++ text t);;
                   match m with Some s => '(v0, _) <- possible_matches fuel sym b (firstn (length (text d)) s) (skipn (length (text d)) s) (blanks d);; Ret (u64 (total0 - v0)) | None => Ret total0 end) (u64 (total + v))) (u64 T)
              = Ret (u64 (T + Z.of_nat V)) /\ Card (fun r => exists i, In i l /\ desc sym b (d ++ repeat AnyBell i ++ t) r) (V * fact (blanks d))).
           { induction l as [|i l IHl]; intros T Hi N.
             - exists 0. cbn [forM]. rewrite Z.add_0_r. split; [reflexivity|]. apply card_none. intros r (i & [] & _).
             - inversion_clear N as [|? ? Ni Nl]. cbn [forM].
               pose proof (@inv_quests d t i (Hi i (or_introl eq_refl)) I) as I'. destruct (IH _ _ I') as (V & q' & E & C).
               + assert (Hin : i <= n) by (apply Hi; now left). unfold need in *. rewrite text_app, app_length, text_quests. unfold quests. rewrite repeat_length. rewrite HW in HF, Hw. rewrite !width_app, quests_width. rewrite text_cons in HF. cbn [item_text app length] in HF.
                 rewrite has_star_app, Hs, orb_true_r. change (has_star (AnyBells :: t)) with true in HF. cbn iota in HF |- *. lia.
               + rewrite text_app, text_quests in E. rewrite E. cbn [bind forM]. rewrite u64_add2.
                 destruct (IHl (T + Z.of_nat V)%Z (fun j Hj => Hi j (or_intror Hj)) Nl) as (V' & E' & C'). cbn [forM] in E'. rewrite E'.
                 exists (V + V'). split; [f_equal; f_equal; lia|]. rewrite Nat.mul_add_distr_r. rewrite cl_star in C by (now rewrite !has_star_app, Hs, !orb_true_r).
                 eapply card_ext; [|apply (card_union C C')].
                 * intros r. cbn beta. split; [intros [K|(j & Hj & K)]; [exists i|exists j]; (split; [|exact K]); [now left|now right]|].
                   intros (j & [<-|Hj] & K); [now left|right; eauto].
                 * intros r K (j & Hj & K'). apply Ni. destruct (fixed q) as [|c0 fq] eqn:Efq; [now destruct Hf|].
                   assert (Hin : In (Named c0) q) by (apply fixed_in; rewrite Efq; now left). apply in_split in Hin. destruct Hin as (q1 & q2 & ->).
                   rewrite has_star_app in Hq. apply orb_false_iff in Hq. destruct Hq as [Hq1 _].
                   rewrite Eq in K, K'. rewrite <- !app_assoc in K, K'. cbn [app] in K, K'. now rewrite (desc_shift_disjoint Hd Hq1 K K'). }
           destruct (L (seq 0 (S n)) 0%Z) as (V & E & C).
           ++ intros i Hi. apply in_seq in Hi. lia.
           ++ apply seq_NoDup.
           ++ cbn iota. change (u64 0) with 0%Z in E. rewrite E. cbn [bind]. exists V, (blanks d). split; [reflexivity|]. eapply card_ext; [|exact C].
              intros r. cbn beta. rewrite CL, (@desc_star sym b d t r Hd) by lia. unfold n. rewrite HW. split; intros (i & Hi & K); exists i; (split; [|exact K]).
              ** apply in_seq in Hi. lia.
              ** apply in_seq. lia.
Qed.
End Inv.
