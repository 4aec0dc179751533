(* P_Token2.v - the tokens of a line, continued. *)
From Verif Require Import Base M_Bell M_PN M_Mslib P_Bell P_PN M_Gsiril M_Parser M_Token Spec_Token P_Token.
Set Implicit Arguments. Unset Strict Implicit.
Open Scope nat_scope.

Lemma comment_none ms c u : c <> chr "/" -> after (comment_mark ms) (c :: u) = None.
Proof. intro N; apply after_none. intros r E. destruct ms; injection E as E _; now apply N. Qed.
Lemma quote_none q k c u : c <> q -> quote q k c u = None.
Proof. intro N; unfold quote. now rewrite (proj2 (eqc_false c q) N). Qed.
Lemma lex1_past ms ci c u : c <> chr "/" -> c <> chr "'" -> c <> chr """" -> fixed pairs (c :: u) = None ->
  lex1 ms ci c u = (o <- (if eqc c (chr "&") || eqc c (chr "+") then pn_token c u else Ret None) ;;
                    Ret (match o with Some r => r | None => unquoted ms ci c u end)).
Proof.
  intros A B C F; unfold lex1. rewrite comment_none by auto. rewrite !quote_none by auto. destruct ms; rewrite F; reflexivity.
Qed.
Lemma lex1_simple ms ci c u : ~ In c special -> lex1 ms ci c u = Ret (unquoted ms ci c u).
Proof.
  intro N. assert (X : forall x, In x special -> c <> x) by (intros x I ->; auto).
  rewrite lex1_past; [|apply X; cbn; tauto..|].
  - rewrite (proj2 (eqc_false c (chr "&"))), (proj2 (eqc_false c (chr "+"))) by (apply X; cbn; tauto). reflexivity.
  - apply fixed_alone, alone_not. intro I; apply N. cbn in I |- *. tauto.
Qed.
Lemma not_next_span (p : ascii -> Prop) (b : ascii -> bool) s : (forall c, b c = true <-> p c) -> b nl = false -> not_next p s ->
  match s ++ [nl] with [] => True | c :: _ => b c = false end.
Proof.
  intros H N X; destruct s as [|c s]; cbn; auto. cbn in X. destruct (b c) eqn:E; auto. apply H in E; contradiction.
Qed.
Lemma span_not_next (p : ascii -> Prop) (b : ascii -> bool) s : (forall c, b c = true <-> p c) ->
  match s ++ [nl] with [] => True | c :: _ => b c = false end -> not_next p s.
Proof. intros H X; destruct s as [|c s]; cbn in *; auto. intro P; apply H in P; congruence. Qed.

Lemma firstn_exact A (w s : list A) n : n = length w -> firstn n (w ++ s) = w.
Proof. intros ->. rewrite firstn_app, Nat.sub_diag, firstn_all. cbn [firstn]. apply app_nil_r. Qed.
Lemma pn_token_at c w s : places w -> w <> [] -> pn_stop s -> pn_token c (w ++ s) = Ret (Some (mkTok KPn (c :: w), s)).
Proof.
  intros P N St; unfold pn_token. rewrite pn_rest_at by (auto; lia). cbn [bind]. rewrite app_length.
  destruct w as [|d w]; [congruence|]. cbn [length]. rewrite (proj2 (Nat.ltb_lt _ _)) by lia.
  rewrite firstn_exact by (cbn [length]; lia). reflexivity.
Qed.
Lemma pn_token_none c s : pn_stop s -> pn_token c s = Ret None.
Proof.
  intros St; unfold pn_token. pose proof (@pn_rest_at [] s p_none St) as X. cbn [app] in X. rewrite X by lia. cbn [bind].
  now rewrite Nat.ltb_irrefl.
Qed.
Lemma pn_token_inv c s o : pn_token c s = Ret o ->
  match o with
  | Some (t, r) => exists w, s = w ++ r /\ w <> [] /\ places w /\ pn_stop r /\ t = mkTok KPn (c :: w)
  | None => pn_stop s
  end.
Proof.
  unfold pn_token; intro H; apply bind_ret_inv in H as (r & H1 & H2). apply pn_rest_inv in H1 as (w & -> & P & N).
  rewrite app_length in H2. destruct w as [|d w].
  - cbn [length Nat.add] in H2. rewrite Nat.ltb_irrefl in H2. injection H2 as <-. auto.
  - rewrite (proj2 (Nat.ltb_lt _ _)) in H2 by (cbn; lia). rewrite firstn_exact in H2 by lia. injection H2 as <-.
    exists (d :: w). repeat split; auto. discriminate.
Qed.

Lemma one_special c k : In (String c "", k) one_char -> c <> chr "/" /\ c <> chr "'" /\ c <> chr """" /\ c <> chr "&" /\ c <> chr "+".
Proof. intro I; cbn in I; repeat match type of I with _ \/ _ => destruct I as [I|I] end; try contradiction; injection I as <- <-; repeat split; discriminate. Qed.
Lemma one_unquoted ms ci c k u : In (String c "", k) (one_char ++ signs) -> unquoted ms ci c u = (mkTok k [c], u) /\ is_space c = false.
Proof.
  intro I; cbn in I; repeat match type of I with _ \/ _ => destruct I as [I|I] end; try contradiction; injection I as <- <-; destruct ms; split; reflexivity.
Qed.
Lemma divide_unquoted ms ci u : unquoted ms ci (chr "/") u = (mkTok KDivide [chr "/"], u).
Proof. destruct ms; reflexivity. Qed.

Lemma no_quote q s : q <> nl -> ~ In nl s -> ~ In q s -> to_quote q (s ++ [nl]) = None.
Proof. intros A B C. now apply to_quote_none. Qed.
Theorem lex1_written ms ci t w s : written ms ci t w s -> ~ In nl (w ++ s) ->
  exists c u, w = c :: u /\ is_space c = false /\ lex1 ms ci c (u ++ s ++ [nl]) = Ret (t, s ++ [nl]).
Proof.
  intros W NL. assert (Nw : ~ In nl w) by (intro; apply NL, in_or_app; auto). assert (Ns : ~ In nl s) by (intro; apply NL, in_or_app; auto).
  assert (BODY : forall q x s, ~ In nl (q :: x ++ [q]) -> ~ In q x -> to_quote q ((x ++ [q]) ++ s ++ [nl]) = Some (x, s ++ [nl])).
  { intros q x s0 N1 N2. rewrite <- app_assoc. cbn [app]. apply to_quote_at; auto. intro; apply N1; cbn. right; apply in_or_app; auto. }
  destruct W.
  - exists c, w; split; auto. split; [eapply name_not_space; eauto|]. rewrite lex1_simple by (eapply name_plain; eauto).
    unfold unquoted. rewrite (proj2 (id_first_iff ms c)) by auto. rewrite span_at; auto.
    + eapply Forall_impl; [|eassumption]. intros d Hd; now apply id_other_iff.
    + apply not_next_span with (name_more ms); auto using id_other_iff. destruct ms; reflexivity.
  - exists c, w; split; auto. split; [now apply digit_not_space|]. rewrite lex1_simple by (now apply digit_plain).
    unfold unquoted. rewrite digit_not_name by auto. replace (is_digit c) with true by auto. rewrite span_at; auto.
    apply not_next_span with digit; auto. reflexivity.
  - eexists _, _; split; [reflexivity|]. split; [reflexivity|]. unfold lex1. rewrite comment_none by discriminate.
    unfold quote. rewrite BODY by auto. destruct ms; reflexivity.
  - eexists _, _; split; [reflexivity|]. split; [reflexivity|]. unfold lex1. rewrite comment_none by discriminate.
    unfold quote. rewrite BODY by auto. destruct ms; reflexivity.
  - subst ms. eexists _, _; split; [reflexivity|]. split; [reflexivity|]. unfold lex1.
    replace (after (comment_mark false) _) with (@None text).
    2:{ symmetry; apply after_none. intros r E. destruct w as [|d w]; [congruence|]. injection E as E _. subst d.
        match goal with H : ~ In (chr "/") (_ :: w) |- _ => apply H; cbn; auto end. }
    unfold quote. rewrite BODY by auto. reflexivity.
  - exists c, w; split; auto. split; [destruct H; subst; reflexivity|]. rewrite lex1_past; [|destruct H; subst; discriminate..|].
    + rewrite (proj2 (orb_true_iff _ _)) by (rewrite !eqc_true; auto). rewrite pn_token_at; auto. now apply (proj1 (pn_stop_nl s)).
    + apply fixed_alone. destruct w as [|d w]; [congruence|]. cbn [app alone not_next]. intros (p & k & I & E).
      assert (D : place d \/ d = chr "{") by (match goal with H : places _ |- _ => inversion H; subst; auto end).
      destruct H as [-> | ->]; in_cases I; try discriminate; injection E as <-; destruct D as [[D|[D|D]]|D]; discriminate.
  - destruct (two_shape H) as (c & d & E). exists c, [d]. split; auto. split; [in_cases H; injection E as <- <-; reflexivity|].
    assert (X : ~ In c (str "/'""")) by (intro I; in_cases H; injection E as <- <-; cbn in I; intuition discriminate).
    unfold lex1. rewrite comment_none, !quote_none by (intros ->; apply X; cbn; auto).
    replace (c :: [d] ++ s ++ [nl]) with (str p ++ s ++ [nl]) by (now rewrite E). rewrite fixed_pairs_at with (k := k) by auto. destruct ms; reflexivity.
  - exists c, []; split; auto. destruct (one_special H) as (? & ? & ? & ? & ?). destruct (one_unquoted ms ci (s ++ [nl]) (in_or_app _ signs _ (or_introl H))) as [U SP].
    split; auto. cbn [app]. rewrite lex1_past by (auto; apply fixed_alone; now apply alone_nl).
    rewrite (proj2 (eqc_false c (chr "&"))), (proj2 (eqc_false c (chr "+"))) by auto. cbn [orb bind]. now rewrite U.
  - exists c, []; split; auto. destruct (one_unquoted ms ci (s ++ [nl]) (in_or_app one_char _ _ (or_intror H))) as [U SP].
    assert (C : c = chr "&" \/ c = chr "+") by (cbn in H; destruct H as [H|[H|[]]]; injection H as <- <-; auto).
    split; auto. cbn [app]. rewrite lex1_past; [|destruct C; subst; discriminate..|apply fixed_alone; now apply alone_nl].
    rewrite (proj2 (orb_true_iff _ _)) by (rewrite !eqc_true; auto). rewrite pn_token_none by (now apply (proj1 (pn_stop_nl s))). cbn [bind]. now rewrite U.
  - subst ms. exists (chr "/"), []; split; auto. split; auto. cbn [app]. unfold lex1. 
    replace (after (comment_mark false) _) with (@None text).
    2:{ symmetry; apply after_none. intros r E. destruct s as [|d s]; [discriminate|]. injection E as E _. subst d.
        match goal with H : ~ In (chr "/") (_ :: s) |- _ => apply H; cbn; auto end. }
    unfold quote at 1. rewrite eqc_refl. rewrite no_quote by (auto; discriminate).
    rewrite !quote_none by discriminate. rewrite fixed_alone by (apply alone_not; cbn; intuition discriminate).
    cbn [bind]. reflexivity.
  - exists c, []; split; auto. split; auto. cbn [app].
    assert (U : unquoted ms ci c (s ++ [nl]) = (mkTok KOdd [c], s ++ [nl])).
    { unfold unquoted. destruct (id_first ms c) eqn:E1; [apply id_first_iff in E1; contradiction|].
      destruct (is_digit c) eqn:E2; [contradiction|]. f_equal. f_equal.
      assert (X : forall l, incl l singles -> single l c = KOdd).
      { induction l as [|[d k] l IH]; intro IN; cbn [single]; auto. destruct (eqc c d) eqn:E; [|apply IH; intros x Hx; apply IN; now right].
        apply eqc_true in E as ->. exfalso. pose proof (IN _ (or_introl eq_refl)) as I.
        in_cases I; try discriminate; try congruence;
          match goal with H : forall k, ~ In _ _ |- _ => eapply H; cbn; intuition reflexivity end. }
      apply X, incl_refl. }
    unfold lex1. rewrite comment_none by auto. rewrite (@quote_none (chr "/")) by auto.
    assert (Q : forall q k, q = chr "'" \/ q = chr """" -> quote q k c (s ++ [nl]) = None).
    { intros q k Hq. unfold quote. destruct (eqc c q) eqn:E; auto. apply eqc_true in E as ->. rewrite no_quote; auto. destruct Hq; subst; discriminate. }
    rewrite !Q by auto. rewrite fixed_alone by (now apply alone_nl).
    rewrite (proj2 (eqc_false c (chr "&"))), (proj2 (eqc_false c (chr "+"))).
    + cbn [orb bind]. rewrite U. destruct ms; reflexivity.
    + intros ->. match goal with H : forall k, ~ In _ _ |- _ => apply (H KPlus); cbn; tauto end.
    + intros ->. match goal with H : forall k, ~ In _ _ |- _ => apply (H KMerge); cbn; tauto end.
Qed.

Lemma cut_nl (u w r : text) : u ++ [nl] = w ++ r -> ~ In nl w -> exists s, r = s ++ [nl] /\ u = w ++ s.
Proof.
  revert u; induction w as [|c w IH]; intros u E N; cbn [app] in *; [eauto|].
  destruct u as [|d u]; cbn [app] in E; injection E as E1 E2; [subst c; cbn in N; tauto|].
  subst d. apply IH in E2 as (s & -> & ->); [eauto|cbn in N; tauto].
Qed.
Lemma to_eol_nl u : ~ In nl u -> to_eol (u ++ [nl]) = (u, [nl]).
Proof.
  induction u as [|c u IH]; intro N; cbn [to_eol app]; [now rewrite eqc_refl|].
  rewrite (proj2 (eqc_false c nl)) by (intros ->; cbn in N; tauto). rewrite IH by (cbn in N; tauto). reflexivity.
Qed.
Lemma single_cases c : c <> nl ->
  (c = chr "/" /\ single singles c = KDivide) \/ In (String c "", single singles c) one_char \/ In (String c "", single singles c) signs \/
  (single singles c = KOdd /\ c <> chr "/" /\ forall k, ~ In (String c "", k) (one_char ++ signs)).
Proof.
  intro N; unfold singles.
  repeat (cbn [single]; match goal with |- context [eqc c ?d] => let E := fresh "E" in destruct (eqc c d) eqn:E; [apply eqc_true in E; subst c; first [now elim N|cbn; tauto]|apply eqc_false in E] end).
  right; right; right. cbn [single]. split; auto. split; auto. intros k I. cbn in I.
  repeat match type of I with _ \/ _ => destruct I as [I|I] end; try contradiction; injection I as <- <-; 
    match goal with H : ?x <> ?y |- _ => apply H; reflexivity end.
Qed.

Lemma last_cons_app (a b : text) c d : last (a ++ c :: b) d = last (c :: b) d.
Proof. induction a as [|x a IH]; auto. cbn [app]. rewrite <- IH. cbn [last]. destruct (a ++ c :: b) eqn:E; auto. now apply app_eq_nil in E as [_ E]. Qed.
Lemma places_last a : ~ places (a ++ [nl]).
Proof.
  assert (X : forall w, places w -> last w zero <> nl).
  { induction 1 as [|c w Hc P IH|g w A B P IH].
    - discriminate.
    - destruct w; [|exact IH]. cbn. intros ->. destruct Hc as [H|[H|H]]; discriminate.
    - change (chr "{" :: g ++ chr "}" :: w) with ((chr "{" :: g) ++ chr "}" :: w). rewrite last_cons_app. destruct w; [discriminate|exact IH]. }
  intro P; apply X in P. rewrite last_last in P. auto.
Qed.
Theorem lex1_inv ms ci c u t r : lex1 ms ci c (u ++ [nl]) = Ret (t, r) -> ~ In nl (c :: u) -> is_space c = false ->
  (exists x, c :: u = comment_mark ms ++ x /\ t = mkTok KComment (c :: u) /\ r = [nl]) \/
  (exists w s, c :: u = w ++ s /\ w <> [] /\ r = s ++ [nl] /\ written ms ci t w s).
Proof.
  intros H N SP. assert (Nc : c <> nl) by (intros ->; apply N; cbn; auto). assert (Nu : ~ In nl u) by (intro; apply N; cbn; auto).
  unfold lex1 in H. destruct (after (comment_mark ms) (c :: u ++ [nl])) as [x|] eqn:CM.
  { left. change (c :: u ++ [nl]) with ((c :: u) ++ [nl]) in H. rewrite to_eol_nl in H by auto. injection H as <- <-.
    apply after_iff in CM. change (c :: u ++ [nl]) with ((c :: u) ++ [nl]) in CM. apply cut_nl in CM as (s & -> & E).
    - exists s; repeat split; auto.
    - destruct ms; cbn; intuition discriminate. }
  right.
  assert (Q : forall q k t r, quote q k c (u ++ [nl]) = Some (t, r) -> exists x s, c = q /\ t = mkTok k x /\ u = (x ++ [q]) ++ s /\ r = s ++ [nl] /\ ~ In q x).
  { clear H; intros q k t0 r0 H. unfold quote in H. destruct (eqc c q) eqn:E; [|discriminate]. apply eqc_true in E as ->.
    destruct (to_quote q (u ++ [nl])) as [[a b]|] eqn:TQ; [|discriminate]. injection H as <- <-.
    apply to_quote_some in TQ as (E & A & B). change (q :: b) with ([q] ++ b) in E. rewrite app_assoc in E.
    apply cut_nl in E as (s & -> & ->); [exists a, s; auto|]. intro I; apply in_app_or in I as [I|[I|[]]]; auto. }
  destruct (if ms then None else quote (chr "/") KRegex c (u ++ [nl])) as [[t1 r1]|] eqn:Q1.
  { injection H as <- <-. destruct ms; [discriminate|]. apply Q in Q1 as (x & s & -> & -> & -> & -> & NI).
    exists (chr "/" :: x ++ [chr "/"]), s. repeat split; auto; [discriminate|]. constructor; auto. intros ->. cbn in CM. discriminate. }
  destruct (quote (chr "'") KTransp c (u ++ [nl])) as [[t2 r2]|] eqn:Q2.
  { injection H as <- <-. apply Q in Q2 as (x & s & -> & -> & -> & -> & NI).
    exists (chr "'" :: x ++ [chr "'"]), s. repeat split; auto; [discriminate|]. now constructor. }
  destruct (quote (chr """") KString c (u ++ [nl])) as [[t3 r3]|] eqn:Q3.
  { injection H as <- <-. apply Q in Q3 as (x & s & -> & -> & -> & -> & NI).
    exists (chr """" :: x ++ [chr """"]), s. repeat split; auto; [discriminate|]. now constructor. }
  destruct (fixed pairs (c :: u ++ [nl])) as [[t4 r4]|] eqn:F.
  { injection H as <- <-. apply fixed_pairs_some in F as (p & k & I & -> & E). change (c :: u ++ [nl]) with ((c :: u) ++ [nl]) in E.
    apply cut_nl in E as (s & -> & E); [|intro X; in_cases I; cbn in X; intuition discriminate].
    exists (str p), s. repeat split; auto; [in_cases I; discriminate|]. now constructor. }
  pose proof (alone_cut (alone_of_none F)) as AL.
  apply bind_ret_inv in H as (o & HO & H).
  assert (PS : (c = chr "&" \/ c = chr "+") -> o = None -> pn_stop u).
  { intros C ->. rewrite (proj2 (orb_true_iff _ _)) in HO by (rewrite !eqc_true; auto). apply pn_token_inv in HO. now apply pn_stop_nl. }
  destruct o as [[t5 r5]|].
  { injection H as <- <-. destruct (eqc c (chr "&") || eqc c (chr "+")) eqn:E; [|discriminate].
    apply orb_true_iff in E; rewrite !eqc_true in E. apply pn_token_inv in HO as (w & EW & NW & P & ST & ->).
    apply cut_nl in EW as (s & -> & ->).
    - exists (c :: w), s. repeat split; auto; [discriminate|]. constructor; auto. now apply pn_stop_nl.
    - intro I. apply in_split in I as (a & b & ->). rewrite <- app_assoc in EW. cbn [app] in EW.
      destruct (b ++ r5) as [|d x] eqn:BR.
      + apply app_eq_nil in BR as [-> ->]. now apply places_last in P.
      + assert (X : nl :: d :: x <> []) by discriminate. apply exists_last in X as (y & z & EY).
        rewrite EY, app_assoc in EW. apply app_inj_tail in EW as [-> _]. apply Nu.
        destruct y as [|e y]; cbn in EY; injection EY as <- EY; [discriminate|]. apply in_or_app; cbn; auto. }
  injection H as H. unfold unquoted in H. destruct (id_first ms c) eqn:IF.
  { destruct (span (id_other ms) (u ++ [nl])) as [a b] eqn:SPN. injection H as <- <-. apply span_spec in SPN as (E & Fa & Nb).
    assert (Fa' : Forall (name_more ms) a) by (eapply Forall_impl; [|exact Fa]; intros d Hd; now apply id_other_iff).
    apply cut_nl in E as (s & -> & ->).
    - exists (c :: a), s. repeat split; auto; [discriminate|]. constructor; auto; [now apply id_first_iff|].
      eapply span_not_next; [apply id_other_iff|auto].
    - intro I. rewrite Forall_forall in Fa. apply Fa in I. destruct ms; discriminate. }
  destruct (is_digit c) eqn:DG.
  { destruct (span is_digit (u ++ [nl])) as [a b] eqn:SPN. injection H as <- <-. apply span_spec in SPN as (E & Fa & Nb).
    apply cut_nl in E as (s & -> & ->).
    - exists (c :: a), s. repeat split; auto; [discriminate|]. constructor; auto. eapply span_not_next; [|exact Nb]. unfold digit; tauto.
    - intro I. rewrite Forall_forall in Fa. apply Fa in I. discriminate. }
  apply pair_equal_spec in H as [<- <-]. exists [c], u. repeat split; auto; [discriminate|].
  assert (QN : forall q k, q <> nl -> quote q k c (u ++ [nl]) = None -> c = q -> ~ In q u).
  { intros q k Hq HQ ->. unfold quote in HQ. rewrite eqc_refl in HQ. apply to_quote_none; auto.
    destruct (to_quote q (u ++ [nl])) as [[? ?]|]; [discriminate|auto]. }
  destruct (single_cases Nc) as [[-> E]|[I|[I|(E & ND & NI)]]].
  - rewrite E. destruct ms; [discriminate|]. apply w_divide; auto. eapply QN; eauto.
  - now apply w_one.
  - apply w_sign; auto. apply PS; auto. cbn in I. destruct I as [I|[I|[]]]; injection I as <- _; auto.
  - rewrite E. apply w_odd; auto.
    + intro X; apply id_first_iff in X; congruence.
    + unfold digit; congruence.
    + intros [->| ->]; eapply QN; eauto; discriminate.
Qed.

Definition newline : token := mkTok KNewLine [nl].
Lemma lex1_nl ms ci u : lex1 ms ci nl u = Ret (newline, u).
Proof. destruct ms; reflexivity. Qed.
Lemma blank_space c : c <> nl -> blank c = is_space c.
Proof. intro N; unfold blank. rewrite (proj2 (eqc_false c nl) N). apply andb_true_r. Qed.
Lemma comment_mark_str ms : comment_mark ms = str (if ms then "/" else "//").
Proof. now destruct ms. Qed.
Lemma reads_lex ms ci s ts : reads ms ci s ts -> ~ In nl s -> forall f, length s + 1 < f -> lex_f f ms ci (s ++ [nl]) = Ret (ts ++ [newline], false).
Proof.
  induction 1 as [|c s ts SP R IH|t w s ts W R IH|s]; intros N f Hf; (destruct f as [|f]; [lia|]).
  - cbn [app lex_f]. change (blank nl) with false. cbv iota. rewrite lex1_nl. destruct f; [cbn in Hf; lia|]. reflexivity.
  - cbn [app lex_f]. rewrite blank_space by (intros ->; apply N; cbn; auto). rewrite SP. apply IH; cbn in *; [tauto|lia].
  - destruct (lex1_written W N) as (c & u & -> & SP & E). rewrite <- app_assoc. cbn [app lex_f].
    rewrite blank_space by (intros ->; apply N; cbn; auto). rewrite SP, E. rewrite IH; [reflexivity| |].
    + intro; apply N, in_or_app; auto.
    + cbn in Hf. rewrite app_length in Hf. lia.
  - rewrite <- comment_mark_str in *.
    assert (X : exists c u, comment_mark ms ++ s = c :: u /\ blank c = false) by (destruct ms; eexists _, _; split; reflexivity).
    destruct X as (c & u & E & B). rewrite E in *. cbn [app lex_f]. rewrite B.
    assert (L : lex1 ms ci c (u ++ [nl]) = Ret (mkTok KComment (c :: u), [nl])).
    { unfold lex1. replace (after (comment_mark ms) (c :: u ++ [nl])) with (Some (s ++ [nl])).
      - change (c :: u ++ [nl]) with ((c :: u) ++ [nl]). now rewrite to_eol_nl.
      - symmetry; apply after_iff. rewrite app_assoc, E. reflexivity. }
    rewrite L. destruct f as [|f]; [cbn in Hf; lia|]. cbn [lex_f]. change (blank nl) with false. cbv iota. rewrite lex1_nl.
    destruct f; [cbn in Hf; lia|]. reflexivity.
Qed.
Lemma lex_reads ms ci : forall f s l, lex_f f ms ci (s ++ [nl]) = Ret (l, false) -> ~ In nl s -> exists ts, l = ts ++ [newline] /\ reads ms ci s ts.
Proof.
  induction f as [|f IH]; intros s l H N; [discriminate|]. destruct s as [|c s]; cbn [app lex_f] in H.
  - change (blank nl) with false in H. cbv iota in H. rewrite lex1_nl in H. destruct f; [discriminate|]. injection H as <-.
    exists []; split; auto. constructor.
  - assert (Nc : c <> nl) by (intros ->; apply N; cbn; auto). rewrite blank_space in H by auto. destruct (is_space c) eqn:SP.
    { apply IH in H as (ts & -> & R); [|cbn in N; tauto]. exists ts; split; auto. now constructor. }
    destruct (lex1 ms ci c (s ++ [nl])) as [[t r]| | |] eqn:L; try discriminate.
    apply bind_ret_inv in H as ((ts0 & b) & H1 & H2). injection H2 as <- ->.
    apply lex1_inv in L as [(x & E & -> & ->)|(w & s' & E & NW & -> & W)]; auto.
    + assert (Z : ts0 = [newline]).
      { destruct f; [discriminate|]. cbn [lex_f] in H1. change (blank nl) with false in H1. cbv iota in H1. rewrite lex1_nl in H1.
        destruct f; [discriminate|]. now injection H1 as <-. }
      subst ts0. exists [mkTok KComment (c :: s)]; split; auto. rewrite E, comment_mark_str. apply rd_comment.
    + apply IH in H1 as (ts & -> & R). 2:{ rewrite E in N. intro; apply N, in_or_app; auto. }
      exists (t :: ts); split; auto. rewrite E. now apply rd_token.
Qed.
Lemma to_eol_shorter s : length (snd (to_eol s)) <= length s.
Proof. induction s as [|d s IH]; cbn [to_eol]; auto. destruct (eqc d nl); auto. destruct (to_eol s); cbn in *; lia. Qed.
Lemma span_shorter p s : length (snd (span p s)) <= length s.
Proof. induction s as [|d s IH]; cbn [span]; auto. destruct (p d); auto. destruct (span p s); cbn in *; lia. Qed.
Lemma quote_shorter q k c u t r : quote q k c u = Some (t, r) -> length r <= length u.
Proof.
  unfold quote. destruct (eqc c q); [|discriminate]. destruct (to_quote q u) as [[a b]|] eqn:E; [|discriminate]. injection 1 as <- <-.
  apply to_quote_some in E as (-> & _). rewrite app_length; cbn; lia.
Qed.
Lemma lex1_ends ms ci c u : (exists t r, lex1 ms ci c u = Ret (t, r) /\ length r <= length u) \/ exists x, lex1 ms ci c u = Throw x.
Proof.
  unfold lex1. destruct (after _ _) as [x|] eqn:A.
  { left. apply after_iff in A. assert (c = chr "/") as -> by (destruct ms; injection A as ->; auto). cbn [to_eol].
    change (eqc (chr "/") nl) with false. cbv iota. pose proof (to_eol_shorter u). destruct (to_eol u) as [a b]. eexists _, _; split; eauto. }
  destruct (if ms then None else _) as [[t1 r1]|] eqn:Q1.
  { left; eexists _, _; split; eauto. destruct ms; [discriminate|]. eapply quote_shorter; eauto. }
  destruct (quote (chr "'") KTransp c u) as [[t2 r2]|] eqn:Q2; [left; eexists _, _; split; eauto; eapply quote_shorter; eauto|].
  destruct (quote (chr """") KString c u) as [[t3 r3]|] eqn:Q3; [left; eexists _, _; split; eauto; eapply quote_shorter; eauto|].
  destruct (fixed pairs (c :: u)) as [[t4 r4]|] eqn:F.
  { left; eexists _, _; split; eauto. apply fixed_pairs_some in F as (p & k & I & _ & E). destruct (two_shape I) as (x & y & Ep). rewrite Ep in E.
    cbn [app] in E. injection E as -> ->. cbn; lia. }
  assert (U : exists t r, unquoted ms ci c u = (t, r) /\ length r <= length u).
  { unfold unquoted. destruct (id_first ms c).
    - pose proof (span_shorter (id_other ms) u). destruct (span _ u) as [a b]. eexists _, _; split; eauto.
    - destruct (is_digit c).
      + pose proof (span_shorter is_digit u). destruct (span _ u) as [a b]. eexists _, _; split; eauto.
      + eexists _, _; split; eauto. }
  destruct U as (t & r & U & LU).
  destruct (_ || _); cbn [bind]; [|rewrite U; left; eauto].
  unfold pn_token. destruct (@pn_rest_ends (S (length u)) u) as [(r' & E)|E]; [lia| |]; rewrite E; cbn [bind]; [|eauto].
  destruct (Nat.ltb_spec (length r') (length u)); [left; eexists _, _; split; eauto; lia|rewrite U; left; eauto].
Qed.
Lemma lex_f_ends ms ci : forall f s, length s < f -> exists l b, lex_f f ms ci s = Ret (l, b).
Proof.
  induction f as [|f IH]; intros s Hf; [lia|]. cbn [lex_f]. destruct s as [|c u]; [eauto|]. cbn in Hf.
  destruct (blank c); [apply IH; lia|]. destruct (lex1_ends ms ci c u) as [(t & r & E & L)|(x & E)]; rewrite E; [|eauto].
  destruct (IH r) as (l & b & E2); [lia|]. rewrite E2. cbn [bind]. eauto.
Qed.
Theorem lex_line_iff ms ci s ts : ~ In nl s -> lex_line ms ci (s ++ [nl]) = Ret (ts ++ [newline], false) <-> reads ms ci s ts.
Proof.
  intro N; unfold lex_line; split.
  - intro H; apply lex_reads in H as (ts' & E & R); auto. apply app_inj_tail in E as [-> _]. auto.
  - intro R; apply reads_lex; auto. rewrite app_length; cbn; lia.
Qed.
Theorem lex_line_ends ms ci s : ~ In nl s ->
  (exists ts, lex_line ms ci (s ++ [nl]) = Ret (ts ++ [newline], false) /\ reads ms ci s ts) \/
  (exists l, lex_line ms ci (s ++ [nl]) = Ret (l, true) /\ forall ts, ~ reads ms ci s ts).
Proof.
  intro N. destruct (@lex_f_ends ms ci (S (length (s ++ [nl]))) (s ++ [nl])) as (l & [|] & E); [lia| |].
  - right. exists l. split; auto. intros ts R. apply lex_line_iff in R; auto. unfold lex_line in R. congruence.
  - left. pose proof E as E'. apply lex_reads in E' as (ts & -> & R); auto. exists ts; auto.
Qed.
