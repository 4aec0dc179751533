(* P_Token.v - the tokens of a line. *)
From Verif Require Import Base M_Bell M_PN M_Mslib P_Bell P_PN M_Gsiril M_Parser M_Token Spec_Token.
Set Implicit Arguments. Unset Strict Implicit.
Open Scope nat_scope.

Lemma after_iff p : forall s r, after p s = Some r <-> s = p ++ r.
Proof.
  induction p as [|c p IH]; intros s r; cbn [after app].
  - split; [now injection 1|now intros ->].
  - destruct s as [|d s]; [split; discriminate|]. destruct (eqc c d) eqn:E.
    + apply eqc_true in E as <-. rewrite IH. split; [now intros ->|now injection 1].
    + apply eqc_false in E. split; [discriminate|]. injection 1 as H _. congruence.
Qed.
Lemma after_none p s : after p s = None <-> forall r, s <> p ++ r.
Proof.
  split.
  - intros H r E. apply after_iff in E. congruence.
  - intro H. destruct (after p s) as [r|] eqn:E; auto. apply after_iff in E. now apply H in E.
Qed.

Lemma to_quote_some q s a b : to_quote q s = Some (a, b) -> s = a ++ q :: b /\ ~ In q a /\ ~ In nl a.
Proof.
  revert a b; induction s as [|c s IH]; intros a b; cbn [to_quote]; [discriminate|].
  destruct (eqc c q) eqn:E; [apply eqc_true in E as ->; injection 1 as <- <-; auto|].
  destruct (eqc c nl) eqn:E2; [discriminate|]. apply eqc_false in E, E2.
  destruct (to_quote q s) as [[x y]|]; [|discriminate]. injection 1 as <- <-. destruct (IH _ _ eq_refl) as (-> & A & B).
  repeat split; auto; intros [|]; auto.
Qed.
Lemma to_quote_at q w s : ~ In q w -> ~ In nl w -> to_quote q (w ++ q :: s) = Some (w, s).
Proof.
  induction w as [|c w IH]; intros A B; cbn [to_quote app]; [now rewrite eqc_refl|].
  rewrite (proj2 (eqc_false c q)), (proj2 (eqc_false c nl)) by (intros ->; cbn in *; tauto).
  rewrite IH by (cbn in *; tauto). reflexivity.
Qed.
Lemma to_quote_none q s : q <> nl -> ~ In nl s -> to_quote q (s ++ [nl]) = None <-> ~ In q s.
Proof.
  intros Q; induction s as [|c s IH]; intro B; cbn [to_quote app].
  - rewrite (proj2 (eqc_false nl q)) by congruence. rewrite eqc_refl. tauto.
  - destruct (eqc c q) eqn:E; [apply eqc_true in E as ->; split; [discriminate|cbn; tauto]|].
    rewrite (proj2 (eqc_false c nl)) by (intros ->; cbn in B; tauto). apply eqc_false in E.
    assert (B' : ~ In nl s) by (cbn in B; tauto). apply IH in B'.
    destruct (to_quote q (s ++ [nl])) as [[x y]|]; split; intro H; try discriminate; auto.
    + exfalso. assert (X : ~ In q s) by (cbn in H; tauto). apply B' in X; discriminate.
    + intros [|]; [auto|]. now apply B'.
Qed.

Lemma span_spec p s a b : span p s = (a, b) -> s = a ++ b /\ Forall (fun c => p c = true) a /\ match b with [] => True | c :: _ => p c = false end.
Proof.
  revert a b; induction s as [|c s IH]; intros a b; cbn [span]; [now injection 1 as <- <-|].
  destruct (p c) eqn:E; [|injection 1 as <- <-; auto].
  destruct (span p s) as [x y]. injection 1 as <- <-. destruct (IH _ _ eq_refl) as (-> & F & N). auto.
Qed.
Lemma span_at p w s : Forall (fun c => p c = true) w -> match s with [] => True | c :: _ => p c = false end -> span p (w ++ s) = (w, s).
Proof.
  intros F N; induction F as [|c w H F IH]; cbn [app].
  - destruct s; cbn [span]; auto. now rewrite N.
  - cbn [span]. now rewrite H, IH.
Qed.

Ltac in_cases H :=
  cbn in H; repeat match type of H with _ \/ _ => destruct H as [H|H] end; try contradiction; try (injection H as <- <-).
(* operators of two characters *)
Lemma pairs_two : pairs = map (fun p => (str (fst p), snd p)) two_chars.
Proof. reflexivity. Qed.
Lemma two_shape p k : In (p, k) two_chars -> exists c d, str p = [c; d].
Proof. intro H; in_cases H; cbn; eauto. Qed.
Lemma fixed_some ps s t r : fixed ps s = Some (t, r) -> exists p k, In (p, k) ps /\ t = mkTok k p /\ s = p ++ r.
Proof.
  induction ps as [|[p k] ps IH]; cbn [fixed]; [discriminate|]. destruct (after p s) as [x|] eqn:E.
  - injection 1 as <- <-. apply after_iff in E. exists p, k. cbn; auto.
  - intro H; destruct (IH H) as (p' & k' & I & ?). exists p', k'. cbn; auto.
Qed.
Lemma fixed_pairs_some s t r : fixed pairs s = Some (t, r) -> exists p k, In (p, k) two_chars /\ t = mkTok k (str p) /\ s = str p ++ r.
Proof.
  intro H; apply fixed_some in H as (p & k & I & -> & ->). rewrite pairs_two in I. apply in_map_iff in I as ((q & j) & E & I).
  cbn [fst snd] in E. injection E as <- <-. eauto.
Qed.
Lemma fixed_pairs_at p k r : In (p, k) two_chars -> fixed pairs (str p ++ r) = Some (mkTok k (str p), r).
Proof. intro H; in_cases H; reflexivity. Qed.
Lemma fixed_none ps s : (forall p k, In (p, k) ps -> after p s = None) -> fixed ps s = None.
Proof.
  induction ps as [|[p k] ps IH]; cbn [fixed]; auto. intro H. rewrite (H p k) by (cbn; auto). apply IH. intros; eapply H; cbn; eauto.
Qed.
Lemma fixed_alone c s : alone c s -> fixed pairs (c :: s) = None.
Proof.
  intros A; apply fixed_none. intros p k I. rewrite pairs_two in I. apply in_map_iff in I as ((q & j) & E & I). cbn [fst snd] in E; injection E as <- <-.
  apply after_none. intros r E. destruct (two_shape I) as (x & y & Eq). rewrite Eq in E. cbn [app] in E. injection E as <- ->.
  cbn [alone not_next] in A. apply A. exists q, j; auto.
Qed.
Lemma alone_of_none c s : fixed pairs (c :: s) = None -> alone c s.
Proof.
  intro H; destruct s as [|d s]; cbn; auto. intros (p & k & I & E). pose proof (fixed_pairs_at s I) as X. rewrite E in X. cbn [app] in X. congruence.
Qed.
Lemma alone_nl c s : alone c s -> alone c (s ++ [nl]).
Proof.
  destruct s as [|d s]; cbn [app alone not_next]; auto. intros _ (p & k & I & E).
  in_cases I; discriminate.
Qed.
Lemma alone_cut c s : alone c (s ++ [nl]) -> alone c s.
Proof. destruct s as [|d s]; cbn [app alone not_next]; auto. Qed.
Definition op_first : text := str "?:.&|=!><+-".
Lemma alone_not c s : ~ In c op_first -> alone c s.
Proof.
  intros N; destruct s as [|d s]; cbn [alone not_next]; auto. intros (p & k & I & E). apply N.
  in_cases I; injection E as <- <-; cbn; tauto.
Qed.

(* names and numbers *)
Lemma id_first_iff ms c : id_first ms c = true <-> name_first ms c.
Proof.
  unfold id_first, name_first, letter_, is_alpha, under. rewrite !orb_true_iff, andb_true_iff, !eqc_true. tauto.
Qed.
Lemma id_other_iff ms c : id_other ms c = true <-> name_more ms c.
Proof.
  unfold id_other, name_more, name_first, letter_, is_alnum, under. rewrite !orb_true_iff, andb_true_iff, !orb_true_iff, !eqc_true. cbn [In].
  intuition.
Qed.
Definition special : text := str "/'""?:.&|=!><+-".
Lemma name_plain ms c : name_first ms c -> ~ In c special.
Proof.
  intros H I; cbn in I; repeat match type of I with _ \/ _ => destruct I as [I|I] end; try contradiction; subst c; destruct H as [[H|[H|H]]|[_ H]]; discriminate.
Qed.
Lemma digit_plain c : digit c -> ~ In c special.
Proof. intros H I; cbn in I; repeat match type of I with _ \/ _ => destruct I as [I|I] end; try contradiction; subst c; discriminate. Qed.
Lemma digit_not_name ms c : digit c -> id_first ms c = false.
Proof.
  unfold digit; intro D; destruct (id_first ms c) eqn:E; auto. apply id_first_iff in E as [[H|[H|H]]|[_ ->]]; try (subst; discriminate).
  - unfold is_digit, is_upper in *. apply andb_true_iff in D as [D1 D2], H as [H1 H2]. apply Nat.leb_le in D1, D2, H1, H2. lia.
  - unfold is_digit, is_lower in *. apply andb_true_iff in D as [D1 D2], H as [H1 H2]. apply Nat.leb_le in D1, D2, H1, H2. lia.
Qed.
Lemma name_not_space ms c : name_first ms c -> is_space c = false.
Proof.
  unfold is_space; intros [[H|[H|H]]|[_ ->]]; try (subst; reflexivity); unfold is_upper, is_lower in H;
  apply andb_true_iff in H as [H1 H2]; apply Nat.leb_le in H1, H2; apply orb_false_iff; split;
  try (apply andb_false_iff; right; apply Nat.leb_gt; lia); apply Nat.eqb_neq; lia.
Qed.
Lemma digit_not_space c : digit c -> is_space c = false.
Proof.
  unfold digit, is_space, is_digit; intro H.
  apply andb_true_iff in H as [H1 H2]; apply Nat.leb_le in H1, H2; apply orb_false_iff; split;
  try (apply andb_false_iff; right; apply Nat.leb_gt; lia); apply Nat.eqb_neq; lia.
Qed.

(* place notation *)
Lemma bell_expr_loop_at g s : ~ In (chr "{") g -> ~ In (chr "}") g -> bell_expr_loop (g ++ chr "}" :: s) 0 = chr "}" :: s.
Proof.
  induction g as [|c g IH]; intros A B; cbn [app bell_expr_loop]; [reflexivity|].
  rewrite (proj2 (eqc_false c (chr "}"))), (proj2 (eqc_false c (chr "{"))) by (intros ->; cbn in *; tauto).
  cbn [andb]. change (eqc zero (chr "}")) with false. cbv iota. apply IH; cbn in *; tauto.
Qed.
Lemma bell_expr_loop_deep s : forall d, bell_expr_loop s (S d) = [].
Proof.
  induction s as [|c s IH]; intro d; cbn [bell_expr_loop]; auto. cbn [Nat.eqb]. rewrite andb_false_r. 
  change (eqc zero (chr "}")) with false. cbv iota. destruct (eqc c (chr "{")); auto.
Qed.
Lemma bell_expr_loop_inv s : bell_expr_loop s 0 <> [] -> exists g r, s = g ++ chr "}" :: r /\ ~ In (chr "{") g /\ ~ In (chr "}") g /\ bell_expr_loop s 0 = chr "}" :: r.
Proof.
  induction s as [|c s IH]; cbn [bell_expr_loop]; [congruence|]. cbn [Nat.eqb]. rewrite andb_true_r.
  destruct (eqc c (chr "}")) eqn:E1; [apply eqc_true in E1 as ->; intros _; exists [], s; repeat split; auto|].
  destruct (eqc c (chr "{")) eqn:E2; [rewrite bell_expr_loop_deep; congruence|]. change (eqc zero (chr "}")) with false. cbv iota.
  apply eqc_false in E1, E2.
  intro H; destruct (IH H) as (g & r & -> & A & B & E). exists (c :: g), r. repeat split; auto; intros [|]; auto.
Qed.
Lemma read_bell_expr_at g s : ~ In (chr "{") g -> ~ In (chr "}") g -> read_bell_expr (chr "{" :: g ++ chr "}" :: s) = Ret s.
Proof. intros A B; cbn [read_bell_expr]. rewrite eqc_refl, bell_expr_loop_at by auto. now rewrite eqc_refl. Qed.
Lemma read_bell_expr_inv s r : read_bell_expr (chr "{" :: s) = Ret r -> exists g, s = g ++ chr "}" :: r /\ ~ In (chr "{") g /\ ~ In (chr "}") g.
Proof.
  cbn [read_bell_expr]. rewrite eqc_refl. intro H. destruct (bell_expr_loop s 0) as [|c t] eqn:E; [discriminate|].
  destruct (eqc c (chr "}")); [|discriminate]. injection H as <-.
  destruct (@bell_expr_loop_inv s) as (g & r & -> & A & B & E2); [congruence|]. rewrite E in E2; injection E2 as -> ->. eauto.
Qed.
Definition placeb (c : ascii) : bool := eqc c (chr ".") || eqc c (chr "-") || is_alnum c.
Lemma placeb_iff c : placeb c = true <-> place c.
Proof. unfold placeb, place. rewrite !orb_true_iff, !eqc_true. tauto. Qed.
Definition pn_stop (s : text) : Prop := not_next (fun d => place d \/ d = chr "{") s.
Lemma place_brace c : place c -> eqc c (chr "{") = false.
Proof. intro H; apply eqc_false; intros ->. destruct H as [H|[H|H]]; discriminate. Qed.
Lemma pn_rest_at w s : places w -> pn_stop s -> forall f, length (w ++ s) < f -> pn_rest f (w ++ s) = Ret s.
Proof.
  intros P N; induction P as [|c w Hc P IH|g w A B P IH]; intros f Hf; (destruct f as [|f]; [lia|]).
  - cbn [app pn_rest]. destruct s as [|c s]; auto. cbn in N.
    rewrite (proj2 (eqc_false c (chr "{"))) by (intros ->; tauto).
    fold (placeb c). destruct (placeb c) eqn:E; auto. apply placeb_iff in E. tauto.
  - cbn [app pn_rest]. rewrite place_brace by auto. fold (placeb c). rewrite (proj2 (placeb_iff c) Hc). apply IH. cbn in Hf; lia.
  - cbn [pn_rest]. rewrite <- !app_comm_cons. rewrite <- app_assoc. rewrite <- app_comm_cons. rewrite eqc_refl.
    rewrite read_bell_expr_at by auto. cbn [bind]. apply IH. cbn in Hf. repeat (rewrite app_length in Hf; cbn in Hf). rewrite app_length. lia.
Qed.
Lemma pn_rest_inv : forall f s r, pn_rest f s = Ret r -> exists w, s = w ++ r /\ places w /\ pn_stop r.
Proof.
  induction f as [|f IH]; intros s r; cbn [pn_rest]; [discriminate|]. destruct s as [|c s].
  { injection 1 as <-. exists []; repeat split; constructor. }
  destruct (eqc c (chr "{")) eqn:E.
  - apply eqc_true in E as ->. intro H; apply bind_ret_inv in H as (s' & H1 & H2). apply read_bell_expr_inv in H1 as (g & -> & A & B).
    apply IH in H2 as (w & -> & P & N). exists (chr "{" :: g ++ chr "}" :: w). repeat split; auto; [|now constructor].
    cbn [app]. rewrite <- app_assoc. reflexivity.
  - fold (placeb c). destruct (placeb c) eqn:E2.
    + intro H; apply IH in H as (w & -> & P & N). exists (c :: w); repeat split; auto. constructor; auto. now apply placeb_iff.
    + injection 1 as <-. exists []; repeat split; [constructor|]. cbn. intros [H|H]; [apply placeb_iff in H; congruence|].
      apply eqc_false in E; exact (E H).
Qed.
Lemma read_bell_expr_shorter s r : read_bell_expr s = Ret r -> length r <= length s.
Proof.
  destruct s as [|c s]; [discriminate|]. destruct (eqc c (chr "{")) eqn:E.
  - apply eqc_true in E as ->. intro H; apply read_bell_expr_inv in H as (g & -> & _). cbn. rewrite app_length; cbn; lia.
  - cbn [read_bell_expr]. rewrite E. injection 1 as <-. auto.
Qed.
Lemma pn_rest_ends : forall f s, length s < f -> (exists r, pn_rest f s = Ret r) \/ pn_rest f s = Throw BellInvalid.
Proof.
  induction f as [|f IH]; intros s Hf; [lia|]. cbn [pn_rest]. destruct s as [|c s]; [eauto|].
  destruct (eqc c (chr "{")) eqn:E.
  - apply eqc_true in E as ->. destruct (read_bell_expr (chr "{" :: s)) as [r|x| |] eqn:R; cbn [bind]; auto.
    + apply IH. apply read_bell_expr_inv in R as (g & -> & _). cbn in Hf. rewrite app_length in Hf; cbn in Hf. lia.
    + right. cbn [read_bell_expr] in R. rewrite eqc_refl in R. destruct (bell_expr_loop s 0) as [|c' t]; [congruence|].
      destruct (eqc c' (chr "}")); congruence.
    + cbn [read_bell_expr] in R. rewrite eqc_refl in R. destruct (bell_expr_loop s 0) as [|c' t]; [congruence|].
      destruct (eqc c' (chr "}")); congruence.
    + cbn [read_bell_expr] in R. rewrite eqc_refl in R. destruct (bell_expr_loop s 0) as [|c' t]; [congruence|].
      destruct (eqc c' (chr "}")); congruence.
  - destruct (_ || _); [|eauto]. apply IH. cbn in Hf; lia.
Qed.
Lemma pn_stop_nl s : pn_stop s <-> pn_stop (s ++ [nl]).
Proof. destruct s as [|c s]; cbn; [|tauto]. split; auto. intros _ [[H|[H|H]]|H]; discriminate. Qed.
