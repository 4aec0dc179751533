(* P_Parser3.v - what the grammar derives is what make_expr returns; nothing else is accepted *)
From Verif Require Import Base M_Bell M_Gsiril M_Parser Spec_Parser P_Parser P_Parser2.
Set Implicit Arguments. Unset Strict Implicit.
Open Scope nat_scope.

Lemma assignment_none rec xs : Forall wf xs -> free (ops 0) xs -> assignment rec (flat xs) = Ret None.
Proof. intros W F; unfold assignment; change [KAssign; KAppAssign; KImmAssign] with (ops 0). now rewrite find_first_free. Qed.
Lemma binary_none rec k xs : forall n, n + k = 9 -> Forall wf xs -> (forall j, n <= j < 9 -> free (ops j) xs) ->
  binary rec (map ops (seq n k)) (flat xs) = Ret None.
Proof.
  induction k as [|k IH]; intros n E W F; auto. cbn [seq map binary].
  rewrite find_first_free by (auto; apply F; lia). cbn [bind]. apply IH; auto; [lia|]. intros j Hj; apply F; lia.
Qed.
Lemma binary_some rec k l op r n x y : forall m, m + k = 9 -> m <= n <= 8 -> Forall wf (l ++ Leaf op :: r) ->
  (forall j, m <= j < n -> free (ops j) (l ++ Leaf op :: r)) -> free (ops n) l -> In (tk op) (ops n) -> l <> [] -> r <> [] ->
  rec (flat l) = Ret x -> rec (flat r) = Ret y ->
  binary rec (map ops (seq m k)) (flat (l ++ Leaf op :: r)) = Ret (Some (bin_node (tk op) x y)).
Proof.
  induction k as [|k IH]; intros m E Hm W F Fl I Nl Nr Hx Hy; [lia|]. cbn [seq map binary].
  destruct (Nat.eq_dec m n) as [->|D].
  - rewrite find_first_at by auto; cbn [bind].
    destruct (flat l) eqn:El; [apply flat_nil in El; congruence|]. destruct (flat r) eqn:Er; [apply flat_nil in Er; congruence|].
    rewrite Hx, Hy; reflexivity.
  - rewrite find_first_free by (auto; apply F; lia). cbn [bind]. apply IH; auto; try lia. intros j Hj; apply F; lia.
Qed.

Definition single (xs : list tree) : Prop := match xs with [Group _ _ _] => True | _ => False end.
Lemma step_ends L rec xs t u : Forall wf xs -> ~ single xs -> flat xs = t :: u ->
  expr_step L rec (flat xs) =
  (asg <- assignment rec (flat xs) ;;
   match asg with Some e => Ret e | None =>
   bin <- binary rec bin_levels (flat xs) ;;
   match bin with Some e => Ret e | None => prefix L rec t u end
   end).
Proof.
  intros W N E. assert (Nx : xs <> []). { intros ->; discriminate. }
  assert (E1 := is_enclosed_trees (o := KOParen) (c := KCParen) (or_introl (conj eq_refl eq_refl)) W Nx).
  assert (E2 := is_enclosed_trees (o := KOBrace) (c := KCBrace) (or_intror (or_introl (conj eq_refl eq_refl))) W Nx).
  assert (E3 := is_enclosed_trees (o := KOBrack) (c := KCBrack) (or_intror (or_intror (conj eq_refl eq_refl))) W Nx).
  rewrite E in *. unfold expr_step. rewrite E1, E2, E3.
  destruct xs as [|[v|o b c] [|x' xs]]; try congruence; cbn [bind]; try reflexivity. now exfalso; apply N.
Qed.
Lemma step_prefix L rec t xs : Forall wf (Leaf t :: xs) -> free all_ops (Leaf t :: xs) ->
  expr_step L rec (t :: flat xs) = prefix L rec t (flat xs).
Proof.
  intros W F. rewrite <- flat_leaf, (@step_ends L rec (Leaf t :: xs) t (flat xs)) by auto.
  assert (F' := proj1 (free_all _) F).
  rewrite assignment_none by (auto; apply F'; lia). cbn [bind].
  rewrite bin_levels_ops, binary_none by (auto; intros; apply F'; lia). reflexivity.
Qed.
Lemma step_group L rec o b c : wf (Group o b c) ->
  expr_step L rec (flat [Group o b c]) =
  if tt_eqb (tk o) KOParen then rec (flat b)
  else if tt_eqb (tk o) KOBrace then braces_f L rec (S (S (length (flat b)))) (strip_semis (flat b)) None
  else es <- parse_list_f rec (S (S (length (flat b)))) (flat b) ;; Ret (EArray es).
Proof.
  intro W; assert (W' : Forall wf [Group o b c]) by auto.
  assert (Nx : [Group o b c] <> []) by discriminate.
  assert (E1 := is_enclosed_trees (o := KOParen) (c := KCParen) (or_introl (conj eq_refl eq_refl)) W' Nx).
  assert (E2 := is_enclosed_trees (o := KOBrace) (c := KCBrace) (or_intror (or_introl (conj eq_refl eq_refl))) W' Nx).
  assert (E3 := is_enclosed_trees (o := KOBrack) (c := KCBrack) (or_intror (or_intror (conj eq_refl eq_refl))) W' Nx).
  assert (E : flat [Group o b c] = o :: flat b ++ [c]).
  { rewrite flat_cons, flat1_group; cbn; now rewrite app_nil_r. }
  rewrite E in *; unfold expr_step; rewrite E1, E2, E3; cbn [bind]. rewrite removelast_group.
  rewrite app_length; cbn [length]; rewrite Nat.add_1_r.
  apply wf_inv_group in W as [P _]. destruct P as [[-> _]|[[-> _]|[-> _]]]; reflexivity.
Qed.

Lemma find_last_short ks ts : forall d a t b, find_last ks d ts = Ret (Some (a, t, b)) -> length ts = length a + S (length b).
Proof.
  induction ts as [|x ts IH]; intros d a t b; cbn [find_last]; [destruct (d =? 0)%Z; discriminate|].
  destruct (opens (tk x)).
  { intro H; apply bind_ret_inv in H as ([[[a' t'] b']|] & Hf & H); cbn in H; [injection H as <- <- <-|discriminate].
    apply IH in Hf; cbn; lia. }
  destruct (closes (tk x)).
  { intro H; apply bind_ret_inv in H as ([[[a' t'] b']|] & Hf & H); cbn in H; [injection H as <- <- <-|discriminate].
    apply IH in Hf; cbn; lia. }
  intro H; apply bind_ret_inv in H as ([[[a' t'] b']|] & Hf & H).
  - cbn in H; injection H as <- <- <-. apply IH in Hf; cbn; lia.
  - destruct (_ && _); [|discriminate]. injection H as <- <- <-. reflexivity.
Qed.
Lemma find_first_short ks ts : forall d a t b, find_first ks d ts = Ret (Some (a, t, b)) -> length ts = length a + S (length b).
Proof.
  induction ts as [|x ts IH]; intros d a t b; cbn [find_first]; [destruct (d =? 0)%Z; discriminate|].
  destruct (opens (tk x)).
  { intro H; apply bind_ret_inv in H as ([[[a' t'] b']|] & Hf & H); cbn in H; [injection H as <- <- <-|discriminate].
    apply IH in Hf; cbn; lia. }
  destruct (closes (tk x)).
  { intro H; apply bind_ret_inv in H as ([[[a' t'] b']|] & Hf & H); cbn in H; [injection H as <- <- <-|discriminate].
    apply IH in Hf; cbn; lia. }
  destruct (_ && _).
  - intro H; injection H as <- <- <-. reflexivity.
  - intro H; apply bind_ret_inv in H as ([[[a' t'] b']|] & Hf & H); [|discriminate].
    cbn in H; injection H as <- <- <-. apply IH in Hf; cbn; lia.
Qed.
Lemma drop_semis_short ts : length (drop_semis ts) <= length ts.
Proof. induction ts as [|t ts IH]; cbn; auto. destruct (tt_eqb (tk t) KSemi); cbn; lia. Qed.
Lemma strip_semis_short ts : length (strip_semis ts) <= length ts.
Proof. unfold strip_semis; rewrite rev_length. pose proof (drop_semis_short (rev ts)). rewrite rev_length in H; auto. Qed.

Lemma braces_fuel L rec f1 : forall f2 ts o, length ts < f1 -> length ts < f2 -> braces_f L rec f1 ts o = braces_f L rec f2 ts o.
Proof.
  induction f1 as [|f1 IH]; intros [|f2] ts o H1 H2; try lia. cbn [braces_f].
  destruct (find_last [KSemi] 0 ts) as [[[[a t] b]|]| | |] eqn:E; cbn [bind]; auto.
  destruct (alternative L rec b) as [[x y]| | |]; cbn [bind]; auto.
  apply find_last_short in E. pose proof (strip_semis_short a). apply IH; lia.
Qed.

Section Complete.
Variable L : lits.
Let QG (n : nat) (xs : list tree) (e : expr) : Prop :=
  Forall wf xs -> forall f, length (flat xs) < f -> make_expr_f L f (flat xs) = Ret e.
Let QM (xs : list tree) (e : expr) : Prop :=
  Forall wf xs -> forall f, length (flat xs) < f -> match flat xs with [] => Ret ENop | _ => make_expr_f L f (flat xs) end = Ret e.
Let QA (xs : list tree) (t e : expr) : Prop :=
  Forall wf xs -> forall f, length (flat xs) < f -> alternative L (make_expr_f L f) (flat xs) = Ret (t, e).
Let QB (xs : list tree) (e : expr) : Prop :=
  Forall wf xs -> forall f g, length (flat xs) < f -> length (flat xs) < g ->
  braces_f L (make_expr_f L f) g (strip_semis (flat xs)) None = Ret e.
Let QR (ys : list tree) (o : option expr) : Prop :=
  forall p s e f g, Forall wf (p ++ Leaf s :: ys) -> tk s = KSemi ->
  length (flat (p ++ Leaf s :: ys)) < f -> length (flat (p ++ Leaf s :: ys)) < g ->
  braces_f L (make_expr_f L f) g (strip_semis (flat p)) o = Ret e ->
  braces_f L (make_expr_f L f) g (strip_semis (flat (p ++ Leaf s :: ys))) None = Ret e.
Let QI (xs : list tree) (es : list expr) : Prop :=
  Forall wf xs -> forall f g, length (flat xs) < f -> length (flat xs) < g -> parse_list_f (make_expr_f L f) g (flat xs) = Ret es.
Let QAs (xs : list tree) (es : list expr) : Prop :=
  Forall wf xs -> forall f, length (flat xs) < f -> make_args (make_expr_f L f) (flat xs) = Ret es.
Let QA1 (xs : list tree) (es : list expr) : Prop :=
  Forall wf xs -> xs <> [] /\
  forall f g, length (flat xs) < f -> length (flat xs) < g -> make_args_f (make_expr_f L f) g (flat xs) = Ret es.

Lemma strip_semi p s : tk s = KSemi -> strip_semis (flat (p ++ [Leaf s])) = strip_semis (flat p).
Proof. intro K; unfold strip_semis; rewrite flat_app, rev_app_distr; cbn. now rewrite K. Qed.
Lemma strip_free p xs : Forall wf xs -> xs <> [] -> free [KSemi] xs -> strip_semis (flat (p ++ xs)) = flat (p ++ xs).
Proof.
  intros W N F. destruct (@last_flat xs (mkTok KOdd []) W N) as (t & ts & E & _ & H).
  assert (K : tk t <> KSemi).
  { destruct H as [[ys ->]|H]; [|intro K; rewrite K in H; discriminate].
    apply free_app in F as [_ F]; apply free_leaf in F as [F _]. intro K; apply F; rewrite K; cbn; auto. }
  unfold strip_semis; rewrite flat_app, E, app_assoc, rev_app_distr; cbn [rev app drop_semis].
  destruct (tt_eqb_spec (tk t) KSemi); [congruence|]. cbn [rev]; now rewrite rev_involutive.
Qed.
Lemma strip_free' xs : Forall wf xs -> free [KSemi] xs -> strip_semis (flat xs) = flat xs.
Proof. intros W F; destruct xs as [|x xs]; auto. now apply (@strip_free [] (x :: xs)). Qed.
Lemma flat_length_app a b : length (flat (a ++ b)) = length (flat a) + length (flat b).
Proof. now rewrite flat_app, app_length. Qed.
Lemma flat_length_leaf t b : length (flat (Leaf t :: b)) = S (length (flat b)).
Proof. reflexivity. Qed.
Lemma flat_length_group o a c b : length (flat (Group o a c :: b)) = S (S (length (flat a) + length (flat b))).
Proof. rewrite flat_cons, flat1_group; cbn [app length]; rewrite !app_length; cbn; fold (flat a). lia. Qed.

Lemma last_alternative f p s xs o t e : Forall wf (p ++ Leaf s :: xs) -> tk s = KSemi -> xs <> [] -> free [KSemi] xs -> QA xs t e ->
  length (flat xs) < f -> forall g r, length (flat (p ++ Leaf s :: xs)) < g ->
  braces_f L (make_expr_f L f) g (strip_semis (flat p)) (Some (EIf t e o)) = Ret r ->
  braces_f L (make_expr_f L f) g (strip_semis (flat (p ++ Leaf s :: xs))) o = Ret r.
Proof.
  intros W K N F A Hf g r Hg H. apply wf_mid in W as W'. destruct W' as (Wp & _ & _ & Wx).
  assert (E : p ++ Leaf s :: xs = (p ++ [Leaf s]) ++ xs) by (now rewrite <- app_assoc).
  rewrite E, strip_free, <- E by auto. destruct g as [|g]; [lia|]. cbn [braces_f].
  rewrite find_last_at by (auto; rewrite K; cbn; auto). cbn [bind]. rewrite (A Wx f Hf). cbn [bind].
  rewrite flat_length_app, flat_length_leaf in Hg. pose proof (strip_semis_short (flat p)).
  rewrite <- H. apply braces_fuel; lia.
Qed.

Lemma prefix_word L' rec t xs s : word s t -> Forall wf (Leaf t :: xs) -> free all_ops xs ->
  expr_step L' rec (t :: flat xs) = prefix L' rec t (flat xs).
Proof.
  intros [K _] W F; apply step_prefix; auto. apply free_leaf; split; auto. rewrite K; cbn; intuition discriminate.
Qed.
Lemma not_word s s' t : word s t -> s <> s' -> is_word (str s') t = false.
Proof.
  intros [K E] N; unfold is_word. rewrite E. destruct (text_eqb_spec (str s) (str s')) as [D|]; [|now rewrite andb_false_r].
  exfalso; apply N. unfold str in D. rewrite <- (string_of_list_ascii_of_string s), D. apply string_of_list_ascii_of_string.
Qed.
Lemma kind_not_word s t : tk t <> KName -> is_word (str s) t = false.
Proof. intro K; unfold is_word. destruct (tt_eqb_spec (tk t) KName); [congruence|reflexivity]. Qed.
Lemma not_word' s t : ~ word s t -> is_word (str s) t = false.
Proof. intro N; destruct (is_word (str s) t) eqn:E; auto. apply is_word_iff in E; contradiction. Qed.
Lemma gram9_all L' xs e : gram L' 9 xs e -> free all_ops xs.
Proof. intro G; apply gram_free in G as (_ & _ & G). now apply free_all. Qed.
Lemma defined_not t u : is_word (str "defined") t = false -> defined_op t u = None.
Proof. unfold defined_op; now intros ->. Qed.

Lemma find_asg x op xs : tk x = KName -> In (tk op) (ops 0) -> Forall wf (Leaf x :: Leaf op :: xs) ->
  find_first [KAssign; KAppAssign; KImmAssign] 0 (flat (Leaf x :: Leaf op :: xs)) = Ret (Some ([x], op, flat xs)).
Proof.
  intros K I W. apply (@find_first_at (ops 0) [Leaf x] op xs); auto.
  apply free_leaf; split; [rewrite K; cbn; intuition discriminate|apply free_nil].
Qed.

Theorem complete :
  (forall n xs e, gram L n xs e -> QG n xs e) /\ (forall xs e, maybe L xs e -> QM xs e) /\
  (forall xs t e, alt L xs t e -> QA xs t e) /\ (forall xs e, block L xs e -> QB xs e) /\
  (forall xs o, rest L xs o -> QR xs o) /\ (forall xs es, items L xs es -> QI xs es) /\
  (forall xs es, args L xs es -> QAs xs es) /\ (forall xs es, args1 L xs es -> QA1 xs es).
Proof.
  apply gram_all.
  - (* assign *) intros x op xs e Kx Ko G IH W [|f] Hf; [lia|]. cbn [make_expr_f].
    rewrite (@step_ends L _ (Leaf x :: Leaf op :: xs) x (op :: flat xs)) by auto.
    unfold assignment; rewrite find_asg by (auto; rewrite Ko; cbn; auto). cbn [bind]. rewrite Kx, Ko. cbn [tt_eqb negb tt_eq_dec].
    inversion W as [|? ? _ W1]; subst; inversion W1 as [|? ? _ W2]; subst.
    apply gram_free in G as (N & _). destruct (flat xs) eqn:E; [apply flat_nil in E; congruence|]. rewrite <- E.
    rewrite !flat_length_leaf in Hf. rewrite (IH W2 f) by lia. reflexivity.
  - intros x op Kx Ko W [|f] Hf; [lia|]. cbn [make_expr_f].
    rewrite (@step_ends L _ [Leaf x; Leaf op] x [op]) by auto.
    unfold assignment; rewrite find_asg by (auto; rewrite Ko; cbn; auto). cbn [bind]. rewrite Kx, Ko. reflexivity.
  - intros x op xs e Kx Ko G IH W [|f] Hf; [lia|]. cbn [make_expr_f].
    rewrite (@step_ends L _ (Leaf x :: Leaf op :: xs) x (op :: flat xs)) by auto.
    unfold assignment; rewrite find_asg by (auto; rewrite Ko; cbn; auto). cbn [bind]. rewrite Kx, Ko. cbn [tt_eqb negb tt_eq_dec].
    inversion W as [|? ? _ W1]; subst; inversion W1 as [|? ? _ W2]; subst.
    apply gram_free in G as (N & _). destruct (flat xs) eqn:E; [apply flat_nil in E; congruence|]. rewrite <- E.
    rewrite !flat_length_leaf in Hf. rewrite (IH W2 f) by lia. reflexivity.
  - intros x op xs e Kx Ko G IH W [|f] Hf; [lia|]. cbn [make_expr_f].
    rewrite (@step_ends L _ (Leaf x :: Leaf op :: xs) x (op :: flat xs)) by auto.
    unfold assignment; rewrite find_asg by (auto; rewrite Ko; cbn; auto). cbn [bind]. rewrite Kx, Ko. cbn [tt_eqb negb tt_eq_dec].
    inversion W as [|? ? _ W1]; subst; inversion W1 as [|? ? _ W2]; subst.
    apply gram_free in G as (N & _). destruct (flat xs) eqn:E; [apply flat_nil in E; congruence|]. rewrite <- E.
    rewrite !flat_length_leaf in Hf. rewrite (IH W2 f) by lia. reflexivity.
  - (* binary *) intros n l op r e1 e2 e Hn I O G1 IH1 G2 IH2 W [|f] Hf; [lia|]. cbn [make_expr_f].
    apply gram_free in G1 as (N1 & _ & F1), G2 as (N2 & _ & F2).
    assert (F : forall j, j < n -> free (ops j) (l ++ Leaf op :: r)).
    { intros j Hj; apply free_app; split; [apply F1; lia|]. apply free_leaf; split; [|apply F2; lia].
      intro K; apply ops_level in K; apply ops_level in I; lia. }
    apply wf_mid in W as W'; destruct W' as (Wl & _ & _ & Wr).
    rewrite flat_length_app, flat_length_leaf in Hf.
    assert (exists t u, flat (l ++ Leaf op :: r) = t :: u) as (t & u & E).
    { destruct (flat (l ++ Leaf op :: r)) eqn:E; eauto. apply flat_nil in E. now apply nonempty_tail in E. }
    rewrite (@step_ends L _ (l ++ Leaf op :: r) t u); auto.
    2:{ destruct l as [|[v|o b c] [|x' l]]; try congruence; cbn; auto. }
    rewrite assignment_none by (auto; apply F; lia). cbn [bind].
    rewrite bin_levels_ops, (@binary_some _ 8 l op r n e1 e2); auto; try lia.
    + cbn [bind]. now rewrite (op_node_bin O).
    + intros j Hj; apply F; lia.
    + apply IH1; auto; lia.
    + apply IH2; auto; lia.
  - intros n xs e Hn G IH; exact IH.
  - (* parentheses *) intros o b c e K G IH W [|f] Hf; [lia|]. cbn [make_expr_f].
    inversion W as [|? ? Wg _]; subst. rewrite step_group, K, tt_eqb_refl by auto.
    apply wf_inv_group in Wg as [_ Wb]. rewrite flat_length_group in Hf; cbn in Hf. apply IH; auto; lia.
  - intros o b c e K B IH W [|f] Hf; [lia|]. cbn [make_expr_f].
    inversion W as [|? ? Wg _]; subst. rewrite step_group, K by auto. cbn [tt_eqb tt_eq_dec].
    apply wf_inv_group in Wg as [_ Wb]. rewrite flat_length_group in Hf; cbn in Hf. apply IH; auto; lia.
  - intros o b c es K B IH W [|f] Hf; [lia|]. cbn [make_expr_f].
    inversion W as [|? ? Wg _]; subst. rewrite step_group, K by auto. cbn [tt_eqb tt_eq_dec].
    apply wf_inv_group in Wg as [_ Wb]. rewrite flat_length_group in Hf; cbn in Hf. rewrite IH by (auto; lia). reflexivity.
  - (* defined *) intros d x Wd K W [|f] Hf; [lia|]. cbn [make_expr_f]. rewrite flat_leaf.
    rewrite (prefix_word _ _ Wd W) by (apply free_leaf; split; [rewrite K; cbn; intuition discriminate|apply free_nil]).
    unfold prefix, defined_op. apply is_word_iff in Wd; rewrite Wd. change (flat [Leaf x]) with [x]. cbn iota. now rewrite K.
  - intros d o x c Wd K1 K2 W [|f] Hf; [lia|]. cbn [make_expr_f]. rewrite flat_leaf.
    rewrite (prefix_word _ _ Wd W) by (apply free_group, free_nil).
    unfold prefix, defined_op. apply is_word_iff in Wd; rewrite Wd. change (flat [Group o [Leaf x] c]) with [o; x; c]. cbn iota.
    inversion W as [|? ? _ W1]; subst; inversion W1 as [|? ? Wg _]; subst. apply wf_inv_group in Wg as [P _].
    rewrite K1, K2 in *. destruct P as [[_ P]|[[P _]|[P _]]]; try discriminate. now rewrite P.
  - (* n times *) intros t xs z e K Z G IH W [|f] Hf; [lia|]. cbn [make_expr_f]. rewrite flat_leaf.
    rewrite step_prefix; auto.
    2:{ apply free_leaf; split; [rewrite K; cbn; intuition discriminate|eapply gram9_all; eauto]. }
    unfold prefix. rewrite defined_not by (apply kind_not_word; congruence). rewrite K, tt_eqb_refl.
    inversion W as [|? ? _ W1]; subst. apply gram_free in G as (N & _). destruct (flat xs) eqn:E; [apply flat_nil in E; congruence|].
    rewrite <- E. cbn [andb negb orb]. rewrite Z. cbn [bind]. rewrite flat_length_leaf in Hf. rewrite IH by (auto; lia). reflexivity.
  - intros t xs e Wd G IH W [|f] Hf; [lia|]. cbn [make_expr_f]. rewrite flat_leaf.
    rewrite (prefix_word _ _ Wd W) by (eapply gram9_all; eauto).
    unfold prefix. rewrite defined_not by (eapply not_word; [exact Wd|discriminate]).
    apply is_word_iff in Wd as Wd'; rewrite Wd', orb_true_r. destruct Wd as [K _]. rewrite K. cbn [tt_eqb tt_eq_dec].
    inversion W as [|? ? _ W1]; subst. apply gram_free in G as (N & _). destruct (flat xs) eqn:E; [apply flat_nil in E; congruence|].
    rewrite <- E. cbn [bind]. rewrite flat_length_leaf in Hf. rewrite IH by (auto; lia). reflexivity.
  - (* ++ *) intros p x junk K1 K2 F W [|f] Hf; [lia|]. cbn [make_expr_f]. rewrite flat_leaf.
    rewrite step_prefix; auto.
    2:{ apply free_leaf; split; [rewrite K1; cbn; intuition discriminate|]. apply free_leaf; split; auto. rewrite K2; cbn; intuition discriminate. }
    unfold prefix. rewrite defined_not, (@kind_not_word "repeat") by (apply kind_not_word || idtac; congruence).
    rewrite K1; cbn [tt_eqb tt_eq_dec andb orb]. rewrite flat_leaf; cbn [unary_arg]. rewrite K2. reflexivity.
  - intros p x junk K1 K2 F W [|f] Hf; [lia|]. cbn [make_expr_f]. rewrite flat_leaf.
    rewrite step_prefix; auto.
    2:{ apply free_leaf; split; [rewrite K1; cbn; intuition discriminate|]. apply free_leaf; split; auto. rewrite K2; cbn; intuition discriminate. }
    unfold prefix. rewrite defined_not, (@kind_not_word "repeat") by (apply kind_not_word || idtac; congruence).
    rewrite K1; cbn [tt_eqb tt_eq_dec andb orb]. rewrite flat_leaf; cbn [unary_arg]. rewrite K2. reflexivity.
  - (* echo *) intros t x junk Wd K F W [|f] Hf; [lia|]. cbn [make_expr_f]. rewrite flat_leaf.
    rewrite (prefix_word _ _ Wd W) by (apply free_leaf; split; auto; rewrite K; cbn; intuition discriminate).
    unfold prefix. rewrite defined_not by (eapply not_word; [exact Wd|discriminate]).
    rewrite (@not_word _ "repeat" _ Wd) by discriminate. apply is_word_iff in Wd as Wd'; rewrite Wd'.
    destruct Wd as [Kt _]; rewrite Kt; cbn [tt_eqb tt_eq_dec andb orb]. rewrite flat_leaf; cbn [unary_arg]. rewrite K. reflexivity.
  - intros t x junk Wd K F W [|f] Hf; [lia|]. cbn [make_expr_f]. rewrite flat_leaf.
    rewrite (prefix_word _ _ Wd W) by (apply free_leaf; split; auto; rewrite K; cbn; intuition discriminate).
    unfold prefix. rewrite defined_not by (eapply not_word; [exact Wd|discriminate]).
    rewrite (@not_word _ "repeat" _ Wd), (@not_word _ "echo" _ Wd) by discriminate. apply is_word_iff in Wd as Wd'; rewrite Wd'.
    destruct Wd as [Kt _]; rewrite Kt; cbn [tt_eqb tt_eq_dec andb orb]. rewrite flat_leaf; cbn [unary_arg]. rewrite K. reflexivity.
  - (* ~ *) intros p xs e K G IH W [|f] Hf; [lia|]. cbn [make_expr_f]. rewrite flat_leaf.
    rewrite step_prefix; auto.
    2:{ apply free_leaf; split; [rewrite K; cbn; intuition discriminate|eapply gram9_all; eauto]. }
    unfold prefix. rewrite defined_not by (apply kind_not_word; congruence).
    rewrite !kind_not_word by congruence. rewrite K; cbn [tt_eqb tt_eq_dec andb orb].
    inversion W as [|? ? _ W1]; subst. apply gram_free in G as (N & _). destruct (flat xs) eqn:E; [apply flat_nil in E; congruence|].
    rewrite <- E. rewrite flat_length_leaf in Hf. pose proof (IH W1 f ltac:(lia)) as IH'. rewrite !IH'. reflexivity.
  - intros p xs e K G IH W [|f] Hf; [lia|]. cbn [make_expr_f]. rewrite flat_leaf.
    rewrite step_prefix; auto.
    2:{ apply free_leaf; split; [rewrite K; cbn; intuition discriminate|eapply gram9_all; eauto]. }
    unfold prefix. rewrite defined_not by (apply kind_not_word; congruence).
    rewrite !kind_not_word by congruence. rewrite K; cbn [tt_eqb tt_eq_dec andb orb].
    inversion W as [|? ? _ W1]; subst. apply gram_free in G as (N & _). destruct (flat xs) eqn:E; [apply flat_nil in E; congruence|].
    rewrite <- E. rewrite flat_length_leaf in Hf. pose proof (IH W1 f ltac:(lia)) as IH'. rewrite !IH'. reflexivity.
  - (* call *) intros t o b c es K1 K2 N1 N2 N3 N4 A IH W [|f] Hf; [lia|]. cbn [make_expr_f]. rewrite flat_leaf.
    rewrite step_prefix; auto.
    2:{ apply free_leaf; split; [rewrite K1; cbn; intuition discriminate|apply free_group, free_nil]. }
    inversion W as [|? ? _ W1]; subst. inversion W1 as [|? ? Wg _]; subst. pose proof (wf_inv_group Wg) as [P Wb].
    unfold prefix. replace (defined_op t (flat [Group o b c])) with (@None expr).
    2:{ symmetry; unfold defined_op. destruct (is_word (str "defined") t) eqn:Wd; auto. apply is_word_iff in Wd.
        rewrite flat_cons, flat1_group; cbn [flat flat_map]; rewrite app_nil_r; fold (flat b).
        destruct (flat b) as [|x [|? [|? ?]]] eqn:Eb; cbn [app]; auto.
        destruct (_ && _ && tt_eqb (tk x) KName) eqn:D; auto. exfalso; apply N4; split; auto.
          apply andb_true_iff in D as [_ D]; apply tt_eqb_true in D. exists x; split; auto. now apply flat_single. }
    rewrite (not_word' N1), (not_word' N2), (not_word' N3), K1. cbn [tt_eqb tt_eq_dec andb orb].
    rewrite is_enclosed_trees, K2 by (auto; try discriminate; left; auto).
    assert (E : flat [Group o b c] = o :: flat b ++ [c]).
    { rewrite flat_cons, flat1_group; cbn; now rewrite app_nil_r. }
    rewrite E. cbn [length]; rewrite app_length; cbn [length]; rewrite Nat.add_1_r. cbn [Nat.leb andb bind tl]. rewrite tt_eqb_refl.
    rewrite removelast_group. rewrite flat_length_leaf, flat_length_group in Hf. cbn in Hf. rewrite IH by (auto; lia). reflexivity.
  - (* literals *) intros s K W [|f] Hf; [lia|]. cbn [make_expr_f]. rewrite flat_leaf, step_prefix; auto.
    2:{ apply free_leaf; split; [rewrite K; cbn; intuition discriminate|apply free_nil]. }
    unfold prefix. rewrite defined_not by (apply kind_not_word; congruence). rewrite !kind_not_word by congruence.
    unfold literal; rewrite K; reflexivity.
  - intros t e K Wn W [|f] Hf; [lia|]. cbn [make_expr_f]. rewrite flat_leaf, step_prefix; auto.
    2:{ apply free_leaf; split; [rewrite K; cbn; intuition discriminate|apply free_nil]. }
    unfold prefix. change (flat []) with (@nil token). unfold defined_op. replace (if is_word (str "defined") t then None else None) with (@None expr) by (now destruct is_word).
    unfold is_word, literal; rewrite K; cbn [tt_eqb tt_eq_dec andb orb negb length Nat.leb bind].
    destruct t as [k s]; cbn [tk tx] in *. destruct Wn; try reflexivity.
    cbn [map] in H. repeat match goal with |- context [list_ascii_eqb ?a ?b] => destruct (text_eqb_spec a b) as [E|?]; [exfalso; apply H; rewrite E; cbn; tauto|] end.
    reflexivity.
  - intros s e K E W [|f] Hf; [lia|]. cbn [make_expr_f]. rewrite flat_leaf, step_prefix; auto.
    2:{ apply free_leaf; split; [rewrite K; cbn; intuition discriminate|apply free_nil]. }
    unfold prefix. rewrite defined_not by (apply kind_not_word; congruence). rewrite !kind_not_word by congruence.
    unfold literal; rewrite K; exact E.
  - intros s e K E W [|f] Hf; [lia|]. cbn [make_expr_f]. rewrite flat_leaf, step_prefix; auto.
    2:{ apply free_leaf; split; [rewrite K; cbn; intuition discriminate|apply free_nil]. }
    unfold prefix. rewrite defined_not by (apply kind_not_word; congruence). rewrite !kind_not_word by congruence.
    unfold literal; rewrite K; exact E.
  - intros s e K E W [|f] Hf; [lia|]. cbn [make_expr_f]. rewrite flat_leaf, step_prefix; auto.
    2:{ apply free_leaf; split; [rewrite K; cbn; intuition discriminate|apply free_nil]. }
    unfold prefix. rewrite defined_not by (apply kind_not_word; congruence). rewrite !kind_not_word by congruence.
    unfold literal; rewrite K; exact E.
  - intros s z K E W [|f] Hf; [lia|]. cbn [make_expr_f]. rewrite flat_leaf, step_prefix; auto.
    2:{ apply free_leaf; split; [rewrite K; cbn; intuition discriminate|apply free_nil]. }
    unfold prefix. rewrite defined_not by (apply kind_not_word; congruence). rewrite !kind_not_word by congruence.
    unfold literal; rewrite K, E; reflexivity.
  - (* maybe *) intros W f Hf; reflexivity.
  - intros xs e G IH W f Hf. apply gram_free in G as (N & _). destruct (flat xs) eqn:E; [apply flat_nil in E; congruence|].
    rewrite <- E in *. now apply IH.
  - (* alternatives *) intros xs c ys t e F K G IH M IHM W f Hf. unfold alternative.
    apply wf_mid in W as W'; destruct W' as (Wx & _ & _ & Wy). rewrite flat_length_app, flat_length_leaf in Hf.
    rewrite find_first_at by (auto; rewrite K; cbn; auto). cbn [bind]. rewrite IH, (IHM Wy f) by (auto; lia). reflexivity.
  - intros xs t e F E M IHM W f Hf. unfold alternative. rewrite find_first_free by auto. cbn [bind]. rewrite E. cbn [bind].
    rewrite (IHM W f Hf). reflexivity.
  - (* blocks *) intros xs t e F A IH W f g Hf Hg. rewrite strip_free' by auto. destruct g as [|g]; [lia|]. cbn [braces_f].
    rewrite find_last_free by auto; cbn [bind]. rewrite IH by auto. reflexivity.
  - intros xs s ys t e o F K A IH Rs IHR W f g Hf Hg. apply IHR; auto.
    apply wf_mid in W as W'; destruct W' as (Wx & _ & _ & _). rewrite flat_length_app, flat_length_leaf in Hf, Hg.
    rewrite strip_free' by auto. destruct g as [|g]; [lia|]. cbn [braces_f].
    rewrite find_last_free by auto; cbn [bind]. rewrite IH by (auto; lia). reflexivity.
  - (* rest *) intros p s e f g W K Hf Hg H. now rewrite strip_semi.
  - intros s ys o K Rs IH p s0 e f g W K0 Hf Hg H.
    assert (E : p ++ Leaf s0 :: Leaf s :: ys = (p ++ [Leaf s0]) ++ Leaf s :: ys) by (now rewrite <- app_assoc).
    rewrite E in *. apply IH; auto. now rewrite strip_semi.
  - intros xs t e N F A IH p s r f g W K Hf Hg H. rewrite flat_length_app, flat_length_leaf in Hf.
    eapply last_alternative; eauto; lia.
  - intros xs s ys t e o N F K A IH Rs IHR p s0 r f g W K0 Hf Hg H.
    assert (E : p ++ Leaf s0 :: xs ++ Leaf s :: ys = (p ++ Leaf s0 :: xs) ++ Leaf s :: ys) by (now rewrite <- app_assoc).
    rewrite E in *. apply IHR; auto. apply wf_mid in W as (W & _). rewrite !flat_length_app, !flat_length_leaf in Hf, Hg.
    eapply last_alternative; eauto; rewrite ?flat_length_app, ?flat_length_leaf; lia.
  - (* items *) intros W f [|g] Hf Hg; [lia|]. reflexivity.
  - intros xs e F G IH W f [|g] Hf Hg; [lia|]. cbn [parse_list_f]. rewrite find_first_free by auto; cbn [bind].
    apply gram_free in G as (N & _). destruct (flat xs) eqn:E; [apply flat_nil in E; congruence|]. rewrite <- E in *.
    rewrite IH by auto. reflexivity.
  - intros xs c ys e es F K G IH I IHI W f [|g] Hf Hg; [lia|]. cbn [parse_list_f].
    apply wf_mid in W as W'; destruct W' as (Wx & _ & _ & Wy). rewrite flat_length_app, flat_length_leaf in Hf, Hg.
    rewrite find_first_at by (auto; rewrite K; cbn; auto). cbn [bind]. rewrite IH, IHI by (auto; lia). reflexivity.
  - (* args *) intros W f Hf; reflexivity.
  - intros xs es A IH W f Hf. destruct (IH W) as [N IH']. unfold make_args.
    destruct (flat xs) eqn:E; [apply flat_nil in E; congruence|]. rewrite <- E in *. apply IH'; auto.
  - intros xs e F G IH W. pose proof (gram_free G) as (N & _). split; auto. intros f [|g] Hf Hg; [lia|]. cbn [make_args_f].
    rewrite find_first_free by auto; cbn [bind].
    destruct (flat xs) eqn:E; [apply flat_nil in E; congruence|]. rewrite <- E in *. rewrite IH by auto. reflexivity.
  - intros xs c ys e es F K G IH A IHA W. split; [apply nonempty_tail|]. intros f [|g] Hf Hg; [lia|]. cbn [make_args_f].
    apply wf_mid in W as W'; destruct W' as (Wx & _ & _ & Wy). rewrite flat_length_app, flat_length_leaf in Hf, Hg.
    destruct (IHA Wy) as [_ IHA'].
    rewrite find_first_at by (auto; rewrite K; cbn; auto). cbn [bind].
    apply gram_free in G as (N & _). destruct (flat xs) eqn:E; [apply flat_nil in E; congruence|]. rewrite <- E in *.
    rewrite IH, IHA' by (auto; lia). reflexivity.
Qed.
End Complete.

Theorem make_expr_gram L xs e : Forall wf xs -> make_expr L (flat xs) = Ret e <-> gram L 0 xs e.
Proof.
  intro W; split.
  - apply make_expr_f_sound; auto.
  - intro G; unfold make_expr. destruct (complete L) as (C & _). apply (C _ _ _ G); auto.
Qed.
