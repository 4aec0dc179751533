(* P_Parser2.v - make_expr accepts what the grammar derives *)
From Verif Require Import Base M_Bell M_Gsiril M_Parser Spec_Parser P_Parser.
Set Implicit Arguments. Unset Strict Implicit.
Open Scope nat_scope.

Scheme gram_mut := Minimality for gram Sort Prop
  with maybe_mut := Minimality for maybe Sort Prop
  with alt_mut := Minimality for alt Sort Prop
  with block_mut := Minimality for block Sort Prop
  with rest_mut := Minimality for rest Sort Prop
  with items_mut := Minimality for items Sort Prop
  with args_mut := Minimality for args Sort Prop
  with args1_mut := Minimality for args1 Sort Prop.
Combined Scheme gram_all from gram_mut, maybe_mut, alt_mut, block_mut, rest_mut, items_mut, args_mut, args1_mut.

Definition level_of (k : tt) : nat :=
  match k with
  | KAssign | KAppAssign | KImmAssign => 0 | KComma => 1 | KOr => 2 | KAnd => 3
  | KEq | KNe | KGreater | KLess | KGe | KLe => 4 | KMerge => 5 | KLsh | KRsh => 6
  | KPlus | KMinus => 7 | KTimes | KAppend | KDivide | KModulo => 8 | _ => 9
  end.
Lemma ops_level k n : In k (ops n) -> level_of k = n.
Proof.
  do 9 (destruct n as [|n]; [cbn; intro H; repeat (destruct H as [<-|H]; [reflexivity|]); destruct H|]).
  intros [].
Qed.
Lemma level_ops k n : n <= 8 -> level_of k = n -> In k (ops n).
Proof. intros Hn <-; destruct k; cbn in Hn |- *; try lia; tauto. Qed.
Lemma free_all xs : free all_ops xs <-> forall j, j < 9 -> free (ops j) xs.
Proof.
  unfold all_ops; split.
  - intros F j Hj; unfold free in *. eapply Forall_impl; [|exact F]. intros [t|o b c]; auto.
    intros N I; apply N. apply in_flat_map. exists j; split; auto. apply in_seq; lia.
  - intros F; unfold free. apply Forall_forall; intros [t|o b c] I; auto. intro K.
    apply in_flat_map in K as (j & Hj & K). apply in_seq in Hj.
    specialize (F j ltac:(lia)). unfold free in F; rewrite Forall_forall in F. exact (F _ I K).
Qed.
Lemma not_op_free k t xs : level_of (tk t) = 9 -> k <= 8 -> free (ops k) xs -> free (ops k) (Leaf t :: xs).
Proof. intros E Hk F; apply free_leaf; split; auto; intro I; apply ops_level in I; lia. Qed.

(* A phrase is free of the operators below its level, and is not empty. *)
Lemma gram_free L n xs e : gram L n xs e -> xs <> [] /\ n <= 9 /\ forall j, j < n -> free (ops j) xs.
Proof.
  induction 1 as [x op xs e Kx Ko G IH|x op Kx Ko|x op xs e Kx Ko G IH|x op xs e Kx Ko G IH
    |n l op r e1 e2 e Hn I N G1 IH1 G2 IH2|n xs e Hn G IH|o b c e K G IH|o b c e K B|o b c es K I
    |d x W K|d o x c W K1 K2|t xs z e K Z G IH|t xs e W G IH|p x junk K1 K2 F|p x junk K1 K2 F|t x junk W K F|t x junk W K F
    |p xs e K G IH|p xs e K G IH|f o b c es K1 K2 N1 N2 N3 N4 A|s K|t e K W|s e K E|s e K E|s e K E|s z K E].
  all: try (split; [discriminate|split; [lia|]]; intros j Hj; try lia).
  all: try (destruct W as [W _]).
  all: try (rewrite free_all in F; specialize (F j Hj)).
  all: try (match goal with |- free _ _ => destruct IH as (_ & _ & IH) end).
  all: repeat (apply not_op_free; [match goal with H : tk ?t = _ |- level_of (tk ?t) = 9 => rewrite H; reflexivity end|lia|]).
  all: auto using free_nil.
  all: try (apply free_group, free_nil).
  - destruct IH1 as (A1 & _ & B1), IH2 as (A2 & _ & B2); split; [apply nonempty_tail|split; [lia|]].
    intros j Hj; apply free_app; split; [apply B1; lia|]. apply free_leaf; split; [|apply B2; lia].
    intro K; apply ops_level in K; apply ops_level in I; lia.
  - destruct IH as (A & _ & B); split; [exact A|split; [lia|]]. intros j Hj; apply B; lia.
Qed.
Lemma gram_down L n m xs e : gram L m xs e -> n <= m -> gram L n xs e.
Proof.
  intro G; pose proof (gram_free G) as (_ & H9 & _). remember (m - n) as k eqn:E; revert m n G H9 E.
  induction k as [|k IH]; intros m n G H9 E H.
  - now replace n with m by lia.
  - apply g_up; [lia|]. apply IH with (m := m); auto; lia.
Qed.
Lemma gram_lift L m n xs e : gram L m xs e -> n <= 9 -> (forall j, j < n -> free (ops j) xs) -> gram L n xs e.
Proof.
  intros G Hn F; destruct (Nat.le_gt_cases n m) as [H|H]; [now apply gram_down with (m := m)|].
  revert n Hn F H.
  induction G as [x op xs e Kx Ko G IH|x op Kx Ko|x op xs e Kx Ko G IH|x op xs e Kx Ko G IH
    |m l op r e1 e2 e Hm I N G1 IH1 G2 IH2|m xs e Hm G IH| | | | | | | | | | | | | | | | | | | | ]; intros n' Hn' F' Hlt; try lia.
  1-4: exfalso; specialize (F' 0 Hlt); apply free_leaf in F' as [_ F']; apply free_leaf in F' as [F' _]; apply F'; rewrite Ko; cbn; tauto.
  - exfalso; specialize (F' m Hlt); apply free_app in F' as [_ F']; apply free_leaf in F' as [F' _]; now apply F'.
  - destruct (Nat.eq_dec n' (S m)) as [->|D]; auto. apply IH; auto; lia.
Qed.

Lemma op_node_bin k x y e : op_node k x y e -> e = bin_node k x y.
Proof. now destruct 1. Qed.
Lemma bin_op_node k n x y : 1 <= n <= 8 -> In k (ops n) -> op_node k x y (bin_node k x y).
Proof. intros Hn I; apply ops_level in I; destruct k; cbn in I; try lia; constructor. Qed.

Lemma bin_levels_ops : bin_levels = map ops (seq 1 8).
Proof. reflexivity. Qed.

Section Sound.
Variable L : lits.
Variable rec : list token -> outcome expr.
Hypothesis R : forall xs e, Forall wf xs -> rec (flat xs) = Ret e -> gram L 0 xs e.

Lemma binary_sound k : forall n xs o, 1 <= n -> n + k = 9 -> Forall wf xs -> (forall j, j < n -> free (ops j) xs) ->
  binary rec (map ops (seq n k)) (flat xs) = Ret o ->
  match o with Some e => gram L 0 xs e | None => free all_ops xs end.
Proof.
  induction k as [|k IH]; intros n xs o Hn E W F; cbn [seq map binary].
  - intro H; injection H as <-. apply free_all; intros j Hj; apply F; lia.
  - destruct (find_first_cases (ops n) W) as [[Fn ->]|(l & t & r & -> & Fl & I & ->)]; cbn [bind].
    + apply IH; auto; [lia|]. intros j Hj; destruct (Nat.eq_dec j n) as [->|D]; auto. apply F; lia.
    + destruct (flat l) as [|a fl] eqn:El; [discriminate|].
      destruct (flat r) as [|b fr] eqn:Er; [discriminate|]. rewrite <- El, <- Er.
      apply wf_mid in W as (Wl & _ & _ & Wr).
      intro H; apply bind_ret_inv in H as (x & Hx & H); apply bind_ret_inv in H as (y & Hy & H). injection H as <-.
      apply R in Hx, Hy; auto. apply gram_down with (m := n); [|lia].
      apply g_bin with x y; auto; [lia|now apply bin_op_node with n; [lia|]| |].
      * apply gram_lift with 0; auto; [lia|]. intros j Hj; destruct (Nat.eq_dec j n) as [->|D]; auto.
        specialize (F j ltac:(lia)); now apply free_app in F as [F _].
      * apply gram_lift with 0; auto; [lia|]. intros j Hj. specialize (F j ltac:(lia)).
        apply free_app in F as [_ F]; now apply free_leaf in F as [_ F].
Qed.

Lemma flat_single xs t : Forall wf xs -> flat xs = [t] -> xs = [Leaf t].
Proof.
  intros W; destruct xs as [|[u|o b c] xs]; [discriminate| |].
  - rewrite flat_leaf; intro H; injection H as -> H; apply flat_nil in H; now subst.
  - rewrite flat_cons, flat1_group; cbn [app]; intro H; injection H as _ H.
    destruct (flat b); discriminate.
Qed.

Lemma assignment_sound xs o : Forall wf xs -> assignment rec (flat xs) = Ret o ->
  match o with Some e => gram L 0 xs e | None => free (ops 0) xs end.
Proof.
  intro W; unfold assignment; change [KAssign; KAppAssign; KImmAssign] with (ops 0).
  destruct (find_first_cases (ops 0) W) as [[F ->]|(l & t & r & -> & Fl & I & ->)]; cbn [bind].
  - intro H; now injection H as <-.
  - apply wf_mid in W as (Wl & _ & _ & Wr).
    destruct (flat l) as [|x [|? ?]] eqn:El; try discriminate. apply flat_single in El; auto; subst l.
    destruct (tt_eqb_spec (tk x) KName) as [Kx|]; cbn [negb]; [|discriminate].
    destruct (tt_eqb_spec (tk t) KAssign) as [Kt|Kt].
    + destruct (flat r) as [|y fr] eqn:Er.
      * intro H; injection H as <-. apply flat_nil in Er; subst r. now apply g_assign_nothing.
      * rewrite <- Er; intro H; apply bind_ret_inv in H as (e & He & H). injection H as <-. cbn [app]. apply g_assign; auto.
    + destruct (flat r) as [|y fr] eqn:Er; [discriminate|]. rewrite <- Er.
      intro H; apply bind_ret_inv in H as (e & He & H). injection H as <-. cbn [app].
      destruct (tt_eqb_spec (tk t) KAppAssign) as [Ka|Ka]; [apply g_append_assign|apply g_imm_assign]; auto.
      destruct I as [I|[I|[I|[]]]]; congruence.
Qed.

Lemma parse_list_sound fuel : forall xs es, Forall wf xs -> parse_list_f rec fuel (flat xs) = Ret es -> items L xs es.
Proof.
  induction fuel as [|fuel IH]; intros xs es W; [discriminate|]. cbn [parse_list_f].
  destruct (find_first_cases [KComma] W) as [[F ->]|(l & t & r & -> & Fl & I & ->)]; cbn [bind].
  - destruct (flat xs) eqn:E.
    + intro H; injection H as <-. apply flat_nil in E; subst; constructor.
    + rewrite <- E; intro H; apply bind_ret_inv in H as (e & He & H). injection H as <-. apply i_one; auto.
  - apply wf_mid in W as (Wl & _ & _ & Wr). intro H; apply bind_ret_inv in H as (e & He & H).
    apply bind_ret_inv in H as (es' & Hes & H). injection H as <-. destruct I as [I|[]]. apply i_more; auto.
Qed.
Lemma make_args_sound1 fuel : forall xs es, Forall wf xs -> make_args_f rec fuel (flat xs) = Ret es -> args1 L xs es.
Proof.
  induction fuel as [|fuel IH]; intros xs es W; [discriminate|]. cbn [make_args_f].
  destruct (find_first_cases [KComma] W) as [[F ->]|(l & t & r & -> & Fl & I & ->)]; cbn [bind].
  - destruct (flat xs) eqn:E; [discriminate|]. rewrite <- E; intro H; apply bind_ret_inv in H as (e & He & H).
    injection H as <-. apply a_one; auto.
  - apply wf_mid in W as (Wl & _ & _ & Wr). destruct (flat l) eqn:E; [discriminate|]. rewrite <- E.
    intro H; apply bind_ret_inv in H as (e & He & H).
    apply bind_ret_inv in H as (es' & Hes & H). injection H as <-. destruct I as [I|[]]. apply a_more; auto.
Qed.
Lemma make_args_sound xs es : Forall wf xs -> make_args rec (flat xs) = Ret es -> args L xs es.
Proof.
  unfold make_args; intro W; destruct (flat xs) eqn:E.
  - intro H; injection H as <-; apply flat_nil in E; subst; constructor.
  - rewrite <- E; intro H; apply a_some; now apply make_args_sound1 in H.
Qed.

Lemma maybe_sound xs e : Forall wf xs -> match flat xs with [] => Ret ENop | _ => rec (flat xs) end = Ret e -> maybe L xs e.
Proof.
  intro W; destruct (flat xs) eqn:E.
  - intro H; injection H as <-; apply flat_nil in E; subst; constructor.
  - rewrite <- E; intro H; constructor; auto.
Qed.
Lemma alternative_sound xs t e : Forall wf xs -> alternative L rec (flat xs) = Ret (t, e) -> alt L xs t e.
Proof.
  intro W; unfold alternative.
  destruct (find_first_cases [KColon] W) as [[F ->]|(l & c & r & -> & Fl & I & ->)]; cbn [bind].
  - intro H; apply bind_ret_inv in H as (t' & Ht & H). apply bind_ret_inv in H as (e' & He & H).
    injection H as -> ->. apply alt_always; auto. now apply maybe_sound.
  - apply wf_mid in W as (Wl & _ & _ & Wr). intro H; apply bind_ret_inv in H as (t' & Ht & H).
    apply bind_ret_inv in H as (e' & He & H). injection H as -> ->. destruct I as [I|[]].
    apply alt_test; auto. now apply maybe_sound.
Qed.

Lemma strip_trees xs : Forall wf xs -> exists ys ss, xs = ys ++ map Leaf ss /\ Forall (fun s => tk s = KSemi) ss /\
  strip_semis (flat xs) = flat ys /\ (forall zs s, ys = zs ++ [Leaf s] -> tk s <> KSemi).
Proof.
  induction xs as [|x xs IH] using rev_ind; intro W.
  - exists [], []; repeat split; auto. intros zs s H; destruct zs; discriminate.
  - apply wf_app in W as [W1 W2]. destruct (IH W1) as (ys & ss & E & Hs & St & NE).
    inversion W2 as [|? ? Wx _]; subst x0 l. destruct x as [t|o b c].
    + destruct (tt_eqb_spec (tk t) KSemi) as [K|K].
      * exists ys, (ss ++ [t]). rewrite map_app, app_assoc, <- E. repeat split; auto.
        { apply Forall_app; auto. }
        unfold strip_semis in St |- *; rewrite flat_app, rev_app_distr; cbn. destruct (tt_eqb_spec (tk t) KSemi); [auto|congruence].
      * exists (xs ++ [Leaf t]), []. rewrite app_nil_r; repeat split; auto.
        { unfold strip_semis; rewrite flat_app, rev_app_distr; cbn. destruct (tt_eqb_spec (tk t) KSemi); [congruence|].
          cbn; now rewrite rev_involutive. }
        intros zs s H; apply app_inj_tail in H as [_ H]; injection H as <-; auto.
    + exists (xs ++ [Group o b c]), []. rewrite app_nil_r; repeat split; auto.
      { apply wf_inv_group in Wx as [P _]; apply pair_opens in P as (_ & _ & _ & C).
        unfold strip_semis. assert (E2 : flat (xs ++ [Group o b c]) = (flat xs ++ o :: flat b) ++ [c]).
        { rewrite flat_app, (flat_cons (Group o b c) []), flat1_group, <- app_assoc; cbn; now rewrite app_nil_r. }
        rewrite E2, rev_app_distr. cbn [rev app drop_semis].
        destruct (tt_eqb_spec (tk c) KSemi) as [K|]; [rewrite K in C; discriminate|].
        cbn [rev]; now rewrite rev_involutive. }
      intros zs s H; apply app_inj_tail in H as [_ H]; discriminate.
Qed.

Lemma rest_semis ss ys o : Forall (fun s => tk s = KSemi) ss -> rest L ys o -> rest L (map Leaf ss ++ ys) o.
Proof. induction 1; cbn; auto; intro; apply r_empty; auto. Qed.
(* what follows the part of the block still to be read *)
Definition after (S : list tree) (o : option expr) : Prop :=
  (S = [] /\ o = None) \/ exists s ys, S = Leaf s :: ys /\ tk s = KSemi /\ rest L ys o.

Lemma braces_sound fuel : forall q o S e, Forall wf q -> (forall zs s, q = zs ++ [Leaf s] -> tk s <> KSemi) -> after S o ->
  braces_f L rec fuel (flat q) o = Ret e -> block L (q ++ S) e.
Proof.
  induction fuel as [|fuel IH]; intros q o S e W NE A; [discriminate|]. cbn [braces_f].
  destruct (find_last_cases [KSemi] W) as [[F ->]|(l & c & r & -> & Fr & I & ->)]; cbn [bind].
  - intro H; apply bind_ret_inv in H as ([t x] & Ha & H). injection H as <-. apply alternative_sound in Ha; auto.
    destruct A as [[-> ->]|(s & ys & -> & K & Hr)]; [rewrite app_nil_r; now apply b_one|now apply b_more].
  - intro H; apply bind_ret_inv in H as ([t x] & Ha & H). destruct I as [I|[]]. apply wf_mid in W as (Wl & _ & _ & Wr).
    apply alternative_sound in Ha; auto.
    assert (Nr : r <> []). { intros ->; eapply NE; eauto. }
    assert (Hr : rest L (r ++ S) (Some (EIf t x o))).
    { destruct A as [[-> ->]|(s & ys & -> & K & Hr)]; [rewrite app_nil_r; now apply r_one|now apply r_more]. }
    destruct (strip_trees Wl) as (q' & ss & El & Hs & St & NE'). rewrite St in H. subst l. apply wf_app in Wl as [Wq _].
    rewrite <- !app_assoc; cbn [app]. eapply IH with (o := Some (EIf t x o)); eauto.
    right. destruct ss as [|s ss]; cbn [map app]; [exists c, (r ++ S); auto|].
    inversion Hs; subst. exists s, (map Leaf ss ++ Leaf c :: r ++ S); repeat split; auto.
    apply rest_semis; auto. apply r_empty; auto.
Qed.
Lemma block_sound fuel xs e : Forall wf xs -> braces_f L rec fuel (strip_semis (flat xs)) None = Ret e -> block L xs e.
Proof.
  intros W; destruct (strip_trees W) as (ys & ss & -> & Hs & -> & NE). apply wf_app in W as [W _].
  apply braces_sound; auto. destruct ss as [|s ss]; [left; auto|right]. inversion Hs; subst.
  exists s, (map Leaf ss); repeat split; auto. rewrite <- (app_nil_r (map _ _)). apply rest_semis; auto. constructor.
Qed.

Lemma removelast_group b c : removelast (flat b ++ [c]) = flat b.
Proof. apply removelast_last. Qed.

Lemma literal_sound t e : literal L t = Ret e -> is_word (str "repeat") t = false -> is_word (str "echo") t = false ->
  is_word (str "save") t = false -> gram L 9 [Leaf t] e.
Proof.
  unfold literal; destruct (tk t) eqn:K; try discriminate; intros H N1 N2 N3.
  - apply g_word; auto.
    unfold is_word in N1, N2, N3. rewrite K, tt_eqb_refl in N1, N2, N3; cbn [andb] in N1, N2, N3.
    revert H N1 N2 N3.
    repeat match goal with |- context [list_ascii_eqb ?a ?b] => destruct (text_eqb_spec a b) as [->|?] end;
      intro H; injection H as <-; intros; try discriminate; try constructor.
    cbn [map]; intro I; repeat (destruct I as [I|I]; [congruence|]); destruct I.
  - apply bind_ret_inv in H as (z & Hz & H). injection H as <-. now apply g_num.
  - injection H as <-. now apply g_string.
  - now apply g_transp.
  - now apply g_pn.
  - now apply g_regex.
Qed.

Lemma prefix_sound t xs e : Forall wf (Leaf t :: xs) -> free all_ops xs ->
  prefix L rec t (flat xs) = Ret e -> gram L 9 (Leaf t :: xs) e.
Proof.
  intros W F; inversion W as [|? ? Wt W']; subst; clear W. apply wf_inv_leaf in Wt as [T1 T2].
  assert (R9 : forall e, rec (flat xs) = Ret e -> gram L 9 xs e).
  { intros e' H; apply R in H; auto. apply gram_lift with 0; auto. intros j Hj; now apply free_all. }
  assert (NX : forall y u, flat xs = y :: u -> opens (tk y) = false -> closes (tk y) = false -> exists ys, xs = Leaf y :: ys).
  { intros y u E O C; destruct xs as [|[v|o b c] xs]; [discriminate| |].
    - rewrite flat_leaf in E; injection E as -> _; eauto.
    - rewrite flat_cons, flat1_group in E; cbn in E. injection E as -> _.
      inversion W' as [|? ? Wg _]; subst. apply wf_inv_group in Wg as [P _]. apply pair_opens in P as (P & _). congruence. }
  unfold prefix. destruct (defined_op t (flat xs)) as [d|] eqn:D.
  { unfold defined_op in D. destruct (is_word _ t) eqn:Wd; [|discriminate]. apply is_word_iff in Wd.
    intro H; injection H as <-. destruct (flat xs) as [|y [|x [|z [|? ?]]]] eqn:E; try discriminate.
    - destruct (tt_eqb_spec (tk y) KName) as [K|]; [|discriminate]. injection D as <-.
      apply flat_single in E; auto; subst xs. now apply g_defined.
    - destruct (tt_eqb_spec (tk y) KOParen) as [K1|]; [|discriminate].
      destruct (tt_eqb_spec (tk z) KCParen) as [K2|]; [|discriminate].
      destruct (tt_eqb_spec (tk x) KName) as [K3|]; [|discriminate]. injection D as <-.
      destruct xs as [|[v|o b c] xs]; [discriminate| |].
      + rewrite flat_leaf in E; injection E as -> _. inversion W' as [|? ? Wv _]; subst. apply wf_inv_leaf in Wv as [Wv _].
        rewrite K1 in Wv; discriminate.
      + rewrite flat_cons, flat1_group in E; cbn [app] in E; injection E as -> E.
        inversion W' as [|? ? Wg _]; subst. apply wf_inv_group in Wg as [P Wb].
        destruct (flat b) as [|x' [|? [|? ?]]] eqn:Eb; cbn in E; try discriminate.
        * exfalso. injection E as -> _. apply pair_opens in P as (_ & _ & _ & P). rewrite K3 in P; discriminate.
        * injection E as -> -> E. apply flat_nil in E; subst xs. apply flat_single in Eb; auto; subst b. now apply g_defined_paren. }
  destruct (_ || is_word (str "repeat") t) eqn:RP.
  { destruct (flat xs) as [|y u] eqn:E; [discriminate|]. rewrite <- E in R9 |- *.
    intro H; apply bind_ret_inv in H as (z & Hz & H). apply bind_ret_inv in H as (e' & He & H). injection H as <-.
    destruct (tt_eqb_spec (tk t) KNum) as [K|K].
    - apply g_times; auto.
    - cbn [andb orb] in RP. apply is_word_iff in RP. injection Hz as <-. apply g_repeat; auto. }
  apply orb_false_iff in RP as [RP1 RP2].
  destruct (_ || tt_eqb (tk t) KDecr) eqn:IN.
  { destruct (flat xs) as [|y u] eqn:E; [discriminate|]. cbn [unary_arg].
    destruct (tt_eqb_spec (tk y) KName) as [Ky|]; [|discriminate]. cbn [bind]. intro H; injection H as <-.
    destruct (NX _ _ eq_refl) as [ys ->]; try (rewrite Ky; reflexivity). rewrite flat_leaf in E.
    unfold free in F; inversion F; subst.
    destruct (tt_eqb_spec (tk t) KDecr) as [Kd|Kd]; [now apply g_decr|].
    apply g_incr; auto. destruct (tt_eqb_spec (tk t) KIncr); auto; discriminate. }
  apply orb_false_iff in IN as [IN1 IN2].
  destruct (is_word (str "echo") t) eqn:EC.
  { destruct (flat xs) as [|y u] eqn:E; [discriminate|]. cbn [unary_arg].
    destruct (tt_eqb_spec (tk y) KString) as [Ky|]; [|discriminate]. cbn [bind]. intro H; injection H as <-.
    destruct (NX _ _ eq_refl) as [ys ->]; try (rewrite Ky; reflexivity). unfold free in F; inversion F; subst.
    apply is_word_iff in EC. now apply g_echo. }
  destruct (is_word (str "save") t) eqn:SV.
  { destruct (flat xs) as [|y u] eqn:E; [discriminate|]. cbn [unary_arg].
    destruct (tt_eqb_spec (tk y) KName) as [Ky|]; [|discriminate]. cbn [bind]. intro H; injection H as <-.
    destruct (NX _ _ eq_refl) as [ys ->]; try (rewrite Ky; reflexivity). unfold free in F; inversion F; subst.
    apply is_word_iff in SV. now apply g_save. }
  destruct (tt_eqb_spec (tk t) KReverse) as [KR|KR].
  { destruct (flat xs) as [|y u] eqn:E; [discriminate|]. rewrite <- E in R9 |- *.
    intro H; apply bind_ret_inv in H as (e' & He & H). injection H as <-. apply g_reverse; auto. }
  destruct (tt_eqb_spec (tk t) KNot) as [KN|KN].
  { destruct (flat xs) as [|y u] eqn:E; [discriminate|]. rewrite <- E in R9 |- *.
    intro H; apply bind_ret_inv in H as (e' & He & H). injection H as <-. apply g_not; auto. }
  destruct ((2 <=? length (flat xs)) && tt_eqb (tk t) KName) eqn:CL.
  - apply andb_true_iff in CL as [CL1 CL2]. apply tt_eqb_true in CL2.
    assert (Nx : xs <> []). { intros ->; discriminate. }
    rewrite is_enclosed_trees by (auto; left; auto). cbn [bind].
    destruct xs as [|[v|o b c] xs]; [congruence| |].
    + destruct (flat (Leaf v :: xs)) eqn:E; [discriminate E|]. discriminate.
    + destruct xs; [|cbn; discriminate].
      destruct (tt_eqb_spec (tk o) KOParen) as [Ko|Ko]; [|cbn; discriminate].
      rewrite flat_cons, flat1_group; cbn [flat flat_map]; rewrite app_nil_r. cbn [tl]. fold (flat b). rewrite removelast_group.
      intro H; apply bind_ret_inv in H as (es & Hes & H). injection H as <-.
      inversion W' as [|? ? Wg _]; subst. apply wf_inv_group in Wg as [P Wb].
      apply make_args_sound in Hes; auto. apply g_call; auto.
      * intro K; apply is_word_iff in K; congruence.
      * intro K; apply is_word_iff in K; congruence.
      * intro K; apply is_word_iff in K; congruence.
      * intros [K (x & -> & Kx)]. apply is_word_iff in K. unfold defined_op in D. rewrite K in D.
        cbn in D. rewrite Ko, Kx in D. destruct P as [[_ P]|[[P _]|[P _]]]; try congruence. rewrite P in D. discriminate D.
  - cbn [bind]. destruct (flat xs) eqn:E; [|discriminate]. apply flat_nil in E; subst xs.
    intro H; now apply literal_sound.
Qed.

Lemma prefix_group t u e : opens (tk t) = true -> prefix L rec t u = Ret e -> False.
Proof.
  intro O; unfold prefix, defined_op, is_word.
  destruct (tk t) eqn:K; try discriminate; cbn; destruct u; cbn; try discriminate; try (now rewrite andb_false_r);
    unfold literal; rewrite K; discriminate.
Qed.

Lemma expr_step_sound xs e : Forall wf xs -> expr_step L rec (flat xs) = Ret e -> gram L 0 xs e.
Proof.
  intros W. destruct xs as [|x xs]; [discriminate|].
  assert (E1 := is_enclosed_trees (o := KOParen) (c := KCParen) (or_introl (conj eq_refl eq_refl)) W ltac:(discriminate)).
  assert (E2 := is_enclosed_trees (o := KOBrace) (c := KCBrace) (or_intror (or_introl (conj eq_refl eq_refl))) W ltac:(discriminate)).
  assert (E3 := is_enclosed_trees (o := KOBrack) (c := KCBrack) (or_intror (or_intror (conj eq_refl eq_refl))) W ltac:(discriminate)).
  unfold expr_step. destruct (flat (x :: xs)) as [|t u] eqn:E; [discriminate|]. rewrite E1, E2, E3; cbn [bind]; clear E1 E2 E3.
  assert (ENDS : (asg <- assignment rec (t :: u) ;;
    match asg with Some e => Ret e | None =>
    bin <- binary rec bin_levels (t :: u) ;;
    match bin with Some e => Ret e | None => prefix L rec t u end
    end) = Ret e -> gram L 0 (x :: xs) e).
  { intro H; rewrite <- E in H. apply bind_ret_inv in H as (asg & Ha & H). apply assignment_sound in Ha; auto.
    destruct asg as [a|]; [now injection H as <-|].
    apply bind_ret_inv in H as (bin & Hb & H). rewrite bin_levels_ops in Hb.
    apply binary_sound in Hb; auto.
    2:{ intros j Hj; replace j with 0 by lia; auto. }
    destruct bin as [a|]; [now injection H as <-|].
    destruct x as [v|o b c].
    - rewrite flat_leaf in E; injection E as -> <-. apply gram_down with 9; [|lia]. apply prefix_sound; auto.
      unfold free in Hb; now inversion Hb.
    - rewrite flat_cons, flat1_group in E; cbn in E; injection E as -> _. exfalso; eapply prefix_group; [|exact H].
      inversion W as [|? ? Wg _]; subst. apply wf_inv_group in Wg as [P _]. now apply pair_opens in P as (P & _). }
  destruct x as [v|o b c]; [exact ENDS|]. destruct xs as [|x' xs]; [|exact ENDS].
  inversion W as [|? ? Wg _]; subst. apply wf_inv_group in Wg as [P Wb].
  assert (Eu : removelast u = flat b). { cbn in E. fold (flat b) in E. rewrite app_nil_r in E. injection E as _ <-. apply removelast_group. }
  rewrite Eu.
  destruct (tt_eqb_spec (tk o) KOParen) as [K|K1].
  { intro H; apply gram_down with 9; [|lia]; apply g_paren; auto. }
  destruct (tt_eqb_spec (tk o) KOBrace) as [K|K2].
  { intro H; apply gram_down with 9; [|lia]; apply g_block; auto. eapply block_sound; eauto. }
  destruct (tt_eqb_spec (tk o) KOBrack) as [K|K3].
  { intro H; apply bind_ret_inv in H as (es & Hes & H). injection H as <-.
    apply gram_down with 9; [|lia]; apply g_array; auto. eapply parse_list_sound; eauto. }
  exact ENDS.
Qed.
End Sound.

Lemma make_expr_f_sound L fuel : forall xs e, Forall wf xs -> make_expr_f L fuel (flat xs) = Ret e -> gram L 0 xs e.
Proof.
  induction fuel as [|fuel IH]; intros xs e W; [discriminate|]. cbn [make_expr_f]. now apply expr_step_sound.
Qed.
