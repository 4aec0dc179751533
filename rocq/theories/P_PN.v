(* P_PN.v - place notation: the interpreter and the grammar. *)
From Verif Require Import Base M_Bell M_Change M_PN Spec_Row Spec_Change Spec_PN P_Bell P_Change P_Change2.
Set Implicit Arguments.
Unset Strict Implicit.
Open Scope nat_scope.

Lemma eqc_true a b : eqc a b = true <-> a = b.
Proof. unfold eqc. destruct ascii_dec; split; intros; auto; discriminate. Qed.
Lemma eqc_false a b : eqc a b = false <-> a <> b.
Proof. unfold eqc. destruct ascii_dec; split; intros; auto; try discriminate. contradiction. Qed.
Lemma eqc_refl a : eqc a a = true.
Proof. now apply eqc_true. Qed.

Definition hd_not (p : ascii -> bool) (s : list ascii) : Prop := match s with [] => True | c :: _ => p c = false end.

Lemma skip_space_app w s : spaces w -> hd_not is_space s -> skip_space (w ++ s) = s.
Proof.
  intros W H. induction W as [|c w Hc W IH]; cbn.
  - destruct s as [|c t]; [reflexivity|]. cbn in *. now rewrite H.
  - now rewrite Hc.
Qed.
Lemma skip_space_split s : exists w, spaces w /\ s = w ++ skip_space s /\ hd_not is_space (skip_space s).
Proof.
  induction s as [|c t (w & W & E & H)]; cbn.
  - exists []. repeat split. constructor.
  - destruct (is_space c) eqn:Ec.
    + exists (c :: w). split; [now constructor|]. split; [cbn; now rewrite <- E|exact H].
    + exists []. split; [constructor|]. split; [reflexivity|]. cbn. exact Ec.
Qed.

Lemma skip_sep_app w s : separator w -> hd_not is_space s -> hd_not (eqc ".") s -> skip_sep (w ++ s) (chr ".") = s.
Proof.
  intros W H D. unfold skip_sep.
  assert (N : forall s, hd_not (eqc ".") s -> starts_with (chr ".") s = false).
  { intros [|c t] X; cbn in *; auto. apply eqc_false in X. apply eqc_false. congruence. }
  destruct W as [W|(a & b & Wa & Wb & ->)].
  - rewrite (skip_space_app W H), (N _ D). destruct s as [|c t]; [reflexivity|]. cbn in *. now rewrite H.
  - rewrite <- app_assoc. rewrite (skip_space_app Wa) by reflexivity.
    cbn [starts_with app]. replace (eqc "." (chr ".")) with true by reflexivity. cbn [tl].
    now rewrite (skip_space_app Wb H).
Qed.
Lemma skip_sep_split s : exists w, separator w /\ s = w ++ skip_sep s (chr ".").
Proof.
  unfold skip_sep. destruct (skip_space_split s) as (a & Wa & E & H). destruct (starts_with (chr ".") (skip_space s)) eqn:S.
  - destruct (skip_space s) as [|c t]; [discriminate|]. cbn in S. apply eqc_true in S. cbn [tl].
    destruct (skip_space_split t) as (b & Wb & Eb & Hb). exists (a ++ "."%char :: b). split; [right; now exists a, b|].
    rewrite <- app_assoc. cbn [app]. rewrite <- Eb. rewrite E at 1. now rewrite S.
  - exists a. split; [now left|]. rewrite E at 1. f_equal. destruct (skip_space s) as [|c t]; [reflexivity|]. cbn in H. cbn. now rewrite H.
Qed.
Lemma skip_sep_comma w s : spaces w -> hd_not is_space s -> skip_sep (","%char :: w ++ s) (chr ",") = s.
Proof.
  intros W H. unfold skip_sep. cbn [skip_space]. replace (is_space ",") with false by reflexivity.
  cbn [starts_with]. replace (eqc "," (chr ",")) with true by reflexivity. cbn [tl]. now rewrite skip_space_app.
Qed.
Lemma skip_sep_comma_split t : exists w, spaces w /\ t = w ++ skip_sep (","%char :: t) (chr ",") /\ hd_not is_space (skip_sep (","%char :: t) (chr ",")).
Proof.
  unfold skip_sep. cbn [skip_space]. replace (is_space ",") with false by reflexivity.
  cbn [starts_with]. replace (eqc "," (chr ",")) with true by reflexivity. cbn [tl]. apply skip_space_split.
Qed.
Lemma skip_sep_len s c : length (skip_sep s c) <= length s.
Proof.
  unfold skip_sep. generalize (skip_space_len s). set (u := skip_space s). destruct (starts_with c u); intros H.
  - generalize (skip_space_len (tl u)). destruct u; cbn [tl length] in *; lia.
  - generalize (skip_space_len u). lia.
Qed.

(* groups in braces *)
Lemma bell_expr_group g t : ~ In "{"%char g -> ~ In "}"%char g -> bell_expr_loop (g ++ "}"%char :: t) 0 = "}"%char :: t.
Proof.
  induction g as [|c g IH]; intros H1 H2; [reflexivity|]. cbn [app bell_expr_loop].
  assert (c <> "}"%char /\ c <> "{"%char) as [Na Nb] by (split; intros ->; [apply H2|apply H1]; now left).
  apply eqc_false in Na. apply eqc_false in Nb. change (chr "}") with "}"%char. change (chr "{") with "{"%char. rewrite Na, Nb. cbn [andb].
  replace (eqc zero "}") with false by reflexivity. apply IH; intros X; [apply H1|apply H2]; now right.
Qed.
Lemma bell_expr_deep s d : 0 < d -> bell_expr_loop s d = [].
Proof.
  revert d. induction s as [|c t IH]; intros d H; [reflexivity|]. cbn [bell_expr_loop].
  replace (d =? 0) with false by (symmetry; apply Nat.eqb_neq; lia). rewrite andb_false_r.
  replace (eqc zero (chr "}")) with false by reflexivity.
  destruct (eqc c (chr "{")); apply IH; lia.
Qed.
Lemma bell_expr_inv s c t : bell_expr_loop s 0 = c :: t -> c = "}"%char /\ exists g, ~ In "{"%char g /\ ~ In "}"%char g /\ s = g ++ "}"%char :: t.
Proof.
  induction s as [|a s IH]; cbn [bell_expr_loop]; [discriminate|].
  replace (eqc zero (chr "}")) with false by reflexivity. cbn [Nat.eqb]. rewrite andb_true_r.
  destruct (eqc a (chr "}")) eqn:E1.
  - intros [= -> ->]. apply eqc_true in E1. split; [exact E1|]. exists []. rewrite E1. repeat split; auto.
  - destruct (eqc a (chr "{")) eqn:E2; [rewrite bell_expr_deep by lia; discriminate|].
    intros H. destruct (IH H) as (Hc & g & H1 & H2 & ->). split; [exact Hc|]. exists (a :: g).
    apply eqc_false in E1. apply eqc_false in E2. repeat split; auto.
    + intros [X|X]; [now apply E2|tauto].
    + intros [X|X]; [now apply E1|tauto].
Qed.

Lemma place_char_b c : is_alnum c && negb (is_x c) = true <-> place_char c.
Proof.
  unfold is_alnum, is_x, place_char. rewrite andb_true_iff, !orb_true_iff, negb_true_iff, orb_false_iff, !eqc_false.
  change (chr "X") with "X"%char. change (chr "x") with "x"%char. tauto.
Qed.

(* characters at which the places of a change end *)
Definition no_place (s : list ascii) : Prop := match s with [] => True | c :: _ => c <> "{"%char /\ ~ place_char c end.

Scheme places_text_mut := Induction for places_text Sort Prop
  with places_tail_mut := Induction for places_tail Sort Prop.

Lemma read_places_complete t r fuel : places_tail t -> no_place r -> length (t ++ r) <= fuel -> read_places fuel (t ++ r) = Ret r.
Proof.
  intros PT NR. revert fuel. revert t PT.
  apply (@places_tail_mut (fun t _ => forall fuel, length (t ++ r) <= fuel -> read_places fuel (t ++ r) = Ret r)
    (fun t _ => forall fuel, length (t ++ r) <= fuel -> read_places fuel (t ++ r) = Ret r)).
  - intros c t Hc _ IH fuel L. cbn [app length] in *. destruct fuel as [|fuel]; [lia|]. cbn [read_places].
    assert (c <> "{"%char). { intros ->. destruct Hc as [[X|[X|X]] _]; discriminate X. }
    replace (eqc c (chr "{")) with false by (symmetry; now apply eqc_false).
    rewrite (proj2 (place_char_b c) Hc). apply IH. lia.
  - intros g t H1 H2 _ IH fuel L. cbn [app length] in *. rewrite <- app_assoc in *. cbn [app] in *. rewrite app_length in L. cbn [length] in L.
    destruct fuel as [|fuel]; [lia|]. cbn [read_places]. change (chr "{") with "{"%char. rewrite eqc_refl.
    unfold read_bell_expr. change (chr "{") with "{"%char. rewrite eqc_refl.
    rewrite bell_expr_group by auto. change (chr "}") with "}"%char. rewrite eqc_refl. cbn [bind]. apply IH. lia.
  - intros fuel L. cbn [app] in *. destruct r as [|c r]; [now destruct fuel|]. destruct fuel as [|fuel]; [cbn in L; lia|].
    cbn [read_places]. destruct NR as [N1 N2]. replace (eqc c (chr "{")) with false by (symmetry; now apply eqc_false).
    destruct (is_alnum c && negb (is_x c)) eqn:E; [apply place_char_b in E; tauto|reflexivity].
  - auto.
Qed.

Lemma read_places_sound fuel j : length j <= fuel ->
  (exists t r, read_places fuel j = Ret r /\ places_tail t /\ j = t ++ r /\ no_place r) \/ read_places fuel j = Throw BellInvalid.
Proof.
  revert j. induction fuel as [|fuel IH]; intros j L.
  - destruct j; [|cbn in L; lia]. left. exists [], []. repeat split. constructor.
  - destruct j as [|c j]; [left; exists [], []; repeat split; constructor|]. cbn [read_places length] in *.
    destruct (eqc c (chr "{")) eqn:E.
    + cbn [read_bell_expr]. rewrite E. apply eqc_true in E. subst c.
      destruct (bell_expr_loop j 0) as [|c t] eqn:El; [now right|].
      destruct (bell_expr_inv El) as (-> & g & H1 & H2 & ->). change (chr "}") with "}"%char. rewrite eqc_refl. cbn [bind].
      rewrite app_length in L. cbn [length] in L. destruct (IH t ltac:(lia)) as [(u & r & -> & P & -> & N)|H]; [left|right; exact H].
      exists ("{"%char :: g ++ "}"%char :: u), r. split; [reflexivity|]. split; [apply ptl_more; now apply pt_group|].
      split; [cbn [app]; now rewrite <- app_assoc|exact N].
    + destruct (is_alnum c && negb (is_x c)) eqn:E2.
      * apply place_char_b in E2. destruct (IH j ltac:(lia)) as [(u & r & -> & P & -> & N)|H]; [left|right; exact H].
        exists (c :: u), r. split; [reflexivity|]. split; [apply ptl_more; now apply pt_char|]. split; [reflexivity|exact N].
      * left. exists [], (c :: j). split; [reflexivity|]. split; [constructor|]. split; [reflexivity|]. apply eqc_false in E.
        split; [exact E|]. intros X. apply place_char_b in X. congruence.
Qed.

Lemma upto_app t r : upto (t ++ r) r = t.
Proof. unfold upto. rewrite app_length, Nat.add_sub. rewrite firstn_app, Nat.sub_diag, firstn_all. cbn. apply app_nil_r. Qed.

(* what may follow a block *)
Definition block_end (s : list ascii) : Prop := match s with [] => True | c :: _ => c = ","%char end.
Lemma block_end_facts s : block_end s -> hd_not is_space s /\ hd_not (eqc ".") s /\ starts_change s = false /\ no_place s.
Proof.
  destruct s as [|c t]; cbn; [repeat split|]. intros ->. repeat split; try reflexivity.
  - discriminate.
  - intros [[X|[X|X]] _]; discriminate X.
Qed.

Section Sym.
Variables (sym : symtab) (n : nat).

Lemma places_text_head p : places_text p -> exists c t, p = c :: t /\ (c = "{"%char \/ place_char c).
Proof. intros H. destruct H as [c t H _|g t _ _ _]; [exists c, t; auto|]. exists "{"%char, (g ++ "}"%char :: t). auto. Qed.
Lemma start_char_facts c : c = "{"%char \/ place_char c \/ cross_char c ->
  is_space c = false /\ eqc "." c = false /\ is_alnum c || eqc c (chr "-") || eqc c (chr "{") = true /\ c <> ","%char /\ c <> "&"%char /\ c <> "+"%char.
Proof.
  intros H. assert (A : c = "{"%char \/ c = "-"%char \/ is_alnum c = true).
  { destruct H as [->|[[H _]|[->|[->| ->]]]]; auto; try (right; right; reflexivity). right; right. unfold is_alnum. rewrite !orb_true_iff. tauto. }
  destruct A as [->|[->|A]]; [repeat split; discriminate|repeat split; discriminate|].
  assert (B : forall d, is_alnum d = false -> c <> d) by congruence.
  repeat split; try (apply B; reflexivity).
  - revert A. unfold is_alnum, is_space, is_digit, is_upper, is_lower. rewrite !orb_true_iff, !andb_true_iff, !Nat.leb_le. intros A.
    apply orb_false_iff. split; [apply andb_false_iff; right; apply Nat.leb_gt; lia|]. apply Nat.eqb_neq. lia.
  - apply eqc_false. intros E. now apply (B "."%char).
  - now rewrite A.
Qed.
Lemma changes_text_start s cs : changes_text sym n s cs -> match s with [] => True | c :: _ => c = "{"%char \/ place_char c \/ cross_char c end.
Proof.
  intros H. destruct H as [|c w s ch cs H _ _ _|p w s ch cs H _ _ _ _]; [exact I|cbn; auto|].
  destruct (places_text_head H) as (c & t & -> & Hc). cbn. tauto.
Qed.
Lemma changes_follow s cs r : changes_text sym n s cs -> block_end r -> hd_not is_space (s ++ r) /\ hd_not (eqc ".") (s ++ r).
Proof.
  intros H R. generalize (changes_text_start H). destruct s as [|c s]; cbn [app]; intros Hs; [apply block_end_facts in R; tauto|].
  apply start_char_facts in Hs. cbn. tauto.
Qed.

Lemma read_block_complete s cs : changes_text sym n s cs -> forall r acc fuel, block_end r -> length s <= fuel ->
  read_block fuel sym n (s ++ r) acc = Ret (acc ++ cs, r).
Proof.
  induction 1 as [|c w s ch cs Hc Ech W H IH|p w s ch cs Hp Ech W Hw H IH]; intros r acc fuel R L.
  - cbn [app]. rewrite app_nil_r. destruct (block_end_facts R) as (_ & _ & E & _). destruct fuel; cbn [read_block]; now rewrite E.
  - cbn [app length] in *. rewrite app_length in L. destruct fuel as [|fuel]; [lia|]. cbn [read_block starts_change].
    destruct (@start_char_facts c ltac:(auto)) as (_ & _ & -> & _).
    replace (is_x c || eqc c (chr "-")) with true by (destruct Hc as [->|[->| ->]]; reflexivity).
    rewrite Ech. cbn [bind]. rewrite <- app_assoc. destruct (changes_follow H R) as [F1 F2]. rewrite skip_sep_app by auto.
    rewrite IH by (auto; lia). now rewrite <- app_assoc.
  - rewrite !app_length in L. destruct (places_text_head Hp) as (c & t & Ep & Hc).
    destruct fuel as [|fuel]; [subst p; cbn in L; lia|]. rewrite Ep at 1. cbn [app read_block starts_change].
    destruct (@start_char_facts c ltac:(tauto)) as (_ & _ & -> & _).
    replace (is_x c || eqc c (chr "-")) with false.
    2:{ symmetry. unfold is_x. destruct Hc as [->|[Hc [N1 N2]]]; [reflexivity|]. rewrite !orb_false_iff, !eqc_false. repeat split; auto. intros ->. destruct Hc as [X|[X|X]]; discriminate X. }
    change (c :: (t ++ w ++ s) ++ r) with (((c :: t) ++ w ++ s) ++ r). rewrite <- Ep.
    assert (E : (p ++ w ++ s) ++ r = p ++ (w ++ s ++ r)) by (now rewrite <- !app_assoc).
    rewrite E. destruct (changes_follow H R) as [F1 F2].
    assert (NP : no_place (w ++ s ++ r)).
    { destruct w as [|d w].
      - cbn [app]. specialize (Hw eq_refl). destruct s as [|d s]; [apply block_end_facts in R; tauto|]. cbn.
        specialize (Hw d s eq_refl). split; [intros ->; destruct Hw as [X|[X|X]]; discriminate X|].
        intros [Hd [N1 N2]]. destruct Hw as [X|[X|X]]; auto. subst d. destruct Hd as [X|[X|X]]; discriminate X.
      - cbn. assert (D : is_space d = true \/ d = "."%char).
        { destruct W as [W|(a & b & Wa & _ & Ew)]; [inversion W; auto|]. destruct a as [|a0 a]; [injection Ew; auto|]. injection Ew as -> _. inversion Wa; auto. }
        split; [intros ->; destruct D as [X|X]; discriminate X|]. intros Pd. destruct (@start_char_facts d ltac:(auto)) as (X1 & X2 & _).
        destruct D as [D|D]; [congruence|]. subst d. discriminate X2. }
    rewrite (@read_places_complete p _ _ (ptl_more Hp) NP (le_n _)). cbn [bind].
    replace (length (w ++ s ++ r) =? length (p ++ w ++ s ++ r)) with false.
    2:{ symmetry. apply Nat.eqb_neq. rewrite (app_length p). rewrite Ep. cbn [length]. lia. }
    rewrite upto_app, Ech. cbn [bind]. rewrite skip_sep_app by auto. rewrite IH by (auto; subst p; cbn in L; lia). now rewrite <- app_assoc.
Qed.

Lemma read_block_sound fuel s acc : length s <= fuel ->
  (exists cs t r, read_block fuel sym n s acc = Ret (acc ++ cs, r) /\ s = t ++ r /\ changes_text sym n t cs /\ starts_change r = false) \/
  (exists e, read_block fuel sym n s acc = Throw e) \/ (exists p, change_of_pn sym n p = UB \/ change_of_pn sym n p = Diverge).
Proof.
  revert s acc. induction fuel as [|fuel IH]; intros s acc L.
  - destruct s; [|cbn in L; lia]. left. exists [], [], []. cbn. rewrite app_nil_r. repeat split. constructor.
  - cbn [read_block]. destruct (starts_change s) eqn:St.
    2:{ left. exists [], [], s. rewrite app_nil_r. repeat split; auto. constructor. }
    destruct s as [|c s]; [discriminate|]. destruct (is_x c || eqc c (chr "-")) eqn:Ex.
    + assert (Hc : cross_char c). { unfold is_x in Ex. rewrite !orb_true_iff, !eqc_true in Ex. unfold cross_char. change (chr "X") with "X"%char in Ex. change (chr "x") with "x"%char in Ex. change (chr "-") with "-"%char in Ex. tauto. }
      destruct (change_of_pn sym n (str "X")) as [ch|e| |] eqn:Ech; cbn [bind]; eauto 6.
      destruct (skip_sep_split s) as (w & W & Ew). cbn [length] in L.
      destruct (IH (skip_sep s (chr ".")) (acc ++ [ch]) ltac:(generalize (skip_sep_len s (chr ".")); lia)) as [(cs & t & r & E & Es & H & Hr)|H]; [left|right; exact H].
      exists (ch :: cs), (c :: w ++ t), r. rewrite E. rewrite <- app_assoc. split; [reflexivity|]. split; [cbn [app]; rewrite <- app_assoc, <- Es; congruence|].
      split; [now apply ct_cross|exact Hr].
    + destruct (@read_places_sound (length (c :: s)) (c :: s) (le_n _)) as [(p & r & E & Hp & Es & Nr)|E]; rewrite E; cbn [bind]; [|right; left; eauto].
      assert (Np : p <> []).
      { intros ->. cbn [app] in Es. subst r. cbn in Nr. destruct Nr as [N1 N2]. cbn [starts_change] in St. apply orb_true_iff in St as [St|St]; [|apply eqc_true in St; contradiction].
        apply orb_true_iff in St as [St|St]; [|now rewrite St, orb_true_r in Ex]. apply N2. apply place_char_b. rewrite St. cbn [andb].
        apply orb_false_iff in Ex as [-> _]. reflexivity. }
      assert (Hp' : places_text p) by (destruct Hp; [contradiction|assumption]).
      replace (length r =? length (c :: s)) with false by (symmetry; apply Nat.eqb_neq; rewrite Es, app_length; destruct p; [contradiction|cbn [length]; lia]).
      rewrite Es, upto_app. destruct (change_of_pn sym n p) as [ch|e| |] eqn:Ech; cbn [bind]; eauto 6.
      destruct (skip_sep_split r) as (w & W & Ew).
      destruct (IH (skip_sep r (chr ".")) (acc ++ [ch])) as [(cs & t & r' & E' & Es' & H & Hr)|H]; [|left|right; exact H].
      { generalize (skip_sep_len r (chr ".")). rewrite Es, app_length in L. destruct p; [contradiction|cbn [length] in L; lia]. }
      exists (ch :: cs), (p ++ w ++ t), r'. rewrite E', <- app_assoc. split; [reflexivity|]. split; [rewrite <- !app_assoc, <- Es'; congruence|].
      split; [|exact Hr]. apply ct_places; auto. intros -> d u Et. cbn [app] in Ew.
      generalize (changes_text_start H). rewrite Et. intros [X|[X|X]]; auto; exfalso; rewrite <- Ew in Es'; rewrite Es', Et in Nr; cbn in Nr; tauto.
Qed.

Lemma output_plain cs : output_block false cs = cs.
Proof. unfold output_block. cbn. apply app_nil_r. Qed.
Lemma output_sym cs : output_block true cs = cs ++ tl (rev cs).
Proof.
  unfold output_block. f_equal. destruct cs as [|c cs] using rev_ind; [reflexivity|]. rewrite app_length. cbn [length].
  replace (length cs + 1 =? 0) with false by (symmetry; apply Nat.eqb_neq; lia). cbn [andb negb]. rewrite removelast_last, rev_app_distr. reflexivity.
Qed.

Lemma pn_loop_complete s cs : blocks_text sym n s cs -> forall acc fuel, length s <= fuel -> pn_loop fuel sym n s acc = Ret (acc ++ cs).
Proof.
  (* one block *)
  assert (B : forall s cs, block_text sym n s cs -> forall r acc fuel, block_end r -> s ++ r <> [] -> length (s ++ r) <= S fuel ->
     pn_loop (S fuel) sym n (s ++ r) acc =
       match r with [] => Ret (acc ++ cs) | _ => pn_loop fuel sym n (skip_sep r (chr ",")) (acc ++ cs) end).
  { intros s0 cs0 H r acc fuel R N L. destruct (s0 ++ r) as [|c u] eqn:Eu; [contradiction|]. cbn [pn_loop].
    assert (X : exists t sb cs1, (if eqc c (chr "&") || eqc c (chr "+") then skip_sep u (chr ".") else c :: u) = t ++ r /\ sb = eqc c (chr "&") /\ changes_text sym n t cs1 /\ cs0 = output_block sb cs1).
    { destruct H as [s1 cs1 H|w s1 cs1 W H|w s1 cs1 W H].
      - assert (Hc : c <> "&"%char /\ c <> "+"%char).
        { generalize (changes_text_start H). destruct s1 as [|d s1]; cbn [app] in Eu.
          - intros _. destruct r; [discriminate|]. cbn in R. injection Eu as <- _. subst. split; discriminate.
          - injection Eu as <- _. intros X. apply start_char_facts in X. tauto. }
        destruct Hc as [H1 H2]. exists s1, false, cs1. replace (eqc c (chr "&")) with false by (symmetry; now apply eqc_false).
        replace (eqc c (chr "+")) with false by (symmetry; now apply eqc_false). cbn [orb]. repeat split; auto. now rewrite output_plain.
      - cbn [app] in Eu. injection Eu as <- <-. exists s1, false, cs1. cbn [orb]. replace (eqc "+" (chr "&")) with false by reflexivity.
        replace (eqc "+" (chr "+")) with true by reflexivity. cbn [orb]. destruct (changes_follow H R). rewrite <- app_assoc, skip_sep_app by auto. repeat split; auto. now rewrite output_plain.
      - cbn [app] in Eu. injection Eu as <- <-. exists s1, true, cs1. replace (eqc "&" (chr "&")) with true by reflexivity.
        cbn [orb]. destruct (changes_follow H R). rewrite <- app_assoc, skip_sep_app by auto. repeat split; auto. now rewrite output_sym. }
    destruct X as (t & sb & cs1 & -> & <- & H1 & ->).
    rewrite (@read_block_complete t cs1 H1 r [] _ R) by (rewrite app_length; lia). cbn [bind app].
    destruct r as [|d r]; [reflexivity|]. cbn in R. subst d. replace (eqc "," (chr ",")) with true by reflexivity. reflexivity. }
  assert (E0 : forall acc fuel, pn_loop fuel sym n [] acc = Ret (acc ++ [])) by (intros acc fuel; rewrite app_nil_r; now destruct fuel).
  induction 1 as [s cs H|s cs w t ds H W T IH]; intros acc fuel L.
  - destruct s as [|c s].
    + assert (Ec : cs = []).
      { inversion H as [s1 cs1 Hs E1 E2| |]. subst s1 cs1. inversion Hs as [| |p w s1 ch cs1 Hp Ech W Hw H2 E1 E2]; auto.
        destruct p; [inversion Hp|discriminate]. }
      rewrite Ec. apply E0.
    + destruct fuel as [|fuel]; [cbn in L; lia|]. specialize (B _ _ H [] acc fuel I). rewrite app_nil_r in B. now apply B.
  - rewrite app_length in L. cbn [length] in L. rewrite app_length in L. destruct fuel as [|fuel]; [lia|].
    rewrite (B _ _ H (","%char :: w ++ t) acc fuel eq_refl); [|intros X; now apply app_eq_nil in X|rewrite app_length; cbn [length]; rewrite app_length; lia].
    rewrite skip_sep_comma; [|exact W|].
    + rewrite IH by lia. now rewrite <- app_assoc.
    + assert (Hb : forall s cs, block_text sym n s cs -> match s with [] => True | c :: _ => is_space c = false end).
      { intros s1 cs1 H1. destruct H1 as [s1 cs1 H1| |]; try reflexivity. generalize (changes_text_start H1). destruct s1; auto. intros X. apply start_char_facts in X. tauto. }
      destruct T as [t ds T|t cs2 w2 t2 ds T W2 T2].
      * specialize (Hb _ _ T). destruct t; exact Hb.
      * specialize (Hb _ _ T). destruct t; [reflexivity|exact Hb].
Qed.

Lemma pn_loop_sound fuel s acc : length s <= fuel ->
  (exists cs, pn_loop fuel sym n s acc = Ret (acc ++ cs) /\ blocks_text sym n s cs) \/
  (exists e, pn_loop fuel sym n s acc = Throw e) \/ (exists p, change_of_pn sym n p = UB \/ change_of_pn sym n p = Diverge).
Proof.
  revert s acc. induction fuel as [|fuel IH]; intros s acc L.
  - destruct s; [|cbn in L; lia]. left. exists []. cbn. rewrite app_nil_r. split; auto. apply bs_one, bt_plain, ct_nil.
  - destruct s as [|c s].
    { left. exists []. cbn. rewrite app_nil_r. split; auto. apply bs_one, bt_plain, ct_nil. }
    cbn [pn_loop length] in *.
    set (f := if eqc c (chr "&") || eqc c (chr "+") then skip_sep s (chr ".") else c :: s).
    assert (Lf : length f <= S (length s)). { unfold f. destruct (_ || _); [generalize (skip_sep_len s (chr ".")); lia|cbn; lia]. }
    destruct (@read_block_sound (length f) f [] (le_n _)) as [(cs & t & r & E & Ef & H & Hr)|[(e & E)|H]]; [|rewrite E; cbn; right; left; eauto|auto].
    rewrite E. cbn [bind app].
    assert (X : exists u, block_text sym n u (output_block (eqc c (chr "&")) cs) /\ c :: s = u ++ r).
    { unfold f in Ef. destruct (eqc c (chr "&")) eqn:E1; cbn [orb] in Ef.
      - apply eqc_true in E1. destruct (skip_sep_split s) as (w & W & Ew). exists ("&"%char :: w ++ t). rewrite output_sym. split; [now apply bt_sym|].
        rewrite E1. cbn [app]. rewrite <- app_assoc, <- Ef. now rewrite <- Ew.
      - rewrite output_plain. destruct (eqc c (chr "+")) eqn:E2.
        + apply eqc_true in E2. destruct (skip_sep_split s) as (w & W & Ew). exists ("+"%char :: w ++ t). split; [now apply bt_plus|].
          rewrite E2. cbn [app]. rewrite <- app_assoc, <- Ef. now rewrite <- Ew.
        + exists t. split; [now apply bt_plain|exact Ef]. }
    destruct X as (u & Hu & Eu). destruct r as [|d r].
    + left. exists (output_block (eqc c (chr "&")) cs). split; [reflexivity|]. rewrite app_nil_r in Eu. rewrite Eu. now apply bs_one.
    + destruct (eqc d (chr ",")) eqn:Ed; [|right; left; eauto]. apply eqc_true in Ed. change (chr ",") with ","%char in Ed. subst d.
      destruct (skip_sep_comma_split r) as (w & W & Ew & Hw).
      destruct (IH (skip_sep (","%char :: r) (chr ",")) (acc ++ output_block (eqc c (chr "&")) cs)) as [(ds & E' & H')|H'].
      * assert (Z := f_equal (@length _) Ew). rewrite app_length in Z. assert (Y := f_equal (@length _) Eu). rewrite app_length in Y. cbn [length] in Y. lia.
      * left. exists (output_block (eqc c (chr "&")) cs ++ ds). rewrite E', app_assoc. split; [reflexivity|].
        rewrite Eu, Ew. now apply bs_more.
      * right. exact H'.
Qed.

Lemma interpret_sound s cs : interpret_pn sym n s = Ret cs ->
  (forall p, change_of_pn sym n p <> UB /\ change_of_pn sym n p <> Diverge) -> pn_text sym n s cs.
Proof.
  intros E N. unfold interpret_pn in E. destruct (skip_space_split s) as (w & W & Es & _).
  destruct (@pn_loop_sound (length (skip_space s)) (skip_space s) [] (le_n _)) as [(ds & E' & H)|[(e & E')|(p & H)]].
  - rewrite E' in E. injection E as <-. exists w, (skip_space s). auto.
  - congruence.
  - destruct (N p). tauto.
Qed.
Lemma interpret_complete s cs : pn_text sym n s cs -> interpret_pn sym n s = Ret cs.
Proof.
  intros (w & t & W & H & ->). unfold interpret_pn.
  assert (E : skip_space (w ++ t) = t).
  { apply skip_space_app; auto. assert (Hb : forall s cs, block_text sym n s cs -> match s with [] => True | c :: _ => is_space c = false end).
    { intros s1 cs1 H1. destruct H1 as [s1 cs1 H1| |]; try reflexivity. generalize (changes_text_start H1). destruct s1; auto. intros X. apply start_char_facts in X. tauto. }
    destruct H as [t cs T|t cs2 w2 t2 ds T W2 T2]; specialize (Hb _ _ T); destruct t; auto; reflexivity. }
  rewrite E. now apply (pn_loop_complete H).
Qed.
End Sym.
