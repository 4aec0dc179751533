(* P_Literal.v - the expansion of literals *)
From Verif Require Import Base M_Bell M_Change M_Row M_PN M_Music M_Stream M_Gsiril M_Parser Spec_Dim Spec_Litelib
  P_Bell P_Litelib P_Token P_Parser4 M_Literal Spec_Literal.
Set Implicit Arguments. Unset Strict Implicit.
Open Scope nat_scope.

Lemma eqc_t a b : eqc a b = true -> a = b.
Proof. unfold eqc. destruct (ascii_dec a b); [auto|discriminate]. Qed.
Lemma eqc_f a b : eqc a b = false -> a <> b.
Proof. unfold eqc. destruct (ascii_dec a b); [discriminate|auto]. Qed.
Lemma eqc_same a : eqc a a = true.
Proof. unfold eqc. destruct (ascii_dec a a); congruence. Qed.
Lemma eqc_diff a b : a <> b -> eqc a b = false.
Proof. unfold eqc. destruct (ascii_dec a b); congruence. Qed.

Lemma cast_int t z : int_text t z -> lexical_cast_int t = Ret z.
Proof. intros H. destruct (cast_spec t) as [(y & E & Hy)|[_ N]]; [|destruct (N _ H)]. now rewrite (int_text_fun H Hy). Qed.
Lemma cast_skip t : lexical_cast_int (skip_space t) = lexical_cast_int t.
Proof. unfold lexical_cast_int, read_int. now rewrite skip_idem. Qed.
Lemma int_text_no_n t z : int_text t z -> starts_with (chr "N") (skip_space t) = false.
Proof.
  intros (ws & sign & ds & ws' & -> & W & W' & [D D'] & S & B). rewrite skip_spaces by exact W.
  destruct S as [[-> _]|[[->| ->] _]]; try reflexivity. destruct ds as [|d ds]; [congruence|]. cbn in D. apply andb_true_iff in D as [D _].
  cbn [app skip_space]. destruct (is_space d) eqn:E; [apply digit_not_space in D; congruence|]. cbn [starts_with].
  apply eqc_diff. intros ->. discriminate D.
Qed.

Lemma bell_expr_parse n x z : (Z.of_nat n <= int_max)%Z -> bell_expr n x z -> parse_bell_expr n x = as_int z.
Proof.
  intros Hn H. unfold parse_bell_expr. cbn zeta. destruct H as [w w' W W'|w w' t k W W' T|t z T].
  - rewrite skip_spaces by exact W. replace (skip_space (chr "N" :: w')) with (chr "N" :: w') by reflexivity.
    cbn [starts_with tl]. rewrite eqc_same, spaces_all by exact W'. rewrite as_int_ok; [reflexivity|]. unfold int_min in *. lia.
  - rewrite skip_spaces by exact W. replace (skip_space (chr "N" :: w' ++ chr "-" :: t)) with (chr "N" :: w' ++ chr "-" :: t) by reflexivity.
    cbn [starts_with tl]. rewrite eqc_same, skip_spaces by exact W'. replace (skip_space (chr "-" :: t)) with (chr "-" :: t) by reflexivity.
    rewrite eqc_same. cbn [negb]. unfold parse_int. rewrite cast_skip, (cast_int T). reflexivity.
  - rewrite (int_text_no_n T). unfold parse_int. rewrite cast_skip, (cast_int T). destruct T as (ws & sign & ds & ws' & E & W & W' & D & S & B). now rewrite as_int_ok.
Qed.
Lemma parse_bell_total n x : (exists z, bell_expr n x z) \/ parse_bell_expr n x = fail.
Proof.
  unfold parse_bell_expr. cbn zeta. destruct (skip_split x) as (w & Ex & W). destruct (skip_space x) as [|c i] eqn:E.
  - right. reflexivity.
  - cbn [starts_with]. destruct (eqc c (chr "N")) eqn:Ec.
    + apply eqc_t in Ec. subst c. cbn [tl]. destruct (skip_split i) as (w' & Ei & W'). destruct (skip_space i) as [|d u] eqn:Eu.
      * left. exists (Z.of_nat n). rewrite Ex. apply be_tenor; [exact W|]. rewrite Ei, app_nil_r. exact W'.
      * destruct (eqc d (chr "-")) eqn:Ed; cbn [negb]; [|now right]. apply eqc_t in Ed. subst d. unfold parse_int. rewrite cast_skip.
        destruct (cast_spec u) as [(k & Ek & Tk)|[Ek _]]; rewrite Ek; [|now right]. left. exists (Z.of_nat n - k)%Z.
        rewrite Ex, Ei. now apply be_minus.
    + unfold parse_int. rewrite <- E, cast_skip. destruct (cast_spec x) as [(z & Ez & Tz)|[Ez _]]; rewrite Ez; [|now right].
      left. exists z. now apply be_number.
Qed.
Lemma as_int_inv z y : as_int z = Ret y -> y = z /\ in_int z.
Proof.
  unfold as_int, in_int. destruct ((int_min <=? z)%Z && (z <=? int_max)%Z) eqn:E; [|discriminate]. apply andb_true_iff in E as [A B].
  intros K. injection K as <-. lia.
Qed.
Lemma bell_of_numbered z : bell_of_int (z - 1) = numbered z.
Proof. reflexivity. Qed.
Lemma braces_cut (x : text) c s : firstn (length (x ++ c :: s) - length s - 1) (x ++ c :: s) = x.
Proof.
  rewrite app_length. cbn [length]. replace (length x + S (length s) - length s - 1) with (length x) by lia.
  rewrite firstn_app, Nat.sub_diag. cbn [firstn]. rewrite app_nil_r. apply firstn_all.
Qed.

Section S.
Variables (sym : symtab) (n : nat).
Hypothesis Hn : (Z.of_nat n <= int_max)%Z.

Lemma expands_run s t : expands sym n s t -> forall fuel, length s <= fuel -> expand_f fuel sym n s = Ret t.
Proof.
  induction 1 as [|c s t Hc H IH|x z s t N1 N2 B I1 I2 H IH]; intros fuel F.
  - destruct fuel; reflexivity.
  - destruct fuel; cbn [length] in F; [lia|]. cbn [expand_f]. rewrite eqc_diff by exact Hc. now rewrite IH by lia.
  - unfold in_braces in *. destruct fuel; cbn [length] in F; [lia|]. cbn [expand_f]. rewrite eqc_same.
    rewrite read_bell_expr_at by assumption. cbn [bind]. rewrite braces_cut, (bell_expr_parse Hn B), (as_int_ok I1). cbn [bind].
    rewrite (as_int_ok I2). cbn [bind]. rewrite app_length in F. cbn [length] in F. rewrite IH by lia. reflexivity.
Qed.
Lemma run_expands fuel : forall s t, expand_f fuel sym n s = Ret t -> expands sym n s t.
Proof.
  induction fuel as [|fuel IH]; intros [|c s] t; cbn [expand_f]; try discriminate; try (intros K; injection K as <-; constructor).
  destruct (eqc c (chr "{")) eqn:Ec.
  - apply eqc_t in Ec. subst c. intros E. apply bind_ret_inv in E as (j & Ej & E). apply read_bell_expr_inv in Ej as (x & -> & N1 & N2).
    rewrite braces_cut in E. destruct (parse_bell_total n x) as [[z B]|F]; [|now rewrite F in E]. rewrite (bell_expr_parse Hn B) in E.
    apply bind_ret_inv in E as (y & Ey & E). apply as_int_inv in Ey as [-> I1]. apply bind_ret_inv in E as (y & Ey & E).
    apply as_int_inv in Ey as [-> I2]. apply bind_ret_inv in E as (r & Er & E). rewrite bell_of_numbered in E.
    assert (E' : print_bell sym (numbered z) ++ r = t) by congruence. rewrite <- E'. apply (ex_braces N1 N2 B I1 I2). now apply IH.
  - intros E. apply bind_ret_inv in E as (r & Er & E). assert (E' : c :: r = t) by congruence. rewrite <- E'. apply ex_char; [now apply eqc_f|]. now apply IH.
Qed.
Lemma expand_tame : forall fuel s, length s <= fuel -> sane n s -> tame (expand_f fuel sym n s).
Proof.
  induction fuel as [|fuel IH]; intros [|c s] F S; cbn [expand_f]; try exact I; [cbn in F; lia|]. cbn [length] in F.
  destruct (eqc c (chr "{")) eqn:Ec.
  - apply eqc_t in Ec. subst c. destruct (read_bell_expr (chr "{" :: s)) as [j|e| |] eqn:Ej; try exact I.
    + cbn [bind]. apply read_bell_expr_inv in Ej as (x & -> & N1 & N2). rewrite braces_cut.
      destruct (parse_bell_total n x) as [[z B]|E]; [|rewrite E; exact I].
      destruct (S [] x j z eq_refl N1 N2 B) as [I1 I2]. rewrite (bell_expr_parse Hn B), (as_int_ok I1). cbn [bind]. rewrite (as_int_ok I2). cbn [bind].
      apply tame_bind; [|intros; exact I]. apply IH; [rewrite app_length in F; cbn in F; lia|].
      intros a y b z' E. apply (S (in_braces x a) y b). unfold in_braces in *. rewrite E. cbn. now rewrite <- app_assoc.
    + unfold read_bell_expr in Ej. change (eqc (chr "{") (chr "{")) with true in Ej. cbn match in Ej.
      destruct (bell_expr_loop s 0) as [|d l]; [discriminate|]. destruct (eqc d (chr "}")); discriminate.
    + unfold read_bell_expr in Ej. change (eqc (chr "{") (chr "{")) with true in Ej. cbn match in Ej.
      destruct (bell_expr_loop s 0) as [|d l]; [discriminate|]. destruct (eqc d (chr "}")); discriminate.
  - apply tame_bind; [|intros; exact I]. apply IH; [lia|]. intros a y b z' E. apply (S (c :: a) y b). now rewrite E.
Qed.

Lemma between_gap x y : gap x y (between x y).
Proof.
  unfold gap, between. destruct (Nat.ltb_spec x y) as [L|L]; [auto|]. right. destruct (Nat.eq_dec x y) as [->|D]; [right|left; split; [lia|auto]].
  split; [auto|]. replace (y - y - 1) with 0 by lia. reflexivity.
Qed.
Lemma gap_between x y l : gap x y l -> l = between x y.
Proof.
  unfold between. intros [[L ->]|[[L ->]|[-> ->]]]; (destruct (Nat.ltb_spec x y) as [M|M] || destruct (Nat.ltb_spec y y) as [M|M]); try lia; auto.
  replace (y - y - 1) with 0 by lia. reflexivity.
Qed.
Lemma range_here_dec prev s : {range_here prev s} + {~ range_here prev s}.
Proof.
  destruct prev as [a|]; [|right; intros [H _]; congruence]. destruct s as [|c [|d [|z u]]]; try (right; intros (_ & x & t & E); discriminate).
  destruct (ascii_dec c (chr ".")) as [->|N]; [|right; intros (_ & x & t & E); congruence].
  destruct (ascii_dec d (chr ".")) as [->|N]; [|right; intros (_ & x & t & E); congruence].
  left. split; [discriminate|eauto].
Qed.
Lemma fill_plain prev c u : ~ range_here prev (c :: u) -> fill_ranges sym prev (c :: u) = (r <- fill_ranges sym (Some c) u ;; Ret (c :: r)).
Proof.
  intros N. cbn [fill_ranges]. destruct prev as [a|], u as [|d [|z u]]; auto. destruct (eqc c (chr ".") && eqc d (chr ".")) eqn:E; [|auto].
  apply andb_true_iff in E as [E1 E2]. apply eqc_t in E1, E2. subst. exfalso. apply N. split; [discriminate|eauto].
Qed.
Lemma fill_range a z u : fill_ranges sym (Some a) (chr "." :: chr "." :: z :: u) =
  (first <- read_char sym a ;; last <- read_char sym z ;;
   r <- fill_ranges sym (Some (chr ".")) (z :: u) ;; Ret (concat (map (print_bell sym) (between first last)) ++ r)).
Proof. cbn [fill_ranges]. now rewrite !eqc_same. Qed.
Lemma fill_iff s : forall prev t, fill_ranges sym prev s = Ret t <-> filled sym prev s t.
Proof.
  induction s as [s IH] using (well_founded_ind (well_founded_ltof _ (@length ascii))). unfold ltof in IH. intros prev t.
  destruct s as [|c u].
  - cbn. split; [intros E; injection E as <-; constructor|]. intros H. now inversion H.
  - destruct (range_here_dec prev (c :: u)) as [R|R].
    + destruct R as [P (z & v & E)]. destruct prev as [a|]; [|congruence]. injection E as -> ->. rewrite fill_range. split.
      * intros H. apply bind_ret_inv in H as (x & Ex & H). apply bind_ret_inv in H as (y & Ey & H). apply bind_ret_inv in H as (r & Er & H).
        assert (H' : concat (map (print_bell sym) (between x y)) ++ r = t) by congruence. rewrite <- H'.
        apply (fi_range Ex Ey (between_gap x y)). apply (IH (z :: v)); [cbn; lia|exact Er].
      * intros H. inversion H as [|a' c' s' t' x y l Ex Ey G F|prev' c' s' t' N F]; subst.
        -- rewrite Ex. cbn [bind]. rewrite Ey. cbn [bind]. apply IH in F; [|cbn; lia]. rewrite F. cbn [bind]. now rewrite (gap_between G).
        -- exfalso. apply N. split; [discriminate|eauto].
    + rewrite fill_plain by exact R. split.
      * intros H. apply bind_ret_inv in H as (r & Er & H). assert (H' : c :: r = t) by congruence. rewrite <- H'.
        apply fi_char; [exact R|]. apply IH; [cbn; lia|exact Er].
      * intros H. inversion H as [|a' c' s' t' x y l Ex Ey G F|prev' c' s' t' N F]; subst.
        -- exfalso. apply R. split; [discriminate|eauto].
        -- apply IH in F; [|cbn; lia]. now rewrite F.
Qed.
Lemma fill_tame (RT : forall c, tame (read_char sym c)) s : forall prev, tame (fill_ranges sym prev s).
Proof.
  induction s as [s IH] using (well_founded_ind (well_founded_ltof _ (@length ascii))). unfold ltof in IH. intros prev.
  destruct s as [|c u]; [exact I|]. destruct (range_here_dec prev (c :: u)) as [R|R].
  - destruct R as [P (z & v & E)]. destruct prev as [a|]; [|congruence]. injection E as -> ->. rewrite fill_range.
    apply tame_bind; [apply RT|]. intros x _. apply tame_bind; [apply RT|]. intros y _. apply tame_bind; [apply IH; cbn; lia|intros; exact I].
  - rewrite fill_plain by exact R. apply tame_bind; [apply IH; cbn; lia|intros; exact I].
Qed.

Lemma expand_iff s t : expand_bell_exprs sym n s = Ret t <-> read_as sym n s t.
Proof.
  unfold expand_bell_exprs, expand_bell_ranges. split.
  - intros H. apply bind_ret_inv in H as (u & Eu & H). exists u. split; [now apply run_expands in Eu|now apply fill_iff].
  - intros (u & X & F). rewrite (expands_run X) by auto. cbn [bind]. now apply fill_iff.
Qed.
Lemma expand_exprs_tame (RT : forall c, tame (read_char sym c)) s : sane n s -> tame (expand_bell_exprs sym n s).
Proof. intros H. apply tame_bind; [now apply expand_tame|]. intros u _. now apply fill_tame. Qed.
End S.

Lemma read_char_tame c : tame (read_char default_symtab c).
Proof. destruct (read_char_total c) as [[b E]|E]; rewrite E; exact I. Qed.

(* a text without braces and double dots is read as it is *)
Lemma expands_plain sym n s : ~ In (chr "{") s -> expands sym n s s.
Proof. induction s as [|c s IH]; intros H; constructor; cbn in H; auto. Qed.
Lemma filled_plain sym s : (forall a b, s <> a ++ chr "." :: chr "." :: b) -> forall prev, filled sym prev s s.
Proof.
  induction s as [|c s IH]; intros H prev; [constructor|]. apply fi_char.
  - intros (_ & d & t & E). apply (H [] (d :: t)). exact E.
  - apply IH. intros a b E. apply (H (c :: a) b). now rewrite E.
Qed.
