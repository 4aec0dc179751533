(* P_RowParse4.v - the row calculator ends its reading, and no exponent it reads is negative. *)
From Verif Require Import Base M_Bell M_Change M_Row M_PN M_Mslib M_Gsiril M_Stream M_Token M_RowCalc M_RowParse Spec_Row Spec_Change Spec_Dim Spec_Litelib Spec_RowParse.
From Verif Require Import P_Bell P_Row P_Change2 P_RowText P_Litelib P_Parser4 P_RowParse P_RowParse2 P_RowParse3.
From Verif Require Import M_RowParse Spec_RowParse.
Set Implicit Arguments. Unset Strict Implicit.
Open Scope nat_scope.

Lemma find_tame ks : forall ts d, tame (find_first ks d ts).
Proof.
  induction ts as [|t ts IH]; intro d; cbn [find_first]; [now destruct (_ =? _)%Z|]. destruct (_ && _); [exact I|]. apply tame_bind; auto. intros; exact I.
Qed.
Lemma find_last_tame2 ks ts : tame (find_last ks ts).
Proof. unfold find_last. apply tame_bind; [apply find_tame|]. intros; exact I. Qed.
Lemma close_tame o c : forall ts d, tame (close_at o c d ts).
Proof. induction ts as [|t ts IH]; intro d; cbn [close_at]; [exact I|]. destruct (_ =? _)%Z; [exact I|apply IH]. Qed.
Lemma enclosed_tame2 o c t u : tame (is_enclosed o c (t :: u)).
Proof. unfold is_enclosed. destruct (negb _); [exact I|]. apply tame_bind; [apply close_tame|]. intros r _. now destruct (_ =? _). Qed.
Lemma check_tame a b : tame (check_binary a b).
Proof. unfold check_binary. now destruct (_ || _). Qed.
Lemma cast_tame t : tame (lexical_cast_int t).
Proof. destruct (cast_spec t) as [(z & -> & _)|[-> _]]; exact I. Qed.
Lemma int_tame ts : tame (parse_int ts).
Proof. unfold parse_int. destruct ts as [|t [|u ts]]; try exact I. destruct (rk_eqb _ _); [|exact I]. apply tame_bind; [apply cast_tame|]. intros; exact I. Qed.
Lemma neg_tame ts : tame (parse_neg ts).
Proof. unfold parse_neg. destruct ts as [|t [|u ts]]; try exact I. destruct (rk_eqb _ _); [|exact I]. apply tame_bind; [apply cast_tame|]. intros; exact I. Qed.
Lemma make_tame f bells s : bells <= 255 -> tame (make_row default_symtab f bells s).
Proof.
  intro B. unfold make_row. apply tame_bind.
  - unfold as_change. destruct (negb _); [exact I|]. destruct (change_of_pn_wf s B) as [(c & E & W & N)|[E|E]]; rewrite E; try exact I.
    destruct (@row_mul_change_spec [] c) as (r & Er & _); auto; [split; [now constructor|cbn; lia]|lia|]. rewrite Er. exact I.
  - intros [r|] _; [exact I|]. apply tame_bind.
    + destruct (row_of_string_total (with_treble default_symtab f s)) as (o & -> & H). destruct o; cbn in *; tauto.
    + intros r _. now destruct (_ && _).
Qed.
Lemma between_short t u : length (between (t :: u)) <= length u.
Proof. unfold between. cbn [tl]. clear t. induction u as [|x [|y u] IH]; cbn in *; lia. Qed.
Section Tame.
Variable f : flags.
Variable bells : nat.
Hypothesis B : bells <= 255.
Variable rec : list rtok -> outcome cexpr.
Variable n : nat.
Hypothesis R : forall ts, length ts < n -> tame (rec ts).
Lemma roi_tame ts : length ts < n -> tame (row_or_int default_symtab f bells rec ts).
Proof.
  intro H. unfold row_or_int. destruct ts as [|t u]; [exact I|]. destruct (rk_eqb _ _); [apply neg_tame|]. destruct (rk_eqb _ _); [apply int_tame|].
  destruct (_ && _); [|now apply R]. destruct (_ =? _); [apply int_tame|]. pose proof (make_tame f (tx t) B) as M.
  destruct (make_row _ _ _ _) as [r|[]| |]; try exact I; try contradiction; apply int_tame.
Qed.
Lemma set_tame : forall k ts, length ts < n -> length ts < k -> tame (parse_set rec k ts).
Proof.
  induction k as [|k IH]; intros ts H Hk; [lia|]. cbn [parse_set]. apply tame_bind; [apply find_tame|]. intros [[[a t] b]|] E.
  - destruct (find_first_parts E) as [-> _]. rewrite app_length in *. cbn [length] in *. apply tame_bind; [apply check_tame|]. intros _ _. apply tame_bind; [apply IH; lia|]. intros. apply tame_bind; [apply R; lia|]. intros; exact I.
  - apply tame_bind; [now apply R|]. intros; exact I.
Qed.
Lemma check_both (a b : list rtok) x : check_binary a b = Ret x -> 0 < length a /\ 0 < length b.
Proof. destruct a, b; cbn; intro H; try discriminate; lia. Qed.
Lemma step_tame ts : length ts <= n -> tame (parse_step default_symtab f bells rec n ts).
Proof.
  intro H. unfold parse_step. destruct ts as [|t u]; [exact I|]. pose proof (between_short t u) as Hb. cbn [length] in H.
  apply tame_bind; [apply enclosed_tame2|]. intros [|] _; [apply R; lia|].
  apply tame_bind; [apply enclosed_tame2|]. intros [|] _; [apply tame_bind; [apply set_tame; lia|]; intros; exact I|].
  apply tame_bind; [apply enclosed_tame2|]. intros [|] _; [apply tame_bind; [apply set_tame; lia|]; intros; exact I|].
  apply tame_bind; [apply find_last_tame2|]. intros [[[a x] b]|] E1.
  { destruct (find_last_parts E1) as [E _]. apply (f_equal (@length _)) in E. rewrite app_length in E. cbn [length] in E.
    apply tame_bind; [apply check_tame|]. intros y C. apply check_both in C. apply tame_bind; [apply R; lia|]. intros. apply tame_bind; [apply R; lia|]. intros; exact I. }
  apply tame_bind; [apply find_last_tame2|]. intros [[[a x] b]|] E2.
  { destruct (find_last_parts E2) as [E _]. apply (f_equal (@length _)) in E. rewrite app_length in E. cbn [length] in E.
    apply tame_bind; [apply check_tame|]. intros y C. apply check_both in C. apply tame_bind; [apply R; lia|]. intros. apply tame_bind; [apply R; lia|]. intros; exact I. }
  apply tame_bind; [apply find_tame|]. intros [[[a x] b]|] E3.
  { destruct (find_first_parts E3) as [E _]. apply (f_equal (@length _)) in E. rewrite app_length in E. cbn [length] in E.
    apply tame_bind; [apply check_tame|]. intros y C. apply check_both in C. apply tame_bind; [apply R; lia|]. intros. apply tame_bind; [apply roi_tame; lia|]. intros; exact I. }
  destruct (_ && _); [|exact I]. apply tame_bind; [now apply make_tame|]. intros; exact I.
Qed.
End Tame.
Lemma parse_tame f bells : bells <= 255 -> forall n ts, length ts < n -> tame (parse_expr default_symtab f bells n ts).
Proof.
  intros B n. induction n as [|n IH]; intros ts H; [lia|]. cbn [parse_expr]. apply step_tame; auto. lia.
Qed.

Definition lexed (ts : list rtok) : Prop := Forall (fun t => tk t = KNum -> forallb is_digit (tx t) = true) ts.
Lemma cast_digits s z : forallb is_digit s = true -> lexical_cast_int s = Ret z -> (0 <= z)%Z.
Proof.
  intros D E. unfold lexical_cast_int in E. destruct (cast_spec s) as [(y & E2 & T)|[E2 _]]; unfold lexical_cast_int in E2; rewrite E2 in E; [|discriminate]. injection E as <-.
  destruct T as (ws & sign & ds & ws' & -> & _ & _ & _ & [[-> _]|[_ ->]] & _).
  - rewrite !forallb_app in D. cbn in D. rewrite !andb_false_r in D. discriminate.
  - assert (D' : forallb is_digit ds = true) by (rewrite !forallb_app in D; apply andb_true_iff in D as [_ D]; apply andb_true_iff in D as [_ D]; now apply andb_true_iff in D as [D _]).
    clear - D'. induction ds as [|d ds IH]; cbn [dec_value forallb] in *; [lia|]. apply andb_true_iff in D' as [D1 D2]. specialize (IH D2).
    unfold is_digit in D1. apply andb_true_iff in D1 as [D1 _]. apply Nat.leb_le in D1. unfold digit_val. unfold code in D1. apply Z.add_nonneg_nonneg; auto. apply Z.mul_nonneg_nonneg; [unfold code; lia|]. apply Z.pow_nonneg. lia.
Qed.
Lemma flat_mid l t r : flat (l ++ Leaf t :: r) = flat l ++ t :: flat r.
Proof. unfold flat. now rewrite flat_map_app. Qed.
Lemma lexed_mid l t r : lexed (flat (l ++ Leaf t :: r)) -> lexed (flat l) /\ lexed (flat r).
Proof. rewrite flat_mid. unfold lexed. intro H. apply Forall_app in H as [H1 H2]. inversion H2; auto. Qed.
Lemma lexed_group o b c : lexed (flat [Group o b c]) -> lexed (flat b).
Proof. unfold lexed, flat. cbn [flat_map flat1]. rewrite app_nil_r. intro H. inversion H as [|? ? _ H2]; subst. now apply Forall_app in H2 as [H2 _]. Qed.
Lemma gram_no_negative M : (forall n xs e, gram M n xs e -> lexed (flat xs) -> no_negative e) /\
  (forall xs e, exponent M xs e -> lexed (flat xs) -> no_negative e) /\ (forall xs es, members M xs es -> lexed (flat xs) -> Forall id (map no_negative es)).
Proof.
  apply gram_ind_all; cbn [no_negative map]; intros; auto.
  1-5: match goal with L : lexed (flat (_ ++ Leaf _ :: _)) |- _ => apply lexed_mid in L as [L1 L2] end; auto.
  1-3: match goal with L : lexed (flat [Group _ _ _]) |- _ => apply lexed_group in L end; auto.
  1-3: eapply cast_digits; [|eassumption]; match goal with L : lexed _ |- _ => unfold lexed, flat in L; cbn in L; rewrite Forall_forall in L; apply L; cbn; auto end.
  - constructor; auto. unfold id. auto.
  - match goal with L : lexed (flat (_ ++ Leaf _ :: _)) |- _ => apply lexed_mid in L as [L1 L2] end. constructor; auto. unfold id. auto.
Qed.
(* what is lexed *)
Lemma span_all p : forall s, forallb p (fst (span p s)) = true.
Proof. induction s as [|c s IH]; cbn [span]; auto. destruct (p c) eqn:E; auto. destruct (span p s). cbn in *. now rewrite E. Qed.
Lemma kind_not_num : forall c, kind_in kinds c <> KNum.
Proof. intro c. unfold kinds. cbn [kind_in]. repeat destruct (eqc _ _); discriminate. Qed.
Lemma lex_lexed sym : forall k s ts, lex_f sym k s = Some ts -> lexed ts.
Proof.
  induction k as [|k IH]; intros s ts; cbn [lex_f]; [discriminate|]. destruct s as [|c u]; [intro H; injection H as <-; constructor|].
  destruct (is_space c); [apply IH|]. destruct (source _); [discriminate|]. destruct (lex1 sym (c :: u)) as [t r] eqn:E. destruct (lex_f sym k r) eqn:E2; [|discriminate]. intro H. injection H as <-.
  constructor; [|eapply IH; eauto]. unfold lex1 in E. destruct (_ || _); [injection E as <- _; discriminate|]. destruct (span (is_symbol sym) (c :: u)) as [w r2].
  destruct (existsb _ w); [injection E as <- _; discriminate|]. destruct (_ || _); [destruct (span _ _) as [w2 r3] eqn:E3; injection E as <- _; discriminate|].
  destruct (is_digit c); [|injection E as <- _; cbn [tk]; intro K; now apply kind_not_num in K].
  destruct (span is_digit (c :: u)) as [w2 r3] eqn:E3; injection E as <- _. intros _. cbn [tx]. rewrite <- (f_equal fst E3 : fst (span is_digit (c :: u)) = w2). apply span_all.
Qed.
