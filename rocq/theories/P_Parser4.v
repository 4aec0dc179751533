(* P_Parser4.v - make_expr always ends; brackets must match; everything can be written *)
From Verif Require Import Base M_Bell M_Dim M_Gsiril P_Bell M_Parser Spec_Parser P_Parser P_Parser2 P_Parser3.
Set Implicit Arguments. Unset Strict Implicit.
Open Scope nat_scope.

Definition tame {A} (o : outcome A) : Prop := match o with Ret _ | Throw _ => True | UB | Diverge => False end.
Lemma tame_bind A B (o : outcome A) (k : A -> outcome B) : tame o -> (forall a, o = Ret a -> tame (k a)) -> tame (bind o k).
Proof. destruct o; cbn; auto. Qed.
Lemma tame_fail A : tame (@fail A).
Proof. exact I. Qed.

Lemma find_first_tame ks ts : forall d, tame (find_first ks d ts).
Proof.
  induction ts as [|t ts IH]; intro d; cbn [find_first]; [destruct (d =? 0)%Z; exact I|].
  destruct (opens (tk t)); [apply tame_bind; auto; intros; exact I|].
  destruct (closes (tk t)); [apply tame_bind; auto; intros; exact I|].
  destruct (_ && _); [exact I|apply tame_bind; auto; intros; exact I].
Qed.
Lemma find_last_tame ks ts : forall d, tame (find_last ks d ts).
Proof.
  induction ts as [|t ts IH]; intro d; cbn [find_last]; [destruct (d =? 0)%Z; exact I|].
  destruct (opens (tk t)); [apply tame_bind; auto; intros; exact I|].
  destruct (closes (tk t)); [apply tame_bind; auto; intros; exact I|].
  apply tame_bind; auto; intros [?|] _; exact I.
Qed.
Lemma enclosed_tame o c ts : forall d, tame (enclosed_from o c d ts).
Proof.
  induction ts as [|t ts IH]; intro d; cbn [enclosed_from]; [destruct (d =? 0)%Z; exact I|].
  cbn zeta. destruct (_ && _); [exact I|apply IH].
Qed.
Lemma is_enclosed_tame o c ts : ts <> [] -> tame (is_enclosed o c ts).
Proof. destruct ts; [congruence|intros _; unfold is_enclosed]. destruct (_ || _); [exact I|apply enclosed_tame]. Qed.

Definition lits_tame (L : lits) : Prop := forall s, tame (l_pn L s) /\ tame (l_transp L s) /\ tame (l_regex L s).

Section Tame.
Variable L : lits.
Hypothesis T : lits_tame L.
Variable rec : list token -> outcome expr.
Variable n : nat.
Hypothesis R : forall ts, length ts < n -> tame (rec ts).

Lemma parse_list_tame f : forall ts, length ts < n -> length ts < f -> tame (parse_list_f rec f ts).
Proof.
  induction f as [|f IH]; intros ts Hn Hf; [lia|]. cbn [parse_list_f].
  apply tame_bind; [apply find_first_tame|]. intros [[[a t] b]|] E.
  - apply find_first_short in E. apply tame_bind; [apply R; lia|]. intros e _. apply tame_bind; [apply IH; lia|]. intros; exact I.
  - destruct ts; [exact I|]. apply tame_bind; [apply R; auto|]. intros; exact I.
Qed.
Lemma make_args_tame1 f : forall ts, length ts < n -> length ts < f -> tame (make_args_f rec f ts).
Proof.
  induction f as [|f IH]; intros ts Hn Hf; [lia|]. cbn [make_args_f].
  apply tame_bind; [apply find_first_tame|]. intros [[[a t] b]|] E.
  - apply find_first_short in E. destruct a; [exact I|]. apply tame_bind; [apply R; lia|]. intros e _.
    apply tame_bind; [apply IH; lia|]. intros; exact I.
  - destruct ts; [exact I|]. apply tame_bind; [apply R; auto|]. intros; exact I.
Qed.
Lemma make_args_tame ts : length ts < n -> tame (make_args rec ts).
Proof. unfold make_args; destruct ts; [intros; exact I|intro; apply make_args_tame1; auto]. Qed.
Lemma alternative_tame ts : length ts < n -> tame (alternative L rec ts).
Proof.
  intro Hn; unfold alternative. apply tame_bind; [apply find_first_tame|]. intros [[[a t] b]|] E.
  - apply find_first_short in E. apply tame_bind; [apply R; lia|]. intros x _.
    apply tame_bind; [destruct b; [exact I|apply R; cbn in *; lia]|]. intros; exact I.
  - apply tame_bind; [apply T|]. intros x _. apply tame_bind; [destruct ts; [exact I|apply R; auto]|]. intros; exact I.
Qed.
Lemma braces_tame f : forall ts o, length ts < n -> length ts < f -> tame (braces_f L rec f ts o).
Proof.
  induction f as [|f IH]; intros ts o Hn Hf; [lia|]. cbn [braces_f].
  apply tame_bind; [apply find_last_tame|]. intros [[[a t] b]|] E.
  - apply find_last_short in E. apply tame_bind; [apply alternative_tame; lia|]. intros [x y] _.
    pose proof (strip_semis_short a). apply IH; lia.
  - apply tame_bind; [apply alternative_tame; auto|]. intros [x y] _. exact I.
Qed.
Lemma binary_tame ls : forall ts, length ts <= n -> tame (binary rec ls ts).
Proof.
  induction ls as [|ks ls IH]; intros ts Hn; [exact I|]. cbn [binary].
  apply tame_bind; [apply find_first_tame|]. intros [[[[|x a] t] b]|] E; auto using tame_fail.
  apply find_first_short in E. cbn in E. destruct b; [exact I|]. cbn in E.
  apply tame_bind; [apply R; cbn; lia|]. intros; apply tame_bind; [apply R; cbn; lia|]. intros; exact I.
Qed.
Lemma assignment_tame ts : length ts <= n -> tame (assignment rec ts).
Proof.
  intro Hn; unfold assignment. apply tame_bind; [apply find_first_tame|]. intros [[[[|x [|y a]] t] b]|] E; try exact I.
  apply find_first_short in E. cbn in E. destruct (negb _); [exact I|]. destruct (tt_eqb (tk t) KAssign).
  - destruct b; [exact I|]. apply tame_bind; [apply R; cbn in *; lia|]. intros; exact I.
  - destruct b; [exact I|]. apply tame_bind; [apply R; cbn in *; lia|]. intros; exact I.
Qed.
Lemma num_tame s : tame (num_value s).
Proof. unfold num_value; destruct (forallb _ _); exact I. Qed.
Lemma unary_tame k u : tame (unary_arg k u).
Proof. destruct u; [exact I|cbn]. destruct (tt_eqb _ _); exact I. Qed.
Lemma literal_tame t : tame (literal L t).
Proof.
  unfold literal; destruct (tk t); try exact I; try apply T. apply tame_bind; [apply num_tame|]. intros; exact I.
Qed.
Lemma removelast_short (u : list token) : length (removelast u) <= length u.
Proof. induction u as [|a [|b u] IH]; cbn in *; lia. Qed.
Lemma prefix_tame t u : S (length u) <= n -> tame (prefix L rec t u).
Proof.
  intro Hn; unfold prefix. destruct (defined_op t u); [exact I|]. destruct (_ || is_word _ _).
  { destruct u as [|y u]; [exact I|]. apply tame_bind; [destruct (tt_eqb _ _); [apply num_tame|exact I]|]. intros.
    apply tame_bind; [apply R; lia|]. intros; exact I. }
  destruct (_ || tt_eqb _ KDecr); [apply tame_bind; [apply unary_tame|]; intros; exact I|].
  destruct (is_word _ _); [apply tame_bind; [apply unary_tame|]; intros; exact I|].
  destruct (is_word _ _); [apply tame_bind; [apply unary_tame|]; intros; exact I|].
  destruct (tt_eqb _ _). { destruct u; [exact I|]. apply tame_bind; [apply R; lia|]. intros; exact I. }
  destruct (tt_eqb _ _). { destruct u; [exact I|]. apply tame_bind; [apply R; lia|]. intros; exact I. }
  apply tame_bind.
  - destruct (_ && _) eqn:E; [|exact I]. apply is_enclosed_tame. intros ->; discriminate.
  - intros [|] _.
    + apply tame_bind; [|intros; exact I]. apply make_args_tame. pose proof (removelast_short (tl u)). destruct u; cbn in *; lia.
    + destruct u; [apply literal_tame|exact I].
Qed.
Lemma expr_step_tame ts : length ts <= n -> tame (expr_step L rec ts).
Proof.
  intro Hn; unfold expr_step; destruct ts as [|t u]; [exact I|].
  pose proof (removelast_short u). cbn in Hn.
  apply tame_bind; [apply is_enclosed_tame; discriminate|]. intros [|] _; [apply R; lia|].
  apply tame_bind; [apply is_enclosed_tame; discriminate|]. intros [|] _.
  { pose proof (strip_semis_short (removelast u)). apply braces_tame; lia. }
  apply tame_bind; [apply is_enclosed_tame; discriminate|]. intros [|] _.
  { apply tame_bind; [apply parse_list_tame; lia|]. intros; exact I. }
  apply tame_bind; [apply assignment_tame; auto|]. intros [|] _; [exact I|].
  apply tame_bind; [apply binary_tame; auto|]. intros [|] _; [exact I|]. apply prefix_tame; auto.
Qed.
End Tame.

Lemma make_expr_tame L : lits_tame L -> forall ts, tame (make_expr L ts).
Proof.
  intros T; unfold make_expr. cut (forall f ts, length ts < f -> tame (make_expr_f L f ts)); [intros H ts; apply H; lia|].
  induction f as [|f IH]; intros ts H; [lia|]. cbn [make_expr_f]. apply expr_step_tame with (n := f); auto; lia.
Qed.

(* Brackets *)
Definition bal (ts : list token) : Prop := exists xs, Forall wf xs /\ flat xs = ts.
Lemma bal_app a b : bal a -> bal b -> bal (a ++ b).
Proof. intros (x & Wx & <-) (y & Wy & <-). exists (x ++ y); split; [apply Forall_app; auto|apply flat_app]. Qed.
Lemma bal_nil : bal [].
Proof. now exists []. Qed.
Lemma bal_leaf t : opens (tk t) = false -> closes (tk t) = false -> bal [t].
Proof. intros O C; exists [Leaf t]; split; auto. constructor; auto. constructor; auto. Qed.
Lemma bal_cons t u : opens (tk t) = false -> closes (tk t) = false -> bal u -> bal (t :: u).
Proof. intros O C B. apply (@bal_app [t] u); auto. now apply bal_leaf. Qed.
Lemma bal_mid a t b : opens (tk t) = false -> closes (tk t) = false -> bal a -> bal b -> bal (a ++ t :: b).
Proof. intros; apply bal_app; auto; now apply bal_cons. Qed.
Lemma bal_group o m c : pair_of (tk o) (tk c) -> bal m -> bal (o :: m ++ [c]).
Proof.
  intros P (xs & W & <-). exists [Group o xs c]; split.
  - constructor; auto. now constructor.
  - rewrite flat_cons, flat1_group; cbn; now rewrite app_nil_r.
Qed.
Lemma find_first_split ks ts : forall d a t b, find_first ks d ts = Ret (Some (a, t, b)) ->
  ts = a ++ t :: b /\ opens (tk t) = false /\ closes (tk t) = false.
Proof.
  induction ts as [|x ts IH]; intros d a t b; cbn [find_first]; [destruct (d =? 0)%Z; discriminate|].
  destruct (opens (tk x)) eqn:O.
  { intro H; apply bind_ret_inv in H as ([[[a' t'] b']|] & Hf & H); cbn in H; [injection H as <- <- <-|discriminate].
    apply IH in Hf as (-> & ? & ?); auto. }
  destruct (closes (tk x)) eqn:C.
  { intro H; apply bind_ret_inv in H as ([[[a' t'] b']|] & Hf & H); cbn in H; [injection H as <- <- <-|discriminate].
    apply IH in Hf as (-> & ? & ?); auto. }
  destruct (_ && _).
  - intro H; injection H as <- <- <-. auto.
  - intro H; apply bind_ret_inv in H as ([[[a' t'] b']|] & Hf & H); [|discriminate].
    cbn in H; injection H as <- <- <-. apply IH in Hf as (-> & ? & ?); auto.
Qed.
Lemma find_last_split ks ts : forall d a t b, find_last ks d ts = Ret (Some (a, t, b)) ->
  ts = a ++ t :: b /\ opens (tk t) = false /\ closes (tk t) = false.
Proof.
  induction ts as [|x ts IH]; intros d a t b; cbn [find_last]; [destruct (d =? 0)%Z; discriminate|].
  destruct (opens (tk x)) eqn:O.
  { intro H; apply bind_ret_inv in H as ([[[a' t'] b']|] & Hf & H); cbn in H; [injection H as <- <- <-|discriminate].
    apply IH in Hf as (-> & ? & ?); auto. }
  destruct (closes (tk x)) eqn:C.
  { intro H; apply bind_ret_inv in H as ([[[a' t'] b']|] & Hf & H); cbn in H; [injection H as <- <- <-|discriminate].
    apply IH in Hf as (-> & ? & ?); auto. }
  intro H; apply bind_ret_inv in H as ([[[a' t'] b']|] & Hf & H).
  - cbn in H; injection H as <- <- <-. apply IH in Hf as (-> & ? & ?); auto.
  - destruct (_ && _); [|discriminate]. injection H as <- <- <-. auto.
Qed.
Lemma is_enclosed_split o c ts : pair_of o c -> is_enclosed o c ts = Ret true ->
  exists t m z, ts = t :: m ++ [z] /\ tk t = o /\ tk z = c.
Proof.
  intros P; unfold is_enclosed; destruct ts as [|t u]; [discriminate|].
  destruct (tt_eqb_spec (tk t) o) as [Ko|]; cbn [negb orb]; [|discriminate].
  destruct (tt_eqb_spec (tk (last (t :: u) t)) c) as [Kc|]; cbn [negb]; [|discriminate].
  intros _. destruct u as [|x u] using rev_ind.
  - cbn in Kc. exfalso. rewrite Ko in Kc. destruct P as [[? ?]|[[? ?]|[? ?]]]; congruence.
  - exists t, u, x. rewrite app_comm_cons, last_last in Kc. auto.
Qed.
Lemma strip_split ts : exists ss, ts = strip_semis ts ++ ss /\ Forall (fun s => tk s = KSemi) ss.
Proof.
  unfold strip_semis. induction ts as [|t ts IH] using rev_ind; [exists []; auto|].
  rewrite rev_app_distr; cbn [rev app drop_semis]. destruct (tt_eqb_spec (tk t) KSemi) as [K|K].
  - destruct IH as (ss & E & H). exists (ss ++ [t]); split; [now rewrite app_assoc, <- E|]. apply Forall_app; auto.
  - exists []; split; auto. cbn [rev]. now rewrite rev_involutive, app_nil_r.
Qed.
Lemma bal_semis ss : Forall (fun s => tk s = KSemi) ss -> bal ss.
Proof. induction 1 as [|s ss K H IH]; [apply bal_nil|apply bal_cons; auto; now rewrite K]. Qed.

Definition strict (ts : list token) : Prop := Forall (fun t => ~ lax t) ts.
Lemma strict_app a b : strict (a ++ b) <-> strict a /\ strict b.
Proof. apply Forall_app. Qed.
Lemma strict_cons a b : strict (a :: b) <-> ~ lax a /\ strict b.
Proof. apply Forall_cons_iff. Qed.
Section Bal.
Variable L : lits.
Variable rec : list token -> outcome expr.
Hypothesis R : forall ts e, strict ts -> rec ts = Ret e -> bal ts.
Lemma parse_list_bal f : forall ts es, strict ts -> parse_list_f rec f ts = Ret es -> bal ts.
Proof.
  induction f as [|f IH]; intros ts es S; [discriminate|]. cbn [parse_list_f].
  intro H; apply bind_ret_inv in H as ([[[a t] b]|] & E & H).
  - apply find_first_split in E as (-> & O & C). apply strict_app in S as [Sa S]; apply strict_cons in S as [_ Sb].
    apply bind_ret_inv in H as (e & He & H). apply bind_ret_inv in H as (es' & Hes & H). apply bal_mid; eauto.
  - destruct ts; [apply bal_nil|]. apply bind_ret_inv in H as (e & He & H). eauto.
Qed.
Lemma make_args_bal1 f : forall ts es, strict ts -> make_args_f rec f ts = Ret es -> bal ts.
Proof.
  induction f as [|f IH]; intros ts es S; [discriminate|]. cbn [make_args_f].
  intro H; apply bind_ret_inv in H as ([[[a t] b]|] & E & H).
  - apply find_first_split in E as (-> & O & C). apply strict_app in S as [Sa S]; apply strict_cons in S as [_ Sb].
    destruct a as [|x a]; [discriminate|].
    apply bind_ret_inv in H as (e & He & H). apply bind_ret_inv in H as (es' & Hes & H). apply bal_mid; eauto.
  - destruct ts; [apply bal_nil|]. apply bind_ret_inv in H as (e & He & H). eauto.
Qed.
Lemma make_args_bal ts es : strict ts -> make_args rec ts = Ret es -> bal ts.
Proof. unfold make_args; destruct ts; [intros; apply bal_nil|]. intros S H. eapply make_args_bal1; eauto. Qed.
Lemma alternative_bal ts r : strict ts -> alternative L rec ts = Ret r -> bal ts.
Proof.
  intros S H; unfold alternative in H. apply bind_ret_inv in H as ([[[a t] b]|] & E & H).
  - apply find_first_split in E as (-> & O & C). apply strict_app in S as [Sa S]; apply strict_cons in S as [_ Sb].
    apply bind_ret_inv in H as (e & He & H). apply bind_ret_inv in H as (es' & Hes & H). apply bal_mid; eauto.
    destruct b; [apply bal_nil|eauto].
  - apply bind_ret_inv in H as (e & He & H). apply bind_ret_inv in H as (es' & Hes & H). destruct ts; [apply bal_nil|eauto].
Qed.
Lemma strict_strip ts : strict ts -> strict (strip_semis ts).
Proof. destruct (strip_split ts) as (ss & E & _). intro S; rewrite E in S. now apply strict_app in S as [S _]. Qed.
Lemma bal_strip ts : bal (strip_semis ts) -> bal ts.
Proof. destruct (strip_split ts) as (ss & E & H). intro B. rewrite E. apply bal_app; auto. now apply bal_semis. Qed.
Lemma braces_bal f : forall ts o e, strict ts -> braces_f L rec f ts o = Ret e -> bal ts.
Proof.
  induction f as [|f IH]; intros ts o e S; [discriminate|]. cbn [braces_f].
  intro H; apply bind_ret_inv in H as ([[[a t] b]|] & E & H).
  - apply find_last_split in E as (-> & O & C). apply strict_app in S as [Sa S]; apply strict_cons in S as [_ Sb].
    apply bind_ret_inv in H as ([x y] & He & H). apply IH in H; [|now apply strict_strip].
    apply bal_mid; auto; [now apply bal_strip|]. eapply alternative_bal; eauto.
  - apply bind_ret_inv in H as ([x y] & He & H). eapply alternative_bal; eauto.
Qed.
Lemma binary_bal ls ts : forall e, strict ts -> binary rec ls ts = Ret (Some e) -> bal ts.
Proof.
  induction ls as [|ks ls IH]; intros e S; [discriminate|]. cbn [binary]. intro H.
  apply bind_ret_inv in H as ([[[[|x a] t] [|y b]]|] & E & H); try discriminate; [|eauto].
  apply find_first_split in E as (E & O & C). rewrite E in S |- *. apply strict_app in S as [Sa S]; apply strict_cons in S as [_ Sb].
  apply bind_ret_inv in H as (u & Hu & H). apply bind_ret_inv in H as (v & Hv & H). apply bal_mid; eauto.
Qed.
Lemma assignment_bal ts e : strict ts -> assignment rec ts = Ret (Some e) -> bal ts.
Proof.
  intros S H; unfold assignment in H. apply bind_ret_inv in H as ([[[[|x [|y a]] t] b]|] & E & H); try discriminate.
  apply find_first_split in E as (-> & O & C). apply strict_app in S as [Sa S]; apply strict_cons in S as [_ Sb].
  destruct (tt_eqb_spec (tk x) KName) as [K|]; cbn in H; [|discriminate].
  apply bal_mid; auto; [apply bal_leaf; now rewrite K|]. destruct (tt_eqb _ _), b as [|z b]; try apply bal_nil; try discriminate;
    apply bind_ret_inv in H as (u & Hu & H); eauto.
Qed.
Lemma literal_bal t e : literal L t = Ret e -> bal [t].
Proof. intro H; apply bal_leaf; unfold literal in H; now destruct (tk t). Qed.
Lemma prefix_bal t u e : strict (t :: u) -> prefix L rec t u = Ret e -> bal (t :: u).
Proof.
  intros S; apply strict_cons in S as [St Su]. unfold prefix.
  destruct (defined_op t u) eqn:D.
  { intros _. unfold defined_op in D. destruct (is_word _ t) eqn:Wd; [|discriminate]. apply is_word_iff in Wd as [K _].
    apply bal_cons; try (now rewrite K). destruct u as [|x [|y [|z [|? ?]]]]; try discriminate.
    - destruct (tt_eqb_spec (tk x) KName) as [Kx|]; [|discriminate]. apply bal_leaf; now rewrite Kx.
    - destruct (tt_eqb_spec (tk x) KOParen) as [K1|]; [|discriminate]. destruct (tt_eqb_spec (tk z) KCParen) as [K2|]; [|discriminate].
      destruct (tt_eqb_spec (tk y) KName) as [K3|]; [|discriminate].
      apply (@bal_group x [y] z); [left; auto|]. apply bal_leaf; now rewrite K3. }
  destruct (_ || is_word _ _) eqn:RP.
  { destruct u as [|y u]; [discriminate|]. intro H; apply bind_ret_inv in H as (z & Hz & H). apply bind_ret_inv in H as (v & Hv & H).
    assert (K : tk t = KNum \/ tk t = KName).
    { apply orb_true_iff in RP as [RP|RP]; [left|right].
      - apply andb_true_iff in RP as [RP _]. now apply tt_eqb_true.
      - now apply is_word_iff in RP as [? _]. }
    apply bal_cons; [destruct K as [->| ->]; auto..|]. eauto. }
  destruct (_ || tt_eqb _ KDecr) eqn:IN.
  { exfalso; apply St. apply orb_true_iff in IN as [IN|IN]; apply tt_eqb_true in IN; [left|right; left]; auto. }
  destruct (is_word (str "echo") t) eqn:EC. { exfalso; apply St. apply is_word_iff in EC. right; right; left; auto. }
  destruct (is_word (str "save") t) eqn:SV. { exfalso; apply St. apply is_word_iff in SV. right; right; right; auto. }
  destruct (tt_eqb_spec (tk t) KReverse) as [K|].
  { destruct u; [discriminate|]. intro H; apply bind_ret_inv in H as (v & Hv & H). apply bal_cons; try (now rewrite K); eauto. }
  destruct (tt_eqb_spec (tk t) KNot) as [K|].
  { destruct u; [discriminate|]. intro H; apply bind_ret_inv in H as (v & Hv & H). apply bal_cons; try (now rewrite K); eauto. }
  intro H; apply bind_ret_inv in H as ([|] & Hc & H).
  - destruct ((2 <=? length u) && tt_eqb (tk t) KName) eqn:E; [|discriminate Hc]. apply andb_true_iff in E as [_ E]; apply tt_eqb_true in E.
    apply is_enclosed_split in Hc as (x & m & z & -> & K1 & K2); [|left; auto].
    apply bind_ret_inv in H as (es & Hes & H). cbn [tl] in Hes. rewrite removelast_last in Hes.
    apply strict_cons in Su as [_ Su]. apply strict_app in Su as [Su _].
    apply bal_cons; try (now rewrite E). apply bal_group; [left; auto|]. eapply make_args_bal; eauto.
  - destruct u; [|discriminate]. eapply literal_bal; eauto.
Qed.
Lemma expr_step_bal ts e : strict ts -> expr_step L rec ts = Ret e -> bal ts.
Proof.
  intros S; unfold expr_step; destruct ts as [|t u]; [discriminate|]. intro H.
  assert (MID : forall o c, pair_of o c -> is_enclosed o c (t :: u) = Ret true -> exists m z, u = m ++ [z] /\ strict m /\ removelast u = m /\ pair_of (tk t) (tk z)).
  { intros o c P E; apply is_enclosed_split in E as (x & m & z & E & K1 & K2); auto. injection E as <- ->. exists m, z.
    repeat split; auto; [|apply removelast_last|now rewrite K1, K2]. apply strict_cons in S as [_ S]. now apply strict_app in S as [S _]. }
  apply bind_ret_inv in H as ([|] & Hp & H).
  { apply MID in Hp as (m & z & -> & Sm & E & P); [|left; auto]. rewrite E in H. apply bal_group; eauto. }
  apply bind_ret_inv in H as ([|] & Hb & H).
  { apply MID in Hb as (m & z & -> & Sm & E & P); [|right; left; auto]. rewrite E in H. apply bal_group; auto.
    apply braces_bal in H; [now apply bal_strip|now apply strict_strip]. }
  apply bind_ret_inv in H as ([|] & Hk & H).
  { apply MID in Hk as (m & z & -> & Sm & E & P); [|right; right; auto]. rewrite E in H.
    apply bind_ret_inv in H as (es & Hes & H). apply bal_group; auto. eapply parse_list_bal; eauto. }
  apply bind_ret_inv in H as ([a|] & Ha & H); [eapply assignment_bal; eauto|].
  apply bind_ret_inv in H as ([a|] & Hbin & H); [eapply binary_bal; eauto|]. eapply prefix_bal; eauto.
Qed.
End Bal.
Lemma make_expr_bal L ts e : strict ts -> make_expr L ts = Ret e -> bal ts.
Proof.
  unfold make_expr. generalize (S (length ts)) as f. intro f; revert ts e; induction f as [|f IH]; intros ts e S; [discriminate|].
  cbn [make_expr_f]. apply expr_step_bal; auto.
Qed.

(* Writing *)
Definition tok (k : tt) (s : string) : token := mkTok k (str s).
Definition paren (xs : list tree) : list tree := [Group (tok KOParen "(") xs (tok KCParen ")")].
Lemma paren_wf xs : Forall wf xs -> Forall wf (paren xs).
Proof. intro W; constructor; auto. constructor; auto. left; auto. Qed.
Lemma paren_gram L n xs e : n <= 9 -> gram L 0 xs e -> gram L n (paren xs) e.
Proof. intros Hn G; apply gram_down with 9; auto. now apply g_paren. Qed.
Lemma wf_tok k s : opens k = false -> closes k = false -> wf (Leaf (mkTok k s)).
Proof. intros; constructor; auto. Qed.
Definition can_write (L : lits) (e : expr) : Prop := exists xs, Forall wf xs /\ gram L 0 xs e.
Lemma read_digits_all s : forall a v, read_digits a s = (v, []) -> forallb is_digit s = true.
Proof.
  induction s as [|c s IH]; intros a v; cbn [read_digits forallb]; auto. destruct (is_digit c); [|discriminate]. apply IH.
Qed.
Lemma print_nat_num n : (Z.of_nat n < 2147483648)%Z -> num_value (print_nat n) = Ret (Z.of_nat n).
Proof.
  intro H; assert (E : read_digits 0 (print_nat n) = (Z.of_nat n, [])).
  { rewrite <- (app_nil_r (print_nat n)). now apply print_nat_read. }
  unfold num_value; rewrite (read_digits_all E), E. cbn [fst]. f_equal. unfold to_int, ll_max.
  rewrite Z.min_r by lia. rewrite Z.mod_small; lia.
Qed.

Scheme writable_mut := Minimality for writable Sort Prop
  with writable_else_mut := Minimality for writable_else Sort Prop
  with writables_mut := Minimality for writables Sort Prop.
Combined Scheme writable_all from writable_mut, writable_else_mut, writables_mut.

Section Write.
Variable L : lits.
Let WE (e : expr) : Prop := exists xs, Forall wf xs /\ gram L 0 xs e.
Let WO (o : option expr) : Prop := exists ys, Forall wf ys /\ rest L ys o /\ forall e, o = Some e -> block L ys e.
Let WS (es : list expr) : Prop := exists ys, Forall wf ys /\ items L ys es /\
  (es <> [] -> args1 L ys es /\ ys <> [] /\ forall x, ys <> [Leaf x]).
Lemma leafs_wf k s xs : opens k = false -> closes k = false -> Forall wf xs -> Forall wf (Leaf (mkTok k s) :: xs).
Proof. intros; constructor; auto; now apply wf_tok. Qed.
Lemma paren_free ks xs : free ks (paren xs).
Proof. apply free_group, free_nil. Qed.
Lemma plain e xs : Forall wf xs -> gram L 0 xs e -> WE e.
Proof. intros W G; exists xs; auto. Qed.

Theorem write_all :
  (forall e, writable L e -> WE e) /\ (forall o, writable_else L o -> WO o) /\ (forall es, writables L es -> WS es).
Proof.
  assert (IFS : forall t e o (X : list tree), WE t -> Forall wf X -> maybe L X e -> free [KSemi] X -> WO o -> WO (Some (EIf t e o))).
  { intros t e o X (ts & Wt & Gt) WX MX FX (ys & Wy & Ry & _).
    set (seg := paren ts ++ Leaf (tok KColon ":") :: X).
    assert (Wseg : Forall wf seg). { apply Forall_app; split; [now apply paren_wf|]. apply leafs_wf; auto. }
    assert (A : alt L seg t e). { apply alt_test; auto using paren_free. apply paren_gram; auto; lia. }
    assert (Fseg : free [KSemi] seg).
    { apply free_app; split; [apply paren_free|]. apply free_leaf; split; auto. cbn; intuition discriminate. }
    assert (W2 : Forall wf (seg ++ Leaf (tok KSemi ";") :: ys)). { apply Forall_app; split; auto. apply leafs_wf; auto. }
    exists (seg ++ Leaf (tok KSemi ";") :: ys); split; auto. split.
    - apply r_more; auto. discriminate.
    - intros e' E; injection E as <-. apply b_more; auto. }
  assert (UN : forall (k : tt) s e (f : expr -> expr), opens k = false -> closes k = false ->
    (forall xs, gram L 9 xs e -> gram L 9 (Leaf (mkTok k s) :: xs) (f e)) -> WE e -> WE (f e)).
  { intros k s e f O C G (xs & W & Gx). apply plain with (Leaf (mkTok k s) :: paren xs); auto.
    - apply leafs_wf; auto. now apply paren_wf.
    - apply gram_down with 9; [|lia]. apply G. now apply paren_gram. }
  assert (LEAF : forall k s e, opens k = false -> closes k = false ->
    gram L 9 [Leaf (mkTok k s)] e -> WE e).
  { intros k s e O C G; apply plain with [Leaf (mkTok k s)]; auto; [apply leafs_wf; auto|]. apply gram_down with 9; auto; lia. }
  assert (TWO : forall k s k' s' e, opens k = false -> closes k = false -> opens k' = false -> closes k' = false ->
    gram L 9 [Leaf (mkTok k s); Leaf (mkTok k' s')] e -> WE e).
  { intros k s k' s' e O C O' C' G; apply plain with [Leaf (mkTok k s); Leaf (mkTok k' s')]; auto; [repeat apply leafs_wf; auto|].
    apply gram_down with 9; auto; lia. }
  apply writable_all.
  - (* operators *) intros op n x y e Hn I O _ HX _ HY. destruct HX as (xs & Wx & Gx), HY as (ys & Wy & Gy).
    pose proof (ops_level I) as Lv.
    apply plain with (paren xs ++ Leaf (mkTok op []) :: paren ys).
    + apply Forall_app; split; [now apply paren_wf|]. apply leafs_wf; [destruct op; cbn in Lv; auto; lia..|now apply paren_wf].
    + apply gram_down with n; [|lia]. apply g_bin with x y; auto; apply paren_gram; auto; lia.
  - intros s e _ H. destruct H as (xs & W & G).
    apply plain with (Leaf (mkTok KName s) :: Leaf (mkTok KAssign []) :: xs); [repeat apply leafs_wf; auto|].
    now apply (@g_assign L (mkTok KName s) (mkTok KAssign [])).
  - intros s. apply plain with [Leaf (mkTok KName s); Leaf (mkTok KAssign [])]; [repeat apply leafs_wf; auto|].
    now apply (@g_assign_nothing L (mkTok KName s) (mkTok KAssign [])).
  - intros s e _ H. destruct H as (xs & W & G).
    apply plain with (Leaf (mkTok KName s) :: Leaf (mkTok KAppAssign []) :: xs); [repeat apply leafs_wf; auto|].
    now apply (@g_append_assign L (mkTok KName s) (mkTok KAppAssign [])).
  - intros s e _ H. destruct H as (xs & W & G).
    apply plain with (Leaf (mkTok KName s) :: Leaf (mkTok KImmAssign []) :: xs); [repeat apply leafs_wf; auto|].
    now apply (@g_imm_assign L (mkTok KName s) (mkTok KImmAssign [])).
  - intros t e o _ (ys & W & _ & B). apply plain with [Group (tok KOBrace "{") ys (tok KCBrace "}")].
    + constructor; auto; constructor; auto; right; left; auto.
    + apply gram_down with 9; [|lia]. apply g_block; auto.
  - intros es _ (ys & W & I & _). apply plain with [Group (tok KOBrack "[") ys (tok KCBrack "]")].
    + constructor; auto; constructor; auto; right; right; auto.
    + apply gram_down with 9; [|lia]. now apply g_array.
  - intros s. apply TWO with KName (str "defined") KName s; auto; try discriminate. now apply (@g_defined L (tok KName "defined") (mkTok KName s)).
  - intros z e Hz _ H. destruct (Z.eq_dec z (-1)) as [->|D].
    + apply (UN KName (str "repeat") e (ERepeat (-1))); auto; try discriminate. intros xs G. now apply (@g_repeat L (tok KName "repeat")).
    + apply (UN KNum (print_nat (Z.to_nat z)) e (ERepeat z)); auto; try discriminate. intros xs G. apply g_times; auto. cbn [tx].
      rewrite print_nat_num by lia. f_equal; lia.
  - intros s. apply TWO with KIncr [] KName s; auto; try discriminate. apply (@g_incr L (mkTok KIncr []) (mkTok KName s)); auto using free_nil.
  - intros s. apply TWO with KDecr [] KName s; auto; try discriminate. apply (@g_decr L (mkTok KDecr []) (mkTok KName s)); auto using free_nil.
  - intros s. apply TWO with KName (str "echo") KString s; auto; try discriminate.
    apply (@g_echo L (tok KName "echo") (mkTok KString s)); auto using free_nil. now split.
  - intros s. apply TWO with KName (str "save") KName s; auto; try discriminate.
    apply (@g_save L (tok KName "save") (mkTok KName s)); auto using free_nil. now split.
  - intros e _ H. apply (UN KReverse [] e EReverse); auto; try discriminate. intros xs G. now apply g_reverse.
  - intros e _ H. apply (UN KNot [] e ENot); auto; try discriminate. intros xs G. now apply g_not.
  - intros f es Nf _ (ys & W & I & H). destruct es as [|e es].
    + apply plain with (Leaf (mkTok KName f) :: paren []); [apply leafs_wf; auto; apply paren_wf; auto|].
      apply gram_down with 9; [|lia]. apply (@g_call L (mkTok KName f)); auto.
      1-3: intros [_ E]; apply Nf; cbn in E |- *; rewrite E; cbn; tauto.
      * intros (_ & x & E & _); discriminate.
      * constructor.
    + destruct H as (A & Ny & NL); [discriminate|].
      apply plain with (Leaf (mkTok KName f) :: paren ys); [apply leafs_wf; auto; now apply paren_wf|].
      apply gram_down with 9; [|lia]. apply (@g_call L (mkTok KName f)); auto.
      1-3: intros [_ E]; apply Nf; cbn in E |- *; rewrite E; cbn; tauto.
      * intros (_ & x & E & _). now apply NL in E.
      * now constructor.
  - intros s. apply LEAF with KString s; auto; try discriminate. now apply (@g_string L (mkTok KString s)).
  - intros s e H. apply LEAF with KName s; auto. now apply g_word.
  - intros s e H. apply LEAF with KPn s; auto. now apply g_pn.
  - intros s e H. apply LEAF with KTransp s; auto. now apply g_transp.
  - intros s e H. apply LEAF with KRegex s; auto. now apply g_regex.
  - intros z Hz. apply LEAF with KNum (print_nat (Z.to_nat z)); auto; try discriminate. apply g_num; auto. cbn [tx].
    rewrite print_nat_num by lia. f_equal; lia.
  - exists []; split; auto. split; [constructor|discriminate].
  - intros t e o _ HT _ HE _ HO. destruct HE as (xs & W & G). apply IFS with (paren xs); auto using paren_wf, paren_free.
    constructor; apply paren_gram; auto; lia.
  - intros t o _ HT _ HO. apply IFS with []; auto using free_nil. constructor.
  - exists []; repeat split; auto; [constructor|congruence..].
  - intros e es _ H _ (ys & W & I & A). destruct H as (xs & Wx & Gx).
    assert (Gp : gram L 0 (paren xs) e) by (apply paren_gram; auto; lia).
    destruct es as [|e' es].
    + exists (paren xs); split; [now apply paren_wf|]. split; [apply i_one; auto using paren_free|]. intros _.
      split; [apply a_one; auto using paren_free|]. split; discriminate.
    + destruct A as (A & Ny & NL); [discriminate|].
      exists (paren xs ++ Leaf (tok KComma ",") :: ys). split; [apply Forall_app; split; [now apply paren_wf|apply leafs_wf; auto]|].
      split; [apply i_more; auto using paren_free|]. intros _. split; [apply a_more; auto using paren_free|]. split; [discriminate|].
      intros x E; discriminate.
Qed.
End Write.

Theorem write_read L e : writable L e -> exists xs, Forall wf xs /\ make_expr L (flat xs) = Ret e.
Proof.
  intros H. destruct (write_all L) as (A & _). destruct (A e H) as (xs & W & G). exists xs; split; auto. now apply make_expr_gram.
Qed.
