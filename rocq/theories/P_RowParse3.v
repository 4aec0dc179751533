(* P_RowParse3.v - what the row calculator accepts is in its grammar. *)
From Verif Require Import Base M_Bell M_Row M_Stream M_RowCalc M_RowParse Spec_RowParse P_RowParse P_RowParse2.
Set Implicit Arguments. Unset Strict Implicit.
Open Scope nat_scope.

Section Read.
Variable sym : symtab.
Variable f : flags.
Variable bells : nat.
Notation M := (make_row sym f bells).
Notation gram := (gram M).
Notation exponent := (exponent M).
Notation members := (members M).
Notation pe := (parse_expr sym f bells).

Lemma raise n xs e : n < 3 -> gram n xs e -> free (level n) xs -> gram (S n) xs e.
Proof.
  intros H G F. inversion G; subst; auto; try lia; exfalso; apply free_app in F as [_ F]; apply free_leaf in F as [F _]; apply F;
    match goal with K : tk _ = _ |- _ => rewrite K end; cbn; auto.
Qed.
Lemma raise_to n xs e : gram 0 xs e -> n <= 3 -> (forall m, m < n -> free (level m) xs) -> gram n xs e.
Proof. intros G. induction n as [|n IH]; intros L F; auto. apply raise; [lia| |apply F; lia]. apply IH; [lia|]. intros. apply F. lia. Qed.
Lemma lower n xs e : n <= 3 -> gram n xs e -> gram 0 xs e.
Proof. induction n as [|n IH]; auto. intros L G. apply IH; [lia|]. apply g_up; [lia|exact G]. Qed.
Lemma enclosed_cases o c xs : pair_of o c -> Forall wf xs -> xs <> [] ->
  (is_enclosed o c (flat xs) = Ret true /\ exists g b h, xs = [Group g b h] /\ tk g = o) \/
  (is_enclosed o c (flat xs) = Ret false /\ (forall g b h, xs = [Group g b h] -> tk g <> o)) \/ is_enclosed o c (flat xs) = oops.
Proof.
  intros P W N. destruct xs as [|x xs]; [congruence|]. inversion W as [|? ? Wx Wr]; subst. destruct x as [t|g b h].
  - right. left. split; [apply enclosed_other; [discriminate|]; cbn; inversion Wx; subst; now apply (pair_kinds P)|]. intros g b h E. discriminate.
  - destruct (rk_eqb (tk g) o) eqn:E.
    + apply rk_eqb_true in E. rewrite (enclosed_group _ P Wx E). destruct b; cbn [is_empty]; auto. destruct xs as [|y xs]; cbn [is_empty].
      * left. split; auto. eauto.
      * right. left. split; auto. intros g' b' h' X. discriminate.
    + right. left. split; [apply enclosed_other; [discriminate|exact E]|]. intros g' b' h' X. inversion X; subst. now apply rk_eqb_false.
Qed.
Lemma free_split ks l t r : free ks (l ++ Leaf t :: r) -> free ks l /\ free ks r.
Proof. intro F. apply free_app in F as [A F]. apply free_leaf in F as [_ B]. auto. Qed.
Lemma one_token xs t : flat xs = [t] -> xs = [Leaf t].
Proof.
  intro X. destruct xs as [|[t'|o b c] xs]; cbn in X; inversion X; subst; [apply flat_nil in H1; now subst|]. apply app_eq_nil in H1 as [H1 _]. apply app_eq_nil in H1 as [_ H1]. discriminate.
Qed.
Lemma parse_int_inv xs e : parse_int (flat xs) = Ret e -> exists t z, xs = [Leaf t] /\ tk t = KNum /\ lexical_cast_int (tx t) = Ret z /\ e = CInt z.
Proof.
  unfold parse_int. destruct (flat xs) as [|t [|u v]] eqn:X; try discriminate. intro H. destruct (rk_eqb (tk t) KNum) eqn:K; [|discriminate]. apply bind_ret_inv in H as (z & Ez & H). inversion H; subst.
  exists t, z. apply rk_eqb_true in K. repeat split; auto. now apply one_token.
Qed.
Lemma exponent_sound fuel xs e : (forall xs e, pe fuel (flat xs) = Ret e -> Forall wf xs -> gram 0 xs e) -> Forall wf xs -> free [KMinus] xs -> free mults xs ->
  row_or_int sym f bells (pe fuel) (flat xs) = Ret e -> exponent xs e.
Proof.
  intros IH W F0 F1 H. destruct (flat xs) as [|t u] eqn:X; [discriminate|]. cbn [row_or_int] in H. destruct (rk_eqb (tk t) KMinus) eqn:KM.
  - exfalso. apply rk_eqb_true in KM. destruct xs as [|[t'|o b c] xs]; cbn in X; inversion X; subst.
    + apply free_leaf in F0 as [F0 _]. apply F0. now left.
    + inversion W as [|? ? Wg _]; subst. inversion Wg as [|? ? ? P _]; subst. rewrite KM in P. destruct P as [[P _]|[[P _]|[P _]]]; discriminate.
  - destruct (rk_eqb (tk t) KPlus) eqn:KP.
    + apply rk_eqb_true in KP. destruct xs as [|[t'|o b c] xs]; cbn in X; inversion X; subst.
      * apply parse_int_inv in H as (n & z & -> & Kn & Ez & ->). now apply x_plus.
      * inversion W as [|? ? Wg _]; subst. inversion Wg as [|? ? ? P _]; subst. rewrite KP in P. destruct P as [[P _]|[[P _]|[P _]]]; discriminate.
    + assert (E : pe fuel (flat xs) = Ret e -> (forall t, xs = [Leaf t] -> tk t = KNum -> length (tx t) <> 1) -> exponent xs e).
      { intros H' C. apply x_expr; auto. apply raise_to; auto. intros [|[|m]] Hm; auto; lia. }
      rewrite <- X in *. destruct (is_empty u && rk_eqb (tk t) KNum) eqn:C.
      * apply andb_true_iff in C as [C1 C2]. destruct u; [|discriminate]. apply rk_eqb_true in C2. apply one_token in X. subst xs.
        destruct (Nat.eqb_spec (length (tx t)) 1) as [L1|L1].
        -- apply parse_int_inv in H as (n & z & X & Kn & Ez & ->). inversion X; subst. now apply x_digit.
        -- destruct (M (tx t)) as [r|[]| |] eqn:Em; cbn [bind] in H; try discriminate.
           ++ inversion H; subst. apply x_expr; [intros t' X _; inversion X; now subst|]. apply g_up; [lia|]. apply g_rows; auto.
           ++ apply parse_int_inv in H as (n & z & X & Kn & Ez & ->). inversion X; subst. now apply x_not_row.
      * apply E; auto. intros t' -> K'. rewrite flat_leaf1 in X. inversion X; subst. rewrite K' in C. discriminate.
Qed.
Lemma check_inv (a b : list rtok) : check_binary a b = Ret tt -> a <> [] /\ b <> [].
Proof. unfold check_binary. destruct a, b; cbn; try discriminate. intros _. split; discriminate. Qed.

Theorem sound fuel : (forall xs e, pe fuel (flat xs) = Ret e -> Forall wf xs -> gram 0 xs e) /\
  (forall k xs es, parse_set (pe fuel) k (flat xs) = Ret es -> Forall wf xs -> members xs es).
Proof.
  induction fuel as [|fuel [IH IHs]].
  - split; [discriminate|]. intros k xs es H. destruct k as [|k]; [discriminate|]. cbn [parse_set] in H. apply bind_ret_inv in H as (o & _ & H).
    destruct o as [[[a t] b]|]; [|discriminate]. apply bind_ret_inv in H as (u & _ & H). apply bind_ret_inv in H as (v & _ & H). discriminate.
  - assert (S1 : forall xs e, pe (S fuel) (flat xs) = Ret e -> Forall wf xs -> gram 0 xs e).
    { intros xs e H W. cbn [parse_expr] in H. assert (N : xs <> []) by (intros ->; discriminate).
      assert (FE : flat xs <> []) by (intro X; apply flat_nil in X; congruence).
      destruct (enclosed_cases ppar W N) as [(E & g & b & h & -> & K)|[(E & K)|E]]; [| |destruct (flat xs) as [|t u]; [congruence|]; rewrite step_cons, E in H; discriminate].
      { apply lower with (n := 3); [lia|]. pose proof (between_group g b h) as B. inversion W as [|? ? Wg _]; subst. inversion Wg as [|? ? ? P Wb]; subst.
        destruct (flat [Group g b h]) as [|t u]; [congruence|]. rewrite step_cons, E in H. cbn [bind] in H. rewrite B in H. apply g_paren; auto. }
      destruct (enclosed_cases pset W N) as [(E1 & g & b & h & -> & K1)|[(E1 & K1)|E1]]; [| |destruct (flat xs) as [|t u]; [congruence|]; rewrite step_cons, E in H; cbn [bind] in H; rewrite E1 in H; discriminate].
      { apply lower with (n := 3); [lia|]. pose proof (between_group g b h) as B. inversion W as [|? ? Wg _]; subst. inversion Wg as [|? ? ? P Wb]; subst.
        destruct (flat [Group g b h]) as [|t u]; [congruence|]. rewrite step_cons, E in H. cbn [bind] in H. rewrite E1 in H. cbn [bind] in H. rewrite B in H.
        apply bind_ret_inv in H as (es & H & X). inversion X; subst. apply g_sets; auto. eapply IHs; eauto. }
      destruct (enclosed_cases pgrp W N) as [(E2 & g & b & h & -> & K2)|[(E2 & K2)|E2]];
        [| |destruct (flat xs) as [|t u]; [congruence|]; rewrite step_cons, E in H; cbn [bind] in H; rewrite E1 in H; cbn [bind] in H; rewrite E2 in H; discriminate].
      { apply lower with (n := 3); [lia|]. pose proof (between_group g b h) as B. inversion W as [|? ? Wg _]; subst. inversion Wg as [|? ? ? P Wb]; subst.
        destruct (flat [Group g b h]) as [|t u]; [congruence|]. rewrite step_cons, E in H. cbn [bind] in H. rewrite E1 in H. cbn [bind] in H. rewrite E2 in H. cbn [bind] in H. rewrite B in H.
        apply bind_ret_inv in H as (es & H & X). inversion X; subst. apply g_groups; auto. eapply IHs; eauto. }
      rewrite step_operators in H; auto.
      2:{ intros o c [[-> ->]|[[-> ->]|[-> ->]]]; auto. }
      unfold operators in H. destruct (free_or_last [KMinus] xs) as [F0|(l & t & r & -> & F0 & I)].
      2:{ apply wf_mid in W as (Wl & Bt & Wr). rewrite last_at in H; auto. cbn [bind] in H. apply bind_ret_inv in H as ([] & Ck & H). apply bind_ret_inv in H as (x & Hx & H). apply bind_ret_inv in H as (y & Hy & H).
          inversion H; subst. destruct I as [I|[]]. apply g_minus; auto. apply raise; auto. }
      rewrite last_none in H; auto. cbn [bind] in H. destruct (free_or_last mults xs) as [F1|(l & t & r & -> & F1 & I)].
      2:{ apply wf_mid in W as (Wl & Bt & Wr). rewrite last_at in H; auto. cbn [bind] in H. apply bind_ret_inv in H as ([] & Ck & H). apply bind_ret_inv in H as (x & Hx & H). apply bind_ret_inv in H as (y & Hy & H).
          inversion H; subst. apply free_split in F0 as [Fl Fr]. apply g_up; [lia|]. assert (Gl : gram 1 l x) by (apply raise; auto). assert (Gr : gram 2 r y) by (apply raise_to; auto; intros [|[|m]] Hm; auto; lia).
          destruct I as [I|[I|[I|[]]]]; rewrite <- I; cbn [op_of]; [apply g_times|apply g_divide|apply g_ldivide]; auto. }
      rewrite last_none in H; auto. cbn [bind] in H. destruct (free_or_first [KPower] xs) as [F2|(l & t & r & -> & F2 & I)].
      2:{ apply wf_mid in W as (Wl & Bt & Wr). rewrite first_at in H; auto. cbn [bind] in H. apply bind_ret_inv in H as ([] & Ck & H). apply bind_ret_inv in H as (x & Hx & H). apply bind_ret_inv in H as (y & Hy & H).
          inversion H; subst. apply free_split in F0 as [Fl0 Fr0]. apply free_split in F1 as [Fl1 Fr1]. destruct I as [I|[]]. apply lower with (n := 2); [lia|].
          apply g_expo; auto; [apply raise_to; auto; intros [|[|[|m]]] Hm; auto; lia|]. eapply exponent_sound; eauto. }
      rewrite first_none in H; auto. cbn [bind] in H. destruct (flat xs) as [|t u] eqn:X; [congruence|]. destruct (is_empty u) eqn:U; [|discriminate]. destruct u; [|discriminate]. apply one_token in X. subst xs.
      cbn [andb] in H. destruct (rk_eqb (tk t) KNum || rk_eqb (tk t) KLit) eqn:K3; [|discriminate]. apply bind_ret_inv in H as (r & Er & H). inversion H; subst.
      apply lower with (n := 3); [lia|]. apply g_rows; auto. apply orb_true_iff in K3 as [K3|K3]; apply rk_eqb_true in K3; auto. }
    split; auto. induction k as [|k IHk]; intros xs es H W; [discriminate|]. cbn [parse_set] in H. destruct (free_or_first [KSep] xs) as [F|(l & t & r & -> & F & I)].
    + rewrite first_none in H; auto. cbn [bind] in H. apply bind_ret_inv in H as (e & He & H). inversion H; subst. apply m_one. auto.
    + apply wf_mid in W as (Wl & Bt & Wr). rewrite first_at in H; auto. cbn [bind] in H. apply bind_ret_inv in H as ([] & Ck & H). apply bind_ret_inv in H as (es' & Hs & H). apply bind_ret_inv in H as (e & He & H).
      inversion H; subst. destruct I as [I|[]]. apply m_more; auto.
Qed.

(* what is accepted has matching brackets *)
Definition matched (ts : list rtok) : Prop := exists xs, Forall wf xs /\ flat xs = ts.
Lemma matched_mid a t b : matched a -> ~ bracket (tk t) -> matched b -> matched (a ++ t :: b).
Proof. intros (xs & Wx & <-) B (ys & Wy & <-). exists (xs ++ Leaf t :: ys). split; [apply wf_app; split; auto; constructor; auto; now constructor|]. now rewrite flat_app. Qed.
Lemma matched_one t : ~ bracket (tk t) -> matched [t].
Proof. intro B. exists [Leaf t]. split; auto. constructor; auto. now constructor. Qed.
Lemma matched_group o b c : pair_of (tk o) (tk c) -> matched b -> matched (o :: b ++ [c]).
Proof. intros P (xs & W & <-). exists [Group o xs c]. split; [constructor; auto; now constructor|]. rewrite flat_cons, flat1_group. change (flat []) with (@nil rtok). now rewrite app_nil_r. Qed.
Lemma find_first_parts ks : forall ts d a t b, find_first ks d ts = Ret (Some (a, t, b)) -> ts = a ++ t :: b /\ In (tk t) ks.
Proof.
  induction ts as [|u ts IH]; intros d a t b H; cbn [find_first] in H; [destruct (d =? 0)%Z; discriminate|].
  destruct ((weight u =? 0) && (d =? 0) && among ks u)%Z eqn:E.
  - inversion H; subst. apply andb_true_iff in E as [_ E]. split; auto. now apply among_in.
  - apply bind_ret_inv in H as (o & Ho & H). destruct o as [[[a' t'] b']|]; inversion H; subst. destruct (IH _ _ _ _ Ho) as [-> I]. auto.
Qed.
Lemma find_last_parts ks ts a t b : find_last ks ts = Ret (Some (a, t, b)) -> ts = a ++ t :: b /\ In (tk t) ks.
Proof.
  unfold find_last. intro H. apply bind_ret_inv in H as (o & Ho & H). destruct o as [[[a' t'] b']|]; inversion H; subst. apply find_first_parts in Ho as [E I]. split; auto.
  rewrite <- (rev_involutive ts), E, rev_app_distr. cbn [rev]. now rewrite <- app_assoc.
Qed.
Lemma close_at_end o c : o <> c -> forall ts d r, (1 <= d)%Z -> close_at o c d ts = Ret r -> exists a t, ts = a ++ t :: r /\ tk t = c.
Proof.
  intro N. induction ts as [|t ts IH]; intros d r Hd H; [discriminate|]. cbn [close_at] in H. destruct (rk_eqb (tk t) o) eqn:E1.
  - destruct (Z.eqb_spec (d + 1) 0); [lia|]. destruct (IH _ _ (ltac:(lia) : (1 <= d + 1)%Z) H) as (a & u & -> & K). exists (t :: a), u. auto.
  - destruct (rk_eqb (tk t) c) eqn:E2.
    + destruct (Z.eqb_spec (d - 1) 0); [inversion H; subst; exists [], t; split; auto; now apply rk_eqb_true|]. destruct (IH _ _ (ltac:(lia) : (1 <= d - 1)%Z) H) as (a & u & -> & K). exists (t :: a), u. auto.
    + destruct (Z.eqb_spec d 0); [lia|]. destruct (IH _ _ Hd H) as (a & u & -> & K). exists (t :: a), u. auto.
Qed.
Lemma enclosed_parts o c ts : o <> c -> is_enclosed o c ts = Ret true -> exists t b u, ts = t :: b ++ [u] /\ tk t = o /\ tk u = c /\ between ts = b.
Proof.
  intros N H. destruct ts as [|t ts]; [discriminate|]. cbn [is_enclosed] in H. destruct (rk_eqb (tk t) o) eqn:E; [|discriminate]. cbn [negb] in H.
  apply bind_ret_inv in H as (r & C & H). destruct (_ =? _) in H; [discriminate|]. destruct r; [|discriminate].
  cbn [close_at] in C. rewrite E in C. cbn in C. apply (close_at_end N) in C as (a & u & -> & K); [|lia]. apply rk_eqb_true in E. exists t, a, u. repeat split; auto. unfold between. cbn [tl]. apply removelast_last.
Qed.
Lemma op_plain k ks : In k ks -> ks = [KMinus] \/ ks = mults \/ ks = [KPower] \/ ks = [KSep] -> ~ bracket k.
Proof. intros I C. apply not_bracket. destruct C as [->|[->|[->| ->]]]; cbn in *; tauto. Qed.
Lemma exponent_matched fuel b y : (forall ts e, pe fuel ts = Ret e -> matched ts) -> row_or_int sym f bells (pe fuel) b = Ret y -> matched b.
Proof.
  intros IH H. destruct b as [|t u]; [discriminate|]. cbn [row_or_int] in H.
  assert (ONE : forall v e, parse_int v = Ret e -> matched v).
  { intros v e Hv. destruct v as [|n [|? ?]]; try discriminate. cbn [parse_int] in Hv. destruct (rk_eqb (tk n) KNum) eqn:K; [|discriminate]. apply rk_eqb_true in K. apply matched_one, not_bracket. rewrite K. cbn. tauto. }
  assert (ONE' : forall v e, parse_neg v = Ret e -> matched v).
  { intros v e Hv. destruct v as [|n [|? ?]]; try discriminate. cbn [parse_neg] in Hv. destruct (rk_eqb (tk n) KNum) eqn:K; [|discriminate]. apply rk_eqb_true in K. apply matched_one, not_bracket. rewrite K. cbn. tauto. }
  destruct (rk_eqb (tk t) KMinus) eqn:K1; [apply rk_eqb_true in K1; apply (@matched_mid [] t u); [exists []; auto|apply not_bracket; rewrite K1; cbn; tauto|eauto]|].
  destruct (rk_eqb (tk t) KPlus) eqn:K2; [apply rk_eqb_true in K2; apply (@matched_mid [] t u); [exists []; auto|apply not_bracket; rewrite K2; cbn; tauto|eauto]|].
  destruct (is_empty u && rk_eqb (tk t) KNum) eqn:C; [|eauto]. apply andb_true_iff in C as [C1 C2]. destruct u; [|discriminate]. apply rk_eqb_true in C2. apply matched_one, not_bracket. rewrite C2. cbn. tauto.
Qed.
Theorem brackets fuel : (forall ts e, pe fuel ts = Ret e -> matched ts) /\ (forall k ts es, parse_set (pe fuel) k ts = Ret es -> matched ts).
Proof.
  assert (SET : forall fuel, (forall ts e, pe fuel ts = Ret e -> matched ts) -> forall k ts es, parse_set (pe fuel) k ts = Ret es -> matched ts).
  { clear fuel. intros fuel IH. induction k as [|k IHk]; intros ts es H; [discriminate|]. cbn [parse_set] in H. apply bind_ret_inv in H as (o & Ho & H). destruct o as [[[a t] b]|].
    - apply bind_ret_inv in H as (u & _ & H). apply bind_ret_inv in H as (es' & Hs & H). apply bind_ret_inv in H as (e & He & _). apply find_first_parts in Ho as [-> I]. apply matched_mid; eauto using op_plain.
    - apply bind_ret_inv in H as (e & He & _). eauto. }
  induction fuel as [|fuel [IH _]]; [split; [discriminate|apply SET; discriminate]|]. assert (IHs := SET fuel IH).
  assert (R : forall ts e, pe (S fuel) ts = Ret e -> matched ts); [|split; [exact R|exact (SET _ R)]].
  intros ts e H. cbn [parse_expr] in H. destruct ts as [|t u]; [discriminate|]. rewrite step_cons in H.
  apply bind_ret_inv in H as (p & E & H). destruct p.
  { apply enclosed_parts in E as (o & b & c & X & Ko & Kc & B); [|discriminate]. rewrite B in H. rewrite X. apply matched_group; [rewrite Ko, Kc; exact ppar|eauto]. }
  clear E. apply bind_ret_inv in H as (p & E & H). destruct p.
  { apply enclosed_parts in E as (o & b & c & X & Ko & Kc & B); [|discriminate]. rewrite B in H. rewrite X. apply bind_ret_inv in H as (es & H & _). apply matched_group; [rewrite Ko, Kc; exact pset|eauto]. }
  clear E. apply bind_ret_inv in H as (p & E & H). destruct p.
  { apply enclosed_parts in E as (o & b & c & X & Ko & Kc & B); [|discriminate]. rewrite B in H. rewrite X. apply bind_ret_inv in H as (es & H & _). apply matched_group; [rewrite Ko, Kc; exact pgrp|eauto]. }
  clear E. apply bind_ret_inv in H as (o & Ho & H). destruct o as [[[a x] b]|].
  { apply bind_ret_inv in H as (w & _ & H). apply bind_ret_inv in H as (x1 & Hx & H). apply bind_ret_inv in H as (y & Hy & _). apply find_last_parts in Ho as [-> I]. apply matched_mid; eauto using op_plain. }
  clear Ho. apply bind_ret_inv in H as (o & Ho & H). destruct o as [[[a x] b]|].
  { apply bind_ret_inv in H as (w & _ & H). apply bind_ret_inv in H as (x1 & Hx & H). apply bind_ret_inv in H as (y & Hy & _). apply find_last_parts in Ho as [-> I]. apply matched_mid; eauto using op_plain. }
  clear Ho. apply bind_ret_inv in H as (o & Ho & H). destruct o as [[[a x] b]|].
  { apply bind_ret_inv in H as (w & _ & H). apply bind_ret_inv in H as (x1 & Hx & H). apply bind_ret_inv in H as (y & Hy & _). apply find_first_parts in Ho as [-> I].
    apply matched_mid; eauto using op_plain. eapply exponent_matched; eauto. }
  destruct u; [|discriminate]. cbn [is_empty andb] in H. destruct (rk_eqb (tk t) KNum || rk_eqb (tk t) KLit) eqn:K; [|discriminate].
  apply matched_one, not_bracket. apply orb_true_iff in K as [K|K]; apply rk_eqb_true in K; rewrite K; cbn; tauto.
Qed.
End Read.
