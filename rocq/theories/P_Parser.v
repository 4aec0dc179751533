(* P_Parser.v - tokens whose brackets match, and searching through them *)
From Verif Require Import Base M_Bell M_Gsiril M_Parser Spec_Parser.
Set Implicit Arguments. Unset Strict Implicit.
Open Scope nat_scope.

Lemma tt_eqb_spec a b : reflect (a = b) (tt_eqb a b).
Proof. unfold tt_eqb; destruct (tt_eq_dec a b); now constructor. Qed.
Lemma tt_eqb_true a b : tt_eqb a b = true <-> a = b.
Proof. destruct (tt_eqb_spec a b); split; congruence. Qed.
Lemma tt_eqb_refl a : tt_eqb a a = true.
Proof. now apply tt_eqb_true. Qed.
Lemma among_in ks t : among ks t = true <-> In (tk t) ks.
Proof.
  unfold among; rewrite existsb_exists; split.
  - intros (k & Hk & E); apply tt_eqb_true in E; now subst.
  - intro H; exists (tk t); split; auto; apply tt_eqb_refl.
Qed.
Lemma among_notin ks t : among ks t = false <-> ~ In (tk t) ks.
Proof. rewrite <- among_in; destruct (among ks t); split; congruence. Qed.

Lemma text_eqb_spec (a b : text) : reflect (a = b) (list_ascii_eqb a b).
Proof. unfold list_ascii_eqb; destruct (list_eq_dec ascii_dec a b); now constructor. Qed.
Lemma is_word_iff s t : is_word (str s) t = true <-> word s t.
Proof.
  unfold is_word, word; rewrite andb_true_iff, tt_eqb_true.
  destruct (text_eqb_spec (tx t) (str s)); intuition congruence.
Qed.

(* Trees *)
Lemma tree_ind' (P : tree -> Prop) :
  (forall t, P (Leaf t)) -> (forall o b c, Forall P b -> P (Group o b c)) -> forall x, P x.
Proof.
  intros HL HG; fix IH 1; intros [t|o b c]; [apply HL|apply HG].
  induction b as [|x b IHb]; constructor; [apply IH|exact IHb].
Qed.
Lemma flat_app a b : flat (a ++ b) = flat a ++ flat b.
Proof. unfold flat; now rewrite flat_map_app. Qed.
Lemma flat_cons x b : flat (x :: b) = flat1 x ++ flat b.
Proof. reflexivity. Qed.
Lemma flat_leaf t b : flat (Leaf t :: b) = t :: flat b.
Proof. reflexivity. Qed.
Lemma flat1_group o b c : flat1 (Group o b c) = o :: flat b ++ [c].
Proof. reflexivity. Qed.
Lemma flat_nil xs : flat xs = [] -> xs = [].
Proof. destruct xs as [|[t|o b c] xs]; auto; cbn; discriminate. Qed.
Lemma flat_nil_iff xs : flat xs = [] <-> xs = [].
Proof. split; [apply flat_nil|now intros ->]. Qed.

Lemma pair_opens o c : pair_of o c -> opens o = true /\ closes o = false /\ opens c = false /\ closes c = true.
Proof. intros [[-> ->]|[[-> ->]|[-> ->]]]; auto. Qed.
Lemma wf_inv_leaf t : wf (Leaf t) -> opens (tk t) = false /\ closes (tk t) = false.
Proof. inversion 1; auto. Qed.
Lemma wf_inv_group o b c : wf (Group o b c) -> pair_of (tk o) (tk c) /\ Forall wf b.
Proof. inversion 1; auto. Qed.
Lemma wf_app a b : Forall wf (a ++ b) -> Forall wf a /\ Forall wf b.
Proof. apply Forall_app. Qed.
Lemma wf_mid a t b : Forall wf (a ++ Leaf t :: b) -> Forall wf a /\ opens (tk t) = false /\ closes (tk t) = false /\ Forall wf b.
Proof. intro H; apply wf_app in H as [H1 H2]; inversion H2; subst. match goal with H : wf (Leaf _) |- _ => apply wf_inv_leaf in H as [] end; auto. Qed.

(* The last token of a sequence *)
Lemma last_flat xs d : Forall wf xs -> xs <> [] -> exists t ts, flat xs = ts ++ [t] /\ last (flat xs) d = t /\
  ((exists ys, xs = ys ++ [Leaf t]) \/ closes (tk t) = true).
Proof.
  intros W N; destruct (exists_last N) as (ys & x & ->); rewrite flat_app.
  apply wf_app in W as [_ W]; inversion W as [|? ? W1 _]; subst.
  destruct x as [t|o b c].
  - exists t, (flat ys); cbn [flat flat_map flat1 app]; rewrite last_last; repeat split; eauto.
  - apply wf_inv_group in W1 as [W1 _]; apply pair_opens in W1 as (_ & _ & _ & C).
    assert (E : flat ys ++ flat [Group o b c] = (flat ys ++ o :: flat b) ++ [c]).
    { rewrite (flat_cons (Group o b c) []), flat1_group, <- app_assoc; cbn; now rewrite app_nil_r. }
    exists c, (flat ys ++ o :: flat b); rewrite E, last_last; auto.
Qed.

(* Searching *)
Definition past_all (p : list token) (f : found) : found :=
  match f with Some (a, x, b) => Some (p ++ a, x, b) | None => None end.
Lemma past_all_nil f : past_all [] f = f.
Proof. now destruct f as [[[a x] b]|]. Qed.
Lemma past_past_all t p f : past t (past_all p f) = past_all (t :: p) f.
Proof. now destruct f as [[[a x] b]|]. Qed.
Lemma past_all_app p q f : past_all p (past_all q f) = past_all (p ++ q) f.
Proof. destruct f as [[[a x] b]|]; cbn; auto; now rewrite app_assoc. Qed.

Lemma bind_past_all (o : outcome found) p q :
  (f <- (f <- o ;; Ret (past_all q f)) ;; Ret (past_all p f)) = (f <- o ;; Ret (past_all (p ++ q) f)).
Proof. destruct o; cbn; auto; now rewrite past_all_app. Qed.
Lemma bind_past (o : outcome found) p q :
  (f <- (f <- o ;; Ret (past_all q f)) ;; Ret (past p f)) = (f <- o ;; Ret (past_all (p :: q) f)).
Proof. destruct o; cbn; auto; now rewrite past_past_all. Qed.
Lemma bind_past1 (o : outcome found) p : (f <- o ;; Ret (past p f)) = (f <- o ;; Ret (past_all [p] f)).
Proof. now destruct o as [[[[? ?] ?]|]| | |]. Qed.
Lemma bind_past_nil (o : outcome found) : (f <- o ;; Ret (past_all [] f)) = o.
Proof. destruct o; cbn; auto; now rewrite past_all_nil. Qed.

Lemma find_first_open ks d t u : opens (tk t) = true ->
  find_first ks d (t :: u) = (f <- find_first ks (d + 1) u ;; Ret (past t f)).
Proof. intro H; cbn [find_first]; now rewrite H. Qed.
Lemma find_first_close ks d t u : opens (tk t) = false -> closes (tk t) = true ->
  find_first ks d (t :: u) = (f <- find_first ks (d - 1) u ;; Ret (past t f)).
Proof. intros H1 H2; cbn [find_first]; now rewrite H1, H2. Qed.
Lemma find_first_other ks d t u : opens (tk t) = false -> closes (tk t) = false ->
  find_first ks d (t :: u) = if (d =? 0)%Z && among ks t then Ret (Some ([], t, u)) else f <- find_first ks d u ;; Ret (past t f).
Proof. intros H1 H2; cbn [find_first]; now rewrite H1, H2. Qed.
Lemma find_last_open ks d t u : opens (tk t) = true ->
  find_last ks d (t :: u) = (f <- find_last ks (d + 1) u ;; Ret (past t f)).
Proof. intro H; cbn [find_last]; now rewrite H. Qed.
Lemma find_last_close ks d t u : opens (tk t) = false -> closes (tk t) = true ->
  find_last ks d (t :: u) = (f <- find_last ks (d - 1) u ;; Ret (past t f)).
Proof. intros H1 H2; cbn [find_last]; now rewrite H1, H2. Qed.
Lemma find_last_other ks d t u : opens (tk t) = false -> closes (tk t) = false ->
  find_last ks d (t :: u) =
    (f <- find_last ks d u ;;
     match f with Some _ => Ret (past t f) | None => Ret (if (d =? 0)%Z && among ks t then Some ([], t, u) else None) end).
Proof. intros H1 H2; cbn [find_last]; now rewrite H1, H2. Qed.

(* inside brackets nothing is found *)
Lemma find_first_inside1 ks x : wf x -> forall d ts, (1 <= d)%Z ->
  find_first ks d (flat1 x ++ ts) = (f <- find_first ks d ts ;; Ret (past_all (flat1 x) f)).
Proof.
  induction x as [t|o b c IH] using tree_ind'; intros W d ts Hd.
  - apply wf_inv_leaf in W as [W1 W2]; cbn [flat1 app]; rewrite find_first_other by auto.
    replace (d =? 0)%Z with false by (symmetry; apply Z.eqb_neq; lia); cbn [andb]; apply bind_past1.
  - apply wf_inv_group in W as [W1 W2]; apply pair_opens in W1 as (O1 & O2 & C1 & C2).
    assert (B : forall d ts, (1 <= d)%Z -> find_first ks d (flat b ++ ts) = (f <- find_first ks d ts ;; Ret (past_all (flat b) f))).
    { clear d ts Hd; induction b as [|x b IHb]; intros d ts Hd; [now rewrite bind_past_nil|].
      inversion W2; subst; inversion IH; subst. rewrite flat_cons, <- app_assoc, (H3 H1) by auto.
      rewrite IHb, bind_past_all by auto; reflexivity. }
    rewrite flat1_group; cbn [app]; rewrite find_first_open, <- app_assoc, B by (auto; lia).
    cbn [app]; rewrite find_first_close by auto. replace (d + 1 - 1)%Z with d by lia.
    rewrite !bind_past1, !bind_past_all; reflexivity.
Qed.
Lemma find_last_inside1 ks x : wf x -> forall d ts, (1 <= d)%Z ->
  find_last ks d (flat1 x ++ ts) = (f <- find_last ks d ts ;; Ret (past_all (flat1 x) f)).
Proof.
  induction x as [t|o b c IH] using tree_ind'; intros W d ts Hd.
  - apply wf_inv_leaf in W as [W1 W2]; cbn [flat1 app]; rewrite find_last_other by auto.
    replace (d =? 0)%Z with false by (symmetry; apply Z.eqb_neq; lia); cbn [andb].
    now destruct (find_last ks d ts) as [[[[? ?] ?]|]| | |].
  - apply wf_inv_group in W as [W1 W2]; apply pair_opens in W1 as (O1 & O2 & C1 & C2).
    assert (B : forall d ts, (1 <= d)%Z -> find_last ks d (flat b ++ ts) = (f <- find_last ks d ts ;; Ret (past_all (flat b) f))).
    { clear d ts Hd; induction b as [|x b IHb]; intros d ts Hd; [now rewrite bind_past_nil|].
      inversion W2; subst; inversion IH; subst. rewrite flat_cons, <- app_assoc, (H3 H1) by auto.
      rewrite IHb, bind_past_all by auto; reflexivity. }
    rewrite flat1_group; cbn [app]; rewrite find_last_open, <- app_assoc, B by (auto; lia).
    cbn [app]; rewrite find_last_close by auto. replace (d + 1 - 1)%Z with d by lia.
    rewrite !bind_past1, !bind_past_all; reflexivity.
Qed.
(* nor in a pair of brackets *)
Lemma find_first_group ks o b c ts : wf (Group o b c) ->
  find_first ks 0 (flat1 (Group o b c) ++ ts) = (f <- find_first ks 0 ts ;; Ret (past_all (flat1 (Group o b c)) f)).
Proof.
  intro W; apply wf_inv_group in W as [W1 W2]; apply pair_opens in W1 as (O1 & O2 & C1 & C2).
  assert (B : forall d ts, (1 <= d)%Z -> find_first ks d (flat b ++ ts) = (f <- find_first ks d ts ;; Ret (past_all (flat b) f))).
  { clear ts; induction b as [|x b IHb]; intros d ts Hd; [now rewrite bind_past_nil|].
    inversion W2; subst. rewrite flat_cons, <- app_assoc, find_first_inside1 by auto.
    rewrite IHb, bind_past_all by auto; reflexivity. }
  rewrite flat1_group; cbn [app]; rewrite find_first_open, <- app_assoc, B by (auto; lia).
  cbn [app]; rewrite find_first_close by auto. replace (0 + 1 - 1)%Z with 0%Z by lia.
  rewrite !bind_past1, !bind_past_all; reflexivity.
Qed.
Lemma find_last_group ks o b c ts : wf (Group o b c) ->
  find_last ks 0 (flat1 (Group o b c) ++ ts) = (f <- find_last ks 0 ts ;; Ret (past_all (flat1 (Group o b c)) f)).
Proof.
  intro W; apply wf_inv_group in W as [W1 W2]; apply pair_opens in W1 as (O1 & O2 & C1 & C2).
  assert (B : forall d ts, (1 <= d)%Z -> find_last ks d (flat b ++ ts) = (f <- find_last ks d ts ;; Ret (past_all (flat b) f))).
  { clear ts; induction b as [|x b IHb]; intros d ts Hd; [now rewrite bind_past_nil|].
    inversion W2; subst. rewrite flat_cons, <- app_assoc, find_last_inside1 by auto.
    rewrite IHb, bind_past_all by auto; reflexivity. }
  rewrite flat1_group; cbn [app]; rewrite find_last_open, <- app_assoc, B by (auto; lia).
  cbn [app]; rewrite find_last_close by auto. replace (0 + 1 - 1)%Z with 0%Z by lia.
  rewrite !bind_past1, !bind_past_all; reflexivity.
Qed.

Lemma free_app ks a b : free ks (a ++ b) <-> free ks a /\ free ks b.
Proof. apply Forall_app. Qed.
Lemma free_leaf ks t b : free ks (Leaf t :: b) <-> ~ In (tk t) ks /\ free ks b.
Proof. unfold free; rewrite Forall_cons_iff; tauto. Qed.
Lemma free_group ks o b c r : free ks (Group o b c :: r) <-> free ks r.
Proof. unfold free; rewrite Forall_cons_iff; tauto. Qed.
Lemma free_nil ks : free ks [].
Proof. constructor. Qed.

(* if it is free of the operators nothing is found *)
Lemma find_first_free ks xs : Forall wf xs -> free ks xs -> find_first ks 0 (flat xs) = Ret None.
Proof.
  induction xs as [|x xs IH]; intros W F; auto.
  inversion W as [|? ? W1 W2]; subst. destruct x as [t|o b c].
  - apply free_leaf in F as [F1 F2]. apply wf_inv_leaf in W1 as [? ?]. rewrite flat_leaf, find_first_other by auto.
    apply among_notin in F1; rewrite F1; cbn [Z.eqb andb]; now rewrite IH.
  - apply free_group in F. rewrite flat_cons, find_first_group by auto. now rewrite IH.
Qed.
Lemma find_last_free ks xs : Forall wf xs -> free ks xs -> find_last ks 0 (flat xs) = Ret None.
Proof.
  induction xs as [|x xs IH]; intros W F; auto.
  inversion W as [|? ? W1 W2]; subst. destruct x as [t|o b c].
  - apply free_leaf in F as [F1 F2]. apply wf_inv_leaf in W1 as [? ?]. rewrite flat_leaf, find_last_other by auto.
    apply among_notin in F1; rewrite F1, IH by auto; reflexivity.
  - apply free_group in F. rewrite flat_cons, find_last_group by auto. now rewrite IH.
Qed.
(* otherwise the first is, or the last *)
Lemma find_first_at ks l t r : Forall wf (l ++ Leaf t :: r) -> free ks l -> In (tk t) ks ->
  find_first ks 0 (flat (l ++ Leaf t :: r)) = Ret (Some (flat l, t, flat r)).
Proof.
  induction l as [|x l IH]; intros W F I; cbn [app] in *.
  - inversion W as [|? ? W1 W2]; subst. apply wf_inv_leaf in W1 as [? ?]. rewrite flat_leaf, find_first_other by auto.
    apply among_in in I; now rewrite I.
  - inversion W as [|? ? W1 W2]; subst. destruct x as [u|o b c].
    + apply free_leaf in F as [F1 F2]. apply wf_inv_leaf in W1 as [? ?]. rewrite flat_leaf, find_first_other by auto.
      apply among_notin in F1; rewrite F1; cbn [Z.eqb andb]; now rewrite IH.
    + apply free_group in F. rewrite flat_cons, find_first_group, IH by auto. reflexivity.
Qed.
Lemma find_last_at ks l t r : Forall wf (l ++ Leaf t :: r) -> free ks r -> In (tk t) ks ->
  find_last ks 0 (flat (l ++ Leaf t :: r)) = Ret (Some (flat l, t, flat r)).
Proof.
  induction l as [|x l IH]; intros W F I; cbn [app] in *.
  - inversion W as [|? ? W1 W2]; subst. apply wf_inv_leaf in W1 as [? ?]. rewrite flat_leaf, find_last_other, find_last_free by auto.
    apply among_in in I; cbn; now rewrite I.
  - inversion W as [|? ? W1 W2]; subst. destruct x as [u|o b c].
    + apply wf_inv_leaf in W1 as [? ?]. rewrite flat_leaf, find_last_other, IH by auto. reflexivity.
    + rewrite flat_cons, find_last_group, IH by auto. reflexivity.
Qed.
(* one of the two holds *)
Lemma free_or_first ks xs : free ks xs \/ exists l t r, xs = l ++ Leaf t :: r /\ free ks l /\ In (tk t) ks.
Proof.
  induction xs as [|x xs [F|(l & t & r & -> & F & I)]].
  - left; apply free_nil.
  - destruct x as [t|o b c].
    + destruct (among ks t) eqn:E.
      * right; exists [], t, xs; repeat split; [apply free_nil|now apply among_in].
      * left; apply free_leaf; split; auto; now apply among_notin.
    + left; now apply free_group.
  - destruct x as [u|o b c].
    + destruct (among ks u) eqn:E.
      * right; exists [], u, (l ++ Leaf t :: r); repeat split; [apply free_nil|now apply among_in].
      * right; exists (Leaf u :: l), t, r; repeat split; auto; apply free_leaf; split; auto; now apply among_notin.
    + right; exists (Group o b c :: l), t, r; repeat split; auto; now apply free_group.
Qed.
Lemma free_or_last ks xs : free ks xs \/ exists l t r, xs = l ++ Leaf t :: r /\ free ks r /\ In (tk t) ks.
Proof.
  induction xs as [|x xs [F|(l & t & r & -> & F & I)]].
  - left; apply free_nil.
  - destruct x as [t|o b c].
    + destruct (among ks t) eqn:E.
      * right; exists [], t, xs; repeat split; auto; now apply among_in.
      * left; apply free_leaf; split; auto; now apply among_notin.
    + left; now apply free_group.
  - right; exists (x :: l), t, r; auto.
Qed.
Lemma find_first_cases ks xs : Forall wf xs ->
  (free ks xs /\ find_first ks 0 (flat xs) = Ret None) \/
  (exists l t r, xs = l ++ Leaf t :: r /\ free ks l /\ In (tk t) ks /\ find_first ks 0 (flat xs) = Ret (Some (flat l, t, flat r))).
Proof.
  intro W; destruct (free_or_first ks xs) as [F|(l & t & r & -> & F & I)].
  - left; split; auto; now apply find_first_free.
  - right; exists l, t, r; repeat split; auto; now apply find_first_at.
Qed.
Lemma find_last_cases ks xs : Forall wf xs ->
  (free ks xs /\ find_last ks 0 (flat xs) = Ret None) \/
  (exists l t r, xs = l ++ Leaf t :: r /\ free ks r /\ In (tk t) ks /\ find_last ks 0 (flat xs) = Ret (Some (flat l, t, flat r))).
Proof.
  intro W; destruct (free_or_last ks xs) as [F|(l & t & r & -> & F & I)].
  - left; split; auto; now apply find_last_free.
  - right; exists l, t, r; repeat split; auto; now apply find_last_at.
Qed.

(* Enclosed *)
Lemma enclosed_cons o c d t ts : ts <> [] ->
  enclosed_from o c d (t :: ts) =
  (let d := (if tt_eqb (tk t) o then d + 1 else if tt_eqb (tk t) c then d - 1 else d)%Z in
   if (d =? 0)%Z then Ret false else enclosed_from o c d ts).
Proof. destruct ts; [congruence|]; intros _; cbn [enclosed_from negb]; now rewrite andb_true_r. Qed.
Lemma pair_ne o c : pair_of o c -> tt_eqb c o = false.
Proof. intros [[-> ->]|[[-> ->]|[-> ->]]]; reflexivity. Qed.
Lemma pair_fun o c o' c' : pair_of o c -> pair_of o' c' -> tt_eqb o' o = tt_eqb c' c.
Proof. intros [[-> ->]|[[-> ->]|[-> ->]]] [[-> ->]|[[-> ->]|[-> ->]]]; reflexivity. Qed.
Lemma pair_oc o c o' c' : pair_of o c -> pair_of o' c' -> tt_eqb o' c = false /\ tt_eqb c' o = false.
Proof. intros [[-> ->]|[[-> ->]|[-> ->]]] [[-> ->]|[[-> ->]|[-> ->]]]; split; reflexivity. Qed.
Lemma not_bracket o c t : pair_of o c -> opens (tk t) = false -> closes (tk t) = false ->
  tt_eqb (tk t) o = false /\ tt_eqb (tk t) c = false.
Proof.
  intros [[-> ->]|[[-> ->]|[-> ->]]] A B; split; destruct (tk t); cbn in A, B; try discriminate; reflexivity.
Qed.
Lemma nonempty_tail (A : Type) (a : list A) (x : A) b : a ++ x :: b <> [].
Proof. now destruct a. Qed.
Lemma app_ne_r (A : Type) (a b : list A) : b <> [] -> a ++ b <> [].
Proof. destruct a; cbn; [auto|discriminate]. Qed.

Lemma enclosed_inside1 o c x : pair_of o c -> wf x -> forall d ts, (1 <= d)%Z -> ts <> [] ->
  enclosed_from o c d (flat1 x ++ ts) = enclosed_from o c d ts.
Proof.
  intro P; induction x as [t|o' b c' IH] using tree_ind'; intros W d ts Hd N.
  - apply wf_inv_leaf in W as [W1 W2]; cbn [flat1 app]. rewrite enclosed_cons by auto.
    destruct (not_bracket P W1 W2) as [-> ->]; cbn zeta.
    now replace (d =? 0)%Z with false by (symmetry; apply Z.eqb_neq; lia).
  - apply wf_inv_group in W as [W1 W2].
    assert (B : forall d ts, (1 <= d)%Z -> ts <> [] -> enclosed_from o c d (flat b ++ ts) = enclosed_from o c d ts).
    { clear d ts Hd N; induction b as [|x b IHb]; intros d ts Hd N; [reflexivity|].
      inversion W2; subst; inversion IH; subst. rewrite flat_cons, <- app_assoc, (H3 H1) by (auto; now apply app_ne_r).
      now apply IHb. }
    rewrite flat1_group; cbn [app]; rewrite <- app_assoc; cbn [app]. rewrite enclosed_cons by apply nonempty_tail.
    destruct (pair_oc P W1) as [-> E]; pose proof (pair_fun P W1) as E2.
    destruct (tt_eqb (tk o') o) eqn:E3; cbn zeta.
    + replace (d + 1 =? 0)%Z with false by (symmetry; apply Z.eqb_neq; lia). rewrite B by (try lia; discriminate).
      rewrite enclosed_cons, E, <- E2 by auto; cbn zeta. replace (d + 1 - 1)%Z with d by lia.
      now replace (d =? 0)%Z with false by (symmetry; apply Z.eqb_neq; lia).
    + replace (d =? 0)%Z with false by (symmetry; apply Z.eqb_neq; lia). rewrite B by (try lia; discriminate).
      rewrite enclosed_cons, E, <- E2 by auto; cbn zeta.
      now replace (d =? 0)%Z with false by (symmetry; apply Z.eqb_neq; lia).
Qed.
Lemma enclosed_inside o c xs : pair_of o c -> Forall wf xs -> forall d ts, (1 <= d)%Z -> ts <> [] ->
  enclosed_from o c d (flat xs ++ ts) = enclosed_from o c d ts.
Proof.
  intros P W; induction W as [|x xs Wx W IH]; intros d ts Hd N; auto.
  rewrite flat_cons, <- app_assoc, enclosed_inside1 by (auto; now apply app_ne_r). now apply IH.
Qed.

Lemma is_enclosed_trees o c xs : pair_of o c -> Forall wf xs -> xs <> [] ->
  is_enclosed o c (flat xs) = Ret (match xs with [Group o' _ _] => tt_eqb (tk o') o | _ => false end).
Proof.
  intros P W N; destruct xs as [|x xs]; [congruence|]. inversion W as [|? ? W1 W2]; subst; clear N.
  destruct x as [t|o' b c'].
  - apply wf_inv_leaf in W1 as [A B]; destruct (not_bracket P A B) as [E _].
    rewrite flat_leaf; unfold is_enclosed; now rewrite E.
  - apply wf_inv_group in W1 as [Q Wb]. rewrite flat_cons, flat1_group; cbn [app].
    unfold is_enclosed. destruct (tt_eqb (tk o') o) eqn:E; cbn [negb orb].
    2:{ now destruct xs. }
    destruct (tt_eqb (tk (last (o' :: (flat b ++ [c']) ++ flat xs) o')) c) eqn:E2; cbn [negb orb].
    + rewrite <- app_assoc; cbn [app]. rewrite enclosed_cons, E by apply nonempty_tail; cbn zeta.
      cbn [Z.add Z.eqb]. rewrite enclosed_inside by (auto; try lia; discriminate).
      destruct (pair_oc P Q) as [_ E3]; pose proof (pair_fun P Q) as E4.
      destruct xs as [|x xs].
      * cbn [flat flat_map]. cbn [enclosed_from]. rewrite E3, <- E4, E. reflexivity.
      * rewrite enclosed_cons by (intro K; apply flat_nil in K; discriminate). rewrite E3, <- E4, E. reflexivity.
    + destruct xs as [|x xs]; auto. cbn [flat flat_map] in E2. rewrite app_nil_r in E2.
      rewrite app_comm_cons, last_last in E2. rewrite (pair_fun P Q) in E. congruence.
Qed.
