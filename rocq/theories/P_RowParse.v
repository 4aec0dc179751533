(* P_RowParse.v - searching for operators and brackets, in the row calculator. *)
From Verif Require Import Base M_Bell M_Row M_Stream M_RowCalc M_RowParse Spec_RowParse.
Set Implicit Arguments. Unset Strict Implicit.
Open Scope nat_scope.

Lemma rk_eqb_true a b : rk_eqb a b = true <-> a = b.
Proof. unfold rk_eqb. destruct (rk_eq_dec a b); split; congruence. Qed.
Lemma rk_eqb_refl a : rk_eqb a a = true.
Proof. now apply rk_eqb_true. Qed.
Lemma rk_eqb_false a b : rk_eqb a b = false <-> a <> b.
Proof. unfold rk_eqb. destruct (rk_eq_dec a b); split; congruence. Qed.
Lemma among_in ks t : among ks t = true <-> In (tk t) ks.
Proof.
  unfold among. rewrite existsb_exists. split; [intros (x & I & E); apply rk_eqb_true in E; now subst|]. intro I. exists (tk t). split; auto. apply rk_eqb_refl.
Qed.
Lemma among_notin ks t : among ks t = false <-> ~ In (tk t) ks.
Proof. rewrite <- among_in. destruct (among ks t); split; congruence. Qed.
Lemma tree_ind' (P : tree -> Prop) : (forall t, P (Leaf t)) -> (forall o b c, Forall P b -> P (Group o b c)) -> forall x, P x.
Proof. intros HL HG. fix IH 1. intros [t|o b c]; [apply HL|]. apply HG. induction b as [|x b IHb]; constructor; auto. Qed.
Lemma flat_app a b : flat (a ++ b) = flat a ++ flat b.
Proof. unfold flat. apply flat_map_app. Qed.
Lemma flat_cons x b : flat (x :: b) = flat1 x ++ flat b.
Proof. reflexivity. Qed.
Lemma flat_leaf t b : flat (Leaf t :: b) = t :: flat b.
Proof. reflexivity. Qed.
Lemma flat1_group o b c : flat1 (Group o b c) = o :: flat b ++ [c].
Proof. reflexivity. Qed.
Lemma flat_nil xs : flat xs = [] -> xs = [].
Proof. destruct xs as [|[t|o b c] xs]; cbn; congruence. Qed.
Lemma weight_none t : weight t = 0%Z <-> ~ bracket (tk t).
Proof.
  unfold weight, bracket, pair_of. split.
  - intros H (j & [A|A]); repeat (destruct A as [[A B]|A]); rewrite ?A, ?B in H; try discriminate; destruct A as [A B]; rewrite ?A, ?B in H; discriminate.
  - destruct (tk t); auto; intro H; exfalso; apply H.
    + exists KClose; auto. + exists KOpen; auto. + exists KCloseSet; auto. + exists KOpenSet; auto 6. + exists KCloseGroup; auto. + exists KOpenGroup; auto 6.
Qed.
Lemma pair_weight o c : pair_of (tk o) (tk c) -> weight o = 1%Z /\ weight c = (-1)%Z.
Proof. unfold weight. intros [[-> ->]|[[-> ->]|[-> ->]]]; auto. Qed.
Lemma wf_app a b : Forall wf (a ++ b) <-> Forall wf a /\ Forall wf b.
Proof. apply Forall_app. Qed.
Lemma wf_mid a t b : Forall wf (a ++ Leaf t :: b) -> Forall wf a /\ ~ bracket (tk t) /\ Forall wf b.
Proof. intro W. apply wf_app in W as [Wa W]. inversion W as [|? ? Wt Wb]; subst. inversion Wt; auto. Qed.

(* brackets which open with weight s: s = 1 from the beginning, s = -1 from the end *)
Inductive wfs (s : Z) : tree -> Prop :=
| ws_leaf t : weight t = 0%Z -> wfs s (Leaf t)
| ws_group o b c : weight o = s -> weight c = (- s)%Z -> Forall (wfs s) b -> wfs s (Group o b c).
Lemma wf_wfs x : wf x -> wfs 1 x.
Proof.
  induction x as [t|o b c F] using tree_ind'; intro W; inversion W; subst; constructor; try (now apply weight_none); try (now apply (@pair_weight o c)).
  apply Forall_forall. intros x Hx. rewrite Forall_forall in *. auto.
Qed.
Lemma wf_wfs_all xs : Forall wf xs -> Forall (wfs 1) xs.
Proof. apply Forall_impl. exact wf_wfs. Qed.
Fixpoint mirror (x : tree) : tree := match x with Leaf t => Leaf t | Group o b c => Group c (rev (map mirror b)) o end.
Definition mirrors (xs : list tree) : list tree := rev (map mirror xs).
Lemma rev_flat_with xs : Forall (fun x => flat1 (mirror x) = rev (flat1 x)) xs -> flat (mirrors xs) = rev (flat xs).
Proof.
  induction 1 as [|x xs H F IH]; [reflexivity|]. unfold mirrors in *. cbn [map rev]. rewrite flat_app, IH. change (flat (x :: xs)) with (flat1 x ++ flat xs). rewrite rev_app_distr, <- H.
  unfold flat at 2. cbn [flat_map]. now rewrite app_nil_r.
Qed.
Lemma flat_mirror1 x : flat1 (mirror x) = rev (flat1 x).
Proof.
  induction x as [t|o b c F] using tree_ind'; [reflexivity|]. cbn [mirror]. rewrite !flat1_group. cbn [rev]. rewrite rev_app_distr. cbn [rev app]. f_equal. f_equal. now apply rev_flat_with.
Qed.
Lemma flat_mirrors xs : flat (mirrors xs) = rev (flat xs).
Proof. apply rev_flat_with. apply Forall_forall. intros. apply flat_mirror1. Qed.
Lemma mirror_wfs x : forall s, wfs s x -> wfs (- s) (mirror x).
Proof.
  induction x as [t|o b c F] using tree_ind'; intros s W; inversion W; subst; cbn [mirror]; constructor; auto; try lia.
  apply Forall_rev. apply Forall_map. rewrite Forall_forall in *. auto.
Qed.
Lemma mirrors_wf xs : Forall wf xs -> Forall (wfs (-1)) (mirrors xs).
Proof. intro W. apply Forall_rev, Forall_map. apply wf_wfs_all in W. rewrite Forall_forall in *. intros x Hx. now apply (mirror_wfs (s := 1)), W. Qed.

Definition found := option (list rtok * rtok * list rtok).
Definition past (p : list rtok) (f : found) : found := match f with Some (a, x, b) => Some (p ++ a, x, b) | None => None end.
Lemma past_past p q f : past p (past q f) = past (p ++ q) f.
Proof. destruct f as [[[a x] b]|]; [|reflexivity]. cbn. now rewrite app_assoc. Qed.
Lemma bind_past (o : outcome found) p q : (f <- (f <- o ;; Ret (past q f)) ;; Ret (past p f)) = (f <- o ;; Ret (past (p ++ q) f)).
Proof. destruct o; cbn [bind]; auto. now rewrite past_past. Qed.
Lemma bind_past_nil (o : outcome found) : (f <- o ;; Ret (past [] f)) = o.
Proof. destruct o as [[[[a x] b]|]| | |]; reflexivity. Qed.
Lemma find_step ks d t u : ((weight t =? 0) && (d =? 0) && among ks t)%Z = false ->
  find_first ks d (t :: u) = (f <- find_first ks (d + weight t) u ;; Ret (past [t] f)).
Proof. intro H. cbn [find_first]. rewrite H. reflexivity. Qed.
Definition skips (ks : list rk) (x : list rtok) (d : Z) : Prop := forall ts, find_first ks d (x ++ ts) = (f <- find_first ks d ts ;; Ret (past x f)).
Lemma skips_app ks a b d : skips ks a d -> skips ks b d -> skips ks (a ++ b) d.
Proof. intros Ha Hb ts. rewrite <- app_assoc, Ha, Hb, bind_past. reflexivity. Qed.
Lemma skips_nil ks d : skips ks [] d.
Proof. intro ts. cbn [app]. now rewrite bind_past_nil. Qed.
Lemma skips_all ks xs d : Forall (fun x => skips ks (flat1 x) d) xs -> skips ks (flat xs) d.
Proof. induction 1 as [|x xs H F IH]; [apply skips_nil|]. rewrite flat_cons. now apply skips_app. Qed.
Lemma skips_group ks o b c d s : weight o = s -> weight c = (- s)%Z -> s <> 0%Z -> skips ks (flat b) (d + s) -> skips ks (flat1 (Group o b c)) d.
Proof.
  intros Wo Wc N B ts. rewrite flat1_group. cbn [app]. rewrite find_step by (rewrite Wo; destruct (Z.eqb_spec s 0); [contradiction|reflexivity]).
  rewrite Wo. rewrite <- app_assoc. rewrite B. cbn [app]. rewrite find_step by (rewrite Wc; destruct (Z.eqb_spec (- s) 0); [lia|reflexivity]).
  rewrite Wc. replace (d + s + - s)%Z with d by lia. rewrite !bind_past. cbn [app]. reflexivity.
Qed.
Lemma skips_in ks s x : (s = 1 \/ s = -1)%Z -> wfs s x -> forall d, (1 <= d * s)%Z -> skips ks (flat1 x) d.
Proof.
  intro Hs. induction x as [t|o b c F] using tree_ind'; intros W d Hd; inversion W; subst.
  - intro ts. cbn [flat1 app]. rewrite find_step by (destruct (Z.eqb_spec d 0); [lia|rewrite andb_false_r; reflexivity]). rewrite H0, Z.add_0_r. reflexivity.
  - apply skips_group with (s := weight o); auto; [lia|]. apply skips_all. rewrite Forall_forall in *. intros x Hx. apply F; auto. nia.
Qed.
Definition free (ks : list rk) (xs : list tree) : Prop := Forall (fun x => match x with Leaf t => ~ In (tk t) ks | Group _ _ _ => True end) xs.
Lemma skips_free ks s xs : (s = 1 \/ s = -1)%Z -> Forall (wfs s) xs -> free ks xs -> skips ks (flat xs) 0.
Proof.
  intros Hs W F. apply skips_all. unfold free in F. rewrite Forall_forall in *. intros x Hx. specialize (W x Hx). specialize (F x Hx). inversion W; subst.
  - intro ts. cbn [flat1 app]. rewrite find_step by (apply among_notin in F; rewrite F; apply andb_false_r). now rewrite H.
  - apply skips_group with (s := weight o); auto; [lia|]. apply skips_all. rewrite Forall_forall in *. intros y Hy. eapply skips_in; eauto. nia.
Qed.
Lemma find_none ks s xs : (s = 1 \/ s = -1)%Z -> Forall (wfs s) xs -> free ks xs -> find_first ks 0 (flat xs) = Ret None.
Proof. intros Hs W F. rewrite <- (app_nil_r (flat xs)), (skips_free Hs W F). reflexivity. Qed.
Lemma find_at ks s l t r : (s = 1 \/ s = -1)%Z -> Forall (wfs s) l -> free ks l -> weight t = 0%Z -> In (tk t) ks -> find_first ks 0 (flat l ++ t :: r) = Ret (Some (flat l, t, r)).
Proof.
  intros Hs W F Wt I. rewrite (@skips_free ks s _ Hs W F). cbn [find_first]. rewrite Wt. apply among_in in I. rewrite I. cbn. now rewrite app_nil_r.
Qed.
Lemma free_app ks a b : free ks (a ++ b) <-> free ks a /\ free ks b.
Proof. apply Forall_app. Qed.
Lemma free_leaf ks t b : free ks (Leaf t :: b) <-> ~ In (tk t) ks /\ free ks b.
Proof. unfold free. rewrite Forall_cons_iff. reflexivity. Qed.
Lemma free_group ks o b c r : free ks (Group o b c :: r) <-> free ks r.
Proof. unfold free. rewrite Forall_cons_iff. tauto. Qed.
Lemma free_nil ks : free ks [].
Proof. constructor. Qed.
Lemma free_mirrors ks xs : free ks xs -> free ks (mirrors xs).
Proof. intro F. unfold free, mirrors in *. apply Forall_rev, Forall_map. eapply Forall_impl; [|exact F]. intros [t|o b c]; auto. Qed.

Lemma first_none ks xs : Forall wf xs -> free ks xs -> find_first ks 0 (flat xs) = Ret None.
Proof. intros W F. apply (@find_none ks 1); auto. now apply wf_wfs_all. Qed.
Lemma first_at ks l t r : Forall wf l -> free ks l -> ~ bracket (tk t) -> In (tk t) ks -> find_first ks 0 (flat (l ++ Leaf t :: r)) = Ret (Some (flat l, t, flat r)).
Proof. intros W F B I. rewrite flat_app, flat_leaf. apply (@find_at ks 1); auto; [now apply wf_wfs_all|now apply weight_none]. Qed.
Lemma last_none ks xs : Forall wf xs -> free ks xs -> find_last ks (flat xs) = Ret None.
Proof. intros W F. unfold find_last. rewrite <- flat_mirrors. rewrite (@find_none ks (-1)); auto; [now apply mirrors_wf|now apply free_mirrors]. Qed.
Lemma last_at ks l t r : Forall wf r -> free ks r -> ~ bracket (tk t) -> In (tk t) ks -> find_last ks (flat (l ++ Leaf t :: r)) = Ret (Some (flat l, t, flat r)).
Proof.
  intros W F B I. unfold find_last. rewrite flat_app, flat_leaf, rev_app_distr. cbn [rev]. rewrite <- app_assoc. cbn [app]. rewrite <- (flat_mirrors r).
  rewrite (@find_at ks (-1)); auto; [|now apply mirrors_wf|now apply free_mirrors|now apply weight_none]. cbn [bind]. rewrite rev_involutive, flat_mirrors, rev_involutive. reflexivity.
Qed.
Lemma free_or_first ks xs : free ks xs \/ exists l t r, xs = l ++ Leaf t :: r /\ free ks l /\ In (tk t) ks.
Proof.
  induction xs as [|x xs IH]; [left; apply free_nil|]. destruct x as [t|o b c].
  - destruct (among ks t) eqn:E; [right; exists [], t, xs; repeat split; [apply free_nil|now apply among_in]|]. apply among_notin in E.
    destruct IH as [F|(l & t' & r & -> & F & I)]; [left; now apply free_leaf|]. right. exists (Leaf t :: l), t', r. repeat split; auto. now apply free_leaf.
  - destruct IH as [F|(l & t' & r & -> & F & I)]; [left; now apply free_group|]. right. exists (Group o b c :: l), t', r. repeat split; auto. now apply free_group.
Qed.
Lemma free_or_last ks xs : free ks xs \/ exists l t r, xs = l ++ Leaf t :: r /\ free ks r /\ In (tk t) ks.
Proof.
  induction xs as [|x xs [F|(l & t & r & -> & F & I)]]; [left; apply free_nil| |right; exists (x :: l), t, r; auto].
  destruct x as [t|o b c]; [|left; now apply free_group]. destruct (among ks t) eqn:E; [right; exists [], t, xs; repeat split; auto; now apply among_in|]. apply among_notin in E.
  left. now apply free_leaf.
Qed.

(* brackets around everything *)
Lemma pair_kinds o c t : pair_of o c -> ~ bracket t -> rk_eqb t o = false /\ rk_eqb t c = false.
Proof. intros P B. split; apply rk_eqb_false; intros ->; apply B; [exists c|exists o]; auto. Qed.
Lemma pair_same o c o' c' : pair_of o c -> pair_of o' c' -> rk_eqb o' o = rk_eqb c' c /\ rk_eqb o' c = false /\ rk_eqb c' o = false.
Proof. intros [[-> ->]|[[-> ->]|[-> ->]]] [[-> ->]|[[-> ->]|[-> ->]]]; auto. Qed.
Definition closes_past (o c : rk) (x : list rtok) : Prop := forall d ts, (1 <= d)%Z -> close_at o c d (x ++ ts) = close_at o c d ts.
Lemma closes_all o c xs : Forall (fun x => closes_past o c (flat1 x)) xs -> closes_past o c (flat xs).
Proof. induction 1 as [|x xs H F IH]; intros d ts Hd; [reflexivity|]. rewrite flat_cons, <- app_assoc, H by auto. now apply IH. Qed.
Lemma closes_in o c x : pair_of o c -> wf x -> closes_past o c (flat1 x).
Proof.
  intro P. induction x as [t|o' b c' F] using tree_ind'; intros W d ts Hd; inversion W as [? B|? ? ? P' F']; subst.
  - cbn [flat1 app close_at]. destruct (pair_kinds P B) as [-> ->]. destruct (Z.eqb_spec d 0); [lia|reflexivity].
  - assert (CB : closes_past o c (flat b)). { apply closes_all. rewrite Forall_forall in *. auto. }
    rewrite flat1_group. cbn [app close_at]. destruct (pair_same P P') as (E & -> & E2). rewrite <- app_assoc. destruct (rk_eqb (tk o') o).
    + destruct (Z.eqb_spec (d + 1) 0); [lia|]. rewrite CB by lia. cbn [app close_at]. rewrite E2, <- E. replace (d + 1 - 1)%Z with d by lia. destruct (Z.eqb_spec d 0); [lia|reflexivity].
    + destruct (Z.eqb_spec d 0); [lia|]. rewrite CB by lia. cbn [app close_at]. rewrite E2, <- E. destruct (Z.eqb_spec d 0); [lia|reflexivity].
Qed.
Lemma enclosed_group o c g b h r : pair_of o c -> wf (Group g b h) -> tk g = o ->
  is_enclosed o c (flat (Group g b h :: r)) = if is_empty b then oops else Ret (is_empty r).
Proof.
  intros P W E. inversion W as [|? ? ? P' F]; subst. rewrite flat_cons, flat1_group. cbn [app]. unfold is_enclosed. rewrite rk_eqb_refl. cbn [negb].
  assert (C : close_at (tk g) c 0 (g :: (flat b ++ [h]) ++ flat r) = Ret (flat r)).
  { cbn [close_at]. rewrite rk_eqb_refl. cbn. rewrite <- app_assoc. rewrite (@closes_all (tk g) c b); [|rewrite Forall_forall in *; intros; apply closes_in; auto|lia].
    cbn [app close_at]. destruct (pair_same P P') as (E1 & _ & E2). rewrite E2, <- E1, rk_eqb_refl. reflexivity. }
  rewrite C. cbn [bind]. rewrite !app_length. cbn [length]. destruct b as [|x b]; cbn [is_empty].
  - cbn [flat flat_map length]. destruct (Nat.eqb_spec (S (length (flat r))) (0 + 1 + length (flat r))); [reflexivity|lia].
  - assert (L : 0 < length (flat (x :: b))). { destruct (flat (x :: b)) eqn:Z; [apply flat_nil in Z; discriminate|cbn; lia]. }
    destruct (Nat.eqb_spec (S (length (flat r))) (length (flat (x :: b)) + 1 + length (flat r))); [lia|]. destruct r as [|y r]; [reflexivity|].
    destruct (flat (y :: r)) eqn:Z; [apply flat_nil in Z; discriminate|reflexivity].
Qed.
Definition starts (xs : list tree) (k : rk) : bool := match xs with Leaf t :: _ | Group t _ _ :: _ => rk_eqb (tk t) k | [] => false end.
Lemma enclosed_other o c xs : xs <> [] -> starts xs o = false -> is_enclosed o c (flat xs) = Ret false.
Proof. intros N S. destruct xs as [|[t|g b h] r]; [congruence|..]; cbn in *; rewrite S; reflexivity. Qed.
