(* P_RowCalc.v - the row calculator: more fuel changes nothing, and nodes keep their shape. *)
From Verif Require Import Base M_Row M_Group M_RowCalc Spec_Row Spec_Extent Spec_Group Spec_RowCalc.
From Verif Require Import P_Bell P_Row P_Group P_Group2.
Set Implicit Arguments. Unset Strict Implicit.
Open Scope nat_scope.

Definition le_rec (rec rec' : node -> outcome (option row * node)) : Prop := forall n v, rec n = Ret v -> rec' n = Ret v.
Ltac step_mono H E := let v := fresh "v" in apply bind_ret_inv in H as (v & E & H).

Section Mono.
Variables (rec rec' : node -> outcome (option row * node)).
Hypothesis M : le_rec rec rec'.
Lemma cross_mono : forall k k' lhs l rhs r v, k <= k' -> cross_f rec k lhs l rhs r = Ret v -> cross_f rec' k' lhs l rhs r = Ret v.
Proof.
  induction k as [|k IH]; intros k' lhs l rhs r v Hk H; [discriminate|]. destruct k' as [|k']; [lia|]. cbn [cross_f] in *.
  apply bind_ret_inv in H as ((o & n) & E & H).
  assert (E' : (if is_empty r then rec' rhs else Ret (Some r, rhs)) = Ret (o, n)) by (destruct (is_empty r); auto). rewrite E'. cbn [bind].
  destruct o as [y|]; [|exact H]. apply bind_ret_inv in H as ((o & n1) & E1 & H). rewrite (M E1). cbn [bind].
  destruct o as [x|]; [|apply IH; [lia|exact H]]. destruct (is_empty y); [apply IH; [lia|exact H]|exact H].
Qed.
Lemma binary_mono k k' lhs l rhs r v : k <= k' -> binary_arguments rec k lhs l rhs r = Ret v -> binary_arguments rec' k' lhs l rhs r = Ret v.
Proof.
  intros Hk H. unfold binary_arguments in *. destruct (_ || _); [|eapply cross_mono; eauto].
  apply bind_ret_inv in H as ((o & n) & E & H). rewrite (M E). cbn [bind]. destruct o as [y|]; [|exact H].
  apply bind_ret_inv in H as ((o & n1) & E1 & H). rewrite (M E1). exact H.
Qed.
Lemma drain_mono : forall k k' n v, k <= k' -> drain rec k n = Ret v -> drain rec' k' n = Ret v.
Proof.
  induction k as [|k IH]; intros k' n v Hk H; [discriminate|]. destruct k' as [|k']; [lia|]. cbn [drain] in *.
  apply bind_ret_inv in H as ((o & n1) & E & H). rewrite (M E). cbn [bind]. destruct o as [y|]; [|exact H].
  apply bind_ret_inv in H as ((rs & n2) & E1 & H). rewrite (IH k' _ _ ltac:(lia) E1). exact H.
Qed.
Lemma skip_mono ex : forall k k' n v, k <= k' -> skip_f rec k n ex = Ret v -> skip_f rec' k' n ex = Ret v.
Proof.
  induction k as [|k IH]; intros k' n v Hk H; [discriminate|]. destruct k' as [|k']; [lia|]. cbn [skip_f] in *.
  apply bind_ret_inv in H as ((o & n1) & E & H). rewrite (M E). cbn [bind]. destruct o as [y|]; [|exact H].
  destruct (_ && _); [apply IH; [lia|exact H]|exact H].
Qed.
Lemma set_mono : forall k k' l i v, k <= k' -> set_next rec k l i = Ret v -> set_next rec' k' l i = Ret v.
Proof.
  induction k as [|k IH]; intros k' l i v Hk H; [discriminate|]. destruct k' as [|k']; [lia|]. cbn [set_next] in *.
  destruct (nth_error l i) as [x|]; [|exact H]. apply bind_ret_inv in H as ((o & n1) & E & H). rewrite (M E). cbn [bind].
  apply bind_ret_inv in H as (l' & E1 & H). rewrite E1. cbn [bind]. destruct (_ =? _); [exact H|]. destruct o; [exact H|apply IH; [lia|exact H]].
Qed.
End Mono.
Lemma generate_mono gens : forall f f' s x v, f <= f' -> generate_group f s x gens = Ret v -> generate_group f' s x gens = Ret v.
Proof.
  induction f as [|f IH]; intros f' s x v Hf H; destruct x as [|r x]; cbn [generate_group] in H; try discriminate.
  - destruct f'; exact H.
  - destruct f'; exact H.
  - destruct f' as [|f']; [lia|]. cbn [generate_group]. apply bind_ret_inv in H as ((s1 & x1) & E & H). rewrite E. cbn [bind]. eapply IH; [|exact H]. lia.
Qed.
Lemma group_mono gens f f' v : f <= f' -> group_of f gens = Ret v -> group_of f' gens = Ret v.
Proof.
  intros Hf H. destruct gens as [|g gens]; [exact H|]. unfold group_of in *. cbv zeta in *. apply bind_ret_inv in H as (s & E & H).
  rewrite (generate_mono Hf E). exact H.
Qed.
Lemma eval_mono sym rec rec' f f' n v : le_rec rec rec' -> f <= f' -> eval_step sym rec f n = Ret v -> eval_step sym rec' f' n = Ret v.
Proof.
  intros M Hf H. destruct n as [z|r|l s i|gens s g i|lhs rhs s ex|op lhs rhs l r|lhs rhs r l]; cbn [eval_step] in *; auto.
  - apply bind_ret_inv in H as ((o & (l' & i')) & E & H). rewrite (set_mono M (le_n _) E). exact H.
  - apply bind_ret_inv in H as (((gens' & g') & i') & E & H).
    assert (E' : (if s then Ret (gens, g, i) else '(gs, gens) <- drain rec' f' gens;; G <- group_of f' gs;; Ret (gens, gv G, 0)) = Ret (gens', g', i')).
    { destruct s; auto. apply bind_ret_inv in E as ((gs & n1) & E1 & E). rewrite (drain_mono M Hf E1). cbn [bind].
      apply bind_ret_inv in E as (G & E2 & E). rewrite (group_mono Hf E2). exact E. }
    rewrite E'. exact H.
  - apply bind_ret_inv in H as (((b & rhs') & ex') & E & H).
    match goal with |- bind ?m _ = _ => assert (E' : m = Ret (b, rhs', ex')) end.
    { destruct s; auto. destruct (negb _).
      - apply bind_ret_inv in E as ((gs & n1) & E1 & E). rewrite (drain_mono M Hf E1). exact E.
      - apply bind_ret_inv in E as ((gs & n1) & E1 & E). rewrite (M _ _ E1). exact E. }
    rewrite E'. cbn [bind]. destruct (negb b); [exact H|]. apply bind_ret_inv in H as ((o & n1) & E1 & H). rewrite (skip_mono M Hf E1). exact H.
  - apply bind_ret_inv in H as ((b & (((n1 & l1) & n2) & r1)) & E & H). rewrite (binary_mono M Hf E). exact H.
  - destruct rhs; try (apply bind_ret_inv in H as ((b & (((n1 & l1) & n2) & r1)) & E & H); rewrite (binary_mono M Hf E); exact H).
    apply bind_ret_inv in H as ((o & n1) & E1 & H). rewrite (M _ _ E1). exact H.
Qed.
Lemma ev_mono sym : forall f f' n v, f <= f' -> ev sym f n = Ret v -> ev sym f' n = Ret v.
Proof.
  induction f as [|f IH]; intros f' n v Hf H; [discriminate|]. destruct f' as [|f']; [lia|]. cbn [ev] in *.
  eapply eval_mono; [|instantiate (1 := f); lia|exact H]. intros m u Hm. eapply IH; [|exact Hm]. lia.
Qed.

(* the shape of a node: all but its state *)
Fixpoint skel (n : node) : node :=
  match n with
  | NInt z => NInt z | NRow r => NRow r
  | NSet l _ _ => NSet (map skel l) false 0
  | NGroup gens _ _ _ => NGroup (skel gens) false [] 0
  | NDiff a b _ _ => NDiff (skel a) (skel b) false []
  | NMult op a b _ _ => NMult op (skel a) (skel b) [] []
  | NExp a b _ _ => NExp (skel a) (skel b) [] []
  end.
Fixpoint node_all (P : node -> Prop) (Hi : forall z, P (NInt z)) (Hr : forall r, P (NRow r)) (Hs : forall l s i, Forall P l -> P (NSet l s i))
  (Hg : forall gens s g i, P gens -> P (NGroup gens s g i)) (Hd : forall a b s ex, P a -> P b -> P (NDiff a b s ex))
  (Hm : forall op a b l r, P a -> P b -> P (NMult op a b l r)) (He : forall a b r l, P a -> P b -> P (NExp a b r l)) (n : node) : P n :=
  let rec := @node_all P Hi Hr Hs Hg Hd Hm He in
  match n with
  | NInt z => Hi z | NRow r => Hr r
  | NSet l s i => Hs l s i ((fix go l := match l return Forall P l with [] => Forall_nil P | x :: l => @Forall_cons _ P x l (rec x) (go l) end) l)
  | NGroup gens s g i => Hg gens s g i (rec gens)
  | NDiff a b s ex => Hd a b s ex (rec a) (rec b)
  | NMult op a b l r => Hm op a b l r (rec a) (rec b)
  | NExp a b r l => He a b r l (rec a) (rec b)
  end.
Fixpoint cexpr_all (P : cexpr -> Prop) (Hi : forall z, P (CInt z)) (Hr : forall r, P (CRow r)) (Hs : forall es, Forall P es -> P (CSet es))
  (Hg : forall es, Forall P es -> P (CGroup es)) (Hd : forall a b, P a -> P b -> P (CDiff a b))
  (Hm : forall op a b, P a -> P b -> P (CMult op a b)) (He : forall a b, P a -> P b -> P (CExp a b)) (e : cexpr) : P e :=
  let rec := @cexpr_all P Hi Hr Hs Hg Hd Hm He in
  let go := fix go l := match l return Forall P l with [] => Forall_nil P | x :: l => @Forall_cons _ P x l (rec x) (go l) end in
  match e with
  | CInt z => Hi z | CRow r => Hr r
  | CSet es => Hs es (go es) | CGroup es => Hg es (go es)
  | CDiff a b => Hd a b (rec a) (rec b)
  | CMult op a b => Hm op a b (rec a) (rec b)
  | CExp a b => He a b (rec a) (rec b)
  end.
Lemma count_skel n : count_vectors (skel n) = count_vectors n.
Proof.
  induction n as [| |l s i F|gens s g i IH|a b s ex IHa IHb|op a b l r IHa IHb|a b r l IHa IHb] using node_all; cbn [skel count_vectors]; auto; try congruence.
  f_equal. induction F as [|x l H F IH]; [reflexivity|]. cbn [map filter]. rewrite H. destruct (negb _); cbn [length]; congruence.
Qed.
Lemma skel_restart n : skel (restart n) = skel n.
Proof. induction n as [| |l s i F|gens s g i IH|a b s ex IHa IHb|op a b l r IHa IHb|a b r l IHa IHb] using node_all; cbn [skel restart]; congruence. Qed.
Lemma same_count n n' : skel n' = skel n -> count_vectors n' = count_vectors n.
Proof. intros H. now rewrite <- (count_skel n'), H, count_skel. Qed.

Definition keeps (rec : node -> outcome (option row * node)) : Prop := forall n o n', rec n = Ret (o, n') -> skel n' = skel n.
Section Keep.
Variable rec : node -> outcome (option row * node).
Hypothesis K : keeps rec.
Lemma cross_keeps : forall k lhs l rhs r b lhs' l' rhs' r', cross_f rec k lhs l rhs r = Ret (b, (lhs', l', rhs', r')) -> skel lhs' = skel lhs /\ skel rhs' = skel rhs.
Proof.
  induction k as [|k IH]; intros lhs l rhs r b lhs' l' rhs' r' H; [discriminate|]. cbn [cross_f] in H.
  apply bind_ret_inv in H as ((o & n) & E & H). assert (Kn : skel n = skel rhs) by (destruct (is_empty r); [now apply K in E|congruence]).
  destruct o as [y|]; [|injection H as <- <- <- <- <-; auto]. apply bind_ret_inv in H as ((o & n1) & E1 & H). apply K in E1.
  destruct o as [x|]; [|apply IH in H as [A B]; rewrite skel_restart in A; split; congruence].
  destruct (is_empty y); [apply IH in H as [A B]; split; congruence|]. injection H as <- <- <- <- <-. auto.
Qed.
Lemma binary_keeps k lhs l rhs r b lhs' l' rhs' r' : binary_arguments rec k lhs l rhs r = Ret (b, (lhs', l', rhs', r')) -> skel lhs' = skel lhs /\ skel rhs' = skel rhs.
Proof.
  intros H. unfold binary_arguments in H. destruct (_ || _); [|eapply cross_keeps; eauto].
  apply bind_ret_inv in H as ((o & n) & E & H). apply K in E. destruct o as [y|]; [|injection H as <- <- <- <- <-; auto].
  apply bind_ret_inv in H as ((o & n1) & E1 & H). apply K in E1. destruct o; injection H as <- <- <- <- <-; auto.
Qed.
Lemma drain_keeps : forall k n rs n', drain rec k n = Ret (rs, n') -> skel n' = skel n.
Proof.
  induction k as [|k IH]; intros n rs n' H; [discriminate|]. cbn [drain] in H. apply bind_ret_inv in H as ((o & n1) & E & H). apply K in E.
  destruct o as [y|]; [|congruence]. apply bind_ret_inv in H as ((rs1 & n2) & E1 & H). apply IH in E1. congruence.
Qed.
Lemma skip_keeps ex : forall k n o n', skip_f rec k n ex = Ret (o, n') -> skel n' = skel n.
Proof.
  induction k as [|k IH]; intros n o n' H; [discriminate|]. cbn [skip_f] in H. apply bind_ret_inv in H as ((o1 & n1) & E & H). apply K in E.
  destruct o1 as [y|]; [|congruence]. destruct (_ && _); [apply IH in H; congruence|congruence].
Qed.
Lemma upd_map (A B : Type) (f : A -> B) l i x y : nth_error l i = Some y -> f x = f y -> map f (upd l i x) = map f l.
Proof.
  revert i. induction l as [|a l IH]; intros [|i] H E; try discriminate; unfold upd in *; cbn in *.
  - injection H as ->. now rewrite E.
  - f_equal. now apply IH.
Qed.
Lemma set_keeps : forall k l i o l' i', set_next rec k l i = Ret (o, (l', i')) -> map skel l' = map skel l.
Proof.
  induction k as [|k IH]; intros l i o l' i' H; [discriminate|]. cbn [set_next] in H. destruct (nth_error l i) as [x|] eqn:N; [|congruence].
  apply bind_ret_inv in H as ((o1 & n1) & E & H). apply K in E. apply bind_ret_inv in H as (l1 & E1 & H).
  assert (U : map skel l1 = map skel l). { unfold vset in E1. destruct (_ <? _); [|discriminate]. injection E1 as <-. eapply upd_map; eauto. }
  destruct (_ =? _); [congruence|]. destruct o1; [congruence|]. apply IH in H. congruence.
Qed.
End Keep.
Lemma eval_keeps sym rec f : keeps rec -> keeps (eval_step sym rec f).
Proof.
  intros K n o n' H. destruct n as [z|r|l s i|gens s g i|lhs rhs s ex|op lhs rhs l r|lhs rhs r l]; cbn [eval_step] in H; try discriminate.
  - congruence.
  - apply bind_ret_inv in H as ((o1 & (l' & i')) & E & H). injection H as <- <-. cbn [skel]. now rewrite (set_keeps K E).
  - apply bind_ret_inv in H as (((gens' & g') & i') & E & H).
    assert (S : skel gens' = skel gens). { destruct s; [congruence|]. apply bind_ret_inv in E as ((gs & n1) & E1 & E). apply bind_ret_inv in E as (G & E2 & E). apply (drain_keeps K) in E1. congruence. }
    destruct (nth_error g' i'); injection H as <- <-; cbn [skel]; congruence.
  - apply bind_ret_inv in H as (((b & rhs') & ex') & E & H).
    assert (S : skel rhs' = skel rhs).
    { destruct s; [congruence|]. destruct (negb _); apply bind_ret_inv in E as ((gs & n1) & E1 & E).
      - apply (drain_keeps K) in E1. congruence.
      - apply K in E1. destruct gs; congruence. }
    destruct (negb b); [injection H as <- <-; cbn [skel]; congruence|]. apply bind_ret_inv in H as ((o1 & n1) & E1 & H). apply (skip_keeps K) in E1.
    injection H as <- <-. cbn [skel]. congruence.
  - apply bind_ret_inv in H as ((b & (((n1 & l1) & n2) & r1)) & E & H). apply (binary_keeps K) in E as [A B].
    destruct b; [apply bind_ret_inv in H as (v & _ & H)|]; injection H as <- <-; cbn [skel]; congruence.
  - assert (G : (exists b n1 l1 n2 r1, binary_arguments rec f lhs l rhs r = Ret (b, (n1, l1, n2, r1)) /\ n' = NExp n1 n2 r1 l1) \/ (exists n1 o1, rec lhs = Ret (o1, n1) /\ n' = NExp n1 rhs r l)).
    { destruct rhs; [right|left|left|left|left|left|left];
        try (apply bind_ret_inv in H as ((b & (((n1 & l1) & n2) & r1)) & E & H); exists b, n1, l1, n2, r1; split; [exact E|];
          destruct b; [apply bind_ret_inv in H as (? & _ & H); apply bind_ret_inv in H as (? & _ & H); apply bind_ret_inv in H as (? & _ & H)|]; congruence).
      apply bind_ret_inv in H as ((o1 & n1) & E1 & H). exists n1, o1. split; auto. destruct o1; [apply bind_ret_inv in H as (? & _ & H)|]; congruence. }
    destruct G as [(b & n1 & l1 & n2 & r1 & E & ->)|(n1 & o1 & E & ->)].
    + apply (binary_keeps K) in E as [A B]. cbn [skel]. congruence.
    + apply K in E. cbn [skel]. congruence.
Qed.
Lemma ev_keeps sym f : keeps (ev sym f).
Proof. induction f as [|f IH]; [intros n o n' H; discriminate|]. cbn [ev]. now apply eval_keeps. Qed.
