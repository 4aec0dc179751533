(* P_Gsiril2.v - the rows of a proof and its verdict; tests change nothing. *)
From Verif Require Import Base M_Bell M_Change M_Row M_Method M_Proof M_Dim M_Names M_Library M_Gsiril Spec_Proof P_Proof P_Proof2 P_Gsiril Spec_Gsiril.
Set Implicit Arguments.
Unset Strict Implicit.
Open Scope nat_scope.

Definition adds (rows : list row) (p : prover) : prover := fold_left (fun p r => fst (add_row p r)) rows p.
(* the row the verdict looks at *)
Definition ending (x : ctx) : row := if x_proving x then x_r x else x_last x.
Definition seen (x : ctx) : list row := map fst (x_mus x).

Lemma adds_app a b p : adds (a ++ b) p = adds b (adds a p).
Proof. unfold adds. apply fold_left_app. Qed.
Lemma last_app A (a b : list A) d : last (a ++ b) d = last b (last a d).
Proof.
  destruct b as [|x b _] using rev_ind; [now rewrite app_nil_r|].
  now rewrite app_assoc, !last_last.
Qed.

Definition grows (s s' : st) : Prop :=
  let x := s_x s in let x' := s_x s' in
  exists L, x_mus x' = x_mus x ++ L /\ x_p x' = adds (map fst L) (x_p x) /\
    ending x' = last (map fst L) (ending x) /\
    (x_proving x' = true -> x_proving x = true) /\ (x_proving x = false -> L = []) /\ follows (ending x) (map fst L).
Lemma follows_app r a b : follows r a -> follows (last a r) b -> follows r (a ++ b).
Proof.
  intros H. induction H as [|r r' rows M H IH]; [auto|]. intros F. cbn [app]. constructor; [exact M|]. apply IH.
  replace (last rows r') with (last (r' :: rows) r); [exact F|]. change (r' :: rows) with ([r'] ++ rows). now rewrite last_app.
Qed.
Lemma grows_same s s' : x_mus (s_x s') = x_mus (s_x s) -> x_p (s_x s') = x_p (s_x s) ->
  ending (s_x s') = ending (s_x s) -> (x_proving (s_x s') = true -> x_proving (s_x s) = true) -> grows s s'.
Proof. intros H1 H2 H3 H4. exists []. rewrite app_nil_r. repeat split; auto. constructor. Qed.
Lemma grows_trans a b d : grows a b -> grows b d -> grows a d.
Proof.
  intros (L & A1 & A2 & A3 & A4 & A5 & A6) (L' & B1 & B2 & B3 & B4 & B5 & B6). exists (L ++ L'). repeat split.
  - now rewrite B1, A1, app_assoc.
  - now rewrite B2, A2, map_app, adds_app.
  - now rewrite B3, A3, map_app, last_app.
  - auto.
  - intros P. rewrite (A5 P). cbn. apply B5. destruct (x_proving (s_x b)) eqn:E; auto. rewrite (A4 eq_refl) in P. discriminate.
  - rewrite map_app. apply follows_app; [exact A6|]. now rewrite <- A3.
Qed.
Lemma body_grows c fuel e : pres grows (prove_body c fuel e).
Proof.
  apply body_pres; try (intros; apply grows_same; cbn; auto; fail).
  - exact grows_trans.
  - intros x g r bs P MV. exists [(r, bs)]. cbn. repeat split; auto.
    + unfold ending. cbn. now rewrite P.
    + rewrite P. discriminate.
    + unfold ending. cbn. rewrite P. constructor; [exact MV|constructor].
  - intros x g r P. apply grows_same; cbn; auto. unfold ending. cbn. now rewrite P.
  - intros x g. apply grows_same; try reflexivity. discriminate.
Qed.

Lemma adds_run rows max : run (prover_new max None) (map Add rows) = Ret (adds rows (prover_new max None)).
Proof. rewrite <- (app_nil_r (map Add rows)), run_adds. reflexivity. Qed.
Lemma adds_truth rows max : (0 <= max)%Z -> truth (adds rows (prover_new max None)) = true <-> at_most max rows.
Proof.
  intros H. assert (B : forall o, In o (map Add rows) -> o <> Branch).
  { intros o Ho. apply in_map_iff in Ho as (r & <- & _). discriminate. }
  rewrite (@history_truth max None (map Add rows) _ H (@no_branch_true max _ B []) (adds_run rows max)).
  rewrite outstanding_adds, app_nil_r. unfold at_most.
  assert (E : forall r, count_occ req (rev rows) r = count_occ req rows r).
  { intros r. symmetry. apply cnt_perm, Permutation_rev. }
  split; intros Q r; specialize (Q r); [now rewrite <- E|now rewrite E].
Qed.
Lemma adds_size rows max : p_size (adds rows (prover_new max None)) = length rows.
Proof.
  destruct (history_counts (adds_run rows max)) as (_ & S & _). rewrite S.
  rewrite outstanding_adds, app_nil_r. apply rev_length.
Qed.
Lemma row_eqb_eq a b : row_eqb a b = true <-> a = b.
Proof. unfold row_eqb. destruct (list_eq_dec Nat.eq_dec a b); split; congruence. Qed.

(* where a proof starts *)
Definition start_row (c : cfg) : outcome row := mul (rounds (c_bells c)) (c_rounds c).
Lemma verdict_not_stopped c x : verdict_of c x <> VStopped /\ verdict_of c x <> VAborted.
Proof. unfold verdict_of. destruct (state c x); [destruct (_ && _)|..]; split; discriminate. Qed.
Lemma prove_grows c fuel e g v fl x g' : prove_stmt c fuel e g = Ret (v, fl, x, g') ->
  exists r0, start_row c = Ret r0 /\ x_p x = adds (seen x) (prover_new (c_extents c) None) /\
    ending x = last (seen x) r0 /\ follows r0 (seen x) /\
    (v = VStopped \/ v = VAborted \/ v = verdict_of c x) /\ (fl = true <-> v <> VTrue /\ v <> VStopped).
Proof.
  unfold prove_stmt, new_ctx. destruct (_ <? _); [discriminate|].
  fold (start_row c). destruct (start_row c) as [r0| | |]; try discriminate. cbn [bind].
  match goal with |- context [prove_body c fuel e ?s] => destruct (prove_body c fuel e s) as [[s1 w]| | |] eqn:E end; try discriminate.
  cbn [bind]. destruct (body_grows E) as (L & A1 & A2 & A3 & _ & _ & A6). cbn [s_x x_mus x_p app] in A1, A2.
  unfold ending at 2 in A3. cbn in A3. unfold ending in A6. cbn in A6.
  assert (G : forall x, x = s_x s1 -> x_p x = adds (seen x) (prover_new (c_extents c) None) /\ ending x = last (seen x) r0 /\ follows r0 (seen x)).
  { intros y ->. unfold seen. rewrite A1. split; [exact A2|]. split; [exact A3|exact A6]. }
  destruct w as [u|[|]].
  - match goal with |- context [final c fuel ?n ?s] => destruct (final c fuel n s) as [[s2 w2]| | |] end; try discriminate.
    cbn [bind]. intros H. inversion H; subst. exists r0. destruct (G _ eq_refl) as (G1 & G2 & G3).
    refine (conj eq_refl (conj G1 (conj G2 (conj G3 (conj (or_intror (or_intror eq_refl)) _))))).
    destruct (@verdict_not_stopped c (s_x s1)) as [V V2].
    destruct (verdict_of c (s_x s1)); split; intros F; try discriminate; try reflexivity; try (split; congruence); destruct F; congruence.
  - match goal with |- context [final c fuel ?n ?s] => destruct (final c fuel n s) as [[s2 w2]| | |] end; try discriminate.
    cbn [bind]. intros H. inversion H; subst. exists r0. destruct (G _ eq_refl) as (G1 & G2 & G3).
    refine (conj eq_refl (conj G1 (conj G2 (conj G3 (conj (or_intror (or_introl eq_refl)) _))))).
    split; [split; discriminate|auto].
  - intros H. inversion H; subst. exists r0. destruct (G _ eq_refl) as (G1 & G2 & G3).
    refine (conj eq_refl (conj G1 (conj G2 (conj G3 (conj (or_introl eq_refl) _))))).
    split; [discriminate|intros []; congruence].
Qed.

(* --- inside a clone --- *)
Definition inside (s s' : st) : Prop :=
  x_parent (s_x s') = x_parent (s_x s) /\
  (x_parent (s_x s) <> None -> g_syms (s_g s') = g_syms (s_g s)) /\
  (exists o, g_out (s_g s') = g_out (s_g s) ++ o) /\
  x_output (s_x s') = x_output (s_x s) /\
  (x_parent (s_x s) = Some false -> x_output (s_x s) = false -> g_out (s_g s') = g_out (s_g s)) /\
  (g_nodes (s_g s) <= g_nodes (s_g s'))%Z.
Lemma inside_trans a b d : inside a b -> inside b d -> inside a d.
Proof.
  intros (A1 & A2 & (o & A3) & A4 & A5 & A6) (B1 & B2 & (o' & B3) & B4 & B5 & B6). repeat split.
  - congruence.
  - intros P. rewrite B2, A2; auto. now rewrite A1.
  - exists (o ++ o'). now rewrite B3, A3, app_assoc.
  - congruence.
  - intros P Q. rewrite B5, A5; auto; congruence.
  - lia.
Qed.
Lemma inside_same s s' : x_parent (s_x s') = x_parent (s_x s) -> (x_parent (s_x s) = None \/ g_syms (s_g s') = g_syms (s_g s)) ->
  g_out (s_g s') = g_out (s_g s) -> x_output (s_x s') = x_output (s_x s) -> (g_nodes (s_g s) <= g_nodes (s_g s'))%Z -> inside s s'.
Proof.
  intros H1 H2 H3 H4 H5. split; [exact H1|]. split; [intros P; destruct H2; congruence|].
  split; [exists []; now rewrite app_nil_r|]. split; [exact H4|]. split; [auto|exact H5].
Qed.
Lemma run_inside c fuel A (q : ask A) : pres inside (gs_run c fuel q).
Proof.
  apply run_pres; try (intros; apply inside_same; cbn; auto; lia).
  - exact inside_trans.
  - intros x g t par W. split; [reflexivity|]. split; [reflexivity|]. split; [now exists t|]. split; [reflexivity|].
    split; [|cbn; lia]. cbn.
    intros P O. rewrite P in W. unfold can_write in W. rewrite O, andb_false_r in W. destruct par; discriminate.
  - intros x g x' g' (A1 & A2 & A3 & A4 & A5 & A6). cbn in A1, A2, A3, A4, A5, A6.
    split; [reflexivity|]. split; [intros _; apply A2; discriminate|]. split; [exact A3|]. split; [reflexivity|].
    split; [|exact A6]. cbn. intros P O. apply A5; auto. unfold can_write. now rewrite O, andb_false_r.
Qed.
(* whatever is run in a clone, the context is as it was, and so are the symbols *)
Lemma clone_effects c fuel A (q : ask A) s s' v : in_clone (gs_run c fuel q) s = Ret (s', v) ->
  s_x s' = s_x s /\ g_syms (s_g s') = g_syms (s_g s) /\ (exists o, g_out (s_g s') = g_out (s_g s) ++ o) /\
  (can_write (s_x s) = false -> g_out (s_g s') = g_out (s_g s)).
Proof.
  unfold in_clone. destruct (gs_run c fuel q _) as [[s1 w]| | |] eqn:E; try discriminate.
  intros H. inversion H; subst. cbn. destruct (run_inside E) as (A1 & A2 & A3 & A4 & A5 & A6). cbn in *.
  repeat split; auto.
  - apply A2. discriminate.
  - intros W. apply A5; auto. now rewrite W.
Qed.
