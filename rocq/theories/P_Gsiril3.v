(* P_Gsiril3.v - executing a static program rings exactly the changes it stands for. *)
From Verif Require Import Base M_Bell M_Change M_Row M_Method M_Proof M_Dim M_Names M_Library M_Gsiril Spec_Proof P_Proof P_Proof2 P_Gsiril Spec_Gsiril P_Gsiril2.
Set Implicit Arguments.
Unset Strict Implicit.
Open Scope nat_scope.

Lemma mb_ret A B (m : M A) (f : A -> M B) s s1 a : m s = Ret (s1, inl a) -> mbind m f s = f a s1.
Proof. intros H. unfold mbind. now rewrite H. Qed.
Lemma mb_exn A B (m : M A) (f : A -> M B) s s1 x : m s = Ret (s1, inr x) -> mbind m f s = Ret (s1, inr x).
Proof. intros H. unfold mbind. now rewrite H. Qed.
Definition bump (s : st) : st := mkSt (s_x s) (mkGlob (g_syms (s_g s)) (g_nodes (s_g s) + 2)%Z (g_out (s_g s))).
Lemma count_bump c s : (c_limit c <= 0)%Z -> (0 <= g_nodes (s_g s))%Z -> count c s = Ret (bump s, inl tt).
Proof.
  intros L H. unfold count, mbind, getg. destruct (Z.eqb_spec (g_nodes (s_g s) + 2) (c_limit c)) as [E|E]; [lia|]. reflexivity.
Qed.
Lemma run_exec c n e fwd s : (c_limit c <= 0)%Z -> (0 <= g_nodes (s_g s))%Z ->
  gs_run c (S n) (QExec e fwd) s = exec_impl c (@gs_run c n) e fwd (bump s).
Proof. intros L H. change (mbind (count c) (fun _ => exec_impl c (@gs_run c n) e fwd) s = exec_impl c (@gs_run c n) e fwd (bump s)).
  now rewrite (mb_ret _ (count_bump L H)). Qed.
Lemma run_pn c n e s : (c_limit c <= 0)%Z -> (0 <= g_nodes (s_g s))%Z ->
  gs_run c (S n) (QPn e) s = pn_impl (@gs_run c n) e (bump s).
Proof. intros L H. change (mbind (count c) (fun _ => pn_impl (@gs_run c n) e) s = pn_impl (@gs_run c n) e (bump s)).
  now rewrite (mb_ret _ (count_bump L H)). Qed.
Lemma run_int c n e s : (c_limit c <= 0)%Z -> (0 <= g_nodes (s_g s))%Z ->
  gs_run c (S n) (QInt e) s = int_impl c (@gs_run c n) e (bump s).
Proof. intros L H. change (mbind (count c) (fun _ => int_impl c (@gs_run c n) e) s = int_impl c (@gs_run c n) e (bump s)).
  now rewrite (mb_ret _ (count_bump L H)). Qed.
Lemma run_repl c n e m s : (c_limit c <= 0)%Z -> (0 <= g_nodes (s_g s))%Z ->
  gs_run c (S n) (QRepl e m) s = repl_impl (@gs_run c n) e m (bump s).
Proof. intros L H. change (mbind (count c) (fun _ => repl_impl (@gs_run c n) e m) s = repl_impl (@gs_run c n) e m (bump s)).
  now rewrite (mb_ret _ (count_bump L H)). Qed.
Lemma run_type c n e : gs_run c (S n) (QType e) = type_impl (@gs_run c n) e.
Proof. reflexivity. Qed.

(* symbol tables *)
Lemma text_eqb_true a b : list_ascii_eqb a b = true <-> a = b.
Proof. unfold list_ascii_eqb. destruct (list_eq_dec _ a b); split; congruence. Qed.
Lemma text_eqb_false a b : a <> b -> list_ascii_eqb a b = false.
Proof. intros H. destruct (list_ascii_eqb a b) eqn:E; auto. now apply text_eqb_true in E. Qed.
Lemma text_eqb_refl a : list_ascii_eqb a a = true.
Proof. now apply text_eqb_true. Qed.
Lemma lookup_define t n v m : sym_lookup (sym_define t n v) m = if list_ascii_eqb n m then Some v else sym_lookup t m.
Proof.
  induction t as [|[a e] t IH]; cbn; [reflexivity|].
  destruct (list_ascii_eqb a n) eqn:E.
  - apply text_eqb_true in E as ->. cbn. destruct (list_ascii_eqb n m); reflexivity.
  - cbn. rewrite IH. destruct (list_ascii_eqb a m) eqn:F; auto. apply text_eqb_true in F as ->.
    rewrite (@text_eqb_false n m); auto. intros ->. now rewrite text_eqb_refl in E.
Qed.
Lemma lookup_undefine t n m : n <> m -> sym_lookup (sym_undefine t n) m = sym_lookup t m.
Proof.
  intros D. unfold sym_undefine. induction t as [|[a e] t IH]; cbn; [reflexivity|]. destruct (list_ascii_eqb a n) eqn:E; cbn.
  - apply text_eqb_true in E as ->. now rewrite (text_eqb_false D).
  - now rewrite IH.
Qed.

Lemma splice_at A (cs pre old post : list A) : length old = length cs -> splice cs (length pre) (pre ++ old ++ post) = pre ++ cs ++ post.
Proof.
  intros L. unfold splice. rewrite <- L. f_equal.
  - rewrite firstn_app, firstn_all, Nat.sub_diag. cbn. now rewrite app_nil_r.
  - f_equal. rewrite app_assoc, <- app_length. rewrite skipn_app, skipn_all, Nat.sub_diag. reflexivity.
Qed.
Lemma splice_nil A k (x : list A) : splice [] k x = x.
Proof. unfold splice. cbn. rewrite Nat.add_0_r. apply firstn_skipn. Qed.
Ltac bad_test B := rewrite ?andb_true_r, ?andb_false_r, ?andb_true_l, ?andb_false_l, ?orb_false_r, ?orb_false_l in B; rewrite ?orb_true_iff, ?andb_true_iff, ?Z.leb_le, ?Z.ltb_lt, ?Z.eqb_eq, ?negb_true_iff in B.
Lemma overlay_do cs x y : overlay cs x y -> do_replacement cs (Z.of_nat (length cs - 1)) false x = Ret y.
Proof.
  intros [pre old cs' NE L]. unfold do_replacement.
  assert (LX : 1 <= length (pre ++ old)) by (destruct (pre ++ old); [congruence|cbn; lia]). rewrite app_length in LX |- *.
  match goal with |- (if ?b then _ else _) = _ => destruct b eqn:B end.
  - exfalso. cbn [negb] in B. bad_test B. lia.
  - f_equal. destruct cs' as [|h cs'].
    + destruct old; [|discriminate]. apply splice_nil.
    + replace (Z.to_nat _) with (length pre) by (cbn [length] in *; lia).
      pose proof (@splice_at _ (h :: cs') pre old [] L) as Q. now rewrite !app_nil_r in Q.
Qed.
Lemma overlay_at_do off cs x y : overlay_at off cs x y -> do_replacement cs off true x = Ret y.
Proof.
  intros [pre old post cs' P L]. unfold do_replacement. rewrite !app_length.
  match goal with |- (if ?b then _ else _) = _ => destruct b eqn:B end.
  - exfalso. cbn [negb] in B. bad_test B. lia.
  - f_equal. replace (Z.to_nat _) with (length pre) by lia. now apply splice_at.
Qed.
Lemma overlay_end_do off cs x y : overlay_from_end off cs x y -> do_replacement cs off false x = Ret y.
Proof.
  intros [pre old post cs' P NN L]. rewrite app_length in P. unfold do_replacement. rewrite !app_length.
  match goal with |- (if ?b then _ else _) = _ => destruct b eqn:B end.
  - exfalso. cbn [negb] in B. bad_test B. lia.
  - f_equal. replace (Z.to_nat _) with (length pre) by lia. now apply splice_at.
Qed.

Section Static.
Variable c : cfg.
Variable look : text -> option expr.
Hypothesis Hlim : (c_limit c <= 0)%Z.
Hypothesis Hext : (0 <= c_extents c)%Z.
Hypothesis Hevery : look (str "everyrow") = Some ENop.
Hypothesis Hrounds : look (str "rounds") = Some ENop.
Hypothesis Hconf : aborts c look (str "conflict").
Hypothesis Hlong : c_max c <> 0 -> aborts c look (str "toolong").

(* the state of a proof in progress *)
Record going (s : st) : Prop := mkGoing {
  go_sees : sees look s; go_nodes : (0 <= g_nodes (s_g s))%Z; go_proving : x_proving (s_x s) = true;
  go_max : x_maxlen (s_x s) = c_max c;
  go_p : x_p (s_x s) = adds (seen (s_x s)) (prover_new (c_extents c) None) }.
(* what happened between two states *)
Record after (rows : list row) (s s' : st) : Prop := mkAfter {
  af_going : going s';
  af_r : x_r (s_x s') = last rows (x_r (s_x s));
  af_seen : seen (s_x s') = seen (s_x s) ++ rows;
  af_syms : g_syms (s_g s') = g_syms (s_g s);
  af_out : g_out (s_g s') = g_out (s_g s);
  af_parent : x_parent (s_x s') = x_parent (s_x s);
  af_output : x_output (s_x s') = x_output (s_x s);
  af_silent : x_silent (s_x s') = x_silent (s_x s) }.
Definition fine (rows : list row) : Prop := at_most (c_extents c) rows /\ (c_max c = 0 \/ length rows <= c_max c).
Definition ended {A} (m : M A) (s : st) (rows : list row) : Prop :=
  exists s' v, m s = Ret (s', v) /\
    ((exists a, v = inl a) /\ fine (seen (s_x s) ++ rows) /\ after rows s s' \/
     (v = inr SAbort /\ (sees look s' /\ (0 <= g_nodes (s_g s'))%Z)) /\ ~ fine (seen (s_x s) ++ rows)).

Lemma fine_app a b : fine (a ++ b) -> fine a.
Proof.
  intros [H1 H2]. split.
  - intros r. specialize (H1 r). unfold row in *. rewrite count_occ_app, Nat2Z.inj_add in H1. eapply Z.le_trans; [|exact H1]. lia.
  - destruct H2 as [H2|H2]; [now left|right]. rewrite app_length in H2. lia.
Qed.
Lemma going_bump s : going s -> going (bump s).
Proof. intros [G1 G2 G3 G4 G5]. constructor; [exact G1|cbn; lia|exact G3|exact G4|exact G5]. Qed.
Lemma after_nil s s' : going s' -> s_x s' = s_x s -> g_syms (s_g s') = g_syms (s_g s) -> g_out (s_g s') = g_out (s_g s) -> after [] s s'.
Proof. intros G E1 E2 E3. constructor; auto; rewrite E1; auto. now rewrite app_nil_r. Qed.
Lemma after_bump rows s s' : after rows (bump s) s' -> after rows s s'.
Proof. intros [A1 A2 A3 A4 A5 A6 A7 A8]. constructor; auto. Qed.
Lemma after_trans a b s s1 s2 : after a s s1 -> after b s1 s2 -> after (a ++ b) s s2.
Proof.
  intros [A1 A2 A3 A4 A5 A6 A7 A8] [B1 B2 B3 B4 B5 B6 B7 B8]. constructor; try congruence.
  - now rewrite B2, A2, last_app.
  - now rewrite B3, A3, app_assoc.
Qed.
Lemma ended_seq A B (m : M A) (f : A -> M B) s a b : ended m s a ->
  (forall x s1, after a s s1 -> fine (seen (s_x s1)) -> ended (f x) s1 b) -> ended (mbind m f) s (a ++ b).
Proof.
  intros (s1 & v & E & [((x & ->) & F & A1)|((-> & SS) & F)]) H.
  - destruct (H x s1 A1) as (s2 & w & E2 & K); [now rewrite (af_seen A1)|]. exists s2, w. split; [rewrite (mb_ret _ E); exact E2|].
    rewrite (af_seen A1), <- app_assoc in K. destruct K as [(K1 & K2 & K3)|K]; [left|now right].
    split; [exact K1|]. split; [exact K2|]. eapply after_trans; eauto.
  - exists s1, (inr SAbort). split; [now apply mb_exn|]. right. split; [now split|].
    intros Q. apply F. rewrite app_assoc in Q. eapply fine_app, Q.
Qed.
Lemma ended_ret A (a : A) s : going s -> fine (seen (s_x s)) -> ended (ret a) s [].
Proof.
  intros G F. exists s, (inl a). split; [reflexivity|]. left. split; [now exists a|]. rewrite app_nil_r. split; [exact F|].
  now apply after_nil.
Qed.
Lemma nop_symbol n nm fwd s : look nm = Some ENop -> nm <> str "loop_counter" -> 1 <= n -> going s ->
  exec_symbol (@gs_run c n) nm fwd s = Ret (bump s, inl tt).
Proof.
  intros H D L G. destruct n as [|n]; [lia|]. unfold exec_symbol.
  rewrite (@mb_ret _ _ (lookup nm) _ s s ENop); [|unfold lookup; now rewrite (go_sees G D), H].
  rewrite (@run_exec c n _ _ s Hlim (go_nodes G)). reflexivity.
Qed.
Lemma adds_fi rows : p_fi (adds rows (prover_new (c_extents c) None)) = None.
Proof.
  induction rows as [|r rows IH] using rev_ind; [reflexivity|]. rewrite adds_app. cbn.
  unfold add_row. rewrite IH. destruct (_ && _); reflexivity.
Qed.
Lemma add_rv rows r : let p := adds rows (prover_new (c_extents c) None) in
  add_row p r = (adds (rows ++ [r]) (prover_new (c_extents c) None), truth (adds (rows ++ [r]) (prover_new (c_extents c) None))).
Proof.
  intros p. rewrite adds_app. cbn. fold p. assert (F : p_fi p = None) by apply adds_fi.
  unfold add_row. rewrite F. destruct (_ && _); reflexivity.
Qed.

(* one change rung *)
Lemma hooks : exists N, 1 <= N /\ forall n s, N <= n -> sees look s -> (0 <= g_nodes (s_g s))%Z ->
  (exists s', exec_symbol (@gs_run c n) (str "conflict") true s = Ret (s', inr SAbort) /\ sees look s' /\ (0 <= g_nodes (s_g s'))%Z) /\
  (c_max c <> 0 -> exists s', exec_symbol (@gs_run c n) (str "toolong") true s = Ret (s', inr SAbort) /\ sees look s' /\ (0 <= g_nodes (s_g s'))%Z).
Proof.
  assert (K : forall nm, nm <> str "loop_counter" -> aborts c look nm -> exists N, forall n s, N <= n -> sees look s -> (0 <= g_nodes (s_g s))%Z ->
    exists s', exec_symbol (@gs_run c n) nm true s = Ret (s', inr SAbort) /\ sees look s' /\ (0 <= g_nodes (s_g s'))%Z).
  { intros nm D (e & N & E & H). exists N. intros n s L S G. destruct (H n s L S G) as (s' & R & S'). exists s'.
    split; [|split; [exact S'|destruct (run_inside R) as (_ & _ & _ & _ & _ & I); lia]].
    unfold exec_symbol. rewrite (@mb_ret _ _ (lookup nm) _ s s e); [exact R|]. unfold lookup. now rewrite (S nm D), E. }
  destruct (K (str "conflict")) as (N1 & H1); [discriminate|exact Hconf|].
  destruct (Nat.eq_dec (c_max c) 0) as [Z0|Z0].
  - exists (S N1). split; [lia|]. intros n s L S G. split; [apply H1; auto; lia|]. intros Q. now destruct Q.
  - destruct (K (str "toolong")) as (N2 & H2); [discriminate|now apply Hlong|].
    exists (S (N1 + N2)). split; [lia|]. intros n s L S G. split; [apply H1; auto; lia|]. intros _. apply H2; auto; lia.
Qed.

Lemma prove_one n N x g r bs : going (mkSt x g) -> fine (seen x) -> 1 <= N -> N <= n ->
  (forall n s, N <= n -> sees look s -> (0 <= g_nodes (s_g s))%Z ->
    (exists s', exec_symbol (@gs_run c n) (str "conflict") true s = Ret (s', inr SAbort) /\ sees look s' /\ (0 <= g_nodes (s_g s'))%Z) /\
    (c_max c <> 0 -> exists s', exec_symbol (@gs_run c n) (str "toolong") true s = Ret (s', inr SAbort) /\ sees look s' /\ (0 <= g_nodes (s_g s'))%Z)) ->
  exists s' v, prove_row c (@gs_run c n) bs (mkSt (set_r x r) g) = Ret (s', v) /\
    ((exists a, v = inl a) /\ fine (seen x ++ [r]) /\ after [r] (mkSt x g) s' \/
     (v = inr SAbort /\ (sees look s' /\ (0 <= g_nodes (s_g s'))%Z)) /\ ~ fine (seen x ++ [r])).
Proof.
  intros G F LN L HK. pose proof (go_proving G) as P. pose proof (go_p G) as PP. pose proof (go_max G) as PM. cbn [s_x] in P, PP, PM.
  unfold prove_row. unfold mbind at 1, getx at 1. cbn [s_x set_r x_proving x_p x_r]. rewrite P. cbn [negb].
  rewrite PP, add_rv. set (p' := adds (seen x ++ [r]) _).
  unfold mbind at 1, modx at 1. cbn [s_x s_g set_r x_mus x_r].
  set (x1 := set_seen (set_r x r) p' (x_mus x ++ [(r, bs)])).
  assert (S1 : seen x1 = seen x ++ [r]) by (unfold seen; cbn; now rewrite map_app).
  assert (G1 : going (mkSt x1 g)).
  { constructor; cbn [s_x s_g]; auto; try apply (go_nodes G); try exact (go_sees G). rewrite S1. reflexivity. }
  (* everyrow *)
  assert (EV : exists x2, exec_everyrow c (@gs_run c n) (mkSt x1 g) = Ret (bump (mkSt x2 g), inl tt) /\ x2 = set_silent x1 (x_silent x)).
  { unfold exec_everyrow. unfold mbind at 1, getx at 1. cbn [s_x].
    assert (T : forall b, exec_symbol (@gs_run c n) (str "everyrow") true (mkSt (set_silent x1 b) g) = Ret (bump (mkSt (set_silent x1 b) g), inl tt)).
    { intros b. apply nop_symbol; auto; [discriminate|lia|]. destruct G1 as [Q1 Q2 Q3 Q4 Q5]. constructor; auto. }
    destruct (c_everyrow_only c && negb (c_filter c)).
    - unfold mbind at 1, modx at 1. cbn [s_x s_g]. rewrite (mb_ret _ (T false)). unfold modx. cbn. eexists. split; reflexivity.
    - unfold mbind at 1, ret at 1. 
      assert (T' : exec_symbol (@gs_run c n) (str "everyrow") true (mkSt x1 g) = Ret (bump (mkSt x1 g), inl tt)).
      { apply nop_symbol; auto; [discriminate|lia]. }
      rewrite (mb_ret _ T'). unfold modx. cbn. eexists. split; reflexivity. }
  destruct EV as (x2 & EV & X2). rewrite (mb_ret _ EV). clear EV.
  set (s2 := bump (mkSt x2 g)).
  assert (S2 : seen (s_x s2) = seen x ++ [r]) by (cbn; rewrite X2; exact S1).
  assert (G2 : going s2).
  { apply going_bump. rewrite X2. destruct G1 as [Q1 Q2 Q3 Q4 Q5]. constructor; auto. }
  unfold mbind at 1, getx at 1.
  destruct (HK n s2 L (go_sees G2) (go_nodes G2)) as (KC & KL).
  rewrite (go_max G2). rewrite (go_p G2), adds_size, S2.
  destruct (negb (c_max c =? 0) && (c_max c <? length (seen x ++ [r]))) eqn:TL.
  { apply andb_true_iff in TL as [TL1 TL2]. apply negb_true_iff, Nat.eqb_neq in TL1. apply Nat.ltb_lt in TL2.
    destruct (KL TL1) as (s' & K & KS). rewrite (mb_exn _ K). exists s', (inr SAbort). split; [reflexivity|]. right. split; [now split|].
    intros [_ [Q|Q]]; lia. }
  assert (ML : c_max c = 0 \/ length (seen x ++ [r]) <= c_max c).
  { apply andb_false_iff in TL as [TL|TL]; [left|right]; [apply negb_false_iff, Nat.eqb_eq in TL; exact TL|apply Nat.ltb_ge in TL; exact TL]. }
  unfold mbind at 1, ret at 1. unfold mbind at 1, getx at 1.
  assert (RO : exists s3, (if at_rounds c (s_x s2) then exec_symbol (@gs_run c n) (str "rounds") true else ret tt) s2 = Ret (s3, inl tt) /\
    going s3 /\ s_x s3 = s_x s2 /\ g_syms (s_g s3) = g_syms (s_g s2) /\ g_out (s_g s3) = g_out (s_g s2)).
  { destruct (at_rounds c (s_x s2)).
    - exists (bump s2). split; [apply nop_symbol; auto; [discriminate|lia]|]. split; [now apply going_bump|]. repeat split.
    - exists s2. repeat split; auto; apply G2. }
  destruct RO as (s3 & RO & G3 & E1 & E2 & E3). rewrite (mb_ret _ RO). clear RO.
  pose proof (@adds_truth (seen x ++ [r]) _ Hext) as TR. fold p' in TR.
  destruct (truth p') eqn:T; cbn [negb].
  - unfold mbind at 1, ret at 1. unfold ret. exists s3, (inl (negb bs)). split; [reflexivity|]. left.
    split; [eexists; reflexivity|]. split; [split; [now apply TR|exact ML]|].
    constructor; auto; cbn [s_x s_g]; rewrite ?E1, ?E2, ?E3; cbn; try (rewrite X2; reflexivity); try reflexivity.
    unfold s2 in S2. cbn in S2. rewrite S2. reflexivity.
  - destruct (HK n s3 L (go_sees G3) (go_nodes G3)) as ((s' & K & KS) & _).
    rewrite (mb_exn _ K). exists s', (inr SAbort). split; [reflexivity|]. right. split; [now split|].
    intros [Q _]. apply TR in Q. discriminate.
Qed.

Lemma ring_ok N n cs : 1 <= N -> N <= n ->
  (forall n s, N <= n -> sees look s -> (0 <= g_nodes (s_g s))%Z ->
    (exists s', exec_symbol (@gs_run c n) (str "conflict") true s = Ret (s', inr SAbort) /\ sees look s' /\ (0 <= g_nodes (s_g s'))%Z) /\
    (c_max c <> 0 -> exists s', exec_symbol (@gs_run c n) (str "toolong") true s = Ret (s', inr SAbort) /\ sees look s' /\ (0 <= g_nodes (s_g s'))%Z)) ->
  forall bs s rows, going s -> fine (seen (s_x s)) -> rung (x_r (s_x s)) cs rows -> ended (ring c (@gs_run c n) cs bs) s rows.
Proof.
  intros LN L HK. induction cs as [|ch cs IH]; intros bs s rows G F R; inversion R; subst.
  - cbn [ring]. now apply ended_ret.
  - cbn [ring]. change (r' :: rows0) with ([r'] ++ rows0). apply ended_seq.
    + destruct s as [x g]. unfold ended. unfold ring_change. unfold mbind at 1, getx at 1. cbn [s_x] in *.
      match goal with E : row_mul_change _ _ = _ |- _ => rewrite E end.
      unfold mbind at 1, lift at 1. unfold mbind at 1, modx at 1. cbn [s_x s_g].
      eapply prove_one; eauto.
    + intros b s1 A F1. apply IH; [apply (af_going A)|exact F1|].
      rewrite (af_r A). cbn. assumption.
Qed.

(* --- evaluating to a block of changes --- *)
Record quiet (s s' : st) : Prop := mkQuiet {
  qu_sees : sees look s'; qu_nodes : (0 <= g_nodes (s_g s'))%Z;
  qu_x : s_x s' = set_dsyms (s_x s) (x_dsyms (s_x s'));
  qu_syms : g_syms (s_g s') = g_syms (s_g s); qu_out : g_out (s_g s') = g_out (s_g s) }.
Lemma quiet_refl s : sees look s -> (0 <= g_nodes (s_g s))%Z -> quiet s s.
Proof. intros H1 H2. constructor; auto. destruct s as [[] g]. reflexivity. Qed.
Lemma quiet_bump s : sees look s -> (0 <= g_nodes (s_g s))%Z -> quiet s (bump s).
Proof. clear Hlong. intros H1 H2. constructor; cbn; auto; [lia|]. destruct (s_x s). reflexivity. Qed.
Lemma quiet_trans a b d : quiet a b -> quiet b d -> quiet a d.
Proof.
  intros [A1 A2 A3 A4 A5] [B1 B2 B3 B4 B5]. constructor; auto; try congruence. rewrite B3, A3. reflexivity.
Qed.
Lemma quiet_dsyms s d : (forall n, n <> str "loop_counter" -> sym_lookup d n = sym_lookup (x_dsyms (s_x s)) n) ->
  sees look s -> (0 <= g_nodes (s_g s))%Z -> quiet s (mkSt (set_dsyms (s_x s) d) (s_g s)).
Proof.
  intros D S G. constructor; cbn; auto. intros n H. rewrite <- (S n H). unfold find_sym. cbn. now rewrite (D n H).
Qed.
Lemma after_quiet s s' : going s -> quiet s s' -> after [] s s'.
Proof.
  intros G [Q1 Q2 Q3 Q4 Q5]. constructor; auto; try (rewrite Q3; reflexivity).
  - constructor; auto; rewrite Q3; [apply (go_proving G)|apply (go_max G)|apply (go_p G)].
  - rewrite Q3, app_nil_r. reflexivity.
Qed.
Lemma define_ctr z s : sees look s -> (0 <= g_nodes (s_g s))%Z ->
  exists s', define loop_counter (EInt z) s = Ret (s', inl tt) /\ quiet s s'.
Proof.
  intros S G. unfold define, modx. eexists. split; [reflexivity|]. apply quiet_dsyms; auto.
  intros n D. rewrite lookup_define. rewrite text_eqb_false; auto.
Qed.
Definition reads {A} (m : M A) (s : st) (a : A) : Prop := exists s', m s = Ret (s', inl a) /\ quiet s s'.
Lemma reads_seq A B (m : M A) (f : A -> M B) s a b : reads m s a ->
  (forall s1, quiet s s1 -> reads (f a) s1 b) -> reads (mbind m f) s b.
Proof.
  intros (s1 & E & Q) H. destruct (H s1 Q) as (s2 & E2 & Q2). exists s2. split; [now rewrite (mb_ret _ E)|]. eapply quiet_trans; eauto.
Qed.
Lemma reads_ret A (a : A) s : sees look s -> (0 <= g_nodes (s_g s))%Z -> reads (ret a) s a.
Proof. intros S G. exists s. split; [reflexivity|now apply quiet_refl]. Qed.
Lemma reads_bump A (m : M A) s a : sees look s -> (0 <= g_nodes (s_g s))%Z -> reads m (bump s) a -> exists s', m (bump s) = Ret (s', inl a) /\ quiet s s'.
Proof. clear Hlong. intros S G (s1 & E & Q). exists s1. split; auto. eapply quiet_trans; [now apply quiet_bump|exact Q]. Qed.
Lemma sees_bump s : sees look s -> sees look (bump s).
Proof. intros H. exact H. Qed.
Lemma nodes_bump s : (0 <= g_nodes (s_g s))%Z -> (0 <= g_nodes (s_g (bump s)))%Z.
Proof. clear Hlong. cbn. lia. Qed.
Lemma reads_lookup n e s : n <> str "loop_counter" -> look n = Some e -> sees look s -> (0 <= g_nodes (s_g s))%Z -> reads (lookup n) s e.
Proof. intros D E S G. exists s. split; [|now apply quiet_refl]. unfold lookup. now rewrite (S n D), E. Qed.
Lemma reads_scoped A n (m : M A) s a : n = str "loop_counter" -> reads m s a -> reads (scoped n m) s a.
Proof.
  intros -> (s1 & E & Q). unfold reads, scoped, finally. rewrite E. eexists. split; [reflexivity|].
  eapply quiet_trans; [exact Q|]. apply quiet_dsyms; [|apply (qu_sees Q)|apply (qu_nodes Q)].
  intros m0 D. destruct (find_sym s _); [rewrite lookup_define, text_eqb_false; auto|rewrite lookup_undefine; auto].
Qed.

Definition pn_prop (e : expr) (x : list change) : Prop :=
  exists N, forall fuel s, N <= fuel -> sees look s -> (0 <= g_nodes (s_g s))%Z -> reads (gs_run c fuel (QPn e)) s x.
Definition repl_prop (e : expr) (x y : list change) : Prop :=
  exists N, forall fuel s, N <= fuel -> sees look s -> (0 <= g_nodes (s_g s))%Z -> reads (gs_run c fuel (QRepl e x)) s y.
Lemma reads_pn n e s x : sees look s -> (0 <= g_nodes (s_g s))%Z -> reads (pn_impl (@gs_run c n) e) (bump s) x -> reads (gs_run c (S n) (QPn e)) s x.
Proof. clear Hlong. intros S G H. unfold reads. rewrite run_pn; auto. now apply reads_bump. Qed.
Lemma reads_repl n e m s x : sees look s -> (0 <= g_nodes (s_g s))%Z -> reads (repl_impl (@gs_run c n) e m) (bump s) x -> reads (gs_run c (S n) (QRepl e m)) s x.
Proof. clear Hlong. intros S G H. unfold reads. rewrite run_repl; auto. now apply reads_bump. Qed.
Lemma reads_lit n z s : 1 <= n -> sees look s -> (0 <= g_nodes (s_g s))%Z -> reads (gs_run c n (QInt (EInt z))) s z.
Proof. clear Hlong.
  intros L S G. destruct n as [|n]; [lia|]. unfold reads. rewrite run_int; auto.
  exists (bump s). split; [reflexivity|now apply quiet_bump].
Qed.

Lemma loop_pn e x N : (forall fuel s, N <= fuel -> sees look s -> (0 <= g_nodes (s_g s))%Z -> reads (gs_run c fuel (QPn e)) s x) ->
  forall j n i acc fuel s, Z.to_nat (n - i + 1) = j -> N + j + 1 <= fuel -> sees look s -> (0 <= g_nodes (s_g s))%Z ->
  reads (gs_run c fuel (QLoopPn n i e acc)) s (acc ++ concat (repeat x j)).
Proof. clear Hlong.
  intros H. induction j as [|j IH]; intros n i acc fuel s J L S G; (destruct fuel as [|fuel]; [lia|]).
  - change (gs_run c (Datatypes.S fuel) (QLoopPn n i e acc)) with (step c (@gs_run c fuel) (QLoopPn n i e acc)).
    unfold step. destruct (Z.leb_spec i n); [lia|]. cbn. rewrite app_nil_r. now apply reads_ret.
  - change (gs_run c (Datatypes.S fuel) (QLoopPn n i e acc)) with (step c (@gs_run c fuel) (QLoopPn n i e acc)).
    unfold step. destruct (Z.leb_spec i n); [|lia].
    apply reads_seq with tt; [apply define_ctr; auto|]. intros s1 Q1.
    apply reads_seq with (Some x).
    + destruct (H fuel s1) as (s2 & E2 & Q2); [lia|apply Q1|apply Q1|].
      exists s2. split; [|exact Q2]. unfold catch. rewrite (mb_ret _ E2). reflexivity.
    + intros s2 Q2. cbn [repeat concat]. rewrite app_assoc. apply IH; [lia|lia|apply Q2|apply Q2].
Qed.

Theorem block_pn : (forall k e x, means look k e x -> k = true -> pn_prop e x) /\ (forall e x y, replaces look e x y -> repl_prop e x y).
Proof. clear Hlong.
  apply means_replaces_ind.
  - discriminate.
  - intros k cs nm _. exists 1. intros [|n] s L S G; [lia|]. apply reads_pn; auto. apply reads_ret; auto. now apply nodes_bump.
  - intros k a b x y _ IHa _ IHb K. destruct (IHa K) as (Na & Ha), (IHb K) as (Nb & Hb). exists (Datatypes.S (Na + Nb)).
    intros [|n] s L S G; [lia|]. apply reads_pn; auto. cbn [pn_impl].
    eapply reads_seq; [apply Ha; [lia|exact S|now apply nodes_bump]|]. intros s1 Q1. cbv beta.
    eapply reads_seq; [apply Hb; [lia|apply Q1|apply Q1]|]. intros s2 Q2. apply reads_ret; apply Q2.
  - intros k n a x D _ IH K. destruct (IH K) as (N & H). exists (N + Z.to_nat n + 3).
    intros [|f] s L S G; [lia|]. apply reads_pn; auto. cbn [pn_impl]. destruct (Z.eqb_spec n (-1)); [contradiction|].
    apply reads_scoped; [reflexivity|]. change (concat (repeat x (Z.to_nat n))) with ([] ++ concat (repeat x (Z.to_nat n))).
    eapply loop_pn; [exact H|f_equal; lia|lia|exact S|now apply nodes_bump].
  - discriminate.
  - discriminate.
  - intros k a x _ IH K. destruct (IH K) as (N & H). exists (Datatypes.S N).
    intros [|n] s L S G; [lia|]. apply reads_pn; auto. cbn [pn_impl].
    eapply reads_seq; [apply H; [lia|exact S|now apply nodes_bump]|]. intros s1 Q1. apply reads_ret; apply Q1.
  - intros k n e x D E _ IH K. destruct (IH K) as (N & H). exists (Datatypes.S N).
    intros [|f] s L S G; [lia|]. apply reads_pn; auto. cbn [pn_impl].
    eapply reads_seq; [apply (reads_lookup D E); [exact S|now apply nodes_bump]|]. intros s1 Q1. apply H; [lia|apply Q1|apply Q1].
  - intros k b r x y _ IHb _ IHr _. destruct (IHb eq_refl) as (Nb & Hb), IHr as (Nr & Hr). exists (Datatypes.S (Nb + Nr)).
    intros [|n] s L S G; [lia|]. apply reads_pn; auto. cbn [pn_impl]. unfold merge_pn.
    eapply reads_seq; [apply Hb; [lia|exact S|now apply nodes_bump]|]. intros s1 Q1. apply Hr; [lia|apply Q1|apply Q1].
  - intros cs nm x y O. exists 1. intros [|n] s L S G; [lia|]. apply reads_repl; auto. cbn [repl_impl].
    exists (bump s). split; [unfold lift; now rewrite (overlay_do O)|apply quiet_refl; [exact S|now apply nodes_bump]].
  - intros a cs off x y _ IH O. destruct (IH eq_refl) as (N & H). exists (Datatypes.S (Datatypes.S N)).
    intros [|n] s L S G; [lia|]. apply reads_repl; auto. cbn [repl_impl].
    eapply reads_seq; [apply H; [lia|exact S|now apply nodes_bump]|]. intros s1 Q1. cbv beta.
    eapply reads_seq; [apply reads_lit; [lia|apply Q1|apply Q1]|]. intros s2 Q2. cbv beta.
    exists s2. split; [unfold lift; now rewrite (overlay_at_do O)|apply quiet_refl; apply Q2].
  - intros a cs off x y _ IH O. destruct (IH eq_refl) as (N & H). exists (Datatypes.S (Datatypes.S N)).
    intros [|n] s L S G; [lia|]. apply reads_repl; auto. cbn [repl_impl].
    eapply reads_seq; [apply H; [lia|exact S|now apply nodes_bump]|]. intros s1 Q1. cbv beta.
    eapply reads_seq; [apply reads_lit; [lia|apply Q1|apply Q1]|]. intros s2 Q2. cbv beta.
    exists s2. split; [unfold lift; now rewrite (overlay_end_do O)|apply quiet_refl; apply Q2].
  - intros n e x y D E _ (N & H). exists (Datatypes.S N).
    intros [|f] s L S G; [lia|]. apply reads_repl; auto. cbn [repl_impl].
    eapply reads_seq; [apply (reads_lookup D E); [exact S|now apply nodes_bump]|]. intros s1 Q1. apply H; [lia|apply Q1|apply Q1].
Qed.

(* --- types --- *)
Definition untyped (e : expr) : Prop := exists N, forall fuel s, N <= fuel -> sees look s -> gs_run c fuel (QType e) s = Ret (s, inl TyNone).
Lemma lookup_see n e s : n <> str "loop_counter" -> look n = Some e -> sees look s -> lookup n s = Ret (s, inl e).
Proof. intros D E S. unfold lookup. now rewrite (S n D), E. Qed.
Lemma means_untyped k e x : means look k e x -> untyped e.
Proof.
  induction 1.
  - exists 1. intros [|n] s L S; [lia|]. reflexivity.
  - exists 1. intros [|n] s L S; [lia|]. reflexivity.
  - destruct IHmeans2 as (N & IH). exists (Datatypes.S N). intros [|n] s L S; [lia|]. rewrite run_type. cbn [type_impl]. apply IH; auto. lia.
  - exists 1. intros [|f] s L S; [lia|]. reflexivity.
  - destruct IHmeans as (N & IH). exists (N + 2). intros [|[|f]] s L S; [lia|lia|]. rewrite run_type. cbn [type_impl]. unfold both_int.
    rewrite (@mb_ret _ _ _ _ s s false); [reflexivity|].
    rewrite (@mb_ret _ _ _ _ s s TyInt); [|now rewrite run_type].
    rewrite (@mb_ret _ _ _ _ s s TyNone); [reflexivity|]. apply IH; auto. lia.
  - destruct IHmeans as (N & IH). exists (N + 2). intros [|f] s L S; [lia|]. rewrite run_type. cbn [type_impl]. unfold both_int.
    rewrite (@mb_ret _ _ _ _ s s false); [reflexivity|].
    rewrite (@mb_ret _ _ _ _ s s TyNone); [reflexivity|]. apply IH; auto. lia.
  - exists 1. intros [|f] s L S; [lia|]. reflexivity.
  - destruct IHmeans as (N & IH). exists (Datatypes.S N). intros [|f] s L S; [lia|]. rewrite run_type. cbn [type_impl].
    rewrite (mb_ret _ (lookup_see H H0 S)). apply IH; auto. lia.
  - exists 1. intros [|f] s L S; [lia|]. reflexivity.
Qed.

(* --- executing --- *)
Lemma rung_app r a b rows : rung r (a ++ b) rows -> exists ra rb, rows = ra ++ rb /\ rung r a ra /\ rung (last ra r) b rb.
Proof.
  revert r rows. induction a as [|ch a IH]; intros r rows H.
  - exists [], rows. repeat split; auto. constructor.
  - cbn [app] in H. inversion H; subst. destruct (IH _ _ H5) as (ra & rb & -> & A & B).
    exists (r' :: ra), rb. repeat split; [econstructor; eauto|].
    replace (last (r' :: ra) r) with (last ra r'); [exact B|]. change (r' :: ra) with ([r'] ++ ra). now rewrite last_app.
Qed.
Definition dir (fwd : bool) (x : list change) : list change := if fwd then x else rev x.
Lemma dir_app fwd x y : dir fwd (x ++ y) = if fwd then x ++ y else rev y ++ rev x.
Proof. destruct fwd; cbn; auto. apply rev_app_distr. Qed.
Lemma rev_concat_repeat A (x : list A) n : rev (concat (repeat x n)) = concat (repeat (rev x) n).
Proof.
  assert (C : forall (y : list A) n, concat (repeat y n) ++ y = y ++ concat (repeat y n)).
  { intros y m. induction m as [|m IH]; cbn; [now rewrite app_nil_r|]. now rewrite <- app_assoc, IH. }
  induction n as [|n IH]; cbn; [reflexivity|]. now rewrite rev_app_distr, IH, C.
Qed.
Lemma dir_repeat fwd x n : dir fwd (concat (repeat x n)) = concat (repeat (dir fwd x) n).
Proof. destruct fwd; [reflexivity|]. apply rev_concat_repeat. Qed.
Lemma dir_rev fwd x : dir fwd (rev x) = dir (negb fwd) x.
Proof. destruct fwd; cbn; auto. apply rev_involutive. Qed.

Lemma ended_run n e fwd s rows : going s -> ended (exec_impl c (@gs_run c n) e fwd) (bump s) rows -> ended (gs_run c (S n) (QExec e fwd)) s rows.
Proof.
  intros G (s' & v & E & K). exists s', v. rewrite (@run_exec c n e fwd s Hlim (go_nodes G)). split; [exact E|].
  change (seen (s_x (bump s))) with (seen (s_x s)) in K. destruct K as [(K1 & K2 & K3)|K]; [left|now right].
  split; [exact K1|]. split; [exact K2|]. now apply after_bump.
Qed.
Lemma ended_reads A B (m : M A) (f : A -> M B) s a rows : going s -> fine (seen (s_x s)) -> reads m s a ->
  (forall s1, going s1 -> quiet s s1 -> x_r (s_x s1) = x_r (s_x s) -> fine (seen (s_x s1)) -> ended (f a) s1 rows) -> ended (mbind m f) s rows.
Proof.
  intros G F (s1 & E & Q) H. change rows with ([] ++ rows).
  pose proof (after_quiet G Q) as AF.
  assert (S1 : seen (s_x s1) = seen (s_x s)) by (rewrite (af_seen AF); apply app_nil_r).
  destruct (H s1 (af_going AF) Q (af_r AF)) as (s2 & v & E2 & K); [now rewrite S1|].
  exists s2, v. split; [now rewrite (mb_ret _ E)|]. rewrite S1 in K. destruct K as [(K1 & K2 & K3)|K]; [left|now right].
  split; [exact K1|]. split; [exact K2|]. exact (after_trans AF K3).
Qed.
Definition exec_prop (e : expr) (x : list change) : Prop := forall fwd, exists N, forall fuel s rows, N <= fuel ->
  going s -> fine (seen (s_x s)) -> rung (x_r (s_x s)) (dir fwd x) rows -> ended (gs_run c fuel (QExec e fwd)) s rows.

Lemma loop_exec e fwd y N : (forall fuel s rows, N <= fuel ->
    going s -> fine (seen (s_x s)) -> rung (x_r (s_x s)) y rows -> ended (gs_run c fuel (QExec e fwd)) s rows) ->
  forall j n i fuel s rows, n <> (-1)%Z -> Z.to_nat (n - i + 1) = j -> N + j + 1 <= fuel -> going s -> fine (seen (s_x s)) ->
  rung (x_r (s_x s)) (concat (repeat y j)) rows -> ended (gs_run c fuel (QLoop n i e fwd)) s rows.
Proof.
  intros H. induction j as [|j IH]; intros n i fuel s rows D J L G F R; (destruct fuel as [|fuel]; [lia|]).
  - change (gs_run c (S fuel) (QLoop n i e fwd)) with (step c (@gs_run c fuel) (QLoop n i e fwd)).
    unfold step. destruct (Z.eqb_spec n (-1)); [contradiction|]. destruct (Z.leb_spec i n); [lia|]. cbn [orb].
    inversion R; subst. now apply ended_ret.
  - change (gs_run c (S fuel) (QLoop n i e fwd)) with (step c (@gs_run c fuel) (QLoop n i e fwd)).
    unfold step. destruct (Z.eqb_spec n (-1)); [contradiction|]. destruct (Z.leb_spec i n); [|lia]. cbn [orb].
    eapply ended_reads; [exact G|exact F|apply define_ctr; [apply (go_sees G)|apply (go_nodes G)]|].
    intros s1 G1 Q1 R1 F1. cbn [repeat concat] in R. apply rung_app in R as (ra & rb & -> & Ra & Rb).
    apply ended_seq; [apply H; [lia|exact G1|exact F1|now rewrite R1]|].
    intros _ s2 A2 F2. apply IH; [exact D|lia|lia|apply (af_going A2)|exact F2|]. rewrite (af_r A2), R1. exact Rb.
Qed.
Lemma ended_catch A (m : M A) s rows h : (forall s, h SAbort s = Ret (s, inr SAbort)) -> ended m s rows -> ended (catch m h) s rows.
Proof.
  intros Hh (s' & v & E & K). exists s', v. split; [|exact K]. unfold catch. rewrite E.
  destruct K as [((a & ->) & _)|((-> & _) & _)]; [reflexivity|apply Hh].
Qed.
Lemma ended_scoped A n (m : M A) s rows : n = str "loop_counter" -> ended m s rows -> ended (scoped n m) s rows.
Proof.
  intros -> (s1 & v & E & K). unfold ended, scoped, finally. rewrite E. eexists _, v. split; [reflexivity|].
  assert (QD : sees look s1 -> (0 <= g_nodes (s_g s1))%Z -> quiet s1 (mkSt (set_dsyms (s_x s1)
     (match find_sym s (str "loop_counter") with Some v => sym_define (x_dsyms (s_x s1)) (str "loop_counter") v
      | None => sym_undefine (x_dsyms (s_x s1)) (str "loop_counter") end)) (s_g s1))).
  { intros S1 N1. apply quiet_dsyms; auto.
    intros m0 D. destruct (find_sym s _); [rewrite lookup_define, text_eqb_false; auto|rewrite lookup_undefine; auto]. }
  destruct K as [(K1 & K2 & K3)|((K & K1 & K2) & K3)]; [left|right].
  - split; [exact K1|]. split; [exact K2|].
    rewrite <- (app_nil_r rows). eapply after_trans; [exact K3|]. pose proof (af_going K3) as G1. apply after_quiet; [exact G1|].
    apply QD; [apply (go_sees G1)|apply (go_nodes G1)].
  - split; [|exact K3]. split; [exact K|]. split; [apply (qu_sees (QD K1 K2))|exact K2].
Qed.
Lemma repeat_exec n a x : n <> (-1)%Z -> exec_prop a x -> exec_prop (ERepeat n a) (concat (repeat x (Z.to_nat n))).
Proof.
  intros D H fwd. destruct (H fwd) as (N & HN). exists (N + Z.to_nat n + 3). intros [|f] s rows L G F R; [lia|].
  apply ended_run; [exact G|]. cbn [exec_impl]. apply ended_scoped; [reflexivity|]. apply ended_catch; [reflexivity|].
  eapply loop_exec; [exact HN|exact D|reflexivity|lia|now apply going_bump|exact F|].
  rewrite dir_repeat in R. replace (n - 1 + 1)%Z with n by lia. exact R.
Qed.
Lemma to_int_id n : (int_min <= n <= int_max)%Z -> to_int n = n.
Proof. unfold int_min, int_max, to_int. intros H. rewrite Z.mod_small; lia. Qed.

Theorem static_exec k e x : means look k e x -> exec_prop e x.
Proof.
  destruct hooks as (N0 & N0' & HK).
  induction 1; intros fwd.
  - exists 1. intros [|f] s rows L G F R; [lia|]. apply ended_run; [exact G|]. replace rows with (@nil row).
    + apply ended_ret; [now apply going_bump|exact F].
    + destruct fwd; cbn in R; now inversion R.
  - exists (S N0). intros [|f] s rows L G F R; [lia|]. apply ended_run; [exact G|]. cbn [exec_impl].
    eapply ring_ok; [exact N0'|lia|exact HK|now apply going_bump|exact F|exact R].
  - destruct (IHmeans1 fwd) as (Na & Ha), (IHmeans2 fwd) as (Nb & Hb). exists (S (Na + Nb)). intros [|f] s rows L G F R; [lia|].
    apply ended_run; [exact G|]. cbn [exec_impl]. rewrite dir_app in R. destruct fwd.
    + apply rung_app in R as (ra & rb & -> & Ra & Rb).
      apply ended_seq; [apply Ha; [lia|now apply going_bump|exact F|exact Ra]|].
      intros _ s1 A1 F1. apply Hb; [lia|apply (af_going A1)|exact F1|]. rewrite (af_r A1). exact Rb.
    + apply rung_app in R as (ra & rb & -> & Ra & Rb).
      apply ended_seq; [apply Hb; [lia|now apply going_bump|exact F|exact Ra]|].
      intros _ s1 A1 F1. apply Ha; [lia|apply (af_going A1)|exact F1|]. rewrite (af_r A1). exact Rb.
  - now apply repeat_exec.
  - destruct (repeat_exec H IHmeans fwd) as (N & HN). destruct (means_untyped H1) as (Nt & Ht).
    exists (N + Nt + 3). intros [|f] s rows L G F R; [lia|]. apply ended_run; [exact G|]. cbn [exec_impl].
    destruct f as [|f]; [lia|].
    assert (B : both_int (@gs_run c (S f)) (EInt n) a (bump s) = Ret (bump s, inl false)).
    { unfold both_int. rewrite (@mb_ret _ _ _ _ (bump s) (bump s) TyInt); [|now rewrite run_type].
      rewrite (@mb_ret _ _ _ _ (bump s) (bump s) TyNone); [reflexivity|]. apply Ht; [lia|apply (go_sees G)]. }
    eapply ended_reads; [now apply going_bump|exact F|exists (bump s); split; [exact B|]|].
    { apply quiet_refl; [apply (go_sees G)|]. apply nodes_bump, (go_nodes G). }
    intros s1 G1 Q1 R1 F1. cbv beta iota.
    eapply ended_reads; [exact G1|exact F1|exists s1; split; [reflexivity|]|].
    { apply quiet_refl; [apply (go_sees G1)|apply (go_nodes G1)]. }
    intros s2 G2 Q2 R2 F2. cbv beta iota.
    eapply ended_reads; [exact G2|exact F2|apply reads_lit; [lia|apply (go_sees G2)|apply (go_nodes G2)]|].
    intros s3 G3 Q3 R3 F3. cbv beta. rewrite to_int_id; auto.
    apply HN; [lia|exact G3|exact F3|]. rewrite R3, R2, R1. exact R.
  - destruct (repeat_exec H IHmeans fwd) as (N & HN). destruct (means_untyped H1) as (Nt & Ht).
    exists (N + Nt + 3). intros [|f] s rows L G F R; [lia|]. apply ended_run; [exact G|]. cbn [exec_impl].
    destruct f as [|f]; [lia|].
    assert (TA : forall s, sees look s -> gs_run c (S f) (QType a) s = Ret (s, inl TyNone)) by (intros t St; apply Ht; [lia|exact St]).
    assert (B : both_int (@gs_run c (S f)) a (EInt n) (bump s) = Ret (bump s, inl false)).
    { unfold both_int. rewrite (@mb_ret _ _ _ _ (bump s) (bump s) TyNone); [reflexivity|]. apply TA, (go_sees G). }
    eapply ended_reads; [now apply going_bump|exact F|exists (bump s); split; [exact B|]|].
    { apply quiet_refl; [apply (go_sees G)|]. apply nodes_bump, (go_nodes G). }
    intros s1 G1 Q1 R1 F1. cbv beta iota.
    eapply ended_reads; [exact G1|exact F1|exists s1; split; [apply TA, (go_sees G1)|]|].
    { apply quiet_refl; [apply (go_sees G1)|apply (go_nodes G1)]. }
    intros s2 G2 Q2 R2 F2. cbv beta iota.
    eapply ended_reads; [exact G2|exact F2|exists s2; split; [reflexivity|]|].
    { apply quiet_refl; [apply (go_sees G2)|apply (go_nodes G2)]. }
    intros s3 G3 Q3 R3 F3. cbv beta iota.
    eapply ended_reads; [exact G3|exact F3|apply reads_lit; [lia|apply (go_sees G3)|apply (go_nodes G3)]|].
    intros s4 G4 Q4 R4 F4. cbv beta. rewrite to_int_id; auto.
    apply HN; [lia|exact G4|exact F4|]. rewrite R4, R3, R2, R1. exact R.
  - destruct (IHmeans (negb fwd)) as (N & HN). exists (S N). intros [|f] s rows L G F R; [lia|]. apply ended_run; [exact G|].
    cbn [exec_impl]. apply HN; [lia|now apply going_bump|exact F|]. rewrite dir_rev in R. exact R.
  - destruct (IHmeans fwd) as (N & HN). exists (S N). intros [|f] s rows L G F R; [lia|]. apply ended_run; [exact G|].
    cbn [exec_impl]. unfold exec_symbol. pose proof (going_bump G) as G'.
    eapply ended_reads; [exact G'|exact F|apply (reads_lookup H H0); [apply (go_sees G')|apply (go_nodes G')]|].
    intros s1 G1 Q1 R1 F1. apply HN; [lia|exact G1|exact F1|]. rewrite R1. exact R.
  - destruct block_pn as (BP & BR). destruct (BP _ _ _ H eq_refl) as (N1 & H1), (BR _ _ _ H0) as (N2 & H2).
    exists (S (S (N0 + N1 + N2))). intros [|f] s rows L G F R; [lia|]. apply ended_run; [exact G|]. cbn [exec_impl].
    pose proof (going_bump G) as G'.
    eapply ended_reads; [exact G'|exact F| |].
    { unfold merge_pn. eapply reads_seq; [apply H1; [lia|apply (go_sees G')|apply (go_nodes G')]|].
      intros s1 Q1. apply H2; [lia|apply Q1|apply Q1]. }
    intros s1 G1 Q1 R1 F1. cbv beta. destruct f as [|f]; [lia|]. apply ended_run; [exact G1|]. cbn [exec_impl].
    eapply ring_ok; [exact N0'|lia|exact HK|now apply going_bump|exact F1|]. 
    change (x_r (s_x (bump s1))) with (x_r (s_x s1)). rewrite R1. exact R.
Qed.
End Static.
