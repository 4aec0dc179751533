(* Props_Gsiril.v - C58 to C63: the gsiril proof program. *)
From Verif Require Import Base M_Bell M_Change M_Row M_Method M_Proof M_Dim M_Names M_Library M_Gsiril Spec_Row P_Row P_Bell Spec_Proof P_Proof P_Proof2 P_Gsiril Spec_Gsiril P_Gsiril2 P_Gsiril3 P_Gsiril4 P_Gsiril5 P_Gsiril6 Props_Method.
Set Implicit Arguments.
Unset Strict Implicit.
Open Scope nat_scope.

(* --- examples: six bells, one extent, the standard definitions --- *)
Definition show6 (r : row) : option text := Some (map (fun b => ascii_of_nat (49 + b mod 6)) r).
Definition gs_cfg (mn mx : nat) (lim : Z) : cfg :=
  mkCfg 6 (rounds 6) 1 mn mx lim false false 0 false default_symtab show6 (fun _ => 0%Z) (fun _ => Ret None).
Definition gs_syms (mn mx : nat) : symbols :=
  init_file ++ [(str "music", EFn FMusic); (str "max_length", EInt (Z.of_nat mx)); (str "min_length", EInt (Z.of_nat mn));
                (str "p", EPn (mch plain_bob) []); (str "bob", EPn [mkChange 6 [1; 4]] [])].
Definition gs_start (mn mx : nat) : glob := mkGlob (gs_syms mn mx) 0 [].
Definition outcome_of (o : outcome (verdict * bool * ctx * glob)) : option (verdict * bool * nat * text) :=
  match o with Ret (v, fl, x, g) => Some (v, fl, length (seen x), g_out g) | _ => None end.

(* ===== C58: the verdict of a proof tells the truth about the rows proved ===== *)
(* [seen x] are the rows proved, in order; nothing is assumed of the program or the symbols *)
Theorem C58_verdict c fuel e g v fl x g' : (0 <= c_extents c)%Z -> prove_stmt c fuel e g = Ret (v, fl, x, g') ->
  exists r0, mul (rounds (c_bells c)) (c_rounds c) = Ret r0 /\
    let rows := seen x in let comes_round := last rows r0 = c_rounds c in
    follows r0 rows /\
    (v = VTrue -> at_most (c_extents c) rows /\ comes_round /\ (c_min c = 0 \/ c_min c <= length rows)) /\
    (v = VTooShort -> at_most (c_extents c) rows /\ comes_round /\ length rows < c_min c) /\
    (v = VNotRound -> at_most (c_extents c) rows /\ ~ comes_round) /\
    (v = VFalse -> ~ at_most (c_extents c) rows).
Proof.
  intros Hext H. apply prove_grows in H as (r0 & H0 & Hp & He & Hf & Hv & _). exists r0. split; [exact H0|].
  cbv zeta. split; [exact Hf|]. rewrite <- He.
  assert (K : v <> VStopped -> v <> VAborted -> v = verdict_of c x) by (intuition congruence).
  assert (T : truth (x_p x) = true <-> at_most (c_extents c) (seen x)) by (rewrite Hp; now apply adds_truth).
  assert (S0 : p_size (x_p x) = length (seen x)) by (rewrite Hp; apply adds_size).
  assert (R : row_eqb (ending x) (c_rounds c) = true <-> ending x = c_rounds c) by apply row_eqb_eq.
  unfold verdict_of, state in K. fold (ending x) in K. rewrite S0 in K.
  destruct (truth (x_p x)); [|
    assert (~ at_most (c_extents c) (seen x)) by (intros Q; apply T in Q; discriminate);
    refine (conj _ (conj _ (conj _ _))); intros ->; try (specialize (K ltac:(discriminate) ltac:(discriminate)); discriminate); assumption].
  assert (A : at_most (c_extents c) (seen x)) by now apply T.
  destruct (row_eqb (ending x) (c_rounds c)).
  - assert (E : ending x = c_rounds c) by now apply R.
    destruct (Nat.eqb_spec (c_min c) 0); cbn [negb andb] in K; [|destruct (Nat.ltb_spec (length (seen x)) (c_min c))];
    refine (conj _ (conj _ (conj _ _))); intros ->; try (specialize (K ltac:(discriminate) ltac:(discriminate)); discriminate); auto.
  - assert (E : ending x <> c_rounds c) by (intros Q; apply R in Q; discriminate).
    refine (conj _ (conj _ (conj _ _))); intros ->; try (specialize (K ltac:(discriminate) ltac:(discriminate)); discriminate); auto.
Qed.
Print Assumptions C58_verdict.

(* the program fails (its exit status) unless the touch is true, or a break outside any loop has stopped it *)
Theorem C58_failure c fuel e g v fl x g' : prove_stmt c fuel e g = Ret (v, fl, x, g') ->
  (fl = true <-> v <> VTrue /\ v <> VStopped).
Proof. intros H. apply prove_grows in H as (r0 & _ & _ & _ & _ & _ & H). exact H. Qed.
Print Assumptions C58_failure.

(* which it does without any proof of truth *)
Theorem C58_break_refuted : exists c e g x g' r0, prove_stmt c 10 e g = Ret (VStopped, false, x, g') /\
  mul (rounds (c_bells c)) (c_rounds c) = Ret r0 /\ last (seen x) r0 <> c_rounds c.
Proof.
  exists (gs_cfg 0 0 0), (EList (ESym (str "p")) (EExn SBreak)), (gs_start 0 0).
  match goal with |- exists x g' r0, ?o = _ /\ _ => let w := eval vm_compute in o in
    match w with Ret (_, _, ?x, ?g') => exists x, g', (rounds 6) end end.
  split; [vm_compute; reflexivity|]. split; [reflexivity|]. vm_compute. discriminate.
Qed.
Print Assumptions C58_break_refuted.

Example C58_ex_true : exists x g', prove_stmt (gs_cfg 0 0 0) 20 (ERepeat 5 (ESym (str "p"))) (gs_start 0 0) = Ret (VTrue, false, x, g') /\
  length (seen x) = 60 /\ last (seen x) [] = rounds 6.
Proof.
  match goal with |- exists x g', ?o = _ /\ _ => let w := eval vm_compute in o in
    match w with Ret (_, _, ?x, ?g') => exists x, g' end end.
  split; [vm_cast_no_check (@eq_refl (outcome (verdict * bool * ctx * glob))
    (prove_stmt (gs_cfg 0 0 0) 20 (ERepeat 5 (ESym (str "p"))) (gs_start 0 0)))|]. split; vm_compute; reflexivity.
Qed.

(* ===== C59: asking a question, or writing a line, changes nothing that is proved ===== *)
(* Executing a conditional is executing the branch chosen, in a state in which the proof (the rows so
   far, the current row, the symbols defined in it) and the symbols of the session are as they
   were: whatever the test does - ring rows, assign, end the proof, abort - has no effect. *)
Theorem C59_test c fuel t a b s s' v : gs_run c (S fuel) (QExec (EIf t a b) true) s = Ret (s', v) ->
  exists (ok : bool) s1,
    (s_x s1 = s_x s /\ g_syms (s_g s1) = g_syms (s_g s) /\ (exists o, g_out (s_g s1) = g_out (s_g s) ++ o) /\
     (can_write (s_x s) = false -> g_out (s_g s1) = g_out (s_g s))) /\
    (if ok then gs_run c fuel (QExec a true) s1 = Ret (s', v)
     else match b with Some b => gs_run c fuel (QExec b true) s1 = Ret (s', v) | None => s' = s1 /\ v = inl tt end).
Proof. intros H. destruct (if_exec H) as (ok & s1 & U & K). exists ok, s1. split; [exact U|exact K]. Qed.
Print Assumptions C59_test.

(* Writing a string, with any ${...} in it, changes only the output, which grows *)
Theorem C59_string c fuel t i p nn ab fwd s s' v : gs_run c fuel (QExec (EString t i p nn ab) fwd) s = Ret (s', v) ->
  s_x s' = s_x s /\ g_syms (s_g s') = g_syms (s_g s) /\ exists o, g_out (s_g s') = g_out (s_g s) ++ o.
Proof. apply string_exec. Qed.
Print Assumptions C59_string.

(* a test that rings a lead, and an interpolation that rings one *)
Definition odd_test : expr := EIf (EList (ESym (str "p")) (EList (EAssign (str "q") ENop) (EBool true))) (lit "${z}") None.
Definition odd_syms : symbols := (str "z", EList (ESym (str "p")) (ECall (str "rowno") [])) :: (str "rowno", EFn FRowno) :: gs_syms 0 0.
Example C59_ex : exists x g, prove_stmt (gs_cfg 0 0 0) 20 (EList odd_test (ERepeat 5 (ESym (str "p")))) (mkGlob odd_syms 0 []) = Ret (VTrue, false, x, g) /\
  length (seen x) = 60 /\ x_dsyms x = [] /\ firstn 3 (g_out g) = str "12" ++ [ascii_of_nat 10].
Proof.
  match goal with |- exists x g', ?o = _ /\ _ => let w := eval vm_compute in o in
    match w with Ret (_, _, ?x, ?g') => exists x, g' end end.
  split; [vm_cast_no_check (@eq_refl (outcome (verdict * bool * ctx * glob))
    (prove_stmt (gs_cfg 0 0 0) 20 (EList odd_test (ERepeat 5 (ESym (str "p")))) (mkGlob odd_syms 0 [])))|]. repeat split; vm_compute; reflexivity.
Qed.

(* ===== C60: a plain composition is judged right ===== *)
(* With the standard definitions, for a program of blocks, repeats, reversals, symbols and
   replacements standing for the changes cs, which take the starting row through [rows]:
   the proof ends, with the right verdict, and succeeds just when the touch is true. *)
Theorem C60_composition c e g cs rows : (c_limit c <= 0)%Z -> (0 <= c_extents c)%Z -> (0 <= g_nodes g)%Z ->
  (forall r t, c_show c r = Some t -> ~ In (chr "\") t) -> standard c (sym_lookup (g_syms g)) ->
  row256 (c_rounds c) -> length (c_rounds c) <= c_bells c -> c_bells c <= 256 ->
  means (sym_lookup (g_syms g)) false e cs -> rung (pad (c_bells c) (c_rounds c)) cs rows ->
  let true_rows := at_most (c_extents c) rows in
  let fits := c_max c = 0 \/ length rows <= c_max c in
  let long_enough := c_min c = 0 \/ c_min c <= length rows in
  let comes_round := last rows (pad (c_bells c) (c_rounds c)) = c_rounds c in
  exists N, forall fuel, N <= fuel -> exists v fl x g', prove_stmt c fuel e g = Ret (v, fl, x, g') /\
    (fl = false <-> true_rows /\ fits /\ long_enough /\ comes_round) /\
    (v = VTrue <-> true_rows /\ fits /\ long_enough /\ comes_round) /\
    (v = VTooShort <-> true_rows /\ fits /\ ~ long_enough /\ comes_round) /\
    (v = VNotRound <-> true_rows /\ fits /\ ~ comes_round) /\
    (v = VAborted <-> ~ (true_rows /\ fits)) /\
    (true_rows /\ fits -> seen x = rows).
Proof.
  intros Hlim Hext Hn Hsh Hstd Hr Hb Hb2 Hm Hrun. cbv zeta.
  assert (H0 : start_row c = Ret (pad (c_bells c) (c_rounds c))) by (apply mul_id_l; [exact Hr|exact Hb2]).
  assert (I : forall n, In (n, ENop) init_file -> sym_lookup (g_syms g) n = Some ENop) by (intros n; apply Hstd).
  destruct (@static_verdict c e g cs (pad (c_bells c) (c_rounds c)) rows Hlim Hext Hn) as (N & H); try exact Hm; try exact Hrun; try exact Hb; try exact H0;
    try (apply I; cbn; tauto).
  - now apply conflict_aborts.
  - now apply toolong_aborts.
  - intros n [<-|[<-|[<-|[]]]]; [now apply true_settles|now apply notround_settles|now apply abort_settles].
  - now apply tooshort_settles.
  - exists N. intros fuel L. destruct (H fuel L) as (v & fl & x & g' & E & K1 & K2 & K3). exists v, fl, x, g'. split; [exact E|].
    set (r0 := pad (c_bells c) (c_rounds c)) in *.
    assert (DF : (at_most (c_extents c) rows /\ (c_max c = 0 \/ length rows <= c_max c)) \/
                 ~ (at_most (c_extents c) rows /\ (c_max c = 0 \/ length rows <= c_max c))).
    { destruct (truth (adds rows (prover_new (c_extents c) None))) eqn:T.
      - apply adds_truth in T; [|exact Hext]. destruct (Nat.eq_dec (c_max c) 0); [left; tauto|]. destruct (le_dec (length rows) (c_max c)); [left; tauto|right; tauto].
      - right. intros [Q _]. apply (@adds_truth rows _ Hext) in Q. congruence. }
    destruct DF as [F|F].
    + destruct (K1 F) as [V S]. destruct F as [F1 F2]. rewrite K3.
      unfold expected in V. destruct (list_eq_dec Nat.eq_dec (last rows r0) (c_rounds c)) as [Q|Q].
      * assert (NL : VTrue <> VTooShort /\ VTrue <> VNotRound /\ VTrue <> VAborted /\ VTooShort <> VNotRound /\ VTooShort <> VAborted) by (repeat split; discriminate).
        destruct (Nat.eqb_spec (c_min c) 0) as [M|M]; cbn [negb andb] in V; [|destruct (Nat.ltb_spec (length rows) (c_min c)) as [M2|M2]]; subst v.
        -- intuition (discriminate || lia || congruence).
        -- assert (~ (c_min c = 0 \/ c_min c <= length rows)) by lia. intuition (discriminate || congruence).
        -- intuition (discriminate || lia || congruence).
      * subst v. intuition (discriminate || congruence).
    + pose proof (K2 F) as V. rewrite K3. subst v. intuition (discriminate || congruence).
Qed.
Print Assumptions C60_composition.


Lemma example_std mn mx lim : standard (gs_cfg mn mx lim) (sym_lookup (gs_syms mn mx)).
Proof.
  split; [|split; [reflexivity|split; intros _; reflexivity]].
  intros n e H. cbn [init_file In] in H. repeat (destruct H as [H|H]; [injection H as <- <-; reflexivity|]). destruct H.
Qed.
Lemma show6_plain r t : show6 r = Some t -> ~ In (chr "\") t.
Proof.
  unfold show6. intros H Q. apply (f_equal (fun o => match o with Some x => x | None => [] end)) in H. cbv beta iota in H. subst t.
  apply in_map_iff in Q as (b & Q & _). assert (L : b mod 6 < 6) by (apply Nat.mod_upper_bound; discriminate).
  revert Q L. generalize (b mod 6). intros k Q L. do 6 (destruct k as [|k]; [vm_compute in Q; discriminate Q|]). lia.
Qed.
Fixpoint ring_list (r : row) (cs : list change) : option (list row) :=
  match cs with
  | [] => Some []
  | ch :: cs => match row_mul_change r ch with Ret r' => option_map (cons r') (ring_list r' cs) | _ => None end
  end.
Lemma ring_list_rung cs : forall r rows, ring_list r cs = Some rows -> rung r cs rows.
Proof.
  induction cs as [|ch cs IH]; intros r rows H; cbn [ring_list] in H; [injection H as <-; constructor|].
  destruct (row_mul_change r ch) as [r'| | |] eqn:E; try discriminate. destruct (ring_list r' cs) as [w|] eqn:W; [|discriminate].
  injection H as <-. econstructor; [exact E|now apply IH].
Qed.
(* three bobs of Plain Bob Minor, written with a replacement of the lead end; the same touch, backwards; and a false one *)
Definition three_bobs : expr := ERepeat 3 (EMerge (ESym (str "p")) (ESym (str "bob"))).
Definition bobbed : list change := firstn 11 (mch plain_bob) ++ [mkChange 6 [1; 4]].
Lemma three_bobs_means : means (sym_lookup (gs_syms 0 0)) true three_bobs (concat (repeat bobbed 3)).
Proof.
  apply m_repeat with (n := 3%Z); [discriminate|].
  apply m_merge with (x := mch plain_bob).
  - eapply m_sym; [discriminate|reflexivity|constructor].
  - eapply r_sym; [discriminate|reflexivity|]. constructor.
    change (mch plain_bob) with (firstn 11 (mch plain_bob) ++ [mkChange 6 [2; 4]]). constructor; [discriminate|reflexivity].
Qed.
Example C60_ex : exists rows, means (sym_lookup (g_syms (gs_start 0 0))) true three_bobs (concat (repeat bobbed 3)) /\
  rung (rounds 6) (concat (repeat bobbed 3)) rows /\ length rows = 36 /\ last rows [] = rounds 6 /\
  outcome_of (prove_stmt (gs_cfg 0 0 0) 20 three_bobs (gs_start 0 0)) =
    Some (VTrue, false, 36, str "36 rows ending in 123456" ++ [ascii_of_nat 10] ++ str "Touch is true" ++ [ascii_of_nat 10]) /\
  outcome_of (prove_stmt (gs_cfg 0 0 0) 20 (EReverse three_bobs) (gs_start 0 0)) =
    Some (VTrue, false, 36, str "36 rows ending in 123456" ++ [ascii_of_nat 10] ++ str "Touch is true" ++ [ascii_of_nat 10]) /\
  outcome_of (prove_stmt (gs_cfg 0 0 0) 20 (ERepeat 2 three_bobs) (gs_start 0 0)) =
    Some (VAborted, true, 37, str "37 rows ending in 214365" ++ [ascii_of_nat 10] ++ str "Touch not completed due to false row" ++ [ascii_of_nat 10]) /\
  outcome_of (prove_stmt (gs_cfg 72 0 0) 20 three_bobs (gs_start 72 0)) =
    Some (VTooShort, true, 36, str "36 rows ending in 123456" ++ [ascii_of_nat 10] ++ str "Touch is too short: at least 72 rows expected" ++ [ascii_of_nat 10]) /\
  outcome_of (prove_stmt (gs_cfg 0 20 0) 20 three_bobs (gs_start 0 20)) =
    Some (VAborted, true, 21, str "Touch exceeds maximum length of 20 rows" ++ [ascii_of_nat 10]).
Proof.
  destruct (ring_list (rounds 6) (concat (repeat bobbed 3))) as [rows|] eqn:E; [|vm_compute in E; discriminate].
  exists rows. split; [exact three_bobs_means|]. split; [now apply ring_list_rung|].
  vm_compute in E. injection E as <-. repeat split; vm_compute; reflexivity.
Qed.
Print Assumptions C60_ex.

(* If rounds is given on fewer bells than there are, nothing comes round: the rows are on all the bells *)
Lemma moved_len r r' : moved r r' -> length r <= length r'.
Proof.
  assert (V : forall A (v : list A) i a w, vset v i a = Ret w -> length w = length v).
  { intros A v i a w H. apply vset_inv in H as [Hi ->]. now rewrite upd_length. }
  intros [(ch & H)|(t & H)].
  - assert (A : forall l r r', apply_swaps r l = Ret r' -> length r' = length r).
    { induction l as [|a l IH]; intros q q' Q; cbn [apply_swaps] in Q; [now inversion Q|].
      destruct (a + 1 <? length q); [|now inversion Q].
      destruct (row_swap q a (a + 1)) as [w| | |] eqn:E; try discriminate. cbn [bind] in Q. apply IH in Q. rewrite Q.
      unfold row_swap in E. destruct (vget q a) as [u1| | |]; try discriminate. cbn [bind] in E.
      destruct (vget q (a + 1)) as [u2| | |]; try discriminate. cbn [bind] in E.
      destruct (vset q a u2) as [q1| | |] eqn:E1; try discriminate. cbn [bind] in E.
      apply V in E1. apply V in E. unfold row in *. congruence. }
    unfold row_mul_change in H. assert (L : length r' = length (row_pad (cn ch) r)).
    { destruct (_ && _); [exact (A _ _ _ H)|now inversion H]. }
    rewrite L. unfold row_pad. rewrite app_length. lia.
  - unfold mul, forN in H. destruct (forM _ _ _) as [q| | |] eqn:E; try discriminate. cbn [bind] in H.
    assert (Lq : length q = Nat.max (length r) (length t)).
    { revert E. set (l := seq 0 _). generalize l. clear l. intros l.
      assert (G : forall l p, length p = Nat.max (length r) (length t) -> forM l (fun p i => bind (vget t i) (fun b => if b <? length r then bind (vget r b) (fun a => vset p i a) else vset p i b)) p = Ret q -> length q = Nat.max (length r) (length t)).
      { clear l. induction l as [|i l IH]; intros p Lp F; cbn [forM] in F; [injection F as <-; exact Lp|].
        destruct (vget t i) as [b| | |]; try discriminate. cbn [bind] in F.
        assert (W : exists w, length w = length p /\ forM l (fun p i => bind (vget t i) (fun b => if b <? length r then bind (vget r b) (fun a => vset p i a) else vset p i b)) w = Ret q).
        { destruct (b <? length r).
          - destruct (vget r b) as [a| | |]; try discriminate. cbn [bind] in F. destruct (vset p i a) as [w| | |] eqn:W; try discriminate. apply V in W. exists w. split; [exact W|exact F].
          - destruct (vset p i b) as [w| | |] eqn:W; try discriminate. apply V in W. exists w. split; [exact W|exact F]. }
        destruct W as (w & W & F'). apply (IH w); [congruence|exact F']. }
      apply G. unfold rounds. now rewrite map_length, seq_length. }
    assert (L : length r' = length q); [|lia].
    revert H. generalize (seq (length t) (Nat.max (length r) (length t) - length t)). intros l. revert q Lq E. intros q _ _. revert q.
    induction l as [|i l IH]; intros q H; cbn [forM] in H; [now inversion H|].
    destruct (vget r i) as [a| | |]; try discriminate. cbn [bind] in H. destruct (vset q i a) as [w| | |] eqn:W; try discriminate. cbn [bind] in H.
    apply V in W. apply IH in H. congruence.
Qed.
Theorem C60_short_rounds c fuel e g v fl x g' : (0 <= c_extents c)%Z -> row256 (c_rounds c) -> c_bells c <= 256 ->
  length (c_rounds c) < c_bells c -> prove_stmt c fuel e g = Ret (v, fl, x, g') -> v <> VTrue.
Proof.
  intros Hext Hr Hb L H ->. destruct (C58_verdict Hext H) as (r0 & H0 & F & T & _). destruct (T eq_refl) as (_ & Q & _).
  rewrite mul_id_l in H0 by assumption. injection H0 as <-.
  assert (K : forall r rows, follows r rows -> length r <= length (last rows r)).
  { induction 1 as [r|r r' rows M F' IH]; [reflexivity|]. apply moved_len in M.
    change (r' :: rows) with ([r'] ++ rows). rewrite last_app. cbn [last]. lia. }
  apply K in F. rewrite Q, pad_length in F. lia.
Qed.
Print Assumptions C60_short_rounds.
Example C60_short_ex : outcome_of (prove_stmt (mkCfg 6 (rounds 5) 1 0 0 0 false false 0 false default_symtab show6 (fun _ => 0%Z) (fun _ => Ret None)) 20 three_bobs (gs_start 0 0)) =
    Some (VNotRound, true, 36, str "36 rows ending in 123456" ++ [ascii_of_nat 10] ++ str "Is this OK?" ++ [ascii_of_nat 10]).
Proof. vm_compute. reflexivity. Qed.

(* ===== C61: blocks of changes and replacements ===== *)
(* a block evaluates to the changes it stands for, and this has no effects *)
Theorem C61_block c look e cs : (c_limit c <= 0)%Z -> means look true e cs ->
  exists N, forall fuel s, N <= fuel -> sees look s -> (0 <= g_nodes (s_g s))%Z ->
    exists s', gs_run c fuel (QPn e) s = Ret (s', inl cs) /\ sees look s' /\
      x_r (s_x s') = x_r (s_x s) /\ x_mus (s_x s') = x_mus (s_x s) /\ x_p (s_x s') = x_p (s_x s) /\ g_out (s_g s') = g_out (s_g s).
Proof.
  intros Hl H. destruct (@block_pn c look Hl) as [K _]. destruct (K _ _ _ H eq_refl) as (N & HN). exists N. intros fuel s L S G.
  destruct (HN fuel s L S G) as (s' & E & [Q1 Q2 Q3 Q4 Q5]). exists s'. split; [exact E|]. split; [exact Q1|]. rewrite Q3. repeat split. exact Q5.
Qed.
Print Assumptions C61_block.
(* the replacement at an offset from the start of the block, and from its end, is made if it fits and refused otherwise *)
Theorem C61_replace_at off cs x : match do_replacement cs off true x with
  | Ret y => overlay_at off cs x y | Throw _ => forall y, ~ overlay_at off cs x y | _ => False end.
Proof. apply replace_begin. Qed.
Print Assumptions C61_replace_at.
Theorem C61_replace_end off cs x : match do_replacement cs off false x with
  | Ret y => overlay_from_end off cs x y | Throw _ => forall y, ~ overlay_from_end off cs x y | _ => False end.
Proof. apply replace_end. Qed.
Print Assumptions C61_replace_end.
(* a block with the second and third changes replaced, and the one two before the last *)
Example C61_ex : means (sym_lookup (gs_syms 0 0)) true (EMerge (EMerge (ESym (str "p")) (EReplace (EPn (repeat (mkChange 6 []) 2) []) (EInt 2) true)) (EReplace (ESym (str "bob")) (EInt 1) false))
  (firstn 1 (mch plain_bob) ++ repeat (mkChange 6 []) 2 ++ firstn 7 (skipn 3 (mch plain_bob)) ++ [mkChange 6 [1; 4]; mkChange 6 [2; 4]]) /\
  do_replacement [mkChange 6 []] 13 true (mch plain_bob) = Throw InvalidArgument /\ do_replacement [mkChange 6 []] 0 true (mch plain_bob) = Throw InvalidArgument.
Proof.
  split; [|split; reflexivity]. eapply m_merge; [eapply m_merge|].
  - eapply m_sym; [discriminate|reflexivity|constructor].
  - eapply r_at; [constructor|].
    change (mch plain_bob) with (firstn 1 (mch plain_bob) ++ firstn 2 (skipn 1 (mch plain_bob)) ++ skipn 3 (mch plain_bob)) at 1. constructor; reflexivity.
  - eapply r_end; [eapply m_sym; [discriminate|reflexivity|constructor]|].
    change (firstn 1 (mch plain_bob) ++ repeat (mkChange 6 []) 2 ++ skipn 3 (mch plain_bob)) with
      ((firstn 1 (mch plain_bob) ++ repeat (mkChange 6 []) 2 ++ firstn 7 (skipn 3 (mch plain_bob))) ++ [mkChange 6 [0; 2; 4]] ++ [mkChange 6 [2; 4]]).
    change (firstn 1 (mch plain_bob) ++ repeat (mkChange 6 []) 2 ++ firstn 7 (skipn 3 (mch plain_bob)) ++ [mkChange 6 [1; 4]; mkChange 6 [2; 4]]) with
      ((firstn 1 (mch plain_bob) ++ repeat (mkChange 6 []) 2 ++ firstn 7 (skipn 3 (mch plain_bob))) ++ [mkChange 6 [1; 4]] ++ [mkChange 6 [2; 4]]).
    constructor; [reflexivity|discriminate|reflexivity].
Qed.

(* ===== C62: text in literals ===== *)
(* any text can be written in a literal, and is written out as it was *)
Theorem C62_quote t : escapes (quote t) = Ret t.
Proof. apply escapes_quote. Qed.
Print Assumptions C62_quote.
(* \xHH, \uHHHH and \UHHHHHHHH write the character with that number, in UTF-8, and fail for a number that is no character *)
Theorem C62_hex d k ds v rest : In (d, k) [(chr "x", 2); (chr "u", 4); (chr "U", 8)] -> length ds = k -> hex_number ds v ->
  match escapes (chr "\" :: d :: ds ++ rest), escapes rest with
  | Ret t, Ret u => exists b, t = b ++ u /\ utf8_bytes v (map byte_val b)
  | Throw _, Ret _ => (1114112 <= v)%Z
  | Ret _, _ => False
  | _, _ => True
  end.
Proof.
  intros I L H. rewrite (escapes_hex rest I L H). pose proof (utf8_spec (hex_nonneg H)) as U.
  destruct (utf8 v) as [b| | |]; cbn [bind]; try contradiction; [|destruct (escapes rest); auto].
  destruct (escapes rest) as [u| | |]; cbn [omap bind]; auto. exists b. split; [reflexivity|exact U].
Qed.
Print Assumptions C62_hex.
(* no encoding is the beginning of another's, so the text can be read back *)
Theorem C62_unambiguous v w a b : utf8_bytes v a -> utf8_bytes w b -> (exists x y, a ++ x = b ++ y) -> v = w.
Proof. apply utf8_inj. Qed.
Print Assumptions C62_unambiguous.
Example C62_ex : hex_number (str "20aC") 8364 /\ utf8_bytes 8364 [226; 130; 172]%Z /\
  escapes (str "\u20aC5") = Ret (map ascii_of_nat [226; 130; 172] ++ str "5") /\ escapes (str "\U00110000") = Throw InvalidArgument /\
  quote (str "a\b") = str "a\\b".
Proof.
  split; [|split; [|repeat split; vm_compute; reflexivity]].
  2:{ replace [226; 130; 172]%Z with [224 + 8364 / 4096; 128 + 8364 / 64 mod 64; 128 + 8364 mod 64]%Z by (vm_compute; reflexivity). constructor. lia. }
  change (str "20aC") with (((([] ++ [chr "2"]) ++ [chr "0"]) ++ [chr "a"]) ++ [chr "C"]).
  change 8364%Z with (16 * (16 * (16 * (16 * 0 + 2) + 0) + 10) + 12)%Z.
  apply hex_snoc; [apply hex_snoc; [apply hex_snoc; [apply hex_snoc; [apply hex_nil|]|]|]|]; (split; [lia|]); [left|left|right; left|left]; reflexivity.
Qed.

(* ===== C63: the limit on the nodes evaluated ===== *)
(* an even limit is kept to by every proof that returns *)
Theorem C63_even_limit c fuel e g v fl x g' : Z.Even (c_limit c) -> Z.Even (g_nodes g) -> (g_nodes g < c_limit c)%Z ->
  prove_stmt c fuel e g = Ret (v, fl, x, g') -> (g_nodes g' < c_limit c)%Z.
Proof.
  intros EV EN L H.
  assert (P : forall n, pres (fun s s' => within c s -> within c s') (final c fuel n) /\ pres (fun s s' => within c s -> within c s') (prove_body c fuel e)).
  { intros n. assert (Q : forall x g, (g_nodes g + 2)%Z <> c_limit c -> within c (mkSt x g) -> within c (mkSt x (mkGlob (g_syms g) (g_nodes g + 2)%Z (g_out g)))).
    { intros x0 g0 D [W1 W2]. split; cbn in *; destruct W1 as (k & W1); [exists (k + 1)%Z; lia|]. destruct EV as (l & EV). lia. }
    split; [apply final_pres|apply body_pres]; try (intros; assumption); auto. }
  unfold prove_stmt in H. destruct (new_ctx c) as [x0| | |]; try discriminate. cbn [bind] in H.
  destruct (prove_body c fuel e (mkSt x0 g)) as [[s1 w]| | |] eqn:E; try discriminate. cbn [bind] in H.
  pose proof (proj2 (P []) _ _ _ E (conj EN L)) as W.
  destruct w as [u|[|]].
  - match type of H with context [final c fuel ?n ?s] => destruct (final c fuel n s) as [[s2 w2]| | |] eqn:F; try discriminate; apply (proj1 (P n)) in F end.
    cbn [bind] in H. inversion H; subst. apply F. destruct (verdict_of c (s_x s1)); try exact W. destruct (_ =? 0)%Z; exact W.
  - match type of H with context [final c fuel ?n ?s] => destruct (final c fuel n s) as [[s2 w2]| | |] eqn:F; try discriminate; apply (proj1 (P n)) in F end.
    cbn [bind] in H. inversion H; subst. apply F. exact W.
  - inversion H; subst. apply W.
Qed.
Print Assumptions C63_even_limit.
(* An odd limit stops nothing: the count goes up by two and is compared for equality *)
Theorem C63_odd_refuted c g : Z.Odd (c_limit c) -> Z.Even (g_nodes g) -> length (c_rounds c) <= c_bells c -> row256 (c_rounds c) -> c_bells c <= 256 ->
  sym_lookup (g_syms g) (str "start") = Some ENop -> forall fuel, prove_stmt c fuel (ERepeat (-1) ENop) g = Diverge.
Proof.
  intros OD EV Hb Hr Hb2 HS fuel. unfold prove_stmt, new_ctx. destruct (Nat.ltb_spec (c_bells c) (length (c_rounds c))); [lia|].
  rewrite mul_id_l by assumption. cbn [bind].
  match goal with |- context [prove_body c fuel _ ?s] => set (s0 := s) end.
  assert (B : prove_body c fuel (ERepeat (-1) ENop) s0 = Diverge); [|now rewrite B].
  unfold prove_body. destruct fuel as [|fuel]; [unfold mbind, exec_symbol, mbind, lookup, find_sym; cbn [s0 s_x s_g x_dsyms sym_lookup]; rewrite HS; reflexivity|].
  assert (K : forall s, Z.Even (g_nodes (s_g s)) -> count c s = Ret (bump s, inl tt)).
  { intros s E. unfold count, mbind, getg. destruct (Z.eqb_spec (g_nodes (s_g s) + 2) (c_limit c)) as [Q|Q]; [|reflexivity].
    destruct E as (k & E), OD as (l & OD'). lia. }
  assert (S1 : exec_symbol (@gs_run c (S fuel)) (str "start") true s0 = Ret (bump s0, inl tt)).
  { unfold exec_symbol, mbind at 1, lookup, find_sym. cbn [s0 s_x s_g x_dsyms sym_lookup]. rewrite HS.
    change (mbind (count c) (fun _ => ret tt) s0 = Ret (bump s0, inl tt)). rewrite (mb_ret _ (K s0 EV)). reflexivity. }
  rewrite (mb_ret _ S1). unfold mbind at 1.
  assert (E1 : Z.Even (g_nodes (s_g (bump s0)))). { destruct EV as (k & EV). exists (k + 1)%Z. change (g_nodes g + 2 = 2 * (k + 1))%Z. lia. }
  assert (D : gs_run c (S fuel) (QExec (ERepeat (-1) ENop) true) (bump s0) = Diverge); [|now rewrite D].
  change (mbind (count c) (fun _ => exec_impl c (@gs_run c fuel) (ERepeat (-1) ENop) true) (bump s0) = Diverge).
  rewrite (mb_ret _ (K _ E1)). cbn [exec_impl]. unfold scoped, finally, catch. rewrite loop_forever; [reflexivity|exact OD|].
  destruct E1 as (k & E1). exists (k + 1)%Z. change (g_nodes (s_g (bump s0)) + 2 = 2 * (k + 1))%Z. lia.
Qed.
Print Assumptions C63_odd_refuted.
(* and no limit stops the type of a symbol defined as itself from being sought for ever *)
Theorem C63_type_refuted c n s fuel : find_sym s n = Some (ESym n) -> gs_run c fuel (QType (ESym n)) s = Diverge.
Proof.
  intros H. induction fuel as [|fuel IH]; [reflexivity|].
  change (gs_run c (S fuel) (QType (ESym n)) s) with (mbind (lookup n) (fun e => gs_run c fuel (QType e)) s).
  erewrite mb_ret; [exact IH|]. unfold lookup. now rewrite H.
Qed.
Print Assumptions C63_type_refuted.
Example C63_ex : prove_stmt (gs_cfg 0 0 1000) 600 (ERepeat (-1) ENop) (gs_start 0 0) = Throw InvalidArgument /\
  (exists x g', prove_stmt (gs_cfg 0 0 1000) 20 three_bobs (gs_start 0 0) = Ret (VTrue, false, x, g') /\ g_nodes g' = 150%Z) /\
  prove_stmt (gs_cfg 0 0 1001) 600 (ERepeat (-1) ENop) (gs_start 0 0) = Diverge.
Proof.
  split; [vm_compute; reflexivity|]. split; [|vm_compute; reflexivity].
  match goal with |- exists x g', ?o = _ /\ _ => let w := eval vm_compute in o in
    match w with Ret (_, _, ?x, ?g') => exists x, g' end end.
  split; [vm_cast_no_check (@eq_refl (outcome (verdict * bool * ctx * glob)) (prove_stmt (gs_cfg 0 0 1000) 20 three_bobs (gs_start 0 0)))|]. vm_compute. reflexivity.
Qed.
