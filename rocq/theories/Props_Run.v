(* Props_Run.v - C71: what the exit status of gsiril says.  C72: definitions.  C73: the number of
   bells, and importing.  C74: the order in which statements are carried out.  C75: a script, from
   its text to the exit status. *)
From Verif Require Import Spec_Proof P_Gsiril5 M_Method Props_Method Base M_Bell M_Change M_Row M_PN M_Proof M_Gsiril M_Parser Spec_Parser M_Token Spec_Token Spec_Command M_Statement Spec_Row Spec_Gsiril Spec_Statement Spec_Run Spec_Session.
From Verif Require Import P_Bell P_Row P_RowText P_Parser P_Parser4 P_Token P_Token2 P_Command P_Lines P_Statement P_Run P_Session Props_Parser Props_Token Props_Statement Props_Gsiril.
Set Implicit Arguments. Unset Strict Implicit.
Open Scope nat_scope.

Section C71.
Variables (B : library) (opt : opts) (fuel : nat).
(* C71.  If gsiril gets to the end of the script, the exit status is 0 if none of the proofs in it
   failed, and 1 if one did, however many succeeded before or after; with the option to prove one
   touch, there was just one.  Otherwise it is 1, 2 or 3. *)
Theorem C71_status depth s w k ow : gsiril B opt fuel depth s w = Ret (k, ow) ->
  match ow with
  | Some w' => exists new, w_log w' = w_log w ++ new /\ Forall (real fuel) new /\ (k = 0 <-> Forall fine new) /\ (k = 1 <-> ~ Forall fine new) /\
      (o_prove_one opt = true -> w_done w = false -> length new = 1)
  | None => k = 1 \/ k = 2 \/ k = 3
  end.
Proof.
  unfold gsiril. intro H.
  match type of H with match ?q with _ => _ end = _ => destruct q as [[w2|j]|x| |] eqn:E end; try discriminate.
  - assert (Ew : ow = Some w2 /\ k = if w_failed w2 then 1 else 0) by (split; congruence). destruct Ew as [-> ->]. clear H.
    apply bind_inv in E as ([[w1 n]|j] & E & H); [|discriminate].
    apply (text_sound (@exec_sound B opt fuel depth)) in E as (ts & bad & _ & _ & RU).
    apply (proj2 (proj2 (proj2 (doing_logs B opt fuel)))) in RU. cbn beta iota in RU.
    apply after_inv in H as [(w3 & E & H)|(j & _ & H)]; [|discriminate].
    assert (L3 : logs opt fuel w1 w3).
    { destruct (_ && _); [|assert (w1 = w3) by (unfold ok in E; congruence); subst; apply still_logs, still_refl].
      unfold prove_symbol in E. destruct (_ || _); [|assert (w1 = w3) by (unfold ok in E; congruence); subst; apply still_logs, still_refl].
      apply bind_inv in E as ([ts2 bad2] & _ & E). destruct (parse _ _ _ _ _ ts2) as [ts3 o1]. apply bind_inv in E as (s1 & _ & E).
      destruct (parse _ _ _ _ _ ts3) as [ts4 o2]. apply bind_inv in E as (s2 & _ & E). destruct s2; try discriminate.
      apply exec_sound in E. now apply (proj1 (doing_logs B opt fuel)) in E. }
    destruct (o_prove_one opt && negb (w_done w3)) eqn:PO; [discriminate|]. assert (w3 = w2) by (unfold ok in H; congruence). subst w3.
    pose proof (logs_trans RU L3) as (new & Lg & Re & Fa & Do & On). cbn [w_log w_failed w_done set_failed orb] in *.
    exists new. split; [exact Lg|]. split; [exact Re|].
    assert (FI : existsb badb new = false <-> Forall fine new).
    { rewrite Forall_forall. split.
      - intros F en I. apply badb_iff. destruct (badb en) eqn:Q; auto. assert (existsb badb new = true) by (apply existsb_exists; eauto). congruence.
      - intro F. destruct (existsb badb new) eqn:Q; auto. apply existsb_exists in Q as (en & I & Q). apply F, badb_iff in I. congruence. }
    rewrite Fa. split; [|split].
    + rewrite <- FI. destruct (existsb badb new); cbn; split; auto; discriminate.
    + rewrite <- FI. destruct (existsb badb new); cbn; split; auto; try discriminate. intro N; congruence.
    + intros P1 D1; specialize (On P1). rewrite P1, Do, D1 in PO. rewrite D1 in On. destruct new as [|en new]; [discriminate|]. cbn in On |- *; lia.
  - assert (Ew : ow = None /\ k = j) by (split; congruence). destruct Ew as [-> ->]. clear H.
    apply bind_inv in E as ([[w1 n]|i] & E & H).
    + apply after_inv in H as [(w3 & E2 & H)|(i & E2 & H)].
      * destruct (o_prove_one opt && _); [right; left; congruence|discriminate H].
      * assert (j = i) by congruence. subst i.
        destruct ((0 <? n) && _); [|discriminate E2]. unfold prove_symbol in E2. destruct (negb (list_ascii_eqb _ _) || _); [|discriminate E2].
        apply bind_inv in E2 as ([ts2 bad2] & _ & E2). destruct (parse _ _ _ _ _ ts2) as [ts3 o1]. apply bind_inv in E2 as (s1 & _ & E2).
        destruct (parse _ _ _ _ _ ts3) as [ts4 o2]. apply bind_inv in E2 as (s2 & _ & E2). destruct s2; try (right; right; congruence).
        apply exec_sound in E2. apply (proj1 (doing_logs B opt fuel)) in E2. now left.
    + assert (i = j) by congruence. subst i. apply (text_sound (@exec_sound B opt fuel depth)) in E as (ts & bad & _ & _ & RU).
      apply (proj2 (proj2 (proj2 (doing_logs B opt fuel)))) in RU. now left.
  - assert (Ew : ow = None /\ k = 2) by (split; congruence). destruct Ew as [-> ->]. auto.
Qed.
(* Without options to prove something else: gsiril gets to the end exactly if the script can be run
   to its end, and that is then the world it leaves. *)
Theorem C71_end s w w' : o_prove opt = [] -> o_prove_one opt = false ->
  (exists depth k, gsiril B opt fuel depth s w = Ret (k, Some w')) <->
  (exists ts bad n, lex (c_msiril (w_c w)) (o_ci opt) s = Ret (ts, bad) /\ (ts = [] -> bad = false) /\ runs B opt fuel bad ts (set_failed w false) 0 (inl (w', n))).
Proof.
  intros P0 P1. unfold gsiril. rewrite P0, P1. cbn [andb negb].
  split.
  - intros (depth & k & H). destruct (run_text B opt (exec_f B opt fuel depth) s (set_failed w false)) as [[[w1 n]|j]| | |] eqn:E; cbn [bind] in H; try discriminate.
    rewrite andb_false_r in H. cbn [after_that ok] in H. assert (w1 = w') by congruence. subst w1. 
    apply (text_sound (@exec_sound B opt fuel depth)) in E as (ts & bad & E & NB & RU). eauto 6.
  - intros (ts & bad & n & E & NB & RU). pose proof RU as RU'. apply (proj2 (proj2 (proj2 (doing_complete B opt fuel)))) in RU as (d0 & H).
    exists d0, (if w_failed w' then 1 else 0). unfold run_text. cbn [w_c set_failed]. rewrite E. cbn [bind].
    assert (X : match ts, bad with [], true => Throw BellInvalid | _, _ => run_tokens B opt (exec_f B opt fuel d0) bad (S (S (length ts))) ts (set_failed w false) 0 end = Ret (inl (w', n))).
    { destruct ts as [|t ts]; [rewrite (NB eq_refl) in H |- *|]; apply H; cbn [length]; lia. }
    rewrite X. cbn [bind]. rewrite andb_false_r. reflexivity.
Qed.
(* What is recorded as proved is what prove statements proved: they add one record each, and no
   other plain statement any. *)
Theorem C71_record s w w' : exec_plain B opt fuel s w = Ret (inl w') ->
  (forall e, s = SProve e -> exists v, w_log w' = w_log w ++ [mkEntry (w_c w) (w_g w) e v]) /\ ((forall e, s <> SProve e) -> w_log w' = w_log w).
Proof.
  intro H. split.
  - intros e ->. apply logs_prove in H as (v & H & _). eauto.
  - intro N. apply plain_still in H; auto. apply H.
Qed.
End C71.
Print Assumptions C71_status.
Print Assumptions C71_end.
Print Assumptions C71_record.

Definition ex_lib (f : text -> option text) : library := mkLib (fun _ => ex_lits) (fun _ _ => show6) (fun _ b => b) (fun c g es => Ret ((fun _ => 0%Z), g)) f.
Definition ex_world : world := mkWorld (gs_cfg 0 0 0) [] (gs_start 0 0) false false [] [].
Definition ex_opts : opts := mkOpts false false false [].
(* the status and the verdicts of a script, and its output *)
Definition session (f : text -> option text) (o : opts) (fuel depth : nat) (s : text) : outcome (nat * list verdict) :=
  '(k, ow) <- gsiril (ex_lib f) o fuel depth s ex_world ;;
  Ret (k, match ow with Some w => map en_v (w_log w) | None => [] end).
Definition output (s : text) : outcome text :=
  '(k, ow) <- gsiril (ex_lib (fun _ => None)) ex_opts 20 4 s ex_world ;; Ret (match ow with Some w => g_out (w_g w) | None => [] end).
Definition no_files : text -> option text := fun _ => None.
Example C71_ex : session no_files ex_opts 20 4 (str "prove 5 p; prove 4 p; prove 5 p") = Ret (1, [VTrue; VNotRound; VTrue]) /\
  session no_files ex_opts 20 4 (str "prove 5 p; prove p,break; prove 5 p") = Ret (0, [VTrue; VStopped; VTrue]) /\
  session no_files ex_opts 20 4 (str "prove 5 p; error") = Ret (1, []) /\
  session no_files ex_opts 20 4 (str "prove 5 p; prove q") = Ret (2, []) /\
  session no_files (mkOpts false true false []) 20 4 (str "prove 5 p; prove 5 p") = Ret (2, []) /\
  session no_files (mkOpts false true false (str "a")) 20 4 (str "a = 5 p") = Ret (0, [VTrue]) /\
  session no_files (mkOpts false true false (str "a; b = 2")) 20 4 (str "a = 5 p") = Ret (3, []) /\
  output (str "prove 5 p") = Ret (str "60 rows ending in 123456" ++ [nl] ++ str "Touch is true" ++ [nl]).
Proof. repeat split; vm_compute; reflexivity. Qed.

Section C72.
Variables (B : library) (opt : opts) (fuel : nat).
(* C72.  Definitions are always carried out.  Afterwards a name stands for what its last definition
   with = says, or the first with ?= after which it was not empty; and nothing else has changed. *)
Theorem C72_definitions ss w : Forall definition ss ->
  exists w', (forall r, does_all B opt fuel ss w r <-> r = inl w') /\ w' = set_syms w (syms w') /\
  forall n, n <> first_name -> stands n (sym_lookup (syms w) n) ss (sym_lookup (syms w') n).
Proof.
  intro F. revert w. induction F as [|s ss D F IH]; intro w.
  - exists w. split; [|split; [destruct w as [? ? [] ? ? ? ?]; reflexivity|intros; constructor]]. intro r. split; [now inversion 1|intros ->; constructor].
  - assert (X : exists w1, (forall r, does B opt fuel s w r <-> r = inl w1) /\ w1 = set_syms w (syms w1) /\
      forall n, n <> first_name -> forall o, stands n (sym_lookup (syms w1) n) ss o -> stands n (sym_lookup (syms w) n) (s :: ss) o).
    { destruct s; try contradiction.
      - exists (set_syms w (ectx_define (syms w) n e)). split; [|split; [reflexivity|]].
        + intro r. split; [inversion 1; subst; try contradiction; cbn [exec_plain] in *; unfold ok in *; congruence|intros ->; apply d_plain; [exact I|reflexivity]].
        + intros m Nm o. cbn [syms set_syms w_g set_g g_syms]. change (g_syms (w_g w)) with (syms w). rewrite ectx_lookup by auto. destruct (list_ascii_eqb n m) eqn:E.
          * apply lae_iff in E. subst. apply st_def.
          * apply st_other. intros ->. now rewrite lae_refl in E.
      - exists (set_syms w (default_define (syms w) n e)). split; [|split; [reflexivity|]].
        + intro r. split; [inversion 1; subst; try contradiction; cbn [exec_plain] in *; unfold ok in *; congruence|intros ->; apply d_plain; [exact I|reflexivity]].
        + intros m Nm o. cbn [syms set_syms w_g set_g g_syms]. change (g_syms (w_g w)) with (syms w). rewrite default_lookup by auto. destruct (list_ascii_eqb n m) eqn:E.
          * apply lae_iff in E. subst. destruct (isnop (sym_lookup (syms w) m)) eqn:Q.
            -- apply st_default. now apply isnop_iff.
            -- apply st_kept. intro K. apply isnop_iff in K. congruence.
          * apply st_other_default. intros ->. now rewrite lae_refl in E. }
    destruct X as (w1 & D1 & E1 & S1). destruct (IH w1) as (w2 & D2 & E2 & S2). exists w2. split; [|split].
    + intro r. split.
      * inversion 1; subst.
        -- match goal with Q : M_Statement.world |- _ => idtac | _ => idtac end.
           match goal with Q : does _ _ _ s w (inl ?x) |- _ => apply D1 in Q; assert (x = w1) by congruence; subst x end. now apply D2.
        -- match goal with Q : does _ _ _ s w (inr _) |- _ => apply D1 in Q; discriminate end.
      * intros ->. eapply da_more; [now apply D1|now apply D2].
    + rewrite E2. rewrite E1. reflexivity.
    + intros n Nn. apply S1; auto.
Qed.
(* what a name stands for is settled by that *)
Theorem C72_settled n o ss o1 o2 : stands n o ss o1 -> stands n o ss o2 -> o1 = o2.
Proof. intro H. revert o2. induction H; intros o2 H2; inversion H2; subst; auto; contradiction. Qed.
(* __first__ is the value of the first definition of a name which meant nothing before ... *)
Theorem C72_first pre n e post w w' : Forall (fun s => match s with SDef m _ => sym_lookup (syms w) m <> None /\ m <> first_name | _ => False end) pre ->
  sym_lookup (syms w) n = None -> n <> first_name -> sym_lookup (syms w) first_name = None ->
  Forall (fun s => match s with SDef m _ | SDefault m _ => m <> first_name | _ => False end) post ->
  does_all B opt fuel (pre ++ SDef n e :: post) w (inl w') -> sym_lookup (syms w') first_name = Some e.
Proof.
  intros F Nn Nf N1 FP. revert w Nn N1 F. induction pre as [|s pre IH]; intros w Nn N1 F H.
  - cbn [app] in H. inversion H; subst. 
    match goal with Q : does _ _ _ (SDef n e) w (inl ?x) |- _ => inversion Q; subst; cbn [exec_plain] in *; assert (E : x = set_syms w (ectx_define (syms w) n e)) by (unfold ok in *; congruence); rename x into w1 end.
    assert (K : sym_lookup (syms w1) first_name = Some e).
    { subst w1. cbn [syms set_syms w_g set_g g_syms]. change (g_syms (w_g w)) with (syms w). rewrite ectx_first, lae_ne, N1, Nn; auto. }
    match goal with Q : does_all _ _ _ post w1 _ |- _ => revert Q end. clear - K FP. revert w1 K.
    induction FP as [|s post Ns FP IH]; intros w1 K H; inversion H; subst; auto.
    match goal with Q : does_all _ _ _ post ?x _ |- _ => apply (IH x); auto; rename x into w2 end.
    destruct s; try contradiction; match goal with Q : does _ _ _ _ w1 _ |- _ => inversion Q; subst end; try contradiction; cbn [exec_plain] in *.
    + assert (E : w2 = set_syms w1 (ectx_define (syms w1) n e0)) by (unfold ok in *; congruence). subst w2. 
      cbn [syms set_syms w_g set_g g_syms]. change (g_syms (w_g w1)) with (syms w1). rewrite ectx_first, lae_ne, K; auto.
    + assert (E : w2 = set_syms w1 (default_define (syms w1) n e0)) by (unfold ok in *; congruence). subst w2.
      cbn [syms set_syms w_g set_g g_syms]. change (g_syms (w_g w1)) with (syms w1). unfold default_define. destruct (isnop _); auto.
      rewrite lookup_define, lae_ne by auto. rewrite K. now rewrite lookup_define, lae_ne by auto.
  - inversion F as [|? ? Fs F']; subst. destruct s as [| | | | | | | | | | | | |m e' | |]; try contradiction. destruct Fs as [Dm Nm].
    cbn [app] in H. inversion H; subst.
    match goal with Q : does _ _ _ (SDef m e') w (inl ?x) |- _ => inversion Q; subst; cbn [exec_plain] in *; assert (E : x = set_syms w (ectx_define (syms w) m e')) by (unfold ok in *; congruence); rename x into w1 end.
    assert (S1 : syms w1 = ectx_define (syms w) m e') by (subst w1; reflexivity).
    match goal with Q : does_all _ _ _ _ w1 _ |- _ => eapply (IH w1); [| | |exact Q] end.
    + rewrite S1, ectx_lookup by auto. rewrite lae_ne; auto. intros ->. congruence.
    + rewrite S1, ectx_first, lae_ne, N1 by auto. destruct (sym_lookup (syms w) m); congruence.
    + eapply Forall_impl; [|exact F']. intros []; auto. intros [D M]. split; auto. rewrite S1, ectx_lookup by auto. destruct (list_ascii_eqb _ _); congruence.
Qed.
(* ... even after that name has been given another: a touch defined twice is proved by default as
   it was defined first. *)
Theorem C72_first_stale_refuted n e e' w : sym_lookup (syms w) n = None -> n <> first_name -> sym_lookup (syms w) first_name = None ->
  exists w', does_all B opt fuel [SDef n e; SDef n e'] w (inl w') /\ sym_lookup (syms w') n = Some e' /\ sym_lookup (syms w') first_name = Some e.
Proof.
  intros Nn Nf N1. assert (FD : Forall definition [SDef n e; SDef n e']) by (repeat constructor).
  destruct (@C72_definitions [SDef n e; SDef n e'] w FD) as (w' & D & _ & S). exists w'.
  assert (DA : does_all B opt fuel [SDef n e; SDef n e'] w (inl w')) by now apply D. split; [exact DA|]. split.
  - specialize (S n Nf). inversion S; subst; try congruence. match goal with Q : stands _ _ [SDef n e'] _ |- _ => inversion Q; subst; try congruence end.
    match goal with Q : stands _ _ [] _ |- _ => inversion Q; subst end. reflexivity.
  - eapply (@C72_first [] n e [SDef n e']); eauto.
Qed.
End C72.
Print Assumptions C72_definitions.
Print Assumptions C72_settled.
Print Assumptions C72_first.
Print Assumptions C72_first_stale_refuted.
Example C72_ex : Forall definition [SDef (str "a") (EInt 1); SDefault (str "a") (EInt 2); SDefault (str "b") ENop; SDefault (str "b") (EInt 3)] /\
  stands (str "a") None [SDef (str "a") (EInt 1); SDefault (str "a") (EInt 2); SDefault (str "b") ENop; SDefault (str "b") (EInt 3)] (Some (EInt 1)) /\
  stands (str "b") None [SDef (str "a") (EInt 1); SDefault (str "a") (EInt 2); SDefault (str "b") ENop; SDefault (str "b") (EInt 3)] (Some (EInt 3)) /\
  sym_lookup (syms ex_world) (str "a") = None /\ sym_lookup (syms ex_world) first_name = None /\
  session no_files (mkOpts false false false first_name) 20 4 (str "a = 4 p; a = 5 p") = Ret (1, [VNotRound]).
Proof.
  assert (NE : forall e, e <> ENop -> ~ empty (Some e)) by (intros e N [H|H]; congruence).
  split; [repeat constructor|]. split; [apply st_def, st_kept; [apply NE; discriminate|]; repeat (apply st_other_default; [discriminate|]); constructor|].
  split; [apply st_other; [discriminate|]; apply st_other_default; [discriminate|]; apply st_default; [now left|]; apply st_default; [now right|]; constructor|].
  repeat split; vm_compute; reflexivity.
Qed.

Section C73.
Variables (B : library) (opt : opts) (fuel : nat).
Lemma rounds256 n : n <= 256 -> row256 (rounds n).
Proof. intro H. now apply rounds_row256. Qed.
Lemma rounds_len n : n <= 256 -> length (rounds n) = n.
Proof. intro H. rewrite rounds_id by lia. apply id_length. Qed.
Lemma pad256 n x : row256 x -> n <= 256 -> row256 (pad n x).
Proof. intros R H. destruct (mul_spec R (rounds256 H)) as (p & E & V & _). rewrite mul_id_r in E by auto. assert (pad n x = p) by congruence. now subst. Qed.
Lemma set_bells_is b w : row256 (c_rounds (w_c w)) -> b <= 256 -> exists w', set_bells B b w = Ret w' /\ c_bells (w_c w') = b /\
  c_rounds (w_c w') = if b <? length (c_rounds (w_c w)) then rounds b else pad b (c_rounds (w_c w)).
Proof.
  intros R Hb. unfold set_bells. set (r := c_rounds (w_c w)) in *.
  destruct (Nat.ltb_spec (length r) b).
  - rewrite mul_id_r by auto. destruct (Nat.ltb_spec b (length r)); [lia|]. cbn [bind andb]. eexists. repeat split.
  - destruct (Nat.ltb_spec b (length r)); cbn [bind].
    + eexists. split; [reflexivity|]. destruct (negb (isrounds r)); split; reflexivity.
    + eexists. split; [reflexivity|]. split; [reflexivity|]. cbn. unfold pad. replace (b - length r) with 0 by lia. cbn. now rewrite app_nil_r.
Qed.
(* C73.  The number of bells is set to any number from 2 to 256 and nothing else.  The rounds in
   force are kept and, if they are on fewer bells, extended by the rest in order; if they are on
   more bells they are the ordinary rounds again.  A proof can then always be started. *)
Theorem C73_bells z w : row256 (c_rounds (w_c w)) ->
  ((2 <= z <= 256)%Z -> exists w' x, (forall r, does B opt fuel (SBells z) w r <-> r = inl w') /\ Z.of_nat (c_bells (w_c w')) = z /\
     c_rounds (w_c w') = (if c_bells (w_c w') <? length (c_rounds (w_c w)) then rounds (c_bells (w_c w')) else pad (c_bells (w_c w')) (c_rounds (w_c w))) /\
     length (c_rounds (w_c w')) = c_bells (w_c w') /\ row256 (c_rounds (w_c w')) /\ new_ctx (w_c w') = Ret x) /\
  ((z < 2 \/ 256 < z)%Z -> forall r, ~ does B opt fuel (SBells z) w r).
Proof.
  intro R. split.
  - intro Hz. destruct (@set_bells_is (Z.to_nat z) w R) as (w' & E & Eb & Er); [lia|]. set (r := c_rounds (w_c w)) in *.
    assert (Lr : length (c_rounds (w_c w')) = c_bells (w_c w')).
    { rewrite Er, Eb. destruct (Nat.ltb_spec (Z.to_nat z) (length r)); [apply rounds_len; lia|]. rewrite pad_length. lia. }
    assert (R' : row256 (c_rounds (w_c w'))).
    { rewrite Er. destruct (Nat.ltb_spec (Z.to_nat z) (length r)); [apply rounds256; lia|apply pad256; auto; lia]. }
    assert (NC : exists x, new_ctx (w_c w') = Ret x).
    { unfold new_ctx. rewrite Lr, Nat.ltb_irrefl. rewrite mul_id_l by (auto; lia). cbn [bind]. eauto. }
    destruct NC as (x & NC). exists w', x. rewrite Eb in *. split; [|split; [lia|split; [exact Er|split; [congruence|split; [exact R'|exact NC]]]]].
    assert (EX : exec_plain B opt fuel (SBells z) w = ok w').
    { cbn [exec_plain]. destruct (Z.ltb_spec 256 z); [lia|]. destruct (Z.leb_spec z 1); [lia|]. cbn [orb]. rewrite E. reflexivity. }
    intro q. split; [|intros ->; apply d_plain; [exact I|exact EX]].
    inversion 1; subst; try contradiction. unfold ok in EX. congruence.
  - intros Hz r H. inversion H; subst; try contradiction. cbn [exec_plain] in *.
    destruct (Z.ltb_spec 256 z); [discriminate|]. destruct (Z.leb_spec z 1); [discriminate|]. lia.
Qed.
(* Importing a file leaves the number of bells as it was, and __first__ ... *)
Theorem C73_import f w w' : does B opt fuel (SImport f) w (inl w') -> 0 < c_bells (w_c w) ->
  c_bells (w_c w') = c_bells (w_c w) /\ sym_lookup (syms w') first_name = sym_lookup (syms w) first_name.
Proof.
  intros H Hb. inversion H; subst; [contradiction|].
  match goal with Q : restore _ _ _ = _ |- _ => rename Q into RS end.
  unfold restore in RS. destruct (Nat.ltb_spec 0 (c_bells (w_c w))); [|lia]. apply bind_inv in RS as (w3 & E & RS).
  match type of RS with Ret ?x = _ => assert (Q : x = w') by congruence end. subst w'. split.
  - unfold set_bells in E. apply bind_inv in E as (r & _ & E). match type of E with Ret ?x = _ => assert (Q : x = w3) by congruence end. subst w3. reflexivity.
  - cbn [syms set_syms w_g set_g g_syms]. change (g_syms (w_g w3)) with (syms w3). destruct (sym_lookup (syms w) first_name).
    + rewrite ectx_first, lae_refl. reflexivity.
    + rewrite lookup_undefine, lae_refl. reflexivity.
Qed.
(* A file whose first command imports a file whose first command ... never comes to an end, if this
   goes round in a circle. *)
Theorem C73_circular (circle : text -> Prop) w : o_no_import opt = false ->
  (forall f, circle f -> exists s ts bad us i x, lib_file B f = Some s /\ lex (c_msiril (w_c w)) (o_ci opt) s = Ret (ts, bad) /\
     command (c_msiril (w_c w)) bad true ts [] 0 = (us, Ret [i; x]) /\ word "import" i /\ (tk x = KName \/ tk x = KString) /\ circle (tx x)) ->
  forall f r, circle f -> ~ does B opt fuel (SImport f) w r.
Proof.
  intros NI C f r Cf D. apply does_iff in D as (d & D). revert f r Cf D. induction d as [|d IH]; intros f r Cf D; [discriminate|].
  destruct (C f Cf) as (s & ts & bad & us & i & x & F & E & CM & Wi & Kx & Cx).
  change (exec_step B opt fuel (exec_f B opt fuel d) (file B opt (exec_f B opt fuel d)) (SImport f) w = Ret r) in D.
  unfold exec_step, exec_import in D. rewrite F in D. 
  assert (X : exists v, file B opt (exec_f B opt fuel d) s w = Ret v) by (apply after_inv in D as [(w1 & D & _)|(k & D & _)]; eauto).
  destruct X as (v & X). unfold file, run_text in X. rewrite E in X. cbn [bind] in X.
  assert (NB : (ts = [] -> bad = false) /\ exists r, run_tokens B opt (exec_f B opt fuel d) bad (S (S (length ts))) ts w 0 = Ret r).
  { destruct ts as [|t ts], bad; try discriminate; apply bind_inv in X as (q & X & _); split; try congruence; eauto. }
  destruct NB as [_ (q & Q)]. remember (S (length ts)) as n. cbn [run_tokens] in Q.
  assert (P : parse (c_msiril (w_c w)) bad (o_no_import opt) (c_sym (w_c w)) (lib_lits B (c_bells (w_c w))) ts = (us, Ret (SImport (tx x)))).
  { apply parse_iff. left. exists [[i; x]]. split; [eapply sp_more; [exact CM|discriminate|constructor]|]. apply so_simple, s_import; auto. now rewrite NI. }
  rewrite P in Q. cbn [bind] in Q. apply bind_inv in Q as (q' & Q & _). eapply IH; [exact Cx|exact Q].
Qed.
End C73.
Print Assumptions C73_bells.
Print Assumptions C73_import.
Print Assumptions C73_circular.
(* ... but not the rounds: if the file is for fewer bells they are lost. *)
Theorem C73_import_rounds_refuted B opt fuel f s ts us vs m t z w : row256 (c_rounds (w_c w)) -> length (c_rounds (w_c w)) = c_bells (w_c w) ->
  lib_file B f = Some s -> lex (c_msiril (w_c w)) (o_ci opt) s = Ret (ts, false) ->
  command (c_msiril (w_c w)) false true ts [] 0 = (us, Ret [m; t]) -> command (c_msiril (w_c w)) false true us [] 0 = (vs, Ret []) ->
  number m z -> word "bells" t -> (2 <= z < Z.of_nat (c_bells (w_c w)))%Z ->
  exists w', does B opt fuel (SImport f) w (inl w') /\ c_rounds (w_c w') = rounds (c_bells (w_c w)).
Proof.
  intros R Hl F E C1 C2 Nm Wt Hz. assert (R2 := proj2 R).
  destruct (C73_bells B opt fuel z R) as [H _]. destruct H as (w1 & x & D & Eb & Er & El & R1 & _); [lia|].
  assert (Em : c_msiril (w_c w1) = c_msiril (w_c w)).
  { assert (D1 : does B opt fuel (SBells z) w (inl w1)) by now apply D. inversion D1; subst. cbn [exec_plain] in *.
    destruct (_ || _); [discriminate|]. match goal with Q : bind _ _ = _ |- _ => apply bind_inv in Q as (w2 & Q1 & Q2) end. unfold set_bells in Q1. apply bind_inv in Q1 as (r & _ & Q1).
    assert (w2 = w1) by (unfold ok in *; congruence). subst w2. match type of Q1 with Ret ?y = _ => assert (QQ : y = w1) by congruence end. rewrite <- QQ. reflexivity. }
  destruct (@set_bells_is B (c_bells (w_c w)) w1 R1) as (w2 & E2 & Eb2 & Er2); [lia|].
  assert (Sm : splits (c_msiril (w_c w)) false ts [[m; t]] us) by (eapply sp_more; [exact C1|discriminate|constructor]).
  assert (RU : runs B opt fuel false ts w 0 (inl (w1, 1))).
  { eapply r_more; [exact Sm| | |now apply D|]; [apply so_simple, s_bells; eauto|discriminate|]. eapply r_eof. rewrite Em. exact C2. }
  assert (RS : exists w3, restore B w w1 = Ret w3 /\ w_c w3 = w_c w2).
  { unfold restore. destruct (Nat.ltb_spec 0 (c_bells (w_c w))); [|lia]. rewrite E2. cbn [bind]. eexists. split; reflexivity. }
  destruct RS as (w3 & RS & Ec). exists w3. split; [eapply d_import; eauto|]. rewrite Ec, Er2. 
  destruct (Nat.ltb_spec (c_bells (w_c w)) (length (c_rounds (w_c w1)))); [lia|].
  destruct (Nat.ltb_spec (c_bells (w_c w1)) (length (c_rounds (w_c w)))); [|lia]. rewrite Er.
  rewrite !rounds_id by lia. apply row_eq.
  - rewrite pad_length, !id_length. lia.
  - intro i. now rewrite act_pad, !act_id.
Qed.
Print Assumptions C73_import_rounds_refuted.
Definition two_files (f : text) : option text :=
  if list_ascii_eqb f (str "four") then Some (str "4 bells") else if list_ascii_eqb f (str "a") then Some (str "import b") else
  if list_ascii_eqb f (str "b") then Some (str "import ""a""; prove 5 p") else None.
Definition rounds_after (s : text) : outcome (nat * row) :=
  '(k, ow) <- gsiril (ex_lib two_files) ex_opts 20 4 s ex_world ;; match ow with Some w => Ret (c_bells (w_c w), c_rounds (w_c w)) | None => fail end.
Example C73_ex : row256 (c_rounds (w_c ex_world)) /\ length (c_rounds (w_c ex_world)) = c_bells (w_c ex_world) /\
  rounds_after (str "rounds '135246'") = Ret (6, [0; 2; 4; 1; 3; 5]) /\
  rounds_after (str "rounds '135246'; 8 bells") = Ret (8, [0; 2; 4; 1; 3; 5; 6; 7]) /\
  rounds_after (str "rounds '135246'; import four") = Ret (6, rounds 6).
Proof. split; [apply rounds256; cbn; lia|]. repeat split; vm_compute; reflexivity. Qed.
Example C73_ex_circular r : ~ does (ex_lib two_files) ex_opts 20 (SImport (str "a")) ex_world r.
Proof.
  apply (@C73_circular (ex_lib two_files) ex_opts 20 (fun f => f = str "a" \/ f = str "b") ex_world eq_refl); [|now left].
  intros f [-> | ->].
  - exists (str "import b"), [tok KName "import"; tok KName "b"; newline], false, [newline], (tok KName "import"), (tok KName "b").
    split; [reflexivity|]. split; [vm_compute; reflexivity|]. split; [vm_compute; reflexivity|]. split; [split; reflexivity|]. split; [now left|now right].
  - exists (str "import ""a""; prove 5 p"), [tok KName "import"; tok KString "a"; tok KSemi ";"; tok KName "prove"; tok KNum "5"; tok KName "p"; newline], false,
      [tok KSemi ";"; tok KName "prove"; tok KNum "5"; tok KName "p"; newline], (tok KName "import"), (tok KString "a").
    split; [reflexivity|]. split; [vm_compute; reflexivity|]. split; [vm_compute; reflexivity|]. split; [split; reflexivity|]. split; [now right|now left].
Qed.

Section C74.
Variables (B : library) (opt : opts) (fuel : nat).
(* C74.  A statement is carried out as specified: it comes to an end with some result exactly if
   the specification has it so, however deep statements and files are nested. *)
Theorem C74_statement s w r : does B opt fuel s w r <-> exists depth, exec_f B opt fuel depth s w = Ret r.
Proof. apply does_iff. Qed.
Theorem C74_script bad ts w r : runs B opt fuel bad ts w 0 r <-> exists depth n, run_tokens B opt (exec_f B opt fuel depth) bad n ts w 0 = Ret r.
Proof.
  split.
  - intro H. apply (proj2 (proj2 (proj2 (doing_complete B opt fuel)))) in H as (d & H). exists d, (S (length ts)). apply H; lia.
  - intros (d & n & H). eapply run_sound; [apply exec_sound|exact H].
Qed.
(* the result is determined *)
Theorem C74_deterministic s w r r' : does B opt fuel s w r -> does B opt fuel s w r' -> r = r'.
Proof.
  intros D D'. apply (proj1 (doing_complete B opt fuel)) in D as (d & D), D' as (d' & D').
  specialize (D (max d d') ltac:(lia)). specialize (D' (max d d') ltac:(lia)). congruence.
Qed.
(* Of the alternatives of an if the first is carried out whose test succeeds, and no other; the
   tests after it are not made. *)
Theorem C74_if pre e b post w w1 w2 r : refuses fuel pre w w1 -> tested fuel e w1 true w2 ->
  does B opt fuel (SIf (pre ++ (e, b) :: post)) w r <-> does_all B opt fuel b w2 r.
Proof.
  intros F T. split; [|intro; eapply d_if; eauto]. intro H. inversion H; subst; [contradiction| |].
  - match goal with Q : ?pre0 ++ (?e0, ?b0) :: ?post0 = _, F0 : refuses _ ?pre0 _ _, T0 : tested _ ?e0 _ true _, D0 : does_all _ _ _ ?b0 _ _ |- _ =>
      rename Q into EQ; rename F0 into F'; rename T0 into T'; rename D0 into D' end.
    clear H. revert pre F EQ. induction F' as [w|e1 b1 alts w v1 v2 T1 F' IH]; intros pre F EQ.
    + inversion F; subst; cbn [app] in EQ.
      * injection EQ as -> -> ->. unfold tested in *. rewrite T in T'. assert (w2 = w4) by congruence. now subst.
      * injection EQ as -> -> ->. unfold tested in *. congruence.
    + inversion F; subst; cbn [app] in EQ.
      * injection EQ as -> -> EQ. unfold tested in *. congruence.
      * injection EQ as -> -> EQ. match goal with Q : tested _ _ w false ?x |- _ => assert (x = v1) by (unfold tested in *; congruence); subst x end. eapply IH; eauto.
  - match goal with Q : refuses _ (pre ++ _) _ _ |- _ => rename Q into F' end. clear H. revert w F F'. induction pre as [|[e0 b0] pre IH]; intros w F F'.
    + inversion F; subst. inversion F'; subst. unfold tested in *. congruence.
    + inversion F; subst. inversion F'; subst. match goal with Q : tested _ e0 w false ?x, Q' : tested _ e0 w false ?y |- _ => assert (y = x) by (unfold tested in *; congruence); subst y end. eapply IH; eauto.
Qed.
(* A block with end in it crashes when it is reached: the statement is a null pointer. *)
Theorem C74_end_in_block_refuted e b alts w w' d : tested fuel e w true w' -> exec_f B opt fuel (S (S d)) (SIf ((e, SNone :: b) :: alts)) w = UB.
Proof. intro T. unfold tested in T. cbn [exec_f exec_step exec_if]. rewrite T. reflexivity. Qed.
End C74.
Print Assumptions C74_statement.
Print Assumptions C74_script.
Print Assumptions C74_deterministic.
Print Assumptions C74_if.
Print Assumptions C74_end_in_block_refuted.
Example C74_ex : output (str "foreach [2,4,6] as x; if x == 4; echo ""four""; elseif x < 7; echo ""less""; else; error; endif; endfor") =
    Ret (str "less" ++ [nl] ++ str "four" ++ [nl] ++ str "less" ++ [nl]) /\
  refuses 20 [(EBool false, [])] ex_world (set_g ex_world (mkGlob (syms ex_world) 2 [])) /\
  gsiril (ex_lib no_files) ex_opts 20 4 (str "if 1 == 1; end; endif") ex_world = UB.
Proof.
  split; [vm_compute; reflexivity|]. split; [|vm_compute; reflexivity].
  eapply rf_more; [vm_compute; reflexivity|]. apply rf_none.
Qed.

(* C75.  A script of definitions after which a composition (C60) is proved: the exit status is 0 if
   the composition is true, within the limits on its length and comes round, and 1 otherwise. *)
Lemma definition_keeps B opt fuel d w w' : definition d -> does B opt fuel d w (inl w') -> w_c w' = w_c w /\ d <> SNone /\ g_nodes (w_g w') = g_nodes (w_g w) /\ w_failed w' = w_failed w.
Proof.
  intros D H. destruct d; try contradiction; inversion H; subst; try contradiction; cbn [exec_plain] in *;
    match goal with Q : ok ?x = _ |- _ => assert (E : x = w') by (unfold ok in Q; congruence) end; subst w'; repeat split; discriminate.
Qed.
Lemma runs_defs B opt fuel cs ds : forall w ts us w1 k r, Forall2 (fun c d => definition d /\ reads_as B opt w [c] d) cs ds ->
  splits (c_msiril (w_c w)) false ts cs us -> does_all B opt fuel ds w (inl w1) ->
  runs B opt fuel false us w1 (length ds + k) r -> runs B opt fuel false ts w k r.
Proof.
  revert ds. induction cs as [|c cs IH]; intros ds w ts us w1 k r F SP D RU.
  - inversion F; subst. inversion SP; subst. inversion D; subst. exact RU.
  - inversion F as [|? d ? ds' [Dd Rd] F']; subst. inversion D; subst. apply splits_inv in SP as (vs & E & N & SP).
    match goal with Q : does _ _ _ d w (inl ?x) |- _ => rename x into w2; pose proof (definition_keeps Dd Q) as (Ec & Nd & _); rename Q into Q1 end.
    eapply r_more; [eapply sp_more; [exact E|exact N|constructor]|exact Rd|exact Nd|exact Q1|].
    eapply IH; [|rewrite Ec; exact SP|eassumption|cbn [length] in RU; rewrite Nat.add_succ_r; exact RU].
    clear - F' Ec. induction F' as [|c d cs ds [A R] F IH]; constructor; auto. split; auto. unfold reads_as in *. now rewrite Ec.
Qed.
Lemma all_keeps B opt fuel ds : Forall definition ds -> forall w w', does_all B opt fuel ds w (inl w') -> w_c w' = w_c w /\ g_nodes (w_g w') = g_nodes (w_g w) /\ w_failed w' = w_failed w.
Proof.
  induction 1 as [|d ds Dd F IH]; intros w w' H; inversion H; subst; auto.
  match goal with Q : does _ _ _ d w _, Q' : does_all _ _ _ ds _ _ |- _ => apply (definition_keeps Dd) in Q as (A & _ & C & E); apply IH in Q' as (A' & C' & E') end. repeat split; congruence.
Qed.
Theorem C75_script B opt w w1 s ts cs ds c e changes rows : o_prove opt = [] -> o_prove_one opt = false ->
  lex (c_msiril (w_c w)) (o_ci opt) s = Ret (ts, false) -> program (valid (c_msiril (w_c w))) (cs ++ [c]) ts ->
  Forall2 (fun c d => definition d /\ reads_as B opt w [c] d) cs ds -> reads_as B opt w [c] (SProve e) ->
  (forall fuel, does_all B opt fuel ds (set_failed w false) (inl w1)) ->
  (c_limit (w_c w) <= 0)%Z -> (0 <= c_extents (w_c w))%Z -> (0 <= g_nodes (w_g w))%Z ->
  (forall r t, c_show (w_c w) r = Some t -> ~ In (chr "\") t) -> standard (w_c w) (sym_lookup (syms w1)) ->
  row256 (c_rounds (w_c w)) -> length (c_rounds (w_c w)) <= c_bells (w_c w) -> c_bells (w_c w) <= 256 ->
  means (sym_lookup (syms w1)) false e changes -> rung (pad (c_bells (w_c w)) (c_rounds (w_c w))) changes rows ->
  let good := at_most (c_extents (w_c w)) rows /\ (c_max (w_c w) = 0 \/ length rows <= c_max (w_c w)) /\ (c_min (w_c w) = 0 \/ c_min (w_c w) <= length rows) /\
    last rows (pad (c_bells (w_c w)) (c_rounds (w_c w))) = c_rounds (w_c w) in
  exists N, forall fuel, N <= fuel -> exists k w', (exists D, forall depth, D <= depth -> gsiril B opt fuel depth s w = Ret (k, Some w')) /\
    (k = 0 <-> good) /\ (k = 1 <-> ~ good).
Proof.
  intros P0 P1 E PR F RP DA Hl He Hn Hsh Hst Hr Hb Hb2 Hm Hg good.
  assert (FD : Forall definition ds) by (clear - F; induction F as [|? ? ? ? [] ?]; auto).
  destruct (all_keeps FD (DA 0)) as (Kc & Kn & Kf). cbn [set_failed w_c w_g w_failed] in Kc, Kn, Kf.
  destruct (@C60_composition (w_c w) e (w_g w1) changes rows Hl He) as (N & CN); auto; [lia|]. cbv zeta in CN.
  exists N. intros fuel Hf. destruct (CN fuel Hf) as (v & fl & x & g' & PS & FL & _).
  set (w2 := set_proved w1 g' fl e v).
  assert (D2 : does B opt fuel (SProve e) w1 (inl w2)).
  { apply d_plain; [exact I|]. cbn [exec_plain]. rewrite P1. cbn [andb]. rewrite Kc, PS. reflexivity. }
  apply C70_layout in PR as (us & vs & SP & CE). apply splits_split in SP as (ws & SP1 & SP2).
  assert (RU : runs B opt fuel false ts (set_failed w false) 0 (inl (w2, S (length ds + 0)))).
  { eapply runs_defs with (w := set_failed w false); [exact F|exact SP1|exact (DA fuel)|].
    eapply r_more with (s := SProve e); [rewrite Kc; exact SP2| |discriminate|exact D2|].
    - unfold reads_as in RP |- *. rewrite Kc. exact RP.
    - eapply r_eof. subst w2. cbn [set_proved w_c]. rewrite Kc. exact CE. }
  exists (if w_failed w2 then 1 else 0), w2. split.
  - apply (proj2 (proj2 (proj2 (doing_complete B opt fuel)))) in RU as (d0 & H). exists d0. intros depth Hd.
    unfold gsiril, run_text. cbn [w_c set_failed]. rewrite E. cbn [bind].
    assert (X : match ts, false with [], true => Throw BellInvalid | _, _ => run_tokens B opt (exec_f B opt fuel depth) false (S (S (length ts))) ts (set_failed w false) 0 end = Ret (inl (w2, S (length ds + 0)))).
    { destruct ts as [|t ts]; apply H; cbn [length]; lia. }
    rewrite X. cbn [bind]. rewrite P0, P1. cbn [andb negb]. rewrite andb_false_r. reflexivity.
  - assert (W2 : w_failed w2 = fl) by (subst w2; cbn [set_proved w_failed]; rewrite Kf; reflexivity). rewrite W2.
    assert (G : fl = false <-> good) by (rewrite FL; unfold good; tauto).
    rewrite <- G. destruct fl; split; split; intro; try discriminate; try congruence; auto.
Qed.
Print Assumptions C75_script.
(* touch = 5 p ; prove touch *)
Definition ex_touch : text := str "touch = 5 p" ++ [nl] ++ str "prove touch".
Example C75_ex : let c1 := [tok KName "touch"; tok KAssign "="; tok KNum "5"; tok KName "p"] in let c2 := [tok KName "prove"; tok KName "touch"] in
  let d := SDef (str "touch") (ERepeat 5 (ESym (str "p"))) in
  lex false false ex_touch = Ret (c1 ++ newline :: c2 ++ [newline], false) /\ program (valid false) ([c1] ++ [c2]) (c1 ++ newline :: c2 ++ [newline]) /\
  reads_as (ex_lib no_files) ex_opts ex_world [c1] d /\ reads_as (ex_lib no_files) ex_opts ex_world [c2] (SProve (ESym (str "touch"))) /\
  exists w1, (forall fuel, does_all (ex_lib no_files) ex_opts fuel [d] (set_failed ex_world false) (inl w1)) /\ standard (w_c ex_world) (sym_lookup (syms w1)) /\
    means (sym_lookup (syms w1)) false (ESym (str "touch")) (concat (repeat (mch plain_bob) 5)) /\
    (exists rows, rung (pad 6 (rounds 6)) (concat (repeat (mch plain_bob) 5)) rows /\ length rows = 60 /\ last rows [] = rounds 6) /\
    session no_files ex_opts 20 4 ex_touch = Ret (0, [VTrue]).
Proof.
  cbv zeta. split; [vm_compute; reflexivity|]. split; [apply C69_commands; vm_compute; reflexivity|].
  split; [apply so_simple, (@s_def _ _ _ _ (tok KName "touch")); [split; [reflexivity|intro H; cbn in H; intuition discriminate]|reflexivity|right; split; [discriminate|vm_compute; reflexivity]]|].
  split; [apply so_simple, s_prove; [split; reflexivity|intro H; cbn in H; intuition discriminate|vm_compute; reflexivity]|].
  eexists. split; [intro fuel; eapply da_more; [apply d_plain; [exact I|reflexivity]|constructor]|].
  split; [|split; [|split]].
  - split; [|split; [reflexivity|split; intro H; exfalso; apply H; reflexivity]].
    intros n e H. cbn [init_file In] in H. repeat (destruct H as [H|H]; [injection H as <- <-; vm_compute; reflexivity|]). destruct H.
  - eapply m_sym; [discriminate|reflexivity|]. apply m_repeat with (n := 5%Z); [discriminate|]. eapply m_sym; [discriminate|reflexivity|constructor].
  - assert (X : match ring_list (pad 6 (rounds 6)) (concat (repeat (mch plain_bob) 5)) with Some l => length l = 60 /\ last l [] = rounds 6 | None => False end) by (vm_compute; split; reflexivity).
    destruct (ring_list (pad 6 (rounds 6)) (concat (repeat (mch plain_bob) 5))) as [rows|] eqn:E; [|contradiction].
    exists rows. split; [now apply ring_list_rung|exact X].
  - vm_compute; reflexivity.
Qed.
