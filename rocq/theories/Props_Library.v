(* Props_Library.v - property theorems about libraries: looking up, opening, what was written. *)
From Verif Require Import Base M_Bell M_Change M_Row M_PN M_Method M_MethClass M_Dim M_Names M_Stream M_Litelib M_Mslib M_Library
  Spec_Row Spec_Change Spec_PN Spec_Dim Spec_Method Spec_MethClass Spec_Names Spec_Litelib Spec_Litelib2 Spec_Basename Spec_Library
  P_Bell P_Change P_Change2 P_Change3 P_PN P_Method P_Dim P_Names P_Litelib P_Litelib2 P_Litelib3 P_Basename P_Mslib P_Library Props_Method Props_MethClass Props_Names Props_Basename Props_Litelib.
Set Implicit Arguments.
Unset Strict Implicit.
Open Scope nat_scope.

(* C57: load looks through the names for the first that is the same in upper or lower case, on the
   number of bells asked for (0 for any) *)
Theorem C57_load : forall sym l name stage, exists o,
  looked ln_name (fun e n => same_text n name /\ (stage = 0%Z \/ ln_bells e = stage)) l o /\
  lib_load sym l name stage = match o with
    | Ret (Some e) => lent_meth sym e | Ret None => Throw InvalidArgument
    | Throw x => Throw x | UB => UB | Diverge => Diverge end.
Proof.
  intros sym l name stage. eexists. split; [|unfold lib_load].
  - apply (@scan_spec _ ln_name _ (fun e n => list_ascii_eqb (map to_lower n) (map to_lower name) && ((stage =? 0)%Z || (ln_bells e =? stage)%Z))).
    intros e v _. rewrite andb_true_iff, orb_true_iff, text_eqb, !Z.eqb_eq, same_text_lower. reflexivity.
  - destruct scan as [[e|]|x| |]; reflexivity.
Qed.
Print Assumptions C57_load.
Lemma pn_wf n s m : n <= 255 -> method_of_pn default_symtab s n = Ret m -> mb m = n /\ Forall (fun c => cn c = n /\ wf_change c) (mch m).
Proof.
  intros Hn E. unfold method_of_pn in E. destruct (interpret_pn default_symtab n s) as [cs|e| |] eqn:E'; try discriminate.
  injection E as <-. cbn [mch mb] in *. split; [reflexivity|].
  apply (C17_parse s cs Hn) in E'. destruct E' as (w & t & _ & H & _). clear -H Hn.
  assert (C : forall s cs, changes_text default_symtab n s cs -> Forall (fun c => cn c = n /\ wf_change c) cs).
  { clear -Hn. intros s0 cs0 H.
    induction H as [|c w s ch cs Hc Ech W H IH|p w s ch cs Hp Ech W Hw H IH]; constructor; auto;
      (match goal with E : change_of_pn _ _ ?p = Ret _ |- _ => destruct (change_of_pn_wf p Hn) as [(c' & E' & W' & N')|[E'|E']]; rewrite E' in E; try discriminate; injection E as <-; auto end). }
  assert (B : forall s cs, block_text default_symtab n s cs -> Forall (fun c => cn c = n /\ wf_change c) cs).
  { intros s0 cs0 X. destruct X as [s1 cs1 X|w1 s1 cs1 _ X|w1 s1 cs1 _ X]; apply C in X; auto.
    apply Forall_app. split; auto. apply Forall_forall. intros c Hc. rewrite Forall_forall in X. apply X. apply in_rev.
    destruct (rev cs1); [destruct Hc|now right]. }
  induction H as [s1 cs1 X|s1 cs1 w1 t1 ds1 X W H IH]; [now apply B in X|]. apply Forall_app. split; auto. now apply B in X.
Qed.
Lemma changes_eqb_wf n k : forall a b, Forall (fun c => cn c = n /\ wf_change c) a -> Forall (fun c => cn c = k /\ wf_change c) b -> changes_eqb a b = true <-> a = b.
Proof.
  induction a as [|x a IH]; intros [|y b] A B; cbn [changes_eqb]; split; intros H; try discriminate; auto.
  - apply andb_true_iff in H as [H1 H2]. inversion A as [|? ? [? ?] ?]; inversion B as [|? ? [? ?] ?]; subst. f_equal; [now apply change_eqb_wf|]. now apply IH.
  - injection H as -> ->. inversion A as [|? ? [? ?] ?]; inversion B as [|? ? [? ?] ?]; subst. apply andb_true_iff. split; [now apply change_eqb_wf|]. now apply IH.
Qed.
(* find of a method looks for the first entry whose place notation is of the same changes *)
Theorem C57_find : forall l m, wf_method m -> (forall e, In e (lib_ents l) -> (ln_bells e <= 255)%Z) ->
  looked (lent_meth default_symtab) (fun _ v => mch (fst v) = mch m) l (lib_find default_symtab l m).
Proof.
  intros l m WF B.
  assert (D : forall e v, In e (lib_ents l) -> lent_meth default_symtab e = Ret v -> changes_eqb (mch (fst v)) (mch m) = true <-> mch (fst v) = mch m).
  { intros e (m' & n) I E. unfold lent_meth in E. destruct (ln_pn e) as [p| | |]; try discriminate. cbn [bind] in E. destruct (ln_base e) as [nm| | |]; try discriminate. cbn [bind] in E.
    destruct method_of_pn as [m2| | |] eqn:M; try discriminate. cbn [bind] in E. injection E as <- <-. specialize (B e I).
    apply pn_wf in M as [_ M]; [|lia]. cbn [fst]. eapply changes_eqb_wf; [exact M|apply WF]. }
  (* entries that are not in the library do not matter *)
  assert (G : forall es fin, (forall e, In e es -> In e (lib_ents l)) -> looked (lent_meth default_symtab) (fun _ v => mch (fst v) = mch m) (mkLib es fin)
    (scan (fun e => '(m', _) <- lent_meth default_symtab e ;; Ret (changes_eqb (mch m') (mch m))) es fin)).
  { intros es fin I. set (test := fun (e : lent) (v : method * list ascii) => changes_eqb (mch (fst v)) (mch m)).
    assert (S : scan (fun e => '(m', _) <- lent_meth default_symtab e ;; Ret (changes_eqb (mch m') (mch m))) es fin = scan (fun e => v <- lent_meth default_symtab e ;; Ret (test e v)) es fin).
    { clear. induction es as [|e es IH]; [reflexivity|]. cbn [scan]. destruct (lent_meth default_symtab e) as [[m' n]| | |]; cbn [bind]; auto. unfold test at 1. cbn [fst]. now rewrite IH. }
    rewrite S. clear S.
    assert (H : looked (lent_meth default_symtab) (fun e v => test e v = true) (mkLib es fin) (scan (fun e => v <- lent_meth default_symtab e ;; Ret (test e v)) es fin)) by (apply (@scan_spec _ _ _ test (mkLib es fin)); tauto).
    assert (W : forall x, In x es -> wrong (lent_meth default_symtab) (fun e v => test e v = true) x -> wrong (lent_meth default_symtab) (fun _ v => mch (fst v) = mch m) x).
    { intros x X (v & V1 & V2). exists v. split; auto. rewrite <- (D x v (I x X) V1). exact V2. }
    destruct H as [pre e v post E P V R|A E|pre e post o E P F|o A F]; cbn [lib_ents lib_end] in *.
    - apply (@lk_found _ _ _ (mkLib es fin) pre e v post E); [|exact V|apply (D e v); auto; apply I; rewrite E; apply in_or_app; right; now left]. intros x X. apply W; auto. rewrite E. apply in_or_app. now left.
    - apply (@lk_none _ _ _ (mkLib es fin)); cbn [lib_ents lib_end]; auto.
    - apply (@lk_failed _ _ _ (mkLib es fin) pre e post o E); [|exact F]. intros x X. apply W; auto. rewrite E. apply in_or_app. now left.
    - apply (@lk_end _ _ _ (mkLib es fin)); cbn [lib_ents lib_end]; auto. }
  specialize (G (lib_ents l) (lib_end l) (fun e I => I)). destruct l. exact G.
Qed.
Print Assumptions C57_find.
(* find of a title looks for the first entry with exactly that title *)
Theorem C57_find_title : forall sym junk l title, looked (lent_title sym junk) (fun _ t => t = title) l (lib_find_title sym junk l title).
Proof. intros. unfold lib_find_title. apply (@scan_spec _ (lent_title sym junk) (fun _ t => t = title) (fun _ t => list_ascii_eqb t title)). intros e v _. apply text_eqb. Qed.
Print Assumptions C57_find_title.
(* a search has only one result *)
Theorem C57_looked : forall T (what : lent -> outcome T) right l o o', looked what right l o -> looked what right l o' -> o = o'.
Proof. intros. eapply looked_fun; eauto. Qed.
Print Assumptions C57_looked.

(* dir and mdir list everything in order *)
Lemma collect_ret A B (f : A -> outcome B) l r : collect f l = Ret r <-> Forall2 (fun x y => f x = Ret y) l r.
Proof.
  revert r. induction l as [|x l IH]; intros r; cbn [collect].
  - split; [intros [= <-]; constructor|intros H; inversion H; reflexivity].
  - destruct (f x) as [y| | |] eqn:E; cbn [bind].
    + destruct (collect f l) as [r'| | |] eqn:C; cbn [bind].
      * split; [intros [= <-]; constructor; auto; now apply IH|]. intros H. inversion H as [|? y' ? r2 E' F]; subst. apply IH in F. congruence.
      * split; [discriminate|]. intros H. inversion H as [|? y' ? r2 E' F]; subst. apply IH in F. discriminate.
      * split; [discriminate|]. intros H. inversion H as [|? y' ? r2 E' F]; subst. apply IH in F. discriminate.
      * split; [discriminate|]. intros H. inversion H as [|? y' ? r2 E' F]; subst. apply IH in F. discriminate.
    + split; [discriminate|]. intros H. inversion H; congruence.
    + split; [discriminate|]. intros H. inversion H; congruence.
    + split; [discriminate|]. intros H. inversion H; congruence.
Qed.
Theorem C57_dir : forall sym l, lib_end l = Ret tt ->
  (forall ns, lib_dir true l = Ret ns <-> Forall2 (fun e n => ln_name e = Ret n) (lib_ents l) ns) /\
  (forall ms, lib_mdir sym true l = Ret ms <-> Forall2 (fun e v => lent_meth sym e = Ret v) (lib_ents l) ms).
Proof.
  intros sym l E. unfold lib_dir, lib_mdir. rewrite E. split; intros r; rewrite <- collect_ret; destruct collect; cbn [bind]; split; congruence.
Qed.
Print Assumptions C57_dir.

(* the path is taken apart at its colons *)
Theorem C57_path : forall p, exists ds, split_path p = Ret ds /\ dirs_of p ds /\ forall ds', dirs_of p ds' -> ds' = ds.
Proof. intros p. destruct (split_path_spec p) as (ds & E & D). exists ds. split; [exact E|]. split; [exact D|]. intros ds' D'. eapply dirs_of_fun; eauto. Qed.
Print Assumptions C57_path.
(* a library is looked for under its name and then, unless the name is absolute, in the directories of
   the path; the first type that can read a file there takes it *)
Theorem C57_open : forall L (types : list (list ascii -> option L)) path f, exists ds r, dirs_of path ds /\
  lib_open types path f = Ret r /\ opened types (places ds f) r /\ forall r', opened types (places ds f) r' -> r' = r.
Proof.
  intros L types path f. destruct (split_path_spec path) as (ds & E & D). exists ds.
  assert (G : exists r, lib_open types path f = Ret r /\ opened types (places ds f) r).
  { unfold lib_open. destruct f as [|c f]; [exists None; split; [reflexivity|constructor]|]. cbn [places length Nat.ltb Nat.leb negb starts_chr].
    destruct (try_types_spec types (c :: f)) as [(pre & t & post & l & T & A & B & ->)|[-> A]]; [exists (Some l); split; [reflexivity|eapply op_here; eauto]|].
    destruct ascii_dec as [C|C].
    - subst c. exists None. split; [reflexivity|]. apply op_later; auto. constructor.
    - replace (eqc c (chr "/")) with false by (symmetry; destruct (eqc c (chr "/")) eqn:Q; auto; apply eqc_true in Q; contradiction). rewrite E. cbn [bind].
      eexists. split; [reflexivity|]. apply op_later; auto. apply try_locs_spec. }
  destruct G as (r & R & O). exists r. repeat (split; [assumption|]). intros r' O'. eapply opened_fun; eauto.
Qed.
Print Assumptions C57_open.
(* an empty directory in the path is the root *)
Theorem C57_root_refuted : forall L (types : list (list ascii -> option L)) l, (forall t, In t types -> t (str "lib") = None) -> try_types types (str "/lib") = Some l ->
  lib_open types (str ":/usr") (str "lib") = Ret (Some l).
Proof.
  intros L types l N E. unfold lib_open. change (negb (0 <? length (str "lib"))) with false. cbv iota. destruct (try_types_spec types (str "lib")) as [(pre & t & post & l' & -> & _ & T & _)|[-> _]].
  - rewrite N in T; [discriminate|]. apply in_or_app. right. now left.
  - change (starts_chr (chr "/") (str "lib")) with false. cbv iota. change (split_path (str ":/usr")) with (Ret [@nil ascii; str "/usr"]). cbn [bind try_locs]. cbn [app]. change (chr "/" :: str "lib") with (str "/lib"). rewrite E. reflexivity.
Qed.
Print Assumptions C57_root_refuted.

(* everything appended to a multilibout goes to all its outputers in order *)
Theorem C57_multi : forall E (es : list E) outs, fold_left (@mlo_append E) es outs = map (fun o => o ++ es) outs.
Proof.
  intros E es. induction es as [|e es IH]; intros outs; cbn [fold_left]; [rewrite <- (map_id outs) at 1; apply map_ext; intros; now rewrite app_nil_r|].
  rewrite IH. unfold mlo_append. rewrite map_map. apply map_ext. intros o. now rewrite <- app_assoc.
Qed.
Print Assumptions C57_multi.

(* ---- libraries written by method_stream ---- *)
Lemma lite_lib_all pin req : forall fuel s e rs, lite_iter fuel req s e = Ret rs -> lite_lib fuel pin req s e = mkLib (map (lent_of_lite pin) rs) (Ret tt).
Proof.
  induction fuel as [|fuel IH]; intros s e rs H; cbn [lite_iter lite_lib] in H |- *; [discriminate|]. destruct (lite_next req s e) as [[[ok e'] s']| | |]; try discriminate. cbn [bind] in H.
  destruct ok; [|injection H as <-; reflexivity]. destruct (lite_iter fuel req s' e') as [r| | |] eqn:R; try discriminate. injection H as <-. rewrite (IH _ _ _ R). reflexivity.
Qed.
Lemma trimmed_ends s c t u d : s = c :: t -> is_white c = false -> s = u ++ [d] -> is_white d = false -> trimmed s = s.
Proof.
  intros -> C E D. unfold trimmed. cbn [drop_while]. rewrite C. rewrite E, rev_app_distr. cbn [rev app drop_while]. rewrite D. cbn [rev]. now rewrite rev_involutive.
Qed.
Lemma stage_chars n st : stage_word n st -> forallb nonwhite st = true /\ no_nl st = true /\ exists u d, st = u ++ [d] /\ is_white d = false.
Proof.
  intros S. assert (A : forallb nonwhite st = true).
  { destruct S as [I|[_ ->]].
    - assert (T : forallb (fun p => forallb nonwhite (snd p)) stage_table = true) by (vm_compute; reflexivity). exact (proj1 (forallb_forall _ _) T _ I).
    - assert (D : forall w, forallb is_digit w = true -> forallb nonwhite w = true).
      { intros w W. rewrite forallb_forall in *. intros c I. specialize (W c I). unfold nonwhite, is_white, is_blank. unfold is_digit, code in W. apply andb_true_iff in W as [W1 W2]. apply Nat.leb_le in W1, W2.
        destruct (Nat.eqb_spec (nat_of_ascii c) 32), (Nat.eqb_spec (nat_of_ascii c) 9), (Nat.eqb_spec (nat_of_ascii c) 13), (Nat.eqb_spec (nat_of_ascii c) 10); try lia; reflexivity. }
      destruct (Z.ltb_spec n 0) as [H|H].
      + rewrite print_int_neg by lia. cbn [forallb]. apply andb_true_iff. split; [reflexivity|]. apply D. apply (proj1 (print_int_pos (z := (- n)%Z) ltac:(lia))).
      + apply D. apply (proj1 (print_int_pos (z := n) H)). }
  split; [exact A|]. split.
  - unfold no_nl. rewrite forallb_forall in *. intros c I. specialize (A c I). unfold nonwhite, is_white in A. unfold is_nl. destruct (nat_of_ascii c =? 10); [rewrite orb_true_r in A; discriminate|reflexivity].
  - destruct (stage_no_space S) as [_ NE]. destruct (exists_last NE) as (u & d & ->). exists u, d. split; [reflexivity|]. rewrite forallb_app in A. apply andb_true_iff in A as [_ A]. cbn in A. unfold nonwhite in A. now destruct (is_white d).
Qed.
Lemma no_nl_spaced ws : forallb no_nl ws = true -> no_nl (spaced ws) = true.
Proof.
  unfold no_nl. induction ws as [|w ws IH]; [reflexivity|]. cbn [forallb]. intros H. apply andb_true_iff in H as [H1 H2]. destruct ws as [|x ws]; [exact H1|].
  rewrite spaced_cons by discriminate. rewrite forallb_app. cbn [forallb]. rewrite H1. cbn [andb]. exact (IH H2).
Qed.
Lemma title_facts m name title : wf_method m -> length (mch m) < 512 -> nameable m name -> fullname 0 name m 9999 = Ret title ->
  no_nl title = true /\ trimmed title = title /\ base_name_of (Z.of_nat (mb m)) title = Ret name /\ forall junk, fullname junk name m 9999 = Ret title.
Proof.
  intros WF L (st & ST & PN & NN & (c0 & t0 & N0 & W0) & CL) F. assert (Hb : mb m <= 255) by apply WF.
  destruct (C52_title name WF L (year := 9999%Z) ltac:(right; lia)) as (k & d & l & st' & ws & K & D & LI & ST' & TW & FN).
  assert (st' = st) by (eapply stage_fun; eauto). subst st'. rewrite FN in F. injection F as <-.
  assert (NW : name_word name = [name]) by (rewrite N0; reflexivity). rewrite NW. cbn [app]. destruct (stage_chars ST) as (SA & SN & u & dd & SE & SD).
  assert (WS : exists k' d' l', ws = class_words k' d' l' 9999 ++ [st] /\ strippable k' l').
  { destruct TW as [[C ->]|[C ->]]; [exists Principle, false, false; split; reflexivity|]. exists k, d, l. split; [reflexivity|]. destruct CL as [CL|CL]; [contradiction|]. now apply CL. }
  destruct WS as (k' & d' & l' & -> & SK).
  split; [|split; [|split]].
  - apply no_nl_spaced. cbn [forallb]. rewrite NN, forallb_app. cbn [forallb]. rewrite SN.
    assert (X : forallb no_nl (class_words k' d' l' 9999) = true) by (destruct k', d', l'; reflexivity). rewrite X. reflexivity.
  - set (cw := class_words k' d' l' 9999). rewrite spaced_cons by (destruct cw; discriminate).
    assert (E : exists x, spaced (cw ++ [st]) = x ++ st).
    { assert (Y : Forall (fun w => w <> []) cw) by (subst cw; destruct k', d', l'; repeat constructor; discriminate). rewrite (spaced_snoc st Y). rewrite app_assoc. eauto. }
    destruct E as (x & ->). rewrite N0, SE. cbn [app]. eapply trimmed_ends; [reflexivity|exact W0| |exact SD].
    instantiate (1 := c0 :: t0 ++ chr " " :: x ++ u). cbn [app]. rewrite <- !app_assoc. cbn [app]. rewrite <- ?app_assoc. reflexivity.
  - apply C53_base_name; auto. lia.
  - intros junk. rewrite FN, NW. reflexivity.
Qed.
(* what is in a library written by method_stream with full titles: the methods, with their names *)
Theorem C57_written : forall flags ms es, has flags M_OMIT_LH = false ->
  Forall2 (fun (p : method * list ascii) e => let '(m, name) := p in wf_method m /\ 1 <= mb m /\ length (mch m) < 512 /\ nameable m name /\
    oe_bells e = Z.of_nat (mb m) /\ format default_symtab m flags = Ret (oe_pn e) /\ fullname 0 name m 9999 = Ret (oe_title e)) ms es ->
  let l := lite_library true 0 (stream_out true nf_full_title es) in
  lib_end l = Ret tt /\
  Forall2 (fun r p => lent_meth default_symtab r = Ret p /\ ln_bells r = Z.of_nat (mb (fst p)) /\ forall junk, ln_name r = fullname junk (snd p) (fst p) 9999) (lib_ents l) ms.
Proof.
  intros flags ms es FL H l.
  assert (G : Forall (fun p => wf_method (fst p) /\ 1 <= mb (fst p) /\ oe_bells (snd p) = Z.of_nat (mb (fst p)) /\
    format default_symtab (fst p) flags = Ret (oe_pn (snd p)) /\ no_nl (text_written nf_full_title (snd p)) = true /\
    trimmed (text_written nf_full_title (snd p)) = text_written nf_full_title (snd p)) (combine (map fst ms) es) /\ map snd (combine (map fst ms) es) = es).
  { clear l. induction H as [|(m & name) e ms es (WF & B & L & N & OB & F & T) HF [IH1 IH2]]; [split; [constructor|reflexivity]|]. destruct (title_facts WF L N T) as (T1 & T2 & _).
    cbn [map combine fst snd]. split; [|now rewrite IH2]. constructor; [|exact IH1]. cbn [fst snd text_written]. repeat (split; [assumption|]). assumption. }
  destruct G as [G1 G2]. destruct (C54_methods FL G1) as (rs & R & F). rewrite G2 in R.
  assert (E : l = mkLib (map (lent_of_lite true) rs) (Ret tt)) by (apply lite_lib_all; exact R). rewrite E. clear E l R G1 G2. split; [reflexivity|]. cbn [lib_ents].
  revert rs F. induction H as [|(m & name) e ms es (WF & B & L & N & OB & FM & T) HF IH]; intros rs F; cbn [map combine fst snd] in F; inversion F as [|r ? rs' ? (R1 & R2 & q & Q1 & Q2) FF]; subst; cbn [map]; constructor; auto.
  cbn [fst snd text_written] in *. destruct (title_facts WF L N T) as (_ & _ & BN & J). split; [|split; [exact R1|]].
  - unfold lent_meth, lent_of_lite. cbn [ln_pn ln_base ln_bells]. rewrite Q1. cbn [bind]. unfold lite_base_name, lite_name. rewrite R2. cbn [bind]. rewrite R1, BN. cbn [bind]. rewrite Nat2Z.id, Q2. reflexivity.
  - intros junk. unfold lent_of_lite, lite_name. cbn [ln_name]. rewrite R2. symmetry. apply J.
Qed.
Print Assumptions C57_written.
Lemma same_text_refl t : same_text t t.
Proof. induction t; constructor; auto. now left. Qed.
(* so that load, by the title in upper or lower case, and find give each of them back, unless one like
   it was written before *)
Theorem C57_written_found : forall flags ms es, has flags M_OMIT_LH = false ->
  Forall2 (fun (p : method * list ascii) e => let '(m, name) := p in wf_method m /\ 1 <= mb m /\ length (mch m) < 512 /\ nameable m name /\
    oe_bells e = Z.of_nat (mb m) /\ format default_symtab m flags = Ret (oe_pn e) /\ fullname 0 name m 9999 = Ret (oe_title e)) ms es ->
  forall pre m name post title, ms = pre ++ (m, name) :: post -> fullname 0 name m 9999 = Ret title ->
  let l := lite_library true 0 (stream_out true nf_full_title es) in
  (forall asked stage, same_text title asked -> stage = 0%Z \/ stage = Z.of_nat (mb m) ->
    (forall m' n' t, In (m', n') pre -> fullname 0 n' m' 9999 = Ret t -> ~ same_text t title) -> lib_load default_symtab l asked stage = Ret (m, name)) /\
  ((forall m' n', In (m', n') pre -> fullname 0 n' m' 9999 <> Ret title) ->
    exists e, lib_find_title default_symtab 0 l title = Ret (Some e) /\ lent_meth default_symtab e = Ret (m, name)) /\
  ((forall m' n', In (m', n') pre -> mch m' <> mch m) ->
    exists e, lib_find default_symtab l m = Ret (Some e) /\ lent_meth default_symtab e = Ret (m, name)).
Proof.
  intros flags ms es FL H pre m name post title EM T l.
  destruct (C57_written FL H) as [LE LC]. fold l in LE, LC.
  assert (WFT : forall m' n', In (m', n') ms -> wf_method m' /\ exists t, fullname 0 n' m' 9999 = Ret t).
  { intros m' n' I. clear - H I. induction H as [|(x & y) e ms es (WF & _ & _ & _ & _ & _ & F) HF IH]; [destruct I|]. destruct I as [[= -> ->]|I]; eauto. }
  rewrite EM in LC.
  assert (SP : exists pr e po, lib_ents l = pr ++ e :: po /\ Forall2 (fun r p => lent_meth default_symtab r = Ret p /\ ln_bells r = Z.of_nat (mb (fst p)) /\ forall junk, ln_name r = fullname junk (snd p) (fst p) 9999) pr pre /\
     lent_meth default_symtab e = Ret (m, name) /\ ln_bells e = Z.of_nat (mb m) /\ forall junk, ln_name e = fullname junk name m 9999).
  { clear - LC. revert LC. generalize (lib_ents l). induction pre as [|p pre IH]; intros rs LC; cbn [app] in LC; inversion LC as [|r ? rs' ? R F]; subst.
    - exists [], r, rs'. split; [reflexivity|]. split; [constructor|]. exact R.
    - destruct (IH _ F) as (pr & e & po & -> & A & B). exists (r :: pr), e, po. split; [reflexivity|]. split; [now constructor|exact B]. }
  destruct SP as (pr & e & po & EE & FP & E1 & E2 & E3).
  assert (PR : forall x, In x pr -> exists m' n', In (m', n') pre /\ lent_meth default_symtab x = Ret (m', n') /\ ln_bells x = Z.of_nat (mb m') /\ forall junk, ln_name x = fullname junk n' m' 9999).
  { clear - FP. induction FP as [|r (m' & n') pr pre R F IH]; [intros x []|]. intros x [<-|X]; [exists m', n'; split; [now left|exact R]|].
    destruct (IH x X) as (a & b & I & J). exists a, b. split; [now right|exact J]. }
  assert (INP : forall m' n', In (m', n') pre -> In (m', n') ms) by (intros; rewrite EM; apply in_or_app; now left).
  assert (J : forall e m' n', lent_meth default_symtab e = Ret (m', n') -> lent_title default_symtab 0 e = fullname 0 n' m' 9999) by (intros e0 m' n' Q; unfold lent_title; rewrite Q; reflexivity).
  split; [|split].
  - intros asked stage SA ST N. destruct (C57_load default_symtab l asked stage) as (o & O & ->).
    assert (TR : forall a b c, same_text a b -> same_text b c -> same_text a c) by (intros a b c; rewrite <- !same_text_lower; congruence).
    assert (SY : forall a b, same_text a b -> same_text b a) by (intros a b; rewrite <- !same_text_lower; congruence).
    assert (X : o = Ret (Some e)); [|now subst o]. eapply looked_fun; [exact O|]. eapply (lk_found EE); [|rewrite (E3 0); exact T|].
    + intros x I. destruct (PR x I) as (m' & n' & I' & _ & _ & R3). destruct (WFT m' n' (INP _ _ I')) as (_ & t & Ft). exists t. split; [rewrite (R3 0); exact Ft|].
      intros [S _]. apply (N m' n' t I' Ft). apply (TR _ _ _ S), SY. exact SA.
    + split; [exact SA|]. rewrite E2. destruct ST; auto.
  - intros N. exists e. split; [|exact E1]. eapply looked_fun; [apply C57_find_title|]. eapply (lk_found EE); [|rewrite (J _ _ _ E1); exact T|reflexivity].
    intros x I. destruct (PR x I) as (m' & n' & I' & R1 & _). destruct (WFT m' n' (INP _ _ I')) as (_ & t & Ft). exists t. split; [rewrite (J _ _ _ R1); exact Ft|].
    intros ->. exact (N m' n' I' Ft).
  - intros N. exists e. split; [|exact E1]. assert (WM : wf_method m) by (apply (WFT m name); rewrite EM; apply in_or_app; right; now left).
    eapply looked_fun; [apply C57_find; [exact WM|]|].
    + assert (B : Forall2 (fun r (p : method * list ascii) => ln_bells r = Z.of_nat (mb (fst p)) /\ In p ms) (lib_ents l) ms).
      { rewrite EM. clear - LC. assert (G : forall k, incl k (pre ++ (m, name) :: post) -> forall rs, Forall2 (fun r p => lent_meth default_symtab r = Ret p /\ ln_bells r = Z.of_nat (mb (fst p)) /\ (forall junk, ln_name r = fullname junk (snd p) (fst p) 9999)) rs k -> Forall2 (fun r (p : method * list ascii) => ln_bells r = Z.of_nat (mb (fst p)) /\ In p (pre ++ (m, name) :: post)) rs k).
        { intros k I rs F. induction F as [|r p rs k (_ & R & _) F IH]; constructor; [split; [exact R|apply I; now left]|]. apply IH. intros x X. apply I. now right. }
        apply G; [apply incl_refl|exact LC]. }
      intros x I. clear - B I WFT. revert B. generalize ms at 2. intros k B. induction B as [|r (m' & n') rs k (R & Q) F IH]; [destruct I|]. destruct I as [<-|I]; [|auto].
      rewrite R. cbn [fst]. destruct (WFT _ _ Q) as [W _]. destruct W as (W & _). lia.
    + eapply (lk_found EE); [|exact E1|reflexivity]. intros x I. destruct (PR x I) as (m' & n' & I' & R1 & _). exists (m', n'). split; [exact R1|]. cbn [fst]. apply (N m' n' I').
Qed.
Print Assumptions C57_written_found.

(* one entry that cannot be read hides those after it from find, but not from load *)
Definition bad_lib : list ascii := str "6:&-1-1-1,q Bad Minor" ++ [newline] ++ str "6:&-1-1-1,2 Plain Bob Minor" ++ [newline].
Theorem C57_hidden_refuted : exists x, lib_find default_symtab (lite_library true 0 bad_lib) plain_bob = Throw x /\ lib_load default_symtab (lite_library true 0 bad_lib) (str "PLAIN bob minor") 0 = Ret (plain_bob, str "Plain").
Proof. eexists. split; vm_compute; reflexivity. Qed.
Print Assumptions C57_hidden_refuted.

Example C57_ex : nameable plain_bob (str "Plain") /\ wf_method plain_bob /\ fullname 0 (str "Plain") plain_bob 9999 = Ret (str "Plain Bob Minor") /\
  exists e, Forall2 (fun (p : method * list ascii) e => let '(m, name) := p in wf_method m /\ 1 <= mb m /\ length (mch m) < 512 /\ nameable m name /\
    oe_bells e = Z.of_nat (mb m) /\ format default_symtab m 0 = Ret (oe_pn e) /\ fullname 0 name m 9999 = Ret (oe_title e)) [(plain_bob, str "Plain")] [e].
Proof.
  assert (F : fullname 0 (str "Plain") plain_bob 9999 = Ret (str "Plain Bob Minor")) by (vm_compute; reflexivity).
  assert (N : nameable plain_bob (str "Plain")).
  { exists (str "Minor"). split; [left; cbn; tauto|]. split; [apply plain_b; vm_compute; reflexivity|]. split; [reflexivity|]. split; [exists (chr "P"), (str "lain"); split; reflexivity|]. right.
    assert (L : length (mch plain_bob) < 512) by (cbn; lia).
    destruct (C46_class plain_bob_wf L (year := 9999%Z) ltac:(right; lia)) as (k & d & l & E & K & D & LI).
    intros k' l' K' LI'. assert (X : k' = k) by (exact (C46_one_kind plain_bob_wf K' K)). subst k'. specialize (E 0). change (methclass 0 plain_bob 9999) with (Ret 2%Z) in E.
    assert (W : l' = l) by (destruct l, l'; try reflexivity; intuition discriminate). subst l'.
    destruct k, d, l; try discriminate E; exact I. }
  split; [exact N|]. split; [exact plain_bob_wf|]. split; [exact F|].
  eexists (mkOE 6 _ None [] _). constructor; [|constructor]. split; [exact plain_bob_wf|]. split; [cbn; lia|]. split; [cbn; lia|]. split; [exact N|]. split; [reflexivity|].
  split; [vm_compute; reflexivity|exact F].
Qed.
