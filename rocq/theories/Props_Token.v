(* Props_Token.v - C68: the tokens of a gsiril script.  C69: its commands. *)
From Verif Require Import Base M_Bell M_PN M_Mslib M_Gsiril M_Parser M_Token Spec_Token Spec_Command P_Bell P_PN P_Parser P_Parser4 P_Token P_Token2 P_Command P_Lines.
Set Implicit Arguments. Unset Strict Implicit.
Open Scope nat_scope.

(* C68.  A script is read line by line: its tokens are those of its lines, with a new line after
   each. *)
Theorem C68_script ms ci s ts : lex ms ci s = Ret (ts, false) <->
  exists ls tss, lines_of s ls /\ Forall2 (reads ms ci) ls tss /\ ts = concat (map (fun l => l ++ [newline]) tss).
Proof.
  unfold lex. rewrite (lex_lines_iff ms ci ts (proj1 (lines_at s))). split.
  - intros (tss & F & E). exists (lines s), tss. split; auto. apply lines_at.
  - intros (ls & tss & Hl & F & E). apply lines_iff in Hl as <-. eauto.
Qed.
Print Assumptions C68_script.
(* There is one way only to read a line. *)
Theorem C68_unique ms ci s ts ts' : ~ In nl s -> reads ms ci s ts -> reads ms ci s ts' -> ts = ts'.
Proof.
  intros N R R'. apply lex_line_iff in R, R'; auto. rewrite R in R'.
  assert (E : ts ++ [newline] = ts' ++ [newline]) by congruence. now apply app_inj_tail in E.
Qed.
Print Assumptions C68_unique.
(* The tokeniser always comes to an end; it is stuck exactly if some line cannot be read, and a
   line without an opening brace can always be. *)
Theorem C68_total ms ci s : exists ts bad, lex ms ci s = Ret (ts, bad) /\
  (bad = true <-> exists l, In l (lines s) /\ forall ts, ~ reads ms ci l ts).
Proof.
  unfold lex. pose proof (proj1 (lines_at s)) as F. revert F. generalize (lines s). induction 1 as [|l ls Nl F (ts & b & E & IH)]; cbn [lex_lines].
  - exists [], false. split; auto. split; [discriminate|intros (l & [] & _)].
  - destruct (@lex_line_ends ms ci l Nl) as [(us & E1 & R)|(us & E1 & R)]; rewrite E1; cbn [bind].
    + rewrite E. cbn [bind]. exists ((us ++ [newline]) ++ ts), b. split; auto. rewrite IH. split.
      * intros (l' & I & H). exists l'; split; auto. now right.
      * intros (l' & [->|I] & H); [exfalso; eapply H; eauto|eauto].
    + exists us, true. split; auto. split; auto. intros _. exists l; split; auto. now left.
Qed.
Print Assumptions C68_total.
Lemma pn_rest_plain f : forall s, length s < f -> ~ In (chr "{") s -> exists r, pn_rest f s = Ret r.
Proof.
  induction f as [|f IH]; intros s Hf N; [lia|]. cbn [pn_rest]. destruct s as [|c u]; [eauto|].
  destruct (eqc c (chr "{")) eqn:E; [apply eqc_true in E; exfalso; apply N; now left|].
  destruct (_ || _); [apply IH; [cbn in Hf; lia|intro; apply N; now right]|eauto].
Qed.
Lemma lex1_plain ms ci c u : ~ In (chr "{") u -> exists t r, lex1 ms ci c u = Ret (t, r) /\ length r <= length u /\ exists w, c :: u = w ++ r.
Proof.
  intro N. assert (X : exists t r, lex1 ms ci c u = Ret (t, r)).
  { unfold lex1. destruct (after _ _); [destruct (to_eol _); eauto|].
    destruct (if ms then None else quote (chr "/") KRegex c u) as [[]|]; eauto.
    destruct (quote (chr "'") KTransp c u) as [[]|]; eauto. destruct (quote (chr """") KString c u) as [[]|]; eauto.
    destruct (fixed pairs (c :: u)) as [[]|]; eauto.
    destruct (_ || _); [unfold pn_token|cbn [bind]; destruct (unquoted ms ci c u); eauto].
    destruct (@pn_rest_plain (S (length u)) u) as (r & E); auto. rewrite E. cbn [bind].
    destruct (_ <? _); [eauto|destruct (unquoted ms ci c u); eauto]. }
  destruct X as (t & r & E). exists t, r. split; auto. 
  destruct (lex1_ends ms ci c u) as [(t' & r' & E' & L)|(x & E')]; [|congruence]. rewrite E in E'. 
  injection E' as <- <-. split; auto.
  revert E. unfold lex1. destruct (after _ _).
  { destruct (to_eol (c :: u)) as [a b] eqn:EE. intro H; injection H as <- <-.
    assert (K : forall s a b, to_eol s = (a, b) -> s = a ++ b).
    { clear. induction s as [|d s IH]; cbn [to_eol]; intros a b; [now injection 1 as <- <-|]. destruct (eqc d nl); [now injection 1 as <- <-|].
      destruct (to_eol s) as [a' b'] eqn:E. injection 1 as <- <-. cbn. now rewrite (IH _ _ eq_refl). }
    exists a. auto. }
  assert (Q : forall q k t r, quote q k c u = Some (t, r) -> exists w, c :: u = w ++ r).
  { intros q k t0 r0. unfold quote. destruct (eqc c q); [|discriminate]. destruct (to_quote q u) as [[a b]|] eqn:EQ; [|discriminate].
    injection 1 as <- <-. apply to_quote_some in EQ as (-> & _). exists (c :: a ++ [q]). cbn. now rewrite <- app_assoc. }
  destruct (if ms then None else quote (chr "/") KRegex c u) as [[]|] eqn:E1.
  { intro H; injection H as <- <-. destruct ms; [discriminate|]. eapply Q; eauto. }
  destruct (quote (chr "'") KTransp c u) as [[]|] eqn:E2; [intro H; injection H as <- <-; eapply Q; eauto|].
  destruct (quote (chr """") KString c u) as [[]|] eqn:E3; [intro H; injection H as <- <-; eapply Q; eauto|].
  destruct (fixed pairs (c :: u)) as [[]|] eqn:E4.
  { intro H; injection H as <- <-. apply fixed_some in E4 as (p & k & _ & _ & ->). eauto. }
  assert (U : forall t r, unquoted ms ci c u = (t, r) -> exists w, c :: u = w ++ r).
  { intros t0 r0. unfold unquoted. destruct (id_first ms c).
    - destruct (span (id_other ms) u) as [a b] eqn:ES. injection 1 as <- <-. apply span_spec in ES as (-> & _). exists (c :: a); auto.
    - destruct (is_digit c); [destruct (span is_digit u) as [a b] eqn:ES; injection 1 as <- <-; apply span_spec in ES as (-> & _); exists (c :: a); auto|].
      injection 1 as <- <-. exists [c]; auto. }
  destruct (_ || _).
  - destruct (pn_token c u) as [o| | |] eqn:EP; cbn [bind]; try discriminate. intro H; injection H as H.
    destruct o as [[t1 r1]|]; [|eauto]. injection H as -> ->.
    unfold pn_token in EP. destruct (pn_rest (S (length u)) u) as [r1| | |] eqn:ER; cbn [bind] in EP; try discriminate.
    apply pn_rest_inv in ER as (w & E & _). destruct (_ <? _); [|discriminate]. injection EP as _ <-. exists (c :: w). cbn. now rewrite E.
  - cbn [bind]. intro H; injection H as H. eauto.
Qed.
Theorem C68_readable ms ci l : ~ In nl l -> ~ In (chr "{") l -> exists ts, reads ms ci l ts.
Proof.
  intros N NB. enough (K : forall f s, length s < f -> ~ In (chr "{") s -> exists ts, lex_f f ms ci s = Ret (ts, false)).
  { destruct (K (S (length (l ++ [nl]))) (l ++ [nl])) as (ts & E); [lia| |].
    - intro I; apply in_app_or in I as [I|[I|[]]]; [auto|discriminate].
    - apply lex_reads in E as (ts' & _ & R); eauto. }
  induction f as [|f IH]; intros s Hf NS; [lia|]. cbn [lex_f]. destruct s as [|c u]; [eauto|]. cbn in Hf.
  destruct (blank c); [apply IH; [lia|intro; apply NS; now right]|].
  destruct (@lex1_plain ms ci c u) as (t & r & E & L & w & EW); [intro; apply NS; now right|]. rewrite E.
  destruct (IH r) as (ts & E2); [lia| |].
  - intro I; apply NS; rewrite EW; apply in_or_app; auto.
  - rewrite E2. cbn [bind]. eauto.
Qed.
Print Assumptions C68_readable.
(* A slash starts a pattern if there is another on the line: 20/2/5 is 20 and 5 with the pattern
   2 between them, and no division. *)
Lemma reads_one ms ci t w : written ms ci t w [] -> reads ms ci w [t].
Proof. intro H. rewrite <- (app_nil_r w). apply rd_token; [auto|constructor]. Qed.
Lemma digits_no_slash w : Forall digit w -> ~ In (chr "/") w.
Proof. intros F I. rewrite Forall_forall in F. apply F in I. discriminate. Qed.
Theorem C68_divide_twice_refuted ci a b c x y z : Forall digit (x :: a) -> Forall digit (y :: b) -> Forall digit (z :: c) ->
  reads false ci ((x :: a) ++ str "/" ++ (y :: b) ++ str "/" ++ (z :: c)) [mkTok KNum (x :: a); mkTok KRegex (y :: b); mkTok KNum (z :: c)].
Proof.
  intros A B C. apply rd_token.
  - inversion A; subst. apply w_num; auto. cbn. discriminate.
  - change (str "/" ++ (y :: b) ++ str "/" ++ z :: c) with (chr "/" :: (y :: b) ++ ([chr "/"] ++ z :: c)).
    rewrite (app_assoc (y :: b) [chr "/"]). rewrite app_comm_cons.
    apply rd_token; [apply w_pattern; auto; [now apply digits_no_slash|discriminate]|].
    apply reads_one. inversion C; subst. apply w_num; cbn; auto.
Qed.
Print Assumptions C68_divide_twice_refuted.
(* A number after a plus sign is place notation if there is no space between them: n+1 is no sum,
   but n + 1 is. *)
Theorem C68_plus_refuted (ci : bool) c w x a : name_first false c -> Forall (name_more false) w -> Forall digit (x :: a) ->
  let name := mkTok KName (if ci then map to_lower (c :: w) else c :: w) in
  reads false ci ((c :: w) ++ str " +" ++ x :: a) [name; mkTok KPn (chr "+" :: x :: a)] /\
  reads false ci ((c :: w) ++ str " + " ++ x :: a) [name; mkTok KPlus (str "+"); mkTok KNum (x :: a)].
Proof.
  intros F1 F2 A name.
  assert (G : forall s ts, not_next (name_more false) s -> reads false ci s ts -> reads false ci ((c :: w) ++ s) (name :: ts)).
  { intros s ts NN RS. apply rd_token; auto. apply w_name; auto. }
  assert (NS : name_more false (chr " ") -> False).
  { intro H. apply id_other_iff in H. discriminate. }
  inversion A; subst x0 l. split; apply G; auto; cbn [str list_ascii_of_string app]; (apply rd_blank; [reflexivity|]).
  - apply reads_one. apply w_places; auto; [|discriminate|exact I].
    clear - A. induction A; constructor; auto. left. unfold digit in H. unfold is_alnum. rewrite H. now rewrite ?orb_true_r.
  - apply (@rd_token false ci (mkTok KPlus [chr "+"]) [chr "+"] (chr " " :: x :: a)).
    + apply w_sign; [cbn; auto| |].
      * cbn. intros (p & k & I & E3). cbn in I. in_cases I; discriminate.
      * cbn. intros [P|P]; [|discriminate]. apply placeb_iff in P. discriminate.
    + apply rd_blank; [reflexivity|]. apply reads_one. apply w_num; cbn; auto.
Qed.
Print Assumptions C68_plus_refuted.
Example C68_ex : lex false false (str "p = &-16-16,12 // Bob" ++ [nl] ++ str "prove 3(p,""x"")") =
  Ret ([tok KName "p"; tok KAssign "="; tok KPn "&-16-16"; tok KComma ","; tok KNum "12"; tok KComment "// Bob"; newline;
        tok KName "prove"; tok KNum "3"; tok KOParen "("; tok KName "p"; tok KComma ","; tok KString "x"; tok KCParen ")"; newline], false) /\
  lex false false (str "a &{1") = Ret ([tok KName "a"], true) /\
  reads false false (str "n") [mkTok KName (str "n")].
Proof.
  split; [vm_compute; reflexivity|]. split; [vm_compute; reflexivity|].
  apply (@lex_line_iff false false (str "n") [mkTok KName (str "n")]); [|vm_compute; reflexivity]. cbn; intuition discriminate.
Qed.

(* C69.  The commands of a script are the ones it is laid out as. *)
Theorem C69_commands ms ts cs : commands ms false ts = Ret cs <-> program (valid ms) cs ts.
Proof. apply commands_iff. Qed.
Print Assumptions C69_commands.
Theorem C69_tokens ms t : valid ms t = true <-> ~ In (tk t) (if ms then not_in_microsiril else not_in_siril).
Proof. unfold valid. destruct ms, (tk t); cbn; intuition discriminate. Qed.
Print Assumptions C69_tokens.
(* The splitting into commands always comes to an end. *)
Lemma command_ends ms bad : forall ts skip acc n, (exists c, snd (command ms bad skip ts acc n) = Ret c) \/ exists x, snd (command ms bad skip ts acc n) = Throw x.
Proof.
  induction ts as [|t ts IH]; intros skip acc n; cbn [command].
  - cbn [snd]. destruct (match acc with [] => _ | _ => _ end); unfold fail; eauto.
  - destruct (skip && skipped t); [destruct (stuck bad ts); cbn; eauto|].
    destruct (_ && (n =? 0)); [destruct (wants_more acc); [destruct (stuck bad ts); cbn; eauto|cbn; eauto]|].
    destruct (_ && negb (valid ms t)); [destruct (stuck bad ts); unfold fail; cbn; eauto|]. destruct (stuck bad ts); cbn; eauto.
Qed.
Lemma command_progress ms bad : forall ts skip acc n u t c, command ms bad skip ts acc n = (u, Ret (t :: c)) -> 
  length u < length ts \/ (length u = length ts /\ rev acc = t :: c).
Proof.
  induction ts as [|t ts IH]; intros skip acc n u x c; cbn [command].
  - destruct (match acc with [] => _ | _ => _ end); [discriminate|]. intro H; injection H as <- H. right; auto.
  - destruct (skip && skipped t); [destruct (stuck bad ts); [discriminate|intro H; apply command_shorter in H; cbn; lia]|].
    destruct (_ && (n =? 0)); [destruct (wants_more acc); [destruct (stuck bad ts); [discriminate|intro H; apply command_shorter in H; cbn; lia]|intro H; injection H as <- H; right; auto]|].
    destruct (_ && negb (valid ms t)); [destruct (stuck bad ts); unfold fail; discriminate|].
    destruct (stuck bad ts); [discriminate|]. intro H. apply command_shorter in H. cbn. lia.
Qed.
Theorem C69_total ms bad ts : (exists cs, commands ms bad ts = Ret cs) \/ exists x, commands ms bad ts = Throw x.
Proof.
  unfold commands. enough (K : forall f ts, length ts < f -> (exists cs, commands_f (S f) ms bad ts = Ret cs) \/ exists x, commands_f (S f) ms bad ts = Throw x) by (apply K; lia).
  clear ts. induction f as [|f IH]; intros ts Hf; [lia|]. remember (S f) as g. cbn [commands_f].
  destruct (command ms bad true ts [] 0) as [u o] eqn:E. destruct (@command_ends ms bad ts true [] 0) as [(c & EC)|(x & EC)]; rewrite E in EC; cbn in EC; subst o; [|eauto].
  destruct c as [|t c]; [eauto|]. subst g. apply command_progress in E as [L|[_ C]]; [|discriminate].
  destruct (IH u) as [(cs & E2)|(x & E2)]; [lia| |]; rewrite E2; cbn [bind]; eauto.
Qed.
Print Assumptions C69_total.
(* Comments do not matter, wherever they are. *)
Definition no_comments (ts : list token) : list token := filter (fun t => negb (tt_eqb (tk t) KComment)) ts.
Lemma command_comments ms : forall ts skip acc n,
  command ms false skip (no_comments ts) acc n = let '(u, o) := command ms false skip ts acc n in (no_comments u, o).
Proof.
  induction ts as [|t ts IH]; intros skip acc n; [reflexivity|]. unfold no_comments in *. cbn [filter].
  destruct (tt_eqb_spec (tk t) KComment) as [E|E]; cbn [negb].
  - cbn [command]. unfold skipped, ends_command. rewrite E. cbn [tt_eqb orb andb negb]. 
    assert (ST : forall u, stuck false u = false) by now intros []. rewrite ST. rewrite andb_true_r. 
    destruct skip; cbn [opens closes]; rewrite IH; auto.
  - assert (ST : forall u, stuck false u = false) by now intros []. cbn [command]. rewrite !ST.
    destruct (skip && skipped t); [apply IH|].
    destruct (ends_command t && (n =? 0)).
    { destruct (wants_more acc); [apply IH|]. cbn [filter]. destruct (tt_eqb_spec (tk t) KComment); [contradiction|]. reflexivity. }
    destruct (_ && negb (valid ms t)); [reflexivity|]. apply IH.
Qed.
Theorem C69_comments ms ts cs : commands ms false (no_comments ts) = Ret cs <-> commands ms false ts = Ret cs.
Proof.
  assert (K : forall f ts, commands_f f ms false (no_comments ts) = commands_f f ms false ts).
  { induction f as [|f IH]; intro us; [reflexivity|]. cbn [commands_f]. rewrite command_comments.
    destruct (command ms false true us [] 0) as [u o]. destruct o as [[|]| | |]; auto. now rewrite IH. }
  assert (L : length (no_comments ts) <= length ts).
  { clear. induction ts as [|t ts IH]; [auto|]. unfold no_comments in *. cbn. destruct (negb _); cbn; lia. }
  rewrite commands_iff. unfold commands. rewrite <- K, <- program_commands with (f := S (length ts)) by lia. reflexivity.
Qed.
Print Assumptions C69_comments.
(* The parser never gets past what cannot be read: when the last token before it is reached,
   every request for a command fails and leaves that token where it was. *)
Theorem C69_stuck ms t : command ms true true [t] [] 0 = ([t], Throw BellInvalid).
Proof.
  cbn [command stuck andb orb]. destruct (skipped t) eqn:E; auto.
  unfold skipped in E. apply orb_false_iff in E as [-> ->]. cbn [andb orb]. now destruct (_ && _).
Qed.
Print Assumptions C69_stuck.
Theorem C69_unreadable ms ts : ts <> [] -> exists x, commands ms true ts = Throw x.
Proof.
  intro N. destruct (C69_total ms true ts) as [(cs & E)|H]; auto. exfalso. unfold commands in E. revert N E. generalize (S (S (length ts))).
  assert (C : forall ts skip acc n, ts <> [] -> match command ms true skip ts acc n with ([], _) => False | (_, Ret []) => skip = false /\ acc = [] | _ => True end).
  { clear. induction ts as [|t ts IH]; intros skip acc n N; [congruence|]. cbn [command].
    assert (R : forall skip acc n, stuck true ts = false -> match command ms true skip ts acc n with ([], _) => False | (_, Ret []) => skip = false /\ acc = [] | _ => True end).
    { intros; apply IH. now destruct ts. }
    assert (R2 : forall skip acc n t' acc', stuck true ts = false -> acc = t' :: acc' -> match command ms true skip ts acc n with ([], _) => False | (_, Ret []) => False | _ => True end).
    { intros sk ac m t' ac' ST ->. specialize (R sk (t' :: ac') m ST). destruct (command ms true sk ts (t' :: ac') m) as [[|] [[|]| | |]]; auto. now destruct R. }
    destruct (skip && skipped t) eqn:SK.
    { apply andb_true_iff in SK as [-> _]. destruct (stuck true ts) eqn:ST; auto. apply R; auto. }
    destruct (ends_command t && (n =? 0)) eqn:EN.
    { destruct (wants_more acc) eqn:W.
      - destruct (stuck true ts) eqn:ST; auto. destruct acc as [|a acc]; [discriminate|]. specialize (R2 true (a :: acc) n a acc eq_refl eq_refl).
        destruct (command ms true true ts (a :: acc) n) as [[|] [[|]| | |]]; auto; contradiction.
      - destruct (rev acc) eqn:RV; auto. destruct acc as [|a acc]; [|cbn in RV; destruct (rev acc); discriminate]. split; auto.
        destruct skip; auto. cbn in SK. unfold skipped in SK. apply andb_true_iff in EN as [EN _]. rewrite EN in SK. discriminate. }
    destruct (_ && negb (valid ms t)); [destruct ts; cbn; auto|].
    destruct (stuck true ts) eqn:ST; auto.
    destruct (negb (tt_eqb (tk t) KComment || tt_eqb (tk t) KNewLine)) eqn:KP.
    - match goal with |- match command _ _ ?a _ ?b ?c with _ => _ end => specialize (R2 a b c t acc eq_refl eq_refl); destruct (command ms true a ts b c) as [[|] [[|]| | |]]; auto; contradiction end.
    - destruct acc as [|a acc].
      + match goal with |- match command _ _ ?a _ ?b ?c with _ => _ end => specialize (R a b c eq_refl); destruct (command ms true a ts b c) as [[|] [[|]| | |]]; auto end.
        destruct R as [_ _]. split; auto. destruct skip; auto. exfalso. cbn in SK. unfold skipped, ends_command in SK.
        apply orb_false_iff in SK as [SK1 SK2]. apply orb_false_iff in SK1 as [SK1 _].
        rewrite SK1, SK2 in KP. discriminate.
      + match goal with |- match command _ _ ?a _ ?b ?c with _ => _ end => specialize (R2 a b c _ _ eq_refl eq_refl); destruct (command ms true a ts b c) as [[|] [[|]| | |]]; auto; contradiction end. }
  intro f. revert ts cs. induction f as [|f IH]; intros ts cs N E; [discriminate|]. cbn [commands_f] in E. specialize (C ts true [] 0 N).
  destruct (command ms true true ts [] 0) as [u o]. destruct u as [|v u]; [contradiction|].
  destruct o as [[|t c]| | |]; try discriminate; [now destruct C|].
  destruct (commands_f f ms true (v :: u)) as [cs'| | |] eqn:E2; try discriminate. eapply IH; [|exact E2]. discriminate.
Qed.
Print Assumptions C69_unreadable.
Example C69_ex : commands false false [newline; tok KName "a"; tok KAssign "="; tok KName "b"; tok KComma ","; newline; tok KComment "//"; newline;
    tok KOParen "("; newline; tok KName "c"; tok KCParen ")"; tok KSemi ";"; tok KSemi ";"; tok KName "end"; newline] =
  Ret [[tok KName "a"; tok KAssign "="; tok KName "b"; tok KComma ","; tok KOParen "("; tok KName "c"; tok KCParen ")"]; [tok KName "end"]] /\
  commands false false [tok KName "a"; tok KAppend "."; newline] = Ret [[tok KName "a"; tok KAppend "."]] /\
  commands false false [tok KName "a"; tok KComma ","; newline] = fail /\
  commands false true [tok KName "a"; newline; tok KName "b"] = Throw BellInvalid.
Proof. repeat split; vm_compute; reflexivity. Qed.
