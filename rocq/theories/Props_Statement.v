(* Props_Statement.v - C70: the statements of a gsiril script. *)
From Verif Require Import Base M_Bell M_Row M_PN M_Gsiril M_Parser Spec_Parser M_Token Spec_Token Spec_Command M_Statement Spec_Statement.
From Verif Require Import P_Bell P_RowText P_Parser P_Parser4 P_Token P_Token2 P_Command P_Lines P_Statement Props_Parser Props_Token.
Set Implicit Arguments. Unset Strict Implicit.
Open Scope nat_scope.

(* C70.  A script, from any token on, is read as a statement exactly if its first commands are that
   statement; what is left is left. *)
Theorem C70_statement ms bad no_import sym L ts us s : parse ms bad no_import sym L ts = (us, Ret s) <->
  (exists cs, splits ms bad ts cs us /\ statement_of (negb no_import) sym L cs s) \/
  (command ms bad true ts [] 0 = (us, Ret []) /\ s = SNone).
Proof. apply parse_iff. Qed.
Print Assumptions C70_statement.
(* That is never ambiguous: neither the statement nor its extent. *)
Theorem C70_unique ms bad imports sym L ts cs cs' us us' s s' : splits ms bad ts cs us -> splits ms bad ts cs' us' ->
  statement_of imports sym L cs s -> statement_of imports sym L cs' s' -> s = s' /\ us = us'.
Proof.
  intros S1 S2 D1 D2. rewrite <- (negb_involutive imports) in D1, D2.
  assert (P1 : parse ms bad (negb imports) sym L ts = (us, Ret s)) by (apply parse_iff; left; eauto).
  assert (P2 : parse ms bad (negb imports) sym L ts = (us', Ret s')) by (apply parse_iff; left; eauto).
  rewrite P1 in P2. split; congruence.
Qed.
Print Assumptions C70_unique.
(* What splits says is what C69 says: a whole script is laid out as the commands of its
   statements, one after the other. *)
Theorem C70_layout ms ts cs : program (valid ms) cs ts <-> exists us vs, splits ms false ts cs us /\ command ms false true us [] 0 = (vs, Ret []).
Proof.
  rewrite <- C69_commands. unfold commands. split.
  - enough (K : forall f cs ts, commands_f f ms false ts = Ret cs -> exists us vs, splits ms false ts cs us /\ command ms false true us [] 0 = (vs, Ret [])) by apply K.
    clear. induction f as [|f IH]; intros cs ts; cbn [commands_f]; [discriminate|].
    destruct (command ms false true ts [] 0) as [u o] eqn:E. destruct o as [[|t c]| | |]; try discriminate.
    + intro H. assert (cs = []) by congruence. subst cs. exists ts, u. split; [constructor|auto].
    + destruct (commands_f f ms false u) as [cs'| | |] eqn:E2; try discriminate. intro H. assert (cs = (t :: c) :: cs') by (cbn [bind] in H; congruence). subst cs.
      apply IH in E2 as (us & vs & SP & Q). exists us, vs. split; auto. eapply sp_more; eauto. discriminate.
  - intros (us & vs & SP & Q). change (commands ms false ts = Ret cs). apply C69_commands.
    enough (K : forall f, length ts < f -> commands_f f ms false ts = Ret cs).
    { apply C69_commands. unfold commands. apply K. lia. }
    revert Q. induction SP as [us|ts c us cs ws E N SP IH]; intros Q [|f] Hf; try lia; cbn [commands_f].
    + rewrite Q. reflexivity.
    + rewrite E. destruct c as [|t c]; [congruence|]. rewrite IH; auto. apply next_shorter in E; auto. lia.
Qed.
Print Assumptions C70_layout.
(* The parser always comes to an end. *)
Section Total.
Variables (ms bad no_import : bool) (sym : symtab) (L : lits).
Hypothesis TL : lits_tame L.
Hypothesis TS : forall s, tame (row_of_string sym s).
Lemma num_tame s : tame (num_value s).
Proof. unfold num_value. repeat (destruct (_ : bool); try exact I). Qed.
Lemma one_tame cmd o : one_command no_import sym L cmd = Some o -> tame o.
Proof.
  assert (E : forall u, tame (make_expr L u)) by (intro; apply make_expr_tame; auto).
  assert (B : forall A C (x : outcome A) (k : A -> outcome C), tame x -> (forall a, tame (k a)) -> tame (bind x k)) by (intros; apply tame_bind; auto).
  unfold one_command. destruct (is_eof cmd); [intro H; apply some_inj in H as <-; exact I|]. destruct cmd as [|t u]; [discriminate|].
  pose proof num_tame.
  repeat match goal with |- (if ?b then _ else _) = _ -> _ => destruct b eqn:?; [intro Q; apply some_inj in Q as <-;
    solve [exact I|auto|apply B; auto; intros; exact I|destruct u; [rewrite ?andb_false_r in *; discriminate|]; try exact I; repeat (apply B; auto; intros; try exact I)]|] end.
  destruct (echo_kind t) as [m|]; [intro Q; apply some_inj in Q as <-; destruct u; [exact I|apply B; auto; intros; exact I]|].
  destruct (word_is "music" t); [intro Q; apply some_inj in Q as <-; apply B; [|intros; exact I]; apply parse_list_tame with (n := S (length u)); auto|].
  destruct (_ || _); [discriminate|]. intro Q; apply some_inj in Q as <-. destruct u as [|x v]; [exact I|]. destruct (kind_is KName t && _); [|exact I].
  apply B; [destruct v; [exact I|auto]|intros; exact I].
Qed.
Definition ends {A} (p : list token * outcome A) : Prop := tame (snd p).
Lemma ends_bind A C (m : P A) (k : A -> P C) ts : ends (m ts) -> (forall us a, m ts = (us, Ret a) -> ends (k a us)) -> ends (pbind m k ts).
Proof. unfold ends, pbind. destruct (m ts) as [us [a| | |]]; cbn; auto. Qed.
Lemma next_ends ts : ends (next_command ms bad ts).
Proof. unfold ends, next_command. destruct (command_ends ms bad ts true [] 0) as [(c & ->)|(x & ->)]; exact I. Qed.
Definition rec_ends (n : nat) (rec : list token -> P stmt) : Prop := forall cmd ts, cmd <> [] -> length ts < n ->
  ends (rec cmd ts) /\ forall us s, rec cmd ts = (us, Ret s) -> length us <= length ts.
Lemma if_ends n rec : rec_ends n rec -> forall g cond alts blk had ts, length ts < g -> length ts <= n -> ends (if_f ms bad L rec g cond alts blk had ts).
Proof.
  intro R. induction g as [|g IH]; intros cond alts blk had ts Hg Hn; [lia|]. cbn [if_f].
  apply ends_bind; [apply next_ends|]. intros us [|t u] E; [exact I|].
  assert (Lu : length us < length ts) by (eapply next_shorter; [exact E|discriminate]).
  destruct (_ && word_is "endif" t); [exact I|].
  destruct (_ && word_is "elseif" t).
  - destruct had; [exact I|]. apply ends_bind; [apply make_expr_tame; auto|]. intros vs e Q. assert (vs = us) by (unfold pret in Q; congruence). subst vs. apply IH; lia.
  - destruct (_ && word_is "else" t); [destruct had; [exact I|apply IH; lia]|].
    destruct (R (t :: u) us) as [R1 R2]; [discriminate|lia|]. apply ends_bind; auto. intros vs s Q. apply R2 in Q. apply IH; lia.
Qed.
Lemma foreach_ends n rec : rec_ends n rec -> forall g m a blk ts, length ts < g -> length ts <= n -> ends (foreach_f ms bad rec g m a blk ts).
Proof.
  intro R. induction g as [|g IH]; intros m a blk ts Hg Hn; [lia|]. cbn [foreach_f].
  apply ends_bind; [apply next_ends|]. intros us [|t u] E; [exact I|].
  assert (Lu : length us < length ts) by (eapply next_shorter; [exact E|discriminate]).
  destruct (_ && word_is "endfor" t); [exact I|].
  destruct (R (t :: u) us) as [R1 R2]; [discriminate|lia|]. apply ends_bind; auto. intros vs s Q. apply R2 in Q. apply IH; lia.
Qed.
Lemma parse_command_ends : forall n, rec_ends n (parse_command ms bad no_import sym L n).
Proof.
  induction n as [|n IH]; intros cmd ts N Hn; [lia|]. split.
  - cbn [parse_command]. unfold parse_step. destruct (one_command _ _ _ cmd) as [o|] eqn:E; [apply one_tame in E; exact E|].
    destruct cmd as [|t u]; [congruence|]. destruct (word_is "if" t).
    + apply ends_bind; [apply make_expr_tame; auto|]. intros us e Q. assert (us = ts) by (unfold pret in Q; congruence). subst us. apply (if_ends IH); lia.
    + unfold foreach. destruct (rev (t :: u)) as [|y [|x r]]; [exact I|exact I|]. destruct r; [exact I|]. destruct (_ && _); [|exact I].
      apply ends_bind; [apply make_expr_tame; auto|]. intros us e Q. assert (us = ts) by (unfold pret in Q; congruence). subst us. apply (foreach_ends IH); lia.
  - intros us s E. apply parse_sound in E; auto. destruct E as (cs & SP & _). now apply splits_shorter in SP.
Qed.
End Total.
Theorem C70_total ms bad no_import sym L ts : lits_tame L -> (forall s, tame (row_of_string sym s)) ->
  exists us, (exists s, parse ms bad no_import sym L ts = (us, Ret s)) \/ (exists x, parse ms bad no_import sym L ts = (us, Throw x)).
Proof.
  intros TL TS. assert (E : ends (parse ms bad no_import sym L ts)).
  { unfold parse. apply ends_bind; [apply next_ends|]. intros us [|t u] E; [exact I|]. now apply parse_command_ends; auto. }
  unfold ends in E. destruct (parse ms bad no_import sym L ts) as [us o]. exists us. destruct o; try contradiction; eauto.
Qed.
Print Assumptions C70_total.
(* The expressions in statements are the ones of the grammar (C64). *)
Theorem C70_prove imports sym L t xs e : word "prove" t -> Forall wf xs -> match flat xs with [] => False | x :: _ => ~ In (tk x) [KAssign; KImmAssign; KDefAssign] end ->
  statement_of imports sym L [t :: flat xs] (SProve e) <-> gram L 0 xs e.
Proof.
  intros Wt W NA. rewrite <- C64_reading by auto. split.
  - intro H. inversion H as [c s SI| |]; subst. inversion SI; subst; auto.
  - intro G. apply so_simple. destruct (flat xs) as [|x u]; [contradiction|]. now apply s_prove.
Qed.
Print Assumptions C70_prove.
Theorem C70_define imports sym L t x xs e : tk t = KName -> ~ one_of ["echo"; "warn"; "error"; "music"; "if"; "foreach"]%string t -> tk x = KAssign -> Forall wf xs -> xs <> [] ->
  statement_of imports sym L [t :: x :: flat xs] (SDef (tx t) e) <-> gram L 0 xs e.
Proof.
  intros Kt Nt Kx W NE. assert (N : flat xs <> []).
  { destruct xs as [|[a|o b c] xs]; [congruence| |]; unfold flat; cbn; discriminate. }
  rewrite <- C64_reading by auto. split.
  - intro H. inversion H as [c s SI| |]; subst. inversion SI; subst. match goal with V : value _ _ _ |- _ => destruct V as [[E _]|[_ V]]; [congruence|exact V] end.
  - intro G. apply so_simple. apply s_def; auto; [now split|]. now right.
Qed.
Print Assumptions C70_define.
(* The range form of rows is always refused, because the wrong token is taken for its second number. *)
Theorem C70_rows_range_refuted ms bad no_import sym L ts us n t m r : command ms bad true ts [] 0 = (us, Ret [n; t; m; r]) ->
  tk n = KNum -> word "to" t -> tk m = KNum -> word "rows" r -> exists x, parse ms bad no_import sym L ts = (us, Throw x).
Proof.
  intros C Kn Wt Km Wr. unfold parse, pbind, next_command. rewrite C. cbn [parse_command]. unfold parse_step, one_command.
  cbn [is_eof]. apply kind_iff in Kn, Km. assert (Nn : forall s, word_is s n = false).
  { intro s. unfold word_is, is_word. apply kind_iff in Kn. rewrite Kn. reflexivity. }
  rewrite !Nn, Kn. cbn [andb]. rewrite (proj2 (word_iff "to" t) Wt), Km, (proj2 (word_iff "rows" r) Wr). cbn [andb].
  rewrite (num_word Wt) by reflexivity.
  pose proof (num_tame (tx n)) as T. destruct (num_value (tx n)); cbn [bind] in *; try contradiction; unfold pret, fail; cbn [bind]; eauto.
Qed.
Print Assumptions C70_rows_range_refuted.
(* Six names cannot be given a meaning by a statement, whatever the value. *)
Theorem C70_reserved imports sym L t cs s : one_of ["echo"; "warn"; "error"; "music"; "if"; "foreach"]%string t ->
  forall u, statement_of imports sym L ((t :: u) :: cs) s -> match s with SDef _ _ | SDefault _ _ | SImm _ _ => False | _ => True end.
Proof.
  intros Rt u H. inversion H as [c s0 SI| |]; subst; auto. inversion SI; subst; auto;
    match goal with D : definable _ |- _ => destruct D as [_ D]; contradiction end.
Qed.
Print Assumptions C70_reserved.
(* end, quit and exit are the end of a script; so is a string of these letters. *)
Theorem C70_end_string_refuted ms no_import sym L rest : 
  fst (parse ms false no_import sym L (tok KString "end" :: newline :: rest)) = newline :: rest /\
  snd (parse ms false no_import sym L (tok KString "end" :: newline :: rest)) = Ret SNone.
Proof. destruct rest; split; reflexivity. Qed.
Print Assumptions C70_end_string_refuted.
Definition ex_script : text := str "6 bells" ++ [nl] ++ str "if a < 3" ++ [nl] ++ str "b = ;" ++ str "prove b" ++ [nl] ++ str "elseif a == 3" ++ [nl] ++ str "else" ++ [nl] ++
  str "foreach a as c; echo c; endfor" ++ [nl] ++ str "endif" ++ [nl] ++ str "rows ?= 5".
Definition parses (n : nat) (s : text) : outcome (list stmt) :=
  '(ts, bad) <- lex false false s ;;
  (fix go n ts := match n with O => Diverge | S n => let '(us, o) := parse false bad false default_symtab ex_lits ts in
     s <- o ;; match s with SNone => Ret [] | _ => r <- go n us ;; Ret (s :: r) end end) n ts.
Example C70_ex : parses 9 ex_script = Ret [SBells 6;
   SIf [(ECmp CLt (ESym (str "a")) (EInt 3), [SDef (str "b") ENop; SProve (ESym (str "b"))]); (ECmp CEq (ESym (str "a")) (EInt 3), []);
        (EBool true, [SForeach (str "c") (ESym (str "a")) [SEcho MEcho (ESym (str "c"))]])];
   SDefault (str "rows") (EInt 5)] /\
  parses 9 (str "5000 to 5100 rows") = fail /\ parses 9 (str "music = 3") = fail /\ parses 9 (str "end") = Ret [] /\
  parses 9 (str "if a; end; endif") = Ret [SIf [(ESym (str "a"), [SNone])]].
Proof. repeat split; vm_compute; reflexivity. Qed.
