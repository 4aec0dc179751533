(* Props_Script.v - C79: proving place notation, from the text of the script to the exit status. *)
From Verif Require Import Spec_Proof P_Gsiril5 M_Method Props_Method Base M_Bell M_Change M_Row M_PN M_Proof M_Gsiril M_Parser Spec_Parser M_Token Spec_Token Spec_Command M_Statement Spec_Row Spec_PN Spec_Gsiril Spec_Statement Spec_Run Spec_Session.
From Verif Require Import P_Bell P_Row P_RowText P_Parser P_Parser4 P_Token P_Token2 P_Command P_Lines P_Statement P_Run P_Session P_Literal P_Literal2 Props_Method Props_Parser Props_Token Props_Statement Props_Gsiril Props_Run.
From Verif Require Import M_Literal Spec_Literal Props_Literal.
From Verif Require Import M_Gsiril M_Token Spec_Token M_Statement.
Set Implicit Arguments. Unset Strict Implicit.
Open Scope nat_scope.

Lemma digits_of k : (Z.of_nat k < 2147483648)%Z -> exists d ds, print_nat k = d :: ds /\ digit d /\ Forall digit ds.
Proof.
  intros H. pose proof (print_nat_num H) as E. unfold num_value in E. destruct (forallb is_digit (print_nat k)) eqn:F; [|discriminate].
  destruct (print_nat k) as [|d ds] eqn:P.
  - exfalso. unfold print_nat in P. cbn [print_nat_f] in P. destruct (k <? 10) eqn:K; [discriminate|].
    assert (G : forall f n acc, acc <> [] -> print_nat_f f n acc <> []).
    { induction f as [|f IH]; intros n acc Ha; cbn [print_nat_f]; [exact Ha|]. destruct (n <? 10); [discriminate|]. apply IH. discriminate. }
    now apply G in P.
  - exists d, ds. cbn in F. apply andb_true_iff in F as [F1 F2]. split; [reflexivity|]. split; [exact F1|]. apply Forall_forall. intros c Hc.
    rewrite forallb_forall in F2. now apply F2.
Qed.
Lemma print_no_nl k : (Z.of_nat k < 2147483648)%Z -> ~ In nl (print_nat k).
Proof.
  intros H I. destruct (digits_of H) as (d & ds & E & D & F). rewrite E in I.
  destruct I as [->|I]; [discriminate D|]. rewrite Forall_forall in F. apply F in I. discriminate I.
Qed.

(* the script:  prove k S  for some place notation S *)
Definition prove_line (k : nat) (s : text) : text := str "prove " ++ print_nat k ++ str " " ++ s.
Lemma prove_line_reads ci k c s : (Z.of_nat k < 2147483648)%Z -> c = chr "&" \/ c = chr "+" -> places s -> s <> [] ->
  reads false ci (prove_line k (c :: s)) [mkTok KName (str "prove"); mkTok KNum (print_nat k); mkTok KPn (c :: s)].
Proof.
  intros Hk Hc P N. unfold prove_line. change (str "prove " ++ print_nat k ++ str " " ++ c :: s) with (str "prove" ++ (chr " " :: (print_nat k ++ str " " ++ c :: s))).
  replace (mkTok KName (str "prove")) with (mkTok KName (if ci then map to_lower (str "prove") else str "prove")) by (destruct ci; reflexivity).
  apply rd_token.
  - change (str "prove") with (chr "p" :: str "rove"). apply w_name.
    + left. right. left. reflexivity.
    + repeat constructor; left; left; right; left; reflexivity.
    + cbn [not_next]. intro H. apply id_other_iff in H. discriminate.
  - apply rd_blank; [reflexivity|]. destruct (digits_of Hk) as (d & ds & E & D & F). rewrite E. apply rd_token.
    + apply w_num; auto. cbn [not_next str list_ascii_of_string app]. discriminate.
    + cbn [str list_ascii_of_string app]. apply rd_blank; [reflexivity|]. apply reads_one. apply w_places; auto. exact I.
Qed.
Lemma prove_line_expr L k s e : (Z.of_nat k < 2147483648)%Z -> l_pn L s = Ret e ->
  make_expr L [mkTok KNum (print_nat k); mkTok KPn s] = Ret (ERepeat (Z.of_nat k) e).
Proof.
  intros Hk E. unfold make_expr. pose proof (print_nat_num Hk) as N. revert N. generalize (print_nat k) as ds. intros ds N.
  cbn. rewrite N. cbn. rewrite E. reflexivity.
Qed.
Lemma prove_line_program k c s : (Z.of_nat k < 2147483648)%Z ->
  let cmd := [mkTok KName (str "prove"); mkTok KNum (print_nat k); mkTok KPn (c :: s)] in
  program (valid false) ([] ++ [cmd]) (cmd ++ [newline]).
Proof.
  intros Hk cmd. apply pr_more; [discriminate| |now left|].
  - subst cmd. repeat (apply lay_token; [reflexivity|discriminate|discriminate|discriminate|cbn [nested tk]]). apply lay_end; [intros _ [H|H]; discriminate|].
    intros t H. injection H as <-. discriminate.
  - apply pr_end. apply lay_more; [exact I|now left|]. apply lay_end; discriminate.
Qed.

(* C79.  The script  prove k S  where S is place notation (with bells from the back and ranges of bells, C76)
   for the changes cs: the exit status is 0 if cs rung k times is true, within the limits on its length and
   comes round, and 1 otherwise. *)
Theorem C79_prove B opt w junk k c0 body t cs rows : o_prove opt = [] -> o_prove_one opt = false -> c_msiril (w_c w) = false ->
  (forall n, lib_lits B n = make_lits default_symtab junk n) -> 1 <= c_bells (w_c w) <= 255 -> (Z.of_nat k < 2147483648)%Z ->
  c0 = chr "&" \/ c0 = chr "+" -> places body -> body <> [] -> ~ In nl body ->
  read_as default_symtab (c_bells (w_c w)) (c0 :: body) t -> pn_text default_symtab (c_bells (w_c w)) t cs ->
  (c_limit (w_c w) <= 0)%Z -> (0 <= c_extents (w_c w))%Z -> (0 <= g_nodes (w_g w))%Z ->
  (forall r t, c_show (w_c w) r = Some t -> ~ In (chr "\") t) -> standard (w_c w) (sym_lookup (syms w)) ->
  row256 (c_rounds (w_c w)) -> length (c_rounds (w_c w)) <= c_bells (w_c w) ->
  rung (pad (c_bells (w_c w)) (c_rounds (w_c w))) (concat (repeat cs k)) rows ->
  let good := at_most (c_extents (w_c w)) rows /\ (c_max (w_c w) = 0 \/ length rows <= c_max (w_c w)) /\ (c_min (w_c w) = 0 \/ c_min (w_c w) <= length rows) /\
    last rows (pad (c_bells (w_c w)) (c_rounds (w_c w))) = c_rounds (w_c w) in
  exists N, forall fuel, N <= fuel -> exists status w', (exists D, forall depth, D <= depth ->
      gsiril B opt fuel depth (prove_line k (c0 :: body)) w = Ret (status, Some w')) /\
    (status = 0 <-> good) /\ (status = 1 <-> ~ good).
Proof.
  intros P0 P1 MS HL Hn Hk Hc P Nb Nn R T Hl He Hg Hsh Hst Hr Hb Hru.
  assert (LP : l_pn (lib_lits B (c_bells (w_c w))) (c0 :: body) = Ret (EPn cs [])) by (rewrite HL; apply C76_notation; [lia|eauto]).
  assert (K1 : (Z.of_nat k <> -1)%Z) by lia.
  eapply (@C75_script B opt w (set_failed w false)) with (cs := []) (ds := []) (changes := concat (repeat cs k)); auto.
  - rewrite MS. apply C68_script. exists [prove_line k (c0 :: body)]. eexists. split.
    + apply lines_iff. unfold lines. rewrite lines_f_last.
      * destruct (rev (prove_line k (c0 :: body)) ++ []) eqn:E; [exfalso|].
        -- apply (f_equal (@length _)) in E. rewrite app_length, rev_length in E. cbn in E. lia.
        -- rewrite <- E, app_nil_r, rev_involutive. reflexivity.
      * unfold prove_line. rewrite !in_app_iff. intros [H|[H|[H|H]]].
        -- cbn in H. intuition discriminate.
        -- now apply print_no_nl in H.
        -- cbn in H. intuition discriminate.
        -- destruct H as [H|H]; [destruct Hc; subst; discriminate|now apply Nn].
    + split; [constructor; [|constructor]; apply prove_line_reads; auto|reflexivity].
  - rewrite MS. cbn [map concat app]. apply (prove_line_program c0 body Hk).
  - apply so_simple, s_prove; [split; reflexivity|cbn; intuition discriminate|]. apply prove_line_expr; eauto.
  - intros fuel. constructor.
  - lia.
  - replace (concat (repeat cs k)) with (concat (repeat cs (Z.to_nat (Z.of_nat k)))) by (now rewrite Nat2Z.id). apply m_repeat; [exact K1|constructor].
Qed.
Print Assumptions C79_prove.
(* Plain Bob Minor, with the tenor as {N}: five leads come round, four do not. *)
Definition real_lib : library := mkLib (make_lits default_symtab 0) (fun _ _ => show6) (fun _ b => b) (fun c g es => Ret ((fun _ => 0%Z), g)) no_files.
Definition bob_body : text := str "-1{N}-16-16-16-1{N}-12".
Definition status_of (s : text) : outcome (nat * list verdict) :=
  '(k, ow) <- gsiril real_lib ex_opts 20 4 s ex_world ;; Ret (k, match ow with Some w => map en_v (w_log w) | None => [] end).
Example C79_ex : c_msiril (w_c ex_world) = false /\ places bob_body /\ ~ In nl bob_body /\
  read_as default_symtab 6 (chr "+" :: bob_body) (str "+-16-16-16-16-16-12") /\ pn_text default_symtab 6 (str "+-16-16-16-16-16-12") (mch plain_bob) /\
  standard (w_c ex_world) (sym_lookup (syms ex_world)) /\
  prove_line 5 (chr "+" :: bob_body) = str "prove 5 +-1{N}-16-16-16-1{N}-12" /\
  status_of (prove_line 5 (chr "+" :: bob_body)) = Ret (0, [VTrue]) /\ status_of (prove_line 4 (chr "+" :: bob_body)) = Ret (1, [VNotRound]) /\
  status_of (prove_line 6 (chr "+" :: bob_body)) = Ret (1, [VAborted]).
Proof.
  split; [reflexivity|]. split; [|split; [|split; [|split; [|split; [|split; [reflexivity|repeat split; vm_compute; reflexivity]]]]]].
  - unfold bob_body. cbn [str list_ascii_of_string]. repeat first [apply p_none|apply (@p_expr [chr "N"]); [cbn; intuition discriminate|cbn; intuition discriminate|]
      |apply p_one; [first [left; reflexivity|right; left; reflexivity|right; right; reflexivity]|]].
  - cbn. intuition discriminate.
  - apply expand_iff; [unfold int_max; lia|vm_compute; reflexivity].
  - apply C17_parse; [lia|vm_compute; reflexivity].
  - split; [|split; [reflexivity|split; intro H; exfalso; apply H; reflexivity]].
    intros n e H. cbn [init_file In] in H. repeat (destruct H as [H|H]; [injection H as <- <-; vm_compute; reflexivity|]). destruct H.
Qed.
