(* P_Lines.v - the lines of a script, its tokens and its commands. *)
From Verif Require Import Base M_Bell M_Gsiril M_Parser M_Token Spec_Token Spec_Command P_Bell P_PN P_Token P_Token2 P_Command.
Set Implicit Arguments. Unset Strict Implicit.
Open Scope nat_scope.

(* ls are the lines of s: each is ended by a new line, except that the last need not be *)
Definition lines_of (s : text) (ls : list text) : Prop :=
  Forall (fun l => ~ In nl l) ls /\
  (s = concat (map (fun l => l ++ [nl]) ls) \/
   exists ls' l, ls = ls' ++ [l] /\ l <> [] /\ s = concat (map (fun l => l ++ [nl]) ls') ++ l).
Lemma lines_f_at s : forall acc, ~ In nl acc -> lines_of (rev acc ++ s) (lines_f s acc).
Proof.
  induction s as [|c s IH]; intros acc Hn; cbn [lines_f].
  - rewrite app_nil_r. destruct acc as [|a acc]; [split; [constructor|left; reflexivity]|].
    split; [constructor; [rewrite <- in_rev; auto|constructor]|]. right. exists [], (rev (a :: acc)). repeat split.
    intro E; apply (f_equal (@length _)) in E; rewrite rev_length in E; discriminate.
  - destruct (eqc c nl) eqn:E.
    + apply eqc_true in E as ->. destruct (IH [] (fun x => x)) as [F D]. cbn [rev app] in D. clear IH. revert F D. generalize (lines_f s []). intros ls F D. split.
      * constructor; auto. rewrite <- in_rev; auto.
      * destruct D as [->|(ls' & l & -> & Nl & ->)]; [left|right].
        -- cbn [map concat]. rewrite <- app_assoc. reflexivity.
        -- exists (rev acc :: ls'), l. repeat split; auto. cbn [map concat]. now rewrite <- !app_assoc.
    + specialize (IH (c :: acc)). cbn [rev] in IH. rewrite <- app_assoc in IH. apply IH. intros [->|H]; auto.
      assert (eqc nl nl = true) by now apply eqc_true. congruence.
Qed.
Lemma lines_at s : lines_of s (lines s).
Proof. apply (@lines_f_at s [] (fun x => x)). Qed.
Lemma lines_f_line l : forall s acc, ~ In nl l -> lines_f (l ++ nl :: s) acc = rev (rev l ++ acc) :: lines_f s [].
Proof.
  induction l as [|c l IH]; intros s acc N; cbn [lines_f app rev].
  - replace (eqc nl nl) with true by (symmetry; now apply eqc_true). reflexivity.
  - destruct (eqc c nl) eqn:E; [apply eqc_true in E; exfalso; apply N; now left|]. rewrite IH by (intro; apply N; now right).
    now rewrite <- app_assoc.
Qed.
Lemma lines_f_last l : forall acc, ~ In nl l -> lines_f l acc = match rev l ++ acc with [] => [] | _ => [rev (rev l ++ acc)] end.
Proof.
  induction l as [|c l IH]; intros acc N; cbn [lines_f rev]; [reflexivity|].
  destruct (eqc c nl) eqn:E; [apply eqc_true in E; exfalso; apply N; now left|]. rewrite IH by (intro; apply N; now right).
  now rewrite <- app_assoc.
Qed.
Lemma lines_iff s ls : lines s = ls <-> lines_of s ls.
Proof.
  split; [intros <-; apply lines_at|]. intros [F D]. unfold lines.
  assert (G : forall ls' u, Forall (fun l => ~ In nl l) ls' -> lines_f (concat (map (fun l => l ++ [nl]) ls') ++ u) [] = ls' ++ lines_f u []).
  { induction 1 as [|l ls' Nl _ IH]; [reflexivity|]. cbn [map concat app]. rewrite <- !app_assoc. cbn [app]. rewrite lines_f_line by auto.
    now rewrite app_nil_r, rev_involutive, IH. }
  destruct D as [->|(ls' & l & -> & Nl & ->)].
  - rewrite <- (app_nil_r (concat _)), G by auto. apply app_nil_r.
  - apply Forall_app in F as [F1 F2]. inversion F2; subst. rewrite G, lines_f_last by auto. rewrite app_nil_r, rev_involutive.
    destruct (rev l) eqn:E; auto. apply (f_equal (@rev _)) in E. rewrite rev_involutive in E. contradiction.
Qed.
Lemma lex_lines_iff ms ci ls ts : Forall (fun l => ~ In nl l) ls ->
  lex_lines ms ci ls = Ret (ts, false) <->
  exists tss, Forall2 (reads ms ci) ls tss /\ ts = concat (map (fun ts => ts ++ [newline]) tss).
Proof.
  intro F. revert ts. induction F as [|l ls Nl F IH]; intro ts; cbn [lex_lines].
  - split; [injection 1 as <-; exists []; split; auto|intros (tss & H & ->); now inversion H].
  - split.
    + destruct (@lex_line_ends ms ci l Nl) as [(us & E & R)|(us & E & _)]; rewrite E; cbn [bind]; [|discriminate].
      destruct (lex_lines ms ci ls) as [[vs [|]]| | |] eqn:E2; cbn [bind]; try discriminate. injection 1 as <-.
      destruct (proj1 (IH vs) eq_refl) as (tss & H2 & ->). exists (us :: tss); split; [constructor; auto|reflexivity].
    + intros (tss & H & ->). inversion H as [|? us ? tss' R H2]; subst. apply lex_line_iff in R; auto. rewrite R. cbn [bind].
      rewrite (proj2 (IH _) (ex_intro _ tss' (conj H2 eq_refl))). reflexivity.
Qed.
Lemma lex_lines_ends ms ci ls : Forall (fun l => ~ In nl l) ls -> exists ts b, lex_lines ms ci ls = Ret (ts, b).
Proof.
  induction 1 as [|l ls Nl F (ts & b & IH)]; cbn [lex_lines]; [eauto|].
  destruct (@lex_line_ends ms ci l Nl) as [(us & E & R)|(us & E & _)]; rewrite E; cbn [bind]; [|eauto]. rewrite IH. cbn [bind]. eauto.
Qed.

(* The commands one after another, as parser::run (parser.cpp:1025-1055) asks for them when none
   of them starts a block; no command is left when an empty one is found. *)
Fixpoint commands_f (fuel : nat) (ms bad : bool) (ts : list token) : outcome (list (list token)) :=
  match fuel with O => Diverge | S fuel =>
  let '(u, o) := command ms bad true ts [] 0 in
  match o with
  | Ret [] => Ret []
  | Ret c => cs <- commands_f fuel ms bad u ;; Ret (c :: cs)
  | Throw x => Throw x | UB => UB | Diverge => Diverge
  end end.
Definition commands (ms bad : bool) (ts : list token) : outcome (list (list token)) := commands_f (S (S (length ts))) ms bad ts.

Lemma command_iff ms ts rest out : command ms false true ts [] 0 = (rest, Ret out) <->
  exists body, ts = body ++ rest /\ lay (valid ms) (at_eof rest) 0 None out body /\ is_end rest.
Proof.
  rewrite (@command_lay ms ts true [] 0 start_ok rest out). split.
  - intros (c & body & -> & -> & LY & IE). exists body; auto.
  - intros (body & -> & LY & IE). exists out, body; auto.
Qed.
Lemma lay_nothing ok n last c ts : lay ok false n last c ts -> last = None -> c = [] -> n = 0 -> False.
Proof. induction 1; intros; subst; try discriminate; auto; try lia. match goal with H : _ -> ~ open_ended _ |- _ => apply H; cbn; auto end. Qed.

Lemma program_commands ms : forall f ts cs, length ts < f -> commands_f (S f) ms false ts = Ret cs <-> program (valid ms) cs ts.
Proof.
  induction f as [|f IH]; intros ts cs Hf; [lia|].
  remember (S f) as g. cbn [commands_f]. destruct (command ms false true ts [] 0) as [u o] eqn:E. split.
  - destruct o as [[|t c]| | |]; try discriminate.
    + injection 1 as <-. apply command_iff in E as (body & -> & LY & IE).
      destruct u as [|t u]; cbn [at_eof] in LY; [rewrite app_nil_r; now apply pr_end|].
      exfalso. eapply lay_nothing; eauto.
    + apply command_iff in E as (body & -> & LY & IE).
      assert (TK : body <> []) by (eapply lay_takes; eauto; discriminate).
      destruct (commands_f g ms false u) as [cs'| | |] eqn:EC; cbn [bind]; try discriminate.
      injection 1 as <-. subst g. destruct u as [|x u].
      * cbn in EC. injection EC as <-. rewrite app_nil_r. apply pr_last; [discriminate|exact LY].
      * apply IH in EC; [|destruct body; [congruence|rewrite app_length in Hf; cbn in Hf |- *; lia]].
        apply pr_more; auto; [discriminate|]. now apply ends_iff.
  - intro PR. subst g. inversion PR as [ts' LY|c ts' N LY|c ts' t us cs' N LY T PR']; subst.
    + assert (E2 : command ms false true ts [] 0 = ([], Ret [])).
      { apply command_iff. exists ts. rewrite app_nil_r. repeat split; auto. }
      rewrite E in E2. apply pair_equal_spec in E2 as [-> ->]. reflexivity.
    + assert (E2 : command ms false true ts [] 0 = ([], Ret c)).
      { apply command_iff. exists ts. rewrite app_nil_r. repeat split; auto. }
      rewrite E in E2. apply pair_equal_spec in E2 as [-> ->]. destruct c; [congruence|]. reflexivity.
    + assert (E2 : command ms false true (ts' ++ t :: us) [] 0 = (t :: us, Ret c)).
      { apply command_iff. exists ts'. repeat split; auto. cbn. now apply ends_iff. }
      rewrite E in E2. apply pair_equal_spec in E2 as [-> ->]. destruct c; [congruence|].
      assert (TK : ts' <> []) by (eapply lay_takes; eauto).
      apply IH in PR'; [|destruct ts'; [congruence|rewrite app_length in Hf; cbn in Hf |- *; lia]].
      rewrite PR'. reflexivity.
Qed.
Lemma commands_iff ms ts cs : commands ms false ts = Ret cs <-> program (valid ms) cs ts.
Proof. apply program_commands. lia. Qed.
