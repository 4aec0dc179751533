(* P_Command.v - the commands. *)
From Verif Require Import Base M_Bell M_Gsiril M_Parser M_Token Spec_Command P_Parser.
Set Implicit Arguments. Unset Strict Implicit.
Open Scope nat_scope.

Lemma nested_eq n t : nested n t = (if opens (tk t) then S n else if closes (tk t) then n - 1 else n).
Proof. unfold nested. now destruct (tk t). Qed.
Definition last_of (acc : list token) : option token := match acc with [] => None | t :: _ => Some t end.
Definition state_ok (skip : bool) (acc : list token) (n : nat) : Prop :=
  (skip = true -> n = 0 /\ open_ended (last_of acc)) /\ (acc = [] -> skip = true).
Lemma ends_iff t : ends_command t = true <-> tk t = KNewLine \/ tk t = KSemi.
Proof. unfold ends_command. rewrite orb_true_iff. destruct (tt_eqb_spec (tk t) KNewLine), (tt_eqb_spec (tk t) KSemi); intuition discriminate. Qed.
Lemma wants_iff acc : acc <> [] -> wants_more acc = true <-> open_ended (last_of acc).
Proof.
  destruct acc as [|t acc]; [congruence|]; intros _. cbn. rewrite orb_true_iff.
  destruct (tt_eqb_spec (tk t) KComma), (tt_eqb_spec (tk t) KAppend); intuition discriminate.
Qed.
Definition is_end (rest : list token) : Prop := match rest with [] => True | t :: _ => ends_command t = true end.
Definition at_eof (rest : list token) : bool := match rest with [] => true | _ => false end.
Ltac kinds t := repeat match goal with |- context [tt_eqb (tk t) ?k] => destruct (tt_eqb_spec (tk t) k) end.

Theorem command_lay ms : forall ts skip acc n, state_ok skip acc n -> forall rest out,
  command ms false skip ts acc n = (rest, Ret out) <->
  exists c body, ts = body ++ rest /\ out = rev acc ++ c /\ lay (valid ms) (at_eof rest) n (last_of acc) c body /\ is_end rest.
Proof.
  induction ts as [|t ts IH]; intros skip acc n [SK SE] rest out.
  - cbn [command]. split.
    + intro H. destruct acc as [|a acc].
      * injection H as <- <-. exists [], []. repeat split. destruct (SK (SE eq_refl)) as [-> _]. now constructor.
      * destruct (tt_eqb_spec (tk a) KComma) as [|NC]; [discriminate|]. cbn [orb] in H. destruct (Nat.ltb_spec 0 n); [discriminate|].
        injection H as <- <-. exists [], []. repeat split; [now rewrite app_nil_r|]. replace n with 0 by lia. constructor; [discriminate|].
        cbn; congruence.
    + intros (c & body & E & -> & LY & IE). symmetry in E; apply app_eq_nil in E as [-> ->]. inversion LY; subst.
      destruct acc as [|a acc]; [reflexivity|]. destruct (tt_eqb_spec (tk a) KComma) as [EC|NC].
      { exfalso. match goal with H : forall t, _ |- _ => now apply (H a) end. }
      cbn [orb]. rewrite app_nil_r. reflexivity.
  - (* what the first token of a layout can be *)
    assert (OUT : ends_command t = true -> n = 0 -> ~ open_ended (last_of acc) ->
      forall rest out, (t :: ts, Ret (rev acc)) = (rest, Ret out) <->
      exists c body, t :: ts = body ++ rest /\ out = rev acc ++ c /\ lay (valid ms) (at_eof rest) n (last_of acc) c body /\ is_end rest).
    { intros EC N0 NO rest0 out0. split.
      - intro H; injection H as <- <-. exists [], []. repeat split; [now rewrite app_nil_r| |exact EC]. subst n. constructor; auto.
        intros x Ex Kx. apply NO. rewrite Ex. cbn; auto.
      - intros (c & body & E & -> & LY & IE). apply ends_iff in EC. inversion LY; subst.
        + cbn [app] in E. subst. now rewrite app_nil_r.
        + exfalso. injection E as <- _. destruct EC as [K|K]; [congruence|]. match goal with H : 0 = 0 -> _ |- _ => now apply H end.
        + injection E as <- _. destruct EC; congruence.
        + lia.
        + contradiction. }
    assert (DROP : forall skip', state_ok skip' acc n ->
      (tk t = KComment \/ (n > 0 /\ tk t = KNewLine) \/ (n = 0 /\ open_ended (last_of acc) /\ ends_command t = true)) ->
      forall rest out, command ms false skip' ts acc n = (rest, Ret out) <->
      exists c body, t :: ts = body ++ rest /\ out = rev acc ++ c /\ lay (valid ms) (at_eof rest) n (last_of acc) c body /\ is_end rest).
    { intros skip' OK' WHY rest0 out0. rewrite (IH skip' acc n OK'). split.
      - intros (c & body & -> & -> & LY & IE). exists c, (t :: body). repeat split; auto.
        destruct WHY as [K|[[N0 K]|(-> & OE & EC)]]; [now apply lay_comment|now apply lay_newline|apply lay_more; auto; now apply ends_iff].
      - intros (c & body & E & -> & LY & IE). rewrite ends_iff in WHY. inversion LY; subst; cbn [app] in E.
        + (* nothing can be out here *) exfalso. subst rest0. cbn in IE. apply ends_iff in IE.
          destruct WHY as [K|[[N0 K]|(_ & OE & EC)]]; [destruct IE; congruence|lia|]. cbn [at_eof] in *.
          match goal with H : false = false -> _ |- _ => now apply H end.
        + exfalso. injection E as <- _. destruct WHY as [K|[[N0 K]|(-> & OE & [K|K])]]; try congruence.
          match goal with H : 0 = 0 -> _ |- _ => now apply H end.
        + injection E as <- ->. exists c, ts0; auto.
        + injection E as <- ->. exists c, ts0; auto.
        + injection E as <- ->. exists c, ts0; auto. }
    cbn [command stuck]. replace (stuck false ts) with false by (now destruct ts).
    destruct (skip && skipped t) eqn:S1.
    { apply andb_true_iff in S1 as [-> S1]. destruct (SK eq_refl) as [-> OE]. apply DROP.
      - split; auto.
      - unfold skipped in S1. apply orb_true_iff in S1 as [S1|S1]; [right; right; auto|left]. destruct (tt_eqb_spec (tk t) KComment); auto; discriminate. }
    destruct (ends_command t && (n =? 0)) eqn:S2.
    { apply andb_true_iff in S2 as [EC N0]. apply Nat.eqb_eq in N0 as ->.
      assert (SF : skip = false). { destruct skip; auto. unfold skipped in S1. rewrite EC in S1. discriminate. }
      assert (NA : acc <> []). { intro E; apply SE in E; congruence. }
      destruct (wants_more acc) eqn:WM.
      - apply wants_iff in WM; auto. apply DROP; [split; auto; intro; contradiction|auto].
      - apply OUT; auto. intro O; apply wants_iff in O; auto. congruence. }
    destruct (tt_eqb_spec (tk t) KComment) as [KC|KC]; [|destruct (tt_eqb_spec (tk t) KNewLine) as [KN|KN]].
    + cbn [orb negb andb]. rewrite KC. cbn [opens closes]. apply DROP; auto. split; [discriminate|]. intro E. rewrite (SE E) in S1.
      unfold skipped, ends_command in S1. rewrite KC in S1. discriminate.
    + cbn [orb negb andb]. rewrite KN. cbn [opens closes].
      assert (N0 : n > 0). { apply andb_false_iff in S2 as [S2|S2]; [|apply Nat.eqb_neq in S2; lia]. unfold ends_command in S2. rewrite KN in S2. discriminate. }
      apply DROP; auto. split; [discriminate|]. intro E. destruct (SK (SE E)); lia.
    + cbn [orb negb andb]. assert (NS : n = 0 -> tk t <> KSemi).
      { intros -> K. rewrite andb_true_r in S2. unfold ends_command in S2. rewrite K in S2. discriminate. }
      destruct (valid ms t) eqn:V; cbn [negb].
      * rewrite <- nested_eq. rewrite (IH false (t :: acc) (nested n t)) by (split; discriminate). cbn [last_of rev]. split.
        -- intros (c & body & -> & -> & LY & IE). exists (t :: c), (t :: body). rewrite <- app_assoc. repeat split; auto. now apply lay_token.
        -- intros (c & body & E & -> & LY & IE). inversion LY; subst; cbn [app] in E.
           ++ exfalso. subst rest. cbn in IE. apply ends_iff in IE as [K|K]; [congruence|]. now apply NS.
           ++ injection E as <- ->. exists c0, ts0. rewrite <- app_assoc. auto.
           ++ injection E as <- ->. congruence.
           ++ injection E as <- ->. congruence.
           ++ exfalso. injection E as <- ->. match goal with H : _ \/ _ |- _ => destruct H; [congruence|] end. now apply NS.
      * split; [discriminate|]. intros (c & body & E & -> & LY & IE). exfalso. inversion LY; subst; cbn [app] in E.
           ++ subst rest. cbn in IE. apply ends_iff in IE as [K|K]; [congruence|]. now apply NS.
           ++ injection E as <- ->. congruence.
           ++ injection E as <- ->. congruence.
           ++ injection E as <- ->. congruence.
           ++ injection E as <- ->. match goal with H : _ \/ _ |- _ => destruct H; [congruence|] end. now apply NS.
Qed.
Lemma start_ok : state_ok true [] 0.
Proof. split; auto. intros _; split; cbn; auto. Qed.

Lemma command_shorter ms bad : forall ts skip acc n ts' o, command ms bad skip ts acc n = (ts', o) -> length ts' <= length ts.
Proof.
  induction ts as [|t ts IH]; intros skip acc n ts' o; cbn [command]; [now injection 1 as <- <-|].
  destruct (skip && skipped t); [destruct (stuck bad ts); [injection 1 as <- <-; auto|intro H; apply IH in H; cbn; lia]|].
  destruct (_ && (n =? 0)).
  { destruct (wants_more acc); [|injection 1 as <- <-; auto]. destruct (stuck bad ts); [injection 1 as <- <-; auto|intro H; apply IH in H; cbn; lia]. }
  destruct (_ && negb (valid ms t)); [destruct (stuck bad ts); injection 1 as <- <-; cbn; auto|].
  destruct (stuck bad ts); [injection 1 as <- <-; auto|intro H; apply IH in H; cbn; lia].
Qed.
(* a command that has something in it takes at least one token, and what is left starts where it ends *)
Lemma lay_takes ok eof n last c body : lay ok eof n last c body -> c <> [] -> body <> [].
Proof. intros H N; inversion H; subst; congruence. Qed.
