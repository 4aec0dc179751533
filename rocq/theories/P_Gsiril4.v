(* P_Gsiril4.v - the verdict on a static program. *)
From Verif Require Import Base M_Bell M_Change M_Row M_Method M_Proof M_Dim M_Names M_Library M_Gsiril Spec_Proof P_Proof P_Proof2 P_Gsiril Spec_Gsiril P_Gsiril2 P_Gsiril3.
Set Implicit Arguments.
Unset Strict Implicit.
Open Scope nat_scope.

(* how a proof of the given rows should end *)
Definition expected (c : cfg) (r0 : row) (rows : list row) : verdict :=
  if list_eq_dec Nat.eq_dec (last rows r0) (c_rounds c) then
    if (negb (c_min c =? 0) && (length rows <? c_min c)) then VTooShort else VTrue
  else VNotRound.

Section Verdict.
Variables (c : cfg) (e : expr) (g : glob) (cs : list change) (r0 : row) (rows : list row).
Let look := sym_lookup (g_syms g).
Hypothesis Hlim : (c_limit c <= 0)%Z.
Hypothesis Hext : (0 <= c_extents c)%Z.
Hypothesis Hnodes : (0 <= g_nodes g)%Z.
Hypothesis Hevery : look (str "everyrow") = Some ENop.
Hypothesis Hrounds : look (str "rounds") = Some ENop.
Hypothesis Hstart : look (str "start") = Some ENop.
Hypothesis Hfinish : look (str "finish") = Some ENop.
Hypothesis Hconf : aborts c look (str "conflict").
Hypothesis Hlong : c_max c <> 0 -> aborts c look (str "toolong").
Hypothesis Hend : forall n, In n (map str ["true"; "notround"; "abort"]%string) -> settles c look n.
Hypothesis Hshort : c_min c <> 0 -> settles c look (str "tooshort").
Hypothesis Hbells : length (c_rounds c) <= c_bells c.
Hypothesis H0 : start_row c = Ret r0.
Hypothesis Hm : means look false e cs.
Hypothesis Hr : rung r0 cs rows.

Definition ctx0 : ctx := mkCtx [] r0 [] (c_max c) (prover_new (c_extents c) None) true None [] true
         (c_everyrow_only c || c_filter c || (2 <=? c_quiet c)%Z).
Definition names : list text := (if c_min c =? 0 then [] else [str "tooshort"]) ++ map str ["true"; "notround"; "abort"]%string.
Lemma final_ret : exists N, forall fuel n s, N <= fuel -> In n names ->
  sees look s -> (0 <= g_nodes (s_g s))%Z -> exists s' v, final c fuel n s = Ret (s', v).
Proof.
  assert (K : forall l, (forall n, In n l -> settles c look n) -> ~ In (str "loop_counter") l -> exists N, forall fuel n s, N <= fuel -> In n l ->
    sees look s -> (0 <= g_nodes (s_g s))%Z -> exists s' v, final c fuel n s = Ret (s', v)).
  { induction l as [|a l IH]; intros Hl D.
    - exists 0. intros fuel n s _ [].
    - destruct IH as (N1 & H1); [intros n Hn; apply Hl; now right|intros Q; apply D; now right|].
      destruct (Hl a (or_introl eq_refl)) as (h & N2 & E & H2). exists (N1 + N2).
      intros fuel n s L [<-|Hn] S G; [|apply H1; auto; lia].
      destruct (H2 fuel s) as (s' & v & R); [lia|exact S|exact G|].
      unfold final, catch, exec_symbol.
      rewrite (@mb_ret _ _ (lookup a) _ s s h); [|apply (@lookup_see look); auto; intros Q; apply D; now left].
      rewrite R. destruct v as [u|x]; [now exists s', (inl u)|]. exists s', (inl tt). reflexivity. }
  unfold names. apply K.
  - intros n Hn. destruct (Nat.eqb_spec (c_min c) 0) as [Q|Q]; [apply Hend; exact Hn|].
    destruct Hn as [<-|Hn]; [now apply Hshort|now apply Hend].
  - intros Q. destruct (c_min c =? 0); cbn in Q; repeat (destruct Q as [Q|Q]; [discriminate|]); exact Q.
Qed.

Theorem static_verdict : exists N, forall fuel, N <= fuel -> exists v fl x g',
  prove_stmt c fuel e g = Ret (v, fl, x, g') /\
  (at_most (c_extents c) rows /\ (c_max c = 0 \/ length rows <= c_max c) -> v = expected c r0 rows /\ seen x = rows) /\
  (~ (at_most (c_extents c) rows /\ (c_max c = 0 \/ length rows <= c_max c)) -> v = VAborted) /\
  (fl = false <-> v = VTrue).
Proof.
  destruct (@static_exec c look Hlim Hext Hevery Hrounds Hconf Hlong _ _ _ Hm true) as (N1 & H1).
  destruct final_ret as (N2 & H2). exists (N1 + N2 + 1). intros fuel L.
  assert (G0 : going c look (mkSt ctx0 g)).
  { constructor; try reflexivity; [|exact Hnodes]. intros n D. reflexivity. }
  assert (F0 : fine c (seen ctx0)).
  { split; [|destruct (Nat.eq_dec (c_max c) 0); [now left|right; cbn; lia]]. intros r. cbn. exact Hext. }
  assert (NS : new_ctx c = Ret ctx0).
  { unfold new_ctx. destruct (Nat.ltb_spec (c_bells c) (length (c_rounds c))); [lia|]. fold (start_row c). now rewrite H0. }
  unfold prove_stmt. rewrite NS. cbn [bind]. unfold prove_body.
  rewrite (mb_ret _ (@nop_symbol c look Hlim Hlong fuel (str "start") true _ Hstart ltac:(discriminate) ltac:(lia) G0)).
  destruct (H1 fuel (bump (mkSt ctx0 g)) rows) as (s1 & v & E & K); [lia|now apply (going_bump Hlong)|exact F0|exact Hr|].
  change (seen (s_x (bump (mkSt ctx0 g))) ++ rows) with rows in K.
  destruct K as [((u & ->) & F & A)|((-> & KS & KN) & F)].
  - rewrite (mb_ret _ E). pose proof (af_going A) as G1.
    rewrite (@nop_symbol c look Hlim Hlong fuel (str "finish") true _ Hfinish ltac:(discriminate) ltac:(lia) G1). cbn [bind].
    set (s2 := bump s1).
    assert (S2 : seen (s_x s2) = rows) by (unfold s2; cbn; rewrite (af_seen A); reflexivity).
    assert (V : verdict_of c (s_x s2) = expected c r0 rows).
    { unfold verdict_of, state, expected. unfold s2. cbn [bump s_x].
      rewrite (go_p G1), (af_seen A). cbn [app]. change (seen (s_x (bump (mkSt ctx0 g))) ++ rows) with rows.
      destruct F as [F1 F2]. apply (@adds_truth rows _ Hext) in F1. rewrite F1, adds_size, (go_proving G1), (af_r A). cbn [bump s_x ctx0 x_r].
      unfold row_eqb. destruct (list_eq_dec Nat.eq_dec (last rows r0) (c_rounds c)); reflexivity. }
    rewrite V.
    assert (INE : In (final_name (expected c r0 rows)) names).
    { unfold expected, names. destruct (list_eq_dec _ _ _); [|apply in_or_app; right; cbn; auto].
      destruct (Nat.eqb_spec (c_min c) 0) as [Q|Q]; cbn [negb andb]; [cbn; auto|].
      destruct (length rows <? c_min c); cbn; auto. }
    assert (T : forall b, exists s' w, final c fuel (final_name (expected c r0 rows)) (mkSt (set_silent (s_x s2) b) (s_g s2)) = Ret (s', w)).
    { intros b. apply H2; [lia| |exact (go_sees G1)|exact (go_nodes (going_bump Hlong G1))].
      exact INE. }
    assert (T' : exists s' w, final c fuel (final_name (expected c r0 rows)) s2 = Ret (s', w)).
    { apply H2; [lia| |exact (go_sees G1)|exact (go_nodes (going_bump Hlong G1))].
      exact INE. }
    match goal with |- context [final c fuel _ ?s] => assert (TT : exists s' w, final c fuel (final_name (expected c r0 rows)) s = Ret (s', w)) end.
    { destruct (expected c r0 rows); auto. destruct (_ =? 0)%Z; auto. }
    destruct TT as (s3 & w & TT). rewrite TT. cbn [bind].
    eexists _, _, _, _. split; [reflexivity|]. split; [now intros _|]. split; [intros Q; now destruct Q|].
    destruct (expected c r0 rows); split; intros Q; congruence.
  - rewrite (mb_exn _ E). cbn [bind].
    destruct (H2 fuel (str "abort") s1) as (s' & w & T); [lia|unfold names; apply in_or_app; right; cbn; tauto|exact KS|exact KN|]. rewrite T. cbn [bind].
    eexists _, _, _, _. split; [reflexivity|]. split; [intros Q; now destruct F|]. split; [auto|]. split; discriminate.
Qed.
End Verdict.
