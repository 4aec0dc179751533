(* P_TSearch.v - the recursion of table_search, for any table with the properties wanted of it. *)
From Verif Require Import Base M_Bell M_Change M_Row M_Extent M_Group M_Multtab M_Touch M_Method M_False M_Search M_TSearch Spec_Row Spec_Change Spec_Touch Spec_Group Spec_Method Spec_Extent Spec_Search
  P_Search P_Search2 P_Search6.
Set Implicit Arguments.
Unset Strict Implicit.
Open Scope nat_scope.

Section TDfs.
Variables (sym : symtab) (cx : tcontext) (K N : nat) (idx : list nat -> nat) (B : list nat -> list nat -> Prop) (lhs : nat -> nat) (nd : nat -> node) (npart : list nat -> bool).
Definition words (w : list nat) : Prop := Forall (fun i => i <= K) w.
Definition multi : bool := 1 <? parts_of cx.
Definition kid (i : nat) : Z * node := (1%Z, nd i).
Definition touch_of (w : list nat) : node := Children (map kid w).
Definition leads_ok (w : list nat) (l : list bool) : Prop := length l = N /\ forall j, j < N -> (nth j l false = true <-> exists p, p < length w /\ j = idx (firstn p w)).
Hypothesis PARTS : 1 <= parts_of cx.
Hypothesis IDX : forall w, words w -> idx w < N.
Hypothesis IDX0 : idx [] = 0.
Hypothesis LHS : tc_lhs cx = map lhs (seq 0 (S K)).
Hypothesis STEP : forall w i, words w -> i <= K -> mt_mul (tc_table cx) (idx w) (lhs i) = Ret (idx (w ++ [i])).
Hypothesis FALSES : forall w l, words w -> leads_ok w l ->
  exists o, ts_row_false (tc_table cx) (tc_false cx) l (idx w) = Ret o /\ (o = true <-> exists p, p < length w /\ B (firstn p w) w).
Hypothesis SAME : forall u v, words u -> words v -> idx u = idx v -> B u v.
Hypothesis NODES : tc_nodes cx = map nd (seq 0 (S K)).
Hypothesis NPART : forall w, words w -> w <> [] -> multi = true -> ts_is_n_part sym cx (touch_of w) = Ret (npart w).

Lemma words_app u v : words (u ++ v) <-> words u /\ words v.
Proof. apply Forall_app. Qed.
Lemma words_firstn k w : words w -> words (firstn k w).
Proof. intros H. rewrite <- (firstn_skipn k w) in H. now apply words_app in H. Qed.

Definition nofalse (w : list nat) : Prop := forall p q, p < q < length w -> ~ B (firstn p w) (firstn q w).
Definition tkept (w : list nat) (cur : nat) : Prop := if multi then cur = 0 else kept w cur.
Definition pre (w : list nat) (cur : nat) : Prop := (w = [] /\ cur = 0) \/ exists w' c, w = w' ++ [c] /\ tkept w' cur.
Definition ends (v : list nat) : Prop := idx v = 0 \/ has (tc_flags cx) TS_NONROUND = true /\ exists p, p < length v /\ B (firstn p v) v.
Definition accepted (v : list nat) (cur : nat) : Prop :=
  v <> [] /\ words v /\ tkept v cur /\ ts_really cx v = true /\ nofalse v /\ ends v /\ (tc_min cx <= Z.of_nat (length v) <= tc_max cx)%Z.
Definition wanted (w : list nat) : bool := has (tc_flags cx) TS_MUTUAL || negb multi || npart w.
Definition turns (len cur : nat) : nat := if has (tc_flags cx) TS_IGNORE || multi then 1 else len / (if negb (len mod cur =? 0) then cur else len / cur).
Definition block (e : list nat * nat) : list (list nat) := if wanted (fst e) then map (fun k => turn k (fst e)) (seq 0 (turns (length (fst e)) (snd e))) else [].
Definition produced (w : list nat) (e : list nat * nat) : Prop := accepted (fst e) (snd e) /\ exists s, fst e = w ++ s.
Definition before (a b : list nat * nat) : Prop := lex_lt (fst a) (fst b).
Definition tstate : Type := sstate * list bool.
Definition performs (act : (list node -> bool) -> tstate -> outcome tstate) (leads : list bool -> Prop) (full : list (list nat * nat)) : Prop :=
  forall stop s, st_halt (fst s) = false -> leads (snd s) -> exists s', act stop s = Ret s' /\
    snd s' = snd s /\ (st_outs (fst s'), st_halt (fst s')) = feed stop (st_outs (fst s)) (map touch_of (flat_map block full)).

Lemma tkept_prefix u s cur : tkept (u ++ s) cur -> exists c, tkept u c.
Proof. unfold tkept. destruct multi; [eauto|]. apply kept_prefix. Qed.
Lemma tkept_unique w c c' : tkept w c -> tkept w c' -> c = c'.
Proof. unfold tkept. destruct multi; [congruence|]. intros A C. exact (kept_unique A C). Qed.
Lemma nofalse_app u s : nofalse (u ++ s) -> nofalse u.
Proof.
  intros H p q Hpq. specialize (H p q). rewrite app_length in H. rewrite !firstn_app in H. replace (p - length u) with 0 in H by lia. replace (q - length u) with 0 in H by lia. cbn [firstn] in H. rewrite !app_nil_r in H. apply H. lia.
Qed.
Lemma nofalse_lt u s p : nofalse (u ++ s) -> s <> [] -> p < length u -> ~ B (firstn p u) u.
Proof.
  intros H Hs Hp. specialize (H p (length u)). rewrite app_length in H. assert (length s <> 0) by (now destruct s). rewrite !firstn_app, Nat.sub_diag in H. replace (p - length u) with 0 in H by lia. cbn [firstn] in H. rewrite !app_nil_r, firstn_all in H. apply H. lia.
Qed.
Lemma nofalse_snoc u i : nofalse u -> (forall p, p < length u -> ~ B (firstn p u) u) -> nofalse (u ++ [i]).
Proof.
  intros H1 H2 p q Hpq. rewrite app_length in Hpq. cbn in Hpq. rewrite !firstn_app. replace (p - length u) with 0 by lia. replace (q - length u) with 0 by lia. cbn [firstn]. rewrite !app_nil_r.
  destruct (Nat.eq_dec q (length u)) as [->|X]; [rewrite firstn_all; apply H2; lia|]. apply H1. lia.
Qed.
Lemma pre_possible w cur : pre w cur -> exists o, ts_possibly cx w cur = Ret o /\ forall c, o = Some c <-> tkept w c.
Proof.
  intros P. unfold ts_possibly, pre, tkept in *. fold multi. destruct multi.
  - assert (Z : cur = 0) by (destruct P as [[_ ->]|(w' & c & _ & ->)]; reflexivity). exists (Some cur). split; [now destruct w|]. intros c. split; [congruence|intros ->; now subst].
  - destruct P as [[-> ->]|(w' & c & -> & Kw)].
    + exists (Some 0). split; [reflexivity|]. intros c. split; [intros E; injection E as <-; constructor|]. intros Kw. f_equal. apply (kept_unique kept_nil Kw).
    + destruct (@P_Search6.pre_possible (w' ++ [c]) cur) as (o & E & H); [right; eauto|]. exists o. split; [|exact H]. rewrite <- E. now destruct w'.
Qed.

Lemma output_spec w cur : words w -> w <> [] -> tkept w cur -> forall l stop st, st_halt st = false -> exists st', ts_output sym cx stop w cur st = Ret st' /\
  (st_outs st', st_halt st') = feed stop (st_outs st) (map touch_of (block (w, cur))) /\ l = l :> list bool.
Proof.
  intros C Hw Kw l stop st Hh. unfold block. cbn [fst snd]. unfold ts_output.
  assert (F : forall a, forM w (fun l i => n <- vget (tc_nodes cx) i ;; Ret (l ++ [(1%Z, n)])) a = Ret (a ++ map kid w)).
  { clear -C NODES. induction C as [|i w Hi C IH]; intros a; [cbn; now rewrite app_nil_r|]. cbn [forM map].
    assert (V : vget (tc_nodes cx) i = Ret (nd i)) by (rewrite NODES, (@vget_lt _ _ _ (nd 0)) by (rewrite map_length, seq_length; lia); now rewrite map_nth, seq_nth by lia).
    rewrite V. cbn [bind]. rewrite IH, <- app_assoc. reflexivity. }
  rewrite F. cbn [bind app].
  assert (OK : (if negb (has (tc_flags cx) TS_MUTUAL) && (1 <? parts_of cx) then ts_is_n_part sym cx (Children (map kid w)) else Ret true) = Ret (wanted w)).
  { unfold wanted. fold multi. destruct (has (tc_flags cx) TS_MUTUAL); [reflexivity|]. cbn [negb andb orb]. destruct multi eqn:M; [|reflexivity]. apply NPART; auto. }
  rewrite OK. cbn [bind]. destruct (wanted w); cbn [negb].
  2: { eexists. split; [reflexivity|]. cbn [st_outs st_halt map feed]. rewrite Hh. auto. }
  set (st1 := emit stop _). assert (O1 : st_outs st1 = st_outs st ++ [touch_of w]) by reflexivity.
  assert (H1 : st_halt st1 = stop (st_outs st ++ [touch_of w])) by reflexivity. unfold turns.
  assert (T0 : touch_of (turn 0 w) = touch_of w) by (now rewrite turn_0).
  assert (PM : (parts_of cx =? 1) = negb multi). { unfold multi. destruct (Nat.eqb_spec (parts_of cx) 1), (Nat.ltb_spec 1 (parts_of cx)); cbn; auto; lia. }
  rewrite PM. assert (DM : has (tc_flags cx) TS_IGNORE || multi = negb (negb (has (tc_flags cx) TS_IGNORE) && negb multi)) by (now rewrite negb_andb, !negb_involutive). rewrite DM.
  destruct (negb (has (tc_flags cx) TS_IGNORE) && negb multi) eqn:Rot; cbn [negb].
  - apply andb_true_iff in Rot. destruct Rot as [_ NM]. unfold tkept in Kw. destruct multi; [discriminate|]. pose proof (kept_le Kw) as [Hc Hp]. specialize (Hp Hw).
    destruct (Nat.eqb_spec cur 0) as [|N0]; [lia|]. set (parts := if negb _ then cur else _).
    assert (PP : 1 <= parts <= length w).
    { unfold parts. destruct (Nat.eqb_spec (length w mod cur) 0) as [E|E]; cbn [negb]; [|lia]. split; [apply Nat.div_le_lower_bound; lia|apply Nat.div_le_upper_bound; [lia|nia]]. }
    destruct (Nat.eqb_spec parts 0) as [|NP]; [lia|]. eexists. split; [reflexivity|]. split; [|reflexivity].
    assert (Q : 1 <= length w / parts <= length w) by (split; [apply Nat.div_le_lower_bound; lia|apply Nat.div_le_upper_bound; [lia|nia]]).
    remember (length w / parts) as q eqn:Eq. destruct q as [|q]; [lia|]. cbn [seq map feed]. rewrite T0. replace (S q - 1) with q by lia.
    destruct (stop (st_outs st ++ [touch_of w])) eqn:Es.
    + assert (X : rotations_loop q stop st1 = st1) by (now apply rotations_halted). rewrite X. now rewrite O1, H1.
    + destruct (@rotations_spec kid stop w q 0 st1) as (A1 & A2 & A3 & A4); [lia|exact H1|change (st_tl st1) with (map kid w); now rewrite turn_0|rewrite O1; now destruct (st_outs st)|rewrite O1, last_last; reflexivity|].
      rewrite A2, O1. f_equal. rewrite map_map. reflexivity.
  - exists st1. split; [reflexivity|]. split; [|reflexivity]. cbn [seq map feed]. rewrite T0, O1, H1. now destruct (stop _).
Qed.

Lemma leads_snoc w l l' i : words w -> leads_ok w l -> vset l (idx w) true = Ret l' -> leads_ok (w ++ [i]) l'.
Proof.
  intros C [HL H] V. pose proof (IDX C) as HI. rewrite vset_lt in V by lia. injection V as <-. split; [now rewrite upd_length by lia|]. intros j Hj. rewrite nth_upd by lia.
  rewrite app_length. cbn [length]. split.
  - intros E. destruct (Nat.eqb_spec j (idx w)) as [->|Nj].
    + exists (length w). split; [lia|]. now rewrite firstn_app, Nat.sub_diag, firstn_all, app_nil_r.
    + apply H in E; [|exact Hj]. destruct E as (p & Hp & ->). exists p. split; [lia|]. rewrite firstn_app. replace (p - length w) with 0 by lia. now rewrite app_nil_r.
  - intros (p & Hp & ->). rewrite firstn_app in *. replace (p - length w) with 0 in * by lia. cbn [firstn] in *. rewrite app_nil_r in *. destruct (Nat.eqb_spec (idx (firstn p w)) (idx w)) as [E|E]; [reflexivity|].
    apply H; [exact Hj|]. exists p. split; [|reflexivity]. destruct (Nat.eq_dec p (length w)) as [->|]; [rewrite firstn_all in E; congruence|lia].
Qed.
Lemma produced_nil w : (forall s cur, ~ accepted (w ++ s) cur) -> forall w', ~ produced w w'.
Proof. intros H [v cur] (A & s & E). cbn in A, E. subst. exact (H s cur A). Qed.
Lemma produced_step w : (forall cur, ~ accepted w cur) -> forall w', produced w w' <-> exists i, i <= K /\ produced (w ++ [i]) w'.
Proof.
  intros NA [v cur]. unfold produced. cbn [fst snd]. split.
  - intros (A & s & ->). destruct s as [|i s]; [rewrite app_nil_r in A; now destruct (NA cur)|]. exists i.
    assert (X : w ++ i :: s = (w ++ [i]) ++ s) by (rewrite <- app_assoc; reflexivity). rewrite X in *. split.
    + destruct A as (_ & C & _). apply words_app in C. destruct C as [C _]. apply words_app in C. destruct C as [_ C]. now inversion C.
    + split; [exact A|]. exists s. reflexivity.
  - intros (i & Hi & A & s & ->). split; [exact A|]. exists (i :: s). rewrite <- app_assoc. reflexivity.
Qed.

Lemma depth_bound w : nofalse w -> words w -> length w <= N.
Proof.
  intros NF C. assert (D : NoDup (map (fun p => idx (firstn p w)) (seq 0 (length w)))).
  { apply (NoDup_nth _ 0). rewrite map_length, seq_length. intros i j Hi Hj.
    assert (G : forall k, k < length w -> nth k (map (fun p => idx (firstn p w)) (seq 0 (length w))) 0 = idx (firstn k w)).
    { intros k Hk. rewrite (nth_indep _ 0 (idx (firstn 0 w))) by (rewrite map_length, seq_length; exact Hk). rewrite (map_nth (fun p => idx (firstn p w))), seq_nth by exact Hk. reflexivity. }
    rewrite !G by assumption. intros E. destruct (Nat.lt_trichotomy i j) as [Kk|[Kk|Kk]]; [exfalso|exact Kk|exfalso].
    - apply (NF i j); [lia|]. apply SAME; auto using words_firstn.
    - apply (NF j i); [lia|]. apply SAME; auto using words_firstn. }
  apply NoDup_incl_length with (l' := seq 0 N) in D; [rewrite map_length, !seq_length in D; exact D|].
  intros x Hx. apply in_map_iff in Hx. destruct Hx as (p & <- & _). apply in_seq. pose proof (IDX (words_firstn p C)). lia.
Qed.

Definition body (fuel : nat) (stop : list node -> bool) (r depth : nat) (w : list nat) (cur : nat) : tstate -> nat -> outcome tstate := fun s i =>
  if st_halt (fst s) then Ret s else
  l <- vget (tc_lhs cx) i ;; r' <- mt_mul (tc_table cx) r l ;; ts_recursive fuel sym cx stop r' (depth + 1) (w ++ [i]) cur s.
Lemma loop_spec fuel w cur leads : words w ->
  forall I, StronglySorted lt I -> Forall (fun i => i <= K) I ->
  (forall i, In i I -> exists full, performs (fun stop s => ts_recursive fuel sym cx stop (idx (w ++ [i])) (length (w ++ [i])) (w ++ [i]) cur s) leads full /\
     (forall w', In w' full <-> produced (w ++ [i]) w') /\ StronglySorted before full) ->
  exists full, performs (fun stop s => forM I (body fuel stop (idx w) (length w) w cur) s) leads full /\
    (forall w', In w' full <-> exists i, In i I /\ produced (w ++ [i]) w') /\ StronglySorted before full.
Proof.
  intros C. induction 1 as [|i I S IH Hlt]; intros HB HI.
  - exists []. split; [|split; [|constructor]].
    + intros stop s Hh Hl. exists s. cbn. rewrite Hh. auto.
    + intros w'. split; [intros []|intros (i & [] & _)].
  - inversion_clear HB as [|? ? Bi BI]. destruct (HI i (or_introl eq_refl)) as (f1 & P1 & M1 & S1).
    destruct (IH BI) as (f2 & P2 & M2 & S2); [intros j Hj; apply HI; now right|].
    exists (f1 ++ f2). split; [|split].
    + intros stop s Hh Hl. cbn [forM]. unfold body at 1. rewrite Hh. assert (V : vget (tc_lhs cx) i = Ret (lhs i)) by (rewrite LHS, (@vget_lt _ _ _ (lhs 0)) by (rewrite map_length, seq_length; lia); now rewrite map_nth, seq_nth by lia).
      rewrite V. cbn [bind]. rewrite (STEP C Bi). cbn [bind]. assert (Ln : length w + 1 = length (w ++ [i])) by (rewrite app_length; reflexivity). rewrite Ln.
      destruct (P1 stop s Hh Hl) as (s1 & E1 & L1 & O1). rewrite E1. cbn [bind]. rewrite flat_map_app, map_app, feed_app, <- O1. destruct (st_halt (fst s1)) eqn:Hh1.
      * exists s1. split; [|split; [exact L1|now rewrite Hh1]].
        assert (G : forall J, forM J (body fuel stop (idx w) (length w) w cur) s1 = Ret s1); [|apply G]. induction J as [|j J IHJ]; [reflexivity|]. cbn [forM]. unfold body at 1. rewrite Hh1. exact IHJ.
      * destruct (P2 stop s1 Hh1) as (s2 & E2 & L2 & O2); [now rewrite L1|]. exists s2. split; [exact E2|]. split; [congruence|exact O2].
    + intros w'. rewrite in_app_iff, M1, M2. cbn [In]. split.
      * intros [H|(j & Hj & H)]; eauto.
      * intros (j & [<-|Hj] & H); eauto.
    + assert (X : forall a c, In a f1 -> In c f2 -> before a c).
      { intros [a ca] [c cc] Ha Hc. apply M1 in Ha. apply M2 in Hc. destruct Hc as (j & Hj & Hc). rewrite Forall_forall in Hlt. specialize (Hlt j Hj).
        destruct Ha as (_ & s & Ea). destruct Hc as (_ & s' & Ec). unfold before. cbn [fst snd] in *. rewrite Ea, Ec, <- !app_assoc. clear -Hlt. induction w as [|x w IH]; cbn; [now left|right; auto]. }
      clear -S1 S2 X. induction S1 as [|a f1 S IH F]; [exact S2|]. cbn [app]. constructor; [apply IH; intros; apply X; [now right|assumption]|].
      apply Forall_app. split; [exact F|]. apply Forall_forall. intros c Hc. apply X; [now left|exact Hc].
Qed.

Theorem run_spec : forall fuel w cur, pre w cur -> words w -> nofalse w -> (w <> [] -> Z.of_nat (length w) <= tc_max cx)%Z -> N + 1 <= fuel + length w ->
  exists full, performs (fun stop s => ts_recursive fuel sym cx stop (idx w) (length w) w cur s) (leads_ok w) full /\
    (forall w', In w' full <-> produced w w') /\ StronglySorted before full.
Proof.
  induction fuel as [|fuel IH]; intros w cur PRE C NF HM HF.
  { pose proof (depth_bound NF C). lia. }
  destruct (pre_possible PRE) as (o & Eo & Ho).
  assert (NIL : (forall s cu, ~ accepted (w ++ s) cu) -> (forall stop s, st_halt (fst s) = false -> leads_ok w (snd s) -> ts_recursive (S fuel) sym cx stop (idx w) (length w) w cur s = Ret s) ->
    exists full, performs (fun stop s => ts_recursive (S fuel) sym cx stop (idx w) (length w) w cur s) (leads_ok w) full /\ (forall w', In w' full <-> produced w w') /\ StronglySorted before full).
  { intros NA Q. exists []. split; [|split; [|constructor]].
    - intros stop s Hh Hl. exists s. rewrite (Q stop s) by assumption. cbn. rewrite Hh. auto.
    - intros w'. split; [intros []|]. intros H. destruct (produced_nil NA H). }
  destruct o as [cur'|].
  2: { apply NIL.
    - intros s cu (_ & _ & Kw & _). destruct (tkept_prefix Kw) as (c & K'). apply Ho in K'. discriminate.
    - intros stop s _ _. cbn [ts_recursive]. rewrite Eo. reflexivity. }
  assert (Kw : tkept w cur') by (now apply Ho). clear Ho.
  (* whether it is false depends on w only *)
  assert (F : exists o : bool, (forall l, leads_ok w l -> ts_row_false (tc_table cx) (tc_false cx) l (idx w) = Ret o) /\ (o = true <-> exists p, p < length w /\ B (firstn p w) w)).
  { set (l0 := map (fun j => existsb (fun p => j =? idx (firstn p w)) (seq 0 (length w))) (seq 0 N)).
    assert (L0 : leads_ok w l0).
    { split; [unfold l0; now rewrite map_length, seq_length|]. intros j Hj. unfold l0.
      rewrite (nth_indep _ false (existsb (fun p => 0 =? idx (firstn p w)) (seq 0 (length w)))) by (rewrite map_length, seq_length; exact Hj).
      rewrite (map_nth (fun j => existsb (fun p => j =? idx (firstn p w)) (seq 0 (length w)))), seq_nth by exact Hj. cbn [plus]. rewrite existsb_exists. split.
      - intros (p & Hp & E). apply in_seq in Hp. apply Nat.eqb_eq in E. exists p. split; [lia|exact E].
      - intros (p & Hp & E). exists p. split; [apply in_seq; lia|now apply Nat.eqb_eq]. }
    destruct (FALSES C L0) as (o & _ & Ho). exists o. split; [|exact Ho]. intros l Hl. destruct (FALSES C Hl) as (o' & E' & H'). rewrite E'. f_equal. apply Bool.eq_iff_eq_true. now rewrite H', Ho. }
  destruct F as (o & FALSE & Eo2).
  destruct o.
  - (* false *)
    assert (ONLY : forall s cu, accepted (w ++ s) cu -> s = []).
    { intros s cu (_ & _ & _ & _ & NF' & _). destruct s as [|x s]; [reflexivity|exfalso]. destruct (proj1 Eo2 eq_refl) as (p & Hp & Cl).
      apply (nofalse_lt NF' ltac:(discriminate) Hp Cl). }
    assert (W0 : w <> []) by (intros ->; destruct (proj1 Eo2 eq_refl) as (p & Hp & _); cbn in Hp; lia).
    destruct ((tc_min cx <=? Z.of_nat (length w))%Z && (has (tc_flags cx) TS_NONROUND || (idx w =? 0)) && ts_really cx w) eqn:Eout.
    + pose proof Eout as Eout'. apply andb_true_iff in Eout. destruct Eout as [Eout Can]. apply andb_true_iff in Eout. destruct Eout as [Emin Ern].
      assert (EN : ends w). { apply orb_true_iff in Ern. destruct Ern as [E|E]; [right; split; [exact E|now apply Eo2]|left; now apply Nat.eqb_eq]. }
      assert (ACC : accepted w cur'). { split; [exact W0|]. split; [exact C|]. split; [exact Kw|]. split; [exact Can|]. split; [exact NF|]. split; [exact EN|]. apply Z.leb_le in Emin. split; [exact Emin|now apply HM]. }
      exists [(w, cur')]. split; [|split].
      * intros stop s Hh Hl. destruct (@output_spec w cur' C W0 Kw (snd s) stop (fst s) Hh) as (st' & E' & O' & _). exists (st', snd s). split; [|split; [reflexivity|cbn [flat_map]; rewrite app_nil_r; exact O']].
        cbn [ts_recursive]. rewrite Eo. cbn [bind]. rewrite (FALSE _ Hl). cbn [bind]. rewrite Eout'. rewrite E'. reflexivity.
      * intros [v cu]. unfold produced. cbn [In fst snd]. split.
        -- intros [E|[]]. injection E as <- <-. split; [exact ACC|]. exists []. now rewrite app_nil_r.
        -- intros (A & s & ->). pose proof (ONLY _ _ A) as ->. rewrite app_nil_r in *. destruct A as (_ & _ & K' & _). left. f_equal. apply (tkept_unique Kw K').
      * repeat constructor.
    + apply NIL.
      * intros s cu A. pose proof (ONLY _ _ A) as ->. rewrite app_nil_r in A. destruct A as (_ & _ & _ & Can & _ & EN & Hlo & _). rewrite Can in Eout. apply Z.leb_le in Hlo. rewrite Hlo in Eout.
        destruct EN as [E|[E _]]; rewrite E in Eout; [rewrite orb_comm in Eout|]; discriminate.
      * intros stop s Hh Hl. cbn [ts_recursive]. rewrite Eo. cbn [bind]. rewrite (FALSE _ Hl). cbn [bind]. rewrite Eout. reflexivity.
  - (* not false *)
    assert (NC : forall p, p < length w -> ~ B (firstn p w) w). { intros p Hp Cl. assert (false = true); [|discriminate]. apply Eo2. exists p. auto. }
    assert (NACC : forall cu, ~ accepted w cu).
    { intros cu (W0 & _ & _ & _ & _ & [ID|(_ & p & Hp & Bp)] & _); [|exact (NC p Hp Bp)]. apply (NC 0); [destruct w; [congruence|cbn; lia]|]. cbn [firstn]. apply SAME; [constructor|exact C|congruence]. }
    destruct (Z.of_nat (length w) <? tc_max cx)%Z eqn:Emax.
    + apply Z.ltb_lt in Emax.
      destruct (@loop_spec fuel w cur' (fun l' => exists l, leads_ok w l /\ vset l (idx w) true = Ret l') C (seq 0 (S K))) as (full & P & M & S).
      { clear. generalize (S K) as n. intros n. generalize 0 as a. induction n as [|n IH]; intros a; [constructor|]. cbn [seq]. constructor; [apply IH|]. apply Forall_forall. intros x Hx. apply in_seq in Hx. lia. }
      { apply Forall_forall. intros i Hi. apply in_seq in Hi. lia. }
      { intros i Hi. apply in_seq in Hi. destruct (IH (w ++ [i]) cur') as (full & P & M & S).
        - right. exists w, i. auto.
        - apply words_app. split; [exact C|]. repeat constructor. lia.
        - now apply nofalse_snoc.
        - intros _. rewrite app_length. cbn. lia.
        - rewrite app_length. cbn. lia.
        - exists full. split; [|auto]. intros stop s Hh (l & Hl & E). apply P; auto. now apply (leads_snoc i C Hl E). }
      exists full. split; [|split; [|exact S]].
      * intros stop s Hh Hl. cbn [ts_recursive]. rewrite Eo. cbn [bind]. rewrite (FALSE _ Hl). cbn [bind]. apply Z.ltb_lt in Emax. rewrite Emax.
        pose proof (IDX C) as HI. pose proof Hl as [LL LH].
        assert (V : vset (snd s) (idx w) true = Ret (upd (snd s) (idx w) true)) by (apply vset_lt; lia). rewrite V. cbn [bind].
        rewrite LHS, map_length, seq_length.
        destruct (P stop (fst s, upd (snd s) (idx w) true)) as (s' & E' & L' & O'); [exact Hh|exists (snd s); auto|].
        unfold body, tstate in E'. rewrite LHS in E'. rewrite E'. cbn [bind]. cbn [fst snd] in L', O'. rewrite L'.
        rewrite vset_lt by (rewrite upd_length by lia; lia). cbn [bind]. eexists. split; [reflexivity|]. cbn [fst snd]. split; [|exact O'].
        apply (@list_nth_ext _ _ _ false); rewrite !upd_length by (rewrite ?upd_length by lia; lia); [reflexivity|]. intros j Hj. rewrite !nth_upd by (rewrite ?upd_length by lia; lia).
        destruct (Nat.eqb_spec j (idx w)) as [->|]; [|reflexivity]. symmetry. apply Bool.not_true_is_false. intros E. apply LH in E; [|lia]. destruct E as (p & Hp & E).
        apply (NC p Hp). apply SAME; [now apply words_firstn|exact C|now symmetry].
      * intros w'. rewrite M. rewrite (produced_step NACC). split; intros (i & Hi & Pi); exists i; (split; [|exact Pi]); [apply in_seq in Hi; lia|apply in_seq; lia].
    + apply NIL.
      * intros s cu A. destruct s as [|x s]; [rewrite app_nil_r in A; exact (NACC cu A)|]. destruct A as (_ & _ & _ & _ & _ & _ & _ & Hhi). rewrite app_length in Hhi. cbn [length] in Hhi. apply Z.ltb_ge in Emax. lia.
      * intros stop s Hh Hl. cbn [ts_recursive]. rewrite Eo. cbn [bind]. rewrite (FALSE _ Hl). cbn [bind]. rewrite Emax. reflexivity.
Qed.
End TDfs.
