(* P_Search6.v - the recursion of the search. *)
From Verif Require Import Base M_Bell M_Change M_Row M_Extent M_Touch M_Method M_False M_Search Spec_Row Spec_Change Spec_Touch Spec_Group Spec_Method Spec_False Spec_Extent Spec_Search
  P_Row P_Cycle P_Group P_Group2 P_Group3 P_Touch P_False P_False3 P_False4 P_Search P_Search2 P_Search3 P_Search4 P_Search5.
Set Implicit Arguments.
Unset Strict Implicit.
Open Scope nat_scope.

(* giving the touches l to the outputer until it says to stop *)
Fixpoint feed (stop : list node -> bool) (outs : list node) (l : list node) : list node * bool :=
  match l with
  | [] => (outs, false)
  | n :: l => if stop (outs ++ [n]) then (outs ++ [n], true) else feed stop (outs ++ [n]) l
  end.
Lemma feed_app stop l l' : forall outs, feed stop outs (l ++ l') = let (o, h) := feed stop outs l in if h : bool then (o, true) else feed stop o l'.
Proof. induction l as [|n l IH]; intros outs; [reflexivity|]. cbn [app feed]. destruct (stop _); [reflexivity|apply IH]. Qed.

Lemma rotations_halted n stop st : st_halt st = true -> rotations_loop n stop st = st.
Proof. intros H. destruct n; cbn [rotations_loop]; [reflexivity|now rewrite H]. Qed.
Section Rotations.
Variable (f : nat -> Z * node).
Lemma rotate_turn k (w : list nat) : k < length w -> rotate1 (map f (turn k w)) = map f (turn (S k) w).
Proof.
  intros H. unfold turn. assert (E : exists x v, skipn k w = x :: v).
  { destruct (skipn k w) as [|x v] eqn:E; [|eauto]. assert (length (skipn k w) = length w - k) by apply skipn_length. rewrite E in *. cbn in *. lia. }
  destruct E as (x & v & E). rewrite E. assert (L : length (firstn k w) = k) by (rewrite firstn_length; lia).
  assert (F : firstn (S k) w = firstn k w ++ [x]). { rewrite <- (firstn_skipn k w) at 1. rewrite E. rewrite firstn_app, L. rewrite firstn_all2 by lia. now replace (S k - k) with 1 by lia. }
  assert (S : skipn (S k) w = v). { rewrite <- (firstn_skipn k w). rewrite E. rewrite skipn_app, L. rewrite skipn_all2 by lia. now replace (S k - k) with 1 by lia. }
  rewrite F, S. cbn [app map rotate1]. rewrite !map_app, <- app_assoc. reflexivity.
Qed.
Lemma rotations_spec stop w n : forall k st, k + n < length w -> st_halt st = false -> st_tl st = map f (turn k w) -> st_outs st <> [] -> last (st_outs st) (Changes []) = Children (st_tl st) ->
  let st' := rotations_loop n stop st in
  st_leads st' = st_leads st /\ (st_outs st', st_halt st') = feed stop (st_outs st) (map (fun i => Children (map f (turn i w))) (seq (S k) n)) /\ st_outs st' <> [] /\ last (st_outs st') (Changes []) = Children (st_tl st').
Proof.
  induction n as [|n IH]; intros k st Hk Hh Ht Ho Hl; cbn zeta.
  - cbn. rewrite Hh. auto.
  - cbn [rotations_loop seq map feed]. rewrite Hh. rewrite Ht, rotate_turn by lia. set (tl := map f (turn (S k) w)).
    set (st1 := emit stop (mkSt false tl (st_leads st) (st_outs st))).
    assert (O1 : st_outs st1 = st_outs st ++ [Children tl]) by reflexivity. assert (H1 : st_halt st1 = stop (st_outs st ++ [Children tl])) by reflexivity.
    destruct (stop (st_outs st ++ [Children tl])) eqn:Es.
    + assert (X : rotations_loop n stop st1 = st1) by (now apply rotations_halted). rewrite X. split; [reflexivity|]. split; [now rewrite O1, H1|]. rewrite O1.
      split; [now destruct (st_outs st)|]. rewrite last_last. reflexivity.
    + destruct (IH (S k) st1) as (A1 & A2 & A3 & A4); [lia|exact H1|reflexivity|rewrite O1; now destruct (st_outs st)|rewrite O1, last_last; reflexivity|].
      split; [exact A1|]. split; [|split; [exact A3|exact A4]]. rewrite A2, O1. reflexivity.
Qed.
End Rotations.

Section Dfs.
Variables (m : method) (calls : list change).
Hypothesis WM : wf_method m.
Hypothesis POS : 0 < mb m.
Hypothesis LEN : 1 <= length (mch m).
Hypothesis CALLS : on_b (mb m) calls.
Variable sym : symtab.
Notation b := (mb m).
Notation L := (length (mch m)).
Notation lhd := (lhd m calls).
Notation hd := (hd m calls).
Notation nd := (nd m calls).
Variables (cx : context) (ic : bool).
Hypothesis LHS : cx_lhs cx = map lhd (seq 0 (S (length calls))).
Hypothesis NODES : cx_nodes cx = map nd (seq 0 (S (length calls))).
Hypothesis TBL : Forall (row_b b) (cx_false cx).
Hypothesis GOOD : forall i, i <= length calls -> good m sym ic (lhd i).
Hypothesis TEST : forall h h', good m sym ic h -> good m sym ic h' -> ((exists f, In f (cx_false cx) /\ comp h f = h') <-> clash m h h').
Definition kid (i : nat) : Z * node := (1%Z, nd i).
Definition touch_of (w : list nat) : node := Children (map kid w).

Lemma hd_good w : calling calls w -> good m sym ic (hd w).
Proof.
  induction w as [|i w IH] using rev_ind; intros H; [rewrite hd_nil; apply (good_id WM POS LEN CALLS)|]. apply calling_app in H. destruct H as [H1 H2]. inversion_clear H2 as [|? ? Hi _].
  rewrite (hd_snoc WM POS LEN CALLS) by assumption. apply (good_comp WM POS LEN CALLS); auto.
Qed.

Lemma has_lead_iff l r : has_lead l r = true <-> In r l.
Proof.
  unfold has_lead. rewrite existsb_exists. split; [intros (x & Hx & E); apply row_eqb_spec in E; now subst|intros H; exists r; split; [exact H|now apply row_eqb_spec]].
Qed.
Lemma row_false_spec leads r : row_b b r -> exists o, is_row_false (cx_false cx) leads r = Ret o /\ (o = true <-> exists f, In f (cx_false cx) /\ In (comp r f) leads).
Proof.
  intros Hr. pose proof (b255 WM POS LEN CALLS) as B. revert TBL. generalize (cx_false cx) as fs. induction 1 as [|f fs Hf Hfs IH]; cbn [is_row_false].
  - exists false. split; [reflexivity|]. split; [discriminate|intros (f & [] & _)].
  - rewrite (@mul_comp r f) by (apply (@row_b_256 b); [lia|assumption]). cbn [bind]. destruct (has_lead leads (comp r f)) eqn:E.
    + exists true. split; [reflexivity|]. split; [|reflexivity]. intros _. apply has_lead_iff in E. exists f. split; [now left|exact E].
    + destruct (IH Hfs) as (o & Eo & IH'). exists o. split; [exact Eo|]. rewrite IH'. split; intros (g & Hg & Hi); [exists g; split; [now right|exact Hi]|].
      destruct Hg as [<-|Hg]; [apply has_lead_iff in Hi; congruence|eauto].
Qed.

(* what is remembered of the leads rung *)
Definition leads_ok (w : list nat) (leads : list row) : Prop := forall x, In x leads <-> exists p, p < length w /\ x = hd (firstn p w).
(* w may be the next beginning tried after cur was found for all of it but the last *)
Definition pre (w : list nat) (cur : nat) : Prop := (w = [] /\ cur = 0) \/ exists w' c, w = w' ++ [c] /\ kept w' cur.
(* w is output, cur being what was remembered *)
Definition accepted (v : list nat) (cur : nat) : Prop :=
  v <> [] /\ calling calls v /\ kept v cur /\ is_really_canonical v = true /\ nofalse m calls v /\ hd v = id_row b /\ (cx_min cx <= Z.of_nat (length v) <= cx_max cx)%Z.
Definition turns (len cur : nat) : nat := if cx_ignore cx then 1 else len / (if negb (len mod cur =? 0) then cur else len / cur).
Definition produced (w : list nat) (e : list nat * nat) : Prop := accepted (fst e) (snd e) /\ exists s, fst e = w ++ s.
Definition block (e : list nat * nat) : list (list nat) := map (fun k => turn k (fst e)) (seq 0 (turns (length (fst e)) (snd e))).
Definition before (a b : list nat * nat) : Prop := lex_lt (fst a) (fst b).
Definition tl_ok (st : sstate) : Prop := st_outs st <> [] -> last (st_outs st) (Changes []) = Children (st_tl st).
(* full is what comes of w *)
Definition performs (act : (list node -> bool) -> sstate -> outcome sstate) (leads : list row -> Prop) (full : list (list nat * nat)) : Prop :=
  forall stop st, st_halt st = false -> leads (st_leads st) -> tl_ok st -> exists st', act stop st = Ret st' /\
    st_leads st' = st_leads st /\ (st_outs st', st_halt st') = feed stop (st_outs st) (map touch_of (flat_map block full)) /\ tl_ok st'.

Lemma kept_prefix u s cur : kept (u ++ s) cur -> exists c, kept u c.
Proof.
  revert cur. induction s as [|c s IH] using rev_ind; intros cur K; [rewrite app_nil_r in K; eauto|]. rewrite app_assoc in K. inversion K as [E|w c0 c' cu K' P E]; [now apply app_cons_not_nil in E|].
  apply app_inj_tail in E. destruct E as [E _]. rewrite E in K'. eapply IH; eauto.
Qed.
Lemma kept_unique w c : kept w c -> forall c', kept w c' -> c = c'.
Proof.
  induction 1 as [|w cur c cur' K IH P]; intros x H.
  - inversion H as [|w cc c' cu K' P E]; [reflexivity|]. symmetry in E. now apply app_cons_not_nil in E.
  - inversion H as [E|w2 cur2 c2 cu2 K2 P2 E]; [now apply app_cons_not_nil in E|]. apply app_inj_tail in E. destruct E as [-> ->]. rewrite (IH _ K2) in P. congruence.
Qed.
Lemma nofalse_app u s : nofalse m calls (u ++ s) -> nofalse m calls u.
Proof.
  intros H p q Hpq. specialize (H p q). rewrite app_length in H. rewrite !firstn_app in H. replace (p - length u) with 0 in H by lia. replace (q - length u) with 0 in H by lia. cbn [firstn] in H. rewrite !app_nil_r in H. apply H. lia.
Qed.
Lemma nofalse_lt u s p : nofalse m calls (u ++ s) -> s <> [] -> p < length u -> ~ clash m (hd (firstn p u)) (hd u).
Proof.
  intros H Hs Hp. specialize (H p (length u)). rewrite app_length in H. assert (length s <> 0) by (now destruct s). rewrite !firstn_app, Nat.sub_diag in H. replace (p - length u) with 0 in H by lia. cbn [firstn] in H. rewrite !app_nil_r, firstn_all in H. apply H. lia.
Qed.
Lemma nofalse_snoc u i : nofalse m calls u -> (forall p, p < length u -> ~ clash m (hd (firstn p u)) (hd u)) -> nofalse m calls (u ++ [i]).
Proof.
  intros H1 H2 p q Hpq. rewrite app_length in Hpq. cbn in Hpq. rewrite !firstn_app. replace (p - length u) with 0 by lia. replace (q - length u) with 0 by lia. cbn [firstn]. rewrite !app_nil_r.
  destruct (Nat.eq_dec q (length u)) as [->|N]; [rewrite firstn_all; apply H2; lia|]. apply H1. lia.
Qed.
Lemma pre_possible w cur : pre w cur -> exists o, is_possibly_canonical w cur = Ret o /\ forall c, o = Some c <-> kept w c.
Proof.
  intros [[-> ->]|(w' & c & -> & K)].
  - exists (Some 0). split; [reflexivity|]. intros c. split; [intros E; injection E as <-; constructor|]. intros K. f_equal. apply (kept_unique kept_nil K).
  - pose proof (kept_le K) as [Hc _]. rewrite (possibly_snoc c Hc). assert (E : exists o, (if cur =? 0 then Ret (Some (S (length w'))) else
      let prev := (w' ++ [c])!(length w' - cur) in if prev <? c then Ret (Some (S (length w'))) else if c <? prev then Ret None else Ret (Some cur)) = Ret o).
    { destruct (cur =? 0); [eauto|]. cbn zeta. destruct (_ <? _); [eauto|]. destruct (_ <? _); eauto. }
    destruct E as (o & E). exists o. split; [exact E|]. rewrite <- (possibly_snoc c Hc) in E. intros c'. split.
    + intros ->. exact (kept_snoc K E).
    + intros H. inversion H as [E1|w2 cur2 c2 cu2 K2 P2 E1]; [now apply app_cons_not_nil in E1|]. apply app_inj_tail in E1. destruct E1 as [-> ->]. rewrite (kept_unique K K2) in E. congruence.
Qed.

Lemma output_spec w cur : calling calls w -> w <> [] -> kept w cur -> forall leads, performs (fun stop st => output_touches cx stop w cur st) leads [(w, cur)].
Proof.
  intros C Hw K leads stop st Hh _ _. cbn [flat_map]. rewrite app_nil_r. unfold block. cbn [fst snd]. pose proof (kept_le K) as [Hc Hp]. specialize (Hp Hw). unfold output_touches. destruct (Nat.eqb_spec cur 0) as [|N0]; [lia|].
  assert (F : forall a, forM w (fun l i => n <- vget (cx_nodes cx) i ;; Ret (l ++ [(1%Z, n)])) a = Ret (a ++ map kid w)).
  { clear -C NODES. induction C as [|i w Hi C IH]; intros a; [cbn; now rewrite app_nil_r|]. cbn [forM map].
    assert (V : vget (cx_nodes cx) i = Ret (nd i)) by (rewrite NODES, (@vget_lt _ _ _ (nd 0)) by (rewrite map_length, seq_length; lia); now rewrite map_nth, seq_nth by lia).
    rewrite V. cbn [bind]. rewrite IH, <- app_assoc. reflexivity. }
  rewrite F. cbn [bind app]. set (st1 := emit stop _). assert (O1 : st_outs st1 = st_outs st ++ [touch_of w]) by reflexivity.
  assert (H1 : st_halt st1 = stop (st_outs st ++ [touch_of w])) by reflexivity. unfold turns. set (parts := if negb _ then cur else _).
  assert (PP : 1 <= parts <= length w).
  { unfold parts. destruct (Nat.eqb_spec (length w mod cur) 0) as [E|E]; cbn [negb]; [|lia]. split; [apply Nat.div_le_lower_bound; lia|apply Nat.div_le_upper_bound; [lia|nia]]. }
  assert (T0 : touch_of (turn 0 w) = touch_of w) by (now rewrite turn_0).
  assert (OK1 : tl_ok st1) by (intros _; rewrite O1, last_last; reflexivity).
  destruct (cx_ignore cx).
  - exists st1. split; [reflexivity|]. split; [reflexivity|]. split; [|exact OK1]. cbn [seq map feed]. rewrite T0, O1, H1. now destruct (stop _).
  - destruct (Nat.eqb_spec parts 0) as [|NP]; [lia|]. eexists. split; [reflexivity|].
    assert (Q : 1 <= length w / parts <= length w) by (split; [apply Nat.div_le_lower_bound; lia|apply Nat.div_le_upper_bound; [lia|nia]]).
    remember (length w / parts) as q eqn:Eq. destruct q as [|q]; [lia|]. cbn [seq map feed]. rewrite T0. replace (S q - 1) with q by lia.
    destruct (stop (st_outs st ++ [touch_of w])) eqn:Es.
    + assert (X : rotations_loop q stop st1 = st1) by (now apply rotations_halted). rewrite X. split; [reflexivity|]. split; [now rewrite O1, H1|exact OK1].
    + destruct (@rotations_spec kid stop w q 0 st1) as (A1 & A2 & A3 & A4); [lia|exact H1|change (st_tl st1) with (map kid w); now rewrite turn_0|rewrite O1; now destruct (st_outs st)|apply OK1; rewrite O1; now destruct (st_outs st)|].
      split; [exact A1|]. split; [|intros _; exact A4]. rewrite A2, O1. f_equal. rewrite map_map. reflexivity.
Qed.

Lemma leads_snoc w leads i : leads_ok w leads -> leads_ok (w ++ [i]) (hd w :: leads).
Proof.
  unfold leads_ok. intros H x. cbn [In]. rewrite (H x). rewrite app_length. cbn. split.
  - intros [<-|(p & Hp & ->)]; [exists (length w); split; [lia|]; now rewrite firstn_app, Nat.sub_diag, firstn_all, app_nil_r|].
    exists p. split; [lia|]. rewrite firstn_app. replace (p - length w) with 0 by lia. now rewrite app_nil_r.
  - intros (p & Hp & ->). rewrite firstn_app. replace (p - length w) with 0 by lia. cbn [firstn]. rewrite app_nil_r. destruct (Nat.eq_dec p (length w)) as [->|N]; [left; now rewrite firstn_all|].
    right. exists p. split; [lia|reflexivity].
Qed.
Lemma produced_nil w : (forall s cur, ~ accepted (w ++ s) cur) -> forall w', ~ produced w w'.
Proof. intros H [v cur] (A & s & E). cbn in A, E. subst. exact (H s cur A). Qed.
Lemma produced_step w : (forall cur, ~ accepted w cur) -> forall w', produced w w' <-> exists i, i <= length calls /\ produced (w ++ [i]) w'.
Proof.
  intros N [v cur]. unfold produced. cbn [fst snd]. split.
  - intros (A & s & ->). destruct s as [|i s]; [rewrite app_nil_r in A; now destruct (N cur)|]. exists i.
    assert (X : w ++ i :: s = (w ++ [i]) ++ s) by (rewrite <- app_assoc; reflexivity). rewrite X in *. split.
    + destruct A as (_ & C & _). apply calling_app in C. destruct C as [C _]. apply calling_app in C. destruct C as [_ C]. now inversion C.
    + split; [exact A|]. exists s. reflexivity.
  - intros (i & Hi & A & s & ->). split; [exact A|]. exists (i :: s). rewrite <- app_assoc. reflexivity.
Qed.

(* all callings tried are different until one is false *)
Lemma distinct_heads w : nofalse m calls w -> calling calls w -> NoDup (map (fun p => hd (firstn p w)) (seq 0 (length w))).
Proof.
  intros N C. apply (NoDup_nth _ []). rewrite map_length, seq_length. intros i j Hi Hj.
  assert (G : forall k, k < length w -> nth k (map (fun p => hd (firstn p w)) (seq 0 (length w))) [] = hd (firstn k w)).
  { intros k Hk. rewrite (nth_indep _ [] (hd (firstn 0 w))) by (rewrite map_length, seq_length; exact Hk). rewrite (map_nth (fun p => hd (firstn p w))), seq_nth by exact Hk. reflexivity. }
  rewrite !G by assumption. intros E. destruct (Nat.lt_trichotomy i j) as [K|[K|K]]; [exfalso|exact K|exfalso].
  - apply (N i j); [lia|]. rewrite E. apply (clash_refl WM POS LEN CALLS).
  - apply (N j i); [lia|]. rewrite E. apply (clash_refl WM POS LEN CALLS).
Qed.

Variable ALL : list row.
Hypothesis ALL_ROWS : forall x, row_b b x -> In x ALL.
Lemma depth_bound w : nofalse m calls w -> calling calls w -> length w <= length ALL.
Proof.
  intros N C. pose proof (distinct_heads N C) as D. apply NoDup_incl_length with (l' := ALL) in D; [rewrite map_length, seq_length in D; exact D|].
  intros x Hx. apply in_map_iff in Hx. destruct Hx as (p & <- & _). apply ALL_ROWS. apply (hd_row WM POS LEN CALLS). now apply calling_firstn.
Qed.

Definition body (fuel : nat) (stop : list node -> bool) (r : row) (depth : nat) (w : list nat) (cur : nat) : sstate -> nat -> outcome sstate := fun st i =>
  if st_halt st then Ret st else
  l <- vget (cx_lhs cx) i ;; r' <- mul r l ;; run_recursive fuel cx stop r' (depth + 1) (w ++ [i]) cur st.
Lemma loop_spec fuel w cur leads : calling calls w ->
  forall I, StronglySorted lt I -> Forall (fun i => i <= length calls) I ->
  (forall i, In i I -> exists full, performs (fun stop st => run_recursive fuel cx stop (hd (w ++ [i])) (length (w ++ [i])) (w ++ [i]) cur st) leads full /\
     (forall w', In w' full <-> produced (w ++ [i]) w') /\ StronglySorted before full) ->
  exists full, performs (fun stop st => forM I (body fuel stop (hd w) (length w) w cur) st) leads full /\
    (forall w', In w' full <-> exists i, In i I /\ produced (w ++ [i]) w') /\ StronglySorted before full.
Proof.
  intros C. induction 1 as [|i I S IH Hlt]; intros B HI.
  - exists []. split; [|split; [|constructor]].
    + intros stop st Hh Hl Ht. exists st. cbn. rewrite Hh. auto.
    + intros w'. split; [intros []|intros (i & [] & _)].
  - inversion_clear B as [|? ? Bi BI]. destruct (HI i (or_introl eq_refl)) as (f1 & P1 & M1 & S1).
    destruct (IH BI) as (f2 & P2 & M2 & S2); [intros j Hj; apply HI; now right|].
    exists (f1 ++ f2). split; [|split].
    + intros stop st Hh Hl Ht. cbn [forM]. unfold body at 1. rewrite Hh. assert (V : vget (cx_lhs cx) i = Ret (lhd i)) by (rewrite LHS, (@vget_lt _ _ _ (lhd 0)) by (rewrite map_length, seq_length; lia); now rewrite map_nth, seq_nth by lia).
      rewrite V. cbn [bind]. pose proof (b255 WM POS LEN CALLS) as B.
      rewrite (@mul_comp (hd w) (lhd i)); [|apply (@row_b_256 b); [lia|apply (hd_row WM POS LEN CALLS); exact C]|apply (@row_b_256 b); [lia|apply (lhd_row WM POS LEN CALLS); exact Bi]]. cbn [bind].
      rewrite <- (hd_snoc WM POS LEN CALLS C Bi). assert (Ln : length w + 1 = length (w ++ [i])) by (rewrite app_length; reflexivity). rewrite Ln.
      destruct (P1 stop st Hh Hl Ht) as (st1 & E1 & L1 & O1 & T1). rewrite E1. cbn [bind]. rewrite flat_map_app, map_app, feed_app, <- O1. destruct (st_halt st1) eqn:Hh1.
      * exists st1. split; [|split; [exact L1|split; [now rewrite Hh1|exact T1]]].
        assert (G : forall J, forM J (body fuel stop (hd w) (length w) w cur) st1 = Ret st1); [|apply G]. induction J as [|j J IHJ]; [reflexivity|]. cbn [forM]. unfold body at 1. rewrite Hh1. exact IHJ.
      * destruct (P2 stop st1 Hh1) as (st2 & E2 & L2 & O2 & T2); [now rewrite L1|exact T1|]. exists st2. split; [exact E2|]. split; [congruence|]. split; [exact O2|exact T2].
    + intros w'. rewrite in_app_iff, M1, M2. cbn [In]. split.
      * intros [H|(j & Hj & H)]; eauto.
      * intros (j & [<-|Hj] & H); eauto.
    + assert (X : forall a c, In a f1 -> In c f2 -> before a c).
      { intros [a ca] [c cc] Ha Hc. apply M1 in Ha. apply M2 in Hc. destruct Hc as (j & Hj & Hc). rewrite Forall_forall in Hlt. specialize (Hlt j Hj).
        destruct Ha as (_ & s & Ea). destruct Hc as (_ & s' & Ec). unfold before. cbn [fst snd] in *. rewrite Ea, Ec, <- !app_assoc. clear -Hlt. induction w as [|x w IH]; cbn; [now left|right; auto]. }
      clear -S1 S2 X. induction S1 as [|a f1 S IH F]; [exact S2|]. cbn [app]. constructor; [apply IH; intros; apply X; [now right|assumption]|].
      apply Forall_app. split; [exact F|]. apply Forall_forall. intros c Hc. apply X; [now left|exact Hc].
Qed.

Theorem run_spec : forall fuel w cur, pre w cur -> calling calls w -> nofalse m calls w -> (w <> [] -> Z.of_nat (length w) <= cx_max cx)%Z -> length ALL + 1 <= fuel + length w ->
  exists full, performs (fun stop st => run_recursive fuel cx stop (hd w) (length w) w cur st) (leads_ok w) full /\
    (forall w', In w' full <-> produced w w') /\ StronglySorted before full.
Proof.
  induction fuel as [|fuel IH]; intros w cur PRE C N HM HF.
  { pose proof (depth_bound N C). lia. }
  destruct (pre_possible PRE) as (o & Eo & Ho).
  assert (NIL : (forall s cu, ~ accepted (w ++ s) cu) -> (forall stop st, st_halt st = false -> leads_ok w (st_leads st) -> tl_ok st -> run_recursive (S fuel) cx stop (hd w) (length w) w cur st = Ret st) ->
    exists full, performs (fun stop st => run_recursive (S fuel) cx stop (hd w) (length w) w cur st) (leads_ok w) full /\ (forall w', In w' full <-> produced w w') /\ StronglySorted before full).
  { intros NA Q. exists []. split; [|split; [|constructor]].
    - intros stop st Hh Hl Ht. exists st. rewrite (Q stop st) by assumption. cbn. rewrite Hh. auto.
    - intros w'. split; [intros []|]. intros H. destruct (produced_nil NA H). }
  destruct o as [cur'|].
  2: { apply NIL.
    - intros s cu (_ & _ & K & _). destruct (kept_prefix K) as (c & K'). apply Ho in K'. discriminate.
    - intros stop st _ _ _. cbn [run_recursive]. rewrite Eo. reflexivity. }
  assert (K : kept w cur') by (now apply Ho). clear Ho.
  (* whether it is false depends on w only *)
  pose proof (hd_good C) as Gw.
  assert (CF : forall leads, leads_ok w leads -> ((exists f, In f (cx_false cx) /\ In (comp (hd w) f) leads) <-> exists p, p < length w /\ clash m (hd w) (hd (firstn p w)))).
  { intros leads Hl. split.
    - intros (f & Hf & Hi). apply Hl in Hi. destruct Hi as (p & Hp & E). exists p. split; [exact Hp|]. apply TEST; [exact Gw|apply hd_good; now apply calling_firstn|]. eauto.
    - intros (p & Hp & Cl). apply TEST in Cl; [|exact Gw|apply hd_good; now apply calling_firstn]. destruct Cl as (f & Hf & E). exists f. split; [exact Hf|]. apply Hl. exists p. auto. }
  set (leads0 := map (fun p => hd (firstn p w)) (seq 0 (length w))).
  assert (L0 : leads_ok w leads0). { intros x. unfold leads0. rewrite in_map_iff. split; [intros (p & <- & Hp); apply in_seq in Hp; exists p; split; [lia|reflexivity]|intros (p & Hp & ->); exists p; split; [reflexivity|apply in_seq; lia]]. }
  destruct (row_false_spec leads0 (hd_row WM POS LEN CALLS C)) as (o & _ & Eo1).
  assert (FALSE : forall leads, leads_ok w leads -> is_row_false (cx_false cx) leads (hd w) = Ret o).
  { intros leads Hl. destruct (row_false_spec leads (hd_row WM POS LEN CALLS C)) as (o' & E' & E2). rewrite E'. f_equal. apply Bool.eq_iff_eq_true. rewrite E2, Eo1, (CF _ Hl), (CF _ L0). reflexivity. }
  assert (Eo2 : o = true <-> exists p, p < length w /\ clash m (hd w) (hd (firstn p w))) by (rewrite Eo1; apply (CF _ L0)). clear Eo1 CF L0. 
  destruct o.
  - (* false *)
    assert (ONLY : forall s cu, accepted (w ++ s) cu -> s = []).
    { intros s cu (_ & _ & _ & _ & NF & _). destruct s as [|x s]; [reflexivity|exfalso]. destruct (proj1 Eo2 eq_refl) as (p & Hp & Cl).
      apply (nofalse_lt NF ltac:(discriminate) Hp). now apply clash_sym. }
    assert (W0 : w <> []) by (intros ->; destruct (proj1 Eo2 eq_refl) as (p & Hp & _); cbn in Hp; lia).
    destruct ((cx_min cx <=? Z.of_nat (length w))%Z && isrounds (hd w) && is_really_canonical w) eqn:Eout.
    + apply andb_true_iff in Eout. destruct Eout as [Eout Can]. apply andb_true_iff in Eout. destruct Eout as [Emin Ern].
      assert (ID : hd w = id_row b). { apply (@row_b_ext b); [apply (hd_row WM POS LEN CALLS C)|apply row_b_id|]. intros i. rewrite act_id. now apply isrounds_spec. }
      assert (ACC : accepted w cur'). { split; [exact W0|]. split; [exact C|]. split; [exact K|]. split; [exact Can|]. split; [exact N|]. split; [exact ID|]. apply Z.leb_le in Emin. split; [exact Emin|now apply HM]. }
      exists [(w, cur')]. split; [|split].
      * intros stop st Hh Hl Ht. destruct (@output_spec w cur' C W0 K (leads_ok w) stop st Hh Hl Ht) as (st' & E' & R'). exists st'. split; [|exact R'].
        cbn [run_recursive]. rewrite Eo. cbn [bind]. rewrite (FALSE _ Hl). cbn [bind]. rewrite Emin, Ern, Can. cbn [andb]. exact E'.
      * intros [v cu]. unfold produced. cbn [In fst snd]. split.
        -- intros [E|[]]. injection E as <- <-. split; [exact ACC|]. exists []. now rewrite app_nil_r.
        -- intros (A & s & ->). pose proof (ONLY _ _ A) as ->. rewrite app_nil_r in *. destruct A as (_ & _ & K' & _). left. f_equal. apply (kept_unique K K').
      * repeat constructor.
    + apply NIL.
      * intros s cu A. pose proof (ONLY _ _ A) as ->. rewrite app_nil_r in A. destruct A as (_ & _ & _ & Can & _ & ID & Hlo & _). rewrite Can in Eout. apply Z.leb_le in Hlo. rewrite Hlo in Eout.
        assert (isrounds (hd w) = true) as E by (apply isrounds_spec; intros i; rewrite ID; apply act_id). rewrite E in Eout. discriminate.
      * intros stop st Hh Hl Ht. cbn [run_recursive]. rewrite Eo. cbn [bind]. rewrite (FALSE _ Hl). cbn [bind]. rewrite Eout. reflexivity.
  - (* not false *)
    assert (NC : forall p, p < length w -> ~ clash m (hd (firstn p w)) (hd w)). { intros p Hp Cl. assert (false = true); [|discriminate]. apply Eo2. exists p. split; [exact Hp|now apply clash_sym]. }
    assert (NACC : forall cu, ~ accepted w cu). { intros cu (W0 & _ & _ & _ & _ & ID & _). apply (NC 0); [destruct w; [congruence|cbn; lia]|]. cbn [firstn]. rewrite hd_nil, ID. apply (clash_refl WM POS LEN CALLS). }
    destruct (Z.of_nat (length w) <? cx_max cx)%Z eqn:Emax.
    + apply Z.ltb_lt in Emax.
      destruct (@loop_spec fuel w cur' (fun l => exists leads, l = hd w :: leads /\ leads_ok w leads) C (seq 0 (S (length calls)))) as (full & P & M & S).
      { clear. generalize (S (length calls)) as n. intros n. generalize 0 as a. induction n as [|n IH]; intros a; [constructor|]. cbn [seq]. constructor; [apply IH|]. apply Forall_forall. intros x Hx. apply in_seq in Hx. lia. }
      { apply Forall_forall. intros i Hi. apply in_seq in Hi. lia. }
      { intros i Hi. apply in_seq in Hi. destruct (IH (w ++ [i]) cur') as (full & P & M & S).
        - right. exists w, i. auto.
        - apply calling_app. split; [exact C|]. repeat constructor. lia.
        - now apply nofalse_snoc.
        - intros _. rewrite app_length. cbn. lia.
        - rewrite app_length. cbn. lia.
        - exists full. split; [|auto]. intros stop st Hh (leads & E & Hl) Ht. apply P; auto. rewrite E. now apply leads_snoc. }
      exists full. split; [|split; [|exact S]].
      * intros stop st Hh Hl Ht. cbn [run_recursive]. rewrite Eo. cbn [bind]. rewrite (FALSE _ Hl). cbn [bind]. apply Z.ltb_lt in Emax. rewrite Emax.
        assert (NI : ~ In (hd w) (st_leads st)). { intros Hi. apply Hl in Hi. destruct Hi as (p & Hp & E). apply (NC p Hp). rewrite <- E. apply (clash_refl WM POS LEN CALLS). }
        assert (INS : lead_insert (st_leads st) (hd w) = hd w :: st_leads st). { unfold lead_insert. destruct (has_lead (st_leads st) (hd w)) eqn:E; [apply has_lead_iff in E; contradiction|reflexivity]. }
        rewrite INS, LHS, map_length, seq_length.
        destruct (P stop (mkSt (st_halt st) (st_tl st) (hd w :: st_leads st) (st_outs st))) as (st' & E' & L' & O' & T'); [exact Hh|exists (st_leads st); auto|exact Ht|].
        unfold body in E'. rewrite LHS in E'. rewrite E'. cbn [bind]. eexists. split; [reflexivity|]. cbn [st_leads st_outs st_halt]. split; [|split; [exact O'|exact T']].
        rewrite L'. cbn [st_leads]. unfold lead_erase. cbn [filter]. assert (X : row_eqb (hd w) (hd w) = true) by (now apply row_eqb_spec). rewrite X. cbn [negb].
        clear -NI. induction (st_leads st) as [|x l IH]; [reflexivity|]. cbn [filter]. destruct (row_eqb (hd w) x) eqn:E.
        -- apply row_eqb_spec in E. subst. destruct NI. now left.
        -- cbn [negb]. f_equal. apply IH. intros H. apply NI. now right.
      * intros w'. rewrite M. rewrite (produced_step NACC). split; intros (i & Hi & Pi); exists i; (split; [|exact Pi]); [apply in_seq in Hi; lia|apply in_seq; lia].
    + apply NIL.
      * intros s cu A. destruct s as [|x s]; [rewrite app_nil_r in A; exact (NACC cu A)|]. destruct A as (_ & _ & _ & _ & _ & _ & _ & Hhi). rewrite app_length in Hhi. cbn [length] in Hhi. apply Z.ltb_ge in Emax. lia.
      * intros stop st Hh Hl Ht. cbn [run_recursive]. rewrite Eo. cbn [bind]. rewrite (FALSE _ Hl). cbn [bind]. rewrite Emax. reflexivity.
Qed.
End Dfs.
