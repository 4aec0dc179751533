(* Props_TSearch.v - property theorems about table_search. *)
From Verif Require Import Base M_Bell M_Change M_Math M_Row M_Extent M_Group M_Multtab M_Touch M_PN M_Method M_False M_Search M_TSearch Spec_Row Spec_Change Spec_Touch Spec_Group Spec_Method Spec_False Spec_Extent Spec_Search Spec_TSearch
  P_Math P_Perm P_Row P_Cycle P_Extent3 P_Order P_Group P_Group2 P_Group3 P_Multtab2 P_Touch P_False P_False3 P_False4 P_TSearch P_Search P_Search2 P_Search3 P_Search4 P_Search5 P_Search6 P_TSearch3 P_TSearch4 P_TSearch5 P_TSearch6 Props_Touch Props_Search.
Set Implicit Arguments.
Unset Strict Implicit.
Open Scope nat_scope.

(* what is asked for when there is more than one part end: rows are multiplied out to find their order *)
Definition parts_fit (sym : symtab) (m : method) (P : group) : Prop :=
  1 < length (gv P) -> sym = default_symtab /\ 2 <= length (mch m) /\ mb m <= 58.

Lemma ts_whole sym m calls P lo hi fl : ts_fit m calls P -> parts_fit sym m P -> exists n vs ft ic, ((forall i, i <= length calls -> tgood m sym ft ic (lhd m calls i)) /\ (forall g, In g (gv P) -> ft = true -> act g 0 = 0)) /\
  (forall fuel stop, n <= fuel -> exists st, ts_run fuel sym (mkTS m calls P lo hi fl) stop = Ret st /\ (st_outs st, st_halt st) = feed stop [] (map (tof m calls) (flat_map (blk m calls sym P fl) vs))) /\
  (forall e, In e vs <-> ~ imp m sym P ft ic /\ acc m calls sym P lo hi fl ic (fst e) (snd e)) /\ StronglySorted P_TSearch.before vs.
Proof.
  intros (W & P0 & L & C & WP & LP & T) PF. apply (@whole m calls W P0 L C sym P WP LP).
  - intros H. apply T. intros i Hi. destruct (lead_on W P0 L C Hi) as (O & _). rewrite <- (act_row_of (b255 W P0 L C) _ O). now apply H.
  - intros H. destruct (PF H) as (-> & L2 & B). split; [exact L2|]. intros w Cw. pose proof (hd_row W P0 L C Cw) as R. apply order_exists; [apply (@row_b_256 (mb m)); [lia|exact R]|destruct R; unfold row in *; lia].
Qed.
Lemma ts_gives_unique sym s a c : ts_gives sym s a -> ts_gives sym s c -> a = c.
Proof.
  intros (n & Ha) (k & Hb). destruct (Ha (n + k) (fun _ => false)) as (st & E & _ & U); [lia|]. destruct (Hb (n + k) (fun _ => false)) as (st' & E' & _ & U'); [lia|].
  rewrite E in E'. injection E' as <-. destruct U as [<-|(? & _ & _ & K)]; [|discriminate]. destruct U' as [<-|(? & _ & _ & K)]; [|discriminate]. reflexivity.
Qed.
Lemma ts_full sym m calls P lo hi fl : ts_fit m calls P -> parts_fit sym m P -> exists vs ft ic, ((forall i, i <= length calls -> tgood m sym ft ic (lhd m calls i)) /\ (forall g, In g (gv P) -> ft = true -> act g 0 = 0)) /\
  ts_gives sym (mkTS m calls P lo hi fl) (map (tof m calls) (flat_map (blk m calls sym P fl) vs)) /\
  (forall e, In e vs <-> ~ imp m sym P ft ic /\ acc m calls sym P lo hi fl ic (fst e) (snd e)) /\ StronglySorted P_TSearch.before vs.
Proof.
  intros F PF. destruct (@ts_whole sym m calls P lo hi fl F PF) as (n & vs & ft & ic & G & H & M & S). exists vs, ft, ic. split; [exact G|]. split; [|split; [exact M|exact S]].
  exists n. intros fuel stop Hf. destruct (H fuel stop Hf) as (st & E & O). exists st. split; [exact E|]. change (st_outs st) with (fst (st_outs st, st_halt st)). rewrite O. apply (@feed_until stop _ []). intros k Hk. cbn in Hk. lia.
Qed.

(* C50: the search ends, whatever the outputer answers *)
Theorem C50_ends : forall sym m calls P lo hi fl, ts_fit m calls P -> parts_fit sym m P -> exists full, ts_gives sym (mkTS m calls P lo hi fl) full.
Proof. intros sym m calls P lo hi fl F PF. destruct (@ts_full sym m calls P lo hi fl F PF) as (vs & ft & ic & _ & G & _). eauto. Qed.
Print Assumptions C50_ends.

(* --- one part --- *)
Section One.
Variables (sym : symtab) (m : method) (calls : list change) (P : group) (lo hi fl : Z).
Hypothesis FIT : ts_fit m calls P.
Hypothesis ONE : length (gv P) = 1.
Let CX := mkCtx lo hi (has fl TS_IGNORE) [] [] [].
Lemma one_fit : parts_fit sym m P. Proof using ONE. intros H. lia. Qed.
Lemma one_id : gv P = [id_row (gb P)].
Proof using FIT ONE.
  destruct FIT as (_ & _ & _ & _ & (_ & [_ (_ & I & _)] & _) & _). destruct (gv P) as [|g [|g' l]]; try (cbn in ONE; lia). destruct I as [->|[]]. reflexivity.
Qed.
Lemma comp_small k c x : k <= c -> row_b c x -> comp (id_row k) x = x.
Proof.
  intros H X. assert (R : row_b c (comp (id_row k) x)). { destruct X as [X1 X2]. split; [apply comp_row; [apply is_row_id|exact X1]|]. rewrite comp_length, id_length. lia. }
  apply (row_b_ext R X). intros i. rewrite act_comp by apply X. apply act_id.
Qed.
Lemma one_inP ic g : inP sym P ic g <-> g = id_row (gb P).
Proof using FIT ONE.
  unfold inP. rewrite one_id. split; [intros [[<-|[]] _]; reflexivity|]. intros ->. split; [now left|]. intros _. assert (gb P <= 256) by apply FIT. rewrite <- (@rounds_id (gb P)) by assumption. now apply sign_rounds.
Qed.
Lemma one_BB ic u w : calling calls u -> calling calls w -> (BB m calls sym P ic u w <-> clash m (hd m calls u) (hd m calls w)).
Proof using FIT ONE.
  intros Cu Cw. pose proof FIT as (W & P0 & L & C & WP & LP & T). assert (E : comp (id_row (gb P)) (hd m calls u) = hd m calls u) by (apply (@comp_small _ (mb m)); [exact LP|now apply (hd_row W P0 L C)]). unfold BB. split.
  - intros (g & Hg & Cl). apply one_inP in Hg. subst g. rewrite E in Cl. exact Cl.
  - intros Cl. exists (id_row (gb P)). split; [now apply one_inP|]. now rewrite E.
Qed.
Lemma one_imp ft ic : ~ imp m sym P ft ic.
Proof using FIT ONE.
  intros (f & [[[_ R] _] _] & N & I & _). rewrite one_id in I. destruct I as [<-|[]]. rewrite id_length in R. now rewrite R in N.
Qed.
Lemma one_head v : calling calls v -> ((exists g, In g (gv P) /\ hd m calls v = comp g (id_row (mb m))) <-> hd m calls v = id_row (mb m)).
Proof using FIT ONE.
  intros Cv. pose proof FIT as (W & P0 & L & C & WP & LP & T). rewrite one_id. assert (E : comp (id_row (gb P)) (id_row (mb m)) = id_row (mb m)) by (apply (@comp_small _ (mb m)); [exact LP|apply row_b_id]). split.
  - intros (g & [<-|[]] & ->). exact E.
  - intros ->. exists (id_row (gb P)). split; [now left|]. now rewrite E.
Qed.
Lemma one_acc ic v cur : acc m calls sym P lo hi fl ic v cur <->
  v <> [] /\ calling calls v /\ kept v cur /\ is_really_canonical v = true /\ P_Search4.nofalse m calls v /\
  (hd m calls v = id_row (mb m) \/ has fl TS_NONROUND = true /\ exists p, p < length v /\ clash m (hd m calls (firstn p v)) (hd m calls v)) /\ (lo <= Z.of_nat (length v) <= hi)%Z.
Proof using FIT ONE.
  unfold acc. rewrite ONE. cbn [Nat.ltb Nat.leb orb]. split; intros (A1 & A2 & A3 & A4 & A5 & A6 & A7); (repeat (split; [assumption|])).
  - split; [|split; [|assumption]].
    + intros p q Hpq Cl. apply (A5 p q Hpq). apply one_BB; auto using calling_firstn.
    + destruct A6 as [A6|(A6 & p & Hp & Cl)]; [left; now apply one_head|right; split; [exact A6|]; exists p; split; [exact Hp|]]. apply one_BB in Cl; auto using calling_firstn.
  - split; [|split; [|assumption]].
    + intros p q Hpq Cl. apply (A5 p q Hpq). apply one_BB in Cl; auto using calling_firstn.
    + destruct A6 as [A6|(A6 & p & Hp & Cl)]; [left; now apply one_head|right; split; [exact A6|]; exists p; split; [exact Hp|]]. apply one_BB; auto using calling_firstn.
Qed.
Lemma one_blk e : blk m calls sym P fl e = P_Search6.block CX e.
Proof using ONE. unfold blk, wants, nturns, P_Search6.block, P_Search6.turns, CX. cbn [cx_ignore]. rewrite ONE. cbn [Nat.ltb Nat.leb negb]. now rewrite orb_true_r, orb_false_r. Qed.
Hypothesis ROUND : has fl TS_NONROUND = false.
Lemma one_accepted ic v cur : acc m calls sym P lo hi fl ic v cur <-> P_Search6.accepted m calls CX v cur.
Proof using FIT ONE ROUND.
  rewrite one_acc. unfold P_Search6.accepted. cbn [cx_min cx_max CX]. rewrite ROUND. split; intros (A1 & A2 & A3 & A4 & A5 & A6 & A7); (repeat (split; [assumption|])); (split; [|assumption]).
  - destruct A6 as [A6|[A6 _]]; [exact A6|discriminate].
  - now left.
Qed.
Lemma one_vs full : ts_gives sym (mkTS m calls P lo hi fl) full ->
  exists vs, full = map (touch_of m calls) (flat_map (P_Search6.block CX) vs) /\ (forall e, In e vs <-> P_Search6.accepted m calls CX (fst e) (snd e)) /\ StronglySorted P_Search6.before vs.
Proof using FIT ONE ROUND.
  intros G. destruct (@ts_full sym m calls P lo hi fl FIT one_fit) as (vs & ft & ic & _ & G' & M & S). exists vs. split; [|split; [|exact S]].
  - rewrite (ts_gives_unique G G'). rewrite (flat_map_ext _ _ one_blk). reflexivity.
  - intros e. rewrite M, one_accepted. split; [tauto|]. intros A. split; [apply one_imp|exact A].
Qed.
Lemma one_ws full : ts_gives sym (mkTS m calls P lo hi fl) full ->
  exists ws, full = map (touch_of m calls) ws /\ forall w, In w ws <-> exists v cur k, P_Search6.accepted m calls CX v cur /\ k < P_Search6.turns CX (length v) cur /\ w = turn k v.
Proof using FIT ONE ROUND.
  intros G. destruct (one_vs G) as (vs & -> & M & _). eexists. split; [reflexivity|]. intros w. rewrite in_flat_map. unfold P_Search6.block. split.
  - intros ([v cur] & He & Hw). apply M in He. apply in_map_iff in Hw. destruct Hw as (k & <- & Hk). apply in_seq in Hk. cbn [fst snd] in *. exists v, cur, k. split; [exact He|]. split; [lia|reflexivity].
  - intros (v & cur & k & A & Hk & ->). exists (v, cur). split; [now apply M|]. apply in_map_iff. exists k. split; [reflexivity|]. apply in_seq. cbn [fst snd]. lia.
Qed.
Lemma one_true w : lead_is_true m -> calling calls w -> (true_touch (mb m) (changes_called m calls w) <-> hd m calls w = id_row (mb m) /\ P_Search4.nofalse m calls w).
Proof using FIT.
  intros LT. pose proof FIT as (W & P0 & L & C & WP & LP & T). apply (true_calling W P0 L C). intros i j Hij E. pose proof (b255 W P0 L C) as B. pose proof (mch_on W P0 L C) as O.
  apply (LT i j (R m i) Hij); [apply rung_row_of; [exact B|now apply on_b_firstn]|]. rewrite E. apply rung_row_of; [exact B|now apply on_b_firstn].
Qed.
End One.
Lemma before_unique (a : list (list nat * nat)) : StronglySorted P_Search6.before a -> forall c, StronglySorted P_Search6.before c -> (forall e, In e a <-> In e c) -> a = c.
Proof.
  induction a as [|x a IH]; intros Sa [|y c] Sc H; [reflexivity| | |].
  - exfalso. apply (proj2 (H y)). now left.
  - exfalso. apply (proj1 (H x)). now left.
  - apply StronglySorted_inv in Sa. apply StronglySorted_inv in Sc. destruct Sa as [Sa Fa], Sc as [Sc Fc]. rewrite Forall_forall in Fa, Fc. unfold before in *.
    assert (x = y) as <-.
    { destruct (proj1 (H x) (or_introl eq_refl)) as [E|E]; [now symmetry|]. destruct (proj2 (H y) (or_introl eq_refl)) as [E'|E']; [exact E'|]. exfalso. apply (@lex_irrefl (fst x)). eapply lex_trans; [exact (Fa y E')|exact (Fc x E)]. }
    f_equal. apply IH; [exact Sa|exact Sc|]. intros e. split; intros He.
    + destruct (proj1 (H e) (or_intror He)) as [<-|K]; [|exact K]. exfalso. apply (@lex_irrefl (fst x)). now apply Fa.
    + destruct (proj2 (H e) (or_intror He)) as [<-|K]; [|exact K]. exfalso. apply (@lex_irrefl (fst x)). now apply Fc.
Qed.

(* when basic_search can do the work, table_search gives the same touches in the same order *)
Theorem C50_same_as_basic : forall sym m calls P lo hi fl full, searchable m calls -> ts_fit m calls P -> length (gv P) = 1 -> has fl TS_NONROUND = false ->
  (ts_gives sym (mkTS m calls P lo hi fl) full <-> search_gives sym (mkSearch m calls lo hi (has fl TS_IGNORE)) full).
Proof.
  intros sym m calls P lo hi fl full OK FIT ONE ROUND.
  assert (X : forall a c, ts_gives sym (mkTS m calls P lo hi fl) a -> search_gives sym (mkSearch m calls lo hi (has fl TS_IGNORE)) c -> a = c).
  { intros a c Ga Gc. destruct (one_vs FIT ONE ROUND Ga) as (vs & -> & M & S). destruct (gives_vs OK Gc) as (vs' & -> & M' & S'). do 2 f_equal. apply (before_unique S S'). intros e. rewrite M, M'. reflexivity. }
  split; intros G.
  - destruct (C36_ends sym lo hi (has fl TS_IGNORE) OK) as (c & Gc). now rewrite (X _ _ G Gc).
  - destruct (@C50_ends sym m calls P lo hi fl FIT (one_fit sym m ONE)) as (a & Ga). now rewrite <- (X _ _ Ga G).
Qed.
Print Assumptions C50_same_as_basic.

(* every touch given is made of whole leads, as many as were asked for; it comes round at the end and
   no row is repeated *)
Theorem C50_sound : forall sym m calls P lo hi fl full, ts_fit m calls P -> length (gv P) = 1 -> has fl TS_NONROUND = false -> lead_is_true m ->
  ts_gives sym (mkTS m calls P lo hi fl) full ->
  forall n, In n full -> exists w, calling calls w /\ w <> [] /\ flatten n = changes_called m calls w /\
    true_touch (mb m) (flatten n) /\ (lo <= Z.of_nat (length w) <= hi)%Z.
Proof.
  intros sym m calls P lo hi fl full FIT ONE ROUND LT G n Hn. destruct (one_ws FIT ONE ROUND G) as (ws & -> & M). apply in_map_iff in Hn. destruct Hn as (w' & <- & Hw).
  apply M in Hw. destruct Hw as (w & cur & k & A & Hk & ->). destruct A as (Hne & Cw & K & _ & NF & ID & LH). cbn [cx_min cx_max] in LH.
  pose proof FIT as (W & P0 & L & C & _). pose proof (b255 W P0 L C) as B.
  assert (C' : calling calls (turn k w)). { unfold turn. apply Forall_app. rewrite <- (firstn_skipn k w) in Cw. apply Forall_app in Cw. tauto. }
  exists (turn k w). split; [exact C'|]. split; [intros E; apply (f_equal (@length _)) in E; rewrite turn_length in E; now destruct w|]. rewrite touch_flat. split; [reflexivity|]. split; [|now rewrite turn_length].
  unfold turn. rewrite changes_app. apply (true_turn B); rewrite <- changes_app, firstn_skipn; [apply (changes_on W P0 L C); exact Cw|]. apply (one_true FIT LT Cw). auto.
Qed.
Print Assumptions C50_sound.

(* when rotations are not ignored every true calling whose length was asked for is given *)
Theorem C50_complete : forall sym m calls P lo hi fl full, ts_fit m calls P -> length (gv P) = 1 -> has fl TS_NONROUND = false -> has fl TS_IGNORE = false -> lead_is_true m ->
  ts_gives sym (mkTS m calls P lo hi fl) full ->
  forall w, calling calls w -> w <> [] -> (lo <= Z.of_nat (length w) <= hi)%Z -> true_touch (mb m) (changes_called m calls w) ->
  exists n, In n full /\ flatten n = changes_called m calls w.
Proof.
  intros sym m calls P lo hi fl full FIT ONE ROUND IG LT G w Cw Hne LH TT. destruct (one_ws FIT ONE ROUND G) as (ws & -> & M). exists (touch_of m calls w). split; [|apply touch_flat]. apply in_map.
  apply M. pose proof FIT as (W & P0 & L & C & _). pose proof (b255 W P0 L C) as B. rewrite IG.
  destruct (least_exists w) as (k & Hk & HL). set (v := turn k w) in *. destruct (@least_kept v HL v []) as (cur & K); [now rewrite app_nil_r|].
  assert (Lv : length v = length w) by apply turn_length. assert (Vne : v <> []) by (intros E; rewrite E in Lv; now destruct w).
  assert (D : length v mod cur = 0) by (now apply least_divides). pose proof (kept_le K) as [Kc Kp]. specialize (Kp Vne).
  exists v, cur.
  assert (Cv : calling calls v). { unfold v, turn. apply Forall_app. rewrite <- (firstn_skipn k w) in Cw. apply Forall_app in Cw. tauto. }
  assert (TV : true_touch (mb m) (changes_called m calls v)).
  { unfold v, turn. rewrite changes_app. apply (true_turn B); rewrite <- changes_app, firstn_skipn; [apply (changes_on W P0 L C); exact Cw|exact TT]. }
  apply (one_true FIT LT Cv) in TV. destruct TV as [ID NF]. exists ((length w - k) mod cur). split; [|split].
  - split; [exact Vne|]. split; [exact Cv|]. split; [exact K|]. split; [now apply least_really|]. split; [exact NF|]. split; [exact ID|]. cbn [cx_min cx_max]. now rewrite Lv.
  - unfold turns. cbn [cx_ignore]. rewrite D. cbn [Nat.eqb negb]. apply Nat.mod_divides in D; [|lia]. destruct D as (q & D). rewrite D. rewrite (Nat.mul_comm cur q), Nat.div_mul by lia.
    assert (q <> 0) by (intros ->; lia). rewrite (Nat.mul_comm q cur), Nat.div_mul by assumption. apply Nat.mod_upper_bound. lia.
  - rewrite <- (@kept_turn v cur (length w - k)) by (auto; lia). unfold v. rewrite turn_turn by lia. replace (length w - k + k) with (length w) by lia. rewrite Nat.mod_same by (now destruct w). symmetry. apply turn_0.
Qed.
Print Assumptions C50_complete.

(* when they are ignored, a rotation of it is given *)
Theorem C50_complete_up_to_rotation : forall sym m calls P lo hi fl full, ts_fit m calls P -> length (gv P) = 1 -> has fl TS_NONROUND = false -> lead_is_true m ->
  ts_gives sym (mkTS m calls P lo hi fl) full ->
  forall w, calling calls w -> w <> [] -> (lo <= Z.of_nat (length w) <= hi)%Z -> true_touch (mb m) (changes_called m calls w) ->
  exists n k, In n full /\ k <= length w /\ flatten n = changes_called m calls (turn k w) /\ least (turn k w).
Proof.
  intros sym m calls P lo hi fl full FIT ONE ROUND LT G w Cw Hne LH TT. destruct (one_ws FIT ONE ROUND G) as (ws & -> & M). pose proof FIT as (W & P0 & L & C & _). pose proof (b255 W P0 L C) as B.
  destruct (least_exists w) as (k & Hk & HL). exists (touch_of m calls (turn k w)), k. split; [|split; [exact Hk|split; [apply touch_flat|exact HL]]]. apply in_map.
  apply M. set (v := turn k w) in *. destruct (@least_kept v HL v []) as (cur & K); [now rewrite app_nil_r|].
  assert (Lv : length v = length w) by apply turn_length. assert (Vne : v <> []) by (intros E; rewrite E in Lv; now destruct w). pose proof (kept_le K) as [Kc Kp]. specialize (Kp Vne).
  assert (D : length v mod cur = 0) by (now apply least_divides).
  assert (Cv : calling calls v). { unfold v, turn. apply Forall_app. rewrite <- (firstn_skipn k w) in Cw. apply Forall_app in Cw. tauto. }
  assert (TV : true_touch (mb m) (changes_called m calls v)).
  { unfold v, turn. rewrite changes_app. apply (true_turn B); rewrite <- changes_app, firstn_skipn; [apply (changes_on W P0 L C); exact Cw|exact TT]. }
  apply (one_true FIT LT Cv) in TV. destruct TV as [ID NF]. exists v, cur, 0. split; [|split; [|now rewrite turn_0]].
  - split; [exact Vne|]. split; [exact Cv|]. split; [exact K|]. split; [now apply least_really|]. split; [exact NF|]. split; [exact ID|]. cbn [cx_min cx_max]. now rewrite Lv.
  - unfold turns. cbn [cx_ignore]. destruct (has fl TS_IGNORE); [lia|]. rewrite D. cbn [Nat.eqb negb]. apply Nat.mod_divides in D; [|lia]. destruct D as (q & D). rewrite D. rewrite (Nat.mul_comm cur q), Nat.div_mul by lia.
    assert (q <> 0) by (intros ->; lia). rewrite (Nat.mul_comm q cur), Nat.div_mul by assumption. lia.
Qed.
Print Assumptions C50_complete_up_to_rotation.

(* when they are ignored the callings come in alphabetical order, so none comes twice *)
Theorem C50_in_order : forall sym m calls P lo hi fl full, ts_fit m calls P -> length (gv P) = 1 -> has fl TS_NONROUND = false -> has fl TS_IGNORE = true ->
  ts_gives sym (mkTS m calls P lo hi fl) full ->
  exists ws, StronglySorted lex_lt ws /\ map flatten full = map (changes_called m calls) ws.
Proof.
  intros sym m calls P lo hi fl full FIT ONE ROUND IG G. destruct (one_vs FIT ONE ROUND G) as (vs & -> & _ & S). rewrite IG. exists (map fst vs). split.
  - clear -S. induction S as [|e vs S IH F]; [constructor|]. cbn [map]. constructor; [exact IH|]. rewrite Forall_forall in *. intros x Hx. apply in_map_iff in Hx. destruct Hx as (y & <- & Hy). exact (F y Hy).
  - rewrite !map_map. transitivity (map (changes_called m calls) (flat_map (P_Search6.block (mkCtx lo hi true [] [] [])) vs)); [apply map_ext; intros w; apply touch_flat|]. clear S G. induction vs as [|[v cur] vs IH]; [reflexivity|]. cbn [flat_map]. rewrite map_app, IH. unfold P_Search6.block, P_Search6.turns. cbn [cx_ignore seq map app fst snd]. now rewrite turn_0.
Qed.
Print Assumptions C50_in_order.

(* with the flag for touches that need not come round, the touches given are those that cannot be
   prolonged: the next lead would have a row in common with a lead of the touch, and no two leads before
   have.  All are, and of those that are least among their rotations all are given *)
Theorem C50_nonround : forall sym m calls P lo hi fl full, ts_fit m calls P -> length (gv P) = 1 -> has fl TS_NONROUND = true -> has fl TS_IGNORE = true ->
  ts_gives sym (mkTS m calls P lo hi fl) full ->
  exists ws, StronglySorted lex_lt ws /\ map flatten full = map (changes_called m calls) ws /\
  (forall w, In w ws -> w <> [] /\ calling calls w /\ (lo <= Z.of_nat (length w) <= hi)%Z /\
    (forall p q h h', p < q < length w -> lead_head m calls (firstn p w) h -> lead_head m calls (firstn q w) h' -> ~ leads_meet m h h') /\
    exists p h h', p < length w /\ lead_head m calls (firstn p w) h /\ lead_head m calls w h' /\ leads_meet m h h') /\
  (forall w, w <> [] -> calling calls w -> (lo <= Z.of_nat (length w) <= hi)%Z -> least w ->
    (forall p q h h', p < q < length w -> lead_head m calls (firstn p w) h -> lead_head m calls (firstn q w) h' -> ~ leads_meet m h h') ->
    (exists p h h', p < length w /\ lead_head m calls (firstn p w) h /\ lead_head m calls w h' /\ leads_meet m h h') -> In w ws).
Proof.
  intros sym m calls P lo hi fl full FIT ONE NR IG G. destruct (@ts_full sym m calls P lo hi fl FIT (one_fit sym m ONE)) as (vs & ft & ic & _ & G' & M & S). rewrite (ts_gives_unique G G'). clear G G'.
  pose proof FIT as (W & P0 & L & C & _). pose proof (fun w h (Cw : calling calls w) => @head_hd m calls W P0 L C w h Cw) as HH. pose proof (fun w (Cw : calling calls w) => hd_row W P0 L C Cw) as HR.
  exists (map fst vs). split; [|split; [|split]].
  - clear -S. induction S as [|e vs S IH F]; [constructor|]. cbn [map]. constructor; [exact IH|]. rewrite Forall_forall in *. intros x Hx. apply in_map_iff in Hx. destruct Hx as (y & <- & Hy). exact (F y Hy).
  - rewrite (flat_map_ext _ _ (@one_blk sym m calls P lo hi fl ONE)), IG. rewrite !map_map. transitivity (map (changes_called m calls) (flat_map (P_Search6.block (mkCtx lo hi true [] [] [])) vs)); [apply map_ext; intros w; apply (touch_flat m calls w)|].
    clear S M. induction vs as [|[v cur] vs IH]; [reflexivity|]. cbn [flat_map]. rewrite map_app, IH. unfold P_Search6.block, P_Search6.turns. cbn [cx_ignore seq map app fst snd]. now rewrite turn_0.
  - intros w Hw. apply in_map_iff in Hw. destruct Hw as ([v cur] & <- & Hv). apply M in Hv. destruct Hv as [_ A]. cbn [fst snd] in *. apply (@one_acc sym m calls P lo hi fl FIT ONE ic) in A. destruct A as (A1 & A2 & A3 & A4 & A5 & A6 & A7).
    split; [exact A1|]. split; [exact A2|]. split; [exact A7|]. split.
    + intros p q h h' Hpq H1 H2 H3. apply HH in H1; [|auto using calling_firstn]. apply HH in H2; [|auto using calling_firstn]. subst h h'. apply (@meet_clash m calls W P0 L C) in H3; auto using calling_firstn. exact (A5 p q Hpq H3).
    + assert (X : exists p, p < length v /\ clash m (hd m calls (firstn p v)) (hd m calls v)).
      { destruct A6 as [A6|[_ A6]]; [|exact A6]. exists 0. split; [destruct v; [congruence|cbn; lia]|]. cbn [firstn]. rewrite A6, hd_nil. apply (clash_refl W P0 L C). }
      destruct X as (p & Hp & Cl). exists p, (hd m calls (firstn p v)), (hd m calls v). split; [exact Hp|]. split; [apply HH; auto using calling_firstn|]. split; [now apply HH|]. apply (@meet_clash m calls W P0 L C); auto using calling_firstn.
  - intros w A1 A2 A7 HL A5 A6. destruct (@least_kept w HL w []) as (cur & K); [now rewrite app_nil_r|]. apply in_map_iff. exists (w, cur). split; [reflexivity|]. apply M. split; [now apply (@one_imp sym m calls P FIT ONE)|]. apply (@one_acc sym m calls P lo hi fl FIT ONE ic). cbn [fst snd].
    split; [exact A1|]. split; [exact A2|]. split; [exact K|]. split; [now apply least_really|]. split; [|split; [|exact A7]].
    + intros p q Hpq Cl. apply (A5 p q _ _ Hpq (proj2 (HH (firstn p w) _ (calling_firstn p A2)) eq_refl) (proj2 (HH (firstn q w) _ (calling_firstn q A2)) eq_refl)). apply (@meet_clash m calls W P0 L C); auto using calling_firstn.
    + right. split; [exact NR|]. destruct A6 as (p & h & h' & Hp & H1 & H2 & H3). exists p. split; [exact Hp|]. apply HH in H1; [|auto using calling_firstn]. apply HH in H2; [|exact A2]. subst h h'. apply (@meet_clash m calls W P0 L C) in H3; auto using calling_firstn.
Qed.
Print Assumptions C50_nonround.

(* --- the length asked for --- *)
(* k leads are wanted if the changes in all the parts, or the leads when changes are not counted, are in the range *)
Theorem C50_range : forall m calls P lo hi fl, (0 <= lo < 18446744073709551616)%Z -> (0 <= hi < 18446744073709551616)%Z ->
  (0 < Z.of_nat (length (gv P)) * Z.of_nat (length (mch m)) < 18446744073709551616)%Z -> exists s, ts_make_range m calls P lo hi fl = Ret s /\
  (ts_meth s, ts_calls s, ts_ends s, ts_flags s) = (m, calls, P, fl) /\
  forall k : nat, (ts_min s <= Z.of_nat k <= ts_max s <->
    let n := if has fl TS_CHANGES then Z.of_nat (length (gv P)) * (Z.of_nat k * Z.of_nat (length (mch m))) else Z.of_nat k in
    lo <= n /\ (n <= hi \/ hi = size_max /\ Z.of_nat k <= hi))%Z.
Proof.
  intros m calls P lo hi fl Hlo Hhi Hl. unfold ts_make_range. set (d := if has fl TS_CHANGES then u64 (Z.of_nat (length (gv P)) * mlen m) else 1%Z).
  assert (D : (0 < d < 18446744073709551616)%Z) by (unfold d; destruct (has fl TS_CHANGES); [unfold u64, mlen; rewrite Z.mod_small; lia|lia]).
  unfold range_div. destruct (Z.eqb_spec d 0) as [E|_]; [lia|]. cbn [bind]. eexists. split; [reflexivity|]. split; [reflexivity|]. intros k. cbn [ts_min ts_max].
  assert (N : (if has fl TS_CHANGES then Z.of_nat (length (gv P)) * (Z.of_nat k * Z.of_nat (length (mch m))) else Z.of_nat k)%Z = (d * Z.of_nat k)%Z).
  { unfold d. destruct (has fl TS_CHANGES); [unfold u64, mlen; rewrite Z.mod_small by lia; ring|ring]. }
  cbv zeta. rewrite N. clear N. clearbody d.
  assert (LO : ((if negb (lo mod d =? 0) then u64 (lo / d + 1) else lo / d) <= Z.of_nat k <-> lo <= d * Z.of_nat k)%Z).
  { pose proof (Z.div_mod lo d ltac:(lia)) as E. pose proof (Z.mod_pos_bound lo d ltac:(lia)) as E2. destruct (Z.eqb_spec (lo mod d) 0) as [Z0|Z0]; cbn [negb].
    - split; intros H; nia.
    - assert (d <> 1)%Z by (intros ->; apply Z0; apply Z.mod_1_r). assert (0 <= lo / d)%Z by (apply Z.div_pos; lia). unfold u64. rewrite Z.mod_small by nia. split; intros H2; nia. }
  rewrite LO. destruct (Z.eqb_spec hi size_max) as [->|N].
  - split; [intros [A B]; split; [exact A|right; split; [reflexivity|exact B]]|]. intros [A [B|[_ B]]]; (split; [exact A|]); [|exact B]. nia.
  - assert (X : (Z.of_nat k <= hi / d <-> d * Z.of_nat k <= hi)%Z) by (pose proof (Z.div_mod hi d ltac:(lia)); pose proof (Z.mod_pos_bound hi d ltac:(lia)); split; intros; nia). rewrite X. split; intros [A B]; (split; [exact A|]); [now left|]. destruct B as [B|[B _]]; [exact B|congruence].
Qed.
Print Assumptions C50_range.
(* Without a range any length will do *)
Theorem C50_any_length : forall m calls P fl, ts_make m calls P fl = mkTS m calls P 0 size_max fl.
Proof. reflexivity. Qed.

(* --- more than one part --- *)
Section Many.
Variables (m : method) (calls : list change) (P : group) (lo hi fl : Z).
Hypothesis FIT : ts_fit m calls P.
Hypothesis MANY : 1 < length (gv P).
Hypothesis L2 : 2 <= length (mch m).
Hypothesis B58 : mb m <= 58.
Hypothesis GB : gb P = mb m.
Hypothesis ROUND : has fl TS_NONROUND = false.
Notation sym := default_symtab.
Notation np := (length (gv P)).
Notation hd := (hd m calls).
Lemma many_npart w : calling calls w -> (npart m calls sym P w = true <-> order_is (hd w) np).
Proof using FIT MANY B58.
  clear L2 GB ROUND. intros Cw. pose proof FIT as (W & P0 & L & C & WP & LP & T). pose proof (hd_row W P0 L C Cw) as R. assert (R' : row256 (hd w)) by (apply (@row_b_256 (mb m)); [lia|exact R]).
  destruct (@order_least_58 (hd w) R') as (k & K1 & K2 & K3 & K4); [destruct R; unfold row in *; lia|]. pose proof (order_int R' K2) as KI. unfold npart. rewrite K2. assert (O : order_is (hd w) k) by (split; auto).
  unfold u64. rewrite Z.mod_small by (unfold int_max in KI; lia). rewrite Z.eqb_eq. split.
  - intros E. apply Nat2Z.inj in E. now rewrite <- E.
  - intros O'. f_equal. exact (order_is_unique O O').
Qed.
Lemma many_head v : calling calls v -> ((exists g, In g (gv P) /\ hd v = comp g (id_row (mb m))) <-> In (hd v) (gv P)).
Proof using FIT GB.
  clear L2 MANY B58 ROUND. intros Cv. pose proof FIT as (W & P0 & L & C & WP & LP & T). split.
  - intros (g & Hg & ->). rewrite (@comp_id_r (mb m)) by (rewrite <- GB; now apply (group_row WP)). exact Hg.
  - intros H. exists (hd v). split; [exact H|]. symmetry. apply (@comp_id_r (mb m)). now apply (hd_row W P0 L C).
Qed.
(* given, of the list of callings accepted *)
Definition many_ok (w : list nat) : Prop := calling calls w /\ w <> [] /\ (lo <= Z.of_nat (length w) <= hi)%Z /\
  In (hd w) (gv P) /\ (has fl TS_MUTUAL = true \/ order_is (hd w) np) /\
  (forall p q g, p < q < length w -> In g (gv P) -> ~ clash m (comp g (hd (firstn p w))) (hd (firstn q w))) /\
  (forall g, In g (gv P) -> g <> id_row (mb m) -> ~ clash m (id_row (mb m)) g).
Lemma many_ws full : (has fl TS_MUTUAL = true -> leads_even sym m calls -> forall g, In g (gv P) -> sign sym g = Ret 1%Z) ->
  ts_gives sym (mkTS m calls P lo hi fl) full -> exists ws, full = map (touch_of m calls) ws /\ StronglySorted lex_lt ws /\ forall w, In w ws <-> many_ok w.
Proof using FIT MANY L2 B58 GB ROUND.
  intros EV G. pose proof FIT as (W & P0 & L & C & WP & LP & T). destruct (@ts_full sym m calls P lo hi fl FIT) as (vs & ft & ic & [GL GP] & G' & M & S); [intros _; auto|]. rewrite (ts_gives_unique G G'). clear G G'.
  set (ok := fun e : list nat * nat => wants m calls sym P fl (fst e)). exists (map fst (filter ok vs)).
  assert (SGN : ic = true -> forall w, calling calls w -> sign sym (hd w) = Ret 1%Z).
  { intros I w Cw. assert (TG : tgood m sym ft ic (hd w)) by (apply (hd_tgood W P0 L C GL Cw)). now apply TG. }
  (* if a calling will do, the parts are all even when the leads are *)
  assert (ALL : forall w, calling calls w -> In (hd w) (gv P) -> has fl TS_MUTUAL = true \/ order_is (hd w) np -> forall g, In g (gv P) -> inP sym P ic g).
  { intros w Cw Hw HM g Hg. split; [exact Hg|]. intros I. destruct HM as [HM|HM].
    - apply EV; [exact HM| |exact Hg]. intros i h Hi Hh. assert (Ci : calling calls [i]) by (repeat constructor; exact Hi). apply (@head_hd m calls W P0 L C _ _ Ci) in Hh. subst h. now apply SGN.
    - pose proof (hd_row W P0 L C Cw) as R. apply (@pw_all (mb m) (hd w) R P WP GB Hw HM) in Hg. destruct Hg as (k & _ & ->). clear -SGN I R Cw W P0 L C B58. induction k as [|k IH]; cbn [pw].
      + rewrite <- (@rounds_id (mb m)) by lia. apply sign_rounds. lia.
      + apply (@even_closed sym (mb m)); [lia|now apply pwb|exact R|exact IH|now apply SGN]. }
  assert (CL : forall g, In g (gv P) -> inP sym P ic g -> tgood m sym ft ic g).
  { intros g Hg [_ I]. split; [split; [rewrite <- GB; now apply (group_row WP)|intros F; now apply GP]|exact I]. }
  assert (Z : 1 <? np = true) by (now apply Nat.ltb_lt).
  split; [|split].
  - f_equal. clear S M. induction vs as [|[v cur] vs IH]; [reflexivity|]. cbn [flat_map filter]. unfold ok at 1, blk at 1. cbn [fst snd]. destruct (wants m calls sym P fl v); [|exact IH]. rewrite IH. unfold nturns. rewrite Z, orb_true_r. cbn [seq map app fst]. now rewrite turn_0.
  - clear -S. induction S as [|e vs S IH F]; [constructor|]. cbn [filter]. destruct (ok e); [|exact IH]. cbn [map]. constructor; [exact IH|]. rewrite Forall_forall in *. intros x Hx. apply in_map_iff in Hx. destruct Hx as (y & <- & Hy). apply filter_In in Hy. exact (F y (proj1 Hy)).
  - intros w. rewrite in_map_iff. unfold many_ok. split.
    + intros ([v cur] & E & Hv). cbn [fst] in E. subst v. apply filter_In in Hv. destruct Hv as [Hv Hok]. unfold ok, wants in Hok. rewrite Z in Hok. cbn [fst negb] in Hok. rewrite orb_false_r in Hok. apply M in Hv. destruct Hv as [NI A]. cbn [fst snd] in *. destruct A as (A1 & A2 & A3 & A4 & A5 & A6 & A7).
      assert (H6 : In (hd w) (gv P)) by (destruct A6 as [A6|[A6 _]]; [now apply many_head|congruence]).
      assert (HM : has fl TS_MUTUAL = true \/ order_is (hd w) np) by (apply orb_true_iff in Hok; destruct Hok as [Hok|Hok]; [now left|right; now apply many_npart]).
      pose proof (ALL w A2 H6 HM) as AP. split; [exact A2|]. split; [exact A1|]. split; [exact A7|]. split; [exact H6|]. split; [exact HM|]. split.
      * intros p q g Hpq Hg Cl. apply (A5 p q Hpq). exists g. split; [now apply AP|exact Cl].
      * intros g Hg N Cl. apply NI. exists g. split; [now apply CL; [|apply AP]|]. auto.
    + intros (A2 & A1 & A7 & H6 & HM & A5 & NI). exists (w, 0). split; [reflexivity|]. apply filter_In. split.
      * apply M. cbn [fst snd]. split.
        -- intros (f & Tf & N & HP & Cl). exact (NI f HP N Cl).
        -- unfold acc. rewrite Z. repeat (split; [auto; fail|]). split; [|split; [|exact A7]].
           ++ intros p q Hpq (g & [Hg _] & Cl). exact (A5 p q g Hpq Hg Cl).
           ++ left. now apply many_head.
      * unfold ok, wants. rewrite Z. cbn [fst negb]. rewrite orb_false_r. apply orb_true_iff. destruct HM as [HM|HM]; [now left|right; now apply many_npart].
Qed.
End Many.

(* C51: which callings are given, when there is more than one part end: those of the lengths asked for that
   end at a part end, one whose powers are all the part ends (unless mutual truth is enough), such that in
   all the parts no two different leads have a row in common, provided that the first lead has none in
   common with itself in another part; they come in alphabetical order *)
Theorem C51_finds : forall m calls P lo hi fl full, ts_fit m calls P -> 1 < length (gv P) -> 2 <= length (mch m) -> mb m <= 58 -> gb P = mb m -> has fl TS_NONROUND = false ->
  (has fl TS_MUTUAL = true -> leads_even default_symtab m calls -> forall g, In g (gv P) -> sign default_symtab g = Ret 1%Z) ->
  ts_gives default_symtab (mkTS m calls P lo hi fl) full ->
  exists ws, map flatten full = map (changes_called m calls) ws /\ StronglySorted lex_lt ws /\
  forall w, In w ws <-> calling calls w /\ w <> [] /\ (lo <= Z.of_nat (length w) <= hi)%Z /\
    (exists h, lead_head m calls w h /\ In h (gv P) /\ (has fl TS_MUTUAL = true \/ order_is h (length (gv P)))) /\
    (forall p q h h' g, p < q < length w -> lead_head m calls (firstn p w) h -> lead_head m calls (firstn q w) h' -> In g (gv P) -> ~ leads_meet m (comp g h) h') /\
    (forall g, In g (gv P) -> g <> id_row (mb m) -> ~ leads_meet m (id_row (mb m)) g).
Proof.
  intros m calls P lo hi fl full FIT MANY L2 B58 GB ROUND EV G. destruct (many_ws FIT MANY L2 B58 GB ROUND EV G) as (ws & -> & S & M). exists ws. split; [|split; [exact S|]].
  { rewrite map_map. apply map_ext. intros w. apply touch_flat. }
  pose proof FIT as (W & P0 & L & C & WP & LP & T). pose proof (fun w h (Cw : calling calls w) => @head_hd m calls W P0 L C w h Cw) as HH. pose proof (fun w (Cw : calling calls w) => hd_row W P0 L C Cw) as HR.
  assert (GR : forall g, In g (gv P) -> row_b (mb m) g) by (intros g Hg; rewrite <- GB; now apply (group_row WP)).
  assert (CR : forall g h, In g (gv P) -> row_b (mb m) h -> row_b (mb m) (comp g h)) by (intros g h Hg [R1 R2]; apply comp_row_b; [now apply GR|exact R1|unfold row in *; lia]).
  intros w. rewrite M. unfold many_ok. split.
  - intros (A1 & A2 & A3 & A4 & A5 & A6 & A7). split; [exact A1|]. split; [exact A2|]. split; [exact A3|]. split; [|split].
    + exists (hd m calls w). split; [now apply HH|]. auto.
    + intros p q h h' g Hpq H1 H2 Hg H3. apply HH in H1; [|auto using calling_firstn]. apply HH in H2; [|auto using calling_firstn]. subst h h'. apply (@meet_clash m calls W P0 L C) in H3; auto using calling_firstn. exact (A6 p q g Hpq Hg H3).
    + intros g Hg N H3. apply (@meet_clash m calls W P0 L C) in H3; auto using row_b_id. exact (A7 g Hg N H3).
  - intros (A1 & A2 & A3 & (h & H1 & A4 & A5) & A6 & A7). apply HH in H1; [|exact A1]. subst h. repeat (split; [assumption|]). split.
    + intros p q g Hpq Hg Cl. apply (A6 p q (hd m calls (firstn p w)) (hd m calls (firstn q w)) g Hpq); [apply HH; auto using calling_firstn|apply HH; auto using calling_firstn|exact Hg|]. apply (@meet_clash m calls W P0 L C); auto using calling_firstn.
    + intros g Hg N Cl. apply (A7 g Hg N). apply (@meet_clash m calls W P0 L C); auto using row_b_id.
Qed.
Print Assumptions C51_finds.

(* every calling that repeated once for each part end gives a true touch, and ends at a part end, is given *)
Theorem C51_complete : forall m calls P lo hi fl full, ts_fit m calls P -> 1 < length (gv P) -> 2 <= length (mch m) -> mb m <= 58 -> gb P = mb m -> has fl TS_NONROUND = false -> lead_is_true m ->
  (has fl TS_MUTUAL = true -> leads_even default_symtab m calls -> forall g, In g (gv P) -> sign default_symtab g = Ret 1%Z) ->
  ts_gives default_symtab (mkTS m calls P lo hi fl) full ->
  forall w h, calling calls w -> w <> [] -> (lo <= Z.of_nat (length w) <= hi)%Z -> lead_head m calls w h -> In h (gv P) ->
    true_touch (mb m) (n_times (length (gv P)) (changes_called m calls w)) -> exists n, In n full /\ flatten n = changes_called m calls w.
Proof.
  intros m calls P lo hi fl full FIT MANY L2 B58 GB ROUND LT EV G w h Cw NE LH HH Hh TT. destruct (many_ws FIT MANY L2 B58 GB ROUND EV G) as (ws & -> & S & M). pose proof FIT as (W & P0 & L & C & WP & LP & T).
  exists (touch_of m calls w). split; [|apply touch_flat]. apply in_map. apply M. apply (@head_hd m calls W P0 L C _ _ Cw) in HH. subst h. pose proof (hd_row W P0 L C Cw) as RH.
  rewrite <- (changes_rep m) in TT. apply (one_true FIT LT (calling_rep _ Cw)) in TT. destruct TT as [ID NF]. rewrite (hd_rep W P0 L C) in ID by exact Cw.
  destruct (rep_false W P0 L C Cw NE NF) as [F1 F2].
  assert (O : order_is (hd m calls w) (length (gv P))) by (apply (@order_pw (mb m)); [exact RH|]; split; [lia|]; split; [exact ID|]; intros j Hj; now apply F1).
  pose proof (@pw_all (mb m) _ RH P WP GB Hh O) as PA.
  split; [exact Cw|]. split; [exact NE|]. split; [exact LH|]. split; [exact Hh|]. split; [now right|]. split.
  - intros p q g Hpq Hg. apply PA in Hg. destruct Hg as (k & Hk & ->). now apply F2.
  - intros g Hg N. apply PA in Hg. destruct Hg as (k & Hk & ->). apply F1. destruct k; [now cbn in N|lia].
Qed.
Print Assumptions C51_complete.

(* every calling given, unless only mutual truth was asked for, gives a true touch when repeated once for
   each part end, if no lead has a row in common with itself in another part *)
Theorem C51_sound : forall m calls P lo hi fl full, ts_fit m calls P -> 1 < length (gv P) -> 2 <= length (mch m) -> mb m <= 58 -> gb P = mb m -> has fl TS_NONROUND = false -> has fl TS_MUTUAL = false -> lead_is_true m ->
  ts_gives default_symtab (mkTS m calls P lo hi fl) full ->
  forall n, In n full -> exists w, calling calls w /\ w <> [] /\ flatten n = changes_called m calls w /\ (lo <= Z.of_nat (length w) <= hi)%Z /\
    ((forall p h g, 0 < p < length w -> lead_head m calls (firstn p w) h -> In g (gv P) -> g <> id_row (mb m) -> ~ leads_meet m h (comp g h)) ->
     true_touch (mb m) (n_times (length (gv P)) (flatten n))).
Proof.
  intros m calls P lo hi fl full FIT MANY L2 B58 GB ROUND MUT LT G n Hn. destruct (@many_ws m calls P lo hi fl FIT MANY L2 B58 GB ROUND full ltac:(congruence) G) as (ws & -> & _ & M). pose proof FIT as (W & P0 & L & C & WP & LP & T).
  apply in_map_iff in Hn. destruct Hn as (w & <- & Hw). apply M in Hw. destruct Hw as (Cw & NE & LH & Hh & [O|O] & A5 & A6); [congruence|]. rewrite touch_flat.
  exists w. split; [exact Cw|]. split; [exact NE|]. split; [reflexivity|]. split; [exact LH|]. intros SELF. pose proof (hd_row W P0 L C Cw) as RH.
  rewrite <- (changes_rep m). apply (one_true FIT LT (calling_rep _ Cw)). pose proof O as O'. apply (@order_pw (mb m) _ RH) in O'. destruct O' as (O1 & O2 & O3). rewrite (hd_rep W P0 L C) by exact Cw. split; [exact O2|].
  pose proof (@pw_all (mb m) _ RH P WP GB Hh O) as PA. assert (FR : forall p, row_b (mb m) (hd m calls (firstn p w))) by (intros p; apply (hd_row W P0 L C); now apply calling_firstn).
  apply (rep_true W P0 L C Cw NE O2).
  - intros k p q Hk Hpq. apply A5; [exact Hpq|]. apply PA. eauto.
  - intros k p Hk Hp Cl. assert (IP : In (pw (mb m) (hd m calls w) k) (gv P)) by (apply PA; exists k; split; [lia|reflexivity]). pose proof (O3 k Hk) as N. destruct p as [|p].
    + apply (A6 _ IP N). apply clash_sym. cbn [firstn] in Cl. rewrite hd_nil in Cl. rewrite (@comp_id_r (mb m)) in Cl by (now apply pwb). exact Cl.
    + apply (SELF (S p) (hd m calls (firstn (S p) w)) (pw (mb m) (hd m calls w) k)); [lia|apply (@head_hd m calls W P0 L C); [now apply calling_firstn|reflexivity]|exact IP|exact N|].
      apply (@meet_clash m calls W P0 L C); [apply FR|apply comp_row_b; [now apply pwb|apply FR|destruct (FR (S p)); lia]|]. now apply clash_sym.
Qed.
Print Assumptions C51_sound.

(* --- cases --- *)
Definition row_okb (x : list nat) : bool := M_Extent.row_eqb (std_sort Nat.ltb x) (seq 0 (length x)).
Lemma row_okb_is x : row_okb x = true -> is_row x.
Proof.
  intros H. unfold row_okb in H. assert (E : std_sort Nat.ltb x = seq 0 (length x)).
  { revert H. generalize (std_sort Nat.ltb x) (seq 0 (length x)). intros a. induction a as [|y a IH]; intros [|z c]; try discriminate; [reflexivity|]. cbn. intros H. apply andb_true_iff in H. destruct H as [H1 H2]. apply Nat.eqb_eq in H1. subst. f_equal. now apply IH. }
  unfold is_row. rewrite <- E. symmetry. apply std_sort_perm.
Qed.
Definition group_okb (b : nat) (v : list (list nat)) : bool :=
  (b <=? 256) && forallb (fun i => row_ltb (nth i v []) (nth (S i) v [])) (seq 0 (length v - 1)) && forallb (fun x => row_okb x && (length x =? b)) v && existsb (M_Extent.row_eqb (id_row b)) v &&
  forallb (fun x => forallb (fun y => existsb (M_Extent.row_eqb (comp x y)) v) v) v.
Definition group_with (b : nat) (v : list (list nat)) : group := match with_orbits b v with Ret g => g | _ => group_default end.
Lemma ext_eqb a c : M_Extent.row_eqb a c = true -> a = c.
Proof. revert c. induction a as [|y a IH]; intros [|z c]; try discriminate; [reflexivity|]. cbn. intros H. apply andb_true_iff in H. destruct H as [H1 H2]. apply Nat.eqb_eq in H1. subst. f_equal. now apply IH. Qed.
Lemma group_okb_wf b v : group_okb b v = true -> wf_group (group_with b v) /\ gb (group_with b v) = b /\ gv (group_with b v) = v.
Proof.
  unfold group_okb. intros H. repeat (apply andb_true_iff in H; destruct H as [H ?]). rename H0 into H5, H1 into H4, H2 into H3, H3 into H2. apply Nat.leb_le in H. rewrite forallb_forall in H2, H3, H5.
  assert (HB : b <= 256) by assumption. rewrite existsb_exists in H4. destruct H4 as (x & Hx & E). apply ext_eqb in E. subst x.
  assert (SS : StronglySorted lex_lt v).
  { apply Sorted_StronglySorted; [intros x y z; apply lex_trans|]. assert (H2' : forall i, i < length v - 1 -> row_ltb (nth i v []) (nth (S i) v []) = true) by (intros i Hi; apply H2, in_seq; lia). clear -H2'. revert H2'. induction v as [|x [|y l] IH]; intros H; [constructor|repeat constructor|].
    constructor; [apply IH; intros i Hi; apply (H (S i)); cbn in *; lia|]. constructor. apply row_ltb_spec. apply (H 0). cbn. lia. }
  assert (GG : is_subgroup b (fun x => In x v)).
  { apply (@subset_group b HB (fun x => In x v)).
    - intros x Hx'. specialize (H3 x Hx'). apply andb_true_iff in H3. destruct H3 as [K1 K2]. apply Nat.eqb_eq in K2. split; [now apply row_okb_is|exact K2].
    - exact Hx.
    - intros x y Kx Ky. specialize (H5 x Kx). rewrite forallb_forall in H5. specialize (H5 y Ky). rewrite existsb_exists in H5. destruct H5 as (z & Hz & E). apply ext_eqb in E. now subst z. }
  destruct (@with_orbits_spec b v HB (conj SS GG)) as (g & E & E1 & E2 & W). unfold group_with. rewrite E. auto.
Qed.
Definition method_okb (m : method) : bool := (mb m <=? 255) && (0 <? mb m) && (1 <=? length (mch m)).
Lemma ts_fit_intro m calls P : wf_method m -> 0 < mb m -> 1 <= length (mch m) -> Forall (fun c => cn c = mb m /\ wf_change c) calls -> wf_group P -> gb P <= mb m ->
  forallb (fun i => came_from (lead_called m calls i) 0 =? 0) (seq 0 (S (length calls))) = false \/ forallb (fun g => act g 0 =? 0) (gv P) = true -> ts_fit m calls P.
Proof.
  intros W P0 L C WP LP H. repeat (split; [assumption|]). intros T g Hg. destruct H as [H|H].
  - exfalso. assert (X : forallb (fun i => came_from (lead_called m calls i) 0 =? 0) (seq 0 (S (length calls))) = true); [|congruence]. apply forallb_forall. intros i Hi. apply in_seq in Hi. apply Nat.eqb_eq, T. lia.
  - rewrite forallb_forall in H. apply Nat.eqb_eq. now apply H.
Qed.
Lemma ts_more f f' sym s stop st : f <= f' -> ts_run f sym s stop = Ret st -> ts_run f' sym s stop = Ret st.
Proof.
  intros H. unfold ts_run. destruct (ts_context f sym s) as [cx| | |] eqn:E; cbn [bind]; try discriminate. rewrite (context_more H E). cbn [bind]. destruct (tc_impossible cx); [auto|].
  destruct (ts_recursive f sym cx stop 0 0 [] 0 _) as [s'| | |] eqn:R; cbn [bind]; try discriminate. intros X. replace f' with ((f' - f) + f) by lia. rewrite (@recursive_more sym cx stop (f' - f) f _ _ _ _ _ _ R). exact X.
Qed.
Lemma ts_run_gives sym s f st full : ts_run f sym s (fun _ => false) = Ret st -> ts_gives sym s full -> full = st_outs st.
Proof.
  intros E (n & H). destruct (H (n + f) (fun _ => false)) as (st' & E' & _ & U); [lia|]. rewrite (@ts_more f (n + f) _ _ _ _ ltac:(lia) E) in E'. injection E' as <-.
  destruct U as [<-|(? & _ & _ & K)]; [reflexivity|discriminate].
Qed.
Lemma ts_run_outs sym s f full : ts_gives sym s full -> is_ret (ts_run f sym s (fun _ => false)) = true -> full = outs_of (ts_run f sym s (fun _ => false)).
Proof. intros G E. apply is_ret_ex in E. destruct E as (st & E). rewrite E. exact (ts_run_gives E G). Qed.

(* Plain Bob Minor in five parts, the part ends being the lead heads of the plain course *)
Definition five : group := group_with 6 [[0;1;2;3;4;5]; [0;2;4;1;5;3]; [0;3;1;5;2;4]; [0;4;5;2;3;1]; [0;5;3;4;1;2]].
Lemma five_ok : wf_group five /\ gb five = 6 /\ length (gv five) = 5.
Proof. destruct (@group_okb_wf 6 [[0;1;2;3;4;5]; [0;2;4;1;5;3]; [0;3;1;5;2;4]; [0;4;5;2;3;1]; [0;5;3;4;1;2]]) as (A & B & C); [vm_compute; reflexivity|]. split; [exact A|]. split; [exact B|]. unfold five. rewrite C. reflexivity. Qed.
Lemma five_fit : ts_fit bob_minor minor_calls five.
Proof.
  destruct bob_minor_ok as (W & P0 & L & C & _). destruct five_ok as (A & B & _). apply (ts_fit_intro W P0 L C A); [rewrite B; vm_compute; lia|]. right. vm_compute. reflexivity.
Qed.
Example C51_case : (ts_fit bob_minor minor_calls five /\ 1 < length (gv five) /\ 2 <= length (mch bob_minor) /\ mb bob_minor <= 58 /\ gb five = mb bob_minor /\ lead_is_true bob_minor) /\
  exists full, ts_gives default_symtab (mkTS bob_minor minor_calls five 1 5 0) full /\
  map flatten full = map (changes_called bob_minor minor_calls) [[0]; [1; 0; 0; 1]; [1; 2; 0; 2; 1]; [2; 0; 1; 0; 2]].
Proof.
  split.
  - split; [exact five_fit|]. destruct five_ok as (_ & B & C). rewrite C, B. split; [lia|]. split; [vm_compute; lia|]. split; [vm_compute; lia|]. split; [reflexivity|]. apply bob_minor_ok.
  - destruct (@C50_ends default_symtab bob_minor minor_calls five 1 5 0 five_fit) as (full & G); [intros _; repeat split; vm_compute; lia|]. exists full. split; [exact G|]. rewrite (@ts_run_outs _ _ 130 _ G) by (vm_compute; reflexivity). vm_compute. reflexivity.
Qed.

(* --- what cannot be left out --- *)
Lemma not_true b cs i j : b <= 255 -> Forall (fun c => cn c = b /\ wf_change c) cs -> (i <? j) && (j <? length cs) && M_Extent.row_eqb (row_of b (firstn i cs)) (row_of b (firstn j cs)) = true -> ~ true_touch b cs.
Proof.
  intros B O H [_ T]. apply andb_true_iff in H. destruct H as [H H3]. apply andb_true_iff in H. destruct H as [H1 H2]. apply Nat.ltb_lt in H1. apply Nat.ltb_lt in H2. apply ext_eqb in H3.
  apply (T i j (row_of b (firstn i cs)) (conj H1 H2)); apply rung_iff; auto using on_b_firstn.
Qed.

(* A lead other than the first that meets itself in another part goes unnoticed: *)
Definition a4 : method := mkMethod [mkChange 4 [0;2]; mkChange 4 [1]] 4.
Definition a4_call : list change := [mkChange 4 [2]].
Definition four : group := group_with 4 [[0;1;2;3]; [1;2;3;0]; [2;3;0;1]; [3;0;1;2]].
Theorem C51_refuted_self : (ts_fit a4 a4_call four /\ lead_is_true a4 /\ length (gv four) = 4 /\ gb four = mb a4) /\
  exists full n, ts_gives default_symtab (mkTS a4 a4_call four 3 3 0) full /\ full = [n] /\ flatten n = changes_called a4 a4_call [0; 1; 0] /\ ~ true_touch 4 (n_times 4 (flatten n)).
Proof.
  assert (W : wf_method a4) by (split; [vm_compute; lia|split; [vm_compute; discriminate|repeat constructor; cbv; lia]]).
  destruct (@group_okb_wf 4 [[0;1;2;3]; [1;2;3;0]; [2;3;0;1]; [3;0;1;2]]) as (A & B & C); [vm_compute; reflexivity|]. fold four in A, B, C.
  assert (F : ts_fit a4 a4_call four). { apply ts_fit_intro; [exact W|vm_compute; lia|vm_compute; lia|repeat constructor; cbv; lia|exact A|rewrite B; vm_compute; lia|]. left. vm_compute. reflexivity. }
  split; [split; [exact F|split; [|split; [now rewrite C|exact B]]]|].
  { unfold lead_is_true. apply rows_differ_ok; [exact (proj1 W)|exact (proj2 (proj2 W))|vm_compute; reflexivity]. }
  destruct (@C50_ends default_symtab a4 a4_call four 3 3 0 F) as (full & G); [intros _; repeat split; vm_compute; lia|]. exists full, (tof a4 a4_call [0; 1; 0]). split; [exact G|]. split; [|split; [apply touch_flat|]].
  - rewrite (@ts_run_outs _ _ 30 _ G) by (vm_compute; reflexivity). vm_compute. reflexivity.
  - apply (@not_true 4 _ 2 15); [lia| |vm_compute; reflexivity]. repeat constructor; cbv; lia.
Qed.
Print Assumptions C51_refuted_self.
(* Odd part ends of even leads are not looked at when mutual truth is enough: a lead with the rows 123, 132
   and a part end that turns the one into the other *)
Definition b3 : method := mkMethod [mkChange 3 [1]; mkChange 3 [1]] 3.
Definition two : group := group_with 3 [[0;1;2]; [0;2;1]].
Theorem C51_refuted_odd : (ts_fit b3 [] two /\ lead_is_true b3 /\ length (gv two) = 2 /\ gb two = mb b3) /\
  exists full n, ts_gives default_symtab (mkTS b3 [] two 0 9 TS_MUTUAL) full /\ full = [n] /\ flatten n = changes_called b3 [] [0] /\
    exists g, In g (gv two) /\ g <> id_row 3 /\ leads_meet b3 (id_row 3) g.
Proof.
  assert (W : wf_method b3) by (split; [vm_compute; lia|split; [vm_compute; discriminate|repeat constructor; cbv; lia]]).
  destruct (@group_okb_wf 3 [[0;1;2]; [0;2;1]]) as (A & B & C); [vm_compute; reflexivity|]. fold two in A, B, C.
  assert (F : ts_fit b3 [] two). { apply ts_fit_intro; [exact W|vm_compute; lia|vm_compute; lia|constructor|exact A|rewrite B; vm_compute; lia|]. right. vm_compute. reflexivity. }
  split; [split; [exact F|split; [|split; [now rewrite C|exact B]]]|].
  { unfold lead_is_true. apply rows_differ_ok; [exact (proj1 W)|exact (proj2 (proj2 W))|vm_compute; reflexivity]. }
  destruct (@C50_ends default_symtab b3 [] two 0 9 TS_MUTUAL F) as (full & G); [intros _; repeat split; vm_compute; lia|]. exists full, (tof b3 [] [0]). split; [exact G|]. split; [|split; [apply touch_flat|]].
  - rewrite (@ts_run_outs _ _ 30 _ G) by (vm_compute; reflexivity). vm_compute. reflexivity.
  - exists [0;2;1]. split; [rewrite C; cbn; auto|]. split; [discriminate|]. apply (@meet_clash b3 [] W ltac:(vm_compute; lia) ltac:(vm_compute; lia) (Forall_nil _)); [apply row_b_id|split; [apply row_okb_is; reflexivity|reflexivity]|]. exists 1, 0. split; [cbn; lia|]. split; [cbn; lia|]. vm_compute. reflexivity.
Qed.
Print Assumptions C51_refuted_odd.
(* Part ends on fewer bells than the method are not recognised among the false lead heads *)
Definition c3 : method := mkMethod [mkChange 3 [0]; mkChange 3 []] 3.
Definition two2 : group := group_with 2 [[0;1]; [1;0]].
Theorem C51_refuted_fewer_bells : (ts_fit c3 [] two2 /\ lead_is_true c3 /\ length (gv two2) = 2 /\ gb two2 = 2) /\
  exists full n, ts_gives default_symtab (mkTS c3 [] two2 0 9 0) full /\ full = [n] /\ flatten n = changes_called c3 [] [0] /\ ~ true_touch 3 (n_times 2 (flatten n)).
Proof.
  assert (W : wf_method c3) by (split; [vm_compute; lia|split; [vm_compute; discriminate|repeat constructor; cbv; lia]]).
  destruct (@group_okb_wf 2 [[0;1]; [1;0]]) as (A & B & C); [vm_compute; reflexivity|]. fold two2 in A, B, C.
  assert (F : ts_fit c3 [] two2). { apply ts_fit_intro; [exact W|vm_compute; lia|vm_compute; lia|constructor|exact A|rewrite B; vm_compute; lia|]. left. vm_compute. reflexivity. }
  split; [split; [exact F|split; [|split; [now rewrite C|exact B]]]|].
  { unfold lead_is_true. apply rows_differ_ok; [exact (proj1 W)|exact (proj2 (proj2 W))|vm_compute; reflexivity]. }
  destruct (@C50_ends default_symtab c3 [] two2 0 9 0 F) as (full & G); [intros _; repeat split; vm_compute; lia|]. exists full, (tof c3 [] [0]). split; [exact G|]. split; [|split; [apply touch_flat|]].
  - rewrite (@ts_run_outs _ _ 30 _ G) by (vm_compute; reflexivity). vm_compute. reflexivity.
  - apply (@not_true 3 _ 0 3); [lia| |vm_compute; reflexivity]. repeat constructor; cbv; lia.
Qed.
Print Assumptions C51_refuted_fewer_bells.

(* The old constructor without a range makes a search for touches of no leads, which gives none *)
Theorem C50_refuted_old : forall sym m calls ig full, ts_fit m calls group_default -> ts_gives sym (ts_make_old m calls ig) full -> full = [].
Proof.
  intros sym m calls ig full F G. unfold ts_make_old in G. set (fl := if ig then TS_IGNORE else 0%Z) in *. destruct (@ts_full sym m calls group_default 0 0 fl F) as (vs & ft & ic & _ & G' & M & _); [intros H; cbn in H; lia|].
  rewrite (ts_gives_unique G G'). destruct vs as [|e vs]; [reflexivity|]. exfalso. destruct (proj1 (M e) (or_introl eq_refl)) as [_ (A1 & _ & _ & _ & _ & _ & A7)]. destruct (fst e); [congruence|]. cbn [length] in A7. lia.
Qed.
Print Assumptions C50_refuted_old.
(* what the old constructor with a range does depends on an uninitialised member *)
Theorem C50_refuted_old_range : exists s s', ts_make_old_range 0 bob_minor minor_calls 24 24 true = Ret s /\ ts_make_old_range 4 bob_minor minor_calls 24 24 true = Ret s' /\ (ts_min s, ts_min s') = (24, 2)%Z.
Proof. do 2 eexists. split; [vm_compute; reflexivity|]. split; [vm_compute; reflexivity|]. reflexivity. Qed.
(* counting the changes of a method without any divides by zero *)
Theorem C50_refuted_no_changes : forall calls P b lo hi fl, has fl TS_CHANGES = true -> ts_make_range (mkMethod [] b) calls P lo hi fl = UB.
Proof. intros calls P b lo hi fl H. unfold ts_make_range. rewrite H. unfold mlen. cbn [mch length Z.of_nat]. rewrite Z.mul_0_r. reflexivity. Qed.
Print Assumptions C50_refuted_no_changes.

(* a method at whose lead ends the treble does not lead, which basic_search gets wrong, is no trouble *)
Example C50_case : ts_fit no_treble [] group_default /\ lead_is_true no_treble /\ ts_gives default_symtab (ts_make no_treble [] group_default 0) [].
Proof.
  assert (W : wf_method no_treble). { split; [vm_compute; repeat constructor|]. split; [vm_compute; discriminate|]. repeat constructor; cbv; lia. }
  assert (F : ts_fit no_treble [] group_default) by (apply ts_fit_intro; [exact W|vm_compute; lia|vm_compute; lia|constructor|apply wf_default|vm_compute; lia|left; vm_compute; reflexivity]).
  split; [exact F|]. split; [unfold lead_is_true; apply rows_differ_ok; [exact (proj1 W)|exact (proj2 (proj2 W))|vm_compute; reflexivity]|].
  destruct (@C50_ends default_symtab no_treble [] group_default 0 size_max 0 F) as (full & G); [intros H; cbn in H; lia|]. unfold ts_make. rewrite (@ts_run_outs _ _ 30 _ G) in G by (vm_compute; reflexivity). exact G.
Qed.
