(* Props_Search.v - property theorems about basic_search. *)
From Verif Require Import Base M_Bell M_Change M_Row M_Extent M_Touch M_PN M_Method M_False M_Search Spec_Row Spec_Change Spec_Touch Spec_Group Spec_Method Spec_False Spec_Extent Spec_Search
  P_Row P_Cycle P_Group P_Group2 P_Group3 P_Touch P_False P_False3 P_False4 P_Search P_Search2 P_Search3 P_Search4 P_Search5 P_Search6 Props_Touch.
Set Implicit Arguments.
Unset Strict Implicit.
Open Scope nat_scope.

Lemma feed_until stop l outs : (forall k, 0 < k <= length outs -> stop (firstn k outs) = false) -> until_stopped stop (outs ++ l) (fst (feed stop outs l)).
Proof.
  revert outs. induction l as [|n l IH]; intros outs H; cbn [feed].
  - rewrite app_nil_r. split; [intros k Hk; apply H; cbn in Hk; lia|now left].
  - destruct (stop (outs ++ [n])) eqn:E.
    + cbn [fst]. split.
      * intros k Hk. rewrite app_length in Hk. cbn in Hk. rewrite firstn_app. replace (k - length outs) with 0 by lia. cbn [firstn]. rewrite app_nil_r. apply H. lia.
      * right. exists l. rewrite <- app_assoc. split; [reflexivity|]. split; [now destruct outs|exact E].
    + replace (outs ++ n :: l) with ((outs ++ [n]) ++ l) by (rewrite <- app_assoc; reflexivity). apply IH. intros k Hk. rewrite app_length in Hk. cbn in Hk.
      destruct (Nat.eq_dec k (length outs + 1)) as [->|N]; [|rewrite firstn_app; replace (k - length outs) with 0 by lia; cbn [firstn]; rewrite app_nil_r; apply H; lia].
      rewrite firstn_all2 by (rewrite app_length; cbn; lia). exact E.
Qed.

(* more fuel makes no difference *)
Lemma more_fuel cx stop d : forall f r dep w cur st st', run_recursive f cx stop r dep w cur st = Ret st' -> run_recursive (d + f) cx stop r dep w cur st = Ret st'.
Proof.
  induction f as [|f IH]; intros r dep w cur st st' H; [discriminate|]. rewrite Nat.add_succ_r. cbn [run_recursive] in *.
    destruct (is_possibly_canonical w cur) as [[c|]| | |]; cbn [bind] in *; try exact H. destruct (is_row_false _ _ _) as [o| | |]; cbn [bind] in *; try exact H. destruct o; [exact H|].
    destruct (_ <? _)%Z; [|exact H]. revert H. generalize (mkSt (st_halt st) (st_tl st) (lead_insert (st_leads st) r) (st_outs st)) as st0. generalize (seq 0 (length (cx_lhs cx))) as I.
    intros I st0 H. match goal with H : bind ?a _ = _ |- bind ?b _ = _ => assert (X : forall x, a = Ret x -> b = Ret x) end.
    - clear H. revert st0. induction I as [|i I IHI]; intros st0 x; cbn [forM]; [auto|]. destruct (st_halt st0); cbn [bind]; [apply IHI|].
      destruct (vget _ i) as [l| | |]; cbn [bind]; try discriminate. destruct (mul r l) as [r'| | |]; cbn [bind]; try discriminate.
      destruct (run_recursive f cx stop r' (dep + 1) (w ++ [i]) c st0) as [st1| | |] eqn:Er; cbn [bind]; try discriminate. rewrite (IH _ _ _ _ _ _ Er). cbn [bind]. apply IHI.
    - match type of X with forall x, ?a = _ -> _ => destruct a as [y| | |] eqn:Ea end; try discriminate. rewrite (X y eq_refl). exact H.
Qed.
Lemma search_more sym s stop f f' st : f <= f' -> search_run f sym s stop = Ret st -> search_run f' sym s stop = Ret st.
Proof.
  intros H. unfold search_run. destruct (context_make sym s) as [cx| | |]; cbn [bind]; try discriminate. destruct (cx_lhs cx); [discriminate|].
  intros E. replace f' with ((f' - f) + f) by lia. now apply more_fuel.
Qed.

Section Search.
Variables (sym : symtab) (m : method) (calls : list change) (lo hi : Z) (ig : bool).
Hypothesis OK : searchable m calls.
Let s := mkSearch m calls lo hi ig.

Lemma lead_true_R : lead_true m.
Proof using OK.
  destruct OK as (W & P & L & C & T & LT). intros i j Hij E. pose proof (b255 W P L C) as B. pose proof (mch_on W P L C) as O.
  apply (LT i j (R m i) Hij); [apply rung_row_of; [exact B|now apply on_b_firstn]|]. rewrite E. apply rung_row_of; [exact B|now apply on_b_firstn].
Qed.
Lemma true_iff w : calling calls w -> (true_touch (mb m) (changes_called m calls w) <-> hd m calls w = id_row (mb m) /\ nofalse m calls w).
Proof using OK. destruct OK as (W & P & L & C & T & LT). apply (true_calling W P L C). exact lead_true_R. Qed.

Let CX := mkCtx lo hi ig [] [] [].
Lemma search_all : exists n vs, (forall fuel stop, n <= fuel -> exists st, search_run fuel sym s stop = Ret st /\ until_stopped stop (map (touch_of m calls) (flat_map (block CX) vs)) (st_outs st) /\
      (st_outs st <> [] -> last (st_outs st) (Changes []) = Children (st_tl st))) /\
  (forall e, In e vs <-> accepted m calls CX (fst e) (snd e)) /\ StronglySorted before vs.
Proof using OK.
  pose proof OK as (W & P & L & C & T & LT). pose proof (b255 W P L C) as B.
  destruct (context_spec W P L C T sym lo hi ig) as (cx & ic & E & E1 & E2 & E3 & E4 & E5 & E6 & E7 & E8).
  destruct (@all_rows (mb m) ltac:(lia)) as (ALL & HA).
  assert (G : forall fuel, length ALL + 1 <= fuel -> exists full, performs m calls cx (fun stop st => run_recursive fuel cx stop (hd m calls []) 0 [] 0 st) (leads_ok m calls []) full /\
    (forall w', In w' full <-> produced m calls cx [] w') /\ StronglySorted before full).
  { intros fuel HF. apply (@run_spec m calls W P L C sym cx ic E4 E5 E6 E7 E8 ALL HA fuel [] 0); [left; auto|apply Forall_nil|intros p q Hpq; cbn in Hpq; lia|congruence|cbn [length]; rewrite Nat.add_0_r; exact HF]. }
  assert (BL : forall l, flat_map (block cx) l = flat_map (block CX) l) by (intros l; apply flat_map_ext; intros e; unfold block, turns; rewrite E3; reflexivity).
  assert (RUN : forall fuel ws stop, performs m calls cx (fun stop st => run_recursive fuel cx stop (hd m calls []) 0 [] 0 st) (leads_ok m calls []) ws ->
    exists st, search_run fuel sym s stop = Ret st /\ until_stopped stop (map (touch_of m calls) (flat_map (block CX) ws)) (st_outs st) /\ (st_outs st <> [] -> last (st_outs st) (Changes []) = Children (st_tl st)) /\
      (st_outs st, st_halt st) = feed stop [] (map (touch_of m calls) (flat_map (block CX) ws))).
  { intros fuel ws stop PF. destruct (PF stop (mkSt false [] [] [])) as (st & ES & _ & EO & ET); [reflexivity|intros x; split; [intros []|intros (p & Hp & _); cbn in Hp; lia]|intros K; now destruct K|].
    rewrite BL in EO. exists st. split; [|split; [|split; [exact ET|exact EO]]].
    - unfold search_run. unfold s. rewrite E. cbn [bind]. rewrite E4. cbn [seq map]. rewrite <- ES. rewrite hd_nil. f_equal. rewrite (proj2 (lhd_row W P L C (Nat.le_0_l _))). apply rounds_id. lia.
    - change (st_outs st) with (fst (st_outs st, st_halt st)). rewrite EO. apply (@feed_until stop _ []). intros k Hk. cbn in Hk. lia. }
  destruct (G (length ALL + 1)) as (ws & P0 & M0 & S0); [lia|].
  exists (length ALL + 1), ws. split; [|split; [|exact S0]].
  2: { intros e. rewrite M0. unfold produced, accepted. unfold CX. cbn [cx_min cx_max]. rewrite E1, E2. cbn [app]. split; [intros [A _]; exact A|intros A; split; [exact A|eauto]]. }
  intros fuel stop HF.
  destruct (RUN (length ALL + 1) ws stop P0) as (st & ES & U & TT & _). exists st. split; [|split; [exact U|exact TT]].
  unfold search_run in *. unfold s in *. rewrite E in *. cbn [bind] in *. rewrite E4 in *. cbn [seq map] in *. replace fuel with ((fuel - (length ALL + 1)) + (length ALL + 1)) by lia. now apply more_fuel.
Qed.
End Search.

(* the full list does not depend on the way it is found *)
Lemma gives_unique sym s a b : search_gives sym s a -> search_gives sym s b -> a = b.
Proof.
  intros (n & Ha) (k & Hb). destruct (Ha (n + k) (fun _ => false)) as (st & E & _ & U); [lia|]. destruct (Hb (n + k) (fun _ => false)) as (st' & E' & _ & U'); [lia|].
  rewrite E in E'. injection E' as <-. destruct U as [<-|(? & _ & _ & K)]; [|discriminate]. destruct U' as [<-|(? & _ & _ & K)]; [|discriminate]. reflexivity.
Qed.
Lemma gives_vs sym m calls lo hi ig full : searchable m calls -> search_gives sym (mkSearch m calls lo hi ig) full ->
  exists vs, full = map (touch_of m calls) (flat_map (block (mkCtx lo hi ig [] [] [])) vs) /\ (forall e, In e vs <-> accepted m calls (mkCtx lo hi ig [] [] []) (fst e) (snd e)) /\ StronglySorted before vs.
Proof.
  intros OK G. destruct (search_all sym lo hi ig OK) as (n & vs & H & M & S). exists vs. split; [|split; [exact M|exact S]].
  apply (gives_unique G). exists n. intros fuel stop Hf. destruct (H fuel stop Hf) as (st & E & U & _). eauto.
Qed.
Lemma gives_ws sym m calls lo hi ig full : searchable m calls -> search_gives sym (mkSearch m calls lo hi ig) full ->
  exists ws, full = map (touch_of m calls) ws /\ forall w, In w ws <-> exists v cur k, accepted m calls (mkCtx lo hi ig [] [] []) v cur /\ k < turns (mkCtx lo hi ig [] [] []) (length v) cur /\ w = turn k v.
Proof.
  intros OK G. destruct (gives_vs OK G) as (vs & -> & M & _). eexists. split; [reflexivity|]. intros w. rewrite in_flat_map. unfold block. split.
  - intros ([v cur] & He & Hw). apply M in He. apply in_map_iff in Hw. destruct Hw as (k & <- & Hk). apply in_seq in Hk. cbn [fst snd] in *. exists v, cur, k. split; [exact He|]. split; [lia|reflexivity].
  - intros (v & cur & k & A & Hk & ->). exists (v, cur). split; [now apply M|]. apply in_map_iff. exists k. split; [reflexivity|]. apply in_seq. cbn [fst snd]. lia.
Qed.
Lemma touch_flat m calls w : flatten (touch_of m calls w) = changes_called m calls w.
Proof.
  unfold touch_of. cbn [flatten]. induction w as [|i w IH]; [reflexivity|]. cbn [map flat_map kid fst snd changes_called]. unfold times at 1. change (Z.to_nat 1) with 1. cbn [repeat concat]. rewrite app_nil_r, nd_flat. now rewrite IH.
Qed.

(* C36: whatever the outputer answers the search ends, and the touches it gives do not depend on the
   answers except that it stops when told to *)
Theorem C36_ends : forall sym m calls lo hi ig, searchable m calls -> exists full, search_gives sym (mkSearch m calls lo hi ig) full.
Proof.
  intros sym m calls lo hi ig OK. destruct (search_all sym lo hi ig OK) as (n & ws & H & _). exists (map (touch_of m calls) (flat_map (block (mkCtx lo hi ig [] [] [])) ws)), n.
  intros fuel stop Hf. destruct (H fuel stop Hf) as (st & E & U & _). eauto.
Qed.
Print Assumptions C36_ends.

(* every touch given is made of whole leads, as many as were asked for, each plain or called; it comes
   round at the end and no row is repeated *)
Theorem C36_sound : forall sym m calls lo hi ig full, searchable m calls -> search_gives sym (mkSearch m calls lo hi ig) full ->
  forall n, In n full -> exists w, calling calls w /\ w <> [] /\ flatten n = changes_called m calls w /\
    true_touch (mb m) (flatten n) /\ (lo <= Z.of_nat (length w) <= hi)%Z.
Proof.
  intros sym m calls lo hi ig full OK G n Hn. destruct (gives_ws OK G) as (ws & -> & M). apply in_map_iff in Hn. destruct Hn as (w' & <- & Hw).
  apply M in Hw. destruct Hw as (w & cur & k & A & Hk & ->). cbn [app] in *. destruct A as (Hne & Cw & K & _ & NF & ID & LH). cbn [cx_min cx_max] in LH.
  pose proof OK as (W & P & L & C & T & LT). pose proof (b255 W P L C) as B.
  assert (C' : calling calls (turn k w)). { unfold turn. apply Forall_app. rewrite <- (firstn_skipn k w) in Cw. apply Forall_app in Cw. tauto. }
  exists (turn k w). split; [exact C'|]. split; [intros E; apply (f_equal (@length _)) in E; rewrite turn_length in E; now destruct w|]. rewrite touch_flat. split; [reflexivity|]. split; [|now rewrite turn_length].
  unfold turn. rewrite changes_app. apply (true_turn B); rewrite <- changes_app, firstn_skipn; [apply (changes_on W P L C); exact Cw|]. apply (true_iff OK Cw). auto.
Qed.
Print Assumptions C36_sound.

(* a touch of a method of at least two changes can be iterated over, giving just those changes *)
Theorem C36_iterable : forall sym m calls lo hi ig full, searchable m calls -> 2 <= length (mch m) -> search_gives sym (mkSearch m calls lo hi ig) full ->
  forall n, In n full -> touch_changes (length (flatten n)) (Some n) = Ret (flatten n).
Proof.
  intros sym m calls lo hi ig full OK L2 G n Hn. apply C35_touch_iteration; [|lia]. destruct (gives_ws OK G) as (ws & -> & M). apply in_map_iff in Hn. destruct Hn as (w' & <- & Hw).
  apply M in Hw. destruct Hw as (w & cur & k & A & Hk & ->). cbn [app] in *. destruct A as (Hne & Cw & _).
  pose proof OK as (W & P & L & C & T & LT). assert (C' : calling calls (turn k w)). { unfold turn. apply Forall_app. rewrite <- (firstn_skipn k w) in Cw. apply Forall_app in Cw. tauto. }
  apply well_made_kids. apply Forall_forall. intros [z x] Hx. apply in_map_iff in Hx. destruct Hx as (i & E & Hi). injection E as <- <-.
  unfold calling in C'. rewrite Forall_forall in C'. specialize (C' i Hi). destruct (lead_is W P L C C') as (c & _ & _ & _ & LC).
  assert (NE : removelast (mch m) <> []). { destruct (mch m) as [|c1 [|c2 t]]; [cbn in L2; lia|cbn in L2; lia|discriminate]. }
  unfold lead_called in LC. apply app_inv_head in LC. unfold kid_ok. cbn [fst snd]. split; [unfold int_max; lia|]. split.
  - rewrite nd_flat. unfold lead_called. rewrite LC. now destruct (removelast (mch m)).
  - unfold nd. rewrite LC. cbn [well_made flatten]. unfold int_max. repeat split; try lia; [exact NE|discriminate].
Qed.
Print Assumptions C36_iterable.

(* when the search is over the touch object holds the last touch given *)
Theorem C36_last : forall sym m calls lo hi ig, searchable m calls -> exists n, forall fuel stop, n <= fuel ->
  exists st, search_run fuel sym (mkSearch m calls lo hi ig) stop = Ret st /\ (st_outs st <> [] -> last (st_outs st) (Changes []) = Children (st_tl st)).
Proof.
  intros sym m calls lo hi ig OK. destruct (search_all sym lo hi ig OK) as (n & ws & H & _). exists n. intros fuel stop Hf. destruct (H fuel stop Hf) as (st & E & _ & U). eauto.
Qed.
Print Assumptions C36_last.

(* C37: when rotations are not ignored every true calling whose length was asked for is given *)
Theorem C37_complete : forall sym m calls lo hi full, searchable m calls -> search_gives sym (mkSearch m calls lo hi false) full ->
  forall w, calling calls w -> w <> [] -> (lo <= Z.of_nat (length w) <= hi)%Z -> true_touch (mb m) (changes_called m calls w) ->
  exists n, In n full /\ flatten n = changes_called m calls w.
Proof.
  intros sym m calls lo hi full OK G w Cw Hne LH TT. destruct (gives_ws OK G) as (ws & -> & M). exists (touch_of m calls w). split; [|apply touch_flat]. apply in_map.
  apply M. pose proof OK as (W & P & L & C & T & LT). pose proof (b255 W P L C) as B.
  destruct (least_exists w) as (k & Hk & HL). set (v := turn k w) in *. destruct (@least_kept v HL v []) as (cur & K); [now rewrite app_nil_r|].
  assert (Lv : length v = length w) by apply turn_length. assert (Vne : v <> []) by (intros E; rewrite E in Lv; now destruct w).
  assert (D : length v mod cur = 0) by (now apply least_divides). pose proof (kept_le K) as [Kc Kp]. specialize (Kp Vne).
  exists v, cur. cbn [app].
  assert (Cv : calling calls v). { unfold v, turn. apply Forall_app. rewrite <- (firstn_skipn k w) in Cw. apply Forall_app in Cw. tauto. }
  assert (TV : true_touch (mb m) (changes_called m calls v)).
  { unfold v, turn. rewrite changes_app. apply (true_turn B); rewrite <- changes_app, firstn_skipn; [apply (changes_on W P L C); exact Cw|exact TT]. }
  apply (true_iff OK Cv) in TV. destruct TV as [ID NF]. exists ((length w - k) mod cur). split; [|split].
  - split; [exact Vne|]. split; [exact Cv|]. split; [exact K|]. split; [now apply least_really|]. split; [exact NF|]. split; [exact ID|]. cbn [cx_min cx_max]. now rewrite Lv.
  - unfold turns. cbn [cx_ignore]. rewrite D. cbn [Nat.eqb negb]. apply Nat.mod_divides in D; [|lia]. destruct D as (q & D). rewrite D. rewrite (Nat.mul_comm cur q), Nat.div_mul by lia.
    assert (q <> 0) by (intros ->; lia). rewrite (Nat.mul_comm q cur), Nat.div_mul by assumption. apply Nat.mod_upper_bound. lia.
  - rewrite <- (@kept_turn v cur (length w - k)) by (auto; lia). unfold v. rewrite turn_turn by lia. replace (length w - k + k) with (length w) by lia. rewrite Nat.mod_same by (now destruct w). symmetry. apply turn_0.
Qed.
Print Assumptions C37_complete.

(* when they are ignored, a rotation of it is given *)
Theorem C37_complete_up_to_rotation : forall sym m calls lo hi ig full, searchable m calls -> search_gives sym (mkSearch m calls lo hi ig) full ->
  forall w, calling calls w -> w <> [] -> (lo <= Z.of_nat (length w) <= hi)%Z -> true_touch (mb m) (changes_called m calls w) ->
  exists n k, In n full /\ k <= length w /\ flatten n = changes_called m calls (turn k w) /\ least (turn k w).
Proof.
  intros sym m calls lo hi ig full OK G w Cw Hne LH TT. destruct (gives_ws OK G) as (ws & -> & M). pose proof OK as (W & P & L & C & T & LT). pose proof (b255 W P L C) as B.
  destruct (least_exists w) as (k & Hk & HL). exists (touch_of m calls (turn k w)), k. split; [|split; [exact Hk|split; [apply touch_flat|exact HL]]]. apply in_map.
  apply M. set (v := turn k w) in *. destruct (@least_kept v HL v []) as (cur & K); [now rewrite app_nil_r|].
  assert (Lv : length v = length w) by apply turn_length. assert (Vne : v <> []) by (intros E; rewrite E in Lv; now destruct w). pose proof (kept_le K) as [Kc Kp]. specialize (Kp Vne).
  assert (D : length v mod cur = 0) by (now apply least_divides).
  assert (Cv : calling calls v). { unfold v, turn. apply Forall_app. rewrite <- (firstn_skipn k w) in Cw. apply Forall_app in Cw. tauto. }
  assert (TV : true_touch (mb m) (changes_called m calls v)).
  { unfold v, turn. rewrite changes_app. apply (true_turn B); rewrite <- changes_app, firstn_skipn; [apply (changes_on W P L C); exact Cw|exact TT]. }
  apply (true_iff OK Cv) in TV. destruct TV as [ID NF]. exists v, cur, 0. cbn [app]. split; [|split; [|now rewrite turn_0]].
  - split; [exact Vne|]. split; [exact Cv|]. split; [exact K|]. split; [now apply least_really|]. split; [exact NF|]. split; [exact ID|]. cbn [cx_min cx_max]. now rewrite Lv.
  - unfold turns. cbn [cx_ignore]. destruct ig; [lia|]. rewrite D. cbn [Nat.eqb negb]. apply Nat.mod_divides in D; [|lia]. destruct D as (q & D). rewrite D. rewrite (Nat.mul_comm cur q), Nat.div_mul by lia.
    assert (q <> 0) by (intros ->; lia). rewrite (Nat.mul_comm q cur), Nat.div_mul by assumption. lia.
Qed.
Print Assumptions C37_complete_up_to_rotation.

(* when they are ignored the callings come in alphabetical order, so none comes twice *)
Theorem C37_in_order : forall sym m calls lo hi full, searchable m calls -> search_gives sym (mkSearch m calls lo hi true) full ->
  exists ws, StronglySorted lex_lt ws /\ map flatten full = map (changes_called m calls) ws.
Proof.
  intros sym m calls lo hi full OK G. destruct (gives_vs OK G) as (vs & -> & _ & S). exists (map fst vs). split.
  - clear -S. induction S as [|e vs S IH F]; [constructor|]. cbn [map]. constructor; [exact IH|]. rewrite Forall_forall in *. intros x Hx. apply in_map_iff in Hx. destruct Hx as (y & <- & Hy). exact (F y Hy).
  - rewrite !map_map. transitivity (map (changes_called m calls) (flat_map (block (mkCtx lo hi true [] [] [])) vs)); [apply map_ext; intros w; apply touch_flat|]. clear S G. induction vs as [|[v cur] vs IH]; [reflexivity|]. cbn [flat_map]. rewrite map_app, IH. unfold block, turns. cbn [cx_ignore seq map app fst snd]. now rewrite turn_0.
Qed.
Print Assumptions C37_in_order.

(* when they are not, the touches come in groups: a calling and some rotations of it.  The callings that
   head the groups are in alphabetical order; a calling that is the least of its rotations comes with
   each different rotation once *)
Theorem C37_rotations : forall sym m calls lo hi full, searchable m calls -> search_gives sym (mkSearch m calls lo hi false) full ->
  exists vs : list (list nat * nat), StronglySorted (fun a b => lex_lt (fst a) (fst b)) vs /\
    map flatten full = flat_map (fun e => map (fun k => changes_called m calls (turn k (fst e))) (seq 0 (snd e))) vs /\
    forall v n, In (v, n) vs -> least v -> 0 < n /\ (forall i j, i < j < n -> turn i v <> turn j v) /\ (forall j, j <= length v -> exists i, i < n /\ turn j v = turn i v).
Proof.
  intros sym m calls lo hi full OK G. destruct (gives_vs OK G) as (vs & -> & M & S). set (cx := mkCtx lo hi false [] [] []) in *. exists (map (fun e => (fst e, turns cx (length (fst e)) (snd e))) vs). split; [|split].
  - clear -S. induction S as [|e vs S IH F]; [constructor|]. cbn [map]. constructor; [exact IH|]. rewrite Forall_forall in *. intros x Hx. apply in_map_iff in Hx. destruct Hx as (y & <- & Hy). exact (F y Hy).
  - rewrite map_map. transitivity (map (changes_called m calls) (flat_map (block cx) vs)); [apply map_ext; intros w; apply touch_flat|]. clear S M G. induction vs as [|[v cur] vs IH]; [reflexivity|]. cbn [flat_map map fst snd]. rewrite map_app, IH. f_equal. unfold block. rewrite map_map. reflexivity.
  - intros v n Hin HL. apply in_map_iff in Hin. destruct Hin as ([v' cur] & E & He). cbn [fst snd] in E. injection E as <- <-. apply M in He. cbn [fst snd] in He. destruct He as (Vne & Cv & K & _).
    pose proof (kept_le K) as [Kc Kp]. specialize (Kp Vne). assert (D : length v' mod cur = 0) by (now apply least_divides).
    assert (TN : turns cx (length v') cur = cur).
    { unfold turns. cbn [cx_ignore cx]. rewrite D. cbn [Nat.eqb negb]. apply Nat.mod_divides in D; [|lia]. destruct D as (q & D). rewrite D. rewrite (Nat.mul_comm cur q), Nat.div_mul by lia.
      assert (q <> 0) by (intros ->; lia). rewrite (Nat.mul_comm q cur), Nat.div_mul by assumption. reflexivity. }
    rewrite TN. split; [exact Kp|]. split.
    + intros i j Hij E. apply (f_equal (turn (length v' - i))) in E. rewrite !turn_turn in E by lia. replace (length v' - i + i) with (length v') in E by lia.
      replace (length v' - i + j) with ((j - i) + 1 * length v') in E by lia. rewrite Nat.mod_add in E by lia. rewrite Nat.mod_same in E by lia. rewrite (Nat.mod_small (j - i)) in E by lia. rewrite turn_0 in E.
      destruct (kept_tracked K) as [[-> _]|(_ & _ & Ab)]; [congruence|]. destruct (Ab (j - i) ltac:(lia)) as (x & Hx & Lx & _). apply (f_equal (fun l => nth x l 0)) in E. rewrite turn_nth in E by lia. rewrite Nat.mod_small in E by lia. lia.
    + intros j Hj. exists (j mod cur). split; [apply Nat.mod_upper_bound; lia|]. now apply kept_turn.
Qed.
Print Assumptions C37_rotations.

(* what a run tells *)
Lemma run_gives sym s f st full : search_run f sym s (fun _ => false) = Ret st -> search_gives sym s full -> full = st_outs st.
Proof.
  intros E (n & H). destruct (H (n + f) (fun _ => false)) as (st' & E' & _ & U); [lia|]. rewrite (@search_more _ _ _ f (n + f) _ ltac:(lia) E) in E'. injection E' as <-.
  destruct U as [<-|(? & _ & _ & K)]; [reflexivity|discriminate].
Qed.
Definition rows_differ (b : nat) (cs : list change) (n : nat) : bool := forallb (fun j => forallb (fun i => negb (row_eqb (row_of b (firstn i cs)) (row_of b (firstn j cs)))) (seq 0 j)) (seq 0 n).
Lemma rows_differ_ok b cs n : b <= 255 -> Forall (fun c => cn c = b /\ wf_change c) cs -> rows_differ b cs n = true ->
  forall i j r, i < j < n -> rung (id_row b) (firstn i cs) r -> ~ rung (id_row b) (firstn j cs) r.
Proof.
  intros B O H i j r Hij R1 R2. unfold rows_differ in H. rewrite forallb_forall in H. specialize (H j). rewrite forallb_forall in H. specialize (H ltac:(apply in_seq; lia) i ltac:(apply in_seq; lia)).
  rewrite rung_iff in R1, R2 by (auto; now apply on_b_firstn). rewrite <- R1, <- R2 in H. assert (X : row_eqb r r = true) by (now apply row_eqb_spec). rewrite X in H. discriminate.
Qed.

(* --- Plain Bob Minor with bobs and singles --- *)
Definition c6 (l : list nat) : change := mkChange 6 l.
Definition bob_minor : method := mkMethod (let x := c6 [0;2;4] in let h := c6 [1;3] in [x; h; x; h; x; h; x; h; x; h; x; c6 [2;4]]) 6.
Definition minor_calls : list change := [c6 [1;4]; c6 [4]].
Lemma bob_minor_ok : searchable bob_minor minor_calls.
Proof.
  assert (W : wf_method bob_minor). { split; [vm_compute; repeat constructor|]. split; [vm_compute; discriminate|]. repeat constructor; cbv; lia. }
  split; [exact W|]. split; [vm_compute; repeat constructor|]. split; [vm_compute; repeat constructor|]. split; [repeat constructor; cbv; lia|]. split.
  - intros i Hi. cbn [length minor_calls] in Hi. do 3 (destruct i as [|i]; [vm_compute; reflexivity|]). lia.
  - unfold lead_is_true. apply rows_differ_ok; [exact (proj1 W)|exact (proj2 (proj2 W))|vm_compute; reflexivity].
Qed.
Example C36_case : exists st, search_run 10 default_symtab (mkSearch bob_minor minor_calls 2 5 true) (fun _ => false) = Ret st /\ length (st_outs st) = 3.
Proof. eexists. split; [vm_compute; reflexivity|vm_compute; reflexivity]. Qed.
Definition outs_of (o : outcome sstate) : list node := match o with Ret st => st_outs st | _ => [] end.
Lemma run_outs sym s f full : search_gives sym s full -> (exists st, search_run f sym s (fun _ => false) = Ret st) -> full = outs_of (search_run f sym s (fun _ => false)).
Proof. intros G (st & E). rewrite E. exact (run_gives E G). Qed.
Definition is_ret {A} (o : outcome A) : bool := match o with Ret _ => true | _ => false end.
Lemma is_ret_ex A (o : outcome A) : is_ret o = true -> exists x, o = Ret x.
Proof. destruct o; try discriminate. eauto. Qed.

(* Though rotations are told apart, searching Plain Bob Minor with bobs and singles for nine leads
   gives a touch twice (a calling that is not least among its rotations passes the test) *)
Theorem C37_refuted_twice : forall full, search_gives default_symtab (mkSearch bob_minor minor_calls 9 9 false) full ->
  60 < 66 < length full /\ nth 60 full (Changes []) = nth 66 full (Changes []).
Proof.
  intros full G. rewrite (@run_outs _ _ 12 _ G) by (apply is_ret_ex; vm_compute; reflexivity). split; [|vm_compute; reflexivity].
  split; apply Nat.ltb_lt; vm_compute; reflexivity.
Qed.
Print Assumptions C37_refuted_twice.
(* and when they are to be ignored it gives two rotations of it *)
Theorem C37_refuted_rotations : forall full, search_gives default_symtab (mkSearch bob_minor minor_calls 9 9 true) full ->
  nth 7 full (Changes []) <> nth 8 full (Changes []) /\ exists w, flatten (nth 7 full (Changes [])) = changes_called bob_minor minor_calls w /\
    flatten (nth 8 full (Changes [])) = changes_called bob_minor minor_calls (turn 3 w).
Proof.
  intros full G. rewrite (@run_outs _ _ 12 _ G) by (apply is_ret_ex; vm_compute; reflexivity). split; [vm_compute; discriminate|].
  exists [0; 1; 1; 0; 1; 1; 0; 2; 2]. split; vm_compute; reflexivity.
Qed.
Print Assumptions C37_refuted_rotations.

(* The hypotheses on the method cannot be left out.  A lead with a repeated row: *)
Definition to_and_fro : method := mkMethod [mkChange 4 [0;2]; mkChange 4 [0;2]; mkChange 4 [0;2]; mkChange 4 [0;2]] 4.
Theorem C36_refuted_false_lead : (came_from (mch to_and_fro) 0 = 0 /\ wf_method to_and_fro) /\
  exists st, search_run 5 default_symtab (search_make to_and_fro [] true) (fun _ => false) = Ret st /\
    map flatten (st_outs st) = [mch to_and_fro] /\ ~ true_touch 4 (mch to_and_fro).
Proof.
  assert (W : wf_method to_and_fro). { split; [vm_compute; repeat constructor|]. split; [vm_compute; discriminate|]. repeat constructor; cbv; lia. }
  split; [split; [vm_compute; reflexivity|exact W]|]. eexists. split; [vm_compute; reflexivity|]. split; [vm_compute; reflexivity|].
  intros [_ T]. apply (T 0 2 (id_row 4)); [cbn; lia| |]; apply rung_iff; try lia; try (apply on_b_firstn; exact (proj2 (proj2 W))); vm_compute; reflexivity.
Qed.
Print Assumptions C36_refuted_false_lead.
(* a lead at whose end the treble does not lead: only false lead heads with the treble leading are looked for *)
Definition no_treble : method := mkMethod [mkChange 3 [1]; mkChange 3 [0]; mkChange 3 [1]] 3.
Theorem C36_refuted_moving_treble : (wf_method no_treble /\ lead_is_true no_treble) /\
  exists st, search_run 5 default_symtab (search_make no_treble [] true) (fun _ => false) = Ret st /\
    map flatten (st_outs st) = [mch no_treble ++ mch no_treble] /\ ~ true_touch 3 (mch no_treble ++ mch no_treble).
Proof.
  assert (W : wf_method no_treble). { split; [vm_compute; repeat constructor|]. split; [vm_compute; discriminate|]. repeat constructor; cbv; lia. }
  split; [split; [exact W|unfold lead_is_true; apply rows_differ_ok; [exact (proj1 W)|exact (proj2 (proj2 W))|vm_compute; reflexivity]]|].
  eexists. split; [vm_compute; reflexivity|]. split; [vm_compute; reflexivity|].
  assert (O : on_b 3 (mch no_treble ++ mch no_treble)) by (apply on_b_app; split; exact (proj2 (proj2 W))).
  intros [_ T]. apply (T 2 4 (row_of 3 (firstn 2 (mch no_treble ++ mch no_treble)))); [cbn; lia| |]; apply rung_iff; try lia; try (now apply on_b_firstn); vm_compute; reflexivity.
Qed.
Print Assumptions C36_refuted_moving_treble.
(* a method of one change: the touches given have children without changes, and cannot be iterated over *)
Definition one_change : method := mkMethod [mkChange 3 [1]] 3.
Theorem C36_refuted_one_change : searchable one_change [] /\ exists st n, search_run 5 default_symtab (search_make one_change [] true) (fun _ => false) = Ret st /\
  st_outs st = [n] /\ flatten n = mch one_change ++ mch one_change /\ forall fuel, touch_changes (S fuel) (Some n) = UB.
Proof.
  split.
  - assert (W : wf_method one_change). { split; [vm_compute; repeat constructor|]. split; [vm_compute; discriminate|]. repeat constructor; cbv; lia. }
    split; [exact W|]. split; [vm_compute; repeat constructor|]. split; [vm_compute; repeat constructor|]. split; [constructor|]. split.
    + intros i Hi. cbn in Hi. replace i with 0 by lia. vm_compute. reflexivity.
    + unfold lead_is_true. apply rows_differ_ok; [exact (proj1 W)|exact (proj2 (proj2 W))|vm_compute; reflexivity].
  - eexists. eexists. split; [vm_compute; reflexivity|]. split; [cbn [st_outs]; reflexivity|]. split; [vm_compute; reflexivity|]. intros fuel. reflexivity.
Qed.
Print Assumptions C36_refuted_one_change.
(* a method without changes *)
Theorem C36_refuted_empty : forall sym fuel calls lo hi ig b stop, search_run fuel sym (mkSearch (mkMethod [] b) calls lo hi ig) stop = UB.
Proof. reflexivity. Qed.
Print Assumptions C36_refuted_empty.
