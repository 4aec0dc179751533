(* P_Search2.v - rotations of words, and what the canonicity tests accept. *)
From Verif Require Import Base M_Row M_Search Spec_Extent Spec_Search P_Perm P_Extent P_Group P_Search.
Set Implicit Arguments.
Unset Strict Implicit.
Open Scope nat_scope.
Notation "w ! i" := (nth i w 0) (at level 9, i at level 9, format "w ! i").

Lemma lex_at : forall a b, length a = length b -> (lex_lt a b <-> exists i, i < length a /\ a!i < b!i /\ forall j, j < i -> a!j = b!j).
Proof.
  induction a as [|x a IH]; intros [|y b] L; try discriminate.
  - cbn. split; [intros []|intros (i & Hi & _); lia].
  - injection L as L. cbn [lex_lt]. rewrite (IH b L). split.
    + intros [H|[-> (i & Hi & Li & E)]].
      * exists 0. cbn. split; [lia|]. split; [exact H|lia].
      * exists (S i). cbn. split; [lia|]. split; [exact Li|]. intros [|j] Hj; [reflexivity|]. apply E. lia.
    + intros ([|i] & Hi & Li & E).
      * left. exact Li.
      * right. split; [exact (E 0 ltac:(lia))|]. exists i. cbn in Hi, Li. split; [lia|]. split; [exact Li|]. intros j Hj. exact (E (S j) ltac:(lia)).
Qed.
Lemma turn_length A k (w : list A) : length (turn k w) = length w.
Proof. unfold turn. rewrite app_length, skipn_length, firstn_length. lia. Qed.
Lemma nth_skipn A k (w : list A) i d : nth i (skipn k w) d = nth (k + i) w d.
Proof. revert w. induction k as [|k IH]; intros [|x w]; cbn; auto. destruct i; reflexivity. Qed.
Lemma nth_firstn_lt A k (w : list A) i d : i < k -> nth i (firstn k w) d = nth i w d.
Proof. revert w i. induction k as [|k IH]; intros [|x w] [|i] H; cbn; auto; try lia. apply IH. lia. Qed.
Lemma turn_nth A k (w : list A) i d : k <= length w -> i < length w -> nth i (turn k w) d = nth ((k + i) mod length w) w d.
Proof.
  intros Hk Hi. unfold turn. destruct (Nat.lt_ge_cases (k + i) (length w)) as [H|H].
  - rewrite app_nth1 by (rewrite skipn_length; lia). rewrite nth_skipn, Nat.mod_small by lia. reflexivity.
  - rewrite app_nth2 by (rewrite skipn_length; lia). rewrite skipn_length. rewrite nth_firstn_lt by lia.
    f_equal. replace (k + i) with ((i - (length w - k)) + 1 * length w) by lia. rewrite Nat.mod_add by lia. now rewrite Nat.mod_small by lia.
Qed.
Lemma list_nth_ext A (a b : list A) d : length a = length b -> (forall i, i < length a -> nth i a d = nth i b d) -> a = b.
Proof.
  revert b. induction a as [|x a IH]; intros [|y b] L H; try discriminate; [reflexivity|]. f_equal; [exact (H 0 ltac:(cbn; lia))|].
  apply IH; [now injection L|]. intros i Hi. exact (H (S i) ltac:(cbn; lia)).
Qed.
Lemma turn_turn A j k (w : list A) : j <= length w -> k <= length w -> turn j (turn k w) = turn ((j + k) mod length w) w.
Proof.
  intros Hj Hk. destruct w as [|x w]; [destruct j, k; reflexivity|]. set (l := x :: w) in *. assert (N : length l <> 0) by (cbn; lia).
  pose proof (Nat.mod_upper_bound (j + k) (length l) N) as M.
  apply (@list_nth_ext _ _ _ x); rewrite !turn_length; [reflexivity|]. intros i Hi.
  rewrite turn_nth by (rewrite turn_length; lia). rewrite turn_length. rewrite turn_nth by (try lia; now apply Nat.mod_upper_bound).
  rewrite turn_nth by lia. f_equal. rewrite Nat.add_mod_idemp_r, Nat.add_mod_idemp_l by exact N. f_equal. lia.
Qed.
Lemma turn_0 A (w : list A) : turn 0 w = w.
Proof. unfold turn. cbn. apply app_nil_r. Qed.

(* there is a least rotation *)
Lemma least_exists w : exists k, k <= length w /\ least (turn k w).
Proof.
  assert (G : forall l : list (list nat), l <> [] -> exists m, In m l /\ forall x, In x l -> ~ lex_lt x m).
  { induction l as [|a l IH]; [congruence|]. intros _. destruct l as [|b l].
    - exists a. split; [now left|]. intros x [<-|[]]. apply lex_irrefl.
    - destruct IH as (m & Hm & Lm); [discriminate|]. destruct (lex_total_all a m) as [E|[E|E]].
      + exists m. split; [now right|]. intros x [<-|Hx]; [|now apply Lm]. subst. apply lex_irrefl.
      + exists a. split; [now left|]. intros x [<-|Hx]; [apply lex_irrefl|]. intros K. apply (Lm x Hx). eapply lex_trans; eauto.
      + exists m. split; [now right|]. intros x [<-|Hx]; [|now apply Lm]. intros K. apply (@lex_irrefl m). eapply lex_trans; eauto. }
  destruct w as [|x w]; [exists 0; split; [lia|]; intros k Hk; cbn in Hk; lia|]. set (l := x :: w).
  destruct (G (map (fun k => turn k l) (seq 0 (length l)))) as (m & Hm & Lm); [discriminate|].
  apply in_map_iff in Hm. destruct Hm as (k & <- & Hk). apply in_seq in Hk. exists k. split; [lia|].
  intros j Hj. rewrite turn_length in Hj. rewrite turn_turn by lia. apply Lm. apply in_map_iff.
  exists ((j + k) mod length l). split; [reflexivity|]. apply in_seq. pose proof (Nat.mod_upper_bound (j + k) (length l)). lia.
Qed.

Lemma least_not_below w k : least w -> 0 < k -> below_at w (length w) k -> False.
Proof.
  intros H Hk (i & Hi & Li & E). apply (H k ltac:(lia)). apply lex_at; [apply turn_length|]. rewrite turn_length. exists i. split; [lia|].
  assert (T : forall j, k + j < length w -> (turn k w)!j = w!(k + j)). { intros j Hj. rewrite turn_nth by lia. now rewrite Nat.mod_small by lia. }
  rewrite T by lia. split; [exact Li|]. intros j Hj. rewrite T by lia. now apply E.
Qed.

(* the words whose beginnings all pass the first test, with what is remembered *)
Inductive kept : list nat -> nat -> Prop :=
| kept_nil : kept [] 0
| kept_snoc w cur c cur' : kept w cur -> is_possibly_canonical (w ++ [c]) cur = Ret (Some cur') -> kept (w ++ [c]) cur'.

Lemma tracked_ext w w' n cur : (forall i, i < n -> w!i = w'!i) -> tracked w n cur -> tracked w' n cur.
Proof.
  intros H (Hc & P & L). split; [exact Hc|]. split.
  - intros i Hi. rewrite <- !H by lia. now apply P.
  - intros k Hk. destruct (L k Hk) as (i & Hi & Li & E). exists i. split; [exact Hi|]. rewrite <- !H by lia. split; [exact Li|].
    intros j Hj. rewrite <- !H by lia. now apply E.
Qed.
Lemma app_nth_lt w c i : i < length w -> (w ++ [c])!i = w!i.
Proof. intros H. now apply app_nth1. Qed.
Lemma app_nth_last w c : (w ++ [c])!(length w) = c.
Proof. rewrite app_nth2, Nat.sub_diag by lia. reflexivity. Qed.
Lemma possibly_snoc w c cur : cur <= length w -> is_possibly_canonical (w ++ [c]) cur =
  if cur =? 0 then Ret (Some (S (length w))) else
  let prev := (w ++ [c])!(length w - cur) in
  if prev <? c then Ret (Some (S (length w))) else if c <? prev then Ret None else Ret (Some cur).
Proof.
  intros H. unfold is_possibly_canonical. destruct (w ++ [c]) as [|y z] eqn:Ez; [now destruct w|]. rewrite <- Ez. rewrite app_length. cbn [length].
  replace (length w + 1 - 1) with (length w) by lia. rewrite (@vget_lt _ _ _ 0) by (rewrite app_length; cbn; lia). cbn [bind]. rewrite app_nth_last.
  replace (length w + 1) with (S (length w)) by lia. destruct (Nat.eqb_spec cur 0) as [->|N]; [reflexivity|].
  destruct (Nat.leb_spec (S (length w)) cur) as [K|_]; [lia|]. rewrite (@vget_lt _ _ _ 0) by (rewrite app_length; cbn; lia). reflexivity.
Qed.
Lemma kept_tracked w cur : kept w cur -> (w = [] /\ cur = 0) \/ tracked w (length w) cur.
Proof.
  induction 1 as [|w cur c cur' K IH E]; [auto|]. right. rewrite app_length. cbn [length]. rewrite Nat.add_1_r.
  destruct IH as [[-> ->]|T].
  - cbn in E. injection E as <-. split; [cbn; lia|]. split; [cbn; lia|]. cbn. lia.
  - pose proof T as ((Hc & Hn) & _). rewrite possibly_snoc in E by exact Hn. destruct (Nat.eqb_spec cur 0) as [->|N]; [lia|]. cbn zeta in E.
    assert (T' : tracked (w ++ [c]) (length w) cur) by (apply (tracked_ext (w := w)); [intros i Hi; now rewrite app_nth_lt|exact T]).
    destruct (Nat.ltb_spec ((w ++ [c])!(length w - cur)) c) as [L|L].
    + injection E as <-. apply (tracked_up T'). now rewrite app_nth_last.
    + destruct (Nat.ltb_spec c ((w ++ [c])!(length w - cur))) as [L2|L2]; [discriminate|]. injection E as <-.
      apply (tracked_same T'). rewrite app_nth_last. lia.
Qed.
Lemma kept_le w cur : kept w cur -> cur <= length w /\ (w <> [] -> 0 < cur).
Proof. intros K. destruct (kept_tracked K) as [[-> ->]|(H & _)]; [split; [lia|congruence]|lia]. Qed.

(* a least word is kept *)
Lemma least_kept w : least w -> forall u v, w = u ++ v -> exists cur, kept u cur.
Proof.
  intros HL. induction u as [|c u IH] using rev_ind; intros v E; [exists 0; constructor|].
  destruct (IH (c :: v)) as (cur & K); [rewrite E, <- app_assoc; reflexivity|]. pose proof (kept_le K) as [Hn Hpos].
  destruct (is_possibly_canonical (u ++ [c]) cur) as [o| | |] eqn:P; rewrite (possibly_snoc c Hn) in P.
  - destruct o as [cur'|]; [exists cur'; apply (kept_snoc K); now rewrite (possibly_snoc c Hn)|exfalso].
    destruct (Nat.eqb_spec cur 0) as [->|N]; [discriminate|]. cbn zeta in P. destruct (Nat.ltb_spec ((u ++ [c])!(length u - cur)) c) as [L|L]; [discriminate|].
    destruct (Nat.ltb_spec c ((u ++ [c])!(length u - cur))) as [L2|L2]; [|discriminate].
    destruct (kept_tracked K) as [[_ ->]|T]; [contradiction|].
    assert (X : forall i, i < S (length u) -> w!i = (u ++ [c])!i) by (intros i Hi; rewrite E; apply app_nth1; rewrite app_length; cbn; lia).
    assert (T' : tracked w (length u) cur) by (apply (tracked_ext (w := u)); [intros i Hi; rewrite X by lia; now rewrite app_nth_lt|exact T]).
    pose proof (@tracked_not_down w (length u) cur T') as B. rewrite !X in B by lia. rewrite app_nth_last in B. specialize (B L2).
    apply (@least_not_below w cur HL ltac:(lia)). destruct B as (i & Hi & R). exists i. split; [|exact R].
    rewrite E, !app_length. cbn. lia.
  - exfalso. destruct (cur =? 0); [discriminate|]. cbn zeta in P. destruct (_ <? _); [discriminate|]. destruct (_ <? _); discriminate.
  - exfalso. destruct (cur =? 0); [discriminate|]. cbn zeta in P. destruct (_ <? _); [discriminate|]. destruct (_ <? _); discriminate.
  - exfalso. destruct (cur =? 0); [discriminate|]. cbn zeta in P. destruct (_ <? _); [discriminate|]. destruct (_ <? _); discriminate.
Qed.
Lemma least_divides w cur : least w -> kept w cur -> w <> [] -> length w mod cur = 0.
Proof.
  intros HL K Hw. destruct (kept_tracked K) as [[-> _]|T]; [congruence|]. destruct (Nat.eq_dec (length w mod cur) 0) as [E|N]; [exact E|exfalso].
  destruct (tracked_divides T N) as (k & Hk & E & (i & Hi & Li & Ei)). apply (HL k ltac:(lia)).
  apply lex_at; [apply turn_length|]. rewrite turn_length. exists (length w - k + i). split; [exact Hi|].
  assert (T1 : forall j, j < length w - k -> (turn k w)!j = w!j). { intros j Hj. rewrite turn_nth by lia. rewrite Nat.mod_small by lia. apply E. lia. }
  assert (T2 : forall j, length w - k + j < length w -> (turn k w)!(length w - k + j) = w!j).
  { intros j Hj. rewrite turn_nth by lia. replace (k + (length w - k + j)) with (j + 1 * length w) by lia. rewrite Nat.mod_add by lia. now rewrite Nat.mod_small by lia. }
  rewrite T2 by lia. split; [exact Li|]. intros j Hj. destruct (Nat.lt_ge_cases j (length w - k)) as [H|H]; [now apply T1|].
  replace j with (length w - k + (j - (length w - k))) by lia. rewrite T2 by lia. symmetry. apply Ei. lia.
Qed.
Lemma kept_turn w cur j : kept w cur -> w <> [] -> length w mod cur = 0 -> j <= length w -> turn j w = turn (j mod cur) w.
Proof.
  intros K Hw D Hj. destruct (kept_tracked K) as [[-> _]|((Hc & Hn) & P & _)]; [congruence|]. pose proof (period_mod Hc P) as PM.
  assert (Hm : j mod cur < cur) by (apply Nat.mod_upper_bound; lia).
  apply (@list_nth_ext _ _ _ 0); rewrite !turn_length; [reflexivity|]. intros i Hi. rewrite !turn_nth by lia.
  assert (R : forall x, x < length w -> w!x = w!(x mod cur)).
  { intros x Hx. rewrite (Nat.div_mod x cur) at 1 by lia. rewrite (Nat.mul_comm cur). apply PM. rewrite (Nat.mul_comm _ cur), <- Nat.div_mod by lia. exact Hx. }
  apply Nat.mod_divides in D; [|lia]. destruct D as (q & D).
  assert (M : forall x, (x mod length w) mod cur = x mod cur). { intros x. rewrite D. destruct (Nat.eq_dec q 0) as [->|Nq]; [lia|]. rewrite Nat.mod_mul_r by lia.
    rewrite (Nat.mul_comm cur (_ mod q)), Nat.mod_add by lia. now apply Nat.mod_mod; lia. }
  assert (L0 : length w <> 0) by lia.
  rewrite R by (now apply Nat.mod_upper_bound). rewrite (R ((j mod cur + i) mod length w)) by (now apply Nat.mod_upper_bound). rewrite !M.
  now rewrite Nat.add_mod_idemp_l by lia.
Qed.
Lemma least_first w x : least w -> In x w -> w!0 <= x.
Proof.
  intros HL Hx. apply (In_nth _ _ 0) in Hx. destruct Hx as (k & Hk & <-). destruct (Nat.le_gt_cases (w!0) (w!k)) as [H|H]; [exact H|exfalso].
  destruct k as [|k]; [lia|]. apply (@least_not_below w (S k) HL ltac:(lia)). exists 0. rewrite Nat.add_0_r. split; [exact Hk|]. split; [exact H|lia].
Qed.
Lemma least_really w : least w -> is_really_canonical w = true.
Proof.
  intros HL. unfold is_really_canonical. destruct w as [|a w]; [reflexivity|]. set (l := a :: w) in *.
  destruct (existsb (fun x => negb (x =? a)) l) eqn:Ex; [|reflexivity]. apply negb_true_iff, Nat.eqb_neq. intros El.
  assert (Hl : l!(length l - 1) = a). { transitivity (last l a); [|exact El]. unfold l. clear. revert a. assert (G : forall d (x : list nat), x <> [] -> nth (length x - 1) x 0 = last x d); [|intros a; now apply G]. intros d x. induction x as [|b x IH]; [congruence|]. intros _. destruct x as [|c x]; [reflexivity|]. specialize (IH ltac:(discriminate)). cbn [length last] in *. rewrite <- IH. cbn [Nat.sub nth]. now rewrite !Nat.sub_0_r. }
  assert (A : forall i, i < length l -> l!i = a).
  { intros i. induction i as [i IH] using lt_wf_ind. intros Hi. destruct (Nat.eq_dec i 0) as [->|Ni]; [reflexivity|].
    assert (G : a <= l!i) by (apply (@least_first l); [exact HL|now apply nth_In]). destruct (Nat.eq_dec (l!i) a) as [E|N]; [exact E|exfalso].
    apply (HL (length l - 1)); [lia|]. apply lex_at; [apply turn_length|]. rewrite turn_length. exists i. split; [exact Hi|].
    assert (T : forall j, 0 < j < length l -> (turn (length l - 1) l)!j = l!(j - 1)).
    { intros j Hj. rewrite turn_nth by lia. replace (length l - 1 + j) with ((j - 1) + 1 * length l) by lia. rewrite Nat.mod_add by lia. now rewrite Nat.mod_small by lia. }
    split.
    - rewrite T by lia. rewrite IH by lia. lia.
    - intros j Hj. destruct (Nat.eq_dec j 0) as [->|Nj].
      + rewrite turn_nth by lia. rewrite Nat.add_0_r, Nat.mod_small by lia. rewrite Hl. symmetry. apply IH; lia.
      + rewrite T by lia. rewrite !IH by lia. reflexivity. }
  apply existsb_exists in Ex. destruct Ex as (x & Hx & Ne). apply (In_nth _ _ 0) in Hx. destruct Hx as (i & Hi & <-). rewrite A in Ne by exact Hi. now rewrite Nat.eqb_refl in Ne.
Qed.
