(* P_Change3.v - places, findplace, findswap, bell*=change, reverse. *)
From Verif Require Import Base M_Bell M_Math M_Change M_Row Spec_Row Spec_Change P_Row P_Bell P_Change P_Change2.
Set Implicit Arguments.
Unset Strict Implicit.

Lemma findswap_spec c i : wf_change c -> findswap c i = true <-> In i (cswaps c).
Proof.
  intros W. unfold findswap. destruct (Nat.eqb_spec (cn c) 0) as [Z|Z].
  - split; [discriminate|]. intros H. apply (pairs_ok_in W) in H. lia.
  - unfold wf_change in W. revert W. generalize 0.
    induction (cswaps c) as [|s t IH]; intros lo W; cbn [findswap_loop]; [cbn; split; [discriminate|tauto]|].
    destruct W as (W1 & W2 & W3). destruct (Nat.leb_spec s i) as [H|H].
    + destruct (Nat.eqb_spec s i) as [E|E]; [cbn; tauto|].
      rewrite (IH _ W3). cbn. split; [tauto|intros [?|?]; [congruence|assumption]].
    + split; [discriminate|]. intros [E|Hi]; [lia|]. apply (pairs_ok_in W3) in Hi. lia.
Qed.

Lemma findplace_spec c i : wf_change c -> findplace c i = true <-> place_made c i.
Proof.
  intros W. unfold findplace, place_made. destruct (Nat.eqb_spec (cn c) 0) as [Z|Z].
  - split; auto. intros _.
    assert (E : forall j, ~ In j (cswaps c)) by (intros j H; apply (pairs_ok_in W) in H; lia).
    split; auto.
  - unfold wf_change in W. revert W. generalize 0 at 1.
    induction (cswaps c) as [|s t IH]; intros lo W; cbn [findplace_loop].
    + cbn. tauto.
    + destruct W as (W1 & W2 & W3). destruct (Nat.leb_spec s i) as [H|H].
      * destruct (Nat.eqb_spec s i) as [E|E]; cbn [orb].
        { split; [discriminate|]. intros [X _]. destruct X. now left. }
        destruct (Nat.eqb_spec (S s) i) as [E'|E'].
        { split; [discriminate|]. intros [_ [X|X]]; [lia|]. destruct X. left. lia. }
        rewrite (IH _ W3). cbn. split.
        -- intros [A [B|B]]; split; try lia; [intros [?|?]; [congruence|contradiction]|].
           right. intros [?|?]; [lia|contradiction].
        -- intros [A [B|B]]; split; try tauto.
      * split; auto. intros _. split.
        -- intros [E|Hi]; [lia|]. apply (pairs_ok_in W3) in Hi. lia.
        -- destruct (Nat.eq_dec i 0); [now left|]. right.
           intros [E|Hi]; [lia|]. apply (pairs_ok_in W3) in Hi. lia.
Qed.

Lemma pls_in lo n l p : pairs_ok lo n l ->
  In p (pls lo n l) <-> lo <= p < n /\ ~ In p l /\ (p = 0 \/ ~ In (p - 1) l).
Proof.
  revert lo; induction l as [|s t IH]; intros lo W; cbn [pls].
  - rewrite in_seq. cbn. split; [intros H; split; [lia|tauto]|lia].
  - destruct W as (W1 & W2 & W3). rewrite in_app_iff, in_seq, (IH _ W3).
    assert (Bt : forall j, In j t -> s + 2 <= j) by (intros j Hj; apply (pairs_ok_in W3 Hj)).
    cbn. split.
    + intros [H|(A & B & C)].
      * split; [lia|]. split; [intros [E|Hi]; [lia|apply Bt in Hi; lia]|].
        right. intros [E|Hi]; [lia|apply Bt in Hi; lia].
      * split; [lia|]. split; [intros [E|Hi]; [lia|contradiction]|].
        destruct C as [C|C]; [lia|]. right. intros [E|Hi]; [lia|contradiction].
    + intros (A & B & C).
      destruct (le_lt_dec s p) as [H|H]; [|left; lia].
      right. destruct (Nat.eq_dec p s) as [->|E]; [destruct B; now left|].
      destruct (Nat.eq_dec p (s + 1)) as [->|E2].
      { destruct C as [C|C]; [lia|]. destruct C. left. lia. }
      split; [lia|]. split; [tauto|]. tauto.
Qed.

Lemma seq_sorted lo k : StronglySorted lt (seq lo k).
Proof.
  revert lo; induction k as [|k IH]; intros lo; cbn; constructor; auto.
  apply Forall_forall. intros x Hx. apply in_seq in Hx. lia.
Qed.

Lemma sorted_app (l1 l2 : list nat) : StronglySorted lt l1 -> StronglySorted lt l2 ->
  (forall x y, In x l1 -> In y l2 -> x < y) -> StronglySorted lt (l1 ++ l2).
Proof.
  induction l1 as [|a t IH]; cbn [app]; intros H1 H2 H; auto.
  apply StronglySorted_inv in H1. destruct H1 as [H1 Ha]. constructor.
  - apply IH; auto. intros x y Hx Hy. apply H; [now right|exact Hy].
  - apply Forall_app. split; auto. apply Forall_forall. intros y Hy. apply H; [now left|exact Hy].
Qed.

Lemma pls_sorted lo n l : pairs_ok lo n l -> StronglySorted lt (pls lo n l).
Proof.
  revert lo; induction l as [|s t IH]; intros lo W; cbn [pls]; [apply seq_sorted|].
  destruct W as (W1 & W2 & W3). apply sorted_app; auto; [apply seq_sorted|].
  intros x y Hx Hy. apply in_seq in Hx. apply (pls_in _ W3) in Hy. lia.
Qed.

Lemma places_spec c : cn c <= 255 -> wf_change c ->
  exists pl, places c = Ret pl /\ StronglySorted lt pl /\
    count_places c = Ret (length pl) /\
    forall i, In i pl <-> i < cn c /\ place_made c i.
Proof.
  intros Hn W. exists (pls 0 (cn c) (cswaps c)). unfold count_places.
  rewrite places_pls by auto. split; [reflexivity|]. split; [now apply pls_sorted|].
  split; [reflexivity|]. intros i. rewrite (pls_in _ W). unfold place_made. split; intros H; [|split; [lia|tauto]].
  split; [lia|tauto].
Qed.

Lemma bell_mul_spec c b : wf_change c -> cn c <= 256 -> bell_mul b c = swap_pos (cswaps c) b.
Proof.
  intros W Hn. unfold bell_mul, wf_change in *. 
  assert (G : forall l lo b, pairs_ok lo (cn c) l -> bell_mul_loop l b = swap_pos l b).
  { induction l as [|s t IH]; intros lo i V; cbn [bell_mul_loop]; [now rewrite swap_pos_nil|].
    assert (V' := V). destruct V as (W1 & W2 & W3).
    assert (Bt : forall j, In j t -> s + 2 <= j) by (intros j Hj; apply (pairs_ok_in W3 Hj)).
    destruct (Nat.leb_spec s i) as [H|H].
    - rewrite <- (tau_swap_pos i W3). rewrite (IH _ _ W3).
      assert (O : forall j, j <= s + 1 -> swap_pos t j = j).
      { intros j Hj. apply swap_pos_out; [intros X; apply Bt in X; lia|].
        destruct (Nat.eq_dec j 0); [now left|]. right. intros X; apply Bt in X; lia. }
      unfold tau. destruct (Nat.eqb_spec (S s) i) as [E|E].
      + rewrite (O (i - 1)), (O i) by lia. destruct (Nat.eqb_spec i s); [lia|].
        destruct (Nat.eqb_spec i (s + 1)); lia.
      + destruct (Nat.eqb_spec s i) as [E'|E'].
        * subst i. rewrite b8_small by lia. rewrite (O (s + 1)), (O s) by lia.
          rewrite Nat.eqb_refl. reflexivity.
        * assert (X : s + 2 <= swap_pos t i).
          { destruct (swap_pos_cases i W3) as [[? E1]|[(j & -> & Hj & E1)|(? & ? & E1)]]; rewrite E1; try lia.
            now apply Bt. }
          destruct (Nat.eqb_spec (swap_pos t i) s); [lia|].
          destruct (Nat.eqb_spec (swap_pos t i) (s + 1)); lia.
    - symmetry. apply swap_pos_out.
      + intros [X|X]; [lia|]. apply Bt in X. lia.
      + destruct (Nat.eq_dec i 0); [now left|]. right.
        intros [X|X]; [lia|]. apply Bt in X. lia. }
  now apply (G _ 0).
Qed.

Lemma bell_follows_row r r' c b : row256 r -> wf_change c -> cn c <= 256 ->
  row_mul_change r c = Ret r' -> act r' (bell_mul b c) = act r b.
Proof.
  intros Hr W Hc E. destruct (row_mul_change_spec Hr W Hc) as (r2 & E2 & _ & _ & A).
  rewrite E in E2. inversion E2; subst r2. rewrite A, bell_mul_spec by auto.
  now rewrite (swap_pos_invol _ W).
Qed.

(* the places between which pairs are exchanged, on the row *)
Lemma findswap_row c i r r' : wf_change c -> cn c <= 256 -> row256 r -> i + 1 < cn c ->
  row_mul_change r c = Ret r' ->
  findswap c i = true <-> (act r' i = act r (i + 1) /\ act r' (i + 1) = act r i).
Proof.
  intros W Hc Hr Hi E. destruct (row_mul_change_spec Hr W Hc) as (r2 & E2 & _ & _ & A).
  rewrite E in E2. inversion E2; subst r2. rewrite (findswap_spec _ W), !A. split.
  - intros H. rewrite (swap_pos_in H), (swap_pos_in2 W H). auto.
  - intros [H1 H2]. destruct Hr as [Pr _]. apply (act_inj Pr) in H1.
    destruct (swap_pos_cases i W) as [[? ?]|[(j & -> & ? & ?)|(? & ? & ?)]]; auto; lia.
Qed.

Lemma findplace_row c i r r' : wf_change c -> cn c <= 256 -> row256 r ->
  row_mul_change r c = Ret r' ->
  findplace c i = true <-> act r' i = act r i.
Proof.
  intros W Hc Hr E. destruct (row_mul_change_spec Hr W Hc) as (r2 & E2 & _ & _ & A).
  rewrite E in E2. inversion E2; subst r2. rewrite (findplace_spec _ W), !A. unfold place_made. split.
  - intros [H1 H2]. now rewrite (swap_pos_out H1 H2).
  - intros H1. destruct Hr as [Pr _]. apply (act_inj Pr) in H1.
    destruct (swap_pos_cases i W) as [[? ?]|[(j & -> & ? & ?)|(? & ? & ?)]]; auto; lia.
Qed.

Lemma reverse_in c j : cn c <= 257 -> wf_change c -> j + 2 <= cn c ->
  In j (cswaps (change_reverse c)) <-> In (cn c - 2 - j) (cswaps c).
Proof.
  intros Hn W Hj. cbn [cswaps change_reverse]. rewrite in_map_iff. split.
  - intros (s & E & Hs). apply in_rev in Hs. generalize (pairs_ok_in W Hs). intros B.
    rewrite Z.mod_small in E by lia. replace (cn c - 2 - j) with s by lia. exact Hs.
  - intros H. exists (cn c - 2 - j). split; [|now apply in_rev in H || (rewrite <- in_rev; exact H)].
    rewrite Z.mod_small by lia. lia.
Qed.

Lemma reverse_reverse c : cn c <= 257 -> wf_change c -> change_reverse (change_reverse c) = c.
Proof.
  intros Hn W. unfold change_reverse. cbn [cn cswaps]. rewrite <- map_rev, map_map, rev_involutive.
  destruct c as [n l]. cbn in *. f_equal. rewrite <- (map_id l) at 2. apply map_ext_in.
  intros s Hs. generalize (pairs_ok_in W Hs). cbn. intros B.
  rewrite (Z.mod_small (Z.of_nat n - 2 - Z.of_nat s)) by lia.
  rewrite Z2Nat.id by lia. rewrite Z.mod_small by lia. lia.
Qed.

Lemma reverse_swap_pos c i : cn c <= 257 -> wf_change c -> i < cn c ->
  swap_pos (cswaps (change_reverse c)) (cn c - 1 - i) = cn c - 1 - swap_pos (cswaps c) i.
Proof.
  intros Hn W Hi. generalize (reverse_wf Hn W). intros W'.
  generalize (reverse_reverse Hn W). intros RR.
  destruct (swap_pos_cases i W) as [[H E]|[(j & -> & H & E)|(H1 & H2 & E)]]; rewrite E.
  - generalize (pairs_ok_in W H). intros B.
    assert (H' : In (cn c - 2 - i) (cswaps (change_reverse c))).
    { apply reverse_in; auto; [lia|]. replace (cn c - 2 - (cn c - 2 - i)) with i by lia. exact H. }
    replace (cn c - 1 - i) with ((cn c - 2 - i) + 1) by lia.
    rewrite (swap_pos_in2 W' H'). lia.
  - generalize (pairs_ok_in W H). intros B.
    assert (H' : In (cn c - 2 - j) (cswaps (change_reverse c))).
    { apply reverse_in; auto; [lia|]. replace (cn c - 2 - (cn c - 2 - j)) with j by lia. exact H. }
    replace (cn c - 1 - (j + 1)) with (cn c - 2 - j) by lia.
    rewrite (swap_pos_in H'). lia.
  - apply swap_pos_out.
    + intros X. assert (B : cn c - 1 - i + 2 <= cn c).
      { generalize (pairs_ok_in W' X). cbn. lia. }
      apply reverse_in in X; auto. replace (cn c - 2 - (cn c - 1 - i)) with (i - 1) in X by lia.
      destruct H2; [lia|contradiction].
    + destruct (Nat.eq_dec (cn c - 1 - i) 0); [now left|]. right. intros X.
      apply reverse_in in X; auto; [|lia].
      replace (cn c - 2 - (cn c - 1 - i - 1)) with i in X by lia. contradiction.
Qed.

Lemma internal_spec c : wf_change c -> 
  internal c = true <-> exists i, 0 < i /\ i + 1 < cn c /\ place_made c i.
Proof.
  intros W. unfold internal. destruct (Nat.ltb_spec (cn c) 3) as [H3|H3].
  { split; [discriminate|]. intros (i & A & B & C). exfalso.
    lia. }
  unfold place_made, wf_change in *. destruct (cswaps c) as [|s0 t].
  { split; auto. intros _. exists 1. split; [lia|]. split; [lia|]. cbn. tauto. }
  destruct W as (W1 & W2 & W3).
  assert (Bt : forall j, In j t -> s0 + 2 <= j) by (intros j Hj; apply (pairs_ok_in W3 Hj)).
  destruct (Nat.ltb_spec 1 s0) as [H|H].
  { split; auto. intros _. exists 1. split; [lia|]. split; [lia|].
    split; [intros [X|X]; [lia|apply Bt in X; lia]|]. right.
    intros [X|X]; [lia|apply Bt in X; lia]. }
  assert (G : forall t s, pairs_ok (s + 2) (cn c) t -> s + 2 <= cn c ->
    (if internal_loop s t then true else (3 <? Z.of_nat (cn c) - Z.of_nat (last (s :: t) 0%nat))%Z) = true <->
    exists i, s + 2 <= i /\ i + 1 < cn c /\ ~ In i (s :: t) /\ ~ In (i - 1) (s :: t)).
  { clear. induction t as [|a t IH]; intros s W Hs; cbn [internal_loop].
    - cbn [last]. rewrite Z.ltb_lt. split.
      + intros X. exists (s + 2). cbn. split; [lia|]. split; [lia|]. lia.
      + intros (i & A & B & _). lia.
    - destruct W as (W1 & W2 & W3).
      assert (Bt : forall j, In j t -> a + 2 <= j) by (intros j Hj; apply (pairs_ok_in W3 Hj)).
      destruct (Z.ltb_spec 2 (Z.of_nat a - Z.of_nat s)) as [X|X].
      + split; auto. intros _. exists (s + 2). split; [lia|]. split; [lia|].
        split; intros [Y|[Y|Y]]; try lia; apply Bt in Y; lia.
      + change (last (s :: a :: t) 0) with (last (a :: t) 0). rewrite (IH a W3) by lia.
        assert (a = s + 2) by lia. split.
        * intros (i & A & B & C & D). exists i. split; [lia|]. split; [lia|].
          split; intros [Y|Y]; try lia; contradiction.
        * intros (i & A & B & C & D). 
          assert (i <> a) by (intros ->; apply C; right; now left).
          assert (i - 1 <> a) by (intros E; apply D; right; now left).
          exists i. split; [lia|]. split; [lia|]. split; [intros Y; apply C; now right|intros Y; apply D; now right]. }
  rewrite (G t s0 W3) by lia. split.
  - intros (i & A & B & C & D). exists i. split; [lia|]. split; [lia|]. split; auto.
  - intros (i & A & B & C & D). exists i.
    assert (i <> s0) by (intros ->; apply C; now left).
    destruct D as [D|D]; [lia|]. assert (i - 1 <> s0) by (intros E; apply D; now left).
    split; [lia|]. split; [lia|]. split; auto.
Qed.
