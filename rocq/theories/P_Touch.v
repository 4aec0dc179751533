(* P_Touch.v - proofs about blocks of rows and touches. *)
From Verif Require Import Base M_Bell M_Change M_Row M_Touch Spec_Row Spec_Change Spec_Touch P_Row P_Change2.
Set Implicit Arguments.
Unset Strict Implicit.
Open Scope nat_scope.

Lemma nth_skipn_d A (l : list A) k i d : nth i (skipn k l) d = nth (k + i) l d.
Proof. revert k. induction l as [|a l IH]; intros [|k]; cbn; auto. destruct i; reflexivity. Qed.
Lemma nth_firstn_d A (l : list A) k i d : i < k -> nth i (firstn k l) d = nth i l d.
Proof. revert k i. induction l as [|a l IH]; intros [|k] [|i] H; cbn; auto; try lia. apply IH. lia. Qed.

(* --- row_block --- *)
Lemma came_from_snoc cs c i : came_from (cs ++ [c]) i = came_from cs (swap_pos (cswaps c) i).
Proof. unfold came_from. now rewrite fold_right_app. Qed.
Lemma widest_snoc cs c : widest (cs ++ [c]) = Nat.max (widest cs) (cn c).
Proof. unfold widest. induction cs as [|a cs IH]; cbn; [lia|]. rewrite IH. lia. Qed.


Lemma rung_nil r : row256 r -> rung r [] r.
Proof. intros H. split; auto. split; [cbn; lia|reflexivity]. Qed.
Lemma rung_snoc r cs r1 c : rung r cs r1 -> ok_change c ->
  exists r2, row_mul_change r1 c = Ret r2 /\ rung r (cs ++ [c]) r2.
Proof.
  intros (V & L & A) [W B]. destruct (row_mul_change_spec V W B) as (r2 & E & V2 & L2 & A2).
  exists r2. split; auto. split; auto. split.
  - rewrite L2, L, widest_snoc. lia.
  - intros i. now rewrite A2, A, came_from_snoc.
Qed.
Lemma rung_unique r cs a b : rung r cs a -> rung r cs b -> a = b.
Proof.
  intros (V1 & L1 & A1) (V2 & L2 & A2). apply act_ext; [congruence|]. intros i _. now rewrite A1, A2.
Qed.

Lemma firstn_snoc A (l : list A) k d : k < length l -> firstn (S k) l = firstn k l ++ [nth k l d].
Proof.
  revert k. induction l as [|a l IH]; intros k H; cbn in *; [lia|]. destruct k; cbn; [reflexivity|].
  f_equal. apply IH. lia.
Qed.

(* rows from k on are recomputed from row k *)
Lemma recalculate_spec b k : k < length (rb_rows b) -> length (rb_rows b) <= length (rb_ch b) + 1 ->
  Forall ok_change (rb_ch b) -> row256 (nth k (rb_rows b) []) ->
  exists b', recalculate b k = Ret b' /\ rb_ch b' = rb_ch b /\ length (rb_rows b') = length (rb_rows b) /\
    firstn (S k) (rb_rows b') = firstn (S k) (rb_rows b) /\
    forall j, k <= j < length (rb_rows b) ->
      rung (nth k (rb_rows b) []) (firstn (j - k) (skipn k (rb_ch b))) (nth j (rb_rows b') []).
Proof.
  intros Hk Hl Hc Hr. unfold recalculate, forN. set (rows := rb_rows b) in *. set (ch := rb_ch b) in *.
  set (body := fun (rows : list row) s => _).
  assert (G : forall m, m <= length rows - 1 - k -> exists rows',
     forM (seq k m) body rows = Ret rows' /\ length rows' = length rows /\ firstn (S k) rows' = firstn (S k) rows /\
     forall j, k <= j <= k + m -> rung (nth k rows []) (firstn (j - k) (skipn k ch)) (nth j rows' [])).
  { induction m as [|m IH]; intros Hm.
    - exists rows. cbn [seq forM]. do 3 (split; [reflexivity|]). intros j Hj. replace j with k by lia. rewrite Nat.sub_diag.
      now apply rung_nil.
    - destruct IH as (rows1 & E & L & F & R); [lia|].
      rewrite seq_S, forM_app, E. cbn [bind forM]. unfold body at 1.
      assert (Hn : k + m < length ch) by lia.
      rewrite (@vget_lt row _ _ []) by lia. cbn [bind]. rewrite (@vget_lt _ _ _ (change_empty 0)) by lia. cbn [bind].
      assert (Hok : ok_change (nth (k + m) ch (change_empty 0))) by (eapply Forall_forall; [exact Hc|]; apply nth_In; lia).
      destruct (@rung_snoc _ _ _ _ (R (k + m) ltac:(lia)) Hok) as (r2 & E2 & R2). rewrite E2. cbn [bind].
      rewrite vset_lt by lia. cbn [bind]. eexists. split; [reflexivity|]. split; [|split].
      + rewrite upd_length; lia.
      + rewrite <- F. apply (nth_ext_d _ _ []); rewrite !firstn_length, upd_length by lia; [reflexivity|].
        intros i Hi. rewrite !nth_firstn_d by lia. rewrite nth_upd by lia. destruct (Nat.eqb_spec i (k + m + 1)); [lia|reflexivity].
      + intros j Hj. rewrite nth_upd by lia. destruct (Nat.eqb_spec j (k + m + 1)) as [->|Nj]; [|apply R; lia].
        replace (k + m + 1 - k) with (S m) by lia. replace (k + m - k) with m in R2 by lia.
        rewrite (@firstn_snoc _ _ _ (change_empty 0)) by (rewrite skipn_length; lia). rewrite nth_skipn_d. exact R2. }
  destruct (G (length rows - 1 - k) ltac:(lia)) as (rows' & E & L & F & R).
  rewrite E. cbn [bind]. eexists. split; [reflexivity|]. cbn [rb_rows rb_ch]. do 3 (split; [auto|]). intros j Hj. apply R; lia.
Qed.


Lemma base_size_le c h f : row_block_base_size c h f <= length c + 1.
Proof.
  unfold row_block_base_size. assert (length c / 2 <= length c) by (apply Nat.div_le_upper_bound; lia).
  destruct h, f; lia.
Qed.

Lemma row_block_common c r n : 0 < n -> n <= length c + 1 -> Forall ok_change c -> row256 r ->
  exists b, (rows <- vset (repeat ([] : row) n) 0 r ;; recalculate (mkRB rows c) 0) = Ret b /\ block_rows c r n b.
Proof.
  intros Hn Hl Hc Hr. rewrite vset_lt by (rewrite repeat_length; lia). cbn [bind].
  destruct n as [|n]; [lia|]. cbn [repeat upd firstn skipn app].
  destruct (@recalculate_spec (mkRB (r :: repeat [] n) c) 0) as (b & E & C & L & F & R); cbn [rb_rows rb_ch length] in *;
    rewrite ?repeat_length in *; auto; try lia.
  exists b. split; [exact E|]. split; auto. split; auto. intros j Hj. specialize (R j ltac:(lia)).
  cbn [nth skipn] in R. now rewrite Nat.sub_0_r in R.
Qed.

Lemma row_block_from_spec c r h f : Forall ok_change c -> row256 r ->
  exists b, row_block_from c r h f = Ret b /\ block_rows c r (row_block_base_size c h f) b.
Proof.
  intros Hc Hr. unfold row_block_from. destruct (row_block_base_size c h f) as [|n] eqn:E; cbn [repeat].
  - eexists. split; [reflexivity|]. split; [reflexivity|]. split; [reflexivity|]. intros j Hj. lia.
  - change ([] :: repeat [] n) with (repeat ([] : row) (S n)). apply row_block_common; auto; try lia.
    rewrite <- E. apply base_size_le.
Qed.

Lemma row_block_make_spec c0 c h f : Forall ok_change (c0 :: c) -> 0 < row_block_base_size (c0 :: c) h f ->
  exists b, row_block_make (c0 :: c) h f = Ret b /\
    block_rows (c0 :: c) (rounds (cn c0)) (row_block_base_size (c0 :: c) h f) b.
Proof.
  intros Hc Hp. unfold row_block_make. apply row_block_common; auto. { apply base_size_le. }
  inversion_clear Hc. destruct H as [_ H]. apply rounds_row256. exact H.
Qed.

(* --- touch --- *)
Section NodeInd.
  Variable P : node -> Prop.
  Hypothesis HC : forall c, P (Changes c).
  Hypothesis HL : forall l, Forall (fun e => P (snd e)) l -> P (Children l).
  Fixpoint node_ind' (n : node) : P n :=
    match n with
    | Changes c => HC c
    | Children l => HL ((fix go l : Forall (fun e => P (snd e)) l := match l with
        | [] => Forall_nil _
        | e :: t => @Forall_cons _ (fun e => P (snd e)) e t (node_ind' (snd e)) (go t)
        end) l)
    end.
End NodeInd.

Definition kid_ok (e : Z * node) : Prop := (1 <= fst e <= int_max)%Z /\ flatten (snd e) <> [] /\ well_made (snd e).
Lemma well_made_kids l : well_made (Children l) <-> Forall kid_ok l.
Proof.
  cbn [well_made]. induction l as [|[k c] t IH].
  - split; auto.
  - rewrite Forall_cons_iff, <- IH. unfold kid_ok; cbn [fst snd]. tauto.
Qed.

Lemma times_S n l : (0 < n)%Z -> times n l = l ++ times (n - 1) l.
Proof.
  intros H. unfold times. replace (Z.to_nat n) with (S (Z.to_nat (n - 1))) by lia. reflexivity.
Qed.
Lemma times_0 l : times 0 l = [].
Proof. reflexivity. Qed.

(* i is a position in node n, with the changes r still to come *)
Fixpoint at_node (n : node) (i : iter) (r : list change) : Prop :=
  match n, i with
  | Changes c, IChanges rest => rest = r /\ length r <= length c
  | Children l, IChildren rest ci count =>
    match rest with
    | [] => r = []
    | (k, c) :: t => exists rc, (fix here l := match l with
           | [] => False
           | (k', c') :: t' => ((k', c') = (k, c) /\ t' = t /\ at_node c' ci rc) \/ here t'
           end) l /\
         rc <> [] /\ (0 <= count < k)%Z /\ Forall kid_ok rest /\
         r = rc ++ times (k - 1 - count) (flatten c) ++ flatten (Children t)
    end
  | _, _ => False
  end.

(* the inner fixpoint says that the rest is a suffix of l and ci is inside its first child *)
Lemma at_children l k c t ci count r :
  at_node (Children l) (IChildren ((k, c) :: t) ci count) r <->
  exists rc pre, l = pre ++ (k, c) :: t /\ at_node c ci rc /\ rc <> [] /\ (0 <= count < k)%Z /\
    Forall kid_ok ((k, c) :: t) /\ r = rc ++ times (k - 1 - count) (flatten c) ++ flatten (Children t).
Proof.
  cbn [at_node]. set (here := fix here (rc : list change) l := match l with
           | [] => False
           | (k', c') :: t' => ((k', c') = (k, c) /\ t' = t /\ at_node c' ci rc) \/ here rc t'
           end).
  assert (X : forall rc, (fix here l := match l with
           | [] => False
           | (k', c') :: t' => ((k', c') = (k, c) /\ t' = t /\ at_node c' ci rc) \/ here t'
           end) l <-> exists pre, l = pre ++ (k, c) :: t /\ at_node c ci rc).
  { intros rc. induction l as [|[k' c'] t' IH].
    - split; [tauto|]. intros ([|] & E & _); discriminate.
    - rewrite IH. split.
      + intros [(E & -> & A)|(pre & -> & A)].
        * injection E as -> ->. exists []. auto.
        * exists ((k', c') :: pre). auto.
      + intros (pre & E & A). destruct pre as [|p pre]; cbn in E.
        * injection E as -> -> ->. auto.
        * injection E as -> ->. right. eauto. }
  split.
  - intros (rc & H & H2). apply X in H as (pre & -> & A). exists rc, pre. tauto.
  - intros (rc & pre & -> & A & H2). exists rc. split; auto. apply X. eauto.
Qed.

Lemma begin_at n : well_made n -> at_node n (node_begin n) (flatten n).
Proof.
  induction n as [c|l IH] using node_ind'; intros W; [split; auto|].
  destruct l as [|[k c] t]; [reflexivity|]. cbn [node_begin]. apply at_children.
  apply well_made_kids in W. inversion_clear IH as [|? ? H H0]. inversion_clear W as [|? ? H1 H2].
  cbn [snd] in H. destruct H1 as (H3 & H4 & H5). cbn [fst snd] in *.
  exists (flatten c), []. split; [reflexivity|]. split; [auto|]. split; [auto|]. split; [lia|]. split.
  { constructor; auto. repeat split; cbn; auto; lia. }
  cbn [flatten flat_map fst snd]. rewrite times_S by lia. rewrite <- app_assoc. now replace (k - 1 - 0)%Z with (k - 1)%Z by lia.
Qed.

Lemma at_end n i r : at_node n i r -> iter_eqb i (node_end n) = Ret (match r with [] => true | _ => false end).
Proof.
  destruct n as [c|l]; destruct i as [|rest|rest ci count]; try (intros []; fail); cbn [at_node node_end].
  - intros [-> _]. destruct r; reflexivity.
  - destruct rest as [|[k c] t].
    + intros ->. reflexivity.
    + intros (rc & _ & N & _ & _ & ->). cbn [iter_eqb length Nat.eqb]. destruct rc; [congruence|reflexivity].
Qed.

Lemma at_step n : forall i x r, at_node n i (x :: r) ->
  deref i = Ret x /\ exists j, incr i = Ret j /\ at_node n j r.
Proof.
  induction n as [c|l IH] using node_ind'; intros i x r A.
  - destruct i as [|rest|]; try (destruct A; fail). destruct A as [-> A]. split; [reflexivity|]. eexists. split; [reflexivity|]. split; [reflexivity|cbn in A; lia].
  - destruct i as [| |rest ci count]; try (destruct A; fail).
    destruct rest as [|[k c] t]; [discriminate|]. apply at_children in A.
    destruct A as (rc & pre & -> & A & N & Hc & K & E). destruct rc as [|x' rc]; [congruence|].
    cbn in E. injection E as <- E.
    apply Forall_app in IH as [_ IH]. inversion_clear IH as [|? ? H H0]. cbn [snd] in H.
    destruct (H _ _ _ A) as [D (j & I & A')]. split; [exact D|]. cbn [incr]. rewrite I. cbn [bind].
    rewrite (at_end A'). cbn [bind]. assert (K' := K). inversion_clear K as [|? ? (K1 & K2 & K3) K4]. cbn [fst snd] in *.
    destruct rc as [|y rc].
    + rewrite as_int_ok by (unfold int_min, int_max in *; lia). cbn [bind]. cbn [app] in E.
      destruct (Z.eqb_spec (count + 1) k) as [Ek|Nk].
      * replace (k - 1 - count)%Z with 0%Z in E by lia. rewrite times_0 in E. cbn [app] in E.
        destruct t as [|[k2 c2] t2].
        { eexists. split; [reflexivity|]. exact E. }
        eexists. split; [reflexivity|]. apply at_children.
        inversion_clear K4 as [|? ? (K5 & K6 & K7) K8]. cbn [fst snd] in *.
        exists (flatten c2), (pre ++ [(k, c)]). split; [now rewrite <- app_assoc|]. split; [now apply begin_at|].
        split; [exact K6|]. split; [lia|]. split; [constructor; auto; repeat split; cbn; auto; lia|].
        rewrite E. cbn [flatten flat_map fst snd]. rewrite times_S by lia. rewrite <- app_assoc. now replace (k2 - 1 - 0)%Z with (k2 - 1)%Z by lia.
      * eexists. split; [reflexivity|]. apply at_children. exists (flatten c), pre. split; [reflexivity|].
        split; [now apply begin_at|]. split; [auto|]. split; [lia|]. split; [auto|].
        rewrite E. rewrite (@times_S (k - 1 - count)) by lia. rewrite <- app_assoc. now replace (k - 1 - count - 1)%Z with (k - 1 - (count + 1))%Z by lia.
    + eexists. split; [reflexivity|]. apply at_children. exists (y :: rc), pre. split; [reflexivity|]. split; [exact A'|].
      split; [discriminate|]. auto.
Qed.

Lemma traverse_spec n r : forall i fuel, at_node n i r -> length r <= fuel -> traverse fuel i (node_end n) = Ret r.
Proof.
  induction r as [|x r IH]; intros i fuel A F.
  - destruct fuel; cbn [traverse]; rewrite (at_end A); reflexivity.
  - destruct fuel as [|fuel]; [cbn in F; lia|]. cbn [traverse]. rewrite (at_end A). cbn [bind].
    destruct (at_step A) as [D (j & I & A')]. rewrite D. cbn [bind]. rewrite I. cbn [bind].
    rewrite (IH j fuel A') by (cbn in F; lia). reflexivity.
Qed.

Lemma touch_spec n fuel : well_made n -> length (flatten n) <= fuel -> touch_changes fuel (Some n) = Ret (flatten n).
Proof. intros W F. apply traverse_spec; auto. now apply begin_at. Qed.
Lemma touch_null fuel : touch_changes fuel None = Ret [].
Proof. destruct fuel; reflexivity. Qed.

(* what goes wrong without the conditions *)
Lemma touch_empty_child k fuel t : touch_changes (S fuel) (Some (Children ((k, Changes []) :: t))) = UB.
Proof. reflexivity. Qed.

Lemma touch_count_0 fuel : forall k c l, (k <= 0)%Z -> touch_changes fuel (Some (Children [(k, Changes [c])])) <> Ret l.
Proof.
  intros k c l Hk. unfold touch_changes. cbn [touch_begin touch_end node_begin node_end].
  assert (G : forall fuel m l, (0 <= m)%Z -> traverse fuel (IChildren [(k, Changes [c])] (IChanges [c]) m) (IChildren [] INull 0) <> Ret l).
  { clear l fuel. induction fuel as [|fuel IH]; intros m l Hm; cbn [traverse iter_eqb length Nat.eqb bind]; [discriminate|].
    cbn [deref bind incr node_end iter_eqb length Nat.eqb].
    unfold as_int. destruct ((int_min <=? m + 1)%Z && (m + 1 <=? int_max)%Z); cbn [bind]; [|discriminate].
    destruct (Z.eqb_spec (m + 1) k); [lia|]. cbn [bind node_begin].
    destruct (traverse fuel (IChildren [(k, Changes [c])] (IChanges [c]) (m + 1)) (IChildren [] INull 0)) eqn:E; cbn [bind]; try discriminate.
    exfalso. eapply (IH (m + 1)%Z); [lia|exact E]. }
  apply G. lia.
Qed.
