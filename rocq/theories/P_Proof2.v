(* P_Proof2.v - reports in branches and after removals. *)
From Verif Require Import Base M_Row M_Proof Spec_Proof P_Proof.
Set Implicit Arguments.
Unset Strict Implicit.
Open Scope nat_scope.

Lemma count_add p r q : count_row (fst (add_row p r)) q = (if req r q then 1 else 0) + count_row p q.
Proof.
  rewrite !count_row_all. assert (E : all_rows (fst (add_row p r)) = r :: all_rows p).
  { unfold add_row. destruct (negb (p_max p =? -1)%Z && (p_max p <? Z.of_nat (1 + count_row p r))%Z); [destruct (p_fi p)|]; reflexivity. }
  rewrite E. unfold cnt. cbn [count_occ]. destruct (req r q); reflexivity.
Qed.

(* p was branched from after the rows xs, and rs were added since *)
Definition bstate (max : Z) (xs : list row) (p : prover) (rs : list row) : Prop :=
  (forall r, Permutation (map snd (mrange (n_m (p_head p)) r)) (lines_from (Z.of_nat (length xs) + 1) rs r)) /\
  n_lineno (p_head p) = (Z.of_nat (length xs) + Z.of_nat (length rs))%Z /\ p_max p = max /\
  (forall r, count_row p r = cnt xs r + cnt rs r) /\
  exists fi, p_fi p = Some fi /\ NoDup (map fst fi) /\
    (forall r ls, In (r, ls) fi -> Permutation ls (lines_from (Z.of_nat (length xs) + 1) rs r)) /\
    (forall r, In r (map fst fi) <-> (max < Z.of_nat (cnt (xs ++ rs) r))%Z).

Lemma bstate_add max xs p rs r : (0 <= max)%Z -> (forall q, (Z.of_nat (cnt xs q) <= max)%Z) ->
  bstate max xs p rs -> bstate max xs (fst (add_row p r)) (rs ++ [r]).
Proof.
  intros Hm Hx (Em & El & Ex & C & fi & Ef & N & L & I). set (k := (Z.of_nat (length xs) + 1)%Z) in *.
  assert (C1 : forall q, cnt [r] q = if req r q then 1 else 0) by (intros q; unfold cnt; cbn [count_occ]; destruct (req r q); reflexivity).
  assert (Cs : forall q, cnt (xs ++ rs ++ [r]) q = if req r q then S (cnt (xs ++ rs) q) else cnt (xs ++ rs) q).
  { intros q. rewrite !cnt_app, C1. destruct (req r q); lia. }
  assert (Em' : forall q, Permutation (map snd (mrange ((r, (n_lineno (p_head p) + 1)%Z) :: n_m (p_head p)) q)) (lines_from k (rs ++ [r]) q)).
  { intros q. unfold mrange. cbn [filter fst]. rewrite rq_spec, lines_from_snoc. destruct (req r q).
    - cbn [map snd]. rewrite El. replace (Z.of_nat (length xs) + Z.of_nat (length rs) + 1)%Z with (k + Z.of_nat (length rs))%Z by (unfold k; lia).
      eapply Permutation_trans; [apply perm_skip, Em|]. apply Permutation_cons_append.
    - rewrite app_nil_r. apply Em. }
  assert (El' : (n_lineno (p_head p) + 1)%Z = (Z.of_nat (length xs) + Z.of_nat (length (rs ++ [r])))%Z).
  { rewrite app_length, El. cbn. lia. }
  assert (C' : forall q, count_row (fst (add_row p r)) q = cnt xs q + cnt (rs ++ [r]) q).
  { intros q. rewrite count_add, C, cnt_app, C1. destruct (req r q); lia. }
  split; [|split; [|split; [|split; [exact C'|]]]].
  - intros q. unfold add_row. destruct (negb (p_max p =? -1)%Z && (p_max p <? Z.of_nat (1 + count_row p r))%Z); [destruct (p_fi p)|]; apply Em'.
  - unfold add_row. destruct (negb (p_max p =? -1)%Z && (p_max p <? Z.of_nat (1 + count_row p r))%Z); [destruct (p_fi p)|]; exact El'.
  - unfold add_row. destruct (negb (p_max p =? -1)%Z && (p_max p <? Z.of_nat (1 + count_row p r))%Z); [destruct (p_fi p)|]; exact Ex.
  - clear C'. unfold add_row. rewrite C, Ef, Ex, <- cnt_app.
    destruct (Z.eqb_spec max (-1)); [lia|]. cbn [negb andb].
    change (Z.of_nat (1 + cnt (xs ++ rs) r)) with (Z.of_nat (S (cnt (xs ++ rs) r))).
    replace (n_lineno (p_head p) + 1)%Z with (k + Z.of_nat (length rs))%Z by (unfold k; lia).
    destruct (Z.ltb_spec max (Z.of_nat (S (cnt (xs ++ rs) r)))) as [B|B]; cbn [fst p_fi].
    + eexists; split; [reflexivity|].
      destruct (fi_append fi r (k + Z.of_nat (length rs))%Z) as [fi'|] eqn:Q.
      * destruct (fi_append_some N Q) as (H1 & (ls0 & H2 & H2') & H3). split; [now rewrite H1|]. split.
        -- intros r' ls Hin. rewrite lines_from_snoc. destruct (H3 _ _ Hin) as [[X Y]|[-> (l1 & -> & Y)]].
           ++ destruct (req r r'); [congruence|]. rewrite app_nil_r. now apply L.
           ++ destruct (req r r); [|congruence]. apply Permutation_app; [now apply L|]. apply Permutation_refl.
        -- intros q. rewrite H1, I, Cs. destruct (req r q) as [<-|Hq]; [|tauto].
           assert (Hr : In r (map fst fi)) by (apply in_map_iff; exists (r, ls0); auto).
           apply I in Hr. split; intros _; lia.
      * apply fi_append_none in Q. split; [|split].
        -- rewrite map_app. cbn [map fst]. apply NoDup_app_iff. repeat split; auto.
           ++ repeat constructor. intros [].
           ++ intros x Hin [<-|[]]. contradiction.
        -- intros r' ls Hin. apply in_app_iff in Hin. rewrite lines_from_snoc. destruct Hin as [Hin|[Hin|[]]].
           ++ destruct (req r r') as [<-|].
              ** exfalso. apply Q. apply in_map_iff. exists (r, ls). auto.
              ** rewrite app_nil_r. now apply L.
           ++ injection Hin as <- <-. destruct (req r r); [|congruence].
              apply Permutation_app; [now apply Em|]. apply Permutation_refl.
        -- intros q. rewrite map_app, in_app_iff, I, Cs. cbn [map fst In]. destruct (req r q) as [<-|Hq].
           ++ split; [intros _; lia|tauto].
           ++ split; [|tauto]. intros [X|[X|[]]]; [exact X|congruence].
    + exists fi. split; [reflexivity|]. split; [exact N|]. split.
      * intros r' ls Hin. rewrite lines_from_snoc. destruct (req r r') as [<-|].
        -- exfalso. assert (Hr : In r (map fst fi)) by (apply in_map_iff; exists (r, ls); auto). apply I in Hr. lia.
        -- rewrite app_nil_r. now apply L.
      * intros q. rewrite I, Cs. destruct (req r q) as [<-|Hq]; [|tauto]. split; lia.
Qed.

Lemma run_adds p rs q : run p (map Add rs ++ q) = run (fold_left (fun p r => fst (add_row p r)) rs p) q.
Proof. revert p; induction rs as [|r rs IH]; intros p; cbn [map app run fold_left]; auto. Qed.
Lemma adds_lineno rs : forall p, n_lineno (p_head (fold_left (fun p r => fst (add_row p r)) rs p)) = (n_lineno (p_head p) + Z.of_nat (length rs))%Z.
Proof.
  induction rs as [|r rs IH]; intros p; cbn [fold_left length]; [lia|]. rewrite IH.
  assert (E : n_lineno (p_head (fst (add_row p r))) = (n_lineno (p_head p) + 1)%Z).
  { unfold add_row. destruct (negb (p_max p =? -1)%Z && (p_max p <? Z.of_nat (1 + count_row p r))%Z); [destruct (p_fi p)|]; reflexivity. }
  rewrite E. lia.
Qed.

Lemma branch_failinfo max xs ys p : (0 <= max)%Z -> (forall r, (Z.of_nat (count_occ req xs r) <= max)%Z) ->
  run (prover_new max (Some [])) (map Add xs ++ Branch :: map Add ys) = Ret p ->
  exists fi, p_fi p = Some fi /\ NoDup (map fst fi) /\
    (forall r ls, In (r, ls) fi -> Permutation ls (lines_from (Z.of_nat (length xs) + 1) ys r)) /\
    (forall r, In r (map fst fi) <-> (max < Z.of_nat (count_occ req (xs ++ ys) r))%Z).
Proof.
  intros Hm Hx E. rewrite run_adds in E. cbn [run] in E. set (p1 := fold_left (fun (p : prover) (r : row) => fst (add_row p r)) xs (prover_new max (Some []))) in *.
  assert (E1 : run (prover_new max (Some [])) (map Add xs) = Ret p1).
  { rewrite <- (app_nil_r (map Add xs)), run_adds. reflexivity. }
  destruct (failinfo_adds Hm E1) as (fi & Ef & N & L & I).
  pose proof (history_counts E1) as (Hc & _). cbn zeta in Hc.
  destruct (run_inv (new_inv max (Some [])) E1) as (_ & M & _).
  assert (B : bstate max xs (create_branch p1) []).
  { split; [intros r; constructor|]. cbn [create_branch p_head n_lineno p_max p_fi length].
    split; [unfold p1; rewrite adds_lineno; cbn; lia|]. split; [exact M|]. split.
    - intros r. rewrite count_row_all. change (all_rows (create_branch p1)) with (all_rows p1). rewrite <- count_row_all, Hc.
      assert (Eo : outstanding [] (map Add xs) = rev xs).
      { rewrite outstanding_adds. apply app_nil_r. }
      rewrite Eo. cbn. rewrite Nat.add_0_r. unfold cnt. apply cnt_perm, Permutation_sym, Permutation_rev.
    - exists fi. split; [exact Ef|]. split; [exact N|]. assert (Ni : forall r, ~ In r (map fst fi)) by (intros r Hr; apply I in Hr; specialize (Hx r); lia).
      split.
      + intros r ls Hin. exfalso. apply (Ni r). apply in_map_iff. exists (r, ls). auto.
      + intros r. rewrite app_nil_r. split; [intros Hr; now apply Ni in Hr|]. intros Hr. unfold cnt in Hr. specialize (Hx r). lia. }
  assert (G : forall rs2 rs1 p0 p', bstate max xs p0 rs1 -> run p0 (map Add rs2) = Ret p' -> bstate max xs p' (rs1 ++ rs2)).
  { clear - Hm Hx. induction rs2 as [|r rs2 IH]; intros rs1 p0 p' S E; cbn [map run] in E.
    - injection E as <-. now rewrite app_nil_r.
    - change (r :: rs2) with ([r] ++ rs2). rewrite app_assoc. eapply IH; [|exact E]. apply bstate_add; auto. }
  destruct (G ys [] _ p B E) as (_ & _ & _ & _ & fi' & Ef' & N' & L' & I'). exists fi'. auto.
Qed.

(* ---- removals ---- *)
Lemma fi_pop_spec fi r : NoDup (map fst fi) ->
  NoDup (map fst (fi_pop fi r)) /\
  (forall r' ls, In (r', ls) (fi_pop fi r) <-> (r' <> r /\ In (r', ls) fi) \/
     (r' = r /\ ls <> [] /\ exists ls0, In (r, ls0) fi /\ ls = removelast ls0)).
Proof.
  induction fi as [|[a la] fi IH]; intros N; cbn [fi_pop].
  - split; [constructor|]. cbn. intros r' ls. split; [tauto|]. intros [[_ []]|(_ & _ & l0 & [] & _)].
  - cbn [map fst] in N. inversion N as [|? ? Na N']; subst. rewrite rq_spec. destruct (req a r) as [->|Ha].
    + assert (Nr : forall ls, ~ In (r, ls) fi) by (intros ls H; apply Na, in_map_iff; exists (r, ls); auto).
      destruct (removelast la) as [|x l] eqn:E.
      * split; [exact N'|]. intros r' ls. split.
        -- intros H. left. split; [|now right]. intros ->. now apply Nr in H.
        -- intros [[Hn [H|H]]|(-> & Hl & l0 & [H|H] & ->)]; [congruence|exact H|injection H as <-; congruence|now apply Nr in H].
      * split; [cbn [map fst]; constructor; assumption|]. intros r' ls. cbn [In]. split.
        -- intros [H|H]; [injection H as <- <-; right; split; [reflexivity|]; split; [discriminate|]; exists la; auto|].
           left. split; [|now right]. intros ->. now apply Nr in H.
        -- intros [[Hn [H|H]]|(-> & Hl & l0 & [H|H] & ->)]; [congruence|now right|injection H as <-; left; now rewrite E|now apply Nr in H].
    + destruct (IH N') as [N1 K1]. split.
      * cbn [map fst]. constructor; [|exact N1]. intros H. apply in_map_iff in H as ((a' & l) & <- & H). cbn in *.
        apply K1 in H as [[_ H]|(-> & _)]; [|congruence]. apply Na, in_map_iff. exists (a', l). auto.
      * intros r' ls. cbn [In]. rewrite K1. split.
        -- intros [H|[[Hn H]|(-> & Hl & l0 & H & ->)]].
           ++ injection H as <- <-. left. auto.
           ++ left. auto.
           ++ right. split; [reflexivity|]. split; [exact Hl|]. exists l0. auto.
        -- intros [[Hn [H|H]]|(-> & Hl & l0 & [H|H] & ->)].
           ++ auto.
           ++ right. left. auto.
           ++ congruence.
           ++ right. right. split; [reflexivity|]. split; [exact Hl|]. eauto.
Qed.

Definition rstate (max : Z) (p : prover) : Prop :=
  p_chain p = [] /\ p_max p = max /\
  exists fi, p_fi p = Some fi /\ NoDup (map fst fi) /\
    (forall r ls, In (r, ls) fi -> ls <> [] /\ Z.of_nat (length ls) = Z.max max (Z.of_nat (count_row p r))) /\
    (forall r, (max < Z.of_nat (count_row p r))%Z -> In r (map fst fi)).

Lemma rstate_add max p r : (0 <= max)%Z -> rstate max p -> rstate max (fst (add_row p r)).
Proof.
  intros Hm (Ec & Ex & fi & Ef & N & L & I).
  assert (C : forall q, count_row (fst (add_row p r)) q = (if req r q then 1 else 0) + count_row p q) by apply count_add.
  assert (Lr : length (mrange (n_m (p_head p)) r) = count_row p r).
  { unfold count_row, p_nodes. rewrite Ec. cbn. reflexivity. }
  revert C. unfold add_row. rewrite Ef, Ex.
  destruct (Z.eqb_spec max (-1)); [lia|]. cbn [negb andb].
  change (Z.of_nat (1 + count_row p r)) with (Z.of_nat (S (count_row p r))).
  set (line := (n_lineno (p_head p) + 1)%Z).
  destruct (Z.ltb_spec max (Z.of_nat (S (count_row p r)))) as [B|B]; cbn [fst]; intros C; unfold rstate; cbn [p_chain p_max p_fi];
    (split; [exact Ec|]; split; [reflexivity|]; eexists; split; [reflexivity|]).
  - destruct (fi_append fi r line) as [fi'|] eqn:Q.
    + destruct (fi_append_some N Q) as (H1 & (ls0 & H2 & H2') & H3). split; [now rewrite H1|]. split.
      * intros r' ls Hin. rewrite C. destruct (H3 _ _ Hin) as [[X Y]|[-> (l1 & -> & Y)]].
        -- destruct (req r r'); [congruence|]. now apply L.
        -- destruct (req r r); [|congruence]. destruct (L _ _ Y) as [Y1 Y2]. split; [destruct l1; discriminate|].
           rewrite app_length. cbn [length]. lia.
      * intros q. rewrite H1, C. destruct (req r q) as [<-|Hq]; [|apply I]. intros _. apply in_map_iff. exists (r, ls0). auto.
    + apply fi_append_none in Q.
      assert (Eq : Z.of_nat (count_row p r) = max) by (destruct (Z.eq_dec (Z.of_nat (count_row p r)) max); [assumption|exfalso; apply Q, I; lia]).
      split; [|split].
      * rewrite map_app. cbn [map fst]. apply NoDup_app_iff. repeat split; auto.
        -- repeat constructor. intros [].
        -- intros x Hin [<-|[]]. contradiction.
      * intros r' ls Hin. rewrite C. apply in_app_iff in Hin as [Hin|[Hin|[]]].
        -- destruct (req r r') as [<-|]; [|now apply L]. exfalso. apply Q. apply in_map_iff. exists (r, ls). auto.
        -- injection Hin as <- <-. destruct (req r r); [|congruence]. split; [destruct (map snd (mrange (n_m (p_head p)) r)); discriminate|].
           rewrite app_length, map_length, Lr. cbn [length]. lia.
      * intros q. rewrite C, map_app, in_app_iff. destruct (req r q) as [<-|Hq]; [cbn; auto|]. left. now apply I.
  - split; [exact N|]. split.
    + intros r' ls Hin. rewrite C. destruct (req r r') as [<-|]; [|now apply L].
      destruct (L _ _ Hin) as [Y1 Y2]. split; [exact Y1|]. lia.
    + intros q. rewrite C. destruct (req r q) as [<-|Hq]; [lia|apply I].
Qed.
Lemma count_remove p r p' q : remove_row p r = Ret p' -> count_row p q = (if req r q then 1 else 0) + count_row p' q.
Proof.
  unfold remove_row. destruct (count_row p r =? 0); [discriminate|]. destruct (mrange (n_m (p_head p)) r) as [|e l] eqn:Em; [discriminate|].
  assert (Hc : cnt (map fst (n_m (p_head p))) r <> 0) by (intros H; apply mrange_nil in H; congruence).
  pose proof (erase_last_perm Hc) as P.
  intros E. rewrite !count_row_all.
  assert (E' : Permutation (all_rows p) (r :: all_rows p')).
  { destruct (negb (p_max p =? -1)%Z && (p_max p <? Z.of_nat (count_row p r))%Z); injection E as <-; unfold all_rows, p_nodes;
      cbn [p_head p_chain map concat n_m]; rewrite app_comm_cons; now apply Permutation_app_tail. }
  rewrite (cnt_perm q E'). unfold cnt. cbn [count_occ]. destruct (req r q); reflexivity.
Qed.
Lemma rstate_remove max p r p' : (0 <= max)%Z -> rstate max p -> remove_row p r = Ret p' -> rstate max p'.
Proof.
  intros Hm (Ec & Ex & fi & Ef & N & L & I) E.
  assert (C : forall q, count_row p q = (if req r q then 1 else 0) + count_row p' q) by (intros q; now apply count_remove).
  unfold remove_row in E. destruct (count_row p r =? 0); [discriminate|]. destruct (mrange (n_m (p_head p)) r) as [|e l]; [discriminate|].
  rewrite Ef, Ex in E. destruct (Z.eqb_spec max (-1)); [lia|]. cbn [negb andb] in E.
  destruct (Z.ltb_spec max (Z.of_nat (count_row p r))) as [B|B]; injection E as <-; unfold rstate; cbn [p_chain p_max p_fi];
    (split; [exact Ec|]; split; [reflexivity|]; eexists; split; [reflexivity|]).
  - destruct (fi_pop_spec r N) as [N' K]. split; [exact N'|]. split.
    + intros r' ls Hin. apply K in Hin as [[Hn Hin]|(-> & Hl & l0 & Hin & ->)].
      * destruct (L _ _ Hin) as [Y1 Y2]. split; [exact Y1|]. rewrite C in Y2. destruct (req r r'); [congruence|]. exact Y2.
      * split; [exact Hl|]. destruct (L _ _ Hin) as [Y1 Y2]. rewrite C in Y2, B. destruct (req r r); [|congruence].
        rewrite (app_removelast_last 0%Z Y1), app_length in Y2. cbn [length] in Y2. lia.
    + intros q Hq. assert (Hq' : In q (map fst fi)) by (apply I; rewrite C; lia).
      apply in_map_iff in Hq' as ((q' & ls) & <- & Hin). cbn [fst] in *. destruct (req r q') as [<-|Hn].
      * apply in_map_iff. exists (r, removelast ls). split; [reflexivity|]. apply K. right. split; [reflexivity|]. split; [|eauto].
        destruct (L _ _ Hin) as [Y1 Y2]. rewrite C in Y2. destruct (req r r); [|congruence].
        rewrite (app_removelast_last 0%Z Y1), app_length in Y2. cbn [length] in Y2. intros H. rewrite H in Y2. cbn [length] in Y2. lia.
      * apply in_map_iff. exists (q', ls). split; [reflexivity|]. apply K. left. split; [congruence|exact Hin].
  - split; [exact N|]. split.
    + intros r' ls Hin. destruct (L _ _ Hin) as [Y1 Y2]. split; [exact Y1|]. pose proof (C r') as C1. pose proof (C r) as C2.
      destruct (req r r') as [<-|], (req r r); try congruence; rewrite C1 in Y2; rewrite C2 in B; lia.
    + intros q Hq. apply I. pose proof (C q). lia.
Qed.
Lemma history_failinfo max ops p : (0 <= max)%Z -> (forall o, In o ops -> o <> Branch) ->
  run (prover_new max (Some [])) ops = Ret p -> rstate max p.
Proof.
  intros Hm Hb E.
  assert (S0 : rstate max (prover_new max (Some []))).
  { split; [reflexivity|]. split; [reflexivity|]. exists []. split; [reflexivity|]. split; [constructor|]. split; [intros r ls []|]. intros r. cbn. lia. }
  revert S0 E. generalize (prover_new max (Some [])) as p0. induction ops as [|o ops IH]; intros p0 S0 E; cbn [run] in E.
  - injection E as <-. exact S0.
  - assert (Hb' : forall o, In o ops -> o <> Branch) by (intros o' Ho; apply Hb; now right). destruct o as [r|r|].
    + eapply IH; [exact Hb'| |exact E]. now apply rstate_add.
    + apply bind_ret_inv in E as (p1 & E1 & E). eapply IH; [exact Hb'| |exact E]. eapply rstate_remove; eauto.
    + exfalso. apply (Hb Branch); [now left|reflexivity].
Qed.
