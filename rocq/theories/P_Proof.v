(* P_Proof.v - proofs about provers. *)
From Verif Require Import Base M_Row M_Proof Spec_Proof.
Set Implicit Arguments.
Unset Strict Implicit.
Open Scope nat_scope.

Definition cnt (l : list row) (r : row) : nat := count_occ req l r.

(* --- lemmas --- *)
Lemma rq_spec a b : rq a b = if req a b then true else false.
Proof. unfold rq, row_eqb, req. destruct (list_eq_dec Nat.eq_dec a b); reflexivity. Qed.

Lemma mrange_length m r : length (mrange m r) = cnt (map fst m) r.
Proof.
  unfold cnt, mrange. induction m as [|e m IH]; [reflexivity|]. cbn [filter map count_occ].
  rewrite rq_spec. destruct (req (fst e) r); cbn [length]; auto.
Qed.

Definition all_rows (p : prover) : list row := concat (map (fun nd => map fst (n_m nd)) (p_nodes p)).

Lemma fold_sum (f : node -> nat) l a : fold_left (fun n nd => n + f nd) l a = a + fold_left (fun n nd => n + f nd) l 0.
Proof.
  revert a; induction l as [|x l IH]; intros a; cbn [fold_left]; [lia|].
  rewrite IH, (IH (0 + f x)). lia.
Qed.

Lemma cnt_app a b r : cnt (a ++ b) r = cnt a r + cnt b r.
Proof. apply count_occ_app. Qed.

Lemma count_row_all p r : count_row p r = cnt (all_rows p) r.
Proof.
  unfold count_row, all_rows. generalize (p_nodes p) as l. induction l as [|x l IH]; [reflexivity|].
  cbn [fold_left map concat]. rewrite (fold_sum (fun nd => length (mrange (n_m nd) r))).
  rewrite cnt_app, <- IH, mrange_length. lia.
Qed.

Lemma p_size_all p : p_size p = length (all_rows p).
Proof.
  unfold p_size, all_rows. generalize (p_nodes p) as l. induction l as [|x l IH]; [reflexivity|].
  cbn [fold_left map concat]. rewrite (fold_sum (fun nd => length (n_m nd))).
  rewrite app_length, <- IH, map_length. lia.
Qed.

Lemma mrange_nil m r : mrange m r = [] <-> cnt (map fst m) r = 0.
Proof. rewrite <- mrange_length. destruct (mrange m r); cbn; split; congruence. Qed.

Lemma erase_last_perm m r : cnt (map fst m) r <> 0 ->
  Permutation (map fst m) (r :: map fst (erase_last m r)).
Proof.
  induction m as [|e m IH]; intros H; [cbn in H; congruence|].
  cbn [erase_last]. unfold cnt in H. cbn [map count_occ] in H. rewrite rq_spec.
  destruct (req (fst e) r) as [E|E]; cbn [andb].
  - destruct (mrange m r) eqn:Q.
    + cbn [map]. rewrite E. apply Permutation_refl.
    + cbn [map]. rewrite E. constructor.
      assert (X : cnt (map fst m) r <> 0).
      { intros X. apply mrange_nil in X. congruence. }
      rewrite <- (IH X) at 1. apply Permutation_refl.
  - cbn [map]. rewrite IH at 1 by exact H. apply perm_swap.
Qed.

Lemma remove1_perm r l : cnt l r <> 0 -> Permutation l (r :: remove1 r l).
Proof.
  unfold cnt. induction l as [|a l IH]; intros H; [cbn in H; congruence|]. cbn [remove1 count_occ] in *.
  destruct (req a r) as [->|E]; [apply Permutation_refl|].
  rewrite IH at 1 by exact H. apply perm_swap.
Qed.

Lemma cnt_perm a b r : Permutation a b -> cnt a r = cnt b r.
Proof. intros P. unfold cnt. now apply (Permutation_count_occ req). Qed.

(* additions beyond the allowed number *)
Fixpoint excess (k : Z) (l : list row) : Z :=
  match l with [] => 0 | r :: t => (if k <? Z.of_nat (S (cnt t r)) then 1 else 0) + excess k t end%Z.

Lemma excess_remove k r l : cnt l r <> 0 ->
  excess k l = ((if k <? Z.of_nat (cnt l r) then 1 else 0) + excess k (remove1 r l))%Z.
Proof.
  induction l as [|a l IH]; intros H; [cbn in H; congruence|].
  cbn [excess remove1]. unfold cnt in H |- *. cbn [count_occ] in *. fold (cnt l a) in *. fold (cnt l r) in *.
  destruct (req a r) as [->|E]; [reflexivity|].
  fold (cnt l r) in H. rewrite IH by exact H. cbn [excess].
  replace (cnt (remove1 r l) a) with (cnt l a); [lia|].
  rewrite (cnt_perm a (remove1_perm H)). unfold cnt. cbn [count_occ]. destruct (req r a); [congruence|reflexivity].
Qed.

Lemma excess_nonneg k l : (0 <= excess k l)%Z.
Proof. induction l as [|r l IH]; cbn [excess]; [lia|]. destruct (k <? _)%Z; lia. Qed.

Lemma excess_zero k l : (0 <= k)%Z -> excess k l = 0%Z <-> forall r, (Z.of_nat (cnt l r) <= k)%Z.
Proof.
  intros Hk. induction l as [|a l IH]; cbn [excess].
  - split; [intros _ r; cbn; lia|reflexivity].
  - assert (N := @excess_nonneg k l). unfold cnt. cbn [count_occ]. fold (cnt l a). split.
    + intros E r. fold (cnt l r). destruct (Z.ltb_spec k (Z.of_nat (S (cnt l a)))); [lia|].
      destruct (req a r) as [<-|Ha]; [lia|]. apply IH. lia.
    + intros H. assert (Ha := H a). destruct (req a a); [|congruence]. fold (cnt l a) in Ha.
      destruct (Z.ltb_spec k (Z.of_nat (S (cnt l a)))); [lia|].
      apply IH. intros r. specialize (H r). fold (cnt l r) in H. destruct (req a r); lia.
Qed.

Lemma excess_dups l : excess 1 l = (Z.of_nat (length l) - Z.of_nat (length (nodup req l)))%Z.
Proof.
  induction l as [|a l IH]; [reflexivity|]. cbn [excess nodup length]. rewrite IH.
  unfold cnt. destruct (in_dec req a l) as [Hin|Hout].
  - apply (count_occ_In req) in Hin. destruct (Z.ltb_spec 1 (Z.of_nat (S (count_occ req l a)))); lia.
  - apply (count_occ_not_In req) in Hout. rewrite Hout. cbn [length]. change (1 <? Z.of_nat 1)%Z with false. lia.
Qed.

Lemma excess_perm k a b : Permutation a b -> excess k a = excess k b.
Proof.
  induction 1 as [|x a b P IH|x y a|a b c P1 IH1 P2 IH2]; cbn [excess]; auto.
  - rewrite IH. now rewrite (cnt_perm x P).
  - unfold cnt; cbn [count_occ]. fold (cnt a x) (cnt a y).
    destruct (req x y) as [->|N]; [destruct (req y y); [reflexivity|congruence]|]. destruct (req y x); [congruence|]. lia.
  - congruence.
Qed.

(* the rows in the chain, i.e. present at the last branch *)
Definition chain_rows (p : prover) : list row := concat (map (fun nd => map fst (n_m nd)) (p_chain p)).
Lemma all_rows_split p : all_rows p = map fst (n_m (p_head p)) ++ chain_rows p.
Proof. reflexivity. Qed.

(* Invariant: counters count, relative to the state at the last branch. *)
Definition pinv (p : prover) (l : list row) : Prop :=
  Permutation (all_rows p) l /\
  n_dups (p_head p) = excess 1 l /\
  ((p_max p <> -1)%Z -> n_falsec (p_head p) = (excess (p_max p) l - excess (p_max p) (chain_rows p))%Z) /\
  ((p_max p = -1)%Z -> n_falsec (p_head p) = 0%Z).

Lemma add_row_parts p r : exists ls,
  n_m (p_head (fst (add_row p r))) = (r, ls) :: n_m (p_head p) /\
  p_chain (fst (add_row p r)) = p_chain p /\ p_max (fst (add_row p r)) = p_max p /\
  n_dups (p_head (fst (add_row p r))) = (n_dups (p_head p) + if (1 <? 1 + count_row p r)%nat then 1 else 0)%Z /\
  n_falsec (p_head (fst (add_row p r))) = (n_falsec (p_head p) +
     if negb (p_max p =? -1)%Z && (p_max p <? Z.of_nat (1 + count_row p r))%Z then 1 else 0)%Z.
Proof.
  exists (n_lineno (p_head p) + 1)%Z. unfold add_row.
  destruct (negb (p_max p =? -1)%Z && (p_max p <? Z.of_nat (1 + count_row p r))%Z).
  - destruct (p_fi p); cbn [fst p_head n_m p_chain p_max n_dups n_falsec]; repeat split; destruct (1 <? 1 + count_row p r); lia.
  - cbn [fst p_head n_m p_chain p_max n_dups n_falsec]; repeat split; try (destruct (1 <? 1 + count_row p r); lia); lia.
Qed.

Lemma add_row_inv p r l : pinv p l -> pinv (fst (add_row p r)) (r :: l).
Proof.
  intros (P & D & F & G). destruct (add_row_parts p r) as (ls & Em & Ec & Ex & Ed & Ef).
  assert (C : count_row p r = cnt l r) by (rewrite count_row_all; now apply cnt_perm).
  unfold pinv. rewrite all_rows_split. unfold chain_rows. rewrite Em, Ec, Ex, Ed, Ef, C.
  fold (chain_rows p). cbn [map fst]. repeat split.
  - cbn [app]. constructor. exact P.
  - cbn [excess]. rewrite D. change (1 + cnt l r) with (S (cnt l r)).
    destruct (Nat.ltb_spec 1 (S (cnt l r))), (Z.ltb_spec 1 (Z.of_nat (S (cnt l r)))); lia.
  - intros Hm. rewrite F by exact Hm. cbn [excess]. change (1 + cnt l r) with (S (cnt l r)).
    destruct (Z.eqb_spec (p_max p) (-1)); [congruence|]. cbn [negb andb].
    destruct (p_max p <? Z.of_nat (S (cnt l r)))%Z; lia.
  - intros Hm. rewrite G by exact Hm. rewrite Hm. cbn. reflexivity.
Qed.

Lemma remove_row_inv p r l : pinv p l ->
  (cnt (map fst (n_m (p_head p))) r <> 0 ->
     exists p', remove_row p r = Ret p' /\ pinv p' (remove1 r l) /\ p_max p' = p_max p /\ p_chain p' = p_chain p) /\
  (cnt (map fst (n_m (p_head p))) r = 0 -> remove_row p r = Throw LogicError).
Proof.
  intros (P & D & F & G).
  assert (C : count_row p r = cnt l r) by (rewrite count_row_all; now apply cnt_perm).
  assert (C' : cnt l r = cnt (map fst (n_m (p_head p))) r + cnt (chain_rows p) r).
  { rewrite <- C, count_row_all, all_rows_split. apply cnt_app. }
  split.
  - intros H. unfold remove_row. rewrite C.
    destruct (Nat.eqb_spec (cnt l r) 0); [lia|].
    destruct (mrange (n_m (p_head p)) r) as [|e rng] eqn:Q; [apply mrange_nil in Q; congruence|].
    assert (Hl : cnt l r <> 0) by lia.
    assert (P' : Permutation (map fst (erase_last (n_m (p_head p)) r) ++ chain_rows p) (remove1 r l)).
    { apply (@Permutation_cons_inv _ _ _ r). rewrite <- (remove1_perm Hl).
      rewrite <- P, all_rows_split, app_comm_cons. apply Permutation_app_tail. symmetry. now apply erase_last_perm. }
    assert (X1 := @excess_remove 1%Z r l Hl). assert (Xk := @excess_remove (p_max p) r l Hl).
    destruct (negb (p_max p =? -1)%Z && (p_max p <? Z.of_nat (cnt l r))%Z) eqn:B;
      eexists; (split; [reflexivity|]); (split; [|split; reflexivity]);
      unfold pinv; rewrite all_rows_split; unfold chain_rows; cbn [p_head p_chain p_max n_m n_dups n_falsec];
      fold (chain_rows p).
    + apply andb_true_iff in B. destruct B as [B1 B2]. rewrite B2 in Xk.
      apply negb_true_iff, Z.eqb_neq in B1. split; [exact P'|]. split; [|split].
      * destruct (Nat.ltb_spec 1 (cnt l r)), (Z.ltb_spec 1 (Z.of_nat (cnt l r))); lia.
      * intros _. rewrite F by exact B1. lia.
      * congruence.
    + split; [exact P'|]. split; [|split].
      * destruct (Nat.ltb_spec 1 (cnt l r)), (Z.ltb_spec 1 (Z.of_nat (cnt l r))); lia.
      * intros Hm. rewrite F by exact Hm. apply Z.eqb_neq in Hm. rewrite Hm in B. cbn [negb andb] in B.
        rewrite B in Xk. lia.
      * exact G.
  - intros H. unfold remove_row. destruct (count_row p r =? 0); [reflexivity|].
    apply mrange_nil in H. now rewrite H.
Qed.

Lemma branch_inv p l : pinv p l -> pinv (create_branch p) l.
Proof.
  intros (P & D & F & G). unfold pinv, create_branch. cbn [p_head p_chain p_max n_m n_dups n_falsec].
  assert (E : chain_rows (create_branch p) = all_rows p) by reflexivity.
  unfold create_branch in E. split; [|split; [|split]].
  - exact P.
  - exact D.
  - intros _. rewrite E. rewrite (excess_perm (p_max p) P). lia.
  - reflexivity.
Qed.

Lemma new_inv max fi : pinv (prover_new max fi) [].
Proof. repeat split; auto. Qed.

Lemma run_inv ops : forall p l p', pinv p l -> run p ops = Ret p' ->
  pinv p' (outstanding l ops) /\ p_max p' = p_max p /\
  ((0 <= p_max p)%Z -> excess (p_max p) (chain_rows p) = 0%Z -> true_branches (p_max p) l ops ->
     excess (p_max p) (chain_rows p') = 0%Z).
Proof.
  induction ops as [|[r|r|] ops IH]; intros p l p' I E; cbn [run outstanding true_branches] in *.
  - injection E as <-. auto.
  - destruct (add_row_parts p r) as (ls & Em & Ec & Ex & Ed & Ef).
    destruct (IH _ (r :: l) _ (@add_row_inv p r l I) E) as (H1 & H2 & H3).
    split; auto. split; [congruence|]. rewrite Ex in H3. unfold chain_rows in H3 at 1. rewrite Ec in H3. exact H3.
  - destruct (remove_row p r) as [q| | |] eqn:Q; try discriminate. cbn [bind] in E.
    destruct (@remove_row_inv p r l I) as [R1 R2].
    destruct (Nat.eq_dec (cnt (map fst (n_m (p_head p))) r) 0) as [Z|NZ]; [rewrite R2 in Q by exact Z; discriminate|].
    destruct (R1 NZ) as (q' & Eq & Iq & Mq & Cq). rewrite Q in Eq. injection Eq as <-.
    destruct (IH q _ _ Iq E) as (H1 & H2 & H3). split; auto. split; [congruence|].
    rewrite Mq in H3. unfold chain_rows in H3 at 1. rewrite Cq in H3. exact H3.
  - destruct (IH _ l _ (@branch_inv p l I) E) as (H1 & H2 & H3). split; auto. split; [exact H2|].
    intros Hm _ [Ht Hb]. apply H3; auto. cbn [create_branch p_max].
    change (chain_rows (create_branch p)) with (all_rows p).
    destruct I as (P & _). rewrite (excess_perm _ P). apply excess_zero; auto.
Qed.

(* C29/C30: counts, size and duplicates for every history with branches *)
Lemma history_counts max fi ops p : run (prover_new max fi) ops = Ret p ->
  let l := outstanding [] ops in
  (forall r, count_row p r = count_occ req l r) /\
  p_size p = length l /\
  duplicates p = (Z.of_nat (length l) - Z.of_nat (length (nodup req l)))%Z.
Proof.
  intros E l. destruct (run_inv (new_inv max fi) E) as ((P & D & _) & _ & _). fold l in P, D. split; [|split].
  - intros r. rewrite count_row_all. now apply cnt_perm.
  - rewrite p_size_all. now apply Permutation_length.
  - unfold duplicates. rewrite D. apply excess_dups.
Qed.

Lemma history_truth max fi ops p : (0 <= max)%Z -> true_branches max [] ops ->
  run (prover_new max fi) ops = Ret p ->
  truth p = true <-> forall r, (Z.of_nat (count_occ req (outstanding [] ops) r) <= max)%Z.
Proof.
  intros Hm Hb E. destruct (run_inv (new_inv max fi) E) as ((P & D & F & G) & Mx & H3).
  cbn [p_max prover_new] in *. rewrite Mx in *.
  unfold truth. rewrite Z.eqb_eq, F by lia. rewrite H3; auto. rewrite Z.sub_0_r. now apply excess_zero.
Qed.

Lemma history_disabled fi ops p : run (prover_new (-1) fi) ops = Ret p -> truth p = true.
Proof.
  intros E. destruct (run_inv (new_inv (-1) fi) E) as ((P & D & F & G) & Mx & _).
  cbn [p_max prover_new] in *. unfold truth. rewrite G by exact Mx. reflexivity.
Qed.

(* without branches *)
Lemma no_branch_true max ops : (forall o, In o ops -> o <> Branch) -> forall l, true_branches max l ops.
Proof.
  induction ops as [|[r|r|] ops IH]; intros H l; cbn [true_branches]; auto.
  - apply IH. intros o Ho. apply H. now right.
  - apply IH. intros o Ho. apply H. now right.
  - exfalso. apply (H Branch); [now left|reflexivity].
Qed.

(* remove_row throws exactly when the row is not there (in the current branch) *)
Lemma remove_nochain max fi ops p r : (forall o, In o ops -> o <> Branch) ->
  run (prover_new max fi) ops = Ret p ->
  (In r (outstanding [] ops) -> exists p', remove_row p r = Ret p') /\
  (~ In r (outstanding [] ops) -> remove_row p r = Throw LogicError).
Proof.
  intros Hb E. destruct (run_inv (new_inv max fi) E) as (I & _ & _).
  destruct (@remove_row_inv p r _ I) as [R1 R2].
  assert (Ch : p_chain p = []).
  { assert (G : forall ops p0 p', (forall o, In o ops -> o <> Branch) -> run p0 ops = Ret p' -> p_chain p' = p_chain p0).
    { clear. induction ops as [|[r|r|] ops IH]; intros p0 p' H E; cbn [run] in E.
      - congruence.
      - rewrite (IH _ _ (fun o Ho => H o (or_intror Ho)) E).
        destruct (add_row_parts p0 r) as (? & _ & Ec & _). exact Ec.
      - destruct (remove_row p0 r) as [q| | |] eqn:Q; try discriminate. cbn [bind] in E.
        rewrite (IH _ _ (fun o Ho => H o (or_intror Ho)) E).
        unfold remove_row in Q. destruct (count_row p0 r =? 0); [discriminate|].
        destruct (mrange _ _); [discriminate|].
        destruct (negb _ && _); injection Q as <-; reflexivity.
      - exfalso. apply (H Branch); [now left|reflexivity]. }
    now rewrite (G _ _ _ Hb E). }
  destruct I as (P & _). unfold all_rows, p_nodes in P. rewrite Ch in P. cbn [map concat] in P. rewrite app_nil_r in P.
  split; intros H.
  - destruct R1 as (p' & Ep & _); eauto. rewrite (cnt_perm r P). apply (count_occ_In req) in H. unfold cnt. lia.
  - apply R2. rewrite (cnt_perm r P). now apply (count_occ_not_In req).
Qed.

(* add_row's result is the truth so far *)
Lemma add_row_result p r l : pinv p l -> (0 <= p_max p)%Z -> excess (p_max p) (chain_rows p) = 0%Z ->
  snd (add_row p r) = truth (fst (add_row p r)).
Proof.
  intros I Hm Hc. assert (I' := @add_row_inv p r l I).
  destruct I as (P & D & F & G).
  unfold add_row in *. destruct (negb _ && _) eqn:B; [|reflexivity].
  destruct (p_fi p); [|reflexivity]. cbn [fst snd] in *. unfold truth. cbn [p_head n_falsec].
  symmetry. apply Z.eqb_neq. rewrite F by lia. rewrite Hc.
  assert (N := @excess_nonneg (p_max p) l). lia.
Qed.

Lemma run_add ops : forall p rs p', run p (map Add rs ++ ops) = Ret p' <->
  run (fold_left (fun p r => fst (add_row p r)) rs p) ops = Ret p'.
Proof. intros p rs; revert p; induction rs as [|r rs IH]; intros p p'; cbn; [tauto|]. apply IH. Qed.

(* --- C31 --- *)
Lemma outstanding_adds rs l : outstanding l (map Add rs) = rev rs ++ l.
Proof. revert l; induction rs as [|r rs IH]; intros l; cbn; [reflexivity|]. rewrite IH, <- app_assoc. reflexivity. Qed.

Lemma prove_loop_false qp rs p : prove_loop qp rs (p, false) = (p, false).
Proof. induction rs as [|r rs IH]; cbn [prove_loop]; [reflexivity|]. destruct (negb qp || false); auto. Qed.

Lemma prove_loop_spec qp rs : forall p l, pinv p l -> (0 <= p_max p)%Z -> p_chain p = [] ->
  excess (p_max p) l = 0%Z ->
  exists p' ok l', prove_loop qp rs (p, true) = (p', ok) /\ pinv p' l' /\ p_chain p' = [] /\ p_max p' = p_max p /\
    (ok = true -> l' = rev rs ++ l /\ excess (p_max p) l' = 0%Z) /\
    (ok = false -> exists r, ~ (Z.of_nat (cnt (rev rs ++ l) r) <= p_max p)%Z).
Proof.
  induction rs as [|r rs IH]; intros p l I Hm Hc H0.
  - exists p, true, l. cbn. repeat split; auto; try apply I; discriminate.
  - cbn [prove_loop]. rewrite orb_true_r.
    destruct (add_row_parts p r) as (ls & Em & Ec & Ex & Ed & Ef).
    assert (I' := @add_row_inv p r l I).
    assert (Hc0 : excess (p_max p) (chain_rows p) = 0%Z) by (unfold chain_rows; rewrite Hc; reflexivity).
    assert (R := @add_row_result p r l I Hm Hc0).
    destruct (add_row p r) as [q b]. cbn [fst snd] in *.
    assert (Tq : b = true <-> excess (p_max p) (r :: l) = 0%Z).
    { rewrite R. unfold truth. rewrite Z.eqb_eq. destruct I' as (_ & _ & F & _).
      rewrite F by lia. rewrite Ex. unfold chain_rows. rewrite Ec, Hc. cbn [map concat excess]. now rewrite Z.sub_0_r. }
    destruct b.
    + assert (X := proj1 Tq eq_refl).
      destruct (IH q (r :: l) I') as (p' & ok & l' & E & J1 & J2 & J3 & J4 & J5); try congruence.
      exists p', ok, l'. split; [exact E|]. split; [exact J1|]. split; [exact J2|]. split; [congruence|].
      rewrite Ex in J4, J5. cbn [rev]. rewrite <- app_assoc. cbn [app]. split; [exact J4|exact J5].
    + rewrite prove_loop_false. exists q, false, (r :: l). split; [reflexivity|]. split; [exact I'|].
      split; [congruence|]. split; [exact Ex|]. split; [discriminate|]. intros _.
      assert (X : excess (p_max p) (r :: l) <> 0%Z) by (intros X; apply Tq in X; discriminate).
      exists r. assert (N := excess_zero l Hm). assert (Y := proj1 N H0).
      cbn [excess] in X. rewrite H0 in X. destruct (Z.ltb_spec (p_max p) (Z.of_nat (S (cnt l r)))) as [B|B]; [|lia].
      cbn [rev]. rewrite <- app_assoc. cbn [app]. rewrite cnt_app.
      unfold cnt at 2. cbn [count_occ]. destruct (req r r); [|congruence]. fold (cnt l r). lia.
Qed.

Lemma prove_spec tr un max qp fi0 : (0 <= max)%Z ->
  fst (prove tr un max qp fi0) = true <->
  forall r, (Z.of_nat (count_occ req (tr ++ un) r) <= max)%Z.
Proof.
  intros Hm. unfold prove.
  set (p0 := prover_new max (if qp then None else Some fi0)).
  destruct (@prove_loop_spec qp tr p0 []) as (p1 & ok1 & l1 & E1 & J1 & J2 & J3 & J4 & J5); auto.
  { apply new_inv. }
  rewrite E1. cbn [p_max p0] in *.
  assert (Cr : forall r, cnt (rev un ++ rev tr) r = count_occ req (tr ++ un) r).
  { intros r. rewrite <- rev_app_distr. apply cnt_perm, Permutation_sym, Permutation_rev. }
  destruct ok1.
  - destruct J4 as [-> H0]; auto. rewrite app_nil_r in *.
    destruct (@prove_loop_spec qp un p1 (rev tr)) as (p2 & ok2 & l2 & E2 & K1 & K2 & K3 & K4 & K5); auto.
    { rewrite J3. exact Hm. } { now rewrite J3. }
    rewrite E2. cbn [fst]. rewrite J3 in *. cbn [p_max prover_new p0] in *. destruct ok2.
    + destruct K4 as [-> H2]; auto. split; auto. intros _ r. rewrite <- Cr.
      now apply excess_zero.
    + destruct K5 as (r & Hr); auto. split; [discriminate|]. intros H. exfalso. apply Hr. rewrite Cr. apply H.
  - rewrite prove_loop_false. cbn [fst]. destruct J5 as (r & Hr); auto. split; [discriminate|].
    intros H. exfalso. apply Hr. rewrite app_nil_r. specialize (H r). rewrite <- Cr in H. rewrite cnt_app in H. change (p_max p0) with max. lia.
Qed.

(* In full mode too, proving stops adding rows at the first false one. *)
Lemma failinfo_first_only : exists rows, let '(ok, fi) := prove [] rows 1 false [] in
  ok = false /\ length fi = 1 /\ exists r, 1 < count_occ req rows r /\ ~ In r (map fst fi).
Proof.
  exists [[0;1];[0;1];[1;0];[1;0]]. cbn. repeat split. exists [1;0]. cbn. split; [lia|].
  intros [H|[]]. discriminate.
Qed.

(* --- failinfo in add-only histories --- *)
Definition fi_ok (max : Z) (rs : list row) (fi : failinfo) : Prop :=
  NoDup (map fst fi) /\
  (forall r ls, In (r, ls) fi -> Permutation ls (lines_from 1 rs r)) /\
  (forall r, In r (map fst fi) <-> (max < Z.of_nat (cnt rs r))%Z /\ In r rs).

Lemma lines_from_snoc k rs a r : lines_from k (rs ++ [a]) r =
  lines_from k rs r ++ if req a r then [(k + Z.of_nat (length rs))%Z] else [].
Proof.
  revert k; induction rs as [|b rs IH]; intros k; cbn [app lines_from length].
  - rewrite Z.add_0_r. destruct (req a r); reflexivity.
  - rewrite IH. replace (k + 1 + Z.of_nat (length rs))%Z with (k + Z.of_nat (S (length rs)))%Z by lia.
    destruct (req b r); reflexivity.
Qed.

Lemma fi_append_some fi r line fi' : NoDup (map fst fi) -> fi_append fi r line = Some fi' ->
  map fst fi' = map fst fi /\
  (exists ls, In (r, ls) fi /\ In (r, ls ++ [line]) fi') /\
  (forall r' ls, In (r', ls) fi' -> (r' <> r /\ In (r', ls) fi) \/
     (r' = r /\ exists ls0, ls = ls0 ++ [line] /\ In (r, ls0) fi)).
Proof.
  revert fi'; induction fi as [|[a ls] fi IH]; intros fi' N E; cbn [fi_append] in E; [discriminate|].
  cbn [map fst] in N. inversion N as [|? ? Na N']; subst.
  rewrite rq_spec in E. destruct (req a r) as [->|Ha].
  - injection E as <-. split; [reflexivity|]. split.
    + exists ls. split; now left.
    + intros r' ls' [H|H].
      * injection H as <- <-. right. split; auto. exists ls. split; auto. now left.
      * left. split; [|now right]. intros ->. apply Na. apply in_map_iff. exists (r, ls'). auto.
  - destruct (fi_append fi r line) as [t|] eqn:Q; [|discriminate]. injection E as <-.
    destruct (IH t N' eq_refl) as (H1 & (l0 & H2 & H3) & H4). cbn [map fst]. split; [congruence|]. split.
    + exists l0. split; now right.
    + intros r' ls' [H|H].
      * injection H as <- <-. left. split; auto. now left.
      * destruct (H4 _ _ H) as [[X Y]|[X (l1 & Y & Z)]].
        -- left. split; auto. now right.
        -- right. split; auto. exists l1. split; auto. now right.
Qed.

Lemma fi_append_none fi r line : fi_append fi r line = None <-> ~ In r (map fst fi).
Proof.
  induction fi as [|[a ls] fi IH]; cbn [fi_append map fst In]; [tauto|].
  rewrite rq_spec. destruct (req a r) as [->|Ha].
  - split; [discriminate|]. intros H. exfalso. apply H. now left.
  - destruct (fi_append fi r line); split; try discriminate; intros H.
    + exfalso. apply H. right. destruct (in_dec req r (map fst fi)) as [X|X]; auto. apply IH in X. discriminate.
    + intros [X|X]; [congruence|]. now apply IH in H.
    + reflexivity.
Qed.

Lemma mrange_lines m r (rs : list row) : 
  m = rev (combine rs (map (fun i => Z.of_nat (S i)) (seq 0 (length rs)))) ->
  Permutation (map snd (mrange m r)) (lines_from 1 rs r).
Proof.
  intros ->. revert r. induction rs as [|a rs IH] using rev_ind; intros r; [constructor|].
  rewrite app_length. cbn [length]. rewrite Nat.add_1_r, seq_S, map_app. cbn [map Nat.add].
  assert (Ec : combine (rs ++ [a]) (map (fun i => Z.of_nat (S i)) (seq 0 (length rs)) ++ [Z.of_nat (S (length rs))]) =
    combine rs (map (fun i => Z.of_nat (S i)) (seq 0 (length rs))) ++ [(a, Z.of_nat (S (length rs)))]).
  { assert (G : forall (l1 : list row) (l2 : list Z) x y, length l1 = length l2 -> combine (l1 ++ [x]) (l2 ++ [y]) = combine l1 l2 ++ [(x, y)]).
    { induction l1 as [|u l1 IHl]; intros [|v l2] x y E; cbn in *; try lia; auto. rewrite IHl by lia. reflexivity. }
    apply G. now rewrite map_length, seq_length. }
  rewrite Ec, rev_app_distr. cbn [rev app]. unfold mrange. cbn [filter fst]. rewrite rq_spec, lines_from_snoc.
  replace (1 + Z.of_nat (length rs))%Z with (Z.of_nat (S (length rs))) by lia.
  destruct (req a r).
  - cbn [map snd]. eapply Permutation_trans; [apply perm_skip, IH|]. apply Permutation_cons_append.
  - rewrite app_nil_r. apply IH.
Qed.

Lemma lines_from_length k rs r : length (lines_from k rs r) = cnt rs r.
Proof.
  revert k; induction rs as [|a rs IH]; intros k; [reflexivity|]. unfold cnt. cbn [lines_from count_occ].
  destruct (req a r); cbn [length]; now rewrite IH.
Qed.

Definition state_ok (max : Z) (p : prover) (rs : list row) : Prop :=
  n_m (p_head p) = rev (combine rs (map (fun i => Z.of_nat (S i)) (seq 0 (length rs)))) /\
  n_lineno (p_head p) = Z.of_nat (length rs) /\ p_chain p = [] /\ p_max p = max /\
  exists fi, p_fi p = Some fi /\ fi_ok max rs fi.

Lemma combine_fst (rs : list row) k : map fst (combine rs (map (fun i => Z.of_nat (S i)) (seq k (length rs)))) = rs.
Proof. revert k; induction rs as [|a rs IH]; intros k; cbn; [reflexivity|]. now rewrite IH. Qed.

Lemma state_add max p rs r : (0 <= max)%Z -> state_ok max p rs -> state_ok max (fst (add_row p r)) (rs ++ [r]).
Proof.
  intros Hm (Em & El & Ec & Ex & fi & Ef & N & L & I).
  assert (C : count_row p r = cnt rs r).
  { rewrite count_row_all. unfold all_rows, p_nodes. rewrite Ec. cbn [map concat]. rewrite app_nil_r, Em.
    rewrite map_rev, combine_fst. apply cnt_perm, Permutation_sym, Permutation_rev. }
  assert (Em' : (r, (n_lineno (p_head p) + 1)%Z) :: n_m (p_head p) =
     rev (combine (rs ++ [r]) (map (fun i => Z.of_nat (S i)) (seq 0 (length (rs ++ [r])))))).
  { rewrite app_length. cbn [length]. rewrite Nat.add_1_r, seq_S, map_app. cbn [map Nat.add].
    assert (G : forall (l1 : list row) (l2 : list Z) x y, length l1 = length l2 -> combine (l1 ++ [x]) (l2 ++ [y]) = combine l1 l2 ++ [(x, y)]).
    { induction l1 as [|u l1 IHl]; intros [|v l2] x y E; cbn in *; try lia; auto. rewrite IHl by lia. reflexivity. }
    rewrite G by (now rewrite map_length, seq_length). rewrite rev_app_distr. cbn [rev app].
    rewrite Em, El. do 2 f_equal. lia. }
  assert (El' : (n_lineno (p_head p) + 1)%Z = Z.of_nat (length (rs ++ [r]))).
  { rewrite app_length, El. cbn. lia. }
  assert (Cs : forall q, cnt (rs ++ [r]) q = if req r q then S (cnt rs q) else cnt rs q).
  { intros q. rewrite cnt_app. unfold cnt at 2. cbn [count_occ]. destruct (req r q); lia. }
  unfold add_row. rewrite C, Ef, Ex.
  destruct (Z.eqb_spec max (-1)); [lia|]. cbn [negb andb].
  change (Z.of_nat (1 + cnt rs r)) with (Z.of_nat (S (cnt rs r))).
  destruct (Z.ltb_spec max (Z.of_nat (S (cnt rs r)))) as [B|B].
  - cbn [fst]. split; [exact Em'|]. split; [exact El'|]. split; [exact Ec|]. split; [reflexivity|].
    eexists; split; [reflexivity|].
    destruct (fi_append fi r (n_lineno (p_head p) + 1)%Z) as [fi'|] eqn:Q.
    + destruct (fi_append_some N Q) as (H1 & (ls0 & H2 & H2') & H3). split; [now rewrite H1|]. split.
      * intros r' ls Hin. rewrite lines_from_snoc. destruct (H3 _ _ Hin) as [[X Y]|[-> (l1 & -> & Y)]].
        -- destruct (req r r'); [congruence|]. rewrite app_nil_r. now apply L.
        -- destruct (req r r); [|congruence]. apply Permutation_app; [now apply L|].
           rewrite El. replace (1 + Z.of_nat (length rs))%Z with (Z.of_nat (length rs) + 1)%Z by lia. apply Permutation_refl.
      * intros q. rewrite H1, I, Cs, in_app_iff. destruct (req r q) as [<-|Hq].
        -- assert (Hr : In r (map fst fi)) by (apply in_map_iff; exists (r, ls0); auto).
           apply I in Hr. split; [intros _; split; [lia|tauto]|intros _; exact Hr].
        -- cbn [In]. split; [tauto|]. intros [X [Y|[Y|[]]]]; [tauto|congruence].
    + apply fi_append_none in Q. split; [|split].
      * rewrite map_app. cbn [map fst]. apply NoDup_app_iff. repeat split; auto.
        -- repeat constructor. intros [].
        -- intros x Hx [<-|[]]. contradiction.
      * intros r' ls Hin. apply in_app_iff in Hin. rewrite lines_from_snoc. destruct Hin as [Hin|[Hin|[]]].
        -- destruct (req r r') as [<-|].
           ++ exfalso. apply Q. apply in_map_iff. exists (r, ls). auto.
           ++ rewrite app_nil_r. now apply L.
        -- injection Hin as <- <-. destruct (req r r); [|congruence].
           apply Permutation_app; [now apply mrange_lines|]. rewrite El.
           replace (1 + Z.of_nat (length rs))%Z with (Z.of_nat (length rs) + 1)%Z by lia. apply Permutation_refl.
      * intros q. rewrite map_app, in_app_iff, I, Cs, in_app_iff. cbn [map fst In]. destruct (req r q) as [<-|Hq].
        -- split; [intros _; split; [lia|tauto]|tauto].
        -- split; [tauto|]. intros [X [Y|[Y|[]]]]; [tauto|congruence].
  - cbn [fst]. split; [exact Em'|]. split; [exact El'|]. split; [exact Ec|]. split; [reflexivity|].
    exists fi. split; [reflexivity|]. split; [exact N|]. split.
    + intros r' ls Hin. rewrite lines_from_snoc. destruct (req r r') as [<-|].
      * exfalso. assert (Hr : In r (map fst fi)) by (apply in_map_iff; exists (r, ls); auto). apply I in Hr. lia.
      * rewrite app_nil_r. now apply L.
    + intros q. rewrite I, Cs, in_app_iff. cbn [In]. destruct (req r q) as [<-|Hq].
      * split; [intros [X Y]; lia|intros [X Y]; lia].
      * split; [tauto|]. intros [X [Y|[Y|[]]]]; [tauto|congruence].
Qed.

Lemma failinfo_adds max rs p : (0 <= max)%Z -> run (prover_new max (Some [])) (map Add rs) = Ret p ->
  exists fi, p_fi p = Some fi /\ NoDup (map fst fi) /\
    (forall r ls, In (r, ls) fi -> Permutation ls (lines_from 1 rs r)) /\
    (forall r, In r (map fst fi) <-> (max < Z.of_nat (count_occ req rs r))%Z).
Proof.
  intros Hm E.
  assert (G : forall rs2 rs1 p0 p', state_ok max p0 rs1 -> run p0 (map Add rs2) = Ret p' -> state_ok max p' (rs1 ++ rs2)).
  { clear - Hm. induction rs2 as [|r rs2 IH]; intros rs1 p0 p' S E; cbn [map run] in E.
    - injection E as <-. now rewrite app_nil_r.
    - change (r :: rs2) with ([r] ++ rs2). rewrite app_assoc. eapply IH; [|exact E]. now apply state_add. }
  destruct (G rs [] (prover_new max (Some [])) p) as (_ & _ & _ & _ & fi & Ef & N & L & I); auto.
  { repeat split; auto. exists []. split; [reflexivity|]. split; [constructor|]. split.
    - intros r ls [].
    - intros r. cbn. split; [tauto|]. intros [H _]. lia. }
  exists fi. split; [exact Ef|]. split; [exact N|]. split; [exact L|].
  intros r. rewrite I. split; [tauto|]. intros H. split; [exact H|]. apply (count_occ_In req). cbn [app]. unfold row in *. lia.
Qed.

Lemma failinfo_stale : exists ops p fi, run (prover_new 1 (Some [])) ops = Ret p /\ truth p = true /\
  p_fi p = Some fi /\ fi <> [].
Proof.
  exists [Add [0;1]; Add [0;1]; Remove [0;1]]. eexists. eexists. cbn. repeat split. discriminate.
Qed.

Lemma branch_of_false : exists ops p, run (prover_new 1 None) ops = Ret p /\ truth p = true /\
  1 < count_row p [0;1].
Proof.
  exists [Add [0;1]; Add [0;1]; Branch]. eexists. split; [reflexivity|]. split; [reflexivity|]. vm_compute. lia.
Qed.

Lemma run_snoc_add ops : forall p r p', run p ops = Ret p' -> run p (ops ++ [Add r]) = Ret (fst (add_row p' r)).
Proof.
  induction ops as [|[a|a|] ops IH]; intros p r p' E; cbn [run app] in *.
  - injection E as <-. reflexivity.
  - now apply IH.
  - destruct (remove_row p a); try discriminate. cbn [bind] in *. now apply IH.
  - now apply IH.
Qed.

Lemma outstanding_snoc_add ops : forall l r, outstanding l (ops ++ [Add r]) = r :: outstanding l ops.
Proof. induction ops as [|[a|a|] ops IH]; intros l r; cbn [outstanding app]; auto. Qed.

Lemma branch_remove p r :
  remove_row (create_branch p) r = Throw LogicError.
Proof.
  unfold remove_row. destruct (count_row (create_branch p) r =? 0); reflexivity.
Qed.
