(* Props_Proof.v - property theorems about provers and proofs. *)
From Verif Require Import Base M_Row M_Proof Spec_Proof P_Proof P_Proof2.
Set Implicit Arguments.
Unset Strict Implicit.
Open Scope nat_scope.

(* C29: histories of one prover (no branches) *)
Theorem C29_counts : forall max fi ops p,
  (forall o, In o ops -> o <> Branch) -> run (prover_new max fi) ops = Ret p ->
  let l := outstanding [] ops in
  (forall r, count_row p r = count_occ req l r) /\
  p_size p = length l /\
  duplicates p = (Z.of_nat (length l) - Z.of_nat (length (nodup req l)))%Z.
Proof. intros max fi ops p _. apply history_counts. Qed.
Print Assumptions C29_counts.

Theorem C29_truth : forall max fi ops p, (0 <= max)%Z ->
  (forall o, In o ops -> o <> Branch) -> run (prover_new max fi) ops = Ret p ->
  (truth p = true <-> forall r, (Z.of_nat (count_occ req (outstanding [] ops) r) <= max)%Z).
Proof. intros max fi ops p H B. apply history_truth; auto. now apply no_branch_true. Qed.
Print Assumptions C29_truth.

(* add_row returns the new truth *)
Theorem C29_add_result : forall max fi ops p r, (0 <= max)%Z ->
  (forall o, In o ops -> o <> Branch) -> run (prover_new max fi) ops = Ret p ->
  snd (add_row p r) = true <->
  forall q, (Z.of_nat (count_occ req (r :: outstanding [] ops) q) <= max)%Z.
Proof.
  intros max fi ops p r H B E.
  destruct (run_inv (new_inv max fi) E) as (I & M & C).
  assert (R : snd (add_row p r) = truth (fst (add_row p r))).
  { eapply add_row_result; [exact I| |]; rewrite M; auto.
    apply C; auto. now apply no_branch_true. }
  rewrite R. apply (@run_snoc_add _ _ r) in E.
  rewrite (@history_truth max fi (ops ++ [Add r]) _ H); [|apply no_branch_true|exact E].
  - now rewrite outstanding_snoc_add.
  - intros o Ho. apply in_app_iff in Ho as [Ho|[<-|[]]]; [auto|discriminate].
Qed.
Print Assumptions C29_add_result.

(* removing succeeds exactly on rows outstanding, and otherwise throws *)
Theorem C29_remove : forall max fi ops p r,
  (forall o, In o ops -> o <> Branch) -> run (prover_new max fi) ops = Ret p ->
  (In r (outstanding [] ops) -> exists p', remove_row p r = Ret p') /\
  (~ In r (outstanding [] ops) -> remove_row p r = Throw LogicError).
Proof. exact remove_nochain. Qed.
Print Assumptions C29_remove.

(* with max_occurs = -1 proving is disabled *)
Theorem C29_disabled : forall fi ops p, run (prover_new (-1) fi) ops = Ret p -> truth p = true.
Proof. exact history_disabled. Qed.
Print Assumptions C29_disabled.

(* when rows are only added, the failinfo lists exactly the rows occurring too often, each once,
   with all the lines at which they were added *)
Theorem C29_failinfo : forall max rs p, (0 <= max)%Z -> run (prover_new max (Some [])) (map Add rs) = Ret p ->
  exists fi, p_fi p = Some fi /\ NoDup (map fst fi) /\
    (forall r ls, In (r, ls) fi -> Permutation ls (lines_from 1 rs r)) /\
    (forall r, In r (map fst fi) <-> (max < Z.of_nat (count_occ req rs r))%Z).
Proof. exact failinfo_adds. Qed.
Print Assumptions C29_failinfo.

(* with removals too: a row occurring too often has an entry with as many lines as it
   occurs; any other entry has max lines; no entry is empty *)
Theorem C29_failinfo_history : forall max ops p, (0 <= max)%Z -> (forall o, In o ops -> o <> Branch) ->
  run (prover_new max (Some [])) ops = Ret p ->
  exists fi, p_fi p = Some fi /\ NoDup (map fst fi) /\
    (forall r ls, In (r, ls) fi -> ls <> [] /\ Z.of_nat (length ls) = Z.max max (Z.of_nat (count_occ req (outstanding [] ops) r))) /\
    (forall r, (max < Z.of_nat (count_occ req (outstanding [] ops) r))%Z -> In r (map fst fi)).
Proof.
  intros max ops p Hm Hb E. destruct (history_failinfo Hm Hb E) as (_ & _ & fi & Ef & N & L & I).
  pose proof (history_counts E) as (Hc & _). cbn zeta in Hc. exists fi. split; [exact Ef|]. split; [exact N|]. split.
  - intros r ls H. rewrite <- Hc. now apply L.
  - intros r H. rewrite <- Hc in H. now apply I.
Qed.
Print Assumptions C29_failinfo_history.

(* but after a removal it can name a row that no longer repeats *)
Theorem C29_failinfo_after_remove_refuted : exists ops p fi,
  run (prover_new 1 (Some [])) ops = Ret p /\ truth p = true /\ p_fi p = Some fi /\ fi <> [].
Proof. exact failinfo_stale. Qed.
Print Assumptions C29_failinfo_after_remove_refuted.

Example C29_case : exists p, run (prover_new 1 None) [Add [0;1]; Add [1;0]; Add [0;1]; Remove [0;1]; Add [1;0]] = Ret p
  /\ truth p = false /\ count_row p [1;0] = 2 /\ count_row p [0;1] = 1 /\ duplicates p = 1%Z.
Proof. eexists. split; [reflexivity|]. repeat split. Qed.

(* C30: branches *)
Theorem C30_branch_counts : forall max fi ops p, run (prover_new max fi) ops = Ret p ->
  let l := outstanding [] ops in
  (forall r, count_row p r = count_occ req l r) /\
  p_size p = length l /\
  duplicates p = (Z.of_nat (length l) - Z.of_nat (length (nodup req l)))%Z.
Proof. exact history_counts. Qed.
Print Assumptions C30_branch_counts.

Theorem C30_branch_truth : forall max fi ops p, (0 <= max)%Z -> true_branches max [] ops ->
  run (prover_new max fi) ops = Ret p ->
  truth p = true <-> forall r, (Z.of_nat (count_occ req (outstanding [] ops) r) <= max)%Z.
Proof. exact history_truth. Qed.
Print Assumptions C30_branch_truth.

(* the report of a branch: lines go on from those of the touch branched from, and only those
   in the branch are named *)
Theorem C30_branch_failinfo : forall max xs ys p, (0 <= max)%Z -> (forall r, (Z.of_nat (count_occ req xs r) <= max)%Z) ->
  run (prover_new max (Some [])) (map Add xs ++ Branch :: map Add ys) = Ret p ->
  exists fi, p_fi p = Some fi /\ NoDup (map fst fi) /\
    (forall r ls, In (r, ls) fi -> Permutation ls (lines_from (Z.of_nat (length xs) + 1) ys r)) /\
    (forall r, In r (map fst fi) <-> (max < Z.of_nat (count_occ req (xs ++ ys) r))%Z).
Proof. exact branch_failinfo. Qed.
Print Assumptions C30_branch_failinfo.

(* a row of the chain cannot be removed through the branch *)
Theorem C30_branch_remove : forall p r,
  remove_row (create_branch p) r = Throw LogicError.
Proof. exact branch_remove. Qed.
Print Assumptions C30_branch_remove.

Theorem C30_branch_of_false_refuted : exists ops p,
  run (prover_new 1 None) ops = Ret p /\ truth p = true /\ 1 < count_row p [0;1].
Proof. exact branch_of_false. Qed.
Print Assumptions C30_branch_of_false_refuted.

Example C30_case : exists p, run (prover_new 1 None) [Add [0;1]; Branch; Add [1;0]; Branch; Add [0;1]] = Ret p
  /\ true_branches 1 [] [Add [0;1]; Branch; Add [1;0]; Branch; Add [0;1]]
  /\ truth p = false /\ count_row p [0;1] = 2 /\ p_size p = 3.
Proof.
  eexists. split; [reflexivity|]. split; [|repeat split].
  cbn [true_branches]. split; [|split; [|exact I]]; intros r; cbn [count_occ];
    repeat match goal with |- context [req ?a ?b] => destruct (req a b) as [<-|] end; try discriminate; lia.
Qed.

(* C31 *)
Theorem C31_prove : forall tr un max qp fi, (0 <= max)%Z ->
  fst (prove tr un max qp fi) = true <->
  forall r, (Z.of_nat (count_occ req (tr ++ un) r) <= max)%Z.
Proof. exact prove_spec. Qed.
Print Assumptions C31_prove.

(* in full mode the failinfo is not the complete list of repeated rows *)
Theorem C31_full_failinfo_refuted : exists rows, let '(ok, fi) := prove [] rows 1 false [] in
  ok = false /\ length fi = 1 /\ exists r, 1 < count_occ req rows r /\ ~ In r (map fst fi).
Proof. exact failinfo_first_only. Qed.
Print Assumptions C31_full_failinfo_refuted.

Example C31_case : fst (prove [[0;1];[1;0]] [[0;1];[1;0]] 2 true []) = true /\
  fst (prove [[0;1];[1;0]] [[0;1];[1;0]] 1 false []) = false.
Proof. split; reflexivity. Qed.
