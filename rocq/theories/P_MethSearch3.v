(* P_MethSearch3.v - the search of methsearch: the whole search, and what is found. *)
From Verif Require Import Base M_Bell M_Change M_Math M_Row M_PN M_Method M_Proof M_MethSearch
  Spec_Row Spec_Change Spec_Proof P_Row P_Change2 P_Change3 P_Method P_Proof P_MethSearch P_MethSearch2.
From Coq Require Import Permutation.
Set Implicit Arguments.
Unset Strict Implicit.
Open Scope nat_scope.

Lemma firstn_firstn_le {X} (l : list X) n m : n <= m -> firstn n (firstn m l) = firstn n l.
Proof. intros H. rewrite firstn_firstn. now rewrite Nat.min_l. Qed.
Lemma nth_error_skipn' {X} (l : list X) n i : nth_error (skipn n l) i = nth_error l (n + i).
Proof. revert l. induction n as [|n IH]; intros [|x l]; cbn [skipn plus nth_error]; auto. now destruct i. Qed.
Section A.
Variable A : sargs.
Notation L := (sa_len A).
Notation so := (sym_offset A).
Hypothesis SN : sane A.
Let BELLS := sn_bells SN. Let START := sn_start SN. Let EXT := sn_ext SN.

(* the rows to be avoided and the first row are true *)
Definition start_true : Prop := use_prover A = true -> excess (sa_extents A) (sa_start A :: rev (sa_avoid A)) = 0%Z.

Lemma reset_spec : start_true -> exists s, searcher_reset A = Ret s /\ K A s /\ ss_m s = [] /\ ss_count s = 0 /\ ss_out s = [] /\ true_so_far A [].
Proof.
  intros ST. unfold searcher_reset.
  assert (H0 : hist A [] = sa_start A :: rev (sa_avoid A)) by reflexivity.

  assert (T0 : true_so_far A []) by (unfold true_so_far; rewrite H0; exact ST).
  destruct (use_prover A) eqn:U.
  - assert (G : forall av p l, pinv p l -> p_chain p = [] -> p_max p = sa_extents A ->
       let p' := fold_left (fun p r => fst (add_row p r)) av p in pinv p' (rev av ++ l) /\ p_chain p' = [] /\ p_max p' = sa_extents A).
    { induction av as [|r av IH]; intros p l I C M; cbn [fold_left rev app]; [auto|].
      destruct (add_row_parts p r) as (ls & _ & C' & M' & _). rewrite <- app_assoc. apply IH; [now apply add_row_inv|congruence|congruence]. }
    destruct (G (sa_avoid A) (prover_new (sa_extents A) None) []) as (I & C & M); [apply new_inv|reflexivity|reflexivity|]. rewrite app_nil_r in I.
    set (p1 := fold_left _ _ _) in *. destruct (add_row_parts p1 (sa_start A)) as (ls & _ & C' & M' & _).
    assert (I' := @add_row_inv p1 (sa_start A) _ I).
    assert (Tr : truth (fst (add_row p1 (sa_start A))) = true).
    { apply (@truth_excess A BELLS EXT) with (l := sa_start A :: rev (sa_avoid A)); [exact I'|congruence|congruence|now apply ST]. }
    rewrite Tr. cbn [bind]. eexists. split; [reflexivity|]. cbn [ss_m ss_count ss_out]. split; [|auto].
    split; [|cbn [ss_m length]; unfold dstart; pose proof (sn_bells SN); rewrite Nat.div_0_l by (unfold div_len; lia); reflexivity]. split; [constructor|]. split; [reflexivity|]. cbn [ss_m ss_prv]. rewrite U. eexists. split; [reflexivity|]. rewrite H0. split; [exact I'|]. split; congruence.
  - cbn [bind]. eexists. split; [reflexivity|]. cbn [ss_m ss_count ss_out]. split; [|auto].
    split; [|cbn [ss_m length]; unfold dstart; pose proof (sn_bells SN); rewrite Nat.div_0_l by (unfold div_len; lia); reflexivity]. split; [constructor|]. split; [reflexivity|]. cbn [ss_m ss_prv]. now rewrite U.
Qed.

Lemma emit_out l : forall c o, sa_limit A = 0 \/ c <= sa_limit A -> 
  emit A l (c, o) = (c + length (if sa_limit A =? 0 then l else firstn (sa_limit A - c) l),
    if sa_invert A then o else o ++ (if sa_limit A =? 0 then l else firstn (sa_limit A - c) l)).
Proof.
  induction l as [|x l IH]; intros c o H.
  - unfold emit. cbn [fold_left]. destruct (sa_limit A =? 0); rewrite ?firstn_nil, app_nil_r; cbn [length]; rewrite Nat.add_0_r; now destruct (sa_invert A).
  - unfold emit. cbn [fold_left]. fold (emit A l (lim A (c, o) x)). unfold lim. cbn [fst snd].
    destruct (Nat.eqb_spec (sa_limit A) 0) as [Z|N]; cbn [negb andb].
    + rewrite IH by now left. cbn [length]. rewrite Nat.add_succ_r. destruct (sa_invert A); [reflexivity|]. now rewrite <- app_assoc.
    + destruct (Nat.eqb_spec c (sa_limit A)) as [E|NE].
      * rewrite emit_full by (lia || exact E). rewrite E, Nat.sub_diag. cbn [firstn length]. rewrite app_nil_r, Nat.add_0_r. now destruct (sa_invert A).
      * rewrite IH by (right; lia). replace (sa_limit A - c) with (S (sa_limit A - S c)) by lia. cbn [firstn length].
        rewrite Nat.add_succ_r. destruct (sa_invert A); [reflexivity|]. now rewrite <- app_assoc.
Qed.

(* what is found, of all that there is to be found *)
Definition limited {X} (l : list X) : list X := if sa_limit A =? 0 then l else firstn (sa_limit A) l.
Definition all_found : list (list change) := outs A (S L) [] [].

Lemma run_search_spec : start_true -> exists s, run_search A = Ret s /\ ss_m s = [] /\ ss_count s = length (limited all_found) /\
  ss_out s = if sa_invert A then [] else limited all_found.
Proof.
  intros ST. destruct (reset_spec ST) as (s0 & E0 & K0 & M0 & C0 & O0 & T0). unfold run_search. rewrite E0. cbn [bind].
  destruct (@refine A SN [] (S L) s0 K0) as (s & E & Ks & M & EM).
  - now rewrite M0.
  - rewrite M0. split; cbn [length]; lia.
  - lia.
  - rewrite E. cbn [bind]. rewrite M, M0. exists s. split; [reflexivity|]. split; [congruence|].
    rewrite M0, C0, O0 in EM. rewrite emit_out in EM by (right; lia). rewrite Nat.sub_0_r in EM. injection EM as -> ->. auto.
Qed.

(* --- what outs contains --- *)
(* where a change found by symmetry comes from: from an earlier change, perhaps reversed *)
Variable src : nat -> option (nat * bool).
Variable dtest : list change -> bool.
(* the lengths at which the search stops to look *)
Variable stop : nat -> Prop.
Hypothesis STOP : forall m, reach A m -> length m < L -> plan_of A m = Choose -> stop (length m) -> stop (S (length m)).
Hypothesis SRC1 : forall m, reach A m -> stop (length m) -> length m < L -> plan_of A m = Choose -> src (length m) = None /\ (length m = L / 2 -> dtest m = true).
Hypothesis SRC2 : forall m l b, reach A m -> stop (length m) -> length m < L -> plan_of A m = Fold l b ->
  stop (length m + length l) /\
  (forall j, j < length l -> exists k r, src (length m + j) = Some (k, r) /\ k < length m /\
     nth_error l j = option_map (fun c => if r : bool then change_reverse c else c) (nth_error m k)) /\
  (if length m =? L / 2 then b = dtest m else b = true /\ (length m < L / 2 -> length m + length l <= L / 2 \/ forall x, dtest x = true)).

Definition pos_ok (flt M : list change) (i : nat) : Prop :=
  push_ok A (firstn (S i) M) = true /\
  match src i with
  | None => exists c, nth_error M i = Some c /\ In c (nth i (sa_allowed A) []) /\ try_change A flt (firstn i M) c = true
  | Some (k, r) => nth_error M i = option_map (fun c => if r : bool then change_reverse c else c) (nth_error M k)
  end.
Definition final (flt M : list change) : bool := (match flt with [] => true | _ => same_changes flt M end) && sa_accept A M.

Lemma pushes_ok_all l : forall m, pushes_ok A m l = true <-> forall j, j < length l -> push_ok A (m ++ firstn (S j) l) = true.
Proof.
  induction l as [|c l IH]; intros m; cbn [pushes_ok length].
  - split; [lia|reflexivity].
  - rewrite andb_true_iff, IH. split.
    + intros [P Q] [|j] Hj; [exact P|]. cbn [firstn]. specialize (Q j ltac:(lia)). now rewrite <- app_assoc in Q.
    + intros Q. split; [apply (Q 0); lia|]. intros j Hj. specialize (Q (S j) ltac:(lia)). cbn [firstn] in *. now rewrite <- app_assoc.
Qed.

Lemma outs_in flt : forall fuel m M, reach A m -> stop (length m) -> L < fuel + length m ->
  (In M (outs A fuel flt m) <-> length M = L /\ firstn (length m) M = m /\ (forall i, length m <= i < L -> pos_ok flt M i) /\
     (length m <= L / 2 -> dtest (firstn (L / 2) M) = true) /\ final flt M = true).
Proof.
  pose proof (sn_len SN) as L1. assert (LH : L / 2 < L) by (apply Nat.div_lt; lia).
  induction fuel as [|fuel IH]; intros m M R ST FU; [destruct R; lia|]. cbn [outs].
  destruct (Nat.eqb_spec (length m) L) as [EL|NL].
  { fold (final flt m). split.
    - destruct (final flt m) eqn:F; [|contradiction]. intros [<-|[]]. split; [exact EL|]. split; [apply firstn_all|]. split; [intros; lia|]. split; [lia|exact F].
    - intros (LM & E & _ & _ & F). rewrite EL, <- LM, firstn_all in E. subst m. rewrite F. now left. }
  assert (LT : length m < L) by (destruct R; lia).
  destruct (plan_of A m) as [|l b] eqn:PL.
  - destruct (SRC1 R ST LT PL) as [S1 S2].
    assert (ST' : forall c, stop (length (m ++ [c]))) by (intros c; rewrite app_length, Nat.add_1_r; now apply STOP). rewrite in_flat_map.
    assert (RR : forall c, reach A (m ++ [c])).
    { intros c. unfold reach. rewrite app_length. cbn [length]. split; [lia|]. intros FL DS. destruct R as [_ RD]. specialize (RD FL DS).
      destruct RD as [RD|]; [|lia]. assert (length m <> L / 2); [|lia]. intros X. revert PL. unfold plan_of. rewrite FL, DS, X, Nat.eqb_refl. cbn [andb].
      destruct (sa_skewsym A && (L / 2 =? L / 4 + so) && (4 <? L)); discriminate. }
    assert (P : forall M c, length M = L -> firstn (length m) M = m -> nth_error M (length m) = Some c -> firstn (S (length m)) M = m ++ [c]).
    { intros M' c LM E N. rewrite <- E at 2. clear - N. revert N. generalize (length m) as n. intros n. revert n. induction M' as [|x M' IH]; intros [|n] N; try discriminate; cbn [firstn app nth_error] in *; [congruence|].
      f_equal. now apply IH. }
    split.
    + intros (c & I & H). destruct (try_change A flt m c && push_ok A (m ++ [c])) eqn:Q; [|contradiction].
      apply andb_prop in Q as [Q1 Q2]. apply IH in H; [|apply RR|apply ST'|rewrite app_length; cbn [length]; lia]. rewrite app_length in H. cbn [length] in H. rewrite Nat.add_1_r in H.
      destruct H as (LM & E & H & D & F). assert (E0 : firstn (length m) M = m).
      { rewrite <- (firstn_firstn_le M (n := length m) (m := S (length m))) by lia. rewrite E. rewrite firstn_app, firstn_all, Nat.sub_diag. cbn [firstn]. apply app_nil_r. }
      assert (N0 : nth_error M (length m) = Some c).
      { rewrite <- (firstn_skipn (S (length m)) M), E, nth_error_app1 by (rewrite app_length; cbn [length]; lia). rewrite nth_error_app2, Nat.sub_diag by lia. reflexivity. }
      split; [exact LM|]. split; [exact E0|]. split; [|split; [|exact F]].
      * intros i Hi. destruct (Nat.eq_dec i (length m)) as [->|]; [|apply H; lia]. split; [now rewrite E|]. rewrite S1. exists c. rewrite E0. auto.
      * intros HL. destruct (Nat.eq_dec (length m) (L / 2)) as [EE|]; [rewrite <- EE, E0; now apply S2|apply D; lia].
    + intros (LM & E & H & D & F). destruct (H (length m) ltac:(lia)) as [H1 H2]. rewrite S1 in H2. destruct H2 as (c & N & I & T). rewrite E in T. rewrite (P M c LM E N) in H1.
      exists c. split; [exact I|]. rewrite T, H1. cbn [andb]. apply IH; [apply RR|apply ST'|rewrite app_length; cbn [length]; lia|]. rewrite app_length. cbn [length]. rewrite Nat.add_1_r.
      split; [exact LM|]. split; [now apply P|]. split; [intros i Hi; apply H; lia|]. split; [intros; apply D; lia|exact F].
  - destruct (SRC2 R ST LT PL) as (ST' & S1 & S2). rewrite <- app_length in ST'. destruct (fold_ok SN PL R LT) as (_ & N2 & RR & _).
    assert (NL1 : 1 <= length l) by (destruct l; [congruence|cbn; lia]).
    assert (NP : forall M i, firstn (length m) M = m -> i < length m -> nth_error M i = nth_error m i).
    { intros M' i E Hi. rewrite <- E at 1. clear - Hi. revert M' Hi. generalize (length m) as n. intros n. revert i. induction n as [|n IH]; intros i M' Hi; [lia|]. destruct M' as [|x M']; [now destruct i|]. destruct i; [reflexivity|]. cbn [firstn nth_error]. apply IH. lia. }
    assert (PX : forall M, firstn (length m) M = m -> (forall j, j < length l -> nth_error M (length m + j) = nth_error l j) -> length m + length l <= length M -> firstn (length (m ++ l)) M = m ++ l).
    { intros M' E N LE. rewrite app_length. rewrite <- (firstn_skipn (length m) M') at 1. rewrite E, firstn_app_2. f_equal.
      assert (N' : forall j, j < length l -> nth_error (skipn (length m) M') j = nth_error l j). { intros j Hj. rewrite <- N by lia. now rewrite nth_error_skipn'. }
      revert N'. generalize (skipn (length m) M'). clear. induction l as [|x l IH]; intros M' N; [reflexivity|]. destruct M' as [|y M']; [specialize (N 0 ltac:(cbn; lia)); discriminate|].
      cbn [firstn length]. specialize (N 0 ltac:(cbn; lia)) as N0. injection N0 as ->. f_equal. apply IH. intros j Hj. apply (N (S j)). cbn. lia. }
    assert (LE : length m + length l <= L) by (destruct RR as [RR _]; rewrite app_length in RR; exact RR).
    split.
    + intros H. destruct (b && pushes_ok A m l) eqn:Q; [|contradiction]. apply andb_prop in Q as [Q1 Q2]. apply IH in H; [|exact RR|exact ST'|rewrite app_length; lia].
      destruct H as (LM & E & H & D & F).
      assert (E0 : firstn (length m) M = m).
      { rewrite <- (firstn_firstn_le M (n := length m) (m := length (m ++ l))) by (rewrite app_length; lia). rewrite E. rewrite firstn_app, firstn_all, Nat.sub_diag. cbn [firstn]. apply app_nil_r. }
      assert (N0 : forall j, j < length l -> nth_error M (length m + j) = nth_error l j).
      { intros j Hj. rewrite <- (firstn_skipn (length (m ++ l)) M), E, nth_error_app1 by (rewrite app_length; lia). rewrite nth_error_app2 by lia. f_equal. lia. }
      rewrite app_length in *. rewrite pushes_ok_all in Q2. split; [exact LM|]. split; [exact E0|]. split; [|split; [|exact F]].
      * intros i Hi. destruct (Nat.le_gt_cases (length m + length l) i); [apply H; lia|]. set (j := i - length m). replace i with (length m + j) by lia.
        destruct (S1 j ltac:(lia)) as (k & r & Sj & Kj & Nj). split.
        -- replace (firstn (S (length m + j)) M) with (m ++ firstn (S j) l); [apply Q2; lia|].
           rewrite <- (firstn_firstn_le M (n := S (length m + j)) (m := length m + length l)) by lia. rewrite E. rewrite firstn_app. rewrite (firstn_all2 m) by lia. replace (S (length m + j) - length m) with (S j) by lia. reflexivity.
        -- rewrite Sj, (N0 j) by lia. rewrite Nj, (NP M k E0 Kj). reflexivity.
      * intros HL. destruct (Nat.eqb_spec (length m) (L / 2)) as [EE|NE]; [rewrite <- EE, E0; congruence|]. destruct S2 as [_ S2]. destruct S2 as [S2|S2]; [lia|apply D; lia|apply S2].
    + intros (LM & E & H & D & F).
      assert (N0 : forall j, j < length l -> nth_error M (length m + j) = nth_error l j).
      { intros j Hj. destruct (H (length m + j) ltac:(lia)) as [_ H2]. destruct (S1 j Hj) as (k & r & Sj & Kj & Nj). rewrite Sj in H2. rewrite H2, Nj, (NP M k E Kj). reflexivity. }
      assert (E1 : firstn (length (m ++ l)) M = m ++ l) by (apply PX; auto; lia).
      assert (Q : pushes_ok A m l = true).
      { apply pushes_ok_all. intros j Hj. destruct (H (length m + j) ltac:(lia)) as [H1 _].
        rewrite <- (firstn_firstn_le M (n := S (length m + j)) (m := length (m ++ l))) in H1 by (rewrite app_length; lia). rewrite E1, firstn_app, (firstn_all2 m) in H1 by lia. replace (S (length m + j) - length m) with (S j) in H1 by lia. exact H1. }
      assert (B : b = true). { destruct (Nat.eqb_spec (length m) (L / 2)) as [EE|NE]; [rewrite S2, <- D, <- EE, E by lia; reflexivity|apply S2]. }
      rewrite B, Q. cbn [andb]. apply IH; [exact RR|exact ST'|rewrite app_length; lia|]. rewrite E1, app_length. split; [exact LM|]. split; [reflexivity|]. split; [intros i Hi; apply H; lia|].
      split; [intros; apply D; lia|exact F].
Qed.
End A.

(* no method is found twice *)
Lemma outs_prefix A flt : forall fuel m M, In M (outs A fuel flt m) -> exists x, M = m ++ x.
Proof.
  induction fuel as [|fuel IH]; intros m M H; [contradiction|]. cbn [outs] in H. destruct (length m =? sa_len A).
  - destruct (_ && _); [|contradiction]. destruct H as [<-|[]]. exists []. now rewrite app_nil_r.
  - destruct (plan_of A m) as [|l b].
    + apply in_flat_map in H as (c & _ & H). destruct (_ && _); [|contradiction]. destruct (IH _ _ H) as (x & ->). exists (c :: x). now rewrite <- app_assoc.
    + destruct (b && _); [|contradiction]. destruct (IH _ _ H) as (x & ->). exists (l ++ x). now rewrite <- app_assoc.
Qed.
Lemma outs_nodup A flt : Forall (@NoDup change) (sa_allowed A) -> forall fuel m, NoDup (outs A fuel flt m).
Proof.
  intros N. induction fuel as [|fuel IH]; intros m; [constructor|]. cbn [outs]. destruct (length m =? sa_len A).
  - destruct (_ && _); repeat constructor. now intros [].
  - destruct (plan_of A m) as [|l b].
    + assert (NA : NoDup (nth (length m) (sa_allowed A) [])).
      { destruct (nth_in_or_default (length m) (sa_allowed A) []) as [I|E]; [|rewrite E; constructor]. rewrite Forall_forall in N. now apply N. }
      revert NA. generalize (nth (length m) (sa_allowed A) []). induction 1 as [|c l NI ND IHl]; cbn [flat_map]; [constructor|].
      apply NoDup_app_iff. split; [|split].
      * destruct (_ && _); [apply IH|constructor].
      * exact IHl.
      * intros M I1 I2. destruct (_ && _); [|contradiction]. destruct (outs_prefix I1) as (x & E).
        apply in_flat_map in I2 as (c2 & I2 & I3). destruct (_ && _); [|contradiction]. destruct (outs_prefix I3) as (x2 & E2).
        rewrite E, <- !app_assoc in E2. apply app_inv_head in E2. injection E2 as <- _. contradiction.
    + destruct (b && _); [apply IH|constructor].
Qed.
