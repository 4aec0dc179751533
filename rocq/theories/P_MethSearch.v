(* P_MethSearch.v - the search of methsearch as a tree: pushing and popping changes. *)
From Verif Require Import Base M_Bell M_Change M_Math M_Row M_PN M_Method M_Proof M_MethSearch
  Spec_Row Spec_Change Spec_Proof P_Row P_Change2 P_Change3 P_Method P_Proof.
From Coq Require Import Permutation.
Set Implicit Arguments.
Unset Strict Implicit.
Open Scope nat_scope.

Section A.
Variable A : sargs.
Notation L := (sa_len A).
Notation bells := (sa_bells A).

Definition wfc (c : change) : Prop := cn c = bells /\ wf_change c.
(* the row after the changes *)
Definition srow (m : list change) : row := match forM m row_mul_change (sa_start A) with Ret r => r | _ => [] end.
(* the rows with the prover, newest first *)
Definition hist (m : list change) : list row :=
  map (fun k => srow (firstn k m)) (filter (fun k => negb (unproved A k)) (rev (seq 1 (length m)))) ++ sa_start A :: rev (sa_avoid A).
Definition push_ok (m : list change) : bool :=
  negb (maintain_r A) || unproved A (length m) ||
  (if use_prover A then (Z.of_nat (cnt (hist m) (srow m)) <=? sa_extents A)%Z
   else negb (existsb (row_eqb (srow m)) (sa_avoid A))).
Definition true_so_far (m : list change) : Prop := use_prover A = true -> excess (sa_extents A) (hist m) = 0%Z.

Hypothesis BELLS : bells <= 255.
Hypothesis START : row256 (sa_start A).
Hypothesis EXT : (1 <= sa_extents A)%Z.

Lemma forM_app {X Y} (f : Y -> X -> outcome Y) a b s : forM (a ++ b) f s = (s' <- forM a f s ;; forM b f s').
Proof. revert s. induction a as [|x a IH]; intros s; cbn [app forM bind]; [reflexivity|]. destruct (f s x); cbn [bind]; auto. Qed.

Lemma rows_ret m : Forall wfc m -> forall r, row256 r -> exists r', forM m row_mul_change r = Ret r' /\ row256 r'.
Proof.
  induction 1 as [|c m [B W] F IH]; intros r R; cbn [forM]; [eauto|].
  destruct (@row_mul_change_spec r c R W) as (r1 & E & R1 & _); [lia|]. rewrite E. cbn [bind]. now apply IH.
Qed.
Lemma srow_ret m : Forall wfc m -> forM m row_mul_change (sa_start A) = Ret (srow m) /\ row256 (srow m).
Proof. intros F. destruct (rows_ret F START) as (r & E & R). unfold srow. rewrite E. auto. Qed.
Lemma srow_snoc m c : Forall wfc m -> wfc c -> row_mul_change (srow m) c = Ret (srow (m ++ [c])).
Proof.
  intros F [B W]. destruct (srow_ret F) as [E R]. destruct (@row_mul_change_spec _ c R W) as (r1 & E1 & _); [lia|].
  unfold srow at 2. rewrite forM_app, E. cbn [bind forM]. rewrite E1. reflexivity.
Qed.

Lemma firstn_prefix {X} k (m l : list X) : k <= length m -> firstn k (m ++ l) = firstn k m.
Proof. intros H. rewrite firstn_app. replace (k - length m) with 0 by lia. cbn [firstn]. apply app_nil_r. Qed.
Lemma hist_snoc m c : hist (m ++ [c]) = if unproved A (S (length m)) then hist m else srow (m ++ [c]) :: hist m.
Proof.
  unfold hist. rewrite app_length. cbn [length]. rewrite Nat.add_1_r, seq_S, rev_app_distr. cbn [rev app filter].
  replace (1 + length m) with (S (length m)) by lia.
  assert (E : map (fun k => srow (firstn k (m ++ [c]))) (filter (fun k => negb (unproved A k)) (rev (seq 1 (length m)))) =
              map (fun k => srow (firstn k m)) (filter (fun k => negb (unproved A k)) (rev (seq 1 (length m))))).
  { apply map_ext_in. intros k Hk. apply filter_In in Hk as [Hk _]. apply in_rev, in_seq in Hk. rewrite firstn_prefix; [reflexivity|lia]. }
  destruct (unproved A (S (length m))); cbn [negb map app]; rewrite E; [reflexivity|].
  rewrite firstn_all2; [reflexivity|]. rewrite app_length. cbn. lia.
Qed.

(* division starts *)
Notation d := (div_len A).
Lemma d_pos : 2 <= d.
Proof. unfold div_len. lia. Qed.
Definition dstart (k : nat) : nat := k / d * d.
Lemma dstart_spec k : dstart k <= k < dstart k + d /\ k - dstart k = k mod d.
Proof. unfold dstart. pose proof (Nat.div_mod k d). pose proof (Nat.mod_upper_bound k d). pose proof d_pos. nia. Qed.
Lemma dstart_uniq k x : x <= k < x + d -> (exists q, x = q * d) -> x = dstart k.
Proof. intros H (q & ->). unfold dstart. f_equal. apply Nat.div_unique with (k - q * d); [lia|]. pose proof d_pos. nia. Qed.
Lemma dstart_push k : (if S k =? dstart k + d then dstart k + d else dstart k) = dstart (S k).
Proof.
  pose proof (dstart_spec k) as [B _]. pose proof d_pos. destruct (Nat.eqb_spec (S k) (dstart k + d)) as [E|E]; apply dstart_uniq; try lia.
  - exists (S (k / d)). unfold dstart. lia.
  - exists (k / d). reflexivity.
Qed.
Lemma dstart_pop k : (if k <? dstart (S k) then dstart (S k) - d else dstart (S k)) = dstart k.
Proof.
  pose proof (dstart_spec k) as [B _]. pose proof d_pos. pose proof (dstart_push k) as P. destruct (Nat.eqb_spec (S k) (dstart k + d)) as [E|E]; rewrite <- P.
  - destruct (Nat.ltb_spec k (dstart k + d)); lia.
  - destruct (Nat.ltb_spec k (dstart k)); lia.
Qed.
Lemma dstart_pop0 k : (if k <? dstart k then dstart k - d else dstart k) = dstart k.
Proof. pose proof (dstart_spec k). destruct (Nat.ltb_spec k (dstart k)); lia. Qed.

(* the prover and the row belong to the changes *)
Definition J (s : sst) : Prop :=
  Forall wfc (ss_m s) /\ (maintain_r A = true -> ss_r s = srow (ss_m s)) /\
  (if use_prover A then exists p, ss_prv s = Some p /\ pinv p (hist (ss_m s)) /\ p_chain p = [] /\ p_max p = sa_extents A
   else ss_prv s = None).
Definition K (s : sst) : Prop := J s /\ ss_div s = dstart (length (ss_m s)).

Lemma maintain_prover : use_prover A = true -> maintain_r A = true.
Proof. unfold maintain_r. now intros ->. Qed.

Lemma truth_excess p l : pinv p l -> p_chain p = [] -> p_max p = sa_extents A -> (truth p = true <-> excess (sa_extents A) l = 0%Z).
Proof.
  intros (P & D & F & G) C M. unfold truth. rewrite F by lia. unfold chain_rows. rewrite C, M. cbn [map concat excess]. rewrite Z.eqb_eq. lia.
Qed.

Lemma true_snoc m c : true_so_far m -> push_ok (m ++ [c]) = true -> true_so_far (m ++ [c]).
Proof.
  intros T P U. specialize (T U). unfold push_ok in P. rewrite (maintain_prover U), U, app_length in P. cbn [negb orb length] in P. rewrite Nat.add_1_r in P. rewrite hist_snoc in *.
  destruct (unproved A (S (length m))); [exact T|]. cbn [orb] in P. apply Z.leb_le in P. unfold cnt in P. cbn [count_occ] in P. destruct (req (srow (m ++ [c])) (srow (m ++ [c]))); [|congruence].
  cbn [excess]. unfold cnt. destruct (Z.ltb_spec (sa_extents A) (Z.of_nat (S (count_occ req (hist m) (srow (m ++ [c])))))); lia.
Qed.

Lemma push_spec s ch : K s -> true_so_far (ss_m s) -> wfc ch ->
  exists s', push_change A s ch = Ret (s', push_ok (ss_m s ++ [ch])) /\ ss_m s' = ss_m s ++ [ch] /\
    ss_count s' = ss_count s /\ ss_out s' = ss_out s /\ J s' /\
    ss_div s' = (if push_ok (ss_m s ++ [ch]) then dstart (S (length (ss_m s))) else dstart (length (ss_m s))).
Proof.
  intros [(F & R & P) D] T W. unfold push_change. rewrite app_length. cbn [length]. rewrite Nat.add_1_r, D.
  assert (F' : Forall wfc (ss_m s ++ [ch])) by (apply Forall_app; auto).
  pose proof (dstart_push (length (ss_m s))) as DP.
  assert (OK : push_ok (ss_m s ++ [ch]) = negb (maintain_r A) || unproved A (S (length (ss_m s))) ||
     (if use_prover A then (Z.of_nat (cnt (hist (ss_m s ++ [ch])) (srow (ss_m s ++ [ch]))) <=? sa_extents A)%Z
      else negb (existsb (row_eqb (srow (ss_m s ++ [ch]))) (sa_avoid A)))).
  { unfold push_ok. rewrite app_length. cbn [length]. now rewrite Nat.add_1_r. }
  destruct (maintain_r A) eqn:M.
  - rewrite (R eq_refl), (srow_snoc F W). cbn [bind]. pose proof (hist_snoc (ss_m s) ch) as HS.
    destruct (unproved A (S (length (ss_m s)))) eqn:U.
    + cbn [bind orb negb] in *. rewrite OK.
      assert (J' : forall dv, J (mkSst (ss_m s ++ [ch]) dv (srow (ss_m s ++ [ch])) (ss_prv s) (ss_count s) (ss_out s))).
      { intros dv. repeat split; auto. cbn [ss_m ss_prv]. destruct (use_prover A); [rewrite HS|]; exact P. }
      eexists. split; [reflexivity|].
      destruct (S (length (ss_m s)) =? dstart (length (ss_m s)) + d); cbn [ss_m ss_count ss_out ss_div]; auto 10.
    + cbn [orb negb] in OK. destruct (use_prover A) eqn:UP.
      * destruct P as (p & Ep & I & C & X). rewrite Ep.
        pose proof (@add_row_result p (srow (ss_m s ++ [ch])) _ I) as AR. assert (I' := @add_row_inv p (srow (ss_m s ++ [ch])) _ I).
        destruct (add_row_parts p (srow (ss_m s ++ [ch]))) as (ls & _ & C' & X' & _).
        destruct (add_row p (srow (ss_m s ++ [ch]))) as [p' ok]. cbn [fst snd] in *. cbn [bind].
        assert (Eok : ok = push_ok (ss_m s ++ [ch])).
        { rewrite AR; [|lia|unfold chain_rows; rewrite C; reflexivity].
          assert (T2 := truth_excess I'). rewrite C', X', C, X in T2. specialize (T2 eq_refl eq_refl).
          cbn [excess] in T2. rewrite (T UP) in T2. rewrite OK, HS. unfold cnt at 1. cbn [count_occ]. destruct (req (srow (ss_m s ++ [ch])) (srow (ss_m s ++ [ch]))); [|congruence].
          fold (cnt (hist (ss_m s)) (srow (ss_m s ++ [ch]))).
          destruct (Z.ltb_spec (sa_extents A) (Z.of_nat (S (cnt (hist (ss_m s)) (srow (ss_m s ++ [ch])))))), (Z.leb_spec (Z.of_nat (S (cnt (hist (ss_m s)) (srow (ss_m s ++ [ch]))))) (sa_extents A)); try lia.
          - destruct (truth p'); [|reflexivity]. assert (true = true) by reflexivity. apply T2 in H1. lia.
          - apply T2. reflexivity. }
        rewrite <- Eok.
        assert (J' : forall dv, J (mkSst (ss_m s ++ [ch]) dv (srow (ss_m s ++ [ch])) (Some p') (ss_count s) (ss_out s))).
        { intros dv. repeat split; auto. cbn [ss_m ss_prv]. rewrite UP. exists p'. rewrite HS. repeat split; try apply I'; congruence. }
        destruct ok; [|eexists; split; [reflexivity|]; cbn [ss_m ss_count ss_out ss_div]; auto 10].
        eexists. split; [reflexivity|]. destruct (S (length (ss_m s)) =? dstart (length (ss_m s)) + d); cbn [ss_m ss_count ss_out ss_div]; auto 10.
      * rewrite P. cbn [bind]. rewrite OK.
        assert (J' : forall dv, J (mkSst (ss_m s ++ [ch]) dv (srow (ss_m s ++ [ch])) None (ss_count s) (ss_out s))).
        { intros dv. repeat split; auto. cbn [ss_m ss_prv]. rewrite UP. reflexivity. }
        destruct (existsb (row_eqb (srow (ss_m s ++ [ch]))) (sa_avoid A)); cbn [negb].
        -- eexists. split; [reflexivity|]. cbn [ss_m ss_count ss_out ss_div]. auto 10.
        -- eexists. split; [reflexivity|]. destruct (S (length (ss_m s)) =? dstart (length (ss_m s)) + d); cbn [ss_m ss_count ss_out ss_div]; auto 10.
  - cbn [bind]. cbn [orb negb] in OK. rewrite OK.
    assert (UP : use_prover A = false) by (destruct (use_prover A) eqn:UP; [apply maintain_prover in UP; congruence|reflexivity]).
    rewrite UP in P.
    assert (J' : forall dv, J (mkSst (ss_m s ++ [ch]) dv (ss_r s) (ss_prv s) (ss_count s) (ss_out s))).
    { intros dv. repeat split; auto; [cbn [ss_m ss_r]; congruence|]. cbn [ss_m ss_prv]. rewrite UP. exact P. }
    eexists. split; [reflexivity|]. destruct (S (length (ss_m s)) =? dstart (length (ss_m s)) + d); cbn [ss_m ss_count ss_out ss_div]; auto 10.
Qed.

(* r_old is the row before, or it is computed anew *)
Definition old_ok (m : list change) (o : option row) : Prop :=
  maintain_r A = true -> match o with Some r => r = srow m | None => lh_of A m = Ret (srow m) end.

Lemma pop_spec s m c o : J s -> ss_m s = m ++ [c] -> old_ok m o ->
  ss_div s = dstart (S (length m)) \/ ss_div s = dstart (length m) ->
  exists s', pop_change A s o = Ret s' /\ ss_m s' = m /\ ss_count s' = ss_count s /\ ss_out s' = ss_out s /\ K s'.
Proof.
  intros (F & R & P) E O D. unfold pop_change. rewrite E.
  assert (NE : exists x y, m ++ [c] = x :: y) by (destruct m; cbn; eauto). destruct NE as (x & y & NE). rewrite NE, <- NE, removelast_last.
  rewrite E in F. apply Forall_app in F as [F Fc]. inversion Fc as [|? ? W _]; subst.
  assert (DV : (if length m <? ss_div s then ss_div s - d else ss_div s) = dstart (length m)).
  { destruct D as [-> | ->]; [apply dstart_pop|apply dstart_pop0]. }
  rewrite DV. pose proof (hist_snoc m c) as HS. rewrite E in P, R.
  destruct (maintain_r A) eqn:M.
  - assert (RR : (match o with Some r => Ret r | None => lh_of A m end) = Ret (srow m)).
    { specialize (O M). destruct o; [now rewrite O|exact O]. }
    destruct (unproved A (S (length m))) eqn:U.
    + cbn [bind]. rewrite RR. cbn [bind]. eexists. split; [reflexivity|]. cbn [ss_m ss_count ss_out]. repeat split; auto.
      cbn [ss_m ss_prv]. destruct (use_prover A); [rewrite <- HS; exact P|exact P].
    + destruct (use_prover A) eqn:UP.
      * destruct P as (p & Ep & I & C & X). rewrite Ep, (R eq_refl). rewrite HS in I.
        assert (CN : cnt (map fst (n_m (p_head p))) (srow (m ++ [c])) <> 0).
        { destruct I as (PM & _). rewrite all_rows_split in PM. unfold chain_rows in PM. rewrite C in PM. cbn [map concat] in PM. rewrite app_nil_r in PM.
          rewrite (cnt_perm _ PM). unfold cnt. cbn [count_occ]. destruct (req (srow (m ++ [c])) (srow (m ++ [c]))); [lia|congruence]. }
        destruct (@remove_row_inv p (srow (m ++ [c])) _ I) as [RI _]. destruct (RI CN) as (p' & E' & I' & X' & C').
        rewrite E'. cbn [bind]. rewrite RR. cbn [bind]. eexists. split; [reflexivity|]. cbn [ss_m ss_count ss_out]. repeat split; auto.
        cbn [ss_m ss_prv]. rewrite UP. exists p'. cbn [remove1] in I'. destruct (req (srow (m ++ [c])) (srow (m ++ [c]))); [|congruence].
        repeat split; try apply I'; congruence.
      * rewrite P. cbn [bind]. rewrite RR. cbn [bind]. eexists. split; [reflexivity|]. cbn [ss_m ss_count ss_out]. repeat split; auto.
        cbn [ss_m ss_prv]. now rewrite UP.
  - eexists. split; [reflexivity|]. cbn [ss_m ss_count ss_out]. repeat split; auto; [cbn [ss_r]; congruence|]. cbn [ss_prv].
    assert (UP : use_prover A = false) by (destruct (use_prover A) eqn:UP; [apply maintain_prover in UP; congruence|reflexivity]). rewrite UP in *. exact P.
Qed.

(* the first row is rounds, or not given *)
Lemma lh_of_srow m : (sa_start A = [] \/ sa_start A = rounds bells) -> m <> [] -> Forall wfc m -> lh_of A m = Ret (srow m).
Proof.
  intros S0 N F. unfold lh_of. destruct (srow_ret F) as [E _]. rewrite <- E. destruct S0 as [->| ->]; [|reflexivity].
  destruct m as [|c m]; [congruence|]. inversion F as [|? ? [B W] _]; subst. cbn [forM].
  replace (row_mul_change (rounds bells) c) with (row_mul_change [] c); [reflexivity|].
  assert (E0 : pad bells [] = pad bells (rounds bells)).
  { rewrite rounds_id by lia. unfold pad, id_row. cbn [length app]. rewrite seq_length, Nat.sub_diag, Nat.sub_0_r. cbn [seq]. now rewrite app_nil_r. }
  unfold row_mul_change. rewrite !row_pad_pad by lia. rewrite B, E0. reflexivity.
Qed.

Lemma pop_to_spec l : forall fuel s m, J s -> ss_m s = m ++ l -> l <> [] -> length l <= fuel ->
  (forall k, length m <= k < length (m ++ l) -> old_ok (firstn k (m ++ l)) None) ->
  ss_div s = dstart (length (m ++ l)) \/ ss_div s = dstart (length (m ++ l) - 1) ->
  exists s', pop_to A fuel (length m) s = Ret s' /\ ss_m s' = m /\ ss_count s' = ss_count s /\ ss_out s' = ss_out s /\ K s'.
Proof.
  induction l as [|c l IH] using rev_ind; intros fuel s m I E N B O D; [congruence|]. rewrite app_length in B. cbn [length] in B.
  destruct fuel as [|fuel]; [lia|]. cbn [pop_to]. rewrite E, app_length. destruct (Nat.ltb_spec (length m) (length m + length (l ++ [c]))) as [_|G]; [|rewrite app_length in G; cbn in G; lia].
  assert (X : length (m ++ l ++ [c]) = S (length (m ++ l))) by (rewrite !app_length; cbn; lia).
  destruct (@pop_spec s (m ++ l) c None I) as (s1 & E1 & M1 & C1 & O1 & K1).
  - rewrite E. now rewrite app_assoc.
  - specialize (O (length (m ++ l))). rewrite X, app_length in O. specialize (O ltac:(lia)). rewrite app_assoc, firstn_prefix, firstn_all2 in O; [exact O|rewrite app_length; lia|rewrite app_length; lia].
  - rewrite X in D. replace (S (length (m ++ l)) - 1) with (length (m ++ l)) in D by lia. exact D.
  - rewrite E1. cbn [bind]. destruct l as [|x l].
    + rewrite app_nil_r in M1. destruct fuel; cbn [pop_to]; rewrite M1, Nat.ltb_irrefl; exists s1; auto 10.
    + destruct (IH fuel s1 m) as (s2 & E2 & M2 & C2 & O2 & K2).
      * apply K1.
      * exact M1.
      * discriminate.
      * lia.
      * intros k Hk. specialize (O k ltac:(rewrite X; lia)). rewrite app_assoc, firstn_prefix in O by lia. exact O.
      * left. destruct K1 as [_ D1]. rewrite D1, M1. reflexivity.
      * exists s2. rewrite E2, C2, O2. auto.
Qed.

Lemma reverse_wfc c : wfc c -> wfc (change_reverse c).
Proof. intros [B W]. split; [exact B|]. apply reverse_wf; [lia|exact W]. Qed.

(* pushing a list of changes *)
Fixpoint pushes_ok (m l : list change) : bool :=
  match l with [] => true | c :: l => push_ok (m ++ [c]) && pushes_ok (m ++ [c]) l end.
(* the state after pushing a list: the whole list if all went well *)
Definition pushed (s s' : sst) (l : list change) (ok : bool) : Prop :=
  ss_count s' = ss_count s /\ ss_out s' = ss_out s /\ J s' /\
  exists l', ss_m s' = ss_m s ++ l' /\ l' = firstn (length l') l /\ 
  (if ok then l' = l /\ ss_div s' = dstart (length (ss_m s')) /\ true_so_far (ss_m s')
   else l' <> [] /\ ss_div s' = dstart (length (ss_m s') - 1)).

Lemma push_then s ch l (k : sst -> outcome (sst * bool)) : K s -> true_so_far (ss_m s) -> wfc ch ->
  (forall s1, ss_m s1 = ss_m s ++ [ch] -> ss_count s1 = ss_count s -> ss_out s1 = ss_out s -> K s1 -> true_so_far (ss_m s1) ->
     exists s', k s1 = Ret (s', pushes_ok (ss_m s1) l) /\ pushed s1 s' l (pushes_ok (ss_m s1) l)) ->
  exists s', ('(s1, ok) <- push_change A s ch ;; if (ok : bool) then k s1 else Ret (s1, false)) = Ret (s', pushes_ok (ss_m s) (ch :: l)) /\
    pushed s s' (ch :: l) (pushes_ok (ss_m s) (ch :: l)).
Proof.
  intros H T W IH. destruct (push_spec H T W) as (s1 & E & M1 & C1 & O1 & J1 & D1). rewrite E. cbn [bind pushes_ok].
  destruct (push_ok (ss_m s ++ [ch])) eqn:P; cbn [andb].
  - destruct (IH s1 M1 C1 O1) as (s' & E' & C2 & O2 & J2 & l' & M2 & L2 & H2).
    + split; [exact J1|]. rewrite D1, M1, app_length. cbn [length]. f_equal. lia.
    + rewrite M1. now apply true_snoc.
    + rewrite M1 in *. exists s'. split; [exact E'|]. split; [congruence|]. split; [congruence|]. split; [exact J2|].
      exists (ch :: l'). split; [rewrite M2, <- app_assoc; reflexivity|]. split; [cbn [length firstn]; now rewrite <- L2|].
      destruct (pushes_ok (ss_m s ++ [ch]) l).
      * destruct H2 as (-> & H2). auto.
      * destruct H2 as (_ & H2). split; [discriminate|exact H2].
  - exists s1. split; [reflexivity|]. split; [exact C1|]. split; [exact O1|]. split; [exact J1|]. exists [ch]. split; [exact M1|]. split; [reflexivity|].
    split; [discriminate|]. rewrite D1, M1, app_length. cbn [length]. f_equal. lia.
Qed.

Lemma pushed_nil s : K s -> true_so_far (ss_m s) -> pushed s s [] true.
Proof. intros [H D] T. repeat split; auto; try apply H. exists []. rewrite app_nil_r. auto. Qed.

Lemma push_all_spec l : forall s, K s -> true_so_far (ss_m s) -> Forall wfc l ->
  exists s', push_all A l s = Ret (s', pushes_ok (ss_m s) l) /\ pushed s s' l (pushes_ok (ss_m s) l).
Proof.
  induction l as [|c l IH]; intros s H T F; cbn [push_all].
  - exists s. split; [reflexivity|]. now apply pushed_nil.
  - inversion F; subst. apply push_then; auto.
Qed.
End A.
