(* P_MethSearch2.v - the search of methsearch as a tree: the recursion. *)
From Verif Require Import Base M_Bell M_Change M_Math M_Row M_PN M_Method M_Proof M_MethSearch
  Spec_Row Spec_Change Spec_Proof P_Row P_Change2 P_Change3 P_Method P_Proof P_MethSearch.
From Coq Require Import Permutation.
Set Implicit Arguments.
Unset Strict Implicit.
Open Scope nat_scope.

Inductive plan := Choose | Fold (l : list change) (b : bool).

Section A.
Variable A : sargs.
Notation L := (sa_len A).
Notation so := (sym_offset A).

Definition extra_row : nat := if L mod 4 =? 0 then 0 else 1.
(* what happens after the changes m, fewer than a lead *)
Definition plan_of (m : list change) : plan :=
  let d := length m in
  if sa_floating A then Choose
  else if sa_skewsym A && (d =? L / 4 + so) && (4 <? L) then
    Fold (map change_reverse (firstn (L / 2 - 1 - d) (rev (firstn (d - 1 + extra_row) m)))) true
  else if sa_doubsym A && (d =? L / 2) then
    Fold (map change_reverse m)
      ((sa_blows A =? 0) || (double_first_test A m &&
         double_second_test A (m ++ map change_reverse (removelast m)) (change_reverse (last m (mkChange 0 [])))))
  else if sa_sym A && (d =? L / 2 + so) && (2 <? L) then
    Fold (rev (skipn (2 * so - 1) (removelast m))) true
  else if sa_sym A && (1 <? so) && (d =? so) then Fold (rev (removelast m)) true
  else if sa_skewsym A && (d =? 3 * L / 4 + so) && (4 <? L) then
    Fold (map change_reverse (firstn (L - d) (rev (firstn (d - 1 + extra_row) m)))) true
  else Choose.

Fixpoint outs (fuel : nat) (flt m : list change) : list (list change) :=
  match fuel with
  | O => []
  | S fuel =>
    if length m =? L then
      if (match flt with [] => true | _ => same_changes flt m end) && sa_accept A m then [m] else []
    else match plan_of m with
      | Choose => flat_map (fun ch => if try_change A flt m ch && push_ok A (m ++ [ch]) then outs fuel flt (m ++ [ch]) else [])
                    (nth (length m) (sa_allowed A) [])
      | Fold l b => if b && pushes_ok A m l then outs fuel flt (m ++ l) else []
      end
  end.

Definition lim (st : nat * list (list change)) (x : list change) : nat * list (list change) :=
  if negb (sa_limit A =? 0) && (fst st =? sa_limit A) then st
  else (S (fst st), if sa_invert A then snd st else snd st ++ [x]).
Definition emit (l : list (list change)) st := fold_left lim l st.
Lemma emit_app a b st : emit (a ++ b) st = emit b (emit a st).
Proof. apply fold_left_app. Qed.
Lemma emit_full l c o : sa_limit A <> 0 -> c = sa_limit A -> emit l (c, o) = (c, o).
Proof.
  intros N E. induction l as [|x l IH]; [reflexivity|]. cbn [emit fold_left]. unfold lim at 2. cbn [fst].
  destruct (Nat.eqb_spec (sa_limit A) 0); [lia|]. rewrite E, Nat.eqb_refl. cbn [negb andb]. rewrite E in IH. exact IH.
Qed.

(* the options have been checked *)
Record sane : Prop := mkSane {
  sn_bells : sa_bells A <= 255;
  sn_start : row256 (sa_start A);
  sn_ext : (1 <= sa_extents A)%Z;
  sn_len : 1 <= L;
  sn_allowed : length (sa_allowed A) = L;
  sn_changes : Forall (fun l => l <> [] /\ Forall (wfc A) l) (sa_allowed A);
  sn_even : sa_floating A = false -> sa_sym A || sa_doubsym A || sa_skewsym A = true -> L mod 2 = 0;
  sn_two : sa_floating A = false -> (sa_sym A && sa_doubsym A) || (sa_sym A && sa_skewsym A) || (sa_doubsym A && sa_skewsym A) = true ->
     sa_sym A = true /\ sa_doubsym A = true /\ sa_skewsym A = true;
  sn_skew : sa_floating A = false -> sa_skewsym A = true -> so = 0;
  sn_sym : sa_floating A = false -> sa_sym A = true -> so <= L / 2;
  sn_fold : sa_floating A = false -> sa_sym A || sa_doubsym A || sa_skewsym A = true -> maintain_r A = true ->
     sa_start A = [] \/ sa_start A = rounds (sa_bells A) }.
Hypothesis SN : sane.
Let BELLS := sn_bells SN. Let START := sn_start SN. Let EXT := sn_ext SN.

Lemma push_mirror_spec k : forall s m0 x hi, K A s -> true_so_far A (ss_m s) -> ss_m s = m0 ++ x -> hi < length m0 -> k + length x <= hi + 1 ->
  exists s', push_mirror A k (Z.of_nat (length m0) + Z.of_nat hi)%Z s =
      Ret (s', pushes_ok A (ss_m s) (map change_reverse (firstn k (skipn (length x) (rev (firstn (hi + 1) m0)))))) /\
    pushed A s s' (map change_reverse (firstn k (skipn (length x) (rev (firstn (hi + 1) m0)))))
      (pushes_ok A (ss_m s) (map change_reverse (firstn k (skipn (length x) (rev (firstn (hi + 1) m0)))))).
Proof.
  induction k as [|k IH]; intros s m0 x hi H T M Hh Hk; cbn [push_mirror firstn map].
  - exists s. split; [reflexivity|]. now apply pushed_nil.
  - assert (E : exists c, nth_error (ss_m s) (hi - length x) = Some c /\
      skipn (length x) (rev (firstn (hi + 1) m0)) = c :: skipn (S (length x)) (rev (firstn (hi + 1) m0))).
    { destruct (@nth_error_some _ m0 (hi - length x)) as (c & E); [lia|]. exists c. split; [rewrite M, nth_error_app1 by lia; exact E|].
      assert (N : nth_error (rev (firstn (hi + 1) m0)) (length x) = Some c).
      { assert (LF : length (firstn (hi + 1) m0) = hi + 1) by (rewrite firstn_length; lia).
        rewrite nth_error_nth' with (d := c) by (rewrite rev_length; lia). rewrite rev_nth by lia. rewrite LF.
        replace (hi + 1 - S (length x)) with (hi - length x) by lia. f_equal.
        apply nth_error_nth. rewrite <- E. rewrite <- (firstn_skipn (hi + 1) m0) at 2. rewrite nth_error_app1; [reflexivity|lia]. }
      revert N. generalize (rev (firstn (hi + 1) m0)) as l. generalize (length x) as n. clear.
      induction n as [|n IH]; intros [|y l] N; try discriminate; cbn in *; [congruence|]. now apply IH. }
    destruct E as (c & Ec & Es). unfold zget. assert (LM : length (ss_m s) = length m0 + length x) by (rewrite M; apply app_length). rewrite LM.
    destruct (Z.ltb_spec (Z.of_nat (length m0) + Z.of_nat hi - Z.of_nat (length m0 + length x)) 0); [lia|].
    replace (Z.to_nat (Z.of_nat (length m0) + Z.of_nat hi - Z.of_nat (length m0 + length x))) with (hi - length x) by lia.
    rewrite (vget_some Ec). cbn [bind]. rewrite Es. cbn [firstn map].
    assert (W : wfc A c). { destruct H as [(F & _) _]. rewrite Forall_forall in F. apply F. eapply nth_error_In, Ec. }
    apply push_then with (k := push_mirror A k (Z.of_nat (length m0) + Z.of_nat hi)%Z); auto; [now apply reverse_wfc|].
    intros s1 M1 C1 O1 K1 T1. specialize (IH s1 m0 (x ++ [change_reverse c]) hi K1 T1). rewrite app_length in IH. cbn [length] in IH.
    replace (length x + 1) with (S (length x)) in IH by lia. apply IH; [rewrite M1, M, app_assoc; reflexivity|lia|lia].
Qed.

Lemma push_reversed_spec k : forall s m0 x, K A s -> true_so_far A (ss_m s) -> ss_m s = m0 ++ x -> k + length x <= length m0 ->
  exists s', push_reversed A k (length m0) s =
      Ret (s', pushes_ok A (ss_m s) (map change_reverse (firstn k (skipn (length x) m0)))) /\
    pushed A s s' (map change_reverse (firstn k (skipn (length x) m0))) (pushes_ok A (ss_m s) (map change_reverse (firstn k (skipn (length x) m0)))).
Proof.
  induction k as [|k IH]; intros s m0 x H T M Hk; cbn [push_reversed firstn map].
  - exists s. split; [reflexivity|]. now apply pushed_nil.
  - assert (E : exists c, nth_error (ss_m s) (length x) = Some c /\ skipn (length x) m0 = c :: skipn (S (length x)) m0).
    { destruct (@nth_error_some _ m0 (length x)) as (c & E); [lia|]. exists c. split; [rewrite M, nth_error_app1 by lia; exact E|].
      revert E. generalize m0 as l. generalize (length x) as n. clear.
      induction n as [|n IH]; intros [|y l] N; try discriminate; cbn in *; [congruence|]. now apply IH. }
    destruct E as (c & Ec & Es). unfold zget. assert (LM : length (ss_m s) = length m0 + length x) by (rewrite M; apply app_length). rewrite LM.
    destruct (Z.ltb_spec (Z.of_nat (length m0 + length x) - Z.of_nat (length m0)) 0); [lia|].
    replace (Z.to_nat (Z.of_nat (length m0 + length x) - Z.of_nat (length m0))) with (length x) by lia.
    rewrite (vget_some Ec). cbn [bind]. rewrite Es. cbn [firstn map].
    assert (W : wfc A c). { destruct H as [(F & _) _]. rewrite Forall_forall in F. apply F. eapply nth_error_In, Ec. }
    apply push_then with (k := push_reversed A k (length m0)); auto; [now apply reverse_wfc|].
    intros s1 M1 C1 O1 K1 T1. specialize (IH s1 m0 (x ++ [change_reverse c]) K1 T1). rewrite app_length in IH. cbn [length] in IH.
    replace (length x + 1) with (S (length x)) in IH by lia. apply IH; [rewrite M1, M, app_assoc; reflexivity|lia].
Qed.

(* as pushed, but a test after the pushes may have failed *)
Definition pushedw (s s' : sst) (l : list change) (ok : bool) : Prop :=
  ss_count s' = ss_count s /\ ss_out s' = ss_out s /\ J A s' /\
  exists l', ss_m s' = ss_m s ++ l' /\
  (if ok then l' = l /\ ss_div s' = dstart A (length (ss_m s')) /\ true_so_far A (ss_m s')
   else ss_div s' = dstart A (length (ss_m s')) \/ (l' <> [] /\ ss_div s' = dstart A (length (ss_m s') - 1))).
Lemma pushed_w s s' l ok : pushed A s s' l ok -> pushedw s s' l ok.
Proof.
  intros (C & O & I & l' & M & _ & H). split; [exact C|]. split; [exact O|]. split; [exact I|]. exists l'. split; [exact M|]. destruct ok; auto.
Qed.

(* what one call does *)
Definition good (rec : sst -> outcome sst) (s : sst) (o : list (list change)) : Prop :=
  exists s', rec s = Ret s' /\ K A s' /\ ss_m s' = ss_m s /\ (ss_count s', ss_out s') = emit o (ss_count s, ss_out s).

Lemma folded_spec rec s push l ok o :
  K A s -> ss_m s <> [] -> (maintain_r A = true -> sa_start A = [] \/ sa_start A = rounds (sa_bells A)) ->
  (exists s', push s = Ret (s', ok) /\ pushedw s s' l ok) -> 
  (forall s', ok = true -> K A s' -> true_so_far A (ss_m s') -> ss_m s' = ss_m s ++ l -> good rec s' o) ->
  good (fun s => folded A rec s push) s (if ok then o else []).
Proof.
  intros H N S0 (s1 & E & C & O & J1 & l' & M & D) R. unfold good, folded. rewrite E. cbn [bind].
  assert (PT : forall s2, J A s2 -> ss_m s2 = ss_m s ++ l' ->
     (ss_div s2 = dstart A (length (ss_m s2)) \/ (l' <> [] /\ ss_div s2 = dstart A (length (ss_m s2) - 1))) ->
     exists s', pop_to A (S (length (ss_m s2))) (length (ss_m s)) s2 = Ret s' /\ ss_m s' = ss_m s /\ ss_count s' = ss_count s2 /\ ss_out s' = ss_out s2 /\ K A s').
  { intros s2 J2 M2 D2. destruct l' as [|c l'].
    - rewrite app_nil_r in M2. exists s2. cbn [pop_to]. rewrite M2, Nat.ltb_irrefl. repeat split; auto; try apply J2. destruct D2 as [D2|[X _]]; [exact D2|congruence].
    - apply (@pop_to_spec A BELLS) with (l := c :: l'); auto; [discriminate|rewrite M2, app_length; lia| |rewrite <- M2; tauto].
      intros k Hk MR. apply lh_of_srow; auto.
      + intros X. apply length_zero_iff_nil in X. rewrite firstn_length in X. destruct (ss_m s); [congruence|]. cbn [length] in *. rewrite app_length in *. cbn [length] in *. lia.
      + destruct J2 as (F & _). rewrite M2 in F. rewrite <- (firstn_skipn k (ss_m s ++ c :: l')) in F. apply Forall_app in F. apply F. }
  destruct ok.
  - destruct D as (-> & D & T). destruct (R s1 eq_refl (conj J1 D) T M) as (s2 & E2 & K2 & M2 & EM). rewrite E2. cbn [bind].
    destruct (PT s2) as (s3 & E3 & M3 & C3 & O3 & K3); [apply K2|congruence|left; apply K2|]. exists s3. rewrite C3, O3, EM, C, O. auto.
  - cbn [bind]. destruct (PT s1 J1 M D) as (s3 & E3 & M3 & C3 & O3 & K3). exists s3. rewrite E3, C3, O3, C, O. auto.
Qed.

Lemma choose_spec flt rec s (o : list change -> list (list change)) :
  K A s -> true_so_far A (ss_m s) -> length (ss_m s) < L ->
  (forall s' ch, In ch (nth (length (ss_m s)) (sa_allowed A) []) -> K A s' -> true_so_far A (ss_m s') -> ss_m s' = ss_m s ++ [ch] -> good rec s' (o (ss_m s ++ [ch]))) ->
  good (new_midlead_change A flt rec) s
    (flat_map (fun ch => if try_change A flt (ss_m s) ch && push_ok A (ss_m s ++ [ch]) then o (ss_m s ++ [ch]) else []) (nth (length (ss_m s)) (sa_allowed A) [])).
Proof.
  intros H T B R. unfold good, new_midlead_change.
  destruct (@nth_error_some _ (sa_allowed A) (length (ss_m s))) as (l & El); [rewrite (sn_allowed SN); exact B|]. rewrite El.
  rewrite (nth_error_nth _ _ _ El) in *. pose proof (sn_changes SN) as F. rewrite Forall_forall in F. destruct (F l (nth_error_In _ _ El)) as [N W].
  clear El F.
  assert (G : forall l2, incl l2 l -> forall t, K A t -> ss_m t = ss_m s ->
    exists s', forM l2 (fun s ch => if try_change A flt (ss_m s) ch then call_recurse A rec s ch else Ret s) t = Ret s' /\ K A s' /\ ss_m s' = ss_m s /\
     (ss_count s', ss_out s') = emit (flat_map (fun ch => if try_change A flt (ss_m s) ch && push_ok A (ss_m s ++ [ch]) then o (ss_m s ++ [ch]) else []) l2) (ss_count t, ss_out t)).
  { induction l2 as [|c l2 IH]; intros I t Kt Mt; cbn [forM flat_map].
    - exists t. auto.
    - assert (ST : exists t', (if try_change A flt (ss_m t) c then call_recurse A rec t c else Ret t) = Ret t' /\ K A t' /\ ss_m t' = ss_m s /\
        (ss_count t', ss_out t') = emit (if try_change A flt (ss_m s) c && push_ok A (ss_m s ++ [c]) then o (ss_m s ++ [c]) else []) (ss_count t, ss_out t)).
      { rewrite Mt. destruct (try_change A flt (ss_m s) c); cbn [andb]; [|exists t; auto].
        unfold call_recurse. assert (Wc : wfc A c) by (rewrite Forall_forall in W; apply W, I; now left).
        assert (Tt : true_so_far A (ss_m t)) by (rewrite Mt; exact T).
        destruct (@push_spec A BELLS START EXT t c Kt Tt Wc) as (t1 & E1 & M1 & C1 & O1 & J1 & D1). rewrite E1. cbn [bind]. rewrite Mt in *.
        destruct (push_ok A (ss_m s ++ [c])) eqn:P.
        - destruct (R t1 c) as (t2 & E2 & K2 & M2 & EM).
          + apply I. now left.
          + split; [exact J1|]. rewrite D1, M1, app_length. cbn [length]. f_equal. lia.
          + rewrite M1. now apply true_snoc.
          + exact M1.
          + rewrite E2. cbn [bind]. destruct (@pop_spec A BELLS t2 (ss_m s) c (Some (ss_r t))) as (t3 & E3 & M3 & C3 & O3 & K3).
            * apply K2.
            * congruence.
            * intros MR. destruct Kt as [(_ & Rt & _) _]. rewrite (Rt MR), Mt. reflexivity.
            * left. destruct K2 as [_ D2]. rewrite D2, M2, M1, app_length. cbn [length]. f_equal. lia.
            * exists t3. rewrite E3, C3, O3, EM, C1, O1. auto.
        - cbn [bind]. destruct (@pop_spec A BELLS t1 (ss_m s) c (Some (ss_r t))) as (t3 & E3 & M3 & C3 & O3 & K3); auto.
          + intros MR. destruct Kt as [(_ & Rt & _) _]. rewrite (Rt MR), Mt. reflexivity.
          + exists t3. rewrite E3, C3, O3, C1, O1. auto. }
      destruct ST as (t' & E' & K' & M' & EM'). rewrite E'. cbn [bind]. destruct (IH ltac:(intros y Hy; apply I; now right) t' K' M') as (s' & E2 & K2 & M2 & EM2).
      exists s'. rewrite emit_app, <- EM'. auto. }
  destruct (G l (incl_refl l) s H eq_refl) as (s' & E & K' & M' & EM). exists s'. split; [|auto].
  destruct l as [|c0 l0]; [congruence|exact E].
Qed.

Lemma pushes_ok_snoc l : forall m c, pushes_ok A m (l ++ [c]) = pushes_ok A m l && push_ok A (m ++ l ++ [c]).
Proof.
  induction l as [|x l IH]; intros m c; cbn [app pushes_ok].
  - now rewrite andb_true_r.
  - rewrite IH, <- andb_assoc, <- app_assoc. reflexivity.
Qed.

(* a state of the search, when the method is turned over at the half lead *)
Definition reach (m : list change) : Prop :=
  length m <= L /\ (sa_floating A = false -> sa_doubsym A = true -> length m <= L / 2 \/ length m = L).

Lemma Fold_inj l l' b b' : Fold l b = Fold l' b' -> l = l' /\ b = b'.
Proof. now intros [= -> ->]. Qed.
Lemma good_eq f g s o o' : f s = g s -> o = o' -> good g s o' -> good f s o.
Proof. intros E -> (s' & G & H). exists s'. rewrite E. auto. Qed.

Lemma half_even : L mod 2 = 0 -> L = 2 * (L / 2).
Proof. intros E. pose proof (Nat.div_mod L 2). lia. Qed.

(* the states of a fold at a symmetry point *)
Lemma fold_ok l b m : plan_of m = Fold l b -> reach m -> length m < L ->
  m <> [] /\ l <> [] /\ reach (m ++ l) /\ sa_floating A = false /\ sa_sym A || sa_doubsym A || sa_skewsym A = true.
Proof.
  unfold plan_of, reach. destruct (sa_floating A) eqn:FL; [discriminate|]. intros E (R1 & R2) B. specialize (R2 eq_refl).
  assert (EV := sn_even SN FL). assert (TW := sn_two SN FL). assert (SK := sn_skew SN FL). assert (SY := sn_sym SN FL). pose proof (sn_len SN) as L1.
  assert (X4 : forall r, L / r <= L) by (intros [|r]; [cbn; lia|apply Nat.div_le_upper_bound; nia]).
  assert (G : forall (P : Prop) (x : bool), (x = true -> P) -> (if x then P else P) -> P) by (intros ? []; auto).
  assert (EXR : extra_row = if L mod 4 =? 0 then 0 else 1) by reflexivity.
  assert (D4 := Nat.div_mod L 4 ltac:(lia)). assert (M4 := Nat.mod_upper_bound L 4 ltac:(lia)).
  assert (D34 := Nat.div_mod (3 * L) 4 ltac:(lia)). assert (M34 := Nat.mod_upper_bound (3 * L) 4 ltac:(lia)).
  assert (NE : forall (x : list change), length x <> 0 -> x <> []) by (intros x Hx ->; cbn in Hx; lia).
  set (D := length m) in *.
  destruct (sa_skewsym A && (D =? L / 4 + so) && (4 <? L)) eqn:T1.
  { apply andb_prop in T1 as [T1 T3]. apply andb_prop in T1 as [T1 T2]. apply Nat.eqb_eq in T2. apply Nat.ltb_lt in T3. rewrite T1 in *.
    rewrite (SK eq_refl) in *. assert (H2 : L = 2 * (L / 2)) by (apply half_even, EV; now rewrite orb_true_r).
    set (ex := extra_row) in *. assert (XB : ex <= 1 /\ (ex = 0 -> L mod 4 = 0)) by (rewrite EXR; destruct (Nat.eqb_spec (L mod 4) 0); lia). apply Fold_inj in E as [<- _].
    assert (LE : length (map change_reverse (firstn (L / 2 - 1 - D) (rev (firstn (D - 1 + ex) m)))) = L / 2 - 1 - D).
    { rewrite map_length, firstn_length, rev_length, firstn_length. fold D. lia. }
    split; [apply NE; fold D; lia|]. split; [apply NE; rewrite LE; lia|]. split; [|split; [reflexivity|now rewrite orb_true_r]].
    rewrite app_length, LE. fold D. lia. }
  destruct (sa_doubsym A && (D =? L / 2)) eqn:T2.
  { apply andb_prop in T2 as [T2 T3]. apply Nat.eqb_eq in T3. rewrite T2 in *. apply Fold_inj in E as [<- _].
    assert (H2 : L = 2 * (L / 2)) by (apply half_even, EV; now rewrite orb_true_r).
    split; [apply NE; fold D; lia|]. split; [apply NE; rewrite map_length; fold D; lia|].
    split; [|split; [reflexivity|now rewrite orb_true_r]]. rewrite app_length, map_length. fold D. lia. }
  destruct (sa_sym A && (D =? L / 2 + so) && (2 <? L)) eqn:T3.
  { apply andb_prop in T3 as [T3 T5]. apply andb_prop in T3 as [T3 T4]. apply Nat.eqb_eq in T4. apply Nat.ltb_lt in T5. rewrite T3 in *.
    specialize (SY eq_refl). assert (H2 : L = 2 * (L / 2)) by (apply half_even, EV; reflexivity). apply Fold_inj in E as [<- _].
    assert (LR : length (removelast m) = D - 1).
    { destruct (@exists_last _ m) as (m' & z & Em); [apply NE; fold D; lia|]. unfold D. rewrite Em, removelast_last, app_length. cbn. lia. }
    split; [apply NE; fold D; lia|]. split; [apply NE; rewrite rev_length, skipn_length, LR; lia|].
    split; [|split; reflexivity]. rewrite app_length, rev_length, skipn_length, LR. fold D. split; [lia|].
    intros _ DS. rewrite DS in *. destruct (TW eq_refl) as (_ & _ & KS). specialize (SK KS). rewrite SK in *. exfalso. rewrite Nat.add_0_r in T4. rewrite T4, Nat.eqb_refl in T2. discriminate. }
  destruct (sa_sym A && (1 <? so) && (D =? so)) eqn:T4.
  { apply andb_prop in T4 as [T4 T6]. apply andb_prop in T4 as [T4 T5]. apply Nat.eqb_eq in T6. apply Nat.ltb_lt in T5. rewrite T4 in *.
    specialize (SY eq_refl). assert (H2 : L = 2 * (L / 2)) by (apply half_even, EV; reflexivity). apply Fold_inj in E as [<- _].
    assert (LR : length (removelast m) = D - 1).
    { destruct (@exists_last _ m) as (m' & z & Em); [apply NE; fold D; lia|]. unfold D. rewrite Em, removelast_last, app_length. cbn. lia. }
    split; [apply NE; fold D; lia|]. split; [apply NE; rewrite rev_length, LR; lia|].
    split; [|split; reflexivity]. rewrite app_length, rev_length, LR. fold D. split; [lia|].
    intros _ DS. rewrite DS in *. destruct (TW eq_refl) as (_ & _ & KS). specialize (SK KS). lia. }
  destruct (sa_skewsym A && (D =? 3 * L / 4 + so) && (4 <? L)) eqn:T5; [|discriminate].
  apply andb_prop in T5 as [T5 T7]. apply andb_prop in T5 as [T5 T6]. apply Nat.eqb_eq in T6. apply Nat.ltb_lt in T7. rewrite T5 in *.
  rewrite (SK eq_refl) in *. assert (H2 : L = 2 * (L / 2)) by (apply half_even, EV; now rewrite orb_true_r).
  set (ex := extra_row) in *. assert (ex <= 1) by (rewrite EXR; destruct (L mod 4 =? 0); lia). apply Fold_inj in E as [<- _].
  assert (LE : length (map change_reverse (firstn (L - D) (rev (firstn (D - 1 + ex) m)))) = L - D).
  { rewrite map_length, firstn_length, rev_length, firstn_length. fold D. lia. }
  split; [apply NE; fold D; lia|]. split; [apply NE; rewrite LE; lia|]. split; [|split; [reflexivity|now rewrite orb_true_r]].
  rewrite app_length, LE. fold D. split; [lia|]. intros _ DS. specialize (R2 DS). lia.
Qed.

(* the state after a fold: as if its changes were pushed *)
Lemma double_push s m0 c0 : K A s -> true_so_far A (ss_m s) -> ss_m s = m0 ++ [c0] -> length (ss_m s) = L / 2 -> L mod 2 = 0 ->
  let ok := ((sa_blows A =? 0) || double_second_test A (ss_m s ++ map change_reverse m0) (change_reverse c0)) &&
            pushes_ok A (ss_m s) (map change_reverse (m0 ++ [c0])) in
  exists s', ('(s1, ok) <- push_reversed A (L - 1 - L / 2) (L / 2) s ;;
    c <- zget (ss_m s1) (Z.of_nat (L / 2) - 1)%Z ;;
    let ch := change_reverse c in
    let ok := ok && ((sa_blows A =? 0) || double_second_test A (ss_m s1) ch) in
    if (ok : bool) then push_change A s1 ch else Ret (s1, false)) = Ret (s', ok) /\
   pushedw s s' (map change_reverse (m0 ++ [c0])) ok.
Proof.
  intros H T M LM EV ok. apply half_even in EV. assert (L0 : length m0 = L / 2 - 1) by (rewrite M, app_length in LM; cbn [length] in LM; lia).
  assert (FM : firstn (L / 2 - 1) (ss_m s) = m0). { rewrite M, (firstn_prefix BELLS), firstn_all2 by lia. reflexivity. }
  destruct (@push_reversed_spec (L / 2 - 1) s (ss_m s) [] H T) as (s1 & E1 & P1); [now rewrite app_nil_r|cbn [length]; lia|].
  cbn [length skipn] in E1, P1. rewrite FM, LM in *. replace (L - 1 - L / 2) with (L / 2 - 1) by lia. rewrite E1. cbn [bind].
  destruct P1 as (C1 & O1 & J1 & l' & M1 & _ & P1).
  assert (W0 : wfc A c0). { destruct H as [(F & _) _]. rewrite M in F. apply Forall_app in F as [_ F]. now inversion F. }
  unfold zget. destruct (Z.ltb_spec (Z.of_nat (L / 2) - 1) 0) as [Hn|_]; [rewrite M, app_length in LM; cbn [length] in LM; lia|].
  replace (Z.to_nat (Z.of_nat (L / 2) - 1)) with (L / 2 - 1) by lia.
  assert (G0 : nth_error (ss_m s1) (L / 2 - 1) = Some c0).
  { rewrite M1, M, <- app_assoc. rewrite nth_error_app2 by lia. replace (L / 2 - 1 - length m0) with 0 by lia. reflexivity. }
  rewrite (vget_some G0). cbn [bind]. cbv zeta. unfold ok. clear ok. rewrite map_app. cbn [map]. rewrite pushes_ok_snoc.
  destruct (pushes_ok A (ss_m s) (map change_reverse m0)) eqn:P; cbn [andb].
  - destruct P1 as (-> & D1 & T1). rewrite M1. set (b2 := (sa_blows A =? 0) || _). destruct b2; cbn [andb].
    + destruct (@push_spec A BELLS START EXT s1 (change_reverse c0) (conj J1 D1) T1 (reverse_wfc BELLS W0)) as (s2 & E2 & M2 & C2 & O2 & J2 & D2).
      rewrite E2. rewrite M1, <- app_assoc in *. exists s2. split; [reflexivity|].
      split; [congruence|]. split; [congruence|]. split; [exact J2|]. exists (map change_reverse m0 ++ [change_reverse c0]). split; [exact M2|].
      assert (LL : S (length (ss_m s ++ map change_reverse m0)) = length (ss_m s2)) by (rewrite M2, !app_length; cbn; lia).
      rewrite LL in D2.
      destruct (push_ok A (ss_m s ++ map change_reverse m0 ++ [change_reverse c0])) eqn:PO.
      * split; [reflexivity|]. split; [exact D2|]. rewrite M2. rewrite app_assoc in *. now apply true_snoc.
      * right. split; [destruct (map change_reverse m0); discriminate|]. rewrite D2. f_equal. lia.
    + exists s1. split; [reflexivity|]. split; [exact C1|]. split; [exact O1|]. split; [exact J1|]. exists (map change_reverse m0). split; [exact M1|]. left. exact D1.
  - rewrite andb_false_r. exists s1. split; [reflexivity|]. split; [exact C1|]. split; [exact O1|]. split; [exact J1|]. exists l'. split; [exact M1|].
    right. exact P1.
Qed.

Lemma refine flt : forall fuel s, K A s -> true_so_far A (ss_m s) -> reach (ss_m s) -> L < fuel + length (ss_m s) ->
  good (general_recurse A fuel flt) s (outs fuel flt (ss_m s)).
Proof.
  induction fuel as [|fuel IH]; intros s H T (RB & RD) FU; [lia|]. cbn [outs].
  destruct (dstart_spec BELLS (length (ss_m s))) as [DB DM]. pose proof H as [HJ HD]. unfold good. cbn [general_recurse]. rewrite HD.
  destruct (length (ss_m s) <? dstart A (length (ss_m s))) eqn:Q; [apply Nat.ltb_lt in Q; lia|].
  assert (NX : (negb (length (ss_m s) - dstart A (length (ss_m s)) =? length (ss_m s) mod div_len A) || false) = false) by (rewrite DM, Nat.eqb_refl; reflexivity).
  rewrite NX. clear NX.
  destruct (negb (sa_limit A =? 0) && (ss_count s =? sa_limit A)) eqn:LI.
  { apply andb_prop in LI as [N E]. apply Nat.eqb_eq in E. destruct (Nat.eqb_spec (sa_limit A) 0) as [|N0]; [discriminate|].
    exists s. split; [reflexivity|]. split; [exact H|]. split; [reflexivity|]. now rewrite emit_full. }
  destruct (Nat.eqb_spec (length (ss_m s)) L) as [EL|NL].
  { exists (found A flt s). split; [reflexivity|]. unfold found.
    destruct flt as [|f0 fl]; [|destruct (same_changes (f0 :: fl) (ss_m s))]; cbn [negb andb];
      [| |now split]; (destruct (sa_accept A (ss_m s)); [|now split]);
      (split; [exact H|]; split; [reflexivity|]; unfold emit; cbn [fold_left ss_count ss_out]; unfold lim; cbn [fst snd]; rewrite LI; reflexivity). }
  set (rec := general_recurse A fuel flt). assert (LT : length (ss_m s) < L) by lia.
  assert (GC : plan_of (ss_m s) = Choose -> good (new_midlead_change A flt rec) s
     (flat_map (fun ch => if try_change A flt (ss_m s) ch && push_ok A (ss_m s ++ [ch]) then outs fuel flt (ss_m s ++ [ch]) else []) (nth (length (ss_m s)) (sa_allowed A) []))).
  { intros PL. apply choose_spec with (o := fun m => outs fuel flt m); auto. intros s' ch I K' T' M'. rewrite <- M'. apply IH; auto; rewrite M', ?app_length; cbn [length]; [|lia].
    unfold reach. rewrite app_length. cbn [length]. split; [lia|]. intros FL DS. specialize (RD FL DS).
    destruct RD as [RD|]; [|lia]. assert (length (ss_m s) <> L / 2); [|lia]. intros X. revert PL. unfold plan_of. rewrite FL, DS, X, Nat.eqb_refl. cbn [andb].
    destruct (sa_skewsym A && (L / 2 =? L / 4 + so) && (4 <? L)); discriminate. }
  assert (GF : forall push l b ok, plan_of (ss_m s) = Fold l b -> ok = b && pushes_ok A (ss_m s) l ->
     (exists s', push s = Ret (s', ok) /\ pushedw s s' l ok) ->
     good (fun s => folded A rec s push) s (if b && pushes_ok A (ss_m s) l then outs fuel flt (ss_m s ++ l) else [])).
  { intros push l b ok PL -> P. destruct (fold_ok PL (conj RB RD) LT) as (N1 & N2 & RR & FL & SY).
    apply folded_spec with (l := l); auto; [apply (sn_fold SN FL SY)|].
    intros s' _ K' T' M'. rewrite <- M'. apply IH; auto; rewrite M'; [exact RR|]. rewrite app_length. destruct l; [congruence|cbn [length]; lia]. }
  assert (PLE : plan_of (ss_m s) = plan_of (ss_m s)) by reflexivity. unfold plan_of in PLE at 1.
  destruct (sa_floating A) eqn:FL.
  { rewrite <- PLE in *. now apply GC. }
  specialize (RD eq_refl).
  assert (EV := sn_even SN FL). assert (TW := sn_two SN FL). assert (SK := sn_skew SN FL). assert (SY := sn_sym SN FL). pose proof (sn_len SN) as L1.
  assert (EXR : extra_row = if L mod 4 =? 0 then 0 else 1) by reflexivity.
  assert (EXZ : (if L mod 4 =? 0 then 0%Z else 1%Z) = Z.of_nat extra_row) by (unfold extra_row; destruct (L mod 4 =? 0); reflexivity).
  assert (D4 := Nat.div_mod L 4 ltac:(lia)). assert (M4 := Nat.mod_upper_bound L 4 ltac:(lia)).
  assert (D34 := Nat.div_mod (3 * L) 4 ltac:(lia)). assert (M34 := Nat.mod_upper_bound (3 * L) 4 ltac:(lia)).
  set (D := length (ss_m s)) in *.
  destruct (sa_skewsym A && (D =? L / 4 + so) && (4 <? L)) eqn:T1.
  { rewrite <- PLE in *. pose proof T1 as T1'. apply andb_prop in T1 as [T1 T3]. apply andb_prop in T1 as [T1 T2]. apply Nat.eqb_eq in T2. apply Nat.ltb_lt in T3. rewrite T1 in *.
    rewrite (SK eq_refl) in *. cbn [Nat.eqb negb]. rewrite andb_false_r.
    assert (H2 : L = 2 * (L / 2)) by (apply half_even, EV; now rewrite orb_true_r).
    rewrite EXZ. assert (XB : extra_row <= 1 /\ (extra_row = 0 -> L mod 4 = 0)) by (rewrite EXR; destruct (Nat.eqb_spec (L mod 4) 0); lia).
    assert (XD : 2 <= D + extra_row) by lia. assert (XE : D + extra_row - 2 + 1 = D - 1 + extra_row) by lia.
    eapply GF; [reflexivity|reflexivity|]. cbn [andb].
    replace (2 * (Z.of_nat (L / 4) - 1 + Z.of_nat 0) + Z.of_nat extra_row)%Z with (Z.of_nat (length (ss_m s)) + Z.of_nat (D + extra_row - 2))%Z
      by (fold D; lia).
    destruct (@push_mirror_spec (L / 2 - 1 + 0 - D) s (ss_m s) [] (D + extra_row - 2)) as (s' & E' & P'); auto; [now rewrite app_nil_r|fold D; lia|cbn [length]; lia|].
    cbn [length skipn] in E', P'. rewrite XE in *.
    rewrite Nat.add_0_r in *. exists s'. split; [exact E'|]. now apply pushed_w. }
  destruct (sa_doubsym A && (D =? L / 2)) eqn:T2.
  { rewrite <- PLE in *. apply andb_prop in T2 as [T2 T3]. apply Nat.eqb_eq in T3. rewrite T2 in *.
    assert (HE : L mod 2 = 0) by (apply EV; now rewrite orb_true_r). assert (H2 := half_even HE).
    unfold double_existing. fold D. rewrite HE, T3, (Nat.eqb_refl (L / 2)). cbn [Nat.eqb negb].
    destruct (@exists_last _ (ss_m s)) as (m0 & c0 & Em); [intros X; unfold D in T3; rewrite X in T3; cbn [length] in T3; lia|].
    assert (RL : removelast (ss_m s) = m0) by (rewrite Em; apply removelast_last).
    assert (LA : last (ss_m s) (mkChange 0 []) = c0) by (rewrite Em; apply last_last).
    rewrite RL, LA in *.
    destruct (sa_blows A =? 0) eqn:BL; cbn [negb andb orb].
    - assert (DP := @double_push s m0 c0 H T Em T3 HE). rewrite BL in DP. cbn [orb andb] in DP. rewrite <- Em in DP.
      apply (GF _ _ _ _ eq_refl eq_refl). cbn [andb]. exact DP.
    - destruct (double_first_test A (ss_m s)); cbn [negb andb]; [|exists s; auto].
      assert (DP := @double_push s m0 c0 H T Em T3 HE). rewrite BL in DP. cbn [orb andb] in DP. rewrite <- Em in DP.
      eapply GF; [reflexivity|reflexivity|]. exact DP. }
  destruct (sa_sym A && (D =? L / 2 + so) && (2 <? L)) eqn:T3.
  { rewrite <- PLE in *. apply andb_prop in T3 as [T3 T5]. apply andb_prop in T3 as [T3 T4]. apply Nat.eqb_eq in T4. apply Nat.ltb_lt in T5. rewrite T3 in *.
    specialize (SY eq_refl). assert (H2 : L = 2 * (L / 2)) by (apply half_even, EV; reflexivity).
    destruct (sa_skewsym A || sa_doubsym A) eqn:KD.
    { exfalso. destruct TW as (_ & DS & KS); [destruct (sa_skewsym A), (sa_doubsym A); try discriminate; reflexivity|].
      rewrite DS, (SK KS), Nat.add_0_r in *. rewrite T4, Nat.eqb_refl in T2. discriminate. }
    assert (KE : (if so =? 0 then 0 else 2 * so - 1) = 2 * so - 1) by (destruct (Nat.eqb_spec so 0); lia). rewrite KE.
    destruct (Nat.ltb_spec D (2 * so - 1 + 1)); [lia|].
    eapply GF; [reflexivity|reflexivity|]. cbn [andb].
    destruct (@push_all_spec A BELLS START EXT (rev (skipn (2 * so - 1) (removelast (ss_m s)))) s H T) as (s' & E' & P').
    - apply Forall_forall. intros x Hx. apply in_rev in Hx. destruct HJ as (F & _). rewrite Forall_forall in F. apply F.
      assert (In x (removelast (ss_m s))). { rewrite <- (firstn_skipn (2 * so - 1) (removelast (ss_m s))). apply in_or_app. now right. }
      destruct (ss_m s) as [|y m] eqn:X; [contradiction|]. rewrite (@app_removelast_last _ (y :: m) y) by discriminate. apply in_or_app. now left.
    - exists s'. split; [exact E'|]. now apply pushed_w. }
  destruct (sa_sym A && (1 <? so) && (D =? so)) eqn:T4.
  { rewrite <- PLE in *. eapply GF; [reflexivity|reflexivity|]. cbn [andb].
    destruct (@push_all_spec A BELLS START EXT (rev (removelast (ss_m s))) s H T) as (s' & E' & P').
    - apply Forall_forall. intros x Hx. apply in_rev in Hx. destruct HJ as (F & _). rewrite Forall_forall in F. apply F.
      destruct (ss_m s) as [|y m] eqn:X; [contradiction|]. rewrite (@app_removelast_last _ (y :: m) y) by discriminate. apply in_or_app. now left.
    - exists s'. split; [exact E'|]. now apply pushed_w. }
  destruct (sa_skewsym A && (D =? 3 * L / 4 + so) && (4 <? L)) eqn:T5.
  { rewrite <- PLE in *. apply andb_prop in T5 as [T5 T7]. apply andb_prop in T5 as [T5 T6]. apply Nat.eqb_eq in T6. apply Nat.ltb_lt in T7. rewrite T5 in *.
    rewrite (SK eq_refl) in *. assert (H2 : L = 2 * (L / 2)) by (apply half_even, EV; now rewrite orb_true_r).
    destruct (sa_doubsym A || sa_sym A) eqn:KD.
    { exfalso. destruct TW as (_ & DS & KS); [destruct (sa_sym A), (sa_doubsym A); try discriminate; reflexivity|]. specialize (RD DS). lia. }
    rewrite EXZ. assert (XB : extra_row <= 1) by (rewrite EXR; destruct (Nat.eqb_spec (L mod 4) 0); lia).
    eapply GF; [reflexivity|reflexivity|]. cbn [andb].
    replace (2 * (Z.of_nat (3 * L / 4) - 1 + Z.of_nat 0) + Z.of_nat extra_row)%Z with (Z.of_nat (length (ss_m s)) + Z.of_nat (D + extra_row - 2))%Z by (fold D; lia).
    destruct (@push_mirror_spec (L - D) s (ss_m s) [] (D + extra_row - 2)) as (s' & E' & P'); auto; [now rewrite app_nil_r|fold D; lia|cbn [length]; lia|].
    cbn [length skipn] in E', P'. replace (D + extra_row - 2 + 1) with (D - 1 + extra_row) in *  by lia.
    exists s'. split; [exact E'|]. now apply pushed_w. }
  rewrite <- PLE in *. now apply GC.
Qed.
End A.
