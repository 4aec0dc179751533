(* P_MethSearch4.v - the search of methsearch: the symmetries. *)
From Verif Require Import Base M_Bell M_Change M_Math M_Row M_PN M_Method M_Proof M_MethSearch
  Spec_Row Spec_Change Spec_Proof P_Row P_Change2 P_Change3 P_Method P_Proof P_MethSearch P_MethSearch2 P_MethSearch3.
From Coq Require Import Permutation.
Set Implicit Arguments.
Unset Strict Implicit.
Open Scope nat_scope.

Section A.
Variable A : sargs.
Notation L := (sa_len A).
Notation so := (sym_offset A).
Hypothesis SN : sane A.
Hypothesis S4 : sa_floating A = false -> sa_skewsym A = true -> 4 < L.

Definition tail1 : nat := if so =? 0 then 1 else 0.
Definition srcf (i : nat) : option (nat * bool) :=
  if sa_floating A then None
  else if sa_skewsym A then
    if (L / 4 <=? i) && (i <? L / 2 - 1) then Some (L / 2 - 2 - i, true)
    else if sa_doubsym A then (if L / 2 <=? i then Some (i - L / 2, true) else None)
    else if 3 * L / 4 <=? i then Some (L + L / 2 - 2 - i, true) else None
  else if sa_doubsym A then (if L / 2 <=? i then Some (i - L / 2, true) else None)
  else if sa_sym A then
    if (so <=? i) && (i <? 2 * so - 1) then Some (2 * so - 2 - i, false)
    else if (L / 2 + so <=? i) && (i <? L - tail1) then Some (L + 2 * so - 2 - i, false) else None
  else None.
Definition stopf (n : nat) : Prop :=
  sa_floating A = false ->
  (sa_skewsym A = true -> (n <= L / 4 \/ L / 2 - 1 <= n) /\ (sa_doubsym A = false -> n <= 3 * L / 4 \/ n = L)) /\
  (sa_doubsym A = true -> n <= L / 2 \/ n = L) /\
  (sa_skewsym A = false -> sa_doubsym A = false -> sa_sym A = true -> (n <= so \/ 2 * so - 1 <= n) /\ (n <= L / 2 + so \/ L - tail1 <= n)).
Definition dtestf (m : list change) : bool :=
  sa_floating A || negb (sa_doubsym A) ||
  ((sa_blows A =? 0) || (double_first_test A m &&
         double_second_test A (m ++ map change_reverse (removelast m)) (change_reverse (last m (mkChange 0 []))))).

(* the five folds *)
Inductive fold_case (m : list change) (l : list change) (b : bool) : Prop :=
| FC1 : sa_skewsym A = true -> so = 0 -> length m = L / 4 -> b = true -> l = map change_reverse (firstn (L / 2 - 1 - length m) (rev (firstn (length m - 1 + extra_row A) m))) -> fold_case m l b
| FC2 : sa_doubsym A = true -> length m = L / 2 -> l = map change_reverse m -> b = dtestf m -> fold_case m l b
| FC3 : sa_sym A = true -> sa_skewsym A = false -> sa_doubsym A = false -> so <= L / 2 -> length m = L / 2 + so -> 2 < L -> b = true -> l = rev (skipn (2 * so - 1) (removelast m)) -> fold_case m l b
| FC4 : sa_sym A = true -> sa_skewsym A = false -> sa_doubsym A = false -> so <= L / 2 -> length m = so -> 1 < so -> b = true -> l = rev (removelast m) -> fold_case m l b
| FC5 : sa_skewsym A = true -> sa_doubsym A = false -> so = 0 -> length m = 3 * L / 4 -> b = true -> l = map change_reverse (firstn (L - length m) (rev (firstn (length m - 1 + extra_row A) m))) -> fold_case m l b.

Lemma not_all : sa_floating A = false -> sa_sym A = true -> sa_skewsym A && sa_doubsym A = false -> sa_skewsym A = false /\ sa_doubsym A = false.
Proof.
  clear S4. intros FL SY X. pose proof (sn_two SN FL) as TW. rewrite SY in TW. destruct (sa_skewsym A), (sa_doubsym A); try discriminate; auto;
    destruct (TW eq_refl) as (_ & ? & ?); discriminate.
Qed.

Lemma plan_inv m : reach A m -> stopf (length m) -> length m < L ->
  match plan_of A m with
  | Choose => sa_floating A = true \/ (sa_floating A = false /\ 
      (sa_skewsym A = true -> so = 0 /\ length m <> L / 4) /\ (sa_doubsym A = true -> length m <> L / 2) /\
      (sa_skewsym A = true -> sa_doubsym A = false -> length m <> 3 * L / 4) /\
      (sa_skewsym A = false -> sa_doubsym A = false -> sa_sym A = true -> (so <= 1 \/ length m <> so) /\ (L <= 2 \/ length m <> L / 2 + so)))
  | Fold l b => sa_floating A = false /\ L mod 2 = 0 /\ fold_case m l b
  end.
Proof.
  intros R ST LT. unfold plan_of. set (D := length m). cbv zeta.
  destruct (Bool.bool_dec (sa_floating A) true) as [FL|FL]; [rewrite FL; now left|]. apply Bool.not_true_is_false in FL. pose proof (S4 FL) as S4'. rewrite FL.
  assert (EV := sn_even SN FL). assert (TW := not_all FL). assert (SK := sn_skew SN FL). assert (SY := sn_sym SN FL).
  destruct (sa_skewsym A && (D =? L / 4 + so) && (4 <? L)) eqn:T1.
  { apply andb_prop in T1 as [T1 T3]. apply andb_prop in T1 as [T1 T2]. apply Nat.eqb_eq in T2. split; [reflexivity|]. split; [apply EV; rewrite T1; apply orb_true_r|].
    pose proof (SK T1) as Z. rewrite Z, Nat.add_0_r in T2. apply FC1; auto. }
  destruct (sa_doubsym A && (D =? L / 2)) eqn:T2.
  { apply andb_prop in T2 as [T2 T3]. apply Nat.eqb_eq in T3. split; [reflexivity|]. split; [apply EV; rewrite T2, orb_true_r; reflexivity|].
    apply FC2; auto. unfold dtestf. rewrite FL, T2. reflexivity. }
  destruct (sa_sym A && (D =? L / 2 + so) && (2 <? L)) eqn:T3.
  { apply andb_prop in T3 as [T3 T5]. apply andb_prop in T3 as [T3 T4]. apply Nat.eqb_eq in T4. apply Nat.ltb_lt in T5. split; [reflexivity|]. split; [apply EV; now rewrite T3|].
    assert (X : sa_skewsym A && sa_doubsym A = false).
    { destruct (sa_skewsym A) eqn:K, (sa_doubsym A) eqn:Q; try reflexivity. rewrite (SK eq_refl), Nat.add_0_r in T4. rewrite T4, Nat.eqb_refl in T2. discriminate. }
    destruct (TW T3 X). apply FC3; auto. }
  destruct (sa_sym A && (1 <? so) && (D =? so)) eqn:T4.
  { apply andb_prop in T4 as [T4 T6]. apply andb_prop in T4 as [T4 T5]. apply Nat.eqb_eq in T6. apply Nat.ltb_lt in T5. split; [reflexivity|]. split; [apply EV; now rewrite T4|].
    assert (X : sa_skewsym A && sa_doubsym A = false).
    { destruct (sa_skewsym A) eqn:K, (sa_doubsym A) eqn:Q; try reflexivity. rewrite (SK eq_refl) in T5. lia. }
    destruct (TW T4 X). apply FC4; auto. }
  destruct (sa_skewsym A && (D =? 3 * L / 4 + so) && (4 <? L)) eqn:T5.
  { apply andb_prop in T5 as [T5 T7]. apply andb_prop in T5 as [T5 T6]. apply Nat.eqb_eq in T6. apply Nat.ltb_lt in T7. split; [reflexivity|]. split; [apply EV; rewrite T5; apply orb_true_r|].
    pose proof (SK T5) as Z. rewrite Z, Nat.add_0_r in T6.
    destruct (sa_doubsym A) eqn:Q; [|now apply FC5].
    exfalso. destruct (ST FL) as (_ & ST2 & _). specialize (ST2 Q). fold D in ST2.
    pose proof (EV ltac:(now rewrite orb_true_r)) as H2. apply (half_even SN) in H2. assert (D34 := Nat.div_mod (3 * L) 4 ltac:(lia)). assert (M34 := Nat.mod_upper_bound (3 * L) 4 ltac:(lia)). fold D in LT. lia. }
  right. split; [reflexivity|]. split; [|split; [|split]].
  - intros K. split; [now apply SK|]. intros E. rewrite K, (SK K), E, Nat.add_0_r, Nat.eqb_refl in T1. cbn [andb] in T1. apply Nat.ltb_ge in T1. specialize (S4' K). lia.
  - intros Q E. rewrite Q, E, Nat.eqb_refl in T2. discriminate.
  - intros K Q E. rewrite K, (SK K), E, Nat.add_0_r, Nat.eqb_refl in T5. cbn [andb] in T5. apply Nat.ltb_ge in T5. specialize (S4' K). lia.
  - intros K Q Y. split.
    + destruct (Nat.le_gt_cases so 1) as [|G]; [now left|]. right. intros E. rewrite Y, E, Nat.eqb_refl in T4. apply Nat.ltb_lt in G. rewrite G in T4. discriminate.
    + destruct (Nat.le_gt_cases L 2) as [|G]; [now left|]. right. intros E. rewrite Y, E, Nat.eqb_refl in T3. apply Nat.ltb_lt in G. rewrite G in T3. discriminate.
Qed.

Lemma len_rev_removelast (m : list change) : length (removelast m) = length m - 1.
Proof. destruct m as [|c m] using rev_ind; [reflexivity|]. rewrite removelast_last, app_length. cbn [length]. lia. Qed.
Lemma nth_rev (l : list change) j : j < length l -> nth_error (rev l) j = nth_error l (length l - 1 - j).
Proof.
  intros H. destruct (@nth_error_some _ l (length l - 1 - j)) as (c & E); [lia|]. rewrite E.
  rewrite nth_error_nth' with (d := c) by (rewrite rev_length; exact H). rewrite rev_nth by exact H. f_equal. apply nth_error_nth. rewrite <- E. f_equal. lia.
Qed.
Lemma nth_firstn (l : list change) n j : j < n -> nth_error (firstn n l) j = nth_error l j.
Proof. revert n j. induction l as [|x l IH]; intros [|n] j H; try lia; [reflexivity|]. destruct j; [reflexivity|]. cbn [firstn nth_error]. apply IH. lia. Qed.
Lemma nth_removelast (l : list change) j : j < length l - 1 -> nth_error (removelast l) j = nth_error l j.
Proof. destruct l as [|c l] using rev_ind; [cbn; lia|]. rewrite removelast_last, app_length. cbn [length]. intros H. rewrite nth_error_app1 by lia. reflexivity. Qed.

Lemma fold_src m l b : reach A m -> stopf (length m) -> length m < L -> plan_of A m = Fold l b ->
  stopf (length m + length l) /\
  (forall j, j < length l -> exists k r, srcf (length m + j) = Some (k, r) /\ k < length m /\
     nth_error l j = option_map (fun c => if r : bool then change_reverse c else c) (nth_error m k)) /\
  (if length m =? L / 2 then b = dtestf m else b = true /\ (length m < L / 2 -> length m + length l <= L / 2 \/ forall x, dtestf x = true)).
Proof.
  intros R ST LT PL. pose proof (plan_inv R ST LT) as P. rewrite PL in P. destruct P as (FL & EV & P). apply (half_even SN) in EV.
  pose proof (S4 FL) as S4'. assert (SK := sn_skew SN FL). 
  assert (D4 := Nat.div_mod L 4 ltac:(lia)). assert (M4 := Nat.mod_upper_bound L 4 ltac:(lia)).
  assert (D34 := Nat.div_mod (3 * L) 4 ltac:(lia)). assert (M34 := Nat.mod_upper_bound (3 * L) 4 ltac:(lia)).
  assert (XB : extra_row A <= 1 /\ (extra_row A = 0 -> L mod 4 = 0) /\ (extra_row A = 1 -> L mod 4 <> 0)) by (unfold extra_row; destruct (Nat.eqb_spec (L mod 4) 0); lia).
  assert (T1 : tail1 <= 1 /\ (so = 0 -> tail1 = 1) /\ (so <> 0 -> tail1 = 0)) by (unfold tail1; destruct (Nat.eqb_spec so 0); lia).
  set (D := length m) in *. set (ex := extra_row A) in *.
  destruct P as [K Z EL Eb El|Q EL El Eb|Y K Q SO EL L2 Eb El|Y K Q SO EL S1 Eb El|K Q Z EL Eb El]; fold D in EL.
  - specialize (S4' K). assert (LE : length l = L / 2 - 1 - D) by (rewrite El, map_length, firstn_length, rev_length, firstn_length; fold D; lia).
    split; [|split].
    + intros _. rewrite K. repeat split; try discriminate; lia.
    + intros j Hj. exists (L / 2 - 2 - (D + j)), true. unfold srcf. rewrite FL, K.
      destruct (Nat.leb_spec (L / 4) (D + j)), (Nat.ltb_spec (D + j) (L / 2 - 1)); try lia. cbn [andb]. split; [reflexivity|]. split; [lia|].
      rewrite El, nth_error_map, nth_firstn, nth_rev by (rewrite ?rev_length, ?firstn_length; fold D; lia). f_equal. rewrite firstn_length. rewrite nth_firstn by (fold D; lia). f_equal. fold D. lia.
    + destruct (Nat.eqb_spec D (L / 2)); [lia|]. split; [exact Eb|]. intros _. left. lia.
  - assert (LE : length l = D) by (rewrite El; apply map_length). split; [|split].
    + intros _. rewrite Q. repeat split; try discriminate; lia.
    + intros j Hj. exists j, true. unfold srcf. rewrite FL, Q.
      destruct (Nat.ltb_spec (D + j) (L / 2 - 1)); [lia|]. rewrite andb_false_r. destruct (Nat.leb_spec (L / 2) (D + j)); [|lia].
      split; [|split; [lia|now rewrite El, nth_error_map]]. destruct (sa_skewsym A); do 2 f_equal; lia.
    + destruct (Nat.eqb_spec D (L / 2)); [exact Eb|lia].
  - clear D4 M4 D34 M34 XB. assert (LE : length l = L / 2 - so + (if so =? 0 then 0 else 0) - tail1).
    { rewrite El, rev_length, skipn_length, len_rev_removelast. fold D. destruct (Nat.eqb_spec so 0); lia. }
    assert (LE' : length l = L / 2 - so - tail1) by (destruct (so =? 0); lia). clear LE.
    split; [|split].
    + intros _. rewrite K, Q. repeat split; try discriminate; lia.
    + intros j Hj. exists (L + 2 * so - 2 - (D + j)), false. unfold srcf. rewrite FL, K, Q, Y.
      destruct (Nat.ltb_spec (D + j) (2 * so - 1)); [lia|]. rewrite andb_false_r.
      destruct (Nat.leb_spec (L / 2 + so) (D + j)), (Nat.ltb_spec (D + j) (L - tail1)); try lia. cbn [andb]. split; [reflexivity|]. split; [lia|].
      rewrite El, nth_rev by (rewrite skipn_length, len_rev_removelast; fold D; lia). rewrite nth_error_skipn', skipn_length, len_rev_removelast. fold D.
      rewrite nth_removelast by (fold D; lia). replace (2 * so - 1 + (D - 1 - (2 * so - 1) - 1 - j)) with (L + 2 * so - 2 - (D + j)) by (clear - EV EL LE' Hj T1 LT L2; destruct T1 as (_ & T2 & T3); destruct (Nat.eq_dec so 0) as [Z|Z]; [specialize (T2 Z)|specialize (T3 Z)]; lia). now destruct (nth_error m _).
    + destruct (Nat.eqb_spec D (L / 2)); [|split; [exact Eb|lia]]. unfold dtestf. rewrite Q, orb_true_r. exact Eb.
  - assert (LE : length l = so - 1) by (rewrite El, rev_length, len_rev_removelast; fold D; lia).
    split; [|split].
    + intros _. rewrite K, Q. repeat split; try discriminate; lia.
    + intros j Hj. exists (2 * so - 2 - (D + j)), false. unfold srcf. rewrite FL, K, Q, Y.
      destruct (Nat.leb_spec so (D + j)), (Nat.ltb_spec (D + j) (2 * so - 1)); try lia. cbn [andb]. split; [reflexivity|]. split; [lia|].
      rewrite El, nth_rev by (rewrite len_rev_removelast; fold D; lia). rewrite len_rev_removelast. fold D. rewrite nth_removelast by (fold D; lia).
      replace (D - 1 - 1 - j) with (2 * so - 2 - (D + j)) by lia. now destruct (nth_error m _).
    + assert (DT : forall x, dtestf x = true) by (intros x; unfold dtestf; rewrite Q, orb_true_r; reflexivity).
      destruct (Nat.eqb_spec D (L / 2)); [now rewrite DT|]. split; [exact Eb|]. intros _. right. exact DT.
  - specialize (S4' K). assert (LE : length l = L - D) by (rewrite El, map_length, firstn_length, rev_length, firstn_length; fold D; lia).
    split; [|split].
    + intros _. rewrite K, Q. repeat split; try discriminate; lia.
    + intros j Hj. exists (L + L / 2 - 2 - (D + j)), true. unfold srcf. rewrite FL, K, Q.
      destruct (Nat.ltb_spec (D + j) (L / 2 - 1)); [lia|]. rewrite andb_false_r. destruct (Nat.leb_spec (3 * L / 4) (D + j)); [|lia]. split; [reflexivity|]. split; [lia|].
      rewrite El, nth_error_map, nth_firstn, nth_rev by (rewrite ?rev_length, ?firstn_length; fold D; lia). f_equal. rewrite firstn_length. rewrite nth_firstn by (fold D; lia). f_equal. fold D. lia.
    + destruct (Nat.eqb_spec D (L / 2)); [lia|]. split; [exact Eb|]. lia.
Qed.

Lemma choose_src m : reach A m -> stopf (length m) -> length m < L -> plan_of A m = Choose ->
  srcf (length m) = None /\ (length m = L / 2 -> dtestf m = true) /\ stopf (S (length m)).
Proof.
  intros R ST LT PL. pose proof (plan_inv R ST LT) as P. rewrite PL in P.
  destruct P as [FL|(FL & P1 & P2 & P3 & P4)].
  { unfold srcf, dtestf, stopf. rewrite FL. repeat split; auto; discriminate. }
  specialize (ST FL). destruct ST as (ST1 & ST2 & ST3). pose proof (S4 FL) as S4'.
  assert (EV := sn_even SN FL). assert (SO := sn_sym SN FL).
  assert (T1 : tail1 <= 1 /\ (so = 0 -> tail1 = 1) /\ (so <> 0 -> tail1 = 0)) by (unfold tail1; destruct (Nat.eqb_spec so 0); lia).
  assert (D4 := Nat.div_mod L 4 ltac:(lia)). assert (M4 := Nat.mod_upper_bound L 4 ltac:(lia)).
  assert (D34 := Nat.div_mod (3 * L) 4 ltac:(lia)). assert (M34 := Nat.mod_upper_bound (3 * L) 4 ltac:(lia)).
  set (D := length m) in *. split; [|split].
  - unfold srcf. rewrite FL. destruct (sa_skewsym A) eqn:K.
    + destruct (P1 eq_refl) as [Z P1']. destruct (ST1 eq_refl) as [ST1' ST1'']. specialize (EV ltac:(now rewrite orb_true_r)). apply (half_even SN) in EV.
      destruct (Nat.leb_spec (L / 4) D), (Nat.ltb_spec D (L / 2 - 1)); cbn [andb]; try lia.
      all: destruct (sa_doubsym A) eqn:Q; [specialize (P2 eq_refl); specialize (ST2 eq_refl); destruct (Nat.leb_spec (L / 2) D); [lia|reflexivity]|].
      all: specialize (P3 eq_refl eq_refl); specialize (ST1'' eq_refl); destruct (Nat.leb_spec (3 * L / 4) D); [lia|reflexivity].
    + destruct (sa_doubsym A) eqn:Q; [specialize (P2 eq_refl); specialize (ST2 eq_refl); destruct (Nat.leb_spec (L / 2) D); [lia|reflexivity]|].
      destruct (sa_sym A) eqn:Y; [|reflexivity]. specialize (EV eq_refl). apply (half_even SN) in EV. specialize (SO eq_refl).
      destruct (P4 eq_refl eq_refl eq_refl) as [P4' P4'']. destruct (ST3 eq_refl eq_refl eq_refl) as [ST3' ST3''].
      destruct (Nat.leb_spec so D), (Nat.ltb_spec D (2 * so - 1)); cbn [andb]; try lia;
      destruct (Nat.leb_spec (L / 2 + so) D), (Nat.ltb_spec D (L - tail1)); cbn [andb]; try lia; reflexivity.
  - intros E. unfold dtestf. destruct (sa_doubsym A); [now specialize (P2 eq_refl)|]. now rewrite orb_true_r.
  - intros _. split; [|split].
    + intros K. destruct (P1 K) as [Z P1']. destruct (ST1 K) as [ST1' ST1'']. split; [lia|]. intros Q. specialize (P3 K Q). specialize (ST1'' Q). lia.
    + intros Q. specialize (P2 Q). specialize (ST2 Q). lia.
    + intros K Q Y. destruct (P4 K Q Y) as [P4' P4'']. destruct (ST3 K Q Y) as [ST3' ST3'']. specialize (EV ltac:(now rewrite Y)). apply (half_even SN) in EV. specialize (SO Y). lia.
Qed.

Theorem outs_all flt M : In M (outs A (S L) flt []) <-> length M = L /\ (forall i, i < L -> pos_ok A srcf flt M i) /\ dtestf (firstn (L / 2) M) = true /\ final A flt M = true.
Proof.
  rewrite (@outs_in A SN srcf dtestf stopf).
  - cbn [length firstn]. split.
    + intros (H1 & _ & H2 & H3 & H4). split; [exact H1|]. split; [intros i Hi; apply H2; lia|]. split; [apply H3; lia|exact H4].
    + intros (H1 & H2 & H3 & H4). split; [exact H1|]. split; [reflexivity|]. split; [intros i Hi; apply H2; lia|]. auto.
  - intros m R LT PL ST. eapply choose_src; eauto.
  - intros m R ST LT PL. destruct (choose_src R ST LT PL) as (? & ? & _). auto.
  - intros m l b R ST LT PL. exact (fold_src R ST LT PL).
  - split; cbn [length]; lia.
  - intros _. cbn [length]. repeat split; lia.
  - lia.
Qed.
End A.
