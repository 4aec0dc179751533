(* P_False4.v - false course heads: the whole computation. *)
From Verif Require Import Base M_Bell M_Change M_Math M_Row M_Extent M_Group M_Touch M_PN M_Method M_False
  Spec_Row Spec_Change Spec_Touch Spec_Extent Spec_Cycle Spec_Group Spec_Method Spec_False
  P_Row P_Change2 P_Cycle P_Order P_Perm P_Extent P_Extent2 P_Group P_Group2 P_Touch P_Power P_Method P_Method2 P_False P_False3.
Set Implicit Arguments.
Unset Strict Implicit.
Open Scope nat_scope.

Lemma sign_comp sym n x y : n <= 256 -> row_b n x -> row_b n y ->
  exists sx sy, sign sym x = Ret sx /\ sign sym y = Ret sy /\ sign sym (comp x y) = Ret (sx * sy)%Z.
Proof. intros Hn Hx Hy. apply sign_mul; try now apply (@row_b_256 n). apply mul_comp; now apply (@row_b_256 n). Qed.

Lemma sign_pw sym n l k : n <= 256 -> row_b n l -> sign sym l = Ret 1%Z -> sign sym (pw n l k) = Ret 1%Z.
Proof.
  intros Hn Hl S. induction k as [|k IH]; cbn [pw].
  - rewrite <- rounds_id by lia. now apply sign_rounds.
  - destruct (@sign_comp sym n (pw n l k) l Hn) as (a & b & Ea & Eb & E); auto.
    { apply pw_row; [apply Hl|rewrite (proj2 Hl); lia]. }
    rewrite IH in Ea. rewrite S in Eb. injection Ea as <-. injection Eb as <-. exact E.
Qed.

Section Process.
Variables (sym : symtab) (flags : Z) (n : nat) (l : list nat).
Hypothesis (Hn : n <= 256) (OC : one_course n l).
Variable o : nat.
Hypothesis (O0 : 0 < o) (Oid : forall i, act_pow l o i = i) (Omin : forall j, 0 < j < o -> exists i, act_pow l j i <> i).

Lemma process_spec fuel fs f : 2 * o <= fuel -> StronglySorted lex_lt fs -> row_b n f ->
  exists fs', process fuel sym flags l fs f = Ret fs' /\ StronglySorted lex_lt fs' /\
    forall c, In c fs' <-> In c fs \/ (act f 0 = 0 /\ found sym flags n l o f 0 c).
Proof.
  intros Hf Ss Rf. assert (Rl := proj1 OC). assert (N2 := proj1 (proj2 OC)). unfold process.
  rewrite (@vget_lt _ _ _ 0) by (rewrite (proj2 Rf); lia). cbn [bind].
  rewrite <- (@act_nth f 0 0) by (rewrite (proj2 Rf); lia). destruct (Nat.eqb_spec (act f 0) 0) as [T|T]; cbn [negb].
  2:{ exists fs. split; auto. split; auto. intros c. split; auto. intros [H|[H _]]; [auto|contradiction]. }
  assert (Sl := @sign_pm sym l (row_b_256 Hn Rl)). assert (Sf := @sign_pm sym f (row_b_256 Hn Rf)).
  assert (Main : exists fs', process_loop fuel sym flags l f [] fs = Ret fs' /\ StronglySorted lex_lt fs' /\
    forall c, In c fs' <-> In c fs \/ (act f 0 = 0 /\ found sym flags n l o f 0 c)).
  { destruct (@process_loop_spec sym flags n l Hn OC o O0 Oid Omin f Rf T o fuel [] fs) as (fs' & E & S & H); auto; try lia.
    - apply is_row_nil.
    - cbn. lia.
    - intros i. rewrite Nat.sub_diag. destruct i; reflexivity.
    - exists fs'. rewrite Nat.sub_diag in H. split; auto. split; auto. intros c. rewrite H. tauto. }
  assert (Skip : has flags FC_IN_COURSE = true -> sign sym l = Ret 1%Z -> sign sym f = Ret (-1)%Z ->
    forall c, ~ found sym flags n l o f 0 c).
  { intros HF HL HSf c ((W & _) & q & _ & x & Rx & Ax & Rc & _ & j & Ac). specialize (W HF).
    assert (Pq : row_b n (pw n l q)) by (apply pw_row; [apply Rl|rewrite (proj2 Rl); lia]).
    assert (Pj : row_b n (pw n l j)) by (apply pw_row; [apply Rl|rewrite (proj2 Rl); lia]).
    assert (E : c = comp (comp (pw n l q) f) (pw n l j)).
    { apply act_ext; [rewrite !comp_length, (proj2 Rc), (proj2 Rf), (proj2 Pq), (proj2 Pj); lia|]. intros i _.
      rewrite Ac, Ax, act_comp by apply Pj. rewrite act_comp by apply Rf. rewrite !act_pw by (try apply Rl; rewrite (proj2 Rl); lia). reflexivity. }
    assert (Pqf : row_b n (comp (pw n l q) f)) by (apply comp_row_b; auto; [apply Rf|rewrite (proj2 Rf); lia]).
    destruct (@sign_comp sym n _ _ Hn Pq Rf) as (a & b & Ea & Eb & Eab). destruct (@sign_comp sym n _ _ Hn Pqf Pj) as (a' & b' & Ea' & Eb' & Eab').
    rewrite <- E, W in Eab'. rewrite Eab in Ea'. rewrite (sign_pw q Hn Rl HL) in Ea. rewrite (sign_pw j Hn Rl HL) in Eb'.
    rewrite HSf in Eb. injection Ea as <-. injection Eb as <-. injection Ea' as <-. injection Eb' as <-. discriminate Eab'. }
  destruct (has flags FC_IN_COURSE) eqn:HF; [|cbn [bind]; exact Main].
  destruct Sl as [Sl|Sl]; rewrite Sl; cbn [bind]; [|change (-1 =? 1)%Z with false; cbn [bind]; exact Main].
  change (1 =? 1)%Z with true. cbv iota. destruct Sf as [Sf|Sf]; rewrite Sf; cbn [bind].
  - change (1 =? -1)%Z with false. exact Main.
  - change (-1 =? -1)%Z with true. exists fs. split; auto. split; auto. intros c. split; auto. intros [H|[_ H]]; auto.
    exfalso. exact (@Skip eq_refl Sl Sf c H).
Qed.
End Process.

(* --- the lead head and the rows of a course --- *)
Lemma ring_all r cs : row256 r -> Forall ok_change cs -> exists r', forM cs row_mul_change r = Ret r' /\ rung r cs r'.
Proof.
  intros Hr. induction cs as [|c cs IH] using rev_ind; intros F.
  - exists r. split; auto. now apply rung_nil.
  - apply Forall_app in F as [F1 F2]. inversion_clear F2 as [|? ? Hc _]. destruct (IH F1) as (r1 & E & R).
    destruct (rung_snoc R Hc) as (r2 & E2 & R2). exists r2. rewrite forM_app, E. cbn [bind forM]. rewrite E2. auto.
Qed.
Lemma lh_rung m : wf_method m -> exists l, lh m = Ret l /\ row_b (mb m) l /\ forall i, act l i = came_from (mch m) i.
Proof.
  intros WF. assert (Hb := proj1 WF). unfold lh. destruct (@ring_all (rounds (mb m)) (mch m)) as (l & E & R).
  { apply rounds_row256. lia. } { now apply wf_ok. }
  exists l. split; auto. rewrite rounds_id in R by lia. split.
  - apply (@rung_row_b (mb m) _ _ _ (row_b_id _)) in R; auto. assert (W := widest_le (length (mch m)) WF). now rewrite firstn_all in W.
  - intros i. destruct R as (_ & _ & A). now rewrite A, act_id.
Qed.
Lemma came_from_app a b i : came_from (a ++ b) i = came_from a (came_from b i).
Proof. unfold came_from. now rewrite fold_right_app. Qed.
Lemma came_from_times m l q i : (forall i, act l i = came_from (mch m) i) -> came_from (concat (repeat (mch m) q)) i = act_pow l q i.
Proof. intros A. induction q as [|q IH]; cbn [repeat concat act_pow]; auto. now rewrite came_from_app, IH, A. Qed.
Lemma widest_app a b : widest (a ++ b) = Nat.max (widest a) (widest b).
Proof. unfold widest. induction a as [|c a IH]; cbn; [lia|]. rewrite IH. lia. Qed.
Lemma widest_times m q j : wf_method m -> widest (concat (repeat (mch m) q) ++ firstn j (mch m)) <= mb m.
Proof.
  intros WF. rewrite widest_app. assert (W := widest_le j WF). assert (W' := widest_le (length (mch m)) WF). rewrite firstn_all in W'.
  assert (widest (concat (repeat (mch m) q)) <= mb m); [|lia]. induction q as [|q IH]; cbn [repeat concat]; [cbn; lia|]. rewrite widest_app. lia.
Qed.
(* rows of the course from c *)
Lemma course_rows m l c q j r : wf_method m -> row_b (mb m) c -> (forall i, act l i = came_from (mch m) i) ->
  rung c (concat (repeat (mch m) q) ++ firstn j (mch m)) r <->
  row_b (mb m) r /\ forall i, act r i = act c (act_pow l q (came_from (firstn j (mch m)) i)).
Proof.
  intros WF Rc A. assert (Hb := proj1 WF). assert (W := widest_times q j WF). split.
  - intros R. split; [exact (rung_row_b Rc W R)|]. intros i. destruct R as (_ & _ & H). now rewrite H, came_from_app, (came_from_times q _ A).
  - intros [Rr H]. split; [apply (@row_b_256 (mb m)); auto; lia|]. split; [rewrite (proj2 Rr), (proj2 Rc); lia|].
    intros i. now rewrite H, came_from_app, (came_from_times q _ A).
Qed.

Lemma forM_suffix A T (M : list A) (f : T -> A -> outcome T) (P : nat -> T -> Prop) :
  (forall j a t, nth_error M j = Some a -> P j t -> exists t', f t a = Ret t' /\ P (S j) t') ->
  forall s, P 0 s -> exists t, forM M f s = Ret t /\ P (length M) t.
Proof.
  intros F s H0.
  assert (G : forall suf pre t, M = pre ++ suf -> P (length pre) t -> exists t', forM suf f t = Ret t' /\ P (length M) t').
  { induction suf as [|a suf IH]; intros pre t E H; cbn [forM].
    - exists t. split; auto. now rewrite E, app_nil_r.
    - destruct (F (length pre) a t) as (t' & E' & H'); auto. { rewrite E, nth_error_app2 by lia. now rewrite Nat.sub_diag. }
      rewrite E'. cbn [bind]. apply (IH (pre ++ [a])); [rewrite E, <- app_assoc; reflexivity|]. rewrite app_length. cbn. now replace (length pre + 1) with (S (length pre)) by lia. }
  apply (G M [] s); auto.
Qed.

Lemma firstn_S_nth A (l : list A) j a : nth_error l j = Some a -> firstn (S j) l = firstn j l ++ [a].
Proof.
  revert j. induction l as [|x l IH]; intros [|j] H; try discriminate; cbn in *; [now injection H as ->|]. now rewrite (IH j).
Qed.

Section All.
Variables (sym : symtab) (flags : Z) (m : method).
Hypothesis WF : wf_method m.
Let n := mb m.
Variables (l : list nat).
Hypothesis (El : lh m = Ret l) (OC : one_course n l) (Al : forall i, act l i = came_from (mch m) i).
Variable o : nat.
Hypothesis (O0 : 0 < o) (Oid : forall i, act_pow l o i = i) (Omin : forall j, 0 < j < o -> exists i, act_pow l j i <> i).

Lemma Hn255 : n <= 255. Proof. exact (proj1 WF). Qed.

(* found from rows i and j of the lead *)
Definition from_rows (i j : nat) (c : list nat) : Prop :=
  exists a b f, rung (id_row n) (firstn i (mch m)) a /\ rung (id_row n) (firstn j (mch m)) b /\ row_b n f /\ comp f b = a /\
    act f 0 = 0 /\ found sym flags n l o f 0 c.

Lemma lead_row i r : rung (id_row n) (firstn i (mch m)) r -> row_b n r.
Proof. apply rung_row_b; [apply row_b_id|]. now apply widest_le. Qed.

Lemma false_courses_rows fuel : 2 * o <= fuel ->
  exists t, false_courses fuel sym flags m = Ret t /\ StronglySorted lex_lt t /\
    forall c, In c t <-> exists i j, i < length (mch m) /\ j < length (mch m) /\ from_rows i j c.
Proof.
  intros Hf. assert (H255 := Hn255). unfold false_courses. rewrite El. cbn [bind]. fold n.
  assert (Init : rung (id_row n) (firstn 0 (mch m)) (rounds n)).
  { cbn [firstn]. rewrite rounds_id by lia. apply rung_nil, row256_id. lia. }
  (* inner loop *)
  assert (Inner : forall i r1 fs, rung (id_row n) (firstn i (mch m)) r1 -> StronglySorted lex_lt fs ->
    exists p, forM (mch m) (courses_inner fuel sym flags l r1) (rounds n, fs) = Ret p /\
      StronglySorted lex_lt (snd p) /\ forall c, In c (snd p) <-> In c fs \/ exists j, j < length (mch m) /\ from_rows i j c).
  { intros i r1 fs R1 Sf.
    destruct (@forM_suffix change (row * list row) (mch m) (courses_inner fuel sym flags l r1)
      (fun j p => rung (id_row n) (firstn j (mch m)) (fst p) /\ StronglySorted lex_lt (snd p) /\
        forall c, In c (snd p) <-> In c fs \/ exists j', j' < j /\ from_rows i j' c)) with (s := (rounds n, fs)) as (p & E & H).
    - intros j c2 [r2 fs1] Ej (R2 & S1 & H1). unfold courses_inner. cbn [fst snd] in *.
      assert (B1 := lead_row R1). assert (B2 := lead_row R2).
      destruct (div_spec (@row_b_256 n _ ltac:(lia) B1) (@row_b_256 n _ ltac:(lia) B2)) as (z & E & Z & L & _).
      assert (Zn : row_b n z). { split; [apply Z|]. rewrite L, (proj2 B1), (proj2 B2). lia. }
      rewrite E. cbn [bind].
      destruct (@process_spec sym flags n l ltac:(lia) OC o O0 Oid Omin fuel fs1 z Hf S1 Zn) as (f2 & E2 & S2 & H2). rewrite E2. cbn [bind].
      assert (Ok : ok_change c2). { assert (X := wf_ok WF). rewrite Forall_forall in X. apply X. eapply nth_error_In; eauto. }
      destruct (rung_snoc R2 Ok) as (r3 & E3 & R3). rewrite E3. cbn [bind]. eexists. split; [reflexivity|]. cbn [fst snd].
      rewrite (firstn_S_nth Ej). split; auto. split; auto. intros c. rewrite H2, H1.
      assert (X : (act z 0 = 0 /\ found sym flags n l o z 0 c) <-> from_rows i j c).
      { assert (Dv := @div_quot n r1 r2 z ltac:(lia) B1 B2 Zn). split.
        - intros [T Fo]. exists r1, r2, z. split; auto. split; auto. split; auto. split; [now apply Dv|auto].
        - intros (a & b & f & Ra & Rb & Rf & C & T & Fo). rewrite (rung_unique Ra R1), (rung_unique Rb R2) in C.
          apply (@div_quot n r1 r2 f ltac:(lia) B1 B2 Rf) in C. rewrite E in C. injection C as ->. auto. }
      rewrite X. split.
      + intros [[H|(j' & Hj & H)]|H]; [now left|right; exists j'; split; [lia|auto]|right; exists j; split; [lia|auto]].
      + intros [H|(j' & Hj & H)]; [auto|]. destruct (Nat.eq_dec j' j) as [->|N]; [auto|]. left. right. exists j'. split; [lia|auto].
    - cbn [fst snd]. split; auto. split; auto. intros c. split; [auto|]. intros [H|(j & Hj & _)]; [auto|lia].
    - exists p. split; auto. tauto. }
  destruct (@forM_suffix change (row * list row) (mch m) (courses_outer fuel sym flags m l)
    (fun i p => rung (id_row n) (firstn i (mch m)) (fst p) /\ StronglySorted lex_lt (snd p) /\
        forall c, In c (snd p) <-> exists i' j, i' < i /\ j < length (mch m) /\ from_rows i' j c)) with (s := (rounds n, [] : list row)) as (p & E & H).
  - intros i c1 [r1 fs1] Ei (R1 & S1 & H1). unfold courses_outer. fold n. cbn [fst snd] in *.
    destruct (Inner i r1 fs1 R1 S1) as (p & E & S & H). unfold n, row in E |- *. rewrite E. cbn [bind]. destruct p as [r2 f2]. cbn [fst snd] in *.
    assert (Ok : ok_change c1). { assert (X := wf_ok WF). rewrite Forall_forall in X. apply X. eapply nth_error_In; eauto. }
    destruct (rung_snoc R1 Ok) as (r3 & E3 & R3). rewrite E3. cbn [bind]. eexists. split; [reflexivity|]. cbn [fst snd].
    rewrite (firstn_S_nth Ei). split; auto. split; auto. intros c. rewrite H, H1. split.
    + intros [(i' & j & Hi & Hj & X)|(j & Hj & X)]; [exists i', j|exists i, j]; repeat split; auto.
    + intros (i' & j & Hi & Hj & X). destruct (Nat.eq_dec i' i) as [->|N]; [right; eauto|]. left. exists i', j. repeat split; auto. lia.
  - cbn [fst snd]. split; auto. split; [constructor|]. intros c. split; [intros []|intros (i & j & Hi & _); lia].
  - exists (snd p). rewrite E. cbn [bind]. split; auto. tauto.
Qed.

Lemma from_rows_iff c : (exists i j, i < length (mch m) /\ j < length (mch m) /\ from_rows i j c) <->
  row_b n c /\ act c 0 = 0 /\ act c (n - 1) = n - 1 /\ course_wanted sym flags c /\ courses_share n (mch m) c.
Proof.
  assert (H255 := Hn255). assert (Rl := proj1 OC). assert (Pl := proj1 Rl). assert (T0 := @treble_pow n l OC).
  assert (Inv : forall k, exists k', forall i, act_pow l k (act_pow l k' i) = i).
  { intros k. exists (k * (o - 1)). intros i. rewrite <- act_pow_add. replace (k + k * (o - 1)) with (k * o) by nia.
    rewrite <- (@pow_mod n l ltac:(lia) OC o O0 Oid), Nat.mod_mul by lia. reflexivity. }
  split.
  - intros (i & j & Hi & Hj & a & b & f & Ra & Rb & Rf & C & T & (W & q & Hq & x & Rx & Ax & Rc & Tc & k & Ac)).
    split; auto. split; [|split; [auto|split; [auto|]]].
    + rewrite Ac, Ax, T0, T, T0. reflexivity.
    + destruct (Inv k) as (k' & Hk).
      assert (Bb := lead_row Rb).
      assert (Br : row_b n (comp (pw n l q) a)).
      { apply comp_row_b; [apply pw_row; auto; rewrite (proj2 Rl); lia| |]; rewrite ?(proj2 (lead_row Ra)); auto. apply (lead_row Ra). }
      exists (comp (pw n l q) a). split; [exists q, i|exists k', j]; (split; [auto|]).
      * apply (@course_rows m l (id_row n) q i (comp (pw n l q) a) WF (row_b_id n) Al). split; auto. intros y.
        rewrite act_comp by apply (lead_row Ra). rewrite act_pw by (auto; rewrite (proj2 Rl); lia). rewrite act_id.
        destruct Ra as (_ & _ & Aa). now rewrite Aa, act_id.
      * apply (@course_rows m l c k' j (comp (pw n l q) a) WF Rc Al). split; auto. intros y.
        rewrite act_comp by apply (lead_row Ra). rewrite act_pw by (auto; rewrite (proj2 Rl); lia). rewrite Ac, Hk, Ax.
        rewrite <- C. rewrite act_comp by apply Bb. destruct Rb as (_ & _ & Ab). now rewrite Ab, act_id.
  - intros (Rc & Z & Tn & W & r & (q1 & i & Hi & R1) & (q2 & j & Hj & R2)).
    apply (@course_rows m l (id_row n) q1 i r WF (row_b_id n) Al) in R1 as [Rr A1].
    apply (@course_rows m l c q2 j r WF Rc Al) in R2 as [_ A2].
    assert (Ok := wf_ok WF).
    assert (FN : forall k, Forall ok_change (firstn k (mch m))).
    { intros k. apply Forall_forall. intros x Hx. rewrite Forall_forall in Ok. apply Ok. rewrite <- (firstn_skipn k (mch m)). apply in_or_app. now left. }
    destruct (@ring_all (id_row n) (firstn i (mch m))) as (a & _ & Ra); [apply row256_id; lia|apply FN|].
    destruct (@ring_all (id_row n) (firstn j (mch m))) as (b & _ & Rb); [apply row256_id; lia|apply FN|].
    assert (Ba := lead_row Ra). assert (Bb := lead_row Rb).
    exists i, j. split; auto. split; auto.
    destruct (div_spec (@row_b_256 n _ ltac:(lia) Ba) (@row_b_256 n _ ltac:(lia) Bb)) as (f & E & Zf & L & _).
    assert (Rf : row_b n f). { split; [apply Zf|]. rewrite L, (proj2 Ba), (proj2 Bb). lia. }
    assert (C : comp f b = a) by (apply (@div_quot n a b f ltac:(lia) Ba Bb Rf); exact E).
    assert (Aa : forall y, act a y = came_from (firstn i (mch m)) y). { intros y. destruct Ra as (_ & _ & H). now rewrite H, act_id. }
    assert (Ab : forall y, act b y = came_from (firstn j (mch m)) y). { intros y. destruct Rb as (_ & _ & H). now rewrite H, act_id. }
    (* l^q1 f = c l^q2 *)
    assert (Key : forall y, act_pow l q1 (act f y) = act c (act_pow l q2 y)).
    { intros y. destruct (act_surj y (proj1 Bb)) as (w & <- & _).
      assert (X : act f (act b w) = act a w) by (rewrite <- C, act_comp by apply Bb; reflexivity).
      rewrite X, Aa, Ab. rewrite <- A2, A1, act_id. reflexivity. }
    exists a, b, f. split; auto. split; auto. split; auto. split; auto.
    assert (Tf : act f 0 = 0).
    { apply (@act_pow_inj l q1 _ _ Pl). rewrite Key, !T0. exact Z. }
    split; auto. split; auto.
    destruct (Inv q2) as (k & Hk).
    exists (q1 mod o). split; [assert (X := Nat.mod_upper_bound q1 o); lia|].
    assert (Rp : row_b n (pw n l (q1 mod o))) by (apply pw_row; auto; rewrite (proj2 Rl); lia).
    exists (comp (pw n l (q1 mod o)) f).
    assert (Ax : forall y, act (comp (pw n l (q1 mod o)) f) y = act_pow l (q1 mod o) (act f y)).
    { intros y. rewrite act_comp by apply Rf. rewrite act_pw by (auto; rewrite (proj2 Rl); lia). reflexivity. }
    split; [apply comp_row_b; auto; [apply Rf|rewrite (proj2 Rf); lia]|]. split; [exact Ax|].
    split; auto. split; auto. exists k. intros y. rewrite Ax, (@pow_mod n l ltac:(lia) OC o O0 Oid), Key, Hk. reflexivity.
Qed.
End All.

Theorem false_courses_spec sym flags m l : wf_method m -> lh m = Ret l -> one_course (mb m) l ->
  exists N, forall fuel, N <= fuel -> exists t, false_courses fuel sym flags m = Ret t /\ StronglySorted lex_lt t /\
    forall c, In c t <-> row_b (mb m) c /\ act c 0 = 0 /\ act c (mb m - 1) = mb m - 1 /\
      course_wanted sym flags c /\ courses_share (mb m) (mch m) c.
Proof.
  intros WF El OC. destruct (lh_rung WF) as (l' & El' & _ & Al). rewrite El in El'. injection El' as <-.
  assert (Pl : is_row l) by apply OC.
  assert (Or : exists o, 0 < o /\ (forall i, act_pow l o i = i) /\ forall j, 0 < j < o -> exists i, act_pow l j i <> i).
  { destruct (finite_order Pl) as (k & Hk & A). revert Hk A. induction k as [k IH] using lt_wf_ind. intros Hk A.
    assert (D : forall j, (forall i, act_pow l j i = i) \/ exists i, act_pow l j i <> i).
    { intros j. destruct (Forall_Exists_dec (fun i => act_pow l j i = i) (fun i => Nat.eq_dec (act_pow l j i) i) (seq 0 (length l))) as [F|F].
      - left. intros i. destruct (lt_dec i (length l)) as [H|H]; [|apply act_pow_ge; lia]. rewrite Forall_forall in F. apply F, in_seq. lia.
      - right. apply Exists_exists in F as (i & _ & H). eauto. }
    assert (B : forall b, b <= k -> (exists j, 0 < j < b /\ forall i, act_pow l j i = i) \/ forall j, 0 < j < b -> exists i, act_pow l j i <> i).
    { induction b as [|b IHb]; intros Hb; [right; intros; lia|]. destruct (IHb ltac:(lia)) as [(j & Hj & H)|H]; [left; exists j; split; [lia|auto]|].
      destruct (Nat.eq_dec b 0) as [->|Nb]; [right; intros; lia|].
      destruct (D b) as [H'|H']; [left; exists b; split; [lia|auto]|right]. intros j Hj. destruct (Nat.eq_dec j b) as [->|]; auto. apply H. lia. }
    destruct (B k (le_n _)) as [(j & Hj & H)|H]; [apply (IH j); [lia|lia|exact H]|]. exists k. auto. }
  destruct Or as (o & O0 & Oid & Omin). exists (2 * o). intros fuel Hf.
  destruct (@false_courses_rows sym flags m WF l El OC o O0 Oid Omin fuel Hf) as (t & E & S & H).
  exists t. split; auto. split; auto. intros c. rewrite H. exact (@from_rows_iff sym flags m WF l OC Al o O0 Oid c).
Qed.
