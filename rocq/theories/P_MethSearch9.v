(* P_MethSearch9.v - the search of methsearch: from the tests of the model to the specification. *)
From Verif Require Import Base M_Bell M_Change M_Math M_Row M_PN M_Method M_Proof M_MethSearch
  Spec_Row Spec_Change Spec_Proof Spec_MethSearch I_MethSearch P_Row P_Change2 P_Change3 P_Method P_Proof P_MethSearch P_MethSearch2 P_MethSearch3 P_MethSearch4 P_MethSearch5
  P_MethSearch6 P_MethSearch7 P_MethSearch8.
Set Implicit Arguments.
Unset Strict Implicit.
Open Scope nat_scope.

Lemma stays_back i k l : stays i k l <-> k <= back_run i l.
Proof.
  unfold stays. revert k. induction l as [|c l IH]; intros k; cbn [back_run length].
  - split; [intros [H _]; exact H|]. intros H. split; [exact H|]. lia.
  - destruct k as [|k]; [split; [lia|]; intros _; split; lia|]. destruct (findplace c i) eqn:F.
    + assert (X : S k <= S (back_run i l) <-> k <= back_run i l) by lia. rewrite X, <- IH. split.
      * intros [H1 H2]. split; [lia|]. intros j Hj. apply (H2 (S j)). lia.
      * intros [H1 H2]. split; [lia|]. intros [|j] Hj; [exists c; auto|]. apply H2. lia.
    + split; [|lia]. intros [_ H]. destruct (H 0 ltac:(lia)) as (c' & E & F'). injection E as ->. congruence.
Qed.
Lemma run_limited_min limit i l : forall count, count <= S limit -> run_limited limit count i l = Nat.min (S limit) (count + back_run i l).
Proof.
  induction l as [|c l IH]; intros count H; cbn [run_limited back_run]; [lia|]. destruct (Nat.leb_spec count limit); [|lia].
  destruct (findplace c i); [|lia]. rewrite IH by lia. lia.
Qed.

Lemma too_long_spec k n before c after : too_long k n before c after <->
  existsb (fun i => findplace c i && (k <? 2 + back_run i (rev before) + back_run i after)) (seq 0 n) = true.
Proof.
  unfold too_long. rewrite existsb_exists. split.
  - intros (i & a & b & Hi & F & Sa & Sb & K). apply stays_back in Sa. apply stays_back in Sb. exists i. split; [apply in_seq; lia|]. rewrite F. apply Nat.ltb_lt. lia.
  - intros (i & Hi & H). apply in_seq in Hi. apply andb_prop in H as [F K]. apply Nat.ltb_lt in K. exists i, (back_run i (rev before)), (back_run i after).
    split; [lia|]. split; [exact F|]. split; [now apply stays_back|]. split; [now apply stays_back|]. exact K.
Qed.
Lemma existsb_ext_in {X} (f g : X -> bool) l : (forall x, In x l -> f x = g x) -> existsb f l = existsb g l.
Proof. induction l as [|x l IH]; intros H; [reflexivity|]. cbn [existsb]. rewrite H by now left. f_equal. apply IH. intros y I. apply H. now right. Qed.
Lemma not_iff (b : bool) P : (P <-> b = true) -> (negb b = true <-> ~ P).
Proof. intros H. rewrite H. destruct b; cbn; intuition discriminate. Qed.

Section A.
Variable A : sargs.
Notation L := (sa_len A).

Lemma middle_eq : sym_offset A = middle A.
Proof. unfold sym_offset, middle. destruct (sa_hunts A =? 0); cbn [negb andb]; reflexivity. Qed.
Lemma proving_eq : use_prover A = true <-> proving A.
Proof.
  unfold use_prover, proving. destruct (sa_true_lead A), (sa_true_half A), (sa_sym A), (sa_parity A); destruct (Nat.eqb_spec (sa_dodges A) 0), (Nat.eqb_spec (sa_hunts A) 0), (Nat.ltb_spec 1 (sa_dodges A)); cbn [negb andb orb];
    (split; [intros U; try discriminate U; intuition lia|intros U; try reflexivity; exfalso; intuition (try discriminate; try lia)]).
Qed.

Lemma passes_eq m c : try_change A [] m c = true <-> passes A m c.
Proof.
  unfold try_change, passes. rewrite !andb_true_iff.
  assert (E1 : match nth_error (sa_prefix A) (length m) with Some p => change_eqb c p | None => true end = true <-> (forall p, nth_error (sa_prefix A) (length m) = Some p -> change_eqb c p = true)).
  { destruct (nth_error (sa_prefix A) (length m)) as [p|]; split; auto; [intros H q [= <-]; exact H|intros _ q E; discriminate E]. }
  assert (E2 : match nth_error (@nil change) (length m) with Some p => change_eqb c p | None => true end = true) by now destruct (length m).
  assert (E3 : try_midlead_change A m c = true <-> (sa_trivial A = true -> forall m' p, m = m' ++ [p] -> change_eqb p c = false) /\ (sa_blows A <> 0 -> ~ too_long (sa_blows A) (cn c) m c [])).
  { unfold try_midlead_change. rewrite andb_true_iff.
    assert (X : negb (sa_trivial A && match rev m with p :: _ => change_eqb p c | [] => false end) = true <-> (sa_trivial A = true -> forall m' p, m = m' ++ [p] -> change_eqb p c = false)).
    { rewrite negb_true_iff. destruct (sa_trivial A); cbn [andb]; [|intuition discriminate]. split.
      - intros H _ m' p ->. rewrite rev_app_distr in H. exact H.
      - intros H. specialize (H eq_refl). destruct (rev m) as [|p l] eqn:R; [reflexivity|]. apply (H (rev l) p). rewrite <- (rev_involutive m), R. reflexivity. }
    assert (Y : negb (negb (sa_blows A =? 0) && is_too_many_places m c (sa_blows A)) = true <-> (sa_blows A <> 0 -> ~ too_long (sa_blows A) (cn c) m c [])).
    { destruct (Nat.eqb_spec (sa_blows A) 0) as [E|N]; cbn [negb andb]; [intuition lia|]. rewrite (@not_iff _ (too_long (sa_blows A) (cn c) m c [])); [intuition|].
      rewrite too_long_spec. unfold is_too_many_places. rewrite (@existsb_ext_in _ _ (fun i => findplace c i && (sa_blows A <? 2 + back_run i (rev m)))); [reflexivity|]. intros i _. cbn [back_run]. now rewrite Nat.add_0_r. }
    rewrite X, Y. reflexivity. }
  assert (TS : try_sym_change A m c = true <-> (sa_sym A = true -> sa_blows A <> 0 -> ~ too_long (sa_blows A / 2 + 1) (cn c) m c [])).
  { unfold try_sym_change. destruct (sa_sym A); cbn [andb]; [|intuition discriminate]. destruct (Nat.eqb_spec (sa_blows A) 0) as [E|N]; cbn [negb andb]; [intuition lia|].
    rewrite (@not_iff _ (too_long (sa_blows A / 2 + 1) (cn c) m c [])); [intuition|].
    rewrite too_long_spec. unfold is_too_many_places. rewrite (@existsb_ext_in _ _ (fun i => findplace c i && (sa_blows A / 2 + 1 <? 2 + back_run i (rev m)))); [reflexivity|]. intros i _. cbn [back_run]. now rewrite Nat.add_0_r. }
  assert (E5 : try_leadend_change A m c = true <-> (sa_blows A <> 0 -> ~ too_long (sa_blows A) (sa_bells A) m c m) /\
     (sa_hunts A = 0 -> sa_trivial A = true -> forall p m', m = p :: m' -> change_eqb c p = false)).
  { unfold try_leadend_change. rewrite andb_true_iff.
    assert (X : negb ((sa_hunts A =? 0) && sa_trivial A && match m with p :: _ => change_eqb c p | [] => false end) = true <-> (sa_hunts A = 0 -> sa_trivial A = true -> forall p m', m = p :: m' -> change_eqb c p = false)).
    { rewrite negb_true_iff. destruct (Nat.eqb_spec (sa_hunts A) 0) as [E|N], (sa_trivial A); cbn [andb]; try (intuition (try discriminate; try lia); fail).
      split; [intros H _ _ p m' ->; exact H|]. intros H. destruct m as [|p m']; [reflexivity|]. now apply (H E eq_refl p m'). }
    assert (Y : (if sa_blows A =? 0 then true else negb (existsb (fun i => findplace c i &&
      (let c1 := run_limited (sa_blows A) 2 i (rev m) in if sa_blows A <? c1 then true else sa_blows A <? run_limited (sa_blows A) c1 i m)) (seq 0 (sa_bells A)))) = true <->
      (sa_blows A <> 0 -> ~ too_long (sa_blows A) (sa_bells A) m c m)).
    { destruct (Nat.eqb_spec (sa_blows A) 0) as [E|N]; [intuition lia|]. rewrite (@not_iff _ (too_long (sa_blows A) (sa_bells A) m c m)); [intuition|]. rewrite too_long_spec.
      erewrite existsb_ext_in; [reflexivity|]. intros i _. cbn beta zeta. f_equal. rewrite !run_limited_min by (try rewrite run_limited_min; lia).
      set (x := back_run i (rev m)). set (y := back_run i m). destruct (Nat.ltb_spec (sa_blows A) (Nat.min (S (sa_blows A)) (2 + x))); [apply Nat.ltb_lt; lia|].
      destruct (Nat.ltb_spec (sa_blows A) (Nat.min (S (sa_blows A)) (Nat.min (S (sa_blows A)) (2 + x) + y))); [apply Nat.ltb_lt|apply Nat.ltb_ge]; lia. }
    rewrite X, Y. reflexivity. }
  rewrite E1, E3.
  assert (F4 : (if (sa_hunts A mod 2 =? 1) && (length m + 1 =? L / 2) || negb (sa_hunts A =? 0) && (sa_hunts A mod 2 =? 0) && (length m + 1 =? L / 2 + div_len A / 2) then try_sym_change A m c else true) = true <->
     (sa_hunts A <> 0 -> S (length m) = L / 2 + middle A -> try_sym_change A m c = true)).
  { assert (DL : div_len A / 2 = 1 + sa_dodges A) by (unfold div_len; apply Nat.div_mul; lia). rewrite DL, Nat.add_1_r. unfold middle. pose proof (Nat.mod_upper_bound (sa_hunts A) 2 ltac:(lia)) as MU.
    destruct (Nat.eqb_spec (sa_hunts A) 0) as [E|N].
    - rewrite E. cbn [negb andb orb Nat.modulo Nat.divmod fst snd Nat.sub Nat.eqb]. intuition.
    - destruct (Nat.eqb_spec (sa_hunts A mod 2) 1) as [E1'|E1'], (Nat.eqb_spec (sa_hunts A mod 2) 0) as [E0|E0]; try lia; cbn [negb andb orb].
      + rewrite orb_false_r. destruct (Nat.eqb_spec (S (length m)) (L / 2)); [intuition|]. split; [lia|reflexivity].
      + destruct (Nat.eqb_spec (S (length m)) (L / 2 + (1 + sa_dodges A))); [intuition|]. split; [lia|reflexivity]. }
  assert (F6 : (if (sym_offset A =? 0) && (length m + 1 =? L) || negb (sym_offset A =? 0) && (length m + 1 =? sym_offset A) then try_sym_change A m c else true) = true <->
     (S (length m) = (if middle A =? 0 then L else middle A) -> try_sym_change A m c = true)).
  { rewrite middle_eq, Nat.add_1_r. destruct (Nat.eqb_spec (middle A) 0); cbn [negb andb orb]; [rewrite orb_false_r|].
    - destruct (Nat.eqb_spec (S (length m)) L); [intuition|]. split; [lia|reflexivity].
    - destruct (Nat.eqb_spec (S (length m)) (middle A)); [intuition|]. split; [lia|reflexivity]. }
  assert (F5 : (if length m + 1 =? L then try_leadend_change A m c else true) = true <-> (S (length m) = L -> try_leadend_change A m c = true)).
  { rewrite Nat.add_1_r. destruct (Nat.eqb_spec (S (length m)) L); [intuition|]. split; [lia|reflexivity]. }
  rewrite F4, F5, F6, TS, E5. rewrite E2. clear. split.
  - intros ((((((H1 & _) & H2 & H3) & H4) & H5) & H6) & H7). split; [exact H1|]. split; [exact H2|]. split; [exact H3|]. split; [|auto].
    intros S0 B0 [[h p]|p]; auto.
  - intros (H1 & H2 & H3 & H4 & H5 & H7). repeat split; auto; apply H5; auto.
Qed.

Lemma symmetric_eq m : symmetric0 A m <-> symmetric A m.
Proof. unfold symmetric0, symmetric. rewrite middle_eq. reflexivity. Qed.
Lemma chosen_eq i : chosen0 A i <-> chosen A i.
Proof. unfold chosen0, chosen. rewrite middle_eq. reflexivity. Qed.
Lemma true_eq m : true_method0 A m <-> true_method A m.
Proof.
  unfold true_method0, true_method. destruct (use_prover A) eqn:U.
  - assert (P : proving A) by now apply proving_eq. tauto.
  - assert (P : ~ proving A) by (rewrite <- proving_eq, U; discriminate). tauto.
Qed.
Lemma double_blows_eq m : 2 <= L -> length m = L -> (double_blows0 A m <-> double_blows A m).
Proof.
  intros L1 LM. unfold double_blows0, double_blows. destruct (asked A (sa_doubsym A)); [|intuition discriminate].
  destruct (Nat.eq_dec (sa_blows A) 0) as [E|N]; [intuition|].
  set (h0 := firstn (L / 2) m).
  assert (Hl : exists h c, h0 = h ++ [c]).
  { assert (LH : 1 <= L / 2) by (apply Nat.div_le_lower_bound; lia). assert (NZ : h0 <> []) by (unfold h0; intros X; apply (f_equal (@length change)) in X; rewrite firstn_length in X; cbn [length] in X; pose proof (Nat.div_le_upper_bound L 2 L); lia).
    destruct (exists_last NZ) as (h & c & ->). eauto. }
  destruct Hl as (h & c & Eh).
  assert (D1 : double_first_test A h0 = true <-> ~ too_long (sa_blows A) (sa_bells A) h c (map change_reverse (h ++ [c]))).
  { unfold double_first_test. rewrite Eh, rev_app_distr. cbn [rev app]. rewrite (@not_iff _ (too_long (sa_blows A) (sa_bells A) h c (map change_reverse (h ++ [c])))); [reflexivity|].
    rewrite too_long_spec. erewrite existsb_ext_in; [reflexivity|]. intros i _. cbn beta zeta. f_equal. rewrite !run_limited_min by (try rewrite run_limited_min; lia).
    set (x := back_run i (rev h)). set (y := back_run i (map change_reverse (h ++ [c]))).
    destruct (Nat.ltb_spec (sa_blows A) (Nat.min (S (S (sa_blows A))) (Nat.min (S (S (sa_blows A))) (2 + x) + y))); [apply Nat.ltb_lt|apply Nat.ltb_ge]; lia. }
  assert (D2 : double_second_test A (h0 ++ map change_reverse (removelast h0)) (change_reverse (last h0 (mkChange 0 []))) = true <->
     ~ too_long (sa_blows A) (sa_bells A) (h ++ [c] ++ map change_reverse h) (change_reverse c) (h ++ [c] ++ map change_reverse h)).
  { rewrite Eh, removelast_last, last_last, <- app_assoc. unfold double_second_test. rewrite (@not_iff _ (too_long (sa_blows A) (sa_bells A) (h ++ [c] ++ map change_reverse h) (change_reverse c) (h ++ [c] ++ map change_reverse h))); [reflexivity|].
    apply too_long_spec. }
  cbv zeta. rewrite D1, D2. split.
  - intros H _ _ h' c' E. rewrite Eh in E. apply app_inj_tail in E as [<- <-]. now apply H.
  - intros H _ _. now apply H.
Qed.

Lemma checked_eq : checked A -> checked0 A.
Proof.
  intros [H1 H2 H3 H4 H5 H6 H7 H8 H9 H10 H11 H12 H13 H14]. constructor; auto; rewrite ?middle_eq; auto.
  - intros F S M. apply H13; auto. unfold maintain_r in M. destruct (use_prover A) eqn:U; [left; now apply proving_eq|]. right. destruct (sa_avoid A); [discriminate|congruence].
  - intros U. apply H14. now apply proving_eq.
Qed.

Lemma wanted_eq m : checked A -> (wanted0 A m <-> wanted A m).
Proof.
  intros CK. unfold wanted0, wanted. rewrite symmetric_eq, true_eq.
  assert (DB : length m = L -> (double_blows0 A m <-> double_blows A m)).
  { intros LM. destruct (asked A (sa_doubsym A)) eqn:D; [|unfold double_blows0, double_blows; rewrite D; intuition discriminate].
    apply double_blows_eq; [|exact LM]. unfold asked in D. apply andb_prop in D as [D _]. assert (E : L mod 2 = 0) by (apply (ck_even CK); rewrite D; apply orb_true_iff; left; apply orb_true_r).
    pose proof (ck_len CK) as X. destruct (sa_len A) as [|[|l]]; [lia|discriminate E|lia]. }
  split; intros (LM & S & C & T & D & F); (split; [exact LM|]; split; [exact S|]; split; [|split; [exact T|]; split; [now apply DB|exact F]]);
    intros i Hi Ci; apply chosen_eq in Ci; destruct (C i Hi Ci) as (c & E & I & P); exists c; (split; [exact E|]; split; [exact I|]); now apply passes_eq.
Qed.

Lemma tells_eq f : checked A -> (tells0 A f <-> tells A f).
Proof. intros CK. unfold tells0, tells. split; intros H x Lx Wx; specialize (H x Lx Wx); rewrite H; [|symmetry]; now apply wanted_eq. Qed.
End A.
