(* P_MethSearch5.v - the search of methsearch finds the methods wanted0. *)
From Verif Require Import Base M_Bell M_Change M_Math M_Row M_PN M_Method M_Proof M_MethSearch
  Spec_Row Spec_Change Spec_Proof Spec_MethSearch I_MethSearch P_Row P_Change2 P_Change3 P_Method P_Proof P_MethSearch P_MethSearch2 P_MethSearch3 P_MethSearch4.
From Coq Require Import Permutation.
Set Implicit Arguments.
Unset Strict Implicit.
Open Scope nat_scope.

Lemma perm_filter {X} (f : X -> bool) a b : Permutation a b -> Permutation (filter f a) (filter f b).
Proof. induction 1; cbn [filter]; try destruct (f x); try destruct (f y); auto using perm_swap; eauto using Permutation_trans. Qed.
Lemma some_inj (a b : nat) (c d : bool) : Some (a, c) = Some (b, d) -> a = b /\ c = d.
Proof. now intros [= -> ->]. Qed.
Lemma mod_val x L q j : x = q * L + j -> j < L -> x mod L = j.
Proof. intros E H. symmetry. apply Nat.mod_unique with q; lia. Qed.

Section A.
Variable A : sargs.
Notation L := (sa_len A).
Notation so := (sym_offset A).
Hypothesis SN : sane A.
Hypothesis S4 : sa_floating A = false -> sa_skewsym A = true -> 4 < L.

Notation rv := (fun (r : bool) (c : change) => if r then change_reverse c else c).
Definition src_ok (M : list change) : Prop :=
  forall i k r, i < L -> srcf A i = Some (k, r) -> nth_error M i = option_map (rv r) (nth_error M k).
Definition all_wf (M : list change) : Prop := forall i, i < L -> exists c, nth_error M i = Some c /\ wfc A c.

Lemma src_less i k r : i < L -> srcf A i = Some (k, r) -> k < i.
Proof. clear S4.
  unfold srcf. intros Hi. destruct (Bool.bool_dec (sa_floating A) true) as [FL|FL]; [rewrite FL; discriminate|].
  apply Bool.not_true_is_false in FL. rewrite FL. assert (EV := sn_even SN FL).
  pose proof (sn_len SN) as L1. assert (D2 := Nat.div_mod L 2 ltac:(lia)). assert (M2 := Nat.mod_upper_bound L 2 ltac:(lia)).
  assert (D4 := Nat.div_mod L 4 ltac:(lia)). assert (M4 := Nat.mod_upper_bound L 4 ltac:(lia)).
  assert (D34 := Nat.div_mod (3 * L) 4 ltac:(lia)). assert (M34 := Nat.mod_upper_bound (3 * L) 4 ltac:(lia)).
  destruct (sa_skewsym A).
  - specialize (EV ltac:(now rewrite orb_true_r)). apply (half_even SN) in EV.
    destruct (Nat.leb_spec (L / 4) i), (Nat.ltb_spec i (L / 2 - 1)); cbn [andb]; try (intros [<- <-]%some_inj; lia);
      (destruct (sa_doubsym A); [destruct (Nat.leb_spec (L / 2) i); [intros [<- <-]%some_inj; lia|discriminate]|destruct (Nat.leb_spec (3 * L / 4) i); [intros [<- <-]%some_inj; lia|discriminate]]).
  - clear D4 M4 D34 M34. destruct (sa_doubsym A); [specialize (EV ltac:(now rewrite orb_true_r)); destruct (Nat.leb_spec (L / 2) i); [intros [<- <-]%some_inj; lia|discriminate]|].
    destruct (sa_sym A); [|discriminate]. specialize (EV eq_refl).
    destruct (Nat.leb_spec so i), (Nat.ltb_spec i (2 * so - 1)); cbn [andb]; try (intros [<- <-]%some_inj; lia);
      (destruct (Nat.leb_spec (L / 2 + so) i), (Nat.ltb_spec i (L - tail1 A)); cbn [andb]; try discriminate; intros [<- <-]%some_inj; lia).
Qed.

Lemma RR M i j : all_wf M -> i < L -> j < L -> nth_error M i = option_map change_reverse (nth_error M j) -> nth_error M j = option_map change_reverse (nth_error M i).
Proof. clear S4. intros W Hi Hj E. destruct (W j Hj) as (c & Ec & Bc & Wc). rewrite E, Ec. cbn [option_map]. pose proof (sn_bells SN). rewrite reverse_reverse; [reflexivity|lia|exact Wc]. Qed.

Lemma pal_eqs M : L = 2 * (L / 2) -> so <= L / 2 ->
  ((forall i, (so <= i < 2 * so - 1 -> nth_error M i = nth_error M (2 * so - 2 - i)) /\
             (L / 2 + so <= i < L - tail1 A -> nth_error M i = nth_error M (L + 2 * so - 2 - i))) <-> palindrome L so M).
Proof. clear S4.
  intros EV SO. assert (T1 : (so = 0 /\ tail1 A = 1) \/ (so <> 0 /\ tail1 A = 0)) by (unfold tail1; destruct (Nat.eqb_spec so 0); auto).
  revert EV SO T1. generalize (L / 2) as h. generalize (tail1 A) as t. generalize so as c. generalize L as n. intros n c t h EV SO T1. unfold palindrome. split.
  - intros H i Hi. destruct (Nat.le_gt_cases i (2 * c - 2)) as [G|G].
    + destruct (Nat.eq_dec c 0) as [Z|Z].
      * assert (i = 0) by lia. subst i c. destruct (Nat.eq_dec n 1) as [|N1]; [lia|]. rewrite (@mod_val _ n 1 (n - 2)) by lia. destruct (H (n - 2)) as [_ H2].
        destruct (Nat.eq_dec n 2) as [->|]; [reflexivity|]. rewrite H2 by lia. f_equal. lia.
      * rewrite (@mod_val _ n 2 (2 * c - 2 - i)) by lia. destruct (Nat.le_gt_cases c i) as [Q|Q].
        -- destruct (H i) as [H1 _]. destruct (Nat.eq_dec i (2 * c - 2 - i)) as [E|E]; [now rewrite <- E|]. apply H1. lia.
        -- destruct (H (2 * c - 2 - i)) as [H1 _]. destruct (Nat.eq_dec i (2 * c - 2 - i)) as [E|E]; [now rewrite <- E|]. rewrite H1 by lia. f_equal. lia.
    + destruct (Nat.eq_dec (i + 1) (n + 2 * c)) as [X|X].
      { rewrite (@mod_val _ n 0 (n - 1)) by lia. f_equal. lia. }
      rewrite (@mod_val _ n 1 (n + 2 * c - 2 - i)) by lia. destruct (Nat.eq_dec i (n + 2 * c - 2 - i)) as [E|E]; [now rewrite <- E|].
      destruct (Nat.le_gt_cases (h + c) i) as [Q|Q].
      * destruct (H i) as [_ H2]. destruct (Nat.eq_dec i (n - 1)) as [->|]; [|apply H2; lia]. destruct T1 as [T1|T1]; [|apply H2; lia].
        exfalso. lia.
      * destruct (H (n + 2 * c - 2 - i)) as [_ H2]. rewrite H2 by lia. f_equal. lia.
  - intros H i. split; intros Hi; rewrite H by lia.
    + f_equal. apply mod_val with 2; lia.
    + f_equal. apply mod_val with 1; lia.
Qed.

Lemma dbl_eqs M : L = 2 * (L / 2) ->
  (all_wf M -> (forall i, L / 2 <= i < L -> nth_error M i = option_map change_reverse (nth_error M (i - L / 2))) -> double L M) /\
  (double L M -> forall i, L / 2 <= i < L -> nth_error M i = option_map change_reverse (nth_error M (i - L / 2))).
Proof. clear S4.
  intros EV. unfold double. split.
  - intros W H i Hi. destruct (Nat.le_gt_cases (L / 2) i).
    + rewrite (@mod_val _ L 1 (i - L / 2)) by lia. apply H. lia.
    + rewrite (@mod_val _ L 0 (i + L / 2)) by lia. apply RR; [exact W|lia|lia|]. rewrite H by lia. do 2 f_equal. lia.
  - intros H i Hi. rewrite H by lia. rewrite (@mod_val _ L 1 (i - L / 2)) by lia. reflexivity.
Qed.

Lemma rot_eqs M : L = 2 * (L / 2) -> 4 < L ->
  (all_wf M -> (forall i, (L / 4 <= i < L / 2 - 1 -> nth_error M i = option_map change_reverse (nth_error M (L / 2 - 2 - i))) /\
    (3 * L / 4 <= i < L -> nth_error M i = option_map change_reverse (nth_error M (L + L / 2 - 2 - i)))) -> rotation L M) /\
  (rotation L M -> forall i, (L / 4 <= i < L / 2 - 1 -> nth_error M i = option_map change_reverse (nth_error M (L / 2 - 2 - i))) /\
    (3 * L / 4 <= i < L -> nth_error M i = option_map change_reverse (nth_error M (L + L / 2 - 2 - i)))).
Proof. clear S4.
  intros EV G. unfold rotation.
  assert (D4 := Nat.div_mod L 4 ltac:(lia)). assert (M4 := Nat.mod_upper_bound L 4 ltac:(lia)).
  assert (D34 := Nat.div_mod (3 * L) 4 ltac:(lia)). assert (M34 := Nat.mod_upper_bound (3 * L) 4 ltac:(lia)). split.
  - intros W H i Hi. destruct (Nat.le_gt_cases i (L / 2 - 2)).
    + rewrite (@mod_val _ L 1 (L / 2 - 2 - i)) by lia. intros N. destruct (Nat.le_gt_cases (L / 4) i) as [Q|Q]; [apply H; lia|].
      apply RR; [exact W|lia|lia|]. destruct (H (L / 2 - 2 - i)) as [H1 _]. rewrite H1 by lia. do 2 f_equal. lia.
    + rewrite (@mod_val _ L 0 (L + L / 2 - 2 - i)) by lia. intros N. destruct (Nat.le_gt_cases (3 * L / 4) i) as [Q|Q]; [apply H; lia|].
      apply RR; [exact W|lia|lia|]. destruct (H (L + L / 2 - 2 - i)) as [_ H2]. rewrite H2 by lia. do 2 f_equal. lia.
  - intros H i. split; intros Hi; rewrite H.
    + rewrite (@mod_val _ L 1 (L / 2 - 2 - i)) by lia. reflexivity.
    + lia.
    + rewrite (@mod_val _ L 1 (L / 2 - 2 - i)) by lia. lia.
    + rewrite (@mod_val _ L 0 (L + L / 2 - 2 - i)) by lia. reflexivity.
    + lia.
    + rewrite (@mod_val _ L 0 (L + L / 2 - 2 - i)) by lia. lia.
Qed.

(* half of rotation, and double, make rotation *)
Lemma rot_half M : L = 2 * (L / 2) -> 4 < L -> all_wf M -> double L M ->
  (forall i, L / 4 <= i < L / 2 - 1 -> nth_error M i = option_map change_reverse (nth_error M (L / 2 - 2 - i))) -> rotation L M.
Proof. clear S4.
  intros EV G W D H.
  assert (D4 := Nat.div_mod L 4 ltac:(lia)). assert (M4 := Nat.mod_upper_bound L 4 ltac:(lia)).
  assert (D34 := Nat.div_mod (3 * L) 4 ltac:(lia)). assert (M34 := Nat.mod_upper_bound (3 * L) 4 ltac:(lia)).
  apply (proj1 (rot_eqs M EV G)); auto. intros i. split; [apply H|]. intros Hi. pose proof (proj2 (dbl_eqs M EV) D) as D'. clear D. rename D' into D.
  destruct (Nat.eq_dec i (L - 1)) as [->|N].
  - rewrite D by lia. do 2 f_equal. lia.
  - rewrite D by lia. rewrite (D (L + L / 2 - 2 - i)) by lia. rewrite H by lia. do 3 f_equal. lia.
Qed.

Lemma sym_eqs M : (all_wf M -> src_ok M -> symmetric0 A M) /\ (symmetric0 A M -> src_ok M).
Proof.
  unfold symmetric0, asked. destruct (Bool.bool_dec (sa_floating A) true) as [FL|FL].
  { unfold src_ok, srcf. rewrite FL, !andb_false_r. split; [|discriminate]. intros _ _. repeat split; discriminate. }
  apply Bool.not_true_is_false in FL. rewrite FL. cbn [negb]. rewrite !andb_true_r.
  assert (EV := sn_even SN FL). assert (TW := not_all SN FL). assert (SK := sn_skew SN FL). assert (SY := sn_sym SN FL). pose proof (S4 FL) as S4'. pose proof (sn_two SN FL) as T3. pose proof (sn_len SN) as L1.
  unfold src_ok, srcf. rewrite FL.
  assert (D4 := Nat.div_mod L 4 ltac:(lia)). assert (M4 := Nat.mod_upper_bound L 4 ltac:(lia)).
  assert (D34 := Nat.div_mod (3 * L) 4 ltac:(lia)). assert (M34 := Nat.mod_upper_bound (3 * L) 4 ltac:(lia)).
  destruct (sa_skewsym A) eqn:K.
  - specialize (EV ltac:(now rewrite orb_true_r)). apply (half_even SN) in EV. specialize (S4' eq_refl).
    destruct (sa_doubsym A) eqn:Q.
    + split.
      * intros W H. split; [discriminate|].
        assert (DB : double L M).
        { apply (proj1 (dbl_eqs M EV) W). intros i Hi. apply (H i (i - L / 2) true); [lia|].
          destruct (Nat.ltb_spec i (L / 2 - 1)); [lia|]. rewrite andb_false_r. destruct (Nat.leb_spec (L / 2) i); [reflexivity|lia]. }
        split; [auto|]. intros _. apply rot_half; auto. intros i Hi. apply (H i (L / 2 - 2 - i) true); [lia|].
        destruct (Nat.leb_spec (L / 4) i), (Nat.ltb_spec i (L / 2 - 1)); try lia. reflexivity.
      * intros (_ & H1 & H2) i k r Hi. specialize (H1 eq_refl). specialize (H2 eq_refl). pose proof (proj2 (rot_eqs M EV S4') H2) as H2'. pose proof (proj2 (dbl_eqs M EV) H1) as H1'.
        destruct (Nat.leb_spec (L / 4) i), (Nat.ltb_spec i (L / 2 - 1)); cbn [andb];
         try (destruct (Nat.leb_spec (L / 2) i); [|discriminate]); intros [<- <-]%some_inj; solve [apply H1'; lia|apply H2'; lia].
    + split.
      * intros W H. split; [|split; [discriminate|]].
        -- intros Y. specialize (T3 ltac:(rewrite Y; reflexivity)). destruct T3 as (_ & ? & _). discriminate.
        -- intros _. apply (proj1 (rot_eqs M EV S4') W). intros i. split; intros Hi.
           ++ apply (H i (L / 2 - 2 - i) true); [lia|]. destruct (Nat.leb_spec (L / 4) i), (Nat.ltb_spec i (L / 2 - 1)); try lia. reflexivity.
           ++ apply (H i (L + L / 2 - 2 - i) true); [lia|]. destruct (Nat.ltb_spec i (L / 2 - 1)); [lia|]. rewrite andb_false_r. destruct (Nat.leb_spec (3 * L / 4) i); [reflexivity|lia].
      * intros (_ & _ & H2) i k r Hi. specialize (H2 eq_refl). pose proof (proj2 (rot_eqs M EV S4') H2) as H2'.
        destruct (Nat.leb_spec (L / 4) i), (Nat.ltb_spec i (L / 2 - 1)); cbn [andb];
         try (destruct (Nat.leb_spec (3 * L / 4) i); [|discriminate]); intros [<- <-]%some_inj; apply H2'; lia.
  - destruct (sa_doubsym A) eqn:Q.
    + specialize (EV ltac:(now rewrite orb_true_r)). apply (half_even SN) in EV. split.
      * intros W H. split; [discriminate|]. split; [|discriminate]. intros _. apply (proj1 (dbl_eqs M EV) W). intros i Hi. apply (H i (i - L / 2) true); [lia|].
        destruct (Nat.leb_spec (L / 2) i); [reflexivity|lia].
      * intros (_ & H1 & _) i k r Hi. specialize (H1 eq_refl). pose proof (proj2 (dbl_eqs M EV) H1) as H1'. destruct (Nat.leb_spec (L / 2) i); [|discriminate]. intros [<- <-]%some_inj. apply H1'. lia.
    + destruct (sa_sym A) eqn:Y; [|split; [intros _ _; repeat split; discriminate|discriminate]].
      specialize (EV eq_refl). apply (half_even SN) in EV. specialize (SY eq_refl). clear D4 D34 M4 M34. split.
      * intros W H. split; [|split; discriminate]. intros _ _. apply pal_eqs; auto. intros i. split; intros Hi.
        -- replace (nth_error M (2 * so - 2 - i)) with (option_map (rv false) (nth_error M (2 * so - 2 - i))) by (now destruct (nth_error M (2 * so - 2 - i))).
           apply (H i (2 * so - 2 - i) false); [lia|]. destruct (Nat.leb_spec so i), (Nat.ltb_spec i (2 * so - 1)); try lia. reflexivity.
        -- replace (nth_error M (L + 2 * so - 2 - i)) with (option_map (rv false) (nth_error M (L + 2 * so - 2 - i))) by (now destruct (nth_error M (L + 2 * so - 2 - i))).
           apply (H i (L + 2 * so - 2 - i) false); [lia|]. destruct (Nat.ltb_spec i (2 * so - 1)); [lia|]. rewrite andb_false_r.
           destruct (Nat.leb_spec (L / 2 + so) i), (Nat.ltb_spec i (L - tail1 A)); try lia. reflexivity.
      * intros (H & _) i k r Hi. specialize (H eq_refl eq_refl). rewrite <- pal_eqs in H by assumption.
        assert (E : forall x, option_map (rv false) x = x) by (now intros []).
        destruct (Nat.leb_spec so i), (Nat.ltb_spec i (2 * so - 1)); cbn [andb];
         try (destruct (Nat.leb_spec (L / 2 + so) i), (Nat.ltb_spec i (L - tail1 A)); cbn [andb]); try discriminate; intros [<- <-]%some_inj; rewrite E; apply H; lia.
Qed.

Lemma chosen_src i : i < L -> (srcf A i = None <-> chosen0 A i).
Proof.
  intros Hi. unfold srcf, chosen0, asked. destruct (Bool.bool_dec (sa_floating A) true) as [FL|FL].
  { rewrite FL, !andb_false_r. tauto. }
  apply Bool.not_true_is_false in FL. rewrite FL. cbn [negb]. rewrite !andb_true_r.
  assert (EV := sn_even SN FL). assert (SY := sn_sym SN FL). pose proof (S4 FL) as S4'.
  assert (D4 := Nat.div_mod L 4 ltac:(lia)). assert (M4 := Nat.mod_upper_bound L 4 ltac:(lia)).
  assert (D34 := Nat.div_mod (3 * L) 4 ltac:(lia)). assert (M34 := Nat.mod_upper_bound (3 * L) 4 ltac:(lia)).
  destruct (sa_skewsym A).
  - specialize (EV ltac:(now rewrite orb_true_r)). apply (half_even SN) in EV. specialize (S4' eq_refl).
    destruct (Nat.leb_spec (L / 4) i), (Nat.ltb_spec i (L / 2 - 1)); cbn [andb];
      (destruct (sa_doubsym A); [destruct (Nat.leb_spec (L / 2) i)|destruct (Nat.leb_spec (3 * L / 4) i)]); split; intros X; try discriminate; try reflexivity; try lia.
  - destruct (sa_doubsym A).
    + destruct (Nat.leb_spec (L / 2) i); split; intros X; try discriminate; try reflexivity; lia.
    + destruct (sa_sym A) eqn:Y; [|tauto]. specialize (EV eq_refl). apply (half_even SN) in EV. specialize (SY eq_refl). clear D4 D34 M4 M34.
      assert (T1 : (so = 0 /\ tail1 A = 1) \/ (so <> 0 /\ tail1 A = 0)) by (unfold tail1; destruct (Nat.eqb_spec so 0); auto).
      destruct (Nat.leb_spec so i), (Nat.ltb_spec i (2 * so - 1)); cbn [andb];
      destruct (Nat.leb_spec (L / 2 + so) i), (Nat.ltb_spec i (L - tail1 A)); cbn [andb]; split; intros X; try discriminate; try reflexivity; lia.
Qed.

(* --- truth --- *)
Lemma looked_unproved k : k <= L -> looked_at A k = negb (unproved A k).
Proof.
  intros H. unfold looked_at, unproved. destruct (Nat.ltb_spec k L), (Nat.eqb_spec k L); try lia; cbn [negb andb orb].
  destruct (sa_true_lead A), (sa_true_half A); cbn [negb andb orb]; try reflexivity. destruct (Nat.ltb_spec k (L / 2)), (Nat.leb_spec (L / 2) k); try lia; reflexivity.
Qed.
Lemma snoc_all M (P : list change -> Prop) : (forall k, k < length M -> P (firstn (S k) M)) <->
  (M = [] \/ exists m c, M = m ++ [c] /\ (forall k, k < length m -> P (firstn (S k) m)) /\ P M).
Proof.
  destruct M as [|c m _] using rev_ind.
  - split; [auto|]. cbn [length]. lia.
  - rewrite app_length. cbn [length]. split.
    + intros H. right. exists m, c. split; [reflexivity|]. split.
      * intros k Hk. specialize (H k ltac:(lia)). rewrite firstn_app in H. replace (S k - length m) with 0 in H by lia. now rewrite firstn_O, app_nil_r in H.
      * specialize (H (length m) ltac:(lia)). rewrite firstn_all2 in H; [exact H|]. rewrite app_length. cbn [length]. lia.
    + intros [E|(m' & c' & E & H & HM)]; [destruct m; discriminate|]. apply app_inj_tail in E as [<- <-]. intros k Hk. destruct (Nat.eq_dec k (length m)) as [->|].
      * rewrite firstn_all2; [exact HM|]. rewrite app_length. cbn [length]. lia.
      * rewrite firstn_app. replace (S k - length m) with 0 by lia. rewrite firstn_O, app_nil_r. apply H. lia.
Qed.

Lemma push_excess : use_prover A = true -> start_true A -> forall M, (forall k, k < length M -> push_ok A (firstn (S k) M) = true) <-> excess (sa_extents A) (hist A M) = 0%Z.
Proof.
  intros U ST M. induction M as [|c m IH] using rev_ind.
  - split; [intros _; exact (ST U)|]. cbn [length]. lia.
  - rewrite (@snoc_all (m ++ [c]) (fun x => push_ok A x = true)). pose proof (sn_ext SN) as EXT.
    assert (X : (m ++ [c] = [] \/ exists m' c', m ++ [c] = m' ++ [c'] /\ (forall k, k < length m' -> push_ok A (firstn (S k) m') = true) /\ push_ok A (m ++ [c]) = true) <->
       (excess (sa_extents A) (hist A m) = 0%Z /\ push_ok A (m ++ [c]) = true)).
    { rewrite <- IH. split.
      - intros [E|(m' & c' & E & H)]; [destruct m; discriminate|]. apply app_inj_tail in E as [<- <-]. exact H.
      - intros H. right. exists m, c. auto. }
    rewrite X. unfold push_ok. assert (MR : maintain_r A = true) by (unfold maintain_r; now rewrite U). rewrite MR, U. cbn [negb orb]. rewrite app_length. cbn [length]. rewrite Nat.add_1_r, hist_snoc by apply (sn_bells SN).
    destruct (unproved A (S (length m))); cbn [orb]; [tauto|]. rewrite Z.leb_le. cbn [excess]. assert (N := @excess_nonneg (sa_extents A) (hist A m)).
    unfold cnt. cbn [count_occ]. destruct (req (srow A (m ++ [c])) (srow A (m ++ [c]))); [|congruence].
    destruct (Z.ltb_spec (sa_extents A) (Z.of_nat (S (count_occ req (hist A m) (srow A (m ++ [c])))))); lia.
Qed.

Lemma row_eqb_eq a b : M_Row.row_eqb a b = true <-> a = b.
Proof. unfold M_Row.row_eqb. destruct (list_eq_dec Nat.eq_dec a b); split; congruence. Qed.

Lemma truth_eqs M : start_true A -> length M = L -> ((forall i, i < L -> push_ok A (firstn (S i) M) = true) <-> true_method0 A M).
Proof.
  intros ST LM. unfold true_method0, rows_looked_at.
  assert (F : filter (looked_at A) (seq 1 L) = filter (fun k => negb (unproved A k)) (seq 1 L)).
  { apply filter_ext_in. intros k Hk. apply in_seq in Hk. apply looked_unproved. lia. }
  rewrite F. destruct (use_prover A) eqn:U.
  - assert (E0 : (forall i, i < L -> push_ok A (firstn (S i) M) = true) <-> (forall i, i < length M -> push_ok A (firstn (S i) M) = true)) by (rewrite LM; tauto).
    rewrite E0, (push_excess U ST), excess_zero by (pose proof (sn_ext SN); lia). clear E0.
    assert (P : Permutation (hist A M) (sa_avoid A ++ sa_start A :: map (row_after A M) (filter (fun k => negb (unproved A k)) (seq 1 L)))).
    { unfold hist. rewrite LM. eapply Permutation_trans; [apply Permutation_app_comm|].
      eapply Permutation_trans; [|apply Permutation_middle]. rewrite <- app_comm_cons. apply perm_skip. apply Permutation_app; [apply Permutation_sym, Permutation_rev|].
      apply Permutation_map. apply perm_filter. apply Permutation_sym, Permutation_rev. }
    split; intros H r; specialize (H r); assert (CP := cnt_perm r P); unfold cnt, req in *; [rewrite <- CP|rewrite CP]; exact H.
  - split.
    + intros H r I1 I2. apply in_map_iff in I1 as (k & <- & I1). apply filter_In in I1 as [I1 NU]. apply in_seq in I1.
      specialize (H (k - 1) ltac:(lia)). unfold push_ok in H. replace (S (k - 1)) with k in H by lia. rewrite firstn_length, Nat.min_l, U in H by lia.
      assert (MR : maintain_r A = true) by (unfold maintain_r; destruct (sa_avoid A); [contradiction|now rewrite U]).
      apply negb_true_iff in NU. rewrite MR, NU in H. cbn [negb orb] in H. apply negb_true_iff in H.
      assert (E : existsb (M_Row.row_eqb (srow A (firstn k M))) (sa_avoid A) = true) by (apply existsb_exists; eexists; split; [exact I2|now apply row_eqb_eq]). congruence.
    + intros H i Hi. unfold push_ok. rewrite firstn_length, Nat.min_l, U by lia. destruct (maintain_r A); [|reflexivity]. cbn [negb orb].
      destruct (unproved A (S i)) eqn:NU; [reflexivity|]. cbn [orb]. apply negb_true_iff. destruct (existsb _ _) eqn:E; [|reflexivity].
      apply existsb_exists in E as (r & I & E). apply row_eqb_eq in E. exfalso. apply (H r); [|exact I]. apply in_map_iff. exists (S i). split; [exact E|]. apply filter_In. split; [apply in_seq; lia|now rewrite NU].
Qed.

Lemma double_eqs M : dtestf A (firstn (L / 2) M) = true <-> double_blows0 A M.
Proof.
  unfold dtestf, double_blows0, asked. destruct (sa_floating A), (sa_doubsym A); cbn [negb andb orb]; try (split; [discriminate|reflexivity]).
  destruct (Nat.eqb_spec (sa_blows A) 0) as [->|N]; cbn [orb]; [split; [lia|reflexivity]|]. rewrite andb_true_iff. split; [auto|]. intros H. now apply H.
Qed.

Lemma outs_wf M : (forall i, i < L -> pos_ok A (srcf A) [] M i) -> all_wf M.
Proof.
  intros H i. induction i as [i IH] using (well_founded_induction lt_wf). intros Hi. destruct (H i Hi) as [_ P]. destruct (srcf A i) as [[k r]|] eqn:E.
  - pose proof (src_less Hi E) as Hk. destruct (IH k Hk ltac:(lia)) as (c & Ec & Wc). rewrite P, Ec. cbn [option_map]. eexists. split; [reflexivity|].
    destruct r; [|exact Wc]. apply reverse_wfc; [apply (sn_bells SN)|exact Wc].
  - destruct P as (c & Ec & I & _). exists c. split; [exact Ec|]. pose proof (sn_changes SN) as F. rewrite Forall_forall in F.
    destruct (F (nth i (sa_allowed A) [])) as [_ F']; [apply nth_In; rewrite (sn_allowed SN); exact Hi|]. rewrite Forall_forall in F'. now apply F'.
Qed.

Lemma found_wanted M : start_true A -> (In M (all_found A) <-> wanted0 A M).
Proof.
  intros ST. unfold all_found, wanted0. rewrite (outs_all SN S4). unfold final. cbn [andb]. rewrite <- double_eqs. split.
  - intros (LM & P & D & F). split; [exact LM|]. split; [|split; [|split; [|auto]]].
    + apply sym_eqs; [now apply outs_wf|]. intros i k r Hi E. destruct (P i Hi) as [_ P2]. rewrite E in P2. exact P2.
    + intros i Hi C. apply chosen_src in C; [|exact Hi]. destruct (P i Hi) as [_ P2]. rewrite C in P2. exact P2.
    + apply truth_eqs; auto. intros i Hi. now apply P.
  - intros (LM & S & C & T & D & F). split; [exact LM|]. split; [|auto]. intros i Hi. split.
    + apply truth_eqs; auto.
    + apply (proj2 (sym_eqs M)) in S. destruct (srcf A i) as [[k r]|] eqn:E; [now apply S|]. apply chosen_src in E; [|exact Hi]. now apply C.
Qed.
End A.
