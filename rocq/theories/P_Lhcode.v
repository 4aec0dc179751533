(* P_Lhcode.v - lead head codes. *)
From Verif Require Import Base M_Bell M_Change M_Math M_Row M_Method M_Lhcode Spec_Row Spec_Change Spec_Method Spec_Lhcode
  P_Bell P_Change P_Math P_Perm P_Row P_Group P_Named P_Method P_False4 P_Change2 P_Change3 Props_Row Props_More.
Set Implicit Arguments.
Unset Strict Implicit.
Open Scope nat_scope.

(* ---- a change is determined by its places ---- *)
Definition made (l : list nat) (i : nat) : Prop := ~ In i l /\ (i = 0 \/ ~ In (i - 1) l).
Lemma pairs_unique n : forall l l' lo, pairs_ok lo n l -> pairs_ok lo n l' -> (forall i, lo <= i < n -> (made l i <-> made l' i)) -> l = l'.
Proof.
  assert (G : forall l lo s, pairs_ok lo n l -> In s l -> lo <= s /\ s + 2 <= n) by (intros; eapply pairs_ok_in; eauto).
  assert (K : forall l l' lo s t, pairs_ok lo n (s :: t) -> pairs_ok lo n l' -> l = s :: t -> (forall i, lo <= i < n -> (made l i <-> made l' i)) ->
     exists s' t', l' = s' :: t' /\ s' <= s).
  { intros l l' lo s t P P' -> H. destruct P as (A & B & C). destruct l' as [|s' t'].
    - exfalso. assert (X : made [] s) by (split; [intros []|right; intros []]). apply H in X; [|lia]. destruct X as [X _]. apply X. now left.
    - exists s', t'. split; [reflexivity|]. destruct (le_lt_dec s' s) as [|L]; [assumption|]. exfalso. destruct P' as (A' & B' & C').
      assert (X : made (s' :: t') s).
      { split; [|right]; intros [E|E]; try lia; apply (G _ _ _ C') in E; lia. }
      apply H in X; [|lia]. destruct X as [X _]. apply X. now left. }
  induction l as [|s t IH]; intros l' lo P P' H.
  - destruct l' as [|s' t']; [reflexivity|]. exfalso. destruct (K (s' :: t') [] lo s' t' P' P eq_refl) as (? & ? & E & _); [|discriminate].
    intros i Hi. symmetry. now apply H.
  - destruct (K _ l' lo s t P P' eq_refl H) as (s' & t' & -> & L1). destruct (K _ (s :: t) lo s' t' P' P eq_refl) as (s2 & t2 & E & L2); [intros i Hi; symmetry; now apply H|].
    injection E as <- <-. assert (s' = s) by lia. subst s'. f_equal. destruct P as (A & B & C). destruct P' as (A' & B' & C'). apply (IH t' (s + 2) C C').
    intros i Hi. specialize (H i ltac:(lia)).
    assert (Q : forall u, pairs_ok (s + 2) n u -> (made (s :: u) i <-> made u i)).
    { intros u Pu. unfold made. cbn [In]. split.
      - intros [X Y]. split; [tauto|]. destruct Y as [Y|Y]; [tauto|right; tauto].
      - intros [X Y]. split; [intros [E|E]; [lia|tauto]|]. destruct Y as [Y|Y]; [lia|]. right. intros [E|E]; [lia|tauto]. }
    rewrite (Q t C), (Q t' C') in H. exact H.
Qed.
Lemma change_places_eq c c' : wf_change c -> wf_change c' -> cn c = cn c' -> (change_eqb c c' = true <-> forall i, i < cn c -> (place_made c i <-> place_made c' i)).
Proof.
  intros W W' E. unfold change_eqb. rewrite E, Nat.eqb_refl. cbn [andb]. split.
  - intros X i Hi. destruct (Nat.eqb_spec (cn c') 0) as [Z|Z]; [lia|]. cbn [orb] in X. destruct (list_eq_dec Nat.eq_dec (cswaps c) (cswaps c')) as [Q|]; [|discriminate].
    unfold place_made. now rewrite Q.
  - intros X. unfold wf_change in W, W'. rewrite <- E in W'. assert (Q : cswaps c = cswaps c') by (apply (pairs_unique W W'); intros i Hi; apply X; lia).
    rewrite Q. destruct (list_eq_dec Nat.eq_dec (cswaps c') (cswaps c')) as [_|N]; [apply orb_true_r|contradiction].
Qed.

(* ---- the four changes ---- *)
Lemma in_evens k b s : In s (evens k b) <-> exists j, j < k /\ s = b + 2 * j.
Proof.
  revert b. induction k as [|k IH]; intros b; cbn [evens In]; [split; [tauto|intros (j & J & _); lia]|]. rewrite IH. split.
  - intros [<-|(j & J & ->)]; [exists 0; lia|exists (S j); lia].
  - intros (j & J & ->). destruct j as [|j]; [left; lia|right; exists j; lia].
Qed.
Lemma in_pairs b n s : In s (pairs_between b n) <-> b <= s /\ s + 2 <= n /\ (s - b) mod 2 = 0.
Proof.
  unfold pairs_between. rewrite in_evens. assert (D := Nat.div_mod (n - b) 2 ltac:(lia)). assert (M := Nat.mod_upper_bound (n - b) 2 ltac:(lia)). split.
  - intros (j & J & ->). split; [lia|]. split; [lia|]. replace (b + 2 * j - b) with (j * 2) by lia. apply Nat.mod_mul. lia.
  - intros (A & B & C). assert (D' := Nat.div_mod (s - b) 2 ltac:(lia)). exists ((s - b) / 2). lia.
Qed.
Lemma evenb n : Nat.even n = (n mod 2 =? 0).
Proof. destruct (Nat.even n) eqn:E; symmetry; [apply Nat.even_spec in E as [q ->]; apply Nat.eqb_eq; rewrite Nat.mul_comm; apply Nat.mod_mul; lia|].
  assert (O : Nat.odd n = true) by (unfold Nat.odd; now rewrite E). apply Nat.odd_spec in O as [q ->]. apply Nat.eqb_neq. lia. Qed.
Lemma change_of_pn_ne sym n pn : pn <> [] -> change_of_pn sym n pn =
    ('(swaps, b) <- (if is_cross pn then Ret ([], 0) else change_parse_loop (length pn) sym n (c_str pn) ([], 0)) ;;
    '(swaps, _) <- append_swaps_between swaps b (b8 n) ;; Ret (mkChange n swaps)).
Proof. destruct pn; [congruence|reflexivity]. Qed.
Lemma parse_one sym k n c t st : change_parse_loop (S k) sym n (c :: t) st =
  ('(p, q') <- read_extended sym (c :: t) ;; st' <- add_place n st p ;; change_parse_loop k sym n q' st').
Proof. reflexivity. Qed.
Lemma four n : 3 <= n <= 255 ->
  change_of_pn default_symtab n (str "X") = Ret (mkChange n (pairs_between 0 n)) /\
  change_of_pn default_symtab n (str "3") = Ret (mkChange n (0 :: pairs_between 3 n)) /\
  change_of_pn default_symtab n (str "1") = Ret (mkChange n (pairs_between 1 n)) /\
  change_of_pn default_symtab n (str "12") = Ret (mkChange n (pairs_between 2 n)).
Proof.
  intros H. assert (B : b8 n = n) by (apply b8_small; lia).
  assert (L : forall swaps b, append_swaps_between swaps b (b8 n) = Ret (swaps ++ pairs_between b n, b8 (n + 1))) by (intros; rewrite B; apply asb_spec; lia).
  assert (A0 : add_place n ([], 0) 0 = Ret ([], 1)) by (rewrite add_place_ok by (cbn; lia || reflexivity); reflexivity).
  assert (A1 : add_place n ([], 1) 1 = Ret ([], 2)) by (rewrite add_place_ok by (cbn; lia || reflexivity); reflexivity).
  assert (A2 : add_place n ([], 0) 2 = Ret ([0], 3)) by (rewrite add_place_ok by (cbn; lia || reflexivity); reflexivity).
  split; [|split; [|split]]; rewrite change_of_pn_ne by discriminate.
  - change (is_cross (str "X")) with true. cbv iota. cbn [bind]. rewrite L. reflexivity.
  - change (is_cross (str "3")) with false. cbv iota. change (c_str (str "3")) with ["3"%char]. change (length (str "3")) with 1. rewrite parse_one.
    change (read_extended default_symtab ["3"%char]) with (Ret (2, @nil ascii)). cbn [bind]. rewrite A2. cbn [bind change_parse_loop]. rewrite L. reflexivity.
  - change (is_cross (str "1")) with false. cbv iota. change (c_str (str "1")) with ["1"%char]. change (length (str "1")) with 1. rewrite parse_one.
    change (read_extended default_symtab ["1"%char]) with (Ret (0, @nil ascii)). cbn [bind]. rewrite A0. cbn [bind change_parse_loop]. rewrite L. reflexivity.
  - change (is_cross (str "12")) with false. cbv iota. change (c_str (str "12")) with ["1"%char; "2"%char]. change (length (str "12")) with 2. rewrite parse_one.
    change (read_extended default_symtab ["1"%char; "2"%char]) with (Ret (0, ["2"%char])). cbn [bind]. rewrite A0. cbn [bind]. rewrite parse_one.
    change (read_extended default_symtab ["2"%char]) with (Ret (1, @nil ascii)). cbn [bind]. rewrite A1. cbn [bind change_parse_loop]. rewrite L. reflexivity.
Qed.
Ltac parity := rewrite ?evenb, ?andb_true_iff, ?orb_true_iff, ?Nat.eqb_eq, ?negb_true_iff, ?Nat.eqb_neq.
Lemma four_places n : 3 <= n ->
  places_are cross (mkChange n (pairs_between 0 n)) /\ places_are thirds (mkChange n (0 :: pairs_between 3 n)) /\
  places_are firsts (mkChange n (pairs_between 1 n)) /\ places_are seconds (mkChange n (pairs_between 2 n)).
Proof.
  intros H. unfold places_are, place_made. cbn [cn cswaps In].
  assert (MI : forall i, i mod 2 = 0 \/ i mod 2 = 1) by (intros i; assert (M := Nat.mod_upper_bound i 2 ltac:(lia)); lia).
  split; [|split; [|split]]; intros i Hi; unfold cross, thirds, firsts, seconds, Nat.odd; rewrite ?in_pairs; parity.
  - lia.
  - lia.
  - lia.
  - lia.
Qed.
Lemma four_wf n : 3 <= n -> wf_change (mkChange n (pairs_between 0 n)) /\ wf_change (mkChange n (0 :: pairs_between 3 n)) /\
  wf_change (mkChange n (pairs_between 1 n)) /\ wf_change (mkChange n (pairs_between 2 n)).
Proof.
  intros H. unfold wf_change. cbn [cn cswaps pairs_ok]. assert (X : forall b lo, lo <= b -> pairs_ok lo n (pairs_between b n)) by (intros b lo L; eapply pairs_ok_weaken; [exact L|apply pairs_ok_between]).
  split; [apply X; lia|]. split; [split; [lia|]; split; [lia|]; apply X; lia|]. split; apply X; lia.
Qed.
Lemma same_places f c c' : wf_change c -> wf_change c' -> cn c = cn c' -> places_are f c' -> (change_eqb c c' = true <-> places_are f c).
Proof.
  intros W W' E P. rewrite (change_places_eq W W' E). split; intros H i Hi.
  - rewrite E, <- (P i) by lia. apply H. exact Hi.
  - rewrite (H i Hi), (P i) by lia. now rewrite E.
Qed.

(* ---- the letter ---- *)
Lemma odd_Z o : Z.odd (Z.of_nat o) = Nat.odd o.
Proof.
  induction o as [|o IH]; [reflexivity|]. rewrite Nat2Z.inj_succ, Z.odd_succ, Nat.odd_succ, <- Z.negb_odd, IH. apply Nat.negb_odd.
Qed.
Lemma code_letter_eq o k (second : bool) : 0 < k < o -> code_letter (if second then 2 else 1)%Z (Z.of_nat k) (Z.of_nat o) = lead_code o k second.
Proof.
  intros H. unfold code_letter, lead_code. rewrite odd_Z.
  assert (Q : (Z.quot (Z.of_nat o) 2 = Z.of_nat (o / 2))%Z) by (rewrite Z.quot_div_nonneg by lia; rewrite Nat2Z.inj_div; reflexivity). rewrite Q.
  assert (D := Nat.div_mod o 2 ltac:(lia)). assert (B := Nat.mod_upper_bound o 2 ltac:(lia)).
  destruct (Z.ltb_spec (Z.of_nat (o / 2)) (Z.of_nat k)) as [L|L]; destruct (Nat.leb_spec (2 * k) o) as [L'|L']; try lia.
  - assert (NE : (Z.of_nat o - Z.of_nat k =? Z.of_nat k)%Z = false).
    { apply Z.eqb_neq. lia. }
    rewrite NE. replace (Z.of_nat o - Z.of_nat k)%Z with (Z.of_nat (o - k)) by lia. assert (J : 0 < o - k) by lia. revert J. clear. generalize (o - k). intros j J.
    destruct (Nat.odd o); unfold numbered.
    + destruct j as [|[|[|[|j]]]]; [lia|now destruct second|now destruct second|now destruct second|].
      destruct (Z.leb_spec (Z.of_nat (S (S (S (S j))))) 3); [lia|]. destruct (Z.ltb_spec 3 (Z.of_nat (S (S (S (S j)))))); [|lia].
      replace (Z.to_nat (Z.of_nat (S (S (S (S j)))) - 3)) with (S j) by lia. destruct second; reflexivity.
    + destruct j as [|[|j]]; [lia|now destruct second|]. destruct (Z.ltb_spec 1 (Z.of_nat (S (S j)))); [|lia].
      replace (Z.to_nat (Z.of_nat (S (S j)) - 1)) with (S j) by lia. destruct second; reflexivity.
  - rewrite Z.eqb_refl. assert (J : 0 < k) by lia. clear -J. rename k into j. destruct (Nat.odd o); unfold numbered.
    + destruct j as [|[|[|[|j]]]]; [lia|now destruct second|now destruct second|now destruct second|].
      destruct (Z.leb_spec (Z.of_nat (S (S (S (S j))))) 3); [lia|]. destruct (Z.ltb_spec 3 (Z.of_nat (S (S (S (S j)))))); [|lia].
      replace (Z.to_nat (Z.of_nat (S (S (S (S j)))) - 3)) with (S j) by lia. destruct second; reflexivity.
    + destruct j as [|[|j]]; [lia|now destruct second|]. destruct (Z.ltb_spec 1 (Z.of_nat (S (S j)))); [|lia].
      replace (Z.to_nat (Z.of_nat (S (S j)) - 1)) with (S j) by lia. destruct second; reflexivity.
Qed.

(* ---- the code is never z and tells what it was made of ---- *)
Lemma print_nat_inj a b : print_nat a = print_nat b -> a = b.
Proof.
  intros E. assert (A := @print_nat_read a [] eq_refl). assert (B := @print_nat_read b [] eq_refl). rewrite E, B in A. injection A as A. lia.
Qed.
Lemma letters_disjoint o1 l1 s1 o2 l2 s2 c : In c (letters o1 l1 s1) -> In c (letters o2 l2 s2) -> o1 = o2 /\ l1 = l2 /\ s1 = s2.
Proof.
  intros A B. assert (X : forallb (fun t1 => forallb (fun t2 => let '(a1, b1, c1) := t1 in let '(a2, b2, c2) := t2 in
    (Bool.eqb a1 a2 && Bool.eqb b1 b2 && Bool.eqb c1 c2) || negb (existsb (fun x => existsb (Ascii.eqb x) (letters a2 b2 c2)) (letters a1 b1 c1)))
    [(true,true,true);(true,true,false);(true,false,true);(true,false,false);(false,true,true);(false,true,false);(false,false,true);(false,false,false)])
    [(true,true,true);(true,true,false);(true,false,true);(true,false,false);(false,true,true);(false,true,false);(false,false,true);(false,false,false)] = true) by (vm_compute; reflexivity).
  rewrite forallb_forall in X. specialize (X (o1, l1, s1) ltac:(destruct o1, l1, s1; cbn; tauto)). cbv beta in X. rewrite forallb_forall in X.
  specialize (X (o2, l2, s2) ltac:(destruct o2, l2, s2; cbn; tauto)). cbv beta iota in X. apply orb_true_iff in X as [X|X].
  - rewrite !andb_true_iff in X. destruct X as [[X1 X2] X3]. apply Bool.eqb_prop in X1. apply Bool.eqb_prop in X2. apply Bool.eqb_prop in X3. auto.
  - exfalso. apply negb_true_iff in X. assert (Y : existsb (fun x => existsb (Ascii.eqb x) (letters o2 l2 s2)) (letters o1 l1 s1) = true); [|congruence].
    apply existsb_exists. exists c. split; [exact A|]. apply existsb_exists. exists c. split; [exact B|apply Ascii.eqb_refl].
Qed.
Lemma numbered_head ls k : ls <> [] -> 0 < k -> exists c t, numbered ls k = c :: t /\ In c ls.
Proof.
  intros N K. unfold numbered. destruct (Nat.leb_spec k (length ls)).
  - eexists _, []. split; [reflexivity|]. apply nth_In. lia.
  - eexists _, _. split; [reflexivity|]. destruct (exists_last N) as (p & a & ->). rewrite last_last. apply in_or_app. right. now left.
Qed.
Lemma numbered_inj ls a b : ls <> [] -> NoDup ls -> 0 < a -> 0 < b -> numbered ls a = numbered ls b -> a = b.
Proof.
  intros N ND A B E. unfold numbered in E. destruct (Nat.leb_spec a (length ls)) as [LA|LA], (Nat.leb_spec b (length ls)) as [LB|LB].
  - injection E as E. apply (proj1 (NoDup_nth ls "000"%char) ND) in E; lia.
  - injection E as _ E. destruct (print_nat_head (b - length ls)) as (c & t & E' & _). rewrite E' in E. discriminate.
  - injection E as _ E. destruct (print_nat_head (a - length ls)) as (c & t & E' & _). rewrite E' in E. discriminate.
  - injection E as E. apply print_nat_inj in E. lia.
Qed.
Lemma letters_ne o l s : letters o l s <> []. Proof. destruct o, l, s; discriminate. Qed.
Lemma letters_nodup o l s : NoDup (letters o l s).
Proof. destruct o, l, s; repeat (constructor; [cbn; intuition discriminate|]); constructor. Qed.
Lemma lead_code_inj o o' k k' s s' : 0 < k < o -> 0 < k' < o' -> lead_code o k s = lead_code o' k' s' ->
  Nat.odd o = Nat.odd o' /\ s = s' /\ (o = o' -> k = k').
Proof.
  intros K K' E. unfold lead_code in E.
  assert (X : forall o k s, 0 < k < o -> exists j, 0 < j /\ j = (if 2 * k <=? o then k else o - k) /\
    (if 2 * k <=? o then numbered (letters (Nat.odd o) true s) k else numbered (letters (Nat.odd o) false s) (o - k)) = numbered (letters (Nat.odd o) (2 * k <=? o) s) j).
  { intros a b c Hb. destruct (2 * b <=? a) eqn:Q; eexists; (split; [|split; [reflexivity|reflexivity]]); lia. }
  destruct (X o k s K) as (j & J & Ej & E1). destruct (X o' k' s' K') as (j' & J' & Ej' & E2). rewrite E1, E2 in E. clear X E1 E2.
  destruct (@numbered_head (letters (Nat.odd o) (2 * k <=? o) s) j (@letters_ne _ _ _) J) as (c & t & E1 & I1).
  destruct (@numbered_head (letters (Nat.odd o') (2 * k' <=? o') s') j' (@letters_ne _ _ _) J') as (c' & t' & E2 & I2).
  assert (c = c') by (rewrite E1, E2 in E; now injection E). subst c'. destruct (letters_disjoint I1 I2) as (Q1 & Q2 & Q3).
  split; [exact Q1|]. split; [exact Q3|]. intros <-. subst s'. rewrite <- Q2 in E.
  apply (numbered_inj (@letters_ne _ _ _) (@letters_nodup _ _ _) J J') in E. subst j'. rewrite Q2 in *. destruct (2 * k' <=? o); lia.
Qed.
Lemma lead_code_not_z o k s : 0 < k < o -> lead_code o k s <> str "z".
Proof.
  intros K E. unfold lead_code in E.
  assert (X : forall a b c j, 0 < j -> numbered (letters a b c) j <> str "z").
  { intros a b c j J Q. destruct (@numbered_head (letters a b c) j (@letters_ne _ _ _) J) as (x & t & E1 & I1). rewrite E1 in Q. injection Q as -> _. destruct a, b, c; cbn in I1; intuition discriminate. }
  destruct (2 * k <=? o); revert E; apply X; lia.
Qed.
