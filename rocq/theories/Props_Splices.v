(* Props_Splices.v - C86: finding splices between methods. *)
From Verif Require Import Base M_Bell M_Change M_Math M_Row M_Extent M_Group M_Touch M_PN M_Method M_False M_Splices
  Spec_Row Spec_Change Spec_Touch Spec_Extent Spec_Group Spec_Method Spec_Splices P_Change2 P_Splices3 P_Splices4 P_Splices5 P_Splices6.
From Coq Require Import Permutation Relations.
Set Implicit Arguments.
Unset Strict Implicit.
Open Scope nat_scope.

(* two methods on the number of bells given, the whole lead heads being looked at, in course or not *)
Definition for_methods (A : slargs) (a b : method) : Prop :=
  3 <= sl_bells A <= 13 /\ on (sl_bells A) a /\ on (sl_bells A) b /\ 1 <= length (mch a) /\ 1 <= length (mch b) /\
  sl_out A = false /\ sl_half A = false.
Notation splice_of sym A a b := (splice sym (sl_bells A) (sl_in A) (mch a) (mch b)).
(* the change at the lead end does not matter, or is the same *)
Definition ends_suit (A : slargs) (a b : method) : Prop :=
  sl_group A = true \/ sl_same_le A = false \/ change_eqb (last (mch a) (mkChange 0 [])) (last (mch b) (mkChange 0 [])) = true.

Lemma ends_suit_b A a b : ends_suit A a b ->
  negb (sl_group A) && sl_same_le A && negb (change_eqb (last (mch a) (mkChange 0 [])) (last (mch b) (mkChange 0 []))) = false.
Proof. unfold ends_suit. destruct (sl_group A), (sl_same_le A), (change_eqb _ _); cbn; intuition discriminate. Qed.

(* C86: a test always ends.  There is a least number k of leads that can be spliced; the two
   methods are reported just when they can be spliced with both of them rung (or null splices are
   wanted) and k is the number asked for; and the number of leads reported is half of k *)
Theorem C86_a_splice_is_reported_just_when_there_is_one : forall sym A a b, for_methods A a b -> ends_suit A a b ->
  exists N k, (exists S, splice_of sym A a b S /\ leads_of S k) /\ 0 < k /\
    (forall S k', splice_of sym A a b S -> leads_of S k' -> 0 < k' -> k <= k') /\
    forall fuel, N <= fuel -> exists r, test_pair sym fuel A a b = Ret r /\
      (r <> None <-> (sl_null A = false -> exists S, splice_of sym A a b S /\ both_rung sym (sl_bells A) (sl_in A) S) /\
                     (sl_only A = -1 \/ Z.of_nat k = 2 * sl_only A)%Z) /\
      forall d, r = Some d -> d_leads d = k / 2.
Proof.
  intros sym A a b ((L3 & L13) & (Wa & Ba) & (Wb & Bb) & La & Lb & NO & NH) ES.
  destruct (@test_pair_spec sym A a b L3 L13 Wa Wb Ba Bb La Lb NO NH) as (N & HN).
  destruct (HN N (le_n _)) as (g0 & G0 & _). exists N, (length (gv g0)).
  split; [apply (gg_least G0)|]. split; [apply (gg_small G0)|]. split; [apply (gg_small G0)|]. intros fuel Hf. destruct (HN fuel Hf) as (g & G & E).
  assert (LE : length (gv g) = length (gv g0)).
  { destruct (gg_least G) as (S1 & X1 & Y1). destruct (gg_least G0) as (S2 & X2 & Y2). destruct (gg_small G) as [P1 Q1]. destruct (gg_small G0) as [P2 Q2].
    pose proof (Q1 _ _ X2 Y2 P2). pose proof (Q2 _ _ X1 Y1 P1). unfold row in *. lia. }
  rewrite <- LE. rewrite (ends_suit_b ES) in E. cbn zeta in E.
  assert (FULL : Z.of_nat (length (gv g)) = max_size A <-> ~ exists h, lead_head sym (sl_bells A) (sl_in A) h /\ ~ In h (gv g)).
  { rewrite (max_is L3 L13 Ba Bb La Lb NO), <- (@full_iff sym (sl_bells A) (sl_in A) ltac:(lia) ltac:(lia) (gv g) (gg_lh G) (gg_nodup G) L3).
    split; [intros H (h & H1 & H2); auto|]. intros H h Hh. destruct (in_dec (list_eq_dec Nat.eq_dec) h (gv g)) as [I|I]; [exact I|]. exfalso. apply H. exists h. auto. }
  assert (NF : Z.of_nat (length (gv g)) <> max_size A <-> exists S, splice_of sym A a b S /\ both_rung sym (sl_bells A) (sl_in A) S).
  { rewrite (gg_both G). split.
    - intros H. destruct (Z.eq_dec (Z.of_nat (length (gv g))) (max_size A)) as [X|X]; [contradiction|].
      (* a lead head that is not there: the lead heads are finite *)
      assert (D : (forall h, lead_head sym (sl_bells A) (sl_in A) h -> In h (gv g)) \/ exists h, lead_head sym (sl_bells A) (sl_in A) h /\ ~ In h (gv g)).
      { apply (@all_or_some sym (sl_bells A) (sl_in A) ltac:(lia) ltac:(lia) (gv g) (gg_lh G)). }
      destruct D as [D|D]; [|exact D]. exfalso. apply H, FULL. intros (h & H1 & H2). auto.
    - intros X Y. apply FULL in Y. contradiction. }
  unfold row in *.
  match type of E with _ = (if ?c then _ else _) => destruct c eqn:C1 end.
  - exists None. split; [exact E|]. split; [|intros d X; discriminate X]. apply andb_true_iff in C1 as [C1 C2]. apply negb_true_iff in C1. apply Z.eqb_eq in C2. split; [congruence|].
    intros [X _] _. apply NF in X; auto.
  - match type of E with _ = (if ?c then _ else _) => destruct c eqn:C2 end.
    + exists None. split; [exact E|]. split; [|intros d X; discriminate X]. apply andb_true_iff in C2 as [C2 C3]. apply negb_true_iff, Z.eqb_neq in C2, C3. split; [congruence|]. intros [_ [X|X]]; exfalso; lia.
    + exists (Some (describe_splice g)). split; [exact E|]. split; [|intros d X; injection X as <-; reflexivity]. split; [intros _|discriminate]. split.
      * intros Nn. apply NF. rewrite Nn in C1. cbn [negb andb] in C1. now apply Z.eqb_neq in C1.
      * apply andb_false_iff in C2 as [C2|C2]; apply negb_false_iff, Z.eqb_eq in C2; [now left|right; lia].
Qed.
Print Assumptions C86_a_splice_is_reported_just_when_there_is_one.

(* C86: when the same change is wanted at the lead end, methods that differ in it are not reported *)
Theorem C86_methods_with_different_lead_ends_are_left_out : forall sym fuel A a b,
  sl_group A = false -> sl_same_le A = true -> change_eqb (last (mch a) (mkChange 0 [])) (last (mch b) (mkChange 0 [])) = false ->
  test_pair sym fuel A a b = Ret None.
Proof. intros sym fuel A a b H1 H2 H3. unfold test_pair. now rewrite H1, H2, H3. Qed.
Print Assumptions C86_methods_with_different_lead_ends_are_left_out.

(* C86: when a pivot bell is reported (for all the lead heads: with (n-2)!/2 leads), it is a bell
   other than the treble, and the ways of splicing the methods are just to let the place of that
   bell in the lead head say which method is rung *)
Theorem C86_a_pivot_bell_says_which_method_is_rung : forall sym A a b, for_methods A a b -> exists N, forall fuel, N <= fuel ->
  forall d p, test_pair sym fuel A a b = Ret (Some d) -> d_pivot d = Some p ->
  (sl_in A = false -> Z.of_nat (d_leads d) = fac (sl_bells A - 2) / 2)%Z ->
  1 <= p < sl_bells A /\
  forall S, splice_of sym A a b S <->
    (forall h, S h = true -> lead_head sym (sl_bells A) (sl_in A) h) /\
    (forall h h', lead_head sym (sl_bells A) (sl_in A) h -> lead_head sym (sl_bells A) (sl_in A) h' -> act h p = act h' p -> S h = S h').
Proof.
  intros sym A a b ((L3 & L13) & (Wa & Ba) & (Wb & Bb) & La & Lb & NO & NH).
  destruct (@test_pair_spec sym A a b L3 L13 Wa Wb Ba Bb La Lb NO NH) as (N & HN). exists N. intros fuel Hf d p E P D.
  destruct (HN fuel Hf) as (g & G & E'). rewrite E in E'. cbn zeta in E'. destruct (negb (sl_group A) && _ && _); [discriminate E'|]. destruct (negb (sl_null A) && _); [discriminate E'|]. destruct (negb _ && _); [discriminate E'|].
  injection E' as ->. apply (pivot_ok L3 L13 Ba Bb La Lb G P D).
Qed.
Print Assumptions C86_a_pivot_bell_says_which_method_is_rung.

(* C86: when, in course, a pair of bells is reported with (n-3)!/2 leads, the ways of splicing the
   methods are just to let the two places of those bells, in either order, say which method is rung *)
Theorem C86_swapping_bells_say_which_method_is_rung : forall sym A a b, for_methods A a b -> exists N, forall fuel, N <= fuel ->
  forall d p q, test_pair sym fuel A a b = Ret (Some d) -> d_swaps d = Some (p, q) -> sl_in A = true ->
  Z.of_nat (d_leads d) = (fac (sl_bells A - 3) / 2)%Z ->
  1 <= p < q /\ q < sl_bells A /\
  forall S, splice_of sym A a b S <->
    (forall h, S h = true -> lead_head sym (sl_bells A) (sl_in A) h) /\
    (forall h h', lead_head sym (sl_bells A) (sl_in A) h -> lead_head sym (sl_bells A) (sl_in A) h' ->
      (act h p = act h' p /\ act h q = act h' q) \/ (act h p = act h' q /\ act h q = act h' p) -> S h = S h').
Proof.
  intros sym A a b ((L3 & L13) & (Wa & Ba) & (Wb & Bb) & La & Lb & NO & NH).
  destruct (@test_pair_spec sym A a b L3 L13 Wa Wb Ba Bb La Lb NO NH) as (N & HN). exists N. intros fuel Hf d p q E P I D.
  destruct (HN fuel Hf) as (g & G & E'). rewrite E in E'. cbn zeta in E'. destruct (negb (sl_group A) && _ && _); [discriminate E'|]. destruct (negb (sl_null A) && _); [discriminate E'|]. destruct (negb _ && _); [discriminate E'|].
  injection E' as ->. apply (swaps_ok L3 L13 Ba Bb La Lb G P I D).
Qed.
Print Assumptions C86_swapping_bells_say_which_method_is_rung.

(* x is later in the library than y and the test reports d for them *)
Definition tested (sym : symtab) (fuel : nat) (A : slargs) (lib : list method) (x y : method) (d : splice_desc) : Prop :=
  exists i j, i < j /\ nth_error lib i = Some y /\ nth_error lib j = Some x /\ test_pair sym fuel A x y = Ret (Some d).

Lemma all_tested sym fuel A lib x y d : In (x, y, d) (all_news sym fuel A [] lib) <-> tested sym fuel A lib x y d.
Proof.
  rewrite in_all_news. cbn [length app]. unfold tested. split; intros (i & j & H); exists i, j; [tauto|]. destruct H as (H & H'). split; [exact H|]. split; [lia|exact H'].
Qed.
Lemma all_on sym fuel A n lib : Forall (on n) lib -> forall a b d, In (a, b, d) (all_news sym fuel A [] lib) -> on n a /\ on n b.
Proof. intros F a b d I. apply all_tested in I as (i & j & _ & H1 & H2 & _). rewrite Forall_forall in F. split; apply F; eapply nth_error_In; eauto. Qed.

(* C86: each two methods of a library are tested once, and every splice is shown *)
Theorem C86_every_splice_in_a_library_is_shown : forall sym fuel A lib s, length (sl_given A) <> 1 -> sl_group A = false ->
  find_splices sym fuel A lib = Ret s -> forall x y d, In (Shown x y d) (st_out s) <-> tested sym fuel A lib x y d.
Proof.
  intros sym fuel A lib s NG Gr E x y d. destruct (find_all_splices NG E) as [_ ->]. rewrite shown_outs by exact Gr. apply all_tested.
Qed.
Print Assumptions C86_every_splice_in_a_library_is_shown.

(* C86: grouped, two methods are in one group of a kind of splice just when they are connected by
   pairs with splices of that kind; a method is in one such group at most, and once *)
Theorem C86_groups_are_the_methods_connected_by_splices : forall sym fuel A n lib s, length (sl_given A) <> 1 -> sl_group A = true ->
  0 < n -> Forall (on n) lib -> find_splices sym fuel A lib = Ret s -> forall d,
  (forall x y, (exists g, In (d, g) (st_table s) /\ In x g /\ In y g) <->
     connected (fun x y => tested sym fuel A lib x y d) x y /\ exists z, tested sym fuel A lib x z d \/ tested sym fuel A lib z x d) /\
  NoDup (flat_map snd (filter (fun e => desc_eqb d (fst e)) (st_table s))).
Proof.
  intros sym fuel A n lib s NG Gr N0 F E d. destruct (find_all_splices NG E) as [T _]. unfold keeping in T. rewrite Gr in T. cbn [orb] in T. rewrite T.
  split; [|apply (@entries_once (on n) (fun x y => @meth_eqb_spec n x y N0)), (all_on F)]. intros x y.
  rewrite (@entries_connected (on n) (fun x y => @meth_eqb_spec n x y N0) _ d x y (all_on F)). unfold pair_of.
  assert (C : forall R R' : method -> method -> Prop, (forall u v, R u v <-> R' u v) -> connected R x y -> connected R' x y).
  { intros R R' H. apply conn_mono. intros u v. apply H. }
  split; intros [H1 (z & H2)].
  - split; [revert H1; apply C; intros; apply all_tested|]. exists z. now rewrite <- !all_tested.
  - split; [revert H1; apply C; intros; symmetry; apply all_tested|]. exists z. now rewrite !all_tested.
Qed.
Print Assumptions C86_groups_are_the_methods_connected_by_splices.

(* C86: a filter lets a method through just when no splice of one lead with a method before it in
   the library is reported *)
Theorem C86_a_filter_keeps_methods_without_lead_splices : forall sym fuel A n lib s, length (sl_given A) <> 1 -> sl_filter A = true ->
  0 < n -> Forall (on n) lib -> NoDup lib -> find_splices sym fuel A lib = Ret s ->
  forall m, In (Passed m) (st_out s) <-> In m lib /\ forall y, ~ tested sym fuel A lib m y (mkDesc 1 None None).
Proof.
  intros sym fuel A n lib s NG Fi N0 F ND E m. destruct (find_all_splices NG E) as [_ ->].
  rewrite (@passed_outs sym fuel A n N0 Fi m lib [] []) by (auto; intros a b d []). fold one_lead. split; intros [I H]; (split; [exact I|]); intros y Y; apply (H y); now apply all_tested.
Qed.
Print Assumptions C86_a_filter_keeps_methods_without_lead_splices.

(* C86: with one method given, the methods of the library that are not it are tested against it;
   the splices are shown, and a filter lets the methods with splices through *)
Theorem C86_a_method_given_is_tested_against_the_library : forall sym fuel A n g lib s, sl_given A = [g] -> 0 < n -> Forall (on n) lib -> on n g ->
  find_splices sym fuel A lib = Ret s ->
  (forall a b d, In (Shown a b d) (st_out s) <-> sl_group A = false /\ b = g /\ In a lib /\ a <> g /\ test_pair sym fuel A a g = Ret (Some d)) /\
  (forall m, In (Passed m) (st_out s) <-> sl_filter A = true /\ In m lib /\ m <> g /\ exists d, test_pair sym fuel A m g = Ret (Some d)).
Proof.
  intros sym fuel A n g lib s SG N0 F Og E. unfold find_splices in E.
  destruct (forM lib (find_one sym fuel A) (mkSlst [] [], [])) as [r| | |] eqn:E'; cbn [bind] in E; try discriminate E. injection E as <-.
  pose proof (find_given SG E') as K. cbn [st_out In] in K.
  assert (Q : forall m, In m lib -> (meth_eqb m g = false <-> m <> g)).
  { intros m I. rewrite Forall_forall in F. pose proof (@meth_eqb_spec n m g N0 (F m I) Og) as X. destruct (meth_eqb m g); split; intros Y; try discriminate; try reflexivity.
    - exfalso. apply Y. now apply X.
    - intros Z. apply X in Z. discriminate Z. }
  split.
  - intros a b d. rewrite K. split.
    + intros [[]|(m & I & M & d' & T & [[Gr O]|[_ O]])]; [|discriminate O]. injection O as -> -> ->. split; [exact Gr|]. split; [reflexivity|]. split; [exact I|]. split; [now apply Q|exact T].
    + intros (Gr & -> & I & M & T). right. exists a. split; [exact I|]. split; [now apply Q|]. exists d. auto.
  - intros m. rewrite K. split.
    + intros [[]|(m' & I & M & d' & T & [[_ O]|[Fi O]])]; [discriminate O|]. injection O as ->. split; [exact Fi|]. split; [exact I|]. split; [now apply Q|eauto].
    + intros (Fi & I & M & d & T). right. exists m. split; [exact I|]. split; [now apply Q|]. exists d. auto.
Qed.
Print Assumptions C86_a_method_given_is_tested_against_the_library.

(* --- cases --- *)
Definition mk (n : nat) (l : list (list nat)) : method := mkMethod (map (mkChange n) l) n.
Definition args (n : nat) (ic : bool) (only : Z) (gr fi : bool) : slargs := mkSlargs n false ic false false false only gr fi [].
Definition m1 : method := mk 4 [[0;2]; [1]; [2]; [0]; [2]; [1]; [0;2]; [2]].
Definition m2 : method := mk 4 [[0;2]; [1]; [0;2]; [0]; [0;2]; [1]; [0;2]; [2]].
Definition m3 : method := mk 4 [[0;2]; [1]; [0;2]; [1]; [0;2]; [1]; [0;2]; [2]].
Lemma ms_on m : In m [m1; m2; m3] -> on 4 m.
Proof.
  intros [<-|[<-|[<-|[]]]]; (split; [|reflexivity]); (split; [cbn; lia|]); (split; [cbn; discriminate|]); unfold m1, m2, m3, mk; cbn [mch mb map];
    repeat (apply Forall_cons; [split; [reflexivity|]|]); try apply Forall_nil; unfold wf_change; cbn; intuition lia.
Qed.
(* two methods that can be spliced by the lead, two that cannot, and a library of the three *)
Example C86_case : for_methods (args 4 false (-1) false false) m1 m2 /\ ends_suit (args 4 false (-1) false false) m1 m2 /\
  test_pair default_symtab 100 (args 4 false (-1) false false) m1 m2 = Ret (Some (mkDesc 1 None None)) /\
  test_pair default_symtab 100 (args 4 false (-1) false false) m2 m3 = Ret None /\
  find_splices default_symtab 100 (args 4 false (-1) true true) [m1; m2; m3] =
    Ret (mkSlst [(mkDesc 1 None None, [m2; m1])] [Passed m1; Passed m3]) /\ Forall (on 4) [m1; m2; m3] /\ NoDup [m1; m2; m3].
Proof.
  split; [split; [cbn; lia|]; split; [apply ms_on; now left|]; split; [apply ms_on; right; now left|]; cbn; repeat split; lia|].
  split; [right; left; reflexivity|]. split; [vm_compute; reflexivity|]. split; [vm_compute; reflexivity|]. split; [vm_compute; reflexivity|]. split.
  - apply Forall_forall. intros m I. now apply ms_on.
  - repeat constructor; cbn; intuition discriminate.
Qed.
(* a splice of three leads with a pivot bell, in course *)
Definition d1 : method := mk 5 [[0;2]].
Definition d2 : method := mk 5 [[3]; [2]; [0;2]].
Lemma ds_fit only : for_methods (args 5 true only false false) d1 d2.
Proof.
  split; [cbn; lia|]. assert (W : on 5 d1 /\ on 5 d2).
  { split; (split; [|reflexivity]); (split; [cbn; lia|]); (split; [cbn; discriminate|]); unfold d1, d2, mk; cbn [mch mb map];
      repeat (apply Forall_cons; [split; [reflexivity|]|]); try apply Forall_nil; unfold wf_change; cbn; intuition lia. }
  split; [apply W|]. split; [apply W|]. cbn. repeat split; lia.
Qed.
Example C86_pivot_case : for_methods (args 5 true (-1) false false) d1 d2 /\
  test_pair default_symtab 100 (args 5 true (-1) false false) d1 d2 = Ret (Some (mkDesc 1 (Some 1) None)).
Proof. split; [apply ds_fit|vm_compute; reflexivity]. Qed.

(* and one of three leads with two bells that are swapped *)
Definition e1 : method := mk 6 [[0;2;4]].
Definition e2 : method := mk 6 [[1;3]; [1;3]; [3]; [4]; [0;2;4]].
Example C86_swaps_case : for_methods (args 6 true (-1) false false) e1 e2 /\
  test_pair default_symtab 100 (args 6 true (-1) false false) e1 e2 = Ret (Some (mkDesc 3 None (Some (1, 2)))) /\ (3 = fac (6 - 3) / 2)%Z.
Proof.
  split; [|split; [vm_compute; reflexivity|reflexivity]]. split; [cbn; lia|]. assert (W : on 6 e1 /\ on 6 e2).
  { split; (split; [|reflexivity]); (split; [cbn; lia|]); (split; [cbn; discriminate|]); unfold e1, e2, mk; cbn [mch mb map];
      repeat (apply Forall_cons; [split; [reflexivity|]|]); try apply Forall_nil; unfold wf_change; cbn; intuition lia. }
  split; [apply W|]. split; [apply W|]. cbn. repeat split; lia.
Qed.

(* an odd number of leads is rounded down: a splice reported as one of one lead is left out when
   splices of one lead are asked for *)
Theorem C86_odd_numbers_refuted : exists A A' a b fuel d, for_methods A a b /\ for_methods A' a b /\ ends_suit A a b /\
  (sl_in A' = sl_in A /\ sl_null A' = sl_null A /\ sl_bells A' = sl_bells A) /\ sl_only A = (-1)%Z /\ sl_only A' = Z.of_nat (d_leads d) /\
  test_pair default_symtab fuel A a b = Ret (Some d) /\ test_pair default_symtab fuel A' a b = Ret None.
Proof.
  exists (args 5 true (-1) false false), (args 5 true 1 false false), d1, d2, 100, (mkDesc 1 (Some 1) None).
  split; [apply ds_fit|]. split; [apply ds_fit|]. split; [right; left; reflexivity|]. split; [repeat split|]. split; [reflexivity|]. split; [reflexivity|]. split; vm_compute; reflexivity.
Qed.
Print Assumptions C86_odd_numbers_refuted.

(* asking for splices of another number of leads, the lead splices are not kept (though the code
   means to): the filter lets through methods that have a lead splice with one before them *)
Theorem C86_filter_for_another_number_refuted : exists A lib fuel s m y, length (sl_given A) <> 1 /\ sl_filter A = true /\ Forall (on 4) lib /\ NoDup lib /\
  find_splices default_symtab fuel A lib = Ret s /\ In (Passed m) (st_out s) /\
  test_pair default_symtab fuel (args 4 (sl_in A) (-1) false true) m y = Ret (Some (mkDesc 1 None None)) /\ exists i j, i < j /\ nth_error lib i = Some y /\ nth_error lib j = Some m.
Proof.
  exists (args 4 false 2 false true), [m1; m2; m3], 100. eexists. exists m2, m1.
  split; [cbn; lia|]. split; [reflexivity|]. split; [apply Forall_forall; intros m I; now apply ms_on|]. split; [repeat constructor; cbn; intuition discriminate|].
  split; [vm_compute; reflexivity|]. split; [cbn; unfold m2, mk; cbn; auto|]. split; [vm_compute; reflexivity|]. exists 0, 1. split; [lia|]. split; reflexivity.
Qed.
Print Assumptions C86_filter_for_another_number_refuted.
