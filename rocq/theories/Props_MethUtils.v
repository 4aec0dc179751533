(* Props_MethUtils.v - C88: the helpers of the search for methods and of its output. *)
From Verif Require Import Base M_Bell M_Change M_Row M_Method M_MethUtils Spec_Row Spec_Change Spec_Extent Spec_Group Spec_Touch Spec_Method Spec_MethUtils
  P_Change P_MethUtils P_MethUtils2.
Set Implicit Arguments.
Unset Strict Implicit.
Open Scope nat_scope.

(* with three changes or more before it in the division (and not the last of it) a change is found to
   make the division false exactly when the row it leads to has been rung in it *)
Theorem C88_division_false : forall n m c ds cdl, n <= 255 -> Forall (on_bells n) m -> on_bells n c -> ds <= length m ->
  exists b, is_division_false m c ds cdl = Ret b /\
    (b = true <-> 3 <= length m - ds /\ length m - ds + 1 <> cdl /\ exists k, k <= length m - ds /\ row_after n (skipn ds m ++ [c]) = row_after n (firstn k (skipn ds m))).
Proof. intros n m c ds cdl B F H L. now apply division_false_spec. Qed.
Print Assumptions C88_division_false.

(* ... but three changes alone can be false too *)
Theorem C88_short_division_refuted : ~ forall n m c ds cdl, n <= 255 -> Forall (on_bells n) m -> on_bells n c -> ds <= length m -> length m - ds + 1 <> cdl ->
  (forall k, k < length m - ds -> nth (ds + k) m c <> nth (ds + k + 1) m c) ->
  (exists k, k <= length m - ds /\ row_after n (skipn ds m ++ [c]) = row_after n (firstn k (skipn ds m))) -> is_division_false m c ds cdl = Ret true.
Proof.
  intros H. specialize (H 6 [mkChange 6 [0]; mkChange 6 [4]] (mkChange 6 [0; 4]) 0 6 ltac:(lia)). enough (X : is_division_false [mkChange 6 [0]; mkChange 6 [4]] (mkChange 6 [0; 4]) 0 6 = Ret true) by discriminate X. apply H.
  - repeat constructor; cbn; lia.
  - split; [reflexivity|]. cbn. lia.
  - cbn. lia.
  - cbn. lia.
  - intros [|[|k]] Hk; cbn in *; [discriminate|discriminate|lia].
  - exists 0. split; [lia|reflexivity].
Qed.
Print Assumptions C88_short_division_refuted.

(* the parity test of a whole division: it passes exactly when at either stroke as many rows are in
   course as out of course *)
Theorem C88_parity : forall n m c ds, n <= 255 -> Forall (on_bells n) m -> on_bells n c -> ds <= length m ->
  exists b, division_bad_parity_hack default_symtab m c ds (length m - ds + 2) = Ret b /\
    (b = false <-> as_many (at_stroke n (skipn ds m ++ [c]) 0) /\ as_many (at_stroke n (skipn ds m ++ [c]) 1)).
Proof. exact parity_hack_spec. Qed.
Print Assumptions C88_parity.

Theorem C88_parity_assert : forall n m c ds cdl, n <= 255 -> Forall (on_bells n) m -> on_bells n c -> ds <= length m -> cdl <> length m - ds + 2 ->
  division_bad_parity_hack default_symtab m c ds cdl = Throw AssertFailed.
Proof. exact parity_hack_assert. Qed.
Print Assumptions C88_parity_assert.

(* more than max places side by side *)
Theorem C88_adjacent_places : forall c max, wf_change c -> has_consec_places c max = true <-> exists i, adjacent_places c i (S max).
Proof. exact consec_spec. Qed.
Print Assumptions C88_adjacent_places.

(* the order of changes: by the list of places made, a cross first *)
Theorem C88_order : forall n a b, n <= 33 -> on_bells n a -> on_bells n b -> exists t, compare_changes default_symtab a b = Ret t /\ (t = true <-> earlier a b).
Proof. exact compare_spec. Qed.
Print Assumptions C88_order.

Lemma lex_irr a : ~ lex_lt a a.
Proof. induction a as [|x a IH]; cbn; [tauto|]. intros [H|[_ H]]; [lia|auto]. Qed.
Lemma lex_tr a : forall b c, lex_lt a b -> lex_lt b c -> lex_lt a c.
Proof. induction a as [|x a IH]; intros [|y b] [|z c]; cbn; try tauto. intros [H|[-> H]] [K|[-> K]]; try (left; lia). right. eauto. Qed.
Lemma lex_tot a : forall b, lex_lt a b \/ a = b \/ lex_lt b a.
Proof. induction a as [|x a IH]; intros [|y b]; cbn; auto. destruct (lt_eq_lt_dec x y) as [[H| ->]|H]; auto. destruct (IH b) as [K|[->|K]]; auto. Qed.
(* ... so changes on the same bells can be sorted by it, and different ones are told apart *)
Theorem C88_total : forall n a b c, n <= 33 -> on_bells n a -> on_bells n b -> on_bells n c ->
  ~ earlier a a /\ (earlier a b -> earlier b c -> earlier a c) /\ (earlier a b \/ a = b \/ earlier b a).
Proof.
  intros n a b c B [Na Wa] [Nb Wb] [Nc Wc]. assert (Ea := places_pls (c := a) ltac:(lia) Wa). assert (Eb := places_pls (c := b) ltac:(lia) Wb). unfold earlier. split; [|split].
  - intros (p & q & E1 & E2 & H). assert (p = q) as -> by congruence. now apply (lex_irr H).
  - intros (p & q & E1 & E2 & H) (q' & r & E3 & E4 & K). assert (q' = q) as -> by congruence. exists p, r. split; [exact E1|]. split; [exact E4|]. now apply (lex_tr H).
  - destruct (lex_tot (pls 0 (cn a) (cswaps a)) (pls 0 (cn b) (cswaps b))) as [H|[H|H]]; [left; eauto| |right; right; eauto].
    right; left. assert (Xa := @change_of_places_places a ltac:(lia) Wa). assert (Xb := @change_of_places_places b ltac:(lia) Wb). rewrite Ea in Xa. rewrite Eb in Xb. cbn [bind] in *. rewrite H, Na in Xa. rewrite Nb in Xb. congruence.
Qed.
Print Assumptions C88_total.

(* ... but not with a place above the 33rd *)
Theorem C88_many_bells_refuted : ~ forall n a b, n <= 255 -> on_bells n a -> on_bells n b -> exists t, compare_changes default_symtab a b = Ret t.
Proof.
  intros H. destruct (H 35 (mkChange 35 (pairs_between 0 35)) (mkChange 35 (pairs_between 1 35))) as (t & E); [lia| | |vm_compute in E; discriminate E]; (split; [reflexivity|]; cbn; lia).
Qed.
Print Assumptions C88_many_bells_refuted.

(* the coursing order: refused exactly when the tenor never comes to the place of the bell before it *)
Theorem C88_coursing_order : forall m, wf_method m -> 2 <= mb m -> exists l, lh m = Ret l /\ exists N, forall fuel, N <= fuel ->
  ((forall k, act_pow l k (mb m - 1) <> mb m - 2) /\ tenors_together_coursing_order default_symtab fuel m = Ret None) \/
  (exists bs, coursing_order l (mb m) bs /\ tenors_together_coursing_order default_symtab fuel m = Ret (Some (concat (map (print_bell default_symtab) bs)))).
Proof. exact coursing_spec. Qed.
Print Assumptions C88_coursing_order.

(* plain bob minor *)
Definition pbm : method := mkMethod [mkChange 6 [0;2;4]; mkChange 6 [1;3]; mkChange 6 [0;2;4]; mkChange 6 [1;3]; mkChange 6 [0;2;4]; mkChange 6 [1;3];
  mkChange 6 [0;2;4]; mkChange 6 [1;3]; mkChange 6 [0;2;4]; mkChange 6 [1;3]; mkChange 6 [0;2;4]; mkChange 6 [2;4]] 6.
Example C88_case : wf_method pbm /\ tenors_together_coursing_order default_symtab 20 pbm = Ret (Some (str "53246")) /\
  compare_changes default_symtab (mkChange 6 [0;2;4]) (mkChange 6 [2;4]) = Ret true /\ compare_changes default_symtab (mkChange 6 [1;3]) (mkChange 6 [2;4]) = Ret false /\
  has_consec_places (mkChange 6 [2]) 1 = true /\ has_consec_places (mkChange 6 [2]) 2 = false /\
  is_division_false [mkChange 6 [0;2;4]; mkChange 6 [2]; mkChange 6 [0;2;4]] (mkChange 6 [2]) 0 6 = Ret true /\
  is_division_false [mkChange 6 [0;2;4]; mkChange 6 [1;3]; mkChange 6 [0;2;4]] (mkChange 6 [2]) 0 6 = Ret false /\
  division_bad_parity_hack default_symtab [mkChange 6 [0;2;4]; mkChange 6 [1;3]] (mkChange 6 [0;2;4]) 0 4 = Ret false /\
  division_bad_parity_hack default_symtab [mkChange 6 [1;3]; mkChange 6 [1;3]] (mkChange 6 [0;2;4]) 0 4 = Ret true.
Proof.
  split.
  { split; [cbn; lia|]. split; [unfold int_max; cbn [mch pbm length]; lia|]. repeat constructor; cbn; lia. }
  repeat (split; [reflexivity|]). reflexivity.
Qed.
