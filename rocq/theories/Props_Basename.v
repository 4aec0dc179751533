(* Props_Basename.v - property theorems about taking the class and stage off a title. *)
From Verif Require Import Base M_Bell M_Change M_Row M_Method M_MethClass M_Dim M_Names M_Stream M_Litelib Spec_Dim Spec_MethClass Spec_Names Spec_Basename P_Bell P_Dim P_Names P_Basename.
Set Implicit Arguments.
Unset Strict Implicit.
Open Scope nat_scope.

(* the class words at the date base_name uses *)
Lemma words_9999 k d l : class_words k d l 9999 = flag_words d l ++ kind_words k 9999.
Proof. unfold class_words, flag_words. now rewrite app_assoc. Qed.
Lemma title_class N d l kw st : kw <> [] -> Forall (fun w => w <> []) kw -> spaced (N :: (flag_words d l ++ kw) ++ [st]) = add_flags N d l ++ chr " " :: spaced kw ++ chr " " :: st.
Proof.
  intros H F. rewrite <- app_assoc. rewrite spaced_flags by (destruct kw; discriminate). rewrite spaced_snoc by exact F.
  replace (P_Names.sep (spaced kw)) with [chr " "]; [reflexivity|]. destruct kw as [|w [|v kw]]; [congruence| |]; inversion F; subst; destruct w; try congruence; reflexivity.
Qed.
Lemma stage_not_two n st w v : stage_word n st -> In w lit_words -> In v lit_words -> ~ occurs st (w ++ chr " " :: v).
Proof. intros S Hw Hv. destruct (stage_no_space S). apply occurs_word; auto; now apply (stage_not_lit S). Qed.

(* C53: the name alone is got from a title that has a class (other than Treble Bob and Treble
   Place) or neither class nor "Little" *)
Theorem C53_base_name : forall N st n k d l, (-999999 <= n <= 9999999)%Z -> stage_word n st -> plain_name N st -> strippable k l ->
  base_name_of n (spaced (N :: class_words k d l 9999 ++ [st])) = Ret N.
Proof.
  intros N st n k d l R S P K. assert (ST : stagename n = Ret st) by (destruct (stagename_spec R) as (w & E & W); rewrite E; f_equal; eapply stage_fun; eauto).
  rewrite words_9999. assert (PL : In k [Principle; Hybrid] -> base_name_of n (spaced (N :: (flag_words d l ++ []) ++ [st])) = Ret N).
  { intros Ik. assert (l = false) as -> by (cbn in Ik; destruct Ik as [<-|[<-|[]]]; exact K). rewrite <- app_assoc. cbn [app]. rewrite spaced_flags by discriminate. cbn [spaced].
    assert (EF : ends_ok (add_flags N d false)) by (apply ends_flags, (N_ends P)).
    rewrite (base_name_stage S ST EF (stage_flags P S (d := d) (l := false))).
    rewrite <- (app_nil_r [2; 3; 4; 5; 6; 7; 8; 9; 10]%Z). rewrite try_skip.
    - cbn [try_classes bind]. apply (after_not P).
    - now apply ends_ne.
    - intros c Hc. split; [exact Hc|].
      assert (X : c = 4%Z \/ c = 7%Z \/ c = 10%Z \/ c = 9%Z \/ In c [2; 3; 5; 6; 8]%Z) by (cbn in Hc |- *; intuition).
      destruct X as [->|[->|[->|[->|X]]]].
      + right. right. intros O. assert (O' : occurs (str "Bob") (add_flags N d false)) by (destruct O as (a & b & ->); exists (a ++ str "Treble "), b; rewrite <- app_assoc; reflexivity).
        revert O'. apply (class_not_flags P); [cbn; tauto|apply no_space_b| |]; vm_compute; reflexivity.
      + right. right. intros O. assert (O' : occurs (str "Place") (add_flags N d false)) by (destruct O as (a & b & ->); exists (a ++ str "Treble "), b; rewrite <- app_assoc; reflexivity).
        revert O'. apply (class_not_flags P); [cbn; tauto|apply no_space_b| |]; vm_compute; reflexivity.
      + right. right. apply (slow_not_flags P).
      + now left.
      + right. right. cbn in X. destruct X as [<-|[<-|[<-|[<-|[<-|[]]]]]]; apply (class_not_flags P); try (apply no_space_b); try (vm_compute; reflexivity); vm_compute; tauto. }
  assert (ONE : forall c w pre rest, kind_words k 9999 = [w] -> class_of c = w -> In c [2; 3; 4; 5; 6; 7; 8; 9; 10]%Z -> 3 <= length w ->
    [2; 3; 4; 5; 6; 7; 8; 9; 10]%Z = pre ++ c :: rest ->
    forallb (fun x => (x =? 9)%Z || negb (list_ascii_eqb (last3 w) (last3 (class_of x)))) pre = true -> ends_ok w -> In w lit_words -> one_word w ->
    base_name_of n (spaced (N :: (flag_words d l ++ kind_words k 9999) ++ [st])) = Ret N).
  { intros c w pre rest E C I L PR F EW IL OW. rewrite E. rewrite title_class by (discriminate || (constructor; [intros ->; cbn in L; lia|constructor])). cbn [spaced].
    apply (@base_class N st n P S ST c w pre rest d l); auto. now apply (stage_not_lit S). }
  destruct k; try contradiction.
  - apply PL. cbn. tauto.
  - apply (ONE 2%Z (str "Bob") [] [3; 4; 5; 6; 7; 8; 9; 10]%Z); try reflexivity; try (cbn; tauto || lia); [lit|]. repeat split; try (vm_compute; reflexivity); [cbn; tauto|apply no_space_b; vm_compute; reflexivity].
  - apply (ONE 3%Z (str "Place") [2]%Z [4; 5; 6; 7; 8; 9; 10]%Z); try reflexivity; try (cbn; tauto || lia); [lit|]. repeat split; try (vm_compute; reflexivity); [cbn; tauto|apply no_space_b; vm_compute; reflexivity].
  - apply (ONE 5%Z (str "Surprise") [2; 3; 4]%Z [6; 7; 8; 9; 10]%Z); try reflexivity; try (cbn; tauto || lia); [lit|]. repeat split; try (vm_compute; reflexivity); [cbn; tauto|apply no_space_b; vm_compute; reflexivity].
  - apply (ONE 6%Z (str "Delight") [2; 3; 4; 5]%Z [7; 8; 9; 10]%Z); try reflexivity; try (cbn; tauto || lia); [lit|]. repeat split; try (vm_compute; reflexivity); [cbn; tauto|apply no_space_b; vm_compute; reflexivity].
  - apply (ONE 8%Z (str "Alliance") [2; 3; 4; 5; 6; 7]%Z [9; 10]%Z); try reflexivity; try (cbn; tauto || lia); [lit|]. repeat split; try (vm_compute; reflexivity); [cbn; tauto|apply no_space_b; vm_compute; reflexivity].
  - apply PL. cbn. tauto.
  - rewrite title_class by (discriminate || (repeat constructor; discriminate)).
    apply (@base_class N st n P S ST 10%Z (str "Slow Course") [2; 3; 4; 5; 6; 7; 8; 9]%Z [] d l); try reflexivity; try (cbn; tauto || lia); [lit|].
    apply (@stage_not_two n st (str "Slow") (str "Course") S); cbn; tauto.
Qed.
Print Assumptions C53_base_name.

(* for Treble Bob and Treble Place methods only the last word of the class is taken off *)
Theorem C53_treble_refuted : forall N st n k d l, (-999999 <= n <= 9999999)%Z -> stage_word n st -> plain_name N st -> k = TrebleBob \/ k = TreblePlace ->
  base_name_of n (spaced (N :: class_words k d l 9999 ++ [st])) = Ret (spaced (N :: flag_words d l ++ [str "Treble"])).
Proof.
  intros N st n k d l R S P K. assert (ST : stagename n = Ret st) by (destruct (stagename_spec R) as (w & E & W); rewrite E; f_equal; eapply stage_fun; eauto).
  assert (G : forall c w pre rest, kind_words k 9999 = [str "Treble"; w] -> class_of c = w -> In c [2; 3; 4; 5; 6; 7; 8; 9; 10]%Z -> 3 <= length w ->
    [2; 3; 4; 5; 6; 7; 8; 9; 10]%Z = pre ++ c :: rest ->
    forallb (fun x => (x =? 9)%Z || negb (list_ascii_eqb (last3 w) (last3 (class_of x)))) pre = true -> ends_ok w -> In w lit_words -> one_word w -> find_sub w (str "Treble") = None ->
    base_name_of n (spaced (N :: class_words k d l 9999 ++ [st])) = Ret (spaced (N :: flag_words d l ++ [str "Treble"]))).
  { intros c w pre rest E C I L PR F EW IL OW NT. rewrite words_9999, E, title_class by (discriminate || (constructor; [discriminate|constructor; [intros ->; cbn in L; lia|constructor]])). rewrite spaced_flags by discriminate. cbn [spaced].
    set (y := add_flags N d l ++ chr " " :: str "Treble").
    replace (add_flags N d l ++ chr " " :: (str "Treble" ++ chr " " :: w) ++ chr " " :: st) with ((y ++ chr " " :: w) ++ chr " " :: st) by (unfold y; rewrite <- !app_assoc; cbn [app]; rewrite <- ?app_assoc; reflexivity).
    destruct (stage_no_space S) as [NS NE]. assert (EY : ends_ok y) by (apply ends_word; lit).
    assert (NSY : ~ occurs st y) by (apply occurs_word; auto; [apply (stage_flags P S)|apply (stage_not_lit S); cbn; tauto]).
    assert (EYW : ends_ok (y ++ chr " " :: w)) by (now apply ends_word).
    assert (NSW : ~ occurs st (y ++ chr " " :: w)) by (apply occurs_word; auto; now apply (stage_not_lit S)).
    rewrite (base_name_stage S ST EYW NSW).
    destruct OW as (O1 & O2 & O3 & O4). assert (NW : w <> []) by (destruct w; [cbn in L; lia|discriminate]).
    rewrite (@try_class c pre rest y w); auto.
    - cbn [bind]. unfold after. rewrite little_name, diff_name. cbn [bind].
      assert (Q : last3 y = last3 (str "Treble")) by (unfold y; replace (add_flags N d l ++ chr " " :: str "Treble") with ((add_flags N d l ++ [chr " "]) ++ str "Treble") by (now rewrite <- app_assoc); apply last3_app; cbn; lia).
      rewrite remove_last3; [|cbn; lia|rewrite Q; vm_compute; discriminate]. cbn [bind].
      rewrite remove_last3; [|cbn; lia|rewrite Q; vm_compute; discriminate]. reflexivity.
    - apply word_first; auto. apply occurs_word; auto; [now apply (class_not_flags P)|now apply not_occurs]. }
  destruct K as [-> | ->].
  - apply (G 2%Z (str "Bob") [] [3; 4; 5; 6; 7; 8; 9; 10]%Z); try reflexivity; try (cbn; tauto || lia); [lit|]. repeat split; try (vm_compute; reflexivity); [cbn; tauto|apply no_space_b; vm_compute; reflexivity].
  - apply (G 3%Z (str "Place") [2]%Z [4; 5; 6; 7; 8; 9; 10]%Z); try reflexivity; try (cbn; tauto || lia); [lit|]. repeat split; try (vm_compute; reflexivity); [cbn; tauto|apply no_space_b; vm_compute; reflexivity].
Qed.
Print Assumptions C53_treble_refuted.

(* a little method of no named class keeps the "Little" *)
Theorem C53_little_refuted : base_name_of 6 (spaced (str "Foo" :: class_words Hybrid false true 9999 ++ [str "Minor"])) = Ret (str "Foo Little").
Proof. vm_compute. reflexivity. Qed.
Print Assumptions C53_little_refuted.
(* a title with no name in it: the end of an empty string is looked at *)
Theorem C53_nameless_refuted : forall n st, (-999999 <= n <= 9999999)%Z -> stage_word n st -> base_name_of n st = UB.
Proof.
  intros n st R S. assert (ST : stagename n = Ret st) by (destruct (stagename_spec R) as (w & E & W); rewrite E; f_equal; eapply stage_fun; eauto).
  unfold base_name_of. rewrite ST. cbn [bind]. unfold remove_suffix. assert (X := find_sub_spec st st). destruct (find_sub st st) as [i|].
  - destruct X as (_ & _ & M). specialize (M [] [] ltac:(now rewrite app_nil_r)). cbn [length] in M. assert (i = 0) by lia. subst i.
    rewrite Nat.leb_refl, Nat.sub_diag. reflexivity.
  - exfalso. apply X. exists [], []. now rewrite app_nil_r.
Qed.
Print Assumptions C53_nameless_refuted.
(* a text not ending with the stage is left alone *)
Theorem C53_other : forall n st t, (-999999 <= n <= 9999999)%Z -> stage_word n st -> (forall a, t <> a ++ st) -> base_name_of n t = Ret t.
Proof.
  intros n st t R S H. assert (ST : stagename n = Ret st) by (destruct (stagename_spec R) as (w & E & W); rewrite E; f_equal; eapply stage_fun; eauto).
  unfold base_name_of. rewrite ST. cbn [bind]. rewrite remove_not_end by exact H. reflexivity.
Qed.
Print Assumptions C53_other.
(* so is one where the stage comes earlier as well *)
Theorem C53_stage_twice_refuted : forall n st a b, (-999999 <= n <= 9999999)%Z -> stage_word n st -> b <> [] -> base_name_of n (a ++ st ++ b ++ st) = Ret (a ++ st ++ b ++ st).
Proof.
  intros n st a b R S H. assert (ST : stagename n = Ret st) by (destruct (stagename_spec R) as (w & E & W); rewrite E; f_equal; eapply stage_fun; eauto).
  unfold base_name_of. rewrite ST. cbn [bind]. unfold remove_suffix. assert (X := find_sub_spec st (a ++ st ++ b ++ st)). destruct (find_sub st _) as [i|]; [|reflexivity].
  destruct X as (_ & _ & M). specialize (M _ _ eq_refl). replace (i =? _) with false; [rewrite andb_false_r; reflexivity|]. symmetry. apply Nat.eqb_neq.
  rewrite !app_length. destruct b; [congruence|]. cbn [length]. lia.
Qed.
Print Assumptions C53_stage_twice_refuted.

(* cases meeting the hypotheses *)
Lemma plain_b N st : match rev N with c :: _ => negb (is_space c) | [] => false end = true -> forallb (fun w => match find_sub w N with None => true | _ => false end) (st :: class_texts) = true -> plain_name N st.
Proof.
  intros A B. split; [|split].
  - destruct (rev N) as [|c t] eqn:E; [discriminate|]. exists (rev t), c. split; [|now destruct (is_space c)]. rewrite <- (rev_involutive N), E. reflexivity.
  - cbn [forallb] in B. apply andb_true_iff in B as [B _]. apply not_occurs. now destruct (find_sub st N).
  - intros w I. rewrite forallb_forall in B. specialize (B w (or_intror I)). cbn beta in B. apply not_occurs. now destruct (find_sub w N).
Qed.
Example C53_ex : base_name_of 8 (str "London Differential Little Surprise Major") = Ret (str "London").
Proof.
  assert (P : plain_name (str "London") (str "Major")) by (apply plain_b; vm_compute; reflexivity).
  assert (S : stage_word 8 (str "Major")) by (left; cbn; tauto).
  exact (@C53_base_name _ _ 8%Z Surprise true true ltac:(lia) S P I).
Qed.
Example C53_ex_treble : base_name_of 6 (str "Kent Treble Bob Minor") = Ret (str "Kent Treble").
Proof. vm_compute. reflexivity. Qed.
Example C53_ex_numbered : base_name_of 24 (str "Foo Bob 24") = Ret (str "Foo").
Proof. vm_compute. reflexivity. Qed.
