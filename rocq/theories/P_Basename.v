(* P_Basename.v - proofs about stripping class and stage off a title. *)
From Verif Require Import Base M_Bell M_Change M_Row M_Method M_MethClass M_Dim M_Names M_Stream M_Litelib Spec_Dim Spec_MethClass Spec_Names Spec_Basename P_Bell P_Dim P_Names.
Set Implicit Arguments.
Unset Strict Implicit.
Open Scope nat_scope.

(* ---- substrings ---- *)
Lemma eqc_true a b : eqc a b = true <-> a = b.
Proof. unfold eqc. destruct ascii_dec; split; intros; auto; discriminate. Qed.
Lemma prefix_iff p s : is_prefix p s = true <-> exists b, s = p ++ b.
Proof.
  revert s. induction p as [|a p IH]; intros s; [split; [exists s; auto|auto]|]. destruct s as [|c s]; cbn [is_prefix].
  - split; [discriminate|]. intros (b & H). discriminate.
  - rewrite andb_true_iff, eqc_true, IH. split.
    + intros [-> (b & ->)]. now exists b.
    + intros (b & H). injection H as -> ->. split; [reflexivity|now exists b].
Qed.
Lemma find_sub_spec p s : match find_sub p s with
  | Some i => (exists b, s = firstn i s ++ p ++ b) /\ i <= length s /\ forall a b, s = a ++ p ++ b -> i <= length a
  | None => ~ occurs p s end.
Proof.
  induction s as [|c s IH]; cbn [find_sub]; destruct (is_prefix p _) eqn:E.
  - apply prefix_iff in E as (b & E). split; [exists b; exact E|]. split; [lia|intros; lia].
  - intros (a & b & H). destruct a; [|discriminate]. cbn in H. rewrite (proj2 (prefix_iff p [])) in E; [discriminate|now exists b].
  - apply prefix_iff in E as (b & E). split; [exists b; exact E|]. split; [lia|intros; lia].
  - assert (NP : forall a b, c :: s = a ++ p ++ b -> exists x a', a = x :: a' /\ s = a' ++ p ++ b).
    { intros [|x a] b H; [|injection H as -> ->; exists x, a; auto]. rewrite (proj2 (prefix_iff p (c :: s))) in E; [discriminate|now exists b]. }
    destruct (find_sub p s) as [i|].
    + destruct IH as ((b & H1) & H2 & H3). split; [exists b; cbn; now rewrite <- H1|]. split; [cbn; lia|].
      intros a b' H. apply NP in H as (x & a' & -> & H). apply H3 in H. cbn. lia.
    + intros (a & b & H). apply NP in H as (x & a' & -> & H). apply IH. now exists a', b.
Qed.
Lemma occurs_dec p s : (exists i, find_sub p s = Some i) \/ ~ occurs p s.
Proof. assert (X := find_sub_spec p s). destruct (find_sub p s); [left; eauto|right; exact X]. Qed.
Lemma not_occurs p s : find_sub p s = None -> ~ occurs p s.
Proof. intros H. assert (X := find_sub_spec p s). now rewrite H in X. Qed.
Lemma remove_no n p : ~ occurs p n -> remove_suffix n p = Ret (n, false).
Proof.
  intros H. unfold remove_suffix. assert (X := find_sub_spec p n). destruct (find_sub p n) as [i|]; [|reflexivity].
  exfalso. destruct X as ((b & X) & _). apply H. now exists (firstn i n), b.
Qed.
Lemma remove_not_end n p : (forall a, n <> a ++ p) -> remove_suffix n p = Ret (n, false).
Proof.
  intros H. unfold remove_suffix. assert (X := find_sub_spec p n). destruct (find_sub p n) as [i|]; [|reflexivity].
  destruct X as ((b & X) & L & _). destruct ((length p <=? length n) && (i =? length n - length p)) eqn:E; [|reflexivity].
  exfalso. apply andb_true_iff in E as [E1 E2]. apply Nat.leb_le in E1. apply Nat.eqb_eq in E2.
  assert (Y := f_equal (@length _) X). rewrite !app_length, firstn_length in Y. destruct b as [|x b]; [|cbn in Y; lia]. rewrite app_nil_r in X. exact (H _ X).
Qed.
Lemma trim_space x c : is_space c = false -> trim_trailing ((x ++ [c]) ++ [chr " "]) = Ret (x ++ [c]).
Proof.
  intros H. unfold trim_trailing. destruct ((x ++ [c]) ++ [chr " "]) as [|y z] eqn:E; [destruct x; discriminate|]. rewrite <- E. clear E y z.
  assert (T : forall r, trim_rev (c :: r) = c :: r) by (intros [|q r]; cbn [trim_rev]; [reflexivity|now rewrite H]).
  rewrite !rev_app_distr. cbn [rev app]. change (trim_rev (chr " " :: c :: rev x)) with (trim_rev (c :: rev x)).
  rewrite T. cbn [rev]. now rewrite rev_involutive.
Qed.
Lemma remove_yes y p : (exists x c, y = x ++ [c] /\ is_space c = false) -> p <> [] ->
  (forall a b, y ++ chr " " :: p = a ++ p ++ b -> length y < length a) -> remove_suffix (y ++ chr " " :: p) p = Ret (y, true).
Proof.
  intros (x & c & -> & Hc) Hp Hf. unfold remove_suffix. assert (X := find_sub_spec p ((x ++ [c]) ++ chr " " :: p)).
  assert (EQ : (x ++ [c]) ++ chr " " :: p = ((x ++ [c]) ++ [chr " "]) ++ p ++ []) by (rewrite app_nil_r, <- !app_assoc; reflexivity).
  destruct (find_sub p ((x ++ [c]) ++ chr " " :: p)) as [i|].
  - destruct X as ((b & X) & L & M). assert (I1 := Hf _ _ X). assert (I2 := M _ _ EQ). rewrite firstn_length in I1.
    rewrite !app_length in I2, L, I1. cbn [length] in I1, I2, L. assert (Ei : i = length x + 1 + 1) by (rewrite app_length in I1; cbn [length] in I1; lia). subst i.
    rewrite !app_length. cbn [length]. rewrite (proj2 (Nat.leb_le _ _)) by lia. rewrite (proj2 (Nat.eqb_eq _ _)) by lia. cbn [andb].
    replace (firstn (length x + 1 + 1) ((x ++ [c]) ++ chr " " :: p)) with ((x ++ [c]) ++ [chr " "]).
    + rewrite trim_space by exact Hc. reflexivity.
    + replace ((x ++ [c]) ++ chr " " :: p) with (((x ++ [c]) ++ [chr " "]) ++ p) by (rewrite <- !app_assoc; reflexivity).
      rewrite firstn_app. rewrite !app_length. cbn [length]. replace (length x + 1 + 1 - (length x + 1 + 1)) with 0 by lia. cbn [firstn]. rewrite app_nil_r.
      symmetry. apply firstn_all2. rewrite !app_length. cbn. lia.
  - exfalso. apply X. eexists. eexists. exact EQ.
Qed.

(* a word without spaces *)
Lemma occurs_space p x y : no_space p -> p <> [] -> occurs p (x ++ chr " " :: y) -> occurs p x \/ occurs p y.
Proof.
  intros NS NE (a & b & H). destruct (le_lt_dec (length a + length p) (length x)) as [D|D].
  - left. exists a, (firstn (length x - length (a ++ p)) b). assert (F := f_equal (firstn (length x)) H). rewrite firstn_app, Nat.sub_diag, firstn_all in F. cbn [firstn] in F. rewrite app_nil_r in F. rewrite F at 1.
    rewrite app_assoc, firstn_app. rewrite firstn_all2 by (rewrite app_length; exact D). now rewrite <- app_assoc.
  - right. destruct (le_lt_dec (length a) (length x)) as [D2|D2].
    + exfalso. assert (N : nth (length x) (x ++ chr " " :: y) zero = chr " ") by (rewrite app_nth2, Nat.sub_diag by lia; reflexivity).
      rewrite H, app_nth2, app_nth1 in N by lia. apply NS. rewrite <- N. apply nth_In. lia.
    + exists (skipn (length x + 1) a), b. assert (F := f_equal (skipn (length x + 1)) H).
      rewrite !skipn_app in F. rewrite skipn_all2 in F by lia. replace (length x + 1 - length x) with 1 in F by lia. cbn [skipn app] in F. rewrite F.
      f_equal. replace (length x + 1 - length a) with 0 by lia. reflexivity.
Qed.
Lemma word_first y p : no_space p -> p <> [] -> ~ occurs p y -> forall a b, y ++ chr " " :: p = a ++ p ++ b -> length y < length a.
Proof.
  intros NS NE NO a b H. destruct (le_lt_dec (length a) (length y)) as [D|D]; [|exact D]. exfalso.
  assert (LP : length p <> 0) by (destruct p; [congruence|discriminate]).
  destruct (le_lt_dec (length a + length p) (length y)) as [D2|D2].
  - apply NO. exists a, (firstn (length y - length (a ++ p)) b). assert (F := f_equal (firstn (length y)) H). rewrite firstn_app, Nat.sub_diag, firstn_all in F. cbn [firstn] in F. rewrite app_nil_r in F. rewrite F at 1.
    rewrite app_assoc, firstn_app. rewrite firstn_all2 by (rewrite app_length; exact D2). now rewrite <- app_assoc.
  - assert (N : nth (length y) (y ++ chr " " :: p) zero = chr " ") by (rewrite app_nth2, Nat.sub_diag by lia; reflexivity).
    rewrite H, app_nth2, app_nth1 in N by lia. apply NS. rewrite <- N. apply nth_In. lia.
Qed.
Lemma slow_first y : ~ occurs (str "Slow Course") y -> forall a b, y ++ chr " " :: str "Slow Course" = a ++ str "Slow Course" ++ b -> length y < length a.
Proof.
  intros NO a b H. destruct (le_lt_dec (length a) (length y)) as [D|D]; [|exact D]. exfalso. set (p := str "Slow Course") in *.
  assert (LP : length p = 11) by reflexivity.
  destruct (le_lt_dec (length a + length p) (length y)) as [D2|D2].
  - apply NO. exists a, (firstn (length y - length (a ++ p)) b). assert (F := f_equal (firstn (length y)) H). rewrite firstn_app, Nat.sub_diag, firstn_all in F. cbn [firstn] in F. rewrite app_nil_r in F. rewrite F at 1.
    rewrite app_assoc, firstn_app. rewrite firstn_all2 by (rewrite app_length; exact D2). now rewrite <- app_assoc.
  - assert (N : nth (length y) (y ++ chr " " :: p) zero = chr " ") by (rewrite app_nth2, Nat.sub_diag by lia; reflexivity).
    assert (N2 : nth (length y + 1) (y ++ chr " " :: p) zero = chr "S") by (rewrite app_nth2 by lia; replace (length y + 1 - length y) with 1 by lia; reflexivity).
    rewrite H in N, N2. rewrite app_nth2, app_nth1 in N by lia. rewrite app_nth2 in N2 by lia.
    assert (K : length y - length a = 4).
    { set (q := length y - length a) in *. assert (q < 11) by lia. clearbody q. unfold p in N. do 11 (destruct q as [|q]; [try discriminate N; try reflexivity|]). lia. }
    replace (length y + 1 - length a) with 5 in N2 by lia. unfold p in N2. discriminate N2.
Qed.

(* the end of a text, by its last three characters *)
Definition last3 (s : list ascii) : list ascii := firstn 3 (rev s).
Lemma last3_app x w : 3 <= length w -> last3 (x ++ w) = last3 w.
Proof. intros H. unfold last3. rewrite rev_app_distr, firstn_app, rev_length. replace (3 - length w) with 0 by lia. cbn [firstn]. now rewrite app_nil_r. Qed.
Lemma remove_last3 n p : 3 <= length p -> last3 n <> last3 p -> remove_suffix n p = Ret (n, false).
Proof. intros L H. apply remove_not_end. intros a ->. apply H. now apply last3_app. Qed.

(* ---- the words of a title ---- *)
Definition ends_ok (y : list ascii) : Prop := exists x c, y = x ++ [c] /\ is_space c = false.
Lemma ends_word y w : ends_ok w -> ends_ok (y ++ chr " " :: w).
Proof. intros (x & c & -> & H). exists (y ++ chr " " :: x), c. split; [now rewrite <- app_assoc|exact H]. Qed.
Definition add_flags (N : list ascii) (d l : bool) : list ascii :=
  let y := if d then N ++ chr " " :: str "Differential" else N in if l then y ++ chr " " :: str "Little" else y.
Lemma ends_lit s c t : s = t ++ [c] -> is_space c = false -> ends_ok s.
Proof. intros -> H. now exists t, c. Qed.
Ltac lit := match goal with |- ends_ok ?s => let r := eval vm_compute in (removelast s) in let c := eval vm_compute in (last s zero) in
  exact (@ends_lit s c r eq_refl eq_refl) end.
Lemma ends_flags N d l : ends_ok N -> ends_ok (add_flags N d l).
Proof.
  intros H. unfold add_flags. assert (D : ends_ok (str "Differential")) by lit. assert (L : ends_ok (str "Little")) by lit.
  destruct d, l; auto using ends_word.
Qed.
Lemma occurs_flags p N d l : no_space p -> p <> [] -> occurs p (add_flags N d l) -> occurs p N \/ (d = true /\ occurs p (str "Differential")) \/ (l = true /\ occurs p (str "Little")).
Proof.
  intros NS NE. unfold add_flags. destruct d, l; intros H.
  - apply occurs_space in H as [H|H]; auto. apply occurs_space in H as [H|H]; auto.
  - apply occurs_space in H as [H|H]; auto.
  - apply occurs_space in H as [H|H]; auto.
  - auto.
Qed.
Lemma spaced_flags N d l ws : ws <> [] -> spaced (N :: flag_words d l ++ ws) = add_flags N d l ++ chr " " :: spaced ws.
Proof.
  intros H. unfold flag_words, add_flags. destruct d, l; cbn [app]; rewrite !spaced_cons by (exact H || discriminate); rewrite ?spaced_cons by exact H; rewrite <- ?app_assoc; reflexivity.
Qed.
Lemma spaced_flags0 N d l : spaced (N :: flag_words d l) = add_flags N d l.
Proof. unfold flag_words, add_flags. destruct d, l; cbn [app spaced]; rewrite <- ?app_assoc; reflexivity. Qed.

(* words *)
Lemma no_space_b w : existsb (eqc (chr " ")) w = false -> no_space w.
Proof. intros H I. assert (existsb (eqc (chr " ")) w = true) by (apply existsb_exists; exists (chr " "); split; [exact I|now apply eqc_true]). congruence. Qed.
Lemma occurs_head p s c t : p = c :: t -> occurs p s -> In c s.
Proof. intros -> (a & b & ->). apply in_or_app. right. now left. Qed.
Definition lit_words : list (list ascii) :=
  [str "Bob"; str "Place"; str "Treble"; str "Surprise"; str "Delight"; str "Alliance"; str "Slow"; str "Course"; str "Little"; str "Differential"].
Definition no_num (w : list ascii) : bool := forallb (fun c => negb (is_digit c || eqc c (chr "-"))) w.
Lemma stage_not_lit n st w : stage_word n st -> In w lit_words -> ~ occurs st w.
Proof.
  assert (T : forallb (fun p => forallb (fun w => match find_sub (snd p) w with None => true | Some _ => false end) lit_words) stage_table = true) by (vm_compute; reflexivity).
  assert (T2 : forallb no_num lit_words = true) by (vm_compute; reflexivity).
  intros [A|[_ ->]] I.
  - apply not_occurs. assert (X := proj1 (forallb_forall _ _) T _ A). cbn beta in X. assert (Y := proj1 (forallb_forall _ _) X _ I). cbn [snd] in Y. now destruct (find_sub st w).
  - intros O. destruct (print_int n) as [|c t] eqn:E.
    + unfold print_int in E. destruct (n <? 0)%Z; [discriminate|]. destruct (print_nat_head (Z.to_nat n)) as (c & t & E' & _). congruence.
    + assert (H := print_int_head n). rewrite E in H. cbn [word_head] in H.
      assert (IC := occurs_head eq_refl O). assert (X := proj1 (forallb_forall _ _) T2 _ I). unfold no_num in X. rewrite forallb_forall in X. specialize (X _ IC). cbn beta in X. now rewrite H in X.
Qed.
Lemma lit_occurs p w : In w lit_words -> find_sub p w = None -> ~ occurs p w.
Proof. intros _. apply not_occurs. Qed.

(* ---- base_name ---- *)
Section Base.
Variables (N st : list ascii) (n : Z).
Hypothesis HN : plain_name N st.
Hypothesis HS : stage_word n st.
Hypothesis HST : stagename n = Ret st.
Lemma N_ends : ends_ok N. Proof. exact (proj1 HN). Qed.
Lemma N_class w : In w class_texts -> ~ occurs w N. Proof. apply (proj2 (proj2 HN)). Qed.

Lemma stage_flags d l : ~ occurs st (add_flags N d l).
Proof.
  destruct (stage_no_space HS) as [NS NE]. intros O. apply occurs_flags in O as [O|[[_ O]|[_ O]]]; auto.
  - exact (proj1 (proj2 HN) O).
  - revert O. apply (stage_not_lit HS). cbn. tauto.
  - revert O. apply (stage_not_lit HS). cbn. tauto.
Qed.
Lemma strip_stage y : ends_ok y -> ~ occurs st y -> remove_suffix (y ++ chr " " :: st) st = Ret (y, true).
Proof. intros E NO. destruct (stage_no_space HS) as [NS NE]. apply remove_yes; auto. now apply word_first. Qed.

(* the flags come off *)
Lemma strip_little d l : exists b, remove_suffix (add_flags N d l) (str "Little") = Ret (add_flags N d false, b).
Proof.
  assert (NO : ~ occurs (str "Little") (add_flags N d false)).
  { intros O. apply occurs_flags in O as [O|[[_ O]|[O _]]]; [|revert O; apply not_occurs; vm_compute; reflexivity|discriminate O|apply no_space_b; vm_compute; reflexivity|discriminate].
    revert O. apply N_class. cbn. tauto. }
  destruct l; [|eexists; now apply remove_no]. exists true.
  change (add_flags N d true) with (add_flags N d false ++ chr " " :: str "Little"). apply remove_yes; [apply ends_flags, N_ends|discriminate|].
  apply word_first; [apply no_space_b; vm_compute; reflexivity|discriminate|exact NO].
Qed.
Lemma strip_diff d : exists b, remove_suffix (add_flags N d false) (str "Differential") = Ret (N, b).
Proof.
  assert (NO : ~ occurs (str "Differential") N) by (apply N_class; cbn; tauto).
  destruct d; cbn [add_flags]; [|eexists; now apply remove_no]. exists true. apply remove_yes; [apply N_ends|discriminate|].
  apply word_first; [apply no_space_b; vm_compute; reflexivity|discriminate|exact NO].
Qed.

Definition class_of (c : Z) : list ascii := match classname c 9999 with Ret t => t | _ => [] end.
Lemma class_of_ret c : In c [2; 3; 4; 5; 6; 7; 8; 9; 10]%Z -> classname c 9999 = Ret (class_of c).
Proof. intros H. cbn in H. repeat (destruct H as [<-|H]; [vm_compute; reflexivity|]). destruct H. Qed.
Lemma class_len c : In c [2; 3; 4; 5; 6; 7; 8; 10]%Z -> 3 <= length (class_of c).
Proof. intros H. cbn in H. repeat (destruct H as [<-|H]; [vm_compute; lia|]). destruct H. Qed.
Lemma remove_nil y : y <> [] -> remove_suffix y [] = Ret (y, false).
Proof. intros H. unfold remove_suffix. destruct y as [|c y]; [congruence|]. reflexivity. Qed.

(* trying classes that are not at the end *)
Lemma try_skip cs y rest : y <> [] -> (forall c, In c cs -> In c [2; 3; 4; 5; 6; 7; 8; 9; 10]%Z /\ (c = 9%Z \/ last3 y <> last3 (class_of c) \/ ~ occurs (class_of c) y)) ->
  try_classes (cs ++ rest) y = try_classes rest y.
Proof.
  intros NY. induction cs as [|c cs IH]; intros H; [reflexivity|]. cbn [app try_classes]. destruct (H c ltac:(now left)) as [IC HC].
  rewrite (class_of_ret IC). cbn [bind]. assert (R : remove_suffix y (class_of c) = Ret (y, false)).
  { destruct HC as [->|[HC|HC]]; [now apply remove_nil| |now apply remove_no].
    assert (D : c = 9%Z \/ c <> 9%Z) by lia. destruct D as [->|D]; [now apply remove_nil|]. apply remove_last3; [|exact HC]. apply class_len. cbn in IC |- *. intuition. }
  rewrite R. cbn [bind]. apply IH. intros x Hx. apply H. now right.
Qed.
Lemma try_hit c rest y : In c [2; 3; 4; 5; 6; 7; 8; 9; 10]%Z -> remove_suffix (y ++ chr " " :: class_of c) (class_of c) = Ret (y, true) ->
  try_classes (c :: rest) (y ++ chr " " :: class_of c) = Ret (y, true).
Proof. intros I R. cbn [try_classes]. rewrite (class_of_ret I). cbn [bind]. rewrite R. reflexivity. Qed.
Lemma ends_ne y : ends_ok y -> y <> [].
Proof. intros (x & c & -> & _). destruct x; discriminate. Qed.

(* a class word whose last three letters are not those of an earlier class *)
Lemma try_class c pre rest y w : ends_ok y -> class_of c = w -> In c [2; 3; 4; 5; 6; 7; 8; 9; 10]%Z -> 3 <= length w ->
  [2; 3; 4; 5; 6; 7; 8; 9; 10]%Z = pre ++ c :: rest ->
  forallb (fun x => (x =? 9)%Z || negb (list_ascii_eqb (last3 w) (last3 (class_of x)))) pre = true ->
  (forall a b, y ++ chr " " :: w = a ++ w ++ b -> length y < length a) ->
  try_classes [2; 3; 4; 5; 6; 7; 8; 9; 10]%Z (y ++ chr " " :: w) = Ret (y, true).
Proof.
  intros E C I L P F HF. rewrite P. rewrite try_skip.
  - subst w. apply try_hit; auto. apply remove_yes; auto. destruct (class_of c); [cbn in L; lia|discriminate].
  - destruct y; discriminate.
  - intros x Hx. split; [rewrite P; apply in_or_app; now left|]. rewrite forallb_forall in F. specialize (F x Hx). apply orb_true_iff in F as [F|F]; [left; lia|right; left].
    replace (y ++ chr " " :: w) with ((y ++ [chr " "]) ++ w) by (now rewrite <- app_assoc). rewrite last3_app by exact L.
    intros Q. apply (proj2 (eqb_lasc _ _)) in Q. now rewrite Q in F.
Qed.

(* what comes after the class *)
Definition after (y : list ascii) (had : bool) : outcome (list ascii) :=
  n <- (if had then t <- classname M_LITTLE 9999 ;; '(n, _) <- remove_suffix y t ;; Ret n else Ret y) ;;
  t <- classname M_DIFFERENTIAL 9999 ;;
  '(n, _) <- remove_suffix n t ;; Ret n.
Lemma base_name_stage y : ends_ok y -> ~ occurs st y -> base_name_of n (y ++ chr " " :: st) =
  bind (try_classes [2; 3; 4; 5; 6; 7; 8; 9; 10]%Z y) (fun '(y, had) => after y had).
Proof. intros E NO. unfold base_name_of. rewrite HST. cbn [bind]. rewrite (strip_stage E NO). cbn [bind]. reflexivity. Qed.
Lemma little_name : classname M_LITTLE 9999 = Ret (str "Little"). Proof. vm_compute. reflexivity. Qed.
Lemma diff_name : classname M_DIFFERENTIAL 9999 = Ret (str "Differential"). Proof. vm_compute. reflexivity. Qed.
Lemma after_had d l : after (add_flags N d l) true = Ret N.
Proof.
  unfold after. rewrite little_name, diff_name. cbn [bind]. destruct (strip_little d l) as (b & ->). cbn [bind]. destruct (strip_diff d) as (b' & ->). reflexivity.
Qed.
Lemma after_not d : after (add_flags N d false) false = Ret N.
Proof. unfold after. rewrite diff_name. cbn [bind]. destruct (strip_diff d) as (b' & ->). reflexivity. Qed.

Lemma occurs_word p y w : no_space p -> p <> [] -> ~ occurs p y -> ~ occurs p w -> ~ occurs p (y ++ chr " " :: w).
Proof. intros NS NE A B O. apply occurs_space in O as [O|O]; auto. Qed.
Lemma class_not_flags w d l : In w class_texts -> no_space w -> find_sub w (str "Differential") = None -> find_sub w (str "Little") = None -> ~ occurs w (add_flags N d l).
Proof.
  intros I NS F1 F2 O. assert (NE : w <> []) by (cbn in I; repeat (destruct I as [<-|I]; [discriminate|]); destruct I).
  apply occurs_flags in O as [O|[[_ O]|[_ O]]]; auto; [exact (N_class I O)|exact (not_occurs F1 O)|exact (not_occurs F2 O)].
Qed.
Lemma slow_not_flags d l : ~ occurs (str "Slow Course") (add_flags N d l).
Proof.
  (* "Slow Course" cannot end in "Differential" or "Little" *)
  assert (A : forall y w, ~ occurs (str "Slow Course") y -> In w [str "Differential"; str "Little"] -> ~ occurs (str "Slow Course") (y ++ chr " " :: w)).
  { intros y w NO Hw O. 
    assert (P : occurs (str "Course") (y ++ chr " " :: w) ) by (destruct O as (a & b & ->); exists (a ++ str "Slow "), b; rewrite <- app_assoc; reflexivity).
    destruct O as (a & b & H). set (p := str "Slow Course") in *. assert (LP : length p = 11) by reflexivity.
    destruct (le_lt_dec (length a + length p) (length y)) as [D2|D2].
    - apply NO. exists a, (firstn (length y - length (a ++ p)) b). assert (F := f_equal (firstn (length y)) H). rewrite firstn_app, Nat.sub_diag, firstn_all in F. cbn [firstn] in F. rewrite app_nil_r in F. rewrite F at 1.
      rewrite app_assoc, firstn_app. rewrite firstn_all2 by (rewrite app_length; exact D2). now rewrite <- app_assoc.
    - destruct (le_lt_dec (length a) (length y)) as [D|D].
      + assert (NN : nth (length y) (y ++ chr " " :: w) zero = chr " ") by (rewrite app_nth2, Nat.sub_diag by lia; reflexivity).
        assert (N2 : nth (length y + 1) (y ++ chr " " :: w) zero = nth 0 w zero) by (rewrite app_nth2 by lia; replace (length y + 1 - length y) with 1 by lia; reflexivity).
        rewrite H in NN, N2. rewrite app_nth2, app_nth1 in NN by lia. rewrite app_nth2 in N2 by lia.
        assert (K : length y - length a = 4).
        { set (q := length y - length a) in *. assert (q < 11) by lia. clear -NN H0. unfold p in NN. do 11 (destruct q as [|q]; [try discriminate NN; try reflexivity|]). lia. }
        replace (length y + 1 - length a) with 5 in N2 by lia. unfold p in N2. destruct Hw as [<-|[<-|[]]]; discriminate N2.
      + assert (F := f_equal (skipn (length y + 1)) H). rewrite !skipn_app in F. rewrite skipn_all2 in F by lia. replace (length y + 1 - length y) with 1 in F by lia. cbn [skipn app] in F.
        replace (length y + 1 - length a) with 0 in F by lia. cbn [skipn] in F.
        assert (O2 : occurs p w) by (eexists; eexists; exact F). revert O2. apply not_occurs. destruct Hw as [<-|[<-|[]]]; vm_compute; reflexivity. }
  assert (B : ~ occurs (str "Slow Course") N) by (apply N_class; cbn; tauto).
  unfold add_flags. destruct d, l; auto; repeat (apply A; auto; try (cbn; tauto)).
Qed.

Definition one_word (w : list ascii) : Prop := In w class_texts /\ no_space w /\ find_sub w (str "Differential") = None /\ find_sub w (str "Little") = None.
Lemma base_class c w pre rest d l : class_of c = w -> In c [2; 3; 4; 5; 6; 7; 8; 9; 10]%Z -> 3 <= length w ->
  [2; 3; 4; 5; 6; 7; 8; 9; 10]%Z = pre ++ c :: rest ->
  forallb (fun x => (x =? 9)%Z || negb (list_ascii_eqb (last3 w) (last3 (class_of x)))) pre = true ->
  ends_ok w -> ~ occurs st w -> (one_word w \/ w = str "Slow Course") ->
  base_name_of n (add_flags N d l ++ chr " " :: w ++ chr " " :: st) = Ret N.
Proof.
  intros C I L P F EW NW OW. replace (add_flags N d l ++ chr " " :: w ++ chr " " :: st) with ((add_flags N d l ++ chr " " :: w) ++ chr " " :: st) by (rewrite <- app_assoc; reflexivity).
  destruct (stage_no_space HS) as [NS NE].
  rewrite base_name_stage; [|now apply ends_word|apply occurs_word; auto using stage_flags].
  rewrite (@try_class c pre rest (add_flags N d l) w); auto using ends_flags, N_ends.
  - cbn [bind]. apply after_had.
  - destruct OW as [(O1 & O2 & O3 & O4)| ->].
    + apply word_first; auto; [destruct w; [cbn in L; lia|discriminate]|]. now apply class_not_flags.
    + apply slow_first. apply slow_not_flags.
Qed.
End Base.
