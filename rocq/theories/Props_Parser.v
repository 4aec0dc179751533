(* Props_Parser.v - C64 to C67: reading the expressions of gsiril. *)
From Verif Require Import Base M_Bell M_Gsiril P_Bell M_Parser Spec_Parser P_Parser P_Parser2 P_Parser3 P_Parser4 P_Gsiril3.
Set Implicit Arguments. Unset Strict Implicit.
Open Scope nat_scope.

(* C64 *)
Theorem C64_reading L xs e : Forall wf xs -> make_expr L (flat xs) = Ret e <-> gram L 0 xs e.
Proof. apply make_expr_gram. Qed.
Print Assumptions C64_reading.
Theorem C64_unambiguous L xs e e' : Forall wf xs -> gram L 0 xs e -> gram L 0 xs e' -> e = e'.
Proof. intros W G G'. apply make_expr_gram in G, G'; auto. congruence. Qed.
Print Assumptions C64_unambiguous.
Theorem C64_refused L xs : lits_tame L -> Forall wf xs ->
  (exists x, make_expr L (flat xs) = Throw x) <-> (forall e, ~ gram L 0 xs e).
Proof.
  intros T W; split.
  - intros (x & H) e G. apply make_expr_gram in G; auto; congruence.
  - intro N. pose proof (make_expr_tame T (flat xs)) as H. destruct (make_expr L (flat xs)) as [e|x| |] eqn:E; try contradiction; eauto.
    exfalso; apply (N e). now apply make_expr_gram.
Qed.
Print Assumptions C64_refused.
(* literals for the examples: a block of place notation is kept by its text *)
Definition ex_lits : lits := mkLits (fun s => Ret (EPn [] s)) (fun s => fail) (fun s => Ret (EBool true)).
Example C64_ex_lits : lits_tame ex_lits.
Proof. intro s; repeat split. Qed.
(* 3 ( b , ~ +1 ) , s . "x" *)
Definition ex_trees : list tree :=
  [Leaf (tok KNum "3"); Group (tok KOParen "(") [Leaf (tok KName "b"); Leaf (tok KComma ","); Leaf (tok KReverse "~"); Leaf (tok KPn "+1")] (tok KCParen ")");
   Leaf (tok KComma ","); Leaf (tok KName "s"); Leaf (tok KAppend "."); Leaf (tok KString "x")].
Example C64_ex : Forall wf ex_trees /\ gram ex_lits 0 ex_trees
  (EList (ERepeat 3 (EList (ESym (str "b")) (EReverse (EPn [] (str "+1"))))) (EAppend (ESym (str "s")) (EString (str "x") true false false false))).
Proof.
  assert (W : Forall wf ex_trees). { repeat constructor. }
  split; auto. apply make_expr_gram; [auto|vm_compute; reflexivity].
Qed.
(* { x : a ; ; b } *)
Example C64_ex_block : let xs := [Group (tok KOBrace "{") [Leaf (tok KName "x"); Leaf (tok KColon ":"); Leaf (tok KName "a"); Leaf (tok KSemi ";");
    Leaf (tok KSemi ";"); Leaf (tok KName "b")] (tok KCBrace "}")] in
  Forall wf xs /\ gram ex_lits 0 xs (EIf (ESym (str "x")) (ESym (str "a")) (Some (EIf (EBool true) (ESym (str "b")) None))).
Proof.
  cbn zeta; match goal with |- ?P /\ _ => assert (W : P) by (constructor; auto; constructor; [right; left; split; reflexivity|repeat constructor]) end. split; auto. apply make_expr_gram; [auto|vm_compute; reflexivity].
Qed.
(* The first alternative of a block is there even if it is empty, and then nothing else is done:
   { ; a } is not { a } *)
Theorem C64_empty_first L a t e o c s : Forall wf a -> free [KSemi; KColon] a -> a <> [] -> gram L 0 a e -> l_regex L (str "*") = Ret t ->
  tk o = KOBrace -> tk c = KCBrace -> tk s = KSemi ->
  make_expr L (flat [Group o (Leaf s :: a) c]) = Ret (EIf t ENop (Some (EIf t e None))) /\
  make_expr L (flat [Group o a c]) = Ret (EIf t e None).
Proof.
  intros W F N G E Ko Kc Ks.
  assert (F1 : free [KSemi] a) by (eapply Forall_impl; [|exact F]; intros [u|? ? ?]; auto; cbn; tauto).
  assert (F2 : free [KColon] a) by (eapply Forall_impl; [|exact F]; intros [u|? ? ?]; auto; cbn; tauto).
  assert (A : alt L a t e). { apply alt_always; auto. now constructor. }
  assert (P : pair_of (tk o) (tk c)). { right; left; auto. }
  split; apply make_expr_gram.
  - constructor; auto. constructor; auto. constructor; auto. constructor; now rewrite Ks.
  - apply gram_down with 9; [|lia]. apply g_block; auto. apply (@b_more L [] s a); auto using free_nil.
    + apply alt_always; auto using free_nil. constructor.
    + now apply r_one.
  - constructor; auto. constructor; auto.
  - apply gram_down with 9; [|lia]. apply g_block; auto. now apply b_one.
Qed.
Print Assumptions C64_empty_first.

(* C65 *)
Theorem C65_ends L ts : lits_tame L -> (exists e, make_expr L ts = Ret e) \/ (exists x, make_expr L ts = Throw x).
Proof. intro T. pose proof (make_expr_tame T ts) as H. destruct (make_expr L ts); try contradiction; eauto. Qed.
Print Assumptions C65_ends.
Theorem C65_brackets L ts e : Forall (fun t => ~ lax t) ts -> make_expr L ts = Ret e -> exists xs, Forall wf xs /\ flat xs = ts.
Proof. intros S H. now apply make_expr_bal in H. Qed.
Print Assumptions C65_brackets.
Example C65_ex : Forall (fun t => ~ lax t) (flat ex_trees) /\ exists e, make_expr ex_lits (flat ex_trees) = Ret e.
Proof.
  split; [|eexists; vm_compute; reflexivity].
  repeat constructor; intros [K|[K|[[_ K]|[_ K]]]]; discriminate.
Qed.
(* After echo and a string, save and a name, and ++ or -- and a name, the brackets need not match:
   anything may follow in which they balance in number. *)
Theorem C65_lax_refuted L : let ts := [tok KName "echo"; tok KString "s"; tok KCBrack "]"; tok KOBrack "["] in
  make_expr L ts = Ret (EString (str "s") true true false false) /\ ~ exists xs, Forall wf xs /\ flat xs = ts.
Proof.
  cbn zeta; split; [reflexivity|]. intros (xs & W & E).
  destruct xs as [|[a|o b c] xs]; try discriminate.
  2:{ rewrite flat_cons, flat1_group in E; cbn [app] in E. injection E as E _. subst o. inversion W as [|? ? Wg _]; subst.
      apply wf_inv_group in Wg as [P _]. apply pair_opens in P as [P _]. discriminate. }
  rewrite flat_leaf in E; injection E as _ E. inversion W as [|? ? _ W1]; subst.
  destruct xs as [|[a2|o b c] xs]; try discriminate.
  2:{ rewrite flat_cons, flat1_group in E; cbn [app] in E. injection E as E _. subst o. inversion W1 as [|? ? Wg _]; subst.
      apply wf_inv_group in Wg as [P _]. apply pair_opens in P as [P _]. discriminate. }
  rewrite flat_leaf in E; injection E as _ E. inversion W1 as [|? ? _ W2]; subst.
  destruct xs as [|[a3|o b c] xs]; try discriminate.
  - rewrite flat_leaf in E; injection E as -> E. inversion W2 as [|? ? Wl _]; subst. apply wf_inv_leaf in Wl as [_ C]; discriminate.
  - rewrite flat_cons, flat1_group in E; cbn [app] in E. injection E as -> _. inversion W2 as [|? ? Wg _]; subst.
    apply wf_inv_group in Wg as [P _]. apply pair_opens in P as [P _]. discriminate.
Qed.
Print Assumptions C65_lax_refuted.
(* and what follows them is ignored *)
Theorem C65_ignored_refuted L p x junk : tk p = KIncr -> tk x = KName -> Forall wf junk -> free all_ops junk ->
  make_expr L (p :: x :: flat junk) = make_expr L [p; x].
Proof.
  intros K1 K2 W F.
  assert (W0 : forall j, Forall wf j -> Forall wf (Leaf p :: Leaf x :: j)).
  { intros j Wj; repeat constructor; auto; rewrite ?K1, ?K2; auto. }
  assert (A : forall j, Forall wf j -> free all_ops j -> make_expr L (flat (Leaf p :: Leaf x :: j)) = Ret (EIncr (tx x) 1)).
  { intros j Wj Fj. apply make_expr_gram; auto. apply gram_down with 9; [|lia]. now apply g_incr. }
  change (p :: x :: flat junk) with (flat (Leaf p :: Leaf x :: junk)). change [p; x] with (flat [Leaf p; Leaf x]).
  rewrite !A; auto using free_nil.
Qed.
Print Assumptions C65_ignored_refuted.

(* C66 *)
Theorem C66_write L e : writable L e -> exists xs, Forall wf xs /\ make_expr L (flat xs) = Ret e.
Proof. apply write_read. Qed.
Print Assumptions C66_write.
Example C66_ex : writable ex_lits (EIf (ECmp CLt (EInt 3) (EAdd (-1) (EAdd (-1) (EInt 10) (EInt 3)) (EInt 2)))
  (ECall (str "f") [ERepeat (-1) (EPn [] (str "+x")); EString (str "(") true false false false]) (Some (EIf EIsrounds ENop None))).
Proof.
  apply w_if, we_some.
  - apply w_bin with KLess 4 (EInt 3) (EAdd (-1) (EAdd (-1) (EInt 10) (EInt 3)) (EInt 2)); [lia|cbn; auto|constructor|constructor; lia|].
    apply w_bin with KMinus 7 (EAdd (-1) (EInt 10) (EInt 3)) (EInt 2); [lia|cbn; auto|constructor| |constructor; lia].
    apply w_bin with KMinus 7 (EInt 10) (EInt 3); [lia|cbn; auto|constructor|constructor; lia..].
  - apply w_call; [cbn; intuition discriminate|]. repeat constructor; try lia. apply w_pn with (str "+x"); reflexivity.
  - apply we_nothing; [|constructor]. apply w_word with (str "rounds"); constructor.
Qed.

(* C67 *)
(* operators of the same level group to the right *)
Theorem C67_right L n a b c op1 op2 e1 e2 e3 e23 e : 1 <= n <= 8 -> In (tk op1) (ops n) -> In (tk op2) (ops n) ->
  Forall wf a -> Forall wf b -> Forall wf c -> gram L (S n) a e1 -> gram L (S n) b e2 -> gram L n c e3 ->
  op_node (tk op2) e2 e3 e23 -> op_node (tk op1) e1 e23 e -> make_expr L (flat a ++ op1 :: flat b ++ op2 :: flat c) = Ret e.
Proof.
  intros Hn I1 I2 Wa Wb Wc Ga Gb Gc O2 O1.
  assert (NB : forall t, In (tk t) (ops n) -> wf (Leaf t)).
  { intros t I; apply ops_level in I. constructor; destruct (tk t); cbn in I |- *; auto; lia. }
  replace (flat a ++ op1 :: flat b ++ op2 :: flat c) with (flat (a ++ Leaf op1 :: b ++ Leaf op2 :: c)) by (now rewrite flat_app, flat_leaf, flat_app).
  apply make_expr_gram; [repeat (apply Forall_app; split; auto; try constructor); auto|].
  apply gram_down with n; [|lia]. apply g_bin with e1 e23; auto. now apply g_bin with e2 e3.
Qed.
Print Assumptions C67_right.
(* those of a higher level bind closer, on either side *)
Theorem C67_precedence L m n a b c lo hi e1 e2 e3 x e : 1 <= m < n -> n <= 8 -> In (tk lo) (ops m) -> In (tk hi) (ops n) ->
  Forall wf a -> Forall wf b -> Forall wf c ->
  (gram L (S n) a e1 -> gram L n b e2 -> gram L m c e3 -> op_node (tk hi) e1 e2 x -> op_node (tk lo) x e3 e ->
   make_expr L (flat a ++ hi :: flat b ++ lo :: flat c) = Ret e) /\
  (gram L (S m) a e1 -> gram L (S n) b e2 -> gram L n c e3 -> op_node (tk hi) e2 e3 x -> op_node (tk lo) e1 x e ->
   make_expr L (flat a ++ lo :: flat b ++ hi :: flat c) = Ret e).
Proof.
  intros Hm Hn I1 I2 Wa Wb Wc.
  assert (NB : forall k t, 1 <= k <= 8 -> In (tk t) (ops k) -> wf (Leaf t)).
  { intros k t Hk I; apply ops_level in I. constructor; destruct (tk t); cbn in I |- *; auto; lia. }
  assert (N1 := NB m lo ltac:(lia) I1). assert (N2 := NB n hi ltac:(lia) I2).
  split; intros Ga Gb Gc O1 O2.
  - replace (flat a ++ hi :: flat b ++ lo :: flat c) with (flat ((a ++ Leaf hi :: b) ++ Leaf lo :: c))
      by (rewrite <- app_assoc; cbn [app]; now rewrite flat_app, flat_leaf, flat_app).
    apply make_expr_gram; [rewrite <- app_assoc; cbn [app]; repeat (apply Forall_app; split; auto; try constructor); auto|].
    apply gram_down with m; [|lia]. apply g_bin with x e3; auto; [lia|]. apply gram_down with n; [|lia]. apply g_bin with e1 e2; auto; lia.
  - replace (flat a ++ lo :: flat b ++ hi :: flat c) with (flat (a ++ Leaf lo :: b ++ Leaf hi :: c)) by (now rewrite flat_app, flat_leaf, flat_app).
    apply make_expr_gram; [repeat (apply Forall_app; split; auto; try constructor); auto|].
    apply gram_down with m; [|lia]. apply g_bin with e1 x; auto; [lia|]. apply gram_down with n; [|lia]. apply g_bin with e2 e3; auto; lia.
Qed.
Print Assumptions C67_precedence.
Definition num_tok (n : nat) : token := mkTok KNum (print_nat n).
(* so that x - y - z is x - (y - z): 10 - 3 - 2 is 9 *)
Theorem C67_minus_refuted L c x y z s fuel : (c_limit c <= 0)%Z -> (0 <= g_nodes (s_g s))%Z ->
  (Z.of_nat x < 2147483648 -> Z.of_nat y < 2147483648 -> Z.of_nat z < 2147483648 ->
  exists e, make_expr L [num_tok x; tok KMinus "-"; num_tok y; tok KMinus "-"; num_tok z] = Ret e /\
    exists s', gs_run c (3 + fuel) (QInt e) s = Ret (s', inl (Z.of_nat x - (Z.of_nat y - Z.of_nat z))))%Z.
Proof.
  intros HL HS Hx Hy Hz.
  assert (N : forall n, (Z.of_nat n < 2147483648)%Z -> gram L 9 [Leaf (num_tok n)] (EInt (Z.of_nat n))).
  { intros n Hn; apply g_num; auto. now apply print_nat_num. }
  exists (EAdd (-1) (EInt (Z.of_nat x)) (EAdd (-1) (EInt (Z.of_nat y)) (EInt (Z.of_nat z)))); split.
  - assert (W1 : forall n, Forall wf [Leaf (num_tok n)]) by (intro n; repeat constructor).
    assert (G : forall k n, k <= 9 -> (Z.of_nat n < 2147483648)%Z -> gram L k [Leaf (num_tok n)] (EInt (Z.of_nat n))).
    { intros k n Hk Hn. apply gram_down with 9; auto. }
    apply (C67_right (L := L) (n := 7) (a := [Leaf (num_tok x)]) (b := [Leaf (num_tok y)]) (c := [Leaf (num_tok z)])
      (op1 := tok KMinus "-") (op2 := tok KMinus "-") (e1 := EInt (Z.of_nat x)) (e2 := EInt (Z.of_nat y)) (e3 := EInt (Z.of_nat z))
      (e23 := EAdd (-1) (EInt (Z.of_nat y)) (EInt (Z.of_nat z)))); auto; try lia; cbn; auto; constructor.
  - assert (A : forall a b, (- ll_max - 1 <= a + -1 * b <= ll_max)%Z -> as_ll (a + -1 * b)%Z = Ret (a - b)%Z).
    { intros a b H. unfold as_ll. replace ((- ll_max - 1 <=? a + -1 * b) && (a + -1 * b <=? ll_max))%Z with true.
      - f_equal; lia.
      - symmetry; apply andb_true_iff; split; apply Z.leb_le; lia. }
    cbn [Nat.add].
    assert (E : forall f a s, (0 <= g_nodes (s_g s))%Z -> exists s', gs_run c (S f) (QInt (EInt a)) s = Ret (s', inl a) /\ (0 <= g_nodes (s_g s'))%Z).
    { intros f a s0 H0. rewrite run_int by auto. exists (bump s0); split; auto. cbn; lia. }
    assert (D : forall f p q vp vq, (forall s, (0 <= g_nodes (s_g s))%Z -> exists s', gs_run c f (QInt p) s = Ret (s', inl vp) /\ (0 <= g_nodes (s_g s'))%Z) ->
      (forall s, (0 <= g_nodes (s_g s))%Z -> exists s', gs_run c f (QInt q) s = Ret (s', inl vq) /\ (0 <= g_nodes (s_g s'))%Z) ->
      (- ll_max - 1 <= vp + -1 * vq <= ll_max)%Z -> 
      forall s, (0 <= g_nodes (s_g s))%Z -> exists s', gs_run c (S f) (QInt (EAdd (-1) p q)) s = Ret (s', inl (vp - vq)%Z) /\ (0 <= g_nodes (s_g s'))%Z).
    { intros f p q vp vq Hp Hq B s0 H0. rewrite run_int by auto.
      assert (H1 : (0 <= g_nodes (s_g (bump s0)))%Z) by (cbn; lia).
      destruct (Hp _ H1) as (s1 & E1 & H1'), (Hq _ H1') as (s2 & E2 & H2'). exists s2; split; auto.
      cbn [int_impl]. unfold mbind. rewrite E1, E2. unfold lift. now rewrite A. }
    unfold ll_max in D. edestruct D with (s := s) as (s' & Es & _); [| | | |exists s'; exact Es]; auto; [|lia].
    intros s0 H0. apply D; auto; lia.
Qed.
Print Assumptions C67_minus_refuted.
(* A number is its value up to 2147483647 ... *)
Theorem C67_number n : (Z.of_nat n < 2147483648)%Z -> num_value (print_nat n) = Ret (Z.of_nat n).
Proof. apply print_nat_num. Qed.
Print Assumptions C67_number.
(* ... but 4294967295 is -1, so that the loop 4294967295 x never ends of itself *)
Theorem C67_number_refuted L x : gram L 9 x (ESym (str "x")) -> Forall wf x ->
  make_expr L (tok KNum "4294967295" :: flat x) = Ret (ERepeat (-1) (ESym (str "x"))).
Proof.
  intros G W. change (tok KNum "4294967295" :: flat x) with (flat (Leaf (tok KNum "4294967295") :: x)).
  apply make_expr_gram; [constructor; auto; repeat constructor|]. apply gram_down with 9; [|lia]. apply g_times; auto.
Qed.
Print Assumptions C67_number_refuted.
Example C67_ex : gram ex_lits 9 [Leaf (tok KName "x")] (ESym (str "x")) /\
  make_expr ex_lits [num_tok 10; tok KMinus "-"; num_tok 3; tok KMinus "-"; num_tok 2] = Ret (EAdd (-1) (EInt 10) (EAdd (-1) (EInt 3) (EInt 2))) /\
  make_expr ex_lits [num_tok 10; tok KMinus "-"; num_tok 3; tok KTimes "*"; num_tok 2] = Ret (EAdd (-1) (EInt 10) (EMult (EInt 3) (EInt 2))) /\
  make_expr ex_lits [num_tok 10; tok KTimes "*"; num_tok 3; tok KMinus "-"; num_tok 2] = Ret (EAdd (-1) (EMult (EInt 10) (EInt 3)) (EInt 2)).
Proof.
  split; [|repeat split; vm_compute; reflexivity]. apply g_word; auto. constructor. cbn; intuition discriminate.
Qed.
