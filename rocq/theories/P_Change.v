(* P_Change.v - proofs about changes. *)
From Verif Require Import Base M_Bell M_Math M_Change M_Row Spec_Row Spec_Change P_Row P_Bell.
Set Implicit Arguments.
Unset Strict Implicit.

(* b, b+2, ... : the pairs from place b to place e (exclusive) *)
Fixpoint evens (k b : nat) : list nat :=
  match k with O => [] | S k => b :: evens k (b + 2) end.
Definition pairs_between (b e : nat) : list nat := evens ((e - b) / 2) b.

Lemma evens_snoc k b : evens (S k) b = evens k b ++ [b + 2 * k].
Proof.
  revert b; induction k as [|k IH]; intros b; [cbn; do 2 f_equal; lia|].
  change (evens (S (S k)) b) with (b :: evens (S k) (b + 2)). rewrite IH.
  cbn [evens app]. do 3 f_equal. lia.
Qed.

Lemma pairs_between_step s to : s + 1 < to ->
  pairs_between s to = s :: pairs_between (s + 2) to.
Proof.
  intros H. unfold pairs_between. replace (to - s) with ((to - (s + 2)) + 1 * 2) by lia.
  rewrite Nat.div_add by lia. rewrite Nat.add_1_r. reflexivity.
Qed.

Lemma pairs_between_nil s to : to <= s + 1 -> pairs_between s to = [].
Proof.
  intros H. unfold pairs_between.
  replace ((to - s) / 2) with 0; [reflexivity|]. symmetry. apply Nat.div_small. lia.
Qed.

Lemma pairs_between_snoc b lo : b <= lo -> Nat.even (lo - b) = true ->
  pairs_between b (lo + 2) = pairs_between b lo ++ [lo].
Proof.
  intros H E. apply Nat.even_spec in E. destruct E as [k Hk].
  unfold pairs_between. replace (lo + 2 - b) with (S k * 2) by lia.
  replace (lo - b) with (k * 2) by lia. rewrite !Nat.div_mul by lia.
  rewrite evens_snoc. do 2 f_equal. lia.
Qed.

Lemma asb_loop_spec to fuel s : to <= 255 -> 0 < fuel -> to < s + 2 * fuel ->
  asb_loop fuel s to = Ret (pairs_between s to).
Proof.
  intros Hto. revert s; induction fuel as [|fuel IH]; intros s Hp Hf; [lia|].
  cbn [asb_loop]. destruct (Nat.ltb_spec (s + 1) to) as [H|H].
  - rewrite b8_small by lia. rewrite IH by lia. cbn [bind].
    now rewrite (@pairs_between_step s to).
  - now rewrite pairs_between_nil.
Qed.

Lemma asb_spec swaps from to : to <= 255 ->
  append_swaps_between swaps from to = Ret (swaps ++ pairs_between from to, b8 (to + 1)).
Proof.
  intros H. unfold append_swaps_between.
  rewrite asb_loop_spec by lia. reflexivity.
Qed.

(* The places of a well-formed list of pairs *)
Fixpoint pls (lo n : nat) (l : list nat) : list nat :=
  match l with
  | [] => seq lo (n - lo)
  | s :: t => seq lo (s - lo) ++ pls (s + 2) n t
  end.

Lemma push_while_spec fuel b s pl : s <= 255 -> s - b < fuel ->
  push_while fuel b s pl = Ret (pl ++ seq b (s - b), Nat.max b s).
Proof.
  intros Hs. revert b pl; induction fuel as [|fuel IH]; intros b pl Hf; [lia|].
  cbn [push_while]. destruct (Nat.ltb_spec b s) as [H|H].
  - rewrite b8_small by lia. rewrite IH by lia. f_equal. f_equal; [|lia].
    rewrite <- app_assoc. cbn [app]. f_equal.
    replace (s - b) with (S (s - (b + 1))) by lia. cbn [seq]. do 2 f_equal; lia.
  - replace (s - b) with 0 by lia. cbn [seq]. rewrite app_nil_r. f_equal. f_equal. lia.
Qed.

Lemma places_loop l lo n pl : n <= 255 -> pairs_ok lo n l ->
  bind (forM l (fun '(pl, b) s =>
       '(pl, _) <- push_while 257 b s pl ;; Ret (pl, b8 (s + 2))) (pl, lo))
    (fun '(pl, b) => '(pl, _) <- push_while 257 b n pl ;; Ret pl)
  = Ret (pl ++ pls lo n l).
Proof.
  intros Hn. revert lo pl; induction l as [|s t IH]; intros lo pl W; cbn [forM bind pls].
  - rewrite push_while_spec by lia. reflexivity.
  - destruct W as (W1 & W2 & W3). rewrite push_while_spec by lia. cbn [bind].
    rewrite b8_small by lia. rewrite IH by assumption. now rewrite app_assoc.
Qed.

Lemma places_pls c : cn c <= 255 -> wf_change c -> places c = Ret (pls 0 (cn c) (cswaps c)).
Proof. intros Hn W. unfold places. now rewrite places_loop. Qed.

(* Rebuilding the pairs from the places *)
Lemma add_place_ok n acc b p : p < n -> n <= 255 -> b <= p -> Nat.even (p - b) = true ->
  add_place n (acc, b) p = Ret (acc ++ pairs_between b p, p + 1).
Proof.
  intros H1 H2 H3 E. unfold add_place.
  destruct (Nat.leb_spec n p); [lia|]. destruct (Nat.ltb_spec p b); [lia|].
  assert (M : (p - b) mod 2 = 0).
  { apply Nat.even_spec in E. destruct E as [k ->]. rewrite Nat.mul_comm. apply Nat.mod_mul. lia. }
  rewrite M. cbn [Nat.eqb negb orb andb]. rewrite !andb_false_r. cbv iota.
  rewrite asb_spec by lia. rewrite b8_small by lia. reflexivity.
Qed.

Lemma add_run n k p acc : n <= 255 -> p + k <= n ->
  forM (seq p k) (add_place n) (acc, p) = Ret (acc, p + k).
Proof.
  intros Hn. revert p; induction k as [|k IH]; intros p Hk; cbn [seq forM].
  - do 2 f_equal. lia.
  - rewrite add_place_ok; try lia; [|now rewrite Nat.sub_diag].
    rewrite pairs_between_nil by lia. cbn [bind]. rewrite app_nil_r.
    replace (p + 1) with (S p) by lia. rewrite IH by lia. do 2 f_equal. lia.
Qed.

Lemma add_run' n k p b acc : n <= 255 -> p + S k <= n -> b <= p -> Nat.even (p - b) = true ->
  forM (seq p (S k)) (add_place n) (acc, b) = Ret (acc ++ pairs_between b p, p + S k).
Proof.
  intros Hn Hk Hb E. cbn [seq forM]. rewrite add_place_ok by (auto; lia). cbn [bind].
  replace (p + 1) with (S p) by lia. rewrite add_run by lia. do 2 f_equal. lia.
Qed.

Lemma even_sub_add2 lo b : b <= lo -> Nat.even (lo - b) = true -> Nat.even (lo + 2 - b) = true.
Proof.
  intros H E. replace (lo + 2 - b) with (S (S (lo - b))) by lia. exact E.
Qed.

Lemma rebuild_pairs n l lo b acc : n <= 255 -> pairs_ok lo n l -> b <= lo -> lo <= n ->
  Nat.even (lo - b) = true ->
  exists b', bind (forM (pls lo n l) (add_place n) (acc, b))
    (fun '(swaps, b) => append_swaps_between swaps b n) =
  Ret (acc ++ pairs_between b lo ++ l, b').
Proof.
  intros Hn. revert lo b acc; induction l as [|s t IH]; intros lo b acc W Hb Hlo E; cbn [pls].
  - exists (b8 (n + 1)). destruct (n - lo) as [|k] eqn:K.
    + cbn [seq forM bind]. rewrite asb_spec by lia. rewrite app_nil_r.
      replace n with lo at 1 by lia. reflexivity.
    + rewrite add_run' by (auto; lia). cbn [bind]. rewrite asb_spec by lia.
      rewrite (@pairs_between_nil (lo + S k)) by lia. do 2 f_equal. now rewrite <- app_assoc.
  - destruct W as (W1 & W2 & W3). rewrite forM_app. destruct (s - lo) as [|k] eqn:K.
    + assert (s = lo) by lia. subst s. cbn [seq forM bind].
      destruct (IH (lo + 2) b acc W3) as (b' & Hb'); try lia.
      { now apply even_sub_add2. }
      exists b'. rewrite Hb'. rewrite pairs_between_snoc by auto. now rewrite <- app_assoc.
    + rewrite add_run' by (auto; lia). cbn [bind].
      destruct (IH (s + 2) (lo + S k) (acc ++ pairs_between b lo) W3) as (b' & Hb'); try lia.
      { replace (s + 2 - (lo + S k)) with 2 by lia. reflexivity. }
      exists b'. rewrite Hb'. replace (lo + S k) with s by lia.
      rewrite (@pairs_between_step s (s + 2)), (@pairs_between_nil (s + 2) (s + 2)) by lia.
      now rewrite <- app_assoc.
Qed.

Lemma change_of_places_places c : cn c <= 255 -> wf_change c ->
  bind (places c) (change_of_places (cn c)) = Ret c.
Proof.
  intros Hn W. rewrite places_pls by assumption. cbn [bind]. unfold change_of_places.
  destruct (@rebuild_pairs (cn c) (cswaps c) 0 0 []) as (b' & E); auto; try lia.
  destruct (forM (pls 0 (cn c) (cswaps c)) (add_place (cn c)) ([], 0)) as [[sw b]|e| |]; try discriminate E.
  cbn [bind] in *. rewrite b8_small by lia. rewrite E. cbn. destruct c; reflexivity.
Qed.

Lemma pls_lt lo n l p : n <= 255 -> pairs_ok lo n l -> In p (pls lo n l) -> p < n.
Proof.
  intros Hn. revert lo; induction l as [|s t IH]; cbn; intros lo W H.
  - apply in_seq in H. lia.
  - destruct W as (W1 & W2 & W3). apply in_app_or in H. destruct H as [H|H].
    + apply in_seq in H. lia.
    + now apply (IH _ W3).
Qed.

Lemma parse_loop_print n l st fuel : (forall p, In p l -> p < 256) ->
  length (concat (map (print_bell default_symtab) l)) <= fuel ->
  change_parse_loop fuel default_symtab n (concat (map (print_bell default_symtab) l)) st
  = forM l (add_place n) st.
Proof.
  revert st fuel; induction l as [|p t IH]; intros st fuel Hp Hf; cbn [map concat forM].
  - destruct fuel; reflexivity.
  - assert (Hpp : p < 256) by (apply Hp; now left).
    generalize (@read_extended_print p (concat (map (print_bell default_symtab) t)) Hpp).
    cbn [map concat] in Hf. rewrite app_length in Hf.
    assert (NE : length (print_bell default_symtab p) > 0).
    { unfold print_bell. destruct (p <? _); cbn; lia. }
    destruct (print_bell default_symtab p) as [|c w] eqn:E; [cbn in NE; lia|].
    cbn [length app] in *. intros R. destruct fuel as [|fuel]; [lia|].
    cbn [change_parse_loop]. rewrite R. cbn [bind].
    destruct (add_place n st p); cbn [bind]; auto. apply IH; [|lia].
    intros q Hq. apply Hp. now right.
Qed.

Lemma c_str_print l : (forall p, In p l -> p < 256) ->
  c_str (concat (map (print_bell default_symtab) l)) = concat (map (print_bell default_symtab) l).
Proof.
  induction l as [|p t IH]; cbn [map concat]; intros H; [reflexivity|].
  rewrite c_str_app_nonul.
  - rewrite IH; auto. intros q Hq. apply H. now right.
  - apply print_bell_nonul. apply H. now left.
Qed.

Lemma print_bell_not_cross p t :
  p < 256 -> is_cross (print_bell default_symtab p ++ t) = false.
Proof.
  intros Hp. unfold print_bell. cbn [sym_max default_symtab].
  assert (X : forall c t, eqc c (chr "X") = false -> eqc c (chr "x") = false -> eqc c (chr "-") = false ->
     is_cross (c :: t) = false).
  { intros c u. unfold is_cross, list_ascii_eqb, eqc.
    change (str "X") with [chr "X"]. change (str "x") with [chr "x"]. change (str "-") with [chr "-"].
    destruct (ascii_dec c (chr "X")); [discriminate|].
    destruct (ascii_dec c (chr "x")); [discriminate|].
    destruct (ascii_dec c (chr "-")); [discriminate|].
    intros _ _ _.
    destruct (list_eq_dec ascii_dec (c :: u) [chr "X"]); [congruence|].
    destruct (list_eq_dec ascii_dec (c :: u) [chr "x"]); [congruence|].
    destruct (list_eq_dec ascii_dec (c :: u) [chr "-"]); [congruence|]. reflexivity. }
  destruct (Nat.ltb_spec p 33) as [L|L].
  - cbn [app].
    assert (G : forallb (fun b => let c := to_char default_symtab b in
      negb (eqc c (chr "X")) && negb (eqc c (chr "x")) && negb (eqc c (chr "-"))) (seq 0 33) = true)
      by (vm_compute; reflexivity).
    rewrite forallb_forall in G. specialize (G p). cbv zeta in G.
    rewrite !andb_true_iff, !negb_true_iff in G.
    destruct G as [[G1 G2] G3]; [apply in_seq; lia|]. now apply X.
  - cbn [app]. apply X; reflexivity.
Qed.

Lemma change_print_parse f c : 1 <= cn c <= 255 -> wf_change c ->
  bind (change_print default_symtab f c) (change_of_pn default_symtab (cn c)) = Ret c.
Proof.
  intros Hn W. unfold change_print. rewrite places_pls by (auto; lia). cbn [bind].
  generalize (@change_of_places_places c (proj2 Hn) W). rewrite places_pls by (auto; lia).
  cbn [bind]. unfold change_of_places.
  assert (LT : forall p, In p (pls 0 (cn c) (cswaps c)) -> p < cn c).
  { intros p. apply pls_lt; [lia|exact W]. }
  assert (N0 : cn c =? 0 = false) by (apply Nat.eqb_neq; lia). rewrite N0. cbn [negb andb].
  destruct (pls 0 (cn c) (cswaps c)) as [|p t].
  - cbn [forM bind map concat]. intros H. unfold change_of_pn. destruct f; exact H.
  - set (s := concat (map (print_bell default_symtab) (p :: t))) in *.
    intros H.
    assert (NS : s <> []) by (unfold s; cbn [map concat]; apply print_bell_nonempty).
    assert (L256 : forall q, In q (p :: t) -> q < 256) by (intros q Hq; apply LT in Hq; lia).
    assert (IC : is_cross s = false).
    { unfold s. cbn [map concat]. apply print_bell_not_cross. apply L256. now left. }
    destruct s as [|c0 w] eqn:ES; [congruence|].
    unfold change_of_pn. rewrite IC. rewrite <- ES in *.
    unfold s at 2. rewrite c_str_print by exact L256. fold s.
    unfold s at 2. rewrite parse_loop_print; [exact H|exact L256|fold s; lia].
Qed.
