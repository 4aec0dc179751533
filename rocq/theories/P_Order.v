(* P_Order.v - the cycles string, the order of a row and its powers. *)
From Verif Require Import Base M_Bell M_Change M_Math M_Row Spec_Row Spec_Cycle P_Math P_Row P_Bell P_Cycle.
From Coq Require Import Znumtheory.
Set Implicit Arguments.
Unset Strict Implicit.
Open Scope nat_scope.

(* Specification: lists of symbols separated by commas. *)
Fixpoint join_comma (ls : list (list ascii)) : list ascii :=
  match ls with
  | [] => []
  | [l] => l
  | l :: t => l ++ chr "," :: join_comma t
  end.

Lemma removelast_join (ls : list (list ascii)) :
  removelast (concat (map (fun l => l ++ [chr ","]) ls)) = join_comma ls.
Proof.
  induction ls as [|l t IH]; [reflexivity|]. cbn [map concat].
  destruct t as [|l' t].
  - cbn [map concat join_comma]. rewrite app_nil_r. apply removelast_last.
  - rewrite <- app_assoc. cbn [app]. rewrite removelast_app by discriminate.
    change (join_comma (l :: l' :: t)) with (l ++ chr "," :: join_comma (l' :: t)).
    f_equal. rewrite <- IH. 
    assert (N : concat (map (fun l => l ++ [chr ","]) (l' :: t)) <> []).
    { cbn [map concat]. destruct l'; discriminate. }
    destruct (concat _); [congruence|reflexivity].
Qed.

Lemma cycles_spec sym x : row256 x ->
  exists cs, decomp (act x) (length x) cs /\ heads_ok 0 cs /\ cycle_lists x = Ret cs /\
    cycles sym x = Ret (join_comma (map (map (to_char sym)) cs)).
Proof.
  intros [Px L]. destruct (cycle_lists_spec Px) as (cs & E & D & H). exists cs.
  repeat split; auto; try apply D.
  unfold cycles. destruct x as [|a t].
  - cbn in E. injection E as <-. reflexivity.
  - rewrite E. cbn [bind]. f_equal. rewrite <- removelast_join, map_map.
    f_equal. f_equal. apply map_ext_in. intros l Hl. f_equal. apply map_ext_in.
    intros i Hi. f_equal. apply b8_small. destruct (decomp_in D Hl) as (_ & _ & B & _).
    specialize (B i Hi). lia.
Qed.

Lemma to_char_comma b : eqc (to_char default_symtab b) (chr ",") = false.
Proof.
  destruct (lt_dec b 33) as [H|H].
  - destruct (read_char_to_char H) as (c & E & _ & _ & _ & Q & _). now rewrite E.
  - unfold to_char. change (sym_max default_symtab) with 33.
    destruct (Nat.ltb_spec b 33); [lia|reflexivity].
Qed.

Lemma order_loop_map l s k o :
  order_loop (map (to_char default_symtab) l ++ s) k o = order_loop s (k + length l) o.
Proof.
  revert k; induction l as [|b l IH]; intros k; cbn [map app length]; [now rewrite Nat.add_0_r|].
  cbn [order_loop]. rewrite to_char_comma, IH. f_equal. lia.
Qed.

Lemma join_comma_nil ls : Forall (fun l => l <> []) ls -> join_comma ls = [] -> ls = [].
Proof.
  destruct ls as [|l t]; auto. intros F E. inversion F as [|? ? N _]; subst.
  destruct t; cbn in E; [congruence|]. destruct l; [congruence|discriminate].
Qed.

Lemma order_loop_join l cs o : Forall (fun l => l <> []) (l :: cs) ->
  order_loop (join_comma (map (map (to_char default_symtab)) (l :: cs))) 0 o =
  forM (map (@length nat) (l :: cs)) (fun o k => lcm o (Z.of_nat k)) o.
Proof.
  revert l o; induction cs as [|l' cs IH]; intros l o F.
  - cbn [map join_comma forM]. rewrite <- (app_nil_r (map _ l)), order_loop_map. cbn [order_loop Nat.add].
    destruct (lcm o _); reflexivity.
  - change (join_comma (map (map (to_char default_symtab)) (l :: l' :: cs)))
      with (map (to_char default_symtab) l ++ chr "," ::
            join_comma (map (map (to_char default_symtab)) (l' :: cs))).
    rewrite order_loop_map. cbn [Nat.add order_loop].
    change (eqc (chr ",") (chr ",")) with true. cbv iota.
    change (forM (map (@length nat) (l :: l' :: cs)) (fun o k => lcm o (Z.of_nat k)) o)
      with (o' <- lcm o (Z.of_nat (length l)) ;; forM (map (@length nat) (l' :: cs)) (fun o k => lcm o (Z.of_nat k)) o').
    destruct (lcm o (Z.of_nat (length l))) as [o'| | |]; cbn [bind]; auto.
    inversion F as [|? ? _ F']; subst.
    rewrite <- IH by exact F'.
    destruct (join_comma (map (map (to_char default_symtab)) (l' :: cs))) eqn:E; auto.
    apply join_comma_nil in E; [discriminate|].
    apply Forall_map. eapply Forall_impl; [|exact F']. intros [|] H; [congruence|discriminate].
Qed.

Lemma decomp_nonempty f n cs : decomp f n cs -> Forall (fun l => l <> []) cs.
Proof. intros [_ F]. eapply Forall_impl; [|exact F]. intros l H. apply H. Qed.

Lemma order_forM x cs : row256 x -> cycle_lists x = Ret cs -> decomp (act x) (length x) cs ->
  order default_symtab x = forM (map (@length nat) cs) (fun o k => lcm o (Z.of_nat k)) 1%Z.
Proof.
  intros R E D. destruct (cycles_spec default_symtab R) as (cs' & _ & _ & E' & C).
  rewrite E in E'. injection E' as <-.
  unfold order. destruct x as [|a t].
  - cbn in E. injection E as <-. reflexivity.
  - rewrite C. cbn [bind].
    destruct cs as [|l cs].
    + destruct D as [D _]. apply Permutation_length in D. discriminate D.
    + rewrite <- order_loop_join by apply (decomp_nonempty D).
      destruct (join_comma _) eqn:Q; auto.
      apply join_comma_nil in Q; [discriminate|]. apply Forall_map.
      eapply Forall_impl; [|exact (decomp_nonempty D)]. intros [|] H; [congruence|discriminate].
Qed.

(* The computed value, when there is one, is the least common multiple. *)
Open Scope Z_scope.
Lemma forM_lcm_ret lens : Forall (fun k => (0 < k)%nat) lens -> forall o v, 0 < o ->
  forM lens (fun o k => lcm o (Z.of_nat k)) o = Ret v ->
  0 < v /\ (o | v) /\ (forall k, In k lens -> (Z.of_nat k | v)) /\
  (forall m, (o | m) -> (forall k, In k lens -> (Z.of_nat k | m)) -> (v | m)).
Proof.
  induction lens as [|k lens IH]; intros F o v Ho E; cbn [forM] in E.
  - injection E as <-. repeat split; auto. + apply Z.divide_refl. + intros k [].
  - inversion F as [|? ? Hk F']; subst.
    destruct (lcm o (Z.of_nat k)) as [o'| | |] eqn:Q; try discriminate. cbn [bind] in E.
    apply lcm_ret in Q; [|lia|lia]. subst o'.
    destruct (IH F' _ _ (@lcm_pos o (Z.of_nat k) Ho ltac:(lia)) E) as (H1 & H2 & H3 & H4).
    repeat split; auto.
    + eapply Z.divide_trans; [apply Z.divide_lcm_l|exact H2].
    + intros j [<-|Hj]; [|now apply H3].
      eapply Z.divide_trans; [apply Z.divide_lcm_r|exact H2].
    + intros m Hm Hj. apply H4.
      * apply Z.lcm_least; auto. apply Hj. now left.
      * intros j Hin. apply Hj. now right.
Qed.

Fixpoint zprod (l : list nat) : Z := match l with [] => 1 | k :: l => Z.of_nat k * zprod l end.
Fixpoint nsum (l : list nat) : nat := match l with [] => 0%nat | k :: l => (k + nsum l)%nat end.

Lemma zprod_pos l : Forall (fun k => (0 < k)%nat) l -> 0 < zprod l.
Proof. induction 1; cbn [zprod]; lia. Qed.

Lemma forM_lcm_some lens : Forall (fun k => (0 < k)%nat) lens -> forall o, 0 < o ->
  o * zprod lens <= int_max ->
  exists v, forM lens (fun o k => lcm o (Z.of_nat k)) o = Ret v.
Proof.
  induction lens as [|k lens IH]; intros F o Ho B; cbn [forM]; eauto.
  inversion F as [|? ? Hk F']; subst. cbn [zprod] in B.
  assert (Pp := zprod_pos F').
  assert (Z.lcm o (Z.of_nat k) <= o * Z.of_nat k) by (apply lcm_le_mul; lia).
  assert (0 < Z.lcm o (Z.of_nat k)) by (apply lcm_pos; lia).
  rewrite lcm_spec; [|lia|lia|nia]. cbn [bind]. apply IH; auto. nia.
Qed.

Lemma cube_le_pow3 k : (0 < k)%nat -> Z.of_nat k ^ 3 <= 3 ^ Z.of_nat k.
Proof.
  intros H. destruct (le_lt_dec k 3) as [L|L].
  - destruct k as [|[|[|[|]]]]; try lia; vm_compute; congruence.
  - induction k as [|k IH]; [lia|]. destruct (Nat.eq_dec k 3) as [->|]; [vm_compute; congruence|].
    rewrite Nat2Z.inj_succ, Z.pow_succ_r by lia.
    assert (IH' : Z.of_nat k ^ 3 <= 3 ^ Z.of_nat k) by (apply IH; lia).
    assert (4 <= Z.of_nat k) by lia. set (z := Z.of_nat k) in *.
    replace (Z.succ z ^ 3) with (z*z*z + 3*z*z + 3*z + 1) by ring.
    replace (z ^ 3) with (z*z*z) in IH' by ring. nia.
Qed.

Lemma zprod_cube l : Forall (fun k => (0 < k)%nat) l -> zprod l ^ 3 <= 3 ^ Z.of_nat (nsum l).
Proof.
  induction 1 as [|k l Hk F IH]; cbn [zprod nsum]; [vm_compute; congruence|].
  rewrite Nat2Z.inj_add, Z.pow_add_r, Z.pow_mul_l by lia.
  assert (A := cube_le_pow3 Hk). assert (P := zprod_pos F).
  apply Z.mul_le_mono_nonneg; auto; apply Z.pow_nonneg; lia.
Qed.

Lemma nsum_concat (cs : list (list nat)) : nsum (map (@length nat) cs) = length (concat cs).
Proof. induction cs as [|c cs IH]; cbn [map nsum concat]; auto. now rewrite app_length, IH. Qed.

Lemma lens_pos (cs : list (list nat)) : Forall (fun l => l <> []) cs -> Forall (fun k => (0 < k)%nat) (map (@length nat) cs).
Proof. intros F. apply Forall_map. eapply Forall_impl; [|exact F]. intros [|] H; [congruence|cbn; lia]. Qed.

Lemma order_exists x : row256 x -> (length x <= 58)%nat -> exists o, order default_symtab x = Ret o.
Proof.
  intros R L. destruct (cycle_lists_spec (proj1 R)) as (cs & E & D & _).
  rewrite (order_forM R E D). assert (F := lens_pos (decomp_nonempty D)).
  apply forM_lcm_some; [exact F|lia|]. rewrite Z.mul_1_l.
  assert (C := zprod_cube F). rewrite nsum_concat in C.
  destruct D as [D _]. rewrite (Permutation_length D), seq_length in C.
  assert (3 ^ Z.of_nat (length x) <= 3 ^ 58) by (apply Z.pow_le_mono_r; lia).
  assert (P := zprod_pos F).
  destruct (Z.le_gt_cases (zprod (map (@length nat) cs)) int_max) as [|Hgt]; auto. exfalso.
  assert ((int_max + 1) ^ 3 <= zprod (map (@length nat) cs) ^ 3)
    by (apply Z.pow_le_mono_l; unfold int_max in *; lia).
  assert (3 ^ 58 < (int_max + 1) ^ 3) by (vm_compute; reflexivity). lia.
Qed.

Lemma decomp_divides x cs k : decomp (act x) (length x) cs ->
  (forall i, act_pow x k i = i) <-> (forall l, In l (map (@length nat) cs) -> Nat.divide l k).
Proof.
  intros D. split.
  - intros H l Hl. apply in_map_iff in Hl. destruct Hl as (c & <- & Hc).
    destruct (decomp_in D Hc) as (C & N & _). destruct c as [|j c]; [now destruct C|].
    apply (@cycle_period _ (j :: c) j k C N); [now left|]. rewrite fpow_act_pow. apply H.
  - intros H i. destruct (lt_dec i (length x)) as [Hi|Hi]; [|apply act_pow_ge; lia].
    destruct (decomp_cover D Hi) as (c & Hc & Hic). destruct (decomp_in D Hc) as (C & N & _).
    rewrite <- fpow_act_pow. apply (@cycle_period _ c i k C N Hic). apply H, in_map, Hc.
Qed.

Lemma divide_nat_Z a b : Nat.divide a b <-> (Z.of_nat a | Z.of_nat b).
Proof.
  split.
  - intros [q ->]. exists (Z.of_nat q). lia.
  - intros [q Hq]. destruct (Z_lt_le_dec q 0) as [H|H].
    + assert (b = 0 \/ a = 0)%nat as [->| ->] by nia; [exists 0%nat; lia|].
      exists 0%nat. lia.
    + exists (Z.to_nat q). nia.
Qed.

(* When order returns, it returns the exponents that bring rounds. *)
Lemma order_divides x o : row256 x -> order default_symtab x = Ret o ->
  0 < o /\ forall k, (forall i, act_pow x k i = i) <-> (o | Z.of_nat k).
Proof.
  intros R E. destruct (cycle_lists_spec (proj1 R)) as (cs & Ec & D & _).
  rewrite (order_forM R Ec D) in E. assert (F := lens_pos (decomp_nonempty D)).
  destruct (@forM_lcm_ret _ F 1 o ltac:(lia) E) as (H1 & _ & H3 & H4).
  split; auto. intros k. rewrite (decomp_divides k D). split.
  - intros H. apply H4; [apply Z.divide_1_l|]. intros l Hl. apply divide_nat_Z. now apply H.
  - intros H l Hl. apply divide_nat_Z. eapply Z.divide_trans; [apply H3, Hl|exact H].
Qed.

Lemma order_least x o : row256 x -> order default_symtab x = Ret o ->
  exists k, (0 < k)%nat /\ o = Z.of_nat k /\
    (forall i, act_pow x k i = i) /\
    forall j, (0 < j < k)%nat -> exists i, act_pow x j i <> i.
Proof.
  intros R E. destruct (order_divides R E) as [P D]. exists (Z.to_nat o).
  split; [lia|]. split; [lia|]. split.
  - apply D. rewrite Z2Nat.id by lia. apply Z.divide_refl.
  - intros j Hj.
    destruct (forallb (fun i => act_pow x j i =? i)%nat (seq 0 (length x))) eqn:F.
    + exfalso. assert (A : forall i, act_pow x j i = i).
      { intros i. destruct (lt_dec i (length x)); [|apply act_pow_ge; lia].
        rewrite forallb_forall in F. apply Nat.eqb_eq, F, in_seq. lia. }
      apply D in A. apply Z.divide_pos_le in A; lia.
    + assert (X : exists i, In i (seq 0 (length x)) /\ (act_pow x j i =? i)%nat = false).
      { clear -F. induction (seq 0 (length x)) as [|a l IH]; [discriminate|]. cbn [forallb] in F.
        destruct (act_pow x j a =? a)%nat eqn:Q.
        - destruct (IH F) as (i & Hi & Hq). exists i. split; [now right|exact Hq].
        - exists a. split; [now left|exact Q]. }
      destruct X as (i & _ & Hi). exists i. now apply Nat.eqb_neq.
Qed.

Lemma order_least_58 x : row256 x -> (length x <= 58)%nat ->
  exists k, (0 < k)%nat /\ order default_symtab x = Ret (Z.of_nat k) /\
    (forall i, act_pow x k i = i) /\
    forall j, (0 < j < k)%nat -> exists i, act_pow x j i <> i.
Proof.
  intros R L. destruct (order_exists R L) as (o & E).
  destruct (order_least R E) as (k & H1 & H2 & H3 & H4). exists k. subst o. auto.
Qed.

Lemma cycles_full sym x : row256 x ->
  exists cs, decomp (act x) (length x) cs /\ heads_ok 0 cs /\
    num_cycles x = Ret (length cs) /\
    cycles sym x = Ret (join_comma (map (map (to_char sym)) cs)).
Proof.
  intros R. destruct (cycles_spec sym R) as (cs & D & H & E & C). exists cs.
  split; [exact D|]. split; [exact H|]. split; [|exact C].
  unfold num_cycles. destruct x as [|a t].
  - cbn in E. injection E as <-. reflexivity.
  - now rewrite E.
Qed.

(* cycles of length 2, 3, 5, ..., 29 *)
Fixpoint cyc_row (lens : list nat) (b : nat) : row :=
  match lens with [] => [] | k :: t => (seq (b + 1) (k - 1) ++ [b] ++ cyc_row t (b + k))%nat end.
Definition row129 : row := cyc_row [2;3;5;7;11;13;17;19;23;29]%nat 0%nat.
Lemma order_overflow : exists x, row256 x /\ length x = 129%nat /\ order default_symtab x = UB.
Proof.
  exists row129. split; [|split; vm_compute; reflexivity].
  split; [|vm_compute; lia].
  destruct (is_row_dec row129) as [H|H]; [exact H|].
  apply row_of_vector_spec in H. vm_compute in H. discriminate H.
Qed.
