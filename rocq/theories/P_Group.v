(* P_Group.v - generating groups. *)
From Verif Require Import Base M_Bell M_Change M_Math M_Row M_Extent M_Group Spec_Row Spec_Change Spec_Extent Spec_Cycle Spec_Group
  P_Math P_Row P_Cycle P_Order P_Perm P_Extent P_Extent2 P_Extent3.
Set Implicit Arguments.
Unset Strict Implicit.
Open Scope nat_scope.

(* --- composition --- *)
Lemma comp_length x y : length (comp x y) = Nat.max (length x) (length y).
Proof. unfold comp. now rewrite map_length, seq_length. Qed.
Lemma act_comp x y i : is_row y -> act (comp x y) i = act x (act y i).
Proof.
  intros P. unfold comp. destruct (lt_dec i (Nat.max (length x) (length y))) as [H|H].
  - rewrite (@act_nth _ i 0) by (rewrite map_length, seq_length; exact H).
    rewrite (nth_indep _ 0 (act x (act y 0))) by (rewrite map_length, seq_length; exact H).
    rewrite (map_nth (fun i => act x (act y i))), seq_nth by exact H. reflexivity.
  - rewrite !act_ge; auto; try lia. + rewrite act_ge; lia. + rewrite map_length, seq_length. lia.
Qed.
Lemma comp_row x y : is_row x -> is_row y -> is_row (comp x y).
Proof.
  intros Px Py. apply act_bij_is_row.
  - intros i j _ _. rewrite !act_comp by exact Py. intros E. now apply (act_inj Py), (act_inj Px).
  - intros i Hi. rewrite act_comp by exact Py. rewrite comp_length in *.
    assert (A : forall z k, is_row z -> k < Nat.max (length x) (length y) -> length z <= Nat.max (length x) (length y) -> act z k < Nat.max (length x) (length y)).
    { intros z k Pz Hk Lz. destruct (lt_dec k (length z)) as [H|H]; [generalize (act_lt Pz H); lia|rewrite act_ge; lia]. }
    apply A; auto; [|lia]. apply A; auto. lia.
Qed.
Lemma mul_comp x y : row256 x -> row256 y -> mul x y = Ret (comp x y).
Proof.
  intros Hx Hy. destruct (mul_spec Hx Hy) as (z & E & _ & L & A). rewrite E. f_equal. apply act_ext.
  - now rewrite comp_length.
  - intros i _. rewrite A, act_comp; [reflexivity|apply Hy].
Qed.
Lemma row_b_256 b x : b <= 256 -> row_b b x -> row256 x.
Proof. intros H [P L]. split; auto. lia. Qed.
Lemma comp_row_b b x y : row_b b x -> is_row y -> length y <= b -> row_b b (comp x y).
Proof. intros [P L] Py Ly. split; [now apply comp_row|]. rewrite comp_length. lia. Qed.
Lemma comp_assoc b x y z : row_b b x -> row_b b y -> row_b b z -> comp (comp x y) z = comp x (comp y z).
Proof.
  intros Hx Hy Hz. assert (Py := proj1 Hy). assert (Pz := proj1 Hz). apply act_ext.
  - rewrite !comp_length. lia.
  - intros i _. rewrite !act_comp; auto. now apply comp_row.
Qed.
Lemma comp_id_l b x : row_b b x -> comp (id_row b) x = x.
Proof. intros [P L]. apply act_ext; [rewrite comp_length, id_length; lia|]. intros i _. rewrite act_comp by exact P. apply act_id. Qed.
Lemma comp_id_r b x : row_b b x -> comp x (id_row b) = x.
Proof. intros [P L]. apply act_ext; [rewrite comp_length, id_length; lia|]. intros i _. rewrite act_comp by apply is_row_id. now rewrite act_id. Qed.
Lemma comp_pad x g : is_row g -> length g <= length x -> comp x (pad (length x) g) = comp x g.
Proof.
  intros P L. apply act_ext; [rewrite !comp_length, pad_length; lia|]. intros i _.
  rewrite !act_comp; auto; [now rewrite act_pad|now apply is_row_pad].
Qed.
Lemma row_b_id b : row_b b (id_row b).
Proof. split; [apply is_row_id|apply id_length]. Qed.

(* --- sorted insertion --- *)
Section Sorted.
Variables (T : Type) (lt' : T -> T -> Prop) (ltb : T -> T -> bool).
Hypothesis ltb_spec : forall a b, ltb a b = true <-> lt' a b.
Hypothesis lt_trans' : forall a b c, lt' a b -> lt' b c -> lt' a c.
Hypothesis lt_irrefl' : forall a, ~ lt' a a.
Variable dom : T -> Prop.
Hypothesis total : forall a b, dom a -> dom b -> a = b \/ lt' a b \/ lt' b a.

Lemma set_insert_spec s x : StronglySorted lt' s -> Forall dom s -> dom x ->
  let '(s', new) := set_insert ltb s x in
  StronglySorted lt' s' /\ (forall y, In y s' <-> y = x \/ In y s) /\
  (new = false <-> In x s) /\ length s' = length s + (if new then 1 else 0).
Proof.
  induction s as [|a s IH]; intros S D Dx; cbn [set_insert].
  - split; [repeat constructor|]. split; [cbn; intuition auto|]. split; [split; [discriminate|intros []]|reflexivity].
  - inversion_clear S as [|? ? S1 S2]. inversion_clear D as [|? ? D1 D2]. destruct (ltb x a) eqn:E1.
    + apply ltb_spec in E1. rewrite Forall_forall in S2. split; [|split; [|split]].
      * constructor; [constructor; auto; apply Forall_forall; auto|]. constructor; auto. apply Forall_forall. intros y Hy. eauto.
      * intros y. cbn. intuition auto.
      * split; [discriminate|]. intros [->|H]; [now apply lt_irrefl' in E1|]. exfalso. apply (lt_irrefl' (a := x)). eauto.
      * cbn. lia.
    + destruct (ltb a x) eqn:E2.
      * specialize (IH S1 D2 Dx). destruct (set_insert ltb s x) as [s' new]. destruct IH as (I1 & I2 & I3 & I4).
        apply ltb_spec in E2. rewrite Forall_forall in S2. split; [|split; [|split]].
        -- constructor; auto. apply Forall_forall. intros y Hy. apply I2 in Hy as [->|Hy]; auto.
        -- intros y. cbn. rewrite I2. intuition auto.
        -- rewrite I3. cbn. split; auto. intros [->|H]; auto. now apply lt_irrefl' in E2.
        -- cbn. lia.
      * assert (a = x).
        { destruct (total D1 Dx) as [|[H|H]]; auto; apply ltb_spec in H; congruence. }
        subst a. split; [constructor; auto|]. split; [cbn; intuition (subst; auto)|]. split; [cbn; intuition auto|cbn; lia].
Qed.

Lemma sort_unique_spec l : Forall dom l ->
  StronglySorted lt' (sort_unique ltb l) /\ forall y, In y (sort_unique ltb l) <-> In y l.
Proof.
  unfold sort_unique. intros D.
  assert (G : forall l s, Forall dom l -> Forall dom s -> StronglySorted lt' s ->
    StronglySorted lt' (fold_left (fun s x => fst (set_insert ltb s x)) l s) /\
    forall y, In y (fold_left (fun s x => fst (set_insert ltb s x)) l s) <-> In y l \/ In y s).
  { clear l D. induction l as [|a l IH]; intros s D Ds S; cbn [fold_left].
    - split; auto. cbn. tauto.
    - inversion_clear D as [|? ? D1 D2]. assert (X := @set_insert_spec s a S Ds D1).
      destruct (set_insert ltb s a) as [s' new]. destruct X as (X1 & X2 & _). cbn [fst].
      destruct (IH s') as [I1 I2]; auto.
      { apply Forall_forall. intros y Hy. apply X2 in Hy as [->|Hy]; auto. rewrite Forall_forall in Ds. auto. }
      split; auto. intros y. rewrite I2, X2. cbn. intuition auto. }
  destruct (G l [] D ltac:(constructor) ltac:(constructor)) as [G1 G2]. split; auto. intros y. rewrite G2. cbn. tauto.
Qed.

Lemma sort_insert_perm x s : Permutation (sort_insert ltb x s) (x :: s).
Proof.
  induction s as [|a s IH]; cbn; auto. destruct (ltb a x); auto. rewrite IH. apply perm_swap.
Qed.
Lemma std_sort_perm l : Permutation (std_sort ltb l) l.
Proof. induction l as [|a l IH]; cbn; auto. rewrite sort_insert_perm. now constructor. Qed.
Lemma sort_insert_sorted x s : StronglySorted lt' s -> Forall dom s -> dom x -> ~ In x s -> StronglySorted lt' (sort_insert ltb x s).
Proof.
  induction s as [|a s IH]; intros S D Dx N; cbn; [repeat constructor|].
  inversion_clear S as [|? ? S1 S2]. inversion_clear D as [|? ? D1 D2]. rewrite Forall_forall in S2.
  destruct (ltb a x) eqn:E.
  - apply ltb_spec in E. constructor.
    + apply IH; auto. intros H. apply N. now right.
    + apply Forall_forall. intros y Hy. apply (Permutation_in _ (sort_insert_perm x s)) in Hy as [<-|Hy]; auto.
  - assert (lt' x a).
    { destruct (total D1 Dx) as [->|[H|H]]; auto.
      - exfalso. apply N. now left.
      - apply ltb_spec in H. congruence. }
    constructor; [constructor; auto; apply Forall_forall; auto|]. constructor; auto. apply Forall_forall. intros y Hy. eauto.
Qed.
Lemma std_sort_sorted l : Forall dom l -> NoDup l -> StronglySorted lt' (std_sort ltb l).
Proof.
  induction l as [|a l IH]; intros D N; cbn; [constructor|].
  inversion_clear D as [|? ? D1 D2]. inversion_clear N as [|? ? N1 N2]. apply sort_insert_sorted; auto.
  - apply Forall_forall. intros y Hy. apply (Permutation_in _ (std_sort_perm l)) in Hy. rewrite Forall_forall in D2. auto.
  - intros H. apply N1. now apply (Permutation_in _ (std_sort_perm l)).
Qed.
Lemma sorted_nodup s : StronglySorted lt' s -> NoDup s.
Proof.
  induction 1 as [|a s S IH F]; constructor; auto. intros H. rewrite Forall_forall in F. apply (lt_irrefl' (a := a)). auto.
Qed.
Lemma sorted_ext s : forall s', StronglySorted lt' s -> StronglySorted lt' s' -> (forall x, In x s <-> In x s') -> s = s'.
Proof.
  induction s as [|a s IH]; intros [|a' s'] S S' H; auto.
  - exfalso. apply (H a'). now left.
  - exfalso. apply (H a). now left.
  - inversion_clear S as [|? ? S1 S2]. inversion_clear S' as [|? ? S1' S2']. rewrite Forall_forall in S2, S2'.
    assert (a = a').
    { destruct (proj1 (H a) (or_introl eq_refl)) as [|Ha]; auto. destruct (proj2 (H a') (or_introl eq_refl)) as [|Ha']; auto.
      exfalso. apply (lt_irrefl' (a := a)). eauto. }
    subst a'. f_equal. apply IH; auto. intros x. split; intros Hx.
    + destruct (proj1 (H x) (or_intror Hx)) as [->|]; auto. exfalso. apply (lt_irrefl' (a := x)). auto.
    + destruct (proj2 (H x) (or_intror Hx)) as [->|]; auto. exfalso. apply (lt_irrefl' (a := x)). auto.
Qed.
End Sorted.

Lemma lex_total_all : forall a b, a = b \/ lex_lt a b \/ lex_lt b a.
Proof.
  induction a as [|x a IH]; intros [|y b]; cbn; auto.
  destruct (lt_eq_lt_dec x y) as [[H|H]|H]; auto. subst. destruct (IH b) as [->|[H|H]]; auto.
Qed.
Definition anyrow (x : list nat) : Prop := True.
Lemma anyrow_all l : Forall anyrow l.
Proof. apply Forall_forall. intros; exact I. Qed.
Lemma row_insert_spec s x : StronglySorted lex_lt s ->
  let '(s', new) := set_insert row_ltb s x in
  StronglySorted lex_lt s' /\ (forall y, In y s' <-> y = x \/ In y s) /\
  (new = false <-> In x s) /\ length s' = length s + (if new then 1 else 0).
Proof.
  intros S. apply (@set_insert_spec _ lex_lt row_ltb row_ltb_spec lex_trans lex_irrefl anyrow); auto using anyrow_all.
  - intros; apply lex_total_all.
  - exact I.
Qed.
Lemma row_sorted_nodup s : StronglySorted lex_lt s -> NoDup s.
Proof. apply sorted_nodup, lex_irrefl. Qed.
Lemma row_sorted_ext s s' : StronglySorted lex_lt s -> StronglySorted lex_lt s' -> (forall x, In x s <-> In x s') -> s = s'.
Proof. apply sorted_ext; [apply lex_trans|apply lex_irrefl]. Qed.
Lemma row_sort_unique_spec l : StronglySorted lex_lt (sort_unique row_ltb l) /\ forall y, In y (sort_unique row_ltb l) <-> In y l.
Proof.
  apply (@sort_unique_spec _ lex_lt row_ltb row_ltb_spec lex_trans lex_irrefl anyrow); auto using anyrow_all. intros; apply lex_total_all.
Qed.
Lemma row_sort_sorted l : NoDup l -> StronglySorted lex_lt (std_sort row_ltb l).
Proof.
  apply (@std_sort_sorted _ lex_lt row_ltb row_ltb_spec lex_trans anyrow); auto using anyrow_all. intros; apply lex_total_all.
Qed.

(* --- all rows on b bells: finitely many --- *)
Lemma all_rows b : b <= 256 -> exists L, forall x, row_b b x -> In x L.
Proof.
  intros H. destruct (@ei_traverse_spec b 0 b (mkEI 0 0 0 true []) ltac:(lia) eq_refl (Z.to_nat (fac b)) (rounds b)) as (l & _ & _ & A).
  - apply rounds_in_extent; lia.
  - destruct (@rounds_in_extent b 0 b ltac:(lia) H) as [_ R]. rewrite R. assert (F := fac_pos b). lia.
  - exists l. intros x [P L]. apply A. destruct (@rounds_in_extent b 0 b ltac:(lia) H) as [_ R]. rewrite R.
    assert (I : in_extent b 0 b x). { split; auto. split; auto. intros i [Hi|Hi]; [lia|]. apply act_ge. lia. }
    split; auto. assert (X := @erank_range b 0 b x ltac:(lia) I). lia.
Qed.

(* --- powers --- *)
Fixpoint pw (b : nat) (g : list nat) (k : nat) : list nat := match k with O => id_row b | S k => comp (pw b g k) g end.
Lemma pw_row b g k : is_row g -> length g <= b -> row_b b (pw b g k).
Proof. intros P L. induction k as [|k IH]; cbn [pw]; [apply row_b_id|now apply comp_row_b]. Qed.
Lemma act_pw b g k i : is_row g -> length g <= b -> act (pw b g k) i = act_pow g k i.
Proof.
  intros P L. revert i. induction k as [|k IH]; intros i; cbn [pw]; [apply act_id|].
  rewrite act_comp by exact P. rewrite IH. now rewrite act_pow_S_r.
Qed.
Lemma finite_order g : is_row g -> exists k, 0 < k /\ forall i, act_pow g k i = i.
Proof.
  intros P. destruct (cycle_lists_spec P) as (cs & _ & D & _).
  set (ls := map (@length nat) cs). exists (fold_right Nat.mul 1 ls). split.
  - assert (F : Forall (fun l => 0 < l) ls).
    { apply Forall_map. eapply Forall_impl; [|apply (decomp_nonempty D)]. intros c Hc. destruct c; [congruence|cbn; lia]. }
    clear -F. induction F; cbn; [lia|]. nia.
  - apply (decomp_divides _ D). intros l Hl. fold ls in Hl. clear -Hl. induction ls as [|a ls IH]; [destruct Hl|].
    cbn [fold_right]. destruct Hl as [->|Hl]; [exists (fold_right Nat.mul 1 ls); lia|].
    destruct (IH Hl) as [q Hq]. exists (a * q). rewrite Hq. lia.
Qed.
Lemma pw_order b g : is_row g -> length g <= b -> exists k, pw b g (S k) = id_row b.
Proof.
  intros P L. destruct (finite_order P) as (k & Hk & A). destruct k as [|k]; [lia|]. exists k.
  apply act_ext; [rewrite (proj2 (pw_row (S k) P L)), id_length; reflexivity|]. intros i _.
  rewrite act_pw by auto. now rewrite act_id, A.
Qed.

(* --- words in the generators --- *)
Inductive word (b : nat) (gens : list (list nat)) : list nat -> Prop :=
| word_nil : word b gens (id_row b)
| word_snoc x g : word b gens x -> In g gens -> word b gens (comp x g).

Section Words.
Variables (b : nat) (gens : list (list nat)).
Hypothesis (Hb : b <= 256) (Hg : forall g, In g gens -> is_row g /\ length g <= b).

Lemma word_row x : word b gens x -> row_b b x.
Proof. induction 1 as [|x g W IH G]; [apply row_b_id|]. destruct (Hg G). now apply comp_row_b. Qed.
Lemma word_mul x y : word b gens x -> word b gens y -> word b gens (comp x y).
Proof.
  intros Wx Wy. induction Wy as [|y g W IH G].
  - rewrite comp_id_r; auto. now apply word_row.
  - destruct (Hg G) as [Pg Lg]. assert (Rx := word_row Wx). assert (Ry := word_row W).
    replace (comp x (comp y g)) with (comp (comp x y) g); [now constructor|].
    rewrite <- (@comp_pad y g) by (auto; destruct Ry; lia). rewrite <- (@comp_pad (comp x y) g).
    + rewrite comp_length. destruct Rx as [? Lx], Ry as [? Ly]. rewrite Lx, Ly, Nat.max_id. apply comp_assoc with (b := b); try (split; auto; fail).
      split; [now apply is_row_pad|]. rewrite pad_length. lia.
    + auto.
    + rewrite comp_length. destruct Rx, Ry. lia.
Qed.
Lemma pw_shift y k : row_b b y -> comp y (pw b y k) = pw b y (S k).
Proof.
  intros [P L]. apply act_ext.
  - rewrite comp_length. rewrite (proj2 (@pw_row b y k P ltac:(lia))), (proj2 (@pw_row b y (S k) P ltac:(lia))). lia.
  - intros i _. rewrite act_comp by apply (@pw_row b y k P ltac:(lia)). rewrite !act_pw by (auto; lia). reflexivity.
Qed.
Lemma subset_group (S : list nat -> Prop) : (forall x, S x -> row_b b x) -> S (id_row b) -> (forall x y, S x -> S y -> S (comp x y)) -> is_subgroup b S.
Proof.
  intros R I M. split; [exact R|]. split; auto. split; auto. intros x Sx. destruct (R x Sx) as [P L].
  destruct (@pw_order b x P ltac:(lia)) as [k E]. exists (pw b x k). split.
  - clear E. induction k as [|k IH]; cbn [pw]; auto.
  - rewrite pw_shift by (split; auto). exact E.
Qed.
Lemma word_group : is_subgroup b (word b gens).
Proof. apply subset_group; [apply word_row|constructor|apply word_mul]. Qed.
Lemma word_generated x : word b gens x <-> generated b gens x.
Proof.
  split.
  - intros W S Sg SG. induction W as [|x g W IH G]; [apply Sg|].
    destruct (Hg G) as [Pg Lg]. assert (Rx := word_row W). rewrite <- (@comp_pad x g) by (auto; destruct Rx; lia).
    replace (length x) with b by (destruct Rx; lia). apply Sg; auto.
  - intros G. apply G; [apply word_group|]. intros g Hin. destruct (Hg Hin) as [Pg Lg].
    rewrite <- (@comp_id_l b (pad b g)).
    + assert (X := @comp_pad (id_row b) g Pg). rewrite id_length in X. rewrite X by exact Lg. constructor; [constructor|auto].
    + split; [now apply is_row_pad|]. rewrite pad_length. lia.
Qed.

(* --- the work-list algorithm --- *)
Lemma gen_steps r : word b gens r -> forall gs s x, (forall g, In g gs -> In g gens) ->
  StronglySorted lex_lt s -> (forall y, In y s -> word b gens y) -> 
  exists s' x', forM gs (gen_step r) (s, x) = Ret (s', x') /\ StronglySorted lex_lt s' /\
    (forall y, In y s' -> word b gens y) /\
    (forall y, In y s -> In y s') /\ (forall y, In y x -> In y x') /\ 
    (forall y, In y x' -> In y x \/ In y s') /\
    (forall y, In y s' -> In y s \/ In y x') /\
    (forall g, In g gs -> In (comp r g) s') /\
    length x' + length s = length x + length s'.
Proof.
  intros Wr. induction gs as [|g gs IH]; intros s x Hgs Ss Ws; cbn [forM].
  - exists s, x. repeat (split; auto). intros g [].
  - unfold gen_step at 1. destruct (Hg (Hgs g (or_introl eq_refl))) as [Pg Lg].
    rewrite mul_comp; [|now apply row_b_256 with (b := b), word_row|split; [auto|lia]]. cbn [bind].
    assert (X := @row_insert_spec s (comp r g) Ss). destruct (set_insert row_ltb s (comp r g)) as [s1 new]. destruct X as (X1 & X2 & X3 & X4).
    cbn [bind]. set (x1 := if new then comp r g :: x else x).
    assert (W1 : forall y, In y s1 -> word b gens y).
    { intros y Hy. apply X2 in Hy as [->|Hy]; auto. constructor; auto. apply Hgs. now left. }
    destruct (IH s1 x1) as (s' & x' & E & A1 & A2 & A3 & A4 & A5 & A6 & A7 & A8); auto. { intros. apply Hgs. now right. }
    exists s', x'. split; [exact E|]. split; auto. split; auto.
    split; [intros y Hy; apply A3, X2; auto|].
    split; [intros y Hy; apply A4; unfold x1; destruct new; auto; now right|].
    split.
    { intros y Hy. apply A5 in Hy as [Hy|Hy]; auto. unfold x1 in Hy. destruct new; auto. destruct Hy as [<-|Hy]; auto.
      right. apply A3, X2. now left. }
    split.
    { intros y Hy. apply A6 in Hy as [Hy|Hy]; auto. apply X2 in Hy as [->|Hy]; auto. destruct new.
      - right. apply A4. now left.
      - left. now apply X3. }
    split.
    { intros h [<-|Hh]; auto. apply A3, X2. now left. }
    unfold x1 in A8. destruct new; cbn [length] in *; lia.
Qed.

Lemma generate_spec L : (forall x, row_b b x -> In x L) -> forall fuel s x,
  StronglySorted lex_lt s -> (forall y, In y s -> word b gens y) -> (forall y, In y x -> word b gens y) ->
  (forall y, In y s \/ y = id_row b -> In y x \/ forall g, In g gens -> In (comp y g) s) ->
  2 * length L + length x < fuel + 2 * length s ->
  exists s', generate_group fuel s x gens = Ret s' /\ StronglySorted lex_lt s' /\ (forall y, In y s' -> word b gens y) /\
    (forall y, In y s' \/ y = id_row b -> forall g, In g gens -> In (comp y g) s').
Proof.
  intros HL. induction fuel as [|fuel IH]; intros s x Ss Ws Wx Cl Hf.
  - exfalso. assert (X : length s <= length L).
    { apply NoDup_incl_length; [now apply row_sorted_nodup|]. intros y Hy. apply HL, word_row; auto. }
    lia.
  - destruct x as [|r x]; cbn [generate_group].
    + exists s. split; auto. split; auto. split; auto. intros y Hy. destruct (Cl y Hy) as [[]|]; auto.
    + destruct (@gen_steps r (Wx r (or_introl eq_refl)) gens s x ltac:(auto) Ss Ws) as (s' & x' & E & A1 & A2 & A3 & A4 & A5 & A6 & A7 & A8).
      match goal with |- context [bind ?m _] => replace m with (Ret (s', x')) by (symmetry; exact E) end. cbn [bind]. apply IH; auto.
      * intros y Hy. apply A5 in Hy as [Hy|Hy]; auto. apply Wx. now right.
      * intros y Hy. assert (Hy' : (In y s \/ y = id_row b) \/ In y x').
        { destruct Hy as [Hy|Hy]; auto. apply A6 in Hy as [|]; auto. }
        destruct Hy' as [Hy'|]; auto. destruct (Cl y Hy') as [[<-|Hx]|C]; auto.
      * assert (X : length s' <= length L).
        { apply NoDup_incl_length; [now apply row_sorted_nodup|]. intros y Hy. apply HL, word_row; auto. }
        cbn [length] in Hf. 
        assert (length s <= length s') by (apply NoDup_incl_length; [now apply row_sorted_nodup|intros y Hy; auto]). unfold row in *. lia.
Qed.

Lemma generate_group_spec : gens <> [] -> exists n, forall fuel, n <= fuel ->
  exists s, generate_group fuel [] [rounds b] gens = Ret s /\ StronglySorted lex_lt s /\ forall x, In x s <-> word b gens x.
Proof.
  intros Ne. destruct (all_rows Hb) as [L HL]. exists (2 * length L + 2). intros fuel Hf.
  destruct (@generate_spec L HL fuel [] [rounds b]) as (s & E & Ss & W & C).
  - constructor.
  - intros y [].
  - intros y [<-|[]]. rewrite rounds_id by exact Hb. constructor.
  - intros y [[]| ->]. left. left. now apply rounds_id.
  - cbn. lia.
  - exists s. split; auto. split; auto. intros x. split; auto.
    assert (Id : In (id_row b) s).
    { destruct gens as [|g gens'] eqn:Eg; [congruence|]. destruct (Hg (or_introl eq_refl)) as [Pg Lg].
      destruct (@pw_order b g Pg Lg) as [k Ek]. rewrite <- Ek. clear Ek. induction k as [|k IH].
      - cbn [pw]. apply C; auto. now left.
      - change (pw b g (S (S k))) with (comp (pw b g (S k)) g). apply C; auto. now left. }
    induction 1 as [|y g W' IH G]; auto.
Qed.
End Words.
