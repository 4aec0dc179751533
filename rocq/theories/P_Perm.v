(* P_Perm.v - ranks of permutations in dictionary order; next and previous permutations. *)
From Verif Require Import Base M_Extent Spec_Row Spec_Extent.
Set Implicit Arguments.
Unset Strict Implicit.
Open Scope nat_scope.

Lemma fac_pos n : (0 < fac n)%Z.
Proof. induction n; cbn [fac]; lia. Qed.
Lemma fac_S n : fac (S n) = (Z.of_nat (S n) * fac n)%Z.
Proof. reflexivity. Qed.

Definition below (x : nat) (l : list nat) : Z := Z.of_nat (length (filter (fun y => y <? x) l)).
Fixpoint rank (l : list nat) : Z :=
  match l with [] => 0 | x :: t => below x t * fac (length t) + rank t end%Z.

Lemma filter_length_le A (f : A -> bool) l : length (filter f l) <= length l.
Proof. induction l as [|a l IH]; cbn; [lia|]. destruct (f a); cbn; lia. Qed.
Lemma below_range x l : (0 <= below x l <= Z.of_nat (length l))%Z.
Proof. unfold below. assert (H := filter_length_le (fun y => y <? x) l). lia. Qed.
Lemma below_cons x y l : below x (y :: l) = ((if (y <? x)%nat then 1 else 0) + below x l)%Z.
Proof. unfold below. cbn [filter]. destruct (y <? x); cbn [length]; lia. Qed.
Lemma below_app x l1 l2 : below x (l1 ++ l2) = (below x l1 + below x l2)%Z.
Proof. induction l1 as [|y l IH]; [reflexivity|]. cbn [app]. rewrite !below_cons, IH. lia. Qed.
Lemma below_perm x l l' : Permutation l l' -> below x l = below x l'.
Proof. intros P. induction P; rewrite ?below_cons in *; try lia. Qed.
Lemma below_mono x y l : x <= y -> (below x l <= below y l)%Z.
Proof.
  intros H. induction l as [|z l IH]; [unfold below; cbn; lia|]. rewrite !below_cons.
  destruct (Nat.ltb_spec z x), (Nat.ltb_spec z y); lia.
Qed.
Lemma below_strict x y l : In x l -> x < y -> (below x l < below y l)%Z.
Proof.
  intros H L. induction l as [|z l IH]; [destruct H|]. rewrite !below_cons. destruct H as [->|H].
  - assert (X := @below_mono x y l ltac:(lia)). rewrite Nat.ltb_irrefl. destruct (Nat.ltb_spec x y); lia.
  - specialize (IH H). destruct (Nat.ltb_spec z x), (Nat.ltb_spec z y); lia.
Qed.
Lemma below_all x l : (forall y, In y l -> y < x) -> below x l = Z.of_nat (length l).
Proof.
  induction l as [|y l IH]; intros H; [reflexivity|]. rewrite below_cons, IH by (intros; apply H; now right).
  destruct (Nat.ltb_spec y x); [cbn [length]; lia|]. specialize (H y (or_introl eq_refl)). lia.
Qed.
Lemma below_none x l : (forall y, In y l -> x <= y) -> below x l = 0%Z.
Proof.
  induction l as [|y l IH]; intros H; [reflexivity|]. rewrite below_cons, IH by (intros; apply H; now right).
  destruct (Nat.ltb_spec y x); [|lia]. specialize (H y (or_introl eq_refl)). lia.
Qed.

Lemma rank_range l : (0 <= rank l < fac (length l))%Z.
Proof.
  induction l as [|x t IH]; [cbn; lia|]. cbn [rank length]. rewrite fac_S.
  assert (B := below_range x t). assert (F := fac_pos (length t)). nia.
Qed.

Lemma rank_lex : forall p q, Permutation p q -> NoDup p -> lex_lt p q -> (rank p < rank q)%Z.
Proof.
  induction p as [|x p IH]; intros [|y q] P N L; try (destruct L; fail).
  { apply Permutation_nil in P. discriminate. }
  assert (Ln : length p = length q) by (apply Permutation_length in P; cbn in P; lia).
  cbn [rank lex_lt] in *. rewrite Ln. destruct L as [L|[-> L]].
  - assert (Bx : below x p = below x (x :: p)) by (rewrite below_cons, Nat.ltb_irrefl; lia).
    assert (By : below y q = below y (x :: p)).
    { rewrite (below_perm y P), below_cons, Nat.ltb_irrefl. lia. }
    assert (S := @below_strict x y (x :: p) (or_introl eq_refl) L).
    assert (R1 := rank_range p). assert (R2 := rank_range q). rewrite Ln in *. nia.
  - apply Permutation_cons_inv in P. inversion_clear N. specialize (IH q P H0 L).
    rewrite (below_perm y P). lia.
Qed.

Lemma lex_total : forall p q, length p = length q -> p = q \/ lex_lt p q \/ lex_lt q p.
Proof.
  induction p as [|x p IH]; intros [|y q] L; try discriminate; auto.
  cbn in L. destruct (IH q ltac:(lia)) as [->|[H|H]]; cbn; destruct (lt_eq_lt_dec x y) as [[]|]; subst; auto.
Qed.
Lemma lex_irrefl p : ~ lex_lt p p.
Proof. induction p as [|x p IH]; cbn; [auto|]. intros [H|[_ H]]; [lia|auto]. Qed.
Lemma lex_trans : forall a b c, lex_lt a b -> lex_lt b c -> lex_lt a c.
Proof.
  induction a as [|x a IH]; intros [|y b] [|z c] H1 H2; cbn in *; try tauto.
  destruct H1 as [H1|[-> H1]], H2 as [H2|[-> H2]]; [left; lia|left; lia|left; lia|right; eauto].
Qed.

Lemma rank_iff p q : Permutation p q -> NoDup p -> lex_lt p q <-> (rank p < rank q)%Z.
Proof.
  intros P N. split; [now apply rank_lex|]. intros R. destruct (@lex_total p q) as [->|[H|H]]; auto.
  - now apply Permutation_length.
  - lia.
  - apply rank_lex in H; [lia|now apply Permutation_sym|now apply (Permutation_NoDup P)].
Qed.
Lemma rank_inj p q : Permutation p q -> NoDup p -> rank p = rank q -> p = q.
Proof.
  intros P N R. destruct (@lex_total p q) as [|[H|H]]; auto.
  - now apply Permutation_length.
  - apply rank_lex in H; auto. lia.
  - apply rank_lex in H; [lia|now apply Permutation_sym|now apply (Permutation_NoDup P)].
Qed.

Lemma sorted_rank l : StronglySorted lt l -> rank l = 0%Z.
Proof.
  induction 1 as [|x l S IH F]; [reflexivity|]. cbn [rank]. rewrite IH, below_none; [lia|].
  intros y Hy. rewrite Forall_forall in F. specialize (F y Hy). lia.
Qed.
Lemma rev_sorted_rank l : StronglySorted gt l -> rank l = (fac (length l) - 1)%Z.
Proof.
  induction 1 as [|x l S IH F]; [reflexivity|]. cbn [rank length]. rewrite IH, below_all, fac_S; [lia|].
  intros y Hy. rewrite Forall_forall in F. specialize (F y Hy). lia.
Qed.

(* --- next_permutation --- *)
Lemma swap_in_some x l y l' : swap_in x l = Some (y, l') ->
  exists a b, l = a ++ y :: b /\ l' = a ++ x :: b /\ x < y /\ forall z, In z a -> z <= x.
Proof.
  revert y l'. induction l as [|z t IH]; intros y l' H; [discriminate|]. cbn [swap_in swap_down] in H.
  destruct (Nat.ltb_spec x z).
  - injection H as <- <-. exists [], t. cbn. intuition.
  - destruct (swap_in x t) as [[w t']|]; [|discriminate]. injection H as <- <-.
    destruct (IH w t' eq_refl) as (a & b & -> & -> & H1 & H2). exists (z :: a), b. split; [reflexivity|]. split; [reflexivity|]. split; [exact H1|]. intros w0 [<-|Hw]; auto.
Qed.
Lemma swap_in_none x l : swap_in x l = None -> forall z, In z l -> z <= x.
Proof.
  induction l as [|z t IH]; intros H; [intros ? []|]. cbn [swap_in swap_down] in H. destruct (Nat.ltb_spec x z); [discriminate|].
  destruct (swap_in x t) as [[]|]; [discriminate|]. intros w [->|Hw]; auto.
Qed.

Lemma SSorted_app_iff A (R : A -> A -> Prop) a b : StronglySorted R (a ++ b) <->
  StronglySorted R a /\ StronglySorted R b /\ forall x y, In x a -> In y b -> R x y.
Proof.
  induction a as [|z a IH]; cbn [app].
  - split; [intros H; repeat split; auto; [constructor|intros ? ? []]|tauto].
  - split.
    + intros H. inversion_clear H as [|? ? S F]. apply IH in S as (S1 & S2 & S3).
      rewrite Forall_forall in F. split; [constructor; auto; apply Forall_forall; intros; apply F, in_or_app; auto|].
      split; auto. intros x y [->|Hx] Hy; [apply F, in_or_app; auto|auto].
    + intros (S1 & S2 & S3). inversion_clear S1 as [|? ? S F]. constructor.
      * apply IH. split; auto. split; auto. intros; apply S3; auto. now right.
      * apply Forall_forall. intros y Hy. apply in_app_or in Hy as [Hy|Hy].
        { rewrite Forall_forall in F. auto. } { apply S3; auto. now left. }
Qed.

Lemma next_permutation_spec l : NoDup l ->
  let (l', ok) := next_permutation l in Permutation l l' /\
  if ok then rank l' = (rank l + 1)%Z else rank l = (fac (length l) - 1)%Z /\ StronglySorted lt l'.
Proof.
  induction l as [|x t IH]; intros N; [cbn; repeat constructor|]. inversion_clear N as [|? ? N1 N2].
  specialize (IH N2). cbn [next_permutation]. destruct (next_permutation t) as [t' [|]]; destruct IH as [P R].
  - split; [now constructor|]. cbn [rank]. rewrite (below_perm x P), (Permutation_length P), R. lia.
  - destruct R as [R S]. destruct (swap_in x t') as [[y t'']|] eqn:E.
    + apply swap_in_some in E as (a & b & -> & -> & L & A).
      assert (P' : Permutation t (y :: a ++ b)) by (rewrite P; apply Permutation_sym, Permutation_middle).
      assert (N3 : ~ In x (a ++ y :: b)) by (intros X; apply N1; apply (Permutation_in _ (Permutation_sym P)); exact X).
      split.
      { rewrite P'. rewrite perm_swap. constructor. apply Permutation_middle. }
      cbn [rank]. apply SSorted_app_iff in S as (S1 & S2 & S3). inversion_clear S2 as [|? ? S4 S5]. rewrite Forall_forall in S5.
      assert (So : StronglySorted lt (a ++ x :: b)).
      { apply SSorted_app_iff. split; auto. split.
        - constructor; auto. apply Forall_forall. intros z Hz. specialize (S5 z Hz). lia.
        - intros u v Hu [<-|Hv].
          + specialize (A u Hu). assert (u <> x); [|lia]. intros ->. apply N3, in_or_app. now left.
          + apply S3; auto. now right. }
      rewrite (sorted_rank So).
      assert (L1 : length (a ++ x :: b) = length t).
      { rewrite (Permutation_length P). rewrite !app_length. reflexivity. }
      rewrite L1, R.
      assert (B1 : below x t = Z.of_nat (length a)).
      { rewrite (below_perm x P), below_app, below_all, below_none; [lia| |].
        - intros z [<-|Hz]; [lia|]. specialize (S5 z Hz). lia.
        - intros z Hz. specialize (A z Hz). assert (z <> x); [|lia]. intros ->. apply N3, in_or_app. now left. }
      assert (B2 : below y (a ++ x :: b) = (Z.of_nat (length a) + 1)%Z).
      { rewrite below_app, below_all, below_cons, below_none.
        - destruct (Nat.ltb_spec x y); lia.
        - intros z Hz. specialize (S5 z Hz). lia.
        - intros z Hz. apply S3; auto. now left. }
      rewrite B1, B2. lia.
    + assert (M := @swap_in_none x t' E).
      assert (M' : forall z, In z t -> z < x).
      { intros z Hz. assert (z <= x) by (apply M, (Permutation_in _ P); exact Hz). assert (z <> x); [|lia].
        intros ->. contradiction. }
      split; [rewrite P; apply Permutation_cons_append|]. split.
      * cbn [rank length]. rewrite R, below_all, fac_S by exact M'. lia.
      * apply SSorted_app_iff. split; auto. split; [repeat constructor|].
        intros u v Hu [<-|[]]. apply M'. apply (Permutation_in _ (Permutation_sym P)). exact Hu.
Qed.

(* --- prev_permutation --- *)
Lemma swap_down_some x l y l' : swap_down x l = Some (y, l') ->
  exists a b, l = a ++ y :: b /\ l' = a ++ x :: b /\ y < x /\ forall z, In z a -> x <= z.
Proof.
  revert y l'. induction l as [|z t IH]; intros y l' H; [discriminate|]. cbn [swap_in swap_down] in H.
  destruct (Nat.ltb_spec z x).
  - injection H as <- <-. exists [], t. cbn. intuition.
  - destruct (swap_down x t) as [[w t']|]; [|discriminate]. injection H as <- <-.
    destruct (IH w t' eq_refl) as (a & b & -> & -> & H1 & H2). exists (z :: a), b. split; [reflexivity|]. split; [reflexivity|]. split; [exact H1|]. intros w0 [<-|Hw]; auto.
Qed.
Lemma swap_down_none x l : swap_down x l = None -> forall z, In z l -> x <= z.
Proof.
  induction l as [|z t IH]; intros H; [intros ? []|]. cbn [swap_in swap_down] in H. destruct (Nat.ltb_spec z x); [discriminate|].
  destruct (swap_down x t) as [[]|]; [discriminate|]. intros w [->|Hw]; auto.
Qed.

Lemma prev_permutation_spec l : NoDup l ->
  let (l', ok) := prev_permutation l in Permutation l l' /\
  if ok then rank l' = (rank l - 1)%Z else rank l = 0%Z /\ StronglySorted gt l'.
Proof.
  induction l as [|x t IH]; intros N; [cbn; repeat constructor|]. inversion_clear N as [|? ? N1 N2].
  specialize (IH N2). cbn [prev_permutation]. destruct (prev_permutation t) as [t' [|]]; destruct IH as [P R].
  - split; [now constructor|]. cbn [rank]. rewrite (below_perm x P), (Permutation_length P), R. lia.
  - destruct R as [R S]. destruct (swap_down x t') as [[y t'']|] eqn:E.
    + apply swap_down_some in E as (a & b & -> & -> & L & A).
      assert (P' : Permutation t (y :: a ++ b)) by (rewrite P; apply Permutation_sym, Permutation_middle).
      assert (N3 : ~ In x (a ++ y :: b)) by (intros X; apply N1; apply (Permutation_in _ (Permutation_sym P)); exact X).
      split.
      { rewrite P'. rewrite perm_swap. constructor. apply Permutation_middle. }
      cbn [rank]. apply SSorted_app_iff in S as (S1 & S2 & S3). inversion_clear S2 as [|? ? S4 S5]. rewrite Forall_forall in S5.
      assert (So : StronglySorted gt (a ++ x :: b)).
      { apply SSorted_app_iff. split; auto. split.
        - constructor; auto. apply Forall_forall. intros z Hz. specialize (S5 z Hz). lia.
        - intros u v Hu [<-|Hv].
          + specialize (A u Hu). assert (u <> x); [|lia]. intros ->. apply N3, in_or_app. now left.
          + apply S3; auto. now right. }
      rewrite (rev_sorted_rank So).
      assert (L1 : length (a ++ x :: b) = length t).
      { rewrite (Permutation_length P). rewrite !app_length. reflexivity. }
      rewrite L1, R.
      assert (B1 : below x t = (Z.of_nat (length b) + 1)%Z).
      { rewrite (below_perm x P), below_app, below_none, below_all; [cbn [length]; lia| |].
        - intros z [<-|Hz]; [lia|]. specialize (S5 z Hz). lia.
        - exact A. }
      assert (B2 : below y (a ++ x :: b) = Z.of_nat (length b)).
      { rewrite below_app, below_none, below_cons, below_all.
        - destruct (Nat.ltb_spec x y); lia.
        - intros z Hz. specialize (S5 z Hz). lia.
        - intros z Hz. specialize (A z Hz). lia. }
      rewrite B1, B2. lia.
    + assert (M := @swap_down_none x t' E).
      assert (M' : forall z, In z t -> x < z).
      { intros z Hz. assert (x <= z) by (apply M, (Permutation_in _ P); exact Hz). assert (z <> x); [|lia].
        intros ->. contradiction. }
      split; [rewrite P; apply Permutation_cons_append|]. split.
      * cbn [rank length]. rewrite R, below_none by (intros z Hz; specialize (M' z Hz); lia). lia.
      * apply SSorted_app_iff. split; auto. split; [repeat constructor|].
        intros u v Hu [<-|[]]. apply M'. apply (Permutation_in _ (Permutation_sym P)). exact Hu.
Qed.

Lemma sorted_perm_unique l l' : StronglySorted lt l -> StronglySorted lt l' -> Permutation l l' -> l = l'.
Proof.
  intros S S' P. apply rank_inj; auto.
  - clear -S. induction S as [|x l S IH F]; constructor; auto. intros H. rewrite Forall_forall in F. specialize (F x H). lia.
  - now rewrite !sorted_rank.
Qed.

(* --- every rank occurs --- *)
Lemma sorted_seq a n : StronglySorted lt (seq a n).
Proof.
  revert a. induction n as [|n IH]; intros a; cbn; constructor; auto. apply Forall_forall. intros y H. apply in_seq in H. lia.
Qed.
Lemma sorted_below s k : StronglySorted lt s -> k < length s -> below (nth k s 0) s = Z.of_nat k.
Proof.
  intros S. revert k. induction S as [|x s S IH F]; intros k Hk; [cbn in Hk; lia|]. rewrite Forall_forall in F.
  rewrite below_cons. destruct k as [|k]; cbn [nth].
  - rewrite Nat.ltb_irrefl, below_none; [lia|]. intros y Hy. specialize (F y Hy). lia.
  - cbn in Hk. rewrite IH by lia. assert (x < nth k s 0) by (apply F, nth_In; lia). destruct (Nat.ltb_spec x (nth k s 0)); lia.
Qed.
