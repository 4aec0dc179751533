(* Props_Group.v - property theorems about groups of rows. *)
From Verif Require Import Base M_Bell M_Change M_Math M_Row M_Extent M_Group Spec_Row Spec_Change Spec_Extent Spec_Cycle Spec_Group
  P_Math P_Row P_Cycle P_Order P_Named P_Perm P_Extent P_Extent2 P_Extent3 P_Group P_Group2 P_Group3.
Set Implicit Arguments.
Unset Strict Implicit.
Open Scope nat_scope.

(* C25: the constructors return (however many rows there are) and give exactly the group generated *)
Theorem C25_generate : forall gens, Forall row256 gens ->
  exists n, forall fuel, n <= fuel -> exists g,
    group_of fuel gens = Ret g /\ gb g = max_bells gens /\ wf_group g /\
    forall x, In x (gv g) <-> generated (max_bells gens) gens x.
Proof. exact group_of_spec. Qed.
Print Assumptions C25_generate.

Theorem C25_generate1 : forall r, row256 r -> exists n, forall fuel, n <= fuel -> exists g,
  group_of1 fuel r = Ret g /\ gb g = length r /\ wf_group g /\ forall x, In x (gv g) <-> generated (length r) [r] x.
Proof. exact group_of1_spec. Qed.
Print Assumptions C25_generate1.

Theorem C25_generate2 : forall r1 r2, row256 r1 -> row256 r2 -> exists n, forall fuel, n <= fuel -> exists g,
  group_of2 fuel r1 r2 = Ret g /\ gb g = Nat.max (length r1) (length r2) /\ wf_group g /\
  forall x, In x (gv g) <-> generated (Nat.max (length r1) (length r2)) [r1; r2] x.
Proof. exact group_of2_spec. Qed.
Print Assumptions C25_generate2.

(* the group generated is a group, contains the generators and lies in every group that does *)
Theorem C25_generated_least : forall b gens, b <= 256 -> Forall (fun g => is_row g /\ length g <= b) gens ->
  is_subgroup b (generated b gens) /\ (forall g, In g gens -> generated b gens (pad b g)) /\
  (forall S : list nat -> Prop, is_subgroup b S -> (forall g, In g gens -> S (pad b g)) -> forall x, generated b gens x -> S x).
Proof.
  intros b gens Hb F. rewrite Forall_forall in F. split; [|split].
  - destruct (@word_group b gens Hb F) as (G1 & G2 & G3 & G4). assert (X := fun x => @word_generated b gens Hb F x). split; [|split; [|split]].
    + intros x Hx. apply G1. now apply X.
    + now apply X.
    + intros x y Hx Hy. apply X. apply G3; now apply X.
    + intros x Hx. apply X in Hx. destruct (G4 x Hx) as (y & Hy & E). exists y. split; auto. now apply X.
  - intros g Hg S GS IS. auto.
  - intros S GS IS x Hx. now apply Hx.
Qed.
Print Assumptions C25_generated_least.

(* groups compare equal exactly when they have the same number of bells and the same rows *)
Theorem C25_equal : forall g g', wf_group g -> wf_group g' ->
  (group_eqb g g' = true <-> gb g = gb g' /\ forall x, In x (gv g) <-> In x (gv g')).
Proof. exact wf_group_eq. Qed.
Print Assumptions C25_equal.

(* hence the generators may be given in any order, repeated, or with products of them added *)
Theorem C25_any_generators : forall gens gens', Forall row256 gens -> Forall row256 gens' ->
  max_bells gens = max_bells gens' ->
  (forall x, In x gens' -> generated (max_bells gens) gens (pad (max_bells gens) x)) ->
  (forall x, In x gens -> generated (max_bells gens) gens' (pad (max_bells gens) x)) ->
  exists n, forall fuel, n <= fuel -> exists g g',
    group_of fuel gens = Ret g /\ group_of fuel gens' = Ret g' /\ group_eqb g g' = true.
Proof.
  intros gens gens' F F' M H H'.
  destruct (group_of_spec F) as [n1 H1]. destruct (group_of_spec F') as [n2 H2]. exists (n1 + n2). intros fuel Hf.
  destruct (H1 fuel ltac:(lia)) as (g1 & E1 & B1 & W1 & A1). destruct (H2 fuel ltac:(lia)) as (g2 & E2 & B2 & W2 & A2).
  exists g1, g2. split; auto. split; auto. apply wf_group_eq; auto. split; [lia|].
  assert (K : forall m l, Forall row256 l -> max_bells l = m -> is_subgroup m (generated m l)).
  { intros m l Fl Ml. rewrite Forall_forall in Fl. apply C25_generated_least.
    - rewrite <- Ml. apply max_bells_le. intros y Hy. apply Fl, Hy.
    - apply Forall_forall. intros y Hy. split; [apply Fl, Hy|]. rewrite <- Ml. now apply max_bells_ge. }
  intros x. rewrite A1, A2. rewrite <- M. split; intros Gx; apply Gx; auto.
Qed.
Print Assumptions C25_any_generators.

Example C25_case : exists g, group_of 100 [[1;2;0]; [0;1;3;2]] = Ret g /\ gb g = 4 /\ length (gv g) = 24 /\ go g = [[0;1;2;3]].
Proof. eexists. split; [vm_compute; reflexivity|]. split; [|split]; vm_compute; reflexivity. Qed.
Example C25_case2 : exists g, group_of2 10 [1;2;0;3;4] [0;1;2;4;3] = Ret g /\ length (gv g) = 6 /\ go g = [[0;1;2];[3;4]].
Proof. eexists. split; [vm_compute; reflexivity|]. split; vm_compute; reflexivity. Qed.

(* C26: the label of a coset is its first row in dictionary order *)
Theorem C26_left_least : forall g r, wf_group g -> row256 r ->
  exists l, lcoset_label g r = Ret l /\ is_least (fun y => exists x, In x (gv g) /\ y = comp r x) l.
Proof. exact lcoset_label_spec. Qed.
Print Assumptions C26_left_least.

Definition small_enough (g : group) : Prop :=
  (Z.of_nat (length (gv g)) < 109641728)%Z \/ (forall l, In l (go g) -> length l <= 12).

Theorem C26_right_least : forall g r, wf_group g -> row_b (gb g) r -> small_enough g ->
  exists l, rcoset_label g r = Ret l /\ is_least (fun y => exists x, In x (gv g) /\ y = comp x r) l.
Proof. exact rcoset_label_spec. Qed.
Print Assumptions C26_right_least.

Lemma comp_inv g x : wf_group g -> In x (gv g) -> exists y, In y (gv g) /\ comp y x = id_row (gb g) /\ comp x y = id_row (gb g).
Proof.
  intros W Hx. destruct (grp_inv W Hx) as (y & Hy & A). exists y. split; auto.
  destruct (group_row W Hx) as [Px Lx], (group_row W Hy) as [Py Ly]. split.
  - apply act_ext; [rewrite comp_length, id_length; lia|]. intros i _. rewrite act_comp by exact Px. now rewrite A, act_id.
  - apply act_ext; [rewrite comp_length, id_length; lia|]. intros i _. rewrite act_comp by exact Py. rewrite act_id. apply (act_inj Py). now rewrite A.
Qed.

(* two rows have the same label exactly when they lie in the same coset *)
Theorem C26_left_same : forall g r r', wf_group g -> row_b (gb g) r -> row_b (gb g) r' ->
  (lcoset_label g r = lcoset_label g r' <-> exists x, In x (gv g) /\ r' = comp r x).
Proof.
  intros g r r' W Hr Hr'. assert (Hb : gb g <= 256) by apply W.
  destruct (@lcoset_label_spec g r W (row_b_256 Hb Hr)) as (l & E & [(x & Hx & Ex) Lm]).
  destruct (@lcoset_label_spec g r' W (row_b_256 Hb Hr')) as (l' & E' & [(x' & Hx' & Ex') Lm']).
  rewrite E, E'. split.
  - intros Eq. injection Eq as <-. destruct (comp_inv W Hx') as (y & Hy & _ & A). exists (comp x y). split; [now apply grp_mul|].
    assert (Rx := group_row W Hx). assert (Rx' := group_row W Hx'). assert (Ry := group_row W Hy).
    rewrite <- (comp_assoc Hr Rx Ry), <- Ex, Ex', (comp_assoc Hr' Rx' Ry), A. symmetry. now apply comp_id_r.
  - intros (z & Hz & ->). f_equal. assert (Rz := group_row W Hz).
    destruct (comp_inv W Hz) as (y & Hy & A & B). assert (Ry := group_row W Hy).
    apply (@least_unique (fun u => exists v, In v (gv g) /\ u = comp r v)).
    + split; eauto.
    + split.
      * exists (comp z x'). split; [now apply grp_mul|]. rewrite Ex'. apply (comp_assoc Hr Rz). now apply group_row.
      * intros u (v & Hv & ->). apply Lm'. exists (comp y v). split; [now apply grp_mul|].
        assert (Rv := group_row W Hv).
        assert (Ryv : row_b (gb g) (comp y v)) by (apply (group_row W); now apply grp_mul).
        rewrite (@comp_assoc (gb g) r z (comp y v)) by auto.
        rewrite <- (@comp_assoc (gb g) z y v) by auto. rewrite B. now rewrite (comp_id_l Rv).
Qed.
Print Assumptions C26_left_same.

Theorem C26_right_same : forall g r r', wf_group g -> small_enough g -> row_b (gb g) r -> row_b (gb g) r' ->
  (rcoset_label g r = rcoset_label g r' <-> exists x, In x (gv g) /\ r' = comp x r).
Proof.
  intros g r r' W Sm Hr Hr'.
  destruct (@rcoset_label_spec g r W Hr Sm) as (l & E & [(x & Hx & Ex) Lm]).
  destruct (@rcoset_label_spec g r' W Hr' Sm) as (l' & E' & [(x' & Hx' & Ex') Lm']).
  rewrite E, E'. split.
  - intros Eq. injection Eq as <-. destruct (comp_inv W Hx') as (y & Hy & A & _). exists (comp y x). split; [now apply grp_mul|].
    assert (Rx := group_row W Hx). assert (Rx' := group_row W Hx'). assert (Ry := group_row W Hy).
    rewrite (comp_assoc Ry Rx Hr), <- Ex, Ex', <- (comp_assoc Ry Rx' Hr'), A. symmetry. now apply comp_id_l.
  - intros (z & Hz & ->). f_equal. assert (Rz := group_row W Hz).
    destruct (comp_inv W Hz) as (y & Hy & A & B). assert (Ry := group_row W Hy).
    apply (@least_unique (fun u => exists v, In v (gv g) /\ u = comp v r)).
    + split; eauto.
    + split.
      * exists (comp x' z). split; [now apply grp_mul|]. rewrite Ex'. symmetry. apply (@comp_assoc (gb g)); auto. now apply group_row.
      * intros u (v & Hv & ->). apply Lm'. exists (comp v y). split; [now apply grp_mul|].
        assert (Rv := group_row W Hv).
        rewrite (@comp_assoc (gb g) v y (comp z r)) by auto. rewrite <- (@comp_assoc (gb g) y z r) by auto. rewrite A. now rewrite (comp_id_l Hr).
Qed.
Print Assumptions C26_right_same.

(* the rows of the group itself are labelled by rounds *)
Lemma id_least b x : row_b b x -> x = id_row b \/ lex_lt (id_row b) x.
Proof.
  intros [P L]. destruct (@first_diff (id_row b) x) as [->|(p & Hp & A & D)]; [rewrite id_length; lia|now left|]. right.
  rewrite id_length in Hp. apply (@lex_first (id_row b) x p); rewrite ?id_length; auto.
  assert (Np : nth p (id_row b) 0 = p) by (unfold id_row; rewrite seq_nth; lia). rewrite Np in *.
  destruct (lt_dec p (nth p x 0)) as [|G]; auto. exfalso. set (q := nth p x 0) in *.
  assert (Hq : q < p) by lia. assert (Eq := A q Hq). unfold id_row in Eq at 1. rewrite seq_nth in Eq by lia. cbn in Eq.
  assert (Nd : NoDup x) by now apply is_row_iff in P. assert (q = p); [|lia].
  apply (proj1 (NoDup_nth x 0) Nd); lia.
Qed.

Theorem C26_rounds_labels_group : forall g x, wf_group g -> In x (gv g) ->
  lcoset_label g x = Ret (id_row (gb g)) /\ (small_enough g -> rcoset_label g x = Ret (id_row (gb g))).
Proof.
  intros g x W Hx. assert (Hb : gb g <= 256) by apply W. assert (Rx := group_row W Hx). destruct (comp_inv W Hx) as (y & Hy & A & B).
  split.
  - destruct (@lcoset_label_spec g x W (row_b_256 Hb Rx)) as (l & E & L). rewrite E. f_equal.
    apply (least_unique L). split; [exists y; auto|]. intros u (v & Hv & ->). apply id_least. apply (group_row W). now apply grp_mul.
  - intros Sm. destruct (@rcoset_label_spec g x W Rx Sm) as (l & E & L). rewrite E. f_equal.
    apply (least_unique L). split; [exists y; auto|]. intros u (v & Hv & ->). apply id_least. apply (group_row W). now apply grp_mul.
Qed.
Print Assumptions C26_rounds_labels_group.

(* refuted for rows on another number of bells: for the extent on 3 bells a row on 2 bells writes out of
   range and a row on 4 bells throws; for the trivial group on 4 bells a short row is its own label
   although the product, and the left label, have 4 bells *)
Theorem C26_other_bells_refuted :
  exists s3 t4, symmetric_group 6 3 0 3 = Ret s3 /\ wf_group s3 /\ trivial_group 10 4 = Ret t4 /\ wf_group t4 /\
    rcoset_label s3 [1;0] = UB /\ lcoset_label s3 [1;0] = Ret [0;1;2] /\
    rcoset_label s3 [0;1;3;2] = Throw RowInvalid /\ lcoset_label s3 [0;1;3;2] = Ret [0;1;3;2] /\
    rcoset_label t4 [1;0] = Ret [1;0] /\ lcoset_label t4 [1;0] = Ret [1;0;2;3].
Proof.
  destruct (@symmetric_group_spec 6 3 0 3) as (s3 & E3 & _ & W3 & _); [cbn; lia|cbn; lia|].
  destruct (@group_gen 4 [id_row 4]) as [n Hn]; [lia|discriminate|intros g [<-|[]]; split; [apply is_row_id|rewrite id_length; lia]|].
  assert (E4 : exists t4, trivial_group 10 4 = Ret t4 /\ t4 = mkGroup 4 [id_row 4] [[0];[1];[2];[3]]) by (eexists; split; vm_compute; reflexivity).
  destruct E4 as (t4 & E4 & T4).
  assert (W4 : wf_group t4).
  { destruct (@trivial_group_spec 4 ltac:(lia)) as [k Hk]. destruct (Hk (k + 10) ltac:(lia)) as (g & Eg & B & W & V).
    destruct (@with_orbits_spec 4 [id_row 4] ltac:(lia)) as (g' & Eg' & B' & V' & W').
    { rewrite <- V, <- B at 1. destruct W as (_ & G & _). rewrite V in *. rewrite B in *. exact G. }
    assert (g' = t4); [|now subst]. rewrite T4. vm_compute in Eg'. injection Eg' as <-. reflexivity. }
  exists s3, t4. split; auto. split; auto. split; auto. split; auto.
  vm_compute in E3. injection E3 as <-. subst t4. repeat split; vm_compute; reflexivity.
Qed.
Print Assumptions C26_other_bells_refuted.

Example C26_case : exists g, group_of2 10 [1;2;0;3;4] [0;1;2;4;3] = Ret g /\ rcoset_label g [4;2;0;3;1] = Ret [3;0;1;4;2] /\ lcoset_label g [4;2;0;3;1] = Ret [0;4;2;1;3].
Proof. eexists. split; [vm_compute; reflexivity|]. split; vm_compute; reflexivity. Qed.
Example C26_case_fast : exists g, symmetric_group 6 3 1 5 = Ret g /\ length (gv g) = 6 /\ small_enough g /\ rcoset_label g [4;3;0;2;1] = Ret [4;1;0;2;3].
Proof. eexists. split; [vm_compute; reflexivity|]. split; [reflexivity|]. split; [left; vm_compute; reflexivity|]. vm_compute; reflexivity. Qed.

(* C27: groups made from groups *)
Theorem C27_conjugate : forall g r, wf_group g -> row256 r -> length r <= gb g ->
  exists g', group_conjugate g r = Ret g' /\ gb g' = gb g /\ wf_group g' /\ length (gv g') = length (gv g) /\
    forall x, In x (gv g') <-> row_b (gb g) x /\ exists y, In y (gv g) /\ comp r x = comp y r.
Proof. exact conjugate_spec. Qed.
Print Assumptions C27_conjugate.

Theorem C27_even_subgroup : forall sym g, wf_group g ->
  exists g', even_subgroup sym g = Ret g' /\ gb g' = gb g /\ wf_group g' /\
    forall x, In x (gv g') <-> In x (gv g) /\ sign sym x = Ret 1%Z.
Proof. exact even_subgroup_spec. Qed.
Print Assumptions C27_even_subgroup.

Theorem C27_direct_product : forall a b, wf_group a -> wf_group b -> gb a + gb b <= 256 -> exists n, forall fuel, n <= fuel ->
  exists g, direct_product fuel a b = Ret g /\ gb g = gb a + gb b /\ wf_group g /\
    forall z, In z (gv g) <-> exists x y, In x (gv a) /\ In y (gv b) /\ z = join (gb a) x y.
Proof. exact direct_product_spec. Qed.
Print Assumptions C27_direct_product.

Theorem C27_invariants : forall g, wf_group g ->
  exists l, invariants g = Ret l /\ NoDup l /\ forall j, In j l <-> j < gb g /\ forall x, In x (gv g) -> act x j = j.
Proof. exact invariants_spec. Qed.
Print Assumptions C27_invariants.

Theorem C27_symmetric : forall fuel nw nh nt, nh + nw <= total nw nh nt <= 256 -> (fac nw <= Z.of_nat fuel)%Z ->
  exists g, symmetric_group fuel nw nh nt = Ret g /\ gb g = total nw nh nt /\ wf_group g /\
    forall x, In x (gv g) <-> in_extent nw nh (total nw nh nt) x.
Proof. exact symmetric_group_spec. Qed.
Print Assumptions C27_symmetric.

Theorem C27_alternating : forall fuel sym nw nh nt, nh + nw <= total nw nh nt <= 256 -> (fac nw <= Z.of_nat fuel)%Z ->
  exists g, alternating_group fuel sym nw nh nt = Ret g /\ gb g = total nw nh nt /\ wf_group g /\
    forall x, In x (gv g) <-> in_extent nw nh (total nw nh nt) x /\ sign sym x = Ret 1%Z.
Proof. exact alternating_group_spec. Qed.
Print Assumptions C27_alternating.

Theorem C27_trivial : forall nt, nt <= 256 -> exists n, forall fuel, n <= fuel ->
  exists g, trivial_group fuel nt = Ret g /\ gb g = nt /\ wf_group g /\ gv g = [id_row nt].
Proof. exact trivial_group_spec. Qed.
Print Assumptions C27_trivial.

Theorem C27_cyclic : forall nw nh nt, 0 < nw -> nh + nw <= total nw nh nt <= 256 -> exists n, forall fuel, n <= fuel ->
  exists g, cyclic_c fuel nw nh nt = Ret g /\ gb g = total nw nh nt /\ wf_group g /\ length (gv g) = nw /\
    forall x, In x (gv g) <-> rotations nw nh (total nw nh nt) x.
Proof. exact cyclic_c_spec. Qed.
Print Assumptions C27_cyclic.

Theorem C27_dihedral : forall nw nh nt, 0 < nw -> nh + nw <= total nw nh nt <= 256 -> exists n, forall fuel, n <= fuel ->
  exists g, dihedral_c fuel nw nh nt = Ret g /\ gb g = total nw nh nt /\ wf_group g /\ (3 <= nw -> length (gv g) = 2 * nw) /\
    forall x, In x (gv g) <-> dihedrals nw nh (total nw nh nt) x.
Proof. exact dihedral_c_spec. Qed.
Print Assumptions C27_dihedral.

Example C27_case : exists a b g c, cyclic_c 20 3 0 0 = Ret a /\ group_of1 5 [1;0] = Ret b /\ direct_product 20 a b = Ret g /\
  gb g = 5 /\ length (gv g) = 6 /\ invariants g = Ret [] /\ invariants b = Ret [] /\
  group_conjugate b [1;0] = Ret b /\ even_subgroup default_symtab g = Ret c /\ length (gv c) = 3 /\ invariants c = Ret [3;4].
Proof. do 4 eexists. split; [vm_compute; reflexivity|]. split; [vm_compute; reflexivity|]. split; [vm_compute; reflexivity|].
  repeat (split; [vm_compute; reflexivity|]). vm_compute; reflexivity. Qed.
Example C27_case2 : exists g, dihedral_c 40 4 1 6 = Ret g /\ length (gv g) = 8 /\ invariants g = Ret [0;5] /\ In [0;3;4;1;2;5] (gv g).
Proof. eexists. split; [vm_compute; reflexivity|]. split; [vm_compute; reflexivity|]. split; [vm_compute; reflexivity|]. vm_compute. tauto. Qed.
