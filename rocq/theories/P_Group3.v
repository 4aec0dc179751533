(* P_Group3.v - groups made from groups, and the named groups. *)
From Verif Require Import Base M_Bell M_Change M_Math M_Row M_Extent M_Group Spec_Row Spec_Change Spec_Extent Spec_Cycle Spec_Group
  P_Math P_Row P_Cycle P_Order P_Named P_Perm P_Extent P_Extent2 P_Extent3 P_Group P_Group2.
Set Implicit Arguments.
Unset Strict Implicit.
Open Scope nat_scope.

(* --- conjugate --- *)
Lemma conj_rows g r ri : row256 r -> row256 ri -> gb g <= 256 -> (forall x, In x (gv g) -> row_b (gb g) x) ->
  forM (gv g) (fun v i => a <- mul ri i ;; c <- mul a r ;; Ret (v ++ [c])) [] = Ret (map (fun x => comp (comp ri x) r) (gv g)).
Proof.
  intros Hr Hi Hb Hv. rewrite forM_ext with (b2 := fun v i => c <- (a <- mul ri i ;; mul a r) ;; Ret (v ++ [c])).
  2:{ intros s x _. destruct (mul ri x); reflexivity. }
  apply (@map_loop (fun i => a <- mul ri i ;; mul a r)). intros x Hx.
  assert (Rx : row256 x) by (apply (row_b_256 Hb); auto).
  rewrite mul_comp by assumption. cbn [bind]. apply mul_comp; auto. split; [apply comp_row; [apply Hi|apply Rx]|].
  rewrite comp_length. destruct Hi, Rx. lia.
Qed.

Lemma conj_eq b r ri x y : is_row r -> is_row ri -> length r <= b -> length ri = length r ->
  (forall i, act ri (act r i) = i) -> (forall i, act r (act ri i) = i) -> row_b b x -> row_b b y ->
  (x = comp (comp ri y) r <-> comp r x = comp y r).
Proof.
  intros Pr Pi Lr Li A B [Px Lx] [Py Ly].
  assert (Pc : is_row (comp ri y)) by now apply comp_row. split.
  - intros ->. apply act_ext; [rewrite !comp_length; lia|]. intros i _.
    rewrite (@act_comp r _ i) by now apply comp_row. rewrite !act_comp by assumption. now rewrite B.
  - intros E. apply act_ext; [rewrite !comp_length; lia|]. intros i _. rewrite !act_comp by assumption.
    rewrite <- (@act_comp y r) by assumption. rewrite <- E, act_comp by assumption. now rewrite A.
Qed.

Lemma conjugate_spec g r : wf_group g -> row256 r -> length r <= gb g ->
  exists g', group_conjugate g r = Ret g' /\ gb g' = gb g /\ wf_group g' /\ length (gv g') = length (gv g) /\
    forall x, In x (gv g') <-> row_b (gb g) x /\ exists y, In y (gv g) /\ comp r x = comp y r.
Proof.
  intros W Hr Lr. assert (Hb : gb g <= 256) by apply W. destruct Hr as [Pr L256]. set (b := gb g) in *.
  destruct (@inverse_spec r) as (ri & Ei & [Pi _] & Li & A & B); [split; auto|].
  assert (Rw : forall x, In x (gv g) -> row_b b x) by (intros x; apply (group_row W)).
  unfold group_conjugate. rewrite Ei. cbn [bind]. rewrite conj_rows; auto; [|now split|split; auto; lia]. cbn [bind].
  set (h := fun x => comp (comp ri x) r).
  assert (Hh : forall x, row_b b x -> row_b b (h x)).
  { intros x [Px Lx]. split; [apply comp_row; auto; now apply comp_row|]. unfold h. rewrite !comp_length. lia. }
  assert (Inj : forall x y, row_b b x -> row_b b y -> h x = h y -> x = y).
  { intros x y Hx Hy E. destruct Hx as [Px Lx], Hy as [Py Ly]. apply act_ext; [lia|]. intros i _.
    assert (X : act (h x) (act ri i) = act (h y) (act ri i)) by now rewrite E.
    unfold h in X. assert (is_row (comp ri x)) by now apply comp_row. assert (is_row (comp ri y)) by now apply comp_row.
    rewrite !act_comp in X by assumption. rewrite B in X. now apply (act_inj Pi) in X. }
  set (w := std_sort row_ltb (map h (gv g))).
  assert (Pw : Permutation w (map h (gv g))) by apply std_sort_perm.
  assert (Iw : forall x, In x w <-> row_b b x /\ exists y, In y (gv g) /\ comp r x = comp y r).
  { intros x. split.
    - intros H. apply (Permutation_in _ Pw) in H. apply in_map_iff in H as (y & E & Hy). symmetry in E.
      assert (Rx : row_b b x) by (rewrite E; apply Hh, Rw, Hy). split; auto. exists y. split; auto.
      apply (@conj_eq b r ri x y); auto.
    - intros (Rx & y & Hy & E). apply (@conj_eq b r ri x y) in E; auto. apply (Permutation_in _ (Permutation_sym Pw)). apply in_map_iff. exists y. auto. }
  destruct (@with_orbits_spec b w Hb) as (g' & E & Bg & V & Wg).
  - split.
    + apply row_sort_sorted. apply NoDup_map_inj; [|apply row_sorted_nodup, W]. intros x y Hx Hy. apply Inj; now apply Rw.
    + apply subset_group; auto.
      * intros x Hx. now apply Iw.
      * apply Iw. split; [apply row_b_id|]. exists (id_row b). split; [apply W|].
        apply act_ext; [rewrite !comp_length; lia|]. intros i _. rewrite !act_comp by (auto; apply is_row_id). now rewrite !act_id.
      * intros x y Hx Hy. apply Iw in Hx as (Rx & x' & Hx' & Ex). apply Iw in Hy as (Ry & y' & Hy' & Ey). apply Iw. split.
        -- apply comp_row_b; auto; [apply Ry|]. destruct Ry as [_ ->]. lia.
        -- exists (comp x' y'). split; [now apply grp_mul|].
           destruct Rx as [Px Lx], Ry as [Py Ly]. destruct (Rw x' Hx') as [Px' Lx'], (Rw y' Hy') as [Py' Ly'].
           apply act_ext; [rewrite !comp_length; lia|]. intros i _.
           rewrite (@act_comp r _ i) by now apply comp_row. rewrite (@act_comp x y) by assumption.
           rewrite <- (@act_comp r x) by assumption. rewrite Ex, act_comp by assumption.
           rewrite <- (@act_comp r y) by assumption. rewrite Ey. rewrite !act_comp by (auto; now apply comp_row). reflexivity.
  - exists g'. split; [exact E|]. split; auto. split; auto. split.
    + rewrite V. transitivity (length (map h (gv g))); [now apply Permutation_length|apply map_length].
    + intros x. rewrite V. apply Iw.
Qed.

(* --- the even rows --- *)
Lemma filter_loop (f : row -> outcome Z) (p : row -> bool) v : (forall x, In x v -> exists s, f x = Ret s /\ (s =? 1)%Z = p x) ->
  forM v (fun l i => s <- f i ;; Ret (if (s =? 1)%Z then l ++ [i] else l)) [] = Ret (filter p v).
Proof.
  intros H. assert (G : forall acc, forM v (fun l i => s <- f i ;; Ret (if (s =? 1)%Z then l ++ [i] else l)) acc = Ret (acc ++ filter p v)).
  { induction v as [|a v IH]; intros acc; cbn [forM filter]; [now rewrite app_nil_r|].
    destruct (H a (or_introl eq_refl)) as (s & E & Es). rewrite E. cbn [bind]. rewrite Es.
    rewrite IH by (intros; apply H; now right). destruct (p a); [now rewrite <- app_assoc|reflexivity]. }
  apply (G []).
Qed.

Definition evenb sym (x : list nat) : bool := match sign sym x with Ret s => (s =? 1)%Z | _ => false end.
Lemma evenb_iff sym x : evenb sym x = true <-> sign sym x = Ret 1%Z.
Proof.
  unfold evenb. destruct (sign sym x); try (split; discriminate). rewrite Z.eqb_eq. split; congruence.
Qed.
Lemma sort_sorted_id l : StronglySorted lex_lt l -> std_sort row_ltb l = l.
Proof.
  intros S. apply row_sorted_ext; auto.
  - apply row_sort_sorted. now apply row_sorted_nodup.
  - intros x. split; apply Permutation_in; [|symmetry]; apply std_sort_perm.
Qed.
Lemma sorted_filter A (lt' : A -> A -> Prop) p (l : list A) : StronglySorted lt' l -> StronglySorted lt' (filter p l).
Proof.
  induction 1 as [|a l S IH F]; cbn; [constructor|]. destruct (p a); auto. constructor; auto.
  rewrite Forall_forall in *. intros x Hx. apply filter_In in Hx as [Hx _]. auto.
Qed.

Lemma even_closed sym b x y : b <= 256 -> row_b b x -> row_b b y -> sign sym x = Ret 1%Z -> sign sym y = Ret 1%Z -> sign sym (comp x y) = Ret 1%Z.
Proof.
  intros Hb Hx Hy Ex Ey. assert (Rx := row_b_256 Hb Hx). assert (Ry := row_b_256 Hb Hy).
  destruct (@sign_mul sym x y (comp x y) Rx Ry (mul_comp Rx Ry)) as (sx & sy & A & B & C).
  rewrite A in Ex. rewrite B in Ey. injection Ex as ->. injection Ey as ->. exact C.
Qed.

Lemma even_subgroup_spec sym g : wf_group g ->
  exists g', even_subgroup sym g = Ret g' /\ gb g' = gb g /\ wf_group g' /\
    forall x, In x (gv g') <-> In x (gv g) /\ sign sym x = Ret 1%Z.
Proof.
  intros W. assert (Hb : gb g <= 256) by apply W. set (b := gb g) in *.
  assert (Rw : forall x, In x (gv g) -> row_b b x) by (intros x; apply (group_row W)).
  unfold even_subgroup. rewrite (@filter_loop (sign sym) (evenb sym)).
  2:{ intros x Hx. destruct (sign_spec sym (proj1 (Rw x Hx))) as (cs & _ & E). exists (sgn_of (length x) (length cs)). split; auto.
      unfold evenb. now rewrite E. }
  cbn [bind]. assert (Sf : StronglySorted lex_lt (filter (evenb sym) (gv g))) by (apply sorted_filter; apply W).
  rewrite sort_sorted_id by exact Sf.
  assert (Iw : forall x, In x (filter (evenb sym) (gv g)) <-> In x (gv g) /\ sign sym x = Ret 1%Z).
  { intros x. rewrite filter_In, evenb_iff. reflexivity. }
  destruct (@with_orbits_spec b (filter (evenb sym) (gv g)) Hb) as (g' & E & Bg & V & Wg).
  - split; auto. apply subset_group; auto.
    + intros x Hx. apply Rw. now apply Iw.
    + apply Iw. split; [apply W|]. rewrite <- rounds_id by exact Hb. now apply sign_rounds.
    + intros x y Hx Hy. apply Iw in Hx as [Hx Sx]. apply Iw in Hy as [Hy Sy]. apply Iw. split; [now apply grp_mul|]. apply even_closed with (b := b); auto.
  - exists g'. split; [exact E|]. split; auto. split; auto. intros x. rewrite V. apply Iw.
Qed.

(* --- invariants --- *)
Lemma invariants_spec g : wf_group g ->
  exists l, invariants g = Ret l /\ NoDup l /\ forall j, In j l <-> j < gb g /\ forall x, In x (gv g) -> act x j = j.
Proof.
  intros W. unfold invariants.
  assert (Emp : (if negb (gb g =? 0) && (length (go g) =? 0) then calc_orbit_space (gb g) (gv g) else Ret (go g)) = Ret (go g)).
  { destruct (Nat.eqb_spec (gb g) 0) as [|N]; [reflexivity|]. destruct (Nat.eqb_spec (length (go g)) 0) as [E|]; [|reflexivity].
    destruct (@orbit_cover g W 0 ltac:(lia)) as (l & Hl & _). destruct (go g); [destruct Hl|discriminate]. }
  rewrite Emp. cbn [bind].
  destruct (@forM_inv _ _ (fun done rv => NoDup rv /\ forall j, In j rv <-> In [j] done) (go g)
     (fun rv i => if length i =? 1 then b <- vget i 0 ;; Ret (rv ++ [b]) else Ret rv) []) as (l & E & N & A).
  - split; [constructor|]. intros j. split; intros [].
  - intros done i rest rv Eo (N & A). destruct (Nat.eqb_spec (length i) 1) as [L1|L1].
    + destruct i as [|a [|? ?]]; try discriminate. cbn [vget nth_error bind]. eexists. split; [reflexivity|]. split.
      * apply NoDup_app_iff. split; auto. split; [repeat constructor; intros []|]. intros z Hz [<-|[]]. apply A in Hz.
        assert (Nd : NoDup (go g)) by apply W. rewrite Eo in Nd. apply NoDup_remove_2 in Nd. apply Nd, in_or_app. now left.
      * intros j. rewrite !in_app_iff. rewrite A. split; (intros [H|H]; [now left|right]).
        -- destruct H as [->|[]]. now left.
        -- destruct H as [H|[]]. left. congruence.
    + eexists. split; [reflexivity|]. split; auto. intros j. rewrite A, in_app_iff. split; [now left|]. intros [H|[->|[]]]; auto. now cbn in L1.
  - exists l. split; auto. split; auto. intros j. rewrite A. split.
    + intros H. split; [apply (@orbit_bound g W [j] j H); now left|]. intros x Hx.
      assert (X : In (act x j) [j]) by (apply (@orbit_mem g W [j] j (act x j) H ltac:(now left)); exists x; auto). destruct X as [X|[]]; auto.
    + intros [Hj F]. destruct (@orbit_cover g W j Hj) as (l' & Hl & Hjl).
      replace [j] with l'; auto. apply nat_sorted_ext; [now apply (orbit_sorted W)|repeat constructor|].
      intros k. rewrite (@orbit_mem g W l' j k Hl Hjl). cbn [In]. split.
      * intros (x & Hx & <-). left. symmetry. auto.
      * intros [<-|[]]. apply (orbit_refl W).
Qed.

(* --- named groups --- *)
Lemma in_extent_group nw nh nt : nh + nw <= nt -> nt <= 256 -> is_subgroup nt (in_extent nw nh nt).
Proof.
  intros H H256. apply subset_group; [exact H256| | |].
  - intros x (P & L & _). split; auto.
  - split; [apply is_row_id|]. split; [apply id_length|]. intros; apply act_id.
  - intros x y (Px & Lx & Ax) (Py & Ly & Ay). split; [now apply comp_row|]. split; [rewrite comp_length; lia|].
    intros i Hi. rewrite act_comp by exact Py. rewrite Ay by exact Hi. now apply Ax.
Qed.

Lemma symmetric_group_spec fuel nw nh nt : nh + nw <= total nw nh nt <= 256 -> (fac nw <= Z.of_nat fuel)%Z ->
  exists g, symmetric_group fuel nw nh nt = Ret g /\ gb g = total nw nh nt /\ wf_group g /\
    forall x, In x (gv g) <-> in_extent nw nh (total nw nh nt) x.
Proof.
  intros [H H256] Hf. unfold symmetric_group. fold (total nw nh nt). set (m := total nw nh nt) in *.
  destruct (rounds_in_extent H H256) as [I R].
  destruct (@ei_traverse_spec nw nh m (mkEI 0 0 0 true []) H eq_refl fuel (rounds m) I) as (l & E & S & A); [lia|].
  assert (A' : forall x, In x l <-> in_extent nw nh m x).
  { intros x. rewrite A. split; [tauto|]. intros Ix. split; auto. assert (X := erank_range H Ix). lia. }
  unfold ei_begin. rewrite E. cbn [bind]. destruct (@with_orbits_spec m l H256) as (g & Eg & B & V & W).
  - split; auto. destruct (in_extent_group H H256) as (G1 & G2 & G3 & G4). split; [|split; [|split]].
    + intros x Hx. apply G1, A', Hx.
    + apply A', G2.
    + intros x y Hx Hy. apply A'. apply G3; now apply A'.
    + intros x Hx. apply A' in Hx. destruct (G4 x Hx) as (y & Hy & Ey). exists y. split; auto. now apply A'.
  - exists g. split; [exact Eg|]. split; auto. split; auto. intros x. rewrite V. apply A'.
Qed.

Lemma alternating_group_spec fuel sym nw nh nt : nh + nw <= total nw nh nt <= 256 -> (fac nw <= Z.of_nat fuel)%Z ->
  exists g, alternating_group fuel sym nw nh nt = Ret g /\ gb g = total nw nh nt /\ wf_group g /\
    forall x, In x (gv g) <-> in_extent nw nh (total nw nh nt) x /\ sign sym x = Ret 1%Z.
Proof.
  intros [H H256] Hf. unfold alternating_group. fold (total nw nh nt). set (m := total nw nh nt) in *.
  destruct (rounds_in_extent H H256) as [I R].
  destruct (@ici_traverse_spec sym nw nh m (mkEI 0 0 0 true []) H H256 eq_refl fuel (rounds m) I) as (l & E & S & A); [now apply sign_rounds|lia|].
  assert (A' : forall x, In x l <-> in_extent nw nh m x /\ sign sym x = Ret 1%Z).
  { intros x. rewrite A. split; [tauto|]. intros Ix. split; auto. assert (X := erank_range H (proj1 Ix)). lia. }
  unfold ei_begin. rewrite E. cbn [bind]. destruct (@with_orbits_spec m l H256) as (g & Eg & B & V & W).
  - split; auto. destruct (in_extent_group H H256) as (G1 & G2 & G3 & _). apply subset_group; auto.
    + intros x Hx. apply G1. now apply A'.
    + apply A'. split; auto. rewrite <- rounds_id by exact H256. now apply sign_rounds.
    + intros x y Hx Hy. apply A' in Hx as [Ix Sx]. apply A' in Hy as [Iy Sy]. apply A'. split; [now apply G3|].
      apply even_closed with (b := m); auto; now apply G1.
  - exists g. split; [exact Eg|]. split; auto. split; auto. intros x. rewrite V. apply A'.
Qed.

Lemma trivial_group_spec nt : nt <= 256 -> exists n, forall fuel, n <= fuel ->
  exists g, trivial_group fuel nt = Ret g /\ gb g = nt /\ wf_group g /\ gv g = [id_row nt].
Proof.
  intros H. unfold trivial_group. destruct (@group_of1_spec (rounds nt)) as [n Hn]; [now apply rounds_row256|].
  exists n. intros fuel Hf. destruct (Hn fuel Hf) as (g & E & B & W & A). rewrite rounds_id in * by exact H. rewrite id_length in *.
  exists g. split; auto. split; auto. split; auto. apply row_sorted_ext; [apply W|repeat constructor|].
  intros x. rewrite A. split.
  - intros G. apply (G (fun y => In y [id_row nt])).
    + apply subset_group; [exact H| | |].
      * intros y [<-|[]]. apply row_b_id.
      * now left.
      * intros y z [<-|[]] [<-|[]]. left. symmetry. apply comp_id_l, row_b_id.
    + intros y [<-|[]]. left. unfold pad, id_row. rewrite seq_length, Nat.sub_diag. cbn [seq]. now rewrite app_nil_r.
  - intros [<-|[]] S Sg _. apply Sg.
Qed.

(* --- rotations and reflections --- *)
Lemma rot_in nw nh k i : nh <= i < nh + nw -> rot nw nh k i = nh + (i - nh + k) mod nw.
Proof. intros H. unfold rot. destruct (Nat.leb_spec nh i), (Nat.ltb_spec i (nh + nw)); cbn [andb]; lia. Qed.
Lemma rot_out nw nh k i : ~ (nh <= i < nh + nw) -> rot nw nh k i = i.
Proof. intros H. unfold rot. destruct (Nat.leb_spec nh i), (Nat.ltb_spec i (nh + nw)); cbn [andb]; lia. Qed.
Lemma flip_in nw nh i : nh <= i < nh + nw -> flip nw nh i = nh + (nw - 1 - (i - nh)).
Proof. intros H. unfold flip. destruct (Nat.leb_spec nh i), (Nat.ltb_spec i (nh + nw)); cbn [andb]; lia. Qed.
Lemma flip_out nw nh i : ~ (nh <= i < nh + nw) -> flip nw nh i = i.
Proof. intros H. unfold flip. destruct (Nat.leb_spec nh i), (Nat.ltb_spec i (nh + nw)); cbn [andb]; lia. Qed.
Lemma rot_range nw nh k i : nh <= i < nh + nw -> nh <= rot nw nh k i < nh + nw.
Proof. intros H. rewrite rot_in by exact H. assert (X := Nat.mod_upper_bound (i - nh + k) nw ltac:(lia)). lia. Qed.
Lemma rot_rot nw nh k l i : rot nw nh k (rot nw nh l i) = rot nw nh (k + l) i.
Proof.
  destruct (le_lt_dec nh i) as [A|A]; [|rewrite !rot_out by (try rewrite rot_out; lia); reflexivity].
  destruct (lt_dec i (nh + nw)) as [B|B]; [|rewrite !rot_out by (try rewrite rot_out; lia); reflexivity].
  rewrite (@rot_in nw nh k) by (apply rot_range; lia). rewrite !rot_in by lia.
  replace (nh + (i - nh + l) mod nw - nh) with ((i - nh + l) mod nw) by lia. rewrite Nat.add_mod_idemp_l by lia. f_equal. f_equal. lia.
Qed.
Lemma rot_0 nw nh i : rot nw nh 0 i = i.
Proof. destruct (le_lt_dec nh i); [|apply rot_out; lia]. destruct (lt_dec i (nh + nw)); [|apply rot_out; lia]. rewrite rot_in by lia. rewrite Nat.mod_small; lia. Qed.
Lemma rot_mod nw nh k i : 0 < nw -> rot nw nh (k mod nw) i = rot nw nh k i.
Proof.
  intros H. destruct (le_lt_dec nh i); [|rewrite !rot_out; lia]. destruct (lt_dec i (nh + nw)); [|rewrite !rot_out; lia].
  rewrite !rot_in by lia. now rewrite Nat.add_mod_idemp_r by lia.
Qed.
Lemma flip_range nw nh i : nh <= i < nh + nw -> nh <= flip nw nh i < nh + nw.
Proof. intros H. rewrite flip_in by exact H. lia. Qed.
Lemma flip_flip nw nh i : flip nw nh (flip nw nh i) = i.
Proof.
  destruct (le_lt_dec nh i); [|rewrite !flip_out by (try rewrite flip_out; lia); lia].
  destruct (lt_dec i (nh + nw)); [|rewrite !flip_out by (try rewrite flip_out; lia); lia].
  rewrite (@flip_in nw nh (flip nw nh i)) by (apply flip_range; lia). rewrite flip_in by lia. lia.
Qed.
Lemma flip_rot nw nh k i : flip nw nh (rot nw nh k i) = rot nw nh (k * (nw - 1)) (flip nw nh i).
Proof.
  destruct (le_lt_dec nh i); [|rewrite !flip_out, !rot_out by (try rewrite rot_out; lia); lia].
  destruct (lt_dec i (nh + nw)); [|rewrite !flip_out, !rot_out by (try rewrite rot_out; lia); lia].
  rewrite flip_in by (apply rot_range; lia). rewrite rot_in by lia. rewrite rot_in by (apply flip_range; lia). rewrite flip_in by lia.
  f_equal. set (j := i - nh). assert (Hj : j < nw) by lia.
  replace (nh + (nw - 1 - j) - nh) with (nw - 1 - j) by lia. replace (nh + (j + k) mod nw - nh) with ((j + k) mod nw) by lia.
  assert (D := Nat.div_mod (j + k) nw ltac:(lia)). assert (U := Nat.mod_upper_bound (j + k) nw ltac:(lia)).
  set (q := (j + k) / nw) in *. set (v := (j + k) mod nw) in *.
  assert (Hq : q <= k) by nia.
  replace (nw - 1 - j + k * (nw - 1)) with ((nw - 1 - v) + (k - q) * nw) by nia.
  rewrite Nat.mod_add by lia. rewrite Nat.mod_small; lia.
Qed.
Lemma rot_ge nw nh k m i : nh + nw <= m -> m <= i -> rot nw nh k i = i.
Proof. intros. apply rot_out. lia. Qed.

Lemma row_by_act m x f : length x = m -> (forall i, i < m -> act x i = f i) -> (forall i, m <= i -> f i = i) -> forall i, act x i = f i.
Proof. intros L A B i. destruct (lt_dec i m); auto. rewrite act_ge by lia. symmetry. apply B. lia. Qed.

(* the generators *)
Lemma cyclic_rot nw nh k : nh + nw <= 256 -> forall i, act (cyclic (nh + nw) nh (Z.of_nat k)) i = rot nw nh k i.
Proof.
  intros H i. destruct (cyclic_spec nh (Z.of_nat k) H) as [_ A]. rewrite A. unfold rot.
  destruct (Nat.leb_spec nh i), (Nat.ltb_spec i (nh + nw)); cbn [andb]; auto.
  replace (nh + nw - nh) with nw by lia. rewrite <- Nat2Z.inj_add, <- Nat2Z.inj_mod, Nat2Z.id. reflexivity.
Qed.
Lemma reverse_flip nw nh nt : nh + nw <= total nw nh nt <= 256 ->
  exists r, reverse_rounds3 nw nh nt = Ret r /\ row_b (total nw nh nt) r /\ forall i, act r i = flip nw nh i.
Proof.
  intros [H H256]. assert (H0 : nt = 0 \/ nh + nw <= nt) by (unfold total in H; destruct (Nat.eqb_spec nt 0); auto).
  assert (H1 : nt <= 256) by (unfold total in H256; destruct (Nat.eqb_spec nt 0); lia).
  destruct (@reverse_rounds3_full nw nh nt H0 ltac:(lia) H1) as (r & E & [P _] & Er). exists r. split; auto.
  fold (total nw nh nt) in Er. set (m := total nw nh nt) in *.
  assert (L : length r = m) by (rewrite Er, !app_length, rev_length, !seq_length; lia).
  split; [split; auto|]. apply (@row_by_act m); auto.
  2:{ intros i Hi. apply flip_out. lia. }
  intros i Hi. rewrite (@act_nth r i 0) by lia. rewrite Er.
  destruct (lt_dec i nh) as [A|A]; [rewrite app_nth1 by (rewrite seq_length; lia); rewrite seq_nth, flip_out by lia; lia|].
  rewrite app_nth2 by (rewrite seq_length; lia). rewrite seq_length.
  destruct (lt_dec i (nh + nw)) as [B|B].
  - rewrite app_nth1 by (rewrite rev_length, seq_length; lia). rewrite rev_nth by (rewrite seq_length; lia). rewrite seq_length, seq_nth by lia.
    rewrite flip_in by lia. lia.
  - rewrite app_nth2 by (rewrite rev_length, seq_length; lia). rewrite rev_length, !seq_length, seq_nth by lia. rewrite flip_out by lia. lia.
Qed.

Lemma generated_is b gens (T : list nat -> Prop) : is_subgroup b T -> (forall g, In g gens -> T (pad b g)) ->
  (forall U, is_subgroup b U -> (forall g, In g gens -> U (pad b g)) -> forall x, T x -> U x) ->
  forall x, generated b gens x <-> T x.
Proof. intros G I L x. split; [intros H; now apply H|]. intros Tx U GU IU. now apply (L U). Qed.

Lemma pad_row_b b x : is_row x -> length x <= b -> row_b b (pad b x).
Proof. intros P L. split; [now apply is_row_pad|]. rewrite pad_length. lia. Qed.
Lemma row_b_ext b x y : row_b b x -> row_b b y -> (forall i, act x i = act y i) -> x = y.
Proof. intros [_ L] [_ L'] H. apply act_ext; [lia|auto]. Qed.

Lemma rotations_mod nw nh m x k : 0 < nw -> row_b m x -> (forall i, act x i = rot nw nh k i) -> rotations nw nh m x.
Proof.
  intros H R A. split; auto. exists (k mod nw). split; [apply Nat.mod_upper_bound; lia|]. intros i. now rewrite rot_mod.
Qed.

Lemma rot_row nw nh m k : nh + nw <= m -> m <= 256 ->
  let x := pad m (cyclic (nh + nw) nh (Z.of_nat k)) in row_b m x /\ forall i, act x i = rot nw nh k i.
Proof.
  intros H H256 x. destruct (@cyclic_is_row (nh + nw) nh (Z.of_nat k) ltac:(lia)) as [P L].
  destruct (@cyclic_spec (nh + nw) nh (Z.of_nat k) ltac:(lia)) as [L' _].
  split; [apply pad_row_b; auto; lia|]. intros i. unfold x. rewrite act_pad. apply cyclic_rot. lia.
Qed.

Lemma cyclic_c_spec nw nh nt : 0 < nw -> nh + nw <= total nw nh nt <= 256 -> exists n, forall fuel, n <= fuel ->
  exists g, cyclic_c fuel nw nh nt = Ret g /\ gb g = total nw nh nt /\ wf_group g /\ length (gv g) = nw /\
    forall x, In x (gv g) <-> rotations nw nh (total nw nh nt) x.
Proof.
  intros Hn [H H256]. unfold cyclic_c. fold (total nw nh nt). set (m := total nw nh nt) in *.
  destruct (@cyclic_is_row (nh + nw) nh 1%Z ltac:(lia)) as [P L].
  destruct (@cyclic_spec (nh + nw) nh 1%Z ltac:(lia)) as [L' _].
  destruct (@group_of2_spec (cyclic (nh + nw) nh 1) (rounds m)) as [n Hf]; [split; auto|now apply rounds_row256|].
  exists n. intros fuel Hfu. destruct (Hf fuel Hfu) as (g & E & B & W & A). clear Hf.
  rewrite rounds_id in A, B by exact H256. rewrite id_length, L' in *. replace (Nat.max (nh + nw) m) with m in * by lia.
  exists g. split; auto. split; auto. split; auto.
  assert (C : forall x, In x (gv g) <-> rotations nw nh m x).
  { intros x. rewrite A. apply generated_is.
    - apply subset_group; auto.
      + intros y [R _]. exact R.
      + split; [apply row_b_id|]. exists 0. split; auto. intros i. now rewrite act_id, rot_0.
      + intros y z [Ry (k & Hk & Ay)] [Rz (l & Hl & Az)]. apply (@rotations_mod nw nh m (comp y z) (k + l)); auto.
        * apply comp_row_b; auto; [apply Rz|]. destruct Rz as [_ ->]. lia.
        * intros i. rewrite act_comp by apply Rz. now rewrite Az, Ay, rot_rot.
    - intros y [<-|[<-|[]]].
      + destruct (@rot_row nw nh m 1 H H256) as [R A1]. now apply (@rotations_mod nw nh m _ 1).
      + apply (@rotations_mod nw nh m _ 0); auto; [apply pad_row_b; [apply is_row_id|rewrite id_length; lia]|].
        intros i. now rewrite act_pad, act_id, rot_0.
    - intros U GU IU y [Ry (k & _ & Ay)]. revert y Ry Ay. induction k as [|k IH]; intros y Ry Ay.
      + replace y with (id_row m); [apply GU|]. apply (@row_b_ext m); auto using row_b_id. intros i. now rewrite act_id, Ay, rot_0.
      + destruct (@rot_row nw nh m k H H256) as [R A1]. destruct (@rot_row nw nh m 1 H H256) as [R1 A2].
        replace y with (comp (pad m (cyclic (nh + nw) nh (Z.of_nat 1))) (pad m (cyclic (nh + nw) nh (Z.of_nat k)))).
        * destruct GU as (_ & _ & M & _). apply M; [apply IU; now left|]. now apply IH.
        * apply (@row_b_ext m); auto; [apply comp_row_b; auto; [apply R|]; rewrite (proj2 R); lia|].
          intros i. rewrite act_comp by apply R. rewrite A1, A2, rot_rot, Ay. reflexivity. }
  split; auto. transitivity (length (map (fun k => pad m (cyclic (nh + nw) nh (Z.of_nat k))) (seq 0 nw))); [|now rewrite map_length, seq_length].
  apply Permutation_length. apply NoDup_Permutation.
  - apply row_sorted_nodup. apply W.
  - apply NoDup_map_inj; [|apply seq_NoDup]. intros a c Ha Hc Eq. apply in_seq in Ha, Hc.
    assert (X : rot nw nh a nh = rot nw nh c nh).
    { rewrite <- (proj2 (@rot_row nw nh m a H H256)), <- (proj2 (@rot_row nw nh m c H H256)). now rewrite Eq. }
    rewrite !rot_in in X by lia. rewrite Nat.sub_diag, !Nat.mod_small in X by lia. lia.
  - intros x. rewrite C. split.
    + intros [R (k & Hk & Ax)]. apply in_map_iff. exists k. split; [|apply in_seq; lia]. destruct (@rot_row nw nh m k H H256) as [R1 A1].
      apply (@row_b_ext m); auto. intros i. now rewrite A1, Ax.
    + intros Hx. apply in_map_iff in Hx as (k & <- & Hk). apply in_seq in Hk. destruct (@rot_row nw nh m k H H256) as [R1 A1]. split; auto. exists k. split; [lia|auto].
Qed.

Lemma dihedrals_mod nw nh m x k : 0 < nw -> row_b m x -> (forall i, act x i = rot nw nh k i) \/ (forall i, act x i = rot nw nh k (flip nw nh i)) -> dihedrals nw nh m x.
Proof.
  intros H R A. split; auto. exists (k mod nw). split; [apply Nat.mod_upper_bound; lia|]. destruct A as [A|A]; [left|right]; intros i; now rewrite rot_mod.
Qed.

Lemma dihedral_c_spec nw nh nt : 0 < nw -> nh + nw <= total nw nh nt <= 256 -> exists n, forall fuel, n <= fuel ->
  exists g, dihedral_c fuel nw nh nt = Ret g /\ gb g = total nw nh nt /\ wf_group g /\ (3 <= nw -> length (gv g) = 2 * nw) /\
    forall x, In x (gv g) <-> dihedrals nw nh (total nw nh nt) x.
Proof.
  intros Hn HH. assert (H := proj1 HH). assert (H256 := proj2 HH). unfold dihedral_c. fold (total nw nh nt).
  destruct (@reverse_flip nw nh nt HH) as (r & Er & Rr & Ar). set (m := total nw nh nt) in *.
  assert (Er' : reverse_rounds3 nw nh m = Ret r).
  { unfold m, total in *. destruct (Nat.eqb_spec nt 0) as [->|]; auto. revert Er. unfold reverse_rounds3. cbn [Nat.eqb].
    destruct (Nat.eqb_spec (nh + nw) 0) as [E0|]; auto. }
  rewrite Er'. cbn [bind].
  destruct (@cyclic_is_row (nh + nw) nh 1%Z ltac:(lia)) as [P L].
  destruct (@cyclic_spec (nh + nw) nh 1%Z ltac:(lia)) as [L' _].
  destruct (@group_of2_spec (cyclic (nh + nw) nh 1) r) as [n Hf]; [split; auto|now apply (row_b_256 H256)|].
  exists n. intros fuel Hfu. destruct (Hf fuel Hfu) as (g & E & B & W & A). clear Hf.
  rewrite (proj2 Rr), L' in *. replace (Nat.max (nh + nw) m) with m in * by lia.
  exists g. split; auto. split; auto. split; auto.
  assert (C : forall x, In x (gv g) <-> dihedrals nw nh m x).
  { intros x. rewrite A. apply generated_is.
    - apply subset_group; auto.
      + intros y [R _]. exact R.
      + split; [apply row_b_id|]. exists 0. split; auto. left. intros i. now rewrite act_id, rot_0.
      + intros y z [Ry (k & Hk & Ay)] [Rz (l & Hl & Az)].
        assert (Rc : row_b m (comp y z)) by (apply comp_row_b; auto; [apply Rz|]; destruct Rz as [_ ->]; lia).
        destruct Ay as [Ay|Ay], Az as [Az|Az].
        * apply (@dihedrals_mod nw nh m _ (k + l)); auto. left. intros i. rewrite act_comp by apply Rz. now rewrite Az, Ay, rot_rot.
        * apply (@dihedrals_mod nw nh m _ (k + l)); auto. right. intros i. rewrite act_comp by apply Rz. now rewrite Az, Ay, rot_rot.
        * apply (@dihedrals_mod nw nh m _ (k + l * (nw - 1))); auto. right. intros i. rewrite act_comp by apply Rz. now rewrite Az, Ay, flip_rot, rot_rot.
        * apply (@dihedrals_mod nw nh m _ (k + l * (nw - 1))); auto. left. intros i. rewrite act_comp by apply Rz. now rewrite Az, Ay, flip_rot, rot_rot, flip_flip.
    - intros y [<-|[<-|[]]].
      + destruct (@rot_row nw nh m 1 H H256) as [R A1]. apply (@dihedrals_mod nw nh m _ 1); auto.
      + apply (@dihedrals_mod nw nh m _ 0); auto; [apply pad_row_b; [apply Rr|rewrite (proj2 Rr); lia]|].
        right. intros i. now rewrite act_pad, Ar, rot_0.
    - intros U GU IU.
      assert (Rot : forall k y, row_b m y -> (forall i, act y i = rot nw nh k i) -> U y).
      { induction k as [|k IH]; intros y Ry Ay.
        + replace y with (id_row m); [apply GU|]. apply (@row_b_ext m); auto using row_b_id. intros i. now rewrite act_id, Ay, rot_0.
        + destruct (@rot_row nw nh m k H H256) as [R A1]. destruct (@rot_row nw nh m 1 H H256) as [R1 A2].
          replace y with (comp (pad m (cyclic (nh + nw) nh (Z.of_nat 1))) (pad m (cyclic (nh + nw) nh (Z.of_nat k)))).
          * destruct GU as (_ & _ & M & _). apply M; [apply IU; now left|]. now apply IH.
          * apply (@row_b_ext m); auto; [apply comp_row_b; auto; [apply R|]; rewrite (proj2 R); lia|].
            intros i. rewrite act_comp by apply R. rewrite A1, A2, rot_rot, Ay. reflexivity. }
      intros y [Ry (k & _ & [Ay|Ay])]; [now apply (Rot k)|].
      destruct (@rot_row nw nh m k H H256) as [R A1].
      replace y with (comp (pad m (cyclic (nh + nw) nh (Z.of_nat k))) (pad m r)).
      + destruct GU as (_ & _ & M & _). apply M; [now apply (Rot k)|]. apply IU. right. now left.
      + assert (Rp : row_b m (pad m r)) by (apply pad_row_b; [apply Rr|rewrite (proj2 Rr); lia]).
        apply (@row_b_ext m); auto; [apply comp_row_b; auto; [apply Rp|]; rewrite (proj2 Rp); lia|].
        intros i. rewrite act_comp by apply Rp. now rewrite A1, act_pad, Ar, Ay. }
  split; auto. intros H3.
  set (f := fun k => pad m (cyclic (nh + nw) nh (Z.of_nat k))). set (h := fun k => comp (f k) r).
  assert (Rf : forall k, row_b m (f k)) by (intros k; apply (@rot_row nw nh m k H H256)).
  assert (Af : forall k i, act (f k) i = rot nw nh k i) by (intros k; apply (@rot_row nw nh m k H H256)).
  assert (Rh : forall k, row_b m (h k)) by (intros k; apply comp_row_b; auto; [apply Rr|rewrite (proj2 Rr); lia]).
  assert (Ah : forall k i, act (h k) i = rot nw nh k (flip nw nh i)) by (intros k i; unfold h; rewrite act_comp by apply Rr; now rewrite Af, Ar).
  transitivity (length (map f (seq 0 nw) ++ map h (seq 0 nw))); [|rewrite app_length, !map_length, seq_length; lia].
  apply Permutation_length. apply NoDup_Permutation.
  - apply row_sorted_nodup. apply W.
  - apply NoDup_app_iff. split; [|split].
    + apply NoDup_map_inj; [|apply seq_NoDup]. intros a c Ha Hc Eq. apply in_seq in Ha, Hc.
      assert (X : rot nw nh a nh = rot nw nh c nh) by (rewrite <- !Af; now rewrite Eq).
      rewrite !rot_in in X by lia. rewrite Nat.sub_diag, !Nat.mod_small in X by lia. lia.
    + apply NoDup_map_inj; [|apply seq_NoDup]. intros a c Ha Hc Eq. apply in_seq in Ha, Hc.
      assert (X : rot nw nh a (flip nw nh (nh + nw - 1)) = rot nw nh c (flip nw nh (nh + nw - 1))) by (rewrite <- !Ah; now rewrite Eq).
      rewrite flip_in in X by lia. replace (nh + (nw - 1 - (nh + nw - 1 - nh))) with nh in X by lia.
      rewrite !rot_in in X by lia. rewrite Nat.sub_diag, !Nat.mod_small in X by lia. lia.
    + intros x Hx Hy. apply in_map_iff in Hx as (a & <- & Ha). apply in_map_iff in Hy as (c & Eq & Hc). apply in_seq in Ha, Hc.
      assert (X : forall i, rot nw nh a i = rot nw nh c (flip nw nh i)) by (intros i; rewrite <- Af, <- Ah; now rewrite Eq).
      assert (X0 := X nh). assert (X1 := X (S nh)). rewrite !flip_in in X0, X1 by lia. rewrite !rot_in in X0, X1 by lia.
      replace (nh - nh + a) with a in X0 by lia. replace (S nh - nh + a) with (S a) in X1 by lia.
      replace (nh + (nw - 1 - (nh - nh)) - nh + c) with (nw - 1 + c) in X0 by lia.
      replace (nh + (nw - 1 - (S nh - nh)) - nh + c) with (nw - 2 + c) in X1 by lia.
      rewrite (Nat.mod_small a) in X0 by lia.
      assert (M1 : forall z, z < 2 * nw -> z mod nw = if z <? nw then z else z - nw).
      { intros z Hz. destruct (Nat.ltb_spec z nw); [now apply Nat.mod_small|]. replace z with (z - nw + 1 * nw) at 1 by lia. rewrite Nat.mod_add by lia. apply Nat.mod_small. lia. }
      rewrite M1 in X0 by lia. rewrite !M1 in X1 by lia.
      destruct (Nat.ltb_spec (nw - 1 + c) nw), (Nat.ltb_spec (S a) nw), (Nat.ltb_spec (nw - 2 + c) nw); lia.
  - intros x. rewrite C, in_app_iff, !in_map_iff. split.
    + intros [R (k & Hk & [Ax|Ax])]; [left|right]; exists k; (split; [|apply in_seq; lia]).
      * apply (@row_b_ext m); auto. intros i. now rewrite Af, Ax.
      * apply (@row_b_ext m); auto. intros i. now rewrite Ah, Ax.
    + intros [(k & <- & Hk)|(k & <- & Hk)]; apply in_seq in Hk; (split; [auto|]); exists k; (split; [lia|auto]).
Qed.

(* --- direct product --- *)
Lemma join_length m x y : length (join m x y) = length x + length y.
Proof. unfold join. now rewrite app_length, map_length. Qed.
Lemma act_join m x y i : length x = m -> act (join m x y) i = if i <? m then act x i else m + act y (i - m).
Proof.
  intros L. unfold act, join. destruct (Nat.ltb_spec i m) as [H|H].
  - rewrite app_nth1 by lia. reflexivity.
  - rewrite app_nth2 by lia. rewrite L. destruct (lt_dec (i - m) (length y)) as [A|A].
    + rewrite (nth_indep _ i (m + (i - m))) by now rewrite map_length. now rewrite (map_nth (Nat.add m)).
    + rewrite !nth_overflow by (rewrite ?map_length; lia). lia.
Qed.
Lemma join_row m n x y : row_b m x -> row_b n y -> row_b (m + n) (join m x y).
Proof.
  intros [Px Lx] [Py Ly]. split; [|rewrite join_length; lia]. apply act_bij_is_row; rewrite join_length, Lx, Ly.
  - intros i j Hi Hj. rewrite !act_join by exact Lx.
    assert (X : forall k, k < m -> act x k < m) by (intros k Hk; rewrite <- Lx; apply act_lt; auto; lia).
    destruct (Nat.ltb_spec i m), (Nat.ltb_spec j m); intros E.
    + now apply (act_inj Px).
    + specialize (X i). lia.
    + specialize (X j). lia.
    + assert (E' : act y (i - m) = act y (j - m)) by lia. apply (act_inj Py) in E'. lia.
  - intros i Hi. rewrite act_join by exact Lx. destruct (Nat.ltb_spec i m).
    + assert (act x i < length x) by (apply act_lt; auto; lia). lia.
    + assert (act y (i - m) < length y) by (apply act_lt; auto; lia). lia.
Qed.
Lemma join_comp m n x y x' y' : row_b m x -> row_b n y -> row_b m x' -> row_b n y' ->
  comp (join m x y) (join m x' y') = join m (comp x x') (comp y y').
Proof.
  intros Hx Hy Hx' Hy'. assert (J' := join_row Hx' Hy').
  destruct Hx as [Px Lx], Hy as [Py Ly], Hx' as [Px' Lx'], Hy' as [Py' Ly'].
  apply act_ext; [rewrite !comp_length, !join_length, !comp_length; lia|]. intros i _.
  rewrite act_comp by apply J'. rewrite !act_join by (rewrite ?comp_length; lia).
  destruct (Nat.ltb_spec i m) as [H|H].
  - rewrite act_comp by exact Px'. assert (act x' i < m) by (rewrite <- Lx'; apply act_lt; auto; lia). destruct (Nat.ltb_spec (act x' i) m); lia.
  - rewrite act_comp by exact Py'. destruct (Nat.ltb_spec (m + act y' (i - m)) m); [lia|]. f_equal. f_equal. lia.
Qed.

Lemma conj_shift m n ri y : m + n <= 256 -> inverse (cyclic (m + n) 0 (- Z.of_nat m)) = Ret ri -> row_b n y ->
  comp (comp ri y) (cyclic (m + n) 0 (- Z.of_nat m)) = join m (id_row m) y.
Proof.
  intros H Ei [Py Ly]. set (r := cyclic (m + n) 0 (- Z.of_nat m)) in *.
  assert (Hr : row256 r) by (apply cyclic_is_row; lia). destruct (cyclic_spec 0 (- Z.of_nat m) H) as [Lr Ar]. fold r in Lr, Ar.
  destruct (inverse_spec Hr) as (z & Ez & [Pz _] & Lz & B & C). rewrite Ez in Ei. injection Ei as ->.
  assert (A1 : forall i, i < m -> act r i = i + n).
  { intros i Hi. rewrite Ar. cbn [Nat.leb andb]. destruct (Nat.ltb_spec i (m + n)); [|lia]. rewrite !Nat.sub_0_r. cbn [Nat.add].
    rewrite <- (Z.mod_unique (Z.of_nat i + - Z.of_nat m) (Z.of_nat (m + n)) (-1) (Z.of_nat (i + n))); lia. }
  assert (A2 : forall i, m <= i < m + n -> act r i = i - m).
  { intros i Hi. rewrite Ar. cbn [Nat.leb andb]. destruct (Nat.ltb_spec i (m + n)); [|lia]. rewrite !Nat.sub_0_r. cbn [Nat.add].
    rewrite Z.mod_small; lia. }
  assert (B1 : forall j, j < n -> act ri j = m + j) by (intros j Hj; rewrite <- (B (m + j)), A2 by lia; f_equal; lia).
  apply act_ext; [rewrite !comp_length, join_length, id_length; lia|]. intros i Hi. rewrite !comp_length in Hi.
  rewrite act_comp by apply Hr. rewrite act_comp by exact Py. rewrite act_join by apply id_length.
  destruct (Nat.ltb_spec i m) as [L|L].
  - rewrite act_id. rewrite (act_ge (x := y)) by (rewrite A1 by exact L; lia). apply B.
  - rewrite A2 by lia. apply B1. rewrite <- Ly. apply act_lt; auto. lia.
Qed.

Lemma max_bells_const l n : l <> [] -> (forall x, In x l -> length x = n) -> max_bells l = n.
Proof.
  intros N H. apply Nat.le_antisymm; [apply max_bells_le; intros x Hx; rewrite (H x Hx); lia|].
  destruct l as [|a l]; [congruence|]. rewrite <- (H a) by now left. apply max_bells_ge. now left.
Qed.

Lemma direct_product_spec a b : wf_group a -> wf_group b -> gb a + gb b <= 256 -> exists n, forall fuel, n <= fuel ->
  exists g, direct_product fuel a b = Ret g /\ gb g = gb a + gb b /\ wf_group g /\
    forall z, In z (gv g) <-> exists x y, In x (gv a) /\ In y (gv b) /\ z = join (gb a) x y.
Proof.
  intros Wa Wb H. set (m := gb a) in *. set (n := gb b) in *. set (r := cyclic (m + n) 0 (- Z.of_nat m)).
  assert (Hr : row256 r) by (apply cyclic_is_row; lia). assert (Lr : length r = m + n) by (apply (cyclic_spec 0 (- Z.of_nat m)); lia).
  destruct (inverse_spec Hr) as (ri & Ei & Hi & Li & _).
  assert (Ra : forall x, In x (gv a) -> row_b m x) by (intros x; apply (group_row Wa)).
  assert (Rb : forall x, In x (gv b) -> row_b n x) by (intros x; apply (group_row Wb)).
  set (w := std_sort row_ltb (map (fun x => comp (comp ri x) r) (gv b))).
  assert (Iw : forall z, In z w <-> exists y, In y (gv b) /\ z = join m (id_row m) y).
  { intros z. assert (Pw : Permutation w (map (fun x => comp (comp ri x) r) (gv b))) by apply std_sort_perm. split.
    - intros Hz. apply (Permutation_in _ Pw) in Hz. apply in_map_iff in Hz as (y & <- & Hy). exists y. split; auto. apply conj_shift with (n := n); auto.
    - intros (y & Hy & ->). apply (Permutation_in _ (Permutation_sym Pw)). apply in_map_iff. exists y. split; auto. apply conj_shift with (n := n); auto. }
  assert (Rw : forall z, In z w -> row_b (m + n) z) by (intros z Hz; apply Iw in Hz as (y & Hy & ->); apply join_row; auto using row_b_id).
  assert (E2 : exists o, group_conjugate b r = Ret (mkGroup n w o)).
  { unfold group_conjugate. rewrite Ei. cbn [bind]. rewrite conj_rows; auto; [|lia]. cbn [bind]. fold n. fold w.
    unfold with_orbits. destruct (@calc_orbit_space_spec n w) as (o & E & _).
    { intros x Hx. destruct (Rw x Hx) as [_ ->]. lia. }
    rewrite E. cbn [bind]. exists o. reflexivity. }
  destruct E2 as [o E2].
  assert (Mb : max_bells (gv a ++ w) = m + n).
  { apply Nat.le_antisymm.
    - apply max_bells_le. intros x Hx. apply in_app_or in Hx as [Hx|Hx]; [rewrite (proj2 (Ra x Hx)); lia|rewrite (proj2 (Rw x Hx)); lia].
    - assert (Hz : In (join m (id_row m) (id_row n)) w) by (apply Iw; exists (id_row n); split; auto; apply Wb).
      rewrite <- (proj2 (Rw _ Hz)). apply max_bells_ge, in_or_app. now right. }
  destruct (@group_of_spec (gv a ++ w)) as [k Hk].
  { apply Forall_forall. intros x Hx. apply in_app_or in Hx as [Hx|Hx]; [apply (@row_b_256 m); auto; lia|apply (@row_b_256 (m + n)); auto]. }
  exists k. intros fuel Hf. destruct (Hk fuel Hf) as (g & E & B & W & A). exists g.
  unfold direct_product. fold m n r. rewrite E2. cbn [bind gv]. split; [exact E|]. rewrite Mb in *. split; auto. split; auto.
  assert (Pj : forall x, row_b m x -> pad (m + n) x = join m x (id_row n)).
  { intros x Rx. apply (@row_b_ext (m + n)); [apply pad_row_b; [apply Rx|rewrite (proj2 Rx); lia]|apply join_row; auto using row_b_id|].
    intros i. rewrite act_pad, act_join by apply Rx. destruct (Nat.ltb_spec i m); auto. rewrite act_id, act_ge by (rewrite (proj2 Rx); lia). lia. }
  intros z. rewrite A. apply (@generated_is (m + n) (gv a ++ w) (fun z => exists x y, In x (gv a) /\ In y (gv b) /\ z = join m x y)).
  - apply subset_group; auto.
    + intros x (u & v & Hu & Hv & ->). apply join_row; auto.
    + exists (id_row m), (id_row n). split; [apply Wa|]. split; [apply Wb|]. rewrite <- Pj by apply row_b_id.
      apply (@row_b_ext (m + n)); [apply row_b_id|apply pad_row_b; [apply is_row_id|rewrite id_length; lia]|]. intros i. now rewrite act_pad, !act_id.
    + intros x y (u & v & Hu & Hv & ->) (u' & v' & Hu' & Hv' & ->). exists (comp u u'), (comp v v').
      split; [now apply (grp_mul Wa)|]. split; [now apply (grp_mul Wb)|]. apply join_comp with (n := n); auto.
  - intros x Hx. apply in_app_or in Hx as [Hx|Hx].
    + exists x, (id_row n). split; auto. split; [apply Wb|]. auto.
    + assert (Rx := Rw x Hx). apply Iw in Hx as (y & Hy & Ex). exists (id_row m), y. split; [apply Wa|]. split; auto.
      rewrite <- Ex. unfold pad. rewrite (proj2 Rx), Nat.sub_diag. apply app_nil_r.
  - intros U GU IU x (u & v & Hu & Hv & ->).
    replace (join m u v) with (comp (join m u (id_row n)) (join m (id_row m) v)).
    + destruct GU as (_ & _ & M & _). apply M.
      * rewrite <- Pj by auto. apply IU, in_or_app. now left.
      * assert (Hw : In (join m (id_row m) v) w) by (apply Iw; eauto).
        replace (join m (id_row m) v) with (pad (m + n) (join m (id_row m) v)) by (unfold pad; rewrite (proj2 (Rw _ Hw)), Nat.sub_diag; apply app_nil_r).
        apply IU, in_or_app. now right.
    + rewrite (@join_comp m n) by auto using row_b_id. f_equal; [apply comp_id_r; auto|apply comp_id_l; auto].
Qed.
