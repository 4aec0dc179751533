(* P_Group2.v - constructors, orbits and coset labels. *)
From Verif Require Import Base M_Bell M_Change M_Math M_Row M_Extent M_Group Spec_Row Spec_Change Spec_Extent Spec_Cycle Spec_Group
  P_Math P_Row P_Cycle P_Order P_Perm P_Extent P_Extent2 P_Extent3 P_Group.
Set Implicit Arguments.
Unset Strict Implicit.
Open Scope nat_scope.

Lemma nat_ltb_spec a b : (a <? b) = true <-> a < b.
Proof. apply Nat.ltb_lt. Qed.
Definition anynat (x : nat) : Prop := True.
Lemma nat_total a b : anynat a -> anynat b -> a = b \/ a < b \/ b < a.
Proof. intros _ _. lia. Qed.
Lemma nat_insert_spec s x : StronglySorted lt s ->
  let '(s', new) := set_insert Nat.ltb s x in
  StronglySorted lt s' /\ (forall y, In y s' <-> y = x \/ In y s) /\
  (new = false <-> In x s) /\ length s' = length s + (if new then 1 else 0).
Proof.
  intros S. apply (@set_insert_spec _ lt Nat.ltb nat_ltb_spec Nat.lt_trans Nat.lt_irrefl anynat nat_total); auto; [|exact I].
  apply Forall_forall. intros; exact I.
Qed.
Lemma nat_sort_sorted l : NoDup l -> StronglySorted lt (std_sort Nat.ltb l).
Proof.
  apply (@std_sort_sorted _ lt Nat.ltb nat_ltb_spec Nat.lt_trans anynat nat_total). apply Forall_forall. intros; exact I.
Qed.
Lemma nat_sorted_ext s s' : StronglySorted lt s -> StronglySorted lt s' -> (forall x, In x s <-> In x s') -> s = s'.
Proof. apply sorted_ext; [apply Nat.lt_trans|apply Nat.lt_irrefl]. Qed.

(* --- orbits --- *)
Lemma orbit_of_spec v j : (forall x, In x v -> j < length x) ->
  exists o, orbit_of v j = Ret o /\ StronglySorted lt o /\ forall k, In k o <-> in_orbit v j k.
Proof.
  intros H. unfold orbit_of.
  destruct (@forM_inv _ _ (fun done s => StronglySorted lt s /\ forall k, In k s <-> in_orbit done j k) v
    (fun s i => b <- vget i j ;; Ret (fst (set_insert Nat.ltb s b))) []) as (o & E & S & A).
  - split; [constructor|]. intros k. split; [intros []|intros (x & [] & _)].
  - intros done x rest s -> (S & A). assert (Hx : j < length x) by (apply H, in_or_app; right; now left).
    rewrite (@vget_lt _ _ _ 0) by exact Hx. cbn [bind]. eexists. split; [reflexivity|].
    assert (X := @nat_insert_spec s (nth j x 0) S). destruct (set_insert Nat.ltb s (nth j x 0)) as [s' new]. destruct X as (X1 & X2 & _).
    cbn [fst]. split; auto. intros k. rewrite X2, A. unfold in_orbit. split.
    + intros [->|(y & Hy & Ey)].
      * exists x. split; [apply in_or_app; right; now left|]. now apply act_nth.
      * exists y. split; [apply in_or_app; now left|auto].
    + intros (y & Hy & Ey). apply in_app_or in Hy as [Hy|[<-|[]]]; [right; eauto|]. left. rewrite <- Ey. now apply act_nth.
  - exists o. auto.
Qed.

Lemma row_eqb_spec a b : row_eqb a b = true <-> a = b.
Proof.
  revert b. induction a as [|x a IH]; intros [|y b]; cbn; try (split; congruence).
  rewrite andb_true_iff, IH, Nat.eqb_eq. split; [intros [-> ->]; auto|intros E; injection E; auto].
Qed.

Lemma calc_orbit_space_spec b v : (forall x, In x v -> b <= length x) ->
  exists o, calc_orbit_space b v = Ret o /\ orbit_list b v o.
Proof.
  intros H. unfold calc_orbit_space, forN. rewrite Nat.sub_0_r.
  destruct (@forM_inv _ _ (fun done o => NoDup o /\
      (forall oj, In oj o -> StronglySorted lt oj /\ exists j, In j done /\ forall k, In k oj <-> in_orbit v j k) /\
      (forall j, In j done -> exists oj, In oj o /\ forall k, In k oj <-> in_orbit v j k)) (seq 0 b)
    (fun o j => oj <- orbit_of v j ;; Ret (if existsb (row_eqb oj) o then o else o ++ [oj])) []) as (o & E & N & A & B).
  - split; [constructor|]. split; [intros ? []|intros ? []].
  - intros done j rest o Ed (N & A & B).
    assert (Hj : j < b). { assert (X : In j (seq 0 b)) by (rewrite Ed; apply in_or_app; right; now left). apply in_seq in X. lia. }
    destruct (@orbit_of_spec v j) as (oj & E & S & O). { intros x Hx. specialize (H x Hx). lia. }
    rewrite E. cbn [bind]. eexists. split; [reflexivity|]. destruct (existsb (row_eqb oj) o) eqn:Ex.
    + apply existsb_exists in Ex as (y & Hy & Ey). apply row_eqb_spec in Ey. subst y. split; auto. split.
      * intros z Hz. destruct (A z Hz) as (S1 & i & Hi & C). split; auto. exists i. split; auto. apply in_or_app; auto.
      * intros i Hi. apply in_app_or in Hi as [Hi|[<-|[]]]; eauto.
    + assert (Nin : ~ In oj o).
      { intros X. assert (existsb (row_eqb oj) o = true) by (apply existsb_exists; exists oj; split; auto; now apply row_eqb_spec). congruence. }
      split; [|split].
      * apply NoDup_app_iff. split; auto. split; [repeat constructor; intros []|]. intros z Hz [<-|[]]. auto.
      * intros z Hz. apply in_app_or in Hz as [Hz|[<-|[]]].
        -- destruct (A z Hz) as (S1 & i & Hi & C). split; auto. exists i. split; auto. apply in_or_app; auto.
        -- split; auto. exists j. split; auto. apply in_or_app. right. now left.
      * intros i Hi. apply in_app_or in Hi as [Hi|[<-|[]]].
        -- destruct (B i Hi) as (z & Hz & C). exists z. split; auto. apply in_or_app; auto.
        -- exists oj. split; auto. apply in_or_app. right. now left.
  - exists o. split; auto. split; auto. split.
    + intros oj Ho. destruct (A oj Ho) as (S & j & Hj & C). split; auto. exists j. split; auto. apply in_seq in Hj. lia.
    + intros j Hj. apply B. apply in_seq. lia.
Qed.

(* a group object *)
Lemma with_orbits_spec b v : b <= 256 -> lists_group b v ->
  exists g, with_orbits b v = Ret g /\ gb g = b /\ gv g = v /\ wf_group g.
Proof.
  intros Hb [S G]. unfold with_orbits. destruct (@calc_orbit_space_spec b v) as (o & E & O).
  { intros x Hx. destruct (proj1 G x Hx) as [_ Lx]. unfold row in *. lia. }
  rewrite E. cbn [bind]. exists (mkGroup b v o). split; auto. split; auto. split; auto. split; auto. split; auto. split; auto.
Qed.

(* --- constructors --- *)
Lemma group_gen b gens : b <= 256 -> gens <> [] -> (forall g, In g gens -> is_row g /\ length g <= b) ->
  exists n, forall fuel, n <= fuel -> exists g,
    (s <- generate_group fuel [] [rounds b] gens ;; with_orbits b s) = Ret g /\ gb g = b /\ wf_group g /\
    forall x, In x (gv g) <-> generated b gens x.
Proof.
  intros Hb Ne Hg. destruct (@generate_group_spec b gens Hb Hg Ne) as [n Hn]. exists n. intros fuel Hf.
  destruct (Hn fuel Hf) as (s & E & S & A).
  destruct (@with_orbits_spec b s Hb) as (g & Eg & B & V & W).
  - split; auto. destruct (@word_group b gens Hb Hg) as (G1 & G2 & G3 & G4). split; [|split; [|split]].
    + intros x Hx. apply G1. now apply A.
    + now apply A.
    + intros x y Hx Hy. apply A. apply G3; now apply A.
    + intros x Hx. apply A in Hx. destruct (G4 x Hx) as (y & Hy & E'). exists y. split; auto. now apply A.
  - exists g. rewrite E. cbn [bind]. split; auto. split; auto. split; auto. intros x. rewrite V, A. now apply word_generated.
Qed.

Lemma generated_incl b gens gens' : (forall g, In g gens -> In g gens') -> forall x, generated b gens x -> generated b gens' x.
Proof. intros H x G S Sg SG. apply G; auto. Qed.

Lemma max_bells_ge gens g : In g gens -> length g <= max_bells gens.
Proof. unfold max_bells. induction gens as [|a l IH]; intros []; cbn; [subst; lia|]. specialize (IH H). lia. Qed.
Lemma max_bells_le gens n : (forall g, In g gens -> length g <= n) -> max_bells gens <= n.
Proof. unfold max_bells. induction gens as [|a l IH]; intros H; cbn; [lia|]. assert (length a <= n) by (apply H; now left). assert (fold_right Nat.max 0 (map (@length nat) l) <= n) by (apply IH; intros; apply H; now right). lia. Qed.
Lemma max_bells_perm l l' : (forall x, In x l <-> In x l') -> max_bells l = max_bells l'.
Proof. intros H. apply Nat.le_antisymm; apply max_bells_le; intros g Hg; apply max_bells_ge, H, Hg. Qed.
Lemma fold_max l : forall b, fold_left (fun b (g : list nat) => if b <? length g then length g else b) l b = Nat.max b (max_bells l).
Proof.
  induction l as [|a l IH]; intros b; cbn [fold_left].
  - unfold max_bells. cbn. lia.
  - rewrite IH. unfold max_bells. cbn [map fold_right]. destruct (Nat.ltb_spec b (length a)); lia.
Qed.

Lemma group_of_spec gens : Forall row256 gens ->
  exists n, forall fuel, n <= fuel -> exists g,
    group_of fuel gens = Ret g /\ gb g = max_bells gens /\ wf_group g /\ forall x, In x (gv g) <-> generated (max_bells gens) gens x.
Proof.
  intros F. rewrite Forall_forall in F. destruct gens as [|g0 gens0] eqn:Eg.
  - exists 0. intros fuel _. exists (mkGroup 0 [[]] []). split; auto. split; auto. cbn [gv].
    assert (G : is_subgroup 0 (fun x => In x [[]])).
    { split; [|split; [|split]].
      - intros x [<-|[]]. split; [apply is_row_nil|reflexivity].
      - now left.
      - intros x y [<-|[]] [<-|[]]. now left.
      - intros x [<-|[]]. exists []. split; [now left|reflexivity]. }
    split.
    + split; [cbn; lia|]. split.
      * split; [repeat constructor|exact G].
      * split; [constructor|]. split; [intros ? []|]. cbn. intros; lia.
    + intros x. split.
      * intros [<-|[]] S Sg _. apply Sg.
      * intros X. apply (X _ G). intros g [].
  - destruct (row_sort_unique_spec (g0 :: gens0)) as [S A].
    destruct (@group_gen (max_bells (g0 :: gens0)) (sort_unique row_ltb (g0 :: gens0))) as [n Hn].
    + apply max_bells_le. intros g Hg. apply F, Hg.
    + intros X. assert (Y : In g0 (sort_unique row_ltb (g0 :: gens0))) by (apply A; now left). rewrite X in Y. destruct Y.
    + intros g Hg. apply A in Hg. split; [apply F, Hg|now apply max_bells_ge].
    + exists n. intros fuel Hf. destruct (Hn fuel Hf) as (g & E & B & W & C). exists g. split; [|split; [|split]]; auto.
      * unfold group_of. rewrite fold_max, (max_bells_perm A). exact E.
      * intros x. rewrite C. split; apply generated_incl; intros y; apply A.
Qed.

Lemma group_of1_spec r : row256 r -> exists n, forall fuel, n <= fuel -> exists g,
  group_of1 fuel r = Ret g /\ gb g = length r /\ wf_group g /\ forall x, In x (gv g) <-> generated (length r) [r] x.
Proof.
  intros [P L]. apply group_gen; auto; [discriminate|]. intros g [<-|[]]. auto.
Qed.

Lemma group_of2_spec r1 r2 : row256 r1 -> row256 r2 -> exists n, forall fuel, n <= fuel -> exists g,
  group_of2 fuel r1 r2 = Ret g /\ gb g = Nat.max (length r1) (length r2) /\ wf_group g /\
  forall x, In x (gv g) <-> generated (Nat.max (length r1) (length r2)) [r1; r2] x.
Proof.
  intros [P1 L1] [P2 L2]. unfold group_of2.
  assert (E : (if length r2 <? length r1 then length r1 else length r2) = Nat.max (length r1) (length r2)) by (destruct (Nat.ltb_spec (length r2) (length r1)); lia).
  rewrite E. destruct (row_eqb r2 r1) eqn:Er.
  - apply row_eqb_spec in Er. subst r2. destruct (@group_gen (Nat.max (length r1) (length r1)) [r1]) as [n Hn]; [lia|discriminate|intros g [<-|[]]; split; auto; lia|].
    exists n. intros fuel Hf. destruct (Hn fuel Hf) as (g & Eg & B & W & C). exists g. repeat (split; auto); intros X.
    + apply generated_incl with (gens := [r1]); [intros y [<-|[]]; now left|]. now apply C.
    + apply C. revert X. apply generated_incl. intros y [<-|[<-|[]]]; now left.
  - apply group_gen; [lia|discriminate|]. intros g [<-|[<-|[]]]; split; auto; lia.
Qed.

Lemma wf_group_eq g g' : wf_group g -> wf_group g' -> (group_eqb g g' = true <-> gb g = gb g' /\ forall x, In x (gv g) <-> In x (gv g')).
Proof.
  intros (_ & [S _] & _) (_ & [S' _] & _). unfold group_eqb. rewrite andb_true_iff, Nat.eqb_eq. destruct (list_eq_dec (list_eq_dec Nat.eq_dec) (gv g) (gv g')) as [E|E].
  - rewrite E. split; [intros [A _]; split; auto; tauto|tauto].
  - split; [intros [_ X]; discriminate|]. intros [_ X]. exfalso. apply E. now apply row_sorted_ext.
Qed.

(* --- the least of a list --- *)
Lemma least_of_spec l b : l <> [] -> (forall x, In x l -> length x = b) -> is_least (fun x => In x l) (least_of l).
Proof.
  unfold least_of. intros Ne H.
  assert (G : forall l a, length a = b -> (forall x, In x l -> length x = b) ->
    is_least (fun x => In x (a :: l)) (fold_left (fun label ir => if (length label =? 0) || row_ltb ir label then ir else label) l a)).
  { clear l Ne H. induction l as [|c l IH]; intros a La H; cbn [fold_left].
    - split; [now left|]. intros y [<-|[]]. now left.
    - assert (Lc : length c = b) by (apply H; now left).
      destruct (Nat.eqb_spec (length a) 0) as [E0|N0]; cbn [orb].
      + destruct a; [|discriminate]. destruct c; [|cbn in *; lia].
        destruct (IH [] La ltac:(intros; apply H; now right)) as [I1 I2]. split.
        * now right.
        * intros y [<-|Hy]; apply I2; [now left|exact Hy].
      + destruct (row_ltb c a) eqn:E.
        * apply row_ltb_spec in E. destruct (IH c Lc ltac:(intros; apply H; now right)) as [I1 I2]. split.
          -- now right.
          -- intros y [<-|Hy]; auto. destruct (I2 c (or_introl eq_refl)) as [X|X].
             ++ right. now rewrite <- X.
             ++ right. eapply lex_trans; eauto.
        * destruct (IH a La ltac:(intros; apply H; now right)) as [I1 I2]. split.
          -- destruct I1 as [I1|I1]; [now left|right; now right].
          -- intros y [<-|[<-|Hy]]; [apply I2; now left| |apply I2; now right].
             assert (X : c = a \/ lex_lt a c).
             { destruct (lex_total_all c a) as [|[X|X]]; auto. apply row_ltb_spec in X. congruence. }
             destruct X as [->|X]; [apply I2; now left|]. right. destruct (I2 a (or_introl eq_refl)) as [Y|Y].
             ++ now rewrite <- Y.
             ++ eapply lex_trans; eauto. }
  destruct l as [|a l]; [congruence|]. cbn [fold_left length Nat.eqb orb]. apply G; [apply H; now left|intros; apply H; now right].
Qed.

Lemma map_loop (f : row -> outcome row) (h : row -> row) v : (forall x, In x v -> f x = Ret (h x)) ->
  forM v (fun l i => ir <- f i ;; Ret (l ++ [ir])) [] = Ret (map h v).
Proof.
  intros H. assert (G : forall acc, forM v (fun l i => ir <- f i ;; Ret (l ++ [ir])) acc = Ret (acc ++ map h v)).
  { induction v as [|a v IH]; intros acc; cbn [forM map]; [now rewrite app_nil_r|].
    rewrite H by now left. cbn [bind]. rewrite IH by (intros; apply H; now right). now rewrite <- app_assoc. }
  apply (G []).
Qed.

Lemma group_nonempty g : wf_group g -> gv g <> [].
Proof. intros (_ & [_ (_ & I & _)] & _) E. rewrite E in I. destruct I. Qed.
Lemma group_row g x : wf_group g -> In x (gv g) -> row_b (gb g) x.
Proof. intros (_ & [_ (R & _)] & _) Hx. exact (R x Hx). Qed.

Lemma lcoset_label_spec g r : wf_group g -> row256 r ->
  exists l, lcoset_label g r = Ret l /\ is_least (fun y => exists x, In x (gv g) /\ y = comp r x) l.
Proof.
  intros W Hr. assert (Hb : gb g <= 256) by apply W. unfold lcoset_label.
  rewrite (@map_loop (mul r) (comp r)).
  2:{ intros x Hx. apply mul_comp; auto. apply row_b_256 with (b := gb g); auto. now apply group_row. }
  cbn [bind]. eexists. split; [reflexivity|].
  destruct (@least_of_spec (map (comp r) (gv g)) (Nat.max (length r) (gb g))) as [A B].
  - assert (X := group_nonempty W). destruct (gv g); [congruence|discriminate].
  - intros x Hx. apply in_map_iff in Hx as (y & <- & Hy). rewrite comp_length. now rewrite (proj2 (group_row W Hy)).
  - split.
    + apply in_map_iff in A as (x & E & Hx). eauto.
    + intros y (x & Hx & ->). apply B. apply in_map_iff. eauto.
Qed.

Lemma rcoset_generic g r : wf_group g -> row256 r ->
  exists l, (l <- forM (gv g) (fun l i => ir <- mul i r ;; Ret (l ++ [ir])) [] ;; Ret (least_of l)) = Ret l /\
    is_least (fun y => exists x, In x (gv g) /\ y = comp x r) l.
Proof.
  intros W Hr. assert (Hb : gb g <= 256) by apply W.
  rewrite (@map_loop (fun i => mul i r) (fun x => comp x r)).
  2:{ intros x Hx. apply mul_comp; auto. apply row_b_256 with (b := gb g); auto. now apply group_row. }
  cbn [bind]. eexists. split; [reflexivity|].
  destruct (@least_of_spec (map (fun x => comp x r) (gv g)) (Nat.max (gb g) (length r))) as [A B].
  - assert (X := group_nonempty W). destruct (gv g); [congruence|discriminate].
  - intros x Hx. apply in_map_iff in Hx as (y & <- & Hy). rewrite comp_length. now rewrite (proj2 (group_row W Hy)).
  - split.
    + apply in_map_iff in A as (x & E & Hx). eauto.
    + intros y (x & Hx & ->). apply B. apply in_map_iff. eauto.
Qed.

(* --- the fast path --- *)
Fixpoint inserts (x : nat) (w : list nat) : list (list nat) :=
  (x :: w) :: match w with [] => [] | y :: t => map (cons y) (inserts x t) end.
Fixpoint perms (l : list nat) : list (list nat) :=
  match l with [] => [[]] | x :: t => flat_map (inserts x) (perms t) end.
Fixpoint cart (ls : list (list (list nat))) : list (list (list nat)) :=
  match ls with [] => [[]] | l :: ls => flat_map (fun w => map (cons w) (cart ls)) l end.

Lemma inserts_length x w : length (inserts x w) = S (length w).
Proof. induction w as [|y w IH]; cbn; auto. rewrite map_length, IH. reflexivity. Qed.
Lemma inserts_in x w1 w2 : In (w1 ++ x :: w2) (inserts x (w1 ++ w2)).
Proof.
  induction w1 as [|y w1 IH]; cbn [app].
  - destruct w2; cbn; auto.
  - cbn [inserts]. right. now apply in_map.
Qed.
Lemma inserts_perm x w y : In y (inserts x w) -> Permutation y (x :: w).
Proof.
  revert y. induction w as [|a w IH]; intros y; cbn [inserts].
  - intros [<-|[]]. reflexivity.
  - intros [<-|H]; [reflexivity|]. apply in_map_iff in H as (z & <- & Hz). apply IH in Hz. rewrite Hz. apply perm_swap.
Qed.
Lemma perms_length_each l w : In w (perms l) -> length w = length l.
Proof.
  revert w. induction l as [|x l IH]; intros w; cbn [perms]; [intros [<-|[]]; reflexivity|].
  intros H. apply in_flat_map in H as (u & Hu & Hw). apply inserts_perm in Hw. rewrite (Permutation_length Hw). cbn. now rewrite (IH u Hu).
Qed.
Lemma perms_complete l : forall w, Permutation w l -> In w (perms l).
Proof.
  induction l as [|x l IH]; intros w P; cbn [perms].
  - apply Permutation_sym, Permutation_nil in P. subst. now left.
  - destruct (in_split x w) as (w1 & w2 & ->). { apply (Permutation_in _ (Permutation_sym P)). now left. }
    apply in_flat_map. exists (w1 ++ w2). split; [|apply inserts_in]. apply IH. apply (@Permutation_cons_inv _ (w1 ++ w2) l x).
    eapply Permutation_trans; [apply Permutation_middle|exact P].
Qed.
Lemma flat_map_length_const A B (f : A -> list B) l n : (forall x, In x l -> length (f x) = n) -> length (flat_map f l) = length l * n.
Proof. induction l as [|a l IH]; intros H; cbn; auto. rewrite app_length, IH by (intros; apply H; now right). rewrite H by now left. lia. Qed.
Lemma perms_count l : Z.of_nat (length (perms l)) = fac (length l).
Proof.
  induction l as [|x l IH]; [reflexivity|]. cbn [perms length]. rewrite (@flat_map_length_const _ _ _ _ (S (length l))).
  - rewrite fac_S, <- IH. lia.
  - intros w Hw. rewrite inserts_length. now rewrite (perms_length_each Hw).
Qed.
Definition prodfac (o : list (list nat)) : Z := fold_right (fun l z => fac (length l) * z)%Z 1%Z o.
Lemma prodfac_pos o : (1 <= prodfac o)%Z.
Proof. induction o as [|l o IH]; cbn; [lia|]. assert (F := fac_pos (length l)). fold (prodfac o). nia. Qed.
Lemma cart_count o : Z.of_nat (length (cart (map perms o))) = prodfac o.
Proof.
  induction o as [|l o IH]; [reflexivity|]. cbn [map cart prodfac fold_right]. fold (prodfac o).
  rewrite (@flat_map_length_const _ _ _ _ (length (cart (map perms o)))) by (intros; apply map_length).
  rewrite <- IH, <- perms_count. lia.
Qed.
Lemma cart_in (f : list nat -> list nat) o : (forall l, In l o -> Permutation (f l) l) -> In (map f o) (cart (map perms o)).
Proof.
  induction o as [|l o IH]; intros H; cbn [map cart]; [now left|]. apply in_flat_map. exists (f l). split.
  - apply perms_complete, H. now left.
  - apply in_map. apply IH. intros; apply H; now right.
Qed.

Lemma lex_first : forall x y p, length x = length y -> p < length x -> (forall q, q < p -> nth q x 0 = nth q y 0) -> nth p x 0 < nth p y 0 -> lex_lt x y.
Proof.
  induction x as [|a x IH]; intros [|c y] p L Hp A D; cbn in L, Hp; try lia. cbn [lex_lt]. destruct p as [|p].
  - left. exact D.
  - right. split; [apply (A 0); lia|]. apply (IH y p); try lia.
    + intros q Hq. apply (A (S q)). lia.
    + exact D.
Qed.
Lemma first_diff : forall x y : list nat, length x = length y -> x = y \/ exists p, p < length x /\ (forall q, q < p -> nth q x 0 = nth q y 0) /\ nth p x 0 <> nth p y 0.
Proof.
  induction x as [|a x IH]; intros [|c y] L; cbn in L; try lia; auto.
  destruct (Nat.eq_dec a c) as [->|Ne].
  - destruct (IH y ltac:(lia)) as [->|(p & Hp & A & D)]; auto. right. exists (S p). cbn. split; [lia|]. split; auto.
    intros [|q] Hq; auto. apply A. lia.
  - right. exists 0. cbn. split; [lia|]. split; auto. intros; lia.
Qed.
Lemma sorted_nth_lt s i j : StronglySorted lt s -> i < j -> j < length s -> nth i s 0 < nth j s 0.
Proof.
  revert i j. induction s as [|a s IH]; intros i j S Hij Hj; cbn in Hj; [lia|]. inversion_clear S as [|? ? S1 S2].
  destruct j as [|j]; [lia|]. destruct i as [|i]; cbn [nth].
  - rewrite Forall_forall in S2. apply S2, nth_In. lia.
  - apply IH; auto; lia.
Qed.

Lemma find_from_spec x : forall i n, NoDup x -> (In n x -> exists k, find_from i x n = i + k /\ k < length x /\ nth k x 0 = n).
Proof.
  induction x as [|a x IH]; intros i n N H; [destruct H|]. cbn [find_from]. inversion_clear N as [|? ? N1 N2]. destruct (Nat.eqb_spec a n) as [->|Ne].
  - exists 0. cbn. split; [lia|]. split; [lia|auto].
  - destruct H as [H|H]; [congruence|]. destruct (IH (S i) n N2 H) as (k & E & L & K). exists (S k). rewrite E. cbn. split; [lia|]. split; [lia|auto].
Qed.
Section Fast.
Variable g : group.
Hypothesis W : wf_group g.
Let b := gb g.
Let v := gv g.
Let o := go g.

Lemma grp_mul x y : In x v -> In y v -> In (comp x y) v.
Proof. destruct W as (_ & [_ (_ & _ & M & _)] & _). apply M. Qed.
Lemma grp_inv x : In x v -> exists y, In y v /\ forall i, act y (act x i) = i.
Proof.
  intros Hx. destruct W as (_ & [_ (R & _ & _ & V)] & _). destruct (V x Hx) as (y & Hy & E). exists y. split; auto.
  destruct (R y Hy) as [Py Ly], (R x Hx) as [Px Lx].
  assert (A : forall i, act x (act y i) = i) by (intros i; rewrite <- act_comp by exact Py; rewrite E; apply act_id).
  intros i. apply (act_inj Px). now rewrite A.
Qed.
Lemma orbit_refl j : in_orbit v j j.
Proof. destruct W as (_ & [_ (_ & I & _)] & _). exists (id_row b). split; [exact I|apply act_id]. Qed.
Lemma orbit_sym j k : in_orbit v j k -> in_orbit v k j.
Proof. intros (x & Hx & <-). destruct (grp_inv Hx) as (y & Hy & A). exists y. auto. Qed.
Lemma orbit_trans i j k : in_orbit v i j -> in_orbit v j k -> in_orbit v i k.
Proof.
  intros (x & Hx & <-) (y & Hy & <-). exists (comp y x). split; [now apply grp_mul|]. apply act_comp. now apply (group_row W).
Qed.
Lemma orbit_lt j k : in_orbit v j k -> j < b <-> k < b.
Proof.
  intros (x & Hx & <-). destruct (group_row W Hx) as [P L]. fold b in L. rewrite <- L. symmetry. now apply act_lt_iff.
Qed.
Lemma orbit_sorted l : In l o -> StronglySorted lt l.
Proof. intros H. destruct W as (_ & _ & _ & A & _). apply (A l H). Qed.
Lemma orbit_nodup l : In l o -> NoDup l.
Proof. intros H. apply (sorted_nodup Nat.lt_irrefl). now apply orbit_sorted. Qed.
(* two members of one listed orbit are related, and membership is closed *)
Lemma orbit_mem l j k : In l o -> In j l -> In k l <-> in_orbit v j k.
Proof.
  intros H Hj. destruct W as (_ & _ & _ & A & _). destruct (A l H) as (_ & i & Hi & C). rewrite C. apply C in Hj. split.
  - intros X. eapply orbit_trans; [apply orbit_sym; eauto|auto].
  - intros X. eapply orbit_trans; eauto.
Qed.
Lemma orbit_cover j : j < b -> exists l, In l o /\ In j l.
Proof. intros H. destruct W as (_ & _ & _ & _ & B). destruct (B j H) as (l & Hl & C). exists l. split; auto. apply C, orbit_refl. Qed.
Lemma orbit_bound l j : In l o -> In j l -> j < b.
Proof. intros H Hj. destruct W as (_ & _ & _ & A & _). destruct (A l H) as (_ & i & Hi & C). apply C in Hj. now apply (orbit_lt Hj). Qed.
Lemma orbit_unique l l' j : In l o -> In l' o -> In j l -> In j l' -> l = l'.
Proof.
  intros H H' Hj Hj'. apply nat_sorted_ext; try now apply orbit_sorted. intros k. rewrite (orbit_mem k H Hj), (orbit_mem k H' Hj'). reflexivity.
Qed.

Definition preserves (x : list nat) : Prop := row_b b x /\ forall l j, In l o -> In j l -> In (act x j) l.
Lemma group_preserves x : In x v -> preserves x.
Proof.
  intros Hx. split; [now apply (group_row W)|]. intros l j Hl Hj. apply (orbit_mem _ Hl Hj). exists x. auto.
Qed.
Definition phi (x : list nat) : list (list nat) := map (map (act x)) o.
Lemma phi_inj x y : preserves x -> preserves y -> phi x = phi y -> x = y.
Proof.
  intros [[Px Lx] Hx] [[Py Ly] Hy] E. apply act_ext; [congruence|]. intros i Hi. destruct (@orbit_cover i) as (l & Hl & Hil); [rewrite <- Lx; exact Hi|].
  assert (X : map (act x) l = map (act y) l).
  { unfold phi in E. clear -E Hl. induction o as [|a o' IH]; [destruct Hl|]. cbn in E. injection E as E1 E2. destruct Hl as [->|Hl]; auto. }
  clear -X Hil. induction l as [|a l IH]; [destruct Hil|]. cbn in X. injection X as X1 X2. destruct Hil as [->|Hl]; auto.
Qed.
Lemma phi_in x : preserves x -> In (phi x) (cart (map perms o)).
Proof.
  intros [[Px Lx] Hx]. apply cart_in. intros l Hl. apply NoDup_Permutation_bis.
  - apply NoDup_map_inj; [|now apply orbit_nodup]. intros a c _ _ E. now apply (act_inj Px) in E.
  - rewrite map_length. lia.
  - intros k Hk. apply in_map_iff in Hk as (j & <- & Hj). eauto.
Qed.
Lemma full_group : Z.of_nat (length v) = prodfac o -> forall x, preserves x -> In x v.
Proof.
  intros E x Hx.
  assert (Sv : StronglySorted lex_lt v) by (destruct W as (_ & [Sv _] & _); exact Sv).
  assert (N : NoDup (map phi v)).
  { apply NoDup_map_inj; [|now apply row_sorted_nodup]. intros a c Ha Hc Eq. apply phi_inj; auto using group_preserves. }
  assert (I : incl (cart (map perms o)) (map phi v)).
  { apply NoDup_length_incl; auto.
    - rewrite map_length. assert (X : Z.of_nat (length (cart (map perms o))) = Z.of_nat (length v)) by (rewrite cart_count; symmetry; exact E).
      apply Nat2Z.inj in X. apply Nat.eq_le_incl. exact X.
    - intros y Hy. apply in_map_iff in Hy as (z & <- & Hz). apply phi_in. now apply group_preserves. }
  assert (Hp := I _ (phi_in Hx)). apply in_map_iff in Hp as (y & Ey & Hy).
  replace x with y; auto. apply phi_inj; auto using group_preserves.
Qed.

(* the label *)
Variable r : list nat.
Hypothesis Hr : row_b b r.

Lemma find_spec n : n < b -> find r n < b /\ act r (find r n) = n.
Proof.
  intros H. destruct Hr as [P L]. assert (N : NoDup r) by now apply is_row_iff in P.
  destruct (@find_from_spec r 0 n N) as (k & E & Hk & K). { apply (is_row_in _ P). lia. }
  unfold find. rewrite E. cbn [Nat.add]. split; [lia|]. now rewrite (@act_nth r k 0).
Qed.
Lemma find_act p : p < b -> find r (act r p) = p.
Proof.
  intros H. destruct Hr as [P L]. assert (X : act r p < b) by (rewrite <- L; apply act_lt; auto; lia).
  apply (act_inj P). now apply find_spec.
Qed.

Definition posn (l : list nat) : list nat := std_sort Nat.ltb (map (find r) l).
Lemma posn_in l p : In l o -> In p (posn l) <-> p < b /\ In (act r p) l.
Proof.
  intros Hl. unfold posn. split.
  - intros H. apply (Permutation_in _ (std_sort_perm Nat.ltb _)) in H. apply in_map_iff in H as (j & <- & Hj).
    assert (Jb := orbit_bound Hl Hj). destruct (find_spec Jb) as [A B]. split; auto. now rewrite B.
  - intros [H1 H2]. apply (Permutation_in _ (Permutation_sym (std_sort_perm Nat.ltb _))). apply in_map_iff. exists (act r p). split; auto. now apply find_act.
Qed.
Lemma posn_length l : length (posn l) = length l.
Proof. unfold posn. rewrite (Permutation_length (std_sort_perm Nat.ltb _)). apply map_length. Qed.
Lemma posn_sorted l : In l o -> StronglySorted lt (posn l).
Proof.
  intros Hl. apply nat_sort_sorted. apply NoDup_map_inj; [|now apply orbit_nodup].
  intros a c Ha Hc E. assert (A := orbit_bound Hl Ha). assert (C := orbit_bound Hl Hc).
  rewrite <- (proj2 (find_spec A)), <- (proj2 (find_spec C)). now rewrite E.
Qed.
Lemma posn_nodup l : In l o -> NoDup (posn l).
Proof. intros H. apply (sorted_nodup Nat.lt_irrefl). now apply posn_sorted. Qed.

Lemma orbit_step_spec l label : In l o -> length label = b ->
  exists label', orbit_step r label l = Ret label' /\ length label' = b /\
    (forall j, j < length l -> nth (nth j (posn l) 0) label' 0 = nth j l 0) /\
    (forall p, ~ In p (posn l) -> nth p label' 0 = nth p label 0).
Proof.
  intros Hl Ll. unfold orbit_step. fold (posn l). unfold forN. rewrite Nat.sub_0_r.
  rewrite forM_ext with (b2 := fun label j => vset label (nth j (posn l) 0) (nth j l 0)).
  2:{ intros s j Hj. apply in_seq in Hj. rewrite (@vget_lt _ _ _ 0) by (rewrite posn_length; lia). cbn [bind].
      rewrite (@vget_lt _ _ _ 0) by lia. reflexivity. }
  assert (M : map (fun j => nth j (posn l) 0) (seq 0 (length l)) = posn l).
  { apply nth_ext_d with (d := 0); [rewrite map_length, seq_length; now rewrite posn_length|].
    intros i Hi. rewrite map_length, seq_length in Hi.
    rewrite (nth_indep _ 0 (nth 0 (posn l) 0)) by (rewrite map_length, seq_length; lia).
    rewrite (map_nth (fun j => nth j (posn l) 0)), seq_nth by lia. reflexivity. }
  destruct (@forM_vset nat nat (seq 0 (length l)) (fun j => nth j (posn l) 0) (fun j => nth j l 0) label 0) as (w & E & L & A & B).
  - intros j Hj. apply in_seq in Hj. rewrite Ll. apply (@posn_in l); auto. apply nth_In. rewrite posn_length. lia.
  - rewrite M. now apply posn_nodup.
  - exists w. split; auto. split; [lia|]. split.
    + intros j Hj. apply A. apply in_seq. lia.
    + intros p Hp. apply B. now rewrite M.
Qed.

Lemma posn_disjoint l l' p : In l o -> In l' o -> In p (posn l) -> In p (posn l') -> l = l'.
Proof.
  intros Hl Hl' H H'. apply posn_in in H as [_ H]; auto. apply posn_in in H' as [_ H']; auto. eapply orbit_unique; eauto.
Qed.

Lemma label_loop : exists label, forM o (orbit_step r) (repeat 0 (length r)) = Ret label /\ length label = b /\
  forall l j, In l o -> j < length l -> nth (nth j (posn l) 0) label 0 = nth j l 0.
Proof.
  destruct (@forM_inv _ _ (fun done label => length label = b /\
     forall l j, In l done -> j < length l -> nth (nth j (posn l) 0) label 0 = nth j l 0) o (orbit_step r) (repeat 0 (length r))) as (label & E & L & A).
  - split; [rewrite repeat_length; apply Hr|]. intros l j [].
  - intros done l rest s Eo (L & A).
    assert (Hl : In l o) by (rewrite Eo; apply in_or_app; right; now left).
    destruct (@orbit_step_spec l s Hl L) as (s' & E & L' & B & C). exists s'. split; auto. split; auto.
    intros l' j Hl' Hj. apply in_app_or in Hl' as [Hl'|[<-|[]]]; [|now apply B].
    assert (Ho : In l' o) by (rewrite Eo; apply in_or_app; now left).
    rewrite C; [now apply A|]. intros X.
    assert (l = l').
    { apply (@posn_disjoint l l' (nth j (posn l') 0)); auto. apply nth_In. rewrite posn_length. exact Hj. }
    subst l'. assert (Nd : NoDup o) by apply W. rewrite Eo in Nd. apply NoDup_remove_2 in Nd. apply Nd, in_or_app. now left.
  - exists label. auto.
Qed.

Lemma orbit_label_least : Z.of_nat (length v) = prodfac o ->
  exists label, orbit_label o r = Ret label /\ is_least (fun y => exists x, In x v /\ y = comp x r) label.
Proof.
  intros Full. destruct label_loop as (label & E & L & A). unfold orbit_label. rewrite E. cbn [bind].
  destruct Hr as [Pr Lr].
  (* every place is the j-th of its orbit *)
  assert (Pos : forall p, p < b -> exists l j, In l o /\ j < length l /\ nth j (posn l) 0 = p /\ act label p = nth j l 0 /\ In (act r p) l).
  { intros p Hp. destruct (@orbit_cover (act r p)) as (l & Hl & Hin). { rewrite <- Lr. apply act_lt; auto. lia. }
    assert (Hpp : In p (posn l)) by now apply posn_in. destruct (In_nth _ _ 0 Hpp) as (j & Hj & Ej). rewrite posn_length in Hj.
    exists l, j. split; auto. split; auto. split; auto. split; auto. rewrite (@act_nth label p 0) by lia. rewrite <- Ej. now apply A. }
  assert (Pl : is_row label).
  { apply act_bij_is_row.
    - intros p q Hp Hq Eq. destruct (Pos p) as (l & j & Hl & Hj & Ep & Al & _); [lia|]. destruct (Pos q) as (l' & j' & Hl' & Hj' & Eq' & Al' & _); [lia|].
      assert (X : nth j l 0 = nth j' l' 0) by congruence.
      assert (l = l') by (apply (@orbit_unique l l' (nth j l 0)); auto; [now apply nth_In|rewrite X; now apply nth_In]). subst l'.
      assert (j = j') by (apply (proj1 (NoDup_nth l 0) (orbit_nodup Hl)); auto). subst j'. congruence.
    - intros p Hp. destruct (Pos p) as (l & j & Hl & Hj & Ep & Al & _); [lia|]. rewrite Al, L. apply (orbit_bound Hl). now apply nth_In. }
  assert (Ev := proj1 (row_of_vector_spec label) Pl). rewrite Ev. exists label. split; auto.
  split.
  - set (x := map (fun a => act label (find r a)) (seq 0 b)).
    assert (Ax : forall a, a < b -> act x a = act label (find r a)).
    { intros a Ha. unfold x. rewrite (@act_nth _ a 0) by (now rewrite map_length, seq_length).
      rewrite (nth_indep _ 0 (act label (find r 0))) by (now rewrite map_length, seq_length).
      rewrite (map_nth (fun a => act label (find r a))), seq_nth by exact Ha. reflexivity. }
    assert (Lx : length x = b) by (unfold x; now rewrite map_length, seq_length).
    exists x. split.
    + apply (full_group Full). split.
      * split; auto. apply act_bij_is_row.
        -- intros i j Hi Hj Eij. rewrite Lx in Hi, Hj. rewrite !Ax in Eij by lia. apply (act_inj Pl) in Eij.
           rewrite <- (proj2 (find_spec Hi)), <- (proj2 (find_spec Hj)). now rewrite Eij.
        -- intros i Hi. rewrite Lx in *. rewrite Ax by exact Hi. rewrite <- L. apply act_lt; auto. rewrite L. now apply find_spec.
      * intros l a Hl Ha. assert (Ab := orbit_bound Hl Ha). rewrite Ax by exact Ab.
        destruct (find_spec Ab) as [F1 F2]. destruct (Pos (find r a) F1) as (l' & j & Hl' & Hj & _ & Al & Hin). rewrite F2 in Hin.
        assert (l' = l) by (apply (@orbit_unique l' l a); auto). subst l'. rewrite Al. now apply nth_In.
    + apply act_ext; [rewrite comp_length; lia|]. intros p Hp. rewrite act_comp by exact Pr. rewrite Ax by (rewrite <- Lr; apply act_lt; auto; lia).
      now rewrite find_act by lia.
  - intros y (x & Hx & ->). destruct (group_preserves Hx) as [[Px Lx] Hpx].
    assert (Py : is_row (comp x r)) by now apply comp_row.
    assert (Ly : length (comp x r) = b) by (rewrite comp_length; lia).
    destruct (@first_diff label (comp x r) ltac:(lia)) as [->|(p & Hp & Ag & D)]; auto. right.
    apply (@lex_first label (comp x r) p); auto; [lia|].
    assert (Hpb : p < b) by lia. destruct (Pos p Hpb) as (l & j & Hl & Hj & Ej & Al & Hin).
    rewrite (@act_nth label p 0) in Al by lia.
    assert (Hy : In (act (comp x r) p) l) by (rewrite act_comp by exact Pr; auto).
    destruct (In_nth _ _ 0 Hy) as (k & Hk & Ek).
    assert (Yp : nth p (comp x r) 0 = nth k l 0) by (rewrite Ek; symmetry; apply act_nth; lia).
    assert (Hjk : j <= k).
    { destruct (le_lt_dec j k) as [|Hlt]; auto. exfalso.
      set (q := nth k (posn l) 0).
      assert (Hq : q < p). { unfold q. rewrite <- Ej. apply sorted_nth_lt; [now apply posn_sorted|auto|rewrite posn_length; lia]. }
      assert (Lq : nth q label 0 = nth k l 0) by (apply A; auto).
      rewrite (Ag q Hq) in Lq.
      assert (q = p); [|lia].
      assert (Nd : NoDup (comp x r)) by now apply is_row_iff in Py.
      apply (proj1 (NoDup_nth (comp x r) 0) Nd); try lia. }
    destruct (Nat.eq_dec j k) as [->|]; [exfalso; apply D; congruence|].
    rewrite Al, Yp. apply sorted_nth_lt; [now apply orbit_sorted|lia|auto].
Qed.
End Fast.

(* when the test says so, the orders are equal *)
Lemma small_factorials : forallb (fun n => (109641728 <=? factorial n)%Z) (seq 13 8) = true.
Proof. vm_compute. reflexivity. Qed.
Lemma idp_loop_spec o : forall gsize sz, (1 <= sz)%Z -> (gsize < 109641728)%Z \/ (forall l, In l o -> length l <= 12) ->
  idp_loop o gsize sz = true -> gsize = (sz * prodfac o)%Z.
Proof.
  induction o as [|l o IH]; intros gsize sz Hs Hyp E; cbn [idp_loop] in E.
  - apply Z.eqb_eq in E. cbn. lia.
  - destruct (Nat.ltb_spec 20 (length l)) as [|L20]; [discriminate|].
    destruct (Z.ltb_spec (18446744073709551615 / sz) (factorial (length l))) as [|Hd]; [discriminate|].
    assert (Hov : (sz * factorial (length l) <= 18446744073709551615)%Z).
    { assert (X := Z.mul_div_le 18446744073709551615 sz ltac:(lia)). nia. }
    destruct (le_lt_dec (length l) 12) as [L12|L12].
    + rewrite factorial_12 in * by exact L12. assert (F := fac_pos (length l)).
      rewrite u64_small in E by (unfold two64; nia).
      destruct (Z.ltb_spec gsize (sz * fac (length l))); [discriminate|].
      apply IH in E; [|nia|destruct Hyp as [|Hyp]; auto; right; intros; apply Hyp; now right].
      cbn [prodfac fold_right]. fold (prodfac o). rewrite E. ring.
    + exfalso. destruct Hyp as [Hyp|Hyp]; [|specialize (Hyp l (or_introl eq_refl)); lia].
      assert (X := proj1 (forallb_forall _ _) small_factorials (length l) ltac:(apply in_seq; lia)). apply Z.leb_le in X.
      rewrite u64_small in E by (unfold two64; nia).
      destruct (Z.ltb_spec gsize (sz * factorial (length l))) as [|Hge]; [discriminate|]. nia.
Qed.

Lemma rcoset_label_spec g r : wf_group g -> row_b (gb g) r ->
  (Z.of_nat (length (gv g)) < 109641728)%Z \/ (forall l, In l (go g) -> length l <= 12) ->
  exists l, rcoset_label g r = Ret l /\ is_least (fun y => exists x, In x (gv g) /\ y = comp x r) l.
Proof.
  intros W Hr Hyp. assert (Hb : gb g <= 256) by apply W. unfold rcoset_label. destruct (Nat.eqb_spec (length (gv g)) 1) as [E1|N1].
  - exists r. split; auto. destruct (gv g) as [|x [|? ?]] eqn:Ev; try discriminate.
    assert (Id : In (id_row (gb g)) [x]) by (rewrite <- Ev; apply W). destruct Id as [->|[]].
    split.
    + exists (id_row (gb g)). split; [now left|]. now rewrite (comp_id_l Hr).
    + intros y (z & [<-|[]] & ->). left. now apply comp_id_l.
  - destruct (6 <=? length (gv g)); cbn [andb].
    + destruct (is_direct_product_of_symmetric_groups (go g) (Z.of_nat (length (gv g)))) eqn:Ed.
      * apply orbit_label_least; auto. apply idp_loop_spec in Ed; auto; lia.
      * apply rcoset_generic; auto. now apply row_b_256 with (b := gb g).
    + apply rcoset_generic; auto. now apply row_b_256 with (b := gb g).
Qed.

Lemma least_unique P x y : is_least P x -> is_least P y -> x = y.
Proof.
  intros [A B] [C D]. destruct (B y C) as [|E]; auto. destruct (D x A) as [|F]; auto. exfalso. apply (@lex_irrefl x). eapply lex_trans; eauto.
Qed.
