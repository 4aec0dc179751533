(* P_Methodset.v - proofs about sets of methods. *)
From Verif Require Import Base M_Bell M_Change M_Row M_Extent M_Group M_Method M_Methodset Spec_Change Spec_Methodset Spec_Extent Spec_Row Spec_Group P_Perm P_Row P_Change2 P_Change3 P_Extent P_Group P_Group2 P_Extent3 Props_More.
From Coq Require Import Sorting.Sorted.
Set Implicit Arguments.
Unset Strict Implicit.
Open Scope nat_scope.

Lemma chg_lt a b : change_ltb a b = true <-> cn a < cn b \/ (cn a = cn b /\ lex_lt (cswaps a) (cswaps b)).
Proof.
  unfold change_ltb. rewrite orb_true_iff, andb_true_iff, Nat.ltb_lt, Nat.eqb_eq, lex_ltb_row.
  assert (X := row_ltb_spec (cswaps a) (cswaps b)). tauto.
Qed.
Lemma chg_irr a : change_ltb a a = false.
Proof. destruct (change_ltb a a) eqn:E; auto. apply chg_lt in E as [E|[_ E]]; [lia|]. now apply lex_irrefl in E. Qed.
Lemma chg_trans a b c : change_ltb a b = true -> change_ltb b c = true -> change_ltb a c = true.
Proof.
  intros H1 H2. apply chg_lt in H1, H2. apply chg_lt. destruct H1 as [H1|[E1 H1]], H2 as [H2|[E2 H2]]; try (left; lia).
  right. split; [lia|]. eapply lex_trans; eauto.
Qed.
Lemma chg_total a b : a = b \/ change_ltb a b = true \/ change_ltb b a = true.
Proof.
  rewrite !chg_lt. destruct (lt_eq_lt_dec (cn a) (cn b)) as [[H|H]|H]; auto.
  destruct (lex_total_all (cswaps a) (cswaps b)) as [E|[E|E]]; auto. left. now apply change_ext.
Qed.
Lemma chs_irr l : changes_ltb l l = false.
Proof. induction l as [|x l IH]; cbn; auto. now rewrite chg_irr. Qed.
Lemma chs_trans : forall x y z, changes_ltb x y = true -> changes_ltb y z = true -> changes_ltb x z = true.
Proof.
  induction x as [|x a IH]; intros [|y b] [|z c]; cbn; try discriminate; auto.
  destruct (change_ltb x y) eqn:E1; [|destruct (change_ltb y x) eqn:E2; [discriminate|]].
  - intros _. destruct (change_ltb y z) eqn:E3; [now rewrite (chg_trans E1 E3)|]. destruct (change_ltb z y) eqn:E4; [discriminate|].
    intros _. destruct (chg_total y z) as [<-|[K|K]]; [now rewrite E1|congruence|congruence].
  - intros H1. destruct (chg_total x y) as [<-|[K|K]]; [|congruence|congruence].
    destruct (change_ltb x z); auto. destruct (change_ltb z x); [discriminate|]. now apply IH.
Qed.
Lemma chs_total : forall x y, x = y \/ changes_ltb x y = true \/ changes_ltb y x = true.
Proof.
  induction x as [|x a IH]; intros [|y b]; cbn; auto. destruct (chg_total x y) as [<-|[K|K]].
  - rewrite (chg_irr x). destruct (IH b) as [->|[H|H]]; auto.
  - rewrite K. auto.
  - rewrite K. auto.
Qed.
Lemma chs_asym x y : changes_ltb x y = true -> changes_ltb y x = true -> False.
Proof. intros A B. assert (C := chs_trans A B). rewrite chs_irr in C. discriminate. Qed.
Lemma key_ltb a b : ment_ltb a b = true <-> key_lt a b.
Proof. reflexivity. Qed.
Lemma key_trans a b c : key_lt a b -> key_lt b c -> key_lt a c.
Proof. apply chs_trans. Qed.
Lemma key_ne a b : key_lt a b -> ent_key a <> ent_key b.
Proof. unfold key_lt. intros H E. rewrite E, chs_irr in H. discriminate. Qed.
Lemma same_key a b : negb (ment_ltb a b) && negb (ment_ltb b a) = true <-> ent_key a = ent_key b.
Proof.
  unfold ment_ltb, ent_key. rewrite andb_true_iff, !negb_true_iff. split.
  - intros [A B]. destruct (chs_total (mch (en_m a)) (mch (en_m b))) as [E|[E|E]]; congruence.
  - intros ->. rewrite chs_irr. auto.
Qed.
Notation sorted := (StronglySorted key_lt).

Lemma set_ins_in e l x : In x (set_ins e l) -> x = e \/ In x l.
Proof.
  induction l as [|y t IH]; cbn [set_ins]; [cbn; intuition|]. destruct (ment_ltb e y); [cbn; intuition|]. destruct (ment_ltb y e); cbn; intuition.
Qed.
Lemma set_ins_keep e l x : In x l -> In x (set_ins e l).
Proof.
  induction l as [|y t IH]; cbn [set_ins]; [cbn; intuition|]. destruct (ment_ltb e y); [cbn; intuition|]. destruct (ment_ltb y e); cbn; intuition.
Qed.
Lemma set_ins_sorted e l : sorted l -> sorted (set_ins e l).
Proof.
  induction 1 as [|y t S IH F]; cbn [set_ins]; [repeat constructor|]. destruct (ment_ltb e y) eqn:E1.
  - constructor; [now constructor|]. constructor; [exact E1|]. rewrite Forall_forall in *. intros z Z. eapply key_trans; [exact E1|]. auto.
  - destruct (ment_ltb y e) eqn:E2; [|now constructor]. constructor; auto. rewrite Forall_forall in *. intros z Z. apply set_ins_in in Z as [->|Z]; auto.
Qed.
Lemma sorted_inj l a b : sorted l -> In a l -> In b l -> ent_key a = ent_key b -> a = b.
Proof.
  induction 1 as [|y t S IH F]; [intros []|]. rewrite Forall_forall in F. intros [->|A] [->|B] E; auto.
  - exfalso. exact (key_ne (F _ B) E).
  - exfalso. exact (key_ne (F _ A) (eq_sym E)).
Qed.
(* a key that was there stays with its element; a new one comes with the element given *)
Lemma set_ins_spec e l : sorted l ->
  (forall x, In x l -> ent_key x = ent_key e -> set_ins e l = l) /\
  ((forall x, In x l -> ent_key x <> ent_key e) -> forall x, In x (set_ins e l) <-> x = e \/ In x l).
Proof.
  intros S. split.
  - induction S as [|y t S IH F]; [intros x []|]. rewrite Forall_forall in F. intros x I E. cbn [set_ins].
    destruct I as [->|I].
    + unfold ment_ltb. unfold ent_key in E. rewrite E, chs_irr. reflexivity.
    + assert (K : key_lt y e) by (unfold key_lt; rewrite <- E; apply F; auto).
      destruct (ment_ltb e y) eqn:E1; [exfalso; exact (chs_asym K E1)|]. apply key_ltb in K. rewrite K. f_equal. eauto.
  - intros N x. split; [apply set_ins_in|]. intros [->|I]; [|now apply set_ins_keep].
    induction S as [|y t S IH F]; cbn [set_ins]; [now left|]. destruct (ment_ltb e y) eqn:E1; [now left|]. destruct (ment_ltb y e) eqn:E2; [right; apply IH; intros x I; apply N; now right|].
    exfalso. apply (N y); [now left|]. apply same_key. now rewrite E1, E2.
Qed.
Lemma set_find_spec e l : match set_find e l with Some x => In x l /\ ent_key x = ent_key e | None => forall x, In x l -> ent_key x <> ent_key e end.
Proof.
  unfold set_find. destruct List.find as [x|] eqn:F.
  - apply find_some in F as [I K]. split; auto. now apply same_key.
  - intros x I E. apply (find_none _ _ F) in I. apply same_key in E. congruence.
Qed.

(* what the set s and the map a have in common *)
Definition rep (s : mset) (a : mmap) : Prop :=
  sorted (ms_data s) /\ (forall id, mm_ids a id <-> In id (ms_ids s)) /\
  forall k, match mm_get a k with
            | Some v => exists e, In e (ms_data s) /\ ent_key e = k /\ ent_says e v
            | None => forall e, In e (ms_data s) -> ent_key e <> k
            end.
Lemma rep_empty : rep mset_new map_empty.
Proof. split; [constructor|]. split; [cbn; tauto|]. cbn. intuition. Qed.
Lemma rep_ins l ids e a v : rep (mkMset l ids) a -> ent_says e v -> forall a',
  mm_ids a' = mm_ids a -> (forall k, mm_get a' k = keep_first (mm_get a) (ent_key e) v k) -> rep (mkMset (set_ins e l) ids) a'.
Proof.
  intros (S & I & R) V a' Ia Ra. cbn [ms_data ms_ids] in *. destruct (@set_ins_spec e l S) as [K1 K2].
  split; [now apply set_ins_sorted|]. split; [now rewrite Ia|]. cbn [ms_data]. intros k. rewrite Ra. unfold keep_first.
  assert (Re := R (ent_key e)). destruct (mm_get a (ent_key e)) as [w|] eqn:G.
  - destruct Re as (x & Ix & Ex & _). rewrite (K1 x Ix Ex). apply R.
  - unfold put. destruct changes_dec as [->|NE].
    + exists e. split; [|auto]. apply K2; auto.
    + assert (Rk := R k). destruct (mm_get a k) as [w|].
      * destruct Rk as (x & Ix & Ex). exists x. split; [|exact Ex]. apply K2; auto.
      * intros x Ix. apply K2 in Ix as [->|Ix]; auto.
Qed.
Lemma facet_set e id v x : ent_facet (ent_set_facet e id v) x = if x =? id then Some v else ent_facet e x.
Proof. unfold ent_facet, ent_set_facet. cbn [en_facets List.find fst]. rewrite Nat.eqb_sym. destruct (x =? id); reflexivity. Qed.
Lemma ent_of_spec src ids : en_m (ent_of src ids) = ls_m src /\ en_name (ent_of src ids) = ls_name src /\
  forall id, (In id ids -> ent_facet (ent_of src ids) id = ls_facet src id) /\ (~ In id ids -> ent_facet (ent_of src ids) id = None).
Proof.
  unfold ent_of.
  assert (G : forall ids e, let e' := fold_left (fun e id => match ls_facet src id with Some v => ent_set_facet e id v | None => e end) ids e in
    en_m e' = en_m e /\ en_name e' = en_name e /\ forall id, (In id ids -> (ent_facet e id = None \/ ent_facet e id = ls_facet src id) -> ent_facet e' id = ls_facet src id) /\ (~ In id ids -> ent_facet e' id = ent_facet e id)).
  { clear. induction ids as [|i ids IH]; intros e e'; [subst e'; cbn; intuition|]. subst e'. cbn [fold_left].
    set (e1 := match ls_facet src i with Some v => ent_set_facet e i v | None => e end).
    specialize (IH e1). cbv zeta in IH. destruct IH as (A & B & C).
    assert (E1 : en_m e1 = en_m e /\ en_name e1 = en_name e) by (subst e1; destruct (ls_facet src i); auto). destruct E1 as [-> ->] in A, B |- *.
    split; [exact A|]. split; [exact B|].
    assert (F : forall id, ent_facet e1 id = if id =? i then (match ls_facet src i with Some v => Some v | None => ent_facet e id end) else ent_facet e id).
    { intros id. subst e1. destruct (ls_facet src i); [apply facet_set|]. destruct (id =? i); reflexivity. }
    intros id. destruct (C id) as [C1 C2]. split.
    - intros I Z. assert (Z' : ent_facet e1 id = None \/ ent_facet e1 id = ls_facet src id).
      { rewrite F. destruct (Nat.eqb_spec id i) as [->|]; [|exact Z]. destruct (ls_facet src i); auto. }
      destruct (in_dec Nat.eq_dec id ids) as [J|J]; [auto|]. rewrite (C2 J), F. destruct I as [->|I]; [|contradiction]. rewrite Nat.eqb_refl. destruct (ls_facet src id); auto. intuition.
    - intros N. rewrite C2 by (intros I; apply N; now right). rewrite F. destruct (Nat.eqb_spec id i) as [->|]; auto. exfalso. apply N. now left. }
  specialize (G ids (mkMent (ls_m src) (ls_name src) [])). cbv zeta in G. destruct G as (A & B & C). split; [exact A|]. split; [exact B|].
  intros id. destruct (C id) as [C1 C2]. split; [intros I; apply C1; auto|intros I; rewrite (C2 I); reflexivity].
Qed.
Lemma says_ext e v v' : ent_says e v -> fst v = fst v' -> (forall id, snd v id = snd v' id) -> ent_says e v'.
Proof. destruct v as [[m n] g], v' as [[m' n'] g']. cbn. intros (A & B & C) [= <- <-] E. repeat split; auto. intros id. now rewrite C. Qed.
Lemma rep_append s a src a' : rep s a -> add_src a src a' -> rep (mset_append s src) a'.
Proof.
  intros R (Ia & g & Fg & Ga). destruct s as [l ids]. unfold mset_append. cbn [ms_data ms_ids]. destruct (ent_of_spec src ids) as (A & B & C).
  assert (I := proj1 (proj2 R)). cbn [ms_ids] in I.
  apply (@rep_ins l ids _ a (ls_m src, ls_name src, g) R); [|exact Ia|].
  - cbn. split; [exact A|]. split; [exact B|]. intros id. destruct (C id) as [C1 C2], (Fg id) as [F1 F2]. destruct (in_dec Nat.eq_dec id ids) as [J|J].
    + rewrite C1 by auto. symmetry. apply F1. now apply I.
    + rewrite C2 by auto. symmetry. apply F2. now rewrite I.
  - unfold ent_key. rewrite A. exact Ga.
Qed.
Lemma rep_appends l : forall s a a', rep s a -> add_srcs a l a' -> rep (fold_left mset_append l s) a'.
Proof.
  induction l as [|x l IH]; intros s a a' R A; inversion A; subst; auto. cbn [fold_left]. eapply IH; [|eassumption]. eapply rep_append; eauto.
Qed.
Lemma set_facet_map m id v l : sorted l ->
  let l' := map (fun x => if negb (ment_ltb x (mkMent m [] [])) && negb (ment_ltb (mkMent m [] []) x) then ent_set_facet x id v else x) l in
  sorted l' /\ forall y, In y l' <-> exists x, In x l /\ y = (if changes_dec (ent_key x) (mch m) then ent_set_facet x id v else x).
Proof.
  intros S l'. set (f := fun x => if negb (ment_ltb x (mkMent m [] [])) && negb (ment_ltb (mkMent m [] []) x) then ent_set_facet x id v else x) in l'.
  assert (K : forall x, ent_key (f x) = ent_key x) by (intros x; unfold f; destruct (_ && _); reflexivity).
  assert (F : forall x, f x = if changes_dec (ent_key x) (mch m) then ent_set_facet x id v else x).
  { intros x. unfold f. destruct (_ && _) eqn:E; destruct changes_dec as [E'|E']; auto.
    - apply same_key in E. contradiction.
    - change (mch m) with (ent_key (mkMent m [] [])) in E'. apply same_key in E'. congruence. }
  split.
  - subst l'. induction S as [|x t S IH H]; cbn [map]; constructor; auto. rewrite Forall_forall in *. intros y Y. apply in_map_iff in Y as (z & <- & Z). unfold key_lt. rewrite !K. now apply H.
  - intros y. subst l'. rewrite in_map_iff. split; intros (x & A & B); exists x; rewrite F in *; auto.
Qed.
Lemma rep_do s a o a' : rep s a -> map_step a o a' -> rep (mset_do s o) a'.
Proof.
  intros R H. destruct H as [src a' A|l a' A|m name| |id|m id v]; cbn [mset_do].
  - eapply rep_append; eauto.
  - unfold mset_append_all. cbn [fst]. eapply rep_appends; eauto.
  - destruct s as [l ids]. unfold mset_append_m. cbn [ms_data ms_ids]. eapply (@rep_ins l ids _ a (m, name, fun _ => None) R); [cbn; auto|reflexivity|]. intros k. reflexivity.
  - destruct R as (S & I & _). split; [constructor|]. split; [exact I|]. cbn. auto.
  - destruct R as (S & I & R). split; [exact S|]. split; [|exact R]. cbn. intros x. rewrite I, in_app_iff. cbn. intuition.
  - destruct R as (S & I & R). unfold mset_set_facet. destruct (@set_facet_map m id v _ S) as [S' M]. cbv zeta in S', M.
    split; [exact S'|]. split; [exact I|]. cbn [ms_data mm_get]. intros k. specialize (R k). destruct changes_dec as [->|NE].
    + destruct (mm_get a (mch m)) as [[[m' n] g]|].
      * destruct R as (e & Ie & Ke & E1 & E2 & E3). exists (ent_set_facet e id v). split; [apply M; exists e; split; auto; rewrite Ke; now destruct changes_dec|].
        split; [exact Ke|]. split; [exact E1|]. split; [exact E2|]. intros x. rewrite facet_set. destruct (x =? id); auto.
      * intros e Ie. apply M in Ie as (x & Ix & ->). destruct changes_dec; apply (R x Ix).
    + destruct (mm_get a k) as [w|].
      * destruct R as (e & Ie & Ke & E). exists e. split; [apply M; exists e; split; auto; rewrite Ke; destruct changes_dec; congruence|]. auto.
      * intros e Ie. apply M in Ie as (x & Ix & ->). destruct changes_dec; apply (R x Ix).
Qed.
Lemma rep_dos ops : forall s a a', rep s a -> map_steps a ops a' -> rep (mset_dos s ops) a'.
Proof.
  induction ops as [|o ops IH]; intros s a a' R A; inversion A; subst; auto. cbn [mset_dos fold_left]. eapply IH; [|eassumption]. eapply rep_do; eauto.
Qed.
(* there is a map for every history *)
Lemma add_src_ex s a src : rep s a -> exists a', add_src a src a'.
Proof.
  intros (_ & I & _). destruct (ent_of_spec src (ms_ids s)) as (_ & _ & C).
  eexists (mkMmap _ _). split; [cbn; reflexivity|]. exists (ent_facet (ent_of src (ms_ids s))). split; [|intros k; cbn; reflexivity].
  intros id. destruct (C id) as [C1 C2]. split; intros H; [apply C1; now apply I|apply C2; now rewrite <- I].
Qed.
Lemma add_srcs_ex l : forall s a, rep s a -> exists a', add_srcs a l a'.
Proof.
  induction l as [|x l IH]; intros s a R; [eexists; constructor|]. destruct (add_src_ex x R) as (a1 & A1).
  destruct (IH _ _ (rep_append R A1)) as (a2 & A2). exists a2. econstructor; eauto.
Qed.
Lemma map_step_ex s a o : rep s a -> exists a', map_step a o a'.
Proof.
  intros R. destruct o; try (eexists; constructor; fail).
  - destruct (add_src_ex src R) as (a' & A). eauto using map_step.
  - destruct (add_srcs_ex l R) as (a' & A). eauto using map_step.
Qed.
Lemma map_steps_ex ops : forall s a, rep s a -> exists a', map_steps a ops a'.
Proof.
  induction ops as [|o ops IH]; intros s a R; [eexists; constructor|]. destruct (map_step_ex o R) as (a1 & A1).
  destruct (IH _ _ (rep_do R A1)) as (a2 & A2). exists a2. econstructor; eauto.
Qed.

(* going on from an element *)
Lemma after_key_spec k l : sorted l -> (exists x, In x l /\ ent_key x = ent_key k) ->
  exists t, after_key k l = Some t /\ sorted t /\ forall y, In y t <-> In y l /\ key_lt k y.
Proof.
  intros S. induction S as [|x t S IH F]; [intros (x & [] & _)|]. rewrite Forall_forall in F. intros (y & I & E). cbn [after_key].
  destruct (negb (ment_ltb x k) && negb (ment_ltb k x)) eqn:K.
  - exists t. split; [reflexivity|]. split; [exact S|]. apply same_key in K. intros z. split.
    + intros Z. split; [now right|]. unfold key_lt. rewrite <- K. now apply F.
    + intros [[->|Z] L]; auto. exfalso. exact (key_ne L (eq_sym K)).
  - destruct I as [->|I]; [apply same_key in E; congruence|]. destruct (IH (ex_intro _ y (conj I E))) as (t' & A & B & C). exists t'. split; [exact A|]. split; [exact B|].
    intros z. rewrite C. split; [intros [Z L]; split; auto; now right|]. intros [[->|Z] L]; auto. exfalso.
    assert (M := F _ I). unfold key_lt in M, L. rewrite E in M. exact (chs_asym M L).
Qed.
(* operations other than clear keep the keys *)
Lemma do_keeps s o : sorted (ms_data s) -> no_clear o -> sorted (ms_data (mset_do s o)) /\ forall e, In e (ms_data s) -> exists e', In e' (ms_data (mset_do s o)) /\ ent_key e' = ent_key e.
Proof.
  intros S N. destruct o; cbn [mset_do]; try congruence.
  - split; [now apply set_ins_sorted|]. intros e I. exists e. split; auto. now apply set_ins_keep.
  - split; [now apply set_ins_sorted|]. intros e I. exists e. split; auto. now apply set_ins_keep.
  - unfold mset_append_all. cbn [fst]. clear N; revert s S. induction l as [|x l IH]; intros s S; cbn [fold_left]; [split; eauto|].
    destruct (IH (mset_append s x)) as [A B]; [now apply set_ins_sorted|]. split; auto. intros e I. apply B. now apply set_ins_keep.
  - split; [exact S|]. eauto.
  - unfold mset_set_facet. destruct (@set_facet_map m id v _ S) as [S' M]. split; [exact S'|]. intros e I. eexists. split; [apply M; eauto|]. destruct changes_dec; reflexivity.
Qed.
Lemma dos_keeps l : forall s, sorted (ms_data s) -> Forall no_clear l -> sorted (ms_data (mset_dos s l)) /\ forall e, In e (ms_data s) -> exists e', In e' (ms_data (mset_dos s l)) /\ ent_key e' = ent_key e.
Proof.
  induction l as [|o l IH]; intros s S F; cbn [mset_dos fold_left]; [split; eauto|]. inversion F as [|? ? N F']; subst.
  destruct (do_keeps S N) as [A B]. destruct (IH _ A F') as [C D]. split; [exact C|]. intros e I. destruct (B e I) as (e1 & I1 & E1). destruct (D e1 I1) as (e2 & I2 & E2). exists e2. split; auto. congruence.
Qed.
Definition from (it : option ment) (e : ment) : Prop := match it with None => True | Some k => key_lt k e end.
Lemma readentry_spec s it : sorted (ms_data s) -> match it with Some k => exists x, In x (ms_data s) /\ ent_key x = ent_key k | None => True end ->
  exists t, mset_readentry s it = Ret (hd_error t) /\ sorted t /\ forall y, In y t <-> In y (ms_data s) /\ from it y.
Proof.
  intros S H. destruct it as [k|]; cbn [mset_readentry].
  - destruct (after_key_spec S H) as (t & -> & A & B). exists t. auto.
  - exists (ms_data s). split; auto. split; auto. cbn. tauto.
Qed.
Lemma visit_S fuel s it todo : mset_visit (Datatypes.S fuel) s it todo = (it <- mset_readentry s it ;;
    match it with
    | None => Ret ([], s)
    | Some x => '(r, s) <- mset_visit fuel (mset_dos s (List.hd [] todo)) (Some x) (tl todo) ;; Ret (x :: r, s)
    end).
Proof. reflexivity. Qed.
Lemma visit_plain : forall n s it t, sorted (ms_data s) -> match it with Some k => exists x, In x (ms_data s) /\ ent_key x = ent_key k | None => True end ->
  sorted t -> (forall y, In y t <-> In y (ms_data s) /\ from it y) -> length t <= n -> mset_visit (S n) s it [] = Ret (t, s).
Proof.
  induction n as [|n IH]; intros s it t S H St T L; rewrite visit_S; destruct (readentry_spec S H) as (t' & -> & St' & T');
    assert (TT : t' = t).
  1, 3: try clear IH; clear L; assert (TE : forall y, In y t' <-> In y t) by (intros y; rewrite T, T'; tauto); clear T T' H; revert t' St' TE; induction St as [|x u Su IHu Fu]; intros t' St' TE;
    [destruct t' as [|y t']; auto; exfalso; apply (TE y); now left|];
    destruct St' as [|y t' St' Ft']; [exfalso; apply (TE x); now left|]; rewrite Forall_forall in Fu, Ft';
    assert (E : y = x) by (destruct (proj1 (TE y) (or_introl eq_refl)) as [|I1]; auto; destruct (proj2 (TE x) (or_introl eq_refl)) as [|I2]; auto; exfalso; exact (chs_asym (Fu _ I1) (Ft' _ I2)));
    subst y; f_equal; apply IHu; auto; intros z; split; intros Z;
    [destruct (proj1 (TE z) (or_intror Z)) as [<-|]; auto; exfalso; exact (key_ne (Ft' _ Z) eq_refl)|
     destruct (proj2 (TE z) (or_intror Z)) as [<-|]; auto; exfalso; exact (key_ne (Fu _ Z) eq_refl)].
  - subst t'. destruct t; [reflexivity|cbn in L; lia].
  - subst t'. destruct t as [|x u]; [reflexivity|]. cbn [hd_error bind List.hd tl mset_dos fold_left].
    inversion St as [|? ? Su Fu]; subst. rewrite Forall_forall in Fu.
    assert (Ix : In x (ms_data s)) by (apply T; now left).
    rewrite (IH s (Some x) u); auto; [eauto| |cbn in L; lia].
    intros y. cbn [from]. split.
    + intros I. split; [apply T; now right|auto].
    + intros [I K]. assert (J : In y (x :: u)). { apply T. split; auto. destruct it as [k|]; cbn; auto. eapply key_trans; [|exact K]. apply (T x). now left. }
      destruct J as [->|J]; auto. exfalso. exact (key_ne K eq_refl).
Qed.
Lemma visit_spec : forall todo s it, sorted (ms_data s) -> Forall (Forall no_clear) todo -> match it with Some k => exists x, In x (ms_data s) /\ ent_key x = ent_key k | None => True end ->
  exists n r, (forall fuel, n <= fuel -> mset_visit fuel s it todo = Ret (r, mset_dos s (concat (firstn (length r) todo)))) /\
    sorted r /\ (forall x, In x r -> from it x) /\
    (forall x, In x (ms_data s) -> from it x -> exists y, In y r /\ ent_key y = ent_key x) /\
    (forall y, In y r -> exists x, In x (ms_data (mset_dos s (concat (firstn (length r) todo)))) /\ ent_key x = ent_key y).
Proof.
  induction todo as [|ops todo IH]; intros s it S F H.
  - destruct (readentry_spec S H) as (t & _ & St & T). exists (Datatypes.S (length t)), t. rewrite firstn_nil. split.
    + intros fuel L. destruct fuel as [|n]; [lia|]. apply visit_plain; auto. lia.
    + split; [exact St|]. split; [intros x I; now apply T|]. split; [intros x I K; exists x; split; auto; now apply T|]. intros y I. exists y. split; auto. now apply T.
  - inversion F as [|? ? F1 F2]; subst. destruct (readentry_spec S H) as (t & R & St & T). destruct t as [|x u].
    + exists 1, []. split; [|split; [constructor|split; [intros x []|split; [|intros y []]]]].
      * intros fuel L. destruct fuel as [|n]; [lia|]. cbn [mset_visit]. rewrite R. reflexivity.
      * intros x I K. exfalso. apply (proj2 (T x)). auto.
    + assert (Ix : In x (ms_data s) /\ from it x) by (apply T; now left). destruct Ix as [Ix Fx]. inversion St as [|? ? Su Fu]; subst. rewrite Forall_forall in Fu.
      destruct (dos_keeps S F1) as [S1 K1]. destruct (K1 x Ix) as (x' & Ix' & Ex').
      destruct (IH (mset_dos s ops) (Some x) S1 F2 (ex_intro _ x' (conj Ix' Ex'))) as (n & r & V & Sr & A & B & C).
      exists (Datatypes.S n), (x :: r). cbn [length firstn concat]. assert (D : forall l, mset_dos s (ops ++ l) = mset_dos (mset_dos s ops) l) by (intros l; apply fold_left_app).
      rewrite D. split; [|split; [|split; [|split]]].
      * intros fuel L. destruct fuel as [|m]; [lia|]. cbn [mset_visit]. rewrite R. cbn [hd_error bind List.hd tl]. rewrite V by lia. reflexivity.
      * constructor; auto. apply Forall_forall. intros y Y. exact (A y Y).
      * intros y [<-|Y]; auto. destruct it as [k|]; cbn [from]; auto. eapply key_trans; [exact Fx|exact (A y Y)].
      * intros y Iy Fy. assert (J : In y (x :: u)) by (now apply T). destruct J as [<-|J]; [exists x; split; auto; now left|].
        destruct (K1 y Iy) as (y' & Iy' & Ey'). destruct (B y' Iy') as (z & Iz & Ez).
        { cbn. unfold key_lt. rewrite Ey'. apply Fu. exact J. }
        exists z. split; [now right|]. congruence.
      * assert (F3 : Forall no_clear (concat (firstn (length r) todo))).
        { apply Forall_concat. rewrite Forall_forall in F2 |- *. intros l L. apply F2. rewrite <- (firstn_skipn (length r) todo); apply in_or_app; now left. }
        intros y [<-|Y]; [|now apply C]. destruct (dos_keeps S1 F3) as [_ K3]. destruct (K3 x' Ix') as (x2 & I2 & E2). exists x2. split; auto. congruence.
Qed.
