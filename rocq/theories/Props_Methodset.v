(* Props_Methodset.v - property theorems about sets of methods. *)
From Verif Require Import Base M_Bell M_Change M_Row M_Method M_Methodset Spec_Change Spec_Method Spec_Methodset P_Methodset.
From Coq Require Import Sorting.Sorted.
Set Implicit Arguments.
Unset Strict Implicit.
Open Scope nat_scope.

(* C56: the order that the set uses is a strict total order on lists of changes *)
Theorem C56_order : (forall a, changes_ltb a a = false) /\
  (forall a b c, changes_ltb a b = true -> changes_ltb b c = true -> changes_ltb a c = true) /\
  (forall a b, a = b \/ changes_ltb a b = true \/ changes_ltb b a = true).
Proof. split; [exact chs_irr|]. split; [exact chs_trans|exact chs_total]. Qed.
Print Assumptions C56_order.

(* after any operations the set is the map that they make: find looks up, going through the set
   visits what is in it once each, in order, size is how many *)
Theorem C56_history : forall ops, (exists a, map_steps map_empty ops a) /\
  forall a, map_steps map_empty ops a -> let s := mset_dos mset_new ops in
  (forall m, match mset_find s m with
             | Some e => exists v, mm_get a (mch m) = Some v /\ ent_says e v
             | None => mm_get a (mch m) = None
             end) /\
  exists l, (forall fuel, length l < fuel -> mset_visit fuel s None [] = Ret (l, s)) /\
    StronglySorted key_lt l /\ mset_size s = length l /\
    (forall k, mm_get a k <> None <-> In k (map ent_key l)) /\
    (forall e, In e l -> exists v, mm_get a (ent_key e) = Some v /\ ent_says e v).
Proof.
  intros ops. split; [exact (map_steps_ex ops rep_empty)|]. intros a A s. assert (R := rep_dos rep_empty A). fold s in R. destruct R as (S & _ & R).
  assert (Q : forall e, In e (ms_data s) -> exists v, mm_get a (ent_key e) = Some v /\ ent_says e v).
  { intros e I. specialize (R (ent_key e)). destruct (mm_get a (ent_key e)) as [v|]; [|exfalso; exact (R e I eq_refl)].
    destruct R as (x & Ix & Ex & Sx). rewrite (sorted_inj S Ix I Ex) in Sx. eauto. }
  split.
  - intros m. unfold mset_find. assert (F := set_find_spec (mkMent m [] []) (ms_data s)). destruct set_find as [e|].
    + destruct F as [I E]. change (mch m) with (ent_key (mkMent m [] [])). rewrite <- E. now apply Q.
    + specialize (R (mch m)). destruct (mm_get a (mch m)); auto. destruct R as (x & Ix & Ex & _). exfalso. exact (F x Ix Ex).
  - exists (ms_data s). split; [|split; [exact S|split; [reflexivity|split; [|exact Q]]]].
    + intros fuel L. destruct fuel as [|n]; [lia|]. apply visit_plain; auto; cbn; try tauto. lia.
    + intros k. rewrite in_map_iff. split.
      * intros N. specialize (R k). destruct (mm_get a k) as [v|]; [|congruence]. destruct R as (x & Ix & Ex & _). eauto.
      * intros (e & <- & I). destruct (Q e I) as (v & E & _). congruence.
Qed.
Print Assumptions C56_history.

(* a loop over the set that changes it on the way, but not by clear, ends; it visits every method
   that was in the set at the start, never one twice, in order, and only methods of the set *)
Theorem C56_loop : forall ops todo, Forall (Forall no_clear) todo -> let s := mset_dos mset_new ops in
  exists n r, let s' := mset_dos s (concat (firstn (length r) todo)) in
    (forall fuel, n <= fuel -> mset_visit fuel s None todo = Ret (r, s')) /\ StronglySorted key_lt r /\
    (forall m, mset_find s m <> None -> In (mch m) (map ent_key r)) /\
    (forall m, In (mch m) (map ent_key r) -> mset_find s' m <> None).
Proof.
  intros ops todo F s. destruct (map_steps_ex ops rep_empty) as (a & A). assert (R := rep_dos rep_empty A). fold s in R. destruct R as (S & _ & _).
  destruct (@visit_spec todo s None S F I) as (n & r & V & Sr & _ & B & C). exists n, r. cbv zeta. split; [exact V|]. split; [exact Sr|]. split.
  - intros m N. unfold mset_find in N. assert (X := set_find_spec (mkMent m [] []) (ms_data s)). destruct set_find as [e|]; [|congruence].
    destruct X as [Ie Ee]. destruct (B e Ie I) as (y & Iy & Ey). apply in_map_iff. exists y. split; auto. rewrite Ey. exact Ee.
  - intros m M. apply in_map_iff in M as (y & Ey & Iy). destruct (C y Iy) as (x & Ix & Ex). unfold mset_find.
    assert (X := set_find_spec (mkMent m [] []) (ms_data (mset_dos s (concat (firstn (length r) todo))))). destruct set_find; [discriminate|].
    exfalso. apply (X x Ix). rewrite Ex. exact Ey.
Qed.
Print Assumptions C56_loop.

(* clearing the set in the loop is undefined *)
Theorem C56_clear_ub : forall s e t fuel rest, ms_data s = e :: t -> mset_visit (S (S fuel)) s None ([OpClear] :: rest) = UB.
Proof. intros s e t fuel rest E. cbn. rewrite E. reflexivity. Qed.
Print Assumptions C56_clear_ub.

(* appending a range gives back how many were in the range, not how many came into the set *)
Theorem C56_range : forall s l, snd (mset_append_all s l) = length l /\ fst (mset_append_all s l) = mset_dos s (map OpAppend l).
Proof.
  intros s l. split; [reflexivity|]. unfold mset_append_all. cbn [fst]. revert s. induction l as [|x l IH]; intros s; [reflexivity|]. cbn. rewrite IH. reflexivity.
Qed.
Print Assumptions C56_range.
Definition bob4 : method := mkMethod [mkChange 4 [0; 2]; mkChange 4 [1]] 4.
Theorem C56_range_refuted : exists s l, mset_size (fst (mset_append_all s l)) <> mset_size s + snd (mset_append_all s l).
Proof. exists mset_new, [mkLsrc bob4 (str "A") (fun _ => None); mkLsrc bob4 (str "B") (fun _ => None)]. vm_compute. discriminate. Qed.
Print Assumptions C56_range_refuted.
(* methods are told apart by their changes alone: methods without changes on different numbers of bells are one *)
Theorem C56_empty_refuted : exists e, mset_find (mset_append_m mset_new (mkMethod [] 4) (str "A")) (mkMethod [] 6) = Some e /\ mb (en_m e) = 4.
Proof. eexists. split; reflexivity. Qed.
Print Assumptions C56_empty_refuted.

Definition C56_ops : list mop :=
  [OpStore 7; OpAppend (mkLsrc bob4 (str "First") (fun id => if id <? 8 then Some (str "f") else None)); OpAppendM bob4 (str "Second");
   OpAppendM (mkMethod [mkChange 4 [1]] 4) (str "Third"); OpFacet bob4 9 (str "g")].
Example C56_ex : let s := mset_dos mset_new C56_ops in mset_size s = 2 /\
  exists e, mset_find s bob4 = Some e /\ en_name e = str "First" /\ ent_facet e 7 = Some (str "f") /\ ent_facet e 9 = Some (str "g") /\ ent_facet e 5 = None.
Proof. split; [reflexivity|]. eexists. repeat split; vm_compute; reflexivity. Qed.
Example C56_ex_loop : Forall (Forall no_clear) [[OpAppendM (mkMethod [mkChange 4 []] 4) (str "X")]; [OpAppendM (mkMethod [mkChange 4 [2]] 4) (str "Y")]] /\
  exists r s', mset_visit 9 (mset_dos mset_new C56_ops) None [[OpAppendM (mkMethod [mkChange 4 []] 4) (str "X")]; [OpAppendM (mkMethod [mkChange 4 [2]] 4) (str "Y")]] = Ret (r, s') /\
    map en_name r = [str "First"; str "Third"; str "Y"] /\ mset_size s' = 4.
Proof. split; [repeat constructor; discriminate|]. do 2 eexists. split; [vm_compute; reflexivity|]. split; vm_compute; reflexivity. Qed.
