(* P_Splices5.v - splices: the table of groups of methods. *)
From Verif Require Import Base M_Bell M_Change M_Math M_Row M_Extent M_Group M_Touch M_PN M_Method M_False M_Splices
  Spec_Row Spec_Change Spec_Touch Spec_Group Spec_Method Spec_Splices.
From Coq Require Import Permutation Relations.
Set Implicit Arguments.
Unset Strict Implicit.
Open Scope nat_scope.

Lemma desc_eqb_eq a b : desc_eqb a b = true <-> a = b.
Proof.
  destruct a as [l p s], b as [l' p' s']. unfold desc_eqb. cbn [d_leads d_pivot d_swaps]. rewrite !andb_true_iff, Nat.eqb_eq.
  assert (P : opt_eqb Nat.eqb p p' = true <-> p = p').
  { destruct p, p'; cbn; try (intuition discriminate). rewrite Nat.eqb_eq. intuition congruence. }
  assert (S : opt_eqb (fun p q : nat * nat => (fst p =? fst q) && (snd p =? snd q)) s s' = true <-> s = s').
  { destruct s as [[u v]|], s' as [[u' v']|]; cbn; try (intuition discriminate). rewrite andb_true_iff, !Nat.eqb_eq. intuition congruence. }
  rewrite P, S. intuition congruence.
Qed.

Section T.
Variable D : method -> Prop.
Hypothesis EQ : forall x y, D x -> D y -> (meth_eqb x y = true <-> x = y).
Lemma mem_in x s : D x -> Forall D s -> (mem x s = true <-> In x s).
Proof.
  intros Dx F. unfold mem. rewrite existsb_exists. rewrite Forall_forall in F. split.
  - intros (y & Hy & E). apply EQ in E; auto. now subst.
  - intros H. exists x. split; [exact H|]. apply EQ; auto.
Qed.
Lemma insert_spec x s : D x -> Forall D s -> NoDup s -> Forall D (insert x s) /\ NoDup (insert x s) /\ forall y, In y (insert x s) <-> In y s \/ y = x.
Proof.
  intros Dx F N. unfold insert. destruct (mem x s) eqn:M.
  - split; [exact F|]. split; [exact N|]. apply mem_in in M; auto. intros y. split; [auto|]. intros [H | ->]; auto.
  - assert (NI : ~ In x s) by (intros H; apply mem_in in H; auto; congruence). split; [apply Forall_app; auto|]. split.
    + eapply Permutation_NoDup; [apply Permutation_cons_append|]. now constructor.
    + intros y. rewrite in_app_iff. cbn. intuition.
Qed.
Lemma insert_all_spec l : forall s, Forall D l -> Forall D s -> NoDup s -> Forall D (insert_all l s) /\ NoDup (insert_all l s) /\ forall y, In y (insert_all l s) <-> In y s \/ In y l.
Proof.
  induction l as [|x l IH]; intros s Fl F N; cbn [insert_all fold_left].
  - split; [exact F|]. split; [exact N|]. cbn. tauto.
  - inversion_clear Fl as [|? ? Dx Fl']. destruct (insert_spec Dx F N) as (F1 & N1 & I1). destruct (IH _ Fl' F1 N1) as (F2 & N2 & I2).
    split; [exact F2|]. split; [exact N2|]. intros y. unfold insert_all in I2. rewrite I2, I1. cbn [In]. intuition.
Qed.

Definition ok_entry (e : entry) : Prop := Forall D (snd e) /\ NoDup (snd e).
Variables (a b : method) (d : splice_desc).
Hypothesis (Da : D a) (Db : D b).
Notation hit := (hit_entry a b d).
Lemma hit_spec e : ok_entry e -> (hit e = true <-> fst e = d /\ (In a (snd e) \/ In b (snd e))).
Proof.
  intros [F N]. unfold hit_entry. rewrite andb_true_iff, orb_true_iff, desc_eqb_eq, !mem_in by auto. intuition.
Qed.
Lemma merge_spec t : forall s, Forall ok_entry t -> Forall D s -> NoDup s -> exists s', merge_rest a b d s t = (s', filter (fun e => negb (hit e)) t) /\
  Forall D s' /\ NoDup s' /\ forall x, In x s' <-> In x s \/ exists e, In e t /\ hit e = true /\ In x (snd e).
Proof.
  induction t as [|e t IH]; intros s Ft F N; cbn [merge_rest filter].
  - exists s. split; [reflexivity|]. split; [exact F|]. split; [exact N|]. intros x. split; [auto|]. intros [H|(e & [] & _)]. exact H.
  - inversion_clear Ft as [|? ? Oe Ft']. destruct (hit e) eqn:H; cbn [negb].
    + destruct (@insert_all_spec (snd e) s (proj1 Oe) F N) as (F1 & N1 & I1). destruct (IH _ Ft' F1 N1) as (s' & E & F2 & N2 & I2). exists s'. split; [exact E|]. split; [exact F2|]. split; [exact N2|].
      intros x. rewrite I2, I1. split.
      * intros [[X|X]|(e' & X & Y)]; [auto| |]; right; [exists e|exists e']; cbn [In]; auto.
      * intros [X|(e' & [<-|X] & Y & Z)]; auto. right. exists e'. auto.
    + destruct (IH s Ft' F N) as (s' & E & F2 & N2 & I2). rewrite E. exists s'. split; [reflexivity|]. split; [exact F2|]. split; [exact N2|]. intros x. rewrite I2. split.
      * intros [X|(e' & X & Y)]; [auto|]. right. exists e'. cbn [In]. auto.
      * intros [X|(e' & [<-|X] & Y & Z)]; auto; [congruence|]. right. exists e'. auto.
Qed.
Lemma save_spec t : Forall ok_entry t -> exists s', Permutation (save_splice a b d t) ((d, s') :: filter (fun e => negb (hit e)) t) /\
  Forall D s' /\ NoDup s' /\ forall x, In x s' <-> x = a \/ x = b \/ exists e, In e t /\ hit e = true /\ In x (snd e).
Proof.
  induction t as [|e t IH]; intros Ft; cbn [save_splice filter].
  - destruct (@insert_spec a [] Da (Forall_nil _) (NoDup_nil _)) as (F1 & N1 & I1). destruct (insert_spec Db F1 N1) as (F2 & N2 & I2). exists (insert b (insert a [])). split; [reflexivity|]. split; [exact F2|]. split; [exact N2|].
    intros x. rewrite I2, I1. cbn [In]. split; [intros [[[]|X]|X]; auto|]. intros [X|[X|(e & [] & _)]]; auto.
  - inversion_clear Ft as [|? ? Oe Ft']. destruct (hit e) eqn:H; cbn [negb].
    + destruct (insert_spec Da (proj1 Oe) (proj2 Oe)) as (F1 & N1 & I1). destruct (insert_spec Db F1 N1) as (F2 & N2 & I2). destruct (merge_spec Ft' F2 N2) as (s' & E & F3 & N3 & I3). rewrite E. exists s'.
      apply (hit_spec Oe) in H as H'. destruct H' as [<- _]. split; [reflexivity|]. split; [exact F3|]. split; [exact N3|]. intros x. rewrite I3, I2, I1. split.
      * intros [[[X|X]|X]|(e' & X & Y)]; auto; right; right; [exists e|exists e']; cbn [In]; auto.
      * intros [X|[X|(e' & [<-|X] & Y & Z)]]; auto. right. exists e'. auto.
    + destruct (IH Ft') as (s' & P & F2 & N2 & I2). exists s'. split.
      { eapply perm_trans; [apply perm_skip, P|]. apply perm_swap. }
      split; [exact F2|]. split; [exact N2|]. intros x. rewrite I2. split.
      * intros [X|[X|(e' & X & Y)]]; auto. right. right. exists e'. cbn [In]. auto.
      * intros [X|[X|(e' & [<-|X] & Y & Z)]]; auto; [congruence|]. right. right. exists e'. auto.
Qed.
End T.

(* all the methods in the entries with one description *)
Definition under (d : splice_desc) (t : list entry) : list method := flat_map snd (filter (fun e => desc_eqb d (fst e)) t).
Lemma under_in d t x : In x (under d t) <-> exists e, In e t /\ fst e = d /\ In x (snd e).
Proof.
  unfold under. rewrite in_flat_map. split.
  - intros (e & H & I). apply filter_In in H as [H E]. apply desc_eqb_eq in E. exists e. auto.
  - intros (e & H & E & I). exists e. split; [|exact I]. apply filter_In. split; [exact H|]. now apply desc_eqb_eq.
Qed.
Lemma filter_perm {X} (f : X -> bool) l l' : Permutation l l' -> Permutation (filter f l) (filter f l').
Proof.
  induction 1; cbn [filter]; auto.
  - destruct (f x); auto.
  - destruct (f x), (f y); auto. apply perm_swap.
  - eapply perm_trans; eauto.
Qed.
Lemma flat_map_perm {X Y} (f : X -> list Y) l l' : Permutation l l' -> Permutation (flat_map f l) (flat_map f l').
Proof.
  induction 1; cbn [flat_map]; auto.
  - now apply Permutation_app_head.
  - rewrite !app_assoc. apply Permutation_app_tail, Permutation_app_comm.
  - eapply perm_trans; eauto.
Qed.
Lemma under_perm d t t' : Permutation t t' -> Permutation (under d t) (under d t').
Proof. intros P. apply flat_map_perm, filter_perm, P. Qed.
Lemma under_split d (f : entry -> bool) t : Permutation (under d t) (under d (filter f t) ++ under d (filter (fun e => negb (f e)) t)).
Proof.
  unfold under. induction t as [|e t IH]; [constructor|]. cbn [filter]. destruct (desc_eqb d (fst e)) eqn:E, (f e); cbn [filter negb flat_map app]; rewrite ?E; cbn [flat_map app]; auto.
  - rewrite <- app_assoc. now apply Permutation_app_head.
  - eapply perm_trans; [apply Permutation_app_head, IH|]. rewrite !app_assoc. apply Permutation_app_tail, Permutation_app_comm.
Qed.
Lemma nodup_app {X} (l l' : list X) : NoDup (l ++ l') <-> NoDup l /\ NoDup l' /\ forall x, In x l -> ~ In x l'.
Proof.
  induction l as [|x l IH]; cbn [app].
  - split; [intros H; split; [constructor|]; split; [exact H|intros x []]|tauto].
  - split.
    + intros H. inversion_clear H as [|? ? N H']. apply IH in H' as (A & B & C). split; [constructor; [intros I; apply N, in_or_app; now left|exact A]|]. split; [exact B|].
      intros y [<-|I]; [intros J; apply N, in_or_app; now right|now apply C].
    + intros (A & B & C). inversion_clear A as [|? ? N A']. constructor.
      * intros I. apply in_app_or in I as [I|I]; [auto|]. apply (C x); [now left|exact I].
      * apply IH. split; [exact A'|]. split; [exact B|]. intros y I. apply C. now right.
Qed.

Lemma under_app d t t' : under d (t ++ t') = under d t ++ under d t'.
Proof. unfold under. induction t as [|e t IH]; [reflexivity|]. cbn [filter app]. destruct (desc_eqb d (fst e)); cbn [flat_map app]; rewrite IH; [now rewrite app_assoc|reflexivity]. Qed.
Lemma under_once d t s s' v : NoDup (under d t) -> In (d, s) t -> In (d, s') t -> In v s -> In v s' -> s = s'.
Proof.
  intros N A1 A2 Hv Hv'. apply in_split in A1 as (q1 & q2 & ->). rewrite under_app in N. apply nodup_app in N as (_ & N & X).
  assert (Ec : under d ((d, s) :: q2) = s ++ under d q2) by (unfold under; cbn [filter fst]; rewrite (proj2 (desc_eqb_eq d d) eq_refl); reflexivity).
  rewrite Ec in *. apply nodup_app in N as (_ & _ & Y). apply in_app_or in A2 as [A2|[A2|A2]]; [|now injection A2|]; exfalso.
  - apply (X v); [apply under_in; exists (d, s'); auto|apply in_or_app; now left].
  - apply (Y v Hv). apply under_in. exists (d, s'). auto.
Qed.

Section H.
Variable D : method -> Prop.
Hypothesis EQ : forall x y, D x -> D y -> (meth_eqb x y = true <-> x = y).
Notation saved := (method * method * splice_desc)%type.
Definition saves (l : list saved) : list entry := fold_left (fun t p => let '(a, b, d) := p in save_splice a b d t) l [].
Definition pair_of (l : list saved) (d : splice_desc) (x y : method) : Prop := In (x, y, d) l.

Record tinv (l : list saved) (t : list entry) : Prop := mkTinv {
  ti_ok : Forall (ok_entry D) t;
  ti_once : forall d, NoDup (under d t);
  ti_conn : forall e x y, In e t -> In x (snd e) -> In y (snd e) -> connected (pair_of l (fst e)) x y;
  ti_pair : forall x y d, In (x, y, d) l -> exists e, In e t /\ fst e = d /\ In x (snd e) /\ In y (snd e);
  ti_some : forall e x, In e t -> In x (snd e) -> exists y, In (x, y, fst e) l \/ In (y, x, fst e) l }.

Lemma conn_mono (R R' : method -> method -> Prop) x y : (forall u v, R u v -> R' u v) -> connected R x y -> connected R' x y.
Proof. intros H C. induction C; [apply rst_step; auto|apply rst_refl|now apply rst_sym|eapply rst_trans; eauto]. Qed.

Lemma tinv_save l t a b d : D a -> D b -> tinv l t -> tinv (l ++ [(a, b, d)]) (save_splice a b d t).
Proof.
  intros Da Db [K1 K2 K3 K4 K5]. destruct (save_spec EQ d Da Db K1) as (s' & P & Fs & Ns & Is).
  assert (HS : forall e, In e t -> hit_entry a b d e = true <-> fst e = d /\ (In a (snd e) \/ In b (snd e))).
  { intros e He. apply (hit_spec EQ d Da Db). rewrite Forall_forall in K1. auto. }
  assert (IN : forall e, In e (save_splice a b d t) <-> e = (d, s') \/ (In e t /\ hit_entry a b d e = false)).
  { intros e. split.
    - intros H. apply (Permutation_in _ P) in H as [<-|H]; [auto|]. apply filter_In in H as [H E]. apply negb_true_iff in E. auto.
    - intros H. apply (Permutation_in _ (Permutation_sym P)). destruct H as [->|[H E]]; [now left|]. right. apply filter_In. now rewrite E. }
  constructor.
  - apply Forall_forall. intros e He. apply IN in He as [->|[He _]]; [split; assumption|]. rewrite Forall_forall in K1. auto.
  - intros d'. apply (Permutation_NoDup (Permutation_sym (under_perm d' P))). set (hit := hit_entry a b d) in *.
    pose proof (Permutation_NoDup (under_split d' hit t) (K2 d')) as N. apply nodup_app in N as (N1 & N2 & N3).
    unfold under at 1. cbn [filter fst]. destruct (desc_eqb d' d) eqn:E; [|exact N2]. cbn [flat_map snd]. fold (under d' (filter (fun e => negb (hit e)) t)).
    apply desc_eqb_eq in E. subst d'. apply nodup_app. split; [exact Ns|]. split; [exact N2|]. intros x Hx Hu. apply under_in in Hu as (e & He & Ee & Hxe). apply filter_In in He as [He Hn]. apply negb_true_iff in Hn.
    apply Is in Hx as [->|[->|(e' & He' & Hh & Hx')]].
    + assert (hit e = true) by (apply HS; auto). congruence.
    + assert (hit e = true) by (apply HS; auto). congruence.
    + apply (N3 x). * apply under_in. exists e'. split; [apply filter_In; auto|]. split; [|exact Hx']. now apply HS in Hh. * apply under_in. exists e. split; [|auto]. apply filter_In. now rewrite Hn.
  - intros e x y He Hx Hy. apply IN in He as [->|[He Hn]].
    + cbn [fst snd] in *. assert (AB : connected (pair_of (l ++ [(a, b, d)]) d) b a) by (apply rst_sym, rst_step; apply in_or_app; right; now left).
      assert (X : forall z, In z s' -> connected (pair_of (l ++ [(a, b, d)]) d) z a).
      { intros z Hz. apply Is in Hz as [->|[->|(e & He & Hh & Hz)]]; [apply rst_refl|exact AB|]. apply HS in Hh as [Ed Hab]; [|exact He]. subst d.
        assert (M : forall u v, pair_of l (fst e) u v -> pair_of (l ++ [(a, b, fst e)]) (fst e) u v) by (intros u v H; apply in_or_app; now left).
        destruct Hab as [Ha|Hb].
        - apply (conn_mono M). now apply K3.
        - eapply rst_trans; [|exact AB]. apply (conn_mono M). now apply K3. }
      eapply rst_trans; [apply X, Hx|]. apply rst_sym, X, Hy.
    + apply (@conn_mono (pair_of l (fst e))); [intros u v H; apply in_or_app; now left|]. now apply K3.
  - intros x y d' H. apply in_app_or in H as [H|[H|[]]].
    + destruct (K4 x y d' H) as (e & He & Ee & Hx & Hy). destruct (hit_entry a b d e) eqn:Hh.
      * exists (d, s'). split; [apply IN; auto|]. apply HS in Hh as Hd; [|exact He]. destruct Hd as [Hd _]. cbn [fst snd]. split; [congruence|]. split; apply Is; right; right; exists e; auto.
      * exists e. split; [apply IN; auto|auto].
    + injection H as <- <- <-. exists (d, s'). split; [apply IN; auto|]. cbn [fst snd]. split; [reflexivity|]. split; apply Is; auto.
  - intros e x He Hx. apply IN in He as [->|[He Hn]].
    + cbn [fst snd] in *. apply Is in Hx as [->|[->|(e & He & Hh & Hz)]].
      * exists b. left. apply in_or_app. right. now left.
      * exists a. right. apply in_or_app. right. now left.
      * apply HS in Hh as [Ed _]; [|exact He]. subst d. destruct (K5 e x He Hz) as (y & [H|H]); exists y; [left|right]; apply in_or_app; now left.
    + destruct (K5 e x He Hx) as (y & [H|H]); exists y; [left|right]; apply in_or_app; now left.
Qed.

Lemma tinv_saves l : (forall a b d, In (a, b, d) l -> D a /\ D b) -> tinv l (saves l).
Proof.
  induction l as [|[[a b] d] l IH] using rev_ind; intros H.
  - constructor; [constructor|intros d; constructor|intros e x y []|intros x y d []|intros e x []].
  - unfold saves. rewrite fold_left_app. cbn [fold_left]. destruct (H a b d ltac:(apply in_or_app; right; now left)) as [Da Db]. apply tinv_save; auto. apply IH. intros a' b' d' I. apply (H a' b' d'). apply in_or_app. now left.
Qed.

(* methods are in one entry just when they are connected *)
Lemma entries_connected l d x y : (forall a b d, In (a, b, d) l -> D a /\ D b) ->
  (exists s, In (d, s) (saves l) /\ In x s /\ In y s) <-> connected (pair_of l d) x y /\ exists z, In (x, z, d) l \/ In (z, x, d) l.
Proof.
  intros H. destruct (tinv_saves H) as [K1 K2 K3 K4 K5]. set (t := saves l) in *. split.
  - intros (s & Hs & Hx & Hy). split; [apply (K3 (d, s) x y Hs Hx Hy)|]. destruct (K5 (d, s) x Hs Hx) as (z & Z). exists z. exact Z.
  - intros [C (z & Z)].
    assert (TR : forall u v w, (exists s, In (d, s) t /\ In u s /\ In v s) -> (exists s, In (d, s) t /\ In v s /\ In w s) -> exists s, In (d, s) t /\ In u s /\ In w s).
    { intros u v w (s & Hs & Hu & Hv) (s' & Hs' & Hv' & Hw). exists s. split; [exact Hs|]. split; [exact Hu|]. enough (s = s') by congruence.
      apply (@under_once d t s s' v); auto. }
    assert (G : x = y \/ exists s, In (d, s) t /\ In x s /\ In y s).
    { clear z Z. induction C as [u v R|u|u v C IH|u v w C1 IH1 C2 IH2].
      - right. destruct (K4 u v d R) as ([d' s] & He & Ee & Hu & Hv). cbn [fst] in Ee. subst d'. exists s. auto.
      - now left.
      - destruct IH as [->|(s & X)]; [now left|right; exists s; tauto].
      - destruct IH1 as [->|IH1]; [exact IH2|]. destruct IH2 as [<-|IH2]; [now right|]. right. now apply (TR u v w). }
    destruct G as [<-|G]; [|exact G]. destruct Z as [Z|Z]; destruct (K4 _ _ d Z) as ([d' s] & He & Ee & Hu & Hv); cbn [fst] in Ee; subst d'; exists s; auto.
Qed.
Lemma entries_once l d : (forall a b d, In (a, b, d) l -> D a /\ D b) -> NoDup (under d (saves l)).
Proof. intros H. apply (tinv_saves H). Qed.
End H.

(* methods on the same number of bells *)
Definition on (n : nat) (m : method) : Prop := wf_method m /\ mb m = n.
Lemma meth_eqb_spec n x y : 0 < n -> on n x -> on n y -> (meth_eqb x y = true <-> x = y).
Proof.
  intros N0 [(_ & _ & Fx) Bx] [(_ & _ & Fy) By]. destruct x as [lx bx], y as [ly by']. cbn in *. subst bx by'. unfold meth_eqb. cbn [mch].
  enough (meth_eqb_ch lx ly = true <-> lx = ly) by (rewrite H; intuition congruence).
  revert ly Fy. induction lx as [|c lx IH]; intros [|c' ly] Fy; cbn [meth_eqb_ch]; try (intuition discriminate).
  inversion_clear Fx as [|? ? [Ec _] Fx']. inversion_clear Fy as [|? ? [Ec' _] Fy']. rewrite andb_true_iff, (IH Fx' ly Fy').
  assert (X : change_eqb c c' = true <-> c = c').
  { unfold change_eqb. destruct c as [k s], c' as [k' s']. cbn [cn cswaps] in *. subst k k'. rewrite Nat.eqb_refl. destruct (Nat.eqb_spec n 0); [lia|]. cbn [andb orb]. destruct (list_eq_dec Nat.eq_dec s s') as [->|Ne]; [tauto|]. split; [discriminate|]. intros Q. injection Q as Q. contradiction. }
  rewrite X. split; [intros [-> ->]; reflexivity|]. intros Q. injection Q as -> ->. auto.
Qed.
