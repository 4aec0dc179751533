(* Spec_Cycle.v - disjoint cycles, order and sign, independently of the code. *)
From Verif Require Import Base Spec_Row.
Set Implicit Arguments.
Unset Strict Implicit.

(* chain f l d: f takes each element of l to the next, and the last to d. *)
Fixpoint chain (f : nat -> nat) (l : list nat) (d : nat) : Prop :=
  match l with [] => True | a :: t => f a = hd d t /\ chain f t d end.

(* l is a cycle of f: each element goes to the next, the last to the first. *)
Definition is_cycle (f : nat -> nat) (l : list nat) : Prop := l <> [] /\ chain f l (hd 0 l).

(* cs are the disjoint cycles of f on 0..n-1. *)
Definition decomp (f : nat -> nat) (n : nat) (cs : list (list nat)) : Prop :=
  Permutation (concat cs) (seq 0 n) /\ Forall (is_cycle f) cs.

(* exchanging places a and b *)
Definition transp (a b i : nat) : nat := if i =? a then b else if i =? b then a else i.

(* ------------------------------------------------------------------ *)

Lemma chain_app f l1 l2 d : chain f (l1 ++ l2) d <-> chain f l1 (hd d l2) /\ chain f l2 d.
Proof.
  induction l1 as [|a t IH]; cbn [app chain]; [tauto|].
  rewrite IH. destruct t as [|b t]; cbn [app hd chain]; tauto.
Qed.

Lemma chain_ext f g l d : (forall i, In i l -> f i = g i) -> chain f l d -> chain g l d.
Proof.
  induction l as [|a t IH]; cbn [chain]; auto. intros H [H1 H2]. split.
  - rewrite <- H by now left. exact H1.
  - apply IH; auto. intros i Hi. apply H. now right.
Qed.

Lemma is_cycle_ext f g l : (forall i, In i l -> f i = g i) -> is_cycle f l -> is_cycle g l.
Proof. intros H [N C]. split; auto. eapply chain_ext; eauto. Qed.

Lemma is_cycle_rotate f p a q : is_cycle f (p ++ a :: q) -> is_cycle f (a :: q ++ p).
Proof.
  intros [_ C]. split; [discriminate|]. cbn [hd].
  apply chain_app in C. destruct C as [C1 C2]. cbn [hd] in C1.
  change (a :: q ++ p) with ((a :: q) ++ p). apply chain_app. split.
  - destruct p as [|b p]; [exact C2|exact C2].
  - exact C1.
Qed.

Lemma chain_nth f l d i : chain f l d -> S i < length l -> f (nth i l 0) = nth (S i) l 0.
Proof.
  revert i; induction l as [|a t IH]; intros i C H; cbn [length] in H; [lia|].
  destruct C as [C1 C2]. destruct i as [|i].
  - destruct t as [|b t]; cbn in *; [lia|exact C1].
  - change (nth (S i) (a :: t) 0) with (nth i t 0). change (nth (S (S i)) (a :: t) 0) with (nth (S i) t 0).
    apply IH; auto. lia.
Qed.

Lemma chain_last f l d : chain f l d -> l <> [] -> f (nth (length l - 1) l 0) = d.
Proof.
  induction l as [|a t IH]; intros C N; [congruence|]. destruct C as [C1 C2].
  destruct t as [|b t]; [exact C1|].
  change (length (a :: b :: t) - 1) with (S (length t)).
  cbn [length] in IH. replace (S (length t) - 1) with (length t) in IH by lia.
  apply IH; auto. discriminate.
Qed.

Lemma cycle_nth f l i : is_cycle f l -> i < length l -> f (nth i l 0) = nth (S i mod length l) l 0.
Proof.
  intros [N C] H. destruct (Nat.eq_dec (S i) (length l)) as [E|E].
  - rewrite <- E at 1. rewrite E, Nat.mod_same by lia.
    replace i with (length l - 1) by lia. rewrite (chain_last C N).
    destruct l; [congruence|reflexivity].
  - rewrite Nat.mod_small by lia. apply (chain_nth C). lia.
Qed.

Fixpoint fpow (f : nat -> nat) (k i : nat) : nat :=
  match k with O => i | S k => f (fpow f k i) end.

Lemma fpow_add f a b i : fpow f (a + b) i = fpow f a (fpow f b i).
Proof. induction a as [|a IH]; cbn; [reflexivity|now rewrite IH]. Qed.

Lemma cycle_fpow f l i k : is_cycle f l -> i < length l ->
  fpow f k (nth i l 0) = nth ((i + k) mod length l) l 0.
Proof.
  intros C H. induction k as [|k IH]; cbn [fpow].
  - rewrite Nat.add_0_r, Nat.mod_small by lia. reflexivity.
  - rewrite IH, (cycle_nth C); [|apply Nat.mod_upper_bound; lia].
    f_equal. replace (i + S k) with (1 + (i + k)) by lia.
    rewrite <- (Nat.add_1_l ((i + k) mod length l)). rewrite Nat.add_mod_idemp_r by lia. reflexivity.
Qed.

Lemma cycle_period f l j k : is_cycle f l -> NoDup l -> In j l ->
  fpow f k j = j <-> Nat.divide (length l) k.
Proof.
  intros C N Hj. destruct (In_nth l j 0 Hj) as (i & Hi & <-).
  rewrite (cycle_fpow k C Hi).
  assert (L : length l <> 0) by lia. split.
  - intros E. assert (M : (i + k) mod length l < length l) by (apply Nat.mod_upper_bound; lia).
    apply (proj1 (NoDup_nth l 0) N) in E; auto.
    exists ((i + k) / length l). generalize (Nat.div_mod (i + k) (length l) L). lia.
  - intros [q ->]. f_equal. rewrite Nat.mod_add by lia. now apply Nat.mod_small.
Qed.

Lemma cycle_reach f l i j : is_cycle f l -> In i l -> In j l -> exists k, k < length l /\ fpow f k i = j.
Proof.
  intros C Hi Hj. destruct (In_nth l i 0 Hi) as (a & Ha & <-), (In_nth l j 0 Hj) as (b & Hb & <-).
  exists ((b + (length l - a)) mod length l). split; [apply Nat.mod_upper_bound; lia|].
  rewrite (cycle_fpow _ C Ha). f_equal. rewrite Nat.add_mod_idemp_r by lia.
  replace (a + (b + (length l - a))) with (b + 1 * length l) by lia.
  rewrite Nat.mod_add by lia. now apply Nat.mod_small.
Qed.

Lemma cycle_closed f l i k : is_cycle f l -> In i l -> In (fpow f k i) l.
Proof.
  intros C Hi. destruct (In_nth l i 0 Hi) as (a & Ha & <-).
  rewrite (cycle_fpow _ C Ha). apply nth_In. apply Nat.mod_upper_bound. lia.
Qed.

Lemma decomp_in f n cs c : decomp f n cs -> In c cs ->
  is_cycle f c /\ NoDup c /\ (forall i, In i c -> i < n) /\ length c <= n.
Proof.
  intros [P F] H. rewrite Forall_forall in F. split; [now apply F|].
  destruct (in_split _ _ H) as (l1 & l2 & ->).
  assert (ND : NoDup (concat (l1 ++ c :: l2))).
  { apply (Permutation_NoDup (Permutation_sym P)). apply seq_NoDup. }
  assert (I : forall i, In i c -> In i (concat (l1 ++ c :: l2))).
  { intros i Hi. apply in_concat. exists c. split; auto. }
  rewrite concat_app in ND. cbn [concat] in ND. 
  assert (ND' : NoDup c).
  { apply NoDup_app_iff in ND. destruct ND as (_ & ND & _). now apply NoDup_app_iff in ND. }
  split; [exact ND'|]. split.
  - intros i Hi. apply I in Hi. apply (Permutation_in _ P) in Hi. apply in_seq in Hi. lia.
  - rewrite <- (seq_length n 0). apply NoDup_incl_length; auto.
    intros i Hi. apply (Permutation_in _ P). now apply I.
Qed.

Lemma decomp_cover f n cs i : decomp f n cs -> i < n -> exists c, In c cs /\ In i c.
Proof.
  intros [P _] H. apply in_concat. apply (Permutation_in _ (Permutation_sym P)).
  apply in_seq. lia.
Qed.

(* --- uniqueness of the cycle type --- *)
Definition orb_min (f : nat -> nat) (n j : nat) : bool :=
  forallb (fun k => j <=? fpow f k j) (seq 0 n).

(* size of the orbit: least k in 1..n with f^k j = j, by search *)
Fixpoint first_ret (f : nat -> nat) (fuel k j : nat) : nat :=
  match fuel with O => k | S fuel => if fpow f k j =? j then k else first_ret f fuel (S k) j end.
Definition orb_size (f : nat -> nat) (n j : nat) : nat := first_ret f n 1 j.

Lemma first_ret_spec f fuel k j m : k <= m -> m < k + fuel -> fpow f m j = j ->
  (forall i, k <= i < m -> fpow f i j <> j) -> first_ret f fuel k j = m.
Proof.
  revert k; induction fuel as [|fuel IH]; intros k H1 H2 H3 H4; cbn [first_ret]; [lia|].
  destruct (Nat.eqb_spec (fpow f k j) j) as [E|E].
  - destruct (Nat.eq_dec k m); auto. destruct (H4 k); [lia|exact E].
  - apply IH; auto; [|lia|intros; apply H4; lia].
    destruct (Nat.eq_dec k m); [subst; contradiction|lia].
Qed.

Lemma orb_size_cycle f n c j : is_cycle f c -> NoDup c -> In j c -> length c <= n ->
  orb_size f n j = length c.
Proof.
  intros C N Hj L. assert (0 < length c) by (destruct c; [destruct Hj|cbn; lia]).
  apply first_ret_spec; try lia.
  - apply (cycle_period _ C N Hj). exists 1. lia.
  - intros i Hi E. apply (cycle_period _ C N Hj) in E.
    apply Nat.divide_pos_le in E; lia.
Qed.

Lemma list_min (c : list nat) : c <> [] -> exists m, In m c /\ forall j, In j c -> m <= j.
Proof.
  induction c as [|a t IH]; [congruence|]. intros _. destruct t as [|b t].
  - exists a. split; [now left|]. intros j [->|[]]. lia.
  - destruct IH as (m & Hm & Hj); [discriminate|].
    destruct (le_lt_dec a m).
    + exists a. split; [now left|]. intros j [->|H]; [lia|]. specialize (Hj j H). lia.
    + exists m. split; [now right|]. intros j [->|H]; [lia|]. auto.
Qed.

Lemma filter_unique (p : nat -> bool) c m : NoDup c -> In m c -> p m = true ->
  (forall j, In j c -> p j = true -> j = m) -> filter p c = [m].
Proof.
  induction c as [|a t IH]; intros N Hm Pm U; [destruct Hm|].
  inversion N as [|? ? Na Nt]; subst. cbn [filter]. destruct Hm as [->|Hm].
  - rewrite Pm. f_equal.
    assert (E : forall x, In x (filter p t) -> False).
    { intros x Hx. apply filter_In in Hx. destruct Hx as [Hx Px].
      assert (x = m) by (apply U; [now right|exact Px]). subst. contradiction. }
    destruct (filter p t) as [|x l]; auto. destruct (E x). now left.
  - destruct (p a) eqn:Pa.
    + assert (a = m) by (apply U; [now left|exact Pa]). subst. contradiction.
    + apply IH; auto. intros j Hj. apply U. now right.
Qed.

Lemma filter_orb_min f n c : is_cycle f c -> NoDup c -> length c <= n ->
  exists m, filter (orb_min f n) c = [m] /\ In m c.
Proof.
  intros C N L. destruct (@list_min c) as (m & Hm & Hj); [apply C|].
  exists m. split; auto. apply filter_unique; auto.
  - unfold orb_min. apply forallb_forall. intros k _. apply Nat.leb_le.
    apply Hj. now apply cycle_closed.
  - intros j Hjc Hp. unfold orb_min in Hp. rewrite forallb_forall in Hp.
    destruct (cycle_reach C Hjc Hm) as (k & Hk & E).
    specialize (Hp k). rewrite E in Hp. 
    assert (j <= m) by (apply Nat.leb_le, Hp, in_seq; lia).
    specialize (Hj j Hjc). lia.
Qed.

Lemma filter_concat (p : nat -> bool) cs : filter p (concat cs) = concat (map (filter p) cs).
Proof.
  induction cs as [|c cs IH]; cbn; [reflexivity|]. now rewrite filter_app, IH.
Qed.

Lemma decomp_type f n cs : decomp f n cs ->
  map (orb_size f n) (filter (orb_min f n) (concat cs)) = map (@length nat) cs.
Proof.
  intros D. rewrite filter_concat.
  assert (G : forall c, In c cs -> exists m, filter (orb_min f n) c = [m] /\ orb_size f n m = length c).
  { intros c Hc. destruct (decomp_in D Hc) as (C & N & _ & L).
    destruct (filter_orb_min C N L) as (m & E & Hm). exists m. split; auto. now apply orb_size_cycle. }
  clear D. induction cs as [|c cs IH]; cbn [map concat]; [reflexivity|].
  destruct (G c) as (m & E & S); [now left|]. rewrite E. cbn [app map]. rewrite S. f_equal.
  apply IH. intros c' Hc'. apply G. now right.
Qed.

Lemma decomp_type_unique f n cs cs' : decomp f n cs -> decomp f n cs' ->
  Permutation (map (@length nat) cs) (map (@length nat) cs').
Proof.
  intros D D'. rewrite <- (decomp_type D), <- (decomp_type D').
  apply Permutation_map.
  assert (P : Permutation (concat cs) (concat cs')).
  { eapply Permutation_trans; [apply D|]. apply Permutation_sym, D'. }
  clear -P. induction P; cbn; auto.
  - destruct (orb_min f n x); auto.
  - destruct (orb_min f n x), (orb_min f n y); auto. apply perm_swap.
  - eapply Permutation_trans; eauto.
Qed.

Lemma decomp_length_unique f n cs cs' : decomp f n cs -> decomp f n cs' -> length cs = length cs'.
Proof.
  intros D D'. generalize (Permutation_length (decomp_type_unique D D')). now rewrite !map_length.
Qed.

Lemma decomp_ext f g n cs : (forall i, i < n -> f i = g i) -> decomp f n cs -> decomp g n cs.
Proof.
  intros H D. split; [apply D|]. apply Forall_forall. intros c Hc.
  destruct (decomp_in D Hc) as (C & _ & B & _). eapply is_cycle_ext; [|exact C].
  intros i Hi. apply H. now apply B.
Qed.

(* --- a transposition splits or joins cycles --- *)
Lemma transp_l a b : transp a b a = b.
Proof. unfold transp. now rewrite Nat.eqb_refl. Qed.
Lemma transp_r a b : transp a b b = a.
Proof. unfold transp. rewrite Nat.eqb_refl. destruct (Nat.eqb_spec b a); congruence. Qed.
Lemma transp_o a b i : i <> a -> i <> b -> transp a b i = i.
Proof.
  intros H1 H2. unfold transp. destruct (Nat.eqb_spec i a); [congruence|].
  destruct (Nat.eqb_spec i b); congruence.
Qed.
Lemma transp_invol a b i : transp a b (transp a b i) = i.
Proof.
  unfold transp. destruct (Nat.eqb_spec i a) as [->|H1].
  - rewrite Nat.eqb_refl. destruct (Nat.eqb_spec b a); congruence.
  - destruct (Nat.eqb_spec i b) as [->|H2].
    + now rewrite Nat.eqb_refl.
    + destruct (Nat.eqb_spec i a); [congruence|]. destruct (Nat.eqb_spec i b); congruence.
Qed.

Lemma decomp_transp f n cs a b : decomp f n cs -> a < n -> b < n -> a <> b ->
  exists cs', decomp (fun i => f (transp a b i)) n cs' /\
    (length cs' = S (length cs) \/ S (length cs') = length cs).
Proof.
  intros D Ha Hb Hab. set (g := fun i => f (transp a b i)).
  destruct (decomp_cover D Ha) as (c & Hc & Hac).
  destruct (in_split _ _ Hc) as (l1 & l2 & E).
  assert (D1 : decomp f n (c :: l1 ++ l2)).
  { destruct D as [P F]. split.
    - eapply Permutation_trans; [|exact P]. rewrite E. cbn [concat].
      rewrite !concat_app. cbn [concat]. rewrite !app_assoc. apply Permutation_app_tail.
      apply Permutation_app_comm.
    - rewrite E in F. apply Forall_app in F. destruct F as [F1 F2]. inversion F2; subst.
      constructor; auto. apply Forall_app. auto. }
  assert (LE : length cs = S (length (l1 ++ l2))) by (rewrite E, !app_length; cbn; lia).
  set (r := l1 ++ l2) in *. clearbody r. clear E Hc D l1 l2.
  destruct (in_split _ _ Hac) as (p & q & Ec). 
  (* rotate so that the cycle starts at a *)
  assert (D2 : decomp f n ((a :: q ++ p) :: r)).
  { destruct D1 as [P F]. inversion F as [|? ? Fc Fr]; subst. split.
    - eapply Permutation_trans; [|exact P]. cbn [concat]. apply Permutation_app_tail.
      change (a :: q ++ p) with ((a :: q) ++ p). apply Permutation_app_comm.
    - constructor; auto. now apply is_cycle_rotate. }
  set (w := q ++ p) in *. clearbody w. clear D1 Ec Hac p q c.
  destruct D2 as [P F]. inversion F as [|? ? Fc Fr]; subst.
  assert (ND : NoDup (concat ((a :: w) :: r))).
  { apply (Permutation_NoDup (Permutation_sym P)). apply seq_NoDup. }
  cbn [concat] in ND.
  assert (NDaw : NoDup (a :: w)) by (now apply NoDup_app_iff in ND).
  inversion NDaw as [|? ? Naw NDw]; subst.
  destruct (in_dec Nat.eq_dec b w) as [Hbw|Hbw].
  - (* same cycle: split *)
    destruct (in_split _ _ Hbw) as (u & v & ->).
    exists ((a :: v) :: (b :: u) :: r). split; [split|].
    + eapply Permutation_trans; [|exact P]. cbn [concat]. rewrite !app_assoc.
      apply Permutation_app_tail. cbn [app]. constructor.
      eapply Permutation_trans; [apply Permutation_app_comm|]. cbn.
      apply Permutation_middle.
    + destruct Fc as [_ C]. cbn [hd] in C. destruct C as [C1 C2].
      apply chain_app in C2. destruct C2 as [C2 C3]. cbn [hd] in C2. destruct C3 as [C3 C4].
      assert (Nb : ~ In b u /\ ~ In b v).
      { apply NoDup_remove_2 in NDw. rewrite in_app_iff in NDw. tauto. }
      rewrite in_app_iff in Naw. cbn in Naw.
      constructor; [|constructor].
      * split; [discriminate|]. cbn [hd]. split.
        -- unfold g. rewrite transp_l. exact C3.
        -- eapply chain_ext; [|exact C4]. intros i Hi. unfold g. rewrite transp_o; auto; intros ->; tauto.
      * split; [discriminate|]. cbn [hd]. split.
        -- unfold g. rewrite transp_r, C1. destruct u; reflexivity.
        -- eapply chain_ext; [|exact C2]. intros i Hi. unfold g. rewrite transp_o; auto; intros ->; tauto.
      * apply Forall_forall. intros c Hc. rewrite Forall_forall in Fr.
        eapply is_cycle_ext; [|apply Fr, Hc]. intros i Hi. unfold g. rewrite transp_o; auto.
        -- intros ->.
           rewrite <- app_comm_cons in ND. inversion ND as [|? ? X _]; subst. apply X.
           apply in_or_app. right. apply in_concat. eauto.
        -- intros ->. apply in_split in Hc. 
           assert (X : In b (concat r)) by (apply in_concat; destruct Hc as (x & y & ->); exists c; split; auto; apply in_or_app; right; now left).
           revert X. rewrite <- app_comm_cons in ND. inversion ND as [|? ? _ ND']; subst.
           rewrite <- app_assoc in ND'. cbn [app] in ND'. apply NoDup_remove_2 in ND'.
           rewrite !in_app_iff in ND'. tauto.
    + left. cbn. lia.
  - (* another cycle: join *)
    assert (Hbr : In b (concat r)).
    { assert (X : In b (concat ((a :: w) :: r))).
      { apply (Permutation_in _ (Permutation_sym P)). apply in_seq. lia. }
      cbn [concat] in X. apply in_app_or in X. destruct X as [[X|X]|X]; [congruence|contradiction|exact X]. }
    apply in_concat in Hbr. destruct Hbr as (c & Hc & Hbc).
    destruct (in_split _ _ Hc) as (l1 & l2 & ->).
    destruct (in_split _ _ Hbc) as (p & q & ->).
    set (v := q ++ p).
    exists ((a :: v ++ b :: w) :: l1 ++ l2). 
    assert (PP : Permutation (concat ((a :: v ++ b :: w) :: l1 ++ l2)) (concat ((a :: w) :: l1 ++ (p ++ b :: q) :: l2))).
    { unfold v. perm_nat. }
    split; [split|].
    + eapply Permutation_trans; [exact PP|exact P].
    + apply Forall_app in Fr. destruct Fr as [F1 F2]. inversion F2 as [|? ? Fb F3]; subst.
      apply is_cycle_rotate in Fb. fold v in Fb. destruct Fb as [_ Cb]. cbn [hd] in Cb. destruct Cb as [Cb1 Cb2].
      destruct Fc as [_ C]. cbn [hd] in C. destruct C as [C1 C2].
      assert (ND2 : NoDup (concat ((a :: v ++ b :: w) :: l1 ++ l2))).
      { apply (Permutation_NoDup (Permutation_sym PP)). exact ND. }
      cbn [concat] in ND2.
      assert (NA : ~ In a (v ++ b :: w) /\ ~ In a (concat (l1 ++ l2))).
      { rewrite <- app_comm_cons in ND2. inversion ND2 as [|? ? X _]; subst. rewrite in_app_iff in X. tauto. }
      assert (NB : ~ In b v /\ ~ In b w /\ ~ In b (concat (l1 ++ l2))).
      { rewrite <- app_comm_cons in ND2. inversion ND2 as [|? ? _ X]; subst.
        rewrite <- app_assoc in X. cbn [app] in X. apply NoDup_remove_2 in X.
        rewrite !in_app_iff in X. tauto. }
      rewrite in_app_iff in NA. cbn [In] in NA.
      constructor.
      * split; [discriminate|]. cbn [hd chain]. split.
        { unfold g. rewrite transp_l, Cb1. destruct v; reflexivity. }
        apply chain_app. cbn [hd chain]. split; [|split].
        -- eapply chain_ext; [|exact Cb2]. intros i Hi. unfold g. rewrite transp_o; auto; intros ->; tauto.
        -- unfold g. rewrite transp_r. exact C1.
        -- eapply chain_ext; [|exact C2]. intros i Hi. unfold g. rewrite transp_o; auto; intros ->; tauto.
      * assert (FF : Forall (is_cycle f) (l1 ++ l2)) by (apply Forall_app; auto).
        apply Forall_forall. intros c Hc'. rewrite Forall_forall in FF.
        eapply is_cycle_ext; [|apply FF, Hc']. intros i Hi. unfold g.
        assert (In i (concat (l1 ++ l2))) by (apply in_concat; eauto).
        rewrite transp_o; auto; intros ->; tauto.
    + right. rewrite LE. cbn [length]. rewrite !app_length. cbn [length]. lia.
Qed.
