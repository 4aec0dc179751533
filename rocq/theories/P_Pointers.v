(* P_Pointers.v - proofs about shared_pointer and cow_pointer. *)
From Verif Require Import Base M_Pointers Spec_Pointers.
Set Implicit Arguments.
Unset Strict Implicit.
Open Scope nat_scope.

Lemma opt_eqb_spec a b : opt_eqb a b = true <-> a = b.
Proof.
  destruct a as [x|], b as [y|]; cbn; try (split; congruence).
  rewrite Nat.eqb_eq. split; congruence.
Qed.

Definition has_rc (a : nat) (s : sptr) : bool := opt_eqb (s_rc s) (Some a).
Definition refs (a : nat) (hs : list sptr) : nat := length (filter (has_rc a) hs).

Lemma refs_cons a s hs : refs a (s :: hs) = (if has_rc a s then 1 else 0) + refs a hs.
Proof. unfold refs. cbn. destruct (has_rc a s); reflexivity. Qed.
Lemma refs_zero a hs : refs a hs = 0 <-> forall s, In s hs -> s_rc s <> Some a.
Proof.
  induction hs as [|s hs IH]; [cbn; split; auto; intros _ s []|].
  rewrite refs_cons. unfold has_rc. destruct (opt_eqb (s_rc s) (Some a)) eqn:E.
  - apply opt_eqb_spec in E. split; [lia|]. intros H. exfalso. apply (H s); [now left|exact E].
  - cbn [Nat.add]. rewrite IH. split.
    + intros H t [<-|Ht]; auto. intros X. apply opt_eqb_spec in X. congruence.
    + intros H t Ht. apply H. now right.
Qed.
Lemma refs_perm a hs hs' : Permutation hs hs' -> refs a hs = refs a hs'.
Proof.
  induction 1 as [|x l l' P IH|x y l|l l' l'' P IH P' IH']; rewrite ?refs_cons; try lia.
Qed.

Record inv (h : heap) (hs : list sptr) (p q : option nat) (ds : list nat) : Prop := mkInv {
  i_ctr : forall a n, nth_error (h_ctrs h) a = Some (Some n) ->
            if opt_eqb q (Some a) then n = 0 /\ refs a hs = 0 else n = refs a hs /\ 1 <= n;
  i_live : forall s a, In s hs -> s_rc s = Some a -> exists n, nth_error (h_ctrs h) a = Some (Some n);
  i_q : forall a, q = Some a -> nth_error (h_ctrs h) a = Some (Some 0);
  i_same : forall s t a, In s hs -> In t hs -> s_rc s = Some a -> s_rc t = Some a -> s_ptr s = s_ptr t /\ s_del s = s_del t;
  i_bare : forall s, In s hs -> s_rc s = None -> s_ptr s = None;
  i_obj : forall s t o, In s hs -> In t hs -> s_ptr s = Some o -> s_ptr t = Some o -> s_rc s = s_rc t;
  i_del : forall s o, In s hs -> s_ptr s = Some o -> nth_error ds o = Some (s_del s);
  i_pend : forall o, p = Some o -> forall s, In s hs -> s_ptr s <> Some o;
  i_len : length (h_objs h) = length ds;
  i_objs : forall o, (exists x, nth_error (h_objs h) o = Some (Some x)) <-> p = Some o \/ exists s, In s hs /\ s_ptr s = Some o;
  i_log : forall o d, In (o, d) (h_log h) -> nth_error ds o = Some d /\ nth_error (h_objs h) o = Some None;
  i_gone : forall o, nth_error (h_objs h) o = Some None -> In o (map fst (h_log h));
  i_once : NoDup (map fst (h_log h)) }.

(* values of objects do not change *)
Definition keeps (h h' : heap) : Prop :=
  length (h_objs h') = length (h_objs h) /\
  forall o x, nth_error (h_objs h') o = Some (Some x) -> nth_error (h_objs h) o = Some (Some x).
Lemma keeps_refl h : keeps h h.
Proof. split; auto. Qed.
Lemma keeps_trans a b c : keeps a b -> keeps b c -> keeps a c.
Proof. intros [H1 H2] [H3 H4]. split; [congruence|auto]. Qed.
Local Hint Resolve keeps_refl : core.

Lemma nth_error_upd A (l : list A) i x j : i < length l ->
  nth_error (upd l i x) j = if j =? i then Some x else nth_error l j.
Proof.
  intros H. unfold upd.
  assert (L : length (firstn i l) = i) by (rewrite firstn_length; lia).
  destruct (Nat.eqb_spec j i) as [->|N].
  - rewrite nth_error_app2 by lia. now rewrite L, Nat.sub_diag.
  - destruct (lt_dec j i).
    + rewrite nth_error_app1 by lia. rewrite <- (firstn_skipn i l) at 2. rewrite nth_error_app1 by lia. reflexivity.
    + rewrite nth_error_app2 by lia. rewrite L. destruct (j - i) as [|k] eqn:E; [lia|]. cbn [nth_error].
      rewrite <- (firstn_skipn (S i) l) at 2.
      assert (length (firstn (S i) l) = S i) by (rewrite firstn_length; lia).
      rewrite nth_error_app2 by lia. f_equal. lia.
Qed.
Lemma nth_error_lt A (l : list A) i x : nth_error l i = Some x -> i < length l.
Proof. intros H. apply nth_error_Some. congruence. Qed.
Lemma nth_error_snoc A (l : list A) x j :
  nth_error (l ++ [x]) j = if j =? length l then Some x else nth_error l j.
Proof.
  destruct (Nat.eqb_spec j (length l)) as [->|N].
  - rewrite nth_error_app2, Nat.sub_diag by lia. reflexivity.
  - destruct (lt_dec j (length l)); [now rewrite nth_error_app1|].
    rewrite nth_error_app2 by lia. destruct (j - length l) eqn:E; [lia|].
    cbn. destruct n0; cbn; symmetry; apply nth_error_None; lia.
Qed.

Lemma inv_perm h hs hs' p q ds : Permutation hs hs' -> inv h hs p q ds -> inv h hs' p q ds.
Proof.
  intros P I. assert (Hin : forall s, In s hs' -> In s hs) by (intros s; apply Permutation_in; now apply Permutation_sym).
  destruct I. constructor; eauto.
  - intros a n H. rewrite <- (refs_perm a P). now apply i_ctr0.
  - intros o. rewrite i_objs0. split; intros [H|(s & Hs & E)]; auto; right; exists s; split; auto.
    now apply (Permutation_in _ P).
Qed.

(* --- primitive steps --- *)
Lemma new_obj_inv h hs q ds x d : inv h hs None q ds ->
  inv (snd (new_obj h x)) hs (Some (length ds)) q (ds ++ [d]) /\ fst (new_obj h x) = length ds /\
  (forall o y, nth_error (h_objs h) o = Some (Some y) -> nth_error (h_objs (snd (new_obj h x))) o = Some (Some y)) /\
  nth_error (h_objs (snd (new_obj h x))) (length ds) = Some (Some x) /\
  h_ctrs (snd (new_obj h x)) = h_ctrs h.
Proof.
  intros I. destruct I. unfold new_obj. cbn [fst snd h_ctrs h_objs h_log].
  assert (Lt : forall s o, In s hs -> s_ptr s = Some o -> o < length ds).
  { intros s o H1 H2. eapply nth_error_lt, i_del0; eauto. }
  split; [constructor; cbn [h_ctrs h_objs h_log]; eauto|split; [|split; [|split]]].
  - intros s o H1 H2. assert (L := Lt s o H1 H2). rewrite nth_error_app1 by lia. eauto.
  - intros o E s H1 H2. injection E as <-. assert (L := Lt s _ H1 H2). lia.
  - rewrite !app_length. cbn. lia.
  - intros o. rewrite nth_error_snoc. rewrite i_len0. destruct (Nat.eqb_spec o (length ds)) as [->|N].
    + split; eauto.
    + rewrite i_objs0. split; intros [H|H]; auto; try congruence.
  - intros o d' H. destruct (i_log0 o d' H) as [H1 H2]. assert (L := nth_error_lt H1).
    rewrite !nth_error_app1 by lia. auto.
  - intros o. rewrite nth_error_snoc. destruct (o =? length (h_objs h)); [congruence|]. auto.
  - exact i_len0.
  - intros o y H. assert (L := nth_error_lt H). rewrite nth_error_app1 by lia. exact H.
  - rewrite nth_error_snoc, i_len0, Nat.eqb_refl. reflexivity.
  - reflexivity.
Qed.

Lemma new_ctr_inv h hs p ds : inv h hs p None ds ->
  inv (snd (new_ctr h 0)) hs p (Some (fst (new_ctr h 0))) ds /\ keeps h (snd (new_ctr h 0)).
Proof.
  intros I. destruct I. unfold new_ctr. cbn [fst snd].
  assert (Z0 : refs (length (h_ctrs h)) hs = 0).
  { apply refs_zero. intros s Hs E. destruct (i_live0 s _ Hs E) as [n Hn]. apply nth_error_lt in Hn. lia. }
  split; [|now split]. constructor; cbn [h_ctrs h_objs h_log]; eauto.
  - intros a n. rewrite nth_error_snoc. cbn [opt_eqb]. destruct (Nat.eqb_spec a (length (h_ctrs h))) as [->|N].
    + intros E. injection E as <-. rewrite Nat.eqb_refl. auto.
    + intros E. destruct (Nat.eqb_spec (length (h_ctrs h)) a); [congruence|]. exact (i_ctr0 a n E).
  - intros s a Hs E. destruct (i_live0 s a Hs E) as [n Hn]. exists n.
    rewrite nth_error_app1; [exact Hn|]. eapply nth_error_lt, Hn.
  - intros a E. injection E as <-. rewrite nth_error_snoc, Nat.eqb_refl. reflexivity.
Qed.

Lemma adopt_inv h hs src a ds : inv h hs src (Some a) ds ->
  (forall o, src = Some o -> nth_error ds o = Some 0) ->
  exists h', set_ctr h a 1 = Ret h' /\ inv h' (mkS src 0 (Some a) :: hs) None None ds /\ keeps h h'.
Proof.
  intros I Hd. destruct I. assert (Ea := i_q0 a eq_refl). assert (La := nth_error_lt Ea).
  assert (Za : refs a hs = 0).
  { assert (X := i_ctr0 a 0 Ea). cbn [opt_eqb] in X. rewrite Nat.eqb_refl in X. apply X. }
  assert (Na := proj1 (refs_zero a hs) Za).
  exists (mkHeap (upd (h_ctrs h) a (Some 1)) (h_objs h) (h_log h)).
  split; [unfold set_ctr, get_ctr; now rewrite Ea|]. split; [|now split].
  constructor; cbn [h_ctrs h_objs h_log].
  - intros b n. rewrite nth_error_upd by exact La. cbn [opt_eqb]. rewrite refs_cons. unfold has_rc. cbn [s_rc opt_eqb].
    destruct (Nat.eqb_spec b a) as [->|N].
    + intros E. injection E as <-. rewrite Nat.eqb_refl. lia.
    + intros E. assert (X := i_ctr0 b n E). cbn [opt_eqb] in X. destruct (Nat.eqb_spec a b); [congruence|]. cbn. exact X.
  - intros s b [<-|Hs] E; cbn [s_rc] in *.
    + injection E as <-. exists 1. rewrite nth_error_upd by exact La. now rewrite Nat.eqb_refl.
    + destruct (i_live0 s b Hs E) as [n Hn]. rewrite nth_error_upd by exact La.
      destruct (Nat.eqb_spec b a) as [->|N]; eauto.
  - discriminate.
  - intros s t b [<-|Hs] [<-|Ht] E1 E2; cbn [s_rc s_ptr s_del] in *; auto.
    + injection E1 as <-. exfalso. exact (Na t Ht E2).
    + injection E2 as <-. exfalso. exact (Na s Hs E1).
    + eauto.
  - intros s [<-|Hs]; [discriminate|auto].
  - intros s t o [<-|Hs] [<-|Ht] E1 E2; cbn [s_rc s_ptr s_del] in *; auto.
    + exfalso. exact (i_pend0 o E1 t Ht E2).
    + exfalso. exact (i_pend0 o E2 s Hs E1).
    + eauto.
  - intros s o [<-|Hs] E; cbn [s_ptr s_del] in *; auto.
  - discriminate.
  - exact i_len0.
  - intros o. rewrite i_objs0. split.
    + intros [H|(s & Hs & E)]; right; [|exists s; split; auto; now right].
      exists (mkS src 0 (Some a)). split; [now left|exact H].
    + intros [H|(s & [<-|Hs] & E)]; [discriminate|left; exact E|right; eauto].
  - auto. - auto. - auto.
Qed.

Lemma del_ctr_inv h hs p a ds : inv h hs p (Some a) ds ->
  exists h', del_ctr h a = Ret h' /\ inv h' hs p None ds /\ keeps h h'.
Proof.
  intros I. destruct I. assert (Ea := i_q0 a eq_refl). assert (La := nth_error_lt Ea).
  assert (Za : refs a hs = 0).
  { assert (X := i_ctr0 a 0 Ea). cbn [opt_eqb] in X. rewrite Nat.eqb_refl in X. apply X. }
  assert (Na := proj1 (refs_zero a hs) Za).
  exists (mkHeap (upd (h_ctrs h) a None) (h_objs h) (h_log h)).
  split; [unfold del_ctr, get_ctr; now rewrite Ea|]. split; [|now split].
  constructor; cbn [h_ctrs h_objs h_log]; eauto.
  - intros b n. rewrite nth_error_upd by exact La. cbn [opt_eqb].
    destruct (Nat.eqb_spec b a) as [->|N]; [discriminate|].
    intros E. assert (X := i_ctr0 b n E). cbn [opt_eqb] in X. destruct (Nat.eqb_spec a b); [congruence|]. exact X.
  - intros s b Hs E. rewrite nth_error_upd by exact La.
    destruct (Nat.eqb_spec b a) as [->|N]; [exfalso; exact (Na s Hs E)|eauto].
  - discriminate.
Qed.

(* deleting an object not referenced by any handle *)
Lemma del_obj_inv h hs p q ds o d : 
  inv h hs (Some o) q ds -> p = None -> nth_error ds o = Some d ->
  exists h', del_obj h d (Some o) = Ret h' /\ inv h' hs p q ds /\ keeps h h' /\ h_ctrs h' = h_ctrs h.
Proof.
  intros I -> Ed. destruct I.
  assert (Eo : exists x, nth_error (h_objs h) o = Some (Some x)) by (apply i_objs0; now left).
  destruct Eo as [x Eo]. assert (Lo := nth_error_lt Eo).
  exists (mkHeap (h_ctrs h) (upd (h_objs h) o None) ((o, d) :: h_log h)).
  split; [unfold del_obj, get_obj; now rewrite Eo|].
  split; [|split; [split; cbn [h_objs]|reflexivity]].
  - constructor; cbn [h_ctrs h_objs h_log]; auto.
    + discriminate.
    + now rewrite upd_length.
    + intros o'. rewrite nth_error_upd by exact Lo. destruct (Nat.eqb_spec o' o) as [->|N].
      * split; [intros [y H]; discriminate|]. intros [H|(s & Hs & E)]; [discriminate|].
        exfalso. exact (i_pend0 o eq_refl s Hs E).
      * rewrite i_objs0. split; intros [H|H]; auto; congruence.
    + intros o' d' [E|H].
      * injection E as <- <-. split; [exact Ed|]. rewrite nth_error_upd by exact Lo. now rewrite Nat.eqb_refl.
      * destruct (i_log0 o' d' H) as [H1 H2]. split; auto. rewrite nth_error_upd by exact Lo.
        destruct (o' =? o); auto.
    + intros o'. rewrite nth_error_upd by exact Lo. cbn [map fst In]. destruct (Nat.eqb_spec o' o); auto.
    + cbn [map fst]. constructor; auto. intros X. apply in_map_iff in X as ([o' d'] & E & H). cbn in E. subst o'.
      destruct (i_log0 o d' H) as [_ H2]. congruence.
  - now rewrite upd_length.
  - intros o' y. rewrite nth_error_upd by exact Lo. destruct (o' =? o); [discriminate|auto].
Qed.

(* giving up a counted handle: the decrement *)
Lemma release_inv h s hs p a ds : inv h (s :: hs) p None ds -> s_rc s = Some a ->
  (forall o, p = Some o -> s_ptr s <> Some o) ->
  exists n h1, dec_ctr h a = Ret (n, h1) /\ keeps h h1 /\ n = refs a hs /\
    (n = 0 -> exists h2, del_obj h1 (s_del s) (s_ptr s) = Ret h2 /\ inv h2 hs p (Some a) ds /\ keeps h h2) /\
    (n <> 0 -> inv h1 hs p None ds /\ h_objs h1 = h_objs h).
Proof.
  intros I Es Hp. assert (I0 := I). destruct I.
  destruct (i_live0 s a (or_introl eq_refl) Es) as [k Ek]. assert (La := nth_error_lt Ek).
  assert (X := i_ctr0 a k Ek). cbn [opt_eqb] in X. destruct X as [Ck Pk].
  rewrite refs_cons in Ck. unfold has_rc in Ck. rewrite Es in Ck. cbn [opt_eqb] in Ck. rewrite Nat.eqb_refl in Ck.
  destruct k as [|n]; [lia|]. assert (En : n = refs a hs) by lia.
  set (h1 := mkHeap (upd (h_ctrs h) a (Some n)) (h_objs h) (h_log h)).
  exists n, h1. split; [|split; [now split|split; [exact En|split]]].
  - unfold dec_ctr, set_ctr, get_ctr. rewrite Ek. reflexivity.
  - (* last handle *)
    intros E0. assert (En' : refs a hs = 0) by lia. assert (Na := proj1 (refs_zero a hs) En').
    (* view the pointee as pending *)
    destruct (s_ptr s) as [o|] eqn:Ep.
    + assert (No : forall t, In t hs -> s_ptr t <> Some o).
      { intros t Ht Et. assert (R := i_obj0 s t o (or_introl eq_refl) (or_intror Ht) Ep Et).
        rewrite Es in R. exact (Na t Ht (eq_sym R)). }
      assert (Eo : exists x, nth_error (h_objs h) o = Some (Some x)).
      { apply i_objs0. right. exists s. split; [now left|exact Ep]. }
      destruct Eo as [x Eo]. assert (Lo := nth_error_lt Eo).
      exists (mkHeap (h_ctrs h1) (upd (h_objs h1) o None) ((o, s_del s) :: h_log h1)).
      split; [unfold del_obj, get_obj; cbn [h1 h_objs]; now rewrite Eo|].
      split; [|split; cbn [h1 h_objs]; [now rewrite upd_length|]].
      2:{ intros o' y. rewrite nth_error_upd by exact Lo. destruct (o' =? o); [discriminate|auto]. }
      constructor; cbn [h1 h_ctrs h_objs h_log].
      * intros b m. rewrite nth_error_upd by exact La. cbn [opt_eqb]. destruct (Nat.eqb_spec b a) as [->|N].
        -- intros E. injection E as <-. rewrite Nat.eqb_refl. auto.
        -- intros E. assert (X := i_ctr0 b m E). cbn [opt_eqb] in X. rewrite refs_cons in X. unfold has_rc in X.
           rewrite Es in X. cbn [opt_eqb] in X. destruct (Nat.eqb_spec a b); [congruence|]. exact X.
      * intros t b Ht E. destruct (i_live0 t b (or_intror Ht) E) as [m Hm]. rewrite nth_error_upd by exact La.
        destruct (Nat.eqb_spec b a); eauto.
      * intros b E. injection E as <-. rewrite nth_error_upd by exact La. now rewrite Nat.eqb_refl, E0.
      * intros t u b Ht Hu. apply i_same0; now right.
      * intros t Ht. apply i_bare0; now right.
      * intros t u o' Ht Hu. apply i_obj0; now right.
      * intros t o' Ht. apply i_del0; now right.
      * intros o' E t Ht. apply (i_pend0 o' E). now right.
      * now rewrite upd_length.
      * intros o'. rewrite nth_error_upd by exact Lo. destruct (Nat.eqb_spec o' o) as [->|N].
        -- split; [intros [y H]; discriminate|]. intros [H|(t & Ht & E)].
           ++ exfalso. now apply (Hp o H).
           ++ exfalso. exact (No t Ht E).
        -- rewrite i_objs0. split; intros [H|(t & Ht & E)]; auto.
           ++ destruct Ht as [<-|Ht]; [congruence|]. right. eauto.
           ++ right. exists t. split; auto. now right.
      * intros o' d' [E|H].
        -- injection E as <- <-. split; [apply (i_del0 s); [now left|exact Ep]|].
           rewrite nth_error_upd by exact Lo. now rewrite Nat.eqb_refl.
        -- destruct (i_log0 o' d' H) as [H1 H2]. split; auto. rewrite nth_error_upd by exact Lo.
           destruct (o' =? o); auto.
      * intros o'. rewrite nth_error_upd by exact Lo. cbn [map fst In]. destruct (Nat.eqb_spec o' o); auto.
      * cbn [map fst]. constructor; auto. intros X. apply in_map_iff in X as ([o' d'] & E & H). cbn in E. subst o'.
        destruct (i_log0 o d' H) as [_ H2]. congruence.
    + exists h1. split; [reflexivity|]. split; [|now split].
      constructor; cbn [h1 h_ctrs h_objs h_log].
      * intros b m. rewrite nth_error_upd by exact La. cbn [opt_eqb]. destruct (Nat.eqb_spec b a) as [->|N].
        -- intros E. injection E as <-. rewrite Nat.eqb_refl. auto.
        -- intros E. assert (X := i_ctr0 b m E). cbn [opt_eqb] in X. rewrite refs_cons in X. unfold has_rc in X.
           rewrite Es in X. cbn [opt_eqb] in X. destruct (Nat.eqb_spec a b); [congruence|]. exact X.
      * intros t b Ht E. destruct (i_live0 t b (or_intror Ht) E) as [m Hm]. rewrite nth_error_upd by exact La.
        destruct (Nat.eqb_spec b a); eauto.
      * intros b E. injection E as <-. rewrite nth_error_upd by exact La. now rewrite Nat.eqb_refl, E0.
      * intros t u b Ht Hu. apply i_same0; now right.
      * intros t Ht. apply i_bare0; now right.
      * intros t u o' Ht Hu. apply i_obj0; now right.
      * intros t o' Ht. apply i_del0; now right.
      * intros o' E t Ht. apply (i_pend0 o' E). now right.
      * exact i_len0.
      * intros o'. rewrite i_objs0. split; intros [H|(t & Ht & E)]; auto.
        -- destruct Ht as [<-|Ht]; [congruence|]. right. eauto.
        -- right. exists t. split; auto. now right.
      * exact i_log0.
      * exact i_gone0.
      * exact i_once0.
  - (* others remain *)
    intros N0. split; [|reflexivity].
    assert (Ex : exists t, In t hs /\ s_rc t = Some a).
    { destruct (filter (has_rc a) hs) as [|t l] eqn:F; [unfold refs in En; rewrite F in En; cbn in En; lia|].
      assert (Ht : In t (filter (has_rc a) hs)) by (rewrite F; now left).
      apply filter_In in Ht as [Ht R]. apply opt_eqb_spec in R. eauto. }
    destruct Ex as (t0 & Ht0 & Et0).
    destruct (i_same0 s t0 a (or_introl eq_refl) (or_intror Ht0) Es Et0) as [Sp Sd].
    constructor; cbn [h1 h_ctrs h_objs h_log].
    + intros b m. rewrite nth_error_upd by exact La. cbn [opt_eqb]. destruct (Nat.eqb_spec b a) as [->|N].
      * intros E. injection E as <-. lia.
      * intros E. assert (X := i_ctr0 b m E). cbn [opt_eqb] in X. rewrite refs_cons in X. unfold has_rc in X.
        rewrite Es in X. cbn [opt_eqb] in X. destruct (Nat.eqb_spec a b); [congruence|]. exact X.
    + intros t b Ht E. destruct (i_live0 t b (or_intror Ht) E) as [m Hm]. rewrite nth_error_upd by exact La.
      destruct (Nat.eqb_spec b a); eauto.
    + discriminate.
    + intros t u b Ht Hu. apply i_same0; now right.
    + intros t Ht. apply i_bare0; now right.
    + intros t u o' Ht Hu. apply i_obj0; now right.
    + intros t o' Ht. apply i_del0; now right.
    + intros o' E t Ht. apply (i_pend0 o' E). now right.
    + exact i_len0.
    + intros o'. rewrite i_objs0. split; intros [H|(t & Ht & E)]; auto.
      * destruct Ht as [<-|Ht]; [|right; eauto]. right. exists t0. split; auto. congruence.
      * right. exists t. split; auto. now right.
    + exact i_log0.
    + exact i_gone0.
    + exact i_once0.
Qed.

(* --- handle operations --- *)
Lemma copy_inv h hs p ds s : inv h hs p None ds -> In s hs ->
  exists h', s_copy h s = Ret (s, h') /\ inv h' (s :: hs) p None ds /\ keeps h h'.
Proof.
  intros I Hs. destruct s as [sp sd [a|]]; unfold s_copy; cbn [s_rc s_ptr s_del].
  - set (s := mkS sp sd (Some a)) in *. destruct I.
    destruct (i_live0 s a Hs eq_refl) as [k Ek]. assert (La := nth_error_lt Ek).
    assert (X := i_ctr0 a k Ek). cbn [opt_eqb] in X. destruct X as [Ck Pk].
    exists (mkHeap (upd (h_ctrs h) a (Some (S k))) (h_objs h) (h_log h)).
    split; [unfold inc_ctr, set_ctr, get_ctr; rewrite Ek; reflexivity|]. split; [|now split].
    assert (Hin : forall t, In t (s :: hs) -> In t hs) by (intros t [<-|Ht]; auto).
    constructor; cbn [h_ctrs h_objs h_log]; eauto.
    + intros b m. rewrite nth_error_upd by exact La. cbn [opt_eqb]. rewrite refs_cons. unfold has_rc, s. cbn [s_rc opt_eqb].
      destruct (Nat.eqb_spec b a) as [->|N].
      * intros E. injection E as <-. rewrite Nat.eqb_refl. lia.
      * intros E. destruct (Nat.eqb_spec a b); [congruence|]. exact (i_ctr0 b m E).
    + intros t b Ht E. destruct (i_live0 t b (Hin t Ht) E) as [m Hm]. rewrite nth_error_upd by exact La.
      destruct (Nat.eqb_spec b a); eauto.
    + discriminate.
    + intros o. rewrite i_objs0. split; intros [H|(t & Ht & E)]; auto; right; exists t; split; auto. now right.
  - set (s := mkS sp sd None) in *. exists h. split; [reflexivity|]. split; [|apply keeps_refl]. destruct I.
    assert (Hin : forall t, In t (s :: hs) -> In t hs) by (intros t [<-|Ht]; auto).
    constructor; eauto.
    intros o. rewrite i_objs0. split; intros [H|(t & Ht & E)]; auto; right; exists t; split; auto. now right.
Qed.

Lemma bare_inv h hs p q ds : inv h hs p q ds -> inv h (s_null :: hs) p q ds.
Proof.
  intros I. destruct I. constructor; auto.
  - intros s a [<-|Hs]; [discriminate|eauto].
  - intros s t a [<-|Hs] [<-|Ht]; try discriminate; eauto.
  - intros s [<-|Hs]; [reflexivity|eauto].
  - intros s t o [<-|Hs] [<-|Ht]; try discriminate; eauto.
  - intros s o [<-|Hs]; [discriminate|eauto].
  - intros o E s [<-|Hs]; [discriminate|eauto].
  - intros o. rewrite i_objs0. split; intros [H|(t & Ht & E)]; auto.
    + right. exists t. split; auto. now right.
    + destruct Ht as [<-|Ht]; [discriminate|]. right. eauto.
Qed.

(* a bare handle can be dropped *)
Lemma unbare_inv h s hs p q ds : inv h (s :: hs) p q ds -> s_rc s = None -> inv h hs p q ds.
Proof.
  intros I Es. destruct I. assert (Ep := i_bare0 s (or_introl eq_refl) Es). constructor; auto.
  - intros a n E. assert (X := i_ctr0 a n E). rewrite refs_cons in X. unfold has_rc in X. rewrite Es in X. exact X.
  - intros t a Ht. apply i_live0. now right.
  - intros t u a Ht Hu. apply i_same0; now right.
  - intros t Ht. apply i_bare0. now right.
  - intros t u o Ht Hu. apply i_obj0; now right.
  - intros t o Ht. apply i_del0. now right.
  - intros o E t Ht. apply (i_pend0 o E). now right.
  - intros o. rewrite i_objs0. split; intros [H|(t & Ht & E)]; auto.
    + destruct Ht as [<-|Ht]; [congruence|]. right. eauto.
    + right. exists t. split; auto. now right.
Qed.

Lemma destroy_inv h s hs p ds : inv h (s :: hs) p None ds -> (forall o, p = Some o -> s_ptr s <> Some o) ->
  exists h', s_destroy h s = Ret h' /\ inv h' hs p None ds /\ keeps h h'.
Proof.
  intros I Hp. unfold s_destroy. destruct (s_rc s) as [a|] eqn:Es.
  - destruct (release_inv I Es Hp) as (n & h1 & E1 & K1 & _ & H0 & H1). rewrite E1. cbn [bind].
    destruct (Nat.eqb_spec n 0) as [Z|N].
    + destruct (H0 Z) as (h2 & E2 & I2 & K2). rewrite E2. cbn [bind].
      destruct (del_ctr_inv I2) as (h3 & E3 & I3 & K3). exists h3. split; [exact E3|]. split; [exact I3|]. exact (keeps_trans K2 K3).
    + destruct (H1 N). exists h1. auto.
  - exists h. split; [reflexivity|]. split; [|apply keeps_refl]. eapply unbare_inv; eauto.
Qed.

Lemma new_handle_inv h hs src ds : inv h hs src None ds -> forall d,
  (forall o, src = Some o -> nth_error ds o = Some d) ->
  inv (snd (new_ctr h 1)) (mkS src d (Some (fst (new_ctr h 1))) :: hs) None None ds /\ keeps h (snd (new_ctr h 1)).
Proof.
  intros I d Hd. split; [|now split]. destruct I.
  set (a := length (h_ctrs h)).
  assert (Na : forall s, In s hs -> s_rc s <> Some a).
  { intros s Hs E. destruct (i_live0 s _ Hs E) as [n Hn]. apply nth_error_lt in Hn. unfold a in Hn. lia. }
  assert (Za := proj2 (refs_zero a hs) Na).
  unfold new_ctr. cbn [fst snd]. fold a.
  constructor; cbn [h_ctrs h_objs h_log].
  - intros b n. rewrite nth_error_snoc. fold a. cbn [opt_eqb]. rewrite refs_cons. unfold has_rc. cbn [s_rc opt_eqb].
    destruct (Nat.eqb_spec b a) as [->|N].
    + intros E. injection E as <-. rewrite Nat.eqb_refl. lia.
    + intros E. assert (X := i_ctr0 b n E). cbn [opt_eqb] in X. destruct (Nat.eqb_spec a b); [congruence|]. cbn. exact X.
  - intros s b [<-|Hs] E; cbn [s_rc] in *.
    + injection E as <-. exists 1. rewrite nth_error_snoc. fold a. now rewrite Nat.eqb_refl.
    + destruct (i_live0 s b Hs E) as [n Hn]. rewrite nth_error_snoc. fold a.
      destruct (Nat.eqb_spec b a) as [->|N]; eauto.
  - discriminate.
  - intros s t b [<-|Hs] [<-|Ht] E1 E2; cbn [s_rc s_ptr s_del] in *; auto.
    + injection E1 as <-. exfalso. exact (Na t Ht E2).
    + injection E2 as <-. exfalso. exact (Na s Hs E1).
    + eauto.
  - intros s [<-|Hs]; [discriminate|auto].
  - intros s t o [<-|Hs] [<-|Ht] E1 E2; cbn [s_rc s_ptr s_del] in *; auto.
    + exfalso. exact (i_pend0 o E1 t Ht E2).
    + exfalso. exact (i_pend0 o E2 s Hs E1).
    + eauto.
  - intros s o [<-|Hs] E; cbn [s_ptr s_del] in *; auto.
  - discriminate.
  - exact i_len0.
  - intros o. rewrite i_objs0. split.
    + intros [H|(s & Hs & E)]; right; [|exists s; split; auto; now right].
      exists (mkS src d (Some a)). split; [now left|exact H].
    + intros [H|(s & [<-|Hs] & E)]; [discriminate|left; exact E|right; eauto].
  - auto. - auto. - auto.
Qed.

Lemma assign_inv h x y hs ds : inv h (x :: hs) None None ds -> In y (x :: hs) ->
  exists h', s_assign h x y = Ret (y, h') /\ inv h' (y :: hs) None None ds /\ keeps h h'.
Proof.
  intros I Hy. unfold s_assign, s_swap. destruct (copy_inv I Hy) as (h1 & E1 & I1 & K1). rewrite E1. cbn [bind].
  assert (I1' := inv_perm (perm_swap x y hs) I1).
  destruct (destroy_inv I1') as (h2 & E2 & I2 & K2); [discriminate|]. rewrite E2. cbn [bind].
  exists h2. split; [reflexivity|]. split; [exact I2|]. exact (keeps_trans K1 K2).
Qed.

(* reset to a new object (src = Some o pending) or to null *)
Lemma reset_inv h s src hs ds : inv h (s :: hs) src None ds -> s_ptr s <> src ->
  (forall o, src = Some o -> nth_error ds o = Some 0) ->
  exists s' h', s_reset h s src false = Ret (s', h') /\ s_ptr s' = src /\ inv h' (s' :: hs) None None ds /\ keeps h h' /\
    (exists a, s_rc s' = Some a /\ refs a (s' :: hs) = 1).
Proof.
  intros I Hne Hd. unfold s_reset.
  destruct (opt_eqb (s_ptr s) src) eqn:B; [apply opt_eqb_spec in B; contradiction|].
  assert (Fresh : forall h, inv h hs src None ds ->
    exists s' h', (let '(b, h0) := new_ctr h 0 in h1 <- set_ctr h0 b 1 ;; Ret (mkS src 0 (Some b), h1)) = Ret (s', h') /\
      s_ptr s' = src /\ inv h' (s' :: hs) None None ds /\ keeps h h' /\
      (exists a, s_rc s' = Some a /\ refs a (s' :: hs) = 1)).
  { clear h I. intros h I. destruct (new_ctr_inv I) as [I1 K1]. destruct (new_ctr h 0) as [b h0]. cbn [fst snd] in *.
    destruct (adopt_inv I1 Hd) as (h1 & E1 & I2 & K2). rewrite E1. cbn [bind].
    exists (mkS src 0 (Some b)), h1. split; [reflexivity|]. split; [reflexivity|]. split; [exact I2|].
    split; [exact (keeps_trans K1 K2)|]. exists b. split; [reflexivity|].
    rewrite refs_cons. unfold has_rc. cbn [s_rc opt_eqb]. rewrite Nat.eqb_refl.
    assert (X := i_ctr I1 (i_q I1 eq_refl)). cbn [opt_eqb] in X. rewrite Nat.eqb_refl in X. lia. }
  destruct (s_rc s) as [a|] eqn:Es.
  - assert (Hp : forall o, src = Some o -> s_ptr s <> Some o) by (intros o -> X; apply Hne; exact X).
    destruct (release_inv I Es Hp) as (n & h1 & E1 & K1 & _ & H0 & H1). rewrite E1. cbn [bind].
    destruct (Nat.eqb_spec n 0) as [Z|N].
    + destruct (H0 Z) as (h2 & E2 & I2 & K2). rewrite E2. cbn [bind].
      destruct (adopt_inv I2 Hd) as (h3 & E3 & I3 & K3). rewrite E3. cbn [bind].
      exists (mkS src 0 (Some a)), h3. split; [reflexivity|]. split; [reflexivity|]. split; [exact I3|].
      split; [exact (keeps_trans K2 K3)|]. exists a. split; [reflexivity|].
      rewrite refs_cons. unfold has_rc. cbn [s_rc opt_eqb]. rewrite Nat.eqb_refl.
      assert (X := i_ctr I2 (i_q I2 eq_refl)). cbn [opt_eqb] in X. rewrite Nat.eqb_refl in X. lia.
    + destruct (H1 N) as [I2 O2]. destruct (Fresh h1 I2) as (s' & h' & E & P & I3 & K3 & R).
      exists s', h'. split; [exact E|]. split; [exact P|]. split; [exact I3|]. split; [exact (keeps_trans K1 K3)|exact R].
  - apply Fresh. eapply unbare_inv; eauto.
Qed.

(* reset when memory runs out *)
Lemma reset_oom_inv h s o hs ds : inv h (s :: hs) (Some o) None ds -> s_ptr s <> None ->
  nth_error ds o = Some 0 ->
  exists s' h', s_reset h s (Some o) true = Ret (s', h') /\ inv h' (s' :: hs) None None ds /\
    s_ptr s' = (if existsb (fun t => opt_eqb (s_ptr t) (s_ptr s)) hs then s_ptr s else Some o).
Proof.
  intros I Hn Hd.
  destruct (s_ptr s) as [os|] eqn:Ep; [|congruence]. clear Hn.
  assert (Hne : os <> o) by (intros ->; exact (i_pend I eq_refl (or_introl eq_refl) Ep)).
  destruct (s_rc s) as [a|] eqn:Es; [|rewrite (i_bare I (or_introl eq_refl) Es) in Ep; discriminate].
  unfold s_reset. rewrite Ep, Es. cbn [opt_eqb]. destruct (Nat.eqb_spec os o); [contradiction|].
  assert (Hp : forall o', Some o = Some o' -> s_ptr s <> Some o') by congruence.
  destruct (release_inv I Es Hp) as (n0 & h1 & E1 & K1 & En & H0 & H1). rewrite E1. cbn [bind].
  assert (Sh : existsb (fun t => opt_eqb (s_ptr t) (Some os)) hs = true <-> refs a hs <> 0).
  { rewrite existsb_exists. split.
    - intros (t & Ht & Et) Z. apply opt_eqb_spec in Et.
      assert (R := i_obj I (or_introl eq_refl) (or_intror Ht) Ep Et). rewrite Es in R.
      exact (proj1 (refs_zero a hs) Z t Ht (eq_sym R)).
    - intros N. unfold refs in N. destruct (filter (has_rc a) hs) as [|t l] eqn:F; [cbn in N; congruence|].
      assert (Ht : In t (filter (has_rc a) hs)) by (rewrite F; now left).
      apply filter_In in Ht as [Ht R]. apply opt_eqb_spec in R. exists t. split; auto. apply opt_eqb_spec.
      destruct (i_same I (or_introl eq_refl) (or_intror Ht) Es R) as [X _]. congruence. }
  destruct (Nat.eqb_spec n0 0) as [Z|N].
  - assert (Hd' : forall o', Some o = Some o' -> nth_error ds o' = Some 0) by (intros o' E; injection E as <-; exact Hd).
    destruct (H0 Z) as (h2 & E2 & I2 & K2). rewrite Ep in E2. rewrite E2. cbn [bind].
    destruct (adopt_inv I2 Hd') as (h3 & E3 & I3 & K3).
    rewrite E3. cbn [bind]. exists (mkS (Some o) 0 (Some a)), h3. split; [reflexivity|]. split; [exact I3|].
    cbn [s_ptr]. destruct (existsb _ hs) eqn:X; [|reflexivity]. assert (Y := proj1 Sh eq_refl). lia.
  - destruct (H1 N) as [I2 O2].
    (* ++*rc restores; then delete src *)
    assert (X : exists h2, inc_ctr h1 a = Ret h2 /\ inv h2 (s :: hs) (Some o) None ds).
    { assert (Ex : exists t, In t hs /\ s_rc t = Some a).
      { destruct (filter (has_rc a) hs) as [|t l] eqn:F; [unfold refs in En; rewrite F in En; cbn in En; lia|].
        assert (Ht : In t (filter (has_rc a) hs)) by (rewrite F; now left).
        apply filter_In in Ht as [Ht R]. apply opt_eqb_spec in R. eauto. }
      destruct Ex as (t & Ht & Et).
      assert (Est : s = t).
      { destruct (i_same I (or_introl eq_refl) (or_intror Ht) Es Et) as [P D]. destruct s as [sp sd sr], t as [tp td tr]; cbn in *. congruence. }
      destruct (@copy_inv h1 hs (Some o) ds t I2 Ht) as (h2 & E2 & I3 & K3). unfold s_copy in E2. rewrite Et in E2.
      destruct (inc_ctr h1 a) as [h2'| | |] eqn:Q; try discriminate. cbn [bind] in E2. injection E2 as _ <-.
      exists h2'. split; [reflexivity|]. rewrite Est. exact I3. }
    destruct X as (h2 & E2 & I3). rewrite E2. cbn [bind].
    destruct (del_obj_inv I3 (p := None) eq_refl Hd) as (h3 & E3 & I4 & _). rewrite E3. cbn [bind].
    exists s, h3. split; [reflexivity|]. split; [exact I4|].
    destruct (existsb _ hs) eqn:X; [exact Ep|]. assert (Y := proj2 Sh). rewrite <- En in Y. discriminate (Y N).
Qed.
