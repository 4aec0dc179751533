(* P_Support.v - two-colouring by depth first search. *)
From Verif Require Import Base M_Bell M_Change M_Row M_Group M_Extent M_Support Spec_Row Spec_Extent Spec_Group.
From Verif Require Import P_Bell P_Row P_Group P_Extent P_Extent3 P_False P_False3 P_TSearch4 Props_Extent.
Set Implicit Arguments. Unset Strict Implicit.
Open Scope nat_scope.

Lemma sign_at_in m r s : sign_at m r = Some s -> In (r, s) m.
Proof.
  induction m as [|[x t] m IH]; cbn [sign_at]; [discriminate|]. unfold M_Row.row_eqb. destruct (list_eq_dec Nat.eq_dec x r) as [->|]; [intro H; assert (t = s) as -> by congruence; now left|right; auto].
Qed.
Lemma sign_at_none m r : sign_at m r = None <-> ~ In r (map fst m).
Proof.
  induction m as [|[x t] m IH]; cbn [sign_at map fst In]; [tauto|]. unfold M_Row.row_eqb. destruct (list_eq_dec Nat.eq_dec x r) as [->|N]; [split; [discriminate|tauto]|]. rewrite IH. intuition congruence.
Qed.
Lemma sign_at_cons r s m x : sign_at ((r, s) :: m) x = if list_eq_dec Nat.eq_dec r x then Some s else sign_at m x.
Proof. cbn [sign_at]. unfold M_Row.row_eqb. now destruct (list_eq_dec _ _ _). Qed.
Lemma row256_of n x : n <= 256 -> row_b n x -> row256 x.
Proof. intros L [R E]. split; auto. lia. Qed.
(* all the rows *)
Lemma all_rows n : n <= 256 -> exists l, forall r, In r l <-> row_b n r.
Proof.
  intro H. destruct (@C23_visits_extent n 0 n (Z.to_nat (fac n))) as (l & _ & _ & A); [lia|lia|lia|]. exists l. intro r. rewrite A. split; [intros (R & L & _); now split|]. intros [R L]. split; auto. split; auto. intros i Hi. apply nth_overflow. lia.
Qed.
Section Search.
Variable n : nat.
Hypothesis N256 : n <= 256.
Variable ft : list row.
Hypothesis FT : Forall (row_b n) ft.
Definition edge (f : list nat) : Prop := In f ft /\ f <> id_row n.
Inductive reach : list nat -> Prop :=
| reach_0 : reach (id_row n)
| reach_f r f : reach r -> edge f -> reach (comp r f).
Lemma id_b : row_b n (id_row n).
Proof. split; [|unfold id_row; now rewrite seq_length]. unfold is_row, id_row. now rewrite seq_length. Qed.
Lemma edge_b f : edge f -> row_b n f.
Proof. intros [H _]. rewrite Forall_forall in FT. auto. Qed.
Lemma reach_b r : reach r -> row_b n r.
Proof. induction 1 as [|r f R IH E]; [apply id_b|]. apply edge_b in E. apply comp_row_b; auto; [apply E|destruct E; lia]. Qed.
Definition good (m : signs) : Prop := NoDup (map fst m) /\ forall r, In r (map fst m) -> reach r.
Definition extends (m m' : signs) : Prop := forall r s, sign_at m r = Some s -> sign_at m' r = Some s.
(* the edges of x are as they should be *)
Definition done (m : signs) (x : list nat) (s : Z) (fs : list row) : Prop := forall f, In f fs -> f <> id_row n -> sign_at m (comp x f) = Some (- s)%Z.
Definition agrees (c : list nat -> Z) (m : signs) : Prop := forall r s, sign_at m r = Some s -> c r = s.
Definition colouring (c : list nat -> Z) : Prop := forall r f, reach r -> edge f -> c (comp r f) = (- c r)%Z.
Lemma extends_refl m : extends m m.
Proof. intros r s H. exact H. Qed.
Lemma extends_trans a b c : extends a b -> extends b c -> extends a c.
Proof. intros H K r s E. auto. Qed.
Definition post (m m' : signs) (ok : bool) : Prop :=
  good m' /\ extends m m' /\ length m <= length m' /\
  (ok = true -> forall x s, sign_at m' x = Some s -> sign_at m x = Some s \/ done m' x s ft).
Definition rec_spec (rec : signs -> row -> Z -> outcome (bool * signs)) (room : nat) (all : list row) : Prop :=
  forall m r s, good m -> reach r -> length all < room + length m ->
  exists ok m', rec m r s = Ret (ok, m') /\ post m m' ok /\ (ok = true -> sign_at m' r = Some s) /\
    forall c, colouring c -> agrees c m -> c r = s -> ok = true /\ agrees c m'.
Lemma done_extends m m' x s fs : extends m m' -> done m x s fs -> done m' x s fs.
Proof. intros E D f I N. apply E. now apply D. Qed.
Lemma loop_spec rec room all r s : rec_spec rec room all -> reach r -> forall fs, incl fs ft -> forall m, good m -> length all < room + length m -> sign_at m r = Some s ->
  exists ok m', all_false rec fs m r s = Ret (ok, m') /\ post m m' ok /\ (ok = true -> done m' r s fs) /\
    forall c, colouring c -> agrees c m -> ok = true /\ agrees c m'.
Proof.
  intros RS R fs. induction fs as [|f fs IH]; intros I m G L S0; cbn [all_false].
  - exists true, m. split; auto. split; [split; [exact G|split; [apply extends_refl|split; [lia|intros _ x t H; now left]]]|]. split; [intros _ f []|auto].
  - assert (If : In f ft) by (apply I; now left). assert (Bf : row_b n f) by (rewrite Forall_forall in FT; auto).
    assert (I2 : incl fs ft) by (intros x Hx; apply I; now right). destruct (isrounds f) eqn:E.
    + apply (isrounds_id N256 Bf) in E. destruct (IH I2 m G L S0) as (ok & m' & E2 & P & D & C). exists ok, m'. split; auto. split; auto. split; auto. intros O g [<-|Hg] Ng; [congruence|]. now apply D.
    + assert (Nf : f <> id_row n) by (intro K; apply (isrounds_id N256 Bf) in K; congruence). assert (Ef : edge f) by (split; auto).
      assert (Er : reach (comp r f)) by now constructor. rewrite (mul_comp (row256_of N256 (reach_b R)) (row256_of N256 Bf)). cbn [bind].
      destruct (RS m (comp r f) (- s)%Z G Er L) as (ok & m1 & E1 & (G1 & X1 & L1 & D1) & S1 & C1). rewrite E1. cbn [bind].
      destruct ok.
      * destruct (IH I2 m1 G1) as (ok & m2 & E2 & (G2 & X2 & L2 & D2) & D & C); [lia|auto|]. exists ok, m2. split; auto. split.
        { split; [auto|]. split; [eapply extends_trans; eauto|]. split; [lia|]. intros O x t H. destruct (D2 O x t H) as [H1|H1]; auto. destruct (D1 eq_refl x t H1) as [H3|H3]; auto. right. eapply done_extends; eauto. }
        split. { intros O g [<-|Hg] Ng; [apply X2; auto|now apply D]. }
        intros c Hc A. destruct (C1 c Hc A) as [_ A1]; [rewrite Hc by auto; f_equal; apply A; auto|]. now apply C.
      * exists false, m1. split; auto. split; [split; [auto|split; [auto|split; [auto|discriminate]]]|]. split; [discriminate|]. intros c Hc A. destruct (C1 c Hc A) as [Q _]; [rewrite Hc by auto; f_equal; apply A; auto|discriminate].
Qed.
Lemma recurse_spec all : (forall r, row_b n r -> In r all) -> forall fuel, rec_spec (recurse fuel ft) fuel all.
Proof.
  intros AL fuel. induction fuel as [|fuel IH]; intros m r s G R L.
  - exfalso. destruct G as [ND RR]. assert (Q : length (map fst m) <= length all); [|rewrite map_length in Q; cbn [plus] in L; unfold row in *; lia]. apply NoDup_incl_length; auto. intros x Hx. apply AL, reach_b. auto.
  - cbn [recurse]. destruct (sign_at m r) as [t|] eqn:E.
    + exists (t =? s)%Z, m. split; auto. split; [split; [auto|split; [apply extends_refl|split; [lia|intros _ x u H; now left]]]|]. split; [intro K; apply Z.eqb_eq in K; now subst|].
      intros c Hc A Cr. split; auto. apply Z.eqb_eq. rewrite <- Cr. symmetry. now apply A.
    + assert (G1 : good ((r, s) :: m)). { destruct G as [ND RR]. split; cbn [map fst]; [constructor; auto; now apply sign_at_none|]. intros x [<-|Hx]; auto. }
      assert (S1 : sign_at ((r, s) :: m) r = Some s) by (rewrite sign_at_cons; destruct (list_eq_dec _ r r); congruence).
      destruct (loop_spec IH R (incl_refl ft) G1 ltac:(cbn [length]; lia) S1) as (ok & m' & E2 & (G2 & X2 & L2 & D2) & D & C).
      assert (X0 : extends m ((r, s) :: m)). { intros x t Hx. rewrite sign_at_cons. destruct (list_eq_dec _ r x) as [->|]; auto. congruence. }
      exists ok, m'. split; auto. split.
      { split; [auto|]. split; [eapply extends_trans; eauto|]. split; [cbn in L2; lia|]. intros O x t Hx. destruct (D2 O x t Hx) as [K|K]; auto. rewrite sign_at_cons in K. destruct (list_eq_dec _ r x) as [<-|]; auto. right. injection K as <-. auto. }
      split; [intros _; apply X2; auto|]. intros c Hc A Cr. apply C; auto. intros x t Hx. rewrite sign_at_cons in Hx. destruct (list_eq_dec _ r x) as [<-|]; [congruence|auto].
Qed.
(* the whole search *)
Theorem search_spec : exists room, forall fuel, room <= fuel -> exists ok m, recurse fuel ft [] (id_row n) 1%Z = Ret (ok, m) /\
  (ok = true -> (forall r, (exists s, sign_at m r = Some s) <-> reach r) /\ (forall r s f, sign_at m r = Some s -> edge f -> sign_at m (comp r f) = Some (- s)%Z) /\ (forall r s, sign_at m r = Some s -> s = 1%Z \/ s = (-1)%Z)) /\
  ((exists c, colouring c /\ c (id_row n) = 1%Z) -> ok = true).
Proof.
  destruct (all_rows N256) as (all & AL0). assert (AL : forall r, row_b n r -> In r all) by (intros r Hr; now apply AL0). exists (S (length all)). intros fuel Hf.
  destruct (@recurse_spec all AL fuel [] (id_row n) 1%Z) as (ok & m & E & (G & X & _ & D) & S1 & C); [split; [apply NoDup_nil|intros r []]|apply reach_0|unfold row in *; cbn; lia|].
  exists ok, m. split; auto. split.
  - intro O. specialize (S1 O). specialize (D O). assert (ED : forall r s f, sign_at m r = Some s -> edge f -> sign_at m (comp r f) = Some (- s)%Z).
    { intros r s f Hr [If Nf]. destruct (D r s Hr) as [K|K]; [discriminate|]. now apply K. }
    assert (RS : forall r, reach r -> exists s, sign_at m r = Some s /\ (s = 1%Z \/ s = (-1)%Z)).
    { induction 1 as [|r f R (s & Es & Hs) Ef]; [exists 1%Z; auto|]. exists (- s)%Z. split; [now apply ED|]. lia. }
    split; [|split; [exact ED|]].
    + intro r. split; [intros (s & Hs); apply G; apply sign_at_in in Hs; apply (in_map fst) in Hs; exact Hs|]. intro R. destruct (RS r R) as (s & Hs & _). eauto.
    + intros r s Hr. assert (R : reach r) by (apply G; apply sign_at_in in Hr; apply (in_map fst) in Hr; exact Hr). destruct (RS r R) as (t & Ht & K). congruence.
  - intros (c & Hc & C0). destruct (C c Hc) as [O _]; auto. intros r s H. discriminate.
Qed.
End Search.
