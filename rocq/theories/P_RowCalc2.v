(* P_RowCalc2.v - what the nodes of the row calculator produce. *)
From Verif Require Import Base M_Bell M_Row M_Group M_RowCalc Spec_Row Spec_Extent Spec_Group Spec_RowCalc.
From Verif Require Import P_Bell P_Row P_Power P_Group P_Group2 P_Extent P_RowCalc.
Set Implicit Arguments. Unset Strict Implicit.
Open Scope nat_scope.

Definition runs (n : node) (o : option row) (n' : node) : Prop := exists f, ev default_symtab f n = Ret (o, n').
Inductive produces : node -> list row -> node -> Prop :=
| p_end n n' : runs n None n' -> produces n [] n'
| p_more n x n1 xs n' : runs n (Some x) n1 -> produces n1 xs n' -> produces n (x :: xs) n'.
Lemma runs_keeps n o n' : runs n o n' -> skel n' = skel n.
Proof. intros (f & H). now apply ev_keeps in H. Qed.
Lemma passes n m xs n' : (forall o k, runs m o k -> runs n o k) -> produces m xs n' -> produces n xs n'.
Proof. intros H P. inversion P; subst; [apply p_end|eapply p_more]; eauto. Qed.
Lemma produces_keeps n xs n' : produces n xs n' -> skel n' = skel n.
Proof. induction 1 as [n n' R|n x n1 xs n' R P IH]; apply runs_keeps in R; congruence. Qed.

(* a node that has not begun *)
Inductive ready : cexpr -> node -> Prop :=
| f_int z : ready (CInt z) (NInt z)
| f_row r : ready (CRow r) (NRow r)
| f_set es l i : ready_all es l -> ready (CSet es) (NSet l false i)
| f_group es l i g j : ready_all es l -> ready (CGroup es) (NGroup (NSet l false i) false g j)
| f_diff a b na nb ex : ready a na -> ready b nb -> ready (CDiff a b) (NDiff na nb false ex)
| f_diff' a b na nb ys : ready a na -> gives b ys -> skel nb = init b -> ready (CDiff a b) (NDiff na nb true ys)
| f_mult op a b na nb l r : ready a na -> ready b nb -> (many a = true -> many b = true -> r = []) -> ready (CMult op a b) (NMult op na nb l r)
| f_exp a b na nb l r : ready a na -> ready b nb -> (many a = true -> many b = true -> r = []) -> ready (CExp a b) (NExp na nb r l)
with ready_all : list cexpr -> list node -> Prop :=
| fa_none : ready_all [] []
| fa_more e es n l : ready e n -> ready_all es l -> ready_all (e :: es) (n :: l).

Lemma ready_all_iff es l : ready_all es l <-> Forall2 ready es l.
Proof. split; induction 1; constructor; auto. Qed.
Lemma init_ready e : ready e (init e).
Proof.
  induction e as [| |es F|es F|a b IHa IHb|op a b IHa IHb|a b IHa IHb] using cexpr_all; cbn [init]; constructor; auto;
    apply ready_all_iff; induction F; constructor; auto.
Qed.
Lemma skel_init e : skel (init e) = init e.
Proof.
  induction e as [| |es F|es F|a b IHa IHb|op a b IHa IHb|a b IHa IHb] using cexpr_all; cbn [init skel]; try congruence;
    repeat f_equal; rewrite map_map; induction F; cbn; congruence.
Qed.
Lemma ready_all_skel es l : Forall (fun e => forall n, ready e n -> skel n = init e) es -> Forall2 ready es l -> map skel l = map init es.
Proof. intros F Q. revert F. induction Q as [|e n es l R Q IH]; intro F; [reflexivity|]. inversion F; subst. cbn. f_equal; auto. Qed.
Lemma ready_skel e : forall n, ready e n -> skel n = init e.
Proof.
  induction e as [| |es F|es F|a b IHa IHb|op a b IHa IHb|a b IHa IHb] using cexpr_all; intros n R; inversion R; subst; cbn [skel init]; auto.
  - f_equal. apply ready_all_skel; auto. now apply ready_all_iff.
  - do 2 f_equal. apply ready_all_skel; auto. now apply ready_all_iff.
  - erewrite IHa, IHb; eauto.
  - erewrite IHa by eauto. congruence.
  - erewrite IHa, IHb; eauto.
  - erewrite IHa, IHb; eauto.
Qed.
Lemma count_init e : (count_vectors (init e) =? 0) = negb (many e).
Proof.
  induction e as [| |es F|es F|a b IHa IHb|op a b IHa IHb|a b IHa IHb] using cexpr_all; cbn [init count_vectors many]; auto;
    rewrite negb_orb, <- IHa, <- IHb; destruct (count_vectors (init a)), (count_vectors (init b)); reflexivity.
Qed.
Lemma count_of e n : skel n = init e -> (count_vectors n =? 0) = negb (many e).
Proof. intros H. rewrite <- count_init, <- H. now rewrite count_skel. Qed.
Lemma ready_again e : again e = true -> forall n, ready e n -> ready e (restart n).
Proof.
  induction e as [| |es F|es F|a b IHa IHb|op a b IHa IHb|a b IHa IHb] using cexpr_all; cbn [again]; intros A n R; inversion R; subst; cbn [restart]; try (constructor; auto; fail).
  - apply andb_true_iff in A as [A1 A2]. constructor; auto.
  - apply andb_true_iff in A as [A1 A2]. constructor; auto.
Qed.

(* rows *)
Definition sound (x : row) : Prop := row256 x /\ x <> [].
Lemma inv_inverse x : row256 x -> inverse x = Ret (inv x) /\ row256 (inv x) /\ length (inv x) = length x.
Proof.
  intros R. destruct (mul_inverse R) as (z & E & Rz & L & M1 & M2).
  assert (EZ : z = inv x); [|subst z; auto].
  assert (LI : length (inv x) = length x) by (unfold inv; now rewrite map_length, seq_length).
  apply act_ext; [congruence|]. intros i Hi.
  destruct (mul_spec R Rz) as (u & Eu & _ & _ & A). assert (u = rounds (length x)) by congruence. subst u.
  assert (B : act x (act z i) = i). { rewrite <- A. destruct (rounds_row256 (n := length x)) as [_ ->]; [apply R|]. apply act_id. }
  assert (Hz : act z i < length x). { rewrite <- L. apply act_lt; [apply Rz|lia]. }
  assert (P : forall y j, NoDup y -> j < length y -> place_of y (nth j y 0) = j).
  { clear. induction y as [|a y IH]; intros j N Hj; [cbn in Hj; lia|]. inversion N; subst. destruct j as [|j]; cbn [nth place_of].
    - now rewrite Nat.eqb_refl.
    - destruct (Nat.eqb_spec a (nth j y 0)) as [->|_]; [exfalso; apply H1, nth_In; cbn in Hj; lia|]. f_equal. apply IH; auto. cbn in Hj. lia. }
  rewrite (@act_nth (inv x) i 0) by lia. unfold inv. rewrite (nth_indep _ 0 (place_of x 0)) by (rewrite map_length, seq_length; lia).
  rewrite map_nth, seq_nth by lia. cbn. rewrite <- B at 2. rewrite (@act_nth x _ 0) by exact Hz. symmetry. apply P; [|exact Hz].
  apply is_row_iff, R.
Qed.
Lemma comp_sound x y : row256 x -> row256 y -> x <> [] -> sound (comp x y).
Proof.
  intros [Rx Lx] [Ry Ly] N. split; [split; [now apply comp_row|rewrite comp_length; lia]|]. intro H. apply (f_equal (@length _)) in H. rewrite comp_length in H.
  destruct x; [congruence|]. cbn [length] in H. lia.
Qed.
Lemma inv_sound x : sound x -> sound (inv x).
Proof. intros [R N]. destruct (inv_inverse R) as (_ & R' & L). split; auto. intro H. rewrite H in L. destruct x; [congruence|discriminate]. Qed.
Lemma multiply_ok op x y : sound x -> sound y -> multiply op x y = Ret (combined op x y) /\ sound (combined op x y).
Proof.
  intros Sx Sy. pose proof (inv_sound Sx) as Ix. pose proof (inv_sound Sy) as Iy. destruct op; cbn [multiply combined].
  - split; [apply mul_comp; [apply Sx|apply Sy]|apply comp_sound; [apply Sx|apply Sy|apply Sx]].
  - destruct (inv_inverse (proj1 Sy)) as (-> & _). cbn [bind]. split; [apply mul_comp; [apply Sx|apply Iy]|apply comp_sound; [apply Sx|apply Iy|apply Sx]].
  - destruct (inv_inverse (proj1 Sx)) as (-> & _). cbn [bind]. split; [apply mul_comp; [apply Ix|apply Sy]|apply comp_sound; [apply Ix|apply Sy|apply Ix]].
Qed.
Lemma conj_ok x y : sound x -> sound y -> (i <- inverse y ;; p <- mul i x ;; mul p y) = Ret (conjugated x y) /\ sound (conjugated x y).
Proof.
  intros Sx Sy. pose proof (inv_sound Sy) as Iy. destruct (inv_inverse (proj1 Sy)) as (-> & _). cbn [bind].
  rewrite (mul_comp (proj1 Iy) (proj1 Sx)). cbn [bind]. assert (S : sound (comp (inv y) x)) by (apply comp_sound; [apply Iy|apply Sx|apply Iy]).
  unfold conjugated. split; [apply mul_comp; [apply S|apply Sy]|apply comp_sound; [apply S|apply Sy|apply S]].
Qed.
Lemma pow_ok x z : sound x -> within z x -> power default_symtab x z = Ret (pow x (Z.to_nat z)) /\ sound (pow x (Z.to_nat z)).
Proof.
  intros [R N] [Hz W]. destruct (@power_signed x z R) as (y & E & Ry & L & A & _); [unfold int_min; lia|rewrite Z.abs_eq by lia; exact W|].
  assert (EY : y = pow x (Z.to_nat z)).
  { assert (LP : length (pow x (Z.to_nat z)) = length x) by (unfold pow; now rewrite map_length, seq_length).
    apply act_ext; [congruence|]. intros i Hi. rewrite A by lia. rewrite (@act_nth (pow x _) i 0) by lia. unfold pow.
    rewrite (nth_indep _ 0 (act_pow x (Z.to_nat z) 0)) by (rewrite map_length, seq_length; lia). rewrite map_nth, seq_nth by lia. reflexivity. }
  rewrite E, EY in *. split; auto. split; auto. intro H. rewrite H in L. destruct x; [congruence|discriminate].
Qed.
Lemma max_bells_le gens : Forall row256 gens -> max_bells gens <= 256.
Proof. induction 1 as [|g gens [_ H] F IH]; cbn; [lia|]. unfold max_bells in IH. lia. Qed.
Lemma gives_sound : (forall e xs, gives e xs -> Forall sound xs) /\ (forall es xs, give_all es xs -> Forall sound xs).
Proof.
  apply gives_ind_all; intros; subst; auto.
  - constructor; [now split|constructor].
  - apply Forall_forall. intros x Hx. apply i in Hx.
    assert (RG : Forall row256 gens) by (eapply Forall_impl; [|exact H]; intros ? []; auto).
    pose proof (max_bells_le RG) as MB. rewrite Forall_forall in H, RG.
    assert (LE : forall x, In x gens -> length x <= max_bells gens).
    { clear. induction gens as [|g gens IH]; intros x []; subst; unfold max_bells in *; cbn; [lia|]. specialize (IH x H). lia. }
    assert (XB : row_b (max_bells gens) x).
    { assert (F : forall g, In g gens -> is_row g /\ length g <= max_bells gens) by (intros h Hh; split; [apply (RG h Hh)|auto]).
      destruct (@word_group (max_bells gens) gens MB F) as (G1 & _). apply G1. now apply (@word_generated (max_bells gens) gens MB F). }
    destruct XB as [XR XL]. split; [split; auto; lia|]. intros ->. cbn in XL. destruct gens as [|h gens]; [congruence|].
    specialize (LE h (or_introl eq_refl)). destruct (H h (or_introl eq_refl)) as [_ GN]. destruct h; [congruence|]. cbn [length] in LE. lia.
  - apply Forall_forall. intros x Hx. apply filter_In in Hx as [Hx _]. rewrite Forall_forall in H. auto.
  - apply Forall_forall. intros x Hx. unfold each in Hx. apply in_concat in Hx as (l & Hl & Hx). apply in_map_iff in Hl as (y & <- & Hy). apply in_map_iff in Hx as (x0 & <- & Hx).
    rewrite Forall_forall in *. apply multiply_ok; auto.
  - apply Forall_forall. intros x Hx. unfold each in Hx. apply in_concat in Hx as (l & Hl & Hx). apply in_map_iff in Hl as (y & <- & Hy). apply in_map_iff in Hx as (x0 & <- & Hx).
    rewrite Forall_forall in *. apply conj_ok; auto.
  - apply Forall_forall. intros x Hx. apply in_map_iff in Hx as (x0 & <- & Hx). rewrite Forall_forall in *. apply pow_ok; auto.
  - apply Forall_app; auto.
Qed.
Lemma gives_one : forall e xs, gives e xs -> forall ys, gives e ys -> xs = ys.
Proof.
  apply (@gives_ind2 (fun e xs _ => forall ys, gives e ys -> xs = ys) (fun es xs _ => forall ys, give_all es ys -> xs = ys)); intros.
  - inversion H; auto.
  - inversion H0; auto.
  - inversion H0; subst. assert (gens = gens0) by auto. subst. apply row_sorted_ext; auto. intro x. rewrite i. rewrite H5. reflexivity.
  - inversion H1; subst. assert (xs = xs0) by auto. assert (ys = ys1) by auto. now subst.
  - inversion H1; subst. assert (xs = xs0) by auto. assert (ys = ys1) by auto. now subst.
  - inversion H1; subst; [assert (xs = xs0) by auto; assert (ys = ys1) by auto; now subst|]. inversion g0.
  - inversion H0; subst; [inversion H5|]. assert (xs = xs0) by auto. now subst.
  - inversion H; auto.
  - inversion H1; subst. f_equal; auto.
Qed.
