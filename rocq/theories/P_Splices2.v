(* P_Splices2.v - counting rows that fix some bells. *)
From Verif Require Import Base M_Bell M_Change M_Math M_Row M_Extent M_Group
  Spec_Row Spec_Change Spec_Extent Spec_Cycle Spec_Group
  P_Row P_Change2 P_Cycle P_Order P_Perm P_Extent P_Group P_Group2 P_Group3 P_False4.
From Coq Require Import Permutation.
Set Implicit Arguments.
Unset Strict Implicit.
Open Scope nat_scope.

Definition fixes (F : list nat) (x : list nat) : Prop := forall i, In i F -> act x i = i.

Lemma filter_split {X} (f : X -> bool) l : length (filter f l) + length (filter (fun x => negb (f x)) l) = length l.
Proof. induction l as [|x l IH]; [reflexivity|]. cbn [filter]. destruct (f x); cbn [negb length]; lia. Qed.
Lemma count_fixes n F l : NoDup F -> incl F (seq 0 n) -> NoDup l -> (forall x, In x l -> row_b n x /\ fixes F x) ->
  (Z.of_nat (length l) <= fac (n - length F))%Z.
Proof.
  intros NF IF NL H. set (inF := fun i => if in_dec Nat.eq_dec i F then true else false).
  assert (IFs : forall i, inF i = true <-> In i F) by (intros i; unfold inF; destruct (in_dec Nat.eq_dec i F); intuition discriminate).
  set (others := filter (fun i => negb (inF i)) (seq 0 n)).
  assert (LO : length others = n - length F).
  { pose proof (filter_split inF (seq 0 n)) as X. rewrite seq_length in X. fold others in X.
    assert (Y : length (filter inF (seq 0 n)) = length F).
    { apply Permutation_length. apply NoDup_Permutation; [apply NoDup_filter, seq_NoDup|exact NF|]. intros i. rewrite filter_In, IFs. split; [tauto|]. intros I. split; [now apply IF|exact I]. }
    lia. }
  assert (NO : NoDup others) by apply NoDup_filter, seq_NoDup.
  assert (IO : forall i, In i others <-> i < n /\ ~ In i F).
  { intros i. unfold others. rewrite filter_In, in_seq, negb_true_iff, <- not_true_iff_false, IFs. intuition lia. }
  rewrite <- LO, <- perms_count. apply inj_le. rewrite <- (map_length (fun x => map (act x) others)).
  apply NoDup_incl_length.
  - apply NoDup_map_inj; [|exact NL]. intros x y Hx Hy E. destruct (H x Hx) as [Bx Fx]. destruct (H y Hy) as [By Fy]. apply (row_b_ext Bx By). intros i.
    destruct (in_dec Nat.eq_dec i F) as [I|I]; [now rewrite Fx, Fy|].
    destruct (Nat.lt_ge_cases i n) as [G|G]; [|transitivity i; [|symmetry]; apply act_ge; [rewrite (proj2 Bx)|rewrite (proj2 By)]; exact G].
    assert (J : In i others) by now apply IO. clear -E J. induction others as [|k o IH]; [destruct J|]. cbn [map] in E. injection E as E1 E2. destruct J as [->|J]; auto.
  - intros w Hw. apply in_map_iff in Hw as (x & <- & Hx). destruct (H x Hx) as [[Px Lx] Fx]. apply perms_complete.
    apply NoDup_Permutation_bis; [|rewrite map_length; lia|].
    + apply NoDup_map_inj; [|exact NO]. intros i j _ _ E. now apply (act_inj Px) in E.
    + intros j Hj. apply in_map_iff in Hj as (i & <- & Hi). apply IO in Hi as [Hi NI]. apply IO. split; [rewrite <- Lx; apply act_lt; [exact Px|lia]|].
      intros I. apply NI. rewrite (act_inj Px (Fx _ I)) in I. exact I.
Qed.

(* --- all the rows with the treble leading --- *)
Lemma inserts_nodup x w : ~ In x w -> NoDup (inserts x w).
Proof.
  induction w as [|y w IH]; intros H; cbn [inserts]; [repeat constructor; intros []|]. constructor.
  - intros I. apply in_map_iff in I as (z & E & _). injection E as E _. apply H. left. exact E.
  - apply NoDup_map_inj; [intros a b _ _ E; now injection E|]. apply IH. intros I. apply H. now right.
Qed.
Lemma inserts_remove x w y : ~ In x w -> In y (inserts x w) -> remove Nat.eq_dec x y = w.
Proof.
  revert y. induction w as [|a w IH]; intros y H; cbn [inserts].
  - intros [<-|[]]. cbn. now destruct (Nat.eq_dec x x).
  - intros [<-|I].
    + cbn [remove]. destruct (Nat.eq_dec x x); [|congruence]. apply (notin_remove Nat.eq_dec (a :: w) x H).
    + apply in_map_iff in I as (z & <- & Hz). cbn [remove]. destruct (Nat.eq_dec x a) as [->|N]; [exfalso; apply H; now left|].
      f_equal. apply IH; [intros J; apply H; now right|exact Hz].
Qed.
Lemma nodup_flat_map {X Y} (f : X -> list Y) (g : Y -> X) l : NoDup l -> (forall x, In x l -> NoDup (f x)) -> (forall x y, In x l -> In y (f x) -> g y = x) -> NoDup (flat_map f l).
Proof.
  induction 1 as [|x l Hx ND IH]; intros H1 H2; cbn [flat_map]; [constructor|].
  assert (A : NoDup (flat_map f l)) by (apply IH; [intros z Hz; apply H1; now right|intros z y Hz; apply H2; now right]).
  assert (B : NoDup (f x)) by (apply H1; now left).
  assert (D : forall y, In y (f x) -> ~ In y (flat_map f l)).
  { intros y Hy I. apply in_flat_map in I as (z & Hz & Iz). apply H2 in Hy; [|now left]. apply H2 in Iz; [|now right]. subst. auto. }
  clear -A B D. induction B as [|y l' Hy B IH]; [exact A|]. cbn [app]. constructor.
  - intros I. apply in_app_or in I as [I|I]; [auto|]. apply (D y); [now left|exact I].
  - apply IH. intros z Hz. apply D. now right.
Qed.
Lemma perms_perm l w : In w (perms l) -> Permutation w l.
Proof.
  revert w. induction l as [|x l IH]; intros w; cbn [perms]; [intros [<-|[]]; constructor|].
  intros H. apply in_flat_map in H as (u & Hu & Hw). apply inserts_perm in Hw. rewrite Hw. constructor. now apply IH.
Qed.
Lemma perms_nodup l : NoDup l -> NoDup (perms l).
Proof.
  induction 1 as [|x l Hx ND IH]; cbn [perms]; [repeat constructor; intros []|].
  assert (NI : forall w, In w (perms l) -> ~ In x w) by (intros w Hw I; apply Hx; apply (Permutation_in _ (perms_perm Hw) I)).
  apply nodup_flat_map with (g := remove Nat.eq_dec x); [exact IH| |].
  - intros w Hw. apply inserts_nodup. now apply NI.
  - intros w y Hw Hy. apply inserts_remove; [now apply NI|exact Hy].
Qed.
Definition heads (n : nat) : list (list nat) := map (cons 0) (perms (seq 1 (n - 1))).
Lemma heads_spec n : 0 < n -> NoDup (heads n) /\ Z.of_nat (length (heads n)) = fac (n - 1) /\ forall x, In x (heads n) -> row_b n x /\ act x 0 = 0.
Proof.
  intros H. split; [|split].
  - apply NoDup_map_inj; [intros a b _ _ E; now injection E|]. apply perms_nodup, seq_NoDup.
  - unfold heads. rewrite map_length, perms_count, seq_length. reflexivity.
  - intros x I. apply in_map_iff in I as (w & <- & Hw). assert (L := perms_length_each Hw). rewrite seq_length in L. apply perms_perm in Hw. split; [|reflexivity]. split; [|cbn; lia].
    unfold is_row. cbn [length]. rewrite L. replace (S (n - 1)) with n by lia. destruct n as [|m]; [lia|]. cbn [seq]. constructor. replace (S m - 1) with m in Hw by lia. exact Hw.
Qed.

(* --- exchanging two bells --- *)
Definition tau (n a b : nat) : list nat := map (transp a b) (seq 0 n).
Section Tau.
Variables (sym : symtab) (n a b : nat).
Hypothesis (N256 : n <= 256) (Ha : a < n) (Hb : b < n) (AB : a <> b).
Lemma act_tau i : act (tau n a b) i = transp a b i.
Proof.
  unfold act, tau. destruct (Nat.lt_ge_cases i n) as [G|G].
  - rewrite nth_indep with (d' := transp a b 0) by (rewrite map_length, seq_length; lia). rewrite map_nth, seq_nth by lia. reflexivity.
  - rewrite nth_overflow by (rewrite map_length, seq_length; lia). unfold transp. destruct (Nat.eqb_spec i a), (Nat.eqb_spec i b); lia.
Qed.
Lemma transp_transp i : transp a b (transp a b i) = i.
Proof. unfold transp. destruct (Nat.eqb_spec i a) as [->|]; [rewrite Nat.eqb_refl; destruct (Nat.eqb_spec b a); lia|]. destruct (Nat.eqb_spec i b) as [->|]; [now rewrite Nat.eqb_refl|]. destruct (Nat.eqb_spec i a), (Nat.eqb_spec i b); lia. Qed.
Lemma tau_b : row_b n (tau n a b).
Proof.
  split; [|unfold tau; now rewrite map_length, seq_length]. apply act_bij_is_row.
  - intros i j _ _. rewrite !act_tau. intros E. apply (f_equal (transp a b)) in E. now rewrite !transp_transp in E.
  - intros i Hi. unfold tau in *. rewrite map_length, seq_length in *. fold (tau n a b). rewrite act_tau. unfold transp. destruct (Nat.eqb_spec i a), (Nat.eqb_spec i b); lia.
Qed.
Lemma comp_tau_b x : row_b n x -> row_b n (comp x (tau n a b)).
Proof. intros Bx. apply comp_row_b; [exact Bx|apply tau_b|rewrite (proj2 tau_b); lia]. Qed.
Lemma comp_tau_tau x : row_b n x -> comp (comp x (tau n a b)) (tau n a b) = x.
Proof.
  intros Bx. apply (row_b_ext (b := n)); [apply comp_row_b; [now apply comp_tau_b|apply tau_b|rewrite (proj2 tau_b); lia]|exact Bx|].
  intros i. rewrite !act_comp by apply tau_b. now rewrite !act_tau, transp_transp.
Qed.
Lemma act_comp_tau x i : act (comp x (tau n a b)) i = act x (transp a b i).
Proof. rewrite act_comp by apply tau_b. now rewrite act_tau. Qed.
Lemma sign_comp_tau x s : row_b n x -> sign sym x = Ret s -> sign sym (comp x (tau n a b)) = Ret (- s)%Z.
Proof.
  intros Bx Sx. destruct (@sign_transp sym x (comp x (tau n a b)) a b) as (s' & _ & E1 & E2); try lia; try apply Bx; try (rewrite (proj2 Bx); lia).
  - apply (comp_tau_b Bx). - rewrite (proj2 (comp_tau_b Bx)), (proj2 Bx). reflexivity.
  - intros i. apply act_comp_tau.
  - congruence.
Qed.
(* even rows and, the bells exchanged, odd ones *)
Lemma double_count l : NoDup l -> (forall x, In x l -> row_b n x /\ sign sym x = Ret 1%Z) ->
  NoDup (l ++ map (fun x => comp x (tau n a b)) l).
Proof.
  intros ND H. assert (N2 : NoDup (map (fun x => comp x (tau n a b)) l)).
  { apply NoDup_map_inj; [|exact ND]. intros x y Hx Hy E. apply (f_equal (fun z => comp z (tau n a b))) in E. rewrite !comp_tau_tau in E; auto; now apply H. }
  assert (D : forall x, In x l -> ~ In x (map (fun x => comp x (tau n a b)) l)).
  { intros x Hx I. apply in_map_iff in I as (y & E & Hy). destruct (H y Hy) as [By Sy]. apply (sign_comp_tau By) in Sy. rewrite E in Sy. destruct (H x Hx) as [_ Sx]. rewrite Sx in Sy. discriminate Sy. }
  clear H. revert D N2. generalize (map (fun x => comp x (tau n a b)) l). intros l2 D N2. induction ND as [|x l Hx ND IH]; [exact N2|]. cbn [app]. constructor.
  - intros I. apply in_app_or in I as [I|I]; [auto|]. apply (D x); [now left|exact I].
  - apply IH. intros z Hz. apply D. now right.
Qed.
End Tau.
