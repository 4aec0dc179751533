(* P_RowCalc4.v - the calculator gives the rows the expression stands for. *)
From Verif Require Import Base M_Bell M_Row M_Group M_RowCalc Spec_Row Spec_Extent Spec_Group Spec_RowCalc.
From Verif Require Import P_Bell P_Row P_Power P_Group P_Group2 P_Extent P_RowCalc P_RowCalc2 P_RowCalc3.
Set Implicit Arguments. Unset Strict Implicit.
Open Scope nat_scope.

Lemma one_single e : one e = true -> many e = false.
Proof.
  induction e as [| |es F|es F|a b IHa IHb|op a b IHa IHb|a b IHa IHb] using cexpr_all; cbn [one many]; intros H; try discriminate; auto.
  - apply andb_true_iff in H as [Ha Hb]. rewrite IHa, IHb; auto.
  - destruct b; cbn [many]; try (apply andb_true_iff in H as [Ha Hb]; rewrite IHa by auto; now apply IHb). now rewrite IHa.
Qed.
Definition operand (e : cexpr) : bool := regular e && (many e || one e).
Definition single (e : cexpr) (x : row) : Prop := forall n, ready e n -> exists n', runs n (Some x) n' /\ ready e n'.
Definition series (e : cexpr) (xs : list row) : Prop := forall n, ready e n -> exists n', produces n xs n' /\ (again e = true -> ready e (restart n')).
Definition works (e : cexpr) (xs : list row) : Prop :=
  regular e = true -> (one e = true -> exists x, xs = [x] /\ single e x) /\ (many e = true -> series e xs).
Definition works_all (es : list cexpr) (xs : list row) : Prop :=
  forallb operand es = true -> forall pre l, ready_all es l -> exists l',
    produces (NSet (pre ++ l) true (length pre)) xs (NSet (pre ++ l') true (length (pre ++ l'))) /\ (forallb one es = true -> ready_all es l').

Lemma works_operand e xs : works e xs -> operand e = true -> (many e = false /\ exists x, xs = [x] /\ single e x) \/ (many e = true /\ series e xs).
Proof.
  intros W O. apply andb_true_iff in O as [R O]. destruct (W R) as [W1 W2]. destruct (many e) eqn:M; [right; auto|]. left. split; auto. 
Qed.
Lemma no_int_ready b n ys : ready b n -> gives b ys -> not_int n.
Proof. intros R G. inversion G; subst; inversion R; exact I. Qed.
Lemma not_int_regular a b ys : gives b ys -> regular (CExp a b) = operand a && operand b && (negb (many a && many b) || again a).
Proof. intros G. inversion G; subst; reflexivity. Qed.
Lemma not_int_one a b ys : gives b ys -> one (CExp a b) = one a && one b.
Proof. intros G. inversion G; subst; reflexivity. Qed.

(* the two operands of * / \ and ^ *)
Lemma binary a b xs ys : works a xs -> works b ys -> operand a && operand b && (negb (many a && many b) || again a) = true ->
  Forall (fun y => y <> []) ys -> many a || many b = true ->
  forall na nb l r, ready a na -> ready b nb -> (many a = true -> many b = true -> r = []) ->
  exists na' l' nb' r', bprod na l nb r (pairs xs ys) na' l' nb' r' /\ (many a = true -> many b = true -> r' = []) /\
    (again a = true -> ready a (restart na')) /\ (again b = true -> ready b (restart nb')) /\ (many b = false -> ready b nb').
Proof.
  intros Wa Wb O F M na nb l r Ra Rb Hr. apply andb_true_iff in O as [O Ag]. apply andb_true_iff in O as [Oa Ob].
  destruct (works_operand Wa Oa) as [(Ma & x & -> & Sa)|(Ma & Sa)]; destruct (works_operand Wb Ob) as [(Mb & y & -> & Sb)|(Mb & Sb)].
  - rewrite Ma, Mb in M. discriminate.
  - destruct (Sb nb Rb) as (nb' & P & Rn). destruct (@one_many a x Sa Ma nb ys nb' P na l r Ra) as (na' & l' & r' & B & Ra').
    exists na', l', nb', r'. rewrite pairs_one_l. split; [exact B|]. split; [congruence|]. split; [intro; now apply ready_again|]. split; [exact Rn|congruence].
  - destruct (Sa na Ra) as (na' & P & Rn). destruct (@many_one b y Sb Mb na xs na' P nb l r Rb) as (l' & nb' & r' & B & Rb').
    exists na', l', nb', r'. rewrite pairs_one_r. split; [exact B|]. split; [congruence|]. split; [exact Rn|]. split; [intro; now apply ready_again|auto].
  - rewrite Ma, Mb in Ag. cbn [andb negb orb] in Ag. rewrite (Hr Ma Mb). destruct (Sb nb Rb) as (nb' & P & Rn).
    assert (Sa' : forall na, ready a na -> exists na', produces na xs na' /\ ready a (restart na')) by (intros n Rn'; destruct (Sa n Rn') as (n' & ? & ?); eauto).
    destruct (@many_many a b xs Ma Mb Sa' nb ys nb' P (ready_skel Rb) F na l Ra) as (na' & l' & B & Ra').
    exists na', l', nb', []. split; [exact B|]. split; [auto|]. split; [intro; now apply ready_again|]. split; [exact Rn|congruence].
Qed.
Lemma binary_one a b x y na nb l r : one a = true -> single a x -> single b y -> ready a na -> ready b nb ->
  exists na' nb', brun na l nb r true na' x nb' y /\ ready a na' /\ ready b nb'.
Proof.
  intros Oa Sa Sb Ra Rb. destruct (Sa na Ra) as (na' & R1 & Ra'). destruct (Sb nb Rb) as (nb' & R2 & Rb'). exists na', nb'. split; auto.
  apply plain_both; auto. left. apply Nat.eqb_eq. rewrite (count_of (ready_skel Ra)), (one_single Oa). reflexivity.
Qed.
Lemma pairs_sound xs ys : Forall sound xs -> Forall sound ys -> Forall (fun p => sound (fst p) /\ sound (snd p)) (pairs xs ys).
Proof.
  intros Fx Fy. apply Forall_forall. intros [x y] H. unfold pairs in H. apply in_concat in H as (l & Hl & H). apply in_map_iff in Hl as (y' & <- & Hy).
  apply in_map_iff in H as (x' & E & Hx). inversion E; subst. rewrite Forall_forall in *. cbn; auto.
Qed.
Lemma one_of_regular a b : operand a = true -> operand b = true -> regular a = true /\ regular b = true.
Proof. intros A B. apply andb_true_iff in A as [A _]. apply andb_true_iff in B as [B _]. auto. Qed.

Lemma works_spec : (forall e xs, gives e xs -> works e xs) /\ (forall es xs, give_all es xs -> works_all es xs).
Proof.
  assert (SND := proj1 gives_sound).
  assert (NE : forall e xs, gives e xs -> Forall (fun y => y <> []) xs) by (intros e xs G; eapply Forall_impl; [|apply (SND e xs G)]; intros ? []; auto).
  apply gives_ind_all.
  - (* row *) intros r R N _. split; [|discriminate]. intros _. exists r. split; auto. intros n Rn. inversion Rn; subst. exists (NRow r). split; [exists 1; reflexivity|constructor].
  - (* set *) intros es xs G IH Rg. split; [discriminate|]. intros _ n Rn. inversion Rn as [| |? l i Ra| | | | |]; subst.
    destruct (IH Rg [] l Ra) as (l' & P & Ag). cbn [app length] in P. eexists. split; [eapply passes; [|exact P]; intros; now apply set_begin|].
    cbn [again restart]. intro A. constructor. auto.
  - (* group *) intros es gens v G IH Nn So Ge Rg. split; [discriminate|]. intros _ n Rn. inversion Rn as [| | |? l i g j Ra| | | |]; subst.
    destruct (IH Rg [] l Ra) as (l' & P & Ag). cbn [app length] in P.
    assert (PS : produces (NSet l false i) gens (NSet l' true (length l'))) by (eapply passes; [|exact P]; intros; now apply set_begin).
    eexists. split.
    + eapply passes; [|apply (@group_rows (NSet l' true (length l')) v [])]. intros o k K. eapply group_begin; [exact PS| |exact K].
      assert (RG : Forall row256 gens) by (eapply Forall_impl; [|apply (proj2 gives_sound _ _ G)]; intros ? []; auto).
      destruct (group_of_spec RG) as (N & HN). destruct (HN N (le_n N)) as (Gr & E & _ & WG & GE). exists N, Gr. split; auto.
      apply row_sorted_ext; auto; [apply WG|]. intro x. rewrite GE, Ge. reflexivity.
    + cbn [again restart]. intro A. constructor. auto.
  - (* difference *) intros a b xs ys zs Ga Wa Gb Wb -> Rg. split; [discriminate|]. cbn [many regular]. intros Ma n Rn. apply andb_true_iff in Rg as [Oa Ob].
    destruct (works_operand Wa Oa) as [(C & _)|(_ & Sa)]; [congruence|].
    assert (D : forall na nb, ready a na -> skel nb = init b -> exists n', produces (NDiff na nb true ys) (kept ys xs) n' /\ (again (CDiff a b) = true -> ready (CDiff a b) (restart n'))).
    { intros na nb Ra Sk. destruct (Sa na Ra) as (na' & P & Rn'). eexists. split; [apply diff_rows; [exact P|]|].
      - apply Nat.eqb_neq. rewrite (count_of (ready_skel Ra)), Ma. reflexivity.
      - cbn [again restart]. intro A. constructor; auto. }
    inversion Rn as [| | | |? ? na nb ex Ra Rb|? ? na nb ex Ra Gb' Sk| |]; subst.
    + destruct (works_operand Wb Ob) as [(Mb & y & -> & Sb)|(Mb & Sb)].
      * destruct (Sb nb Rb) as (nb' & R & Rb'). destruct (D na nb' Ra (ready_skel Rb')) as (n' & P & Ag). exists n'. split; auto.
        eapply passes; [|exact P]. intros. eapply diff_begin_one; eauto. apply Nat.eqb_eq. rewrite (count_of (ready_skel Rb)), Mb. reflexivity.
      * destruct (Sb nb Rb) as (nb' & Pb & _). destruct (D na nb' Ra) as (n' & P & Ag); [rewrite (produces_keeps Pb); now apply ready_skel|]. exists n'. split; auto.
        eapply passes; [|exact P]. intros. eapply diff_begin_many; eauto. apply Nat.eqb_neq. rewrite (count_of (ready_skel Rb)), Mb. reflexivity.
    + assert (ex = ys) by (eapply gives_one; eauto). subst. apply D; auto.
  - (* product *) intros op a b xs ys Ga Wa Gb Wb Rg. cbn [regular] in Rg. fold (operand a) (operand b) in Rg. split.
    + cbn [one]. intro O. apply andb_true_iff in O as [Oa Ob]. pose proof Rg as Rg'. apply andb_true_iff in Rg as [Rg _]. apply andb_true_iff in Rg as [Pa Pb]. destruct (one_of_regular Pa Pb) as [Qa Qb].
      destruct (proj1 (Wa Qa) Oa) as (x & -> & Sa). destruct (proj1 (Wb Qb) Ob) as (y & -> & Sb). exists (combined op x y). split; [reflexivity|].
      pose proof (SND _ _ Ga) as Fx. pose proof (SND _ _ Gb) as Fy. inversion Fx as [|? ? Sx _]; inversion Fy as [|? ? Sy _]; subst.
      intros n Rn. inversion Rn as [| | | | | |? ? ? na nb l r Ra Rb Hr|]; subst. destruct (@binary_one a b x y na nb l r Oa Sa Sb Ra Rb) as (na' & nb' & (f & B) & Ra' & Rb').
      exists (NMult op na' nb' x y). split; [|constructor; auto; rewrite (one_single Oa); discriminate].
      exists (S f). cbn [ev eval_step]. rewrite B. cbn [bind]. destruct (multiply_ok op Sx Sy) as [-> _]. reflexivity.
    + cbn [many]. intros M n Rn. inversion Rn as [| | | | | |? ? ? na nb l r Ra Rb Hr|]; subst.
      destruct (@binary a b xs ys Wa Wb Rg (NE _ _ Gb) M na nb l r Ra Rb Hr) as (na' & l' & nb' & r' & B & Hr' & Za & Zb & _).
      eexists. split; [rewrite each_pairs; apply mult_rows; [exact B|]; apply pairs_sound; eauto|].
      cbn [again restart]. intro A. apply andb_true_iff in A as [A1 A2]. constructor; auto.
  - (* conjugation *) intros a b xs ys Ga Wa Gb Wb Rg. rewrite (not_int_regular a Gb) in Rg. split.
    + rewrite (not_int_one a Gb). intro O. apply andb_true_iff in O as [Oa Ob]. apply andb_true_iff in Rg as [Rg _]. apply andb_true_iff in Rg as [Pa Pb]. destruct (one_of_regular Pa Pb) as [Qa Qb].
      destruct (proj1 (Wa Qa) Oa) as (x & -> & Sa). destruct (proj1 (Wb Qb) Ob) as (y & -> & Sb). exists (conjugated x y). split; [reflexivity|].
      pose proof (SND _ _ Ga) as Fx. pose proof (SND _ _ Gb) as Fy. inversion Fx as [|? ? Sx _]; inversion Fy as [|? ? Sy _]; subst.
      intros n Rn. inversion Rn as [| | | | | | |? ? na nb l r Ra Rb Hr]; subst. destruct (@binary_one a b x y na nb l r Oa Sa Sb Ra Rb) as (na' & nb' & B & Ra' & Rb').
      exists (NExp na' nb' y x). split; [|constructor; auto; rewrite (one_single Oa); discriminate].
      destruct B as (f & B). exists (S f). cbn [ev]. rewrite exp_step by (eapply no_int_ready; eauto). rewrite B. cbn [bind]. destruct (conj_ok Sx Sy) as [E _].
      apply bind_ret_inv in E as (i & Ei & E). apply bind_ret_inv in E as (p & Ep & E). rewrite Ei. cbn [bind]. rewrite Ep. cbn [bind]. rewrite E. reflexivity.
    + cbn [many]. intros M n Rn. inversion Rn as [| | | | | | |? ? na nb l r Ra Rb Hr]; subst.
      destruct (@binary a b xs ys Wa Wb Rg (NE _ _ Gb) M na nb l r Ra Rb Hr) as (na' & l' & nb' & r' & B & Hr' & Za & _ & Zb).
      eexists. split; [rewrite each_pairs; apply exp_rows; [exact B|eapply no_int_ready; eauto|]; apply pairs_sound; eauto|].
      cbn [again restart]. intro A. apply andb_true_iff in A as [A1 A2]. constructor; auto. apply Zb. now apply negb_true_iff.
  - (* power *) intros a z xs Ga Wa Fw Rg. cbn [regular] in Rg. fold (operand a) in Rg. pose proof (SND _ _ Ga) as Fx. split.
    + cbn [one]. intro Oa. apply andb_true_iff in Rg as [Ra0 _]. destruct (proj1 (Wa Ra0) Oa) as (x & -> & Sa). eexists. split; [reflexivity|].
      inversion Fx as [|? ? Sx _]; inversion Fw as [|? ? Wx _]; subst. intros n Rn. inversion Rn as [| | | | | | |? ? na nb l r Ra Rb Hr]; subst. inversion Rb; subst.
      destruct (Sa na Ra) as (na' & (f & R) & Ra'). exists (NExp na' (NInt z) r l). split; [|constructor; auto].
      exists (S f). cbn [ev eval_step]. rewrite R. cbn [bind]. destruct (@pow_ok x z) as [-> _]; auto.
    + cbn [many]. rewrite orb_false_r. intros Ma n Rn. destruct (works_operand Wa Rg) as [(C & _)|(_ & Sa)]; [congruence|].
      inversion Rn as [| | | | | | |? ? na nb l r Ra Rb Hr]; subst. inversion Rb; subst. destruct (Sa na Ra) as (na' & P & Ag).
      eexists. split; [apply power_rows; eauto|]. cbn [again restart]. intro A. apply andb_true_iff in A as [A1 A2]. constructor; auto.
  - (* no more *) intros _ pre l Ra. inversion Ra; subst. exists []. rewrite app_nil_r. split; [apply p_end, set_end|auto].
  - (* more *) intros e es xs ys G W Gs IH O pre l Ra. cbn [forallb] in O. apply andb_true_iff in O as [Oe Os]. inversion Ra as [|? ? n l0 Re Rl]; subst.
    destruct (works_operand W Oe) as [(Me & x & -> & Sx)|(Me & Se)].
    + destruct (Sx n Re) as (n' & R & Rn'). destruct (IH Os (pre ++ [n']) l0 Rl) as (l' & P & Ag). exists (n' :: l'). rewrite <- !app_assoc in P. cbn [app] in P.
      rewrite app_length, Nat.add_1_r in P. split.
      * cbn [app]. eapply p_more; [|exact P]. apply set_one; auto. apply Nat.eqb_eq. rewrite (count_of (ready_skel Re)), Me. reflexivity.
      * cbn [forallb]. intro A. apply andb_true_iff in A as [A1 A2]. constructor; auto.
    + destruct (Se n Re) as (n' & R & _). destruct (IH Os (pre ++ [n']) l0 Rl) as (l' & P & Ag). exists (n' :: l'). rewrite <- !app_assoc in P. cbn [app] in P.
      rewrite app_length, Nat.add_1_r in P. split.
      * assert (Cn : count_vectors n <> 0) by (apply Nat.eqb_neq; rewrite (count_of (ready_skel Re)), Me; reflexivity). clear - R P Cn.
        induction R as [n n' R|n x n1 xs n' R Q IH].
        -- cbn [app]. eapply passes; [|exact P]. intros. eapply set_vec_none; eauto.
        -- assert (C1 : count_vectors n1 <> 0) by (rewrite (same_count (runs_keeps R)); exact Cn). cbn [app]. eapply p_more; [|apply IH; auto]. now apply set_vec_some.
      * cbn [forallb]. intro A. apply andb_true_iff in A as [A1 A2]. apply one_single in A1. congruence.
Qed.

(* --- the calculation --- *)
Fixpoint fit_all (f : flags) (bells : nat) (xs : list row) : outcome (list row) :=
  match xs with [] => Ret [] | x :: xs => v <- fit f bells x ;; rs <- fit_all f bells xs ;; Ret (v :: rs) end.
Lemma fit_spec f bells v : row256 v -> v <> [] -> bells <= 256 ->
  (exists w, fit f bells v = Ret w /\ written (f_promote f) bells v w /\ w <> []) \/ (fit f bells v = Throw RowInvalid /\ forall w, ~ written (f_promote f) bells v w).
Proof.
  unfold fit. intros R N B. assert (LV : length v <> 0) by (destruct v; [congruence|discriminate]). destruct (Nat.eqb_spec bells 0) as [->|NB]; [left; exists v; repeat split; auto; now constructor|].
  destruct (f_promote f).
  - unfold resize. destruct (Nat.ltb_spec bells (length v)).
    + assert (Lf : length (firstn bells v) = bells) by (rewrite firstn_length; lia).
      destruct (is_row_dec (firstn bells v)) as [Q|Q]; destruct (row_of_vector_spec (firstn bells v)) as [H1 H2].
      * left. exists (firstn bells v). split; auto. split; [apply w_down; auto; lia|]. intro K. rewrite K in Lf. cbn in Lf. lia.
      * right. split; auto. intros w W. inversion W; subst; try lia; try discriminate. contradiction.
    + left. exists (pad bells v). rewrite row_pad_pad by exact B. split; auto. split; [now apply w_up|]. unfold pad. intro K. apply app_eq_nil in K as [K _]. congruence.
  - destruct (Nat.eqb_spec (length v) bells); [left; exists v; repeat split; auto; now apply w_same|]. right. split; auto. intros w W. inversion W; subst; try lia; discriminate.
Qed.
Lemma fit_some f bells v w : row256 v -> v <> [] -> bells <= 256 -> fit f bells v = Ret w -> w <> [].
Proof. intros R N B H. destruct (fit_spec f R N B) as [(w' & E & _ & Nw)|[E _]]; congruence. Qed.
Lemma fit_all_spec f bells xs : Forall sound xs -> bells <= 256 ->
  (forall ys, Forall2 (written (f_promote f) bells) xs ys -> fit_all f bells xs = Ret ys) /\
  (Exists (fun x => forall w, ~ written (f_promote f) bells x w) xs -> fit_all f bells xs = Throw RowInvalid).
Proof.
  intros F B. assert (U : forall x w, written (f_promote f) bells x w -> 0 < length x -> forall w', written (f_promote f) bells x w' -> w = w').
  { intros x w W L w' W'. inversion W; inversion W'; subst; try congruence; try lia. }
  induction F as [|x xs [R N] F [IH1 IH2]]; split.
  - intros ys H. inversion H. reflexivity.
  - intros H. inversion H.
  - intros ys H. inversion H as [|? w ? ws W Ws]; subst. cbn [fit_all]. destruct (fit_spec f R N B) as [(w' & E & Ww & _)|[E X]]; [|exfalso; eapply X; eauto].
    assert (w' = w). { eapply U; [exact Ww| |exact W]. destruct x; [congruence|cbn; lia]. } subst. rewrite E. cbn [bind]. now rewrite (IH1 ws Ws).
  - intros H. cbn [fit_all]. destruct (fit_spec f R N B) as [(w' & E & Ww & _)|[E X]]; rewrite E; cbn [bind]; auto.
    inversion H as [? ? Hx|? ? Hx]; subst; [exfalso; eapply Hx; eauto|]. now rewrite (IH2 Hx).
Qed.
Lemma calc_many f bells n xs n' : produces n xs n' -> count_vectors n <> 0 ->
  exists N, forall k fuel val, N <= k -> N <= fuel -> calc_f default_symtab f bells k fuel n val = fit_all f bells xs.
Proof.
  induction 1 as [n n' (g & R)|n x n1 xs n' (g & R) P IH]; intro C.
  - exists (S g). intros k fuel val Hk Hf. destruct k as [|k]; [lia|]. cbn [calc_f]. destruct (Nat.eqb_spec (count_vectors n) 0); [congruence|]. cbn [andb].
    rewrite (@up _ fuel _ _ R) by lia. reflexivity.
  - destruct IH as (N & IH). { rewrite (@same_count n n1); auto. apply runs_keeps with (o := Some x). now exists g. }
    exists (S (g + N)). intros k fuel val Hk Hf. destruct k as [|k]; [lia|]. cbn [calc_f fit_all]. destruct (Nat.eqb_spec (count_vectors n) 0); [congruence|]. cbn [andb].
    rewrite (@up _ fuel _ _ R) by lia. cbn [bind]. destruct (fit f bells x) as [v| | |]; cbn [bind]; auto. rewrite IH by lia. reflexivity.
Qed.
Lemma calc_one f bells n o n' : bells <= 256 -> runs n o n' -> count_vectors n = 0 -> (forall x, o = Some x -> sound x) ->
  exists N, forall fuel, N <= fuel -> calc default_symtab f bells fuel n = fit_all f bells (match o with Some x => [x] | None => [] end).
Proof.
  intros B R C N. assert (C' : count_vectors n' = 0) by (rewrite (@same_count n n'); auto; eapply runs_keeps; eauto). destruct R as (g & R).
  exists (S (S g)). intros fuel Hf. unfold calc. destruct fuel as [|[|k]]; [lia..|]. remember (S (S k)) as fuel eqn:E. rewrite E at 1. cbn [calc_f]. rewrite C. cbn [Nat.eqb andb is_empty negb].
  rewrite (@up _ fuel _ _ R) by lia. cbn [bind]. destruct o as [x|]; [|reflexivity]. cbn [fit_all]. destruct (fit f bells x) as [v| | |] eqn:F; cbn [bind]; auto.
  destruct (N x eq_refl) as [Rx Nx]. pose proof (fit_some Rx Nx B F) as Nv. rewrite C'. destruct v; [congruence|]. reflexivity.
Qed.
Lemma calc_spec f bells e xs : bells <= 256 -> gives e xs -> regular e = true ->
  exists N, forall fuel, N <= fuel -> calc default_symtab f bells fuel (init e) = fit_all f bells xs.
Proof.
  intros B G R. pose proof (proj1 works_spec e xs G R) as [W1 W2]. pose proof (proj1 gives_sound e xs G) as Sx. destruct (many e) eqn:M.
  - destruct (W2 eq_refl (init e) (init_ready e)) as (n' & P & _). destruct (@calc_many f bells _ _ _ P) as (N & H).
    { apply Nat.eqb_neq. rewrite count_init, M. reflexivity. }
    exists N. intros fuel Hf. unfold calc. now apply H.
  - assert (C : count_vectors (init e) = 0) by (apply Nat.eqb_eq; rewrite count_init, M; reflexivity).
    destruct (one e) eqn:O.
    + destruct (W1 eq_refl) as (x & -> & Sg). destruct (Sg _ (init_ready e)) as (n' & Rn & _). inversion Sx as [|? ? Nx _]; subst.
      apply (calc_one f B Rn C). intros y E. inversion E; subst; auto.
    + (* a difference of one row *)
      assert (CB : forall a b, operand a && operand b = true -> many a || many b = false -> one a && one b = true).
      { intros a b Ho Hm. apply andb_true_iff in Ho as [H1 H2]. apply orb_false_iff in Hm as [H3 H4]. unfold operand in *. rewrite H3 in H1. rewrite H4 in H2. apply andb_true_iff in H1 as [_ H1]. apply andb_true_iff in H2 as [_ H2]. cbn [orb] in *. now rewrite H1, H2. }
      inversion G; subst; try discriminate.
      * (* difference *) cbn [many] in M. cbn [regular] in R. fold (operand a) (operand b) in R. apply andb_true_iff in R as [Oa Ob].
        destruct (works_operand (proj1 works_spec _ _ H) Oa) as [(_ & x & -> & Sa)|(X & _)]; [|congruence].
        destruct (Sa _ (init_ready a)) as (na' & Ra & _). assert (Ca : count_vectors (init a) = 0) by (apply Nat.eqb_eq; rewrite count_init, M; reflexivity).
        assert (Q : exists n', runs (init (CDiff a b)) (if in_dec (list_eq_dec Nat.eq_dec) x ys then None else Some x) n').
        { cbn [init]. destruct (works_operand (proj1 works_spec _ _ H0) Ob) as [(Mb & y & -> & Sb)|(Mb & Sb)].
          - destruct (Sb _ (init_ready b)) as (nb' & Rb & _). eexists. eapply diff_begin_one; [exact Rb| |eapply diff_one; [exact Ra|exact Ca]]. apply Nat.eqb_eq; rewrite count_init, Mb; reflexivity.
          - destruct (Sb _ (init_ready b)) as (nb' & Pb & _). eexists. eapply diff_begin_many; [exact Pb| |eapply diff_one; [exact Ra|exact Ca]]. apply Nat.eqb_neq; rewrite count_init, Mb; reflexivity. }
        destruct Q as (n' & Rn). pose proof (proj1 gives_sound _ _ H) as S1. inversion S1 as [|? ? Nx _]; subst.
        destruct (calc_one f B Rn C) as (N & HN). { destruct (in_dec _ _ _); intros z E; inversion E; subst; auto. }
        exists N. intros fuel Hf. rewrite (HN fuel Hf). cbn [filter]. destruct (in_dec (list_eq_dec Nat.eq_dec) x ys); reflexivity.
      * cbn [regular many one] in *. fold (operand a) (operand b) in R. apply andb_true_iff in R as [R _]. rewrite (CB a b R M) in O. discriminate.
      * rewrite (not_int_regular a H0) in R. rewrite (not_int_one a H0) in O. cbn [many] in M. apply andb_true_iff in R as [R _]. rewrite (CB a b R M) in O. discriminate.
      * cbn [regular many one] in *. rewrite orb_false_r in M. apply andb_true_iff in R as [_ R]. rewrite M, O in R. discriminate.
Qed.
