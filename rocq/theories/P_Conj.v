(* P_Conj.v - are_conjugate and conjugator. *)
From Verif Require Import Base M_Bell M_Change M_Math M_Row Spec_Row Spec_Cycle P_Row P_Bell P_Cycle P_Order P_RowText.
Set Implicit Arguments.
Unset Strict Implicit.
Open Scope nat_scope.

(* What std::sort(.., cycle_cmp()) promises: a permutation, shortest first. *)
Definition is_sort (srt : list (list ascii) -> list (list ascii)) : Prop :=
  forall l, Permutation (srt l) l /\ StronglySorted (fun a b => length a <= length b) (srt l).

(* r conjugates x to y: y = r^-1 * x * r *)
Definition conj_by (r x y : row) : Prop :=
  row256 r /\ length r = length x /\ conjugate x r = Ret y.

Lemma Permutation_concat A (a b : list (list A)) : Permutation a b -> Permutation (concat a) (concat b).
Proof.
  induction 1 as [|x a b P IH|x y a|a b c P1 IH1 P2 IH2]; cbn [concat]; auto.
  - now apply Permutation_app_head.
  - rewrite !app_assoc. apply Permutation_app_tail, Permutation_app_comm.
  - eapply Permutation_trans; eauto.
Qed.

Lemma split_comma_run cur l s : 
  split_comma cur (map (to_char default_symtab) l ++ s) = split_comma (cur ++ map (to_char default_symtab) l) s.
Proof.
  revert cur; induction l as [|b l IH]; intros cur; cbn [map app]; [now rewrite app_nil_r|].
  cbn [split_comma]. rewrite to_char_comma, IH, <- app_assoc. reflexivity.
Qed.

Lemma split_join c cs : split_comma [] (join_comma (map (map (to_char default_symtab)) (c :: cs))) =
  map (map (to_char default_symtab)) (c :: cs).
Proof.
  revert c; induction cs as [|c' cs IH]; intros c.
  - cbn [map join_comma]. rewrite <- (app_nil_r (map _ c)) at 1. rewrite split_comma_run. reflexivity.
  - change (join_comma (map (map (to_char default_symtab)) (c :: c' :: cs)))
      with (map (to_char default_symtab) c ++ chr "," ::
            join_comma (map (map (to_char default_symtab)) (c' :: cs))).
    rewrite split_comma_run. cbn [app split_comma].
    change (eqc (chr ",") (chr ",")) with true. cbv iota. rewrite IH. reflexivity.
Qed.

(* the sorted vector of cycles *)
Lemma ccv_spec srt x : is_sort srt -> row256 x ->
  exists cs, conjugacy_class_vector srt default_symtab x = Ret (map (map (to_char default_symtab)) cs) /\
    StronglySorted le (map (@length nat) cs) /\
    (if length x =? 0 then cs = [[]] else decomp (act x) (length x) cs).
Proof.
  intros Hs R. destruct (cycles_spec default_symtab R) as (cs & D & _ & _ & C).
  unfold conjugacy_class_vector. rewrite C. cbn [bind].
  set (v := split_comma [] _).
  assert (G : exists cs0, v = map (map (to_char default_symtab)) cs0 /\
     (if length x =? 0 then cs0 = [[]] else cs0 = cs)).
  { destruct (Nat.eqb_spec (length x) 0) as [E|E].
    - exists [[]]. split; auto. destruct cs as [|c cs]; [reflexivity|].
      destruct D as [D F]. rewrite E in D. cbn in D. apply Permutation_sym, Permutation_nil in D.
      inversion F as [|? ? [Q _] _]; subst. destruct c; [congruence|discriminate D].
    - exists cs. split; auto. destruct cs as [|c cs]; [|apply split_join].
      destruct D as [D _]. apply Permutation_length in D. cbn in D. rewrite seq_length in D. lia. }
  destruct G as (cs0 & Ev & H0). rewrite Ev.
  destruct (Hs (map (map (to_char default_symtab)) cs0)) as [P S].
  apply Permutation_sym in P. destruct (Permutation_map_inv _ _ (Permutation_sym P)) as (cs1 & E1 & P1).
  exists cs1. split; [now rewrite E1|]. split.
  - rewrite E1 in S. clear -S. induction cs1 as [|c cs1 IH]; cbn [map] in *; [constructor|].
    inversion S as [|? ? S' F]; subst. constructor; [now apply IH|].
    rewrite Forall_map in F |- *. eapply Forall_impl; [|exact F]. intros a. rewrite !map_length. auto.
  - destruct (length x =? 0).
    + subst cs0. apply Permutation_length_1_inv in P1. exact P1.
    + subst cs0. destruct D as [D F]. split.
      * eapply Permutation_trans; [|exact D]. apply Permutation_concat. now apply Permutation_sym.
      * eapply Permutation_Forall; eauto.
Qed.

Lemma are_conjugate_impl_spec a b : are_conjugate_impl a b = true <-> map (@length ascii) a = map (@length ascii) b.
Proof.
  revert b; induction a as [|x a IH]; intros [|y b]; cbn [are_conjugate_impl map]; try (split; congruence).
  rewrite andb_true_iff, Nat.eqb_eq, IH. split; [intros [-> ->]; auto|]. intros E. injection E. auto.
Qed.

Lemma map_length_map (h : nat -> ascii) (cs : list (list nat)) :
  map (@length ascii) (map (map h) cs) = map (@length nat) cs.
Proof. rewrite map_map. apply map_ext. intros a. apply map_length. Qed.

Lemma sorted_perm_eq (a b : list nat) : StronglySorted le a -> StronglySorted le b -> Permutation a b -> a = b.
Proof.
  revert b; induction a as [|x a IH]; intros b Sa Sb P.
  - now apply Permutation_nil in P.
  - destruct b as [|y b]; [apply Permutation_sym, Permutation_nil in P; discriminate|].
    inversion Sa as [|? ? Sa' Fa]; subst. inversion Sb as [|? ? Sb' Fb]; subst.
    rewrite Forall_forall in Fa, Fb.
    assert (x = y).
    { assert (Hx : In x (y :: b)) by (apply (Permutation_in _ P); now left).
      assert (Hy : In y (x :: a)) by (apply (Permutation_in _ (Permutation_sym P)); now left).
      destruct Hx as [->|Hx]; auto. destruct Hy as [->|Hy]; auto.
      specialize (Fa _ Hy). specialize (Fb _ Hx). lia. }
    subst y. f_equal. apply IH; auto. now apply Permutation_cons_inv in P.
Qed.

Lemma matching (f g : nat -> nat) cs ds : Forall (is_cycle f) cs -> Forall (is_cycle g) ds ->
  map (@length nat) cs = map (@length nat) ds -> forall k, k < length (concat cs) ->
  exists k', k' < length (concat cs) /\ f (nth k (concat cs) 0) = nth k' (concat cs) 0 /\
    g (nth k (concat ds) 0) = nth k' (concat ds) 0.
Proof.
  intros Fc. revert ds. induction Fc as [|c cs C Fc IH]; intros ds Fd E k Hk; [cbn in Hk; lia|].
  destruct ds as [|d ds]; [discriminate|]. inversion Fd as [|? ? Dd Fd']; subst.
  cbn [map] in E. injection E as El E. cbn [concat] in *. rewrite app_length in *.
  destruct (lt_dec k (length c)) as [Hlt|Hge].
  - exists (S k mod length c).
    assert (S k mod length c < length c) by (apply Nat.mod_upper_bound; lia).
    split; [lia|]. rewrite !app_nth1 by lia. rewrite (cycle_nth C Hlt).
    rewrite (cycle_nth Dd) by lia. now rewrite El.
  - destruct (IH ds Fd' E (k - length c)) as (k' & H1 & H2 & H3); [lia|].
    exists (length c + k'). split; [lia|].
    rewrite (app_nth2 c) by lia. rewrite H2. rewrite (app_nth2 d) by lia.
    replace (k - length d) with (k - length c) by lia. rewrite H3.
    rewrite !app_nth2 by lia. split; f_equal; lia.
Qed.

Lemma conjugate_iff x y r : row256 x -> row256 y -> row256 r -> length r = length x -> length y = length x ->
  conjugate x r = Ret y <-> forall i, act r (act y i) = act x (act r i).
Proof.
  intros Rx Ry Rr L1 L2. unfold conjugate.
  destruct (inverse_spec Rr) as (s & Es & Rs & Ls & I1 & I2). rewrite Es. cbn [bind].
  destruct (mul_spec Rs Rx) as (p & Ep & Rp & Lp & Ap). rewrite Ep. cbn [bind].
  destruct (mul_spec Rp Rr) as (q & Eq & Rq & Lq & Aq). rewrite Eq. split.
  - intros E. injection E as <-. intros i. now rewrite Aq, Ap, I2.
  - intros H. f_equal. apply row_eq; [lia|]. intros i. rewrite Aq, Ap, <- H. apply I1.
Qed.

Lemma is_cycle_map (f g h : nat -> nat) c : (forall i, f (h i) = h (g i)) -> is_cycle g c -> is_cycle f (map h c).
Proof.
  intros H [N C]. split; [destruct c; [congruence|discriminate]|].
  destruct c as [|a c]; [congruence|]. cbn [map hd].
  assert (G : forall l d, chain g l d -> chain f (map h l) (h d)).
  { clear - H. induction l as [|b l IH]; intros d; cbn [map chain]; auto. intros [C1 C2]. split; auto.
    rewrite H, C1. destruct l; reflexivity. }
  exact (G (a :: c) a C).
Qed.

Lemma concat_map_map (h : nat -> nat) ds : concat (map (map h) ds) = map h (concat ds).
Proof. symmetry. apply concat_map. Qed.

Lemma map_act_seq r : map (act r) (seq 0 (length r)) = r.
Proof.
  apply (@nth_ext_d _ _ _ 0); [now rewrite map_length, seq_length|].
  intros i. rewrite map_length, seq_length. intros Hi.
  rewrite (nth_indep _ 0 (act r 0)) by (now rewrite map_length, seq_length).
  rewrite map_nth, seq_nth by exact Hi. now apply act_nth.
Qed.

Lemma decomp_map (x y r : row) ds : is_row r -> length r = length x -> 
  (forall i, act r (act y i) = act x (act r i)) ->
  decomp (act y) (length x) ds -> decomp (act x) (length x) (map (map (act r)) ds).
Proof.
  intros Pr L H [P F]. split.
  - rewrite concat_map_map. eapply Permutation_trans; [apply Permutation_map, P|].
    rewrite <- L. rewrite map_act_seq. exact Pr.
  - apply Forall_map. eapply Forall_impl; [|exact F]. intros c. apply is_cycle_map. intros i. symmetry. apply H.
Qed.

Lemma decomp_lens f n cs : decomp f n cs -> nsum (map (@length nat) cs) = n.
Proof. intros [P _]. rewrite nsum_concat, (Permutation_length P), seq_length. reflexivity. Qed.

(* x and y have the same cycle type *)
Lemma same_type_iff srt x y : is_sort srt -> row256 x -> row256 y ->
  exists cs ds,
    conjugacy_class_vector srt default_symtab x = Ret (map (map (to_char default_symtab)) cs) /\
    conjugacy_class_vector srt default_symtab y = Ret (map (map (to_char default_symtab)) ds) /\
    is_row (concat cs) /\ length (concat cs) = length x /\
    is_row (concat ds) /\ length (concat ds) = length y /\
    (map (@length nat) cs = map (@length nat) ds -> length x = length y /\
       forall k, k < length x -> exists k', k' < length x /\ act x (act (concat cs) k) = act (concat cs) k' /\
         act y (act (concat ds) k) = act (concat ds) k') /\
    (length x = length y -> (exists r, conj_by r x y) -> map (@length nat) cs = map (@length nat) ds).
Proof.
  intros Hs Rx Ry. destruct (ccv_spec Hs Rx) as (cs & Ec & Sc & Dc), (ccv_spec Hs Ry) as (ds & Ed & Sd & Dd).
  exists cs, ds. split; [exact Ec|]. split; [exact Ed|].
  assert (Q : forall z es, row256 z -> (if length z =? 0 then es = [[]] else decomp (act z) (length z) es) ->
     is_row (concat es) /\ length (concat es) = length z).
  { intros z es Rz. destruct (Nat.eqb_spec (length z) 0) as [E|E].
    - intros ->. rewrite E. split; [apply is_row_nil|reflexivity].
    - intros [P _]. assert (L : length (concat es) = length z) by (now rewrite (Permutation_length P), seq_length).
      split; auto. unfold is_row. now rewrite L. }
  destruct (Q x cs Rx Dc) as [Pc Lc], (Q y ds Ry Dd) as [Pd Ld].
  split; [exact Pc|]. split; [exact Lc|]. split; [exact Pd|]. split; [exact Ld|]. split.
  - intros E. assert (L : length x = length y).
    { rewrite <- Lc, <- Ld, <- !nsum_concat. now rewrite E. }
    split; [exact L|]. intros k Hk. 
    destruct (Nat.eqb_spec (length x) 0) as [E0|E0]; [lia|].
    destruct (Nat.eqb_spec (length y) 0) as [E1|E1]; [lia|].
    destruct (@matching (act x) (act y) cs ds (proj2 Dc) (proj2 Dd) E k) as (k' & H1 & H2 & H3); [lia|].
    exists k'. split; [lia|].
    rewrite !(@act_nth (concat cs) _ 0) by lia. rewrite !(@act_nth (concat ds) _ 0) by lia. auto.
  - intros L (r & Rr & Lr & Er). assert (Er' := proj1 (conjugate_iff Rx Ry Rr Lr (eq_sym L)) Er). clear Er. rename Er' into Er.
    destruct (Nat.eqb_spec (length x) 0) as [E0|E0].
    + destruct (Nat.eqb_spec (length y) 0); [|lia]. now subst.
    + destruct (Nat.eqb_spec (length y) 0); [lia|].
      apply sorted_perm_eq; auto. rewrite <- L in Dd.
      assert (D' := decomp_map (proj1 Rr) Lr Er Dd).
      apply Permutation_trans with (map (@length nat) (map (map (act r)) ds)).
      * exact (decomp_type_unique Dc D').
      * rewrite map_map. erewrite map_ext; [apply Permutation_refl|]. intros a. apply map_length.
Qed.

Lemma row256_len a n : is_row a -> length a = n -> n <= 256 -> row256 a.
Proof. intros P L H. split; [exact P|lia]. Qed.

Lemma build_conjugator x y A B : row256 x -> row256 y -> length y = length x ->
  is_row A -> length A = length x -> is_row B -> length B = length x ->
  (forall k, k < length x -> exists k', k' < length x /\ act x (act A k) = act A k' /\ act y (act B k) = act B k') ->
  exists r, bind (inverse B) (fun bi => mul A bi) = Ret r /\ conj_by r x y.
Proof.
  intros Rx Ry Ly PA LA PB LB M.
  assert (RA : row256 A) by (eapply row256_len; eauto; apply Rx).
  assert (RB : row256 B) by (eapply row256_len; eauto; apply Rx).
  destruct (inverse_spec RB) as (s & Es & Rs & Ls & I1 & I2). rewrite Es. cbn [bind].
  destruct (mul_spec RA Rs) as (r & Er & Rr & Lr & Ar). exists r. split; [exact Er|].
  split; [exact Rr|]. split; [lia|].
  refine (proj2 (@conjugate_iff x y r Rx Ry Rr ltac:(lia) ltac:(lia)) _). intros i. rewrite !Ar.
  destruct (lt_dec i (length x)) as [Hi|Hi].
  - destruct (@act_surj B i PB) as (k & Ek & Hk). assert (k < length x) by (rewrite <- LB; apply Hk; lia).
    destruct (M k) as (k' & H1 & H2 & H3); auto. rewrite <- Ek, H3, !I1, H2. reflexivity.
  - rewrite (@act_ge y i) by lia. rewrite (@act_ge s i) by lia. rewrite (@act_ge A i) by lia.
    symmetry. apply act_ge. lia.
Qed.

Lemma are_conjugate_spec srt x y : is_sort srt -> row256 x -> row256 y ->
  exists b, are_conjugate srt default_symtab x y = Ret b /\
    (b = true <-> length x = length y /\ exists r, conj_by r x y).
Proof.
  intros Hs Rx Ry. destruct (same_type_iff Hs Rx Ry) as (cs & ds & Ec & Ed & Pc & Lc & Pd & Ld & M & N).
  unfold are_conjugate. rewrite Ec, Ed. cbn [bind]. eexists; split; [reflexivity|].
  rewrite are_conjugate_impl_spec, !map_length_map. split.
  - intros E. destruct (M E) as [L Mk]. split; [exact L|].
    destruct (@build_conjugator x y (concat cs) (concat ds)) as (r & _ & Cr); auto; try lia. eauto.
  - intros [L X]. now apply N.
Qed.

Lemma concat_map_to_char cs : concat (map (map (to_char default_symtab)) cs) = row_print default_symtab (concat cs).
Proof. unfold row_print. symmetry. apply concat_map. Qed.

Lemma conjugator_spec srt x y : is_sort srt -> row256 x -> row256 y -> length x <= 33 ->
  (length x = length y /\ (exists r, conj_by r x y) ->
     exists r, conjugator srt default_symtab x y = Ret r /\ conj_by r x y) /\
  (~ (length x = length y /\ (exists r, conj_by r x y)) -> conjugator srt default_symtab x y = Ret []).
Proof.
  intros Hs Rx Ry L33. destruct (same_type_iff Hs Rx Ry) as (cs & ds & Ec & Ed & Pc & Lc & Pd & Ld & M & N).
  unfold conjugator. rewrite Ec, Ed. cbn [bind].
  destruct (are_conjugate_impl _ _) eqn:A.
  - apply are_conjugate_impl_spec in A. rewrite !map_length_map in A. destruct (M A) as [L Mk].
    destruct (@build_conjugator x y (concat cs) (concat ds)) as (r & Er & Cr); auto; try lia.
    assert (Rc : row256 (concat cs)) by (split; [exact Pc|lia]).
    assert (Rd : row256 (concat ds)) by (split; [exact Pd|lia]).
    unfold cycles_as_row. rewrite !concat_map_to_char.
    rewrite (@row_print_parse (concat cs)) by (auto; lia).
    rewrite (@row_print_parse (concat ds)) by (auto; lia). cbn [bind]. rewrite Er. split.
    + intros _. eauto.
    + intros H. exfalso. apply H. eauto.
  - split; [|reflexivity]. intros [L X]. exfalso.
    assert (E := N L X). rewrite <- (map_length_map (to_char default_symtab)) in E.
    rewrite <- (map_length_map (to_char default_symtab) ds) in E.
    apply are_conjugate_impl_spec in E. congruence.
Qed.

(* Beyond 33 bells the symbols run out. *)
Lemma read_bells_star l s : (exists b, In b l /\ 33 <= b) -> forall fuel, length l <= fuel ->
  read_bells fuel default_symtab (map (to_char default_symtab) l ++ s) = Throw BellInvalid.
Proof.
  induction l as [|a l IH]; intros (b & Hb & H33) fuel Hf; [destruct Hb|].
  cbn [length] in Hf. destruct fuel as [|fuel]; [lia|]. cbn [map app read_bells].
  destruct (lt_dec a 33) as [Ha|Ha].
  - assert (R := @read_extended_print a (map (to_char default_symtab) l ++ s) ltac:(lia)).
    unfold print_bell in R. change (sym_max default_symtab) with 33 in R.
    destruct (Nat.ltb_spec a 33); [|lia]. cbn [app] in R. rewrite R. cbn [bind].
    rewrite IH; [reflexivity| |lia]. destruct Hb as [->|Hb]; [lia|]. eauto.
  - unfold to_char at 1. change (sym_max default_symtab) with 33.
    destruct (Nat.ltb_spec a 33); [lia|]. reflexivity.
Qed.

Lemma c_str_to_char l : c_str (map (to_char default_symtab) l) = map (to_char default_symtab) l.
Proof.
  rewrite <- (app_nil_r (map _ l)) at 1. rewrite c_str_app_nonul; [now rewrite app_nil_r|].
  apply forallb_forall. intros c Hc. apply in_map_iff in Hc. destruct Hc as (b & <- & _).
  destruct (lt_dec b 33) as [H|H].
  - destruct (read_char_to_char H) as (c & E & _ & _ & Q & _ & _). now rewrite E, Q.
  - unfold to_char. change (sym_max default_symtab) with 33. destruct (Nat.ltb_spec b 33); [lia|reflexivity].
Qed.

Lemma conjugator_large srt x y : is_sort srt -> row256 x -> row256 y -> 33 < length x ->
  length x = length y -> (exists r, conj_by r x y) ->
  conjugator srt default_symtab x y = Throw BellInvalid.
Proof.
  intros Hs Rx Ry L33 L X. destruct (same_type_iff Hs Rx Ry) as (cs & ds & Ec & Ed & Pc & Lc & Pd & Ld & M & N).
  unfold conjugator. rewrite Ec, Ed. cbn [bind].
  assert (E := N L X). rewrite <- (map_length_map (to_char default_symtab)) in E.
  rewrite <- (map_length_map (to_char default_symtab) ds) in E.
  apply are_conjugate_impl_spec in E. rewrite E.
  unfold cycles_as_row. rewrite !concat_map_to_char. unfold row_of_string, row_print.
  rewrite c_str_to_char. rewrite <- (app_nil_r (map (to_char default_symtab) (concat cs))) at 2.
  rewrite read_bells_star; [reflexivity| |now rewrite map_length].
  exists 33. split; [|lia]. apply is_row_in; [exact Pc|lia].
Qed.
