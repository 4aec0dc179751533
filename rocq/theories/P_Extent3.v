(* P_Extent3.v - iterating over extents, and over all changes. *)
From Verif Require Import Base M_Bell M_Change M_Math M_Row M_Extent Spec_Row Spec_Change Spec_Extent Spec_Cycle
  P_Math P_Row P_Change2 P_Cycle P_Perm P_Extent P_Extent2.
Set Implicit Arguments.
Unset Strict Implicit.
Open Scope nat_scope.

Lemma validate_ok v : is_row v -> validate v = Ret tt.
Proof.
  intros H. assert (X := proj1 (row_of_vector_spec v) H). unfold row_of_vector in X.
  destruct (validate v) as [[]| | |]; cbn [bind] in X; congruence.
Qed.

Lemma ei_incr_spec nw nh nt en r : nh + nw <= nt -> in_extent nw nh nt r ->
  (exists r', ei_incr (mkEI nw nh nt en r) = Ret (mkEI nw nh nt false r') /\ in_extent nw nh nt r' /\
     erank nw nh r' = (erank nw nh r + 1)%Z) \/
  (ei_incr (mkEI nw nh nt en r) = Ret (mkEI nw nh nt true []) /\ erank nw nh r = (fac nw - 1)%Z).
Proof.
  intros H I. assert (Lr : length r = nt) by apply I. unfold ei_incr, permute_range. cbn [ei_row ei_nh ei_nw ei_nt].
  destruct (Nat.ltb_spec (length r) (nh + nw)); [lia|]. fold (working nw nh r).
  assert (Nd := working_NoDup H I). assert (Lw := working_length H I). assert (Pw := working_perm H I).
  assert (X := @next_permutation_spec (working nw nh r) Nd).
  destruct (next_permutation (working nw nh r)) as [w ok]. destruct X as [P X]. cbn [bind].
  destruct ok.
  - left. assert (Pw' : Permutation w (seq nh nw)) by (rewrite <- P; exact Pw).
    assert (Lw' : length w = nw) by (rewrite (Permutation_length Pw'); apply seq_length).
    assert (E : firstn nh r ++ w ++ skipn (nh + nw) r = ext_row nw nh nt w).
    { assert (Sh := proj1 (in_extent_shape H I)). rewrite Sh at 1 2. unfold ext_row.
      f_equal; [|f_equal].
      - rewrite firstn_app, seq_length, Nat.sub_diag, firstn_O, app_nil_r. apply firstn_all2. rewrite seq_length. lia.
      - rewrite app_assoc, skipn_app, app_length, seq_length, Lw, Nat.sub_diag, skipn_all2; [reflexivity|].
        rewrite app_length, seq_length. lia. }
    rewrite E. assert (I' := in_extent_ext_row H Pw'). exists (ext_row nw nh nt w).
    rewrite validate_ok by apply I'. cbn [bind]. split; auto. split; auto.
    unfold erank. now rewrite working_ext_row.
  - right. split; [reflexivity|]. unfold erank. rewrite (proj1 X), Lw. reflexivity.
Qed.

Lemma ei_decr_spec nw nh nt r : nh + nw <= nt -> in_extent nw nh nt r -> (0 < erank nw nh r)%Z ->
  exists r', ei_decr (mkEI nw nh nt false r) = Ret (mkEI nw nh nt false r') /\ in_extent nw nh nt r' /\
     erank nw nh r' = (erank nw nh r - 1)%Z.
Proof.
  intros H I Hr. assert (Lr : length r = nt) by apply I. unfold ei_decr, permute_range. cbn [ei_row ei_nh ei_nw ei_nt ei_end].
  destruct (Nat.ltb_spec (length r) (nh + nw)); [lia|]. fold (working nw nh r).
  assert (Nd := working_NoDup H I). assert (Lw := working_length H I). assert (Pw := working_perm H I).
  assert (X := @prev_permutation_spec (working nw nh r) Nd).
  destruct (prev_permutation (working nw nh r)) as [w ok]. destruct X as [P X]. cbn [bind].
  destruct ok.
  - assert (Pw' : Permutation w (seq nh nw)) by (rewrite <- P; exact Pw).
    assert (Lw' : length w = nw) by (rewrite (Permutation_length Pw'); apply seq_length).
    assert (E : firstn nh r ++ w ++ skipn (nh + nw) r = ext_row nw nh nt w).
    { assert (Sh := proj1 (in_extent_shape H I)). rewrite Sh at 1 2. unfold ext_row.
      f_equal; [|f_equal].
      - rewrite firstn_app, seq_length, Nat.sub_diag, firstn_O, app_nil_r. apply firstn_all2. rewrite seq_length. lia.
      - rewrite app_assoc, skipn_app, app_length, seq_length, Lw, Nat.sub_diag, skipn_all2; [reflexivity|].
        rewrite app_length, seq_length. lia. }
    rewrite E. assert (I' := in_extent_ext_row H Pw'). exists (ext_row nw nh nt w).
    rewrite validate_ok by apply I'. cbn [bind]. split; auto. split; auto.
    unfold erank. now rewrite working_ext_row.
  - exfalso. unfold erank in Hr. lia.
Qed.

Lemma ei_decr_incr nw nh nt en r e' : nh + nw <= nt -> in_extent nw nh nt r ->
  ei_incr (mkEI nw nh nt en r) = Ret e' -> ei_end e' = false ->
  ei_decr e' = Ret (mkEI nw nh nt false r).
Proof.
  intros H I E En. destruct (@ei_incr_spec nw nh nt en r H I) as [(r' & E' & I' & R)|[E' R]].
  2:{ rewrite E in E'. injection E' as ->. discriminate. }
  rewrite E in E'. injection E' as ->. assert (X := erank_range H I).
  destruct (@ei_decr_spec nw nh nt r' H I' ltac:(lia)) as (r2 & E2 & I2 & R2).
  rewrite E2. do 2 f_equal. apply (erank_inj H); auto. lia.
Qed.

Lemma rounds_in_extent nw nh nt : nh + nw <= nt -> nt <= 256 -> in_extent nw nh nt (rounds nt) /\ erank nw nh (rounds nt) = 0%Z.
Proof.
  intros H H2. rewrite rounds_id by exact H2. unfold id_row. rewrite (seq_split3 H). split.
  - apply in_extent_ext_row; auto.
  - unfold erank. rewrite working_ext_row by apply seq_length. apply sorted_rank, sorted_seq.
Qed.

Lemma SSorted_cons_lex nw nh nt r k l : nh + nw <= nt -> in_extent nw nh nt r -> (erank nw nh r < k)%Z ->
  StronglySorted lex_lt l -> (forall x, In x l -> in_extent nw nh nt x /\ (k <= erank nw nh x)%Z) -> StronglySorted lex_lt (r :: l).
Proof.
  intros H I K S A. constructor; auto. apply Forall_forall. intros x Hx. destruct (A x Hx) as [Ix Rx].
  apply (erank_lex H I Ix). lia.
Qed.

Lemma ei_traverse_spec nw nh nt last : nh + nw <= nt -> ei_end last = true -> forall fuel r,
  in_extent nw nh nt r -> (fac nw - erank nw nh r <= Z.of_nat fuel)%Z ->
  exists l, ei_traverse fuel (mkEI nw nh nt false r) last = Ret l /\ StronglySorted lex_lt l /\
    forall x, In x l <-> in_extent nw nh nt x /\ (erank nw nh r <= erank nw nh x)%Z.
Proof.
  intros H Hl. induction fuel as [|fuel IH]; intros r I Hf; assert (Rr := erank_range H I).
  - exfalso. lia.
  - cbn [ei_traverse]. unfold ei_eqb at 1. cbn [ei_end]. rewrite Hl. cbn [Bool.eqb andb].
    destruct (@ei_incr_spec nw nh nt false r H I) as [(r' & E & I' & R)|[E R]]; rewrite E; cbn [bind].
    + destruct (IH r' I' ltac:(lia)) as (l & El & S & A). rewrite El. cbn [bind ei_row]. exists (r :: l). split; auto. split.
      * apply (@SSorted_cons_lex nw nh nt r (erank nw nh r')); auto; [lia|]. intros x. apply A.
      * intros x. cbn [In]. rewrite A. split.
        -- intros [<-|[X1 X2]]; [split; auto; lia|split; auto; lia].
        -- intros [X1 X2]. destruct (Z.eq_dec (erank nw nh r) (erank nw nh x)) as [Eq|Ne].
           ++ left. apply (erank_inj H); auto.
           ++ right. split; auto. lia.
    + destruct fuel as [|fuel]; cbn [ei_traverse]; unfold ei_eqb; cbn [ei_end]; rewrite Hl; cbn [Bool.eqb andb orb bind ei_row];
        exists [r]; (split; [reflexivity|]); (split; [repeat constructor|]); intros x; cbn [In].
      * split; [intros [<-|[]]; split; auto; lia|]. intros [X1 X2]. left. apply (erank_inj H); auto.
        assert (Rx := erank_range H X1). lia.
      * split; [intros [<-|[]]; split; auto; lia|]. intros [X1 X2]. left. apply (erank_inj H); auto.
        assert (Rx := erank_range H X1). lia.
Qed.

Lemma sign_pm1 sym nw nh nt r : nh + nw <= nt -> nt <= 256 -> in_extent nw nh nt r ->
  sign sym r = Ret 1%Z \/ sign sym r = Ret (-1)%Z.
Proof. intros H H2 I. rewrite (sign_in_extent sym H H2 I). unfold sgnZ. destruct (Z.even _); auto. Qed.

Lemma ici_incr_spec sym nw nh nt : nh + nw <= nt -> nt <= 256 -> forall fuel en r,
  in_extent nw nh nt r -> (fac nw - erank nw nh r <= Z.of_nat fuel)%Z ->
  (exists r', ici_incr fuel sym (mkEI nw nh nt en r) = Ret (mkEI nw nh nt false r') /\ in_extent nw nh nt r' /\ sign sym r' = Ret 1%Z /\
     (erank nw nh r < erank nw nh r')%Z /\
     forall x, in_extent nw nh nt x -> (erank nw nh r < erank nw nh x < erank nw nh r')%Z -> sign sym x = Ret (-1)%Z) \/
  (ici_incr fuel sym (mkEI nw nh nt en r) = Ret (mkEI nw nh nt true []) /\
     forall x, in_extent nw nh nt x -> (erank nw nh r < erank nw nh x)%Z -> sign sym x = Ret (-1)%Z).
Proof.
  intros H H2. induction fuel as [|fuel IH]; intros en r I Hf; assert (Rr := erank_range H I); [exfalso; lia|].
  cbn [ici_incr]. destruct (@ei_incr_spec nw nh nt en r H I) as [(r' & E & I' & R)|[E R]]; rewrite E; cbn [bind ei_end].
  - destruct (sign_pm1 sym H H2 I') as [Sg|Sg]; cbn [ei_row]; rewrite Sg; cbn [bind Z.ltb Z.compare].
    + left. exists r'. repeat (split; [auto; lia|]). intros x Ix Rx. lia.
    + destruct (IH false r' I' ltac:(lia)) as [(r2 & E2 & I2 & S2 & R2 & A2)|[E2 A2]]; rewrite E2.
      * left. exists r2. repeat (split; [auto; lia|]). intros x Ix Rx.
        destruct (Z.eq_dec (erank nw nh r') (erank nw nh x)) as [Eq|Ne].
        -- now rewrite <- (erank_inj H I' Ix Eq).
        -- apply A2; auto. lia.
      * right. split; auto. intros x Ix Rx. destruct (Z.eq_dec (erank nw nh r') (erank nw nh x)) as [Eq|Ne].
        -- now rewrite <- (erank_inj H I' Ix Eq).
        -- apply A2; auto. lia.
  - right. split; auto. intros x Ix Rx. assert (Y := erank_range H Ix). lia.
Qed.

Lemma ici_traverse_spec sym nw nh nt last : nh + nw <= nt -> nt <= 256 -> ei_end last = true -> forall fuel r,
  in_extent nw nh nt r -> sign sym r = Ret 1%Z -> (fac nw - erank nw nh r <= Z.of_nat fuel)%Z ->
  exists l, ici_traverse fuel sym (mkEI nw nh nt false r) last = Ret l /\ StronglySorted lex_lt l /\
    forall x, In x l <-> (in_extent nw nh nt x /\ sign sym x = Ret 1%Z) /\ (erank nw nh r <= erank nw nh x)%Z.
Proof.
  intros H H2 Hl. induction fuel as [|fuel IH]; intros r I Sr Hf; assert (Rr := erank_range H I).
  - exfalso. lia.
  - cbn [ici_traverse]. unfold ei_eqb at 1. cbn [ei_end]. rewrite Hl. cbn [Bool.eqb andb].
    destruct (@ici_incr_spec sym nw nh nt H H2 (S fuel) false r I ltac:(lia)) as [(r' & E & I' & S' & R & A')|[E A']]; rewrite E; cbn [bind].
    + destruct (IH r' I' S' ltac:(lia)) as (l & El & S & A). rewrite El. cbn [bind ei_row]. exists (r :: l). split; auto. split.
      * apply (@SSorted_cons_lex nw nh nt r (erank nw nh r')); auto. intros x Hx. apply A in Hx. tauto.
      * intros x. cbn [In]. rewrite A. split.
        -- intros [<-|[X1 X2]]; [split; auto; lia|split; auto; lia].
        -- intros [[X1 X3] X2]. destruct (Z.eq_dec (erank nw nh r) (erank nw nh x)) as [Eq|Ne].
           ++ left. apply (erank_inj H); auto.
           ++ right. split; auto. destruct (Z_lt_dec (erank nw nh x) (erank nw nh r')); [|lia].
              rewrite (A' x X1) in X3 by lia. discriminate.
    + destruct fuel as [|fuel]; cbn [ici_traverse]; unfold ei_eqb; cbn [ei_end]; rewrite Hl; cbn [Bool.eqb andb orb bind ei_row];
        exists [r]; (split; [reflexivity|]); (split; [repeat constructor|]); intros x; cbn [In];
        (split; [intros [<-|[]]; split; auto; lia|]); intros [[X1 X3] X2]; left; apply (erank_inj H); auto;
        (destruct (Z_lt_dec (erank nw nh r) (erank nw nh x)); [rewrite (A' x X1) in X3 by lia; discriminate|lia]).
Qed.

(* end, decremented, is at the last row but still says end *)
Lemma down_loop nh nw m : forall a c z, length c = m -> nh <= length a -> length a + m = nw + nh -> nh + nw <= 256 ->
  forM (seq (length a) m) (fun v i => vset v i (b8 (nw + nh - 1 - i + nh))) (a ++ c ++ z) =
  Ret (a ++ map (fun i => nw + nh - 1 - i + nh) (seq (length a) m) ++ z).
Proof.
  induction m as [|m IH]; intros a c z Lc Ha Hm Hb.
  - destruct c; [reflexivity|discriminate].
  - destruct c as [|x c]; [discriminate|]. cbn [seq forM map app].
    rewrite vset_lt by (rewrite app_length; cbn; lia). cbn [bind].
    replace (b8 (nw + nh - 1 - length a + nh)) with (nw + nh - 1 - length a + nh) by (unfold b8; rewrite Nat.mod_small; lia).
    rewrite upd_app.
    replace (a ++ (nw + nh - 1 - length a + nh) :: c ++ z) with ((a ++ [nw + nh - 1 - length a + nh]) ++ c ++ z) by (now rewrite <- app_assoc).
    replace (S (length a)) with (length (a ++ [nw + nh - 1 - length a + nh])) by (rewrite app_length; cbn; lia).
    cbn in Lc. rewrite IH; [|lia|rewrite app_length; cbn; lia|rewrite app_length; cbn; lia|lia].
    rewrite <- app_assoc. reflexivity.
Qed.

Lemma row_ltb_spec : forall a b, row_ltb a b = true <-> lex_lt a b.
Proof.
  induction a as [|x a IH]; intros [|y b]; cbn [row_ltb lex_lt]; try (split; [discriminate|tauto]).
  - split; auto.
  - destruct (Nat.ltb_spec x y); [split; auto|]. destruct (Nat.ltb_spec y x).
    + split; [discriminate|]. lia.
    + rewrite IH. split; [right; split; [lia|auto]|]. intros [|[]]; [lia|auto].
Qed.

Lemma rev_down nh nw : map (fun i => nw + nh - 1 - i + nh) (seq nh nw) = rev (seq nh nw).
Proof.
  apply nth_ext_d with (d := 0).
  - now rewrite map_length, rev_length.
  - intros i Hi. rewrite map_length, seq_length in Hi. rewrite rev_nth by (rewrite seq_length; lia).
    rewrite (nth_indep _ 0 (nw + nh - 1 - 0 + nh)) by (rewrite map_length, seq_length; lia).
    rewrite (map_nth (fun i => nw + nh - 1 - i + nh)), !seq_nth by (rewrite ?seq_length; lia). rewrite seq_length. lia.
Qed.
Lemma rev_seq_sorted nh nw : StronglySorted gt (rev (seq nh nw)).
Proof.
  revert nh. induction nw as [|m IH]; intros nh; [constructor|]. cbn [seq rev]. apply SSorted_app_iff. split; [apply IH|].
  split; [repeat constructor|]. intros x y Hx [<-|[]]. apply in_rev, in_seq in Hx. lia.
Qed.
Lemma ei_decr_end nw nh nt r0 : nh + nw <= nt -> nt <= 256 ->
  exists r, ei_decr (mkEI nw nh nt true r0) = Ret (mkEI nw nh nt true r) /\ in_extent nw nh nt r /\ erank nw nh r = (fac nw - 1)%Z.
Proof.
  intros H H2. unfold ei_decr. cbn [ei_nw ei_nh ei_nt ei_end ei_row]. unfold forN.
  assert (R0 : repeat 0 nt = [] ++ repeat 0 nh ++ repeat 0 (nt - nh)).
  { cbn [app]. rewrite <- repeat_app. f_equal. lia. }
  rewrite R0. rewrite Nat.sub_0_r. change 0 with (length (@nil nat)) at 1.
  rewrite fill_loop; [|apply repeat_length|cbn; lia]. cbn [bind app length].
  assert (R1 : repeat 0 (nt - nh) = repeat 0 nw ++ repeat 0 (nt - (nh + nw))) by (rewrite <- repeat_app; f_equal; lia).
  rewrite R1. replace (nw + nh - nh) with nw by lia.
  assert (Ls : length (seq 0 nh) = nh) by apply seq_length.
  assert (D := @down_loop nh nw nw (seq 0 nh) (repeat 0 nw) (repeat 0 (nt - (nh + nw)))). rewrite !Ls in D.
  rewrite D; [|apply repeat_length|lia|lia|lia]. clear D. cbn [bind]. rewrite rev_down.
  assert (F := @fill_loop (nt - (nw + nh)) (seq 0 nh ++ rev (seq nh nw)) (repeat 0 (nt - (nh + nw))) []).
  rewrite app_length, rev_length, !seq_length, !app_nil_r in F. rewrite <- app_assoc in F.
  replace (seq (nw + nh) (nt - (nw + nh))) with (seq (nh + nw) (nt - (nw + nh))) by (f_equal; lia).
  rewrite F; [|rewrite repeat_length; lia|lia]. cbn [bind].
  replace (nt - (nw + nh)) with (nt - (nh + nw)) by lia. rewrite <- app_assoc. fold (ext_row nw nh nt (rev (seq nh nw))).
  assert (P : Permutation (rev (seq nh nw)) (seq nh nw)) by apply Permutation_sym, Permutation_rev.
  assert (I := in_extent_ext_row H P). rewrite validate_ok by apply I. cbn [bind].
  exists (ext_row nw nh nt (rev (seq nh nw))). split; auto. split; auto. unfold erank.
  rewrite working_ext_row by (rewrite rev_length, seq_length; reflexivity).
  rewrite rev_sorted_rank by apply rev_seq_sorted. now rewrite rev_length, seq_length.
Qed.

(* ---------------- changes_iterator ---------------- *)
(* a change on m places as a sequence of swaps (true) and places (false) from the left;
   a single place left over at the end is not written *)
Fixpoint paths (m : nat) : list (list bool) :=
  match m with
  | O => [[]]
  | S m' => match m' with O => [[]] | S m'' => map (cons true) (paths m'') ++ map (cons false) (paths m') end
  end.
Fixpoint adv (p : list bool) : nat := match p with [] => 0 | true :: p => 2 + adv p | false :: p => 1 + adv p end.
Fixpoint sw (b : nat) (p : list bool) : list nat :=
  match p with [] => [] | true :: p => b :: sw (b + 2) p | false :: p => sw (b + 1) p end.
Fixpoint stkl (b : nat) (p : list bool) : list nat :=
  b :: match p with [] => [] | true :: p => stkl (b + 2) p | false :: p => stkl (b + 1) p end.
Fixpoint fill (m : nat) : list bool :=
  match m with S (S m) => true :: fill m | _ => [] end.

Lemma paths_SS m : paths (S (S m)) = map (cons true) (paths m) ++ map (cons false) (paths (S m)).
Proof. reflexivity. Qed.
Lemma nat_ind2 (P : nat -> Prop) : P 0 -> P 1 -> (forall m, P m -> P (S m) -> P (S (S m))) -> forall m, P m.
Proof. intros H0 H1 H2 m. assert (X : P m /\ P (S m)); [|tauto]. induction m as [|m [A B]]; auto. Qed.

Lemma adv_app p q : adv (p ++ q) = adv p + adv q.
Proof. induction p as [|[] p IH]; cbn; lia. Qed.
Lemma adv_false k : adv (repeat false k) = k.
Proof. induction k; cbn; lia. Qed.
Lemma sw_app p : forall b q, sw b (p ++ q) = sw b p ++ sw (b + adv p) q.
Proof.
  induction p as [|[] p IH]; intros b q; cbn [app sw adv].
  - f_equal. lia.
  - rewrite IH. cbn. do 3 f_equal. lia.
  - rewrite IH. do 2 f_equal. lia.
Qed.
Lemma sw_false k : forall b, sw b (repeat false k) = [].
Proof. induction k; intros; cbn; auto. Qed.
Lemma sw_in p : forall b s, In s (sw b p) -> b <= s /\ s + 2 <= b + adv p.
Proof.
  induction p as [|[] p IH]; intros b s; cbn [sw In adv]; [tauto| |].
  - intros [<-|H]; [lia|]. apply IH in H. lia.
  - intros H. apply IH in H. lia.
Qed.
Lemma stkl_app p : forall b x, stkl b (p ++ [x]) = stkl b p ++ [b + adv p + if x then 2 else 1].
Proof.
  induction p as [|[] p IH]; intros b x; cbn [app stkl adv].
  - destruct x; cbn; do 2 f_equal; lia.
  - rewrite IH. do 4 f_equal. lia.
  - rewrite IH. do 4 f_equal. lia.
Qed.
Lemma stkl_length p : forall b, length (stkl b p) = S (length p).
Proof. induction p as [|[] p IH]; intros b; cbn [stkl length]; auto; now rewrite IH. Qed.

Definition stk (b : nat) (p : list bool) : list nat := rev (stkl b p).
Lemma stk_snoc b p x : stk b (p ++ [x]) = (b + adv p + if x then 2 else 1) :: stk b p.
Proof. unfold stk. now rewrite stkl_app, rev_app_distr. Qed.
Lemma stk_top b p : exists t, stk b p = b + adv p :: t.
Proof.
  destruct p as [|x p] using rev_ind; [exists []; unfold stk; cbn; f_equal; lia|].
  rewrite stk_snoc, adv_app. exists (stk b p). f_equal. destruct x; cbn; lia.
Qed.
Lemma stk_length b p : length (stk b p) = S (length p).
Proof. unfold stk. now rewrite rev_length, stkl_length. Qed.

Lemma swappair_push which rest : (forall s, In s rest -> s + 2 <= which) -> forall pre,
  swappair_loop which pre rest = Ret (pre ++ rest ++ [which], true).
Proof.
  induction rest as [|s t IH]; intros H pre; cbn [swappair_loop].
  - reflexivity.
  - assert (X := H s (or_introl eq_refl)). destruct (Nat.leb_spec s (which + 1)); [|lia].
    destruct (Nat.eqb_spec s which); [lia|]. destruct (Nat.eqb_spec (S s) which); [lia|]. destruct (Nat.eqb_spec s (which + 1)); [lia|].
    rewrite IH by (intros; apply H; now right). now rewrite <- app_assoc.
Qed.
Lemma swappair_pull which rest : (forall s, In s rest -> s + 2 <= which) -> forall pre,
  swappair_loop which pre (rest ++ [which]) = Ret (pre ++ rest, false).
Proof.
  induction rest as [|s t IH]; intros H pre; cbn [swappair_loop app].
  - destruct (Nat.leb_spec which (which + 1)); [|lia]. now rewrite Nat.eqb_refl, !app_nil_r.
  - assert (X := H s (or_introl eq_refl)). destruct (Nat.leb_spec s (which + 1)); [|lia].
    destruct (Nat.eqb_spec s which); [lia|]. destruct (Nat.eqb_spec (S s) which); [lia|]. destruct (Nat.eqb_spec s (which + 1)); [lia|].
    rewrite IH by (intros; apply H; now right). now rewrite <- app_assoc.
Qed.
Lemma findswap_sorted l : forall lo n w, pairs_ok lo n l -> findswap_loop l w = true <-> In w l.
Proof.
  induction l as [|s t IH]; intros lo n w W; cbn [findswap_loop In]; [split; [discriminate|tauto]|].
  destruct W as (W1 & W2 & W3). destruct (Nat.leb_spec s w).
  - destruct (Nat.eqb_spec s w); [split; auto|]. rewrite (IH _ _ w W3). tauto.
  - split; [discriminate|]. intros [->|X]; [lia|]. apply (pairs_ok_in W3) in X. lia.
Qed.
Lemma sw_ok p : forall b n, b + adv p <= n -> pairs_ok b n (sw b p).
Proof.
  induction p as [|[] p IH]; intros b n H; cbn [sw adv pairs_ok] in *; auto.
  - split; [lia|]. split; [lia|]. apply IH. lia.
  - apply pairs_ok_weaken with (lo := b + 1); [lia|]. apply IH. lia.
Qed.

Section CI.
Variables (nw nh nt : nat).
Hypothesis (H : nh + nw <= nt) (H256 : nt <= 256).

Definition cst (p : list bool) : changes_iter := mkCI nw nh false (mkChange nt (sw nh p)) (stk nh p).

Lemma findswap_at p w : nh + adv p <= nt -> 0 < nt -> findswap (mkChange nt (sw nh p)) w = true <-> In w (sw nh p).
Proof.
  intros Hp Hn. unfold findswap. cbn [cn cswaps]. destruct (Nat.eqb_spec nt 0); [lia|].
  apply (@findswap_sorted _ nh nt). now apply sw_ok.
Qed.

Lemma push_fill : forall m p fuel, adv p + m = nw -> m <= fuel + 1 ->
  push_swaps fuel (nw + nh - 1) (mkChange nt (sw nh p)) (stk nh p) = Ret (mkChange nt (sw nh (p ++ fill m)), stk nh (p ++ fill m)).
Proof.
  induction m as [| |m IH _] using nat_ind2; intros p fuel Hm Hf.
  - destruct (stk_top nh p) as [t E]. rewrite E at 1. destruct fuel; cbn [push_swaps]; destruct (Nat.ltb_spec (nh + adv p) (nw + nh - 1)); try lia;
      cbn [fill]; now rewrite app_nil_r, <- E.
  - destruct (stk_top nh p) as [t E]. rewrite E at 1. destruct fuel; cbn [push_swaps]; destruct (Nat.ltb_spec (nh + adv p) (nw + nh - 1)); try lia;
      cbn [fill]; now rewrite app_nil_r, <- E.
  - destruct fuel as [|fuel]; [lia|]. destruct (stk_top nh p) as [t E]. rewrite E at 1. cbn [push_swaps].
    destruct (Nat.ltb_spec (nh + adv p) (nw + nh - 1)); [|lia].
    unfold swappair. cbn [cn cswaps]. replace (b8 (nh + adv p)) with (nh + adv p) by (unfold b8; rewrite Nat.mod_small; lia).
    destruct (Nat.ltb_spec nt (nh + adv p + 2)); [lia|].
    rewrite swappair_push by (intros s Hs; apply sw_in in Hs; lia). cbn [bind app].
    rewrite <- E.
    replace (nh + adv p + 2 :: stk nh p) with (stk nh (p ++ [true])) by apply stk_snoc.
    replace (sw nh p ++ [nh + adv p]) with (sw nh (p ++ [true])) by (rewrite sw_app; reflexivity).
    rewrite IH by (rewrite ?adv_app; cbn [adv]; lia). rewrite <- app_assoc. reflexivity.
Qed.

Definition nextp (p q : list bool) : Prop :=
  exists pre k, p = pre ++ true :: repeat false k /\ q = pre ++ false :: fill (nw - adv pre - 1).

Lemma pop_spec pre k : adv pre + 2 + k <= nw -> 
  pop_places nh (mkChange nt (sw nh (pre ++ [true]))) (stk nh (pre ++ true :: repeat false k)) = Ret (stk nh (pre ++ [true])).
Proof.
  induction k as [|k IH]; intros Hk.
  - cbn [repeat]. rewrite stk_snoc. cbn [pop_places].
    replace (zb8 (Z.of_nat (nh + adv pre + 2) - 2)) with (nh + adv pre).
    2:{ unfold zb8. rewrite Z.mod_small by lia. lia. }
    assert (F : findswap (mkChange nt (sw nh (pre ++ [true]))) (nh + adv pre) = true).
    { apply findswap_at; [rewrite adv_app; cbn [adv]; lia|lia|]. rewrite sw_app. apply in_or_app. right. now left. }
    rewrite F. cbn [negb]. now rewrite andb_false_r.
  - replace (pre ++ true :: repeat false (S k)) with ((pre ++ true :: repeat false k) ++ [false]).
    2:{ rewrite <- app_assoc. cbn [app]. now rewrite <- repeat_cons. }
    rewrite stk_snoc. cbn [pop_places]. rewrite !adv_app. cbn [adv]. rewrite adv_false.
    destruct (Nat.ltb_spec (nh + 1) (nh + (adv pre + (2 + k)) + 1)); [|lia].
    replace (zb8 (Z.of_nat (nh + (adv pre + (2 + k)) + 1) - 2)) with (nh + adv pre + k + 1).
    2:{ unfold zb8. rewrite Z.mod_small by lia. lia. }
    destruct (findswap _ _) eqn:F.
    + exfalso. apply findswap_at in F; [|rewrite adv_app; cbn [adv]; lia|lia]. apply sw_in in F. rewrite adv_app in F. cbn [adv] in F. lia.
    + cbn [andb negb]. apply IH. lia.
Qed.

Lemma ci_next_step p q : adv p <= nw -> nextp p q -> ci_next (cst p) = Ret (cst q).
Proof.
  intros Hp (pre & k & -> & ->). rewrite adv_app in Hp. cbn [adv] in Hp. rewrite adv_false in Hp.
  unfold cst, ci_next. destruct (stk_top nh (pre ++ true :: repeat false k)) as [t E]. rewrite E at 1.
  destruct (Nat.eqb_spec nw 0); [lia|]. cbn [orb].
  assert (L := stk_length nh (pre ++ true :: repeat false k)). rewrite E in L at 1. 
  assert (Lp : length pre <= adv pre) by (clear; induction pre as [|[] pre IH]; cbn; lia).
  rewrite app_length in L. cbn [length] in L. rewrite repeat_length in L.
  rewrite E at 1. cbn [length]. rewrite adv_app. cbn [adv]. rewrite adv_false.
  match goal with |- context [if ?b then _ else _] => assert (B : b = false) end.
  { destruct (Nat.eqb_spec (S (length t)) nw); cbn [andb]; auto. destruct (Nat.eqb_spec (nh + (adv pre + (2 + k))) (nw + nh - 1)); auto. lia. }
  rewrite B. clear B.
  assert (Esw : sw nh (pre ++ true :: repeat false k) = sw nh (pre ++ [true])).
  { rewrite !sw_app. cbn [sw]. now rewrite sw_false. }
  rewrite Esw, pop_spec by lia. cbn [bind]. rewrite stk_snoc.
  replace (zb8 (Z.of_nat (nh + adv pre + 2) - 2)) with (nh + adv pre).
  2:{ unfold zb8. rewrite Z.mod_small by lia. lia. }
  assert (F : findswap (mkChange nt (sw nh (pre ++ [true]))) (nh + adv pre) = true).
  { apply findswap_at; [rewrite adv_app; cbn [adv]; lia|lia|]. rewrite sw_app. apply in_or_app. right. now left. }
  rewrite F. unfold swappair. cbn [cn cswaps]. destruct (Nat.ltb_spec nt (nh + adv pre + 2)); [lia|].
  rewrite sw_app. cbn [sw]. rewrite swappair_pull by (intros s Hs; apply sw_in in Hs; lia). cbn [bind app].
  replace (nh + adv pre + 2 - 1 :: stk nh pre) with (stk nh (pre ++ [false])) by (rewrite stk_snoc; f_equal; lia).
  replace (sw nh pre) with (sw nh (pre ++ [false])) by (rewrite sw_app; cbn [sw]; apply app_nil_r).
  rewrite (@push_fill (nw - adv pre - 1)); [|rewrite adv_app; cbn [adv]; lia|lia]. cbn [bind]. rewrite <- app_assoc. reflexivity.
Qed.

Lemma ci_next_last : ci_next (cst (repeat false (nw - 1))) = Ret (mkCI nw nh true (mkChange nt []) (stk nh (repeat false (nw - 1)))).
Proof.
  unfold cst, ci_next. destruct (stk_top nh (repeat false (nw - 1))) as [t E]. rewrite E at 1.
  rewrite stk_length, repeat_length, adv_false, sw_false.
  destruct (Nat.eqb_spec nw 0); cbn [orb]; [reflexivity|].
  destruct (Nat.eqb_spec (S (nw - 1)) nw); [|lia]. destruct (Nat.eqb_spec (nh + (nw - 1)) (nw + nh - 1)); [reflexivity|lia].
Qed.

Fixpoint chain (l : list (list bool)) : Prop :=
  match l with
  | x :: t => match t with [] => x = repeat false (nw - 1) | y :: _ => nextp x y end /\ chain t
  | [] => True
  end.

Lemma ci_traverse_chain l : forall p fuel, chain (p :: l) -> Forall (fun p => adv p <= nw) (p :: l) -> length l < fuel ->
  ci_traverse fuel (cst p) = Ret (map (fun p => mkChange nt (sw nh p)) (p :: l)).
Proof.
  induction l as [|q l IH]; intros p fuel C F Hf; (destruct fuel as [|fuel]; [lia|]); cbn [ci_traverse]; change (ci_end (cst p)) with false; cbn iota.
  - destruct C as [-> _]. rewrite ci_next_last. cbn [bind].
    assert (X : forall fl, ci_traverse fl (mkCI nw nh true (mkChange nt []) (stk nh (repeat false (nw - 1)))) = Ret []) by (intros []; reflexivity).
    rewrite X. reflexivity.
  - destruct C as [C1 C2]. inversion_clear F as [|? ? F1 F2]. rewrite (@ci_next_step p q F1 C1). cbn [bind].
    rewrite IH; [reflexivity|exact C2|exact F2|cbn in Hf; lia].
Qed.

Lemma ci_begin_spec : ci_begin nw nh nt = Ret (cst (fill nw)).
Proof.
  unfold ci_begin. destruct (Nat.ltb_spec 1 nw) as [L|L].
  - unfold ci_next, change_empty. cbn [length].
    destruct (Nat.eqb_spec nw 0); [lia|]. destruct (Nat.eqb_spec 1 nw); [lia|]. cbn [orb andb pop_places].
    destruct (Nat.ltb_spec (nh + 1) nh); [lia|]. cbn [andb bind].
    assert (F : forall w, findswap (mkChange nt []) w = false) by (intros w; unfold findswap; cbn; destruct nt; reflexivity).
    rewrite F. cbn [bind].
    assert (P := @push_fill nw [] nw ltac:(cbn; lia) ltac:(lia)). cbn [app sw stk stkl rev] in P. unfold stk in P. cbn [stkl rev app] in P. rewrite P. reflexivity.
  - unfold cst, change_empty, stk. destruct nw as [|[|]]; [reflexivity|reflexivity|lia].
Qed.
End CI.

(* the paths are in that order *)
Lemma paths_hd m : exists t, paths m = fill m :: t.
Proof.
  induction m as [| |m IH _] using nat_ind2; [exists []; reflexivity|exists []; reflexivity|].
  destruct IH as [t E]. rewrite paths_SS, E. cbn [map app fill]. eauto.
Qed.
Lemma nextp_true m p q : nextp m p q -> nextp (S (S m)) (true :: p) (true :: q).
Proof. intros (pre & k & -> & ->). exists (true :: pre), k. split; [reflexivity|]. reflexivity. Qed.
Lemma nextp_false m p q : nextp m p q -> nextp (S m) (false :: p) (false :: q).
Proof. intros (pre & k & -> & ->). exists (false :: pre), k. split; [reflexivity|]. reflexivity. Qed.

Fixpoint chain' (R : list bool -> list bool -> Prop) (z : list bool) (l : list (list bool)) : Prop :=
  match l with
  | x :: t => match t with [] => x = z | y :: _ => R x y end /\ chain' R z t
  | [] => True
  end.
Lemma chain_chain' nw l : chain' (nextp nw) (repeat false (nw - 1)) l -> chain nw l.
Proof. induction l as [|x t IH]; cbn; auto. intros [A B]. auto. Qed.
Lemma chain'_map (R R' : list bool -> list bool -> Prop) z f l : (forall x y, R x y -> R' (f x) (f y)) -> chain' R z l -> chain' R' (f z) (map f l).
Proof.
  intros HR. induction l as [|x t IH]; cbn [map chain']; auto. intros [A B]. split; auto.
  destruct t as [|y t]; cbn [map]; [congruence|auto].
Qed.
Lemma chain'_app R z1 z2 l1 x l2 : chain' R z1 l1 -> R z1 x -> chain' R z2 (x :: l2) -> chain' R z2 (l1 ++ x :: l2).
Proof.
  intros C1 HR C2. induction l1 as [|a l1 IH]; [exact C2|]. destruct C1 as [A B]. specialize (IH B).
  cbn [app chain']. split; auto. destruct l1 as [|b l1]; cbn [app]; [now subst a|exact A].
Qed.
Lemma paths_chain m : chain' (nextp m) (repeat false (m - 1)) (paths m).
Proof.
  induction m as [| |m IH0 IH1] using nat_ind2; [cbn; auto|cbn; auto|].
  rewrite paths_SS. destruct (paths_hd (S m)) as [t E]. rewrite E in *. cbn [map].
  apply chain'_app with (z1 := true :: repeat false (m - 1)).
  - apply (@chain'_map (nextp m)); [intros; now apply nextp_true|exact IH0].
  - exists [], (m - 1). split; [reflexivity|]. reflexivity.
  - replace (repeat false (S (S m) - 1)) with (false :: repeat false (S m - 1)) by (cbn [Nat.sub]; rewrite Nat.sub_0_r; reflexivity).
    change (false :: fill (S m) :: map (cons false) t) with (map (cons false) (fill (S m) :: t)) || idtac.
    apply (@chain'_map (nextp (S m)) (nextp (S (S m))) (repeat false (S m - 1)) (cons false) (fill (S m) :: t)); [intros; now apply nextp_false|exact IH1].
Qed.
Lemma paths_adv m : Forall (fun p => adv p <= m) (paths m).
Proof.
  induction m as [| |m IH0 IH1] using nat_ind2; [repeat constructor|repeat constructor|].
  rewrite paths_SS. apply Forall_app. split; apply Forall_map; eapply Forall_impl; try eassumption; intros p Hp; cbn beta in *; cbn [adv]; lia.
Qed.

Lemma sw_complete m : forall b s, pairs_ok b (b + m) s <-> In s (map (sw b) (paths m)).
Proof.
  induction m as [| |m IH0 IH1] using nat_ind2; intros b s.
  - cbn. destruct s as [|x s]; cbn; [tauto|]. split; [lia|]. intros [|[]]; discriminate.
  - cbn. destruct s as [|x s]; cbn; [tauto|]. split; [lia|]. intros [|[]]; discriminate.
  - rewrite paths_SS, map_app, !map_map. cbn [sw]. rewrite in_app_iff.
    split.
    + intros W. destruct s as [|x s].
      * right. rewrite <- (map_map (fun p => p) (sw (b + 1))), map_id. apply IH1. exact I.
      * cbn [pairs_ok] in W. destruct W as (W1 & W2 & W3). destruct (Nat.eq_dec x b) as [->|N].
        -- left. rewrite <- (map_map (sw (b + 2)) (cons b)). apply in_map. apply IH0. replace (b + 2 + m) with (b + S (S m)) by lia. exact W3.
        -- right. apply IH1. cbn [pairs_ok]. split; [lia|]. split; [lia|]. replace (b + 1 + S m) with (b + S (S m)) by lia. exact W3.
    + intros [W|W].
      * rewrite <- (map_map (sw (b + 2)) (cons b)) in W. apply in_map_iff in W as (s' & <- & W). apply IH0 in W.
        cbn [pairs_ok]. split; [lia|]. split; [lia|]. replace (b + S (S m)) with (b + 2 + m) by lia. exact W.
      * apply IH1 in W. apply pairs_ok_weaken with (lo := b + 1); [lia|]. replace (b + S (S m)) with (b + 1 + S m) by lia. exact W.
Qed.
Lemma sw_nodup m : forall b, NoDup (map (sw b) (paths m)).
Proof.
  induction m as [| |m IH0 IH1] using nat_ind2; intros b; [repeat constructor; cbn; auto|repeat constructor; cbn; auto|].
  rewrite paths_SS, map_app, !map_map. cbn [sw]. apply NoDup_app_iff. split; [|split].
  - rewrite <- (map_map (sw (b + 2)) (cons b)). apply NoDup_map_inj; auto. intros x y _ _ E. congruence.
  - apply IH1.
  - intros s H1 H2. apply in_map_iff in H1 as (p & <- & _). apply sw_complete in H2. cbn in H2. lia.
Qed.
