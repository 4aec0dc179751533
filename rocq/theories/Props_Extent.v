(* Props_Extent.v - property theorems about extents. *)
From Verif Require Import Base M_Bell M_Change M_Math M_Row M_Extent Spec_Row Spec_Change Spec_Extent Spec_Cycle
  P_Math P_Row P_Change2 P_Cycle P_Perm P_Extent P_Extent2 P_Extent3.
Set Implicit Arguments.
Unset Strict Implicit.
Open Scope nat_scope.

Lemma pad_self nt r : length r = nt -> pad nt r = r.
Proof. intros H. unfold pad. rewrite H, Nat.sub_diag. apply app_nil_r. Qed.
Lemma position_full r nw nh nt : nh + nw <= nt -> nw <= 20 -> in_extent nw nh nt r ->
  position_in_extent r nw nh nt = Ret (erank nw nh r).
Proof.
  intros H H20 I. assert (L : length r = nt) by apply I. assert (P : is_row r) by apply I.
  assert (X := @position_spec r nw nh nt H H20 P ltac:(lia) ltac:(auto)). rewrite (pad_self L) in X. auto.
Qed.

(* C21: on up to 13 working bells numbering and looking up are inverse to each other *)
Theorem C21_nth_then_position : forall nw nh nt n, nw <= 13 -> nh + nw <= 255 -> nh + nw <= nt -> nt <= 256 ->
  (0 <= n < fac nw)%Z ->
  exists r, nth_row_of_extent n nw nh nt = Ret r /\ in_extent nw nh nt r /\ position_in_extent r nw nh nt = Ret n.
Proof.
  intros nw nh nt n H13 H255 H H256 Hn. destruct (@nth_row_spec n nw nh nt) as (r & E & I & R); auto.
  exists r. split; auto. split; auto. rewrite (@position_full r nw nh nt); auto; [now rewrite R|lia].
Qed.
Print Assumptions C21_nth_then_position.

Theorem C21_position_then_nth : forall nw nh nt r, nw <= 13 -> nh + nw <= 255 -> nh + nw <= nt -> nt <= 256 ->
  in_extent nw nh nt r ->
  exists n, position_in_extent r nw nh nt = Ret n /\ (0 <= n < fac nw)%Z /\ nth_row_of_extent n nw nh nt = Ret r.
Proof.
  intros nw nh nt r H13 H255 H H256 I. exists (erank nw nh r). split; [apply position_full; auto; lia|].
  assert (R := erank_range H I). split; auto.
  destruct (@nth_row_spec (erank nw nh r) nw nh nt) as (r' & E & I' & R'); auto. rewrite E. f_equal. now apply (erank_inj H).
Qed.
Print Assumptions C21_position_then_nth.

(* the numbering follows dictionary order, on up to 20 working bells *)
Theorem C21_position_order : forall nw nh nt r r', nw <= 20 -> nh + nw <= nt ->
  in_extent nw nh nt r -> in_extent nw nh nt r' ->
  exists n n', position_in_extent r nw nh nt = Ret n /\ position_in_extent r' nw nh nt = Ret n' /\
    (0 <= n < fac nw)%Z /\ (n < n' <-> lex_lt r r')%Z /\ (n = n' <-> r = r').
Proof.
  intros nw nh nt r r' H20 H I I'. exists (erank nw nh r), (erank nw nh r').
  split; [now apply position_full|]. split; [now apply position_full|]. split; [now apply (erank_range H)|].
  split; [symmetry; now apply (erank_lex H)|]. split; [apply (erank_inj H); auto|now intros ->].
Qed.
Print Assumptions C21_position_order.

(* when no tenors are fixed a row on fewer bells is looked up as if it had the bells it lacks at the end *)
Theorem C21_short_row : forall nw nh r, nw <= 20 -> is_row r -> nh <= length r <= nh + nw ->
  in_extent nw nh (nh + nw) (pad (nh + nw) r) ->
  position_in_extent r nw nh (nh + nw) = position_in_extent (pad (nh + nw) r) nw nh (nh + nw).
Proof.
  intros nw nh r H20 P L I. rewrite (@position_spec r nw nh (nh + nw)); auto; [|lia].
  rewrite (@position_full (pad (nh + nw) r)); auto.
Qed.
Print Assumptions C21_short_row.

(* rows outside the extent are rejected *)
Theorem C21_reject : forall nw nh nt r, nh + nw <= nt -> is_row r ->
  (length r = nt -> ~ in_extent nw nh nt r -> position_in_extent r nw nh nt = Throw OutOfRange) /\
  (nt < length r -> position_in_extent r nw nh nt = Throw OutOfRange).
Proof. intros nw nh nt r H P. split; intros; [now apply position_reject|now apply position_too_long]. Qed.
Print Assumptions C21_reject.

(* the size reported, up to 12 working bells *)
Theorem C21_size : forall nw, nw <= 12 -> extent_size nw = fac nw.
Proof. exact factorial_12. Qed.
Print Assumptions C21_size.

(* where it fails: the 32-bit factorial.  13 bells: the size; 14 bells: the first bell is
   wrong already for a row in the first thirteenth; 35 bells: division by 0.
   A size_t position wraps from 21 bells.  A row without the fixed bells is read out of bounds. *)
Theorem C21_wraps_refuted :
  extent_size 13 <> fac 13 /\
  (exists n, (0 <= n < fac 14)%Z /\ exists r, nth_row_of_extent n 14 0 14 = Ret r /\ position_in_extent r 14 0 14 <> Ret n) /\
  nth_row_of_extent 0 35 0 35 = UB /\
  (exists r r' n n', in_extent 21 0 21 r /\ in_extent 21 0 21 r' /\ lex_lt r r' /\
     position_in_extent r 21 0 21 = Ret n /\ position_in_extent r' 21 0 21 = Ret n' /\ (n' < n)%Z) /\
  position_in_extent [] 1 1 2 = UB.
Proof.
  split; [vm_compute; discriminate|]. split.
  { exists 1932053504%Z. split; [vm_compute; split; congruence|]. eexists. split; [vm_compute; reflexivity|].
    vm_compute. discriminate. }
  split; [vm_compute; reflexivity|]. split; [|vm_compute; reflexivity].
  exists (7 :: seq 0 7 ++ seq 8 13), (8 :: seq 0 8 ++ seq 9 12). do 2 eexists.
  assert (X : forall k, k <= 20 -> in_extent 21 0 21 (k :: seq 0 k ++ seq (k + 1) (20 - k))).
  { intros k Hk. assert (P : Permutation (k :: seq 0 k ++ seq (k + 1) (20 - k)) (seq 0 21)).
    { rewrite Permutation_middle. change (k :: seq (k + 1) (20 - k)) with ([k] ++ seq (k + 1) (20 - k)).
      replace 21 with (k + (1 + (20 - k))) by lia. rewrite !seq_app. reflexivity. }
    assert (E := @in_extent_ext_row 21 0 21 _ ltac:(auto) P). unfold ext_row in E. rewrite Nat.sub_diag in E. cbn [seq app] in E.
    rewrite app_nil_r in E. exact E. }
  split; [apply (X 7); lia|]. split; [apply (X 8); lia|]. split; [left; lia|].
  split; [vm_compute; reflexivity|]. split; [vm_compute; reflexivity|]. vm_compute. reflexivity.
Qed.
Print Assumptions C21_wraps_refuted.

Example C21_case : in_extent 3 1 5 [0;3;1;2;4] /\ position_in_extent [0;3;1;2;4] 3 1 5 = Ret 4%Z /\
  nth_row_of_extent 4 3 1 5 = Ret [0;3;1;2;4] /\ position_in_extent [1;0] 3 0 3 = Ret 2%Z.
Proof.
  split; [|split; [|split]; vm_compute; reflexivity].
  apply (@in_extent_ext_row 3 1 5 [3;1;2]); [lia|]. change (seq 1 3) with [1;2;3].
  apply Permutation_trans with [1;3;2]; [constructor|]. apply perm_skip, perm_swap.
Qed.

(* C22: the sign of a row can be read off its number *)
Theorem C22_sign_of_nth : forall sym nw nh nt n r, nw <= 13 -> nh + nw <= 255 -> nh + nw <= nt -> nt <= 256 ->
  (0 <= n < fac nw)%Z -> nth_row_of_extent n nw nh nt = Ret r ->
  sign_of_nth_row_of_extent n = sign sym r.
Proof.
  intros sym nw nh nt n r H13 H255 H H256 Hn E. destruct (@nth_row_spec n nw nh nt) as (r' & E' & I & R); auto.
  rewrite E' in E. injection E as ->. rewrite (@sign_of_position sym nw nh nt r); auto; [now rewrite R|lia].
Qed.
Print Assumptions C22_sign_of_nth.

Theorem C22_sign_of_position : forall sym nw nh nt r n, nw <= 20 -> nh + nw <= nt -> nt <= 256 ->
  in_extent nw nh nt r -> position_in_extent r nw nh nt = Ret n ->
  sign_of_nth_row_of_extent n = sign sym r.
Proof.
  intros sym nw nh nt r n H20 H H256 I E. rewrite (position_full H H20 I) in E. injection E as <-.
  symmetry. apply sign_of_position with (nt := nt); auto. lia.
Qed.
Print Assumptions C22_sign_of_position.

(* the in-course half: every number below nw!/2 gives an even row, whose number it is *)
Theorem C22_incourse_nth_then_position : forall sym nw nh nt n, nw <= 13 -> nh + nw <= 255 -> nh + nw <= nt -> nt <= 256 ->
  (0 <= n)%Z -> (2 * n < fac nw)%Z ->
  exists r, nth_row_of_incourse_extent sym n nw nh nt = Ret r /\ in_extent nw nh nt r /\ sign sym r = Ret 1%Z /\
    position_in_incourse_extent r nw nh nt = Ret n.
Proof.
  intros sym nw nh nt n H13 H255 H H256 Hn Hn2.
  destruct (@nth_incourse_spec sym n nw nh nt) as (r & E & I & S & R); auto.
  exists r. repeat (split; auto). unfold position_in_incourse_extent. rewrite (@position_full r nw nh nt) by (auto; lia).
  cbn [bind]. now rewrite R.
Qed.
Print Assumptions C22_incourse_nth_then_position.

(* and every even row is given by its number *)
Theorem C22_incourse_position_then_nth : forall sym nw nh nt r, nw <= 13 -> nh + nw <= 255 -> nh + nw <= nt -> nt <= 256 ->
  in_extent nw nh nt r -> sign sym r = Ret 1%Z ->
  exists n, position_in_incourse_extent r nw nh nt = Ret n /\ (0 <= n)%Z /\ (2 * n < fac nw)%Z /\
    nth_row_of_incourse_extent sym n nw nh nt = Ret r.
Proof.
  intros sym nw nh nt r H13 H255 H H256 I S. exists (erank nw nh r / 2)%Z.
  unfold position_in_incourse_extent. rewrite (@position_full r nw nh nt) by (auto; lia). cbn [bind]. split; auto.
  assert (R := erank_range H I). assert (D := Z.div_mod (erank nw nh r) 2 ltac:(lia)). assert (M := Z.mod_pos_bound (erank nw nh r) 2 ltac:(lia)).
  split; [apply Z.div_pos; lia|]. split; [lia|].
  destruct (@nth_incourse_spec sym (erank nw nh r / 2) nw nh nt) as (r' & E & I' & S' & R'); auto; [apply Z.div_pos; lia|lia|].
  rewrite E. f_equal. apply (erank_inj H); auto.
  rewrite (sign_in_extent sym H H256 I) in S. rewrite (sign_in_extent sym H H256 I') in S'.
  apply sign_pair.
  - now rewrite (working_length H I), (working_length H I').
  - exact R'.
  - congruence.
Qed.
Print Assumptions C22_incourse_position_then_nth.

Example C22_case : nth_row_of_incourse_extent default_symtab 5 4 0 4 = Ret [1;3;2;0] /\ sign default_symtab [1;3;2;0] = Ret 1%Z /\
  sign_of_nth_row_of_extent 11 = Ret 1%Z.
Proof. split; [|split]; vm_compute; reflexivity. Qed.

(* C23: going through an extent gives each of its rows once, in order *)
Theorem C23_visits_extent : forall nw nh nt fuel, nh + nw <= nt -> nt <= 256 -> (fac nw <= Z.of_nat fuel)%Z ->
  exists l, ei_traverse fuel (ei_begin nw nh nt) (ei_end_of nw nh nt) = Ret l /\ extent_in_order (in_extent nw nh nt) l.
Proof.
  intros nw nh nt fuel H H256 Hf. destruct (rounds_in_extent H H256) as [I R].
  destruct (@ei_traverse_spec nw nh nt (ei_end_of nw nh nt) H eq_refl fuel (rounds nt) I) as (l & E & S & A); [lia|].
  exists l. split; auto. split; auto. intros r. rewrite A. split; [tauto|]. intros Ir. split; auto.
  assert (X := erank_range H Ir). lia.
Qed.
Print Assumptions C23_visits_extent.

(* the in-course iterator gives the even rows *)
Theorem C23_visits_incourse : forall sym nw nh nt fuel, nh + nw <= nt -> nt <= 256 -> (fac nw <= Z.of_nat fuel)%Z ->
  exists l, ici_traverse fuel sym (ei_begin nw nh nt) (ei_end_of nw nh nt) = Ret l /\
    extent_in_order (fun r => in_extent nw nh nt r /\ sign sym r = Ret 1%Z) l.
Proof.
  intros sym nw nh nt fuel H H256 Hf. destruct (rounds_in_extent H H256) as [I R].
  destruct (@ici_traverse_spec sym nw nh nt (ei_end_of nw nh nt) H H256 eq_refl fuel (rounds nt) I) as (l & E & S & A); [now apply sign_rounds|lia|].
  exists l. split; auto. split; auto. intros r. rewrite A. split; [tauto|]. intros Ir. split; auto.
  assert (X := erank_range H (proj1 Ir)). lia.
Qed.
Print Assumptions C23_visits_incourse.

(* one step leads to the next row in the order; from the last row, to the end *)
Theorem C23_step : forall nw nh nt en r, nh + nw <= nt -> in_extent nw nh nt r ->
  (exists r', ei_incr (mkEI nw nh nt en r) = Ret (mkEI nw nh nt false r') /\ in_extent nw nh nt r' /\ lex_lt r r' /\
     forall x, in_extent nw nh nt x -> ~ (lex_lt r x /\ lex_lt x r')) \/
  (ei_incr (mkEI nw nh nt en r) = Ret (mkEI nw nh nt true []) /\ forall x, in_extent nw nh nt x -> ~ lex_lt r x).
Proof.
  intros nw nh nt en r H I. destruct (@ei_incr_spec nw nh nt en r H I) as [(r' & E & I' & R)|[E R]].
  - left. exists r'. split; auto. split; auto. split; [apply (erank_lex H I I'); lia|].
    intros x Ix [A B]. apply (erank_lex H I Ix) in A. apply (erank_lex H Ix I') in B. lia.
  - right. split; auto. intros x Ix A. apply (erank_lex H I Ix) in A. assert (X := erank_range H Ix). lia.
Qed.
Print Assumptions C23_step.

(* a step back after a step forward *)
Theorem C23_back : forall nw nh nt en r e', nh + nw <= nt -> in_extent nw nh nt r ->
  ei_incr (mkEI nw nh nt en r) = Ret e' -> ei_end e' = false -> ei_decr e' = Ret (mkEI nw nh nt false r).
Proof. exact ei_decr_incr. Qed.
Print Assumptions C23_back.

(* a step back from the end is at the last row, but (a bug) still says it is the end *)
Theorem C23_back_from_end_refuted : forall nw nh nt r, nh + nw <= nt -> nt <= 256 ->
  exists r', ei_decr (mkEI nw nh nt true r) = Ret (mkEI nw nh nt true r') /\ in_extent nw nh nt r' /\
    (forall x, in_extent nw nh nt x -> x = r' \/ lex_lt x r') /\
    ei_eqb (mkEI nw nh nt true r') (ei_end_of nw nh nt) = true.
Proof.
  intros nw nh nt r H H256. destruct (@ei_decr_end nw nh nt r H H256) as (r' & E & I & R). exists r'. split; auto. split; auto.
  split; [|reflexivity]. intros x Ix. assert (X := erank_range H Ix).
  destruct (Z.eq_dec (erank nw nh x) (erank nw nh r')) as [Eq|Ne]; [left; now apply (erank_inj H)|].
  right. apply (erank_lex H Ix I). lia.
Qed.
Print Assumptions C23_back_from_end_refuted.

(* iterators compare as the rows they are at; the end is after all of them *)
Theorem C23_order : forall nw nh nt r r', 
  (ei_ltb (mkEI nw nh nt false r) (mkEI nw nh nt false r') = true <-> lex_lt r r') /\
  ei_ltb (mkEI nw nh nt false r) (ei_end_of nw nh nt) = true /\
  ei_ltb (ei_end_of nw nh nt) (mkEI nw nh nt false r) = false /\
  ei_ltb (ei_end_of nw nh nt) (ei_end_of nw nh nt) = false.
Proof. intros. split; [apply row_ltb_spec|repeat split]. Qed.
Print Assumptions C23_order.

Example C23_case : ei_traverse 6 (ei_begin 3 1 5) (ei_end_of 3 1 5) =
    Ret [[0;1;2;3;4]; [0;1;3;2;4]; [0;2;1;3;4]; [0;2;3;1;4]; [0;3;1;2;4]; [0;3;2;1;4]] /\
  ici_traverse 6 default_symtab (ei_begin 3 1 5) (ei_end_of 3 1 5) = Ret [[0;1;2;3;4]; [0;2;3;1;4]; [0;3;1;2;4]].
Proof. split; vm_compute; reflexivity. Qed.

(* C24: going through all changes gives each of them once *)
Theorem C24_visits_changes : forall nw nh nt, nh + nw <= nt -> nt <= 256 ->
  exists n, forall fuel, n <= fuel -> exists e l, ci_begin nw nh nt = Ret e /\ ci_traverse fuel e = Ret l /\
    length l = n /\ NoDup l /\ forall c, In c l <-> in_changes nw nh nt c.
Proof.
  intros nw nh nt H H256. exists (length (paths nw)). intros fuel Hf.
  destruct (paths_hd nw) as [t E].
  exists (cst nw nh nt (fill nw)), (map (fun p => mkChange nt (sw nh p)) (paths nw)).
  split; [now apply ci_begin_spec|]. split.
  { rewrite E. apply ci_traverse_chain; auto.
    - apply chain_chain'. rewrite <- E. apply paths_chain.
    - rewrite <- E. apply paths_adv.
    - rewrite E in Hf. cbn in Hf. lia. }
  split; [apply map_length|].
  rewrite <- (map_map (sw nh) (mkChange nt)). split.
  - apply NoDup_map_inj; [|apply sw_nodup]. intros x y _ _ X. congruence.
  - intros [m s]. unfold in_changes, wf_change. cbn [cn cswaps]. split.
    + intros X. apply in_map_iff in X as (s' & X & Hs). injection X as <- <-. apply sw_complete in Hs. split; auto.
      split; [|intros x Hx; apply (pairs_ok_in Hs) in Hx; lia].
      assert (Y : forall l lo n n', n <= n' -> pairs_ok lo n l -> pairs_ok lo n' l).
      { clear. induction l as [|a l IH]; cbn; auto. intros lo n n' L (A & B & C). split; auto. split; [lia|]. eapply IH; eauto. }
      apply pairs_ok_weaken with (lo := nh); [lia|]. eapply Y; [exact H|exact Hs].
    + intros (-> & W & B). apply in_map. apply sw_complete.
      assert (Y : forall l lo, pairs_ok lo nt l -> (forall s, In s l -> nh <= s /\ s + 2 <= nh + nw) -> pairs_ok (max lo nh) (nh + nw) l).
      { clear. induction l as [|a l IH]; cbn; auto. intros lo (A & B & C) D. assert (Da := D a (or_introl eq_refl)). split; [lia|]. split; [lia|].
        assert (Z := IH _ C ltac:(intros; apply D; now right)). apply pairs_ok_weaken with (lo := max (a + 2) nh); [lia|]. exact Z. }
      specialize (Y s 0 W B). exact Y.
Qed.
Print Assumptions C24_visits_changes.

Example C24_case : (e <- ci_begin 4 1 6 ;; ci_traverse 9 e) =
  Ret (map (mkChange 6) [[1;3]; [1]; [2]; [3]; []]).
Proof. vm_compute. reflexivity. Qed.
