(* P_MethUtils.v - the tests of a division and the order of changes. *)
From Verif Require Import Base M_Bell M_Change M_Row M_Method M_MethUtils Spec_Row Spec_Change Spec_Extent Spec_Group Spec_Touch Spec_MethUtils
  P_Bell P_Row P_Change P_Change2 P_Change3 P_Named P_Cycle P_Group P_False4 P_LeadHeads P_LeadHeads2.
Set Implicit Arguments.
Unset Strict Implicit.
Open Scope nat_scope.

Lemma came_snoc cs c i : came_from (cs ++ [c]) i = came_from cs (swap_pos (cswaps c) i).
Proof. now rewrite came_from_app. Qed.
Lemma row_after_length n cs : length (row_after n cs) = n.
Proof. unfold row_after. now rewrite map_length, seq_length. Qed.
Lemma act_row_after n cs i : i < n -> act (row_after n cs) i = came_from cs i.
Proof. intros H. rewrite <- (@act_nth_lt _ i 0) by now rewrite row_after_length. unfold row_after. now rewrite nth_map_seq. Qed.
Lemma row_after_step n cs c : n <= 255 -> on_bells n c -> row_b n (row_after n cs) -> row_mul_change (row_after n cs) c = Ret (row_after n (cs ++ [c])) /\ row_b n (row_after n (cs ++ [c])).
Proof.
  intros B [N W] R. destruct (@row_mul_change_spec (row_after n cs) c) as (r & E & R2 & L & A); [eapply row_b_256; [|exact R]; lia|exact W|lia|].
  assert (L' : length r = n) by (rewrite L, N, (proj2 R); lia). assert (X : r = row_after n (cs ++ [c])).
  { apply act_ext; [rewrite row_after_length; exact L'|]. intros i Hi. rewrite A. rewrite L' in Hi.
    assert (Hs : swap_pos (cswaps c) i < n) by (rewrite <- N; apply (swap_pos_lt W); lia). rewrite !act_row_after by lia. now rewrite came_snoc. }
  subst r. split; [exact E|]. split; [apply R2|exact L'].
Qed.
Lemma row_after_nil n : row_after n [] = rounds n \/ 256 < n.
Proof. destruct (le_lt_dec n 256); [left|right; lia]. rewrite rounds_id by lia. unfold row_after, id_row. rewrite <- (map_id (seq 0 n)) at 2. apply map_ext. reflexivity. Qed.
Lemma row_after_b n cs : n <= 255 -> Forall (on_bells n) cs -> row_b n (row_after n cs).
Proof.
  intros B. induction cs as [|c cs IH] using rev_ind; intros F.
  - destruct (row_after_nil n) as [->|H]; [|lia]. rewrite rounds_id by lia. apply row_b_id.
  - apply Forall_app in F as [F1 F2]. inversion_clear F2. apply row_after_step; auto.
Qed.
Definition rows_upto n cs : list row := map (fun k => row_after n (firstn k cs)) (seq 0 (S (length cs))).
Lemma rows_upto_snoc n cs c : rows_upto n (cs ++ [c]) = rows_upto n cs ++ [row_after n (cs ++ [c])].
Proof.
  unfold rows_upto. rewrite app_length. cbn [length]. replace (S (length cs + 1)) with (S (length cs) + 1) by lia. rewrite seq_app, map_app. f_equal.
  - apply map_ext_in. intros k Hk. apply in_seq in Hk. rewrite firstn_app. replace (k - length cs) with 0 by lia. cbn [firstn]. now rewrite app_nil_r.
  - cbn [seq map Nat.add]. do 2 f_equal. apply firstn_all2. rewrite app_length. cbn [length]. lia.
Qed.
Lemma div_rows_spec n d : n <= 255 -> Forall (on_bells n) d -> div_rows n d = Ret (row_after n d, rows_upto n d).
Proof.
  intros B. unfold div_rows. induction d as [|c d IH] using rev_ind; intros F.
  - cbn [forM]. unfold rows_upto. cbn [length seq map firstn]. destruct (row_after_nil n) as [->|H]; [reflexivity|lia].
  - apply Forall_app in F as [F1 F2]. inversion_clear F2 as [|? ? Hc _]. rewrite forM_app, (IH F1). cbn [bind forM]. destruct (row_after_step B Hc (row_after_b B F1)) as [E _]. rewrite E. cbn [bind]. now rewrite rows_upto_snoc.
Qed.
Lemma skipn_forall {X} (P : X -> Prop) k l : Forall P l -> Forall P (skipn k l).
Proof. intros F. rewrite <- (firstn_skipn k l) in F. now apply Forall_app in F. Qed.
Lemma division_false_spec n m c ds cdl : n <= 255 -> Forall (on_bells n) m -> on_bells n c -> ds <= length m ->
  exists b, is_division_false m c ds cdl = Ret b /\
    (b = true <-> 3 <= length m - ds /\ length m - ds + 1 <> cdl /\ exists k, k <= length m - ds /\ row_after n (skipn ds m ++ [c]) = row_after n (firstn k (skipn ds m))).
Proof.
  intros B F Hc L. unfold is_division_false. destruct (Nat.ltb_spec (length m - ds) 3); [exists false; split; [reflexivity|]; split; [discriminate|lia]|].
  destruct (Nat.eqb_spec (length m - ds + 1) cdl); cbn [orb]; [exists false; split; [reflexivity|]; split; [discriminate|tauto]|].
  assert (Fd := skipn_forall ds F). rewrite (proj1 Hc), (div_rows_spec B Fd). cbn [bind]. destruct (row_after_step B Hc (row_after_b B Fd)) as [E _]. rewrite E. cbn [bind].
  eexists. split; [reflexivity|]. rewrite existsb_exists. split.
  - intros (x & Hx & Ex). apply row_eqb_iff in Ex. unfold rows_upto in Hx. apply in_map_iff in Hx as (k & <- & Hk). apply in_seq in Hk. rewrite skipn_length in Hk. split; [lia|]. split; [lia|]. exists k. split; [lia|exact Ex].
  - intros (_ & _ & k & Hk & Ex). exists (row_after n (firstn k (skipn ds m))). split; [|now apply row_eqb_iff]. unfold rows_upto. apply in_map_iff. exists k. split; [reflexivity|]. apply in_seq. rewrite skipn_length. lia.
Qed.

(* --- parity --- *)
Lemma sign_two x : is_row x -> sign default_symtab x = Ret (if in_course x then 1 else -1)%Z.
Proof. intros P. unfold in_course. destruct (sign_spec default_symtab P) as (cs & _ & E). rewrite E. unfold sgn_of. destruct (Nat.even _); reflexivity. Qed.
Fixpoint alt {X} (s : bool) (l : list X) : list X := match l with [] => [] | x :: l => if s then alt false l else x :: alt true l end.
Lemma count_signs_spec rows : Forall is_row rows -> forall s e0 e1 o0 o1, count_signs default_symtab rows s e0 e1 o0 o1 =
  Ret (e0 + length (filter in_course (alt s rows)), e1 + length (filter in_course (alt (negb s) rows)),
    o0 + length (filter (fun x => negb (in_course x)) (alt s rows)), o1 + length (filter (fun x => negb (in_course x)) (alt (negb s) rows))).
Proof.
  induction 1 as [|x rows P F IH]; intros s e0 e1 o0 o1; cbn [count_signs].
  - destruct s; cbn [alt filter negb length]; rewrite !Nat.add_0_r; reflexivity.
  - rewrite (sign_two P). cbn [bind]. destruct (in_course x) eqn:I; destruct s; cbn [Z.eqb Pos.eqb]; rewrite IH; cbn [alt negb filter]; rewrite I; cbn [negb length]; match goal with |- Ret (?a,?b,?c,?d) = Ret (?a',?b',?c',?d') => replace a with a' by lia; replace b with b' by lia; replace c with c' by lia; replace d with d' by lia end; reflexivity.
Qed.
Lemma alt_seq {X} (f : nat -> X) k : forall a (s : bool) , alt s (map f (seq a k)) = map f (filter (fun j => j mod 2 =? (if s then (a + 1) mod 2 else a mod 2)) (seq a k)).
Proof.
  induction k as [|k IH]; intros a s; [destruct s; reflexivity|]. cbn [seq map alt filter].
  assert (M : (S a + 1) mod 2 = a mod 2) by (replace (S a + 1) with (a + 1 * 2) by lia; apply Nat.mod_add; lia).
  assert (N : a mod 2 <> (a + 1) mod 2).
  { assert (H := Nat.mod_upper_bound a 2 ltac:(lia)). rewrite <- Nat.add_mod_idemp_l by lia. destruct (a mod 2) as [|[|]]; cbn; lia. }
  destruct s.
  - destruct (Nat.eqb_spec (a mod 2) ((a + 1) mod 2)); [contradiction|]. rewrite IH. now replace (S a) with (a + 1) by lia.
  - rewrite Nat.eqb_refl. cbn [map]. f_equal. rewrite IH, M. reflexivity.
Qed.
Lemma parity_hack_spec n m c ds : n <= 255 -> Forall (on_bells n) m -> on_bells n c -> ds <= length m ->
  exists b, division_bad_parity_hack default_symtab m c ds (length m - ds + 2) = Ret b /\
    (b = false <-> as_many (at_stroke n (skipn ds m ++ [c]) 0) /\ as_many (at_stroke n (skipn ds m ++ [c]) 1)).
Proof.
  intros B F Hc L. unfold division_bad_parity_hack.
  assert (Fd := skipn_forall ds F). rewrite (proj1 Hc), (div_rows_spec B Fd). cbn [bind]. destruct (row_after_step B Hc (row_after_b B Fd)) as [E _]. rewrite E. cbn [bind].
  rewrite <- rows_upto_snoc. set (cs := skipn ds m ++ [c]).
  assert (LL : length (rows_upto n cs) = length m - ds + 2). { unfold rows_upto, cs. rewrite map_length, seq_length, app_length, skipn_length. cbn [length]. lia. }
  rewrite LL, Nat.eqb_refl. cbn [negb]. rewrite count_signs_spec.
  2: { apply Forall_forall. intros x Hx. apply in_map_iff in Hx as (k & <- & _). apply (@row_after_b n); [exact B|]. assert (Fc : Forall (on_bells n) cs) by (apply Forall_app; split; [exact Fd|repeat constructor; apply Hc]). rewrite <- (firstn_skipn k cs) in Fc. now apply Forall_app in Fc. }
  cbn [bind negb Nat.add]. unfold rows_upto. rewrite !alt_seq. cbn [Nat.add]. change (0 mod 2) with 0. change (1 mod 2) with 1. unfold as_many, at_stroke. cbv iota.
  eexists. split; [reflexivity|]. rewrite orb_false_iff, !negb_false_iff, !Nat.eqb_eq. reflexivity.
Qed.
Lemma parity_hack_assert n m c ds cdl : n <= 255 -> Forall (on_bells n) m -> on_bells n c -> ds <= length m -> cdl <> length m - ds + 2 ->
  division_bad_parity_hack default_symtab m c ds cdl = Throw AssertFailed.
Proof.
  intros B F Hc L N. unfold division_bad_parity_hack.
  assert (Fd := skipn_forall ds F). rewrite (proj1 Hc), (div_rows_spec B Fd). cbn [bind]. destruct (row_after_step B Hc (row_after_b B Fd)) as [E _]. rewrite E. cbn [bind].
  rewrite <- rows_upto_snoc. unfold rows_upto. rewrite map_length, seq_length, app_length, skipn_length. cbn [length].
  destruct (Nat.eqb_spec (S (length m - ds + 1)) cdl); [lia|reflexivity].
Qed.

(* --- adjacent places --- *)
Lemma consec_spec c max : wf_change c -> has_consec_places c max = true <-> exists i, adjacent_places c i (S max).
Proof.
  intros W. unfold has_consec_places, adjacent_places. rewrite Nat.ltb_lt. set (n := cn c).
  (* count places up to a are made just before a, a-count-1 is not (unless they start the change) *)
  assert (G : forall k a count, a + k = n -> count <= a -> count <= S max -> (forall j, a - count <= j < a -> place_made c j) -> (count <= max -> forall i, i + S max <= a -> ~ forall j, i <= j < i + S max -> place_made c j) ->
    (count < a -> ~ place_made c (a - count - 1)) ->
    (max < consec_loop c max (seq a k) count <-> exists i, i + S max <= n /\ forall j, i <= j < i + S max -> place_made c j)).
  { induction k as [|k IH]; intros a count E Ca Cm P N X; cbn [seq consec_loop].
    - split.
      + intros H. exists (a - count). split; [lia|]. intros j Hj. apply P. lia.
      + intros (i & Hi & A). destruct (le_lt_dec count max) as [H|H]; [|exact H]. exfalso. apply (N H i); [lia|exact A].
    - destruct (Nat.leb_spec count max) as [H|H].
      2: { split; [|lia]. intros _. exists (a - count). split; [lia|]. intros j Hj. apply P. lia. }
      specialize (N H). destruct (findplace c a) eqn:FP.
      + apply (findplace_spec a W) in FP. apply IH; try lia.
        * intros j Hj. destruct (Nat.eq_dec j a) as [->|]; [exact FP|apply P; lia].
        * intros H2 i Hi A. destruct (Nat.eq_dec (i + S max) (S a)) as [Q|Q]; [|apply (N i); [lia|exact A]]. apply X; [lia|]. apply A. lia.
        * intros H2. replace (S a - S count - 1) with (a - count - 1) by lia. apply X. lia.
      + assert (NP : ~ place_made c a) by (intros Q; apply (findplace_spec a W) in Q; congruence). apply IH; try lia.
        * intros _ i Hi A. destruct (Nat.eq_dec (i + S max) (S a)) as [Q|Q]; [apply NP, A; lia|apply (N i); [lia|exact A]].
        * intros _. replace (S a - 0 - 1) with a by lia. exact NP. }
  apply G; try lia.
Qed.

(* --- the order of changes --- *)
Lemma lex_ltb_spec a b : lex_ltb a b = true <-> lex_lt a b.
Proof.
  revert b; induction a as [|x a IH]; intros [|y b]; cbn [lex_ltb lex_lt]; try (split; [discriminate|tauto]); [split; auto|].
  destruct (Nat.ltb_spec x y); [split; auto|]. destruct (Nat.ltb_spec y x).
  - split; [discriminate|]. lia.
  - rewrite IH. assert (x = y) by lia. split; [intros Q; right; auto|intros [Q|[_ Q]]; [lia|exact Q]].
Qed.
Lemma read_chars_print l : (forall b, In b l -> b < 33) -> read_chars default_symtab (concat (map (print_bell default_symtab) l)) = Ret l.
Proof.
  induction l as [|b l IH]; intros H; [reflexivity|]. assert (Hb := H b (or_introl eq_refl)). cbn [map concat]. unfold print_bell at 1. cbn [sym_max default_symtab]. destruct (Nat.ltb_spec b 33); [|lia]. cbn [app read_chars].
  destruct (read_char_to_char Hb) as (c & -> & R & _). rewrite R. cbn [bind]. rewrite IH by (intros; apply H; now right). reflexivity.
Qed.
Lemma compare_spec n a b : n <= 33 -> on_bells n a -> on_bells n b -> exists t, compare_changes default_symtab a b = Ret t /\ (t = true <-> earlier a b).
Proof.
  intros B [Na Wa] [Nb Wb]. assert (Ea := places_pls (c := a) ltac:(lia) Wa). assert (Eb := places_pls (c := b) ltac:(lia) Wb).
  assert (La : forall p, In p (pls 0 (cn a) (cswaps a)) -> p < 33) by (intros p Hp; apply pls_lt in Hp; [lia|lia|exact Wa]).
  assert (Lb : forall p, In p (pls 0 (cn b) (cswaps b)) -> p < 33) by (intros p Hp; apply pls_lt in Hp; [lia|lia|exact Wb]).
  set (pa := pls 0 (cn a) (cswaps a)) in *. set (pb := pls 0 (cn b) (cswaps b)) in *. clearbody pa pb.
  assert (S : earlier a b <-> lex_lt pa pb). { unfold earlier. rewrite Ea, Eb. split; [intros (? & ? & [= <-] & [= <-] & H); exact H|intros H; eauto]. }
  unfold compare_changes, count_places, change_print. rewrite Ea, Eb. cbn [bind]. destruct pa as [|x pa]; cbn [length Nat.eqb].
  - eexists. split; [reflexivity|]. rewrite S. destruct pb; cbn; split; (discriminate || tauto || auto).
  - destruct pb as [|y pb]; cbn [length Nat.eqb]; [exists false; split; [reflexivity|]; rewrite S; cbn; split; [discriminate|tauto]|].
    assert (NE : forall z l, match concat (map (print_bell default_symtab) (z :: l)) with [] => true | _ => false end = false).
    { intros z l. cbn [map concat]. unfold print_bell at 1. destruct (z <? sym_max default_symtab); reflexivity. }
    cbv zeta. rewrite !NE, !andb_false_r. rewrite !read_chars_print by assumption. cbn [bind]. eexists. split; [reflexivity|]. rewrite S. apply lex_ltb_spec.
Qed.
