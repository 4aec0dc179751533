(* P_Gsiril6.v - tests and interpolations leave things as they are; replacements; escapes; the node limit. *)
From Verif Require Import Base M_Bell M_Change M_Row M_Method M_Proof M_Dim M_Names M_Library M_Gsiril P_Bell Spec_Proof P_Proof P_Proof2 P_Gsiril Spec_Gsiril P_Gsiril2 P_Gsiril3.
Set Implicit Arguments.
Unset Strict Implicit.
Open Scope nat_scope.

(* the context and the symbols are unchanged, and nothing is written if nothing can be *)
Definition unchanged (s s' : st) : Prop :=
  s_x s' = s_x s /\ g_syms (s_g s') = g_syms (s_g s) /\ (exists o, g_out (s_g s') = g_out (s_g s) ++ o) /\
  (can_write (s_x s) = false -> g_out (s_g s') = g_out (s_g s)).
Lemma unchanged_refl s : unchanged s s.
Proof. repeat split; auto. exists []. now rewrite app_nil_r. Qed.
Lemma unchanged_trans a b d : unchanged a b -> unchanged b d -> unchanged a d.
Proof.
  intros (A1 & A2 & (o & A3) & A4) (B1 & B2 & (o' & B3) & B4). split; [congruence|]. split; [congruence|]. split.
  - exists (o ++ o'). now rewrite B3, A3, app_assoc.
  - intros W. rewrite B4, A4; auto. now rewrite A1.
Qed.
Lemma count_inv c s s' v : count c s = Ret (s', v) -> s' = bump s /\ v = inl tt.
Proof. unfold count, mbind, getg. destruct (_ =? _)%Z; [discriminate|]. intros H. now inversion H. Qed.
Lemma unchanged_bump s : unchanged s (bump s).
Proof. repeat split; auto. exists []. now rewrite app_nil_r. Qed.

Lemma if_exec c fuel t a b s s' v : gs_run c (S fuel) (QExec (EIf t a b) true) s = Ret (s', v) ->
  exists ok s1, unchanged s s1 /\
    (if ok : bool then gs_run c fuel (QExec a true) s1 = Ret (s', v)
     else match b with Some b => gs_run c fuel (QExec b true) s1 = Ret (s', v) | None => s' = s1 /\ v = inl tt end).
Proof.
  change (gs_run c (S fuel) (QExec (EIf t a b) true)) with (mbind (count c) (fun _ => exec_impl c (@gs_run c fuel) (EIf t a b) true)).
  intros H. apply mbind_inv in H. destruct H as [(s0 & u & H1 & H2)|(x & H1 & H2)].
  2:{ apply count_inv in H1 as [_ H1]. discriminate. }
  apply count_inv in H1 as [-> _]. cbn [exec_impl] in H2. apply mbind_inv in H2.
  assert (K : forall s1 w, condition (@gs_run c fuel) t (bump s) = Ret (s1, w) -> unchanged s s1 /\ exists ok, w = inl ok).
  { intros s1 w. unfold condition, catch. destruct (in_clone (gs_run c fuel (QBool t)) (bump s)) as [[s2 w2]| | |] eqn:E; try discriminate.
    pose proof (clone_effects E) as C.
    assert (U : unchanged s s2) by exact C.
    destruct w2 as [ok|x]; intros Q; inversion Q; subst; (split; [exact U|]); eauto. }
  destruct H2 as [(s1 & ok & H1 & H2)|(x & H1 & ->)].
  - destruct (K _ _ H1) as (U & _). exists ok, s1. split; [exact U|]. destruct ok; [exact H2|]. destruct b; [exact H2|].
    inversion H2. now subst.
  - destruct (K _ _ H1) as (_ & ok & Q). discriminate.
Qed.

Lemma subst_unchanged c fuel ps : forall acc ex nn s s' v, subst c (@gs_run c fuel) ps acc ex nn s = Ret (s', v) -> unchanged s s'.
Proof.
  induction ps as [|p ps IH]; intros acc ex nn s s' v H; [inversion H; apply unchanged_refl|].
  cbn [subst] in H. rewrite (@mb_ret _ _ getx _ s s (s_x s) eq_refl) in H. destruct p as [a| |n| | | | |a|]; try (eapply IH, H); try discriminate.
  - destruct (c_show c _); [eapply IH, H|]. inversion H. apply unchanged_refl.
  - apply mbind_inv in H. destruct H as [(s1 & e & H1 & H2)|(x & H1 & ->)].
    + assert (s1 = s) as ->. { unfold lookup in H1. destruct (find_sym s n); [now inversion H1|discriminate]. }
      apply mbind_inv in H2. destruct H2 as [(s2 & [t b] & H2 & H3)|(x & H2 & ->)].
      * eapply unchanged_trans; [exact (clone_effects H2)|eapply IH, H3].
      * exact (clone_effects H2).
    + unfold lookup in H1. destruct (find_sym s n); discriminate.
Qed.
Lemma emit_unchanged t par s s' v : emit t par s = Ret (s', v) ->
  s_x s' = s_x s /\ g_syms (s_g s') = g_syms (s_g s) /\ exists o, g_out (s_g s') = g_out (s_g s) ++ o.
Proof.
  unfold emit. rewrite (@mb_ret _ _ getx _ s s (s_x s) eq_refl).
  match goal with |- context [if ?b then _ else _] => destruct b end; intros H; inversion H; cbn; repeat split; eauto.
  exists []. now rewrite app_nil_r.
Qed.
Definition kept (s s' : st) : Prop := s_x s' = s_x s /\ g_syms (s_g s') = g_syms (s_g s) /\ exists o, g_out (s_g s') = g_out (s_g s) ++ o.
Lemma kept_trans a b d : kept a b -> kept b d -> kept a d.
Proof. intros (A1 & A2 & o & A3) (B1 & B2 & o' & B3). split; [congruence|]. split; [congruence|]. exists (o ++ o'). now rewrite B3, A3, app_assoc. Qed.
Lemma kept_unchanged s s' : unchanged s s' -> kept s s'.
Proof. intros (A1 & A2 & A3 & _). split; [exact A1|]. split; [exact A2|exact A3]. Qed.

Lemma plain_exec c fuel t p nn ab fwd s s' v : gs_run c fuel (QExec (EString t false p nn ab) fwd) s = Ret (s', v) -> kept s s'.
Proof.
  destruct fuel as [|fuel]; [discriminate|].
  change (gs_run c (S fuel) (QExec (EString t false p nn ab) fwd)) with (mbind (count c) (fun _ => exec_impl c (@gs_run c fuel) (EString t false p nn ab) fwd)).
  intros H. apply mbind_inv in H. destruct H as [(s0 & u & H1 & H2)|(x & H1 & H2)].
  2:{ apply count_inv in H1 as [_ H1]. discriminate. }
  apply count_inv in H1 as [-> _]. cbn [exec_impl] in H2.
  unfold mbind at 1 in H2. unfold lift in H2. destruct (escapes t) as [t'| | |]; try discriminate.
  apply (@kept_trans s (bump s)); [apply kept_unchanged, unchanged_bump|].
  apply mbind_inv in H2. destruct H2 as [(s1 & u1 & H1 & H2)|(x & H1 & ->)]; [|exact (emit_unchanged H1)].
  eapply kept_trans; [exact (emit_unchanged H1)|].
  apply mbind_inv in H2. destruct H2 as [(s2 & u2 & H3 & H2)|(x & H3 & ->)].
  - assert (K : kept s1 s2).
    { destruct nn; [inversion H3; apply kept_unchanged, unchanged_refl|exact (emit_unchanged H3)]. }
    eapply kept_trans; [exact K|]. destruct ab; inversion H2; subst; apply kept_unchanged, unchanged_refl.
  - destruct nn; [inversion H3|exact (emit_unchanged H3)].
Qed.
Lemma string_exec c fuel t i p nn ab fwd s s' v : gs_run c fuel (QExec (EString t i p nn ab) fwd) s = Ret (s', v) -> kept s s'.
Proof.
  destruct i; [|apply plain_exec]. destruct fuel as [|fuel]; [discriminate|].
  change (gs_run c (S fuel) (QExec (EString t true p nn ab) fwd)) with (mbind (count c) (fun _ => exec_impl c (@gs_run c fuel) (EString t true p nn ab) fwd)).
  intros H. apply mbind_inv in H. destruct H as [(s0 & u & H1 & H2)|(x & H1 & H2)].
  2:{ apply count_inv in H1 as [_ H1]. discriminate. }
  apply count_inv in H1 as [-> _]. cbn [exec_impl] in H2. unfold string_eval in H2.
  apply (@kept_trans s (bump s)); [apply kept_unchanged, unchanged_bump|].
  apply mbind_inv in H2. destruct H2 as [(s1 & e & H1 & H2)|(x & H1 & ->)].
  - apply mbind_inv in H1. destruct H1 as [(s2 & [[t' ex] n'] & H1 & H3)|(x & H1 & Q)]; [|discriminate].
    inversion H3; subst. eapply kept_trans; [apply kept_unchanged, (subst_unchanged H1)|]. eapply plain_exec, H2.
  - apply mbind_inv in H1. destruct H1 as [(s2 & [[t' ex] n'] & H1 & H3)|(y & H1 & Q)]; [discriminate|].
    apply kept_unchanged, (subst_unchanged H1).
Qed.

(* --- replacements --- *)
Lemma split3 A (x : list A) k n : k + n <= length x ->
  exists pre old post, x = pre ++ old ++ post /\ length pre = k /\ length old = n.
Proof.
  intros L. exists (firstn k x), (firstn n (skipn k x)), (skipn n (skipn k x)). split; [now rewrite !firstn_skipn|].
  split; [apply firstn_length_le; lia|]. apply firstn_length_le. rewrite skipn_length. lia.
Qed.
Ltac good_test B := rewrite ?andb_true_r, ?andb_false_r, ?andb_true_l, ?andb_false_l, ?orb_false_r, ?orb_false_l in B;
  rewrite ?orb_false_iff, ?andb_false_iff, ?Z.leb_gt, ?Z.ltb_ge, ?Z.eqb_neq in B.
Lemma replace_begin off cs x : match do_replacement cs off true x with
  | Ret y => overlay_at off cs x y | Throw _ => forall y, ~ overlay_at off cs x y | _ => False end.
Proof.
  destruct (do_replacement cs off true x) as [y| | |] eqn:E.
  - unfold do_replacement in E. match type of E with (if ?b then _ else _) = _ => destruct b eqn:B end; [discriminate|].
    cbn [negb] in B. good_test B. destruct (@split3 _ x (Z.to_nat (off - 1)) (length cs)) as (pre & old & post & -> & L1 & L2); [lia|].
    inversion E. rewrite <- L1, splice_at by lia. constructor; lia.
  - intros y H. apply overlay_at_do in H. congruence.
  - unfold do_replacement in E. destruct (_ || _); discriminate.
  - unfold do_replacement in E. destruct (_ || _); discriminate.
Qed.
Lemma replace_end off cs x : match do_replacement cs off false x with
  | Ret y => overlay_from_end off cs x y | Throw _ => forall y, ~ overlay_from_end off cs x y | _ => False end.
Proof.
  destruct (do_replacement cs off false x) as [y| | |] eqn:E.
  - unfold do_replacement in E. match type of E with (if ?b then _ else _) = _ => destruct b eqn:B end; [discriminate|].
    cbn [negb] in B. good_test B. destruct (@split3 _ x (Z.to_nat (Z.of_nat (length x) - (off + 1))) (length cs)) as (pre & old & post & X & L1 & L2); [lia|].
    assert (L : length x = length pre + (length old + length post)) by (rewrite X, !app_length; lia).
    inversion E. rewrite <- L1. rewrite X, splice_at by lia. constructor; try lia. rewrite app_length. lia.
  - intros y H. apply overlay_end_do in H. congruence.
  - unfold do_replacement in E. destruct (_ || _); discriminate.
  - unfold do_replacement in E. destruct (_ || _); discriminate.
Qed.

(* --- escapes --- *)
Lemma lor_small base k n : (forall j, In j (seq 0 n) -> Z.lor base (Z.of_nat j) = (base + Z.of_nat j)%Z) -> (0 <= k < Z.of_nat n)%Z ->
  Z.lor base k = (base + k)%Z.
Proof. intros H L. specialize (H (Z.to_nat k)). rewrite Z2Nat.id in H by lia. apply H. apply in_seq. lia. Qed.
Ltac table := intros j Hj; cbn in Hj; repeat (destruct Hj as [<-|Hj]; [reflexivity|]); destruct Hj.
Lemma lor_192 k : (0 <= k < 32)%Z -> Z.lor 192 k = (192 + k)%Z.
Proof. apply (@lor_small 192 k 32). table. Qed.
Lemma lor_224 k : (0 <= k < 16)%Z -> Z.lor 224 k = (224 + k)%Z.
Proof. apply (@lor_small 224 k 16). table. Qed.
Lemma lor_240 k : (0 <= k < 8)%Z -> Z.lor 240 k = (240 + k)%Z.
Proof. apply (@lor_small 240 k 8). table. Qed.
Lemma lor_128 k : (0 <= k < 64)%Z -> Z.lor 128 k = (128 + k)%Z.
Proof. apply (@lor_small 128 k 64). table. Qed.
Lemma byte_val_byte z : (0 <= z < 256)%Z -> byte_val (byte z) = z.
Proof. intros H. unfold byte_val, byte. rewrite nat_ascii_embedding; rewrite Z.mod_small by lia; lia. Qed.
Lemma cont v : byte_val (byte (Z.lor 128 (Z.land v 63))) = (128 + v mod 64)%Z.
Proof.
  change 63%Z with (Z.ones 6). rewrite Z.land_ones by lia. change (2 ^ 6)%Z with 64%Z.
  pose proof (Z.mod_pos_bound v 64 eq_refl). rewrite lor_128 by lia. apply byte_val_byte. lia.
Qed.
Lemma utf8_spec v : (0 <= v)%Z -> match utf8 v with
  | Ret t => utf8_bytes v (map byte_val t) | Throw _ => (1114112 <= v)%Z | _ => False end.
Proof.
  intros P. unfold utf8. destruct (Z.ltb_spec v 128).
  { cbn [map]. rewrite byte_val_byte by lia. constructor. lia. }
  destruct (Z.ltb_spec v 2048).
  { cbn [map]. rewrite cont. rewrite Z.shiftr_div_pow2 by lia. change (2 ^ 6)%Z with 64%Z.
    assert (0 <= v / 64 < 32)%Z by (split; [apply Z.div_pos; lia|apply Z.div_lt_upper_bound; lia]).
    rewrite lor_192 by lia. rewrite byte_val_byte by lia. constructor. lia. }
  destruct (Z.ltb_spec v 65536).
  { cbn [map]. rewrite !cont. rewrite !Z.shiftr_div_pow2 by lia. change (2 ^ 6)%Z with 64%Z. change (2 ^ 12)%Z with 4096%Z.
    assert (0 <= v / 4096 < 16)%Z by (split; [apply Z.div_pos; lia|apply Z.div_lt_upper_bound; lia]).
    rewrite lor_224 by lia. rewrite byte_val_byte by lia. constructor. lia. }
  destruct (Z.ltb_spec v 1114112); [|assumption].
  cbn [map]. rewrite !cont. rewrite !Z.shiftr_div_pow2 by lia. change (2 ^ 6)%Z with 64%Z. change (2 ^ 12)%Z with 4096%Z. change (2 ^ 18)%Z with 262144%Z.
  assert (0 <= v / 262144 < 8)%Z by (split; [apply Z.div_pos; lia|apply Z.div_lt_upper_bound; lia]).
  rewrite lor_240 by lia. rewrite byte_val_byte by lia. constructor. lia.
Qed.
(* different characters have different, and not overlapping, encodings *)
Lemma utf8_inj v w a b : utf8_bytes v a -> utf8_bytes w b -> (exists x y, a ++ x = b ++ y) -> v = w.
Proof.
  assert (K : forall p q (t u : list Z), p :: t = q :: u -> p = q /\ t = u) by (intros p q t u H; now inversion H).
  intros Ha Hb (x & y & E). destruct Ha, Hb; cbn [app] in E; repeat (apply K in E; destruct E as [? E]); clear K E;
  try lia; Z.to_euclidean_division_equations; lia.
Qed.

Lemma hex_val_spec a d : hex_digit a d -> hex_val a = Some d.
Proof.
  intros [L H]. assert (Q : exists n, n < 16 /\ d = Z.of_nat n) by (exists (Z.to_nat d); lia). destruct Q as (n & Ln & ->).
  rewrite Nat2Z.id in H. do 16 (destruct n as [|n]; [cbn in H; destruct H as [<-|[<-|[]]]; reflexivity|]). lia.
Qed.
Lemma hex_shift v d : (0 <= v)%Z -> (0 <= d < 16)%Z -> Z.lor (Z.shiftl v 4) d = (16 * v + d)%Z.
Proof.
  intros P L. rewrite Z.shiftl_mul_pow2 by lia. change (2 ^ 4)%Z with 16%Z.
  assert (N0 : Z.land (v * 16) d = 0%Z); [|rewrite <- Z.lxor_lor, <- Z.add_nocarry_lxor by exact N0; lia].
  apply Z.bits_inj'. intros k Hk. rewrite Z.land_spec, Z.bits_0. change 16%Z with (2 ^ 4)%Z.
  destruct (Z.lt_ge_cases k 4) as [Q|Q]; [now rewrite Z.mul_pow2_bits_low|].
  rewrite (@Z.bits_above_log2 d k); [apply andb_false_r|lia|].
  destruct (Z.eq_dec d 0) as [->|Nz]; [cbn; lia|]. apply Z.lt_le_trans with 4%Z; [|exact Q].
  apply Z.log2_lt_pow2; lia.
Qed.
Lemma hex_nonneg t v : hex_number t v -> (0 <= v)%Z.
Proof. induction 1 as [|t v a d H IH [L _]]; lia. Qed.
Lemma hex_read t v : hex_number t v -> forall rest n, hex_digits (length t + n) 0 (t ++ rest) = hex_digits n v rest.
Proof.
  induction 1 as [|t v a d H IH D]; intros rest n; [reflexivity|].
  rewrite app_length, <- app_assoc. replace (length t + length [a] + n) with (length t + S n) by (cbn; lia). cbn [app].
  rewrite IH. cbn [hex_digits]. rewrite (hex_val_spec D). now rewrite hex_shift; [|exact (hex_nonneg H)|apply D].
Qed.
Lemma hex_digits_shorter n : forall v s w r, hex_digits n v s = Ret (w, r) -> length r <= length s.
Proof.
  induction n as [|n IH]; intros v s w r H; [inversion H; lia|]. cbn [hex_digits] in H. destruct s as [|a s]; [discriminate|].
  destruct (hex_val a); [|discriminate]. apply IH in H. cbn. lia.
Qed.
(* more fuel makes no difference *)
Lemma escapes_more n : forall s m, length s < n -> n <= m -> string_escapes m s = string_escapes n s.
Proof.
  induction n as [|n IH]; intros s m L M; [lia|]. destruct m as [|m]; [lia|]. destruct s as [|a s]; [reflexivity|].
  cbn [length] in L. cbn [string_escapes].
  destruct (Ascii.eqb a (chr "\")); [|rewrite (IH s m); [reflexivity|lia|lia]].
  destruct s as [|d u]; [reflexivity|]. cbn [length] in L. rewrite (IH u m) by lia.
  destruct (Ascii.eqb d (chr "n")); [reflexivity|]. destruct (Ascii.eqb d (chr "t")); [reflexivity|].
  match goal with |- context [hex_digits ?k 0 u] => destruct (hex_digits k 0 u) as [[v w]| | |] eqn:E end; try reflexivity.
  apply hex_digits_shorter in E. cbn [bind]. destruct (utf8 v); try reflexivity. cbn [bind]. rewrite (IH w m) by lia. reflexivity.
Qed.
Lemma escapes_cons a s : a <> chr "\" -> escapes (a :: s) = omap (cons a) (escapes s).
Proof.
  intros D. unfold escapes. change (string_escapes (S (length (a :: s))) (a :: s)) with
    (if Ascii.eqb a (chr "\") then match s with
      | [] => Throw InvalidArgument
      | d :: u =>
        if Ascii.eqb d (chr "n") then omap (cons (ascii_of_nat 10)) (string_escapes (length (a :: s)) u)
        else if Ascii.eqb d (chr "t") then omap (cons (ascii_of_nat 9)) (string_escapes (length (a :: s)) u)
        else
          let len := if Ascii.eqb d (chr "x") then 2 else if Ascii.eqb d (chr "u") then 4
                     else if Ascii.eqb d (chr "U") then 8 else 0 in
          if 0 <? len then
            '(v, w) <- hex_digits len 0 u ;; x <- utf8 v ;; omap (app x) (string_escapes (length (a :: s)) w)
          else omap (cons (if Ascii.eqb d (chr "'") then ascii_of_nat 34 else d)) (string_escapes (length (a :: s)) u)
      end
     else omap (cons a) (string_escapes (length (a :: s)) s)).
  destruct (Ascii.eqb a (chr "\")) eqn:E; [apply Ascii.eqb_eq in E; contradiction|]. reflexivity.
Qed.
Lemma escapes_unfold d u : escapes (chr "\" :: d :: u) =
  (if Ascii.eqb d (chr "n") then omap (cons (ascii_of_nat 10)) (escapes u)
   else if Ascii.eqb d (chr "t") then omap (cons (ascii_of_nat 9)) (escapes u)
   else
     let len := if Ascii.eqb d (chr "x") then 2 else if Ascii.eqb d (chr "u") then 4
                else if Ascii.eqb d (chr "U") then 8 else 0 in
     if 0 <? len then
       '(v, w) <- hex_digits len 0 u ;; x <- utf8 v ;; omap (app x) (escapes w)
     else omap (cons (if Ascii.eqb d (chr "'") then ascii_of_nat 34 else d)) (escapes u)).
Proof.
  assert (Q : forall n w, length w < n -> string_escapes n w = escapes w) by (intros n w L; apply escapes_more; lia).
  unfold escapes at 1. cbn [length]. 
  change (string_escapes (S (S (S (length u)))) (chr "\" :: d :: u)) with
  (if Ascii.eqb d (chr "n") then omap (cons (ascii_of_nat 10)) (string_escapes (S (S (length u))) u)
   else if Ascii.eqb d (chr "t") then omap (cons (ascii_of_nat 9)) (string_escapes (S (S (length u))) u)
   else
     let len := if Ascii.eqb d (chr "x") then 2 else if Ascii.eqb d (chr "u") then 4
                else if Ascii.eqb d (chr "U") then 8 else 0 in
     if 0 <? len then
       '(v, w) <- hex_digits len 0 u ;; x <- utf8 v ;; omap (app x) (string_escapes (S (S (length u))) w)
     else omap (cons (if Ascii.eqb d (chr "'") then ascii_of_nat 34 else d)) (string_escapes (S (S (length u))) u)).
  rewrite (Q _ u) by lia. destruct (Ascii.eqb d (chr "n")); [reflexivity|]. destruct (Ascii.eqb d (chr "t")); [reflexivity|].
  cbv zeta. match goal with |- context [hex_digits ?k 0 u] => destruct (hex_digits k 0 u) as [[v w]| | |] eqn:E end; try reflexivity.
  apply hex_digits_shorter in E. cbn [bind]. destruct (utf8 v); try reflexivity. cbn [bind]. rewrite (Q _ w) by lia. reflexivity.
Qed.
Lemma escapes_bs d s k : In (d, k) [(chr "n", ascii_of_nat 10); (chr "t", ascii_of_nat 9); (chr "'", ascii_of_nat 34); (chr "\", chr "\")] ->
  escapes (chr "\" :: d :: s) = omap (cons k) (escapes s).
Proof.
  intros H. rewrite escapes_unfold. cbn [In] in H. repeat (destruct H as [H|H]; [inversion H; reflexivity|]). destruct H.
Qed.
Lemma escapes_hex d k ds v rest : In (d, k) [(chr "x", 2); (chr "u", 4); (chr "U", 8)] -> length ds = k -> hex_number ds v ->
  escapes (chr "\" :: d :: ds ++ rest) = bind (utf8 v) (fun t => omap (app t) (escapes rest)).
Proof.
  intros H L D. rewrite escapes_unfold.
  pose proof (hex_read D rest 0) as R. rewrite Nat.add_0_r, L in R. change (hex_digits 0 v rest) with (Ret (v, rest)) in R.
  cbn [In] in H. repeat (destruct H as [H|H]; [injection H as <- K; rewrite <- K in R;
    match type of R with hex_digits ?n 0 ?u = _ => match goal with |- ?l = _ => change l with ('(v, w) <- hex_digits n 0 u ;; x <- utf8 v ;; omap (app x) (escapes w)) end end; rewrite R; reflexivity|]). destruct H.
Qed.
Lemma escapes_quote t : escapes (quote t) = Ret t.
Proof.
  induction t as [|a t IH]; [reflexivity|]. change (quote (a :: t)) with (quote_char a ++ quote t). unfold quote_char.
  destruct (Ascii.eqb a (chr "\")) eqn:E1; [apply Ascii.eqb_eq in E1; subst; cbn [app]; rewrite (@escapes_bs _ _ (chr "\")) by (cbn; tauto); now rewrite IH|].
  destruct (Ascii.eqb a (ascii_of_nat 34)) eqn:E2; [apply Ascii.eqb_eq in E2; subst; cbn [app]; rewrite (@escapes_bs _ _ (ascii_of_nat 34)) by (cbn; tauto); now rewrite IH|].
  destruct (Ascii.eqb a (ascii_of_nat 10)) eqn:E3; [apply Ascii.eqb_eq in E3; subst; cbn [app]; rewrite (@escapes_bs _ _ (ascii_of_nat 10)) by (cbn; tauto); now rewrite IH|].
  destruct (Ascii.eqb a (ascii_of_nat 9)) eqn:E4; [apply Ascii.eqb_eq in E4; subst; cbn [app]; rewrite (@escapes_bs _ _ (ascii_of_nat 9)) by (cbn; tauto); now rewrite IH|].
  cbn [app]. rewrite escapes_cons; [now rewrite IH|]. intros ->. now rewrite Ascii.eqb_refl in E1.
Qed.

(* --- the node limit --- *)
Definition within (c : cfg) (s : st) : Prop := Z.Even (g_nodes (s_g s)) /\ (g_nodes (s_g s) < c_limit c)%Z.
Lemma run_within c fuel A (q : ask A) : Z.Even (c_limit c) -> pres (fun s s' => within c s -> within c s') (gs_run c fuel q).
Proof.
  intros EV. apply run_pres; try (intros; assumption); auto.
  - intros x g D [W1 W2]. split; cbn in *.
    + destruct W1 as (k & W1). exists (k + 1)%Z. lia.
    + destruct W1 as (k & W1), EV as (l & EV). lia.
Qed.
Lemma loop_forever c fuel : Z.Odd (c_limit c) -> forall i s, Z.Even (g_nodes (s_g s)) -> gs_run c fuel (QLoop (-1) i ENop true) s = Diverge.
Proof.
  intros OD. induction fuel as [fuel IH] using lt_wf_ind. intros i s EV. destruct fuel as [|fuel]; [reflexivity|].
  change (gs_run c (S fuel) (QLoop (-1) i ENop true) s) with
    (mbind (define loop_counter (EInt i)) (fun _ => mbind (gs_run c fuel (QExec ENop true)) (fun _ => gs_run c fuel (QLoop (-1) (i + 1)%Z ENop true))) s).
  erewrite mb_ret; [|reflexivity]. destruct fuel as [|fuel]; [reflexivity|].
  assert (K : forall s0, Z.Even (g_nodes (s_g s0)) -> gs_run c (S fuel) (QExec ENop true) s0 = Ret (bump s0, inl tt)).
  { intros s0 E0. change (mbind (count c) (fun _ => ret tt) s0 = Ret (bump s0, inl tt)). erewrite mb_ret; [reflexivity|]. unfold count, mbind, getg.
    destruct (Z.eqb_spec (g_nodes (s_g s0) + 2) (c_limit c)) as [Q|Q]; [|reflexivity].
    destruct E0 as (k & E0), OD as (l & OD). lia. }
  erewrite mb_ret; [|apply K; exact EV]. apply IH; [lia|]. destruct EV as (k & EV). exists (k + 1)%Z. change (g_nodes (s_g s) + 2 = 2 * (k + 1))%Z. lia.
Qed.
