(* Props_Method.v - property theorems about place notation and methods. *)
From Verif Require Import Base M_Bell M_Change M_Math M_Row M_PN M_Method Spec_Row Spec_Change Spec_PN Spec_Method
  P_Change2 P_Change3 P_Cycle P_Order P_PN P_Format P_Method P_Method2 P_Method3.
Set Implicit Arguments.
Unset Strict Implicit.
Open Scope nat_scope.

Lemma pn_no_ub n p : n <= 255 -> change_of_pn default_symtab n p <> UB /\ change_of_pn default_symtab n p <> Diverge.
Proof.
  intros Hn. destruct (change_of_pn_wf p Hn) as [(c & E & _)|[E|E]]; rewrite E; split; discriminate.
Qed.

(* C17: interpreting place notation yields changes exactly when the text follows the
   grammar, and then the changes it stands for *)
Theorem C17_parse : forall n s cs, n <= 255 ->
  interpret_pn default_symtab n s = Ret cs <-> pn_text default_symtab n s cs.
Proof.
  intros n s cs Hn. split; [|apply interpret_complete].
  intros H. apply (interpret_sound H). intros p. now apply pn_no_ub.
Qed.
Print Assumptions C17_parse.

(* and on any other text it throws: it never fails to return or reads outside the text *)
Theorem C17_total : forall n s, n <= 255 ->
  (exists cs, interpret_pn default_symtab n s = Ret cs /\ pn_text default_symtab n s cs) \/
  ((exists e, interpret_pn default_symtab n s = Throw e) /\ forall cs, ~ pn_text default_symtab n s cs).
Proof.
  intros n s Hn. destruct (interpret_pn default_symtab n s) as [cs|e| |] eqn:E.
  - left. exists cs. split; auto. now apply C17_parse.
  - right. split; eauto. intros cs H. apply (C17_parse s cs Hn) in H. congruence.
  - exfalso. unfold interpret_pn in E.
    destruct (@pn_loop_sound default_symtab n _ (skip_space s) [] (le_n _)) as [(ds & E' & _)|[(e & E')|(p & H)]]; try congruence.
    destruct (@pn_no_ub n p Hn); tauto.
  - exfalso. unfold interpret_pn in E.
    destruct (@pn_loop_sound default_symtab n _ (skip_space s) [] (le_n _)) as [(ds & E' & _)|[(e & E')|(p & H)]]; try congruence.
    destruct (@pn_no_ub n p Hn); tauto.
Qed.
Print Assumptions C17_total.

(* every change is on the number of bells asked for, so what is read is a method the rest of
   the theorems apply to *)
Theorem C17_method : forall n s m, n <= 255 -> method_of_pn default_symtab s n = Ret m ->
  (Z.of_nat (length (mch m)) <= int_max)%Z -> wf_method m /\ mb m = n.
Proof.
  intros n s m Hn E HL. unfold method_of_pn in E. destruct (interpret_pn default_symtab n s) as [cs|e| |] eqn:E'; try discriminate.
  injection E as <-. cbn [mch mb] in *. split; auto. split; [exact Hn|]. split; [exact HL|]. cbn [mch mb].
  apply (C17_parse s cs Hn) in E'. destruct E' as (w & t & _ & H & _). clear -H Hn.
  assert (C : forall s cs, changes_text default_symtab n s cs -> Forall (fun c => cn c = n /\ wf_change c) cs).
  { clear -Hn. intros s0 cs0 H.
    induction H as [|c w s ch cs Hc Ech W H IH|p w s ch cs Hp Ech W Hw H IH]; constructor; auto;
      (match goal with E : change_of_pn _ _ ?p = Ret _ |- _ => destruct (change_of_pn_wf p Hn) as [(c' & E' & W' & N')|[E'|E']]; rewrite E' in E; try discriminate; injection E as <-; auto end). }
  assert (B : forall s cs, block_text default_symtab n s cs -> Forall (fun c => cn c = n /\ wf_change c) cs).
  { intros s0 cs0 X. destruct X as [s1 cs1 X|w1 s1 cs1 _ X|w1 s1 cs1 _ X]; apply C in X; auto.
    apply Forall_app. split; auto. apply Forall_forall. intros c Hc. rewrite Forall_forall in X. apply X. apply in_rev.
    destruct (rev cs1); [destruct Hc|now right]. }
  induction H as [s1 cs1 X|s1 cs1 w1 t1 ds1 X W H IH]; [now apply B in X|]. apply Forall_app. split; auto. now apply B in X.
Qed.
Print Assumptions C17_method.

Example C17_case : exists cs, interpret_pn default_symtab 6 (str " &-16.X.14, + {1}2") = Ret cs /\
  map cswaps cs = [[0;2;4]; [1;3]; [0;2;4]; [1;4]; [0;2;4]; [1;3]; [0;2;4]; [2;4]].
Proof. eexists. split; vm_compute; reflexivity. Qed.
(* nested braces are never closed, whatever follows *)
Example C17_case_nested : interpret_pn default_symtab 6 (str "1{{2}}") = Throw BellInvalid.
Proof. vm_compute. reflexivity. Qed.

(* C18: a method printed with any flags and read back is the same method *)
Theorem C18_roundtrip : forall m flags, wf_method m -> has flags M_OMIT_LH = false ->
  exists s, format default_symtab m flags = Ret s /\ method_of_pn default_symtab s (mb m) = Ret m.
Proof.
  intros m flags WF F. destruct (format_roundtrip WF F) as (s & E & E'). exists s. split; auto.
  unfold method_of_pn. rewrite E'. now destruct m.
Qed.
Print Assumptions C18_roundtrip.

(* with the lead head change left out, all but it is read back *)
Theorem C18_omit_lh : forall m flags, wf_method m -> has flags M_OMIT_LH = true -> mch m <> [] ->
  exists s, format default_symtab m flags = Ret s /\
    method_of_pn default_symtab s (mb m) = Ret (mkMethod (removelast (mch m)) (mb m)).
Proof.
  intros m flags WF F N. destruct (@format_omit_lh m flags WF F) as (s & E & E').
  { destruct (mch m); [congruence|cbn; lia]. }
  exists s. split; auto. unfold method_of_pn. now rewrite E'.
Qed.
Print Assumptions C18_omit_lh.

(* the empty method with the lead head left out reads before the beginning of the vector *)
Theorem C18_empty_refuted : forall n flags, has flags M_OMIT_LH = true -> format default_symtab (mkMethod [] n) flags = UB.
Proof.
  intros n flags F. unfold format, mlen. cbn [mch length Z.of_nat]. rewrite F.
  replace (2 <? 0)%Z with false by reflexivity. rewrite andb_false_r. cbn [bind].
  unfold section, section_loop, mget, mch. vm_compute. reflexivity.
Qed.
Print Assumptions C18_empty_refuted.

Definition plain_bob : method :=
  mkMethod (map (mkChange 6) [[0;2;4]; [1;3]; [0;2;4]; [1;3]; [0;2;4]; [1;3]; [0;2;4]; [1;3]; [0;2;4]; [1;3]; [0;2;4]; [2;4]]) 6.
Lemma plain_bob_wf : wf_method plain_bob.
Proof.
  split; [cbn; lia|]. split; [vm_compute; discriminate|]. cbn [plain_bob mch mb map].
  repeat (apply Forall_cons; [split; [reflexivity|]|]); try apply Forall_nil; unfold wf_change; cbn; intuition lia.
Qed.
Example C18_case : format default_symtab plain_bob M_SYMMETRY = Ret (str "&X1X1X1,2") /\
  format default_symtab plain_bob (M_DASH + M_OMIT_LH + M_EXTERNAL)%Z = Ret (str "-16-16-16-16-16-").
Proof. split; vm_compute; reflexivity. Qed.

(* C19: palindromic about change i means that the changes read forwards and backwards from it,
   round the lead, are the same *)
Theorem C19_palindromic_about : forall m i, wf_method m -> mch m <> [] ->
  exists b, is_palindromic_about m (Z.of_nat i) = Ret b /\ (b = true <-> reflects_about (mch m) i).
Proof. intros m i WF N. apply (pal_about WF). destruct (mch m); [congruence|cbn; lia]. Qed.
Print Assumptions C19_palindromic_about.

Theorem C19_issym : forall m, wf_method m -> exists b, issym m = Ret b /\
  (b = true <-> Nat.even (length (mch m)) = true /\ (mch m = [] \/ reflects_about (mch m) (length (mch m) / 2 - 1))).
Proof.
  intros m WF. destruct (issym_spec WF) as (b & E & H). exists b. split; auto. rewrite H, length_zero_iff_nil. reflexivity.
Qed.
Print Assumptions C19_issym.

(* the symmetry point is the first one, and -1 if there is none or the length is odd *)
Theorem C19_symmetry_point : forall m, wf_method m ->
  (exists p, symmetry_point m = Ret (Z.of_nat p) /\ Nat.even (length (mch m)) = true /\
     least_below (length (mch m) / 2) (reflects_about (mch m)) p) \/
  (symmetry_point m = Ret (-1)%Z /\
     (Nat.even (length (mch m)) = false \/ forall p, p < length (mch m) / 2 -> ~ reflects_about (mch m) p)).
Proof. exact symmetry_point_spec. Qed.
Print Assumptions C19_symmetry_point.

(* so it is found whenever there is a symmetry point anywhere in an even lead: one is half a
   lead from the other *)
Theorem C19_ispalindromic : forall m, wf_method m -> exists b, ispalindromic m = Ret b /\
  (b = true <-> Nat.even (length (mch m)) = true /\ exists i, i < length (mch m) /\ reflects_about (mch m) i).
Proof.
  intros m WF. unfold ispalindromic. set (n := length (mch m)).
  assert (X : forall i, Nat.even n = true -> i < n -> reflects_about (mch m) i -> n / 2 <= i -> reflects_about (mch m) (i - n / 2)).
  { intros i Ev Hi R Hh j Hj. assert (E2 := even_half Ev). unfold reflects_about in R. fold n in R, Hj |- *.
    assert (P : forall k, nth_error (mch m) ((i - n / 2 + k) mod n) = nth_error (mch m) ((i + n / 2 + k) mod n)).
    { intros k. f_equal. replace (i + n / 2 + k) with (i - n / 2 + k + 1 * n) by lia. now rewrite Nat.mod_add by lia. }
    replace (i - n / 2 + n - j) with (i + n / 2 - j) by lia. rewrite P.
    destruct (le_dec (n / 2 + j) n) as [Q|Q].
    - specialize (R (n / 2 + j) Q). rewrite Nat.add_assoc in R. rewrite R.
      replace (i + n - (n / 2 + j)) with (i + n / 2 - j) by lia. reflexivity.
    - specialize (R (j - n / 2) ltac:(lia)). symmetry. replace (i + n / 2 - j) with (i - (j - n / 2)) by lia.
      assert (Y : (i + n / 2 + j) mod n = (i + (j - n / 2)) mod n).
      { replace (i + n / 2 + j) with (i + (j - n / 2) + 1 * n) by lia. now rewrite Nat.mod_add by lia. }
      rewrite Y, R. f_equal. replace (i + n - (j - n / 2)) with (i - (j - n / 2) + 1 * n) by lia. now rewrite Nat.mod_add by lia. }
  destruct (symmetry_point_spec WF) as [(p & E & Ev & H & R & _)|(E & H)]; rewrite E; cbn [bind]; eexists; (split; [reflexivity|]).
  - destruct (Z.eqb_spec (Z.of_nat p) (-1)); [lia|]. cbn [negb]. split; auto. intros _. split; auto. exists p. split; auto.
    fold n in Ev, H |- *. assert (Q := even_half Ev). lia.
  - cbn. split; [discriminate|]. intros [Ev (i & Hi & R)]. exfalso. destruct H as [H|H]; [fold n in Ev, H; congruence|].
    fold n in Ev, Hi, H. assert (E2 := even_half Ev). destruct (lt_dec i (n / 2)) as [Q|Q]; [now apply (H i Q)|].
    apply (H (i - n / 2)); [lia|]. apply X; auto. lia.
Qed.
Print Assumptions C19_ispalindromic.

Lemma pairs_ok_ext lo lo' n l l' : pairs_ok lo n l -> pairs_ok lo' n l' -> (forall i, i < n -> swap_pos l i = swap_pos l' i) -> l = l'.
Proof.
  revert lo lo' l'. induction l as [|s t IH]; intros lo lo' l' W W' H.
  - destruct l' as [|s' t']; auto. exfalso. assert (Hs := W'). cbn in Hs.
    specialize (H s'). rewrite swap_pos_nil, swap_pos_in in H by now left. lia.
  - assert (Hs := W). cbn in Hs. destruct l' as [|s' t'].
    { exfalso. specialize (H s). rewrite swap_pos_nil, swap_pos_in in H by now left. lia. }
    assert (Hs' := W'). cbn in Hs'.
    assert (A : In s (s' :: t')).
    { destruct (swap_pos_cases s W') as [[X _]|[(j & E & X & E')|(_ & _ & E')]]; auto; exfalso;
        specialize (H s); rewrite E', (@swap_pos_in (s :: t)) in H by (now left); lia. }
    assert (B : In s' (s :: t)).
    { destruct (swap_pos_cases s' W) as [[X _]|[(j & E & X & E')|(_ & _ & E')]]; auto; exfalso;
        specialize (H s'); rewrite E', (@swap_pos_in (s' :: t')) in H by (now left); lia. }
    assert (ES : s = s').
    { destruct A as [A|A]; [auto|]. destruct B as [B|B]; [auto|]. apply (pairs_ok_in (proj2 (proj2 Hs'))) in A.
      apply (pairs_ok_in (proj2 (proj2 Hs))) in B. lia. }
    clear A B. subst s'. f_equal. apply (IH (s + 2) (s + 2) t'); try tauto. intros i Hi. destruct (le_dec (s + 2) i) as [Q|Q].
    + assert (Z : forall u, swap_pos (s :: u) i = swap_pos u i).
      { intros u. unfold swap_pos. destruct (in_dec Nat.eq_dec i (s :: u)) as [C|C]; destruct (in_dec Nat.eq_dec i u) as [D|D]; auto.
        - destruct C; [lia|contradiction].
        - exfalso. apply C. now right.
        - destruct (in_dec Nat.eq_dec (i - 1) (s :: u)) as [C'|C']; destruct (in_dec Nat.eq_dec (i - 1) u) as [D'|D']; auto.
          + destruct C'; [lia|contradiction].
          + exfalso. apply C'. now right. }
      rewrite <- (Z t), <- (Z t'). now apply H.
    + rewrite !swap_pos_out; auto.
      * intros C. apply (pairs_ok_in (proj2 (proj2 Hs'))) in C. lia.
      * right. intros C. apply (pairs_ok_in (proj2 (proj2 Hs'))) in C. lia.
      * intros C. apply (pairs_ok_in (proj2 (proj2 Hs))) in C. lia.
      * right. intros C. apply (pairs_ok_in (proj2 (proj2 Hs))) in C. lia.
Qed.

(* double: each half is the other one upside down *)
Theorem C19_isdouble : forall m, wf_method m -> exists b, isdouble m = Ret b /\
  (b = true <-> Nat.even (length (mch m)) = true /\
     forall i, i < length (mch m) / 2 -> exists c d, nth_error (mch m) i = Some c /\
       nth_error (mch m) (length (mch m) / 2 + i) = Some d /\
       forall x, x < mb m -> swap_pos (cswaps c) x = mb m - 1 - swap_pos (cswaps d) (mb m - 1 - x)).
Proof.
  intros m WF. destruct (isdouble_spec WF) as (b & E & H). exists b. split; [exact E|]. rewrite H. clear b E H.
  assert (Hb := proj1 WF). assert (F := proj2 (proj2 WF)). rewrite Forall_forall in F.
  assert (X : forall c d, In c (mch m) -> In d (mch m) ->
    c = change_reverse d <-> forall x, x < mb m -> swap_pos (cswaps c) x = mb m - 1 - swap_pos (cswaps d) (mb m - 1 - x)).
  { intros c d Hc Hd. destruct (F c Hc) as [Nc Wc]. destruct (F d Hd) as [Nd Wd].
    assert (Q : forall x, x < mb m -> swap_pos (cswaps (change_reverse d)) x = mb m - 1 - swap_pos (cswaps d) (mb m - 1 - x)).
    { intros x Hx. rewrite <- Nd. rewrite <- reverse_swap_pos by (auto; lia). f_equal. lia. }
    split; [intros ->; exact Q|]. intros P.
    assert (W : wf_change (change_reverse d)) by (apply reverse_wf; auto; lia).
    assert (Nr : cn (change_reverse d) = mb m) by (rewrite <- Nd; reflexivity).
    destruct c as [nc lc]. destruct (change_reverse d) as [nd ld]. unfold wf_change in *. cbn [cn cswaps] in *. subst nc nd. f_equal.
    apply (pairs_ok_ext Wc W). intros x Hx. rewrite P, Q by exact Hx. reflexivity. }
  split; intros [Ev H]; (split; [exact Ev|]); intros i Hi; destruct (H i Hi) as (c & d & Ec & Ed & R); exists c, d;
    (split; [exact Ec|split; [exact Ed|]]); apply X; auto; eapply nth_error_In; eauto.
Qed.
Print Assumptions C19_isdouble.

(* the path of a hunt bell *)
Theorem C19_bell_palindromic_about : forall m x i, wf_method m -> hunt_bell (mch m) x ->
  Nat.even (length (mch m)) = true -> i < length (mch m) / 2 ->
  exists b, is_palindromic_about_bell m x (Z.of_nat i) = Ret b /\ (b = true <-> path_reflects_about (mch m) x i).
Proof.
  intros m x i WF H Ev Hi. apply (pal_bell_spec WF H Ev); auto.
  destruct (length (mch m)); [cbn in Hi; lia|lia].
Qed.
Print Assumptions C19_bell_palindromic_about.

Theorem C19_bell_issym : forall m x, wf_method m -> hunt_bell (mch m) x -> mch m <> [] ->
  exists b, issym_bell m x = Ret b /\
    (b = true <-> Nat.even (length (mch m)) = true /\ path_reflects_about (mch m) x (length (mch m) / 2 - 1)).
Proof. intros m x WF H N. apply (issym_bell_spec WF H). destruct (mch m); [congruence|cbn; lia]. Qed.
Print Assumptions C19_bell_issym.

(* an odd length is a failed assertion, not -1 *)
Theorem C19_bell_symmetry_point : forall m x, wf_method m -> hunt_bell (mch m) x ->
  Nat.even (length (mch m)) = false /\ symmetry_point_bell m x = Throw AssertFailed \/
  Nat.even (length (mch m)) = true /\
  ((exists p, symmetry_point_bell m x = Ret (Z.of_nat p) /\ least_below (length (mch m) / 2) (path_reflects_about (mch m) x) p) \/
   (symmetry_point_bell m x = Ret (-1)%Z /\ forall p, p < length (mch m) / 2 -> ~ path_reflects_about (mch m) x p)).
Proof. intros m x WF H. exact (symmetry_point_bell_spec WF H). Qed.
Print Assumptions C19_bell_symmetry_point.

(* the empty method: a remainder by zero *)
Theorem C19_empty_refuted : forall n x, issym_bell (mkMethod [] n) x = UB.
Proof. reflexivity. Qed.
Print Assumptions C19_empty_refuted.

Example C19_case : issym plain_bob = Ret true /\ symmetry_point plain_bob = Ret 5%Z /\
  isdouble plain_bob = Ret false /\ symmetry_point_bell plain_bob 0 = Ret 5%Z /\ hunt_bell (mch plain_bob) 0 /\ wf_method plain_bob.
Proof. repeat split; try (vm_compute; reflexivity); apply plain_bob_wf. Qed.

(* C20: the lead head shows, in the place each bell has reached, that bell *)
Theorem C20_lh : forall m, wf_method m -> exists r, lh m = Ret r /\ row256 r /\ length r = mb m /\
  forall x, x < mb m -> act r (path (mch m) x (length (mch m))) = x.
Proof. exact lh_spec. Qed.
Print Assumptions C20_lh.

Theorem C20_huntbells : forall m, wf_method m ->
  huntbells m = Ret (length (filter (fun x => path (mch m) x (length (mch m)) =? x) (seq 0 (mb m)))).
Proof. exact huntbells_spec. Qed.
Print Assumptions C20_huntbells.

(* k leads bring every bell home *)
Definition comes_round (m : method) (k : nat) : Prop :=
  forall x, x < mb m -> path (mch m) x (k * length (mch m)) = x.

(* the number of leads in the plain course; beyond 58 bells only if it returns, as order may
   overflow *)
Theorem C20_leads : forall m, wf_method m -> mch m <> [] -> mb m <= 58 ->
  exists k, leads default_symtab m = Ret (Z.of_nat k) /\ 0 < k /\ comes_round m k /\ forall j, 0 < j < k -> ~ comes_round m j.
Proof.
  intros m WF N H58. assert (N' : 0 < length (mch m)) by (destruct (mch m); [congruence|cbn; lia]).
  destruct (lh_spec WF) as (r & E & R & Lr & _). unfold leads. rewrite E. cbn [bind].
  destruct (@order_least_58 r R) as (k & K & Eo & H & Hl); [unfold row in *; lia|].
  exists k. split; [exact Eo|]. split; [exact K|]. split; [exact (proj1 (leads_rounds WF k E N') H)|].
  intros j Hj C. generalize (proj2 (leads_rounds WF j E N') C); clear C; intros C. destruct (Hl j Hj) as (i & X). now apply X.
Qed.
Print Assumptions C20_leads.
Theorem C20_leads_if_returned : forall m o, wf_method m -> mch m <> [] -> leads default_symtab m = Ret o ->
  exists k, o = Z.of_nat k /\ 0 < k /\ comes_round m k /\ forall j, 0 < j < k -> ~ comes_round m j.
Proof.
  intros m o WF N. assert (N' : 0 < length (mch m)) by (destruct (mch m); [congruence|cbn; lia]).
  destruct (lh_spec WF) as (r & E & R & Lr & _). unfold leads. rewrite E. cbn [bind]. intros Eo.
  destruct (@order_least r o R Eo) as (k & K & -> & H & Hl).
  exists k. split; [reflexivity|]. split; [exact K|]. split; [exact (proj1 (leads_rounds WF k E N') H)|].
  intros j Hj C. generalize (proj2 (leads_rounds WF j E N') C); clear C; intros C. destruct (Hl j Hj) as (i & X). now apply X.
Qed.
Print Assumptions C20_leads_if_returned.

Example C20_case : lh plain_bob = Ret [0;2;4;1;5;3] /\ huntbells plain_bob = Ret 1 /\ leads default_symtab plain_bob = Ret 5%Z.
Proof. repeat split; vm_compute; reflexivity. Qed.

(* C45: a bell plain hunts if it never dodges, makes just two places (where it turns) and comes
   home at the lead end *)
Theorem C45_isplain : forall m x, wf_method m -> x < mb m ->
  isplain m x = true <-> hunt_bell (mch m) x /\ places_made (mch m) x (length (mch m)) = 2 /\
    forall k, k < length (mch m) -> keeps_direction (mch m) x k.
Proof. intros m x WF H. exact (isplain_spec WF H). Qed.
Print Assumptions C45_isplain.

(* a dodge: back to where it was two blows before, also across the lead end *)
Theorem C45_hasdodges : forall m x, wf_method m -> x < mb m -> mch m <> [] ->
  exists b, hasdodges m x = Ret b /\
    (b = true <-> exists k, 1 <= k <= length (mch m) /\
       path (mch m) x (k + 1) = path (mch m) x (k - 1) /\ path (mch m) x (k + 1) <> path (mch m) x k).
Proof. intros m x WF H N. apply (hasdodges_spec WF H). destruct (mch m); [congruence|cbn; lia]. Qed.
Print Assumptions C45_hasdodges.

(* a place not at the front or the back *)
Theorem C45_hasplaces : forall m x, wf_method m ->
  hasplaces m x = true <-> exists k, k < length (mch m) /\ path (mch m) x (k + 1) = path (mch m) x k /\
    0 < path (mch m) x k /\ path (mch m) x k + 1 < mb m.
Proof. intros m x WF. exact (hasplaces_spec WF x). Qed.
Print Assumptions C45_hasplaces.

(* the most blows in one place, cyclically: k changes making a place are k+1 blows *)
Theorem C45_maxblows : forall m k, wf_method m -> 1 <= k <= length (mch m) ->
  (Z.of_nat k + 1 <= maxblows m)%Z <-> exists s p, s < length (mch m) /\ p < mb m /\ blows_in (mch m) p s k.
Proof. intros m k WF H. exact (maxblows_spec WF H). Qed.
Print Assumptions C45_maxblows.
Theorem C45_maxblows_bound : forall m, wf_method m -> (maxblows m <= Z.of_nat (length (mch m)) + 1)%Z.
Proof. exact maxblows_bound. Qed.
Print Assumptions C45_maxblows_bound.
(* a method in which no place is made is said to have -1 blows, not 1 *)
Theorem C45_maxblows_none_refuted : forall m, wf_method m ->
  (forall s p, s < length (mch m) -> p < mb m -> ~ blows_in (mch m) p s 1) -> maxblows m = (-1)%Z.
Proof. exact maxblows_none. Qed.
Print Assumptions C45_maxblows_none_refuted.

Example C45_case : isplain plain_bob 0 = true /\ isplain plain_bob 1 = false /\ hasdodges plain_bob 0 = Ret false /\
  hasdodges plain_bob 1 = Ret true /\ hasplaces plain_bob 2 = true /\ hasplaces plain_bob 0 = false /\ maxblows plain_bob = 2%Z.
Proof. repeat split; vm_compute; reflexivity. Qed.
