(* P_MethSearch8.v - the search of methsearch: from the options as checked0. *)
From Verif Require Import Base M_Bell M_Change M_Math M_Row M_PN M_Method M_Proof M_MethSearch
  Spec_Row Spec_Change Spec_Proof Spec_MethSearch I_MethSearch P_Row P_Change2 P_Change3 P_Method P_Proof P_MethSearch P_MethSearch2 P_MethSearch3 P_MethSearch4 P_MethSearch5
  P_MethSearch6 P_MethSearch7.
From Coq Require Import Permutation.
Set Implicit Arguments.
Unset Strict Implicit.
Open Scope nat_scope.

Section A.
Variable A : sargs.
Notation L := (sa_len A).
Hypothesis CK : checked0 A.

Lemma ck_sane : sane A.
Proof.
  destruct CK as [H1 H2 H3 H4 H5 H6 H7 H8 H9 H10 H11 H12 H13 H14]. constructor; auto.
  - apply Forall_forall. intros l I. split; [intros ->; contradiction|]. apply Forall_forall. intros c Ic. unfold wfc. eauto.
  - intros F K. now apply H11.
Qed.
Lemma ck_s4 : sa_floating A = false -> sa_skewsym A = true -> 4 < L.
Proof. intros F K. now apply (ck0_skew CK). Qed.
Lemma ck_st : start_true A.
Proof.
  intros U. apply excess_zero; [pose proof (ck0_extents CK); lia|]. intros r. pose proof (@ck0_true A CK U r) as H.
  assert (P : Permutation (sa_start A :: rev (sa_avoid A)) (sa_avoid A ++ [sa_start A])).
  { eapply Permutation_trans; [|apply Permutation_cons_append]. apply perm_skip, Permutation_sym, Permutation_rev. }
  rewrite (cnt_perm r P). exact H.
Qed.

Lemma at_most_limited l : @limited A (list change) l = at_most (sa_limit A) l.
Proof. reflexivity. Qed.

Lemma search_result : exists s, run_search A = Ret s /\ ss_m s = [] /\
  exists found, NoDup found /\ (forall M, In M found <-> wanted0 A M) /\
    ss_count s = length (at_most (sa_limit A) found) /\ ss_out s = if sa_invert A then [] else at_most (sa_limit A) found.
Proof.
  destruct (run_search_spec ck_sane ck_st) as (s & E & M & C & O). exists s. split; [exact E|]. split; [exact M|]. exists (all_found A). split; [apply outs_nodup, CK|].
  split; [intros x; apply found_wanted; [apply ck_sane|apply ck_s4|apply ck_st]|]. auto.
Qed.

Lemma wanted_wf M : wanted0 A M -> Forall (wfc A) M.
Proof.
  intros W. apply (@found_wanted A ck_sane ck_s4 M ck_st) in W. apply (outs_all ck_sane ck_s4) in W as (LM & P & _).
  apply (outs_wf ck_sane ck_s4) in P. now apply (all_wf_forall ck_s4 LM) in P.
Qed.

Lemma hit_tells : tells0 A (hit A).
Proof. intros x Lx Wx. apply hit_spec; auto using ck_sane, ck_st. - apply ck_s4. - apply CK. - apply Forall_forall. intros c I. now apply Wx. Qed.

Lemma lib_right lib : right_bells A lib -> lib_ok A lib.
Proof. intros H x I Lx. apply Forall_forall. intros c Ic. now apply (H x I Lx). Qed.

Lemma hit_filter f lib : tells0 A f -> right_bells A lib -> forall g, given A (fun x => g (hit A x)) lib = filter (fun x => (length x =? L) && g (f x)) lib.
Proof.
  intros T R g. unfold given. induction lib as [|x lib IH]; [reflexivity|]. cbn [filter]. assert (R' : right_bells A lib) by (intros y I; apply R; now right). specialize (IH R').
  destruct (Nat.eqb_spec (length x) L) as [E|N]; cbn [andb filter]; [|exact IH].
  assert (hit A x = f x) as ->.
  { apply Bool.eq_iff_eq_true. rewrite (hit_tells E), (T x E); [reflexivity|apply (R x (or_introl eq_refl) E)|apply (R x (or_introl eq_refl) E)]. }
  rewrite IH. destruct (g (f x)); reflexivity.
Qed.

Lemma filter_result f lib : tells0 A f -> right_bells A lib -> sa_invert A = false -> exists s, run_filter A lib = Ret s /\
  ss_out s = at_most (sa_limit A) (filter (fun x => (length x =? L) && f x) lib) /\ ss_count s = length (ss_out s).
Proof.
  intros T R IV. destruct (reset_spec ck_sane ck_st) as (s0 & E0 & K0 & M0 & C0 & O0 & _). unfold run_filter. rewrite E0. cbn [bind].
  destruct (@filter_plain A ck_sane ck_s4 (ck0_twice CK) ck_st lib IV (lib_right R) s0 K0 M0) as (s & E & EM). exists s. split; [exact E|].
  rewrite C0, O0, (emit_out ck_sane) in EM by (right; lia). rewrite IV, Nat.sub_0_r in EM. cbn [app] in EM. assert (U : given A (hit A) lib = filter (fun x => (length x =? L) && f x) lib) by exact (@hit_filter f lib T R (fun b => b)). rewrite U in EM. injection EM as -> ->. unfold at_most. destruct (sa_limit A =? 0); auto.
Qed.

Definition unwanted (f : list change -> bool) (lib : list (list change)) := filter (fun x => (length x =? L) && negb (f x)) lib.

Lemma invert_result f lib : tells0 A f -> right_bells A lib -> sa_invert A = true -> sa_limit A = 0 \/ length (unwanted f lib) < sa_limit A ->
  exists s, run_filter A lib = Ret s /\ ss_out s = unwanted f lib /\ ss_count s = length (ss_out s).
Proof.
  intros T R IV B. destruct (reset_spec ck_sane ck_st) as (s0 & E0 & K0 & M0 & C0 & O0 & _). unfold run_filter. rewrite E0. cbn [bind].
  assert (U := @hit_filter f lib T R negb). fold (unwanted f lib) in U.
  destruct (@invert_run A ck_sane ck_s4 (ck0_twice CK) ck_st lib [] IV (lib_right R) s0 K0 M0) as (s & E & _ & _ & C & O).
  { unfold unhit. rewrite U, C0. cbn [plus]. tauto. }
  rewrite app_nil_r in E. exists s. cbn [filter_loop] in E. split; [exact E|]. unfold unhit in C, O. rewrite U in C, O. rewrite C, O, C0, O0. auto.
Qed.

Lemma invert_limit f a y x b : tells0 A f -> right_bells A (a ++ y :: x :: b) -> sa_invert A = true -> length y = L -> length x = L ->
  f y = false -> S (length (unwanted f a)) = sa_limit A ->
  exists s, run_filter A (a ++ y :: x :: b) = Ret s /\ ss_out s = unwanted f a ++ [y; x] ++ unwanted f b /\ ss_count s = length (ss_out s).
Proof.
  intros T R IV Ly Lx Fy B. destruct (reset_spec ck_sane ck_st) as (s0 & E0 & K0 & M0 & C0 & O0 & _). unfold run_filter. rewrite E0. cbn [bind].
  assert (Ra : right_bells A a) by (intros z I; apply R, in_or_app; now left).
  assert (Rb : right_bells A b) by (intros z I; apply R, in_or_app; right; right; now right).
  assert (Wy : Forall (wfc A) y) by (apply (lib_right R); [apply in_or_app; right; now left|exact Ly]).
  assert (Wx : Forall (wfc A) x) by (apply (lib_right R); [apply in_or_app; right; right; now left|exact Lx]).
  assert (Ua := @hit_filter f a T Ra negb). fold (unwanted f a) in Ua. assert (Ub := @hit_filter f b T Rb negb). fold (unwanted f b) in Ub.
  destruct (@invert_run A ck_sane ck_s4 (ck0_twice CK) ck_st a (y :: x :: b) IV (lib_right Ra) s0 K0 M0) as (s & -> & Ks & Ms & C & O).
  { unfold unhit. rewrite Ua, C0. lia. }
  unfold unhit in C, O. rewrite Ua in C, O. rewrite C0, O0 in *. cbn [app plus] in C, O.
  destruct (@invert_one A ck_sane ck_s4 (ck0_twice CK) ck_st y s IV Ks Ms Ly Wy (x :: b)) as (s2 & -> & K2 & M2 & C2 & O2).
  assert (HY : unhit A y = true).
  { unfold unhit. apply negb_true_iff. apply Bool.not_true_is_false. intros H. apply hit_tells in H; [|exact Ly|intros c I; rewrite Forall_forall in Wy; now apply Wy].
    apply (T y Ly) in H; [congruence|]. intros c I; rewrite Forall_forall in Wy; now apply Wy. }
  rewrite HY in C2, O2. cbn [orb] in C2, O2.
  destruct (@invert_one A ck_sane ck_s4 (ck0_twice CK) ck_st x s2 IV K2 M2 Lx Wx b) as (s3 & -> & K3 & M3 & C3 & O3).
  rewrite C2, C, B, Nat.eqb_refl, <- B in C3, O3. cbn [Nat.eqb negb andb] in C3, O3. rewrite orb_true_r in C3, O3.
  destruct (@invert_run A ck_sane ck_s4 (ck0_twice CK) ck_st b [] IV (lib_right Rb) s3 K3 M3) as (s4 & E4 & _ & _ & C4 & O4).
  { right. left. rewrite C3. lia. }
  rewrite app_nil_r in E4. exists s4. cbn [filter_loop] in E4. split; [exact E4|]. unfold unhit in C4, O4. rewrite Ub in C4, O4.
  rewrite C4, O4, C3, O3, O2, O. rewrite <- !app_assoc. cbn [app]. split; [reflexivity|]. rewrite app_length. cbn [length]. lia.
Qed.
End A.
