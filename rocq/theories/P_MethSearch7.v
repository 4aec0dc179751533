(* P_MethSearch7.v - the search of methsearch: filters. *)
From Verif Require Import Base M_Bell M_Change M_Math M_Row M_PN M_Method M_Proof M_MethSearch
  Spec_Row Spec_Change Spec_Proof Spec_MethSearch I_MethSearch P_Row P_Change2 P_Change3 P_Method P_Proof P_MethSearch P_MethSearch2 P_MethSearch3 P_MethSearch4 P_MethSearch5.
Set Implicit Arguments.
Unset Strict Implicit.
Open Scope nat_scope.

Section A.
Variable A : sargs.
Notation L := (sa_len A).
Hypothesis SN : sane A.
Hypothesis S4 : sa_floating A = false -> sa_skewsym A = true -> 4 < L.
Hypothesis ND : Forall (@NoDup change) (sa_allowed A).
Hypothesis ST : start_true A.

Lemma same_changes_eq a : Forall (wfc A) a -> forall b, Forall (wfc A) b -> (same_changes a b = true <-> a = b).
Proof.
  induction 1 as [|x a [_ X] Ha IH]; intros [|y b] Hb; cbn [same_changes]; try (split; congruence).
  inversion_clear Hb as [|? ? [_ Y] Hb']. rewrite andb_true_iff, (change_eqb_wf X Y), (IH b Hb'). split; [intros [-> ->]|intros [= -> ->]]; auto.
Qed.

Lemma pos_ok_flt x M i : Forall (wfc A) x -> (x = [] \/ x = M) -> (forall j c, nth_error M j = Some c -> wfc A c) ->
  (pos_ok A (srcf A) x M i <-> pos_ok A (srcf A) [] M i).
Proof.
  intros Wx E WM. destruct E as [->|<-]; [reflexivity|]. unfold pos_ok. destruct (srcf A i) as [[k r]|]; [reflexivity|].
  split; intros [P (c & N & I & T)]; (split; [exact P|]; exists c; split; [exact N|]; split; [exact I|]);
    unfold try_change in *; repeat rewrite andb_true_iff in *; destruct T as ((((((T1 & T2) & T3) & T4) & T5) & T6) & T7); repeat split; auto.
  - now destruct (length (firstn i x)).
  - assert (Hi : i < length x) by (apply nth_error_Some; congruence). rewrite firstn_length, Nat.min_l by lia. rewrite N.
    apply change_eqb_wf; [apply (WM _ _ N)..|reflexivity].
Qed.
Lemma pos_ok_weak x M i : pos_ok A (srcf A) x M i -> pos_ok A (srcf A) [] M i.
Proof.
  unfold pos_ok. destruct (srcf A i) as [[k r]|]; [auto|]. intros [P (c & N & I & T)]. split; [exact P|]. exists c. split; [exact N|]. split; [exact I|].
  unfold try_change in *; repeat rewrite andb_true_iff in *; destruct T as ((((((T1 & T2) & T3) & T4) & T5) & T6) & T7); repeat split; auto. now destruct (length (firstn i M)).
Qed.

Lemma all_wf_forall M : length M = L -> (all_wf A M <-> Forall (wfc A) M).
Proof.
  intros LM. unfold all_wf. rewrite Forall_forall. split.
  - intros H c I. apply In_nth_error in I as (i & N). destruct (H i) as (c' & N' & W); [rewrite <- LM; apply nth_error_Some; congruence|]. congruence.
  - intros H i Hi. destruct (nth_error M i) as [c|] eqn:N; [|apply nth_error_None in N; lia]. exists c. split; [reflexivity|]. apply H. eapply nth_error_In; eauto.
Qed.

(* does the filter find x *)
Definition hit (x : list change) : bool := match outs A (S L) x [] with [] => false | _ => true end.

Lemma hit_spec x : length x = L -> Forall (wfc A) x -> outs A (S L) x [] = (if hit x then [x] else []) /\ (hit x = true <-> wanted0 A x).
Proof.
  intros LX WX. pose proof (sn_len SN) as L1. assert (NX : x <> []) by (destruct x; [cbn in LX; lia|congruence]).
  assert (FX : forall M, final A x M = same_changes x M && sa_accept A M) by (intros M; unfold final; destruct x; [congruence|reflexivity]).
  assert (H1 : forall M, In M (outs A (S L) x []) -> M = x).
  { intros M I. apply (outs_all SN S4) in I as (LM & P & _ & F). rewrite FX in F. apply andb_prop in F as [F _].
    symmetry. apply same_changes_eq; [exact WX| |exact F]. apply all_wf_forall; [exact LM|]. apply (outs_wf SN S4). intros i Hi. apply pos_ok_weak with x, P, Hi. }
  assert (H2 : In x (outs A (S L) x []) <-> wanted0 A x).
  { rewrite <- (@found_wanted A SN S4) by exact ST. unfold all_found. rewrite !(outs_all SN S4), FX. assert (E : same_changes x x = true) by (apply same_changes_eq; auto). rewrite E. unfold final. cbn [andb].
    assert (Q : forall i, pos_ok A (srcf A) x x i <-> pos_ok A (srcf A) [] x i).
    { intros i. apply pos_ok_flt; auto. intros j c N. rewrite Forall_forall in WX. apply WX. eapply nth_error_In; eauto. }
    split; intros (? & P & ?); (split; [assumption|]; split; [|assumption]); intros i Hi; apply Q, P, Hi. }
  assert (N := @outs_nodup A x ND (S L) []). unfold hit. destruct (outs A (S L) x []) as [|y l].
  - split; [reflexivity|]. rewrite <- H2. split; [discriminate|intros []].
  - assert (y = x) by (apply H1; now left). subst y. split; [|rewrite <- H2; split; [intros _; now left|reflexivity]].
    destruct l as [|z l]; [reflexivity|]. exfalso. inversion_clear N as [|? ? NI _]. apply NI. left. apply H1. right. now left.
Qed.

(* one method of the library *)
Lemma filter_one x s : K A s -> ss_m s = [] -> length x = L -> Forall (wfc A) x ->
  exists s', general_recurse A (S L) x s = Ret s' /\ K A s' /\ ss_m s' = [] /\
    (ss_count s', ss_out s') = emit A (if hit x then [x] else []) (ss_count s, ss_out s).
Proof.
  intros Ks M LX WX. destruct (@reset_spec A SN ST) as (s0 & _ & _ & _ & _ & _ & T0).
  destruct (@refine A SN x (S L) s Ks) as (s' & E & Ks' & M' & EM).
  - now rewrite M.
  - rewrite M. split; cbn [length]; lia.
  - lia.
  - exists s'. split; [exact E|]. split; [exact Ks'|]. split; [congruence|]. rewrite EM, M. f_equal. apply hit_spec; assumption.
Qed.

Definition lib_ok (lib : list (list change)) : Prop := forall x, In x lib -> length x = L -> Forall (wfc A) x.
Definition given (f : list change -> bool) (lib : list (list change)) : list (list change) := filter f (filter (fun x => length x =? L) lib).

Lemma K_reset s c o : K A s -> ss_m s = [] -> K A (mkSst [] (ss_div s) (ss_r s) (ss_prv s) c o).
Proof. destruct s as [m d r p c0 o0]. cbn [ss_m ss_div ss_r ss_prv]. intros H ->. exact H. Qed.

Lemma given_cons_skip f x lib : length x <> L -> given f (x :: lib) = given f lib.
Proof. intros N. unfold given. cbn [filter]. destruct (Nat.eqb_spec (length x) L); [contradiction|reflexivity]. Qed.
Lemma given_cons f x lib : length x = L -> given f (x :: lib) = if f x then x :: given f lib else given f lib.
Proof. intros N. unfold given. cbn [filter]. rewrite (proj2 (Nat.eqb_eq _ _) N). reflexivity. Qed.
Lemma lib_tail x lib : lib_ok (x :: lib) -> lib_ok lib.
Proof. intros H y I. apply H. now right. Qed.

(* not inverted: with the limit *)
Lemma filter_plain lib : sa_invert A = false -> lib_ok lib -> forall s, K A s -> ss_m s = [] ->
  exists s', filter_loop A lib s = Ret s' /\ (ss_count s', ss_out s') = emit A (given hit lib) (ss_count s, ss_out s).
Proof.
  intros IV. induction lib as [|x lib IH]; intros LO s Ks M; cbn [filter_loop].
  - exists s. auto.
  - destruct (Nat.eqb_spec (length x) L) as [LX|LX]; cbn [negb].
    + destruct (@filter_one x s Ks M LX) as (s1 & E1 & K1 & M1 & EM); [apply LO; [now left|exact LX]|]. rewrite E1. cbn [bind]. rewrite M1, IV.
      destruct (IH (lib_tail LO) s1 K1 M1) as (s2 & E2 & EM2). exists s2. split; [exact E2|]. rewrite EM2, EM, given_cons by exact LX. destruct (hit x); reflexivity.
    + rewrite given_cons_skip by exact LX. apply IH; auto. now apply lib_tail in LO.
Qed.

(* inverted *)
Definition unhit x := negb (hit x).
(* when the limit is not met *)
Lemma invert_one x s : sa_invert A = true -> K A s -> ss_m s = [] -> length x = L -> Forall (wfc A) x ->
  forall rest, exists s', filter_loop A (x :: rest) s = filter_loop A rest s' /\ K A s' /\ ss_m s' = [] /\
    let out := unhit x || (negb (sa_limit A =? 0) && (ss_count s =? sa_limit A)) in
    ss_count s' = (if out then S (ss_count s) else ss_count s) /\ ss_out s' = (if out then ss_out s ++ [x] else ss_out s).
Proof.
  intros IV Ks M LX WX rest. cbn [filter_loop]. rewrite (proj2 (Nat.eqb_eq _ _) LX). cbn [negb].
  destruct (@filter_one x s Ks M LX WX) as (s1 & E1 & K1 & M1 & EM). rewrite E1. cbn [bind]. rewrite M1, IV. unfold unhit.
  assert (Q : (ss_count s1, ss_out s1) = if hit x && negb (negb (sa_limit A =? 0) && (ss_count s =? sa_limit A)) then (S (ss_count s), ss_out s) else (ss_count s, ss_out s)).
  { rewrite EM. destruct (hit x); cbn [andb]; [|reflexivity]. unfold emit. cbn [fold_left]. unfold lim. cbn [fst snd]. rewrite IV. destruct (negb (sa_limit A =? 0) && (ss_count s =? sa_limit A)); reflexivity. }
  clear EM. destruct (hit x), (negb (sa_limit A =? 0) && (ss_count s =? sa_limit A)); cbn [andb negb orb] in *; injection Q as Qc Qo; rewrite Qc, Qo.
  - rewrite Nat.eqb_refl. cbn [orb negb]. eexists. split; [reflexivity|]. cbn [ss_count ss_out ss_m]. repeat split; try (apply K_reset; assumption); rewrite ?Qc, ?Qo; reflexivity.
  - rewrite Nat.eqb_refl, orb_true_r. cbn [negb]. destruct (Nat.eqb_spec (S (ss_count s)) (ss_count s)); [lia|]. eexists. split; [reflexivity|]. cbn [ss_count ss_out ss_m]. repeat split; try (apply K_reset; assumption); rewrite ?Qc, ?Qo; lia || reflexivity.
  - rewrite Nat.eqb_refl. cbn [orb negb]. eexists. split; [reflexivity|]. cbn [ss_count ss_out ss_m]. repeat split; try (apply K_reset; assumption); rewrite ?Qc, ?Qo; reflexivity.
  - rewrite Nat.eqb_refl. cbn [orb negb]. eexists. split; [reflexivity|]. cbn [ss_count ss_out ss_m]. repeat split; try (apply K_reset; assumption); rewrite ?Qc, ?Qo; reflexivity.
Qed.

Lemma filter_skip x s rest : length x <> L -> filter_loop A (x :: rest) s = filter_loop A rest s.
Proof. intros N. cbn [filter_loop]. destruct (Nat.eqb_spec (length x) L); [contradiction|reflexivity]. Qed.

(* as long as the limit is not met *)
Lemma invert_run lib rest : sa_invert A = true -> lib_ok lib -> forall s, K A s -> ss_m s = [] ->
  (sa_limit A = 0 \/ sa_limit A < ss_count s \/ ss_count s + length (given unhit lib) < sa_limit A) ->
  exists s', filter_loop A (lib ++ rest) s = filter_loop A rest s' /\ K A s' /\ ss_m s' = [] /\
    ss_count s' = ss_count s + length (given unhit lib) /\ ss_out s' = ss_out s ++ given unhit lib.
Proof.
  intros IV. induction lib as [|x lib IH]; intros LO s Ks M B; cbn [app].
  - exists s. cbn. rewrite Nat.add_0_r, app_nil_r. auto.
  - destruct (Nat.eq_dec (length x) L) as [LX|LX].
    + destruct (@invert_one x s IV Ks M LX (LO x (or_introl eq_refl) LX) (lib ++ rest)) as (s1 & E1 & K1 & M1 & C1 & O1). rewrite E1.
      rewrite given_cons in * by exact LX.
      assert (NL : negb (sa_limit A =? 0) && (ss_count s =? sa_limit A) = false).
      { destruct (Nat.eqb_spec (sa_limit A) 0); [reflexivity|]. cbn [negb andb]. apply Nat.eqb_neq. destruct (unhit x); cbn [length] in B; lia. }
      rewrite NL, orb_false_r in C1, O1. destruct (IH (lib_tail LO) s1 K1 M1) as (s2 & E2 & K2 & M2 & C2 & O2).
      { rewrite C1. destruct (unhit x); cbn [length] in *; lia. }
      exists s2. split; [exact E2|]. split; [exact K2|]. split; [exact M2|]. rewrite C2, O2, C1, O1. destruct (unhit x); cbn [length]; [|auto]. split; [lia|now rewrite <- app_assoc].
    + rewrite filter_skip, given_cons_skip in * by exact LX. apply IH; auto. now apply lib_tail in LO.
Qed.
End A.
