(* P_MethSearch6.v - the search of methsearch: order, blows, filters. *)
From Verif Require Import Base M_Bell M_Change M_Math M_Row M_PN M_Method M_Proof M_MethSearch
  Spec_Row Spec_Change Spec_Proof Spec_MethSearch I_MethSearch P_Row P_Change2 P_Change3 P_Method P_Proof P_MethSearch P_MethSearch2 P_MethSearch3 P_MethSearch4 P_MethSearch5.
From Coq Require Import Permutation.
Set Implicit Arguments.
Unset Strict Implicit.
Open Scope nat_scope.

(* --- without symmetry, everything is tried in order --- *)
Section A.
Variable A : sargs.
Notation L := (sa_len A).

Lemma plan_choose : asked A (sa_sym A) = false -> asked A (sa_doubsym A) = false -> asked A (sa_skewsym A) = false -> forall m, plan_of A m = Choose.
Proof.
  unfold asked, plan_of. intros H1 H2 H3 m. destruct (sa_floating A); [reflexivity|]. cbn [negb] in *. rewrite andb_true_r in *. rewrite H1, H2, H3. reflexivity.
Qed.

Definition good_from (flt : list change) (k : nat) (M : list change) : bool :=
  forallb (fun i => match nth_error M i with Some c => try_change A flt (firstn i M) c && push_ok A (firstn (S i) M) | None => false end) (seq k (L - k)) && final A flt M.

Lemma filter_flat_map {X Y} (f : Y -> bool) (g : X -> list Y) l : filter f (flat_map g l) = flat_map (fun x => filter f (g x)) l.
Proof. induction l as [|x l IH]; cbn [flat_map]; [reflexivity|]. now rewrite filter_app, IH. Qed.
Lemma map_flat_map {X Y Z} (f : Y -> Z) (g : X -> list Y) l : map f (flat_map g l) = flat_map (fun x => map f (g x)) l.
Proof. induction l as [|x l IH]; cbn [flat_map]; [reflexivity|]. now rewrite map_app, IH. Qed.
Lemma filter_map_ext {X Y} (f f' : Y -> bool) (g g' : X -> Y) l : (forall x, f (g x) = f' (g' x)) -> (forall x, g x = g' x) -> filter f (map g l) = filter f' (map g' l).
Proof. intros H1 H2. induction l as [|x l IH]; cbn [map filter]; [reflexivity|]. rewrite H1, IH. destruct (f' (g' x)); [f_equal; apply H2|reflexivity]. Qed.
Lemma map_id' {X} (l : list (list X)) : map (app []) l = l.
Proof. change (map (fun x => x) l = l). apply map_id. Qed.
Lemma filter_false {X} (l : list X) : filter (fun _ => false) l = [].
Proof. induction l; auto. Qed.

Lemma outs_choices (C : forall m, plan_of A m = Choose) (LA : length (sa_allowed A) = L) flt : forall fuel m, length m <= L -> L < fuel + length m ->
  outs A fuel flt m = filter (good_from flt (length m)) (map (app m) (choices (skipn (length m) (sa_allowed A)))).
Proof.
  induction fuel as [|fuel IH]; intros m B FU; [lia|]. cbn [outs]. destruct (Nat.eqb_spec (length m) L) as [E|N].
  - rewrite E, skipn_all2 by lia. cbn [choices map]. rewrite app_nil_r. cbn [filter]. unfold good_from. rewrite Nat.sub_diag. cbn [seq forallb andb].
    unfold final. reflexivity.
  - rewrite C. destruct (@nth_error_some _ (sa_allowed A) (length m)) as (l & El); [lia|].
    assert (SK : skipn (length m) (sa_allowed A) = l :: skipn (S (length m)) (sa_allowed A)).
    { revert El. generalize (length m) as n. generalize (sa_allowed A) as a. clear. induction a as [|x a IH]; intros [|n] E; try discriminate; cbn in *; [congruence|]. rewrite (IH n E). destruct n; reflexivity. }
    rewrite SK, (nth_error_nth _ _ _ El). cbn [choices]. rewrite map_flat_map, filter_flat_map. apply flat_map_ext. intros c. rewrite map_map.
    assert (LL : length (m ++ [c]) = S (length m)) by (rewrite app_length; cbn [length]; lia).
    assert (G : forall x, good_from flt (length m) (m ++ c :: x) = (try_change A flt m c && push_ok A (m ++ [c])) && good_from flt (S (length m)) ((m ++ [c]) ++ x)).
    { intros x. unfold good_from. replace (L - length m) with (S (L - S (length m))) by lia. cbn [seq forallb].
      assert (F1 : firstn (length m) (m ++ c :: x) = m) by (rewrite firstn_app, firstn_all, Nat.sub_diag; cbn [firstn]; apply app_nil_r).
      assert (F2 : firstn (S (length m)) (m ++ c :: x) = m ++ [c]).
      { rewrite firstn_app, firstn_all2 by lia. replace (S (length m) - length m) with 1 by lia. reflexivity. }
      rewrite F1, F2. rewrite <- app_assoc. cbn [app]. rewrite nth_error_app2 by lia. rewrite Nat.sub_diag. cbn [nth_error]. now rewrite <- andb_assoc. }
    destruct (try_change A flt m c && push_ok A (m ++ [c])).
    + rewrite IH by lia. rewrite LL. apply filter_map_ext; intros x.
      * rewrite <- app_assoc. cbn [app]. rewrite (G x). cbn [andb]. now rewrite <- app_assoc.
      * now rewrite <- app_assoc.
    + rewrite (@filter_map_ext _ _ _ (fun _ => false) _ (fun x => m ++ c :: x)); [|intros x; rewrite (G x); reflexivity|reflexivity]. now rewrite filter_false.
Qed.

Lemma in_choices {X} (l : list (list X)) : forall M, In M (choices l) <-> length M = length l /\ forall i, i < length l -> exists c, nth_error M i = Some c /\ In c (nth i l []).
Proof.
  induction l as [|a l IH]; intros M; cbn [choices length].
  - split; [intros [<-|[]]; split; [reflexivity|lia]|]. intros [E _]. destruct M; [now left|discriminate].
  - rewrite in_flat_map. split.
    + intros (x & I & H). apply in_map_iff in H as (M' & <- & H). apply IH in H as [E H]. split; [cbn; lia|]. intros [|i] Hi; [exists x; auto|]. apply H. lia.
    + intros [E H]. destruct (H 0 ltac:(lia)) as (x & Ex & I). destruct M as [|y M]; [discriminate|]. injection Ex as ->. exists x. split; [exact I|]. apply in_map_iff. exists M. split; [reflexivity|].
      apply IH. split; [cbn in E; lia|]. intros i Hi. apply (H (S i)). lia.
Qed.
End A.

Section B.
Variable A : sargs.
Notation L := (sa_len A).
Hypothesis SN : sane A.
Hypothesis S4 : sa_floating A = false -> sa_skewsym A = true -> 4 < L.

Lemma found_in_order : start_true A -> asked A (sa_sym A) = false -> asked A (sa_doubsym A) = false -> asked A (sa_skewsym A) = false ->
  exists f, all_found A = filter f (choices (sa_allowed A)) /\ forall M, In M (choices (sa_allowed A)) -> (f M = true <-> wanted0 A M).
Proof.
  intros ST H1 H2 H3. exists (good_from A [] 0).
  assert (E : all_found A = filter (good_from A [] 0) (choices (sa_allowed A))).
  { unfold all_found. rewrite (outs_choices (plan_choose H1 H2 H3) (sn_allowed SN)) by (cbn [length]; lia). cbn [length skipn]. f_equal. rewrite map_id'. reflexivity. }
  split; [exact E|]. intros M I. rewrite <- (found_wanted SN S4 M ST), E, filter_In. tauto.
Qed.

(* --- no place is made too many times, no change twice running --- *)
Lemma back_run_spec i l : forall k, k <= length l -> (k <= back_run i l <-> forall j, j < k -> exists c, nth_error l j = Some c /\ findplace c i = true).
Proof.
  induction l as [|c l IH]; intros k Hk; cbn [back_run length] in *.
  - split; [lia|]. intros _. lia.
  - destruct k as [|k]; [split; lia|]. destruct (findplace c i) eqn:F.
    + assert (X : S k <= S (back_run i l) <-> k <= back_run i l) by lia. rewrite X, IH by lia. split.
      * intros H [|j] Hj; [exists c; auto|]. apply H. lia.
      * intros H j Hj. apply (H (S j)). lia.
    + split; [lia|]. intros H. destruct (H 0 ltac:(lia)) as (c' & E & F'). injection E as ->. congruence.
Qed.
Lemma run_limited_spec limit i l : forall count k, count <= S limit -> k <= length l -> count + k <= S limit ->
  (count + k <= run_limited limit count i l <-> forall j, j < k -> exists c, nth_error l j = Some c /\ findplace c i = true).
Proof.
  induction l as [|c l IH]; intros count k Hc Hk Hl; cbn [run_limited length] in *.
  - split; [lia|]. intros _. lia.
  - destruct k as [|k].
    + split; [lia|]. intros _. assert (G : forall l c, c <= run_limited limit c i l).
      { clear. induction l as [|x l IH]; intros c; cbn [run_limited]; [lia|]. destruct (c <=? limit); [|lia]. destruct (findplace x i); [|lia]. specialize (IH (S c)). lia. }
      destruct (count <=? limit); [|lia]. destruct (findplace c i); [|lia]. specialize (G l (S count)). lia.
    + destruct (Nat.leb_spec count limit); [|lia]. destruct (findplace c i) eqn:F.
      * replace (count + S k) with (S count + k) by lia. rewrite IH by lia. split.
        -- intros H1 [|j] Hj; [exists c; auto|]. apply H1. lia.
        -- intros H1 j Hj. apply (H1 (S j)). lia.
      * split; [lia|]. intros H1. destruct (H1 0 ltac:(lia)) as (c' & E & F'). injection E as ->. congruence.
Qed.

Lemma nth_rev_firstn (M : list change) e j : e <= length M -> j < e -> nth_error (rev (firstn e M)) j = nth_error M (e - 1 - j).
Proof. intros He Hj. rewrite (nth_rev S4) by (rewrite firstn_length; lia). rewrite firstn_length, Nat.min_l by lia. apply (nth_firstn S4). lia. Qed.

Lemma wanted_tries M i : wanted0 A M -> i < L -> chosen0 A i -> exists c, nth_error M i = Some c /\ wfc A c /\ try_change A [] (firstn i M) c = true.
Proof.
  intros (LM & _ & C & _) Hi Ci. destruct (C i Hi Ci) as (c & E & I & T). exists c. split; [exact E|]. split; [|exact T].
  pose proof (sn_changes SN) as F. rewrite Forall_forall in F.
  destruct (F (nth i (sa_allowed A) [])) as [_ F']; [apply nth_In; rewrite (sn_allowed SN); exact Hi|]. rewrite Forall_forall in F'. now apply F'.
Qed.

Lemma tried m c : try_change A [] m c = true -> try_midlead_change A m c = true /\ (length m + 1 = L -> try_leadend_change A m c = true).
Proof.
  unfold try_change. rewrite !andb_true_iff. intros ((((((_ & _) & T) & _) & E) & _) & _). split; [exact T|]. intros X. rewrite <- Nat.eqb_eq in X. rewrite X in E. exact E.
Qed.

Lemma no_long_run M : wanted0 A M -> (forall i, i < L -> chosen0 A i) -> 0 < sa_blows A <= L ->
  forall p s, p < sa_bells A -> s < L -> ~ makes_run M p s (sa_blows A).
Proof.
  intros W AC B p s Hp Hs R. assert (LM : length M = L) by apply W. set (b := sa_blows A) in *.
  destruct (Nat.lt_ge_cases (s + b - 1) L) as [G|G].
  - destruct (@wanted_tries M (s + b - 1) W G (AC _ G)) as (c & E & [Bc Wc] & T). apply tried in T as [T _].
    assert (Fc : findplace c p = true). { destruct (R (b - 1) ltac:(lia)) as (c' & E' & F'). replace (s + (b - 1)) with (s + b - 1) in E' by lia. rewrite nth_error_app1 in E' by lia. congruence. }
    unfold try_midlead_change in T. apply andb_prop in T as [_ T]. apply negb_true_iff in T. fold b in T. destruct (Nat.eqb_spec b 0) as [|_]; [lia|]. cbn [negb andb] in T.
    unfold is_too_many_places in T. enough (X : existsb (fun i => findplace c i && (b <? 2 + back_run i (rev (firstn (s + b - 1) M)))) (seq 0 (cn c)) = true) by congruence.
    apply existsb_exists. exists p. split; [apply in_seq; lia|]. rewrite Fc. cbn [andb]. apply Nat.ltb_lt.
    enough (b - 1 <= back_run p (rev (firstn (s + b - 1) M))) by lia. apply back_run_spec; [rewrite rev_length, firstn_length; lia|].
    intros j Hj. destruct (R (b - 2 - j) ltac:(lia)) as (c' & E' & F'). exists c'. split; [|exact F']. rewrite nth_rev_firstn by lia. rewrite nth_error_app1 in E' by lia. rewrite <- E'. f_equal. lia.
  - assert (HL : L - 1 < L) by lia. destruct (@wanted_tries M (L - 1) W HL (AC _ HL)) as (c & E & [Bc Wc] & T). apply tried in T as [_ T].
    rewrite firstn_length in T. specialize (T ltac:(lia)).
    assert (Fc : findplace c p = true). { destruct (R (L - 1 - s) ltac:(lia)) as (c' & E' & F'). replace (s + (L - 1 - s)) with (L - 1) in E' by lia. rewrite nth_error_app1 in E' by lia. congruence. }
    unfold try_leadend_change in T. apply andb_prop in T as [T _]. fold b in T. destruct (Nat.eqb_spec b 0) as [|_]; [lia|].
    apply negb_true_iff in T. set (m := firstn (L - 1) M) in *.
    enough (X : existsb (fun i => findplace c i && (if b <? run_limited b 2 i (rev m) then true else b <? run_limited b (run_limited b 2 i (rev m)) i m)) (seq 0 (sa_bells A)) = true) by congruence.
    apply existsb_exists. exists p. split; [apply in_seq; lia|]. rewrite Fc. cbn [andb]. cbv zeta.
    assert (LM1 : length m = L - 1) by (unfold m; rewrite firstn_length; lia).
    assert (C1 : 2 + (L - 1 - s) <= run_limited b 2 p (rev m)).
    { apply run_limited_spec; [lia|rewrite rev_length; lia|lia|]. intros j Hj. destruct (R (L - 2 - j - s) ltac:(lia)) as (c' & E' & F'). exists c'. split; [|exact F'].
      unfold m. rewrite nth_rev_firstn by lia. rewrite nth_error_app1 in E' by lia. rewrite <- E'. f_equal. lia. }
    destruct (Nat.ltb_spec b (run_limited b 2 p (rev m))) as [|G2]; [reflexivity|]. apply Nat.ltb_lt. set (c1 := run_limited b 2 p (rev m)) in *.
    enough (X : c1 + (S b - c1) <= run_limited b c1 p m) by lia. apply run_limited_spec; [lia|lia|lia|].
    intros j Hj. destruct (R (L + j - s) ltac:(lia)) as (c' & E' & F'). exists c'. split; [|exact F']. unfold m. rewrite (nth_firstn S4) by lia. rewrite nth_error_app2 in E' by lia. rewrite <- E'. f_equal. lia.
Qed.

Lemma no_repeat M : wanted0 A M -> (forall i, i < L -> chosen0 A i) -> sa_trivial A = true ->
  (forall i, S i < L -> nth_error M i <> nth_error M (S i)) /\ (sa_hunts A = 0 -> 1 < L -> nth_error M (L - 1) <> nth_error M 0).
Proof.
  intros W AC T. assert (LM : length M = L) by apply W. 
  assert (RX : forall c : change, change_eqb c c = true).
  { intros c. unfold change_eqb. rewrite Nat.eqb_refl. cbn [andb]. apply orb_true_iff. right. destruct (list_eq_dec Nat.eq_dec (cswaps c) (cswaps c)); [reflexivity|congruence]. }
  split.
  - intros i Hi X. destruct (@wanted_tries M (S i) W Hi (AC _ Hi)) as (c & E & _ & P). apply tried in P as [P _].
    unfold try_midlead_change in P. apply andb_prop in P as [P _]. apply negb_true_iff in P. rewrite T in P. cbn [andb] in P.
    assert (H : nth_error (rev (firstn (S i) M)) 0 = Some c) by (rewrite nth_rev_firstn by lia; replace (S i - 1 - 0) with i by lia; congruence).
    revert H P. destruct (rev (firstn (S i) M)) as [|c' l]; cbn [nth_error]; [intros H; discriminate H|]. intros [= ->]. rewrite RX. intros P; discriminate P.
  - intros H0 L1 X. assert (HL : L - 1 < L) by lia. destruct (@wanted_tries M (L - 1) W HL (AC _ HL)) as (c & E & _ & P). apply tried in P as [_ P]. rewrite firstn_length in P. specialize (P ltac:(lia)).
    unfold try_leadend_change in P. apply andb_prop in P as [_ P]. apply negb_true_iff in P. rewrite T, H0 in P. cbn [andb Nat.eqb] in P.
    destruct M as [|c0 M]; [cbn [length] in LM; lia|]. cbn [nth_error] in X. replace (L - 1) with (S (L - 2)) in P by lia. cbn [firstn] in P. assert (c = c0) by congruence. subst c. rewrite RX in P. discriminate.
Qed.

(* --- all three symmetries --- *)
Lemma three_palindrome M : wanted0 A M -> asked A (sa_sym A) = true -> asked A (sa_doubsym A) = true -> asked A (sa_skewsym A) = true ->
  (L mod 4 = 0 -> nth_error M (L / 4 - 1) = option_map change_reverse (nth_error M (L / 4 - 1))) -> palindrome L 0 M.
Proof.
  intros (LM & (_ & D & R) & _) H1 H2 H3 PV. specialize (D H2). specialize (R H3).
  unfold asked in *. apply andb_prop in H1 as [H1 FL]. apply negb_true_iff in FL. apply andb_prop in H2 as [H2 _]. apply andb_prop in H3 as [H3 _].
  assert (S4' : 4 < L) by (apply S4; assumption).
  assert (EV : L = 2 * (L / 2)) by (apply (half_even SN), (sn_even SN FL); now rewrite H1).
  assert (D4 := Nat.div_mod L 4 ltac:(lia)). assert (M4 := Nat.mod_upper_bound L 4 ltac:(lia)).
  assert (D1 := proj2 (dbl_eqs SN M EV) D). clear D.
  assert (R1 : forall i, i < L / 2 - 1 -> nth_error M i = option_map change_reverse (nth_error M (L / 2 - 2 - i))).
  { intros i Hi. destruct (Nat.eq_dec i (L / 2 - 2 - i)) as [E|N].
    - assert (L mod 4 = 0) by lia. assert (i = L / 4 - 1) by lia. rewrite <- E. subst i. now apply PV.
    - unfold rotation in R. specialize (R i ltac:(lia)). rewrite (@mod_val _ L 1 (L / 2 - 2 - i)) in R by lia. apply R. lia. }
  clear R PV. intros i Hi. rewrite Nat.mul_0_r, Nat.add_0_r.
  destruct (Nat.eq_dec i (L - 1)) as [->|N1]; [rewrite (@mod_val _ L 0 (L - 1)) by lia; f_equal; lia|].
  rewrite (@mod_val _ L 1 (L - 2 - i)) by lia.
  destruct (Nat.lt_trichotomy i (L / 2 - 1)) as [G|[G|G]].
  - rewrite (D1 (L - 2 - i)) by lia. rewrite R1 by lia. do 2 f_equal. lia.
  - f_equal. lia.
  - rewrite (D1 i) by lia. rewrite (R1 (L - 2 - i)) by lia. do 2 f_equal. lia.
Qed.
End B.
