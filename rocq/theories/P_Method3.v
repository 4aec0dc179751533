(* P_Method3.v - consecutive blows in one place. *)
From Verif Require Import Base M_Bell M_Change M_Math M_Row M_PN M_Method Spec_Row Spec_Change Spec_Method P_Math P_Row P_Change3 P_Format P_Method.
Set Implicit Arguments.
Unset Strict Implicit.
Open Scope nat_scope.

(* k changes from s on, cyclically, all make place p *)
Definition window (L : list change) (p s k : nat) : Prop :=
  forall t, t < k -> exists c, nth_error L ((s + t) mod length L) = Some c /\ place_made c p.

Definition fp (L : list change) (p t : nat) : bool := match nth_error L t with Some c => findplace c p | None => false end.

Lemma run_of_spec l p : let '(a, e) := run_of l p in
  a <= length l /\ (forall t, t < a -> fp l p t = true) /\ (e = true <-> a = length l) /\ (a < length l -> fp l p a = false).
Proof.
  induction l as [|c l IH]; cbn [run_of]; [repeat split; intros; try lia; reflexivity|].
  destruct (findplace c p) eqn:F.
  - destruct (run_of l p) as [a e]. destruct IH as (H1 & H2 & H3 & H4). cbn [length]. split; [lia|]. split.
    + intros [|t] Ht; unfold fp; cbn [nth_error]; [exact F|]. apply H2. lia.
    + split; [rewrite H3; lia|]. intros H. unfold fp. cbn [nth_error]. apply H4. lia.
  - cbn [length]. split; [lia|]. split; [intros; lia|]. split; [split; [discriminate|lia]|]. intros _. unfold fp. cbn [nth_error]. exact F.
Qed.
Lemma run_of_len l p a : run_of l p = (a, true) -> a = length l.
Proof. intros E. generalize (run_of_spec l p). rewrite E. intros (_ & _ & H & _). now apply H. Qed.

(* the value of the run found at change i for place p, 0 if there is none *)
Definition run_at (all : list change) (i p : nat) : nat :=
  if fp all p i && ((i =? 0) || negb (fp all p (i - 1))) then
    let '(a, e) := run_of (skipn i all) p in 2 + a + (if e then fst (run_of (firstn i all) p) else 0)
  else 0.

Lemma fold_max (f : nat -> nat) l maxn k : 0 < k ->
  k <= fold_left (fun a p => if a <? f p then f p else a) l maxn <-> k <= maxn \/ exists p, In p l /\ k <= f p.
Proof.
  intros Hk. revert maxn. induction l as [|p l IH]; intros maxn; cbn [fold_left].
  - split; [auto|]. intros [H|(p & [] & _)]. exact H.
  - rewrite IH. destruct (Nat.ltb_spec maxn (f p)) as [H|H]; split.
    + intros [G|(q & Hq & G)]; right; [exists p; split; [now left|exact G]|exists q; split; [now right|exact G]].
    + intros [G|(q & [->|Hq] & G)]; [left; lia|now left|right; now exists q].
    + intros [G|(q & Hq & G)]; [now left|right; exists q; split; [now right|exact G]].
    + intros [G|(q & [->|Hq] & G)]; [now left|left; lia|right; now exists q].
Qed.

Lemma maxblows_loop_spec all n l i maxn k prev : 0 < k -> n <= 256 -> skipn i all = l -> i <= length all ->
  (prev = match i with O => None | S j => nth_error all j end) ->
  k <= maxblows_loop all n prev i l maxn <-> k <= maxn \/ exists j p, i <= j < length all /\ p < n /\ k <= run_at all j p.
Proof.
  intros Hk Hn. revert i maxn prev. induction l as [|c l IH]; intros i maxn prev E Hi Hp; cbn [maxblows_loop].
  - assert (Z := f_equal (@length _) E). rewrite skipn_length in Z. cbn in Z. split; [auto|]. intros [H|(j & p & Hj & _)]; [exact H|lia].
  - assert (Z := f_equal (@length _) E). rewrite skipn_length in Z. cbn in Z.
    assert (Ec : nth_error all i = Some c) by (rewrite <- (Nat.add_0_r i), <- nth_error_skipn', E; reflexivity).
    assert (Es : skipn (S i) all = l). { clear -E. revert i E. induction all as [|y a IHa]; intros [|i] E; try discriminate; cbn in *; [now injection E|]. now apply IHa. }
    set (mx := fold_left _ _ maxn).
    assert (Em : mx = fold_left (fun a p => if a <? run_at all i p then run_at all i p else a) (map b8 (seq 0 n)) maxn).
    { unfold mx. clear mx. generalize (map b8 (seq 0 n)). intros ps. revert maxn. induction ps as [|p ps IHp]; intros maxn; cbn [fold_left]; [reflexivity|].
      rewrite <- IHp. f_equal. unfold run_at, fp. rewrite Ec.
      destruct (findplace c p) eqn:F; cbn [andb]; [|destruct (Nat.ltb_spec maxn 0); [lia|reflexivity]].
      assert (Pv : match prev with Some c' => findplace c' p | None => false end = negb ((i =? 0) || negb match nth_error all (i - 1) with Some c' => findplace c' p | None => false end)).
      { subst prev. destruct i as [|i]; [reflexivity|]. cbn [Nat.eqb orb]. replace (S i - 1) with i by lia. now rewrite negb_involutive. }
      rewrite Pv. destruct ((i =? 0) || _); cbn [negb].
      - rewrite E. destruct (run_of (c :: l) p) as [a e]. reflexivity.
      - destruct (Nat.ltb_spec maxn 0); [lia|reflexivity]. }
    rewrite (IH (S i) mx (Some c) Es); [|lia|now rewrite Ec]. rewrite Em, (fold_max _ _ _ Hk). split.
    + intros [[H|(p & Hin & H)]|(j & p & Hj & Hpn & H)]; auto.
      * right. apply in_map_iff in Hin as (q & <- & Hq). apply in_seq in Hq. rewrite b8_small in H by lia. exists i, q. repeat split; auto; lia.
      * right. exists j, p. repeat split; auto; lia.
    + intros [H|(j & p & Hj & Hpn & H)]; auto. destruct (Nat.eq_dec j i) as [->|].
      * left. right. exists p. split; [|exact H]. apply in_map_iff. exists p. split; [apply b8_small; lia|apply in_seq; lia].
      * right. exists j, p. repeat split; auto; lia.
Qed.

Section M.
Variable m : method.
Hypothesis WF : wf_method m.
Let L := mch m.
Let n := length L.

Lemma fp_spec p t : t < n -> fp L p t = true <-> exists c, nth_error L t = Some c /\ place_made c p.
Proof.
  intros Ht. unfold fp. destruct (@nth_error_some _ L t Ht) as (c & Ec). rewrite Ec. destruct (m_change WF Ec) as [_ W].
  rewrite (findplace_spec p W). split; [intros H; now exists c|]. intros (c' & [= <-] & H). exact H.
Qed.
Lemma window_fp p s k : 0 < n -> window L p s k <-> forall t, t < k -> fp L p ((s + t) mod n) = true.
Proof.
  intros N. unfold window. fold n. split; intros H t Ht; apply fp_spec; auto; try (apply Nat.mod_upper_bound; lia). 
Qed.
Lemma fp_skipn p i t : fp (skipn i L) p t = fp L p (i + t).
Proof. unfold fp. now rewrite nth_error_skipn'. Qed.
Lemma fp_firstn p i t : t < i -> fp (firstn i L) p t = fp L p t.
Proof. intros H. unfold fp. now rewrite nth_error_firstn_lt. Qed.

(* the run found covers that many changes *)
Lemma run_at_window i p : i < n -> 0 < run_at L i p -> 3 <= run_at L i p /\ run_at L i p <= n + 2 /\ window L p i (run_at L i p - 2).
Proof.
  intros Hi. unfold run_at. destruct (fp L p i && _) eqn:B; [|lia]. intros _. apply andb_true_iff in B as [B _].
  generalize (run_of_spec (skipn i L) p). destruct (run_of (skipn i L) p) as [a e] eqn:E1. rewrite skipn_length. fold n. intros (A1 & A2 & A3 & A4).
  assert (A0 : 1 <= a). { destruct a; [|lia]. assert (X : fp (skipn i L) p 0 = false) by (apply A4; lia). rewrite fp_skipn, Nat.add_0_r in X. congruence. }
  destruct e.
  - destruct (run_of (firstn i L) p) as [w e2] eqn:E2. generalize (run_of_spec (firstn i L) p). rewrite E2, firstn_length. fold n. intros (W1 & W2 & _). cbn [fst].
    assert (a = n - i) by (now apply A3). split; [lia|]. split; [lia|]. apply window_fp; [lia|]. intros t Ht.
    destruct (lt_dec (i + t) n) as [Hlt|Hge].
    + rewrite Nat.mod_small by lia. rewrite <- fp_skipn. apply A2. lia.
    + replace (i + t) with (i + t - n + 1 * n) by lia. rewrite Nat.mod_add by lia. rewrite Nat.mod_small by lia. rewrite <- (@fp_firstn p i) by lia. apply W2. lia.
  - split; [lia|]. split; [lia|]. apply window_fp; [lia|]. intros t Ht. rewrite Nat.mod_small by lia. rewrite <- fp_skipn. apply A2. lia.
Qed.

Lemma run_long l p k : (forall t, t < k -> fp l p t = true) -> k <= length l -> k <= fst (run_of l p).
Proof.
  intros H Hk. generalize (run_of_spec l p). destruct (run_of l p) as [a e]. cbn [fst]. intros (A1 & _ & _ & A4).
  destruct (le_lt_dec k a) as [|G]; auto. rewrite H in A4 by exact G. discriminate A4. lia.
Qed.

(* every window is within a run that is found *)
Lemma window_run s p k : 1 <= k <= n -> s < n -> window L p s k -> exists i, i < n /\ k + 2 <= run_at L i p.
Proof.
  intros Hk Hs W. assert (N : 0 < n) by lia. rewrite window_fp in W by exact N.
  (* does every change make the place? *)
  assert (D : (forall t, t < n -> fp L p t = true) \/ exists t, t < n /\ fp L p t = false).
  { clear W. assert (X : forall q, q <= n -> (forall t, t < q -> fp L p t = true) \/ exists t, t < q /\ fp L p t = false).
    { induction q as [|q IH]; intros Hq; [left; intros; lia|]. destruct IH as [H|(t & Ht & F)]; [lia| |right; exists t; split; [lia|exact F]].
      destruct (fp L p q) eqn:E; [|right; exists q; split; [lia|exact E]]. left. intros t Ht. destruct (Nat.eq_dec t q) as [->|]; [exact E|apply H; lia]. }
    apply X. lia. }
  destruct D as [All|(z & Hz & Fz)].
  - exists 0. split; [lia|]. unfold run_at. rewrite (All 0 N). cbn [Nat.eqb orb andb skipn firstn].
    generalize (@run_long L p n All (le_n _)). destruct (run_of L p) as [a e]. cbn [fst]. lia.
  - (* walk back from s to the start of the run: d steps *)
    assert (X : forall q, q <= n -> (exists d, d < q /\ (forall t, t < d -> fp L p ((s + n - 1 - t) mod n) = true) /\ fp L p ((s + n - 1 - d) mod n) = false) \/
       (forall t, t < q -> fp L p ((s + n - 1 - t) mod n) = true)).
    { induction q as [|q IH]; intros Hq; [right; intros; lia|]. destruct IH as [(d & Hd & H1 & H2)|H]; [lia|left; exists d; repeat split; auto|].
      destruct (fp L p ((s + n - 1 - q) mod n)) eqn:E; [right|left; exists q; repeat split; auto].
      intros t Ht. destruct (Nat.eq_dec t q) as [->|]; [exact E|apply H; lia]. }
    destruct (X n (le_n _)) as [(d & Hd & H1 & H2)|H].
    2:{ exfalso. destruct (le_lt_dec s z) as [G|G].
        - specialize (H (s + n - 1 - z) ltac:(lia)). replace (s + n - 1 - (s + n - 1 - z)) with z in H by lia. rewrite Nat.mod_small in H by lia. congruence.
        - specialize (H (s - 1 - z) ltac:(lia)). replace (s + n - 1 - (s - 1 - z)) with (z + 1 * n) in H by lia. rewrite Nat.mod_add, Nat.mod_small in H by lia. congruence. }
    (* the run starts d changes before s *)
    set (i := (s + n - d) mod n). assert (Hi : i < n) by (apply Nat.mod_upper_bound; lia).
    assert (Wi : forall t, t < k + d -> fp L p ((i + t) mod n) = true).
    { intros t Ht. unfold i. rewrite Nat.add_mod_idemp_l by lia. destruct (lt_dec t d) as [G|G].
      - specialize (H1 (d - 1 - t) ltac:(lia)). rewrite <- H1. do 2 f_equal. lia.
      - specialize (W (t - d) ltac:(lia)). rewrite <- W. replace (s + n - d + t) with (s + (t - d) + 1 * n) by lia. now rewrite Nat.mod_add by lia. }
    assert (Kd : k + d < n).
    { destruct (le_lt_dec n (k + d)) as [G|G]; [exfalso|exact G]. destruct (le_lt_dec i z) as [Q|Q].
      - specialize (Wi (z - i) ltac:(lia)). replace (i + (z - i)) with z in Wi by lia. rewrite Nat.mod_small in Wi by lia. congruence.
      - specialize (Wi (z + n - i) ltac:(lia)). replace (i + (z + n - i)) with (z + 1 * n) in Wi by lia. rewrite Nat.mod_add, Nat.mod_small in Wi by lia. congruence. }
    exists i. split; [exact Hi|]. unfold run_at.
    assert (F0 : fp L p i = true) by (specialize (Wi 0 ltac:(lia)); rewrite Nat.add_0_r, Nat.mod_small in Wi by lia; exact Wi).
    rewrite F0. cbn [andb].
    assert (Fp : (i =? 0) || negb (fp L p (i - 1)) = true).
    { destruct (Nat.eqb_spec i 0) as [|NZ]; [reflexivity|]. cbn [orb]. apply negb_true_iff. rewrite <- H2. f_equal. unfold i in *.
      clear -NZ N Hd Hs. destruct (lt_dec (s + n - d) n) as [G|G].
      - rewrite (Nat.mod_small (s + n - d)) in * by lia. rewrite Nat.mod_small by lia. lia.
      - replace (s + n - d) with (s - d + 1 * n) in * by lia. rewrite Nat.mod_add, Nat.mod_small in * by lia.
        replace (s + n - 1 - d) with (s - d - 1 + 1 * n) by lia. rewrite Nat.mod_add, Nat.mod_small by lia. reflexivity. }
    rewrite Fp. destruct (le_lt_dec (i + (k + d)) n) as [G|G].
    + assert (R : k + d <= fst (run_of (skipn i L) p)).
      { apply run_long; [|rewrite skipn_length; fold n; lia]. intros t Ht. rewrite fp_skipn. specialize (Wi t Ht). rewrite Nat.mod_small in Wi by lia. exact Wi. }
      destruct (run_of (skipn i L) p) as [a e]. cbn [fst] in R. lia.
    + assert (R : n - i <= fst (run_of (skipn i L) p)).
      { apply run_long; [|rewrite skipn_length; fold n; lia]. intros t Ht. rewrite fp_skipn. specialize (Wi t ltac:(lia)). rewrite Nat.mod_small in Wi by lia. exact Wi. }
      assert (R2 : k + d - (n - i) <= fst (run_of (firstn i L) p)).
      { apply run_long; [|rewrite firstn_length; fold n; lia]. intros t Ht. rewrite fp_firstn by lia. specialize (Wi (n - i + t) ltac:(lia)).
        replace (i + (n - i + t)) with (t + 1 * n) in Wi by lia. rewrite Nat.mod_add, Nat.mod_small in Wi by lia. exact Wi. }
      generalize (run_of_spec (skipn i L) p). destruct (run_of (skipn i L) p) as [a e]. cbn [fst] in R. rewrite skipn_length. fold n. intros (A1 & _ & A3 & _).
      assert (e = true) as -> by (apply A3; lia). lia.
Qed.

Lemma maxblows_spec k : 1 <= k <= n -> (Z.of_nat k + 1 <= maxblows m)%Z <-> exists s p, s < n /\ p < mb m /\ window L p s k.
Proof.
  intros Hk. unfold maxblows. fold L. assert (Hb : mb m <= 256) by (destruct WF; lia).
  assert (X := @maxblows_loop_spec L (mb m) L 0 0 (k + 2) None ltac:(lia) Hb eq_refl ltac:(lia) eq_refl).
  split.
  - intros H. destruct (proj1 X) as [G|(j & p & Hj & Hp & G)]; [lia|lia|]. fold n in Hj. destruct (@run_at_window j p) as (R1 & R2 & R3); [lia|lia|].
    exists j, p. repeat split; auto; [lia|]. intros t Ht. apply R3. lia.
  - intros (s & p & Hs & Hp & W). destruct (window_run Hk Hs W) as (i & Hi & R).
    assert (k + 2 <= maxblows_loop L (mb m) None 0 L 0) by (apply X; right; exists i, p; repeat split; auto; lia). lia.
Qed.
Lemma maxblows_bound : (maxblows m <= Z.of_nat n + 1)%Z.
Proof.
  unfold maxblows. fold L. assert (Hb : mb m <= 256) by (destruct WF; lia).
  destruct (le_lt_dec (maxblows_loop L (mb m) None 0 L 0) (n + 2)) as [|G]; [lia|exfalso].
  assert (X := @maxblows_loop_spec L (mb m) L 0 0 (n + 3) None ltac:(lia) Hb eq_refl ltac:(lia) eq_refl).
  destruct (proj1 X ltac:(lia)) as [Y|(j & p & Hj & Hp & Y)]; [lia|]. fold n in Hj. destruct (@run_at_window j p) as (R1 & R2 & R3); lia.
Qed.
Lemma maxblows_none : (forall s p, s < n -> p < mb m -> ~ window L p s 1) -> maxblows m = (-1)%Z.
Proof.
  intros H. unfold maxblows. fold L. assert (Hb : mb m <= 256) by (destruct WF; lia).
  destruct (Nat.eq_dec (maxblows_loop L (mb m) None 0 L 0) 0) as [->|G]; [reflexivity|exfalso].
  assert (X := @maxblows_loop_spec L (mb m) L 0 0 1 None ltac:(lia) Hb eq_refl ltac:(lia) eq_refl).
  destruct (proj1 X ltac:(lia)) as [Y|(j & p & Hj & Hp & Y)]; [lia|]. fold n in Hj. destruct (@run_at_window j p) as (R1 & R2 & R3); [lia|lia|].
  apply (H j p); auto; [lia|]. intros t Ht. apply R3. lia.
Qed.
End M.
