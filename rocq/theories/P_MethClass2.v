(* P_MethClass2.v - the loops of methclass. *)
From Verif Require Import Base M_Bell M_Change M_Math M_Row M_PN M_Method M_MethClass Spec_Row Spec_Change Spec_Cycle Spec_PN Spec_Method Spec_MethClass
  P_Math P_Row P_Bell P_Change P_Change2 P_Change3 P_Cycle P_Order P_PN P_Format P_Method P_Method2 P_MethClass.
Set Implicit Arguments.
Unset Strict Implicit.
Open Scope nat_scope.

Section M.
Variable m : method.
Hypothesis WF : wf_method m.
Let L := mch m.
Let n := length L.
Let nb := mb m.
Variable r : row.
Hypothesis ER : lh m = Ret r.

Lemma nb255 : nb <= 255. Proof. apply WF. Qed.
Lemma r_len : length r = nb.
Proof. destruct (lh_spec WF) as (r' & E' & R & Lr & A). rewrite ER in E'. injection E' as <-. exact Lr. Qed.
Lemma r_get junk i : i < nb -> row_at junk r i = Ret (act r i).
Proof.
  intros H. unfold row_at. assert (E := r_len). destruct (Nat.eqb_spec i (length r)) as [X|_]; [unfold row in *; lia|].
  rewrite (@vget_lt _ _ _ 0) by (unfold row in *; lia). f_equal. apply nth_indep. unfold row in *. lia.
Qed.
Lemma r_fix i : i < nb -> act r i = i <-> hunt_bell L i.
Proof. intros H. exact (lh_fixed WF ER H). Qed.

Lemma first_hunt k i fuel : i + k = nb -> k < fuel -> (forall y, y < i -> ~ hunt_bell L y) ->
  exists h, (forall junk, first_hunt_loop fuel junk r nb i = Ret h) /\
    ((least_below nb (hunt_bell L) h) \/ (h = nb /\ forall y, y < nb -> ~ hunt_bell L y)).
Proof.
  assert (B := nb255). revert i fuel. induction k as [|k IH]; intros i fuel Hi Hf Hn.
  - rewrite Nat.add_0_r in Hi. subst i. exists nb. split.
    + intros junk. destruct fuel as [|fuel]; [lia|]. cbn [first_hunt_loop]. unfold row_at. rewrite r_len, Nat.eqb_refl. cbn [bind].
      rewrite Nat.ltb_irrefl, andb_false_r. reflexivity.
    + right. auto.
  - destruct fuel as [|fuel]; [lia|]. destruct (Nat.eq_dec (act r i) i) as [E|E].
    + exists i. split.
      * intros junk. cbn [first_hunt_loop]. rewrite r_get by lia. cbn [bind]. rewrite E, Nat.eqb_refl. reflexivity.
      * left. split; [lia|]. split; [apply r_fix; [lia|exact E]|exact Hn].
    + destruct (IH (i + 1) fuel) as (h & Eh & H); [lia|lia| |].
      { intros y Hy. destruct (Nat.eq_dec y i) as [->|]; [|apply Hn; lia]. rewrite <- r_fix by lia. exact E. }
      exists h. split; [|exact H]. intros junk. cbn [first_hunt_loop]. rewrite r_get by lia. cbn [bind].
      apply Nat.eqb_neq in E. rewrite E. assert (T : (i <? nb) = true) by (apply Nat.ltb_lt; lia). rewrite T. cbn [negb andb].
      unfold b8. rewrite Nat.mod_small by lia. apply Eh.
Qed.
Lemma first_work k i fuel : i + k = nb -> k < fuel -> (forall y, y < i -> ~ working_bell L nb y) ->
  exists h, (forall junk, first_work_loop fuel junk r nb i = Ret h) /\
    (working_bell L nb h \/ (h = nb /\ forall y, ~ working_bell L nb y)).
Proof.
  revert i fuel. induction k as [|k IH]; intros i fuel Hi Hf Hn.
  - rewrite Nat.add_0_r in Hi. subst i. exists nb. split.
    + intros junk. destruct fuel as [|fuel]; [lia|]. cbn [first_work_loop]. unfold row_at. rewrite r_len, Nat.eqb_refl. cbn [bind].
      rewrite Nat.ltb_irrefl, andb_false_r. reflexivity.
    + right. split; [reflexivity|]. intros y W. apply (Hn y); [apply W|exact W].
  - destruct fuel as [|fuel]; [lia|]. destruct (Nat.eq_dec (act r i) i) as [E|E].
    + destruct (IH (i + 1) fuel) as (h & Eh & H); [lia|lia| |].
      { intros y Hy. destruct (Nat.eq_dec y i) as [->|]; [|apply Hn; lia]. intros [_ W]. apply W. apply r_fix; [lia|exact E]. }
      exists h. split; [|exact H]. intros junk. cbn [first_work_loop]. rewrite r_get by lia. cbn [bind].
      rewrite E, Nat.eqb_refl. assert (T : (i <? nb) = true) by (apply Nat.ltb_lt; lia). rewrite T. cbn [andb]. apply Eh.
    + exists i. split.
      * intros junk. cbn [first_work_loop]. rewrite r_get by lia. cbn [bind]. apply Nat.eqb_neq in E. rewrite E. reflexivity.
      * left. split; [lia|]. rewrite <- r_fix by lia. exact E.
Qed.

Lemma vget_r i : i < nb -> vget r i = Ret (act r i).
Proof. intros H. assert (X := @r_get 0 i H). unfold row_at in X. assert (E := r_len). destruct (Nat.eqb_spec i (length r)); [unfold row in *; lia|exact X]. Qed.

Lemma diff_loop_spec wb k i : i + k = nb -> exists b, diff_loop k r wb i = Ret b /\
  (b = true <-> exists x s, i <= x /\ working_bell L nb x /\ home m x s /\ s <> wb).
Proof.
  revert i. induction k as [|k IH]; intros i Hi; cbn [diff_loop].
  - exists false. split; [reflexivity|]. split; [discriminate|]. intros (x & s & Hx & W & _). destruct W. lia.
  - rewrite vget_r by lia. cbn [bind]. destruct (IH (S i) ltac:(lia)) as (b & Eb & Hb).
    assert (STEP : (exists x s, i <= x /\ working_bell L nb x /\ home m x s /\ s <> wb) <->
      ((exists s, working_bell L nb i /\ home m i s /\ s <> wb) \/ exists x s, S i <= x /\ working_bell L nb x /\ home m x s /\ s <> wb)).
    { split.
      - intros (x & s & Hx & H). destruct (Nat.eq_dec x i) as [->|]; [left; eauto|right]. exists x, s. split; [lia|exact H].
      - intros [(s & H)|(x & s & Hx & H)]; [exists i, s; auto|]. exists x, s. split; [lia|exact H]. }
    destruct (Nat.eqb_spec (act r i) i) as [E|E].
    + exists b. split; [exact Eb|]. rewrite Hb, STEP. split; [auto|]. intros [(s & W & _)|H]; [|exact H]. exfalso. apply W. apply r_fix; [lia|exact E].
    + destruct (cycle_home WF ER (x := i)) as (s & Es & Hs); [fold nb; lia|]. rewrite Es. cbn [bind].
      assert (W : working_bell L nb i) by (split; [lia|]; rewrite <- r_fix by lia; exact E).
      destruct (Nat.eqb_spec s wb) as [->|N].
      * exists b. split; [exact Eb|]. rewrite Hb, STEP. split; [auto|]. intros [(s & _ & H & N)|H]; [|exact H]. exfalso. apply N. exact (home_unique H Hs).
      * exists true. split; [reflexivity|]. rewrite STEP. split; [|reflexivity]. intros _. left. exists s. auto.
Qed.

(* how far the treble gets *)
Lemma range_spec x l k lo hi : skipn k L = l -> k <= n ->
  (exists t, path L x t = lo) -> (exists t, path L x t = hi) -> (forall t, t <= k -> lo <= path L x t <= hi) ->
  exists lo' hi', range_loop l (path L x k) lo hi = (lo', hi') /\
    (exists t, path L x t = lo') /\ (exists t, path L x t = hi') /\ (forall t, t <= n -> lo' <= path L x t <= hi').
Proof.
  revert k lo hi. induction l as [|c l IH]; intros k lo hi E Hk V1 V2 B; cbn [range_loop].
  - exists lo, hi. split; [reflexivity|]. split; [exact V1|]. split; [exact V2|]. intros t Ht. apply B.
    assert (Z := f_equal (@length _) E). rewrite skipn_length in Z. fold n in Z. cbn in Z. lia.
  - assert (Hk' : k < n) by (assert (Z := f_equal (@length _) E); rewrite skipn_length in Z; fold n in Z; cbn in Z; lia).
    destruct (@path_step m _ (c :: l) k E Hk' eq_refl) as (c' & rest & [= <- <-] & Ec & Es). rewrite (bell_mul_c WF _ Ec).
    assert (P : swap_pos (cswaps c) (path L x k) = path L x (S k)).
    { cbn [path]. fold n. rewrite Nat.mod_small by lia. fold L in Ec. rewrite Ec. reflexivity. }
    rewrite P. apply IH; auto; try lia.
    + destruct (_ <? _); eauto.
    + destruct (_ <? _); eauto.
    + intros t Ht. destruct (Nat.eq_dec t (S k)) as [->|].
      * specialize (B k (Nat.le_refl _)). destruct (Nat.ltb_spec (path L x (S k)) lo); destruct (Nat.ltb_spec hi (path L x (S k))); lia.
      * specialize (B t ltac:(lia)). destruct (Nat.ltb_spec (path L x (S k)) lo); destruct (Nat.ltb_spec hi (path L x (S k))); lia.
Qed.
Lemma path_mod x t : hunt_bell L x -> 0 < n -> path L x t = path L x (t mod n).
Proof.
  intros H N. assert (E := Nat.div_mod t n ltac:(lia)). rewrite E at 1. rewrite Nat.mul_comm. assert (PL := path_leads m x (t / n) (t mod n)). fold L n in PL. rewrite PL. replace (path L x (t / n * n)) with x; [reflexivity|]. symmetry.
  assert (X := home_mul (m := m) (x := x) (a := 1) (t / n)). rewrite Nat.mul_1_r in X. apply X. rewrite Nat.mul_1_l. exact H.
Qed.
Lemma covers_spec x : hunt_bell L x -> exists lo hi, range_loop L x x x = (lo, hi) /\ covers L x lo hi.
Proof.
  intros H. destruct (@range_spec x L 0 x x) as (lo & hi & E & V1 & V2 & B); try reflexivity; try lia; try (now exists 0).
  { intros t Ht. assert (t = 0) by lia. subst t. cbn. lia. }
  exists lo, hi. split; [exact E|]. split; [exact V1|]. split; [exact V2|]. intros t.
  destruct (Nat.eq_dec n 0) as [Z|Z].
  - assert (L = []) as EL by (now apply length_zero_iff_nil). specialize (B 0 ltac:(lia)). cbn in B. clear -B EL. rewrite EL.
    induction t as [|t IH]; [exact B|]. cbn. destruct t; exact IH.
  - rewrite (@path_mod x t H) by lia. apply B. assert (X := Nat.mod_upper_bound t n ltac:(lia)). lia.
Qed.

(* any dodge is shared with another bell, so looking at bells 1 and up is enough *)
Lemma path_onto k y : y < nb -> exists x, x < nb /\ path L x k = y.
Proof.
  intros Hy. revert y Hy. induction k as [|k IH]; intros y Hy; [exists y; auto|]. cbn [path]. fold n.
  destruct (nth_error L (k mod n)) as [c|] eqn:E.
  - destruct (m_change WF E) as [Hc W]. fold nb in Hc.
    assert (Q : swap_pos (cswaps c) y < nb) by (rewrite <- Hc in *; now apply (swap_pos_lt W)).
    destruct (IH _ Q) as (x & Hx & Ex). exists x. split; [exact Hx|]. rewrite Ex. apply (swap_pos_invol _ W).
  - apply IH. exact Hy.
Qed.
Lemma dodge_partner x : x < nb -> dodges L x -> exists y, y < nb /\ y <> x /\ dodges L y.
Proof.
  intros Hx (k & Hk & E1 & E2). destruct (@path_onto k (path L x (k - 1))) as (y & Hy & Ey); [now apply (path_lt WF)|].
  exists y. split; [exact Hy|]. assert (N : y <> x) by (intros ->; congruence). split; [exact N|].
  (* one change takes x from a to b, and y from b to a *)
  assert (S1 : forall t z w, path L z (S t) = path L w t -> path L z t <> path L z (S t) -> path L w (S t) = path L z t).
  { intros t z w. cbn [path]. fold n. destruct (nth_error L (t mod n)) as [c|] eqn:E; [|intros X Y; congruence].
    destruct (m_change WF E) as [Hc W]. intros X Y. rewrite <- X. apply (swap_pos_invol _ W). }
  assert (A : path L y (k - 1) = path L x k).
  { destruct (@path_onto (k - 1) (path L x k)) as (w & Hw & Ew); [now apply (path_lt WF)|].
    assert (X := S1 (k - 1) x w). replace (S (k - 1)) with k in X by lia. rewrite Ew in X. specialize (X eq_refl).
    assert (path L w k = path L x (k - 1)) by (apply X; congruence). assert (w = y) by (apply (path_inj WF (k := k)); fold L; congruence).
    now subst w. }
  assert (B : path L y (k + 1) = path L x k).
  { replace (k + 1) with (S k) in * by lia. apply S1; [congruence|]. congruence. }
  exists k. split; [exact Hk|]. split; [congruence|]. rewrite B, Ey. congruence.
Qed.
Lemma any_dodges_spec k i : i + k = nb \/ k = 0 /\ nb <= i -> 0 < n -> exists b, any_dodges k m i = Ret b /\
  (b = true <-> exists x, i <= x < nb /\ dodges L x).
Proof.
  intros Hi N. assert (B := nb255). revert i Hi. induction k as [|k IH]; intros i Hi; cbn [any_dodges].
  - exists false. split; [reflexivity|]. split; [discriminate|]. intros (x & Hx & _). lia.
  - assert (Hb : b8 i = i) by (unfold b8; apply Nat.mod_small; lia). rewrite Hb.
    destruct (hasdodges_spec WF (x := i)) as (d & Ed & Hd); [fold nb; lia|fold L n; lia|]. rewrite Ed. cbn [bind]. fold L n in Hd.
    destruct d.
    + exists true. split; [reflexivity|]. split; [|reflexivity]. intros _. exists i. split; [lia|]. now apply Hd.
    + destruct (IH (S i)) as (b & Eb & H); [lia|]. exists b. split; [exact Eb|]. rewrite H. split; intros (x & Hx & D).
      * exists x. split; [lia|exact D].
      * destruct (Nat.eq_dec x i) as [->|]; [|exists x; split; [lia|exact D]]. exfalso. assert (false = true) by (apply Hd; exact D). discriminate.
Qed.
Lemma some_dodges : 0 < n -> exists b, any_dodges (nb - 1) m 1 = Ret b /\ (b = true <-> exists x, x < nb /\ dodges L x).
Proof.
  intros N. destruct (@any_dodges_spec (nb - 1) 1) as (b & Eb & H); [lia|exact N|]. exists b. split; [exact Eb|]. rewrite H. split.
  - intros (x & Hx & D). exists x. split; [lia|exact D].
  - intros (x & Hx & D). destruct (Nat.eq_dec x 0) as [->|]; [|exists x; split; [lia|exact D]].
    destruct (dodge_partner Hx D) as (y & Hy & Ny & Dy). exists y. split; [lia|exact Dy].
Qed.

(* the blows of the half lead *)
Definition holds (c : list nat) (x lo w a d : nat) : Prop :=
  length c = w /\ forall q, q < w -> nth q c 0 = cnt (fun t => path L x t =? lo + q) a d mod 256.
Lemma count_step c x lo w a d : holds c x lo w a d -> lo <= path L x (a + d) < lo + w ->
  exists v c', vget c (path L x (a + d) - lo) = Ret v /\ vset c (path L x (a + d) - lo) (b8 (v + 1)) = Ret c' /\ holds c' x lo w a (S d).
Proof.
  intros [Lc H] B. set (q0 := path L x (a + d) - lo). exists (nth q0 c 0).
  rewrite (@vget_lt _ _ _ 0) by (unfold q0; lia). rewrite vset_lt by (unfold q0; lia). eexists. split; [reflexivity|]. split; [reflexivity|].
  split; [rewrite upd_length by (unfold q0; lia); exact Lc|]. intros q Hq. rewrite cnt_last. destruct (Nat.eq_dec q q0) as [->|N].
  - rewrite nth_upd by (unfold q0; lia). rewrite Nat.eqb_refl. rewrite H by exact Hq. unfold b8.
    assert (E : (path L x (a + d) =? lo + q0) = true) by (apply Nat.eqb_eq; unfold q0; lia). rewrite E. now rewrite Nat.add_mod_idemp_l by lia.
  - assert (E : (path L x (a + d) =? lo + q) = false) by (apply Nat.eqb_neq; unfold q0 in N; lia). rewrite E, Nat.add_0_r.
    rewrite nth_upd by (unfold q0; lia). apply Nat.eqb_neq in N. now rewrite N, H.
Qed.
Lemma count_loop_spec x lo w a k d c : 0 < n -> (forall t, lo <= path L x t < lo + w) -> holds c x lo w a d ->
  exists c', count_loop k m lo (Z.of_nat (a + d)) (c, 0 <? cnt (fun t => path L x (t + 1) =? path L x t) a d, path L x (a + d)) =
    Ret (c', 0 <? cnt (fun t => path L x (t + 1) =? path L x t) a (d + k), path L x (a + (d + k))) /\ holds c' x lo w a (d + k).
Proof.
  intros N B. revert d c. induction k as [|k IH]; intros d c Hc; cbn [count_loop].
  - rewrite Nat.add_0_r. exists c. split; [reflexivity|exact Hc].
  - assert (Bd := B (a + d)). destruct (Nat.ltb_spec (path L x (a + d)) lo) as [X|_]; [lia|].
    destruct (count_step Hc Bd) as (v & c' & E1 & E2 & H'). rewrite E1. cbn [bind]. rewrite E2. cbn [bind].
    unfold mlen. fold L n. rewrite rem_nat, mget_nat. fold L.
    destruct (@nth_error_some _ L ((a + d) mod n)) as (ch & Ec); [apply Nat.mod_upper_bound; lia|].
    rewrite (vget_some Ec). cbn [bind]. rewrite (bell_mul_c WF _ Ec).
    assert (P : swap_pos (cswaps ch) (path L x (a + d)) = path L x (a + S d)).
    { rewrite Nat.add_succ_r. cbn [path]. fold n. rewrite Ec. reflexivity. }
    rewrite P. replace (Z.of_nat (a + d) + 1)%Z with (Z.of_nat (a + S d)) by lia.
    assert (Q : (0 <? cnt (fun t => path L x (t + 1) =? path L x t) a d) || (path L x (a + S d) =? path L x (a + d)) =
      (0 <? cnt (fun t => path L x (t + 1) =? path L x t) a (S d))).
    { rewrite cnt_last. replace (a + d + 1) with (a + S d) by lia. destruct (_ =? _); [rewrite orb_true_r|rewrite orb_false_r, Nat.add_0_r; reflexivity].
      symmetry. apply Nat.ltb_lt. lia. }
    rewrite Q. replace (d + S k) with (S d + k) by lia. apply IH. exact H'.
Qed.
Lemma all_same_spec c k i : 1 <= i -> i + k <= length c -> exists b, all_same k c i = Ret b /\
  (b = true <-> forall q, i <= q < i + k -> nth q c 0 = nth (q - 1) c 0).
Proof.
  revert i. induction k as [|k IH]; intros i H1 Hi; cbn [all_same].
  - exists true. split; [reflexivity|]. split; [intros _ q Hq; lia|reflexivity].
  - rewrite (@vget_lt _ _ _ 0) by lia. cbn [bind]. rewrite (@vget_lt _ _ _ 0) by lia. cbn [bind].
    destruct (IH (S i)) as (b & Eb & H); [lia|lia|]. rewrite Eb. cbn [bind]. eexists. split; [reflexivity|].
    rewrite andb_true_iff, Nat.eqb_eq, H. split.
    + intros [A B] q Hq. destruct (Nat.eq_dec q i) as [->|]; [exact A|apply B; lia].
    + intros A. split; [apply A; lia|]. intros q Hq. apply A. lia.
Qed.

(* the cross sections *)
Lemma sections_spec step k : 0 < step -> forall i fuel y no, n / 2 <= i + 1 + k -> k <= fuel ->
  exists y' no', sections_loop fuel m (Z.of_nat step) (Z.of_nat i) y no = Ret (y', no') /\
    (y' = true <-> y = true \/ exists t c, i + t * step + 1 < n / 2 /\ (nth_error L (i + t * step) = Some c \/ nth_error L (n - 2 - (i + t * step)) = Some c) /\ internal c = true) /\
    (no' = true <-> no = true \/ exists t c, i + t * step + 1 < n / 2 /\ (nth_error L (i + t * step) = Some c \/ nth_error L (n - 2 - (i + t * step)) = Some c) /\ internal c = false).
Proof.
  intros Hs. assert (Hn2 : n / 2 * 2 <= n) by (rewrite Nat.mul_comm; apply Nat.mul_div_le; lia).
  assert (DONE : forall i fuel y no, n / 2 <= i + 1 ->
    exists y' no', sections_loop fuel m (Z.of_nat step) (Z.of_nat i) y no = Ret (y', no') /\
    (y' = true <-> y = true \/ exists t c, i + t * step + 1 < n / 2 /\ (nth_error L (i + t * step) = Some c \/ nth_error L (n - 2 - (i + t * step)) = Some c) /\ internal c = true) /\
    (no' = true <-> no = true \/ exists t c, i + t * step + 1 < n / 2 /\ (nth_error L (i + t * step) = Some c \/ nth_error L (n - 2 - (i + t * step)) = Some c) /\ internal c = false)).
  { intros i fuel y no Hi. assert (E : (Z.of_nat i <? Z.quot (mlen m) 2 - 1)%Z = false).
    { unfold mlen. fold L n. rewrite quot2_nat. apply Z.ltb_ge. lia. }
    assert (NO : forall t c P, ~ (i + t * step + 1 < n / 2 /\ (nth_error L (i + t * step) = Some c \/ nth_error L (n - 2 - (i + t * step)) = Some c) /\ P)).
    { intros t c P (X & _). generalize dependent (t * step). intros. lia. }
    exists y, no. split; [destruct fuel; cbn [sections_loop]; rewrite E; reflexivity|].
    split; (split; [auto|]); (intros [X|(t & c & X)]; [exact X|exfalso; eapply NO, X]). }
  induction k as [|k IH]; intros i fuel y no Hi Hf; [apply DONE; lia|].
  destruct (le_lt_dec (n / 2) (i + 1)) as [D|D]; [now apply DONE|].
  destruct fuel as [|fuel]; [lia|]. cbn [sections_loop].
  assert (E : (Z.of_nat i <? Z.quot (mlen m) 2 - 1)%Z = true).
  { unfold mlen. fold L n. rewrite quot2_nat. apply Z.ltb_lt. lia. }
  rewrite E. rewrite mget_nat. fold L.
  destruct (@nth_error_some _ L i) as (c1 & Ec1); [fold n; lia|]. rewrite (vget_some Ec1). cbn [bind].
  unfold mlen at 1. fold L n. replace (Z.of_nat n - Z.of_nat i - 2)%Z with (Z.of_nat (n - 2 - i)) by lia. rewrite mget_nat. fold L.
  destruct (@nth_error_some _ L (n - 2 - i)) as (c2 & Ec2); [fold n; lia|]. rewrite (vget_some Ec2). cbn [bind].
  replace (Z.of_nat i + Z.of_nat step)%Z with (Z.of_nat (i + step)) by lia.
  destruct (IH (i + step) fuel (y || internal c1 || internal c2) (no || negb (internal c1) || negb (internal c2))) as (y' & no' & E' & Hy & Hno); [lia|lia|].
  exists y', no'. split; [exact E'|].
  assert (STEP : forall b, (exists t c, i + t * step + 1 < n / 2 /\ (nth_error L (i + t * step) = Some c \/ nth_error L (n - 2 - (i + t * step)) = Some c) /\ internal c = b) <->
    (internal c1 = b \/ internal c2 = b \/ exists t c, i + step + t * step + 1 < n / 2 /\ (nth_error L (i + step + t * step) = Some c \/ nth_error L (n - 2 - (i + step + t * step)) = Some c) /\ internal c = b)).
  { intros b. split.
    - intros ([|t] & c & X & Y & Z).
      + rewrite Nat.mul_0_l, Nat.add_0_r in *. destruct Y as [Y|Y]; [left|right; left]; congruence.
      + right. right. exists t, c. replace (i + step + t * step) with (i + S t * step) by lia. auto.
    - intros [X|[X|(t & c & X)]].
      + exists 0, c1. rewrite Nat.mul_0_l, Nat.add_0_r. auto.
      + exists 0, c2. rewrite Nat.mul_0_l, Nat.add_0_r. auto.
      + exists (S t), c. replace (i + S t * step) with (i + step + t * step) by lia. exact X. }
  split.
  - rewrite Hy, STEP. rewrite !orb_true_iff. tauto.
  - rewrite Hno, STEP. rewrite !orb_true_iff, !negb_true_iff. tauto.
Qed.
End M.
