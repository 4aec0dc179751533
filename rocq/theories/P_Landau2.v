(* P_Landau2.v - the loops of landau keep the greatest products of prime powers. *)
From Coq Require Import Znumtheory Zpow_facts Permutation.
From Verif Require Import Base M_Math M_Landau Spec_Row Spec_Landau P_Math P_Landau.
Set Implicit Arguments.
Unset Strict Implicit.
Open Scope Z_scope.

Definition is_max (ps : list Z) (m v : Z) : Prop := ach ps m v /\ forall k, ach ps m k -> k <= v.
(* no product formed of numbers of sum at most n exceeds 32 bits *)
Definition nowrap (n : Z) : Prop := forall ps m k, Forall prime ps -> NoDup ps -> m <= n -> ach ps m k -> k < 4294967296.

Lemma u32_id x : 0 <= x < 4294967296 -> u32 x = x.
Proof. intros H. unfold u32. now apply Z.mod_small. Qed.

Lemma landau_q_spec ps p m (P : prime p) (F : Forall prime ps) (ND : NoDup ps) (N : ~ In p ps) : nowrap m -> 0 <= m < 65536 ->
  forall fuel a g, 0 < a -> m - p ^ a < Z.of_nat fuel -> (Z.to_nat m < length g)%nat ->
  (forall i, 0 <= i < m -> is_max ps i (nth (Z.to_nat i) g 0)) ->
  ach (p :: ps) m (nth (Z.to_nat m) g 0) -> (forall k, ach ps m k -> k <= nth (Z.to_nat m) g 0) ->
  (forall b k, 0 < b < a -> ach ps (m - p ^ b) k -> p ^ b * k <= nth (Z.to_nat m) g 0) ->
  exists g', landau_q fuel p m (p ^ a) g = Ret g' /\ length g' = length g /\
    (forall i, i <> Z.to_nat m -> nth i g' 0 = nth i g 0) /\ is_max (p :: ps) m (nth (Z.to_nat m) g' 0).
Proof.
  intros NW M. assert (P2 := prime_pos P). induction fuel as [|fuel IH]; intros a g A FU L H0 H1 H2 H3; assert (PA : 0 < p ^ a) by (apply Z.pow_pos_nonneg; lia);
    cbn [landau_q]; destruct (Z.leb_spec (p ^ a) m) as [Q|Q]; try (exfalso; lia).
  1,3: exists g; split; [reflexivity|]; split; [reflexivity|]; split; [reflexivity|]; split; [exact H1|];
    intros k K; inversion K as [| |q qs m' k' b B K']; subst; [now apply H2|]; apply H3; [|replace (m' + p ^ b - p ^ b) with m' by lia; exact K'];
    split; [exact B|]; destruct (Z_lt_ge_dec b a) as [|G]; [assumption|]; exfalso;
    assert (p ^ a <= p ^ b) by (apply Z.pow_le_mono_r; lia); destruct (ach_pos F K'); lia.
  rewrite (@vget_lt _ _ _ 0) by lia. cbn [bind]. rewrite (@vget_lt _ _ _ 0) by lia. cbn [bind].
  set (x := nth (Z.to_nat (m - p ^ a)) g 0) in *. set (y := nth (Z.to_nat m) g 0) in *.
  assert (HX : is_max ps (m - p ^ a) x) by (apply H0; lia). destruct HX as [X1 X2].
  assert (AX : ach (p :: ps) m (p ^ a * x)) by (replace m with (m - p ^ a + p ^ a) by lia; now apply ach_take).
  assert (F' : Forall prime (p :: ps)) by now constructor. assert (ND' : NoDup (p :: ps)) by now constructor.
  destruct (ach_pos F' AX) as [PX _]. rewrite (u32_id (x := p ^ a * x)) by (split; [lia|]; exact (NW _ _ _ F' ND' (Z.le_refl m) AX)).
  assert (EQ : p ^ a * p = p ^ (a + 1)) by (rewrite Z.pow_add_r, Z.pow_1_r by lia; reflexivity).
  assert (PL : p <= p ^ a) by (replace a with ((a - 1) + 1) by lia; rewrite Z.pow_add_r, Z.pow_1_r by lia; assert (0 < p ^ (a - 1)) by (apply Z.pow_pos_nonneg; lia); nia).
  rewrite (u32_id (x := p ^ a * p)) by nia. rewrite EQ. assert (GR : p ^ a < p ^ (a + 1)) by (rewrite <- EQ; nia).
  destruct (Z.ltb_spec y (p ^ a * x)) as [C|C].
  - rewrite vset_lt by exact L. cbn [bind]. set (g1 := upd g (Z.to_nat m) (p ^ a * x)). assert (L1 : length g1 = length g) by (unfold g1; now rewrite upd_length).
    assert (NG : forall i, nth i g1 0 = if (i =? Z.to_nat m)%nat then p ^ a * x else nth i g 0) by (intros i; unfold g1; rewrite nth_upd by exact L; reflexivity).
    assert (NM : nth (Z.to_nat m) g1 0 = p ^ a * x) by (rewrite NG, Nat.eqb_refl; reflexivity).
    destruct (IH (a + 1) g1) as (g' & E & Lg & O & MX); [lia|lia|now rewrite L1| | | | |].
    + intros i Hi. rewrite NG. destruct (Nat.eqb_spec (Z.to_nat i) (Z.to_nat m)); [lia|now apply H0].
    + now rewrite NM.
    + intros k K. rewrite NM. specialize (H2 k K). lia.
    + intros b k B K. rewrite NM. destruct (Z.eq_dec b a) as [->|]; [specialize (X2 k K); nia|]. specialize (H3 b k ltac:(lia) K). lia.
    + exists g'. split; [exact E|]. split; [now rewrite Lg|]. split; [|exact MX]. intros i Hi. rewrite O by exact Hi. rewrite NG. destruct (Nat.eqb_spec i (Z.to_nat m)); [contradiction|reflexivity].
  - cbn [bind]. apply IH; [lia|lia|exact L|exact H0|exact H1|exact H2|].
    intros b k B K. fold y. destruct (Z.eq_dec b a) as [->|]; [specialize (X2 k K); nia|]. apply H3; [lia|exact K].
Qed.

Lemma nowrap_le n m : nowrap n -> m <= n -> nowrap m.
Proof. intros N L ps j k F ND J A. apply (N ps j k F ND); [lia|exact A]. Qed.

Lemma landau_m_spec ps p fuel (P : prime p) (F : Forall prime ps) (ND : NoDup ps) (N : ~ In p ps) m : nowrap (Z.of_nat m) -> Z.of_nat m < 65536 -> (m < fuel)%nat ->
  forall g, (m < length g)%nat -> (forall i, (i <= m)%nat -> is_max ps (Z.of_nat i) (nth i g 0)) ->
  exists g', landau_m fuel p m g = Ret g' /\ length g' = length g /\ (forall i, (i <= m)%nat -> is_max (p :: ps) (Z.of_nat i) (nth i g' 0)) /\
    (forall i, (m < i)%nat -> nth i g' 0 = nth i g 0).
Proof.
  assert (P2 := prime_pos P). induction m as [|m IH]; intros NW M FU g L H.
  - exists g. split; [reflexivity|]. split; [reflexivity|]. split; [|reflexivity]. intros i Hi. replace i with 0%nat by lia. destruct (H 0%nat ltac:(lia)) as [H1 H2].
    split; [now apply ach_skip|]. intros k K. inversion K as [| |q qs m' k' b B K']; subst; [now apply H2|]. exfalso.
    assert (0 < p ^ b) by (apply Z.pow_pos_nonneg; lia). destruct (ach_pos F K'). lia.
  - cbn [landau_m].
    destruct (@landau_q_spec ps p (Z.of_nat (S m)) P F ND N NW ltac:(lia) fuel 1 g) as (g1 & E & L1 & O & MX); rewrite ?Z.pow_1_r, ?Nat2Z.id in *; try lia.
    + intros i Hi. rewrite <- (Z2Nat.id i) at 1 by lia. apply H. lia.
    + apply ach_skip. now apply H.
    + now apply H.
    + rewrite E. cbn [bind]. destruct (IH (nowrap_le (m := Z.of_nat m) NW ltac:(lia)) ltac:(lia) ltac:(lia) g1 ltac:(lia)) as (g2 & E2 & L2 & M2 & O2).
      * intros i Hi. rewrite O by lia. apply H. lia.
      * exists g2. split; [exact E2|]. split; [now rewrite L2|]. split.
        -- intros i Hi. destruct (Nat.eq_dec i (S m)) as [->|]; [rewrite O2 by lia; exact MX|apply M2; lia].
        -- intros i Hi. rewrite O2 by lia. apply O. lia.
Qed.

Lemma next_prime_mono f f' n p : next_prime_loop f n = Ret p -> (f <= f')%nat -> next_prime_loop f' n = Ret p.
Proof.
  revert f' n. induction f as [|f IH]; intros f' n E H; [discriminate|]. destruct f' as [|f']; [lia|]. cbn [next_prime_loop] in E |- *.
  destruct (is_prime (u32 (n + 1))); [exact E|]. apply IH; [exact E|lia].
Qed.
Lemma landau_p_spec pmax n : pmax < 4294967291 -> nowrap (Z.of_nat n) -> Z.of_nat n < 65536 -> forall d p ps, pmax - p < Z.of_nat d -> prime p ->
  Forall prime ps -> NoDup ps -> (forall q, prime q -> q < p -> In q ps) -> (forall q, In q ps -> q < p /\ q <= pmax) ->
  exists f0, forall k fuel g, (f0 <= k)%nat -> (f0 <= fuel)%nat -> length g = (n + 1)%nat -> (forall i, (i <= n)%nat -> is_max ps (Z.of_nat i) (nth i g 0)) ->
  exists g' ps', landau_p k fuel pmax n p g = Ret g' /\ length g' = (n + 1)%nat /\ Forall prime ps' /\ NoDup ps' /\
    (forall q, In q ps' <-> prime q /\ q <= pmax) /\ (forall i, (i <= n)%nat -> is_max ps' (Z.of_nat i) (nth i g' 0)).
Proof.
  intros PM NW NB. induction d as [|d IH]; intros p ps D P F ND H1 H2; assert (P2 := prime_pos P).
  1: { exists 0%nat. intros k fuel g _ _ L H. exists g, ps. destruct k; cbn [landau_p]; (destruct (Z.leb_spec p pmax); [lia|]);
       (split; [reflexivity|]); (split; [exact L|]); (split; [exact F|]); (split; [exact ND|]); (split; [|exact H]); intros q; split;
       [intros Hq; split; [rewrite Forall_forall in F; now apply F|now apply H2]|intros [Q1 Q2]; apply H1; [exact Q1|lia]
       |intros Hq; split; [rewrite Forall_forall in F; now apply F|now apply H2]|intros [Q1 Q2]; apply H1; [exact Q1|lia]]. }
  destruct (Z_lt_ge_dec pmax p) as [G|G].
  { exists 0%nat. intros k fuel g _ _ L H. exists g, ps. destruct k; cbn [landau_p]; (destruct (Z.leb_spec p pmax); [lia|]);
       (split; [reflexivity|]); (split; [exact L|]); (split; [exact F|]); (split; [exact ND|]); (split; [|exact H]); intros q; split;
       [intros Hq; split; [rewrite Forall_forall in F; now apply F|now apply H2]|intros [Q1 Q2]; apply H1; [exact Q1|lia]
       |intros Hq; split; [rewrite Forall_forall in F; now apply F|now apply H2]|intros [Q1 Q2]; apply H1; [exact Q1|lia]]. }
  destruct (@next_prime_spec p ltac:(lia)) as (f1 & p' & E1 & L1 & P' & GAP).
  assert (N : ~ In p ps) by (intros X; apply H2 in X; lia).
  destruct (IH p' (p :: ps)) as (f0 & Hf); [lia|exact P'|now constructor|now constructor| |intros q [<-|Hq]; [lia|destruct (H2 q Hq); lia]|].
  - intros q Q Lq. destruct (Z.eq_dec q p) as [->|]; [now left|]. right. apply H1; [exact Q|]. destruct (Z_lt_ge_dec q p) as [|GG]; [assumption|]. destruct (GAP q); [lia|exact Q].
  - exists (S (f0 + f1 + n)). intros k fuel g Hk Hfu L H. destruct k as [|k]; [lia|]. cbn [landau_p]. destruct (Z.leb_spec p pmax); [|lia].
    destruct (@landau_m_spec ps p fuel P F ND N n NW NB ltac:(lia) g ltac:(lia) H) as (g1 & E & Lg & M & _). rewrite E. cbn [bind].
    rewrite (@next_prime_mono _ fuel _ _ E1 ltac:(lia)). cbn [bind]. apply Hf; [lia|lia|lia|exact M].
Qed.

Lemma landau_max pmax n : pmax < 4294967291 -> nowrap (Z.of_nat n) -> Z.of_nat n < 65536 ->
  exists f0, forall fuel, (f0 <= fuel)%nat -> exists v ps, landau fuel pmax n = Ret v /\ Forall prime ps /\ NoDup ps /\
    (forall q, In q ps <-> prime q /\ q <= pmax) /\ is_max ps (Z.of_nat n) v.
Proof.
  intros PM NW NB. destruct (@landau_p_spec pmax n PM NW NB (Z.to_nat (pmax + 1)) 2 []) as (f0 & H); [lia|exact prime_2|constructor|constructor| |intros q []|].
  - intros q Q L. assert (Q2 := prime_pos Q). lia.
  - exists f0. intros fuel Hf. destruct (H fuel fuel (repeat 1 (n + 1)) Hf Hf) as (g & ps & E & L & F & ND & I & M).
    + apply repeat_length.
    + intros i Hi. rewrite (nth_indep _ 0 1) by (rewrite repeat_length; lia); rewrite nth_repeat. split; [constructor; lia|]. intros k K. inversion K; lia.
    + exists (nth n g 0), ps. unfold landau. rewrite E. cbn [bind]. rewrite (@vget_lt _ _ _ 0) by lia. split; [reflexivity|]. split; [exact F|]. split; [exact ND|]. split; [exact I|]. now apply M.
Qed.
