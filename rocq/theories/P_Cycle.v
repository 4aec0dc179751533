(* P_Cycle.v - cycles(), num_cycles(), cycle_size(), sign(). *)
From Verif Require Import Base M_Bell M_Math M_Change M_Row Spec_Row Spec_Change Spec_Cycle
  P_Row P_Bell P_Change P_Change2 P_Change3.
Set Implicit Arguments.
Unset Strict Implicit.

Definition repr (n : nat) (done : list bool) (D : list nat) : Prop :=
  length done = n /\ forall j, j < n -> nth j done false = true <-> In j D.

Lemma repr_get n done D j : repr n done D -> j < n ->
  exists b, vget done j = Ret b /\ (b = true <-> In j D).
Proof.
  intros [L H] Hj. exists (nth j done false). split; [apply vget_lt; lia|now apply H].
Qed.

Lemma repr_set n done D j : repr n done D -> j < n ->
  exists done', vset done j true = Ret done' /\ repr n done' (D ++ [j]).
Proof.
  intros [L H] Hj. exists (upd done j true). split; [apply vset_lt; lia|]. split.
  - rewrite upd_length; lia.
  - intros i Hi. rewrite nth_upd by lia. rewrite in_app_iff. cbn.
    destruct (Nat.eqb_spec i j) as [->|E]; [tauto|]. rewrite (H i Hi).
    split; [tauto|intros [?|[?|[]]]; [assumption|congruence]].
Qed.

(* following one cycle *)
Lemma walk_spec x : is_row x -> forall fuel D v i done,
  repr (length x) done (D ++ v) -> NoDup (D ++ v ++ [i]) ->
  (forall j, In j (D ++ v ++ [i]) -> j < length x) ->
  (forall j, act x j = j \/ True) ->
  (forall j, In (act x j) D -> In j D) ->
  chain (act x) v i ->
  length x < length D + length v + fuel ->
  exists l done', walk_cycle fuel x done i = Ret (l, done', hd i v) /\
    chain (act x) (v ++ l) (hd i v) /\ l <> [] /\ hd 0 l = i /\
    repr (length x) done' (D ++ v ++ l) /\ NoDup (D ++ v ++ l) /\
    (forall j, In j (D ++ v ++ l) -> j < length x).
Proof.
  intros Px. induction fuel as [|fuel IH]; intros D v i done R N B _ Cl Ch F.
  { assert (X : length (D ++ v ++ [i]) <= length (seq 0 (length x))).
    { apply NoDup_incl_length; auto. intros j Hj. apply in_seq. specialize (B j Hj). lia. }
    rewrite seq_length, !app_length in X. cbn in X. lia. }
  cbn [walk_cycle].
  assert (Hi : i < length x) by (apply B; rewrite !in_app_iff; cbn; tauto).
  destruct (repr_set R Hi) as (done1 & E1 & R1). rewrite E1. cbn [bind].
  rewrite (vget_lt x 0) by exact Hi. cbn [bind]. rewrite <- (@act_nth x i 0) by exact Hi.
  assert (Hi' : act x i < length x) by now apply act_lt.
  rewrite <- app_assoc in R1.
  destruct (repr_get R1 Hi') as (b & E2 & Hb). rewrite E2. cbn [bind].
  destruct b.
  - (* back at the start *)
    assert (In' : In (act x i) (D ++ v ++ [i])) by now apply Hb.
    assert (E : act x i = hd i v).
    { rewrite !in_app_iff in In'. destruct In' as [H|[H|H]].
      - apply Cl in H. apply NoDup_app_iff in N. destruct N as (_ & _ & N).
        destruct (N i H). apply in_or_app. right. now left.
      - destruct (in_split _ _ H) as (p & q & ->). destruct p as [|p0 p] using rev_ind.
        + reflexivity.
        + exfalso. clear IHp. rewrite <- app_assoc in Ch. cbn [app] in Ch.
          apply chain_app in Ch. destruct Ch as [_ Ch]. cbn [chain hd] in Ch.
          destruct Ch as [Ep _]. apply act_inj in Ep; auto. subst p0.
          apply NoDup_app_iff in N. destruct N as (_ & N & _).
          rewrite <- !app_assoc in N. apply NoDup_app_iff in N. destruct N as (_ & N & _).
          cbn [app] in N. inversion N as [|? ? X _]; subst. apply X. right.
          rewrite in_app_iff. right. now left.
      - destruct H as [H|[]]. destruct v as [|v0 v]; [auto|]. cbn [hd].
        exfalso. 
        assert (L : v0 :: v <> []) by discriminate.
        apply (chain_last Ch) in L.
        assert (L' := eq_trans L H). apply act_inj in L'; auto. clear L; rename L' into L.
        assert (X : In i (v0 :: v)).
        { rewrite <- L at 1. apply nth_In. cbn. lia. }
        apply NoDup_app_iff in N. destruct N as (_ & N & _). apply NoDup_app_iff in N.
        destruct N as (_ & _ & N). apply (N i X). now left. }
    exists [i], done1. rewrite E. split; [reflexivity|]. split.
    { apply chain_app. cbn [hd chain]. split; auto. }
    split; [discriminate|]. split; [reflexivity|]. split; [exact R1|]. split; [exact N|exact B].
  - assert (NI : ~ In (act x i) (D ++ v ++ [i])) by (intros H; apply Hb in H; discriminate).
    destruct (IH D (v ++ [i]) (act x i) done1) as (l & done' & E & C & NE & Hd & R' & N' & B'); auto.
    + rewrite <- app_assoc. cbn [app].
      assert (PP : Permutation (act x i :: D ++ v ++ [i]) (D ++ v ++ [i; act x i])) by perm_nat.
      apply (Permutation_NoDup PP). now constructor.
    + intros j. rewrite <- app_assoc. cbn [app]. rewrite !in_app_iff. cbn.
      intros [H|[H|[H|[H|[]]]]]; subst; auto; apply B; rewrite !in_app_iff; tauto.
    + apply chain_app. cbn [hd chain]. auto.
    + rewrite app_length. cbn. lia.
    + rewrite E. cbn [bind]. exists (i :: l), done'.
      assert (HH : hd (act x i) (v ++ [i]) = hd i v) by (destruct v; reflexivity).
      rewrite HH in *. split; [reflexivity|].
      rewrite <- !app_assoc in *. cbn [app] in *. split; [exact C|].
      split; [discriminate|]. split; [reflexivity|]. auto.
Qed.

Lemma next_undone_spec n done D : repr n done D -> forall fuel i, i <= n -> n < i + fuel ->
  (forall j, j < i -> In j D) ->
  exists i', next_undone fuel done i = Ret i' /\ i' <= n /\ (forall j, j < i' -> In j D) /\
    (i' < n -> ~ In i' D).
Proof.
  intros R. induction fuel as [|fuel IH]; intros i Hi F H; [lia|]. cbn [next_undone].
  assert (L : length done = n) by apply R. rewrite L.
  destruct (Nat.ltb_spec i n) as [Hn|Hn].
  - destruct (repr_get R Hn) as (b & E & Hb). rewrite E. cbn [bind]. destruct b.
    + apply IH; try lia. intros j Hj. destruct (Nat.eq_dec j i) as [->|]; [now apply Hb|apply H; lia].
    + exists i. split; [reflexivity|]. split; [lia|]. split; [exact H|].
      intros _ X. apply Hb in X. discriminate.
  - exists i. split; [reflexivity|]. split; [lia|]. split; [exact H|lia].
Qed.

(* the heads of the cycles found increase and each is least in its cycle *)
Fixpoint heads_ok (lo : nat) (ls : list (list nat)) : Prop :=
  match ls with
  | [] => True
  | l :: ls => lo <= hd 0 l /\ (forall j, In j l -> hd 0 l <= j) /\ heads_ok (S (hd 0 l)) ls
  end.

Lemma cycles_loop_spec x : is_row x -> forall fuel D i done,
  repr (length x) done D -> NoDup D -> (forall j, In j D -> j < length x) ->
  (forall j, In (act x j) D <-> In j D) ->
  (forall j, j < i -> In j D) -> i <= length x ->
  length x < length D + fuel ->
  exists ls, cycles_loop fuel x done i = Ret ls /\
    Permutation (D ++ concat ls) (seq 0 (length x)) /\
    Forall (is_cycle (act x)) ls /\ heads_ok i ls.
Proof.
  intros Px. induction fuel as [|fuel IH]; intros D i done R N B Cl Lo Hi F.
  { assert (X : length D <= length (seq 0 (length x))).
    { apply NoDup_incl_length; auto. intros j Hj. apply in_seq. specialize (B j Hj). lia. }
    rewrite seq_length in X. lia. }
  cbn [cycles_loop].
  destruct (@next_undone_spec _ _ _ R (S (length x)) i) as (k & E & Hk & Hlo & Hnk); auto; [lia|].
  rewrite E. cbn [bind]. destruct (Nat.eqb_spec k (length x)) as [Ek|Ek].
  - exists []. split; [reflexivity|]. split; [|split; [constructor|exact I]].
    cbn [concat]. rewrite app_nil_r. apply NoDup_Permutation; auto; [apply seq_NoDup|].
    intros j. rewrite in_seq. split; [intros H; specialize (B j H); lia|].
    intros H. apply Hlo. lia.
  - assert (Hkn : k < length x) by lia. specialize (Hnk Hkn).
    destruct (@walk_spec x Px (S (length x)) D [] k done) as (l & done' & E' & C & NE & Hd & R' & N' & B'); auto.
    + now rewrite app_nil_r.
    + cbn [app]. apply (Permutation_NoDup (l := k :: D)); [|now constructor].
      perm_nat.
    + intros j. cbn [app]. rewrite in_app_iff. cbn. intros [H|[<-|[]]]; auto.
    + intros j. apply Cl.
    + exact I.
    + lia.
    + cbn [app hd] in *. rewrite E'. cbn [bind].
      assert (IC : is_cycle (act x) l) by (split; [exact NE|rewrite Hd; exact C]).
      assert (NL : NoDup l) by (now apply NoDup_app_iff in N').
      assert (Cl' : forall j, In (act x j) (D ++ l) <-> In j (D ++ l)).
      { intros j. rewrite !in_app_iff, Cl. split; intros [H|H]; auto; right.
        - destruct (In_nth l _ 0 H) as (a & Ha & Ea).
          destruct (@cycle_reach _ _ (act x j) (act x j) IC H H) as (k0 & _ & _).
          assert (Q : exists b, b < length l /\ act x (nth b l 0) = act x j).
          { rewrite <- Ea. destruct a as [|a].
            - exists (length l - 1). split; [lia|]. rewrite (cycle_nth IC) by lia.
              replace (S (length l - 1)) with (length l) by lia. rewrite Nat.mod_same by lia. reflexivity.
            - exists a. split; [lia|]. rewrite (cycle_nth IC) by lia. now rewrite Nat.mod_small by lia. }
          destruct Q as (b & Hb & Eb). apply act_inj in Eb; auto. rewrite <- Eb. now apply nth_In.
        - apply (cycle_closed 1 IC H). }
      destruct (IH (D ++ l) k done') as (ls & E2 & P2 & F2 & H2); auto.
      { intros j Hj. apply in_or_app. left. now apply Hlo. }
      { rewrite app_length. destruct l; [congruence|]. cbn. lia. }
      (* heads: need lower bound S k *)
      rewrite E2. cbn [bind]. exists (l :: ls). split; [reflexivity|]. split; [|split].
      * cbn [concat]. rewrite app_assoc. exact P2.
      * constructor; auto.
      * cbn [heads_ok]. rewrite Hd. split; [|split].
        -- destruct (le_lt_dec i k); auto. exfalso. apply Hnk, Lo. lia.
        -- intros j Hj. destruct (le_lt_dec k j); auto. exfalso.
           apply NoDup_app_iff in N'. destruct N' as (_ & _ & N'). exact (N' j (Hlo j l0) Hj).
        -- destruct ls as [|l2 ls]; [exact I|]. cbn [heads_ok] in *. destruct H2 as (A1 & A2 & A3).
           split; [|auto].
           assert (hd 0 l2 <> k); [|lia].
           intros Ex. apply (Permutation_NoDup (Permutation_sym P2)) in N || idtac.
           assert (N2 : NoDup ((D ++ l) ++ concat (l2 :: ls))) by (apply (Permutation_NoDup (Permutation_sym P2)), seq_NoDup).
           apply NoDup_app_iff in N2. destruct N2 as (_ & _ & N2).
           apply (N2 k).
           ++ apply in_or_app. right. rewrite <- Hd. destruct l; [congruence|now left].
           ++ cbn [concat]. apply in_or_app. left. rewrite <- Ex.
              inversion F2 as [|? ? [Q _] _]; subst. destruct l2; [congruence|now left].
Qed.

Lemma cycle_lists_spec x : is_row x ->
  exists cs, cycle_lists x = Ret cs /\ decomp (act x) (length x) cs /\ heads_ok 0 cs.
Proof.
  intros Px. unfold cycle_lists.
  destruct (@cycles_loop_spec x Px (S (length x)) [] 0 (repeat false (length x))) as (ls & E & P & F & H).
  - split; [apply repeat_length|]. intros j Hj. rewrite nth_repeat. cbn. split; [discriminate|tauto].
  - constructor.
  - intros j [].
  - cbn. tauto.
  - lia.
  - lia.
  - cbn. lia.
  - exists ls. split; [exact E|]. split; [split; [exact P|exact F]|exact H].
Qed.

Lemma num_cycles_spec x : is_row x ->
  exists cs, decomp (act x) (length x) cs /\ num_cycles x = Ret (length cs).
Proof.
  intros Px. destruct (cycle_lists_spec Px) as (cs & E & D & _). exists cs. split; auto.
  unfold num_cycles. destruct x as [|a t].
  - destruct D as [D F]. cbn in D. apply Permutation_sym, Permutation_nil in D.
    destruct cs as [|c cs]; [reflexivity|]. inversion F as [|? ? [Q _] _]; subst.
    destruct c; [congruence|discriminate D].
  - now rewrite E.
Qed.

(* cycle_size *)
Lemma fpow_act_pow x k i : fpow (act x) k i = act_pow x k i.
Proof. induction k as [|k IH]; cbn; [reflexivity|now rewrite IH]. Qed.

Lemma cycle_size_loop_spec x b fuel k m : is_row x -> b < length x ->
  k < m -> act_pow x m b = b -> (forall i, 0 < i < m -> act_pow x i b <> b) ->
  m <= k + fuel ->
  cycle_size_loop fuel x b (act_pow x k b) k = Ret m.
Proof.
  intros Px Hb. revert k. induction fuel as [|fuel IH]; intros k Hk E Min F; [lia|].
  cbn [cycle_size_loop].
  assert (Hk' : act_pow x k b < length x) by now apply act_pow_lt.
  rewrite (vget_lt x 0) by exact Hk'. cbn [bind]. rewrite <- (@act_nth x _ 0) by exact Hk'.
  change (act x (act_pow x k b)) with (act_pow x (S k) b).
  destruct (Nat.eqb_spec (act_pow x (S k) b) b) as [E'|E'].
  - f_equal. destruct (Nat.eq_dec (S k) m); auto. exfalso. apply (Min (S k)); [lia|exact E'].
  - apply IH; auto; [|lia]. destruct (Nat.eq_dec (S k) m) as [<-|]; [contradiction|lia].
Qed.

Lemma cycle_size_spec x b : is_row x -> b < length x ->
  exists m, cycle_size x b = Ret m /\ 0 < m <= length x /\ act_pow x m b = b /\
    forall i, 0 < i < m -> act_pow x i b <> b.
Proof.
  intros Px Hb. destruct (cycle_lists_spec Px) as (cs & _ & D & _).
  destruct (decomp_cover D Hb) as (c & Hc & Hbc). destruct (decomp_in D Hc) as (C & N & _ & L).
  assert (L0 : 0 < length c) by (destruct c; [destruct Hbc|cbn; lia]).
  assert (Per : forall k, act_pow x k b = b <-> Nat.divide (length c) k).
  { intros k. rewrite <- fpow_act_pow. now apply cycle_period. }
  exists (length c).
  assert (Min : forall i, 0 < i < length c -> act_pow x i b <> b).
  { intros i Hi E. apply Per in E. apply Nat.divide_pos_le in E; lia. }
  assert (Ret0 : act_pow x (length c) b = b) by (apply Per; exists 1; lia).
  split; [|split; [lia|split; [exact Ret0|exact Min]]].
  unfold cycle_size. apply (@cycle_size_loop_spec x b (S (length x)) 0 (length c)); auto. lia.
Qed.

(* ---------------- sign ---------------- *)

Definition sgn_of (n m : nat) : Z := if Nat.even (n + m) then 1%Z else (-1)%Z.

Lemma concat_comma_length (h : nat -> ascii) (c : ascii) ls : 
  length (concat (map (fun l => map h l ++ [c]) ls)) = length (concat ls) + length ls.
Proof.
  induction ls as [|l ls IH]; cbn; [reflexivity|].
  rewrite !app_length, IH, map_length. cbn. lia.
Qed.

Lemma removelast_length A (l : list A) : length (removelast l) = length l - 1.
Proof.
  induction l as [|a t IH]; [reflexivity|]. destruct t as [|b t]; [reflexivity|].
  change (removelast (a :: b :: t)) with (a :: removelast (b :: t)). cbn [length] in *. lia.
Qed.

Lemma sign_spec sym x : is_row x ->
  exists cs, decomp (act x) (length x) cs /\ sign sym x = Ret (sgn_of (length x) (length cs)).
Proof.
  intros Px. destruct (cycle_lists_spec Px) as (cs & E & D & _). exists cs. split; auto.
  unfold sign, cycles. destruct x as [|a t].
  - destruct D as [D F]. cbn in D. apply Permutation_sym, Permutation_nil in D.
    destruct cs as [|c cs]; [reflexivity|]. inversion F as [|? ? [Q _] _]; subst.
    destruct c; [congruence|discriminate D].
  - rewrite E. cbn [bind]. f_equal. rewrite removelast_length, concat_comma_length.
    destruct D as [D _]. rewrite (Permutation_length D), seq_length.
    unfold sgn_of. 
    replace (length (a :: t) + length cs - 1) with (length t + length cs) by (cbn [length]; lia).
    replace (length (a :: t) + length cs) with (S (length t + length cs)) by (cbn [length]; lia).
    rewrite Nat.even_succ. reflexivity.
Qed.

Lemma sign_is sym x cs : is_row x -> decomp (act x) (length x) cs ->
  sign sym x = Ret (sgn_of (length x) (length cs)).
Proof.
  intros Px D. destruct (sign_spec sym Px) as (cs' & D' & E).
  now rewrite E, (decomp_length_unique D D').
Qed.

Lemma decomp_id n : decomp (fun i => i) n (map (fun i => [i]) (seq 0 n)).
Proof.
  split.
  - assert (G : forall l : list nat, concat (map (fun i => [i]) l) = l).
    { induction l as [|a t IH]; cbn; congruence. }
    now rewrite G.
  - apply Forall_forall. intros c Hc. apply in_map_iff in Hc. destruct Hc as (i & <- & _).
    split; [discriminate|]. cbn. auto.
Qed.

Lemma sgn_of_sq n m : (sgn_of n m * sgn_of n m = 1)%Z.
Proof. unfold sgn_of. destruct (Nat.even (n + m)); reflexivity. Qed.

Lemma sgn_of_step n m m' : m' = S m \/ S m' = m -> sgn_of n m' = (- sgn_of n m)%Z.
Proof.
  intros [-> | <-]; unfold sgn_of.
  - replace (n + S m) with (S (n + m)) by lia. rewrite Nat.even_succ, <- Nat.negb_even.
    destruct (Nat.even (n + m)); reflexivity.
  - replace (n + S m') with (S (n + m')) by lia. rewrite Nat.even_succ, <- Nat.negb_even.
    destruct (Nat.even (n + m')); reflexivity.
Qed.

(* Exchanging two places *)
Lemma sign_transp sym x y a b : is_row x -> is_row y -> length y = length x ->
  a < length x -> b < length x -> a <> b ->
  (forall i, act y i = act x (transp a b i)) ->
  exists s, (s = 1 \/ s = -1)%Z /\ sign sym x = Ret s /\ sign sym y = Ret (- s)%Z.
Proof.
  intros Px Py L Ha Hb Hab A. destruct (sign_spec sym Px) as (cs & D & E).
  destruct (decomp_transp D Ha Hb Hab) as (cs' & D' & HL).
  exists (sgn_of (length x) (length cs)). split; [unfold sgn_of; destruct Nat.even; auto|].
  split; [exact E|].
  rewrite (@sign_is sym y cs' Py).
  - rewrite L. f_equal. now apply sgn_of_step.
  - rewrite L. eapply decomp_ext; [|exact D']. intros i _. cbn. now rewrite A.
Qed.

(* every row is a product of transpositions *)
Fixpoint tprod (ts : list (nat * nat)) (i : nat) : nat :=
  match ts with [] => i | (a, b) :: ts => tprod ts (transp a b i) end.
Definition ts_ok (n : nat) (ts : list (nat * nat)) : Prop :=
  forall a b, In (a, b) ts -> a < n /\ b < n /\ a <> b.

Lemma tprod_exists n (f : nat -> nat) k : k <= n ->
  (forall i j, f i = f j -> i = j) -> (forall i, k <= i -> f i = i) ->
  (forall j, exists i, f i = j) ->
  exists ts, ts_ok n ts /\ forall i, f i = tprod ts i.
Proof.
  revert f; induction k as [|k IH]; intros f Hk Inj Fix Sur.
  - exists []. split; [intros a b []|]. intros i. apply Fix. lia.
  - destruct (Sur k) as (j & Ej).
    assert (Hj : j <= k).
    { destruct (le_lt_dec j k) as [|H]; auto. rewrite Fix in Ej by lia. lia. }
    destruct (Nat.eq_dec j k) as [->|Hne].
    + apply IH; auto; [lia|]. intros i Hi. destruct (Nat.eq_dec i k) as [->|]; [exact Ej|apply Fix; lia].
    + destruct (IH (fun i => f (transp j k i))) as (ts & Ok & T).
      * lia.
      * intros a b E. apply Inj in E. rewrite <- (transp_invol j k a), <- (transp_invol j k b). now rewrite E.
      * intros i Hi. destruct (Nat.eq_dec i k) as [->|Hik].
        -- rewrite transp_r. exact Ej.
        -- rewrite transp_o by lia. apply Fix. lia.
      * intros m. destruct (Sur m) as (i & Ei). exists (transp j k i). now rewrite transp_invol.
      * exists ((j, k) :: ts). split.
        -- intros a b [E|H]; [injection E as <- <-; lia|now apply Ok].
        -- intros i. cbn [tprod]. rewrite <- T. now rewrite transp_invol.
Qed.

Lemma ts_sign f n cs ts : decomp f n cs -> ts_ok n ts ->
  exists cs', decomp (fun i => f (tprod (rev ts) i)) n cs' /\
    sgn_of n (length cs') = (sgn_of n (length cs) * (if Nat.even (length ts) then 1 else -1))%Z.
Proof.
  revert f cs; induction ts as [|[a b] ts IH]; intros f cs D Ok.
  - exists cs. cbn. split; [exact D|lia].
  - destruct (Ok a b) as (Ha & Hb & Hab); [now left|].
    destruct (decomp_transp D Ha Hb Hab) as (cs1 & D1 & L1).
    destruct (IH _ cs1 D1) as (cs2 & D2 & L2).
    { intros c d H. apply Ok. now right. }
    exists cs2. split.
    + eapply decomp_ext; [|exact D2]. intros i _. cbn beta.
      assert (G : forall l i, tprod (l ++ [(a, b)]) i = transp a b (tprod l i)).
      { induction l as [|[c d] l IHl]; intros j; cbn [app tprod]; [reflexivity|]. apply IHl. }
      cbn [rev]. now rewrite G.
    + rewrite L2. rewrite (sgn_of_step n L1). cbn [length]. rewrite Nat.even_succ, <- Nat.negb_even.
      destruct (Nat.even (length ts)); cbn [negb]; lia.
Qed.

Lemma sign_mul_same sym x y z : row256 x -> row256 y -> length x = length y ->
  mul x y = Ret z ->
  exists sx sy, sign sym x = Ret sx /\ sign sym y = Ret sy /\ sign sym z = Ret (sx * sy)%Z.
Proof.
  intros Hx Hy L E. destruct (mul_spec Hx Hy) as (z' & E' & Hz & Lz & A).
  rewrite E in E'. injection E' as <-.
  destruct Hx as [Px _], Hy as [Py _], Hz as [Pz _].
  destruct (sign_spec sym Px) as (cx & Dx & Ex).
  destruct (sign_spec sym Py) as (cy & Dy & Ey).
  destruct (@tprod_exists (length y) (act y) (length y)) as (ts & Ok & T); auto.
  { intros i j. now apply act_inj. }
  { intros i Hi. now apply act_ge. }
  { intros j. destruct (act_surj j Py) as (i & Ei & _). eauto. }
  assert (Ok' : ts_ok (length y) (rev ts)) by (intros a b H; apply Ok; now apply in_rev).
  destruct (ts_sign (decomp_id (length y)) Ok') as (c1 & D1 & S1).
  rewrite rev_involutive in D1. rewrite rev_length in S1.
  assert (D1' : decomp (act y) (length y) c1) by (eapply decomp_ext; [|exact D1]; intros i _; cbn; now rewrite T).
  rewrite map_length, seq_length in S1.
  rewrite L in Dx. destruct (ts_sign Dx Ok') as (c2 & D2 & S2).
  rewrite rev_involutive in D2. rewrite rev_length in S2.
  exists (sgn_of (length x) (length cx)), (sgn_of (length y) (length cy)).
  split; [exact Ex|]. split; [exact Ey|].
  rewrite (@sign_is sym z c2 Pz).
  - rewrite Lz, L, Nat.max_id. f_equal. rewrite S2.
    rewrite <- (decomp_length_unique D1' Dy), S1.
    assert (EE : sgn_of (length y) (length y) = 1%Z).
    { unfold sgn_of. replace (length y + length y) with (2 * length y) by lia.
      now rewrite Nat.even_mul. }
    rewrite EE. lia.
  - rewrite Lz, L, Nat.max_id. eapply decomp_ext; [|exact D2]. intros i _. cbn. now rewrite A, T.
Qed.

Lemma decomp_pad x m cs : decomp (act x) (length x) cs -> length x <= m ->
  decomp (act x) m (cs ++ map (fun i => [i]) (seq (length x) (m - length x))).
Proof.
  intros [P F] H. split.
  - rewrite concat_app.
    assert (G : forall l : list nat, concat (map (fun i => [i]) l) = l).
    { induction l as [|a t IH]; cbn; congruence. }
    rewrite G. replace m with (length x + (m - length x)) at 2 by lia. rewrite seq_app.
    now apply Permutation_app_tail.
  - apply Forall_app. split; auto. apply Forall_forall. intros c Hc.
    apply in_map_iff in Hc. destruct Hc as (i & <- & Hi). apply in_seq in Hi.
    split; [discriminate|]. cbn. split; auto. apply act_ge. lia.
Qed.

Lemma sign_pad sym x m : is_row x -> sign sym (pad m x) = sign sym x.
Proof.
  intros Px. destruct (le_lt_dec m (length x)) as [H|H]; [now rewrite pad_le|].
  destruct (sign_spec sym Px) as (cs & D & E). rewrite E.
  assert (D' : decomp (act x) m (cs ++ map (fun i => [i]) (seq (length x) (m - length x)))) by (apply decomp_pad; auto; lia).
  rewrite (@sign_is sym (pad m x) (cs ++ map (fun i => [i]) (seq (length x) (m - length x))) (is_row_pad m Px)).
  - rewrite pad_length. rewrite app_length, map_length, seq_length. unfold sgn_of.
    replace (Nat.max m (length x) + (length cs + (m - length x))) with
      ((length x + length cs) + 2 * (m - length x)) by lia.
    now rewrite Nat.even_add_mul_2.
  - rewrite pad_length, Nat.max_l by lia. eapply decomp_ext; [|exact D'].
    intros i _. now rewrite act_pad.
Qed.

Lemma mul_pad x y : row256 x -> row256 y ->
  mul x y = mul (pad (Nat.max (length x) (length y)) x) (pad (Nat.max (length x) (length y)) y).
Proof.
  intros Hx Hy. set (m := Nat.max (length x) (length y)).
  assert (Hm : m <= 256) by (destruct Hx, Hy; lia).
  destruct (mul_spec Hx Hy) as (z & E & V & L & A).
  destruct (mul_spec (row256_pad Hm Hx) (row256_pad Hm Hy)) as (w & E' & V' & L' & A').
  rewrite E, E'. f_equal. apply row_eq.
  - rewrite L, L', !pad_length. lia.
  - intros i. now rewrite A, A', !act_pad.
Qed.

Lemma sign_mul sym x y z : row256 x -> row256 y -> mul x y = Ret z ->
  exists sx sy, sign sym x = Ret sx /\ sign sym y = Ret sy /\ sign sym z = Ret (sx * sy)%Z.
Proof.
  intros Hx Hy E. rewrite mul_pad in E by assumption.
  set (m := Nat.max (length x) (length y)) in *.
  assert (Hm : m <= 256) by (destruct Hx, Hy; lia).
  destruct (@sign_mul_same sym _ _ z (row256_pad Hm Hx) (row256_pad Hm Hy))
    as (sx & sy & Ex & Ey & Ez); auto.
  { rewrite !pad_length. lia. }
  rewrite sign_pad in Ex by apply Hx. rewrite sign_pad in Ey by apply Hy. eauto.
Qed.

Lemma sign_rounds sym n : n <= 256 -> sign sym (rounds n) = Ret 1%Z.
Proof.
  intros H. rewrite rounds_id by exact H.
  rewrite (@sign_is sym (id_row n) (map (fun i => [i]) (seq 0 n)) (is_row_id n)).
  - rewrite id_length, map_length, seq_length. unfold sgn_of.
    replace (n + n) with (2 * n) by lia. now rewrite Nat.even_mul.
  - rewrite id_length. eapply decomp_ext; [|apply decomp_id]. intros i _. now rewrite act_id.
Qed.

(* sign of a change *)
Lemma sign_apply_swaps sym l r r' lo n s : is_row r -> pairs_ok lo n l -> n <= length r ->
  apply_swaps r l = Ret r' -> sign sym r = Ret s ->
  sign sym r' = Ret (s * (if Nat.odd (length l) then -1 else 1))%Z.
Proof.
  revert r lo s; induction l as [|p t IH]; intros r lo s Pr W Hn E Es; cbn [apply_swaps] in E.
  - injection E as <-. rewrite Es. f_equal. cbn. lia.
  - destruct W as (W1 & W2 & W3). destruct (Nat.ltb_spec (p + 1) (length r)); [|lia].
    destruct (@row_swap_adj r p) as (r1 & E1 & L1 & A1); [lia|]. rewrite E1 in E. cbn [bind] in E.
    assert (T : forall i, tau p i = transp p (p + 1) i) by reflexivity.
    assert (P1 : is_row r1).
    { apply act_bij_is_row.
      - intros i j _ _. rewrite !A1. intros X. apply act_inj in X; auto. rewrite !T in X.
        rewrite <- (transp_invol p (p + 1) i), <- (transp_invol p (p + 1) j). now rewrite X.
      - intros i Hi. rewrite A1, L1. apply act_lt; auto. rewrite L1 in Hi. unfold tau.
        destruct (Nat.eqb_spec i p); [lia|]. destruct (Nat.eqb_spec i (p + 1)); lia. }
    destruct (@sign_transp sym r r1 p (p + 1) Pr P1 L1) as (s0 & _ & Es0 & Es1); try lia.
    { intros i. rewrite A1. now rewrite T. }
    rewrite Es in Es0. injection Es0 as <-.
    rewrite (IH r1 _ (- s)%Z P1 W3) by (auto; lia). f_equal.
    cbn [length]. rewrite Nat.odd_succ, <- Nat.negb_odd. destruct (Nat.odd (length t)); cbn [negb]; lia.
Qed.

Lemma change_sign_row sym c r : wf_change c -> cn c <= 256 ->
  row_mul_change (rounds (cn c)) c = Ret r -> sign sym r = Ret (change_sign c).
Proof.
  intros W Hc E. unfold row_mul_change in E.
  assert (PE : row_pad (cn c) (rounds (cn c)) = id_row (cn c)).
  { rewrite rounds_id, row_pad_pad by exact Hc. rewrite pad_le; [reflexivity|]. now rewrite id_length. }
  rewrite PE in E. unfold change_sign.
  assert (S1 : sign sym (id_row (cn c)) = Ret 1%Z) by (rewrite <- rounds_id by exact Hc; now apply sign_rounds).
  destruct (Nat.eqb_spec (cn c) 0) as [Z|Z].
  - cbn in E. injection E as <-. exact S1.
  - cbn [negb andb] in E. rewrite id_length in E. destruct (Nat.eqb_spec (cn c) 0); [lia|]. cbn [negb andb] in E.
    rewrite (@sign_apply_swaps sym (cswaps c) (id_row (cn c)) r 0 (cn c) 1%Z); auto.
    + f_equal. lia.
    + apply is_row_id.
    + rewrite id_length. lia.
Qed.
