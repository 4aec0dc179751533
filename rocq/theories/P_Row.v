(* P_Row.v - proofs about row construction, multiplication and changes. *)
From Verif Require Import Base M_Bell M_Math M_Change M_Row Spec_Row.
Set Implicit Arguments.
Unset Strict Implicit.

Lemma forN_vget A T (d : list A) (f : T -> A -> outcome T) s :
  forN 0 (length d) (fun s i => b <- vget d i ;; f s b) s = forM d f s.
Proof.
  unfold forN. rewrite Nat.sub_0_r.
  assert (G : forall rest pre s, d = pre ++ rest ->
    forM (seq (length pre) (length rest)) (fun s i => b <- vget d i ;; f s b) s = forM rest f s).
  { induction rest as [|x t IH]; intros pre s' E; cbn [length seq forM]; [reflexivity|].
    assert (V : vget d (length pre) = Ret x).
    { unfold vget. rewrite E, nth_error_app2 by lia. now rewrite Nat.sub_diag. }
    rewrite V. cbn [bind]. destruct (f s' x); cbn; auto.
    replace (S (length pre)) with (length (pre ++ [x])) by (rewrite app_length; cbn; lia).
    apply IH. now rewrite <- app_assoc. }
  apply (G d []). reflexivity.
Qed.

Lemma rounds_id n : n <= 256 -> rounds n = id_row n.
Proof.
  intros H. unfold rounds, id_row. 
  rewrite <- (map_id (seq 0 n)) at 2. apply map_ext_in. intros i Hi.
  apply in_seq in Hi. apply b8_small. lia.
Qed.

Lemma rounds_length n : length (rounds n) = n.
Proof. unfold rounds. now rewrite map_length, seq_length. Qed.

Lemma row_pad_pad n r : n <= 256 -> row_pad n r = pad n r.
Proof.
  intros H. unfold row_pad, pad. f_equal.
  rewrite <- (map_id (seq _ _)) at 2. apply map_ext_in. intros i Hi.
  apply in_seq in Hi. apply b8_small. lia.
Qed.

(* ---------------- C01: construction ---------------- *)

Definition vstep (n : nat) (found : list bool) (b : nat) : outcome (list bool) :=
  if n <=? b then Throw RowInvalid else
  f <- vget found b ;; if (f : bool) then Throw RowInvalid else vset found b true.

Lemma validate_loop n rest seen found :
  length found = n -> NoDup seen ->
  (forall j, j < n -> nth j found false = true <-> In j seen) ->
  (forall b, In b seen -> b < n) ->
  ((NoDup (seen ++ rest) /\ forall b, In b rest -> b < n) ->
     exists f, forM rest (vstep n) found = Ret f) /\
  (~ (NoDup (seen ++ rest) /\ forall b, In b rest -> b < n) ->
     forM rest (vstep n) found = Throw RowInvalid).
Proof.
  revert seen found; induction rest as [|b t IH]; intros seen found L N F S.
  - cbn. split; eauto. intros H. destruct H. rewrite app_nil_r. split; auto. intros b [].
  - cbn [forM]. unfold vstep at 1 3. destruct (Nat.leb_spec n b) as [Hb|Hb]; cbn [bind].
    + split; auto. intros [_ H]. specialize (H b (or_introl eq_refl)). lia.
    + rewrite (vget_lt found false) by lia. cbn [bind].
      destruct (nth b found false) eqn:E.
      * cbn. split; auto. intros [H _]. apply F in E; [|exact Hb].
        apply NoDup_remove_2 in H. destruct H. apply in_or_app. now left.
      * rewrite vset_lt by lia. cbn [bind].
        assert (Nb : ~ In b seen). { intros H. apply F in H; [congruence|exact Hb]. }
        assert (PP : Permutation ((b :: seen) ++ t) (seen ++ b :: t)) by apply Permutation_middle.
        destruct (IH (b :: seen) (upd found b true)) as [I1 I2].
        -- rewrite upd_length; lia.
        -- now constructor.
        -- intros j Hj. rewrite nth_upd by lia. cbn.
           destruct (Nat.eqb_spec j b) as [->|Hne]; [tauto|]. rewrite (F j Hj).
           split; [tauto|intros [H|H]; [congruence|exact H]].
        -- intros c [<-|H]; auto.
        -- split.
           ++ intros [H1 H2]. apply I1. split.
              ** now apply (Permutation_NoDup (Permutation_sym PP)).
              ** intros c Hc. apply H2. now right.
           ++ intros H. apply I2. intros [H1 H2]. apply H. split.
              ** now apply (Permutation_NoDup PP).
              ** intros c [<-|Hc]; auto.
Qed.

Lemma row_of_vector_spec d :
  (is_row d -> row_of_vector d = Ret d) /\
  (~ is_row d -> row_of_vector d = Throw RowInvalid).
Proof.
  assert (V : validate d = bind (forM d (vstep (length d)) (repeat false (length d)))
                                (fun _ => Ret tt)).
  { unfold validate. f_equal. apply (@forN_vget _ _ d (vstep (length d))). }
  destruct (@validate_loop (length d) d [] (repeat false (length d))) as [H1 H2].
  - apply repeat_length.
  - constructor.
  - intros j Hj. rewrite nth_repeat. cbn. split; [discriminate|tauto].
  - intros b [].
  - unfold row_of_vector. rewrite V. rewrite is_row_iff. cbn [app] in *. split.
    + intros H. destruct (H1 H) as (f & ->). reflexivity.
    + intros H. now rewrite (H2 H).
Qed.

(* ---------------- multiplication ---------------- *)

Lemma is_row_dec d : is_row d \/ ~ is_row d.
Proof.
  destruct (row_of_vector_spec d) as [H1 H2].
  rewrite is_row_iff.
  destruct (ListDec.NoDup_dec Nat.eq_dec d) as [N|N]; [|tauto].
  destruct (forallb (fun b => b <? length d) d) eqn:E.
  - left. split; auto. intros b Hb. rewrite forallb_forall in E.
    apply E in Hb. now apply Nat.ltb_lt.
  - right. intros [_ H]. apply Bool.not_true_iff_false in E. apply E.
    apply forallb_forall. intros b Hb. apply Nat.ltb_lt. auto.
Qed.

Lemma mul_spec x y : row256 x -> row256 y ->
  exists z, mul x y = Ret z /\ row256 z /\ length z = Nat.max (length x) (length y) /\
    forall i, act z i = act x (act y i).
Proof.
  intros [Px Lx] [Py Ly]. unfold mul. set (m := Nat.max (length x) (length y)).
  rewrite rounds_id by lia.
  (* first loop *)
  unfold forN at 1. rewrite Nat.sub_0_r.
  rewrite forM_ext with (b2 := fun p i => vset p i (act x (act y i))).
  2: { intros p i Hi. apply in_seq in Hi.
       rewrite (vget_lt y i) by lia. cbn [bind]. rewrite <- (@act_nth y i i) by lia.
       destruct (Nat.ltb_spec (act y i) (length x)) as [H|H].
       - rewrite (vget_lt x (act y i)) by exact H. cbn [bind]. reflexivity.
       - now rewrite (@act_ge x (act y i)) by lia. }
  destruct (@forM_vset nat nat (seq 0 (length y)) (fun i => i) (fun i => act x (act y i))
              (id_row m) 0) as (w & E & L & H1 & H2).
  { intros i Hi. apply in_seq in Hi. unfold id_row. rewrite seq_length. lia. }
  { rewrite map_id. apply seq_NoDup. }
  rewrite E. cbn [bind]. clear E.
  assert (Lw : length w = m) by (rewrite L; apply seq_length).
  unfold forN.
  rewrite forM_ext with (b2 := fun p i => vset p i (act x i)).
  2: { intros p i Hi. apply in_seq in Hi. rewrite (vget_lt x i) by lia. reflexivity. }
  destruct (@forM_vset nat nat (seq (length y) (m - length y)) (fun i => i) (fun i => act x i)
              w 0) as (z & E & Lz & Z1 & Z2).
  { intros i Hi. apply in_seq in Hi. lia. }
  { rewrite map_id. apply seq_NoDup. }
  exists z. rewrite E. split; [reflexivity|].
  assert (A : forall i, act z i = act x (act y i)).
  { intros i. destruct (lt_dec i m) as [Hi|Hi].
    - rewrite (@act_nth z i 0) by lia.
      destruct (lt_dec i (length y)) as [Hy|Hy].
      + rewrite Z2. { apply H1. apply in_seq. lia. }
        rewrite map_id, in_seq. lia.
      + rewrite (@act_ge y i) by lia. apply Z1. apply in_seq. lia.
    - rewrite !act_ge; try lia. rewrite act_ge; lia. }
  assert (Z : length z = m) by congruence.
  split; [split|split]; auto; try lia.
  apply act_bij_is_row.
  - intros i j _ _. rewrite !A. intros H. now apply act_inj, act_inj in H.
  - intros i Hi. rewrite A, Z in *.
    destruct (lt_dec (act y i) (length x)) as [H|H].
    + generalize (act_lt Px H). lia.
    + rewrite act_ge by lia.
      destruct (lt_dec i (length y)) as [H'|H'].
      * generalize (act_lt Py H'). lia.
      * rewrite act_ge; lia.
Qed.

Lemma div_spec x y : row256 x -> row256 y ->
  exists z, div x y = Ret z /\ row256 z /\ length z = Nat.max (length x) (length y) /\
    forall i, act z (act y i) = act x i.
Proof.
  intros [Px Lx] [Py Ly]. unfold div. set (m := Nat.max (length x) (length y)).
  set (k := Nat.min (length x) (length y)).
  rewrite rounds_id by lia.
  assert (NDy : forall a n, NoDup (map (act y) (seq a n))).
  { intros a n. apply NoDup_map_inj; [|apply seq_NoDup].
    intros i j _ _. now apply act_inj. }
  assert (By : forall i, i < m -> act y i < m).
  { intros i Hi. destruct (lt_dec i (length y)) as [H|H].
    - generalize (act_lt Py H). lia.
    - rewrite act_ge; lia. }
  (* loop 1 *)
  unfold forN at 1. rewrite Nat.sub_0_r.
  rewrite forM_ext with (b2 := fun q i => vset q (act y i) (act x i)).
  2: { intros p i Hi. apply in_seq in Hi. rewrite (vget_lt y i) by lia. cbn [bind].
       rewrite (vget_lt x i) by lia. reflexivity. }
  destruct (@forM_vset nat nat (seq 0 k) (act y) (act x) (id_row m) 0)
    as (w & E & L & H1 & H2).
  { intros i Hi. apply in_seq in Hi. unfold id_row. rewrite seq_length. apply By. lia. }
  { apply NDy. }
  rewrite E. cbn [bind]. clear E.
  unfold id_row in L. rewrite seq_length in L.
  (* loop 2 *)
  unfold forN at 1.
  rewrite forM_ext with (b2 := fun q i => vset q i (act x i)).
  2: { intros p i Hi. apply in_seq in Hi. rewrite (vget_lt x i) by lia. reflexivity. }
  destruct (@forM_vset nat nat (seq k (length x - k)) (fun i => i) (act x) w 0)
    as (w2 & E & L2 & H3 & H4).
  { intros i Hi. apply in_seq in Hi. lia. }
  { rewrite map_id. apply seq_NoDup. }
  rewrite E. cbn [bind]. clear E.
  (* loop 3 *)
  unfold forN.
  rewrite forM_ext with (b2 := fun q i => vset q (act y i) i).
  2: { intros p i Hi. apply in_seq in Hi. rewrite (vget_lt y i) by lia. cbn [bind].
       rewrite b8_small by lia. reflexivity. }
  destruct (@forM_vset nat nat (seq (Nat.max k (length x)) (length y - Nat.max k (length x)))
     (act y) (fun i => i) w2 0) as (z & E & L3 & H5 & H6).
  { intros i Hi. apply in_seq in Hi. rewrite L2, L. apply By. lia. }
  { apply NDy. }
  exists z. rewrite E. split; [reflexivity|].
  assert (A : forall i, act z (act y i) = act x i).
  { intros i. destruct (lt_dec i m) as [Hi|Hi].
    2: { rewrite (@act_ge y i) by lia. rewrite !act_ge; lia. }
    rewrite (@act_nth z _ 0) by (rewrite L3, L2, L; now apply By).
    destruct (lt_dec i (length x)) as [Hx|Hx].
    - assert (N3 : ~ In (act y i) (map (act y) (seq (Nat.max k (length x)) (length y - Nat.max k (length x))))).
      { rewrite in_map_iff. intros (j & Ej & Hj). apply in_seq in Hj.
        apply act_inj in Ej; auto. lia. }
      rewrite H6 by exact N3.
      destruct (lt_dec i (length y)) as [Hy|Hy].
      + rewrite H4. { apply H1. apply in_seq. lia. }
        rewrite map_id, in_seq. generalize (act_lt Py Hy). lia.
      + rewrite (@act_ge y i) by lia. apply H3. apply in_seq. lia.
    - rewrite (@act_ge x i) by lia. apply H5. apply in_seq. lia. }
  assert (Z : length z = m) by lia.
  split; [split|split]; auto; try lia.
  assert (AA : forall j, exists i, act y i = j /\ (j < m -> i < m)).
  { intros j. destruct (act_surj j Py) as (i & Ei & Hi). exists i. split; auto.
    intros Hj. destruct (lt_dec i (length y)); [lia|].
    rewrite act_ge in Ei by lia. lia. }
  apply act_bij_is_row.
  - intros a b _ _. destruct (AA a) as (i & <- & _), (AA b) as (j & <- & _).
    rewrite !A. intros H. apply act_inj in H; congruence.
  - intros a Ha. destruct (AA a) as (i & <- & Hi). rewrite A. rewrite Z in *.
    specialize (Hi Ha). destruct (lt_dec i (length x)) as [H|H].
    + generalize (act_lt Px H). lia.
    + rewrite act_ge; lia.
Qed.

Lemma inverse_spec x : row256 x ->
  exists z, inverse x = Ret z /\ row256 z /\ length z = length x /\
    (forall i, act z (act x i) = i) /\ (forall i, act x (act z i) = i).
Proof.
  intros [Px Lx]. unfold inverse. destruct x as [|x0 xt].
  { exists []. split; [reflexivity|]. split; [split; [apply is_row_nil|cbn; lia]|].
    split; [reflexivity|]. unfold act. split; intros i; destruct i; reflexivity. }
  set (x := x0 :: xt) in *. rewrite rounds_id by lia.
  unfold forN. rewrite Nat.sub_0_r.
  rewrite forM_ext with (b2 := fun q i => vset q (act x i) i).
  2: { intros p i Hi. apply in_seq in Hi. rewrite (vget_lt x i) by lia. cbn [bind].
       rewrite b8_small by lia. reflexivity. }
  destruct (@forM_vset nat nat (seq 0 (length x)) (act x) (fun i => i) (id_row (length x)) 0)
    as (z & E & L & H1 & H2).
  { intros i Hi. apply in_seq in Hi. unfold id_row. rewrite seq_length. apply act_lt; auto. lia. }
  { apply NoDup_map_inj; [|apply seq_NoDup]. intros i j _ _. now apply act_inj. }
  unfold id_row in L. rewrite seq_length in L.
  exists z. rewrite E. split; [reflexivity|].
  assert (A : forall i, act z (act x i) = i).
  { intros i. destruct (lt_dec i (length x)) as [Hi|Hi].
    - rewrite (@act_nth z _ 0) by (rewrite L; now apply act_lt). apply H1. apply in_seq. lia.
    - rewrite (@act_ge x i) by lia. apply act_ge. lia. }
  assert (Pz : is_row z).
  { apply act_bij_is_row.
    - intros a b _ _. destruct (act_surj a Px) as (i & <- & _), (act_surj b Px) as (j & <- & _).
      rewrite !A. now intros ->.
    - intros a Ha. destruct (act_surj a Px) as (i & <- & Hi). rewrite A. lia. }
  split; [split; [exact Pz|lia]|]. split; [exact L|]. split; [exact A|].
  intros i. apply (@act_inj z _ _ Pz). apply A.
Qed.

(* Equality of rows from equality of lengths and actions *)
Lemma row_eq x y : length x = length y -> (forall i, act x i = act y i) -> x = y.
Proof. intros L H. apply act_ext; auto. Qed.

Lemma row256_pad n x : n <= 256 -> row256 x -> row256 (pad n x).
Proof.
  intros H [P L]. split; [now apply is_row_pad|]. rewrite pad_length. lia.
Qed.

Lemma row256_id n : n <= 256 -> row256 (id_row n).
Proof. intros H. split; [apply is_row_id|]. unfold id_row. now rewrite seq_length. Qed.

Lemma id_length n : length (id_row n) = n.
Proof. apply seq_length. Qed.

Lemma mul_assoc x y z : row256 x -> row256 y -> row256 z ->
  bind (mul x y) (fun p => mul p z) = bind (mul y z) (fun p => mul x p).
Proof.
  intros Hx Hy Hz.
  destruct (mul_spec Hx Hy) as (xy & E1 & V1 & L1 & A1).
  destruct (mul_spec Hy Hz) as (yz & E2 & V2 & L2 & A2).
  rewrite E1, E2. cbn [bind].
  destruct (mul_spec V1 Hz) as (p & E3 & V3 & L3 & A3).
  destruct (mul_spec Hx V2) as (q & E4 & V4 & L4 & A4).
  rewrite E3, E4. f_equal. apply row_eq; [lia|].
  intros i. now rewrite A3, A1, A4, A2.
Qed.

Lemma mul_id_r x n : row256 x -> n <= 256 -> mul x (rounds n) = Ret (pad n x).
Proof.
  intros Hx Hn. rewrite rounds_id by lia.
  destruct (mul_spec Hx (row256_id Hn)) as (p & E & V & L & A).
  rewrite E. f_equal. apply row_eq.
  - rewrite L, pad_length, id_length. lia.
  - intros i. now rewrite A, act_id, act_pad.
Qed.

Lemma mul_id_l x n : row256 x -> n <= 256 -> mul (rounds n) x = Ret (pad n x).
Proof.
  intros Hx Hn. rewrite rounds_id by lia.
  destruct (mul_spec (row256_id Hn) Hx) as (p & E & V & L & A).
  rewrite E. f_equal. apply row_eq.
  - rewrite L, pad_length, id_length. lia.
  - intros i. now rewrite A, act_id, act_pad.
Qed.

Lemma mul_inverse x : row256 x -> exists z, inverse x = Ret z /\ row256 z /\
  length z = length x /\
  mul x z = Ret (rounds (length x)) /\ mul z x = Ret (rounds (length x)).
Proof.
  intros Hx. destruct (inverse_spec Hx) as (z & E & V & L & A1 & A2).
  exists z. do 3 (split; [assumption|]).
  destruct (mul_spec Hx V) as (p & Ep & Vp & Lp & Ap).
  destruct (mul_spec V Hx) as (q & Eq & Vq & Lq & Aq).
  rewrite Ep, Eq. destruct Hx as [_ Lx]. rewrite rounds_id by lia.
  split; f_equal; apply row_eq; rewrite ?id_length; try lia; intros i; rewrite act_id.
  - now rewrite Ap.
  - now rewrite Aq.
Qed.

Lemma div_mul_inverse x y : row256 x -> row256 y ->
  div x y = bind (inverse y) (fun z => mul x z).
Proof.
  intros Hx Hy. destruct (inverse_spec Hy) as (z & E & V & L & A1 & A2).
  rewrite E. cbn [bind].
  destruct (div_spec Hx Hy) as (d & Ed & Vd & Ld & Ad).
  destruct (mul_spec Hx V) as (p & Ep & Vp & Lp & Ap).
  rewrite Ed, Ep. f_equal. apply row_eq; [lia|].
  intros i. rewrite Ap. rewrite <- (A2 i) at 1. apply Ad.
Qed.

Lemma div_mul x y : row256 x -> row256 y ->
  bind (div x y) (fun d => mul d y) = Ret (pad (length y) x).
Proof.
  intros Hx Hy. destruct (div_spec Hx Hy) as (d & Ed & Vd & Ld & Ad).
  rewrite Ed. cbn [bind]. destruct (mul_spec Vd Hy) as (p & Ep & Vp & Lp & Ap).
  rewrite Ep. f_equal. apply row_eq.
  - rewrite pad_length. lia.
  - intros i. now rewrite Ap, Ad, act_pad.
Qed.

Lemma rounds_row256 n : n <= 256 -> row256 (rounds n) /\ rounds n = id_row n.
Proof. intros H. rewrite rounds_id by exact H. split; [now apply row256_id|reflexivity]. Qed.

(* For concrete rows *)
Lemma row256_by d : row_of_vector d = Ret d -> (length d <=? 256) = true -> row256 d.
Proof.
  intros H L. split; [|now apply Nat.leb_le].
  destruct (is_row_dec d) as [Q|Q]; [exact Q|]. apply row_of_vector_spec in Q. congruence.
Qed.
