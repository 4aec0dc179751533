(* Spec_Row.v - what a row means, independently of the code.
   A row on n bells is a list of n bells; bells and places count from 0. *)
From Verif Require Import Base.
Set Implicit Arguments.
Unset Strict Implicit.

(* The bell in place i.  A row on n bells says nothing about places n, n+1, ...:
   there every bell is at home. *)
Definition act (x : list nat) (i : nat) : nat := nth i x i.

(* Each of the bells 0..n-1 occurs exactly once. *)
Definition is_row (x : list nat) : Prop := Permutation x (seq 0 (length x)).

(* Rows the library can hold: bells are bytes. *)
Definition row256 (x : list nat) : Prop := is_row x /\ length x <= 256.

(* x with bells added at home up to n bells *)
Definition pad (n : nat) (x : list nat) : list nat := x ++ seq (length x) (n - length x).

(* Rounds on n bells *)
Definition id_row (n : nat) : list nat := seq 0 n.

(* k-fold composition *)
Fixpoint act_pow (x : list nat) (k : nat) (i : nat) : nat :=
  match k with O => i | S k' => act x (act_pow x k' i) end.

(* ------------------------------------------------------------------ *)

Lemma act_ge x i : length x <= i -> act x i = i.
Proof. intros H. unfold act. now apply nth_overflow. Qed.

Lemma act_nth x i d : i < length x -> act x i = nth i x d.
Proof. intros H. unfold act. now apply nth_indep. Qed.

Lemma is_row_iff x : is_row x <-> NoDup x /\ forall b, In b x -> b < length x.
Proof.
  unfold is_row. split.
  - intros P. split.
    + apply (Permutation_NoDup (Permutation_sym P)). apply seq_NoDup.
    + intros b Hb. apply (Permutation_in _ P) in Hb. apply in_seq in Hb. lia.
  - intros [N B]. apply NoDup_Permutation_bis; auto.
    + rewrite seq_length. lia.
    + intros b Hb. apply in_seq. specialize (B b Hb). lia.
Qed.

Lemma is_row_in x b : is_row x -> In b x <-> b < length x.
Proof.
  intros P. split.
  - intros H. apply (Permutation_in _ P) in H. apply in_seq in H. lia.
  - intros H. apply (Permutation_in _ (Permutation_sym P)). apply in_seq. lia.
Qed.

Lemma act_lt x i : is_row x -> i < length x -> act x i < length x.
Proof.
  intros P H. rewrite (@act_nth x _ 0) by exact H. apply (is_row_in _ P).
  now apply nth_In.
Qed.

Lemma act_inj x i j : is_row x -> act x i = act x j -> i = j.
Proof.
  intros P E. assert (N : NoDup x) by now apply is_row_iff in P.
  destruct (lt_dec i (length x)) as [Hi|Hi], (lt_dec j (length x)) as [Hj|Hj].
  - rewrite (@act_nth x _ 0) in E by exact Hi. rewrite (@act_nth x _ 0) in E by exact Hj.
    now apply (proj1 (NoDup_nth x 0)).
  - rewrite (@act_ge x j) in E by lia. generalize (act_lt P Hi). lia.
  - rewrite (@act_ge x i) in E by lia. generalize (act_lt P Hj). lia.
  - now rewrite !act_ge in E by lia.
Qed.

Lemma act_lt_iff x i : is_row x -> act x i < length x <-> i < length x.
Proof.
  intros P. split; [|now apply act_lt].
  intros H. destruct (lt_dec i (length x)) as [|Hn]; auto.
  rewrite act_ge in H by lia. lia.
Qed.

Lemma act_surj x j : is_row x -> exists i, act x i = j /\ (i < length x <-> j < length x).
Proof.
  intros P. destruct (lt_dec j (length x)) as [Hj|Hj].
  - assert (Hin : In j x) by now apply is_row_in.
    destruct (In_nth x j 0 Hin) as (i & Hi & E). exists i.
    split; [now rewrite (@act_nth x _ 0)|tauto].
  - exists j. split; [apply act_ge; lia|tauto].
Qed.

Lemma act_bij_is_row x :
  (forall i j, i < length x -> j < length x -> act x i = act x j -> i = j) ->
  (forall i, i < length x -> act x i < length x) -> is_row x.
Proof.
  intros Inj Bd. apply is_row_iff. split.
  - apply (NoDup_nth x 0). intros i j Hi Hj E. apply Inj; auto.
    now rewrite !(@act_nth x _ 0) by assumption.
  - intros b Hb. destruct (In_nth x b 0 Hb) as (i & Hi & <-).
    rewrite <- (@act_nth x _ 0) by exact Hi. now apply Bd.
Qed.

Lemma act_ext x y : length x = length y -> (forall i, i < length x -> act x i = act y i) -> x = y.
Proof.
  intros L H. apply (nth_ext_d _ _ 0 L). intros i Hi.
  rewrite <- !act_nth by lia. now apply H.
Qed.

Lemma act_id n i : act (id_row n) i = i.
Proof.
  unfold id_row. destruct (lt_dec i n).
  - rewrite (@act_nth _ _ 0) by (now rewrite seq_length). now rewrite seq_nth.
  - apply act_ge. rewrite seq_length. lia.
Qed.

Lemma is_row_id n : is_row (id_row n).
Proof. unfold is_row, id_row. now rewrite seq_length. Qed.

Lemma is_row_nil : is_row [].
Proof. apply (is_row_id 0). Qed.

Lemma pad_length n x : length (pad n x) = Nat.max n (length x).
Proof. unfold pad. rewrite app_length, seq_length. lia. Qed.

Lemma act_pad n x i : act (pad n x) i = act x i.
Proof.
  unfold act, pad. destruct (lt_dec i (length x)) as [H|H].
  - now rewrite app_nth1.
  - rewrite app_nth2 by lia. rewrite (nth_overflow x) by lia.
    destruct (lt_dec (i - length x) (n - length x)) as [H'|H'].
    + rewrite seq_nth by exact H'. lia.
    + rewrite nth_overflow; [reflexivity|rewrite seq_length; lia].
Qed.

Lemma is_row_pad n x : is_row x -> is_row (pad n x).
Proof.
  intros P. apply act_bij_is_row.
  - intros i j _ _. rewrite !act_pad. now apply act_inj.
  - intros i Hi. rewrite act_pad. rewrite pad_length in *.
    destruct (lt_dec i (length x)) as [H|H].
    + generalize (act_lt P H). lia.
    + rewrite act_ge by lia. exact Hi.
Qed.

Lemma pad_same x : pad (length x) x = x.
Proof. unfold pad. rewrite Nat.sub_diag. cbn. apply app_nil_r. Qed.

Lemma pad_le n x : n <= length x -> pad n x = x.
Proof. intros H. unfold pad. replace (n - length x) with 0 by lia. apply app_nil_r. Qed.

Lemma pad_id m n : pad m (id_row n) = id_row (Nat.max m n).
Proof.
  apply act_ext.
  - unfold id_row. rewrite pad_length, !seq_length. reflexivity.
  - intros i _. now rewrite act_pad, !act_id.
Qed.

Lemma act_eq_row x y : is_row x -> length x = length y ->
  (forall i, act x i = act y i) -> x = y.
Proof. intros _ L H. apply act_ext; auto. Qed.

Lemma id_row_iff x : x = id_row (length x) <-> forall i, act x i = i.
Proof.
  split.
  - intros E i. rewrite E. apply act_id.
  - intros H. apply act_ext. + unfold id_row. now rewrite seq_length.
    + intros i _. now rewrite act_id, H.
Qed.

Lemma act_pow_add x a b i : act_pow x (a + b) i = act_pow x a (act_pow x b i).
Proof. induction a as [|a IH]; cbn; [reflexivity|now rewrite IH]. Qed.

Lemma act_pow_S_r x k i : act_pow x (S k) i = act_pow x k (act x i).
Proof. replace (S k) with (k + 1) by lia. now rewrite act_pow_add. Qed.

Lemma act_pow_inj x k i j : is_row x -> act_pow x k i = act_pow x k j -> i = j.
Proof.
  intros P. induction k as [|k IH]; cbn; auto. intros E. apply IH.
  now apply act_inj in E.
Qed.

Lemma act_pow_lt x k i : is_row x -> i < length x -> act_pow x k i < length x.
Proof. intros P H. induction k as [|k IH]; cbn; auto. now apply act_lt. Qed.

Lemma act_pow_ge x k i : length x <= i -> act_pow x k i = i.
Proof. intros H. induction k as [|k IH]; cbn; auto. rewrite IH. now apply act_ge. Qed.
