(* Spec_Change.v - what a change means, independently of the code. *)
From Verif Require Import Base Spec_Row M_Change.
Set Implicit Arguments.
Unset Strict Implicit.

(* The pairs (s, s+1) listed are at or above place lo, inside the stage n,
   in strictly increasing order and no two of them overlap. *)
Fixpoint pairs_ok (lo n : nat) (l : list nat) : Prop :=
  match l with
  | [] => True
  | s :: t => lo <= s /\ s + 2 <= n /\ pairs_ok (s + 2) n t
  end.
Definition wf_change (c : change) : Prop := pairs_ok 0 (cn c) (cswaps c).

(* Where the bell in place i goes when the pairs l swap. *)
Definition swap_pos (l : list nat) (i : nat) : nat :=
  if in_dec Nat.eq_dec i l then i + 1
  else if in_dec Nat.eq_dec (i - 1) l then (if i =? 0 then i else i - 1)
  else i.

(* a place is made at i *)
Definition place_made (c : change) (i : nat) : Prop :=
  ~ In i (cswaps c) /\ (i = 0 \/ ~ In (i - 1) (cswaps c)).

Lemma pairs_ok_weaken lo lo' n l : lo' <= lo -> pairs_ok lo n l -> pairs_ok lo' n l.
Proof. destruct l; cbn; intros; intuition lia. Qed.

Lemma pairs_ok_in lo n l s : pairs_ok lo n l -> In s l -> lo <= s /\ s + 2 <= n.
Proof.
  revert lo; induction l as [|a t IH]; cbn; intros lo H; [tauto|].
  intros [->|Hs]; [tauto|]. destruct H as (H1 & H2 & H3).
  specialize (IH _ H3 Hs). lia.
Qed.

Lemma pairs_ok_gap lo n l s : pairs_ok lo n l -> In s l -> ~ In (s + 1) l.
Proof.
  revert lo; induction l as [|a t IH]; cbn; intros lo H; [tauto|].
  destruct H as (H1 & H2 & H3). intros [->|Hs] [E|Hs'].
  - lia.
  - apply (pairs_ok_in H3) in Hs'. lia.
  - apply (pairs_ok_in H3) in Hs. lia.
  - exact (IH _ H3 Hs Hs').
Qed.

Lemma swap_pos_in l i : In i l -> swap_pos l i = i + 1.
Proof. intros H. unfold swap_pos. now destruct in_dec. Qed.

Lemma swap_pos_in2 l i lo n : pairs_ok lo n l -> In i l -> swap_pos l (i + 1) = i.
Proof.
  intros W H. unfold swap_pos. destruct in_dec as [H'|H'].
  - now destruct (pairs_ok_gap W H).
  - replace (i + 1 - 1) with i by lia. destruct in_dec; [|contradiction].
    destruct (Nat.eqb_spec (i + 1) 0); lia.
Qed.

Lemma swap_pos_out l i : ~ In i l -> (i = 0 \/ ~ In (i - 1) l) -> swap_pos l i = i.
Proof.
  intros H1 H2. unfold swap_pos. destruct in_dec; [contradiction|].
  destruct in_dec as [H|H]; auto. destruct H2 as [->|]; [reflexivity|contradiction].
Qed.

Lemma swap_pos_nil i : swap_pos [] i = i.
Proof. apply swap_pos_out; auto. Qed.

(* An exhaustive description *)
Lemma swap_pos_cases lo n l i : pairs_ok lo n l ->
  (In i l /\ swap_pos l i = i + 1) \/
  (exists j, i = j + 1 /\ In j l /\ swap_pos l i = j) \/
  (~ In i l /\ (i = 0 \/ ~ In (i - 1) l) /\ swap_pos l i = i).
Proof.
  intros W. destruct (in_dec Nat.eq_dec i l) as [H|H].
  - left. split; auto. now apply swap_pos_in.
  - right. destruct (Nat.eq_dec i 0) as [->|Hi].
    + right. split; auto. split; auto. apply swap_pos_out; auto.
    + destruct (in_dec Nat.eq_dec (i - 1) l) as [H'|H'].
      * left. exists (i - 1). split; [lia|]. split; auto.
        replace i with ((i - 1) + 1) at 1 by lia. eapply swap_pos_in2; eauto.
      * right. split; auto. split; auto. apply swap_pos_out; auto.
Qed.

Lemma swap_pos_invol lo n l i : pairs_ok lo n l -> swap_pos l (swap_pos l i) = i.
Proof.
  intros W. destruct (swap_pos_cases i W) as [[H E]|[(j & -> & H & E)|(H1 & H2 & E)]]; rewrite E.
  - eapply swap_pos_in2; eauto.
  - now apply swap_pos_in.
  - exact E.
Qed.

Lemma swap_pos_lt lo n l i : pairs_ok lo n l -> i < n -> swap_pos l i < n.
Proof.
  intros W Hi. destruct (swap_pos_cases i W) as [[H E]|[(j & -> & H & E)|(H1 & H2 & E)]]; rewrite E; try lia.
  apply (pairs_ok_in W) in H. lia.
Qed.

Lemma swap_pos_ge lo n l i : pairs_ok lo n l -> n <= i -> swap_pos l i = i.
Proof.
  intros W Hi. destruct (swap_pos_cases i W) as [[H E]|[(j & -> & H & E)|(H1 & H2 & E)]]; rewrite E; try lia.
  - apply (pairs_ok_in W) in H. lia.
  - apply (pairs_ok_in W) in H. lia.
Qed.

Lemma swap_pos_inj lo n l i j : pairs_ok lo n l -> swap_pos l i = swap_pos l j -> i = j.
Proof.
  intros W E. rewrite <- (swap_pos_invol i W), <- (swap_pos_invol j W). now rewrite E.
Qed.
