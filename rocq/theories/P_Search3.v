(* P_Search3.v - rows of a touch, lead heads and falseness between leads. *)
From Verif Require Import Base M_Bell M_Change M_Row M_Touch M_Method M_False M_Search Spec_Row Spec_Change Spec_Touch Spec_Group Spec_Method Spec_False Spec_Extent Spec_Search
  P_Row P_Cycle P_Group P_Group2 P_Group3 P_Touch P_False P_False4 P_Search P_Search2.
Set Implicit Arguments.
Unset Strict Implicit.
Open Scope nat_scope.

Section Rows.
Variable b : nat.
Hypothesis Hb : b <= 255.
Definition on_b (cs : list change) : Prop := Forall (fun c => cn c = b /\ wf_change c) cs.
Definition row_of (cs : list change) : row := map (came_from cs) (seq 0 b).

Lemma on_b_ok cs : on_b cs -> Forall ok_change cs.
Proof using Hb. intros H. eapply Forall_impl; [|exact H]. intros c [E W]. split; [exact W|lia]. Qed.
Lemma on_b_widest cs : on_b cs -> widest cs <= b.
Proof. induction 1 as [|c cs [E _] _ IH]; cbn; [lia|]. unfold widest in IH. lia. Qed.
Lemma rung_row_of cs : on_b cs -> rung (id_row b) cs (row_of cs).
Proof using Hb.
  intros H. destruct (@ring_all (id_row b) cs) as (r & _ & R).
  { split; [apply is_row_id|rewrite id_length; lia]. } { now apply on_b_ok. }
  assert (E : r = row_of cs); [|now rewrite <- E]. pose proof (rung_row_b (row_b_id b) (on_b_widest H) R) as [_ L].
  destruct R as (_ & _ & A). apply act_ext; [unfold row_of; rewrite map_length, seq_length; exact L|]. intros i Hi. rewrite A, act_id.
  unfold row_of. rewrite (@act_nth _ _ 0) by (rewrite map_length, seq_length; lia). rewrite (nth_indep _ 0 (came_from cs 0)) by (rewrite map_length, seq_length; lia).
  rewrite map_nth, seq_nth by lia. reflexivity.
Qed.
Lemma rung_iff cs r : on_b cs -> (rung (id_row b) cs r <-> r = row_of cs).
Proof using Hb. intros H. split; [intros R; exact (rung_unique R (rung_row_of H))|intros ->; now apply rung_row_of]. Qed.
Lemma row_of_b cs : on_b cs -> row_b b (row_of cs).
Proof using Hb. intros H. exact (rung_row_b (row_b_id b) (on_b_widest H) (rung_row_of H)). Qed.
Lemma act_row_of cs i : on_b cs -> act (row_of cs) i = came_from cs i.
Proof using Hb. intros H. destruct (rung_row_of H) as (_ & _ & A). now rewrite A, act_id. Qed.
Lemma on_b_app a c : on_b (a ++ c) <-> on_b a /\ on_b c.
Proof. apply Forall_app. Qed.
Lemma on_b_firstn i cs : on_b cs -> on_b (firstn i cs).
Proof. intros H. rewrite <- (firstn_skipn i cs) in H. now apply on_b_app in H. Qed.
Lemma row_of_app a c : on_b a -> on_b c -> row_of (a ++ c) = comp (row_of a) (row_of c).
Proof using Hb.
  intros Ha Hc. assert (Rc := row_of_b Hc). apply (@row_b_ext b); [apply row_of_b; now apply on_b_app|apply comp_row_b; [now apply row_of_b|exact (proj1 Rc)|destruct Rc; lia]|].
  intros i. rewrite act_comp by exact (proj1 Rc). rewrite !act_row_of by (try (apply on_b_app); auto). apply came_from_app.
Qed.
Lemma row_of_nil : row_of [] = id_row b.
Proof. unfold row_of, id_row. cbn. apply map_id. Qed.

Lemma true_touch_iff cs : on_b cs -> (true_touch b cs <-> row_of cs = id_row b /\ forall i j, i < j < length cs -> row_of (firstn i cs) <> row_of (firstn j cs)).
Proof using Hb.
  intros H. unfold true_touch. rewrite (rung_iff _ H). split; intros [H1 H2]; (split; [now symmetry|]).
  - intros i j Hij E. apply (H2 i j (row_of (firstn i cs)) Hij); apply rung_iff; auto using on_b_firstn.
  - intros i j r Hij R1 R2. rewrite rung_iff in R1, R2 by auto using on_b_firstn. apply (H2 i j Hij). congruence.
Qed.
(* truth does not depend on where one starts *)
Lemma true_turn a c : on_b (a ++ c) -> true_touch b (a ++ c) -> true_touch b (c ++ a).
Proof using Hb.
  intros H T. assert (H' : on_b (c ++ a)) by (rewrite on_b_app in *; tauto). apply (true_touch_iff H) in T. apply (true_touch_iff H'). destruct T as [T1 T2].
  apply on_b_app in H. destruct H as [Ha Hc]. pose proof (row_of_b Ha) as Ra. pose proof (row_of_b Hc) as Rc.
  rewrite row_of_app in T1 by assumption.
  (* both products are rounds *)
  assert (CC : comp (row_of c) (row_of a) = id_row b).
  { apply (@row_b_ext b); [apply comp_row_b; [exact Rc|exact (proj1 Ra)|destruct Ra; lia]|apply row_b_id|]. intros i. rewrite act_comp by exact (proj1 Ra). rewrite act_id.
    assert (X : forall k, act (row_of a) (act (row_of c) k) = k) by (intros k; rewrite <- act_comp by exact (proj1 Rc); rewrite T1; apply act_id).
    apply (act_inj (proj1 Ra)). apply X. }
  split; [now rewrite row_of_app|].
  rewrite app_length in *. intros i j Hij E.
  (* the row after i changes of c ++ a, moved by a, is the row of a ++ c at another place *)
  set (pos := fun i => if i <? length c then length a + i else i - length c).
  assert (PP : forall i, i < length c + length a -> comp (row_of a) (row_of (firstn i (c ++ a))) = row_of (firstn (pos i) (a ++ c))).
  { intros k Hk. unfold pos. destruct (Nat.ltb_spec k (length c)) as [L|L].
    - rewrite (firstn_app k c), (firstn_app (length a + k) a). replace (k - length c) with 0 by lia. replace (length a + k - length a) with k by lia.
      rewrite (@firstn_all2 _ (length a + k) a) by lia. cbn [firstn]. rewrite app_nil_r. rewrite row_of_app by auto using on_b_firstn. reflexivity.
    - rewrite (firstn_app k c), (firstn_app (k - length c) a). rewrite (@firstn_all2 _ k c) by lia. replace (k - length c - length a) with 0 by lia. cbn [firstn]. rewrite app_nil_r.
      rewrite row_of_app by auto using on_b_firstn. pose proof (row_of_b (on_b_firstn (k - length c) Ha)) as Rf. rewrite <- (@comp_assoc b) by assumption. rewrite T1. now apply (@comp_id_l b). }
  assert (PE : row_of (firstn (pos i) (a ++ c)) = row_of (firstn (pos j) (a ++ c))) by (rewrite <- !PP by lia; now rewrite E).
  assert (D : pos i <> pos j /\ pos i < length a + length c /\ pos j < length a + length c) by (unfold pos; destruct (Nat.ltb_spec i (length c)), (Nat.ltb_spec j (length c)); lia).
  destruct (Nat.lt_trichotomy (pos i) (pos j)) as [K|[K|K]]; [exact (T2 (pos i) (pos j) ltac:(lia) PE)|lia|exact (T2 (pos j) (pos i) ltac:(lia) (eq_sym PE))].
Qed.
End Rows.
