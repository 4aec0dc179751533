(* P_Search4.v - the leads of a calling, falseness between them, and the search's tables. *)
From Verif Require Import Base M_Bell M_Change M_Row M_Touch M_Method M_False M_Search Spec_Row Spec_Change Spec_Touch Spec_Group Spec_Method Spec_False Spec_Extent Spec_Search
  P_Row P_Cycle P_Group P_Group2 P_Group3 P_Touch P_False P_False3 P_False4 P_Search P_Search2 P_Search3 Props_False.
Set Implicit Arguments.
Unset Strict Implicit.
Open Scope nat_scope.

Section Leads.
Variables (m : method) (calls : list change).
Hypothesis WM : wf_method m.
Hypothesis POS : 0 < mb m.
Hypothesis LEN : 1 <= length (mch m).
Hypothesis CALLS : on_b (mb m) calls.
Notation b := (mb m).
Notation L := (length (mch m)).
Definition R (j : nat) : row := row_of b (firstn j (mch m)).
Definition lhd (i : nat) : row := row_of b (lead_called m calls i).
Definition hd (w : list nat) : row := row_of b (changes_called m calls w).
Definition clash (h h' : row) : Prop := exists i j, i < L /\ j < L /\ comp h (R i) = comp h' (R j).

Lemma b255 : b <= 255. Proof using WM POS LEN CALLS. exact (proj1 WM). Qed.
Lemma mch_on : on_b b (mch m). Proof using WM POS LEN CALLS. exact (proj2 (proj2 WM)). Qed.
Lemma mch_split : exists l c, mch m = l ++ [c] /\ removelast (mch m) = l /\ forall d, last (mch m) d = c.
Proof using WM POS LEN CALLS.
  destruct (mch m) as [|c0 t] eqn:E; [cbn in LEN; lia|]. destruct (@exists_last _ (c0 :: t)) as (l & c & X); [discriminate|].
  exists l, c. rewrite X. split; [reflexivity|]. split; [apply removelast_last|intros d; apply last_last].
Qed.
Lemma lead_is i : i <= length calls -> exists c, nth_error (last (mch m) (mkChange 0 []) :: calls) i = Some c /\ cn c = b /\ wf_change c /\ lead_called m calls i = removelast (mch m) ++ [c].
Proof using WM POS LEN CALLS.
  intros Hi. destruct mch_split as (l & c & E & Er & El). pose proof mch_on as O. rewrite E in O. apply on_b_app in O. destruct O as [_ O].
  unfold lead_called. rewrite Er, El. replace (skipn (L - 1) (mch m)) with [c].
  2: { rewrite E, app_length. cbn. replace (length l + 1 - 1) with (length l) by lia. rewrite skipn_app, skipn_all, Nat.sub_diag. reflexivity. }
  cbn [app]. assert (F : on_b b (c :: calls)) by (constructor; [now inversion O|exact CALLS]).
  destruct (nth_error (c :: calls) i) as [x|] eqn:N.
  - exists x. split; [reflexivity|]. pose proof (proj1 (Forall_forall _ _) F x (nth_error_In _ _ N)) as [H1 H2]. split; [exact H1|]. split; [exact H2|]. f_equal.
    apply nth_error_split in N. destruct N as (a & z & -> & <-). rewrite skipn_app, skipn_all, Nat.sub_diag. reflexivity.
  - apply nth_error_None in N. cbn in N. lia.
Qed.
Lemma lead_on i : i <= length calls -> on_b b (lead_called m calls i) /\ length (lead_called m calls i) = L /\ forall j, j < L -> firstn j (lead_called m calls i) = firstn j (mch m).
Proof using WM POS LEN CALLS.
  intros Hi. destruct (lead_is Hi) as (c & _ & C1 & C2 & ->). destruct mch_split as (l & c' & E & Er & _). rewrite Er. pose proof mch_on as O. rewrite E in *. apply on_b_app in O. destruct O as [O _].
  split; [apply on_b_app; split; [exact O|repeat constructor; assumption]|]. split; [rewrite !app_length; reflexivity|]. intros j Hj. rewrite app_length in Hj. cbn in Hj.
  rewrite !firstn_app. replace (j - length l) with 0 by lia. reflexivity.
Qed.
Lemma calling_app u v : calling calls (u ++ v) <-> calling calls u /\ calling calls v.
Proof. apply Forall_app. Qed.
Lemma calling_firstn k w : calling calls w -> calling calls (firstn k w).
Proof. intros H. rewrite <- (firstn_skipn k w) in H. now apply calling_app in H. Qed.
Lemma changes_app u v : changes_called m calls (u ++ v) = changes_called m calls u ++ changes_called m calls v.
Proof. apply flat_map_app. Qed.
Lemma changes_on w : calling calls w -> on_b b (changes_called m calls w) /\ length (changes_called m calls w) = length w * L.
Proof using WM POS LEN CALLS.
  induction 1 as [|i w Hi Hw [I1 I2]]; [split; [constructor|reflexivity]|]. cbn [changes_called flat_map] in *. destruct (lead_on Hi) as (O & LE & _).
  split; [apply on_b_app; auto|]. rewrite app_length, LE. unfold changes_called in I2. rewrite I2. reflexivity.
Qed.
Lemma R_row j : row_b b (R j).
Proof using WM POS LEN CALLS. apply row_of_b; [exact b255|]. apply on_b_firstn. exact mch_on. Qed.
Lemma R_0 : R 0 = id_row b. Proof. unfold R. cbn [firstn]. apply row_of_nil. Qed.
Lemma lhd_row i : i <= length calls -> row_b b (lhd i).
Proof using WM POS LEN CALLS. intros H. apply row_of_b; [exact b255|]. now apply lead_on. Qed.
Lemma hd_row w : calling calls w -> row_b b (hd w).
Proof using WM POS LEN CALLS. intros H. apply row_of_b; [exact b255|]. now apply changes_on. Qed.
Lemma hd_nil : hd [] = id_row b. Proof. apply row_of_nil. Qed.
Lemma hd_snoc w i : calling calls w -> i <= length calls -> hd (w ++ [i]) = comp (hd w) (lhd i).
Proof using WM POS LEN CALLS.
  intros H Hi. unfold hd, lhd. rewrite changes_app. cbn [changes_called flat_map]. rewrite app_nil_r.
  apply row_of_app; [exact b255|now apply changes_on|now apply lead_on].
Qed.
(* the j-th row of the q-th lead *)
Lemma row_at w q j : calling calls w -> q < length w -> j < L -> row_of b (firstn (q * L + j) (changes_called m calls w)) = comp (hd (firstn q w)) (R j).
Proof using WM POS LEN CALLS.
  intros H Hq Hj. pose proof (firstn_skipn q w) as S. destruct (skipn q w) as [|i v] eqn:Es.
  { assert (length (skipn q w) = length w - q) by apply skipn_length. rewrite Es in *. cbn in *. lia. }
  pose proof H as H'. rewrite <- S in H'. apply calling_app in H'. destruct H' as [C1 C2]. inversion_clear C2 as [|? ? Hi _].
  destruct (changes_on C1) as [O1 L1]. destruct (lead_on Hi) as (O2 & L2 & F2).
  assert (Lq : length (firstn q w) = q) by (rewrite firstn_length; lia). rewrite Lq in L1.
  rewrite <- S at 1. rewrite changes_app. rewrite firstn_app, L1. rewrite firstn_all2 by lia. replace (q * L + j - q * L) with j by lia.
  cbn [changes_called flat_map]. rewrite firstn_app. replace (j - length (lead_called m calls i)) with 0 by lia. cbn [firstn]. rewrite app_nil_r, (F2 j Hj).
  unfold hd, R. apply row_of_app; [exact b255|exact O1|apply on_b_firstn; exact mch_on].
Qed.

(* no two leads of w begun before the end have a row in common *)
Definition nofalse (w : list nat) : Prop := forall p q, p < q < length w -> ~ clash (hd (firstn p w)) (hd (firstn q w)).
Definition lead_true : Prop := forall i j, i < j < L -> R i <> R j.
Lemma comp_cancel x y z : row_b b x -> row_b b y -> row_b b z -> comp x y = comp x z -> y = z.
Proof.
  intros Hx Hy Hz E. apply (row_b_ext Hy Hz). intros i. apply (act_inj (proj1 Hx)). rewrite <- !act_comp by (apply Hy || apply Hz). now rewrite E.
Qed.
Lemma true_calling w : lead_true -> calling calls w -> (true_touch b (changes_called m calls w) <-> hd w = id_row b /\ nofalse w).
Proof using WM POS LEN CALLS.
  intros LT H. destruct (changes_on H) as [O LL]. rewrite (true_touch_iff b255 O). fold (hd w).
  assert (X : forall A B C : Prop, (B <-> C) -> (A /\ B <-> A /\ C)) by (intros; tauto). apply X. clear X. rewrite LL.
  assert (DM : forall i, i < length w * L -> exists q j, i = q * L + j /\ q < length w /\ j < L).
  { intros i Hi. exists (i / L), (i mod L). pose proof (Nat.div_mod i L ltac:(lia)). split; [lia|]. split; [apply Nat.div_lt_upper_bound; lia|apply Nat.mod_upper_bound; lia]. }
  split.
  - intros T p q Hpq (i & j & Hi & Hj & E). rewrite <- (@row_at w p i), <- (@row_at w q j) in E by (auto; lia).
    revert E. apply T. split; [nia|]. assert (q * L + j < S q * L) by (cbn; lia). assert (S q * L <= length w * L) by (apply Nat.mul_le_mono_r; lia). lia.
  - intros N i j [Hij Hj] E. destruct (DM i ltac:(lia)) as (p & i' & -> & Hp & Hi'). destruct (DM j Hj) as (q & j' & -> & Hq & Hj').
    rewrite !row_at in E by assumption. destruct (Nat.lt_trichotomy p q) as [K|[K|K]].
    + apply (N p q ltac:(lia)). exists i', j'. auto.
    + subst q. apply comp_cancel in E; try apply R_row; [|apply hd_row; now apply calling_firstn]. revert E. apply LT. lia.
    + assert (S q * L <= p * L) by (apply Nat.mul_le_mono_r; lia). cbn in *. lia.
Qed.
Lemma clash_refl h : clash h h.
Proof using WM POS LEN CALLS. exists 0, 0. repeat split; lia. Qed.
Lemma clash_sym h h' : clash h h' -> clash h' h.
Proof. intros (i & j & Hi & Hj & E). exists j, i. auto. Qed.

(* --- the table of falsenesses --- *)
Variable sym : symtab.
Definition good (ic : bool) (h : row) : Prop := row_b b h /\ act h 0 = 0 /\ (ic = true -> sign sym h = Ret 1%Z).
Lemma good_comp ic x y : good ic x -> good ic y -> good ic (comp x y).
Proof using WM POS LEN CALLS.
  intros (X1 & X2 & X3) (Y1 & Y2 & Y3). pose proof b255. split; [apply comp_row_b; [exact X1|exact (proj1 Y1)|destruct Y1; lia]|].
  split; [rewrite act_comp by exact (proj1 Y1); congruence|]. intros I. apply (@even_closed sym b); auto.
Qed.
Lemma good_id ic : good ic (id_row b).
Proof using WM POS LEN CALLS.
  split; [apply row_b_id|]. split; [apply act_id|]. intros _. rewrite <- (@rounds_id b) by (pose proof b255; lia). apply sign_rounds. pose proof b255; lia.
Qed.
Lemma table_clash (ic : bool) t : falseness_method sym (if ic then F_IN_COURSE else 0%Z) m = Ret t ->
  Forall (row_b b) t /\ forall h h', good ic h -> good ic h' -> ((exists f, In f t /\ comp h f = h') <-> clash h h').
Proof using WM POS LEN CALLS.
  intros E. assert (HF : has (if ic then F_IN_COURSE else 0%Z) F_HALF_LEAD = false) by (destruct ic; reflexivity).
  destruct (@C32_method sym _ m WM POS LEN HF) as (t' & E' & _ & S). rewrite E in E'. injection E' as <-.
  assert (SH : forall f, row_b b f -> (leads_share b (mch m) (mch m) L L f <-> exists i j, i < L /\ j < L /\ R i = comp f (R j))).
  { intros f Hf. pose proof b255. unfold leads_share. split.
    - intros (i & j & r & Hi & Hj & R1 & R2). exists i, j. split; [exact Hi|]. split; [exact Hj|].
      apply (rung_iff b255 _ (on_b_firstn i mch_on)) in R1. fold (R i) in R1. rewrite <- R1.
      apply (@rung_comp b f (firstn j (mch m)) (R j) r); [lia|exact Hf|apply on_b_widest; [exact b255|apply on_b_firstn; exact mch_on]|apply rung_row_of; [exact b255|apply on_b_firstn; exact mch_on]|exact R2].
    - intros (i & j & Hi & Hj & Q). exists i, j, (R i). split; [exact Hi|]. split; [exact Hj|]. split; [apply rung_row_of; [exact b255|apply on_b_firstn; exact mch_on]|].
      apply (@rung_comp b f (firstn j (mch m)) (R j) (R i)); [lia|exact Hf|apply on_b_widest; [exact b255|apply on_b_firstn; exact mch_on]|apply rung_row_of; [exact b255|apply on_b_firstn; exact mch_on]|exact Q]. }
  split; [apply Forall_forall; intros f Hf; now apply S in Hf|].
  intros h h' (G1 & G2 & G3) (G1' & G2' & G3'). split.
  - intros (f & Hf & <-). apply S in Hf. destruct Hf as (Rf & _ & Sh). apply (SH f Rf) in Sh. destruct Sh as (i & j & Hi & Hj & Q).
    exists i, j. split; [exact Hi|]. split; [exact Hj|]. rewrite (comp_assoc G1 Rf (R_row j)). now rewrite Q.
  - intros (i & j & Hi & Hj & Q). pose proof b255 as B. destruct (@inverse_spec h (@row_b_256 b h ltac:(lia) G1)) as (z & Ez & Z1 & Z2 & Z3 & Z4).
    assert (Rz : row_b b z) by (split; [exact (proj1 Z1)|rewrite Z2; exact (proj2 G1)]).
    assert (Rf : row_b b (comp z h')) by (apply comp_row_b; [exact Rz|exact (proj1 G1')|destruct G1'; lia]).
    assert (HF' : comp h (comp z h') = h').
    { apply (@row_b_ext b); [apply comp_row_b; [exact G1|exact (proj1 Rf)|destruct Rf; lia]|exact G1'|]. intros k. rewrite act_comp by exact (proj1 Rf). rewrite act_comp by exact (proj1 G1'). apply Z4. }
    exists (comp z h'). split; [|exact HF']. apply S. split; [exact Rf|]. split.
    + unfold asked_for. split; [|split].
      * intros _. rewrite act_comp by exact (proj1 G1'). rewrite G2'. rewrite <- G2 at 1. apply Z3.
      * intros I. assert (ic = true) as -> by (destruct ic; [reflexivity|discriminate]).
        destruct (@sign_pm sym (comp z h') (@row_b_256 b _ ltac:(lia) Rf)) as [K|K]; [exact K|exfalso].
        pose proof (@sign_comp sym b h (comp z h') ltac:(lia) G1 Rf) as (s1 & s2 & E1 & E2 & E3). rewrite HF' in E3. rewrite (G3 eq_refl) in E1. rewrite (G3' eq_refl) in E3. rewrite K in E2. injection E1 as <-. injection E2 as <-. discriminate.
      * destruct ic; discriminate.
    + apply (SH _ Rf). exists i, j. split; [exact Hi|]. split; [exact Hj|]. apply (@comp_cancel h); [exact G1|apply R_row|apply comp_row_b; [exact Rf|exact (proj1 (R_row j))|destruct (R_row j); lia]|].
      rewrite <- (comp_assoc G1 Rf (R_row j)). rewrite HF'. exact Q.
Qed.
End Leads.
