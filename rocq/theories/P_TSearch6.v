(* P_TSearch6.v - a calling repeated as many times as there are parts. *)
From Verif Require Import Base M_Bell M_Change M_Math M_Row M_Extent M_Group M_Multtab M_Touch M_PN M_Method M_False M_Search M_TSearch Spec_Row Spec_Change Spec_Touch Spec_Group Spec_Method Spec_False Spec_Extent Spec_Search Spec_TSearch
  P_Math P_Row P_Cycle P_Order P_Group P_Group2 P_Group3 P_Touch P_False P_False4 P_Search P_Search2 P_Search3 P_Search4 P_Search5 P_Search6 P_TSearch P_TSearch3 P_TSearch4 P_TSearch5.
Set Implicit Arguments.
Unset Strict Implicit.
Open Scope nat_scope.

Lemma lcm_int a c o : (0 < a <= int_max)%Z -> (0 < c <= int_max)%Z -> lcm a c = Ret o -> (0 < o <= int_max)%Z.
Proof.
  intros Ha Hc E. pose proof (@lcm_ret a c o ltac:(lia) ltac:(lia) E) as Eo. assert (0 < o)%Z by (rewrite Eo; apply lcm_pos; lia). split; [assumption|].
  unfold lcm in E. destruct (a =? 1)%Z; [injection E as <-; lia|]. destruct (c =? 1)%Z; [injection E as <-; lia|]. unfold as_int in E. destruct (_ && _) eqn:Q; [|discriminate].
  apply andb_true_iff in Q. destruct Q as [_ Q]. apply Z.leb_le in Q. subst o. etransitivity; [|exact Q]. apply Z.divide_pos_le; [nia|]. apply Z.lcm_least; [apply Z.divide_factor_l|apply Z.divide_factor_r].
Qed.
Lemma forM_lcm_int lens : Forall (fun k => 0 < k <= 256) lens -> forall o v, (0 < o <= int_max)%Z -> forM lens (fun o k => lcm o (Z.of_nat k)) o = Ret v -> (v <= int_max)%Z.
Proof.
  induction 1 as [|k lens Hk F IH]; intros o v Ho E; cbn [forM] in E; [injection E as <-; lia|].
  destruct (lcm o (Z.of_nat k)) as [o'| | |] eqn:Q; try discriminate. cbn [bind] in E. apply (IH o' v); [|exact E]. apply (@lcm_int o (Z.of_nat k) o' Ho); [unfold int_max; lia|exact Q].
Qed.
Lemma order_int x o : row256 x -> order default_symtab x = Ret o -> (o <= int_max)%Z.
Proof.
  intros R E. destruct (cycle_lists_spec (proj1 R)) as (cs & Ec & D & _). rewrite (order_forM R Ec D) in E. pose proof (lens_pos (decomp_nonempty D)) as F.
  apply (@forM_lcm_int (map (@length nat) cs)) with (o := 1%Z); [|unfold int_max; lia|exact E]. rewrite Forall_forall in *. intros k Hk. split; [now apply F|].
  destruct D as (P1 & _). assert (Q : length (concat cs) <= 256). { rewrite (Permutation_length P1), seq_length. apply R. }
  etransitivity; [|exact Q]. rewrite <- nsum_concat. clear -Hk. induction (map (@length nat) cs) as [|a l IH]; [destruct Hk|]. cbn [nsum]. destruct Hk as [<-|Hk]; [lia|]. specialize (IH Hk). lia.
Qed.
Lemma order_is_unique h k k' : order_is h k -> order_is h k' -> k = k'.
Proof.
  intros (A1 & A2 & A3) (B1 & B2 & B3). destruct (Nat.lt_trichotomy k k') as [K|[K|K]]; [|exact K|].
  - destruct (B3 k ltac:(lia)) as (i & Hi). now rewrite A2 in Hi.
  - destruct (A3 k' ltac:(lia)) as (i & Hi). now rewrite B2 in Hi.
Qed.

Section Pow.
Variables (b : nat) (h : row).
Hypothesis Hh : row_b b h.
Lemma pwb k : row_b b (pw b h k).
Proof using Hh. apply pw_row; [apply Hh|destruct Hh; lia]. Qed.
Lemma pw_add j k : comp (pw b h j) (pw b h k) = pw b h (j + k).
Proof using Hh.
  apply (@row_b_ext b); [apply comp_row_b; [apply pwb|apply pwb|destruct (pwb k); lia]|apply pwb|]. intros i. rewrite act_comp by apply pwb. rewrite !act_pw by (apply Hh || (destruct Hh; lia)). symmetry. apply act_pow_add.
Qed.
Lemma pw_id k : pw b h k = id_row b <-> forall i, act_pow h k i = i.
Proof using Hh.
  split.
  - intros E i. rewrite <- (@act_pw b) by (apply Hh || (destruct Hh; lia)). rewrite E. apply act_id.
  - intros H. apply (@row_b_ext b); [apply pwb|apply row_b_id|]. intros i. rewrite act_id, act_pw by (apply Hh || (destruct Hh; lia)). apply H.
Qed.
Lemma order_pw k : order_is h k <-> 0 < k /\ pw b h k = id_row b /\ forall j, 0 < j < k -> pw b h j <> id_row b.
Proof using Hh.
  unfold order_is. rewrite pw_id. split; intros (A & B & C); (split; [exact A|]; split; [exact B|]); intros j Hj.
  - rewrite pw_id. intros X. destruct (C j Hj) as (i & Hi). now rewrite X in Hi.
  - specialize (C j Hj). rewrite pw_id in C. destruct (forallb (fun i => act_pow h j i =? i) (seq 0 b)) eqn:F.
    + exfalso. apply C. intros i. destruct (Nat.lt_ge_cases i b) as [L|L]; [|apply act_pow_ge; destruct Hh; lia]. rewrite forallb_forall in F. apply Nat.eqb_eq, F, in_seq. lia.
    + assert (X : exists i, act_pow h j i <> i); [|exact X]. clear -F. revert F. generalize (seq 0 b) as l. induction l as [|a l IH]; [discriminate|]. cbn [forallb]. destruct (Nat.eqb_spec (act_pow h j a) a); [exact IH|eauto].
Qed.
Variable P : group.
Hypothesis WP : wf_group P.
Hypothesis GB : gb P = b.
Lemma pw_in k : In h (gv P) -> In (pw b h k) (gv P).
Proof using Hh WP GB.
  intros H. induction k as [|k IH]; cbn [pw]; [|now apply (grp_mul WP)]. destruct WP as (_ & [_ (_ & I & _)] & _). rewrite <- GB. exact I.
Qed.
Lemma pw_all : In h (gv P) -> order_is h (length (gv P)) -> forall g, In g (gv P) <-> exists k, k < length (gv P) /\ g = pw b h k.
Proof using Hh WP GB.
  intros H O g. apply order_pw in O. destruct O as (O1 & O2 & O3). split; [|intros (k & _ & ->); now apply pw_in].
  intros Hg. assert (I : incl (gv P) (map (pw b h) (seq 0 (length (gv P))))).
  { apply NoDup_length_incl.
    - apply (NoDup_nth _ []). rewrite map_length, seq_length. intros i j Hi Hj E. rewrite !(nth_indep _ [] (pw b h 0)) in E by (rewrite map_length, seq_length; lia). rewrite !map_nth, !seq_nth in E by lia. cbn [Nat.add] in E.
      assert (X : forall i j, i < j -> j < length (gv P) -> pw b h i <> pw b h j).
      { clear i j Hi Hj E. intros i j Hij Hj E. apply (O3 (j - i) ltac:(lia)). apply (@comp_cancel (mkMethod [] b) (pw b h i)); try apply pwb; [apply row_b_id|]. cbn [mb]. rewrite pw_add. rewrite (@comp_id_r b) by apply pwb. rewrite E. f_equal. lia. }
      destruct (Nat.lt_trichotomy i j) as [L|[L|L]]; [exfalso; exact (X i j L Hj E)|exact L|exfalso; exact (X j i L Hi (eq_sym E))].
    - rewrite map_length, seq_length. lia.
    - intros x Hx. apply in_map_iff in Hx. destruct Hx as (k & <- & _). now apply pw_in. }
  apply I in Hg. apply in_map_iff in Hg. destruct Hg as (k & <- & Hk). apply in_seq in Hk. exists k. split; [lia|reflexivity].
Qed.
End Pow.

Section Parts.
Variables (m : method) (calls : list change).
Hypothesis WM : wf_method m.
Hypothesis POS : 0 < mb m.
Hypothesis LEN : 1 <= length (mch m).
Hypothesis CALLS : on_b (mb m) calls.
Notation b := (mb m).
Notation hd := (hd m calls).
Lemma hd_app u v : calling calls u -> calling calls v -> hd (u ++ v) = comp (hd u) (hd v).
Proof. intros Hu Hv. unfold P_Search4.hd. rewrite changes_app. apply row_of_app; [exact (b255 WM POS LEN CALLS)|now apply (changes_on WM POS LEN CALLS)|now apply (changes_on WM POS LEN CALLS)]. Qed.
Lemma calling_rep w k : calling calls w -> calling calls (n_times k w).
Proof. intros C. induction k as [|k IH]; [constructor|]. unfold n_times in *. cbn [repeat concat]. apply calling_app. auto. Qed.
Lemma hd_rep w k : calling calls w -> hd (n_times k w) = pw b (hd w) k.
Proof.
  intros C. induction k as [|k IH]; [apply hd_nil|]. unfold n_times in *. cbn [repeat concat]. rewrite hd_app by (auto; now apply (calling_rep k)). rewrite IH. apply pw_shift; [pose proof (b255 WM POS LEN CALLS); lia|]. now apply (hd_row WM POS LEN CALLS).
Qed.
Lemma rep_length A (w : list A) k : length (n_times k w) = k * length w.
Proof. induction k as [|k IH]; [reflexivity|]. unfold n_times in *. cbn [repeat concat]. rewrite app_length, IH. reflexivity. Qed.
Lemma rep_split A (w : list A) j k : n_times (j + k) w = n_times j w ++ n_times k w.
Proof. unfold n_times. now rewrite repeat_app, concat_app. Qed.
Lemma firstn_rep A (w : list A) n k p : k < n -> p < length w -> firstn (k * length w + p) (n_times n w) = n_times k w ++ firstn p w.
Proof.
  intros Hk Hp. replace n with (k + S (n - k - 1)) by lia. rewrite rep_split. rewrite firstn_app, rep_length. replace (k * length w + p - k * length w) with p by lia.
  rewrite firstn_all2 by (rewrite rep_length; lia). f_equal. unfold n_times. cbn [repeat concat]. rewrite firstn_app. replace (p - length w) with 0 by lia. cbn [firstn]. apply app_nil_r.
Qed.
Lemma hd_firstn_rep w n k p : calling calls w -> k < n -> p < length w -> hd (firstn (k * length w + p) (n_times n w)) = comp (pw b (hd w) k) (hd (firstn p w)).
Proof. intros C Hk Hp. rewrite firstn_rep by assumption. rewrite hd_app by (try apply calling_firstn; auto; now apply calling_rep). now rewrite hd_rep. Qed.
Lemma changes_rep w n : changes_called m calls (n_times n w) = n_times n (changes_called m calls w).
Proof. induction n as [|n IH]; [reflexivity|]. unfold n_times in *. cbn [repeat concat]. now rewrite changes_app, IH. Qed.
Lemma clash_left g h h' : row_b b g -> row_b b h -> row_b b h' -> (clash m (comp g h) (comp g h') <-> clash m h h').
Proof.
  intros Hg Hh Hh'. unfold clash. split; intros (i & j & Hi & Hj & E); exists i, j; (split; [exact Hi|]; split; [exact Hj|]).
  - rewrite !(@comp_assoc b) in E by (auto; apply (R_row WM POS LEN CALLS)). revert E. apply (@comp_cancel m); [exact Hg| |]; (apply comp_row_b; [assumption|apply (R_row WM POS LEN CALLS)|]); [destruct (R_row WM POS LEN CALLS i)|destruct (R_row WM POS LEN CALLS j)]; lia.
  - rewrite !(@comp_assoc b) by (auto; apply (R_row WM POS LEN CALLS)). now rewrite E.
Qed.
Lemma meet_clash h h' : row_b b h -> row_b b h' -> (leads_meet m h h' <-> clash m h h').
Proof.
  intros Hh Hh'. pose proof (b255 WM POS LEN CALLS) as B. assert (X : forall h i r, row_b b h -> (rung h (firstn i (mch m)) r <-> r = comp h (R m i))).
  { intros x i r Hx. pose proof (@on_b_firstn b i _ (mch_on WM POS LEN CALLS)) as O. apply (@rung_comp b x (firstn i (mch m)) (R m i) r); [lia|exact Hx|apply on_b_widest; [exact B|exact O]|apply rung_row_of; [exact B|exact O]]. }
  unfold leads_meet, clash. split.
  - intros (i & j & r & Hi & Hj & R1 & R2). apply X in R1; [|exact Hh]. apply X in R2; [|exact Hh']. exists i, j. split; [exact Hi|]. split; [exact Hj|]. congruence.
  - intros (i & j & Hi & Hj & E). exists i, j, (comp h (R m i)). split; [exact Hi|]. split; [exact Hj|]. split; [now apply X|]. now apply X.
Qed.
Lemma head_hd w h : calling calls w -> (lead_head m calls w h <-> h = hd w).
Proof. intros C. apply rung_iff; [exact (b255 WM POS LEN CALLS)|]. now apply (changes_on WM POS LEN CALLS). Qed.

(* the parts in which w is rung *)
Variables (w : list nat) (n : nat).
Hypothesis CW : calling calls w.
Hypothesis NE : w <> [].
Notation h := (hd w).
Notation hp p := (hd (firstn p w)).
Lemma hw : row_b b h. Proof using WM POS LEN CALLS CW. now apply (hd_row WM POS LEN CALLS). Qed.
Lemma hpw p : row_b b (hp p). Proof using WM POS LEN CALLS CW. apply (hd_row WM POS LEN CALLS). now apply calling_firstn. Qed.
Lemma wlen : 0 < length w. Proof using NE. clear -NE. destruct w as [|x l]; [congruence|]. apply Nat.lt_0_succ. Qed.
Lemma rep_false : P_Search4.nofalse m calls (n_times n w) ->
  (forall k, 0 < k < n -> pw b h k <> id_row b /\ ~ clash m (id_row b) (pw b h k)) /\
  (forall k p q, k < n -> p < q < length w -> ~ clash m (comp (pw b h k) (hp p)) (hp q)).
Proof using WM POS LEN CALLS CW NE.
  intros NF. pose proof wlen as WL. pose proof hw as RH. assert (Z : forall k, 0 < k < n -> ~ clash m (id_row b) (pw b h k)).
  { intros k Hk Cl. apply (NF 0 (k * length w)); [rewrite rep_length; nia|]. replace (k * length w) with (k * length w + 0) by lia. rewrite hd_firstn_rep by (auto; lia). cbn [firstn]. rewrite !hd_nil. rewrite (@comp_id_r b) by (now apply pwb). exact Cl. }
  split.
  - intros k Hk. split; [|now apply Z]. intros E. apply (Z k Hk). rewrite E. apply (clash_refl WM POS LEN CALLS).
  - intros k p q Hk Hpq Cl. destruct k as [|k].
    + cbn [pw] in Cl. rewrite (@comp_id_l b) in Cl by apply hpw. apply (NF p q); [rewrite rep_length; nia|]. replace p with (0 * length w + p) by lia. replace q with (0 * length w + q) by lia. rewrite !hd_firstn_rep by (auto; lia).
      cbn [pw]. rewrite !(@comp_id_l b) by apply hpw. exact Cl.
    + apply (NF q (S k * length w + p)); [rewrite rep_length; split; [|assert (S (S k) * length w <= n * length w) by (apply Nat.mul_le_mono_r; lia)]; cbn in *; lia|]. rewrite hd_firstn_rep by (auto; lia). replace q with (0 * length w + q) by lia. rewrite hd_firstn_rep by (auto; lia).
      apply clash_sym. cbn [pw] in Cl |- *. rewrite (@comp_id_l b (hp q)) by apply hpw. exact Cl.
Qed.
Lemma rep_true : pw b h n = id_row b ->
  (forall k p q, k < n -> p < q < length w -> ~ clash m (comp (pw b h k) (hp p)) (hp q)) ->
  (forall k p, 0 < k < n -> p < length w -> ~ clash m (comp (pw b h k) (hp p)) (hp p)) -> P_Search4.nofalse m calls (n_times n w).
Proof using WM POS LEN CALLS CW NE.
  intros ID H1 H2 i j [Hij Hj]. pose proof wlen as WL. pose proof hw as RH. rewrite rep_length in Hj.
  assert (DM : forall i, i < n * length w -> exists k p, i = k * length w + p /\ k < n /\ p < length w).
  { intros x Hx. exists (x / length w), (x mod length w). pose proof (Nat.div_mod x (length w) ltac:(lia)). split; [lia|]. split; [apply Nat.div_lt_upper_bound; lia|apply Nat.mod_upper_bound; lia]. }
  destruct (DM i ltac:(lia)) as (k & p & -> & Hk & Hp). destruct (DM j Hj) as (l & q & -> & Hl & Hq). rewrite !hd_firstn_rep by assumption. intros Cl.
  assert (KL : k <= l). { destruct (Nat.le_gt_cases k l) as [|G]; [assumption|exfalso]. assert (S l * length w <= k * length w) by (apply Nat.mul_le_mono_r; lia). cbn in *. lia. }
  assert (RP : forall x y, row_b b (comp (pw b h x) (hp y))) by (intros x y; apply comp_row_b; [now apply pwb|apply hpw|destruct (hpw y); lia]).
  assert (C2 : clash m (hp p) (comp (pw b h (l - k)) (hp q))).
  { apply (@clash_left (pw b h k)); [now apply pwb|apply hpw|apply RP|]. rewrite <- (@comp_assoc b) by (try apply pwb; try apply hpw; exact RH). rewrite pw_add by exact RH. replace (k + (l - k)) with l by lia. exact Cl. }
  destruct (Nat.eq_dec k l) as [->|N].
  - apply (H1 0 p q); [lia|lia|]. rewrite Nat.sub_diag in C2. cbn [pw] in *. rewrite (@comp_id_l b) by apply hpw. rewrite (@comp_id_l b) in C2 by apply hpw. exact C2.
  - destruct (Nat.lt_trichotomy p q) as [L|[L|L]].
    + apply (H1 (n - (l - k)) p q); [lia|lia|]. apply (@clash_left (pw b h (l - k))); [now apply pwb|apply RP|apply hpw|].
      rewrite <- (@comp_assoc b) by (try apply pwb; try apply hpw; exact RH). rewrite pw_add by exact RH. replace (l - k + (n - (l - k))) with n by lia. rewrite ID. rewrite (@comp_id_l b) by apply hpw. exact C2.
    + subst q. apply (H2 (l - k) p); [lia|exact Hp|]. now apply clash_sym.
    + apply (H1 (l - k) q p); [lia|lia|]. now apply clash_sym.
Qed.
End Parts.
