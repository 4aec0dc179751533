(* P_MethClass.v - counting blows round a palindromic path; the cycles of the working bells. *)
From Verif Require Import Base M_Bell M_Change M_Math M_Row M_PN M_Method Spec_Row Spec_Change Spec_Cycle Spec_PN Spec_Method Spec_MethClass
  P_Math P_Row P_Bell P_Change P_Change2 P_Change3 P_Cycle P_Order P_PN P_Format P_Method P_Method2.
Set Implicit Arguments.
Unset Strict Implicit.
Open Scope nat_scope.

(* ---- counting ---- *)
Definition cnt (f : nat -> bool) (a n : nat) : nat := length (filter f (seq a n)).
Lemma cnt_0 f a : cnt f a 0 = 0. Proof. reflexivity. Qed.
Lemma cnt_first f a n : cnt f a (S n) = (if f a then 1 else 0) + cnt f (S a) n.
Proof. unfold cnt. cbn [seq filter]. destruct (f a); reflexivity. Qed.
Lemma cnt_last f a n : cnt f a (S n) = cnt f a n + (if f (a + n) then 1 else 0).
Proof. unfold cnt. rewrite seq_S, filter_app, app_length. cbn [filter]. destruct (f (a + n)); reflexivity. Qed.
Lemma cnt_split f a p q : cnt f a (p + q) = cnt f a p + cnt f (a + p) q.
Proof.
  revert a. induction p as [|p IH]; intros a; [now rewrite Nat.add_0_r|]. cbn [Nat.add].
  rewrite !cnt_first, IH. replace (S a + p) with (a + S p) by lia. lia.
Qed.
Lemma cnt_ext f g a b n : (forall k, k < n -> f (a + k) = g (b + k)) -> cnt f a n = cnt g b n.
Proof.
  revert a b. induction n as [|n IH]; intros a b H; [reflexivity|]. rewrite !cnt_last.
  rewrite (IH a b) by (intros k Hk; apply H; lia). now rewrite H by lia.
Qed.
Lemma cnt_rev f g a b n : (forall k, k < n -> f (a + k) = g (b + (n - 1 - k))) -> cnt f a n = cnt g b n.
Proof.
  revert a b. induction n as [|n IH]; intros a b H; [reflexivity|]. rewrite cnt_first, cnt_last.
  rewrite (IH (S a) b).
  - specialize (H 0 ltac:(lia)). rewrite Nat.add_0_r in H. replace (b + (S n - 1 - 0)) with (b + n) in H by lia. rewrite H. lia.
  - intros k Hk. specialize (H (S k) ltac:(lia)). replace (S a + k) with (a + S k) by lia. rewrite H. f_equal. lia.
Qed.
Lemma cnt_rot f a n : (forall t, f (n + t) = f t) -> cnt f a n = cnt f 0 n.
Proof.
  intros P. induction a as [|a IH]; [reflexivity|]. rewrite <- IH. destruct n as [|n]; [reflexivity|].
  rewrite cnt_last, cnt_first. replace (S a + n) with (S n + a) by lia. rewrite P. lia.
Qed.
Lemma cnt_le f a n : cnt f a n <= n.
Proof. revert a. induction n as [|n IH]; intros a; [apply Nat.le_refl|]. rewrite cnt_last. specialize (IH a). destruct (f _); lia. Qed.
Lemma cnt_pos f a n : 0 < cnt f a n <-> exists k, k < n /\ f (a + k) = true.
Proof.
  induction n as [|n IH]; [rewrite cnt_0; split; [lia|intros (k & Hk & _); lia]|]. rewrite cnt_last. split.
  - intros H. destruct (f (a + n)) eqn:E; [exists n; split; [lia|exact E]|]. destruct (proj1 IH ltac:(lia)) as (k & Hk & X). exists k. split; [lia|exact X].
  - intros (k & Hk & X). destruct (Nat.eq_dec k n) as [->|]; [rewrite X; lia|].
    assert (0 < cnt f a n) by (apply IH; exists k; split; [lia|exact X]). lia.
Qed.

Section M.
Variable m : method.
Hypothesis WF : wf_method m.
Let L := mch m.
Let n := length L.
Let nb := mb m.

(* ---- blows and places of a palindromic path, over half the lead ---- *)
Section Pal.
Variable x p : nat.
Hypothesis HB : path L x n = x.
Hypothesis EV : Nat.even n = true.
Hypothesis Hp : p < n / 2.
Hypothesis R : path_reflects_about L x p.

Lemma n_pos : 0 < n. Proof. assert (E := even_half EV). lia. Qed.
Lemma per t : path L x (n + t) = path L x t. Proof. exact (path_period HB n_pos t). Qed.
Lemma at_point : path L x (p + 1) = path L x p.
Proof. assert (H := R n_pos). rewrite !Nat.add_0_r, Nat.sub_0_r in H. fold n in H. replace (p + n) with (n + p) in H by lia. now rewrite per in H. Qed.
Lemma at_half : path L x (p + n / 2 + 1) = path L x (p + n / 2).
Proof.
  assert (E := even_half EV). assert (H := R (k := n / 2)). fold n in H. specialize (H ltac:(lia)).
  replace (p + n / 2 + 1) with (p + 1 + n / 2) by lia. rewrite H. f_equal. lia.
Qed.
(* the second half is the first half backwards *)
Lemma mirror t : t < n / 2 -> path L x (p + 1 + t) = path L x (p + 1 + n / 2 + (n / 2 - 1 - t)).
Proof. assert (E := even_half EV). intros H. rewrite R by (fold n; lia). fold n. f_equal. lia. Qed.

Lemma blows_half q : blows_at L x q = 2 * cnt (fun t => path L x t =? q) (p + 1) (n / 2).
Proof.
  assert (E := even_half EV). unfold blows_at. fold n. change (length _) with (cnt (fun t => path L x t =? q) 0 n).
  rewrite <- (@cnt_rot _ (p + 1)) by (intros t; now rewrite per). rewrite E at 1. replace (2 * (n / 2)) with (n / 2 + n / 2) by lia.
  rewrite cnt_split. assert (X : cnt (fun t => path L x t =? q) (p + 1 + n / 2) (n / 2) = cnt (fun t => path L x t =? q) (p + 1) (n / 2)); [|lia].
  symmetry. apply cnt_rev. intros t Ht. now rewrite mirror.
Qed.
Lemma places_half : places_made L x n = 2 + 2 * cnt (fun t => path L x (t + 1) =? path L x t) (p + 1) (n / 2 - 1).
Proof.
  assert (E := even_half EV). set (f := fun t => path L x (t + 1) =? path L x t).
  change (places_made L x n) with (cnt f 0 n). assert (PF : forall t, f (n + t) = f t).
  { intros t. unfold f. rewrite <- Nat.add_assoc, !per. reflexivity. }
  rewrite <- (@cnt_rot f p) by exact PF. replace n with (1 + (n / 2 - 1) + (1 + (n / 2 - 1))) at 1 by lia.
  rewrite !cnt_split. replace (p + (1 + (n / 2 - 1))) with (p + n / 2) by lia.
  assert (A : cnt f p 1 = 1).
  { rewrite cnt_first, cnt_0. unfold f at 1. rewrite at_point, Nat.eqb_refl. reflexivity. }
  assert (B : cnt f (p + n / 2) 1 = 1).
  { rewrite cnt_first, cnt_0. unfold f at 1. rewrite at_half, Nat.eqb_refl. reflexivity. }
  rewrite A, B. assert (X : cnt f (p + n / 2 + 1) (n / 2 - 1) = cnt f (p + 1) (n / 2 - 1)); [|lia].
  symmetry. apply cnt_rev. intros t Ht. unfold f.
  replace (p + 1 + t + 1) with (p + 1 + (t + 1)) by lia. rewrite !mirror by lia.
  replace (p + n / 2 + 1 + (n / 2 - 1 - 1 - t) + 1) with (p + 1 + n / 2 + (n / 2 - 1 - t)) by lia.
  replace (p + n / 2 + 1 + (n / 2 - 1 - 1 - t)) with (p + 1 + n / 2 + (n / 2 - 1 - (t + 1))) by lia.
  apply Nat.eqb_sym.
Qed.
End Pal.

(* ---- leads ---- *)
Lemma path_leads x a t : path L x (a * n + t) = path L (path L x (a * n)) t.
Proof.
  destruct (Nat.eq_dec n 0) as [Z|Z].
  - rewrite Z, Nat.mul_0_r. reflexivity.
  - revert x. induction a as [|a IH]; intros x; [reflexivity|].
    replace (S a * n + t) with (n + (a * n + t)) by lia. replace (S a * n) with (n + a * n) by lia.
    rewrite !(path_add (m := m)) by (fold L n; lia). fold L n. apply IH.
Qed.
Lemma path_back_leads x a b : path L x (a * n) = path L x ((a + b) * n) -> path L x (b * n) = x.
Proof.
  rewrite Nat.mul_add_distr_r, Nat.add_comm, path_leads. intros H. apply (path_inj WF (k := a * n)) . symmetry. exact H.
Qed.
Lemma home_mul x a k : path L x (a * n) = x -> path L x (k * a * n) = x.
Proof.
  intros H. induction k as [|k IH]; [reflexivity|]. replace (S k * a * n) with (k * a * n + a * n) by lia.
  replace (k * a * n) with ((k * a) * n) by lia. rewrite path_leads. rewrite IH. exact H.
Qed.

(* x comes home first after s leads *)
Definition home (x s : nat) : Prop := 0 < s /\ path L x (s * n) = x /\ forall i, 0 < i < s -> path L x (i * n) <> x.
Lemma home_unique x s s' : home x s -> home x s' -> s = s'.
Proof.
  intros (P & H & Hl) (P' & H' & Hl'). destruct (lt_eq_lt_dec s s') as [[D|D]|D]; [exfalso|exact D|exfalso].
  - now apply (Hl' s).
  - now apply (Hl s').
Qed.
Lemma home_divides x s k : home x s -> path L x (k * n) = x -> k mod s = 0.
Proof.
  intros (P & H & Hl) Hk. assert (E := Nat.div_mod k s ltac:(lia)). assert (B := Nat.mod_upper_bound k s ltac:(lia)).
  destruct (Nat.eq_dec (k mod s) 0) as [|N]; [assumption|]. exfalso. apply (Hl (k mod s)); [lia|].
  rewrite E in Hk. rewrite Nat.mul_add_distr_r, path_leads in Hk. rewrite (Nat.mul_comm s) in Hk. rewrite home_mul in Hk by exact H. exact Hk.
Qed.

Lemma act_leads r x k : lh m = Ret r -> x < nb -> act_pow r k (path L x (k * n)) = x.
Proof.
  intros E. destruct (lh_spec WF) as (r' & E' & R & Lr & A). rewrite E in E'. injection E' as <-.
  revert x. induction k as [|k IH]; intros x Hx; [reflexivity|]. replace (S k * n) with (n + k * n) by lia.
  destruct (Nat.eq_dec n 0) as [Z|Z].
  - rewrite Z. rewrite Nat.mul_0_r. cbn [path Nat.add act_pow]. specialize (IH x Hx). rewrite Z, Nat.mul_0_r in IH. cbn [path] in IH. rewrite IH.
    specialize (A x Hx). fold L n in A. rewrite Z in A. exact A.
  - rewrite (path_add (m := m)) by (fold L n; lia). fold L n. cbn [act_pow]. rewrite IH by (now apply path_lt). now apply A.
Qed.
Lemma cycle_home r x : lh m = Ret r -> x < nb -> exists s, cycle_size r x = Ret s /\ home x s.
Proof.
  intros E Hx. destruct (lh_spec WF) as (r' & E' & R & Lr & A). rewrite E in E'. injection E' as <-.
  destruct (@cycle_size_spec r x (proj1 R)) as (s & Es & P & H & Hl); [unfold row in *; fold nb in Lr; lia|].
  exists s. split; [exact Es|]. assert (X : forall k, act_pow r k x = x <-> path L x (k * n) = x).
  { intros k. assert (Y := act_leads k E Hx). split; intros Q.
    - apply (@act_pow_inj r k _ _ (proj1 R)). now rewrite Y, Q.
    - rewrite Q in Y. exact Y. }
  split; [lia|]. split; [now apply X|]. intros i Hi Q. apply (Hl i Hi). now apply X.
Qed.

(* working bells *)
Definition workb (x : nat) : bool := negb (path L x n =? x).
Lemma workb_iff x : x < nb -> workb x = true <-> working_bell L nb x.
Proof. intros H. unfold workb, working_bell, hunt_bell. fold n. rewrite negb_true_iff, Nat.eqb_neq. tauto. Qed.
Lemma working_leads x k : path L (path L x (k * n)) n = path L x (k * n) <-> path L x n = x.
Proof.
  rewrite <- path_leads. replace (k * n + n) with (n + k * n) by lia. destruct (Nat.eq_dec n 0) as [Z|Z].
  - rewrite Z, !Nat.mul_0_r. split; reflexivity.
  - rewrite (path_add (m := m)) by (fold L n; lia). fold L n. split; [apply (path_inj WF)|]. now intros ->.
Qed.

Lemma unequal_iff i s : working_bell L nb i -> home i s ->
  (exists x s', working_bell L nb x /\ home x s' /\ s' <> s) <-> unequal_cycles L nb.
Proof.
  intros Wi Hi. split.
  - intros (x & s' & Wx & Hx & N). destruct (lt_dec s' s) as [D|D].
    + exists x, i, s'. split; [exact Wx|]. split; [exact Wi|]. split; [apply Hx|]. apply Hi. split; [apply Hx|exact D].
    + exists i, x, s. split; [exact Wi|]. split; [exact Wx|]. split; [apply Hi|]. apply Hx. split; [apply Hi|lia].
  - intros (x & y & k & Wx & Wy & Hx & Hy).
    destruct (lh_spec WF) as (r & E & _). destruct (cycle_home E (proj1 Wx)) as (sx & _ & Sx). destruct (cycle_home E (proj1 Wy)) as (sy & _ & Sy).
    destruct (Nat.eq_dec sx s) as [->|N]; [|exists x, sx; auto]. destruct (Nat.eq_dec sy s) as [->|N]; [|exists y, sy; auto].
    exfalso. apply Hy. assert (D := home_divides Sx Hx). assert (Ek := Nat.div_mod k s ltac:(destruct Sx; lia)). rewrite Ek, D, Nat.add_0_r.
    rewrite (Nat.mul_comm s). apply home_mul. apply Sy.
Qed.

Definition workers : list nat := filter workb (seq 0 nb).
Lemma workers_in x : In x workers <-> working_bell L nb x.
Proof.
  unfold workers. rewrite filter_In, in_seq. split.
  - intros [H W]. apply workb_iff; [lia|exact W].
  - intros W. split; [destruct W; lia|]. apply workb_iff; [apply W|exact W].
Qed.
Lemma workers_nodup : NoDup workers. Proof. apply NoDup_filter, seq_NoDup. Qed.
Lemma workers_length h : huntbells m = Ret h -> nb - h = length workers.
Proof.
  intros E. rewrite (huntbells_spec WF) in E. injection E as <-. fold L n nb. unfold workers, workb.
  assert (X : forall l, length (filter (fun x => path L x n =? x) l) + length (filter (fun x => negb (path L x n =? x)) l) = length l).
  { induction l as [|y l IH]; [reflexivity|]. cbn [filter]. destruct (path L y n =? y); cbn [negb length]; lia. }
  specialize (X (seq 0 nb)). rewrite seq_length in X. lia.
Qed.
Lemma separate_iff i s : working_bell L nb i -> home i s -> s < length workers <-> separate_cycles L nb.
Proof.
  intros Wi (P & H & Hl). set (O := map (fun k => path L i (k * n)) (seq 0 s)).
  assert (LO : length O = s) by (unfold O; now rewrite map_length, seq_length).
  assert (IN : forall k, In (path L i (k * n)) O).
  { intros k. assert (E := Nat.div_mod k s ltac:(lia)). assert (B := Nat.mod_upper_bound k s ltac:(lia)).
    unfold O. apply in_map_iff. exists (k mod s). split; [|apply in_seq; lia]. rewrite E at 2.
    rewrite Nat.mul_add_distr_r, path_leads. now rewrite (Nat.mul_comm s), home_mul by exact H. }
  assert (ND : NoDup O).
  { unfold O. assert (X : forall a, a <= s -> NoDup (map (fun k => path L i (k * n)) (seq 0 a))).
    { induction a as [|a IH]; intros Ha; [constructor|]. rewrite seq_S, map_app. cbn [map Nat.add]. apply NoDup_app_iff. split; [apply IH; lia|]. split; [constructor; [now intros []|constructor]|].
      intros y. rewrite in_map_iff. intros (b & Eb & Hb) [<-|[]]. apply in_seq in Hb. apply (Hl (a - b)); [lia|].
        apply (@path_back_leads i b). rewrite Eb. do 2 f_equal. lia. }
    apply X. lia. }
  assert (OW : incl O workers).
  { intros y Hy. apply workers_in. unfold O in Hy. apply in_map_iff in Hy as (k & <- & _). split; [apply (path_lt WF), Wi|].
    unfold hunt_bell. fold n. rewrite working_leads. apply Wi. }
  split.
  - intros D. destruct (existsb (fun y => negb (existsb (Nat.eqb y) O)) workers) eqn:X.
    + apply existsb_exists in X as (y & Hy & N). exists i, y. split; [exact Wi|]. split; [now apply workers_in|].
      intros k E. apply negb_true_iff in N. assert (T : existsb (Nat.eqb y) O = true); [|congruence].
      apply existsb_exists. exists y. split; [rewrite <- E; apply IN|apply Nat.eqb_refl].
    + exfalso. assert (I : incl workers O).
      { intros y Hy. destruct (existsb (Nat.eqb y) O) eqn:Q.
        - apply existsb_exists in Q as (z & Hz & Ez). apply Nat.eqb_eq in Ez. now subst z.
        - exfalso. assert (T : existsb (fun y => negb (existsb (Nat.eqb y) O)) workers = true); [|congruence].
          apply existsb_exists. exists y. split; [exact Hy|]. now rewrite Q. }
      apply NoDup_incl_length in I; [lia|apply workers_nodup].
  - intros (x & y & Wx & Wy & N). destruct (lt_dec s (length workers)) as [|D]; [assumption|]. exfalso.
    assert (I : incl workers O) by (apply NoDup_length_incl; [exact ND|lia|exact OW]).
    assert (Ix := I x (proj2 (workers_in x) Wx)). assert (Iy := I y (proj2 (workers_in y) Wy)).
    unfold O in Ix, Iy. apply in_map_iff in Ix as (a & Ea & Ha). apply in_map_iff in Iy as (b & Eb & Hb). apply in_seq in Ha. apply in_seq in Hb.
    apply (N (s - a + b)). fold n. rewrite <- Ea, <- path_leads. replace (a * n + (s - a + b) * n) with (s * n + b * n) by nia.
    rewrite path_leads, H. exact Eb.
Qed.
End M.
