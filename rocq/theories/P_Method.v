(* P_Method.v - symmetry and the format round trip. *)
From Verif Require Import Base M_Bell M_Change M_Math M_Row M_PN M_Method Spec_Row Spec_Change Spec_PN Spec_Method
  P_Math P_Row P_Bell P_Change P_Change2 P_Change3 P_PN P_Format.
Set Implicit Arguments.
Unset Strict Implicit.
Open Scope nat_scope.

Lemma change_eqb_wf a b : wf_change a -> wf_change b -> change_eqb a b = true <-> a = b.
Proof.
  intros Wa Wb. unfold change_eqb. rewrite andb_true_iff, Nat.eqb_eq, orb_true_iff, Nat.eqb_eq. split.
  - intros [E H]. destruct a as [n sa], b as [n' sb]. cbn [cn cswaps] in *. subst n'. unfold wf_change in *. cbn [cn cswaps] in *. f_equal. destruct H as [->|H].
    + destruct sa as [|x sa]; [|cbn in Wa; lia]. destruct sb as [|x sb]; [reflexivity|cbn in Wb; lia].
    + revert H. destruct (list_eq_dec Nat.eq_dec sa sb) as [E|E]; [auto|intros X; discriminate X].
  - intros ->. split; auto. right. destruct (list_eq_dec Nat.eq_dec (cswaps b) (cswaps b)); auto.
Qed.

Lemma rem_nat a b : Z.rem (Z.of_nat a) (Z.of_nat b) = Z.of_nat (a mod b).
Proof.
  destruct (Nat.eq_dec b 0) as [->|N]; [now destruct a|].
  rewrite Z.rem_mod_nonneg by lia. now rewrite Nat2Z.inj_mod.
Qed.
Lemma quot2_nat a : Z.quot (Z.of_nat a) 2 = Z.of_nat (a / 2).
Proof. rewrite Z.quot_div_nonneg by lia. change 2%Z with (Z.of_nat 2). now rewrite <- Nat2Z.inj_div. Qed.
Lemma odd_nat a : Z.odd (Z.of_nat a) = Nat.odd a.
Proof. rewrite <- Nat.negb_even, <- Z.negb_even. f_equal. induction a using (well_founded_induction lt_wf). destruct a as [|[|a]]; [reflexivity|reflexivity|].
  replace (Z.of_nat (S (S a))) with (Z.succ (Z.succ (Z.of_nat a))) by lia. rewrite Z.even_succ_succ, H by lia. reflexivity. Qed.
(* the bound of the loops *)
Definition hu (n : nat) : nat := if Nat.even n then n / 2 else n / 2 + 1.
Lemma half_up_nat n : half_up (Z.of_nat n) = Z.of_nat (hu n).
Proof.
  unfold half_up, hu. change 2%Z with (Z.of_nat 2) at 1. rewrite rem_nat, quot2_nat. 
  assert (E : (Z.of_nat (n mod 2) =? 0)%Z = Nat.even n).
  { destruct (Nat.even n) eqn:E.
    - apply Nat.even_spec in E as [k ->]. rewrite Nat.mul_comm, Nat.mod_mul by lia. reflexivity.
    - assert (O : Nat.odd n = true) by (rewrite <- Nat.negb_even, E; reflexivity). apply Nat.odd_spec in O as [k ->].
      replace (2 * k + 1) with (1 + k * 2) by lia. rewrite Nat.mod_add by lia. reflexivity. }
  rewrite E. destruct (Nat.even n); lia.
Qed.
Lemma even_half n : Nat.even n = true -> n = 2 * (n / 2).
Proof. intros E. apply Nat.even_spec in E as [k ->]. rewrite (Nat.mul_comm 2 k), Nat.div_mul by lia. lia. Qed.
Lemma odd_half n : Nat.even n = false -> n = 2 * (n / 2) + 1.
Proof.
  intros E. assert (O : Nat.odd n = true) by (rewrite <- Nat.negb_even, E; reflexivity). apply Nat.odd_spec in O as [k ->].
  replace (2 * k + 1) with (1 + k * 2) by lia. rewrite Nat.div_add by lia. change (1 / 2) with 0. lia.
Qed.
Lemma hu_spec n : n <= 2 * hu n /\ 2 * hu n <= n + 1.
Proof. unfold hu. destruct (Nat.even n) eqn:E; [apply even_half in E|apply odd_half in E]; lia. Qed.

Lemma vget_some {A} (l : list A) i a : nth_error l i = Some a -> vget l i = Ret a.
Proof. intros E. unfold vget. now rewrite E. Qed.
Lemma nth_error_some {A} (l : list A) i : i < length l -> exists a, nth_error l i = Some a.
Proof. intros H. destruct (nth_error l i) eqn:E; eauto. apply nth_error_None in E. lia. Qed.

Section M.
Variable m : method.
Hypothesis WF : wf_method m.
Let L := mch m.
Let n := length L.

Lemma m_change i c : nth_error L i = Some c -> cn c = mb m /\ wf_change c.
Proof. intros E. destruct WF as (_ & _ & F). rewrite Forall_forall in F. apply F. now apply nth_error_In in E. Qed.

Lemma pal_loop_spec k i j : 0 < n -> j + k <= n + i + 1 -> 0 < k \/ True ->
  exists b, pal_loop k m (Z.of_nat i) (Z.of_nat j) = Ret b /\
    (b = true <-> forall t, j <= t < j + k -> nth_error L ((i + t) mod n) = nth_error L ((i + n - t) mod n)).
Proof.
  intros N. revert j. induction k as [|k IH]; intros j B _; cbn [pal_loop].
  - exists true. split; [reflexivity|]. split; [intros _ t Ht; lia|reflexivity].
  - unfold mlen. fold L. fold n.
    replace (Z.of_nat i + Z.of_nat j)%Z with (Z.of_nat (i + j)) by lia.
    replace (Z.of_nat i - Z.of_nat j + Z.of_nat n)%Z with (Z.of_nat (i + n - j)) by lia.
    rewrite !rem_nat, !mget_nat. fold L.
    destruct (@nth_error_some _ L ((i + j) mod n)) as (a & Ea); [apply Nat.mod_upper_bound; lia|].
    destruct (@nth_error_some _ L ((i + n - j) mod n)) as (c & Ec); [apply Nat.mod_upper_bound; lia|].
    rewrite (vget_some Ea), (vget_some Ec). cbn [bind].
    destruct (m_change Ea) as [_ Wa]. destruct (m_change Ec) as [_ Wc].
    destruct (change_eqb a c) eqn:E.
    + apply change_eqb_wf in E; auto. subst c. replace (Z.of_nat j + 1)%Z with (Z.of_nat (S j)) by lia.
      destruct (IH (S j) ltac:(lia) (or_intror I)) as (b & Eb & Hb). exists b. split; [exact Eb|]. rewrite Hb. split.
      * intros H t Ht. destruct (Nat.eq_dec t j) as [->|]; [congruence|]. apply H. lia.
      * intros H t Ht. apply H. lia.
    + exists false. split; [reflexivity|]. split; [discriminate|]. intros H. exfalso. specialize (H j ltac:(lia)). rewrite Ea, Ec in H. injection H as ->.
      assert (change_eqb c c = true) by (apply change_eqb_wf; auto). congruence.
Qed.

Lemma reflects_half i : 0 < n -> reflects_about L i <-> forall t, 1 <= t < hu n -> nth_error L ((i + t) mod n) = nth_error L ((i + n - t) mod n).
Proof.
  intros N. unfold reflects_about. fold n. split; [intros H t Ht; apply H; generalize (hu_spec n); lia|].
  intros H j Hj.
  assert (X : forall t, t < hu n -> nth_error L ((i + t) mod n) = nth_error L ((i + n - t) mod n)).
  { intros t Ht. destruct t as [|t]; [|apply H; lia]. rewrite Nat.add_0_r, Nat.sub_0_r. replace (i + n) with (i + 1 * n) by lia. now rewrite Nat.mod_add by lia. }
  destruct (lt_dec j (hu n)) as [|G]; [auto|].
  destruct (Nat.eq_dec (2 * j) n) as [E|NE].
  - f_equal. replace (i + n - j) with (i + j) by lia. reflexivity.
  - assert (G' : n - j < hu n) by (generalize (hu_spec n); lia). specialize (X (n - j) G').
    replace (i + (n - j)) with (i + n - j) in X by lia. rewrite X. replace (i + n - (n - j)) with (i + j) by lia. reflexivity.
Qed.

Lemma pal_about i : 0 < n -> exists b, is_palindromic_about m (Z.of_nat i) = Ret b /\ (b = true <-> reflects_about L i).
Proof.
  intros N. unfold is_palindromic_about, mlen. fold L. fold n. rewrite half_up_nat.
  replace (Z.to_nat (Z.of_nat (hu n) - 1)) with (hu n - 1) by lia. change 1%Z with (Z.of_nat 1).
  destruct (@pal_loop_spec (hu n - 1) i 1 N) as (b & E & H); [generalize (hu_spec n); lia|auto|].
  exists b. split; [exact E|]. rewrite H, reflects_half by exact N. split; intros X t Ht; apply X; lia.
Qed.

Lemma pal_about_empty i : n = 0 -> is_palindromic_about m i = Ret true.
Proof. intros N. unfold is_palindromic_about, mlen. fold L. fold n. rewrite N. reflexivity. Qed.

Lemma issym_spec : exists b, issym m = Ret b /\ (b = true <-> (Nat.even n = true /\ (n = 0 \/ reflects_about L (n / 2 - 1)))).
Proof.
  unfold issym, mlen. fold L. fold n. rewrite odd_nat, <- Nat.negb_even. destruct (Nat.even n) eqn:E; cbn [negb].
  - rewrite quot2_nat. destruct (Nat.eq_dec n 0) as [Z0|N].
    + rewrite pal_about_empty by exact Z0. exists true. tauto.
    + assert (H2 := even_half E). replace (Z.of_nat (n / 2) - 1)%Z with (Z.of_nat (n / 2 - 1)) by lia.
      destruct (@pal_about (n / 2 - 1)) as (b & Eb & H); [lia|]. exists b. split; [exact Eb|]. rewrite H. tauto.
  - exists false. split; [reflexivity|]. split; [discriminate|tauto].
Qed.

Lemma first_point_spec (P : nat -> Prop) p k i : (forall q, i <= q < i + k -> exists b, p (Z.of_nat q) = Ret b /\ (b = true <-> P q)) ->
  (exists q, first_point k p (Z.of_nat i) = Ret (Z.of_nat q) /\ i <= q < i + k /\ P q /\ forall t, i <= t < q -> ~ P t) \/
  (first_point k p (Z.of_nat i) = Ret (-1)%Z /\ forall t, i <= t < i + k -> ~ P t).
Proof.
  revert i. induction k as [|k IH]; intros i H; cbn [first_point].
  - right. split; [reflexivity|]. intros; lia.
  - destruct (H i ltac:(lia)) as (b & E & Hb). rewrite E. cbn [bind]. destruct b.
    + left. exists i. split; [reflexivity|]. split; [lia|]. split; [now apply Hb|]. intros; lia.
    + assert (Ni : ~ P i) by (intros X; apply Hb in X; discriminate).
      replace (Z.of_nat i + 1)%Z with (Z.of_nat (S i)) by lia. destruct (IH (S i)) as [(q & E' & Hq & Pq & Hl)|(E' & Hl)].
      { intros q Hq. apply H. lia. }
      * left. exists q. split; [exact E'|]. split; [lia|]. split; [exact Pq|]. intros t Ht. destruct (Nat.eq_dec t i) as [->|]; [exact Ni|]. apply Hl. lia.
      * right. split; [exact E'|]. intros t Ht. destruct (Nat.eq_dec t i) as [->|]; [exact Ni|]. apply Hl. lia.
Qed.

Lemma rem2_even : (Z.rem (Z.of_nat n) 2 =? 0)%Z = Nat.even n.
Proof.
  change 2%Z with (Z.of_nat 2). rewrite rem_nat. destruct (Nat.even n) eqn:E.
  - apply even_half in E. rewrite E, Nat.mul_comm, Nat.mod_mul by lia. reflexivity.
  - apply odd_half in E. rewrite E. replace (2 * (n / 2) + 1) with (1 + (n / 2) * 2) by lia. rewrite Nat.mod_add by lia. reflexivity.
Qed.

Lemma symmetry_point_spec :
  (exists p, symmetry_point m = Ret (Z.of_nat p) /\ Nat.even n = true /\ least_below (n / 2) (reflects_about L) p) \/
  (symmetry_point m = Ret (-1)%Z /\ (Nat.even n = false \/ forall p, p < n / 2 -> ~ reflects_about L p)).
Proof.
  unfold symmetry_point, mlen. fold L. fold n. rewrite rem2_even. destruct (Nat.even n) eqn:E; cbn [negb]; [|right; auto].
  rewrite quot2_nat, Nat2Z.id. apply even_half in E.
  destruct (@first_point_spec (reflects_about L) (is_palindromic_about m) (n / 2) 0) as [(q & E' & Hq & Pq & Hl)|(E' & Hl)].
  - intros q Hq. apply pal_about. lia.
  - left. exists q. split; [exact E'|]. split; [reflexivity|]. split; [lia|]. split; [exact Pq|]. intros t Ht. apply Hl. lia.
  - right. split; [exact E'|]. right. intros p Hp. apply Hl. lia.
Qed.

Lemma isdouble_spec : exists b, isdouble m = Ret b /\
  (b = true <-> Nat.even n = true /\ forall i, i < n / 2 -> exists c d, nth_error L i = Some c /\ nth_error L (n / 2 + i) = Some d /\ c = change_reverse d).
Proof.
  unfold isdouble, mlen. fold L. fold n. rewrite odd_nat, <- Nat.negb_even. destruct (Nat.even n) eqn:E; cbn [negb].
  2:{ exists false. split; [reflexivity|]. split; [discriminate|tauto]. }
  apply even_half in E. rewrite quot2_nat, Nat2Z.id.
  assert (X : forall k i, i + k <= n / 2 -> exists b, isdouble_loop k m (Z.of_nat i) = Ret b /\
    (b = true <-> forall t, i <= t < i + k -> exists c d, nth_error L t = Some c /\ nth_error L (n / 2 + t) = Some d /\ c = change_reverse d)).
  { induction k as [|k IH]; intros i B; cbn [isdouble_loop].
    - exists true. split; [reflexivity|]. split; [intros _ t Ht; lia|reflexivity].
    - unfold mlen. fold L. fold n. rewrite quot2_nat. replace (Z.of_nat (n / 2) + Z.of_nat i)%Z with (Z.of_nat (n / 2 + i)) by lia.
      rewrite !mget_nat. fold L. destruct (@nth_error_some _ L i) as (a & Ea); [fold n; lia|].
      destruct (@nth_error_some _ L (n / 2 + i)) as (c & Ec); [fold n; lia|].
      rewrite (vget_some Ea), (vget_some Ec). cbn [bind]. destruct (m_change Ea) as [_ Wa]. destruct (m_change Ec) as [Hc Wc].
      assert (Wr : wf_change (change_reverse c)) by (apply reverse_wf; auto; destruct WF; lia).
      destruct (change_eqb a (change_reverse c)) eqn:E1.
      + apply change_eqb_wf in E1; auto. replace (Z.of_nat i + 1)%Z with (Z.of_nat (S i)) by lia.
        destruct (IH (S i) ltac:(lia)) as (b & Eb & Hb). exists b. split; [exact Eb|]. rewrite Hb. split.
        * intros H t Ht. destruct (Nat.eq_dec t i) as [->|]; [exists a, c; auto|]. apply H. lia.
        * intros H t Ht. apply H. lia.
      + exists false. split; [reflexivity|]. split; [discriminate|]. intros H. exfalso.
        destruct (H i ltac:(lia)) as (a' & c' & E2 & E3 & E4). rewrite Ea in E2. rewrite Ec in E3. injection E2 as <-. injection E3 as <-.
        assert (change_eqb a (change_reverse c) = true) by (apply change_eqb_wf; auto). congruence. }
  change 0%Z with (Z.of_nat 0). destruct (X (n / 2) 0 ltac:(lia)) as (b & Eb & Hb). exists b. split; [exact Eb|]. rewrite Hb. split.
  - intros H. split; [reflexivity|]. intros i Hi. apply H. lia.
  - intros [_ H] t Ht. apply H. lia.
Qed.
End M.

(* ---- format ---- *)
Lemma nth_error_ext {A} (a b : list A) : (forall i, nth_error a i = nth_error b i) -> a = b.
Proof.
  revert b. induction a as [|x a IH]; intros [|y b] H; auto.
  - specialize (H 0). discriminate.
  - specialize (H 0). discriminate.
  - f_equal; [specialize (H 0); now injection H|]. apply IH. intros i. apply (H (S i)).
Qed.
Lemma nth_error_rev {A} (l : list A) i : i < length l -> nth_error (rev l) i = nth_error l (length l - 1 - i).
Proof.
  intros H. destruct (nth_error_some H) as (d & _).
  rewrite (nth_error_nth' (rev l) d) by (rewrite rev_length; lia). rewrite (nth_error_nth' l d) by lia. rewrite rev_nth by lia. do 2 f_equal. lia.
Qed.
Lemma nth_error_firstn_lt {A} (l : list A) k i : i < k -> nth_error (firstn k l) i = nth_error l i.
Proof. revert k i. induction l as [|x l IH]; intros [|k] [|i] H; try lia; try reflexivity. cbn. apply IH. lia. Qed.
Lemma nth_error_skipn' {A} (l : list A) k i : nth_error (skipn k l) i = nth_error l (k + i).
Proof. revert l. induction k as [|k IH]; intros l; [reflexivity|]. destruct l as [|x l]; [now destruct i|]. cbn. apply IH. Qed.
Lemma nth_error_tl {A} (l : list A) i : nth_error (tl l) i = nth_error l (S i).
Proof. destruct l; [now destruct i|reflexivity]. Qed.

(* a palindrome of 2k+1 changes from its first k+1 *)
Lemma unfold_palindrome (L : list change) a k : a + 2 * k + 1 <= length L ->
  (forall t, t <= k -> nth_error L (a + k + t) = nth_error L (a + k - t)) ->
  let h := firstn (k + 1) (skipn a L) in h ++ tl (rev h) = firstn (2 * k + 1) (skipn a L).
Proof.
  intros HL H h. assert (Lh : length h = k + 1) by (unfold h; rewrite firstn_length, skipn_length; lia).
  apply nth_error_ext. intros i.
  destruct (le_lt_dec (2 * k + 1) i) as [G|G].
  - transitivity (@None change).
    + apply nth_error_None. rewrite app_length. assert (length (tl (rev h)) = k) by (destruct (rev h) eqn:E; apply (f_equal (@length _)) in E; rewrite rev_length in E; cbn [length tl] in *; lia). lia.
    + symmetry. apply nth_error_None. rewrite firstn_length. lia.
  - rewrite nth_error_firstn_lt by lia. rewrite nth_error_skipn'. destruct (lt_dec i (k + 1)) as [Hi|Hi].
    + rewrite nth_error_app1 by lia. unfold h. rewrite nth_error_firstn_lt by lia. apply nth_error_skipn'.
    + rewrite nth_error_app2 by lia. rewrite nth_error_tl. rewrite nth_error_rev by lia. unfold h at 1. rewrite nth_error_firstn_lt by lia.
      rewrite nth_error_skipn'. rewrite Lh. specialize (H (i - k) ltac:(lia)). replace (a + k + (i - k)) with (a + i) in H by lia. rewrite H. f_equal. lia.
Qed.

Lemma forall_sub (P : change -> Prop) L a k : Forall P L -> Forall P (firstn k (skipn a L)).
Proof.
  intros F. apply Forall_forall. intros c Hc. rewrite Forall_forall in F. apply F.
  assert (In c (skipn a L)) by (rewrite <- (firstn_skipn k (skipn a L)); apply in_or_app; now left).
  rewrite <- (firstn_skipn a L). apply in_or_app. now right.
Qed.

Section F.
Variables (m : method) (flags : Z).
Hypothesis WF : wf_method m.
Let L := mch m.
Let n := length L.
Let b := mb m.

Lemma wf_cs : Forall (fun c => cn c = b /\ wf_change c) L.
Proof. apply WF. Qed.
Lemma wf_b : b <= 255.
Proof. apply WF. Qed.
Lemma wf_n : (Z.of_nat n < 2 ^ 31)%Z.
Proof. destruct WF as (_ & H & _). unfold int_max in H. fold L n in H. lia. Qed.

Lemma sect_sub dot a k : changes_text default_symtab b (sect flags dot true (firstn k (skipn a L))) (firstn k (skipn a L)).
Proof. apply sect_changes; [apply wf_b|]. apply forall_sub. apply wf_cs. Qed.

(* the head of a section *)
Definition head (bang : bool) : list ascii := if bang then str "&" else if has flags M_PLUS then str "+" else [].
Lemma head_block bang s cs : changes_text default_symtab b s cs ->
  block_text default_symtab b (head bang ++ s) (if bang then cs ++ tl (rev cs) else cs).
Proof.
  intros H. unfold head. destruct bang.
  - apply (@bt_sym default_symtab b [] s cs); auto. left. constructor.
  - destruct (has flags M_PLUS); [|now apply bt_plain]. apply (@bt_plus default_symtab b [] s cs); auto. left. constructor.
Qed.
Lemma interp s cs : blocks_text default_symtab b s cs -> interpret_pn default_symtab b s = Ret cs.
Proof. intros H. apply interpret_complete. exists [], s. repeat split; auto. constructor. Qed.

Lemma mod_pal a t sp : 0 < n -> reflects_about L sp -> t <= n -> a = sp \/ a = sp + n / 2 -> Nat.even n = true -> a + t < n -> t <= a ->
  nth_error L (a + t) = nth_error L (a - t).
Proof.
  intros N R Ht Ha E B1 B2. assert (E' := even_half E). unfold reflects_about in R. fold n in R.
  destruct Ha as [->| ->].
  - specialize (R t Ht). rewrite Nat.mod_small in R by lia. replace (sp + n - t) with (sp - t + 1 * n) in R by lia.
    rewrite Nat.mod_add in R by lia. rewrite Nat.mod_small in R by lia. exact R.
  - assert (E2 : sp + n / 2 + t < n) by lia.
    specialize (R (n / 2 + t) ltac:(lia)). rewrite Nat.mod_small in R by lia. replace (sp + (n / 2 + t)) with (sp + n / 2 + t) in R by lia. rewrite R.
    replace (sp + n - (n / 2 + t)) with (sp + n / 2 - t) by lia. now rewrite Nat.mod_small by lia.
Qed.

(* the symmetric text *)
Lemma sym_format sp : 2 < n -> Nat.even n = true -> sp < n / 2 -> reflects_about L sp ->
  exists s1 s2, section default_symtab m 0 (Z.of_nat sp + 1) flags (head (negb (sp =? 0))) = Ret s1 /\
    section default_symtab m (2 * Z.of_nat sp + 1) (Z.of_nat (n / 2) + Z.of_nat sp + 1) flags (s1 ++ str "," ++ head (negb (sp =? n / 2 - 1))) = Ret (s1 ++ str "," ++ s2) /\
    block_text default_symtab b s1 (firstn (2 * sp + 1) L) /\ block_text default_symtab b s2 (skipn (2 * sp + 1) L).
Proof.
  intros N E Hs R. assert (E' := even_half E). assert (Hn := wf_n). unfold wf_method in WF.
  assert (S1 := @section_spec flags b m 0 (sp + 1) (head (negb (sp =? 0))) wf_b wf_cs). fold L n in S1. cbn [Nat.add skipn] in S1.
  assert (S2 := fun o => @section_spec flags b m (2 * sp + 1) (n / 2 - sp) o wf_b wf_cs). fold L n in S2.
  replace (Z.of_nat 0) with 0%Z in S1 by reflexivity. replace (Z.of_nat (sp + 1)) with (Z.of_nat sp + 1)%Z in S1 by lia.
  replace (Z.of_nat (2 * sp + 1)) with (2 * Z.of_nat sp + 1)%Z in S2 by lia.
  replace (Z.of_nat (2 * sp + 1 + (n / 2 - sp))) with (Z.of_nat (n / 2) + Z.of_nat sp + 1)%Z in S2 by lia.
  rewrite S1 by lia.
  eexists. exists (head (negb (sp =? n / 2 - 1)) ++ sect flags false true (firstn (n / 2 - sp) (skipn (2 * sp + 1) L))).
  split; [reflexivity|]. split.
  { rewrite S2 by lia. now rewrite <- !app_assoc. }
  split.
  - assert (B := @head_block (negb (sp =? 0)) _ _ (sect_sub false 0 (sp + 1))). cbn [skipn] in B.
    assert (U := @unfold_palindrome L 0 sp). cbn [skipn Nat.add] in U. destruct (Nat.eqb_spec sp 0) as [Z0|NZ]; cbn [negb] in *.
    + rewrite Z0 in *. exact B.
    + rewrite U in B; [exact B|fold n; lia|]. intros t Ht. apply (@mod_pal sp t sp); auto; lia.
  - assert (B := @head_block (negb (sp =? n / 2 - 1)) _ _ (sect_sub false (2 * sp + 1) (n / 2 - sp))).
    assert (U := @unfold_palindrome L (2 * sp + 1) (n / 2 - sp - 1)).
    replace (n / 2 - sp - 1 + 1) with (n / 2 - sp) in U by lia.
    assert (All : firstn (2 * (n / 2 - sp - 1) + 1) (skipn (2 * sp + 1) L) = skipn (2 * sp + 1) L).
    { apply firstn_all2. rewrite skipn_length. fold n. lia. }
    rewrite All in U. destruct (Nat.eqb_spec sp (n / 2 - 1)) as [Z0|NZ]; cbn [negb] in *.
    + replace (2 * (n / 2 - sp - 1) + 1) with (n / 2 - sp) in All by lia. rewrite All in B at 2. exact B.
    + rewrite U in B; [exact B|fold n; lia|]. intros t Ht.
      replace (2 * sp + 1 + (n / 2 - sp - 1) + t) with (sp + n / 2 + t) by lia.
      replace (2 * sp + 1 + (n / 2 - sp - 1) - t) with (sp + n / 2 - t) by lia.
      apply (@mod_pal (sp + n / 2) t sp); auto; lia.
Qed.

Lemma plain_format k : k <= n -> exists s, section default_symtab m 0 (Z.of_nat k) flags (head false) = Ret s /\
  blocks_text default_symtab b s (firstn k L).
Proof.
  intros H. assert (Hn := wf_n).
  assert (S1 := @section_spec flags b m 0 k (head false) wf_b wf_cs). fold L n in S1. cbn [Nat.add skipn] in S1.
  change (Z.of_nat 0) with 0%Z in S1. rewrite S1 by lia. eexists. split; [reflexivity|]. apply bs_one.
  apply (@head_block false _ _ (sect_sub false 0 k)).
Qed.

(* the symmetry point format uses *)
Lemma format_point : exists s,
  (if has flags M_SYMMETRY && (2 <? mlen m)%Z then
     b <- issym m ;;
     if (b : bool) then Ret (Some (Z.quot (mlen m) 2 - 1)%Z)
     else if (Z.land flags M_FULL_SYMMETRY =? M_FULL_SYMMETRY)%Z && negb (has flags M_OMIT_LH) then
       sp <- symmetry_point m ;; Ret (if (sp =? -1)%Z then None else Some sp)
     else Ret None
   else Ret None) = Ret s /\
  match s with
  | None => True
  | Some z => exists sp, z = Z.of_nat sp /\ 2 < n /\ Nat.even n = true /\ sp < n / 2 /\ reflects_about L sp /\
      (has flags M_OMIT_LH = true -> sp = n / 2 - 1)
  end.
Proof.
  destruct (has flags M_SYMMETRY && (2 <? mlen m)%Z) eqn:B; [|exists None; auto].
  apply andb_true_iff in B as [_ B]. unfold mlen in B. apply Z.ltb_lt in B. fold L n in B.
  destruct (issym_spec WF) as (bs & Es & Hs). fold L n in Hs. rewrite Es. cbn [bind]. destruct bs.
  - destruct (proj1 Hs eq_refl) as [E [X|X]]; [lia|]. assert (E' := even_half E). eexists. split; [reflexivity|]. exists (n / 2 - 1).
    unfold mlen. fold L n. rewrite quot2_nat. repeat split; auto; lia.
  - destruct ((Z.land flags M_FULL_SYMMETRY =? M_FULL_SYMMETRY)%Z && negb (has flags M_OMIT_LH)) eqn:B2; [|exists None; auto].
    apply andb_true_iff in B2 as [_ B2]. apply negb_true_iff in B2.
    destruct (symmetry_point_spec WF) as [(p & E & Ev & (Lp & Pp & _))|(E & _)]; rewrite E; cbn [bind].
    + destruct (Z.eqb_spec (Z.of_nat p) (-1)); [lia|]. eexists. split; [reflexivity|]. exists p. repeat split; auto; try lia. congruence.
    + exists None. auto.
Qed.

Lemma head_z z k : (if negb (Z.of_nat z =? k)%Z then str "&" else if has flags M_PLUS then str "+" else []) = head (negb (Z.of_nat z =? k)%Z).
Proof. unfold head. now destruct (negb _). Qed.

Theorem format_roundtrip : has flags M_OMIT_LH = false ->
  exists s, format default_symtab m flags = Ret s /\ interpret_pn default_symtab b s = Ret L.
Proof.
  intros O. unfold format. destruct format_point as (s & E & H). cbv zeta. rewrite E. cbn [bind]. destruct s as [z|].
  - destruct H as (sp & -> & N & Ev & Hs & R & _). assert (E' := even_half Ev). destruct (sym_format N Ev Hs R) as (s1 & s2 & S1 & S2 & B1 & B2).
    rewrite !head_z, O. unfold mlen. fold L n. rewrite quot2_nat.
    replace (Z.of_nat sp =? 0)%Z with (sp =? 0) by (destruct (Nat.eqb_spec sp 0); destruct (Z.eqb_spec (Z.of_nat sp) 0); auto; lia).
    replace (Z.of_nat sp =? Z.of_nat (n / 2) - 1)%Z with (sp =? n / 2 - 1) by (destruct (Nat.eqb_spec sp (n / 2 - 1)); destruct (Z.eqb_spec (Z.of_nat sp) (Z.of_nat (n / 2) - 1)); auto; lia).
    rewrite S1. cbn [bind]. rewrite S2. eexists. split; [reflexivity|]. apply interp. rewrite <- (firstn_skipn (2 * sp + 1) L).
    change (str "," ++ s2) with (","%char :: [] ++ s2). apply bs_more; auto; [constructor|]. now apply bs_one.
  - rewrite O. unfold mlen. fold L n. rewrite Z.sub_0_r. destruct (@plain_format n (le_n _)) as (s & S & B).
    exists s. split; [exact S|]. apply interp. change (firstn n L) with (firstn (length L) L) in B. now rewrite firstn_all in B.
Qed.

Theorem format_omit_lh : has flags M_OMIT_LH = true -> 0 < n ->
  exists s, format default_symtab m flags = Ret s /\ interpret_pn default_symtab b s = Ret (removelast L).
Proof.
  intros O N0. unfold format. destruct format_point as (s & E & H). cbv zeta. rewrite E. cbn [bind].
  assert (RL : firstn (n - 1) L = removelast L) by (rewrite removelast_firstn_len; fold n; f_equal; lia).
  destruct s as [z|].
  - destruct H as (sp & -> & N & Ev & Hs & R & X). specialize (X O). assert (E' := even_half Ev). destruct (sym_format N Ev Hs R) as (s1 & s2 & S1 & _ & B1 & _).
    rewrite !head_z, O. replace (Z.of_nat sp =? 0)%Z with (sp =? 0) by (destruct (Nat.eqb_spec sp 0); destruct (Z.eqb_spec (Z.of_nat sp) 0); auto; lia).
    rewrite S1. cbn [bind]. eexists. split; [reflexivity|]. apply interp. apply bs_one. rewrite <- RL. replace (n - 1) with (2 * sp + 1) by lia. exact B1.
  - rewrite O. unfold mlen. fold L n. replace (Z.of_nat n - 1)%Z with (Z.of_nat (n - 1)) by lia. destruct (@plain_format (n - 1) ltac:(lia)) as (s & S & B).
    exists s. split; [exact S|]. apply interp. now rewrite RL in B.
Qed.
End F.
