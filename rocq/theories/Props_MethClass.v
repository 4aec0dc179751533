(* Props_MethClass.v - property theorems about the class of a method. *)
From Verif Require Import Base M_Bell M_Change M_Math M_Row M_PN M_Method M_MethClass Spec_Row Spec_Change Spec_Cycle Spec_PN Spec_Method Spec_MethClass
  P_Row P_Change2 P_Method P_Method2 P_MethClass P_MethClass2 P_MethClass3 P_MethClass4 Props_Method.
Set Implicit Arguments.
Unset Strict Implicit.
Open Scope nat_scope.

(* C46: the class is the kind of the method, with the differential and little flags.  The value
   the code reads just past the end of the lead head (junk) makes no difference. *)
Theorem C46_class : forall m year, wf_method m -> length (mch m) < 512 -> mb m <> 1 \/ (2019 <= year)%Z ->
  exists k d l, (forall junk, methclass junk m year = Ret (class_code k d l)) /\
    of_kind (mch m) (mb m) year k /\
    (d = true <-> is_differential (mch m) (mb m) year) /\ (l = true <-> is_little (mch m) (mb m)).
Proof. intros m year WF H H1. destruct (lh_spec WF) as (r & ER & _). exact (class_spec WF ER H H1). Qed.
Print Assumptions C46_class.

(* a method is of one kind only, so each kind is reported exactly when the method is of it *)
Theorem C46_one_kind : forall m year k k', wf_method m ->
  of_kind (mch m) (mb m) year k -> of_kind (mch m) (mb m) year k' -> k = k'.
Proof. intros m year k k' WF. exact (@one_kind m WF year k k'). Qed.
Print Assumptions C46_one_kind.
Theorem C46_kind : forall m year k junk, wf_method m -> length (mch m) < 512 -> mb m <> 1 \/ (2019 <= year)%Z ->
  (exists c, methclass junk m year = Ret c /\ Z.land c 15 = kind_code k) <-> of_kind (mch m) (mb m) year k.
Proof.
  intros m year k junk WF H H1. destruct (C46_class WF H H1) as (k' & d & l & E & K & _).
  assert (LC : forall k, Z.land (class_code k d l) 15 = kind_code k) by (intros []; destruct d, l; reflexivity). split.
  - intros (c & Ec & Hc). rewrite E in Ec. injection Ec as <-. rewrite LC in Hc. assert (k' = k); [|now subst k'].
    destruct k', k; try reflexivity; discriminate Hc.
  - intros Hk. assert (k = k') by exact (C46_one_kind WF Hk K). subst k'. eexists. split; [apply E|apply LC].
Qed.
Print Assumptions C46_kind.

(* what the cross sections are when the treble dodges st/2 times in each pair of places, out to
   the back and in again: the changes at which it goes from one pair to another *)
Theorem C46_cross_sections : forall m h st, wf_method m -> mb m = 2 * h -> 0 < h ->
  length (mch m) = 2 * (h * st) -> 0 < st -> Nat.even st = true -> hunt_bell (mch m) 0 ->
  (forall t, t < h * st -> path (mch m) 0 t = 2 * (t / st) + t mod 2) ->
  path_reflects_about (mch m) 0 (h * st - 1) ->
  covers (mch m) 0 0 (2 * h - 1) /\
  forall c, section_change (mch m) 0 (2 * h - 1) c <->
    exists i, nth_error (mch m) i = Some c /\ path (mch m) 0 i / 2 <> path (mch m) 0 (i + 1) / 2.
Proof.
  intros m h st WF Hb Hh Hn Hs Ev HB HP R. set (L := mch m) in *. set (n := length L) in *.
  assert (HS : 0 < h * st) by nia. assert (NZ : 0 < n) by lia.
  assert (H2 : forall a, (2 * a + 0) / 2 = a /\ (2 * a + 1) / 2 = a).
  { intros a. split; [rewrite Nat.add_0_r, Nat.mul_comm; now apply Nat.div_mul|]. rewrite Nat.mul_comm, Nat.div_add_l by lia. cbn. lia. }
  assert (HP2 : forall t, t < h * st -> path L 0 t / 2 = t / st).
  { intros t Ht. rewrite HP by exact Ht. assert (X := Nat.mod_upper_bound t 2 ltac:(lia)). destruct (H2 (t / st)).
    destruct (t mod 2) as [|[|]]; [assumption|assumption|lia]. }
  assert (PER : forall t, path L 0 (n + t) = path L 0 t) by (intros t; exact (path_period HB NZ t)).
  assert (MIR : forall t, t < n -> path L 0 t = path L 0 (n - 1 - t)).
  { intros t Ht. destruct (le_lt_dec (h * st) t) as [D|D].
    - assert (X := R (t - h * st) ltac:(fold n; lia)). fold n in X. replace (h * st - 1 + 1 + (t - h * st)) with t in X by lia.
      rewrite X. replace (h * st - 1 + n - (t - h * st)) with (n + (n - 1 - t)) by lia. apply PER.
    - assert (X := R (h * st - 1 - t) ltac:(fold n; lia)). fold n in X. replace (h * st - 1 + 1 + (h * st - 1 - t)) with (n - 1 - t) in X by lia.
      rewrite X. replace (h * st - 1 + n - (h * st - 1 - t)) with (n + t) by lia. now rewrite PER. }
  assert (P0 : path L 0 n = 0) by exact HB.
  (* in the first half lead *)
  assert (CR : forall i, i + 1 < h * st -> path L 0 i / 2 <> path L 0 (i + 1) / 2 <-> exists q, 0 < q /\ i + 1 = q * st).
  { intros i Hi. rewrite !HP2 by lia. assert (A := Nat.div_mod i st ltac:(lia)). assert (B := Nat.mod_upper_bound i st ltac:(lia)).
    set (a := i / st) in *. set (b := i mod st) in *. destruct (Nat.eq_dec (b + 1) st) as [E|E].
    - assert (X : (i + 1) / st = a + 1) by (symmetry; apply Nat.div_unique with 0; lia). rewrite X. split; [|lia]. intros _. exists (a + 1). split; nia.
    - assert (X : (i + 1) / st = a) by (symmetry; apply Nat.div_unique with (b + 1); lia). rewrite X. split; [tauto|]. intros (q & Hq & Eq). exfalso.
      assert (Y : (i + 1) mod st = 0) by (rewrite Eq; apply Nat.mod_mul; lia).
      assert (Z : (i + 1) mod st = b + 1) by (symmetry; apply Nat.mod_unique with a; lia). lia. }
  split.
  - split; [exists 0; reflexivity|]. split.
    + exists (h * st - 1). rewrite HP by lia. assert (A : (h * st - 1) / st = h - 1) by (symmetry; apply Nat.div_unique with (st - 1); nia). rewrite A.
      assert (M : (h * st - 1) mod 2 = 1); [|rewrite M; lia]. apply Nat.even_spec in Ev as [k ->].
      symmetry. apply Nat.mod_unique with (h * k - 1); nia.
    + intros t. assert (X := path_lt WF (x := 0) t). fold L in X. specialize (X ltac:(lia)). lia.
  - intros c. assert (SQ : n / (2 * h - 1 - 0 + 1) = st) by (replace (2 * h - 1 - 0 + 1) with (2 * h) by lia; symmetry; apply Nat.div_unique with 0; nia).
    assert (HH : n / 2 = h * st) by (symmetry; apply Nat.div_unique with 0; lia).
    unfold section_change. fold n. rewrite SQ, HH. split.
    + intros (q & i & Hq & Ei & Hi & E). assert (X : path L 0 i / 2 <> path L 0 (i + 1) / 2) by (apply CR; [exact Hi|eauto]).
      destruct E as [E|E]; [now exists i|]. exists (n - 2 - i). split; [exact E|].
      rewrite (MIR (n - 2 - i)) by lia. rewrite (MIR (n - 2 - i + 1)) by lia. replace (n - 1 - (n - 2 - i)) with (i + 1) by lia.
      replace (n - 1 - (n - 2 - i + 1)) with i by lia. intros Y. apply X. now symmetry.
    + intros (i & E & X). assert (Hi : i < n) by (apply nth_error_Some; unfold L; fold L; congruence).
      destruct (le_lt_dec (h * st) (i + 1)) as [D|D].
      * destruct (Nat.eq_dec (i + 1) n) as [E1|E1].
        { exfalso. apply X. rewrite E1, P0. rewrite (MIR i) by lia. replace (n - 1 - i) with 0 by lia. reflexivity. }
        destruct (Nat.eq_dec (i + 1) (h * st)) as [E3|E3].
        { exfalso. apply X. rewrite (MIR (i + 1)) by lia. do 2 f_equal. lia. }
        set (j := n - 2 - i). rewrite (MIR i), (MIR (i + 1)) in X by lia. replace (n - 1 - i) with (j + 1) in X by (unfold j; lia).
        replace (n - 1 - (i + 1)) with j in X by (unfold j; lia).
        assert (Y : path L 0 j / 2 <> path L 0 (j + 1) / 2) by (intros Q; apply X; now symmetry).
        apply CR in Y; [|unfold j; lia]. destruct Y as (q & Hq & Eq). exists q, j. repeat split; auto; [unfold j; lia|].
        right. replace (n - 2 - j) with i by (unfold j; lia). exact E.
      * apply CR in X; [|exact D]. destruct X as (q & Hq & Eq). exists q, i. repeat split; auto.
Qed.
Print Assumptions C46_cross_sections.

(* on one bell the answer does depend on the value past the end of the lead head *)
Theorem C46_one_bell_refuted : exists m, wf_method m /\ methclass 0 m 2018 = Ret (class_code Place false false) /\
  methclass 1 m 2018 = Ret (class_code SlowCourse false false).
Proof.
  exists (mkMethod [mkChange 1 []; mkChange 1 []] 1). split; [|split; vm_compute; reflexivity].
  split; [cbn; lia|]. split; [vm_compute; discriminate|]. repeat constructor.
Qed.
Print Assumptions C46_one_bell_refuted.

(* the blows are counted in chars: a treble 514 times in one place and twice in the other is
   taken to be there for equal times *)
Definition long_lead : method :=
  mkMethod ([mkChange 2 []; mkChange 2 [0]] ++ repeat (mkChange 2 []) 513 ++ [mkChange 2 [0]]) 2.
Definition long_place (t : nat) : nat := if t <? 2 then 0 else if t <? 516 then 1 else 0.
Lemma long_change t : 2 <= t < 515 -> nth_error (mch long_lead) t = Some (mkChange 2 []).
Proof.
  intros H. unfold long_lead. cbn [mch]. rewrite nth_error_app2 by (cbn; lia). change (length [mkChange 2 []; mkChange 2 [0]]) with 2.
  rewrite nth_error_app1 by (rewrite repeat_length; lia). apply nth_error_repeat. lia.
Qed.
Lemma long_len : length (mch long_lead) = 516.
Proof. unfold long_lead. cbn [mch]. rewrite !app_length, repeat_length. reflexivity. Qed.
Lemma long_path t : t <= 516 -> path (mch long_lead) 0 t = long_place t.
Proof.
  assert (E : forall k, k < 516 -> path (mch long_lead) 0 (S k) = match nth_error (mch long_lead) k with Some c => swap_pos (cswaps c) (path (mch long_lead) 0 k) | None => path (mch long_lead) 0 k end).
  { intros k Hk. cbn [path]. rewrite long_len, Nat.mod_small by exact Hk. reflexivity. }
  assert (M : forall k, k <= 513 -> path (mch long_lead) 0 (2 + k) = 1).
  { induction k as [|k IH]; intros Hk; [assert (E1 := E 1 ltac:(lia)); assert (E0 := E 0 ltac:(lia)); rewrite E0 in E1; exact E1|]. change (2 + S k) with (S (2 + k)). rewrite E by lia. rewrite IH by lia.
    rewrite (@long_change (2 + k)) by lia. reflexivity. }
  intros H. unfold long_place. destruct (Nat.ltb_spec t 2) as [A|A]; [destruct t as [|[|t]]; [reflexivity|rewrite (E 0) by lia; reflexivity|lia]|].
  destruct (Nat.ltb_spec t 516) as [B|B]; [replace t with (2 + (t - 2)) by lia; apply M; lia|].
  replace t with (S (2 + 513)) by lia. rewrite E by lia. rewrite M by lia.
  unfold long_lead. cbn [mch]. rewrite nth_error_app2 by (cbn; lia). rewrite nth_error_app2 by (rewrite repeat_length; cbn; lia).
  rewrite repeat_length. reflexivity.
Qed.
Lemma long_wf : wf_method long_lead.
Proof.
  split; [cbn; lia|]. split; [discriminate|]. apply Forall_forall. intros c Hc.
  assert (c = mkChange 2 [] \/ c = mkChange 2 [0]) as [-> | ->].
  { unfold long_lead in Hc. cbn [mch] in Hc. rewrite !in_app_iff in Hc. destruct Hc as [H|[H|H]].
    - cbn in H. intuition congruence.
    - apply repeat_spec in H. now left.
    - cbn in H. intuition congruence. }
  - now repeat constructor.
  - split; [reflexivity|]. unfold wf_change. cbn. lia.
Qed.
Lemma long_even : Nat.even (length (mch long_lead)) = true.
Proof. rewrite long_len. reflexivity. Qed.
Lemma long_hunt : hunt_bell (mch long_lead) 0.
Proof. unfold hunt_bell. rewrite long_len, long_path by lia. reflexivity. Qed.
Lemma long_count p : blows_at (mch long_lead) 0 p = length (filter (fun t => long_place t =? p) (seq 0 516)).
Proof.
  unfold blows_at. rewrite long_len. apply (f_equal (@length nat)). apply filter_ext_in. intros t Ht. apply in_seq in Ht. rewrite long_path by lia. reflexivity.
Qed.
Lemma long_made : places_made (mch long_lead) 0 (length (mch long_lead)) = length (filter (fun t => long_place (t + 1) =? long_place t) (seq 0 516)).
Proof.
  unfold places_made. rewrite long_len. apply (f_equal (@length nat)). apply filter_ext_in. intros t Ht. apply in_seq in Ht. rewrite !long_path by lia. reflexivity.
Qed.
Lemma long_uneq : (length (filter (fun t => long_place t =? 1) (seq 0 516)) =? length (filter (fun t => long_place t =? 0) (seq 0 516))) = false.
Proof. vm_compute. reflexivity. Qed.
Lemma long_places : (length (filter (fun t => long_place (t + 1) =? long_place t) (seq 0 516)) =? 2) = false.
Proof. vm_compute. reflexivity. Qed.
Lemma long_class : methclass 0 long_lead 2020 = Ret (class_code TreblePlace false false).
Proof. vm_compute. reflexivity. Qed.
Lemma long_sym : is_palindromic_about_bell long_lead 0 (Z.of_nat 0) = Ret true.
Proof. vm_compute. reflexivity. Qed.
Lemma long_pal : palindromic_path (mch long_lead) 0.
Proof.
  split; [exact long_even|]. exists 0.
  assert (X : 0 < length (mch long_lead) / 2) by (rewrite long_len; vm_compute; lia). split; [exact X|].
  destruct (C19_bell_palindromic_about long_wf long_hunt long_even X) as (b & Eb & Hb). rewrite long_sym in Eb. apply Hb. now injection Eb.
Qed.
Theorem C46_long_refuted : wf_method long_lead /\ of_kind (mch long_lead) 2 2020 Alliance /\
  methclass 0 long_lead 2020 = Ret (class_code TreblePlace false false).
Proof.
  split; [exact long_wf|]. split; [|exact long_class]. exists 0, 0, 1.
  split; [split; [lia|]; split; [exact long_hunt|intros q Hq; lia]|].
  split; [exact long_pal|].
  split. { intros [X _]. rewrite long_made in X. apply Nat.eqb_eq in X. rewrite long_places in X. discriminate X. }
  split. { split; [exists 0; reflexivity|]. split; [exists 2; rewrite long_path by lia; reflexivity|].
    intros t. assert (X := path_lt long_wf (x := 0) t). change (mb long_lead) with 2 in X. specialize (X ltac:(lia)). lia. }
  intros H. specialize (H 1 ltac:(lia)). rewrite !long_count in H. apply Nat.eqb_eq in H. rewrite long_uneq in H. discriminate H.
Qed.
Print Assumptions C46_long_refuted.

(* the cross sections are counted from the start of the lead, not from the symmetry point: the
   same method started one change later changes its class *)
Definition cambridge : method :=
  mkMethod (let x := mkChange 6 [0;2;4] in let c36 := mkChange 6 [0;3] in let c14 := mkChange 6 [1;4] in
            let c12 := mkChange 6 [2;4] in let c56 := mkChange 6 [0;2] in
    let half := [x;c36;x;c14;x;c12;x;c36;x;c14;x] in half ++ [c56] ++ rev half ++ [c12]) 6.
Definition later (m : method) : method := mkMethod (tl (mch m) ++ firstn 1 (mch m)) (mb m).
Lemma cambridge_wf : wf_method cambridge.
Proof. split; [cbn; lia|]. split; [vm_compute; discriminate|]. cbn [cambridge mch mb rev app]. repeat constructor; vm_compute; repeat split; lia. Qed.
Theorem C46_rotation_refuted : wf_method cambridge /\ wf_method (later cambridge) /\
  methclass 0 cambridge 2020 = Ret (class_code Surprise false false) /\
  methclass 0 (later cambridge) 2020 = Ret (class_code TrebleBob false false).
Proof.
  split; [exact cambridge_wf|]. split; [|split; vm_compute; reflexivity].
  split; [cbn; lia|]. split; [vm_compute; discriminate|]. cbn [later cambridge mch mb rev app tl firstn]. repeat constructor; vm_compute; repeat split; lia.
Qed.
Print Assumptions C46_rotation_refuted.

Example C46_case : methclass 0 plain_bob 2020 = Ret (class_code Bob false false) /\
  (exists m, method_of_pn default_symtab (str "3.1.5.3.1.3.1.3.5.1.3.1") 5 = Ret m /\ methclass 0 m 2020 = Ret (class_code Principle false false)) /\
  (exists m, method_of_pn default_symtab (str "&34-34.16-12-16-12-16,16") 6 = Ret m /\ methclass 0 m 2020 = Ret (class_code TrebleBob false false)) /\
  (exists m, method_of_pn default_symtab (str "&-34-14-12-16-34-56,16") 6 = Ret m /\ methclass 0 m 2020 = Ret (class_code Delight false false)).
Proof. split; [vm_compute; reflexivity|]. repeat split; eexists; split; vm_compute; reflexivity. Qed.
(* Cambridge has the path the cross-section theorem is about *)
Example C46_path : length (mch cambridge) = 2 * (3 * 4) /\ hunt_bell (mch cambridge) 0 /\
  (forall t, t < 3 * 4 -> path (mch cambridge) 0 t = 2 * (t / 4) + t mod 2) /\ path_reflects_about (mch cambridge) 0 (3 * 4 - 1).
Proof.
  split; [reflexivity|]. split; [vm_compute; reflexivity|]. split.
  - intros t Ht. do 12 (destruct t as [|t]; [vm_compute; reflexivity|]). lia.
  - intros k Hk. change (length (mch cambridge)) with 24 in Hk |- *. do 24 (destruct k as [|k]; [vm_compute; reflexivity|]). lia.
Qed.
