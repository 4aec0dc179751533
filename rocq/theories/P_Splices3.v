(* P_Splices3.v - splices: the size of the group, pivot bells and swapping pairs. *)
From Verif Require Import Base M_Bell M_Change M_Math M_Row M_Extent M_Group M_Touch M_PN M_Method M_False M_Splices
  Spec_Row Spec_Change Spec_Touch Spec_Extent Spec_Cycle Spec_Group Spec_Method Spec_False Spec_RowCalc Spec_Splices
  P_Row P_Change2 P_Cycle P_Order P_Perm P_Extent P_Group P_Group2 P_Group3 P_False P_False4 P_Splices P_Splices2.
From Coq Require Import Permutation.
Set Implicit Arguments.
Unset Strict Implicit.
Open Scope nat_scope.

Lemma fac_even k : exists m, fac (S (S k)) = (2 * m)%Z.
Proof. induction k as [|k [m E]]; [exists 1%Z; reflexivity|]. rewrite fac_S, E. exists (Z.of_nat (S (S (S k))) * m)%Z. lia. Qed.

Section Size.
Variables (sym : symtab) (n : nat) (ic : bool).
Hypothesis (N0 : 0 < n) (N256 : n <= 256).
Notation LH := (lead_head sym n ic).
Notation k2 := (if ic then 2 else 1)%Z.

(* lead heads fixing the bells F: the others are at least two *)
Lemma heads_bound F l : NoDup F -> incl F (seq 0 n) -> (ic = true -> 2 <= n - length F) -> NoDup l -> (forall x, In x l -> LH x /\ fixes F x) ->
  (k2 * Z.of_nat (length l) <= fac (n - length F))%Z.
Proof.
  intros NF IF F2 NL H. destruct ic eqn:I.
  - specialize (F2 eq_refl). destruct (filter (fun i => negb (if in_dec Nat.eq_dec i F then true else false)) (seq 0 n)) as [|a [|b o]] eqn:E.
    3: { assert (ND : NoDup (a :: b :: o)) by (rewrite <- E; apply NoDup_filter, seq_NoDup).
      assert (IA : forall i, In i (a :: b :: o) -> i < n /\ ~ In i F).
      { intros i J. rewrite <- E in J. apply filter_In in J as [J K]. apply in_seq in J. destruct (in_dec Nat.eq_dec i F); [discriminate K|]. split; [lia|exact n0]. }
      destruct (IA a ltac:(now left)) as [Ha Fa]. destruct (IA b ltac:(right; now left)) as [Hb Fb].
      assert (AB : a <> b) by (inversion_clear ND as [|? ? X _]; intros ->; apply X; now left).
      assert (H' : forall x, In x l -> row_b n x /\ sign sym x = Ret 1%Z) by (intros x Hx; destruct (H x Hx) as [(Bx & _ & Sx) _]; auto).
      pose proof (double_count N256 Ha Hb AB NL H') as DC.
      pose proof (@count_fixes n F (l ++ map (fun x => comp x (tau n a b)) l) NF IF DC) as C. rewrite app_length, map_length in C. apply Z.le_trans with (2 := C ltac:(
        intros x J; apply in_app_or in J as [J|J]; [destruct (H x J) as [(Bx & _) Fx]; auto|];
        apply in_map_iff in J as (y & <- & J); destruct (H y J) as [(By & _) Fy]; split; [now apply comp_tau_b|];
        intros i Hi; rewrite act_comp_tau by lia; rewrite transp_o by (intros ->; auto); now apply Fy)). lia. }
    all: exfalso; pose proof (filter_split (fun i => if in_dec Nat.eq_dec i F then true else false) (seq 0 n)) as X; cbv beta in X; rewrite E, seq_length in X;
      assert (Y : length (filter (fun i => if in_dec Nat.eq_dec i F then true else false) (seq 0 n)) <= length F) by
        (apply NoDup_incl_length; [apply NoDup_filter, seq_NoDup|intros i J; apply filter_In in J as [_ J]; destruct (in_dec Nat.eq_dec i F); [assumption|discriminate J]]); cbn [length] in X; lia.
  - rewrite Z.mul_1_l. apply count_fixes; auto. intros x Hx. destruct (H x Hx) as [(Bx & _) Fx]. auto.
Qed.

Variable V : list row.
Hypothesis VL : forall x, In x V -> LH x.
Hypothesis VN : NoDup V.

Lemma heads_upper l : (ic = true -> 3 <= n) -> NoDup l -> (forall x, In x l -> LH x) -> (k2 * Z.of_nat (length l) <= fac (n - 1))%Z.
Proof.
  intros N3 ND H. apply (@heads_bound [0] l); [repeat constructor; intros []|intros i [<-|[]]; apply in_seq; lia|cbn [length]; intros I; specialize (N3 I); lia|exact ND|].
  intros x Hx. split; [auto|]. intros i [<-|[]]. now apply (H x Hx).
Qed.
Lemma heads_lower : (ic = true -> 3 <= n) -> (forall x, LH x -> In x V) -> (fac (n - 1) <= k2 * Z.of_nat (length V))%Z.
Proof.
  intros N3 H. destruct (@heads_spec n N0) as (HN & HC & HR). rewrite <- HC. destruct ic eqn:I.
  - specialize (N3 eq_refl). assert (H1 : 1 < n) by lia. assert (H2 : 2 < n) by lia. assert (AB : 1 <> 2) by lia.
    set (ev := filter (evenb sym) (heads n)). set (od := filter (fun x => negb (evenb sym x)) (heads n)).
    assert (E : length ev + length od = length (heads n)) by apply filter_split.
    assert (LE : length ev <= length V). { apply NoDup_incl_length; [now apply NoDup_filter|]. intros x Hx. apply filter_In in Hx as [Hx S]. destruct (HR x Hx) as [Bx Tx]. apply H. split; [exact Bx|]. split; [exact Tx|]. intros _. now apply evenb_iff. }
    assert (LO : length od <= length V).
    { assert (ML : length (map (fun x => comp x (tau n 1 2)) od) = length od) by apply map_length. rewrite <- ML. apply NoDup_incl_length.
      - apply NoDup_map_inj; [|now apply NoDup_filter]. intros x y Hx Hy X. apply filter_In in Hx as [Hx _]. apply filter_In in Hy as [Hy _]. apply (f_equal (fun z => comp z (tau n 1 2))) in X.
        rewrite !comp_tau_tau in X; auto; now apply HR.
      - intros z Hz. apply in_map_iff in Hz as (x & <- & Hx). apply filter_In in Hx as [Hx S]. destruct (HR x Hx) as [Bx Tx]. apply H. split; [now apply comp_tau_b|]. split.
        + rewrite act_comp_tau by lia. rewrite transp_o by lia. exact Tx.
        + intros _. destruct (sign_pm sym (row_b_256 N256 Bx)) as [Sx|Sx]; [apply evenb_iff in Sx; rewrite Sx in S; discriminate S|].
          apply (sign_comp_tau N256 H1 H2 AB Bx) in Sx. exact Sx. }
    unfold row in *. lia.
  - rewrite Z.mul_1_l. apply inj_le, NoDup_incl_length; [exact HN|]. intros x Hx. destruct (HR x Hx) as [Bx Tx]. apply H. split; [exact Bx|]. split; [exact Tx|]. intros X; discriminate X.
Qed.

Lemma full_iff : 3 <= n -> (forall h, LH h -> In h V) <-> Z.of_nat (length V) = (if ic then fac (n - 1) / 2 else fac (n - 1))%Z.
Proof.
  intros N3. assert (UP := @heads_upper V (fun _ => N3) VN VL). destruct (@fac_even (n - 3)) as (m & Em). replace (S (S (n - 3))) with (n - 1) in Em by lia. rewrite Em in *.
  assert (D : (2 * m / 2 = m)%Z) by (rewrite Z.mul_comm; now apply Z.div_mul). rewrite D. split.
  - intros H. assert (LO := @heads_lower (fun _ => N3) H). rewrite Em in LO. unfold row in *; destruct ic; lia.
  - intros E h Lh. destruct (in_dec row_dec h V) as [I|I]; [exact I|]. exfalso.
    assert (U2 := @heads_upper (h :: V) (fun _ => N3) ltac:(now constructor) ltac:(intros x [<-|Hx]; auto)). cbn [length] in U2. rewrite Em in U2. unfold row in *. destruct ic; lia.
Qed.

(* all the lead heads are there, or one is not *)
Lemma heads_all x : row_b n x -> act x 0 = 0 -> In x (heads n).
Proof.
  intros Bx Tx. destruct (@heads_spec n N0) as (HN & HC & HR). destruct (in_dec row_dec x (heads n)) as [I|I]; [exact I|]. exfalso.
  assert (C := @count_fixes n [0] (x :: heads n) ltac:(repeat constructor; intros []) ltac:(intros i [<-|[]]; apply in_seq; lia) ltac:(now constructor)).
  cbn [length] in C. enough (Z.of_nat (S (length (heads n))) <= fac (n - 1))%Z by lia. apply C. intros y [<-|Hy]; (split; [|intros i [<-|[]]]); try assumption; now apply HR.
Qed.
Lemma all_or_some : (forall h, LH h -> In h V) \/ exists h, LH h /\ ~ In h V.
Proof.
  destruct (List.find (fun h => (negb ic || evenb sym h) && negb (if in_dec row_dec h V then true else false)) (heads n)) as [h|] eqn:E.
  - right. apply find_some in E as [Hh E]. apply andb_true_iff in E as [E1 E2]. destruct (@heads_spec n N0) as (_ & _ & HR). destruct (HR h Hh) as [Bh Th]. exists h. split.
    + split; [exact Bh|]. split; [exact Th|]. intros I. rewrite I in E1. cbn in E1. now apply evenb_iff.
    + destruct (in_dec row_dec h V); [discriminate E2|assumption].
  - left. intros h (Bh & Th & Sh). pose proof (find_none _ _ E h (heads_all Bh Th)) as X. cbv beta in X. destruct (in_dec row_dec h V) as [I|I]; [exact I|]. exfalso. cbn [negb] in X. rewrite andb_true_r in X.
    apply orb_false_iff in X as [X1 X2]. apply negb_false_iff in X1. specialize (Sh X1). apply evenb_iff in Sh. congruence.
Qed.

(* --- a pivot bell --- *)
Lemma pivot_full p : 1 <= p < n -> 4 <= n -> (forall x, In x V -> act x p = p) -> (k2 * Z.of_nat (length V) <= fac (n - 2))%Z /\
  ((fac (n - 2) <= k2 * Z.of_nat (length V))%Z -> forall x, LH x -> act x p = p -> In x V).
Proof.
  intros Hp N4 H. assert (B : forall l, NoDup l -> (forall x, In x l -> LH x /\ act x p = p) -> (k2 * Z.of_nat (length l) <= fac (n - 2))%Z).
  { intros l ND HL. apply (@heads_bound [0; p] l); [repeat constructor; cbn; intuition lia|intros i [<-|[<-|[]]]; apply in_seq; lia|cbn [length]; intros; lia|exact ND|].
    intros x Hx. destruct (HL x Hx) as [L P]. split; [exact L|]. intros i [<-|[<-|[]]]; [apply L|exact P]. }
  split; [apply B; auto|]. intros F x Lx Px. destruct (in_dec row_dec x V) as [I|I]; [exact I|]. exfalso.
  assert (U := B (x :: V) ltac:(now constructor) ltac:(intros y [<-|Hy]; auto)). cbn [length] in U. destruct (@fac_even (n - 4)) as (m & Em). replace (S (S (n - 4))) with (n - 2) in Em by lia. rewrite Em in *.
  unfold row in *. destruct ic; lia.
Qed.

(* --- a swapping pair, in course --- *)
Definition keeps_pair (a b : nat) (x : list nat) : Prop := (act x a = a /\ act x b = b) \/ (act x a = b /\ act x b = a).
Lemma swaps_full a b : ic = true -> 1 <= a < n -> 1 <= b < n -> a <> b -> 5 <= n -> (forall x, In x V -> keeps_pair a b x) ->
  (fac (n - 3) <= Z.of_nat (length V))%Z -> forall x, LH x -> keeps_pair a b x -> In x V.
Proof.
  intros I Ha Hb AB N5 H F x Lx Kx. destruct (in_dec row_dec x V) as [IN|NI]; [exact IN|]. exfalso.
  set (g := fun y => if act y a =? a then y else comp y (tau n a b)).
  assert (Ha' : a < n) by lia. assert (Hb' : b < n) by lia.
  assert (HL : forall y, In y (x :: V) -> LH y /\ keeps_pair a b y) by (intros y [<-|Hy]; auto).
  assert (C : (Z.of_nat (length (map g (x :: V))) <= fac (n - 3))%Z).
  { apply (@count_fixes n [0; a; b]); [repeat constructor; cbn; intuition lia|intros i [<-|[<-|[<-|[]]]]; apply in_seq; lia| |].
    - apply NoDup_map_inj; [|now constructor]. intros y z Hy Hz E. destruct (HL y Hy) as [(By & Ty & Sy) Ky]. destruct (HL z Hz) as [(Bz & Tz & Sz) Kz]. specialize (Sy I). specialize (Sz I). unfold g in E.
      destruct (Nat.eqb_spec (act y a) a), (Nat.eqb_spec (act z a) a).
      + exact E.
      + apply (sign_comp_tau N256 Ha' Hb' AB Bz) in Sz. rewrite <- E, Sy in Sz. discriminate Sz.
      + apply (sign_comp_tau N256 Ha' Hb' AB By) in Sy. rewrite E, Sz in Sy. discriminate Sy.
      + apply (f_equal (fun z => comp z (tau n a b))) in E. rewrite !comp_tau_tau in E; auto.
    - intros y Hy. apply in_map_iff in Hy as (z & <- & Hz). destruct (HL z Hz) as [(Bz & Tz & Sz) Kz]. unfold g. destruct (Nat.eqb_spec (act z a) a) as [E|E].
      + split; [exact Bz|]. intros i [<-|[<-|[<-|[]]]]; [exact Tz|exact E|]. destruct Kz as [[_ K]|[K _]]; [exact K|lia].
      + split; [now apply comp_tau_b|]. destruct Kz as [[K _]|[K1 K2]]; [lia|]. intros i [<-|[<-|[<-|[]]]]; rewrite act_comp_tau by lia.
        * rewrite transp_o by lia. exact Tz. * rewrite transp_l. exact K2. * rewrite transp_r. exact K1. }
  rewrite map_length in C. cbn [length] in C. unfold row in *. lia.
Qed.
End Size.
