(* P_MethClass4.v - methclass computes the class. *)
From Verif Require Import Base M_Bell M_Change M_Math M_Row M_PN M_Method M_MethClass Spec_Row Spec_Change Spec_Cycle Spec_PN Spec_Method Spec_MethClass
  P_Math P_Row P_Bell P_Change P_Change2 P_Change3 P_Cycle P_Order P_PN P_Format P_Method P_Method2 P_MethClass P_MethClass2 P_MethClass3.
Set Implicit Arguments.
Unset Strict Implicit.
Open Scope nat_scope.

Definition cl_d (d : bool) : Z := if d then M_DIFFERENTIAL else 0%Z.
Definition cl_dl (d l : bool) : Z := if l then Z.lor (cl_d d) M_LITTLE else cl_d d.
Lemma code_ok k d l : Z.lor (cl_dl d l) (kind_code k) = class_code k d l.
Proof. destruct k, d, l; reflexivity. Qed.

Section M.
Variable m : method.
Hypothesis WF : wf_method m.
Let L := mch m.
Let n := length L.
Let nb := mb m.
Variable r : row.
Hypothesis ER : lh m = Ret r.

Lemma diff_spec year : exists d, (forall junk, exists i,
    first_work_loop 257 junk r nb 0 = Ret i /\
    (wb <- (if i <? nb then cycle_size r i else Ret 0) ;;
     (if (2019 <=? year)%Z then diff_loop nb r wb 0 else h <- huntbells m ;; Ret (wb <? nb - h))) = Ret d) /\
  (d = true <-> is_differential L nb year).
Proof.
  assert (B := nb255 WF). fold nb in B.
  destruct (@first_work m WF r ER nb 0 257) as (i & Ei & Hi); [reflexivity|lia|intros y Hy; lia|]. fold L nb in Ei, Hi.
  destruct Hi as [W|[E NW]].
  - destruct (cycle_home WF ER (proj1 W)) as (s & Es & Hs). assert (Li : (i <? nb) = true) by (apply Nat.ltb_lt, W).
    destruct (Z.leb_spec 2019 year) as [Y|Y].
    + destruct (@diff_loop_spec m WF r ER s nb 0) as (d & Ed & Hd); [reflexivity|]. fold L nb in Ed, Hd. exists d. split.
      * intros junk. exists i. split; [apply Ei|]. rewrite Li, Es. cbn [bind]. exact Ed.
      * rewrite Hd. unfold is_differential. assert (UI := unequal_iff WF W Hs). fold L nb in UI. rewrite <- UI. split.
        -- intros (x & s' & _ & X). left. split; [lia|]. eauto.
        -- intros [[_ (x & s' & X)]|[X _]]; [|lia]. exists x, s'. split; [lia|exact X].
    + assert (H : exists h, huntbells m = Ret h) by (eexists; exact (huntbells_spec WF)). destruct H as (h & H). assert (WL := workers_length WF H). exists (s <? length (workers m)). split.
      * intros junk. exists i. split; [apply Ei|]. rewrite Li, Es. cbn [bind]. rewrite H. cbn [bind]. fold nb in WL. rewrite WL. reflexivity.
      * rewrite Nat.ltb_lt. assert (SI := separate_iff WF W Hs). fold L nb in SI. rewrite SI. unfold is_differential. split; [right; split; [lia|assumption]|].
        intros [[X _]|[_ X]]; [lia|exact X].
  - exists false. split.
    + intros junk. exists i. split; [apply Ei|]. subst i. rewrite Nat.ltb_irrefl. cbn [bind]. destruct (Z.leb_spec 2019 year) as [Y|Y].
      * destruct (@diff_loop_spec m WF r ER 0 nb 0) as (d & Ed & Hd); [reflexivity|]. fold L nb in Ed, Hd. rewrite Ed.
        destruct d; [|reflexivity]. exfalso. destruct (proj1 Hd eq_refl) as (x & s & _ & W & _). exact (NW x W).
      * assert (H : exists h, huntbells m = Ret h) by (eexists; exact (huntbells_spec WF)). destruct H as (h & H). assert (WL := workers_length WF H). rewrite H. cbn [bind]. fold nb in WL. rewrite WL.
        destruct (workers m) as [|w ws] eqn:EW; [reflexivity|]. exfalso. apply (NW w). apply (workers_in m). rewrite EW. now left.
    + split; [discriminate|]. intros [[_ (x & y & k & W & _)]|[_ (x & y & W & _)]]; exfalso; exact (NW x W).
Qed.

Lemma internal_iff i c : nth_error L i = Some c -> internal c = true <-> internal_place c.
Proof. intros E. destruct (m_change WF E) as [_ W]. now apply internal_spec. Qed.
Lemma section_iff lo hi : 0 < n / (hi - lo + 1) -> forall P : change -> Prop,
  (exists t c, n / (hi - lo + 1) - 1 + t * (n / (hi - lo + 1)) + 1 < n / 2 /\
    (nth_error L (n / (hi - lo + 1) - 1 + t * (n / (hi - lo + 1))) = Some c \/ nth_error L (n - 2 - (n / (hi - lo + 1) - 1 + t * (n / (hi - lo + 1)))) = Some c) /\ P c) <->
  exists c, section_change L lo hi c /\ P c.
Proof.
  intros SP P. unfold section_change. fold n. set (st := n / (hi - lo + 1)) in *. split.
  - intros (t & c & A & B & C). exists c. split; [|exact C]. exists (S t), (st - 1 + t * st). repeat split; auto; try lia.
  - intros (c & (q & i & Hq & Ei & Hi & B) & C). exists (q - 1), c.
    assert (E : st - 1 + (q - 1) * st = i) by (destruct q as [|q]; [lia|]; cbn [Nat.mul] in Ei; replace (S q - 1) with q by lia; generalize dependent (q * st); intros; lia).
    rewrite E. auto.
Qed.

Lemma methclass_start year x d : (forall junk, first_hunt_loop 257 junk r nb 0 = Ret x) ->
  (forall junk, exists i, first_work_loop 257 junk r nb 0 = Ret i /\
    (wb <- (if i <? nb then cycle_size r i else Ret 0) ;;
     (if (2019 <=? year)%Z then diff_loop nb r wb 0 else h <- huntbells m ;; Ret (wb <? nb - h))) = Ret d) ->
  forall junk, methclass junk m year = (if x =? nb then Ret (Z.lor (cl_d d) M_PRINCIPLE) else mc_hunting junk m r year (cl_d d) x).
Proof.
  intros Ex Ed junk. unfold methclass. rewrite ER. cbn [bind]. fold nb. rewrite Ex. cbn [bind].
  destruct (Ed junk) as (i & Ei & Eb). rewrite Ei. cbn [bind].
  destruct (if i <? nb then cycle_size r i else Ret 0) as [wb|e| |]; cbn [bind] in Eb |- *; try discriminate Eb. rewrite Eb. cbn [bind]. reflexivity.
Qed.

Section Treble.
Variable x : nat.
Hypothesis T : treble L nb x.

Lemma little_spec lo hi : covers L x lo hi ->
  (Z.of_nat hi <? Z.of_nat nb - 1)%Z || (0 <? lo) = true <-> is_little L nb.
Proof.
  intros ((a & A) & (b & B) & C). rewrite orb_true_iff, Z.ltb_lt, Nat.ltb_lt. unfold is_little.
  assert (Hhi : hi < nb) by (rewrite <- B; apply (path_lt WF), T). split.
  - intros H. exists x. split; [exact T|]. intros [(t & Ht) (s & Hs)]. assert (X := C t). assert (Y := C s). lia.
  - intros (y & Ty & H). assert (y = x) by exact (least_unique Ty T). subst y.
    destruct (Nat.eq_dec lo 0) as [->|]; [|lia]. destruct (Nat.eq_dec (hi + 1) nb) as [E|]; [|lia]. exfalso. apply H. split; [now exists a|]. exists b. now rewrite B.
Qed.

Lemma dodging_spec year cl lo hi c p : n < 512 -> covers L x lo hi -> Nat.even n = true -> p < n / 2 -> path_reflects_about L x p ->
  ~ plain_hunts L x -> holds m c x lo (hi - lo + 1) (p + 1) (n / 2) ->
  exists k, mc_dodging m cl lo hi c (0 <? cnt (fun t => path L x (t + 1) =? path L x t) (p + 1) (n / 2 - 1)) = Ret (Z.lor cl (kind_code k)) /\ of_kind L nb year k.
Proof.
  intros N512 C Ev Hp R NP [Lc Hc]. assert (E2 := even_half Ev). unfold mc_dodging.
  assert (LH : lo <= hi) by (assert (X := proj2 (proj2 C) 0); lia).
  assert (PAL : palindromic_path L x) by (split; [exact Ev|exists p; auto]).
  assert (HB : path L x n = x) by apply T. assert (NZ : 0 < n) by lia.
  destruct (@all_same_spec m c (hi - lo) 1) as (b & Eb & Hb); [lia|lia|]. rewrite Eb. cbn [bind].
  assert (EQ : b = true <-> equal_time L x lo hi).
  { rewrite Hb. assert (BH : forall q, blows_at L x q = 2 * cnt (fun t => path L x t =? q) (p + 1) (n / 2)) by (intros q; exact (blows_half HB Ev Hp R q)).
    assert (V : forall q, q < hi - lo + 1 -> 2 * nth q c 0 = blows_at L x (lo + q)).
    { intros q Hq. rewrite Hc by exact Hq. rewrite BH. f_equal. apply Nat.mod_small.
      apply Nat.le_lt_trans with (n / 2); [apply cnt_le|lia]. }
    unfold equal_time. split.
    - intros H q Hq. replace q with (lo + (q - lo)) by lia. rewrite <- V by lia.
      assert (V0 := V 0 ltac:(lia)). rewrite Nat.add_0_r in V0. rewrite <- V0. f_equal.
      assert (I : forall e, e <= hi - lo -> nth e c 0 = nth 0 c 0).
      { induction e as [|e IH]; intros He; [reflexivity|]. rewrite (H (S e)) by lia. replace (S e - 1) with e by lia. apply IH. lia. }
      apply I. lia.
    - intros H q Hq. assert (V1 := V q ltac:(lia)). assert (V2 := V (q - 1) ltac:(lia)). rewrite H in V1, V2 by lia. lia. }
  assert (PM : places_made L x n = 2 + 2 * cnt (fun t => path L x (t + 1) =? path L x t) (p + 1) (n / 2 - 1)) by exact (places_half HB Ev Hp R).
  destruct b; [|exists Alliance; split; [reflexivity|]; exists x, lo, hi; repeat (split; [assumption|]); intros X; apply EQ in X; discriminate X].
  assert (ET : equal_time L x lo hi) by now apply EQ.
  destruct (Nat.ltb_spec 0 (cnt (fun t => path L x (t + 1) =? path L x t) (p + 1) (n / 2 - 1))) as [PL|PL].
  { exists TreblePlace. split; [reflexivity|]. exists x, lo, hi. repeat (split; [assumption|]). fold n. lia. }
  assert (P2 : places_made L x n = 2) by lia.
  destruct (Nat.eqb_spec (hi - lo) 1) as [D|D].
  { exists TrebleBob. split; [reflexivity|]. exists x, lo, hi. repeat (split; [assumption|]). left. lia. }
  assert (D' : hi <> lo + 1) by lia.
  destruct (@sections_exist m WF x lo hi) as [S1 S2]; auto. fold L n in S1, S2.
  assert (EZ : Z.quot (mlen m) (Z.of_nat (hi - lo + 1)) = Z.of_nat (n / (hi - lo + 1))).
  { unfold mlen. fold L n. rewrite Z.quot_div_nonneg by lia. now rewrite Nat2Z.inj_div. }
  cbv zeta. rewrite EZ. replace (Z.of_nat (n / (hi - lo + 1)) - 1)%Z with (Z.of_nat (n / (hi - lo + 1) - 1)) by lia.
  destruct (@sections_spec m _ n S1 (n / (hi - lo + 1) - 1) (S (length (mch m))) false false) as (y & no & Es & Hy & Hn); [fold L n; lia|fold L n; lia|].
  fold L n in Es, Hy, Hn |- *. rewrite Es. cbn [bind].
  assert (Hy' : y = true <-> exists c, section_change L lo hi c /\ internal_place c).
  { rewrite Hy, (section_iff S1 (fun c => internal c = true)). split.
    - intros [X|(c' & Q & X)]; [discriminate X|]. exists c'. split; [exact Q|]. destruct Q as (q & i & _ & _ & _ & [Q|Q]); now apply (internal_iff Q).
    - intros (c' & Q & X). right. exists c'. split; [exact Q|]. destruct Q as (q & i & _ & _ & _ & [Q|Q]); now apply (internal_iff Q). }
  assert (Hn' : no = true <-> exists c, section_change L lo hi c /\ ~ internal_place c).
  { rewrite Hn, (section_iff S1 (fun c => internal c = false)).
    assert (IF : forall i c, nth_error L i = Some c -> internal c = false <-> ~ internal_place c).
    { intros i c' Ec. rewrite <- (internal_iff Ec). destruct (internal c'); split; congruence. }
    split.
    - intros [X|(c' & Q & X)]; [discriminate X|]. exists c'. split; [exact Q|]. destruct Q as (q & i & _ & _ & _ & [Q|Q]); now apply (IF _ _ Q).
    - intros (c' & Q & X). right. exists c'. split; [exact Q|]. destruct Q as (q & i & _ & _ & _ & [Q|Q]); now apply (IF _ _ Q). }
  assert (DEC : forall c, section_change L lo hi c -> internal_place c \/ ~ internal_place c).
  { intros c' (q & i & _ & _ & _ & [Q|Q]); rewrite <- (internal_iff Q); destruct (internal c'); auto; right; discriminate. }
  destruct y, no; cbn [negb andb].
  - exists Delight. split; [reflexivity|]. exists x, lo, hi. repeat (split; [assumption|]). split; [now apply Hy'|now apply Hn'].
  - exists Surprise. split; [reflexivity|]. exists x, lo, hi. repeat (split; [assumption|]). intros c' Q. destruct (DEC c' Q) as [X|X]; [exact X|].
    exfalso. assert (Z : false = true) by (apply Hn'; exists c'; auto). discriminate Z.
  - exists TrebleBob. split; [reflexivity|]. exists x, lo, hi. repeat (split; [assumption|]). right. split; [exact D'|]. intros c' Q X.
    assert (Z : false = true) by (apply Hy'; exists c'; auto). discriminate Z.
  - exfalso. destruct (@nth_error_some _ L (n / (hi - lo + 1) - 1)) as (c' & Ec); [fold n; lia|].
    assert (Q : section_change L lo hi c') by (exists 1, (n / (hi - lo + 1) - 1); fold n; rewrite Nat.mul_1_l; repeat split; auto; lia).
    destruct (DEC c' Q) as [X|X]; [assert (Z : false = true) by (apply Hy'; exists c'; auto)|assert (Z : false = true) by (apply Hn'; exists c'; auto)]; discriminate Z.
Qed.

Lemma symmetric_spec year cl lo hi p : n < 512 -> (nb <> 1 \/ (2019 <= year)%Z) -> covers L x lo hi -> Nat.even n = true -> p < n / 2 -> path_reflects_about L x p ->
  exists k, (forall junk, mc_symmetric junk m r year cl x lo hi (Z.of_nat p) = Ret (Z.lor cl (kind_code k))) /\ of_kind L nb year k.
Proof.
  intros N512 N1 C Ev Hp R. assert (E2 := even_half Ev). assert (Hx : x < nb) by apply T. assert (B := nb255 WF). fold nb in B.
  assert (PAL : palindromic_path L x) by (split; [exact Ev|exists p; auto]). assert (NZ : 0 < n) by lia.
  assert (IP := isplain_spec WF Hx). fold L n in IP. unfold mc_symmetric. destruct (isplain m x) eqn:PL.
  - assert (PH : plain_hunts L x) by (destruct (proj1 IP eq_refl) as (_ & A & A'); split; [exact A|exact A']).
    destruct (some_dodges WF (m := m)) as (b & Eb & Hb); [fold L n; lia|]. fold L n nb in Eb, Hb.
    assert (SL : exists s : bool, (forall junk, (if (year <? 2019)%Z && (x =? 0) then x <- row_at junk r 1 ;; (if x =? 1 then issym_bell m 1 else Ret false) else Ret false) = Ret s) /\
      (s = true <-> slow_course L nb x year)).
    { unfold slow_course. destruct (Z.ltb_spec year 2019) as [Y|Y]; cbn [andb]; [|exists false; split; [reflexivity|]; split; [discriminate|lia]].
      destruct (Nat.eqb_spec x 0) as [X0|X0]; [|exists false; split; [reflexivity|]; split; [discriminate|lia]].
      assert (H1 : 1 < nb) by lia. destruct (Nat.eq_dec (act r 1) 1) as [E1|E1].
      - assert (HB1 := proj1 (r_fix WF ER H1) E1). destruct (issym_bell_spec WF HB1) as (s & Es & Hs); [fold L n; lia|]. exists s. split.
        + intros junk. rewrite (r_get WF ER junk H1). cbn [bind]. rewrite E1. cbn [Nat.eqb]. exact Es.
        + rewrite Hs. fold L n. tauto.
      - exists false. split.
        + intros junk. rewrite (r_get WF ER junk H1). cbn [bind]. apply Nat.eqb_neq in E1. rewrite E1. reflexivity.
        + split; [discriminate|]. intros (_ & _ & _ & H & _). exfalso. apply E1. now apply (r_fix WF ER H1). }
    destruct SL as (s & Es & Hs). destruct s.
    + exists SlowCourse. split; [intros junk; rewrite Es; reflexivity|]. exists x. repeat (split; [assumption|]). now apply Hs.
    + assert (NS : ~ slow_course L nb x year) by (intros X; apply Hs in X; discriminate X).
      destruct b.
      * exists Bob. split; [intros junk; rewrite Es; cbn [bind]; fold nb; rewrite Eb; reflexivity|]. exists x. repeat (split; [assumption|]). now apply Hb.
      * exists Place. split; [intros junk; rewrite Es; cbn [bind]; fold nb; rewrite Eb; reflexivity|]. exists x. repeat (split; [assumption|]).
        intros y Hy D. assert (Z : false = true) by (apply Hb; exists y; auto). discriminate Z.
  - assert (NP : ~ plain_hunts L x).
    { intros [A A']. assert (Z : false = true) by (apply IP; split; [apply T|]; split; [exact A|exact A']). discriminate Z. }
    replace (Z.of_nat p + 1)%Z with (Z.of_nat (p + 1)) by lia. rewrite Nat2Z.id.
    assert (TR := trace_spec WF (p + 1) 0 x). fold L n in TR. specialize (TR NZ). cbn [path] in TR. change (Z.of_nat 0) with 0%Z in TR. rewrite TR. cbn [bind Nat.add].
    unfold mlen. fold L n. rewrite quot2_nat. replace (Z.to_nat (Z.of_nat (n / 2) - 1)) with (n / 2 - 1) by lia.
    assert (LH : forall t, lo <= path L x t < lo + (hi - lo + 1)) by (intros t; assert (X := proj2 (proj2 C) t); lia).
    assert (H0 : holds m (repeat 0 (hi - lo + 1)) x lo (hi - lo + 1) (p + 1) 0).
    { split; [apply repeat_length|]. intros q Hq. rewrite cnt_0, Nat.mod_0_l by lia. apply nth_repeat. }
    destruct (count_loop_spec WF (n / 2 - 1) NZ LH H0) as (c & Ec & Hc). fold L in Ec.
    rewrite cnt_0, Nat.ltb_irrefl, !Nat.add_0_r in Ec. cbn [Nat.add] in Ec, Hc. rewrite Ec. cbn [bind].
    destruct (count_step Hc (LH _)) as (v & c' & E1 & E3 & H'). fold L in E1, E3. assert (LQ := LH (p + 1 + (n / 2 - 1))).
    destruct (Nat.ltb_spec (path L x (p + 1 + (n / 2 - 1))) lo) as [Q|_]; [lia|]. rewrite E1. cbn [bind]. rewrite E3. cbn [bind].
    replace (S (n / 2 - 1)) with (n / 2) in H' by lia.
    destruct (@dodging_spec year cl lo hi c' p N512 C Ev Hp R NP H') as (k & Ek & Hk). exists k. split; [|exact Hk]. intros junk. exact Ek.
Qed.
End Treble.

Lemma class_spec year : n < 512 -> (nb <> 1 \/ (2019 <= year)%Z) ->
  exists k d l, (forall junk, methclass junk m year = Ret (class_code k d l)) /\
    of_kind L nb year k /\ (d = true <-> is_differential L nb year) /\ (l = true <-> is_little L nb).
Proof.
  intros N512 N1. assert (B255 := nb255 WF). fold nb in B255.
  destruct (@first_hunt m WF r ER nb 0 257) as (x & Ex & Hx); [reflexivity|lia|intros y Hy; lia|]. fold L nb in Ex, Hx.
  destruct (diff_spec year) as (d & Ed & Hd). assert (ST := methclass_start Ex Ed).
  destruct Hx as [T|[-> NH]].
  - assert (XN : (x =? nb) = false) by (apply Nat.eqb_neq; destruct T; lia).
    destruct (@covers_spec m WF x) as (lo & hi & Er & C); [apply T|]. fold L in Er, C.
    assert (LS := little_spec T C). set (l := (Z.of_nat hi <? Z.of_nat nb - 1)%Z || (0 <? lo)) in *.
    assert (ST' : forall junk, methclass junk m year = (if negb (Z.rem (mlen m) 2 =? 0)%Z then Ret (Z.lor (cl_dl d l) M_HYBRID) else
      sp <- symmetry_point_bell m x ;; if (sp =? -1)%Z then Ret (Z.lor (cl_dl d l) M_HYBRID) else mc_symmetric junk m r year (cl_dl d l) x lo hi sp)).
    { intros junk. rewrite ST, XN. unfold mc_hunting. fold L nb. rewrite Er. reflexivity. }
    unfold mlen in ST'. rewrite (rem2_even m) in ST'. fold L n in ST'.
    destruct (symmetry_point_bell_spec WF (x := x)) as [[Ev _]|[Ev [(p & Ep & Hp & R & _)|[Ep NP]]]]; [apply T|..]; fold L n in Ev.
    + exists Hybrid, d, l. split; [intros junk; rewrite ST', Ev; cbn [negb]; exact (f_equal Ret (code_ok Hybrid d l))|].
      split; [|auto]. exists x. split; [exact T|]. intros [Ev' _]. fold n in Ev'. congruence.
    + fold L n in Hp, R. destruct (@symmetric_spec x T year (cl_dl d l) lo hi p N512 N1 C Ev Hp R) as (k & Ek & Hk).
      exists k, d, l. split; [|auto]. intros junk. rewrite ST', Ev. cbn [negb]. rewrite Ep. cbn [bind].
      assert (Z1 : (Z.of_nat p =? -1)%Z = false) by (apply Z.eqb_neq; lia). rewrite Z1, Ek. f_equal. apply code_ok.
    + exists Hybrid, d, l. split; [intros junk; rewrite ST', Ev; cbn [negb]; rewrite Ep; cbn [bind]; exact (f_equal Ret (code_ok Hybrid d l))|].
      split; [|auto]. exists x. split; [exact T|]. intros [_ (p & Hp & R)]. exact (NP p Hp R).
  - exists Principle, d, false. split; [|split; [exact NH|split; [exact Hd|]]].
    + intros junk. rewrite ST, Nat.eqb_refl. exact (f_equal Ret (code_ok Principle d false)).
    + split; [discriminate|]. intros (y & (Hy & HB & _) & _). exfalso. exact (NH y Hy HB).
Qed.
End M.
