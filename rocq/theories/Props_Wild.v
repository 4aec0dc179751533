(* Props_Wild.v - C39: row_wildcard::count counts the rows a pattern describes. *)
From Verif Require Import Base M_Bell M_Math M_Row M_Music M_Wild Spec_Row Spec_Music Spec_Music2 Spec_Wild P_Row P_Music P_Music2 P_Music3 P_Music4 P_Music6 P_Wild P_Wild2 P_Wild3.
Set Implicit Arguments.
Unset Strict Implicit.
Open Scope nat_scope.

Lemma countable_inv sym b p : countable sym b p -> inv sym b [] p.
Proof. intros (H1 & H2 & H3 & H4 & H5 & H6 & H7). constructor; auto. constructor. Qed.
Lemma count_card sym b p w n : sym_ok sym -> countable sym b p -> 0 < b -> rw_pat w = text p -> (n = b \/ n = 0 /\ rw_b w = b) ->
  exists V, rw_count sym w n = Ret (u64 (Z.of_nat V)) /\ Card (described sym b p) V.
Proof.
  intros OK HC Hb Hp Hn. unfold rw_count. set (m := if n =? 0 then rw_b w else n).
  assert (m = b) as ->. { unfold m. destruct Hn as [->|[-> ->]]; [|reflexivity]. destruct (Nat.eqb_spec b 0); [lia|reflexivity]. }
  destruct (Nat.eqb_spec b 0) as [K|_]; [lia|]. rewrite Hp.
  destruct (@pm_spec sym b OK (length (text p) + 3 * b + 3) [] p (countable_inv HC)) as (V & q' & E & C).
  - unfold need. destruct (has_star p); [lia|]. destruct (_ =? 0); lia.
  - change (text []) with (@nil ascii) in E. change (blanks []) with 0 in E, C. rewrite E. exists V. split; [reflexivity|].
    change (fact 0) with 1 in C. rewrite Nat.mul_1_r in C. exact C.
Qed.

(* C39: for every complete list of the rows described, without repetition, count returns
   the length of the list (an unsigned 64-bit number) *)
Theorem C39_count : forall sym b p w n L, sym_ok sym -> countable sym b p -> 0 < b ->
  rw_pat w = text p -> (n = b \/ n = 0 /\ rw_b w = b) ->
  NoDup L -> (forall r, In r L <-> described sym b p r) ->
  rw_count sym w n = Ret (u64 (Z.of_nat (length L))).
Proof.
  intros sym b p w n L OK HC Hb Hp Hn N I. destruct (count_card OK HC Hb Hp Hn) as (V & E & C). rewrite E. do 3 f_equal.
  apply (card_unique C). exists L. auto.
Qed.
(* the rows can always be listed *)
Theorem C39_listed : forall sym b p, sym_ok sym -> countable sym b p -> 0 < b ->
  exists L, NoDup L /\ forall r, In r L <-> described sym b p r.
Proof.
  intros sym b p OK HC Hb. destruct (@count_card sym b p (mkRW (text p) b) b OK HC Hb eq_refl (or_introl eq_refl)) as (V & _ & L & N & I & _). eauto.
Qed.
(* the number of all rows on b bells *)
Lemma all_rows sym b : sym_ok sym -> Card (fun r => is_row r /\ length r = b) (fact b).
Proof.
  intros OK. assert (E : explicit (repeat AnyBell b)) by (apply Forall_forall; intros x Hx; apply repeat_spec in Hx; now subst).
  assert (B : blanks (repeat AnyBell b) = b) by (pose proof (width_explicit E) as W; rewrite quests_width, fixed_quests in W; cbn in W; lia).
  pose proof (@explicit_card sym b (repeat AnyBell b) E) as C. rewrite B in C. eapply card_ext; [|apply C].
  - intros r. split; [tauto|]. intros [H1 H2]. repeat split; auto. exists r. now apply fits_quests.
  - apply Forall_forall. intros x Hx. apply repeat_spec in Hx. now subst.
  - intros t c x Ht Hc. apply repeat_spec in Ht. subst. destruct Hc.
  - apply quests_width.
  - rewrite fixed_quests. constructor.
  - intros t t' c c' x Ht _ Hc. apply repeat_spec in Ht. subst. destruct Hc.
  - exact (bell_names OK).
Qed.
(* up to twenty bells nothing is lost *)
Theorem C39_exact : forall sym b p w n L, sym_ok sym -> countable sym b p -> 0 < b <= 20 ->
  rw_pat w = text p -> (n = b \/ n = 0 /\ rw_b w = b) ->
  NoDup L -> (forall r, In r L <-> described sym b p r) ->
  rw_count sym w n = Ret (Z.of_nat (length L)).
Proof.
  intros sym b p w n L OK HC [Hb H20] Hp Hn N I. rewrite (C39_count OK HC Hb Hp Hn N I). f_equal. apply Z.mod_small. split; [lia|].
  destruct (all_rows b OK) as (A & NA & IA & LA).
  assert (HL : length L <= fact b). { rewrite <- LA. apply NoDup_incl_length; [exact N|]. intros r Hr. apply IA. apply I in Hr. destruct Hr as (H1 & H2 & _). auto. }
  assert (F : (Z.of_nat (fact b) <= 2432902008176640000)%Z).
  { clear - H20. assert (G : forall k, k <= 20 -> (Z.of_nat (fact k) <= fold_left (fun a i => a * Z.of_nat i) (seq 1 k) 1)%Z).
    { intros k _. induction k as [|k IH]; [cbn; lia|]. rewrite seq_S, fold_left_app. cbn [fold_left Nat.add]. change (fact (S k)) with (S k * fact k). rewrite Nat2Z.inj_mul. nia. }
    pose proof (@fact_le b 20 H20) as M. specialize (G 20 (le_n _)).
    assert (E : (fold_left (fun a i => a * Z.of_nat i) (seq 1 20) 1 = 2432902008176640000)%Z) by (vm_compute; reflexivity).
    rewrite E in G. apply inj_le in M. lia. }
  apply inj_le in HL. lia.
Qed.
(* without a number of bells there is no count *)
Theorem C39_unspecified : forall sym w, rw_b w = 0 -> rw_count sym w 0 = Throw PatternInvalid.
Proof. intros sym w H. unfold rw_count. rewrite H. reflexivity. Qed.

(* music: the score of all possible rows, for scores that are not negative *)
Theorem C39_possible_score : forall sym m ns, sym_ok sym -> 0 < mu_b m <= 20 ->
  Forall2 (fun d n => exists p, md_pat d = text p /\ countable sym (mu_b m) p /\ Card (described sym (mu_b m) p) n) (mu_info m) ns ->
  Forall (fun n => Z.of_nat n < 2 ^ 32)%Z ns ->
  Forall (fun d => 0 <= md_scoreh d /\ 0 <= md_scoreb d)%Z (mu_info m) ->
  let total := fold_right (fun dn t => t + Z.of_nat (snd dn) * Z.max (md_scoreh (fst dn)) (md_scoreb (fst dn)))%Z 0%Z (combine (mu_info m) ns) in
  (total < 2 ^ 31)%Z -> get_possible_score sym m = Ret total.
Proof.
  intros sym m ns OK Hb F F32 Fs total HT. unfold get_possible_score. set (b := mu_b m) in *.
  assert (G : forall t, (0 <= t)%Z -> (t + total < 2 ^ 31)%Z -> forM (mu_info m) (fun t d => v <- md_possible_score sym d b ;; as_int (t + v)) t = Ret (t + total)%Z).
  { unfold total. clear HT total. induction F as [|d n ds ns (p & Ep & HC & C) F IH]; intros t H0 HT.
    - cbn. now rewrite Z.add_0_r.
    - inversion_clear F32 as [|? ? N32 F32']. inversion_clear Fs as [|? ? Hs Fs']. cbn [combine fold_right fst snd] in HT |- *. specialize (IH F32' Fs').
      set (rest := fold_right (fun dn t => t + Z.of_nat (snd dn) * Z.max (md_scoreh (fst dn)) (md_scoreb (fst dn)))%Z 0%Z (combine ds ns)) in *.
      assert (HR : (0 <= rest)%Z).
      { unfold rest. clear - Fs' F. induction F as [|d n ds ns _ F IH]; [cbn; lia|]. inversion_clear Fs' as [|? ? Hs Fs]. cbn [combine fold_right fst snd]. specialize (IH Fs).
        assert (0 <= Z.of_nat n * Z.max (md_scoreh d) (md_scoreb d))%Z by (apply Z.mul_nonneg_nonneg; lia). lia. }
      assert (HP : (0 <= Z.of_nat n * Z.max (md_scoreh d) (md_scoreb d))%Z) by (apply Z.mul_nonneg_nonneg; lia).
      destruct C as (L & N & I & <-).
      assert (E0 : md_possible_score sym d b = Ret (Z.of_nat (length L) * Z.max (md_scoreh d) (md_scoreb d))%Z).
      { unfold md_possible_score, md_possible_matches. rewrite (@C39_exact sym b p (mkRW (md_pat d) 0) b L OK HC Hb Ep (or_introl eq_refl) N I).
        cbn [bind]. replace (u32 (Z.of_nat (length L))) with (Z.of_nat (length L)) by (unfold u32; symmetry; apply Z.mod_small; lia).
        replace (if (md_scoreb d <? md_scoreh d)%Z then md_scoreh d else md_scoreb d) with (Z.max (md_scoreh d) (md_scoreb d)) by (destruct (Z.ltb_spec (md_scoreb d) (md_scoreh d)); lia).
        set (v := (Z.of_nat (length L) * Z.max (md_scoreh d) (md_scoreb d))%Z) in *.
        f_equal. unfold s32, u32. replace (v mod 4294967296)%Z with v by (symmetry; apply Z.mod_small; lia). destruct (v <? 2147483648)%Z eqn:E; [reflexivity|]. apply Z.ltb_ge in E. lia. }
      cbn [forM]. rewrite E0. cbn [bind]. set (v := (Z.of_nat (length L) * Z.max (md_scoreh d) (md_scoreb d))%Z) in *.
      rewrite as_int_ok by (unfold int_min, int_max; lia). cbn [bind]. rewrite IH by lia. f_equal. lia. }
  rewrite (G 0%Z) by lia. reflexivity.
Qed.

Definition star_run : pattern := [AnyBells; Named (chr "1"); Named (chr "2"); Named (chr "3"); AnyBells].
Lemma below_dec b p : forallb (fun t => forallb (fun c => match read_char default_symtab c with Ret x => x <? b | _ => true end) (named_in t)) p = true -> bells_below default_symtab b p.
Proof.
  intros H t c x Ht Hc Hx. rewrite forallb_forall in H. specialize (H t Ht). rewrite forallb_forall in H. specialize (H c Hc). unfold names in Hx. rewrite Hx in H. now apply Nat.ltb_lt.
Qed.
Lemma spelling_dec p : (let l := concat (map named_in p) in forallb (fun c => forallb (fun c' => match read_char default_symtab c, read_char default_symtab c' with Ret x, Ret y => negb (x =? y) || eqc c c' | _, _ => true end) l) l) = true ->
  one_spelling default_symtab p.
Proof.
  intros H t t' c c' x Ht Ht' Hc Hc' Hx Hx'. cbn zeta in H. rewrite forallb_forall in H.
  assert (I : forall t c, In t p -> In c (named_in t) -> In c (concat (map named_in p))). { intros t0 c0 A B. apply in_concat. exists (named_in t0). split; [now apply in_map|exact B]. }
  specialize (H c (I t c Ht Hc)). rewrite forallb_forall in H. specialize (H c' (I t' c' Ht' Hc')). unfold names in *. rewrite Hx, Hx', Nat.eqb_refl in H. cbn in H. now apply eqc_true in H.
Qed.
(* non-trivial patterns that can be counted: *123* and [12][23][34][14] *)
Example C39_case : countable default_symtab 6 star_run /\ rw_count default_symtab (mkRW (text star_run) 6) 0 = Ret 24%Z.
Proof.
  split; [|vm_compute; reflexivity]. split; [repeat constructor|]. split; [apply below_dec; vm_compute; reflexivity|]. split; [vm_compute; lia|].
  split; [repeat constructor; cbn; intuition discriminate|]. split; [|split; [apply spelling_dec; vm_compute; reflexivity|]].
  - intros a l z c E. unfold star_run in E. do 5 (destruct a as [|? a]; [discriminate|injection E as _ E]). now destruct a.
  - intros a q z E Hq Hq0. unfold star_run in E.
    destruct a as [|? a]; [injection E as E|injection E as _ E].
    2: { do 3 (destruct a as [|? a]; [discriminate|injection E as _ E]). destruct a as [|? a]; [|now destruct a]. injection E as E. now destruct q. }
    destruct q as [|? q]; [discriminate|]. injection E as E1 E2. subst. discriminate.
Qed.
Definition four_sets : pattern := map OneOf [str "12"; str "23"; str "34"; str "14"].
Example C39_case2 : countable default_symtab 4 four_sets /\ rw_count default_symtab (mkRW (text four_sets) 4) 4 = Ret 2%Z.
Proof.
  split; [|vm_compute; reflexivity]. split; [repeat constructor|]. split; [apply below_dec; vm_compute; reflexivity|]. split; [vm_compute; lia|].
  split; [constructor|]. split; [|split; [apply spelling_dec; vm_compute; reflexivity|]].
  - intros a l z c E. unfold four_sets in E. do 4 (destruct a as [|? a]; [injection E as _ E; subst z; intros _ K; exact K|injection E as _ E]). now destruct a.
  - intros a q z E. unfold four_sets in E. do 4 (destruct a as [|? a]; [discriminate|injection E as _ E]). now destruct a.
Qed.

(* ---- what is counted wrongly ---- *)
Lemma anywhere p b r : (exists u v w, r = u ++ v /\ fits default_symtab p u w) -> is_row r -> length r = b -> exists w, fits default_symtab (p ++ [AnyBells]) r w.
Proof.
  intros (u & v & w & -> & F) _ _. exists (w ++ (v ++ [])). apply fits_app. exists u, w, v, (v ++ []). repeat split; [exact F|].
  apply fits_star_inv. exists v, [], []. rewrite app_nil_r. repeat split; constructor.
Qed.
(* every row on five bells has one of 3, 4 and 5 in it, but none is counted *)
Theorem C39_refuted_sets : Card (described default_symtab 5 [AnyBells; OneOf (str "345"); AnyBells]) 120 /\
  rw_count default_symtab (mkRW (text [AnyBells; OneOf (str "345"); AnyBells]) 5) 0 = Ret 0%Z.
Proof.
  split; [|vm_compute; reflexivity]. change 120 with (fact 5). eapply card_ext; [|exact (all_rows 5 default_sym_ok)].
  intros r. split; [|intros (H1 & H2 & _); auto]. intros [HR LR]. split; [exact HR|split; [exact LR|]].
  assert (H : In 4 r). { unfold is_row in HR. rewrite HR, LR. cbn. tauto. }
  apply in_split in H. destruct H as (u & v & ->). change [AnyBells; OneOf (str "345"); AnyBells] with ([AnyBells; OneOf (str "345")] ++ [AnyBells]). unfold matches. cbn iota.
  apply (@anywhere _ 5); auto. exists (u ++ [4]), v, (u ++ []). rewrite <- app_assoc. split; [reflexivity|]. constructor.
  apply fits_one with (chr "5"); [cbn; tauto|reflexivity|constructor].
Qed.
(* every row has a bell in it *)
Theorem C39_refuted_any : Card (described default_symtab 4 [AnyBells; AnyBell; AnyBells]) 24 /\
  rw_count default_symtab (mkRW (text [AnyBells; AnyBell; AnyBells]) 4) 0 = Ret 18446744073709551568%Z.
Proof.
  split; [|vm_compute; reflexivity]. change 24 with (fact 4). eapply card_ext; [|exact (all_rows 4 default_sym_ok)].
  intros r. split; [|intros (H1 & H2 & _); auto]. intros [HR LR]. split; [exact HR|split; [exact LR|]].
  destruct r as [|x r]; [discriminate|]. change [AnyBells; AnyBell; AnyBells] with ([AnyBells; AnyBell] ++ [AnyBells]). unfold matches. cbn iota.
  apply (@anywhere _ 4); auto. exists ([] ++ [x]), r, ([] ++ [x]). split; [reflexivity|]. repeat constructor.
Qed.
Lemma too_wide sym b p : b < width p -> Card (described sym b p) 0.
Proof.
  intros H. apply card_none. intros r (_ & L & w & F). unfold matches in F. destruct (has_star p); [|apply fits_app in F; destruct F as (r1 & w1 & r2 & w2 & -> & -> & F & _)];
    apply fits_len in F; rewrite ?app_length in L; lia.
Qed.
(* more bells than there are *)
Theorem C39_refuted_long : (Card (described default_symtab 4 (repeat AnyBell 5)) 0 /\
    rw_count default_symtab (mkRW (text (repeat AnyBell 5)) 4) 0 = Ret 120%Z).
Proof. split; [apply too_wide; vm_compute; lia|vm_compute; reflexivity]. Qed.
(* the same bell twice *)
Theorem C39_refuted_twice : Card (described default_symtab 4 [Named (chr "1"); Named (chr "1")]) 0 /\
  rw_count default_symtab (mkRW (text [Named (chr "1"); Named (chr "1")]) 4) 0 = Ret 2%Z.
Proof.
  split; [|vm_compute; reflexivity]. apply card_none. intros r D. apply described_desc in D.
  exact (@desc_twice default_symtab 4 [Named (chr "1")] (chr "1") [AnyBells] r eq_refl (or_introl eq_refl) D).
Qed.
(* a choice that is named later *)
Theorem C39_refuted_later : Card (described default_symtab 4 [OneOf (str "12"); Named (chr "1")]) 2 /\
  rw_count default_symtab (mkRW (text [OneOf (str "12"); Named (chr "1")]) 4) 0 = Ret 4%Z.
Proof.
  split; [|vm_compute; reflexivity].
  assert (HC : countable default_symtab 4 [Named (chr "2"); Named (chr "1")]).
  { split; [repeat constructor|]. split; [apply below_dec; vm_compute; reflexivity|]. split; [vm_compute; lia|]. split; [repeat constructor; cbn; intuition discriminate|].
    split; [|split; [apply spelling_dec; vm_compute; reflexivity|]].
    - intros a l z c K. do 2 (destruct a as [|? a]; [discriminate|injection K as _ K]). now destruct a.
    - intros a q z K. do 2 (destruct a as [|? a]; [discriminate|injection K as _ K]). now destruct a. }
  destruct (@C39_listed _ 4 _ default_sym_ok HC ltac:(lia)) as (L & N & I).
  pose proof (@C39_exact _ 4 _ (mkRW (text [Named (chr "2"); Named (chr "1")]) 4) 4 L default_sym_ok HC ltac:(lia) eq_refl (or_introl eq_refl) N I) as E.
  assert (E2 : rw_count default_symtab (mkRW (text [Named (chr "2"); Named (chr "1")]) 4) 4 = Ret 2%Z) by (vm_compute; reflexivity).
  rewrite E2 in E. injection E as E. exists L. split; [exact N|]. split; [|lia].
  intros r. rewrite I. rewrite !described_desc. change (cl [OneOf (str "12"); Named (chr "1")]) with ([] ++ OneOf (str "12") :: [Named (chr "1"); AnyBells]).
  rewrite desc_choice. split.
  - intros D. exists (chr "2"). split; [cbn; tauto|exact D].
  - intros (c & [<-|[<-|[]]] & D); [|exact D]. exfalso. exact (@desc_twice default_symtab 4 [Named (chr "1")] (chr "1") [AnyBells] r eq_refl (or_introl eq_refl) D).
Qed.
(* a bell written in two ways: rows with the eleventh bell first are counted twice *)
Theorem C39_refuted_spelling : exists L, NoDup L /\ (forall r, In r L <-> described default_symtab 12 [OneOf (str "eE")] r) /\
  rw_count default_symtab (mkRW (text [OneOf (str "eE")]) 12) 0 = Ret (2 * Z.of_nat (length L))%Z.
Proof.
  assert (HC : countable default_symtab 12 [Named (chr "E")]).
  { split; [repeat constructor|]. split; [apply below_dec; vm_compute; reflexivity|]. split; [vm_compute; lia|]. split; [repeat constructor; cbn; intuition discriminate|].
    split; [|split; [apply spelling_dec; vm_compute; reflexivity|]].
    - intros a l z c K. do 1 (destruct a as [|? a]; [discriminate|injection K as _ K]). now destruct a.
    - intros a q z K. do 1 (destruct a as [|? a]; [discriminate|injection K as _ K]). now destruct a. }
  destruct (@C39_listed _ 12 _ default_sym_ok HC ltac:(lia)) as (L & N & I).
  pose proof (@C39_exact _ 12 _ (mkRW (text [Named (chr "E")]) 12) 12 L default_sym_ok HC ltac:(lia) eq_refl (or_introl eq_refl) N I) as E.
  assert (E2 : rw_count default_symtab (mkRW (text [Named (chr "E")]) 12) 12 = Ret 39916800%Z) by (vm_compute; reflexivity).
  rewrite E2 in E. injection E as E. exists L. split; [exact N|]. split; [|rewrite <- E; vm_compute; reflexivity].
  intros r. rewrite I. rewrite !described_desc. change (cl [OneOf (str "eE")]) with ([] ++ OneOf (str "eE") :: [AnyBells]).
  rewrite desc_choice. split.
  - intros D. exists (chr "E"). split; [cbn; tauto|exact D].
  - intros (c & [<-|[<-|[]]] & D); [|exact D]. destruct D as (HR & LR & w & F). repeat split; auto. exists w. inversion F as [|c x p r' w' Hx F'| | |]; subst. constructor; [|exact F'].
    vm_compute in Hx |- *. exact Hx.
Qed.
