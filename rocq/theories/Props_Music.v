(* Props_Music.v - property theorems about music patterns. *)
From Verif Require Import Base M_Bell M_Change M_Math M_Row M_Music Spec_Row Spec_Music Spec_Music2
  P_Bell P_Music P_Music2 P_Music3 P_Music4 P_Music5 P_Music6.
Set Implicit Arguments.
Unset Strict Implicit.
Open Scope nat_scope.
Lemma Forall2_impl A B (P Q : A -> B -> Prop) l m : (forall a b, P a b -> Q a b) -> Forall2 P l m -> Forall2 Q l m.
Proof. intros H F. induction F; constructor; auto. Qed.

(* C38: the strings accepted are the texts of patterns, and others are refused *)
Theorem C38_accepts : forall sym s, sym_ok sym ->
  (check_expression sym s = Ret tt <-> exists p, pattern_ok sym p /\ s = text p) /\
  (check_expression sym s = Ret tt \/ check_expression sym s = Throw PatternInvalid).
Proof.
  intros sym s OK. split; [split|].
  - apply (check_parse OK s).
  - intros (p & Hp & ->). now apply text_default_check.
  - unfold check_expression. generalize false as sq. induction s as [|c s IH]; intros sq; cbn [check_expression_from].
    + destruct sq; auto.
    + destruct (is_symbol sym c); [apply IH|]. destruct (eqc c c_any || eqc c c_star); [destruct sq; auto|].
      destruct (eqc c c_open); [destruct sq; auto|]. destruct (eqc c c_close); [|auto]. destruct sq; auto.
Qed.
Example C38_accepts_case : sym_ok default_symtab /\
  check_expression default_symtab (str "*[45]67?") = Ret tt /\
  text [AnyBells; OneOf [chr "4"; chr "5"]; Named (chr "6"); Named (chr "7"); AnyBell] = str "*[45]67?" /\
  check_expression default_symtab (str "*[4*") = Throw PatternInvalid.
Proof. split; [apply default_sym_ok|]. repeat split; vm_compute; reflexivity. Qed.

(* a pattern is added unless it names a bell there is not *)
Theorem C38_add : forall sym b l m p sh sb, sym_ok sym -> history sym b l m -> pattern_ok sym p -> b <> 0 ->
  exists d, md_make sym (text p) sh sb = Ret d /\
    (bells_below sym b p -> exists m', music_push sym m d = Ret m' /\ history sym b (l ++ [(p, sh, sb)]) m') /\
    (~ bells_below sym b p -> music_push sym m d = Throw PatternInvalid).
Proof.
  intros sym b l m p sh sb OK H Hp Hb. destruct (history_holds OK H) as [I _].
  eexists. split.
  { unfold md_make, rw_set. rewrite text_default_check by assumption. reflexivity. }
  split.
  - intros Hbel. destruct (@history_push_total sym b OK l m p sh sb H Hp Hbel) as (d & m' & Ed & Ep & H').
    unfold md_make, rw_set in Ed. rewrite text_default_check in Ed by assumption. cbn in Ed. injection Ed as <-. eauto.
  - intros Hbel. unfold music_push. cbn [md_pat rw_pat]. replace (mu_b m) with b by (destruct I as (E & _); auto).
    assert (E : check_bells sym (text p) b = Throw PatternInvalid); [|now rewrite E].
    unfold check_bells. destruct (Nat.eqb_spec b 0); [lia|].
    assert (G : forall s : list ascii, (forall c, In c s -> is_symbol sym c = true -> forall x, names sym c x -> x < b) \/
      forM s (fun _ c => if is_symbol sym c then x <- read_char sym c ;; if b <=? x then Throw PatternInvalid else Ret tt else Ret tt) tt = Throw PatternInvalid).
    { induction s as [|c s IH]; [left; intros c []|]. cbn [forM]. destruct (is_symbol sym c) eqn:Es.
      - destruct (so_names OK Es) as [x Ex]. rewrite Ex. cbn [bind]. destruct (Nat.leb_spec b x); [right; reflexivity|]. cbn [bind].
        destruct IH as [IH|IH]; [left|right; exact IH]. intros c' [<-|Hc] Hs y Hy; [|eauto]. unfold names in Hy. congruence.
      - cbn [bind]. destruct IH as [IH|IH]; [left|right; exact IH]. intros c' [<-|Hc] Hs y Hy; [congruence|eauto]. }
    destruct (G (text p)) as [K|K]; [|exact K]. exfalso. apply Hbel. intros t c x Ht Hc Hx.
    assert (Hin : In c (text p)).
    { unfold text. apply in_concat. exists (item_text t). split; [now apply in_map|]. destruct t; cbn in Hc |- *; auto; try contradiction.
      right. apply in_or_app. now left. }
    assert (Hs : is_symbol sym c = true).
    { unfold pattern_ok in Hp. rewrite Forall_forall in Hp. specialize (Hp t Ht). destruct t; cbn in Hc, Hp; try contradiction.
      - destruct Hc as [<-|[]]. exact Hp.
      - rewrite Forall_forall in Hp. auto. }
    eapply K; eauto.
Qed.

(* after any history, processing rows counts, for each pattern, the rows that match it at
   handstroke and at backstroke; nothing is left of what was counted before *)
Theorem C38_counts : forall sym b l m, sym_ok sym -> history sym b l m ->
  forall junk rows back, Forall (fun r => length r = b /\ NoDup r) rows ->
  exists m', process_rows junk m rows back = Ret m' /\ length (mu_info m') = length l /\
    forall k p sh sb, nth_error l k = Some (p, sh, sb) -> clean sym b p -> open_ended b p ->
      exists d h bk, nth_error (mu_info m') k = Some d /\ md_pat d = text p /\ md_scoreh d = sh /\ md_scoreb d = sb /\
        tally (fun r => exists w, matches sym p r w) rows back h bk /\
        md_counth d = u32 (Z.of_nat h) /\ md_countb d = u32 (Z.of_nat bk).
Proof.
  intros sym b l m OK H junk rows back Hr. destruct (@history_counts sym b OK l m H junk rows back Hr) as (m' & E & L & K).
  exists m'. split; [exact E|]. split; [exact L|]. intros k p sh sb Hk Hc Ho.
  destruct (K k p sh sb Hk Hc) as (d & h & bk & Hd & Ep & Es & Eb & T & E1 & E2). exists d, h, bk. repeat (split; [assumption|]).
  split; [|auto]. eapply tally_ext; [|exact T]. intros r Hin. rewrite Forall_forall in Hr. destruct (Hr r Hin) as [Lr _].
  split; intros [w M]; exists w; apply (matches1_matches _ w Ho Lr); exact M.
Qed.
(* the same for clean patterns in general, whose last * may need a bell *)
Theorem C38_counts_general : forall sym b l m, sym_ok sym -> history sym b l m ->
  forall junk rows back, Forall (fun r => length r = b /\ NoDup r) rows ->
  exists m', process_rows junk m rows back = Ret m' /\ length (mu_info m') = length l /\
    forall k p sh sb, nth_error l k = Some (p, sh, sb) -> clean sym b p ->
      exists d h bk, nth_error (mu_info m') k = Some d /\ md_pat d = text p /\ md_scoreh d = sh /\ md_scoreb d = sb /\
        tally (fun r => exists w, matches1 sym p r w) rows back h bk /\
        md_counth d = u32 (Z.of_nat h) /\ md_countb d = u32 (Z.of_nat bk).
Proof. intros sym b l m OK. exact (@history_counts sym b OK l m). Qed.

(* one row: what is returned, and the bells that stood for the wildcards *)
Theorem C38_row : forall sym b l m, sym_ok sym -> history sym b l m -> Forall (fun e => clean sym b (fst (fst e))) l ->
  forall junk r back, length r = b -> NoDup r ->
  exists m' ok, process_row junk m r back = Ret (m', ok) /\
    (ok = true <-> exists p sh sb w, In (p, sh, sb) l /\ matches1 sym p r w) /\
    forall k p sh sb d, nth_error l k = Some (p, sh, sb) -> nth_error (mu_info m) k = Some d ->
      exists d', nth_error (mu_info m') k = Some d' /\ md_pat d' = md_pat d /\ md_scoreh d' = sh /\ md_scoreb d' = sb /\
        ((exists w, matches1 sym p r w /\ md_last d' = w /\
           md_counth d' = u32 (md_counth d + if back then 0 else 1) /\ md_countb d' = u32 (md_countb d + if back then 1 else 0)) \/
         ((forall w, ~ matches1 sym p r w) /\ md_last d' = [] /\ md_counth d' = md_counth d /\ md_countb d' = md_countb d)).
Proof. intros sym b l m OK. exact (@history_row sym b OK l m). Qed.
(* how matches1 and matches differ *)
Theorem C38_meaning : forall sym b p r w, length r = b ->
  (matches1 sym p r w -> matches sym p r w) /\ (open_ended b p -> matches sym p r w -> matches1 sym p r w).
Proof. intros sym b p r w Hr. split; [apply fits1_fits|]. intros Ho. now apply (matches1_matches _ w Ho Hr). Qed.

Definition items_ex : pattern := [AnyBells; OneOf [chr "4"; chr "5"]; Named (chr "6")].
Example C38_case : clean default_symtab 6 items_ex /\ open_ended 6 items_ex /\ bells_below default_symtab 6 items_ex /\
  (m <- push_patterns default_symtab [text items_ex] 1 2 (music_make 6) ;;
   m <- process_rows 0 m [[0;1;2;3;4;5]; [0;2;1;3;5;4]; [2;0;1;4;3;5]] false ;;
   Ret (map (fun d => (md_counth d, md_countb d, md_last d)) (mu_info m))) = Ret [(2%Z, 0%Z, [2;0;1;4])] /\
  matches default_symtab items_ex [2;0;1;4;3;5] [2;0;1;4].
Proof.
  split; [|split; [|split; [|split]]].
  - split; [|split; [|split; [|split]]].
    + repeat constructor.
    + intros l xs Hin F. cbn in Hin. destruct Hin as [K|[K|[K|[]]]]; try discriminate. injection K as <-.
      inversion F as [|? x ? xs' N1 F1]; subst. inversion F1 as [|? y ? ys N2 F2]; subst. inversion F2; subst.
      unfold names in *. vm_compute in N1, N2. injection N1 as <-. injection N2 as <-. repeat constructor; cbn; intuition discriminate.
    + cbn. auto.
    + cbn. split; [discriminate|exact I].
    + discriminate.
  - right. right. split; [cbn; lia|]. exists [], (tl items_ex). auto.
  - intros t c x Ht Hc Hx. cbn in Ht. unfold names in Hx.
    destruct Ht as [<-|[<-|[<-|[]]]]; cbn in Hc; [contradiction| |].
    + destruct Hc as [<-|[<-|[]]]; vm_compute in Hx; injection Hx as <-; lia.
    + destruct Hc as [<-|[]]; vm_compute in Hx; injection Hx as <-; lia.
  - vm_compute. reflexivity.
  - change (matches default_symtab items_ex ([2;0;1;4] ++ [3;5]) ([2;0;1;4] ++ [])). unfold matches. cbn [has_star existsb is_star items_ex orb].
    constructor. eapply fits_one with (c := chr "4"); [cbn; auto|reflexivity|]. constructor; [reflexivity|]. constructor.
Qed.

(* runs: every entry counts the rows with that run *)
Theorem C38_runs : forall b n pos dir sh sb, 1 <= n <= b -> b <= 33 ->
  match pos with anywhere => b <= 2 * n + 4 | at_front => True | at_back => n < b end ->
  exists m, make_runs_match default_symtab b n pos dir sh sb = Ret m /\
  forall junk rows back, Forall (fun r => length r = b /\ NoDup r) rows ->
  exists m', process_rows junk m rows back = Ret m' /\
    Forall2 (fun l d => md_scoreh d = sh /\ md_scoreb d = sb /\
      exists h bk, tally (has_run pos l) rows back h bk /\ md_counth d = u32 (Z.of_nat h) /\ md_countb d = u32 (Z.of_nat bk))
      (runs b n dir) (mu_info m').
Proof.
  intros b n pos dir sh sb Hn Hb Hr. destruct (@make_runs_spec b n pos dir sh sb Hb) as (m & Em & H).
  exists m. split; [exact Em|]. intros junk rows back Hrows.
  destruct (@runs_counted b pos (runs b n dir) sh sb m H) with (junk := junk) (rows := rows) (back := back) as (m' & E & F).
  - apply Forall_forall. intros l Hl. apply runs_in in Hl as [Ll Hl]. split; [eapply Forall_impl; [|exact Hl]; cbn; lia|].
    split; [intros ->; cbn in Ll; lia|]. split; [lia|]. unfold run_room. destruct pos; try lia; exact I.
  - exact Hrows.
  - exists m'. split; [exact E|]. eapply Forall2_impl; [|exact F]. cbn. intros l d (_ & K). exact K.
Qed.
Theorem C38_crus : forall b sh sb, b <= 33 ->
  exists m, make_cru_match default_symtab b sh sb = Ret m /\
  forall junk rows back, Forall (fun r => length r = b /\ NoDup r) rows ->
  exists m', process_rows junk m rows back = Ret m' /\
    Forall2 (fun l d => md_scoreh d = sh /\ md_scoreb d = sb /\
      exists h bk, tally (run_last l) rows back h bk /\ md_counth d = u32 (Z.of_nat h) /\ md_countb d = u32 (Z.of_nat bk))
      (crus b) (mu_info m').
Proof.
  intros b sh sb Hb. destruct (@make_cru_spec b sh sb Hb) as (m & Em & H).
  exists m. split; [exact Em|]. intros junk rows back Hrows.
  destruct (@runs_counted b at_back (crus b) sh sb m H) with (junk := junk) (rows := rows) (back := back) as (m' & E & F).
  - unfold crus. destruct (Nat.ltb_spec b 6); [constructor|]. rewrite Forall_map. apply Forall_forall. intros ij Hij.
    assert (fst ij < 6 /\ snd ij < 6) by (cbn in Hij; repeat (destruct Hij as [<-|Hij]; [cbn; lia|]); destruct Hij).
    split; [|split; [discriminate|]].
    + constructor; [lia|]. constructor; [lia|]. apply Forall_forall. intros x Hx. apply in_seq in Hx. lia.
    + cbn [length run_room]. rewrite seq_length. lia.
  - exact Hrows.
  - exists m'. split; [exact E|]. eapply Forall2_impl; [|exact F]. cbn. intros l d (_ & K). exact K.
Qed.
Example C38_runs_case : map (fun l => map S l) (runs 5 4 0) = [[1;2;3;4]; [2;3;4;5]; [4;3;2;1]; [5;4;3;2]] /\
  (m <- make_runs_match default_symtab 6 4 anywhere 0 1 1 ;;
   m <- process_rows 0 m [[0;1;2;3;4;5]; [0;4;3;2;1;5]] false ;; Ret (map (fun d => (md_counth d, md_countb d)) (mu_info m)))
  = Ret [(1,0); (1,0); (1,0); (0,0); (0,1); (0,0)]%Z /\
  map (map S) (crus 8) = [[4;5;7;8]; [4;6;7;8]; [5;4;7;8]; [5;6;7;8]; [6;4;7;8]; [6;5;7;8]].
Proof. split; [|split]; vm_compute; reflexivity. Qed.

(* totals *)
Theorem C38_get_count : forall m s,
  get_count m s = u32 (sumZ (map (fun d => match s with eHandstroke => md_counth d | eBackstroke => md_countb d | eBoth => u32 (md_counth d + md_countb d) end) (mu_info m))).
Proof.
  intros m s. unfold get_count. rewrite fold_u32 by (unfold in_u32; lia). rewrite Z.add_0_l. now destruct s.
Qed.
Theorem C38_get_score : forall m,
  (sumZ (map (fun d => Z.abs (md_counth d * md_scoreh d) + Z.abs (md_countb d * md_scoreb d)) (mu_info m)) <= 2147483647)%Z ->
  get_score m eHandstroke = Ret (sumZ (map (fun d => md_counth d * md_scoreh d)%Z (mu_info m))) /\
  get_score m eBackstroke = Ret (sumZ (map (fun d => md_countb d * md_scoreb d)%Z (mu_info m))) /\
  get_score m eBoth = Ret (sumZ (map (fun d => md_counth d * md_scoreh d + md_countb d * md_scoreb d)%Z (mu_info m))).
Proof.
  intros m. unfold get_score. generalize (mu_info m) as l.
  assert (S32 : forall z, (Z.abs z <= 2147483647)%Z -> s32 z = z).
  { intros z Hz. unfold s32, u32. cbv zeta. change (2 ^ 32)%Z with 4294967296%Z. destruct (Z.leb_spec 0 z).
    - rewrite Z.mod_small by lia. destruct (Z.ltb_spec z 2147483648); lia.
    - replace (z mod 4294967296)%Z with (z + 4294967296)%Z by (rewrite <- (Z.mod_add z 1) by lia; rewrite Z.mod_small; lia).
      destruct (Z.ltb_spec (z + 4294967296) 2147483648); lia. }
  assert (G : forall (w : details -> Z) (s : stroke) l t,
    (forall d, In d l -> md_total d s = w d /\ Z.abs (w d) <= Z.abs (md_counth d * md_scoreh d) + Z.abs (md_countb d * md_scoreb d))%Z ->
    (Z.abs t + sumZ (map (fun d => Z.abs (md_counth d * md_scoreh d) + Z.abs (md_countb d * md_scoreb d)) l) <= 2147483647)%Z ->
    forM l (fun t d => as_int (t + md_total d s)) t = Ret (t + sumZ (map w l))%Z).
  { intros w s l. induction l as [|d l IH]; intros t Hw Hs; cbn [forM map sumZ fold_right].
    - now rewrite Z.add_0_r.
    - cbn [map sumZ fold_right] in Hs. fold (sumZ (map (fun d => Z.abs (md_counth d * md_scoreh d) + Z.abs (md_countb d * md_scoreb d))%Z l)) in Hs.
      destruct (Hw d (or_introl eq_refl)) as [E A].
      assert (P : (0 <= sumZ (map (fun d => Z.abs (md_counth d * md_scoreh d) + Z.abs (md_countb d * md_scoreb d)) l))%Z).
      { clear. induction l as [|d l IH]; cbn; [lia|]. unfold sumZ in IH. lia. }
      rewrite E, as_int_ok by (unfold int_min, int_max; lia). cbn [bind]. rewrite IH; [|intros; apply Hw; now right|lia].
      f_equal. unfold sumZ. lia. }
  intros l Hl.
  assert (B : forall d, In d l -> (Z.abs (md_counth d * md_scoreh d) + Z.abs (md_countb d * md_scoreb d) <= 2147483647)%Z).
  { clear -Hl. assert (P : forall l : list details, (0 <= sumZ (map (fun d => Z.abs (md_counth d * md_scoreh d) + Z.abs (md_countb d * md_scoreb d)) l))%Z).
    { induction l0 as [|d l0 IH]; cbn; [lia|]. unfold sumZ in IH. lia. }
    induction l as [|d l IH]; intros x []; cbn [map sumZ fold_right] in Hl;
      fold (sumZ (map (fun d => Z.abs (md_counth d * md_scoreh d) + Z.abs (md_countb d * md_scoreb d))%Z l)) in Hl; specialize (P l).
    - subst. lia.
    - apply IH; [lia|assumption]. }
  split; [|split].
  - apply (G (fun d => (md_counth d * md_scoreh d)%Z) eHandstroke l 0%Z); [|rewrite Z.abs_0; lia].
    intros d Hd. specialize (B d Hd). cbn. split; [apply S32; lia|lia].
  - apply (G (fun d => (md_countb d * md_scoreb d)%Z) eBackstroke l 0%Z); [|rewrite Z.abs_0; lia].
    intros d Hd. specialize (B d Hd). cbn. split; [apply S32; lia|lia].
  - apply (G (fun d => (md_counth d * md_scoreh d + md_countb d * md_scoreb d)%Z) eBoth l 0%Z); [|rewrite Z.abs_0; lia].
    intros d Hd. specialize (B d Hd). cbn. split; [apply S32; lia|lia].
Qed.
Example C38_score_case :
  (m <- push_patterns default_symtab [str "*56"; str "?2*"] 3 (-1) (music_make 6) ;;
   m <- process_rows 0 m [[0;1;2;3;4;5]; [0;1;3;2;4;5]; [1;0;3;2;4;5]] true ;;
   h <- get_score m eHandstroke ;; b <- get_score m eBackstroke ;; t <- get_score m eBoth ;;
   Ret (h, b, t, get_count m eBoth)) = Ret (6%Z, (-3)%Z, 3%Z, 5%Z).
Proof. vm_compute. reflexivity. Qed.

(* ---- what does not hold; junk is the byte found after the row ---- *)
Lemma all_bytes A (f : nat -> A) x : map f (seq 0 256) = repeat x 256 -> forall j, j < 256 -> f j = x.
Proof.
  intros E j Hj. assert (K : In (f j) (repeat x 256)) by (rewrite <- E; apply in_map, in_seq; lia).
  now apply repeat_spec in K.
Qed.
Definition counts_of (b : nat) (s : list ascii) (r : row) (junk : nat) : outcome (list (Z * Z)) :=
  m <- push_patterns default_symtab [s] 1 1 (music_make b) ;; m <- process_rows junk m [r] false ;;
  Ret (map (fun d => (md_counth d, md_countb d)) (mu_info m)).
(* a * before all the bells never stands for none, though it does in the meaning *)
Theorem C38_refuted_whole_row : forall junk, junk < 256 -> counts_of 6 (str "*123456") [0;1;2;3;4;5] junk = Ret [(0%Z, 0%Z)] /\
  matches default_symtab (AnyBells :: bells_pattern [0;1;2;3;4;5]) [0;1;2;3;4;5] [].
Proof.
  intros junk Hj. split; [revert junk Hj; apply all_bytes; vm_compute; reflexivity|].
  change (fits default_symtab (AnyBells :: bells_pattern [0;1;2;3;4;5]) ([] ++ [0;1;2;3;4;5]) ([] ++ [])). constructor.
  rewrite <- (app_nil_r (bells_pattern _)). apply fits_bells; [repeat constructor|]. exists []. split; [reflexivity|constructor].
Qed.
(* a short run between two *s is not found far from the front *)
Theorem C38_refuted_far_run : forall junk, junk < 256 ->
  counts_of 12 (str "*123*") [3;4;5;6;7;8;9;10;11;0;1;2] junk = Ret [(0%Z, 0%Z)] /\
  run_anywhere [0;1;2] [3;4;5;6;7;8;9;10;11;0;1;2].
Proof. intros junk Hj. split; [revert junk Hj; apply all_bytes; vm_compute; reflexivity|]. exists [3;4;5;6;7;8;9;10;11], []. reflexivity. Qed.
(* a row may be counted more than once *)
Theorem C38_refuted_once : forall junk, junk < 256 ->
  counts_of 5 (str "????[55]") [0;1;2;3;4] junk = Ret [(2%Z, 0%Z)] /\ counts_of 6 (str "*?*") [0;1;2;3;4;5] junk = Ret [(6%Z, 0%Z)].
Proof. intros junk Hj. split; revert junk Hj; apply all_bytes; vm_compute; reflexivity. Qed.
(* a pattern longer than the rows matches with a bell from outside the row *)
Theorem C38_refuted_too_long : forall junk, junk < 256 ->
  counts_of 6 (str "???????") [0;1;2;3;4;5] junk = Ret [(1%Z, 0%Z)].
Proof. intros junk Hj. revert junk Hj. apply all_bytes. vm_compute. reflexivity. Qed.
(* clear leaves the patterns in the list, without ever counting them again *)
Theorem C38_refuted_clear : forall junk, junk < 256 ->
  (m <- push_patterns default_symtab [str "*56"] 1 1 (music_make 6) ;; let m := music_clear m 0 in
   m <- process_rows junk m [[0;1;2;3;4;5]] false ;; Ret (map (fun d => (md_pat d, md_counth d)) (mu_info m))) = Ret [(str "*56", 0%Z)].
Proof. intros junk Hj. revert junk Hj. apply all_bytes. vm_compute. reflexivity. Qed.
(* set_bells does not rebuild the tree: the pattern for 6 bells stays anchored at place 6 *)
Theorem C38_refuted_set_bells : forall junk, junk < 256 ->
  (m <- push_patterns default_symtab [str "*56"] 1 1 (music_make 6) ;; m <- music_set_bells default_symtab m 8 ;;
   m <- process_rows junk m [[6;7;0;1;2;3;4;5]; [0;1;2;3;4;5;6;7]] false ;;
   Ret (mu_b m, map (fun d => (md_counth d, md_countb d)) (mu_info m))) = Ret (8, [(0%Z, 1%Z)]).
Proof. intros junk Hj. revert junk Hj. apply all_bytes. vm_compute. reflexivity. Qed.
