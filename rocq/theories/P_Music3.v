(* P_Music3.v - a well-anchored pattern is matched in at most one way; counting. *)
From Verif Require Import Base M_Bell M_Change M_Math M_Row M_Music Spec_Row Spec_Music Spec_Music2 P_Bell P_Music P_Music2.
Set Implicit Arguments.
Unset Strict Implicit.
Open Scope nat_scope.

Lemma concat_le1 A B (f : A -> list B) l : NoDup l -> (forall x, In x l -> length (f x) <= 1) ->
  (forall x y, In x l -> In y l -> f x <> [] -> f y <> [] -> x = y) -> length (concat (map f l)) <= 1.
Proof.
  induction 1 as [|x l Hx Hnd IH]; intros H1 H2; cbn [map concat]; [cbn; lia|].
  rewrite app_length.
  destruct (f x) as [|y t] eqn:E.
  - cbn. apply IH; intros; [apply H1|apply H2]; cbn; auto.
  - assert (G : forall l', incl l' l -> concat (map f l') = []).
    { induction l' as [|z l' IHl]; intros Hi; [reflexivity|]. cbn [map concat].
      rewrite IHl by (intros a Ha; apply Hi; now right). rewrite app_nil_r.
      destruct (f z) as [|y' t'] eqn:Ez; [reflexivity|]. exfalso. apply Hx.
      rewrite (H2 x z); [apply Hi; now left|now left|right; apply Hi; now left| |]; congruence. }
    rewrite (G l (incl_refl l)). cbn [length]. pose proof (H1 x (or_introl eq_refl)) as K. rewrite E in K. cbn in *. lia.
Qed.

Section Unique.
Variables (sym : symtab) (b junk : nat) (r : row).
Hypothesis OK : sym_ok sym.
Hypothesis Hr : length r = b.
Hypothesis Hnd : NoDup r.
Notation ways := (ways sym b junk r).
Notation fits1 := (fits1 sym).
Notation bell_of := (bell_of sym).

Lemma anchored_named p : anchored p false -> has_star p = true ->
  exists c o, forall s u, fits1 p s u -> exists x, names sym c x /\ nth_error s o = Some x.
Proof.
  induction p as [|t p IH]; cbn [has_star existsb]; intros Ha Hs; [discriminate|].
  destruct t as [c| |l|]; cbn [is_star orb anchored] in *.
  - exists c, 0. intros s u F. inversion F; subst. eexists. split; [eassumption|reflexivity].
  - destruct (IH Ha Hs) as (c & o & H). exists c, (S o). intros s u F. inversion F; subst. cbn. eauto.
  - destruct (IH Ha Hs) as (c & o & H). exists c, (S o). intros s u F. inversion F; subst. cbn. eauto.
  - destruct Ha as [K _]. discriminate.
Qed.
Lemma anchored_weaken p : anchored p false -> anchored p true.
Proof. induction p as [|[c| |l|] p IH]; cbn; auto. tauto. Qed.

Lemma ways_unique p : pattern_ok sym p -> choices_distinct sym p -> forall seen, anchored p seen ->
  forall pos w, pos <= b -> (has_star p = false -> pos + width p <= b) -> length (ways p pos w) <= 1.
Proof using OK Hr Hnd.
  induction 1 as [|t p Ht Hok IH]; intros Hd seen Ha pos w Hpos Hw; [cbn; lia|].
  assert (Bf : (b <? pos) = false) by (apply Nat.ltb_ge; lia). cbn [P_Music.ways]. rewrite Bf.
  assert (Hd' : choices_distinct sym p) by (intros l xs Hl; apply Hd; now right).
  assert (Nx : is_star t = false -> forall seen', anchored p seen' -> forall w, length (ways p (S pos) w) <= 1).
  { intros Ns seen' Ha' w'. destruct p as [|t' p']; [cbn; lia|].
    destruct (Nat.le_gt_cases (S pos) b) as [L|L].
    - apply (IH Hd' seen' Ha'); auto. intros Hs. rewrite width_cons, Ns in Hw. unfold has_star in *. cbn [existsb] in *.
      rewrite Ns in Hw. specialize (Hw Hs). rewrite width_cons in *. lia.
    - rewrite ways_over; [cbn; lia|discriminate|exact L]. }
  destruct t as [c| |l|]; cbn [item_ok anchored] in *.
  - destruct (bell_of c =? rget junk r pos); [eapply Nx; eauto|cbn; lia].
  - eapply Nx; eauto.
  - assert (Hnl : NoDup (map bell_of l)).
    { apply (Hd l); [now left|]. clear - Ht OK. induction Ht; cbn; constructor; auto. now apply names_bell_of. }
    apply concat_le1.
    + eapply NoDup_map_inv; eauto.
    + intros c _. destruct (bell_of c =? rget junk r pos); [eapply Nx; eauto|cbn; lia].
    + intros c c' Hc Hc' E E'. destruct (Nat.eqb_spec (bell_of c) (rget junk r pos)) as [K|]; [|congruence].
      destruct (Nat.eqb_spec (bell_of c') (rget junk r pos)) as [K'|]; [|congruence].
      assert (G : forall l, NoDup (map bell_of l) -> In c l -> In c' l -> bell_of c = bell_of c' -> c = c').
      { clear. induction l as [|x l IH]; cbn; intros H Hc Hc' E; [easy|]. inversion H; subst.
        destruct Hc as [->|Hc], Hc' as [->|Hc']; auto.
        - exfalso. apply H2. rewrite E. now apply in_map.
        - exfalso. apply H2. rewrite <- E. now apply in_map. }
      apply (G l); auto. congruence.
  - destruct Ha as [_ Ha]. destruct (Nat.eqb_spec (length p) 0) as [Ep|Ep]; [cbn; lia|].
    destruct (has_star p) eqn:Hs.
    + destruct (anchored_named Ha Hs) as (c & o & Hc).
      apply concat_le1.
      * apply seq_NoDup.
      * intros k _. destruct (Nat.le_gt_cases (pos + k) b) as [L|L]; [apply (IH Hd' false Ha); auto; congruence|].
        rewrite ways_over; [cbn; lia|now apply has_star_ne|exact L].
      * intros k k' _ _ N N'.
        assert (G : forall k, ways p (pos + k) (w ++ taken junk r pos k) <> [] -> exists x, names sym c x /\ nth_error r (pos + k + o) = Some x).
        { intros i Ni. destruct (ways p (pos + i) (w ++ taken junk r pos i)) as [|v t] eqn:E; [congruence|].
          assert (Hv : In v (ways p (pos + i) (w ++ taken junk r pos i))) by (rewrite E; now left).
          assert (L : pos + i <= b) by (eapply in_ways_pos; [|exact Hv]; now apply has_star_ne).
          destruct (ways_sound OK Hr Hok L ltac:(congruence) Hv) as (u & _ & F). unfold hat in F. rewrite Hs in F.
          destruct (Hc _ _ F) as (x & Hx & Hn). exists x. split; [exact Hx|].
          assert (Gs : forall (l : list nat) m j, nth_error (skipn m l) j = nth_error l (m + j)).
          { clear. induction l as [|y l IHl]; intros [|m] j; cbn; auto. now destruct j. }
          rewrite Gs in Hn. exact Hn. }
        destruct (G k N) as (x & Hx & Hn). destruct (G k' N') as (x' & Hx' & Hn').
        assert (x = x') by (unfold names in *; congruence). subst x'.
        assert (pos + k + o = pos + k' + o); [|lia].
        eapply NoDup_nth_error; [exact Hnd| |congruence].
        apply nth_error_Some. congruence.
    + destruct (Nat.leb_spec (pos + width p + 1) b); [|cbn; lia].
      apply (IH Hd' false Ha); lia.
Qed.
End Unique.

(* ---- counting the hits ---- *)
Definition hits_of (k : nat) (ev : list (nat * list nat)) : nat := length (filter (fun e => fst e =? k) ev).

Definition clear_last (d : details) : details := mkMD (md_pat d) (md_counth d) (md_countb d) (md_scoreh d) (md_scoreb d) [].
Definition same_desc (d d' : details) : Prop := md_pat d' = md_pat d /\ md_scoreh d' = md_scoreh d /\ md_scoreb d' = md_scoreb d.

Lemma do_hit_total back res e : fst e < length res -> exists d, nth_error res (fst e) = Some d /\
  do_hit back res e = Ret (upd res (fst e) (md_hit back (snd e) d)).
Proof.
  intros H. unfold do_hit, hit. destruct (nth_error res (fst e)) as [d|] eqn:E; [|apply nth_error_None in E; lia].
  exists d. split; [reflexivity|]. unfold vget. rewrite E. cbn [bind]. now rewrite vset_lt.
Qed.
Lemma nth_error_upd A (v : list A) i a j : i < length v ->
  nth_error (upd v i a) j = if j =? i then Some a else nth_error v j.
Proof.
  intros H. unfold upd. destruct (Nat.eqb_spec j i) as [->|N].
  - rewrite nth_error_app2 by (rewrite firstn_length; lia). rewrite firstn_length.
    replace (i - Nat.min i (length v)) with 0 by lia. reflexivity.
  - destruct (Nat.lt_ge_cases j i).
    + rewrite nth_error_app1 by (rewrite firstn_length; lia). clear -H0. revert j i H0. induction v as [|x v IH]; intros j i L; [now destruct i, j|].
      destruct i; [lia|]. destruct j; [reflexivity|]. cbn. apply IH. lia.
    + rewrite nth_error_app2 by (rewrite firstn_length; lia). rewrite firstn_length.
      replace (j - Nat.min i (length v)) with (S (j - i - 1)) by lia. cbn [nth_error].
      assert (G : forall (l : list A) m j, nth_error (skipn m l) j = nth_error l (m + j)).
      { clear. induction l as [|y l IHl]; intros [|m] j; cbn; auto. now destruct j. }
      rewrite G. f_equal. lia.
Qed.

Definition in_u32 (z : Z) : Prop := (0 <= z < 4294967296)%Z.
Lemma u32_range z : in_u32 (u32 z).
Proof. unfold in_u32, u32. apply Z.mod_pos_bound. lia. Qed.
Lemma u32_id z : in_u32 z -> u32 z = z.
Proof. unfold in_u32, u32. intros. now apply Z.mod_small. Qed.
Lemma u32_add a c : u32 (u32 a + c) = u32 (a + c).
Proof. unfold u32. now rewrite Zplus_mod_idemp_l. Qed.

(* d' is d after n hits *)
Definition counted (back : bool) (n : nat) (d d' : details) : Prop :=
  same_desc d d' /\
  md_counth d' = (if back then md_counth d else u32 (md_counth d + Z.of_nat n))%Z /\
  md_countb d' = (if back then u32 (md_countb d + Z.of_nat n) else md_countb d)%Z.
Definition ranged (d : details) : Prop := in_u32 (md_counth d) /\ in_u32 (md_countb d).

Lemma counted_0 back d : ranged d -> counted back 0 d d.
Proof.
  intros [H1 H2]. split; [repeat split|]. cbn [Z.of_nat]. rewrite !Z.add_0_r, !u32_id by assumption.
  now destruct back.
Qed.
Lemma counted_hit back n w d d' : counted back n d d' -> counted back (n + 1) d (md_hit back w d').
Proof.
  intros ((E1 & E2 & E3) & H1 & H2). unfold counted. rewrite Nat2Z.inj_add, !Z.add_assoc.
  destruct back; cbn [md_hit]; (split; [repeat split; cbn; assumption|]); cbn; rewrite H1, H2; split; try reflexivity;
  now rewrite u32_add.
Qed.
Lemma counted_ranged back n d d' : ranged d -> counted back n d d' -> ranged d'.
Proof. intros [H1 H2] (_ & E1 & E2). split; rewrite ?E1, ?E2; destruct back; auto using u32_range. Qed.

Lemma hits_of_app k l m : hits_of k (l ++ m) = hits_of k l + hits_of k m.
Proof. unfold hits_of. now rewrite filter_app, app_length. Qed.
Lemma hits_of_perm k l m : Permutation l m -> hits_of k l = hits_of k m.
Proof.
  unfold hits_of. induction 1; cbn; auto; try lia.
  - destruct (fst x =? k); cbn; lia.
  - destruct (fst x =? k), (fst y =? k); cbn; lia.
Qed.

Lemma run_hits back res ev : Forall (fun e => fst e < length res) ev -> Forall ranged res ->
  exists res', forM ev (do_hit back) res = Ret res' /\ length res' = length res /\ Forall ranged res' /\
  forall k d, nth_error res k = Some d -> exists d', nth_error res' k = Some d' /\ counted back (hits_of k ev) d d' /\
    (hits_of k ev = 0 -> md_last d' = md_last d) /\
    (forall e l, filter (fun e => fst e =? k) ev = l ++ [e] -> md_last d' = snd e).
Proof.
  intros Hev Hrg. induction ev as [|e ev IH] using rev_ind.
  - exists res. split; [reflexivity|]. split; [reflexivity|]. split; [exact Hrg|]. intros k d Hd. exists d.
    split; [exact Hd|]. split.
    + apply counted_0. rewrite Forall_forall in Hrg. apply Hrg. eapply nth_error_In; eauto.
    + split; [reflexivity|]. cbn. intros e l K. destruct l; discriminate.
  - apply Forall_app in Hev as [Hev He]. inversion He as [|? ? Hlt _]; subst.
    destruct (IH Hev) as (res1 & E1 & L1 & R1 & K1). clear IH.
    rewrite forM_app, E1. cbn [bind forM].
    destruct (@do_hit_total back res1 e) as (d1 & Hd1 & E2); [lia|]. rewrite E2. cbn [bind].
    exists (upd res1 (fst e) (md_hit back (snd e) d1)). split; [reflexivity|].
    assert (Hl1 : fst e < length res1) by lia.
    split; [rewrite upd_length by lia; exact L1|].
    split.
    { apply Forall_forall. intros d Hd. apply In_nth_error in Hd as [j Hj]. rewrite nth_error_upd in Hj by exact Hl1.
      rewrite Forall_forall in R1. destruct (j =? fst e).
      - injection Hj as <-. assert (ranged d1) as [A B] by (apply R1; eapply nth_error_In; eauto).
        destruct back; cbn; split; cbn; auto using u32_range.
      - apply R1. eapply nth_error_In; eauto. }
    intros k d Hd. destruct (K1 k d Hd) as (d' & Hd' & C & Z0 & Lst). rewrite nth_error_upd by exact Hl1.
    assert (H1 : hits_of k [e] = if fst e =? k then 1 else 0) by (unfold hits_of; cbn; now destruct (fst e =? k)).
    rewrite hits_of_app, filter_app, H1. cbn [filter]. rewrite (Nat.eqb_sym k).
    destruct (Nat.eqb_spec (fst e) k) as [Ek|Ek].
    + subst k. rewrite Hd1 in Hd'. injection Hd' as <-. eexists. split; [reflexivity|]. split; [now apply counted_hit|].
      split; [lia|]. intros e' l K. apply app_inj_tail in K as [_ <-]. destruct back; reflexivity.
    + exists d'. rewrite !Nat.add_0_r, app_nil_r. auto.
Qed.

(* ---- a music object and the patterns in it ---- *)
Definition pats_events (sym : symtab) (b junk : nat) (r : row) (ps : list pattern) : list (nat * list nat) :=
  concat (map (fun kp => map (pair (fst kp)) (ways sym b junk r (snd kp) 0 [])) (combine (seq 0 (length ps)) ps)).

Definition holds (sym : symtab) (b : nat) (ps : list pattern) (m : music) : Prop :=
  mu_b m = b /\ length (mu_info m) = length ps /\ Forall ranged (mu_info m) /\
  (forall k p d, nth_error ps k = Some p -> nth_error (mu_info m) k = Some d -> md_pat d = text p) /\
  forall junk r, Permutation (events junk r (mu_top m) 0 []) (pats_events sym b junk r ps).

Lemma pats_events_snoc sym b junk r ps p :
  pats_events sym b junk r (ps ++ [p]) = pats_events sym b junk r ps ++ map (pair (length ps)) (ways sym b junk r p 0 []).
Proof.
  unfold pats_events. rewrite app_length. cbn [length]. rewrite seq_app. cbn [seq Nat.add].
  assert (G : forall (A B : Type) (l1 l1' : list A) (l2 l2' : list B), length l1 = length l2 -> combine (l1 ++ l1') (l2 ++ l2') = combine l1 l2 ++ combine l1' l2').
  { clear. induction l1; destruct l2; cbn; intros; try lia; auto. f_equal. apply IHl1. lia. }
  rewrite G by (now rewrite seq_length). rewrite map_app, concat_app. cbn. now rewrite app_nil_r.
Qed.

Lemma hits_of_pairs k k' (l : list (list nat)) : hits_of k (map (pair k') l) = if k' =? k then length l else 0.
Proof.
  unfold hits_of. induction l as [|x l IH]; cbn; [now destruct (k' =? k)|]. destruct (k' =? k) eqn:E; cbn; [now rewrite IH|exact IH].
Qed.
Lemma filter_pairs k k' (l : list (list nat)) : filter (fun e : nat * list nat => fst e =? k) (map (pair k') l) = if k' =? k then map (pair k') l else [].
Proof. induction l as [|x l IH]; cbn; [now destruct (k' =? k)|]. destruct (k' =? k) eqn:E; cbn; [now rewrite IH|exact IH]. Qed.

Lemma filter_pats_events sym b junk r ps k p : nth_error ps k = Some p ->
  filter (fun e => fst e =? k) (pats_events sym b junk r ps) = map (pair k) (ways sym b junk r p 0 []).
Proof.
  revert k p. induction ps as [|q ps IH] using rev_ind; intros k p Hp; [destruct k; discriminate|].
  rewrite pats_events_snoc, filter_app, filter_pairs.
  destruct (Nat.eqb_spec (length ps) k) as [E|E].
  - subst k. rewrite nth_error_app2, Nat.sub_diag in Hp by lia. injection Hp as ->.
    assert (Gn : forall l, (forall e, In e l -> fst e < length ps) -> filter (fun e : nat * list nat => fst e =? length ps) l = []).
    { clear. induction l as [|e l IH]; intros H; [reflexivity|]. cbn. destruct (Nat.eqb_spec (fst e) (length ps)) as [E|].
      - specialize (H e (or_introl eq_refl)). lia.
      - apply IH. intros e' He'. apply H. now right. }
    rewrite Gn; [reflexivity|]. intros e He. unfold pats_events in He. apply in_concat in He as (l & Hl & He).
    apply in_map_iff in Hl as ([k q] & <- & Hc). apply in_map_iff in He as (w & <- & _). cbn.
    apply in_combine_l in Hc. apply in_seq in Hc. lia.
  - assert (k < length ps).
    { assert (k < length (ps ++ [q])) by (apply nth_error_Some; congruence). rewrite app_length in H. cbn in H. lia. }
    rewrite nth_error_app1 in Hp by lia. rewrite app_nil_r. now apply IH.
Qed.
Lemma pats_events_lt sym b junk r ps : Forall (fun e => fst e < length ps) (pats_events sym b junk r ps).
Proof.
  apply Forall_forall. intros e He. unfold pats_events in He. apply in_concat in He as (l & Hl & He).
  apply in_map_iff in Hl as ([k q] & <- & Hc). apply in_map_iff in He as (w & <- & _). cbn.
  apply in_combine_l in Hc. apply in_seq in Hc. lia.
Qed.

Lemma text_default_check sym : sym_ok sym -> forall p, pattern_ok sym p -> check_expression sym (text p) = Ret tt.
Proof.
  intros OK p Hok. unfold check_expression. induction Hok as [|t p Ht Hok IH]; [reflexivity|]. rewrite text_cons.
  destruct t as [c| |l|]; cbn [item_text item_ok] in *.
  - cbn [app check_expression_from]. now rewrite Ht.
  - change (chr "?") with c_any. cbn [app check_expression_from]. rewrite (so_any OK). exact IH.
  - change (chr "[") with c_open. change (chr "]") with c_close. rewrite <- app_comm_cons, <- app_assoc. cbn [check_expression_from].
    rewrite (so_open OK). change (eqc c_open c_any) with false. change (eqc c_open c_star) with false. change (eqc c_open c_open) with true. cbn [orb].
    induction Ht as [|c l Hc _ IHl]; cbn [app check_expression_from].
    + rewrite (so_close OK). change (eqc c_close c_any) with false. change (eqc c_close c_star) with false. change (eqc c_close c_open) with false.
      change (eqc c_close c_close) with true. cbn [orb]. exact IH.
    + rewrite Hc. apply IHl.
  - change (chr "*") with c_star. cbn [app check_expression_from]. rewrite (so_star OK). change (eqc c_star c_any) with false.
    change (eqc c_star c_star) with true. exact IH.
Qed.

Lemma push_holds sym b ps m p sh sb m' d : sym_ok sym -> holds sym b ps m -> pattern_ok sym p ->
  md_make sym (text p) sh sb = Ret d -> music_push sym m d = Ret m' -> holds sym b (ps ++ [p]) m'.
Proof.
  intros OK (Eb & Elen & Hrg & Hpat & Hev) Hok Hd Hpush.
  unfold md_make, rw_set in Hd. apply bind_ret_inv in Hd as (rw & Erw & Hd). injection Hd as <-.
  apply bind_ret_inv in Erw as (? & _ & Erw). apply bind_ret_inv in Erw as (? & _ & Erw). injection Erw as <-.
  cbn [rw_pat] in *. unfold music_push in Hpush. cbn [md_pat] in Hpush.
  apply bind_ret_inv in Hpush as (? & _ & Hpush). apply bind_ret_inv in Hpush as (top & Etop & Hpush). injection Hpush as <-.
  rewrite Eb in *. unfold holds. cbn [mu_b mu_info mu_top]. split; [reflexivity|]. rewrite !app_length, Elen. split; [reflexivity|].
  split. { apply Forall_app. split; [exact Hrg|]. constructor; [|constructor]. split; cbn; unfold in_u32; lia. }
  split.
  { intros k q d Hq Hk. destruct (Nat.lt_ge_cases k (length ps)).
    - rewrite nth_error_app1 in Hq by lia. rewrite nth_error_app1 in Hk by lia. eapply Hpat; eauto.
    - rewrite nth_error_app2 in Hq by lia. rewrite nth_error_app2 in Hk by lia. rewrite Elen in Hk.
      destruct (k - length ps) as [|j]; cbn in Hq, Hk; [|now destruct j]. injection Hq as <-. injection Hk as <-. reflexivity. }
  intros junk r. rewrite pats_events_snoc.
  rewrite app_length, Elen in Etop. cbn [length] in Etop. replace (length ps + 1 - 1) with (length ps) in Etop by lia.
  destruct (@add_spec sym b junk r OK (length ps) (add_fuel b (text p)) p 0 (mu_top m) Hok) as (nd' & E & P).
  { unfold add_fuel. lia. }
  rewrite E in Etop. injection Etop as <-. rewrite (P []). now apply Permutation_app_tail.
Qed.

Lemma bells_below_check sym b p : sym_ok sym -> pattern_ok sym p -> bells_below sym b p -> check_bells sym (text p) b = Ret tt.
Proof.
  intros OK Hok Hb. unfold check_bells. destruct (b =? 0); [reflexivity|].
  assert (G : forall s, (forall c, In c s -> is_symbol sym c = true -> exists x, names sym c x /\ x < b) ->
    forM s (fun _ c => if is_symbol sym c then x <- read_char sym c ;; if b <=? x then Throw PatternInvalid else Ret tt else Ret tt) tt = Ret tt).
  { induction s as [|c s IH]; intros H; [reflexivity|]. cbn [forM].
    destruct (is_symbol sym c) eqn:Es.
    - destruct (H c (or_introl eq_refl) Es) as (x & Hx & L). unfold names in Hx. rewrite Hx. cbn [bind].
      destruct (Nat.leb_spec b x); [lia|]. cbn [bind]. apply IH. intros; apply H; [now right|assumption].
    - cbn [bind]. apply IH. intros; apply H; [now right|assumption]. }
  apply G. intros c Hc Hs. unfold text in Hc. apply in_concat in Hc as (l & Hl & Hc). apply in_map_iff in Hl as (t & <- & Ht).
  destruct (so_names OK Hs) as [x Hx]. exists x. split; [exact Hx|].
  apply (Hb t c x Ht); [|exact Hx].
  destruct t as [c'| |l|]; cbn [item_text named_in] in *.
  - exact Hc.
  - destruct Hc as [<-|[]]. pose proof (so_any OK) as K. unfold c_any in K. congruence.
  - destruct Hc as [<-|Hc]; [pose proof (so_open OK) as K; unfold c_open in K; congruence|].
    apply in_app_or in Hc as [Hc|[<-|[]]]; [exact Hc|]. pose proof (so_close OK) as K; unfold c_close in K; congruence.
  - destruct Hc as [<-|[]]. pose proof (so_star OK) as K. unfold c_star in K. congruence.
Qed.

Lemma push_total sym b ps m p sh sb : sym_ok sym -> holds sym b ps m -> pattern_ok sym p -> bells_below sym b p ->
  exists d m', md_make sym (text p) sh sb = Ret d /\ music_push sym m d = Ret m'.
Proof.
  intros OK (Eb & _) Hok Hb. exists (mkMD (text p) 0 0 sh sb []).
  destruct (@add_spec sym b 0 [] OK (length (mu_info m)) (add_fuel b (text p)) p 0 (mu_top m) Hok) as (nd' & E & _).
  { unfold add_fuel. lia. }
  eexists. split.
  - unfold md_make, rw_set. rewrite text_default_check by assumption. reflexivity.
  - unfold music_push. cbn [md_pat]. rewrite Eb, bells_below_check by assumption. cbn [bind].
    rewrite app_length. cbn [length]. replace (length (mu_info m) + 1 - 1) with (length (mu_info m)) by lia.
    rewrite E. reflexivity.
Qed.

(* ---- one row ---- *)
Notation good := clean.

Lemma good_ways sym b junk r p : sym_ok sym -> good sym b p -> length r = b -> NoDup r ->
  (ways sym b junk r p 0 [] = [] /\ (forall w, ~ matches1 sym p r w)) \/
  (exists w, ways sym b junk r p 0 [] = [w] /\ forall w', matches1 sym p r w' <-> w' = w).
Proof.
  intros OK (Hok & Hcd & Ha & Hre & Hw) Hr Hnd.
  pose proof (@ways_unique sym b junk r OK Hr Hnd p Hok Hcd true Ha 0 [] ltac:(lia) Hw) as U.
  assert (S1 : forall v, In v (ways sym b junk r p 0 []) -> matches1 sym p r v).
  { intros v Hv. destruct (@ways_sound sym b junk r OK Hr p Hok 0 [] v ltac:(lia) Hw Hv) as (u & -> & F). exact F. }
  assert (S2 : forall v, matches1 sym p r v -> In v (ways sym b junk r p 0 [])).
  { intros v F. exact (@ways_complete sym b junk r OK Hr p Hok Hre 0 [] v ltac:(lia) F). }
  destruct (ways sym b junk r p 0 []) as [|w [|w2 l]].
  - left. split; [reflexivity|]. intros w F. apply (S2 w F).
  - right. exists w. split; [reflexivity|]. intros w'. split.
    + intros F. destruct (S2 _ F) as [->|[]]. reflexivity.
    + intros ->. apply S1. now left.
  - cbn in U. lia.
Qed.

Lemma process_row_spec sym b ps m junk r back : sym_ok sym -> holds sym b ps m ->
  exists m' ok, process_row junk m r back = Ret (m', ok) /\ holds sym b ps m' /\
    ok = any_ev (pats_events sym b junk r ps) /\
    forall k p d, nth_error ps k = Some p -> nth_error (mu_info m) k = Some d ->
      exists d', nth_error (mu_info m') k = Some d' /\ counted back (length (ways sym b junk r p 0 [])) d d' /\
        (forall w, ways sym b junk r p 0 [] = [w] -> md_last d' = w) /\ (ways sym b junk r p 0 [] = [] -> md_last d' = []).
Proof.
  intros OK (Eb & Elen & Hrg & Hpat & Hev).
  unfold process_row. fold clear_last. set (info := map clear_last (mu_info m)).
  rewrite (@match_events junk r back _ (mu_top m) (le_n _)).
  pose proof (Hev junk r) as P.
  assert (Hlen : length info = length ps) by (unfold info; rewrite map_length; exact Elen).
  assert (Hlt : Forall (fun e => fst e < length info) (events junk r (mu_top m) 0 [])).
  { rewrite Hlen. eapply Permutation_Forall; [symmetry; exact P|]. apply pats_events_lt. }
  assert (Hrg' : Forall ranged info).
  { unfold info. rewrite Forall_map. eapply Forall_impl; [|exact Hrg]. intros d [A B]. split; assumption. }
  destruct (run_hits back Hlt Hrg') as (res' & E & L & R & K). rewrite E. cbn [bind].
  eexists. eexists. split; [reflexivity|].
  assert (Hk : forall k p d, nth_error ps k = Some p -> nth_error (mu_info m) k = Some d ->
      exists d', nth_error res' k = Some d' /\ counted back (length (ways sym b junk r p 0 [])) d d' /\
        (forall w, ways sym b junk r p 0 [] = [w] -> md_last d' = w) /\ (ways sym b junk r p 0 [] = [] -> md_last d' = [])).
  { intros k p d Hp Hd.
    assert (Hi : nth_error info k = Some (clear_last d)) by (unfold info; now apply map_nth_error).
    destruct (K k _ Hi) as (d' & Hd' & C & Z0 & Lst). exists d'. split; [exact Hd'|].
    assert (Hf : Permutation (filter (fun e => fst e =? k) (events junk r (mu_top m) 0 [])) (map (pair k) (ways sym b junk r p 0 []))).
    { rewrite <- (@filter_pats_events sym b junk r ps k p Hp). clear -P.
      induction P; cbn; auto.
      - destruct (fst x =? k); auto.
      - destruct (fst x =? k), (fst y =? k); auto. apply perm_swap.
      - etransitivity; eauto. }
    assert (Hh : hits_of k (events junk r (mu_top m) 0 []) = length (ways sym b junk r p 0 [])).
    { unfold hits_of. rewrite (Permutation_length Hf). now rewrite map_length. }
    rewrite Hh in *. split; [|split].
    - destruct C as ((A1 & A2 & A3) & B1 & B2). split; [repeat split; assumption|]. split; assumption.
    - intros w Hw. rewrite Hw in Hf. cbn in Hf. apply Permutation_sym, Permutation_length_1_inv in Hf.
      exact (Lst (k, w) [] Hf).
    - intros Hw. rewrite Hw in Z0. rewrite (Z0 eq_refl). reflexivity. }
  split.
  - unfold holds. cbn [mu_b mu_info mu_top]. split; [exact Eb|]. split; [lia|]. split; [exact R|]. split; [|exact Hev].
    intros k p d' Hp Hd'. assert (k < length (mu_info m)) by (rewrite Elen; apply nth_error_Some; congruence).
    destruct (nth_error (mu_info m) k) as [d|] eqn:Hd; [|apply nth_error_None in Hd; lia].
    destruct (Hk k p d Hp Hd) as (d2 & Hd2 & ((A1 & _) & _) & _). rewrite Hd' in Hd2. injection Hd2 as <-.
    rewrite A1. eapply Hpat; eauto.
  - split; [|exact Hk]. unfold any_ev. now rewrite (Permutation_length P).
Qed.
