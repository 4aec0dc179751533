(* P_Mslib.v - proofs about MicroSIRIL libraries. *)
From Verif Require Import Base M_Bell M_Change M_Row M_Method M_Dim M_Stream M_Mslib Spec_Dim Spec_Litelib Spec_Basename Spec_Mslib P_Bell P_Dim P_Litelib P_Basename.
Set Implicit Arguments.
Unset Strict Implicit.
Open Scope nat_scope.

(* ---- atoi ---- *)
Lemma skip_drop t : skip_space t = drop_while is_space t.
Proof. induction t as [|c t IH]; [reflexivity|]. cbn. now destruct (is_space c). Qed.
Lemma digits_take t : read_digits 0 t = (dec_value (take_while is_digit t), drop_while is_digit t).
Proof.
  rewrite <- (take_drop is_digit t) at 1. rewrite read_digits_dec; [f_equal; ring| |].
  - induction t as [|c t IH]; [reflexivity|]. cbn. destruct (is_digit c) eqn:E; [cbn; now rewrite E|reflexivity].
  - induction t as [|c t IH]; [reflexivity|]. cbn [drop_while]. destruct (is_digit c) eqn:E; [exact IH|]. cbn. exact E.
Qed.
Definition in_int (z : Z) : bool := (int_min <=? z)%Z && (z <=? int_max)%Z.
Lemma in_int_iff z : in_int z = true <-> (int_min <= z <= int_max)%Z.
Proof. unfold in_int. rewrite andb_true_iff, !Z.leb_le. tauto. Qed.
Lemma atoi_spec t : atoi t = if in_int (leading_int t) then Ret (leading_int t) else UB.
Proof.
  unfold atoi, leading_int. rewrite skip_drop. destruct (drop_while is_space t) as [|c u]; [reflexivity|].
  rewrite !eqc_code. change (nat_of_ascii (chr "-")) with 45. change (nat_of_ascii (chr "+")) with 43.
  destruct (nat_of_ascii c =? 45); [|destruct (nat_of_ascii c =? 43)]; rewrite digits_take; reflexivity.
Qed.

(* ---- headers ---- *)
Lemma alpha_drop s : forall fuel p, p <= length s -> length s <= p + fuel -> 
  skip_alpha s fuel p <= length s /\ skipn (skip_alpha s fuel p) s = drop_while letter (skipn p s).
Proof.
  induction fuel as [|fuel IH]; intros p H1 H2; cbn [skip_alpha].
  - assert (p = length s) as -> by lia. rewrite skipn_all. auto.
  - destruct (nth_error s p) as [c|] eqn:E.
    + assert (L : p < length s) by (apply nth_error_Some; congruence).
      assert (K : skipn p s = c :: skipn (S p) s).
      { clear - E. revert s E. induction p as [|p IHp]; intros [|x s] E; try discriminate; [injection E as ->; reflexivity|]. cbn [nth_error] in E. cbn [skipn]. rewrite (IHp s E). reflexivity. }
      rewrite K. cbn [drop_while]. change (is_alpha c) with (letter c). destruct (letter c); [|rewrite K; split; [lia|reflexivity]]. apply IH; lia.
    + apply nth_error_None in E. assert (p = length s) as -> by lia. rewrite skipn_all. auto.
Qed.
Lemma eqc_sp c : eqc c (chr " ") = is_sp c.
Proof. rewrite eqc_code. reflexivity. Qed.
Lemma header_spec l b : (int_min <= b <= int_max)%Z -> ms_header l b = if in_int (header_bells l b) then Ret (header_bells l b) else UB.
Proof.
  intros B. unfold ms_header, header_bells, header_text, find_chr. cbn [skipn shift]. rewrite (@find_idx_ext _ is_sp) by (intros c; apply eqc_sp).
  assert (X := find_idx_while is_sp l).  destruct (find_idx is_sp l) as [k|].
  - destruct X as (Lk & X1 & X2 & X4).
    cbn [shift plus]. destruct (@alpha_drop l (length l) (S k) ltac:(lia) ltac:(lia)) as [A1 A2].
    assert (T : skipn (S k) l = tl (drop_while (fun c => negb (is_sp c)) l)).
    { rewrite <- X2. clear. revert l. induction k as [|k IH]; intros [|x l]; try reflexivity. cbn [skipn] in *. apply IH. }
    rewrite T in A2. destruct (Nat.ltb_spec (skip_alpha l (length l) (S k)) (length l)) as [H|H].
    + rewrite A2. destruct (drop_while letter _) as [|c t] eqn:E; [|apply atoi_spec]. exfalso.
      assert (LL := f_equal (@length _) A2). rewrite skipn_length in LL. cbn in LL. lia.
    + rewrite skipn_all2 in A2 by lia. rewrite <- A2. now rewrite (proj2 (in_int_iff b) B).
  - destruct X as (X1 & X2). rewrite X2. cbn [tl drop_while]. now rewrite (proj2 (in_int_iff b) B).
Qed.
Lemma starts_header l : starts_chr (chr "*") l = true <-> header l.
Proof.
  unfold header. destruct l as [|c t]; cbn [starts_chr]; [split; [discriminate|intros (t & H); discriminate]|]. rewrite eqc_true.
  split; [intros ->; now exists t|intros (u & H); now injection H].
Qed.

(* ---- fields ---- *)
Lemma find_chr_in (a b : list ascii) (c : ascii) d : ~ In c b -> find_chr (a ++ b ++ c :: d) c (length a) = Some (length a + length b).
Proof.
  intros N. unfold find_chr. rewrite skipn_app, skipn_all, Nat.sub_diag. cbn [skipn app].
  assert (F : find_idx (fun x => eqc x c) (b ++ c :: d) = Some (length b)).
  { induction b as [|x b IH]; cbn [app find_idx length]; [now rewrite (proj2 (eqc_true c c) eq_refl)|].
    destruct (eqc x c) eqn:E; [apply eqc_true in E; subst; exfalso; apply N; now left|]. rewrite IH; [reflexivity|]. intros H. apply N. now right. }
  rewrite F. reflexivity.
Qed.
Lemma first_split (c : ascii) s : In c s -> exists a b, s = a ++ c :: b /\ ~ In c a.
Proof.
  induction s as [|x s IH]; [intros []|]. intros H. destruct (ascii_dec x c) as [->|N]; [exists [], s; auto|].
  destruct H as [H|H]; [congruence|]. destruct (IH H) as (a & b & -> & NA). exists (x :: a), b. split; [reflexivity|]. intros [Q|Q]; auto.
Qed.
Lemma count_app c a b : count_chr c (a ++ b) = count_chr c a + count_chr c b.
Proof. unfold count_chr. rewrite filter_app, app_length. reflexivity. Qed.
Lemma count_zero c s : count_chr c s = 0 <-> ~ In c s.
Proof.
  unfold count_chr. induction s as [|x s IH]; [cbn; tauto|]. cbn [filter]. destruct (eqc c x) eqn:E.
  - apply eqc_true in E. subst. cbn. split; [discriminate|]. intros H. exfalso. apply H. now left.
  - rewrite IH. cbn. split; [|tauto]. intros H [->|Q]; [|auto]. now rewrite (proj2 (eqc_true _ _) eq_refl) in E.
Qed.
Lemma count_cons c s : count_chr c (c :: s) = S (count_chr c s).
Proof. unfold count_chr. cbn [filter]. now rewrite (proj2 (eqc_true c c) eq_refl). Qed.
Lemma fields_count l : (exists name code p, three_fields l name code p) <-> count_chr (chr " ") l = 2.
Proof.
  split.
  - intros (a & b & p & A & B & C & ->). rewrite count_app, count_cons, count_app, count_cons. apply count_zero in A, B, C. lia.
  - intros H. assert (I1 : In (chr " ") l) by (destruct (in_dec ascii_dec (chr " ") l) as [I|I]; [exact I|apply count_zero in I; lia]).
    destruct (first_split I1) as (a & t & -> & A). rewrite count_app, count_cons in H. apply count_zero in A as A'.
    assert (I2 : In (chr " ") t) by (destruct (in_dec ascii_dec (chr " ") t) as [I|I]; [exact I|apply count_zero in I; lia]).
    destruct (first_split I2) as (b & p & -> & B). rewrite count_app, count_cons in H. apply count_zero in B as B'.
    exists a, b, p. repeat (split; [assumption|]). split; [apply count_zero; lia|reflexivity].
Qed.
Lemma trim_end_spec s : trim_end s = no_end_space s.
Proof. unfold trim_end, no_end_space. f_equal. induction (rev s) as [|c t IH]; [reflexivity|]. cbn. now destruct (is_space c). Qed.
Lemma name_spec l name code p b : three_fields l name code p -> ms_name (mkME l b) = Ret name.
Proof.
  intros (A & B & C & ->). unfold ms_name. cbn [me_buf]. assert (F := @find_chr_in [] name (chr " ") (code ++ chr " " :: p) A). cbn [app length plus] in F. rewrite F.
  unfold substr. cbn [Nat.ltb skipn]. replace (length _ <? 0) with false by (symmetry; apply Nat.ltb_ge; lia). rewrite firstn_app, Nat.sub_diag, firstn_all. cbn [firstn]. now rewrite app_nil_r.
Qed.
Lemma pn_spec l name code p b : three_fields l name code p -> exists q, ms_pn (mkME l b) = Ret q /\ ms_notation code p q.
Proof.
  intros (A & B & C & ->). unfold ms_pn. cbn [me_buf]. assert (F := @find_chr_in [] name (chr " ") (code ++ chr " " :: p) A). cbn [app length plus] in F. rewrite F.
  assert (E : name ++ chr " " :: code ++ chr " " :: p = (name ++ [chr " "]) ++ code ++ chr " " :: p) by (rewrite <- app_assoc; reflexivity).
  rewrite E. assert (L1 : length (name ++ [chr " "]) = length name + 1) by (rewrite app_length; reflexivity).
  assert (G := @find_chr_in (name ++ [chr " "]) code (chr " ") p B). rewrite L1 in G. rewrite G.
  assert (LL : length ((name ++ [chr " "]) ++ code ++ chr " " :: p) = length name + 1 + length code + 1 + length p) by (rewrite !app_length; cbn [length]; lia).
  unfold substr at 1. rewrite LL. replace (_ <? length name + 1) with false by (symmetry; apply Nat.ltb_ge; lia). cbn [bind].
  assert (S1 : skipn (length name + 1) ((name ++ [chr " "]) ++ code ++ chr " " :: p) = code ++ chr " " :: p).
  { rewrite <- L1, skipn_app, skipn_all, Nat.sub_diag. reflexivity. }
  rewrite S1. replace (length name + 1 + length code - length name - 1) with (length code) by lia. rewrite firstn_app, Nat.sub_diag, firstn_all. cbn [firstn]. rewrite app_nil_r.
  unfold substr at 1. rewrite LL. replace (_ <? length name + 1 + length code + 1) with false by (symmetry; apply Nat.ltb_ge; lia). cbn [bind].
  assert (S2 : skipn (length name + 1 + length code + 1) ((name ++ [chr " "]) ++ code ++ chr " " :: p) = p).
  { replace ((name ++ [chr " "]) ++ code ++ chr " " :: p) with ((name ++ [chr " "] ++ code ++ [chr " "]) ++ p) by (rewrite <- !app_assoc; reflexivity).
    rewrite skipn_app. rewrite skipn_all2 by (rewrite !app_length; cbn [length]; lia). rewrite !app_length. cbn [length app]. replace (_ - _) with 0 by lia. reflexivity. }
  rewrite S2, trim_end_spec. cbn zeta.
  destruct (eqc (List.hd zero (no_end_space p)) (chr "+")) eqn:P; cbn [negb].
  - exists (no_end_space p). split; [reflexivity|]. destruct (no_end_space p) as [|c t] eqn:Q; [discriminate P|]. cbn in P. apply eqc_true in P. subst c. rewrite <- Q. eapply mn_plus. exact Q.
  - assert (NP : forall t, no_end_space p <> chr "+" :: t) by (intros t Q; rewrite Q in P; discriminate P).
    destruct (negb (length code =? 0) && eqc (last code zero) (chr "z")) eqn:ZZ.
    + apply andb_true_iff in ZZ as [Z1 Z2]. apply eqc_true in Z2. assert (code <> []) as NE by (intros ->; discriminate Z1).
      destruct (exists_last NE) as (q & c & ->). rewrite last_last in Z2. subst c. eexists. split; [reflexivity|].
      rewrite app_length. cbn [length]. replace (length q + 1 - 1) with (length q) by lia. rewrite firstn_app, Nat.sub_diag, firstn_all. cbn [firstn app]. rewrite app_nil_r. now constructor.
    + assert (NZ : forall q, code <> q ++ [chr "z"]).
      { intros q ->. rewrite last_last, app_length in ZZ. cbn [length] in ZZ. rewrite Nat.add_1_r in ZZ. discriminate ZZ. }
      set (sc := _ || eqc _ (chr "q")).
      assert (SC : sc = true <-> seconds_code code).
      { unfold sc, seconds_code. destruct code as [|c t]; [cbn; split; [discriminate|intros (c & t & H & _); discriminate]|]. cbn [List.hd].
        rewrite !orb_true_iff, andb_true_iff, !Nat.leb_le, !eqc_true. change (nat_of_ascii (chr "a")) with 97. change (nat_of_ascii (chr "f")) with 102. split.
        - intros H. exists c, t. split; [reflexivity|]. cbn. destruct H as [[[H1 H2]| ->]| ->]; [|tauto|tauto].
          rewrite <- (ascii_nat_embedding c). assert (D : nat_of_ascii c = 97 \/ nat_of_ascii c = 98 \/ nat_of_ascii c = 99 \/ nat_of_ascii c = 100 \/ nat_of_ascii c = 101 \/ nat_of_ascii c = 102) by lia.
          destruct D as [->|[->|[->|[->|[->| ->]]]]]; cbn; tauto.
        - intros (c' & t' & H & I). injection H as <- <-. cbn in I. repeat (destruct I as [<-|I]; [vm_compute; tauto || (left; left; lia)|]). destruct I. }
      destruct sc; (eexists; split; [reflexivity|]); [apply mn_seconds|apply mn_firsts]; auto; [now apply SC|]. intros H. apply SC in H. discriminate.
Qed.
Lemma notation_fun code p q q' : ms_notation code p q -> ms_notation code p q' -> q = q'.
Proof.
  intros H H'. destruct H; destruct H'; try congruence; try (exfalso; eauto; fail).
  - subst. match goal with H : _ ++ _ = _ ++ _ |- _ => apply app_inj_tail in H as [-> _]; reflexivity end.
Qed.
Lemma fields_fun l a b p a' b' p' : three_fields l a b p -> three_fields l a' b' p' -> a = a' /\ b = b' /\ p = p'.
Proof.
  assert (U : forall x y x' y', no_sp x -> no_sp x' -> x ++ chr " " :: y = x' ++ chr " " :: y' -> x = x' /\ y = y').
  { induction x as [|c x IH]; intros y [|c' x'] y' N N' E.
    - injection E as ->. auto.
    - injection E as <- E. exfalso. apply N'. now left.
    - injection E as -> E. exfalso. apply N. now left.
    - injection E as -> E. destruct (IH y x' y') as [-> ->]; auto; intros Q; [apply N|apply N']; now right. }
  intros (A & B & C & ->) (A' & B' & C' & E). destruct (U _ _ _ _ A A' E) as [E1 E2]. destruct (U _ _ _ _ B B' E2) as [E3 E4]. auto.
Qed.

(* ---- reading ---- *)
Lemma cc_dec l : (match find_sub (str "Name") l, find_sub (str "No.") l with Some _, Some _ => true | _, _ => false end = true) <-> cc_line l.
Proof.
  unfold cc_line. assert (X := find_sub_spec (str "Name") l). assert (Y := find_sub_spec (str "No.") l).
  destruct (find_sub (str "Name") l), (find_sub (str "No.") l).
  - destruct X as ((b & X) & _). destruct Y as ((b' & Y) & _). split; [intros _; split; eexists; eexists; eauto|reflexivity].
  - split; [discriminate|tauto].
  - split; [discriminate|tauto].
  - split; [discriminate|tauto].
Qed.
Lemma ms_read_S fuel s e : ms_read (S fuel) s e =
    if negb (is_good s) then Ret (false, e, s) else
    let '(s, buf) := getline s (me_buf e) in
    let e := mkME buf (me_b e) in
    if starts_chr (chr "*") buf then
      b <- ms_header buf (me_b e) ;; ms_read fuel s (mkME buf b)
    else if match find_sub (str "Name") buf, find_sub (str "No.") buf with Some _, Some _ => true | _, _ => false end then Ret (false, e, s)
    else if 0 <? length buf then if negb (count_chr (chr " ") buf =? 2) then Ret (false, e, s) else Ret (is_good s, e, s)
    else ms_read fuel s e.
Proof. cbn [ms_read]. destruct (is_good s); cbn [negb]; [|reflexivity]. destruct (getline s (me_buf e)) as [s' buf]. destruct (starts_chr _ buf); [reflexivity|]. destruct (find_sub (str "Name") buf), (find_sub (str "No.") buf); reflexivity. Qed.

(* lines passed over *)
Inductive passed : Z -> list (list ascii) -> Z -> Prop :=
| pa_nil b : passed b [] b
| pa_blank b ls b' : passed b ls b' -> passed b ([] :: ls) b'
| pa_head b l ls b' : header l -> (int_min <= header_bells l b <= int_max)%Z -> passed (header_bells l b) ls b' -> passed b (l :: ls) b'.
Lemma passed_entries b sk b' ls vs : passed b sk b' -> ms_entries b' ls vs -> ms_entries b (sk ++ ls) vs.
Proof. induction 1 as [b|b ks b1 H IH|b l ks b1 H1 H2 H IH]; intros E; cbn [app]; [exact E|apply ms_blank; auto|apply ms_head; auto]. Qed.
Lemma passed_overflow b sk b' ls : passed b sk b' -> ms_overflow b' ls -> ms_overflow b (sk ++ ls).
Proof. induction 1 as [b|b ks b1 H IH|b l ks b1 H1 H2 H IH]; intros E; cbn [app]; [exact E|apply mo_blank; auto|apply mo_head; auto]. Qed.
Lemma passed_int b sk b' : passed b sk b' -> (int_min <= b <= int_max)%Z -> (int_min <= b' <= int_max)%Z.
Proof. induction 1; auto. Qed.

(* at the end of the lines, whatever is in the buffer *)
Lemma ms_read_nil fuel s e : at_lines s [] -> is_good s = true -> (int_min <= me_b e <= int_max)%Z ->
  (header (me_buf e) -> (int_min <= header_bells (me_buf e) (me_b e) <= int_max)%Z) -> exists e' s', ms_read (S (S fuel)) s e = Ret (false, e', s').
Proof.
  intros HL G B HB. rewrite ms_read_S, G. cbn [negb].
  assert (X : exists s' l, getline s (me_buf e) = (s', l) /\ is_good s' = false /\ (l = [] \/ l = me_buf e)).
  { destruct HL as [(A & B' & C)|[[A B']|[A B']]]; unfold getline; rewrite A, ?B'.
    - cbn [orb]. assert (X := cut_lines (is_rest s)). destruct (cut_line (is_rest s)) as [l' [r|]].
      + destruct X as [X _]. congruence.
      + destruct X as [[-> X]|[X1 X]]; [|congruence]. eexists. eexists. split; [reflexivity|]. split; [reflexivity|now left].
    - cbn [orb]. eexists. eexists. split; [reflexivity|]. split; [reflexivity|now right].
    - rewrite orb_true_r. eexists. eexists. split; [reflexivity|]. split; [reflexivity|now right]. }
  destruct X as (s' & l & E & G' & Hl). rewrite E. cbv zeta. cbn [me_b].
  assert (N : forall e1, exists e' s2, ms_read (S fuel) s' e1 = Ret (false, e', s2)) by (intros e1; rewrite ms_read_S, G'; cbn [negb]; eauto).
  destruct (starts_chr (chr "*") l) eqn:H1.
  - apply starts_header in H1. destruct Hl as [-> | ->]; [destruct H1; discriminate|]. rewrite header_spec by exact B. rewrite (proj2 (in_int_iff _) (HB H1)). cbn [bind]. apply N.
  - destruct (match find_sub (str "Name") l, find_sub (str "No.") l with Some _, Some _ => true | _, _ => false end); [eauto|]. destruct (0 <? length l); [|apply N]. destruct (negb (count_chr (chr " ") l =? 2)); [eauto|]. rewrite G'. eauto.
Qed.

Lemma header_again l b : (int_min <= b <= int_max)%Z -> (int_min <= header_bells l b <= int_max)%Z -> header_bells l (header_bells l b) = header_bells l b.
Proof. intros _ _. unfold header_bells. now destruct (header_text l). Qed.
Lemma ms_read_spec ls : forall fuel s e, at_lines s ls -> length ls + 2 <= fuel -> (int_min <= me_b e <= int_max)%Z ->
  (header (me_buf e) -> (int_min <= header_bells (me_buf e) (me_b e) <= int_max)%Z) ->
  (exists e' s' sk b', ms_read fuel s e = Ret (false, e', s') /\ passed (me_b e) sk b' /\ (ls = sk \/ exists l rest, ls = sk ++ l :: rest /\ stops l)) \/
  (exists sk b' l rest name code p s', ls = sk ++ l :: rest /\ passed (me_b e) sk b' /\ ~ header l /\ ~ cc_line l /\ three_fields l name code p /\
     ms_read fuel s e = Ret (true, mkME l b', s') /\ at_lines s' rest) \/
  (ms_read fuel s e = UB /\ ms_overflow (me_b e) ls).
Proof.
  induction ls as [|l ls IH]; intros fuel s e HL HF B HB.
  - left. destruct fuel as [|[|fuel]]; [cbn in HF; lia|cbn in HF; lia|]. destruct (is_good s) eqn:G.
    + destruct (@ms_read_nil fuel s e HL G B HB) as (e' & s' & E). exists e', s', [], (me_b e). split; [exact E|]. split; [constructor|now left].
    + rewrite ms_read_S, G. cbn [negb]. exists e, s, [], (me_b e). split; [reflexivity|]. split; [constructor|now left].
  - destruct fuel as [|fuel]; [lia|]. cbn [length] in HF. rewrite ms_read_S. rewrite (at_good HL). cbn [negb].
    destruct (getline_cons (me_buf e) HL) as (s' & E & G & HL'). rewrite E. cbv zeta. cbn [me_b].
    destruct (starts_chr (chr "*") l) eqn:H1.
    + apply starts_header in H1. rewrite header_spec by exact B. destruct (in_int (header_bells l (me_b e))) eqn:IN; cbn [bind].
      * apply in_int_iff in IN. destruct (IH fuel s' (mkME l (header_bells l (me_b e))) HL' ltac:(lia)) as [(e' & s2 & sk & b' & R & P & D)|[(sk & b' & l' & rest & n & c & p & s2 & D & P & R)|(R & O)]]; cbn [me_b me_buf] in *.
        -- exact IN.
        -- intros _. now rewrite header_again.
        -- left. exists e', s2, (l :: sk), b'. split; [exact R|]. split; [now apply pa_head|]. destruct D as [->|(l' & rest & -> & ST)]; [now left|right; exists l', rest; auto].
        -- right. left. exists (l :: sk), b', l', rest, n, c, p, s2. split; [now rewrite D|]. split; [now apply pa_head|exact R].
        -- right. right. split; [exact R|]. now apply mo_head.
      * right. right. split; [reflexivity|]. apply mo_here; auto. intros X. apply in_int_iff in X. congruence.
    + assert (NH : ~ header l) by (intros X; apply starts_header in X; congruence).
      assert (CC := cc_dec l). destruct (match find_sub (str "Name") l, find_sub (str "No.") l with Some _, Some _ => true | _, _ => false end).
      * left. exists (mkME l (me_b e)), s', [], (me_b e). split; [reflexivity|]. split; [constructor|]. right. exists l, ls. split; [reflexivity|].
        split; [exact NH|]. assert (C : cc_line l) by now apply CC. split; [|now left]. intros ->. destruct C as [(a & b & C) _]. destruct a; discriminate C.
      * assert (NC : ~ cc_line l) by (intros X; apply CC in X; discriminate). destruct (Nat.ltb_spec 0 (length l)) as [L|L].
        -- destruct (Nat.eqb_spec (count_chr (chr " ") l) 2) as [K|K]; cbn [negb].
           ++ right. left. apply fields_count in K as (n & c & p & K). exists [], (me_b e), l, ls, n, c, p, s'. rewrite G.
              split; [reflexivity|]. split; [constructor|]. auto 6.
           ++ left. exists (mkME l (me_b e)), s', [], (me_b e). split; [reflexivity|]. split; [constructor|]. right. exists l, ls. split; [reflexivity|].
              split; [exact NH|]. split; [intros ->; cbn in L; lia|]. right. intros n c p T. apply K. apply fields_count. eauto.
        -- assert (l = []) as -> by (destruct l; [reflexivity|cbn in L; lia]).
           destruct (IH fuel s' (mkME [] (me_b e)) HL' ltac:(lia)) as [(e' & s2 & sk & b' & R & P & D)|[(sk & b' & l' & rest & n & c & p & s2 & D & P & R)|(R & O)]]; cbn [me_b me_buf] in *.
           ++ exact B.
           ++ intros (t & X). discriminate X.
           ++ left. exists e', s2, ([] :: sk), b'. split; [exact R|]. split; [now apply pa_blank|]. destruct D as [->|(l' & rest & -> & ST)]; [now left|right; exists l', rest; auto].
           ++ right. left. exists ([] :: sk), b', l', rest, n, c, p, s2. split; [now rewrite D|]. split; [now apply pa_blank|exact R].
           ++ right. right. split; [exact R|]. now apply mo_blank.
Qed.
Lemma ms_iter_spec fuel : forall ls s e, at_lines s ls -> length ls < fuel -> (int_min <= me_b e <= int_max)%Z -> ~ header (me_buf e) ->
  (exists es vs, ms_iter fuel s e = Ret es /\ ms_entries (me_b e) ls vs /\ Forall2 ms_says es vs) \/
  (ms_iter fuel s e = UB /\ ms_overflow (me_b e) ls).
Proof.
  induction fuel as [|fuel IH]; intros ls s e HL HF HB NH; [lia|]. cbn [ms_iter]. unfold ms_next.
  destruct (@ms_read_spec ls (length (is_rest s) + 3) s e HL) as [(e' & s' & sk & b' & R & P & D)|[(sk & b' & l & rest & n & c & p & s' & D & P & N1 & N2 & T & R & A)|(R & O)]]; auto; try tauto.
  { destruct HL as [(_ & _ & <-)|[[_ ->]|[_ ->]]]; [assert (X := lines_len (is_rest s)); lia|cbn; lia|cbn; lia]. }
  - rewrite R. cbn [bind]. left. exists [], []. split; [reflexivity|]. split; [|constructor].
    destruct D as [->|(l & rest & -> & ST)]; [rewrite <- (app_nil_r sk)|]; apply (passed_entries P); [constructor|now apply ms_stop].
  - rewrite R. cbn [bind]. subst ls. rewrite app_length in HF. cbn [length] in HF. assert (B' := passed_int P HB).
    destruct (IH rest s' (mkME l b') A ltac:(lia) B' N1) as [(es & vs & E & EN & F)|(E & O)]; cbn [me_b] in *; rewrite E; cbn [bind].
    + left. destruct (@pn_spec l n c p b' T) as (q & Q & NQ). exists (mkME l b' :: es), ((b', n, q) :: vs). split; [reflexivity|]. split.
      * apply (passed_entries P). now apply ms_take with (code := c) (p := p).
      * constructor; [|exact F]. split; [reflexivity|]. split; [exact (name_spec b' T)|exact Q].
    + right. split; [reflexivity|]. apply (passed_overflow P). now apply mo_take with (name := n) (code := c) (p := p).
  - rewrite R. cbn [bind]. right. auto.
Qed.

Ltac stopper := match goal with
  | S : stops [] |- _ => let X := fresh in destruct S as (_ & X & _); now apply X
  | S : stops ?l, H : header ?l |- _ => let X := fresh in destruct S as (X & _); now apply X
  | S : stops ?l, C : ~ cc_line ?l, T : three_fields ?l _ _ _ |- _ => let X := fresh in destruct S as (_ & _ & [X|X]); [contradiction|exact (X _ _ _ T)]
  end.
Lemma ms_entries_fun ls : forall b vs vs', ms_entries b ls vs -> ms_entries b ls vs' -> vs = vs'.
Proof.
  induction ls as [|l ls IH]; intros b vs vs' H H'; [inversion H; inversion H'; reflexivity|].
  assert (HN : ~ header []) by (intros (t & X); discriminate X).
  assert (FN : forall a c p, ~ three_fields [] a c p) by (intros a c p (_ & _ & _ & X); destruct a; discriminate X).
  inversion H as [|b0 ls0 es0 E0|b0 l0 ls0 es0 D1 D2 D3|b0 l0 ls0 S|b0 l0 ls0 es0 n c p q T1 T2 T3 T4 T5]; subst;
  inversion H' as [|b1 ls1 es1 E1|b1 l1 ls1 es1 D1' D2' D3'|b1 l1 ls1 S'|b1 l1 ls1 es1 n' c' p' q' T1' T2' T3' T4' T5']; subst; eauto; try (exfalso; eauto; fail).
  all: try (exfalso; stopper). all: try (exfalso; eapply FN; eassumption).
  destruct (fields_fun T3 T3') as (-> & -> & ->). rewrite (notation_fun T4 T4'). f_equal. eauto.
Qed.
Lemma ms_entries_no_overflow ls : forall b vs, ms_entries b ls vs -> ~ ms_overflow b ls.
Proof.
  induction ls as [|l ls IH]; intros b vs H O; [inversion O|].
  assert (HN : ~ header []) by (intros (t & X); discriminate X).
  assert (FN : forall a c p, ~ three_fields [] a c p) by (intros a c p (_ & _ & _ & X); destruct a; discriminate X).
  inversion H as [|b0 ls0 es0 E0|b0 l0 ls0 es0 D1 D2 D3|b0 l0 ls0 S|b0 l0 ls0 es0 n c p q T1 T2 T3 T4 T5]; subst;
  inversion O as [b1 l1 ls1 P1 P2|b1 ls1 P1|b1 l1 ls1 P1 P2 P3|b1 l1 ls1 n' c' p' P1 P2 P3 P4]; subst; try (now eauto); try (eapply FN; now eauto).
  all: try stopper. all: try (eapply FN; eassumption). all: try contradiction. all: eapply IH; eassumption.
Qed.
