(* P_Change2.v - more proofs about changes: applying them, invariants, swappair. *)
From Verif Require Import Base M_Bell M_Math M_Change M_Row Spec_Row Spec_Change P_Row P_Bell P_Change.
Set Implicit Arguments.
Unset Strict Implicit.

Lemma pairs_ok_mono lo n m l : n <= m -> pairs_ok lo n l -> pairs_ok lo m l.
Proof.
  intros H. revert lo; induction l as [|a t IH]; cbn; auto. intros lo (W1 & W2 & W3).
  split; [lia|]. split; [lia|]. now apply IH.
Qed.

(* ---------------- C04: row *= change ---------------- *)

Definition tau (s i : nat) : nat := if i =? s then s + 1 else if i =? s + 1 then s else i.

Lemma row_swap_adj r s : s + 1 < length r ->
  exists r', row_swap r s (s + 1) = Ret r' /\ length r' = length r /\
    forall i, act r' i = act r (tau s i).
Proof.
  intros H. unfold row_swap.
  rewrite (vget_lt r 0) by lia. cbn [bind]. rewrite (vget_lt r 0) by lia. cbn [bind].
  rewrite vset_lt by lia. cbn [bind].
  rewrite vset_lt by (rewrite upd_length; lia). eexists. split; [reflexivity|].
  assert (L : length (upd (upd r s (nth (s + 1) r 0)) (s + 1) (nth s r 0)) = length r).
  { rewrite !upd_length; [reflexivity|lia|rewrite upd_length; lia]. }
  split; [exact L|]. intros i. unfold tau.
  destruct (lt_dec i (length r)) as [Hi|Hi].
  - rewrite (@act_nth _ i 0) by lia. rewrite nth_upd by (rewrite upd_length; lia).
    rewrite nth_upd by lia.
    destruct (Nat.eqb_spec i (s + 1)) as [->|H1].
    + destruct (Nat.eqb_spec (s + 1) s); [lia|]. symmetry. apply act_nth. lia.
    + destruct (Nat.eqb_spec i s) as [->|H2]; symmetry; apply act_nth; lia.
  - destruct (Nat.eqb_spec i s); [lia|]. destruct (Nat.eqb_spec i (s + 1)); [lia|].
    rewrite !act_ge; lia.
Qed.

Lemma tau_swap_pos s t n i : pairs_ok (s + 2) n t ->
  tau s (swap_pos t i) = swap_pos (s :: t) i.
Proof.
  intros W. unfold tau.
  assert (B : forall j, In j t -> s + 2 <= j) by (intros j Hj; apply (pairs_ok_in W Hj)).
  destruct (swap_pos_cases i W) as [[H E]|[(j & -> & H & E)|(H1 & H2 & E)]]; rewrite E.
  - specialize (B _ H). destruct (Nat.eqb_spec (i + 1) s); [lia|].
    destruct (Nat.eqb_spec (i + 1) (s + 1)); [lia|].
    symmetry. apply swap_pos_in. now right.
  - specialize (B _ H). destruct (Nat.eqb_spec j s); [lia|].
    destruct (Nat.eqb_spec j (s + 1)); [lia|].
    symmetry. apply (@swap_pos_in2 (s :: t) j 0 (n + s + 2)).
    + cbn. split; [lia|]. split; [lia|]. apply (@pairs_ok_mono (s + 2) n); [lia|exact W].
    + now right.
  - destruct (Nat.eqb_spec i s) as [->|Hs].
    + symmetry. apply swap_pos_in. now left.
    + destruct (Nat.eqb_spec i (s + 1)) as [->|Hs'].
      * symmetry. unfold swap_pos. destruct in_dec as [[X|X]|X]; [lia|contradiction|].
        replace (s + 1 - 1) with s by lia.
        destruct in_dec as [_|X']; [|destruct X'; now left].
        destruct (Nat.eqb_spec (s + 1) 0); lia.
      * symmetry. apply swap_pos_out.
        -- intros [X|X]; [congruence|contradiction].
        -- destruct H2 as [->|H2]; [now left|]. destruct (Nat.eq_dec i 0); [now left|]. right.
           intros [X|X]; [lia|contradiction].
Qed.

Lemma apply_swaps_spec l r lo n : pairs_ok lo n l -> n <= length r ->
  exists r', apply_swaps r l = Ret r' /\ length r' = length r /\
    forall i, act r' i = act r (swap_pos l i).
Proof.
  revert r lo; induction l as [|s t IH]; intros r lo W Hn; cbn [apply_swaps].
  - exists r. split; [reflexivity|]. split; [reflexivity|]. intros i. now rewrite swap_pos_nil.
  - destruct W as (W1 & W2 & W3). destruct (Nat.ltb_spec (s + 1) (length r)); [|lia].
    destruct (@row_swap_adj r s) as (r1 & E1 & L1 & A1); [lia|].
    rewrite E1. cbn [bind].
    destruct (IH r1 _ W3) as (r' & E & L & A); [lia|].
    exists r'. split; [exact E|]. split; [congruence|].
    intros i. rewrite A, A1. f_equal. now apply (@tau_swap_pos s t n).
Qed.

Lemma row_mul_change_spec r c : row256 r -> wf_change c -> cn c <= 256 ->
  exists r', row_mul_change r c = Ret r' /\ row256 r' /\
    length r' = Nat.max (length r) (cn c) /\
    forall i, act r' i = act r (swap_pos (cswaps c) i).
Proof.
  intros [P L] W Hc. unfold row_mul_change. rewrite row_pad_pad by exact Hc.
  set (p := pad (cn c) r).
  assert (Lp : length p = Nat.max (length r) (cn c)) by (unfold p; rewrite pad_length; lia).
  assert (G : exists r', apply_swaps p (cswaps c) = Ret r' /\ length r' = length p /\
    forall i, act r' i = act p (swap_pos (cswaps c) i)) by (eapply apply_swaps_spec; [exact W|lia]).
  destruct G as (r' & E & L' & A).
  assert (A' : forall i, act r' i = act r (swap_pos (cswaps c) i)).
  { intros i. rewrite A. apply act_pad. }
  exists r'. split.
  - destruct (Nat.eqb_spec (cn c) 0) as [Z|Z].
    + cbn. unfold wf_change in W. rewrite Z in W. destruct (cswaps c); [exact E|cbn in W; lia].
    + destruct (Nat.eqb_spec (length p) 0); [lia|]. exact E.
  - assert (PR : is_row r').
    { apply act_bij_is_row.
      - intros i j _ _. rewrite !A'. intros H. apply act_inj in H; auto.
        eapply swap_pos_inj; eauto.
      - intros i Hi. rewrite A. rewrite L'. apply act_lt; [now apply is_row_pad|].
        destruct (lt_dec i (cn c)) as [Hn|Hn].
        + generalize (swap_pos_lt W Hn). lia.
        + rewrite (swap_pos_ge W) by lia. lia. }
    split; [split; [exact PR|lia]|]. split; [lia|exact A'].
Qed.

Lemma row_mul_change_as_mul r c : row256 r -> wf_change c -> cn c <= 256 ->
  row_mul_change r c = bind (row_mul_change (rounds (cn c)) c) (fun d => mul r d).
Proof.
  intros Hr W Hc. rewrite rounds_id by exact Hc.
  destruct (row_mul_change_spec Hr W Hc) as (r' & E & V & L & A).
  destruct (row_mul_change_spec (row256_id Hc) W Hc) as (d & E2 & V2 & L2 & A2).
  rewrite E, E2. cbn [bind]. destruct (mul_spec Hr V2) as (p & Ep & Vp & Lp & Ap).
  rewrite Ep. f_equal. apply row_eq.
  - rewrite id_length in L2. lia.
  - intros i. now rewrite A, Ap, A2, act_id.
Qed.

Lemma row_mul_change_twice r c : row256 r -> wf_change c -> cn c <= 256 ->
  bind (row_mul_change r c) (fun r' => row_mul_change r' c) = Ret (pad (cn c) r).
Proof.
  intros Hr W Hc. destruct (row_mul_change_spec Hr W Hc) as (r' & E & V & L & A).
  rewrite E. cbn [bind]. destruct (row_mul_change_spec V W Hc) as (r2 & E2 & V2 & L2 & A2).
  rewrite E2. f_equal. apply row_eq.
  - rewrite pad_length. lia.
  - intros i. rewrite A2, A, act_pad. now rewrite (swap_pos_invol _ W).
Qed.

(* ---------------- C05/C06: well-formedness, swappair ---------------- *)

Lemma pairs_ok_app lo m n l1 l2 : pairs_ok lo m l1 -> pairs_ok m n l2 -> lo <= m <= n ->
  pairs_ok lo n (l1 ++ l2).
Proof.
  revert lo; induction l1 as [|s t IH]; cbn [app]; intros lo W1 W2 H.
  - now apply (pairs_ok_weaken (proj1 H)).
  - destruct W1 as (A1 & A2 & A3). cbn. split; [lia|]. split; [lia|].
    apply IH; auto. lia.
Qed.

Lemma pairs_ok_between b e : pairs_ok b e (pairs_between b e).
Proof.
  unfold pairs_between.
  assert (G : forall k b, b + 2 * k <= e -> pairs_ok b e (evens k b)).
  { induction k as [|k IH]; intros b' H; cbn; auto. split; [lia|]. split; [lia|].
    apply IH. lia. }
  destruct (le_lt_dec b e).
  - apply G. assert (2 * ((e - b) / 2) <= e - b) by (apply Nat.mul_div_le; lia). lia.
  - replace (e - b) with 0 by lia. exact I.
Qed.

Definition st_ok (n : nat) (st : list nat * nat) : Prop :=
  pairs_ok 0 (snd st) (fst st) /\ snd st <= n.

Definition change_exn (A : Type) (o : outcome A) : Prop :=
  o = Throw ChangeInvalid \/ o = Throw BellInvalid.

Lemma add_place_inv n st p : n <= 255 -> st_ok n st ->
  (exists st', add_place n st p = Ret st' /\ st_ok n st') \/ add_place n st p = Throw ChangeInvalid.
Proof.
  intros Hn. destruct st as [sw b]. intros [W Hb]. cbn [fst snd] in *.
  unfold add_place. destruct (Nat.leb_spec n p); [right; reflexivity|].
  destruct (Nat.ltb_spec p b); [right; reflexivity|]. cbn [orb].
  match goal with |- context [if ?c then Throw _ else _] => destruct c eqn:C end;
    [right; reflexivity|].
  left. rewrite asb_spec by lia. eexists. split; [reflexivity|].
  rewrite b8_small by lia.
  set (b' := if (b =? 0) && _ then 1 else b).
  assert (Hb' : b <= b' <= p).
  { unfold b'. destruct (Nat.eqb_spec b 0) as [->|Hz]; cbn [andb]; [|lia].
    destruct (Nat.eqb_spec ((p - 0) mod 2) 0) as [M|M]; cbn [negb]; [lia|].
    rewrite Nat.sub_0_r in M. destruct p; [cbn in M; lia|lia]. }
  unfold st_ok. cbn [fst snd]. split; [|lia].
  apply (@pairs_ok_mono 0 p); [lia|].
  apply (@pairs_ok_app 0 b'); [apply (@pairs_ok_mono 0 b); [lia|exact W]|apply pairs_ok_between|lia].
Qed.

Lemma finish_inv n sw b : n <= 255 -> st_ok n (sw, b) ->
  exists st', append_swaps_between sw b (b8 n) = Ret st' /\ pairs_ok 0 n (fst st').
Proof.
  intros Hn [W Hb]. cbn [fst snd] in *. rewrite b8_small by lia. rewrite asb_spec by lia.
  eexists. split; [reflexivity|]. cbn [fst].
  apply (@pairs_ok_app 0 b); [exact W|apply pairs_ok_between|lia].
Qed.

Lemma change_of_places_wf n pl : n <= 255 ->
  (exists c, change_of_places n pl = Ret c /\ wf_change c /\ cn c = n) \/
  change_of_places n pl = Throw ChangeInvalid.
Proof.
  intros Hn. unfold change_of_places.
  assert (G : forall st, st_ok n st ->
    (exists st', forM pl (add_place n) st = Ret st' /\ st_ok n st') \/
    forM pl (add_place n) st = Throw ChangeInvalid).
  { induction pl as [|p t IH]; intros st H; cbn [forM]; [left; eauto|].
    destruct (add_place_inv p Hn H) as [(st' & E & H')|E]; rewrite E; cbn [bind]; auto. }
  destruct (G ([], 0)) as [([sw b] & E & H)|E].
  { split; cbn; [exact I|lia]. }
  - rewrite E. cbn [bind]. destruct (finish_inv Hn H) as ([sw' b'] & E' & H').
    rewrite E'. cbn [bind]. left. eexists. split; [reflexivity|]. split; [exact H'|reflexivity].
  - rewrite E. now right.
Qed.

Lemma skip_space_len s : length (skip_space s) <= length s.
Proof. induction s as [|c t IH]; cbn; [lia|]. destruct (is_space c); cbn; lia. Qed.

Lemma read_digits_len a s : length (snd (read_digits a s)) <= length s.
Proof.
  revert a; induction s as [|c t IH]; intros a; cbn; [lia|].
  destruct (is_digit c); cbn; [|lia]. specialize (IH (a * 10 + digit_val c)%Z). lia.
Qed.

Lemma strtoul_len s : length (snd (strtoul s)) <= length s.
Proof.
  unfold strtoul. generalize (skip_space_len s). 
  destruct (match skip_space s with
    | [] => _ | c :: t => _ end) as [neg s2] eqn:E2.
  intros H0.
  assert (H2 : length s2 <= length s).
  { destruct (skip_space s) as [|c t]; [inversion E2; subst; cbn; lia|].
    cbn [length] in H0. destruct (eqc c (chr "-")); [inversion E2; subst; lia|].
    destruct (eqc c (chr "+")); inversion E2; subst; cbn; lia. }
  destruct (starts_with_digit s2); [|cbn; lia].
  generalize (read_digits_len 0 s2). destruct (read_digits 0 s2) as [v rest]. cbn [snd].
  intros H. destruct (v >? ulong_max)%Z; cbn [snd]; [lia|]. destruct neg; cbn [snd]; lia.
Qed.

Lemma read_extended_total c t :
  (exists p rest, read_extended default_symtab (c :: t) = Ret (p, rest) /\ length rest <= length t /\ p < 256) \/
  read_extended default_symtab (c :: t) = Throw BellInvalid.
Proof.
  unfold read_extended. destruct (eqc c (chr "{")); cbn [negb].
  - generalize (strtoul_len t). destruct (strtoul t) as [v e]. cbn [snd]. intros H.
    generalize (skip_space_len e). intros H'.
    match goal with |- context [if ?c then Throw _ else _] => destruct c end; [now right|].
    left. eexists _, _. split; [reflexivity|]. split.
    + destruct (skip_space e); cbn in *; lia.
    + assert (0 <= (v - 1) mod 256 < 256)%Z by (apply Z.mod_pos_bound; lia). lia.
  - destruct (read_char_total c) as [[b E]|E]; rewrite E; cbn [bind]; [left|now right].
    exists b, t. split; [reflexivity|]. split; [lia|].
    apply read_char_accepts in E. lia.
Qed.

Lemma c_str_len s : length (c_str s) <= length s.
Proof. induction s as [|c t IH]; cbn; [lia|]. destruct (eqc c zero); cbn; lia. Qed.

Lemma change_of_pn_wf n pn : n <= 255 ->
  (exists c, change_of_pn default_symtab n pn = Ret c /\ wf_change c /\ cn c = n) \/
  change_exn (change_of_pn default_symtab n pn).
Proof.
  intros Hn. unfold change_of_pn. destruct pn as [|c0 t0].
  { destruct (Nat.eqb_spec n 0).
    - left. eexists. split; [reflexivity|]. split; [exact I|reflexivity].
    - right. left. reflexivity. }
  set (pn := c0 :: t0).
  assert (G : forall fuel q st, length q <= fuel -> st_ok n st ->
    (exists st', change_parse_loop fuel default_symtab n q st = Ret st' /\ st_ok n st') \/
    change_exn (change_parse_loop fuel default_symtab n q st)).
  { induction fuel as [|fuel IH]; intros q st Hl H; (destruct q as [|c t]; [left; exists st; auto|]); [cbn in Hl; lia|].
    cbn [change_parse_loop].
    destruct (read_extended_total c t) as [(p & rest & E & L & _)|E]; rewrite E; cbn [bind];
      [|right; right; reflexivity].
    destruct (add_place_inv p Hn H) as [(st' & E' & H')|E']; rewrite E'; cbn [bind];
      [|right; left; reflexivity].
    apply IH; [cbn in Hl; lia|exact H']. }
  assert (O : st_ok n ([], 0)) by (split; cbn; [exact I|lia]).
  assert (R : (exists st', (if is_cross pn then Ret ([], 0)
      else change_parse_loop (length pn) default_symtab n (c_str pn) ([], 0)) = Ret st' /\ st_ok n st') \/
      change_exn (if is_cross pn then Ret ([], 0)
      else change_parse_loop (length pn) default_symtab n (c_str pn) ([], 0))).
  { destruct (is_cross pn); [left; eauto|]. apply G; [apply c_str_len|exact O]. }
  destruct R as [([sw b] & E & H)|[E|E]]; rewrite E; cbn [bind].
  - destruct (finish_inv Hn H) as ([sw' b'] & E' & H').
    rewrite E'. cbn [bind]. left. eexists. split; [reflexivity|]. split; [exact H'|reflexivity].
  - right. left. reflexivity.
  - right. right. reflexivity.
Qed.

Lemma pairs_ok_snoc lo n l s : pairs_ok lo s l -> lo <= s -> s + 2 <= n -> pairs_ok lo n (l ++ [s]).
Proof.
  intros W H1 H2. apply (@pairs_ok_app lo s); auto; [|lia]. cbn. repeat split; lia.
Qed.

Lemma reverse_wf_list n l lo : n <= 257 -> pairs_ok lo n l ->
  pairs_ok 0 (n - lo) (map (fun s => Z.to_nat ((Z.of_nat n - 2 - Z.of_nat s) mod 256)%Z) (rev l)).
Proof.
  intros Hn. revert lo; induction l as [|s t IH]; intros lo W; cbn [rev map]; [exact I|].
  destruct W as (W1 & W2 & W3). rewrite map_app. cbn [map].
  rewrite Z.mod_small by lia.
  replace (Z.to_nat (Z.of_nat n - 2 - Z.of_nat s)) with (n - (s + 2)) by lia.
  apply pairs_ok_snoc; [|lia|lia]. now apply IH.
Qed.

Lemma reverse_wf c : cn c <= 257 -> wf_change c -> wf_change (change_reverse c).
Proof.
  intros H W. unfold wf_change. cbn [cn cswaps change_reverse].
  generalize (@reverse_wf_list (cn c) (cswaps c) 0 H W). now rewrite Nat.sub_0_r.
Qed.

(* swappair *)
Lemma swappair_loop_spec which n rest : which + 2 <= n -> forall lo pre, pairs_ok lo n rest -> lo <= which ->
  (In which rest -> swappair_loop which pre rest = Ret (pre ++ remove Nat.eq_dec which rest, false)
      /\ pairs_ok lo n (remove Nat.eq_dec which rest)) /\
  (~ In which rest -> (exists f s, S s = which /\ rest = f ++ [s]) ->
     swappair_loop which pre rest = UB) /\
  (~ In which rest -> ~ (exists f s, S s = which /\ rest = f ++ [s]) ->
     exists l', swappair_loop which pre rest = Ret (pre ++ l', true) /\ pairs_ok lo n l' /\
       forall j, In j l' <-> j = which \/ (In j rest /\ S j <> which /\ j <> S which)).
Proof.
  intros Hw. induction rest as [|s t IH]; intros lo pre W Hlo; cbn [swappair_loop].
  - split; [intros []|]. split.
    + intros _ (f & s & _ & E). destruct f; discriminate E.
    + intros _ _. exists [which]. split; [reflexivity|]. cbn. split; [lia|]. intros j. intuition congruence.
  - destruct W as (W1 & W2 & W3).
    assert (Bt : forall j, In j t -> s + 2 <= j) by (intros j Hj; apply (pairs_ok_in W3 Hj)).
    destruct (Nat.leb_spec s (which + 1)) as [H1|H1].
    + destruct (Nat.eqb_spec s which) as [->|H2].
      { (* the pair is there *)
        assert (NI : ~ In which t) by (intros H; apply Bt in H; lia).
        cbn [remove]. destruct (Nat.eq_dec which which); [|congruence].
        rewrite notin_remove by exact NI.
        split; [|split].
        - intros _. split; [reflexivity|]. apply (@pairs_ok_weaken (which + 2)); [lia|exact W3].
        - intros H. destruct H. now left.
        - intros H. destruct H. now left. }
      destruct (Nat.eqb_spec (S s) which) as [H3|H3].
      { assert (NI : ~ In which t) by (intros H; apply Bt in H; lia).
        destruct t as [|s' t'].
        - split; [intros [H|[]]; lia|]. split; [reflexivity|].
          intros _ H. destruct H. exists [], s. auto.
        - split; [intros [H|H]; [lia|contradiction]|]. split.
          + intros _ (f & q & Eq & Ef). exfalso.
            assert (Hq : In q (s' :: t')).
            { destruct f as [|a f]; [discriminate Ef|]. injection Ef as -> Ef. rewrite Ef.
              apply in_or_app. right. now left. }
            apply Bt in Hq. lia.
          + intros _ _. destruct W3 as (V1 & V2 & V3).
            assert (Bt' : forall j, In j t' -> s' + 2 <= j) by (intros j Hj; apply (pairs_ok_in V3 Hj)).
            destruct (Nat.eqb_spec s' (which + 1)) as [E|E].
            * exists (which :: t'). split; [reflexivity|]. split.
              { cbn. split; [lia|]. split; [lia|]. apply (@pairs_ok_weaken (s' + 2)); [lia|exact V3]. }
              intros j. cbn. split.
              { intros [H|H]; [left; congruence|]. right. specialize (Bt' _ H). intuition lia. }
              { intros [H|([H|[H|H]] & A & B)]; [left; congruence|lia|lia|now right]. }
            * exists (which :: s' :: t'). split; [reflexivity|]. split.
              { cbn. split; [lia|]. split; [lia|]. split; [lia|]. split; [lia|exact V3]. }
              intros j. cbn. split.
              { intros [H|[H|H]]; [left; congruence| |].
                - right. subst j. split; [tauto|]. lia.
                - right. specialize (Bt' _ H). split; [tauto|]. lia. }
              { intros [H|([H|[H|H]] & A & B)]; [left; congruence|lia|tauto|tauto]. } }
      destruct (Nat.eqb_spec s (which + 1)) as [H4|H4].
      { split; [intros [H|H]; [lia|apply Bt in H; lia]|]. split.
        - intros _ (f & q & Eq & Ef). exfalso.
          assert (Hq : In q (s :: t)) by (rewrite Ef; apply in_or_app; right; now left).
          destruct Hq as [Hq|Hq]; [lia|apply Bt in Hq; lia].
        - intros _ _. exists (which :: t). split; [reflexivity|]. split.
          + cbn. split; [lia|]. split; [lia|]. apply (@pairs_ok_weaken (s + 2)); [lia|exact W3].
          + intros j. cbn. split.
            * intros [H|H]; [left; congruence|]. right. specialize (Bt _ H). split; [tauto|]. lia.
            * intros [H|([H|H] & A & B)]; [left; congruence|lia|tauto]. }
      (* go on *)
      assert (Hs : s + 2 <= which) by lia.
      destruct (IH (s + 2) (pre ++ [s]) W3 Hs) as (I1 & I2 & I3).
      split; [|split].
      * intros [H|H]; [congruence|]. destruct (I1 H) as [E P]. cbn [remove].
        destruct (Nat.eq_dec which s); [congruence|].
        rewrite E. split; [now rewrite <- app_assoc|]. cbn. auto.
      * intros H (f & q & Eq & Ef). apply I2; [intros H'; apply H; now right|].
        destruct f as [|a f]; [injection Ef as -> ->; lia|]. injection Ef as -> Ef.
        exists f, q. auto.
      * intros H H'. destruct I3 as (l' & E & P & J).
        { intros X. apply H. now right. }
        { intros (f & q & Eq & Ef). apply H'. exists (s :: f), q. split; auto. cbn. congruence. }
        exists (s :: l'). split; [rewrite E; now rewrite <- app_assoc|]. split; [cbn; auto|].
        intros j. cbn. rewrite J. split.
        { intros [E'|[E'|(A & B & C)]]; [right|tauto|tauto]. split; [tauto|]. lia. }
        { intros [E'|([E'|A] & B & C)]; tauto. }
    + split; [intros [H|H]; [lia|apply Bt in H; lia]|]. split.
      * intros _ (f & q & Eq & Ef). exfalso.
        assert (Hq : In q (s :: t)) by (rewrite Ef; apply in_or_app; right; now left).
        destruct Hq as [Hq|Hq]; [lia|apply Bt in Hq; lia].
      * intros _ _. exists (which :: s :: t). split; [reflexivity|]. split.
        { cbn. split; [lia|]. split; [lia|]. split; [lia|]. split; [lia|exact W3]. }
        intros j. cbn. split.
        { intros [H|[H|H]]; [left; congruence| |].
          - right. split; [tauto|]. lia.
          - right. specialize (Bt _ H). split; [tauto|]. lia. }
        { intros [H|([H|H] & A & B)]; [left; congruence|tauto|tauto]. }
Qed.

Lemma swappair_present c i : wf_change c -> In i (cswaps c) ->
  swappair c i = Ret (mkChange (cn c) (remove Nat.eq_dec i (cswaps c)), false) /\
  wf_change (mkChange (cn c) (remove Nat.eq_dec i (cswaps c))).
Proof.
  intros W H. assert (Hi : i + 2 <= cn c) by apply (pairs_ok_in W H).
  destruct (@swappair_loop_spec i (cn c) (cswaps c) Hi 0 [] W) as (H1 & _ & _); [lia|].
  destruct (H1 H) as [E P]. unfold swappair. destruct (Nat.ltb_spec (cn c) (i + 2)); [lia|].
  rewrite E. split; [reflexivity|exact P].
Qed.

Lemma swappair_absent c i : wf_change c -> i + 2 <= cn c -> ~ In i (cswaps c) ->
  (forall f s, cswaps c = f ++ [s] -> S s <> i) ->
  exists l, swappair c i = Ret (mkChange (cn c) l, true) /\
    wf_change (mkChange (cn c) l) /\
    forall j, In j l <-> j = i \/ (In j (cswaps c) /\ S j <> i /\ j <> S i).
Proof.
  intros W Hi H HL.
  destruct (@swappair_loop_spec i (cn c) (cswaps c) Hi 0 [] W) as (_ & _ & H3); [lia|].
  destruct H3 as (l' & E & P & J); [exact H| |].
  { intros (f & s & Es & Ef). exact (HL f s Ef Es). }
  exists l'. unfold swappair. destruct (Nat.ltb_spec (cn c) (i + 2)); [lia|].
  rewrite E. split; [reflexivity|]. split; [exact P|exact J].
Qed.

Lemma swappair_ub c i : wf_change c -> i + 2 <= cn c ->
  swappair c i = UB <-> exists f s, cswaps c = f ++ [s] /\ S s = i.
Proof.
  intros W Hi. split.
  - intros E. destruct (in_dec Nat.eq_dec i (cswaps c)) as [H|H].
    + destruct (swappair_present W H) as [E' _]. congruence.
    + destruct (@swappair_loop_spec i (cn c) (cswaps c) Hi 0 [] W) as (_ & _ & H3); [lia|].
      assert (D : (exists f s, S s = i /\ cswaps c = f ++ [s]) \/ ~ (exists f s, S s = i /\ cswaps c = f ++ [s])).
      { destruct (cswaps c) as [|a t] using rev_ind; [right; intros (f & s & _ & E1); destruct f; discriminate|].
        destruct (Nat.eq_dec (S a) i) as [Ea|Ea]; [left; eauto|].
        right. intros (f & s & E1 & E2). apply app_inj_tail in E2. destruct E2; congruence. }
      destruct D as [(f & s & E1 & E2)|D]; [exists f, s; auto|].
      destruct (H3 H D) as (l' & E1 & _).
      unfold swappair in E. destruct (Nat.ltb_spec (cn c) (i + 2)); [lia|].
      rewrite E1 in E. discriminate E.
  - intros (f & s & Ef & Es).
    destruct (@swappair_loop_spec i (cn c) (cswaps c) Hi 0 [] W) as (_ & H2 & _); [lia|].
    unfold swappair. destruct (Nat.ltb_spec (cn c) (i + 2)); [lia|].
    rewrite H2; [reflexivity| |exists f, s; auto].
    assert (Hs : In s (cswaps c)) by (rewrite Ef; apply in_or_app; right; now left).
    subst i. rewrite <- Nat.add_1_r. exact (pairs_ok_gap W Hs).
Qed.

Lemma swappair_throw c i : swappair c i = Throw ChangeOutOfRange <-> cn c < i + 2.
Proof.
  unfold swappair. destruct (Nat.ltb_spec (cn c) (i + 2)) as [H|H]; [tauto|].
  split; [|lia]. intros E. exfalso.
  assert (G : forall rest pre, swappair_loop i pre rest <> Throw ChangeOutOfRange).
  { induction rest as [|s t IH]; intros pre; cbn [swappair_loop]; [discriminate|].
    destruct (s <=? i + 1); [|discriminate]. destruct (s =? i); [discriminate|].
    destruct (S s =? i); [destruct t; discriminate|]. destruct (s =? i + 1); [discriminate|]. apply IH. }
  specialize (G (cswaps c) []). destruct (swappair_loop i [] (cswaps c)) as [[? ?]|e| |]; try discriminate E.
  cbn in E. congruence.
Qed.

Lemma swappair_wf c i c' b : wf_change c -> swappair c i = Ret (c', b) -> wf_change c' /\ cn c' = cn c.
Proof.
  intros W E.
  assert (Hi : i + 2 <= cn c).
  { destruct (le_lt_dec (i + 2) (cn c)) as [|Hn]; auto. apply swappair_throw in Hn. congruence. }
  destruct (in_dec Nat.eq_dec i (cswaps c)) as [H|H].
  - destruct (swappair_present W H) as [E' W']. rewrite E' in E. inversion E; subst. auto.
  - destruct (swappair_absent W Hi H) as (l & E' & W' & _).
    { intros f s Ef Es. assert (U : swappair c i = UB) by (apply swappair_ub; eauto). congruence. }
    rewrite E' in E. inversion E; subst. auto.
Qed.
