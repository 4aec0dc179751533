(* P_Format.v - the text of one change and of a section, as method::format writes them. *)
From Verif Require Import Base M_Bell M_Change M_Math M_Row M_PN M_Method Spec_Row Spec_Change Spec_PN P_Bell P_Change P_Change2 P_Change3 P_PN.
Set Implicit Arguments.
Unset Strict Implicit.
Open Scope nat_scope.

Definition text (pl : list nat) : list ascii := concat (map (print_bell default_symtab) pl).

Lemma text_parse n pl : pl <> [] -> (forall p, In p pl -> p < 256) ->
  change_of_pn default_symtab n (text pl) = change_of_places n pl.
Proof.
  intros N H. destruct pl as [|p t]; [contradiction|].
  assert (NS : text (p :: t) <> []) by (unfold text; cbn [map concat]; apply print_bell_nonempty).
  assert (IC : is_cross (text (p :: t)) = false) by (unfold text; cbn [map concat]; apply print_bell_not_cross; apply H; now left).
  unfold change_of_pn. destruct (text (p :: t)) as [|c w] eqn:E; [contradiction|].
  rewrite IC. rewrite <- E. unfold text. rewrite c_str_print by exact H. rewrite parse_loop_print; [reflexivity|exact H|lia].
Qed.

(* leaving out the first place when it is 0 *)
Lemma add_place_first n q : q < n -> n <= 255 -> Nat.even (q - 1) = true -> 1 <= q ->
  add_place n ([], 0) q = add_place n ([], 1) q.
Proof.
  intros H1 H2 E L. rewrite (@add_place_ok n [] 1 q) by auto. unfold add_place.
  destruct (Nat.leb_spec n q); [lia|]. replace (q - 0) with q by lia. cbn [Nat.ltb Nat.leb Nat.eqb negb andb orb].
  assert (M : q mod 2 = 1).
  { apply Nat.even_spec in E. destruct E as [k E]. replace q with (1 + k * 2) by lia. rewrite Nat.mod_add by lia. reflexivity. }
  rewrite M. cbn [Nat.eqb negb]. rewrite asb_spec by lia. rewrite b8_small by lia. reflexivity.
Qed.
Lemma add_place_inv_even n acc b p s : n <= 255 -> b <> 0 -> add_place n (acc, b) p = Ret s ->
  p < n /\ b <= p /\ Nat.even (p - b) = true.
Proof.
  intros Hn Hb. unfold add_place. destruct (Nat.leb_spec n p); [discriminate|]. destruct (Nat.ltb_spec p b); [discriminate|].
  replace (b =? 0) with false by (symmetry; now apply Nat.eqb_neq). cbn [negb andb orb].
  destruct (Nat.eqb_spec ((p - b) mod 2) 0) as [E|E]; [|discriminate]. intros _. repeat split; auto.
  apply Nat.even_spec. exists ((p - b) / 2). generalize (Nat.div_mod (p - b) 2). lia.
Qed.
Lemma places_drop_first n q c : n <= 255 -> q <> [] -> change_of_places n (0 :: q) = Ret c -> change_of_places n q = Ret c.
Proof.
  intros Hn N. destruct q as [|a q]; [contradiction|]. unfold change_of_places. cbn [forM].
  destruct (Nat.eq_dec n 0) as [->|N0]; [discriminate|].
  rewrite (@add_place_ok n [] 0 0) by (auto; lia). rewrite pairs_between_nil by lia. cbn [bind app Nat.add].
  destruct (add_place n ([], 1) a) as [st|e| |] eqn:E; cbn [bind]; try discriminate.
  destruct (@add_place_inv_even n [] 1 a st Hn ltac:(lia) E) as (H1 & H2 & H3).
  rewrite (@add_place_first n a H1 Hn H3 H2), E. auto.
Qed.

(* the position is never 0 after a place *)
Lemma add_place_pos n st p st' : n <= 255 -> add_place n st p = Ret st' -> snd st' = p + 1 /\ p < n.
Proof.
  intros Hn. destruct st as [sw b]. unfold add_place. destruct (Nat.leb_spec n p); [discriminate|]. cbn [orb].
  destruct (_ || _); [discriminate|]. rewrite asb_spec by lia. intros [= <-]. cbn [snd]. rewrite b8_small by lia. auto.
Qed.
Lemma forM_pos n l st st' : n <= 255 -> l <> [] -> forM l (add_place n) st = Ret st' -> snd st' <> 0 /\ snd st' <= n.
Proof.
  intros Hn. revert st. induction l as [|a l IH]; intros st N; [contradiction|]. cbn [forM].
  destruct (add_place n st a) as [s1|e| |] eqn:E; cbn [bind]; try discriminate.
  destruct l as [|a' l]; [|apply IH; discriminate].
  cbn [forM]. intros [= <-]. apply add_place_pos in E; [lia|exact Hn].
Qed.
Lemma pairs_between_last b p : b <= p -> Nat.even (p - b) = true -> pairs_between b (p + 1) = pairs_between b p.
Proof.
  intros H E. unfold pairs_between. f_equal. apply Nat.even_spec in E. destruct E as [k E].
  replace (p - b) with (k * 2) by lia. replace (p + 1 - b) with (1 + k * 2) by lia. rewrite Nat.div_add, Nat.div_mul by lia. reflexivity.
Qed.
Lemma places_drop_last n q c : n <= 255 -> q <> [] -> change_of_places n (q ++ [n - 1]) = Ret c -> change_of_places n q = Ret c.
Proof.
  intros Hn N. unfold change_of_places. rewrite forM_app. destruct (forM q (add_place n) ([], 0)) as [[sw b]|e| |] eqn:E; cbn [bind]; try discriminate.
  destruct (forM_pos Hn N E) as [Hb Hb']. cbn [snd] in *. cbn [forM].
  destruct (add_place n (sw, b) (n - 1)) as [[sw' b']|e| |] eqn:E2; cbn [bind]; try discriminate.
  destruct (@add_place_inv_even n sw b (n - 1) _ Hn Hb E2) as (H1 & H2 & H3).
  rewrite (@add_place_ok n sw b (n - 1) H1 Hn H2 H3) in E2. injection E2 as <- <-.
  rewrite !b8_small by lia. rewrite !asb_spec by lia. cbn [bind].
  rewrite (@pairs_between_nil (n - 1 + 1) n) by lia. rewrite app_nil_r. intros <-.
  replace n with (n - 1 + 1) at 2 by lia. now rewrite pairs_between_last.
Qed.

(* the characters of printed places *)
Lemma print_bell_first b : b < 256 -> (exists t, print_bell default_symtab b = to_char default_symtab 0 :: t) -> b = 0.
Proof.
  intros H (t & E). unfold print_bell in E. cbn [sym_max default_symtab] in E. destruct (Nat.ltb_spec b 33) as [L|L]; [|discriminate E].
  injection E as E _. destruct (read_char_to_char L) as (c & Ec & R & _). rewrite E in Ec. subst c.
  destruct (@read_char_to_char 0 ltac:(lia)) as (c & Ec & R' & _). subst c. congruence.
Qed.
Lemma print_bell_last b n : b < 256 -> 1 <= n <= 255 -> last (print_bell default_symtab b) zero = to_char default_symtab (n - 1) -> b = n - 1 /\ n <= 33.
Proof.
  intros H Hn. unfold print_bell. cbn [sym_max default_symtab]. destruct (Nat.ltb_spec b 33) as [L|L].
  - cbn [last]. intros E. destruct (read_char_to_char L) as (c & Ec & R & _). destruct (Nat.ltb_spec (n - 1) 33) as [L'|L'].
    + destruct (read_char_to_char L') as (c' & Ec' & R' & _). rewrite <- Ec in R. rewrite <- Ec' in R'. rewrite E, R' in R. injection R as R. split; [auto|lia].
    + unfold to_char in E at 2. cbn [sym_max default_symtab] in E. destruct (Nat.ltb_spec (n - 1) 33); [lia|].
      rewrite E in Ec. subst c. vm_compute in R. discriminate R.
  - rewrite app_comm_cons, last_last. intros E. unfold to_char in E. cbn [sym_max default_symtab] in E.
    destruct (Nat.ltb_spec (n - 1) 33) as [L'|L']; [|discriminate E].
    destruct (read_char_to_char L') as (c' & Ec' & R' & _). unfold to_char in Ec'. cbn [sym_max default_symtab] in Ec'.
    destruct (Nat.ltb_spec (n - 1) 33); [|lia]. rewrite <- Ec', <- E in R'. vm_compute in R'. discriminate R'.
Qed.
Lemma print_bell_small b : b < 33 -> print_bell default_symtab b = [to_char default_symtab b].
Proof. intros H. unfold print_bell. cbn [sym_max default_symtab]. now destruct (Nat.ltb_spec b 33); [|lia]. Qed.

Lemma text_app a b : text (a ++ b) = text a ++ text b.
Proof. unfold text. now rewrite map_app, concat_app. Qed.
Lemma text_nonempty p t : text (p :: t) <> [].
Proof. unfold text. cbn [map concat]. apply print_bell_nonempty. Qed.
Lemma text_nil pl : text pl = [] -> pl = [].
Proof. destruct pl as [|p t]; auto. intros E. now apply text_nonempty in E. Qed.
Lemma last_app_ne {A} (a b : list A) d : b <> [] -> last (a ++ b) d = last b d.
Proof.
  intros N. induction a as [|x a IH]; [reflexivity|]. cbn [app]. rewrite <- IH. destruct (a ++ b) eqn:E; [|reflexivity].
  apply app_eq_nil in E. tauto.
Qed.

Lemma drop_external_spec n pl c : 1 <= n <= 255 -> (forall p, In p pl -> p < 256) -> 1 < length (text pl) ->
  change_of_places n pl = Ret c ->
  exists pl', drop_external default_symtab n (text pl) = text pl' /\ pl' <> [] /\ (forall p, In p pl' -> p < 256) /\ change_of_places n pl' = Ret c.
Proof.
  intros Hn HP HL HC. unfold drop_external. rewrite b8_small by lia.
  (* the first place *)
  assert (A : exists q, (if starts_with (to_char default_symtab 0) (text pl) then tl (text pl) else text pl) = text q /\ q <> [] /\
     (forall p, In p q -> p < 256) /\ change_of_places n q = Ret c /\ (pl = q \/ pl = 0 :: q)).
  { destruct pl as [|p t]; [cbn in HL; lia|]. destruct (starts_with (to_char default_symtab 0) (text (p :: t))) eqn:S.
    - assert (p = 0).
      { apply print_bell_first; [apply HP; now left|]. unfold text in S. cbn [map concat] in S.
        destruct (print_bell default_symtab p) as [|d w] eqn:E; [exfalso; now apply (@print_bell_nonempty p []); rewrite app_nil_r|].
        cbn in S. apply eqc_true in S. subst d. now exists w. }
      subst p. assert (Ht : t <> []) by (intros ->; vm_compute in HL; lia).
      exists t. split; [reflexivity|]. split; [exact Ht|]. split; [intros p Hp; apply HP; now right|]. split; [|now right].
      apply places_drop_first; auto. lia.
    - exists (p :: t). repeat split; auto. discriminate. }
  destruct A as (q & -> & Nq & Hq & Cq & Epl). destruct (text q) as [|x y] eqn:Et; [apply text_nil in Et; contradiction|].
  rewrite <- Et. destruct (eqc (last (text q) zero) (to_char default_symtab (n - 1))) eqn:L.
  2:{ exists q. rewrite Et. rewrite <- Et. auto. }
  apply eqc_true in L. destruct (@exists_last _ q Nq) as (r & z & Er). subst q. rewrite text_app in L.
  assert (Nz : text [z] <> []) by apply text_nonempty. rewrite last_app_ne in L by exact Nz.
  unfold text in L. cbn [map concat] in L. rewrite app_nil_r in L.
  apply print_bell_last in L as [-> L]; [|apply Hq; apply in_or_app; right; now left|lia].
  assert (Ez : text [n - 1] = [to_char default_symtab (n - 1)]).
  { unfold text. cbn [map concat]. rewrite app_nil_r. apply print_bell_small. lia. }
  rewrite text_app, Ez, removelast_last. destruct (text r) as [|x' y'] eqn:Er.
  - apply text_nil in Er. subst r. cbn [app] in *. exists [0]. split; [reflexivity|]. split; [discriminate|]. split; [intros p [<-|[]]; lia|].
    destruct Epl as [->| ->]; [rewrite Ez in HL; cbn in HL; lia|]. apply (@places_drop_last n [0] c); [lia|discriminate|exact HC].
  - rewrite <- Er. exists r. split; [reflexivity|]. assert (Nr : r <> []) by (intros ->; discriminate Er). split; [exact Nr|].
    split; [intros p Hp; apply Hq; apply in_or_app; now left|]. apply places_drop_last; auto. lia.
Qed.

(* printed places are place text *)
Lemma print_bell_text p t : p < 256 -> places_tail t -> places_text (print_bell default_symtab p ++ t).
Proof.
  intros H T. unfold print_bell. cbn [sym_max default_symtab]. destruct (Nat.ltb_spec p 33) as [L|L].
  - cbn [app]. apply pt_char; auto. apply place_char_b.
    assert (G : forallb (fun b => is_alnum (to_char default_symtab b) && negb (is_x (to_char default_symtab b))) (seq 0 33) = true) by (vm_compute; reflexivity).
    rewrite forallb_forall in G. apply (G p). apply in_seq. lia.
  - cbn [app]. rewrite <- app_assoc. cbn [app]. apply pt_group; auto.
    + intros X. assert (D : forallb is_digit (print_nat (p + 1)) = true) by (apply print_nat_f_digits; reflexivity).
      rewrite forallb_forall in D. apply D in X. discriminate X.
    + intros X. assert (D : forallb is_digit (print_nat (p + 1)) = true) by (apply print_nat_f_digits; reflexivity).
      rewrite forallb_forall in D. apply D in X. discriminate X.
Qed.
Lemma text_places pl : pl <> [] -> (forall p, In p pl -> p < 256) -> places_text (text pl).
Proof.
  induction pl as [|p t IH]; intros N H; [contradiction|]. unfold text. cbn [map concat]. apply print_bell_text; [apply H; now left|].
  destruct t as [|p' t]; [constructor|]. apply ptl_more. apply IH; [discriminate|]. intros q Hq. apply H. now right.
Qed.

(* the text of one change *)
Definition item (flags : Z) (c : change) : list ascii :=
  match places c with
  | Ret [] => [cross_symbol flags]
  | Ret pl => if negb (has flags M_EXTERNAL) && (1 <? length (text pl)) then drop_external default_symtab (cn c) (text pl) else text pl
  | _ => []
  end.
Definition is_cross_change (c : change) : bool := match places c with Ret [] => true | _ => false end.
Definition dots (b : bool) : list ascii := if b then [chr "."] else [].

Lemma cross_symbol_char flags : cross_char (cross_symbol flags).
Proof. unfold cross_symbol, cross_char. destruct (has _ _); [|destruct (has _ _); [|destruct (has _ _)]]; auto. Qed.

Lemma single_pn_spec flags out dot first c : cn c <= 255 -> wf_change c ->
  single_pn default_symtab flags (out, dot, first) c =
  Ret (out ++ dots ((has flags M_DOTS || (dot && negb (is_cross_change c))) && negb first) ++ item flags c, negb (is_cross_change c), false).
Proof.
  intros Hn W. unfold single_pn, count_places, is_cross_change, item, change_print, dots. rewrite places_pls by auto. cbn [bind].
  destruct (pls 0 (cn c) (cswaps c)) as [|p t] eqn:E.
  - cbn [length Nat.eqb negb]. rewrite andb_false_r, orb_false_r. reflexivity.
  - replace (length (p :: t) =? 0) with false by reflexivity. rewrite andb_true_r. cbn [negb].
    fold (text (p :: t)). destruct (text (p :: t)) as [|x y] eqn:Et; [now apply text_nonempty in Et|]. rewrite andb_false_r. cbn [bind]. rewrite (orb_comm dot). reflexivity.
Qed.

Lemma item_cross flags c : cn c <= 255 -> wf_change c -> is_cross_change c = true ->
  item flags c = [cross_symbol flags] /\ change_of_pn default_symtab (cn c) (str "X") = Ret c.
Proof.
  intros Hn W H. unfold is_cross_change, item in *. generalize (@change_of_places_places c Hn W). destruct (places c) as [[|p t]|e| |]; try discriminate H.
  cbn [bind]. unfold change_of_places. cbn [forM bind]. intros E. split; [reflexivity|]. exact E.
Qed.
Lemma item_places flags c : cn c <= 255 -> wf_change c -> is_cross_change c = false ->
  places_text (item flags c) /\ change_of_pn default_symtab (cn c) (item flags c) = Ret c.
Proof.
  intros Hn W H. unfold is_cross_change, item in *. generalize (@change_of_places_places c Hn W). rewrite places_pls in * by auto.
  assert (LT : forall p, In p (pls 0 (cn c) (cswaps c)) -> p < cn c) by (intros p; apply pls_lt; auto).
  destruct (pls 0 (cn c) (cswaps c)) as [|p t]; [discriminate H|]. cbn [bind]. intros HC.
  assert (N1 : 1 <= cn c <= 255) by (specialize (LT p (or_introl eq_refl)); lia).
  assert (L256 : forall q, In q (p :: t) -> q < 256) by (intros q Hq; apply LT in Hq; lia).
  destruct (negb (has flags M_EXTERNAL) && (1 <? length (text (p :: t)))) eqn:B.
  - apply andb_true_iff in B as [_ B]. apply Nat.ltb_lt in B. destruct (drop_external_spec N1 L256 B HC) as (pl & -> & Np & Hp & C).
    split; [now apply text_places|]. now rewrite text_parse.
  - split; [apply text_places; auto; discriminate|]. rewrite text_parse; auto. discriminate.
Qed.

(* the text of a list of changes *)
Fixpoint sect (flags : Z) (dot first : bool) (cs : list change) : list ascii :=
  match cs with
  | [] => []
  | c :: cs => dots ((has flags M_DOTS || (dot && negb (is_cross_change c))) && negb first) ++ item flags c ++ sect flags (negb (is_cross_change c)) false cs
  end.

Lemma sect_text flags n cs : n <= 255 -> Forall (fun c => cn c = n /\ wf_change c) cs -> forall dot first,
  exists w s, sect flags dot first cs = w ++ s /\ separator w /\ changes_text default_symtab n s cs /\
    (first = true -> w = []) /\ (first = false -> dot = true -> w = [] -> forall c t, s = c :: t -> cross_char c).
Proof.
  intros Hn F. induction F as [|c cs [Hc W] F IH]; intros dot first.
  - exists [], []. split; [reflexivity|]. split; [left; constructor|]. split; [constructor|]. split; [auto|]. intros; discriminate.
  - cbn [sect]. set (w := dots _). destruct (IH (negb (is_cross_change c)) false) as (w' & s & -> & W' & H & _ & X).
    exists w, (item flags c ++ w' ++ s). split; [reflexivity|]. split.
    { unfold w, dots. destruct (_ && _); [|left; constructor]. right. exists [], []. repeat split; constructor. }
    split.
    { destruct (is_cross_change c) eqn:E.
      - destruct (@item_cross flags c ltac:(lia) W E) as [-> P]. cbn [app]. rewrite Hc in P. apply ct_cross; auto. apply cross_symbol_char.
      - destruct (@item_places flags c ltac:(lia) W E) as [P Q]. rewrite Hc in Q. apply ct_places; auto. intros Ew. now apply X. }
    split.
    { intros ->. unfold w. cbn [negb]. rewrite andb_false_r. reflexivity. }
    intros -> -> Ew d t Es. unfold w in Ew. cbn [andb negb] in Ew. rewrite andb_true_r in Ew.
    destruct (is_cross_change c) eqn:E; [|cbn [negb] in Ew; rewrite orb_true_r in Ew; discriminate Ew].
    destruct (@item_cross flags c ltac:(lia) W E) as [Ei _]. rewrite Ei in Es. injection Es as <- _. apply cross_symbol_char.
Qed.
Lemma sect_changes flags n cs dot : n <= 255 -> Forall (fun c => cn c = n /\ wf_change c) cs ->
  changes_text default_symtab n (sect flags dot true cs) cs.
Proof. intros Hn F. destruct (sect_text flags Hn F dot true) as (w & s & -> & _ & H & X & _). now rewrite (X eq_refl). Qed.

Lemma mget_nat m k : mget m (Z.of_nat k) = vget (mch m) k.
Proof. unfold mget. destruct (Z.ltb_spec (Z.of_nat k) 0); [lia|]. now rewrite Nat2Z.id. Qed.

Lemma section_loop_spec flags n m a k fuel out dot first : n <= 255 -> Forall (fun c => cn c = n /\ wf_change c) (mch m) ->
  a + k <= length (mch m) -> k < fuel ->
  section_loop fuel default_symtab m (Z.of_nat a) (Z.of_nat (a + k)) flags (out, dot, first) = Ret (out ++ sect flags dot first (firstn k (skipn a (mch m)))).
Proof.
  intros Hn F. revert a fuel out dot first. induction k as [|k IH]; intros a fuel out dot first L Hf.
  - destruct fuel; [lia|]. cbn [section_loop]. destruct (Z.ltb_spec (Z.of_nat a) (Z.of_nat (a + 0))); [lia|]. cbn [fst firstn sect]. now rewrite app_nil_r.
  - destruct fuel as [|fuel]; [lia|]. cbn [section_loop]. destruct (Z.ltb_spec (Z.of_nat a) (Z.of_nat (a + S k))); [|lia].
    rewrite mget_nat. destruct (nth_error (mch m) a) as [c|] eqn:E; [|apply nth_error_None in E; lia].
    unfold vget. rewrite E. cbn [bind]. assert (Hc := proj1 (Forall_forall _ _) F c (nth_error_In _ _ E)). destruct Hc as [Hc W].
    rewrite single_pn_spec by (auto; lia). cbn [bind].
    replace (Z.of_nat a + 1)%Z with (Z.of_nat (S a)) by lia. replace (a + S k) with (S a + k) by lia. rewrite IH by lia.
    assert (Es : skipn a (mch m) = c :: skipn (S a) (mch m)).
    { clear -E. revert a E. induction (mch m) as [|x l IHl]; intros [|a] E; try discriminate; cbn in *; [now injection E as ->|]. now apply IHl. }
    rewrite Es. cbn [firstn sect]. rewrite <- !app_assoc. reflexivity.
Qed.
Lemma section_spec flags n m a k out : n <= 255 -> Forall (fun c => cn c = n /\ wf_change c) (mch m) ->
  a + k <= length (mch m) -> (Z.of_nat (length (mch m)) < 2 ^ 32)%Z ->
  section default_symtab m (Z.of_nat a) (Z.of_nat (a + k)) flags out = Ret (out ++ sect flags false true (firstn k (skipn a (mch m)))).
Proof.
  intros Hn F L LZ. unfold section. rewrite !Z.mod_small by lia. apply (@section_loop_spec flags n); auto. lia.
Qed.
