(* P_Literal2.v - transpositions and patterns *)
From Verif Require Import Base M_Bell M_Change M_Math M_Row M_PN M_Music M_Stream M_Method M_Gsiril M_Parser Spec_Row Spec_Dim Spec_Litelib
  Spec_Music Spec_Music2 P_Bell P_Change2 P_Row P_RowText P_Music P_Music2 P_Music3 P_Music4 P_Music5 P_Parser4 M_Literal Spec_Literal P_Literal.
Set Implicit Arguments. Unset Strict Implicit.
Open Scope nat_scope.

Lemma read_bells_small fuel : forall s l, read_bells fuel default_symtab s = Ret l -> Forall (fun b => b < 256) l.
Proof.
  induction fuel as [|fuel IH]; intros [|c t] l; cbn [read_bells]; try discriminate; try (intros K; injection K as <-; constructor).
  destruct (read_extended_total c t) as [(p & rest & E & _ & L)|E]; rewrite E; cbn [bind]; [|discriminate].
  intros K. apply bind_ret_inv in K as (l' & E' & K). injection K as <-. constructor; [exact L|]. now apply (IH rest).
Qed.
Lemma row_of_string_256 s r : row_of_string default_symtab s = Ret r -> row256 r.
Proof.
  intros E. destruct (row_of_string_total s) as (o & Eo & H). rewrite E in Eo. subst o. split; [exact H|].
  unfold row_of_string in E. apply bind_ret_inv in E as (d & Ed & E). unfold row_of_vector in E. apply bind_ret_inv in E as (_ & _ & E).
  injection E as <-. apply read_bells_small in Ed. destruct (le_lt_dec (length d) 256) as [|G]; [auto|exfalso].
  assert (K : In 256 d). { apply (Permutation_in _ (Permutation_sym H)). apply in_seq. lia. }
  rewrite Forall_forall in Ed. specialize (Ed _ K). lia.
Qed.
Lemma pad_length n x : length (pad n x) = Nat.max n (length x).
Proof. unfold pad. rewrite app_length, seq_length. lia. Qed.
Lemma transp_cases n s : 1 <= n <= 256 ->
  (exists r, row_of_string default_symtab s = Ret r /\ row256 r /\
     transp_node default_symtab n s = if length r <=? n then Ret (ETransp (pad n r)) else fail) \/
  (exists x, row_of_string default_symtab s = Throw x /\ transp_node default_symtab n s = Throw x).
Proof.
  intros Hn. unfold transp_node. destruct (Nat.eqb_spec n 0); [lia|]. destruct (row_of_string_total s) as (o & E & T). rewrite E.
  destruct o as [r|x| |]; try contradiction; [left|right; eauto]. exists r. pose proof (row_of_string_256 E) as R. split; [auto|]. split; [auto|].
  cbn [bind]. rewrite mul_id_l by (auto; lia). cbn [bind]. rewrite pad_length.
  destruct (Nat.leb_spec (length r) n), (Nat.eqb_spec (Nat.max n (length r)) n); auto; lia.
Qed.

(* patterns *)
Lemma brackets_ok sym (OK : sym_ok sym) s : forall sq, check_expression_from sym s sq = Ret Datatypes.tt -> brackets sq s = Ret Datatypes.tt.
Proof.
  induction s as [|c s IH]; intros sq; cbn [check_expression_from brackets]; [auto|].
  destruct (is_symbol sym c) eqn:E.
  - assert (D : forall d, is_symbol sym d = false -> eqc c d = false) by (intros d Hd; apply eqc_diff; congruence).
    rewrite (D _ (so_open OK)), (D _ (so_close OK)), (D _ (so_star OK)), (D _ (so_any OK)). cbn [orb]. apply IH.
  - rewrite orb_comm. destruct (eqc c c_star || eqc c c_any) eqn:E1.
    + destruct (eqc c c_open) eqn:E2. { apply eqc_t in E2. subst c. discriminate E1. }
      destruct (eqc c c_close) eqn:E3. { apply eqc_t in E3. subst c. discriminate E1. }
      destruct sq; [discriminate|apply IH].
    + destruct (eqc c c_open); [destruct sq; [discriminate|apply IH]|]. destruct (eqc c c_close); [destruct sq; [apply IH|discriminate]|discriminate].
Qed.
Lemma brackets_tame s : forall sq, tame (brackets sq s).
Proof.
  induction s as [|c s IH]; intros sq; cbn [brackets]; [exact I|]. destruct (eqc c c_open); [destruct sq; [exact I|apply IH]|].
  destruct (eqc c c_close); [destruct sq; [apply IH|exact I]|]. destruct (_ || _); [destruct sq; [exact I|apply IH]|apply IH].
Qed.

Lemma in_text c p : In c (text p) <-> exists t, In t p /\ In c (item_text t).
Proof.
  unfold text. rewrite in_concat. split.
  - intros (l & Hl & Hc). apply in_map_iff in Hl as (t & <- & Ht). eauto.
  - intros (t & Ht & Hc). exists (item_text t). split; [now apply in_map|exact Hc].
Qed.
Lemma in_item c t : In c (item_text t) -> In c (named_in t) \/ In c (str "*?[]").
Proof.
  destruct t as [d| |l|]; cbn [item_text named_in]; intros H; auto.
  - right. destruct H as [<-|[]]. cbn; tauto.
  - destruct H as [<-|H]; [right; cbn; tauto|]. apply in_app_or in H as [H|[<-|[]]]; [auto|right; cbn; tauto].
  - right. destruct H as [<-|[]]. cbn; tauto.
Qed.
Lemma named_item c t : In c (named_in t) -> In c (item_text t).
Proof. destruct t as [d| |l|]; cbn [item_text named_in]; intros H; try contradiction; auto. right. apply in_or_app. now left. Qed.
Lemma has_char_in c l : has_char c l = true <-> In c l.
Proof.
  unfold has_char. rewrite existsb_exists. split.
  - intros (x & H & E). apply eqc_t in E. now subst.
  - intros H. exists c. split; [exact H|apply eqc_same].
Qed.
Lemma in_print n c : n <= 256 -> In c (row_print default_symtab (rounds n)) <-> exists b, b < n /\ c = to_char default_symtab b.
Proof.
  intros Hn. unfold row_print. rewrite rounds_id by lia. rewrite in_map_iff. split.
  - intros (b & E & Hb). apply in_seq in Hb. exists b. split; [lia|auto].
  - intros (b & Hb & E). exists b. split; [auto|]. apply in_seq. lia.
Qed.
Lemma to_char_symbol b : b < 33 -> is_symbol default_symtab (to_char default_symtab b) = true.
Proof. intros H. do 33 (destruct b as [|b]; [reflexivity|]). lia. Qed.
Lemma named_symbol p t c : pattern_ok default_symtab p -> In t p -> In c (named_in t) -> is_symbol default_symtab c = true.
Proof.
  unfold pattern_ok. rewrite Forall_forall. intros H Ht Hc. specialize (H t Ht). destruct t as [d| |l|]; cbn in H, Hc; try contradiction.
  - destruct Hc as [<-|[]]. exact H.
  - rewrite Forall_forall in H. auto.
Qed.
Lemma spelled_ok n p : spelled n p -> pattern_ok default_symtab p.
Proof.
  intros H. apply Forall_forall. intros t Ht. destruct t as [c| |l|]; cbn; auto.
  - destruct (H _ c Ht) as (b & _ & L & ->); [cbn; auto|]. now apply to_char_symbol.
  - apply Forall_forall. intros c Hc. destruct (H _ c Ht) as (b & _ & L & ->); [exact Hc|]. now apply to_char_symbol.
Qed.
Lemma allowed_spelled n p : n <= 256 -> pattern_ok default_symtab p ->
  (forallb (fun c => has_char c (row_print default_symtab (rounds n) ++ str "*?[]")) (text p) = true <-> spelled n p).
Proof.
  intros Hn P. rewrite forallb_forall. split.
  - intros H t c Ht Hc. pose proof (named_symbol P Ht Hc) as Sc. assert (K : In c (text p)) by (apply in_text; eauto using named_item).
    specialize (H c K). apply has_char_in, in_app_or in H as [H|H].
    + apply (in_print c Hn) in H as (b & Hb & ->). exists b. split; [auto|]. split; [|auto].
      destruct (le_lt_dec 33 b) as [G|]; [exfalso|auto]. unfold to_char in Sc. cbn [sym_max default_symtab] in Sc. destruct (Nat.ltb_spec b 33); [lia|]. discriminate Sc.
    + exfalso. cbn in H. destruct H as [<-|[<-|[<-|[<-|[]]]]]; discriminate Sc.
  - intros H c Hc. apply has_char_in, in_or_app. apply in_text in Hc as (t & Ht & Hc). apply in_item in Hc as [Hc|Hc]; [left|now right].
    destruct (H t c Ht Hc) as (b & Hb & _ & ->). apply in_print; eauto.
Qed.
Lemma spelled_below n p : spelled n p -> bells_below default_symtab n p.
Proof.
  intros H t c x Ht Hc Hx. destruct (H t c Ht Hc) as (b & Hb & L & ->). unfold names in Hx. destruct (read_char_to_char L) as (c & <- & E & _).
  assert (x = b) by congruence. now subst.
Qed.

Lemma pattern_iff junk n s e : n <= 256 ->
  pattern_node default_symtab junk n s = Ret e <->
  exists p, read_as default_symtab n s (text p) /\ spelled n p /\ e = EPattern (pattern_bool default_symtab junk n (mkMD (text p) 0 0 1 1 [])).
Proof.
  intros Hn. assert (Hi : (Z.of_nat n <= int_max)%Z) by (unfold int_max; lia). unfold pattern_node. split.
  - intros H. apply bind_ret_inv in H as (t & Et & H). apply (expand_iff default_symtab Hi) in Et. apply bind_ret_inv in H as (d & Ed & H).
    unfold md_make, rw_set in Ed. apply bind_ret_inv in Ed as (w & Ew & Ed). apply bind_ret_inv in Ew as (u & Eu & Ew). destruct u.
    destruct (proj1 (check_parse default_sym_ok t) Eu) as (p & Pp & ->). cbn in Ew.
    assert (w = mkRW (text p) 0) by congruence. subst w. cbn [rw_pat] in Ed. assert (d = mkMD (text p) 0 0 1 1 []) by congruence. subst d. cbn [md_pat] in H.
    unfold validate_regex in H. destruct (forallb _ (text p)) eqn:F; [|discriminate]. rewrite (brackets_ok default_sym_ok Eu) in H. cbn [bind] in H.
    exists p. split; [exact Et|]. split; [now apply (allowed_spelled Hn Pp)|congruence].
  - intros (p & R & Sp & ->). rewrite (proj2 (expand_iff default_symtab Hi s (text p)) R). cbn [bind]. pose proof (spelled_ok Sp) as Pp.
    unfold md_make, rw_set. pose proof (text_default_check default_sym_ok Pp) as C. rewrite C. cbn [bind check_bells Nat.eqb rw_pat md_pat].
    unfold validate_regex. rewrite (proj2 (allowed_spelled Hn Pp) Sp). unfold check_expression in C. now rewrite (brackets_ok default_sym_ok C).
Qed.
Lemma check_tame s : forall sq, tame (check_expression_from default_symtab s sq).
Proof.
  induction s as [|c s IH]; intros sq; cbn [check_expression_from]; [destruct sq; exact I|]. destruct (is_symbol _ c); [apply IH|].
  destruct (_ || _); [destruct sq; [exact I|apply IH]|]. destruct (eqc c c_open); [destruct sq; [exact I|apply IH]|].
  destruct (eqc c c_close); [destruct sq; [apply IH|exact I]|exact I].
Qed.
Lemma pattern_tame junk n s : n <= 256 -> sane n s -> tame (pattern_node default_symtab junk n s).
Proof.
  intros Hn S. assert (Hi : (Z.of_nat n <= int_max)%Z) by (unfold int_max; lia). unfold pattern_node.
  apply tame_bind; [apply (expand_exprs_tame Hi read_char_tame S)|]. intros t _. apply tame_bind.
  - unfold md_make, rw_set. apply tame_bind; [|intros; exact I]. apply tame_bind; [apply check_tame|]. intros u _. exact I.
  - intros d _. apply tame_bind; [|intros; exact I]. unfold validate_regex. destruct (forallb _ _); [apply brackets_tame|exact I].
Qed.

(* the score of one row *)
Lemma score_row junk n p r : 1 <= n -> clean default_symtab n p -> bells_below default_symtab n p -> length r = n -> NoDup r ->
  exists z, pattern_score default_symtab junk n (mkMD (text p) 0 0 1 1 []) r = Ret z /\ (z <> 0%Z <-> exists w, matches1 default_symtab p r w).
Proof.
  intros Hn C B Hr D. unfold pattern_score. pose proof (proj1 C) as Pp.
  destruct (@history_push_total _ n default_sym_ok [] _ p 1 1 (hist_make _ _) Pp B) as (d & m & Ed & Ep & H).
  assert (d = mkMD (text p) 0 0 1 1 []). { unfold md_make, rw_set in Ed. rewrite (text_default_check default_sym_ok Pp) in Ed. cbn in Ed. congruence. }
  subst d. rewrite Ep. cbn [bind].
  destruct (@history_counts _ n default_sym_ok _ m H junk [r] false (Forall_cons _ (conj Hr D) (Forall_nil _))) as (m' & E & L & K).
  assert (R : reset_music m = m).
  { unfold music_push in Ep. apply bind_ret_inv in Ep as (u & _ & Ep). apply bind_ret_inv in Ep as (top & _ & Ep). cbn in Ep. assert (m = mkMusic [mkMD (text p) 0 0 1 1 []] top n) by congruence. subst m. reflexivity. }
  unfold process_rows in E. rewrite R in E. cbn [forM] in E. apply bind_ret_inv in E as ([m1 b1] & E & E2). cbn [fst snd] in E.
  apply bind_ret_inv in E as ([m2 b2] & E & E3). cbn [bind forM fst snd] in *.
  apply bind_ret_inv in E as ([m3 b3] & E & E4). rewrite E. cbn [bind].
  assert (m3 = m') by congruence. subst m3. cbn [length app] in L.
  destruct (K 0 p 1%Z 1%Z eq_refl C) as (d & h & bk & Hd & _ & S1 & S2 & T & C1 & C2).
  destruct (mu_info m') as [|d' [|? ?]] eqn:EI; try discriminate L. cbn in Hd. assert (d' = d) by congruence. subst d'.
  unfold get_score. rewrite EI. cbn [forM]. unfold md_total. rewrite S1, S2, C1, C2.
  inversion T as [|r' l' h' b' P T'|r' l' h' b' P T'|r' l' back h' b' P T']; subst; inversion T'; subst.
  - exists 1%Z. split; [reflexivity|]. split; [auto|discriminate].
  - exists 0%Z. split; [reflexivity|]. split; [congruence|contradiction].
Qed.
