(* P_Litelib3.v - what method_stream writes, litelib reads back. *)
From Verif Require Import Base M_Bell M_Change M_Row M_PN M_Method M_MethClass M_Dim M_Names M_Stream M_Litelib Spec_Dim Spec_Litelib Spec_Litelib2 P_Bell P_Dim P_Litelib P_Litelib2.
Set Implicit Arguments.
Unset Strict Implicit.
Open Scope nat_scope.

(* the characters of printed place notation *)
Definition okc (c : ascii) : bool := nonwhite c && noncolon c && negb (nat_of_ascii c =? 239).
Definition oks (s : list ascii) : bool := forallb okc s.
Lemma oks_app a b : oks (a ++ b) = oks a && oks b.
Proof. apply forallb_app. Qed.
Lemma oks_incl a b : incl a b -> oks b = true -> oks a = true.
Proof. unfold oks. intros I H. rewrite forallb_forall in *. auto. Qed.
Lemma digit_okc c : is_digit c = true -> okc c = true.
Proof.
  unfold is_digit, code, okc, nonwhite, noncolon, is_white, is_blank, is_colon. intros H. apply andb_true_iff in H as [A B]. apply Nat.leb_le in A, B.
  repeat match goal with |- context [?x =? ?y] => destruct (Nat.eqb_spec x y) end; cbn; try reflexivity; lia.
Qed.
Lemma print_nat_oks n : oks (print_nat n) = true.
Proof. destruct (print_nat_digits n) as [[D _] _]. unfold oks. rewrite forallb_forall in *. intros c H. apply digit_okc. auto. Qed.
Lemma print_bell_oks b : oks (print_bell default_symtab b) = true.
Proof.
  unfold print_bell. destruct (b <? sym_max default_symtab) eqn:E.
  - apply Nat.ltb_lt in E. cbn [sym_max default_symtab] in E.
    assert (X : forallb (fun b => oks [to_char default_symtab b]) (seq 0 33) = true) by (vm_compute; reflexivity).
    rewrite forallb_forall in X. apply X. apply in_seq. lia.
  - change (chr "{" :: print_nat (b + 1) ++ [chr "}"]) with ([chr "{"] ++ print_nat (b + 1) ++ [chr "}"]). rewrite !oks_app, print_nat_oks. reflexivity.
Qed.
Lemma change_print_oks c s : change_print default_symtab Cross_default c = Ret s -> oks s = true.
Proof.
  unfold change_print. destruct (places c) as [pl|e| |]; try discriminate. cbn [bind]. intros H. injection H as <-.
  destruct (_ && _); [reflexivity|]. unfold oks. rewrite forallb_forall. intros x Hx. apply in_concat in Hx as (l & Hl & Hx). apply in_map_iff in Hl as (b & <- & _).
  assert (Y := print_bell_oks b). unfold oks in Y. rewrite forallb_forall in Y. auto.
Qed.
Lemma removelast_incl A (l : list A) : incl (removelast l) l.
Proof. induction l as [|x l IH]; [intros y H; exact H|]. cbn [removelast]. destruct l; [intros y H; destruct H|]. intros y [->|H]; [now left|right; auto]. Qed.
Lemma tl_incl A (l : list A) : incl (tl l) l.
Proof. destruct l; intros y H; [exact H|now right]. Qed.
Lemma drop_external_oks n p : oks p = true -> oks (drop_external default_symtab n p) = true.
Proof.
  intros H. unfold drop_external. set (q := if starts_with _ p then tl p else p).
  assert (Q : oks q = true) by (unfold q; destruct (starts_with _ p); [apply (oks_incl (@tl_incl _ p)); exact H|exact H]).
  set (r := match q with [] => [] | _ :: _ => _ end).
  assert (R : oks r = true).
  { unfold r. destruct q as [|a q]; [reflexivity|]. destruct (eqc _ _); [|exact Q]. apply (oks_incl (@removelast_incl _ (a :: q))). exact Q. }
  destruct r; [vm_compute; reflexivity|exact R].
Qed.
Lemma single_pn_oks flags st c st' : single_pn default_symtab flags st c = Ret st' -> oks (fst (fst st)) = true -> oks (fst (fst st')) = true.
Proof.
  unfold single_pn. destruct st as [[out dot] first]. cbn [fst]. destruct (count_places c) as [k|e| |]; try discriminate. cbn [bind].
  assert (D : forall b : bool, oks (if b then [chr "."] else []) = true) by (intros []; reflexivity).
  destruct (k =? 0).
  - intros H O. injection H as <-. cbn [fst]. rewrite !oks_app, O, D. unfold cross_symbol. destruct (has flags M_UCROSS), (has flags M_LCROSS), (has flags M_DASH); reflexivity.
  - destruct (change_print default_symtab Cross_default c) as [p|e| |] eqn:E; try discriminate. cbn [bind]. intros H O. injection H as <-. cbn [fst].
    apply change_print_oks in E. set (q := if negb (has flags M_EXTERNAL) && _ then _ else _). assert (Q : oks q = true) by (unfold q; destruct (negb _ && _); [now apply drop_external_oks|exact E]).
    now rewrite !oks_app, O, D, Q.
Qed.
Lemma section_oks flags m fuel : forall i e st s, section_loop fuel default_symtab m i e flags st = Ret s -> oks (fst (fst st)) = true -> oks s = true.
Proof.
  induction fuel as [|fuel IH]; intros i e st s; cbn [section_loop]; destruct (i <? e)%Z; try discriminate.
  - intros H O. injection H as <-. exact O.
  - destruct (mget m i) as [c|x| |]; try discriminate. cbn [bind]. destruct (single_pn default_symtab flags st c) as [st'|x| |] eqn:E; try discriminate. cbn [bind].
    intros H O. apply (IH _ _ _ _ H). eapply single_pn_oks; eauto.
  - intros H O. injection H as <-. exact O.
Qed.
Lemma format_oks m flags s : format default_symtab m flags = Ret s -> oks s = true.
Proof.
  unfold format. set (X := if has flags M_SYMMETRY && _ then _ else _). destruct X as [o|e| |]; try discriminate. cbn [bind]. destruct o as [sp|].
  - set (out := if negb (sp =? 0)%Z then _ else _). assert (O : oks out = true) by (unfold out; destruct (negb _); [reflexivity|destruct (has _ _); reflexivity]).
    destruct (section default_symtab m 0 (sp + 1) flags out) as [t|e| |] eqn:E; try discriminate. cbn [bind].
    assert (T : oks t = true) by (unfold section in E; eapply section_oks; [exact E|exact O]).
    destruct (has flags M_OMIT_LH); [intros H; injection H as <-; exact T|]. unfold section. intros H. eapply section_oks; [exact H|]. cbn [fst].
    rewrite !oks_app, T. clear. destruct (negb _); [reflexivity|destruct (has flags M_PLUS); reflexivity].
  - unfold section. intros H. eapply section_oks; [exact H|]. cbn [fst]. destruct (has flags M_PLUS); reflexivity.
Qed.

(* ---- the lines written ---- *)
Lemma lines_line l t : no_nl l = true -> lines (l ++ newline :: t) = l :: lines t.
Proof.
  induction l as [|c l IH]; [reflexivity|]. cbn [no_nl forallb app lines]. intros H. apply andb_true_iff in H as [H1 H2]. apply negb_true_iff in H1.
  rewrite H1, (IH H2). reflexivity.
Qed.
Definition tail_of (form : name_form) (e : out_entry) : list ascii := (match form with nf_none => [] | _ => [tab] end) ++ text_written form e.
Lemma stream_line_eq inc form e : stream_line inc form e = ((if inc then print_int (oe_bells e) ++ [chr ":"] else []) ++ oe_pn e ++ tail_of form e) ++ [newline].
Proof. unfold stream_line, tail_of, text_written. destruct form; rewrite <- !app_assoc; reflexivity. Qed.
Lemma white_no_nl s : forallb nonwhite s = true -> no_nl s = true.
Proof.
  unfold no_nl. intros H. rewrite forallb_forall in *. intros c Hc. specialize (H c Hc). unfold nonwhite, is_white, is_nl in *. destruct (nat_of_ascii c =? 10); [|reflexivity].
  now rewrite orb_true_r in H.
Qed.
Lemma print_int_chars z : forallb nonwhite (print_int z) = true /\ forallb noncolon (print_int z) = true /\ exists c t, print_int z = c :: t /\ okc c = true.
Proof.
  assert (P : oks (print_int z) = true).
  { unfold print_int. destruct (z <? 0)%Z; [|apply print_nat_oks]. change (chr "-" :: print_nat (Z.to_nat (- z))) with ([chr "-"] ++ print_nat (Z.to_nat (- z))). rewrite oks_app, print_nat_oks. reflexivity. }
  unfold oks in P. split; [|split].
  - rewrite forallb_forall in *. intros c H. specialize (P c H). unfold okc in P. now apply andb_true_iff in P as [[P _]%andb_true_iff _].
  - rewrite forallb_forall in *. intros c H. specialize (P c H). unfold okc in P. now apply andb_true_iff in P as [[_ P]%andb_true_iff _].
  - assert (N : print_int z <> []).
    { unfold print_int. destruct (z <? 0)%Z; [discriminate|]. destruct (print_nat_head (Z.to_nat z)) as (c & t & -> & _). discriminate. }
    destruct (print_int z) as [|c t]; [congruence|]. exists c, t. split; [reflexivity|]. cbn in P. now apply andb_true_iff in P.
Qed.
Lemma print_int_text z : (int_min <= z <= int_max)%Z -> int_text (print_int z) z.
Proof.
  intros B. destruct (Z.ltb_spec z 0) as [H|H].
  - rewrite print_int_neg by exact H. destruct (@print_int_pos (- z) ltac:(lia)) as [D V]. exists [], (str "-"), (print_int (- z)), [].
    rewrite app_nil_r. split; [reflexivity|]. split; [reflexivity|]. split; [reflexivity|]. split; [exact D|]. split; [|exact B]. left. split; [reflexivity|]. rewrite V. lia.
  - destruct (@print_int_pos z H) as [D V]. exists [], [], (print_int z), [].
    rewrite app_nil_r. split; [reflexivity|]. split; [reflexivity|]. split; [reflexivity|]. split; [exact D|]. split; [|exact B]. right. split; [auto|]. now rewrite V.
Qed.
Lemma nonwhite_blank c : nonwhite c = true -> is_blank c = false.
Proof. unfold nonwhite, is_white. destruct (is_blank c); [discriminate|reflexivity]. Qed.
Lemma tail_head form e : match tail_of form e with [] => True | c :: _ => nonwhite c = false end.
Proof. unfold tail_of. destruct form; cbn; auto. Qed.
Lemma tail_trim form e : trimmed (text_written form e) = text_written form e -> trimmed (tail_of form e) = text_written form e.
Proof. unfold tail_of. destruct form; cbn [app]; intros H; try exact H; rewrite <- H at 2; unfold trimmed; cbn [drop_while]; change (is_white tab) with true; reflexivity. Qed.

Definition line_text (inc : bool) (form : name_form) (e : out_entry) : list ascii :=
  (if inc then print_int (oe_bells e) ++ [chr ":"] else []) ++ oe_pn e ++ tail_of form e.
Lemma body_of l w r : l = w ++ r -> forallb nonwhite w = true -> w <> [] -> match r with [] => True | c :: _ => nonwhite c = false end ->
  body l = l /\ blank_line l = false /\ word l = w /\ payload_of l = trimmed r.
Proof.
  intros -> W N R. assert (B : body (w ++ r) = w ++ r).
  { destruct w as [|c w]; [congruence|]. unfold body. cbn [app drop_while]. cbn in W. apply andb_true_iff in W as [W _]. now rewrite (nonwhite_blank W). }
  unfold blank_line, word, payload_of. rewrite B. destruct (take_app W R) as [-> ->]. destruct w; [congruence|]. auto.
Qed.
Lemma line_inc form e : writable form e -> (int_min <= oe_bells e <= int_max)%Z ->
  let l := line_text true form e in
  blank_line l = false /\ bells_given l (oe_bells e) /\ pn_of l = oe_pn e /\ payload_of l = text_written form e.
Proof.
  intros (P & N & T) B l. destruct (print_int_chars (oe_bells e)) as (C1 & C2 & c0 & t0 & C3 & _).
  set (w := print_int (oe_bells e) ++ chr ":" :: oe_pn e).
  assert (El : l = w ++ tail_of form e) by (unfold l, w, line_text; rewrite <- !app_assoc; reflexivity).
  assert (W : forallb nonwhite w = true) by (unfold w; rewrite forallb_app; cbn [forallb]; rewrite C1, P; reflexivity).
  destruct (body_of El W) as (B1 & B2 & B3 & B4); [unfold w; rewrite C3; discriminate|apply tail_head|].
  split; [exact B2|]. unfold bells_given, bells_text, pn_of. rewrite B3.
  assert (EX : existsb is_colon w = true) by (unfold w; rewrite existsb_app; cbn [existsb]; change (is_colon (chr ":")) with true; now rewrite orb_true_r). rewrite EX.
  assert (TD : take_while noncolon w = print_int (oe_bells e) /\ drop_while noncolon w = chr ":" :: oe_pn e) by (unfold w; now apply take_app).
  destruct TD as [-> ->]. split; [now apply print_int_text|]. split; [reflexivity|]. rewrite B4. now apply tail_trim.
Qed.
Lemma line_noinc form e : writable form e -> oe_pn e <> [] -> forallb noncolon (oe_pn e) = true ->
  let l := line_text false form e in
  blank_line l = false /\ bells_given l 0 /\ pn_of l = oe_pn e /\ payload_of l = text_written form e.
Proof.
  intros (P & N & T) NE C l. assert (El : l = oe_pn e ++ tail_of form e) by reflexivity.
  destruct (body_of El P NE (tail_head form e)) as (B1 & B2 & B3 & B4). split; [exact B2|]. unfold bells_given, bells_text, pn_of. rewrite B3.
  assert (EX : existsb is_colon (oe_pn e) = false).
  { destruct (existsb is_colon (oe_pn e)) eqn:E; [|reflexivity]. apply existsb_exists in E as (c & I & E). rewrite forallb_forall in C. specialize (C _ I). unfold noncolon in C. now rewrite E in C. }
  rewrite EX. split; [reflexivity|]. split; [reflexivity|]. rewrite B4. now apply tail_trim.
Qed.
Lemma line_no_nl inc form e : writable form e -> no_nl (line_text inc form e) = true.
Proof.
  intros (P & N & T). unfold line_text, no_nl, tail_of. rewrite !forallb_app. fold (no_nl (oe_pn e)). fold (no_nl (text_written form e)). rewrite (white_no_nl P), N.
  rewrite !andb_true_r. apply andb_true_iff. split; [|destruct form; reflexivity]. destruct inc; [|reflexivity]. rewrite forallb_app. fold (no_nl (print_int (oe_bells e))).
  rewrite (white_no_nl (proj1 (print_int_chars _))). reflexivity.
Qed.
Lemma stream_lines inc form es : Forall (writable form) es -> lines (stream_out inc form es) = map (line_text inc form) es.
Proof.
  unfold stream_out. induction 1 as [|e es H F IH]; [reflexivity|]. cbn [map concat]. rewrite stream_line_eq. fold (line_text inc form e).
  rewrite <- app_assoc. cbn [app]. rewrite lines_line by now apply line_no_nl. now rewrite IH.
Qed.

Lemma entries_inc req form es : Forall (fun e => writable form e /\ (int_min <= oe_bells e <= int_max)%Z /\ oe_bells e <> 0%Z) es ->
  entries req (map (line_text true form) es) (map (fun e => (oe_bells e, oe_pn e, text_written form e)) (filter (wanted_b' req) es)).
Proof.
  induction 1 as [|e es (W & B & Z) F IH]; [constructor|]. cbn [map filter]. destruct (line_inc W B) as (H1 & H2 & H3 & H4).
  change (wanted_b' req e) with ((req =? 0)%Z || (oe_bells e =? req)%Z). destruct (Z.eqb_spec req 0) as [E|E]; cbn [orb].
  - cbn [map]. replace (oe_bells e, oe_pn e, text_written form e) with (entry_of req (oe_bells e) (line_text true form e)).
    + apply en_take; auto. unfold wanted. now rewrite (proj2 (Z.eqb_eq _ _) E).
    + unfold entry_of. rewrite (proj2 (Z.eqb_eq _ _) E), H3, H4. reflexivity.
  - destruct (Z.eqb_spec (oe_bells e) req) as [E2|E2].
    + cbn [map]. replace (oe_bells e, oe_pn e, text_written form e) with (entry_of req (oe_bells e) (line_text true form e)).
      * apply en_take; auto. unfold wanted. rewrite (proj2 (Z.eqb_neq _ _) E). now left.
      * unfold entry_of. rewrite (proj2 (Z.eqb_neq _ _) E), H3, H4, E2. reflexivity.
    + eapply en_other; eauto. unfold wanted. rewrite (proj2 (Z.eqb_neq _ _) E). tauto.
Qed.
Lemma entries_noinc req form es : req <> 0%Z -> Forall (fun e => writable form e /\ oe_pn e <> [] /\ forallb noncolon (oe_pn e) = true) es ->
  entries req (map (line_text false form) es) (map (fun e => (req, oe_pn e, text_written form e)) es).
Proof.
  intros R. induction 1 as [|e es (W & B & Z) F IH]; [constructor|]. cbn [map]. destruct (line_noinc W B Z) as (H1 & H2 & H3 & H4).
  replace (req, oe_pn e, text_written form e) with (entry_of req 0 (line_text false form e)).
  - apply en_take; auto. unfold wanted. rewrite (proj2 (Z.eqb_neq _ _) R). now right.
  - unfold entry_of. rewrite (proj2 (Z.eqb_neq _ _) R), H3, H4. reflexivity.
Qed.

Lemma lite_all_of req text vs : match text with c :: _ => c <> ascii_of_nat 239 | [] => True end -> entries req (lines text) vs ->
  exists es, lite_all req text = Ret es /\ Forall2 says es vs.
Proof.
  intros H E. unfold lite_all. destruct (@lite_iter_spec (length text + 3) req (lines text) (skip_bom (is_open text)) (mkLE [] 0 req)) as [(es & vs' & R & EN & F)|(R & l & I & B)].
  - now apply skip_bom_no.
  - assert (X := lines_len text). lia.
  - auto.
  - exists es. split; [exact R|]. assert (vs' = vs) by (eapply entries_fun; eauto). now subst vs'.
  - exfalso. exact (entries_no_bad E I B).
Qed.
