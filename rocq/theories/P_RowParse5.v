(* P_RowParse5.v - the row calculator reads what is written. *)
From Verif Require Import Base M_Bell M_Row M_Dim M_PN M_Mslib M_Stream M_Token M_RowCalc Spec_Row Spec_Dim Spec_Litelib Spec_RowParse2.
From Verif Require Import P_Bell P_Row P_RowText P_Dim P_Litelib P_Litelib3 P_Literal P_RowCalc P_RowParse P_RowParse2 P_RowParse3 P_RowParse4.
From Verif Require Import M_RowParse Spec_RowParse.
Set Implicit Arguments. Unset Strict Implicit.
Open Scope nat_scope.
Notation D := default_symtab.

Definition lexto (s : list ascii) (ts : list rtok) : Prop := forall k, length s < k -> lex_f D k s = Some ts.
Definition stops (s : list ascii) : Prop := match s with [] => True | c :: _ => is_symbol D c = false end.
Definition lexes (s : list ascii) (ts : list rtok) : Prop := forall rest us, stops rest -> lexto rest us -> lexto (s ++ rest) (ts ++ us).
Lemma lexto_nil : lexto [] [].
Proof. intros [|k] H; [cbn in H; lia|reflexivity]. Qed.
Lemma lexto_space c s ts : is_space c = true -> lexto s ts -> lexto (c :: s) ts.
Proof. intros C H [|k] L; cbn in L; [lia|]. cbn [lex_f]. rewrite C. apply H. lia. Qed.
Lemma lexto_token c u t r ts : is_space c = false -> source (c :: u) = false -> lex1 D (c :: u) = (t, r) -> length r < length (c :: u) -> lexto r ts -> lexto (c :: u) (t :: ts).
Proof.
  intros C Sr E L H [|k] K; cbn in K; [lia|]. cbn [lex_f]. rewrite C, Sr, E. rewrite H; auto. cbn in L. lia.
Qed.
(* the single characters *)
Definition punct (c : ascii) : bool := negb (is_space c || is_symbol D c || eqc c (chr "x") || eqc c (chr "X") || is_alpha c || eqc c (chr "_") || is_digit c || eqc c (chr "$")).
Lemma lexto_punct c s ts : punct c = true -> source (c :: s) = false -> lexto s ts -> lexto (c :: s) (rmk (kind_in kinds c) [c] :: ts).
Proof.
  intros P Sr H. unfold punct in P. apply negb_true_iff in P. apply orb_false_iff in P as [P E1]. apply orb_false_iff in P as [P E2]. apply orb_false_iff in P as [P E3]. apply orb_false_iff in P as [P E4].
  apply orb_false_iff in P as [P E5]. apply orb_false_iff in P as [P E6]. apply orb_false_iff in P as [P E7]. apply lexto_token with (r := s); auto.
  unfold lex1. rewrite E5, E6. cbn [orb span]. rewrite E7. cbn [existsb]. rewrite E3, E4. cbn [orb]. now rewrite E2.
Qed.
Lemma source_not c s : eqc c (chr "$") = false -> eqc c (chr "<") = false -> source (c :: s) = false.
Proof. intros A B. destruct s; cbn [source]; auto. now rewrite A, B. Qed.
(* the rows *)
Definition bell_char (c : ascii) : bool := is_symbol D c && negb (is_space c || eqc c (chr "x") || eqc c (chr "X") || eqc c (chr "$") || eqc c (chr "<") || (is_digit c && (is_alpha c || eqc c (chr "_")))).
Lemma bell_chars : forallb (fun b => bell_char (to_char D b)) (seq 0 33) = true.
Proof. vm_compute. reflexivity. Qed.
Lemma bell_char_of b : b < 33 -> bell_char (to_char D b) = true.
Proof. intro H. pose proof bell_chars as F. rewrite forallb_forall in F. apply F. apply in_seq. lia. Qed.
Lemma span_stop p s rest : forallb p s = true -> match rest with [] => True | c :: _ => p c = false end -> span p (s ++ rest) = (s, rest).
Proof.
  intros F H. induction s as [|c s IH]; cbn [app].
  - destruct rest as [|c r]; auto. cbn [span]. now rewrite H.
  - cbn in F. apply andb_true_iff in F as [F1 F2]. cbn [span]. rewrite F1, IH; auto.
Qed.
Lemma digit_symbol c : is_digit c = true -> is_symbol D c = true.
Proof.
  assert (F : forallb (fun n => implb (is_digit (ascii_of_nat n)) (is_symbol D (ascii_of_nat n))) (seq 0 256) = true) by (vm_compute; reflexivity).
  intro E. rewrite forallb_forall in F. specialize (F (nat_of_ascii c)). rewrite ascii_nat_embedding in F. rewrite E in F. cbn [implb] in F. apply F. apply in_seq. pose proof (nat_ascii_bounded c). lia.
Qed.
Lemma stops_digit rest : stops rest -> match rest with [] => True | c :: _ => is_digit c = false end.
Proof. destruct rest; cbn; auto. intro H. destruct (is_digit a) eqn:E; auto. rewrite digit_symbol in H; auto. Qed.
Definition row_tok (s : list ascii) : rtok := rmk (if existsb (fun d => negb (is_digit d)) s then KLit else KNum) s.
Lemma lexes_row s : s <> [] -> forallb bell_char s = true -> lexes s [row_tok s].
Proof.
  intros N F rest us St L. destruct s as [|c s]; [congruence|]. assert (FS : forallb (is_symbol D) (c :: s) = true).
  { apply forallb_forall. intros x I. rewrite forallb_forall in F. specialize (F x I). unfold bell_char in F. now apply andb_true_iff in F as [F _]. }
  pose proof F as F0. cbn [forallb] in F. apply andb_true_iff in F as [F1 _]. unfold bell_char in F1. apply andb_true_iff in F1 as [_ F1]. apply negb_true_iff in F1. 
  apply orb_false_iff in F1 as [F1 H]. apply orb_false_iff in F1 as [F1 H0]. apply orb_false_iff in F1 as [F1 H1]. apply orb_false_iff in F1 as [F1 H2]. apply orb_false_iff in F1 as [F1 H3].
  assert (SP : span (is_symbol D) ((c :: s) ++ rest) = (c :: s, rest)) by (apply span_stop; auto).
  cbn [app] in *. apply lexto_token with (r := rest); auto using source_not.
  2:{ cbn [length]. rewrite app_length. lia. }
  unfold lex1. rewrite H3, H2. cbn [orb]. rewrite SP. unfold row_tok. destruct (existsb _ (c :: s)) eqn:E; auto.
  assert (DG : forallb is_digit (c :: s) = true).
  { apply forallb_forall. intros x I. destruct (is_digit x) eqn:X; auto. assert (existsb (fun d => negb (is_digit d)) (c :: s) = true); [|congruence]. apply existsb_exists. exists x. now rewrite X. }
  assert (DC : is_digit c = true) by (cbn in DG; now apply andb_true_iff in DG as [DG _]). rewrite DC in *. cbn [andb] in H. rewrite H.
  pose proof (@span_stop is_digit (c :: s) rest DG (stops_digit St)) as SD. cbn [app] in SD. now rewrite SD.
Qed.
Lemma digits_bell s : forallb is_digit s = true -> forallb bell_char s = true.
Proof.
  assert (F : forallb (fun n => implb (is_digit (ascii_of_nat n)) (bell_char (ascii_of_nat n))) (seq 0 256) = true) by (vm_compute; reflexivity).
  intro E. apply forallb_forall. intros c I. rewrite forallb_forall in *. specialize (E c I). specialize (F (nat_of_ascii c)). rewrite ascii_nat_embedding in F. rewrite E in F. cbn [implb] in F. apply F. apply in_seq. pose proof (nat_ascii_bounded c). lia.
Qed.
Lemma lexes_num s : all_digits s -> lexes s [rmk KNum s].
Proof.
  intros [A N]. replace (rmk KNum s) with (row_tok s); [apply lexes_row; auto using digits_bell|]. unfold row_tok. replace (existsb _ s) with false; auto.
  symmetry. apply not_true_is_false. intro E. apply existsb_exists in E as (x & I & X). rewrite forallb_forall in A. rewrite (A x I) in X. discriminate.
Qed.
Lemma lexes_app s ts s2 ts2 : lexes s ts -> (forall rest, stops rest -> stops (s2 ++ rest)) -> lexes s2 ts2 -> lexes (s ++ s2) (ts ++ ts2).
Proof. intros H St H2 rest us R L. rewrite <- !app_assoc. apply H; auto. Qed.
Lemma lexes_punct c s ts : punct c = true -> eqc c (chr "<") = false -> lexes s ts -> lexes (c :: s) (rmk (kind_in kinds c) [c] :: ts).
Proof.
  intros P N H rest us R L. cbn [app]. apply lexto_punct; auto. apply source_not; auto. unfold punct in P. apply negb_true_iff in P. now apply orb_false_iff in P as [_ P].
Qed.
Lemma lexes_nil : lexes [] [].
Proof. intros rest us R L. exact L. Qed.

(* the trees of an expression *)
Definition tok1 (c : ascii) : rtok := rmk (kind_in kinds c) [c].
Definition leaf (c : ascii) : tree := Leaf (tok1 c).
Definition in_par (xs : list tree) : list tree := [Group (tok1 (chr "(")) xs (tok1 (chr ")"))].
Fixpoint sep (l : list (list tree)) : list tree := match l with [] => [] | [x] => x | x :: l => x ++ leaf (chr ",") :: sep l end.
Fixpoint trees (e : cexpr) : list tree :=
  match e with
  | CInt z => [leaf (chr "+"); Leaf (rmk KNum (print_int z))]
  | CRow r => [Leaf (row_tok (row_print D r))]
  | CSet es => [Group (tok1 (chr "{")) (sep (map trees es)) (tok1 (chr "}"))]
  | CGroup es => [Group (tok1 (chr "<")) (sep (map trees es)) (tok1 (chr ">"))]
  | CDiff a b => in_par (trees a) ++ leaf (chr "-") :: in_par (trees b)
  | CMult op a b => in_par (trees a) ++ leaf (op_char op) :: in_par (trees b)
  | CExp a b => in_par (trees a) ++ leaf (chr "^") :: match b with CInt _ => trees b | _ => in_par (trees b) end
  end.
Lemma flat_app2 a b : flat (a ++ b) = flat a ++ flat b.
Proof. unfold flat. apply flat_map_app. Qed.
Lemma lexes_par s xs : lexes s (flat xs) -> lexes (par s) (flat (in_par xs)).
Proof.
  intro H. unfold par, in_par. unfold flat at 1. cbn [flat_map flat1]. rewrite app_nil_r. apply lexes_punct; try reflexivity. apply lexes_app; auto; [intros; reflexivity|].
  apply lexes_punct; try reflexivity. apply lexes_nil.
Qed.
Lemma lexes_mid s xs c s2 ys : lexes s (flat xs) -> punct c = true -> eqc c (chr "<") = false -> lexes s2 (flat ys) -> lexes (s ++ c :: s2) (flat (xs ++ leaf c :: ys)).
Proof.
  intros H P N H2. rewrite flat_app2. apply lexes_app; auto.
  - intros rest _. cbn. unfold punct in P. apply negb_true_iff in P. repeat (apply orb_false_iff in P as [P ?]). auto.
  - now apply lexes_punct.
Qed.
Lemma lexes_commas l : Forall (fun p => lexes (fst p) (flat (snd p))) l -> lexes (commas (map fst l)) (flat (sep (map snd l))).
Proof.
  induction 1 as [|[s xs] l H F IH]; [apply lexes_nil|]. destruct l as [|p l]; [exact H|]. change (commas (map fst ((s, xs) :: p :: l))) with (s ++ chr "," :: commas (map fst (p :: l))).
  change (sep (map snd ((s, xs) :: p :: l))) with (xs ++ leaf (chr ",") :: sep (map snd (p :: l))). apply lexes_mid; auto.
Qed.
Lemma lexes_int z : (0 <= z)%Z -> lexes (show (CInt z)) (flat (trees (CInt z))).
Proof. intro H. cbn [show trees]. apply lexes_punct; try reflexivity. change (flat [Leaf (rmk KNum (print_int z))]) with [rmk KNum (print_int z)]. apply lexes_num. now apply print_int_pos. Qed.
Lemma row_chars r : row256 r -> length r <= 33 -> forallb bell_char (row_print D r) = true.
Proof.
  intros R L. apply forallb_forall. intros c I. unfold row_print in I. apply in_map_iff in I as (b & <- & I). apply bell_char_of. destruct R as [R _]. apply (Permutation_in _ R), in_seq in I. lia.
Qed.
Lemma writable_lexes p bells e : writable p bells e -> lexes (show e) (flat (trees e)).
Proof.
  assert (ALL : forall es, Forall (fun e => writable p bells e -> lexes (show e) (flat (trees e))) es -> Forall id (map (writable p bells) es) -> lexes (commas (map show es)) (flat (sep (map trees es)))).
  { intros es F W. assert (Forall (fun q => lexes (fst q) (flat (snd q))) (map (fun e => (show e, trees e)) es)) as H.
    { induction F as [|e0 es He F IH]; cbn [map] in *; [constructor|]. inversion W; subst. constructor; auto. }
    apply lexes_commas in H. now rewrite !map_map in H. }
  induction e as [| |es F|es F|a b IHa IHb|op a b IHa IHb|a b IHa IHb] using cexpr_all; cbn [writable]; intro W; [contradiction|..].
  - destruct W as (R & N & L & _). cbn [show trees]. change (flat [Leaf (row_tok (row_print D r))]) with [row_tok (row_print D r)]. apply lexes_row; [|now apply row_chars].
    destruct r; [congruence|discriminate].
  - destruct W as [_ W]. cbn [show trees]. unfold flat. cbn [flat_map flat1]. rewrite app_nil_r. apply lexes_punct; try reflexivity. apply lexes_app; [apply ALL; auto|intros; reflexivity|]. apply lexes_punct; try reflexivity. apply lexes_nil.
  - destruct W as [_ W]. cbn [show trees]. unfold flat. cbn [flat_map flat1]. rewrite app_nil_r. intros rest us R L.
    cbn [app]. apply lexto_punct; try reflexivity. apply lexto_space; [reflexivity|]. revert R L.
    apply (lexes_app (s := commas (map show es)) (s2 := [chr ">"])); [apply ALL; auto|intros; reflexivity|]. apply lexes_punct; try reflexivity. apply lexes_nil.
  - destruct W as [Wa Wb]. cbn [show trees]. apply lexes_mid; try reflexivity; apply lexes_par; auto.
  - destruct W as [Wa Wb]. cbn [show trees]. apply lexes_mid; try (destruct op; reflexivity); apply lexes_par; auto.
  - destruct W as [Wa Wb]. cbn [show trees]. apply lexes_mid; try reflexivity; [apply lexes_par; auto|]. destruct b; try (apply lexes_par; auto). apply lexes_int. lia.
Qed.
Lemma lex_show p bells e : writable p bells e -> lex D (show e) = Some (flat (trees e)).
Proof.
  intro W. pose proof (@writable_lexes p bells e W [] [] I lexto_nil) as H. rewrite !app_nil_r in H. apply H. lia.
Qed.
(* they are of the grammar *)
Lemma not_br k : (k = KNum \/ k = KLit \/ k = KSep \/ k = KPlus \/ k = KMinus \/ k = KTimes \/ k = KDivide \/ k = KLdivide \/ k = KPower) -> ~ bracket k.
Proof. intro H. apply not_bracket. repeat (destruct H as [H|H]; [subst; cbn; tauto|]). subst; cbn; tauto. Qed.
Lemma wf_par xs : Forall wf xs -> Forall wf (in_par xs).
Proof. intro H. constructor; [|constructor]. constructor; auto. left. now split. Qed.
Lemma wf_mid xs c ys : Forall wf xs -> ~ bracket (kind_in kinds c) -> Forall wf ys -> Forall wf (xs ++ leaf c :: ys).
Proof. intros. apply Forall_app. split; auto. constructor; auto. now constructor. Qed.
Lemma wf_sep l : Forall (Forall wf) l -> Forall wf (sep l).
Proof.
  induction 1 as [|x l H F IH]; [constructor|]. destruct l; [exact H|]. change (sep (x :: l :: l0)) with (x ++ leaf (chr ",") :: sep (l :: l0)). apply wf_mid; auto. apply not_br. cbn. tauto.
Qed.
Lemma wf_trees p bells e : writable p bells e -> Forall wf (trees e).
Proof.
  assert (ALL : forall es, Forall (fun e => writable p bells e -> Forall wf (trees e)) es -> Forall id (map (writable p bells) es) -> Forall wf (sep (map trees es))).
  { intros es F W. apply wf_sep. induction F as [|e0 es He F IH]; cbn [map] in *; [constructor|]. inversion W; subst. constructor; auto. }
  induction e as [| |es F|es F|a b IHa IHb|op a b IHa IHb|a b IHa IHb] using cexpr_all; cbn [writable]; intro W; [contradiction|..]; cbn [trees].
  - constructor; [|constructor]. constructor. apply not_br. unfold row_tok. cbn [tk]. destruct (existsb _ _); auto.
  - destruct W as [_ W]. constructor; [|constructor]. constructor; [right; left; now split|auto].
  - destruct W as [_ W]. constructor; [|constructor]. constructor; [right; right; now split|auto].
  - destruct W. apply wf_mid; [apply wf_par; auto|apply not_br; cbn; tauto|apply wf_par; auto].
  - destruct W. apply wf_mid; [apply wf_par; auto|apply not_br; destruct op; cbn; tauto|apply wf_par; auto].
  - destruct W. apply wf_mid; [apply wf_par; auto|apply not_br; cbn; tauto|]. destruct b; try (apply wf_par; auto). constructor; [constructor; apply not_br; cbn; tauto|constructor; [constructor; apply not_br; cbn; tauto|constructor]].
Qed.
Section Gram.
Variable f : flags.
Variable bells : nat.
Notation M := (make_row D f bells).
Lemma gup n m xs e : n <= m -> m <= 3 -> gram M m xs e -> gram M n xs e.
Proof. intros H. induction H as [|m H IH]; auto. intros L G. apply IH; [lia|]. apply g_up; auto. Qed.
Lemma gpar n xs e : n <= 3 -> gram M 0 xs e -> gram M n (in_par xs) e.
Proof. intros L G. apply gup with (m := 3); auto. now apply g_paren. Qed.
Lemma gmembers es : es <> [] -> Forall (fun e => gram M 0 (trees e) e) es -> members M (sep (map trees es)) es.
Proof.
  intros N F. induction F as [|e es H F IH]; [congruence|]. destruct es as [|e2 es]; [now constructor|].
  change (sep (map trees (e :: e2 :: es))) with (trees e ++ leaf (chr ",") :: sep (map trees (e2 :: es))). apply m_more; auto. apply IH. discriminate.
Qed.
Lemma make_shown r : f_changes f = false -> row256 r -> r <> [] -> length r <= 33 -> (f_promote f = true \/ length r = bells) -> M (row_print D r) = Ret r.
Proof.
  intros C R N L P. unfold make_row, as_change. rewrite C. cbn [negb bind].
  assert (T : with_treble D f (row_print D r) = row_print D r).
  { unfold with_treble. replace (existsb (eqc (to_char D 0)) (row_print D r)) with true; [now rewrite andb_false_r|]. symmetry. apply existsb_exists. exists (to_char D 0). split; [|apply eqc_same].
    unfold row_print. apply in_map. destruct R as [R _]. apply (Permutation_in _ (Permutation_sym R)), in_seq. destruct r; [congruence|cbn; lia]. }
  rewrite T, row_print_parse; auto. cbn [bind]. destruct P as [->| ->]; [reflexivity|]. rewrite Nat.eqb_refl. now rewrite andb_false_r.
Qed.
Lemma gram_shown e : f_changes f = false -> writable (f_promote f) bells e -> gram M 0 (trees e) e.
Proof.
  intro C. assert (ALL : forall es, Forall (fun e => writable (f_promote f) bells e -> gram M 0 (trees e) e) es -> Forall id (map (writable (f_promote f) bells) es) -> Forall (fun e => gram M 0 (trees e) e) es).
  { intros es F W. induction F as [|e0 es He F IH]; cbn [map] in *; [constructor|]. inversion W; subst. constructor; auto. }
  induction e as [| |es F|es F|a b IHa IHb|op a b IHa IHb|a b IHa IHb] using cexpr_all; cbn [writable]; intro W; [contradiction|..]; cbn [trees].
  - destruct W as (R & N & L & P). apply gup with (m := 3); [lia|lia|]. apply g_rows; [unfold row_tok; cbn [tk]; destruct (existsb _ _); auto|]. now apply make_shown.
  - destruct W as [N W]. apply gup with (m := 3); [lia|lia|]. apply g_sets; [reflexivity|]. apply gmembers; auto.
  - destruct W as [N W]. apply gup with (m := 3); [lia|lia|]. apply g_groups; [reflexivity|]. apply gmembers; auto.
  - destruct W. apply g_minus; [reflexivity|apply gpar; auto|apply gpar; auto].
  - destruct W. apply gup with (m := 1); [lia|lia|]. destruct op; [apply g_times|apply g_divide|apply g_ldivide]; try reflexivity; apply gpar; auto.
  - destruct W as [Wa Wb]. apply gup with (m := 2); [lia|lia|]. apply g_expo; [reflexivity|apply gpar; auto|].
    destruct b; try (apply x_expr; [intros t E; discriminate|apply gpar; auto]). apply x_plus; try reflexivity. apply cast_int. apply print_int_text. split; [unfold int_min; lia|lia].
Qed.
End Gram.
