(* P_RowParse6.v - the tokens of the row calculator are its text. *)
From Verif Require Import Base M_Bell M_Row M_PN M_Mslib M_Stream M_Token M_RowCalc P_Literal P_RowParse5.
From Verif Require Import M_RowParse.
Set Implicit Arguments. Unset Strict Implicit.
Open Scope nat_scope.

Lemma span_app p : forall s a b, span p s = (a, b) -> s = a ++ b /\ forallb p a = true.
Proof.
  induction s as [|c s IH]; cbn [span]; intros a b E; [injection E as <- <-; auto|]. destruct (p c) eqn:C; [|injection E as <- <-; auto].
  destruct (span p s) as [x y] eqn:E2. injection E as <- <-. destruct (IH x y eq_refl) as [-> F]. split; auto. cbn. now rewrite C.
Qed.
Lemma span_head p c s a b : p c = true -> span p (c :: s) = (a, b) -> exists a', a = c :: a'.
Proof. intros C. cbn [span]. rewrite C. destruct (span p s). intro E. injection E as <- <-. eauto. Qed.
Definition charcheck (p : ascii -> bool) : bool := forallb (fun n => p (ascii_of_nat n)) (seq 0 256).
Lemma charcheck_all p : charcheck p = true -> forall c, p c = true.
Proof.
  unfold charcheck. rewrite forallb_forall. intros F c. rewrite <- (ascii_nat_embedding c). apply F. apply in_seq. pose proof (nat_ascii_bounded c). lia.
Qed.
Lemma not_space p : charcheck (fun c => implb (p c) (negb (is_space c))) = true -> forall s, forallb p s = true -> filter (fun c => negb (is_space c)) s = s.
Proof.
  intros C s. induction s as [|c s IH]; cbn [forallb filter]; auto. intro F. apply andb_true_iff in F as [F1 F2]. pose proof (charcheck_all C c) as Q. cbn beta in Q. rewrite F1 in Q. cbn [implb] in Q. rewrite Q. f_equal. auto.
Qed.
Lemma lex1_text c u t r : is_space c = false -> lex1 D (c :: u) = (t, r) -> c :: u = tx t ++ r /\ tx t <> [] /\ filter (fun c => negb (is_space c)) (tx t) = tx t.
Proof.
  intros Sp E. unfold lex1 in E. destruct (_ || _). { injection E as <- <-. cbn. rewrite Sp. cbn. split; [reflexivity|split; [discriminate|reflexivity]]. }
  destruct (span (is_symbol D) (c :: u)) as [w r2] eqn:E1. destruct (existsb _ w) eqn:Ew.
  { injection E as <- <-. cbn [tx]. apply span_app in E1 as [E1 F]. split; auto. split; [destruct w; discriminate|]. apply (@not_space (is_symbol D)); [vm_compute; reflexivity|auto]. }
  destruct (_ || _) eqn:Ec.
  { destruct (span (fun d => is_alnum d || eqc d (chr "_")) (c :: u)) as [w2 r3] eqn:E2. injection E as <- <-. cbn [tx]. pose proof E2 as E3. apply span_app in E2 as [E2 F]. split; auto. split.
    - apply span_head in E3 as (a & ->); [discriminate|]. unfold is_alnum. unfold is_alpha in Ec. destruct (is_digit c); auto.
    - apply (@not_space (fun d => is_alnum d || eqc d (chr "_"))); [vm_compute; reflexivity|auto]. }
  destruct (is_digit c) eqn:Ed.
  { destruct (span is_digit (c :: u)) as [w2 r3] eqn:E2. injection E as <- <-. cbn [tx]. pose proof E2 as E3. apply span_app in E2 as [E2 F]. split; auto. split.
    - apply span_head in E3 as (a & ->); [discriminate|auto].
    - apply (@not_space is_digit); [vm_compute; reflexivity|auto]. }
  injection E as <- <-. cbn. rewrite Sp. cbn. split; [reflexivity|split; [discriminate|reflexivity]].
Qed.
Lemma lex_text : forall k s ts, lex_f D k s = Some ts -> concat (map tx ts) = filter (fun c => negb (is_space c)) s.
Proof.
  induction k as [|k IH]; intros s ts; cbn [lex_f]; [discriminate|]. destruct s as [|c u]; [intro H; injection H as <-; reflexivity|].
  destruct (is_space c) eqn:Sp; [intro H; cbn [filter]; rewrite Sp; now apply IH|]. destruct (source _); [discriminate|]. destruct (lex1 D (c :: u)) as [t r] eqn:E. destruct (lex_f D k r) eqn:E2; [|discriminate]. intro H. injection H as <-.
  destruct (lex1_text Sp E) as (Eq & N & F). rewrite Eq, filter_app, F. cbn [map concat]. f_equal. now apply IH.
Qed.
Lemma lex_some : forall k s, length s < k -> (exists ts, lex_f D k s = Some ts) \/ exists a b c, s = a ++ c :: chr "(" :: b /\ (c = chr "$" \/ c = chr "<").
Proof.
  induction k as [|k IH]; intros s L; [lia|]. cbn [lex_f]. destruct s as [|c u]; [left; eauto|]. cbn [length] in L. destruct (is_space c) eqn:Sp.
  { destruct (IH u) as [H|(a & b & d & -> & H)]; [lia|auto|]. right. exists (c :: a), b, d. auto. }
  destruct (source (c :: u)) eqn:Sc.
  { right. destruct u as [|d u]; [discriminate|]. cbn in Sc. apply andb_true_iff in Sc as [S1 S2]. apply eqc_t in S2. subst d. exists [], u, c. split; auto. apply orb_true_iff in S1 as [S1|S1]; apply eqc_t in S1; auto. }
  destruct (lex1 D (c :: u)) as [t r] eqn:E. destruct (lex1_text Sp E) as (Eq & N & F). assert (length r < k). { apply (f_equal (@length _)) in Eq. rewrite app_length in Eq. cbn in Eq. destruct (tx t); [congruence|]. cbn in Eq. lia. }
  destruct (IH r H) as [(ts & ->)|(a & b & d & -> & Hd)]; [left; eauto|]. right. rewrite Eq. exists (tx t ++ a), b, d. rewrite <- app_assoc. auto.
Qed.
