(* Props_RowParse.v - reading the expressions of the row calculator (C81). *)
From Verif Require Import Base M_Bell M_Row M_Dim M_Stream M_RowCalc Spec_Row Spec_RowCalc Spec_RowParse2.
From Verif Require Import P_RowParse P_RowParse2 P_RowParse3 P_RowParse4 P_RowParse5 P_RowParse6.
From Verif Require Import M_RowParse Spec_RowParse.
Set Implicit Arguments. Unset Strict Implicit.
Open Scope nat_scope.

(* What is read is what the grammar says: minus binds least, then * / \, both from the left; then ^, from the right. *)
Theorem C81_reading : forall sym f bells xs e, Forall wf xs ->
  (parse sym f bells (flat xs) = Ret e <-> gram (make_row sym f bells) 0 xs e).
Proof.
  intros sym f bells xs e W. split; intro H.
  - exact (proj1 (@sound sym f bells _) xs e H W).
  - exact (proj1 (@complete sym f bells) 0 xs e H W _ (Nat.lt_lt_succ_r _ _ (Nat.lt_succ_diag_r _))).
Qed.
Print Assumptions C81_reading.
(* only tokens whose brackets match are accepted *)
Theorem C81_brackets : forall sym f bells ts e, parse sym f bells ts = Ret e -> exists xs, Forall wf xs /\ flat xs = ts.
Proof. intros sym f bells ts e H. exact (proj1 (@brackets sym f bells _) ts e H). Qed.
Print Assumptions C81_brackets.
(* and the grammar gives them one meaning only *)
Theorem C81_unambiguous : forall sym f bells xs e e', Forall wf xs ->
  gram (make_row sym f bells) 0 xs e -> gram (make_row sym f bells) 0 xs e' -> e = e'.
Proof. intros sym f bells xs e e' W G G'. apply (C81_reading sym f bells _ W) in G, G'. congruence. Qed.
Print Assumptions C81_unambiguous.
(* reading any text ends, with an expression or an exception, unless it takes rows from a command or a file *)
Theorem C81_ends : forall f bells s, bells <= 255 ->
  (exists e, read_expr default_symtab f bells s = Some (Ret e)) \/ (exists x, read_expr default_symtab f bells s = Some (Throw x)) \/
  exists a b c, s = a ++ c :: chr "(" :: b /\ (c = chr "$" \/ c = chr "<").
Proof.
  intros f bells s B. destruct (@lex_some (S (length s)) s (Nat.lt_succ_diag_r _)) as [(ts & E)|H]; [|auto]. unfold read_expr, lex. rewrite E.
  pose proof (@parse_tame f bells B (S (S (length ts))) ts (Nat.lt_lt_succ_r _ _ (Nat.lt_succ_diag_r _))) as T. change (P_Parser4.tame (parse default_symtab f bells ts)) in T.
  destruct (parse default_symtab f bells ts) as [e|x| |]; [left; eauto|right; left; eauto|destruct T..].
Qed.
Print Assumptions C81_ends.
(* the tokens are the text: nothing is left out but white space *)
Theorem C81_tokens : forall s ts, lex default_symtab s = Some ts -> concat (map tx ts) = filter (fun c => negb (is_space c)) s.
Proof. intros s ts H. eapply lex_text; eauto. Qed.
Print Assumptions C81_tokens.
(* no expression that can be read has a negative exponent, though the parser has code for one *)
Theorem C81_negative : forall sym f bells s e, read_expr sym f bells s = Some (Ret e) -> no_negative e.
Proof.
  intros sym f bells s e H. unfold read_expr in H. destruct (lex sym s) as [ts|] eqn:L; [|discriminate]. injection H as H. destruct (C81_brackets H) as (xs & W & <-).
  apply (C81_reading sym f bells _ W) in H. apply (proj1 (@gram_no_negative _) _ _ _ H). eapply lex_lexed; eauto.
Qed.
Print Assumptions C81_negative.
(* every expression without empty sets or negative exponents can be written, and is read back *)
Theorem C81_written : forall f bells e, f_changes f = false -> writable (f_promote f) bells e ->
  read_expr default_symtab f bells (show e) = Some (Ret e).
Proof.
  intros f bells e C W. unfold read_expr. rewrite (lex_show W). f_equal. apply C81_reading; [eapply wf_trees; eauto|]. now apply gram_shown.
Qed.
Print Assumptions C81_written.

Definition plainf : flags := mkFlags false true false.
Example C81_case :
  read_expr default_symtab plainf 4 (str "2143 * 1324 * 2143 - 1243") = Some (Ret (CDiff (CMult Times (CMult Times (CRow [1;0;3;2]) (CRow [0;2;1;3])) (CRow [1;0;3;2])) (CRow [0;1;3;2]))) /\
  read_expr default_symtab plainf 4 (str "2143^1324^2") = Some (Ret (CExp (CRow [1;0;3;2]) (CExp (CRow [0;2;1;3]) (CInt 2)))) /\
  read_expr default_symtab plainf 4 (str "<2341, {2143}>/1243") = Some (Ret (CMult Divide (CGroup [CRow [1;2;3;0]; CSet [CRow [1;0;3;2]]]) (CRow [0;1;3;2]))).
Proof. split; [|split]; vm_compute; reflexivity. Qed.
(* 12 as an exponent is the row, +12 and 11 the integers; in parentheses a single digit is a row *)
Example C81_exponent :
  read_expr default_symtab plainf 4 (str "2143^12") = Some (Ret (CExp (CRow [1;0;3;2]) (CRow [0;1]))) /\
  read_expr default_symtab plainf 4 (str "2143^+12") = Some (Ret (CExp (CRow [1;0;3;2]) (CInt 12))) /\
  read_expr default_symtab plainf 4 (str "2143^11") = Some (Ret (CExp (CRow [1;0;3;2]) (CInt 11))) /\
  read_expr default_symtab plainf 4 (str "2143^(1)") = Some (Ret (CExp (CRow [1;0;3;2]) (CRow [0]))).
Proof. repeat split; vm_compute; reflexivity. Qed.
(* a^-1 is refused, as are the empty set and an unmatched bracket *)
Example C81_refused : read_expr default_symtab plainf 4 (str "2143^-1") = Some (Throw InvalidArgument) /\ read_expr default_symtab plainf 4 (str "2143^(-1)") = Some (Throw InvalidArgument) /\
  read_expr default_symtab plainf 4 (str "{}") = Some (Throw InvalidArgument) /\ read_expr default_symtab plainf 4 (str "(2143") = Some (Throw InvalidArgument).
Proof. repeat split; vm_compute; reflexivity. Qed.
Example C81_writable : writable true 0 (CExp (CGroup [CRow [1;0;3;2]; CSet [CRow [0;2;1]]]) (CInt 12)) /\
  show (CExp (CGroup [CRow [1;0;3;2]; CSet [CRow [0;2;1]]]) (CInt 12)) = str "(< 2143,{132}>)^+12".
Proof.
  split; [|vm_compute; reflexivity]. cbn [writable map]. assert (R1 : row256 [1;0;3;2]). { split; [|cbn; lia]. unfold is_row. cbn. eapply perm_trans; [apply perm_swap|]. do 2 apply perm_skip. apply perm_swap. }
  assert (R2 : row256 [0;2;1]). { split; [|cbn; lia]. unfold is_row. cbn. apply perm_skip, perm_swap. }
  split; [split; [discriminate|]|unfold int_max; lia]. repeat constructor; auto; try discriminate; try apply R1; try apply R2; cbn; try lia; auto.
Qed.
