(* Props_ExtentApp.v - the program which prints an extent (C83). *)
From Verif Require Import Base M_Bell M_Change M_Row M_Extent M_ExtentApp Spec_Row Spec_Extent P_Bell P_Row P_RowText P_False Props_Row Props_Extent.
Set Implicit Arguments. Unset Strict Implicit.
Open Scope nat_scope.

Definition kept (sym : symtab) (inc : bool) (r : row) : bool := negb inc || match sign sym r with Ret s => (0 <? s)%Z | _ => false end.
Lemma loop_traverse sym inc last : ei_end last = true -> forall fuel e l, ei_traverse fuel e last = Ret l -> Forall row256 l ->
  extent_loop fuel sym inc e = Ret (map (row_ostream sym) (filter (kept sym inc) l)).
Proof.
  intros EL. induction fuel as [|fuel IH]; intros e l; cbn [ei_traverse extent_loop].
  - unfold ei_eqb. rewrite EL. destruct (ei_end e); cbn; [|discriminate]. intros H _. injection H as <-. reflexivity.
  - unfold ei_eqb at 1. rewrite EL. destruct (ei_end e); cbn [Bool.eqb andb orb].
    + intros H _. injection H as <-. reflexivity.
    + destruct (ei_incr e) as [e'| | |]; cbn [bind]; try discriminate. destruct (ei_traverse fuel e' last) as [l'| | |] eqn:E; cbn [bind]; try discriminate. intros H F. injection H as <-. inversion F as [|? ? R F']; subst.
      rewrite (IH e' l' E F'). cbn [filter]. assert (K : kept sym inc (ei_row e) = negb inc || match sign sym (ei_row e) with Ret s => (0 <? s)%Z | _ => false end) by reflexivity. rewrite K. clear K. destruct inc; cbn [negb orb bind].
      * destruct (sign_pm sym R) as [S1|S1]; rewrite S1; reflexivity.
      * reflexivity.
Qed.
(* With valid numbers the program writes each row of the extent once, in order; only those in course if asked. *)
Theorem C83_extent : forall sym b h t inc, (0 <= h)%Z -> (0 <= t)%Z -> (h + t <= b)%Z -> (b <= 256)%Z ->
  exists N, forall fuel, N <= fuel -> exists l, extent_main fuel sym b h t inc = Ret (Some (map (row_ostream sym) l)) /\
    extent_in_order (fun r => in_extent (Z.to_nat (b - t - h)) (Z.to_nat h) (Z.to_nat b) r /\ (inc = true -> sign sym r = Ret 1%Z)) l.
Proof.
  intros sym b h t inc H0 T0 HB B. exists (Z.to_nat (fac (Z.to_nat (b - t - h)))). intros fuel Hf.
  assert (L1 : Z.to_nat h + Z.to_nat (b - t - h) <= Z.to_nat b) by lia. assert (L2 : Z.to_nat b <= 256) by lia.
  destruct (@C23_visits_extent _ _ _ fuel L1 L2) as (l & E & SS & A); [lia|]. exists (filter (kept sym inc) l).
  assert (F : Forall row256 l). { apply Forall_forall. intros r Hr. apply A in Hr as (R & L & _). split; auto. lia. }
  split.
  - unfold extent_main, extent_args_ok. rewrite (proj2 (Z.ltb_ge b 0)), (proj2 (Z.ltb_ge h 0)), (proj2 (Z.ltb_ge t 0)) by lia. cbn [orb]. rewrite (proj2 (Z.ltb_ge int_max (h + t))) by (unfold int_max; lia). rewrite (proj2 (Z.ltb_ge b (h + t))) by lia. cbn [bind negb].
    rewrite (@loop_traverse sym inc (ei_end_of (Z.to_nat (b - t - h)) (Z.to_nat h) (Z.to_nat b)) eq_refl fuel _ l E F). reflexivity.
  - split.
    + clear - SS. induction SS as [|r l S IH Fr]; cbn [filter]; [constructor|]. destruct (kept sym inc r); auto. constructor; auto. rewrite Forall_forall in *. intros x Hx. apply filter_In in Hx as [Hx _]. auto.
    + intro r. rewrite filter_In, A. split; intros [I K]; (split; [exact I|]).
      * intros ->. unfold kept in K. cbn [negb orb] in K. assert (R : row256 r) by (destruct I as (R & L & _); split; auto; lia). destruct (sign_pm sym R) as [S1|S1]; rewrite S1 in *; [reflexivity|discriminate].
      * unfold kept. destruct inc; [|reflexivity]. rewrite (K eq_refl). reflexivity.
Qed.
Print Assumptions C83_extent.
(* the lines can be read back: they are the rows *)
Theorem C83_lines : forall b h t r, (0 <= b <= 256)%Z -> in_extent (Z.to_nat (b - t - h)) (Z.to_nat h) (Z.to_nat b) r ->
  row_of_string default_symtab (row_ostream default_symtab r) = Ret r.
Proof. intros b h t r B (R & L & _). apply C10_ostream_parse. split; auto. lia. Qed.
Print Assumptions C83_lines.
(* numbers which are negative, or leave no room for the working bells, are refused *)
Theorem C83_refused : forall fuel sym b h t inc, (int_min <= h <= int_max /\ int_min <= t <= int_max /\ h + t <= int_max ->
  (b < 0 \/ h < 0 \/ t < 0 \/ b < h + t) <-> extent_main fuel sym b h t inc = Ret None)%Z.
Proof.
  intros fuel sym b h t inc (_ & _ & O). unfold extent_main, extent_args_ok.
  destruct (Z.ltb_spec b 0) as [B|B]; [cbn; tauto|]. destruct (Z.ltb_spec h 0) as [H|H]; [cbn; tauto|]. destruct (Z.ltb_spec t 0) as [T|T]; [cbn; tauto|]. cbn [orb].
  rewrite (proj2 (Z.ltb_ge int_max (h + t))) by lia. cbn [bind]. destruct (Z.ltb_spec b (h + t)) as [L|L]; cbn [negb]; [split; auto|]. split; [lia|]. intro K. destruct (extent_loop _ _ _ _); discriminate K.
Qed.
Print Assumptions C83_refused.
(* without a number of bells, which is said to be required, one empty line is written *)
Theorem C83_no_bells : forall sym inc, extent_main 2 sym 0 0 0 inc = Ret (Some [[]]).
Proof. intros sym [|]; reflexivity. Qed.
Print Assumptions C83_no_bells.
Example C83_case : extent_main 10 default_symtab 5 1 1 false = Ret (Some (map str ["12345"; "12435"; "13245"; "13425"; "14235"; "14325"]%string)) /\
  extent_main 10 default_symtab 5 1 1 true = Ret (Some (map str ["12345"; "13425"; "14235"]%string)).
Proof. split; vm_compute; reflexivity. Qed.
