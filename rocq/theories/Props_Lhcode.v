(* Props_Lhcode.v - C49: lead head codes. *)
From Verif Require Import Base M_Bell M_Change M_Math M_Row M_PN M_Method M_Lhcode Spec_Row Spec_Change Spec_Method Spec_Group Spec_Lhcode
  P_Named P_Row P_False4 P_Lhcode P_Lhcode2 Props_Method Props_MethClass.
Set Implicit Arguments.
Unset Strict Implicit.
Open Scope nat_scope.

(* C49: a method whose lead head is the k-th power of that of plain bob, with the treble or the
   treble and 2 as hunt bells, k coprime to the number of working bells, and one of the two lead
   ends, has the standard code *)
Theorem C49_code : forall m h k second, wf_method m -> coded m h k second -> lhcode default_symtab m = Ret (code_of m h k second).
Proof. exact lhcode_coded. Qed.
Print Assumptions C49_code.

(* every other method has code z *)
Theorem C49_z : forall m, wf_method m -> 0 < mb m -> (lhcode default_symtab m = Ret (str "z") <-> forall h k second, ~ coded m h k second).
Proof.
  intros m WF N0. split.
  - intros E h k s C. rewrite (lhcode_coded WF C) in E. injection E as E. revert E. destruct C as (r & _ & _ & K & _). apply lead_code_not_z. destruct (h =? 1); lia.
  - intros N. destruct (lhcode_dec WF N0) as [(h & k & s & C)|E]; [destruct (N h k s C)|exact E].
Qed.
Print Assumptions C49_z.

(* on a given number of bells the code tells the lead head, the number of hunt bells and the kind
   of lead end *)
Theorem C49_determines : forall m m' code, wf_method m -> wf_method m' -> mb m = mb m' -> 0 < mb m -> code <> str "z" ->
  lhcode default_symtab m = Ret code -> lhcode default_symtab m' = Ret code ->
  lh m = lh m' /\ exists h k second, coded m h k second /\ coded m' h k second.
Proof.
  intros m m' code WF WF' B N0 NZ E E'. destruct (lhcode_dec WF N0) as [(h & k & s & C)|Q]; [|congruence]. destruct (lhcode_dec WF' ltac:(lia)) as [(h' & k' & s' & C')|Q]; [|congruence].
  rewrite (lhcode_coded WF C) in E. rewrite (lhcode_coded WF' C') in E'. injection E as E. injection E' as E'. rewrite <- E' in E. unfold code_of in E. rewrite <- B in E.
  assert (H : h = h' /\ k = k' /\ s = s').
  { destruct C as (r & _ & _ & K & _ & C). destruct C' as (r' & _ & _ & K' & _ & C'). rewrite <- B in K'.
    apply lead_code_inj in E; [|destruct (h =? 1); lia|destruct (h' =? 1); lia]. destruct E as (O & SS & I).
    assert (H : h = h').
    { destruct C as [[-> _]|[-> _]], C' as [[-> _]|[-> _]]; auto; exfalso; revert O; replace (mb m - 1) with (S (mb m - 2)) by lia; rewrite Nat.odd_succ, <- Nat.negb_odd; destruct (Nat.odd (mb m - 2)); discriminate. }
    subst h'. split; [reflexivity|]. split; [|exact SS]. specialize (I eq_refl). destruct (h =? 1); lia. }
  destruct H as (<- & <- & <-). split; [|exists h, k, s; split; assumption].
  destruct C as (r & Er & (l & El & P) & _). destruct C' as (r' & Er' & (l' & El' & P') & _). rewrite <- B in El'. rewrite El in El'. injection El' as <-.
  rewrite Er, Er'. f_equal. destruct (lh_rung WF) as (r1 & E1 & R1 & _). destruct (lh_rung WF') as (r2 & E2 & R2 & _). rewrite Er in E1. injection E1 as <-. rewrite Er' in E2. injection E2 as <-.
  apply row_eq; [destruct R1, R2; unfold row in *; congruence|]. intros i. now rewrite P, P'.
Qed.
Print Assumptions C49_determines.

(* a method on no bells: lhcode reads past the end of an empty row *)
Theorem C49_empty_ub : lhcode default_symtab (mkMethod [] 0) = UB.
Proof. reflexivity. Qed.
Print Assumptions C49_empty_ub.

Definition grandsire : method := match method_of_pn default_symtab (str "3.1.7.1.7.1.7.1.7.1.7.1.7.1") 7 with Ret m => m | _ => mkMethod [] 0 end.

Example C49_case : lhcode default_symtab cambridge = Ret (str "b") /\ lhcode default_symtab plain_bob = Ret (str "a")
  /\ lhcode default_symtab grandsire = Ret (str "a") /\ lead_code 11 4 true = str "c1" /\ lead_code 11 5 false = str "j2" /\ lead_code 9 7 true = str "e" /\ lead_code 8 5 false = str "s2".
Proof. repeat split; vm_compute; reflexivity. Qed.
Example C49_case_coded : coded plain_bob 1 1 true.
Proof.
  eexists. split; [vm_compute; reflexivity|]. split.
  - eexists. split; [vm_compute; reflexivity|]. intros i. do 8 (destruct i as [|i]; [reflexivity|]). reflexivity.
  - split; [cbn; lia|]. split; [reflexivity|]. left. split; [reflexivity|]. eexists (removelast (mch plain_bob)), _. split; [vm_compute; reflexivity|].
    intros i Hi. cbn in Hi. unfold place_made. cbn. do 6 (destruct i as [|i]; [cbn; intuition (try lia; try discriminate)|]). lia.
Qed.
