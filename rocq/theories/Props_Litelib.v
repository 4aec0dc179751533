(* Props_Litelib.v - property theorems about reading and writing simple method libraries. *)
From Verif Require Import Base M_Bell M_Change M_Row M_PN M_Method M_MethClass M_Dim M_Names M_Stream M_Litelib Spec_Dim Spec_Method Spec_Names Spec_Litelib Spec_Litelib2
  P_Bell P_Dim P_Litelib P_Litelib2 P_Litelib3 Props_Method.
Set Implicit Arguments.
Unset Strict Implicit.
Open Scope nat_scope.

Lemma Forall2_in A B (R : A -> B -> Prop) l l' : Forall2 R l l' -> length l = length l'.
Proof. induction 1; cbn; lia. Qed.

(* C54: reading a text: the entries are what its lines say, or a line has no number of bells
   before its colon and the read throws *)
Theorem C54_read : forall req text,
  (exists es vs, lite_all req text = Ret es /\ entries req (lines (after_bom text)) vs /\ Forall2 says es vs) \/
  (lite_all req text = Throw BadCast /\ exists l, In l (lines (after_bom text)) /\ bad_line l).
Proof.
  intros req text. unfold lite_all. apply lite_iter_spec; [apply skip_bom_spec| |auto].
  assert (X := lines_len (after_bom text)). assert (Y := after_bom_len text). lia.
Qed.
Print Assumptions C54_read.
(* and the lines say only one thing; which of the two happens depends on the lines alone *)
Theorem C54_meaning : forall req ls,
  (forall vs vs', entries req ls vs -> entries req ls vs' -> vs = vs') /\
  (forall vs l, entries req ls vs -> In l ls -> ~ bad_line l) /\
  ((forall l, In l ls -> ~ bad_line l) -> exists vs, entries req ls vs).
Proof.
  intros req ls. split; [intros vs vs'; apply entries_fun|]. split; [intros vs l H; now apply (entries_no_bad H)|].
  induction ls as [|l ls IH]; intros H; [exists []; constructor|]. destruct IH as (vs & IH); [intros x Hx; apply H; now right|].
  destruct (blank_line l) eqn:B; [exists vs; now constructor|].
  assert (G : exists z, bells_given l z).
  { unfold bells_given. destruct (bells_text l) as [t|] eqn:T; [|eauto]. destruct (cast_spec t) as [(z & _ & Hz)|[_ Hz]]; [eauto|].
    exfalso. apply (H l ltac:(now left)). split; [exact B|]. intros z. unfold bells_given. rewrite T. apply Hz. }
  destruct G as (z & G). assert (W : wanted req z \/ ~ wanted req z) by (unfold wanted; destruct (req =? 0)%Z; lia).
  destruct W as [W|W]; [exists (entry_of req z l :: vs); eapply en_take; eauto|exists vs; eapply en_other; eauto].
Qed.
Print Assumptions C54_meaning.
(* a file is read from its very beginning *)
Theorem C54_read_file : forall req text,
  (exists es vs, lite_all_file req text = Ret es /\ entries req (lines text) vs /\ Forall2 says es vs) \/
  (lite_all_file req text = Throw BadCast /\ exists l, In l (lines text) /\ bad_line l).
Proof.
  intros req text. unfold lite_all_file. apply lite_iter_spec; [left; auto| |auto].
  assert (X := lines_len text). lia.
Qed.
Print Assumptions C54_read_file.

(* what is written with the numbers of bells is read back, all of it or the entries asked for *)
Theorem C54_roundtrip : forall req form es,
  Forall (fun e => writable form e /\ (int_min <= oe_bells e <= int_max)%Z /\ oe_bells e <> 0%Z) es ->
  exists rs, lite_all req (stream_out true form es) = Ret rs /\ lite_all_file req (stream_out true form es) = Ret rs /\
    Forall2 (fun r e => says r (oe_bells e, oe_pn e, text_written form e)) rs (filter (wanted_b' req) es).
Proof.
  intros req form es H. assert (HW : Forall (writable form) es) by (eapply Forall_impl; [|exact H]; cbn; tauto).
  assert (E := entries_inc req H). rewrite <- (stream_lines true HW) in E.
  assert (HD : match stream_out true form es with c :: _ => c <> ascii_of_nat 239 | [] => True end).
  { destruct es as [|e es]; [exact I|]. unfold stream_out. cbn [map concat]. unfold stream_line. destruct (print_int_chars (oe_bells e)) as (_ & _ & c & t & -> & C).
    cbn [app]. intros ->. discriminate C. }
  destruct (lite_all_of HD E) as (rs & R & F). exists rs. split; [exact R|]. split.
  - destruct (C54_read_file req (stream_out true form es)) as [(rs' & vs & R' & E' & F')|(_ & l & I & B)]; [|exfalso; exact (entries_no_bad E I B)].
    rewrite R'. f_equal. clear - R R' HD. unfold lite_all in R. unfold lite_all_file in R'. revert R R' HD.
    destruct (stream_out true form es) as [|c t]; [cbn; congruence|]. intros R R' HD.
    replace (skip_bom (is_open (c :: t))) with (is_open (c :: t)) in R; [congruence|].
    unfold skip_bom, is_open. cbn [is_good is_fail negb peek is_eof is_rest orb]. unfold eqc. destruct (ascii_dec c (ascii_of_nat 239)); [contradiction|reflexivity].
  - remember (filter (wanted_b' req) es) as fs eqn:Ef. clear - F. revert rs F. induction fs as [|e fs IH]; intros rs F; inversion F; subst; constructor; auto.
Qed.
Print Assumptions C54_roundtrip.

(* written without them, it is read back by a library asked for a number of bells *)
Theorem C54_roundtrip_plain : forall req form es, req <> 0%Z ->
  Forall (fun e => writable form e /\ oe_pn e <> [] /\ forallb noncolon (oe_pn e) = true /\ forallb (fun c => negb (nat_of_ascii c =? 239)) (oe_pn e) = true) es ->
  exists rs, lite_all req (stream_out false form es) = Ret rs /\
    Forall2 (fun r e => says r (req, oe_pn e, text_written form e)) rs es.
Proof.
  intros req form es R H. assert (HW : Forall (writable form) es) by (eapply Forall_impl; [|exact H]; cbn; tauto).
  assert (H' : Forall (fun e => writable form e /\ oe_pn e <> [] /\ forallb noncolon (oe_pn e) = true) es) by (eapply Forall_impl; [|exact H]; cbn; tauto).
  assert (E := entries_noinc R H'). rewrite <- (stream_lines false HW) in E.
  assert (HD : match stream_out false form es with c :: _ => c <> ascii_of_nat 239 | [] => True end).
  { destruct es as [|e es]; [exact I|]. inversion H as [|? ? (_ & N & _ & C) _]; subst. unfold stream_out. cbn [map concat]. unfold stream_line. cbn [app].
    destruct (oe_pn e) as [|c t]; [congruence|]. cbn [app]. intros ->. discriminate C. }
  destruct (lite_all_of HD E) as (rs & Rr & F). exists rs. split; [exact Rr|].
  clear - F. revert rs F. induction es as [|e fs IH]; intros rs F; inversion F; subst; constructor; auto.
Qed.
Print Assumptions C54_roundtrip_plain.

(* methods: whatever the layout of the place notation (that keeps the lead head change), the
   methods read are the methods written *)
Theorem C54_methods : forall form flags (ms : list (method * out_entry)),
  has flags M_OMIT_LH = false ->
  Forall (fun p => wf_method (fst p) /\ 1 <= mb (fst p) /\ oe_bells (snd p) = Z.of_nat (mb (fst p)) /\
    format default_symtab (fst p) flags = Ret (oe_pn (snd p)) /\ no_nl (text_written form (snd p)) = true /\
    trimmed (text_written form (snd p)) = text_written form (snd p)) ms ->
  exists rs, lite_all 0 (stream_out true form (map snd ms)) = Ret rs /\
    Forall2 (fun r p => le_b r = Z.of_nat (mb (fst p)) /\ lite_payload r = Ret (text_written form (snd p)) /\
      exists q, lite_pn r = Ret q /\ method_of_pn default_symtab q (mb (fst p)) = Ret (fst p)) rs ms.
Proof.
  intros form flags ms FL H.
  assert (G : Forall (fun e => writable form e /\ (int_min <= oe_bells e <= int_max)%Z /\ oe_bells e <> 0%Z) (map snd ms)).
  { apply Forall_map. eapply Forall_impl; [|exact H]. cbn beta. intros (m & e) (WF & B & OB & F & N & T). cbn [fst snd] in *.
    assert (Hb : mb m <= 255) by apply WF. split; [|unfold int_min, int_max; lia]. split; [|auto].
    assert (O := format_oks F). unfold oks in O. rewrite forallb_forall in *. intros c Hc. specialize (O c Hc). unfold okc in O.
    now apply andb_true_iff in O as [[O _]%andb_true_iff _]. }
  destruct (@C54_roundtrip 0 form (map snd ms) G) as (rs & R & _ & F). exists rs. split; [exact R|].
  replace (filter (wanted_b' 0) (map snd ms)) with (map snd ms) in F.
  2: { clear. induction (map snd ms) as [|x l IH]; [reflexivity|]. cbn [filter]. unfold wanted_b' at 1. cbn [Z.eqb orb]. now rewrite <- IH. }
  clear R G. revert rs F. induction H as [|(m & e) ms (WF & B & OB & FM & N & T) HF IH]; intros rs F; inversion F as [|r ? rs' ? S FF]; subst; constructor; auto.
  cbn [fst snd] in *. destruct S as (S1 & S2 & S3). split; [congruence|]. split; [exact S3|]. exists (oe_pn e). split; [exact S2|].
  destruct (C18_roundtrip WF FL) as (s & E & E'). rewrite E in FM. injection FM as <-. exact E'.
Qed.
Print Assumptions C54_methods.

(* a file starting with a byte order mark cannot be read, although the text can *)
Theorem C54_file_bom_refuted : let t := bom ++ str "6:x16" ++ [newline] in
  lite_all_file 0 t = Throw BadCast /\ exists e, lite_all 0 t = Ret [e] /\ says e (6%Z, str "x16", []).
Proof. cbv zeta. split; [vm_compute; reflexivity|]. eexists. split; [vm_compute; reflexivity|]. repeat split; vm_compute; reflexivity. Qed.
Print Assumptions C54_file_bom_refuted.
(* a blank line ending in carriage return and newline is an entry with no place notation *)
Theorem C54_crlf_refuted : exists e, lite_all 6 [ascii_of_nat 13; newline] = Ret [e] /\ says e (6%Z, [], []).
Proof. eexists. split; [vm_compute; reflexivity|]. repeat split; vm_compute; reflexivity. Qed.
Print Assumptions C54_crlf_refuted.
(* "0:" in a library asked for 6 bells counts as 6 *)
Theorem C54_zero : exists e, lite_all 6 (str "0:x16") = Ret [e] /\ says e (6%Z, str "x16", []).
Proof. eexists. split; [vm_compute; reflexivity|]. repeat split; vm_compute; reflexivity. Qed.
Print Assumptions C54_zero.

(* cases *)
Example C54_ex_read : exists es, lite_all 0 (str "6:&-1-1-1,2 Plain Bob" ++ [newline] ++ str "  8:x18	Foo  Bar " ++ [newline; newline] ++ str "x16 no bells") = Ret es /\
  Forall2 says es [ (6%Z, str "&-1-1-1,2", str "Plain Bob"); (8%Z, str "x18", str "Foo  Bar") ].
Proof. eexists. split; [vm_compute; reflexivity|]. repeat constructor; vm_compute; reflexivity. Qed.
Example C54_ex_write : exists e, Forall (fun p => wf_method (fst p) /\ 1 <= mb (fst p) /\ oe_bells (snd p) = Z.of_nat (mb (fst p)) /\
    format default_symtab (fst p) 0 = Ret (oe_pn (snd p)) /\ no_nl (text_written nf_name (snd p)) = true /\
    trimmed (text_written nf_name (snd p)) = text_written nf_name (snd p)) [ (plain_bob, e) ] /\
    stream_out true nf_name [e] = str "6:X1X1X1X1X1X2	Plain" ++ [newline].
Proof.
  exists (mkOE 6 (str "X1X1X1X1X1X2") None (str "Plain") []). split; [|vm_compute; reflexivity]. constructor; [|constructor].
  split; [apply plain_bob_wf|]. repeat split; try (vm_compute; reflexivity). vm_compute. lia.
Qed.
