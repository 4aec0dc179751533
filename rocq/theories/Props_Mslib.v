(* Props_Mslib.v - property theorems about MicroSIRIL libraries. *)
From Verif Require Import Base M_Bell M_Change M_Row M_PN M_Method M_Dim M_Stream M_Mslib M_Lhcode Spec_Row Spec_Change Spec_PN Spec_Dim Spec_Method Spec_Lhcode Spec_Litelib Spec_Basename Spec_Mslib
  P_Bell P_Change P_PN P_Method P_Lhcode P_Lhcode2 P_Dim P_Litelib P_Basename P_Mslib Props_Method Props_MethClass Props_Lhcode Props_False.
Set Implicit Arguments.
Unset Strict Implicit.
Open Scope nat_scope.

(* C55: the entries read are what the lines say, unless a header has a number too big *)
Theorem C55_read : forall text,
  (exists es vs, ms_all text = Ret es /\ ms_entries 0 (lines text) vs /\ Forall2 ms_says es vs) \/
  (ms_all text = UB /\ ms_overflow 0 (lines text)).
Proof.
  intros text. unfold ms_all. apply (@ms_iter_spec (length text + 3) (lines text) (is_open text) (mkME [] 0)).
  - left. auto.
  - assert (X := lines_len text). lia.
  - cbn. unfold int_min, int_max. lia.
  - intros (t & X). discriminate X.
Qed.
Print Assumptions C55_read.
Theorem C55_meaning : forall b ls,
  (forall vs vs', ms_entries b ls vs -> ms_entries b ls vs' -> vs = vs') /\
  (forall vs, ms_entries b ls vs -> ~ ms_overflow b ls).
Proof. intros b ls. split; [intros vs vs'; apply ms_entries_fun|intros vs; apply ms_entries_no_overflow]. Qed.
Print Assumptions C55_meaning.

Lemma two n : 3 <= n <= 255 -> change_of_pn default_symtab n (str "2") = Ret (mkChange n (pairs_between 2 n)).
Proof.
  intros H. assert (B : b8 n = n) by (apply b8_small; lia).
  assert (L : forall swaps b, append_swaps_between swaps b (b8 n) = Ret (swaps ++ pairs_between b n, b8 (n + 1))) by (intros; rewrite B; apply asb_spec; lia).
  rewrite change_of_pn_ne by discriminate. change (is_cross (str "2")) with false. cbv iota. change (c_str (str "2")) with ["2"%char]. change (length (str "2")) with 1. rewrite parse_one.
  change (read_extended default_symtab ["2"%char]) with (Ret (1, @nil ascii)). cbn [bind].
  assert (A1 : add_place n ([], 0) 1 = Ret ([], 2)) by (unfold add_place; replace (n <=? 1) with false by (symmetry; apply Nat.leb_gt; lia); reflexivity).
  rewrite A1. cbn [bind change_parse_loop]. rewrite L. reflexivity.
Qed.
Lemma digit_places c : is_digit c = true -> places_text [c].
Proof.
  intros H. apply pt_char; [|constructor]. split; [now left|]. split; intros ->; discriminate H.
Qed.
Lemma no_trail p : (forall q c, p = q ++ [c] -> is_space c = false) -> no_end_space p = p.
Proof.
  intros H. unfold no_end_space. destruct p as [|x p] using rev_ind; [reflexivity|]. rewrite rev_app_distr. cbn [rev app drop_while].
  rewrite (H p x eq_refl). cbn [rev]. now rewrite rev_involutive.
Qed.
Lemma code_letters o k second : 0 < k < o -> exists c t, lead_code o k second = c :: t /\ (In c (str "abcdefpq") <-> second = true) /\ (forall q, lead_code o k second <> q ++ [chr "z"]).
Proof.
  assert (N : forall ls j, ls <> [] -> 0 < j -> exists c t, numbered ls j = c :: t /\ In c ls /\ (~ In (chr "z") ls -> forall q, numbered ls j <> q ++ [chr "z"])).
  { intros ls j NE J. unfold numbered. destruct (Nat.leb_spec j (length ls)) as [L|L].
    - eexists. eexists. split; [reflexivity|]. assert (I : In (nth (j - 1) ls "000"%char) ls) by (apply nth_In; lia). split; [exact I|].
      intros NZ q E. apply NZ. change [nth (j - 1) ls "000"%char] with ([] ++ [nth (j - 1) ls "000"%char]) in E. apply app_inj_tail in E as [_ E]. rewrite E in I. exact I.
    - eexists. eexists. split; [reflexivity|]. split.
      + destruct (exists_last NE) as (p & c & ->). rewrite last_last. apply in_or_app. right. now left.
      + intros NZ q E. assert (D := proj1 (print_nat_digits (j - length ls))). destruct D as [D D'].
        destruct (exists_last D') as (p & c & Ep). rewrite Ep in E, D. rewrite app_comm_cons in E. apply app_inj_tail in E as [_ E]. subst c.
        rewrite forallb_app in D. apply andb_true_iff in D as [_ D]. discriminate D. }
  intros K. unfold lead_code.
  assert (G : forall odd low j, 0 < j -> exists c t, numbered (letters odd low second) j = c :: t /\ (In c (str "abcdefpq") <-> second = true) /\ (forall q, numbered (letters odd low second) j <> q ++ [chr "z"])).
  { intros odd low j J. destruct (N (letters odd low second) j) as (c & t & E & I & Z); auto; [destruct odd, low, second; discriminate|].
    exists c, t. split; [exact E|]. split; [|apply Z; destruct odd, low, second; cbn; intuition discriminate].
    destruct second; split; try tauto; try discriminate; intros X; [|exfalso]; destruct odd, low; cbn in I, X |- *; intuition (subst; try discriminate; tauto). }
  destruct (2 * k <=? o); apply G; lia.
Qed.

(* a line with a method's own lead head code: seconds or firsts place is added at the end as the
   method has it, so the method read is the method written.  p is any way of writing the other
   changes as one block, symmetric or not, that has no plus in front *)
Theorem C55_method : forall m k second pre c name code p l,
  wf_method m -> coded m 1 k second -> lhcode default_symtab m = Ret code -> mch m = pre ++ [c] ->
  block_text default_symtab (mb m) p pre -> (forall t, p <> chr "+" :: t) -> (forall q x, p = q ++ [x] -> is_space x = false) ->
  three_fields l name code p -> ms_meth default_symtab (mkME l (Z.of_nat (mb m))) = Ret (m, name).
Proof.
  intros m k second pre c name code p l WF C LC MC BT NP NT TF.
  rewrite (C49_code WF C) in LC. injection LC as <-.
  destruct C as (r & _ & _ & K & _ & [(_ & pre' & c' & MC' & PA)|(H2 & _)]); [|discriminate H2]. rewrite MC in MC'. apply app_inj_tail in MC' as [<- <-].
  assert (N3 : 3 <= mb m) by lia. assert (Hb : mb m <= 255) by apply WF.
  destruct (@pn_spec l name (code_of m 1 k second) p (Z.of_nat (mb m)) TF) as (q & Q & NQ).
  destruct (@code_letters (mb m - 1) k second ltac:(lia)) as (ch & tl' & CE & CI & CZ).
  assert (CO : code_of m 1 k second = lead_code (mb m - 1) k second) by reflexivity. rewrite CO in *.
  assert (SC : seconds_code (lead_code (mb m - 1) k second) <-> second = true).
  { rewrite <- CI. unfold seconds_code. split; [intros (c1 & t1 & E & I); rewrite CE in E; now injection E as -> ->|intros I; eauto]. }
  assert (QE : q = p ++ chr "," :: (if second then str "2" else str "1")).
  { inversion NQ as [t E|q0 E1 E2|E1 E2 E3|E1 E2 E3]; subst q; rewrite (no_trail NT) in *.
    - exfalso. exact (NP _ E).
    - exfalso. exact (CZ _ E2).
    - apply SC in E3. subst second. reflexivity.
    - destruct second; [exfalso; apply E3; now apply SC|]. reflexivity. }
  assert (WC : cn c = mb m /\ wf_change c). { destruct WF as (_ & _ & F). rewrite Forall_forall in F. apply F. rewrite MC. apply in_or_app. right. now left. }
  destruct WC as [Lc Wc]. destruct (@four (mb m) ltac:(lia)) as (_ & _ & E3 & _). destruct (four_places N3) as (_ & _ & P3 & P4). destruct (four_wf N3) as (_ & _ & W3 & W4).
  assert (LE : change_of_pn default_symtab (mb m) (if second then str "2" else str "1") = Ret c).
  { destruct second.
    - rewrite two by lia. f_equal. symmetry. apply (proj1 (change_eqb_wf Wc W4)). apply (same_places Wc W4 Lc P4). exact PA.
    - rewrite E3. f_equal. symmetry. apply (proj1 (change_eqb_wf Wc W3)). apply (same_places Wc W3 Lc P3). exact PA. }
  unfold ms_meth. rewrite Q. cbn [bind]. rewrite (name_spec _ TF). cbn [bind me_b]. rewrite Nat2Z.id. unfold method_of_pn.
  assert (I : interpret_pn default_symtab (mb m) q = Ret (mch m)).
  { apply interpret_complete. exists [], q. split; [constructor|]. split; [|reflexivity]. rewrite QE, MC.
    change (chr "," :: (if second then str "2" else str "1")) with (","%char :: [] ++ (if second then str "2" else str "1")). apply bs_more; [exact BT|constructor|].
    apply bs_one. apply bt_plain. replace (if second then str "2" else str "1") with ((if second then str "2" else str "1") ++ [] ++ []) by (now rewrite !app_nil_r).
    apply ct_places; [destruct second; now apply digit_places|exact LE|left; constructor|discriminate|constructor]. }
  rewrite I. cbn [bind]. now destruct m.
Qed.
Print Assumptions C55_method.

(* any other symmetric method: the lead head change and z for the code *)
Theorem C55_method_z : forall m pre post name q p l, wf_method m -> mch m = pre ++ post ->
  block_text default_symtab (mb m) p pre -> blocks_text default_symtab (mb m) q post -> (forall t, p <> chr "+" :: t) -> (forall r x, p = r ++ [x] -> is_space x = false) ->
  three_fields l name (q ++ [chr "z"]) p -> ms_meth default_symtab (mkME l (Z.of_nat (mb m))) = Ret (m, name).
Proof.
  intros m pre post name q0 p l WF MC BT BQ NP NT TF. destruct (@pn_spec l name _ p (Z.of_nat (mb m)) TF) as (q & Q & NQ).
  assert (QE : q = p ++ chr "," :: q0).
  { inversion NQ as [t E|q1 E1 E2|E1 E2 E3|E1 E2 E3]; subst q; rewrite (no_trail NT) in *.
    - exfalso. exact (NP _ E).
    - apply app_inj_tail in E2 as [<- _]. reflexivity.
    - exfalso. exact (E2 _ eq_refl).
    - exfalso. exact (E2 _ eq_refl). }
  unfold ms_meth. rewrite Q. cbn [bind]. rewrite (name_spec _ TF). cbn [bind me_b]. rewrite Nat2Z.id. unfold method_of_pn.
  assert (I : interpret_pn default_symtab (mb m) q = Ret (mch m)).
  { apply interpret_complete. exists [], q. split; [constructor|]. split; [|reflexivity]. rewrite QE, MC.
    change (chr "," :: q0) with (","%char :: [] ++ q0). apply bs_more; [exact BT|constructor|exact BQ]. }
  rewrite I. cbn [bind]. now destruct m.
Qed.
Print Assumptions C55_method_z.

(* a method written out with a plus in front *)
Theorem C55_method_plus : forall m name code p l, wf_method m -> blocks_text default_symtab (mb m) (chr "+" :: p) (mch m) ->
  (forall q x, p = q ++ [x] -> is_space x = false) -> three_fields l name code (chr "+" :: p) -> ms_meth default_symtab (mkME l (Z.of_nat (mb m))) = Ret (m, name).
Proof.
  intros m name code p l WF BT NT TF. destruct (@pn_spec l name _ _ (Z.of_nat (mb m)) TF) as (q & Q & NQ).
  assert (NT' : no_end_space (chr "+" :: p) = chr "+" :: p).
  { apply no_trail. intros r x E. destruct r as [|y r]; [injection E as <- _; reflexivity|]. injection E as _ E. exact (NT _ _ E). }
  assert (QE : q = chr "+" :: p).
  { inversion NQ as [t E|q1 E1 E2|E1 E2 E3|E1 E2 E3]; subst q; rewrite NT' in *; [reflexivity|..]; exfalso; exact (E1 _ eq_refl). }
  unfold ms_meth. rewrite Q. cbn [bind]. rewrite (name_spec _ TF). cbn [bind me_b]. rewrite Nat2Z.id. unfold method_of_pn.
  assert (I : interpret_pn default_symtab (mb m) q = Ret (mch m)) by (apply interpret_complete; exists [], q; split; [constructor|]; split; [rewrite QE; exact BT|reflexivity]).
  rewrite I. cbn [bind]. now destruct m.
Qed.
Print Assumptions C55_method_plus.

(* a blank line in a file with carriage returns ends the library *)
Theorem C55_crlf_refuted : exists e, ms_all (str "* S8" ++ [newline] ++ str "Cambridge b &-3-4-25-36-4-5-6-7" ++ [newline; ascii_of_nat 13; newline] ++ str "Lincolnshire b &-3-4-25-36-4-5-36-7" ++ [newline]) = Ret [e].
Proof. eexists. vm_compute. reflexivity. Qed.
Print Assumptions C55_crlf_refuted.
(* without a header there are no bells, whatever the file is called *)
Theorem C55_no_header_refuted : exists e, ms_all (str "Cambridge b &-3-4-2-3-4-5") = Ret [e] /\ me_b e = 0%Z.
Proof. eexists. split; vm_compute; reflexivity. Qed.
Print Assumptions C55_no_header_refuted.

(* cases *)
Example C55_ex : exists es, ms_all (str "*Surprise S6" ++ [newline] ++ str "Cambridge b &-3-4-2-3-4-5" ++ [newline; newline] ++ str "* 8" ++ [newline] ++ str "Foo 18z &x18 " ++ [newline] ++ str "Bar 18z &x18") = Ret es /\
  Forall2 ms_says es [ (6%Z, str "Cambridge", str "&-3-4-2-3-4-5,2") ].
Proof. eexists. split; [vm_compute; reflexivity|]. repeat constructor; vm_compute; reflexivity. Qed.
Example C55_ex_cambridge : exists m, ms_meth default_symtab (mkME (str "Cambridge b &-3-4-2-3-4-5") 6) = Ret (m, str "Cambridge") /\ m = cambridge.
Proof. eexists. split; vm_compute; reflexivity. Qed.
Example C55_ex_coded : coded cambridge 1 2 true /\ wf_method cambridge.
Proof.
  assert (WF : wf_method cambridge) by apply cambridge_wf. split; [|exact WF].
  destruct (lhcode_dec WF ltac:(vm_compute; lia)) as [(h & k & s & C)|E]; [|vm_compute in E; discriminate E].
  assert (E := C49_code WF C). assert (E' : lhcode default_symtab cambridge = Ret (str "b")) by (vm_compute; reflexivity). rewrite E' in E. injection E as E.
  assert (C0 := C). destruct C as (r & _ & _ & K & _ & D).
  assert (h = 1 \/ h = 2) as Hh by tauto. unfold code_of in E. change (mb cambridge) with 6 in *.
  destruct Hh as [-> | ->]; cbn [Nat.eqb] in E.
  - assert (k = 1 \/ k = 2 \/ k = 3 \/ k = 4) as Hk by lia. destruct Hk as [->|[->|[->| ->]]], s; vm_compute in E; try discriminate E. exact C0.
  - assert (k = 1 \/ k = 2 \/ k = 3) as Hk by lia. destruct Hk as [->|[->| ->]], s; vm_compute in E; try discriminate E.
Qed.
Example C55_ex_block : exists pre c, mch cambridge = pre ++ [c] /\ block_text default_symtab 6 (str "&-3-4-2-3-4-5") pre /\
  three_fields (str "Cambridge b &-3-4-2-3-4-5") (str "Cambridge") (str "b") (str "&-3-4-2-3-4-5").
Proof.
  set (x := mkChange 6 [0;2;4]). set (c36 := mkChange 6 [0;3]). set (c14 := mkChange 6 [1;4]). set (c12 := mkChange 6 [2;4]). set (c56 := mkChange 6 [0;2]).
  exists ([x;c36;x;c14;x;c12;x;c36;x;c14;x;c56] ++ tl (rev [x;c36;x;c14;x;c12;x;c36;x;c14;x;c56])), c12. split; [vm_compute; reflexivity|]. split.
  - apply (@bt_sym default_symtab 6 [] (str "-3-4-2-3-4-5")); [left; constructor|].
    assert (ST : forall d p cs s ch, is_digit d = true -> change_of_pn default_symtab 6 [d] = Ret ch -> (s = [] \/ exists t, s = chr "-" :: t) -> p = chr "-" :: d :: s ->
      changes_text default_symtab 6 s cs -> changes_text default_symtab 6 p (x :: ch :: cs)).
    { intros d p cs s ch D C H -> R. apply (@ct_cross default_symtab 6 (chr "-") [] (d :: s)); [right; right; reflexivity|vm_compute; reflexivity|left; constructor|].
      apply (@ct_places default_symtab 6 [d] [] s); [now apply digit_places|exact C|left; constructor| |exact R].
      intros _ c t ->. destruct H as [H|(t' & H)]; [discriminate H|]. injection H as -> ->. right. right. reflexivity. }
    repeat (eapply ST; [| | |reflexivity|]; [reflexivity|vm_compute; reflexivity|first [now left|right; eexists; reflexivity]|]). constructor.
  - repeat split; try (intros I; cbn in I; intuition discriminate).
Qed.
