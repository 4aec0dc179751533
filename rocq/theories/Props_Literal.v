(* Props_Literal.v - C76: place notation in gsiril.  C77: transpositions.  C78: patterns. *)
From Verif Require Import Base M_Bell M_Change M_Math M_Row M_PN M_Music M_Stream M_Method M_Gsiril M_Parser Spec_Row Spec_Change Spec_PN Spec_Dim Spec_Litelib
  Spec_Music Spec_Music2 P_Bell P_Change2 P_Row P_RowText P_Music P_Music2 P_Music3 P_Music4 P_Music5 P_Parser4 Props_Method M_Literal Spec_Literal P_Literal P_Literal2.
Set Implicit Arguments. Unset Strict Implicit.
Open Scope nat_scope.

(* C76.  A place notation literal stands for the changes of its text, after the bells in braces
   and the ranges have been put in. *)
Theorem C76_notation n s e : 1 <= n <= 255 ->
  pn_node default_symtab n s = Ret e <->
  exists t cs, read_as default_symtab n s t /\ pn_text default_symtab n t cs /\ e = EPn cs [].
Proof.
  intros Hn. assert (Hi : (Z.of_nat n <= int_max)%Z) by (unfold int_max; lia). unfold pn_node. destruct (Nat.eqb_spec n 0); [lia|]. split.
  - intros H. apply bind_ret_inv in H as (t & Et & H). apply bind_ret_inv in H as (cs & Ec & H). exists t, cs.
    split; [now apply (expand_iff default_symtab Hi)|]. split; [now apply C17_parse in Ec; [|lia]|congruence].
  - intros (t & cs & R & P & ->). rewrite (proj2 (expand_iff default_symtab Hi s t) R). cbn [bind]. apply C17_parse in P; [|lia]. now rewrite P.
Qed.
Print Assumptions C76_notation.
(* There is one reading, and the text itself is one without braces and double dots. *)
Theorem C76_reading n s : (Z.of_nat n <= int_max)%Z ->
  (forall t t', read_as default_symtab n s t -> read_as default_symtab n s t' -> t = t') /\
  (~ In (chr "{") s -> (forall a b, s <> a ++ str ".." ++ b) -> read_as default_symtab n s s).
Proof.
  intros Hi. split.
  - intros t t' H H'. apply (expand_iff default_symtab Hi) in H. apply (expand_iff default_symtab Hi) in H'. congruence.
  - intros N D. exists s. split; [now apply expands_plain|]. apply filled_plain. exact D.
Qed.
Print Assumptions C76_reading.
(* Bells counted from the back: {N-k} is the bell k places before the last. *)
Theorem C76_from_the_back n k s t : 1 <= n <= 33 -> k < n -> read_as default_symtab n (to_char default_symtab (n - k - 1) :: s) t ->
  read_as default_symtab n (str "{N-" ++ print_nat k ++ str "}" ++ s) t.
Proof.
  intros Hn Hk (u & X & F). exists u. split; [|exact F]. inversion X as [|c s' t' Hnb X' E1 E2|x z s' t' N1 N2 B I1 I2 X' E1].
  - subst. replace (str "{N-" ++ print_nat k ++ str "}" ++ s) with (in_braces (str "N-" ++ print_nat k) s) by (unfold in_braces; rewrite <- app_assoc; reflexivity).
    replace (to_char default_symtab (n - k - 1) :: t') with (print_bell default_symtab (numbered (Z.of_nat n - Z.of_nat k)) ++ t').
    2:{ unfold numbered. rewrite Z.mod_small by lia. replace (Z.to_nat (Z.of_nat n - Z.of_nat k - 1)) with (n - k - 1) by lia.
        unfold print_bell. cbn [sym_max default_symtab]. destruct (Nat.ltb_spec (n - k - 1) 33); [reflexivity|lia]. }
    assert (D : forallb is_digit (print_nat k) = true /\ print_nat k <> [] /\ dec_value (print_nat k) = Z.of_nat k).
    { do 33 (destruct k as [|k]; [split; [reflexivity|split; [discriminate|reflexivity]]|]). lia. }
    destruct D as (D1 & D2 & D3).
    assert (G : forall c, is_digit c = false -> c <> chr "N" -> c <> chr "-" -> ~ In c (str "N-" ++ print_nat k)).
    { intros c Hc A1 A2 K. apply in_app_or in K as [K|K]; [cbn in K; destruct K as [K|[K|[]]]; [apply A1|apply A2]; now rewrite <- K|]. rewrite forallb_forall in D1. apply D1 in K. congruence. }
    apply ex_braces; [apply G; [reflexivity|discriminate|discriminate]|apply G; [reflexivity|discriminate|discriminate]| | | |exact X'].
    + change (str "N-" ++ print_nat k) with ([] ++ chr "N" :: [] ++ chr "-" :: print_nat k). apply be_minus; [reflexivity|reflexivity|].
      exists [], [], (print_nat k), []. rewrite app_nil_r. split; [reflexivity|]. split; [reflexivity|]. split; [reflexivity|]. split; [split; [exact D1|exact D2]|].
      split; [right; split; [now right|auto]|]. unfold int_min, int_max. lia.
    + unfold in_int, int_min, int_max. lia.
    + unfold in_int, int_min, int_max. lia.
  - exfalso. assert (L : n - k - 1 < 33) by lia. destruct (read_char_to_char L) as (c & Ec & _ & Eb & _).
    rewrite Ec in E1. rewrite <- E1 in Eb. discriminate Eb.
Qed.
Print Assumptions C76_from_the_back.
(* Ranges: a..b is the bells from a to b, up or down. *)
Lemma symbols_plain l : Forall (fun b => b < 33) l -> concat (map (print_bell default_symtab) l) = map (to_char default_symtab) l.
Proof.
  induction 1 as [|b l Hb H IH]; [reflexivity|]. cbn [map concat]. rewrite IH. unfold print_bell at 1. cbn [sym_max default_symtab].
  destruct (Nat.ltb_spec b 33); [reflexivity|lia].
Qed.
Lemma sym_not_brace b : b < 33 -> to_char default_symtab b <> chr "{".
Proof. intros L E. destruct (read_char_to_char L) as (c & Ec & _ & Eb & _). rewrite Ec in E. rewrite E in Eb. discriminate. Qed.
Lemma seq_up x y : x < y -> seq x (y - x + 1) = x :: seq (x + 1) (y - x - 1) ++ [y].
Proof.
  intros L. replace (y - x + 1) with (1 + ((y - x - 1) + 1)) by lia. rewrite seq_app. cbn [seq app]. f_equal. rewrite seq_app. f_equal.
  cbn [seq]. f_equal. lia.
Qed.
Theorem C76_range n x y : x < 33 -> y < 33 -> x <> y ->
  read_as default_symtab n [to_char default_symtab x; chr "."; chr "."; to_char default_symtab y]
    (map (to_char default_symtab) (if x <? y then seq x (y - x + 1) else rev (seq y (x - y + 1)))).
Proof.
  intros Hx Hy D. exists [to_char default_symtab x; chr "."; chr "."; to_char default_symtab y]. split.
  { apply expands_plain. cbn. intros [K|[K|[K|[K|[]]]]]; try discriminate; now apply sym_not_brace in K. }
  destruct (read_char_to_char Hx) as (a & Ea & Ra & _). destruct (read_char_to_char Hy) as (b & Eb & Rb & _).
  assert (G : exists l, gap x y l /\ map (to_char default_symtab) (if x <? y then seq x (y - x + 1) else rev (seq y (x - y + 1))) =
    a :: concat (map (print_bell default_symtab) l) ++ [b]).
  { exists (if x <? y then seq (x + 1) (y - x - 1) else rev (seq (y + 1) (x - y - 1))). destruct (Nat.ltb_spec x y) as [L|L].
    - split; [left; auto|]. rewrite symbols_plain by (apply Forall_forall; intros c Hc; apply in_seq in Hc; lia). rewrite (seq_up L). cbn [map]. rewrite map_app. cbn [map]. now rewrite Ea, Eb.
    - split; [right; left; split; [lia|auto]|]. rewrite symbols_plain by (apply Forall_forall; intros c Hc; apply in_rev, in_seq in Hc; lia).
      rewrite (@seq_up y x) by lia. cbn [rev]. rewrite rev_app_distr. cbn [rev app map]. rewrite map_app. cbn [map]. now rewrite Ea, Eb. }
  destruct G as (l & G & ->). rewrite Ea, Eb. apply fi_char; [intros [K _]; now apply K|].
  apply (fi_range Ra Rb G). apply fi_char; [|constructor]. intros (_ & c & t & E). discriminate.
Qed.
Print Assumptions C76_range.
(* Anything else is refused, unless a number leaves the range of an int; and without a number of
   bells everything is. *)
Theorem C76_total n s : 1 <= n <= 255 -> sane n s ->
  (exists e, pn_node default_symtab n s = Ret e) \/ (exists x, pn_node default_symtab n s = Throw x).
Proof.
  intros Hn S. assert (T : tame (pn_node default_symtab n s)); [|destruct (pn_node default_symtab n s); eauto; contradiction].
  assert (Hi : (Z.of_nat n <= int_max)%Z) by (unfold int_max; lia). unfold pn_node. destruct (Nat.eqb_spec n 0); [lia|].
  apply tame_bind; [apply (expand_exprs_tame Hi read_char_tame S)|]. intros t _. apply tame_bind; [|intros; exact I].
  destruct (@C17_total n t) as [(cs & E & _)|[(x & E) _]]; [lia| |]; rewrite E; exact I.
Qed.
Print Assumptions C76_total.
Theorem C76_no_bells s : pn_node default_symtab 0 s = Throw InvalidArgument /\ transp_node default_symtab 0 s = Throw InvalidArgument.
Proof. split; reflexivity. Qed.
Print Assumptions C76_no_bells.
(* {-2147483648} overflows; {257} is the treble; a range cannot end at a bell after the 33rd. *)
Theorem C76_braces_refuted : pn_node default_symtab 6 (str "+{-2147483648}") = UB /\
  pn_node default_symtab 6 (str "+{257}6") = pn_node default_symtab 6 (str "+16") /\
  pn_node default_symtab 40 (str "+{36}..{38}") = Throw BellInvalid.
Proof. split; [|split]; vm_compute; reflexivity. Qed.
Print Assumptions C76_braces_refuted.
Example C76_ex : (exists cs, pn_node default_symtab 8 (str "&-1{N}-14-1{ N - 2 }.2{N-1}") = Ret (EPn cs []) /\ pn_node default_symtab 8 (str "&-18-14-16.27") = Ret (EPn cs []) /\ length cs = 13) /\
  pn_node default_symtab 10 (str "+1..6") = pn_node default_symtab 10 (str "+123456") /\ pn_node default_symtab 10 (str "+1..6") <> Throw PnInvalid /\
  read_as default_symtab 8 (str "{N-2}..{N}") (str "678") /\ sane 8 (str "&-1{N}") /\
  pn_node default_symtab 8 (str "+1{M}") = Throw InvalidArgument.
Proof.
  split; [eexists; split; [vm_compute; reflexivity|split; [vm_compute; reflexivity|reflexivity]]|]. split; [vm_compute; reflexivity|]. split; [vm_compute; discriminate|].
  split; [apply expand_iff; [unfold int_max; lia|vm_compute; reflexivity]|]. split; [|vm_compute; reflexivity].
  intros a x b z E N1 N2 B.
  assert (L : x = str "N").
  { unfold in_braces in E. destruct a as [|a0 [|a1 [|a2 [|a3 [|a4 [|a5 [|a6 a]]]]]]]; try discriminate E.
    - cbn in E. injection E as <- <- <- E. destruct x as [|x0 [|x1 x]]; [discriminate| |].
      + injection E as <- _. reflexivity.
      + injection E as <- <- _. exfalso. apply N2. cbn. auto. }
  subst x. assert (P : parse_bell_expr 8 (str "N") = as_int z) by (apply bell_expr_parse; [unfold int_max; lia|exact B]).
  assert (Z8 : parse_bell_expr 8 (str "N") = Ret 8%Z) by (vm_compute; reflexivity). rewrite Z8 in P. symmetry in P. apply as_int_inv in P as [<- _].
  unfold in_int, int_min, int_max. lia.
Qed.

(* C77.  A transposition literal is a row: the bells it leaves out stay where they are.  It is
   refused if it is not a row, or on more bells than there are. *)
Theorem C77_transposition n s e : 1 <= n <= 256 ->
  transp_node default_symtab n s = Ret e <->
  exists r, row_of_string default_symtab s = Ret r /\ row256 r /\ length r <= n /\ e = ETransp (pad n r).
Proof.
  intros Hn. destruct (transp_cases s Hn) as [(r & E & R & T)|(x & E & T)]; rewrite T; rewrite E.
  - destruct (Nat.leb_spec (length r) n) as [L|L].
    + split; [intros K; exists r; repeat split; auto; try apply R; congruence|]. intros (r' & Er & _ & _ & ->). congruence.
    + split; [discriminate|]. intros (r' & Er & _ & L' & _). assert (r' = r) by congruence. subst. lia.
  - split; [discriminate|]. intros (r & K & _). discriminate.
Qed.
Print Assumptions C77_transposition.
Theorem C77_printed n r : 1 <= n <= 256 -> row256 r -> length r <= n -> transp_node default_symtab n (row_ostream default_symtab r) = Ret (ETransp (pad n r)).
Proof. intros Hn R L. apply C77_transposition; [auto|]. exists r. split; [now apply row_ostream_parse|auto]. Qed.
Print Assumptions C77_printed.
Theorem C77_total n s : 1 <= n <= 256 ->
  (exists e, transp_node default_symtab n s = Ret e) \/ (exists x, transp_node default_symtab n s = Throw x).
Proof. intros Hn. destruct (transp_cases s Hn) as [(r & _ & _ & T)|(x & _ & T)]; rewrite T; [destruct (_ <=? _); unfold fail; eauto|eauto]. Qed.
Print Assumptions C77_total.
(* Carried out when nothing is being proved, it takes the row to the one with the bells so
   rearranged, and does nothing else but count (proving, it then does what any row does) - whichever the
   direction, so that ~ does not undo it. *)
Theorem C77_rung n t s fuel c fwd : row256 (x_r (s_x s)) -> length (x_r (s_x s)) = n -> row256 t -> length t <= n ->
  x_proving (s_x s) = false -> (g_nodes (s_g s) + 2 <> c_limit c)%Z ->
  exists r, gs_run c (S fuel) (QExec (ETransp (pad n t)) fwd) s =
    Ret (mkSt (set_r (s_x s) r) (mkGlob (g_syms (s_g s)) (g_nodes (s_g s) + 2) (g_out (s_g s))), inl Datatypes.tt) /\
    row256 r /\ length r = n /\ forall i, act r i = act (x_r (s_x s)) (act t i).
Proof.
  intros R L T LT Hp Hc. pose proof R as [_ L256]. rewrite L in L256.
  assert (PT : mul (rounds n) t = Ret (pad n t)) by (apply mul_id_l; auto).
  destruct (@mul_spec (rounds n) t) as (t' & Et & Rt & Lt & At); [now apply rounds_row256|auto|]. rewrite PT in Et. injection Et as <-.
  destruct (@mul_spec (x_r (s_x s)) (pad n t) R Rt) as (r & Er & Rr & Lr & Ar). exists r.
  assert (LP : length (pad n t) = n) by (rewrite pad_length; lia). rewrite L, LP, Nat.max_id in Lr. split.
  - cbn [gs_run step]. unfold mbind at 1. unfold count, mbind at 1, getg. destruct (Z.eqb_spec (g_nodes (s_g s) + 2) (c_limit c)); [contradiction|].
    destruct s as [x g]. cbn [s_x s_g] in *. unfold modg. cbn [exec_impl]. unfold ring_row, mbind, getx, lift, modx, prove_row, ret. cbn [s_x s_g]. rewrite Er. cbn.
    rewrite Hp. cbn. reflexivity.
  - split; [exact Rr|]. split; [exact Lr|]. intros i. rewrite Ar. f_equal. rewrite At. rewrite (proj2 (rounds_row256 L256)). unfold act, id_row.
    set (j := nth i t i). destruct (le_lt_dec n j) as [G|G]; [now apply nth_overflow; rewrite seq_length|]. now rewrite seq_nth.
Qed.
Print Assumptions C77_rung.
Theorem C77_reverse_refuted c fuel t s : gs_run c (S fuel) (QExec (ETransp t) false) s = gs_run c (S fuel) (QExec (ETransp t) true) s.
Proof. reflexivity. Qed.
Print Assumptions C77_reverse_refuted.
(* Ranges and braces other than a bell's number are not for transpositions. *)
Theorem C77_ranges_refuted : transp_node default_symtab 6 (str "1..6") = Throw BellInvalid /\ transp_node default_symtab 6 (str "{N}12345") = Throw BellInvalid /\
  transp_node default_symtab 6 (str "{6}12345") = Ret (ETransp [5; 0; 1; 2; 3; 4]).
Proof. split; [|split]; vm_compute; reflexivity. Qed.
Print Assumptions C77_ranges_refuted.
Example C77_ex : transp_node default_symtab 6 (str "2143") = Ret (ETransp [1; 0; 3; 2; 4; 5]) /\ transp_node default_symtab 6 (str "2143658") = Throw RowInvalid /\
  transp_node default_symtab 6 (str "2143657") = Throw InvalidArgument.
Proof. repeat split; vm_compute; reflexivity. Qed.

(* C78.  A pattern literal is a pattern, after the same expansion, whose bells are among the first n. *)
Theorem C78_accepted n s junk : n <= 256 ->
  (exists e, pattern_node default_symtab junk n s = Ret e) <-> exists p, read_as default_symtab n s (text p) /\ spelled n p.
Proof.
  intros Hn. split.
  - intros (e & H). apply (pattern_iff _ _ _ Hn) in H as (p & R & S & _). eauto.
  - intros (p & R & S). eexists. apply (pattern_iff _ _ _ Hn). eauto.
Qed.
Print Assumptions C78_accepted.
(* As a test it holds of the rows that match it.  (clean, matches1 and open_ended: see C38.) *)
Theorem C78_test n s junk e p : 1 <= n <= 256 -> pattern_node default_symtab junk n s = Ret e ->
  read_as default_symtab n s (text p) -> spelled n p -> clean default_symtab n p ->
  exists f, e = EPattern f /\ forall r, length r = n -> NoDup r ->
    (f r = true <-> exists w, matches1 default_symtab p r w) /\
    (Spec_Music.open_ended n p -> (f r = true <-> exists w, matches default_symtab p r w)).
Proof.
  intros Hn E R S C. assert (Hi : (Z.of_nat n <= int_max)%Z) by (unfold int_max; lia).
  assert (E' : pattern_node default_symtab junk n s = Ret (EPattern (pattern_bool default_symtab junk n (mkMD (text p) 0 0 1 1 [])))).
  { apply pattern_iff; [lia|]. eauto. }
  eexists. split; [rewrite E in E'; now injection E' as ->|]. intros r L D.
  destruct (@score_row junk n p r ltac:(lia) C (spelled_below S) L D) as (z & Ez & Hz).
  assert (T : pattern_bool default_symtab junk n (mkMD (text p) 0 0 1 1 []) r = true <-> exists w, matches1 default_symtab p r w).
  { unfold pattern_bool. rewrite Ez. rewrite <- Hz. destruct (Z.eqb_spec z 0); cbn [negb]; split; congruence. }
  split; [exact T|]. intros O. rewrite T. split; intros [w M]; exists w; apply (matches1_matches _ w O L); exact M.
Qed.
Print Assumptions C78_test.
(* The pattern in an alternative without a test holds of every row. *)
Theorem C78_star n junk : exists f, pattern_node default_symtab junk n (str "*") = Ret (EPattern f) /\ forall r, f r = true.
Proof.
  eexists. split.
  - unfold pattern_node. replace (expand_bell_exprs default_symtab n (str "*")) with (Ret (str "*")) by reflexivity. cbn [bind].
    replace (md_make default_symtab (str "*") 1 1) with (Ret (mkMD (str "*") 0 0 1 1 [])) by reflexivity. cbn [bind md_pat].
    assert (V : validate_regex default_symtab n (str "*") = Ret Datatypes.tt).
    { unfold validate_regex. cbv zeta. rewrite (proj2 (forallb_forall _ _)); [reflexivity|].
      intros c [<-|[]]. apply has_char_in, in_or_app. right. cbn. auto. }
    rewrite V. reflexivity.
  - intros r. unfold pattern_bool, pattern_score.
    assert (P : music_push default_symtab (music_make n) (mkMD (str "*") 0 0 1 1 []) = Ret (mkMusic [mkMD (str "*") 0 0 1 1 []] (MNode [] [0]) n)).
    { unfold music_push. cbn [md_pat mu_b music_make mu_info mu_top].
      assert (C : check_bells default_symtab (str "*") n = Ret Datatypes.tt) by (unfold check_bells; destruct (n =? 0); reflexivity).
      rewrite C. cbn [bind]. unfold add_fuel. replace (3 * length (str "*") + 2 * n + 5) with (S (7 + 2 * n)) by (cbn [str list_ascii_of_string length]; lia).
      generalize (7 + 2 * n) as f. intros f. cbn [str list_ascii_of_string mn_add]. destruct (Nat.ltb_spec n 0); [lia|]. reflexivity. }
    rewrite P. cbn [bind]. unfold process_row. cbn [mu_info mu_top mu_b map mn_match forM].
    unfold hit. cbn [vget nth_error bind]. unfold vset. cbn [length Nat.ltb Nat.leb]. cbn [bind]. reflexivity.
Qed.
Print Assumptions C78_star.
Theorem C78_total n s junk : n <= 256 -> sane n s ->
  (exists e, pattern_node default_symtab junk n s = Ret e) \/ (exists x, pattern_node default_symtab junk n s = Throw x).
Proof. intros Hn S. pose proof (pattern_tame junk Hn S) as T. destruct (pattern_node default_symtab junk n s); eauto; contradiction. Qed.
Print Assumptions C78_total.
(* Small letters are refused, though they name bells everywhere else. *)
Theorem C78_case_refuted : pattern_node default_symtab 0 12 (str "*e*") = Throw InvalidArgument /\
  (exists d, md_make default_symtab (str "*e*") 1 1 = Ret d) /\ match pattern_node default_symtab 0 12 (str "*E*") with Ret _ => True | _ => False end.
Proof. split; [vm_compute; reflexivity|]. split; [eexists; vm_compute; reflexivity|vm_compute; exact I]. Qed.
Print Assumptions C78_case_refuted.
Definition ends_in (s : M_Gsiril.text) (r : row) : outcome bool :=
  e <- pattern_node default_symtab 0 6 s ;; match e with EPattern f => Ret (f r) | _ => fail end.
Example C78_ex : ends_in (str "*{N-1}..{N}") [0; 2; 1; 3; 4; 5] = Ret true /\ ends_in (str "*{N-1}..{N}") [0; 2; 1; 3; 5; 4] = Ret false /\
  ends_in (str "*[45]6") [0; 1; 2; 3; 4; 5] = Ret true /\ ends_in (str "*[45]6") [0; 1; 3; 4; 2; 5] = Ret false /\
  ends_in (str "*7") [0; 1; 2; 3; 4; 5] = Throw InvalidArgument.
Proof. repeat split; vm_compute; reflexivity. Qed.
Example C78_ex_test : spelled 6 [AnyBells; OneOf [chr "4"; chr "5"]; Named (chr "6")] /\
  read_as default_symtab 6 (str "*[45]{N}") (text [AnyBells; OneOf [chr "4"; chr "5"]; Named (chr "6")]).
Proof.
  split.
  - intros t c Ht Hc. destruct Ht as [<-|[<-|[<-|[]]]]; cbn in Hc; [contradiction| |].
    + destruct Hc as [<-|[<-|[]]]; [exists 3|exists 4]; repeat split; lia.
    + destruct Hc as [<-|[]]; exists 5; repeat split; lia.
  - apply expand_iff; [unfold int_max; lia|vm_compute; reflexivity].
Qed.
