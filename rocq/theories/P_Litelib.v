(* P_Litelib.v - proofs about reading simple method libraries. *)
From Verif Require Import Base M_Bell M_Change M_Row M_Method M_MethClass M_Dim M_Names M_Stream M_Litelib Spec_Dim Spec_Litelib P_Bell P_Dim.
Set Implicit Arguments.
Unset Strict Implicit.
Open Scope nat_scope.

(* ---- characters ---- *)
Lemma eqc_code a b : eqc a b = (nat_of_ascii a =? nat_of_ascii b).
Proof.
  unfold eqc. destruct (ascii_dec a b) as [->|N]; [symmetry; apply Nat.eqb_refl|]. symmetry. apply Nat.eqb_neq. intros E. apply N.
  rewrite <- (ascii_nat_embedding a), <- (ascii_nat_embedding b). now rewrite E.
Qed.
Lemma eqc_nl c : eqc c newline = is_nl c.
Proof. rewrite eqc_code. reflexivity. Qed.
Lemma mem_blank c : mem_chr c blank = is_blank c.
Proof. unfold mem_chr, blank. cbn [map existsb]. rewrite !eqc_code. unfold is_blank. now rewrite orb_false_r. Qed.
Lemma mem_white c : mem_chr c white = is_white c.
Proof. unfold mem_chr, white. cbn [map existsb]. rewrite !eqc_code. unfold is_white, is_blank. rewrite orb_false_r.
  change (nat_of_ascii (ascii_of_nat 32)) with 32. change (nat_of_ascii (ascii_of_nat 9)) with 9. change (nat_of_ascii (ascii_of_nat 13)) with 13.
  change (nat_of_ascii (ascii_of_nat 10)) with 10. destruct (_ =? 32), (_ =? 9), (_ =? 13), (_ =? 10); reflexivity. Qed.
Lemma eqc_colon c : eqc c (chr ":") = is_colon c.
Proof. rewrite eqc_code. reflexivity. Qed.

(* ---- lines ---- *)
Lemma cut_lines t : match cut_line t with
  | (l, Some r) => lines t = l :: lines r /\ length r < length t
  | (l, None) => (l = [] /\ t = []) \/ (l <> [] /\ lines t = [l]) end.
Proof.
  induction t as [|c t IH]; [left; auto|]. cbn [cut_line lines length]. rewrite eqc_nl. destruct (is_nl c).
  - split; [reflexivity|lia].
  - destruct (cut_line t) as [l [r|]].
    + destruct IH as [-> H]. split; [reflexivity|lia].
    + right. split; [discriminate|]. destruct IH as [[-> ->]|[_ ->]]; reflexivity.
Qed.
Lemma lines_len t : length (lines t) <= length t.
Proof. induction t as [|c t IH]; [auto|]. cbn [lines length]. destruct (is_nl c); [cbn; lia|]. destruct (lines t); cbn in *; lia. Qed.

(* the stream will give these lines *)
Definition at_lines (s : istr) (ls : list (list ascii)) : Prop :=
  (is_eof s = false /\ is_fail s = false /\ lines (is_rest s) = ls) \/ (is_eof s = true /\ ls = []) \/ (is_fail s = true /\ ls = []).
Lemma at_good s l ls : at_lines s (l :: ls) -> is_good s = true.
Proof. intros [(A & B & C)|[[A B]|[A B]]]; try discriminate. unfold is_good. now rewrite B. Qed.
Lemma getline_cons s l ls buf : at_lines s (l :: ls) -> exists s', getline s buf = (s', l) /\ is_good s' = true /\ at_lines s' ls.
Proof.
  intros [(A & B & C)|[[A B]|[A B]]]; try discriminate. unfold getline. rewrite A, B. cbn [orb].
  assert (X := cut_lines (is_rest s)). destruct (cut_line (is_rest s)) as [l' [r|]].
  - destruct X as [X _]. rewrite X in C. injection C as -> <-. eexists. split; [reflexivity|]. split; [reflexivity|]. left. auto.
  - destruct X as [[_ X]|[X1 X]]; [rewrite X in C; discriminate|]. rewrite X in C. injection C as -> <-.
    eexists. split; [reflexivity|]. destruct l; [congruence|]. split; [reflexivity|]. right. left. auto.
Qed.
Lemma getline_nil s buf : at_lines s [] -> exists s' l, getline s buf = (s', l) /\ is_good s' = false.
Proof.
  intros [(A & B & C)|[[A B]|[A B]]]; unfold getline; rewrite A, ?B.
  - cbn [orb]. assert (X := cut_lines (is_rest s)). destruct (cut_line (is_rest s)) as [l' [r|]].
    + destruct X as [X _]. congruence.
    + destruct X as [[-> X]|[X1 X]]; [|congruence]. eexists. eexists. split; reflexivity.
  - cbn [orb]. eexists. eexists. split; reflexivity.
  - rewrite orb_true_r. eexists. eexists. split; reflexivity.
Qed.

(* ---- positions in a line ---- *)
Lemma find_idx_while p s : match find_idx p s with
  | Some i => i < length s /\ firstn i s = take_while (fun c => negb (p c)) s /\ skipn i s = drop_while (fun c => negb (p c)) s /\ drop_while (fun c => negb (p c)) s <> []
  | None => take_while (fun c => negb (p c)) s = s /\ drop_while (fun c => negb (p c)) s = [] end.
Proof.
  induction s as [|c s IH]; [split; reflexivity|]. cbn [find_idx take_while drop_while]. destruct (p c); cbn [negb].
  - cbn. repeat split; try lia. discriminate.
  - destruct (find_idx p s) as [i|].
    + destruct IH as (A & B & C & D). cbn [length firstn skipn]. rewrite B, C. repeat split; [lia|exact D].
    + destruct IH as (A & B). now rewrite A, B.
Qed.
Lemma find_idx_ext p q s : (forall c, p c = q c) -> find_idx p s = find_idx q s.
Proof. intros E. induction s as [|c s IH]; [reflexivity|]. cbn. now rewrite E, IH. Qed.
Lemma drop_ext p q s : (forall c, p c = q c) -> drop_while p s = drop_while q s.
Proof. intros E. induction s as [|c s IH]; [reflexivity|]. cbn. now rewrite E, IH. Qed.
Lemma take_ext p q s : (forall c, p c = q c) -> take_while p s = take_while q s.
Proof. intros E. induction s as [|c s IH]; [reflexivity|]. cbn. now rewrite E, IH. Qed.
Lemma take_drop p s : take_while p s ++ drop_while p s = s.
Proof. induction s as [|c s IH]; [reflexivity|]. cbn. destruct (p c); [cbn; now rewrite IH|reflexivity]. Qed.

(* the start of the body *)
Lemma start_of line : match find_first_not_of line blank (Some 0) with
  | Some i => blank_line line = false /\ i <= length line /\ skipn i line = body line
  | None => blank_line line = true end.
Proof.
  unfold find_first_not_of, shift, blank_line, body. change (skipn 0 line) with line. rewrite (@find_idx_ext _ (fun c => negb (is_blank c))) by (intros c; now rewrite mem_blank).
  assert (X := find_idx_while (fun c => negb (is_blank c)) line).
  rewrite (@drop_ext _ is_blank) in X by (intros c; apply negb_involutive). destruct (find_idx _ line) as [i|].
  - destruct X as (A & B & C & D). cbn [Nat.add]. destruct (drop_while is_blank line); [congruence|]. repeat split; [lia|exact C].
  - destruct X as (_ & ->). reflexivity.
Qed.
Lemma skipn_add A a b (l : list A) : skipn a (skipn b l) = skipn (b + a) l.
Proof. revert l. induction b as [|b IH]; intros l; [reflexivity|]. destruct l; [now rewrite !skipn_nil|]. cbn. apply IH. Qed.
(* the place notation and payload from a position *)
Lemma white_at line i u : i <= length line -> skipn i line = u ->
  match find_first_of line white (Some i) with
  | Some j => i <= j < length line /\ firstn (j - i) u = take_while nonwhite u /\ skipn j line = drop_while nonwhite u /\ drop_while nonwhite u <> []
  | None => take_while nonwhite u = u /\ drop_while nonwhite u = [] end.
Proof.
  intros Hi Hu. unfold find_first_of, shift. rewrite Hu. rewrite (@find_idx_ext _ is_white) by apply mem_white.
  assert (X := find_idx_while is_white u). change (fun c => negb (is_white c)) with nonwhite in X.
  destruct (find_idx is_white u) as [j|]; [|exact X]. destruct X as (A & B & C & D).
  assert (L : length u = length line - i) by (rewrite <- Hu; apply skipn_length). replace (i + j - i) with j by lia.
  split; [lia|]. split; [exact B|]. split; [|exact D]. rewrite <- C, <- Hu. now rewrite skipn_add.
Qed.
Lemma pn_at line i b u : i <= length line -> skipn i line = u -> lite_pn (mkLE line i b) = Ret (take_while nonwhite u).
Proof.
  intros Hi Hu. unfold lite_pn. cbn [le_buf le_start]. assert (X := white_at Hi Hu). unfold substr.
  rewrite (proj2 (Nat.ltb_ge _ _) Hi), Hu. destruct (find_first_of line white (Some i)) as [j|]; [|now destruct X as [-> _]].
  now destruct X as (_ & -> & _).
Qed.
Lemma nonwhite_neg c : negb (nonwhite c) = is_white c.
Proof. apply negb_involutive. Qed.
Lemma trim_idx line i v : i <= length line -> skipn i line = v -> (exists c t, v = c :: t /\ is_white c = false) ->
  exists j, find_last_not_of line white = Some j /\ firstn (j + 1 - i) v = rev (drop_while is_white (rev v)).
Proof.
  intros Hi Hv (c & t & Ev & Hc). unfold find_last_not_of. rewrite (@find_idx_ext _ nonwhite) by (intros x; unfold nonwhite; now rewrite mem_white).
  assert (E : rev line = rev v ++ rev (firstn i line)) by (rewrite <- Hv, <- rev_app_distr, firstn_skipn; reflexivity).
  assert (P : forall (a b : list ascii), existsb nonwhite a = true -> find_idx nonwhite (a ++ b) = find_idx nonwhite a).
  { intros a b. induction a as [|x a IH]; [discriminate|]. cbn. destruct (nonwhite x); [reflexivity|]. cbn. intros H. now rewrite IH. }
  assert (Q : existsb nonwhite (rev v) = true) by (apply existsb_exists; exists c; split; [rewrite <- in_rev, Ev; now left|unfold nonwhite; now rewrite Hc]).
  rewrite E, P by exact Q. assert (X := find_idx_while nonwhite (rev v)).
  rewrite (@drop_ext _ is_white), (@take_ext _ is_white) in X by apply nonwhite_neg.
  destruct (find_idx nonwhite (rev v)) as [k|].
  - destruct X as (A & B & C & _). rewrite rev_length in A. eexists. split; [reflexivity|].
    assert (L : length v = length line - i) by (rewrite <- Hv; apply skipn_length).
    rewrite <- C, skipn_rev, rev_involutive. f_equal. lia.
  - exfalso. destruct X as (_ & X). assert (Z : forall a : list ascii, existsb nonwhite a = true -> drop_while is_white a <> []).
    { intros a. induction a as [|x a IH]; [discriminate|]. cbn. unfold nonwhite. destruct (is_white x); [exact IH|discriminate]. }
    exact (Z _ Q X).
Qed.
Lemma drop_head p s c t : drop_while p s = c :: t -> p c = false.
Proof. induction s as [|x s IH]; [discriminate|]. cbn. destruct (p x) eqn:E; [exact IH|]. intros H. injection H as -> _. exact E. Qed.
Lemma payload_at line i b u : i <= length line -> skipn i line = u -> lite_payload (mkLE line i b) = Ret (trimmed (drop_while nonwhite u)).
Proof.
  intros Hi Hu. unfold lite_payload. cbn [le_buf le_start]. assert (X := white_at Hi Hu).
  destruct (find_first_of line white (Some i)) as [j|].
  - destruct X as (A & _ & C & _). unfold find_first_not_of, shift.
    rewrite (@find_idx_ext _ nonwhite) by (intros x; unfold nonwhite; now rewrite mem_white). rewrite C.
    assert (Y := find_idx_while nonwhite (drop_while nonwhite u)). rewrite (@drop_ext (fun c => negb (nonwhite c)) is_white), (@take_ext (fun c => negb (nonwhite c)) is_white) in Y by apply nonwhite_neg.
    unfold trimmed. destruct (find_idx nonwhite (drop_while nonwhite u)) as [k|].
    + destruct Y as (Y1 & _ & Y2 & Y3).
      assert (L : length (drop_while nonwhite u) = length line - j) by (rewrite <- C; apply skipn_length).
      assert (V : skipn (j + k) line = drop_while is_white (drop_while nonwhite u)) by (rewrite <- Y2, <- C; now rewrite skipn_add).
      rewrite (proj2 (Nat.ltb_lt _ _)) by lia. unfold substr. rewrite (proj2 (Nat.ltb_ge _ _)) by lia. rewrite V.
      destruct (drop_while is_white (drop_while nonwhite u)) as [|c t] eqn:EV; [congruence|].
      destruct (@trim_idx line (j + k) (c :: t) ltac:(lia) V) as (e & -> & ->); [|reflexivity].
      exists c, t. split; [reflexivity|]. now apply drop_head in EV.
    + destruct Y as (_ & Y). now rewrite Y.
  - destruct X as (_ & X). cbn [find_first_not_of]. now rewrite X.
Qed.

(* ---- numbers ---- *)
Lemma skip_spaces ws t : all_space ws -> skip_space (ws ++ t) = skip_space t.
Proof. unfold all_space. induction ws as [|c ws IH]; [auto|]. cbn [forallb app skip_space]. intros H. apply andb_true_iff in H as [-> H]. auto. Qed.
Lemma spaces_all ws : all_space ws -> skip_space ws = [].
Proof. intros H. rewrite <- (app_nil_r ws), skip_spaces by exact H. reflexivity. Qed.
Lemma skip_split t : exists ws, t = ws ++ skip_space t /\ all_space ws.
Proof.
  induction t as [|c t (ws & E & H)]; [exists []; split; reflexivity|]. cbn [skip_space]. destruct (is_space c) eqn:S.
  - exists (c :: ws). split; [cbn; now rewrite <- E|]. unfold all_space in *. cbn. now rewrite S, H.
  - exists []. split; reflexivity.
Qed.
Lemma skip_head t c u : skip_space t = c :: u -> is_space c = false.
Proof. induction t as [|x t IH]; [discriminate|]. cbn. destruct (is_space x) eqn:E; [exact IH|]. intros H. injection H as -> _. exact E. Qed.
Lemma digits_split s : exists ds r, s = ds ++ r /\ forallb is_digit ds = true /\ starts_with_digit r = false.
Proof.
  induction s as [|c s (ds & r & E & D & R)]; [exists [], []; auto|]. destruct (is_digit c) eqn:C.
  - exists (c :: ds), r. split; [now rewrite E|]. split; [cbn; now rewrite C|exact R].
  - exists [], (c :: s). repeat split; auto.
Qed.
Lemma read_int_sign ws sign ds r : all_space ws -> (sign = str "-" \/ sign = str "+" \/ sign = []) -> forallb is_digit ds = true -> starts_with_digit r = false ->
  (ds <> [] \/ (sign <> [] \/ match r with [] => True | c :: _ => is_space c = false /\ eqc c (chr "-") = false /\ eqc c (chr "+") = false end)) ->
  read_int (ws ++ sign ++ ds ++ r) =
    let z := (if list_ascii_eqb sign (str "-") then - dec_value ds else dec_value ds)%Z in
    if is_empty ds then (None, r) else if (int_min <=? z)%Z && (z <=? int_max)%Z then (Some z, r) else (None, r).
Proof.
  intros W S D R NE. unfold read_int. rewrite skip_spaces by exact W.
  assert (RD : forall acc, read_digits acc (ds ++ r) = (acc * 10 ^ Z.of_nat (length ds) + dec_value ds, r)%Z) by (intros acc; now apply read_digits_dec).
  assert (SD : starts_with_digit (ds ++ r) = negb (is_empty ds)).
  { destruct ds as [|c ds]; [exact R|]. cbn in D |- *. now apply andb_true_iff in D as [-> _]. }
  destruct S as [->|[->| ->]].
  - cbn [app str list_ascii_of_string skip_space]. change (is_space "-"%char) with false. cbn iota.
    change (eqc "-"%char (chr "-")) with true. cbn iota. rewrite SD, RD. cbn zeta. change (list_ascii_eqb (str "-") (str "-")) with true.
    destruct ds as [|d ds]; cbn [is_empty negb]; [reflexivity|]. rewrite Z.mul_0_l, Z.add_0_l. reflexivity.
  - cbn [app str list_ascii_of_string skip_space]. change (is_space "+"%char) with false. cbn iota.
    change (eqc "+"%char (chr "-")) with false. change (eqc "+"%char (chr "+")) with true. cbn iota. rewrite SD, RD. cbn zeta. change (list_ascii_eqb (str "+") (str "-")) with false.
    destruct ds as [|d ds]; cbn [is_empty negb]; [reflexivity|]. rewrite Z.mul_0_l, Z.add_0_l. reflexivity.
  - cbn [app]. change (list_ascii_eqb [] (str "-")) with false. cbn iota.
    assert (HS : skip_space (ds ++ r) = ds ++ r /\ match ds ++ r with c :: _ => eqc c (chr "-") = false /\ eqc c (chr "+") = false | [] => True end).
    { destruct ds as [|c ds].
      - cbn [app]. destruct NE as [N|[N|N]]; [congruence|congruence|]. destruct r as [|c r]; [auto|]. destruct N as (N1 & N2 & N3). cbn [skip_space]. rewrite N1. auto.
      - cbn [app skip_space forallb] in D |- *. apply andb_true_iff in D as [D _]. rewrite (digit_not_space D). split; [reflexivity|].
        split; unfold eqc; destruct ascii_dec as [->|]; auto; discriminate D. }
    destruct HS as [-> HS]. assert (Y : match ds ++ r with [] => (false, ds ++ r) | c :: u => if eqc c (chr "-") then (true, u) else if eqc c (chr "+") then (false, u) else (false, ds ++ r) end = (false, ds ++ r)).
    { destruct (ds ++ r) as [|c u]; [reflexivity|]. destruct HS as [-> ->]. reflexivity. }
    rewrite Y, SD, RD. cbn zeta. destruct ds as [|d ds]; cbn [is_empty negb]; [reflexivity|]. rewrite Z.mul_0_l, Z.add_0_l. reflexivity.
Qed.
Lemma sign_split t : skip_space t = t -> exists sign u, t = sign ++ u /\
  ((sign = str "-" \/ sign = str "+") \/ (sign = [] /\ match u with [] => True | c :: _ => is_space c = false /\ eqc c (chr "-") = false /\ eqc c (chr "+") = false end)).
Proof.
  intros H. destruct t as [|c t]; [exists [], []; split; [reflexivity|right; auto]|].
  assert (SC : is_space c = false) by (now apply skip_head in H).
  destruct (eqc c (chr "-")) eqn:E1; [|destruct (eqc c (chr "+")) eqn:E2].
  - exists (str "-"), t. unfold eqc in E1. destruct ascii_dec as [->|]; [|discriminate]. split; [reflexivity|tauto].
  - exists (str "+"), t. unfold eqc in E2. destruct (ascii_dec c (chr "+")) as [->|]; [|discriminate]. split; [reflexivity|tauto].
  - exists [], (c :: t). split; [reflexivity|]. right. auto.
Qed.
Lemma space_no_digit r : all_space r -> starts_with_digit r = false.
Proof. unfold all_space. destruct r as [|c r]; [auto|]. cbn. intros H. apply andb_true_iff in H as [H _]. destruct (is_digit c) eqn:E; [|auto]. apply digit_not_space in E. congruence. Qed.
Lemma skip_idem t : skip_space (skip_space t) = skip_space t.
Proof. induction t as [|c t IH]; [reflexivity|]. cbn [skip_space]. destruct (is_space c) eqn:E; [exact IH|]. cbn [skip_space]. now rewrite E. Qed.
Lemma cast_spec t : (exists z, lexical_cast_int t = Ret z /\ int_text t z) \/ (lexical_cast_int t = Throw BadCast /\ forall z, ~ int_text t z).
Proof.
  assert (C : forall z, int_text t z -> lexical_cast_int t = Ret z).
  { intros z (ws & sign & ds & ws' & -> & W & W' & [D D'] & S & B). unfold lexical_cast_int.
    rewrite (@read_int_sign ws sign ds ws'); auto using space_no_digit; [|tauto]. cbn zeta. destruct ds as [|d ds]; [congruence|]. cbn [is_empty].
    assert (E : (if list_ascii_eqb sign (str "-") then - dec_value (d :: ds) else dec_value (d :: ds))%Z = z).
    { destruct S as [[-> ->]|[[->| ->] ->]]; reflexivity. }
    rewrite E. rewrite (proj2 (Z.leb_le _ _)), (proj2 (Z.leb_le _ _)) by lia. cbn [andb]. now rewrite spaces_all. }
  destruct (lexical_cast_int t) as [z|e| |] eqn:E.
  - left. exists z. split; [reflexivity|]. destruct (skip_split t) as (ws & Et & W).
    destruct (sign_split (skip_idem t)) as (sign & u & Eu & HS). destruct (digits_split u) as (ds & r & -> & D & R).
    rewrite Eu in Et. unfold lexical_cast_int in E. rewrite Et in E. rewrite (@read_int_sign ws sign ds r) in E; auto; [|tauto|].
    2:{ destruct HS as [[->| ->]|[-> HS]]; [right; left; discriminate|right; left; discriminate|]. destruct ds; [right; right; exact HS|left; discriminate]. }
    cbn zeta in E. destruct ds as [|d ds]; [discriminate E|]. cbn [is_empty] in E.
    set (v := if list_ascii_eqb sign (str "-") then _ else _) in E. destruct ((int_min <=? v)%Z && (v <=? int_max)%Z) eqn:B; [|discriminate E].
    destruct (skip_space r) eqn:SR; [|discriminate E]. injection E as <-. apply andb_true_iff in B as [B1 B2].
    destruct (skip_split r) as (wr & Er & Wr). rewrite SR, app_nil_r in Er. subst wr.
    exists ws, sign, (d :: ds), r. split; [exact Et|]. split; [exact W|]. split; [exact Wr|]. split; [split; [exact D|discriminate]|]. split.
    + subst v. destruct HS as [[->| ->]|[-> _]]; [left|right|right]; split; auto.
    + lia.
  - right. assert (e = BadCast).
    { unfold lexical_cast_int in E. destruct (read_int t) as [[z|] rest]; [destruct (skip_space rest)|]; congruence. }
    subst e. split; [reflexivity|]. intros z H. apply C in H. congruence.
  - exfalso. unfold lexical_cast_int in E. destruct (read_int t) as [[z|] rest]; [destruct (skip_space rest)|]; congruence.
  - exfalso. unfold lexical_cast_int in E. destruct (read_int t) as [[z|] rest]; [destruct (skip_space rest)|]; congruence.
Qed.
Lemma int_text_fun t z z' : int_text t z -> int_text t z' -> z = z'.
Proof.
  assert (C : forall z, int_text t z -> lexical_cast_int t = Ret z).
  { intros x H. destruct (cast_spec t) as [(y & E & _)|(_ & N)]; [|destruct (N _ H)]. destruct H as (ws & sign & ds & ws' & -> & W & W' & [D D'] & S & B). unfold lexical_cast_int in *.
    rewrite (@read_int_sign ws sign ds ws') in *; auto using space_no_digit; try tauto. cbn zeta in *. destruct ds as [|d ds]; [congruence|]. cbn [is_empty] in *.
    assert (E2 : (if list_ascii_eqb sign (str "-") then - dec_value (d :: ds) else dec_value (d :: ds))%Z = x).
    { destruct S as [[-> ->]|[[->| ->] ->]]; reflexivity. }
    rewrite E2. rewrite (proj2 (Z.leb_le _ _)), (proj2 (Z.leb_le _ _)) by lia. cbn [andb]. now rewrite spaces_all. }
  intros H H'. apply C in H, H'. congruence.
Qed.
