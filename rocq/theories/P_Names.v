(* P_Names.v - proofs about titles. *)
From Verif Require Import Base M_Bell M_Change M_Row M_Method M_MethClass M_Dim M_Names Spec_Dim Spec_MethClass Spec_Names P_Bell P_Dim.
Set Implicit Arguments.
Unset Strict Implicit.
Open Scope nat_scope.

Lemma eqb_lasc a b : list_ascii_eqb a b = true <-> a = b.
Proof. unfold list_ascii_eqb. destruct list_eq_dec; split; intros; auto; discriminate. Qed.

Lemma classname_spec k d l year : classname (class_code k d l) year = Ret (spaced (class_words k d l year)).
Proof.
  unfold classname, class_words, kind_words. rewrite (Z.leb_antisym year 2019).
  destruct (year <? 2019)%Z; destruct k, d, l; vm_compute; reflexivity.
Qed.

(* ---- stages ---- *)
Lemma print_len n : forall k, (Z.of_nat n < 10 ^ Z.of_nat (S k))%Z -> length (print_nat n) <= S k.
Proof.
  enough (X : forall k n fuel acc, (Z.of_nat n < 10 ^ Z.of_nat (S k))%Z -> n < fuel -> length (print_nat_f fuel n acc) <= S k + length acc).
  { intros k H. assert (Y := X k n (S n) [] H ltac:(lia)). cbn [length] in Y. unfold print_nat. lia. }
  clear n. induction k as [|k IH]; intros n fuel acc Hn Hf; (destruct fuel as [|fuel]; [lia|]); cbn [print_nat_f].
  - change (10 ^ Z.of_nat 1)%Z with 10%Z in Hn. destruct (Nat.ltb_spec n 10); [|lia]. cbn. lia.
  - destruct (Nat.ltb_spec n 10); [cbn; lia|]. rewrite (Nat2Z.inj_succ (S k)), Z.pow_succ_r in Hn by lia.
    assert (D := Nat.div_mod n 10 ltac:(lia)). assert (D2 := Nat.mod_upper_bound n 10 ltac:(lia)).
    assert (Y := IH (n / 10) fuel (digit_char (n mod 10) :: acc) ltac:(nia) ltac:(nia)). cbn [length] in Y. lia.
Qed.
Lemma print_int_len n : (-999999 <= n <= 9999999)%Z -> length (print_int n) <= 7.
Proof.
  intros H. unfold print_int. destruct (Z.ltb_spec n 0).
  - cbn [length]. enough (length (print_nat (Z.to_nat (- n))) <= 6) by lia. apply print_len. rewrite Z2Nat.id by lia. change (10 ^ Z.of_nat 6)%Z with 1000000%Z. lia.
  - apply print_len. rewrite Z2Nat.id by lia. change (10 ^ Z.of_nat 7)%Z with 10000000%Z. lia.
Qed.
Lemma stage_range n w : In (n, w) stage_table -> (3 <= n <= 22)%Z.
Proof. intros H. cbn in H. repeat (destruct H as [H|H]; [injection H as <- <-; lia|]). destruct H. Qed.
Lemma stage_named n : (3 <= n <= 22)%Z -> exists w, vget txt_stages (Z.to_nat (n - 3)) = Ret w /\ In (n, w) stage_table.
Proof.
  intros H. assert (C : (n = 3 \/ n = 4 \/ n = 5 \/ n = 6 \/ n = 7 \/ n = 8 \/ n = 9 \/ n = 10 \/ n = 11 \/ n = 12 \/ n = 13 \/
    n = 14 \/ n = 15 \/ n = 16 \/ n = 17 \/ n = 18 \/ n = 19 \/ n = 20 \/ n = 21 \/ n = 22)%Z) by lia.
  repeat (destruct C as [->|C]; [eexists; split; [reflexivity|cbn; tauto]|]). subst n. eexists; split; [reflexivity|cbn; tauto].
Qed.
Lemma stagename_spec n : (-999999 <= n <= 9999999)%Z -> exists w, stagename n = Ret w /\ stage_word n w.
Proof.
  intros H. unfold stagename. destruct ((3 <=? n)%Z && (n <=? 22)%Z) eqn:E.
  - apply andb_true_iff in E as [A B]. destruct (@stage_named n ltac:(lia)) as (w & E1 & E2). exists w. split; [exact E1|now left].
  - eexists. split; [reflexivity|]. right. split.
    + intros v Hv. apply stage_range in Hv. apply andb_false_iff in E. lia.
    + rewrite firstn_all2; [reflexivity|]. now apply print_int_len.
Qed.
Definition word_head (w : list ascii) : bool := match w with c :: _ => is_digit c || eqc c (chr "-") | [] => true end.
Lemma print_int_head n : word_head (print_int n) = true.
Proof.
  unfold print_int. destruct (n <? 0)%Z; [reflexivity|]. destruct (print_nat_head (Z.to_nat n)) as (c & t & -> & H). cbn. now rewrite H.
Qed.
Lemma table_heads : forallb (fun p => negb (word_head (snd p))) stage_table = true.
Proof. vm_compute. reflexivity. Qed.
Lemma table_inj_b : forallb (fun p => forallb (fun q => implb (list_ascii_eqb (snd p) (snd q)) (fst p =? fst q)%Z) stage_table) stage_table = true.
Proof. vm_compute. reflexivity. Qed.
Lemma print_pos_head n : (0 <= n)%Z -> exists c t, print_int n = c :: t /\ is_digit c = true.
Proof. intros H. unfold print_int. rewrite (proj2 (Z.ltb_ge n 0) H). apply print_nat_head. Qed.
Lemma print_int_inj a b : print_int a = print_int b -> a = b.
Proof.
  intros E. destruct (Z.ltb_spec a 0) as [A|A], (Z.ltb_spec b 0) as [B|B].
  - rewrite (print_int_neg A), (print_int_neg B) in E. injection E as E. apply (f_equal dec_value) in E.
    rewrite (proj2 (@print_int_pos (- a) ltac:(lia))), (proj2 (@print_int_pos (- b) ltac:(lia))) in E. lia.
  - exfalso. destruct (print_pos_head B) as (c & t & E' & H). rewrite E', (print_int_neg A) in E. injection E as E _. subst c. discriminate H.
  - exfalso. destruct (print_pos_head A) as (c & t & E' & H). rewrite E', (print_int_neg B) in E. injection E as E _. subst c. discriminate H.
  - apply (f_equal dec_value) in E. rewrite (proj2 (@print_int_pos a A)), (proj2 (@print_int_pos b B)) in E. exact E.
Qed.
Lemma stage_inj n n' w : stage_word n w -> stage_word n' w -> n = n'.
Proof.
  assert (M : forall n v m, In (n, v) stage_table -> v = print_int m -> False).
  { intros x v m H ->. assert (Y := proj1 (forallb_forall _ _) table_heads _ H). cbn [snd] in Y. now rewrite print_int_head in Y. }
  intros [A|[_ A]] [B|[_ B]].
  - assert (X := proj1 (forallb_forall _ _) table_inj_b _ A). cbn beta in X. assert (Y := proj1 (forallb_forall _ _) X _ B). cbn [fst snd] in Y.
    rewrite (proj2 (eqb_lasc w w) eq_refl) in Y. now apply Z.eqb_eq.
  - exfalso. eapply M; [exact A|exact B].
  - exfalso. eapply M; [exact B|exact A].
  - subst w. now apply print_int_inj.
Qed.
Lemma stage_fun n w w' : stage_word n w -> stage_word n w' -> w = w'.
Proof.
  assert (T : forallb (fun p => forallb (fun q => implb (fst p =? fst q)%Z (list_ascii_eqb (snd p) (snd q))) stage_table) stage_table = true) by (vm_compute; reflexivity).
  intros [A|[N A]] [B|[N' B]].
  - assert (X := proj1 (forallb_forall _ _) T _ A). cbn beta in X. assert (Y := proj1 (forallb_forall _ _) X _ B). cbn [fst snd] in Y.
    rewrite Z.eqb_refl in Y. now apply eqb_lasc.
  - destruct (N' _ A).
  - destruct (N _ B).
  - congruence.
Qed.
(* stage words are single words *)
Definition no_space (w : list ascii) : Prop := ~ In (chr " ") w.
Lemma digits_no_space w : forallb is_digit w = true -> no_space w.
Proof. intros H I. rewrite forallb_forall in H. specialize (H _ I). discriminate H. Qed.
Lemma stage_no_space n w : stage_word n w -> no_space w /\ w <> [].
Proof.
  assert (T : forallb (fun p => negb (existsb (eqc (chr " ")) (snd p)) && negb (is_empty (snd p))) stage_table = true) by (vm_compute; reflexivity).
  intros [A|[_ ->]].
  - assert (X := proj1 (forallb_forall _ _) T _ A). cbn [snd] in X. apply andb_true_iff in X as [X Y]. split; [|intros ->; discriminate Y].
    intros I. apply negb_true_iff in X. assert (existsb (eqc (chr " ")) w = true) by (apply existsb_exists; exists (chr " "); split; [exact I|reflexivity]). congruence.
  - assert (P : forall m, (0 <= m)%Z -> no_space (print_int m) /\ print_int m <> []).
    { intros m Hm. destruct (print_int_pos Hm) as [[D1 D2] _]. split; [now apply digits_no_space|exact D2]. }
    destruct (Z.ltb_spec n 0); [|now apply P]. rewrite print_int_neg by lia. split; [|discriminate]. intros [I|I]; [discriminate I|]. exact (proj1 (P (- n)%Z ltac:(lia)) I).
Qed.

(* ---- words and spaces ---- *)
Definition sep (l : list ascii) : list ascii := if is_empty l then [] else [chr " "].
Lemma spaced_cons w ws : ws <> [] -> spaced (w :: ws) = w ++ chr " " :: spaced ws.
Proof. destruct ws; [congruence|reflexivity]. Qed.
Lemma spaced_snoc ws s : Forall (fun w => w <> []) ws -> spaced (ws ++ [s]) = spaced ws ++ sep (spaced ws) ++ s.
Proof.
  induction 1 as [|w ws H F IH]; [reflexivity|]. cbn [app]. rewrite spaced_cons by (destruct ws; discriminate).
  destruct ws as [|v ws].
  - cbn. destruct w; [congruence|reflexivity].
  - rewrite IH, (spaced_cons w) by discriminate. replace (sep (spaced (v :: ws))) with [chr " "].
    + replace (sep (w ++ chr " " :: spaced (v :: ws))) with [chr " "] by (destruct w; reflexivity). rewrite <- app_assoc. reflexivity.
    + assert (Hv : v <> []) by (inversion F; assumption). unfold sep. destruct ws; [cbn|rewrite spaced_cons by discriminate]; destruct v; try congruence; reflexivity.
Qed.
Lemma class_words_ne k d l year : Forall (fun w => w <> []) (class_words k d l year).
Proof.
  unfold class_words, kind_words. repeat (apply Forall_app; split).
  - destruct d; repeat constructor; discriminate.
  - destruct l; repeat constructor; discriminate.
  - destruct k; try destruct (year <? 2019)%Z; repeat constructor; discriminate.
Qed.
Lemma no_class_iff name n : no_class name n = true <-> classless name n.
Proof.
  unfold no_class, classless. cbn [existsb]. rewrite !orb_true_iff, andb_true_iff, !orb_true_iff, !eqb_lasc, Nat.ltb_lt.
  intuition (try discriminate; auto; try lia).
Qed.

Lemma fullname_spec junk name m year k d l : methclass junk m year = Ret (class_code k d l) -> mb m <= 255 ->
  exists st ws, stage_word (Z.of_nat (mb m)) st /\ title_words name k d l year (mb m) st ws /\
    fullname junk name m year = Ret (spaced (name_word name ++ ws)).
Proof.
  intros HC Hb. destruct (@stagename_spec (Z.of_nat (mb m)) ltac:(lia)) as (st & ES & WS).
  exists st. exists (if no_class name (mb m) then [st] else class_words k d l year ++ [st]). split; [exact WS|]. split.
  - unfold title_words. rewrite <- no_class_iff. destruct (no_class name (mb m)); [left|right]; split; auto; discriminate.
  - unfold fullname. rewrite HC. cbn [bind]. rewrite classname_spec, ES. cbn [bind].
    assert (R : forall ws, ws <> [] -> spaced (name_word name ++ ws) = (name ++ sep name) ++ spaced ws).
    { intros ws Hw. unfold name_word, sep. destruct name as [|c name]; [reflexivity|]. cbn [is_empty app]. rewrite spaced_cons by exact Hw.
      rewrite <- !app_assoc. reflexivity. }
    destruct (no_class name (mb m)); cbn [bind].
    + rewrite R by discriminate. reflexivity.
    + rewrite R by (destruct (class_words k d l year); discriminate). rewrite spaced_snoc by apply class_words_ne.
      unfold sep. now rewrite !app_assoc.
Qed.

(* the last word of a text *)
Lemma last_word_unique p s p' s' : no_space s -> no_space s' ->
  (p = [] \/ exists q, p = q ++ [chr " "]) -> (p' = [] \/ exists q, p' = q ++ [chr " "]) -> p ++ s = p' ++ s' -> p = p' /\ s = s'.
Proof.
  intros Hs Hs' Hp Hp' E.
  assert (G : forall (a b x y z : list ascii), no_space x -> no_space y -> (b = [] \/ exists q, b = q ++ [chr " "]) -> b = a ++ z -> x = z ++ y -> z = []).
  { intros a b x y z Hx _ [->|(q & ->)] E1 E2; [destruct a, z; try discriminate; reflexivity|].
    destruct z as [|c z] using rev_ind; [reflexivity|]. exfalso. rewrite app_assoc in E1. apply app_inj_tail in E1 as [_ <-].
    apply Hx. rewrite E2, <- app_assoc. apply in_or_app. right. now left. }
  apply app_eq_app in E as (z & [[E1 E2]|[E1 E2]]).
  - assert (z = []) by (eapply (G p' p s' s z); eauto). subst z. rewrite app_nil_r in E1. cbn in E2. auto.
  - assert (z = []) by (eapply (G p p' s s' z); eauto). subst z. rewrite app_nil_r in E1. cbn in E2. auto.
Qed.
Lemma title_last name ws s k d l year n : title_words name k d l year n s ws ->
  exists p, spaced (name_word name ++ ws) = p ++ s /\ (p = [] \/ exists q, p = q ++ [chr " "]).
Proof.
  intros H. assert (exists us, ws = us ++ [s] /\ Forall (fun w => w <> []) us) as (us & -> & F).
  { destruct H as [[_ ->]|[_ ->]]; [exists []; auto|]. eexists. split; [reflexivity|apply class_words_ne]. }
  rewrite app_assoc, spaced_snoc, app_assoc.
  2:{ apply Forall_app. split; [|exact F]. unfold name_word. destruct name; repeat constructor. discriminate. }
  eexists. split; [reflexivity|]. unfold sep. set (t := spaced _). destruct t; [now left|right]. eexists. reflexivity.
Qed.

(* ---- the class can be read off ---- *)
Definition all_kinds : list kind := [Principle; Bob; Place; TrebleBob; Surprise; Delight; TreblePlace; Alliance; Hybrid; SlowCourse].
Definition all_codes : list (kind * bool * bool) :=
  flat_map (fun k => flat_map (fun d : bool => map (fun l : bool => (k, d, l)) [true; false]) [true; false]) all_kinds.
Lemma in_codes k d l : In (k, d, l) all_codes.
Proof. destruct k, d, l; vm_compute; tauto. Qed.
Definition same_code (year : Z) (x y : kind * bool * bool) : bool :=
  let '(k, d, l) := x in let '(k', d', l') := y in
  eqb d d' && eqb l l' && ((kind_code k =? kind_code k')%Z || (is_empty (kind_words k year) && is_empty (kind_words k' year))).
Definition text_of (year : Z) (x : kind * bool * bool) := let '(k, d, l) := x in spaced (class_words k d l year).
Lemma class_text_b : forall year, year = 2018%Z \/ year = 2019%Z ->
  forallb (fun x => forallb (fun y => implb (list_ascii_eqb (text_of year x) (text_of year y)) (same_code year x y)) all_codes) all_codes = true.
Proof. intros year [->| ->]; vm_compute; reflexivity. Qed.
Lemma class_words_year k d l year : class_words k d l year = class_words k d l (if (year <? 2019)%Z then 2018 else 2019)%Z.
Proof. unfold class_words, kind_words. destruct k; try reflexivity. now destruct (year <? 2019)%Z. Qed.
Lemma class_text_inj k d l k' d' l' year : spaced (class_words k d l year) = spaced (class_words k' d' l' year) ->
  d = d' /\ l = l' /\ (k = k' \/ (kind_words k year = [] /\ kind_words k' year = [])).
Proof.
  rewrite (class_words_year k), (class_words_year k'). set (y := if (year <? 2019)%Z then 2018%Z else 2019%Z). intros E.
  assert (Y : y = 2018%Z \/ y = 2019%Z) by (unfold y; destruct (year <? 2019)%Z; auto).
  assert (X := proj1 (forallb_forall _ _) (class_text_b Y) _ (in_codes k d l)). cbn beta in X.
  assert (Z := proj1 (forallb_forall _ _) X _ (in_codes k' d' l')). cbn [text_of] in Z. rewrite (proj2 (eqb_lasc _ _) E) in Z. cbn [implb same_code] in Z.
  apply andb_true_iff in Z as [Z1 Z]. apply andb_true_iff in Z1 as [Z1 Z2]. apply eqb_prop in Z1, Z2. split; [exact Z1|]. split; [exact Z2|].
  apply orb_true_iff in Z as [Z|Z]; [left; destruct k, k'; try reflexivity; discriminate Z|right].
  assert (KY : forall q, kind_words q year = kind_words q y) by (intros q; unfold kind_words, y; destruct q; try reflexivity; now destruct (year <? 2019)%Z).
  rewrite !KY. apply andb_true_iff in Z as [Za Zb]. destruct (kind_words k y), (kind_words k' y); try discriminate; auto.
Qed.

(* ---- long numbers ---- *)
Lemma print_f_app fuel n acc : n < fuel -> print_nat_f fuel n acc = print_nat_f fuel n [] ++ acc.
Proof.
  revert n acc. induction fuel as [|fuel IH]; intros n acc H; [lia|]. cbn [print_nat_f]. destruct (Nat.ltb_spec n 10); [reflexivity|].
  assert (D := Nat.div_mod n 10 ltac:(lia)). rewrite IH by lia. rewrite (IH _ [_]) by lia. now rewrite <- app_assoc.
Qed.
Lemma print_f_fuel fuel fuel' n : n < fuel -> n < fuel' -> print_nat_f fuel n [] = print_nat_f fuel' n [].
Proof.
  revert fuel' n. induction fuel as [|fuel IH]; intros [|fuel'] n H H'; try lia. cbn [print_nat_f]. destruct (Nat.ltb_spec n 10); [reflexivity|].
  assert (D := Nat.div_mod n 10 ltac:(lia)). rewrite (@print_f_app fuel) by lia. rewrite (@print_f_app fuel') by lia. f_equal. apply IH; lia.
Qed.
Lemma print_step n d : 0 < n -> d < 10 -> print_nat (10 * n + d) = print_nat n ++ [digit_char d].
Proof.
  intros Hn Hd. unfold print_nat. remember (10 * n + d) as N eqn:EN. cbn [print_nat_f]. destruct (Nat.ltb_spec N 10); [lia|].
  assert (D : N / 10 = n) by (symmetry; apply Nat.div_unique with d; lia). assert (M : N mod 10 = d) by (symmetry; apply Nat.mod_unique with n; lia).
  rewrite D, M, (@print_f_app N) by lia. f_equal. exact (@print_f_fuel N (S n) n ltac:(lia) ltac:(lia)).
Qed.
Lemma million : exists k, Z.of_nat k = 1000000%Z /\ length (print_nat k) = 7.
Proof.
  assert (S10 : forall k z n, Z.of_nat k = z /\ 0 < k /\ length (print_nat k) = n -> exists k', Z.of_nat k' = (10 * z)%Z /\ 0 < k' /\ length (print_nat k') = S n).
  { intros k z n (A & B & C). exists (10 * k + 0). split; [lia|]. split; [lia|]. rewrite print_step, app_length by lia. cbn [length]. lia. }
  destruct (S10 1 1%Z 1 ltac:(repeat split; auto)) as (k1 & H1). destruct (S10 _ _ _ H1) as (k2 & H2). destruct (S10 _ _ _ H2) as (k3 & H3).
  destruct (S10 _ _ _ H3) as (k4 & H4). destruct (S10 _ _ _ H4) as (k5 & H5). destruct (S10 _ _ _ H5) as (k6 & H6). exists k6. tauto.
Qed.
Lemma stage_collide : stagename 10000000 = stagename 10000001.
Proof.
  destruct million as (k & E & L). unfold stagename, print_int.
  replace ((3 <=? 10000000)%Z && (10000000 <=? 22)%Z) with false by reflexivity.
  replace ((3 <=? 10000001)%Z && (10000001 <=? 22)%Z) with false by reflexivity.
  replace (10000000 <? 0)%Z with false by reflexivity. replace (10000001 <? 0)%Z with false by reflexivity.
  replace (Z.to_nat 10000000) with (10 * k + 0) by lia. replace (Z.to_nat 10000001) with (10 * k + 1) by lia.
  rewrite !print_step by lia. rewrite !firstn_app, L. reflexivity.
Qed.
