(* P_Wild.v - counting rows: cardinalities, completions of a template. *)
From Verif Require Import Base M_Bell M_Row M_Music Spec_Row Spec_Music Spec_Music2 Spec_Wild P_Row P_Music P_Music2 P_Music4 P_Music6.
Set Implicit Arguments.
Unset Strict Implicit.
Open Scope nat_scope.

Section CardFacts.
Variable A : Type.
Implicit Types P Q : A -> Prop.
Lemma card_ext P Q n : (forall x, P x <-> Q x) -> Card P n -> Card Q n.
Proof. intros H (l & N & I & L). exists l. split; [exact N|]. split; [|exact L]. intros x. rewrite I. apply H. Qed.
Lemma card_unique P n m : Card P n -> Card P m -> n = m.
Proof.
  intros (l & N & I & <-) (l' & N' & I' & <-). apply Permutation_length. apply NoDup_Permutation; [exact N|exact N'|].
  intros x. now rewrite I, I'.
Qed.
Lemma card_none P : (forall x, ~ P x) -> Card P 0.
Proof. intros H. exists []. split; [constructor|]. split; [|reflexivity]. intros x. split; [intros []|apply H]. Qed.
Lemma card_union P Q n m : Card P n -> Card Q m -> (forall x, P x -> Q x -> False) -> Card (fun x => P x \/ Q x) (n + m).
Proof.
  intros (l & N & I & <-) (l' & N' & I' & <-) D. exists (l ++ l'). split; [|split].
  - clear - N N' I I' D. induction l as [|a l IH] in P, N, I, D |- *; [exact N'|]. inversion_clear N as [|? ? Na Nl]. cbn. constructor.
    + rewrite in_app_iff. intros [K|K]; [contradiction|]. apply (D a); [apply I; now left|now apply I'].
    + apply (IH (fun x => In x l)); [exact Nl|reflexivity|]. intros x Hx. apply D. apply I. now right.
  - intros x. rewrite in_app_iff, I, I'. reflexivity.
  - apply app_length.
Qed.
(* a disjoint sum *)
Lemma card_sum (B : Type) (F : B -> A -> Prop) (n : B -> nat) l : NoDup l -> (forall i, In i l -> Card (F i) (n i)) ->
  (forall i j x, In i l -> In j l -> F i x -> F j x -> i = j) ->
  Card (fun x => exists i, In i l /\ F i x) (list_sum (map n l)).
Proof.
  induction l as [|a l IH]; intros N C D.
  - apply card_none. intros x (i & [] & _).
  - inversion_clear N as [|? ? Na Nl].
    assert (C2 : Card (fun x => exists i, In i l /\ F i x) (list_sum (map n l))).
    { apply IH; [exact Nl| |]; intros; [apply C; now right|]. eapply D; eauto; now right. }
    cbn. eapply card_ext; [|apply (card_union (C a (or_introl eq_refl)) C2)].
    + intros x. split.
      * intros [K|(i & Hi & K)]; [exists a|exists i]; (split; [|exact K]); [now left|now right].
      * intros (i & [<-|Hi] & K); [now left|right; eauto].
    + intros x K (i & Hi & K'). apply Na. rewrite (D a i x); auto; [now left|now right].
Qed.
End CardFacts.

(* ---- explicit templates: only named bells and ? ---- *)
Definition explicit (p : pattern) : Prop := Forall (fun t => match t with Named _ | AnyBell => True | _ => False end) p.
Definition blanks (p : pattern) : nat := length (filter (fun t => match t with AnyBell => true | _ => false end) p).

Section Enum.
Variable sym : symtab.
(* a decidable reading of a character *)
Definition bell_of (c : ascii) : nat := match read_char sym c with Ret b => b | _ => 0 end.

Fixpoint fills (p : pattern) (S : list nat) : list (list nat) :=
  match p with
  | [] => match S with [] => [[]] | _ => [] end
  | Named c :: p => map (cons (bell_of c)) (fills p S)
  | AnyBell :: p => flat_map (fun x => map (cons x) (fills p (remove Nat.eq_dec x S))) S
  | _ :: _ => []
  end.

Lemma remove_perm x (S w : list nat) : NoDup S -> In x S -> (Permutation w (remove Nat.eq_dec x S) <-> Permutation (x :: w) S).
Proof.
  intros N Hx. assert (P : Permutation (x :: remove Nat.eq_dec x S) S).
  { apply NoDup_Permutation; [constructor; [apply remove_In|] | exact N |].
    - clear - N. induction N as [|a l Ha N IH]; [constructor|]. cbn. destruct (Nat.eq_dec x a); [exact IH|]. constructor; [|exact IH].
      intros K. apply in_remove in K. tauto.
    - intros y. split.
      + intros [<-|K]; [exact Hx|]. now apply in_remove in K.
      + intros Hy. destruct (Nat.eq_dec y x) as [->|K]; [now left|right]. now apply in_in_remove. }
  split; intros H.
  - rewrite <- P. now constructor.
  - rewrite <- P in H. now apply Permutation_cons_inv in H.
Qed.
Lemma remove_nodup x (S : list nat) : NoDup S -> NoDup (remove Nat.eq_dec x S).
Proof. induction 1 as [|a l Ha N IH]; [constructor|]. cbn. destruct (Nat.eq_dec x a); [exact IH|]. constructor; [|exact IH]. intros K. apply in_remove in K. tauto. Qed.
Lemma remove_len x (S : list nat) : NoDup S -> In x S -> length S = Datatypes.S (length (remove Nat.eq_dec x S)).
Proof.
  intros N Hx. pose proof (proj1 (@remove_perm x S (remove Nat.eq_dec x S) N Hx) (Permutation_refl _)) as P.
  apply Permutation_length in P. now rewrite <- P.
Qed.

Lemma fills_in p : explicit p -> Forall (item_ok sym) p -> (forall c, is_symbol sym c = true -> names sym c (bell_of c)) ->
  forall S, NoDup S -> forall r, In r (fills p S) <-> exists w, fits sym p r w /\ Permutation w S.
Proof.
  intros He Hok HN. induction p as [|t p IH]; intros S NS r.
  - cbn [fills]. split.
    + destruct S; intros K; [|destruct K]. destruct K as [<-|[]]. exists []. split; constructor.
    + intros (w & F & P). inversion F; subst. destruct S; [now left|]. apply Permutation_length in P. discriminate.
  - inversion_clear He as [|? ? Ht He']. inversion_clear Hok as [|? ? Hot Hok']. specialize (IH He' Hok').
    destruct t as [c| |l|]; try contradiction; cbn [fills].
    + rewrite in_map_iff. split.
      * intros (r' & <- & K). apply (IH S NS) in K. destruct K as (w & F & P). exists w. split; [|exact P]. constructor; [|exact F]. now apply HN.
      * intros (w & F & P). inversion F as [|? x ? r' ? Hx F'| | |]; subst. exists r'. split.
        -- f_equal. pose proof (HN c Hot) as E. unfold names in *. congruence.
        -- apply (IH S NS). eauto.
    + rewrite in_flat_map. split.
      * intros (x & Hx & K). apply in_map_iff in K. destruct K as (r' & <- & K). apply (IH _ (remove_nodup x NS)) in K.
        destruct K as (w & F & P). exists (x :: w). split; [now constructor|]. now apply remove_perm.
      * intros (w & F & P). inversion F as [| |x ? r' w' F'| |]; subst. exists x.
        assert (Hx : In x S) by (rewrite <- P; now left). split; [exact Hx|]. apply in_map. apply (IH _ (remove_nodup x NS)).
        exists w'. split; [exact F'|]. now apply remove_perm.
Qed.
Lemma fills_nodup p : forall S, NoDup S -> NoDup (fills p S).
Proof.
  assert (MC : forall (x : nat) (l : list (list nat)), NoDup l -> NoDup (map (cons x) l)).
  { intros x l. induction 1; cbn; constructor; auto. rewrite in_map_iff. intros (y & E & K). congruence. }
  induction p as [|t p IH]; intros S NS; cbn [fills].
  - destruct S; repeat constructor; auto.
  - destruct t as [c| |l|]; try constructor; [now apply MC, IH|].
    assert (G : forall T, NoDup T -> NoDup (flat_map (fun x => map (cons x) (fills p (remove Nat.eq_dec x S))) T)); [|now apply G].
    intros T. induction 1 as [|x T Hx NT IHT]; [constructor|]. cbn [flat_map].
    assert (D : forall r, In r (map (cons x) (fills p (remove Nat.eq_dec x S))) -> ~ In r (flat_map (fun x => map (cons x) (fills p (remove Nat.eq_dec x S))) T)).
    { intros r K1 K2. apply in_map_iff in K1. destruct K1 as (r1 & <- & _). apply in_flat_map in K2. destruct K2 as (y & Hy & K2).
      apply in_map_iff in K2. destruct K2 as (r2 & E & _). congruence. }
    pose proof (MC x _ (IH _ (remove_nodup x NS))) as N1. revert N1 D IHT.
    generalize (map (cons x) (fills p (remove Nat.eq_dec x S))) as l1. generalize (flat_map (fun x => map (cons x) (fills p (remove Nat.eq_dec x S))) T) as l2.
    intros l2 l1 N1 D N2. induction N1 as [|a l1 Ha N1 IH1]; [exact N2|]. cbn. constructor.
    + rewrite in_app_iff. intros [K|K]; [contradiction|]. apply (D a); [now left|exact K].
    + apply IH1. intros r K. apply D. now right.
Qed.
Lemma fills_length p : explicit p -> forall S, NoDup S -> length S = blanks p -> length (fills p S) = fact (blanks p).
Proof.
  induction p as [|t p IH]; intros He S NS LS.
  - cbn in *. destruct S; [reflexivity|discriminate].
  - inversion_clear He as [|? ? Ht He']. destruct t as [c| |l|]; try contradiction; cbn [fills].
    + rewrite map_length. apply IH; auto.
    + unfold blanks in LS |- *. cbn [filter length] in LS |- *. fold (blanks p) in LS |- *.
      assert (G : forall T, incl T S -> length (flat_map (fun x => map (cons x) (fills p (remove Nat.eq_dec x S))) T) = length T * fact (blanks p)).
      { intros T. induction T as [|x T IHT]; intros HT; [reflexivity|]. cbn [flat_map length]. rewrite app_length, map_length, IHT by (intros y Hy; apply HT; now right).
        assert (Hx : In x S) by (apply HT; now left).
        rewrite (IH He' (remove Nat.eq_dec x S)); [lia|now apply remove_nodup|]. pose proof (remove_len NS Hx). lia. }
      rewrite (G S (incl_refl S)), LS. reflexivity.
Qed.
(* what a row is made of *)
Lemma fits_content p r w : explicit p -> fits sym p r w -> exists f, Forall2 (names sym) (fixed p) f /\ Permutation r (f ++ w).
Proof.
  intros He F. induction F as [|c x p r w Hx F IH|x p r w F IH|c l x p r w Hc Hx F IH|u p r w F IH].
  - exists []. split; constructor.
  - inversion_clear He as [|? ? _ He']. destruct (IH He') as (f & Hf & P). exists (x :: f). split; [|cbn; now constructor].
    change (fixed (Named c :: p)) with (c :: fixed p). now constructor.
  - inversion_clear He as [|? ? _ He']. destruct (IH He') as (f & Hf & P). exists f. split; [exact Hf|]. rewrite P. apply Permutation_middle.
  - inversion_clear He as [|? ? Ht _]. destruct Ht.
  - inversion_clear He as [|? ? Ht _]. destruct Ht.
Qed.
Lemma width_explicit p : explicit p -> width p = length (fixed p) + blanks p.
Proof.
  induction 1 as [|t p Ht He IH]; [reflexivity|]. rewrite width_cons, IH. destruct t; try contradiction; unfold blanks, fixed; cbn; lia.
Qed.
End Enum.

(* the rows on b bells that an explicit template of b places describes *)
Lemma explicit_card sym b p : explicit p -> pattern_ok sym p -> bells_below sym b p -> width p = b ->
  NoDup (fixed p) -> one_spelling sym p -> (forall c, is_symbol sym c = true -> names sym c (bell_of sym c)) ->
  Card (fun r => is_row r /\ length r = b /\ exists w, fits sym p r w) (fact (blanks p)).
Proof.
  intros He Hok Hb Hw Hf Hs HN.
  set (f := map (bell_of sym) (fixed p)). set (S := filter (fun x => negb (existsb (Nat.eqb x) f)) (seq 0 b)).
  assert (FI : forall c, In c (fixed p) -> In (Named c) p).
  { intros c Hc. apply in_concat in Hc. destruct Hc as (y & Hy & Hc). apply in_map_iff in Hy. destruct Hy as (t & <- & Ht).
    destruct t; cbn in Hc; try contradiction. destruct Hc as [->|[]]. exact Ht. }
  assert (FS : forall c, In c (fixed p) -> names sym c (bell_of sym c)).
  { intros c Hc. apply HN. unfold pattern_ok in Hok. rewrite Forall_forall in Hok. exact (Hok _ (FI c Hc)). }
  assert (Nf : NoDup f).
  { assert (G : forall l, incl l (fixed p) -> NoDup l -> NoDup (map (bell_of sym) l)); [|exact (G (fixed p) (incl_refl _) Hf)].
    intros l. induction l as [|c l IH]; intros Hl N; [constructor|]. inversion_clear N as [|? ? Nc Nl]. cbn. constructor; [|apply IH; [intros y Hy; apply Hl; now right|exact Nl]].
    intros K. apply in_map_iff in K. destruct K as (c' & E & Hc'). apply Nc.
    assert (c = c') as ->; [|exact Hc'].
    pose proof (Hl c (or_introl eq_refl)) as I1. pose proof (Hl c' (or_intror Hc')) as I2.
    apply (Hs (Named c) (Named c') c c' (bell_of sym c)); auto; [now left|now left|]. rewrite <- E. now apply FS. }
  assert (fb : forall x, In x f -> x < b).
  { intros x Hx. apply in_map_iff in Hx. destruct Hx as (c & <- & Hc). apply (Hb (Named c) c); auto. now left. }
  assert (NS : NoDup S) by (apply NoDup_filter, seq_NoDup).
  assert (InS : forall x, In x S <-> x < b /\ ~ In x f).
  { intros x. unfold S. rewrite filter_In, in_seq, negb_true_iff. split.
    - intros [A B]. split; [lia|]. intros K. apply not_true_iff_false in B. apply B. apply existsb_exists. exists x. now rewrite Nat.eqb_refl.
    - intros [A B]. split; [lia|]. apply not_true_iff_false. intros K. apply existsb_exists in K. destruct K as (y & Hy & E). apply Nat.eqb_eq in E. now subst. }
  assert (PS : Permutation (f ++ S) (seq 0 b)).
  { apply NoDup_Permutation.
    - assert (D : forall x, In x f -> ~ In x S) by (intros x H K; apply InS in K; tauto). clear - Nf NS D. clearbody S. clearbody f. induction Nf as [|a l Ha N IH]; [exact NS|].
      cbn. constructor; [|apply IH; intros x Hx; apply D; now right]. rewrite in_app_iff. intros [K|K]; [contradiction|]. apply (D a); [now left|exact K].
    - apply seq_NoDup.
    - intros x. rewrite in_app_iff, InS, in_seq. split; [intros [K|K]; [apply fb in K|]; lia|]. intros K. destruct (in_dec Nat.eq_dec x f); [now left|right; split; [lia|assumption]]. }
  assert (LS : length S = blanks p).
  { apply Permutation_length in PS. rewrite app_length, seq_length in PS. unfold f in PS. rewrite map_length in PS.
    pose proof (width_explicit He). lia. }
  exists (fills sym p S). split; [now apply fills_nodup|]. split; [|now apply fills_length].
  assert (FF : forall f', Forall2 (names sym) (fixed p) f' -> f' = f).
  { unfold f. intros f'. induction 1 as [|c x l l' Hx Fl IH] in FS |- *; [reflexivity|]. cbn. f_equal.
    - pose proof (FS c (or_introl eq_refl)) as E. unfold names in *. congruence.
    - apply IH. intros c' Hc'. apply FS. now right. }
  intros r. rewrite (fills_in He Hok HN NS r). split.
  - intros (w & F & P). destruct (fits_content He F) as (f' & Hf' & P'). apply FF in Hf'. subst f'.
    assert (PR : Permutation r (seq 0 b)) by (rewrite P', P; exact PS).
    assert (LR : length r = b) by (apply Permutation_length in PR; now rewrite seq_length in PR).
    split; [|split; [exact LR|eauto]]. unfold is_row. now rewrite LR.
  - intros (HR & LR & w & F). exists w. split; [exact F|]. destruct (fits_content He F) as (f' & Hf' & P'). apply FF in Hf'. subst f'.
    unfold is_row in HR. rewrite LR in HR. rewrite HR in P'. rewrite <- PS in P'. apply Permutation_app_inv_l in P'. now symmetry.
Qed.
