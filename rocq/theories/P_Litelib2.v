(* P_Litelib2.v - proofs about reading all the entries of a simple method library. *)
From Verif Require Import Base M_Bell M_Change M_Row M_Method M_MethClass M_Dim M_Names M_Stream M_Litelib Spec_Dim Spec_Litelib Spec_Litelib2 P_Bell P_Dim P_Litelib.
Set Implicit Arguments.
Unset Strict Implicit.
Open Scope nat_scope.

Lemma take_all p s : forallb p (take_while p s) = true.
Proof. induction s as [|c s IH]; [reflexivity|]. cbn. destruct (p c) eqn:E; [cbn; now rewrite E|reflexivity]. Qed.
Lemma take_app p a b : forallb p a = true -> match b with [] => True | c :: _ => p c = false end -> take_while p (a ++ b) = a /\ drop_while p (a ++ b) = b.
Proof.
  intros A B. induction a as [|x a IH].
  - cbn [app]. destruct b as [|c b]; [auto|]. cbn. now rewrite B.
  - cbn [forallb app take_while drop_while] in A |- *. apply andb_true_iff in A as [-> A]. destruct (IH A) as [-> ->]. auto.
Qed.
Lemma drop_hd p s : match drop_while p s with [] => True | c :: _ => p c = false end.
Proof. destruct (drop_while p s) as [|c t] eqn:E; [exact I|]. now apply drop_head in E. Qed.

Lemma skipn_tl (w : list ascii) k : skipn (S k) w = tl (skipn k w).
Proof. revert w. induction k as [|k IH]; intros [|c w]; try reflexivity. exact (IH w). Qed.

(* what an entry says *)
Definition with_b (e : lite_entry) (b : Z) : lite_entry := mkLE (le_buf e) (le_start e) b.

Lemma read_bells_spec line i b : i <= length line -> skipn i line = body line ->
  (exists z e, read_bells (mkLE line i b) = Ret (z, e) /\ bells_given line z /\ le_b e = b /\ forall b', says (with_b e b') (b', pn_of line, payload_of line)) \/
  (read_bells (mkLE line i b) = Throw BadCast /\ forall z, ~ bells_given line z).
Proof.
  intros Hi Hs. unfold read_bells. rewrite (pn_at b Hi Hs). cbn [bind]. fold (word line). unfold bells_given, bells_text, pn_of.
  set (u := body line) in *. set (w := word line). assert (Hw : w = take_while nonwhite u) by reflexivity.
  unfold find_chr. cbn [skipn shift]. rewrite (@find_idx_ext _ is_colon) by (intros c; apply eqc_colon).
  assert (X := find_idx_while is_colon w). change (fun c => negb (is_colon c)) with noncolon in X.
  destruct (find_idx is_colon w) as [k|].
  - destruct X as (X1 & X2 & X3 & X4). assert (EX : existsb is_colon w = true).
    { destruct (drop_while noncolon w) as [|c t] eqn:E; [congruence|]. apply existsb_exists. exists c. split.
      - rewrite <- (take_drop noncolon w), E. apply in_or_app. right. now left.
      - apply drop_head in E. unfold noncolon in E. now apply negb_false_iff in E. }
    rewrite EX. unfold shift, substr. cbn [Nat.add]. replace (length w <? 0) with false by reflexivity. cbn [skipn bind]. rewrite X2.
    destruct (cast_spec (take_while noncolon w)) as [(z & EZ & HZ)|(EZ & HZ)]; rewrite EZ; cbn [bind].
    + left. exists z. eexists. split; [reflexivity|]. split; [exact HZ|]. split; [reflexivity|].
      intros b'. unfold with_b. cbn [le_buf le_start].
      assert (U : u = w ++ drop_while nonwhite u) by (rewrite Hw; symmetry; apply take_drop).
      assert (Lu : length u = length line - i) by (rewrite <- Hs; apply skipn_length).
      assert (Lw : length w <= length u) by (rewrite U at 1; rewrite app_length; lia).
      assert (Hi' : i + (k + 1) <= length line) by lia.
      assert (Hs' : skipn (i + (k + 1)) line = tl (drop_while noncolon w) ++ drop_while nonwhite u).
      { rewrite <- skipn_add, Hs. rewrite U at 1. rewrite skipn_app. replace (k + 1 - length w) with 0 by lia. cbn [skipn].
        f_equal. rewrite <- X3. rewrite Nat.add_1_r. apply skipn_tl. }
      assert (F : forallb nonwhite (tl (drop_while noncolon w)) = true).
      { assert (G := take_all nonwhite u). rewrite <- Hw in G. rewrite <- (take_drop noncolon w), forallb_app in G. apply andb_true_iff in G as [_ G].
        destruct (drop_while noncolon w); [reflexivity|]. cbn in G |- *. now apply andb_true_iff in G. }
      destruct (take_app F (drop_hd nonwhite u)) as [T1 T2].
      split; [reflexivity|]. split.
      * rewrite (pn_at b' Hi' Hs'). now rewrite T1.
      * rewrite (payload_at b' Hi' Hs'). now rewrite T2.
    + right. split; [reflexivity|exact HZ].
  - destruct X as (X1 & X2). assert (EX : existsb is_colon w = false).
    { destruct (existsb is_colon w) eqn:E; [|reflexivity]. apply existsb_exists in E as (c & Hc & E). exfalso.
      assert (G := take_all noncolon w). rewrite X1 in G. rewrite forallb_forall in G. specialize (G _ Hc). unfold noncolon in G. now rewrite E in G. }
    rewrite EX. left. exists 0%Z. eexists. split; [reflexivity|]. split; [reflexivity|]. split; [reflexivity|].
    intros b'. split; [reflexivity|]. unfold with_b. cbn [le_buf le_start]. split; [apply (pn_at b' Hi Hs)|apply (payload_at b' Hi Hs)].
Qed.

Definition skipped (req : Z) (l : list ascii) : Prop :=
  blank_line l = true \/ exists z, blank_line l = false /\ bells_given l z /\ ~ wanted req z.
Lemma wanted_b req z : ((req =? 0)%Z && negb (z =? 0)%Z) || (negb (req =? 0)%Z && ((z =? req)%Z || (z =? 0)%Z)) = true <-> wanted req z.
Proof.
  unfold wanted. destruct (Z.eqb_spec req 0); cbn [andb negb orb].
  - destruct (Z.eqb_spec z 0); cbn; split; intros; try tauto; try discriminate.
  - rewrite orb_true_iff, !Z.eqb_eq. tauto.
Qed.

Lemma lite_read_spec ls : forall fuel req s e, at_lines s ls -> length ls + 2 <= fuel -> (req <> 0%Z -> le_b e = req) ->
  (exists e' s', lite_read fuel req s e = Ret (false, e', s') /\ Forall (skipped req) ls) \/
  (exists sk l rest z e' s', ls = sk ++ l :: rest /\ Forall (skipped req) sk /\ blank_line l = false /\ bells_given l z /\ wanted req z /\
     lite_read fuel req s e = Ret (true, e', s') /\ says e' (entry_of req z l) /\ at_lines s' rest) \/
  (lite_read fuel req s e = Throw BadCast /\ exists l, In l ls /\ bad_line l).
Proof.
  induction ls as [|l ls IH]; intros fuel req s e HL HF HB.
  - left. destruct fuel as [|[|fuel]]; [lia|lia|]. cbn [lite_read]. destruct (is_good s) eqn:G; cbn [negb]; [|eexists; eexists; split; [reflexivity|constructor]].
    destruct (getline_nil (le_buf e) HL) as (s' & b & E & G'). rewrite E, G'. cbn [negb lite_read].
    eexists; eexists; split; [reflexivity|constructor].
  - destruct fuel as [|fuel]; [lia|]. cbn [length] in HF. cbn [lite_read]. rewrite (at_good HL). cbn [negb].
    destruct (getline_cons (le_buf e) HL) as (s' & E & G & HL'). rewrite E, G. cbn [negb le_start le_b].
    assert (X := start_of l). destruct (find_first_not_of l blank (Some 0)) as [i|].
    + destruct X as (X1 & X2 & X3). destruct (@read_bells_spec l i (le_b e) X2 X3) as [(z & e1 & E1 & Z1 & B1 & S1)|(E1 & N1)]; rewrite E1; cbn [bind].
      * assert (W := wanted_b req z).
        destruct ((req =? 0)%Z && negb (z =? 0)%Z) eqn:C1; [|destruct (negb (req =? 0)%Z && ((z =? req)%Z || (z =? 0)%Z)) eqn:C2].
        -- right. left. exists [], l, ls, z. eexists. eexists. split; [reflexivity|]. split; [constructor|]. split; [exact X1|]. split; [exact Z1|].
           split; [now apply W|]. split; [reflexivity|]. split; [|exact HL']. unfold entry_of.
           apply andb_true_iff in C1 as [C1 _]. rewrite C1. exact (S1 z).
        -- right. left. exists [], l, ls, z. eexists. eexists. split; [reflexivity|]. split; [constructor|]. split; [exact X1|]. split; [exact Z1|].
           split; [now apply W|]. split; [reflexivity|]. split; [|exact HL']. unfold entry_of.
           apply andb_true_iff in C2 as [C2 _]. apply negb_true_iff in C2. rewrite C2. apply Z.eqb_neq in C2.
           assert (S2 := S1 req). replace (with_b e1 req) with e1 in S2; [exact S2|]. destruct e1 as [b1 s1 q1]. unfold with_b. cbn [le_b le_buf le_start] in *. now rewrite B1, HB.
        -- assert (SK : skipped req l) by (right; exists z; split; [exact X1|split; [exact Z1|intros Y; apply W in Y; discriminate Y]]).
           destruct (IH fuel req s' e1 HL' ltac:(lia)) as [(e' & s2 & R & F)|[(sk & l' & rest & z' & e' & s2 & R1 & F & R)|(R & lb & HI & HBD)]].
           ++ intros Hr. rewrite B1. auto.
           ++ left. exists e', s2. split; [exact R|]. now constructor.
           ++ right. left. exists (l :: sk), l', rest, z', e', s2. split; [now rewrite R1|]. split; [now constructor|exact R].
           ++ right. right. split; [exact R|]. exists lb. split; [now right|exact HBD].
      * right. right. split; [reflexivity|]. exists l. split; [now left|]. split; [exact X1|exact N1].
    + destruct (IH fuel req s' (mkLE l (le_start e) (le_b e)) HL' ltac:(lia) HB) as [(e' & s2 & R & F)|[(sk & l' & rest & z' & e' & s2 & R1 & F & R)|(R & lb & HI & HBD)]].
      * left. exists e', s2. split; [exact R|]. constructor; [now left|exact F].
      * right. left. exists (l :: sk), l', rest, z', e', s2. split; [now rewrite R1|]. split; [constructor; [now left|exact F]|exact R].
      * right. right. split; [exact R|]. exists lb. split; [now right|exact HBD].
Qed.

Lemma entries_skip req sk ls vs : Forall (skipped req) sk -> entries req ls vs -> entries req (sk ++ ls) vs.
Proof.
  induction 1 as [|l sk [H|(z & H1 & H2 & H3)] F IH]; intros H0; cbn [app]; auto.
  - apply en_blank; auto.
  - eapply en_other; eauto.
Qed.
Lemma at_rest s ls : at_lines s ls -> length ls <= length (is_rest s).
Proof. intros [(_ & _ & <-)|[[_ ->]|[_ ->]]]; [apply lines_len|cbn; lia|cbn; lia]. Qed.
Lemma lite_iter_spec fuel : forall req ls s e, at_lines s ls -> length ls < fuel -> (req <> 0%Z -> le_b e = req) ->
  (exists es vs, lite_iter fuel req s e = Ret es /\ entries req ls vs /\ Forall2 says es vs) \/
  (lite_iter fuel req s e = Throw BadCast /\ exists l, In l ls /\ bad_line l).
Proof.
  induction fuel as [|fuel IH]; intros req ls s e HL HF HB; [lia|]. cbn [lite_iter]. unfold lite_next.
  destruct (@lite_read_spec ls (length (is_rest s) + 3) req s e HL) as [(e' & s' & R & F)|[(sk & l & rest & z & e' & s' & R1 & F & R2 & R3 & R4 & R & S & A)|(R & H)]]; auto.
  { apply at_rest in HL. lia. }
  - rewrite R. cbn [bind]. left. exists [], []. split; [reflexivity|]. split; [|constructor].
    rewrite <- (app_nil_r ls). apply entries_skip; [exact F|constructor].
  - rewrite R. cbn [bind]. subst ls. rewrite app_length in HF. cbn [length] in HF.
    destruct (IH req rest s' e' A ltac:(lia)) as [(es & vs & E & EN & FS)|(E & lb & HI & HBD)].
    + intros Hr. destruct S as (S & _). rewrite S. now rewrite (proj2 (Z.eqb_neq _ _) Hr).
    + rewrite E. cbn [bind]. left. exists (e' :: es), (entry_of req z l :: vs). split; [reflexivity|]. split; [|constructor; auto].
      apply entries_skip; [exact F|]. eapply en_take; eauto.
    + rewrite E. cbn [bind]. right. split; [reflexivity|]. exists lb. split; [|exact HBD]. apply in_or_app. right. now right.
  - rewrite R. cbn [bind]. right. auto.
Qed.

Lemma bells_given_fun l z z' : bells_given l z -> bells_given l z' -> z = z'.
Proof. unfold bells_given. destruct (bells_text l); [apply int_text_fun|congruence]. Qed.
Lemma entries_fun req ls : forall vs vs', entries req ls vs -> entries req ls vs' -> vs = vs'.
Proof.
  induction ls as [|l ls IH]; intros vs vs' H H'; inversion H; inversion H'; subst; try congruence; auto.
  - exfalso. match goal with A : bells_given l ?x, B : bells_given l ?y |- _ => assert (x = y) by (eapply bells_given_fun; eauto) end. subst. contradiction.
  - exfalso. match goal with A : bells_given l ?x, B : bells_given l ?y |- _ => assert (x = y) by (eapply bells_given_fun; eauto) end. subst. contradiction.
  - assert (z = z0) by (eapply bells_given_fun; eauto). subst z0. f_equal. auto.
Qed.
Lemma entries_no_bad req ls vs : entries req ls vs -> forall l, In l ls -> ~ bad_line l.
Proof.
  induction 1 as [|l0 ls es B H IH|l0 z ls es B G W H IH|l0 z ls es B G W H IH]; intros x I [B1 B2]; [destruct I|..]; destruct I as [<-|I].
  - congruence.
  - now apply (IH x I).
  - now apply (B2 z).
  - now apply (IH x I).
  - now apply (B2 z).
  - now apply (IH x I).
Qed.

(* ---- the byte order mark ---- *)
Lemma eqc_num c n : n < 256 -> eqc c (ascii_of_nat n) = (nat_of_ascii c =? n).
Proof. intros H. rewrite eqc_code, nat_ascii_embedding by exact H. reflexivity. Qed.
Lemma skip_bom_spec text : at_lines (skip_bom (is_open text)) (lines (after_bom text)).
Proof.
  unfold skip_bom, is_open, after_bom. cbn [is_good is_fail negb peek is_eof is_rest orb].
  destruct text as [|c1 t1]; cbn [is_rest]; [right; left; auto|]. rewrite (@eqc_num c1 239) by lia. destruct (nat_of_ascii c1 =? 239); [|left; auto].
  cbn [get1 is_eof is_fail is_rest orb is_good negb peek]. destruct t1 as [|c2 t2]; cbn [is_good is_fail negb andb]; [right; left; auto|].
  rewrite (@eqc_num c2 187) by lia. destruct (nat_of_ascii c2 =? 187); cbn [negb]; [|left; auto].
  cbn [get1 is_eof is_fail is_rest orb is_good negb peek]. destruct t2 as [|c3 t3]; cbn [is_good is_fail negb andb]; [right; left; auto|].
  rewrite (@eqc_num c3 191) by lia. destruct (nat_of_ascii c3 =? 191); cbn [negb]; [|left; auto]. left. auto.
Qed.
Lemma after_bom_len t : length (after_bom t) <= length t.
Proof. unfold after_bom. destruct t as [|a [|b [|c t]]]; repeat (destruct (_ =? _)); cbn; lia. Qed.
Lemma after_no text : match text with c :: _ => c <> ascii_of_nat 239 | [] => True end -> after_bom text = text.
Proof.
  destruct text as [|c t]; [auto|]. cbn [after_bom]. intros H. destruct (Nat.eqb_spec (nat_of_ascii c) 239) as [E|E]; [|reflexivity].
  exfalso. apply H. rewrite <- (ascii_nat_embedding c), E. reflexivity.
Qed.
Lemma skip_bom_no text : match text with c :: _ => c <> ascii_of_nat 239 | [] => True end -> at_lines (skip_bom (is_open text)) (lines text).
Proof. intros H. rewrite <- (after_no H) at 2. apply skip_bom_spec. Qed.
