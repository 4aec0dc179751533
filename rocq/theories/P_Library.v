(* P_Library.v - proofs about libraries. *)
From Verif Require Import Base M_Bell M_Change M_Row M_Method M_MethClass M_Names M_Stream M_Litelib M_Mslib M_Library
  Spec_Change Spec_Method Spec_Dim Spec_Litelib Spec_Basename Spec_Library P_Bell P_Litelib P_Basename P_Mslib.
Set Implicit Arguments.
Unset Strict Implicit.
Open Scope nat_scope.

(* scanning *)
Lemma scan_spec T (what : lent -> outcome T) (right : lent -> T -> Prop) (test : lent -> T -> bool) l :
  (forall e v, what e = Ret v -> test e v = true <-> right e v) ->
  looked what right l (scan (fun e => v <- what e ;; Ret (test e v)) (lib_ents l) (lib_end l)).
Proof.
  intros D. destruct l as [es fin]. cbn [lib_ents lib_end].
  assert (G : forall suf pre, es = pre ++ suf -> (forall x, In x pre -> wrong what right x) -> looked what right (mkLib es fin) (scan (fun e => v <- what e ;; Ret (test e v)) suf fin)).
  { induction suf as [|e suf IH]; intros pre E P; cbn [scan].
    - rewrite app_nil_r in E. subst pre. destruct fin as [[]|x| |]; cbn [bind]; [now apply lk_none|apply lk_end; auto; constructor..].
    - destruct (what e) as [v|x| |] eqn:W; cbn [bind].
      + destruct (test e v) eqn:Q; [apply (lk_found (l := mkLib es fin) E P W); now apply D|].
        apply (IH (pre ++ [e])); [rewrite <- app_assoc; exact E|]. intros y I. apply in_app_or in I as [I|[<-|[]]]; auto. exists v. split; auto. rewrite <- (D e v W). congruence.
      + eapply (lk_failed (l := mkLib es fin) E P). rewrite W. constructor.
      + eapply (lk_failed (l := mkLib es fin) E P). rewrite W. constructor.
      + eapply (lk_failed (l := mkLib es fin) E P). rewrite W. constructor. }
  apply (G es []); [reflexivity|intros x []].
Qed.
Lemma same_failure_fun A B (a : outcome A) (b b' : outcome B) : same_failure a b -> same_failure a b' -> b = b'.
Proof. intros H K. destruct H; inversion K; reflexivity. Qed.
Lemma same_failure_ret A B (a : A) (b : outcome B) : ~ same_failure (Ret a) b.
Proof. intros H. inversion H. Qed.
Lemma splits A (P : A -> Prop) (pre pre' : list A) e e' post post' : pre ++ e :: post = pre' ++ e' :: post' -> (forall x, In x pre -> P x) -> (forall x, In x pre' -> P x) ->
  ~ P e -> ~ P e' -> e = e'.
Proof.
  revert pre'. induction pre as [|x pre IH]; intros [|x' pre'] E A1 A2 N1 N2; cbn [app] in E; injection E as E1 E2; subst; auto.
  - exfalso. apply N1, A2. now left.
  - exfalso. apply N2, A1. now left.
  - apply (IH pre'); auto; intros y Y; [apply A1|apply A2]; now right.
Qed.
Lemma looked_fun T (what : lent -> outcome T) right l o o' : looked what right l o -> looked what right l o' -> o = o'.
Proof.
  assert (N1 : forall e v, what e = Ret v -> right e v -> ~ wrong what right e) by (intros e v W R (v' & W' & R'); rewrite W in W'; injection W' as <-; auto).
  assert (N2 : forall e (o : outcome (option lent)), same_failure (what e) o -> ~ wrong what right e) by (intros e u F (v' & W' & _); rewrite W' in F; inversion F).
  assert (N3 : forall e pre post, lib_ents l = pre ++ e :: post -> (forall x, In x (lib_ents l) -> wrong what right x) -> wrong what right e) by (intros e pre post E A; apply A; rewrite E; apply in_or_app; right; now left).
  intros [pre e v post E P W R|A E|pre e post u E P F|u A F] [pre' e' v' post' E' P' W' R'|A' E'|pre' e' post' u' E' P' F'|u' A' F'];
    try (exfalso; eapply N1; [eassumption|eassumption|eapply N3; eassumption]); try (exfalso; eapply N2; [eassumption|eapply N3; eassumption]);
    try (rewrite E in E'; assert (X : e = e') by (eapply splits; [exact E'|exact P|exact P'|eauto|eauto]); subst e').
  - reflexivity.
  - exfalso. rewrite W in F'. inversion F'.
  - reflexivity.
  - exfalso. rewrite E in F'. inversion F'.
  - exfalso. rewrite W' in F. inversion F.
  - eapply same_failure_fun; eauto.
  - exfalso. rewrite E' in F. inversion F.
  - eapply same_failure_fun; eauto.
Qed.

(* letters *)
Lemma same_letter_lower a b : to_lower a = to_lower b <-> same_letter a b.
Proof.
  unfold same_letter, to_lower, code.
  assert (U : forall c, is_upper c = true -> nat_of_ascii (ascii_of_nat (nat_of_ascii c + 32)) = nat_of_ascii c + 32 /\ is_upper (ascii_of_nat (nat_of_ascii c + 32)) = false).
  { intros c U. unfold is_upper, code in *. apply andb_true_iff in U as [U1 U2]. apply Nat.leb_le in U1, U2. rewrite nat_ascii_embedding by lia. split; [reflexivity|].
    apply andb_false_iff. right. apply Nat.leb_gt. lia. }
  assert (J : forall x y, nat_of_ascii x = nat_of_ascii y -> x = y) by (intros x y E; rewrite <- (ascii_nat_embedding x), <- (ascii_nat_embedding y); now rewrite E).
  destruct (is_upper a) eqn:A, (is_upper b) eqn:B.
  - destruct (U a A) as [Ua Va], (U b B) as [Ub Vb]. split.
    + intros E. left. apply J. apply (f_equal nat_of_ascii) in E. lia.
    + intros [->|[[_ E]|[_ E]]]; [reflexivity|exfalso..].
      * unfold is_upper, code in B. apply andb_true_iff in B as [B1 B2]. apply Nat.leb_le in B1, B2. unfold is_upper, code in A. apply andb_true_iff in A as [A1 A2]. apply Nat.leb_le in A1, A2. lia.
      * unfold is_upper, code in B. apply andb_true_iff in B as [B1 B2]. apply Nat.leb_le in B1, B2. unfold is_upper, code in A. apply andb_true_iff in A as [A1 A2]. apply Nat.leb_le in A1, A2. lia.
  - destruct (U a A) as [Ua Va]. split.
    + intros E. right. left. split; auto. rewrite <- E. exact Ua.
    + intros [->|[[_ E]|[E _]]]; [congruence| |congruence]. apply J. lia.
  - destruct (U b B) as [Ub Vb]. split.
    + intros E. right. right. split; auto. now rewrite E.
    + intros [->|[[E _]|[_ E]]]; [congruence|congruence|]. apply J. lia.
  - split; [intros ->; now left|]. intros [->|[[E _]|[E _]]]; congruence.
Qed.
Lemma same_text_lower : forall a b, map to_lower a = map to_lower b <-> same_text a b.
Proof.
  unfold same_text. induction a as [|x a IH]; intros [|y b]; cbn [map]; split; intros H; try discriminate; try constructor; try (inversion H; fail); auto.
  - injection H as H1 H2. now apply same_letter_lower.
  - injection H as H1 H2. now apply IH.
  - inversion H; subst. f_equal; [now apply same_letter_lower|now apply IH].
Qed.
Lemma text_eqb a b : list_ascii_eqb a b = true <-> a = b.
Proof. unfold list_ascii_eqb. destruct list_eq_dec; split; congruence. Qed.

(* paths *)
Lemma split_loop_spec : forall n a b fuel, length b <= n -> n < fuel -> a ++ b <> [] -> exists ds, split_path_loop fuel (a ++ b) (length a) = Ret ds /\ ds <> [] /\ joined ds = b /\ forall d, In d ds -> ~ In (chr ":") d.
Proof.
  induction n as [|n IH]; intros a b fuel L F NE; (destruct fuel as [|fuel]; [lia|]); cbn [split_path_loop].
  - destruct b; [|cbn in L; lia]. rewrite app_nil_r in *. unfold find_chr. rewrite skipn_all. cbn [find_idx shift]. replace (0 <? length a) with true by (symmetry; apply Nat.ltb_lt; destruct a; [congruence|cbn; lia]).
    unfold substr. rewrite Nat.ltb_irrefl, skipn_all. exists [[]]. cbn. intuition; subst; auto; discriminate.
  - destruct (in_dec ascii_dec (chr ":") b) as [I|I].
    + destruct (first_split I) as (x & y & -> & N). rewrite find_chr_in by exact N. unfold substr. replace (length (a ++ x ++ chr ":" :: y) <? length a) with false by (symmetry; apply Nat.ltb_ge; rewrite app_length; lia).
      cbn [bind]. rewrite skipn_app, skipn_all, Nat.sub_diag. cbn [skipn app]. replace (length a + length x - length a) with (length x) by lia. rewrite firstn_app, firstn_all, Nat.sub_diag. cbn [firstn]. rewrite app_nil_r.
      assert (E : a ++ x ++ chr ":" :: y = (a ++ x ++ [chr ":"]) ++ y) by (rewrite <- !app_assoc; reflexivity). rewrite E.
      replace (length a + length x + 1) with (length (a ++ x ++ [chr ":"])) by (rewrite !app_length; cbn; lia).
      destruct (IH (a ++ x ++ [chr ":"]) y fuel) as (ds & R & D1 & D2 & D3); [rewrite app_length in L; cbn in L; lia|lia|destruct a, x; discriminate|].
      rewrite R. exists (x :: ds). split; [reflexivity|]. split; [discriminate|]. split.
      * cbn [joined]. destruct ds; [congruence|]. now rewrite D2.
      * intros d [<-|D]; auto.
    + assert (X : find_chr (a ++ b) (chr ":") (length a) = None).
      { unfold find_chr. rewrite skipn_app, skipn_all, Nat.sub_diag. cbn [skipn app]. assert (Y : find_idx (fun x => eqc x (chr ":")) b = None); [|now rewrite Y].
        clear - I. induction b as [|c b IH]; [reflexivity|]. cbn [find_idx]. destruct (eqc c (chr ":")) eqn:Q; [apply eqc_true in Q; subst; exfalso; apply I; now left|]. rewrite IH by (intros J; apply I; now right). reflexivity. }
      rewrite X. replace (0 <? length (a ++ b)) with true by (symmetry; apply Nat.ltb_lt; destruct (a ++ b); [congruence|cbn; lia]).
      unfold substr. replace (length (a ++ b) <? length a) with false by (symmetry; apply Nat.ltb_ge; rewrite app_length; lia). cbn [bind].
      rewrite skipn_app, skipn_all, Nat.sub_diag. cbn [skipn app]. exists [b]. split; [reflexivity|]. split; [discriminate|]. split; [reflexivity|]. intros d [<-|[]]. exact I.
Qed.
Lemma split_path_spec p : exists ds, split_path p = Ret ds /\ dirs_of p ds.
Proof.
  unfold split_path. destruct p as [|c p]; [exists []; split; [reflexivity|left; auto]|].
  destruct (@split_loop_spec (length (c :: p)) [] (c :: p) (length (c :: p) + 2)) as (ds & E & A & B & C); [lia|lia|discriminate|].
  exists ds. split; [exact E|]. right. repeat split; auto. discriminate.
Qed.
Lemma dirs_of_fun p ds ds' : dirs_of p ds -> dirs_of p ds' -> ds = ds'.
Proof.
  intros [[-> ->]|(P & A & B & C)] [[Q ->]|(P' & A' & B' & C')]; try congruence. clear P P'. revert p B ds' A' B' C'. induction ds as [|d ds IH]; [congruence|].
  intros p B [|d' ds'] A' B' C'; [congruence|].
  assert (N : ~ In (chr ":") d) by (apply C; now left). assert (N' : ~ In (chr ":") d') by (apply C'; now left).
  assert (K : forall u v x y, ~ In (chr ":") u -> ~ In (chr ":") v -> u ++ chr ":" :: x = v ++ chr ":" :: y -> u = v /\ x = y).
  { clear. induction u as [|c u IHu]; intros [|c' v] x y U V E; cbn [app] in E; inversion E; subst.
    - auto.
    - exfalso. apply V. now left.
    - exfalso. apply U. now left.
    - destruct (IHu v x y) as [-> ->]; auto; intros I; [apply U|apply V]; now right. }
  destruct ds as [|e ds], ds' as [|e' ds']; cbn [joined] in B, B'.
  - congruence.
  - exfalso. apply N. rewrite B, <- B'. apply in_or_app. right. now left.
  - exfalso. apply N'. rewrite B', <- B. apply in_or_app. right. now left.
  - rewrite <- B' in B. apply K in B as [-> E]; auto. f_equal. apply (IH ltac:(discriminate) (fun x I => C x (or_intror I)) (joined (e' :: ds'))); auto; [discriminate|]. intros x I. apply C'. now right.
Qed.
Lemma try_types_spec L (types : list (list ascii -> option L)) f :
  (exists pre t post l, types = pre ++ t :: post /\ (forall u, In u pre -> u f = None) /\ t f = Some l /\ try_types types f = Some l) \/
  (try_types types f = None /\ forall u, In u types -> u f = None).
Proof.
  induction types as [|t ts IH]; cbn [try_types]; [right; split; [reflexivity|intros u []]|]. destruct (t f) as [l|] eqn:E.
  - left. exists [], t, ts, l. repeat split; auto. intros u [].
  - destruct IH as [(pre & t' & post & l & -> & A & B & C)|[A B]].
    + left. exists (t :: pre), t', post, l. repeat split; auto. intros u [<-|U]; auto.
    + right. split; auto. intros u [<-|U]; auto.
Qed.
Lemma try_locs_spec L (types : list (list ascii -> option L)) f ds : opened types (map (fun d => d ++ chr "/" :: f) ds) (try_locs types ds f).
Proof.
  induction ds as [|d ds IH]; cbn [map try_locs]; [constructor|]. change (d ++ [chr "/"] ++ f) with (d ++ chr "/" :: f).
  destruct (try_types_spec types (d ++ chr "/" :: f)) as [(pre & t & post & l & E & A & B & ->)|[-> A]]; [eapply op_here; eauto|now apply op_later].
Qed.
Lemma opened_inv L (types : list (list ascii -> option L)) fs r : opened types fs r ->
  match fs with
  | [] => r = None
  | f :: fs => (exists pre t post l, types = pre ++ t :: post /\ (forall u, In u pre -> u f = None) /\ t f = Some l /\ r = Some l) \/ ((forall u, In u types -> u f = None) /\ opened types fs r)
  end.
Proof. intros [|f fs' pre t post l E A B|f fs' r' A O]; [reflexivity|left; exists pre, t, post, l; auto|right; auto]. Qed.
Lemma opened_fun L (types : list (list ascii -> option L)) fs r r' : opened types fs r -> opened types fs r' -> r = r'.
Proof.
  revert r r'. induction fs as [|f fs IH]; intros r r' H K; apply opened_inv in H, K; [congruence|].
  destruct H as [(pre & t & post & l & E & A & B & ->)|[A O]], K as [(pre' & t' & post' & l' & E' & A' & B' & ->)|[A' O']].
  - assert (X : t = t'); [|congruence]. rewrite E in E'. apply (@splits _ (fun u => u f = None) _ _ _ _ _ _ E'); auto; cbn; congruence.
  - exfalso. rewrite (A' t) in B; [discriminate|]. rewrite E. apply in_or_app. right. now left.
  - exfalso. rewrite (A t') in B'; [discriminate|]. rewrite E'. apply in_or_app. right. now left.
  - eauto.
Qed.
