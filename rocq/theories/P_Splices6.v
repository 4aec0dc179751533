(* P_Splices6.v - splices: the run over a library. *)
From Verif Require Import Base M_Bell M_Change M_Math M_Row M_Extent M_Group M_Touch M_PN M_Method M_False M_Splices
  Spec_Row Spec_Change Spec_Touch Spec_Group Spec_Method Spec_Splices P_Splices5.
From Coq Require Import Permutation Relations.
Set Implicit Arguments.
Unset Strict Implicit.
Open Scope nat_scope.

Section F.
Variables (sym : symtab) (fuel : nat) (A : slargs).
Notation tp := (test_pair sym fuel A).
Notation saved := (method * method * splice_desc)%type.
Definition news (m : method) (seen : list method) : list saved :=
  flat_map (fun b => match tp m b with Ret (Some d) => [(m, b, d)] | _ => [] end) seen.
Definition show (p : saved) : sl_out_item := let '(a, b, d) := p in Shown a b d.
Definition keeping : bool := sl_group A || sl_filter A.
Definition after (s : slst) (l : list saved) : slst :=
  mkSlst (if keeping then fold_left (fun t p => let '(a, b, d) := p in save_splice a b d t) l (st_table s) else st_table s)
         (if sl_group A then st_out s else st_out s ++ map show l).
Lemma after_app s l l' : after (after s l) l' = after s (l ++ l').
Proof. unfold after. cbn [st_table st_out]. rewrite fold_left_app, map_app. destruct keeping, (sl_group A); rewrite ?app_assoc; reflexivity. Qed.
Lemma after_nil s : after s [] = s.
Proof. destruct s as [t o]. unfold after. cbn. destruct keeping, (sl_group A); rewrite ?app_nil_r; reflexivity. Qed.
Lemma test_splice_after s a b x : test_splice sym fuel A s a b = Ret x -> fst x = after s (news a [b]) /\ (snd x = true <-> exists d, tp a b = Ret (Some d)).
Proof.
  unfold test_splice, news. cbn [flat_map]. destruct (tp a b) as [[d|]| | |] eqn:E; cbn [bind]; intros H; try discriminate H; injection H as <-; cbn [fst snd app].
  - split; [reflexivity|]. split; [eauto|reflexivity].
  - rewrite after_nil. split; [reflexivity|]. split; [discriminate|intros (d & X); discriminate X].
Qed.
Lemma inner m meths : forall s s', forM meths (fun s b => r <- test_splice sym fuel A s m b ;; Ret (fst r)) s = Ret s' -> s' = after s (news m meths).
Proof.
  induction meths as [|b meths IH]; intros s s' H.
  - cbn in H. injection H as <-. cbn. now rewrite after_nil.
  - cbn [forM] in H. destruct (test_splice sym fuel A s m b) as [x| | |] eqn:E; cbn [bind] in H; try discriminate H. apply test_splice_after in E as [E _]. rewrite E in H. apply IH in H. rewrite H, after_app. f_equal. unfold news. cbn [flat_map]. now rewrite app_nil_r.
Qed.

(* --- no method given --- *)
Fixpoint all_news (seen lib : list method) : list saved :=
  match lib with [] => [] | m :: lib => news m seen ++ all_news (seen ++ [m]) lib end.
Lemma in_news m seen a b d : In (a, b, d) (news m seen) <-> a = m /\ In b seen /\ tp m b = Ret (Some d).
Proof.
  unfold news. rewrite in_flat_map. split.
  - intros (y & Hy & H). destruct (tp m y) as [[d'|]| | |] eqn:E; try destruct H. injection H as <- <- <-. auto. destruct H.
  - intros (-> & Hb & E). exists b. split; [exact Hb|]. rewrite E. now left.
Qed.
Definition tested (lib : list method) (x y : method) (d : splice_desc) : Prop :=
  exists i j, i < j /\ nth_error lib i = Some y /\ nth_error lib j = Some x /\ tp x y = Ret (Some d).
Lemma in_all_news lib : forall seen x y d, In (x, y, d) (all_news seen lib) <->
  exists i j, i < j /\ length seen <= j /\ nth_error (seen ++ lib) i = Some y /\ nth_error (seen ++ lib) j = Some x /\ tp x y = Ret (Some d).
Proof.
  induction lib as [|m lib IH]; intros seen x y d; cbn [all_news].
  - split; [intros []|]. intros (i & j & H1 & H2 & H3 & H4 & _). rewrite app_nil_r in H4. rewrite (proj2 (nth_error_None seen j)) in H4 by exact H2. discriminate H4.
  - rewrite in_app_iff, in_news, IH. rewrite <- app_assoc. cbn [app]. rewrite app_length. cbn [length]. split.
    + intros [(-> & Hb & E)|(i & j & H1 & H2 & H3 & H4 & H5)].
      * apply In_nth_error in Hb as (i & Hi). assert (Li : i < length seen) by (apply nth_error_Some; congruence). exists i, (length seen). split; [exact Li|]. split; [lia|].
        split; [rewrite nth_error_app1; auto|]. split; [rewrite nth_error_app2, Nat.sub_diag by lia; reflexivity|exact E].
      * exists i, j. repeat split; auto; lia.
    + intros (i & j & H1 & H2 & H3 & H4 & H5). destruct (Nat.eq_dec j (length seen)) as [->|Nj].
      * left. rewrite nth_error_app2, Nat.sub_diag in H4 by lia. injection H4 as <-. rewrite nth_error_app1 in H3 by lia. apply nth_error_In in H3. auto.
      * right. exists i, j. repeat split; auto; lia.
Qed.
Definition one_lead : splice_desc := mkDesc 1 None None.
Definition passes (l : list saved) (m : method) : list sl_out_item :=
  if sl_filter A && negb (has_lead_splices (saves l) m) then [Passed m] else [].
Fixpoint outs (l : list saved) (seen lib : list method) : list sl_out_item :=
  match lib with
  | [] => []
  | m :: lib => (if sl_group A then [] else map show (news m seen)) ++ passes (l ++ news m seen) m ++ outs (l ++ news m seen) (seen ++ [m]) lib
  end.
Hypothesis NG : length (sl_given A) <> 1.
Lemma find_all lib : forall s meths l r, (sl_filter A = true -> keeping = true -> st_table s = saves l) -> forM lib (find_one sym fuel A) (s, meths) = Ret r ->
  st_table (fst r) = (if keeping then fold_left (fun t p => let '(a, b, d) := p in save_splice a b d t) (all_news meths lib) (st_table s) else st_table s) /\
  st_out (fst r) = st_out s ++ outs l meths lib.
Proof.
  induction lib as [|m lib IH]; intros s meths l r T H.
  - cbn in H. injection H as <-. cbn. rewrite app_nil_r. now destruct keeping.
  - cbn [forM] in H. destruct (find_one sym fuel A (s, meths) m) as [[s1 meths1]| | |] eqn:E; cbn [bind] in H; try discriminate H.
    unfold find_one in E.
    assert (E' : exists s', forM meths (fun s b => r <- test_splice sym fuel A s m b ;; Ret (fst r)) s = Ret s' /\
      s1 = (if sl_filter A && negb (has_lead_splices (st_table s') m) then mkSlst (st_table s') (st_out s' ++ [Passed m]) else s') /\ meths1 = meths ++ [m]).
    { destruct (forM meths (fun s b => r <- test_splice sym fuel A s m b ;; Ret (fst r)) s) as [s'| | |] eqn:E2;
        destruct (sl_given A) as [|g [|g' gs]]; cbn in NG; try lia; cbn [bind] in E; try discriminate E; injection E as <- <-; exists s'; auto. }
    destruct E' as (s' & E1 & -> & ->). apply inner in E1. subst s'. cbn [all_news outs].
    assert (T' : sl_filter A = true -> keeping = true -> st_table (after s (news m meths)) = saves (l ++ news m meths)).
    { intros K1 K2. unfold after, saves. cbn [st_table]. rewrite K2, fold_left_app. now rewrite (T K1 K2). }
    assert (KF : sl_filter A = true -> keeping = true) by (unfold keeping; intros ->; apply orb_true_r).
    eapply IH with (l := l ++ news m meths) in H; [|intros K1 K2; destruct (_ && _); apply T'; auto]. destruct H as [H1 H2].
    assert (PS : (if sl_filter A && negb (has_lead_splices (st_table (after s (news m meths))) m) then [Passed m] else []) = passes (l ++ news m meths) m).
    { unfold passes. destruct (sl_filter A) eqn:K; [|reflexivity]. now rewrite (T' eq_refl (KF eq_refl)). }
    split.
    + rewrite H1. destruct (_ && _); cbn [st_table after]; destruct keeping; rewrite ?fold_left_app; reflexivity.
    + rewrite H2, <- PS. destruct (_ && _); cbn [st_out after]; destruct (sl_group A); rewrite <- ?app_assoc; reflexivity.
Qed.
Lemma find_all_splices lib s : find_splices sym fuel A lib = Ret s ->
  st_table s = (if keeping then saves (all_news [] lib) else []) /\ st_out s = outs [] [] lib.
Proof.
  unfold find_splices. intros H. destruct (forM lib (find_one sym fuel A) (mkSlst [] [], [])) as [r| | |] eqn:E; cbn [bind] in H; try discriminate H. injection H as <-.
  apply (@find_all lib (mkSlst [] []) [] []) in E; [|reflexivity]. exact E.
Qed.
Lemma shown_outs a b d lib : sl_group A = false -> forall l seen, In (Shown a b d) (outs l seen lib) <-> In (a, b, d) (all_news seen lib).
Proof.
  intros NGr. induction lib as [|m lib IH]; intros l seen; cbn [outs all_news]; [tauto|]. rewrite NGr, !in_app_iff, IH.
  assert (X : In (Shown a b d) (map show (news m seen)) <-> In (a, b, d) (news m seen)).
  { rewrite in_map_iff. split; [intros ([[a' b'] d'] & Q & I); cbn in Q; injection Q as -> -> ->; exact I|]. intros I. exists (a, b, d). auto. }
  assert (Y : ~ In (Shown a b d) (passes (l ++ news m seen) m)).
  { unfold passes. destruct (_ && _); [|intros []]. intros [Q|[]]. discriminate Q. }
  rewrite X. tauto.
Qed.
End F.

Section P.
Variables (sym : symtab) (fuel : nat) (A : slargs) (n : nat).
Hypothesis N0 : 0 < n.
Notation saved := (method * method * splice_desc)%type.
Hypothesis FI : sl_filter A = true.
Lemma has_lead_spec (l : list saved) m : on n m -> (forall a b d, In (a, b, d) l -> on n a /\ on n b) ->
  (has_lead_splices (saves l) m = true <-> exists y, In (m, y, one_lead) l \/ In (y, m, one_lead) l).
Proof.
  intros Om H. pose proof (tinv_saves (fun x y => @meth_eqb_spec n x y N0) H) as [K1 K2 K3 K4 K5]. unfold has_lead_splices. rewrite existsb_exists. split.
  - intros (e & He & B). apply andb_true_iff in B as [B1 B2]. apply desc_eqb_eq in B1. rewrite Forall_forall in K1. apply (mem_in (D := on n)) in B2; auto; [|intros; now apply meth_eqb_spec with n|apply K1, He].
    destruct (K5 e m He B2) as (y & Y). exists y. rewrite B1 in Y. exact Y.
  - assert (G : forall e, In e (saves l) -> fst e = one_lead -> In m (snd e) -> exists x, In x (saves l) /\ desc_eqb (fst x) (mkDesc 1 None None) && mem m (snd x) = true).
    { intros e He Ee Hm. exists e. split; [exact He|]. apply andb_true_iff. split; [now apply desc_eqb_eq|]. rewrite Forall_forall in K1. apply (mem_in (D := on n)); auto; [intros; now apply meth_eqb_spec with n|apply K1, He]. }
    intros (y & [Y|Y]); destruct (K4 _ _ _ Y) as (e & He & Ee & H1 & H2); eapply G; eauto.
Qed.
Lemma passed_outs m lib : forall (l : list saved) seen, Forall (on n) (seen ++ lib) -> NoDup (seen ++ lib) -> (forall a b d, In (a, b, d) l -> In a seen /\ In b seen) ->
  (In (Passed m) (outs sym fuel A l seen lib) <-> In m lib /\ forall y, ~ In (m, y, one_lead) (all_news sym fuel A seen lib)).
Proof.
  induction lib as [|m0 lib IH]; intros l seen F ND H; cbn [outs all_news].
  - cbn. tauto.
  - assert (F' : Forall (on n) ((seen ++ [m0]) ++ lib)) by (rewrite <- app_assoc; exact F). assert (ND' : NoDup ((seen ++ [m0]) ++ lib)) by (rewrite <- app_assoc; exact ND).
    assert (NI : ~ In m0 seen /\ ~ In m0 lib).
    { apply nodup_app in ND as (_ & N & X). inversion_clear N. split; [|assumption]. intros I. apply (X m0 I). now left. }
    assert (H' : forall a b d, In (a, b, d) (l ++ news sym fuel A m0 seen) -> In a (seen ++ [m0]) /\ In b (seen ++ [m0])).
    { intros a b d I. rewrite !in_app_iff in *. destruct I as [I|I]; [destruct (H a b d I); auto|]. apply in_news in I as (-> & I & _). cbn [In]. auto. }
    assert (NR : forall y, ~ In (m0, y, one_lead) (all_news sym fuel A (seen ++ [m0]) lib)).
    { intros y I. apply in_all_news in I as (i & j & _ & Lj & _ & E & _). rewrite nth_error_app2 in E by exact Lj. apply nth_error_In in E. now apply NI in E. }
    assert (HL : has_lead_splices (saves (l ++ news sym fuel A m0 seen)) m0 = true <-> exists y, In (m0, y, one_lead) (news sym fuel A m0 seen)).
    { rewrite has_lead_spec.
      - split.
        + intros (y & [I|I]); apply in_app_or in I as [I|I].
          * apply H in I. tauto.
          * eauto.
          * apply H in I. tauto.
          * apply in_news in I as (_ & I & _). tauto.
        + intros (y & I). exists y. left. apply in_or_app. now right.
      - rewrite Forall_forall in F. apply F. apply in_or_app. right. now left.
      - intros a b d I. apply H' in I. rewrite Forall_forall in F'. split; apply F'; apply in_or_app; left; tauto. }
    rewrite !in_app_iff, (IH _ _ F' ND' H').
    assert (Z : ~ In (Passed m) (if sl_group A then [] else map show (news sym fuel A m0 seen))).
    { destruct (sl_group A); [intros []|]. rewrite in_map_iff. intros ([[a b] d] & Q & _). discriminate Q. }
    assert (Y : In (Passed m) (passes A (l ++ news sym fuel A m0 seen) m0) <-> m = m0 /\ forall y, ~ In (m0, y, one_lead) (news sym fuel A m0 seen)).
    { unfold passes. rewrite FI. cbn [andb]. destruct (has_lead_splices _ m0); cbn [negb].
      - split; [intros []|]. intros [_ X]. destruct (proj1 HL eq_refl) as (y & Iy). exact (X y Iy).
      - cbn [In]. split.
        + intros [Q|[]]. injection Q as <-. split; [reflexivity|]. intros y I. assert (X : false = true) by (apply HL; eauto). discriminate X.
        + intros [-> _]. now left. }
    rewrite Y. cbn [In]. split.
    + intros [X|[[-> X]|[I X]]]; [contradiction| |].
      * split; [now left|]. intros y I. apply in_app_or in I as [I|I]; [exact (X y I)|exact (NR y I)].
      * split; [now right|]. intros y J. apply in_app_or in J as [J|J]; [|exact (X y J)]. apply in_news in J as (-> & _). tauto.
    + intros [[<-|I] X].
      * right. left. split; [reflexivity|]. intros y I. apply (X y), in_or_app. now left.
      * right. right. split; [exact I|]. intros y J. apply (X y), in_or_app. now right.
Qed.
End P.

Section G.
Variables (sym : symtab) (fuel : nat) (A : slargs) (g : method).
Hypothesis SG : sl_given A = [g].
Lemma find_given lib : forall s meths r, forM lib (find_one sym fuel A) (s, meths) = Ret r ->
  forall o, In o (st_out (fst r)) <-> In o (st_out s) \/ exists m, In m lib /\ meth_eqb m g = false /\ exists d, test_pair sym fuel A m g = Ret (Some d) /\
    ((sl_group A = false /\ o = Shown m g d) \/ (sl_filter A = true /\ o = Passed m)).
Proof.
  induction lib as [|m lib IH]; intros s meths r H o.
  - cbn in H. injection H as <-. cbn [fst]. split; [auto|]. intros [X|(m & [] & _)]. exact X.
  - cbn [forM] in H. destruct (find_one sym fuel A (s, meths) m) as [[s1 meths1]| | |] eqn:E; cbn [bind] in H; try discriminate H.
    rewrite (IH s1 meths1 r H o). clear IH H. unfold find_one in E. rewrite SG in E.
    assert (X : In o (st_out s1) <-> In o (st_out s) \/ (meth_eqb m g = false /\ exists d, test_pair sym fuel A m g = Ret (Some d) /\
      ((sl_group A = false /\ o = Shown m g d) \/ (sl_filter A = true /\ o = Passed m)))).
    { destruct (meth_eqb m g) eqn:Q.
      - cbn [bind] in E. rewrite andb_false_r in E. injection E as <- <-. intuition discriminate.
      - unfold test_splice in E. destruct (test_pair sym fuel A m g) as [[d|]| | |] eqn:T; cbn [bind] in E; try discriminate E.
        + rewrite andb_true_r in E. injection E as <- <-. split.
          * intros I. destruct (sl_filter A) eqn:K1; destruct (sl_group A) eqn:K2; cbn [st_out st_table] in I; rewrite ?in_app_iff in I; cbn [In] in I.
            -- destruct I as [I|[<-|[]]]; [auto|]. right. split; [reflexivity|]. exists d. auto.
            -- destruct I as [[I|[<-|[]]]|[<-|[]]]; [auto| |]; right; (split; [reflexivity|]); exists d; auto.
            -- auto.
            -- destruct I as [I|[<-|[]]]; [auto|]. right. split; [reflexivity|]. exists d. auto.
          * intros I. destruct (sl_filter A) eqn:K1; destruct (sl_group A) eqn:K2; cbn [st_out st_table]; rewrite ?in_app_iff; cbn [In];
              (destruct I as [I|(_ & d' & Ed & I)]; [tauto|]); injection Ed as <-; destruct I as [[I1 ->]|[I1 ->]]; try discriminate I1; auto 6.
        + rewrite andb_false_r in E. injection E as <- <-. split; [auto|]. intros [I|(_ & d & Ed & _)]; [exact I|discriminate Ed]. }
    rewrite X. split.
    + intros [[I|I]|(m' & I & J)]; [auto| |].
      * right. exists m. split; [now left|exact I].
      * right. exists m'. split; [now right|exact J].
    + intros [I|(m' & [<-|I] & J)]; [auto|auto|]. right. exists m'. auto.
Qed.
End G.
