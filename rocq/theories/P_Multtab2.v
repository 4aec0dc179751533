(* P_Multtab2.v - multiplication tables with part ends. *)
From Verif Require Import Base M_Bell M_Change M_Math M_Row M_Extent M_Group M_Multtab Spec_Row Spec_Change Spec_Extent Spec_Cycle Spec_Group Spec_Multtab
  P_Math P_Row P_Cycle P_Order P_Named P_Perm P_Extent P_Extent2 P_Extent3 P_Group P_Group2 P_Group3 P_Multtab.
Set Implicit Arguments.
Unset Strict Implicit.
Open Scope nat_scope.

Lemma wf_default : wf_group group_default.
Proof.
  split; [cbn; lia|]. split.
  - split; [repeat constructor|]. split; [|split; [|split]].
    + intros x [<-|[]]. split; [apply is_row_nil|reflexivity].
    + now left.
    + intros x y [<-|[]] [<-|[]]. now left.
    + intros x [<-|[]]. exists []. split; [now left|reflexivity].
  - split; [constructor|]. split; [intros ? []|]. cbn. intros; lia.
Qed.

Lemma lex_asym x y : lex_lt x y -> lex_lt y x -> False.
Proof. intros A B. apply (@lex_irrefl x). eapply lex_trans; eauto. Qed.
Lemma ltb_total x y : row_ltb x y = false -> x = y \/ lex_lt y x.
Proof. intros E. destruct (lex_total_all x y) as [|[H|H]]; auto. apply row_ltb_spec in H. congruence. Qed.
Lemma least_union (A B : list nat -> Prop) x y : is_least A x -> is_least B y -> is_least (fun z => A z \/ B z) (if row_ltb y x then y else x).
Proof.
  intros [A1 A2] [B1 B2]. destruct (row_ltb y x) eqn:E.
  - apply row_ltb_spec in E. split; auto. intros z [Hz|Hz]; auto. right. destruct (A2 z Hz) as [->|L]; auto. eapply lex_trans; eauto.
  - apply ltb_total in E. split; auto. intros z [Hz|Hz]; auto. destruct E as [->|E]; auto. right. destruct (B2 z Hz) as [->|L]; auto. eapply lex_trans; eauto.
Qed.
Lemma least_ext (A B : list nat -> Prop) x : (forall y, A y <-> B y) -> is_least A x -> is_least B x.
Proof. intros H [H1 H2]. split; [now apply H|]. intros y Hy. apply H2. now apply H. Qed.

Section Part.
Variables (b : nat) (P Q : group).
Hypothesis Hb1 : 1 <= b.
Hypothesis Hb : b <= 256.
Hypothesis WP : wf_group P.
Hypothesis WQ : wf_group Q.
Hypothesis LP : gb P <= b.
Hypothesis LQ : gb Q <= b.

Lemma p_row p : In p (gv P) -> row256 p /\ length p <= b.
Proof. intros H. destruct (group_row WP H) as [A B]. split; [split; auto|]; lia. Qed.
Lemma q_row p : In p (gv Q) -> row256 p /\ length p <= b.
Proof. intros H. destruct (group_row WQ H) as [A B]. split; [split; auto|]; lia. Qed.
Lemma comp_b_l p x : is_row p -> length p <= b -> row_b b x -> row_b b (comp p x).
Proof. intros A B [C D]. split; [now apply comp_row|]. rewrite comp_length. lia. Qed.
Lemma comp_b_r p x : is_row p -> length p <= b -> row_b b x -> row_b b (comp x p).
Proof. intros A B [C D]. split; [now apply comp_row|]. rewrite comp_length. lia. Qed.

Lemma coset_act x y : row_b b x -> (in_coset P Q x y <-> row_b b y /\ exists p h, In p (gv P) /\ In h (gv Q) /\ forall i, act y i = act p (act x (act h i))).
Proof.
  intros Hx. split.
  - intros (p & h & Hp & Hh & ->). destruct (p_row Hp) as [[Pp _] Lp], (q_row Hh) as [[Ph _] Lh]. split.
    + apply comp_b_r; auto. now apply comp_b_l.
    + exists p, h. split; auto. split; auto. intros i. rewrite act_comp by exact Ph. now rewrite act_comp by apply Hx.
  - intros (Hy & p & h & Hp & Hh & A). exists p, h. split; auto. split; auto. destruct (p_row Hp) as [[Pp _] Lp], (q_row Hh) as [[Ph _] Lh].
    apply (@row_b_ext b); auto; [apply comp_b_r; auto; now apply comp_b_l|]. intros i. rewrite A, act_comp by exact Ph. now rewrite act_comp by apply Hx.
Qed.
Lemma coset_row x y : row_b b x -> in_coset P Q x y -> row_b b y.
Proof. intros Hx H. now apply (coset_act y Hx) in H. Qed.
Lemma id_P : In (id_row (gb P)) (gv P).
Proof. apply WP. Qed.
Lemma id_Q : In (id_row (gb Q)) (gv Q).
Proof. apply WQ. Qed.
Lemma coset_refl x : row_b b x -> in_coset P Q x x.
Proof.
  intros Hx. apply (coset_act x Hx). split; auto. exists (id_row (gb P)), (id_row (gb Q)). split; [apply id_P|]. split; [apply id_Q|].
  intros i. now rewrite !act_id.
Qed.
Lemma coset_trans x y z : row_b b x -> in_coset P Q x y -> in_coset P Q y z -> in_coset P Q x z.
Proof.
  intros Hx H1 H2. assert (Hy := coset_row Hx H1). apply (coset_act y Hx) in H1 as (_ & p & h & Hp & Hh & A). apply (coset_act z Hy) in H2 as (Hz & p' & h' & Hp' & Hh' & A').
  apply (coset_act z Hx). split; auto. exists (comp p' p), (comp h h'). split; [now apply grp_mul|]. split; [now apply grp_mul|].
  intros i. rewrite !act_comp by (apply (p_row Hp) || apply (q_row Hh')). now rewrite A', A.
Qed.
Lemma grp_inv2 G p : wf_group G -> In p (gv G) -> exists p', In p' (gv G) /\ (forall i, act p' (act p i) = i) /\ (forall i, act p (act p' i) = i).
Proof.
  intros W Hp. destruct (grp_inv W Hp) as (p' & Hp' & A). exists p'. split; auto. split; auto. intros i.
  apply (act_inj (proj1 (group_row W Hp'))). now rewrite A.
Qed.
Lemma coset_sym x y : row_b b x -> in_coset P Q x y -> in_coset P Q y x.
Proof.
  intros Hx H. assert (Hy := coset_row Hx H). apply (coset_act y Hx) in H as (_ & p & h & Hp & Hh & A). apply (coset_act x Hy). split; auto.
  destruct (grp_inv2 WP Hp) as (p' & Hp' & I1 & _). destruct (grp_inv2 WQ Hh) as (h' & Hh' & _ & I2). exists p', h'. split; auto. split; auto.
  intros i. now rewrite A, I2, I1.
Qed.
Lemma coset_same x y : row_b b x -> in_coset P Q x y -> forall z, in_coset P Q x z <-> in_coset P Q y z.
Proof.
  intros Hx H z. assert (Hy := coset_row Hx H). split; intros K.
  - apply coset_trans with x; auto. now apply coset_sym.
  - now apply coset_trans with y.
Qed.

(* --- representatives --- *)
Definition okT (T : list row) (y : list nat) : Prop := length (gv Q) < 2 \/ In y T.

Lemma post_rep_spec T r : row_b b r -> exists x, make_post_representative T Q r = Ret x /\
  ((x = [] /\ forall h, In h (gv Q) -> ~ okT T (comp r h)) \/
   is_least (fun y => (exists h, In h (gv Q) /\ y = comp r h) /\ okT T y) x).
Proof.
  intros Hr. unfold make_post_representative. destruct (Nat.ltb_spec (length (gv Q)) 2) as [L|L].
  - exists r. split; auto. right. assert (I := id_Q). assert (Er : comp r (id_row (gb Q)) = r).
    { apply (@row_b_ext b); auto; [apply comp_b_r; auto; [apply is_row_id|rewrite id_length; lia]|]. intros i. rewrite act_comp by apply is_row_id. now rewrite act_id. }
    destruct (gv Q) as [|h [|? ?]] eqn:EQ; [destruct I| |cbn in L; lia]. destruct I as [->|[]].
    split; [split; [exists (id_row (gb Q)); split; [now left|auto]|unfold okT; rewrite EQ; left; cbn; lia]|].
    intros y ((h & [<-|[]] & ->) & _). left. exact Er.
  - destruct (@forM_inv _ _ (fun done res => (res = [] /\ forall h, In h done -> ~ In (comp r h) T) \/
       is_least (fun y => (exists h, In h done /\ y = comp r h) /\ In y T) res) (gv Q)
       (fun res i => x <- mul r i ;; Ret (if ((length res =? 0) || row_ltb x res) && existsb (row_eqb x) T then x else res)) []) as (x & E & I).
    + left. split; [reflexivity|intros h []].
    + intros done h rest res Eq I. assert (Hh : In h (gv Q)) by (rewrite Eq; apply in_or_app; right; now left). destruct (q_row Hh) as [Rh Lh].
      rewrite mul_comp; auto; [|now apply (row_b_256 Hb)]. cbn [bind]. eexists. split; [reflexivity|].
      assert (Rx : row_b b (comp r h)) by (apply comp_b_r; auto; apply Rh).
      assert (Ex : existsb (row_eqb (comp r h)) T = true <-> In (comp r h) T).
      { rewrite existsb_exists. split; [intros (y & Hy & Ey); apply row_eqb_spec in Ey; now subst|]. intros H. exists (comp r h). split; auto. now apply row_eqb_spec. }
      destruct (existsb (row_eqb (comp r h)) T) eqn:EE.
      * assert (In (comp r h) T) by now apply Ex. rewrite andb_true_r. right. destruct I as [[-> I]|I].
        -- cbn [length Nat.eqb orb]. split; [split; [exists h; split; [apply in_or_app; right; now left|auto]|auto]|].
           intros y ((h' & Hh' & ->) & Hy). apply in_app_or in Hh' as [Hh'|[<-|[]]]; [|now left]. exfalso. now apply (I h').
        -- assert (Lr : length res <> 0). { destruct I as [((h' & Hh' & ->) & _) _]. rewrite comp_length. destruct Hr as [_ ->]. lia. }
           destruct (Nat.eqb_spec (length res) 0); [lia|]. cbn [orb].
           apply least_ext with (A := fun z => ((exists h0, In h0 done /\ z = comp r h0) /\ In z T) \/ z = comp r h).
           ++ intros y. split.
              ** intros [((h' & Hh' & ->) & Hy)| ->]; (split; [|auto]); [exists h'|exists h]; (split; [apply in_or_app|auto]); auto. right. now left.
              ** intros ((h' & Hh' & ->) & Hy). apply in_app_or in Hh' as [Hh'|[<-|[]]]; eauto.
           ++ apply least_union; [exact I|]. split; [reflexivity|]. intros y ->. now left.
      * assert (~ In (comp r h) T) by (intros X; apply Ex in X; congruence). rewrite andb_false_r. destruct I as [[-> I]|I].
        -- left. split; auto. intros h' Hh'. apply in_app_or in Hh' as [Hh'|[<-|[]]]; auto.
        -- right. apply least_ext with (2 := I). intros y. split.
           ++ intros ((h' & Hh' & ->) & Hy). split; auto. exists h'. split; auto. apply in_or_app; auto.
           ++ intros ((h' & Hh' & ->) & Hy). split; auto. apply in_app_or in Hh' as [Hh'|[<-|[]]]; [eauto|contradiction].
    + exists x. split; auto. destruct I as [[-> I]|I].
      * left. split; auto. intros h Hh [X|X]; [lia|]. now apply (I h).
      * right. apply least_ext with (2 := I). intros y. unfold okT. split; intros [A B]; (split; [auto|]); [auto|]. destruct B; [lia|auto].
Qed.

Definition cand (T : list row) (r y : list nat) : Prop := in_coset P Q r y /\ okT T y.
Lemma rep_spec T r : row_b b r -> exists x, make_representative T P Q r = Ret x /\ is_least (fun y => y = r \/ cand T r y) x.
Proof.
  intros Hr. unfold make_representative.
  destruct (@forM_inv _ _ (fun done res => is_least (fun y => y = r \/ ((exists p h, In p done /\ In h (gv Q) /\ y = comp (comp p r) h) /\ okT T y)) res) (gv P)
    (fun res i => ir <- mul i r ;; x <- make_post_representative T Q ir ;; Ret (if negb (length x =? 0) && row_ltb x res then x else res)) r) as (x & E & I).
  - split; [now left|]. intros y [->|((p & h & [] & _) & _)]. now left.
  - intros done p rest res Eq I. assert (Hp : In p (gv P)) by (rewrite Eq; apply in_or_app; right; now left). destruct (p_row Hp) as [Rp Lp].
    rewrite mul_comp; auto; [|now apply (row_b_256 Hb)]. cbn [bind].
    assert (Rpr : row_b b (comp p r)) by (apply comp_b_l; auto; apply Rp).
    destruct (@post_rep_spec T (comp p r) Rpr) as (x & Ex & Ix). rewrite Ex. cbn [bind]. eexists. split; [reflexivity|].
    destruct Ix as [[-> Ix]|Ix].
    + cbn [length Nat.eqb negb andb]. apply least_ext with (2 := I). intros y. split.
      * intros [->|((p' & h & Hp' & Hh & ->) & Ok)]; auto. right. split; auto. exists p', h. split; auto. apply in_or_app; auto.
      * intros [->|((p' & h & Hp' & Hh & ->) & Ok)]; auto. apply in_app_or in Hp' as [Hp'|[<-|[]]]; [right; split; eauto|]. exfalso. now apply (Ix h).
    + assert (Lx : length x <> 0). { destruct Ix as [((h & Hh & ->) & _) _]. rewrite comp_length. destruct Rpr as [_ ->]. lia. }
      destruct (Nat.eqb_spec (length x) 0); [lia|]. cbn [negb andb].
      apply least_ext with (2 := least_union I Ix). intros y. split.
      * intros [[->|((p' & h & Hp' & Hh & ->) & Ok)]|((h & Hh & ->) & Ok)]; auto; right; (split; [|auto]).
        -- exists p', h. split; auto. apply in_or_app; auto.
        -- exists p, h. split; auto. apply in_or_app; right; now left.
      * intros [->|((p' & h & Hp' & Hh & ->) & Ok)]; auto. apply in_app_or in Hp' as [Hp'|[<-|[]]]; [left; right; split; eauto|]. right. split; eauto.
  - exists x. split; auto.
Qed.

(* --- closed sets of rows --- *)
Variable R : list row.
Hypothesis HR : closed_rows b P Q R.

Lemma R_row r : In r R -> row_b b r.
Proof. intros H. now apply HR in H. Qed.
Lemma rep_R r : In r R -> exists u, make_representative R P Q r = Ret u /\ is_least (in_coset P Q r) u.
Proof.
  intros Hr. assert (Rr := R_row Hr). destruct (@rep_spec R r Rr) as (u & E & L). exists u. split; auto.
  apply least_ext with (2 := L). intros y. unfold cand, okT. split.
  - intros [->|[H _]]; auto. now apply coset_refl.
  - intros H. right. split; auto. right. now apply (proj2 HR r).
Qed.

Lemma init_rows : exists T, 
  forM R (fun s i => x <- make_representative R P Q i ;; Ret (fst (set_insert row_ltb s x))) [] = Ret T /\
  StronglySorted lex_lt T /\ forall u, In u T <-> exists r, In r R /\ is_least (in_coset P Q r) u.
Proof.
  destruct (@forM_inv _ _ (fun done T => StronglySorted lex_lt T /\ forall u, In u T <-> exists r, In r done /\ is_least (in_coset P Q r) u) R
    (fun s i => x <- make_representative R P Q i ;; Ret (fst (set_insert row_ltb s x))) []) as (T & E & S & A).
  - split; [constructor|]. intros u. split; [intros []|intros (r & [] & _)].
  - intros done r rest T Eq (S & A). assert (Hr : In r R) by (rewrite Eq; apply in_or_app; right; now left).
    destruct (@rep_R r Hr) as (u & Eu & Lu). rewrite Eu. cbn [bind]. eexists. split; [reflexivity|].
    assert (X := @row_insert_spec T u S). destruct (set_insert row_ltb T u) as [T' new]. destruct X as (X1 & X2 & _). cbn [fst].
    split; auto. intros v. rewrite X2, A. split.
    + intros [->|(r' & Hr' & L)]; [exists r|exists r']; (split; [apply in_or_app|auto]); auto. right. now left.
    + intros (r' & Hr' & L). apply in_app_or in Hr' as [Hr'|[<-|[]]]; [right; eauto|]. left. apply (least_unique L Lu).
  - exists T. auto.
Qed.

Definition reps (T : list row) : Prop := StronglySorted lex_lt T /\ forall u, In u T <-> exists r, In r R /\ is_least (in_coset P Q r) u.

Lemma reps_in_R T u : reps T -> In u T -> In u R.
Proof. intros [_ A] H. apply A in H as (r & Hr & [C _]). now apply (proj2 HR r). Qed.
Lemma rep_T T r : reps T -> In r R -> exists u, make_representative T P Q r = Ret u /\ is_least (in_coset P Q r) u /\ In u T.
Proof.
  intros [S A] Hr. assert (Rr := R_row Hr). destruct (@rep_spec T r Rr) as (x & E & [L1 L2]). destruct (@rep_R r Hr) as (u & _ & U).
  assert (Hu : In u T) by (apply A; eauto). assert (x = u).
  { destruct (L2 u) as [|X]; auto; [right; split; [apply U|now right]|].
    assert (Cx : in_coset P Q r x) by (destruct L1 as [->|[C _]]; auto; now apply coset_refl).
    destruct (proj2 U x Cx) as [|Y]; auto. exfalso. eapply lex_asym; eauto. }
  subst x. exists u. auto.
Qed.

Lemma commutes_spec G k x : wf_group G -> gb G <= b -> row256 x -> (forall p, In p (gv G) -> comp x p = comp p x) -> (k = tt) -> commutes G x = Ret k.
Proof.
  intros W L Hx C ->. unfold commutes.
  destruct (@forM_inv _ _ (fun _ (u : unit) => u = tt) (gv G) (fun _ i => a <- mul x i ;; c <- mul i x ;; if row_eqb a c then Ret tt else Throw LogicError) tt) as (u & E & ->); auto.
  intros done p rest s Eq _. assert (Hp : In p (gv G)) by (rewrite Eq; apply in_or_app; right; now left).
  assert (Rp : row256 p) by (destruct (group_row W Hp); split; auto; lia).
  rewrite !mul_comp by assumption. cbn [bind]. rewrite (C p Hp). assert (X : row_eqb (comp p x) (comp p x) = true) by now apply row_eqb_spec. rewrite X. eauto.
Qed.

Lemma init_inv T : mt_inv (mkMT (repeat [] (length T)) T P Q []).
Proof.
  split; cbn [mtab mrows mcols]; [apply repeat_length|]. split.
  - intros i Hi. now rewrite nth_repeat.
  - intros j x k i N. now destruct j.
Qed.

Lemma product_coset k x r u : row256 x -> length x <= b -> commuting P Q k x -> row_b b r -> in_coset P Q r u -> in_coset P Q (col_product k x r) (col_product k x u).
Proof.
  intros [Px _] Lx C Hr Hu. assert (Ru := coset_row Hr Hu). apply (coset_act u Hr) in Hu as (_ & p & h & Hp & Hh & A).
  destruct (p_row Hp) as [[Pp _] Lp], (q_row Hh) as [[Ph _] Lh].
  destruct k; cbn [col_product commuting] in *.
  - apply coset_act; [now apply comp_b_l|]. split; [now apply comp_b_l|]. exists p, h. split; auto. split; auto. intros i.
    rewrite !act_comp by (apply Ru || apply Hr). rewrite A. rewrite <- (@act_comp x p), <- (@act_comp p x) by assumption. now rewrite C.
  - apply coset_act; [now apply comp_b_r|]. split; [now apply comp_b_r|]. exists p, h. split; auto. split; auto. intros i.
    rewrite !act_comp by assumption. rewrite A. do 2 f_equal. rewrite <- (@act_comp h x), <- (@act_comp x h) by assumption. now rewrite C.
Qed.
Lemma product_row k x r : row256 x -> length x <= b -> row_b b r -> row_b b (col_product k x r).
Proof. intros [Px _] Lx Hr. destruct k; [now apply comp_b_l|now apply comp_b_r]. Qed.

Lemma part_table t ops : mt_init R P Q = Ret t ->
  Forall (fun o => row256 (snd o) /\ length (snd o) <= b /\ commuting P Q (fst o) (snd o)) ops ->
  exists t' cs, run_cols t ops = Ret (t', cs) /\ length cs = length ops /\ mrows t' = mrows t /\
    forall r, In r R -> exists i u, mt_find t' r = Ret i /\ mt_row t' i = Ret u /\ is_least (in_coset P Q r) u /\
      forall q k x, nth_error ops q = Some (k, x) -> In (col_product k x r) R ->
        exists p v, mt_mul t' i (nth q cs 0) = Ret p /\ mt_row t' p = Ret v /\ is_least (in_coset P Q (col_product k x r)) v.
Proof.
  intros Et FO. unfold mt_init in Et. destruct init_rows as (T & ET & RT). fold (reps T) in RT.
  replace (forM R _ []) with (Ret T) in Et by (symmetry; exact ET). cbn [bind] in Et.
  destruct (length T =? length R / length (gv P)); [|discriminate]. injection Et as <-.
  destruct (@run_cols_spec (fun k x => row256 x /\ length x <= b /\ commuting P Q k x) ops _ (init_inv T) FO) as (t & cs & E & I & S & L & _ & N).
  { intros t' k x (S1 & S2 & S3) (Hx & Lx & C). cbn [mrows mpends mpost] in S1, S2, S3. rewrite S1, S2, S3. split.
    - destruct k; apply commutes_spec; auto.
    - intros r Hr. assert (Rr : row_b b r) by (apply R_row; now apply (reps_in_R RT)).
      destruct (@rep_spec T (col_product k x r) (product_row k Hx Lx Rr)) as (y & Ey & _). exists (col_product k x r), y.
      split; [apply prod_of_comp; auto; now apply (row_b_256 Hb)|]. unfold mt_rep. now rewrite S1, S2, S3. }
  destruct S as (S1 & S2 & S3). cbn [mrows mpends mpost] in S1, S2, S3.
  exists t, cs. split; auto. split; auto. split; auto.
  intros r Hr. assert (Rr := R_row Hr). destruct (rep_T RT Hr) as (u & Eu & Lu & Hu).
  destruct (@first_index_spec u T 0 Hu) as (i & Ei & Li & Ni). exists i, u.
  split; [unfold mt_find, mt_rep; rewrite S1, S2, S3, Eu; exact Ei|].
  split; [unfold mt_row; rewrite S1, (@vget_lt row _ _ []) by exact Li; now rewrite Ni|]. split; auto.
  intros q k x Hq Hk. destruct (proj1 (Forall_forall _ _) FO (k, x) (nth_error_In _ _ Hq)) as (Hx & Lx & C). cbn [fst snd] in *.
  destruct (@mt_mul_spec t (nth q cs 0) x k i I (N q k x Hq) ltac:(rewrite S1; exact Li)) as (p & y & E1 & E2 & E3).
  assert (Ru : row_b b u) by (apply (coset_row Rr); apply Lu).
  rewrite S1, Ni in E1. rewrite prod_of_comp in E1 by (auto; now apply (row_b_256 Hb)). injection E1 as <-.
  assert (Cc : in_coset P Q (col_product k x r) (col_product k x u)) by (apply product_coset; auto; apply Lu).
  assert (Hku : In (col_product k x u) R) by (apply (proj2 HR (col_product k x r)); auto).
  destruct (rep_T RT Hku) as (v & Ev & Lv & Hv).
  unfold mt_rep in E2. rewrite S1, S2, S3, Ev in E2. injection E2 as <-.
  destruct (proj1 (@finder_spec v T 0 0) Hv) as (c & Ec & Lc & Nc). exists c, v. rewrite E3, S1, Ec. split; auto. split.
  - unfold mt_row. rewrite S1, (@vget_lt row _ _ []) by exact Lc. now rewrite Nc.
  - apply least_ext with (2 := Lv). intros z. symmetry. apply coset_same; auto. now apply product_row.
Qed.

(* rounds has index 0 *)
Lemma part_rounds t r : mt_init R P Q = Ret t -> In (id_row b) R -> In r R -> (mt_find t r = Ret 0 <-> in_coset P Q (id_row b) r).
Proof.
  intros Et Hid Hr. unfold mt_init in Et. destruct init_rows as (T & ET & RT). fold (reps T) in RT.
  replace (forM R _ []) with (Ret T) in Et by (symmetry; exact ET). cbn [bind] in Et.
  destruct (length T =? length R / length (gv P)); [|discriminate]. injection Et as <-.
  assert (Rr := R_row Hr). destruct (rep_T RT Hr) as (u & Eu & Lu & Hu).
  assert (Idl : forall x, row_b b x -> x = id_row b \/ lex_lt (id_row b) x).
  { intros x [Px Lx]. destruct (@first_diff (id_row b) x) as [->|(p & Hp & A & D)]; [rewrite id_length; lia|now left|]. right.
    rewrite id_length in Hp. apply (@lex_first (id_row b) x p); rewrite ?id_length; auto.
    assert (Np : nth p (id_row b) 0 = p) by (unfold id_row; rewrite seq_nth; lia). rewrite Np in *.
    destruct (lt_dec p (nth p x 0)) as [|G]; auto. exfalso. set (q := nth p x 0) in *.
    assert (Hq : q < p) by lia. assert (Eq := A q Hq). unfold id_row in Eq at 1. rewrite seq_nth in Eq by lia. cbn in Eq.
    assert (Nd : NoDup x) by now apply is_row_iff in Px. assert (q = p); [|lia].
    apply (proj1 (NoDup_nth x 0) Nd); lia. }
  assert (Lid : is_least (in_coset P Q (id_row b)) (id_row b)).
  { split; [apply coset_refl, row_b_id|]. intros y Hy. apply Idl. apply (coset_row (row_b_id b) Hy). }
  assert (HidT : In (id_row b) T) by (apply RT; eauto).
  assert (T0 : nth 0 T [] = id_row b).
  { destruct T as [|a T']; [destruct HidT|]. assert (Ra : row_b b a) by (apply R_row, (@reps_in_R (a :: T') a); [exact RT|now left]). cbn [nth]. destruct HidT as [|HidT]; auto. exfalso.
    destruct RT as [ST _]. inversion_clear ST as [|? ? _ F]. rewrite Forall_forall in F. assert (X := F _ HidT).
    destruct (Idl a Ra) as [->|Y]; [now apply lex_irrefl in X|eapply lex_asym; eauto]. }
  unfold mt_find, mt_rep. cbn [mrows mpends mpost]. rewrite Eu. cbn [bind].
  destruct (@first_index_spec u T 0 Hu) as (i & Ei & Li & Ni). rewrite Ei. cbn [Nat.add]. split.
  - intros X. injection X as ->. assert (Eu' : u = id_row b) by (rewrite <- Ni; exact T0). apply coset_sym; auto. rewrite <- Eu'. apply Lu.
  - intros C. assert (Eu2 : u = id_row b). { apply (least_unique Lu). apply least_ext with (2 := Lid). intros y. now apply coset_same; [apply row_b_id|]. }
    f_equal. assert (ND := row_sorted_nodup (proj1 RT)). apply (proj1 (NoDup_nth T []) ND); auto; [apply (Nat.le_lt_trans _ i); [apply Nat.le_0_l|exact Li]|]. transitivity u; [exact Ni|]. rewrite Eu2. symmetry; exact T0.
Qed.

(* without a post group the constructor succeeds and has one row for each coset *)
Lemma NoDup_flat_map A B (f : A -> list B) l : NoDup l -> (forall x, In x l -> NoDup (f x)) ->
  (forall x y z, In x l -> In y l -> In z (f x) -> In z (f y) -> x = y) -> NoDup (flat_map f l).
Proof.
  induction l as [|a l IH]; intros N F D; cbn; [constructor|]. inversion_clear N as [|? ? N1 N2]. apply NoDup_app_iff.
  split; [apply F; now left|]. split; [apply IH; auto; [intros; apply F; now right|intros x y z Hx Hy; apply D; now right]|].
  intros z Hz Hw. apply in_flat_map in Hw as (c & Hc & Hzc). assert (a = c) by (apply (D a c z); auto; [now left|now right]). now subst.
Qed.

Lemma part_init : length (gv Q) < 2 -> NoDup R -> exists t, mt_init R P Q = Ret t /\ length (mrows t) * length (gv P) = length R.
Proof.
  intros L2 ND. destruct init_rows as (T & ET & RT). fold (reps T) in RT.
  assert (Qid : forall h, In h (gv Q) -> h = id_row (gb Q)).
  { intros h Hh. assert (I := id_Q). destruct (gv Q) as [|a [|? ?]]; [destruct I| |cbn in L2; lia]. destruct I as [->|[]]. destruct Hh as [->|[]]. reflexivity. }
  assert (Co : forall r y, row_b b r -> (in_coset P Q r y <-> exists p, In p (gv P) /\ y = comp p r)).
  { intros r y Rr. assert (Z : forall p, In p (gv P) -> comp (comp p r) (id_row (gb Q)) = comp p r).
    { intros p Hp. destruct (p_row Hp) as [[Pp _] Lp]. apply (@row_b_ext b); [apply comp_b_r; [apply is_row_id|rewrite id_length; lia|]; now apply comp_b_l|now apply comp_b_l|].
      intros i. rewrite act_comp by apply is_row_id. now rewrite act_id. }
    split.
    - intros (p & h & Hp & Hh & ->). exists p. split; auto. rewrite (Qid h Hh). now apply Z.
    - intros (p & Hp & ->). exists p, (id_row (gb Q)). split; auto. split; [apply id_Q|]. symmetry. now apply Z. }
  assert (Len : length T * length (gv P) = length R).
  { rewrite <- (@flat_map_length_const _ _ (fun t => map (fun p => comp p t) (gv P)) T (length (gv P))) by (intros; apply map_length).
    apply Permutation_length. apply NoDup_Permutation; auto.
    - apply NoDup_flat_map.
      + apply row_sorted_nodup. apply RT.
      + intros t Ht. assert (Rt := R_row (reps_in_R RT Ht)). apply NoDup_map_inj; [|apply row_sorted_nodup; apply WP].
        intros p p' Hp Hp' E. destruct (group_row WP Hp) as [Pp Lp], (group_row WP Hp') as [Pp' Lp'].
        destruct (inverse_spec (row_b_256 Hb Rt)) as (ti & _ & _ & _ & _ & B).
        apply act_ext; [lia|]. intros i _. assert (X : act (comp p t) (act ti i) = act (comp p' t) (act ti i)) by now rewrite E.
        rewrite !act_comp in X by apply Rt. now rewrite B in X.
      + intros t t' z Ht Ht' Hz Hz'. apply in_map_iff in Hz as (p & <- & Hp). apply in_map_iff in Hz' as (p' & E & Hp').
        assert (Rt := R_row (reps_in_R RT Ht)). assert (Rt' := R_row (reps_in_R RT Ht')).
        assert (C1 : in_coset P Q t (comp p t)) by (apply Co; eauto). assert (C2 : in_coset P Q t' (comp p t)) by (apply Co; eauto).
        apply RT in Ht as (r & Hr & Lr). apply RT in Ht' as (r' & Hr' & Lr').
        assert (X : is_least (in_coset P Q t) t) by (apply least_ext with (2 := Lr); intros y; apply coset_same; [now apply R_row|apply Lr]).
        assert (X' : is_least (in_coset P Q t') t') by (apply least_ext with (2 := Lr'); intros y; apply coset_same; [now apply R_row|apply Lr']).
        apply (least_unique X). apply least_ext with (2 := X'). intros y. rewrite (coset_same Rt C1 y). now apply coset_same.
    - intros y. rewrite in_flat_map. split.
      + intros (t & Ht & Hy). apply in_map_iff in Hy as (p & <- & Hp). apply (proj2 HR t); [now apply (reps_in_R RT)|]. apply Co; eauto. apply R_row. now apply (reps_in_R RT).
      + intros Hy. assert (Ry := R_row Hy). destruct (rep_R Hy) as (u & _ & U). assert (Hu : In u T) by (apply RT; eauto).
        exists u. split; auto. assert (Ru := R_row (reps_in_R RT Hu)).
        assert (C : in_coset P Q u y) by (apply coset_sym; auto; apply U). apply (Co u y Ru) in C as (p & Hp & ->). apply in_map_iff. eauto. }
  unfold mt_init. replace (forM R _ []) with (Ret T) by (symmetry; exact ET). cbn [bind].
  assert (Np : length (gv P) <> 0). { intros X. assert (Y := id_P). destruct (gv P); [destruct Y|discriminate]. }
  rewrite <- Len, Nat.div_mul by exact Np. rewrite Nat.eqb_refl. eexists. split; reflexivity.
Qed.
End Part.

(* --- the square table --- *)
Lemma sq_table R : Forall row256 R -> NoDup R ->
  exists t, sq_make R = Ret t /\ mrows t = R /\
    forall r s, In r R -> In s R -> exists i j, mt_find t r = Ret i /\ mt_find t s = Ret j /\ mt_row t i = Ret r /\
      (In (comp r s) R -> exists p, sq_mul t i j = Ret p /\ mt_row t p = Ret (comp r s)).
Proof.
  intros FR ND. assert (FR' := proj1 (Forall_forall _ _) FR). unfold sq_make, forN. rewrite Nat.sub_0_r.
  assert (G : forall n, n <= length R -> exists t, forM (seq 0 n) (fun t i => ri <- mt_row t i ;; '(t, _) <- compute_post_mult t ri ;; Ret t) (mt_plain R) = Ret t /\
    mt_inv t /\ same_set (mt_plain R) t /\ mcols t = map (fun r => (r, post_mult)) (firstn n R)).
  { induction n as [|n IH]; intros Hn.
    - exists (mt_plain R). split; auto. split; [apply plain_inv|]. split; [repeat split|]. reflexivity.
    - destruct IH as (t & E & I & S & C); [lia|]. rewrite seq_S, forM_app, E. cbn [bind forM Nat.add].
      destruct S as (S1 & S2 & S3). cbn [mt_plain mrows mpends mpost] in S1, S2, S3.
      unfold mt_row. rewrite S1, (@vget_lt row _ _ []) by exact Hn. cbn [bind].
      set (x := nth n R []). assert (Hx : row256 x) by (apply FR', nth_In; lia).
      destruct (@column_spec post_mult t x I) as (t' & c & E' & I' & S' & N & K).
      { rewrite S3. now apply plain_commutes. }
      { intros r Hr. rewrite S1 in Hr. exists (comp r x), (comp r x). split; [cbn; apply mul_comp; auto|]. unfold mt_rep. rewrite S2, S3. apply plain_rep.
        apply (@col_product_row post_mult); auto. }
      match goal with |- context [compute_post_mult ?a ?c'] => replace (compute_post_mult a c') with (Ret (t', c)) by (symmetry; exact E') end. cbn [bind]. exists t'. split; auto. split; auto.
      destruct S' as (Sa & Sb & Sc). split; [repeat split; cbn [mt_plain mrows mpends mpost]; congruence|].
      assert (Hnew : mcols t' = mcols t ++ [(x, post_mult)]).
      { unfold mt_column in E'. destruct (commutes (mpost t) x); try discriminate. cbn [bind] in E'. destruct (find_col (mcols t) 0 x post_mult) as [j|] eqn:F.
        - exfalso. apply find_col_spec in F as (q & _ & F). rewrite C in F. rewrite nth_error_map in F. destruct (nth_error (firstn n R) q) as [y|] eqn:Ny; [|discriminate]. cbn in F. injection F as ->.
          assert (q < length (firstn n R)) by (apply nth_error_Some; congruence). rewrite firstn_length in H.
          assert (In x (firstn n R)) by (eapply nth_error_In; eauto).
          assert (Spl : R = firstn n R ++ x :: skipn (S n) R).
          { rewrite <- (firstn_skipn n R) at 1. f_equal. assert (Ln : n < length R) by lia. unfold x. clear -Ln. revert n Ln. induction R as [|a l IHl]; intros [|n] Ln; cbn in *; try lia; auto. apply IHl. lia. }
          rewrite Spl in ND. apply NoDup_remove_2 in ND. apply ND, in_or_app. now left.
        - destruct (forN _ _ _ _); try discriminate. cbn [bind] in E'. injection E' as <- _. reflexivity. }
      rewrite Hnew, C. assert (Ln : n < length R) by lia. assert (Fs : firstn (S n) R = firstn n R ++ [x]).
      { unfold x. clear -Ln. revert n Ln. induction R as [|a l IHl]; intros [|n] Ln; cbn in *; try lia; auto. f_equal. apply IHl. lia. }
      rewrite Fs, map_app. reflexivity. }
  destruct (G (length R) (le_n _)) as (t & E & I & (S1 & S2 & S3) & C). cbn [mt_plain mrows mpends mpost] in S1, S2, S3. exists t. split; auto. split; auto.
  rewrite firstn_all in C.
  assert (Rep : forall y, row256 y -> mt_rep t y = Ret y) by (intros y Hy; unfold mt_rep; rewrite S2, S3; now apply plain_rep).
  intros r s Hr Hs. destruct (@first_index_spec r R 0 Hr) as (i & Ei & Li & Ni). destruct (@first_index_spec s R 0 Hs) as (j & Ej & Lj & Nj).
  exists i, j. unfold mt_find. rewrite !Rep by auto. cbn [bind]. rewrite S1. split; auto. split; auto.
  split; [unfold mt_row; rewrite S1, (@vget_lt row _ _ []) by exact Li; now rewrite Ni|].
  assert (Nc : nth_error (mcols t) j = Some (s, post_mult)).
  { rewrite C, nth_error_map. rewrite (nth_error_nth' R [] Lj). cbn. f_equal. f_equal. exact Nj. }
  destruct (@mt_mul_spec t j s post_mult i I Nc ltac:(rewrite S1; exact Li)) as (p & y & E1 & E2 & E3).
  rewrite S1, Ni in E1. cbn [prod_of] in E1. rewrite mul_comp in E1 by auto. injection E1 as <-.
  rewrite Rep in E2 by (apply (@col_product_row post_mult); auto). injection E2 as <-.
  intros H. destruct (proj1 (@finder_spec (comp r s) R 0 0) H) as (c & Ec & Lc & Nc'). exists c. unfold sq_mul. rewrite E3, S1, Ec. split; auto.
  unfold mt_row. rewrite S1, (@vget_lt row _ _ []) by exact Lc. now rewrite Nc'.
Qed.
