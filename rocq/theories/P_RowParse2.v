(* P_RowParse2.v - the row calculator reads its grammar. *)
From Verif Require Import Base M_Bell M_Row M_Stream M_RowCalc M_RowParse Spec_RowParse P_RowParse.
Set Implicit Arguments. Unset Strict Implicit.
Open Scope nat_scope.

Definition mults : list rk := [KTimes; KDivide; KLdivide].
Definition level (n : nat) : list rk := match n with 0 => [KMinus] | 1 => mults | 2 => [KPower] | _ => [] end.
Definition solid (xs : list tree) : Prop := match xs with [] => False | Leaf _ :: _ => True | Group _ b _ :: _ => b <> [] end.
Lemma solid_app a b : solid a -> solid (a ++ b).
Proof. destruct a as [|[t|o c h] a]; cbn; auto. contradiction. Qed.
Lemma solid_ne a : solid a -> a <> [].
Proof. destruct a; cbn; congruence. Qed.
Section Read.
Variable sym : symtab.
Variable f : flags.
Variable bells : nat.
Notation M := (make_row sym f bells).
Notation gram := (gram M).
Notation exponent := (exponent M).
Notation members := (members M).
Notation pe := (parse_expr sym f bells).

Lemma gram_solid : (forall n xs e, gram n xs e -> solid xs) /\ (forall xs e, exponent xs e -> solid xs) /\ (forall xs es, members xs es -> solid xs).
Proof. apply gram_ind_all; intros; cbn; auto using solid_app; try (now apply solid_ne); exact I. Qed.
Definition none_of (n : nat) (xs : list tree) : Prop := free [KSep] xs /\ forall m, m < n -> free (level m) xs.
Lemma none_up n m xs : m <= n -> none_of n xs -> none_of m xs.
Proof. intros H [A B]. split; auto. intros. apply B. lia. Qed.
Lemma none_group n o b c : none_of n [Group o b c].
Proof. split; [|intros]; apply free_group, free_nil. Qed.
Lemma none_leaf n t xs : ~ In (tk t) [KSep; KMinus; KTimes; KDivide; KLdivide; KPower] -> none_of n xs -> none_of n (Leaf t :: xs).
Proof.
  intros N [A B]. split.
  - apply free_leaf. split; auto. intros [E|[]]. apply N. left. exact E.
  - intros m H. apply free_leaf. split; auto. intros I. apply N. right. destruct m as [|[|[|m]]]; cbn in I |- *; tauto.
Qed.
Lemma none_nil n : none_of n [].
Proof. split; [|intros]; apply free_nil. Qed.
Lemma none_mid n l t r : none_of n l -> none_of n r -> ~ In (tk t) [KSep] -> (forall m, m < n -> ~ In (tk t) (level m)) -> none_of n (l ++ Leaf t :: r).
Proof. intros [A B] [C D] E F. split; [|intros m H]; apply free_app; split; auto; apply free_leaf; auto. Qed.
Lemma gram_free : (forall n xs e, gram n xs e -> none_of n xs) /\ (forall xs e, exponent xs e -> none_of 2 xs) /\ (forall xs es, members xs es -> True).
Proof.
  apply (@gram_ind_all M (fun n xs e _ => none_of n xs) (fun xs e _ => none_of 2 xs) (fun _ _ _ => True)); intros; auto using none_group.
  - apply none_mid; auto; [eapply none_up; [|eassumption]; lia| |]; rewrite e; [intros [E|[]]; discriminate|intros; lia].
  - apply none_mid; auto; [eapply none_up; [|eassumption]; lia| |]; rewrite e; [intros [E|[]]; discriminate|intros m Hm; replace m with 0 by lia; intros [E|[]]; discriminate].
  - apply none_mid; auto; [eapply none_up; [|eassumption]; lia| |]; rewrite e; [intros [E|[]]; discriminate|intros m Hm; replace m with 0 by lia; intros [E|[]]; discriminate].
  - apply none_mid; auto; [eapply none_up; [|eassumption]; lia| |]; rewrite e; [intros [E|[]]; discriminate|intros m Hm; replace m with 0 by lia; intros [E|[]]; discriminate].
  - apply none_mid; auto; [eapply none_up; [|eassumption]; lia| |]; rewrite e; [intros [E|[]]; discriminate|].
    intros [|[|m]] Hm I; cbn in I; [destruct I as [E|[]]; discriminate|repeat (destruct I as [E|I]; [discriminate|]); contradiction|lia].
  - eapply none_up; [|eassumption]. lia.
  - apply none_leaf; [|apply none_nil]. intros I. repeat (destruct I as [E|I]; [rewrite <- E in o; destruct o; discriminate|]). contradiction.
  - apply none_leaf; [rewrite e; cbn; intuition congruence|]. apply none_leaf; [rewrite e0; cbn; intuition congruence|apply none_nil].
  - apply none_leaf; [rewrite e; cbn; intuition congruence|apply none_nil].
  - apply none_leaf; [rewrite e; cbn; intuition congruence|apply none_nil].
Qed.
Lemma not_bracket k : In k [KSep; KMinus; KTimes; KDivide; KLdivide; KPower; KNum; KLit; KPlus] -> ~ bracket k.
Proof. intros I (j & [P|P]); cbn in I; destruct P as [[A B]|[[A B]|[A B]]]; subst; intuition congruence. Qed.

Lemma open_enclosed l t r o c : Forall wf (l ++ Leaf t :: r) -> solid l -> pair_of o c -> is_enclosed o c (flat (l ++ Leaf t :: r)) = Ret false.
Proof.
  intros W S P. destruct l as [|x l]; [destruct S|]. cbn [app] in *. inversion W as [|? ? Wx Wl]; subst. destruct x as [u|g b h].
  - apply enclosed_other; [discriminate|]. cbn. inversion Wx; subst. now apply (pair_kinds P).
  - destruct (rk_eqb (tk g) o) eqn:E.
    + apply rk_eqb_true in E. rewrite (enclosed_group _ P Wx E). cbn in S. destruct b; [congruence|]. cbn [is_empty]. destruct l; reflexivity.
    + apply enclosed_other; [discriminate|exact E].
Qed.
Definition ppar : pair_of KOpen KClose := or_introl (conj eq_refl eq_refl).
Definition pset : pair_of KOpenSet KCloseSet := or_intror (or_introl (conj eq_refl eq_refl)).
Definition pgrp : pair_of KOpenGroup KCloseGroup := or_intror (or_intror (conj eq_refl eq_refl)).
Lemma step_cons rec k t u : parse_step sym f bells rec k (t :: u) = 
  (p <- is_enclosed KOpen KClose (t :: u) ;;
    if p : bool then rec (between (t :: u)) else
    p <- is_enclosed KOpenSet KCloseSet (t :: u) ;;
    if p : bool then es <- parse_set rec k (between (t :: u)) ;; Ret (CSet es) else
    p <- is_enclosed KOpenGroup KCloseGroup (t :: u) ;;
    if p : bool then es <- parse_set rec k (between (t :: u)) ;; Ret (CGroup es) else
    o <- find_last [KMinus] (t :: u) ;;
    match o with
    | Some (a, _, b) => _ <- check_binary a b ;; x <- rec a ;; y <- rec b ;; Ret (CDiff x y)
    | None =>
    o <- find_last mults (t :: u) ;;
    match o with
    | Some (a, op, b) => _ <- check_binary a b ;; x <- rec a ;; y <- rec b ;; Ret (CMult (op_of (tk op)) x y)
    | None =>
    o <- find_first [KPower] 0 (t :: u) ;;
    match o with
    | Some (a, _, b) => _ <- check_binary a b ;; x <- rec a ;; y <- row_or_int sym f bells rec b ;; Ret (CExp x y)
    | None => if is_empty u && (rk_eqb (tk t) KNum || rk_eqb (tk t) KLit) then r <- M (tx t) ;; Ret (CRow r) else oops
    end end end).
Proof. reflexivity. Qed.
(* past the brackets *)
Definition operators (rec : list rtok -> outcome cexpr) (ts : list rtok) : outcome cexpr :=
    o <- find_last [KMinus] ts ;;
    match o with
    | Some (a, _, b) => _ <- check_binary a b ;; x <- rec a ;; y <- rec b ;; Ret (CDiff x y)
    | None =>
    o <- find_last mults ts ;;
    match o with
    | Some (a, op, b) => _ <- check_binary a b ;; x <- rec a ;; y <- rec b ;; Ret (CMult (op_of (tk op)) x y)
    | None =>
    o <- find_first [KPower] 0 ts ;;
    match o with
    | Some (a, _, b) => _ <- check_binary a b ;; x <- rec a ;; y <- row_or_int sym f bells rec b ;; Ret (CExp x y)
    | None => match ts with t :: u => if is_empty u && (rk_eqb (tk t) KNum || rk_eqb (tk t) KLit) then r <- M (tx t) ;; Ret (CRow r) else oops | [] => oops end
    end end end.
Lemma step_operators rec k xs : xs <> [] -> (forall o c, pair_of o c -> is_enclosed o c (flat xs) = Ret false) -> parse_step sym f bells rec k (flat xs) = operators rec (flat xs).
Proof.
  intros N E. pose proof (E _ _ ppar) as E1. pose proof (E _ _ pset) as E2. pose proof (E _ _ pgrp) as E3. destruct (flat xs) as [|t u] eqn:X; [apply flat_nil in X; congruence|].
  rewrite step_cons, E1. cbn [bind]. rewrite E2. cbn [bind]. rewrite E3. reflexivity.
Qed.
Lemma between_group o b c : between (flat [Group o b c]) = flat b.
Proof. rewrite flat_cons, flat1_group. change (flat []) with (@nil rtok). rewrite app_nil_r. unfold between. cbn [tl]. apply removelast_last. Qed.
Lemma length_group o b c : length (flat [Group o b c]) = S (S (length (flat b))).
Proof. rewrite flat_cons, flat1_group. change (flat []) with (@nil rtok). rewrite app_nil_r. cbn [length]. rewrite app_length. cbn [length]. lia. Qed.
Lemma length_mid l t r : length (flat (l ++ Leaf t :: r)) = length (flat l) + S (length (flat r)).
Proof. rewrite flat_app, flat_leaf, app_length. reflexivity. Qed.
Lemma check_ok a b : solid a -> solid b -> check_binary (flat a) (flat b) = Ret tt.
Proof.
  intros A B. unfold check_binary. destruct (flat a) eqn:E; [apply flat_nil in E; subst; destruct A|]. destruct (flat b) eqn:E'; [apply flat_nil in E'; subst; destruct B|]. reflexivity.
Qed.

Lemma flat_leaf1 t : flat [Leaf t] = [t].
Proof. reflexivity. Qed.
Theorem complete :
  (forall n xs e, gram n xs e -> Forall wf xs -> forall fuel, length (flat xs) < fuel -> pe fuel (flat xs) = Ret e) /\
  (forall xs e, exponent xs e -> Forall wf xs -> forall fuel, length (flat xs) < fuel -> row_or_int sym f bells (pe fuel) (flat xs) = Ret e) /\
  (forall xs es, members xs es -> Forall wf xs -> forall fuel k, length (flat xs) < fuel -> length (flat xs) < k -> parse_set (pe fuel) k (flat xs) = Ret es).
Proof.
  destruct gram_solid as (S1 & S2 & S3). destruct gram_free as (F1 & F2 & _).
  assert (NB : forall l (t : rtok) r, l ++ Leaf t :: r <> []) by (intros l t r H; apply app_eq_nil in H as [_ H]; discriminate).
  apply gram_ind_all.
  - (* minus *) intros l t r x y K Gl IHl Gr IHr W fuel L. destruct fuel as [|k]; [lia|]. cbn [parse_expr]. rewrite length_mid in L. pose proof W as W'. apply wf_mid in W as (Wl & Bt & Wr).
    rewrite step_operators; auto; [|intros; apply open_enclosed; eauto]. unfold operators. rewrite last_at; auto; [|apply (proj2 (F1 _ _ _ Gr) 0); lia|rewrite K; now left]. cbn [bind].
    rewrite check_ok by eauto. cbn [bind]. rewrite IHl by (auto; lia). cbn [bind]. rewrite IHr by (auto; lia). reflexivity.
  - (* times *) intros l t r x y K Gl IHl Gr IHr W fuel L. destruct fuel as [|k]; [lia|]. cbn [parse_expr]. rewrite length_mid in L. pose proof W as W'. apply wf_mid in W as (Wl & Bt & Wr).
    rewrite step_operators; auto; [|intros; apply open_enclosed; eauto]. unfold operators. rewrite last_none; auto.
    2:{ apply free_app. split; [apply (proj2 (F1 _ _ _ Gl) 0); lia|]. apply free_leaf. split; [rewrite K; intros [E|[]]; discriminate|apply (proj2 (F1 _ _ _ Gr) 0); lia]. }
    cbn [bind]. rewrite last_at; auto; [|apply (proj2 (F1 _ _ _ Gr) 1); lia|rewrite K; cbn; auto]. cbn [bind].
    rewrite check_ok by eauto. cbn [bind]. rewrite IHl by (auto; lia). cbn [bind]. rewrite IHr by (auto; lia). rewrite K. reflexivity.
  - (* divide *) intros l t r x y K Gl IHl Gr IHr W fuel L. destruct fuel as [|k]; [lia|]. cbn [parse_expr]. rewrite length_mid in L. pose proof W as W'. apply wf_mid in W as (Wl & Bt & Wr).
    rewrite step_operators; auto; [|intros; apply open_enclosed; eauto]. unfold operators. rewrite last_none; auto.
    2:{ apply free_app. split; [apply (proj2 (F1 _ _ _ Gl) 0); lia|]. apply free_leaf. split; [rewrite K; intros [E|[]]; discriminate|apply (proj2 (F1 _ _ _ Gr) 0); lia]. }
    cbn [bind]. rewrite last_at; auto; [|apply (proj2 (F1 _ _ _ Gr) 1); lia|rewrite K; cbn; auto]. cbn [bind].
    rewrite check_ok by eauto. cbn [bind]. rewrite IHl by (auto; lia). cbn [bind]. rewrite IHr by (auto; lia). rewrite K. reflexivity.
  - (* ldivide *) intros l t r x y K Gl IHl Gr IHr W fuel L. destruct fuel as [|k]; [lia|]. cbn [parse_expr]. rewrite length_mid in L. pose proof W as W'. apply wf_mid in W as (Wl & Bt & Wr).
    rewrite step_operators; auto; [|intros; apply open_enclosed; eauto]. unfold operators. rewrite last_none; auto.
    2:{ apply free_app. split; [apply (proj2 (F1 _ _ _ Gl) 0); lia|]. apply free_leaf. split; [rewrite K; intros [E|[]]; discriminate|apply (proj2 (F1 _ _ _ Gr) 0); lia]. }
    cbn [bind]. rewrite last_at; auto; [|apply (proj2 (F1 _ _ _ Gr) 1); lia|rewrite K; cbn; auto]. cbn [bind].
    rewrite check_ok by eauto. cbn [bind]. rewrite IHl by (auto; lia). cbn [bind]. rewrite IHr by (auto; lia). rewrite K. reflexivity.
  - (* power *) intros l t r x y K Gl IHl Gr IHr W fuel L. destruct fuel as [|k]; [lia|]. cbn [parse_expr]. rewrite length_mid in L. pose proof W as W'. apply wf_mid in W as (Wl & Bt & Wr).
    rewrite step_operators; auto; [|intros; apply open_enclosed; eauto]. unfold operators. rewrite last_none; auto.
    2:{ apply free_app. split; [apply (proj2 (F1 _ _ _ Gl) 0); lia|]. apply free_leaf. split; [rewrite K; intros [E|[]]; discriminate|apply (proj2 (F2 _ _ Gr) 0); lia]. }
    cbn [bind]. rewrite last_none; auto.
    2:{ apply free_app. split; [apply (proj2 (F1 _ _ _ Gl) 1); lia|]. apply free_leaf. split; [rewrite K; cbn; intuition congruence|apply (proj2 (F2 _ _ Gr) 1); lia]. }
    cbn [bind]. rewrite first_at; auto; [|apply (proj2 (F1 _ _ _ Gl) 2); lia|rewrite K; cbn; auto]. cbn [bind].
    rewrite check_ok by eauto. cbn [bind]. rewrite IHl by (auto; lia). cbn [bind]. rewrite IHr by (auto; lia). reflexivity.
  - (* up *) auto.
  - (* row *) intros t r K Em W fuel L. destruct fuel as [|k]; [lia|]. cbn [parse_expr]. inversion W as [|? ? Wt _]; subst. inversion Wt as [? B|]; subst.
    rewrite step_operators; [|discriminate|intros o c P; apply enclosed_other; [discriminate|]; cbn; now apply (pair_kinds P)]. unfold operators.
    assert (NF : forall ks, (forall k, In k ks -> k <> KNum /\ k <> KLit) -> free ks [Leaf t]).
    { intros ks H. apply free_leaf. split; [|apply free_nil]. intro I. apply H in I. destruct K; tauto. }
    rewrite last_none; auto; [|apply NF; cbn; intuition congruence]. cbn [bind]. rewrite last_none; auto; [|apply NF; cbn; intuition congruence]. cbn [bind].
    rewrite first_none; auto; [|apply NF; cbn; intuition congruence]. cbn [bind]. rewrite flat_leaf1. cbn [is_empty andb].
    replace (rk_eqb (tk t) KNum || rk_eqb (tk t) KLit) with true by (destruct K as [-> | ->]; reflexivity). rewrite Em. reflexivity.
  - (* parentheses *) intros o b c e K G IH W fuel L. destruct fuel as [|k]; [lia|]. cbn [parse_expr]. rewrite length_group in L. inversion W as [|? ? Wg _]; subst. inversion Wg as [|? ? ? P Wb]; subst.
    pose proof (enclosed_group [] ppar Wg K) as E. pose proof (between_group o b c) as B. pose proof (length_group o b c) as LG. destruct (flat [Group o b c]) as [|t u]; [discriminate|].
    rewrite step_cons, E. destruct b; [specialize (S1 _ _ _ G); destruct S1|]. cbn [is_empty bind]. rewrite B. apply IH; auto. lia.
  - (* sets *) intros o b c es K G IH W fuel L. destruct fuel as [|k]; [lia|]. cbn [parse_expr]. rewrite length_group in L. inversion W as [|? ? Wg _]; subst. inversion Wg as [|? ? ? P Wb]; subst.
    pose proof (enclosed_group [] pset Wg K) as E. pose proof (between_group o b c) as B. pose proof (@enclosed_other KOpen KClose [Group o b c]) as E0.
    pose proof (length_group o b c) as LG. destruct (flat [Group o b c]) as [|t u]; [discriminate|].
    rewrite step_cons, E0 by (try discriminate; cbn; rewrite K; reflexivity). cbn [bind]. rewrite E. destruct b; [specialize (S3 _ _ G); destruct S3|]. cbn [is_empty bind]. rewrite B, IH by (auto; lia). reflexivity.
  - (* groups *) intros o b c es K G IH W fuel L. destruct fuel as [|k]; [lia|]. cbn [parse_expr]. rewrite length_group in L. inversion W as [|? ? Wg _]; subst. inversion Wg as [|? ? ? P Wb]; subst.
    pose proof (enclosed_group [] pgrp Wg K) as E. pose proof (between_group o b c) as B. pose proof (@enclosed_other KOpen KClose [Group o b c]) as E0. pose proof (@enclosed_other KOpenSet KCloseSet [Group o b c]) as E1.
    pose proof (length_group o b c) as LG. destruct (flat [Group o b c]) as [|t u]; [discriminate|].
    rewrite step_cons, E0 by (try discriminate; cbn; rewrite K; reflexivity). cbn [bind]. rewrite E1 by (try discriminate; cbn; rewrite K; reflexivity). cbn [bind].
    rewrite E. destruct b; [specialize (S3 _ _ G); destruct S3|]. cbn [is_empty bind]. rewrite B, IH by (auto; lia). reflexivity.
  - (* + *) intros p t z Kp Kt Ez W fuel L. cbn [flat flat_map flat1 app row_or_int]. rewrite Kp. cbn [rk_eqb rk_eq_dec]. unfold parse_int. rewrite Kt, Ez. reflexivity.
  - intros t z Kt Lt Ez W fuel L. rewrite flat_leaf1. cbn [row_or_int is_empty]. rewrite Kt, Lt. cbn. rewrite Kt, Ez. reflexivity.
  - intros t z Kt Lt Em Ez W fuel L. rewrite flat_leaf1. cbn [row_or_int is_empty]. rewrite Kt. destruct (Nat.eqb_spec (length (tx t)) 1); [contradiction|]. rewrite Em. cbn. rewrite Kt, Ez. reflexivity.
  - intros xs e H G IH W fuel L. pose proof (F1 _ _ _ G) as [_ F]. pose proof (S1 _ _ _ G) as Sx. destruct (flat xs) as [|t u] eqn:X; [apply flat_nil in X; subst; destruct Sx|].
    cbn [row_or_int]. assert (NM : rk_eqb (tk t) KMinus = false).
    { apply rk_eqb_false. intro E. destruct xs as [|[t'|o b c] xs]; [destruct Sx|..]; cbn in X; inversion X; subst.
      - specialize (F 0 ltac:(lia)). apply free_leaf in F as [F _]. apply F. now left.
      - inversion W as [|? ? Wg _]; subst. inversion Wg as [|? ? ? P _]; subst. rewrite E in P. destruct P as [[P _]|[[P _]|[P _]]]; discriminate. }
    rewrite NM. assert (NP : rk_eqb (tk t) KPlus = false).
    { clear - G W X Sx F. apply rk_eqb_false. intro E. assert (Q : forall n ys e, gram n ys e -> forall ts t', ys = Leaf t' :: ts -> tk t' <> KPlus).
      { clear. intros n ys e G. induction G; intros ts t' Y; try discriminate; try (destruct l as [|x0 l]; [apply (proj1 gram_solid) in G1; destruct G1|inversion Y; subst; eapply IHG1; eauto; fail]).
        - destruct l as [|x0 l]; [apply (proj1 gram_solid) in G; destruct G|inversion Y; subst; eapply IHG; eauto].
        - eauto.
        - inversion Y; subst. destruct H as [-> | ->]; discriminate. }
      destruct xs as [|[t'|o b c] xs]; [destruct Sx|..]; cbn in X; inversion X; subst.
      - eapply Q; eauto.
      - inversion W as [|? ? Wg _]; subst. inversion Wg as [|? ? ? P _]; subst. rewrite E in P. destruct P as [[P _]|[[P _]|[P _]]]; discriminate. }
    rewrite NP. destruct (is_empty u && rk_eqb (tk t) KNum) eqn:C; [|rewrite <- X in *; apply IH; auto].
    apply andb_true_iff in C as [C1 C2]. destruct u; [|discriminate]. apply rk_eqb_true in C2.
    assert (Y : xs = [Leaf t]). { destruct xs as [|[t'|o b c] xs]; cbn in X; inversion X; subst; [apply flat_nil in H2; now subst|]. apply app_eq_nil in H2 as [H2 _]. apply app_eq_nil in H2 as [_ H2]. discriminate. }
    specialize (H t Y C2). destruct (Nat.eqb_spec (length (tx t)) 1); [contradiction|]. subst xs.
    specialize (IH W fuel L). destruct fuel as [|k]; [cbn in L; lia|]. cbn [parse_expr] in IH. inversion W as [|? ? Wt _]; subst. inversion Wt as [? B|]; subst.
    change ([t]) with (flat [Leaf t]) in IH. rewrite step_operators in IH; [|discriminate|intros o c P; apply enclosed_other; [discriminate|]; cbn; now apply (pair_kinds P)]. unfold operators in IH.
    rewrite last_none in IH; auto; [|apply free_leaf; rewrite C2; split; [cbn; intuition congruence|apply free_nil]]. cbn [bind] in IH.
    rewrite last_none in IH; auto; [|apply free_leaf; rewrite C2; split; [cbn; intuition congruence|apply free_nil]]. cbn [bind] in IH.
    rewrite first_none in IH; auto; [|apply free_leaf; rewrite C2; split; [cbn; intuition congruence|apply free_nil]]. cbn [bind] in IH.
    rewrite flat_leaf1, C2 in IH. cbn [is_empty andb orb rk_eqb rk_eq_dec] in IH. rewrite rk_eqb_refl in IH. cbn [orb] in IH. destruct (M (tx t)); [exact IH|discriminate..].
  - (* one member *) intros xs e G IH W fuel k L1 L2. destruct k as [|k]; [lia|]. cbn [parse_set]. rewrite first_none; auto; [|apply (proj1 (F1 _ _ _ G))]. cbn [bind]. rewrite IH by auto. reflexivity.
  - (* more *) intros xs t ys e es K G IH Gs IHs W fuel k L1 L2. destruct k as [|k]; [lia|]. cbn [parse_set]. rewrite length_mid in L1, L2. apply wf_mid in W as (Wl & Bt & Wr).
    rewrite first_at; auto; [|apply (proj1 (F1 _ _ _ G))|rewrite K; now left]. cbn [bind]. rewrite check_ok by eauto. cbn [bind]. rewrite IHs by (auto; lia). cbn [bind]. rewrite IH by (auto; lia). reflexivity.
Qed.
End Read.
