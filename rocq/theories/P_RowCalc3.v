(* P_RowCalc3.v - the nodes of the row calculator produce the rows they stand for. *)
From Verif Require Import Base M_Bell M_Row M_Group M_RowCalc Spec_Row Spec_Extent Spec_Group Spec_RowCalc.
From Verif Require Import P_Bell P_Row P_Power P_Group P_Group2 P_Extent P_RowCalc P_RowCalc2.
Set Implicit Arguments. Unset Strict Implicit.
Open Scope nat_scope.
Notation ev0 := (ev default_symtab).

Lemma ev_le f f' : f <= f' -> le_rec (ev0 f) (ev0 f').
Proof. intros H n v E. eapply ev_mono; eauto. Qed.

Lemma up f f' n v : ev0 f n = Ret v -> f <= f' -> ev0 f' n = Ret v.
Proof. intros H L. eapply ev_mono; eauto. Qed.

Lemma ev_S f n : ev0 (S f) n = eval_step default_symtab (ev0 f) f n.
Proof. reflexivity. Qed.

(* --- sets --- *)
Lemma set_enough rec : forall k k' l i, length l - i < k -> length l - i < k' -> set_next rec k l i = set_next rec k' l i.
Proof.
  induction k as [|k IH]; intros k' l i H H'; [lia|]. destruct k' as [|k']; [lia|]. cbn [set_next].
  destruct (nth_error l i) as [x|] eqn:N; [|reflexivity]. assert (i < length l) by (apply nth_error_Some; congruence).
  destruct (rec x) as [[o n]| | |]; cbn [bind]; auto. unfold vset. destruct (Nat.ltb_spec i (length l)); [|lia]. cbn [bind].
  destruct (_ =? _); auto. destruct o; auto. apply IH; rewrite upd_length; lia.
Qed.
Lemma set_begin l i o n' : runs (NSet l true 0) o n' -> runs (NSet l false i) o n'.
Proof. intros (f & H). destruct f as [|f]; [discriminate|]. exists (S f). exact H. Qed.
Lemma nth_mid (A : Type) (pre : list A) x l : nth_error (pre ++ x :: l) (length pre) = Some x.
Proof. rewrite nth_error_app2, Nat.sub_diag by lia. reflexivity. Qed.
Lemma vset_mid (A : Type) (pre : list A) x l y : vset (pre ++ x :: l) (length pre) y = Ret (pre ++ y :: l).
Proof. unfold vset. rewrite app_length. cbn [length]. destruct (Nat.ltb_spec (length pre) (length pre + S (length l))); [|lia]. now rewrite upd_app. Qed.
Lemma set_end l : runs (NSet l true (length l)) None (NSet l true (length l)).
Proof. exists 1. cbn [ev eval_step set_next]. rewrite (proj2 (nth_error_None l (length l))) by lia. reflexivity. Qed.
Lemma set_one pre x l r x' : count_vectors x = 0 -> runs x (Some r) x' ->
  runs (NSet (pre ++ x :: l) true (length pre)) (Some r) (NSet (pre ++ x' :: l) true (S (length pre))).
Proof.
  intros C (f & H). exists (S f). cbn [ev eval_step set_next]. rewrite nth_mid, H. cbn [bind]. rewrite vset_mid. cbn [bind]. rewrite C. reflexivity.
Qed.
Lemma set_vec_some pre x l r x' : count_vectors x <> 0 -> runs x (Some r) x' ->
  runs (NSet (pre ++ x :: l) true (length pre)) (Some r) (NSet (pre ++ x' :: l) true (length pre)).
Proof.
  intros C (f & H). exists (S f). cbn [ev eval_step set_next]. rewrite nth_mid, H. cbn [bind]. rewrite vset_mid. cbn [bind].
  destruct (Nat.eqb_spec (count_vectors x) 0); [congruence|]. reflexivity.
Qed.
Lemma set_vec_none pre x l x' o n' : count_vectors x <> 0 -> runs x None x' ->
  runs (NSet (pre ++ x' :: l) true (S (length pre))) o n' -> runs (NSet (pre ++ x :: l) true (length pre)) o n'.
Proof.
  intros C (f & H) (g & G). destruct g as [|g]; [discriminate|]. exists (S (f + g)). cbn [ev eval_step] in G. cbn [ev eval_step set_next]. rewrite nth_mid.
  rewrite (@up _ (f + g) _ _ H) by lia. cbn [bind]. rewrite vset_mid. cbn [bind].
  destruct (Nat.eqb_spec (count_vectors x) 0); [congruence|].
  apply bind_ret_inv in G as ((o1 & (l1 & i1)) & E & G).
  assert (LE : le_rec (ev0 g) (ev0 (f + g))) by (apply ev_le; lia).
  pose proof (set_mono LE (le_n _) E) as E'.
  rewrite (@set_enough (ev0 (f + g)) _ (S (length (pre ++ x' :: l)))), E'; [exact G| |]; rewrite !app_length; cbn [length]; lia.
Qed.

(* --- draining, groups --- *)
Lemma drains n xs n' : produces n xs n' -> exists f, drain (ev0 f) f n = Ret (xs, n').
Proof.
  induction 1 as [n n' (f & R)|n x n1 xs n' (f & R) P (g & IH)].
  - exists (S f). cbn [drain]. rewrite (@up _ (S f) _ _ R) by lia. reflexivity.
  - exists (S (f + g)). cbn [drain]. rewrite (@up _ (S (f + g)) _ _ R) by lia. cbn [bind].
    assert (LE : le_rec (ev0 g) (ev0 (S (f + g)))) by (apply ev_le; lia). rewrite (fun K => drain_mono (k' := f + g) LE K IH) by lia. reflexivity.
Qed.
Lemma group_begin gens gs gens' v g i o n' : produces gens gs gens' -> (exists f G, group_of f gs = Ret G /\ gv G = v) ->
  runs (NGroup gens' true v 0) o n' -> runs (NGroup gens false g i) o n'.
Proof.
  intros P (f1 & G & E & <-) (f & H). destruct (drains P) as (f2 & D). destruct f as [|f]; [discriminate|]. exists (S (f + f1 + f2)). cbn [ev eval_step] in *.
  assert (LE : le_rec (ev0 f2) (ev0 (f + f1 + f2))) by (apply ev_le; lia). rewrite (fun K => drain_mono (k' := f + f1 + f2) LE K D) by lia. cbn [bind].
  rewrite (fun K => group_mono (f' := f + f1 + f2) K E) by lia. exact H.
Qed.
Lemma group_rows gens v : forall us, produces (NGroup gens true (us ++ v) (length us)) v (NGroup gens true (us ++ v) (length (us ++ v))).
Proof.
  induction v as [|x v IH]; intro us.
  - apply p_end. exists 1. cbn [ev eval_step bind]. rewrite app_nil_r. rewrite (proj2 (nth_error_None us (length us))) by lia. reflexivity.
  - eapply p_more.
    + exists 1. cbn [ev eval_step bind]. rewrite nth_mid. reflexivity.
    + specialize (IH (us ++ [x])). rewrite <- !app_assoc in IH. cbn [app] in IH. rewrite app_length, Nat.add_1_r in IH. exact IH.
Qed.

(* --- differences --- *)
Lemma excluded_in ys x : excluded ys x = if in_dec (list_eq_dec Nat.eq_dec) x ys then true else false.
Proof.
  unfold excluded. destruct (in_dec (list_eq_dec Nat.eq_dec) x ys) as [I|N].
  - apply existsb_exists. exists x. split; auto. unfold row_eqb. now destruct (list_eq_dec Nat.eq_dec x x).
  - destruct (existsb (row_eqb x) ys) eqn:E; auto. apply existsb_exists in E as (y & I & E). unfold row_eqb in E. destruct (list_eq_dec Nat.eq_dec x y); [subst; contradiction|discriminate].
Qed.
Definition kept (ys xs : list row) : list row := filter (fun x => if in_dec (list_eq_dec Nat.eq_dec) x ys then false else true) xs.
Lemma diff_rows nb ys n xs n' : produces n xs n' -> count_vectors n <> 0 ->
  produces (NDiff n nb true ys) (kept ys xs) (NDiff n' nb true ys).
Proof.
  induction 1 as [n n' R|n x n1 xs n' R P IH]; intro C.
  - apply p_end. destruct R as (f & R). exists (S (S f)). rewrite ev_S. cbn [eval_step bind negb skip_f]. rewrite (@up _ (S f) _ _ R) by lia. reflexivity.
  - assert (C1 : count_vectors n1 <> 0) by (rewrite (same_count (runs_keeps R)); exact C). specialize (IH C1). pose proof (excluded_in ys x) as X.
    unfold kept. cbn [filter]. destruct (in_dec (list_eq_dec Nat.eq_dec) x ys).
    + eapply passes; [|exact IH]. intros o k (g & G). destruct R as (f & R). destruct g as [|g]; [discriminate|]. exists (S (S (f + g))).
      rewrite ev_S in *. cbn [eval_step bind negb] in G. cbn [eval_step bind negb skip_f]. rewrite (@up _ (S (f + g)) _ _ R) by lia. cbn [bind]. rewrite X.
      destruct (Nat.eqb_spec (count_vectors n1) 0); [congruence|]. cbn [negb andb].
      apply bind_ret_inv in G as ((o1 & m) & E & G). assert (LE : le_rec (ev0 g) (ev0 (S (f + g)))) by (apply ev_le; lia).
      rewrite (fun K => skip_mono (k' := f + g) LE K E) by lia. exact G.
    + eapply p_more; [|exact IH]. destruct R as (f & R). exists (S (S f)). rewrite ev_S. cbn [eval_step bind negb skip_f].
      rewrite (@up _ (S f) _ _ R) by lia. cbn [bind]. rewrite X, andb_false_r. reflexivity.
Qed.
Lemma diff_one nb ys n x n' : runs n (Some x) n' -> count_vectors n = 0 ->
  runs (NDiff n nb true ys) (if in_dec (list_eq_dec Nat.eq_dec) x ys then None else Some x) (NDiff n' nb true ys).
Proof.
  intros R C. pose proof (excluded_in ys x) as X. assert (C1 : count_vectors n' = 0) by (rewrite (same_count (runs_keeps R)); exact C).
  destruct R as (f & R). exists (S (S f)). rewrite ev_S. cbn [eval_step bind negb skip_f]. rewrite (@up _ (S f) _ _ R) by lia. cbn [bind].
  rewrite C1, X. cbn [Nat.eqb negb andb]. destruct (in_dec _ _ _); reflexivity.
Qed.
Lemma diff_begin_many na nb ys nb' ex o n' : produces nb ys nb' -> count_vectors nb <> 0 ->
  runs (NDiff na nb' true ys) o n' -> runs (NDiff na nb false ex) o n'.
Proof.
  intros P C (f & H). destruct (drains P) as (g & D). destruct f as [|f]; [discriminate|]. exists (S (f + g)). cbn [ev eval_step] in *.
  destruct (Nat.eqb_spec (count_vectors nb) 0); [congruence|]. cbn [negb].
  assert (LE : le_rec (ev0 g) (ev0 (f + g))) by (apply ev_le; lia). rewrite (fun K => drain_mono (k' := f + g) LE K D) by lia. cbn [bind negb] in *.
  apply bind_ret_inv in H as ((o1 & m) & E & H). assert (LE2 : le_rec (ev0 f) (ev0 (f + g))) by (apply ev_le; lia).
  rewrite (fun K => skip_mono (k' := f + g) LE2 K E) by lia. exact H.
Qed.
Lemma diff_begin_one na nb y nb' ex o n' : runs nb (Some y) nb' -> count_vectors nb = 0 ->
  runs (NDiff na nb' true [y]) o n' -> runs (NDiff na nb false ex) o n'.
Proof.
  intros (g & R) C (f & H). destruct f as [|f]; [discriminate|]. exists (S (f + g)). cbn [ev eval_step] in *. rewrite C. cbn [Nat.eqb negb].
  rewrite (@up _ (f + g) _ _ R) by lia. cbn [bind negb] in *.
  apply bind_ret_inv in H as ((o1 & m) & E & H). assert (LE2 : le_rec (ev0 f) (ev0 (f + g))) by (apply ev_le; lia).
  rewrite (fun K => skip_mono (k' := f + g) LE2 K E) by lia. exact H.
Qed.

(* --- two operands --- *)
Definition brun (A : node) (l : row) (B : node) (r : row) (b : bool) (A' : node) (l' : row) (B' : node) (r' : row) : Prop :=
  exists f, binary_arguments (ev0 f) f A l B r = Ret (b, (A', l', B', r')).
Inductive bprod : node -> row -> node -> row -> list (row * row) -> node -> row -> node -> row -> Prop :=
| b_end A l B r A' l' B' r' : brun A l B r false A' l' B' r' -> bprod A l B r [] A' l' B' r'
| b_more A l B r A1 x B1 y ps A' l' B' r' : brun A l B r true A1 x B1 y -> bprod A1 x B1 y ps A' l' B' r' -> bprod A l B r ((x, y) :: ps) A' l' B' r'.
Lemma bpasses A l B r A2 l2 B2 r2 ps A' l' B' r' : (forall b A3 l3 B3 r3, brun A2 l2 B2 r2 b A3 l3 B3 r3 -> brun A l B r b A3 l3 B3 r3) ->
  bprod A2 l2 B2 r2 ps A' l' B' r' -> bprod A l B r ps A' l' B' r'.
Proof. intros H P. inversion P; subst; [apply b_end|eapply b_more]; eauto. Qed.
Lemma brun_keeps A l B r b A' l' B' r' : brun A l B r b A' l' B' r' -> skel A' = skel A /\ skel B' = skel B.
Proof. intros (f & H). eapply binary_keeps; [|exact H]. apply ev_keeps. Qed.

Lemma plain_both A l B r x A' y B' : count_vectors A = 0 \/ count_vectors B = 0 -> runs A (Some x) A' -> runs B (Some y) B' -> brun A l B r true A' x B' y.
Proof.
  intros C (f & R) (g & G). exists (f + g). unfold binary_arguments. replace ((count_vectors B =? 0) || (count_vectors A =? 0)) with true.
  - rewrite (@up _ (f + g) _ _ G) by lia. cbn [bind]. rewrite (@up _ (f + g) _ _ R) by lia. reflexivity.
  - destruct C as [-> | ->]; [now rewrite orb_true_r|reflexivity].
Qed.
Lemma plain_end_r A l B r B' : count_vectors A = 0 -> runs B None B' -> brun A l B r false A l B' r.
Proof. intros C (f & R). exists f. unfold binary_arguments. rewrite C, orb_true_r, R. reflexivity. Qed.
Lemma plain_end_l A l B r A' y B' : count_vectors B = 0 -> runs B (Some y) B' -> runs A None A' -> brun A l B r false A' l B' y.
Proof.
  intros C (f & R) (g & G). exists (f + g). unfold binary_arguments. rewrite C. cbn [Nat.eqb orb]. rewrite (@up _ (f + g) _ _ R) by lia. cbn [bind].
  rewrite (@up _ (f + g) _ _ G) by lia. reflexivity.
Qed.
Definition both (A B : node) : Prop := count_vectors A <> 0 /\ count_vectors B <> 0.
Lemma both_cross A B rec f l r : both A B -> binary_arguments rec f A l B r = cross_f rec f A l B r.
Proof. intros [CA CB]. unfold binary_arguments. destruct (Nat.eqb_spec (count_vectors B) 0); [congruence|]. destruct (Nat.eqb_spec (count_vectors A) 0); [congruence|]. reflexivity. Qed.
Lemma cross_next A l B y x A' : both A B -> y <> [] -> runs A (Some x) A' -> brun A l B y true A' x B y.
Proof.
  intros C N (f & R). exists (S f). rewrite (both_cross _ _ _ _ C). cbn [cross_f]. destruct y as [|b y]; [congruence|]. cbn [is_empty bind].
  rewrite (@up _ (S f) _ _ R) by lia. reflexivity.
Qed.
Lemma cross_wrap A l B y A' b A3 l3 B3 r3 : both A B -> y <> [] -> runs A None A' -> brun (restart A') l B [] b A3 l3 B3 r3 -> brun A l B y b A3 l3 B3 r3.
Proof.
  intros C N R (g & G). assert (C' : both (restart A') B). { destruct C. split; auto. rewrite (@same_count A (restart A')); auto. rewrite skel_restart. eapply runs_keeps; eauto. }
  rewrite (both_cross _ _ _ _ C') in G. destruct R as (f & R). exists (S (f + g)). rewrite (both_cross _ _ _ _ C). cbn [cross_f]. destruct y as [|c y]; [congruence|]. cbn [is_empty bind].
  rewrite (@up _ (S (f + g)) _ _ R) by lia. cbn [bind]. eapply cross_mono; [|instantiate (1 := g); lia|exact G]. apply ev_le. lia.
Qed.
Lemma cross_end A l B B' : both A B -> runs B None B' -> brun A l B [] false A l B' [].
Proof. intros C (f & R). exists (S f). rewrite (both_cross _ _ _ _ C). cbn [cross_f is_empty]. rewrite (@up _ (S f) _ _ R) by lia. reflexivity. Qed.
Lemma cross_outer A l B y B' b A3 l3 B3 r3 : both A B -> y <> [] -> runs B (Some y) B' -> brun A l B' y b A3 l3 B3 r3 -> brun A l B [] b A3 l3 B3 r3.
Proof.
  intros C N R (g & G). assert (C' : both A B'). { destruct C. split; auto. rewrite (@same_count B B'); auto. eapply runs_keeps; eauto. }
  rewrite (both_cross _ _ _ _ C') in G. destruct R as (f & R). destruct g as [|g]; [discriminate|]. exists (S (f + g)). rewrite (both_cross _ _ _ _ C).
  cbn [cross_f is_empty]. rewrite (@up _ (S (f + g)) _ _ R) by lia. cbn [bind]. cbn [cross_f] in G. destruct y as [|c y]; [congruence|]. cbn [is_empty bind] in G.
  apply bind_ret_inv in G as ((o & m) & E & G). rewrite (@up _ (S (f + g)) _ _ E) by lia. cbn [bind]. destruct o as [x|]; [exact G|].
  eapply cross_mono; [|instantiate (1 := g); lia|exact G]. apply ev_le. lia.
Qed.

Definition pairs (xs ys : list row) : list (row * row) := concat (map (fun y => map (fun x => (x, y)) xs) ys).
Lemma each_pairs f xs ys : each f xs ys = map (fun p => f (fst p) (snd p)) (pairs xs ys).
Proof. unfold each, pairs. rewrite concat_map, map_map. f_equal. apply map_ext. intro y. now rewrite map_map. Qed.
Lemma pairs_one_r xs y : pairs xs [y] = map (fun x => (x, y)) xs.
Proof. unfold pairs. cbn. apply app_nil_r. Qed.
Lemma pairs_one_l x ys : pairs [x] ys = map (fun y => (x, y)) ys.
Proof. unfold pairs. induction ys as [|y ys IH]; cbn in *; [reflexivity|]. now rewrite IH. Qed.

(* one row on the right *)
Lemma many_one b y : (forall nb, ready b nb -> exists nb', runs nb (Some y) nb' /\ ready b nb') -> many b = false ->
  forall na xs na', produces na xs na' -> forall nb l r, ready b nb ->
  exists l' nb' r', bprod na l nb r (map (fun x => (x, y)) xs) na' l' nb' r' /\ ready b nb'.
Proof.
  intros Hb Mb na xs na' P. induction P as [n n' R|n x n1 xs n' R P IH]; intros nb l r Rb.
  - destruct (Hb nb Rb) as (nb' & Rn & Rb'). do 3 eexists. split; [apply b_end; eapply plain_end_l; eauto|exact Rb'].
    apply Nat.eqb_eq. rewrite (count_of (ready_skel Rb)), Mb. reflexivity.
  - destruct (Hb nb Rb) as (nb' & Rn & Rb'). destruct (IH nb' x y Rb') as (l' & nb2 & r' & B & R2). do 3 eexists. split; [|exact R2].
    cbn [map]. eapply b_more; [|exact B]. apply plain_both; auto. right. apply Nat.eqb_eq. rewrite (count_of (ready_skel Rb)), Mb. reflexivity.
Qed.
(* one row on the left *)
Lemma one_many a x : (forall na, ready a na -> exists na', runs na (Some x) na' /\ ready a na') -> many a = false ->
  forall nb ys nb', produces nb ys nb' -> forall na l r, ready a na ->
  exists na' l' r', bprod na l nb r (map (fun y => (x, y)) ys) na' l' nb' r' /\ ready a na'.
Proof.
  intros Ha Ma nb ys nb' P. induction P as [n n' R|n y n1 ys n' R P IH]; intros na l r Ra;
    assert (C : count_vectors na = 0) by (apply Nat.eqb_eq; rewrite (count_of (ready_skel Ra)), Ma; reflexivity).
  - exists na, l, r. split; [apply b_end; now apply plain_end_r|exact Ra].
  - destruct (Ha na Ra) as (na' & Rn & Ra'). destruct (IH na' x y Ra') as (na2 & l' & r' & B & R2). do 3 eexists. split; [|exact R2].
    cbn [map]. eapply b_more; [|exact B]. apply plain_both; auto.
Qed.
(* many on both sides *)
Lemma inner y A xs A1 : produces A xs A1 -> y <> [] -> forall B l ps (Q : node -> Prop) B' , both A B ->
  (forall l, exists A' l', bprod (restart A1) l B [] ps A' l' B' [] /\ Q A') ->
  exists A' l', bprod A l B y (map (fun x => (x, y)) xs ++ ps) A' l' B' [] /\ Q A'.
Proof.
  intros P N. induction P as [n n' R|n x n1 xs n' R P IH]; intros B l ps Q B' C H.
  - destruct (H l) as (A' & l' & BP & HQ). exists A', l'. split; auto. cbn [map app]. eapply bpasses; [|exact BP]. intros. eapply cross_wrap; eauto.
  - assert (C1 : both n1 B). { destruct C. split; auto. rewrite (@same_count n n1); auto. eapply runs_keeps; eauto. }
    destruct (IH B x ps Q B' C1 H) as (A' & l' & BP & HQ). exists A', l'. split; auto. cbn [map app]. eapply b_more; [|exact BP]. now apply cross_next.
Qed.
Lemma many_many a b xs : many a = true -> many b = true -> (forall na, ready a na -> exists na', produces na xs na' /\ ready a (restart na')) ->
  forall B ys B', produces B ys B' -> skel B = init b -> Forall (fun y => y <> []) ys -> forall A l, ready a A ->
  exists A' l', bprod A l B [] (pairs xs ys) A' l' B' [] /\ ready a A'.
Proof.
  intros Ma Mb Ha B ys B' P. induction P as [n n' R|n y n1 ys n' R P IH]; intros S F A l RA;
    assert (C : both A n) by (split; apply Nat.eqb_neq; [rewrite (count_of (ready_skel RA)), Ma|rewrite (count_of S), Mb]; reflexivity).
  - exists A, l. split; auto. apply b_end. now apply cross_end.
  - inversion F as [|? ? Ny F']; subst. destruct (Ha A RA) as (A1 & PA & R1).
    assert (S1 : skel n1 = init b) by (rewrite (runs_keeps R); exact S).
    assert (C1 : both A n1). { destruct C. split; auto. rewrite (@same_count n n1); auto. eapply runs_keeps; eauto. }
    unfold pairs. cbn [map concat]. fold (pairs xs ys).
    destruct (@inner y A xs A1 PA Ny n1 l (pairs xs ys) (ready a) n' C1) as (A' & l' & BP & Q).
    { intro l0. apply IH; auto. }
    exists A', l'. split; auto. eapply bpasses; [|exact BP]. intros. eapply cross_outer; eauto.
Qed.

Lemma mult_rows op A l B r ps A' l' B' r' : bprod A l B r ps A' l' B' r' -> Forall (fun p => sound (fst p) /\ sound (snd p)) ps ->
  produces (NMult op A B l r) (map (fun p => combined op (fst p) (snd p)) ps) (NMult op A' B' l' r').
Proof.
  induction 1 as [A l B r A' l' B' r' (f & R)|A l B r A1 x B1 y ps A' l' B' r' (f & R) P IH]; intro F.
  - apply p_end. exists (S f). cbn [ev eval_step]. rewrite R. reflexivity.
  - inversion F as [|? ? [Sx Sy] F']; subst. cbn [map fst snd]. eapply p_more; [|apply IH; exact F'].
    exists (S f). cbn [ev eval_step]. rewrite R. cbn [bind]. destruct (multiply_ok op Sx Sy) as [E _]. cbn [fst snd] in E. rewrite E. reflexivity.
Qed.
Definition not_int (n : node) : Prop := match n with NInt _ => False | _ => True end.
Lemma not_int_skel n n' : skel n' = skel n -> not_int n -> not_int n'.
Proof. destruct n, n'; cbn; try discriminate; auto. Qed.
Lemma exp_step rec f A l B r : not_int B -> eval_step default_symtab rec f (NExp A B r l) =
    ('(b, (lhs, l, rhs, r)) <- binary_arguments rec f A l B r ;;
      if b : bool then i <- inverse r ;; p <- mul i l ;; v <- mul p r ;; Ret (Some v, NExp lhs rhs r l) else Ret (None, NExp lhs rhs r l)).
Proof. intros H. destruct B; [destruct H|reflexivity..]. Qed.
Lemma exp_rows A l B r ps A' l' B' r' : bprod A l B r ps A' l' B' r' -> not_int B -> Forall (fun p => sound (fst p) /\ sound (snd p)) ps ->
  produces (NExp A B r l) (map (fun p => conjugated (fst p) (snd p)) ps) (NExp A' B' r' l').
Proof.
  pose proof exp_step as X.
  induction 1 as [A l B r A' l' B' r' R|A l B r A1 x B1 y ps A' l' B' r' R P IH]; intros NI F.
  - apply p_end. destruct R as (f & R). exists (S f). cbn [ev]. rewrite X by exact NI. rewrite R. reflexivity.
  - inversion F as [|? ? [Sx Sy] F']; subst. cbn [map fst snd]. eapply p_more; [|apply IH; [|exact F']].
    + destruct R as (f & R). exists (S f). cbn [ev]. rewrite X by exact NI. rewrite R. cbn [bind]. destruct (conj_ok Sx Sy) as [E _]. cbn [fst snd] in E.
      apply bind_ret_inv in E as (i & -> & E). apply bind_ret_inv in E as (p & Ep & E). cbn [bind fst snd] in *. rewrite Ep. cbn [bind]. rewrite E. reflexivity.
    + eapply not_int_skel; [|exact NI]. eapply brun_keeps; eauto.
Qed.
Lemma power_rows z n xs n' r l : produces n xs n' -> Forall sound xs -> Forall (within z) xs ->
  produces (NExp n (NInt z) r l) (map (fun x => pow x (Z.to_nat z)) xs) (NExp n' (NInt z) r l).
Proof.
  induction 1 as [n n0 (f & R)|n x n1 xs n0 (f & R) P IH]; intros Hs W.
  - apply p_end. exists (S f). cbn [ev eval_step]. rewrite R. reflexivity.
  - inversion Hs; inversion W; subst. cbn [map]. eapply p_more; [|apply IH; auto]. exists (S f). cbn [ev eval_step]. rewrite R. cbn [bind].
    destruct (@pow_ok x z) as [-> _]; auto.
Qed.
