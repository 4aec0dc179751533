(* Base.v - the outcome monad in which the C++ is modelled, and loops. *)
From Coq Require Export Ascii String.
From Coq Require Export List Arith ZArith Lia Bool Permutation Sorted.
Export ListNotations.
Set Implicit Arguments.
Open Scope list_scope.
Open Scope nat_scope.

(* The exceptions thrown by the modelled code. *)
Inductive exn :=
| BellInvalid          (* bell::invalid            bell.cpp:93   *)
| RowInvalid           (* row::invalid             row.cpp:115   *)
| ChangeInvalid        (* change::invalid          change.cpp:96 *)
| ChangeOutOfRange     (* change::out_of_range     change.cpp:102 *)
| PnInvalid            (* place notation errors    place_notation.h *)
| LogicError | OutOfRange | InvalidArgument | PatternInvalid | DimInvalid | BadCast
| AssertFailed.        (* assert(...) is false: the program aborts (no NDEBUG in the build) *)

(* Result of running a C++ function: a value, an exception, undefined
   behaviour (out-of-range access, end-iterator dereference, signed overflow,
   division by zero) or a loop/recursion that ran out of its fuel. *)
Inductive outcome (A : Type) : Type :=
| Ret (a : A)
| Throw (e : exn)
| UB
| Diverge.
Arguments Ret {A} a.
Arguments Throw {A} e.
Arguments UB {A}.
Arguments Diverge {A}.

Definition bind {A B} (m : outcome A) (f : A -> outcome B) : outcome B :=
  match m with
  | Ret a => f a
  | Throw e => Throw e
  | UB => UB
  | Diverge => Diverge
  end.

Declare Scope outcome_scope.
Delimit Scope outcome_scope with outcome.
Notation "x <- m ;; k" := (bind m (fun x => k))
  (at level 61, m at next level, right associativity) : outcome_scope.
Notation "' p <- m ;; k" := (bind m (fun p => k))
  (at level 61, p pattern, m at next level, right associativity) : outcome_scope.
Open Scope outcome_scope.

Definition omap {A B} (f : A -> B) (m : outcome A) : outcome B :=
  bind m (fun a => Ret (f a)).

(* vector<T>::operator[] as an rvalue: undefined when out of range. *)
Definition vget {A} (v : list A) (i : nat) : outcome A :=
  match nth_error v i with Some a => Ret a | None => UB end.

(* v[i] = a: undefined when out of range. *)
Definition upd {A} (v : list A) (i : nat) (a : A) : list A :=
  firstn i v ++ a :: skipn (S i) v.
Definition vset {A} (v : list A) (i : nat) (a : A) : outcome (list A) :=
  if i <? length v then Ret (upd v i a) else UB.

(* for (x : l) s = body s x *)
Fixpoint forM {A S} (l : list A) (body : S -> A -> outcome S) (s : S) : outcome S :=
  match l with
  | [] => Ret s
  | x :: t => s' <- body s x ;; forM t body s'
  end.

(* for (i = a; i < b; ++i) s = body s i *)
Definition forN {S} (a b : nat) (body : S -> nat -> outcome S) (s : S) : outcome S :=
  forM (seq a (b - a)) body s.

(* unsigned char arithmetic: RINGING_BELL_BITS = CHAR_BIT = 8 (bell.h:58-61) *)
Definition b8 (n : nat) : nat := n mod 256.

(* 32-bit signed int: the result of an arithmetic operation, undefined on overflow *)
Definition int_max : Z := 2147483647%Z.
Definition int_min : Z := (-2147483648)%Z.
Definition as_int (z : Z) : outcome Z :=
  if (int_min <=? z)%Z && (z <=? int_max)%Z then Ret z else UB.
(* 32-bit unsigned wraps *)
Definition u32 (z : Z) : Z := (z mod 4294967296)%Z.

(* ------------------------------------------------------------------ *)
(* Generic lemmas *)

Lemma bind_ret_inv A B (m : outcome A) (f : A -> outcome B) b :
  bind m f = Ret b -> exists a, m = Ret a /\ f a = Ret b.
Proof. destruct m; simpl; intros H; try discriminate; eauto. Qed.

Lemma bind_assoc A B C (m : outcome A) (f : A -> outcome B) (g : B -> outcome C) :
  bind (bind m f) g = bind m (fun a => bind (f a) g).
Proof. destruct m; reflexivity. Qed.

Lemma vget_lt A (v : list A) i d : i < length v -> vget v i = Ret (nth i v d).
Proof.
  intros H. unfold vget. destruct (nth_error v i) eqn:E.
  - f_equal. symmetry. apply nth_error_nth; exact E.
  - apply nth_error_None in E. lia.
Qed.

Lemma vget_ge A (v : list A) i : length v <= i -> vget v i = UB.
Proof. intros H. unfold vget. now rewrite (proj2 (nth_error_None v i) H). Qed.

Lemma vget_inv A (v : list A) i a : vget v i = Ret a ->
  i < length v /\ forall d, nth i v d = a.
Proof.
  unfold vget. destruct (nth_error v i) eqn:E; intros H; inversion H; subst.
  split. { apply nth_error_Some; congruence. }
  intros d. now apply nth_error_nth.
Qed.

Lemma upd_length A (v : list A) i a : i < length v -> length (upd v i a) = length v.
Proof.
  intros H. unfold upd. rewrite app_length, firstn_length. cbn [length].
  rewrite skipn_length. lia.
Qed.

Lemma nth_upd A (v : list A) i a j d : i < length v ->
  nth j (upd v i a) d = if j =? i then a else nth j v d.
Proof.
  intros H. unfold upd.
  assert (Hf : length (firstn i v) = i) by (rewrite firstn_length; lia).
  destruct (Nat.eqb_spec j i) as [->|Hne].
  - rewrite app_nth2 by lia. rewrite Hf, Nat.sub_diag. reflexivity.
  - destruct (lt_dec j i) as [Hlt|Hge].
    + rewrite app_nth1 by lia.
      rewrite <- (firstn_skipn i v) at 2. rewrite app_nth1 by lia. reflexivity.
    + rewrite app_nth2 by lia. rewrite Hf.
      destruct (j - i) as [|k] eqn:E; [lia|]. cbn [nth].
      rewrite <- (firstn_skipn (S i) v) at 2.
      assert (length (firstn (S i) v) = S i) by (rewrite firstn_length; lia).
      rewrite app_nth2 by lia. f_equal. lia.
Qed.

Lemma vset_lt A (v : list A) i a : i < length v -> vset v i a = Ret (upd v i a).
Proof. intros H. unfold vset. now destruct (Nat.ltb_spec i (length v)); [|lia]. Qed.

Lemma vset_inv A (v : list A) i a w : vset v i a = Ret w ->
  i < length v /\ w = upd v i a.
Proof.
  unfold vset. destruct (Nat.ltb_spec i (length v)); intros E; inversion E; auto.
Qed.

Lemma forM_app A S (l1 l2 : list A) (b : S -> A -> outcome S) s :
  forM (l1 ++ l2) b s = bind (forM l1 b s) (forM l2 b).
Proof.
  revert s; induction l1 as [|x t IH]; intros s; cbn [forM app]; [reflexivity|].
  rewrite bind_assoc. destruct (b s x); cbn; auto.
Qed.

Lemma forM_ext A S (l : list A) (b1 b2 : S -> A -> outcome S) s :
  (forall s x, In x l -> b1 s x = b2 s x) -> forM l b1 s = forM l b2 s.
Proof.
  revert s; induction l as [|x t IH]; intros s H; cbn [forM]; [reflexivity|].
  rewrite (H s x) by now left. destruct (b2 s x); cbn; auto.
  apply IH. intros; apply H; now right.
Qed.

(* Invariant rule for loops. *)
Lemma forM_inv A S (P : list A -> S -> Prop) (l : list A) body s0 :
  P [] s0 ->
  (forall done x rest s, l = done ++ x :: rest -> P done s ->
     exists s', body s x = Ret s' /\ P (done ++ [x]) s') ->
  exists s, forM l body s0 = Ret s /\ P l s.
Proof.
  intros H0 Hs.
  assert (G : forall rest done s, l = done ++ rest -> P done s ->
     exists s', forM rest body s = Ret s' /\ P l s').
  { induction rest as [|x rest IH]; intros done s El Hp.
    - rewrite app_nil_r in El. subst done. cbn. eauto.
    - destruct (Hs done x rest s El Hp) as (s' & E & Hp').
      cbn [forM]. rewrite E. cbn [bind].
      apply (IH (done ++ [x])); [|exact Hp'].
      rewrite <- app_assoc. exact El. }
  exact (G l [] s0 eq_refl H0).
Qed.

(* A loop writing f i to index g i. *)
Lemma forM_vset A B (l : list B) (g : B -> nat) (f : B -> A) (v : list A) d :
  (forall x, In x l -> g x < length v) -> NoDup (map g l) ->
  exists w, forM l (fun v x => vset v (g x) (f x)) v = Ret w /\
    length w = length v /\
    (forall x, In x l -> nth (g x) w d = f x) /\
    (forall j, ~ In j (map g l) -> nth j w d = nth j v d).
Proof.
  revert v; induction l as [|x t IH]; intros v Hr Hn; cbn [forM].
  - exists v. repeat split; auto. intros x [].
  - inversion Hn as [|? ? Hx Ht]; subst.
    rewrite vset_lt by (apply Hr; now left). cbn [bind].
    assert (HL : length (upd v (g x) (f x)) = length v)
      by (apply upd_length, Hr; now left).
    destruct (IH (upd v (g x) (f x))) as (w & E & L & H1 & H2); auto.
    { intros y Hy. rewrite HL. apply Hr; now right. }
    exists w. rewrite E. repeat split; auto.
    + now rewrite L, HL.
    + intros y [<-|Hy]; [|now apply H1].
      rewrite H2 by exact Hx. rewrite nth_upd by (apply Hr; now left).
      now rewrite Nat.eqb_refl.
    + intros j Hj. cbn in Hj. rewrite H2 by tauto.
      rewrite nth_upd by (apply Hr; now left).
      destruct (Nat.eqb_spec j (g x)); [subst; tauto|reflexivity].
Qed.

(* A loop whose body cannot change anything but accumulates: fold *)
Lemma forM_pure A S (l : list A) (f : S -> A -> S) s :
  forM l (fun s x => Ret (f s x)) s = Ret (fold_left f l s).
Proof. revert s; induction l as [|x t IH]; intros s; cbn; auto. Qed.

Lemma b8_small n : n < 256 -> b8 n = n.
Proof. intros H. unfold b8. now apply Nat.mod_small. Qed.

Lemma b8_lt n : b8 n < 256.
Proof. unfold b8. apply Nat.mod_upper_bound. discriminate. Qed.

Lemma as_int_ok z : (int_min <= z <= int_max)%Z -> as_int z = Ret z.
Proof.
  intros [H1 H2]. unfold as_int.
  apply Z.leb_le in H1. apply Z.leb_le in H2. now rewrite H1, H2.
Qed.

Lemma nth_ext_d A (l1 l2 : list A) d : length l1 = length l2 ->
  (forall i, i < length l1 -> nth i l1 d = nth i l2 d) -> l1 = l2.
Proof.
  revert l2; induction l1 as [|a t IH]; intros [|b u] HL H; cbn in *; try lia; auto.
  f_equal. { apply (H 0). lia. }
  apply IH; [lia|]. intros i Hi. apply (H (S i)). lia.
Qed.

Lemma NoDup_map_inj A B (f : A -> B) l :
  (forall x y, In x l -> In y l -> f x = f y -> x = y) -> NoDup l -> NoDup (map f l).
Proof.
  induction l as [|a t IH]; intros Hi Hn; cbn; [constructor|].
  inversion Hn; subst. constructor.
  - rewrite in_map_iff. intros (y & E & Hy).
    apply Hi in E; [subst; contradiction|now right|now left].
  - apply IH; auto. intros x y Hx Hy. apply Hi; now right.
Qed.

Lemma NoDup_app_iff A (l1 l2 : list A) :
  NoDup (l1 ++ l2) <-> NoDup l1 /\ NoDup l2 /\ forall x, In x l1 -> ~ In x l2.
Proof.
  induction l1 as [|a t IH]; cbn.
  - split; [intros H; repeat split; auto; constructor|tauto].
  - rewrite !NoDup_cons_iff, IH, in_app_iff. split.
    + intros (H1 & H2 & H3 & H4). repeat split; auto. intros x [<-|Hx]; auto.
    + intros ((H1 & H2) & H3 & H4). repeat split; auto.
      intros [H|H]; [contradiction|]. exact (H4 a (or_introl eq_refl) H).
Qed.

(* Solve permutation goals between lists of nat built from ++ and ::. *)
Ltac perm_nat :=
  apply (proj2 (Permutation_count_occ Nat.eq_dec _ _)); intros ?;
  repeat first [ rewrite concat_app | rewrite count_occ_app | progress cbn [concat app count_occ] ];
  repeat match goal with |- context [Nat.eq_dec ?a ?b] => destruct (Nat.eq_dec a b) end;
  lia.
