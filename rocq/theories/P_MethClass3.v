(* P_MethClass3.v - methclass finds the kind, and there is only one. *)
From Verif Require Import Base M_Bell M_Change M_Math M_Row M_PN M_Method M_MethClass Spec_Row Spec_Change Spec_Cycle Spec_PN Spec_Method Spec_MethClass
  P_Math P_Row P_Bell P_Change P_Change2 P_Change3 P_Cycle P_Order P_PN P_Format P_Method P_Method2 P_MethClass P_MethClass2.
Set Implicit Arguments.
Unset Strict Implicit.
Open Scope nat_scope.

Lemma least_unique n P p q : least_below n P p -> least_below n P q -> p = q.
Proof.
  intros (A & B & C) (A' & B' & C'). destruct (lt_eq_lt_dec p q) as [[D|D]|D]; [|exact D|].
  - exfalso. now apply (C' p).
  - exfalso. now apply (C q).
Qed.
Lemma covers_unique L x lo hi lo' hi' : covers L x lo hi -> covers L x lo' hi' -> lo = lo' /\ hi = hi'.
Proof.
  intros ((a & A) & (b & B) & C) ((a' & A') & (b' & B') & C').
  assert (X1 := C a'). assert (X2 := C b'). assert (X3 := C' a). assert (X4 := C' b). lia.
Qed.

Section M.
Variable m : method.
Hypothesis WF : wf_method m.
Let L := mch m.
Let n := length L.
Let nb := mb m.

Lemma path_near x t k : path L x (t + k) <= path L x t + k /\ path L x t <= path L x (t + k) + k.
Proof.
  induction k as [|k IH]; [rewrite Nat.add_0_r; lia|]. rewrite Nat.add_succ_r. cbn [path]. fold n.
  destruct (nth_error L ((t + k) mod n)) as [c|] eqn:E; [|lia]. destruct (m_change WF E) as [_ W].
  destruct (swap_pos_cases (path L x (t + k)) W) as [[X E']|[(j & Ej & X & E')|(_ & _ & E')]]; rewrite E'; lia.
Qed.
Lemma covers_narrow x lo hi : hunt_bell L x -> 0 < n -> covers L x lo hi -> hi - lo + 1 <= n.
Proof.
  intros H N ((a & A) & (b & B) & C). assert (PM : forall t, path L x t = path L x (t mod n)) by (intros t; exact (path_mod t H N)). rewrite PM in A, B.
  assert (Ha := Nat.mod_upper_bound a n ltac:(lia)). assert (Hb := Nat.mod_upper_bound b n ltac:(lia)).
  set (a' := a mod n) in *. set (b' := b mod n) in *. destruct (le_lt_dec a' b') as [D|D].
  - assert (X := path_near x a' (b' - a')). replace (a' + (b' - a')) with b' in X by lia. lia.
  - assert (X := path_near x b' (a' - b')). replace (b' + (a' - b')) with a' in X by lia. lia.
Qed.
(* a bell that stays where it is and makes two places is plain hunting *)
Lemma still_plain x lo : covers L x lo lo -> places_made L x n = 2 -> plain_hunts L x.
Proof.
  intros (_ & _ & C) P. split; [exact P|]. intros k _. left. assert (A := C k). assert (B := C (k + 1)). lia.
Qed.
Lemma sections_exist x lo hi : hunt_bell L x -> 0 < n -> Nat.even n = true -> covers L x lo hi -> ~ plain_hunts L x ->
  places_made L x n = 2 -> hi <> lo + 1 -> 0 < n / (hi - lo + 1) < n / 2.
Proof.
  intros H N Ev C NP P2 D. assert (W := covers_narrow H N C). assert (E := even_half Ev).
  assert (lo <= hi) by (assert (X := proj2 (proj2 C) 0); lia).
  assert (hi <> lo) by (intros ->; apply NP; exact (still_plain C P2)).
  assert (Z : 0 < n / (hi - lo + 1)) by (apply Nat.div_str_pos; lia). split; [exact Z|].
  assert (Y := Nat.mul_div_le n (hi - lo + 1) ltac:(lia)). nia.
Qed.

Lemma one_kind year k k' : of_kind L nb year k -> of_kind L nb year k' -> k = k'.
Proof.
  assert (PR : forall x, treble L nb x -> (forall y, y < nb -> ~ hunt_bell L y) -> False).
  { intros x (A & B & _) H. exact (H x A B). }
  assert (SEC : forall x lo hi, treble L nb x -> palindromic_path L x -> covers L x lo hi -> ~ plain_hunts L x ->
    places_made L x n = 2 -> hi <> lo + 1 -> exists c, section_change L lo hi c).
  { intros x lo hi T [Ev _] C NP P2 D. destruct (Nat.eq_dec n 0) as [Z|Z].
    - exfalso. rewrite Z in P2. discriminate P2.
    - destruct (@sections_exist x lo hi) as [S1 S2]; auto; [apply T|lia|]. assert (E := even_half Ev).
      assert (Q : n / 2 <= n) by (apply Nat.div_le_upper_bound; lia).
      destruct (@nth_error_some _ L (n / (hi - lo + 1) - 1)) as (c & Ec); [fold n; lia|].
      exists c, 1, (n / (hi - lo + 1) - 1). fold n. rewrite Nat.mul_1_l. repeat split; auto; lia. }
  destruct k, k'; intros H H'; try reflexivity; exfalso; cbn [of_kind] in H, H';
  repeat match goal with
  | H : exists _, _ |- _ => destruct H
  | H : _ /\ _ |- _ => destruct H
  end;
  repeat match goal with
  | A : treble L nb ?x, B : treble L nb ?y |- _ => tryif constr_eq x y then fail else (assert (x = y) by exact (least_unique A B); subst y; clear B)
  end;
  try (eapply PR; eassumption);
  repeat match goal with
  | A : covers L ?x ?lo ?hi, B : covers L ?x ?lo' ?hi' |- _ =>
      tryif constr_eq A B then fail else (destruct (covers_unique A B); subst lo' hi'; clear B)
  end;
  repeat match goal with
  | H : _ \/ _ |- _ => destruct H
  end;
  repeat match goal with
  | H : _ /\ _ |- _ => destruct H
  end;
  try contradiction; try lia;
  try match goal with
  | A : forall y, y < nb -> ~ dodges L y, B : ?x < nb, C : dodges L ?x |- _ => exact (A x B C)
  | A : forall c, section_change _ _ _ c -> ~ internal_place c, B : section_change _ _ _ ?c, C : internal_place ?c |- _ => exact (A c B C)
  | A : forall c, section_change _ _ _ c -> internal_place c, B : section_change _ _ _ ?c, C : ~ internal_place ?c |- _ => exact (C (A c B))
  end;
  try match goal with
  | A : treble L nb ?x, B : palindromic_path L ?x, C : covers L ?x ?lo ?hi, D : ~ plain_hunts L ?x, E : places_made L ?x _ = 2, F : ?hi <> ?lo + 1 |- _ =>
     destruct (SEC x lo hi A B C D E F) as (c & Hc)
  end; try (match goal with A : forall c, section_change _ _ _ c -> ~ internal_place c, B : forall c, section_change _ _ _ c -> internal_place c |- _ => eapply A; [exact Hc|]; eapply B; exact Hc end).
Qed.
End M.
