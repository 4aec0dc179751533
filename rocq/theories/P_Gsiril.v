(* P_Gsiril.v - what every run of the interpreter preserves: one induction for all relations
   between states that the elementary updates respect. *)
From Verif Require Import Base M_Bell M_Change M_Row M_Method M_Proof M_Dim M_Names M_Library M_Gsiril Spec_Proof Spec_Gsiril.
Set Implicit Arguments.
Unset Strict Implicit.
Open Scope nat_scope.

Definition pres {A} (R : st -> st -> Prop) (m : M A) : Prop := forall s s' v, m s = Ret (s', v) -> R s s'.

Lemma mbind_inv A B (m : M A) (f : A -> M B) s s' v : mbind m f s = Ret (s', v) ->
  (exists s1 a, m s = Ret (s1, inl a) /\ f a s1 = Ret (s', v)) \/
  (exists x, m s = Ret (s', inr x) /\ v = inr x).
Proof.
  unfold mbind. destruct (m s) as [[s1 [a|x]]| | |] eqn:E; try discriminate.
  - intros H. left. now exists s1, a.
  - intros H. inversion H; subst. right. now exists x.
Qed.

Section Pres.
Variable c : cfg.
Variable R : st -> st -> Prop.
Hypothesis Rrefl : forall s, R s s.
Hypothesis Rtrans : forall a b d, R a b -> R b d -> R a d.
Hypothesis Rcount : forall x g, (g_nodes g + 2)%Z <> c_limit c -> R (mkSt x g) (mkSt x (mkGlob (g_syms g) (g_nodes g + 2)%Z (g_out g))).
Hypothesis Rdsyms : forall x g d, R (mkSt x g) (mkSt (set_dsyms x d) g).
Hypothesis Rsilent : forall x g b, R (mkSt x g) (mkSt (set_silent x b) g).
Hypothesis Rsave : forall x g t, x_parent x = None -> R (mkSt x g) (mkSt x (mkGlob t (g_nodes g) (g_out g))).
Hypothesis Remit : forall x g t par,
  (match x_parent x with Some b => if par : bool then b else can_write x | None => can_write x end) = true ->
  R (mkSt x g) (mkSt x (mkGlob (g_syms g) (g_nodes g) (g_out g ++ t))).
Hypothesis Rring : forall x g r bs, x_proving x = true -> moved (x_r x) r ->
  R (mkSt x g) (mkSt (set_seen (set_r x r) (fst (add_row (x_p x) r)) (x_mus x ++ [(r, bs)])) g).
Hypothesis Rring0 : forall x g r, x_proving x = false -> R (mkSt x g) (mkSt (set_r x r) g).
Hypothesis Rended : forall x g, R (mkSt x g) (mkSt (set_ended x) g).
Hypothesis Rclone : forall x g x' g', R (mkSt (clone x) g) (mkSt x' g') -> R (mkSt x g) (mkSt x g').

Lemma pres_ret A (a : A) : pres R (ret a).
Proof. intros s s' v H. inversion H; subst. apply Rrefl. Qed.
Lemma pres_raise A x : pres R (@raise A x).
Proof. intros s s' v H. inversion H; subst. apply Rrefl. Qed.
Lemma pres_err A : pres R (@err A).
Proof. intros s s' v H. discriminate. Qed.
Lemma pres_lift A (o : outcome A) : pres R (lift o).
Proof. intros s s' v H. unfold lift in H. destruct o; inversion H; subst. apply Rrefl. Qed.
Lemma pres_getx : pres R getx.
Proof. intros s s' v H. inversion H; subst. apply Rrefl. Qed.
Lemma pres_getg : pres R getg.
Proof. intros s s' v H. inversion H; subst. apply Rrefl. Qed.
Lemma pres_bind A B (m : M A) (f : A -> M B) : pres R m -> (forall a, pres R (f a)) -> pres R (mbind m f).
Proof.
  intros H1 H2 s s' v H. apply mbind_inv in H as [(s1 & a & E1 & E2)|(x & E & ->)].
  - eapply Rtrans; [eapply H1, E1|eapply H2, E2].
  - eapply H1, E.
Qed.
Lemma pres_catch A (m : M A) h : pres R m -> (forall x, pres R (h x)) -> pres R (catch m h).
Proof.
  intros H1 H2 s s' v H. unfold catch in H. destruct (m s) as [[s1 [a|x]]| | |] eqn:E; try discriminate.
  - inversion H; subst. eapply H1, E.
  - eapply Rtrans; [eapply H1, E|eapply H2, H].
Qed.
Lemma pres_in_clone A (m : M A) : pres R m -> pres R (in_clone m).
Proof.
  intros H1 [x g] s' v H. unfold in_clone in H. cbn [s_x s_g] in H.
  destruct (m (mkSt (clone x) g)) as [[[x1 g1] w]| | |] eqn:E; try discriminate.
  cbn [s_g] in H. inversion H; subst. eapply Rclone, H1, E.
Qed.
Lemma pres_lookup n : pres R (lookup n).
Proof. intros s s' v H. unfold lookup in H. destruct (find_sym s n); inversion H; subst. apply Rrefl. Qed.
Lemma pres_defined n : pres R (defined n).
Proof. intros s s' v H. inversion H; subst. apply Rrefl. Qed.
Lemma pres_define n v : pres R (define n v).
Proof. intros [x g] s' w H. inversion H; subst. cbn. apply Rdsyms. Qed.
Lemma pres_silent b : pres R (modx (fun x => set_silent x b)).
Proof. intros [x g] s' w H. inversion H; subst. cbn. apply Rsilent. Qed.
Lemma pres_ended : pres R (modx set_ended).
Proof. intros [x g] s' w H. inversion H; subst. cbn. apply Rended. Qed.
Lemma pres_scoped A n (m : M A) : pres R m -> pres R (scoped n m).
Proof.
  intros H1 s s' v H. unfold scoped, finally in H.
  destruct (m s) as [[[x g] w]| | |] eqn:E; try discriminate. inversion H; subst.
  eapply Rtrans; [eapply H1, E|]. cbn. apply Rdsyms.
Qed.
Lemma pres_count : pres R (count c).
Proof.
  intros [x g] s' v H. unfold count, mbind, getg in H. cbn [s_g] in H.
  destruct (Z.eqb_spec (g_nodes g + 2) (c_limit c)) as [E|E]; [discriminate|]. inversion H; subst. cbn. now apply Rcount.
Qed.
Lemma pres_save n : pres R (save n).
Proof.
  intros [x g] s' v H. unfold save in H. unfold mbind at 1, getx in H. cbn [s_x] in H.
  destruct (x_parent x) eqn:P; [inversion H; subst; apply Rrefl|].
  unfold mbind, lookup in H. destruct (find_sym _ n); [|discriminate]. inversion H; subst. cbn. apply Rsave. exact P.
Qed.
Lemma pres_emit t par : pres R (emit t par).
Proof.
  intros [x g] s' v H. unfold emit, mbind, getx in H. cbn [s_x] in H.
  match type of H with (if ?b then _ else _) _ = _ => destruct b eqn:W end.
  - inversion H; subst. cbn. eapply Remit, W.
  - inversion H; subst. apply Rrefl.
Qed.

Variable rec : forall A, ask A -> M A.
Arguments rec {A} _.
Hypothesis Hrec : forall A (q : ask A), pres R (rec q).

Local Ltac pp1 := first
  [ apply pres_ret | apply pres_raise | apply pres_err | apply pres_lift | apply pres_getx | apply pres_getg
  | apply Hrec | apply pres_lookup | apply pres_defined | apply pres_define | apply pres_silent | apply pres_ended
  | apply pres_count | apply pres_save | apply pres_emit
  | apply pres_bind; [|intros ?] | apply pres_catch; [|intros ?] | apply pres_in_clone | apply pres_scoped
  | progress cbv beta iota zeta
  | match goal with |- pres R (match ?x with _ => _ end) => destruct x end
  | assumption ].
Local Ltac pp := repeat pp1.

Lemma pres_exec_symbol n fwd : pres R (exec_symbol (@rec) n fwd).
Proof. unfold exec_symbol. pp. Qed.
Lemma pres_everyrow : pres R (exec_everyrow c (@rec)).
Proof. unfold exec_everyrow. pp; apply pres_exec_symbol. Qed.

(* the row is moved and, when proving, added *)
Lemma moved_and_proved x g r bs s' v : moved (x_r x) r -> prove_row c (@rec) bs (mkSt (set_r x r) g) = Ret (s', v) -> R (mkSt x g) s'.
Proof.
  intros MV. unfold prove_row at 1. unfold mbind at 1, getx at 1. cbn [s_x set_r x_proving x_p x_r].
  destruct (x_proving x) eqn:P; cbn [negb].
  - destruct (add_row (x_p x) r) as [p' rv] eqn:E. unfold mbind at 1, modx at 1. cbn [s_x s_g set_r x_mus x_r].
    match goal with |- ?m ?s = _ -> _ =>
      intros H; apply Rtrans with s; [|revert H; match goal with |- m s = Ret (?s', ?v) -> _ => generalize s', v end]
    end.
    + replace p' with (fst (add_row (x_p x) r)) by now rewrite E. apply (@Rring _ _ _ _ P MV).
    + intros s1 w. match goal with |- ?m ?s = _ -> _ => cut (pres R m) end; [intros Q H; eapply Q, H|].
      pp; try apply pres_everyrow; try apply pres_exec_symbol.
  - intros H. inversion H; subst. apply Rring0, P.
Qed.
Lemma pres_ring_change ch bs : pres R (ring_change c (@rec) ch bs).
Proof.
  intros [x g] s' v H. unfold ring_change in H. unfold mbind at 1, getx at 1 in H. cbn [s_x] in H.
  unfold mbind at 1, lift at 1 in H. destruct (row_mul_change _ _) as [r| | |] eqn:ER; try discriminate.
  unfold mbind, modx in H. cbn [s_x s_g] in H. eapply moved_and_proved, H. left. eauto.
Qed.
Lemma pres_ring_row t : pres R (ring_row c (@rec) t).
Proof.
  intros [x g] s' v H. unfold ring_row in H. unfold mbind at 1, getx at 1 in H. cbn [s_x] in H.
  unfold mbind at 1, lift at 1 in H. destruct (mul _ _) as [r| | |] eqn:ER; try discriminate.
  unfold mbind at 1, modx at 1 in H. cbn [s_x s_g] in H.
  apply mbind_inv in H as [(s1 & a & E1 & E2)|(y & E & ->)].
  - inversion E2; subst. eapply moved_and_proved, E1. right. eauto.
  - eapply moved_and_proved, E. right. eauto.
Qed.
Lemma pres_ring cs : forall bs, pres R (ring c (@rec) cs bs).
Proof. induction cs as [|ch cs IH]; intros bs; cbn [ring]; [pp|]. apply pres_bind; [apply pres_ring_change|intros b; apply IH]. Qed.

Lemma pres_subst ps : forall acc ex nn, pres R (subst c (@rec) ps acc ex nn).
Proof. induction ps as [|p ps IH]; intros acc ex nn; cbn [subst]; pp; apply IH. Qed.
Lemma pres_string_eval t i p n ab : pres R (string_eval c (@rec) t i p n ab).
Proof. unfold string_eval. pp. apply pres_subst. Qed.
Lemma pres_merge a b : pres R (merge_pn (@rec) a b).
Proof. unfold merge_pn. pp. Qed.
Lemma pres_call_eval n args : pres R (call_eval (@rec) n args).
Proof. unfold call_eval. pp. Qed.
Lemma pres_both_int l r : pres R (both_int (@rec) l r).
Proof. unfold both_int. pp. Qed.
Local Ltac pq := repeat first [apply pres_call_eval | apply pres_both_int | apply pres_merge | apply pres_string_eval
  | apply pres_exec_symbol | apply pres_ring | apply pres_ring_row | pp1 ].
Lemma pres_int e : pres R (int_impl c (@rec) e).
Proof. destruct e; unfold int_impl; pq. Qed.
Lemma pres_cmp o l r : pres R (cmp_bool (@rec) o l r).
Proof. unfold cmp_bool. pq. Qed.
Lemma pres_bool e : pres R (bool_impl c (@rec) e).
Proof. destruct e; unfold bool_impl; pq. Qed.
Lemma pres_str e : pres R (str_impl c (@rec) e).
Proof. destruct e; unfold str_impl; pq; try apply pres_int. Qed.
Lemma pres_pn e : pres R (pn_impl (@rec) e).
Proof. destruct e; unfold pn_impl; pq. Qed.
Lemma pres_eval e : pres R (eval_impl c (@rec) e).
Proof. destruct e; unfold eval_impl; pq; try first [apply pres_int|apply pres_bool|apply pres_str]. Qed.
Lemma pres_exec e fwd : pres R (exec_impl c (@rec) e fwd).
Proof. destruct e; unfold exec_impl; unfold condition; pq; try first [apply pres_int|apply pres_bool|apply pres_str]. Qed.
Lemma pres_arr e : pres R (arr_impl (@rec) e).
Proof. destruct e; unfold arr_impl; pq. Qed.
Lemma pres_repl e m : pres R (repl_impl (@rec) e m).
Proof. destruct e; unfold repl_impl; pq. Qed.
Lemma pres_type e : pres R (type_impl (@rec) e).
Proof. destruct e; unfold type_impl; pq. Qed.
Lemma pres_name e : pres R (name_impl (@rec) e).
Proof. destruct e; unfold name_impl; pq. Qed.
Lemma pres_load t : pres R (load_method c (@rec) t).
Proof. unfold load_method. pq. Qed.
Lemma pres_all_pn args : pres R (all_pn (@rec) args).
Proof. induction args as [|a args IH]; cbn [all_pn]; pq. Qed.
Lemma pres_call f args : pres R (call_fn c (@rec) f args).
Proof.
  destruct f; unfold call_fn; destruct args as [|a [|b [|d args]]]; pq; try apply pres_load; try apply pres_all_pn.
Qed.
Lemma pres_step A (q : ask A) : pres R (step c (@rec) q).
Proof.
  destruct q; unfold step; pp;
    first [apply pres_exec|apply pres_eval|apply pres_bool|apply pres_int|apply pres_str|apply pres_pn|apply pres_arr
          |apply pres_repl|apply pres_call|apply pres_type|apply pres_name].
Qed.
End Pres.

Section PresRun.
Variable c : cfg.
Variable R : st -> st -> Prop.
Hypothesis Rrefl : forall s, R s s.
Hypothesis Rtrans : forall a b d, R a b -> R b d -> R a d.
Hypothesis Rcount : forall x g, (g_nodes g + 2)%Z <> c_limit c -> R (mkSt x g) (mkSt x (mkGlob (g_syms g) (g_nodes g + 2)%Z (g_out g))).
Hypothesis Rdsyms : forall x g d, R (mkSt x g) (mkSt (set_dsyms x d) g).
Hypothesis Rsilent : forall x g b, R (mkSt x g) (mkSt (set_silent x b) g).
Hypothesis Rsave : forall x g t, x_parent x = None -> R (mkSt x g) (mkSt x (mkGlob t (g_nodes g) (g_out g))).
Hypothesis Remit : forall x g t par,
  (match x_parent x with Some b => if par : bool then b else can_write x | None => can_write x end) = true ->
  R (mkSt x g) (mkSt x (mkGlob (g_syms g) (g_nodes g) (g_out g ++ t))).
Hypothesis Rring : forall x g r bs, x_proving x = true -> moved (x_r x) r ->
  R (mkSt x g) (mkSt (set_seen (set_r x r) (fst (add_row (x_p x) r)) (x_mus x ++ [(r, bs)])) g).
Hypothesis Rring0 : forall x g r, x_proving x = false -> R (mkSt x g) (mkSt (set_r x r) g).
Hypothesis Rended : forall x g, R (mkSt x g) (mkSt (set_ended x) g).
Hypothesis Rclone : forall x g x' g', R (mkSt (clone x) g) (mkSt x' g') -> R (mkSt x g) (mkSt x g').

Theorem run_pres fuel : forall A (q : ask A), pres R (gs_run c fuel q).
Proof.
  induction fuel as [|n IH]; intros A q; [intros s s' v H; discriminate|].
  cbn [gs_run]. apply pres_step; assumption.
Qed.
Lemma symbol_pres fuel n fwd : pres R (exec_symbol (@gs_run c fuel) n fwd).
Proof. apply pres_exec_symbol; try assumption. apply run_pres. Qed.
Lemma body_pres fuel e : pres R (prove_body c fuel e).
Proof.
  unfold prove_body. apply pres_bind; try assumption; [apply symbol_pres|intros _].
  apply pres_bind; try assumption; [apply run_pres|intros _]. apply symbol_pres.
Qed.
Lemma final_pres fuel n : pres R (final c fuel n).
Proof. unfold final. apply pres_catch; try assumption; [apply symbol_pres|intros _]. now apply pres_ret. Qed.
End PresRun.
