(* P_Gsiril5.v - the symbols of the standard initialisation file, apps/gsiril/init/gsiril.init. *)
From Verif Require Import Base M_Bell M_Change M_Row M_Method M_Proof M_Dim M_Names M_Library M_Gsiril P_Bell Spec_Proof P_Proof P_Proof2 P_Gsiril Spec_Gsiril P_Gsiril2 P_Gsiril3 P_Gsiril4.
Set Implicit Arguments.
Unset Strict Implicit.
Open Scope nat_scope.

Definition plain (t : text) : Prop := ~ In (chr "\") t.
Lemma plain_app a b : plain a -> plain b -> plain (a ++ b).
Proof. intros H1 H2 H. apply in_app_or in H as [H|H]; auto. Qed.
Lemma escapes_fuel n t : plain t -> length t < n -> string_escapes n t = Ret t.
Proof.
  revert t. induction n as [|n IH]; intros t P L; [lia|]. destruct t as [|a t]; [reflexivity|].
  cbn [string_escapes]. destruct (Ascii.eqb a (chr "\")) eqn:E.
  - apply Ascii.eqb_eq in E. subst. elim P. now left.
  - cbn in L. rewrite IH; [reflexivity| |lia]. intros Q. apply P. now right.
Qed.
Lemma escapes_plain t : plain t -> escapes t = Ret t.
Proof. intros P. apply escapes_fuel; [exact P|lia]. Qed.

Lemma print_int_plain z : plain (print_int z).
Proof.
  assert (K : forall n, plain (print_nat n)).
  { intros n H. assert (D : forallb is_digit (print_nat n) = true) by (apply print_nat_f_digits; reflexivity).
    rewrite forallb_forall in D. apply D in H. discriminate. }
  unfold print_int. destruct (z <? 0)%Z; [|apply K]. intros [H|H]; [discriminate|]. now apply (K _ H).
Qed.

(* nothing but the count of nodes and the output changes *)
Definition calm (s s' : st) : Prop :=
  s_x s' = s_x s /\ g_syms (s_g s') = g_syms (s_g s) /\ (g_nodes (s_g s) <= g_nodes (s_g s'))%Z.
Lemma calm_refl s : calm s s.
Proof. repeat split; lia. Qed.
Lemma calm_trans a b d : calm a b -> calm b d -> calm a d.
Proof. intros (A1 & A2 & A3) (B1 & B2 & B3). repeat split; try congruence; lia. Qed.
Lemma calm_sees look s s' : calm s s' -> sees look s -> sees look s'.
Proof. intros (A1 & A2 & _) H n D. unfold find_sym. rewrite A1, A2. now apply H. Qed.
Lemma calm_bump s : calm s (bump s).
Proof. repeat split; cbn; lia. Qed.

Section Hooks.
Variables (c : cfg) (look : text -> option expr).
Hypothesis Hlim : (c_limit c <= 0)%Z.
Hypothesis Hshow : forall r t, c_show c r = Some t -> plain t.

Definition ok (s : st) : Prop := sees look s /\ (0 <= g_nodes (s_g s))%Z.
Lemma ok_calm s s' : ok s -> calm s s' -> ok s'.
Proof. intros [H1 H2] H. split; [eapply calm_sees; eauto|destruct H as (_ & _ & H); lia]. Qed.

(* pieces that cannot fail, given that symbols in a set can be read as plain strings *)
Definition readable (n : text) (N : nat) : Prop := forall fuel s, N <= fuel -> ok s ->
  exists e t s' b, lookup n s = Ret (s, inl e) /\ plain t /\
    in_clone (gs_run c fuel (QStr e)) s = Ret (s', inl (t, b)) /\ calm s s'.
Definition benign (N : nat) (p : piece) : Prop :=
  match p with PCh a => a <> chr "\" | PVar n => readable n N | PEsc _ | PBad => False | _ => True end.
Definition exits (p : piece) : bool := match p with PExit => true | _ => false end.
Definition rowless (p : piece) : Prop := match p with PRow => False | _ => True end.
Definition definite (ps : list piece) : Prop := Forall rowless ps \/ existsb exits ps = false.
Lemma definite_tl p ps : definite (p :: ps) -> definite ps.
Proof. intros [H|H]; [left; now inversion H|right]. cbn in H. now apply orb_false_iff in H. Qed.


Lemma subst_ok N ps : Forall (benign N) ps -> forall fuel s acc ex nn, N <= fuel -> ok s -> plain acc ->
  exists s' t ex' nn', subst c (@gs_run c fuel) ps acc ex nn s = Ret (s', inl (t, ex', nn')) /\ plain t /\ calm s s' /\
    (definite ps -> ex' = ex || existsb exits ps).
Proof.
  intros H. induction H as [|p ps B H IH]; intros fuel s acc ex nn L O P.
  - exists s, acc, ex, nn. split; [reflexivity|]. split; [exact P|]. split; [apply calm_refl|]. intros _. cbn. now rewrite orb_false_r.
  - assert (K : forall acc' ex' nn', plain acc' -> ex' = ex || exits p ->
      exists s' t e1 n1, subst c (@gs_run c fuel) ps acc' ex' nn' s = Ret (s', inl (t, e1, n1)) /\ plain t /\ calm s s' /\
        (definite (p :: ps) -> e1 = ex || existsb exits (p :: ps))).
    { intros acc' ex' nn' P' E. destruct (IH fuel s acc' ex' nn' L O P') as (s' & t & e1 & n1 & Q1 & Q2 & Q3 & Q4).
      exists s', t, e1, n1. split; [exact Q1|]. split; [exact Q2|]. split; [exact Q3|].
      intros R. cbn. rewrite Q4 by (eapply definite_tl, R). rewrite E. now rewrite orb_assoc. }
    cbn [subst]. rewrite (@mb_ret _ _ getx _ s s (s_x s) eq_refl).
    destruct p as [a| |n| | | | |a|]; cbn [benign] in B.
    + apply K; [|cbn; now rewrite orb_false_r]. apply plain_app; [exact P|]. intros [Q|[]]. congruence.
    + destruct (c_show c (x_r (s_x s))) as [t|] eqn:E.
      * apply K; [|cbn; now rewrite orb_false_r]. apply plain_app; [exact P|]. eapply Hshow, E.
      * exists s, [], ex, nn. split; [reflexivity|]. split; [intros []|]. split; [apply calm_refl|].
        intros [R|R]; [inversion R; subst; contradiction|]. rewrite R. now rewrite orb_false_r.
    + destruct (B fuel s L O) as (e & t & s' & b & Q1 & Q2 & Q3 & Q4).
      rewrite (mb_ret _ Q1), (mb_ret _ Q3).
      destruct (IH fuel s' (acc ++ t) ex nn L (ok_calm O Q4) (plain_app P Q2)) as (s2 & t2 & e2 & n2 & R1 & R2 & R3 & R4).
      exists s2, t2, e2, n2. split; [exact R1|]. split; [exact R2|]. split; [eapply calm_trans; eauto|].
      intros R. cbn. apply R4. eapply definite_tl, R.
    + apply K; [apply plain_app; [exact P|apply print_int_plain]|cbn; now rewrite orb_false_r].
    + apply K; [apply plain_app; [exact P|apply print_int_plain]|cbn; now rewrite orb_false_r].
    + apply K; [exact P|cbn; now rewrite orb_true_r].
    + apply K; [exact P|cbn; now rewrite orb_false_r].
    + contradiction.
    + contradiction.
Qed.

Lemma emit_calm t par s : exists s', emit t par s = Ret (s', inl tt) /\ calm s s'.
Proof.
  unfold emit. rewrite (@mb_ret _ _ getx _ s s (s_x s) eq_refl).
  match goal with |- context [if ?b then _ else _] => destruct b end; eexists; (split; [reflexivity|]); repeat split; cbn; lia.
Qed.

Lemma exec_plain t nn ab fuel fwd s : ok s -> plain t -> exists s',
  gs_run c (S fuel) (QExec (EString t false false nn ab) fwd) s = Ret (s', if ab then inr SAbort else inl tt) /\ calm s s'.
Proof.
  intros [O1 O2] P. rewrite (@run_exec c _ _ fwd s Hlim O2). unfold exec_impl.
  rewrite (@mb_ret _ _ (lift (escapes t)) _ (bump s) (bump s) t) by (unfold lift; now rewrite escapes_plain).
  destruct (emit_calm t false (bump s)) as (s1 & E1 & C1). rewrite (mb_ret _ E1).
  assert (K : exists s2, (if nn then ret tt else emit [ascii_of_nat 10] false) s1 = Ret (s2, inl tt) /\ calm s1 s2).
  { destruct nn; [exists s1; split; [reflexivity|apply calm_refl]|apply emit_calm]. }
  destruct K as (s2 & E2 & C2). rewrite (mb_ret _ E2). exists s2. split; [now destruct ab|].
  eapply calm_trans; [apply calm_bump|]. eapply calm_trans; eauto.
Qed.

Lemma exec_str N t fwd fuel s : Forall (benign N) (pieces (length t) (c_msiril c) t) -> N <= fuel -> ok s ->
  exists s' v, gs_run c (S (S fuel)) (QExec (EString t true false false false) fwd) s = Ret (s', v) /\ calm s s' /\
    (definite (pieces (length t) (c_msiril c) t) ->
       v = if existsb exits (pieces (length t) (c_msiril c) t) then inr SAbort else inl tt).
Proof.
  intros B L O. destruct O as [O1 O2]. rewrite (@run_exec c _ _ fwd s Hlim O2). unfold exec_impl, string_eval.
  assert (OB : ok (bump s)) by (apply (ok_calm (conj O1 O2)), calm_bump).
  destruct (@subst_ok N _ B (S fuel) (bump s) [] false false) as (s1 & t1 & ex & nn & E & P & C & V); [lia|exact OB|intros []|].
  destruct (@exec_plain t1 nn ex fuel fwd s1 (ok_calm OB C) P) as (s2 & E2 & C2).
  exists s2, (if ex then inr SAbort else inl tt). split; [|split].
  - erewrite mb_ret; [exact E2|]. rewrite (mb_ret _ E). reflexivity.
  - eapply calm_trans; [apply calm_bump|]. eapply calm_trans; eauto.
  - intros R. now rewrite (V R).
Qed.

(* a symbol holding an integer *)
Lemma int_readable n z : n <> str "loop_counter" -> look n = Some (EInt z) -> readable n 1.
Proof.
  intros D E fuel s L O. destruct fuel as [|fuel]; [lia|]. destruct O as [O1 O2].
  exists (EInt z), (print_int z), (bump s), false. split; [|split; [apply print_int_plain|split; [|apply calm_bump]]].
  - unfold lookup. now rewrite (O1 _ D), E.
  - unfold in_clone.
    change (gs_run c (S fuel) (QStr (EInt z))) with (mbind (count c) (fun _ => str_impl c (@gs_run c fuel) (EInt z))).
    erewrite mb_ret; [|apply count_bump; [exact Hlim|exact O2]]. reflexivity.
Qed.
End Hooks.

(* The definitions of gsiril.init; the comma associates to the right (parser.cpp:770-774). *)
Definition lit (s : string) : expr := EString (str s) true false false false.
Definition summary : expr := lit "# rows ending in @".
Definition sum_then (e : expr) : expr := EList (ESym (str "__summary__")) e.
Definition music_report : expr :=
  EList (EAssign (str "__score__") (ECall (str "music") []))
        (EIf (ECmp CGt (ESym (str "__score__")) (EInt 0)) (lit "Music score: ${__score__}") None).
Definition init_file : symbols := [
  (str "__summary__", summary);
  (str "__music__", music_report);
  (str "true", sum_then (EList (lit "Touch is true") (ESym (str "__music__"))));
  (str "notround", sum_then (lit "Is this OK?"));
  (str "false", sum_then (lit "Touch is false in $ rows"));
  (str "tooshort", sum_then (EList (lit "Touch is too short: \") (lit "at least ${min_length} rows expected")));
  (str "toolong", lit "Touch exceeds maximum length of ${max_length} rows$$");
  (str "conflict", sum_then (lit "Touch not completed due to false row$$"));
  (str "rounds", ENop); (str "start", ENop); (str "finish", ENop); (str "abort", ENop); (str "everyrow", ENop)].

(* symbols as they are after reading the file: none of those definitions has been replaced,
   music is the function of functions.cpp:252, and the two lengths are defined if set
   (execution_context.cpp:69-89) *)
Definition standard (c : cfg) (look : text -> option expr) : Prop :=
  (forall n e, In (n, e) init_file -> look n = Some e) /\ look (str "music") = Some (EFn FMusic) /\
  (c_max c <> 0 -> look (str "max_length") = Some (EInt (Z.of_nat (c_max c)))) /\
  (c_min c <> 0 -> look (str "min_length") = Some (EInt (Z.of_nat (c_min c)))).

Section Standard.
Variables (c : cfg) (look : text -> option expr).
Hypothesis Hlim : (c_limit c <= 0)%Z.
Hypothesis Hshow : forall r t, c_show c r = Some t -> plain t.
Hypothesis Hstd : standard c look.

Lemma std n e : In (n, e) init_file -> look n = Some e.
Proof. apply Hstd. Qed.
Ltac infile := cbn; repeat (first [left; reflexivity | right]).

Ltac pieces_plain := match goal with |- Forall _ (pieces ?n ?b ?t) => destruct b; [
     let x := eval vm_compute in (pieces n true t) in change (pieces n true t) with x |
     let x := eval vm_compute in (pieces n false t) in change (pieces n false t) with x ] end;
     repeat constructor; try (cbn; discriminate); try exact I.

Definition runs_to (e : expr) (N : nat) (P : st -> st -> unit + sexn -> Prop) : Prop :=
  forall fuel s, N <= fuel -> ok look s -> exists s' v, gs_run c fuel (QExec e true) s = Ret (s', v) /\ P s s' v.


Lemma look_up n e s : n <> str "loop_counter" -> look n = Some e -> ok look s -> lookup n s = Ret (s, inl e).
Proof. intros D E [O1 O2]. unfold lookup. now rewrite (O1 _ D), E. Qed.
Lemma sym_runs n e N (P : st -> st -> unit + sexn -> Prop) : n <> str "loop_counter" -> look n = Some e -> (forall s s' v, P (bump s) s' v -> P s s' v) ->
  runs_to e N P -> runs_to (ESym n) (S N) P.
Proof.
  intros D E HP H fuel s L O. destruct fuel as [|fuel]; [lia|].
  assert (OB : ok look (bump s)) by (apply (ok_calm O), calm_bump).
  destruct (H fuel (bump s)) as (s' & v & R & Q); [lia|exact OB|].
  exists s', v. split; [|now apply HP]. rewrite (@run_exec c _ _ _ s Hlim (proj2 O)). unfold exec_impl, exec_symbol.
  now rewrite (mb_ret _ (look_up D E OB)).
Qed.
Lemma list_runs a b N (P : st -> st -> unit + sexn -> Prop) : (forall s s1 s' v, calm s s1 -> P s1 s' v -> P s s' v) ->
  runs_to a N (fun s s' v => calm s s' /\ v = inl tt) -> runs_to b N P -> runs_to (EList a b) (S N) P.
Proof.
  intros HP HA HB fuel s L O. destruct fuel as [|fuel]; [lia|].
  assert (OB : ok look (bump s)) by (apply (ok_calm O), calm_bump).
  destruct (HA fuel (bump s)) as (s1 & v1 & R1 & C & ->); [lia|exact OB|].
  destruct (HB fuel s1) as (s2 & v2 & R2 & Q); [lia|eapply ok_calm; eauto|].
  exists s2, v2. split; [|eapply HP; [|exact Q]; eapply calm_trans; [apply calm_bump|exact C]].
  rewrite (@run_exec c _ _ _ s Hlim (proj2 O)). unfold exec_impl. now rewrite (mb_ret _ R1).
Qed.
Lemma lit_runs N t : Forall (benign c look N) (pieces (length (str t)) (c_msiril c) (str t)) ->
  runs_to (lit t) (S (S N)) (fun s s' v => calm s s' /\ (definite (pieces (length (str t)) (c_msiril c) (str t)) ->
    v = if existsb exits (pieces (length (str t)) (c_msiril c) (str t)) then inr SAbort else inl tt)).
Proof.
  intros B fuel s L O. destruct fuel as [|[|fuel]]; try lia.
  destruct (@exec_str c look Hlim Hshow N (str t) true fuel s B) as (s' & v & R & C & V); [lia|exact O|].
  exists s', v. auto.
Qed.
Lemma runs_weaken e N N' (P P' : st -> st -> unit + sexn -> Prop) : N <= N' -> (forall s s' v, P s s' v -> P' s s' v) -> runs_to e N P -> runs_to e N' P'.
Proof. intros L HP H fuel s L' O. destruct (H fuel s) as (s' & v & R & Q); [lia|exact O|]. exists s', v. auto. Qed.

Definition quietly : st -> st -> unit + sexn -> Prop := fun s s' v => calm s s' /\ v = inl tt.
Definition stopping : st -> st -> unit + sexn -> Prop := fun s s' v => calm s s' /\ v = inr SAbort.
Lemma quietly_calm s s1 s' v : calm s s1 -> quietly s1 s' v -> quietly s s' v.
Proof. intros C [H1 H2]. split; [eapply calm_trans; eauto|exact H2]. Qed.
Lemma stopping_calm s s1 s' v : calm s s1 -> stopping s1 s' v -> stopping s s' v.
Proof. intros C [H1 H2]. split; [eapply calm_trans; eauto|exact H2]. Qed.

Lemma lit_quiet N t : Forall (benign c look N) (pieces (length (str t)) (c_msiril c) (str t)) ->
  existsb exits (pieces (length (str t)) (c_msiril c) (str t)) = false -> runs_to (lit t) (S (S N)) quietly.
Proof.
  intros B E. eapply runs_weaken; [apply le_n| |apply (lit_runs B)]. cbn. intros s s' v [C V]. split; [exact C|].
  rewrite V, E; [reflexivity|now right].
Qed.
Lemma lit_stop N t : Forall (benign c look N) (pieces (length (str t)) (c_msiril c) (str t)) ->
  Forall rowless (pieces (length (str t)) (c_msiril c) (str t)) ->
  existsb exits (pieces (length (str t)) (c_msiril c) (str t)) = true -> runs_to (lit t) (S (S N)) stopping.
Proof.
  intros B R E. eapply runs_weaken; [apply le_n| |apply (lit_runs B)]. cbn. intros s s' v [C V]. split; [exact C|].
  rewrite V, E; [reflexivity|now left].
Qed.
Lemma summary_runs : runs_to (ESym (str "__summary__")) 3 quietly.
Proof.
  apply (@sym_runs _ summary); [discriminate|apply std; infile|intros s s' v; apply quietly_calm, calm_bump|].
  apply lit_quiet; [pieces_plain|destruct (c_msiril c); reflexivity].
Qed.
Lemma sum_runs e N (P : st -> st -> unit + sexn -> Prop) : 3 <= N -> (forall s s1 s' v, calm s s1 -> P s1 s' v -> P s s' v) -> runs_to e N P -> runs_to (sum_then e) (S N) P.
Proof. intros L HP H. apply list_runs; [exact HP| |exact H]. eapply runs_weaken; [exact L| |exact summary_runs]. auto. Qed.

Lemma aborts_of n e N : look n = Some e -> runs_to e N stopping -> aborts c look n.
Proof.
  intros E H. exists e, N. split; [exact E|]. intros fuel s L S G.
  destruct (H fuel s L (conj S G)) as (s' & v & R & C & ->). exists s'. split; [exact R|]. eapply calm_sees; eauto.
Qed.
Lemma settles_of n e N P : look n = Some e -> runs_to e N P -> settles c look n.
Proof.
  intros E H. exists e, N. split; [exact E|]. intros fuel s L S G.
  destruct (H fuel s L (conj S G)) as (s' & v & R & _). now exists s', v.
Qed.
Lemma conflict_aborts : aborts c look (str "conflict").
Proof.
  eapply aborts_of; [apply std; infile|]. apply sum_runs with (N := 3); [lia|exact stopping_calm|].
  eapply runs_weaken; [| |apply (@lit_stop 0)]; [lia|auto|pieces_plain|pieces_plain|destruct (c_msiril c); reflexivity].
Qed.
Lemma toolong_aborts : c_max c <> 0 -> aborts c look (str "toolong").
Proof.
  intros Q. eapply aborts_of; [apply std; infile|]. apply (@lit_stop 1).
  - assert (K : readable c look (str "max_length") 1).
    { eapply (@int_readable c look Hlim); [discriminate|]. now apply Hstd. }
    pieces_plain. exact K.
  - pieces_plain.
  - destruct (c_msiril c); reflexivity.
Qed.
Lemma notround_settles : settles c look (str "notround").
Proof.
  eapply settles_of; [apply std; infile|]. apply sum_runs with (N := 3); [lia|exact quietly_calm|].
  eapply runs_weaken; [| |apply (@lit_quiet 0)]; [lia|auto|pieces_plain|destruct (c_msiril c); reflexivity].
Qed.
Lemma abort_settles : settles c look (str "abort").
Proof.
  eapply settles_of with (N := 1) (P := fun _ _ _ => True); [apply std; infile|]. intros fuel s L O. destruct fuel as [|fuel]; [lia|].
  rewrite (@run_exec c _ _ _ s Hlim (proj2 O)). eexists _, _. split; [reflexivity|exact I].
Qed.
Lemma tooshort_settles : c_min c <> 0 -> settles c look (str "tooshort").
Proof.
  intros Q. eapply settles_of; [apply std; infile|]. apply sum_runs with (N := 4); [lia|exact quietly_calm|].
  apply list_runs with (N := 3); [exact quietly_calm| |].
  - eapply runs_weaken; [| |apply (@lit_quiet 0)]; [lia|auto|pieces_plain|destruct (c_msiril c); reflexivity].
  - apply (@lit_quiet 1).
    + assert (K : readable c look (str "min_length") 1).
      { eapply (@int_readable c look Hlim); [discriminate|]. now apply Hstd. }
      pieces_plain. exact K.
    + destruct (c_msiril c); reflexivity.
Qed.

(* with the score assigned *)
Definition scored (n : text) : option expr := if list_ascii_eqb (str "__score__") n then Some (ECall (str "music") []) else look n.
Lemma run_str e n s : (0 <= g_nodes (s_g s))%Z -> gs_run c (S n) (QStr e) s = str_impl c (@gs_run c n) e (bump s).
Proof. intros H. change (mbind (count c) (fun _ => str_impl c (@gs_run c n) e) s = str_impl c (@gs_run c n) e (bump s)).
  now rewrite (mb_ret _ (count_bump Hlim H)). Qed.
Lemma run_bool e n s : (0 <= g_nodes (s_g s))%Z -> gs_run c (S n) (QBool e) s = bool_impl c (@gs_run c n) e (bump s).
Proof. intros H. change (mbind (count c) (fun _ => bool_impl c (@gs_run c n) e) s = bool_impl c (@gs_run c n) e (bump s)).
  now rewrite (mb_ret _ (count_bump Hlim H)). Qed.
Lemma run_call e args n s : (0 <= g_nodes (s_g s))%Z ->
  gs_run c (S n) (QCall e args) s = match e with EFn f => call_fn c (@gs_run c n) f args | _ => err end (bump s).
Proof. intros H. change (mbind (count c) (fun _ => match e with EFn f => call_fn c (@gs_run c n) f args | _ => err end) s = match e with EFn f => call_fn c (@gs_run c n) f args | _ => err end (bump s)).
  now rewrite (mb_ret _ (count_bump Hlim H)). Qed.
Lemma scored_music s : ok scored s -> lookup (str "music") s = Ret (s, inl (EFn FMusic)).
Proof. intros [O _]. unfold lookup. rewrite (O (str "music")) by discriminate. unfold scored. rewrite (@text_eqb_false (str "__score__")) by discriminate. now rewrite (proj1 (proj2 Hstd)). Qed.
Lemma scored_score s : ok scored s -> lookup (str "__score__") s = Ret (s, inl (ECall (str "music") [])).
Proof. intros [O _]. unfold lookup. now rewrite (O (str "__score__")) by discriminate. Qed.
Lemma ok_bump L s : ok L s -> ok L (bump s).
Proof. intros O. apply (ok_calm O), calm_bump. Qed.
Lemma music_call fuel s : ok scored s -> exists s', call_eval (@gs_run c (S fuel)) (str "music") [] s = Ret (s', inl (EInt (c_score c (x_mus (s_x s))))) /\ calm s s'.
Proof.
  intros O. unfold call_eval. rewrite (mb_ret _ (scored_music O)). rewrite run_call by apply O. exists (bump s).
  split; [reflexivity|apply calm_bump].
Qed.
Lemma music_int fuel s : ok scored s -> exists s', gs_run c (S (S (S fuel))) (QInt (ESym (str "__score__"))) s = Ret (s', inl (c_score c (x_mus (s_x s)))) /\ calm s s'.
Proof.
  intros O. rewrite (@run_int c _ _ s Hlim (proj2 O)). cbn [int_impl]. pose proof (ok_bump O) as OB.
  rewrite (mb_ret _ (scored_score OB)). rewrite (@run_int c _ _ _ Hlim (proj2 OB)). cbn [int_impl].
  destruct (@music_call fuel _ (ok_bump OB)) as (s1 & E1 & C1). rewrite (mb_ret _ E1).
  pose proof (ok_calm (ok_bump OB) C1) as O1. rewrite (@run_int c _ _ _ Hlim (proj2 O1)). eexists. split; [reflexivity|].
  eapply calm_trans; [apply calm_bump|]. eapply calm_trans; [apply calm_bump|]. eapply calm_trans; [exact C1|apply calm_bump].
Qed.
Lemma score_type fuel s : ok scored s -> gs_run c (S (S (S fuel))) (QType (ESym (str "__score__"))) s = Ret (s, inl TyInt).
Proof.
  intros O. change (mbind (lookup (str "__score__")) (fun e => gs_run c (S (S fuel)) (QType e)) s = Ret (s, inl TyInt)).
  rewrite (mb_ret _ (scored_score O)).
  change (mbind (lookup (str "music")) (fun e => gs_run c (S fuel) (QType e)) s = Ret (s, inl TyInt)).
  rewrite (mb_ret _ (scored_music O)). reflexivity.
Qed.
Lemma ok_clone L s : ok L s -> ok L (mkSt (clone (s_x s)) (s_g s)).
Proof. intros [O1 O2]. split; [|exact O2]. intros n D. exact (O1 n D). Qed.
Lemma music_cond fuel s : ok scored s -> exists s' b,
  condition (@gs_run c (S (S (S (S fuel))))) (ECmp CGt (ESym (str "__score__")) (EInt 0)) s = Ret (s', inl b) /\ calm s s'.
Proof.
  intros O. set (s0 := mkSt (clone (s_x s)) (s_g s)). pose proof (ok_clone O) as O0. fold s0 in O0.
  assert (K : exists s1 b, gs_run c (S (S (S (S fuel)))) (QBool (ECmp CGt (ESym (str "__score__")) (EInt 0))) s0 = Ret (s1, inl b) /\ calm s0 s1).
  { rewrite run_bool by apply O0. cbn [bool_impl]. unfold cmp_bool. pose proof (ok_bump O0) as OB.
    rewrite (mb_ret _ (score_type _ OB)). rewrite (@mb_ret _ _ _ _ (bump s0) (bump s0) TyInt eq_refl).
    destruct (@music_int fuel _ OB) as (s1 & E1 & C1). rewrite (mb_ret _ E1).
    pose proof (ok_calm OB C1) as O1.
    erewrite mb_ret; [|rewrite (@run_int c _ _ _ Hlim (proj2 O1)); reflexivity]. eexists _, _. split; [reflexivity|].
    eapply calm_trans; [apply calm_bump|]. eapply calm_trans; [exact C1|apply calm_bump]. }
  destruct K as (s1 & b & E & C). exists (mkSt (s_x s) (s_g s1)), b. split.
  - unfold condition, catch, in_clone. fold s0. now rewrite E.
  - destruct C as (_ & C2 & C3). repeat split; assumption.
Qed.
Lemma score_readable : readable c scored (str "__score__") 3.
Proof.
  intros fuel s L O. destruct fuel as [|[|[|fuel]]]; try lia.
  set (s0 := mkSt (clone (s_x s)) (s_g s)). pose proof (ok_clone O) as O0. fold s0 in O0.
  assert (K : exists s1, gs_run c (S (S (S fuel))) (QStr (ECall (str "music") [])) s0 = Ret (s1, inl (print_int (c_score c (x_mus (s_x s0))), false)) /\ calm s0 s1).
  { rewrite run_str by apply O0. cbn [str_impl]. pose proof (ok_bump O0) as OB.
    destruct (@music_call (S fuel) _ OB) as (s1 & E1 & C1). rewrite (mb_ret _ E1).
    pose proof (ok_calm OB C1) as O1. erewrite mb_ret; [|rewrite run_str by apply O1; reflexivity]. eexists. split; [reflexivity|].
    eapply calm_trans; [apply calm_bump|]. eapply calm_trans; [exact C1|apply calm_bump]. }
  destruct K as (s1 & E & C). exists (ECall (str "music") []), (print_int (c_score c (x_mus (s_x s0)))), (mkSt (s_x s) (s_g s1)), false.
  split; [apply scored_score, O|]. split; [apply print_int_plain|]. split.
  - unfold in_clone. fold s0. now rewrite E.
  - destruct C as (_ & C2 & C3). repeat split; assumption.
Qed.
Lemma report_runs : runs_to music_report 7 (fun _ _ _ => True).
Proof.
  intros fuel s L O. destruct fuel as [|[|[|[|[|[|[|fuel]]]]]]]; try lia.
  rewrite (@run_exec c _ _ _ s Hlim (proj2 O)). unfold music_report. cbn [exec_impl]. pose proof (ok_bump O) as OB.
  set (s1 := mkSt (set_dsyms (s_x s) (sym_define (x_dsyms (s_x s)) (str "__score__") (ECall (str "music") []))) (s_g (bump (bump s)))).
  assert (E1 : gs_run c (S (S (S (S (S (S fuel)))))) (QExec (EAssign (str "__score__") (ECall (str "music") [])) true) (bump s) = Ret (s1, inl tt)).
  { rewrite (@run_exec c _ _ _ _ Hlim (proj2 OB)). reflexivity. }
  rewrite (mb_ret _ E1).
  assert (O1 : ok scored s1).
  { pose proof (ok_bump OB) as [OB1 OB2]. split; [|exact OB2]. intros n D. specialize (OB1 n D). unfold scored, find_sym in *. cbn [s1 s_x s_g set_dsyms x_dsyms bump] in *.
    rewrite lookup_define. destruct (list_ascii_eqb (str "__score__") n); [reflexivity|exact OB1]. }
  rewrite (@run_exec c _ _ _ _ Hlim (proj2 O1)). cbn [exec_impl].
  destruct (@music_cond (S fuel) _ (ok_bump O1)) as (s2 & b & E2 & C2). rewrite (mb_ret _ E2).
  pose proof (ok_calm (ok_bump O1) C2) as O2. destruct b; [|eexists _, _; split; [reflexivity|exact I]].
  destruct (@exec_str c scored Hlim Hshow 3 (str "Music score: ${__score__}") true (S (S (S fuel))) s2) as (s' & v & R & _); [|lia|exact O2|].
  - pose proof score_readable as K. pieces_plain. exact K.
  - exists s', v. split; [exact R|exact I].
Qed.
Lemma true_settles : settles c look (str "true").
Proof.
  eapply settles_of; [apply std; infile|]. apply sum_runs with (N := 9) (P := fun _ _ _ => True); [lia|auto|].
  apply list_runs with (N := 8); [auto| |].
  - eapply runs_weaken; [| |apply (@lit_quiet 0)]; [lia|auto|pieces_plain|destruct (c_msiril c); reflexivity].
  - apply (@sym_runs _ music_report); [discriminate|apply std; infile|auto|]. exact report_runs.
Qed.
End Standard.
