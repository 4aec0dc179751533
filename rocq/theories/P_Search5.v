(* P_Search5.v - what the search prepares; what it does below a given beginning. *)
From Verif Require Import Base M_Bell M_Change M_Row M_Extent M_Touch M_Method M_False M_Search Spec_Row Spec_Change Spec_Touch Spec_Group Spec_Method Spec_False Spec_Extent Spec_Search
  P_Row P_Cycle P_Group P_Group2 P_Group3 P_Touch P_False P_False3 P_False4 P_Search P_Search2 P_Search3 P_Search4 Props_False.
Set Implicit Arguments.
Unset Strict Implicit.
Open Scope nat_scope.

Section Tables.
Variables (m : method) (calls : list change).
Hypothesis WM : wf_method m.
Hypothesis POS : 0 < mb m.
Hypothesis LEN : 1 <= length (mch m).
Hypothesis CALLS : on_b (mb m) calls.
Hypothesis TREBLE : forall i, i <= length calls -> came_from (lead_called m calls i) 0 = 0.
Variable sym : symtab.
Notation b := (mb m).
Notation L := (length (mch m)).
Notation lhd := (lhd m calls).
Notation hd := (hd m calls).
Definition nd (i : nat) : node := Children [(1%Z, Changes (removelast (mch m))); (1%Z, Changes (firstn 1 (skipn i (skipn (L - 1) (mch m) ++ calls))))].

Lemma nd_flat i : flatten (nd i) = lead_called m calls i.
Proof. unfold nd, lead_called. cbn [flatten flat_map fst snd]. unfold times. change (Z.to_nat 1) with 1. cbn [repeat concat]. now rewrite !app_nil_r. Qed.

Lemma init_calls le cs : row256 le -> rung [] (removelast (mch m)) le -> on_b b cs -> forall a n, forM cs (init_call (removelast (mch m)) le) (a, n) =
  Ret (a ++ map (fun c => row_of b (removelast (mch m) ++ [c])) cs, n ++ map (fun c => Children [(1%Z, Changes (removelast (mch m))); (1%Z, Changes [c])]) cs).
Proof using WM POS LEN CALLS.
  intros Rl Rg. assert (Rm : on_b b (removelast (mch m))). { destruct (mch_split WM POS LEN CALLS) as (l & c & E & Er & _). rewrite Er. pose proof (mch_on WM POS LEN CALLS) as O. rewrite E in O. now apply on_b_app in O. }
  induction 1 as [|c cs [C1 C2] Hcs IH]; intros a n; [cbn; now rewrite !app_nil_r|]. pose proof (b255 WM POS LEN CALLS) as B.
  cbn [forM map]. unfold init_call at 1. destruct (@rung_snoc [] (removelast (mch m)) le c Rg) as (r' & E' & R'); [split; [exact C2|lia]|]. rewrite E'. cbn [bind fst snd].
  assert (r' = row_of b (removelast (mch m) ++ [c])) as ->.
  { assert (O : on_b b (removelast (mch m) ++ [c])) by (apply on_b_app; split; [exact Rm|repeat constructor; assumption]).
    destruct R' as (_ & RL & RA). rewrite widest_snoc in RL. pose proof (on_b_widest B Rm) as W. cbn [length] in RL. 
    apply act_ext; [destruct (row_of_b B O); unfold row in *; lia|]. intros i _. rewrite RA. rewrite act_row_of by assumption. now destruct (came_from _ i). }
  rewrite IH, <- !app_assoc. reflexivity.
Qed.
Lemma calls_map X (f : change -> X) (g : nat -> X) : (forall i c, i <= length calls -> nth_error (last (mch m) (mkChange 0 []) :: calls) i = Some c -> f c = g i) ->
  map f (last (mch m) (mkChange 0 []) :: calls) = map g (seq 0 (S (length calls))).
Proof.
  set (l := last (mch m) (mkChange 0 []) :: calls). change (S (length calls)) with (length l). intros H.
  assert (H' : forall i c, nth_error l i = Some c -> f c = g i). { intros i c E. apply H; [|exact E]. assert (i < length l) by (apply nth_error_Some; congruence). cbn in *. lia. }
  clear H. revert g H'. generalize l. clear. induction l as [|c l IH]; intros g H; [reflexivity|]. cbn [length seq map]. f_equal; [now apply H|].
  rewrite <- seq_shift, map_map. apply (IH (fun i => g (S i))). intros i x E. now apply H.
Qed.
Lemma any_odd_spec l : Forall (row_b b) l -> exists o : bool, any_odd sym l = Ret o /\ (o = false -> forall x, In x l -> sign sym x = Ret 1%Z).
Proof using WM POS LEN CALLS.
  induction 1 as [|x l Hx Hl (o & Eo & IH)]; [exists false; split; [reflexivity|intros _ x []]|]. cbn [any_odd].
  destruct (@sign_pm sym x (@row_b_256 b x ltac:(pose proof (b255 WM POS LEN CALLS); lia) Hx)) as [E|E]; rewrite E; cbn [bind].
  - change (1 =? -1)%Z with false. cbn iota. exists o. split; [exact Eo|]. intros F y [<-|Hy]; auto.
  - change (-1 =? -1)%Z with true. cbn iota. exists true. split; [reflexivity|discriminate].
Qed.

Lemma context_spec lo hi ig : exists cx ic, context_make sym (mkSearch m calls lo hi ig) = Ret cx /\
  cx_min cx = lo /\ cx_max cx = hi /\ cx_ignore cx = ig /\ cx_lhs cx = map lhd (seq 0 (S (length calls))) /\ cx_nodes cx = map nd (seq 0 (S (length calls))) /\
  Forall (row_b b) (cx_false cx) /\ (forall i, i <= length calls -> good m sym ic (lhd i)) /\
  forall h h', good m sym ic h -> good m sym ic h' -> ((exists f, In f (cx_false cx) /\ comp h f = h') <-> clash m h h').
Proof using WM POS LEN CALLS TREBLE.
  pose proof (b255 WM POS LEN CALLS) as B. unfold context_make. cbn [se_meth se_calls se_min se_max se_ignore]. destruct (mch_split WM POS LEN CALLS) as (l & c & E & Er & El). 
  destruct (mch m) as [|c0 t] eqn:Em; [now destruct l|]. rewrite <- Em in *. clear t Em. pose proof (mch_on WM POS LEN CALLS) as O.
  assert (Rm : on_b b (removelast (mch m))) by (rewrite Er; rewrite E in O; now apply on_b_app in O).
  destruct (@ring_all [] (removelast (mch m))) as (le & E1 & R1).
  { split; [exact (is_row_id 0)|cbn; lia]. } { now apply (@on_b_ok b). }
  rewrite E1. cbn [bind]. rewrite (El c0), <- (El (mkChange 0 [])).
  assert (OC : on_b b (last (mch m) (mkChange 0 []) :: calls)). { constructor; [|exact CALLS]. rewrite El. rewrite E in O. apply on_b_app in O. destruct O as [_ O]. now inversion O. }
  rewrite (init_calls (proj1 R1) R1 OC). cbn [bind fst snd app].
  rewrite (@calls_map _ _ lhd). 2: { intros i x Hi N. destruct (lead_is WM POS LEN CALLS Hi) as (x' & N' & _ & _ & LC). rewrite N in N'. injection N' as <-. unfold P_Search4.lhd. now rewrite LC. }
  rewrite (@calls_map _ _ nd). 2: { intros i x Hi N. destruct (lead_is WM POS LEN CALLS Hi) as (x' & N' & _ & _ & LC). rewrite N in N'. injection N' as <-.
    unfold lead_called in LC. apply app_inv_head in LC. unfold nd. now rewrite LC. }
  assert (RL : Forall (row_b b) (map lhd (seq 0 (S (length calls))))). { apply Forall_forall. intros x Hx. apply in_map_iff in Hx. destruct Hx as (i & <- & Hi). apply in_seq in Hi. apply (lhd_row WM POS LEN CALLS). lia. }
  destruct (any_odd_spec RL) as (o & Eo & Ho). unfold init_falseness. rewrite Eo. cbn [bind].
  assert (GL : forall i, i <= length calls -> good m sym (negb o) (lhd i)).
  { intros i Hi. split; [now apply (lhd_row WM POS LEN CALLS)|]. split.
    - unfold P_Search4.lhd. destruct (lead_on WM POS LEN CALLS Hi) as (Ol & _). rewrite act_row_of by assumption. now apply TREBLE.
    - intros N. apply Ho; [now destruct o|]. apply in_map. apply in_seq. lia. }
  assert (HF : has (if negb o then F_IN_COURSE else 0%Z) F_HALF_LEAD = false) by (destruct o; reflexivity).
  destruct (@C32_method sym (if negb o then F_IN_COURSE else 0%Z) m WM POS LEN HF) as (t & Et & _).
  destruct (table_clash WM POS LEN CALLS Et) as [T1 T2].
  eexists. exists (negb o). split; [|split; [|split; [|split; [|split; [|split; [|split; [|split; [exact GL|]]]]]]]].
  1: { replace (if o then falseness_method sym 0 m else falseness_method sym F_IN_COURSE m) with (falseness_method sym (if negb o then F_IN_COURSE else 0%Z) m) by (destruct o; reflexivity). rewrite Et. cbn [bind]. reflexivity. }
  all: try reflexivity. { exact T1. } exact T2.
Qed.
End Tables.
