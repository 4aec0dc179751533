(* Props_Multtab.v - property theorems about multiplication tables. *)
From Verif Require Import Base M_Bell M_Change M_Math M_Row M_Extent M_Group M_Multtab Spec_Row Spec_Change Spec_Extent Spec_Cycle Spec_Group Spec_Multtab
  P_Math P_Row P_Cycle P_Order P_Named P_Perm P_Extent P_Extent2 P_Extent3 P_Group P_Group2 P_Group3 P_Multtab P_Multtab2.
Set Implicit Arguments.
Unset Strict Implicit.
Open Scope nat_scope.

(* C28, no part ends: after any sequence of columns, every column gives the products that are in the
   set; a product that is not in the set silently gives the first row *)
Theorem C28_plain : forall R ops, Forall row256 R -> Forall (fun o => row256 (snd o)) ops ->
  exists t cs, run_cols (mt_plain R) ops = Ret (t, cs) /\ length cs = length ops /\
    forall q k x r, nth_error ops q = Some (k, x) -> In r R ->
      exists i, mt_find t r = Ret i /\ mt_row t i = Ret r /\
        (In (col_product k x r) R -> exists p, mt_mul t i (nth q cs 0) = Ret p /\ mt_row t p = Ret (col_product k x r)) /\
        (~ In (col_product k x r) R -> mt_mul t i (nth q cs 0) = Ret 0).
Proof.
  intros R ops FR FO. destruct (plain_table FR FO) as (t & cs & E & _ & _ & L & H & _). exists t, cs. auto.
Qed.
Print Assumptions C28_plain.

(* with part ends (and a post group): the table has the first row of each coset, and every column,
   whenever it was added, gives the first row of the coset of the product *)
Theorem C28_part_ends : forall b P Q R t ops, 1 <= b -> b <= 256 -> wf_group P -> wf_group Q -> gb P <= b -> gb Q <= b ->
  closed_rows b P Q R -> mt_init R P Q = Ret t ->
  Forall (fun o => row256 (snd o) /\ length (snd o) <= b /\ commuting P Q (fst o) (snd o)) ops ->
  exists t' cs, run_cols t ops = Ret (t', cs) /\ length cs = length ops /\ mrows t' = mrows t /\
    forall r, In r R -> exists i u, mt_find t' r = Ret i /\ mt_row t' i = Ret u /\ is_least (in_coset P Q r) u /\
      forall q k x, nth_error ops q = Some (k, x) -> In (col_product k x r) R ->
        exists p v, mt_mul t' i (nth q cs 0) = Ret p /\ mt_row t' p = Ret v /\ is_least (in_coset P Q (col_product k x r)) v.
Proof. intros b P Q R t ops H1 H2 WP WQ LP LQ HR. now apply (@part_table b P Q H1 H2 WP WQ LP LQ R HR). Qed.
Print Assumptions C28_part_ends.

(* the constructor succeeds with part ends alone, and has |R| / |P| rows *)
Theorem C28_size : forall b P R, 1 <= b -> b <= 256 -> wf_group P -> gb P <= b ->
  closed_rows b P group_default R -> NoDup R ->
  exists t, mt_init R P group_default = Ret t /\ length (mrows t) * length (gv P) = length R.
Proof. intros b P R H1 H2 WP LP HR ND. apply (@part_init b P group_default H1 H2 WP wf_default LP ltac:(cbn; lia) R HR); auto. Qed.
Print Assumptions C28_size.

(* isrounds: index 0 is the coset of rounds *)
Theorem C28_rounds : forall b P Q R t r, 1 <= b -> b <= 256 -> wf_group P -> wf_group Q -> gb P <= b -> gb Q <= b ->
  closed_rows b P Q R -> mt_init R P Q = Ret t -> In (id_row b) R -> In r R ->
  (mt_find t r = Ret 0 <-> in_coset P Q (id_row b) r).
Proof. intros b P Q R t r H1 H2 WP WQ LP LQ HR. now apply (@part_rounds b P Q H1 H2 WP WQ LP LQ R HR). Qed.
Print Assumptions C28_rounds.

(* a row that does not commute with the part ends (post group) is refused, and the table is as before *)
Theorem C28_refuses : forall k t x, wf_group (mpends t) -> wf_group (mpost t) -> row256 x ->
  ~ commuting (mpends t) (mpost t) k x -> mt_column k t x = Throw LogicError.
Proof.
  intros k t x WP WQ Hx NC. unfold mt_column. set (G := match k with pre_mult => mpends t | post_mult => mpost t end).
  assert (WG : wf_group G) by (destruct k; auto). assert (HG : gb G <= 256) by apply WG.
  assert (N : ~ forall p, In p (gv G) -> comp x p = comp p x) by (intros X; apply NC; destruct k; exact X).
  assert (E : forM (gv G) (fun (_ : unit) i => a <- mul x i ;; b <- mul i x ;; if row_eqb a b then Ret tt else Throw LogicError) tt = Throw LogicError).
  { assert (F : forall p, In p (gv G) -> row256 p) by (intros p Hp; apply (row_b_256 HG); now apply group_row).
    revert N F. generalize (gv G). induction l as [|a l IH]; intros N F; [exfalso; apply N; intros p []|].
    cbn [forM]. rewrite !mul_comp by (auto; apply F; now left). cbn [bind]. destruct (row_eqb (comp x a) (comp a x)) eqn:E; [|reflexivity].
    cbn [bind]. apply row_eqb_spec in E. apply IH; [|intros; apply F; now right]. intros X. apply N. intros p [<-|Hp]; auto. }
  unfold commutes. rewrite E. reflexivity.
Qed.
Print Assumptions C28_refuses.

(* the square table of a list of different rows multiplies *)
Theorem C28_square : forall R, Forall row256 R -> NoDup R ->
  exists t, sq_make R = Ret t /\ mrows t = R /\
    forall r s, In r R -> In s R -> exists i j, mt_find t r = Ret i /\ mt_find t s = Ret j /\ mt_row t i = Ret r /\
      (In (comp r s) R -> exists p, sq_mul t i j = Ret p /\ mt_row t p = Ret (comp r s)).
Proof. exact sq_table. Qed.
Print Assumptions C28_square.

(* refuted: with a repeated row the square table is read out of range; with a post group of which
   the rows hold one of each coset only, a product may give a row of another coset *)
Theorem C28_refuted :
  (exists t, sq_make [[0;1];[0;1];[1;0]] = Ret t /\ mt_find t [1;0] = Ret 2 /\ sq_mul t 2 2 = UB) /\
  (exists Q t t' c, group_of1 5 [0;2;1] = Ret Q /\ mt_init [[0;2;1];[1;2;0];[2;1;0]] group_default Q = Ret t /\
     compute_post_mult t [0;2;1] = Ret (t', c) /\ mt_find t' [1;2;0] = Ret 1 /\ mt_mul t' 1 c = Ret 0 /\
     in_coset group_default Q (comp [1;2;0] [0;2;1]) [1;2;0] /\ mt_row t' 0 = Ret [0;2;1]).
Proof.
  split; [eexists; repeat split; vm_compute; reflexivity|].
  do 4 eexists. split; [vm_compute; reflexivity|]. split; [vm_compute; reflexivity|]. split; [vm_compute; reflexivity|].
  split; [vm_compute; reflexivity|]. split; [vm_compute; reflexivity|]. split; [|vm_compute; reflexivity].
  exists [], [0;2;1]. cbn [gv group_default]. split; [now left|]. split; [right; now left|]. vm_compute. reflexivity.
Qed.
Print Assumptions C28_refuted.

Example C28_case : exists P t t1 t2 c1 c2 v, group_of1 5 [0;2;3;1] = Ret P /\ symmetric_group 6 3 1 4 = Ret v /\
  mt_init (gv v) P group_default = Ret t /\ mrows t = [[0;1;2;3];[0;1;3;2]] /\
  compute_post_mult t [0;2;1;3] = Ret (t1, c1) /\ compute_pre_mult t1 [0;3;1;2] = Ret (t2, c2) /\ mtab t2 = [[1;0];[0;1]] /\
  compute_pre_mult t [0;2;1;3] = Throw LogicError /\ closed_rows 4 P group_default (gv v).
Proof.
  destruct (@symmetric_group_spec 6 3 1 4) as (v0 & E0 & _ & _ & A0); [cbn; lia|cbn; lia|].
  do 6 eexists. exists v0. split; [vm_compute; reflexivity|]. split; [exact E0|].
  assert (E1 := E0). vm_compute in E1. injection E1 as <-.
  split; [vm_compute; reflexivity|]. split; [vm_compute; reflexivity|]. split; [vm_compute; reflexivity|].
  split; [vm_compute; reflexivity|]. split; [vm_compute; reflexivity|]. split; [vm_compute; reflexivity|]. split.
  - intros r Hr. apply A0 in Hr as (Pr & Lr & _). auto.
  - intros r y Hr (p & h & Hp & Hh & ->). apply A0 in Hr. apply A0.
    destruct (in_extent_group (nw := 3) (nh := 1) (nt := 4) ltac:(lia) ltac:(lia)) as (_ & _ & M & _).
    assert (Ip : in_extent 3 1 4 p). { apply A0. cbn [gv] in *. destruct Hp as [<-|[<-|[<-|[]]]]; cbn; tauto. }
    destruct Hh as [<-|[]]. replace (comp (comp p r) []) with (comp p r); [now apply M|].
    apply act_ext; [rewrite (comp_length (comp p r) []); cbn [length]; lia|]. intros i _. rewrite (@act_comp (comp p r) []) by apply is_row_nil. rewrite (@act_ge [] i); [auto|cbn; lia].
Qed.
