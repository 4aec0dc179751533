(* Props_MethSearch.v - property theorems about methsearch's search for methods. *)
From Verif Require Import Base M_Bell M_Change M_Math M_Row M_PN M_Method M_Proof M_MethSearch
  Spec_Row Spec_Change Spec_Proof Spec_MethSearch I_MethSearch P_Row P_Change2 P_Change3 P_Method P_MethSearch P_MethSearch2 P_MethSearch3 P_MethSearch4 P_MethSearch5
  P_MethSearch6 P_MethSearch7 P_MethSearch8 P_MethSearch9 P_MethSearch10.
From Coq Require Import Permutation.
Set Implicit Arguments.
Unset Strict Implicit.
Open Scope nat_scope.

(* C85: with any options that pass the checks the search comes to an end, without an exception or
   a failed assertion and with all changes taken back; what it finds are the methods wanted,
   all of them and each just once; as many are put out, and counted, as the limit allows *)
Theorem C85_a_search_finds_just_the_methods_wanted : forall A, checked A ->
  exists s, run_search A = Ret s /\ ss_m s = [] /\
  exists found, NoDup found /\ (forall M, In M found <-> wanted A M) /\
    ss_count s = length (at_most (sa_limit A) found) /\ ss_out s = if sa_invert A then [] else at_most (sa_limit A) found.
Proof.
  intros A CK. pose proof (checked_eq CK) as CK0. destruct (search_result CK0) as (s & E & Z & found & ND & W & C & O). exists s. split; [exact E|]. split; [exact Z|].
  exists found. split; [exact ND|]. split; [|split; [exact C|exact O]]. intros M. rewrite W. now apply wanted_eq.
Qed.
Print Assumptions C85_a_search_finds_just_the_methods_wanted.

(* with no symmetry asked for the changes are tried in the order given: the methods come in the
   dictionary order of the lists of changes *)
Theorem C85_without_symmetry_they_come_in_order : forall A, checked A ->
  asked A (sa_sym A) = false -> asked A (sa_doubsym A) = false -> asked A (sa_skewsym A) = false ->
  exists s f, run_search A = Ret s /\ (forall M, In M (choices (sa_allowed A)) -> (f M = true <-> wanted A M)) /\
    ss_out s = if sa_invert A then [] else at_most (sa_limit A) (filter f (choices (sa_allowed A))).
Proof.
  intros A CK1 H1 H2 H3. pose proof (checked_eq CK1) as CK. destruct (run_search_spec (ck_sane CK) (ck_st CK)) as (s & E & _ & _ & O).
  destruct (@found_in_order A (ck_sane CK) (ck_s4 CK) (ck_st CK) H1 H2 H3) as (f & F & W). exists s, f. rewrite O, F. split; [exact E|]. split; [|reflexivity].
  intros M I. rewrite (W M I). now apply wanted_eq.
Qed.
Print Assumptions C85_without_symmetry_they_come_in_order.

(* with a limit of blows, and no symmetry asked for, no bell stays in a place for more rows than
   the limit, however often the lead is rung: no place is made in as many changes running, within
   the lead or over the lead end *)
Theorem C85_no_bell_stays_too_long : forall A M, checked A ->
  asked A (sa_sym A) = false -> asked A (sa_doubsym A) = false -> asked A (sa_skewsym A) = false ->
  0 < sa_blows A <= sa_len A -> wanted A M ->
  forall p s, p < sa_bells A -> s < sa_len A -> ~ makes_run M p s (sa_blows A).
Proof.
  intros A M CK1 H1 H2 H3 B W. pose proof (checked_eq CK1) as CK. apply (wanted_eq M CK1) in W. apply no_long_run; auto using ck_sane. - now apply ck_s4. - intros i _. unfold chosen0. now rewrite H1, H2, H3.
Qed.
Print Assumptions C85_no_bell_stays_too_long.

(* nor in palindromic methods with one hunt bell (or three, ...) *)
Theorem C85_no_bell_stays_too_long_in_a_palindrome : forall A M, checked A ->
  asked A (sa_sym A) = true -> asked A (sa_doubsym A) = false -> asked A (sa_skewsym A) = false -> sa_hunts A mod 2 = 1 ->
  0 < sa_blows A <= sa_len A -> wanted A M ->
  forall p s, p < sa_bells A -> s < sa_len A -> ~ makes_run M p s (sa_blows A).
Proof. intros A M CK H1 H2 H3 H4 B W p s Hp Hs. now apply (no_long_pal CK W H1 H2 H3 H4 B Hp Hs). Qed.
Print Assumptions C85_no_bell_stays_too_long_in_a_palindrome.

(* and no change is rung twice running if that has been asked for *)
Theorem C85_no_change_twice_running : forall A M, checked A ->
  asked A (sa_sym A) = false -> asked A (sa_doubsym A) = false -> asked A (sa_skewsym A) = false ->
  sa_trivial A = true -> wanted A M ->
  (forall i, S i < sa_len A -> nth_error M i <> nth_error M (S i)) /\
  (sa_hunts A = 0 -> 1 < sa_len A -> nth_error M (sa_len A - 1) <> nth_error M 0).
Proof.
  intros A M CK1 H1 H2 H3 T W. pose proof (checked_eq CK1) as CK. apply (wanted_eq M CK1) in W. apply no_repeat; auto using ck_sane. - now apply ck_s4. - intros i _. unfold chosen0. now rewrite H1, H2, H3.
Qed.
Print Assumptions C85_no_change_twice_running.

(* a filter puts out the methods of the library that are wanted, in their order, as many as the
   limit allows *)
Theorem C85_a_filter_lets_through_the_methods_wanted : forall A f lib, checked A -> tells A f -> right_bells A lib -> sa_invert A = false ->
  exists s, run_filter A lib = Ret s /\
    ss_out s = at_most (sa_limit A) (filter (fun x => (length x =? sa_len A) && f x) lib) /\ ss_count s = length (ss_out s).
Proof. intros A f lib CK T. apply filter_result; [now apply checked_eq|now apply tells_eq]. Qed.
Print Assumptions C85_a_filter_lets_through_the_methods_wanted.
(* there is such an f *)
Theorem C85_it_can_be_told : forall A, checked A -> exists f, tells A f.
Proof. intros A CK. exists (hit A). apply tells_eq; [exact CK|]. apply hit_tells. now apply checked_eq. Qed.
Print Assumptions C85_it_can_be_told.

(* an inverted filter puts out the others *)
Theorem C85_an_inverted_filter_lets_through_the_others : forall A f lib, checked A -> tells A f -> right_bells A lib -> sa_invert A = true ->
  let others := filter (fun x => (length x =? sa_len A) && negb (f x)) lib in
  sa_limit A = 0 \/ length others < sa_limit A ->
  exists s, run_filter A lib = Ret s /\ ss_out s = others /\ ss_count s = length others.
Proof. intros A f lib CK T R IV o B. apply (tells_eq f CK) in T. apply checked_eq in CK. destruct (invert_result CK T R IV B) as (s & E & O & C). exists s. rewrite C, O. auto. Qed.
Print Assumptions C85_an_inverted_filter_lets_through_the_others.

(* found: but with a limit, once the limit is met (by y) the next method, x, is put out be it wanted
   or not, and from then on there is no limit any more *)
Theorem C85_inverted_limit_refuted : forall A f a y x b, checked A -> tells A f -> right_bells A (a ++ y :: x :: b) -> sa_invert A = true ->
  length y = sa_len A -> length x = sa_len A -> f y = false ->
  let others l := filter (fun x => (length x =? sa_len A) && negb (f x)) l in
  length (others a ++ [y]) = sa_limit A ->
  exists s, run_filter A (a ++ y :: x :: b) = Ret s /\ ss_out s = others a ++ [y; x] ++ others b /\ ss_count s = length (ss_out s).
Proof. intros A f a y x b CK T R IV Ly Lx Fy o B. apply (tells_eq f CK) in T. apply checked_eq in CK. apply invert_limit; auto. rewrite app_length, Nat.add_1_r in B. exact B. Qed.
Print Assumptions C85_inverted_limit_refuted.

(* the search and the filter agree *)
Theorem C85_search_and_filter_agree : forall A M, checked A -> sa_limit A = 0 -> sa_invert A = false ->
  length M = sa_len A -> (forall c, In c M -> cn c = sa_bells A /\ wf_change c) ->
  exists s t, run_search A = Ret s /\ run_filter A [M] = Ret t /\ (In M (ss_out s) <-> In M (ss_out t)).
Proof.
  intros A M CK L0 IV LM WM. apply checked_eq in CK. destruct (search_result CK) as (s & E & _ & found & _ & W & _ & O). rewrite IV in O. unfold at_most in O. rewrite L0 in O. cbn [Nat.eqb] in O.
  assert (R : right_bells A [M]) by (intros x [<-|[]] _; exact WM).
  destruct (filter_result CK (hit_tells CK) R IV) as (t & E2 & O2 & _). exists s, t. split; [exact E|]. split; [exact E2|]. rewrite O, O2, W, L0. unfold at_most. cbn [Nat.eqb].
  rewrite filter_In, (proj2 (Nat.eqb_eq _ _) LM). cbn [andb]. rewrite (hit_tells CK LM WM). split; [intros H; split; [now left|exact H]|now intros [_ H]].
Qed.
Print Assumptions C85_search_and_filter_agree.

(* with all three symmetries a method is the same backwards as forwards provided that the change
   in the middle of the first half, if there is one, is the same upside down *)
Theorem C85_three_symmetries_and_a_symmetric_middle_make_a_palindrome : forall A M, checked A -> wanted A M ->
  asked A (sa_sym A) = true -> asked A (sa_doubsym A) = true -> asked A (sa_skewsym A) = true ->
  (sa_len A mod 4 = 0 -> nth_error M (sa_len A / 4 - 1) = option_map change_reverse (nth_error M (sa_len A / 4 - 1))) ->
  palindrome (sa_len A) 0 M.
Proof. intros A M CK W. apply (wanted_eq M CK) in W. apply checked_eq in CK. revert W. apply three_palindrome. - now apply ck_sane. - now apply ck_s4. Qed.
Print Assumptions C85_three_symmetries_and_a_symmetric_middle_make_a_palindrome.

(* --- examples --- *)
Definition cX := mkChange 4 [0; 2]. Definition c14 := mkChange 4 [1]. Definition c12 := mkChange 4 [2]. Definition c34 := mkChange 4 [0].
Lemma changes_ok n (al : list (list change)) : Forall (Forall (fun c => cn c = n /\ wf_change c)) al -> forall l c, In l al -> In c l -> cn c = n /\ wf_change c.
Proof. intros F l c I J. rewrite Forall_forall in F. specialize (F l I). rewrite Forall_forall in F. now apply F. Qed.
Ltac check_changes := apply changes_ok; repeat constructor.
Ltac check_some := cbn; intuition discriminate.
Ltac check_twice := repeat constructor; cbn; intuition discriminate.
Ltac check_start := split; [apply Permutation_refl|cbn; lia].
Ltac check_skew := try discriminate; try (cbn; intros; split; [reflexivity|lia]).
Ltac check := constructor;
  [cbn; lia|check_start|cbn; lia|cbn; lia|reflexivity|check_changes|check_some|check_twice
  |try reflexivity; try discriminate|try discriminate; auto|check_skew|intros; cbn; lia|cbn; auto|try (unfold proving; cbn; intros P; exfalso; intuition (try discriminate; try lia); fail)].

(* minimus with a plain hunting treble, palindromic, no more than two blows, ending not in rounds *)
Definition no_rounds (m : list change) : bool :=
  match forM m row_mul_change (rounds 4) with Ret r => (nth 0 r 9 =? 0) && negb (M_Row.row_eqb r (rounds 4)) | _ => false end.
Definition ex_minimus (limit : nat) (invert : bool) :=
  mkSargs 4 8 1 0 [[cX; c34]; [c14]; [cX; c12]; [c14; c34]; [cX; c12]; [c14]; [cX; c34]; [c14; c12]] true 2 [] true false false false true false false 1%Z [] []
    limit invert (fun _ _ => true) no_rounds.
Definition plain_bob := [cX; c14; cX; c14; cX; c14; cX; c12].
Definition reverse_bob := [cX; c14; cX; c34; cX; c14; cX; c14].
Definition double_bob := [cX; c14; cX; c34; cX; c14; cX; c12].
Example ex_minimus_checked : checked (ex_minimus 0 false). Proof. check. Qed.
Example ex_minimus_found : exists s, run_search (ex_minimus 0 false) = Ret s /\ ss_out s = [plain_bob; reverse_bob; double_bob].
Proof. eexists. split; vm_compute; reflexivity. Qed.
Example ex_minimus_wanted : wanted (ex_minimus 0 false) plain_bob /\ ~ wanted (ex_minimus 0 false) (repeat cX 8).
Proof.
  destruct (C85_a_search_finds_just_the_methods_wanted ex_minimus_checked) as (s & E & _ & found & _ & W & _ & O).
  destruct ex_minimus_found as (s' & E' & O'). rewrite E' in E. injection E as ->. cbn in O. rewrite <- !W. unfold at_most in O. cbn in O. rewrite <- O, O'. split; [now left|].
  cbn. intuition discriminate.
Qed.
Example ex_minimus_filter : exists s, run_filter (ex_minimus 0 false) [double_bob; repeat cX 8; [cX; c14]; plain_bob] = Ret s /\ ss_out s = [double_bob; plain_bob].
Proof. eexists. split; vm_compute; reflexivity. Qed.
Example ex_minimus_checked_2 : checked (ex_minimus 1 true). Proof. check. Qed.
(* with a limit of one a method wanted and two not wanted are let through *)
Example ex_minimus_invert : exists s, run_filter (ex_minimus 1 true) [repeat cX 8; plain_bob; reverse_bob; repeat c14 8] = Ret s /\
  ss_out s = [repeat cX 8; plain_bob; repeat c14 8].
Proof. eexists. split; vm_compute; reflexivity. Qed.

(* found: but in palindromic methods with no hunt bells, or two, the limit can be exceeded: about
   the half lead if there are no hunt bells, and over the lead end if there are two *)
Definition ex_blows (hunts : nat) (l : list change) :=
  mkSargs 4 4 hunts 0 (map (fun c => [c]) l) false 3 [] true false false false false false false 1%Z [] [] 0 false (fun _ _ => true) (fun _ => true).
Theorem C85_blows_refuted : forall h, h = 0 \/ h = 2 -> exists A s M p k, checked A /\ sa_hunts A = h /\ sa_sym A = true /\ sa_floating A = false /\
  run_search A = Ret s /\ In M (ss_out s) /\ 0 < sa_blows A <= sa_len A /\ p < sa_bells A /\ k < sa_len A /\ makes_run M p k (sa_blows A).
Proof.
  intros h [-> | ->].
  - exists (ex_blows 0 [c14; c12; c14; cX]). eexists. exists [c14; c12; c14; cX], 0, 0. split; [check|]. do 3 (split; [reflexivity|]). split; [vm_compute; reflexivity|]. split; [now left|].
    do 3 (split; [cbn; lia|]). intros j Hj. cbn in Hj. destruct j as [|[|[|j]]]; [| | |lia]; eexists; split; reflexivity.
  - exists (ex_blows 2 [c14; c12; cX; c12]). eexists. exists [c14; c12; cX; c12], 0, 3. split; [check|]. do 3 (split; [reflexivity|]). split; [vm_compute; reflexivity|]. split; [now left|].
    do 3 (split; [cbn; lia|]). intros j Hj. cbn in Hj. destruct j as [|[|[|j]]]; [| | |lia]; eexists; split; reflexivity.
Qed.
Print Assumptions C85_blows_refuted.
Example ex_blows_single : checked (ex_minimus 0 false) /\ sa_hunts (ex_minimus 0 false) mod 2 = 1 /\ 0 < sa_blows (ex_minimus 0 false) <= sa_len (ex_minimus 0 false) /\ wanted (ex_minimus 0 false) plain_bob.
Proof. split; [exact ex_minimus_checked|]. split; [reflexivity|]. split; [cbn; lia|]. apply ex_minimus_wanted. Qed.

(* no symmetry, true in the lead, no more than three blows, no change twice running *)
Definition ex_plain (start : row) := mkSargs 4 4 0 0 [[cX]; [c14; cX]; [cX; c34]; [c14; c12]] true 3 [] false false false false true false false 1%Z [] start 0 false (fun _ _ => true) (fun _ => true).
Example ex_plain_checked : checked (ex_plain (rounds 4)).
Proof. check. intros _ r. cbn [ex_plain sa_avoid sa_start sa_extents app count_occ]. destruct (list_eq_dec Nat.eq_dec _ _); lia. Qed.
Example ex_plain_found : exists s, run_search (ex_plain (rounds 4)) = Ret s /\ ss_out s = [[cX; c14; cX; c14]; [cX; c14; cX; c12]; [cX; c14; c34; c12]].
Proof. eexists. split; vm_compute; reflexivity. Qed.
(* all three symmetries *)
Definition ex_three (l : list (list change)) := mkSargs 4 8 0 0 l false 0 [] true true true false false false false 1%Z [] [] 0 false (fun _ _ => true) (fun _ => true).
Definition some_changes := repeat [cX; c14; c12; c34] 8.
Example ex_three_checked : checked (ex_three some_changes). Proof. check. Qed.

(* found: with all three symmetries asked for and no hunt bells the change in the middle of the
   first half need not be the same upside down: methods are found which are the same backwards
   about no change and no pair of changes at all *)
Theorem C85_three_symmetries_refuted : exists A s M, checked A /\ sa_floating A = false /\ sa_sym A = true /\ sa_doubsym A = true /\ sa_skewsym A = true /\
  run_search A = Ret s /\ In M (ss_out s) /\
  forall c, c < sa_len A -> exists i, i < sa_len A /\ nth_error M i <> nth_error M ((c + sa_len A - i) mod sa_len A).
Proof.
  destruct (search_result (checked_eq ex_three_checked)) as (s & E & _ & found & _ & W & _ & O). exists (ex_three some_changes), s, [c12; c12; c34; cX; c34; c34; c12; cX].
  split; [exact ex_three_checked|]. do 4 (split; [reflexivity|]). split; [exact E|]. split.
  - assert (R : match run_search (ex_three some_changes) with Ret s => existsb (same_changes [c12; c12; c34; cX; c34; c34; c12; cX]) (ss_out s) | _ => false end = true) by (vm_compute; reflexivity).
    rewrite E in R. apply existsb_exists in R as (M & I & S). assert (WM : Forall (wfc (ex_three some_changes)) M).
    { rewrite O in I. cbn in I. apply W in I. now apply wanted_wf; [apply (checked_eq ex_three_checked)|]. }
    apply same_changes_eq with (A := ex_three some_changes) in S; [now subst M|repeat constructor|exact WM].
  - intros c Hc. assert (K : forallb (fun c => existsb (fun i => negb (match nth_error [c12; c12; c34; cX; c34; c34; c12; cX] i, nth_error [c12; c12; c34; cX; c34; c34; c12; cX] ((c + 8 - i) mod 8) with
      Some a, Some b => change_eqb a b | _, _ => false end)) (seq 0 8)) (seq 0 8) = true) by reflexivity.
    rewrite forallb_forall in K. specialize (K c ltac:(apply in_seq; cbn in Hc; lia)). apply existsb_exists in K as (i & Hi & K). apply in_seq in Hi. exists i. split; [cbn; lia|]. intros X. cbn [sa_len ex_three] in X. rewrite <- X in K.
    destruct (nth_error _ i) as [a|] eqn:Ei; [|apply nth_error_None in Ei; cbn in Ei; lia]. unfold change_eqb in K. rewrite Nat.eqb_refl in K. destruct (list_eq_dec Nat.eq_dec (cswaps a) (cswaps a)); [rewrite orb_true_r in K; discriminate|congruence].
Qed.
Print Assumptions C85_three_symmetries_refuted.

(* found: a search by symmetry with a start row other than rounds ends in an exception: when the
   changes found by symmetry are taken back, the row is worked out from rounds *)
Theorem C85_start_row_refuted : exists A, sa_start A = [1; 0; 2; 3] /\ (forall M, checked (mkSargs (sa_bells A) (sa_len A) (sa_hunts A) (sa_dodges A) (sa_allowed A) (sa_trivial A) (sa_blows A)
    (sa_prefix A) (sa_sym A) (sa_doubsym A) (sa_skewsym A) (sa_floating A) (sa_true_lead A) (sa_true_half A) (sa_parity A) (sa_extents A) (sa_avoid A) (rounds 4) M (sa_invert A) (sa_try A) (sa_accept A))) /\
  run_search A = Throw LogicError.
Proof.
  exists (mkSargs 4 4 0 0 [[cX]; [c14]; [cX]; [c14]] false 0 [] false true false false true false false 1%Z [] [1; 0; 2; 3] 0 false (fun _ _ => true) (fun _ => true)).
  split; [reflexivity|]. split; [|vm_compute; reflexivity]. intros M. check. intros _ r. cbn [sa_avoid sa_start sa_extents app count_occ]. destruct (list_eq_dec Nat.eq_dec _ _); lia.
Qed.
Print Assumptions C85_start_row_refuted.

(* found: when no start row is given, the first row for the proof of a lead is the row of no bells,
   and a lead which comes to rounds before its end is taken to be true *)
Theorem C85_rounds_refuted : exists A s M, checked A /\ sa_start A = [] /\ sa_true_lead A = true /\ proving A /\
  run_search A = Ret s /\ In M (ss_out s) /\ length M = 3 /\ forM (firstn 2 M) row_mul_change (rounds 4) = Ret (rounds 4).
Proof.
  exists (mkSargs 4 3 0 0 [[cX]; [cX]; [c14]] false 0 [] false false false false true false false 1%Z [] [] 0 false (fun _ _ => true) (fun _ => true)).
  eexists. exists [cX; cX; c14]. split; [check; intros _ r; cbn [sa_avoid sa_start sa_extents app count_occ]; destruct (list_eq_dec Nat.eq_dec _ _); lia|].
  do 2 (split; [reflexivity|]). split; [left; split; [reflexivity|left; reflexivity]|]. split; [vm_compute; reflexivity|]. split; [now left|]. split; reflexivity.
Qed.
Print Assumptions C85_rounds_refuted.
