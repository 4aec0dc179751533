(* P_RowText.v - rows print and parse back; changes reachable through the API. *)
From Verif Require Import Base M_Bell M_Change M_Math M_Row Spec_Row Spec_Change P_Row P_Bell P_Change P_Change2 P_Change3.
Set Implicit Arguments.
Unset Strict Implicit.

Lemma print_bell_length_pos b : 1 <= length (print_bell default_symtab b).
Proof.
  assert (H := @print_bell_nonempty b []). rewrite app_nil_r in H.
  destruct (print_bell default_symtab b); [congruence|cbn; lia].
Qed.

Lemma read_bells_print l : (forall p, In p l -> p < 256) -> forall fuel,
  length (concat (map (print_bell default_symtab) l)) <= fuel ->
  read_bells fuel default_symtab (concat (map (print_bell default_symtab) l)) = Ret l.
Proof.
  induction l as [|p l IH]; intros Hp fuel Hf; cbn [map concat] in *; [destruct fuel; reflexivity|].
  rewrite app_length in Hf. assert (Q := print_bell_length_pos p).
  destruct fuel as [|fuel]; [lia|].
  assert (R := @read_extended_print p (concat (map (print_bell default_symtab) l)) (Hp p (or_introl eq_refl))).
  destruct (print_bell default_symtab p ++ concat (map (print_bell default_symtab) l)) as [|c t] eqn:E.
  - now apply print_bell_nonempty in E.
  - cbn [read_bells]. rewrite R. cbn [bind]. rewrite IH; [reflexivity| |lia].
    intros q Hq. apply Hp. now right.
Qed.

Lemma row_ostream_parse r : row256 r -> row_of_string default_symtab (row_ostream default_symtab r) = Ret r.
Proof.
  intros [P L]. unfold row_of_string, row_ostream.
  assert (B : forall p, In p r -> p < 256).
  { intros p Hp. apply (is_row_in _ P) in Hp. lia. }
  rewrite c_str_print by exact B. rewrite read_bells_print by auto. cbn [bind].
  now apply row_of_vector_spec.
Qed.

Lemma row_print_ostream r : row256 r -> length r <= 33 ->
  row_print default_symtab r = row_ostream default_symtab r.
Proof.
  intros [P _] L. unfold row_print, row_ostream.
  assert (B : forall p, In p r -> p < 33).
  { intros p Hp. apply (is_row_in _ P) in Hp. lia. }
  clear P L. induction r as [|p r IH]; [reflexivity|]. cbn [map concat].
  rewrite IH by (intros; apply B; now right).
  unfold print_bell. change (sym_max default_symtab) with 33.
  destruct (Nat.ltb_spec p 33); [reflexivity|]. specialize (B p (or_introl eq_refl)). lia.
Qed.

Lemma row_print_parse r : row256 r -> length r <= 33 ->
  row_of_string default_symtab (row_print default_symtab r) = Ret r.
Proof. intros R L. rewrite row_print_ostream by auto. now apply row_ostream_parse. Qed.

(* Changes obtainable through the public API on at most 255 bells. *)
Inductive api_change : change -> Prop :=
| api_empty n : n <= 255 -> api_change (change_empty n)
| api_pn n pn c : n <= 255 -> change_of_pn default_symtab n pn = Ret c -> api_change c
| api_places n pl c : n <= 255 -> change_of_places n pl = Ret c -> api_change c
| api_reverse c : api_change c -> api_change (change_reverse c)
| api_swappair c i c' b : api_change c -> swappair c i = Ret (c', b) -> api_change c'.

Lemma api_change_wf c : api_change c -> wf_change c /\ cn c <= 255.
Proof.
  induction 1 as [n H|n pn c H E|n pl c H E|c H [IH IHn]|c i c' b H [IH IHn] E].
  - split; [exact I|exact H].
  - destruct (change_of_pn_wf pn H) as [(c0 & E0 & W & N)|[Q|Q]]; try congruence.
    rewrite E0 in E. injection E as <-. split; [exact W|lia].
  - destruct (change_of_places_wf pl H) as [(c0 & E0 & W & N)|Q]; try congruence.
    rewrite E0 in E. injection E as <-. split; [exact W|lia].
  - split; [apply reverse_wf; [lia|exact IH]|exact IHn].
  - destruct (swappair_wf IH E) as [W N]. split; [exact W|lia].
Qed.

(* Constructing a change from any text either succeeds or throws; never UB. *)
Lemma row_of_string_total s : exists o, row_of_string default_symtab s = o /\
  match o with Ret r => is_row r | Throw e => e = RowInvalid \/ e = BellInvalid | _ => False end.
Proof.
  unfold row_of_string.
  assert (G : forall fuel s, length s <= fuel ->
    (exists l, read_bells fuel default_symtab s = Ret l) \/ read_bells fuel default_symtab s = Throw BellInvalid).
  { clear s. induction fuel as [|fuel IH]; intros [|c t] H; cbn [length] in H; try lia; try (left; eexists; reflexivity).
    cbn [read_bells]. destruct (read_extended_total c t) as [(p & rest & E & Lr & _)|E]; rewrite E; cbn [bind]; [|now right].
    destruct (IH rest) as [(l & El)|El]; [lia| |]; rewrite El; cbn [bind]; [left; eexists; reflexivity|now right]. }
  eexists; split; [reflexivity|].
  destruct (G (length s) (c_str s) (c_str_len s)) as [(l & E)|E]; rewrite E; cbn [bind]; [|now right].
  destruct (is_row_dec l) as [H|H].
  - now rewrite (proj1 (row_of_vector_spec l) H).
  - rewrite (proj2 (row_of_vector_spec l) H). now left.
Qed.

Lemma api_change_near c : api_change c ->
  wf_change c /\ cn c <= 255 /\
  forall i, swap_pos (cswaps c) i <= i + 1 /\ i <= swap_pos (cswaps c) i + 1.
Proof.
  intros H. destruct (api_change_wf H) as [W N]. split; auto. split; auto.
  intros i. destruct (swap_pos_cases i W) as [[_ E]|[(j & -> & _ & E)|(_ & _ & E)]]; rewrite E; lia.
Qed.

Lemma places_256 : exists c, change_of_places 256 [255; 2] = Ret c /\ ~ wf_change c.
Proof.
  eexists; split; [vm_compute; reflexivity|]. unfold wf_change. cbn. lia.
Qed.

Lemma places_findplace c : cn c <= 255 -> wf_change c ->
  exists pl, places c = Ret pl /\ StronglySorted lt pl /\
    count_places c = Ret (length pl) /\
    forall i, In i pl <-> i < cn c /\ findplace c i = true.
Proof.
  intros H W. destruct (places_spec H W) as (pl & E & S & C & I). exists pl.
  repeat split; auto.
  - now apply I.
  - apply findplace_spec; auto. now apply I.
  - intros [H1 H2]. apply I. split; auto. now apply findplace_spec.
Qed.
