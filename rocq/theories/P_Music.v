(* P_Music.v - the tree of patterns. *)
From Verif Require Import Base M_Bell M_Change M_Math M_Row M_Music Spec_Row Spec_Music Spec_Music2 P_Bell.
Set Implicit Arguments.
Unset Strict Implicit.
Open Scope nat_scope.

Lemma eqc_true a b : eqc a b = true <-> a = b.
Proof. unfold eqc. destruct (ascii_dec a b); split; congruence. Qed.
Lemma eqc_refl a : eqc a a = true.
Proof. now apply eqc_true. Qed.

Lemma default_sym_ok : sym_ok default_symtab.
Proof. split; try reflexivity. intros c H. now apply is_symbol_accepts. Qed.

Section Tree.
Variables (sym : symtab) (b junk : nat) (r : row).
Hypothesis OK : sym_ok sym.

Definition bell_of (c : ascii) : nat := match read_char sym c with Ret x => x | _ => 0 end.
Lemma names_bell_of c : is_symbol sym c = true -> names sym c (bell_of c).
Proof using OK. intros H. destruct (so_names OK H) as [x E]. unfold names, bell_of. now rewrite E. Qed.

(* the hits of a tree: key and wildcards *)
Fixpoint events (nd : mnode) (pos : nat) (w : list nat) : list (nat * list nat) :=
  match nd with
  | MNode subs dm =>
    let sub := fix sub (l : list (nat * mnode)) (place : nat) (w : list nat) :=
      match l with
      | [] => []
      | (p, n) :: l => if p =? place then events n (S pos) w else sub l place w
      end in
    map (fun k => (k, w ++ skipn pos r)) dm ++ sub subs 0 (w ++ [rget junk r pos]) ++ sub subs (rget junk r pos + 1) w
  end.
Fixpoint sub_events (pos : nat) (l : list (nat * mnode)) (place : nat) (w : list nat) :=
  match l with
  | [] => []
  | (p, n) :: l => if p =? place then events n (S pos) w else sub_events pos l place w
  end.
Lemma events_eq subs dm pos w :
  events (MNode subs dm) pos w =
  map (fun k => (k, w ++ skipn pos r)) dm ++ sub_events pos subs 0 (w ++ [rget junk r pos]) ++ sub_events pos subs (rget junk r pos + 1) w.
Proof.
  cbn [events]. f_equal. f_equal.
  - generalize (w ++ [rget junk r pos]). induction subs as [|[p n] l IH]; intros v; cbn; [reflexivity|]. now destruct (p =? 0).
  - induction subs as [|[p n] l IH]; cbn; [reflexivity|]. now destruct (p =? _).
Qed.
Lemma events_empty pos w : events mnode_empty pos w = [].
Proof. reflexivity. Qed.

(* match does the hits in order *)
Definition do_hit (back : bool) (res : list details) (e : nat * list nat) : outcome (list details) :=
  hit back (snd e) res (fst e).
Definition any_ev {A} (l : list A) : bool := negb (length l =? 0).
Lemma any_ev_app A (l m : list A) : any_ev (l ++ m) = any_ev l || any_ev m.
Proof. unfold any_ev. rewrite app_length. destruct (length l), (length m); reflexivity. Qed.

Fixpoint mn_size (nd : mnode) : nat :=
  match nd with MNode subs _ => S (fold_right (fun e n => mn_size (snd e) + n) 0 subs) end.

Lemma match_events back n : forall nd, mn_size nd <= n -> forall pos w res,
  mn_match junk r back nd pos w res =
  (res' <- forM (events nd pos w) (do_hit back) res ;; Ret (res', any_ev (events nd pos w))).
Proof.
  induction n as [|n IHn]; intros [subs dm] Hn pos w res; [cbn in Hn; lia|].
  rewrite events_eq. cbn [mn_match].
  assert (Hs : forall l, fold_right (fun e n => mn_size (snd e) + n) 0 l <= n -> forall place w st,
    (fix sub (l : list (nat * mnode)) (place : nat) (wilds : list nat) (st : list details * bool) {struct l} :=
      match l with
      | [] => Ret st
      | (p, n) :: l =>
        if p =? place then '(res, m) <- mn_match junk r back n (S pos) wilds (fst st) ;; Ret (res, m || snd st)
        else sub l place wilds st
      end) l place w st =
    (res' <- forM (sub_events pos l place w) (do_hit back) (fst st) ;; Ret (res', any_ev (sub_events pos l place w) || snd st))).
  { induction l as [|[p nd] l IHl]; intros Hl place v st; cbn [sub_events].
    - cbn. now destruct st.
    - cbn in Hl. destruct (p =? place).
      + rewrite (IHn nd) by lia. cbn [bind].
        destruct (forM (events nd (S pos) v) (do_hit back) (fst st)); reflexivity.
      + apply IHl. lia. }
  cbn in Hn.
  rewrite !forM_app.
  assert (Hd : forall dm res, forM dm (hit back (w ++ skipn pos r)) res =
    forM (map (fun k => (k, w ++ skipn pos r)) dm) (do_hit back) res).
  { clear. induction dm as [|k dm IH]; intros res; [reflexivity|]. cbn [map forM].
    unfold do_hit at 1; cbn [fst snd]. destruct (hit back (w ++ skipn pos r) res k); cbn [bind]; auto. }
  rewrite Hd. destruct (forM (map _ dm) (do_hit back) res) as [res1| | |]; cbn [bind]; try reflexivity.
  rewrite Hs by lia. cbn [fst snd].
  rewrite forM_app.
  destruct (forM (sub_events pos subs 0 _) (do_hit back) res1) as [res2| | |]; cbn [bind]; try reflexivity.
  rewrite Hs by lia. cbn [fst snd].
  destruct (forM (sub_events pos subs (rget junk r pos + 1) w) (do_hit back) res2); cbn [bind]; try reflexivity.
  do 2 f_equal. rewrite !any_ev_app. unfold any_ev. rewrite map_length.
  destruct (length dm =? 0), (length (sub_events pos subs 0 (w ++ [rget junk r pos])) =? 0),
    (length (sub_events pos subs (rget junk r pos + 1) w) =? 0); reflexivity.
Qed.

Lemma events_push key nd pos w :
  Permutation (events (mn_push key nd) pos w) (events nd pos w ++ [(key, w ++ skipn pos r)]).
Proof.
  destruct nd as [subs dm]. cbn [mn_push]. rewrite !events_eq, map_app. cbn [map].
  rewrite <- !app_assoc. apply Permutation_app_head.
  rewrite Permutation_app_comm. cbn. rewrite <- app_assoc. reflexivity.
Qed.

Lemma sub_update_events place f subs subs' pos X :
  sub_update place f subs = Ret subs' ->
  (forall n n', f n = Ret n' -> forall w, Permutation (events n' (S pos) w) (events n (S pos) w ++ X w)) ->
  forall q w, Permutation (sub_events pos subs' q w)
                (sub_events pos subs q w ++ (if q =? place then X w else [])).
Proof.
  intros H Hf. revert subs' H. induction subs as [|[p n] t IH]; cbn [sub_update]; intros subs' H q w.
  - apply bind_ret_inv in H as (n' & E & H). injection H as <-. cbn [sub_events]. rewrite Nat.eqb_sym.
    destruct (q =? place); [|reflexivity]. rewrite (Hf _ _ E). now rewrite events_empty.
  - destruct (p =? place) eqn:P.
    + apply bind_ret_inv in H as (n' & E & H). injection H as <-. cbn [sub_events].
      apply Nat.eqb_eq in P. subst p. rewrite (Nat.eqb_sym place q).
      destruct (q =? place) eqn:Q; [apply Hf, E|]. now rewrite app_nil_r.
    + apply bind_ret_inv in H as (t' & E & H). injection H as <-. cbn [sub_events].
      destruct (p =? q) eqn:Q; [|apply IH, E].
      apply Nat.eqb_eq in Q. subst q. rewrite P. now rewrite app_nil_r.
Qed.
Lemma mn_sub_events place f nd nd' pos X :
  mn_sub place f nd = Ret nd' ->
  (forall n n', f n = Ret n' -> forall w, Permutation (events n' (S pos) w) (events n (S pos) w ++ X w)) ->
  forall w, Permutation (events nd' pos w)
    (events nd pos w ++ (if place =? 0 then X (w ++ [rget junk r pos]) else if place =? rget junk r pos + 1 then X w else [])).
Proof.
  destruct nd as [subs dm]. cbn [mn_sub]. intros H Hf w.
  apply bind_ret_inv in H as (s & E & H). injection H as <-. rewrite !events_eq.
  rewrite (sub_update_events E Hf 0 _), (sub_update_events E Hf (rget junk r pos + 1) w).
  rewrite <- !app_assoc. apply Permutation_app_head. apply Permutation_app_head.
  rewrite (Nat.eqb_sym 0 place), (Nat.eqb_sym _ place).
  destruct place as [|pl]; cbn [Nat.eqb].
  - replace (rget junk r pos + 1) with (S (rget junk r pos)) by lia. cbn [Nat.eqb]. rewrite app_nil_r.
    apply Permutation_app_comm.
  - reflexivity.
Qed.
Lemma mn_sub_total place f nd : (forall n, exists n', f n = Ret n') -> exists nd', mn_sub place f nd = Ret nd'.
Proof.
  intros Hf. destruct nd as [subs dm]. cbn [mn_sub].
  assert (H : exists s, sub_update place f subs = Ret s).
  { induction subs as [|[p n] t [t' IH]]; cbn [sub_update].
    - destruct (Hf mnode_empty) as [n' E]. rewrite E. cbn. eauto.
    - destruct (p =? place); [destruct (Hf n) as [n' E]; rewrite E|rewrite IH]; cbn; eauto. }
  destruct H as [s E]. rewrite E. cbn. eauto.
Qed.

(* ---- the ways a pattern is matched from a position on ---- *)
Definition kmax (L pos : nat) : nat := if pos <=? L then L + 2 - pos else 1.
(* the k bells from pos on *)
Definition taken (pos k : nat) : list nat := map (rget junk r) (seq pos k).
Fixpoint ways (p : pattern) (pos : nat) (w : list nat) : list (list nat) :=
  match p with
  | [] => [w ++ skipn pos r]
  | t :: p' =>
    if b <? pos then [] else
    match t with
    | Named c => if bell_of c =? rget junk r pos then ways p' (S pos) w else []
    | AnyBell => ways p' (S pos) (w ++ [rget junk r pos])
    | OneOf l => concat (map (fun c => if bell_of c =? rget junk r pos then ways p' (S pos) w else []) l)
    | AnyBells =>
      if (length p' =? 0) then [w ++ skipn pos r]
      else if has_star p' then
        concat (map (fun k => ways p' (pos + k) (w ++ taken pos k)) (seq 0 (S (kmax (S (length (text p'))) pos))))
      else if pos + width p' + 1 <=? b then ways p' (b - width p') (w ++ taken pos (b - width p' - pos))
      else []
    end
  end.

Lemma text_cons t p : text (t :: p) = item_text t ++ text p.
Proof. reflexivity. Qed.
Lemma item_text_pos t : 0 < length (item_text t).
Proof. destruct t; cbn; try lia. Qed.
Lemma text_nil p : text p = [] -> p = [].
Proof. destruct p as [|t p]; [reflexivity|]. rewrite text_cons. pose proof (item_text_pos t). destruct (item_text t); cbn in *; [lia|discriminate]. Qed.

Lemma sym_not c x : is_symbol sym c = true -> is_symbol sym x = false -> eqc c x = false.
Proof. intros H1 H2. destruct (eqc c x) eqn:E; [|reflexivity]. apply eqc_true in E. congruence. Qed.

Lemma in_app_has c l m : has_char c (l ++ m) = has_char c l || has_char c m.
Proof. apply existsb_app. Qed.
Lemma has_char_symbols c l : is_symbol sym c = false -> Forall (fun x => is_symbol sym x = true) l -> has_char c l = false.
Proof.
  intros Hc. induction 1 as [|x l Hx _ IH]; [reflexivity|]. cbn. unfold has_char in IH.
  rewrite IH. destruct (eqc c x) eqn:E; [|reflexivity]. apply eqc_true in E. congruence.
Qed.
Lemma has_star_text p : pattern_ok sym p -> has_char c_star (text p) = has_star p.
Proof using OK.
  induction 1 as [|t p Ht _ IH]; [reflexivity|]. rewrite text_cons, in_app_has, IH. cbn [has_star existsb]. f_equal.
  destruct t as [c| |l|]; cbn [item_text is_star item_ok] in *.
  - unfold has_char. cbn [existsb]. rewrite orb_false_r. destruct (eqc c_star c) eqn:E; [|reflexivity]. apply eqc_true in E.
    pose proof (so_star OK). congruence.
  - reflexivity.
  - change (chr "[" :: l ++ [chr "]"]) with ([chr "["] ++ l ++ [chr "]"]). rewrite !in_app_has.
    rewrite (has_char_symbols (so_star OK) Ht). reflexivity.
  - reflexivity.
Qed.
Lemma count_bells_symbols l : Forall (fun x => is_symbol sym x = true) l -> forall s n,
  count_bells_from sym (l ++ s) true n = count_bells_from sym s true n.
Proof using OK.
  induction 1 as [|x l Hx _ IH]; intros s n; [reflexivity|]. cbn [app count_bells_from].
  rewrite (sym_not Hx (so_any OK)), (sym_not Hx (so_open OK)), (sym_not Hx (so_close OK)). cbn. apply IH.
Qed.
Lemma count_bells_text p : pattern_ok sym p -> forall n, count_bells_from sym (text p) false n = n + width p.
Proof using OK.
  induction 1 as [|t p Ht _ IH]; intros n; [cbn; lia|]. rewrite text_cons.
  destruct t as [c| |l|]; cbn [item_text item_ok] in *.
  - cbn [app count_bells_from]. rewrite (sym_not Ht (so_any OK)), (sym_not Ht (so_open OK)), (sym_not Ht (so_close OK)), Ht.
    cbn [negb andb]. rewrite IH. unfold width. cbn. lia.
  - cbn [app count_bells_from]. change (eqc (chr "?") c_any) with true. cbn iota. rewrite IH. unfold width. cbn. lia.
  - rewrite <- app_comm_cons, <- app_assoc. cbn [count_bells_from].
    change (eqc (chr "[") c_any) with false. change (eqc (chr "[") c_open) with true. cbn iota.
    rewrite (count_bells_symbols Ht). cbn [app count_bells_from].
    change (eqc (chr "]") c_any) with false. change (eqc (chr "]") c_open) with false. change (eqc (chr "]") c_close) with true. cbn iota.
    rewrite IH. unfold width. cbn. lia.
  - cbn [app count_bells_from]. change (eqc (chr "*") c_any) with false. change (eqc (chr "*") c_open) with false. change (eqc (chr "*") c_close) with false. cbn iota.
    change (chr "*") with c_star. rewrite (so_star OK). cbn [negb andb]. rewrite IH. unfold width. cbn. lia.
Qed.
Lemma after_close_text l s : Forall (fun x => is_symbol sym x = true) l -> after_close (l ++ c_close :: s) = s.
Proof using OK.
  induction 1 as [|x l Hx _ IH]; cbn [app after_close].
  - now rewrite eqc_refl.
  - now rewrite (sym_not Hx (so_close OK)).
Qed.

Lemma read_extended_symbol c s : is_symbol sym c = true -> read_extended sym (c :: s) = Ret (bell_of c, s).
Proof using OK.
  intros H. unfold read_extended. rewrite (sym_not H (so_brace OK)). cbn [negb].
  pose proof (names_bell_of H) as E. unfold names in E. now rewrite E.
Qed.

Lemma ways_over p pos w : p <> [] -> b < pos -> ways p pos w = [].
Proof. intros H1 H2. destruct p as [|t p]; [congruence|]. cbn [ways]. apply Nat.ltb_lt in H2. now rewrite H2. Qed.

Lemma taken_0 pos : taken pos 0 = [].
Proof. reflexivity. Qed.
Lemma taken_S pos k : taken pos (S k) = rget junk r pos :: taken (S pos) k.
Proof. reflexivity. Qed.

(* a * that is not the last one *)
Lemma ways_star p pos w : p <> [] -> has_star p = true -> pos <= b ->
  ways (AnyBells :: p) pos w =
  ways p pos w ++ (if pos <=? S (length (text p)) then ways (AnyBells :: p) (S pos) (w ++ [rget junk r pos])
                   else ways p (S pos) (w ++ [rget junk r pos])).
Proof.
  intros Hp Hs Hb. destruct (Nat.eqb_spec (length p) 0) as [E|NE]; [apply length_zero_iff_nil in E; congruence|].
  apply Nat.eqb_neq in NE. set (L := S (length (text p))).
  cbn [ways]. fold L. destruct (b <? pos) eqn:B; [apply Nat.ltb_lt in B; lia|]. rewrite NE, Hs.
  cbn [seq map concat]. rewrite Nat.add_0_r, taken_0, app_nil_r. f_equal.
  assert (G : forall m, concat (map (fun k => ways p (pos + k) (w ++ taken pos k)) (seq 1 m)) =
                        concat (map (fun k => ways p (S pos + k) ((w ++ [rget junk r pos]) ++ taken (S pos) k)) (seq 0 m))).
  { intros m. rewrite <- seq_shift, map_map. f_equal. apply map_ext. intros k. rewrite taken_S, <- app_assoc.
    now rewrite <- plus_n_Sm. }
  rewrite G. unfold kmax at 1. destruct (Nat.leb_spec pos L) as [HL|HL].
  - destruct (b <? S pos) eqn:B'.
    + apply Nat.ltb_lt in B'. clear G.
      induction (seq 0 (L + 2 - pos)) as [|k l IH]; [reflexivity|]. cbn [map concat]. rewrite IH.
      rewrite ways_over; auto; lia.
    + replace (L + 2 - pos) with (S (kmax L (S pos))) by (unfold kmax; destruct (Nat.leb_spec (S pos) L); lia).
      reflexivity.
  - cbn [seq map concat]. now rewrite taken_0, !app_nil_r, Nat.add_0_r.
Qed.
Lemma ways_last_star p pos w : p <> [] -> has_star p = false -> pos <= b ->
  ways (AnyBells :: p) pos w =
  (if b - pos =? width p + 1 then ways p (S pos) (w ++ [rget junk r pos])
   else ways (AnyBells :: p) (S pos) (w ++ [rget junk r pos])).
Proof.
  intros Hp Hs Hb. destruct (Nat.eqb_spec (length p) 0) as [E|NE]; [apply length_zero_iff_nil in E; congruence|].
  apply Nat.eqb_neq in NE.
  cbn [ways]. destruct (b <? pos) eqn:B; [apply Nat.ltb_lt in B; lia|]. rewrite NE, Hs.
  destruct (Nat.eqb_spec (b - pos) (width p + 1)) as [E|E].
  - destruct (Nat.leb_spec (pos + width p + 1) b); [|lia].
    replace (b - width p) with (S pos) by lia. replace (S pos - pos) with 1 by lia. reflexivity.
  - destruct (Nat.leb_spec (pos + width p + 1) b).
    + destruct (b <? S pos) eqn:B'; [apply Nat.ltb_lt in B'; lia|].
      destruct (Nat.leb_spec (S pos + width p + 1) b); [|lia].
      f_equal. rewrite <- app_assoc. f_equal. replace (b - width p - pos) with (S (b - width p - S pos)) by lia.
      now rewrite taken_S.
    + destruct (b <? S pos); [reflexivity|]. destruct (Nat.leb_spec (S pos + width p + 1) b); [lia|reflexivity].
Qed.

(* ---- add ---- *)
Lemma concat_map_single A B (f : A -> list B) l : concat (map f l) = flat_map f l.
Proof. now rewrite flat_map_concat_map. Qed.

Lemma set_loop_events key pos p' fuel nd l :
  Forall (fun x => is_symbol sym x = true) l -> length l < fuel ->
  (forall n, exists n', mn_add fuel sym b key (pos + 1) (text p') n = Ret n' /\
     forall w, Permutation (events n' (pos + 1) w) (events n (pos + 1) w ++ map (pair key) (ways p' (pos + 1) w))) ->
  forall k s, length l <= k ->
  exists nd', set_loop sym k (l ++ c_close :: s) (fun x => mn_sub (x + 1) (mn_add fuel sym b key (pos + 1) (text p'))) nd = Ret nd' /\
    forall w, Permutation (events nd' pos w)
      (events nd pos w ++ map (pair key) (concat (map (fun c => if bell_of c =? rget junk r pos then ways p' (S pos) w else []) l))).
Proof using OK.
  intros Hl _ Hadd. revert nd. induction Hl as [|c l Hc _ IH]; intros nd k s Hk.
  - exists nd. split; [destruct k; cbn [app set_loop]; now rewrite eqc_refl|]. intros w. cbn. now rewrite app_nil_r.
  - cbn [length] in Hk. destruct k as [|k]; [lia|]. cbn [app set_loop].
    rewrite (sym_not Hc (so_close OK)), Hc. cbn [orb]. rewrite read_extended_symbol by exact Hc. cbn [bind].
    destruct (@mn_sub_total (bell_of c + 1) (mn_add fuel sym b key (pos + 1) (text p')) nd) as [nd1 E1].
    { intros n. destruct (Hadd n) as (n' & E & _). eauto. }
    rewrite E1. cbn [bind]. destruct (IH nd1 k s ltac:(lia)) as (nd' & E & P).
    exists nd'. split; [exact E|]. intros w. rewrite (P w).
    rewrite (@mn_sub_events (bell_of c + 1) _ nd nd1 pos (fun w => map (pair key) (ways p' (S pos) w)) E1).
    + cbn [map concat]. rewrite map_app, <- app_assoc. apply Permutation_app_head. apply Permutation_app_tail.
      replace (bell_of c + 1 =? 0) with false by (symmetry; apply Nat.eqb_neq; lia).
      replace (bell_of c + 1 =? rget junk r pos + 1) with (bell_of c =? rget junk r pos).
      * now destruct (bell_of c =? rget junk r pos).
      * destruct (Nat.eqb_spec (bell_of c) (rget junk r pos)), (Nat.eqb_spec (bell_of c + 1) (rget junk r pos + 1)); lia.
    + intros n n' En v. destruct (Hadd n) as (n2 & E2 & P2). rewrite E2 in En. injection En as <-.
      replace (S pos) with (pos + 1) by lia. apply P2.
Qed.

Lemma add_spec key : forall fuel p pos nd, pattern_ok sym p -> length (text p) + (b + 1 - pos) <= fuel ->
  exists nd', mn_add fuel sym b key pos (text p) nd = Ret nd' /\
    forall w, Permutation (events nd' pos w) (events nd pos w ++ map (pair key) (ways p pos w)).
Proof using OK.
  induction fuel as [|fuel IH]; intros p pos nd Hok Hf.
  { assert (p = []) as -> by (apply text_nil; destruct (text p); cbn in *; [reflexivity|lia]).
    exists (mn_push key nd). split; [reflexivity|]. intros w. apply events_push. }
  destruct p as [|t p].
  { exists (mn_push key nd). split; [reflexivity|]. intros w. apply events_push. }
  inversion Hok as [|? ? Ht Hok']; subst.
  rewrite text_cons in *. rewrite app_length in Hf.
  assert (Hover : b < pos -> exists nd', mn_add (S fuel) sym b key pos (item_text t ++ text p) nd = Ret nd' /\
    forall w, Permutation (events nd' pos w) (events nd pos w ++ map (pair key) (ways (t :: p) pos w))).
  { intros B. exists nd. split.
    - pose proof (item_text_pos t). destruct (item_text t) as [|c s] eqn:Et; [cbn in *; lia|]. cbn [app mn_add].
      apply Nat.ltb_lt in B. now rewrite B.
    - intros w. rewrite ways_over; [|discriminate|exact B]. cbn. now rewrite app_nil_r. }
  destruct (Nat.ltb_spec b pos) as [B|B]; [exact (Hover B)|]. clear Hover.
  assert (Bf : (b <? pos) = false) by (apply Nat.ltb_ge; lia).
  (* one step down, to the pattern q *)
  assert (Sub : forall q place, pattern_ok sym q -> length (text q) + (b + 1 - (pos + 1)) <= fuel -> forall nd,
    exists nd', mn_sub place (mn_add fuel sym b key (pos + 1) (text q)) nd = Ret nd' /\
      forall w, Permutation (events nd' pos w)
        (events nd pos w ++ map (pair key) (if place =? 0 then ways q (S pos) (w ++ [rget junk r pos])
                                            else if place =? rget junk r pos + 1 then ways q (S pos) w else []))).
  { intros q place Hq Hl n0. destruct (@mn_sub_total place (mn_add fuel sym b key (pos + 1) (text q)) n0) as [n1 E1].
    { intros n. destruct (IH q (pos + 1) n Hq Hl) as (n' & E & _). eauto. }
    exists n1. split; [exact E1|]. intros w.
    rewrite (@mn_sub_events place _ n0 n1 pos (fun w => map (pair key) (ways q (S pos) w)) E1).
    - destruct (place =? 0); [reflexivity|]. now destruct (place =? rget junk r pos + 1).
    - intros n n' En v. destruct (IH q (pos + 1) n Hq Hl) as (n2 & E2 & P2). rewrite E2 in En. injection En as <-.
      replace (S pos) with (pos + 1) by lia. apply P2. }
  destruct t as [c| |l|]; cbn [item_text item_ok] in *.
  - cbn [app mn_add length] in *. rewrite Bf, Ht. cbn [orb]. rewrite read_extended_symbol by exact Ht. cbn [bind].
    destruct (Sub p (bell_of c + 1) Hok' ltac:(lia) nd) as (nd' & E & P). exists nd'. split; [exact E|].
    intros w. rewrite (P w). cbn [ways]. rewrite Bf.
    replace (bell_of c + 1 =? 0) with false by (symmetry; apply Nat.eqb_neq; lia).
    replace (bell_of c + 1 =? rget junk r pos + 1) with (bell_of c =? rget junk r pos); [reflexivity|].
    destruct (Nat.eqb_spec (bell_of c) (rget junk r pos)), (Nat.eqb_spec (bell_of c + 1) (rget junk r pos + 1)); lia.
  - change (chr "?") with c_any. cbn [app mn_add length] in *. rewrite Bf, (so_any OK). change (eqc c_any (chr "{")) with false.
    change (eqc c_any c_any) with true. cbn [orb].
    destruct (Sub p 0 Hok' ltac:(lia) nd) as (nd' & E & P). exists nd'. split; [exact E|].
    intros w. rewrite (P w). cbn [ways]. now rewrite Bf.
  - change (chr "[") with c_open. change (chr "]") with c_close. rewrite <- app_comm_cons, <- app_assoc.
    cbn [app mn_add length] in *. rewrite app_length in Hf. cbn [length] in Hf. rewrite Bf, (so_open OK).
    change (eqc c_open (chr "{")) with false. change (eqc c_open c_any) with false. change (eqc c_open c_open) with true. cbn [orb].
    rewrite (after_close_text _ Ht).
    destruct (@set_loop_events key pos p fuel nd l Ht) with (k := length (l ++ c_close :: text p)) (s := text p) as (nd' & E & P).
    + lia.
    + intros n. apply IH; [exact Hok'|lia].
    + rewrite app_length. lia.
    + exists nd'. split; [exact E|]. intros w. rewrite (P w). cbn [ways]. now rewrite Bf.
  - change (chr "*") with c_star. cbn [app mn_add length] in *. rewrite Bf, (so_star OK).
    change (eqc c_star (chr "{")) with false. change (eqc c_star c_any) with false. change (eqc c_star c_open) with false.
    change (eqc c_star c_star) with true. cbn [orb].
    destruct p as [|t p].
    { cbn [text map concat]. exists (mn_push key nd). split; [reflexivity|]. intros w. rewrite events_push.
      cbn [ways length Nat.eqb]. rewrite Bf. reflexivity. }
    remember (t :: p) as q eqn:Eq. assert (Hq : q <> []) by (subst; discriminate).
    assert (Hne : text q <> []) by (intros K; apply text_nil in K; contradiction).
    assert (Hok1 : pattern_ok sym (AnyBells :: q)) by (constructor; [exact I|exact Hok']).
    assert (Em : forall (A : Type) (x y : A), match text q with [] => x | _ :: _ => y end = y)
      by (intros; destruct (text q); [congruence|reflexivity]).
    rewrite Em, (has_star_text Hok').
    destruct (has_star q) eqn:Hs; cbn [negb].
    + destruct (IH q pos nd Hok' ltac:(lia)) as (nd1 & E1 & P1). rewrite E1. cbn [bind].
      destruct (Nat.leb_spec pos (S (length (text q)))) as [HL|HL].
      * destruct (Sub (AnyBells :: q) 0 Hok1 ltac:(rewrite text_cons; cbn [item_text app length]; lia) nd1) as (nd2 & E2 & P2).
        exists nd2. split; [exact E2|]. intros w. rewrite (P2 w), (P1 w).
        rewrite (ways_star w Hq Hs B). destruct (Nat.leb_spec pos (S (length (text q)))) as [_|K]; [|lia].
        cbn [Nat.eqb]. rewrite map_app, app_assoc. reflexivity.
      * destruct (Sub q 0 Hok' ltac:(lia) nd1) as (nd2 & E2 & P2).
        exists nd2. split; [exact E2|]. intros w. rewrite (P2 w), (P1 w).
        rewrite (ways_star w Hq Hs B). destruct (Nat.leb_spec pos (S (length (text q)))) as [K|_]; [lia|].
        cbn [Nat.eqb]. rewrite map_app, app_assoc. reflexivity.
    + assert (Ec : count_bells sym (c_star :: text q) = width q).
      { change (c_star :: text q) with (text (AnyBells :: q)). unfold count_bells. now rewrite (count_bells_text Hok1). }
      rewrite Ec. destruct (Nat.eqb_spec (b - pos) (width q + 1)) as [EE|EE].
      * destruct (Sub q 0 Hok' ltac:(lia) nd) as (nd2 & E2 & P2). exists nd2. split; [exact E2|]. intros w. rewrite (P2 w).
        rewrite (ways_last_star w Hq Hs B). destruct (Nat.eqb_spec (b - pos) (width q + 1)) as [_|K]; [reflexivity|contradiction].
      * destruct (Sub (AnyBells :: q) 0 Hok1 ltac:(rewrite text_cons; cbn [item_text app length]; lia) nd) as (nd2 & E2 & P2).
        exists nd2. split; [exact E2|]. intros w. rewrite (P2 w).
        rewrite (ways_last_star w Hq Hs B). destruct (Nat.eqb_spec (b - pos) (width q + 1)) as [K|_]; [contradiction|reflexivity].
Qed.
End Tree.
