(* M_Music.v - model of ringing/row_wildcard.{h,cpp} and ringing/music.{h,cpp}.
   Patterns are std::strings (lists of characters); an offset i into a pattern is modelled by
   the characters from i on.  Offsets and sizes are below 2^32.  Messages of exceptions are
   not modelled. *)
From Verif Require Import Base M_Bell M_Change M_Math M_Row.
Open Scope nat_scope.

Definition c_any : ascii := chr "?".
Definition c_star : ascii := chr "*".
Definition c_open : ascii := chr "[".
Definition c_close : ascii := chr "]".
(* s.find(c): is there one *)
Definition has_char (c : ascii) (s : list ascii) : bool := existsb (eqc c) s.

(* row_wildcard.cpp:236-278 check_expression; sq is sqbrackets *)
Fixpoint check_expression_from (sym : symtab) (s : list ascii) (sq : bool) : outcome unit :=
  match s with
  | [] => if sq then Throw PatternInvalid else Ret tt
  | c :: t =>
    if is_symbol sym c then check_expression_from sym t sq
    else if eqc c c_any || eqc c c_star then
      if sq then Throw PatternInvalid else check_expression_from sym t sq
    else if eqc c c_open then
      if sq then Throw PatternInvalid else check_expression_from sym t true
    else if eqc c c_close then
      if sq then check_expression_from sym t false else Throw PatternInvalid
    else Throw PatternInvalid
  end.
Definition check_expression (sym : symtab) (s : list ascii) : outcome unit := check_expression_from sym s false.

(* row_wildcard.cpp:56-67 set_bells: the check *)
Definition check_bells (sym : symtab) (s : list ascii) (b : nat) : outcome unit :=
  if b =? 0 then Ret tt else
  forM s (fun _ c => if is_symbol sym c then x <- read_char sym c ;; if b <=? x then Throw PatternInvalid else Ret tt
                     else Ret tt) tt.
(* row_wildcard.cpp:42-54 set, row_wildcard.h: the pattern and b *)
Record row_wildcard := mkRW { rw_pat : list ascii; rw_b : nat }.
Definition rw_set (sym : symtab) (s : list ascii) (b : nat) : outcome row_wildcard :=
  _ <- check_expression sym s ;; _ <- check_bells sym s b ;; Ret (mkRW s b).

(* music.cpp:79-97, row_wildcard.cpp:72-98 count_bells *)
Fixpoint count_bells_from (sym : symtab) (s : list ascii) (brackets : bool) (total : nat) : nat :=
  match s with
  | [] => total
  | c :: t =>
    if eqc c c_any then count_bells_from sym t brackets (S total)
    else if eqc c c_open then count_bells_from sym t true total
    else if eqc c c_close then count_bells_from sym t false (S total)
    else if negb brackets && is_symbol sym c then count_bells_from sym t brackets (S total)
    else count_bells_from sym t brackets total
  end.
Definition count_bells (sym : symtab) (s : list ascii) : nat := count_bells_from sym s false 0.

(* ---- music_details: music.h:68-113 ---- *)
Record details := mkMD { md_pat : list ascii; md_counth : Z; md_countb : Z; md_scoreh : Z; md_scoreb : Z; md_last : list nat }.
Inductive stroke := eHandstroke | eBackstroke | eBoth.
(* music.cpp:109-135 the constructor and set(e, sh, sb) *)
Definition md_make (sym : symtab) (e : list ascii) (sh sb : Z) : outcome details :=
  w <- rw_set sym e 0 ;; Ret (mkMD (rw_pat w) 0 0 sh sb []).
(* int from a 32-bit unsigned *)
Definition s32 (z : Z) : Z := let w := u32 z in if (w <? 2147483648)%Z then w else (w - 4294967296)%Z.
(* music.cpp:154-162 count, 165-173 total: unsigned arithmetic *)
Definition md_count (d : details) (s : stroke) : Z :=
  match s with eHandstroke => md_counth d | eBackstroke => md_countb d | eBoth => u32 (md_counth d + md_countb d) end.
Definition md_total (d : details) (s : stroke) : Z :=
  match s with
  | eHandstroke => s32 (md_counth d * md_scoreh d)
  | eBackstroke => s32 (md_countb d * md_scoreb d)
  | eBoth => s32 (md_counth d * md_scoreh d + md_countb d * md_scoreb d)
  end.
(* music.cpp:189-192 clear *)
Definition md_clear (d : details) : details := mkMD (md_pat d) 0 0 (md_scoreh d) (md_scoreb d) (md_last d).
(* music.cpp:195-199 increment, and 340: last_wildcards = wilds2 *)
Definition md_hit (back : bool) (wilds : list nat) (d : details) : details :=
  if back then mkMD (md_pat d) (md_counth d) (u32 (md_countb d + 1)) (md_scoreh d) (md_scoreb d) wilds
  else mkMD (md_pat d) (u32 (md_counth d + 1)) (md_countb d) (md_scoreh d) (md_scoreb d) wilds.

(* ---- music_node: music.cpp:36-77.  bells is the same in all nodes of a tree and is
   passed along; the map of subnodes is an association list. ---- *)
Inductive mnode := MNode (subs : list (nat * mnode)) (dm : list nat).
Definition mnode_empty : mnode := MNode [] [].
(* detailsmatch.push_back(key) *)
Definition mn_push (key : nat) (nd : mnode) : mnode :=
  match nd with MNode subs dm => MNode subs (dm ++ [key]) end.
(* music.cpp:305-306: subnodes[place], made if not there, then changed by f *)
Fixpoint sub_update (place : nat) (f : mnode -> outcome mnode) (subs : list (nat * mnode)) : outcome (list (nat * mnode)) :=
  match subs with
  | [] => n <- f mnode_empty ;; Ret [(place, n)]
  | (p, n) :: t => if p =? place then n <- f n ;; Ret ((p, n) :: t)
                   else t <- sub_update place f t ;; Ret ((p, n) :: t)
  end.
Definition mn_sub (place : nat) (f : mnode -> outcome mnode) (nd : mnode) : outcome mnode :=
  match nd with MNode subs dm => subs <- sub_update place f subs ;; Ret (MNode subs dm) end.

(* music.cpp:260-272: the bells up to the closing bracket, each given to f in turn *)
Fixpoint set_loop (sym : symtab) (fuel : nat) (q : list ascii) (f : nat -> mnode -> outcome mnode) (nd : mnode) : outcome mnode :=
  match q with
  | [] => UB
  | c :: _ =>
    if eqc c c_close then Ret nd
    else if is_symbol sym c || eqc c (chr "{") then
      match fuel with
      | O => Diverge
      | S fuel => '(b, q') <- read_extended sym q ;; nd <- f b nd ;; set_loop sym fuel q' f nd
      end
    else Throw PatternInvalid
  end.
(* what follows the first closing bracket (music.cpp:260 and i + 1 in add_to_subtree) *)
Fixpoint after_close (s : list ascii) : list ascii :=
  match s with [] => [] | c :: t => if eqc c c_close then t else after_close t end.

(* music.cpp:226-301 add and 303-324 add_to_subtree; rest is the pattern from offset i *)
Fixpoint mn_add (fuel : nat) (sym : symtab) (bells key pos : nat) (rest : list ascii) (nd : mnode) : outcome mnode :=
  match rest with
  | [] => Ret (mn_push key nd)                                                  (* 235-236 *)
  | c :: t =>
    if bells <? pos then Ret nd else                                            (* 240-241 *)
    match fuel with
    | O => Diverge
    | S fuel =>
      if is_symbol sym c || eqc c (chr "{") then                                (* 248-252 *)
        '(b, rest') <- read_extended sym rest ;;
        mn_sub (b + 1) (mn_add fuel sym bells key (pos + 1) rest') nd
      else if eqc c c_any then                                                  (* 255-256 *)
        mn_sub 0 (mn_add fuel sym bells key (pos + 1) t) nd
      else if eqc c c_open then                                                 (* 259-273 *)
        set_loop sym (length t) t (fun b => mn_sub (b + 1) (mn_add fuel sym bells key (pos + 1) (after_close t))) nd
      else if eqc c c_star then
        match t with
        | [] => Ret (mn_push key nd)                                            (* 279-280 *)
        | _ :: _ =>
          if negb (has_char c_star t) then                                      (* 284-285, 311-317 *)
            mn_sub 0 (mn_add fuel sym bells key (pos + 1)
                       (if bells - pos =? count_bells sym rest + 1 then t else rest)) nd
          else                                                                  (* 287-296 *)
            nd <- mn_add fuel sym bells key pos t nd ;;
            mn_sub 0 (mn_add fuel sym bells key (pos + 1) (if pos <=? length rest then rest else t)) nd
        end
      else Throw PatternInvalid
    end
  end.

(* r[pos]: there is no range check, and match reads one place after the row (music.cpp:349, 355);
   what is found there is junk *)
Definition rget (junk : nat) (r : row) (pos : nat) : nat := nth pos r junk.
(* results[*i].increment(stroke); results[*i].last_wildcards = wilds2 (music.cpp:339-340) *)
Definition hit (back : bool) (wilds : list nat) (res : list details) (k : nat) : outcome (list details) :=
  d <- vget res k ;; vset res k (md_hit back wilds d).
(* music.cpp:326-360 match: results and the value returned *)
Fixpoint mn_match (junk : nat) (r : row) (back : bool) (nd : mnode) (pos : nat) (wilds : list nat) (res : list details)
  : outcome (list details * bool) :=
  match nd with
  | MNode subs dm =>
    res <- forM dm (hit back (wilds ++ skipn pos r)) res ;;                      (* 332-342 *)
    let sub := fix sub (l : list (nat * mnode)) (place : nat) (wilds : list nat) (st : list details * bool) :=
      match l with
      | [] => Ret st
      | (p, n) :: l =>
        if p =? place then '(res, m) <- mn_match junk r back n (S pos) wilds (fst st) ;; Ret (res, m || snd st)
        else sub l place wilds st
      end in
    st <- sub subs 0 (wilds ++ [rget junk r pos]) (res, negb (length dm =? 0)) ;; (* 344-352 *)
    sub subs (rget junk r pos + 1) wilds st                                      (* 354-357 *)
  end.

(* ---- music: music.h:116-207 ---- *)
Record music := mkMusic { mu_info : list details; mu_top : mnode; mu_b : nat }.
(* music.cpp:367-371 the constructor *)
Definition music_make (b : nat) : music := mkMusic [] mnode_empty b.
(* music.cpp:409-414 reset_music *)
Definition reset_music (m : music) : music := mkMusic (map md_clear (mu_info m)) (mu_top m) (mu_b m).
(* music.cpp:380-385 clear; info keeps its entries *)
Definition music_clear (m : music) (new_b : nat) : music :=
  reset_music (mkMusic (mu_info m) mnode_empty (if new_b =? 0 then mu_b m else new_b)).
(* enough for the recursion of add *)
Definition add_fuel (b : nat) (s : list ascii) : nat := 3 * length s + 2 * b + 5.
(* music.cpp:388-395 push_back *)
Definition music_push (sym : symtab) (m : music) (d : details) : outcome music :=
  _ <- check_bells sym (md_pat d) (mu_b m) ;;
  let info := mu_info m ++ [d] in
  top <- mn_add (add_fuel (mu_b m) (md_pat d)) sym (mu_b m) (length info - 1) 0 (md_pat d) (mu_top m) ;;
  Ret (mkMusic info top (mu_b m)).
(* music.h:132-136 append *)
Definition music_append (sym : symtab) (m : music) (l : list details) : outcome music := forM l (music_push sym) m.
(* music.cpp:397-406 set_bells.  The tree is not built again. *)
Definition music_set_bells (sym : symtab) (m : music) (b : nat) : outcome music :=
  if mu_b m =? b then Ret m else
  _ <- forM (mu_info m) (fun _ d => check_bells sym (md_pat d) b) tt ;;
  Ret (mkMusic (mu_info m) (mu_top m) b).
(* music.cpp:418-425 process_row *)
Definition process_row (junk : nat) (m : music) (r : row) (back : bool) : outcome (music * bool) :=
  let info := map (fun d => mkMD (md_pat d) (md_counth d) (md_countb d) (md_scoreh d) (md_scoreb d) []) (mu_info m) in
  '(info, ok) <- mn_match junk r back (mu_top m) 0 [] info ;;
  Ret (mkMusic info (mu_top m) (mu_b m), ok).
(* music.h:156-163 process_rows *)
Definition process_rows (junk : nat) (m : music) (rows : list row) (back : bool) : outcome music :=
  st <- forM rows (fun st r => '(m, _) <- process_row junk (fst st) r (snd st) ;; Ret (m, negb (snd st)))
         (reset_music m, back) ;;
  Ret (fst st).
(* music.cpp:428-434 get_score (an int: undefined on overflow), 437-443 get_count *)
Definition get_score (m : music) (s : stroke) : outcome Z :=
  forM (mu_info m) (fun t d => as_int (t + md_total d s)) 0%Z.
Definition get_count (m : music) (s : stroke) : Z :=
  fold_left (fun t d => u32 (t + md_count d s)) (mu_info m) 0%Z.

(* ---- named music ---- *)
Inductive match_pos := anywhere | at_front | at_back.
(* music.cpp:454-480 make_runs_match: the details it contains.  b, n are ints, here >= 0; bell(int) wraps. *)
Definition run_pattern (sym : symtab) (pos : match_pos) (bells : list nat) : list ascii :=
  (match pos with at_front => [] | _ => [c_star] end) ++ concat (map (print_bell sym) bells) ++
  (match pos with at_back => [] | _ => [c_star] end).
Definition run_up (i n : nat) : list nat := map b8 (seq i n).
Definition run_patterns (sym : symtab) (b n : nat) (pos : match_pos) (dir : Z) : list (list ascii) :=
  let starts := if b <? n then [] else seq 0 (S (b - n)) in
  (if (0 <=? dir)%Z then map (fun i => run_pattern sym pos (run_up i n)) starts else []) ++
  (if (dir <=? 0)%Z then map (fun i => run_pattern sym pos (rev (run_up i n))) starts else []).
Definition push_patterns (sym : symtab) (ps : list (list ascii)) (sh sb : Z) (m : music) : outcome music :=
  forM ps (fun m p => d <- md_make sym p sh sb ;; music_push sym m d) m.
Definition make_runs_match (sym : symtab) (b n : nat) (pos : match_pos) (dir sh sb : Z) : outcome music :=
  push_patterns sym (run_patterns sym b n pos dir) sh sb (music_make b).
(* music.cpp:505-521 make_cru_match *)
Definition cru_patterns (sym : symtab) (b : nat) : list (list ascii) :=
  if b <? 6 then [] else
  concat (map (fun i => concat (map (fun j => if i =? j then [] else
    [c_star :: print_bell sym i ++ print_bell sym j ++ concat (map (print_bell sym) (map b8 (seq 6 (b - 6))))])
    [3; 4; 5])) [3; 4; 5]).
Definition make_cru_match (sym : symtab) (b : nat) (sh sb : Z) : outcome music :=
  push_patterns sym (cru_patterns sym b) sh sb (music_make b).
