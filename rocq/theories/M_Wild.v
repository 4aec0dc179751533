(* M_Wild.v - model of row_wildcard::count (ringing/row_wildcard.cpp).  A string s with an
   offset pos is modelled by the characters before pos (done, empty or in order) and from
   pos on (rest).  Only patterns that check_expression accepts are in a row_wildcard. *)
From Verif Require Import Base M_Bell M_Change M_Math M_Row M_Music.
Open Scope nat_scope.

(* RINGING_ULLONG arithmetic *)
Definition u64 (z : Z) : Z := (z mod 18446744073709551616)%Z.

(* row_wildcard.cpp:339-340: the characters from here to the first ] (excluded); none: past the end *)
Fixpoint before_close (s : list ascii) : option (list ascii) :=
  match s with
  | [] => None
  | c :: t => if eqc c c_close then Some [] else match before_close t with Some l => Some (c :: l) | None => None end
  end.

(* ---- make_intersection: row_wildcard.cpp:110-232.  a and b are the two strings from ai
   and bi on; they are never moved past their first star.  The result is what is appended
   to dest, or None for false. ---- *)
Definition is_wild (c : ascii) : bool := eqc c c_star || eqc c c_any.
(* lines 226-227: a step, not past the star *)
Definition step_on (s : list ascii) : list ascii :=
  match s with [] => [] | c :: t => if eqc c c_star then s else t end.
(* 110-122 copy_choices: what is copied, and the string after it (after the step) *)
Definition copy_choices (src : list ascii) : outcome (list ascii * list ascii) :=
  match src with
  | [] => UB
  | c :: t => match before_close t with
              | None => Throw PatternInvalid
              | Some l => Ret (c :: l ++ [c_close], after_close t)
              end
  end.
(* 124-140 copy_if_choices_contains: whether sym is there, in src from its [ to its ] *)
Definition choices_contain (src : list ascii) (c : ascii) : outcome bool :=
  match src with
  | [] => UB
  | _ :: t => match before_close t with None => Throw PatternInvalid | Some l => Ret (has_char c l) end
  end.
(* 142-160 copy_choices_intersection: la are the choices of a.  b stays at its [ if the last
   of la is not in it. *)
Fixpoint choices_inter (la : list ascii) (b : list ascii) (last : bool) : outcome (list ascii * bool) :=
  match la with
  | [] => Ret ([], last)
  | c :: la => h <- choices_contain b c ;; '(l, z) <- choices_inter la b h ;; Ret (if h then c :: l else l, z)
  end.
Fixpoint make_intersection (fuel : nat) (sym : symtab) (a b : list ascii) : outcome (option (list ascii)) :=
  match a, b with
  | x :: ta, y :: tb =>
    if eqc x c_star && eqc y c_star then Ret (Some a) else                      (* 175, 230 *)
    match fuel with
    | O => Diverge
    | S fuel =>
      let put l a' b' := r <- make_intersection fuel sym a' b' ;; Ret (match r with Some d => Some (l ++ d) | None => None end) in
      if is_wild x && is_wild y then put [c_any] (step_on a) (step_on b)        (* 186-187 *)
      else if is_wild x && is_symbol sym y then put [y] (step_on a) (step_on b) (* 189-190 *)
      else if is_wild y && is_symbol sym x then put [x] (step_on a) (step_on b) (* 191-192 *)
      else if is_symbol sym x then                                              (* 194-198; a_bell twice *)
        if eqc x y then put [x] (step_on a) (step_on b) else Ret None
      else if is_wild x && eqc y c_open then                                    (* 200-201 *)
        '(l, b') <- copy_choices b ;; put l (step_on a) b'
      else if is_wild y && eqc x c_open then                                    (* 202-203 *)
        '(l, a') <- copy_choices a ;; put l a' (step_on b)
      else if is_symbol sym y && eqc x c_open then                              (* 209-212 *)
        h <- choices_contain a y ;; if h then put [y] (after_close ta) (step_on b) else Ret None
      else if eqc x c_open && eqc y c_open then                                 (* 214-217 *)
        match before_close ta with
        | None => UB
        | Some la =>
          '(l, last) <- choices_inter la b false ;;
          match l with
          | [] => Ret None
          | _ :: _ => put (c_open :: l ++ [c_close]) (after_close ta) (if last then after_close tb else tb)
          end
        end
      else Throw PatternInvalid
    end
  | _, _ => UB
  end.

(* row_wildcard.cpp:412-424: whether no fixed bell comes before the next star *)
Fixpoint no_fixed_bell (sym : symtab) (s : list ascii) (brackets : bool) : bool :=
  match s with
  | [] => true
  | c :: t =>
    if eqc c c_star then true
    else if eqc c c_open then no_fixed_bell sym t true
    else if eqc c c_close then no_fixed_bell sym t false
    else if negb brackets && is_symbol sym c then false
    else no_fixed_bell sym t brackets
  end.

Definition quests (n : nat) : list ascii := repeat c_any n.

(* row_wildcard.cpp:340-358: the loop over the choices l; seen are those before *)
Fixpoint choice_loop (pm : list ascii -> outcome (Z * nat)) (done seen l : list ascii) (total : Z) : outcome Z :=
  match l with
  | [] => Ret total
  | c :: l =>
    total <- (if negb (has_char c done) && negb (has_char c seen) then '(v, _) <- pm [c] ;; Ret (u64 (total + v)) else Ret total) ;;
    choice_loop pm done (seen ++ [c]) l total
  end.

(* row_wildcard.cpp:309-456 possible_matches: the value returned and q.  When there are more
   bells in the pattern than bells (376: an unsigned difference wraps) it is taken not to return. *)
Fixpoint possible_matches (fuel : nat) (sym : symtab) (bells : nat) (done rest : list ascii) (q : nat) : outcome (Z * nat) :=
  match fuel with
  | O => Diverge
  | S fuel =>
    match rest with
    | [] => if count_bells sym (done ++ rest) <? bells then possible_matches fuel sym bells done [c_star] q  (* 312-321 *)
            else Ret (1%Z, q)
    | c :: t =>
      if is_symbol sym c then possible_matches fuel sym bells (done ++ [c]) t q                 (* 324-327 *)
      else if eqc c c_any then                                                                  (* 328-332 *)
        '(v, q') <- possible_matches fuel sym bells (done ++ [c]) t (q + 1) ;; Ret (u64 (v * Z.of_nat (q + 1)), q')
      else if eqc c c_open then                                                                 (* 333-361 *)
        match before_close t with
        | None => UB
        | Some l =>
          total <- choice_loop (fun ch => possible_matches fuel sym bells done (ch ++ after_close t) q) done [] l 0%Z ;;
          Ret (total, q)
        end
      else if eqc c c_star then
        match t with
        | c' :: _ =>
          if eqc c' c_star then possible_matches fuel sym bells done t q                        (* 367-373 *)
          else if bells <? count_bells sym (done ++ rest) then Diverge
          else
            let n := bells - count_bells sym (done ++ rest) in                                  (* 376 *)
            if negb (has_char c_star t) then possible_matches fuel sym bells done (quests n ++ t) q   (* 378-382 *)
            else
              let need := no_fixed_bell sym t false in                                          (* 412-424 *)
              total <- forM (seq 0 (S n)) (fun total i =>                                       (* 428-445 *)
                '(v, _) <- possible_matches fuel sym bells done (quests i ++ t) q ;;
                forM (if need then seq 0 i else []) (fun total j =>
                  m <- make_intersection (2 * (length done + bells + length t) + 2) sym (done ++ quests i ++ t) (done ++ quests j ++ t) ;;
                  match m with
                  | None => Ret total
                  | Some s => '(v, _) <- possible_matches fuel sym bells (firstn (length done) s) (skipn (length done) s) q ;;
                              Ret (u64 (total - v))
                  end) (u64 (total + v))) 0%Z ;;
              Ret (total, q)
        | [] =>
          if bells <? count_bells sym (done ++ rest) then Diverge
          else possible_matches fuel sym bells done (quests (bells - count_bells sym (done ++ rest)) ++ t) q
        end
      else Throw PatternInvalid                                                                 (* 450-454 *)
    end
  end.

(* row_wildcard.cpp:280-290 count *)
Definition rw_count (sym : symtab) (w : row_wildcard) (bells : nat) : outcome Z :=
  let bells := if bells =? 0 then rw_b w else bells in
  if bells =? 0 then Throw PatternInvalid else
  '(v, _) <- possible_matches (length (rw_pat w) + 3 * bells + 3) sym bells [] (rw_pat w) 0 ;; Ret v.
(* music.cpp:149-152 possible_matches: unsigned int; 142-147 possible_score: an int from unsigned *)
Definition md_possible_matches (sym : symtab) (d : details) (bells : nat) : outcome Z :=
  v <- rw_count sym (mkRW (md_pat d) 0) bells ;; Ret (u32 v).
Definition md_possible_score (sym : symtab) (d : details) (bells : nat) : outcome Z :=
  v <- md_possible_matches sym d bells ;; Ret (s32 (v * (if (md_scoreb d <? md_scoreh d)%Z then md_scoreh d else md_scoreb d))).
(* music.cpp:445-452 get_possible_score *)
Definition get_possible_score (sym : symtab) (m : music) : outcome Z :=
  forM (mu_info m) (fun t d => v <- md_possible_score sym d (mu_b m) ;; as_int (t + v)) 0%Z.
