(* Spec_MethClass.v - what the class of a method is, in terms of the paths of its bells. *)
From Verif Require Import Base M_Change M_Method Spec_Row Spec_Change Spec_Method.
Set Implicit Arguments.
Unset Strict Implicit.
Open Scope nat_scope.

(* the kinds, with the numbers the library gives them *)
Inductive kind := Principle | Bob | Place | TrebleBob | Surprise | Delight | TreblePlace | Alliance | Hybrid | SlowCourse.
Definition kind_code (k : kind) : Z :=
  match k with
  | Principle => 1 | Bob => 2 | Place => 3 | TrebleBob => 4 | Surprise => 5 | Delight => 6
  | TreblePlace => 7 | Alliance => 8 | Hybrid => 9 | SlowCourse => 10
  end.
Definition class_code (k : kind) (differential little : bool) : Z :=
  (kind_code k + (if differential then 16 else 0) + (if little then 128 else 0))%Z.

(* a bell on n that is somewhere else after a lead *)
Definition working_bell (L : list change) (n x : nat) : Prop := x < n /\ ~ hunt_bell L x.
(* two working bells take different numbers of leads to come home *)
Definition unequal_cycles (L : list change) (n : nat) : Prop :=
  exists x y k, working_bell L n x /\ working_bell L n y /\
    path L x (k * length L) = x /\ path L y (k * length L) <> y.
(* two working bells never ring each other's leads *)
Definition separate_cycles (L : list change) (n : nat) : Prop :=
  exists x y, working_bell L n x /\ working_bell L n y /\ forall k, path L x (k * length L) <> y.
Definition is_differential (L : list change) (n : nat) (year : Z) : Prop :=
  ((year >= 2019)%Z /\ unequal_cycles L n) \/ ((year < 2019)%Z /\ separate_cycles L n).

(* the treble is the first hunt bell *)
Definition treble (L : list change) (n x : nat) : Prop := least_below n (hunt_bell L) x.
(* it does not cover all the places *)
Definition is_little (L : list change) (n : nat) : Prop :=
  exists x, treble L n x /\ ~ ((exists t, path L x t = 0) /\ (exists t, path L x t + 1 = n)).
(* its path is the same backwards, about two places half a lead apart *)
Definition palindromic_path (L : list change) (x : nat) : Prop :=
  Nat.even (length L) = true /\ exists p, p < length L / 2 /\ path_reflects_about L x p.
(* it goes the same way between just two places (see C45_isplain) *)
Definition plain_hunts (L : list change) (x : nat) : Prop :=
  places_made L x (length L) = 2 /\ forall k, k < length L -> keeps_direction L x k.
(* it steps back to where it was *)
Definition dodges (L : list change) (x : nat) : Prop :=
  exists k, 1 <= k <= length L /\ path L x (k + 1) = path L x (k - 1) /\ path L x (k + 1) <> path L x k.
(* the lowest and highest places it visits *)
Definition covers (L : list change) (x lo hi : nat) : Prop :=
  (exists t, path L x t = lo) /\ (exists t, path L x t = hi) /\ forall t, lo <= path L x t <= hi.
(* how many blows of a lead it strikes in place p *)
Definition blows_at (L : list change) (x p : nat) : nat :=
  length (filter (fun t => path L x t =? p) (seq 0 (length L))).
Definition equal_time (L : list change) (x lo hi : nat) : Prop :=
  forall p, lo <= p <= hi -> blows_at L x p = blows_at L x lo.
Definition internal_place (c : change) : Prop := exists p, 0 < p /\ p + 1 < cn c /\ place_made c p.
(* the changes between the parts of the half lead, when the first half lead and the second are
   each cut into parts of length(L)/(hi-lo+1) changes: the last of each part but the last, and
   its mirror image *)
Definition section_change (L : list change) (lo hi : nat) (c : change) : Prop :=
  exists q i, 0 < q /\ i + 1 = q * (length L / (hi - lo + 1)) /\ i + 1 < length L / 2 /\
    (nth_error L i = Some c \/ nth_error L (length L - 2 - i) = Some c).

Definition slow_course (L : list change) (n x : nat) (year : Z) : Prop :=
  (year < 2019)%Z /\ x = 0 /\ 1 < n /\ hunt_bell L 1 /\ path_reflects_about L 1 (length L / 2 - 1).

Definition of_kind (L : list change) (n : nat) (year : Z) (k : kind) : Prop :=
  match k with
  | Principle => forall x, x < n -> ~ hunt_bell L x
  | Hybrid => exists x, treble L n x /\ ~ palindromic_path L x
  | SlowCourse => exists x, treble L n x /\ palindromic_path L x /\ plain_hunts L x /\ slow_course L n x year
  | Bob => exists x, treble L n x /\ palindromic_path L x /\ plain_hunts L x /\ ~ slow_course L n x year /\
             exists y, y < n /\ dodges L y
  | Place => exists x, treble L n x /\ palindromic_path L x /\ plain_hunts L x /\ ~ slow_course L n x year /\
             forall y, y < n -> ~ dodges L y
  | Alliance => exists x lo hi, treble L n x /\ palindromic_path L x /\ ~ plain_hunts L x /\ covers L x lo hi /\
             ~ equal_time L x lo hi
  | TreblePlace => exists x lo hi, treble L n x /\ palindromic_path L x /\ ~ plain_hunts L x /\ covers L x lo hi /\
             equal_time L x lo hi /\ 2 < places_made L x (length L)
  | TrebleBob => exists x lo hi, treble L n x /\ palindromic_path L x /\ ~ plain_hunts L x /\ covers L x lo hi /\
             equal_time L x lo hi /\ places_made L x (length L) = 2 /\
             (hi = lo + 1 \/ hi <> lo + 1 /\ forall c, section_change L lo hi c -> ~ internal_place c)
  | Surprise => exists x lo hi, treble L n x /\ palindromic_path L x /\ ~ plain_hunts L x /\ covers L x lo hi /\
             equal_time L x lo hi /\ places_made L x (length L) = 2 /\
             hi <> lo + 1 /\ forall c, section_change L lo hi c -> internal_place c
  | Delight => exists x lo hi, treble L n x /\ palindromic_path L x /\ ~ plain_hunts L x /\ covers L x lo hi /\
             equal_time L x lo hi /\ places_made L x (length L) = 2 /\ hi <> lo + 1 /\
             (exists c, section_change L lo hi c /\ internal_place c) /\
             (exists c, section_change L lo hi c /\ ~ internal_place c)
  end.
