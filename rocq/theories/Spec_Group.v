(* Spec_Group.v - groups of rows, independently of the code. *)
From Verif Require Import Base M_Row M_Group Spec_Row Spec_Extent.
Set Implicit Arguments.
Unset Strict Implicit.
Open Scope nat_scope.

(* the product of two rows: in place i the bell of x in the place numbered by the bell of y in place i *)
Definition comp (x y : list nat) : list nat :=
  map (fun i => act x (act y i)) (seq 0 (Nat.max (length x) (length y))).

(* S is a group of rows on b bells *)
Definition is_subgroup (b : nat) (S : list nat -> Prop) : Prop :=
  (forall x, S x -> is_row x /\ length x = b) /\
  S (id_row b) /\
  (forall x y, S x -> S y -> S (comp x y)) /\
  (forall x, S x -> exists y, S y /\ comp x y = id_row b).

(* x lies in every group on b bells that contains the generators *)
Definition generated (b : nat) (gens : list (list nat)) (x : list nat) : Prop :=
  forall S, is_subgroup b S -> (forall g, In g gens -> S (pad b g)) -> S x.

(* v lists the group S in order, each row once *)
Definition lists_group (b : nat) (v : list (list nat)) : Prop :=
  StronglySorted lex_lt v /\ is_subgroup b (fun x => In x v).

(* x is the least of the rows satisfying P *)
Definition is_least (P : list nat -> Prop) (x : list nat) : Prop :=
  P x /\ forall y, P y -> y = x \/ lex_lt x y.

(* the orbit of bell j: the bells an element of v takes it to *)
Definition in_orbit (v : list (list nat)) (j k : nat) : Prop := exists x, In x v /\ act x j = k.

(* x in the first m places and y, numbered on, after them *)
Definition join (m : nat) (x y : list nat) : list nat := x ++ map (Nat.add m) y.

(* the nw bells after the first nh moved round k places, the rest fixed; and the same after reversing them *)
Definition rot (nw nh k i : nat) : nat := if (nh <=? i) && (i <? nh + nw) then nh + (i - nh + k) mod nw else i.
Definition flip (nw nh i : nat) : nat := if (nh <=? i) && (i <? nh + nw) then nh + (nw - 1 - (i - nh)) else i.

(* a row on exactly b bells *)
Definition row_b (b : nat) (x : list nat) : Prop := is_row x /\ length x = b.

(* o lists the orbits of the bells 0 .. b-1 under v, each once, each in order *)
Definition orbit_list (b : nat) (v : list (list nat)) (o : list (list nat)) : Prop :=
  NoDup o /\ (forall oj, In oj o -> StronglySorted lt oj /\ exists j, j < b /\ forall k, In k oj <-> in_orbit v j k) /\
  (forall j, j < b -> exists oj, In oj o /\ forall k, In k oj <-> in_orbit v j k).

(* a group object: on at most 256 bells, its rows form a group, and it knows its orbits *)
Definition wf_group (g : group) : Prop :=
  gb g <= 256 /\ lists_group (gb g) (gv g) /\ orbit_list (gb g) (gv g) (go g).

(* the largest number of bells of the rows given *)
Definition max_bells (gens : list (list nat)) : nat := fold_right Nat.max 0 (map (@length nat) gens).

(* the number of bells meant when a total of 0 is given *)
Definition total (nw nh nt : nat) : nat := if nt =? 0 then nh + nw else nt.

(* the rotations of the working bells; and with the reflections *)
Definition rotations (nw nh m : nat) (x : list nat) : Prop := row_b m x /\ exists k, k < nw /\ forall i, act x i = rot nw nh k i.
Definition dihedrals (nw nh m : nat) (x : list nat) : Prop := row_b m x /\
    exists k, k < nw /\ ((forall i, act x i = rot nw nh k i) \/ (forall i, act x i = rot nw nh k (flip nw nh i))).
