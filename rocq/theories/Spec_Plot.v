(** Vocabulary of property C94. *)
From Coq Require Import ZArith List Reals.
From Verif Require Import Model_Multivalue Spec_Domain Spec_Grid Spec_Program Spec_Curve.
Import ListNotations.
Open Scope R_scope.

(** Nodes of the open grid outside the region. *)
Definition outer_node (r : R -> R) (N : Z) (p : node) : Prop := in_open_grid N p /\ ~ in_region r (PI / 4) (square_pt N (fst p) (snd p)).

(** The nodes touched by the 3 x 3 block of a node with property [P]. *)
Definition touched (P : node -> Prop) (q : node) : Prop :=
  exists p, P p /\ (Z.abs (fst p - fst q) <= 1)%Z /\ (Z.abs (snd p - snd q) <= 1)%Z.

(** The nodes touched by the cross of a node with property [P]. *)
Definition crossed (P : node -> Prop) (q : node) : Prop :=
  exists p, P p /\ (Z.abs (fst p - fst q) + Z.abs (snd p - snd q) <= 1)%Z.

(** The list shows the nodes with property [P], each once. *)
Definition shows (N : Z) (P : node -> Prop) (l : list (R * R)) : Prop :=
  NoDup l /\ forall x, In x l <-> exists p, P p /\ x = square_pt N (fst p) (snd p).

(** 500 points of the three boundary pieces, inside the open square, of which
    one is within 1/20 of any given point of the boundary. *)
Definition outlines (r : R -> R) (l : list (R * R)) : Prop :=
  length l = 500%nat /\ (forall x, In x l ->
    (exists sid, (sid < 3)%nat /\ on_piece r (23 / 10) (PI / 4) sid x) /\ - PI < fst x < PI /\ - PI < snd x < PI) /\
  forall sid q, (sid < 3)%nat -> on_piece r (23 / 10) (PI / 4) sid q -> exists x, In x l /\ dist2 q x <= 1 / 20.

(** The outline of the square, from its upper left corner. *)
Definition square_outline : list (R * R) := [(- PI, PI); (PI, PI); (PI, - PI); (- PI, - PI); (- PI, PI)].

(** The first point of the list is within 1/1000 of the end of the upper radius;
    the last of 300 points is within 1/1000 of the end of the right radius. *)
Definition meets (a : R) (l : list (R * R)) : Prop :=
  exists x, nth_error l 0 = Some x /\ dist2 x (23 / 10 * cos a, 23 / 10 * sin a) <= 1 / 1000.
Definition closes (l : list (R * R)) : Prop :=
  exists x, nth_error l 299 = Some x /\ dist2 x (23 / 10, 0) <= 1 / 1000.
