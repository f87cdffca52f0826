(** Vocabulary of property C73. *)
From Coq Require Import ZArith Reals.
From Coquelicot Require Import Coquelicot.
From Verif Require Import Model_Multivalue Model_Grid Spec_Domain Spec_Grid.
Open Scope R_scope.

(** The grid sizes of the tables: 16, 32, …, 1024. *)
Definition table_size (N : Z) : Prop := exists m : Z, (4 <= m <= 10)%Z /\ N = (2 ^ m)%Z.

(** The five leading binary digits are 10000. *)
Definition leads_10000 (N : Z) : Prop := exists m : Z, (4 <= m)%Z /\ (2 ^ m <= N < 2 ^ m + 2 ^ (m - 4))%Z.

(** The point of node (i, j) of the square of side 2 pi centred at the origin. *)
Definition square_pt (N i j : Z) : R * R := (2 * PI * IZR i / IZR N - PI, 2 * PI * IZR j / IZR N - PI).

(** The nodes inside the three-quarter-and-more disc of radius 2.3 with the
    wedge of angle pi/4 cut out. *)
Definition pizza_node (N : Z) (p : node) : Prop :=
  in_open_grid N p /\ in_domain (23 / 10) (PI / 4) (square_pt N (fst p) (snd p)).
