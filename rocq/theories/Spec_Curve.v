(** Vocabulary of property C75: a domain bounded by two radii and a curve. *)
From Coq Require Import ZArith List Bool Reals.
From Coquelicot Require Import Coquelicot.
From Verif Require Import Model_Py Model_Multivalue Model_Grid Model_Domain Model_Extend Spec_Domain Spec_Grid Spec_Program.
Import ListNotations.
Open Scope R_scope.

(** The closed region below the curve between the angles [a] and 2 pi. *)
Definition in_region (r : R -> R) (a : R) (p : point) : Prop :=
  exists rho th, a <= th <= 2 * PI /\ 0 <= rho <= r th /\ p = (rho * cos th, rho * sin th).

(** Its three boundary pieces: the curve and the two radii. *)
Definition on_piece (r : R -> R) (R0 a : R) (sid : nat) (p : point) : Prop :=
  match sid with
  | 0%nat => exists th, a <= th <= 2 * PI /\ p = (r th * cos th, r th * sin th)
  | _ => on_seg R0 a sid p
  end.

(** The inside nodes of the square of side 2 pi for a curve over the angles
    from pi/4 to 2 pi. *)
Definition region_node (r : R -> R) (N : Z) (p : node) : Prop :=
  in_open_grid N p /\ in_region r (PI / 4) (square_pt N (fst p) (snd p)).

(** The points the source is expanded at: on the curve, or on the ray through
    one of the two radii, off the tip and no further out than the curve gets. *)
Definition expansion_pt (r : R -> R) (a : R) (b : point) : Prop :=
  (exists th, a <= th <= 2 * PI /\ b = (r th * cos th, r th * sin th)) \/
  (exists t, 0 < t <= 49 / 20 /\ (b = (t, 0) \/ b = (t * cos a, t * sin a))).

(** The extension context the constructor builds for the curve [r]: radius 2.3,
    opening angle pi/4, square of side 2 pi. *)
Definition curve_solver (brentq : (R -> R) -> R -> R -> option R) (order : Z) (r : R -> R) (c : ext_ctx) : Prop :=
  ec_R c = 23 / 10 /\ ec_a c = PI / 4 /\ ec_AD c = 2 * PI /\ (16 <= ec_N c)%Z /\ ec_r c = r /\
  ec_bcoord c = node_bcoord brentq r (PI / 4) (2 * PI) (ec_N c) /\
  enumerates (ec_union c) (gamma_set order (ec_N c) (ps_is_interior r (PI / 4) (2 * PI) (ec_N c))) /\
  all_gamma (23 / 10) (PI / 4) (2 * PI) (ec_N c) (ec_bcoord c) (ec_union c) =
    Ok (ec_gamma c 0%nat, ec_gamma c 1%nat, ec_gamma c 2%nat).

(** No grid node lies on the curve, continued by half the gap at both ends. *)
Definition off_curve (r : R -> R) (N : Z) : Prop :=
  forall i j t, in_open_grid N (i, j) -> PI / 8 <= t <= 2 * PI + PI / 8 ->
  square_pt N i j <> (r t * cos t, r t * sin t).
