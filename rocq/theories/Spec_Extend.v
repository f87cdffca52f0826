(** Specification for the extension of boundary data (C17, C22, C28). *)
From Coq Require Import ZArith List Bool Reals.
From Coquelicot Require Import Coquelicot.
From Verif Require Import Model_Py Model_Multivalue Model_Grid Model_Fourier Model_Domain Model_Extend
  Spec_Chebyshev Spec_Grid.
Import ListNotations.
Open Scope R_scope.

(** The same solver with another basis and other coefficients. *)
Definition with_basis (c : ext_ctx) (B : list (nat * nat)) (c0 c1 : list C) : ext_ctx :=
  mk_ctx (ec_k c) (ec_R c) (ec_a c) (ec_AD c) (ec_N c) (ec_r c) (ec_bcoord c)
    (ec_union c) (ec_gamma c) B c0 c1 (ec_homogeneous c) (ec_src c).

(** How often node [p] occurs in the three lists. *)
Definition occurrences (c : ext_ctx) (p : node) : nat :=
  length (filter (node_eqb p) (ec_gamma c 0) ++ filter (node_eqb p) (ec_gamma c 1)
          ++ filter (node_eqb p) (ec_gamma c 2)).

(** A solver whose discrete boundary was attributed to segments: every listed
    node is in the union, every node of the union is listed once or twice, and
    the nodes listed under the outer curve have boundary coordinates. *)
Definition ctx_wf (c : ext_ctx) : Prop :=
  0 < ec_R c /\ 0 < ec_a c < PI /\
  (forall sid p, (sid < 3)%nat -> In p (ec_gamma c sid) -> In p (ec_union c)) /\
  (forall p, In p (ec_union c) -> occurrences c p = 1%nat \/ occurrences c p = 2%nat) /\
  (forall p, In p (ec_gamma c 0) -> exists bc, ec_bcoord c p = Some bc).

(** The unit coefficient vector. *)
Definition unit_coef (n JJ : nat) : list C :=
  map (fun l => if Nat.eqb l JJ then RtoC 1 else RtoC 0) (seq 0 n).

(** A list as a grid function on the numbered boundary nodes. *)
Definition as_vec (l : list C) : nat -> C := fun i => nth i l (RtoC 0).

(** Point of a segment with a given parameter, and its outward unit normal:
    the domain lies below the segment at angle 0 and to the left of the one at
    angle [a]; on the curve the normal is orthogonal to the derivative and has
    a positive radial component. *)
Definition seg_point (r : R -> R) (a : R) (sid : nat) (t : R) : R * R :=
  match sid with
  | 0%nat => (r t * cos t, r t * sin t)
  | 1%nat => (t, 0)
  | _ => (t * cos a, t * sin a)
  end.
Definition is_normal (r : R -> R) (a : R) (sid : nat) (t : R) (v : R * R) : Prop :=
  match sid with
  | 0%nat => fst v ^ 2 + snd v ^ 2 = 1 /\
      fst v * Derive (fun t => r t * cos t) t + snd v * Derive (fun t => r t * sin t) t = 0 /\
      0 < fst v * cos t + snd v * sin t
  | 1%nat => v = (0, 1)
  | _ => v = (sin a, - cos a)
  end.

(** The boundary function represented by a coefficient vector on segment
    [sid]: a Chebyshev expansion in the variable [g t] of (-1, 1). *)
Definition seg_function (g : R -> R) (B : list (nat * nat)) (cs : list C) (sid : nat) (t : R) : C :=
  csum (length B) (fun JJ =>
    match nth_error B JJ with
    | Some (s, J) => if Nat.eqb s sid then Cmult (nth JJ cs (RtoC 0)) (RtoC (chebT J (g t))) else RtoC 0
    | None => RtoC 0
    end).

(** The solver built on the arc domain: its discrete boundary, the segment
    lists and the boundary coordinates are those of the grid construction. *)
Definition arc_solver (brentq : (R -> R) -> R -> R -> option R) (order : Z) (c : ext_ctx) : Prop :=
  0 < ec_R c /\ 0 < ec_a c < PI /\ 0 < ec_AD c /\ (1 <= ec_N c)%Z /\
  ec_r c = r_arc (ec_R c) /\
  ec_bcoord c = node_bcoord brentq (r_arc (ec_R c)) (ec_a c) (ec_AD c) (ec_N c) /\
  enumerates (ec_union c) (gamma_set order (ec_N c)
    (ps_is_interior (r_arc (ec_R c)) (ec_a c) (ec_AD c) (ec_N c))) /\
  all_gamma (ec_R c) (ec_a c) (ec_AD c) (ec_N c) (ec_bcoord c) (ec_union c) =
    Ok (ec_gamma c 0%nat, ec_gamma c 1%nat, ec_gamma c 2%nat).
