(** Vocabulary of properties C83 and C84: extension_test.py and c0_basis.py. *)
From Coq Require Import ZArith List Bool Reals.
From Coquelicot Require Import Coquelicot.
From Verif Require Import Model_Py Model_Multivalue Model_Grid Model_Chebyshev Model_Extend Model_Debug Model_Run Model_Program
  Model_Abcoef Spec_Ext Spec_Extend Spec_Program Spec_Accuracy.
Import ListNotations.
Open Scope R_scope.

(** The solutions of the smooth problems, k = 27/4. *)
Definition exact_solution (p : smooth_name) (x y : R) : C :=
  match p with
  | SmoothSine => RtoC (sin (27 / 4 * x))
  | SmoothE => (cos (27 / 5 * x + 81 / 20 * y), sin (27 / 5 * x + 81 / 20 * y))
  | SmoothYCos => RtoC (y * cos x)
  end.

(** [D] is the family of the partial derivatives of the solution. *)
Definition solution_family (p : smooth_name) (D : nat -> nat -> R -> R -> C) : Prop :=
  partials plane 6 D /\ forall x y, D 0%nat 0%nat x y = exact_solution p x y.

(** The coefficients of the Chebyshev fits of the functions [w] on the three
    pieces. *)
Definition fitted (lib : library) (st : ps_state) (w : nat -> R -> C) (cs : list C) : Prop :=
  calc_c0 (lib_chebfit lib) (get_chebyshev_roots (Z.to_nat 1024)) (23 / 10) (PI / 4) (st_seg st) (fun t sid => w sid t) = Ok cs.

(** The extension [m] has the entry [snd d] at the node [fst d], and the entry
    is to be looked at. *)
Definition looked_at (setypes : option (list setype_t)) (m : multivalue) (d : node * mv_entry) : Prop :=
  (exists l, mv_get m (fst d) = Ok l /\ In (snd d) l) /\
  match setypes with None => True | Some l => In (me_setype (snd d)) l end.

(** The distance of the entry from the solution at the node. *)
Definition entry_error (p : smooth_name) (N : Z) (d : node * mv_entry) : R :=
  let x := square_pt N (fst (fst d)) (snd (fst d)) in
  Cmod (Cminus (exact_solution p (fst x) (snd x)) (me_value (snd d))).

(** The difference of the real parts of the solution and of the expansion at a
    point of the boundary sample on the outer sine. *)
Definition misfit (p : smooth_name) (B : list (nat * nat)) (c0 : list C) (q : bpoint) : R :=
  let x := seg_point (boundary_r OuterSine (23 / 10) None (PI / 4)) (PI / 4) (bp_sid q) (bp_arg q) in
  Rabs (Re (exact_solution p (fst x) (snd x)) -
        Re (seg_function (eval_g_inv (23 / 10) (PI / 4) (bp_sid q)) B c0 (bp_sid q) (bp_arg q))).
