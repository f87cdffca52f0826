(** Specification for the error bound of the solver (C77). *)
From Coq Require Import ZArith List Reals.
From Coquelicot Require Import Coquelicot.
From Verif Require Import Model_Py Model_Fourier Model_PS Model_Extend Model_Run Lib_Csum Spec_Extend Spec_Program.
Open Scope R_scope.

(** The eigenvalues of the auxiliary problem keep a distance [delta] from 0. *)
Definition eig_gap (o : options) (delta : R) : Prop :=
  0 < delta /\ forall j l, (1 <= j <= o_N o - 1)%Z -> (1 <= l <= o_N o - 1)%Z ->
    delta <= Rabs (eigenval (o_N o) (o_order o) (o_AD o) (o_k o) j l).

(** Bound of the potential of boundary data of size 1. *)
Definition amplification (o : options) (delta : R) : R :=
  1 + (o_k o ^ 2 + 8 / (o_AD o / IZR (o_N o)) ^ 2) / delta.

(** Bound of what a residual [eta] at the inside nodes contributes. *)
Definition residual_part (o : options) (delta eta : R) : R := (IZR (o_N o) - 1) * eta / delta.

(** Stability: the extension of Neumann data is at most [kappa] times its
    distance from the trace of its own potential. *)
Definition neumann_stable (st : ps_state) (kappa : R) : Prop :=
  forall c1 e P tr, length c1 = length (ec_B (st_ctx st)) ->
    extend_boundary (with_basis (st_ctx st) (ec_B (st_ctx st)) (map (fun _ => RtoC 0) c1) c1) SrcCoef true = Ok e ->
    get_potential (st_ps st) (as_vec e) = Ok P -> get_trace (st_ps st) P = Ok tr ->
    let n := length (ps_gamma (st_ps st)) in
    rsum n (fun l => Cmod (as_vec e l) ^ 2) <= kappa ^ 2 * rsum n (fun l => Cmod (Cminus (tr l) (as_vec e l)) ^ 2).

(** Sum of the squared differences between the function [w] and [e] on the
    discrete boundary, on the square of side 2 pi. *)
Definition sample_gap (st : ps_state) (N : Z) (w : R -> R -> C) (e : list C) : R :=
  rsum (length (ps_gamma (st_ps st))) (fun l =>
    match nth_error (ps_gamma (st_ps st)) l with
    | Some (i, j) => Cmod (Cminus (w (fst (square_pt N i j)) (snd (square_pt N i j))) (as_vec e l)) ^ 2
    | None => 0
    end).
