(** Specification for the Chebyshev basis properties (C13-C18, C58). *)
From Coq Require Import ZArith List Bool Reals.
From Coquelicot Require Import Complex.
Import ListNotations.
Open Scope R_scope.

(** Chebyshev polynomials by their defining recurrence (the pair T_n, T_n+1). *)
Fixpoint chebT_pair (n : nat) (t : R) : R * R :=
  match n with
  | O => (1, t)
  | S m => let '(p, q) := chebT_pair m t in (q, 2 * t * q - p)
  end.
Definition chebT (n : nat) (t : R) : R := fst (chebT_pair n t).

(** A Chebyshev expansion with complex coefficients, lowest degree first. *)
Fixpoint cheb_expand_from (j : nat) (c : list C) (t : R) : C :=
  match c with
  | [] => RtoC 0
  | x :: c' => Cplus (Cmult x (RtoC (chebT j t))) (cheb_expand_from (S j) c' t)
  end.
Definition cheb_expand (c : list C) (t : R) : C := cheb_expand_from 0 c t.

(** Sum of squared residuals of an expansion against samples. *)
Fixpoint sq_residual (c : list C) (ts : list R) (ys : list C) : R :=
  match ts, ys with
  | t :: ts', y :: ys' => Cmod (Cminus (cheb_expand c t) y) ^ 2 + sq_residual c ts' ys'
  | _, _ => 0
  end.

(** What numpy.polynomial.chebyshev.chebfit returns: a least-squares minimiser
    among the expansions of degree at most deg. *)
Definition is_cheb_lsq (ts : list R) (ys : list C) (deg : nat) (c : list C) : Prop :=
  length c = S deg /\
  forall c', length c' = S deg -> sq_residual c ts ys <= sq_residual c' ts ys.

(** The basis size of a segment. *)
Definition seg_size (nc nr sid : nat) : nat := match sid with O => nc | _ => nr end.

(** The physical parameter range of a segment: polar angle on the outer curve,
    distance from the origin on the two radii. *)
Definition seg_range (R0 a : R) (sid : nat) (arg : R) : Prop :=
  match sid with O => a <= arg <= 2 * PI | _ => 0 <= arg <= R0 end.
