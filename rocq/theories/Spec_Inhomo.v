(** Specification for the extension of the source term (C21, C51, C52). *)
From Coq Require Import ZArith List Bool Reals.
From Coquelicot Require Import Coquelicot.
From Verif Require Import Model_Extend.
Open Scope R_scope.

(** At the point (x, y) the Cartesian methods of the problem return the value,
    gradient and Hessian of the function whose partial derivatives are [F]. *)
Definition cart_source (s : source) (F : nat -> nat -> R -> R -> C) (x y : R) : Prop :=
  s_f s x y = F 0%nat 0%nat x y /\
  s_grad s x y = (F 1%nat 0%nat x y, F 0%nat 1%nat x y) /\
  s_hess s x y = ((F 2%nat 0%nat x y, F 1%nat 1%nat x y), (F 1%nat 1%nat x y, F 0%nat 2%nat x y)).

(** The same for the methods taking polar arguments; [Q] are the partial
    derivatives in (r, theta). *)
Definition polar_source (s : source) (F Q : nat -> nat -> R -> R -> C) (r th : R) : Prop :=
  let x := r * cos th in
  let y := r * sin th in
  s_f_polar s r th = F 0%nat 0%nat x y /\
  s_grad_polar s r th = (F 1%nat 0%nat x y, F 0%nat 1%nat x y) /\
  s_hess_polar s r th = ((F 2%nat 0%nat x y, F 1%nat 1%nat x y), (F 1%nat 1%nat x y, F 0%nat 2%nat x y)) /\
  s_d_f_r s r th = Q 1%nat 0%nat r th /\ s_d2_f_r s r th = Q 2%nat 0%nat r th /\
  s_d_f_th s r th = Q 0%nat 1%nat r th /\ s_d2_f_th s r th = Q 0%nat 2%nat r th /\
  s_d2_f_r_th s r th = Q 1%nat 1%nat r th.

(** Second Taylor polynomial of [F 0 0] about (x0, y0). *)
Definition taylor2 (F : nat -> nat -> R -> R -> C) (x0 y0 x y : R) : C :=
  let dx := x - x0 in
  let dy := y - y0 in
  (F 0%nat 0%nat x0 y0 + RtoC dx * F 1%nat 0%nat x0 y0 + RtoC dy * F 0%nat 1%nat x0 y0
   + RtoC (dx ^ 2 / 2) * F 2%nat 0%nat x0 y0 + RtoC (dx * dy) * F 1%nat 1%nat x0 y0
   + RtoC (dy ^ 2 / 2) * F 0%nat 2%nat x0 y0)%C.

(** [F 0 0] is a quadratic polynomial and [F] its partial derivatives. *)
Definition quadratic (F : nat -> nat -> R -> R -> C) : Prop :=
  exists q0 qx qy qxx qxy qyy : C, forall x y,
    (F 0%nat 0%nat x y = q0 + qx * RtoC x + qy * RtoC y + qxx * RtoC (x ^ 2) + qxy * RtoC (x * y) + qyy * RtoC (y ^ 2) /\
     F 1%nat 0%nat x y = qx + RtoC 2 * qxx * RtoC x + qxy * RtoC y /\
     F 0%nat 1%nat x y = qy + qxy * RtoC x + RtoC 2 * qyy * RtoC y /\
     F 2%nat 0%nat x y = RtoC 2 * qxx /\ F 1%nat 1%nat x y = qxy /\ F 0%nat 2%nat x y = RtoC 2 * qyy)%C.

(** Tangent (e1, e2) of the straight segments; the outward normal is
    (e2, -e1): (0, 1) on segment 1 and (sin a, -cos a) on segment 2. *)
Definition frame12 (a : R) (sid : nat) (e1 e2 : R) : Prop :=
  (sid = 1%nat /\ e1 = -1 /\ e2 = 0) \/ (sid = 2%nat /\ e1 = cos a /\ e2 = sin a).
