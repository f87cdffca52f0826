(** Specification vocabulary for the test problems (C44-C48). *)
From Coq Require Import Reals.
From Coquelicot Require Import Coquelicot.
From Verif Require Import Spec_Fd.
Open Scope R_scope.

(** What is used of the Gamma function. *)
Definition gamma_like (gamma : R -> R) : Prop :=
  forall x, 0 < x -> gamma (x + 1) = x * gamma x /\ gamma x <> 0.

(** The points away from the tip of the wedge. *)
Definition off_tip (r th : R) : Prop := 0 < r.

(** [g] is the gradient of [u] at (x, y), as a total derivative. *)
Definition is_grad (u : R -> R -> R) (x y : R) (g : R * R) : Prop :=
  differentiable_pt_lim u x y (fst g) (snd g).

(** [H] is the Hessian of [u] at (x, y): the gradient exists around the point
    and its two components have the rows of [H] as gradients. *)
Definition is_hessian (u : R -> R -> R) (x y : R) (H : (R * R) * (R * R)) : Prop :=
  exists ux uy : R -> R -> R,
    locally_2d (fun x y => is_grad u x y (ux x y, uy x y)) x y /\
    is_grad ux x y (fst H) /\ is_grad uy x y (snd H).

(** The same for a complex function, by components. *)
Definition is_cgrad (u : R -> R -> C) (x y : R) (g : C * C) : Prop :=
  is_grad (fun x y => fst (u x y)) x y (fst (fst g), fst (snd g)) /\
  is_grad (fun x y => snd (u x y)) x y (snd (fst g), snd (snd g)).

(** [u] is twice differentiable on the plane and Laplacian(u) + k^2 u = f. *)
Definition solves (k : R) (f u : R -> R -> R) : Prop :=
  exists U, partials 2 (fun _ _ => True) u U /\
    forall x y, U 2%nat 0%nat x y + U 0%nat 2%nat x y + k ^ 2 * u x y = f x y.

(** [f] is [F] written in polar coordinates, around (r, th). *)
Definition polar_form (f F : R -> R -> R) (r th : R) : Prop :=
  locally_2d (fun r th => f r th = F (r * cos th) (r * sin th)) r th.
