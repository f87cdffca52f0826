(** Specification for the geometric properties. *)
From Coq Require Import ZArith List Bool Reals.
From Coquelicot Require Import Coquelicot.
Open Scope R_scope.

(** Contract of scipy.optimize.brentq on a continuous function: with end values
    of strictly equal sign it raises ValueError (None); otherwise it returns a
    zero in the interval. *)
Definition brentq_contract (brentq : (R -> R) -> R -> R -> option R) : Prop :=
  forall f lo hi, lo <= hi -> (forall x, continuous f x) ->
    (f lo * f hi > 0 -> brentq f lo hi = None) /\
    (f lo * f hi <= 0 -> exists x, brentq f lo hi = Some x /\ lo <= x <= hi /\ f x = 0).

(** A point of the plane. *)
Definition point := (R * R)%type.
Definition dist2 (p q : point) : R := sqrt ((fst p - fst q) ^ 2 + (snd p - snd q) ^ 2).

(** The three pieces of the boundary of the arc domain. *)
Definition on_seg (R0 a : R) (sid : nat) (p : point) : Prop :=
  match sid with
  | 0%nat => exists th, a <= th <= 2 * PI /\ p = (R0 * cos th, R0 * sin th)
  | 1%nat => exists t, 0 <= t <= R0 /\ p = (t, 0)
  | _ => exists t, 0 <= t <= R0 /\ p = (t * cos a, t * sin a)
  end.

(** The closed arc domain in Cartesian form (0 < a < pi): the disc minus the
    open wedge between the angles 0 and a. *)
Definition in_domain (R0 a : R) (p : point) : Prop :=
  fst p ^ 2 + snd p ^ 2 <= R0 ^ 2 /\ ~ (0 < snd p /\ snd p * cos a < fst p * sin a).
