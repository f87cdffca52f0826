(** Specification vocabulary for the sampled boundary (C71). *)
From Coq Require Import Reals.
Open Scope R_scope.

(** The domain is larger than the offset 1e-5 the sample keeps from the tip
    and from the ends of the outer arc. *)
Definition sample_ok (eval_r : R -> R) (R0 a : R) : Prop :=
  1 / 100000 <= R0 /\ 0 < a /\ a + 2 * (1 / 100000) <= 2 * PI /\
  (forall th, a < th < 2 * PI -> 0 < eval_r th).
