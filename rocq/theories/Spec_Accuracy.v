(** Vocabulary of property C82: accuracy of the extension of fitted boundary
    data. *)
From Coq Require Import ZArith List Bool Reals.
From Coquelicot Require Import Coquelicot.
From Verif Require Import Model_Py Model_Multivalue Model_Grid Model_Domain Model_Chebyshev Model_Extend
  Spec_Chebyshev Spec_Ext Spec_Extend Spec_Inhomo.
Open Scope R_scope.

(** The plane. *)
Definition plane (x y : R) : Prop := True.

(** The derivatives up to order 6 are at most [M] on the square. *)
Definition square_bound (D : nat -> nat -> R -> R -> C) (M : R) : Prop :=
  0 <= M /\ forall i j x y, (i + j <= 6)%nat -> Rabs x <= PI -> Rabs y <= PI -> Cmod (D i j x y) <= M.

(** The values of [D 0 0] on the pieces of the boundary. *)
Definition value_trace (r : R -> R) (a : R) (D : nat -> nat -> R -> R -> C) (sid : nat) (t : R) : C :=
  D 0%nat 0%nat (fst (seg_point r a sid t)) (snd (seg_point r a sid t)).

(** [un] is its normal derivative wherever the outward normal is defined. *)
Definition normal_trace (r : R -> R) (a : R) (D : nat -> nat -> R -> R -> C) (un : nat -> R -> C) : Prop :=
  forall sid t nv, (sid < 3)%nat -> is_normal r a sid t nv ->
    let b := seg_point r a sid t in
    un sid t = Cplus (Cmult (RtoC (fst nv)) (D 1%nat 0%nat (fst b) (snd b)))
                     (Cmult (RtoC (snd nv)) (D 0%nat 1%nat (fst b) (snd b))).

(** The coefficients [cs] represent the functions [w] on the three pieces, with
    four derivatives, up to [eps]. *)
Definition fits (R0 a : R) (B : list (nat * nat)) (cs : list C) (w : nat -> R -> C) (eps : R) : Prop :=
  length cs = length B /\
  forall sid l t, (sid < 3)%nat -> (l <= 4)%nat -> seg_range R0 a sid t ->
    Cmod (Cminus (CDerive_n (seg_function (eval_g_inv R0 a sid) B cs sid) l t) (CDerive_n (w sid) l t)) <= eps.

(** The methods of the source [s] return [F 0 0] and its derivatives, and [Q] are
    the derivatives of the same function in polar coordinates. *)
Definition source_of (s : source) (F Q : nat -> nat -> R -> R -> C) : Prop :=
  (forall x y, s_f s x y = F 0%nat 0%nat x y) /\
  (forall x y, x <> 0 \/ y <> 0 -> cart_source s F x y) /\
  (forall r th, 0 < r -> polar_source s F Q r th) /\
  partials (fun r _ => 0 < r) 2 Q /\
  (forall r th, 0 < r -> Q 0%nat 0%nat r th = F 0%nat 0%nat (r * cos th) (r * sin th)).
