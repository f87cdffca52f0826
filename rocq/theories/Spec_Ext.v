(** Specification for the extension formulas (C19, C20, C21, C23). *)
From Coq Require Import ZArith List Bool Reals.
From Coquelicot Require Import Coquelicot.
Open Scope R_scope.

(** Open sets of the plane. *)
Definition open2 (O : R -> R -> Prop) : Prop := forall x y, O x y -> locally_2d O x y.

(** [D i j] is the partial derivative of [D 0 0], i times in x and j times in
    y, on the set [O]; those of order less than [m] are totally
    differentiable. *)
Definition partials (O : R -> R -> Prop) (m : nat) (D : nat -> nat -> R -> R -> C) : Prop :=
  forall i j x y, (i + j < m)%nat -> O x y ->
    differentiable_pt_lim (fun u v => fst (D i j u v)) x y (fst (D (S i) j x y)) (fst (D i (S j) x y)) /\
    differentiable_pt_lim (fun u v => snd (D i j u v)) x y (snd (D (S i) j x y)) (snd (D i (S j) x y)).

(** The Helmholtz equation with source [F 0 0]. *)
Definition helmholtz (O : R -> R -> Prop) (k : R) (D F : nat -> nat -> R -> R -> C) : Prop :=
  forall x y, O x y ->
    Cplus (Cplus (D 2%nat 0%nat x y) (D 0%nat 2%nat x y)) (Cmult (RtoC (k ^ 2)) (D 0%nat 0%nat x y))
    = F 0%nat 0%nat x y.

(** A plane curve parametrised by arclength on (lo, hi) with unit tangent
    (tx, ty), outward normal (ty, -tx) and signed curvature [curv], twice
    differentiable: the Frenet equations. *)
Definition unit_curve (lo hi : R) (X Y tx ty curv : R -> R) : Prop :=
  forall s, lo < s < hi ->
    is_derive X s (tx s) /\ is_derive Y s (ty s) /\ tx s ^ 2 + ty s ^ 2 = 1 /\
    is_derive tx s (curv s * ty s) /\ is_derive ty s (- (curv s * tx s)) /\
    ex_derive curv s /\ ex_derive (Derive curv) s.

(** Derivatives of complex-valued functions of a real variable. *)
Definition CDerive_n (f : R -> C) (n : nat) (s : R) : C :=
  (Derive_n (fun t => fst (f t)) n s, Derive_n (fun t => snd (f t)) n s).

(** All derivatives up to order [m] exist on (lo, hi). *)
Definition smooth_on (m : nat) (lo hi : R) (f : R -> R) : Prop :=
  forall l s, (l < m)%nat -> lo < s < hi -> ex_derive (Derive_n f l) s.
Definition Csmooth_on (m : nat) (lo hi : R) (f : R -> C) : Prop :=
  smooth_on m lo hi (fun t => fst (f t)) /\ smooth_on m lo hi (fun t => snd (f t)).

(** Taylor polynomial of degree [m] about 0. *)
Fixpoint taylor_poly (f : R -> C) (m : nat) (n : R) : C :=
  match m with
  | O => f 0
  | S m' => Cplus (taylor_poly f m' n)
              (Cmult (CDerive_n f m 0) (RtoC (n ^ m / INR (fact m))))
  end.

(** Value of [D 0 0] at signed distance [t] from the curve along the normal. *)
Definition along_normal (D : nat -> nat -> R -> R -> C) (X Y tx ty : R -> R) (s t : R) : C :=
  D 0%nat 0%nat (X s + t * ty s) (Y s - t * tx s).

(** Dirichlet and Neumann traces on the curve. *)
Definition trace0 (D : nat -> nat -> R -> R -> C) (X Y : R -> R) (s : R) : C :=
  D 0%nat 0%nat (X s) (Y s).
Definition trace1 (D : nat -> nat -> R -> R -> C) (X Y tx ty : R -> R) (s : R) : C :=
  Cplus (Cmult (RtoC (ty s)) (D 1%nat 0%nat (X s) (Y s)))
        (Cmult (RtoC (- tx s)) (D 0%nat 1%nat (X s) (Y s))).

(** Second derivative in the normal direction. *)
Definition trace2 (D : nat -> nat -> R -> R -> C) (X Y tx ty : R -> R) (s : R) : C :=
  CDerive_n (along_normal D X Y tx ty s) 2 0.
