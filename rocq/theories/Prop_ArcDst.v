(** Property C39: arc_dst. *)
From Coq Require Import ZArith List Bool Reals Lia Lra.
From Coquelicot Require Import Complex.
From Verif Require Import Model_Py Model_Grid Model_Fourier Proof_ArcDst.
Open Scope R_scope.

(** C39. A sum of the first N sine modes: entry p (0-based) of the result is
    the coefficient of mode p+1. *)
Theorem C39_recovers : forall a (N p : nat) func (b : nat -> C), 2 * PI - a <> 0 ->
  (p < N)%nat ->
  (forall th, func th = csum N (fun m =>
     Cmult (b m) (RtoC (sin ((INR m + 1) * (PI / (2 * PI - a)) * (th - a)))))) ->
  arc_dst a func N (Z.of_nat p) = b p.
Proof. exact arc_dst_modes. Qed.
Print Assumptions C39_recovers.

(** C39. Linearity. *)
Theorem C39_linear : forall a N c f g m,
  arc_dst a (fun th => Cplus (Cmult c (f th)) (g th)) N m =
  Cplus (Cmult c (arc_dst a f N m)) (arc_dst a g N m).
Proof. exact arc_dst_lin. Qed.
Print Assumptions C39_linear.

(** C39. Aliasing: mode 2(N+1)t + (p+1) is seen as mode p+1. *)
Theorem C39_alias_plus : forall a (N t p q : nat), 2 * PI - a <> 0 ->
  (p < N)%nat -> (q < N)%nat ->
  arc_dst a (fun th => RtoC (sin ((2 * (INR N + 1) * INR t + (INR p + 1)) *
     (PI / (2 * PI - a)) * (th - a)))) N (Z.of_nat q) =
  if Nat.eqb q p then RtoC 1 else RtoC 0.
Proof. exact arc_dst_alias_plus. Qed.
Print Assumptions C39_alias_plus.

(** C39. Aliasing: mode 2(N+1)t - (p+1) is seen as minus mode p+1. *)
Theorem C39_alias_minus : forall a (N t p q : nat), 2 * PI - a <> 0 ->
  (p < N)%nat -> (q < N)%nat ->
  arc_dst a (fun th => RtoC (sin ((2 * (INR N + 1) * INR t - (INR p + 1)) *
     (PI / (2 * PI - a)) * (th - a)))) N (Z.of_nat q) =
  if Nat.eqb q p then RtoC (-1) else RtoC 0.
Proof. exact arc_dst_alias_minus. Qed.
Print Assumptions C39_alias_minus.

(** C39. Aliasing: multiples of N+1 are invisible. *)
Theorem C39_alias_zero : forall a (N t q : nat), 2 * PI - a <> 0 -> (q < N)%nat ->
  arc_dst a (fun th => RtoC (sin ((INR N + 1) * INR t *
     (PI / (2 * PI - a)) * (th - a)))) N (Z.of_nat q) = RtoC 0.
Proof. exact arc_dst_alias_zero. Qed.
Print Assumptions C39_alias_zero.

(** The code's wedge a = pi/4 and two modes. *)
Example C39_nonvacuous :
  arc_dst (PI / 4) (fun th => csum 3 (fun m => Cmult (RtoC (INR m + 5))
    (RtoC (sin ((INR m + 1) * (PI / (2 * PI - PI / 4)) * (th - PI / 4)))))) 3 1 = RtoC 6.
Proof.
  change 1%Z with (Z.of_nat 1).
  rewrite (arc_dst_modes _ _ _ _ (fun m => RtoC (INR m + 5))).
  - f_equal. simpl. ring.
  - pose proof PI_RGT_0. lra.
  - lia.
  - intros th. reflexivity.
Qed.
