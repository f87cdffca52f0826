(** The regularised problem and the original one (C59). *)
From Coq Require Import ZArith List Bool Reals Lia Lra.
From Coquelicot Require Import Coquelicot.
From Verif Require Import Model_Py Model_Fourier Model_Domain Model_ZMethod Model_Problems Lib_Csum
  Proof_Domain Proof_ZMethod Proof_Bessel Proof_BesselJ
  Spec_Fd Spec_PolarFD Spec_Problems Spec_Bessel Spec_ZRun.
Import ListNotations.
Open Scope R_scope.

Lemma fst_csum : forall n (f : nat -> C), fst (csum n f) = rsum n (fun m => fst (f m)).
Proof. intros n f. induction n as [|n IH]; [reflexivity|]. cbn [csum rsum]. rewrite <- IH. reflexivity. Qed.
Lemma snd_csum : forall n (f : nat -> C), snd (csum n f) = rsum n (fun m => snd (f m)).
Proof. intros n f. induction n as [|n IH]; [reflexivity|]. cbn [csum rsum]. rewrite <- IH. reflexivity. Qed.

(** Sums of modes. *)
Lemma modes_sum : forall jv k nu a M (c : nat -> R), 0 < k ->
  (forall m, (m < M)%nat -> bessel_like jv ((INR m + 1) * nu)) ->
  exists U, partials 2 off_tip (fun r th => rsum M (fun m => c m *
      (jv ((INR m + 1) * nu) (k * r) * sin ((INR m + 1) * nu * (th - a))))) U /\
    forall r th, 0 < r -> polar_helmholtz k U r th = 0.
Proof.
  intros jv k nu a M c Hk. induction M as [|M IH]; intros HJ.
  - exists (fun _ _ _ _ => 0). split; [split; [reflexivity|]|].
    + intros. split; apply (is_derive_const (V := R_NormedModule)).
    + intros r th Hr. unfold polar_helmholtz. field. lra.
  - destruct IH as [U [PU HU]]; [intros; apply HJ; lia|].
    destruct (mode_bessel jv ((INR M + 1) * nu) k a Hk (HJ M ltac:(lia))) as [V [PV HV]].
    exists (fun i j x y => 1 * U i j x y + c M * V i j x y). split.
    + eapply partials_ext; [|apply (partials_comb 2 off_tip _ _ U V 1 (c M) PU PV)].
      intros x y. cbn [rsum]. ring.
    + intros r th Hr. pose proof (HU r th Hr) as EU. pose proof (HV r th Hr) as EV.
      unfold polar_helmholtz in *.
      transitivity (1 * (U 2%nat 0%nat r th + U 1%nat 0%nat r th / r + U 0%nat 2%nat r th / r ^ 2
         + k ^ 2 * U 0%nat 0%nat r th) + c M * (V 2%nat 0%nat r th + V 1%nat 0%nat r th / r
         + V 0%nat 2%nat r th / r ^ 2 + k ^ 2 * V 0%nat 0%nat r th)); [field; lra|].
      rewrite EU, EV. ring.
Qed.

Lemma partials_sub : forall n (D E : R -> R -> Prop) u U, (forall x y, D x y -> E x y) ->
  partials n E u U -> partials n D u U.
Proof. intros n D E u U H [H0 H1]. split; [exact H0|]. intros. apply H1; auto. Qed.

Lemma helm_lin : forall k U V c d r th, 0 < r ->
  polar_helmholtz k (fun i j x y => c * U i j x y + d * V i j x y) r th =
  c * polar_helmholtz k U r th + d * polar_helmholtz k V r th.
Proof. intros. unfold polar_helmholtz. field. lra. Qed.

(** Adding a smooth part with known Helmholtz image. *)
Lemma csolves_add : forall k (D : R -> R -> Prop) f f' u p Pr Pi, (forall r th, D r th -> 0 < r) ->
  partials 2 D (fun r th => fst (p r th)) Pr -> partials 2 D (fun r th => snd (p r th)) Pi ->
  (forall r th, D r th -> polar_helmholtz k Pr r th = fst (f' r th) /\ polar_helmholtz k Pi r th = snd (f' r th)) ->
  csolves k D f u -> csolves k D (fun r th => Cplus (f r th) (f' r th)) (fun r th => Cplus (u r th) (p r th)).
Proof.
  intros k D f f' u p Pr Pi HD HPr HPi HP [Ur [Ui [HUr [HUi HU]]]].
  exists (fun i j x y => 1 * Ur i j x y + 1 * Pr i j x y), (fun i j x y => 1 * Ui i j x y + 1 * Pi i j x y).
  split; [|split].
  - eapply partials_ext; [|exact (partials_comb 2 D _ _ Ur Pr 1 1 HUr HPr)].
    intros x y. cbv beta. change (fst (Cplus (u x y) (p x y))) with (fst (u x y) + fst (p x y)). ring.
  - eapply partials_ext; [|exact (partials_comb 2 D _ _ Ui Pi 1 1 HUi HPi)].
    intros x y. cbv beta. change (snd (Cplus (u x y) (p x y))) with (snd (u x y) + snd (p x y)). ring.
  - intros r th HDr. destruct (HU r th HDr) as [E1 E2]. destruct (HP r th HDr) as [E3 E4].
    rewrite !helm_lin by (apply HD with th; exact HDr). rewrite E1, E2, E3, E4.
    change (fst (Cplus (f r th) (f' r th))) with (fst (f r th) + fst (f' r th)).
    change (snd (Cplus (f r th) (f' r th))) with (snd (f r th) + snd (f' r th)). split; ring.
Qed.

Lemma csolves_ext : forall k (D : R -> R -> Prop) (f f' u u' : R -> R -> C), (forall r th, D r th -> f r th = f' r th) ->
  (forall r th, u r th = u' r th) -> csolves k D f u -> csolves k D f' u'.
Proof.
  intros k D f f' u u' Hf Hu [Ur [Ui [HUr [HUi HU]]]]. exists Ur, Ui. split; [|split].
  - eapply partials_ext; [|exact HUr]. intros; cbv beta; rewrite Hu; reflexivity.
  - eapply partials_ext; [|exact HUi]. intros; cbv beta; rewrite Hu; reflexivity.
  - intros r th HD. rewrite <- Hf by exact HD. apply HU. exact HD.
Qed.

Section Regular.
Variables (jv : R -> R -> R) (k nu a : R) (M : nat) (c : nat -> C) (w : R -> R -> R)
  (W : nat -> nat -> R -> R -> R) (D : R -> R -> Prop).
Hypotheses (Hk : 0 < k) (HJ : forall m, (m < M)%nat -> bessel_like jv ((INR m + 1) * nu))
  (HW : partials 2 off_tip w W) (HD : forall r th, D r th -> 0 < r).

(** The singular part, written with a sign so that it can be removed again. *)
Lemma singular_part : forall s : R, exists Pr Pi,
  partials 2 D (fun r th => fst (Cmult (RtoC s) (Cplus (RtoC (w r th)) (fourier_bessel jv k nu a M c r th)))) Pr /\
  partials 2 D (fun r th => snd (Cmult (RtoC s) (Cplus (RtoC (w r th)) (fourier_bessel jv k nu a M c r th)))) Pi /\
  forall r th, D r th -> polar_helmholtz k Pr r th = - s * zm_f k w r th /\ polar_helmholtz k Pi r th = 0.
Proof using HD HJ HW Hk.
  intros s.
  destruct (modes_sum jv k nu a M (fun m => fst (c m)) Hk HJ) as [A [PA HA]].
  destruct (modes_sum jv k nu a M (fun m => snd (c m)) Hk HJ) as [B [PB HB]].
  exists (fun i j x y => s * W i j x y + s * A i j x y), (fun i j x y => s * B i j x y + 0 * B i j x y).
  split; [|split].
  - eapply partials_ext; [|apply (partials_sub 2 D off_tip _ _ HD (partials_comb 2 off_tip _ _ W A s s HW PA))].
    intros x y. cbv beta. unfold fourier_bessel. set (S := csum _ _).
    change (fst (Cmult (RtoC s) (Cplus (RtoC (w x y)) S))) with (s * (w x y + fst S) - 0 * (0 + snd S)).
    unfold S. rewrite fst_csum.
    rewrite (rsum_ext M (fun m => fst (Cmult (c m) _))
      (fun m => fst (c m) * (jv ((INR m + 1) * nu) (k * x) * sin ((INR m + 1) * nu * (y - a)))))
      by (intros m Hm; unfold Cmult, RtoC; cbn [fst snd]; ring). ring.
  - eapply partials_ext; [|apply (partials_sub 2 D off_tip _ _ HD (partials_comb 2 off_tip _ _ B B s 0 PB PB))].
    intros x y. cbv beta. unfold fourier_bessel. set (S := csum _ _).
    change (snd (Cmult (RtoC s) (Cplus (RtoC (w x y)) S))) with (s * (0 + snd S) + 0 * (w x y + fst S)).
    unfold S. rewrite snd_csum.
    rewrite (rsum_ext M (fun m => snd (Cmult (c m) _))
      (fun m => snd (c m) * (jv ((INR m + 1) * nu) (k * x) * sin ((INR m + 1) * nu * (y - a)))))
      by (intros m Hm; unfold Cmult, RtoC; cbn [fst snd]; ring). ring.
  - intros r th HDr. pose proof (HD r th HDr) as Hr. rewrite !helm_lin by exact Hr.
    rewrite HA, HB by exact Hr. unfold zm_f. rewrite (helm_partials k w W r th HW Hr). split; ring.
Qed.

Lemma regular_equation : forall u,
  csolves k D (fun r th => RtoC (zm_f k w r th)) u <->
  csolves k D (fun _ _ => RtoC 0)
    (fun r th => Cplus (u r th) (Cplus (RtoC (w r th)) (fourier_bessel jv k nu a M c r th))).
Proof using HD HJ HW Hk.
  intros u. split; intros H.
  - destruct (singular_part 1) as [Pr [Pi [HPr [HPi HP]]]].
    eapply csolves_ext; [| |apply (csolves_add k D (fun r th => RtoC (zm_f k w r th))
      (fun r th => RtoC (- zm_f k w r th)) u _ Pr Pi HD HPr HPi)].
    + intros r th _. cbv beta. rewrite <- RtoC_plus. f_equal. ring.
    + intros r th. cbv beta. rewrite Cmult_1_l. reflexivity.
    + intros r th HDr. destruct (HP r th HDr) as [E1 E2]. cbn [RtoC fst snd]. split; [lra|exact E2].
    + exact H.
  - destruct (singular_part (-1)) as [Pr [Pi [HPr [HPi HP]]]].
    eapply csolves_ext; [| |apply (csolves_add k D (fun r th => RtoC 0)
      (fun r th => RtoC (zm_f k w r th))
      (fun r th => Cplus (u r th) (Cplus (RtoC (w r th)) (fourier_bessel jv k nu a M c r th)))
      _ Pr Pi HD HPr HPi)].
    + intros r th _. cbv beta. rewrite Cplus_0_l. reflexivity.
    + intros r th. cbv beta.
      replace (RtoC (-1)) with (Copp (RtoC 1)) by (unfold RtoC, Copp; cbn [fst snd]; f_equal; ring). ring.
    + intros r th HDr. destruct (HP r th HDr) as [E1 E2]. cbn [RtoC fst snd]. split; [lra|exact E2].
    + exact H.
Qed.
End Regular.

Lemma fold_minus : forall M (f : nat -> C) x,
  fold_left (fun bc m => Cminus bc (f m)) (seq 1 M) x = Cminus x (csum M (fun m => f (S m))).
Proof.
  intros M f x. induction M as [|M IH]; [simpl; ring|].
  rewrite seq_S, fold_left_app, IH. cbn [fold_left csum Nat.add]. ring.
Qed.

Lemma Cminus_eq : forall x y z : C, Cminus x y = z <-> Cplus z y = x.
Proof. intros x y z. split; intros H; [rewrite <- H|rewrite <- H]; ring. Qed.

Lemma Ok_iff : forall A (x y : A), Ok x = Ok y <-> x = y.
Proof. intros A x y. split; intros H; [inversion H; reflexivity|rewrite H; reflexivity]. Qed.

Lemma sin_node : forall nu a m, nu * (2 * PI - a) = PI -> sin ((INR m + 1) * nu * (2 * PI - a)) = 0.
Proof.
  intros nu a m H. replace ((INR m + 1) * nu * (2 * PI - a)) with ((INR m + 1) * (nu * (2 * PI - a))) by ring.
  rewrite H, <- S_INR, INR_IZR_INZ. apply sin_eq_0_1. eexists. reflexivity.
Qed.

Lemma fb_edges : forall jv k nu a M c r, nu * (2 * PI - a) = PI ->
  fourier_bessel jv k nu a M c r (2 * PI) = RtoC 0 /\ fourier_bessel jv k nu a M c r a = RtoC 0.
Proof.
  intros jv k nu a M c r H. unfold fourier_bessel. split.
  - rewrite <- (csum_zero M). apply csum_ext. intros m Hm. rewrite sin_node by exact H.
    rewrite Rmult_0_r. ring.
  - rewrite <- (csum_zero M). apply csum_ext. intros m Hm.
    replace ((INR m + 1) * nu * (a - a)) with 0 by ring. rewrite sin_0, Rmult_0_r. ring.
Qed.

Lemma regular_boundary : forall jv phi0 phi1 phi2 w a_coef eval_r a nu k M (u : R -> R -> C),
  nu * (2 * PI - a) = PI ->
  let full := fun r th => Cplus (u r th) (Cplus (RtoC (w r th))
                (fourier_bessel jv k nu a M (fun m => nth m a_coef (RtoC 0)) r th)) in
  let bc := zm_u_bc jv phi0 phi1 phi2 w a_coef eval_r a nu k M in
  (forall th, bc th 0%nat = Ok (u (eval_r th) th) <-> full (eval_r th) th = RtoC (phi0 th)) /\
  (forall r, 0 <= r -> (bc r 1%nat = Ok (u r (2 * PI)) <-> full r (2 * PI) = RtoC (phi1 r))) /\
  (forall r, 0 <= r -> (bc r 2%nat = Ok (u r a) <-> full r a = RtoC (phi2 r))).
Proof.
  intros jv phi0 phi1 phi2 w a_coef eval_r a nu k M u Hnu. cbv zeta.
  split; [|split].
  - intros th. unfold zm_u_bc. cbn [arg_to_polar Nat.eqb].
    rewrite (fold_minus M (fun m => Cmult (nth (m - 1) a_coef (RtoC 0))
      (RtoC (jv (INR m * nu) (k * eval_r th) * sin (INR m * nu * (th - a)))))).
    rewrite Ok_iff, Cminus_eq. unfold fourier_bessel.
    set (S1 := csum M _). set (S2 := csum M _).
    assert (E : S1 = S2) by (unfold S1, S2; apply csum_ext; intros m Hm; rewrite S_INR;
      replace (S m - 1)%nat with m by lia; reflexivity).
    rewrite E. clearbody S2.
    rewrite RtoC_minus. split; intros H.
    + replace (RtoC (phi0 th)) with (Cplus (Cminus (RtoC (phi0 th)) (RtoC (w (eval_r th) th)))
        (RtoC (w (eval_r th) th))) by ring. rewrite <- H. ring.
    + rewrite <- H. ring.
  - intros r Hr. unfold zm_u_bc. cbn [arg_to_polar Nat.eqb andb].
    destruct (Rleb_spec 0 r) as [_|N]; [|lra].
    destruct (fb_edges jv k nu a M (fun m => nth m a_coef (RtoC 0)) r Hnu) as [E _]. rewrite E.
    rewrite Ok_iff, RtoC_minus, Cminus_eq, Cplus_0_r. split; intros H; rewrite <- H; ring.
  - intros r Hr. unfold zm_u_bc. cbn [arg_to_polar Nat.eqb andb].
    destruct (Rleb_spec 0 r) as [_|N]; [|lra].
    destruct (fb_edges jv k nu a M (fun m => nth m a_coef (RtoC 0)) r Hnu) as [_ E]. rewrite E.
    rewrite Ok_iff, RtoC_minus, Cminus_eq, Cplus_0_r. split; intros H; rewrite <- H; ring.
Qed.
