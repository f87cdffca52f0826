(** The problem with a known solution: its regularised reference solution
    solves the regularised problem (C59). *)
From Coq Require Import String ZArith List Bool Reals Lia Lra.
From Coquelicot Require Import Coquelicot.
From Verif Require Import Model_Py Model_Fourier Model_Domain Model_ZMethod Model_Problems Model_ZRun
  Lib_Csum Spec_Fd Spec_PolarFD Spec_Problems Spec_Bessel Spec_ZRun
  Proof_Domain Proof_ZMethod Proof_Bessel Proof_BesselJ Proof_Corners Proof_Regular Proof_ZSing.
Import ListNotations.
Open Scope R_scope.

Lemma csolves_real : forall k (D : R -> R -> Prop) (u : R -> R -> R) U f, partials 2 D u U ->
  (forall r th, D r th -> 0 < r) ->
  (forall r th, D r th -> polar_helmholtz k U r th = f r th) ->
  csolves k D (fun r th => RtoC (f r th)) (fun r th => RtoC (u r th)).
Proof.
  intros k D u U f HU HD HE. exists U, (fun _ _ _ _ => 0). split; [exact HU|]. split.
  - split; [reflexivity|]. intros. split; apply is_derive_const_R.
  - intros r th Hr. split; [apply HE; exact Hr|]. unfold polar_helmholtz. cbn [RtoC snd].
    pose proof (HD r th Hr). field. lra.
Qed.

Lemma fb_zero : forall jv k nu a M n r th, fourier_bessel jv k nu a M (fun m => nth m (repeat (RtoC 0) n) (RtoC 0)) r th = RtoC 0.
Proof.
  intros. unfold fourier_bessel. transitivity (csum M (fun _ => RtoC 0)); [|apply csum_zero].
  apply csum_ext. intros m Hm. rewrite nth_repeat. ring.
Qed.

Lemma iz_expected_solves : forall J k nu a w W eval_r n M, nu * (2 * PI - a) = PI -> 0 < a < 2 * PI -> 0 < k ->
  bessel_like J (nu / 2) -> partials 2 off_tip w W ->
  exists A, zm_expected_a_coef J "iz-bessel" (iz_phi0 J 0 k nu a eval_r) (ih_eval_v J 0 k nu a) a k (eval_r a) nu n M = Ok A /\
  let u := zm_u_expected (iz_expected J 0 k nu a) w in
  let bc := zm_u_bc J (iz_phi0 J 0 k nu a eval_r) (iz_phi1 J 0 k nu a) iz_phi2 w A eval_r a nu k M in
  csolves k off_tip (fun r th => RtoC (zm_f k w r th)) (fun r th => RtoC (u r th)) /\
  (forall th, bc th 0%nat = Ok (RtoC (u (eval_r th) th))) /\
  (forall r, 0 < r -> bc r 1%nat = Ok (RtoC (u r (2 * PI))) /\ bc r 2%nat = Ok (RtoC (u r a))).
Proof.
  intros J k nu a w W eval_r n M Hnu Ha Hk HB HW. exists (repeat (RtoC 0) M). split; [reflexivity|]. cbv zeta.
  assert (E0 : (0 + 1 / 2) * nu = nu / 2) by field.
  assert (HB' : bessel_like J ((0 + 1 / 2) * nu)) by (rewrite E0; exact HB).
  destruct (ih_v_solves J 0 k nu a Hk HB') as [V [PV HV]].
  set (u := zm_u_expected (iz_expected J 0 k nu a) w).
  assert (Eu : forall r th, Cplus (RtoC (u r th)) (RtoC (w r th)) = RtoC (ih_eval_v J 0 k nu a r th)).
  { intros r th. rewrite <- RtoC_plus. f_equal. unfold u, zm_u_expected, iz_expected. ring. }
  split; [|].
  - apply (regular_equation J k nu a 0 (fun _ => RtoC 0) w W off_tip Hk).
    + intros m Hm. lia.
    + exact HW.
    + intros r th H. exact H.
    + eapply csolves_ext; [| |apply (csolves_real k off_tip (ih_eval_v J 0 k nu a) V (fun _ _ => 0) PV)].
      * intros r th _. reflexivity.
      * intros r th. cbv beta. unfold fourier_bessel. cbn [csum]. rewrite Cplus_0_r, Eu. reflexivity.
      * intros r th H. exact H.
      * exact HV.
  - destruct (regular_boundary J (iz_phi0 J 0 k nu a eval_r) (iz_phi1 J 0 k nu a) iz_phi2 w (repeat (RtoC 0) M)
      eval_r a nu k M (fun r th => RtoC (u r th)) Hnu) as [B0 [B1 B2]]. split.
    + intros th. apply B0. cbv beta. rewrite fb_zero, Cplus_0_r, Eu. reflexivity.
    + intros r Hr. destruct (phi_v nu a Hnu Ha J k r Hr) as [[P1 P2] _]. split.
      * apply B1; [lra|]. cbv beta. rewrite fb_zero, Cplus_0_r, Eu, P1. reflexivity.
      * apply B2; [lra|]. cbv beta. rewrite fb_zero, Cplus_0_r, Eu, P2. reflexivity.
Qed.
