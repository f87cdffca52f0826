(** Bessel functions by their power series, and the Fourier-Bessel modes. *)
From Coq Require Import ZArith List Bool Reals Lia Lra.
From Coquelicot Require Import Coquelicot.
From Verif Require Import Model_Py Lib_Csum Proof_ZMethod Spec_Fd Spec_PolarFD Spec_Problems Spec_Bessel.
Import ListNotations.
Open Scope R_scope.

(** Coefficients of f(t) = sum c_l t^l with t f'' + (1+p) f' + f = 0. *)
Fixpoint bcoef (p : R) (l : nat) : R :=
  match l with
  | O => 1
  | S l => - bcoef p l / ((INR l + 1) * (INR l + 1 + p))
  end.

Lemma bcoef_nz : forall p l, 0 < p -> bcoef p l <> 0.
Proof.
  intros p l Hp. induction l as [|l IH]; simpl bcoef; [lra|]. pose proof (pos_INR l).
  unfold Rdiv. apply Rmult_integral_contrapositive_currified; [lra|].
  apply Rinv_neq_0_compat. apply Rmult_integral_contrapositive_currified; lra.
Qed.

Lemma bcoef_radius : forall p, 0 < p -> CV_radius (bcoef p) = p_infty.
Proof.
  intros p Hp. apply CV_radius_infinite_DAlembert; [intros n; apply bcoef_nz; exact Hp|].
  apply (is_lim_seq_le_le (fun _ => 0) _ (fun n => / (INR n + 1))).
  - intros n. pose proof (pos_INR n). pose proof (bcoef_nz p n Hp) as Hz.
    replace (bcoef p (S n) / bcoef p n) with (- (/ ((INR n + 1) * (INR n + 1 + p)))) by (simpl; field; lra).
    rewrite Rabs_Ropp, Rabs_pos_eq; [|left; apply Rinv_0_lt_compat; nra].
    split; [left; apply Rinv_0_lt_compat; nra|].
    apply Rinv_le_contravar; [lra|]. nra.
  - apply is_lim_seq_const.
  - apply (is_lim_seq_ext (fun n => / INR (S n))); [intros n; rewrite S_INR; reflexivity|].
    apply (is_lim_seq_incr_1 (fun n => / INR n)).
    evar_last. { apply (is_lim_seq_inv INR p_infty); [apply is_lim_seq_INR|discriminate]. } reflexivity.
Qed.

(** The series and its first two derivatives. *)
Definition bser (p : R) (i : nat) (t : R) : R :=
  PSeries (match i with 0%nat => bcoef p | 1%nat => PS_derive (bcoef p) | _ => PS_derive (PS_derive (bcoef p)) end) t.

Lemma bser_derive : forall p i t, 0 < p -> (i < 2)%nat -> is_derive (bser p i) t (bser p (S i) t).
Proof.
  intros p i t Hp Hi. unfold bser. destruct i as [|[|i]]; [| |lia]; apply is_derive_PSeries.
  - rewrite bcoef_radius by exact Hp. exact I.
  - rewrite CV_radius_derive, bcoef_radius by exact Hp. exact I.
Qed.

Lemma inf_ex : forall a x, CV_radius a = p_infty -> ex_pseries a x.
Proof. intros a x H. apply CV_radius_inside. rewrite H. exact I. Qed.

Lemma bser_ode : forall p t, 0 < p -> t * bser p 2 t + (1 + p) * bser p 1 t + bser p 0 t = 0.
Proof.
  intros p t Hp. unfold bser.
  pose proof (bcoef_radius p Hp) as R0.
  assert (R1 : CV_radius (PS_derive (bcoef p)) = p_infty) by (rewrite CV_radius_derive; exact R0).
  assert (R2 : CV_radius (PS_derive (PS_derive (bcoef p))) = p_infty) by (rewrite CV_radius_derive; exact R1).
  rewrite <- PSeries_incr_1, <- PSeries_scal.
  rewrite <- PSeries_plus; [| apply ex_pseries_incr_1, inf_ex, R2 | apply ex_pseries_scal; [apply Rmult_comm|apply inf_ex, R1]].
  rewrite <- PSeries_plus;
    [| apply ex_pseries_plus; [apply ex_pseries_incr_1, inf_ex, R2 | apply ex_pseries_scal; [apply Rmult_comm|apply inf_ex, R1]] | apply inf_ex, R0].
  transitivity (PSeries (fun _ => 0) t).
  - apply PSeries_ext. intros n. unfold PS_plus, PS_scal, PS_derive.
    change (PS_incr_1 (fun n0 => INR (S n0) * (INR (S (S n0)) * bcoef p (S (S n0)))) n
      + (1 + p) * (INR (S n) * bcoef p (S n)) + bcoef p n = 0).
    assert (E : PS_incr_1 (fun n0 => INR (S n0) * (INR (S (S n0)) * bcoef p (S (S n0)))) n =
      INR n * (INR (S n) * bcoef p (S n))).
    { destruct n as [|n]; [change (0 = 0 * (INR 1 * bcoef p 1)); ring|reflexivity]. }
    rewrite E, S_INR. simpl bcoef. pose proof (pos_INR n). field. lra.
  - apply is_pseries_unique. apply (is_pseries_ext (PS_scal 0 (bcoef p))).
    + intros n. unfold PS_scal. change (0 * bcoef p n = 0). ring.
    + evar_last. { apply is_pseries_scal; [apply Rmult_comm|]. apply PSeries_correct. apply inf_ex, R0. }
      change (0 * PSeries (bcoef p) t = 0). ring.
Qed.

(** The Bessel function of order p > 0, up to its normalisation. *)
Definition jv_series (p x : R) : R := Rpower x p * bser p 0 (x ^ 2 / 4).

Lemma jv_series_bessel : forall p, 0 < p -> bessel_like jv_series p.
Proof.
  intros p Hp.
  exists (fun x => Rpower x p * (p / x * bser p 0 (x ^ 2 / 4) + x / 2 * bser p 1 (x ^ 2 / 4))).
  exists (fun x => Rpower x p * (p / x * (p / x * bser p 0 (x ^ 2 / 4) + x / 2 * bser p 1 (x ^ 2 / 4))
     + (- p / x ^ 2 * bser p 0 (x ^ 2 / 4) + p / x * (x / 2 * bser p 1 (x ^ 2 / 4))
        + / 2 * bser p 1 (x ^ 2 / 4) + x / 2 * (x / 2 * bser p 2 (x ^ 2 / 4))))).
  intros x Hx.
  assert (Hd : forall i, (i < 2)%nat -> is_derive (fun x => bser p i (x ^ 2 / 4)) x (x / 2 * bser p (S i) (x ^ 2 / 4))).
  { intros i Hi. apply (is_derive_comp (bser p i) (fun x => x ^ 2 / 4)); [apply bser_derive; assumption|].
    auto_derive; [exact I|field]. }
  pose proof (Hd 0%nat ltac:(lia)) as D0. pose proof (Hd 1%nat ltac:(lia)) as D1.
  assert (DP : is_derive (fun x => Rpower x p) x (Rpower x p * (p / x))).
  { unfold Rpower. auto_derive; [exact Hx|]. field. lra. }
  split; [|split].
  - unfold jv_series. evar_last. { apply (is_derive_mult (K := R_AbsRing)); [exact DP|exact D0|apply Rmult_comm]. }
    change (Rpower x p * (p / x) * bser p 0 (x ^ 2 / 4) + Rpower x p * (x / 2 * bser p 1 (x ^ 2 / 4)) =
      Rpower x p * (p / x * bser p 0 (x ^ 2 / 4) + x / 2 * bser p 1 (x ^ 2 / 4))). ring.
  - set (B0 := fun x => bser p 0 (x ^ 2 / 4)) in *. set (B1 := fun x => bser p 1 (x ^ 2 / 4)) in *.
    assert (DQ : is_derive (fun x => p / x * B0 x + x / 2 * B1 x) x
      (- p / x ^ 2 * B0 x + p / x * (x / 2 * B1 x) + / 2 * B1 x + x / 2 * (x / 2 * bser p 2 (x ^ 2 / 4)))).
    { auto_derive.
      - split; [lra|]. split; [eexists; exact D0|]. split; [eexists; exact D1|exact I].
      - replace (Derive (fun x => B0 x) x) with (x / 2 * B1 x) by (symmetry; apply is_derive_unique; exact D0).
        replace (Derive (fun x => B1 x) x) with (x / 2 * bser p 2 (x ^ 2 / 4)) by (symmetry; apply is_derive_unique; exact D1).
        field. lra. }
    evar_last. { apply (is_derive_mult (K := R_AbsRing)); [exact DP|exact DQ|apply Rmult_comm]. }
    change (Rpower x p * (p / x) * (p / x * B0 x + x / 2 * B1 x) + Rpower x p *
      (- p / x ^ 2 * B0 x + p / x * (x / 2 * B1 x) + / 2 * B1 x + x / 2 * (x / 2 * bser p 2 (x ^ 2 / 4))) =
      Rpower x p * (p / x * (p / x * B0 x + x / 2 * B1 x) + (- p / x ^ 2 * B0 x + p / x * (x / 2 * B1 x)
        + / 2 * B1 x + x / 2 * (x / 2 * bser p 2 (x ^ 2 / 4))))). ring.
  - unfold jv_series. pose proof (bser_ode p (x ^ 2 / 4) Hp) as E.
    set (b0 := bser p 0 (x ^ 2 / 4)) in *. set (b1 := bser p 1 (x ^ 2 / 4)) in *.
    set (b2 := bser p 2 (x ^ 2 / 4)) in *. clearbody b0 b1 b2.
    replace b0 with (- (x ^ 2 / 4 * b2) - (1 + p) * b1) by lra. field. lra.
Qed.

(** A mode solves the homogeneous equation. *)
Lemma mode_bessel : forall jv p k a, 0 < k -> bessel_like jv p ->
  exists U, partials 2 off_tip (fun r th => jv p (k * r) * sin (p * (th - a))) U /\
    forall r th, 0 < r -> polar_helmholtz k U r th = 0.
Proof.
  intros jv p k a Hk [J1 [J2 HJ]].
  exists (fun i j r th =>
    (match i with 0%nat => jv p (k * r) | 1%nat => k * J1 (k * r) | _ => k ^ 2 * J2 (k * r) end)
    * match j with 0%nat => sin (p * (th - a)) | 1%nat => p * cos (p * (th - a))
      | _ => - p ^ 2 * sin (p * (th - a)) end).
  split; [split; [reflexivity|]|].
  - intros i j Hij r th Hr. change (0 < r) in Hr. assert (Hkr : 0 < k * r) by nra.
    destruct (HJ (k * r) Hkr) as [D0 [D1 _]]. split.
    + set (s := match j with 0%nat => _ | _ => _ end).
      match goal with |- is_derive _ _ (?c * s) => set (cc := c) end.
      apply (is_derive_ext (fun r => s * (match i with 0%nat => jv p (k * r) | 1%nat => k * J1 (k * r) | _ => k ^ 2 * J2 (k * r) end)));
        [intros; apply Rmult_comm|].
      rewrite (Rmult_comm cc s). apply is_derive_scal. subst cc.
      destruct i as [|[|i]]; [| |lia].
      * evar_last. { apply (is_derive_comp (jv p) (fun r => k * r)); [exact D0|]. apply (is_derive_scal (fun r => r)). apply (is_derive_id (K := R_AbsRing)). }
        change (k * 1 * J1 (k * r) = k * J1 (k * r)). ring.
      * evar_last. { apply is_derive_scal. apply (is_derive_comp J1 (fun r => k * r)); [exact D1|]. apply (is_derive_scal (fun r => r)). apply (is_derive_id (K := R_AbsRing)). }
        change (k * (k * 1 * J2 (k * r)) = k ^ 2 * J2 (k * r)). ring.
    + apply is_derive_scal. destruct j as [|[|j]]; [| |lia]; auto_derive; try exact I; unfold Rminus; ring.
  - intros r th Hr. assert (Hkr : 0 < k * r) by nra. destruct (HJ (k * r) Hkr) as [_ [_ E]].
    unfold polar_helmholtz. set (s := sin (p * (th - a))).
    transitivity (s / r ^ 2 * ((k * r) ^ 2 * J2 (k * r) + k * r * J1 (k * r) + ((k * r) ^ 2 - p ^ 2) * jv p (k * r))).
    + field. lra.
    + rewrite E. ring.
Qed.
