(** The residual of the truncated series with its constants (C44, C92). *)
From Coq Require Import Arith List Reals Lia Lra Psatz.
From Coquelicot Require Import Coquelicot.
From Verif Require Import Model_ZMethod Model_Problems Model_Domain Spec_Fd Spec_PolarFD Spec_Problems
  Proof_ZMethod Proof_Bessel Proof_Taper Proof_ZSing Proof_Tip3.
Open Scope R_scope.

Lemma bterm_eq : forall gamma q k n r, 0 < k -> 0 < r ->
  bterm gamma q k n r = (-1) ^ n / (INR (fact n) * gamma (q + INR n + 1)) * Rpower (k * r / 2) (2 * INR n + q).
Proof.
  intros gamma q k n r Hk Hr. assert (H : 0 < k * r / 2) by (apply Rdiv_lt_0_compat; [apply Rmult_lt_0_compat; assumption|lra]).
  unfold bterm. rewrite <- (Rpower_pow (2 * n)) by exact H. rewrite mult_INR. change (INR 2) with 2.
  rewrite Rpower_plus. ring.
Qed.

Lemma bterm_nine : forall gamma q k r, 0 < k -> 0 < r ->
  bterm gamma q k 9 r = - (Rpower (k * r / 2) (18 + q) / (362880 * gamma (q + 10))).
Proof.
  intros gamma q k r Hk Hr. rewrite bterm_eq by assumption.
  replace (INR (fact 9)) with 362880 by (rewrite INR_IZR_INZ; f_equal; vm_compute; reflexivity).
  replace (q + INR 9 + 1) with (q + 10) by (cbn; ring). replace (2 * INR 9 + q) with (18 + q) by (cbn; ring).
  replace ((-1) ^ 9) with (-1) by ring. unfold Rdiv. ring.
Qed.

Lemma ih_series_eq : forall gamma K k nu a, gamma_like gamma -> 0 < k -> 0 < (K + 1 / 2) * nu ->
  exists U, partials 2 off_tip (ih_v_series gamma K k nu a) U /\
    forall r th, 0 < r -> polar_helmholtz k U r th =
      - k ^ 2 * (Rpower (k * r / 2) (18 + (K + 1 / 2) * nu) / (362880 * gamma ((K + 1 / 2) * nu + 10))
                 * sin ((K + 1 / 2) * nu * (th - a))).
Proof.
  intros gamma K k nu a Hg Hk Ha.
  destruct (mode_series gamma K k nu a 9 Hg Hk Ha) as [U [HU HL]]. exists U. split; [exact HU|].
  intros r th Hr. rewrite HL, last_term, bterm_nine by assumption. ring.
Qed.

Lemma quad_series_eq : forall gamma k nu a, gamma_like gamma -> 0 < k -> 0 < nu ->
  exists U, partials 2 off_tip (quad_v_series gamma k nu a) U /\
    forall r th, 0 < r -> polar_helmholtz k U r th =
      - k ^ 2 * (Rpower (k * r / 2) (18 + nu / 2) / (362880 * gamma (nu / 2 + 10)) * sin (nu / 2 * (th - a))
                 + Rpower (k * r / 2) (18 + 3 * nu / 2) / (362880 * gamma (3 * nu / 2 + 10)) * sin (3 * nu / 2 * (th - 2 * PI))).
Proof.
  intros gamma k nu a Hg Hk Hnu.
  assert (E1 : (0 + 1 / 2) * nu = nu / 2) by field.
  assert (E3 : (1 + 1 / 2) * nu = 3 * nu / 2) by field.
  destruct (ih_series_eq gamma 0 k nu a Hg Hk ltac:(lra)) as [U [HU H1]].
  destruct (ih_series_eq gamma 1 k nu (2 * PI) Hg Hk ltac:(lra)) as [V [HV H3]].
  exists (fun i j x y => 1 * U i j x y + 1 * V i j x y). split.
  - eapply partials_ext; [|apply (partials_comb 2 off_tip _ _ _ _ 1 1 HU HV)].
    intros r th. unfold ih_v_series, quad_v_series. rewrite E1, E3. ring.
  - intros r th Hr. rewrite polar_helmholtz_plus, H1, H3 by assumption. rewrite E1, E3. ring.
Qed.

Lemma ih_source_eq : forall gamma K k nu a R1,
  gamma_like gamma -> 0 < k -> 0 < (K + 1 / 2) * nu -> zm_R0 < R1 ->
  (forall r th, 0 < r < zm_R0 -> zm_f k (ih_v_asympt gamma K k nu a R1) r th =
     k ^ 2 * (Rpower (k * r / 2) ((K + 1 / 2) * nu + 2) / gamma ((K + 1 / 2) * nu + 2) * sin ((K + 1 / 2) * nu * (th - a)))) /\
  (forall r th, R1 < r -> zm_f k (ih_v_asympt gamma K k nu a R1) r th = 0).
Proof.
  intros gamma K k nu a R1 Hg Hk Ha HR. split; [apply ih_tip_source; assumption|].
  exact (proj2 (ih_source gamma K k nu a R1 Hg Hk Ha HR)).
Qed.

Lemma quad_source_eq : forall gamma k nu a R1,
  gamma_like gamma -> 0 < k -> 0 < nu -> zm_R0 < R1 ->
  (forall r th, 0 < r < zm_R0 -> zm_f k (quad_v_asympt gamma k nu a R1) r th =
     k ^ 2 * (Rpower (k * r / 2) (nu / 2 + 2) / gamma (nu / 2 + 2) * sin (nu / 2 * (th - a))
              + Rpower (k * r / 2) (3 * nu / 2 + 2) / gamma (3 * nu / 2 + 2) * sin (3 * nu / 2 * (th - 2 * PI)))) /\
  (forall r th, R1 < r -> zm_f k (quad_v_asympt gamma k nu a R1) r th = 0).
Proof.
  intros gamma k nu a R1 Hg Hk Hnu HR. split; [apply quad_tip_source; assumption|].
  exact (proj2 (quad_source gamma k nu a R1 Hg Hk Hnu HR)).
Qed.
