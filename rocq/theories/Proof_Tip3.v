(** The source of the regularised equation near the tip (C88). *)
From Coq Require Import String ZArith List Bool Reals Lia Lra Psatz.
From Coquelicot Require Import Coquelicot.
From Verif Require Import Model_Py Model_Abcoef Model_ZMethod Model_Problems Model_Domain Model_Program Model_ZProgram Model_Run Spec_Fd Spec_PolarFD Spec_Problems Spec_Tip
  Proof_Consist Proof_ZMethod Proof_Bessel Proof_Taper Proof_Regular Proof_ZSing Proof_OdeSeries Proof_OdeSing Proof_Tip1 Proof_Tip2.
Import ListNotations.
Open Scope R_scope.

Lemma bterm_one : forall gamma q k r, 0 < k -> 0 < r -> bterm gamma q k 1 r = - (Rpower (k * r / 2) (q + 2) / gamma (q + 2)).
Proof.
  intros gamma q k r Hk Hr. assert (H : 0 < k * r / 2) by (apply Rdiv_lt_0_compat; [apply Rmult_lt_0_compat; assumption|lra]).
  unfold bterm. replace (q + INR 1 + 1) with (q + 2) by (cbn; ring). rewrite Rpower_plus.
  replace (Rpower (k * r / 2) 2) with ((k * r / 2) ^ 2) by (rewrite <- (Rpower_pow 2 _ H); f_equal; cbn; ring).
  change (fact 1) with 1%nat. change (2 * 1)%nat with 2%nat. replace (INR 1) with 1 by reflexivity. rewrite Rmult_1_l. unfold Rdiv. ring.
Qed.

Lemma ih_tip_source : forall gamma K k nu a R1, gamma_like gamma -> 0 < k -> 0 < (K + 1 / 2) * nu -> zm_R0 < R1 ->
  forall r th, 0 < r < zm_R0 -> zm_f k (ih_v_asympt gamma K k nu a R1) r th =
    k ^ 2 * (Rpower (k * r / 2) ((K + 1 / 2) * nu + 2) / gamma ((K + 1 / 2) * nu + 2) * sin ((K + 1 / 2) * nu * (th - a))).
Proof.
  intros gamma K k nu a R1 Hg Hk Ha HR r th Hr. destruct (taper_spec zm_R0 R1 HR) as [T1 _].
  destruct (mode_series gamma K k nu a 1 Hg Hk Ha) as [U [HU HL]]. unfold zm_f.
  rewrite (helm_loc k _ (fun r th => v_asympt0 gamma K k nu 2 r * sin ((K + 1 / 2) * nu * (th - a)))
    r th (fun x => 0 < x < zm_R0) Hr (locally_between 0 zm_R0)).
  - rewrite (helm_partials k _ U r th HU) by lra. rewrite HL, last_term, bterm_one by lra. ring.
  - intros x t Hx. unfold ih_v_asympt, ih_nterms. rewrite T1 by lra. ring.
Qed.

Lemma quad_tip_source : forall gamma k nu a R1, gamma_like gamma -> 0 < k -> 0 < nu -> zm_R0 < R1 ->
  forall r th, 0 < r < zm_R0 -> zm_f k (quad_v_asympt gamma k nu a R1) r th =
    k ^ 2 * (Rpower (k * r / 2) (nu / 2 + 2) / gamma (nu / 2 + 2) * sin (nu / 2 * (th - a))
             + Rpower (k * r / 2) (3 * nu / 2 + 2) / gamma (3 * nu / 2 + 2) * sin (3 * nu / 2 * (th - 2 * PI))).
Proof.
  intros gamma k nu a R1 Hg Hk Hnu HR r th Hr. destruct (taper_spec zm_R0 R1 HR) as [T1 _].
  destruct (mode_series gamma 0 k nu a 1 Hg Hk ltac:(lra)) as [U [HU HL]].
  destruct (mode_series gamma 1 k nu (2 * PI) 1 Hg Hk ltac:(lra)) as [V [HV HM]]. unfold zm_f.
  pose proof (partials_comb 2 off_tip _ _ U V 1 1 HU HV) as PC.
  rewrite (helm_loc k _ (fun r th => 1 * (v_asympt0 gamma 0 k nu 2 r * sin ((0 + 1 / 2) * nu * (th - a)))
      + 1 * (v_asympt0 gamma 1 k nu 2 r * sin ((1 + 1 / 2) * nu * (th - 2 * PI))))
    r th (fun x => 0 < x < zm_R0) Hr (locally_between 0 zm_R0)).
  - rewrite (helm_partials k _ _ r th PC) by lra. rewrite helm_lin by lra. rewrite HL, HM, !last_term, !bterm_one by lra.
    replace ((0 + 1 / 2) * nu) with (nu / 2) by field. replace ((1 + 1 / 2) * nu) with (3 * nu / 2) by field. ring.
  - intros x t Hx. unfold quad_v_asympt, ih_nterms. rewrite T1 by lra.
    replace ((0 + 1 / 2) * nu) with (nu / 2) by field. replace ((1 + 1 / 2) * nu) with (3 * nu / 2) by field. ring.
Qed.

Lemma source_eq : forall jv gamma s, gamma_like gamma -> let p := sing_problem jv gamma s in let k := zp_k p in
  forall r th, 0 < r < / 10 -> zm_f k (zp_v_asympt p) r th =
    k ^ 2 * (Rpower (k * r / 2) (2 + 2 / 7) / gamma (2 + 2 / 7) * sin (2 / 7 * (th - PI / 4))
             + match s with IhzQuadratic => Rpower (k * r / 2) (2 + 6 / 7) / gamma (2 + 6 / 7) * sin (6 / 7 * (th - 2 * PI)) | _ => 0 end).
Proof.
  intros jv gamma s Hg p k r th Hr. assert (H0 : zm_R0 = / 10) by reflexivity. rewrite <- H0 in Hr.
  assert (HR : zm_R0 < problem_R) by (rewrite H0; unfold problem_R; lra).
  assert (Hk : 0 < k) by apply sing_k_pos.
  assert (Ea : pizza_a = PI / 4) by (unfold pizza_a; lra).
  assert (E1 : (0 + 1 / 2) * pizza_nu = 2 / 7) by (rewrite nu_val; lra).
  assert (E2 : pizza_nu / 2 = 2 / 7) by (rewrite nu_val; lra).
  assert (E3 : 3 * pizza_nu / 2 = 6 / 7) by (rewrite nu_val; lra).
  assert (Hn : 0 < pizza_nu) by (rewrite nu_val; lra).
  rewrite !(Rplus_comm 2). unfold k, p in *. destruct s; cbn [sing_problem zp_v_asympt zp_k] in *.
  - rewrite (ih_tip_source gamma 0 _ pizza_nu pizza_a problem_R Hg Hk ltac:(lra) HR r th Hr), E1, Ea. ring.
  - rewrite (ih_tip_source gamma 0 _ pizza_nu pizza_a problem_R Hg Hk ltac:(lra) HR r th Hr), E1, Ea. ring.
  - rewrite (quad_tip_source gamma _ pizza_nu pizza_a problem_R Hg Hk Hn HR r th Hr), E2, E3, Ea. ring.
Qed.

(** ** Derivatives of powers *)

Fixpoint fall (q : R) (j : nat) : R := match j with O => 1 | S j => fall q j * (q - INR j) end.

Definition pw (q : R) (j : nat) (r : R) : R := fall q j * Rpower r (q - INR j).

Lemma pw_derive : forall q j r, 0 < r -> is_derive (pw q j) r (pw q (S j) r).
Proof.
  intros q j r Hr. unfold pw. evar_last. { apply is_derive_scal. apply (rpower_derive (q - INR j) r Hr). }
  cbn [fall]. replace (q - INR (S j)) with (q - INR j - 1) by (rewrite S_INR; ring). ring.
Qed.

(** Coefficients of the two powers. *)
Definition sc1 (gamma : R -> R) (k th : R) : R := k ^ 2 * Rpower (k / 2) (2 + 2 / 7) / gamma (2 + 2 / 7) * sin (2 / 7 * (th - PI / 4)).
Definition sc3 (gamma : R -> R) (s : sing_name) (k th : R) : R :=
  k ^ 2 * Rpower (k / 2) (2 + 6 / 7) / gamma (2 + 6 / 7) * (second s * sin (6 / 7 * (th - 2 * PI))).
Definition src (gamma : R -> R) (s : sing_name) (k : R) (j : nat) (r th : R) : R :=
  sc1 gamma k th * pw (2 + 2 / 7) j r + sc3 gamma s k th * pw (2 + 6 / 7) j r.

Lemma src_derive : forall gamma s k j r th, 0 < r -> is_derive (fun r => src gamma s k j r th) r (src gamma s k (S j) r th).
Proof.
  intros gamma s k j r th Hr. unfold src. apply (is_derive_plus (V := R_NormedModule)); apply is_derive_scal, pw_derive, Hr.
Qed.

Lemma src_eq : forall jv gamma s, gamma_like gamma -> let p := sing_problem jv gamma s in let k := zp_k p in
  forall r th, 0 < r < / 10 -> src gamma s k 0 r th = zm_f k (zp_v_asympt p) r th.
Proof.
  intros jv gamma s Hg p k r th Hr. unfold k, p. rewrite source_eq by assumption. fold p. fold k.
  assert (Hk : 0 < k) by apply sing_k_pos.
  assert (E : forall q, Rpower (k * r / 2) q = Rpower (k / 2) q * Rpower r q).
  { intros q. rewrite Rpower_mult_distr by lra. f_equal. field. }
  rewrite !E. unfold src, sc1, sc3, pw. cbn [fall]. replace (INR 0) with 0 by reflexivity. rewrite !Rminus_0_r. unfold Rdiv. destruct s; cbn [second]; ring.
Qed.

Lemma src_radial : forall jv gamma s, gamma_like gamma -> let p := sing_problem jv gamma s in
  forall th, radial (/ 10) (fun r => zm_f (zp_k p) (zp_v_asympt p) r th) (fun j r => src gamma s (zp_k p) j r th).
Proof.
  intros jv gamma s Hg p th. split; [intros r Hr; apply src_eq; assumption|intros j r Hr; apply src_derive; lra].
Qed.

Lemma pw_bound : forall q j r, 2 + 2 / 7 <= q -> 0 < r <= 1 -> Rabs (pw q j r) <= Rabs (fall q j) * Rpower r (2 + 2 / 7 - INR j).
Proof.
  intros q j r Hq Hr. unfold pw. rewrite Rabs_mult, (Rabs_pos_eq (Rpower r _)) by (unfold Rpower; left; apply exp_pos).
  apply Rmult_le_compat_l; [apply Rabs_pos|]. replace (q - INR j) with ((q - (2 + 2 / 7)) + (2 + 2 / 7 - INR j)) by ring.
  rewrite Rpower_plus. rewrite <- (Rmult_1_l (Rpower r (2 + 2 / 7 - INR j))) at 2. apply Rmult_le_compat_r; [unfold Rpower; left; apply exp_pos|].
  rewrite <- (rpow1 (q - (2 + 2 / 7))). apply Rle_Rpower_l; lra.
Qed.

Lemma source_order : forall jv gamma s n, gamma_like gamma -> let p := sing_problem jv gamma s in
  exists (T : nat -> R -> R -> R) (K : R), forall th,
    radial (/ 10) (fun r => zm_f (zp_k p) (zp_v_asympt p) r th) (fun j r => T j r th) /\
    forall j r, (j <= n)%nat -> 0 < r < / 10 -> Rabs (T j r th) <= K * Rpower r (2 + 2 / 7 - INR j).
Proof.
  intros jv gamma s n Hg p. exists (src gamma s (zp_k p)). set (k := zp_k p).
  set (A := Rabs (k ^ 2 * Rpower (k / 2) (2 + 2 / 7) / gamma (2 + 2 / 7))). set (B := Rabs (k ^ 2 * Rpower (k / 2) (2 + 6 / 7) / gamma (2 + 6 / 7))).
  assert (one : forall j r th, 0 < r < / 10 -> Rabs (src gamma s k j r th) <= (A * Rabs (fall (2 + 2 / 7) j) + B * Rabs (fall (2 + 6 / 7) j)) * Rpower r (2 + 2 / 7 - INR j)).
  { intros j r th Hr. unfold src. pose proof (pw_bound (2 + 2 / 7) j r ltac:(lra) ltac:(lra)) as P1. pose proof (pw_bound (2 + 6 / 7) j r ltac:(lra) ltac:(lra)) as P3.
    assert (S1 : Rabs (sc1 gamma k th) <= A).
    { unfold sc1. rewrite Rabs_mult. fold A. rewrite <- (Rmult_1_r A) at 2. apply Rmult_le_compat_l; [apply Rabs_pos|]. apply Rabs_le, SIN_bound. }
    assert (S3 : Rabs (sc3 gamma s k th) <= B).
    { unfold sc3. rewrite Rabs_mult. fold B. rewrite <- (Rmult_1_r B) at 2. apply Rmult_le_compat_l; [apply Rabs_pos|].
      rewrite Rabs_mult. assert (Rabs (sin (6 / 7 * (th - 2 * PI))) <= 1) by apply Rabs_le, SIN_bound. pose proof (Rabs_pos (sin (6 / 7 * (th - 2 * PI)))).
      destruct s; cbn [second]; rewrite ?Rabs_R0, ?Rabs_R1; lra. }
    eapply Rle_trans; [apply Rabs_triang|]. rewrite !Rabs_mult, Rmult_plus_distr_r, !Rmult_assoc.
    apply Rplus_le_compat; apply Rmult_le_compat; try apply Rabs_pos; assumption. }
  assert (HK : exists K, forall (j : nat) r th, (j <= n)%nat -> 0 < r < / 10 -> Rabs (src gamma s k j r th) <= K * Rpower r (2 + 2 / 7 - INR j)).
  { induction n as [|n (K & IH)].
    - eexists. intros j r th Hjn Hr. replace j with 0%nat by lia. apply one. exact Hr.
    - set (C := A * Rabs (fall (2 + 2 / 7) (S n)) + B * Rabs (fall (2 + 6 / 7) (S n))). exists (Rmax K C). intros j r th Hjn Hr.
      assert (Hw : 0 < Rpower r (2 + 2 / 7 - INR j)) by (unfold Rpower; apply exp_pos).
      pose proof (Rmax_l K C). pose proof (Rmax_r K C). destruct (Nat.eq_dec j (S n)) as [->|Hne].
      + eapply Rle_trans; [apply one; exact Hr|]. fold C. apply Rmult_le_compat_r; lra.
      + eapply Rle_trans; [apply IH; [lia|exact Hr]|]. apply Rmult_le_compat_r; lra. }
  destruct HK as (K & HK). exists K. intros th. split; [apply src_radial; exact Hg|]. intros j r Hjn Hr. apply HK; assumption.
Qed.

Lemma source_unbounded : forall jv gamma s th T, gamma_like gamma -> PI / 4 < th <= 2 * PI -> let p := sing_problem jv gamma s in
  radial (/ 10) (fun r => zm_f (zp_k p) (zp_v_asympt p) r th) T ->
  forall M, exists e, 0 < e < / 10 /\ forall r, 0 < r < e -> M < Rabs (T 3%nat r).
Proof.
  intros jv gamma s th T Hg Hth p HT M. set (k := zp_k p). assert (Hk : 0 < k) by apply sing_k_pos.
  assert (Hgz : gamma (2 + 2 / 7) <> 0).
  { pose proof (gamma_nz (1 + 2 / 7) gamma ltac:(lra) Hg) as H. replace (1 + 2 / 7 + 1) with (2 + 2 / 7) in H by ring. exact H. }
  set (A := sc1 gamma k th * fall (2 + 2 / 7) 3). set (B := sc3 gamma s k th * fall (2 + 6 / 7) 3).
  assert (HA : 0 < Rabs A).
  { apply Rabs_pos_lt. unfold A, sc1. pose proof (wedge_sin th Hth). assert (0 < Rpower (k / 2) (2 + 2 / 7)) by (unfold Rpower; apply exp_pos).
    assert (0 < k ^ 2) by (apply pow_lt; exact Hk).
    repeat apply Rmult_integral_contrapositive_currified; try lra; [apply Rinv_neq_0_compat; exact Hgz|cbn; lra..]. }
  set (g := Rabs A / 2). set (B' := Rabs B + 1). assert (HB' : 0 < B') by (unfold B'; pose proof (Rabs_pos B); lra).
  destruct (rpower_small (4 / 7) (g / B') ltac:(lra)) as (d2 & Hd2 & N2); [apply Rdiv_lt_0_compat; unfold g; lra|].
  set (M' := Rabs M + 1). assert (HM' : 0 < M') by (unfold M'; pose proof (Rabs_pos M); lra).
  destruct (rpower_small (5 / 7) (g / M') ltac:(lra)) as (d4 & Hd4 & N4); [apply Rdiv_lt_0_compat; unfold g; lra|].
  exists (Rmin (/ 20) (Rmin d2 d4)). pose proof (Rmin_l (/ 20) (Rmin d2 d4)). pose proof (Rmin_r (/ 20) (Rmin d2 d4)). pose proof (Rmin_l d2 d4). pose proof (Rmin_r d2 d4).
  split; [split; [repeat apply Rmin_pos; lra|lra]|]. intros r Hr.
  rewrite (radial_unique _ _ _ _ HT (src_radial jv gamma s Hg th) 3 r) by lra. fold p. fold k.
  specialize (N2 r ltac:(lra)). specialize (N4 r ltac:(lra)).
  set (w := Rpower r (- (5 / 7))). assert (Hw : 0 < w) by (unfold w, Rpower; apply exp_pos).
  assert (W : Rpower r (5 / 7) * w = 1). { unfold w. rewrite <- Rpower_plus. replace (5 / 7 + - (5 / 7)) with 0 by ring. apply Rpower_O. lra. }
  assert (E : src gamma s k 3 r th = A * w + B * (Rpower r (4 / 7) * w)).
  { unfold src, pw. replace (2 + 2 / 7 - INR 3) with (- (5 / 7)) by (cbn; field). replace (2 + 6 / 7 - INR 3) with (4 / 7 + - (5 / 7)) by (cbn; field).
    rewrite Rpower_plus. fold w. unfold A, B. ring. }
  rewrite E. assert (Q2 : Rpower r (4 / 7) * B' < g).
  { apply (Rmult_lt_compat_r B') in N2; [|exact HB']. replace (g / B' * B') with g in N2 by (field; lra). exact N2. }
  assert (Q4 : M' < g * w).
  { apply (Rmult_lt_compat_r M') in N4; [|exact HM']. replace (g / M' * M') with g in N4 by (field; lra).
    apply (Rmult_lt_compat_r w) in N4; [|exact Hw]. replace (Rpower r (5 / 7) * M' * w) with (M' * (Rpower r (5 / 7) * w)) in N4 by ring. rewrite W in N4. lra. }
  assert (P4 : 0 < Rpower r (4 / 7)) by (unfold Rpower; apply exp_pos).
  assert (L3 : Rabs (B * (Rpower r (4 / 7) * w)) <= g * w).
  { rewrite !Rabs_mult, (Rabs_pos_eq w), (Rabs_pos_eq (Rpower r (4 / 7))) by lra. pose proof (Rabs_pos B). unfold B' in Q2.
    assert (Rabs B * Rpower r (4 / 7) <= g) by nra. nra. }
  assert (L1 : Rabs (A * w) = 2 * g * w) by (rewrite Rabs_mult, (Rabs_pos_eq w) by lra; unfold g; field).
  pose proof (Rabs_triang_inv (A * w) (- (B * (Rpower r (4 / 7) * w)))) as T1. rewrite Rabs_Ropp in T1.
  replace (A * w - - (B * (Rpower r (4 / 7) * w))) with (A * w + B * (Rpower r (4 / 7) * w)) in T1 by ring.
  pose proof (Rle_abs M). unfold M' in Q4. lra.
Qed.
