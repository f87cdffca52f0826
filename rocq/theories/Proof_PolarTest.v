(** The convergence test of the polar finite differences (C92). *)
From Coq Require Import ZArith List Bool Reals Lia Lra Psatz.
From Coquelicot Require Import Coquelicot.
From Verif Require Import Model_Py Model_PolarFD Model_Driver Model_ZMethod Model_Problems Model_Domain Model_PolarTest Spec_Fd Spec_PolarFD Spec_Problems
  Spec_Bessel Spec_OdeAcc Spec_Tip Spec_PolarAcc Spec_PolarTest Proof_ZMethod Proof_Bessel Proof_ZSing Proof_Regular Proof_BesselJ Proof_OdeSeries Proof_Tip1 Proof_Consist Proof_PolarRes Proof_PolarFD Proof_PolarAcc2 Proof_PolarSolve Proof_Series.
Import ListNotations.
Open Scope R_scope.

Lemma sym_nu_val : sym_nu = 6 / 11.
Proof. unfold sym_nu, sym_a. pose proof PI_RGT_0. field. lra. Qed.

Lemma sym_v_eq : forall gamma k r th,
  sym_v_asympt gamma k r th = v_asympt0 gamma 0 k (6 / 11) 3 r * sin ((0 + 1 / 2) * (6 / 11) * (th - sym_a)).
Proof.
  intros gamma k r th. unfold sym_v_asympt, sym_v_asympt0, v_asympt0. rewrite sym_nu_val.
  replace ((0 + 1 / 2) * (6 / 11)) with (3 / 11) by lra. replace (6 / 11 / 2) with (3 / 11) by lra. reflexivity.
Qed.

Lemma bterm_two : forall gamma q k r, 0 < k -> 0 < r ->
  bterm gamma q k 2 r = Rpower (k * r / 2) (4 + q) / (2 * gamma (3 + q)).
Proof.
  intros gamma q k r Hk Hr. rewrite bterm_eq by assumption.
  replace (INR (fact 2)) with 2 by (cbn; ring).
  replace (q + INR 2 + 1) with (3 + q) by (cbn; ring). replace (2 * INR 2 + q) with (4 + q) by (cbn; ring).
  replace ((-1) ^ 2) with 1 by ring. unfold Rdiv. ring.
Qed.

Lemma sym_partials : forall gamma, gamma_like gamma ->
  exists U, partials 2 off_tip (sym_v_asympt gamma 3) U /\
    forall r th, 0 < r -> polar_helmholtz 3 U r th =
      9 * (Rpower (3 * r / 2) (4 + 3 / 11) / (2 * gamma (3 + 3 / 11)) * sin (3 / 11 * (th - PI / 6))).
Proof.
  intros gamma Hg. destruct (mode_series gamma 0 3 (6 / 11) sym_a 2 Hg ltac:(lra) ltac:(lra)) as [U [HU HL]].
  exists U. split.
  - eapply partials_ext; [|exact HU]. intros r th. cbv beta. rewrite sym_v_eq. reflexivity.
  - intros r th Hr. rewrite HL, last_term, bterm_two by lra.
    replace ((0 + 1 / 2) * (6 / 11)) with (3 / 11) by lra. unfold sym_a. ring.
Qed.

Lemma sym_source : forall gamma r th, gamma_like gamma -> 0 < r ->
  sym_f gamma r th = -9 * (Rpower (3 * r / 2) (4 + 3 / 11) / (2 * gamma (3 + 3 / 11)) * sin (3 / 11 * (th - PI / 6))).
Proof.
  intros gamma r th Hg Hr. destruct (sym_partials gamma Hg) as [U [HU HL]].
  change (sym_f gamma r th) with (- apply_helmholtz_op 3 (sym_v_asympt gamma 3) r th).
  rewrite (helm_partials 3 _ U r th HU) by lra. rewrite HL by exact Hr. ring.
Qed.

Lemma rp_derive : forall q r, 0 < r -> is_derive (fun r => Rpower (3 * r / 2) q) r (3 / 2 * (q * Rpower (3 * r / 2) (q - 1))).
Proof.
  intros q r Hr. apply (is_derive_comp (fun x => Rpower x q) (fun r => 3 * r / 2)).
  - apply rpower_derive. lra.
  - auto_derive; [exact I|]. field.
Qed.

Lemma sym_derivs : forall gamma r th, gamma_like gamma -> 0 < r ->
  sym_d_f_r gamma r th =
    -9 * (3 / 2 * (47 / 11) * Rpower (3 * r / 2) (36 / 11) / (2 * gamma (3 + 3 / 11)) * sin (3 / 11 * (th - PI / 6))) /\
  sym_d2_f_r gamma r th =
    -9 * (9 / 4 * (47 / 11) * (36 / 11) * Rpower (3 * r / 2) (25 / 11) / (2 * gamma (3 + 3 / 11)) * sin (3 / 11 * (th - PI / 6))) /\
  sym_d2_f_th gamma r th = - (3 / 11) ^ 2 * sym_f gamma r th.
Proof.
  intros gamma r th Hg Hr.
  assert (D1 : forall r th, 0 < r -> sym_d_f_r gamma r th =
    -9 * (3 / 2 * (47 / 11) * Rpower (3 * r / 2) (36 / 11) / (2 * gamma (3 + 3 / 11)) * sin (3 / 11 * (th - PI / 6)))).
  { clear r th Hr. intros r th Hr. unfold sym_d_f_r, diff_r. apply is_derive_unique.
    set (c := -9 / (2 * gamma (3 + 3 / 11)) * sin (3 / 11 * (th - PI / 6))).
    apply (is_derive_ext_loc (fun r => c * Rpower (3 * r / 2) (4 + 3 / 11))).
    - generalize (locally_above 0 r Hr). apply filter_imp. intros y Hy.
      change (c * Rpower (3 * y / 2) (4 + 3 / 11) = sym_f gamma y th). rewrite sym_source by assumption. unfold c, Rdiv. ring.
    - evar_last; [apply is_derive_scal; apply rp_derive; exact Hr|].
      change (c * (3 / 2 * ((4 + 3 / 11) * Rpower (3 * r / 2) (4 + 3 / 11 - 1))) =
        -9 * (3 / 2 * (47 / 11) * Rpower (3 * r / 2) (36 / 11) / (2 * gamma (3 + 3 / 11)) * sin (3 / 11 * (th - PI / 6)))).
      replace (4 + 3 / 11 - 1) with (36 / 11) by lra. replace (4 + 3 / 11) with (47 / 11) by lra. unfold c, Rdiv. ring. }
  split; [apply D1; exact Hr|]. split.
  - unfold sym_d2_f_r, diff_r at 1. apply is_derive_unique.
    set (c := -9 * (3 / 2 * (47 / 11)) / (2 * gamma (3 + 3 / 11)) * sin (3 / 11 * (th - PI / 6))).
    apply (is_derive_ext_loc (fun r => c * Rpower (3 * r / 2) (36 / 11))).
    + generalize (locally_above 0 r Hr). apply filter_imp. intros y Hy.
      change (c * Rpower (3 * y / 2) (36 / 11) = sym_d_f_r gamma y th). rewrite D1 by exact Hy. unfold c, Rdiv. ring.
    + evar_last; [apply is_derive_scal; apply rp_derive; exact Hr|].
      change (c * (3 / 2 * (36 / 11 * Rpower (3 * r / 2) (36 / 11 - 1))) =
        -9 * (9 / 4 * (47 / 11) * (36 / 11) * Rpower (3 * r / 2) (25 / 11) / (2 * gamma (3 + 3 / 11)) * sin (3 / 11 * (th - PI / 6)))).
      replace (36 / 11 - 1) with (25 / 11) by lra. unfold c, Rdiv.
      replace (9 * / 4) with (3 * / 2 * (3 * / 2)) by lra. ring.
  - unfold sym_d2_f_th, diff_th. rewrite sym_source by assumption.
    set (c := -9 * (Rpower (3 * r / 2) (4 + 3 / 11) / (2 * gamma (3 + 3 / 11)))).
    rewrite (Derive_ext _ (fun t => c * (3 / 11 * cos (3 / 11 * (t - PI / 6))))).
    + rewrite (is_derive_unique _ th (c * (3 / 11 * (- (3 / 11) * sin (3 / 11 * (th - PI / 6)))))).
      * unfold c. ring.
      * auto_derive; [exact I|]. unfold Rminus. ring.
    + intros t. apply is_derive_unique. apply (is_derive_ext (fun t => c * sin (3 / 11 * (t - PI / 6)))).
      * intros x. change (c * sin (3 / 11 * (x - PI / 6)) = sym_f gamma r x). rewrite sym_source by assumption. unfold c. ring.
      * auto_derive; [exact I|]. unfold Rminus. ring.
Qed.

Lemma test_solution : forall jv gamma, gamma_like gamma -> bessel_like jv (3 / 11) ->
  (exists U, partials 2 off_tip (test_eval_u jv gamma) U /\
     forall r th, 0 < r -> polar_helmholtz 3 U r th = sym_f gamma r th) /\
  (forall r, test_phi2 jv gamma r = 0) /\
  (forall r, test_phi1 jv gamma r = jv (3 / 11) (3 * r) - sym_v_asympt0 gamma 3 r).
Proof.
  intros jv gamma Hg Hj.
  assert (E : (0 + 1 / 2) * (6 / 11) = 3 / 11) by lra. assert (E2 : 6 / 11 / 2 = 3 / 11) by lra.
  split; [|split].
  - destruct (sym_partials gamma Hg) as [U [HU HL]].
    destruct (ih_v_solves jv 0 3 (6 / 11) sym_a ltac:(lra) ltac:(rewrite E; exact Hj)) as [V [HV HM]].
    exists (fun i j x y => 1 * V i j x y + -1 * U i j x y). split.
    + eapply partials_ext; [|apply (partials_comb 2 off_tip _ _ _ _ 1 (-1) HV HU)].
      intros r th. unfold ih_eval_v, test_eval_u, eval_v_asympt, sym_k. rewrite sym_nu_val, E, E2. ring.
    + intros r th Hr. rewrite helm_lin by exact Hr. rewrite HM, HL, sym_source by assumption. ring.
  - intros r. unfold test_phi2, test_eval_u, eval_v_asympt, sym_v_asympt.
    replace (sym_nu / 2 * (sym_a - sym_a)) with 0 by ring. rewrite sin_0. ring.
  - intros r. unfold test_phi1, test_eval_u, eval_v_asympt, sym_v_asympt, sym_k. rewrite sym_nu_val, E2.
    replace (3 / 11 * (2 * PI - sym_a)) with (PI / 2) by (unfold sym_a; field). rewrite sin_PI2. ring.
Qed.

Lemma polar_test_fails : forall body fuel, (5 <= fuel)%nat -> polar_test polarfd_init body fuel = ([16%Z], Err TypeError).
Proof.
  intros body fuel Hf. do 5 (destruct fuel as [|fuel]; [lia|]). reflexivity.
Qed.

Lemma interp_test_fails : forall body, interp_test polarfd_init body = ([], Err TypeError).
Proof. reflexivity. Qed.

Lemma polarfd_init_spec : forall (A : Type) (args : list A), length args = 5%nat <-> polarfd_init args = Ok args.
Proof.
  intros A args. unfold polarfd_init. destruct (Nat.eqb_spec (length args) 5) as [E|E]; split; intros H; try reflexivity; try exact E.
  - contradiction.
  - discriminate H.
Qed.

Lemma polar_loop_spec : forall body Ns, (forall N, In N Ns -> body N [] = Ok tt) <-> polar_test_loop (fun args => Ok args) body Ns = (Ns, Ok tt).
Proof.
  intros body Ns. induction Ns as [|N Ns IH]; [split; [reflexivity|intros _ N []]|]. cbn [polar_test_loop].
  destruct (body N []) as [[]|e] eqn:E.
  - destruct (polar_test_loop (fun args => Ok args) body Ns) as [l r] eqn:L. split; intros H.
    + assert (H' : (l, r) = (Ns, Ok tt)) by (apply IH; intros M HM; apply H; right; exact HM). injection H' as -> ->. reflexivity.
    + injection H as -> ->. intros M [<-|HM]; [exact E|]. apply IH; [reflexivity|exact HM].
  - split; intros H; [|discriminate H]. specialize (H N (or_introl eq_refl)). congruence.
Qed.

Lemma interp_loop_spec : forall body Ns, (forall N, In N Ns -> body N [IZR N; PI / 6; 6 / 11; 23 / 10] = Ok tt) <->
  interp_test_loop (fun args => Ok args) body Ns = (Ns, Ok tt).
Proof.
  intros body Ns. induction Ns as [|N Ns IH]; [split; [reflexivity|intros _ N []]|]. cbn [interp_test_loop].
  rewrite sym_nu_val. unfold sym_a. destruct (body N [IZR N; PI / 6; 6 / 11; 23 / 10]) as [[]|e] eqn:E.
  - destruct (interp_test_loop (fun args => Ok args) body Ns) as [l r] eqn:L. split; intros H.
    + assert (H' : (l, r) = (Ns, Ok tt)) by (apply IH; intros M HM; apply H; right; exact HM). injection H' as -> ->. reflexivity.
    + injection H as -> ->. intros M [<-|HM]; [exact E|]. apply IH; [reflexivity|exact HM].
  - split; intros H; [|discriminate H]. specialize (H N (or_introl eq_refl)). congruence.
Qed.

Lemma scripts_repaired :
  (forall (A : Type) (args : list A), length args = 5%nat <-> polarfd_init args = Ok args) /\
  (forall body fuel, (5 <= fuel)%nat ->
    (forall N, In N [16; 32; 64; 128]%Z -> body N [] = Ok tt) <->
    polar_test (fun args => Ok args) body fuel = ([16; 32; 64; 128]%Z, Ok tt)) /\
  (forall body,
    (forall N, In N [16; 32; 64; 128]%Z -> body N [IZR N; PI / 6; 6 / 11; 23 / 10] = Ok tt) <->
    interp_test (fun args => Ok args) body = ([16; 32; 64; 128]%Z, Ok tt)).
Proof.
  split; [exact polarfd_init_spec|]. split.
  - intros body fuel Hf. do 5 (destruct fuel as [|fuel]; [lia|]). apply polar_loop_spec.
  - intros body. apply interp_loop_spec.
Qed.

(** ** What three terms leave at the tip *)

Section Mode3.
Variables (p k : R) (jv : R -> R -> R) (gamma : R -> R).
Hypothesis Hp : 0 < p.
Hypothesis Hk : 0 < k.
Hypothesis Hg : gamma_like gamma.
Hypothesis Hj : bessel_series jv gamma p.

Fixpoint tcoef (j : nat) : nat -> R :=
  match j with
  | O => fun n => bcoef p (3 + n)
  | S j => euler (p + 6 - INR j) (tcoef j)
  end.

Definition lead3 : R := Rpower (k / 2) p * (k / 2) ^ 6 / gamma (p + 1).
Definition rem3 (j : nat) (r : R) : R := lead3 * (Rpower r (p + 6 - INR j) * PSeries (tcoef j) (k ^ 2 / 4 * r ^ 2)).

Lemma tcoef_entire : forall j, entire (tcoef j).
Proof using Hp.
  induction j as [|j IH]; [|apply euler_entire; exact IH]. apply entire_of. intros x. cbn [tcoef].
  pose proof (inf_ex _ x (bcoef_radius p Hp)) as Ex.
  refine (ex_pseries_decr_n (K := R_AbsRing) (V := R_NormedModule) (bcoef p) 3 x _ Ex).
  destruct (Req_dec x 0) as [->|Hx]; [left; reflexivity|right; exists (/ x); exact (Rinv_l x Hx)].
Qed.

Lemma bser_tail3 : forall t, bser p 0 t = bcoef p 0 + bcoef p 1 * t + bcoef p 2 * t ^ 2 + t ^ 3 * PSeries (tcoef 0) t.
Proof using Hp.
  intros t. unfold bser. rewrite (PSeries_decr_n (bcoef p) 2 t (inf_ex _ t (bcoef_radius p Hp))).
  cbn [sum_f_R0]. change (PS_decr_n (bcoef p) 3) with (tcoef 0). rewrite pow_O, pow_1. ring.
Qed.

Lemma va3_eq : forall K nu r, (K + 1 / 2) * nu = p ->
  v_asympt0 gamma K k nu 3 r = Rpower (k * r / 2) p / gamma (p + 1)
    * (bcoef p 0 + bcoef p 1 * (k * r / 2) ^ 2 + bcoef p 2 * (k * r / 2) ^ 4).
Proof using Hp Hg.
  intros K nu r HK. unfold v_asympt0. rewrite HK. cbn [seq fold_left].
  rewrite !(gcoef p Hp gamma Hg). rewrite pow_O. replace (2 * 1)%nat with 2%nat by reflexivity.
  replace (2 * 2)%nat with 4%nat by reflexivity. unfold Rdiv. ring.
Qed.

Lemma rem3_eq : forall K nu r, (K + 1 / 2) * nu = p -> 0 < r -> jv p (k * r) - v_asympt0 gamma K k nu 3 r = rem3 0 r.
Proof using Hp Hk Hg Hj.
  intros K nu r HK Hr. assert (Hkr : 0 < k * r) by (apply Rmult_lt_0_compat; assumption).
  rewrite (va3_eq K nu r HK), (jv_eq p Hp jv gamma Hg Hj) by exact Hkr. rewrite bser_tail3. unfold rem3, lead3.
  replace (k ^ 2 / 4 * r ^ 2) with ((k * r / 2) ^ 2) by field.
  assert (E1 : Rpower (k * r / 2) p = Rpower (k / 2) p * Rpower r p).
  { rewrite Rpower_mult_distr by lra. f_equal. field. }
  assert (E2 : Rpower r (p + 6 - INR 0) = Rpower r p * r ^ 6).
  { rewrite <- (Rpower_pow 6 r Hr), <- Rpower_plus. f_equal. cbn. ring. }
  rewrite E1, E2. pose proof (gamma_nz p gamma Hp Hg). field. assumption.
Qed.

Lemma rem3_derive : forall j r, 0 < r -> is_derive (rem3 j) r (rem3 (S j) r).
Proof using Hp.
  intros j r Hr. unfold rem3. apply is_derive_scal. set (q := p + 6 - INR j).
  replace (p + 6 - INR (S j)) with (q - 1) by (unfold q; rewrite S_INR; ring).
  pose proof (tcoef_entire j) as He. cbn [tcoef]. fold q.
  rewrite (is_pseries_unique _ _ _ (euler_is q (tcoef j) (k ^ 2 / 4 * r ^ 2) He)).
  assert (D1 := rpower_derive q r Hr).
  assert (D2 : is_derive (fun r => PSeries (tcoef j) (k ^ 2 / 4 * r ^ 2)) r (k ^ 2 / 4 * (2 * r) * PSeries (PS_derive (tcoef j)) (k ^ 2 / 4 * r ^ 2))).
  { apply (is_derive_comp (PSeries (tcoef j)) (fun r => k ^ 2 / 4 * r ^ 2)).
    - apply is_derive_PSeries. rewrite He. exact I.
    - auto_derive; [exact I|]. field. }
  evar_last. { apply (is_derive_mult (K := R_AbsRing)); [exact D1|exact D2|apply Rmult_comm]. }
  assert (E : Rpower r q = Rpower r (q - 1) * r).
  { rewrite <- (Rpower_1 r Hr) at 3. rewrite <- Rpower_plus. f_equal. ring. }
  set (A := PSeries (tcoef j) _). set (B := PSeries (PS_derive (tcoef j)) _).
  change (q * Rpower r (q - 1) * A + Rpower r q * (k ^ 2 / 4 * (2 * r) * B) =
    Rpower r (q - 1) * (q * A + 2 * (k ^ 2 / 4 * r ^ 2 * B))). rewrite E. field.
Qed.

Lemma rem3_bound : forall R1 j, 0 < R1 -> exists B, 0 <= B /\ forall r, 0 < r < R1 -> Rabs (rem3 j r) <= B * Rpower r (p + 6 - INR j).
Proof using Hp.
  intros R1 j HR. destruct (entire_bounded (tcoef j) (k ^ 2 / 4 * R1 ^ 2) (tcoef_entire j)) as (B & HB & H).
  exists (Rabs lead3 * B). split; [apply Rmult_le_pos; [apply Rabs_pos|exact HB]|]. intros r Hr. unfold rem3.
  rewrite !Rabs_mult, (Rabs_pos_eq (Rpower r _)) by (unfold Rpower; left; apply exp_pos).
  rewrite Rmult_assoc. apply Rmult_le_compat_l; [apply Rabs_pos|]. rewrite Rmult_comm.
  apply Rmult_le_compat_r; [unfold Rpower; left; apply exp_pos|]. apply H.
  assert (0 <= k ^ 2 / 4) by (pose proof (pow2_ge_0 k); lra). split; [apply Rmult_le_pos; [assumption|apply pow2_ge_0]|].
  apply Rmult_le_compat_l; [assumption|]. apply pow_incr. lra.
Qed.

End Mode3.

Lemma sup_bound : forall (F : nat -> R -> Prop), (forall j, exists B, 0 <= B /\ F j B) ->
  (forall j B B', B <= B' -> F j B -> F j B') -> forall n, exists B, forall j, (j <= n)%nat -> F j B.
Proof.
  intros F HF Hm n. induction n as [|n [B HB]].
  - destruct (HF 0%nat) as (B & _ & H). exists B. intros j Hj. replace j with 0%nat by lia. exact H.
  - destruct (HF (S n)) as (B' & _ & H). exists (Rmax B B'). intros j Hj. destruct (Nat.eq_dec j (S n)) as [->|Hn].
    + apply (Hm _ B'); [apply Rmax_r|exact H].
    + apply (Hm _ B); [apply Rmax_l|apply HB; lia].
Qed.

Lemma test_tip : forall jv gamma n, gamma_like gamma -> bessel_series jv gamma (3 / 11) ->
  exists (T : nat -> R -> R -> R) (K : R), forall th,
    radial (23 / 10) (fun r => test_eval_u jv gamma r th) (fun j r => T j r th) /\
    forall j r, (j <= n)%nat -> 0 < r < 23 / 10 -> Rabs (T j r th) <= K * Rpower r (6 + 3 / 11 - INR j).
Proof.
  intros jv gamma n Hg Hj. assert (Hp : 0 < 3 / 11) by lra.
  destruct (sup_bound (fun j B => forall r, 0 < r < 23 / 10 -> Rabs (rem3 (3 / 11) 3 gamma j r) <= B * Rpower r (3 / 11 + 6 - INR j))
    (fun j => rem3_bound (3 / 11) 3 gamma Hp (23 / 10) j ltac:(lra))) with (n := n) as [B HB].
  { intros j B B' HBB H r Hr. eapply Rle_trans; [apply H; exact Hr|]. apply Rmult_le_compat_r; [unfold Rpower; left; apply exp_pos|exact HBB]. }
  exists (fun j r th => sin (3 / 11 * (th - sym_a)) * rem3 (3 / 11) 3 gamma j r), B. intros th. split; [split|].
  - intros r Hr. rewrite <- (rem3_eq (3 / 11) 3 jv gamma Hp ltac:(lra) Hg Hj 0 (6 / 11)) by lra.
    unfold test_eval_u, eval_v_asympt, sym_k. rewrite sym_v_eq, sym_nu_val.
    replace ((0 + 1 / 2) * (6 / 11)) with (3 / 11) by lra. replace (6 / 11 / 2) with (3 / 11) by lra. ring.
  - intros j r Hr. apply is_derive_scal. apply rem3_derive; lra.
  - intros j r Hjn Hr. specialize (HB j Hjn r Hr). replace (6 + 3 / 11 - INR j) with (3 / 11 + 6 - INR j) by ring.
    rewrite Rabs_mult. pose proof (Rabs_pos (rem3 (3 / 11) 3 gamma j r)).
    assert (Rabs (sin (3 / 11 * (th - sym_a))) <= 1) by (apply Rabs_le; pose proof (SIN_bound (3 / 11 * (th - sym_a))); lra).
    apply Rle_trans with (1 * Rabs (rem3 (3 / 11) 3 gamma j r)); [apply Rmult_le_compat_r; lra|lra].
Qed.

(** ** The scheme on the exact solution *)

Lemma sym_f_r : forall gamma r th, gamma_like gamma -> 0 < r -> is_derive (fun s => sym_f gamma s th) r (sym_d_f_r gamma r th).
Proof.
  intros gamma r th Hg Hr. apply Derive_correct.
  set (c := -9 / (2 * gamma (3 + 3 / 11)) * sin (3 / 11 * (th - PI / 6))).
  apply (ex_derive_ext_loc (fun r => c * Rpower (3 * r / 2) (4 + 3 / 11))).
  - generalize (locally_above 0 r Hr). apply filter_imp. intros y Hy.
    change (c * Rpower (3 * y / 2) (4 + 3 / 11) = sym_f gamma y th). rewrite sym_source by assumption. unfold c, Rdiv. ring.
  - eexists. apply is_derive_scal, rp_derive. exact Hr.
Qed.

Lemma sym_f_rr : forall gamma r th, gamma_like gamma -> 0 < r -> is_derive (fun s => sym_d_f_r gamma s th) r (sym_d2_f_r gamma r th).
Proof.
  intros gamma r th Hg Hr. unfold sym_d2_f_r. fold (sym_d_f_r gamma).
  change (diff_r (sym_d_f_r gamma) r th) with (Derive (fun s => sym_d_f_r gamma s th) r). apply Derive_correct.
  set (c := -9 * (3 / 2 * (47 / 11)) / (2 * gamma (3 + 3 / 11)) * sin (3 / 11 * (th - PI / 6))).
  apply (ex_derive_ext_loc (fun r => c * Rpower (3 * r / 2) (36 / 11))).
  - generalize (locally_above 0 r Hr). apply filter_imp. intros y Hy.
    change (c * Rpower (3 * y / 2) (36 / 11) = sym_d_f_r gamma y th).
    rewrite (proj1 (sym_derivs gamma y th Hg Hy)). unfold c, Rdiv. ring.
  - eexists. apply is_derive_scal, rp_derive. exact Hr.
Qed.

Lemma sym_f_th : forall gamma r th, gamma_like gamma -> 0 < r -> is_derive (sym_f gamma r) th (diff_th (sym_f gamma) r th).
Proof.
  intros gamma r th Hg Hr. apply Derive_correct.
  apply (ex_derive_ext (fun t => -9 * (Rpower (3 * r / 2) (4 + 3 / 11) / (2 * gamma (3 + 3 / 11))) * sin (3 / 11 * (t - PI / 6)))).
  - intros t. rewrite sym_source by assumption. apply Rmult_assoc.
  - auto_derive. exact I.
Qed.

Lemma sym_f_thth : forall gamma r th, gamma_like gamma -> 0 < r -> is_derive (diff_th (sym_f gamma) r) th (sym_d2_f_th gamma r th).
Proof.
  intros gamma r th Hg Hr. unfold sym_d2_f_th. apply Derive_correct.
  set (c := -9 * (Rpower (3 * r / 2) (4 + 3 / 11) / (2 * gamma (3 + 3 / 11)))).
  apply (ex_derive_ext (fun t => c * (3 / 11 * cos (3 / 11 * (t - PI / 6))))).
  - intros t. symmetry. apply is_derive_unique. apply (is_derive_ext (fun t => c * sin (3 / 11 * (t - PI / 6)))).
    + intros x. change (c * sin (3 / 11 * (x - PI / 6)) = sym_f gamma r x). rewrite sym_source by assumption. unfold c. ring.
    + auto_derive; [exact I|]. unfold Rminus. ring.
  - auto_derive. exact I.
Qed.

(** The derivatives of sin (q (th - a)). *)
Definition trig (q : R) (j : nat) (th : R) : R := q ^ j * sin (q * (th - sym_a) + INR j * (PI / 2)).

Lemma trig_derive : forall q j th, is_derive (trig q j) th (trig q (S j) th).
Proof.
  intros q j th. unfold trig. rewrite S_INR.
  replace (q * (th - sym_a) + (INR j + 1) * (PI / 2)) with (PI / 2 + (q * (th - sym_a) + INR j * (PI / 2))) by field.
  rewrite sin_plus, sin_PI2, cos_PI2. generalize (INR j * (PI / 2)) as x. generalize sym_a as a. intros a x.
  auto_derive; [exact I|]. unfold Rminus. cbn [pow]. ring.
Qed.

Lemma trig_bound : forall j th, Rabs (trig (3 / 11) j th) <= 1.
Proof.
  intros j th. unfold trig. rewrite Rabs_mult, Rabs_pos_eq by (apply pow_le; lra).
  assert (H1 : (3 / 11) ^ j <= 1) by (rewrite <- (pow1 j); apply pow_incr; lra).
  pose proof (pow_le (3 / 11) j ltac:(lra)) as H0.
  assert (H2 : Rabs (sin (3 / 11 * (th - sym_a) + INR j * (PI / 2))) <= 1) by (apply Rabs_le; pose proof (SIN_bound (3 / 11 * (th - sym_a) + INR j * (PI / 2))); lra).
  pose proof (Rabs_pos (sin (3 / 11 * (th - sym_a) + INR j * (PI / 2)))). nra.
Qed.

Section Exact.
Variables (jv : R -> R -> R) (gamma : R -> R).
Hypothesis Hg : gamma_like gamma.
Hypothesis Hj : bessel_series jv gamma (3 / 11).

Definition exact_U (i j : nat) (r th : R) : R :=
  match i, j with
  | O, O => test_eval_u jv gamma r th
  | _, _ => rem3 (3 / 11) 3 gamma i r * trig (3 / 11) j th
  end.

Lemma exact_U_eq : forall i j r th, 0 < r -> exact_U i j r th = rem3 (3 / 11) 3 gamma i r * trig (3 / 11) j th.
Proof using Hg Hj.
  intros i j r th Hr. destruct i as [|i]; [|reflexivity]. destruct j as [|j]; [|reflexivity]. cbn [exact_U].
  rewrite <- (rem3_eq (3 / 11) 3 jv gamma ltac:(lra) ltac:(lra) Hg Hj 0 (6 / 11)) by lra.
  unfold test_eval_u, eval_v_asympt, sym_k, trig. rewrite sym_v_eq, sym_nu_val. cbn [INR pow].
  replace ((0 + 1 / 2) * (6 / 11)) with (3 / 11) by lra. replace (6 / 11 / 2) with (3 / 11) by lra.
  replace (3 / 11 * (th - sym_a) + 0 * (PI / 2)) with (3 / 11 * (th - sym_a)) by ring. ring.
Qed.

Lemma exact_partials : forall n (D : R -> R -> Prop), (forall r th, D r th -> 0 < r) -> partials n D (test_eval_u jv gamma) exact_U.
Proof using Hg Hj.
  intros n D HD. split; [reflexivity|]. intros i j _ r th Hd. specialize (HD r th Hd). rewrite !exact_U_eq by exact HD. split.
  - apply (is_derive_ext_loc (fun t => trig (3 / 11) j th * rem3 (3 / 11) 3 gamma i t)).
    + generalize (locally_above 0 r HD). apply filter_imp. intros y Hy. rewrite exact_U_eq by exact Hy. apply Rmult_comm.
    + rewrite Rmult_comm. apply is_derive_scal. apply rem3_derive; lra.
  - apply (is_derive_ext (fun t => rem3 (3 / 11) 3 gamma i r * trig (3 / 11) j t)).
    + intros t. rewrite exact_U_eq by exact HD. reflexivity.
    + apply is_derive_scal. apply trig_derive.
Qed.

Lemma exact_bound : exists M, 0 <= M /\ forall i j r th, (i <= 6)%nat -> 0 < r < 3 -> Rabs (exact_U i j r th) <= M.
Proof using Hg Hj.
  destruct (sup_bound (fun j B => forall r, 0 < r < 3 -> Rabs (rem3 (3 / 11) 3 gamma j r) <= B * Rpower r (3 / 11 + 6 - INR j))
    (fun j => rem3_bound (3 / 11) 3 gamma ltac:(lra) 3 j ltac:(lra))) with (n := 6%nat) as [B HB].
  { intros j B B' HBB H r Hr. eapply Rle_trans; [apply H; exact Hr|]. apply Rmult_le_compat_r; [unfold Rpower; left; apply exp_pos|exact HBB]. }
  exists (Rabs B * Rpower 3 7). split; [apply Rmult_le_pos; [apply Rabs_pos|unfold Rpower; left; apply exp_pos]|].
  intros i j r th Hi Hr. rewrite exact_U_eq by lra. specialize (HB i Hi r Hr).
  assert (Hi6 : INR i <= 6) by (replace 6 with (INR 6) by (cbn; ring); apply le_INR; exact Hi).
  pose proof (pos_INR i).
  assert (HP : Rpower r (3 / 11 + 6 - INR i) <= Rpower 3 7).
  { apply Rle_trans with (Rpower 3 (3 / 11 + 6 - INR i)); [apply Rle_Rpower_l; lra|apply Rle_Rpower; lra]. }
  assert (H0 : 0 < Rpower r (3 / 11 + 6 - INR i)) by (unfold Rpower; apply exp_pos).
  rewrite Rabs_mult. pose proof (trig_bound j th). pose proof (Rabs_pos (trig (3 / 11) j th)).
  pose proof (Rabs_pos (rem3 (3 / 11) 3 gamma i r)). pose proof (Rle_abs B). pose proof (Rabs_pos B).
  apply Rle_trans with (Rabs (rem3 (3 / 11) 3 gamma i r) * 1); [apply Rmult_le_compat_l; lra|]. rewrite Rmult_1_r.
  eapply Rle_trans; [exact HB|]. apply Rle_trans with (Rabs B * Rpower r (3 / 11 + 6 - INR i)); [apply Rmult_le_compat_r; lra|].
  apply Rmult_le_compat_l; lra.
Qed.

Lemma exact_source : forall r th, 0 < r -> polar_helmholtz 3 exact_U r th = sym_f gamma r th.
Proof using Hg Hj.
  intros r th Hr.
  assert (P : partials 2 off_tip (test_eval_u jv gamma) exact_U) by (apply exact_partials; intros x y H; exact H).
  destruct (test_solution jv gamma Hg (jv_like (3 / 11) ltac:(lra) jv gamma Hg Hj)) as [[U [HU HL]] _].
  rewrite <- (helm_partials 3 _ _ r th P Hr), (helm_partials 3 _ _ r th HU Hr). apply HL. exact Hr.
Qed.

Lemma exact_residual : forall R0, 0 < R0 -> exists C, forall r th h e, R0 <= r - h -> r + h <= 23 / 10 -> 0 < h -> 0 < e ->
  Rabs (stencil_sum (local_get (fd4_local (r - h) (r - h / 2) r (r + h / 2) (r + h) h e 3))
          (fun m l => test_eval_u jv gamma (r + IZR m * h) (th + IZR l * e)) 0 0
        - fd4_rhs h e r (sym_f gamma r th) (sym_d_f_r gamma r th) (sym_d2_f_r gamma r th) (sym_d2_f_th gamma r th))
    <= C * (h ^ 4 + e ^ 4).
Proof using Hg Hj.
  intros R0 HR. destruct exact_bound as (M & HM & HB). exists (rconst R0 3 * M). intros r th h e H1 H2 Hh He.
  rewrite <- exact_source by lra.
  apply (residual_bound R0 3 exact_U (test_eval_u jv gamma) r th h e M (fun s => sym_d_f_r gamma s th) _
    (diff_th (sym_f gamma) r) _); try lra.
  - apply exact_partials. intros x y [Hx _]. lra.
  - intros i j Hij x y [Hx _]. apply HB; [lia|lra].
  - intros s Hs. apply (is_derive_ext_loc (fun s => sym_f gamma s th)).
    + generalize (locally_above 0 s ltac:(lra)). apply filter_imp. intros y Hy. symmetry. apply exact_source. exact Hy.
    + apply sym_f_r; [exact Hg|lra].
  - apply sym_f_rr; [exact Hg|lra].
  - intros t _. apply (is_derive_ext (sym_f gamma r)).
    + intros y. symmetry. apply exact_source. lra.
    + apply sym_f_th; [exact Hg|lra].
  - apply sym_f_thth; [exact Hg|lra].
Qed.

Lemma test_error : forall R0, 0 < R0 < 23 / 10 -> exists K, 0 <= K /\ forall N z sigma, (1 <= N)%Z ->
  let s := test_fd jv gamma R0 N in
  let hr := (23 / 10 - R0) / IZR N in let hth := (2 * PI - PI / 6) / IZR N in
  Model_PolarFD.solves (assemble s) z -> polar_stable N R0 (23 / 10) (PI / 6) 3 sigma ->
  forall m l, (0 <= m <= N)%Z -> (0 <= l <= N)%Z ->
    Rabs (pf_at s z m l - test_eval_u jv gamma (R0 + IZR m * hr) (PI / 6 + IZR l * hth)) <= sigma * (K * (hr ^ 4 + hth ^ 4)).
Proof using Hg Hj.
  intros R0 HR. destruct (exact_residual R0 ltac:(lra)) as [C HC]. exists (Rabs C). split; [apply Rabs_pos|].
  intros N z sigma HN s h e Hz Hs. pose proof PI_RGT_0 as HPI.
  assert (HNr : 0 < IZR N) by (apply IZR_lt; lia).
  assert (Hh0 : 0 < h) by (unfold h; apply Rdiv_lt_0_compat; lra). assert (He0 : 0 < e) by (unfold e; apply Rdiv_lt_0_compat; lra).
  assert (HNh : IZR N * h = 23 / 10 - R0) by (unfold h; field; lra).
  assert (HNe : IZR N * e = 2 * PI - PI / 6) by (unfold e; field; lra).
  assert (Hok : pf_ok s) by (unfold pf_ok; cbn [s test_fd pf_N pf_R0 pf_R1 pf_a]; repeat split; try lia; lra).
  destruct (proj1 (solves_iff s z Hok) Hz) as (Hw & Ha & Hi). clear Hz.
  cbn [s test_fd pf_N pf_R0 pf_R1 pf_a pf_k pf_phi_initial pf_phi0 pf_phi1 pf_phi2 pf_f pf_d_f_r pf_d2_f_r pf_d2_f_th] in Hw, Ha, Hi.
  fold s in Hw, Ha, Hi. fold h e in Hw, Ha, Hi.
  set (u := fun m l => test_eval_u jv gamma (R0 + IZR m * h) (PI / 6 + IZR l * e)).
  set (E := Rabs C * (h ^ 4 + e ^ 4)).
  assert (HE : 0 <= E) by (unfold E; apply Rmult_le_pos; [apply Rabs_pos|apply Rplus_le_le_0_compat; apply pow_le; lra]).
  assert (Q : forall m l, in_polar_grid N (m, l) -> Rabs (pf_at s z m l - u m l) <= sigma * (0 + E)).
  { apply (Hs (fun m l => pf_at s z m l - u m l) 0 E); [lra|exact HE| |].
    - intros m l (Hm & Hl & Hed). right. rewrite <- Rabs_R0. f_equal. apply Rminus_diag_eq. unfold u.
      assert (Ecase : (l = 0 \/ l = N \/ (m = 0 /\ 1 <= l <= N - 1) \/ (m = N /\ 1 <= l <= N - 1))%Z) by lia.
      destruct Ecase as [->|[->|[[-> Hl']|[-> Hl']]]].
      + rewrite (proj1 (Hw m Hm)). unfold test_phi2, sym_a. f_equal. ring.
      + rewrite (proj2 (Hw m Hm)). unfold test_phi1. f_equal. rewrite HNe. ring.
      + rewrite (proj1 (Ha l Hl')). f_equal. ring.
      + rewrite (proj2 (Ha l Hl')). unfold test_phi0, test_R1. f_equal. rewrite HNh. ring.
    - intros m l [Hm Hl]. unfold polar_op. fold h e. rewrite scheme_minus.
      change (circle N R0 (23 / 10)) with (fun m => R0 + IZR m * h). rewrite Hi by assumption.
      set (r0 := R0 + IZR m * h). set (t0 := PI / 6 + IZR l * e).
      assert (Hlo : R0 <= r0 - h) by (unfold r0; assert (1 <= IZR m) by (apply IZR_le; lia); nra).
      assert (Hhi : r0 + h <= 23 / 10).
      { unfold r0. assert (IZR m <= IZR N - 1) by (rewrite <- minus_IZR; apply IZR_le; lia). nra. }
      pose proof (HC r0 t0 h e Hlo Hhi Hh0 He0) as T. rewrite coefficients in T by lra.
      rewrite Rabs_minus_sym. eapply Rle_trans; [|eapply Rle_trans; [exact T|]].
      + right. f_equal. f_equal.
        * unfold compact_scheme, op_radial, op_angular, op_drr, op_dr, op_dthth. cbv zeta beta. unfold u.
          assert (Er : forall i, R0 + IZR (m + i) * h = r0 + IZR i * h) by (intros i; unfold r0; rewrite plus_IZR; ring).
          assert (Et : forall j, PI / 6 + IZR (l + j) * e = t0 + IZR j * e) by (intros j; unfold t0; rewrite plus_IZR; ring).
          unfold Z.sub. rewrite !Er, !Et. fold r0 t0.
          change (0 + 1)%Z with 1%Z. change (0 + Z.opp 1)%Z with (-1)%Z. change (Z.opp 1) with (-1)%Z. change (Z.opp 0) with 0%Z. change (1 + 0)%Z with 1%Z. change (0 + 0)%Z with 0%Z. change (-1 + 0)%Z with (-1)%Z.
          replace (r0 + 0 * h) with r0 by ring. replace (t0 + 0 * e) with t0 by ring. reflexivity.
        * unfold compact_source, fd4_rhs. field. lra.
      + unfold E. apply Rmult_le_compat_r; [apply Rplus_le_le_0_compat; apply pow_le; lra|apply Rle_abs]. }
  intros m l Hm Hl. specialize (Q m l (conj Hm Hl)). rewrite Rplus_0_l in Q. exact Q.
Qed.
End Exact.

(** The grid of two cells between 13/10 and 23/10. *)
Lemma test_trivial : polar_trivial 2 (13 / 10) (23 / 10) (PI / 6) 3.
Proof.
  pose proof PI_RGT_0 as HPI. intros w He Hi m l [Hm Hl]. cbn [fst snd] in Hm, Hl.
  destruct (Z.eq_dec m 1) as [->|Hm1]; [destruct (Z.eq_dec l 1) as [->|Hl1]|].
  - specialize (Hi 1%Z 1%Z ltac:(unfold inside; lia)). unfold polar_op, compact_scheme, op_radial, op_angular, op_drr, op_dr, op_dthth, circle in Hi.
    cbv zeta beta in Hi. change (1 + 1)%Z with 2%Z in Hi. change (1 - 1)%Z with 0%Z in Hi.
    rewrite !(He 0%Z), !(He 2%Z), !(He 1%Z 0%Z), !(He 1%Z 2%Z) in Hi by (unfold on_edge; lia).
    set (e := (2 * PI - PI / 6) / 2) in Hi. assert (Hepos : 0 < e) by (unfold e; lra).
    assert (A : 0 < / e ^ 2) by (apply Rinv_0_lt_compat, pow_lt; exact Hepos).
    match type of Hi with ?L = 0 => assert (E : L = w 1%Z 1%Z * (- 20 / 3 + 9 * (2 / 3 + 25 / 3888) - 2 * (25 / 81) * (5 / 6 + 25 / 3888) * / e ^ 2)) end.
    { field. lra. }
    rewrite E in Hi. destruct (Rmult_integral _ _ Hi) as [H|H]; [exact H|]. exfalso. nra.
  - apply He. unfold on_edge. lia.
  - apply He. unfold on_edge. lia.
Qed.

Lemma test_case : forall jv gamma, exists z sigma, Model_PolarFD.solves (assemble (test_fd jv gamma (13 / 10) 2)) z /\
  polar_stable 2 (13 / 10) (23 / 10) (PI / 6) 3 sigma.
Proof.
  intros jv gamma. pose proof PI_RGT_0 as HPI.
  destruct (one_solution (test_fd jv gamma (13 / 10) 2)) as (z & Hz & _).
  - unfold pf_ok. cbn [test_fd pf_N pf_R0 pf_R1 pf_a]. repeat split; try lia; lra.
  - exact test_trivial.
  - destruct (stable_exists 2 (13 / 10) (23 / 10) (PI / 6) 3 ltac:(lia) test_trivial) as (sigma & _ & Hs).
    exists z, sigma. split; [exact Hz|exact Hs].
Qed.
