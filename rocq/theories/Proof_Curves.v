(** The five boundary curves (C70). *)
From Coq Require Import ZArith List Bool Reals Lia Lra Psatz.
From Coquelicot Require Import Coquelicot.
From Verif Require Import Model_Py Model_Grid Model_Domain Model_Abcoef Spec_Grid Proof_Grid Proof_Domain Proof_Boundary.
Import ListNotations.
Open Scope R_scope.

Lemma sqrt91 : sqrt 91 * sqrt 91 = 91 /\ 9.539 < sqrt 91 < 9.54.
Proof.
  assert (H : sqrt 91 * sqrt 91 = 91) by (apply sqrt_sqrt; lra).
  split; [exact H|]. pose proof (sqrt_pos 91). split; apply Rsqr_incrst_0; unfold Rsqr; lra.
Qed.

Lemma cubic_C_pos : 0 < cubic_C.
Proof.
  unfold cubic_C. destruct sqrt91 as [_ H]. pose proof PI_RGT_0.
  apply Rmult_lt_0_compat; [|lra]. apply Rmult_lt_0_compat; [lra|]. apply pow_lt. assumption.
Qed.

Definition kappa : R := (91 * sqrt 91 - 136) / 2916.
Lemma kappa_bounds : 0.251 < kappa < 0.2511.
Proof. unfold kappa. destruct sqrt91 as [_ H]. lra. Qed.

Lemma cubic_scaled : forall R0 bet a th,
  r_cubic R0 bet a th = R0 + bet * (/ kappa * ((th / PI - a / PI) * (th / PI - 1) * (th / PI - 2))).
Proof.
  intros R0 bet a th. unfold r_cubic, cubic_C. pose proof PI_RGT_0. pose proof kappa_bounds as K. unfold kappa in *.
  field. split; lra.
Qed.

Lemma curve_ends : forall R0 bet nu a, nu * (2 * PI - a) = PI ->
  r_arc R0 a = R0 /\ r_arc R0 (2 * PI) = R0 /\
  r_outer_sine R0 bet nu a a = R0 /\ r_outer_sine R0 bet nu a (2 * PI) = R0 /\
  r_inner_sine R0 bet nu a a = R0 /\ r_inner_sine R0 bet nu a (2 * PI) = R0 /\
  r_sine7 R0 bet nu a a = R0 /\ r_sine7 R0 bet nu a (2 * PI) = R0 /\
  r_cubic R0 bet a a = R0 /\ r_cubic R0 bet a (2 * PI) = R0.
Proof.
  intros R0 bet nu a H. unfold r_arc, r_outer_sine, r_inner_sine, r_sine7, r_cubic.
  rewrite H. replace (a - a) with 0 by ring. rewrite !Rmult_0_r.
  replace (7 * nu * (2 * PI - a)) with (7 * (nu * (2 * PI - a))) by ring. rewrite H.
  replace (7 * PI) with (PI + 2 * INR 3 * PI) by (simpl; lra).
  rewrite sin_period, sin_PI, sin_0. repeat split; ring.
Qed.

Lemma sine_band : forall bet x, 0 <= bet -> - bet <= bet * sin x <= bet.
Proof. intros bet x H. pose proof (SIN_bound x). nra. Qed.

Lemma sine_bands : forall R0 bet nu a th, 0 <= bet ->
  R0 - bet <= r_outer_sine R0 bet nu a th <= R0 + bet /\
  R0 - bet <= r_inner_sine R0 bet nu a th <= R0 + bet /\
  R0 - bet <= r_sine7 R0 bet nu a th <= R0 + bet.
Proof.
  intros R0 bet nu a th H. unfold r_outer_sine, r_inner_sine, r_sine7.
  pose proof (sine_band bet (nu * (th - a)) H). pose proof (sine_band bet (7 * nu * (th - a)) H). lra.
Qed.

Lemma sine_sides : forall R0 bet nu a th, 0 < bet -> nu * (2 * PI - a) = PI -> a < th < 2 * PI ->
  R0 < r_outer_sine R0 bet nu a th /\ r_inner_sine R0 bet nu a th < R0.
Proof.
  intros R0 bet nu a th Hb Hn Ht. unfold r_outer_sine, r_inner_sine.
  assert (Hnu : 0 < nu) by (pose proof PI_RGT_0; nra).
  assert (0 < sin (nu * (th - a))) by (apply sin_gt_0; nra). nra.
Qed.

(** At a = pi/6 the constant makes bet the largest deviation. *)
Lemma cubic_peak : forall R0 bet, 0 <= bet ->
  (forall th, th <= 2 * PI -> r_cubic R0 bet (PI / 6) th <= R0 + bet) /\
  exists th, PI / 6 < th < 2 * PI /\ r_cubic R0 bet (PI / 6) th = R0 + bet.
Proof.
  intros R0 bet Hb. pose proof PI_RGT_0 as HP. destruct sqrt91 as [E S]. pose proof kappa_bounds as K.
  assert (I : forall x, (x - 1 / 6) * (x - 1) * (x - 2) =
    kappa + (x - (19 - sqrt 91) / 18) ^ 2 * (x - (19 + 2 * sqrt 91) / 18)).
  { intros x. unfold kappa. set (s := sqrt 91) in *.
    assert (E3 : s ^ 3 = 91 * s) by (simpl; rewrite Rmult_1_r, E; ring).
    assert (E2 : s ^ 2 = 91) by (simpl; rewrite Rmult_1_r; exact E).
    field_simplify. rewrite ?E3, ?E2. field. }
  assert (EA : PI / 6 / PI = 1 / 6) by (field; lra).
  split.
  - intros th Ht. rewrite cubic_scaled, EA, I.
    assert (Hx : th / PI <= 2) by (apply Rmult_le_reg_r with PI; [exact HP|]; unfold Rdiv; rewrite Rmult_assoc, Rinv_l by lra; lra).
    set (x := th / PI) in *. pose proof (pow2_ge_0 (x - (19 - sqrt 91) / 18)) as Q.
    assert (N : (x - (19 - sqrt 91) / 18) ^ 2 * (x - (19 + 2 * sqrt 91) / 18) <= 0) by nra.
    assert (B : / kappa * (kappa + (x - (19 - sqrt 91) / 18) ^ 2 * (x - (19 + 2 * sqrt 91) / 18)) <= 1).
    { rewrite Rmult_plus_distr_l, Rinv_l by lra. assert (0 < / kappa) by (apply Rinv_0_lt_compat; lra). nra. }
    nra.
  - exists ((19 - sqrt 91) / 18 * PI). split; [nra|]. rewrite cubic_scaled, EA.
    replace ((19 - sqrt 91) / 18 * PI / PI) with ((19 - sqrt 91) / 18) by (field; lra).
    rewrite I. replace ((19 - sqrt 91) / 18 - (19 - sqrt 91) / 18) with 0 by ring. field. lra.
Qed.

(** At the program's angle it does not. *)
Lemma cubic_quarter : forall R0 bet th, 0 < bet -> PI / 4 <= th <= 2 * PI ->
  R0 - 4 / 3 * bet < r_cubic R0 bet (PI / 4) th < R0 + 4 / 5 * bet.
Proof.
  intros R0 bet th Hb Ht. pose proof PI_RGT_0 as HP. pose proof kappa_bounds as K. rewrite cubic_scaled.
  replace (PI / 4 / PI) with (1 / 4) by (field; lra).
  assert (Hx : 1 / 4 <= th / PI <= 2).
  { assert (E : th / PI * PI = th) by (field; lra). split; apply Rmult_le_reg_r with PI; lra. }
  set (x := th / PI) in *.
  assert (U : (x - 1 / 4) * (x - 1) * (x - 2) <= 1 / 5).
  { replace ((x - 1 / 4) * (x - 1) * (x - 2)) with (768871 / 3906250 + (1328 / 1000000) * (x - 576 / 1000) + (x - 576 / 1000) ^ 2 * (x - 2098 / 1000)) by field.
    pose proof (pow2_ge_0 (x - 576 / 1000)). nra. }
  assert (L : - 33 / 100 <= (x - 1 / 4) * (x - 1) * (x - 2)).
  { replace ((x - 1 / 4) * (x - 1) * (x - 2)) with (- 162073 / 500000 - 7 / 10000 * (x - 159 / 100) + (x - 159 / 100) ^ 2 * (x - 7 / 100)) by field.
    pose proof (pow2_ge_0 (x - 159 / 100)). nra. }
  set (p := (x - 1 / 4) * (x - 1) * (x - 2)) in *.
  assert (B : - 4 / 3 < / kappa * p < 4 / 5).
  { assert (Hk : 0 < / kappa) by (apply Rinv_0_lt_compat; lra).
    assert (E1 : / kappa * kappa = 1) by (apply Rinv_l; lra).
    split; nra. }
  nra.
Qed.

Lemma cubic_low : forall R0 bet, 0 < bet -> exists th, PI / 4 < th < 2 * PI /\
  r_cubic R0 bet (PI / 4) th < R0 - 5 / 4 * bet.
Proof.
  intros R0 bet Hb. pose proof PI_RGT_0 as HP. pose proof kappa_bounds as K.
  exists (159 / 100 * PI). split; [lra|]. rewrite cubic_scaled.
  replace (PI / 4 / PI) with (1 / 4) by (field; lra). replace (159 / 100 * PI / PI) with (159 / 100) by (field; lra).
  assert (B : / kappa * ((159 / 100 - 1 / 4) * (159 / 100 - 1) * (159 / 100 - 2)) < - 5 / 4).
  { assert (Hk : 0 < / kappa) by (apply Rinv_0_lt_compat; lra).
    assert (E1 : / kappa * kappa = 1) by (apply Rinv_l; lra). nra. }
  nra.
Qed.

(** A domain below rho keeps its distance from the border of the grid. *)
Lemma curve_margin : forall eval_r a AD N rho, 0 < AD -> (2 <= N)%Z -> 0 <= rho ->
  (forall th, a <= th <= 2 * PI -> eval_r th <= rho) -> rho < AD / 2 - AD / IZR N ->
  margin N (ps_is_interior eval_r a AD N).
Proof.
  intros eval_r a AD N rho HAD HN Hrho Hr Hb. apply (disc_margin AD rho); [exact HAD|exact HN|exact Hb|].
  intros i j _ Hi. unfold ps_is_interior in Hi. destruct (get_coord AD N i j) as [x y].
  unfold interior_xy in Hi. unfold ps_polar_xy in Hi. destruct (cart_to_polar x y) as [r t] eqn:E.
  destruct (cart_to_polar_spec x y r t E) as [Hr0 [_ [Hx Hy]]].
  set (t' := if Rltb t (a / 2) then t + 2 * PI else t) in *.
  apply andb_prop in Hi. destruct Hi as [Hi H3]. apply andb_prop in Hi. destruct Hi as [H1 H2].
  destruct (Rleb_spec r (eval_r t')); [|discriminate]. destruct (Rleb_spec a t'); [|discriminate].
  destruct (Rleb_spec t' (2 * PI)); [|discriminate].
  specialize (Hr t' ltac:(split; assumption)). split; [|exact Hrho].
  rewrite <- Hx, <- Hy. pose proof (sin2_cos2 t) as S. unfold Rsqr in S.
  replace (r * cos t * (r * cos t) + r * sin t * (r * sin t)) with (r * r * (sin t * sin t + cos t * cos t)) by ring.
  rewrite S. nra.
Qed.

(** The program's boundaries fit from 16 cells on. *)
Lemma program_margin : forall eval_r N, (16 <= N)%Z ->
  eval_r = r_arc 2.3 \/ eval_r = r_outer_sine 2.3 0.15 pizza_nu pizza_a \/
  eval_r = r_inner_sine 2.3 0.5 pizza_nu pizza_a \/ eval_r = r_sine7 2.3 0.025 pizza_nu pizza_a \/
  eval_r = r_cubic 2.3 0.075 pizza_a ->
  margin N (ps_is_interior eval_r pizza_a (2 * PI) N).
Proof.
  intros eval_r N HN H. pose proof PI_RGT_0 as HP. pose proof PI2_3_2 as H3. unfold PI2 in H3.
  assert (HNr : 16 <= IZR N) by (apply IZR_le; exact HN).
  assert (B : 2.45 < 2 * PI / 2 - 2 * PI / IZR N).
  { assert (2 * PI / IZR N <= 2 * PI / 16).
    { unfold Rdiv. apply Rmult_le_compat_l; [lra|]. apply Rinv_le_contravar; lra. } lra. }
  assert (Hnu : pizza_nu * (2 * PI - pizza_a) = PI) by (unfold pizza_nu, pizza_a; field; lra).
  apply (curve_margin eval_r pizza_a (2 * PI) N 2.45); try lra; [lia|].
  intros th Ht. destruct H as [-> | [-> | [-> | [-> | ->]]]].
  - unfold r_arc. lra.
  - pose proof (sine_bands 2.3 0.15 pizza_nu pizza_a th ltac:(lra)). lra.
  - assert (0 < pizza_nu) by (unfold pizza_a in *; nra). unfold r_inner_sine.
    assert (0 <= sin (pizza_nu * (th - pizza_a))) by (apply sin_ge_0; nra). lra.
  - pose proof (sine_bands 2.3 0.025 pizza_nu pizza_a th ltac:(lra)). lra.
  - pose proof (cubic_quarter 2.3 0.075 th ltac:(lra) Ht). unfold pizza_a. lra.
Qed.

(** All five curves at the program's angle. *)
Lemma curve_band : forall eval_r R0 bet th, 0 < bet -> pizza_a <= th <= 2 * PI ->
  eval_r = r_arc R0 \/ eval_r = r_outer_sine R0 bet pizza_nu pizza_a \/
  eval_r = r_inner_sine R0 bet pizza_nu pizza_a \/ eval_r = r_sine7 R0 bet pizza_nu pizza_a \/
  eval_r = r_cubic R0 bet pizza_a ->
  R0 - 4 / 3 * bet <= eval_r th <= R0 + bet.
Proof.
  intros eval_r R0 bet th Hb Ht H. pose proof (sine_bands R0 bet pizza_nu pizza_a th ltac:(lra)) as S.
  destruct H as [-> | [-> | [-> | [-> | ->]]]]; try lra.
  - unfold r_arc. lra.
  - pose proof (cubic_quarter R0 bet th Hb Ht) as Q. unfold pizza_a. lra.
Qed.

(** The program's radius and amplitude. *)
Lemma cubic_no_peak : exists R0 bet, 0 < bet < R0 /\
  forall th, pizza_a <= th <= 2 * PI -> r_cubic R0 bet pizza_a th <> R0 + bet.
Proof.
  exists (23 / 10), (75 / 1000). split; [lra|]. intros th Ht E.
  assert (H : r_cubic (23 / 10) (75 / 1000) pizza_a th < 23 / 10 + 4 / 5 * (75 / 1000))
    by (apply cubic_quarter; [lra|exact Ht]).
  rewrite E in H. clear - H. lra.
Qed.
