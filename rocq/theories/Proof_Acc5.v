(** Where the nodes of the discrete boundary lie relative to the curve and the
    radii. *)
From Coq Require Import ZArith List Bool Reals Lra Lia Psatz.
From Coquelicot Require Import Coquelicot.
From Verif Require Import Model_Py Model_Multivalue Model_Grid Model_Domain Model_Ext Model_Extend Spec_Chebyshev Spec_Domain Spec_Grid
  Spec_Ext Spec_Extend Spec_Curve Lib_Sm Proof_Grid Proof_Domain Proof_Boundary Proof_Place Proof_Ext Proof_Ext2 Proof_Extend
  Proof_Extend2 Proof_Gentle Proof_CurvePlace Proof_Acc1 Proof_Acc2 Proof_Acc3 Proof_Acc4.
Import ListNotations.
Open Scope R_scope.

Lemma dist2_sq : forall a b x y e, 0 <= e -> dist2 (a, b) (x, y) <= e -> (a - x) ^ 2 + (b - y) ^ 2 <= e ^ 2.
Proof.
  intros a b x y e He H. unfold dist2 in H. cbn [fst snd] in H.
  assert (Hnn : 0 <= (a - x) ^ 2 + (b - y) ^ 2) by (pose proof (pow2_ge_0 (a - x)); pose proof (pow2_ge_0 (b - y)); lra).
  rewrite <- (sqrt_sqrt _ Hnn). replace (e ^ 2) with (e * e) by ring.
  pose proof (sqrt_pos ((a - x) ^ 2 + (b - y) ^ 2)). apply Rmult_le_compat; assumption.
Qed.

Lemma abs_of_sq : forall u e, 0 <= e -> u ^ 2 <= e ^ 2 -> Rabs u <= e.
Proof.
  intros u e He H. rewrite <- (Rabs_pos_eq e) by exact He. apply Rsqr_le_abs_0. unfold Rsqr. lra.
Qed.

(** A disc of radius 3.01 lies in the square. *)
Definition in_disc (x y : R) : Prop := x ^ 2 + y ^ 2 <= (301 / 100) ^ 2.

Lemma disc_square : forall x y, in_disc x y -> Rabs x <= PI /\ Rabs y <= PI.
Proof.
  intros x y H. unfold in_disc in H. pose proof PI_num. pose proof (pow2_ge_0 x). pose proof (pow2_ge_0 y).
  assert (Rabs x <= 301 / 100) by (apply abs_of_sq; lra). assert (Rabs y <= 301 / 100) by (apply abs_of_sq; lra). lra.
Qed.

Lemma disc_between : forall x y x' y' t, in_disc x y -> in_disc x' y' -> 0 <= t <= 1 ->
  in_disc (x + t * (x' - x)) (y + t * (y' - y)).
Proof.
  unfold in_disc. intros x y x' y' t H H' Ht. set (q := (301 / 100) ^ 2) in *.
  replace ((x + t * (x' - x)) ^ 2 + (y + t * (y' - y)) ^ 2)
    with ((1 - t) * (x ^ 2 + y ^ 2) + t * (x' ^ 2 + y' ^ 2) - t * (1 - t) * ((x' - x) ^ 2 + (y' - y) ^ 2)) by ring.
  assert (0 <= t * (1 - t) * ((x' - x) ^ 2 + (y' - y) ^ 2)).
  { apply Rmult_le_pos; [apply Rmult_le_pos; lra|]. pose proof (pow2_ge_0 (x' - x)). pose proof (pow2_ge_0 (y' - y)). lra. }
  assert ((1 - t) * (x ^ 2 + y ^ 2) <= (1 - t) * q) by (apply Rmult_le_compat_l; lra).
  assert (t * (x' ^ 2 + y' ^ 2) <= t * q) by (apply Rmult_le_compat_l; lra). lra.
Qed.

(** A point within e of a point of radius at most 49/20. *)
Lemma disc_near : forall a b x y e, 0 <= e <= 5555 / 10000 -> a ^ 2 + b ^ 2 <= (49 / 20) ^ 2 ->
  (a - x) ^ 2 + (b - y) ^ 2 <= e ^ 2 -> in_disc x y.
Proof.
  intros a b x y e He Ha Hd. unfold in_disc.
  assert (He2 : e ^ 2 <= (5555 / 10000) ^ 2) by (apply pow_incr; lra).
  set (u := x - a). set (v := y - b).
  assert (Q : u ^ 2 + v ^ 2 <= (5555 / 10000) ^ 2) by (unfold u, v; lra).
  replace x with (a + u) by (unfold u; ring). replace y with (b + v) by (unfold v; ring).
  (* Cauchy-Schwarz with a weight *)
  pose proof (pow2_ge_0 (a * (5555 / 10000) - u * (49 / 20))). pose proof (pow2_ge_0 (b * (5555 / 10000) - v * (49 / 20))).
  nra.
Qed.

Section Geo.
Context (brentq : (R -> R) -> R -> R -> option R) (Hb : brentq_contract brentq) (r : R -> R) (Hr : gentle r)
  (order : Z) (Ho : (order = 2 \/ order = 4)%Z) (c : ext_ctx) (Hc : curve_solver brentq order r c).

Let e := 2 * PI / IZR (ec_N c) * sqrt 2.

Lemma geo_e : 0 <= e <= 5555 / 10000.
Proof using Hc. destruct Hc as (_ & _ & _ & HN & _). apply (e_small (ec_N c) HN). Qed.

Lemma geo_coord : forall p, ctx_coord c p = get_coord (2 * PI) (ec_N c) (fst p) (snd p).
Proof using Hc. intros p. unfold ctx_coord. destruct Hc as (_ & _ & -> & _). reflexivity. Qed.

Lemma gamma_near : forall sid p x y, (sid < 3)%nat -> In p (ec_gamma c sid) -> ctx_coord c p = (x, y) ->
  exists b, on_piece r (23 / 10) (PI / 4) sid b /\ dist2 b (x, y) <= e.
Proof using All.
  intros sid p x y Hsid Hp E. rewrite geo_coord in E.
  destruct Hc as (_ & _ & _ & HN & _ & Eb & Hen & Hg). rewrite Eb in Hg.
  destruct (curve_placed brentq Hb r Hr (ec_N c) HN order (ec_union c) Ho Hen) as [Q _]. rewrite Q in Hg.
  assert (In p (filter (pclaims brentq r (ec_N c) sid) (ec_union c))).
  { assert (Hg2 : forall (A : Type) (u v : A), Ok u = Ok v -> u = v) by congruence. apply Hg2 in Hg. injection Hg as G0 G1 G2.
    destruct sid as [|[|[|sid]]]; [rewrite G0|rewrite G1|rewrite G2|lia]; exact Hp. }
  apply filter_In in H. destruct H as [_ H].
  apply (pclaims_iff brentq Hb r Hr (ec_N c) HN sid p x y Hsid E). exact H.
Qed.

Lemma geo_0 : forall p x y, good_curve r -> In p (ec_gamma c 0) -> ctx_coord c p = (x, y) ->
  exists n th phi, ec_bcoord c p = Some (n, th) /\ PI / 8 <= th <= 2 * PI + PI / 8 /\ Rabs n <= e /\
    PI / 4 <= phi <= 2 * PI /\ Rabs (th - phi) <= 5 / 4 * e /\
    x = r th * cos th + n * fst (eval_normal r th) /\ y = r th * sin th + n * snd (eval_normal r th) /\
    in_disc (r th * cos th) (r th * sin th) /\ in_disc x y.
Proof using All.
  intros p x y Hg Hp E. destruct (gamma_near 0 p x y ltac:(lia) Hp E) as (b & (phi & Hphi & ->) & Hd).
  pose proof geo_e as He. rewrite geo_coord in E. pose proof PI_num as HPI.
  pose proof Hr as Hr'. destruct Hr' as (r1 & r2 & D1 & D2 & B0 & B1 & B2 & Ea & E2).
  pose proof Hc as (_ & _ & _ & HN & _ & Eb & _).
  assert (Ha : 0 < PI / 4 < PI) by lra.
  destruct (bcoord_coord brentq r (PI / 4) (2 * PI) (ec_N c) p x y Ha E) as (rho & th1 & Ebc & Hrho & Hth1 & Hx & Hy).
  pose proof (dist2_polar r phi rho th1 x y e Hx Hy (proj1 He) Hd) as Hd2.
  assert (Hth1' : PI / 8 <= th1 < 2 * PI + PI / 8) by lra.
  destruct (coord_found r r1 r2 D1 D2 B0 B1 B2 Ea E2 rho th1 Hth1' e phi He Hphi Hrho Hd2 brentq Hb) as (n & th & Es & Hth & Z & En).
  destruct (bracket r r1 r2 D1 D2 B0 B1 B2 Ea E2 rho th1 Hth1' e phi He Hphi Hrho Hd2) as (K1 & K2 & K3 & K4 & K5 & K6).
  assert (Hs : 0 <= r th) by (pose proof (B0 th ltac:(lra)); lra).
  destruct (boundary_coord_contract brentq r (PI / 4) rho th1 n th Hb) as (P1 & P2 & _ & _).
  { intros t. eexists. apply D1. }
  { intros t. unfold b_d_r. apply ex_derive_ext with r1; [intros u; symmetry; apply is_derive_unique, D1|]. eexists. apply D2. }
  { intros t. apply (g_pos r Hg). }
  { lra. }
  { lra. }
  { exact Es. }
  rewrite Hx in P1. rewrite Hy in P2.
  assert (Hm : half_sq r rho th1 th <= half_sq r rho th1 phi).
  { apply (half_sq_mono r r1 r2 D1 D2 B0 B1 B2 Ea E2 rho th1 Hth1' e phi He Hphi Hrho Hd2 th th phi Z Hth Hth K1).
    destruct (Rle_lt_dec th phi); [left|right]; lra. }
  unfold half_sq in Hm. rewrite Hx, Hy in *.
  pose proof (dist2_sq _ _ _ _ _ (proj1 He) Hd) as Hq.
  set (q := sqrt ((x - r th * cos th) ^ 2 + (y - r th * sin th) ^ 2)) in *.
  assert (Hq0 : (r th * cos th - x) ^ 2 + (r th * sin th - y) ^ 2 <= e ^ 2) by lra.
  assert (Hn : Rabs n <= e).
  { rewrite En. unfold q. rewrite <- (sqrt_pow2 e) by lra. apply sqrt_le_1_alt.
    replace ((x - r th * cos th) ^ 2 + (y - r th * sin th) ^ 2) with ((r th * cos th - x) ^ 2 + (r th * sin th - y) ^ 2) by ring. exact Hq0. }
  exists n, th, phi. split; [rewrite Eb, Ebc; exact Es|]. split; [lra|]. split; [exact Hn|]. split; [exact Hphi|].
  assert (Hrad : forall t, PI / 8 <= t <= 2 * PI + PI / 8 -> (r t * cos t) ^ 2 + (r t * sin t) ^ 2 <= (49 / 20) ^ 2).
  { intros t Ht. pose proof (sc2 t) as S2. replace ((r t * cos t) ^ 2 + (r t * sin t) ^ 2) with (r t ^ 2) by (ring [S2]).
    pose proof (B0 t Ht). apply pow_incr. lra. }
  split.
  - (* the chord *)
    set (d := (th - phi) / 2). assert (Hd' : Rabs d <= PI / 7) by (unfold d; apply Rabs_le; lra).
    assert (Ch : (r th * cos th - r phi * cos phi) ^ 2 + (r th * sin th - r phi * sin phi) ^ 2 <= 4 * e ^ 2).
    { pose proof (pow2_ge_0 (r th * cos th - x + (r phi * cos phi - x))). pose proof (pow2_ge_0 (r th * sin th - y + (r phi * sin phi - y))). lra. }
    assert (Ch2 : (r th * cos th - r phi * cos phi) ^ 2 + (r th * sin th - r phi * sin phi) ^ 2 = (r th - r phi) ^ 2 + 4 * (r th * r phi) * sin d ^ 2).
    { assert (C2 : cos (th - phi) = 1 - 2 * sin d ^ 2) by (replace (th - phi) with (2 * d) by (unfold d; field); rewrite cos_2a_sin; ring).
      rewrite cos_minus in C2. pose proof (sc2 th) as S1. pose proof (sc2 phi) as S3.
      transitivity (r th ^ 2 + r phi ^ 2 - 2 * r th * r phi * (cos th * cos phi + sin th * sin phi)); [ring [S1 S3]|]. rewrite C2. ring. }
    pose proof (B0 th ltac:(lra)) as R1. pose proof (B0 phi ltac:(lra)) as R2.
    assert (R3 : 9 / 5 * (9 / 5) <= r th * r phi) by (apply Rmult_le_compat; lra).
    pose proof (pow2_ge_0 (r th - r phi)). pose proof (pow2_ge_0 (sin d)).
    assert (Sd : (9 / 5 * sin d) ^ 2 <= e ^ 2).
    { assert (9 / 5 * (9 / 5) * sin d ^ 2 <= r th * r phi * sin d ^ 2) by (apply Rmult_le_compat_r; assumption). lra. }
    assert (Sa : Rabs (sin d) = sin (Rabs d)).
    { unfold Rabs at 2. destruct (Rcase_abs d).
      - rewrite sin_neg. apply Rabs_left1. pose proof (sin_ge_0 (- d)). rewrite sin_neg in H1. rewrite Rabs_left in Hd' by lra. lra.
      - apply Rabs_pos_eq. rewrite Rabs_pos_eq in Hd' by lra. apply sin_ge_0; lra. }
    apply abs_of_sq in Sd; [|lra]. rewrite Rabs_mult, (Rabs_pos_eq (9 / 5)), Sa in Sd by lra.
    pose proof (Rabs_pos d). pose proof (sin_lower (Rabs d) ltac:(lra)) as SL.
    assert (Q2 : Rabs d ^ 3 <= Rabs d * (1 / 4)).
    { replace (Rabs d ^ 3) with (Rabs d * (Rabs d * Rabs d)) by ring. apply Rmult_le_compat_l; [lra|].
      apply Rle_trans with (1 / 2 * (1 / 2)); [apply Rmult_le_compat; lra|lra]. }
    replace (th - phi) with (2 * d) by (unfold d; field). rewrite Rabs_mult, (Rabs_pos_eq 2) by lra. lra.
  - split; [exact P1|]. split; [exact P2|]. split.
    + unfold in_disc. eapply Rle_trans; [apply Hrad; lra|]. apply pow_incr. lra.
    + apply (disc_near (r phi * cos phi) (r phi * sin phi) x y e He); [apply Hrad; lra|exact Hq].
Qed.

(** On a radius: foot, offset and distance. *)
Lemma geo_12 : forall sid p x y e1 e2 sg t n, (1 <= sid < 3)%nat -> In p (ec_gamma c sid) -> ctx_coord c p = (x, y) ->
  (sid = 1%nat /\ e1 = 1 /\ e2 = 0 \/ sid = 2%nat /\ e1 = cos (PI / 4) /\ e2 = sin (PI / 4)) -> sg = 1 \/ sg = -1 ->
  x = t * e1 + n * (sg * e2) -> y = t * e2 + n * (sg * - e1) ->
  Rabs n <= e /\ (exists s, 0 <= s <= 23 / 10 /\ Rabs (t - s) <= e) /\ in_disc (t * e1) (t * e2) /\ in_disc x y.
Proof using All.
  intros sid p x y e1 e2 sg t n Hsid Hp E Hcase Hsg Px Py.
  destruct (gamma_near sid p x y ltac:(lia) Hp E) as (b & Hbs & Hd). pose proof geo_e as He.
  assert (U : e1 ^ 2 + e2 ^ 2 = 1).
  { destruct Hcase as [(_ & -> & ->)|(_ & -> & ->)]; [ring|]. pose proof (sc2 (PI / 4)). lra. }
  assert (Hs : exists s, 0 <= s <= 23 / 10 /\ b = (s * e1, s * e2)).
  { destruct Hcase as [(-> & -> & ->)|(-> & -> & ->)]; cbn [on_piece on_seg] in Hbs; destruct Hbs as (s & Hs & ->); exists s; (split; [exact Hs|]); f_equal; ring. }
  destruct Hs as (s & Hs & ->). pose proof (dist2_sq _ _ _ _ _ (proj1 He) Hd) as Hq.
  assert (Hsg2 : sg ^ 2 = 1) by (destruct Hsg as [-> | ->]; ring).
  assert (Eq : (s * e1 - x) ^ 2 + (s * e2 - y) ^ 2 = (t - s) ^ 2 + n ^ 2).
  { rewrite Px, Py. transitivity ((t - s) ^ 2 * (e1 ^ 2 + e2 ^ 2) + n ^ 2 * sg ^ 2 * (e1 ^ 2 + e2 ^ 2)); [ring|]. rewrite U, Hsg2. ring. }
  pose proof (pow2_ge_0 (t - s)). pose proof (pow2_ge_0 n).
  split; [apply abs_of_sq; lra|]. assert (Hts : Rabs (t - s) <= e) by (apply abs_of_sq; lra).
  split; [exists s; auto|]. split.
  - unfold in_disc. replace ((t * e1) ^ 2 + (t * e2) ^ 2) with (t ^ 2 * (e1 ^ 2 + e2 ^ 2)) by ring. rewrite U, Rmult_1_r.
    rewrite <- (pow2_abs t). apply pow_incr. split; [apply Rabs_pos|]. apply Rabs_le_between in Hts. apply Rabs_le. lra.
  - apply (disc_near (s * e1) (s * e2) x y e He); [|exact Hq].
    replace ((s * e1) ^ 2 + (s * e2) ^ 2) with (s ^ 2 * (e1 ^ 2 + e2 ^ 2)) by ring. rewrite U, Rmult_1_r. apply pow_incr. lra.
Qed.
End Geo.
