(** Property C70: the five boundary curves; and the use of the interpolant of
    C62 on them. *)
From Coq Require Import ZArith List Bool Reals Lia Lra.
From Coquelicot Require Import Coquelicot.
From Verif Require Import Model_Py Model_Grid Model_Domain Model_Abcoef Model_PolarFD Model_ZRun
  Spec_Grid Spec_PolarFD Proof_PolarFD Proof_ZRun Proof_ZRunEx Proof_Curves.
Import ListNotations.
Open Scope R_scope.

(** C70. Every curve starts and ends on the circle of radius R. *)
Theorem C70_ends : forall R0 bet nu a, nu * (2 * PI - a) = PI ->
  r_arc R0 a = R0 /\ r_arc R0 (2 * PI) = R0 /\
  r_outer_sine R0 bet nu a a = R0 /\ r_outer_sine R0 bet nu a (2 * PI) = R0 /\
  r_inner_sine R0 bet nu a a = R0 /\ r_inner_sine R0 bet nu a (2 * PI) = R0 /\
  r_sine7 R0 bet nu a a = R0 /\ r_sine7 R0 bet nu a (2 * PI) = R0 /\
  r_cubic R0 bet a a = R0 /\ r_cubic R0 bet a (2 * PI) = R0.
Proof. exact curve_ends. Qed.
Print Assumptions C70_ends.

(** C70. The sine curves deviate by at most bet. *)
Theorem C70_sines : forall R0 bet nu a th, 0 <= bet ->
  R0 - bet <= r_outer_sine R0 bet nu a th <= R0 + bet /\
  R0 - bet <= r_inner_sine R0 bet nu a th <= R0 + bet /\
  R0 - bet <= r_sine7 R0 bet nu a th <= R0 + bet.
Proof. exact sine_bands. Qed.
Print Assumptions C70_sines.

(** C70. OuterSine runs outside the circle, InnerSine inside. *)
Theorem C70_sides : forall R0 bet nu a th, 0 < bet -> nu * (2 * PI - a) = PI -> a < th < 2 * PI ->
  R0 < r_outer_sine R0 bet nu a th /\ r_inner_sine R0 bet nu a th < R0.
Proof. exact sine_sides. Qed.
Print Assumptions C70_sides.

(** C70. cubic_C scales the cubic so that bet is its largest outward
    deviation, for the angle a = pi/6. *)
Theorem C70_cubic_sixth : forall R0 bet, 0 <= bet ->
  (forall th, th <= 2 * PI -> r_cubic R0 bet (PI / 6) th <= R0 + bet) /\
  exists th, PI / 6 < th < 2 * PI /\ r_cubic R0 bet (PI / 6) th = R0 + bet.
Proof. exact cubic_peak. Qed.
Print Assumptions C70_cubic_sixth.

(** C70. For the angle pi/4 that the program uses it does not: the largest
    deviation stays below 4/5 bet. *)
Theorem C70_cubic_quarter : forall R0 bet th, 0 < bet -> pizza_a <= th <= 2 * PI ->
  R0 - 4 / 3 * bet < r_cubic R0 bet pizza_a th < R0 + 4 / 5 * bet.
Proof. exact cubic_quarter. Qed.
Print Assumptions C70_cubic_quarter.

(** So the claim that bet is the largest deviation is false there. *)
Theorem C70_cubic_peak_refuted : exists R0 bet, 0 < bet < R0 /\
  forall th, pizza_a <= th <= 2 * PI -> r_cubic R0 bet pizza_a th <> R0 + bet.
Proof. exact cubic_no_peak. Qed.
Print Assumptions C70_cubic_peak_refuted.

(** C70. And inwards the cubic leaves the band of width bet. *)
Theorem C70_cubic_band_refuted : forall R0 bet, 0 < bet -> exists th, pizza_a < th < 2 * PI /\
  r_cubic R0 bet pizza_a th < R0 - 5 / 4 * bet.
Proof. exact cubic_low. Qed.
Print Assumptions C70_cubic_band_refuted.

(** C70. A domain of radius below AD_len/2 - h keeps one node away from the
    border, as the difference potential needs. *)
Theorem C70_margin : forall eval_r a AD N rho, 0 < AD -> (2 <= N)%Z -> 0 <= rho ->
  (forall th, a <= th <= 2 * PI -> eval_r th <= rho) -> rho < AD / 2 - AD / IZR N ->
  margin N (ps_is_interior eval_r a AD N).
Proof. exact curve_margin. Qed.
Print Assumptions C70_margin.

(** C70. This holds for the program's five boundaries from 16 cells on. *)
Theorem C70_program : forall eval_r N, (16 <= N)%Z ->
  eval_r = r_arc 2.3 \/ eval_r = r_outer_sine 2.3 0.15 pizza_nu pizza_a \/
  eval_r = r_inner_sine 2.3 0.5 pizza_nu pizza_a \/ eval_r = r_sine7 2.3 0.025 pizza_nu pizza_a \/
  eval_r = r_cubic 2.3 0.075 pizza_a ->
  margin N (ps_is_interior eval_r pizza_a (2 * PI) N).
Proof. exact program_margin. Qed.
Print Assumptions C70_program.

(** C62. On each of the five curves the interpolant of v is used between two
    radii of its table. *)
Theorem C62_curves : forall s eval_r Rb bet th, pf_ok s -> 0 < bet <= Rb / 3 -> pf_R1 s = zm_arc_R Rb bet ->
  pf_R0 s <= Rb - 4 / 3 * bet -> pizza_a <= th <= 2 * PI ->
  eval_r = r_arc Rb \/ eval_r = r_outer_sine Rb bet pizza_nu pizza_a \/
  eval_r = r_inner_sine Rb bet pizza_nu pizza_a \/ eval_r = r_sine7 Rb bet pizza_nu pizza_a \/
  eval_r = r_cubic Rb bet pizza_a ->
  exists lo hi, In lo (zm_r_data s (zm_rmin (pf_N s) Rb bet)) /\ In hi (zm_r_data s (zm_rmin (pf_N s) Rb bet)) /\
    lo <= eval_r th <= hi.
Proof.
  exact (fun s eval_r Rb bet th Hok Hb HR H0 Ht Hc =>
    let B := curve_band eval_r Rb bet th (proj1 Hb) Ht Hc in
    table_range s Rb bet (eval_r th) Hok (conj (Rlt_le _ _ (proj1 Hb)) (proj2 Hb)) HR
      (Rle_trans _ _ _ H0 (proj1 B)) B).
Qed.
Print Assumptions C62_curves.

(** The program's constants. *)
Example C70_nonvacuous : pizza_nu * (2 * PI - pizza_a) = PI /\ pizza_a < PI < 2 * PI /\ 0 < 0.075 /\
  pf_ok ze_big /\ 0 < 15 / 100 <= (23 / 10) / 3 /\ pf_R1 ze_big = zm_arc_R (23 / 10) (15 / 100) /\
  pf_R0 ze_big <= 23 / 10 - 4 / 3 * (15 / 100) /\
  (forall th, r_sine7 (23 / 10) (15 / 100) pizza_nu pizza_a th <= 5 / 2) /\
  5 / 2 < 2 * PI / 2 - 2 * PI / IZR 16.
Proof.
  pose proof PI_RGT_0. pose proof PI2_3_2 as P3. unfold PI2 in P3.
  split; [unfold pizza_nu, pizza_a; field; lra|]. split; [unfold pizza_a; lra|]. split; [lra|].
  split; [exact ze_big_ok|]. split; [lra|]. split; [reflexivity|].
  split; [change (pf_R0 ze_big) with (/ 10); lra|].
  split; [intros th; pose proof (C70_sines (23 / 10) (15 / 100) pizza_nu pizza_a th ltac:(lra)); lra|lra].
Qed.
