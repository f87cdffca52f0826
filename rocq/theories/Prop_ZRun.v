(** Properties C61, C62, C63 and C67: the run of the regularisation. *)
From Coq Require Import String ZArith List Bool Reals Lia Lra.
From Coquelicot Require Import Coquelicot.
From Verif Require Import Model_Py Model_Grid Model_Fourier Model_Domain Model_Abcoef Model_PolarFD
  Model_ZMethod Model_ZRun Lib_Csum Proof_PolarFD Proof_Abcoef Proof_ZRun Proof_ZRunEx Proof_Singular
  Spec_Fd Spec_Abcoef Spec_PolarFD Spec_Ode Spec_ZRun.
Import ListNotations.
Open Scope R_scope.

(** C61. A solution of the assembled system is a table v with the edge data of
    the problem, the series data on the inner circle, the transported sine
    series plus g + q on the arc, and zero compact residual inside; and every
    such table comes from a solution. *)
Theorem C61_system : forall spsolve N k a nu R0 arc_R M z1 vs gq phi1 phi2,
  (1 <= N)%Z -> 0 < R0 < arc_R -> a < 2 * PI ->
  let s := zm_z_fd N k a nu R0 arc_R M z1 vs gq phi1 phi2 in
  let v := zm_v spsolve false s in
  let hr := (arc_R - R0) / IZR N in let hth := (2 * PI - a) / IZR N in
  let r := fun m => R0 + IZR m * hr in let th := fun l => a + IZR l * hth in
  (solves (assemble s) (spsolve (assemble s)) <->
   (forall m, (0 <= m <= N)%Z -> v m 0%Z = RtoC (phi2 (r m)) /\ v m N = RtoC (phi1 (r m))) /\
   (forall l, (1 <= l <= N - 1)%Z -> v 0%Z l = RtoC (vs R0 (th l)) /\
      v N l = RtoC (sine_series a nu M (fun m => nth m z1 0) (th l) + gq arc_R (th l))) /\
   (forall m l, (1 <= m <= N - 1)%Z -> (1 <= l <= N - 1)%Z ->
      compact_scheme r hr hth k (fun m l => fst (v m l)) m l = 0)).
Proof. exact z_system. Qed.
Print Assumptions C61_system.

(** C61. With the coefficients of v0 - (g + q) on the arc, the table equals v0
    on the whole arc. *)
Theorem C61_arc : forall spsolve N k a nu R0 arc_R M z1 vs gq phi1 phi2 (v0 : R -> R -> R) (c : nat -> R),
  (1 <= N)%Z -> 0 < R0 < arc_R -> a < 2 * PI ->
  let s := zm_z_fd N k a nu R0 arc_R M z1 vs gq phi1 phi2 in
  let th := fun l => a + IZR l * ((2 * PI - a) / IZR N) in
  solves (assemble s) (spsolve (assemble s)) ->
  (forall r, 0 < r -> phi1 r = v0 r (2 * PI) /\ phi2 r = v0 r a) ->
  (forall t, v0 arc_R t - gq arc_R t = sine_series a nu M c t) ->
  (forall m, (m < M)%nat -> nth m z1 0 = c m) ->
  forall l, (0 <= l <= N)%Z -> zm_v spsolve false s N l = RtoC (v0 arc_R (th l)).
Proof. exact z_arc. Qed.
Print Assumptions C61_arc.

(** C61. The coefficients used for comparison are those. *)
Theorem C61_expected : forall a arc_R n M (v0 gq : R -> R -> R) (c : nat -> R), 2 * PI - a <> 0 -> (M <= n)%nat ->
  (forall t, v0 arc_R t - gq arc_R t = sine_series a (PI / (2 * PI - a)) M c t) ->
  forall m, (m < M)%nat -> nth m (map fst (zm_expected_z1 v0 gq a arc_R n M)) 0 = c m.
Proof. exact cheat_exact. Qed.
Print Assumptions C61_expected.

(** C61. With acheat nothing is solved and the table is zero. *)
Theorem C61_acheat : forall spsolve s m l, zm_v spsolve true s m l = RtoC 0.
Proof. exact v_acheat. Qed.
Print Assumptions C61_acheat.

(** v0 = r^2 + r sin(th - pi), g + q = r^2 on a half annulus: the system is
    solved by [ze_sp], and one mode describes the arc. *)
Example C61_nonvacuous :
  (1 <= 2)%Z /\ 0 < 1 < 2 /\ PI < 2 * PI /\
  solves (assemble ze_s) (ze_sp (assemble ze_s)) /\
  (forall r, 0 < r -> ze_v r (2 * PI) = ze_v r (2 * PI) /\ ze_v r PI = ze_v r PI) /\
  (forall t, ze_v 2 t - ze_gq 2 t = sine_series PI (PI / (2 * PI - PI)) 1 (fun m => nth m [2] 0) t) /\
  zm_v ze_sp false ze_s 2 1 = RtoC 6.
Proof.
  pose proof PI_RGT_0 as Hp. split; [lia|]. split; [lra|]. split; [lra|].
  split; [exact ze_solves|]. split; [auto|]. split.
  - intros t. unfold ze_v, ze_gq, sine_series. cbn [rsum nth]. simpl INR.
    replace ((0 + 1) * (PI / (2 * PI - PI)) * (t - PI)) with (t - PI) by (field; lra). ring.
  - pose proof (C61_arc ze_sp 2 1 PI 1 1 2 1 [2] ze_v ze_gq (fun r => ze_v r (2 * PI)) (fun r => ze_v r PI)
      ze_v (fun m => nth m [2] 0) ltac:(lia) ltac:(lra) ltac:(lra) ze_solves ltac:(auto)) as H.
    cbv zeta in H. change (zm_z_fd 2 1 PI 1 1 2 1 [2] ze_v ze_gq (fun r => ze_v r (2 * PI)) (fun r => ze_v r PI)) with ze_s in H.
    rewrite H; [| |auto|lia].
    + unfold ze_v. f_equal. replace (PI + 1 * ((2 * PI - PI) / 2) - PI) with (PI / 2) by field.
      rewrite sin_PI2. lra.
    + intros t. unfold ze_v, ze_gq, sine_series. cbn [rsum nth]. simpl INR.
      replace ((0 + 1) * 1 * (t - PI)) with (t - PI) by ring. ring.
Qed.

(** C62. The interpolant reproduces the table at every grid point whose radius
    was kept, in both components. *)
Theorem C62_nodes : forall s interp2d Rb bet v m l, pf_ok s -> interp2d_ok interp2d ->
  (5 <= pf_N s)%Z -> 0 <= bet < Rb -> pf_R1 s = zm_arc_R Rb bet ->
  (0 <= m <= pf_N s)%Z -> (0 <= l <= pf_N s)%Z -> zm_rmin (pf_N s) Rb bet <= get_r s (IZR m) ->
  zm_v_interp interp2d s Rb bet v (get_r s (IZR m)) (get_th s l) = v m l.
Proof.
  exact (fun s interp2d Rb bet v m l Hok Hi HN Hb HR Hm Hl Hr =>
    interp_nodes s Hok interp2d Rb bet v m l Hi (table_size s Rb bet Hok HN Hb HR) HN Hm Hl Hr).
Qed.
Print Assumptions C62_nodes.

(** C62. The tables handed to interp2d are strictly increasing and long enough
    for a quintic spline. *)
Theorem C62_tables : forall s Rb bet, pf_ok s -> (5 <= pf_N s)%Z -> 0 <= bet < Rb ->
  pf_R1 s = zm_arc_R Rb bet ->
  increasing (zm_r_data s (zm_rmin (pf_N s) Rb bet)) /\ increasing (zm_th_data s) /\
  (6 <= length (zm_r_data s (zm_rmin (pf_N s) Rb bet)))%nat.
Proof.
  exact (fun s Rb bet Hok HN Hb HR =>
    conj (r_data_increasing s Hok _) (conj (th_data_increasing s Hok) (table_size s Rb bet Hok HN Hb HR))).
Qed.
Print Assumptions C62_tables.

(** C62. Every radius within [-4/3 bet, bet] of R lies between two kept radii,
    so the interpolant is never used outside its table. *)
Theorem C62_range : forall s Rb bet rho, pf_ok s -> 0 <= bet <= Rb / 3 -> pf_R1 s = zm_arc_R Rb bet ->
  pf_R0 s <= rho -> Rb - 4 / 3 * bet <= rho <= Rb + bet ->
  exists lo hi, In lo (zm_r_data s (zm_rmin (pf_N s) Rb bet)) /\ In hi (zm_r_data s (zm_rmin (pf_N s) Rb bet)) /\
    lo <= rho <= hi.
Proof. exact table_range. Qed.
Print Assumptions C62_range.

(** N = 128, R = 2.3, bet = 0.15: some circles are dropped, the outermost one
    is kept, and a table lookup interpolates. *)
Example C62_nonvacuous :
  pf_ok ze_big /\ interp2d_ok lookup2d /\ (5 <= pf_N ze_big)%Z /\ 0 <= 15 / 100 <= (23 / 10) / 3 /\
  pf_R1 ze_big = zm_arc_R (23 / 10) (15 / 100) /\
  get_r ze_big 0 < zm_rmin (pf_N ze_big) (23 / 10) (15 / 100) /\
  zm_rmin (pf_N ze_big) (23 / 10) (15 / 100) <= get_r ze_big (IZR (pf_N ze_big)).
Proof.
  split; [exact ze_big_ok|]. split; [exact lookup2d_ok|]. split; [cbn; lia|]. split; [lra|].
  split; [reflexivity|]. rewrite (r_top ze_big ze_big_ok).
  unfold get_r, zm_rmin. change (128 <=? pf_N ze_big)%Z with true. cbv iota.
  change (pf_R1 ze_big) with (23 / 10 + 15 / 100). change (pf_R0 ze_big) with (/ 10).
  split; lra.
Qed.

(** C63. Whatever the table, the reported error is the largest absolute value
    among the first M sine coefficients of the difference on the inner circles. *)
Theorem C63_max : forall s v0 v M (c : Z -> nat -> C) e, pf_ok s -> (2 <= pf_N s)%Z -> (1 <= M)%nat ->
  let n := Z.to_nat (pf_N s - 1) in
  (forall m l, (1 <= m < pf_N s)%Z -> (1 <= l < pf_N s)%Z ->
     Cminus (RtoC (v0 (get_r s (IZR m)) (get_th s l))) (v m l) =
     csum n (fun j => Cmult (c m j)
       (RtoC (sin ((INR j + 1) * (PI / (2 * PI - pf_a s)) * (get_th s l - pf_a s)))))) ->
  (zm_v_error s v0 v M = Ok e <->
   is_max (fun p : Z * nat => (1 <= fst p < pf_N s)%Z /\ (snd p < M)%nat /\ (Z.of_nat (snd p) < pf_N s - 1)%Z)
     (fun p => Cmod (c (fst p) (snd p))) e).
Proof. exact v_error_max. Qed.
Print Assumptions C63_max.

(** C63. Such coefficients always exist. *)
Theorem C63_modes : forall s (d : Z -> Z -> C), pf_ok s -> (2 <= pf_N s)%Z ->
  let n := Z.to_nat (pf_N s - 1) in
  exists c : Z -> nat -> C, forall m l, (1 <= l < pf_N s)%Z -> d m l =
     csum n (fun j => Cmult (c m j)
       (RtoC (sin ((INR j + 1) * (PI / (2 * PI - pf_a s)) * (get_th s l - pf_a s))))).
Proof. exact modes_exist. Qed.
Print Assumptions C63_modes.

(** C63. When all modes of the grid are compared, error 0 means equality. *)
Theorem C63_zero : forall s v0 v M, pf_ok s -> (2 <= pf_N s)%Z -> (pf_N s - 1 <= Z.of_nat M)%Z ->
  (zm_v_error s v0 v M = Ok 0 <->
   forall m l, (1 <= m < pf_N s)%Z -> (1 <= l < pf_N s)%Z ->
     v m l = RtoC (v0 (get_r s (IZR m)) (get_th s l))).
Proof. exact v_error_zero. Qed.
Print Assumptions C63_zero.

(** C63. With the M = 7 modes of the program on sixteen cells it does not: the
    eighth mode is invisible. *)
Theorem C63_seven_refuted : exists s v0 v, pf_ok s /\ pf_N s = 16%Z /\ zm_v_error s v0 v 7 = Ok 0 /\
  v 1%Z 1%Z <> RtoC (v0 (get_r s 1) (get_th s 1)).
Proof.
  exact (ex_intro _ ze_16 (ex_intro _ ze_eight (ex_intro _ (fun _ _ => RtoC 0)
    (conj (proj1 error_blind) (conj eq_refl (conj (proj1 (proj2 error_blind))
      (fun H => proj2 (proj2 error_blind) (eq_sym H)))))))).
Qed.
Print Assumptions C63_seven_refuted.

(** Four cells, three modes. *)
Example C63_nonvacuous : let s := zm_z_fd 4 1 (PI / 4) (4 / 7) (/ 10) 2 7 [] ze_v ze_gq (fun _ => 0) (fun _ => 0) in
  pf_ok s /\ (2 <= pf_N s)%Z /\ (pf_N s - 1 <= Z.of_nat 3)%Z /\
  zm_v_error s ze_v (fun m l => RtoC (ze_v (get_r s (IZR m)) (get_th s l))) 3 = Ok 0.
Proof.
  intros s. pose proof PI_RGT_0.
  assert (Hok : pf_ok s) by (split; [cbn; lia|cbn; split; lra]).
  split; [exact Hok|]. split; [cbn; lia|]. split; [cbn; lia|].
  apply (C63_zero s ze_v _ 3 Hok); [cbn; lia|cbn; lia|]. reflexivity.
Qed.

(** C67. With acheat, the coefficients are the rescaled sine coefficients of
    phi0 - v on the circle, and v plus the Fourier-Bessel part is phi0 there. *)
Theorem C67_arc : forall jv name phi0 v a k R0 n M (b : nat -> R) A, name <> "iz-bessel"%string ->
  2 * PI - a <> 0 -> (M <= n)%nat ->
  let nu := PI / (2 * PI - a) in
  (forall m, (m < M)%nat -> jv ((INR m + 1) * nu) (k * R0) <> 0) ->
  (forall th, phi0 th - v R0 th = rsum M (fun m => b m * sin ((INR m + 1) * nu * (th - a)))) ->
  zm_expected_a_coef jv name phi0 v a k R0 nu n M = Ok A ->
  (forall m, (m < M)%nat ->
     Cmult (nth m A (RtoC 0)) (RtoC (jv ((INR m + 1) * nu) (k * R0))) = RtoC (b m)) /\
  forall th, Cplus (RtoC (v R0 th)) (fourier_bessel jv k nu a M (fun m => nth m A (RtoC 0)) R0 th) =
    RtoC (phi0 th).
Proof. exact acoef_arc. Qed.
Print Assumptions C67_arc.

(** C67. For iz-bessel the expected coefficients are zero. *)
Theorem C67_bessel : forall jv phi0 v a k R0 nu n M,
  zm_expected_a_coef jv "iz-bessel" phi0 v a k R0 nu n M = Ok (repeat (RtoC 0) M).
Proof. exact acoef_bessel. Qed.
Print Assumptions C67_bessel.

(** C67. On a circle and with an exact v, the least-squares coefficients are
    the expected ones. *)
Theorem C67_same : forall lstsq jv name phi0 v vi k R0 n M m1, name <> "iz-bessel"%string ->
  (M <= m1)%nat -> (m1 <= n)%nat ->
  (forall m, (m < m1)%nat -> jv ((INR m + 1) * pizza_nu) (k * R0) <> 0) ->
  (forall i, (i < n)%nat -> vi R0 (ab_th n i) = RtoC (v R0 (ab_th n i))) ->
  (let W := fun i m => ab_W jv k R0 pizza_a pizza_nu (fun _ => R0) n M i m in
   let y := fun i => Cminus (RtoC (phi0 (ab_th n i))) (vi R0 (ab_th n i)) in
   least_squares n m1 W y (lstsq n m1 W y)) ->
  zm_calc_a_coef lstsq jv false name phi0 v vi (fun _ => R0) pizza_a k R0 pizza_nu n M m1 =
  zm_calc_a_coef lstsq jv true name phi0 v vi (fun _ => R0) pizza_a k R0 pizza_nu n M m1.
Proof. exact acheat_same. Qed.
Print Assumptions C67_same.

(** C67. On any curve, a Fourier-Bessel difference phi0 - v of at most M modes
    is recovered, and the data of the regularised problem on the curve are
    v - v_asympt at the nodes. *)
Theorem C67_curve : forall lstsq jv name phi0 phi1 phi2 v vi w eval_r a k R0 nu n M m1 (c : nat -> C) A,
  (M <= m1)%nat ->
  (forall m, (m < m1)%nat -> jv ((INR m + 1) * nu) (k * R0) <> 0) ->
  (let W := fun i m => ab_W jv k R0 a nu eval_r n M i m in
   let y := fun i => Cminus (RtoC (phi0 (ab_th n i))) (vi (eval_r (ab_th n i)) (ab_th n i)) in
   least_squares n m1 W y (lstsq n m1 W y)) ->
  full_rank n m1 (fun i m => RtoC (jv ((INR m + 1) * nu) (k * eval_r (ab_th n i)) *
                                   sin ((INR m + 1) * nu * (ab_th n i - a)))) ->
  (forall i, (i < n)%nat -> Cminus (RtoC (phi0 (ab_th n i))) (vi (eval_r (ab_th n i)) (ab_th n i)) =
     fourier_bessel jv k nu a M c (eval_r (ab_th n i)) (ab_th n i)) ->
  zm_calc_a_coef lstsq jv false name phi0 v vi eval_r a k R0 nu n M m1 = Ok A ->
  (forall m, (m < M)%nat -> nth m A (RtoC 0) = c m) /\
  forall i, (i < n)%nat -> zm_u_bc jv phi0 phi1 phi2 w A eval_r a nu k M (ab_th n i) 0%nat =
    Ok (Cminus (vi (eval_r (ab_th n i)) (ab_th n i)) (RtoC (w (eval_r (ab_th n i)) (ab_th n i)))).
Proof. exact acoef_curve. Qed.
Print Assumptions C67_curve.

(** C67. With acheat, the data of the regularised problem on the circle are
    v - v_asympt everywhere. *)
Theorem C67_rest : forall lstsq jv name phi0 phi1 phi2 v vi w eval_r a k R0 n M m1 (b : nat -> R) A,
  name <> "iz-bessel"%string -> 2 * PI - a <> 0 -> (M <= n)%nat ->
  let nu := PI / (2 * PI - a) in
  (forall m, (m < M)%nat -> jv ((INR m + 1) * nu) (k * R0) <> 0) ->
  (forall th, phi0 th - v R0 th = rsum M (fun m => b m * sin ((INR m + 1) * nu * (th - a)))) ->
  zm_calc_a_coef lstsq jv true name phi0 v vi eval_r a k R0 nu n M m1 = Ok A ->
  forall th, zm_u_bc jv phi0 phi1 phi2 w A (fun _ => R0) a nu k M th 0%nat = Ok (RtoC (v R0 th - w R0 th)).
Proof. exact acheat_rest. Qed.
Print Assumptions C67_rest.

(** Seven modes on 2048 nodes of the circle of radius 3, k = 2, and the
    least-squares solution of these exact data. *)
Example C67_nonvacuous :
  "ihz-line"%string <> "iz-bessel"%string /\ 2 * PI - pizza_a <> 0 /\ (7 <= ab_n_nodes)%nat /\
  (forall m, (m < 7)%nat -> sample_jv ((INR m + 1) * pizza_nu) (2 * 3) <> 0) /\
  (forall th, ze_phi0 th - ze_vz 3 th =
     rsum 7 (fun m => ze_b m * sin ((INR m + 1) * (PI / (2 * PI - pizza_a)) * (th - pizza_a)))) /\
  (forall th, Cminus (RtoC (ze_phi0 th)) (RtoC (ze_vz 3 th)) =
     fourier_bessel sample_jv 2 pizza_nu pizza_a 7 ze_coef 3 th) /\
  (let W := fun i m => ab_W sample_jv 2 3 pizza_a pizza_nu (fun _ => 3) ab_n_nodes 7 i m in
   let y := fun i => Cminus (RtoC (ze_phi0 (ab_th ab_n_nodes i))) (RtoC (ze_vz 3 (ab_th ab_n_nodes i))) in
   least_squares ab_n_nodes 7 W y ze_coef) /\
  full_rank ab_n_nodes 7 (fun i m => RtoC (sample_jv ((INR m + 1) * pizza_nu) (2 * 3) *
                                   sin ((INR m + 1) * pizza_nu * (ab_th ab_n_nodes i - pizza_a)))).
Proof.
  pose proof PI_RGT_0 as Hp.
  assert (H : (7 <= ab_n_nodes)%nat) by (unfold ab_n_nodes; lia).
  split; [discriminate|]. split; [unfold pizza_a; lra|]. split; [exact H|].
  split; [intros; apply sample_jv_nz|]. split; [exact ze_data|]. split; [exact ze_fourier|].
  split; [exact ze_lstsq|]. apply sample_rank. exact H.
Qed.
