(** Concrete cases for C61-C63 and C67. *)
From Coq Require Import String ZArith List Bool Reals Lia Lra.
From Coquelicot Require Import Coquelicot.
From Verif Require Import Model_Py Model_Grid Model_Fourier Model_Domain Model_Abcoef Model_PolarFD
  Model_ZMethod Model_ZRun Lib_Csum Proof_Domain Proof_PolarFD Proof_Abcoef Proof_ZRun
  Spec_Fd Spec_Abcoef Spec_PolarFD Spec_Ode Spec_ZRun.
Import ListNotations.
Open Scope R_scope.

(** ** A z problem that can be solved by hand *)

(** v = r^2 + r sin(th - pi) with g + q = r^2, on 1 < r < 2, pi < th < 2 pi,
    two cells in each direction, k = 1. *)
Definition ze_v (r th : R) : R := r ^ 2 + r * sin (th - PI).
Definition ze_gq (r th : R) : R := r ^ 2.
Definition ze_s : polar_fd :=
  zm_z_fd 2 1 PI 1 1 2 1 [2] ze_v ze_gq (fun r => ze_v r (2 * PI)) (fun r => ze_v r PI).

(** The boundary values, and 0 in the middle. *)
Definition ze_w0 (m l : Z) : R :=
  if (m =? 1)%Z && (l =? 1)%Z then 0 else ze_v (1 + IZR m * (1 / 2)) (PI + IZR l * (PI / 2)).
Definition ze_r (m : Z) : R := 1 + IZR m * (1 / 2).
Definition ze_cs (w : Z -> Z -> R) : R := compact_scheme ze_r (1 / 2) (PI / 2) 1 w 1 1.
(** The coefficient of the middle value. *)
Definition ze_mid : R := -7 + 7 / 6 - 17 / 108 + / (PI / 2) ^ 2 * (- 8 / 9 + 17 / 108 * 8 / 9).
Definition ze_w (m l : Z) : R :=
  if (m =? 1)%Z && (l =? 1)%Z then - ze_cs ze_w0 / ze_mid else ze_w0 m l.
Definition ze_sp (y : pf_system) (i : Z) : R := ze_w (i / 3) (i mod 3).

Lemma ze_mid_neg : ze_mid < 0.
Proof.
  unfold ze_mid. pose proof PI_RGT_0 as H.
  assert (0 < / (PI / 2) ^ 2) by (apply Rinv_0_lt_compat, pow_lt; lra). lra.
Qed.

Lemma ze_scheme : ze_cs ze_w = 0.
Proof.
  pose proof ze_mid_neg as Hm. pose proof PI_RGT_0 as Hp.
  set (c := - ze_cs ze_w0 / ze_mid).
  assert (E : ze_cs ze_w = ze_cs ze_w0 + ze_mid * c).
  { unfold ze_cs, compact_scheme, op_dr, op_drr, op_radial, op_angular, op_dthth, ze_r.
    cbn [Z.add Z.sub Z.opp Pos.add Z.pos_sub Pos.pred_double].
    unfold ze_w. cbn [Z.eqb Pos.eqb andb].
    change (ze_w0 1%Z 1%Z) with 0. fold c.
    set (w00 := ze_w0 0%Z 0%Z). set (w01 := ze_w0 0%Z 1%Z). set (w02 := ze_w0 0%Z 2%Z).
    set (w10 := ze_w0 1%Z 0%Z). set (w12 := ze_w0 1%Z 2%Z).
    set (w20 := ze_w0 2%Z 0%Z). set (w21 := ze_w0 2%Z 1%Z). set (w22 := ze_w0 2%Z 2%Z).
    unfold ze_mid. clearbody c w00 w01 w02 w10 w12 w20 w21 w22.
    field. lra. }
  rewrite E. unfold c. field. lra.
Qed.

Lemma ze_index : forall m l, (0 <= l <= 2)%Z -> ze_sp (assemble ze_s) (m * 3 + l) = ze_w m l.
Proof.
  intros m l Hl. unfold ze_sp. f_equal.
  - rewrite Z.div_add_l by lia. rewrite Z.div_small by lia. ring.
  - rewrite Z.add_comm, Z.mod_add by lia. apply Z.mod_small. lia.
Qed.

Lemma ze_solves : solves (assemble ze_s) (ze_sp (assemble ze_s)).
Proof.
  pose proof PI_RGT_0 as Hp.
  pose proof (z_system ze_sp 2 1 PI 1 1 2 1 [2] ze_v ze_gq (fun r => ze_v r (2 * PI)) (fun r => ze_v r PI)
    ltac:(lia) ltac:(lra) ltac:(lra)) as E. cbv zeta in E.
  change (zm_z_fd 2 1 PI 1 1 2 1 [2] ze_v ze_gq (fun r => ze_v r (2 * PI)) (fun r => ze_v r PI))
    with ze_s in E.
  assert (EV : forall m l, (0 <= l <= 2)%Z -> zm_v ze_sp false ze_s m l = RtoC (ze_w m l)).
  { intros m l Hl. unfold zm_v, get_index. change (pf_N ze_s) with 2%Z.
    rewrite <- (ze_index m l Hl). reflexivity. }
  assert (EB : forall m l, (m =? 1)%Z && (l =? 1)%Z = false ->
    ze_w m l = ze_v (1 + IZR m * (1 / 2)) (PI + IZR l * (PI / 2))).
  { intros m l H. unfold ze_w. rewrite H. unfold ze_w0. rewrite H. reflexivity. }
  apply E. split; [|split].
  - intros m Hm. rewrite !EV by lia. rewrite !EB by (rewrite andb_false_iff; right; reflexivity).
    split; do 2 f_equal; try lra; simpl; lra.
  - intros l Hl. rewrite !EV by lia. rewrite !EB by reflexivity.
    assert (l = 1%Z) by lia. subst l. split; [do 2 f_equal; simpl; lra|].
    f_equal. unfold ze_v, ze_gq, sine_series. cbn [rsum nth]. simpl INR.
    replace (1 + 2 * (1 / 2)) with 2 by lra.
    replace (PI + 1 * (PI / 2) - PI) with (PI / 2) by lra.
    replace ((0 + 1) * 1 * (PI + 1 * ((2 * PI - PI) / 2) - PI)) with (PI / 2) by lra. ring.
  - intros m l Hm Hl. assert (m = 1%Z) by lia. assert (l = 1%Z) by lia. subst m l.
    rewrite <- ze_scheme. unfold ze_cs, compact_scheme, op_dr, op_drr, op_radial, op_angular, op_dthth, ze_r.
    cbn [Z.add Z.sub Z.opp Pos.add Z.pos_sub Pos.pred_double].
    rewrite !EV by lia. cbn [RtoC fst].
    replace ((2 - 1) / 2) with (1 / 2) by lra. replace ((2 * PI - PI) / 2) with (PI / 2) by lra. reflexivity.
Qed.

(** ** A table lookup that interpolates *)

Fixpoint ix_of (x : R) (l : list R) (i : nat) : nat :=
  match l with [] => i | y :: l' => if Reqb y x then i else ix_of x l' (S i) end.

Definition lookup2d (x y z : list R) (u v : R) : R := nth (ix_of u x 0 * length y + ix_of v y 0) z 0.

Lemma ix_of_nth : forall l s i x, nth_error l i = Some x -> (forall j y, (j < i)%nat -> nth_error l j = Some y -> y <> x) ->
  ix_of x l s = (s + i)%nat.
Proof.
  induction l as [|y l IH]; intros s i x Hi Hn; [destruct i; discriminate|]. cbn [ix_of].
  destruct (Reqb_spec y x) as [E|N].
  - destruct i as [|i]; [lia|]. exfalso. apply (Hn 0%nat y); [lia|reflexivity|exact E].
  - destruct i as [|i]; [injection Hi as ->; contradiction|].
    rewrite (IH (S s) i x Hi); [lia|]. intros j z Hj Hz. apply (Hn (S j) z); [lia|exact Hz].
Qed.

Lemma ix_of_increasing : forall l i x, increasing l -> nth_error l i = Some x -> ix_of x l 0 = i.
Proof.
  intros l i x Hl Hi. rewrite (ix_of_nth l 0 i x Hi); [reflexivity|].
  intros j y Hj Hy. pose proof (Hl j i y x Hj Hy Hi). lra.
Qed.

Lemma lookup2d_ok : interp2d_ok lookup2d.
Proof.
  intros x y z Hx Hy Lx Ly Lz i j xi yj zij Hi Hj Hz. unfold lookup2d.
  rewrite (ix_of_increasing x i xi Hx Hi), (ix_of_increasing y j yj Hy Hj).
  apply nth_error_nth. exact Hz.
Qed.

(** A grid of the program: N = 128, R = 2.3, bet = 0.15. *)
Definition ze_big : polar_fd :=
  zm_z_fd 128 1 (PI / 4) (4 / 7) (/ 10) (zm_arc_R (23 / 10) (15 / 100)) 7 [] ze_v ze_gq
    (fun _ => 0) (fun _ => 0).
Lemma ze_big_ok : pf_ok ze_big.
Proof.
  pose proof PI_RGT_0. split; [cbn; lia|]. unfold ze_big, zm_arc_R. cbn [pf_R0 pf_R1 pf_a zm_z_fd].
  split; lra.
Qed.

(** ** The reported error of v can miss a wrong v *)

(** The eighth mode, in place of 0, on sixteen cells. *)
Definition ze_16 : polar_fd :=
  zm_z_fd 16 1 (PI / 4) (4 / 7) (/ 10) 2 7 [] ze_v ze_gq (fun _ => 0) (fun _ => 0).
Definition ze_eight (r th : R) : R := sin (8 * (PI / (2 * PI - PI / 4)) * (th - PI / 4)).

Lemma error_blind : pf_ok ze_16 /\ zm_v_error ze_16 ze_eight (fun _ _ => RtoC 0) 7 = Ok 0 /\
  RtoC (ze_eight (get_r ze_16 1) (get_th ze_16 1)) <> RtoC 0.
Proof.
  pose proof PI_RGT_0 as Hp.
  assert (Hok : pf_ok ze_16) by (split; [cbn; lia|cbn; split; lra]).
  split; [exact Hok|]. split.
  - apply (v_error_max ze_16 ze_eight (fun _ _ => RtoC 0) 7
      (fun m j => if Nat.eqb j 7 then RtoC 1 else RtoC 0) 0 Hok); [cbn; lia|lia| |].
    + intros m l Hm Hl. change (pf_N ze_16) with 16%Z. change (pf_a ze_16) with (PI / 4).
      change (Z.to_nat (16 - 1)) with 15%nat. cbn [csum Nat.eqb].
      unfold ze_eight. replace (INR 7 + 1) with 8 by (simpl; lra). ring.
    + split.
      * exists (1%Z, 0%nat). cbn [fst snd Nat.eqb]. split; [change (pf_N ze_16) with 16%Z; lia|]. apply Cmod_0.
      * intros [m j] [_ [Hj _]]. cbn [fst snd] in *. destruct (Nat.eqb_spec j 7); [lia|].
        rewrite Cmod_0. lra.
  - intros H. apply RtoC_inj in H. unfold ze_eight, get_th, pf_hth in H.
    change (pf_N ze_16) with 16%Z in H. change (pf_a ze_16) with (PI / 4) in H.
    replace (8 * (PI / (2 * PI - PI / 4)) * (PI / 4 + 1 * ((2 * PI - PI / 4) / 16) - PI / 4))
      with (PI / 2) in H by (field; lra).
    rewrite sin_PI2 in H. lra.
Qed.

(** ** Coefficients *)

(** Real data with seven modes, on the arc of radius 3, k = 2. *)
Definition ze_b (m : nat) : R := INR m + 1.
Definition ze_vz (r th : R) : R := r * th.
Definition ze_phi0 (th : R) : R := ze_vz 3 th + rsum 7 (fun m =>
  ze_b m * sin ((INR m + 1) * (PI / (2 * PI - pizza_a)) * (th - pizza_a))).
Definition ze_coef (m : nat) : C := RtoC (ze_b m / sample_jv ((INR m + 1) * pizza_nu) (2 * 3)).

Lemma ze_data : forall th, ze_phi0 th - ze_vz 3 th = rsum 7 (fun m => ze_b m *
   sin ((INR m + 1) * (PI / (2 * PI - pizza_a)) * (th - pizza_a))).
Proof. intros th. unfold ze_phi0. ring. Qed.

Lemma ze_fourier : forall th, Cminus (RtoC (ze_phi0 th)) (RtoC (ze_vz 3 th)) =
  fourier_bessel sample_jv 2 pizza_nu pizza_a 7 ze_coef 3 th.
Proof.
  intros th. rewrite <- RtoC_minus, ze_data, <- csum_RtoC. apply csum_ext. intros m Hm.
  fold pizza_nu. unfold ze_coef. rewrite <- RtoC_mult. f_equal. field. apply sample_jv_nz.
Qed.

Lemma ze_lstsq : let W := fun i m => ab_W sample_jv 2 3 pizza_a pizza_nu (fun _ => 3) ab_n_nodes 7 i m in
  let y := fun i => Cminus (RtoC (ze_phi0 (ab_th ab_n_nodes i))) (RtoC (ze_vz 3 (ab_th ab_n_nodes i))) in
  least_squares ab_n_nodes 7 W y ze_coef.
Proof.
  intros W y. apply zero_error. intros i Hi. unfold y. rewrite ze_fourier. unfold fourier_bessel, mat_app.
  apply csum_ext. intros j Hj. unfold W, ab_W.
  replace (Nat.leb 7 j) with false by (symmetry; apply Nat.leb_gt; exact Hj).
  unfold ab_W0. ring.
Qed.
