(** Examples for the fitted coefficients of the regularisation run (C74). *)
From Coq Require Import String ZArith List Bool Reals Lia Lra.
From Coquelicot Require Import Coquelicot.
From Verif Require Import Lib_Csum Model_Py Model_Multivalue Model_Grid Model_Fourier Model_Linop Model_Abcoef Model_PS Model_Domain Model_Extend
  Model_PolarFD Model_ZMethod Model_Problems Model_ZRun Model_Driver Model_Run Model_Program Model_ZProgram
  Spec_Domain Spec_Grid Spec_PS Spec_Abcoef Spec_ZRun Spec_Run Spec_Program Spec_Curve
  Proof_Domain Proof_Fourier Proof_Abcoef Proof_Lstsq Proof_Place Proof_RunEx Proof_ZRunEx Proof_Program Proof_ZSing Proof_ZProgram Proof_CurveEx Proof_CurveZ.
Import ListNotations.
Open Scope R_scope.

(** The library of the examples with a least-squares solver. *)
Definition fit_lib : library :=
  mk_lib min_zero (lib_chebfit (ex_lib min_zero)) gs_lstsq (lib_enum (ex_lib min_zero)).

Definition arc_zlib : zlibrary := mk_zlib fit_lib sample_jv (fun x => x) (fun _ _ _ _ _ _ => 0) (fun _ _ => 0) lookup2d.

Lemma fit_arc_example : let p := sing_problem (zl_jv arc_zlib) (zl_gamma arc_zlib) IhzLine in
  (exists z, zm_run 1 arc_zlib p Arc false false (Some None) 16 4 = Ok z) /\
  (forall m, (m < 7)%nat -> zl_jv arc_zlib ((INR m + 1) * pizza_nu) (zp_k p * (23 / 10)) <> 0) /\
  (forall n m W x, least_squares n m W x (lib_lstsq (zl_ps arc_zlib) n m W x)).
Proof.
  intros p. destruct program_example as (H1 & H2 & H3 & H4 & _).
  split; [|split; [intros; apply sample_jv_nz|exact gs_least_squares]].
  destruct (z_run arc_zlib IhzLine false false None 16 4 H1 H2 H3 H4 ltac:(right; reflexivity)) as (z & Hz & _).
  exists z. apply Hz.
Qed.

(** Data on the outer sine with coefficients 1, 2, …, 200. *)
Definition ex_phi0 : R -> R := zp_phi0 (sing_problem (fun _ _ => 1) (fun x => x) IhzLine) (boundary_r OuterSine (23 / 10) None (PI / 4)).
Definition ex_modes (th : R) : R := rsum 200 (fun m => (INR m + 1) * (1 * sin ((INR m + 1) * pizza_nu * (th - PI / 4)))).
Definition ex_interp (x y z : list R) (r th : R) : R := if Req_EM_T (hd 0 z) 0 then 0 else ex_phi0 th - ex_modes th.
Definition curve_zlib : zlibrary := mk_zlib fit_lib (fun _ _ => 1) (fun x => x) (fun _ _ _ _ _ _ => 0) (fun _ _ => 1) ex_interp.

Lemma fit_curve_example : let L := curve_zlib in let p := sing_problem (zl_jv L) (zl_gamma L) IhzLine in
  let r := boundary_r OuterSine (23 / 10) None (PI / 4) in
  (forall m, (m < 200)%nat -> zl_jv L ((INR m + 1) * pizza_nu) (zp_k p * (23 / 10)) <> 0) /\
  (forall n m W x, least_squares n m W x (lib_lstsq (zl_ps L) n m W x)) /\
  full_rank ab_n_nodes 200 (fun i m => RtoC (zl_jv L ((INR m + 1) * pizza_nu) (zp_k p * r (ab_th ab_n_nodes i)) *
                                   sin ((INR m + 1) * pizza_nu * (ab_th ab_n_nodes i - PI / 4)))) /\
  exists z, zm_run 1 L p OuterSine false false (Some None) 16 4 = Ok z /\
    forall th, Cminus (RtoC (zp_phi0 p r th)) (zm_v_interp (zl_interp2d L) (zr_fd z) (23 / 10) (bet0 OuterSine) (zr_v z) (r th) th) =
      fourier_bessel (zl_jv L) (zp_k p) pizza_nu (PI / 4) 200 (fun m => RtoC (INR m + 1)) (r th) th.
Proof.
  intros L p r. destruct curve_example as (H1 & H2 & H3 & H4 & H5 & _).
  split; [intros m _; cbn; lra|]. split; [exact gs_least_squares|]. split.
  - assert (Hle : (200 <= ab_n_nodes)%nat) by (unfold ab_n_nodes; lia).
    intros x Hx. apply (arc_full_rank ab_n_nodes 200 (fun _ => 1) Hle ltac:(intros; lra)).
    intros i Hi. rewrite <- (Hx i Hi). apply csum_ext. intros j _. cbn [zl_jv L curve_zlib]. f_equal. f_equal. f_equal.
    unfold sn, ab_th, pizza_nu, pizza_a. f_equal. pose proof PI_RGT_0. pose proof (pos_INR ab_n_nodes). field. lra.
  - destruct (curve_z_run L IhzLine OuterSine false false None 16 4 H1 H2 H3 H4 ltac:(right; reflexivity) H5) as (z & Hz & _).
    exists z. split; [apply Hz|]. intros th.
    destruct (zm_run_inv _ _ _ _ _ _ _ _ _ _ (Hz 0%nat)) as (_ & _ & Efd & Ev & _). rewrite Ev, Efd.
    assert (Ek : exists ms, zm_kept (zfd L p OuterSine (zr_z1 z) 16) (zm_rmin 16 (23 / 10) (bet0 OuterSine)) = 0%Z :: ms).
    { unfold zm_kept. change (pf_N (zfd L p OuterSine (zr_z1 z) 16) + 1)%Z with 17%Z.
      assert (Ep : exists ls, py_range 0 17 = 0%Z :: ls) by (eexists; reflexivity). destruct Ep as (ls & Ep). rewrite Ep. cbn [filter].
      match goal with |- context [negb (Rltb ?a ?b)] => assert (E : Rltb a b = false) end.
      { unfold zm_rmin. cbn [Z.leb Z.compare Pos.compare Pos.compare_cont].
        destruct (Rltb_spec (get_r (zfd L p OuterSine (zr_z1 z) 16) 0) 0) as [F|]; [|reflexivity].
        exfalso. unfold get_r, zfd, zm_z_fd, zm_R0 in F. cbn in F. lra. }
      rewrite E. cbn [negb]. eexists. reflexivity. }
    destruct Ek as (ms & Ek). fold p. unfold zm_v_interp. change (pf_N (zfd L p OuterSine (zr_z1 z) 16)) with 16%Z.
    unfold zm_v_data. cbv zeta. rewrite Ek. cbn [flat_map]. change (pf_N (zfd L p OuterSine (zr_z1 z) 16) + 1)%Z with 17%Z.
    assert (Ep : exists ls, py_range 0 17 = 0%Z :: ls) by (eexists; reflexivity). destruct Ep as (ls & Ep). rewrite Ep.
    cbn [map app zl_interp2d L curve_zlib]. unfold ex_interp. cbn [hd].
    change (fst (zm_v (zl_spsolve L) false (zfd L p OuterSine (zr_z1 z) 16) 0%Z 0%Z)) with 1.
    change (snd (zm_v (zl_spsolve L) false (zfd L p OuterSine (zr_z1 z) 16) 0%Z 0%Z)) with 0.
    destruct (Req_EM_T 1 0) as [F|_]; [lra|]. destruct (Req_EM_T 0 0) as [_|F]; [|lra].
    assert (Es : fourier_bessel (fun _ _ => 1) (zp_k p) pizza_nu (PI / 4) 200 (fun m => RtoC (INR m + 1)) (r th) th = RtoC (ex_modes th)).
    { unfold fourier_bessel, ex_modes. rewrite <- csum_RtoC. apply csum_ext. intros m _. symmetry. apply RtoC_mult. }
    cbn [zl_jv L curve_zlib]. transitivity (RtoC (ex_modes th)); [|symmetry; exact Es].
    change (zp_phi0 p r th) with (ex_phi0 th). apply injective_projections; cbn [fst snd RtoC Cminus Cplus Copp]; ring.
Qed.
