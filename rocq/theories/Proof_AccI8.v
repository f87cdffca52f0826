(** Instances of the accuracy with a source term (C85): smooth-ycos on the outer
    sine. *)
From Coq Require Import ZArith List Bool Reals Lra Lia Psatz.
From Coquelicot Require Import Coquelicot.
From Verif Require Import Model_Py Model_Multivalue Model_Grid Model_Fourier Model_Linop Model_Abcoef Model_PS Model_Domain Model_Chebyshev
  Model_Ext Model_Extend Model_Problems Model_Driver Model_Run Model_Program
  Spec_Grid Spec_Domain Spec_Chebyshev Spec_PS Spec_Ext Spec_Extend Spec_Inhomo Spec_Run Spec_Program Spec_Curve Spec_Bound Spec_Accuracy Spec_ExtTest
  Lib_Csum Lib_Sm Proof_Grid Proof_Domain Proof_Fourier Proof_PS Proof_Ext Proof_Ext2 Proof_Extend Proof_Lstsq Proof_Place Proof_Run Proof_RunEx Proof_Gentle Proof_CurvePlace Proof_Program Proof_CurveRun Proof_CurveEx
  Proof_Bound Proof_BoundEx Proof_TightEx Proof_Acc2 Proof_Acc3 Proof_Acc6 Proof_Acc7 Proof_Acc8 Proof_AccEx Proof_ExtTest Proof_AccI6 Proof_AccI7.
Import ListNotations.
Open Scope R_scope.

Local Notation table_size := Spec_Program.table_size.
Local Notation curve b := (boundary_r b (23 / 10) None (PI / 4)).

Lemma sm_along : forall n m i j D (X Y : R -> R) (pr : C -> R), partials plane m D -> pr = fst \/ pr = snd -> (i + j + n < m)%nat -> sm (S n) X -> sm (S n) Y ->
  sm n (fun t => pr (D i j (X t) (Y t))).
Proof.
  induction n as [|n IH]; intros m i j D X Y pr HD Hpr Hij (X' & HX & SX) (Y' & HY & SY);
    assert (Der : forall t, is_derive (fun t => pr (D i j (X t) (Y t))) t (X' t * pr (D (S i) j (X t) (Y t)) + Y' t * pr (D i (S j) (X t) (Y t)))).
  1,3: intros t; destruct (HD i j (X t) (Y t) ltac:(lia) I) as [A1 A2]; destruct Hpr as [-> | ->]; apply (chain2 (fun u v => _ (D i j u v)) X Y t); auto.
  - intros t. apply (@ex_derive_continuous R_AbsRing R_NormedModule). eexists. apply Der.
  - exists (fun t => X' t * pr (D (S i) j (X t) (Y t)) + Y' t * pr (D i (S j) (X t) (Y t))). split; [exact Der|].
    assert (SX1 : sm (S n) X) by (exists X'; split; [exact HX|apply sm_pred; exact SX]).
    assert (SY1 : sm (S n) Y) by (exists Y'; split; [exact HY|apply sm_pred; exact SY]).
    apply sm_plus; (apply sm_mult; [apply sm_pred; assumption|]); (apply (IH m); [exact HD|exact Hpr|lia|exact SX1|exact SY1]).
Qed.

Lemma traces_sm : forall r D (pr : C -> R) sid, partials plane 6 D -> good_curve r -> (sid < 3)%nat -> pr = fst \/ pr = snd ->
  sm 4 (fun t => pr (value_trace r (PI / 4) D sid t)) /\ sm 4 (fun t => pr (tr1 r D sid t)).
Proof.
  intros r D pr sid HD Hg Hs Hpr.
  assert (SX : sm 5 (fun t => fst (seg_point r (PI / 4) sid t)) /\ sm 5 (fun t => snd (seg_point r (PI / 4) sid t))).
  { destruct sid as [|[|[|sid]]]; [| | |lia]; cbn [seg_point fst snd].
    - split; [apply (g_X r Hg)|apply (g_Y r Hg)].
    - split; [apply sm_id|exact (sm_const 5 0)].
    - split; [apply sm_ext with (fun t => cos (PI / 4) * t)|apply sm_ext with (fun t => sin (PI / 4) * t)]; try (intros t; ring); apply sm_scal, sm_id. }
  assert (SN : sm 4 (fun t => fst (nvec r sid t)) /\ sm 4 (fun t => snd (nvec r sid t))).
  { destruct sid as [|[|[|sid]]]; [apply (g_normal r Hg 4)| | |lia]; cbn [nvec fst snd]; split; apply (sm_const 4 _). }
  destruct SX as [SX SY]. destruct SN as [N1 N2]. split.
  - exact (sm_along 4 6 0 0 D _ _ pr HD Hpr ltac:(lia) SX SY).
  - pose proof (sm_along 4 6 1 0 D _ _ pr HD Hpr ltac:(lia) SX SY) as S1. pose proof (sm_along 4 6 0 1 D _ _ pr HD Hpr ltac:(lia) SX SY) as S2.
    eapply sm_ext; [|apply (sm_plus 4 _ _ (sm_mult 4 _ _ N1 S1) (sm_mult 4 _ _ N2 S2))].
    intros t. unfold tr1. destruct Hpr as [-> | ->]; unfold Cplus, Cmult, RtoC; cbn [fst snd]; ring.
Qed.

Lemma normal_of_near : forall r D sid l t, gentle r -> (sid < 3)%nat -> seg_range (23 / 10) (PI / 4) sid t ->
  CDerive_n (normal_of r D sid) l t = CDerive_n (tr1 r D sid) l t.
Proof.
  intros r D sid l t Hr Hs Ht. pose proof PI_num.
  assert (Hloc : exists lo hi, lo < t < hi /\ forall u, lo < u < hi -> sid = 0%nat -> 0 < r u).
  { destruct sid as [|sid].
    - exists (PI / 8), (2 * PI + PI / 8). cbn [seg_range] in Ht. split; [lra|]. intros u Hu _.
      destruct Hr as (_ & _ & _ & _ & B0 & _). pose proof (B0 u ltac:(lra)). lra.
    - exists (t - 1), (t + 1). split; [lra|]. discriminate. }
  destruct Hloc as (lo & hi & Hlt & Hpos). apply (CDerive_n_ext_loc _ _ lo hi); [|exact Hlt].
  intros u Hu. unfold normal_of. destruct sid as [|sid].
  - destruct (Rltb_spec 0 (r u)) as [_|Hn]; [ring|]. specialize (Hpos u Hu eq_refl). lra.
  - ring.
Qed.

Lemma data_fits : forall b D B c0 c1, partials plane 6 D -> length c0 = length B -> length c1 = length B -> exists eps, 0 <= eps /\
  fits (23 / 10) (PI / 4) B c0 (value_trace (curve b) (PI / 4) D) eps /\ fits (23 / 10) (PI / 4) B c1 (normal_of (curve b) D) eps.
Proof.
  intros b D B c0 c1 HD L0 L1.
  destruct (fits_exists B c0 (value_trace (curve b) (PI / 4) D) L0) as (e0 & P0 & F0).
  { intros sid Hs. exists (value_trace (curve b) (PI / 4) D sid). split; [|reflexivity].
    intros pr Hpr. apply (traces_sm (curve b) D pr sid HD (curves_good b) Hs Hpr). }
  destruct (fits_exists B c1 (normal_of (curve b) D) L1) as (e1 & P1 & F1).
  { intros sid Hs. exists (tr1 (curve b) D sid). split.
    - intros pr Hpr. apply (traces_sm (curve b) D pr sid HD (curves_good b) Hs Hpr).
    - intros l t _ Ht. apply normal_of_near; [apply curves_gentle|exact Hs|exact Ht]. }
  exists (e0 + e1). split; [lra|]. split; [apply F0; lra|apply F1; lra].
Qed.

Lemma fit_contracts : enumerating fit_lib /\ fit_sizes fit_lib /\ brentq_contract (lib_brentq fit_lib) /\
  (forall st c0, lstsq_contract fit_lib st c0).
Proof.
  split; [apply (ex_enumerating min_zero)|]. split; [apply (ex_fit min_zero)|]. split; [exact min_zero_contract|].
  intros st c0 Q1 rhs _. apply gs_least_squares.
Qed.

Lemma size_16 : table_size 16.
Proof. exists 4%Z; split; [lia|reflexivity]. Qed.

(** The run of smooth-ycos on the outer sine, on a grid with 16 cells. *)
Lemma source_run : exists o st res delta eps, let b := OuterSine in let lib := fit_lib in
  let D := smooth_D SmoothYCos in let un := normal_of (curve b) D in
  smooth_options 1 SmoothYCos b 16 4 = Ok o /\ ps_init lib o = Ok st /\ ps_run lib o st = Ok res /\ eig_gap o delta /\
  ctx_wf (st_ctx st) /\ curve_solver (lib_brentq lib) 4 (curve b) (st_ctx st) /\ ec_k (st_ctx st) = 27 / 4 /\ ec_N (st_ctx st) = 16%Z /\
  ec_homogeneous (st_ctx st) = false /\ source_of (ec_src (st_ctx st)) ycos_FC ycos_QC /\ 0 <= eps /\
  fits (23 / 10) (PI / 4) (ec_B (st_ctx st)) (res_c0 res) (value_trace (curve b) (PI / 4) D) eps /\
  fits (23 / 10) (PI / 4) (ec_B (st_ctx st)) (res_c1 res) un eps.
Proof.
  destruct fit_contracts as (Hl & Hf & Hb & _). cbv zeta.
  destruct (curve_smooth_run 0 fit_lib SmoothYCos OuterSine 16 4 Hl Hf Hb size_16 (or_intror eq_refl) (fun _ => outer_off_16)) as (o & st & res & err & E1 & E2 & E3 & _ & E5 & E6).
  pose proof (smooth_ok 0 SmoothYCos OuterSine 16 4 o size_16 (or_intror eq_refl) E1) as Hok.
  destruct (ran_candidate _ o st res Hl Hok E2 Hf E5 E3) as (L0 & L1 & _).
  destruct (gap_exists o (proj1 Hok)) as (delta & Hd); [apply Hok|].
  destruct (smooth_state 0 fit_lib SmoothYCos OuterSine 16 o st Hl Hb size_16 E1 E2) as (Hwf & Hcs & Ek & EN & Eh & Es & _).
  destruct (data_fits OuterSine (smooth_D SmoothYCos) (ec_B (st_ctx st)) (res_c0 res) (res_c1 res) (proj1 (smooth_D_family SmoothYCos)) L0 L1) as (eps & Heps & F0 & F1).
  exists o, st, res, delta, eps. repeat (refine (conj _ _); [assumption|]).
  refine (conj _ (conj Heps (conj F0 F1))). rewrite Es. exact ycos_source_of.
Qed.

Lemma source_example : exists o st res delta eps D F Q un, let b := OuterSine in let lib := fit_lib in
  (forall x y, D 0%nat 0%nat x y = RtoC (y * cos x)) /\ (forall x y, F 0%nat 0%nat x y = RtoC (((27 / 4) ^ 2 - 1) * y * cos x)) /\
  (enumerating lib /\ fit_sizes lib /\ brentq_contract (lib_brentq lib) /\ forall st c0, lstsq_contract lib st c0) /\ table_size 16 /\
  Spec_Curve.off_curve (curve b) 16 /\ solution_family SmoothYCos D /\ normal_trace (curve b) (PI / 4) D un /\
  partials plane 2 F /\ helmholtz plane (27 / 4) D F /\ square_bound D (8 * (27 / 4) ^ 6) /\
  smooth_options 1 SmoothYCos b 16 4 = Ok o /\ ps_init lib o = Ok st /\ ps_run lib o st = Ok res /\ eig_gap o delta /\
  ctx_wf (st_ctx st) /\ curve_solver (lib_brentq lib) 4 (curve b) (st_ctx st) /\ ec_k (st_ctx st) = 27 / 4 /\ ec_N (st_ctx st) = 16%Z /\
  ec_homogeneous (st_ctx st) = false /\ source_of (ec_src (st_ctx st)) F Q /\ 0 <= eps /\
  fits (23 / 10) (PI / 4) (ec_B (st_ctx st)) (res_c0 res) (value_trace (curve b) (PI / 4) D) eps /\
  fits (23 / 10) (PI / 4) (ec_B (st_ctx st)) (res_c1 res) un eps.
Proof.
  destruct source_run as (o & st & res & delta & eps & H).
  exists o, st, res, delta, eps, (smooth_D SmoothYCos), ycos_FC, ycos_QC, (normal_of (curve OuterSine) (smooth_D SmoothYCos)).
  refine (conj (proj2 (smooth_D_family SmoothYCos)) _). refine (conj (fun x y => eq_refl) _). refine (conj fit_contracts _). refine (conj size_16 _).
  refine (conj outer_off_16 _). refine (conj (smooth_D_family SmoothYCos) _). refine (conj (normal_of_trace _ _ (curves_good OuterSine)) _).
  refine (conj ycos_FC_partials _). refine (conj ycos_helmholtz _). refine (conj ycos_bound _). exact H.
Qed.
