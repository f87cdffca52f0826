(** An instance of the accuracy of the runs (C82): sin (k x) on the five curves. *)
From Coq Require Import ZArith List Bool Reals Lra Lia Psatz.
From Coquelicot Require Import Coquelicot.
From Verif Require Import Model_Py Model_Multivalue Model_Grid Model_Fourier Model_Linop Model_Abcoef Model_PS Model_Domain Model_Chebyshev
  Model_Ext Model_Extend Model_Problems Model_Driver Model_Run Model_Program
  Spec_Chebyshev Spec_Domain Spec_Abcoef Spec_Grid Spec_PS Spec_Ext Spec_Extend Spec_Run Spec_Program Spec_Curve Spec_Bound Spec_Accuracy
  Lib_Csum Lib_Sm Proof_Grid Proof_Domain Proof_Place Proof_Boundary Proof_Fourier Proof_PS Proof_Ext Proof_Ext2 Proof_Extend Proof_Smooth Proof_Run Proof_RunEx Proof_Gentle Proof_CurvePlace Proof_Program Proof_CurveRun Proof_Source
  Proof_Bound Proof_BoundEx Proof_Acc2 Proof_Acc3 Proof_Acc6 Proof_Acc7 Proof_Acc8.
Import ListNotations.
Open Scope R_scope.

Local Notation table_size := Spec_Program.table_size.
Local Notation curve b := (boundary_r b (23 / 10) None (PI / 4)).

(** ** Some bound of the distance of two smooth functions *)

Lemma sm_chebT : forall n J g, sm n g -> sm n (fun t => chebT J (g t)) /\ sm n (fun t => snd (chebT_pair J (g t))).
Proof.
  intros n J g Hg. unfold chebT. induction J as [|J [I1 I2]].
  - cbn [chebT_pair fst snd]. split; [apply sm_const|exact Hg].
  - split.
    + eapply sm_ext; [|exact I2]. intros t. cbn [chebT_pair]. destruct (chebT_pair J (g t)). reflexivity.
    + apply sm_ext with (fun t => 2 * g t * snd (chebT_pair J (g t)) - fst (chebT_pair J (g t))).
      { intros t. cbn [chebT_pair]. destruct (chebT_pair J (g t)). reflexivity. }
      apply sm_minus; [|exact I1]. apply sm_mult; [apply sm_scal; exact Hg|exact I2].
Qed.

Lemma sm_csum : forall n (pr : C -> R) m (f : R -> nat -> C), pr = fst \/ pr = snd -> (forall i, sm n (fun t => pr (f t i))) -> sm n (fun t => pr (csum m (f t))).
Proof.
  intros n pr m f Hpr H. induction m as [|m IH].
  - apply sm_ext with (fun _ => 0); [intros t; destruct Hpr as [-> | ->]; reflexivity|apply sm_const].
  - apply sm_ext with (fun t => pr (csum m (f t)) + pr (f t m)); [intros t; cbn [csum]; destruct Hpr as [-> | ->]; reflexivity|].
    apply sm_plus; [exact IH|apply H].
Qed.

Lemma sm_seg_function : forall n (pr : C -> R) g B cs sid, pr = fst \/ pr = snd -> sm n g -> sm n (fun t => pr (seg_function g B cs sid t)).
Proof.
  intros n pr g B cs sid Hpr Hg. unfold seg_function. apply (sm_csum n pr (length B) (fun t JJ => _) Hpr). intros JJ. cbv beta.
  destruct (nth_error B JJ) as [[s J]|]; [|apply sm_const]. destruct (Nat.eqb s sid); [|apply sm_const].
  apply sm_ext with (fun t => pr (nth JJ cs (RtoC 0)) * chebT J (g t)).
  { intros t. destruct Hpr as [-> | ->]; unfold Cmult, RtoC; cbn [fst snd]; ring. }
  apply sm_scal. apply (sm_chebT n J g Hg).
Qed.

Lemma sm_g_inv : forall n R0 a sid, sm n (eval_g_inv R0 a sid).
Proof.
  intros n R0 a sid. unfold eval_g_inv. destruct (get_span_center R0 a sid) as [span center].
  apply sm_ext with (fun t => / span * t + - (center / span)); [intros t; unfold Rdiv; ring|].
  apply sm_plus; [apply sm_scal, sm_id|apply sm_const].
Qed.

Lemma sm_diff_bounded : forall (f g : R -> C) lo hi, (forall pr : C -> R, pr = fst \/ pr = snd -> sm 4 (fun t => pr (f t)) /\ sm 4 (fun t => pr (g t))) ->
  exists B, 0 <= B /\ forall l t, (l <= 4)%nat -> lo <= t <= hi -> Cmod (Cminus (CDerive_n f l t) (CDerive_n g l t)) <= B.
Proof.
  intros f g lo hi H.
  assert (One : forall q, sm 4 q -> exists B, 0 <= B /\ forall l t, (l <= 4)%nat -> lo <= t <= hi -> Rabs (Derive_n q l t) <= B).
  { intros q Hq.
    assert (Q : forall n, (n <= 4)%nat -> exists B, 0 <= B /\ forall l t, (l <= n)%nat -> lo <= t <= hi -> Rabs (Derive_n q l t) <= B).
    { induction n as [|n IH]; intros Hn.
      - destruct (sm_bounded 4 q lo hi Hq) as (B & HB & Hb). exists B. split; [exact HB|]. intros l t Hl Ht. replace l with 0%nat by lia. apply Hb, Ht.
      - destruct (IH ltac:(lia)) as (B & HB & Hb).
        destruct (sm_bounded (4 - S n) (Derive_n q (S n)) lo hi) as (B' & HB' & Hb').
        { apply sm_Derive_n. replace (S n + (4 - S n))%nat with 4%nat by lia. exact Hq. }
        exists (B + B'). split; [lra|]. intros l t Hl Ht. destruct (Nat.eq_dec l (S n)) as [->|Hne].
        + specialize (Hb' t Ht). lra.
        + assert (Rabs (Derive_n q l t) <= B) by (apply Hb; [lia|exact Ht]). lra. }
    apply (Q 4%nat (le_n 4)). }
  destruct (H fst (or_introl eq_refl)) as [f1 g1]. destruct (H snd (or_intror eq_refl)) as [f2 g2].
  destruct (One _ f1) as (B1 & P1 & Q1). destruct (One _ f2) as (B2 & P2 & Q2). destruct (One _ g1) as (B3 & P3 & Q3). destruct (One _ g2) as (B4 & P4 & Q4).
  exists (2 * (B1 + B2 + B3 + B4)). split; [lra|]. intros l t Hl Ht.
  specialize (Q1 l t Hl Ht). specialize (Q2 l t Hl Ht). specialize (Q3 l t Hl Ht). specialize (Q4 l t Hl Ht).
  apply Cmod_comp; unfold CDerive_n, Cminus, Cplus, Copp; cbn [fst snd].
  - eapply Rle_trans; [apply Rabs_triang|]. rewrite Rabs_Ropp. lra.
  - eapply Rle_trans; [apply Rabs_triang|]. rewrite Rabs_Ropp. lra.
Qed.

Lemma fits_exists : forall B cs w, length cs = length B ->
  (forall sid, (sid < 3)%nat -> exists g, (forall pr : C -> R, pr = fst \/ pr = snd -> sm 4 (fun t => pr (g t))) /\
     forall l t, (l <= 4)%nat -> seg_range (23 / 10) (PI / 4) sid t -> CDerive_n (w sid) l t = CDerive_n g l t) ->
  exists eps0, 0 <= eps0 /\ forall eps, eps0 <= eps -> fits (23 / 10) (PI / 4) B cs w eps.
Proof.
  intros B cs w HL Hw. pose proof PI_num as HP.
  assert (One : forall sid, (sid < 3)%nat -> exists b, 0 <= b /\ forall l t, (l <= 4)%nat -> seg_range (23 / 10) (PI / 4) sid t ->
    Cmod (Cminus (CDerive_n (seg_function (eval_g_inv (23 / 10) (PI / 4) sid) B cs sid) l t) (CDerive_n (w sid) l t)) <= b).
  { intros sid Hs. destruct (Hw sid Hs) as (g & Hg & Eg).
    destruct (sm_diff_bounded (seg_function (eval_g_inv (23 / 10) (PI / 4) sid) B cs sid) g 0 (2 * PI)) as (b & Hb & Q).
    { intros pr Hpr. split; [apply sm_seg_function; [exact Hpr|apply sm_g_inv]|apply Hg, Hpr]. }
    exists b. split; [exact Hb|]. intros l t Hl Ht. rewrite (Eg l t Hl Ht). apply Q; [exact Hl|]. destruct sid; cbn [seg_range] in Ht; lra. }
  destruct (One 0%nat ltac:(lia)) as (b0 & H0 & Q0). destruct (One 1%nat ltac:(lia)) as (b1 & H1 & Q1). destruct (One 2%nat ltac:(lia)) as (b2 & H2 & Q2).
  exists (b0 + b1 + b2). split; [lra|]. intros eps He. split; [exact HL|]. intros sid l t Hs Hl Ht.
  destruct sid as [|[|[|sid]]]; [specialize (Q0 l t Hl Ht)|specialize (Q1 l t Hl Ht)|specialize (Q2 l t Hl Ht)|lia]; lra.
Qed.

(** ** The function sin (k x) *)

Definition sine_D (k : R) : nat -> nat -> R -> R -> C := sep [((1, 0), sinf k, mono 0)].

Lemma sine_partials : forall k O m, partials O m (sine_D k).
Proof. intros k. apply sep_partials. intros c f g [H|[]]. injection H as <- <- <-. split; [apply sinf_fam|apply mono_fam]. Qed.

Lemma sine_value : forall k x y, sine_D k 0%nat 0%nat x y = RtoC (sin (k * x)).
Proof.
  intros k x y. unfold sine_D, sinf, mono. cbn [sep mono_ce fst snd pow INR].
  apply injective_projections; unfold Cplus, RtoC; cbn [fst snd]; [|ring]. replace (k * x + 0 * (PI / 2)) with (k * x) by ring. ring.
Qed.

Lemma sine_dx : forall k x y, sine_D k 1%nat 0%nat x y = RtoC (k * cos (k * x)).
Proof.
  intros k x y. unfold sine_D, sinf, mono. cbn [sep mono_ce fst snd pow INR].
  replace (k * x + 1 * (PI / 2)) with (PI / 2 + k * x) by ring. rewrite <- cos_sin.
  apply injective_projections; unfold Cplus, RtoC; cbn [fst snd]; ring.
Qed.

Lemma sine_dy : forall k i j x y, sine_D k i (S j) x y = RtoC 0.
Proof.
  intros k i j x y. unfold sine_D. cbn [sep].
  assert (E : mono 0 (S j) y = 0).
  { unfold mono. assert (Q : fst (mono_ce 0 (S j)) = 0 /\ snd (mono_ce 0 (S j)) = 0%nat).
    { induction j as [|j [I1 I2]]; [cbn [mono_ce fst snd INR]; split; [ring|reflexivity]|].
      cbn [mono_ce] in *. destruct (mono_ce 0 j) as [c e]. cbn [fst snd] in *. rewrite I1, I2. cbn [INR pred]. split; [ring|reflexivity]. }
    destruct Q as [-> ->]. ring. }
  rewrite E. apply injective_projections; unfold Cplus, RtoC; cbn [fst snd]; ring.
Qed.

Lemma sine_helmholtz : forall k O, helmholtz O k (sine_D k) (fun _ _ _ _ => RtoC 0).
Proof.
  intros k O x y _. rewrite sine_dy, sine_value. unfold sine_D, sinf, mono. cbn [sep mono_ce fst snd pow INR].
  replace (k * x + (1 + 1) * (PI / 2)) with (k * x + PI) by field. rewrite neg_sin.
  apply injective_projections; unfold Cplus, Cmult, RtoC; cbn [fst snd]; ring.
Qed.

Lemma sine_bound : forall k, 1 <= k -> square_bound (sine_D k) (k ^ 6).
Proof.
  intros k Hk. split; [apply pow_le; lra|]. intros i j x y Hij _ _.
  assert (Hp : 0 <= k ^ 6) by (apply pow_le; lra).
  destruct j as [|j]; [|rewrite sine_dy, Cmod_0; exact Hp].
  assert (E : sine_D k i 0 x y = RtoC (k ^ i * sin (k * x + INR i * (PI / 2)))).
  { unfold sine_D, sinf, mono. cbn [sep mono_ce fst snd pow]. apply injective_projections; unfold Cplus, RtoC; cbn [fst snd]; ring. }
  rewrite E, Cmod_R, Rabs_mult. rewrite (Rabs_pos_eq (k ^ i)) by (apply pow_le; lra).
  assert (k ^ i <= k ^ 6) by (apply Rle_pow; [exact Hk|lia]).
  assert (Rabs (sin (k * x + INR i * (PI / 2))) <= 1) by (apply Rabs_le; apply SIN_bound).
  assert (0 <= k ^ i) by (apply pow_le; lra).
  replace (k ^ 6) with (k ^ 6 * 1) by ring. apply Rmult_le_compat; try assumption; apply Rabs_pos.
Qed.

(** Normal derivatives on the three pieces. *)
Definition normal_of (r : R -> R) (D : nat -> nat -> R -> R -> C) (sid : nat) (t : R) : C :=
  Cmult (RtoC (match sid with O => if Rltb 0 (r t) then 1 else -1 | _ => 1 end)) (tr1 r D sid t).
Definition sine_un (r : R -> R) (k : R) : nat -> R -> C := normal_of r (sine_D k).

Lemma normal_of_trace : forall r D, good_curve r -> normal_trace r (PI / 4) D (normal_of r D).
Proof.
  intros r D Hg sid t nv Hs Hn b. unfold normal_of, tr1. subst b. set (b := seg_point r (PI / 4) sid t).
  set (d1 := D 1%nat 0%nat (fst b) (snd b)). set (d2 := D 0%nat 1%nat (fst b) (snd b)).
  destruct sid as [|[|[|sid]]]; [|cbn [is_normal nvec] in *; subst nv; ring|cbn [is_normal nvec] in *; subst nv; ring|lia].
  cbn [is_normal nvec] in *. destruct nv as [p q]. cbn [fst snd] in *. destruct Hn as (U & O & Out).
  assert (Ex : forall t, ex_derive r t) by (intros u; pose proof (proj1 Hg 1%nat) as (f & Hf & _); eexists; apply Hf).
  destruct (eval_tangent r t) as [tx ty] eqn:Et. destruct (eval_normal r t) as [nx ny] eqn:En. cbn [fst snd].
  destruct (frame_spec r t tx ty nx ny Ex (g_pos r Hg t) Et En) as ((U1 & U2 & O1 & O2) & (v & Pv & Dx & Dy) & Out').
  assert (Ex1 : Derive (fun t => r t * cos t) t = v * tx) by (apply is_derive_unique; exact Dx).
  assert (Ey1 : Derive (fun t => r t * sin t) t = v * ty) by (apply is_derive_unique; exact Dy).
  pose proof (Derive_correct r t (Ex t)) as Dr.
  assert (Fx : v * tx = Derive r t * cos t - r t * sin t).
  { rewrite <- Ex1. apply is_derive_unique. eapply is_derive_eq; [apply (der_mult r cos t _ _ Dr (is_derive_cos t))|ring]. }
  assert (Fy : v * ty = Derive r t * sin t + r t * cos t).
  { rewrite <- Ey1. apply is_derive_unique. eapply is_derive_eq; [apply (der_mult r sin t _ _ Dr (is_derive_sin t))|ring]. }
  rewrite Ex1, Ey1 in O. assert (O' : p * tx + q * ty = 0) by (apply (Rmult_eq_reg_l v); [lra|lra]).
  assert (Nx : nx = ty).
  { transitivity (nx * (tx ^ 2 + ty ^ 2)); [rewrite U1; ring|]. transitivity (ty * (nx * ty - ny * tx) + tx * (tx * nx + ty * ny)); [ring|]. rewrite O2, O1. ring. }
  assert (Ny : ny = - tx).
  { transitivity (ny * (tx ^ 2 + ty ^ 2)); [rewrite U1; ring|]. transitivity (- tx * (nx * ty - ny * tx) + ty * (tx * nx + ty * ny)); [ring|]. rewrite O2, O1. ring. }
  set (s := p * nx + q * ny).
  assert (Pp : p = s * nx).
  { transitivity (p * (tx ^ 2 + ty ^ 2)); [rewrite U1; ring|]. transitivity (s * nx + tx * (p * tx + q * ty)); [unfold s; rewrite Nx, Ny; ring|]. rewrite O'. ring. }
  assert (Pq : q = s * ny).
  { transitivity (q * (tx ^ 2 + ty ^ 2)); [rewrite U1; ring|]. transitivity (s * ny + ty * (p * tx + q * ty)); [unfold s; rewrite Nx, Ny; ring|]. rewrite O'. ring. }
  assert (S2 : s ^ 2 = 1).
  { rewrite <- U, Pp, Pq. transitivity (s ^ 2 * (nx ^ 2 + ny ^ 2)); [rewrite U2; ring|ring]. }
  assert (Sr : 0 < s * r t).
  { assert (E : v * (p * cos t + q * sin t) = s * r t).
    { rewrite Pp, Pq, Nx, Ny. transitivity (s * ((v * ty) * cos t - (v * tx) * sin t)); [ring|]. rewrite Fx, Fy.
      transitivity (s * r t * (cos t ^ 2 + sin t ^ 2)); [ring|]. rewrite <- !Rsqr_pow2, (Rplus_comm (Rsqr (cos t))), sin2_cos2. ring. }
    rewrite <- E. apply Rmult_lt_0_compat; assumption. }
  assert (Hs1 : s = if Rltb 0 (r t) then 1 else -1).
  { assert (Z : (s - 1) * (s + 1) = 0) by (transitivity (s ^ 2 - 1); [ring|lra]). apply Rmult_integral in Z.
    destruct (Rltb_spec 0 (r t)); destruct Z; try lra; exfalso; assert (Es : s = 1 \/ s = -1) by lra; destruct Es as [Es|Es]; rewrite Es in *; lra. }
  rewrite <- Hs1, Pp, Pq. rewrite !RtoC_mult. ring.
Qed.

Lemma sine_normal : forall r k, good_curve r -> normal_trace r (PI / 4) (sine_D k) (sine_un r k).
Proof. intros r k. apply normal_of_trace. Qed.

Lemma sine_traces : forall r k n (pr : C -> R) sid, good_curve r -> (sid < 3)%nat -> pr = fst \/ pr = snd ->
  sm n (fun t => pr (value_trace r (PI / 4) (sine_D k) sid t)) /\ sm n (fun t => pr (tr1 r (sine_D k) sid t)).
Proof.
  intros r k n pr sid Hg Hs Hpr.
  assert (SX : sm n (fun t => fst (seg_point r (PI / 4) sid t))).
  { destruct sid as [|[|[|sid]]]; [apply (g_X r Hg)|apply sm_id|apply sm_ext with (fun t => cos (PI / 4) * t); [intros t; cbn [seg_point fst]; ring|apply sm_scal, sm_id]|lia]. }
  assert (SN : sm n (fun t => fst (nvec r sid t))).
  { destruct sid as [|[|[|sid]]]; [apply (g_normal r Hg n)|exact (sm_const n 0)|exact (sm_const n (sin (PI / 4)))|lia]. }
  destruct (sm_sincos n (fun t => k * fst (seg_point r (PI / 4) sid t)) (sm_scal n k _ SX)) as [S1 S2].
  split; destruct Hpr as [-> | ->].
  - eapply sm_ext; [|exact S1]. intros t. unfold value_trace. rewrite sine_value. reflexivity.
  - apply sm_ext with (fun _ => 0); [|apply sm_const]. intros t. unfold value_trace. rewrite sine_value. reflexivity.
  - apply sm_ext with (fun t => fst (nvec r sid t) * (k * cos (k * fst (seg_point r (PI / 4) sid t)))).
    + intros t. unfold tr1. rewrite sine_dx, sine_dy. unfold Cplus, Cmult, RtoC. cbn [fst snd]. ring.
    + apply sm_mult; [exact SN|apply sm_scal; exact S2].
  - apply sm_ext with (fun _ => 0); [|apply sm_const]. intros t. unfold tr1. rewrite sine_dx, sine_dy. unfold Cplus, Cmult, RtoC. cbn [fst snd]. ring.
Qed.

Lemma sine_un_near : forall r k sid l t, gentle r -> (sid < 3)%nat -> seg_range (23 / 10) (PI / 4) sid t ->
  CDerive_n (sine_un r k sid) l t = CDerive_n (tr1 r (sine_D k) sid) l t.
Proof.
  intros r k sid l t Hr Hs Ht. pose proof PI_num.
  assert (Hloc : exists lo hi, lo < t < hi /\ forall u, lo < u < hi -> sid = 0%nat -> 0 < r u).
  { destruct sid as [|sid].
    - exists (PI / 8), (2 * PI + PI / 8). cbn [seg_range] in Ht. split; [lra|]. intros u Hu _.
      destruct Hr as (_ & _ & _ & _ & B0 & _). pose proof (B0 u ltac:(lra)). lra.
    - exists (t - 1), (t + 1). split; [lra|]. discriminate. }
  destruct Hloc as (lo & hi & Hlt & Hpos). apply (CDerive_n_ext_loc _ _ lo hi); [|exact Hlt].
  intros u Hu. unfold sine_un, normal_of. destruct sid as [|sid].
  - destruct (Rltb_spec 0 (r u)) as [_|Hn]; [ring|]. specialize (Hpos u Hu eq_refl). lra.
  - ring.
Qed.

Lemma sine_fits : forall b k B c0 c1, length c0 = length B -> length c1 = length B -> exists eps, 0 <= eps /\
  fits (23 / 10) (PI / 4) B c0 (value_trace (curve b) (PI / 4) (sine_D k)) eps /\ fits (23 / 10) (PI / 4) B c1 (sine_un (curve b) k) eps.
Proof.
  intros b k B c0 c1 L0 L1.
  destruct (fits_exists B c0 (value_trace (curve b) (PI / 4) (sine_D k)) L0) as (e0 & P0 & F0).
  { intros sid Hs. exists (value_trace (curve b) (PI / 4) (sine_D k) sid). split; [|reflexivity].
    intros pr Hpr. apply (sine_traces (curve b) k 4 pr sid (curves_good b) Hs Hpr). }
  destruct (fits_exists B c1 (sine_un (curve b) k) L1) as (e1 & P1 & F1).
  { intros sid Hs. exists (tr1 (curve b) (sine_D k) sid). split.
    - intros pr Hpr. apply (sine_traces (curve b) k 4 pr sid (curves_good b) Hs Hpr).
    - intros l t _ Ht. apply sine_un_near; [apply curves_gentle|exact Hs|exact Ht]. }
  exists (e0 + e1). split; [lra|]. split; [apply F0; lra|apply F1; lra].
Qed.

(** The runs of the problem on the five curves, on a grid with 16 cells. *)
Lemma sine_run : forall b, exists o st res e delta eps, let lib := ex_lib min_zero in let k := 27 / 4 in
  enumerating lib /\ brentq_contract (lib_brentq lib) /\ options_ok o /\
  o_r o = curve b /\ o_R o = 23 / 10 /\ o_a o = PI / 4 /\ o_AD o = 2 * PI /\ (16 <= o_N o)%Z /\ o_order o = 4%Z /\ o_k o = k /\
  o_homogeneous o = true /\ (forall x y, s_f (o_src o) x y = RtoC 0) /\
  ps_init lib o = Ok st /\ ps_run lib o st = Ok res /\ ctx_wf (st_ctx st) /\ curve_solver (lib_brentq lib) 4 (curve b) (st_ctx st) /\ ec_k (st_ctx st) = k /\ ec_homogeneous (st_ctx st) = true /\
  eig_gap o delta /\
  partials plane 6 (sine_D k) /\ helmholtz plane k (sine_D k) (fun _ _ _ _ => RtoC 0) /\ square_bound (sine_D k) (k ^ 6) /\
  normal_trace (curve b) (PI / 4) (sine_D k) (sine_un (curve b) k) /\ 0 <= eps /\
  fits (23 / 10) (PI / 4) (ec_B (st_ctx st)) (res_c0 res) (value_trace (curve b) (PI / 4) (sine_D k)) eps /\
  fits (23 / 10) (PI / 4) (ec_B (st_ctx st)) (res_c1 res) (sine_un (curve b) k) eps /\
  candidate st (res_c0 res) (res_c1 res) e (res_u res).
Proof.
  intros b. pose proof min_zero_contract as Hb. cbv zeta.
  assert (HN : table_size 16) by (exists 4%Z; split; [lia|reflexivity]).
  assert (Hl : enumerating (ex_lib min_zero)) by apply ex_enumerating. assert (Hf : fit_sizes (ex_lib min_zero)) by apply ex_fit.
  destruct (curve_smooth_run 0 (ex_lib min_zero) SmoothSine b 16 4 Hl Hf Hb HN (or_intror eq_refl) ltac:(discriminate)) as (o & st & res & err & E1 & E2 & E3 & _ & E5 & E6).
  pose proof (smooth_ok 0 SmoothSine b 16 4 o HN (or_intror eq_refl) E1) as Hok.
  destruct (ran_candidate _ o st res Hl Hok E2 Hf E5 E3) as (L0 & L1 & e & He).
  destruct (gap_exists o (proj1 Hok)) as (delta & Hd); [apply Hok|].
  destruct (sine_fits b (27 / 4) (ec_B (st_ctx st)) (res_c0 res) (res_c1 res) L0 L1) as (eps & Heps & F0 & F1).
  destruct (smooth_options_ok 0 SmoothSine b 16 4 HN) as (nc & nr & _ & _ & E').
  pose proof (smooth_curve_options 0 (ex_lib min_zero) SmoothSine b 16 4 o Hb HN E1) as Hcv.
  rewrite E1 in E'. apply Ok_inj' in E'.
  destruct (ps_init_inv _ o st E2) as (nc' & nr' & c' & f & b' & A' & Hn & Ec & Ef & _ & Est).
  assert (Hh : o_homogeneous o = true) by (rewrite E'; reflexivity).
  destruct (curve_init _ o nc' nr' Hl Hok Hcv Hn (or_introl Hh)) as (st' & Hi' & Hwf & Hcs & _ & Eh & EN).
  assert (st' = st) by congruence. subst st'.
  assert (Er : o_r o = curve b) by (rewrite E'; reflexivity). assert (Eord : o_order o = 4%Z) by (rewrite E'; reflexivity).
  assert (Ek : o_k o = 27 / 4) by (rewrite E'; reflexivity).
  rewrite Er, Eord in Hcs. rewrite Hh in Eh.
  assert (Ekc : ec_k (st_ctx st) = 27 / 4).
  { rewrite Est. cbn [st_ctx]. destruct (init_ctx_inv _ _ _ _ Ec) as (g0 & g1 & g2 & _ & ->). exact Ek. }
  exists o, st, res, e, delta, eps.
  assert (Hsrc : forall x y, s_f (o_src o) x y = RtoC 0) by (intros x y; rewrite E'; reflexivity).
  assert (ER : o_R o = 23 / 10) by (rewrite E'; reflexivity). assert (Ea : o_a o = PI / 4) by (rewrite E'; reflexivity).
  assert (EAD : o_AD o = 2 * PI) by (rewrite E'; reflexivity). assert (EN16 : (16 <= o_N o)%Z) by (rewrite E'; cbn [o_N]; lia).
  pose proof (sine_partials (27 / 4) plane 6) as HP. pose proof (sine_helmholtz (27 / 4) plane) as HH.
  pose proof (sine_bound (27 / 4) ltac:(lra)) as HB. pose proof (sine_normal (curve b) (27 / 4) (curves_good b)) as HNo.
  repeat (refine (conj _ _); [assumption|]). exact He.
Qed.
