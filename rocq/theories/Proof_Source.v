(** The source of smooth-ycos on the grid, and the residual of the exact
    solutions (C73, C75). *)
From Coq Require Import ZArith List Bool Reals Lia Lra Psatz.
From Coquelicot Require Import Coquelicot.
From Verif Require Import Model_Py Model_Multivalue Model_Grid Model_Fourier Model_Linop Model_Abcoef Model_PS Model_Domain Model_Extend
  Model_Chebyshev Model_Problems Model_ZMethod Model_Driver Model_Run Model_Program
  Spec_Domain Spec_Grid Spec_PS Spec_Fd Spec_Problems Spec_Extend Spec_Inhomo Spec_Run Spec_Program Spec_Curve
  Lib_Csum Proof_Domain Proof_Grid Proof_Taylor Proof_Consist Proof_Place Proof_Hessian Proof_Run Proof_Program
  Proof_Gentle Proof_CurvePlace Proof_CurveFill Proof_CurveRun.
Import ListNotations.
Open Scope R_scope.

Local Notation table_size := Spec_Program.table_size.
Local Notation curve b := (boundary_r b (23 / 10) None (PI / 4)).

(** ** The methods of SympyProblem *)

Lemma sympy_cart : forall AD f F (D : nat -> nat -> R -> R -> R),
  (forall r th, 0 < r -> polar_form f F r th) ->
  (forall x y, x <> 0 \/ y <> 0 -> D 0%nat 0%nat x y = F x y /\ is_grad F x y (D 1%nat 0%nat x y, D 0%nat 1%nat x y) /\
     is_hessian F x y ((D 2%nat 0%nat x y, D 1%nat 1%nat x y), (D 1%nat 1%nat x y, D 0%nat 2%nat x y))) ->
  forall x y, x <> 0 \/ y <> 0 -> cart_source (sympy_source AD f) (fun i j x y => RtoC (D i j x y)) x y.
Proof.
  intros AD f F D Hf HD x y Hxy. destruct (HD x y Hxy) as (E0 & Hg & Hh).
  destruct (cart_to_polar x y) as [r th] eqn:E. pose proof (polar_pos x y r th E Hxy) as Hr.
  unfold cart_source, sympy_source. cbn [s_f s_grad s_hess].
  rewrite (sp_eval_off 1 AD f F x y r th E Hxy (Hf r th Hr)), E0.
  rewrite (sp_grad_correct f F x y r th _ E Hxy (Hf r th Hr) Hg).
  rewrite (sp_hessian_correct f F x y r th _ _ _ E Hxy (Hf r th Hr) Hh). repeat split.
Qed.

Lemma polar_off : forall r th, 0 < r -> r * cos th <> 0 \/ r * sin th <> 0.
Proof.
  intros r th Hr. pose proof (sin2_cos2 th) as S. unfold Rsqr in S.
  destruct (Req_dec (r * cos th) 0) as [E|E]; [right|left; exact E].
  intros E'. apply Rmult_integral in E. apply Rmult_integral in E'.
  destruct E as [E|E]; [lra|]. destruct E' as [E'|E']; [lra|]. rewrite E, E' in S. lra.
Qed.

Lemma diff_r_ext : forall u v r th, 0 < r -> (forall r th, 0 < r -> u r th = v r th) -> diff_r u r th = diff_r v r th.
Proof.
  intros u v r th Hr H. unfold diff_r. apply Derive_ext_loc.
  exists (mkposreal r Hr). intros t Ht. apply H. unfold ball in Ht. cbn in Ht. unfold AbsRing_ball, abs, minus, plus, opp in Ht. cbn in Ht.
  apply Rabs_def2 in Ht. lra.
Qed.
Lemma diff_th_ext : forall u v r th, (forall th, u r th = v r th) -> diff_th u r th = diff_th v r th.
Proof. intros u v r th H. unfold diff_th. apply Derive_ext. exact H. Qed.

Lemma sympy_polar : forall AD f F (D Q : nat -> nat -> R -> R -> R),
  (forall r th, 0 < r -> polar_form f F r th) ->
  (forall x y, x <> 0 \/ y <> 0 -> D 0%nat 0%nat x y = F x y /\ is_grad F x y (D 1%nat 0%nat x y, D 0%nat 1%nat x y) /\
     is_hessian F x y ((D 2%nat 0%nat x y, D 1%nat 1%nat x y), (D 1%nat 1%nat x y, D 0%nat 2%nat x y))) ->
  Spec_Fd.partials 2 off_tip f Q ->
  forall r th, 0 < r -> polar_source (sympy_source AD f) (fun i j x y => RtoC (D i j x y)) (fun i j r th => RtoC (Q i j r th)) r th.
Proof.
  intros AD f F D Q Hf HD [E0 HQ] r th Hr. destruct (HD _ _ (polar_off r th Hr)) as (ED & Hg & Hh).
  assert (Q1 : forall r th, 0 < r -> diff_r f r th = Q 1%nat 0%nat r th).
  { intros r' th' Hr'. transitivity (diff_r (Q 0%nat 0%nat) r' th'); [apply diff_r_ext; [exact Hr'|]; intros; symmetry; apply E0|].
    unfold diff_r. apply is_derive_unique. apply (HQ 0%nat 0%nat ltac:(lia) r' th' Hr'). }
  assert (Q2 : forall r th, 0 < r -> diff_th f r th = Q 0%nat 1%nat r th).
  { intros r' th' Hr'. transitivity (diff_th (Q 0%nat 0%nat) r' th'); [apply diff_th_ext; intros; symmetry; apply E0|].
    unfold diff_th. apply is_derive_unique. apply (HQ 0%nat 0%nat ltac:(lia) r' th' Hr'). }
  unfold polar_source, sympy_source. cbn [s_f_polar s_grad_polar s_hess_polar s_d_f_r s_d2_f_r s_d_f_th s_d2_f_th s_d2_f_r_th].
  rewrite (grad_polar f F r th _ Hr (Hf r th Hr) Hg), (hessian_polar f F r th _ _ _ Hr (Hf r th Hr) Hh). cbv zeta.
  split.
  { cbn [sp_eval_f_polar]. destruct (Reqb_spec r 0) as [H|_]; [lra|]. f_equal. rewrite ED.
    exact (locally_2d_singleton _ _ _ (Hf r th Hr)). }
  split; [reflexivity|]. split; [reflexivity|].
  unfold sp_d2_f_r, sp_d2_f_th, sp_d2_f_r_th, sp_d_f_r, sp_d_f_th.
  rewrite (Q1 r th Hr), (Q2 r th Hr). split; [reflexivity|]. split; [|split; [reflexivity|split]]; f_equal.
  - rewrite (diff_r_ext _ (Q 1%nat 0%nat) r th Hr Q1). unfold diff_r. apply is_derive_unique. apply (HQ 1%nat 0%nat ltac:(lia) r th Hr).
  - rewrite (diff_th_ext _ (Q 0%nat 1%nat) r th); [|intros t; apply Q2; exact Hr].
    unfold diff_th. apply is_derive_unique. apply (HQ 0%nat 1%nat ltac:(lia) r th Hr).
  - rewrite (diff_th_ext _ (Q 1%nat 0%nat) r th); [|intros t; apply Q1; exact Hr].
    unfold diff_th. apply is_derive_unique. apply (HQ 1%nat 0%nat ltac:(lia) r th Hr).
Qed.

(** ** smooth-ycos *)

Lemma sympy_both : forall AD f F (D Q : nat -> nat -> R -> R -> R),
  (forall r th, 0 < r -> polar_form f F r th) ->
  (forall x y, x <> 0 \/ y <> 0 -> D 0%nat 0%nat x y = F x y /\ is_grad F x y (D 1%nat 0%nat x y, D 0%nat 1%nat x y) /\
     is_hessian F x y ((D 2%nat 0%nat x y, D 1%nat 1%nat x y), (D 1%nat 1%nat x y, D 0%nat 2%nat x y))) ->
  Spec_Fd.partials 2 off_tip f Q ->
  (forall x y, x <> 0 \/ y <> 0 -> cart_source (sympy_source AD f) (fun i j x y => RtoC (D i j x y)) x y) /\
  forall r th, 0 < r -> polar_source (sympy_source AD f) (fun i j x y => RtoC (D i j x y)) (fun i j r th => RtoC (Q i j r th)) r th.
Proof. intros AD f F D Q H1 H2 H3. split; [apply (sympy_cart AD f F D H1 H2)|apply (sympy_polar AD f F D Q H1 H2 H3)]. Qed.

Definition ycos_D (k : R) (i j : nat) (x y : R) : R :=
  match i, j with
  | 0%nat, 0%nat => (k ^ 2 - 1) * y * cos x
  | 1%nat, 0%nat => - (k ^ 2 - 1) * y * sin x
  | 0%nat, 1%nat => (k ^ 2 - 1) * cos x
  | 2%nat, 0%nat => - (k ^ 2 - 1) * y * cos x
  | 1%nat, 1%nat => - (k ^ 2 - 1) * sin x
  | _, _ => 0
  end.

Lemma ycos_cart : forall AD k x y, x <> 0 \/ y <> 0 ->
  cart_source (sympy_source AD (ycos_f k)) (fun i j x y => RtoC (ycos_D k i j x y)) x y.
Proof.
  intros AD k. apply (sympy_cart AD (ycos_f k) (ycos_F k)); [intros; apply ycos_polar|].
  intros x y _. split; [reflexivity|]. split; [apply ycos_F_grad|apply ycos_F_hessian].
Qed.

Definition ycos_Q (k : R) (i j : nat) (r th : R) : R :=
  let K := k ^ 2 - 1 in let c := cos th in let s := sin th in let A := r * cos th in
  match i, j with
  | 0%nat, 0%nat => ycos_f k r th
  | 1%nat, 0%nat => K * s * cos A - K * r * s * c * sin A
  | 0%nat, 1%nat => K * r * c * cos A + K * r ^ 2 * s ^ 2 * sin A
  | 2%nat, 0%nat => - 2 * K * s * c * sin A - K * r * s * c ^ 2 * cos A
  | 1%nat, 1%nat => K * c * cos A + K * r * s ^ 2 * sin A - K * r * (c ^ 2 - s ^ 2) * sin A + K * r ^ 2 * s ^ 2 * c * cos A
  | 0%nat, 2%nat => - K * r * s * cos A + 3 * K * r ^ 2 * s * c * sin A - K * r ^ 3 * s ^ 3 * cos A
  | _, _ => 0
  end.

Lemma ycos_Q_partials : forall k, Spec_Fd.partials 2 off_tip (ycos_f k) (ycos_Q k).
Proof.
  intros k. split; [reflexivity|]. intros i j Hij r th _.
  destruct i as [|[|i]], j as [|[|j]]; try (exfalso; lia); unfold ycos_Q, ycos_f; cbv zeta; split; auto_derive; try exact I; ring.
Qed.

Lemma sympy_example : forall k, exists D Q : nat -> nat -> R -> R -> R,
  (forall r th, 0 < r -> polar_form (ycos_f k) (ycos_F k) r th) /\
  (forall x y, x <> 0 \/ y <> 0 -> D 0%nat 0%nat x y = ycos_F k x y /\ is_grad (ycos_F k) x y (D 1%nat 0%nat x y, D 0%nat 1%nat x y) /\
     is_hessian (ycos_F k) x y ((D 2%nat 0%nat x y, D 1%nat 1%nat x y), (D 1%nat 1%nat x y, D 0%nat 2%nat x y))) /\
  Spec_Fd.partials 2 off_tip (ycos_f k) Q.
Proof.
  intros k. exists (ycos_D k), (ycos_Q k). split; [intros; apply ycos_polar|]. split; [|apply ycos_Q_partials].
  intros x y _. split; [reflexivity|]. split; [apply ycos_F_grad|apply ycos_F_hessian].
Qed.

Lemma cos_taylor1 : forall x d, Rabs (cos (x + d) - cos x + sin x * d) <= d ^ 2 / 2.
Proof.
  assert (P : forall x d, 0 <= d -> Rabs (cos (x + d) - cos x + sin x * d) <= d ^ 2 / 2).
  { intros x d Hd.
    assert (Hs : forall t, 0 <= t <= d -> Rabs (- sin (x + t) + sin x) <= 1 * t ^ 1).
    { apply (mono_bound (fun t => - sin (x + t) + sin x) (fun t => - cos (x + t)) 1 0 d); [lra|rewrite Rplus_0_r; ring| |].
      - intros t Ht. auto_derive; [exact I|ring].
      - intros t Ht. cbn [INR pow]. rewrite Rabs_Ropp. pose proof (COS_bound (x + t)). apply Rabs_le. lra. }
    replace (d ^ 2 / 2) with (/ 2 * d ^ 2) by field.
    apply (mono_bound (fun t => cos (x + t) - cos x + sin x * t) (fun t => - sin (x + t) + sin x) (/ 2) 1 d); [lra|rewrite Rplus_0_r; ring| | |lra].
    - intros t Ht. auto_derive; [exact I|ring].
    - intros t Ht. specialize (Hs t Ht). cbn [INR pow] in *. lra. }
  intros x d. destruct (Rle_lt_dec 0 d) as [L|L]; [apply P; exact L|].
  specialize (P (- x) (- d) ltac:(lra)). replace (- x + - d) with (- (x + d)) in P by ring. rewrite !cos_neg, sin_neg in P.
  replace (- sin x * - d) with (sin x * d) in P by ring. replace ((- d) ^ 2) with (d ^ 2) in P by ring. exact P.
Qed.

Lemma cos_taylor2 : forall x d, Rabs (cos (x + d) - cos x + sin x * d + cos x * d ^ 2 / 2) <= Rabs d ^ 3 / 6.
Proof.
  assert (P : forall x d, 0 <= d -> Rabs (cos (x + d) - cos x + sin x * d + cos x * d ^ 2 / 2) <= d ^ 3 / 6).
  { intros x d Hd.
    assert (H1 : forall t, 0 <= t <= d -> Rabs (- cos (x + t) + cos x) <= 1 * t ^ 1).
    { apply (mono_bound (fun t => - cos (x + t) + cos x) (fun t => sin (x + t)) 1 0 d); [lra|rewrite Rplus_0_r; ring| |].
      - intros t Ht. auto_derive; [exact I|ring].
      - intros t Ht. cbn [INR pow]. pose proof (SIN_bound (x + t)). apply Rabs_le. lra. }
    assert (H2 : forall t, 0 <= t <= d -> Rabs (- sin (x + t) + sin x + cos x * t) <= / 2 * t ^ 2).
    { apply (mono_bound (fun t => - sin (x + t) + sin x + cos x * t) (fun t => - cos (x + t) + cos x) (/ 2) 1 d); [lra|rewrite Rplus_0_r; ring| |].
      - intros t Ht. auto_derive; [exact I|ring].
      - intros t Ht. specialize (H1 t Ht). cbn [INR pow] in *. lra. }
    replace (d ^ 3 / 6) with (/ 6 * d ^ 3) by field.
    apply (mono_bound (fun t => cos (x + t) - cos x + sin x * t + cos x * t ^ 2 / 2) (fun t => - sin (x + t) + sin x + cos x * t) (/ 6) 2 d);
      [lra|rewrite Rplus_0_r; field| | |lra].
    - intros t Ht. auto_derive; [exact I|field].
    - intros t Ht. specialize (H2 t Ht). cbn [INR pow] in *. lra. }
  intros x d. destruct (Rle_lt_dec 0 d) as [L|L]; [rewrite (Rabs_pos_eq d L); apply P; exact L|].
  rewrite (Rabs_left d L). specialize (P (- x) (- d) ltac:(lra)). replace (- x + - d) with (- (x + d)) in P by ring. rewrite !cos_neg, sin_neg in P.
  replace (- sin x * - d) with (sin x * d) in P by ring. replace ((- d) ^ 2) with (d ^ 2) in P by ring. exact P.
Qed.

Lemma ycos_taylor2 : forall k x0 y0 x y d, 1 <= k -> Rabs y0 <= 3 -> dist2 (x0, y0) (x, y) <= d ->
  Cmod (Cminus (taylor2 (fun i j x y => RtoC (ycos_D k i j x y)) x0 y0 x y) (RtoC ((k ^ 2 - 1) * y * cos x))) <= (k ^ 2 - 1) * d ^ 3.
Proof.
  intros k x0 y0 x y d Hk Hy0 Hd. unfold taylor2, ycos_D.
  set (dx := x - x0). set (dy := y - y0).
  assert (E : (RtoC ((k ^ 2 - 1) * y0 * cos x0) + RtoC dx * RtoC (- (k ^ 2 - 1) * y0 * sin x0) + RtoC dy * RtoC ((k ^ 2 - 1) * cos x0)
     + RtoC (dx ^ 2 / 2) * RtoC (- (k ^ 2 - 1) * y0 * cos x0) + RtoC (dx * dy) * RtoC (- (k ^ 2 - 1) * sin x0)
     + RtoC (dy ^ 2 / 2) * RtoC 0 - RtoC ((k ^ 2 - 1) * y * cos x))%C =
     RtoC (- ((k ^ 2 - 1) * (y0 * (cos (x0 + dx) - cos x0 + sin x0 * dx + cos x0 * dx ^ 2 / 2) + dy * (cos (x0 + dx) - cos x0 + sin x0 * dx))))).
  { replace (x0 + dx) with x by (unfold dx; ring). replace y with (y0 + dy) by (unfold dy; ring).
    rewrite <- !RtoC_mult, <- !RtoC_plus, <- RtoC_minus. f_equal. field. }
  unfold Cminus in E |- *. rewrite E, Cmod_R, Rabs_Ropp, Rabs_mult.
  assert (HK : 0 <= k ^ 2 - 1) by (cbn [pow]; rewrite Rmult_1_r; pose proof (Rmult_le_compat 1 k 1 k); lra). rewrite (Rabs_pos_eq _ HK). apply Rmult_le_compat_l; [exact HK|].
  pose proof (cos_taylor2 x0 dx) as T2. pose proof (cos_taylor1 x0 dx) as T1.
  set (A := cos (x0 + dx) - cos x0 + sin x0 * dx + cos x0 * dx ^ 2 / 2) in *. set (B := cos (x0 + dx) - cos x0 + sin x0 * dx) in *.
  eapply Rle_trans; [apply Rabs_triang|]. rewrite !Rabs_mult.
  assert (Hr : Rabs dx <= d /\ Rabs dy <= d).
  { unfold dist2 in Hd. cbn [fst snd] in Hd. unfold dx, dy. split.
    - apply Rle_trans with (2 := Hd). rewrite <- (sqrt_Rsqr_abs (x - x0)). apply sqrt_le_1_alt. unfold Rsqr.
      replace ((x - x0) * (x - x0)) with ((x0 - x) ^ 2) by ring. pose proof (pow2_ge_0 (y0 - y)). lra.
    - apply Rle_trans with (2 := Hd). rewrite <- (sqrt_Rsqr_abs (y - y0)). apply sqrt_le_1_alt. unfold Rsqr.
      replace ((y - y0) * (y - y0)) with ((y0 - y) ^ 2) by ring. pose proof (pow2_ge_0 (x0 - x)). lra. }
  destruct Hr as [Hx Hy]. rewrite <- (pow2_abs dx) in T1.
  pose proof (Rabs_pos dx). pose proof (Rabs_pos dy). pose proof (Rabs_pos y0). pose proof (Rabs_pos A). pose proof (Rabs_pos B).
  assert (C2 : Rabs dx ^ 2 <= d ^ 2) by (apply pow_incr; lra). assert (C3 : Rabs dx ^ 3 <= d ^ 3) by (apply pow_incr; lra).
  assert (0 <= Rabs dx ^ 2) by (apply pow2_ge_0). assert (0 <= Rabs dx ^ 3) by (apply pow_le; lra).
  assert (L1 : Rabs y0 * Rabs A <= 3 * (d ^ 3 / 6)) by (apply Rmult_le_compat; lra).
  assert (L2 : Rabs dy * Rabs B <= d * (d ^ 2 / 2)) by (apply Rmult_le_compat; lra).
  replace (d * (d ^ 2 / 2)) with (d ^ 3 / 2) in L2 by field. lra.
Qed.

Lemma expansion_small : forall b q, expansion_pt (curve b) (PI / 4) q -> Rabs (snd q) <= 3 /\ (fst q <> 0 \/ snd q <> 0).
Proof.
  intros b q H. destruct (curves_gentle b) as (r1 & r2 & _ & _ & Hband & _). pose proof PI_num as HPI.
  assert (P : forall t th, 0 < t <= 3 -> Rabs (t * sin th) <= 3 /\ (t * cos th <> 0 \/ t * sin th <> 0)).
  { intros t th Ht. split; [|apply polar_off; lra]. rewrite Rabs_mult, (Rabs_pos_eq t) by lra.
    pose proof (SIN_bound th). assert (Rabs (sin th) <= 1) by (apply Rabs_le; lra). pose proof (Rabs_pos (sin th)).
    replace 3 with (3 * 1) by ring. apply Rmult_le_compat; lra. }
  destruct H as [(th & Hth & ->)|(t & Ht & [->| ->])]; cbn [fst snd].
  - apply P. specialize (Hband th ltac:(lra)). lra.
  - split; [rewrite Rabs_R0; lra|left; lra].
  - apply P. lra.
Qed.

Lemma ycos_stored : forall fuel lib b N o st, enumerating lib -> brentq_contract (lib_brentq lib) -> table_size N ->
  smooth_options (S fuel) SmoothYCos b N 4 = Ok o -> ps_init lib o = Ok st ->
  forall i j, In (i, j) (Kplus 4 N (o_interior o)) ->
  Cmod (Cminus (st_f st i j) (RtoC (((27 / 4) ^ 2 - 1) * snd (square_pt N i j) * cos (fst (square_pt N i j))))) <=
  (if node_mem (i, j) (global_Mplus N (o_interior o)) then 0 else ((27 / 4) ^ 2 - 1) * (2 * PI / IZR N * sqrt 2) ^ 3).
Proof.
  intros fuel lib b N o st Hl Hb HN E Hi i j Hij.
  pose proof (smooth_ok fuel SmoothYCos b N 4 o HN (or_intror eq_refl) E) as Hok.
  pose proof (smooth_curve_options fuel lib SmoothYCos b N 4 o Hb HN E) as Hcv.
  destruct (smooth_options_ok fuel SmoothYCos b N 4 HN) as (nc & nr & _ & _ & E').
  rewrite E in E'. apply Ok_inj' in E'.
  assert (EN : o_N o = N) by (rewrite E'; reflexivity). assert (Eh : o_homogeneous o = false) by (rewrite E'; reflexivity).
  assert (Eord : o_order o = 4%Z) by (rewrite E'; reflexivity). assert (Es : o_src o = sympy_source problem_AD (ycos_f (27 / 4))) by (rewrite E'; reflexivity).
  assert (Er : o_r o = curve b) by (rewrite E'; reflexivity). assert (Ea : o_a o = PI / 4) by (rewrite E'; reflexivity).
  assert (EAD : o_AD o = 2 * PI) by (rewrite E'; reflexivity). clear E' E.
  destruct (table_size_range N HN) as [HN1 _].
  assert (Ec' : get_coord (2 * PI) N i j = square_pt N i j) by (apply square_coord; lia).
  destruct (node_mem (i, j) (global_Mplus N (o_interior o))) eqn:Em.
  - apply node_mem_in, Mplus_in in Em. cbn [fst snd] in Em.
    assert (Hin : o_inside o i j) by (unfold o_inside; rewrite EN; exact Em).
    rewrite (proj1 (init_source lib o st Hl (or_intror Eord) Hi) i j Hin), EN, EAD, Ec', Es.
    cbn [sympy_source s_f]. rewrite (ycos_source 0 problem_AD (27 / 4) _ _ ltac:(unfold problem_AD; pose proof PI_RGT_0; lra)).
    unfold Cminus. rewrite Cplus_opp_r, Cmod_0. lra.
  - destruct (ps_init_inv lib o st Hi) as (nc' & nr' & c & f & gu & A & _ & Ec & Ef & _ & ->). cbn [st_f].
    destruct (curve_ctx lib o (fst (setup_basis nc' nr')) Hl Hok Hcv) as (c' & Ec2 & Hwf & Hcs). rewrite Ec2 in Ec. injection Ec as ->.
    destruct (init_ctx_inv _ _ _ _ Ec2) as (g0 & g1 & g2 & _ & Hc).
    assert (ENc : ec_N c = N) by (rewrite Hc; exact EN). assert (Ehc : ec_homogeneous c = false) by (rewrite Hc; exact Eh).
    assert (Esc : ec_src c = sympy_source problem_AD (ycos_f (27 / 4))) by (rewrite Hc; exact Es).
    assert (Ei : o_interior o = ps_is_interior (curve b) (PI / 4) (2 * PI) N) by (unfold o_interior; rewrite Er, Ea, EAD, EN; reflexivity).
    rewrite Eord, Er in Hcs. unfold setup_f in Ef. rewrite Eord, EN, Ei in Ef. rewrite Ei in Hij, Em.
    destruct (extend_f_curve (lib_brentq lib) (curve b) c (fun i j x y => RtoC (ycos_D (27 / 4) i j x y))
      (lib_enum lib (node_diff (Kplus 4 N (ps_is_interior (curve b) (PI / 4) (2 * PI) N)) (global_Mplus N (ps_is_interior (curve b) (PI / 4) (2 * PI) N))))
      (setup_f_interior (init_ps lib o) (s_f (o_src o))) Hb (curves_gentle b) Hcs) as (f' & Ef' & Hin & _).
    + rewrite ENc. apply curves_margin. lia.
    + exact Ehc.
    + intros q Hq. rewrite Esc. apply ycos_cart. apply (expansion_small b q Hq).
    + rewrite ENc. apply Hl.
    + rewrite Ef' in Ef. injection Ef as -> _. rewrite ENc in Hin.
      destruct (Hin (i, j) (fst (square_pt N i j)) (snd (square_pt N i j))) as (q & Hq & _ & Hd & Ev).
      * apply Hl, node_diff_in. split; [exact Hij|]. apply node_mem_not_in. exact Em.
      * cbn [fst snd]. rewrite Ec'. apply surjective_pairing.
      * cbn [fst snd] in Ev. rewrite Ev. apply ycos_taylor2; [lra|apply (expansion_small b q Hq)|].
        rewrite <- surjective_pairing. exact Hd.
Qed.

Lemma ycos_extended : forall fuel lib b N o st, enumerating lib -> brentq_contract (lib_brentq lib) -> table_size N ->
  smooth_options (S fuel) SmoothYCos b N 4 = Ok o -> ps_init lib o = Ok st ->
  forall i j di dj, region_node (curve b) N (i, j) -> (Z.abs di + Z.abs dj <= 1)%Z ->
  Cmod (Cminus (st_f st (i + di)%Z (j + dj)%Z)
    (RtoC (((27 / 4) ^ 2 - 1) * snd (square_pt N (i + di)%Z (j + dj)%Z) * cos (fst (square_pt N (i + di)%Z (j + dj)%Z))))) <=
  ((27 / 4) ^ 2 - 1) * (2 * PI / IZR N * sqrt 2) ^ 3.
Proof.
  intros fuel lib b N o st Hl Hb HN E Hi i j di dj Hij Hd.
  assert (Hin : o_inside o i j) by (apply (region_inside fuel SmoothYCos b N 4 o i j HN E); exact Hij).
  assert (EN : o_N o = N).
  { destruct (smooth_options_ok fuel SmoothYCos b N 4 HN) as (nc & nr & _ & _ & E'). rewrite E in E'. apply Ok_inj' in E'. rewrite E'. reflexivity. }
  unfold o_inside in Hin. rewrite EN in Hin.
  assert (HK : In ((i + di)%Z, (j + dj)%Z) (Kplus 4 N (o_interior o))).
  { apply Kplus_in; [right; reflexivity|]. exists (i, j). split; [apply Mplus_in; exact Hin|]. cbn [fst snd].
    destruct (Z.eq_dec (Z.abs di + Z.abs dj) 0) as [Z0|Z1]; [left; f_equal; lia|right; split; [reflexivity|lia]]. }
  eapply Rle_trans; [apply (ycos_stored fuel lib b N o st Hl Hb HN E Hi _ _ HK)|].
  destruct (node_mem _ _); [|lra]. destruct (table_size_range N HN) as [HN1 _]. pose proof PI_RGT_0.
  assert (0 < IZR N) by (apply IZR_lt; lia). pose proof (sqrt_pos 2).
  apply Rmult_le_pos; [lra|]. apply pow_le. apply Rmult_le_pos; [|assumption]. apply Rlt_le, Rdiv_lt_0_compat; lra.
Qed.

(** ** The residual of the exact solutions *)

Definition wave_D (A B ph : R) (i j : nat) (x y : R) : R := A ^ i * B ^ j * cos (A * x + B * y + ph + INR (i + j) * (PI / 2)).

Lemma shift_quarter : forall s, cos (s + PI / 2) = - sin s.
Proof. intros s. rewrite cos_plus, cos_PI2, sin_PI2. ring. Qed.

Lemma wave_D_partials : forall n D A B ph, Spec_Fd.partials n D (fun x y => cos (A * x + B * y + ph)) (wave_D A B ph).
Proof.
  intros n D A B ph. split.
  - intros x y. unfold wave_D. cbn [Nat.add INR pow]. rewrite Rmult_0_l, Rplus_0_r. ring.
  - intros i j _ x y _. unfold wave_D. split.
    + replace (INR (S i + j) * (PI / 2)) with (INR (i + j) * (PI / 2) + PI / 2) by (rewrite plus_Sn_m, S_INR; ring).
      rewrite <- Rplus_assoc, shift_quarter. auto_derive; [exact I|]. cbn [pow]. ring.
    + replace (INR (i + S j) * (PI / 2)) with (INR (i + j) * (PI / 2) + PI / 2) by (rewrite <- plus_n_Sm, S_INR; ring).
      rewrite <- Rplus_assoc, shift_quarter. auto_derive; [exact I|]. cbn [pow]. ring.
Qed.

Lemma wave_D_bounded : forall n k D A B ph, Rabs A <= k -> Rabs B <= k -> top_bounded n (k ^ n) D (wave_D A B ph).
Proof.
  intros n k D A B ph HA HB i j <- x y _. unfold wave_D. rewrite !Rabs_mult, <- !RPow_abs, pow_add.
  pose proof (Rabs_pos A). pose proof (Rabs_pos B).
  assert (Rabs A ^ i <= k ^ i) by (apply pow_incr; lra). assert (Rabs B ^ j <= k ^ j) by (apply pow_incr; lra).
  assert (0 <= Rabs A ^ i) by (apply pow_le; lra). assert (0 <= Rabs B ^ j) by (apply pow_le; lra).
  set (c := cos _). pose proof (COS_bound (A * x + B * y + ph + INR (i + j) * (PI / 2))) as Hc. fold c in Hc.
  assert (Rabs c <= 1) by (apply Rabs_le; lra). pose proof (Rabs_pos c).
  rewrite <- (Rmult_1_r (k ^ i * k ^ j)). apply Rmult_le_compat; try lra.
  - apply Rmult_le_pos; assumption.
  - apply Rmult_le_compat; lra.
Qed.

Definition ycos_U (i j : nat) (x y : R) : R :=
  cos (x + INR i * (PI / 2)) * match j with 0%nat => y | 1%nat => 1 | _ => 0 end.

Lemma ycos_U_partials : forall n D, Spec_Fd.partials n D ycos_expected ycos_U.
Proof.
  intros n D. split.
  - intros x y. unfold ycos_U, ycos_expected. cbn [INR]. rewrite Rmult_0_l, Rplus_0_r. ring.
  - intros i j _ x y _. unfold ycos_U. split.
    + replace (INR (S i) * (PI / 2)) with (INR i * (PI / 2) + PI / 2) by (rewrite S_INR; ring).
      rewrite <- Rplus_assoc, shift_quarter. auto_derive; [exact I|]. ring.
    + destruct j as [|[|j]]; auto_derive; try exact I; ring.
Qed.

Lemma ycos_U_bounded : forall n x0 y0 h, 0 <= h -> Rabs y0 + h <= 4 -> top_bounded n 4 (box x0 h y0 h) ycos_U.
Proof.
  intros n x0 y0 h Hh Hy i j _ x y [_ By]. unfold ycos_U. rewrite Rabs_mult.
  pose proof (COS_bound (x + INR i * (PI / 2))). assert (Rabs (cos (x + INR i * (PI / 2))) <= 1) by (apply Rabs_le; lra).
  pose proof (Rabs_pos (cos (x + INR i * (PI / 2)))).
  assert (Hj : Rabs (match j with 0%nat => y | 1%nat => 1 | _ => 0 end) <= 4).
  { destruct j as [|[|j]]; [|rewrite Rabs_R1; lra|rewrite Rabs_R0; lra]. revert Hy. unfold Rabs at 1. destruct (Rcase_abs y0); intros; apply Rabs_le; lra. }
  replace 4 with (1 * 4) by ring. apply Rmult_le_compat; try assumption. apply Rabs_pos.
Qed.

Lemma zero_fam : forall n D, Spec_Fd.partials n D (fun _ _ => 0) (fun _ _ _ _ => 0).
Proof. intros n D. split; [reflexivity|]. intros i j _ x y _. split; auto_derive; auto. Qed.

Lemma zero_fam_bounded : forall n M D, 0 <= M -> top_bounded n M D (fun _ _ _ _ => 0).
Proof. intros n M D HM i j _ x y _. rewrite Rabs_R0. exact HM. Qed.

Definition smooth_exact (p : smooth_name) (N : Z) : arr2 :=
  fun i j => smooth_expected p (fst (square_pt N i j)) (snd (square_pt N i j)).
Definition smooth_exact_f (p : smooth_name) (N : Z) : arr2 := fun i j =>
  match p with
  | SmoothYCos => RtoC (((27 / 4) ^ 2 - 1) * snd (square_pt N i j) * cos (fst (square_pt N i j)))
  | _ => RtoC 0
  end.

Lemma apply_B_ext : forall f g i j, (forall i j, f i j = g i j) -> lin_apply_B f i j = lin_apply_B g i j.
Proof. intros f g i j H. unfold lin_apply_B. rewrite !H. reflexivity. Qed.

Lemma apply_L_ext : forall N order AD k f g i j, (forall i j, f i j = g i j) -> lin_apply_L N order AD k f i j = lin_apply_L N order AD k g i j.
Proof. intros N order AD k f g i j H. unfold lin_apply_L. rewrite !H. reflexivity. Qed.

Lemma smooth_residual : forall p N i j, (1 <= N)%Z -> in_open_grid N (i, j) ->
  Cmod (Cminus (lin_apply_B (smooth_exact_f p N) i j) (lin_apply_L N 4 (2 * PI) (27 / 4) (smooth_exact p N) i j)) <=
  match p with SmoothYCos => 4 | _ => (27 / 4) ^ 6 end * (2 * PI / IZR N) ^ 4 / 15.
Proof.
  intros p N i j HN Hg. pose proof PI_num as HPI. assert (HN0 : 0 < IZR N) by (apply IZR_lt; lia).
  assert (Ec : forall i j, get_coord (2 * PI) N i j = square_pt N i j) by (intros; apply square_coord; exact HN).
  assert (G : forall ur ui Ur Ui, (forall n D, Spec_Fd.partials n D ur Ur) -> (forall n D, Spec_Fd.partials n D ui Ui) ->
    forall M, (let x := fst (square_pt N i j) in let y := snd (square_pt N i j) in let h := 2 * PI / IZR N in
      top_bounded 6 M (box x h y h) Ur /\ top_bounded 6 M (box x h y h) Ui) ->
    (forall x y, smooth_expected p x y = (ur x y, ui x y)) ->
    (forall x y, Ur 2%nat 0%nat x y + Ur 0%nat 2%nat x y + (27 / 4) ^ 2 * ur x y =
       match p with SmoothYCos => ((27 / 4) ^ 2 - 1) * y * cos x | _ => 0 end /\
       Ui 2%nat 0%nat x y + Ui 0%nat 2%nat x y + (27 / 4) ^ 2 * ui x y = 0) ->
    Cmod (Cminus (lin_apply_B (smooth_exact_f p N) i j) (lin_apply_L N 4 (2 * PI) (27 / 4) (smooth_exact p N) i j)) <= M * (2 * PI / IZR N) ^ 4 / 15).
  { intros ur ui Ur Ui Pr Pi M [Br Bi] Hu Hf.
    pose proof (consistency (2 * PI) N (27 / 4) i j ur ui Ur Ui M ltac:(lra) ltac:(lia)) as K. cbv zeta in K. rewrite Ec in K.
    specialize (K (Pr _ _) (Pi _ _) Br Bi).
    rewrite (apply_B_ext (smooth_exact_f p N) (sampled (2 * PI) N (fun a b => Ur 2%nat 0%nat a b + Ur 0%nat 2%nat a b + (27 / 4) ^ 2 * ur a b)
       (fun a b => Ui 2%nat 0%nat a b + Ui 0%nat 2%nat a b + (27 / 4) ^ 2 * ui a b))).
    - rewrite (apply_L_ext N 4 (2 * PI) (27 / 4) (smooth_exact p N) (sampled (2 * PI) N ur ui)); [exact K|].
      intros i' j'. unfold smooth_exact, sampled. rewrite Ec, Hu. reflexivity.
    - intros i' j'. unfold smooth_exact_f, sampled. cbv zeta. rewrite Ec.
      destruct (Hf (fst (square_pt N i' j')) (snd (square_pt N i' j'))) as [-> ->]. destruct p; reflexivity. }
  destruct p.
  - apply (G (fun x y => cos (27 / 4 * x + 0 * y + - (PI / 2))) (fun _ _ => 0) (wave_D (27 / 4) 0 (- (PI / 2))) (fun _ _ _ _ => 0)).
    + intros. apply wave_D_partials.
    + intros. apply zero_fam.
    + cbv zeta. split; [apply wave_D_bounded; rewrite ?Rabs_R0, ?Rabs_pos_eq; lra|apply zero_fam_bounded; apply pow_le; lra].
    + intros x y. unfold smooth_expected, sine_expected, smooth_k, RtoC. f_equal.
      rewrite cos_plus, cos_neg, sin_neg, cos_PI2, sin_PI2. rewrite Rmult_0_l, Rplus_0_r. ring.
    + intros x y. split; [|ring]. unfold wave_D.
      replace (27 / 4 * x + 0 * y + - (PI / 2) + INR (2 + 0) * (PI / 2)) with (27 / 4 * x + 0 * y + - (PI / 2) + PI) by (simpl; field).
      rewrite neg_cos. simpl. field.
  - apply (G (fun x y => cos (8 / 10 * (27 / 4) * x + 6 / 10 * (27 / 4) * y + 0)) (fun x y => cos (8 / 10 * (27 / 4) * x + 6 / 10 * (27 / 4) * y + - (PI / 2)))
      (wave_D (8 / 10 * (27 / 4)) (6 / 10 * (27 / 4)) 0) (wave_D (8 / 10 * (27 / 4)) (6 / 10 * (27 / 4)) (- (PI / 2)))).
    + intros. apply wave_D_partials.
    + intros. apply wave_D_partials.
    + cbv zeta. split; apply wave_D_bounded; rewrite Rabs_pos_eq; lra.
    + intros x y. unfold smooth_expected, e_expected, smooth_k, cis. cbn [snd]. f_equal; [rewrite Rplus_0_r; reflexivity|].
      rewrite (cos_plus _ (- (PI / 2))), cos_neg, sin_neg, cos_PI2, sin_PI2. ring.
    + assert (Q : forall ph x y, wave_D (8 / 10 * (27 / 4)) (6 / 10 * (27 / 4)) ph 2 0 x y + wave_D (8 / 10 * (27 / 4)) (6 / 10 * (27 / 4)) ph 0 2 x y +
        (27 / 4) ^ 2 * cos (8 / 10 * (27 / 4) * x + 6 / 10 * (27 / 4) * y + ph) = 0).
      { intros ph x y. unfold wave_D. cbn [Nat.add]. set (s := 8 / 10 * (27 / 4) * x + 6 / 10 * (27 / 4) * y + ph).
        replace (s + INR 2 * (PI / 2)) with (s + PI) by (simpl; field). rewrite neg_cos. simpl. field. }
      intros x y. split; apply Q.
  - apply (G ycos_expected (fun _ _ => 0) ycos_U (fun _ _ _ _ => 0)).
    + intros. apply ycos_U_partials.
    + intros. apply zero_fam.
    + cbv zeta. split; [|apply zero_fam_bounded; lra]. apply ycos_U_bounded; [apply Rlt_le, Rdiv_lt_0_compat; lra|].
      unfold square_pt. cbn [snd]. destruct Hg as [_ Hj]. cbn [fst snd] in Hj.
      assert (Hj1 : 1 <= IZR j) by (apply IZR_le; lia). assert (Hj2 : IZR j <= IZR N - 1) by (rewrite <- minus_IZR; apply IZR_le; lia).
      assert (E : 2 * PI * IZR j / IZR N = 2 * PI / IZR N * IZR j) by (field; lra). rewrite E.
      assert (E2 : 2 * PI / IZR N * IZR N = 2 * PI) by (field; lra).
      assert (0 < 2 * PI / IZR N) by (apply Rdiv_lt_0_compat; lra). set (h := 2 * PI / IZR N) in *.
      assert (h * 1 <= h * IZR j) by (apply Rmult_le_compat_l; lra). assert (h * IZR j <= h * (IZR N - 1)) by (apply Rmult_le_compat_l; lra).
      assert (Rabs (h * IZR j - PI) <= PI - h) by (apply Rabs_le; lra). lra.
    + reflexivity.
    + intros x y. split; [|ring]. unfold ycos_U, ycos_expected.
      replace (x + INR 2 * (PI / 2)) with (x + PI) by (simpl; field). rewrite neg_cos. cbn [INR]. rewrite Rmult_0_l, Rplus_0_r. ring.
Qed.

Lemma apply_L_minus : forall N order AD k u v i j,
  lin_apply_L N order AD k (fun i j => Cminus (u i j) (v i j)) i j = Cminus (lin_apply_L N order AD k u i j) (lin_apply_L N order AD k v i j).
Proof. intros N order AD k u v i j. unfold lin_apply_L. destruct (order =? 4)%Z; ring. Qed.

Lemma apply_B_near : forall f g i j e, f i j = g i j ->
  (forall di dj, (Z.abs di + Z.abs dj <= 1)%Z -> Cmod (Cminus (f (i + di)%Z (j + dj)%Z) (g (i + di)%Z (j + dj)%Z)) <= e) ->
  Cmod (Cminus (lin_apply_B f i j) (lin_apply_B g i j)) <= e / 3.
Proof.
  intros f g i j e E H. unfold lin_apply_B.
  pose proof (H 1%Z 0%Z ltac:(lia)) as H1. pose proof (H (-1)%Z 0%Z ltac:(lia)) as H2.
  pose proof (H 0%Z 1%Z ltac:(lia)) as H3. pose proof (H 0%Z (-1)%Z ltac:(lia)) as H4. rewrite !Z.add_0_r in *.
  change (i + -1)%Z with (i - 1)%Z in H2. change (j + -1)%Z with (j - 1)%Z in H4. rewrite E.
  set (a1 := f (i + 1)%Z j) in *. set (a2 := f (i - 1)%Z j) in *. set (a3 := f i (j + 1)%Z) in *. set (a4 := f i (j - 1)%Z) in *.
  set (b1 := g (i + 1)%Z j) in *. set (b2 := g (i - 1)%Z j) in *. set (b3 := g i (j + 1)%Z) in *. set (b4 := g i (j - 1)%Z) in *.
  match goal with |- Cmod ?t <= _ => replace t with (RtoC (1 / 12) * (((a1 - b1) + (a2 - b2)) + ((a3 - b3) + (a4 - b4))))%C by ring end.
  rewrite Cmod_mult, Cmod_R, Rabs_pos_eq by lra.
  pose proof (Cmod_triangle ((a1 - b1) + (a2 - b2)) ((a3 - b3) + (a4 - b4)))%C.
  pose proof (Cmod_triangle (a1 - b1) (a2 - b2))%C. pose proof (Cmod_triangle (a3 - b3) (a4 - b4))%C. lra.
Qed.

Lemma smooth_consistent : forall fuel lib p b N o st res, enumerating lib -> brentq_contract (lib_brentq lib) -> table_size N ->
  smooth_options (S fuel) p b N 4 = Ok o -> ps_init lib o = Ok st -> ps_run lib o st = Ok res ->
  let h := 2 * PI / IZR N in
  forall i j, region_node (curve b) N (i, j) ->
  Cmod (lin_apply_L N 4 (2 * PI) (27 / 4) (fun i j => Cminus (node_value N (res_u res) i j)
     (smooth_expected p (fst (square_pt N i j)) (snd (square_pt N i j)))) i j) <=
  match p with SmoothYCos => 4 / 15 * h ^ 4 + ((27 / 4) ^ 2 - 1) / 3 * (h * sqrt 2) ^ 3 | _ => (27 / 4) ^ 6 / 15 * h ^ 4 end.
Proof.
  intros fuel lib p b N o st res Hl Hb HN E Hi Hr h i j Hij.
  pose proof (smooth_ok fuel p b N 4 o HN (or_intror eq_refl) E) as Hok.
  assert (Hin : o_inside o i j) by (apply (region_inside fuel p b N 4 o i j HN E); exact Hij).
  pose proof (run_equation lib o st res Hl Hok Hi Hr i j Hin) as Heq.
  destruct (table_size_range N HN) as [HN1 _].
  destruct (smooth_options_ok fuel p b N 4 HN) as (nc & nr & _ & _ & E').
  assert (Eo := E'). rewrite E in Eo. apply Ok_inj' in Eo.
  assert (Heq' : lin_apply_L N 4 (2 * PI) (27 / 4) (node_value N (res_u res)) i j = lin_apply_B (st_f st) i j).
  { rewrite <- Heq. rewrite Eo. reflexivity. }
  change (fun i j => Cminus (node_value N (res_u res) i j) (smooth_expected p (fst (square_pt N i j)) (snd (square_pt N i j))))
    with (fun i j => Cminus (node_value N (res_u res) i j) (smooth_exact p N i j)).
  rewrite apply_L_minus, Heq'.
  pose proof (smooth_residual p N i j ltac:(lia) (proj1 Hij)) as Hres. fold h in Hres.
  set (Lu := lin_apply_L N 4 (2 * PI) (27 / 4) (smooth_exact p N) i j) in *.
  assert (HB : Cmod (Cminus (lin_apply_B (st_f st) i j) (lin_apply_B (smooth_exact_f p N) i j)) <=
    match p with SmoothYCos => ((27 / 4) ^ 2 - 1) / 3 * (h * sqrt 2) ^ 3 | _ => 0 end).
  { assert (Z0 : p <> SmoothYCos -> Cmod (Cminus (lin_apply_B (st_f st) i j) (lin_apply_B (smooth_exact_f p N) i j)) <= 0).
    { intros Hp. rewrite apply_B_zero, apply_B_zero.
      - unfold Cminus. rewrite Cplus_opp_r, Cmod_0. lra.
      - intros i' j'. unfold smooth_exact_f. destruct p; [reflexivity|reflexivity|congruence].
      - apply (homogeneous_f lib o st Hi); [rewrite Eo; destruct p; [reflexivity|reflexivity|congruence]|].
        intros x y. rewrite Eo. destruct p; [reflexivity|reflexivity|congruence]. }
    destruct p; try (apply Z0; discriminate).
    replace (((27 / 4) ^ 2 - 1) / 3 * (h * sqrt 2) ^ 3) with (((27 / 4) ^ 2 - 1) * (h * sqrt 2) ^ 3 / 3) by field.
    apply apply_B_near.
    - pose proof (ycos_stored fuel lib b N o st Hl Hb HN E Hi i j) as Hs.
      assert (EN : o_N o = N) by (rewrite Eo; reflexivity). unfold o_inside in Hin. rewrite EN in Hin.
      assert (HM : In (i, j) (global_Mplus N (o_interior o))) by (apply Mplus_in; exact Hin).
      assert (HK : In (i, j) (Kplus 4 N (o_interior o))) by (apply Kplus_in; [right; reflexivity|]; exists (i, j); split; [exact HM|left; reflexivity]).
      specialize (Hs HK). apply node_mem_in in HM. rewrite HM in Hs.
      pose proof (Cmod_ge_0 (Cminus (st_f st i j) (smooth_exact_f SmoothYCos N i j))) as H0.
      assert (Z : Cminus (st_f st i j) (smooth_exact_f SmoothYCos N i j) = RtoC 0) by (apply Cmod_eq_0; apply Rle_antisym; [exact Hs|exact H0]).
      replace (st_f st i j) with (Cplus (Cminus (st_f st i j) (smooth_exact_f SmoothYCos N i j)) (smooth_exact_f SmoothYCos N i j)) by ring.
      rewrite Z. ring.
    - intros di dj Hd. apply (ycos_extended fuel lib b N o st Hl Hb HN E Hi i j di dj Hij Hd). }
  replace (Cminus (lin_apply_B (st_f st) i j) Lu) with
    (Cplus (Cminus (lin_apply_B (st_f st) i j) (lin_apply_B (smooth_exact_f p N) i j)) (Cminus (lin_apply_B (smooth_exact_f p N) i j) Lu)) by ring.
  eapply Rle_trans; [apply Cmod_triangle|]. destruct p; lra.
Qed.
