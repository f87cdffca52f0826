(** Accuracy of the extension of the source at the nodes beside the outer curve. *)
From Coq Require Import ZArith List Bool Reals Lra Lia Psatz.
From Coquelicot Require Import Coquelicot.
From Verif Require Import Model_Py Model_Multivalue Model_Grid Model_Domain Model_Ext Model_Extend Spec_Grid Spec_Domain Spec_Ext Spec_Extend Spec_Inhomo Spec_Curve
  Lib_Sm Proof_Grid Proof_Domain Proof_Boundary Proof_Ext Proof_Ext2 Proof_Place Proof_Extend Proof_Extend2 Proof_ExtendF Proof_Inhomo Proof_Gentle Proof_CurvePlace
  Proof_Acc1 Proof_Acc2 Proof_Acc3 Proof_Acc4 Proof_Acc5 Proof_Acc6 Proof_AccI1 Proof_AccI2 Proof_AccI3.
Import ListNotations.
Open Scope R_scope.

(** Second derivative of the source along the curve. *)
Definition fss_curve (r : R -> R) (F : nat -> nat -> R -> R -> C) (th : R) : C :=
  let nx := fst (eval_normal r th) in
  let ny := snd (eval_normal r th) in
  let g i j := F i j (r th * cos th) (r th * sin th) in
  Cplus (Cplus (Cplus (Cmult (RtoC (ny ^ 2)) (g 2 0)%nat) (Cmult (RtoC (- 2 * nx * ny)) (g 1 1)%nat)) (Cmult (RtoC (nx ^ 2)) (g 0 2)%nat))
    (Cmult (RtoC (b_curv r th)) (Cplus (Cmult (RtoC nx) (g 1 0)%nat) (Cmult (RtoC ny) (g 0 1)%nat))).

Lemma near_pos : forall r th, sm 0 r -> 0 < r th -> exists e, 0 < e /\ forall t, th - e < t < th + e -> 0 < r t.
Proof.
  intros r th Hs Hp. pose proof (sm_cont 0 r Hs th) as Hc.
  destruct (Hc (fun z => 0 < z)) as (e & He).
  - exists (mkposreal _ Hp). intros z Hz. apply Rabs_lt_between in Hz. unfold minus, plus, opp in Hz. cbn in Hz. lra.
  - exists e. split; [apply cond_pos|]. intros t Ht. apply He. apply Rabs_lt_between. unfold minus, plus, opp. cbn. lra.
Qed.

Lemma fss_exact : forall r F Q th, good_curve r -> partials all_plane 2 F -> partials right_half 2 Q ->
  (forall r th, 0 < r -> Q 0%nat 0%nat r th = F 0%nat 0%nat (r * cos th) (r * sin th)) -> 0 < r th ->
  let q i j := Q i j (r th) th in
  polar_d2_f_s (q 0 1)%nat (q 0 2)%nat (q 1 0)%nat (q 2 0)%nat (q 1 1)%nat (b_d_th r th) (b_d2_th r th) (b_d_r r th) (b_d2_r r th) = fss_curve r F th.
Proof.
  intros r F Q th Hg HF HQ HQF Hpos q. destruct (arclength r Hg) as (Sa & Th & HS & Hinv).
  destruct (near_pos r th (g_sm r Hg 0) Hpos) as (e & He & Hloc).
  set (glo := th - e). set (ghi := th + e). assert (Hth : glo < th < ghi) by (unfold glo, ghi; lra).
  assert (Er : forall t, ex_derive r t) by (intros t; apply (sm_ex_derive 0 1 r t (g_sm r Hg 1)); lia).
  assert (Er2 : forall t, ex_derive (Derive r) t) by (intros t; apply (sm_ex_derive 0 1 (Derive r) t (g_sm1 r Hg 1)); lia).
  assert (Ev : forall l t, (l <= 2)%nat -> ex_derive (Derive_n (fun t => sqrt (r t ^ 2 + Derive r t ^ 2)) l) t) by (intros l t Hl; apply (sm_ex_derive l 4 _ t (g_speed r Hg 4)); lia).
  assert (Ek : forall l t, (l <= 1)%nat -> ex_derive (Derive_n (b_curv r) l) t) by (intros l t Hl; apply (sm_ex_derive l 4 _ t (g_curv r Hg 4)); lia).
  pose proof (g_pos r Hg) as Hv.
  set (lo := Sa glo). set (hi := Sa ghi). set (s := Sa th).
  assert (Hs : lo < s < hi) by (split; apply (Sa_incr r Sa Hv HS); lra).
  assert (Es : Th s = th) by apply (Th_Sa r Sa Th Hv HS Hinv).
  assert (HP : forall u, lo < u < hi -> glo < Th u < ghi) by (intros u Hu; apply (Th_range r Sa Th Hv HS Hinv); exact Hu).
  assert (HC : unit_curve lo hi (pcX r Th) (pcY r Th) (pctx r Th) (pcty r Th) (pckap r Th)) by (apply (pc_unit r Sa Th Hv HS Hinv Er Er2 Ev Ek)).
  destruct (source_traces all_plane lo hi _ _ _ _ _ F s all_plane_open HC (fun _ _ => I) HF Hs) as [_ ST].
  assert (HU : forall t, glo < t < ghi -> right_half (r t) t) by (intros t Ht; apply Hloc; exact Ht).
  pose proof (polar_d2_f_s_spec r Sa Th Hv HS Hinv Er Er2 Ev right_half Q glo ghi s HQ HU ltac:(rewrite Es; exact Hth)) as PS. cbv zeta in PS. rewrite Es in PS.
  unfold q. rewrite PS.
  assert (Eq : CDerive_n (fun s => Q 0%nat 0%nat (r (Th s)) (Th s)) 2 s = CDerive_n (trace0 F (pcX r Th) (pcY r Th)) 2 s).
  { apply (CDerive_n_ext_loc _ _ lo hi); [|exact Hs]. intros u Hu. unfold trace0, pcX, pcY. apply HQF, Hloc, HP, Hu. }
  rewrite Eq, ST. unfold fss_curve, trace1, pcX, pcY, pctx, pcty, pckap. rewrite Es.
  assert (NN : fst (eval_normal r th) = snd (eval_tangent r th) /\ snd (eval_normal r th) = - fst (eval_tangent r th)).
  { unfold eval_normal. destruct (eval_tangent r th); split; reflexivity. }
  rewrite (proj1 NN), (proj2 NN). reflexivity.
Qed.

Lemma wex_curve : forall k r F th n, let nx := fst (eval_normal r th) in let ny := snd (eval_normal r th) in
  let g i j := F i j (r th * cos th) (r th * sin th) in
  wex k (b_curv r th) F (r th * cos th) (r th * sin th) nx ny n =
  inhomo_extend_arbitrary k n (b_curv r th) (g 0 0)%nat (cdot ((g 1 0)%nat, (g 0 1)%nat) (nx, ny))
    (quad_form (((g 2 0)%nat, (g 1 1)%nat), ((g 1 1)%nat, (g 0 2)%nat)) (nx, ny)) (fss_curve r F th).
Proof.
  intros k r F th n nx ny g. unfold wex. cbv zeta. unfold fss_curve. cbv zeta. fold nx ny. unfold quad_form, mat_vec, cdot; cbn [fst snd]; unfold g.
  set (a := F 1%nat 0%nat _ _). set (b := F 0%nat 1%nat _ _). set (aa := F 2%nat 0%nat _ _). set (ab := F 1%nat 1%nat _ _). set (bb := F 0%nat 2%nat _ _).
  f_equal; apply injective_projections; unfold Cplus, Cmult, RtoC; cbn [fst snd]; ring.
Qed.

(** ** The side of the curve *)

Lemma normal_polar : forall r th, good_curve r -> exists v, 0 < v /\ r th ^ 2 <= v ^ 2 /\
  fst (eval_normal r th) * cos th + snd (eval_normal r th) * sin th = r th / v /\
  - fst (eval_normal r th) * sin th + snd (eval_normal r th) * cos th = - (Derive r th / v).
Proof.
  intros r th Hg. pose proof (g_speed_pos r Hg th) as Pv. set (v := b_d_s r th) in *.
  assert (Ev : sqrt (b_d_x r th ^ 2 + b_d_y r th ^ 2) = v) by (unfold v, b_d_s; rewrite (g_dxy r Hg); reflexivity).
  assert (D : is_derive r th (Derive r th)) by (apply (sm_Derive 0), (g_sm r Hg)).
  assert (Ex : b_d_x r th = Derive r th * cos th + r th * - sin th).
  { apply is_derive_unique, der_mult; [exact D|]. auto_derive; [exact I|ring]. }
  assert (Ey : b_d_y r th = Derive r th * sin th + r th * cos th).
  { apply is_derive_unique, der_mult; [exact D|]. auto_derive; [exact I|ring]. }
  assert (En : eval_normal r th = (b_d_y r th / v, - (b_d_x r th / v))) by (unfold eval_normal, eval_tangent; cbv zeta; rewrite Ev; reflexivity).
  exists v. split; [exact Pv|]. split.
  { replace (v ^ 2) with (v * v) by ring. unfold v, b_d_s. rewrite sqrt_sqrt by (pose proof (g_pos r Hg th); unfold b_d_r; lra). pose proof (pow2_ge_0 (b_d_r r th)). lra. }
  rewrite En. cbn [fst snd]. rewrite Ex, Ey. pose proof (sc2 th) as S2. assert (S3 : sin th * sin th = 1 - cos th * cos th) by lra.
  split; field [S3]; lra.
Qed.

Lemma side_of_curve : forall r th th2 n r2, gentle r -> good_curve r -> PI / 8 <= th <= 2 * PI + PI / 8 -> PI / 8 <= th2 <= 2 * PI + PI / 8 ->
  Rabs (th2 - th) <= PI / 7 -> 0 <= r2 -> Rabs n <= 5555 / 10000 -> n <> 0 ->
  r2 * cos th2 = r th * cos th + n * fst (eval_normal r th) -> r2 * sin th2 = r th * sin th + n * snd (eval_normal r th) ->
  (n < 0 -> r2 < r th2) /\ (0 < n -> r th2 < r2).
Proof.
  intros r th th2 n r2 Hr Hg Hth Hth2 Hdel Hr2 Hn Hn0 Hx Hy. pose proof PI_num as HPI.
  destruct (normal_polar r th Hg) as (v & Hv & Hrv & N1 & N2).
  pose proof Hr as (r1 & rr2 & D1 & _ & B0 & B1 & _). pose proof (B0 th Hth) as R0. pose proof (B1 th Hth) as S0.
  assert (Er1 : Derive r th = r1 th) by (apply is_derive_unique, D1). rewrite Er1 in N2.
  set (m := n * (r th / v)). set (A := r2 * cos (th2 - th)). set (Bt := r2 * sin (th2 - th)).
  pose proof (sc2 th) as S2. assert (S3 : sin th * sin th = 1 - cos th * cos th) by lra.
  assert (EA : A = r th + m).
  { unfold A, m. rewrite cos_minus, <- N1. transitivity ((r2 * cos th2) * cos th + (r2 * sin th2) * sin th); [ring|]. rewrite Hx, Hy. ring [S3]. }
  assert (EB : Bt = - (m * (r1 th / r th))).
  { assert (E1 : Bt = - (n * (r1 th / v))).
    { unfold Bt. rewrite sin_minus. replace (- (n * (r1 th / v))) with (n * - (r1 th / v)) by ring. rewrite <- N2.
      transitivity ((r2 * sin th2) * cos th - (r2 * cos th2) * sin th); [ring|]. rewrite Hx, Hy. ring. }
    rewrite E1. unfold m. field. lra. }
  assert (Hq : Rabs (r1 th / r th) <= 10 / 63).
  { unfold Rdiv. rewrite Rabs_mult, (Rabs_pos_eq (/ r th)) by (apply Rlt_le, Rinv_0_lt_compat; lra).
    replace (10 * / 63) with (2 / 7 * (5 / 9)) by field. apply Rmult_le_compat; [apply Rabs_pos|apply Rlt_le, Rinv_0_lt_compat; lra|exact S0|].
    replace (5 / 9) with (/ (9 / 5)) by field. apply Rinv_le_contravar; lra. }
  assert (Hrv1 : 0 < r th / v <= 1).
  { split; [apply Rdiv_lt_0_compat; lra|]. apply Rmult_le_reg_r with v; [exact Hv|]. replace (r th / v * v) with (r th) by (field; lra).
    rewrite Rmult_1_l. apply Rsqr_incr_0_var; [unfold Rsqr; lra|lra]. }
  assert (Hm : Rabs m <= 5555 / 10000).
  { unfold m. rewrite Rabs_mult, (Rabs_pos_eq (r th / v)) by lra. pose proof (Rabs_pos n).
    assert (Rabs n * (r th / v) <= 5555 / 10000 * 1) by (apply Rmult_le_compat; lra). lra. }
  assert (HB : Rabs Bt <= 10 / 63 * Rabs m).
  { rewrite EB, Rabs_Ropp, Rabs_mult, (Rmult_comm (10 / 63)). apply Rmult_le_compat_l; [apply Rabs_pos|exact Hq]. }
  assert (HA : 12 / 10 <= A) by (rewrite EA; apply Rabs_le_between in Hm; lra).
  set (dl := th2 - th) in *.
  assert (Hle : A <= r2).
  { unfold A. rewrite <- (Rmult_1_r r2) at 2. apply Rmult_le_compat_l; [exact Hr2|apply COS_bound]. }
  assert (Hsq : r2 ^ 2 = A ^ 2 + Bt ^ 2) by (unfold A, Bt; pose proof (sc2 dl) as S4; assert (S5 : sin dl * sin dl = 1 - cos dl * cos dl) by lra; ring [S5]).
  assert (Hup : r2 <= A + Rabs Bt).
  { pose proof (Rabs_pos Bt). apply Rsqr_incr_0_var; [|lra]. unfold Rsqr. replace (r2 * r2) with (r2 ^ 2) by ring. rewrite Hsq, <- (pow2_abs Bt).
    assert (0 <= A * Rabs Bt) by (apply Rmult_le_pos; lra). lra. }
  (* the change of angle *)
  assert (Hd : Rabs dl <= Rabs Bt).
  { assert (Sa : Rabs (sin dl) = sin (Rabs dl)).
    { unfold Rabs at 2. destruct (Rcase_abs dl).
      - rewrite sin_neg. apply Rabs_left1. pose proof (sin_ge_0 (- dl)) as Q. rewrite sin_neg in Q. rewrite Rabs_left in Hdel by lra. lra.
      - apply Rabs_pos_eq. rewrite Rabs_pos_eq in Hdel by lra. apply sin_ge_0; lra. }
    pose proof (Rabs_pos dl) as Pd. pose proof (sin_lower (Rabs dl) ltac:(lra)) as SL.
    assert (Q2 : Rabs dl ^ 3 <= Rabs dl * (1 / 4)).
    { replace (Rabs dl ^ 3) with (Rabs dl * (Rabs dl * Rabs dl)) by ring. apply Rmult_le_compat_l; [lra|].
      apply Rle_trans with (1 / 2 * (1 / 2)); [apply Rmult_le_compat; lra|lra]. }
    unfold Bt. rewrite Rabs_mult, (Rabs_pos_eq r2), Sa by exact Hr2.
    assert (12 / 10 * (23 / 24 * Rabs dl) <= r2 * sin (Rabs dl)) by (apply Rmult_le_compat; lra). lra. }
  assert (Hrr : Rabs (r th2 - r th) <= 2 / 7 * Rabs dl).
  { destruct (MVT_gen r th th2 r1) as (u & Hu & E).
    - intros u _. apply D1.
    - intros u _. apply continuity_pt_filterlim. apply (ex_derive_continuous r). eexists. apply D1.
    - rewrite E. fold dl. rewrite Rabs_mult. apply Rmult_le_compat_r; [apply Rabs_pos|]. apply B1.
      unfold Rmin, Rmax in Hu. destruct (Rle_dec th th2); lra. }
  apply Rabs_le_between in Hrr.
  split; intros Hs.
  - assert (m < 0) by (unfold m; nra). rewrite (Rabs_left m) in HB by assumption. lra.
  - assert (0 < m) by (unfold m; apply Rmult_lt_0_compat; lra). rewrite (Rabs_pos_eq m) in HB by lra. lra.
Qed.
