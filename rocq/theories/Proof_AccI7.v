(** The source of smooth-ycos, and the runs of the smooth problems (C85). *)
From Coq Require Import ZArith List Bool Reals Lra Lia Psatz.
From Coquelicot Require Import Coquelicot.
From Verif Require Import Model_Py Model_Multivalue Model_Grid Model_Fourier Model_Linop Model_Abcoef Model_PS Model_Domain Model_Chebyshev
  Model_Ext Model_Extend Model_Problems Model_Driver Model_Run Model_Program
  Spec_Grid Spec_Domain Spec_Chebyshev Spec_PS Spec_Ext Spec_Extend Spec_Inhomo Spec_Run Spec_Program Spec_Curve Spec_Bound Spec_Accuracy Spec_ExtTest
  Lib_Csum Lib_Sm Proof_Grid Proof_Domain Proof_Hessian Proof_Fourier Proof_PS Proof_Ext Proof_Ext2 Proof_Extend Proof_Smooth Proof_Log Proof_Run Proof_RunEx Proof_Gentle Proof_CurvePlace Proof_Program Proof_CurveRun Proof_Source
  Proof_Bound Proof_BoundEx Proof_Acc2 Proof_Acc3 Proof_Acc6 Proof_Acc7 Proof_Acc8 Proof_AccEx Proof_ExtTest Proof_AccI6.
Import ListNotations.
Open Scope R_scope.

Local Notation table_size := Spec_Program.table_size.
Local Notation curve b := (boundary_r b (23 / 10) None (PI / 4)).

(** ** The source *)

Lemma dpl_diff : forall (f g : R -> R -> R) x y a b a' b', differentiable_pt_lim f x y a b -> differentiable_pt_lim g x y a' b' ->
  differentiable_pt_lim (fun u v => f u v - g u v) x y (a - a') (b - b').
Proof.
  intros f g x y a b a' b' Hf Hg. pose proof (dpl_sum _ _ _ _ _ _ _ _ Hf (dpl_scal (-1) _ _ _ _ _ Hg)) as H.
  apply (differentiable_pt_lim_ext _ (fun u v => f u v - g u v)) in H.
  - eapply dpl_value; [exact H| |]; ring.
  - exists (mkposreal 1 Rlt_0_1). intros u v _ _. ring.
Qed.

Lemma dpl_opp : forall (f : R -> R -> R) x y a b, differentiable_pt_lim f x y a b -> differentiable_pt_lim (fun u v => - f u v) x y (- a) (- b).
Proof.
  intros f x y a b Hf. pose proof (dpl_scal (-1) _ _ _ _ _ Hf) as H.
  apply (differentiable_pt_lim_ext _ (fun u v => - f u v)) in H.
  - eapply dpl_value; [exact H| |]; ring.
  - exists (mkposreal 1 Rlt_0_1). intros u v _ _. ring.
Qed.

Lemma dpl_cos : forall f x y a b, differentiable_pt_lim f x y a b -> differentiable_pt_lim (fun u v => cos (f u v)) x y (- sin (f x y) * a) (- sin (f x y) * b).
Proof. intros f x y a b H. apply (dpl_comp1 cos f); [apply is_derive_cos|exact H]. Qed.
Lemma dpl_sin : forall f x y a b, differentiable_pt_lim f x y a b -> differentiable_pt_lim (fun u v => sin (f u v)) x y (cos (f x y) * a) (cos (f x y) * b).
Proof. intros f x y a b H. apply (dpl_comp1 sin f); [apply is_derive_sin|exact H]. Qed.
Lemma dpl_pow : forall n f x y a b, differentiable_pt_lim f x y a b ->
  differentiable_pt_lim (fun u v => f u v ^ n) x y (INR n * f x y ^ pred n * a) (INR n * f x y ^ pred n * b).
Proof. intros n f x y a b H. apply (dpl_comp1 (fun t => t ^ n) f); [auto_derive; [exact I|ring]|exact H]. Qed.

Ltac dpl_go :=
  lazymatch goal with
  | |- differentiable_pt_lim (fun u _ => u) _ _ _ _ => apply dpl_x
  | |- differentiable_pt_lim (fun _ v => v) _ _ _ _ => apply dpl_snd
  | |- differentiable_pt_lim (fun _ _ => ?c) _ _ _ _ => apply dpl_const
  | |- differentiable_pt_lim (fun u v => @?f u v + @?g u v) _ _ _ _ => eapply (dpl_sum f g); dpl_go
  | |- differentiable_pt_lim (fun u v => @?f u v - @?g u v) _ _ _ _ => eapply (dpl_diff f g); dpl_go
  | |- differentiable_pt_lim (fun u v => @?f u v * @?g u v) _ _ _ _ => eapply (dpl_prod f g); dpl_go
  | |- differentiable_pt_lim (fun u v => - @?f u v) _ _ _ _ => eapply (dpl_opp f); dpl_go
  | |- differentiable_pt_lim (fun u v => cos (@?f u v)) _ _ _ _ => eapply (dpl_cos f); dpl_go
  | |- differentiable_pt_lim (fun u v => sin (@?f u v)) _ _ _ _ => eapply (dpl_sin f); dpl_go
  | |- differentiable_pt_lim (fun u v => @?f u v ^ ?n) _ _ _ _ => eapply (dpl_pow n f); dpl_go
  end.

Lemma real_partials : forall (O : R -> R -> Prop) m (D : nat -> nat -> R -> R -> R),
  (forall i j x y, (i + j < m)%nat -> O x y -> differentiable_pt_lim (D i j) x y (D (S i) j x y) (D i (S j) x y)) ->
  partials O m (fun i j x y => RtoC (D i j x y)).
Proof. intros O m D H i j x y Hij Ho. split; [exact (H i j x y Hij Ho)|exact (dpl_const 0 x y)]. Qed.

Definition ycos_FC : nat -> nat -> R -> R -> C := fun i j x y => RtoC (ycos_D (27 / 4) i j x y).
Definition ycos_QC : nat -> nat -> R -> R -> C := fun i j r th => RtoC (ycos_Q (27 / 4) i j r th).

Lemma ycos_FC_partials : partials plane 2 ycos_FC.
Proof.
  apply real_partials. intros i j x y Hij _.
  destruct i as [|[|i]], j as [|[|j]]; try (exfalso; lia); unfold ycos_D; (eapply dpl_value; [dpl_go| |]); ring.
Qed.

Lemma ycos_QC_partials : partials (fun r _ => 0 < r) 2 ycos_QC.
Proof.
  apply real_partials. intros i j r th Hij _.
  destruct i as [|[|i]], j as [|[|j]]; try (exfalso; lia); unfold ycos_Q, ycos_f; cbv zeta; (eapply dpl_value; [dpl_go| |]); cbn [INR pred pow]; ring.
Qed.

Lemma ycos_source_of : source_of (smooth_source SmoothYCos) ycos_FC ycos_QC.
Proof.
  cbn [smooth_source]. destruct (sympy_both problem_AD (ycos_f (27 / 4)) (ycos_F (27 / 4)) (ycos_D (27 / 4)) (ycos_Q (27 / 4))) as [Hc Hp].
  { intros; apply ycos_polar. }
  { intros x y _. split; [reflexivity|]. split; [apply ycos_F_grad|apply ycos_F_hessian]. }
  { apply ycos_Q_partials. }
  split; [|split; [exact Hc|split; [exact Hp|split; [exact ycos_QC_partials|]]]].
  - intros x y. cbn [sympy_source s_f]. unfold smooth_k.
    rewrite (ycos_source 0 problem_AD (27 / 4) x y ltac:(unfold problem_AD; pose proof PI_RGT_0; lra)). reflexivity.
  - intros r th _. unfold ycos_QC, ycos_FC, ycos_Q, ycos_D, ycos_f. cbv zeta. f_equal. ring.
Qed.

Lemma ycos_helmholtz : helmholtz plane (27 / 4) (smooth_D SmoothYCos) ycos_FC.
Proof.
  intros x y _. unfold smooth_D, smooth_sep, ycos_FC, ycos_D, cosf, mono. cbn [sep mono_ce fst snd pow INR pred].
  replace (1 * x + 0 * (PI / 2)) with x by ring. replace (1 * x + (1 + 1) * (PI / 2)) with (x + PI) by field. rewrite neg_cos.
  apply injective_projections; unfold Cplus, Cmult, RtoC; cbn [fst snd]; field.
Qed.

Lemma ycos_bound : square_bound (smooth_D SmoothYCos) (8 * (27 / 4) ^ 6).
Proof.
  pose proof PI_num as HP. split; [lra|]. intros i j x y Hij Hx Hy.
  assert (Hc : Rabs (cosf 1 i x) <= 1) by (eapply Rle_trans; [apply (trig_fam 1 1 i x); [left; reflexivity|rewrite Rabs_R1; lra|lra|lia]|rewrite pow1; lra]).
  assert (Hm : Rabs (mono 1 j y) <= 4).
  { unfold mono. destruct j as [|[|[|[|[|[|[|j]]]]]]]; [| | | | | | |lia]; cbn [mono_ce fst snd pow INR pred]; rewrite ?Rmult_0_r, ?Rmult_0_l, ?Rmult_1_l, ?Rmult_1_r, ?Rabs_R0, ?Rabs_R1; lra. }
  assert (E : smooth_D SmoothYCos i j x y = RtoC (cosf 1 i x * mono 1 j y)).
  { unfold smooth_D, smooth_sep. cbn [sep fst snd]. apply injective_projections; unfold Cplus, RtoC; cbn [fst snd]; ring. }
  rewrite E, Cmod_R, Rabs_mult. apply Rle_trans with (1 * 4); [apply Rmult_le_compat; try apply Rabs_pos; assumption|lra].
Qed.

Lemma smooth_bound_all : forall p, square_bound (smooth_D p) (8 * (27 / 4) ^ 6).
Proof. intros [| |]; [apply smooth_D_bound; discriminate|apply smooth_D_bound; discriminate|apply ycos_bound]. Qed.

(** ** The runs of the smooth problems *)

(** What the runs of the smooth problems work with. *)
Lemma smooth_state : forall fuel lib p b N o st, enumerating lib -> brentq_contract (lib_brentq lib) -> table_size N ->
  smooth_options (S fuel) p b N 4 = Ok o -> ps_init lib o = Ok st ->
  ctx_wf (st_ctx st) /\ curve_solver (lib_brentq lib) 4 (curve b) (st_ctx st) /\ ec_k (st_ctx st) = 27 / 4 /\ ec_N (st_ctx st) = N /\
  ec_homogeneous (st_ctx st) = smooth_homogeneous p /\ ec_src (st_ctx st) = smooth_source p /\ ps_gamma (st_ps st) = ec_union (st_ctx st).
Proof.
  intros fuel lib p b N o st Hl Hb HN E1 Hi.
  pose proof (smooth_ok fuel p b N 4 o HN (or_intror eq_refl) E1) as Hok.
  destruct (smooth_options_ok fuel p b N 4 HN) as (nc & nr & _ & _ & E').
  pose proof (smooth_curve_options fuel lib p b N 4 o Hb HN E1) as Hcv.
  rewrite E1 in E'. apply Ok_inj' in E'.
  destruct (ps_init_inv _ o st Hi) as (nc' & nr' & c' & f & b' & A' & Hn & Ec & Ef & _ & Est).
  pose proof (init_ctx_inv _ _ _ _ Ec) as (g0 & g1 & g2 & _ & Ec').
  destruct (curve_ctx lib o (fst (setup_basis nc' nr')) Hl Hok Hcv) as (c & Ec2 & Hwf & Hcs). rewrite Ec2 in Ec. injection Ec as ->.
  assert (Er : o_r o = curve b) by (rewrite E'; reflexivity). assert (Eord : o_order o = 4%Z) by (rewrite E'; reflexivity).
  assert (Ek : o_k o = 27 / 4) by (rewrite E'; reflexivity). assert (EN : o_N o = N) by (rewrite E'; reflexivity).
  assert (Eh : o_homogeneous o = smooth_homogeneous p) by (rewrite E'; reflexivity). assert (Es : o_src o = smooth_source p) by (rewrite E'; reflexivity).
  rewrite Er, Eord in Hcs.
  assert (Esc : st_ctx st = c') by (rewrite Est; reflexivity). rewrite (st_gamma lib o st Hi).
  rewrite Esc. split; [exact Hwf|]. split; [exact Hcs|]. rewrite Ec'. cbn [ec_k ec_N ec_homogeneous ec_src]. auto 6.
Qed.

Lemma smooth_boundary : forall b, exists K, 0 <= K /\ forall fuel lib p N o st D un eps c0 c1,
  enumerating lib -> brentq_contract (lib_brentq lib) -> table_size N ->
  smooth_options (S fuel) p b N 4 = Ok o -> ps_init lib o = Ok st -> (p = SmoothYCos -> Spec_Curve.off_curve (curve b) N) ->
  solution_family p D -> normal_trace (curve b) (PI / 4) D un -> 0 <= eps ->
  fits (23 / 10) (PI / 4) (ec_B (st_ctx st)) c0 (value_trace (curve b) (PI / 4) D) eps -> fits (23 / 10) (PI / 4) (ec_B (st_ctx st)) c1 un eps ->
  exists e, extend_boundary (with_basis (st_ctx st) (ec_B (st_ctx st)) c0 c1) SrcCoef false = Ok e /\ length e = length (ps_gamma (st_ps st)) /\
    sample_gap st N (exact_solution p) e <= INR (length (ps_gamma (st_ps st))) * (K * (eps + (2 * PI / IZR N) ^ 5)) ^ 2.
Proof.
  intros b. destruct (accuracy_boundary b (27 / 4)) as (K1 & HK1 & A1). destruct (source_boundary b (27 / 4)) as (K2 & HK2 & A2).
  set (M := 8 * (27 / 4) ^ 6). assert (HM : 1 <= M) by (unfold M; lra).
  exists ((K1 + K2) * M). split; [apply Rmult_le_pos; lra|].
  intros fuel lib p N o st D un eps c0 c1 Hl Hb HN E1 Hi Hoff HD Hun He F0 F1.
  destruct (smooth_state fuel lib p b N o st Hl Hb HN E1 Hi) as (Hwf & Hcs & Ek & EN & Eh & Es & Eg).
  destruct (table_size_range N HN) as [HN1 _].
  set (h := 2 * PI / IZR N). assert (Hh : 0 < h) by (unfold h; pose proof PI_RGT_0; apply Rdiv_lt_0_compat; [lra|apply IZR_lt; lia]).
  assert (Hh5 : 0 < h ^ 5) by (apply pow_lt; exact Hh).
  set (cx := with_basis (st_ctx st) (ec_B (st_ctx st)) c0 c1).
  assert (HB : square_bound D M).
  { split; [lra|]. intros i j x y Hij Hx Hy. rewrite (family_eq p D HD) by exact Hij. apply (smooth_bound_all p); assumption. }
  assert (G : exists e, extend_boundary cx SrcCoef false = Ok e /\ length e = length (ec_union cx) /\
    forall l q, nth_error (ec_union cx) l = Some q -> Cmod (Cminus (as_vec e l) (D 0%nat 0%nat (fst (ctx_coord cx q)) (snd (ctx_coord cx q)))) <= (K1 + K2) * M * (eps + h ^ 5)).
  { assert (Mono : forall K, 0 <= K -> K <= K1 + K2 -> K * (eps + M * h ^ 5) <= (K1 + K2) * M * (eps + h ^ 5)).
    { intros K P1 P2. apply Rle_trans with ((K1 + K2) * (eps + M * h ^ 5)).
      - apply Rmult_le_compat_r; [|exact P2]. assert (0 <= M * h ^ 5) by (apply Rmult_le_pos; lra). lra.
      - rewrite Rmult_assoc. apply Rmult_le_compat_l; [lra|]. assert (0 <= (M - 1) * eps) by (apply Rmult_le_pos; lra). lra. }
    assert (Hol : p <> SmoothYCos -> exists e, extend_boundary cx SrcCoef false = Ok e /\ length e = length (ec_union cx) /\
      forall l q, nth_error (ec_union cx) l = Some q -> Cmod (Cminus (as_vec e l) (D 0%nat 0%nat (fst (ctx_coord cx q)) (snd (ctx_coord cx q)))) <= (K1 + K2) * M * (eps + h ^ 5)).
    { intros Hp.
      assert (Hom : ec_homogeneous (st_ctx st) = true) by (rewrite Eh; destruct p; [reflexivity|reflexivity|congruence]).
      assert (PDE : helmholtz plane (27 / 4) D (fun _ _ _ _ => RtoC 0)).
      { intros x y Hx. rewrite !(family_eq p D HD) by lia. apply (smooth_D_helmholtz p Hp x y Hx). }
      destruct (A1 (lib_brentq lib) 4%Z cx D un M eps false Hb (or_intror eq_refl) Hcs Hwf Ek (proj1 HD) PDE HB Hun He F0 F1 (or_introl Hom)) as (e & Ee & Le & H).
      exists e. split; [exact Ee|]. split; [exact Le|]. intros l q El. eapply Rle_trans; [apply (H l q El)|]. unfold cx. cbn [with_basis ec_N]. rewrite EN. apply Mono; lra. }
    destruct p; try (apply Hol; discriminate).
    assert (Hom : ec_homogeneous (st_ctx st) = false) by (rewrite Eh; reflexivity).
    assert (PDE : helmholtz plane (27 / 4) D ycos_FC).
    { intros x y Hx. rewrite !(family_eq SmoothYCos D HD) by lia. apply (ycos_helmholtz x y Hx). }
    assert (Hoff' : Spec_Curve.off_curve (curve b) (ec_N cx)) by (unfold cx; cbn [with_basis ec_N]; rewrite EN; apply Hoff; reflexivity).
    assert (Hs : source_of (ec_src cx) ycos_FC ycos_QC) by (unfold cx; cbn [with_basis ec_src]; rewrite Es; exact ycos_source_of).
    destruct (A2 (lib_brentq lib) 4%Z cx D ycos_FC ycos_QC un M eps Hb (or_intror eq_refl) Hcs Hwf Ek Hom Hoff' Hs (proj1 HD) ycos_FC_partials PDE HB Hun He F0 F1) as (e & Ee & Le & H).
    exists e. split; [exact Ee|]. split; [exact Le|]. intros l q El. eapply Rle_trans; [apply (H l q El)|]. unfold cx. cbn [with_basis ec_N]. rewrite EN. apply Mono; lra. }
  destruct G as (e & Ee & Le & H). exists e. split; [exact Ee|]. rewrite Eg. split; [exact Le|].
  set (E := (K1 + K2) * M * (eps + h ^ 5)) in *.
  rewrite <- rsum_const. unfold sample_gap. rewrite Eg. apply rsum_le. intros l Hlt.
  destruct (nth_error (ec_union (st_ctx st)) l) as [[i j]|] eqn:En; [|apply nth_error_None in En; lia].
  specialize (H l (i, j) En).
  assert (Ecc : ctx_coord cx (i, j) = square_pt N i j).
  { unfold ctx_coord, cx. cbn [with_basis ec_AD ec_N fst snd]. destruct Hcs as (_ & _ & EA & _). rewrite EA, EN. apply square_coord. lia. }
  rewrite Ecc, (proj2 HD) in H. apply pow_incr. split; [apply Cmod_ge_0|]. rewrite <- Cmod_opp.
  replace (Copp _) with (Cminus (as_vec e l) (exact_solution p (fst (square_pt N i j)) (snd (square_pt N i j)))) by ring. exact H.
Qed.

Lemma sample_gap_ext : forall st N w w' e, (forall x y, w x y = w' x y) -> sample_gap st N w e = sample_gap st N w' e.
Proof.
  intros st N w w' e H. unfold sample_gap. apply rsum_ext. intros l _. destruct (nth_error _ l) as [[i j]|]; [rewrite H|]; reflexivity.
Qed.

(** The grid function of the exact solution. *)
Lemma smooth_grid : forall fuel lib p b N o st res, enumerating lib -> brentq_contract (lib_brentq lib) -> table_size N ->
  smooth_options (S fuel) p b N 4 = Ok o -> ps_init lib o = Ok st -> ps_run lib o st = Ok res ->
  let h := 2 * PI / IZR N in
  let eta := match p with SmoothYCos => 4 / 15 * h ^ 4 + ((27 / 4) ^ 2 - 1) / 3 * (h * sqrt 2) ^ 3 | _ => (27 / 4) ^ 6 / 15 * h ^ 4 end in
  exists v, 0 <= eta /\ (forall i j, o_inside o i j -> Cmod (Cminus (o_L o v i j) (lin_apply_B (st_f st) i j)) <= eta) /\
    (forall e, boundary_gap st v e = sample_gap st N (exact_solution p) e) /\
    (forall err B, res_error res = Some err ->
       (forall i j, reached (st_ps st) (i, j) -> Cmod (Cminus (node_value (ps_N (st_ps st)) (res_u res) i j) (node_value (ps_N (st_ps st)) v i j)) <= B) -> err <= B).
Proof.
  intros fuel lib p b N o st res Hl Hb HN E Hi Hr h.
  pose proof (smooth_consistent fuel lib p b N o st res Hl Hb HN E Hi Hr) as Hcons. cbv zeta in Hcons. fold h in Hcons.
  set (eta := match p with SmoothYCos => _ | _ => _ end) in *. cbv zeta.
  pose proof (smooth_ok fuel p b N 4 o HN (or_intror eq_refl) E) as Hok.
  pose proof (st_usable lib o st Hl Hok Hi) as U.
  destruct (ps_params lib o st Hi) as (PN & PO & PA & PK).
  destruct (table_size_range N HN) as [HN1 _].
  destruct (smooth_options_ok fuel p b N 4 HN) as (nc & nr & _ & _ & E').
  assert (Eo := E'). rewrite E in Eo. apply Ok_inj' in Eo.
  assert (EN : o_N o = N) by (rewrite Eo; reflexivity).
  assert (Eord : o_order o = 4%Z) by (rewrite Eo; reflexivity).
  assert (EAD : o_AD o = 2 * PI) by (rewrite Eo; reflexivity).
  assert (Ek : o_k o = 27 / 4) by (rewrite Eo; reflexivity).
  assert (Hh : 0 < h) by (unfold h; pose proof PI_RGT_0; apply Rdiv_lt_0_compat; [lra|apply IZR_lt; lia]).
  set (v := fun i j => smooth_exact p N (i + 1)%Z (j + 1)%Z).
  assert (Hval : forall i j, in_open_grid N (i, j) -> node_value N v i j = smooth_exact p N i j).
  { intros i j Hij. rewrite node_value_in by exact Hij. unfold v. f_equal; lia. }
  exists v. split; [|split; [|split]].
  - unfold eta. assert (0 < h ^ 4) by (apply pow_lt; exact Hh).
    assert (0 < (h * sqrt 2) ^ 3) by (apply pow_lt, Rmult_lt_0_compat; [exact Hh|apply sqrt_lt_R0; lra]). destruct p; lra.
  - intros i j Hij. rewrite <- (run_equation lib o st res Hl Hok Hi Hr i j Hij).
    pose proof (Hcons i j (proj1 (region_inside fuel p b N 4 o i j HN E) Hij)) as K. rewrite apply_L_minus in K.
    destruct Hok as (_ & _ & _ & Hm & _). destruct Hij as [Hg Hint]. specialize (Hm i j Hg Hint). rewrite EN in Hm.
    assert (EL : o_L o v i j = lin_apply_L N 4 (2 * PI) (27 / 4) (smooth_exact p N) i j).
    { unfold o_L. rewrite EN, Eord, EAD, Ek. apply lin_apply_L_ext. intros i' j' H1 H2 _. apply Hval. unfold in_open_grid. cbn [fst snd]. lia. }
    rewrite EL. unfold o_L. rewrite EN, Eord, EAD, Ek, <- Cmod_opp.
    replace (Copp _) with (Cminus (lin_apply_L N 4 (2 * PI) (27 / 4) (node_value N (res_u res)) i j) (lin_apply_L N 4 (2 * PI) (27 / 4) (smooth_exact p N) i j)) by ring.
    exact K.
  - intros e. rewrite <- (sample_gap_ext st N (smooth_expected p) (exact_solution p)) by apply smooth_expected_exact.
    unfold boundary_gap, sample_gap. rewrite PN, EN. cbv zeta. apply rsum_ext. intros l Hlt. unfold nth_value.
    destruct (nth_error (ps_gamma (st_ps st)) l) as [[i j]|] eqn:En; [|apply nth_error_None in En; lia].
    rewrite Hval; [reflexivity|]. pose proof (us_inside _ U (i, j)) as Hin. rewrite <- EN, <- PN. apply Hin. eapply nth_error_In; exact En.
  - intros err B Ee HB. pose proof (run_error lib o st res Hl Hr) as He. rewrite Ee in He. destruct He as [_ [([i j] & Hq1 & Hq2) _]]. cbn [fst snd] in Hq1, Hq2.
    assert (Hreach : reached (st_ps st) (i, j)).
    { exists (i, j). split; [apply (st_inside lib o st Hi); exact Hq1|apply neighbour_refl]. }
    specialize (HB i j Hreach). rewrite <- Hq2. rewrite PN in HB. rewrite <- Cmod_opp.
    assert (Ex : o_expected o (fst (get_coord (o_AD o) (o_N o) i j)) (snd (get_coord (o_AD o) (o_N o) i j)) = node_value (o_N o) v i j).
    { rewrite EN, EAD, square_coord, Hval by (try lia; rewrite <- EN; apply Hq1). rewrite Eo. reflexivity. }
    rewrite Ex. replace (Copp _) with (Cminus (node_value (o_N o) (res_u res) i j) (node_value (o_N o) v i j)) by ring. exact HB.
Qed.

Lemma smooth_error : forall b, exists K, 0 <= K /\ forall fuel lib p N, enumerating lib -> fit_sizes lib -> brentq_contract (lib_brentq lib) -> table_size N ->
  (p = SmoothYCos -> Spec_Curve.off_curve (curve b) N) ->
  exists o st res err, smooth_options (S fuel) p b N 4 = Ok o /\ ps_init lib o = Ok st /\ ps_run lib o st = Ok res /\ res_error res = Some err /\
  forall delta D un eps, eig_gap o delta -> solution_family p D -> normal_trace (curve b) (PI / 4) D un -> 0 <= eps ->
  let h := 2 * PI / IZR N in
  let E := sqrt (INR (length (ps_gamma (st_ps st)))) * (K * (eps + h ^ 5)) in
  let res_part := residual_part o delta (match p with SmoothYCos => 4 / 15 * h ^ 4 + ((27 / 4) ^ 2 - 1) / 3 * (h * sqrt 2) ^ 3 | _ => (27 / 4) ^ 6 / 15 * h ^ 4 end) in
  fits (23 / 10) (PI / 4) (ec_B (st_ctx st)) (res_c0 res) (value_trace (curve b) (PI / 4) D) eps ->
  (fits (23 / 10) (PI / 4) (ec_B (st_ctx st)) (res_c1 res) un eps -> err <= amplification o delta * E + res_part) /\
  (forall c1 kappa, fits (23 / 10) (PI / 4) (ec_B (st_ctx st)) c1 un eps -> lstsq_contract lib st (res_c0 res) -> 0 <= kappa -> neumann_stable st kappa ->
     err <= amplification o delta * (E + 2 * kappa * ((amplification o delta + 1) * E + res_part)) + res_part).
Proof.
  intros b. destruct (smooth_boundary b) as (K & HK & A). exists K. split; [exact HK|].
  intros fuel lib p N Hl Hf Hb HN Hoff.
  destruct (curve_smooth_run fuel lib p b N 4 Hl Hf Hb HN (or_intror eq_refl) Hoff) as (o & st & res & err & E1 & E2 & E3 & _ & E5 & E6).
  exists o, st, res, err. repeat (split; [assumption|]).
  intros delta D un eps Hgap HD Hun He h E rp F0.
  pose proof (smooth_ok fuel p b N 4 o HN (or_intror eq_refl) E1) as Hok.
  destruct (ran_candidate _ o st res Hl Hok E2 Hf E5 E3) as (L0 & L1 & e & Hc).
  destruct (smooth_grid fuel lib p b N o st res Hl Hb HN E1 E2 E3) as (v & Heta & Hv & Hgap' & Herr). fold h in Heta, Hv.
  assert (Hh : 0 < h).
  { unfold h. pose proof PI_RGT_0. destruct (table_size_range N HN) as [HN1 _]. apply Rdiv_lt_0_compat; [lra|apply IZR_lt; lia]. }
  assert (HE : 0 <= E).
  { unfold E. apply Rmult_le_pos; [apply sqrt_pos|]. apply Rmult_le_pos; [exact HK|]. assert (0 < h ^ 5) by (apply pow_lt; exact Hh). lra. }
  assert (G : forall c1, fits (23 / 10) (PI / 4) (ec_B (st_ctx st)) c1 un eps -> exists e,
    extend_boundary (with_basis (st_ctx st) (ec_B (st_ctx st)) (res_c0 res) c1) SrcCoef false = Ok e /\ boundary_gap st v e <= E ^ 2).
  { intros c1 F1. destruct (A fuel lib p N o st D un eps (res_c0 res) c1 Hl Hb HN E1 E2 Hoff HD Hun He F0 F1) as (e' & Ee' & Le & Hg).
    exists e'. split; [exact Ee'|]. rewrite Hgap'. unfold E. rewrite Rpow_mult_distr, pow2_sqrt by apply pos_INR. exact Hg. }
  split.
  - intros F1. destruct (G _ F1) as (e' & Ee' & Hg). assert (e' = e) by (destruct Hc as [Hc1 _]; congruence). subst e'.
    apply (Herr err _ E6). intros i j Hij.
    exact (error_bound lib o st delta v _ _ _ e (res_u res) E Hl Hok E2 Hgap Heta Hv HE Hc Hg i j Hij).
  - intros c1 kappa F1 Hq Hk Hs. destruct (G _ F1) as (e' & Ee' & Hg).
    apply (Herr err _ E6). intros i j Hij.
    exact (solution_bound lib o st delta v _ res c1 e' E kappa Hl Hok E2 Hgap Heta Hv Hf E5 E3 Hq (proj1 F1) Ee' HE Hg Hk Hs i j Hij).
Qed.
