(** The error bound for the smooth problems, and an instance (C77). *)
From Coq Require Import ZArith List Bool Reals Lia Lra.
From Coquelicot Require Import Coquelicot.
From Verif Require Import Model_Py Model_Multivalue Model_Grid Model_Fourier Model_Linop Model_Abcoef Model_PS Model_Domain Model_Extend
  Model_Chebyshev Model_Problems Model_Driver Model_Run Model_Program
  Spec_Domain Spec_Abcoef Spec_Grid Spec_PS Spec_Extend Spec_ZRun Spec_Run Spec_Program Spec_Curve Spec_Bound
  Lib_Csum Proof_Place Proof_Grid Proof_Fourier Proof_PS Proof_Run Proof_RunEx Proof_Program Proof_CurveRun Proof_Source Proof_Norm Proof_Bound.
Import ListNotations.
Open Scope R_scope.

Local Notation table_size := Spec_Program.table_size.
Local Notation curve b := (boundary_r b (23 / 10) None (PI / 4)).

Lemma smooth_bound : forall fuel lib p b N o st res e err delta, enumerating lib -> brentq_contract (lib_brentq lib) -> table_size N ->
  smooth_options (S fuel) p b N 4 = Ok o -> ps_init lib o = Ok st -> ps_run lib o st = Ok res -> res_error res = Some err ->
  candidate st (res_c0 res) (res_c1 res) e (res_u res) -> eig_gap o delta ->
  let h := 2 * PI / IZR N in
  err <= amplification o delta * sqrt (sample_gap st N (smooth_expected p) e) +
         residual_part o delta (match p with SmoothYCos => 4 / 15 * h ^ 4 + ((27 / 4) ^ 2 - 1) / 3 * (h * sqrt 2) ^ 3 | _ => (27 / 4) ^ 6 / 15 * h ^ 4 end).
Proof.
  intros fuel lib p b N o st res e err delta Hl Hb HN E Hi Hr Ee Hc Hgap h.
  pose proof (smooth_consistent fuel lib p b N o st res Hl Hb HN E Hi Hr) as Hcons. cbv zeta in Hcons. fold h in Hcons.
  set (eta := match p with SmoothYCos => _ | _ => _ end) in *.
  pose proof (smooth_ok fuel p b N 4 o HN (or_intror eq_refl) E) as Hok.
  pose proof (st_usable lib o st Hl Hok Hi) as U.
  destruct (ps_params lib o st Hi) as (PN & PO & PA & PK).
  destruct (table_size_range N HN) as [HN1 _].
  destruct (smooth_options_ok fuel p b N 4 HN) as (nc & nr & _ & _ & E').
  assert (Eo := E'). rewrite E in Eo. apply Ok_inj' in Eo.
  assert (EN : o_N o = N) by (rewrite Eo; reflexivity).
  assert (Eord : o_order o = 4%Z) by (rewrite Eo; reflexivity).
  assert (EAD : o_AD o = 2 * PI) by (rewrite Eo; reflexivity).
  assert (Ek : o_k o = 27 / 4) by (rewrite Eo; reflexivity).
  assert (Hh : 0 < h) by (unfold h; pose proof PI_RGT_0; apply Rdiv_lt_0_compat; [lra|apply IZR_lt; lia]).
  assert (Heta : 0 <= eta).
  { unfold eta. assert (0 < h ^ 4) by (apply pow_lt; exact Hh).
    assert (0 < (h * sqrt 2) ^ 3) by (apply pow_lt, Rmult_lt_0_compat; [exact Hh|apply sqrt_lt_R0; lra]). destruct p; lra. }
  set (v := fun i j => smooth_exact p N (i + 1)%Z (j + 1)%Z).
  assert (Hval : forall i j, in_open_grid N (i, j) -> node_value N v i j = smooth_exact p N i j).
  { intros i j Hij. rewrite node_value_in by exact Hij. unfold v. f_equal; lia. }
  assert (Hres : forall i j, o_inside o i j -> Cmod (Cminus (o_L o v i j) (lin_apply_B (st_f st) i j)) <= eta).
  { intros i j Hij. rewrite <- (run_equation lib o st res Hl Hok Hi Hr i j Hij).
    pose proof (Hcons i j (proj1 (region_inside fuel p b N 4 o i j HN E) Hij)) as K. rewrite apply_L_minus in K.
    destruct Hok as (_ & _ & _ & Hm & _). destruct Hij as [Hg Hint]. specialize (Hm i j Hg Hint). rewrite EN in Hm.
    assert (EL : o_L o v i j = lin_apply_L N 4 (2 * PI) (27 / 4) (smooth_exact p N) i j).
    { unfold o_L. rewrite EN, Eord, EAD, Ek. apply lin_apply_L_ext. intros i' j' H1 H2 _. apply Hval. unfold in_open_grid. cbn [fst snd]. lia. }
    rewrite EL. unfold o_L. rewrite EN, Eord, EAD, Ek, <- Cmod_opp.
    replace (Copp _) with (Cminus (lin_apply_L N 4 (2 * PI) (27 / 4) (node_value N (res_u res)) i j) (lin_apply_L N 4 (2 * PI) (27 / 4) (smooth_exact p N) i j)) by ring.
    exact K. }
  assert (EG : boundary_gap st v e = sample_gap st N (smooth_expected p) e).
  { unfold boundary_gap, sample_gap. rewrite PN, EN. cbv zeta. apply rsum_ext. intros l Hlt. unfold nth_value.
    destruct (nth_error (ps_gamma (st_ps st)) l) as [[i j]|] eqn:En; [|apply nth_error_None in En; lia].
    rewrite Hval; [reflexivity|]. pose proof (us_inside _ U (i, j)) as Hin. rewrite <- EN, <- PN. apply Hin. eapply nth_error_In; exact En. }
  pose proof (run_error lib o st res Hl Hr) as He. rewrite Ee in He. destruct He as [_ [([i j] & Hq1 & Hq2) _]]. cbn [fst snd] in Hq1, Hq2.
  assert (Hreach : reached (st_ps st) (i, j)).
  { exists (i, j). split; [apply (st_inside lib o st Hi); exact Hq1|apply neighbour_refl]. }
  pose proof (candidate_error lib o st delta Hl Hok Hi Hgap v eta Heta Hres _ _ e (res_u res) (sqrt (boundary_gap st v e)) (sqrt_pos _) Hc
    ltac:(rewrite pow2_sqrt by apply gap_nonneg; apply Rle_refl) i j Hreach) as K.
  rewrite <- EG. rewrite <- Hq2. rewrite PN in K. rewrite <- Cmod_opp.
  assert (Ex : o_expected o (fst (get_coord (o_AD o) (o_N o) i j)) (snd (get_coord (o_AD o) (o_N o) i j)) = node_value (o_N o) v i j).
  { rewrite EN, EAD, square_coord, Hval by (try lia; rewrite <- EN; apply Hq1). rewrite Eo. reflexivity. }
  rewrite Ex. replace (Copp _) with (Cminus (node_value (o_N o) (res_u res) i j) (node_value (o_N o) v i j)) by ring. exact K.
Qed.

(** ** Instances *)

Definition two_arr : arr2 := fun _ _ => RtoC 2.

Lemma bound_example : let lib := ex_lib min_zero in exists st res delta kappa c1' e' eps,
  enumerating lib /\ fit_sizes lib /\ options_ok ex_opt /\ ps_init lib ex_opt = Ok st /\ ctx_wf (st_ctx st) /\ ps_run lib ex_opt st = Ok res /\
  lstsq_contract lib st (res_c0 res) /\ neumann_determined st /\ (0 < length (ec_B (st_ctx st)))%nat /\
  eig_gap ex_opt delta /\ 0 <= kappa /\ neumann_stable st kappa /\
  (forall i j, o_inside ex_opt i j -> Cmod (Cminus (o_L ex_opt two_arr i j) (lin_apply_B (st_f st) i j)) <= 0) /\
  length c1' = length (ec_B (st_ctx st)) /\
  extend_boundary (with_basis (st_ctx st) (ec_B (st_ctx st)) (res_c0 res) c1') SrcCoef false = Ok e' /\
  0 < eps /\ boundary_gap st two_arr e' = eps ^ 2 /\
  exists i j, reached (st_ps st) (i, j) /\ Cmod (Cminus (node_value 16 (res_u res) i j) (node_value 16 two_arr i j)) = 1.
Proof.
  cbv zeta. destruct ex_all as (st & res & Hl & Hf & Ho & _ & _ & Hi & Hwf & Hr & Hlsq & Hdet & Hone & (c1 & e & L1 & He & Ht) & Hn & Hu & _).
  destruct (ex_fields min_zero st Hi) as (_ & _ & _ & _ & _ & _ & _ & _ & EB & _ & Es & _).
  assert (HB : (0 < length (ec_B (st_ctx st)))%nat) by (rewrite EB; cbn; lia).
  destruct (stable_exists _ _ _ Hl Ho Hi Hwf HB Hdet) as (kappa & Hk & Hst).
  destruct (gap_exists ex_opt (proj1 Ho)) as (delta & Hd); [apply Ho|].
  pose proof (st_usable _ _ _ Hl Ho Hi) as U.
  set (n := length (ps_gamma (st_ps st))) in *.
  assert (Hn0 : 0 < INR n) by (apply (lt_INR 0); exact Hn).
  assert (E2 : forall i j, node_value 16 two_arr i j = Cmult (RtoC 2) (node_value 16 one_arr i j)).
  { intros i j. destruct (open_dec 16 i j) as [H|H]; [rewrite !node_value_in by exact H|rewrite !node_value_out by exact H; ring].
    unfold two_arr, one_arr. ring. }
  exists st, res, delta, kappa, c1, e, (sqrt (INR n)).
  do 12 (split; [assumption|]). split.
  { intros i j Hij. pose proof (Hone i j Hij) as K.
    assert (Z0 : lin_apply_B (st_f st) i j = RtoC 0).
    { apply apply_B_zero. apply (homogeneous_f _ _ _ Hi); [reflexivity|reflexivity]. }
    rewrite Z0 in K |- *. unfold o_L in *. cbn [ex_opt o_N] in *.
    rewrite (lin_apply_L_ext 16 _ _ _ (node_value 16 two_arr) (fun i j => Cmult (RtoC 2) (node_value 16 one_arr i j))) by (intros; apply E2).
    assert (S2 : forall ord AD k u, lin_apply_L 16 ord AD k (fun i j => Cmult (RtoC 2) (u i j)) i j = Cmult (RtoC 2) (lin_apply_L 16 ord AD k u i j)).
    { intros ord AD k u. unfold lin_apply_L. destruct (ord =? 4)%Z; ring. }
    rewrite S2, K. replace (Cminus _ _) with (RtoC 0) by ring. rewrite Cmod_0. lra. }
  split; [exact L1|]. split; [exact He|]. split; [apply sqrt_lt_R0; exact Hn0|]. split.
  { rewrite pow2_sqrt by lra. unfold boundary_gap. fold n. cbv zeta.
    transitivity (rsum n (fun _ => 1)); [|rewrite rsum_const; ring]. apply rsum_ext. intros l Hlt. rewrite <- (Ht l Hlt). unfold nth_value.
    destruct (nth_error (ps_gamma (st_ps st)) l) as [[i j]|] eqn:En; [|apply nth_error_None in En; unfold n in Hlt; lia].
    destruct (ps_params _ _ _ Hi) as (PN & _). pose proof (us_inside _ U (i, j) (nth_error_In _ _ En)) as Hin. rewrite PN in Hin |- *.
    rewrite !node_value_in by exact Hin. unfold two_arr, one_arr. replace (Cminus (RtoC 2) (RtoC 1)) with (RtoC 1) by (rewrite <- RtoC_minus; f_equal; ring).
    rewrite Cmod_1. ring. }
  assert (Hin : exists i j, o_inside ex_opt i j).
  { destruct (ps_gamma (st_ps st)) as [|[i j] g] eqn:Eg; [cbn in n; unfold n in Hn; lia|].
    destruct (proj1 (gamma_list_in _ U (i, j)) ltac:(rewrite Eg; left; reflexivity)) as [([i' j'] & Hq & _) _]. exists i', j'. apply (st_inside _ _ _ Hi). exact Hq. }
  destruct Hin as (i & j & Hij). exists i, j. split; [exists (i, j); split; [apply (st_inside _ _ _ Hi); exact Hij|apply neighbour_refl]|].
  rewrite (Hu i j Hij), E2, node_value_in by apply Hij. unfold one_arr.
  replace (Cminus _ _) with (RtoC (-1)) by (rewrite <- RtoC_mult, <- RtoC_minus; f_equal; ring). rewrite Cmod_R, Rabs_left; lra.
Qed.

Lemma smooth_bound_example : let lib := ex_lib min_zero in forall b, exists o st res e err delta,
  enumerating lib /\ brentq_contract (lib_brentq lib) /\ table_size 16 /\ smooth_options 1 SmoothSine b 16 4 = Ok o /\ ps_init lib o = Ok st /\
  ps_run lib o st = Ok res /\ res_error res = Some err /\ candidate st (res_c0 res) (res_c1 res) e (res_u res) /\ eig_gap o delta.
Proof.
  cbv zeta. intros b. pose proof min_zero_contract as Hb.
  assert (HN : table_size 16) by (exists 4%Z; split; [lia|reflexivity]).
  assert (Hl : enumerating (ex_lib min_zero)) by apply ex_enumerating. assert (Hf : fit_sizes (ex_lib min_zero)) by apply ex_fit.
  destruct (curve_smooth_run 0 (ex_lib min_zero) SmoothSine b 16 4 Hl Hf Hb HN (or_intror eq_refl) ltac:(discriminate)) as (o & st & res & err & E1 & E2 & E3 & _ & E5 & E6).
  pose proof (smooth_ok 0 SmoothSine b 16 4 o HN (or_intror eq_refl) E1) as Hok.
  destruct (ran_candidate _ o st res Hl Hok E2 Hf E5 E3) as (_ & _ & e & He).
  destruct (gap_exists o (proj1 Hok)) as (delta & Hd); [apply Hok|].
  exists o, st, res, e, err, delta. repeat (split; [assumption|]). exact Hd.
Qed.

Lemma error_bound : forall lib o st delta v eta c0 c1 e u eps, enumerating lib -> options_ok o -> ps_init lib o = Ok st -> eig_gap o delta ->
  0 <= eta -> (forall i j, o_inside o i j -> Cmod (Cminus (o_L o v i j) (lin_apply_B (st_f st) i j)) <= eta) ->
  0 <= eps -> candidate st c0 c1 e u -> boundary_gap st v e <= eps ^ 2 ->
  forall i j, reached (st_ps st) (i, j) ->
  Cmod (Cminus (node_value (ps_N (st_ps st)) u i j) (node_value (ps_N (st_ps st)) v i j)) <=
  amplification o delta * eps + residual_part o delta eta.
Proof.
  intros lib o st delta v eta c0 c1 e u eps Hl Ho Hi Hd He Hv Heps Hc Hb.
  exact (candidate_error lib o st delta Hl Ho Hi Hd v eta He Hv c0 c1 e u eps Heps Hc Hb).
Qed.

Lemma gap_bound : forall lib o st delta v eta res c1' e' eps e, enumerating lib -> options_ok o -> ps_init lib o = Ok st -> eig_gap o delta ->
  0 <= eta -> (forall i j, o_inside o i j -> Cmod (Cminus (o_L o v i j) (lin_apply_B (st_f st) i j)) <= eta) ->
  fit_sizes lib -> ctx_wf (st_ctx st) -> ps_run lib o st = Ok res -> lstsq_contract lib st (res_c0 res) ->
  length c1' = length (ec_B (st_ctx st)) ->
  extend_boundary (with_basis (st_ctx st) (ec_B (st_ctx st)) (res_c0 res) c1') SrcCoef false = Ok e' ->
  0 <= eps -> boundary_gap st v e' <= eps ^ 2 -> candidate st (res_c0 res) (res_c1 res) e (res_u res) ->
  sqrt (boundary_gap st (res_u res) e) <= (amplification o delta + 1) * eps + residual_part o delta eta.
Proof.
  intros lib o st delta v eta res c1' e' eps e Hl Ho Hi Hd He Hv Hf Hwf Hr Hq L1 Ee Heps Hb Hc.
  exact (run_gap lib o st delta Hl Ho Hi Hd v eta He Hv res Hf Hwf Hr Hq c1' e' eps L1 Ee Heps Hb e Hc).
Qed.

Lemma solution_bound : forall lib o st delta v eta res c1' e' eps kappa, enumerating lib -> options_ok o -> ps_init lib o = Ok st -> eig_gap o delta ->
  0 <= eta -> (forall i j, o_inside o i j -> Cmod (Cminus (o_L o v i j) (lin_apply_B (st_f st) i j)) <= eta) ->
  fit_sizes lib -> ctx_wf (st_ctx st) -> ps_run lib o st = Ok res -> lstsq_contract lib st (res_c0 res) ->
  length c1' = length (ec_B (st_ctx st)) ->
  extend_boundary (with_basis (st_ctx st) (ec_B (st_ctx st)) (res_c0 res) c1') SrcCoef false = Ok e' ->
  0 <= eps -> boundary_gap st v e' <= eps ^ 2 -> 0 <= kappa -> neumann_stable st kappa ->
  forall i j, reached (st_ps st) (i, j) ->
  Cmod (Cminus (node_value (ps_N (st_ps st)) (res_u res) i j) (node_value (ps_N (st_ps st)) v i j)) <=
  amplification o delta * (eps + 2 * kappa * ((amplification o delta + 1) * eps + residual_part o delta eta)) + residual_part o delta eta.
Proof.
  intros lib o st delta v eta res c1' e' eps kappa Hl Ho Hi Hd He Hv Hf Hwf Hr Hq L1 Ee Heps Hb Hk Hs.
  exact (run_bound lib o st delta Hl Ho Hi Hd v eta He Hv res Hf Hwf Hr Hq c1' e' eps L1 Ee Heps Hb kappa Hk Hs).
Qed.
