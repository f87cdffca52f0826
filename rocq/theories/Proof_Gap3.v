(** The runs of the smooth problems with the gap inserted (C93). *)
From Coq Require Import ZArith List Bool Reals Lra Lia Psatz.
From Coquelicot Require Import Coquelicot.
From Verif Require Import Model_Py Model_Multivalue Model_Grid Model_Fourier Model_Linop Model_Abcoef Model_PS Model_Domain Model_Chebyshev
  Model_Ext Model_Extend Model_Problems Model_Driver Model_Run Model_Program
  Spec_Grid Spec_Domain Spec_Chebyshev Spec_PS Spec_Ext Spec_Extend Spec_Inhomo Spec_Run Spec_Program Spec_Curve Spec_Bound Spec_Accuracy Spec_ExtTest
  Lib_Csum Proof_Grid Proof_Domain Proof_Fourier Proof_PS Proof_Run Proof_Program Proof_Norm Proof_AccI7 Proof_Gap Proof_Gap2.
Import ListNotations.
Open Scope R_scope.

Local Notation table_size := Spec_Program.table_size.
Local Notation curve b := (boundary_r b (23 / 10) None (PI / 4)).

Lemma table_cases : forall N, table_size N -> N = 16%Z \/ (32 <= N)%Z.
Proof.
  intros N (m & Hm & ->). destruct (Z.eq_dec m 4) as [->|H]; [left; reflexivity|right]. change 32%Z with (2 ^ 5)%Z. apply Z.pow_le_mono_r; lia.
Qed.

Lemma smooth_run_gap : forall fuel p b N o, table_size N -> smooth_options (S fuel) p b N 4 = Ok o -> eig_gap o (if (N =? 16)%Z then 12 / 125 else 9 / 50).
Proof.
  intros fuel p b N o HN E. destruct (smooth_options_ok fuel p b N 4 HN) as (nc & nr & _ & _ & E'). rewrite E in E'. injection E' as ->.
  unfold eig_gap. cbn [o_N o_order o_AD o_k]. split; [destruct (N =? 16)%Z; lra|]. intros j l Hj Hl.
  destruct (Z.eqb_spec N 16) as [->|Hne]; [apply (coarse_gap j l); lia|].
  apply smooth_gap; try assumption. destruct (table_cases N HN); [contradiction|assumption].
Qed.

Lemma solve_stable : forall N, (16 = N \/ 32 <= N)%Z -> forall f,
  rsum (Z.to_nat (N - 1)) (fun i => rsum (Z.to_nat (N - 1)) (fun j => Cmod (ap_solve N 4 (2 * PI) (27 / 4) f (Z.of_nat i) (Z.of_nat j)) ^ 2)) <=
  (125 / 12) ^ 2 * rsum (Z.to_nat (N - 1)) (fun i => rsum (Z.to_nat (N - 1)) (fun j => Cmod (f (Z.of_nat i) (Z.of_nat j)) ^ 2)).
Proof.
  intros N HN f. change (gsq N (ap_solve N 4 (2 * PI) (27 / 4) f) <= (125 / 12) ^ 2 * gsq N f).
  pose proof PI_RGT_0 as HP.
  assert (H : sqrt (gsq N (ap_solve N 4 (2 * PI) (27 / 4) f)) <= sqrt (gsq N f) / (12 / 125)).
  { apply solve_norm; [lia|lra|lra|]. intros j l Hj Hl. destruct HN as [<-|HN]; [apply (coarse_gap j l); lia|].
    pose proof (smooth_gap N HN j l Hj Hl). lra. }
  pose proof (gsq_nonneg N f) as G1. pose proof (gsq_nonneg N (ap_solve N 4 (2 * PI) (27 / 4) f)) as G2.
  rewrite <- (sqrt_sqrt _ G2), <- (sqrt_sqrt _ G1). pose proof (sqrt_pos (gsq N f)). pose proof (sqrt_pos (gsq N (ap_solve N 4 (2 * PI) (27 / 4) f))).
  set (a := sqrt (gsq N (ap_solve N 4 (2 * PI) (27 / 4) f))) in *. set (c := sqrt (gsq N f)) in *.
  assert (a <= 125 / 12 * c) by lra. replace ((125 / 12) ^ 2 * (c * c)) with ((125 / 12 * c) * (125 / 12 * c)) by ring. apply Rmult_le_compat; lra.
Qed.

Lemma gamma_count : forall s, ps_usable s -> sqrt (INR (length (ps_gamma s))) <= IZR (ps_N s) - 1.
Proof.
  intros s ((HN & Ho & _ & [Hn Hg] & _) & Hin & _).
  assert (H : (length (ps_gamma s) <= length (grid_M0 (ps_N s)))%nat) by (apply (NoDup_incl_length Hn); intros p Hp; apply grid_M0_in; apply Hin; exact Hp).
  assert (E : length (grid_M0 (ps_N s)) = (Z.to_nat (ps_N s - 1) * Z.to_nat (ps_N s - 1))%nat).
  { unfold grid_M0. etransitivity; [apply prod_length|]. unfold py_range. rewrite map_length, seq_length. reflexivity. }
  rewrite E in H. apply le_INR in H. rewrite mult_INR in H. rewrite INR_IZR_INZ in H at 1. rewrite !INR_IZR_INZ in H. rewrite Z2Nat.id, minus_IZR in H by lia.
  assert (2 <= IZR (ps_N s)) by (apply (IZR_le 2); lia).
  rewrite <- (sqrt_square (IZR (ps_N s) - 1)) by lra. apply sqrt_le_1_alt. rewrite INR_IZR_INZ. exact H.
Qed.

Lemma gap_error : forall b, exists K, 0 <= K /\ forall fuel lib p N, enumerating lib -> fit_sizes lib -> brentq_contract (lib_brentq lib) -> table_size N ->
  (p = SmoothYCos -> Spec_Curve.off_curve (curve b) N) ->
  exists o st res err, smooth_options (S fuel) p b N 4 = Ok o /\ ps_init lib o = Ok st /\ ps_run lib o st = Ok res /\ res_error res = Some err /\
  forall D un eps, solution_family p D -> normal_trace (curve b) (PI / 4) D un -> 0 <= eps ->
  let h := 2 * PI / IZR N in
  fits (23 / 10) (PI / 4) (ec_B (st_ctx st)) (res_c0 res) (value_trace (curve b) (PI / 4) D) eps ->
  fits (23 / 10) (PI / 4) (ec_B (st_ctx st)) (res_c1 res) un eps ->
  err <= K * (eps / h ^ 3 + h ^ 2).
Proof.
  intros b. destruct (smooth_error b) as (K & HK & A). pose proof PI_RGT_0 as HP. pose proof PI_4 as HP4.
  set (c1 := 1 + ((27 / 4) ^ 2 + 8) / (12 / 125)).
  set (c2 := 8 * (4 / 15 + ((27 / 4) ^ 2 - 1) / 3 * 8 + (27 / 4) ^ 6 / 15) / (12 / 125)).
  assert (H1 : 0 < c1) by (unfold c1; lra). assert (H2 : 0 < c2) by (unfold c2; lra).
  exists (c1 * 8 * K + c2). split; [assert (0 <= c1 * 8 * K) by (apply Rmult_le_pos; lra); lra|].
  intros fuel lib p N Hl Hf Hb HN Hoff. destruct (A fuel lib p N Hl Hf Hb HN Hoff) as (o & st & res & err & E1 & E2 & E3 & E4 & B).
  exists o, st, res, err. repeat (split; [assumption|]). intros D un eps HD Hun He h F0 F1.
  pose proof (smooth_run_gap fuel p b N o HN E1) as Hgap. set (delta := if (N =? 16)%Z then 12 / 125 else 9 / 50) in *.
  destruct (B delta D un eps Hgap HD Hun He F0) as [B1 _]. specialize (B1 F1). fold h in B1.
  pose proof (smooth_ok fuel p b N 4 o HN (or_intror eq_refl) E1) as Hok.
  pose proof (gamma_count _ (st_usable lib o st Hl Hok E2)) as Hc.
  assert (EN : ps_N (st_ps st) = N /\ o_N o = N /\ o_AD o = 2 * PI /\ o_k o = 27 / 4).
  { destruct (smooth_options_ok fuel p b N 4 HN) as (nc & nr & _ & _ & E'). rewrite E1 in E'. injection E' as ->.
    destruct (ps_init_inv _ _ _ E2) as (nc' & nr' & c' & f & b' & A' & _ & _ & _ & _ & ->). repeat split. }
  destruct EN as (EN & EN2 & EAD & Ek). rewrite EN in Hc. unfold amplification, residual_part in B1. rewrite EN2, EAD, Ek in B1. fold h in B1.
  assert (H16 : 16 <= IZR N) by (apply IZR_le; destruct (table_cases N HN); lia).
  assert (Hh : 0 < h) by (unfold h; apply Rdiv_lt_0_compat; lra).
  assert (Hh1 : h <= 1 / 2).
  { unfold h. apply (Rmult_le_reg_r (IZR N)); [lra|]. replace (2 * PI / IZR N * IZR N) with (2 * PI) by (field; lra). nra. }
  assert (HNh : IZR N - 1 <= 8 / h).
  { apply (Rmult_le_reg_r h); [exact Hh|]. replace (8 / h * h) with 8 by (field; lra). assert (IZR N * h = 2 * PI) by (unfold h; field; lra). nra. }
  assert (Hd : 0 < delta /\ 12 / 125 <= delta) by (unfold delta; destruct (N =? 16)%Z; lra).
  assert (Hid : / delta <= / (12 / 125)) by (apply Rinv_le_contravar; lra). assert (Hid0 : 0 < / delta) by (apply Rinv_0_lt_compat; lra).
  assert (P2 : 0 < h ^ 2) by (apply pow_lt; exact Hh). assert (P5 : 0 < h ^ 5) by (apply pow_lt; exact Hh). assert (P3 : 0 < h ^ 3) by (apply pow_lt; exact Hh).
  assert (I2 : 1 <= / h ^ 2) by (rewrite <- Rinv_1 at 1; apply Rinv_le_contravar; [exact P2|]; nra).
  assert (Amp : 1 + ((27 / 4) ^ 2 + 8 / h ^ 2) / delta <= c1 / h ^ 2).
  { unfold c1. apply Rle_trans with (/ h ^ 2 + ((27 / 4) ^ 2 * / h ^ 2 + 8 / h ^ 2) * / (12 / 125)); [|right; field; lra].
    apply Rplus_le_compat; [exact I2|]. unfold Rdiv at 1. apply Rmult_le_compat; try lra.
  }
  assert (AmpPos : 0 <= 1 + ((27 / 4) ^ 2 + 8 / h ^ 2) / delta).
  { assert (0 < 8 / h ^ 2) by (apply Rdiv_lt_0_compat; lra). assert (0 < ((27 / 4) ^ 2 + 8 / h ^ 2) / delta) by (apply Rdiv_lt_0_compat; lra). lra. }
  assert (HE : sqrt (INR (length (ps_gamma (st_ps st)))) * (K * (eps + h ^ 5)) <= 8 / h * (K * (eps + h ^ 5))).
  { apply Rmult_le_compat_r; [apply Rmult_le_pos; lra|]. lra. }
  set (E := sqrt (INR (length (ps_gamma (st_ps st)))) * (K * (eps + h ^ 5))) in *.
  assert (T1 : (1 + ((27 / 4) ^ 2 + 8 / h ^ 2) / delta) * E <= c1 * 8 * K * (eps / h ^ 3 + h ^ 2)).
  { apply Rle_trans with (c1 / h ^ 2 * (8 / h * (K * (eps + h ^ 5)))); [|right; field; lra].
    apply Rmult_le_compat; try assumption. unfold E. apply Rmult_le_pos; [apply sqrt_pos|apply Rmult_le_pos; lra]. }
  set (eta := match p with SmoothYCos => 4 / 15 * h ^ 4 + ((27 / 4) ^ 2 - 1) / 3 * (h * sqrt 2) ^ 3 | _ => (27 / 4) ^ 6 / 15 * h ^ 4 end) in *.
  assert (S2 : sqrt 2 ^ 3 <= 8).
  { assert (0 <= sqrt 2 <= 2).
    { split; [apply sqrt_pos|]. rewrite <- (sqrt_square 2) at 2 by lra. apply sqrt_le_1_alt. lra. }
    replace 8 with (2 ^ 3) by ring. apply pow_incr. lra. }
  assert (H4 : 0 < h ^ 4 <= h ^ 3) by (split; [apply pow_lt; exact Hh|]; replace (h ^ 4) with (h * h ^ 3) by ring; nra).
  assert (S3 : 0 <= sqrt 2 ^ 3) by (apply pow_le; apply sqrt_pos).
  assert (S4 : 0 <= (h * sqrt 2) ^ 3 <= 8 * h ^ 3).
  { rewrite Rpow_mult_distr. split; [apply Rmult_le_pos; lra|]. rewrite Rmult_comm. apply Rmult_le_compat_r; lra. }
  assert (Het : 0 <= eta <= (4 / 15 + ((27 / 4) ^ 2 - 1) / 3 * 8 + (27 / 4) ^ 6 / 15) * h ^ 3) by (unfold eta; destruct p; split; lra).
  assert (T2 : (IZR N - 1) * eta / delta <= c2 * h ^ 2).
  { unfold c2. apply Rle_trans with (8 / h * ((4 / 15 + ((27 / 4) ^ 2 - 1) / 3 * 8 + (27 / 4) ^ 6 / 15) * h ^ 3) * / (12 / 125)); [|right; field; lra].
    unfold Rdiv at 1. apply Rmult_le_compat; try lra; [apply Rmult_le_pos; lra|]. apply Rmult_le_compat; lra. }
  assert (T3 : 0 <= eps / h ^ 3) by (apply Rmult_le_pos; [exact He|left; apply Rinv_0_lt_compat; exact P3]).
  assert (T4 : c2 * h ^ 2 <= c2 * (eps / h ^ 3 + h ^ 2)) by (apply Rmult_le_compat_l; lra).
  lra.
Qed.
