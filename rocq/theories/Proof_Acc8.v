(** The error of a run whose boundary data are fitted (C82). *)
From Coq Require Import ZArith List Bool Reals Lra Lia Psatz.
From Coquelicot Require Import Coquelicot.
From Verif Require Import Model_Py Model_Multivalue Model_Grid Model_Fourier Model_Linop Model_Abcoef Model_PS Model_Domain Model_Chebyshev
  Model_Ext Model_Extend Model_Problems Model_Driver Model_Run Model_Program
  Spec_Chebyshev Spec_Domain Spec_Abcoef Spec_Grid Spec_Fd Spec_PS Spec_Ext Spec_Extend Spec_Run Spec_Program Spec_Curve Spec_Bound Spec_Accuracy
  Lib_Csum Lib_Sm Proof_Grid Proof_Fourier Proof_Consist Proof_PS Proof_Ext Proof_Extend Proof_Run Proof_RunEx Proof_Gentle Proof_Program Proof_CurveRun Proof_Source
  Proof_Bound Proof_Acc2 Proof_Acc3 Proof_Acc6 Proof_Acc7.
Import ListNotations.
Open Scope R_scope.

Local Notation curve b := (boundary_r b (23 / 10) None (PI / 4)).

(** Total derivatives give partial derivatives. *)
Lemma dpl_partial : forall f x y a b, differentiable_pt_lim f x y a b -> is_derive (fun t => f t y) x a /\ is_derive (fun t => f x t) y b.
Proof.
  intros f x y a b H. split.
  - eapply is_derive_eq; [apply (chain2 f (fun t => t) (fun _ => y) x a b 1 0 H); [apply (is_derive_id x)|apply (is_derive_const y x)]|ring].
  - eapply is_derive_eq; [apply (chain2 f (fun _ => x) (fun t => t) y a b 0 1 H); [apply (is_derive_const x y)|apply (is_derive_id y)]|ring].
Qed.

Lemma partials_fd : forall D m S (pr : C -> R), pr = fst \/ pr = snd -> Spec_Ext.partials plane m D ->
  Spec_Fd.partials m S (fun x y => pr (D 0%nat 0%nat x y)) (fun i j x y => pr (D i j x y)).
Proof.
  intros D m S pr Hpr HD. split; [reflexivity|]. intros i j Hij x y _. destruct (HD i j x y Hij I) as [P1 P2].
  destruct Hpr as [-> | ->]; [apply (dpl_partial _ _ _ _ _ P1)|apply (dpl_partial _ _ _ _ _ P2)].
Qed.

(** The scheme applied to samples of a solution of the Helmholtz equation. *)
Lemma square_consistent : forall D k M N i j, Spec_Ext.partials plane 6 D -> helmholtz plane k D (fun _ _ _ _ => RtoC 0) -> square_bound D M ->
  (2 <= i <= N - 2)%Z -> (2 <= j <= N - 2)%Z ->
  Cmod (lin_apply_L N 4 (2 * PI) k (fun i j => D 0%nat 0%nat (fst (square_pt N i j)) (snd (square_pt N i j))) i j) <= M * (2 * PI / IZR N) ^ 4 / 15.
Proof.
  intros D k M N i j HD PDE [HM HB] Hi Hj. pose proof PI_RGT_0 as Pp.
  assert (HN : 0 < IZR N) by (apply IZR_lt; lia).
  set (ur := fun x y => fst (D 0%nat 0%nat x y)). set (ui := fun x y => snd (D 0%nat 0%nat x y)).
  set (x := fst (get_coord (2 * PI) N i j)). set (y := snd (get_coord (2 * PI) N i j)). set (h := 2 * PI / IZR N).
  assert (Hbox : forall a b, box x h y h a b -> Rabs a <= PI /\ Rabs b <= PI).
  { intros a b [Ha Hb]. unfold x, y in Ha, Hb. unfold get_coord in Ha, Hb. cbn [fst snd] in Ha, Hb. fold h in Ha, Hb.
    assert (Hh : h * IZR N = 2 * PI) by (unfold h; field; lra).
    assert (Hh0 : 0 < h) by (unfold h; apply Rdiv_lt_0_compat; lra).
    assert (I1 : h * 2 <= h * IZR i) by (apply Rmult_le_compat_l; [lra|apply IZR_le; lia]).
    assert (I2 : h * IZR i <= h * (IZR N - 2)) by (apply Rmult_le_compat_l; [lra|rewrite <- minus_IZR; apply IZR_le; lia]).
    assert (J1 : h * 2 <= h * IZR j) by (apply Rmult_le_compat_l; [lra|apply IZR_le; lia]).
    assert (J2 : h * IZR j <= h * (IZR N - 2)) by (apply Rmult_le_compat_l; [lra|rewrite <- minus_IZR; apply IZR_le; lia]).
    split; apply Rabs_le; unfold h in *; lra. }
  assert (TB : forall pr : C -> R, pr = fst \/ pr = snd -> top_bounded 6 M (box x h y h) (fun i j x y => pr (D i j x y))).
  { intros pr Hpr i' j' Hij a b Hab. destruct (Hbox a b Hab) as [A1 A2].
    eapply Rle_trans; [|apply (HB i' j' a b ltac:(lia) A1 A2)]. destruct Hpr as [-> | ->]; apply Rabs_le_Cmod. }
  pose proof (consistency (2 * PI) N k i j ur ui _ _ M ltac:(lra) ltac:(lia)
     (partials_fd D 6 _ fst (or_introl eq_refl) HD) (partials_fd D 6 _ snd (or_intror eq_refl) HD) (TB fst (or_introl eq_refl)) (TB snd (or_intror eq_refl))) as K.
  fold h in K.
  rewrite (apply_B_zero (sampled _ _ _ _)) in K.
  2:{ intros i' j'. unfold sampled. set (a := fst (get_coord (2 * PI) N i' j')). set (b := snd (get_coord (2 * PI) N i' j')). pose proof (PDE a b I) as E. unfold ur, ui.
      apply (f_equal fst) in E as E1. apply (f_equal snd) in E as E2. unfold Cplus, Cmult, RtoC in E1, E2. cbn [fst snd] in E1, E2.
      apply injective_projections; cbn [fst snd RtoC]; lra. }
  rewrite <- Cmod_opp in K. replace (Copp _) with (lin_apply_L N 4 (2 * PI) k (sampled (2 * PI) N ur ui) i j) in K by ring.
  eapply Rle_trans; [right|exact K]. f_equal. apply lin_apply_L_ext. intros i' j' _ _ _.
  unfold sampled, ur, ui. rewrite square_coord by lia. apply surjective_pairing.
Qed.

Lemma run_accuracy : forall b k, exists K, 0 <= K /\ forall lib o st delta D un M eps c0 c1 e u,
  enumerating lib -> brentq_contract (lib_brentq lib) -> options_ok o ->
  o_r o = curve b -> o_R o = 23 / 10 -> o_a o = PI / 4 -> o_AD o = 2 * PI -> (16 <= o_N o)%Z -> o_order o = 4%Z -> o_k o = k ->
  o_homogeneous o = true -> (forall x y, s_f (o_src o) x y = RtoC 0) ->
  ps_init lib o = Ok st -> eig_gap o delta ->
  Spec_Ext.partials plane 6 D -> helmholtz plane k D (fun _ _ _ _ => RtoC 0) -> square_bound D M -> normal_trace (curve b) (PI / 4) D un -> 0 <= eps ->
  fits (23 / 10) (PI / 4) (ec_B (st_ctx st)) c0 (value_trace (curve b) (PI / 4) D) eps -> fits (23 / 10) (PI / 4) (ec_B (st_ctx st)) c1 un eps ->
  candidate st c0 c1 e u ->
  let h := 2 * PI / IZR (o_N o) in
  forall i j, reached (st_ps st) (i, j) ->
  Cmod (Cminus (node_value (o_N o) u i j) (D 0%nat 0%nat (fst (square_pt (o_N o) i j)) (snd (square_pt (o_N o) i j)))) <=
  amplification o delta * (sqrt (INR (length (ps_gamma (st_ps st)))) * (K * (eps + M * h ^ 5))) + residual_part o delta (M * h ^ 4 / 15).
Proof.
  intros b k. destruct (boundary_accuracy (curve b) k (curves_gentle b) (curves_good b)) as (K & HK & Acc). exists K. split; [exact HK|].
  intros lib o st delta D un M eps c0 c1 e u Hl Hb Hok Er ER Ea EAD HN Eord Ek Hh Hsrc Hi Hgap HD PDE HB Hun He F0 F1 Hc h i j Hij.
  pose proof (st_usable lib o st Hl Hok Hi) as U. destruct (ps_params lib o st Hi) as (PN & PO & PA & PK).
  assert (Hh0 : 0 < h) by (unfold h; pose proof PI_RGT_0; apply Rdiv_lt_0_compat; [lra|apply IZR_lt; lia]).
  assert (HM : 0 <= M) by apply HB.
  assert (Heta : 0 <= M * h ^ 4 / 15) by (assert (0 <= M * h ^ 4) by (apply Rmult_le_pos; [exact HM|apply pow_le; lra]); lra).
  set (w := fun i j => D 0%nat 0%nat (fst (square_pt (o_N o) i j)) (snd (square_pt (o_N o) i j))).
  set (v := fun i j => w (i + 1)%Z (j + 1)%Z).
  assert (Hval : forall i j, in_open_grid (o_N o) (i, j) -> node_value (o_N o) v i j = w i j).
  { intros i' j' H. rewrite node_value_in by exact H. unfold v. f_equal; lia. }
  destruct (init_source lib o st Hl (proj1 (proj2 Hok)) Hi) as [Hf1 _].
  destruct (ps_init_inv lib o st Hi) as (nc & nr & c' & f & b' & A' & Hn & Ec & Ef & _ & Est).
  assert (Hcv : curve_options lib o) by (split; [exact Hb|]; rewrite Er, ER, Ea, EAD; split; [apply curves_gentle|]; auto).
  destruct (curve_init lib o nc nr Hl Hok Hcv Hn (or_introl Hh)) as (st' & Hi' & Hwf & Hcs & _ & Eh & EN).
  assert (st' = st) by congruence. subst st'. rewrite Hh in Eh. rewrite Er, Eord in Hcs.
  assert (Hf0 : forall i j, st_f st i j = RtoC 0).
  { intros i' j'. rewrite Est. cbn [st_f]. unfold setup_f, extend_f in Ef.
    assert (Ehc : ec_homogeneous c' = true) by (rewrite Est in Eh; exact Eh). rewrite Ehc in Ef. injection Ef as <- _.
    unfold setup_f_interior. destruct (node_mem _ _); [|reflexivity]. destruct (get_coord _ _ _ _) as [x y]. apply Hsrc. }
  assert (Hres : forall i j, o_inside o i j -> Cmod (Cminus (o_L o v i j) (lin_apply_B (st_f st) i j)) <= M * h ^ 4 / 15).
  { intros i' j' Hin. rewrite apply_B_zero by exact Hf0.
    replace (Cminus (o_L o v i' j') (RtoC 0)) with (o_L o v i' j') by (unfold Cminus; ring).
    assert (Hok' := Hok). destruct Hok' as (_ & _ & _ & Hm & _). destruct Hin as [Hg Hint]. specialize (Hm i' j' Hg Hint).
    unfold o_L. rewrite Eord, EAD, Ek. rewrite (lin_apply_L_ext _ _ _ _ _ w).
    - apply square_consistent; try assumption; apply Hm.
    - intros i2 j2 H1 H2 _. apply Hval. unfold in_open_grid. cbn [fst snd]. lia. }
  set (n := length (ps_gamma (st_ps st))). set (E := K * (eps + M * h ^ 5)).
  assert (HE : 0 <= E).
  { unfold E. apply Rmult_le_pos; [exact HK|]. assert (0 <= M * h ^ 5) by (apply Rmult_le_pos; [exact HM|apply pow_le; lra]). lra. }
  set (cx := with_basis (st_ctx st) (ec_B (st_ctx st)) c0 c1).
  assert (Ekc : ec_k cx = k).
  { unfold cx. rewrite Est. cbn [st_ctx]. destruct (init_ctx_inv _ _ _ _ Ec) as (g0 & g1 & g2 & _ & ->). exact Ek. }
  destruct (Acc (lib_brentq lib) 4%Z cx D un M eps false Hb (or_intror eq_refl) Hcs Hwf Ekc HD PDE HB Hun He F0 F1 (or_introl Eh)) as (e' & Ee' & Le & Hle).
  destruct Hc as [Hc1 Hc2]. assert (e' = e) by (unfold cx in Ee'; congruence). subst e'.
  assert (Hgapb : boundary_gap st v e <= (sqrt (INR n) * E) ^ 2).
  { rewrite Rpow_mult_distr, pow2_sqrt by apply pos_INR. rewrite <- rsum_const. unfold boundary_gap. fold n. cbv zeta.
    apply rsum_le. intros l Hlt. unfold nth_value.
    destruct (nth_error (ps_gamma (st_ps st)) l) as [[i' j']|] eqn:En; [|apply nth_error_None in En; unfold n in Hlt; lia].
    rewrite PN. assert (Hin : in_open_grid (o_N o) (i', j')) by (rewrite <- PN; apply (us_inside _ U); eapply nth_error_In; exact En).
    rewrite Hval by exact Hin. rewrite (st_gamma lib o st Hi) in En. specialize (Hle l (i', j') En).
    assert (Ecc : ctx_coord cx (i', j') = square_pt (o_N o) i' j').
    { unfold ctx_coord, cx. cbn [with_basis ec_AD ec_N fst snd]. destruct Hcs as (_ & _ & EA & _). rewrite EA, EN. apply square_coord. lia. }
    rewrite Ecc in Hle. cbn [with_basis ec_N cx] in Hle. unfold cx in Hle. cbn [with_basis ec_N] in Hle. rewrite EN in Hle. fold h E in Hle. fold (w i' j') in Hle.
    rewrite <- Cmod_opp in Hle. replace (Copp _) with (Cminus (w i' j') (as_vec e l)) in Hle by ring.
    apply pow_incr. split; [apply Cmod_ge_0|exact Hle]. }
  pose proof (candidate_error lib o st delta Hl Hok Hi Hgap v _ Heta Hres c0 c1 e u (sqrt (INR n) * E)
    ltac:(apply Rmult_le_pos; [apply sqrt_pos|exact HE]) (conj Hc1 Hc2) Hgapb i j Hij) as R.
  rewrite PN in R. rewrite (Hval i j) in R; [exact R|].
  destruct Hij as ([qi qj] & Hq & Hnb). apply (st_inside lib o st Hi) in Hq. destruct Hq as [Hg Hint].
  destruct Hok as (_ & _ & _ & Hm & _). specialize (Hm qi qj Hg Hint). destruct Hnb as (N1 & N2 & _). cbn [fst snd] in N1, N2.
  unfold in_open_grid. cbn [fst snd]. lia.
Qed.

(** ** On the five curves *)

Lemma accuracy_node : forall b k, exists K, 0 <= K /\ forall brentq order c D un M eps,
  brentq_contract brentq -> (order = 2 \/ order = 4)%Z -> curve_solver brentq order (curve b) c -> ec_k c = k ->
  Spec_Ext.partials plane 6 D -> helmholtz plane k D (fun _ _ _ _ => RtoC 0) -> square_bound D M -> normal_trace (curve b) (PI / 4) D un -> 0 <= eps ->
  fits (23 / 10) (PI / 4) (ec_B c) (ec_c0 c) (value_trace (curve b) (PI / 4) D) eps -> fits (23 / 10) (PI / 4) (ec_B c) (ec_c1 c) un eps ->
  forall sid e p, (sid < 3)%nat -> In p (ec_gamma c sid) -> node_etype c sid p = Ok e ->
  exists len v, do_extend c SrcCoef sid e p = Ok (len, v) /\
    Cmod (Cminus v (D 0%nat 0%nat (fst (ctx_coord c p)) (snd (ctx_coord c p)))) <= K * (eps + M * (2 * PI / IZR (ec_N c)) ^ 5).
Proof. intros b k. exact (curve_accuracy (curve b) k (curves_gentle b) (curves_good b)). Qed.

Lemma accuracy_boundary : forall b k, exists K, 0 <= K /\ forall brentq order c D un M eps hom,
  brentq_contract brentq -> (order = 2 \/ order = 4)%Z -> curve_solver brentq order (curve b) c -> ctx_wf c -> ec_k c = k ->
  Spec_Ext.partials plane 6 D -> helmholtz plane k D (fun _ _ _ _ => RtoC 0) -> square_bound D M -> normal_trace (curve b) (PI / 4) D un -> 0 <= eps ->
  fits (23 / 10) (PI / 4) (ec_B c) (ec_c0 c) (value_trace (curve b) (PI / 4) D) eps -> fits (23 / 10) (PI / 4) (ec_B c) (ec_c1 c) un eps ->
  ec_homogeneous c = true \/ hom = true ->
  exists e, extend_boundary c SrcCoef hom = Ok e /\ length e = length (ec_union c) /\
    forall l p, nth_error (ec_union c) l = Some p ->
      Cmod (Cminus (as_vec e l) (D 0%nat 0%nat (fst (ctx_coord c p)) (snd (ctx_coord c p)))) <= K * (eps + M * (2 * PI / IZR (ec_N c)) ^ 5).
Proof. intros b k. exact (boundary_accuracy (curve b) k (curves_gentle b) (curves_good b)). Qed.
