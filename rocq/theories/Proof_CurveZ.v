(** The run of the regularisation on the five boundary curves (C75). *)
From Coq Require Import String ZArith List Bool Reals Lia Lra Psatz.
From Coquelicot Require Import Coquelicot.
From Verif Require Import Model_Py Model_Multivalue Model_Grid Model_Fourier Model_Linop Model_Abcoef Model_PS Model_Domain Model_Extend
  Model_Ode Model_PolarFD Model_ZMethod Model_Problems Model_ZRun Model_Driver Model_Run Model_Program Model_ZProgram
  Spec_Domain Spec_Grid Spec_PS Spec_Fd Spec_PolarFD Spec_Problems Spec_Extend Spec_Inhomo Spec_ZRun Spec_Run Spec_Program Spec_ZProgram Spec_Curve
  Proof_Domain Proof_Grid Proof_Place Proof_Hessian Proof_Driver Proof_Run Proof_Program Proof_ZProgram Proof_Gentle Proof_CurvePlace Proof_CurveRun.
Import ListNotations.
Open Scope R_scope.

Local Notation table_size := Spec_Program.table_size.
Local Notation curve b := (boundary_r b (23 / 10) None (PI / 4)).

Lemma zopt_curve : forall L p b A nc nr N order, brentq_contract (lib_brentq (zl_ps L)) -> table_size N ->
  curve_options (zl_ps L) (zopt L p b A nc nr N order).
Proof.
  intros L p b A nc nr N order Hb HN. destruct (smooth_options_ok 0 SmoothYCos b N order HN) as (nc' & nr' & _ & _ & E).
  exact (smooth_curve_options 0 (zl_ps L) SmoothYCos b N order _ Hb HN E).
Qed.

Lemma zopt_region : forall L p b A nc nr N order i j, table_size N ->
  (o_inside (zopt L p b A nc nr N order) i j <-> region_node (curve b) N (i, j)).
Proof.
  intros L p b A nc nr N order i j HN. destruct (smooth_options_ok 0 SmoothYCos b N order HN) as (nc' & nr' & _ & _ & E).
  exact (region_inside 0 SmoothYCos b N order _ i j HN E).
Qed.

Lemma region_domain : forall r p, in_region r (PI / 4) p -> exists R0, in_domain R0 (PI / 4) p.
Proof.
  intros r p (rho & th & Ht & Hr & ->). pose proof PI_RGT_0 as HP. exists rho. unfold in_domain. cbn [fst snd]. split.
  - pose proof (sin2_cos2 th) as S. unfold Rsqr in S. nra.
  - intros [H1 H2]. assert (Hth : th < PI).
    { apply Rnot_le_lt. intros L. pose proof (sin_ge_0 (th - PI) ltac:(lra) ltac:(lra)) as Q. rewrite sin_minus, cos_PI, sin_PI in Q. nra. }
    pose proof (sin_ge_0 (th - PI / 4) ltac:(lra) ltac:(lra)) as Q. rewrite sin_minus in Q. nra.
Qed.

Lemma curve_zopt_total : forall L p b A nc nr N order, enumerating (zl_ps L) -> fit_sizes (zl_ps L) -> brentq_contract (lib_brentq (zl_ps L)) ->
  (zp_k p = 27 / 4 \/ zp_k p = 43 / 4) -> table_size N -> (order = 2 \/ order = 4)%Z -> off_curve (curve b) N -> (1 <= nc)%nat -> (1 <= nr)%nat ->
  let o := zopt L p b A nc nr N order in
  exists st res, ps_init (zl_ps L) o = Ok st /\ ps_run (zl_ps L) o st = Ok res /\ st_gave_up st = false.
Proof.
  intros L p b A nc nr N order Hl Hf Hb Hk HN Ho Hoff Hc Hr o.
  destruct (curve_total (zl_ps L) o nc nr Hl (zopt_ok L p b A nc nr N order Hk HN Ho) Hf (zopt_curve L p b A nc nr N order Hb HN) eq_refl Hc Hr)
    as (st & res & Hi & Hg & _ & Hrun).
  - right. split; [exact Hoff|right].
    exists (read_source (o_src o)). intros q _. apply read_cart. apply sympy_symmetric.
  - intros _. destruct (curve_node_inside b N HN) as (i & j & Hij). exists i, j. apply (zopt_region L p b A nc nr N order i j HN). exact Hij.
  - exists st, res. auto.
Qed.

Lemma curve_zm_total : forall L s b acheat z1cheat cache N order,
  enumerating (zl_ps L) -> fit_sizes (zl_ps L) -> brentq_contract (lib_brentq (zl_ps L)) -> table_size N -> (order = 2 \/ order = 4)%Z -> off_curve (curve b) N ->
  let p := sing_problem (zl_jv L) (zl_gamma L) s in
  exists z, st_gave_up (zr_st z) = false /\ forall fuel, zm_run (S fuel) L p b acheat z1cheat (Some cache) N order = Ok z.
Proof.
  intros L s b acheat z1cheat cache N order Hl Hf Hb HN Ho Hoff p.
  destruct (z1_total L p z1cheat cache (zm_arc_R problem_R (boundary_bet b None))) as (z1 & E1).
  destruct (table_size_range N HN) as [HN1 _].
  assert (exists A, zac L p b acheat z1 N = Ok A) as (A & E2) by apply a_coef_total.
  destruct (zm_u_options_ok 0 L p b A N order HN) as (nc & nr & Hc & Hr & E3).
  destruct (curve_zopt_total L p b A nc nr N order Hl Hf Hb (sing_k _ _ s) HN Ho Hoff Hc Hr) as (st & res & E4 & E5 & Hg).
  destruct (v_error_total (zfd L p b z1 N) (zp_eval_v p) (zm_v (zl_spsolve L) acheat (zfd L p b z1 N)) zm_M) as (ve & E6).
  { cbn. lia. } { unfold zm_M. lia. }
  eexists. split; [|intros fuel; eapply zm_run_form; [exact E1|lia|exact E2|exact (E3 fuel)|exact E4|exact E5|exact E6]].
  exact Hg.
Qed.

Lemma curve_z_run : forall L s b acheat z1cheat cache N order,
  enumerating (zl_ps L) -> fit_sizes (zl_ps L) -> brentq_contract (lib_brentq (zl_ps L)) -> table_size N -> (order = 2 \/ order = 4)%Z -> off_curve (curve b) N ->
  let p := sing_problem (zl_jv L) (zl_gamma L) s in
  exists z, (forall fuel, zm_run (S fuel) L p b acheat z1cheat (Some cache) N order = Ok z) /\
    st_gave_up (zr_st z) = false /\
    (forall i j, region_node (curve b) N (i, j) ->
       lin_apply_L N order (2 * PI) (zp_k p) (node_value N (zr_u z)) i j = lin_apply_B (st_f (zr_st z)) i j) /\
    (forall i j r th, region_node (curve b) N (i, j) -> polar_coords (square_pt N i j) r th -> 0 < r ->
       st_f (zr_st z) i j = RtoC (zm_f (zp_k p) (zp_v_asympt p) r th)) /\
    (s <> IzBessel -> zr_u_error z = None) /\
    (s = IzBessel -> exists e, zr_u_error z = Some e /\
       is_max (fun q : node * (R * R) => region_node (curve b) N (fst q) /\
           polar_coords (square_pt N (fst (fst q)) (snd (fst q))) (fst (snd q)) (snd (snd q)))
         (fun q => Cmod (Cminus (RtoC (ih_eval_v (zl_jv L) 0 (27 / 4) pizza_nu (PI / 4) (fst (snd q)) (snd (snd q)) -
                                       zero_at_origin (zp_v_asympt p) (fst (snd q)) (snd (snd q))))
                                (node_value N (zr_u z) (fst (fst q)) (snd (fst q))))) e).
Proof.
  intros L s b acheat z1cheat cache N order Hl Hf Hb HN Ho Hoff p.
  destruct (curve_zm_total L s b acheat z1cheat cache N order Hl Hf Hb HN Ho Hoff) as (z & Hg & Hz). fold p in Hz.
  exists z. split; [exact Hz|]. split; [exact Hg|].
  destruct (zm_run_inv _ _ _ _ _ _ _ _ _ _ (Hz 0%nat)) as (_ & _ & _ & _ & _ & (nc & nr & Eo) & (res & E1 & E2 & Eu & Ee) & _).
  pose proof (fun i j => zopt_region L p b (zr_a z) nc nr N order i j HN) as Hin. rewrite <- Eo in Hin.
  destruct (table_size_range N HN) as [HN1 _]. pose proof PI_RGT_0. assert (0 < IZR N) by (apply IZR_lt; lia).
  assert (Ec : forall i j, get_coord (2 * PI) N i j = square_pt N i j)
    by (intros i j; unfold get_coord, square_pt; f_equal; field; lra).
  pose proof (run_error (zl_ps L) (zr_opt z) (zr_st z) res Hl E2) as He. rewrite <- Ee in He.
  split; [|split; [|split]].
  - intros i j Hij. apply Hin in Hij. pose proof (z_equation 1 L s b acheat z1cheat (Some cache) N order z Hl HN Ho (Hz 0%nat) i j Hij) as Q.
    rewrite <- Q. rewrite Eo. reflexivity.
  - intros i j r th Hij Hp Hr. apply Hin in Hij.
    rewrite (proj1 (init_source (zl_ps L) (zr_opt z) (zr_st z) Hl ltac:(rewrite Eo; exact Ho) E1) i j Hij).
    rewrite Eo. cbn [zopt o_src o_AD o_N]. rewrite Ec. apply sympy_value_cart; [rewrite <- surjective_pairing; exact Hp|exact Hr].
  - intros Hs. destruct (zr_u_error z) as [e|]; [|reflexivity]. destruct He as [K _]. exfalso. rewrite Eo in K. cbn [zopt o_known] in K.
    unfold p in K. destruct s; [apply Hs; reflexivity|discriminate K|discriminate K].
  - intros ->. destruct (zr_u_error z) as [e|]; [|rewrite Eo in He; discriminate He].
    exists e. split; [reflexivity|]. destruct He as [_ He]. rewrite <- Eu in He.
    assert (Hfun : forall q : node, region_node (curve b) N q -> forall r th, polar_coords (square_pt N (fst q) (snd q)) r th ->
      o_expected (zr_opt z) (fst (get_coord (o_AD (zr_opt z)) (o_N (zr_opt z)) (fst q) (snd q))) (snd (get_coord (o_AD (zr_opt z)) (o_N (zr_opt z)) (fst q) (snd q))) =
      RtoC (ih_eval_v (zl_jv L) 0 (27 / 4) pizza_nu (PI / 4) r th - zero_at_origin (zp_v_asympt p) r th)).
    { intros q Hq r th Hp. destruct (region_domain _ _ (proj2 Hq)) as (R0 & HR0). rewrite Eo. cbn [zopt o_AD o_N o_expected]. rewrite Ec.
      exact (u_expected_value p (iz_expected (zl_jv L) 0 smooth_k pizza_nu pizza_a) R0 (square_pt N (fst q) (snd q)) r th eq_refl HR0 Hp). }
    assert (EN : o_N (zr_opt z) = N) by (rewrite Eo; reflexivity).
    destruct He as [(q & Hq1 & Hq2) Hmax]. split.
    + assert (Hq : region_node (curve b) N q) by (destruct q as [i j]; apply Hin; exact Hq1).
      destruct (cart_to_polar (fst (square_pt N (fst q) (snd q))) (snd (square_pt N (fst q) (snd q)))) as [r th] eqn:Ep.
      destruct (region_domain _ _ (proj2 Hq)) as (R0 & HR0). pose proof (polar_in_domain R0 _ r th HR0 Ep) as Hp.
      exists (q, (r, th)). cbn [fst snd]. split; [split; assumption|].
      rewrite <- Hq2. rewrite (Hfun q Hq r th Hp), EN. reflexivity.
    + intros [q' [r th]] [Hq Hp]. cbn [fst snd] in *. rewrite <- (Hfun q' Hq r th Hp).
      pose proof (Hmax q') as Hm. rewrite EN in Hm. rewrite EN. apply Hm. destruct q' as [i j]. apply Hin. exact Hq.
Qed.

Lemma curve_z_main : forall L s b acheat z1cheat order N0 c,
  enumerating (zl_ps L) -> fit_sizes (zl_ps L) -> brentq_contract (lib_brentq (zl_ps L)) -> (order = 2 \/ order = 4)%Z ->
  table_size N0 -> (c < 2048)%Z ->
  (forall N, table_size N -> (N <= c)%Z -> off_curve (curve b) N) ->
  exists fuel0 Ns zs,
    (forall x, In x Ns <-> exists i : nat, x = (N0 * 2 ^ Z.of_nat i)%Z /\ (x <= c)%Z) /\
    Forall2 (fun N z => zm_run fuel0 L (sing_problem (zl_jv L) (zl_gamma L) s) b acheat z1cheat (Some None) N order = Ok z) Ns zs /\
    forall fuel, (fuel0 <= fuel)%nat -> runz_main fuel L s b N0 (Some c) order acheat z1cheat = Ok (map (report zs) (seq 0 (length zs))).
Proof.
  intros L s b acheat z1cheat order N0 c Hl Hf Hb Ho H0 Hc Hoff.
  destruct (N_list_sizes N0 c H0 Hc) as (Ns & fuel0 & Hget & Hin & Hts).
  assert (exists zs, Forall2 (fun N z => (forall fuel, zm_run (S fuel) L (sing_problem (zl_jv L) (zl_gamma L) s) b acheat z1cheat (Some None) N order = Ok z) /\
     ((s <> IzBessel -> zr_u_error z = None) /\ (s = IzBessel -> exists e, zr_u_error z = Some e))) Ns zs) as (zs & HF).
  { assert (Hle : forall x, In x Ns -> (x <= c)%Z) by (intros x Hx; apply Hin in Hx; destruct Hx as (? & ? & ?); assumption).
    clear Hget Hin. induction Ns as [|N Ns IH]; [exists []; constructor|].
    destruct IH as (zs & IH); [intros x Hx; apply Hts; right; exact Hx|intros x Hx; apply Hle; right; exact Hx|].
    destruct (curve_z_run L s b acheat z1cheat None N order Hl Hf Hb (Hts N (or_introl eq_refl)) Ho
      (Hoff N (Hts N (or_introl eq_refl)) (Hle N (or_introl eq_refl)))) as (z & E1 & _ & _ & _ & E2 & E3).
    exists (z :: zs). constructor; [|exact IH]. split; [exact E1|]. split; [exact E2|].
    intros Hs. destruct (E3 Hs) as (e & Ee & _). exists e. exact Ee. }
  exists (S fuel0), Ns, zs. split; [exact Hin|]. split.
  - clear -HF. induction HF as [|N z Ns zs [Hz _] _ IH]; constructor; [apply Hz|exact IH].
  - intros fuel Hfuel. unfold runz_main. rewrite Hget by lia. cbn [bind]. destruct fuel as [|fuel]; [lia|].
    apply (report_loop (S fuel) L (sing_problem (zl_jv L) (zl_gamma L) s) b order acheat z1cheat Ns zs) with (prevs := []).
    + clear -HF. induction HF as [|N z Ns zs [Hz _] _ IH]; constructor; [apply Hz|exact IH].
    + intros y [].
    + cbn [app]. assert (HP : forall y, In y zs -> (s <> IzBessel -> zr_u_error y = None) /\ (s = IzBessel -> exists e, zr_u_error y = Some e)).
      { clear -HF. induction HF as [|N z Ns zs [_ Hz] _ IH]; intros y Hy; [destruct Hy|]. destruct Hy as [<-|Hy]; [exact Hz|exact (IH y Hy)]. }
      destruct s; [left|right|right]; intros y Hy; apply (HP y Hy); [reflexivity|discriminate|discriminate].
Qed.
