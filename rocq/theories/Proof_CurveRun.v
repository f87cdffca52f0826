(** The run on the five boundary curves (C75). *)
From Coq Require Import ZArith List Bool Reals Lia Lra Psatz.
From Coquelicot Require Import Coquelicot.
From Verif Require Import Model_Py Model_Multivalue Model_Grid Model_Fourier Model_Linop Model_Abcoef Model_PS Model_Chebyshev Model_Domain Model_Extend
  Model_Problems Model_Driver Model_Run Model_Program
  Spec_Domain Spec_Grid Spec_PS Spec_Extend Spec_Debug Spec_Inhomo Spec_ZRun Spec_Run Spec_Program Spec_Curve
  Proof_Grid Proof_PS Proof_Domain Proof_Boundary Proof_Eig Proof_Curves Proof_Place Proof_Extend2 Proof_Run Proof_Program Proof_Gentle Proof_CurvePlace Proof_CurveFill Proof_Hessian Proof_Driver.
Import ListNotations.
Open Scope R_scope.

(** ** The five curves are gentle *)

Lemma sine_gentle : forall bet m, 0 <= m -> Rabs bet * m <= 2 / 7 -> Rabs bet * (m * m) <= 2 / 5 ->
  (forall t, PI / 8 <= t <= 2 * PI + PI / 8 -> - (5 / 10) <= bet * sin (m * (t - PI / 4)) <= 15 / 100) ->
  sin (m * (2 * PI - PI / 4)) = 0 -> gentle (fun th => 23 / 10 + bet * sin (m * (th - PI / 4))).
Proof.
  intros bet m Hm H1 H2 Hband Hend.
  exists (fun th => bet * m * cos (m * (th - PI / 4))), (fun th => - (bet * (m * m) * sin (m * (th - PI / 4)))).
  split; [intros t; auto_derive; [trivial|unfold Rminus; ring]|]. split; [intros t; auto_derive; [trivial|unfold Rminus; ring]|].
  split; [intros t Ht; specialize (Hband t Ht); lra|].
  assert (Hone : forall x, Rabs (cos x) <= 1 /\ Rabs (sin x) <= 1) by (intros x; split; apply Rabs_le; [apply COS_bound|apply SIN_bound]).
  split; [|split; [|split]].
  - intros t _. rewrite !Rabs_mult, (Rabs_pos_eq m) by assumption. destruct (Hone (m * (t - PI / 4))) as [C _].
    apply Rle_trans with (Rabs bet * m * 1); [|lra]. apply Rmult_le_compat_l; [apply Rmult_le_pos; [apply Rabs_pos|assumption]|exact C].
  - intros t _. rewrite Rabs_Ropp, !Rabs_mult, (Rabs_pos_eq m) by assumption. destruct (Hone (m * (t - PI / 4))) as [_ C].
    apply Rle_trans with (Rabs bet * (m * m) * 1); [|lra]. apply Rmult_le_compat_l; [|exact C].
    apply Rmult_le_pos; [apply Rabs_pos|apply Rmult_le_pos; assumption].
  - replace (m * (PI / 4 - PI / 4)) with 0 by ring. rewrite sin_0. ring.
  - rewrite Hend. ring.
Qed.

Lemma cubic_gentle : gentle (r_cubic (23 / 10) (75 / 1000) (PI / 4)).
Proof.
  pose proof PI_num as HPI. set (kp := 75 / 1000 / kappa).
  assert (Hk : 0 < kp <= 299 / 1000).
  { pose proof kappa_bounds as K. unfold kp. split; [apply Rdiv_lt_0_compat; lra|].
    apply Rmult_le_reg_r with kappa; [lra|]. unfold Rdiv at 1. rewrite Rmult_assoc, Rinv_l by lra. lra. }
  assert (EK : forall u, 75 / 1000 / cubic_C * (PI * PI * PI * u) = kp * u).
  { intros u. unfold kp, cubic_C. pose proof kappa_bounds as K. unfold kappa in *. field. split; lra. }
  assert (HI : / PI <= 3184 / 10000 /\ 0 < / PI).
  { split; [|apply Rinv_0_lt_compat; lra]. apply Rmult_le_reg_r with PI; [lra|]. rewrite Rinv_l by lra. lra. }
  assert (Hs : forall t, PI / 8 <= t <= 2 * PI + PI / 8 -> exists s, t = PI * s /\ 1 / 8 <= s <= 17 / 8).
  { intros t Ht. exists (t / PI). split; [field; lra|]. split; apply Rmult_le_reg_r with PI; try lra; unfold Rdiv; rewrite ?Rmult_assoc, ?Rinv_l by lra; lra. }
  set (K := 75 / 1000 / cubic_C) in *.
  exists (fun t => K * ((t - PI) * (t - 2 * PI) + (t - PI / 4) * (t - 2 * PI) + (t - PI / 4) * (t - PI))),
    (fun t => K * (6 * t - PI / 2 - 6 * PI)).
  split; [intros t; unfold r_cubic; fold K; auto_derive; [trivial|field]|].
  split; [intros t; auto_derive; [trivial|field]|].
  split; [|split; [|split; [|split]]].
  - intros t Ht. destruct (Hs t Ht) as (s & -> & Hs'). unfold r_cubic. fold K.
    replace (K * (PI * s - PI / 4) * (PI * s - PI) * (PI * s - 2 * PI)) with (K * (PI * PI * PI * ((s - 1 / 4) * (s - 1) * (s - 2)))) by field.
    rewrite EK. set (c := (s - 1 / 4) * (s - 1) * (s - 2)).
    assert (C1 : c <= 5 / 10).
    { assert (0 <= (17 / 8 - s) * (s - 1 / 2) ^ 2) by (apply Rmult_le_pos; [lra|apply pow2_ge_0]).
      assert (0 <= (s - 3 / 2) ^ 2) by apply pow2_ge_0. unfold c. lra. }
    assert (C2 : - 1 <= c).
    { assert (0 <= s * (s - 13 / 8) ^ 2) by (apply Rmult_le_pos; [lra|apply pow2_ge_0]). unfold c. lra. }
    assert (kp * c <= kp * (5 / 10)) by (apply Rmult_le_compat_l; lra).
    assert (kp * -1 <= kp * c) by (apply Rmult_le_compat_l; lra). lra.
  - intros t Ht. destruct (Hs t Ht) as (s & -> & Hs').
    replace (K * ((PI * s - PI) * (PI * s - 2 * PI) + (PI * s - PI / 4) * (PI * s - 2 * PI) + (PI * s - PI / 4) * (PI * s - PI)))
      with (K * (PI * PI * PI * (/ PI * (3 * s ^ 2 - 13 / 2 * s + 11 / 4)))) by (field; lra).
    rewrite EK. set (q := 3 * s ^ 2 - 13 / 2 * s + 11 / 4).
    assert (Q1 : Rabs q <= 249 / 100).
    { apply Rabs_le. assert (0 <= (s - 1 / 8) * (17 / 8 - s)) by (apply Rmult_le_pos; lra).
      pose proof (pow2_ge_0 (s - 13 / 12)). unfold q. lra. }
    rewrite !Rabs_mult, (Rabs_pos_eq kp), (Rabs_pos_eq (/ PI)) by lra.
    apply Rle_trans with (299 / 1000 * (3184 / 10000 * (249 / 100))); [|lra].
    apply Rmult_le_compat; [lra|apply Rmult_le_pos; [lra|apply Rabs_pos]|lra|]. apply Rmult_le_compat; try lra. apply Rabs_pos.
  - intros t Ht. destruct (Hs t Ht) as (s & -> & Hs').
    replace (K * (6 * (PI * s) - PI / 2 - 6 * PI)) with (K * (PI * PI * PI * (/ PI * / PI * (6 * s - 13 / 2)))) by (field; lra).
    rewrite EK. assert (Q1 : Rabs (6 * s - 13 / 2) <= 25 / 4) by (apply Rabs_le; lra).
    rewrite !Rabs_mult, (Rabs_pos_eq kp), (Rabs_pos_eq (/ PI)) by lra.
    apply Rle_trans with (299 / 1000 * (3184 / 10000 * (3184 / 10000) * (25 / 4))); [|lra].
    assert (0 <= / PI * / PI) by (apply Rmult_le_pos; lra).
    apply Rmult_le_compat; [lra|apply Rmult_le_pos; [lra|apply Rabs_pos]|lra|]. apply Rmult_le_compat; try lra; [apply Rabs_pos|].
    apply Rmult_le_compat; lra.
  - unfold r_cubic. ring.
  - unfold r_cubic. ring.
Qed.

Lemma gentle_ext : forall r r', (forall t, r t = r' t) -> gentle r -> gentle r'.
Proof.
  intros r r' E (r1 & r2 & D1 & D2 & B & S & C & Ea & E2). exists r1, r2.
  split; [intros t; apply (is_derive_ext r); [exact E|apply D1]|]. split; [exact D2|].
  split; [intros t Ht; rewrite <- E; auto|]. split; [exact S|]. split; [exact C|]. rewrite <- !E. auto.
Qed.

Lemma curves_gentle : forall b, gentle (boundary_r b (23 / 10) None (PI / 4)).
Proof.
  intros b. pose proof PI_num as HPI.
  assert (Hnu : problem_nu (PI / 4) = 4 / 7) by (unfold problem_nu; field; lra).
  assert (S47 : sin (4 / 7 * (2 * PI - PI / 4)) = 0) by (replace (4 / 7 * (2 * PI - PI / 4)) with PI by field; apply sin_PI).
  destruct b; unfold boundary_r, boundary_bet, bet0; cbv zeta; rewrite ?Hnu.
  - apply gentle_ext with (fun th => 23 / 10 + 0 * sin (0 * (th - PI / 4))); [intros t; unfold r_arc; ring|].
    apply sine_gentle; rewrite ?Rabs_R0; try lra; [intros t _; lra|rewrite Rmult_0_l; apply sin_0].
  - apply gentle_ext with (fun th => 23 / 10 + 15 / 100 * sin (4 / 7 * (th - PI / 4))); [intros t; reflexivity|].
    apply sine_gentle; rewrite ?Rabs_pos_eq; try lra.
    intros t _. pose proof (SIN_bound (4 / 7 * (t - PI / 4))). lra.
  - apply gentle_ext with (fun th => 23 / 10 + - (5 / 10) * sin (4 / 7 * (th - PI / 4))); [intros t; unfold r_inner_sine; ring|].
    apply sine_gentle; rewrite ?Rabs_Ropp, ?Rabs_pos_eq; try lra.
    intros t Ht. pose proof (SIN_bound (4 / 7 * (t - PI / 4))). split; [lra|].
    assert (- (3 / 10) <= sin (4 / 7 * (t - PI / 4))); [|lra].
    set (w := 4 / 7 * (t - PI / 4)) in *. assert (Hw : - (PI / 14) <= w <= PI + PI / 14) by (unfold w; lra).
    destruct (Rle_lt_dec 0 w) as [L|L]; [destruct (Rle_lt_dec w PI) as [L2|L2]|].
    + pose proof (sin_ge_0 w L L2). lra.
    + pose proof (sin_upper (w - PI) ltac:(lra)) as Q. rewrite sin_minus, cos_PI, sin_PI in Q. lra.
    + pose proof (sin_upper (- w) ltac:(lra)) as Q. rewrite sin_neg in Q. lra.
  - apply gentle_ext with (fun th => 23 / 10 + 25 / 1000 * sin (4 * (th - PI / 4))).
    { intros t. unfold r_sine7. do 3 f_equal. field. }
    apply sine_gentle; rewrite ?Rabs_pos_eq; try lra.
    + intros t _. pose proof (SIN_bound (4 * (t - PI / 4))). lra.
    + replace (4 * (2 * PI - PI / 4)) with (PI + 2 * INR 3 * PI) by (simpl; field). rewrite sin_period. apply sin_PI.
  - apply cubic_gentle.
Qed.

(** ** Construction *)

Definition curve_options (lib : library) (o : options) : Prop :=
  brentq_contract (lib_brentq lib) /\ gentle (o_r o) /\ o_R o = 23 / 10 /\ o_a o = PI / 4 /\ o_AD o = 2 * PI /\ (16 <= o_N o)%Z.

Lemma curve_ctx : forall lib o B, enumerating lib -> options_ok o -> curve_options lib o ->
  exists c, init_ctx lib o B = Ok c /\ ctx_wf c /\ curve_solver (lib_brentq lib) (o_order o) (o_r o) c.
Proof.
  intros lib o B Hl Ho (Hb & Hg & ER & Ea & EAD & HN). destruct Ho as (_ & Hord & _).
  set (ug := lib_enum lib (gamma_set (o_order o) (o_N o) (o_interior o))).
  assert (Hen : enumerates ug (gamma_set (o_order o) (o_N o) (ps_is_interior (o_r o) (PI / 4) (2 * PI) (o_N o)))).
  { unfold ug, o_interior. rewrite Ea, EAD. apply Hl. }
  destruct (curve_placed (lib_brentq lib) Hb (o_r o) Hg (o_N o) HN (o_order o) ug Hord Hen) as [Eg Hc].
  set (cl := pclaims (lib_brentq lib) (o_r o) (o_N o)) in *.
  eexists. split.
  - unfold init_ctx. rewrite ER, Ea, EAD. fold ug. rewrite Eg. cbn [bind]. reflexivity.
  - split; [|split; [reflexivity|]; split; [reflexivity|]; split; [reflexivity|]; split; [exact HN|]; split; [reflexivity|];
      split; [reflexivity|]; split; [exact Hen|exact Eg]].
    pose proof PI_RGT_0. split; [cbn; lra|]. split; [cbn; lra|]. cbn [ec_gamma ec_union ec_bcoord]. split; [|split].
    + intros [|[|[|sid]]] p Hs Hp; try lia; apply filter_In in Hp; apply Hp.
    + intros p Hp. unfold occurrences. cbn [ec_gamma]. destruct Hen as [Hnd _].
      rewrite !app_length, !count_nodup by (apply NoDup_filter; exact Hnd).
      assert (Hm : forall sid, node_mem p (filter (cl sid) ug) = cl sid p).
      { intros sid. destruct (cl sid p) eqn:E; [apply node_mem_in, filter_In; auto|].
        apply not_true_iff_false. rewrite node_mem_in, filter_In. intros [_ ?]. congruence. }
      rewrite !Hm. specialize (Hc p Hp).
      pose proof (not_three (lib_brentq lib) Hb (o_r o) Hg (o_N o) HN p) as H3. fold cl in H3.
      destruct (cl 0%nat p), (cl 1%nat p), (cl 2%nat p); cbn in *; auto; try discriminate; exfalso; intuition discriminate.
    + intros p Hp. apply filter_In in Hp. destruct Hp as [_ Hp]. destruct (get_coord (2 * PI) (o_N o) (fst p) (snd p)) as [x y] eqn:E.
      apply (pclaims_iff (lib_brentq lib) Hb (o_r o) Hg (o_N o) HN 0 p x y ltac:(lia) E) in Hp. destruct Hp as (b & Hb1 & Hb2).
      destruct (curve_claims (lib_brentq lib) Hb (o_r o) Hg (o_N o) HN p x y E) as (d & _ & _ & H').
      apply (H' b Hb1 Hb2).
Qed.

Lemma curve_sample_ok : forall lib o, curve_options lib o -> sample_ok (o_r o) (o_R o) (o_a o).
Proof.
  intros lib o (_ & Hg & ER & Ea & _). destruct Hg as (r1 & r2 & _ & _ & Hband & _). pose proof PI_num. rewrite ER, Ea.
  split; [lra|]. split; [lra|]. split; [lra|]. intros th Hth. specialize (Hband th ltac:(lra)). lra.
Qed.

Lemma curve_init : forall lib o nc nr, enumerating lib -> options_ok o -> curve_options lib o -> basis_sizes o = Ok (nc, nr) ->
  (o_homogeneous o = true \/ (o_order o = 2)%Z \/ exists F, forall b, expansion_pt (o_r o) (PI / 4) b -> cart_source (o_src o) F (fst b) (snd b)) ->
  exists st, ps_init lib o = Ok st /\ ctx_wf (st_ctx st) /\ curve_solver (lib_brentq lib) (o_order o) (o_r o) (st_ctx st) /\
    st_gave_up st = false /\ ec_homogeneous (st_ctx st) = o_homogeneous o /\ ec_N (st_ctx st) = o_N o.
Proof.
  intros lib o nc nr Hl Ho Hcv Hn Hsrc.
  destruct (setup_basis nc nr) as [B seg] eqn:EB.
  destruct (curve_ctx lib o B Hl Ho Hcv) as (c & Ec & Hwf & Hcs).
  pose proof (init_ps_usable lib o Hl Ho) as U. destruct Hcv as (Hb & Hg & ER & Ea & EAD & HN). destruct Ho as (_ & Hord & _ & Hm & _).
  assert (F1 : ec_homogeneous c = o_homogeneous o /\ ec_N c = o_N o /\ ec_src c = o_src o)
    by (destruct (init_ctx_inv _ _ _ _ Ec) as (g0 & g1 & g2 & _ & ->); auto).
  destruct F1 as (Eh & EN & Es).
  assert (Hf : exists f, setup_f lib o c (init_ps lib o) = Ok (f, false)).
  { unfold setup_f. destruct (o_homogeneous o) eqn:Eho.
    - unfold extend_f. rewrite Eh. eexists. reflexivity.
    - destruct Hord as [E2|E4].
      + assert (En : lib_enum lib (node_diff (Kplus (o_order o) (o_N o) (o_interior o)) (global_Mplus (o_N o) (o_interior o))) = []).
        { destruct (lib_enum lib (node_diff (Kplus (o_order o) (o_N o) (o_interior o)) (global_Mplus (o_N o) (o_interior o)))) as [|q l] eqn:E; [reflexivity|]. exfalso.
          assert (Hq : In q (q :: l)) by (left; reflexivity). rewrite <- E in Hq. apply Hl, node_diff_in in Hq. destruct Hq as [H1 H2].
          apply Kplus_in in H1; [|left; exact E2]. destruct H1 as (p & Hp & [->|[H4 _]]); [contradiction|lia]. }
        rewrite En. unfold extend_f. rewrite Eh. eexists. reflexivity.
      + destruct Hsrc as [|[|(F & HF)]]; [congruence|lia|]. rewrite E4 in Hcs |- *.
        assert (Ei : o_interior o = ps_is_interior (o_r o) (PI / 4) (2 * PI) (ec_N c)) by (unfold o_interior; rewrite Ea, EAD, EN; reflexivity).
        destruct (extend_f_curve (lib_brentq lib) (o_r o) c F (lib_enum lib (node_diff (Kplus 4 (o_N o) (o_interior o)) (global_Mplus (o_N o) (o_interior o))))
          (setup_f_interior (init_ps lib o) (s_f (o_src o))) Hb Hg Hcs) as (f' & Ef & _).
        * rewrite <- Ei, EN. exact Hm.
        * exact Eh.
        * rewrite Es. exact HF.
        * rewrite <- Ei, EN. apply Hl.
        * exists f'. exact Ef. }
  destruct Hf as (f & Ef). destruct (ap_sol_f_spec (init_ps lib o) U f) as (A & EA & _).
  exists (mk_state c (init_ps lib o) seg f false A). cbn [st_ctx st_gave_up]. split; [|auto 6].
  unfold ps_init. rewrite Hn. cbn [bind fst snd]. rewrite EB, Ec. cbn [bind]. rewrite Ef. cbn [bind fst snd]. rewrite EA. reflexivity.
Qed.

Lemma gamma_in_grid : forall order N ins p, (order = 2 \/ order = 4)%Z -> margin N ins -> In p (gamma_set order N ins) -> in_open_grid N p.
Proof.
  intros order N ins p Ho Hm Hp. apply gamma_set_in in Hp; [|exact Ho]. destruct Hp as [(q & Hq & Hi & Hn) _].
  specialize (Hm (fst q) (snd q)). destruct q as [i j], p as [i' j']. cbn [fst snd] in *. specialize (Hm Hq Hi).
  destruct Hn as (N1 & N2 & _). unfold in_open_grid. cbn [fst snd] in *. lia.
Qed.

Lemma curve_total : forall lib o nc nr, enumerating lib -> options_ok o -> fit_sizes lib -> curve_options lib o ->
  basis_sizes o = Ok (nc, nr) -> (1 <= nc)%nat -> (1 <= nr)%nat ->
  (o_homogeneous o = true \/ off_curve (o_r o) (o_N o) /\
     ((o_order o = 2)%Z \/ exists F, forall b, expansion_pt (o_r o) (PI / 4) b -> cart_source (o_src o) F (fst b) (snd b))) ->
  (o_known o = true -> exists i j, o_inside o i j) ->
  exists st res, ps_init lib o = Ok st /\ st_gave_up st = false /\ ctx_wf (st_ctx st) /\ ps_run lib o st = Ok res.
Proof.
  intros lib o nc nr Hl Ho Hfit Hcv Hn Hc Hr Hsrc Hk.
  destruct (curve_init lib o nc nr Hl Ho Hcv Hn) as (st & Hi & Hwf & Hcs & Hg & Eh & EN); [tauto|].
  assert (Hcv' := Hcv). destruct Hcv' as (Hb & Hgen & _ & Ea & EAD & _). assert (Ho' := Ho). destruct Ho' as (_ & Hord & _ & Hm & _).
  destruct (curve_inhomo_ok (lib_brentq lib) (o_order o) (o_r o) (st_ctx st) Hb Hgen Hord Hcs Hwf) as (extf & Hf).
  - intros p Hp. destruct Hcs as (_ & _ & _ & _ & _ & _ & [_ Hen] & _). apply Hen in Hp. rewrite EN in *.
    apply (gamma_in_grid (o_order o) _ _ p Hord) in Hp; [exact Hp|]. unfold o_interior in Hm. rewrite Ea, EAD in Hm. exact Hm.
  - rewrite Eh, EN. tauto.
  - destruct (run_total lib o st nc nr extf Hl Ho Hfit Hi Hwf Hf Hn Hc Hr (curve_sample_ok lib o Hcv) Hk) as (res & Hres).
    exists st, res. auto.
Qed.

(** ** The smooth problems on the five curves *)

Lemma smooth_curve_options : forall fuel lib p b N order o, brentq_contract (lib_brentq lib) -> table_size N ->
  smooth_options (S fuel) p b N order = Ok o -> curve_options lib o.
Proof.
  intros fuel lib p b N order o Hb HN E. destruct (smooth_options_ok fuel p b N order HN) as (nc & nr & _ & _ & E').
  rewrite E in E'. apply Ok_inj' in E'. subst o. destruct (table_size_range N HN) as [HN1 _].
  split; [exact Hb|]. cbn [o_r o_R o_a o_AD o_N]. split; [exact (curves_gentle b)|]. repeat (split; [reflexivity|]). lia.
Qed.

Lemma square_coord : forall N i j, (1 <= N)%Z -> get_coord (2 * PI) N i j = square_pt N i j.
Proof. intros N i j HN. assert (0 < IZR N) by (apply IZR_lt; lia). unfold get_coord, square_pt. f_equal; field; lra. Qed.

Lemma region_inside : forall fuel p b N order o i j, table_size N -> smooth_options (S fuel) p b N order = Ok o ->
  (o_inside o i j <-> region_node (boundary_r b (23 / 10) None (PI / 4)) N (i, j)).
Proof.
  intros fuel p b N order o i j HN E. destruct (smooth_options_ok fuel p b N order HN) as (nc & nr & _ & _ & E').
  rewrite E in E'. apply Ok_inj' in E'. subst o. destruct (table_size_range N HN) as [HN1 _].
  unfold o_inside, region_node, o_interior. cbn [o_N o_r o_a o_AD fst snd].
  destruct (get_coord (2 * PI) N i j) as [x y] eqn:Exy.
  pose proof (region_ins _ (curves_gentle b) N (i, j) x y Exy) as Hri. cbn [fst snd] in Hri.
  rewrite square_coord in Exy by lia. rewrite Exy. rewrite <- Hri. reflexivity.
Qed.

Lemma curve_node_inside : forall b N, table_size N -> exists i j, region_node (boundary_r b (23 / 10) None (PI / 4)) N (i, j).
Proof.
  intros b N HN. destruct (table_size_range N HN) as [HN1 (M & EM)]. pose proof PI_num as HPI.
  exists (M - 1)%Z, M. split; [unfold in_open_grid; cbn; lia|]. cbn [fst snd].
  assert (HNr : 16 <= IZR N) by (apply IZR_le; lia).
  assert (EM' : IZR N = 2 * IZR M) by (rewrite EM, mult_IZR; ring).
  exists (2 * PI / IZR N), PI. split; [lra|]. split.
  - split; [apply Rlt_le, Rdiv_lt_0_compat; lra|]. destruct (curves_gentle b) as (r1 & r2 & _ & _ & Band & _).
    pose proof (Band PI ltac:(lra)) as [Bl _]. apply Rle_trans with 1; [|lra].
    apply Rmult_le_reg_r with (IZR N); [lra|]. unfold Rdiv. rewrite Rmult_assoc, Rinv_l by lra. lra.
  - rewrite cos_PI, sin_PI. unfold square_pt. rewrite minus_IZR. f_equal; rewrite EM'; field; lra.
Qed.

Lemma curve_smooth_run : forall fuel lib p b N order, enumerating lib -> fit_sizes lib -> brentq_contract (lib_brentq lib) ->
  table_size N -> (order = 2 \/ order = 4)%Z -> (p = SmoothYCos -> off_curve (boundary_r b (23 / 10) None (PI / 4)) N) ->
  exists o st res e, smooth_options (S fuel) p b N order = Ok o /\ ps_init lib o = Ok st /\ ps_run lib o st = Ok res /\
    st_gave_up st = false /\ ctx_wf (st_ctx st) /\ res_error res = Some e.
Proof.
  intros fuel lib p b N order Hl Hf Hb HN Ho Hoff.
  destruct (smooth_options_ok fuel p b N order HN) as (nc & nr & Hc & Hr & E).
  set (o := mk_opt _ _ _ _ _ _ _ _ _ _ _ _ _ _ _) in E.
  destruct (curve_total lib o nc nr Hl (smooth_ok fuel p b N order o HN Ho E) Hf (smooth_curve_options fuel lib p b N order o Hb HN E) eq_refl Hc Hr)
    as (st & res & Hi & Hg & Hwf & Hrun).
  - destruct p; [left; reflexivity|left; reflexivity|right].
    split; [exact (Hoff eq_refl)|right].
    exists (read_source (o_src o)). intros bp _. apply read_cart. apply (smooth_symmetric SmoothYCos).
  - intros _. destruct (curve_node_inside b N HN) as (i & j & Hij). exists i, j.
    apply (region_inside fuel p b N order o i j HN E). exact Hij.
  - pose proof (run_error lib o st res Hl Hrun) as He. destruct (res_error res) as [e|] eqn:Ee.
    + exists o, st, res, e. repeat (split; [assumption|]). exact Ee.
    + discriminate He.
Qed.

Lemma curve_run_full : forall fuel lib p b N order, enumerating lib -> fit_sizes lib -> brentq_contract (lib_brentq lib) ->
  table_size N -> (order = 2 \/ order = 4)%Z -> (p = SmoothYCos -> off_curve (boundary_r b (23 / 10) None (PI / 4)) N) ->
  let inside := region_node (boundary_r b (23 / 10) None (PI / 4)) N in
  exists o st res e, smooth_options (S fuel) p b N order = Ok o /\ ps_init lib o = Ok st /\ ps_run lib o st = Ok res /\
    st_gave_up st = false /\ res_error res = Some e /\
    is_max inside (fun q => Cmod (Cminus (smooth_expected p (fst (square_pt N (fst q) (snd q))) (snd (square_pt N (fst q) (snd q))))
      (node_value N (res_u res) (fst q) (snd q)))) e /\
    (forall i j, inside (i, j) ->
      lin_apply_L N order (2 * PI) (27 / 4) (node_value N (res_u res)) i j = lin_apply_B (st_f st) i j) /\
    (p <> SmoothYCos -> forall i j, inside (i, j) ->
      lin_apply_L N order (2 * PI) (27 / 4) (node_value N (res_u res)) i j = RtoC 0) /\
    (p = SmoothYCos -> forall i j, inside (i, j) ->
      st_f st i j = RtoC (((27 / 4) ^ 2 - 1) * snd (square_pt N i j) * cos (fst (square_pt N i j)))).
Proof.
  intros fuel lib p b N order Hl Hf Hb HN Ho Hoff inside.
  destruct (curve_smooth_run fuel lib p b N order Hl Hf Hb HN Ho Hoff) as (o & st & res & e & E1 & E2 & E3 & E4 & E5 & E6).
  exists o, st, res, e. do 5 (split; [assumption|]).
  pose proof (run_error lib o st res Hl E3) as He. rewrite E6 in He. destruct He as [_ He].
  pose proof (smooth_ok fuel p b N order o HN Ho E1) as Hok.
  pose proof (run_equation lib o st res Hl Hok E2 E3) as Hq.
  pose proof (fun i j => region_inside fuel p b N order o i j HN E1) as Hin. fold inside in Hin.
  destruct (smooth_options_ok fuel p b N order HN) as (nc & nr & _ & _ & E').
  assert (Eo : o = mk_opt (27 / 4) (23 / 10) (PI / 4) (2 * PI) N order (boundary_r b (23 / 10) None pizza_a)
    (nc, nr) None None (smooth_homogeneous p) (smooth_source p)
    (fun arg sid => match smooth_bc (boundary_r b (23 / 10) None pizza_a) pizza_a (smooth_expected p) arg sid with Ok v => v | Err _ => RtoC 0 end)
    true (smooth_expected p)) by (rewrite E1 in E'; apply Ok_inj' in E'; exact E').
  destruct (table_size_range N HN) as [HN1 _].
  assert (Ec : forall i j, get_coord (2 * PI) N i j = square_pt N i j) by (intros i j; apply square_coord; lia).
  assert (Hq' : forall i j, inside (i, j) ->
      lin_apply_L N order (2 * PI) (27 / 4) (node_value N (res_u res)) i j = lin_apply_B (st_f st) i j).
  { intros i j Hij. apply Hin in Hij. rewrite <- (Hq i j Hij). rewrite Eo. reflexivity. }
  assert (Hsrc : forall i j, inside (i, j) -> st_f st i j = s_f (smooth_source p) (fst (square_pt N i j)) (snd (square_pt N i j))).
  { intros i j Hij. apply Hin in Hij. rewrite (proj1 (init_source lib o st Hl ltac:(rewrite Eo; exact Ho) E2) i j Hij).
    rewrite Eo. cbn [o_src o_AD o_N]. rewrite Ec. reflexivity. }
  split; [|split; [exact Hq'|split]].
  - assert (Hfun : forall q : node, Cmod (Cminus (o_expected o (fst (get_coord (o_AD o) (o_N o) (fst q) (snd q))) (snd (get_coord (o_AD o) (o_N o) (fst q) (snd q))))
                               (node_value (o_N o) (res_u res) (fst q) (snd q))) =
       Cmod (Cminus (smooth_expected p (fst (square_pt N (fst q) (snd q))) (snd (square_pt N (fst q) (snd q)))) (node_value N (res_u res) (fst q) (snd q)))).
    { intros q. rewrite Eo. cbn [o_AD o_N o_expected]. rewrite Ec. reflexivity. }
    destruct He as [(q & Hq1 & Hq2) Hmax]. split.
    + exists q. split; [destruct q as [i j]; apply Hin; exact Hq1|]. rewrite <- Hq2, <- Hfun. reflexivity.
    + intros q' Hq'1. rewrite <- Hfun. apply Hmax. destruct q' as [i j]. apply Hin. exact Hq'1.
  - intros Hp i j Hij. rewrite (Hq' i j Hij). apply apply_B_zero. clear i j Hij.
    assert (Hh : o_homogeneous o = true) by (rewrite Eo; destruct p; [reflexivity|reflexivity|exfalso; apply Hp; reflexivity]).
    apply (homogeneous_f lib o st E2 Hh). intros x y. rewrite Eo. destruct p; [reflexivity|reflexivity|exfalso; apply Hp; reflexivity].
  - intros -> i j Hij. rewrite (Hsrc i j Hij). cbn [smooth_source sympy_source s_f].
    rewrite (ycos_source 0 problem_AD smooth_k (fst (square_pt N i j)) (snd (square_pt N i j))); [reflexivity|unfold problem_AD; pose proof PI_RGT_0; lra].
Qed.

Lemma curve_main_runs : forall lib p b order r N0 c, enumerating lib -> fit_sizes lib -> brentq_contract (lib_brentq lib) ->
  (order = 2 \/ order = 4)%Z -> table_size N0 -> (c < 2048)%Z ->
  (p = SmoothYCos -> forall N, table_size N -> (N <= c)%Z -> off_curve (boundary_r b (23 / 10) None (PI / 4)) N) ->
  exists fuel0 Ns runs outs,
    (forall x, In x Ns <-> exists i : nat, x = (N0 * 2 ^ Z.of_nat i)%Z /\ (x <= c)%Z) /\
    Forall2 (fun N eu => exists o st res, smooth_options fuel0 p b N order = Ok o /\ ps_init lib o = Ok st /\
      ps_run lib o st = Ok res /\ res_error res = Some (fst eu) /\ res_u res = snd eu) Ns runs /\
    run_loop r run_init (map (fun eu => (Some (fst eu), snd eu)) runs) = Ok outs /\
    forall fuel, (fuel0 <= fuel)%nat -> smooth_main fuel lib p b N0 (Some c) order r = Ok outs.
Proof.
  intros lib p b order r N0 c Hl Hf Hb Ho H0 Hc Hoff.
  destruct (N_list_sizes N0 c H0 Hc) as (Ns & fuel0 & Hget & Hin & Hts).
  assert (Hle : forall x, In x Ns -> (x <= c)%Z) by (intros x Hx; apply Hin in Hx; destruct Hx as (_ & _ & Hx); exact Hx).
  assert (Hrun : forall fuel, exists runs, Forall2 (fun N (eu : R * arr2) => exists o st res, smooth_options (S fuel) p b N order = Ok o /\ ps_init lib o = Ok st /\
      ps_run lib o st = Ok res /\ res_error res = Some (fst eu) /\ res_u res = snd eu) Ns runs).
  { intros fuel. clear Hget Hin. induction Ns as [|N Ns IH]; [exists []; constructor|].
    destruct IH as (runs & IH); [intros x Hx; apply Hts; right; exact Hx|intros x Hx; apply Hle; right; exact Hx|].
    destruct (curve_smooth_run fuel lib p b N order Hl Hf Hb (Hts N (or_introl eq_refl)) Ho) as (o & st & res & e & E1 & E2 & E3 & _ & _ & E4).
    - intros Hp. apply (Hoff Hp); [apply Hts|apply Hle]; left; reflexivity.
    - exists ((e, res_u res) :: runs). constructor; [|exact IH]. exists o, st, res. auto. }
  destruct (Hrun fuel0) as (runs & HF).
  destruct (run_loop_known r runs) as (outs & Eo & _).
  exists (S fuel0), Ns, runs, outs. split; [exact Hin|]. split; [exact HF|]. split; [exact Eo|].
  intros fuel Hfuel. unfold smooth_main. rewrite Hget by lia. cbn [bind]. rewrite <- Eo.
  apply main_loop_runs. destruct fuel as [|fuel]; [lia|].
  assert (Same : forall N, In N Ns -> smooth_options (S fuel) p b N order = smooth_options (S fuel0) p b N order).
  { intros N HN'. destruct (sizes_in_table N (Hts N HN')) as (nc & nr & _ & _ & E). unfold smooth_options. rewrite !E. reflexivity. }
  clear -HF Same. induction HF as [|N eu Ns runs (o & H) _ IH]; constructor.
  - exists o. rewrite Same by (left; reflexivity). exact H.
  - apply IH. intros x Hx. apply Same. right. exact Hx.
Qed.

(** ** Placement *)

Lemma curve_placement : forall brentq b N order union_gamma, brentq_contract brentq -> (16 <= N)%Z -> (order = 2 \/ order = 4)%Z ->
  let r := boundary_r b (23 / 10) None (PI / 4) in
  let e := 2 * PI / IZR N * sqrt 2 in
  enumerates union_gamma (gamma_set order N (ps_is_interior r (PI / 4) (2 * PI) N)) ->
  exists g0 g1 g2,
    all_gamma (23 / 10) (PI / 4) (2 * PI) N (node_bcoord brentq r (PI / 4) (2 * PI) N) union_gamma = Ok (g0, g1, g2) /\
    (forall p, In p g0 <-> In p union_gamma /\ exists q, on_piece r (23 / 10) (PI / 4) 0 q /\ dist2 q (square_pt N (fst p) (snd p)) <= e) /\
    (forall p, In p g1 <-> In p union_gamma /\ exists q, on_piece r (23 / 10) (PI / 4) 1 q /\ dist2 q (square_pt N (fst p) (snd p)) <= e) /\
    (forall p, In p g2 <-> In p union_gamma /\ exists q, on_piece r (23 / 10) (PI / 4) 2 q /\ dist2 q (square_pt N (fst p) (snd p)) <= e) /\
    (forall p, In p union_gamma -> (In p g0 \/ In p g1 \/ In p g2) /\ ~ (In p g0 /\ In p g1 /\ In p g2)) /\
    (forall p, In p g0 -> exists n th, node_bcoord brentq r (PI / 4) (2 * PI) N p = Some (n, th) /\
       Rabs n = dist2 (r th * cos th, r th * sin th) (square_pt N (fst p) (snd p)) /\
       forall phi, PI / 4 <= phi <= 2 * PI -> PI / 4 <= th <= 2 * PI ->
         Rabs n <= dist2 (r phi * cos phi, r phi * sin phi) (square_pt N (fst p) (snd p))).
Proof.
  intros brentq b N order ug Hb HN Ho r e Hen. pose proof (curves_gentle b) as Hg. fold r in Hg. pose proof PI_RGT_0 as HPI.
  destruct (curve_placed brentq Hb r Hg N HN order ug Ho Hen) as [Eg Hc].
  set (cl := pclaims brentq r N) in *.
  assert (Hsq : forall p : node, get_coord (2 * PI) N (fst p) (snd p) = square_pt N (fst p) (snd p)) by (intros p; apply square_coord; lia).
  assert (Hiff : forall sid p, (sid < 3)%nat -> (In p (filter (cl sid) ug) <->
    In p ug /\ exists q, on_piece r (23 / 10) (PI / 4) sid q /\ dist2 q (square_pt N (fst p) (snd p)) <= e)).
  { intros sid p Hs. rewrite filter_In. destruct (square_pt N (fst p) (snd p)) as [x y] eqn:E. rewrite <- Hsq in E.
    pose proof (pclaims_iff brentq Hb r Hg N HN sid p x y Hs E) as Hpc. fold cl e in Hpc. rewrite Hpc. reflexivity. }
  exists (filter (cl 0%nat) ug), (filter (cl 1%nat) ug), (filter (cl 2%nat) ug).
  split; [exact Eg|]. split; [intros p; apply Hiff; lia|]. split; [intros p; apply Hiff; lia|]. split; [intros p; apply Hiff; lia|]. split.
  - intros p Hp. rewrite !filter_In. specialize (Hc p Hp). pose proof (not_three brentq Hb r Hg N HN p) as H3. fold cl in H3.
    split; [tauto|]. intros ([_ A0] & [_ A1] & [_ A2]). rewrite A0, A1, A2 in H3. discriminate.
  - intros p Hp. assert (Hcl := Hp). apply filter_In in Hcl. destruct Hcl as [_ Hcl].
    destruct (square_pt N (fst p) (snd p)) as [x y] eqn:E. rewrite <- Hsq in E.
    assert (Hcl2 := Hcl). apply (pclaims_iff brentq Hb r Hg N HN 0 p x y ltac:(lia) E) in Hcl. destruct Hcl as (q & Hq1 & Hq2).
    destruct (curve_claims brentq Hb r Hg N HN p x y E) as (d & Es & (b0 & Hb0 & Eb0) & H').
    destruct (H' q Hq1 Hq2) as (Hdq & [n th] & Ebq). exists n, th. split; [exact Ebq|].
    destruct (bcoord_coord brentq r (PI / 4) (2 * PI) N p x y ltac:(lra) E) as (rho & th1 & Eb & _ & _ & Hx & Hy).
    assert (En : Rabs n = dist2 (r th * cos th, r th * sin th) (x, y)).
    { rewrite Ebq in Eb. symmetry in Eb. apply coord_dist in Eb. rewrite Hx, Hy in Eb. exact Eb. }
    split; [exact En|]. intros phi Hphi Hth.
    assert (Hn : Rabs n <= e).
    { unfold cl, pclaims in Hcl2. rewrite Es in Hcl2. fold e in Hcl2.
      unfold seg_claims in Es. rewrite E, Ebq in Es. cbn [etype_of] in Es.
      destruct (Rltb_spec (2 * PI) th); [lra|]. destruct (Rltb_spec th (PI / 4)); [lra|]. cbn [get_dist bind] in Es. fold e in Es.
      assert (Es0 : Rleb (Rabs n) e = Rleb d e) by congruence. rewrite Hcl2 in Es0. destruct (Rleb_spec (Rabs n) e); [assumption|discriminate]. }
    destruct (Rle_lt_dec (dist2 (r phi * cos phi, r phi * sin phi) (x, y)) e) as [L|L]; [|lra].
    assert (Hg' := Hg). destruct Hg' as (r1 & r2 & D1 & D2 & B0 & B1 & B2 & Ea & E2).
    destruct (bcoord_coord brentq r (PI / 4) (2 * PI) N p x y ltac:(lra) E) as (rho' & th' & Eb' & Hrho & Hth' & Hx' & Hy').
    pose proof (e_small N HN) as He. pose proof (dist2_polar r phi rho' th' x y e Hx' Hy' (proj1 He) L) as Hd2.
    destruct (dist_near r r1 r2 D1 D2 B0 B1 B2 Ea E2 rho' th' ltac:(lra) e phi He Hphi Hrho Hd2 brentq Hb) as (d' & n' & th0' & Es' & Edd & Hle).
    rewrite <- Eb', Ebq in Es', Edd. injection Es' as <- <-. rewrite Hx', Hy' in Edd, Hle. cbn [etype_of] in Edd.
    destruct (Rltb_spec (2 * PI) th); [lra|]. destruct (Rltb_spec th (PI / 4)); [lra|]. cbn [get_dist] in Edd.
    assert (Ed0 : d' = Rabs n) by congruence. rewrite <- Ed0. exact Hle.
Qed.

(** ** Source *)

Lemma curves_margin : forall b N, (16 <= N)%Z -> margin N (ps_is_interior (boundary_r b (23 / 10) None (PI / 4)) (PI / 4) (2 * PI) N).
Proof. intros b N HN. apply (program_margin (boundary_r b (23 / 10) None pizza_a) N HN). apply boundary_curves. Qed.

Lemma curve_source : forall brentq b c F todo f0, brentq_contract brentq ->
  let r := boundary_r b (23 / 10) None (PI / 4) in
  curve_solver brentq 4 r c -> ec_homogeneous c = false ->
  (forall q, expansion_pt r (PI / 4) q -> cart_source (ec_src c) F (fst q) (snd q)) ->
  let ins := ps_is_interior r (PI / 4) (2 * PI) (ec_N c) in
  enumerates todo (node_diff (Kplus 4 (ec_N c) ins) (global_Mplus (ec_N c) ins)) ->
  exists f', extend_f c todo f0 = Ok (f', false) /\
    (forall p, In p todo -> let '(x, y) := square_pt (ec_N c) (fst p) (snd p) in
       exists q, expansion_pt r (PI / 4) q /\ dist2 q (x, y) <= 2 * PI / IZR (ec_N c) * sqrt 2 /\
         f' (fst p) (snd p) = taylor2 F (fst q) (snd q) x y) /\
    (forall i j, ~ In (i, j) todo -> f' i j = f0 i j).
Proof.
  intros brentq b c F todo f0 Hb r Hc Hh HF ins Hen. pose proof Hc as (_ & _ & _ & HN & _).
  destruct (extend_f_curve brentq r c F todo f0 Hb (curves_gentle b) Hc (curves_margin b (ec_N c) HN) Hh HF Hen) as (f' & Ef & Hin & Hout).
  exists f'. split; [exact Ef|]. split; [|exact Hout]. intros p Hp.
  destruct (square_pt (ec_N c) (fst p) (snd p)) as [x y] eqn:E. rewrite <- square_coord in E by lia.
  destruct (Hin p x y Hp E) as (q & H1 & _ & H2 & H3). exists q. auto.
Qed.
