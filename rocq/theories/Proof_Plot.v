(** Proofs about the plotting scripts (C94). *)
From Coq Require Import ZArith List Bool Reals Lia Lra Psatz String.
From Coquelicot Require Import Coquelicot.
From Verif Require Import Model_Py Model_Multivalue Model_Grid Model_Fourier Model_Linop Model_Abcoef Model_PS Model_Chebyshev Model_Domain Model_Extend
  Model_Problems Model_Driver Model_Run Model_Program Model_Debug Model_Plot
  Spec_Domain Spec_Grid Spec_PS Spec_Extend Spec_Debug Spec_Inhomo Spec_ZRun Spec_Run Spec_Program Spec_Curve Spec_Plot
  Proof_Grid Proof_PS Proof_Domain Proof_Boundary Proof_Curves Proof_Place Proof_Basis Proof_Run Proof_Program Proof_Gentle Proof_CurvePlace Proof_CurveFill
  Proof_CurveRun Proof_Debug Proof_Tight.
Import ListNotations.
Open Scope R_scope.

Local Notation table_size := Spec_Program.table_size.

(** ** Nodes *)

Lemma square_inj : forall N (p q : node), (1 <= N)%Z -> square_pt N (fst p) (snd p) = square_pt N (fst q) (snd q) -> p = q.
Proof.
  intros N [i j] [i' j'] HN E. unfold square_pt in E. cbn [fst snd] in E. pose proof PI_RGT_0.
  assert (0 < IZR N) by (apply IZR_lt; lia).
  assert (K : forall u v, 2 * PI * IZR u / IZR N - PI = 2 * PI * IZR v / IZR N - PI -> u = v).
  { intros u v Huv. apply eq_IZR. apply Rmult_eq_reg_l with (2 * PI / IZR N).
    - transitivity (2 * PI * IZR u / IZR N - PI + PI); [field; lra|]. rewrite Huv. field. lra.
    - apply Rgt_not_eq. apply Rdiv_lt_0_compat; lra. }
  injection E as E1 E2. f_equal; apply K; assumption.
Qed.

Lemma shows_nodes : forall N P nodes, (1 <= N)%Z -> NoDup nodes -> (forall p, In p nodes <-> P p) ->
  shows N P (nodes_to_plottable (2 * PI) N nodes).
Proof.
  intros N P nodes HN Hnd Hin. unfold nodes_to_plottable. split.
  - apply FinFun.Injective_map_NoDup; [|exact Hnd]. intros p q. rewrite !square_coord by exact HN. apply square_inj. exact HN.
  - intros x. rewrite in_map_iff. split.
    + intros (p & <- & Hp). exists p. split; [apply Hin; exact Hp|]. apply square_coord. exact HN.
    + intros (p & Hp & ->). exists p. split; [apply square_coord; exact HN|]. apply Hin. exact Hp.
Qed.

(** ** The outline *)

Lemma gentle_near : forall r s t, gentle r -> PI / 4 <= s <= 2 * PI -> PI / 4 <= t <= 2 * PI -> Rabs (t - s) <= 185 / 10000 ->
  dist2 (r t * cos t, r t * sin t) (r s * cos s, r s * sin s) <= 1 / 20.
Proof.
  intros r s t (r1 & r2 & D1 & _ & Band & B1 & _) Hs Ht Hd. pose proof PI_num as HPI.
  assert (HL : Rabs (r t - r s) <= 2 / 7 * Rabs (t - s)).
  { destruct (MVT_gen r s t r1) as (c & Hc & E).
    - intros x _. apply D1.
    - intros x _. apply derivable_continuous_pt. exists (r1 x). apply is_derive_Reals, D1.
    - rewrite E, Rabs_mult. apply Rmult_le_compat_r; [apply Rabs_pos|]. apply B1.
      revert Hc. unfold Rmin, Rmax. destruct (Rle_dec s t); lra. }
  pose proof (Band t ltac:(lra)) as Bt. pose proof (Band s ltac:(lra)) as Bs.
  assert (Hv : 1 - cos (t - s) <= (t - s) ^ 2 / 2).
  { apply versine_high. apply Rabs_le_between in Hd. lra. }
  assert (Hd2 : (t - s) ^ 2 <= (185 / 10000) ^ 2) by (rewrite <- pow2_abs; apply pow_incr; split; [apply Rabs_pos|exact Hd]).
  assert (HL2 : (r t - r s) ^ 2 <= (2 / 7) ^ 2 * (t - s) ^ 2).
  { rewrite <- (pow2_abs (r t - r s)), <- (pow2_abs (t - s)), <- Rpow_mult_distr. apply pow_incr. split; [apply Rabs_pos|exact HL]. }
  unfold dist2. cbn [fst snd]. rewrite <- (sqrt_pow2 (1 / 20)) by lra. apply sqrt_le_1_alt.
  replace ((r t * cos t - r s * cos s) ^ 2 + (r t * sin t - r s * sin s) ^ 2)
    with ((r t - r s) ^ 2 + 2 * (r t * r s) * (1 - cos (t - s))).
  2:{ rewrite cos_minus. pose proof (sin2_cos2 t) as St. pose proof (sin2_cos2 s) as Ss. unfold Rsqr in St, Ss.
      transitivity (r t ^ 2 * (sin t * sin t + cos t * cos t) + r s ^ 2 * (sin s * sin s + cos s * cos s) - 2 * r t * r s * (cos t * cos s + sin t * sin s)).
      - rewrite St, Ss. ring.
      - ring. }
  assert (Hrr : 0 <= r t * r s <= (49 / 20) ^ 2).
  { split; [apply Rmult_le_pos; lra|]. simpl. rewrite Rmult_1_r. apply Rmult_le_compat; lra. }
  assert (0 <= 1 - cos (t - s)) by (pose proof (COS_bound (t - s)); lra).
  assert (2 * (r t * r s) * (1 - cos (t - s)) <= 2 * (49 / 20) ^ 2 * ((t - s) ^ 2 / 2)) by (apply Rmult_le_compat; lra).
  nra.
Qed.

Lemma ray_near : forall s t c d, c ^ 2 + d ^ 2 = 1 -> Rabs (t - s) <= 1 / 20 -> dist2 (t * c, t * d) (s * c, s * d) <= 1 / 20.
Proof.
  intros s t c d E H. unfold dist2. cbn [fst snd].
  replace ((t * c - s * c) ^ 2 + (t * d - s * d) ^ 2) with ((t - s) ^ 2 * (c ^ 2 + d ^ 2)) by ring.
  rewrite E, Rmult_1_r. rewrite <- pow2_abs, sqrt_pow2 by apply Rabs_pos. exact H.
Qed.

Lemma sample_outlines : forall r, gentle r -> outlines r (sample_pts (get_boundary_sample r (23 / 10) (PI / 4) sample_n)).
Proof.
  intros r Hg. pose proof PI_num as HPI. pose proof sample_ep_small as Hep. assert (Hg' := Hg). destruct Hg' as (r1 & r2 & _ & _ & Band & _).
  unfold outlines, sample_pts. split; [rewrite map_length; apply default_sample|]. split.
  - intros x Hx. apply in_map_iff in Hx. destruct Hx as (p & <- & Hp).
    destruct (in_sample r (23 / 10) (PI / 4) sample_n p ltac:(lra) ltac:(lra) Hp) as (Hs & E & Harg). rewrite E.
    assert (Hb : forall rho th, 0 <= rho <= 49 / 20 -> (- PI < rho * cos th < PI) /\ (- PI < rho * sin th < PI)).
    { intros rho th Hr. pose proof (COS_bound th). pose proof (SIN_bound th). nra. }
    destruct (bp_sid p) as [|[|[|sid]]]; [| | |lia]; cbn [seg_point].
    + pose proof (Band (bp_arg p) ltac:(lra)). split; [|apply Hb; lra]. exists 0%nat. split; [lia|]. exists (bp_arg p). split; [lra|reflexivity].
    + split; [|cbn [fst snd]; lra]. exists 1%nat. split; [lia|]. exists (bp_arg p). split; [lra|reflexivity].
    + split; [|apply Hb; lra]. exists 2%nat. split; [lia|]. exists (bp_arg p). split; [lra|reflexivity].
  - destruct (sample_cover r (23 / 10) (PI / 4) sample_n ltac:(unfold sample_n; lia) ltac:(lra) ltac:(lra)) as [C0 C12].
    replace (INR (3 * sample_n - 1)) with 299 in C0 by (unfold sample_n; rewrite INR_IZR_INZ; reflexivity).
    replace (INR (sample_n - 1)) with 99 in C12 by (unfold sample_n; rewrite INR_IZR_INZ; reflexivity).
    assert (Fin : forall p, In p (get_boundary_sample r (23 / 10) (PI / 4) sample_n) ->
      In (seg_point r (PI / 4) (bp_sid p) (bp_arg p)) (map (fun p => (bp_x p, bp_y p)) (get_boundary_sample r (23 / 10) (PI / 4) sample_n)) /\
      match bp_sid p with O => PI / 4 + sample_ep <= bp_arg p <= 2 * PI - sample_ep | _ => sample_ep <= bp_arg p <= 23 / 10 end).
    { intros p Hp. destruct (in_sample r (23 / 10) (PI / 4) sample_n p ltac:(lra) ltac:(lra) Hp) as (_ & E & Harg).
      split; [|exact Harg]. rewrite <- E. apply in_map_iff. exists p. split; [reflexivity|exact Hp]. }
    assert (Ray : forall sid t, (sid = 1 \/ sid = 2)%nat -> 0 <= t <= 23 / 10 -> exists s, 0 <= s <= 23 / 10 /\ Rabs (t - s) <= 1 / 20 /\
      In (seg_point r (PI / 4) sid s) (map (fun p => (bp_x p, bp_y p)) (get_boundary_sample r (23 / 10) (PI / 4) sample_n))).
    { intros sid t Hs Ht. destruct (C12 sid (Rmax sample_ep t) Hs) as (p & Hp & Es & Hr).
      - unfold Rmax. destruct (Rle_dec sample_ep t); lra.
      - destruct (Fin p Hp) as [H1 H2]. rewrite Es in H1, H2. exists (bp_arg p). split; [|split; [|exact H1]].
        + destruct Hs as [-> | ->]; lra.
        + apply Rabs_le. revert Hr. unfold Rmax. destruct (Rle_dec sample_ep t); destruct Hs as [-> | ->]; lra. }
    intros [|[|[|sid]]] q Hs Hq; try lia; cbn [on_piece on_seg] in Hq; destruct Hq as (t & Ht & ->).
    + destruct (C0 (Rmin (Rmax (PI / 4 + sample_ep) t) (2 * PI - sample_ep))) as (p & Hp & Es & Hr).
      { unfold Rmin, Rmax. destruct (Rle_dec (PI / 4 + sample_ep) t); match goal with |- context [Rle_dec ?u ?v] => destruct (Rle_dec u v) end; lra. }
      destruct (Fin p Hp) as [H1 H2]. rewrite Es in H1, H2. eexists. split; [exact H1|]. cbn [seg_point]. apply gentle_near; [exact Hg|lra|lra|].
      unfold sample_ep in *. apply Rabs_le. revert Hr. unfold Rmin, Rmax. destruct (Rle_dec (PI / 4 + 1 / 100000) t);
        match goal with |- context [Rle_dec ?u ?v] => destruct (Rle_dec u v) end; lra.
    + destruct (Ray 1%nat t ltac:(lia) Ht) as (s & _ & Hd & Hin). eexists. split; [exact Hin|]. cbn [seg_point].
      pose proof (ray_near s t 1 0 ltac:(ring) Hd) as H. rewrite !Rmult_1_r, !Rmult_0_r in H. exact H.
    + destruct (Ray 2%nat t ltac:(lia) Ht) as (s & _ & Hd & Hin). eexists. split; [exact Hin|]. cbn [seg_point].
      apply ray_near; [|exact Hd]. pose proof (sin2_cos2 (PI / 4)) as S. unfold Rsqr in S. simpl. lra.
Qed.

Lemma aux_square : plot_aux (2 * PI) = mk_drawn "" square_outline.
Proof. unfold plot_aux, square_outline. cbv zeta. replace (2 * PI / 2) with PI by field. reflexivity. Qed.

(** ** The construction *)

Section Figure.
Variables (b : bname) (N : Z).
Hypothesis HN : table_size N.
Let r := boundary_r b (23 / 10) None (PI / 4).

Lemma fig_ins : forall p, ps_is_interior r (PI / 4) (2 * PI) N (fst p) (snd p) = true <-> in_region r (PI / 4) (square_pt N (fst p) (snd p)).
Proof using All.
  intros p. destruct (table_size_range N HN) as [HN1 _]. destruct (square_pt N (fst p) (snd p)) as [x y] eqn:E. rewrite <- square_coord in E by lia.
  apply (region_ins r (curves_gentle b) N p x y E).
Qed.

Lemma fig_region : forall p, region_node r N p <-> in_open_grid N p /\ ps_is_interior r (PI / 4) (2 * PI) N (fst p) (snd p) = true.
Proof using All. intros p. unfold region_node. rewrite fig_ins. reflexivity. Qed.

Lemma fig_outer : forall p, outer_node r N p <-> in_open_grid N p /\ ps_is_interior r (PI / 4) (2 * PI) N (fst p) (snd p) = false.
Proof using All.
  intros p. unfold outer_node. rewrite <- fig_ins. destruct (ps_is_interior r (PI / 4) (2 * PI) N (fst p) (snd p)); intuition congruence.
Qed.

Lemma touched_pos : forall q, touched (region_node r N) q <->
  exists p, in_open_grid N p /\ ps_is_interior r (PI / 4) (2 * PI) N (fst p) (snd p) = true /\ neighbour 4 p q.
Proof using All.
  intros q. unfold touched, neighbour. split; intros (p & H); exists p.
  - destruct H as (H1 & H2 & H3). apply fig_region in H1. split; [tauto|]. split; [tauto|]. split; [tauto|]. split; [tauto|]. intros F. discriminate F.
  - destruct H as (H1 & H2 & H3 & H4 & _). rewrite fig_region. tauto.
Qed.

Lemma touched_neg : forall q, touched (outer_node r N) q <->
  exists p, in_open_grid N p /\ ps_is_interior r (PI / 4) (2 * PI) N (fst p) (snd p) = false /\ neighbour 4 p q.
Proof using All.
  intros q. unfold touched, neighbour. split; intros (p & H); exists p.
  - destruct H as (H1 & H2 & H3). apply fig_outer in H1. split; [tauto|]. split; [tauto|]. split; [tauto|]. split; [tauto|]. intros F. discriminate F.
  - destruct H as (H1 & H2 & H3 & H4 & _). rewrite fig_outer. tauto.
Qed.

Variables (fuel : nat) (lib : library).
Hypotheses (Hl : enumerating lib) (Hb : brentq_contract (lib_brentq lib)).
Let near (sid : nat) (p : node) : Prop :=
  exists q, on_piece r (23 / 10) (PI / 4) sid q /\ dist2 q (square_pt N (fst p) (snd p)) <= 2 * PI / IZR N * sqrt 2.
Let boundary (p : node) : Prop := touched (region_node r N) p /\ touched (outer_node r N) p.

Lemma figure_init : exists o st, smooth_options (S fuel) SmoothSine b N 4 = Ok o /\ ps_init lib o = Ok st /\
  o_R o = 23 / 10 /\ o_a o = PI / 4 /\ o_AD o = 2 * PI /\ o_N o = N /\ o_r o = r /\ o_order o = 4%Z /\
  o_interior o = ps_is_interior r (PI / 4) (2 * PI) N /\
  (forall sid, (sid < 3)%nat -> NoDup (ec_gamma (st_ctx st) sid) /\ forall p, In p (ec_gamma (st_ctx st) sid) <-> boundary p /\ near sid p) /\
  (forall p, boundary p -> near 0 p \/ near 1 p \/ near 2 p).
Proof using All.
  destruct (smooth_options_ok fuel SmoothSine b N 4 HN) as (nc & nr & Hc & Hr & E).
  set (o := mk_opt _ _ _ _ _ _ _ _ _ _ _ _ _ _ _) in E.
  destruct (curve_init lib o nc nr Hl (smooth_ok fuel SmoothSine b N 4 o HN (or_intror eq_refl) E) (smooth_curve_options fuel lib SmoothSine b N 4 o Hb HN E) eq_refl)
    as (st & Hi & _); [left; reflexivity|].
  exists o, st. split; [exact E|]. split; [exact Hi|]. do 7 (split; [reflexivity|]).
  destruct (ps_init_inv lib o st Hi) as (nc' & nr' & c & f & b' & A & _ & Hctx & _ & _ & ->). cbn [st_ctx].
  destruct (table_size_range N HN) as [HN1 _].
  set (ug := lib_enum lib (gamma_set 4 N (ps_is_interior r (PI / 4) (2 * PI) N))).
  assert (Hen : enumerates ug (gamma_set 4 N (ps_is_interior r (PI / 4) (2 * PI) N))) by apply Hl.
  assert (Hug : forall p, In p ug <-> boundary p).
  { intros p. destruct Hen as [_ Hin]. rewrite Hin, gamma_set_in by lia. unfold boundary. rewrite touched_pos, touched_neg. reflexivity. }
  destruct (curve_placement (lib_brentq lib) b N 4 ug Hb ltac:(lia) (or_intror eq_refl) Hen) as (g0 & g1 & g2 & Eg & G0 & G1 & G2 & Gall & _).
  destruct (curve_placed (lib_brentq lib) Hb r (curves_gentle b) N ltac:(lia) 4%Z ug (or_intror eq_refl) Hen) as [Eg' _].
  assert (E3 := eq_trans (eq_sym Eg) Eg'). injection E3 as E0 E1 E2.
  assert (Hnd : NoDup g0 /\ NoDup g1 /\ NoDup g2) by (rewrite E0, E1, E2; destruct Hen; repeat split; apply NoDup_filter; assumption).
  assert (Ec : forall sid, (sid < 3)%nat -> ec_gamma c sid = match sid with 0%nat => g0 | 1%nat => g1 | _ => g2 end).
  { destruct (init_ctx_inv _ _ _ _ Hctx) as (k0 & k1 & k2 & Ek & ->).
    assert (Ek' := eq_trans (eq_sym Ek) Eg). injection Ek' as -> -> ->. intros sid _. reflexivity. }
  split.
  - intros sid Hs. rewrite (Ec sid Hs). destruct sid as [|[|[|sid]]]; [| | |lia]; (split; [tauto|]); intros p; rewrite <- Hug; [apply G0|apply G1|apply G2].
  - intros p Hp. apply Hug in Hp. destruct (Gall p Hp) as [[H|[H|H]] _]; [left; apply G0|right; left; apply G1|right; right; apply G2]; exact H.
Qed.

Lemma figure_Gamma : plot_Gamma false r (23 / 10) (PI / 4) = [mk_drawn "" (sample_pts (get_boundary_sample r (23 / 10) (PI / 4) sample_n))].
Proof. reflexivity. Qed.

Lemma figure_gamma : exists outline l1 l2 l3,
  plot_domain (S fuel) lib PGamma b N = Ok [mk_drawn "" square_outline; mk_drawn "" outline;
    mk_drawn "$\gamma_1$" l1; mk_drawn "$\gamma_2$" l2; mk_drawn "$\gamma_3$" l3] /\
  outlines r outline /\
  shows N (fun p => boundary p /\ near 2 p) l1 /\ shows N (fun p => boundary p /\ near 1 p) l2 /\ shows N (fun p => boundary p /\ near 0 p) l3 /\
  (forall p, boundary p -> near 0 p \/ near 1 p \/ near 2 p).
Proof using All.
  destruct figure_init as (o & st & E & Hi & ER & Ea & EAD & EN & Er & Eo & Ei & Hg & Hall).
  destruct (table_size_range N HN) as [HN1 _].
  eexists _, _, _, _. split.
  - unfold plot_domain. rewrite E. cbn [bind]. rewrite Hi. cbn [bind]. unfold plot_gamma. rewrite ER, Ea, EAD, EN, Er, figure_Gamma, aux_square. reflexivity.
  - split; [apply sample_outlines, (curves_gentle b)|].
    do 3 (split; [apply shows_nodes; [lia|apply Hg; lia|apply Hg; lia]|]). exact Hall.
Qed.

Lemma plus_shown : shows N (region_node r N) (nodes_to_plottable (2 * PI) N (lib_enum lib (global_Mplus N (ps_is_interior r (PI / 4) (2 * PI) N)))).
Proof using All.
  destruct (table_size_range N HN) as [HN1 _]. apply shows_nodes; [lia|apply Hl|]. intros p. destruct (Hl (global_Mplus N (ps_is_interior r (PI / 4) (2 * PI) N))) as [_ Hin].
  rewrite Hin, Mplus_in, fig_region. reflexivity.
Qed.

Lemma minus_shown : shows N (outer_node r N) (nodes_to_plottable (2 * PI) N (lib_enum lib (global_Mminus N (ps_is_interior r (PI / 4) (2 * PI) N)))).
Proof using All.
  destruct (table_size_range N HN) as [HN1 _]. apply shows_nodes; [lia|apply Hl|]. intros p. destruct (Hl (global_Mminus N (ps_is_interior r (PI / 4) (2 * PI) N))) as [_ Hin].
  rewrite Hin, Mminus_in, fig_outer. reflexivity.
Qed.

Lemma Kplus_shown : shows N (crossed (region_node r N)) (nodes_to_plottable (2 * PI) N (lib_enum lib (Kplus 4 N (ps_is_interior r (PI / 4) (2 * PI) N)))).
Proof using All.
  destruct (table_size_range N HN) as [HN1 _]. apply shows_nodes; [lia|apply Hl|]. intros q. destruct (Hl (Kplus 4 N (ps_is_interior r (PI / 4) (2 * PI) N))) as [_ Hin].
  rewrite Hin, Kplus_in by lia. unfold crossed. split; intros (p & Hp & H); exists p.
  - rewrite Mplus_in in Hp. rewrite fig_region. split; [exact Hp|]. destruct H as [->|[_ H]]; lia.
  - rewrite fig_region in Hp. rewrite Mplus_in. split; [exact Hp|].
    destruct (Z.eq_dec (Z.abs (fst p - fst q) + Z.abs (snd p - snd q)) 1) as [H1|H1]; [right; auto|left].
    destruct p as [i j], q as [i' j']. cbn [fst snd] in *. f_equal; lia.
Qed.

Lemma Nplus_shown : shows N (touched (region_node r N)) (nodes_to_plottable (2 * PI) N (lib_enum lib (Nplus 4 N (ps_is_interior r (PI / 4) (2 * PI) N)))).
Proof using All.
  destruct (table_size_range N HN) as [HN1 _]. apply shows_nodes; [lia|apply Hl|]. intros q. destruct (Hl (Nplus 4 N (ps_is_interior r (PI / 4) (2 * PI) N))) as [_ Hin].
  rewrite Hin, nplus_in, touched_pos by lia. reflexivity.
Qed.

Lemma Nminus_shown : shows N (touched (outer_node r N)) (nodes_to_plottable (2 * PI) N (lib_enum lib (Nminus 4 N (ps_is_interior r (PI / 4) (2 * PI) N)))).
Proof using All.
  destruct (table_size_range N HN) as [HN1 _]. apply shows_nodes; [lia|apply Hl|]. intros q. destruct (Hl (Nminus 4 N (ps_is_interior r (PI / 4) (2 * PI) N))) as [_ Hin].
  rewrite Hin, nminus_in, touched_neg by lia. reflexivity.
Qed.

Lemma arc_drawn : forall label R0 a, a < 2 * PI -> exists l, plot_arc label R0 a = mk_drawn label l /\ List.length l = 512%nat /\
  nth_error l 0 = Some (R0 * cos a, R0 * sin a) /\ nth_error l 511 = Some (R0, 0) /\
  forall x, In x l -> exists th, a <= th <= 2 * PI /\ x = (R0 * cos th, R0 * sin th).
Proof.
  intros label R0 a Ha. eexists. split; [reflexivity|]. split; [rewrite map_length; apply linspace_length|].
  assert (K : forall n, (n < 512)%nat -> nth_error (np_linspace a (2 * PI) 512) n = Some (a + INR n * ((2 * PI - a) / INR (512 - 1)))).
  { intros n Hn. unfold np_linspace. erewrite map_nth_error; [reflexivity|]. rewrite (nth_error_nth' (seq 0 512) 0%nat) by (rewrite seq_length; exact Hn). rewrite seq_nth by exact Hn. reflexivity. }
  split; [|split].
  - erewrite map_nth_error by (apply K; lia). cbn [INR]. rewrite Rmult_0_l, Rplus_0_r. reflexivity.
  - erewrite map_nth_error by (apply K; lia).
    replace (a + INR 511 * ((2 * PI - a) / INR (512 - 1))) with (2 * PI).
    + rewrite cos_2PI, sin_2PI, Rmult_1_r, Rmult_0_r. reflexivity.
    + replace (512 - 1)%nat with 511%nat by reflexivity. rewrite INR_IZR_INZ. change (Z.of_nat 511) with 511%Z. field.
  - intros x Hx. apply in_map_iff in Hx. destruct Hx as (th & <- & Hth). apply linspace_range in Hth; [|lra]. exists th. auto.
Qed.

Lemma figure_nodes : exists outline arc mp mm kp np nm,
  plot_domain (S fuel) lib PPert b N = Ok [mk_drawn "" arc; mk_drawn "" outline] /\
  plot_domain (S fuel) lib PM b N = Ok [mk_drawn "" outline; mk_drawn "$\mathbb{M}^+$" mp; mk_drawn "$\mathbb{M}^-$" mm] /\
  plot_domain (S fuel) lib PK b N = Ok [mk_drawn "" outline; mk_drawn "$\mathbb{K}^+$" kp; mk_drawn "" []] /\
  plot_domain (S fuel) lib PInt b N = Ok [mk_drawn "" outline; mk_drawn "" square_outline; mk_drawn "$\mathbb{M}^+$" mp; mk_drawn "$\mathbb{N}^+$" np] /\
  plot_domain (S fuel) lib PExt b N = Ok [mk_drawn "" outline; mk_drawn "" square_outline; mk_drawn "$\mathbb{M}^-$" mm; mk_drawn "$\mathbb{N}^-$" nm] /\
  plot_domain (S fuel) lib PAux b N = Ok [mk_drawn "" square_outline; mk_drawn "" outline] /\
  outlines r outline /\
  (List.length arc = 512%nat /\ nth_error arc 0 = Some (23 / 10 * cos (PI / 4), 23 / 10 * sin (PI / 4)) /\ nth_error arc 511 = Some (23 / 10, 0) /\
   forall x, In x arc -> exists th, PI / 4 <= th <= 2 * PI /\ x = (23 / 10 * cos th, 23 / 10 * sin th)) /\
  shows N (region_node r N) mp /\ shows N (outer_node r N) mm /\ shows N (crossed (region_node r N)) kp /\
  shows N (touched (region_node r N)) np /\ shows N (touched (outer_node r N)) nm.
Proof using All.
  destruct figure_init as (o & st & E & Hi & ER & Ea & EAD & EN & Er & Eo & Ei & _). pose proof PI_RGT_0.
  destruct (arc_drawn "" (23 / 10) (PI / 4) ltac:(lra)) as (arc & Earc & Harc).
  eexists _, arc, _, _, _, _, _.
  unfold plot_domain. rewrite E. cbn [bind]. rewrite Hi. cbn [bind]. unfold plot_allMK, plot_intext. rewrite ER, Ea, EAD, EN, Er, Eo, Ei, figure_Gamma, aux_square, Earc.
  do 6 (split; [reflexivity|]). split; [apply sample_outlines, (curves_gentle b)|]. split; [exact Harc|].
  split; [apply plus_shown|]. split; [apply minus_shown|]. split; [apply Kplus_shown|]. split; [apply Nplus_shown|apply Nminus_shown].
Qed.
End Figure.

(** ** scripts/plot_domain2.py *)

Lemma sample_part : forall eval_r R0 a sid args, (sid < 3)%nat ->
  map (fun p => (bp_x p, bp_y p)) (sample_by_sid eval_r R0 a sid args) = map (seg_point eval_r a sid) args /\
  forall s, filter (fun p => Nat.eqb (bp_sid p) s) (sample_by_sid eval_r R0 a sid args) = if Nat.eqb sid s then sample_by_sid eval_r R0 a sid args else [].
Proof.
  intros eval_r R0 a sid args Hs. split.
  - destruct sid as [|[|[|sid]]]; [| | |lia]; unfold sample_by_sid; rewrite map_map; reflexivity.
  - intros s. assert (K : forall f : R -> bpoint, (forall x, bp_sid (f x) = sid) ->
      filter (fun p => Nat.eqb (bp_sid p) s) (map f args) = if Nat.eqb sid s then map f args else []).
    { intros f Hf. induction args as [|x xs IH]; cbn [map filter]; [destruct (Nat.eqb sid s); reflexivity|].
      rewrite Hf, IH. destruct (Nat.eqb sid s); reflexivity. }
    destruct sid as [|[|[|sid]]]; [| | |lia]; apply K; reflexivity.
Qed.

Lemma plot2_Gamma_eq : forall eval_r R0 a sid label, (sid < 3)%nat ->
  plot2_Gamma eval_r R0 a sid label = mk_drawn label (map (seg_point eval_r a sid)
    (match sid with 0%nat => np_linspace (a + sample_ep) (2 * PI - sample_ep) (3 * sample_n) | 1%nat => rev (np_linspace sample_ep R0 sample_n) | _ => np_linspace sample_ep R0 sample_n end)).
Proof.
  intros eval_r R0 a sid label Hs. unfold plot2_Gamma, sample_pts, get_boundary_sample. f_equal. cbv zeta.
  rewrite !filter_app. repeat (match goal with |- context [filter _ (sample_by_sid ?e ?R1 ?b ?k ?l)] => rewrite (proj2 (sample_part e R1 b k l ltac:(lia))) end).
  destruct sid as [|[|[|sid]]]; [| | |lia]; cbn [Nat.eqb]; rewrite ?app_nil_r, ?app_nil_l; apply sample_part; lia.
Qed.

Local Opaque plot2_Gamma.

Lemma linspace_ends : forall lo hi n, (2 <= n)%nat -> nth_error (np_linspace lo hi n) 0 = Some lo /\ nth_error (np_linspace lo hi n) (n - 1) = Some hi.
Proof.
  intros lo hi n Hn. assert (K : forall i, (i < n)%nat -> nth_error (np_linspace lo hi n) i = Some (lo + INR i * ((hi - lo) / INR (n - 1)))).
  { intros i Hi. unfold np_linspace. erewrite map_nth_error; [reflexivity|]. rewrite (nth_error_nth' (seq 0 n) 0%nat) by (rewrite seq_length; exact Hi).
    rewrite seq_nth by exact Hi. reflexivity. }
  split; rewrite K by lia; f_equal.
  - cbn [INR]. ring.
  - assert (0 < INR (n - 1)) by (apply lt_0_INR; lia). field. lra.
Qed.

Lemma polar_gap : forall rho t s, Rabs (rho - 23 / 10) <= dist2 (rho * cos t, rho * sin t) (23 / 10 * cos s, 23 / 10 * sin s) \/ rho < 0.
Proof.
  intros rho t s. destruct (Rlt_le_dec rho 0) as [H|H]; [right; exact H|left]. unfold dist2. cbn [fst snd].
  rewrite <- (sqrt_pow2 (Rabs (rho - 23 / 10))) by apply Rabs_pos. apply sqrt_le_1_alt. rewrite pow2_abs.
  replace ((rho * cos t - 23 / 10 * cos s) ^ 2 + (rho * sin t - 23 / 10 * sin s) ^ 2)
    with ((rho - 23 / 10) ^ 2 + 2 * (rho * (23 / 10)) * (1 - cos (t - s))).
  2:{ rewrite cos_minus. pose proof (sin2_cos2 t) as St. pose proof (sin2_cos2 s) as Ss. unfold Rsqr in St, Ss.
      transitivity (rho ^ 2 * (sin t * sin t + cos t * cos t) + (23 / 10) ^ 2 * (sin s * sin s + cos s * cos s) - 2 * rho * (23 / 10) * (cos t * cos s + sin t * sin s)).
      - rewrite St, Ss. ring.
      - ring. }
  pose proof (COS_bound (t - s)). nra.
Qed.

Lemma polar_close : forall rho t s, Rabs (rho - 23 / 10) <= 1 / 10000 -> Rabs (t - s) <= 1 / 10000 ->
  dist2 (rho * cos t, rho * sin t) (23 / 10 * cos s, 23 / 10 * sin s) <= 1 / 1000.
Proof.
  intros rho t s H1 H2. pose proof PI_num. unfold dist2. cbn [fst snd]. rewrite <- (sqrt_pow2 (1 / 1000)) by lra. apply sqrt_le_1_alt.
  replace ((rho * cos t - 23 / 10 * cos s) ^ 2 + (rho * sin t - 23 / 10 * sin s) ^ 2)
    with ((rho - 23 / 10) ^ 2 + 2 * (rho * (23 / 10)) * (1 - cos (t - s))).
  2:{ rewrite cos_minus. pose proof (sin2_cos2 t) as St. pose proof (sin2_cos2 s) as Ss. unfold Rsqr in St, Ss.
      transitivity (rho ^ 2 * (sin t * sin t + cos t * cos t) + (23 / 10) ^ 2 * (sin s * sin s + cos s * cos s) - 2 * rho * (23 / 10) * (cos t * cos s + sin t * sin s)).
      - rewrite St, Ss. ring.
      - ring. }
  assert (Hv : 1 - cos (t - s) <= (t - s) ^ 2 / 2) by (apply versine_high; apply Rabs_le_between in H2; lra).
  assert ((t - s) ^ 2 <= (1 / 10000) ^ 2) by (rewrite <- pow2_abs; apply pow_incr; split; [apply Rabs_pos|exact H2]).
  assert ((rho - 23 / 10) ^ 2 <= (1 / 10000) ^ 2) by (rewrite <- pow2_abs; apply pow_incr; split; [apply Rabs_pos|exact H1]).
  apply Rabs_le_between in H1. pose proof (COS_bound (t - s)).
  assert (2 * (rho * (23 / 10)) * (1 - cos (t - s)) <= 2 * (3 * (23 / 10)) * ((t - s) ^ 2 / 2)) by (apply Rmult_le_compat; lra).
  nra.
Qed.

Lemma cubic_ratio : 7 < cubic_C < 8.
Proof.
  unfold cubic_C. pose proof PI_num.
  assert (S : 953 / 100 < sqrt 91 < 954 / 100).
  { split; [rewrite <- (sqrt_pow2 (953 / 100)) by lra|rewrite <- (sqrt_pow2 (954 / 100)) by lra]; apply sqrt_lt_1_alt; lra. }
  assert (P : 31 < PI ^ 3 < 3101 / 100) by (split; [apply Rlt_trans with ((31415 / 10000) ^ 3)|apply Rlt_trans with ((31416 / 10000) ^ 3)]; try (apply pow_lt_compat_l; lra); try lra; nra).
  assert (731 < 91 * sqrt 91 - 136 < 733) by lra.
  assert (731 * 31 < (91 * sqrt 91 - 136) * PI ^ 3 < 733 * (3101 / 100)) by (split; apply Rmult_gt_0_lt_compat; lra).
  lra.
Qed.

Lemma sin_abs : forall x, Rabs (sin x) <= Rabs x.
Proof.
  intros x. destruct (MVT_gen sin 0 x cos) as (c & _ & E).
  - intros y _. auto_derive; [exact I|ring].
  - intros y _. apply continuity_sin.
  - rewrite sin_0, !Rminus_0_r in E. rewrite E, Rabs_mult. pose proof (COS_bound c).
    rewrite <- (Rmult_1_l (Rabs x)) at 2. apply Rmult_le_compat_r; [apply Rabs_pos|]. apply Rabs_le. lra.
Qed.

Lemma small_sine : forall c bet w, Rabs bet <= 1 / 2 -> Rabs w <= 4 -> c = bet * sin (w * sample_ep) -> Rabs (23 / 10 + c - 23 / 10) <= 1 / 10000.
Proof.
  intros c bet w Hb Hw ->. replace (23 / 10 + bet * sin (w * sample_ep) - 23 / 10) with (bet * sin (w * sample_ep)) by ring.
  rewrite Rabs_mult. pose proof (sin_abs (w * sample_ep)) as H. rewrite Rabs_mult, (Rabs_pos_eq sample_ep) in H by (unfold sample_ep; lra).
  assert (Rabs w * sample_ep <= 4 * sample_ep) by (apply Rmult_le_compat_r; [unfold sample_ep; lra|exact Hw]).
  apply Rle_trans with (1 / 2 * (4 * sample_ep)); [|unfold sample_ep; lra].
  apply Rmult_le_compat; try apply Rabs_pos; lra.
Qed.

Lemma curve_ends : forall eval_r a label, a < 2 * PI - 2 * sample_ep -> exists l, plot2_Gamma eval_r (23 / 10) a 0 label = mk_drawn label l /\
  List.length l = 300%nat /\
  nth_error l 0 = Some (eval_r (a + sample_ep) * cos (a + sample_ep), eval_r (a + sample_ep) * sin (a + sample_ep)) /\
  nth_error l 299 = Some (eval_r (2 * PI - sample_ep) * cos (2 * PI - sample_ep), eval_r (2 * PI - sample_ep) * sin (2 * PI - sample_ep)).
Proof.
  intros eval_r a label Ha. rewrite plot2_Gamma_eq by lia. eexists. split; [reflexivity|].
  split; [rewrite map_length; apply linspace_length|].
  destruct (linspace_ends (a + sample_ep) (2 * PI - sample_ep) (3 * sample_n) ltac:(unfold sample_n; lia)) as [E0 E1].
  change (3 * sample_n - 1)%nat with 299%nat in E1.
  rewrite (map_nth_error _ _ _ E0), (map_nth_error _ _ _ E1). split; reflexivity.
Qed.

Lemma meets_intro : forall eval_r a l, nth_error l 0 = Some (eval_r (a + sample_ep) * cos (a + sample_ep), eval_r (a + sample_ep) * sin (a + sample_ep)) ->
  Rabs (eval_r (a + sample_ep) - 23 / 10) <= 1 / 10000 -> meets a l.
Proof.
  intros eval_r a l E H. eexists. split; [exact E|]. apply polar_close; [exact H|].
  replace (a + sample_ep - a) with sample_ep by ring. rewrite Rabs_pos_eq; unfold sample_ep; lra.
Qed.

Lemma closes_intro : forall eval_r l,
  nth_error l 299 = Some (eval_r (2 * PI - sample_ep) * cos (2 * PI - sample_ep), eval_r (2 * PI - sample_ep) * sin (2 * PI - sample_ep)) ->
  Rabs (eval_r (2 * PI - sample_ep) - 23 / 10) <= 1 / 10000 -> closes l.
Proof.
  intros eval_r l E H. eexists. split; [exact E|].
  replace (23 / 10, 0) with (23 / 10 * cos (2 * PI), 23 / 10 * sin (2 * PI)) by (rewrite cos_2PI, sin_2PI; f_equal; ring).
  apply polar_close; [exact H|]. replace (2 * PI - sample_ep - 2 * PI) with (- sample_ep) by ring. rewrite Rabs_Ropp, Rabs_pos_eq; unfold sample_ep; lra.
Qed.

Lemma nu_small : forall a, 0 < a <= PI / 2 -> Rabs (problem_nu a) <= 4 /\ problem_nu a * (2 * PI - a) = PI.
Proof.
  intros a Ha. pose proof PI_RGT_0. unfold problem_nu. split; [|field; lra].
  rewrite Rabs_pos_eq by (apply Rlt_le, Rdiv_lt_0_compat; lra). apply Rle_trans with 1; [|lra].
  apply Rmult_le_reg_r with (2 * PI - a); [lra|]. unfold Rdiv. rewrite Rmult_assoc, Rinv_l by lra. lra.
Qed.

Lemma figures_plot2 : exists arc1 arc2 right1 right2 top1 top2 inner cubic outer sine7,
  plot2_main =
    [[mk_drawn "arc" arc1; mk_drawn "" right1; mk_drawn "" top1; mk_drawn "inner-sine" inner; mk_drawn "cubic" cubic];
     [mk_drawn "arc" arc2; mk_drawn "" right2; mk_drawn "" top2; mk_drawn "outer-sine" outer; mk_drawn "sine7" sine7]] /\
  (forall x, In x right1 \/ In x right2 -> on_seg (23 / 10) (PI / 6) 1 x) /\
  (forall x, In x top1 -> on_seg (23 / 10) (PI / 6) 2 x) /\ (forall x, In x top2 -> on_seg (23 / 10) (PI / 2) 2 x) /\
  meets (PI / 6) arc1 /\ meets (PI / 2) arc2 /\
  meets (PI / 6) inner /\ closes inner /\ meets (PI / 2) outer /\ closes outer /\ meets (PI / 2) sine7 /\ closes sine7 /\ closes cubic /\
  exists x, nth_error cubic 0 = Some x /\ 3 / 100 <= dist2 x (23 / 10 * cos (PI / 6), 23 / 10 * sin (PI / 6)).
Proof.
  pose proof PI_num as HPI. pose proof sample_ep_small as Hep.
  destruct (arc_drawn "arc" (23 / 10) (PI / 6) ltac:(lra)) as (arc1 & Ea1 & _ & A1 & _).
  destruct (arc_drawn "arc" (23 / 10) (PI / 2) ltac:(lra)) as (arc2 & Ea2 & _ & A2 & _).
  destruct (curve_ends (boundary_r InnerSine (23 / 10) None (PI / 6)) (PI / 6) "inner-sine" ltac:(lra)) as (inner & Ei & _ & I0 & I1).
  destruct (curve_ends (boundary_r Cubic (23 / 10) None pizza_a) (PI / 6) "cubic" ltac:(lra)) as (cubic & Ecu & _ & C0 & C1).
  destruct (curve_ends (boundary_r OuterSine (23 / 10) None (PI / 2)) (PI / 2) "outer-sine" ltac:(lra)) as (outer & Eou & _ & O0 & O1).
  destruct (curve_ends (boundary_r Sine7 (23 / 10) None pizza_a) (PI / 2) "sine7" ltac:(lra)) as (sine7 & Es & _ & S0 & S1).
  eexists arc1, arc2, _, _, _, _, inner, cubic, outer, sine7. split.
  { unfold plot2_main, plot2_data. cbn [map plot2_figure bname_str]. unfold problem_R. rewrite Ea1, Ea2, Ei, Ecu, Eou, Es.
    rewrite (plot2_Gamma_eq (boundary_r InnerSine (23 / 10) None (PI / 6)) (23 / 10) (PI / 6) 1 "" ltac:(lia)).
    rewrite (plot2_Gamma_eq (boundary_r InnerSine (23 / 10) None (PI / 6)) (23 / 10) (PI / 6) 2 "" ltac:(lia)).
    rewrite (plot2_Gamma_eq (boundary_r OuterSine (23 / 10) None (PI / 2)) (23 / 10) (PI / 2) 1 "" ltac:(lia)).
    rewrite (plot2_Gamma_eq (boundary_r OuterSine (23 / 10) None (PI / 2)) (23 / 10) (PI / 2) 2 "" ltac:(lia)).
    reflexivity. }
  split; [|split; [|split]].
  - intros x Hx. assert (H : exists t, 0 <= t <= 23 / 10 /\ x = (t, 0)).
    { destruct Hx as [Hx|Hx]; apply in_map_iff in Hx; destruct Hx as (t & <- & Ht); apply in_rev in Ht; (apply linspace_range in Ht; [|lra]); exists t; (split; [lra|reflexivity]). }
    exact H.
  - intros x Hx. apply in_map_iff in Hx. destruct Hx as (t & <- & Ht). apply linspace_range in Ht; [|lra]. exists t. split; [lra|reflexivity].
  - intros x Hx. apply in_map_iff in Hx. destruct Hx as (t & <- & Ht). apply linspace_range in Ht; [|lra]. exists t. split; [lra|reflexivity].
  - assert (Zero : forall x, dist2 x x = 0).
    { intros x. unfold dist2. replace ((fst x - fst x) ^ 2 + (snd x - snd x) ^ 2) with 0 by ring. apply sqrt_0. }
    destruct (nu_small (PI / 6) ltac:(lra)) as [N6 E6]. destruct (nu_small (PI / 2) ltac:(lra)) as [N2 E2].
    assert (E4 : problem_nu pizza_a = 4 / 7) by (unfold problem_nu, pizza_a; field; lra).
    split; [eexists; split; [exact A1|rewrite Zero; lra]|]. split; [eexists; split; [exact A2|rewrite Zero; lra]|].
    split; [|split; [|split; [|split; [|split; [|split; [|split]]]]]].
    + apply (meets_intro _ _ _ I0). unfold boundary_r, boundary_bet, bet0, r_inner_sine.
      apply (small_sine _ (- (5 / 10)) (problem_nu (PI / 6))); [rewrite Rabs_Ropp, Rabs_pos_eq; lra|exact N6|].
      replace (PI / 6 + sample_ep - PI / 6) with sample_ep by ring. ring.
    + apply (closes_intro _ _ I1). unfold boundary_r, boundary_bet, bet0, r_inner_sine.
      apply (small_sine _ (- (5 / 10)) (problem_nu (PI / 6))); [rewrite Rabs_Ropp, Rabs_pos_eq; lra|exact N6|].
      replace (problem_nu (PI / 6) * (2 * PI - sample_ep - PI / 6)) with (problem_nu (PI / 6) * (2 * PI - PI / 6) - problem_nu (PI / 6) * sample_ep) by ring.
      rewrite E6.
      rewrite Rtrigo_facts.sin_pi_minus. ring.
    + apply (meets_intro _ _ _ O0). unfold boundary_r, boundary_bet, bet0, r_outer_sine.
      apply (small_sine _ (15 / 100) (problem_nu (PI / 2))); [rewrite Rabs_pos_eq; lra|exact N2|].
      replace (PI / 2 + sample_ep - PI / 2) with sample_ep by ring. ring.
    + apply (closes_intro _ _ O1). unfold boundary_r, boundary_bet, bet0, r_outer_sine.
      apply (small_sine _ (15 / 100) (problem_nu (PI / 2))); [rewrite Rabs_pos_eq; lra|exact N2|].
      replace (problem_nu (PI / 2) * (2 * PI - sample_ep - PI / 2)) with (problem_nu (PI / 2) * (2 * PI - PI / 2) - problem_nu (PI / 2) * sample_ep) by ring.
      rewrite E2.
      rewrite Rtrigo_facts.sin_pi_minus. ring.
    + apply (meets_intro _ _ _ S0). unfold boundary_r, boundary_bet, bet0, r_sine7. rewrite E4. unfold pizza_a.
      apply (small_sine _ (- (25 / 1000)) 4); [rewrite Rabs_Ropp, Rabs_pos_eq; lra|rewrite Rabs_pos_eq; lra|].
      replace (7 * (4 / 7) * (PI / 2 + sample_ep - PI / 4)) with (4 * sample_ep + PI) by field. rewrite neg_sin. ring.
    + apply (closes_intro _ _ S1). unfold boundary_r, boundary_bet, bet0, r_sine7. rewrite E4. unfold pizza_a.
      apply (small_sine _ (25 / 1000) 4); [rewrite Rabs_pos_eq; lra|rewrite Rabs_pos_eq; lra|].
      replace (7 * (4 / 7) * (2 * PI - sample_ep - PI / 4)) with (PI - 4 * sample_ep + 2 * INR 3 * PI) by (simpl; field).
      rewrite sin_period, Rtrigo_facts.sin_pi_minus. ring.
    + apply (closes_intro _ _ C1). unfold boundary_r, boundary_bet, bet0, r_cubic, pizza_a. pose proof cubic_ratio.
      replace (23 / 10 + 75 / 1000 / cubic_C * (2 * PI - sample_ep - PI / 4) * (2 * PI - sample_ep - PI) * (2 * PI - sample_ep - 2 * PI) - 23 / 10)
        with (- (75 / 1000 / cubic_C * ((7 * PI / 4 - sample_ep) * (PI - sample_ep) * sample_ep))) by (field; lra).
      rewrite Rabs_Ropp.
      assert (0 < 75 / 1000 / cubic_C <= 1 / 80).
      { split; [apply Rdiv_lt_0_compat; lra|]. apply Rmult_le_reg_r with cubic_C; [lra|]. unfold Rdiv at 1. rewrite Rmult_assoc, Rinv_l by lra. lra. }
      assert (0 <= (7 * PI / 4 - sample_ep) * (PI - sample_ep) <= 6 * 4) by (split; [apply Rmult_le_pos; lra|apply Rmult_le_compat; lra]).
      assert (0 <= (7 * PI / 4 - sample_ep) * (PI - sample_ep) * sample_ep <= 24 * sample_ep) by (split; [apply Rmult_le_pos; lra|apply Rmult_le_compat_r; lra]).
      rewrite Rabs_pos_eq by (apply Rmult_le_pos; lra).
      apply Rle_trans with (1 / 80 * (24 * sample_ep)); [apply Rmult_le_compat; lra|unfold sample_ep; lra].
    + eexists. split; [exact C0|].
      assert (Hr : 2 <= boundary_r Cubic (23 / 10) None pizza_a (PI / 6 + sample_ep) <= 23 / 10 - 3 / 100).
      { unfold boundary_r, boundary_bet, bet0. rewrite cubic_scaled. unfold pizza_a. pose proof kappa_bounds as K.
        replace (PI / 4 / PI) with (1 / 4) by (field; lra). replace ((PI / 6 + sample_ep) / PI) with (1 / 6 + sample_ep / PI) by (field; lra).
        assert (He : 0 < sample_ep / PI < 1 / 100000).
        { split; [apply Rdiv_lt_0_compat; lra|]. apply Rmult_lt_reg_r with PI; [lra|]. unfold Rdiv at 1. rewrite Rmult_assoc, Rinv_l by lra. unfold sample_ep. lra. }
        set (e := sample_ep / PI) in *.
        set (w := (1 / 6 + e - 1 / 4) * (1 / 6 + e - 1) * (1 / 6 + e - 2)).
        assert (Hw : - (13 / 100) < w < - (127 / 1000)).
        { assert (P : forall x y x0 y0 x1 y1, 0 < x0 -> 0 < y0 -> x0 < x < x1 -> y0 < y < y1 -> x0 * y0 < x * y < x1 * y1).
          { intros x y x0 y0 x1 y1 Px Py Hx Hy. split; apply Rmult_gt_0_lt_compat; lra. }
          pose proof (P (1 / 4 - (1 / 6 + e)) (1 - (1 / 6 + e)) (8332 / 100000) (83332 / 100000) (8334 / 100000) (83334 / 100000) ltac:(lra) ltac:(lra) ltac:(lra) ltac:(lra)) as P1.
          pose proof (P ((1 / 4 - (1 / 6 + e)) * (1 - (1 / 6 + e))) (2 - (1 / 6 + e)) (8332 / 100000 * (83332 / 100000)) (183332 / 100000) (8334 / 100000 * (83334 / 100000)) (183334 / 100000) ltac:(lra) ltac:(lra) P1 ltac:(lra)) as P2.
          replace w with (- ((1 / 4 - (1 / 6 + e)) * (1 - (1 / 6 + e)) * (2 - (1 / 6 + e)))) by (unfold w; ring). lra. }
        assert (Hk : 39 / 10 < / kappa < 4).
        { split; [replace (39 / 10) with (/ (10 / 39)) by field|replace 4 with (/ (1 / 4)) by field]; apply Rinv_lt_contravar; try (apply Rmult_lt_0_compat; lra); lra. }
        assert (39 / 10 * (127 / 1000) < / kappa * - w < 4 * (13 / 100))
          by (clearbody w; clear - Hk Hw; set (q := / kappa) in *; clearbody q; split; apply Rmult_gt_0_lt_compat; lra).
        replace (/ kappa * w) with (- (/ kappa * - w)) by ring. lra. }
      destruct (polar_gap (boundary_r Cubic (23 / 10) None pizza_a (PI / 6 + sample_ep)) (PI / 6 + sample_ep) (PI / 6)) as [H|H]; [|lra].
      eapply Rle_trans; [|exact H]. rewrite Rabs_left1 by lra. lra.
Qed.

(** ** print_c1 *)

Lemma skipn_add : forall (m n : nat) (l : list C), skipn (m + n) l = skipn n (skipn m l).
Proof. intros m n. induction m as [|m IH]; intros [|x l]; cbn [Nat.add skipn]; rewrite ?skipn_nil; auto. Qed.

Lemma print_c1_slices : forall nc nr c1, List.length c1 = (nc + 2 * nr)%nat -> exists s0 s1 s2,
  print_c1 (snd (setup_basis nc nr)) c1 = [(0%nat, nc, s0); (1%nat, nr, s1); (2%nat, nr, s2)] /\
  (s0 ++ s1 ++ s2)%list = map Re c1 /\ List.length s0 = nc /\ List.length s1 = nr /\ List.length s2 = nr.
Proof.
  intros nc nr c1 H. rewrite setup_basis_eq. unfold print_c1. cbn [snd print_c1_loop fst]. eexists _, _, _. split; [reflexivity|].
  rewrite Nat.add_0_l. rewrite !map_length, !firstn_length, !skipn_length. split; [|lia].
  rewrite <- !map_app. f_equal. rewrite skipn_O.
  rewrite (firstn_all2 (n := nr) (skipn (nc + nr) c1)) by (rewrite skipn_length; lia).
  rewrite skipn_add, firstn_skipn, firstn_skipn. reflexivity.
Qed.

Lemma corner_missed : exists fig l x, In fig plot2_main /\ In (mk_drawn "cubic" l) fig /\ (exists la, In (mk_drawn "arc" la) fig /\ meets (PI / 6) la) /\
  nth_error l 0 = Some x /\ 3 / 100 <= dist2 x (23 / 10 * cos (PI / 6), 23 / 10 * sin (PI / 6)).
Proof.
  destruct figures_plot2 as (arc1 & arc2 & right1 & right2 & top1 & top2 & inner & cubic & outer & sine7 & E & _ & _ & _ & A1 & _ & _ & _ & _ & _ & _ & _ & _ & x & Ex & Hx).
  rewrite E. eexists _, cubic, x. split; [left; reflexivity|]. split; [do 4 right; left; reflexivity|].
  split; [exists arc1; split; [left; reflexivity|exact A1]|]. auto.
Qed.

Lemma inner_outline_example : exists p, touched (region_node (boundary_r OuterSine (23 / 10) None (PI / 4)) 16) p /\
  touched (outer_node (boundary_r OuterSine (23 / 10) None (PI / 4)) 16) p.
Proof.
  set (r := boundary_r OuterSine (23 / 10) None (PI / 4)).
  assert (HN : table_size 16) by (exists 4%Z; split; [lia|reflexivity]). pose proof PI_num as HPI.
  assert (Hin : region_node r 16 (7, 8)%Z).
  { split; [unfold in_open_grid; cbn; lia|]. unfold in_region, square_pt. cbn [fst snd].
    exists (PI / 8), PI. split; [lra|]. split.
    - destruct (curves_gentle OuterSine) as (r1 & r2 & _ & _ & Band & _). pose proof (Band PI ltac:(lra)) as [Bl _]. fold r in Bl. lra.
    - rewrite cos_PI, sin_PI. f_equal; field. }
  assert (Hout : forall i, (1 <= i <= 15)%Z -> outer_node r 16 (i, 15%Z)).
  { intros i Hi. split; [unfold in_open_grid; cbn; lia|]. unfold in_region, square_pt. cbn [fst snd]. intros (rho & th & Hth & Hr & E).
    injection E as _ E. destruct (curves_gentle OuterSine) as (r1 & r2 & _ & _ & Band & _). pose proof (Band th ltac:(lra)) as Bt. fold r in Bt.
    pose proof (SIN_bound th). assert (rho * sin th <= 49 / 20) by nra. lra. }
  assert (Step : forall n : nat, (n <= 7)%nat -> (exists p, touched (region_node r 16) p /\ touched (outer_node r 16) p) \/ region_node r 16 (7, 8 + Z.of_nat n)%Z).
  { induction n as [|n IH]; intros Hn; [right; exact Hin|].
    destruct (IH ltac:(lia)) as [H|H]; [left; exact H|].
    assert (Hg : in_open_grid 16 (7, 8 + Z.of_nat (S n))%Z) by (unfold in_open_grid; cbn [fst snd]; lia).
    destruct (ps_is_interior r (PI / 4) (2 * PI) 16 7 (8 + Z.of_nat (S n))) eqn:Ei.
    - right. apply (fig_region OuterSine 16 HN (7, 8 + Z.of_nat (S n))%Z). auto.
    - left. exists (7, 8 + Z.of_nat n)%Z. split; [exists (7, 8 + Z.of_nat n)%Z; split; [exact H|]; cbn [fst snd]; lia|].
      exists (7, 8 + Z.of_nat (S n))%Z. split; [|cbn [fst snd]; lia].
      apply (fig_outer OuterSine 16 HN (7, 8 + Z.of_nat (S n))%Z). auto. }
  destruct (Step 7%nat ltac:(lia)) as [H|H]; [exact H|]. exfalso. destruct H as [_ H]. destruct (Hout 7%Z ltac:(lia)) as [_ Ho]. contradiction.
Qed.
