(** Extension of the source term on a curved domain (C75). *)
From Coq Require Import ZArith List Bool Reals Lia Lra Psatz.
From Coquelicot Require Import Coquelicot.
From Verif Require Import Model_Py Model_Multivalue Model_Grid Model_Domain Model_Ext Model_Extend
  Spec_Grid Spec_Domain Spec_Ext Spec_Extend Spec_Inhomo Spec_Program Spec_Curve Proof_Grid Proof_Domain Proof_Boundary Proof_Eig Proof_Ext Proof_Ext2
  Proof_Place Proof_Extend Proof_Linear Proof_Extend2 Proof_ExtendF Proof_Run Proof_Gentle Proof_CurvePlace.
Import ListNotations.
Open Scope R_scope.

(** ** A node beyond the curve next to a node inside is near the curve *)

Lemma versine_low : forall d, Rabs d <= PI / 8 -> 49 / 100 * d ^ 2 <= 1 - cos d.
Proof.
  intros d Hd. pose proof PI_num. 
  assert (Ec : cos d = cos (Rabs d)) by (unfold Rabs; destruct (Rcase_abs d); [rewrite cos_neg|]; reflexivity).
  assert (E2 : d ^ 2 = Rabs d ^ 2) by (rewrite pow2_abs; reflexivity).
  rewrite Ec, E2. set (u := Rabs d) in *. assert (Hu : 0 <= u <= 394 / 1000) by (split; [apply Rabs_pos|lra]).
  clearbody u. clear Ec E2 Hd d.
  replace (cos u) with (cos (2 * (u / 2))) by (f_equal; field). rewrite cos_2a_sin.
  pose proof (sin_lower (u / 2) ltac:(lra)) as L. set (s := sin (u / 2)) in *.
  assert (B : 0 <= u / 2 * (99 / 100) <= s).
  { split; [lra|]. assert ((u / 2) ^ 2 <= 4 / 100) by nra. assert (0 <= u / 2 * (4 / 100 - (u / 2) ^ 2)) by (apply Rmult_le_pos; lra).
    eapply Rle_trans; [|exact L]. nra. }
  assert (u / 2 * (99 / 100) * (u / 2 * (99 / 100)) <= s * s) by (apply Rmult_le_compat; lra). nra.
Qed.

Lemma versine_high : forall d, - PI / 2 <= d <= PI / 2 -> 1 - cos d <= d ^ 2 / 2.
Proof. intros d Hd. pose proof (cos_lower d Hd). lra. Qed.

(** Numbers at a corner. *)
Lemma corner_num : forall h rq rp dl d, 0 <= h <= 3928 / 10000 -> 0 <= d <= dl -> d <= 3928 / 10000 ->
  (rq - rp) ^ 2 + 98 / 100 * (rp * rq) * dl ^ 2 <= h ^ 2 -> 0 <= rp -> 0 <= rq ->
  23 / 10 - 2 / 7 * d <= rq -> rp <= 23 / 10 + 2 / 7 * (dl - d) ->
  (rq - 23 / 10) ^ 2 + 23 / 10 * rq * d ^ 2 <= 2 * h ^ 2.
Proof.
  intros h rq rp dl d Hh Hd Hd2 H Hp0 Hq0 Hq Hp.
  assert (Hdl : 0 <= dl ^ 2) by apply pow2_ge_0.
  assert (A1 : (rq - rp) ^ 2 <= h ^ 2).
  { assert (0 <= rp * rq) by (apply Rmult_le_pos; assumption). assert (0 <= 98 / 100 * (rp * rq) * dl ^ 2) by (apply Rmult_le_pos; lra). lra. }
  assert (A2 : Rabs (rq - rp) <= h).
  { rewrite <- (Rabs_pos_eq h) by lra. apply Rsqr_le_abs_0. unfold Rsqr. lra. }
  apply Rabs_le_between in A2.
  assert (Q : 218 / 100 <= rq) by lra. assert (P : 178 / 100 <= rp) by lra.
  assert (B2 : (rq - 23 / 10) ^ 2 <= 2 * (rq - rp) ^ 2 + 8 / 49 * dl ^ 2).
  { destruct (Rle_lt_dec 0 (rq - 23 / 10)) as [L|L].
    - assert (U : 0 <= rq - 23 / 10 <= (rq - rp) + 2 / 7 * dl) by lra.
      assert ((rq - 23 / 10) * (rq - 23 / 10) <= ((rq - rp) + 2 / 7 * dl) * ((rq - rp) + 2 / 7 * dl)) by (apply Rmult_le_compat; lra).
      pose proof (pow2_ge_0 ((rq - rp) - 2 / 7 * dl)). lra.
    - assert (U : 0 <= 23 / 10 - rq <= 2 / 7 * dl) by lra.
      assert ((23 / 10 - rq) * (23 / 10 - rq) <= 2 / 7 * dl * (2 / 7 * dl)) by (apply Rmult_le_compat; lra).
      pose proof (pow2_ge_0 (rq - rp)). lra. }
  assert (D2 : d ^ 2 <= dl ^ 2) by (apply pow_incr; lra).
  assert (C : 23 / 10 * rq + 8 / 49 <= 196 / 100 * (rp * rq)).
  { assert (178 / 100 * rq <= rp * rq) by (apply Rmult_le_compat_r; lra). lra. }
  assert (23 / 10 * rq * d ^ 2 <= 23 / 10 * rq * dl ^ 2) by (apply Rmult_le_compat_l; lra).
  assert ((23 / 10 * rq + 8 / 49) * dl ^ 2 <= 196 / 100 * (rp * rq) * dl ^ 2) by (apply Rmult_le_compat_r; lra). lra.
Qed.

Section FillNear.
Context (r : R -> R) (Hr : gentle r).

Lemma lipschitz : forall s t, PI / 8 <= s <= 2 * PI + PI / 8 -> PI / 8 <= t <= 2 * PI + PI / 8 -> Rabs (r t - r s) <= 2 / 7 * Rabs (t - s).
Proof using Hr.
  intros s t Hs Ht. destruct Hr as (r1 & r2 & D1 & D2 & B0 & B1 & B2 & Ea & E2).
  destruct (Rle_lt_dec s t) as [L|L].
  - rewrite (Rabs_pos_eq (t - s)) by lra. apply (near_end r r1); auto; lra.
  - rewrite Rabs_minus_sym, (Rabs_minus_sym t s), (Rabs_pos_eq (s - t)) by lra. apply (near_end r r1); auto; lra.
Qed.

Lemma fill_near : forall h rq tq rp tp, 0 <= h <= 3928 / 10000 ->
  PI / 8 <= tq < 2 * PI + PI / 8 -> PI / 4 <= tp <= 2 * PI -> 0 <= rp <= r tp -> r tq <= rq ->
  rq ^ 2 + rp ^ 2 - 2 * rp * rq * cos (tq - tp) <= h ^ 2 ->
  exists phi, PI / 4 <= phi <= 2 * PI /\ rq ^ 2 + r phi ^ 2 - 2 * rq * r phi * cos (tq - phi) <= 2 * h ^ 2.
Proof using Hr.
  intros h rq tq rp tp Hh Htq Htp Hrp Hrq H. pose proof PI_num as HPI.
  assert (Hr' := Hr). destruct Hr' as (r1 & r2 & _ & _ & B0 & _ & _ & Ea & E2).
  pose proof (B0 tq ltac:(lra)) as Bq. pose proof (B0 tp ltac:(lra)) as Bp. clear B0 r1 r2.
  set (dl := tq - tp) in *. pose proof (COS_bound dl) as Cb.
  assert (H' : (rq - rp) ^ 2 + 2 * (rp * rq) * (1 - cos dl) <= h ^ 2) by lra.
  assert (Hpq : 0 <= rp * rq) by (apply Rmult_le_pos; lra).
  assert (A1 : (rq - rp) ^ 2 <= h ^ 2).
  { assert (0 <= rp * rq * (1 - cos dl)) by (apply Rmult_le_pos; lra). lra. }
  assert (A2 : Rabs (rq - rp) <= h).
  { rewrite <- (Rabs_pos_eq h) by lra. apply Rsqr_le_abs_0. unfold Rsqr. lra. }
  apply Rabs_le_between in A2.
  assert (Hpq2 : 2 <= rp * rq) by (apply Rle_trans with (14 / 10 * (9 / 5)); [lra|apply Rmult_le_compat; lra]).
  assert (Hcd : 95 / 100 <= cos dl).
  { assert (h ^ 2 <= (3928 / 10000) ^ 2) by (apply pow_incr; lra). pose proof (pow2_ge_0 (rq - rp)).
    assert (2 * 2 * (1 - cos dl) <= 2 * (rp * rq) * (1 - cos dl)) by (apply Rmult_le_compat_r; lra). lra. }
  assert (C8 : cos (PI / 8) < 95 / 100).
  { pose proof sin_num as (_ & N8 & _). pose proof (sc2 (PI / 8)) as S.
    assert (38 / 100 * (38 / 100) <= sin (PI / 8) * sin (PI / 8)) by (apply Rmult_le_compat; lra).
    apply Rnot_le_lt. intros L. assert (95 / 100 * (95 / 100) <= cos (PI / 8) * cos (PI / 8)) by (apply Rmult_le_compat; lra). lra. }
  assert (Hdl : Rabs dl < PI / 8).
  { apply Rnot_le_lt. intros L. assert (U : Rabs dl <= 2 * PI - PI / 8) by (apply Rabs_le; unfold dl; lra).
    pose proof (cos_gap (PI / 8) (Rabs dl) ltac:(lra) ltac:(lra)) as G.
    assert (cos (Rabs dl) = cos dl) by (unfold Rabs; destruct (Rcase_abs dl); [rewrite cos_neg|]; reflexivity). lra. }
  assert (V : 49 / 100 * dl ^ 2 <= 1 - cos dl) by (apply versine_low; lra).
  assert (M : (rq - rp) ^ 2 + 98 / 100 * (rp * rq) * dl ^ 2 <= h ^ 2).
  { assert (2 * (rp * rq) * (49 / 100 * dl ^ 2) <= 2 * (rp * rq) * (1 - cos dl)) by (apply Rmult_le_compat_l; lra). lra. }
  pose proof (pow2_ge_0 dl) as Hd2. apply Rabs_lt_between in Hdl.
  destruct (Rlt_le_dec (2 * PI) tq) as [T1|T1]; [|destruct (Rlt_le_dec tq (PI / 4)) as [T2|T2]].
  - exists (2 * PI). split; [lra|]. rewrite E2. set (d := tq - 2 * PI).
    pose proof (versine_high d ltac:(unfold d; lra)) as Vh. 
    assert (L1 := lipschitz (2 * PI) tq ltac:(lra) ltac:(lra)). assert (L2 := lipschitz tp (2 * PI) ltac:(lra) ltac:(lra)).
    rewrite E2 in L1, L2. rewrite (Rabs_pos_eq (tq - 2 * PI)) in L1 by lra. rewrite (Rabs_pos_eq (2 * PI - tp)) in L2 by lra.
    apply Rabs_le_between in L1. apply Rabs_le_between in L2. 
    pose proof (corner_num h rq rp dl d Hh ltac:(unfold d, dl; lra) ltac:(unfold d; lra) M ltac:(lra) ltac:(lra) ltac:(unfold d; lra) ltac:(unfold d, dl; lra)) as K.
    assert (2 * rq * (23 / 10) * (1 - cos d) <= 2 * rq * (23 / 10) * (d ^ 2 / 2)) by (apply Rmult_le_compat_l; lra). lra.
  - exists (PI / 4). split; [lra|]. rewrite Ea. set (d := PI / 4 - tq).
    replace (cos (tq - PI / 4)) with (cos d) by (rewrite <- cos_neg; f_equal; unfold d; ring).
    pose proof (versine_high d ltac:(unfold d; lra)) as Vh.
    assert (L1 := lipschitz tq (PI / 4) ltac:(lra) ltac:(lra)). assert (L2 := lipschitz (PI / 4) tp ltac:(lra) ltac:(lra)).
    rewrite Ea in L1, L2. rewrite (Rabs_pos_eq (PI / 4 - tq)) in L1 by lra. rewrite (Rabs_pos_eq (tp - PI / 4)) in L2 by lra.
    apply Rabs_le_between in L1. apply Rabs_le_between in L2.
    assert (M' : (rq - rp) ^ 2 + 98 / 100 * (rp * rq) * (- dl) ^ 2 <= h ^ 2) by (replace ((- dl) ^ 2) with (dl ^ 2) by ring; exact M).
    pose proof (corner_num h rq rp (- dl) d Hh ltac:(unfold d, dl; lra) ltac:(unfold d; lra) M' ltac:(lra) ltac:(lra) ltac:(unfold d; lra) ltac:(unfold d, dl; lra)) as K.
    assert (2 * rq * (23 / 10) * (1 - cos d) <= 2 * rq * (23 / 10) * (d ^ 2 / 2)) by (apply Rmult_le_compat_l; lra). lra.
  - exists tq. split; [lra|]. rewrite Rminus_eq_0, cos_0.
    assert (L1 := lipschitz tq tp ltac:(lra) ltac:(lra)). apply Rabs_le_between in L1.
    rewrite (Rabs_minus_sym tp tq) in L1. fold dl in L1. set (ad := Rabs dl) in *.
    assert (Ead : dl ^ 2 = ad ^ 2) by (unfold ad; rewrite pow2_abs; reflexivity).
    assert (U : 0 <= rq - r tq <= (rq - rp) + 2 / 7 * ad) by lra.
    assert ((rq - r tq) * (rq - r tq) <= ((rq - rp) + 2 / 7 * ad) * ((rq - rp) + 2 / 7 * ad)) by (apply Rmult_le_compat; lra).
    pose proof (pow2_ge_0 ((rq - rp) - 2 / 7 * ad)).
    assert (98 / 100 * 2 * dl ^ 2 <= 98 / 100 * (rp * rq) * dl ^ 2) by (apply Rmult_le_compat_r; lra).
    lra.
Qed.
End FillNear.

(** ** The nodes to be filled *)

Section CurveFill.
Context (brentq : (R -> R) -> R -> R -> option R) (r : R -> R) (c : ext_ctx) (Hb : brentq_contract brentq) (Hr : gentle r)
  (Hc : curve_solver brentq 4 r c)
  (Hm : margin (ec_N c) (ps_is_interior r (PI / 4) (2 * PI) (ec_N c))).

Let h := 2 * PI / IZR (ec_N c).
Let ins := ps_is_interior r (PI / 4) (2 * PI) (ec_N c).

Lemma cf_h : 0 < h <= 3928 / 10000.
Proof using Hc.
  destruct Hc as (_ & _ & _ & HN & _). pose proof PI_num. assert (HN' : 16 <= IZR (ec_N c)) by (apply IZR_le; assumption).
  unfold h. split; [apply Rdiv_lt_0_compat; lra|]. apply Rle_trans with (2 * PI / 16); [|lra].
  unfold Rdiv. apply Rmult_le_compat_l; [lra|]. apply Rinv_le_contravar; lra.
Qed.

Lemma cf_coord : forall q, ctx_coord c q = get_coord (2 * PI) (ec_N c) (fst q) (snd q).
Proof using Hc. intros q. destruct Hc as (_ & _ & EA & _). unfold ctx_coord. rewrite EA. reflexivity. Qed.

Lemma cf_node : forall q x y, In q (node_diff (Kplus 4 (ec_N c) ins) (global_Mplus (ec_N c) ins)) ->
  ctx_coord c q = (x, y) ->
  in_open_grid (ec_N c) q /\ In q (ec_union c) /\ ~ in_region r (PI / 4) (x, y) /\
  exists x' y', in_region r (PI / 4) (x', y') /\ (x - x') ^ 2 + (y - y') ^ 2 = h ^ 2.
Proof using Hr Hc Hm.
  intros q x y Hq Exy. rewrite cf_coord in Exy. destruct Hc as (_ & _ & EA & HN & _ & _ & Hen & _).
  apply node_diff_in in Hq. destruct Hq as [HK HM]. apply Kplus_in in HK; [|right; reflexivity].
  destruct HK as (p & Hp & [->|[_ Hpq]]); [contradiction|].
  apply Mplus_in in Hp. destruct Hp as [Hpg Hpi].
  assert (Hqg : in_open_grid (ec_N c) q).
  { assert (Hm' := Hm (fst p) (snd p)). destruct p as [i j], q as [i' j']. cbn [fst snd] in *.
    specialize (Hm' Hpg Hpi). unfold in_open_grid. cbn [fst snd]. lia. }
  assert (Hqi : ins (fst q) (snd q) = false).
  { destruct (ins (fst q) (snd q)) eqn:E; [|reflexivity]. exfalso. apply HM. apply Mplus_in. auto. }
  split; [exact Hqg|]. split; [|split].
  - apply Hen. apply gamma_set_in; [right; reflexivity|]. split.
    + exists p. split; [exact Hpg|]. split; [exact Hpi|]. split; [lia|]. split; [lia|]. intros; lia.
    + exists q. split; [exact Hqg|]. split; [exact Hqi|apply neighbour_refl].
  - intros D. apply (region_ins r Hr (ec_N c) q x y Exy) in D. unfold ins in Hqi. congruence.
  - destruct (get_coord (2 * PI) (ec_N c) (fst p) (snd p)) as [x' y'] eqn:Ep.
    exists x', y'. split; [apply (region_ins r Hr (ec_N c) p x' y' Ep); exact Hpi|].
    unfold get_coord in Exy, Ep. injection Exy as <- <-. injection Ep as <- <-.
    assert (HN' : IZR (ec_N c) <> 0) by (apply not_0_IZR; lia).
    assert (Ex : forall i j, 2 * PI * (IZR i / IZR (ec_N c) - 1 / 2) - 2 * PI * (IZR j / IZR (ec_N c) - 1 / 2) = h * IZR (i - j)).
    { intros i j. rewrite minus_IZR. unfold h. field. assumption. }
    rewrite !Ex.
    destruct (Z.eq_dec (fst q - fst p) 0) as [E0|E0].
    + rewrite E0. assert (Hs : (snd q - snd p = 1 \/ snd q - snd p = -1)%Z) by lia.
      destruct Hs as [-> | ->]; ring.
    + assert (E1 : (snd q - snd p = 0)%Z) by lia. rewrite E1.
      assert (Hs : (fst q - fst p = 1 \/ fst q - fst p = -1)%Z) by lia. destruct Hs as [-> | ->]; ring.
Qed.

Lemma cf_gamma : forall sid, (sid < 3)%nat -> ec_gamma c sid = filter (pclaims brentq r (ec_N c) sid) (ec_union c).
Proof using Hb Hr Hc.
  intros sid Hs. destruct Hc as (_ & _ & _ & HN & _ & Ebc & Hen & Hall).
  destruct (curve_placed brentq Hb r Hr (ec_N c) HN 4%Z (ec_union c) ltac:(right; reflexivity) Hen) as [E _].
  rewrite Ebc in Hall. rewrite E in Hall. injection Hall as E0 E1 E2.
  destruct sid as [|[|[|sid]]]; [auto|auto|auto|lia].
Qed.

Lemma cf_bound : forall b x y, (fst b - x) ^ 2 + (snd b - y) ^ 2 <= 2 * h ^ 2 -> dist2 b (x, y) <= h * sqrt 2.
Proof using Hc.
  intros b x y H. pose proof cf_h. unfold dist2. cbn [fst snd].
  replace (h * sqrt 2) with (sqrt (2 * h ^ 2)); [apply sqrt_le_1_alt; exact H|].
  rewrite sqrt_mult_alt by lra. rewrite sqrt_pow2 by lra. ring.
Qed.

(** Beyond the curve the node is listed under it. *)
Lemma cf_listed : forall q x y rho th, In q (node_diff (Kplus 4 (ec_N c) ins) (global_Mplus (ec_N c) ins)) ->
  ctx_coord c q = (x, y) -> ps_polar_xy (PI / 4) x y = (rho, th) -> r th <= rho -> In q (ec_gamma c 0).
Proof using Hb Hr Hc Hm.
  intros q x y rho th Hq Exy Ep Hrho. pose proof PI_num as HPI.
  destruct (cf_node q x y Hq Exy) as (Hg & Hu & Hnd & x' & y' & (rp & tp & Htp & Hrp & E') & Hd). injection E' as Ex' Ey'.
  destruct (ps_polar_spec (PI / 4) x y rho th ltac:(lra) Ep) as (Hr0 & Hth & Hx & Hy).
  rewrite cf_gamma by lia. apply filter_In. split; [exact Hu|]. destruct Hc as (_ & _ & _ & HN & _).
  rewrite cf_coord in Exy. apply (pclaims_iff brentq Hb r Hr (ec_N c) HN 0 q x y ltac:(lia) Exy).
  pose proof cf_h as Hh.
  assert (H2 : rho ^ 2 + rp ^ 2 - 2 * rp * rho * cos (th - tp) <= h ^ 2).
  { rewrite <- Hd, Ex', Ey', <- Hx, <- Hy, cos_minus. pose proof (sc2 th) as S1. pose proof (sc2 tp) as S2. right. ring [S1 S2]. }
  destruct (fill_near r Hr h rho th rp tp ltac:(lra) ltac:(lra) Htp Hrp Hrho H2) as (phi & Hphi & Hp).
  exists (r phi * cos phi, r phi * sin phi). split; [exists phi; split; [exact Hphi|reflexivity]|].
  apply cf_bound. cbn [fst snd]. rewrite (sq_dist_polar (r phi) rho th phi x y Hx Hy). lra.
Qed.

(** The point a node is filled from. *)
Lemma cf_base : forall q x y, In q (node_diff (Kplus 4 (ec_N c) ins) (global_Mplus (ec_N c) ins)) ->
  ctx_coord c q = (x, y) ->
  exists b, extend_f_base c q = Ok b /\ expansion_pt r (PI / 4) b /\ dist2 b (x, y) <= h * sqrt 2 /\ b <> (x, y).
Proof using Hb Hr Hc Hm.
  intros q x y Hq Exy. destruct (cf_node q x y Hq Exy) as (Hg & Hu & Hnd & x' & y' & Hd & E1).
  pose proof PI_num as HPI. pose proof cf_h as Hh.
  assert (Hc' := Hc). destruct Hc' as (ER & Ea & EA & HN & Er & Ebc & Hen & Hall).
  assert (Hr' := Hr). destruct Hr' as (r1 & r2 & _ & _ & Band & _ & _ & Ra & R2). clear r1 r2.
  destruct (ps_polar_xy (PI / 4) x y) as [rho th] eqn:Ep.
  destruct (ps_polar_spec (PI / 4) x y rho th ltac:(lra) Ep) as (Hr0 & Hth & Hx & Hy).
  pose proof (Band th ltac:(lra)) as Bth.
  assert (Hrp : 0 < rho).
  { destruct Hr0 as [Hr0|Hr0]; [exact Hr0|]. exfalso. apply Hnd. exists 0, (2 * PI). rewrite R2. split; [lra|]. split; [lra|].
    subst rho. rewrite !Rmult_0_l in *. subst x y. f_equal; assumption. }
  assert (Hin_region : PI / 4 <= th <= 2 * PI -> r th < rho).
  { intros T. apply Rnot_le_lt. intros L. apply Hnd. exists rho, th. split; [exact T|]. split; [lra|]. rewrite Hx, Hy. reflexivity. }
  (* a point of the closed region is not the node *)
  assert (Hcurve : forall phi, PI / 4 <= phi <= 2 * PI -> (r phi * cos phi, r phi * sin phi) <> (x, y)).
  { intros phi Hphi E. apply Hnd. exists (r phi), phi. split; [exact Hphi|]. split; [pose proof (Band phi ltac:(lra)); lra|]. symmetry. exact E. }
  assert (Epol : ps_get_polar (ec_a c) (ec_AD c) (ec_N c) (fst q) (snd q) = (rho, th)).
  { unfold ps_get_polar. unfold ctx_coord in Exy. rewrite Exy, Ea. exact Ep. }
  assert (Exy2 := Exy). rewrite cf_coord in Exy2.
  (* nodes listed under the curve *)
  assert (Listed : In q (ec_gamma c 0) -> exists n th0, ctx_cache c q = Ok (n, th0) /\
     node_etype c 0 q = Ok (if Rltb (2 * PI) th0 then ERight else if Rltb th0 (PI / 4) then ELeft else EStandard) /\
     (th0 <= 2 * PI -> PI / 4 <= th0 -> dist2 (r th0 * cos th0, r th0 * sin th0) (x, y) <= h * sqrt 2) /\
     (2 * PI < th0 -> dist2 (23 / 10, 0) (x, y) <= h * sqrt 2) /\
     (th0 < PI / 4 -> dist2 (23 / 10 * cos (PI / 4), 23 / 10 * sin (PI / 4)) (x, y) <= h * sqrt 2)).
  { intros Hin. assert (Hcl := Hin). rewrite cf_gamma in Hcl by lia. apply filter_In in Hcl. destruct Hcl as [_ Hcl].
    assert (Hcl2 := Hcl). apply (pclaims_iff brentq Hb r Hr (ec_N c) HN 0 q x y ltac:(lia) Exy2) in Hcl. destruct Hcl as (b & Hb1 & Hb2).
    destruct (curve_claims brentq Hb r Hr (ec_N c) HN q x y Exy2) as (d & Es & _ & H'). destruct (H' b Hb1 Hb2) as (_ & [n th0] & Ebq).
    exists n, th0. assert (Eca : ctx_cache c q = Ok (n, th0)).
    { unfold ctx_cache, cache_get. rewrite (proj2 (node_mem_in _ _) Hin), Ebc, Ebq. reflexivity. }
    split; [exact Eca|]. split.
    - unfold node_etype. rewrite Exy, (proj2 (node_mem_in _ _) Hin), Eca, ER, Ea. reflexivity.
    - unfold pclaims in Hcl2. rewrite Es in Hcl2. fold h in Hcl2. unfold seg_claims in Es. rewrite Exy2, Ebq in Es. cbn [etype_of] in Es.
      destruct (bcoord_coord brentq r (PI / 4) (2 * PI) (ec_N c) q x y ltac:(lra) Exy2) as (rho' & th' & Eb' & _ & _ & Hx' & Hy').
      rewrite Ebq in Eb'. symmetry in Eb'. apply coord_dist in Eb'. rewrite Hx', Hy' in Eb'.
      destruct (Rltb_spec (2 * PI) th0) as [T1|T1]; [|destruct (Rltb_spec th0 (PI / 4)) as [T2|T2]]; cbn [get_dist bind] in Es; fold h in Es;
        (match type of Es with Ok ?u = Ok ?v => assert (Es0 : u = v) by congruence end); rewrite <- Es0 in Hcl2;
        match type of Hcl2 with Rleb ?u ?v = true => destruct (Rleb_spec u v) as [L|L]; [|discriminate] end.
      + split; [intros; lra|]. split; [intros _; exact L|intros; lra].
      + split; [intros; lra|]. split; [intros; lra|intros _; exact L].
      + split; [|split; intros; lra]. intros _ _. rewrite <- Eb'. exact L. }
  assert (Curve : In q (ec_gamma c 0) -> extend_f_get_sid c q = Ok 0%nat ->
    exists b, extend_f_base c q = Ok b /\ expansion_pt r (PI / 4) b /\ dist2 b (x, y) <= h * sqrt 2 /\ b <> (x, y)).
  { intros Hin Hs0. destruct (Listed Hin) as (n & th0 & Eca & Eet & D0 & D1 & D2).
    unfold extend_f_base. rewrite Exy, Hs0. cbn [bind]. rewrite Eet. cbn [bind]. rewrite Eca. cbn [bind fst snd]. rewrite Er, ER, Ea.
    destruct (Rltb_spec (2 * PI) th0) as [T1|T1]; [|destruct (Rltb_spec th0 (PI / 4)) as [T2|T2]]; eexists; (split; [reflexivity|]).
    - assert (EE : (23 / 10, 0) = (r (2 * PI) * cos (2 * PI), r (2 * PI) * sin (2 * PI))) by (rewrite R2, cos_2PI, sin_2PI; f_equal; ring).
      split; [left; exists (2 * PI); split; [lra|exact EE]|]. split; [exact (D1 T1)|]. rewrite EE. apply Hcurve. lra.
    - assert (EE : (23 / 10 * cos (PI / 4), 23 / 10 * sin (PI / 4)) = (r (PI / 4) * cos (PI / 4), r (PI / 4) * sin (PI / 4))) by (rewrite Ra; reflexivity).
      split; [left; exists (PI / 4); split; [lra|exact EE]|]. split; [exact (D2 T2)|]. rewrite EE. apply Hcurve. lra.
    - split; [left; exists th0; split; [lra|reflexivity]|]. split; [apply D0; lra|]. apply Hcurve. lra. }
  assert (Hsid : extend_f_get_sid c q = Ok 0%nat /\ In q (ec_gamma c 0) \/
    (rho < r th /\ extend_f_get_sid c q = if Rleb (2 * PI) th then Ok 1%nat else Ok 2%nat)).
  { unfold extend_f_get_sid. rewrite Epol, Er. destruct (node_mem q (ec_gamma c 0)) eqn:Em.
    - apply node_mem_in in Em. destruct (Listed Em) as (n & th0 & _ & Eet & _). rewrite Eet. cbn [bind].
      destruct (etype_eqb _ EStandard); [left; auto|].
      destruct (Rltb_spec rho (r th)); [right; auto|left; auto].
    - cbn [bind]. destruct (Rltb_spec rho (r th)) as [L|L]; [right; auto|left]. split; [reflexivity|].
      apply (cf_listed q x y rho th Hq Exy Ep). lra. }
  destruct Hsid as [[S1 S2]|[Hlt Hsid]]; [apply Curve; assumption|].
  (* inside the gap between the radii *)
  assert (Hgap : ~ (PI / 4 <= th <= 2 * PI)) by (intros T; specialize (Hin_region T); lra).
  set (a := PI / 4) in *. assert (Ha : 0 < a < PI) by (unfold a; lra).
  pose proof (wedge_iff a x y rho th Ha Ep) as Hw.
  assert (Hsin : 0 < sin a) by (apply sin_gt_0; lra). pose proof (sc2 a) as S2.
  set (g := x * sin a - y * cos a) in *.
  assert (Hwedge : 0 < y /\ 0 < g).
  { destruct (Rlt_dec 0 y) as [Y|Y]; [destruct (Rlt_dec (y * cos a) (x * sin a)) as [W|W]|].
    - unfold g. lra. - exfalso. apply Hgap. apply Hw. tauto. - exfalso. apply Hgap. apply Hw. tauto. }
  assert (Hp' : ~ (0 < y' /\ 0 < x' * sin a - y' * cos a)).
  { destruct Hd as (rp & tp & Htp & Hrp' & E'). injection E' as Ex' Ey'.
    destruct (ps_polar_xy a x' y') as [rr tt] eqn:Epp. intros [Y1 Y2].
    assert (T : a <= tt <= 2 * PI).
    { assert (I : interior_xy r a x' y' = true) by (apply (interior_region r a x' y' Ha ltac:(lra)); exists rp, tp; rewrite Ex', Ey'; auto).
      unfold interior_xy in I. rewrite Epp in I. rewrite !andb_true_iff in I. destruct I as [[_ I1] I2].
      destruct (Rleb_spec a tt); [|discriminate]. destruct (Rleb_spec tt (2 * PI)); [|discriminate]. lra. }
    apply (wedge_iff a x' y' rr tt Ha Epp) in T. apply T. split; lra. }
  assert (Hnear : y <= g /\ y <= h \/ g <= y /\ g <= h \/ (y <= g -> y <= h) /\ (g <= y -> g <= h)).
  { right. right.
    assert (Dy : Rabs (y - y') <= h).
    { rewrite <- (Rabs_pos_eq h) by lra. apply Rsqr_le_abs_0. unfold Rsqr. pose proof (pow2_ge_0 (x - x')). lra. }
    assert (Dg : Rabs (g - (x' * sin a - y' * cos a)) <= h).
    { rewrite <- (Rabs_pos_eq h) by lra. apply Rsqr_le_abs_0. unfold Rsqr.
      pose proof (pow2_ge_0 ((x - x') * cos a + (y - y') * sin a)).
      replace (h * h) with ((g - (x' * sin a - y' * cos a)) * (g - (x' * sin a - y' * cos a)) + ((x - x') * cos a + (y - y') * sin a) ^ 2); [lra|].
      transitivity (h ^ 2); [|ring]. rewrite <- E1. unfold g. ring [S2]. }
    apply Rabs_le_between in Dy. apply Rabs_le_between in Dg.
    destruct (Rle_lt_dec y' 0) as [Y|Y]; [split; intros; lra|].
    assert (x' * sin a - y' * cos a <= 0) by (apply Rnot_lt_le; intros L; apply Hp'; auto). split; intros; lra. }
  assert (Hnear' : (y <= g -> y <= h) /\ (g <= y -> g <= h)).
  { destruct Hnear as [[N1 N2]|[[N1 N2]|N]]; [split; intros; lra|split; intros; lra|exact N]. }
  clear Hnear. destruct Hnear' as [N1 N2].
  destruct (Rleb_spec (2 * PI) th) as [T|T].
  - set (ph := th - 2 * PI). assert (Hph : 0 < ph < a / 2) by (unfold ph; split; [|lra]; destruct (Req_dec th (2 * PI)); [exfalso; apply Hgap|]; lra).
    assert (Ec : cos th = cos ph) by (unfold ph; rewrite cos_minus, cos_2PI, sin_2PI; ring).
    assert (Es : sin th = sin ph) by (unfold ph; rewrite sin_minus, cos_2PI, sin_2PI; ring).
    assert (Hcos : 0 < cos ph) by (apply cos_gt_0; lra).
    assert (Hyg : y <= g).
    { unfold g. rewrite <- Hx, <- Hy, Ec, Es.
      assert (Ed : sin (a - ph) - sin ph = 2 * cos (a / 2) * sin (a / 2 - ph)).
      { replace (sin ph) with (sin (a / 2 - (a / 2 - ph))) by (f_equal; lra).
        replace (sin (a - ph)) with (sin (a / 2 + (a / 2 - ph))) by (f_equal; lra).
        rewrite (sin_plus (a / 2) (a / 2 - ph)), (sin_minus (a / 2) (a / 2 - ph)). ring. }
      assert (0 <= 2 * cos (a / 2) * sin (a / 2 - ph)).
      { apply Rmult_le_pos; [apply Rmult_le_pos; [lra|]; apply cos_ge_0; lra|apply sin_ge_0; lra]. }
      rewrite (sin_minus a ph) in Ed.
      assert (rho * sin ph <= rho * (sin a * cos ph - cos a * sin ph)) by (apply Rmult_le_compat_l; lra). lra. }
    exists (x, 0). split; [|split; [|split]].
    + unfold extend_f_base. rewrite Exy, Hsid. cbn [bind]. unfold node_etype. rewrite Exy. reflexivity.
    + right. exists x. split; [|left; reflexivity]. rewrite <- Hx, Ec. pose proof (COS_bound ph). split; [apply Rmult_lt_0_compat; lra|].
      assert (rho * cos ph <= rho * 1) by (apply Rmult_le_compat_l; lra). lra.
    + apply cf_bound. cbn [fst snd]. specialize (N1 Hyg). assert (y * y <= h * h) by (apply Rmult_le_compat; lra).
      pose proof (pow2_ge_0 h). replace ((x - x) ^ 2 + (0 - y) ^ 2) with (y * y) by ring. lra.
    + intros B. injection B as B. lra.
  - assert (Hta : a / 2 <= th < a).
    { split; [lra|]. destruct (Rlt_le_dec th a); [assumption|]. exfalso. apply Hgap. lra. }
    assert (Hgy : g <= y).
    { unfold g. rewrite <- Hx, <- Hy.
      assert (Ed : sin th - sin (a - th) = 2 * cos (a / 2) * sin (th - a / 2)).
      { replace (sin th) with (sin (a / 2 + (th - a / 2))) by (f_equal; lra).
        replace (sin (a - th)) with (sin (a / 2 - (th - a / 2))) by (f_equal; lra).
        rewrite (sin_plus (a / 2) (th - a / 2)), (sin_minus (a / 2) (th - a / 2)). ring. }
      assert (0 <= 2 * cos (a / 2) * sin (th - a / 2)).
      { apply Rmult_le_pos; [apply Rmult_le_pos; [lra|]; apply cos_ge_0; lra|apply sin_ge_0; lra]. }
      rewrite (sin_minus a th) in Ed.
      assert (rho * (sin a * cos th - cos a * sin th) <= rho * sin th) by (apply Rmult_le_compat_l; lra). lra. }
    set (u := x * cos a + y * sin a).
    assert (Eu : u = rho * cos (a - th)) by (unfold u; rewrite <- Hx, <- Hy, cos_minus; ring).
    exists (u * cos a, u * sin a). split; [|split; [|split]].
    + unfold extend_f_base. rewrite Exy, Hsid. cbn [bind]. unfold node_etype. rewrite Exy. cbn [bind].
      rewrite Ea. fold a. rewrite get_radius_point_eq by exact Ha. reflexivity.
    + right. exists u. split; [|right; reflexivity]. rewrite Eu. pose proof (COS_bound (a - th)).
      assert (0 < cos (a - th)) by (apply cos_gt_0; lra). split; [apply Rmult_lt_0_compat; lra|].
      assert (rho * cos (a - th) <= rho * 1) by (apply Rmult_le_compat_l; lra). lra.
    + apply cf_bound. cbn [fst snd].
      replace ((u * cos a - x) ^ 2 + (u * sin a - y) ^ 2) with (g * g) by (unfold u, g; ring [S2]).
      specialize (N2 Hgy). assert (g * g <= h * h) by (apply Rmult_le_compat; lra). pose proof (pow2_ge_0 h). lra.
    + intros B. injection B as B1 B2. assert (G0 : g = 0) by (unfold g; rewrite <- B1, <- B2; ring). lra.
Qed.
End CurveFill.

Lemma extend_f_curve : forall brentq r c F todo f0, brentq_contract brentq -> gentle r -> curve_solver brentq 4 r c ->
  let ins := ps_is_interior r (PI / 4) (2 * PI) (ec_N c) in
  let h := 2 * PI / IZR (ec_N c) in
  margin (ec_N c) ins -> ec_homogeneous c = false ->
  (forall b, expansion_pt r (PI / 4) b -> cart_source (ec_src c) F (fst b) (snd b)) ->
  enumerates todo (node_diff (Kplus 4 (ec_N c) ins) (global_Mplus (ec_N c) ins)) ->
  exists f', extend_f c todo f0 = Ok (f', false) /\
    (forall q x y, In q todo -> get_coord (2 * PI) (ec_N c) (fst q) (snd q) = (x, y) ->
       exists b, expansion_pt r (PI / 4) b /\ b <> (x, y) /\ dist2 b (x, y) <= h * sqrt 2 /\
         f' (fst q) (snd q) = taylor2 F (fst b) (snd b) x y) /\
    (forall i j, ~ In (i, j) todo -> f' i j = f0 i j).
Proof.
  intros brentq r c F todo f0 Hb Hr Hc ins h Hm Hhom Hs [Hnd Hen].
  destruct (extend_f_loop_spec c F todo f0) as (f' & Ef & Hin & Hout).
  - intros q Hq. apply Hen in Hq. destruct (ctx_coord c q) as [x y] eqn:Exy.
    destruct (cf_node brentq r c Hr Hc Hm q x y Hq Exy) as (Hg & _). split; [exact Hg|].
    destruct (cf_base brentq r c Hb Hr Hc Hm q x y Hq Exy) as (b & Eb & Hseg & _ & Hne).
    exists b, x, y. split; [exact Eb|]. split; [reflexivity|]. split; [exact Hne|]. exact (Hs b Hseg).
  - exact Hnd.
  - exists f'. split; [unfold extend_f; rewrite Hhom; exact Ef|]. split; [|exact Hout].
    intros q x y Hq Exy. assert (Hq' := Hq). apply Hen in Hq'.
    assert (Exy' : ctx_coord c q = (x, y)) by (rewrite (cf_coord brentq r c Hc); exact Exy).
    destruct (cf_base brentq r c Hb Hr Hc Hm q x y Hq' Exy') as (b & Eb & Hseg & Hd & Hne).
    exists b. repeat (split; [assumption|]). exact (Hin q b x y Hq Eb Exy').
Qed.

(** ** The inhomogeneous part of the boundary extension *)

Lemma curve_inhomo_0 : forall brentq order r c p e, brentq_contract brentq -> gentle r -> (order = 2 \/ order = 4)%Z ->
  curve_solver brentq order r c -> ec_homogeneous c = false -> off_curve r (ec_N c) ->
  In p (ec_gamma c 0) -> in_open_grid (ec_N c) p -> node_etype c 0 p = Ok e -> exists v, do_extend_inhomo c 0 e p = Ok v.
Proof.
  intros brentq order r c p e Hb Hr Hord Hc Hhom Hoff Hin Hgrid Het. pose proof PI_num as HPI.
  destruct Hc as (ER & Ea & EA & HN & Er & Ebc & Hen & Hall).
  assert (Hr' := Hr). destruct Hr' as (r1 & r2 & D1 & D2 & Band & Slope & Bend & Ra & R2).
  destruct (ctx_coord c p) as [x y] eqn:Exy. assert (Exy2 := Exy). unfold ctx_coord in Exy2. rewrite EA in Exy2.
  destruct (curve_placed brentq Hb r Hr (ec_N c) HN order (ec_union c) Hord Hen) as [Eg _].
  rewrite Ebc, Eg in Hall. injection Hall as Eg0 _ _.
  assert (Hcl := Hin). rewrite <- Eg0 in Hcl. apply filter_In in Hcl. destruct Hcl as [_ Hcl].
  apply (pclaims_iff brentq Hb r Hr (ec_N c) HN 0 p x y ltac:(lia) Exy2) in Hcl. destruct Hcl as (b & (phi & Hphi & ->) & Hb2).
  destruct (bcoord_coord brentq r (PI / 4) (2 * PI) (ec_N c) p x y ltac:(lra) Exy2) as (rho & th1 & Eb & Hrho & Hth1 & Hx & Hy).
  pose proof (e_small (ec_N c) HN) as He. pose proof (dist2_polar r phi rho th1 x y _ Hx Hy (proj1 He) Hb2) as Hd2.
  destruct (coord_found r r1 r2 D1 D2 Band Slope Bend Ra R2 rho th1 ltac:(lra) _ phi He Hphi Hrho Hd2 brentq Hb) as (n & th & Ebq & Hth & _).
  destruct (bracket r r1 r2 D1 D2 Band Slope Bend Ra R2 rho th1 ltac:(lra) _ phi He Hphi Hrho Hd2) as (_ & K2 & K3 & K4 & K5 & _).
  rewrite Ebq in Eb. clear Ebq Hd2 He Hb2 Hth1.
  assert (Hr8 : PI / 8 <= th <= 2 * PI + PI / 8) by lra. clear K2 K3 K4 K5 Hth.
  assert (Ecache : ctx_cache c p = Ok (n, th)).
  { unfold ctx_cache, cache_get. rewrite (proj2 (node_mem_in _ _) Hin), Ebc, Eb. reflexivity. }
  assert (Hnv : exists w, unit_vec (x - r th * cos th, y - r th * sin th) = Ok w).
  { apply unit_vec_ok. intros E. injection E as F1 F2. destruct p as [i j]. apply (Hoff i j th Hgrid Hr8).
    assert (0 < IZR (ec_N c)) by (apply IZR_lt; lia).
    transitivity (x, y); [|f_equal; lra]. rewrite <- Exy2. unfold square_pt, get_coord. cbn [fst snd]. f_equal; field; lra. }
  destruct Hnv as (nv & Enw).
  unfold node_etype in Het. rewrite Exy, (proj2 (node_mem_in _ _) Hin), Ecache, ER, Ea in Het. cbn [bind etype_of] in Het.
  assert (Hcorner : forall th0, 0 < Rabs (th - th0) < PI -> exists w, unit_vec (r th * cos th - 23 / 10 * cos th0, r th * sin th - 23 / 10 * sin th0) = Ok w).
  { intros th0 Hgap. apply unit_vec_ok. intros E. injection E as C1 C2. pose proof (Band th Hr8) as Bt.
    pose proof (sc2 th) as S1. pose proof (sc2 th0) as S2.
    assert (Er2 : r th ^ 2 = (23 / 10) ^ 2).
    { transitivity ((r th * cos th) ^ 2 + (r th * sin th) ^ 2); [ring [S1]|].
      replace (r th * cos th) with (23 / 10 * cos th0) by lra. replace (r th * sin th) with (23 / 10 * sin th0) by lra. ring [S2]. }
    assert (Er1 : r th = 23 / 10).
    { assert (Z : (r th - 23 / 10) * (r th + 23 / 10) = 0) by (replace ((r th - 23 / 10) * (r th + 23 / 10)) with (r th ^ 2 - (23 / 10) ^ 2) by ring; lra).
      apply Rmult_integral in Z. lra. }
    rewrite Er1 in C1, C2.
    assert (Cc : cos (th - th0) = 1).
    { rewrite cos_minus. replace (cos th) with (cos th0) by lra. replace (sin th) with (sin th0) by lra. ring [S2]. }
    assert (Ca : cos (Rabs (th - th0)) = 1) by (unfold Rabs; destruct (Rcase_abs (th - th0)); [rewrite cos_neg|]; exact Cc).
    pose proof (cos_decreasing_1 0 (Rabs (th - th0)) ltac:(lra) ltac:(lra) ltac:(lra) ltac:(lra) ltac:(lra)) as L.
    rewrite cos_0 in L. lra. }
  unfold do_extend_inhomo. rewrite Hhom.
  destruct (Rltb_spec (2 * PI) th) as [T1|T1]; [|destruct (Rltb_spec th (PI / 4)) as [T2|T2]];
    (match type of Het with Ok ?u = Ok ?v => assert (Ev : v = u) by congruence end); rewrite Ev; clear Ev Het.
  - destruct (Hcorner (2 * PI)) as (w & Ew); [rewrite Rabs_pos_eq by lra; lra|].
    unfold extend_inhomo_0_lr. rewrite Ecache. cbn [bind]. rewrite Er, Exy, ER. cbv beta.
    rewrite Ew. cbn [bind]. destruct (ps_get_polar _ _ _ _ _). rewrite Enw. cbn [bind]. eexists. reflexivity.
  - destruct (Hcorner (PI / 4)) as (w & Ew); [rewrite Rabs_left by lra; lra|].
    unfold extend_inhomo_0_lr. rewrite Ecache. cbn [bind]. rewrite Er, Exy, ER, Ea. cbv beta.
    rewrite Ew. cbn [bind]. destruct (ps_get_polar _ _ _ _ _). rewrite Enw. cbn [bind]. eexists. reflexivity.
  - unfold do_extend_inhomo_0_standard. rewrite Ecache. cbn [bind]. rewrite Er, Exy. cbv beta.
    rewrite Enw. cbn [bind]. eexists. reflexivity.
Qed.

Lemma curve_inhomo_ok : forall brentq order r c, brentq_contract brentq -> gentle r -> (order = 2 \/ order = 4)%Z ->
  curve_solver brentq order r c -> ctx_wf c -> (forall p, In p (ec_union c) -> in_open_grid (ec_N c) p) ->
  (ec_homogeneous c = true \/ off_curve r (ec_N c)) ->
  exists extf, extend_inhomo_f c = Ok extf.
Proof.
  intros brentq order r c Hb Hr Hord Hc Hwf Hgrid Hoff. pose proof PI_RGT_0 as HPI.
  unfold extend_inhomo_f, mv_extend_inhomo_f. eexists.
  apply (extend_reduce c (do_extend_inhomo c) (node_et c) (node_va (do_extend_inhomo c) c) Hwf).
  intros sid p Hs Hp. destruct (node_linear c sid p Hwf Hs Hp) as (e & elen & v0 & v1 & He & _).
  assert (Et : node_et c sid p = e) by (unfold node_et; rewrite He; reflexivity).
  unfold node_va. rewrite Et. split; [exact He|].
  assert (K : exists v, do_extend_inhomo c sid e p = Ok v).
  { destruct (ec_homogeneous c) eqn:Eh.
    - unfold do_extend_inhomo. rewrite Eh. eexists. reflexivity.
    - destruct Hoff as [|Hoff]; [discriminate|]. destruct sid as [|sid].
      + apply (curve_inhomo_0 brentq order r); auto. apply Hgrid. destruct Hwf as (_ & _ & W & _). apply (W 0%nat); auto.
      + destruct Hc as (ER & Ea & _). apply straight_inhomo; auto; [rewrite ER; lra|rewrite Ea; lra|lia]. }
  destruct K as (v & ->). reflexivity.
Qed.
