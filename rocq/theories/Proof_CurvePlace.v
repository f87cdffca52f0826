(** Attribution of the discrete boundary to the segments of a curved domain
    (C75). *)
From Coq Require Import ZArith List Bool Reals Lia Lra Psatz.
From Coquelicot Require Import Coquelicot.
From Verif Require Import Model_Py Model_Multivalue Model_Grid Model_Domain
  Spec_Grid Spec_Domain Spec_Program Spec_Curve Proof_Grid Proof_Grid2 Proof_Domain Proof_Boundary Proof_Eig Proof_Place Proof_Gentle.
Import ListNotations.
Open Scope R_scope.

(** ** The point test *)

Lemma interior_region : forall r a x y, 0 < a < PI -> 0 <= r (2 * PI) ->
  (interior_xy r a x y = true <-> in_region r a (x, y)).
Proof.
  intros r a x y Ha H2. unfold interior_xy. destruct (ps_polar_xy a x y) as [rho th] eqn:E. pose proof PI_RGT_0.
  destruct (ps_polar_spec a x y rho th ltac:(lra) E) as (Hr & Hth & Hx & Hy).
  rewrite !andb_true_iff. split.
  - intros [[L1 L2] L3]. exists rho, th.
    destruct (Rleb_spec rho (r th)); [|discriminate]. destruct (Rleb_spec a th); [|discriminate].
    destruct (Rleb_spec th (2 * PI)); [|discriminate]. split; [lra|]. split; [lra|]. rewrite Hx, Hy. reflexivity.
  - intros (rho' & th' & Hth' & Hr' & E'). injection E' as Ex Ey.
    assert (Hcase : rho' = 0 \/ 0 < rho') by lra. destruct Hcase as [->|Hp].
    + rewrite Rmult_0_l in Ex, Ey. subst x y. rewrite Ex, Ey in E. rewrite polar_zero in E by lra. injection E as <- <-.
      destruct (Rleb_spec 0 (r (2 * PI))); [|lra]. destruct (Rleb_spec a (2 * PI)); [|lra]. destruct (Rleb_spec (2 * PI) (2 * PI)); [auto|lra].
    + assert (Epol : rho = rho' /\ th = th').
      { assert (Er : rho = rho').
        { assert (E2 : rho ^ 2 = rho' ^ 2).
          { transitivity (x ^ 2 + y ^ 2); [rewrite <- Hx, <- Hy; pose proof (sc2 th) as S2; ring [S2]|].
            rewrite Ex, Ey. pose proof (sc2 th') as S2; ring [S2]. }
          assert (E0 : (rho - rho') * (rho + rho') = 0) by (replace ((rho - rho') * (rho + rho')) with (rho ^ 2 - rho' ^ 2) by ring; lra).
          apply Rmult_integral in E0. lra. }
        split; [exact Er|]. subst rho. apply (polar_unique (a / 2) rho'); lra. }
      destruct Epol as [-> ->].
      destruct (Rleb_spec rho' (r th')); [|lra]. destruct (Rleb_spec a th'); [|lra]. destruct (Rleb_spec th' (2 * PI)); [auto|lra].
Qed.

(** ** Half-angle formulas *)

Lemma half_angle : forall X Y rho, 0 < rho -> rho ^ 2 = X ^ 2 + Y ^ 2 -> 0 < rho + X ->
  rho * cos (2 * atan (Y / (rho + X))) = X /\ rho * sin (2 * atan (Y / (rho + X))) = Y.
Proof.
  intros X Y rho Hr E Hp. set (t := Y / (rho + X)).
  assert (Hs : 0 < 1 + t ^ 2) by (pose proof (pow2_ge_0 t); lra).
  assert (Hq : sqrt (1 + t²) * sqrt (1 + t²) = 1 + t ^ 2) by (rewrite sqrt_sqrt; [unfold Rsqr; ring|unfold Rsqr; pose proof (pow2_ge_0 t); lra]).
  assert (Hq0 : 0 < sqrt (1 + t²)) by (apply sqrt_lt_R0; unfold Rsqr; pose proof (pow2_ge_0 t); lra).
  assert (Et : (1 + t ^ 2) * (rho + X) = 2 * rho).
  { unfold t. apply Rmult_eq_reg_r with (rho + X); [|lra]. transitivity ((rho + X) ^ 2 + Y ^ 2); [field; lra|]. 
    replace (Y ^ 2) with (rho ^ 2 - X ^ 2) by lra. ring. }
  assert (HtY : t * (rho + X) = Y) by (unfold t; field; lra).
  rewrite sin_2a, cos_2a, sin_atan, cos_atan. set (q := sqrt (1 + t²)) in *.
  split.
  - apply Rmult_eq_reg_r with (1 + t ^ 2); [|lra]. rewrite <- Hq at 1.
    transitivity (rho * (1 - t ^ 2)); [field; lra|].
    assert ((1 + t ^ 2) * X = 2 * rho - (1 + t ^ 2) * rho) by lra. lra.
  - apply Rmult_eq_reg_r with (1 + t ^ 2); [|lra]. rewrite <- Hq at 1.
    transitivity (t * (2 * rho)); [field; lra|]. rewrite <- Et, <- HtY. ring.
Qed.

Lemma max3_zero : forall u v w, Rmax u (Rmax v w) = 0 -> u <= 0 /\ v <= 0 /\ w <= 0 /\ (u = 0 \/ v = 0 \/ w = 0).
Proof.
  intros u v w Z. pose proof (Rmax_l u (Rmax v w)). pose proof (Rmax_r u (Rmax v w)). pose proof (Rmax_l v w). pose proof (Rmax_r v w).
  split; [lra|]. split; [lra|]. split; [lra|].
  unfold Rmax in Z. destruct (Rle_dec v w); [destruct (Rle_dec u w)|destruct (Rle_dec u v)]; tauto.
Qed.

(** ** A segment leaving the region meets its boundary *)

Lemma region_crossing : forall r R0 a x y x' y', (forall t, continuous r t) -> 0 < R0 -> 0 < a < PI ->
  r a = R0 -> r (2 * PI) = R0 -> in_region r a (x, y) -> ~ in_region r a (x', y') ->
  exists sid t, (sid < 3)%nat /\ 0 <= t <= 1 /\ on_piece r R0 a sid (x + t * (x' - x), y + t * (y' - y)).
Proof.
  intros r R0 a x y x' y' Hc HR Ha Era Er2 (rho0 & thp & Hthp & Hrho0 & E) Hout. injection E as Ex Ey. pose proof PI_RGT_0.
  assert (Horigin : forall t, 0 <= t <= 1 -> x + t * (x' - x) = 0 -> y + t * (y' - y) = 0 ->
    exists sid t, (sid < 3)%nat /\ 0 <= t <= 1 /\ on_piece r R0 a sid (x + t * (x' - x), y + t * (y' - y))).
  { intros t Ht Zx Zy. exists 1%nat, t. split; [lia|]. split; [exact Ht|]. exists 0. split; [lra|]. rewrite Zx, Zy. reflexivity. }
  assert (Hcase : rho0 = 0 \/ 0 < rho0) by lra. destruct Hcase as [Z|Hp].
  { apply (Horigin 0); [lra| |]; [rewrite Ex, Z|rewrite Ey, Z]; ring. }
  set (d1 := (x' - x) * cos thp + (y' - y) * sin thp). set (d2 := - (x' - x) * sin thp + (y' - y) * cos thp).
  pose proof (sc2 thp) as S2.
  assert (Ecx : forall s, x + s * (x' - x) = (rho0 + s * d1) * cos thp - s * d2 * sin thp).
  { intros s. unfold d1, d2. rewrite Ex. ring [S2]. }
  assert (Ecy : forall s, y + s * (y' - y) = (rho0 + s * d1) * sin thp + s * d2 * cos thp).
  { intros s. unfold d1, d2. rewrite Ey. ring [S2]. }
  destruct (Req_dec d2 0) as [D0|D0].
  - (* along a ray *)
    destruct (Rle_lt_dec (rho0 + d1) 0) as [L|L].
    + apply (Horigin (rho0 / - d1)).
      * assert (0 < - d1) by lra. split; [apply Rlt_le, Rdiv_lt_0_compat; lra|]. apply Rmult_le_reg_r with (- d1); [lra|].
        unfold Rdiv. rewrite Rmult_assoc, Rinv_l by lra. lra.
      * rewrite Ecx, D0. replace (rho0 + rho0 / - d1 * d1) with 0 by (field; lra). ring.
      * rewrite Ecy, D0. replace (rho0 + rho0 / - d1 * d1) with 0 by (field; lra). ring.
    + assert (Hlt : r thp < rho0 + d1).
      { apply Rnot_le_lt. intros Hle. apply Hout. exists (rho0 + d1), thp. split; [lra|]. split; [lra|].
        replace x' with (x + 1 * (x' - x)) at 1 by ring. replace y' with (y + 1 * (y' - y)) at 1 by ring.
        rewrite Ecx, Ecy, D0. f_equal; ring. }
      assert (0 < d1) by lra. exists 0%nat, ((r thp - rho0) / d1). split; [lia|]. split.
      * split; [apply Rmult_le_pos; [lra|apply Rlt_le, Rinv_0_lt_compat; lra]|]. apply Rmult_le_reg_r with d1; [lra|].
        unfold Rdiv. rewrite Rmult_assoc, Rinv_l by lra. lra.
      * exists thp. split; [lra|]. rewrite Ecx, Ecy, D0. f_equal; field; lra.
  - set (X := fun s => rho0 + s * d1). set (Y := fun s => s * d2). set (rho := fun s => sqrt (X s ^ 2 + Y s ^ 2)).
    assert (Hpos : forall s, 0 < X s ^ 2 + Y s ^ 2).
    { intros s. pose proof (pow2_ge_0 (X s)). pose proof (pow2_ge_0 (Y s)).
      destruct (Req_dec s 0) as [->|Hs].
      - assert (0 < X 0 ^ 2) by (unfold X; replace (rho0 + 0 * d1) with rho0 by ring; apply pow_lt; assumption). lra.
      - assert (Y s <> 0) by (unfold Y; apply Rmult_integral_contrapositive; auto).
        assert (0 < Y s ^ 2) by (apply pow2_gt_0; assumption). lra. }
    assert (Hrho : forall s, 0 < rho s) by (intros s; apply sqrt_lt_R0, Hpos).
    assert (Hrho2 : forall s, rho s ^ 2 = X s ^ 2 + Y s ^ 2).
    { intros s. unfold rho. rewrite <- Rsqr_pow2, Rsqr_sqrt; [reflexivity|]. pose proof (Hpos s); lra. }
    assert (Hsum : forall s, 0 < rho s + X s).
    { intros s. apply Rnot_le_lt. intros Hle. pose proof (Hrho s).
      assert (rho s * rho s <= (- X s) * (- X s)) by (apply Rmult_le_compat; lra).
      pose proof (Hrho2 s). destruct (Req_dec s 0) as [->|Hs].
      - unfold X in Hle. lra.
      - assert (Y s <> 0) by (unfold Y; apply Rmult_integral_contrapositive; auto).
        assert (0 < Y s ^ 2) by (apply pow2_gt_0; assumption). lra. }
    set (Th := fun s => thp + 2 * atan (Y s / (rho s + X s))).
    assert (Hlift : forall s, x + s * (x' - x) = rho s * cos (Th s) /\ y + s * (y' - y) = rho s * sin (Th s)).
    { intros s. destruct (half_angle (X s) (Y s) (rho s) (Hrho s) (Hrho2 s) (Hsum s)) as [H1 H2].
      unfold Th. rewrite cos_plus, sin_plus. set (u := 2 * atan (Y s / (rho s + X s))) in *.
      rewrite Ecx, Ecy. fold (X s) (Y s). rewrite <- H1, <- H2. split; ring. }
    assert (CTh : forall s, continuous Th s).
    { intros s. apply (ex_derive_continuous (V := R_NormedModule)). unfold Th, rho, X, Y. auto_derive.
      pose proof (Hpos s) as P1. pose proof (Hsum s) as P2. unfold rho, X, Y in P1, P2. simpl in P1, P2. repeat split; try lra. }
    assert (Crho : forall s, continuous rho s).
    { intros s. apply (ex_derive_continuous (V := R_NormedModule)). unfold rho, X, Y. auto_derive.
      pose proof (Hpos s) as P1. unfold X, Y in P1. simpl in P1. repeat split; try lra. }
    set (g := fun s => Rmax (rho s - r (Th s)) (Rmax (Th s - 2 * PI) (a - Th s))).
    assert (Cg : forall s, continuous g s).
    { intros s. unfold g. apply cont_max; [|apply cont_max].
      - apply (continuous_minus rho (fun s => r (Th s))); [apply Crho|]. apply (continuous_comp Th r); [apply CTh|apply Hc].
      - apply (continuous_minus Th (fun _ => 2 * PI)); [apply CTh|apply continuous_const].
      - apply (continuous_minus (fun _ => a) Th); [apply continuous_const|apply CTh]. }
    assert (E0 : Th 0 = thp /\ rho 0 = rho0).
    { unfold Th, rho, X, Y. replace (0 * d2) with 0 by ring. unfold Rdiv. rewrite Rmult_0_l, atan_0.
      split; [ring|]. replace ((rho0 + 0 * d1) ^ 2 + 0 ^ 2) with (rho0 ^ 2) by ring. apply sqrt_pow2; lra. }
    assert (G0 : g 0 <= 0).
    { unfold g. destruct E0 as [-> ->]. apply Rmax_lub; [lra|]. apply Rmax_lub; lra. }
    assert (G1 : 0 < g 1).
    { apply Rnot_le_lt. intros Hle. apply Hout. unfold g in Hle.
      pose proof (Rmax_l (rho 1 - r (Th 1)) (Rmax (Th 1 - 2 * PI) (a - Th 1))).
      pose proof (Rmax_r (rho 1 - r (Th 1)) (Rmax (Th 1 - 2 * PI) (a - Th 1))).
      pose proof (Rmax_l (Th 1 - 2 * PI) (a - Th 1)). pose proof (Rmax_r (Th 1 - 2 * PI) (a - Th 1)).
      pose proof (Hrho 1). destruct (Hlift 1) as [Q1 Q2].
      exists (rho 1), (Th 1). split; [lra|]. split; [lra|]. rewrite <- Q1, <- Q2. f_equal; ring. }
    destruct (ivt_zero g 0 1 ltac:(lra) Cg) as (s & Hs & Z).
    { assert (0 <= - g 0 * g 1) by (apply Rmult_le_pos; lra). lra. }
    destruct (Hlift s) as [H1 H2]. pose proof (Hrho s) as Hrs.
    assert (Hcase : (rho s = r (Th s) /\ a <= Th s <= 2 * PI) \/ (rho s <= r (Th s) /\ (Th s = 2 * PI \/ Th s = a))).
    { unfold g in Z. apply max3_zero in Z. destruct Z as (Z1 & Z2 & Z3 & [Z4|[Z4|Z4]]); [left|right|right]; split; lra. }
    destruct Hcase as [[C1 C2]|[C1 [C2|C2]]].
    + exists 0%nat, s. split; [lia|]. split; [exact Hs|]. exists (Th s). split; [exact C2|]. rewrite H1, H2, C1. reflexivity.
    + exists 1%nat, s. split; [lia|]. split; [exact Hs|]. exists (rho s). rewrite C2, Er2 in C1. split; [lra|].
      rewrite H1, H2, C2, cos_2PI, sin_2PI. f_equal; ring.
    + exists 2%nat, s. split; [lia|]. split; [exact Hs|]. exists (rho s). rewrite C2, Era in C1. split; [lra|].
      rewrite H1, H2, C2. reflexivity.
Qed.

Lemma coord_dist : forall brentq r a rho th1 n th0, get_boundary_coord brentq r a rho th1 = Some (n, th0) ->
  Rabs n = dist2 (r th0 * cos th0, r th0 * sin th0) (rho * cos th1, rho * sin th1).
Proof.
  intros brentq r a rho th1 n th0 E. unfold get_boundary_coord in E.
  destruct (brentq _ _ _) as [t|]; [|discriminate]. destruct (eval_normal r t) as [n0 n1].
  match type of E with Some (?u, ?v) = _ => assert (En : u = n) by congruence; assert (Et : v = th0) by congruence end.
  subst t. clear E. unfold dist2. cbn [fst snd].
  replace ((r th0 * cos th0 - rho * cos th1) ^ 2) with ((rho * cos th1 - r th0 * cos th0) ^ 2) by ring.
  replace ((r th0 * sin th0 - rho * sin th1) ^ 2) with ((rho * sin th1 - r th0 * sin th0) ^ 2) by ring.
  rewrite <- En. match goal with |- Rabs (if ?b then _ else _) = _ => destruct b end.
  - rewrite Rabs_Ropp. apply Rabs_pos_eq, sqrt_pos.
  - apply Rabs_pos_eq, sqrt_pos.
Qed.

Lemma bcoord_coord : forall brentq r a AD_len N p x y, 0 < a < PI -> get_coord AD_len N (fst p) (snd p) = (x, y) ->
  exists rho th, node_bcoord brentq r a AD_len N p = get_boundary_coord brentq r a rho th /\
    0 <= rho /\ a / 2 <= th < 2 * PI + a / 2 /\ rho * cos th = x /\ rho * sin th = y.
Proof.
  intros brentq r a AD_len N p x y Ha E. unfold node_bcoord, ps_get_polar. rewrite E.
  destruct (ps_polar_xy a x y) as [rho th] eqn:Ep. exists rho, th. pose proof PI_RGT_0.
  destruct (ps_polar_spec a x y rho th ltac:(lra) Ep) as (Hr & Hth & Hx & Hy). auto.
Qed.

(** The distance selected by the extension type is attained on the curve. *)
Lemma curve_attained : forall brentq r R0 a AD_len N p x y, 0 < a < PI -> r a = R0 -> r (2 * PI) = R0 ->
  get_coord AD_len N (fst p) (snd p) = (x, y) ->
  let bc := node_bcoord brentq r a AD_len N p in
  exists b, on_piece r R0 a 0 b /\ get_dist R0 a bc 0 (etype_of R0 a bc 0 x y) x y = Ok (dist2 b (x, y)).
Proof.
  intros brentq r R0 a AD_len N p x y Ha Era Er2 E bc. pose proof PI_RGT_0.
  destruct (bcoord_coord brentq r a AD_len N p x y Ha E) as (rho & th & Ebc & _ & _ & Hx & Hy). fold bc in Ebc.
  assert (HR : exists b, on_piece r R0 a 0 b /\ dformula R0 0 x y = dist2 b (x, y)).
  { exists (r (2 * PI) * cos (2 * PI), r (2 * PI) * sin (2 * PI)). split; [exists (2 * PI); split; [lra|reflexivity]|].
    unfold dformula, dist2. cbn [fst snd]. rewrite cos_2PI, sin_2PI, Er2. do 2 f_equal; ring. }
  destruct bc as [[n th0]|] eqn:Eb.
  - symmetry in Ebc. apply coord_dist in Ebc. rewrite Hx, Hy in Ebc. cbn [etype_of].
    destruct (Rltb_spec (2 * PI) th0) as [H1|H1]; [|destruct (Rltb_spec th0 a) as [H2|H2]]; cbn [get_dist].
    + destruct HR as (b & Hb & Ed). exists b. rewrite Ed. auto.
    + exists (r a * cos a, r a * sin a). split; [exists a; split; [lra|reflexivity]|]. rewrite Era. reflexivity.
    + exists (r th0 * cos th0, r th0 * sin th0). split; [exists th0; split; [lra|reflexivity]|]. rewrite Ebc. reflexivity.
  - cbn [etype_of get_dist]. destruct HR as (b & Hb & Ed). exists b. rewrite Ed. auto.
Qed.

Lemma dist2_polar : forall r phi rho th x y e, rho * cos th = x -> rho * sin th = y -> 0 <= e ->
  dist2 (r phi * cos phi, r phi * sin phi) (x, y) <= e ->
  rho ^ 2 + r phi ^ 2 - 2 * rho * r phi * cos (th - phi) <= e ^ 2.
Proof.
  intros r phi rho th x y e Hx Hy He H. rewrite <- (sq_dist_polar (r phi) rho th phi x y Hx Hy).
  unfold dist2 in H. cbn [fst snd] in H.
  assert (Hnn : 0 <= (r phi * cos phi - x) ^ 2 + (r phi * sin phi - y) ^ 2) by (pose proof (pow2_ge_0 (r phi * cos phi - x)); pose proof (pow2_ge_0 (r phi * sin phi - y)); lra).
  rewrite <- (sqrt_sqrt _ Hnn). replace (e ^ 2) with (e * e) by ring. pose proof (sqrt_pos ((r phi * cos phi - x) ^ 2 + (r phi * sin phi - y) ^ 2)).
  apply Rmult_le_compat; assumption.
Qed.

(** ** Placement on a gentle curve *)

(** A curve over the angles pi/8 .. 2 pi + pi/8 that is nearly a circle of
    radius 2.3 and meets the two radii at their ends. *)
Definition gentle (r : R -> R) : Prop := exists r1 r2 : R -> R,
  (forall t, is_derive r t (r1 t)) /\ (forall t, is_derive r1 t (r2 t)) /\
  (forall t, PI / 8 <= t <= 2 * PI + PI / 8 -> 9 / 5 <= r t <= 49 / 20) /\
  (forall t, PI / 8 <= t <= 2 * PI + PI / 8 -> Rabs (r1 t) <= 2 / 7) /\
  (forall t, PI / 8 <= t <= 2 * PI + PI / 8 -> Rabs (r2 t) <= 2 / 5) /\
  r (PI / 4) = 23 / 10 /\ r (2 * PI) = 23 / 10.

Section CurvePlace.
Context (brentq : (R -> R) -> R -> R -> option R) (Hb : brentq_contract brentq)
  (r : R -> R) (Hr : gentle r) (N : Z) (HN : (16 <= N)%Z).

Let R0 := 23 / 10.
Let a := PI / 4.
Let e := 2 * PI / IZR N * sqrt 2.
Let bcoord : node -> option (R * R) := node_bcoord brentq r a (2 * PI) N.

Lemma e_small : 0 <= e <= 5555 / 10000.
Proof using HN.
  pose proof PI_num. pose proof sqrt2_num. assert (HN' : 16 <= IZR N) by (apply IZR_le; assumption).
  unfold e. assert (H2 : 0 < 2 * PI / IZR N <= 2 * PI / 16).
  { split; [apply Rdiv_lt_0_compat; lra|]. unfold Rdiv. apply Rmult_le_compat_l; [lra|]. apply Rinv_le_contravar; lra. }
  split; [apply Rmult_le_pos; lra|].
  apply Rle_trans with (2 * PI / 16 * sqrt 2); [apply Rmult_le_compat_r; lra|].
  apply Rle_trans with (2 * (31416 / 10000) / 16 * (14143 / 10000)); [|lra]. apply Rmult_le_compat; lra.
Qed.

Lemma a_range : 0 < a < PI.
Proof using. unfold a. pose proof PI_RGT_0. lra. Qed.

Lemma curve_claims : forall p x y, get_coord (2 * PI) N (fst p) (snd p) = (x, y) ->
  exists d, seg_claims R0 a (2 * PI) N bcoord 0 p = Ok (Rleb d e) /\
   (exists b, on_piece r R0 a 0 b /\ d = dist2 b (x, y)) /\
   (forall b, on_piece r R0 a 0 b -> dist2 b (x, y) <= e -> d <= dist2 b (x, y) /\ exists bc, bcoord p = Some bc).
Proof using All.
  intros p x y E. pose proof Hr as Hr'. destruct Hr' as (r1 & r2 & D1 & D2 & B0 & B1 & B2 & Ea & E2).
  destruct (curve_attained brentq r R0 a (2 * PI) N p x y a_range Ea E2 E) as (b0 & Hb0 & Ed). fold bcoord in Ed.
  exists (dist2 b0 (x, y)). unfold seg_claims. rewrite E, Ed. cbn [bind]. fold e. split; [reflexivity|].
  split; [exists b0; auto|]. intros b (phi & Hphi & ->) Hd.
  destruct (bcoord_coord brentq r a (2 * PI) N p x y a_range E) as (rho & th & Ebc & Hrho & Hth & Hx & Hy). fold bcoord in Ebc.
  pose proof e_small as He. pose proof (dist2_polar r phi rho th x y e Hx Hy (proj1 He) Hd) as Hd2.
  destruct (dist_near r r1 r2 D1 D2 B0 B1 B2 Ea E2 rho th ltac:(unfold a in Hth; lra) e phi He Hphi Hrho Hd2 brentq Hb) as (d & n & th0 & Es & Edd & Hle).
  fold a in Es, Edd. fold R0 in Edd. rewrite <- Ebc, Hx, Hy in Edd. rewrite <- Ebc in Es. rewrite Hx, Hy in Hle.
  rewrite Ed in Edd. injection Edd as ->. split; [exact Hle|]. eexists; exact Es.
Qed.

Lemma piece_claims : forall sid p x y, (sid < 3)%nat -> get_coord (2 * PI) N (fst p) (snd p) = (x, y) ->
  exists d, seg_claims R0 a (2 * PI) N bcoord sid p = Ok (Rleb d e) /\
   (exists b, on_piece r R0 a sid b /\ d = dist2 b (x, y)) /\
   (forall b, on_piece r R0 a sid b -> dist2 b (x, y) <= e -> d <= dist2 b (x, y)).
Proof using All.
  intros sid p x y Hsid E. assert (HR : 0 < R0) by (unfold R0; lra). pose proof a_range as Ha.
  destruct sid as [|[|[|sid]]]; [| | |lia].
  - destruct (curve_claims p x y E) as (d & E1 & E2 & E3). exists d. split; [exact E1|]. split; [exact E2|].
    intros b H1 H2. apply (E3 b H1 H2).
  - unfold seg_claims. rewrite E. destruct (dist_attained1 R0 a (bcoord p) x y HR) as (b0 & Hw & Ed0). rewrite Ed0. cbn [bind]. fold e.
    exists (dist2 b0 (x, y)). split; [reflexivity|]. split; [exists b0; auto|]. intros b Hbs _.
    destruct (dist_seg1 R0 a (bcoord p) x y b HR Hbs) as (d' & Ed' & _ & Hd' & _). rewrite Ed0 in Ed'. injection Ed' as <-. exact Hd'.
  - unfold seg_claims. rewrite E. destruct (dist_attained2 R0 a (bcoord p) x y HR Ha) as (b0 & Hw & Ed0). rewrite Ed0. cbn [bind]. fold e.
    exists (dist2 b0 (x, y)). split; [reflexivity|]. split; [exists b0; auto|]. intros b Hbs _.
    destruct (dist_seg2 R0 a (bcoord p) x y b HR Ha Hbs) as (d' & Ed' & _ & Hd' & _). rewrite Ed0 in Ed'. injection Ed' as <-. exact Hd'.
Qed.

(** A node is claimed exactly when the piece comes within sqrt(2) h. *)
Lemma piece_claims_iff : forall sid p x y, (sid < 3)%nat -> get_coord (2 * PI) N (fst p) (snd p) = (x, y) ->
  (seg_claims R0 a (2 * PI) N bcoord sid p = Ok true <-> exists b, on_piece r R0 a sid b /\ dist2 b (x, y) <= e).
Proof using All.
  intros sid p x y Hsid E. destruct (piece_claims sid p x y Hsid E) as (d & Ed & (b0 & Hb0 & Ed0) & Hle). rewrite Ed. split.
  - intros H. exists b0. split; [assumption|]. rewrite <- Ed0. destruct (Rleb_spec d e); [assumption|discriminate].
  - intros (b & Hbs & Hd). specialize (Hle b Hbs Hd). f_equal. destruct (Rleb_spec d e); [reflexivity|lra].
Qed.

Definition pclaims (sid : nat) (p : node) : bool :=
  match seg_claims R0 a (2 * PI) N bcoord sid p with Ok b => b | Err _ => false end.

Lemma pclaims_ok : forall sid p, (sid < 3)%nat -> seg_claims R0 a (2 * PI) N bcoord sid p = Ok (pclaims sid p).
Proof using All.
  intros sid p H. unfold pclaims. destruct (get_coord (2 * PI) N (fst p) (snd p)) as [x y] eqn:E.
  destruct (piece_claims sid p x y H E) as (d & -> & _). reflexivity.
Qed.

Lemma pclaims_iff : forall sid p x y, (sid < 3)%nat -> get_coord (2 * PI) N (fst p) (snd p) = (x, y) ->
  (pclaims sid p = true <-> exists b, on_piece r R0 a sid b /\ dist2 b (x, y) <= e).
Proof using All.
  intros sid p x y Hs E. rewrite <- (piece_claims_iff sid p x y Hs E), pclaims_ok by assumption. split; [intros ->; reflexivity|congruence].
Qed.

Lemma r_continuous : forall t, continuous r t.
Proof using Hr.
  intros t. destruct Hr as (r1 & _ & D1 & _). apply (ex_derive_continuous (V := R_NormedModule)). eexists. apply D1.
Qed.

Lemma region_ins : forall p x y, get_coord (2 * PI) N (fst p) (snd p) = (x, y) ->
  ps_is_interior r a (2 * PI) N (fst p) (snd p) = true <-> in_region r a (x, y).
Proof using Hr.
  intros p x y E. unfold ps_is_interior. rewrite E. destruct Hr as (_ & _ & _ & _ & _ & _ & _ & _ & E2).
  apply interior_region; [apply a_range|lra].
Qed.

Lemma region_near : forall order q x y, (order = 2 \/ order = 4)%Z ->
  In q (gamma_set order N (ps_is_interior r a (2 * PI) N)) -> get_coord (2 * PI) N (fst q) (snd q) = (x, y) ->
  exists sid b, (sid < 3)%nat /\ on_piece r R0 a sid b /\ dist2 b (x, y) <= e.
Proof using Hr HN.
  intros order q x y Ho Hq E. pose proof PI_RGT_0.
  apply gamma_set_in in Hq; [|assumption].
  destruct Hq as [(p1 & _ & I1 & N1) (p2 & _ & I2 & N2)].
  destruct (get_coord (2 * PI) N (fst p1) (snd p1)) as [x1 y1] eqn:E1.
  destruct (get_coord (2 * PI) N (fst p2) (snd p2)) as [x2 y2] eqn:E2.
  pose proof (region_ins _ _ _ E1) as A1. pose proof (region_ins _ _ _ E2) as A2. pose proof (region_ins _ _ _ E) as A.
  assert (Ea : r a = R0 /\ r (2 * PI) = R0) by (destruct Hr as (_ & _ & _ & _ & _ & _ & _ & U & V); split; assumption).
  assert (HR : 0 < R0) by (unfold R0; lra).
  destruct (ps_is_interior r a (2 * PI) N (fst q) (snd q)) eqn:Iq.
  - assert (D1 : in_region r a (x, y)) by (apply A; reflexivity).
    assert (D2 : ~ in_region r a (x2, y2)) by (rewrite <- A2, I2; discriminate).
    destruct (region_crossing r R0 a x y x2 y2 r_continuous HR a_range (proj1 Ea) (proj2 Ea) D1 D2) as (sid & t & Hsid & Ht & Hseg).
    exists sid, (x + t * (x2 - x), y + t * (y2 - y)). split; [assumption|]. split; [assumption|].
    assert (N2' : neighbour order q p2) by (destruct N2 as (? & ? & N3); split; [lia|split; [lia|intros O; destruct (N3 O); auto]]).
    apply (neighbour_dist (2 * PI) N ltac:(lra) ltac:(lia) order q p2 t x y x2 y2 N2' E E2 Ht).
  - assert (D1 : in_region r a (x1, y1)) by (apply A1; assumption).
    assert (D2 : ~ in_region r a (x, y)) by (rewrite <- A; discriminate).
    destruct (region_crossing r R0 a x1 y1 x y r_continuous HR a_range (proj1 Ea) (proj2 Ea) D1 D2) as (sid & t & Hsid & Ht & Hseg).
    exists sid, (x1 + t * (x - x1), y1 + t * (y - y1)). split; [assumption|]. split; [assumption|].
    apply (neighbour_dist (2 * PI) N ltac:(lra) ltac:(lia) order p1 q t x1 y1 x y N1 E1 E Ht).
Qed.

Lemma curve_place_loop : forall todo g0 g1 g2,
  (forall p, In p todo -> pclaims 0 p || pclaims 1 p || pclaims 2 p = true) ->
  place_loop R0 a (2 * PI) N bcoord todo (g0, g1, g2) =
  Ok (g0 ++ filter (pclaims 0) todo, g1 ++ filter (pclaims 1) todo, g2 ++ filter (pclaims 2) todo).
Proof using All.
  induction todo as [|p todo IH]; intros g0 g1 g2 Hc.
  - cbn. rewrite !app_nil_r. reflexivity.
  - cbn [place_loop]. rewrite !pclaims_ok by lia. cbn [bind].
    rewrite (Hc p) by (left; reflexivity).
    rewrite IH by (intros q Hq; apply Hc; right; assumption).
    rewrite !filter_step. reflexivity.
Qed.

Lemma curve_placed : forall order union_gamma, (order = 2 \/ order = 4)%Z ->
  enumerates union_gamma (gamma_set order N (ps_is_interior r a (2 * PI) N)) ->
  all_gamma R0 a (2 * PI) N bcoord union_gamma =
    Ok (filter (pclaims 0) union_gamma, filter (pclaims 1) union_gamma, filter (pclaims 2) union_gamma) /\
  (forall p, In p union_gamma -> pclaims 0 p = true \/ pclaims 1 p = true \/ pclaims 2 p = true).
Proof using All.
  intros order ug Ho [Hnd Hen].
  assert (Hc : forall p, In p ug -> pclaims 0 p = true \/ pclaims 1 p = true \/ pclaims 2 p = true).
  { intros p Hp. apply Hen in Hp. destruct (get_coord (2 * PI) N (fst p) (snd p)) as [x y] eqn:E.
    destruct (region_near order p x y Ho Hp E) as (sid & b & Hsid & Hseg & Hd).
    assert (pclaims sid p = true) by (apply (pclaims_iff sid p x y Hsid E); exists b; auto).
    destruct sid as [|[|[|sid]]]; [auto|auto|auto|lia]. }
  split; [|exact Hc]. apply curve_place_loop. intros p Hp. rewrite !orb_true_iff. specialize (Hc p Hp). tauto.
Qed.

(** No node is claimed by all three pieces. *)
Lemma not_three : forall p, pclaims 0 p && pclaims 1 p && pclaims 2 p = false.
Proof using All.
  intros p. apply not_true_iff_false. rewrite !andb_true_iff. intros [[P0 P1] P2].
  destruct (get_coord (2 * PI) N (fst p) (snd p)) as [x y] eqn:E.
  apply (pclaims_iff 0 p x y ltac:(lia) E) in P0. apply (pclaims_iff 1 p x y ltac:(lia) E) in P1. apply (pclaims_iff 2 p x y ltac:(lia) E) in P2.
  destruct P0 as (b0 & (phi & Hphi & ->) & Q0). destruct P1 as (b1 & (t1 & Ht1 & ->) & Q1). destruct P2 as (b2 & (t2 & Ht2 & ->) & Q2).
  destruct Hr as (r1 & r2 & _ & _ & B0 & _). pose proof PI_num as HPI. pose proof (B0 phi ltac:(unfold a in Hphi; lra)) as Hb0. clear B0.
  pose proof e_small as He.
  assert (Hsq : forall X Y, dist2 (X, Y) (x, y) <= e -> (X - x) ^ 2 + (Y - y) ^ 2 <= (5555 / 10000) ^ 2).
  { intros X Y H. unfold dist2 in H. cbn [fst snd] in H. pose proof (pow2_ge_0 (X - x)). pose proof (pow2_ge_0 (Y - y)).
    rewrite <- (sqrt_sqrt ((X - x) ^ 2 + (Y - y) ^ 2)) by lra. replace ((5555 / 10000) ^ 2) with (5555 / 10000 * (5555 / 10000)) by ring.
    pose proof (sqrt_pos ((X - x) ^ 2 + (Y - y) ^ 2)). apply Rmult_le_compat; lra. }
  apply Hsq in Q0. apply Hsq in Q1. apply Hsq in Q2. clear Hsq.
  set (k := sqrt 2). pose proof sqrt2_num as K1. fold k in K1.
  assert (K2 : k * k = 2) by (apply sqrt_sqrt; lra).
  assert (Ks : sin a = k / 2 /\ cos a = k / 2).
  { unfold a. rewrite sin_PI4, cos_PI4. fold k. assert (1 / k = k / 2) by (apply Rmult_eq_reg_r with (2 * k); [|lra]; transitivity 2; [field; lra|transitivity (k * k); [lra|field]]). auto. }
  destruct Ks as [Ks Kc]. rewrite Ks, Kc in Q2.
  assert (Habs : forall u v c, 0 <= c -> u ^ 2 + v ^ 2 <= c ^ 2 -> - c <= v <= c).
  { intros u v c Hc H. pose proof (pow2_ge_0 u). apply Rabs_le_between. rewrite <- (Rabs_pos_eq c) by assumption. apply Rsqr_le_abs_0. unfold Rsqr. lra. }
  assert (Y1 : - (5555 / 10000) <= y <= 5555 / 10000).
  { assert (- (5555 / 10000) <= 0 - y <= 5555 / 10000) by (apply (Habs (t1 - x)); lra). lra. }
  assert (X1 : - (5555 / 10000) <= x).
  { assert (- (5555 / 10000) <= t1 - x <= 5555 / 10000) by (apply (Habs (0 - y)); lra). lra. }
  assert (XY : - (7857 / 10000) <= x - y <= 7857 / 10000).
  { assert (G : - (5555 / 10000) <= k / 2 * (x - y) <= 5555 / 10000).
    { apply (Habs (t2 - k / 2 * (x + y))); [lra|]. eapply Rle_trans; [|exact Q2]. right.
      assert (K2' : k ^ 2 = 2) by lra. field_simplify. rewrite K2'. field. }
    split; apply Rnot_lt_le; intros Hlt; nra. }
  assert (P : 12445 / 10000 * (12445 / 10000) <= x ^ 2 + y ^ 2).
  { set (c := cos phi) in *. set (s := sin phi) in *.
    assert (S : s ^ 2 = 1 - c ^ 2) by apply sc2.
    apply Rnot_lt_le. intros Hlt.
    assert (CS : (x * c + y * s) ^ 2 <= x ^ 2 + y ^ 2).
    { pose proof (pow2_ge_0 (x * s - y * c)). replace ((x * c + y * s) ^ 2) with ((x ^ 2 + y ^ 2) * (c ^ 2 + s ^ 2) - (x * s - y * c) ^ 2) by ring.
      rewrite S. lra. }
    set (m := x * c + y * s) in *.
    assert (M : (r phi - m) ^ 2 <= (5555 / 10000) ^ 2).
    { eapply Rle_trans; [|exact Q0]. replace ((r phi * c - x) ^ 2 + (r phi * s - y) ^ 2) with (r phi ^ 2 * (c ^ 2 + s ^ 2) - 2 * r phi * m + (x ^ 2 + y ^ 2)) by (unfold m; ring).
      rewrite S. lra. }
    assert (- (5555 / 10000) <= r phi - m <= 5555 / 10000) by (apply (Habs 0); lra).
    assert (12445 / 10000 * (12445 / 10000) <= m * m) by (apply Rmult_le_compat; lra). lra. }
  assert (X2 : 111 / 100 <= x).
  { apply Rnot_lt_le. intros Hlt. assert (y ^ 2 <= (5555 / 10000) ^ 2) by (rewrite <- (pow2_abs y); apply pow_incr; split; [apply Rabs_pos|apply Rabs_le; lra]).
    assert (x ^ 2 <= (111 / 100) ^ 2) by (rewrite <- (pow2_abs x); apply pow_incr; split; [apply Rabs_pos|apply Rabs_le; lra]). lra. }
  set (c := cos phi) in *. set (s := sin phi) in *. assert (S : s ^ 2 = 1 - c ^ 2) by apply sc2.
  assert (Hexp : (r phi * c - x) ^ 2 + (r phi * s - y) ^ 2 = r phi ^ 2 - 2 * r phi * (x * c + y * s) + (x ^ 2 + y ^ 2)).
  { ring [S]. }
  assert (Hfin : forall A B, 0 <= A -> A ^ 2 + B ^ 2 <= (5555 / 10000) ^ 2 -> 1 <= A + B -> False).
  { intros A B HA H1 H2. pose proof (pow2_ge_0 (A - B)). assert (1 * 1 <= (A + B) * (A + B)) by (apply Rmult_le_compat; lra). lra. }
  assert (Hdir : s <= 0 \/ c <= s).
  { destruct (Rle_lt_dec PI phi) as [L|L].
    - left. assert (0 <= sin (phi - PI)) by (apply sin_ge_0; unfold a in Hphi; lra). rewrite sin_minus, cos_PI, sin_PI in H. fold s c in H. lra.
    - right. assert (0 <= sin (phi - a)) by (apply sin_ge_0; unfold a in *; lra). rewrite sin_minus, Ks, Kc in H. fold s c in H.
      apply Rnot_lt_le. intros Hlt. assert (0 < (c - s) * (k / 2)) by (apply Rmult_lt_0_compat; lra). lra. }
  assert (Cb : -1 <= c <= 1) by apply COS_bound.
  destruct Hdir as [D|D].
  - assert (x * c + y * s <= x).
    { assert (0 <= y * - s) by (apply Rmult_le_pos; lra). assert (0 <= x * (1 - c)) by (apply Rmult_le_pos; lra). lra. }
    apply (Hfin (r phi - x) y); [lra| |lra]. rewrite Hexp in Q0.
    assert (r phi * (x * c + y * s) <= r phi * x) by (apply Rmult_le_compat_l; lra). lra.
  - set (u := (x + y) * (k / 2)). set (v := (x - y) * (k / 2)).
    assert (Huv : x * c + y * s <= u).
    { assert (W : (c + s) * (k / 2) <= 1).
      { assert (((c + s) * (k / 2)) ^ 2 <= 1 ^ 2).
        { replace (((c + s) * (k / 2)) ^ 2) with ((c ^ 2 + s ^ 2 + 2 * c * s) * (k * k) / 4) by field. rewrite K2, S.
          pose proof (pow2_ge_0 (c - s)). assert (2 * c * s <= 1) by lra. lra. }
        pose proof (Habs 0 ((c + s) * (k / 2)) 1 ltac:(lra) ltac:(lra)). lra. }
      assert (E1 : x * c + y * s = (x + y) * (c + s) * (k * k) / 4 - (x - y) * (s - c) / 2) by (rewrite K2; field).
      rewrite E1. assert (0 <= (x - y) * (s - c)) by (apply Rmult_le_pos; lra).
      assert ((x + y) * (k / 2) * ((c + s) * (k / 2)) <= (x + y) * (k / 2) * 1).
      { apply Rmult_le_compat_l; [|exact W]. apply Rmult_le_pos; lra. }
      unfold u. lra. }
    assert (Hn : x ^ 2 + y ^ 2 = u ^ 2 + v ^ 2).
    { unfold u, v. replace (((x + y) * (k / 2)) ^ 2 + ((x - y) * (k / 2)) ^ 2) with ((x ^ 2 + y ^ 2) * (k * k) / 2) by field. rewrite K2. field. }
    assert (U1 : u - v <= 7857 / 10000).
    { unfold u, v. replace ((x + y) * (k / 2) - (x - y) * (k / 2)) with (y * k) by field. nra. }
    assert (V1 : v <= 5557 / 10000) by (unfold v; nra).
    apply (Hfin (r phi - u) v); [lra| |lra]. rewrite Hexp, Hn in Q0.
    assert (r phi * (x * c + y * s) <= r phi * u) by (apply Rmult_le_compat_l; lra). lra.
Qed.
End CurvePlace.
