(** Polar coordinates, segments, radius geometry. *)
From Coq Require Import ZArith List Bool Reals Lia Lra.
From Coquelicot Require Import Coquelicot.
From Verif Require Import Model_Py Model_Multivalue Model_Grid Model_Domain.
Import ListNotations.
Open Scope R_scope.

Lemma Rltb_spec : forall x y, reflect (x < y) (Rltb x y).
Proof. intros x y. unfold Rltb. destruct (Rlt_dec x y); constructor; assumption. Qed.

Lemma Rleb_spec : forall x y, reflect (x <= y) (Rleb x y).
Proof. intros x y. unfold Rleb. destruct (Rle_dec x y); constructor; assumption. Qed.

Lemma Reqb_spec : forall x y, reflect (x = y) (Reqb x y).
Proof. intros x y. unfold Reqb. destruct (Req_EM_T x y); constructor; assumption. Qed.

Lemma hypot_pos : forall x y, 0 <= hypot x y.
Proof. intros. apply sqrt_pos. Qed.

Lemma hypot_sq : forall x y, hypot x y ^ 2 = x ^ 2 + y ^ 2.
Proof.
  intros x y. unfold hypot. rewrite <- Rsqr_pow2, Rsqr_sqrt; [ring|].
  pose proof (pow2_ge_0 x). pose proof (pow2_ge_0 y). lra.
Qed.

Lemma hypot_gt0 : forall x y, (x <> 0 \/ y <> 0) -> 0 < hypot x y.
Proof.
  intros x y H. apply sqrt_lt_R0. pose proof (pow2_ge_0 x). pose proof (pow2_ge_0 y).
  destruct H as [H|H]; [pose proof (pow2_gt_0 x H)|pose proof (pow2_gt_0 y H)]; lra.
Qed.

(** Square root of 1 + (y/x)^2. *)
Lemma sqrt_ratio : forall x y, x <> 0 -> sqrt (1 + (y / x)²) = hypot x y / Rabs x.
Proof.
  intros x y Hx. unfold hypot.
  replace (1 + (y / x)²) with ((x ^ 2 + y ^ 2) / x ^ 2) by (unfold Rsqr; field; assumption).
  rewrite sqrt_div_alt by (apply pow2_gt_0; assumption).
  f_equal. rewrite <- Rsqr_pow2. apply sqrt_Rsqr_abs.
Qed.

Lemma cos_atan_ratio : forall x y, x <> 0 -> hypot x y * cos (atan (y / x)) = Rabs x.
Proof.
  intros x y Hx. rewrite cos_atan, sqrt_ratio by assumption.
  pose proof (hypot_gt0 x y (or_introl Hx)). pose proof (Rabs_pos_lt x Hx). field. lra.
Qed.

Lemma sin_atan_ratio : forall x y, x <> 0 -> hypot x y * sin (atan (y / x)) = Rabs x * (y / x).
Proof.
  intros x y Hx. rewrite sin_atan, sqrt_ratio by assumption.
  pose proof (hypot_gt0 x y (or_introl Hx)). pose proof (Rabs_pos_lt x Hx). field. lra.
Qed.

Lemma hypot_0_l : forall y, hypot 0 y = Rabs y.
Proof.
  intros y. unfold hypot. replace (0 ^ 2 + y ^ 2) with (Rsqr y) by (unfold Rsqr; ring). apply sqrt_Rsqr_abs.
Qed.

Lemma atan2_spec : forall x y,
  hypot x y * cos (atan2 y x) = x /\ hypot x y * sin (atan2 y x) = y /\ - PI < atan2 y x <= PI.
Proof.
  intros x y. unfold atan2. pose proof PI_RGT_0 as HPI.
  destruct (Rltb_spec 0 x) as [Hx|Hx].
  - pose proof (atan_bound (y / x)).
    rewrite cos_atan_ratio, sin_atan_ratio by lra. rewrite Rabs_pos_eq by lra.
    repeat split; try lra. field. lra.
  - destruct (Rltb_spec x 0) as [Hx'|Hx'].
    + pose proof (atan_bound (y / x)) as B.
      destruct (Rleb_spec 0 y) as [Hy|Hy].
      * rewrite neg_cos, neg_sin.
        replace (hypot x y * - cos (atan (y / x))) with (- (hypot x y * cos (atan (y / x)))) by ring.
        replace (hypot x y * - sin (atan (y / x))) with (- (hypot x y * sin (atan (y / x)))) by ring.
        rewrite cos_atan_ratio, sin_atan_ratio by lra. rewrite Rabs_left by lra.
        split; [ring|]. split; [field; lra|]. split; [lra|].
        assert (Hle : y / x <= 0).
        { apply Rmult_le_reg_r with (- x); [lra|]. replace (y / x * - x) with (- y) by (field; lra). lra. }
        assert (atan (y / x) <= 0); [|lra].
        destruct Hle as [Hlt|E].
        -- apply Rlt_le. rewrite <- atan_0. apply atan_increasing. assumption.
        -- rewrite E, atan_0. lra.
      * replace (cos (atan (y / x) - PI)) with (- cos (atan (y / x)))
          by (rewrite cos_minus, cos_PI, sin_PI; ring).
        replace (sin (atan (y / x) - PI)) with (- sin (atan (y / x)))
          by (rewrite sin_minus, cos_PI, sin_PI; ring).
        replace (hypot x y * - cos (atan (y / x))) with (- (hypot x y * cos (atan (y / x)))) by ring.
        replace (hypot x y * - sin (atan (y / x))) with (- (hypot x y * sin (atan (y / x)))) by ring.
        rewrite cos_atan_ratio, sin_atan_ratio by lra. rewrite Rabs_left by lra.
        split; [ring|]. split; [field; lra|]. split; [|lra].
        assert (Hlt : 0 < y / x).
        { apply Rmult_lt_reg_r with (- x); [lra|]. replace (y / x * - x) with (- y) by (field; lra). lra. }
        assert (0 < atan (y / x)); [|lra]. rewrite <- atan_0. apply atan_increasing. assumption.
    + assert (x = 0) by lra. subst x. rewrite hypot_0_l.
      destruct (Rltb_spec 0 y) as [Hy|Hy].
      * rewrite cos_PI2, sin_PI2, Rabs_pos_eq by lra. repeat split; lra.
      * destruct (Rltb_spec y 0) as [Hy'|Hy'].
        -- rewrite cos_neg, sin_neg, cos_PI2, sin_PI2, Rabs_left by lra. repeat split; lra.
        -- assert (y = 0) by lra. subst y. rewrite Rabs_R0, sin_0, cos_0. repeat split; lra.
Qed.

Lemma cart_to_polar_spec : forall x y r th, cart_to_polar x y = (r, th) ->
  0 <= r /\ 0 < th <= 2 * PI /\ r * cos th = x /\ r * sin th = y.
Proof.
  intros x y r th H. unfold cart_to_polar in H.
  destruct (atan2_spec x y) as (Hc & Hs & Hb). pose proof PI_RGT_0.
  injection H as <- <-. split; [apply hypot_pos|].
  destruct (Rleb_spec (atan2 y x) 0) as [Hle|Hgt].
  - rewrite <- (Rmult_1_l (2 * PI)). replace (1 * (2 * PI)) with (2 * INR 1 * PI) by (simpl; ring).
    rewrite cos_period, sin_period. simpl INR. repeat split; try lra; assumption.
  - repeat split; try lra; assumption.
Qed.

Lemma cos_2PI_shift : forall x, cos (x + 2 * PI) = cos x.
Proof. intros x. replace (x + 2 * PI) with (x + 2 * INR 1 * PI) by (simpl; ring). apply cos_period. Qed.
Lemma sin_2PI_shift : forall x, sin (x + 2 * PI) = sin x.
Proof. intros x. replace (x + 2 * PI) with (x + 2 * INR 1 * PI) by (simpl; ring). apply sin_period. Qed.

Lemma ps_polar_spec : forall a x y r th, 0 < a < 2 * PI -> ps_polar_xy a x y = (r, th) ->
  0 <= r /\ a / 2 <= th < 2 * PI + a / 2 /\ r * cos th = x /\ r * sin th = y.
Proof.
  intros a x y r th Ha H. unfold ps_polar_xy in H.
  destruct (cart_to_polar x y) as [r' th'] eqn:E.
  destruct (cart_to_polar_spec _ _ _ _ E) as (Hr & Hth & Hc & Hs).
  injection H as <- <-. split; [assumption|].
  destruct (Rltb_spec th' (a / 2)) as [Hlt|Hge].
  - rewrite cos_2PI_shift, sin_2PI_shift. repeat split; try lra; assumption.
  - repeat split; try lra; assumption.
Qed.

(** Angles with the same sine and cosine in a window of length 2 pi agree. *)
Lemma sin_zero_window : forall d, - (2 * PI) < d < 2 * PI -> sin d = 0 -> cos d = 1 -> d = 0.
Proof.
  intros d Hd Hs Hc. pose proof PI_RGT_0.
  destruct (Rtotal_order d 0) as [H1|[H1|H1]]; [|assumption|].
  - exfalso. assert (Hd' : - d = PI).
    { destruct (Rtotal_order (- d) PI) as [H2|[H2|H2]]; [|assumption|].
      - assert (0 < sin (- d)) by (apply sin_gt_0; lra). rewrite sin_neg in *. lra.
      - assert (sin (- d) < 0) by (apply sin_lt_0; lra). rewrite sin_neg in *. lra. }
    rewrite <- cos_neg, Hd', cos_PI in Hc. lra.
  - exfalso. assert (Hd' : d = PI).
    { destruct (Rtotal_order d PI) as [H2|[H2|H2]]; [|assumption|].
      - assert (0 < sin d) by (apply sin_gt_0; lra). lra.
      - assert (sin d < 0) by (apply sin_lt_0; lra). lra. }
    rewrite Hd', cos_PI in Hc. lra.
Qed.

Lemma polar_unique : forall lo r th th', 0 < r -> lo <= th < lo + 2 * PI -> lo <= th' < lo + 2 * PI ->
  r * cos th = r * cos th' -> r * sin th = r * sin th' -> th = th'.
Proof.
  intros lo r th th' Hr H1 H2 Hc Hs.
  apply Rmult_eq_reg_l in Hc; [|lra]. apply Rmult_eq_reg_l in Hs; [|lra].
  assert (E : th - th' = 0); [|lra].
  apply sin_zero_window; [lra| |].
  - rewrite sin_minus, Hc, Hs. ring.
  - rewrite cos_minus, Hc, Hs. pose proof (sin2_cos2 th') as P. unfold Rsqr in P. lra.
Qed.

Lemma ps_polar_of_polar : forall a r th, 0 < a < 2 * PI -> 0 < r -> a / 2 <= th < 2 * PI + a / 2 ->
  ps_polar_xy a (r * cos th) (r * sin th) = (r, th).
Proof.
  intros a r th Ha Hr Hth.
  destruct (ps_polar_xy a (r * cos th) (r * sin th)) as [r' th'] eqn:E.
  destruct (ps_polar_spec _ _ _ _ _ Ha E) as (Hr' & Hth' & Hc & Hs).
  assert (Er : r' = r).
  { assert (S : r' ^ 2 = r ^ 2).
    { pose proof (sin2_cos2 th) as P. pose proof (sin2_cos2 th') as P'. unfold Rsqr in *.
      replace (r' ^ 2) with ((r' * cos th') ^ 2 + (r' * sin th') ^ 2)
        by (rewrite <- (Rmult_1_r (r' ^ 2)), <- P'; ring).
      rewrite Hc, Hs. rewrite <- (Rmult_1_r (r ^ 2)), <- P. ring. }
    apply Rsqr_inj; try lra. rewrite !Rsqr_pow2. assumption. }
  subst r'. f_equal. apply (polar_unique (a / 2) r); try assumption; try lra.
Qed.

(** ** The parametrisation of the boundary *)

Definition polar_point (p : R * R) : R * R := (fst p * cos (snd p), fst p * sin (snd p)).

Lemma cos_PI_plus : forall x, cos (PI + x) = - cos x.
Proof. intros. rewrite cos_plus, cos_PI, sin_PI. ring. Qed.
Lemma sin_PI_plus : forall x, sin (PI + x) = - sin x.
Proof. intros. rewrite sin_plus, cos_PI, sin_PI. ring. Qed.

Lemma arg_to_polar_same : forall eval_r a arg sid,
  option_map polar_point (arg_to_polar_abs eval_r a arg sid) =
  option_map polar_point (arg_to_polar eval_r a arg sid).
Proof.
  intros eval_r a arg sid. destruct sid as [|[|[|sid]]]; try reflexivity.
  - cbn [arg_to_polar_abs arg_to_polar option_map]. destruct (Rleb_spec 0 arg); [reflexivity|].
    unfold polar_point. cbn [fst snd]. rewrite cos_2PI, sin_2PI, cos_PI, sin_PI.
    do 2 f_equal; ring.
  - cbn [arg_to_polar_abs arg_to_polar option_map]. destruct (Rleb_spec 0 arg); [reflexivity|].
    unfold polar_point. cbn [fst snd]. rewrite cos_PI_plus, sin_PI_plus.
    do 2 f_equal; ring.
Qed.

Lemma arg_to_polar_abs_nonneg : forall eval_r a arg sid r th, (1 <= sid)%nat ->
  arg_to_polar_abs eval_r a arg sid = Some (r, th) -> 0 <= r /\ r = Rabs arg.
Proof.
  intros eval_r a arg sid r th Hs H. destruct sid as [|[|[|sid]]]; [lia| | |discriminate];
  cbn [arg_to_polar_abs] in H; destruct (Rleb_spec 0 arg) as [Hp|Hn]; injection H as <- <-.
  - rewrite Rabs_pos_eq; lra.
  - rewrite Rabs_left; lra.
  - rewrite Rabs_pos_eq; lra.
  - rewrite Rabs_left; lra.
Qed.

Lemma arg_to_polar_point : forall eval_r a arg,
  option_map polar_point (arg_to_polar eval_r a arg 0) = Some (eval_r arg * cos arg, eval_r arg * sin arg) /\
  option_map polar_point (arg_to_polar eval_r a arg 1) = Some (arg, 0) /\
  option_map polar_point (arg_to_polar eval_r a arg 2) = Some (arg * cos a, arg * sin a).
Proof.
  intros. cbn. unfold polar_point. cbn [fst snd]. rewrite cos_2PI, sin_2PI.
  repeat split; do 2 f_equal; ring.
Qed.

Lemma wrap_func_spec : forall a arg sid arg' sid', wrap_func a arg sid = (arg', sid') ->
  ((sid = 1 \/ sid = 2)%nat -> 0 <= arg' /\ arg' = Rabs arg /\
     sid' = (if Rltb arg 0 then 3 - sid else sid)%nat) /\
  (sid = 0%nat -> sid' = 0%nat /\ (arg' = arg \/ arg' = arg + 2 * PI) /\
     (a / 2 - 2 * PI <= arg < 2 * PI + a / 2 -> a / 2 <= arg' < 2 * PI + a / 2)).
Proof.
  intros a arg sid arg' sid' H. unfold wrap_func in H. split.
  - intros [-> | ->]; cbn [Nat.eqb andb] in H; destruct (Rltb_spec arg 0) as [Hn|Hp];
      injection H as <- <-; try (rewrite Rabs_left by lra); try (rewrite Rabs_pos_eq by lra);
      repeat split; lra.
  - intros ->. cbn [Nat.eqb andb] in H. pose proof PI_RGT_0.
    destruct (Rltb_spec arg (a / 2)); injection H as <- <-; repeat split; auto; lra.
Qed.

(** ** get_sid *)

Lemma sid_tol_pos : 0 < sid_tol.
Proof. unfold sid_tol. apply Rinv_0_lt_compat. apply pow_lt. lra. Qed.

Lemma get_sid_spec : forall a th, a < 2 * PI ->
  get_sid a th =
  if Rleb (2 * PI) th then Some 1%nat else if Rltb a th then Some 0%nat
  else if Rltb (a - sid_tol) th then Some 2%nat else None.
Proof.
  intros a th Ha. unfold get_sid.
  destruct (Rleb_spec (2 * PI) th); [reflexivity|]. destruct (Rltb_spec a th); [reflexivity|].
  destruct (Rltb_spec (Rabs (th - a)) sid_tol) as [H|H];
  destruct (Rltb_spec (a - sid_tol) th) as [H'|H']; try reflexivity.
  - apply Rabs_def2 in H. lra.
  - exfalso. apply H. apply Rabs_def1; pose proof sid_tol_pos; lra.
Qed.

Lemma get_sid_segments : forall a, 0 < a < 2 * PI ->
  (forall th, a < th < 2 * PI -> get_sid a th = Some 0%nat) /\
  get_sid a (2 * PI) = Some 1%nat /\ get_sid a a = Some 2%nat.
Proof.
  intros a Ha. pose proof sid_tol_pos. repeat split.
  - intros th Hth. rewrite get_sid_spec by lra. destruct (Rleb_spec (2 * PI) th); [lra|].
    destruct (Rltb_spec a th); [reflexivity|lra].
  - rewrite get_sid_spec by lra. destruct (Rleb_spec (2 * PI) (2 * PI)); [reflexivity|lra].
  - rewrite get_sid_spec by lra. destruct (Rleb_spec (2 * PI) a); [lra|].
    destruct (Rltb_spec a a); [lra|]. destruct (Rltb_spec (a - sid_tol) a); [reflexivity|lra].
Qed.

Lemma cart_to_polar_of_polar : forall r th, 0 < r -> 0 < th <= 2 * PI ->
  cart_to_polar (r * cos th) (r * sin th) = (r, th).
Proof.
  intros r th Hr Hth.
  destruct (cart_to_polar (r * cos th) (r * sin th)) as [r' th'] eqn:E.
  destruct (cart_to_polar_spec _ _ _ _ E) as (Hr' & Hth' & Hc & Hs).
  assert (Er : r' = r).
  { assert (S : r' ^ 2 = r ^ 2).
    { pose proof (sin2_cos2 th) as P. pose proof (sin2_cos2 th') as P'. unfold Rsqr in *.
      replace (r' ^ 2) with ((r' * cos th') ^ 2 + (r' * sin th') ^ 2)
        by (rewrite <- (Rmult_1_r (r' ^ 2)), <- P'; ring).
      rewrite Hc, Hs. rewrite <- (Rmult_1_r (r ^ 2)), <- P. ring. }
    apply Rsqr_inj; try lra. rewrite !Rsqr_pow2. assumption. }
  subst r'. f_equal.
  assert (Hx : r * cos (- th') = r * cos (- th)) by (rewrite !cos_neg; assumption).
  assert (Hy : r * sin (- th') = r * sin (- th)) by (rewrite !sin_neg; lra).
  assert (- th' = - th); [|lra].
  apply (polar_unique (- (2 * PI)) r); try assumption; lra.
Qed.

(** The point of segment [sid] with parameter [arg] in the segment's interior
    is classified as [sid], through Cartesian coordinates. *)
Lemma get_sid_of_point : forall eval_r a sid arg x y, 0 < a < 2 * PI ->
  (sid = 0%nat -> a < arg < 2 * PI /\ 0 < eval_r arg) -> (sid <> 0%nat -> 0 < arg) ->
  option_map polar_point (arg_to_polar eval_r a arg sid) = Some (x, y) ->
  get_sid a (snd (cart_to_polar x y)) = Some sid.
Proof.
  intros eval_r a sid arg x y Ha H0 H1 H. pose proof PI_RGT_0.
  destruct (get_sid_segments a Ha) as (S0 & S1 & S2).
  destruct sid as [|[|[|sid]]]; cbn [arg_to_polar option_map] in H; [| | |discriminate];
  injection H as <- <-; cbn [fst snd].
  - destruct (H0 eq_refl). rewrite cart_to_polar_of_polar by lra. apply S0. assumption.
  - rewrite cart_to_polar_of_polar; [apply S1|apply H1; discriminate|lra].
  - rewrite cart_to_polar_of_polar; [apply S2|apply H1; discriminate|lra].
Qed.

Lemma get_sid_partial_gap : forall a th, 0 < th <= a - sid_tol -> a < 2 * PI -> get_sid a th = None.
Proof.
  intros a th Hth Ha. rewrite get_sid_spec by assumption. pose proof sid_tol_pos.
  destruct (Rleb_spec (2 * PI) th); [lra|]. destruct (Rltb_spec a th); [lra|].
  destruct (Rltb_spec (a - sid_tol) th); [lra|reflexivity].
Qed.

Lemma get_sid_total_refuted : exists a th, 0 < a < 2 * PI /\ 0 < th <= 2 * PI /\ get_sid a th = None.
Proof.
  exists (PI / 4), (PI / 8). pose proof PI_RGT_0. pose proof PI2_3_2.
  repeat split; try lra. apply get_sid_partial_gap; [|lra].
  assert (sid_tol <= / 10); [|lra]. unfold sid_tol. apply Rinv_le_contravar; [lra|].
  replace (10 ^ 12) with (10 * 10 ^ 11) by (simpl; ring).
  assert (1 <= 10 ^ 11) by (apply pow_R1_Rle; lra). lra.
Qed.

(** A sample slightly past the inner end of segment 1 (as used by the
    Chebyshev fit, whose nodes overshoot the segment) is not classified as 1. *)
Lemma get_sid_overshoot : forall eval_r a arg r th, 0 < a < PI -> arg < 0 ->
  arg_to_polar_abs eval_r a arg 1 = Some (r, th) -> get_sid a th = Some 0%nat.
Proof.
  intros eval_r a arg r th Ha Harg H. cbn [arg_to_polar_abs] in H.
  destruct (Rleb_spec 0 arg); [lra|]. injection H as <- <-.
  destruct (get_sid_segments a ltac:(lra)) as (S0 & _). apply S0. lra.
Qed.

(** ** Radius geometry *)

Lemma get_radius_point_eq : forall a x y, 0 < a < PI ->
  get_radius_point a x y =
  ((x * cos a + y * sin a) * cos a, (x * cos a + y * sin a) * sin a).
Proof.
  intros a x y Ha. unfold get_radius_point. destruct (Reqb_spec a (PI / 2)) as [->|Hne].
  - rewrite cos_PI2, sin_PI2. f_equal; ring.
  - assert (Hs : sin a <> 0) by (apply Rgt_not_eq, sin_gt_0; lra).
    assert (Hc : cos a <> 0).
    { intros Hc. destruct (Rtotal_order a (PI / 2)) as [H|[H|H]]; [|lra|].
      - assert (0 < cos a) by (apply cos_gt_0; lra). lra.
      - assert (cos a < 0) by (apply cos_lt_0; lra). lra. }
    assert (P : sin a ^ 2 + cos a ^ 2 = 1) by (rewrite <- !Rsqr_pow2; apply sin2_cos2).
    assert (X : (x / tan a + y) / (tan a + 1 / tan a) = (x * cos a + y * sin a) * cos a).
    { unfold tan.
      replace (sin a / cos a + 1 / (sin a / cos a)) with ((sin a ^ 2 + cos a ^ 2) / (sin a * cos a))
        by (field; auto).
      rewrite P. field. auto. }
    rewrite X. f_equal. unfold tan. field. assumption.
Qed.

Lemma dist_to_radius_eq : forall a x y, 0 < a < PI ->
  dist_to_radius a x y = Rabs (x * sin a - y * cos a).
Proof.
  intros a x y Ha. unfold dist_to_radius. rewrite get_radius_point_eq by assumption.
  assert (P : sin a ^ 2 + cos a ^ 2 = 1) by (rewrite <- !Rsqr_pow2; apply sin2_cos2).
  rewrite <- sqrt_Rsqr_abs. f_equal. unfold Rsqr.
  assert (P' : sin a ^ 2 = 1 - cos a ^ 2) by lra.
  ring [P'].
Qed.

Lemma signed_dist_eq : forall a x y, 0 < a < PI ->
  signed_dist_to_radius a x y = x * sin a - y * cos a.
Proof.
  intros a x y Ha. unfold signed_dist_to_radius. rewrite dist_to_radius_eq, get_radius_point_eq by assumption.
  assert (Hs : 0 < sin a) by (apply sin_gt_0; lra).
  assert (P : sin a ^ 2 + cos a ^ 2 = 1) by (rewrite <- !Rsqr_pow2; apply sin2_cos2).
  assert (E : x - (x * cos a + y * sin a) * cos a = sin a * (x * sin a - y * cos a)).
  { assert (P' : sin a ^ 2 = 1 - cos a ^ 2) by lra. ring [P']. }
  set (d := x * sin a - y * cos a) in *.
  destruct (Rltb_spec x ((x * cos a + y * sin a) * cos a)) as [H|H].
  - assert (Hd : d < 0).
    { apply Rnot_le_lt. intros Hd. assert (0 <= sin a * d) by (apply Rmult_le_pos; lra). lra. }
    rewrite Rabs_left by assumption. ring.
  - assert (Hd : 0 <= d).
    { apply Rnot_lt_le. intros Hd. assert (0 < sin a * - d) by (apply Rmult_lt_0_compat; lra). lra. }
    apply Rabs_pos_eq. assumption.
Qed.

(** The radius point is on the line and is its closest point. *)
Lemma radius_point_closest : forall a x y x1 y1, 0 < a < PI -> get_radius_point a x y = (x1, y1) ->
  (exists t, x1 = t * cos a /\ y1 = t * sin a) /\
  (forall t, (x1 - x) ^ 2 + (y1 - y) ^ 2 <= (t * cos a - x) ^ 2 + (t * sin a - y) ^ 2) /\
  (x1 - x) * cos a + (y1 - y) * sin a = 0.
Proof.
  intros a x y x1 y1 Ha H. rewrite get_radius_point_eq in H by assumption. injection H as <- <-.
  assert (P : sin a ^ 2 + cos a ^ 2 = 1) by (rewrite <- !Rsqr_pow2; apply sin2_cos2).
  assert (P' : sin a ^ 2 = 1 - cos a ^ 2) by lra.
  split; [eexists; split; reflexivity|]. split.
  - intros t. set (u := x * cos a + y * sin a).
    assert (E : (t * cos a - x) ^ 2 + (t * sin a - y) ^ 2 -
      ((u * cos a - x) ^ 2 + (u * sin a - y) ^ 2) = (t - u) ^ 2) by (unfold u; ring [P']).
    pose proof (pow2_ge_0 (t - u)). lra.
  - ring [P'].
Qed.
