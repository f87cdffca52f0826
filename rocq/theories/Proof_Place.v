(** Attribution of the discrete boundary to the three segments (C09, C10). *)
From Coq Require Import ZArith List Bool Reals Lia Lra.
From Coquelicot Require Import Coquelicot.
From Verif Require Import Model_Py Model_Multivalue Model_Grid Model_Domain
  Spec_Grid Spec_Domain Proof_Grid Proof_Grid2 Proof_Domain Proof_Boundary.
Import ListNotations.
Open Scope R_scope.

(** ** A root finder meeting the contract: the least zero in the interval. *)

Definition min_zero (f : R -> R) (lo hi : R) : option R :=
  if Rlt_dec 0 (f lo * f hi) then None
  else Some (real (Glb_Rbar (fun x => lo <= x <= hi /\ f x = 0))).

Lemma ivt_zero : forall f lo hi, lo <= hi -> (forall x, continuous f x) ->
  f lo * f hi <= 0 -> exists x, lo <= x <= hi /\ f x = 0.
Proof.
  intros f lo hi Hle Hc Hp.
  assert (Hcont : Ranalysis1.continuity f).
  { intros x. apply continuity_pt_filterlim. apply Hc. }
  destruct (IVT_gen f lo hi 0 Hcont) as (x & Hx & E).
  - unfold Rmin, Rmax. destruct (Rle_dec (f lo) (f hi)) as [H|H].
    + split; apply Rnot_lt_le; intros Hlt.
      * assert (0 < f lo * f hi) by (apply Rmult_lt_0_compat; lra). lra.
      * assert (0 < (- f lo) * (- f hi)) by (apply Rmult_lt_0_compat; lra). lra.
    + split; apply Rnot_lt_le; intros Hlt.
      * assert (0 < f lo * f hi) by (apply Rmult_lt_0_compat; lra). lra.
      * assert (0 < (- f lo) * (- f hi)) by (apply Rmult_lt_0_compat; lra). lra.
  - exists x. rewrite Rmin_left, Rmax_right in Hx by assumption. auto.
Qed.

Lemma min_zero_contract : brentq_contract min_zero.
Proof.
  intros f lo hi Hle Hc. unfold min_zero. split; intros Hp.
  - destruct (Rlt_dec 0 (f lo * f hi)); [reflexivity|lra].
  - destruct (Rlt_dec 0 (f lo * f hi)) as [H|_]; [lra|].
    destruct (ivt_zero f lo hi Hle Hc Hp) as (x0 & Hx0 & E0).
    set (P := fun x => lo <= x <= hi /\ f x = 0).
    destruct (Glb_Rbar_correct P) as [Hlb Hgr].
    assert (HB : exists z, Glb_Rbar P = Finite z).
    { assert (H1 : Rbar_le (Glb_Rbar P) x0) by (apply Hlb; split; assumption).
      assert (H2 : Rbar_le lo (Glb_Rbar P)) by (apply Hgr; intros x [Hx _]; apply Hx).
      destruct (Glb_Rbar P) as [z| |]; [eauto|contradiction|contradiction]. }
    destruct HB as [z Ez]. exists z. split; [f_equal; change (real (Glb_Rbar P) = z); rewrite Ez; reflexivity|].
    rewrite Ez in Hlb, Hgr.
    assert (Hz : lo <= z <= hi).
    { split; [apply (Hgr (Finite lo)); intros x [Hx _]; apply Hx|].
      apply Rle_trans with x0; [apply (Hlb x0); split; assumption|lra]. }
    split; [exact Hz|].
    destruct (Req_dec (f z) 0) as [|Hn]; [assumption|exfalso].
    assert (He : 0 < Rabs (f z)) by (apply Rabs_pos_lt; assumption).
    pose proof (Hc z) as Cz.
    specialize (Cz (ball (f z) (mkposreal _ He)) (locally_ball _ _)). destruct Cz as [d Hd].
    assert (Hl : is_lb_Rbar P (Finite (z + d))).
    { intros x [Hx E]. apply Rnot_lt_le. intros Hlt.
      assert (Hzx : z <= x) by (apply (Hlb x); split; assumption).
      assert (Hb : ball z d x).
      { unfold ball; simpl; unfold AbsRing_ball, abs, minus, plus, opp; simpl. apply Rabs_def1; lra. }
      apply Hd in Hb. unfold ball in Hb; simpl in Hb; unfold AbsRing_ball, abs, minus, plus, opp in Hb; simpl in Hb.
      rewrite E, Rplus_0_l, Rabs_Ropp in Hb. lra. }
    pose proof (Hgr _ Hl) as Hcontra. simpl in Hcontra. pose proof (cond_pos d). lra.
Qed.

(** ** The point test on the arc domain in Cartesian form *)

Lemma polar_zero : forall a, 0 < a < 2 * PI -> ps_polar_xy a 0 0 = (0, 2 * PI).
Proof.
  intros a Ha. unfold ps_polar_xy, cart_to_polar.
  assert (E : atan2 0 0 = 0).
  { unfold atan2. destruct (Rltb_spec 0 0); [lra|reflexivity]. }
  rewrite E. destruct (Rleb_spec 0 0); [|lra].
  rewrite hypot_0_l, Rabs_R0. destruct (Rltb_spec (0 + 2 * PI) (a / 2)); [lra|].
  f_equal. ring.
Qed.

Lemma G_polar : forall a r th x y, r * cos th = x -> r * sin th = y ->
  x * sin a - y * cos a = r * sin (a - th).
Proof. intros a r th x y <- <-. rewrite sin_minus. ring. Qed.

Lemma wedge_iff : forall a x y r th, 0 < a < PI -> ps_polar_xy a x y = (r, th) ->
  (a <= th <= 2 * PI <-> ~ (0 < y /\ y * cos a < x * sin a)).
Proof.
  intros a x y r th Ha E. pose proof PI_RGT_0.
  destruct (ps_polar_spec a x y r th ltac:(lra) E) as (Hr & Hth & Hx & Hy).
  pose proof (G_polar a r th x y Hx Hy) as HG.
  destruct (Rle_lt_or_eq_dec 0 r Hr) as [Hp|E0].
  - assert (Ey : 0 < y <-> 0 < sin th).
    { rewrite <- Hy. split; intros Hs; [|apply Rmult_lt_0_compat; assumption].
      apply Rnot_le_lt. intros Hle. assert (r * sin th <= r * 0) by (apply Rmult_le_compat_l; lra). lra. }
    assert (EG : y * cos a < x * sin a <-> 0 < sin (a - th)).
    { split; intros Hs.
      - apply Rnot_le_lt. intros Hle. assert (r * sin (a - th) <= r * 0) by (apply Rmult_le_compat_l; lra). lra.
      - assert (0 < r * sin (a - th)) by (apply Rmult_lt_0_compat; assumption). lra. }
    split.
    + intros Hb [H1 H2]. apply Ey in H1. apply EG in H2.
      destruct (Rlt_le_dec th PI) as [L|L].
      * assert (0 <= sin (th - a)) by (apply sin_ge_0; lra).
        replace (a - th) with (- (th - a)) in H2 by ring. rewrite sin_neg in H2. lra.
      * assert (0 <= sin (th - PI)) by (apply sin_ge_0; lra).
        rewrite sin_minus, cos_PI, sin_PI in *. lra.
    + intros Hn. split; apply Rnot_lt_le; intros Hlt; apply Hn.
      * split; [apply Ey; apply sin_gt_0; lra|apply EG; apply sin_gt_0; lra].
      * split; [apply Ey|apply EG].
        -- replace th with ((th - 2 * PI) + 2 * PI) by ring. rewrite sin_2PI_shift. apply sin_gt_0; lra.
        -- rewrite <- sin_2PI_shift. apply sin_gt_0; lra.
  - subst r. rewrite Rmult_0_l in Hx, Hy. subst x y. rewrite polar_zero in E by lra.
    assert (th = 2 * PI) by congruence. subst th. split; [intros; lra|intros; lra].
Qed.

Lemma interior_arc_iff : forall R0 a x y, 0 < a < PI -> 0 <= R0 ->
  (interior_xy (r_arc R0) a x y = true <-> in_domain R0 a (x, y)).
Proof.
  intros R0 a x y Ha HR. unfold interior_xy, in_domain. cbn [fst snd].
  destruct (ps_polar_xy a x y) as [r th] eqn:E. pose proof PI_RGT_0.
  destruct (ps_polar_spec a x y r th ltac:(lra) E) as (Hr & Hth & Hx & Hy).
  pose proof (wedge_iff a x y r th Ha E) as W. unfold r_arc.
  assert (Er : r ^ 2 = x ^ 2 + y ^ 2).
  { rewrite <- Hx, <- Hy. pose proof (sc2 th) as S2. ring [S2]. }
  assert (Hle : r <= R0 <-> x ^ 2 + y ^ 2 <= R0 ^ 2).
  { rewrite <- Er. split; intros L; [apply pow_incr; lra|].
    apply Rnot_lt_le. intros Hlt. assert (R0 * R0 < r * r) by (apply Rmult_le_0_lt_compat; lra). lra. }
  rewrite !andb_true_iff. 
  destruct (Rleb_spec r R0); destruct (Rleb_spec a th); destruct (Rleb_spec th (2 * PI)); intuition (try lra; try discriminate).
Qed.

(** ** A node and a neighbour of the other kind have a boundary point between *)

Definition Phi (R0 a x y : R) : R :=
  Rmax (x ^ 2 + y ^ 2 - R0 ^ 2) (Rmin y (x * sin a - y * cos a)).

Lemma Phi_domain : forall R0 a x y, Phi R0 a x y <= 0 <-> in_domain R0 a (x, y).
Proof.
  intros R0 a x y. unfold Phi, in_domain. cbn [fst snd]. 
  unfold Rmax, Rmin. destruct (Rle_dec y (x * sin a - y * cos a));
  match goal with |- context [Rle_dec ?u ?v] => destruct (Rle_dec u v) end; split; intros H;
   try (destruct H as [H1 H2]; lra); try lra;
   try (destruct H as [H1 H2]; apply Rnot_lt_le; intros Hlt; apply H2; lra).
Qed.

Lemma cont_max : forall f g (x : R), continuous f x -> continuous g x -> continuous (fun t => Rmax (f t) (g t)) x.
Proof.
  intros f g x Hf Hg.
  apply continuous_ext with (fun t => ((f t + g t) + Rabs (f t - g t)) / 2).
  - assert (E : forall u v, (u + v + Rabs (u - v)) / 2 = Rmax u v).
    { intros u v. unfold Rmax. destruct (Rle_dec u v) as [H|H]; [rewrite Rabs_left1 by lra|rewrite Rabs_pos_eq by lra]; field. }
    intros t. apply E.
  - unfold Rdiv. apply (continuous_mult (fun t => (f t + g t) + Rabs (f t - g t)) (fun _ => / 2)); [|apply continuous_const].
    apply (continuous_plus (fun t => f t + g t) (fun t => Rabs (f t - g t))).
    + apply (continuous_plus f g); assumption.
    + apply (continuous_comp (fun t => f t - g t) Rabs).
      * apply (continuous_minus f g); assumption.
      * apply continuous_Rabs.
Qed.

Lemma cont_min : forall f g (x : R), continuous f x -> continuous g x -> continuous (fun t => Rmin (f t) (g t)) x.
Proof.
  intros f g x Hf Hg.
  apply continuous_ext with (fun t => - Rmax (- f t) (- g t)).
  - assert (E : forall u v, - Rmax (- u) (- v) = Rmin u v).
    { intros u v. rewrite Ropp_Rmax, !Ropp_involutive. reflexivity. }
    intros t. apply E.
  - apply (continuous_opp (fun t => Rmax (- f t) (- g t))).
    apply cont_max; [apply (continuous_opp f)|apply (continuous_opp g)]; assumption.
Qed.

Lemma Phi_zero_boundary : forall R0 a x y, 0 < R0 -> 0 < a < PI -> Phi R0 a x y = 0 ->
  exists sid, (sid < 3)%nat /\ on_seg R0 a sid (x, y).
Proof.
  intros R0 a x y HR Ha HP. pose proof PI_RGT_0 as HPI.
  assert (Hs : 0 < sin a) by (apply sin_gt_0; lra).
  assert (HD : in_domain R0 a (x, y)) by (apply Phi_domain; lra).
  unfold Phi in HP.
  assert (Hcase : x ^ 2 + y ^ 2 = R0 ^ 2 \/ (x ^ 2 + y ^ 2 <= R0 ^ 2 /\
     ((y = 0 /\ 0 <= x * sin a - y * cos a) \/ (x * sin a - y * cos a = 0 /\ 0 <= y)))).
  { unfold Rmax, Rmin in HP. destruct (Rle_dec y (x * sin a - y * cos a));
    match type of HP with context [Rle_dec ?u ?v] => destruct (Rle_dec u v) end; lra. }
  destruct Hcase as [HF|(HF & [[Y0 G0]|[G0 Y0]])].
  - exists 0%nat. split; [lia|]. cbn.
    apply interior_arc_iff in HD; [|assumption|lra].
    unfold interior_xy in HD. destruct (ps_polar_xy a x y) as [r th] eqn:E.
    destruct (ps_polar_spec a x y r th ltac:(lra) E) as (Hr & Hth & Hx & Hy).
    rewrite !andb_true_iff in HD. destruct HD as [[H1 H2] H3].
    exists th. split.
    + destruct (Rleb_spec a th); [|discriminate]. destruct (Rleb_spec th (2 * PI)); [|discriminate]. auto.
    + assert (Er : r = R0).
      { assert (Er2 : r ^ 2 = R0 ^ 2).
        { rewrite <- HF, <- Hx, <- Hy. pose proof (sc2 th) as S2. ring [S2]. }
        assert (E0 : (r - R0) * (r + R0) = 0) by (replace ((r - R0) * (r + R0)) with (r ^ 2 - R0 ^ 2) by ring; lra).
        apply Rmult_integral in E0. lra. }
      subst r. rewrite Hx, Hy. reflexivity.
  - exists 1%nat. split; [lia|]. cbn. exists x. subst y.
    assert (0 <= x).
    { apply Rnot_lt_le. intros Hlt. assert (x * sin a < 0 * sin a) by (apply Rmult_lt_compat_r; lra). lra. }
    split; [split; [assumption|]|reflexivity].
    apply Rnot_lt_le. intros Hlt. assert (R0 * R0 < x * x) by (apply Rmult_le_0_lt_compat; lra). lra.
  - exists 2%nat. split; [lia|]. cbn. pose proof (sc2 a) as S2. set (t := x * cos a + y * sin a).
    assert (Ex : t * cos a = x).
    { unfold t. replace ((x * cos a + y * sin a) * cos a) with (x * cos a ^ 2 + sin a * (y * cos a)) by ring.
      replace (y * cos a) with (x * sin a) by lra. ring [S2]. }
    assert (Ey : t * sin a = y).
    { unfold t. replace ((x * cos a + y * sin a) * sin a) with (x * sin a * cos a + y * sin a ^ 2) by ring.
      replace (x * sin a) with (y * cos a) by lra. ring [S2]. }
    exists t. split; [|rewrite Ex, Ey; reflexivity].
    assert (Ht : 0 <= t).
    { apply Rnot_lt_le. intros Hlt. assert (t * sin a < 0 * sin a) by (apply Rmult_lt_compat_r; lra). lra. }
    split; [assumption|].
    assert (Et : t ^ 2 = x ^ 2 + y ^ 2) by (rewrite <- Ex, <- Ey; ring [S2]).
    apply Rnot_lt_le. intros Hlt. assert (R0 * R0 < t * t) by (apply Rmult_le_0_lt_compat; lra). lra.
Qed.

Lemma crossing : forall R0 a x y x' y', 0 < R0 -> 0 < a < PI ->
  in_domain R0 a (x, y) -> ~ in_domain R0 a (x', y') ->
  exists sid t, (sid < 3)%nat /\ 0 <= t <= 1 /\ on_seg R0 a sid (x + t * (x' - x), y + t * (y' - y)).
Proof.
  intros R0 a x y x' y' HR Ha H1 H2.
  set (f := fun t => Phi R0 a (x + t * (x' - x)) (y + t * (y' - y))).
  assert (Hc : forall t, continuous f t).
  { intros t. unfold f, Phi. apply cont_max; [|apply cont_min].
    - apply (ex_derive_continuous (V := R_NormedModule)). auto_derive. auto.
    - apply (ex_derive_continuous (V := R_NormedModule)). auto_derive. auto.
    - apply (ex_derive_continuous (V := R_NormedModule)). auto_derive. auto. }
  assert (F0 : f 0 <= 0).
  { unfold f. apply Phi_domain. replace (x + 0 * (x' - x)) with x by ring. replace (y + 0 * (y' - y)) with y by ring. assumption. }
  assert (F1 : 0 < f 1).
  { apply Rnot_le_lt. intros Hle. apply H2. apply Phi_domain. unfold f in Hle.
    replace (x + 1 * (x' - x)) with x' in Hle by ring. replace (y + 1 * (y' - y)) with y' in Hle by ring. assumption. }
  destruct (ivt_zero f 0 1 ltac:(lra) Hc) as (t & Ht & E).
  { assert (0 <= - f 0 * f 1) by (apply Rmult_le_pos; lra). lra. }
  destruct (Phi_zero_boundary R0 a _ _ HR Ha E) as (sid & Hsid & Hseg).
  exists sid, t. auto.
Qed.

(** ** The distance selected by the extension type is at most the distance to
    every point of the segment *)

Lemma cos_gap : forall d e, 0 <= d <= PI -> d <= e <= 2 * PI - d -> cos e <= cos d.
Proof.
  intros d e Hd He. pose proof PI_RGT_0.
  destruct (Rle_lt_dec e PI) as [H'|H'].
  - destruct (Rle_lt_or_eq_dec d e ltac:(lra)) as [L|L]; [|rewrite L; lra].
    apply Rlt_le, cos_decreasing_1; lra.
  - replace (cos e) with (cos (2 * PI - e)).
    + destruct (Rle_lt_or_eq_dec d (2 * PI - e) ltac:(lra)) as [L|L]; [|rewrite <- L; lra].
      apply Rlt_le, cos_decreasing_1; lra.
    + rewrite cos_minus, cos_2PI, sin_2PI. ring.
Qed.

Lemma sq_dist_polar : forall R0 r th ph x y, r * cos th = x -> r * sin th = y ->
  (R0 * cos ph - x) ^ 2 + (R0 * sin ph - y) ^ 2 = r ^ 2 + R0 ^ 2 - 2 * r * R0 * cos (th - ph).
Proof.
  intros R0 r th ph x y <- <-. rewrite cos_minus.
  pose proof (sc2 th) as S1. pose proof (sc2 ph) as S2. ring [S1 S2].
Qed.

Definition arc_bc (R0 a r th : R) (bc : option (R * R)) : Prop :=
  exists th0, bc = Some (r - R0, th0) /\ a / 2 <= th0 <= 2 * PI + a / 2 /\ (0 < r -> th0 = th).

Lemma dist_seg0 : forall R0 a bc x y r th b, 0 < R0 -> 0 < a < PI ->
  ps_polar_xy a x y = (r, th) -> arc_bc R0 a r th bc -> on_seg R0 a 0 b ->
  exists d, get_dist R0 a bc 0 (etype_of R0 a bc 0 x y) x y = Ok d /\
    0 <= d /\ d <= dist2 b (x, y) /\ Rabs (r - R0) <= d.
Proof.
  intros R0 a bc x y r th b HR Ha E (th0 & -> & Hth0 & Eth) (ph & Hph & ->).
  pose proof PI_RGT_0 as HPI.
  destruct (ps_polar_spec a x y r th ltac:(lra) E) as (Hr & Hth & Hx & Hy).
  unfold dist2. cbn [fst snd].
  assert (Hcomp : forall ps, cos (th - ph) <= cos (th - ps) \/ r = 0 ->
     sqrt ((R0 * cos ps - x) ^ 2 + (R0 * sin ps - y) ^ 2) <= sqrt ((R0 * cos ph - x) ^ 2 + (R0 * sin ph - y) ^ 2)).
  { intros ps Hc. apply sqrt_le_1_alt. rewrite !(sq_dist_polar R0 r th) by assumption.
    destruct Hc as [Hc|Hc]; [|rewrite Hc; lra].
    assert (r * R0 * cos (th - ph) <= r * R0 * cos (th - ps)) by (apply Rmult_le_compat_l; [apply Rmult_le_pos; lra|assumption]). lra. }
  assert (Hlow : forall ps, Rabs (r - R0) <= sqrt ((R0 * cos ps - x) ^ 2 + (R0 * sin ps - y) ^ 2)).
  { intros ps. rewrite <- sqrt_Rsqr_abs. apply sqrt_le_1_alt. rewrite (sq_dist_polar R0 r th) by assumption.
    unfold Rsqr. pose proof (COS_bound (th - ps)).
    assert (r * R0 * cos (th - ps) <= r * R0 * 1) by (apply Rmult_le_compat_l; [apply Rmult_le_pos; lra|lra]). lra. }
  assert (Hsplit : 0 < r \/ r = 0) by lra.
  cbn [etype_of]. destruct (Rltb_spec (2 * PI) th0) as [H1|H1].
  - cbn [get_dist]. eexists. split; [reflexivity|]. unfold dformula.
    split; [apply sqrt_pos|].
    replace (R0 - x) with (R0 * cos (2 * PI) - x) by (rewrite cos_2PI; ring).
    replace (0 - y) with (R0 * sin (2 * PI) - y) by (rewrite sin_2PI; ring).
    split; [|apply Hlow].
    apply Hcomp. destruct Hsplit as [Hp|Hz]; [left|right; assumption].
    rewrite (Eth Hp) in *. apply cos_gap; lra.
  - destruct (Rltb_spec th0 a) as [H2|H2].
    + cbn [get_dist]. eexists. split; [reflexivity|]. unfold dformula.
      split; [apply sqrt_pos|].
      split; [|apply Hlow].
      apply Hcomp. destruct Hsplit as [Hp|Hz]; [left|right; assumption].
      rewrite (Eth Hp) in *. replace (th - ph) with (- (ph - th)) by ring.
      replace (th - a) with (- (a - th)) by ring. rewrite !cos_neg. apply cos_gap; lra.
    + cbn [get_dist]. eexists. split; [reflexivity|]. split; [apply Rabs_pos|]. split; [apply Hlow|lra].
Qed.

Lemma dist_seg1 : forall R0 a bc x y b, 0 < R0 -> on_seg R0 a 1 b ->
  exists d, get_dist R0 a bc 1 (etype_of R0 a bc 1 x y) x y = Ok d /\
    0 <= d /\ d <= dist2 b (x, y) /\ Rabs y <= d.
Proof.
  intros R0 a bc x y b HR (t & Ht & ->). unfold dist2. cbn [fst snd].
  assert (HY : forall x0, Rabs y <= sqrt ((x0 - x) ^ 2 + (0 - y) ^ 2)).
  { intros x0. rewrite <- sqrt_Rsqr_abs. apply sqrt_le_1_alt. unfold Rsqr. pose proof (pow2_ge_0 (x0 - x)). lra. }
  cbn [etype_of]. destruct (Rltb_spec x 0) as [H1|H1]; [|destruct (Rltb_spec R0 x) as [H2|H2]];
  cbn [get_dist]; eexists; (split; [reflexivity|]); unfold dformula.
  - split; [apply sqrt_pos|]. split; [|apply HY]. apply sqrt_le_1_alt.
    assert (0 <= t * (t - 2 * x)) by (apply Rmult_le_pos; lra). lra.
  - split; [apply sqrt_pos|]. split; [|apply HY]. apply sqrt_le_1_alt.
    assert (0 <= (R0 - t) * (2 * x - R0 - t)) by (apply Rmult_le_pos; lra). lra.
  - split; [apply Rabs_pos|]. split; [apply HY|lra].
Qed.

Lemma dist_seg2 : forall R0 a bc x y b, 0 < R0 -> 0 < a < PI -> on_seg R0 a 2 b ->
  exists d, get_dist R0 a bc 2 (etype_of R0 a bc 2 x y) x y = Ok d /\
    0 <= d /\ d <= dist2 b (x, y) /\ Rabs (x * sin a - y * cos a) <= d.
Proof.
  intros R0 a bc x y b HR Ha (t & Ht & ->). unfold dist2. cbn [fst snd].
  set (u := x * cos a + y * sin a). set (g := x * sin a - y * cos a).
  assert (Hs : 0 < sin a) by (apply sin_gt_0; lra). pose proof (sc2 a) as S2.
  assert (Hd : forall t, (t * cos a - x) ^ 2 + (t * sin a - y) ^ 2 = (u - t) ^ 2 + g ^ 2).
  { intros s. unfold u, g. ring [S2]. }
  assert (HG : forall s, Rabs g <= sqrt ((s * cos a - x) ^ 2 + (s * sin a - y) ^ 2)).
  { intros s. rewrite Hd, <- sqrt_Rsqr_abs. apply sqrt_le_1_alt. unfold Rsqr. pose proof (pow2_ge_0 (u - s)). lra. }
  cbn [etype_of]. rewrite get_radius_point_eq by assumption. fold u.
  destruct (Rltb_spec (u * sin a) 0) as [H1|H1]; [|destruct (Rltb_spec (R0 * sin a) (u * sin a)) as [H2|H2]];
  cbn [get_dist]; eexists; (split; [reflexivity|]); unfold dformula.
  - assert (Hu : u < 0).
    { apply Rnot_le_lt. intros Hle. assert (0 <= u * sin a) by (apply Rmult_le_pos; lra). lra. }
    split; [apply sqrt_pos|].
    replace ((0 - x) ^ 2 + (0 - y) ^ 2) with ((0 * cos a - x) ^ 2 + (0 * sin a - y) ^ 2) by ring.
    split; [|apply HG]. apply sqrt_le_1_alt. rewrite !Hd.
    assert (0 <= t * (t - 2 * u)) by (apply Rmult_le_pos; lra). lra.
  - assert (Hu : R0 < u) by (apply Rmult_lt_reg_r with (sin a); assumption).
    split; [apply sqrt_pos|]. split; [|apply HG]. apply sqrt_le_1_alt. rewrite !Hd.
    assert (0 <= (R0 - t) * (2 * u - R0 - t)) by (apply Rmult_le_pos; lra). lra.
  - rewrite dist_to_radius_eq by assumption. fold g. split; [apply Rabs_pos|]. split; [apply HG|lra].
Qed.

(** The distance is attained on the segment. *)
Lemma dist_attained0 : forall R0 a bc x y r th, 0 < R0 -> 0 < a < PI ->
  ps_polar_xy a x y = (r, th) -> arc_bc R0 a r th bc ->
  exists b, on_seg R0 a 0 b /\ get_dist R0 a bc 0 (etype_of R0 a bc 0 x y) x y = Ok (dist2 b (x, y)).
Proof.
  intros R0 a bc x y r th HR Ha E (th0 & -> & Hth0 & Eth). pose proof PI_RGT_0 as HPI.
  destruct (ps_polar_spec a x y r th ltac:(lra) E) as (Hr & Hth & Hx & Hy).
  cbn [etype_of]. destruct (Rltb_spec (2 * PI) th0) as [H1|H1].
  - exists (R0 * cos (2 * PI), R0 * sin (2 * PI)). split; [exists (2 * PI); split; [lra|reflexivity]|].
    cbn [get_dist]. unfold dformula, dist2. cbn [fst snd]. rewrite cos_2PI, sin_2PI. do 3 f_equal; ring.
  - destruct (Rltb_spec th0 a) as [H2|H2].
    + exists (R0 * cos a, R0 * sin a). split; [exists a; split; [lra|reflexivity]|]. reflexivity.
    + exists (R0 * cos th0, R0 * sin th0). split; [exists th0; split; [lra|reflexivity]|].
      cbn [get_dist]. f_equal. unfold dist2. cbn [fst snd].
      rewrite (sq_dist_polar R0 r th th0 x y Hx Hy), <- sqrt_Rsqr_abs. f_equal. unfold Rsqr.
      destruct (Rle_lt_or_eq_dec 0 r Hr) as [Hp|Hz].
      * rewrite (Eth Hp). replace (th - th) with 0 by ring. rewrite cos_0. ring.
      * rewrite <- Hz. ring.
Qed.

Lemma dist_attained1 : forall R0 a bc x y, 0 < R0 ->
  exists b, on_seg R0 a 1 b /\ get_dist R0 a bc 1 (etype_of R0 a bc 1 x y) x y = Ok (dist2 b (x, y)).
Proof.
  intros R0 a bc x y HR. cbn [etype_of].
  destruct (Rltb_spec x 0) as [H1|H1]; [|destruct (Rltb_spec R0 x) as [H2|H2]].
  - exists (0, 0). split; [exists 0; split; [lra|reflexivity]|reflexivity].
  - exists (R0, 0). split; [exists R0; split; [lra|reflexivity]|reflexivity].
  - exists (x, 0). split; [exists x; split; [lra|reflexivity]|]. cbn [get_dist]. f_equal.
    unfold dist2. cbn [fst snd]. rewrite <- sqrt_Rsqr_abs. f_equal. unfold Rsqr. ring.
Qed.

Lemma dist_attained2 : forall R0 a bc x y, 0 < R0 -> 0 < a < PI ->
  exists b, on_seg R0 a 2 b /\ get_dist R0 a bc 2 (etype_of R0 a bc 2 x y) x y = Ok (dist2 b (x, y)).
Proof.
  intros R0 a bc x y HR Ha. assert (Hs : 0 < sin a) by (apply sin_gt_0; lra).
  cbn [etype_of]. rewrite get_radius_point_eq by assumption. set (u := x * cos a + y * sin a).
  destruct (Rltb_spec (u * sin a) 0) as [H1|H1]; [|destruct (Rltb_spec (R0 * sin a) (u * sin a)) as [H2|H2]].
  - exists (0 * cos a, 0 * sin a). split; [exists 0; split; [lra|reflexivity]|].
    cbn [get_dist]. unfold dformula, dist2. cbn [fst snd]. do 3 f_equal; ring.
  - exists (R0 * cos a, R0 * sin a). split; [exists R0; split; [lra|reflexivity]|reflexivity].
  - exists (u * cos a, u * sin a). split.
    + exists u. split; [|reflexivity]. split.
      * apply Rnot_lt_le. intros Hlt. assert (u * sin a < 0 * sin a) by (apply Rmult_lt_compat_r; lra). lra.
      * apply Rmult_le_reg_r with (sin a); lra.
    + cbn [get_dist]. unfold dist_to_radius. rewrite get_radius_point_eq by assumption. reflexivity.
Qed.

(** ** Placement *)

Section Place.
Context (brentq : (R -> R) -> R -> R -> option R) (R0 a AD_len : R) (N : Z)
  (Hb : brentq_contract brentq) (HR : 0 < R0) (Ha : 0 < a < PI) (HL : 0 < AD_len) (HN : (1 <= N)%Z).

Definition bcoord : node -> option (R * R) := node_bcoord brentq (r_arc R0) a AD_len N.

Lemma bcoord_arc : forall p x y r th, get_coord AD_len N (fst p) (snd p) = (x, y) ->
  ps_polar_xy a x y = (r, th) -> arc_bc R0 a r th (bcoord p).
Proof.
  intros p x y r th E1 E2. unfold bcoord, node_bcoord, ps_get_polar. rewrite E1, E2.
  pose proof PI_RGT_0.
  destruct (ps_polar_spec a x y r th ltac:(lra) E2) as (Hr & Hth & Hx & Hy).
  destruct (arc_boundary_coord brentq R0 a r th Hb HR ltac:(lra) Hr ltac:(lra)) as (th0 & E & B & Et).
  exists th0. split; [exact E|]. split; [|exact Et].
  pose proof (search_le a th ltac:(lra) ltac:(lra)). lra.
Qed.

(** What a claim says about the node. *)
Lemma claims_spec : forall sid p x y, (sid < 3)%nat -> get_coord AD_len N (fst p) (snd p) = (x, y) ->
  exists d, seg_claims R0 a AD_len N bcoord sid p = Ok (Rleb d (AD_len / IZR N * sqrt 2)) /\
   0 <= d /\ (forall b, on_seg R0 a sid b -> d <= dist2 b (x, y)) /\
   (exists b, on_seg R0 a sid b /\ d = dist2 b (x, y)) /\
   match sid with
   | 0%nat => Rabs (sqrt (x ^ 2 + y ^ 2) - R0) <= d
   | 1%nat => Rabs y <= d
   | _ => Rabs (x * sin a - y * cos a) <= d
   end.
Proof.
  intros sid p x y Hsid E. unfold seg_claims. rewrite E. pose proof PI_RGT_0.
  destruct (ps_polar_xy a x y) as [r th] eqn:Ep.
  pose proof (bcoord_arc p x y r th E Ep) as Hbc.
  destruct (ps_polar_spec a x y r th ltac:(lra) Ep) as (Hr & Hth & Hx & Hy).
  assert (Er : sqrt (x ^ 2 + y ^ 2) = r).
  { replace (x ^ 2 + y ^ 2) with (r ^ 2); [apply sqrt_pow2; assumption|].
    rewrite <- Hx, <- Hy. pose proof (sc2 th) as S2. ring [S2]. }
  destruct sid as [|[|[|sid]]]; [| | |lia].
  - destruct (dist_attained0 R0 a (bcoord p) x y r th HR Ha Ep Hbc) as (b0 & Hw & Ed0).
    destruct (dist_seg0 R0 a (bcoord p) x y r th _ HR Ha Ep Hbc Hw) as (d & Ed & H0 & _ & Hl).
    exists d. rewrite Ed, Er. split; [reflexivity|]. split; [assumption|]. split; [|split; [exists b0; split; [assumption|congruence]|assumption]].
    intros b Hbs. destruct (dist_seg0 R0 a (bcoord p) x y r th b HR Ha Ep Hbc Hbs) as (d' & Ed' & _ & Hd' & _).
    assert (d' = d) by congruence. lra.
  - destruct (dist_attained1 R0 a (bcoord p) x y HR) as (b0 & Hw & Ed0).
    destruct (dist_seg1 R0 a (bcoord p) x y _ HR Hw) as (d & Ed & H0 & _ & Hl).
    exists d. rewrite Ed. split; [reflexivity|]. split; [assumption|]. split; [|split; [exists b0; split; [assumption|congruence]|assumption]].
    intros b Hbs. destruct (dist_seg1 R0 a (bcoord p) x y b HR Hbs) as (d' & Ed' & _ & Hd' & _).
    assert (d' = d) by congruence. lra.
  - destruct (dist_attained2 R0 a (bcoord p) x y HR Ha) as (b0 & Hw & Ed0).
    destruct (dist_seg2 R0 a (bcoord p) x y _ HR Ha Hw) as (d & Ed & H0 & _ & Hl).
    exists d. rewrite Ed. split; [reflexivity|]. split; [assumption|]. split; [|split; [exists b0; split; [assumption|congruence]|assumption]].
    intros b Hbs. destruct (dist_seg2 R0 a (bcoord p) x y b HR Ha Hbs) as (d' & Ed' & _ & Hd' & _).
    assert (d' = d) by congruence. lra.
Qed.

Lemma claims_total : forall sid p, (sid < 3)%nat -> exists b, seg_claims R0 a AD_len N bcoord sid p = Ok b.
Proof.
  intros sid p Hsid. destruct (get_coord AD_len N (fst p) (snd p)) as [x y] eqn:E.
  destruct (claims_spec sid p x y Hsid E) as (d & Ed & _). eauto.
Qed.

(** A node is claimed exactly when the segment comes within sqrt(2) h. *)
Lemma claims_iff : forall sid p x y, (sid < 3)%nat -> get_coord AD_len N (fst p) (snd p) = (x, y) ->
  (seg_claims R0 a AD_len N bcoord sid p = Ok true <->
   exists b, on_seg R0 a sid b /\ dist2 b (x, y) <= AD_len / IZR N * sqrt 2).
Proof.
  intros sid p x y Hsid E. destruct (claims_spec sid p x y Hsid E) as (d & Ed & _ & Hle & (b0 & Hb0 & Ed0) & _).
  rewrite Ed. split.
  - intros H. exists b0. split; [assumption|]. rewrite <- Ed0.
    destruct (Rleb_spec d (AD_len / IZR N * sqrt 2)); [assumption|discriminate].
  - intros (b & Hbs & Hd). specialize (Hle b Hbs). f_equal.
    destruct (Rleb_spec d (AD_len / IZR N * sqrt 2)); [reflexivity|lra].
Qed.

Lemma N_pos : 0 < IZR N.
Proof. apply (IZR_lt 0). lia. Qed.

Lemma neighbour_dist : forall order p q t x y x' y', neighbour order p q ->
  get_coord AD_len N (fst p) (snd p) = (x, y) -> get_coord AD_len N (fst q) (snd q) = (x', y') ->
  0 <= t <= 1 ->
  dist2 (x + t * (x' - x), y + t * (y' - y)) (x, y) <= AD_len / IZR N * sqrt 2 /\
  dist2 (x + t * (x' - x), y + t * (y' - y)) (x', y') <= AD_len / IZR N * sqrt 2.
Proof.
  intros order p q t x y x' y' (H1 & H2 & _) E1 E2 Ht. unfold get_coord in E1, E2.
  pose proof N_pos as HNp.
  set (h := AD_len / IZR N).
  assert (Hh : 0 <= h) by (unfold h; apply Rlt_le, Rdiv_lt_0_compat; assumption).
  assert (Hone : forall z, (Z.abs z <= 1)%Z -> IZR z * IZR z <= 1).
  { intros z Hz. assert (z = -1 \/ z = 0 \/ z = 1)%Z as [->|[->| ->]] by lia; lra. }
  assert (Hx : x' - x = - (h * IZR (fst p - fst q))).
  { injection E1 as <- _. injection E2 as <- _. rewrite minus_IZR. unfold h. field. lra. }
  assert (Hy : y' - y = - (h * IZR (snd p - snd q))).
  { injection E1 as _ <-. injection E2 as _ <-. rewrite minus_IZR. unfold h. field. lra. }
  set (dx := IZR (fst p - fst q)) in *. set (dy := IZR (snd p - snd q)) in *.
  pose proof (Hone _ H1) as Q1. pose proof (Hone _ H2) as Q2. fold dx in Q1. fold dy in Q2.
  assert (Hgen : forall c, 0 <= c <= 1 -> (c * (h * dx)) ^ 2 + (c * (h * dy)) ^ 2 <= h ^ 2 * 2).
  { intros c Hc. replace ((c * (h * dx)) ^ 2 + (c * (h * dy)) ^ 2) with (h ^ 2 * ((c * c) * (dx * dx + dy * dy))) by ring.
    apply Rmult_le_compat_l; [apply pow2_ge_0|].
    assert (0 <= c * c <= 1).
    { split; [apply Rmult_le_pos; lra|]. replace 1 with (1 * 1) by ring. apply Rmult_le_compat; lra. }
    assert (0 <= dx * dx) by apply Rle_0_sqr. assert (0 <= dy * dy) by apply Rle_0_sqr.
    assert (c * c * (dx * dx + dy * dy) <= 1 * (dx * dx + dy * dy)) by (apply Rmult_le_compat_r; lra). lra. }
  assert (Hsq : sqrt (h ^ 2 * 2) = h * sqrt 2).
  { rewrite sqrt_mult_alt by apply pow2_ge_0. rewrite sqrt_pow2 by assumption. reflexivity. }
  rewrite <- Hsq. unfold dist2. cbn [fst snd]. split; apply sqrt_le_1_alt.
  - replace (x + t * (x' - x) - x) with (- (t * (h * dx))) by (rewrite Hx; ring).
    replace (y + t * (y' - y) - y) with (- (t * (h * dy))) by (rewrite Hy; ring).
    pose proof (Hgen t Ht). lra.
  - replace (x + t * (x' - x) - x') with ((1 - t) * (h * dx)) by (replace x' with (x + (x' - x)) by ring; rewrite Hx; ring).
    replace (y + t * (y' - y) - y') with ((1 - t) * (h * dy)) by (replace y' with (y + (y' - y)) by ring; rewrite Hy; ring).
    apply (Hgen (1 - t)). lra.
Qed.

Definition arc_ins : Z -> Z -> bool := ps_is_interior (r_arc R0) a AD_len N.

Lemma arc_ins_iff : forall p x y, get_coord AD_len N (fst p) (snd p) = (x, y) ->
  arc_ins (fst p) (snd p) = true <-> in_domain R0 a (x, y).
Proof.
  intros p x y E. unfold arc_ins, ps_is_interior. rewrite E. apply interior_arc_iff; [assumption|lra].
Qed.

(** A discrete-boundary node is near a boundary point. *)
Lemma gamma_near : forall order q x y, (order = 2 \/ order = 4)%Z ->
  In q (gamma_set order N arc_ins) -> get_coord AD_len N (fst q) (snd q) = (x, y) ->
  exists sid b, (sid < 3)%nat /\ on_seg R0 a sid b /\ dist2 b (x, y) <= AD_len / IZR N * sqrt 2.
Proof.
  intros order q x y Ho Hq E.
  apply gamma_set_in in Hq; [|assumption].
  destruct Hq as [(p1 & _ & I1 & N1) (p2 & _ & I2 & N2)].
  destruct (get_coord AD_len N (fst p1) (snd p1)) as [x1 y1] eqn:E1.
  destruct (get_coord AD_len N (fst p2) (snd p2)) as [x2 y2] eqn:E2.
  pose proof (arc_ins_iff _ _ _ E1) as A1. pose proof (arc_ins_iff _ _ _ E2) as A2. pose proof (arc_ins_iff _ _ _ E) as A.
  destruct (arc_ins (fst q) (snd q)) eqn:Iq.
  - assert (D1 : in_domain R0 a (x, y)) by (apply A; reflexivity).
    assert (D2 : ~ in_domain R0 a (x2, y2)) by (rewrite <- A2, I2; discriminate).
    destruct (crossing R0 a x y x2 y2 HR Ha D1 D2) as (sid & t & Hsid & Ht & Hseg).
    exists sid, (x + t * (x2 - x), y + t * (y2 - y)). split; [assumption|]. split; [assumption|].
    assert (N2' : neighbour order q p2) by (destruct N2 as (? & ? & N3); split; [lia|split; [lia|intros O; destruct (N3 O); auto]]).
    apply (neighbour_dist order q p2 t x y x2 y2 N2' E E2 Ht).
  - assert (D1 : in_domain R0 a (x1, y1)) by (apply A1; assumption).
    assert (D2 : ~ in_domain R0 a (x, y)) by (rewrite <- A; discriminate).
    destruct (crossing R0 a x1 y1 x y HR Ha D1 D2) as (sid & t & Hsid & Ht & Hseg).
    exists sid, (x1 + t * (x - x1), y1 + t * (y - y1)). split; [assumption|]. split; [assumption|].
    apply (neighbour_dist order p1 q t x1 y1 x y N1 E1 E Ht).
Qed.

Lemma gamma_claimed : forall order q, (order = 2 \/ order = 4)%Z -> In q (gamma_set order N arc_ins) ->
  exists sid, (sid < 3)%nat /\ seg_claims R0 a AD_len N bcoord sid q = Ok true.
Proof.
  intros order q Ho Hq. destruct (get_coord AD_len N (fst q) (snd q)) as [x y] eqn:E.
  destruct (gamma_near order q x y Ho Hq E) as (sid & b & Hsid & Hseg & Hd).
  exists sid. split; [assumption|].
  destruct (claims_spec sid q x y Hsid E) as (d & Ed & _ & Hle & _).
  rewrite Ed. f_equal. specialize (Hle b Hseg). destruct (Rleb_spec d (AD_len / IZR N * sqrt 2)); [reflexivity|lra].
Qed.

Definition claims (sid : nat) (p : node) : bool :=
  match seg_claims R0 a AD_len N bcoord sid p with Ok b => b | Err _ => false end.

Lemma claims_ok : forall sid p, (sid < 3)%nat -> seg_claims R0 a AD_len N bcoord sid p = Ok (claims sid p).
Proof.
  intros sid p H. unfold claims. destruct (claims_total sid p H) as [b E]. rewrite E. reflexivity.
Qed.

Lemma filter_step : forall (f : node -> bool) g p l,
  (if f p then g ++ [p] else g) ++ filter f l = g ++ filter f (p :: l).
Proof. intros f g p l. cbn [filter]. destruct (f p); [rewrite <- app_assoc; reflexivity|reflexivity]. Qed.

Lemma place_loop_eq : forall todo g0 g1 g2,
  (forall p, In p todo -> claims 0 p || claims 1 p || claims 2 p = true) ->
  place_loop R0 a AD_len N bcoord todo (g0, g1, g2) =
  Ok (g0 ++ filter (claims 0) todo, g1 ++ filter (claims 1) todo, g2 ++ filter (claims 2) todo).
Proof.
  induction todo as [|p todo IH]; intros g0 g1 g2 Hc.
  - cbn. rewrite !app_nil_r. reflexivity.
  - cbn [place_loop]. rewrite !claims_ok by lia. cbn [bind].
    rewrite (Hc p) by (left; reflexivity).
    rewrite IH by (intros q Hq; apply Hc; right; assumption).
    rewrite !filter_step. reflexivity.
Qed.

Lemma place_loop_fails : forall todo g0 g1 g2 p,
  In p todo -> claims 0 p || claims 1 p || claims 2 p = false ->
  place_loop R0 a AD_len N bcoord todo (g0, g1, g2) = Err AssertionError.
Proof.
  induction todo as [|q todo IH]; intros g0 g1 g2 p Hp Hc; [destruct Hp|].
  cbn [place_loop]. rewrite !claims_ok by lia. cbn [bind].
  destruct (claims 0 q || claims 1 q || claims 2 q) eqn:Eq; [|reflexivity].
  destruct Hp as [->|Hp]; [congruence|]. eapply IH; eassumption.
Qed.

Lemma gamma_placed : forall order union_gamma, (order = 2 \/ order = 4)%Z ->
  enumerates union_gamma (gamma_set order N arc_ins) ->
  exists g0 g1 g2, all_gamma R0 a AD_len N bcoord union_gamma = Ok (g0, g1, g2) /\
    (forall p, In p union_gamma <-> In p g0 \/ In p g1 \/ In p g2) /\
    NoDup g0 /\ NoDup g1 /\ NoDup g2 /\
    g0 = filter (claims 0) union_gamma /\ g1 = filter (claims 1) union_gamma /\ g2 = filter (claims 2) union_gamma.
Proof.
  intros order ug Ho [Hnd Hen].
  assert (Hc : forall p, In p ug -> claims 0 p || claims 1 p || claims 2 p = true).
  { intros p Hp. apply Hen in Hp. destruct (gamma_claimed order p Ho Hp) as (sid & Hsid & E).
    unfold claims at 1 2 3. destruct sid as [|[|[|sid]]]; [| | |lia]; rewrite E; rewrite ?orb_true_r; reflexivity. }
  eexists _, _, _. split; [apply place_loop_eq; assumption|]. cbn [app].
  split; [|repeat split; try reflexivity; apply NoDup_filter; assumption].
  intros p. rewrite !filter_In. split; [|intuition].
  intros Hp. specialize (Hc p Hp). rewrite !orb_true_iff in Hc. intuition.
Qed.

(** ** C10 *)

Lemma not_all_three : forall p,
  R0 > AD_len / IZR N * sqrt 2 * (1 + sqrt (2 / (1 - Rabs (cos a)))) ->
  claims 0 p && claims 1 p && claims 2 p = false.
Proof.
  intros p HB. destruct (get_coord AD_len N (fst p) (snd p)) as [x y] eqn:E.
  set (dl := AD_len / IZR N * sqrt 2) in *.
  destruct (claims_spec 0 p x y ltac:(lia) E) as (d0 & E0 & P0 & _ & _ & L0).
  destruct (claims_spec 1 p x y ltac:(lia) E) as (d1 & E1 & P1 & _ & _ & L1).
  destruct (claims_spec 2 p x y ltac:(lia) E) as (d2 & E2 & P2 & _ & _ & L2).
  fold dl in E0, E1, E2. unfold claims. rewrite E0, E1, E2.
  destruct (Rleb_spec d0 dl) as [B0|]; [|reflexivity].
  destruct (Rleb_spec d1 dl) as [B1|]; [|reflexivity].
  destruct (Rleb_spec d2 dl) as [B2|]; [|reflexivity]. exfalso.
  assert (Hdl : 0 <= dl) by lra.
  assert (Hs : 0 < sin a) by (apply sin_gt_0; lra). pose proof (sc2 a) as S2.
  set (c := Rabs (cos a)) in *.
  assert (Hc2 : c ^ 2 = cos a ^ 2) by (unfold c; apply pow2_abs).
  assert (Hc0 : 0 <= c) by apply Rabs_pos.
  assert (Hc1 : c < 1).
  { apply Rnot_le_lt. intros Hle. assert (1 * 1 <= c * c) by (apply Rmult_le_compat; lra).
    assert (0 < sin a * sin a) by (apply Rmult_lt_0_compat; assumption). lra. }
  set (g := x * sin a - y * cos a) in *. set (r := sqrt (x ^ 2 + y ^ 2)) in *.
  assert (Hr : 0 <= r) by apply sqrt_pos.
  assert (Hr2 : r ^ 2 = x ^ 2 + y ^ 2).
  { unfold r. rewrite <- Rsqr_pow2, Rsqr_sqrt; [reflexivity|]. pose proof (pow2_ge_0 x). pose proof (pow2_ge_0 y). lra. }
  assert (Key : r ^ 2 * (1 - c) * (1 + c) = g ^ 2 + y ^ 2 + 2 * g * y * cos a).
  { replace (r ^ 2 * (1 - c) * (1 + c)) with (r ^ 2 * (1 - c ^ 2)) by ring. rewrite Hr2, Hc2. unfold g. ring [S2]. }
  assert (Hg : g ^ 2 <= dl ^ 2).
  { rewrite <- (pow2_abs g). apply pow_incr. split; [apply Rabs_pos|lra]. }
  assert (Hy : y ^ 2 <= dl ^ 2).
  { rewrite <- (pow2_abs y). apply pow_incr. split; [apply Rabs_pos|lra]. }
  assert (Hgy : g * y * cos a <= dl ^ 2 * c).
  { eapply Rle_trans; [apply Rle_abs|]. rewrite !Rabs_mult. fold c.
    apply Rmult_le_compat_r; [assumption|]. replace (dl ^ 2) with (dl * dl) by ring.
    apply Rmult_le_compat; try apply Rabs_pos; lra. }
  assert (Hle : r ^ 2 * (1 - c) <= 2 * dl ^ 2).
  { apply Rmult_le_reg_r with (1 + c); [lra|]. rewrite Key. lra. }
  assert (Hr3 : r <= dl * sqrt (2 / (1 - c))).
  { rewrite <- (sqrt_pow2 dl) by assumption. rewrite <- sqrt_mult_alt by apply pow2_ge_0.
    rewrite <- (sqrt_pow2 r) by assumption. apply sqrt_le_1_alt.
    apply Rmult_le_reg_r with (1 - c); [lra|].
    replace (dl ^ 2 * (2 / (1 - c)) * (1 - c)) with (2 * dl ^ 2) by (field; lra). assumption. }
  assert (L0' : R0 - r <= dl).
  { pose proof (Rle_abs (- (r - R0))) as Q. rewrite Rabs_Ropp in Q. lra. }
  lra.
Qed.

End Place.

(** ** A coarse grid on which the origin is claimed by all three segments *)

Lemma coarse_origin : forall brentq, brentq_contract brentq ->
  let bc := node_bcoord brentq (r_arc 1) (PI / 4) 4 4 in
  In (2, 2)%Z (gamma_set 4 4 (ps_is_interior (r_arc 1) (PI / 4) 4 4)) /\
  (forall sid, (sid < 3)%nat -> seg_claims 1 (PI / 4) 4 4 bc sid (2, 2)%Z = Ok true).
Proof.
  intros brentq Hb bc. pose proof PI_RGT_0 as HPI.
  assert (Ha : 0 < PI / 4 < PI) by lra.
  assert (Hsq : 1 <= sqrt 2) by (rewrite <- sqrt_1; apply sqrt_le_1_alt; lra).
  assert (E : get_coord 4 4 (fst (2, 2)%Z) (snd (2, 2)%Z) = (0, 0)).
  { unfold get_coord. cbn [fst snd]. f_equal; field. }
  split.
  - apply gamma_set_in; [right; reflexivity|]. split.
    + exists (2, 2)%Z. split; [split; cbn; lia|]. split; [|repeat split; cbn; lia].
      apply (arc_ins_iff 1 (PI / 4) 4 4 ltac:(lra) Ha (2, 2)%Z 0 0 E). unfold in_domain. cbn [fst snd]. split; [lra|].
      intros [? _]. lra.
    + exists (3, 3)%Z. split; [split; cbn; lia|]. split; [|repeat split; cbn; lia].
      apply not_true_iff_false. intros H.
      assert (E3 : get_coord 4 4 (fst (3, 3)%Z) (snd (3, 3)%Z) = (1, 1)).
      { unfold get_coord. cbn [fst snd]. f_equal; field. }
      apply (arc_ins_iff 1 (PI / 4) 4 4 ltac:(lra) Ha (3, 3)%Z 1 1 E3) in H. unfold in_domain in H. cbn [fst snd] in H. lra.
  - intros sid Hsid.
    destruct (claims_spec brentq 1 (PI / 4) 4 4 Hb ltac:(lra) Ha sid (2, 2)%Z 0 0 Hsid E) as (d & Ed & _ & Hle & _).
    fold bc in Ed. replace (node_bcoord brentq (r_arc 1) (PI / 4) 4 4) with bc in Ed by reflexivity.
    unfold bcoord in Ed. fold bc in Ed. rewrite Ed. f_equal.
    assert (d <= 1).
    { destruct sid as [|[|[|sid]]]; [| | |lia].
      - eapply Rle_trans; [apply (Hle (1 * cos (PI / 4), 1 * sin (PI / 4)))|].
        + exists (PI / 4). split; [lra|reflexivity].
        + unfold dist2. cbn [fst snd]. pose proof (sc2 (PI / 4)) as S2.
          replace ((1 * cos (PI / 4) - 0) ^ 2 + (1 * sin (PI / 4) - 0) ^ 2) with 1 by ring [S2]. rewrite sqrt_1. lra.
      - eapply Rle_trans; [apply (Hle (0, 0))|].
        + exists 0. split; [lra|reflexivity].
        + unfold dist2. cbn [fst snd]. replace ((0 - 0) ^ 2 + (0 - 0) ^ 2) with 0 by ring. rewrite sqrt_0. lra.
      - eapply Rle_trans; [apply (Hle (0 * cos (PI / 4), 0 * sin (PI / 4)))|].
        + exists 0. split; [lra|reflexivity].
        + unfold dist2. cbn [fst snd]. replace ((0 * cos (PI / 4) - 0) ^ 2 + (0 * sin (PI / 4) - 0) ^ 2) with 0 by ring. rewrite sqrt_0. lra. }
    destruct (Rleb_spec d (4 / 4 * sqrt 2)); [reflexivity|lra].
Qed.

(** ** Restatements used by the property file *)

Lemma gamma_placed_spec : forall brentq R0 a AD_len N, brentq_contract brentq ->
  0 < R0 -> 0 < a < PI -> 0 < AD_len -> (1 <= N)%Z ->
  forall order union_gamma, (order = 2 \/ order = 4)%Z ->
  enumerates union_gamma (gamma_set order N (ps_is_interior (r_arc R0) a AD_len N)) ->
  exists g0 g1 g2,
    all_gamma R0 a AD_len N (node_bcoord brentq (r_arc R0) a AD_len N) union_gamma = Ok (g0, g1, g2) /\
    (forall p, In p union_gamma <-> In p g0 \/ In p g1 \/ In p g2) /\
    NoDup g0 /\ NoDup g1 /\ NoDup g2.
Proof.
  intros brentq R0 a AD_len N Hb HR Ha HL HN order ug Ho Hen.
  destruct (gamma_placed brentq R0 a AD_len N Hb HR Ha HL HN order ug Ho Hen)
    as (g0 & g1 & g2 & E & H & H0 & H1 & H2 & _).
  exists g0, g1, g2. auto.
Qed.

Lemma at_most_two : forall brentq R0 a AD_len N, brentq_contract brentq ->
  0 < R0 -> 0 < a < PI -> 0 < AD_len -> (1 <= N)%Z ->
  R0 > AD_len / IZR N * sqrt 2 * (1 + sqrt (2 / (1 - Rabs (cos a)))) ->
  forall order union_gamma g0 g1 g2, (order = 2 \/ order = 4)%Z ->
  enumerates union_gamma (gamma_set order N (ps_is_interior (r_arc R0) a AD_len N)) ->
  all_gamma R0 a AD_len N (node_bcoord brentq (r_arc R0) a AD_len N) union_gamma = Ok (g0, g1, g2) ->
  forall p, ~ (In p g0 /\ In p g1 /\ In p g2).
Proof.
  intros brentq R0 a AD_len N Hb HR Ha HL HN HB order ug g0 g1 g2 Ho Hen E p (I0 & I1 & I2).
  destruct (gamma_placed brentq R0 a AD_len N Hb HR Ha HL HN order ug Ho Hen)
    as (g0' & g1' & g2' & E' & _ & _ & _ & _ & F0 & F1 & F2).
  unfold bcoord in E'. rewrite E in E'. injection E' as <- <- <-. rewrite F0 in I0. rewrite F1 in I1. rewrite F2 in I2.
  apply filter_In in I0. apply filter_In in I1. apply filter_In in I2.
  pose proof (not_all_three brentq R0 a AD_len N Hb HR Ha p HB) as Hn.
  destruct I0 as [_ I0], I1 as [_ I1], I2 as [_ I2]. rewrite I0, I1, I2 in Hn. discriminate.
Qed.

Lemma coarse_three : forall brentq, brentq_contract brentq ->
  exists R0 a AD_len N p, 0 < R0 /\ 0 < a < PI /\ 0 < AD_len /\ (1 <= N)%Z /\
  In p (gamma_set 4 N (ps_is_interior (r_arc R0) a AD_len N)) /\
  forall sid, (sid < 3)%nat ->
    seg_claims R0 a AD_len N (node_bcoord brentq (r_arc R0) a AD_len N) sid p = Ok true.
Proof.
  intros brentq Hb. destruct (coarse_origin brentq Hb) as [H1 H2]. pose proof PI_RGT_0.
  exists 1, (PI / 4), 4, 4%Z, (2, 2)%Z. repeat split; try lra; try lia; assumption.
Qed.

Lemma project_bound :
  23 / 10 > 2 * PI / IZR 64 * sqrt 2 * (1 + sqrt (2 / (1 - Rabs (cos (PI / 4))))).
Proof.
  pose proof PI_4 as HPI4. pose proof PI_RGT_0.
  assert (Hs2 : sqrt 2 <= 15 / 10).
  { rewrite <- (sqrt_pow2 (15 / 10)) by lra. apply sqrt_le_1_alt. lra. }
  assert (Hs2' : 14 / 10 <= sqrt 2).
  { rewrite <- (sqrt_pow2 (14 / 10)) by lra. apply sqrt_le_1_alt. lra. }
  assert (Hc : cos (PI / 4) <= 72 / 100).
  { rewrite cos_PI4. apply Rmult_le_reg_r with (sqrt 2); [lra|].
    unfold Rdiv. rewrite Rmult_assoc, Rinv_l by lra. lra. }
  assert (Hc0 : 0 <= cos (PI / 4)).
  { rewrite cos_PI4. apply Rlt_le, Rdiv_lt_0_compat; lra. }
  rewrite Rabs_pos_eq by assumption.
  assert (Hq : sqrt (2 / (1 - cos (PI / 4))) <= 3).
  { rewrite <- (sqrt_pow2 3) by lra. apply sqrt_le_1_alt.
    apply Rmult_le_reg_r with (1 - cos (PI / 4)); [lra|]. unfold Rdiv. rewrite Rmult_assoc, Rinv_l by lra. lra. }
  assert (0 <= sqrt (2 / (1 - cos (PI / 4)))) by apply sqrt_pos.
  apply Rle_lt_trans with (8 / 64 * (15 / 10) * (1 + 3)); [|lra].
  apply Rmult_le_compat; [|lra| |lra].
  - apply Rmult_le_pos; [|lra]. apply Rlt_le, Rdiv_lt_0_compat; lra.
  - apply Rmult_le_compat; [|lra| |lra].
    + apply Rlt_le, Rdiv_lt_0_compat; lra.
    + lra.
Qed.
