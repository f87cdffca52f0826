(** Boundary curves: frame, curvature, boundary coordinates. *)
From Coq Require Import ZArith List Bool Reals Lia Lra.
From Coquelicot Require Import Coquelicot.
From Verif Require Import Model_Py Model_Multivalue Model_Grid Model_Domain Spec_Domain Proof_Domain Proof_Chebyshev.
Import ListNotations.
Open Scope R_scope.

Section Curve.
Context (r : R -> R) (Hr : forall th, ex_derive r th).

Lemma d_x_eq : forall th, b_d_x r th = b_d_r r th * cos th - r th * sin th.
Proof.
  intros th. unfold b_d_x, b_d_r. apply is_derive_unique. pose proof (Hr th).
  auto_derive; [assumption|]. replace (Derive (fun x => r x) th) with (Derive r th) by reflexivity. ring.
Qed.

Lemma d_y_eq : forall th, b_d_y r th = b_d_r r th * sin th + r th * cos th.
Proof.
  intros th. unfold b_d_y, b_d_r. apply is_derive_unique. pose proof (Hr th).
  auto_derive; [assumption|]. replace (Derive (fun x => r x) th) with (Derive r th) by reflexivity. ring.
Qed.

Lemma sc2 : forall th, sin th ^ 2 = 1 - cos th ^ 2.
Proof. intros th. pose proof (sin2_cos2 th) as H. unfold Rsqr in H. lra. Qed.

Lemma speed_eq : forall th, b_d_x r th ^ 2 + b_d_y r th ^ 2 = r th ^ 2 + b_d_r r th ^ 2.
Proof. intros th. rewrite d_x_eq, d_y_eq. pose proof (sc2 th) as H. ring [H]. Qed.

Lemma tangent_eq : forall th, eval_tangent r th =
  ((b_d_r r th * cos th - r th * sin th) / b_d_s r th,
   (b_d_r r th * sin th + r th * cos th) / b_d_s r th).
Proof.
  intros th. unfold eval_tangent. rewrite speed_eq. fold (b_d_s r th). rewrite d_x_eq, d_y_eq. reflexivity.
Qed.

Lemma normal_eq : forall th, eval_normal r th =
  ((b_d_r r th * sin th + r th * cos th) / b_d_s r th,
   - ((b_d_r r th * cos th - r th * sin th) / b_d_s r th)).
Proof. intros th. unfold eval_normal. rewrite tangent_eq. reflexivity. Qed.

Lemma d_s_sq : forall th, b_d_s r th ^ 2 = r th ^ 2 + b_d_r r th ^ 2.
Proof.
  intros th. unfold b_d_s. rewrite <- Rsqr_pow2, Rsqr_sqrt; [reflexivity|].
  pose proof (pow2_ge_0 (r th)). pose proof (pow2_ge_0 (b_d_r r th)). lra.
Qed.

Lemma d_s_pos : forall th, 0 < r th ^ 2 + b_d_r r th ^ 2 -> 0 < b_d_s r th.
Proof. intros th H. apply sqrt_lt_R0. assumption. Qed.

Lemma frame_orthonormal : forall th tx ty nx ny, 0 < r th ^ 2 + b_d_r r th ^ 2 ->
  eval_tangent r th = (tx, ty) -> eval_normal r th = (nx, ny) ->
  tx ^ 2 + ty ^ 2 = 1 /\ nx ^ 2 + ny ^ 2 = 1 /\ tx * nx + ty * ny = 0 /\
  nx * cos th + ny * sin th = r th / b_d_s r th /\ nx = ty /\ ny = - tx.
Proof.
  intros th tx ty nx ny Hs Ht Hn. rewrite tangent_eq in Ht. rewrite normal_eq in Hn.
  injection Ht as <- <-. injection Hn as <- <-.
  pose proof (d_s_pos th Hs) as Hp. pose proof (d_s_sq th) as Hq. pose proof (sc2 th) as H2.
  repeat split; field_simplify_eq; try lra; try (ring [H2 Hq]).
Qed.

(** The half squared distance and its derivative. *)
Lemma dist_deriv_correct : forall x1 y1 th,
  is_derive (fun t => ((x1 - r t * cos t) ^ 2 + (y1 - r t * sin t) ^ 2) / 2) th
    (eval_dist_deriv r x1 y1 th).
Proof.
  intros x1 y1 th. pose proof (Hr th). unfold eval_dist_deriv, b_d_r. auto_derive; [auto|].
  replace (Derive (fun x => r x) th) with (Derive r th) by reflexivity. field.
Qed.

(** At a critical point the displacement is along the normal. *)
Lemma normal_displacement : forall x1 y1 th nx ny, 0 < r th ^ 2 + b_d_r r th ^ 2 ->
  eval_dist_deriv r x1 y1 th = 0 -> eval_normal r th = (nx, ny) ->
  let d := nx * (x1 - r th * cos th) + ny * (y1 - r th * sin th) in
  x1 = r th * cos th + d * nx /\ y1 = r th * sin th + d * ny /\
  sqrt ((x1 - r th * cos th) ^ 2 + (y1 - r th * sin th) ^ 2) = Rabs d.
Proof.
  intros x1 y1 th nx ny Hs H0 Hn d.
  destruct (eval_tangent r th) as [tx ty] eqn:Ht.
  destruct (frame_orthonormal th tx ty nx ny Hs Ht Hn) as (T1 & N1 & TN & _ & E1 & E2).
  pose proof (d_s_pos th Hs) as Hp.
  set (u := x1 - r th * cos th) in *. set (v := y1 - r th * sin th) in *.
  assert (Hdot : u * tx + v * ty = 0).
  { rewrite tangent_eq in Ht. injection Ht as <- <-.
    unfold eval_dist_deriv in H0. fold u v in H0.
    replace (u * ((b_d_r r th * cos th - r th * sin th) / b_d_s r th) +
      v * ((b_d_r r th * sin th + r th * cos th) / b_d_s r th))
    with (- (u * (- b_d_r r th * cos th + r th * sin th) + v * (- b_d_r r th * sin th - r th * cos th)) / b_d_s r th)
      by (field; lra).
    rewrite H0. field. lra. }
  subst nx ny. unfold d.
  assert (Ux : u = (ty * u + - tx * v) * ty).
  { replace ((ty * u + - tx * v) * ty) with (u * (tx ^ 2 + ty ^ 2) - tx * (u * tx + v * ty)) by ring.
    rewrite T1, Hdot. ring. }
  assert (Vy : v = (ty * u + - tx * v) * - tx).
  { replace ((ty * u + - tx * v) * - tx) with (v * (tx ^ 2 + ty ^ 2) - ty * (u * tx + v * ty)) by ring.
    rewrite T1, Hdot. ring. }
  split; [unfold u in *; lra|]. split; [unfold v in *; lra|].
  rewrite <- sqrt_Rsqr_abs. f_equal.
  rewrite Rsqr_pow2.
  replace (u ^ 2 + v ^ 2) with ((u ^ 2 + v ^ 2) * (tx ^ 2 + ty ^ 2) - (u * tx + v * ty) ^ 2)
    by (rewrite T1, Hdot; ring).
  ring.
Qed.

Lemma boundary_coord_reconstructs : forall brentq a r1 th1 n th0,
  (forall lo hi x1 y1 x, brentq (eval_dist_deriv r x1 y1) lo hi = Some x -> eval_dist_deriv r x1 y1 x = 0) ->
  (forall th, 0 < r th ^ 2 + b_d_r r th ^ 2) ->
  get_boundary_coord brentq r a r1 th1 = Some (n, th0) ->
  r1 * cos th1 = r th0 * cos th0 + n * fst (eval_normal r th0) /\
  r1 * sin th1 = r th0 * sin th0 + n * snd (eval_normal r th0).
Proof.
  intros brentq a r1 th1 n th0 Hb Hs H. unfold get_boundary_coord in H.
  destruct (brentq _ _ _) as [th|] eqn:E; [|discriminate].
  apply Hb in E. destruct (eval_normal r th) as [nx ny] eqn:En.
  destruct (normal_displacement _ _ th nx ny (Hs th) E En) as (X & Y & D).
  set (d := nx * (r1 * cos th1 - r th * cos th) + ny * (r1 * sin th1 - r th * sin th)) in *.
  match type of H with Some (?p, ?q) = _ => assert (H1 : p = n) by congruence; assert (H2 : q = th0) by congruence end.
  clear H. subst th0. rewrite D in H1. rewrite En. cbn [fst snd].
  assert (Hnd : n = d).
  { rewrite <- H1. destruct (Rltb_spec d 0) as [Hd|Hd].
    - rewrite Rabs_left by assumption. ring.
    - rewrite Rabs_pos_eq by lra. reflexivity. }
  subst n. rewrite Hnd. split; assumption.
Qed.

(** ** Curvature *)

Context (Hr2 : forall th, ex_derive (b_d_r r) th).

Lemma curv_eq : forall th, 0 < r th ^ 2 + b_d_r r th ^ 2 ->
  b_curv r th = - (r th ^ 2 + 2 * b_d_r r th ^ 2 - r th * b_d2_r r th) / b_d_s r th ^ 3.
Proof.
  intros th Hs. unfold b_curv. f_equal.
  destruct (half_powers _ Hs) as (H3 & _). rewrite H3. reflexivity.
Qed.

Lemma d_s_derive : forall th, 0 < r th ^ 2 + b_d_r r th ^ 2 ->
  is_derive (b_d_s r) th ((r th * b_d_r r th + b_d_r r th * b_d2_r r th) / b_d_s r th).
Proof.
  intros th Hs. pose proof (Hr th). pose proof (Hr2 th). pose proof (d_s_pos th Hs) as Hp.
  unfold b_d_s. auto_derive.
  - repeat split; try assumption; lra.
  - replace (Derive (fun x => r x) th) with (b_d_r r th) by reflexivity.
    replace (Derive (fun x => b_d_r r x) th) with (b_d2_r r th) by reflexivity.
    unfold b_d_s in Hp. 
    replace (r th * (r th * 1) + b_d_r r th * (b_d_r r th * 1)) with (r th ^ 2 + b_d_r r th ^ 2) by ring.
    field. lra.
Qed.

Lemma tangent_derive : forall th, (forall t, 0 < r t ^ 2 + b_d_r r t ^ 2) ->
  is_derive (fun t => fst (eval_tangent r t)) th (b_d_s r th * b_curv r th * fst (eval_normal r th)) /\
  is_derive (fun t => snd (eval_tangent r t)) th (b_d_s r th * b_curv r th * snd (eval_normal r th)).
Proof.
  intros th Hs. pose proof (d_s_pos th (Hs th)) as Hp.
  pose proof (d_s_derive th (Hs th)) as DS. pose proof (Hr th) as E1. pose proof (Hr2 th) as E2.
  assert (E3 : ex_derive (b_d_s r) th) by (eexists; exact DS).
  rewrite curv_eq by apply Hs. rewrite normal_eq. cbn [fst snd].
  pose proof (d_s_sq th) as Hq. pose proof (sc2 th) as H2.
  assert (Hq' : r th ^ 2 = b_d_s r th ^ 2 - b_d_r r th ^ 2) by lra.
  split.
  - apply is_derive_ext with (fun t => (b_d_r r t * cos t - r t * sin t) / b_d_s r t).
    { intros t. rewrite tangent_eq. reflexivity. }
    auto_derive.
    + repeat split; try assumption. lra.
    + replace (Derive (fun x => r x) th) with (b_d_r r th) by reflexivity.
      replace (Derive (fun x => b_d_r r x) th) with (b_d2_r r th) by reflexivity.
      replace (Derive (fun x => b_d_s r x) th) with ((r th * b_d_r r th + b_d_r r th * b_d2_r r th) / b_d_s r th)
        by (symmetry; apply is_derive_unique; exact DS).
      field_simplify_eq; [|lra].
      generalize dependent (b_d_s r th). intros v. intros. 
      generalize dependent (r th). intros. generalize dependent (b_d_r r th). intros.
      generalize dependent (b_d2_r r th). intros. 
      generalize dependent (cos th). intros. generalize dependent (sin th). intros.
      assert (Hv : v ^ 2 = r0 ^ 2 + r1 ^ 2) by lra. clear Hq'. ring [Hv].
  - apply is_derive_ext with (fun t => (b_d_r r t * sin t + r t * cos t) / b_d_s r t).
    { intros t. rewrite tangent_eq. reflexivity. }
    auto_derive.
    + repeat split; try assumption. lra.
    + replace (Derive (fun x => r x) th) with (b_d_r r th) by reflexivity.
      replace (Derive (fun x => b_d_r r x) th) with (b_d2_r r th) by reflexivity.
      replace (Derive (fun x => b_d_s r x) th) with ((r th * b_d_r r th + b_d_r r th * b_d2_r r th) / b_d_s r th)
        by (symmetry; apply is_derive_unique; exact DS).
      field_simplify_eq; [|lra].
      generalize dependent (b_d_s r th). intros v. intros. 
      generalize dependent (r th). intros. generalize dependent (b_d_r r th). intros.
      generalize dependent (b_d2_r r th). intros. 
      generalize dependent (cos th). intros. generalize dependent (sin th). intros.
      assert (Hv : v ^ 2 = r0 ^ 2 + r1 ^ 2) by lra. clear Hq'. ring [Hv].
Qed.

Lemma dist_deriv_continuous : forall x1 y1 th, continuous (eval_dist_deriv r x1 y1) th.
Proof.
  intros x1 y1 th. pose proof (Hr th) as E1. pose proof (Hr2 th) as E2.
  apply (ex_derive_continuous (V := R_NormedModule)). unfold eval_dist_deriv. auto_derive. repeat split; trivial; apply E1 || apply E2.
Qed.

End Curve.

(** The same with the brentq contract restricted to the interval searched. *)
Lemma brentq_some : forall brentq f lo hi x, brentq_contract brentq -> lo <= hi ->
  (forall t, continuous f t) -> brentq f lo hi = Some x -> lo <= x <= hi /\ f x = 0.
Proof.
  intros brentq f lo hi x Hb Hle Hc H. destruct (Hb f lo hi Hle Hc) as [H1 H2].
  destruct (Rlt_le_dec 0 (f lo * f hi)) as [Hp|Hn].
  - rewrite (H1 Hp) in H. discriminate.
  - destruct (H2 Hn) as (y & E & B & Z). rewrite E in H. injection H as <-. auto.
Qed.

Lemma search_le : forall a th1, 0 < a -> a / 2 <= th1 <= 2 * PI + a / 2 ->
  th1 - PI / 7 <= search_lo a th1 <= th1 /\ th1 <= search_hi a th1 <= th1 + PI / 7 /\
  a / 2 <= search_lo a th1 /\ search_hi a th1 <= 2 * PI + a / 2.
Proof.
  intros a th1 Ha H. pose proof PI_RGT_0. unfold search_lo, search_hi.
  destruct (Rltb_spec (th1 - PI / 7) (a / 2)); destruct (Rltb_spec (2 * PI + a / 2) (th1 + PI / 7)); lra.
Qed.

Lemma boundary_coord_contract : forall brentq r a r1 th1 n th0,
  brentq_contract brentq -> (forall th, ex_derive r th) -> (forall th, ex_derive (b_d_r r) th) ->
  (forall th, 0 < r th ^ 2 + b_d_r r th ^ 2) ->
  0 < a -> a / 2 <= th1 <= 2 * PI + a / 2 ->
  get_boundary_coord brentq r a r1 th1 = Some (n, th0) ->
  r1 * cos th1 = r th0 * cos th0 + n * fst (eval_normal r th0) /\
  r1 * sin th1 = r th0 * sin th0 + n * snd (eval_normal r th0) /\
  search_lo a th1 <= th0 <= search_hi a th1 /\
  eval_dist_deriv r (r1 * cos th1) (r1 * sin th1) th0 = 0.
Proof.
  intros brentq r a r1 th1 n th0 Hb Hr Hr2 Hs Ha Hth H.
  assert (Hx : exists t, brentq (eval_dist_deriv r (r1 * cos th1) (r1 * sin th1)) (search_lo a th1) (search_hi a th1) = Some t /\ t = th0).
  { unfold get_boundary_coord in H.
    destruct (brentq _ _ _) as [t|] eqn:E; [|discriminate]. exists t. split; [reflexivity|].
    destruct (eval_normal r t). congruence. }
  destruct Hx as (t & E & ->).
  pose proof (search_le a th1 Ha Hth) as B.
  assert (Hle : search_lo a th1 <= search_hi a th1) by lra.
  destruct (brentq_some _ _ _ _ _ Hb Hle (dist_deriv_continuous r Hr Hr2 _ _) E) as [B' Z].
  set (bq := fun (f : R -> R) (_ _ : R) => Some th0).
  assert (H' : get_boundary_coord bq r a r1 th1 = Some (n, th0)).
  { unfold get_boundary_coord in H |- *. rewrite E in H. exact H. }
  clear H. unfold get_boundary_coord, bq in H'. 
  destruct (eval_normal r th0) as [nx ny] eqn:En.
  destruct (normal_displacement r Hr _ _ th0 nx ny (Hs th0) Z En) as (X & Y & D).
  set (d := nx * (r1 * cos th1 - r th0 * cos th0) + ny * (r1 * sin th1 - r th0 * sin th0)) in *.
  match type of H' with Some (?p, ?q) = _ => assert (H1 : p = n) by congruence end.
  rewrite D in H1. cbn [fst snd].
  assert (Hnd : n = d).
  { rewrite <- H1. destruct (Rltb_spec d 0) as [Hd|Hd].
    - rewrite Rabs_left by assumption. ring.
    - rewrite Rabs_pos_eq by lra. reflexivity. }
  subst n. rewrite Hnd. auto.
Qed.

(** ** The arc *)

Lemma arc_d_r : forall R0 th, b_d_r (r_arc R0) th = 0.
Proof. intros. unfold b_d_r, r_arc. apply Derive_const. Qed.

Lemma arc_ex : forall R0 th, ex_derive (r_arc R0) th.
Proof. intros. unfold r_arc. apply ex_derive_const. Qed.

Lemma arc_ex2 : forall R0 th, ex_derive (b_d_r (r_arc R0)) th.
Proof.
  intros. apply ex_derive_ext with (fun _ => 0).
  - intros t. symmetry. apply arc_d_r.
  - apply ex_derive_const.
Qed.

Lemma arc_d2_r : forall R0 th, b_d2_r (r_arc R0) th = 0.
Proof.
  intros. unfold b_d2_r. rewrite (Derive_ext _ (fun _ => 0)); [apply Derive_const|]. intros. apply arc_d_r.
Qed.

Lemma arc_speed : forall R0 th, 0 < R0 -> 0 < r_arc R0 th ^ 2 + b_d_r (r_arc R0) th ^ 2.
Proof. intros R0 th H. rewrite arc_d_r. unfold r_arc. pose proof (pow_lt R0 2 H). lra. Qed.

Lemma arc_d_s : forall R0 th, 0 < R0 -> b_d_s (r_arc R0) th = R0.
Proof.
  intros R0 th H. unfold b_d_s. rewrite arc_d_r. unfold r_arc.
  replace (R0 ^ 2 + 0 ^ 2) with (R0 ^ 2) by ring. apply sqrt_pow2. lra.
Qed.

Lemma arc_normal : forall R0 th, 0 < R0 -> eval_normal (r_arc R0) th = (cos th, sin th).
Proof.
  intros R0 th H. rewrite (normal_eq _ (arc_ex R0)). rewrite arc_d_r, arc_d_s by assumption.
  unfold r_arc. f_equal; field; lra.
Qed.

Lemma arc_curv : forall R0 th, 0 < R0 -> b_curv (r_arc R0) th = - 1 / R0.
Proof.
  intros R0 th H. rewrite curv_eq by (apply arc_speed; assumption).
  rewrite arc_d_r, arc_d2_r, arc_d_s by assumption. unfold r_arc. field. lra.
Qed.

Lemma arc_dist_deriv : forall R0 r1 th1 th,
  eval_dist_deriv (r_arc R0) (r1 * cos th1) (r1 * sin th1) th = R0 * r1 * sin (th - th1).
Proof.
  intros. unfold eval_dist_deriv. rewrite arc_d_r. unfold r_arc. rewrite sin_minus. ring.
Qed.

Lemma arc_boundary_coord : forall brentq R0 a r1 th1, brentq_contract brentq ->
  0 < R0 -> 0 < a -> 0 <= r1 -> a / 2 <= th1 <= 2 * PI + a / 2 ->
  exists th0, get_boundary_coord brentq (r_arc R0) a r1 th1 = Some (r1 - R0, th0) /\
    search_lo a th1 <= th0 <= search_hi a th1 /\ (0 < r1 -> th0 = th1).
Proof.
  intros brentq R0 a r1 th1 Hb HR Ha Hr1 Hth.
  pose proof (search_le a th1 Ha Hth) as B. pose proof PI_RGT_0 as HPI.
  set (f := eval_dist_deriv (r_arc R0) (r1 * cos th1) (r1 * sin th1)).
  assert (Hc : forall t, continuous f t) by (apply dist_deriv_continuous; [apply arc_ex|apply arc_ex2]).
  assert (HRr : 0 <= R0 * r1) by (apply Rmult_le_pos; lra).
  assert (Hlo : f (search_lo a th1) <= 0).
  { unfold f. rewrite arc_dist_deriv.
    assert (0 <= sin (th1 - search_lo a th1)) by (apply sin_ge_0; lra).
    replace (search_lo a th1 - th1) with (- (th1 - search_lo a th1)) by ring. rewrite sin_neg.
    assert (0 <= R0 * r1 * sin (th1 - search_lo a th1)) by (apply Rmult_le_pos; lra). lra. }
  assert (Hhi : 0 <= f (search_hi a th1)).
  { unfold f. rewrite arc_dist_deriv. apply Rmult_le_pos; [lra|]. apply sin_ge_0; lra. }
  assert (Hprod : f (search_lo a th1) * f (search_hi a th1) <= 0).
  { assert (0 <= - f (search_lo a th1) * f (search_hi a th1)) by (apply Rmult_le_pos; lra). lra. }
  assert (Hle : search_lo a th1 <= search_hi a th1) by lra.
  destruct (Hb f _ _ Hle Hc) as [_ H2]. destruct (H2 Hprod) as (th0 & E & B0 & Z).
  assert (Hsome : exists n, get_boundary_coord brentq (r_arc R0) a r1 th1 = Some (n, th0)).
  { unfold get_boundary_coord. fold f. rewrite E. destruct (eval_normal (r_arc R0) th0). eexists. reflexivity. }
  destruct Hsome as [n Hn].
  destruct (boundary_coord_contract _ _ _ _ _ _ _ Hb (arc_ex R0) (arc_ex2 R0)
     (fun th => arc_speed R0 th HR) Ha Hth Hn) as (X & Y & _ & _).
  rewrite arc_normal in X, Y by assumption. cbn [fst snd] in X, Y. unfold r_arc in X, Y.
  assert (Hth0 : 0 < r1 -> th0 = th1).
  { intros Hp. unfold f in Z. rewrite arc_dist_deriv in Z.
    assert (Zs : sin (th0 - th1) = 0).
    { apply Rmult_integral in Z. destruct Z as [Z|Z]; [|assumption].
      exfalso. apply Rmult_integral in Z. lra. }
    destruct (Rtotal_order th0 th1) as [L|[L|L]]; [|assumption|].
    - assert (0 < sin (th1 - th0)) by (apply sin_gt_0; lra).
      replace (th1 - th0) with (- (th0 - th1)) in * by ring. rewrite sin_neg in *. lra.
    - assert (0 < sin (th0 - th1)) by (apply sin_gt_0; lra). lra. }
  exists th0. split; [|split; [assumption|assumption]].
  rewrite Hn. do 2 f_equal.
  pose proof (sin2_cos2 th0) as P. unfold Rsqr in P.
  destruct (Rle_lt_or_eq_dec 0 r1 Hr1) as [Hp|E0].
  - specialize (Hth0 Hp). subst th0.
    assert (M : (r1 - R0 - n) * (cos th1 * cos th1 + sin th1 * sin th1) = 0).
    { replace ((r1 - R0 - n) * (cos th1 * cos th1 + sin th1 * sin th1)) with
       (cos th1 * (r1 * cos th1 - (R0 * cos th1 + n * cos th1)) +
        sin th1 * (r1 * sin th1 - (R0 * sin th1 + n * sin th1))) by ring.
      rewrite X, Y. ring. }
    rewrite Rplus_comm in P. rewrite P in M. lra.
  - subst r1.
    assert (M : (- R0 - n) * (cos th0 * cos th0 + sin th0 * sin th0) = 0).
    { replace ((- R0 - n) * (cos th0 * cos th0 + sin th0 * sin th0)) with
       (cos th0 * (0 * cos th1 - (R0 * cos th0 + n * cos th0)) +
        sin th0 * (0 * sin th1 - (R0 * sin th0 + n * sin th0))) by ring.
      rewrite X, Y. ring. }
    rewrite Rplus_comm in P. rewrite P in M. lra.
Qed.

(** ** The curves end at the corners *)

Lemma curves_corners : forall R0 bet nu a, nu * (2 * PI - a) = PI ->
  (r_arc R0 a = R0 /\ r_arc R0 (2 * PI) = R0) /\
  (r_outer_sine R0 bet nu a a = R0 /\ r_outer_sine R0 bet nu a (2 * PI) = R0) /\
  (r_inner_sine R0 bet nu a a = R0 /\ r_inner_sine R0 bet nu a (2 * PI) = R0) /\
  (r_sine7 R0 bet nu a a = R0 /\ r_sine7 R0 bet nu a (2 * PI) = R0) /\
  (r_cubic R0 bet a a = R0 /\ r_cubic R0 bet a (2 * PI) = R0).
Proof.
  intros R0 bet nu a H.
  assert (S0 : forall c, sin (c * (a - a)) = 0) by (intros c; replace (c * (a - a)) with 0 by ring; apply sin_0).
  assert (S7 : sin (7 * nu * (2 * PI - a)) = 0).
  { rewrite Rmult_assoc, H. replace (7 * PI) with (PI + 2 * INR 3 * PI) by (simpl; ring).
    rewrite sin_period. apply sin_PI. }
  unfold r_arc, r_outer_sine, r_inner_sine, r_sine7, r_cubic.
  rewrite !S0, S7, !H, sin_PI. repeat split; ring.
Qed.

(** ** Inverse of the arclength *)

Section Inverse.
Context (S Th S' : R -> R) (HS : forall x, is_derive S x (S' x)) (Hpos : forall x, 0 < S' x)
  (H2 : forall y, S (Th y) = y).

Lemma S_incr : forall x y, x < y -> S x < S y.
Proof.
  intros x y Hxy. destruct (MVT_cor2 S S' x y Hxy) as (c & E & _).
  - intros c _. apply is_derive_Reals. apply HS.
  - assert (0 < S' c * (y - x)) by (apply Rmult_lt_0_compat; [apply Hpos|lra]). lra.
Qed.

Lemma Th_between : forall lo hi y, S lo < y < S hi -> lo < Th y < hi.
Proof.
  intros lo hi y [Hl Hh]. rewrite <- (H2 y) in Hl, Hh. split; apply Rnot_le_lt; intros Hle.
  - destruct Hle as [Hlt|E]; [apply S_incr in Hlt; lra|rewrite E in Hl; lra].
  - destruct Hle as [Hlt|E]; [apply S_incr in Hlt; lra|rewrite E in Hh; lra].
Qed.

Lemma inverse_derive : forall y, is_derive Th y (/ S' (Th y)).
Proof.
  intros y. apply is_derive_Reals. set (x := Th y). set (p := S' x).
  assert (Hp : 0 < p) by apply Hpos.
  intros eps Heps.
  set (eta := Rmin (p / 2) (eps * p * p / 4)).
  assert (Heta : 0 < eta).
  { unfold eta. apply Rmin_pos; [lra|].
    assert (0 < eps * p) by (apply Rmult_lt_0_compat; lra).
    assert (0 < eps * p * p) by (apply Rmult_lt_0_compat; lra). lra. }
  pose proof (HS x) as D. apply is_derive_Reals in D. destruct (D eta Heta) as [dl Hdl].
  assert (Sx : S x = y) by apply H2.
  pose proof (cond_pos dl) as Hdp.
  assert (HL : S (x - dl) < y) by (rewrite <- Sx; apply S_incr; lra).
  assert (HH : y < S (x + dl)) by (rewrite <- Sx; apply S_incr; lra).
  assert (Hd : 0 < Rmin (y - S (x - dl)) (S (x + dl) - y)) by (apply Rmin_pos; lra).
  exists (mkposreal _ Hd). intros h Hh0 Hh. simpl in Hh.
  pose proof (Rmin_l (y - S (x - dl)) (S (x + dl) - y)). pose proof (Rmin_r (y - S (x - dl)) (S (x + dl) - y)).
  apply Rabs_def2 in Hh.
  assert (B : x - dl < Th (y + h) < x + dl) by (apply Th_between; lra).
  set (k := Th (y + h) - x).
  assert (Hk : k <> 0).
  { intros E. assert (E' : Th (y + h) = x) by (unfold k in E; lra).
    apply (f_equal S) in E'. rewrite H2, Sx in E'. lra. }
  assert (Hkd : Rabs k < dl) by (apply Rabs_def1; unfold k; lra).
  specialize (Hdl k Hk Hkd).
  replace (S (x + k)) with (y + h) in Hdl by (unfold k; replace (x + (Th (y + h) - x)) with (Th (y + h)) by ring; rewrite H2; reflexivity).
  rewrite Sx in Hdl. replace ((y + h - y) / k) with (h / k) in Hdl by (field; assumption).
  fold p in Hdl. fold x. change (Th y) with x. fold k.
  set (q := h / k) in *. apply Rabs_def2 in Hdl as Hq.
  pose proof (Rmin_l (p / 2) (eps * p * p / 4)) as M1. pose proof (Rmin_r (p / 2) (eps * p * p / 4)) as M2.
  fold eta in M1, M2.
  assert (Hq0 : p / 2 < q) by lra.
  replace (k / h) with (/ q) by (unfold q; field; auto).
  replace (/ q - / p) with ((p - q) / (p * q)) by (field; lra).
  unfold Rdiv. rewrite Rabs_mult. rewrite (Rabs_pos_eq (/ (p * q))).
  2:{ apply Rlt_le, Rinv_0_lt_compat, Rmult_lt_0_compat; lra. }
  apply Rmult_lt_reg_r with (p * q); [apply Rmult_lt_0_compat; lra|].
  rewrite Rmult_assoc, Rinv_l, Rmult_1_r by (apply Rgt_not_eq, Rmult_lt_0_compat; lra).
  rewrite Rabs_minus_sym. eapply Rlt_le_trans; [exact Hdl|].
  assert (eps * p * (p / 2) <= eps * p * q).
  { apply Rmult_le_compat_l; [|lra]. apply Rlt_le, Rmult_lt_0_compat; lra. }
  lra.
Qed.

End Inverse.

(** The model's d_th_s ... d4_th_s along an inverse of the arclength. *)
Section ArcLength.
Context (r : R -> R) (S Th : R -> R)
  (Hs : forall th, 0 < r th ^ 2 + b_d_r r th ^ 2)
  (HS : forall th, is_derive S th (b_d_s r th))
  (H2 : forall y, S (Th y) = y)
  (E1 : forall th, ex_derive (b_d_s r) th) (E2 : forall th, ex_derive (b_d2_s r) th)
  (E3 : forall th, ex_derive (b_d3_s r) th).

Lemma Hds : forall th, 0 < b_d_s r th.
Proof. intros th. apply d_s_pos. apply Hs. Qed.

Lemma Th_derive : forall s, is_derive Th s (b_d_th r (Th s)).
Proof.
  intros s. pose proof (inverse_derive S Th (b_d_s r) HS Hds H2 s) as D.
  unfold b_d_th, f_d_th_s. replace (1 / b_d_s r (Th s)) with (/ b_d_s r (Th s)); [exact D|].
  field. apply Rgt_not_eq, Hds.
Qed.

Lemma ex_comp : forall f s, (forall x, ex_derive f x) -> 
  is_derive (fun s => f (Th s)) s (b_d_th r (Th s) * Derive f (Th s)).
Proof.
  intros f s Hf. pose proof (is_derive_comp f Th s (Derive f (Th s)) (b_d_th r (Th s))) as D.
  apply D; [apply Derive_correct, Hf|apply Th_derive].
Qed.

Lemma d_th_derive : forall s, is_derive (fun s => b_d_th r (Th s)) s (b_d2_th r (Th s)).
Proof.
  intros s. pose proof (ex_comp (b_d_s r) s E1) as D. pose proof (Hds (Th s)) as P.
  set (g := fun s => b_d_s r (Th s)) in D.
  assert (Ex : ex_derive g s) by (eexists; exact D).
  apply is_derive_ext with (fun s => 1 / g s); [reflexivity|].
  auto_derive; [split; [assumption|split; [apply Rgt_not_eq; exact P|exact I]]|].
  replace (Derive (fun x => g x) s) with (b_d_th r (Th s) * Derive (b_d_s r) (Th s))
    by (symmetry; apply is_derive_unique; exact D).
  unfold g, b_d2_th, f_d2_th_s, b_d_th, f_d_th_s, b_d2_s. field. lra.
Qed.

Lemma d2_th_derive : forall s, is_derive (fun s => b_d2_th r (Th s)) s (b_d3_th r (Th s)).
Proof.
  intros s. pose proof (ex_comp (b_d2_s r) s E2) as D. pose proof (d_th_derive s) as D1.
  set (g := fun s => b_d2_s r (Th s)) in D. set (t := fun s => b_d_th r (Th s)) in D1.
  assert (Ex : ex_derive g s) by (eexists; exact D).
  assert (Ex1 : ex_derive t s) by (eexists; exact D1).
  apply is_derive_ext with (fun s => - g s * t s ^ 3); [reflexivity|].
  auto_derive; [auto|].
  replace (Derive (fun x => g x) s) with (b_d_th r (Th s) * Derive (b_d2_s r) (Th s))
    by (symmetry; apply is_derive_unique; exact D).
  replace (Derive (fun x => t x) s) with (b_d2_th r (Th s))
    by (symmetry; apply is_derive_unique; exact D1).
  unfold g, t, b_d3_th, f_d3_th_s, b_d3_s. ring.
Qed.

Lemma d3_th_derive : forall s, is_derive (fun s => b_d3_th r (Th s)) s (b_d4_th r (Th s)).
Proof.
  intros s. pose proof (ex_comp (b_d2_s r) s E2) as D. pose proof (ex_comp (b_d3_s r) s E3) as D'.
  pose proof (d_th_derive s) as D1. pose proof (d2_th_derive s) as D2.
  set (g := fun s => b_d2_s r (Th s)) in D. set (g' := fun s => b_d3_s r (Th s)) in D'.
  set (t := fun s => b_d_th r (Th s)) in D1. set (t' := fun s => b_d2_th r (Th s)) in D2.
  assert (Ex : ex_derive g s) by (eexists; exact D).
  assert (Ex' : ex_derive g' s) by (eexists; exact D').
  assert (Ex1 : ex_derive t s) by (eexists; exact D1).
  assert (Ex2 : ex_derive t' s) by (eexists; exact D2).
  apply is_derive_ext with (fun s => - g' s * t s ^ 4 - 3 * g s * t' s * t s ^ 2); [reflexivity|].
  auto_derive; [auto 10|].
  replace (Derive (fun x => g x) s) with (b_d_th r (Th s) * Derive (b_d2_s r) (Th s))
    by (symmetry; apply is_derive_unique; exact D).
  replace (Derive (fun x => g' x) s) with (b_d_th r (Th s) * Derive (b_d3_s r) (Th s))
    by (symmetry; apply is_derive_unique; exact D').
  replace (Derive (fun x => t x) s) with (b_d2_th r (Th s))
    by (symmetry; apply is_derive_unique; exact D1).
  replace (Derive (fun x => t' x) s) with (b_d3_th r (Th s))
    by (symmetry; apply is_derive_unique; exact D2).
  fold (b_d3_s r) (b_d4_s r). change (Derive (b_d2_s r)) with (b_d3_s r). change (Derive (b_d3_s r)) with (b_d4_s r).
  unfold g, g', t, t', b_d4_th, f_d4_th_s. ring.
Qed.

End ArcLength.

(** ** Restatements used by the property file *)

Lemma frame_spec : forall r th tx ty nx ny, (forall t, ex_derive r t) ->
  0 < r th ^ 2 + Derive r th ^ 2 ->
  eval_tangent r th = (tx, ty) -> eval_normal r th = (nx, ny) ->
  (tx ^ 2 + ty ^ 2 = 1 /\ nx ^ 2 + ny ^ 2 = 1 /\ tx * nx + ty * ny = 0 /\ nx * ty - ny * tx = 1) /\
  (exists v, 0 < v /\ is_derive (fun t => r t * cos t) th (v * tx) /\
             is_derive (fun t => r t * sin t) th (v * ty)) /\
  (0 < r th -> 0 < nx * cos th + ny * sin th).
Proof.
  intros r th tx ty nx ny Hr Hs Ht Hn. change (Derive r th) with (b_d_r r th) in Hs.
  destruct (frame_orthonormal r Hr th tx ty nx ny Hs Ht Hn) as (A & B & Cc & D & E & F).
  pose proof (d_s_pos r th Hs) as Hp.
  split; [repeat split; try assumption; rewrite E, F; lra|]. split.
  - exists (b_d_s r th). split; [assumption|].
    rewrite tangent_eq in Ht by assumption. injection Ht as <- <-.
    pose proof (Hr th) as E1. split; auto_derive; try assumption;
    replace (Derive (fun x => r x) th) with (b_d_r r th) by reflexivity; field; lra.
  - intros Hpos. rewrite D. apply Rdiv_lt_0_compat; assumption.
Qed.

Lemma curvature_spec : forall r th tx ty nx ny, (forall t, ex_derive r t) -> (forall t, ex_derive (Derive r) t) ->
  (forall t, 0 < r t ^ 2 + Derive r t ^ 2) ->
  eval_tangent r th = (tx, ty) -> eval_normal r th = (nx, ny) ->
  let v := sqrt (r th ^ 2 + Derive r th ^ 2) in
  is_derive (fun t => r t * cos t) th (v * tx) /\ is_derive (fun t => r t * sin t) th (v * ty) /\
  is_derive (fun t => fst (eval_tangent r t)) th (v * (b_curv r th * nx)) /\
  is_derive (fun t => snd (eval_tangent r t)) th (v * (b_curv r th * ny)).
Proof.
  intros r th tx ty nx ny Hr Hr2 Hs Ht Hn v. change v with (b_d_s r th).
  destruct (tangent_derive r Hr Hr2 th Hs) as [D1 D2]. rewrite Hn in D1, D2. cbn [fst snd] in D1, D2.
  rewrite <- !Rmult_assoc. pose proof (d_s_pos r th (Hs th)) as Hp.
  rewrite tangent_eq in Ht by assumption. injection Ht as <- <-.
  pose proof (Hr th) as E1. split; [|split; [|split; [exact D1|exact D2]]]; auto_derive; try assumption;
    replace (Derive (fun x => r x) th) with (b_d_r r th) by reflexivity; field; lra.
Qed.

Lemma arc_coord_positive : forall brentq R0 a r1 th1, brentq_contract brentq ->
  0 < R0 -> 0 < a -> 0 < r1 -> a / 2 <= th1 <= 2 * PI + a / 2 ->
  get_boundary_coord brentq (r_arc R0) a r1 th1 = Some (r1 - R0, th1).
Proof.
  intros brentq R0 a r1 th1 Hb HR Ha Hr Hth.
  destruct (arc_boundary_coord brentq R0 a r1 th1 Hb HR Ha ltac:(lra) Hth) as (th0 & E & _ & Et).
  rewrite E, (Et Hr). reflexivity.
Qed.
