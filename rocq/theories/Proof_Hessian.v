(** Cartesian derivatives from polar ones, and the source at the origin. *)
From Coq Require Import String ZArith List Bool Reals Lia Lra.
From Coquelicot Require Import Coquelicot.
From Verif Require Import Model_Py Model_Grid Model_Multivalue Model_Fourier Model_Domain Model_Extend
  Model_ZMethod Model_Problems Proof_Domain Spec_Fd Spec_Problems Proof_Problems.
Import ListNotations.
Open Scope R_scope.

Lemma loc_loc : forall P x y, locally_2d P x y -> locally_2d (fun u v => locally_2d P u v) x y.
Proof.
  intros P x y [d H]. assert (Hd : 0 < d / 2) by (pose proof (cond_pos d); lra).
  exists (mkposreal _ Hd). cbn [pos]. intros u v Hu Hv. exists (mkposreal _ Hd). cbn [pos].
  intros u' v' Hu' Hv'.
  apply H; [replace (u' - x) with ((u' - u) + (u - x)) by ring|replace (v' - y) with ((v' - v) + (v - y)) by ring];
    eapply Rle_lt_trans; try apply Rabs_triang; lra.
Qed.

Lemma loc_comp : forall (P : R -> R -> Prop) (p q : R -> R -> R) x y,
  continuity_2d_pt p x y -> continuity_2d_pt q x y -> locally_2d P (p x y) (q x y) ->
  locally_2d (fun u v => P (p u v) (q u v)) x y.
Proof.
  intros P p q x y Hp Hq [d H]. destruct (Hp d) as [d1 H1]. destruct (Hq d) as [d2 H2].
  assert (Hd : 0 < Rmin d1 d2) by (apply Rmin_glb_lt; apply cond_pos).
  exists (mkposreal _ Hd). cbn [pos]. intros u v Hu Hv.
  pose proof (Rmin_l d1 d2). pose proof (Rmin_r d1 d2).
  apply H; [apply H1|apply H2]; lra.
Qed.

Lemma polar_cont : forall r th, continuity_2d_pt (fun r th => r * cos th) r th /\
  continuity_2d_pt (fun r th => r * sin th) r th.
Proof.
  intros r th. split; (apply continuity_2d_pt_mult; [apply continuity_2d_pt_id1|]).
  - apply (continuity_1d_2d_pt_comp cos (fun _ v => v)); [apply continuity_cos|apply continuity_2d_pt_id2].
  - apply (continuity_1d_2d_pt_comp sin (fun _ v => v)); [apply continuity_sin|apply continuity_2d_pt_id2].
Qed.

Lemma polar_and : forall (P Q : R -> R -> Prop) x y, locally_2d P x y -> locally_2d Q x y ->
  locally_2d (fun u v => P u v /\ Q u v) x y.
Proof.
  intros P Q x y [d1 H1] [d2 H2].
  assert (Hd : 0 < Rmin d1 d2) by (apply Rmin_glb_lt; apply cond_pos).
  exists (mkposreal _ Hd). cbn [pos]. intros u v Hu Hv.
  pose proof (Rmin_l d1 d2). pose proof (Rmin_r d1 d2). split; [apply H1|apply H2]; lra.
Qed.

Lemma loc_x : forall (P : R -> R -> Prop) x y, locally_2d P x y -> locally x (fun t => P t y).
Proof.
  intros P x y [d H]. exists d. intros t Ht. apply H; [exact Ht|].
  replace (y - y) with 0 by ring. rewrite Rabs_R0. apply cond_pos.
Qed.
Lemma loc_y : forall (P : R -> R -> Prop) x y, locally_2d P x y -> locally y (fun t => P x t).
Proof.
  intros P x y [d H]. exists d. intros t Ht. apply H; [|exact Ht].
  replace (x - x) with 0 by ring. rewrite Rabs_R0. apply cond_pos.
Qed.

Lemma diff_r_polar : forall f F r th gx gy, polar_form f F r th ->
  is_grad F (r * cos th) (r * sin th) (gx, gy) -> diff_r f r th = gx * cos th + gy * sin th.
Proof.
  intros f F r th gx gy Hf Hg. unfold diff_r. apply is_derive_unique.
  apply (is_derive_ext_loc (fun t => F (t * cos th) (t * sin th))).
  - generalize (loc_x _ _ _ Hf). apply filter_imp. intros t E. symmetry. exact E.
  - apply (grad_along F (fun t => t * cos th) (fun t => t * sin th)); [exact Hg| |];
      (auto_derive; [exact I|ring]).
Qed.

Lemma diff_th_polar : forall f F r th gx gy, polar_form f F r th ->
  is_grad F (r * cos th) (r * sin th) (gx, gy) -> diff_th f r th = r * (- gx * sin th + gy * cos th).
Proof.
  intros f F r th gx gy Hf Hg. unfold diff_th. apply is_derive_unique.
  apply (is_derive_ext_loc (fun t => F (r * cos t) (r * sin t))).
  - generalize (loc_y _ _ _ Hf). apply filter_imp. intros t E. symmetry. exact E.
  - replace (r * (- gx * sin th + gy * cos th)) with (gx * (- r * sin th) + gy * (r * cos th)) by ring.
    apply (grad_along F (fun t => r * cos t) (fun t => r * sin t)); [exact Hg| |];
      (auto_derive; [exact I|ring]).
Qed.

Lemma grad_polar : forall f F r th g, 0 < r -> polar_form f F r th ->
  is_grad F (r * cos th) (r * sin th) g -> sp_grad_polar f r th = g.
Proof.
  intros f F r th [gx gy] Hr Hf Hg. unfold sp_grad_polar, sp_d_f_r, sp_d_f_th.
  rewrite (diff_r_polar f F r th gx gy Hf Hg), (diff_th_polar f F r th gx gy Hf Hg).
  pose proof (sin2_cos2 th) as E. unfold Rsqr in E.
  f_equal; [transitivity (gx * (sin th * sin th + cos th * cos th))|transitivity (gy * (sin th * sin th + cos th * cos th))];
    try (field; lra); rewrite E; ring.
Qed.

Lemma hessian_polar : forall f F r th hxx hxy hyy, 0 < r -> polar_form f F r th ->
  is_hessian F (r * cos th) (r * sin th) ((hxx, hxy), (hxy, hyy)) ->
  sp_hessian_polar f r th = ((hxx, hxy), (hxy, hyy)).
Proof.
  intros f F r th hxx hxy hyy Hr Hf (ux & uy & Hl & Hx & Hy). cbn [fst snd] in Hx, Hy.
  destruct (polar_cont r th) as [Cp Cq].
  pose proof (loc_comp _ (fun r th => r * cos th) (fun r th => r * sin th) r th Cp Cq Hl) as Hl'. cbv beta in Hl'.
  pose proof (polar_and _ _ _ _ (loc_loc _ _ _ Hf) Hl') as HH.
  set (X := fun r th => ux (r * cos th) (r * sin th)). set (Y := fun r th => uy (r * cos th) (r * sin th)).
  assert (Dr : locally_2d (fun r th => diff_r f r th = X r th * cos th + Y r th * sin th) r th).
  { revert HH. apply locally_2d_impl. exists (mkposreal 1 Rlt_0_1). intros u v _ _ [P G].
    apply (diff_r_polar f F u v _ _ P G). }
  assert (Dt : locally_2d (fun r th => diff_th f r th = r * (- X r th * sin th + Y r th * cos th)) r th).
  { revert HH. apply locally_2d_impl. exists (mkposreal 1 Rlt_0_1). intros u v _ _ [P G].
    apply (diff_th_polar f F u v _ _ P G). }
  pose proof (sin2_cos2 th) as E. unfold Rsqr in E.
  set (c := cos th) in *. set (s := sin th) in *.
  assert (Xr : is_derive (fun t => X t th) r (hxx * c + hxy * s)).
  { apply (grad_along ux (fun t => t * cos th) (fun t => t * sin th)); [exact Hx| |];
      (auto_derive; [exact I|unfold c, s; ring]). }
  assert (Yr : is_derive (fun t => Y t th) r (hxy * c + hyy * s)).
  { apply (grad_along uy (fun t => t * cos th) (fun t => t * sin th)); [exact Hy| |];
      (auto_derive; [exact I|unfold c, s; ring]). }
  assert (Xt : is_derive (fun t => X r t) th (hxx * (- r * s) + hxy * (r * c))).
  { apply (grad_along ux (fun t => r * cos t) (fun t => r * sin t)); [exact Hx| |];
      (auto_derive; [exact I|unfold c, s; ring]). }
  assert (Yt : is_derive (fun t => Y r t) th (hxy * (- r * s) + hyy * (r * c))).
  { apply (grad_along uy (fun t => r * cos t) (fun t => r * sin t)); [exact Hy| |];
      (auto_derive; [exact I|unfold c, s; ring]). }
  set (x := X r th). set (y := Y r th).
  assert (Err : diff_r (diff_r f) r th = (hxx * c + hxy * s) * c + (hxy * c + hyy * s) * s).
  { unfold diff_r at 1. apply is_derive_unique.
    apply (is_derive_ext_loc (fun t => X t th * c + Y t th * s)).
    - generalize (loc_x _ _ _ Dr). apply filter_imp. intros t Et. symmetry. exact Et.
    - auto_derive; [split; [exists (hxx * c + hxy * s); exact Xr|split; [exists (hxy * c + hyy * s); exact Yr|exact I]]|].
      replace (Derive (fun x => X x th) r) with (hxx * c + hxy * s) by (symmetry; apply is_derive_unique; exact Xr).
      replace (Derive (fun x => Y x th) r) with (hxy * c + hyy * s) by (symmetry; apply is_derive_unique; exact Yr).
      ring. }
  assert (Ert : diff_th (diff_r f) r th =
    (hxx * (- r * s) + hxy * (r * c)) * c - x * s + (hxy * (- r * s) + hyy * (r * c)) * s + y * c).
  { unfold diff_th at 1. apply is_derive_unique.
    apply (is_derive_ext_loc (fun t => X r t * cos t + Y r t * sin t)).
    - generalize (loc_y _ _ _ Dr). apply filter_imp. intros t Et. symmetry. exact Et.
    - auto_derive; [split; [eexists; exact Xt|split; [eexists; exact Yt|exact I]]|].
      replace (Derive (fun x => X r x) th) with (hxx * (- r * s) + hxy * (r * c)) by (symmetry; apply is_derive_unique; exact Xt).
      replace (Derive (fun x => Y r x) th) with (hxy * (- r * s) + hyy * (r * c)) by (symmetry; apply is_derive_unique; exact Yt).
      unfold c, s, x, y. ring. }
  assert (Ett : diff_th (diff_th f) r th = r * (- (hxx * (- r * s) + hxy * (r * c)) * s - x * c
    + (hxy * (- r * s) + hyy * (r * c)) * c - y * s)).
  { unfold diff_th at 1. apply is_derive_unique.
    apply (is_derive_ext_loc (fun t => r * (- X r t * sin t + Y r t * cos t))).
    - generalize (loc_y _ _ _ Dt). apply filter_imp. intros t Et. symmetry. exact Et.
    - auto_derive; [split; [eexists; exact Xt|split; [eexists; exact Yt|exact I]]|].
      replace (Derive (fun x => X r x) th) with (hxx * (- r * s) + hxy * (r * c)) by (symmetry; apply is_derive_unique; exact Xt).
      replace (Derive (fun x => Y r x) th) with (hxy * (- r * s) + hyy * (r * c)) by (symmetry; apply is_derive_unique; exact Yt).
      unfold c, s, x, y. ring. }
  apply locally_2d_singleton in Dr. apply locally_2d_singleton in Dt. fold x y c s in Dr, Dt.
  unfold sp_hessian_polar, sp_d2_f_r, sp_d2_f_r_th, sp_d2_f_th, sp_d_f_r, sp_d_f_th.
  rewrite Err, Ert, Ett, Dr, Dt. fold c s.
  set (frr := (hxx * c + hxy * s) * c + (hxy * c + hyy * s) * s).
  assert (A1 : (frr * c + ((hxx * (- r * s) + hxy * (r * c)) * c - x * s + (hxy * (- r * s) + hyy * (r * c)) * s + y * c) * (- s / r)
     + r * (- x * s + y * c) * s / r ^ 2) = hxx * c + hxy * s).
  { transitivity ((hxx * c + hxy * s) * (s * s + c * c)); [unfold frr; field; lra|rewrite E; ring]. }
  assert (A2 : ((hxx * (- r * s) + hxy * (r * c)) * c - x * s + (hxy * (- r * s) + hyy * (r * c)) * s + y * c) * c
     + (x * c + y * s) * - s
     + r * (- (hxx * (- r * s) + hxy * (r * c)) * s - x * c + (hxy * (- r * s) + hyy * (r * c)) * c - y * s) * (- s / r)
     + r * (- x * s + y * c) * (- c / r) = r * (- hxx * s + hxy * c)).
  { transitivity (r * (- hxx * s + hxy * c) * (s * s + c * c)); [field; lra|rewrite E; ring]. }
  assert (A3 : frr * s + ((hxx * (- r * s) + hxy * (r * c)) * c - x * s + (hxy * (- r * s) + hyy * (r * c)) * s + y * c) * c / r
     + r * (- x * s + y * c) * (- c / r ^ 2) = hxy * c + hyy * s).
  { transitivity ((hxy * c + hyy * s) * (s * s + c * c)); [unfold frr; field; lra|rewrite E; ring]. }
  assert (A4 : ((hxx * (- r * s) + hxy * (r * c)) * c - x * s + (hxy * (- r * s) + hyy * (r * c)) * s + y * c) * s
     + (x * c + y * s) * c
     + r * (- (hxx * (- r * s) + hxy * (r * c)) * s - x * c + (hxy * (- r * s) + hyy * (r * c)) * c - y * s) * c / r
     + r * (- x * s + y * c) * (- s / r) = r * (- hxy * s + hyy * c)).
  { transitivity (r * (- hxy * s + hyy * c) * (s * s + c * c)); [field; lra|rewrite E; ring]. }
  rewrite A1, A2, A3, A4.
  assert (B1 : (hxx * c + hxy * s) * c + r * (- hxx * s + hxy * c) * (- s / r) = hxx).
  { transitivity (hxx * (s * s + c * c)); [field; lra|rewrite E; ring]. }
  assert (B2 : (hxx * c + hxy * s) * s + r * (- hxx * s + hxy * c) * c / r = hxy).
  { transitivity (hxy * (s * s + c * c)); [field; lra|rewrite E; ring]. }
  assert (B3 : (hxy * c + hyy * s) * s + r * (- hxy * s + hyy * c) * c / r = hyy).
  { transitivity (hyy * (s * s + c * c)); [field; lra|rewrite E; ring]. }
  rewrite B1, B2, B3. reflexivity.
Qed.

Lemma polar_pos : forall x y r th, cart_to_polar x y = (r, th) -> (x <> 0 \/ y <> 0) -> 0 < r.
Proof.
  intros x y r th E H. destruct (cart_to_polar_spec _ _ _ _ E) as (Hr & _ & Hx & Hy).
  destruct (Req_dec r 0) as [->|Hn]; [|lra]. destruct H as [H|H]; exfalso; apply H; [rewrite <- Hx|rewrite <- Hy]; ring.
Qed.

Lemma sp_grad_correct : forall f F x y r th g, cart_to_polar x y = (r, th) -> (x <> 0 \/ y <> 0) ->
  polar_form f F r th -> is_grad F x y g -> sp_grad f x y = g.
Proof.
  intros f F x y r th g E Hxy Hf Hg. pose proof (polar_pos x y r th E Hxy) as Hr.
  destruct (cart_to_polar_spec _ _ _ _ E) as (_ & _ & Hx & Hy).
  unfold sp_grad. rewrite E. apply (grad_polar f F r th g Hr Hf). rewrite Hx, Hy. exact Hg.
Qed.

Lemma sp_hessian_correct : forall f F x y r th hxx hxy hyy, cart_to_polar x y = (r, th) -> (x <> 0 \/ y <> 0) ->
  polar_form f F r th -> is_hessian F x y ((hxx, hxy), (hxy, hyy)) ->
  sp_hessian f x y = ((hxx, hxy), (hxy, hyy)).
Proof.
  intros f F x y r th hxx hxy hyy E Hxy Hf Hg. pose proof (polar_pos x y r th E Hxy) as Hr.
  destruct (cart_to_polar_spec _ _ _ _ E) as (_ & _ & Hx & Hy).
  unfold sp_hessian. rewrite E. apply (hessian_polar f F r th hxx hxy hyy Hr Hf). rewrite Hx, Hy. exact Hg.
Qed.

(** ** The source *)

Lemma polar_neg : forall h, 0 < h -> cart_to_polar (- h) 0 = (h, PI).
Proof.
  intros h Hh. pose proof PI_RGT_0.
  pose proof (cart_to_polar_of_polar h PI Hh ltac:(lra)) as E.
  rewrite cos_PI, sin_PI, Rmult_0_r in E. replace (h * -1) with (- h) in E by ring. exact E.
Qed.

Lemma polar_zero_r : fst (cart_to_polar 0 0) = 0.
Proof. unfold cart_to_polar, hypot. cbn [fst]. replace (0 ^ 2 + 0 ^ 2) with 0 by ring. apply sqrt_0. Qed.

Lemma sp_eval_off : forall fuel AD f F x y r th, cart_to_polar x y = (r, th) -> (x <> 0 \/ y <> 0) ->
  polar_form f F r th -> sp_eval_f (S fuel) AD f x y = Ok (F x y).
Proof.
  intros fuel AD f F x y r th E Hxy Hf. pose proof (polar_pos x y r th E Hxy) as Hr.
  destruct (cart_to_polar_spec _ _ _ _ E) as (_ & _ & Hx & Hy).
  unfold sp_eval_f. rewrite E. cbn [sp_eval_f_polar].
  destruct (Reqb_spec r 0) as [E0|_]; [lra|]. apply locally_2d_singleton in Hf. rewrite Hf, Hx, Hy. reflexivity.
Qed.

Lemma sp_eval_origin : forall fuel AD f F gx gy hxx hxy hyy, 0 < AD ->
  let h := AD / 10000 in
  polar_form f F h PI -> is_grad F (- h) 0 (gx, gy) -> is_hessian F (- h) 0 ((hxx, hxy), (hxy, hyy)) ->
  sp_eval_f (S (S fuel)) AD f 0 0 = Ok (F (- h) 0 + h * gx + 3 / 2 * h ^ 2 * hxx).
Proof.
  intros fuel AD f F gx gy hxx hxy hyy HAD h Hf Hg Hh.
  assert (Hp : 0 < h) by (unfold h; lra).
  pose proof (polar_neg h Hp) as E.
  unfold sp_eval_f. pose proof polar_zero_r as E0. destruct (cart_to_polar 0 0) as [r0 th0]. cbn [fst] in E0. subst r0.
  set (fuel' := S fuel). cbn [sp_eval_f_polar]. destruct (Reqb_spec 0 0) as [_|N]; [|lra].
  fold h. cbv zeta.
  rewrite (sp_hessian_correct f F (- h) 0 h PI hxx hxy hyy E ltac:(left; lra) Hf Hh).
  rewrite (sp_grad_correct f F (- h) 0 h PI (gx, gy) E ltac:(left; lra) Hf Hg).
  rewrite E. unfold fuel'. cbn [sp_eval_f_polar]. destruct (Reqb_spec h 0) as [N|_]; [lra|].
  cbn [bind]. f_equal. apply locally_2d_singleton in Hf. rewrite Hf, cos_PI, sin_PI.
  replace (h * -1) with (- h) by ring. rewrite Rmult_0_r. field.
Qed.

(** Quadratic polynomials. *)
Definition quad2 (c0 cx cy cxx cxy cyy x y : R) : R :=
  c0 + cx * x + cy * y + cxx * (x * x) + cxy * (x * y) + cyy * (y * y).

Lemma lin_grad : forall c0 cx cy x y, is_grad (fun x y => c0 + cx * x + cy * y) x y (cx, cy).
Proof.
  intros. apply (grad_eq _ _ _ (0 + cx * 1 + cy * 0, 0 + cx * 0 + cy * 1)); [|f_equal; ring].
  apply grad_plus; [apply grad_plus; [apply grad_const|]|].
  - apply (grad_comp1 (fun t => cx * t) (fun x _ => x)); [auto_derive; [exact I|ring]|apply grad_x].
  - apply (grad_comp1 (fun t => cy * t) (fun _ y => y)); [auto_derive; [exact I|ring]|apply grad_y].
Qed.

Lemma quad_grad : forall c0 cx cy cxx cxy cyy x y,
  is_grad (quad2 c0 cx cy cxx cxy cyy) x y (cx + 2 * cxx * x + cxy * y, cy + cxy * x + 2 * cyy * y).
Proof.
  intros. unfold quad2.
  apply (grad_eq _ _ _ (cx + cxx * (x * 1 + x * 1) + cxy * (y * 1 + x * 0) + cyy * (y * 0 + y * 0),
                        cy + cxx * (x * 0 + x * 0) + cxy * (y * 0 + x * 1) + cyy * (y * 1 + y * 1)));
    [|f_equal; ring].
  assert (S : forall c u x y ux uy, is_grad u x y (ux, uy) -> is_grad (fun x y => c * u x y) x y (c * ux, c * uy)).
  { intros c u x0 y0 ux uy H. apply (grad_comp1 (fun t => c * t) u); [auto_derive; [exact I|ring]|exact H]. }
  apply grad_plus; [apply grad_plus; [apply grad_plus; [apply lin_grad|]|]|]; apply S; apply grad_mult;
    try apply grad_x; try apply grad_y.
Qed.

Lemma quad_hessian : forall c0 cx cy cxx cxy cyy x y,
  is_hessian (quad2 c0 cx cy cxx cxy cyy) x y ((2 * cxx, cxy), (cxy, 2 * cyy)).
Proof.
  intros. exists (fun x y => cx + 2 * cxx * x + cxy * y), (fun x y => cy + cxy * x + 2 * cyy * y).
  split; [exists (mkposreal 1 Rlt_0_1); intros; apply quad_grad|]. cbn [fst snd]. split; apply lin_grad.
Qed.

Lemma origin_quadratic : forall fuel AD f c0 cx cy cxx cxy cyy, 0 < AD ->
  (forall r th, f r th = quad2 c0 cx cy cxx cxy cyy (r * cos th) (r * sin th)) ->
  sp_eval_f (S (S fuel)) AD f 0 0 =
  Ok (quad2 c0 cx cy cxx cxy cyy 0 0 + (AD / 10000) ^ 2 * (2 * cxx)).
Proof.
  intros fuel AD f c0 cx cy cxx cxy cyy HAD Hf.
  rewrite (sp_eval_origin fuel AD f (quad2 c0 cx cy cxx cxy cyy) _ _ _ _ _ HAD
    ltac:(exists (mkposreal 1 Rlt_0_1); intros; apply Hf) (quad_grad _ _ _ _ _ _ _ _) (quad_hessian _ _ _ _ _ _ _ _)).
  f_equal. unfold quad2. field.
Qed.

(** The source of smooth-ycos. *)
Definition ycos_F (k x y : R) : R := (k ^ 2 - 1) * y * cos x.

Lemma ycos_polar : forall k r th, polar_form (ycos_f k) (ycos_F k) r th.
Proof. intros k r th. exists (mkposreal 1 Rlt_0_1). intros u v _ _. unfold ycos_f, ycos_F. ring. Qed.

Lemma ycos_F_grad : forall k x y,
  is_grad (ycos_F k) x y (- (k ^ 2 - 1) * y * sin x, (k ^ 2 - 1) * cos x).
Proof.
  intros k x y. unfold ycos_F.
  apply (grad_eq _ _ _ (cos x * ((k ^ 2 - 1) * 0) + (k ^ 2 - 1) * y * (- sin x * 1),
                        cos x * ((k ^ 2 - 1) * 1) + (k ^ 2 - 1) * y * (- sin x * 0))); [|f_equal; ring].
  apply (grad_mult (fun _ y => (k ^ 2 - 1) * y) (fun x _ => cos x)).
  - apply (grad_comp1 (fun t => (k ^ 2 - 1) * t) (fun _ y => y)); [auto_derive; [exact I|ring]|apply grad_y].
  - apply (grad_comp1 cos (fun x _ => x)); [auto_derive; [exact I|ring]|apply grad_x].
Qed.

Lemma ycos_F_hessian : forall k x y, is_hessian (ycos_F k) x y
  ((- (k ^ 2 - 1) * y * cos x, - (k ^ 2 - 1) * sin x), (- (k ^ 2 - 1) * sin x, 0)).
Proof.
  intros k x y. exists (fun x y => - (k ^ 2 - 1) * y * sin x), (fun x y => (k ^ 2 - 1) * cos x).
  split; [exists (mkposreal 1 Rlt_0_1); intros; apply ycos_F_grad|]. cbn [fst snd]. split.
  - apply (grad_eq _ _ _ (sin x * (- (k ^ 2 - 1) * 0) + - (k ^ 2 - 1) * y * (cos x * 1),
                          sin x * (- (k ^ 2 - 1) * 1) + - (k ^ 2 - 1) * y * (cos x * 0))); [|f_equal; ring].
    apply (grad_mult (fun _ y => - (k ^ 2 - 1) * y) (fun x _ => sin x)).
    + apply (grad_comp1 (fun t => - (k ^ 2 - 1) * t) (fun _ y => y)); [auto_derive; [exact I|ring]|apply grad_y].
    + apply (grad_comp1 sin (fun x _ => x)); [auto_derive; [exact I|ring]|apply grad_x].
  - apply (grad_eq _ _ _ (- (k ^ 2 - 1) * sin x * 1, - (k ^ 2 - 1) * sin x * 0)); [|f_equal; ring].
    apply (grad_comp1 (fun t => (k ^ 2 - 1) * cos t) (fun x _ => x)); [auto_derive; [exact I|ring]|apply grad_x].
Qed.

Lemma ycos_source : forall fuel AD k x y, 0 < AD ->
  sp_eval_f (S (S fuel)) AD (ycos_f k) x y = Ok ((k ^ 2 - 1) * y * cos x).
Proof.
  intros fuel AD k x y HAD. destruct (Req_dec x 0) as [->|Hx]; [destruct (Req_dec y 0) as [->|Hy]|].
  - rewrite (sp_eval_origin fuel AD (ycos_f k) (ycos_F k) _ _ _ _ _ HAD (ycos_polar k _ _)
      (ycos_F_grad k _ _) (ycos_F_hessian k _ _)). unfold ycos_F. f_equal. ring.
  - destruct (cart_to_polar 0 y) as [r th] eqn:E.
    apply (sp_eval_off (S fuel) AD (ycos_f k) (ycos_F k) 0 y r th E (or_intror Hy) (ycos_polar k _ _)).
  - destruct (cart_to_polar x y) as [r th] eqn:E.
    apply (sp_eval_off (S fuel) AD (ycos_f k) (ycos_F k) x y r th E (or_introl Hx) (ycos_polar k _ _)).
Qed.

Lemma origin_wrong : forall fuel AD, 0 < AD -> exists v,
  sp_eval_f (S (S fuel)) AD (fun r th => (r * cos th) * (r * cos th)) 0 0 = Ok v /\ v <> 0.
Proof.
  intros fuel AD HAD. eexists. split.
  - apply (origin_quadratic fuel AD _ 0 0 0 1 0 0 HAD). intros r th. unfold quad2. ring.
  - unfold quad2. assert (0 < (AD / 10000) ^ 2) by (apply pow_lt; lra). lra.
Qed.
