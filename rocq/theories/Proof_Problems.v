(** The test problems: gradients, Hessians, source at the origin, boundary data. *)
From Coq Require Import String ZArith List Bool Reals Lia Lra.
From Coquelicot Require Import Coquelicot.
From Verif Require Import Model_Py Model_Grid Model_Multivalue Model_Fourier Model_Domain Model_Extend
  Model_ZMethod Model_Problems Proof_Domain Proof_Boundary Spec_Fd Spec_Extend Spec_Problems.
Import ListNotations.
Open Scope R_scope.

(** ** Calculus of gradients *)

Lemma grad_eq : forall u x y g g', is_grad u x y g -> g = g' -> is_grad u x y g'.
Proof. intros. subst. assumption. Qed.

Lemma grad_x : forall x y, is_grad (fun x _ => x) x y (1, 0).
Proof.
  intros x y eps. exists (mkposreal 1 Rlt_0_1). intros u v _ _. cbn [fst snd].
  replace (u - x - (1 * (u - x) + 0 * (v - y))) with 0 by ring. rewrite Rabs_R0.
  apply Rmult_le_pos; [left; apply cond_pos|]. eapply Rle_trans; [apply Rabs_pos|apply Rmax_l].
Qed.

Lemma grad_y : forall x y, is_grad (fun _ y => y) x y (0, 1).
Proof.
  intros x y eps. exists (mkposreal 1 Rlt_0_1). intros u v _ _. cbn [fst snd].
  replace (v - y - (0 * (u - x) + 1 * (v - y))) with 0 by ring. rewrite Rabs_R0.
  apply Rmult_le_pos; [left; apply cond_pos|]. eapply Rle_trans; [apply Rabs_pos|apply Rmax_l].
Qed.

Lemma grad_const : forall c x y, is_grad (fun _ _ => c) x y (0, 0).
Proof.
  intros c x y eps. exists (mkposreal 1 Rlt_0_1). intros u v _ _. cbn [fst snd].
  replace (c - c - (0 * (u - x) + 0 * (v - y))) with 0 by ring. rewrite Rabs_R0.
  apply Rmult_le_pos; [left; apply cond_pos|]. eapply Rle_trans; [apply Rabs_pos|apply Rmax_l].
Qed.

Lemma grad_sum0 : forall x y, is_grad (fun u v => u + v) x y (1, 1).
Proof.
  intros x y eps. exists (mkposreal 1 Rlt_0_1). intros u v _ _. cbn [fst snd].
  replace (u + v - (x + y) - (1 * (u - x) + 1 * (v - y))) with 0 by ring. rewrite Rabs_R0.
  apply Rmult_le_pos; [left; apply cond_pos|]. eapply Rle_trans; [apply Rabs_pos|apply Rmax_l].
Qed.

Lemma grad_prod0 : forall x y, is_grad (fun u v => u * v) x y (y, x).
Proof.
  intros x y eps. exists eps. intros u v Hu Hv. cbn [fst snd].
  replace (u * v - x * y - (y * (u - x) + x * (v - y))) with ((u - x) * (v - y)) by ring.
  rewrite Rabs_mult. apply Rmult_le_compat; [apply Rabs_pos|apply Rabs_pos|lra|apply Rmax_r].
Qed.

Lemma grad_comp1 : forall f g x y f' gx gy, is_derive f (g x y) f' -> is_grad g x y (gx, gy) ->
  is_grad (fun x y => f (g x y)) x y (f' * gx, f' * gy).
Proof.
  intros f g x y f' gx gy Hf Hg. unfold is_grad in *. cbn [fst snd] in *.
  replace (f' * gx) with (f' * gx + 0 * gx) by ring. replace (f' * gy) with (f' * gy + 0 * gy) by ring.
  apply (differentiable_pt_lim_comp (fun u _ => f u) g g); [|assumption|assumption].
  apply differentiable_pt_lim_proj1_0. apply is_derive_Reals. assumption.
Qed.

Lemma grad_plus : forall u v x y ux uy vx vy, is_grad u x y (ux, uy) -> is_grad v x y (vx, vy) ->
  is_grad (fun x y => u x y + v x y) x y (ux + vx, uy + vy).
Proof.
  intros u v x y ux uy vx vy Hu Hv. unfold is_grad in *. cbn [fst snd] in *.
  replace (ux + vx) with (1 * ux + 1 * vx) by ring. replace (uy + vy) with (1 * uy + 1 * vy) by ring.
  apply (differentiable_pt_lim_comp (fun a b => a + b) u v); try assumption. apply (grad_sum0 (u x y) (v x y)).
Qed.

Lemma grad_mult : forall u v x y ux uy vx vy, is_grad u x y (ux, uy) -> is_grad v x y (vx, vy) ->
  is_grad (fun x y => u x y * v x y) x y (v x y * ux + u x y * vx, v x y * uy + u x y * vy).
Proof.
  intros u v x y ux uy vx vy Hu Hv. unfold is_grad in *. cbn [fst snd] in *.
  apply (differentiable_pt_lim_comp (fun a b => a * b) u v); try assumption. apply (grad_prod0 (u x y) (v x y)).
Qed.

Lemma grad_ext : forall u v x y g, (forall x y, u x y = v x y) -> is_grad u x y g -> is_grad v x y g.
Proof.
  intros u v x y g E H. apply (differentiable_pt_lim_ext u); [|exact H].
  exists (mkposreal 1 Rlt_0_1). intros. apply E.
Qed.

(** Derivative along a curve. *)
Lemma grad_along : forall u (p q : R -> R) (t gx gy p' q' : R), is_grad u (p t) (q t) (gx, gy) ->
  is_derive p t p' -> is_derive q t q' -> is_derive (fun t => u (p t) (q t)) t (gx * p' + gy * q').
Proof.
  intros u p q t gx gy p' q' H Hp Hq. apply is_derive_Reals.
  apply (derivable_pt_lim_comp_2d u p q); [exact H| |]; apply is_derive_Reals; assumption.
Qed.

(** ** C46: the three smooth problems *)

Lemma sine_is_grad : forall k x y, is_grad (sine_expected k) x y (sine_grad k x y).
Proof.
  intros k x y. unfold sine_grad.
  apply (grad_eq _ _ _ ((k * cos (k * x)) * 1, (k * cos (k * x)) * 0)); [|f_equal; ring].
  apply (grad_comp1 (fun x => sin (k * x)) (fun x _ => x)); [|apply grad_x].
  auto_derive; [exact I|ring].
Qed.

Lemma sine_solves : forall k, solves k (fun _ _ => 0) (sine_expected k).
Proof.
  intros k. exists (fun i j x y => match i, j with
    | 0%nat, 0%nat => sin (k * x) | 1%nat, 0%nat => k * cos (k * x)
    | 2%nat, 0%nat => - k ^ 2 * sin (k * x) | _, _ => 0 end).
  split; [split; [reflexivity|]|].
  - intros i j Hij x y _. destruct i as [|[|i]]; destruct j as [|[|j]]; try lia; split;
      auto_derive; try exact I; ring.
  - intros x y. unfold sine_expected. ring.
Qed.

Definition phase (k x y : R) : R := 8 / 10 * k * x + 6 / 10 * k * y.

Lemma phase_grad : forall k x y, is_grad (phase k) x y (8 / 10 * k, 6 / 10 * k).
Proof.
  intros k x y. unfold phase.
  apply (grad_eq _ _ _ (8 / 10 * k * 1 + 6 / 10 * k * 0, 8 / 10 * k * 0 + 6 / 10 * k * 1)); [|f_equal; ring].
  apply grad_plus.
  - apply (grad_comp1 (fun x => 8 / 10 * k * x) (fun x _ => x)); [|apply grad_x]. auto_derive; [exact I|ring].
  - apply (grad_comp1 (fun x => 6 / 10 * k * x) (fun _ y => y)); [|apply grad_y]. auto_derive; [exact I|ring].
Qed.

Lemma e_solves : forall k st, solves k (fun _ _ => 0) (fun x y => fst (snd (e_expected k x y st))) /\
  solves k (fun _ _ => 0) (fun x y => snd (snd (e_expected k x y st))).
Proof.
  intros k st. split.
  - exists (fun i j x y => match i, j with
      | 0%nat, 0%nat => cos (phase k x y)
      | 1%nat, 0%nat => - (8 / 10 * k) * sin (phase k x y)
      | 0%nat, 1%nat => - (6 / 10 * k) * sin (phase k x y)
      | 2%nat, 0%nat => - (8 / 10 * k) ^ 2 * cos (phase k x y)
      | 0%nat, 2%nat => - (6 / 10 * k) ^ 2 * cos (phase k x y)
      | 1%nat, 1%nat => - (8 / 10 * k) * (6 / 10 * k) * cos (phase k x y)
      | _, _ => 0 end).
    split; [split; [reflexivity|]|].
    + intros i j Hij x y _. unfold phase. destruct i as [|[|i]]; destruct j as [|[|j]]; try lia; split;
        auto_derive; try exact I; ring.
    + intros x y. unfold e_expected, cis. cbn [fst snd]. change (8 / 10 * k * x + 6 / 10 * k * y) with (phase k x y).
      field.
  - exists (fun i j x y => match i, j with
      | 0%nat, 0%nat => sin (phase k x y)
      | 1%nat, 0%nat => (8 / 10 * k) * cos (phase k x y)
      | 0%nat, 1%nat => (6 / 10 * k) * cos (phase k x y)
      | 2%nat, 0%nat => - (8 / 10 * k) ^ 2 * sin (phase k x y)
      | 0%nat, 2%nat => - (6 / 10 * k) ^ 2 * sin (phase k x y)
      | 1%nat, 1%nat => - (8 / 10 * k) * (6 / 10 * k) * sin (phase k x y)
      | _, _ => 0 end).
    split; [split; [reflexivity|]|].
    + intros i j Hij x y _. unfold phase. destruct i as [|[|i]]; destruct j as [|[|j]]; try lia; split;
        auto_derive; try exact I; ring.
    + intros x y. unfold e_expected, cis. cbn [fst snd]. change (8 / 10 * k * x + 6 / 10 * k * y) with (phase k x y).
      field.
Qed.

Lemma e_is_grad : forall k st st' x y, fst (e_expected k x y st) = st' ->
  forall x y, exists g, e_grad x y st' = Ok g /\
  is_cgrad (fun x y => snd (e_expected k x y st)) x y g.
Proof.
  intros k st st' x0 y0 <- x y. unfold e_expected, e_grad. cbn [fst snd].
  eexists. split; [reflexivity|]. unfold is_cgrad, cis. cbn [fst snd Cmult].
  change (8 / 10 * k * x + 6 / 10 * k * y) with (phase k x y). split.
  - apply (grad_eq _ _ _ (- sin (phase k x y) * (8 / 10 * k), - sin (phase k x y) * (6 / 10 * k))).
    + apply (grad_comp1 cos (phase k)); [|apply phase_grad]. auto_derive; [exact I|ring].
    + f_equal; ring.
  - apply (grad_eq _ _ _ (cos (phase k x y) * (8 / 10 * k), cos (phase k x y) * (6 / 10 * k))).
    + apply (grad_comp1 sin (phase k)); [|apply phase_grad]. auto_derive; [exact I|ring].
    + f_equal; ring.
Qed.

Lemma ycos_is_grad : forall x y, is_grad ycos_expected x y (ycos_grad x y).
Proof.
  intros x y. unfold ycos_grad, ycos_expected.
  apply (grad_eq _ _ _ (cos x * 0 + y * (- sin x * 1), cos x * 1 + y * (- sin x * 0))); [|f_equal; ring].
  apply (grad_mult (fun _ y => y) (fun x _ => cos x)); [apply grad_y|].
  apply (grad_comp1 cos (fun x _ => x)); [|apply grad_x]. auto_derive; [exact I|ring].
Qed.

Lemma ycos_solves : forall k, solves k (fun x y => (k ^ 2 - 1) * y * cos x) ycos_expected.
Proof.
  intros k. exists (fun i j x y => match i, j with
    | 0%nat, 0%nat => y * cos x | 1%nat, 0%nat => - y * sin x | 0%nat, 1%nat => cos x
    | 2%nat, 0%nat => - y * cos x | 1%nat, 1%nat => - sin x | _, _ => 0 end).
  split; [split; [reflexivity|]|].
  - intros i j Hij x y _. destruct i as [|[|i]]; destruct j as [|[|j]]; try lia; split;
      auto_derive; try exact I; ring.
  - intros x y. unfold ycos_expected. ring.
Qed.

(** ** Outward derivative *)

Lemma abs_point : forall eval_r a arg sid, (sid < 3)%nat -> exists r th,
  arg_to_polar_abs eval_r a arg sid = Some (r, th) /\
  (r * cos th, r * sin th) = seg_point eval_r a sid arg.
Proof.
  intros eval_r a arg sid Hs.
  destruct sid as [|[|[|sid]]]; [| | |lia]; cbn [arg_to_polar_abs seg_point].
  - eexists _, _. split; reflexivity.
  - destruct (Rleb_spec 0 arg); eexists _, _; (split; [reflexivity|]).
    + rewrite cos_2PI, sin_2PI. f_equal; ring.
    + rewrite cos_PI, sin_PI. f_equal; ring.
  - destruct (Rleb_spec 0 arg); eexists _, _; (split; [reflexivity|]).
    + reflexivity.
    + rewrite cos_PI_plus, sin_PI_plus. f_equal; ring.
Qed.

Lemma curve_normal : forall r th, (forall t, ex_derive r t) -> 0 < r th -> is_normal r 0 0 th (eval_normal r th).
Proof.
  intros r th Hr Hp.
  destruct (eval_tangent r th) as [tx ty] eqn:Et. destruct (eval_normal r th) as [nx ny] eqn:En.
  assert (H0 : 0 < r th ^ 2 + Derive r th ^ 2) by (pose proof (pow2_ge_0 (Derive r th)); nra).
  destruct (frame_spec r th tx ty nx ny Hr H0 Et En) as [[T [N [TN _]]] [[v [Hv [Dx Dy]]] Hout]].
  apply is_derive_unique in Dx. apply is_derive_unique in Dy. cbn [is_normal fst snd].
  change (Derive (fun t : R => r t * cos t) th = v * tx) in Dx.
  change (Derive (fun t : R => r t * sin t) th = v * ty) in Dy. rewrite Dx, Dy.
  split; [exact N|]. split; [|apply Hout; exact Hp].
  replace (nx * (v * tx) + ny * (v * ty)) with (v * (tx * nx + ty * ny)) by ring. rewrite TN. ring.
Qed.

Lemma outwards : forall eval_r a u get_grad arg sid, (sid < 3)%nat ->
  (sid = 0%nat -> (forall t, ex_derive eval_r t) /\ 0 < eval_r arg) ->
  (forall x y, exists g, get_grad x y = Ok g /\ is_cgrad u x y g) ->
  exists d n px py, d_u_outwards eval_r a get_grad arg sid = Ok d /\
    is_normal eval_r a sid arg n /\ seg_point eval_r a sid arg = (px, py) /\
    is_derive (fun t => fst (u (px + t * fst n) (py + t * snd n))) 0 (fst d) /\
    is_derive (fun t => snd (u (px + t * fst n) (py + t * snd n))) 0 (snd d).
Proof.
  intros eval_r a u get_grad arg sid Hs H0 Hg.
  destruct (abs_point eval_r a arg sid Hs) as (r & th & Ep & Exy).
  destruct (Hg (r * cos th) (r * sin th)) as ([gx gy] & Eg & [G1 G2]).
  set (n := match sid with 0%nat => eval_normal eval_r th | 1%nat => (0, 1) | _ => (sin a, - cos a) end).
  exists (cdot (gx, gy) n), n, (r * cos th), (r * sin th).
  split; [unfold d_u_outwards; rewrite Ep; cbv zeta; rewrite Eg; reflexivity|].
  split.
  { destruct sid as [|[|[|sid]]]; [| | |lia].
    - destruct (H0 eq_refl) as [Hd Hp]. cbn [arg_to_polar_abs] in Ep. injection Ep as _ <-.
      exact (curve_normal eval_r arg Hd Hp).
    - reflexivity.
    - reflexivity. }
  split; [symmetry; exact Exy|]. clearbody n. destruct n as [nx ny]. cbn [fst snd] in *.
  assert (Hl : forall (p q : R), is_derive (fun t => p + t * q) 0 q)
    by (intros; auto_derive; [exact I|ring]).
  assert (Hz : forall p q : R, p + 0 * q = p) by (intros; ring).
  split.
  - replace (fst (cdot (gx, gy) (nx, ny))) with (fst gx * nx + fst gy * ny)
      by (unfold cdot, Cplus, Cmult, RtoC; cbn [fst snd]; ring).
    apply (grad_along (fun x y => fst (u x y)) (fun t => r * cos th + t * nx) (fun t => r * sin th + t * ny));
      [rewrite !Hz; exact G1|apply Hl|apply Hl].
  - replace (snd (cdot (gx, gy) (nx, ny))) with (snd gx * nx + snd gy * ny)
      by (unfold cdot, Cplus, Cmult, RtoC; cbn [fst snd]; ring).
    apply (grad_along (fun x y => snd (u x y)) (fun t => r * cos th + t * nx) (fun t => r * sin th + t * ny));
      [rewrite !Hz; exact G2|apply Hl|apply Hl].
Qed.

(** ** C53 *)

Lemma e_run_spec : forall k calls,
  e_run k calls = if existsb (fun c => match c with CallExpected _ _ => true | _ => false end) calls
                  then Some (8 / 10 * k, 6 / 10 * k) else None.
Proof.
  intros k calls. unfold e_run.
  assert (H : forall st, fold_left (fun st c => match c with
    | CallExpected x y => fst (e_expected k x y st) | CallGrad _ _ => st end) calls st =
    if existsb (fun c => match c with CallExpected _ _ => true | _ => false end) calls
    then Some (8 / 10 * k, 6 / 10 * k) else st).
  { induction calls as [|c l IH]; intros st; [reflexivity|]. cbn [fold_left existsb]. rewrite IH.
    destruct c; cbn [orb fst e_expected]; [|reflexivity].
    destruct (existsb _ l); reflexivity. }
  apply H.
Qed.

Lemma e_history : forall k calls x y,
  ((exists x0 y0, In (CallExpected x0 y0) calls) ->
   exists g, e_grad x y (e_run k calls) = Ok g /\
     is_cgrad (fun x y => snd (e_expected k x y None)) x y g) /\
  ((forall x0 y0, ~ In (CallExpected x0 y0) calls) ->
   e_grad x y (e_run k calls) = Err AttributeError).
Proof.
  intros k calls x y. rewrite e_run_spec. split.
  - intros (x0 & y0 & Hin).
    replace (existsb _ calls) with true
      by (symmetry; apply existsb_exists; exists (CallExpected x0 y0); split; [assumption|reflexivity]).
    apply (e_is_grad k None _ x0 y0 eq_refl).
  - intros H. destruct (existsb _ calls) eqn:E; [|reflexivity].
    apply existsb_exists in E. destruct E as ([x0 y0|x0 y0] & Hin & E); [|discriminate].
    destruct (H x0 y0 Hin).
Qed.

(** Dirichlet data of the smooth problems. *)
Lemma smooth_bc_value : forall eval_r a expected arg sid,
  ((sid < 3)%nat -> exists px py, seg_point eval_r a sid arg = (px, py) /\
     smooth_bc eval_r a expected arg sid = Ok (expected px py)) /\
  ((3 <= sid)%nat -> smooth_bc eval_r a expected arg sid = Err TypeError).
Proof.
  intros eval_r a expected arg sid. split; intros Hs.
  - destruct sid as [|[|[|sid]]]; [| | |lia]; unfold smooth_bc; cbn [arg_to_polar_abs seg_point].
    + do 2 eexists. split; reflexivity.
    + exists arg, 0. split; [reflexivity|]. destruct (Rleb_spec 0 arg).
      * rewrite cos_2PI, sin_2PI. do 2 f_equal; ring.
      * rewrite cos_PI, sin_PI. do 2 f_equal; ring.
    + exists (arg * cos a), (arg * sin a). split; [reflexivity|]. destruct (Rleb_spec 0 arg); [reflexivity|].
      rewrite Rplus_comm, neg_cos, neg_sin. do 2 f_equal; ring.
  - destruct sid as [|[|[|sid]]]; [lia|lia|lia|]. reflexivity.
Qed.
