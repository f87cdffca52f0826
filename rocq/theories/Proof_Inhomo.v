(** Proofs for C21 and C52: extension of the source term at the nodes. *)
From Coq Require Import ZArith List Bool Reals Lra Lia Psatz.
From Coquelicot Require Import Coquelicot.
From Verif Require Import Model_Py Model_Multivalue Model_Grid Model_Domain Model_Ext Model_Extend
  Spec_Grid Spec_Domain Spec_Ext Spec_Extend Spec_Inhomo Proof_Grid Proof_Domain Proof_Boundary Proof_Ext Proof_Ext2
  Proof_Place Proof_Extend Proof_Extend2 Proof_ExtendF.
Import ListNotations.
Open Scope R_scope.

(** ** Derivatives along a line *)

Lemma partials_comp : forall O m F, partials O m F ->
  partialsR O m (fun i j x y => fst (F i j x y)) /\ partialsR O m (fun i j x y => snd (F i j x y)).
Proof. intros O m F H. split; intros i j x y Hij HO; apply (H i j x y Hij HO). Qed.

Lemma line_derivs : forall O F x y nx ny, open2 O -> partials O 2 F -> O x y ->
  CDerive_n (fun t => F 0%nat 0%nat (x + t * nx) (y + t * ny)) 1 0 =
    cdot (F 1%nat 0%nat x y, F 0%nat 1%nat x y) (nx, ny) /\
  CDerive_n (fun t => F 0%nat 0%nat (x + t * nx) (y + t * ny)) 2 0 =
    quad_form ((F 2%nat 0%nat x y, F 1%nat 1%nat x y), (F 1%nat 1%nat x y, F 0%nat 2%nat x y)) (nx, ny).
Proof.
  intros O F x y nx ny HO HF Hxy. destruct (partials_comp O 2 F HF) as [P1 P2].
  pose proof (fun l => normal_derivs O 2 _ x y nx ny l HO P1 Hxy) as N1.
  pose proof (fun l => normal_derivs O 2 _ x y nx ny l HO P2 Hxy) as N2.
  unfold CDerive_n. rewrite (N1 1%nat), (N1 2%nat), (N2 1%nat), (N2 2%nat) by lia.
  cbn [dirn]. unfold quad_form, mat_vec, cdot. cbn [fst snd].
  destruct (F 1%nat 0%nat x y), (F 0%nat 1%nat x y), (F 2%nat 0%nat x y), (F 1%nat 1%nat x y), (F 0%nat 2%nat x y).
  split; apply injective_projections; cbn [fst snd Cplus Cmult RtoC]; ring.
Qed.

Lemma cdot_scaled : forall g s nx ny, s * s = 1 -> Cmult (cdot g (s * nx, s * ny)) (RtoC s) = cdot g (nx, ny).
Proof.
  intros [[g1 g2] [g3 g4]] s nx ny H. unfold cdot. apply injective_projections; cbn [fst snd Cplus Cmult RtoC]; ring [H].
Qed.

Lemma quad_form_scaled : forall h s nx ny, s * s = 1 -> quad_form h (s * nx, s * ny) = quad_form h (nx, ny).
Proof.
  intros [[[g1 g2] [g3 g4]] [[g5 g6] [g7 g8]]] s nx ny H. unfold quad_form, mat_vec, cdot.
  apply injective_projections; cbn [fst snd Cplus Cmult RtoC]; ring [H].
Qed.

(** ** The outer curve (C52) *)

Lemma on_curve_undefined : forall c p n th, In p (ec_gamma c 0) -> ec_bcoord c p = Some (n, th) ->
  ctx_coord c p = seg_point (ec_r c) (ec_a c) 0 th ->
  do_extend_inhomo_0_standard c p = Err ZeroDivisionError.
Proof.
  intros c p n th Hin Hb E. unfold do_extend_inhomo_0_standard, ctx_cache, cache_get.
  rewrite (proj2 (node_mem_in _ _) Hin), Hb, E. cbn [bind seg_point]. rewrite !Rminus_eq_0, unit_vec_zero. reflexivity.
Qed.

Lemma off_curve : forall brentq c p n th nv O F, brentq_contract brentq -> 0 < ec_a c < PI ->
  (forall t, ex_derive (ec_r c) t) -> (forall t, ex_derive (Derive (ec_r c)) t) -> (forall t, 0 < ec_r c t) ->
  ec_bcoord c p = node_bcoord brentq (ec_r c) (ec_a c) (ec_AD c) (ec_N c) p ->
  In p (ec_gamma c 0) -> ec_bcoord c p = Some (n, th) -> n <> 0 -> is_normal (ec_r c) (ec_a c) 0 th nv ->
  let s := ec_src c in
  let r := ec_r c in
  let x0 := r th * cos th in
  let y0 := r th * sin th in
  open2 O -> O x0 y0 -> partials O 2 F ->
  s_grad_polar s (r th) th = (F 1%nat 0%nat x0 y0, F 0%nat 1%nat x0 y0) ->
  s_hess_polar s (r th) th = ((F 2%nat 0%nat x0 y0, F 1%nat 1%nat x0 y0), (F 1%nat 1%nat x0 y0, F 0%nat 2%nat x0 y0)) ->
  let line t := F 0%nat 0%nat (x0 + t * fst nv) (y0 + t * snd nv) in
  do_extend_inhomo_0_standard c p =
  Ok (Rabs n, inhomo_extend_polar (ec_k c) n (b_curv r th) (s_f_polar s (r th) th)
        (CDerive_n line 1 0) (CDerive_n line 2 0)
        (s_d_f_th s (r th) th) (s_d2_f_th s (r th) th) (s_d_f_r s (r th) th) (s_d2_f_r s (r th) th)
        (s_d2_f_r_th s (r th) th) (b_d_th r th) (b_d2_th r th) (b_d_r r th) (b_d2_r r th)).
Proof.
  intros brentq c p n th [nx ny] O F Hb Ha Er Er2 Hr Hnb Hin Hbc Hn Hnv s r x0 y0 HO HO0 HF Eg Eh line.
  destruct (ctx_coord c p) as [x y] eqn:Exy.
  destruct (coords_0_point c p n th brentq x y (nx, ny) Hb Ha Er Er2 Hr Hnb Hbc Exy Hnv) as [Px Py].
  destruct Hnv as (Hu & _). cbn [fst snd seg_point] in *.
  destruct (line_derivs O F x0 y0 nx ny HO HF HO0) as [L1 L2].
  unfold line. rewrite L1, L2.
  unfold do_extend_inhomo_0_standard, ctx_cache, cache_get.
  rewrite (proj2 (node_mem_in _ _) Hin), Hbc, Exy. cbn [bind].
  replace (x - ec_r c th * cos th) with (n * nx) by lra. replace (y - ec_r c th * sin th) with (n * ny) by lra.
  rewrite unit_vec_scaled by assumption. cbn [bind]. destruct (np_sign_cases n Hn) as [S1 _].
  fold s r. rewrite Eg, Eh, cdot_scaled, quad_form_scaled by exact S1. reflexivity.
Qed.

(** C21 at a node beside the outer curve. *)
Lemma inhomo_node_curve : forall brentq c p n th Sa Th O U lo hi D F Q, brentq_contract brentq -> 0 < ec_a c < PI ->
  let r := ec_r c in
  (forall t, 0 < r t) ->
  (forall t, is_derive Sa t (sqrt (r t ^ 2 + Derive r t ^ 2))) -> (forall y, Sa (Th y) = y) ->
  (forall t, ex_derive r t) -> (forall t, ex_derive (Derive r) t) ->
  (forall l t, (l <= 2)%nat -> ex_derive (Derive_n (fun t => sqrt (r t ^ 2 + Derive r t ^ 2)) l) t) ->
  (forall l t, (l <= 1)%nat -> ex_derive (Derive_n (b_curv r) l) t) ->
  ec_bcoord c p = node_bcoord brentq r (ec_a c) (ec_AD c) (ec_N c) p ->
  In p (ec_gamma c 0) -> ec_bcoord c p = Some (n, th) -> n <> 0 -> ec_homogeneous c = false ->
  open2 O -> (forall t, lo < t < hi -> O (r t * cos t) (r t * sin t)) ->
  partials O 4 D -> partials O 2 F -> helmholtz O (ec_k c) D F ->
  partials U 2 Q -> (forall t, lo < t < hi -> U (r t) t) ->
  (forall t, lo < t < hi -> Q 0%nat 0%nat (r t) t = F 0%nat 0%nat (r t * cos t) (r t * sin t)) ->
  lo < th < hi -> polar_source (ec_src c) F Q (r th) th ->
  let nx t := fst (eval_normal r t) in
  let ny t := snd (eval_normal r t) in
  (forall t, lo < t < hi -> D 0%nat 0%nat (r t * cos t) (r t * sin t) = RtoC 0 /\
     Cplus (Cmult (RtoC (nx t)) (D 1%nat 0%nat (r t * cos t) (r t * sin t)))
           (Cmult (RtoC (ny t)) (D 0%nat 1%nat (r t * cos t) (r t * sin t))) = RtoC 0) ->
  do_extend_inhomo c 0 EStandard p =
  Ok (Rabs n, taylor_poly (fun t => D 0%nat 0%nat (r th * cos th + t * nx th) (r th * sin th + t * ny th)) 4 n).
Proof.
  intros brentq c p n th Sa Th O U lo hi D F Q Hb Ha r Hr HSa HTh Er Er2 Hs1 Hs2 Hnb Hin Hbc Hn Hhom HO HOin HD HF PDE HQ HU HQF Hth Hsrc nx ny HZ.
  assert (Hv : forall t, 0 < r t ^ 2 + Derive r t ^ 2).
  { intros t. pose proof (Hr t). pose proof (pow2_ge_0 (Derive r t)). nra. }
  destruct Hsrc as (G0 & G1 & G2 & G3 & G4 & G5 & G6 & G7).
  assert (Hnv : is_normal r (ec_a c) 0 th (nx th, ny th)).
  { unfold nx, ny. destruct (eval_tangent r th) as [tx ty] eqn:Et. destruct (eval_normal r th) as [mx my] eqn:En.
    destruct (frame_spec r th tx ty mx my Er (Hv th) Et En) as ((U1 & U2 & U3 & U4) & (v & Hvp & D1 & D2) & Hout).
    apply is_derive_unique in D1. apply is_derive_unique in D2.
    cbn [is_normal fst snd]. split; [exact U2|]. split; [|apply Hout; apply Hr].
    change (Derive (fun t : R => r t * cos t) th = v * tx) in D1. change (Derive (fun t : R => r t * sin t) th = v * ty) in D2.
    rewrite D1, D2. replace (mx * (v * tx) + my * (v * ty)) with (v * (tx * mx + ty * my)) by ring. rewrite U3. ring. }
  pose proof (off_curve brentq c p n th _ O F Hb Ha Er Er2 Hr Hnb Hin Hbc Hn Hnv HO (HOin th Hth) HF G1 G2) as E.
  unfold do_extend_inhomo. rewrite Hhom, E. cbn [fst snd]. f_equal. f_equal.
  change (ec_r c) with r. rewrite G0, G3, G4, G5, G6, G7.
  pose proof (polar_particular_taylor r Sa Th Hv HSa HTh Er Er2 Hs1 Hs2 O U lo hi D F Q (ec_k c) th n HO HOin HD HF PDE HQ HU HQF Hth HZ) as M.
  cbv beta zeta in M. rewrite !Rmult_0_l, !Rplus_0_r in M. exact M.
Qed.

(** ** The straight segments *)

Lemma inhomo_zero_n : forall k curv f fn fnn fss, inhomo_extend_arbitrary k 0 curv f fn fnn fss = RtoC 0.
Proof.
  intros. unfold inhomo_extend_arbitrary, inhomo_derivs. cbn [taylor_loop].
  replace (0 ^ 2) with 0 by ring. replace (0 ^ 3) with 0 by ring. replace (0 ^ 4) with 0 by ring.
  replace (0 ^ 1) with 0 by ring. unfold Cdiv. ring.
Qed.

Lemma straight_unit_curve : forall lo hi e1 e2, e1 ^ 2 + e2 ^ 2 = 1 ->
  unit_curve lo hi (fun s => s * e1) (fun s => s * e2) (fun _ => e1) (fun _ => e2) (fun _ => 0).
Proof.
  intros lo hi e1 e2 He s Hs.
  repeat match goal with |- _ /\ _ => split end; try (auto_derive; [exact I|ring]).
  - exact He.
  - apply ex_derive_const.
  - apply (ex_derive_ext (fun _ => 0)); [intros t; symmetry; apply Derive_const|apply ex_derive_const].
Qed.

(** The Taylor value from exact source data on a straight line with tangent
    (e1, e2) and normal (e2, -e1). *)
Lemma straight_taylor : forall O lo hi D F k e1 e2 s n, e1 ^ 2 + e2 ^ 2 = 1 ->
  open2 O -> (forall t, lo < t < hi -> O (t * e1) (t * e2)) ->
  partials O 4 D -> partials O 2 F -> helmholtz O k D F -> lo < s < hi ->
  (forall t, lo < t < hi -> D 0%nat 0%nat (t * e1) (t * e2) = RtoC 0 /\
     Cplus (Cmult (RtoC e2) (D 1%nat 0%nat (t * e1) (t * e2))) (Cmult (RtoC (- e1)) (D 0%nat 1%nat (t * e1) (t * e2))) = RtoC 0) ->
  let q i j := F i j (s * e1) (s * e2) in
  let grad := (q 1%nat 0%nat, q 0%nat 1%nat) in
  let hess := ((q 2%nat 0%nat, q 1%nat 1%nat), (q 1%nat 1%nat, q 0%nat 2%nat)) in
  inhomo_extend_arbitrary k n 0 (q 0%nat 0%nat) (cdot grad (e2, - e1)) (quad_form hess (e2, - e1)) (quad_form hess (e1, e2)) =
  taylor_poly (fun m => D 0%nat 0%nat (s * e1 + m * e2) (s * e2 + m * - e1)) 4 n.
Proof.
  intros O lo hi D F k e1 e2 s n He HO HOin HD HF PDE Hs HZ q grad hess.
  pose proof (particular_taylor O lo hi (fun s => s * e1) (fun s => s * e2) (fun _ => e1) (fun _ => e2) (fun _ => 0) D F k s n
    HO (straight_unit_curve lo hi e1 e2 He) HOin HD HF PDE HZ Hs) as M.
  destruct (line_derivs O F (s * e1) (s * e2) e2 (- e1) HO HF (HOin s Hs)) as [L1 L2].
  destruct (line_derivs O F (s * e1) (s * e2) e1 e2 HO HF (HOin s Hs)) as [T1 T2].
  assert (Al : forall G : nat -> nat -> R -> R -> C, along_normal G (fun s => s * e1) (fun s => s * e2) (fun _ => e1) (fun _ => e2) s
     = fun m => G 0%nat 0%nat (s * e1 + m * e2) (s * e2 + m * - e1)).
  { intros G. apply FunctionalExtensionality.functional_extensionality. intros m. unfold along_normal. f_equal. ring. }
  rewrite Al in M. rewrite <- M. unfold trace2. rewrite Al, L2. f_equal.
  - unfold grad, cdot, trace1, q. cbn [fst snd]. rewrite (Cmult_comm (F 1%nat 0%nat _ _)), (Cmult_comm (F 0%nat 1%nat _ _)). reflexivity.
  - fold hess in T2. unfold q in hess. fold hess. etransitivity; [symmetry; exact T2|].
    unfold CDerive_n, trace0.
    assert (Sh : forall (f : R -> R), Derive_n (fun t => f (s + t)) 2 0 = Derive_n f 2 s).
    { intros f. pose proof (Derive_n_comp_trans f 2 0 s) as E. rewrite Rplus_0_l in E. rewrite <- E.
      apply Derive_n_ext. intros t. f_equal. ring. }
    rewrite <- (Sh (fun t => fst (F 0%nat 0%nat (t * e1) (t * e2)))), <- (Sh (fun t => snd (F 0%nat 0%nat (t * e1) (t * e2)))).
    f_equal; apply Derive_n_ext; intros t; do 2 f_equal; ring.
Qed.

Lemma taylor_poly_0 : forall f, taylor_poly f 4 0 = f 0.
Proof.
  intros f. cbn [taylor_poly].
  replace (0 ^ 1 / INR (fact 1)) with 0 by (unfold Rdiv; ring). replace (0 ^ 2 / INR (fact 2)) with 0 by (unfold Rdiv; ring).
  replace (0 ^ 3 / INR (fact 3)) with 0 by (unfold Rdiv; ring). replace (0 ^ 4 / INR (fact 4)) with 0 by (unfold Rdiv; ring). ring.
Qed.

(** The radius method with its foot point away from the origin. *)
Lemma calc_radius_eq : forall c F e1 e2 s n tan, e1 ^ 2 + e2 ^ 2 = 1 -> s <> 0 ->
  tan = (e1, e2) -> cart_source (ec_src c) F (s * e1) (s * e2) ->
  let q i j := F i j (s * e1) (s * e2) in
  let grad := (q 1%nat 0%nat, q 0%nat 1%nat) in
  let hess := ((q 2%nat 0%nat, q 1%nat 1%nat), (q 1%nat 1%nat, q 0%nat 2%nat)) in
  exists len, Rabs n <= len /\
  calc_inhomo_radius c (s * e1) (s * e2) (s * e1 + n * e2) (s * e2 + n * - e1) tan n =
  (len, inhomo_extend_arbitrary (ec_k c) n 0 (q 0%nat 0%nat) (cdot grad (e2, - e1)) (quad_form hess (e2, - e1)) (quad_form hess (e1, e2))).
Proof.
  intros c F e1 e2 s n tan He Hs -> (E0 & E1 & E2) q grad hess.
  assert (Hz : Reqb (s * e1) 0 && Reqb (s * e2) 0 = false).
  { destruct (Reqb_spec (s * e1) 0) as [Z1|]; [|reflexivity]. destruct (Reqb_spec (s * e2) 0) as [Z2|]; [|reflexivity].
    exfalso. destruct (Rmult_integral _ _ Z1); [contradiction|]. destruct (Rmult_integral _ _ Z2); [contradiction|]. nra. }
  unfold calc_inhomo_radius, radius_derivs. rewrite Hz, E0, E1, E2.
  destruct (cart_to_polar (s * e1) (s * e2)) as [r th] eqn:Ep. destruct (cart_to_polar_spec _ _ _ _ Ep) as (Hr & _).
  cbn [fst]. replace (s * e1 + n * e2 - s * e1) with (n * e2) by ring. replace (s * e2 + n * - e1 - s * e2) with (n * - e1) by ring.
  eexists. split; [|apply f_equal2; [reflexivity|]].
  - destruct (_ || _); lra.
  - destruct (Req_dec n 0) as [->|Hn]; [rewrite !inhomo_zero_n; reflexivity|].
    rewrite unit_or_zero_scaled by (try assumption; nra).
    destruct (np_sign_cases n Hn) as [S1 _]. rewrite cdot_scaled, quad_form_scaled by exact S1. reflexivity.
Qed.

Lemma frame12_unit : forall a sid e1 e2, frame12 a sid e1 e2 -> e1 ^ 2 + e2 ^ 2 = 1.
Proof. intros a sid e1 e2 [(_ & -> & ->)|(_ & -> & ->)]; [ring|]. pose proof (sc2 a) as S. ring [S]. Qed.

Lemma inhomo_node_straight : forall c sid e p x y e1 e2 O lo hi D F, 0 < ec_a c < PI ->
  ctx_coord c p = (x, y) -> frame12 (ec_a c) sid e1 e2 -> e <> ERight -> ec_homogeneous c = false ->
  let s := x * e1 + y * e2 in
  let n := x * e2 - y * e1 in
  s <> 0 -> cart_source (ec_src c) F (s * e1) (s * e2) ->
  open2 O -> (forall t, lo < t < hi -> O (t * e1) (t * e2)) ->
  partials O 4 D -> partials O 2 F -> helmholtz O (ec_k c) D F -> lo < s < hi ->
  (forall t, lo < t < hi -> D 0%nat 0%nat (t * e1) (t * e2) = RtoC 0 /\
     Cplus (Cmult (RtoC e2) (D 1%nat 0%nat (t * e1) (t * e2))) (Cmult (RtoC (- e1)) (D 0%nat 1%nat (t * e1) (t * e2))) = RtoC 0) ->
  exists len, Rabs n <= len /\ do_extend_inhomo c sid e p =
    Ok (len, taylor_poly (fun m => D 0%nat 0%nat (s * e1 + m * e2) (s * e2 + m * - e1)) 4 n).
Proof.
  intros c sid e p x y e1 e2 O lo hi D F Ha Exy Hfr He Hhom s n Hs Hsrc HO HOin HD HF PDE Hlo HZ.
  pose proof (frame12_unit _ _ _ _ Hfr) as Hu.
  destruct (calc_radius_eq c F e1 e2 s n (e1, e2) Hu Hs eq_refl Hsrc) as (len & Hlen & E).
  exists len. split; [exact Hlen|].
  rewrite (straight_taylor O lo hi D F (ec_k c) e1 e2 s n Hu HO HOin HD HF PDE Hlo HZ) in E.
  assert (Px : s * e1 + n * e2 = x) by (unfold s, n; transitivity (x * (e1 ^ 2 + e2 ^ 2)); [ring|rewrite Hu; ring]).
  assert (Py : s * e2 + n * - e1 = y) by (unfold s, n; transitivity (y * (e1 ^ 2 + e2 ^ 2)); [ring|rewrite Hu; ring]).
  rewrite Px, Py in E.
  assert (Er : extend_inhomo_radius c p sid = calc_inhomo_radius c (s * e1) (s * e2) x y (e1, e2) n).
  { unfold extend_inhomo_radius. rewrite Exy. destruct Hfr as [(-> & E1 & E2)|(-> & E1 & E2)].
    - unfold s, n. rewrite E1, E2. f_equal; try ring.
    - rewrite get_radius_point_eq, signed_dist_eq by exact Ha. unfold s, n. rewrite E1, E2. reflexivity. }
  unfold do_extend_inhomo. rewrite Hhom.
  destruct Hfr as [(-> & E1 & E2)|(-> & E1 & E2)]; destruct e; try contradiction; rewrite Er, E; reflexivity.
Qed.

(** ** Taylor data at the corners *)

Lemma taylor_shift_f : forall F x0 y0 d nx ny, quadratic F ->
  let grad := (F 1%nat 0%nat x0 y0, F 0%nat 1%nat x0 y0) in
  let hess := ((F 2%nat 0%nat x0 y0, F 1%nat 1%nat x0 y0), (F 1%nat 1%nat x0 y0, F 0%nat 2%nat x0 y0)) in
  f_taylor (F 0%nat 0%nat x0 y0) (cdot grad (nx, ny)) (quad_form hess (nx, ny)) d =
  F 0%nat 0%nat (x0 + d * nx) (y0 + d * ny).
Proof.
  intros F x0 y0 d nx ny HF grad hess. rewrite <- (quadratic_taylor2 F x0 y0 (x0 + d * nx) (y0 + d * ny) HF). unfold taylor2, f_taylor, grad, hess. cbv zeta.
  replace (x0 + d * nx - x0) with (d * nx) by ring. replace (y0 + d * ny - y0) with (d * ny) by ring.
  replace (INR (fact 0)) with 1 by reflexivity. replace (INR (fact 1)) with 1 by reflexivity.
  replace (INR (fact 2)) with 2 by (cbn; lra). unfold quad_form, mat_vec, cdot.
  destruct (F 0%nat 0%nat x0 y0), (F 1%nat 0%nat x0 y0), (F 0%nat 1%nat x0 y0), (F 2%nat 0%nat x0 y0), (F 1%nat 1%nat x0 y0), (F 0%nat 2%nat x0 y0).
  apply injective_projections; cbn [fst snd Cplus Cmult RtoC]; field.
Qed.

Lemma taylor_shift_grad : forall F x0 y0 dx dy, quadratic F ->
  F 1%nat 0%nat (x0 + dx) (y0 + dy) = Cplus (F 1%nat 0%nat x0 y0) (cdot (F 2%nat 0%nat x0 y0, F 1%nat 1%nat x0 y0) (dx, dy)) /\
  F 0%nat 1%nat (x0 + dx) (y0 + dy) = Cplus (F 0%nat 1%nat x0 y0) (cdot (F 1%nat 1%nat x0 y0, F 0%nat 2%nat x0 y0) (dx, dy)).
Proof.
  intros F x0 y0 dx dy (q0 & qx & qy & qxx & qxy & qyy & H).
  destruct (H x0 y0) as (_ & A1 & A2 & A3 & A4 & A5). destruct (H (x0 + dx) (y0 + dy)) as (_ & B1 & B2 & _).
  rewrite A1, A2, A3, A4, A5, B1, B2. unfold cdot. cbn [fst snd]. destruct qx, qy, qxx, qxy, qyy.
  split; apply injective_projections; cbn [fst snd Cplus Cmult RtoC]; ring.
Qed.

Lemma taylor_hess_const : forall F x0 y0 x y, quadratic F ->
  F 2%nat 0%nat x y = F 2%nat 0%nat x0 y0 /\ F 1%nat 1%nat x y = F 1%nat 1%nat x0 y0 /\ F 0%nat 2%nat x y = F 0%nat 2%nat x0 y0.
Proof.
  intros F x0 y0 x y (q0 & qx & qy & qxx & qxy & qyy & H).
  destruct (H x0 y0) as (_ & _ & _ & -> & -> & ->). destruct (H x y) as (_ & _ & _ & -> & -> & ->). auto.
Qed.

Lemma cdot_lin : forall g d nx ny, cdot g (d * nx, d * ny) = Cmult (cdot g (nx, ny)) (RtoC d).
Proof. intros [[g1 g2] [g3 g4]] d nx ny. unfold cdot. apply injective_projections; cbn [fst snd Cplus Cmult RtoC]; ring. Qed.

(** The straight segments beyond the corner. *)
Lemma inhomo_node_right : forall c sid p x y e1 e2 O lo hi D F, 0 < ec_R c -> 0 < ec_a c < PI ->
  ctx_coord c p = (x, y) -> frame12 (ec_a c) sid e1 e2 -> node_etype c sid p = Ok ERight -> ec_homogeneous c = false ->
  let s := x * e1 + y * e2 in
  let n := x * e2 - y * e1 in
  let s0 := match sid with 1%nat => - ec_R c | _ => ec_R c end in
  cart_source (ec_src c) F (s0 * e1) (s0 * e2) -> quadratic F ->
  open2 O -> (forall t, lo < t < hi -> O (t * e1) (t * e2)) ->
  partials O 4 D -> partials O 2 F -> helmholtz O (ec_k c) D F -> lo < s < hi ->
  (forall t, lo < t < hi -> D 0%nat 0%nat (t * e1) (t * e2) = RtoC 0 /\
     Cplus (Cmult (RtoC e2) (D 1%nat 0%nat (t * e1) (t * e2))) (Cmult (RtoC (- e1)) (D 0%nat 1%nat (t * e1) (t * e2))) = RtoC 0) ->
  do_extend_inhomo c sid ERight p =
    Ok (Rabs (s - s0) + Rabs n, taylor_poly (fun m => D 0%nat 0%nat (s * e1 + m * e2) (s * e2 + m * - e1)) 4 n).
Proof.
  intros c sid p x y e1 e2 O lo hi D F HR Ha Exy Hfr Het Hhom s n s0 (E0 & E1 & E2) HF HO HOin HD HFp PDE Hlo HZ.
  pose proof (frame12_unit _ _ _ _ Hfr) as Hu.
  assert (Hsin : 0 < sin (ec_a c)) by (apply sin_gt_0; lra).
  assert (Hss : s - s0 <> 0).
  { unfold node_etype in Het. rewrite Exy in Het. destruct Hfr as [(-> & F1 & F2)|(-> & F1 & F2)].
    - cbn [etype_of] in Het. unfold s, s0. rewrite F1, F2.
      destruct (Rltb_spec x 0); [discriminate|]. destruct (Rltb_spec (ec_R c) x); [lra|discriminate].
    - cbn [etype_of] in Het. rewrite get_radius_point_eq in Het by exact Ha. unfold s, s0. rewrite F1, F2.
      destruct (Rltb_spec ((x * cos (ec_a c) + y * sin (ec_a c)) * sin (ec_a c)) 0); [discriminate|].
      destruct (Rltb_spec (ec_R c * sin (ec_a c)) ((x * cos (ec_a c) + y * sin (ec_a c)) * sin (ec_a c))) as [L|]; [|discriminate].
      intros Z. assert (Z' : x * cos (ec_a c) + y * sin (ec_a c) = ec_R c) by lra. rewrite Z' in L. lra. }
  assert (Px : s * e1 + n * e2 = x) by (unfold s, n; transitivity (x * (e1 ^ 2 + e2 ^ 2)); [ring|rewrite Hu; ring]).
  assert (Py : s * e2 + n * - e1 = y) by (unfold s, n; transitivity (y * (e1 ^ 2 + e2 ^ 2)); [ring|rewrite Hu; ring]).
  rewrite <- (straight_taylor O lo hi D F (ec_k c) e1 e2 s n Hu HO HOin HD HFp PDE Hlo HZ).
  assert (Er : do_extend_inhomo c sid ERight p = extend_inhomo_12_r c p sid).
  { unfold do_extend_inhomo. rewrite Hhom. destruct Hfr as [(-> & _)|(-> & _)]; reflexivity. }
  rewrite Er. unfold extend_inhomo_12_r. rewrite Exy.
  assert (Ept : match sid with
      | 1%nat => (ec_R c, 0, x, 0, y)
      | _ => let '(x1, y1) := get_radius_point (ec_a c) x y in
        (ec_R c * cos (ec_a c), ec_R c * sin (ec_a c), x1, y1, signed_dist_to_radius (ec_a c) x y)
      end = (s0 * e1, s0 * e2, s * e1, s * e2, n)).
  { destruct Hfr as [(-> & F1 & F2)|(-> & F1 & F2)].
    - unfold s, n, s0. rewrite F1, F2. repeat f_equal; ring.
    - rewrite get_radius_point_eq, signed_dist_eq by exact Ha. unfold s, n, s0. rewrite F1, F2. reflexivity. }
  rewrite Ept. cbv beta iota.
  replace (s * e1 - s0 * e1) with ((s - s0) * e1) by ring. replace (s * e2 - s0 * e2) with ((s - s0) * e2) by ring.
  rewrite unit_vec_scaled, norm2_scaled by assumption. cbn [bind].
  destruct (np_sign_cases (s - s0) Hss) as [Sg Sa]. set (sg := np_sign (s - s0)) in *.
  assert (Sd : Rabs (s - s0) * sg = s - s0) by (rewrite Sa; transitivity ((sg * sg) * (s - s0)); [ring|rewrite Sg; ring]).
  rewrite E0, E1, E2.
  rewrite (taylor_shift_f F (s0 * e1) (s0 * e2) (Rabs (s - s0)) (sg * e1) (sg * e2) HF).
  assert (Q1 : s0 * e1 + Rabs (s - s0) * (sg * e1) = s * e1) by (rewrite <- Rmult_assoc, Sd; ring).
  assert (Q2 : s0 * e2 + Rabs (s - s0) * (sg * e2) = s * e2) by (rewrite <- Rmult_assoc, Sd; ring).
  rewrite Q1, Q2.
  destruct (taylor_shift_grad F (s0 * e1) (s0 * e2) (Rabs (s - s0) * (sg * e1)) (Rabs (s - s0) * (sg * e2)) HF) as [G1 G2].
  rewrite Q1, Q2 in G1, G2. rewrite (cdot_lin _ (Rabs (s - s0)) (sg * e1) (sg * e2)) in G1. rewrite (cdot_lin _ (Rabs (s - s0)) (sg * e1) (sg * e2)) in G2.
  destruct (taylor_hess_const F (s0 * e1) (s0 * e2) (s * e1) (s * e2) HF) as (H1 & H2 & H3).
  unfold mat_vec. cbn [fst snd]. rewrite <- G1, <- G2, <- H1, <- H2, <- H3.
  replace (x - s * e1) with (n * e2) by lra. replace (y - s * e2) with (n * - e1) by lra.
  f_equal. f_equal. rewrite quad_form_scaled by exact Sg.
  destruct (Req_dec n 0) as [->|Hn]; [rewrite !inhomo_zero_n; reflexivity|].
  rewrite unit_or_zero_scaled by (try assumption; nra). destruct (np_sign_cases n Hn) as [Sn _].
  rewrite quad_form_scaled by exact Sn.
  set (grad := (F 1%nat 0%nat (s * e1) (s * e2), F 0%nat 1%nat (s * e1) (s * e2))).
  assert (Ed : (if Rltb n 0 then Copp (cdot grad (np_sign n * e2, np_sign n * - e1)) else cdot grad (np_sign n * e2, np_sign n * - e1))
    = cdot grad (e2, - e1)).
  { rewrite cdot_lin. unfold np_sign. destruct (Rltb_spec n 0) as [L|L], (Rltb_spec 0 n) as [L'|L']; try lra;
      destruct (cdot grad (e2, - e1)); apply injective_projections; cbn [fst snd Copp Cmult RtoC]; ring. }
  rewrite Ed. reflexivity.
Qed.

(** The outer arc beyond the corners. *)
Lemma inhomo_node_corner : forall brentq c e p n th th0 O U lo hi D F Q, brentq_contract brentq ->
  0 < ec_R c -> 0 < ec_a c < PI -> ec_r c = r_arc (ec_R c) ->
  ec_bcoord c p = node_bcoord brentq (r_arc (ec_R c)) (ec_a c) (ec_AD c) (ec_N c) p ->
  In p (ec_gamma c 0) -> ec_bcoord c p = Some (n, th) -> n <> 0 -> ec_homogeneous c = false ->
  node_etype c 0 p = Ok e -> (e = ELeft /\ th0 = ec_a c \/ e = ERight /\ th0 = 2 * PI) ->
  let r := ec_R c in
  quadratic F -> quadratic Q -> polar_source (ec_src c) F Q r th0 ->
  open2 O -> (forall t, lo < t < hi -> O (r * cos t) (r * sin t)) ->
  partials O 4 D -> partials O 2 F -> helmholtz O (ec_k c) D F ->
  partials U 2 Q -> (forall t, lo < t < hi -> U r t) ->
  (forall t, lo < t < hi -> Q 0%nat 0%nat r t = F 0%nat 0%nat (r * cos t) (r * sin t)) -> lo < th < hi ->
  (forall t, lo < t < hi -> D 0%nat 0%nat (r * cos t) (r * sin t) = RtoC 0 /\
     Cplus (Cmult (RtoC (cos t)) (D 1%nat 0%nat (r * cos t) (r * sin t)))
           (Cmult (RtoC (sin t)) (D 0%nat 1%nat (r * cos t) (r * sin t))) = RtoC 0) ->
  exists len, Rabs n <= len /\ do_extend_inhomo c 0 e p =
  Ok (len, taylor_poly (fun t => D 0%nat 0%nat (r * cos th + t * cos th) (r * sin th + t * sin th)) 4 n).
Proof.
  intros brentq c e p n th th0 O U lo hi D F Q Hb HR Ha Er Hnb Hin Hbc Hn Hhom Het Hcase r HF HQ2 Hsrc HO HOin HD HFp PDE HQ HU HQF Hth HZ.
  destruct Hsrc as (G0 & G1 & G2 & G3 & G4 & G5 & G6 & G7). pose proof PI_RGT_0 as HPI.
  destruct (ctx_coord c p) as [x y] eqn:Exy.
  destruct (ps_polar_xy (ec_a c) x y) as [r2 th2] eqn:Ep.
  destruct (ps_polar_spec (ec_a c) x y r2 th2 ltac:(lra) Ep) as (Hr2 & Hth2 & Hx & Hy).
  destruct (bcoord_arc brentq (ec_R c) (ec_a c) (ec_AD c) (ec_N c) Hb HR Ha p x y r2 th2 Exy Ep) as (th' & Eb & Hth' & Eth).
  unfold bcoord in Eb. rewrite <- Hnb, Hbc in Eb. injection Eb as En Eth'. subst th'. fold r in En.
  destruct (arc_smooth r HR) as (H1 & H2 & H3 & H4 & H5 & H6 & H7).
  assert (Hnv : is_normal (r_arc r) (ec_a c) 0 th (cos th, sin th)).
  { destruct (eval_tangent (r_arc r) th) as [tx ty] eqn:Et.
    assert (En' := arc_normal r th HR).
    destruct (frame_spec (r_arc r) th tx ty (cos th) (sin th) H4 (H1 th) Et En') as ((U1 & U2 & U3 & U4) & (v & Hvp & D1 & D2) & Hout).
    apply is_derive_unique in D1. apply is_derive_unique in D2.
    cbn [is_normal fst snd]. split; [exact U2|]. split; [|apply Hout; exact HR].
    change (Derive (fun t : R => r_arc r t * cos t) th = v * tx) in D1. change (Derive (fun t : R => r_arc r t * sin t) th = v * ty) in D2.
    rewrite D1, D2. replace (cos th * (v * tx) + sin th * (v * ty)) with (v * (tx * cos th + ty * sin th)) by ring. rewrite U3. ring. }
  assert (Hpt : x = r * cos th + n * cos th /\ y = r * sin th + n * sin th).
  { assert (H4' : forall t, ex_derive (ec_r c) t) by (rewrite Er; exact H4).
    assert (H5' : forall t, ex_derive (Derive (ec_r c)) t) by (rewrite Er; exact H5).
    assert (Hp' : forall t, 0 < ec_r c t) by (rewrite Er; intros; exact HR).
    rewrite <- Er in Hnb. fold r in Er. rewrite <- Er in Hnv.
    pose proof (coords_0_point c p n th brentq x y _ Hb Ha H4' H5' Hp' Hnb Hbc Exy Hnv) as P.
    cbn [fst snd seg_point] in P. rewrite Er in P. exact P. }
  destruct Hpt as [Px Py].
  set (x0 := r * cos th0). set (y0 := r * sin th0).
  (* the chord *)
  assert (Hgap : 0 < Rabs (th - th0) < PI).
  { unfold node_etype in Het. rewrite Exy, (proj2 (node_mem_in _ _) Hin) in Het. unfold ctx_cache, cache_get in Het.
    rewrite (proj2 (node_mem_in _ _) Hin), Hbc in Het. cbn [bind etype_of] in Het.
    destruct (Rltb_spec (2 * PI) th) as [T1|T1]; [|destruct (Rltb_spec th (ec_a c)) as [T2|T2]].
    - destruct Hcase as [[-> _]|[_ ->]]; [discriminate|]. rewrite Rabs_pos_eq by lra. lra.
    - destruct Hcase as [[_ ->]|[-> _]]; [|discriminate]. rewrite Rabs_left by lra. lra.
    - destruct Hcase as [[-> _]|[-> _]]; discriminate. }
  assert (Hchord : (r * cos th - x0, r * sin th - y0) <> (0, 0)).
  { intros E. injection E as C1 C2. unfold x0, y0 in *. assert (HR' : 0 < r) by exact HR.
    assert (C1' : cos th = cos th0) by nra. assert (C2' : sin th = sin th0) by nra.
    assert (Cc : cos (th - th0) = 1). { rewrite cos_minus, C1', C2'. pose proof (sc2 th0) as S. ring [S]. }
    assert (Ca : cos (Rabs (th - th0)) = 1) by (unfold Rabs; destruct (Rcase_abs (th - th0)); [rewrite cos_neg|]; exact Cc).
    pose proof (cos_decreasing_1 0 (Rabs (th - th0)) ltac:(lra) ltac:(lra) ltac:(lra) ltac:(lra) ltac:(lra)) as L.
    rewrite cos_0 in L. lra. }
  destruct (unit_decomp _ _ Hchord) as (mx & my & Hm & Hd & Hmx & Hmy).
  set (d := norm2 (r * cos th - x0, r * sin th - y0)) in *.
  set (sid := match e with ERight => 1%nat | _ => 2%nat end).
  assert (Er0 : do_extend_inhomo c 0 e p = extend_inhomo_0_lr c p sid).
  { unfold do_extend_inhomo. rewrite Hhom. destruct Hcase as [[-> _]|[-> _]]; reflexivity. }
  assert (Eth0 : match sid with 1%nat => 2 * PI | _ => ec_a c end = th0).
  { unfold sid. destruct Hcase as [[-> ->]|[-> ->]]; reflexivity. }
  exists (Rabs d + Rabs n). split; [pose proof (Rabs_pos d); lra|].
  rewrite Er0. unfold extend_inhomo_0_lr, ctx_cache, cache_get. rewrite (proj2 (node_mem_in _ _) Hin), Hbc, Exy.
  cbn [bind]. rewrite Eth0, Er. change (r_arc (ec_R c) th) with r. fold r. fold x0 y0. fold d.
  assert (Hunit : unit_vec (r * cos th - x0, r * sin th - y0) = Ok (mx, my)).
  { rewrite Hmx, Hmy at 1. rewrite unit_vec_scaled by (assumption || lra).
    unfold np_sign. destruct (Rltb_spec 0 d); [|lra]. rewrite !Rmult_1_l. reflexivity. }
  rewrite Hunit. cbn [bind].
  assert (Epol : ps_get_polar (ec_a c) (ec_AD c) (ec_N c) (fst p) (snd p) = (r2, th2)).
  { unfold ps_get_polar. unfold ctx_coord in Exy. rewrite Exy. exact Ep. }
  rewrite Epol. replace (x - r * cos th) with (n * cos th) by lra. replace (y - r * sin th) with (n * sin th) by lra.
  assert (Hcs : cos th ^ 2 + sin th ^ 2 = 1) by (pose proof (sc2 th) as S; ring [S]).
  rewrite unit_vec_scaled by assumption. cbn [bind].
  rewrite G0, G1, G2, G3, G4, G5, G6, G7. fold x0 y0.
  rewrite (taylor_shift_f F x0 y0 d mx my HF).
  assert (Q1 : x0 + d * mx = r * cos th) by lra. assert (Q2 : y0 + d * my = r * sin th) by lra.
  rewrite Q1, Q2. unfold mat_vec. cbn [fst snd].
  destruct (taylor_shift_grad F x0 y0 (d * mx) (d * my) HF) as [S1 S2]. rewrite Q1, Q2 in S1, S2. rewrite (cdot_lin _ d mx my) in S1. rewrite (cdot_lin _ d mx my) in S2.
  rewrite (Cmult_comm (RtoC d)), (Cmult_comm (RtoC d)), <- S1, <- S2.
  destruct (taylor_hess_const F x0 y0 (r * cos th) (r * sin th) HF) as (K1 & K2 & K3). rewrite <- K1, <- K2, <- K3.
  destruct (taylor_shift_grad Q r th0 (r - r) (th - th0) HQ2) as [S3 S4].
  replace (r + (r - r)) with r in S3, S4 by ring. replace (th0 + (th - th0)) with th in S3, S4 by ring.
  rewrite <- S3, <- S4.
  destruct (taylor_hess_const Q r th0 r th HQ2) as (K4 & K5 & K6). rewrite <- K4, <- K5, <- K6.
  destruct (np_sign_cases n Hn) as [Sn _]. rewrite quad_form_scaled by exact Sn.
  set (grad := (F 1%nat 0%nat (r * cos th) (r * sin th), F 0%nat 1%nat (r * cos th) (r * sin th))).
  assert (Ed : (if Rltb r2 (r_arc r th2) then Copp (cdot grad (np_sign n * cos th, np_sign n * sin th)) else cdot grad (np_sign n * cos th, np_sign n * sin th))
    = cdot grad (cos th, sin th)).
  { rewrite cdot_lin. unfold np_sign, r_arc.
    destruct (Rltb_spec r2 r) as [L|L], (Rltb_spec 0 n) as [L'|L'], (Rltb_spec n 0) as [L''|L'']; try lra;
      destruct (cdot grad (cos th, sin th)); apply injective_projections; cbn [fst snd Copp Cmult RtoC]; ring. }
  rewrite Ed. f_equal. f_equal.
  assert (HZ' : forall t, lo < t < hi -> D 0%nat 0%nat (r_arc r t * cos t) (r_arc r t * sin t) = RtoC 0 /\
     Cplus (Cmult (RtoC (fst (eval_normal (r_arc r) t))) (D 1%nat 0%nat (r_arc r t * cos t) (r_arc r t * sin t)))
           (Cmult (RtoC (snd (eval_normal (r_arc r) t))) (D 0%nat 1%nat (r_arc r t * cos t) (r_arc r t * sin t))) = RtoC 0).
  { intros t Ht. rewrite arc_normal by exact HR. exact (HZ t Ht). }
  pose proof (polar_particular_taylor (r_arc r) _ _ H1 H2 H3 H4 H5 H6 H7 O U lo hi D F Q (ec_k c) th n HO HOin HD HFp PDE HQ HU HQF Hth HZ') as M.
  cbv beta zeta in M. rewrite !Rmult_0_l, !Rplus_0_r, !arc_normal in M by exact HR. cbn [fst snd] in M.
  destruct (line_derivs O F (r * cos th) (r * sin th) (cos th) (sin th) HO HFp (HOin th Hth)) as [L1 L2].
  unfold r_arc in M at 2 3 4 5 6 7. 
  etransitivity; [|exact M]. unfold r_arc. rewrite L1, L2. reflexivity.
Qed.
