(** Accuracy of the extension at the nodes of the discrete boundary. *)
From Coq Require Import ZArith List Bool Reals Lra Lia Psatz.
From Coquelicot Require Import Coquelicot.
From Verif Require Import Model_Py Model_Multivalue Model_Grid Model_Domain Model_Ext Model_Extend Spec_Chebyshev Spec_Domain Spec_Grid
  Spec_Ext Spec_Extend Spec_Curve Lib_Sm Proof_Grid Proof_Domain Proof_Boundary Proof_Place Proof_Ext Proof_Ext2 Proof_Extend
  Proof_Extend2 Proof_Gentle Proof_CurvePlace Proof_Acc1 Proof_Acc2 Proof_Acc3.
Import ListNotations.
Open Scope R_scope.

Lemma near_clip : forall arg delta t, delta = 0 \/ delta <= 0 /\ arg <= t \/ 0 <= delta /\ t <= arg ->
  Rabs delta <= Rabs (arg + delta - t).
Proof.
  intros arg delta t [-> | [H|H]]; [rewrite Rabs_R0; apply Rabs_pos| |].
  - rewrite !Rabs_left1 by lra. lra.
  - rewrite !Rabs_pos_eq by lra. lra.
Qed.

(** The nearest point of a segment and the offset from it. *)
Lemma coords_12_near : forall c sid e p x y, 0 < ec_R c -> 0 < ec_a c < PI -> (1 <= sid < 3)%nat ->
  ctx_coord c p = (x, y) -> node_etype c sid p = Ok e ->
  exists arg delta n, seg_range (ec_R c) (ec_a c) sid arg /\ (e = EStandard -> delta = 0) /\
    (forall t, seg_range (ec_R c) (ec_a c) sid t -> Rabs delta <= Rabs (arg + delta - t)) /\
    (forall nv, is_normal (ec_r c) (ec_a c) sid (arg + delta) nv ->
       x = fst (seg_point (ec_r c) (ec_a c) sid (arg + delta)) + n * fst nv /\
       y = snd (seg_point (ec_r c) (ec_a c) sid (arg + delta)) + n * snd nv) /\
    forall B c0 c1 s,
      do_extend (with_basis c B c0 c1) s sid e p =
      match e with
      | EStandard => d <- calc_xi_derivs (with_basis c B c0 c1) s types_12 arg sid;;
                     v <- extend_radius c n d;; Ok (Rabs n, v)
      | _ => do_extend_taylor (with_basis c B c0 c1) s p arg sid delta n
      end.
Proof.
  intros c sid e p x y HR Ha Hsid E He.
  rewrite (node_etype_12 c sid p x y Hsid E) in He. injection He as <-.
  assert (Ek : forall B c0 c1, ctx_coord (with_basis c B c0 c1) p = (x, y)) by (intros; exact E).
  destruct sid as [|[|[|sid]]]; [lia| | |lia].
  - (* segment 1 *)
    cbn [etype_of]. destruct (Rltb_spec x 0) as [H|H]; [|destruct (Rltb_spec (ec_R c) x) as [H'|H']].
    + exists 0, x, y. split; [cbn; lra|]. split; [discriminate|]. split; [intros u Hu; cbn in Hu; apply near_clip; lra|]. split.
      * intros nv ->. cbn [seg_point fst snd]. split; ring.
      * intros B c0 c1 s. cbn [do_extend]. unfold do_extend_1_left. rewrite Ek. reflexivity.
    + exists (ec_R c), (x - ec_R c), y. split; [cbn; lra|]. split; [discriminate|]. split; [intros u Hu; cbn in Hu; apply near_clip; lra|]. split.
      * intros nv ->. cbn [seg_point fst snd]. split; ring.
      * intros B c0 c1 s. cbn [do_extend]. unfold do_extend_1_right. rewrite Ek. reflexivity.
    + exists x, 0, y. split; [cbn; lra|]. split; [reflexivity|]. split; [intros u Hu; cbn in Hu; apply near_clip; lra|]. split.
      * intros nv ->. cbn [seg_point fst snd]. split; ring.
      * intros B c0 c1 s. cbn [do_extend]. unfold do_extend_1_standard. rewrite Ek. reflexivity.
  - (* segment 2 *)
    pose proof (sin2_cos2 (ec_a c)) as SC. unfold Rsqr in SC.
    assert (Hs : 0 < sin (ec_a c)) by (apply sin_gt_0; lra).
    set (t := x * cos (ec_a c) + y * sin (ec_a c)) in *.
    pose proof (get_radius_point_eq (ec_a c) x y Ha) as G. fold t in G.
    pose proof (signed_dist_eq (ec_a c) x y Ha) as Sd.
    assert (Pt : forall nv, is_normal (ec_r c) (ec_a c) 2 t nv ->
       x = fst (seg_point (ec_r c) (ec_a c) 2 t) + signed_dist_to_radius (ec_a c) x y * fst nv /\
       y = snd (seg_point (ec_r c) (ec_a c) 2 t) + signed_dist_to_radius (ec_a c) x y * snd nv).
    { intros nv ->. rewrite Sd. cbn [seg_point fst snd]. unfold t.
      split; [transitivity (x * (sin (ec_a c) * sin (ec_a c) + cos (ec_a c) * cos (ec_a c)))
             |transitivity (y * (sin (ec_a c) * sin (ec_a c) + cos (ec_a c) * cos (ec_a c)))];
        try (rewrite SC; ring); ring. }
    cbn [etype_of]. rewrite G.
    destruct (Rltb_spec (t * sin (ec_a c)) 0) as [H|H]; [|destruct (Rltb_spec (ec_R c * sin (ec_a c)) (t * sin (ec_a c))) as [H'|H']].
    + assert (Ht : t < 0) by nra.
      exists 0, t, (signed_dist_to_radius (ec_a c) x y). split; [cbn; lra|]. split; [discriminate|]. split; [intros u Hu; cbn in Hu; apply near_clip; lra|]. split.
      * rewrite Rplus_0_l. exact Pt.
      * intros B c0 c1 s. cbn [do_extend]. unfold do_extend_2_left. rewrite Ek.
        change (ec_a (with_basis c B c0 c1)) with (ec_a c). rewrite G.
        f_equal. replace ((t * cos (ec_a c)) ^ 2 + (t * sin (ec_a c)) ^ 2) with ((- t) ^ 2 * (sin (ec_a c) * sin (ec_a c) + cos (ec_a c) * cos (ec_a c))) by ring.
        rewrite SC, Rmult_1_r, sqrt_pow2 by lra. ring.
    + assert (Ht : ec_R c < t) by nra.
      exists (ec_R c), (t - ec_R c), (signed_dist_to_radius (ec_a c) x y). split; [cbn; lra|]. split; [discriminate|]. split; [intros u Hu; cbn in Hu; apply near_clip; lra|]. split.
      * replace (ec_R c + (t - ec_R c)) with t by ring. exact Pt.
      * intros B c0 c1 s. cbn [do_extend]. unfold do_extend_2_right. rewrite Ek.
        change (ec_a (with_basis c B c0 c1)) with (ec_a c). change (ec_R (with_basis c B c0 c1)) with (ec_R c). rewrite G.
        f_equal.
        replace ((t * cos (ec_a c) - ec_R c * cos (ec_a c)) ^ 2 + (t * sin (ec_a c) - ec_R c * sin (ec_a c)) ^ 2)
          with ((t - ec_R c) ^ 2 * (sin (ec_a c) * sin (ec_a c) + cos (ec_a c) * cos (ec_a c))) by ring.
        rewrite SC, Rmult_1_r, sqrt_pow2 by lra. reflexivity.
    + assert (Ht : 0 <= t <= ec_R c) by (split; nra).
      exists t, 0, (signed_dist_to_radius (ec_a c) x y). split; [cbn; lra|]. split; [reflexivity|]. split; [intros u Hu; cbn in Hu; apply near_clip; lra|]. split.
      * rewrite Rplus_0_r. exact Pt.
      * intros B c0 c1 s. cbn [do_extend]. unfold do_extend_2_standard. rewrite Ek.
        change (ec_a (with_basis c B c0 c1)) with (ec_a c). rewrite G.
        replace (fst (cart_to_polar (t * cos (ec_a c)) (t * sin (ec_a c)))) with t; [reflexivity|].
        unfold cart_to_polar, hypot. cbn [fst].
        replace ((t * cos (ec_a c)) ^ 2 + (t * sin (ec_a c)) ^ 2) with (t ^ 2 * (sin (ec_a c) * sin (ec_a c) + cos (ec_a c) * cos (ec_a c))) by ring.
        rewrite SC, Rmult_1_r, sqrt_pow2 by lra. reflexivity.
Qed.

Lemma coords_0_near : forall c e p n th, 0 < ec_a c < PI ->
  In p (ec_gamma c 0) -> ec_bcoord c p = Some (n, th) -> node_etype c 0 p = Ok e ->
  exists arg delta, seg_range (ec_R c) (ec_a c) 0 arg /\ arg + delta = th /\ (e = EStandard -> delta = 0) /\
    (forall t, seg_range (ec_R c) (ec_a c) 0 t -> Rabs delta <= Rabs (arg + delta - t)) /\
    forall B c0 c1 s,
      do_extend (with_basis c B c0 c1) s 0 e p =
      match e with
      | EStandard => d <- calc_xi_derivs (with_basis c B c0 c1) s types_0 arg 0;;
                     v <- extend_at c n th d;; Ok (Rabs n, v)
      | _ => d0 <- calc_xi_derivs (with_basis c B c0 c1) s taylor_types arg 0;;
             d <- taylor_shift d0 delta;;
             v <- extend_at c n th d;; Ok (Rabs delta * ec_R c + Rabs n, v)
      end.
Proof.
  intros c e p n th Ha Hp Hb He. destruct (ctx_coord c p) as [x y] eqn:E.
  destruct (node_etype_0 c p (n, th) x y Hp Hb E) as [Ec Et]. rewrite Et in He. injection He as <-.
  pose proof PI_RGT_0.
  assert (Ec' : forall B c0 c1, ctx_cache (with_basis c B c0 c1) p = Ok (n, th)) by (intros; exact Ec).
  cbn [etype_of]. destruct (Rltb_spec (2 * PI) th) as [H0|H0]; [|destruct (Rltb_spec th (ec_a c)) as [H1|H1]].
  - exists (2 * PI), (th - 2 * PI). split; [cbn; lra|]. split; [ring|]. split; [discriminate|]. split; [intros u Hu; cbn in Hu; apply near_clip; lra|]. 
    intros B c0 c1 s. cbn [do_extend]. unfold do_extend_0_right, do_extend_taylor, do_extend_0. rewrite Ec'. cbn [bind fst snd].
    destruct (calc_xi_derivs _ _ _ _ _); [|reflexivity]. cbn [bind]. destruct (taylor_shift _ _); [|reflexivity]. cbn [bind].
    destruct (extend_at _ _ _ _); reflexivity.
  - exists (ec_a c), (th - ec_a c). split; [cbn; lra|]. split; [ring|]. split; [discriminate|]. split; [intros u Hu; cbn in Hu; apply near_clip; lra|]. 
    intros B c0 c1 s. cbn [do_extend]. unfold do_extend_0_left, do_extend_taylor, do_extend_0. rewrite Ec'. cbn [bind fst snd].
    change (ec_a (with_basis c B c0 c1)) with (ec_a c).
    destruct (calc_xi_derivs _ _ _ _ _); [|reflexivity]. cbn [bind]. destruct (taylor_shift _ _); [|reflexivity]. cbn [bind].
    destruct (extend_at _ _ _ _); reflexivity.
  - exists th, 0. split; [cbn; lra|]. split; [ring|]. split; [reflexivity|]. split; [intros u Hu; cbn in Hu; apply near_clip; lra|]. 
    intros B c0 c1 s. cbn [do_extend]. unfold do_extend_0_standard, do_extend_0. rewrite Ec'. cbn [bind fst snd].
    reflexivity.
Qed.

