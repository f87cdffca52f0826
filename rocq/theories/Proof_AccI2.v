(** Accuracy of the extension of the source at the nodes beside the radii. *)
From Coq Require Import ZArith List Bool Reals Lra Lia Psatz.
From Coquelicot Require Import Coquelicot.
From Verif Require Import Model_Py Model_Multivalue Model_Grid Model_Domain Model_Ext Model_Extend Spec_Grid Spec_Domain Spec_Ext Spec_Extend Spec_Inhomo
  Lib_Sm Proof_Grid Proof_Domain Proof_Boundary Proof_Ext Proof_Ext2 Proof_Place Proof_Extend Proof_Extend2 Proof_ExtendF Proof_Inhomo
  Proof_Acc2 Proof_Acc3 Proof_Acc5 Proof_AccI1.
Import ListNotations.
Open Scope R_scope.

Lemma inhomo_near : forall k kap G n rho E f fn fnn fss f' fn' fnn' fss', Rabs n <= rho -> rho <= 1 -> Rabs kap <= G -> 0 <= E ->
  Cmod (Cminus f' f) <= E * rho ^ 3 -> Cmod (Cminus fn' fn) <= E * rho ^ 2 ->
  Cmod (Cminus fnn' fnn) <= E * rho -> Cmod (Cminus fss' fss) <= E * rho ->
  Cmod (Cminus (inhomo_extend_arbitrary k n kap f' fn' fnn' fss') (inhomo_extend_arbitrary k n kap f fn fnn fss)) <= inh_const k G * (E * rho ^ 5).
Proof.
  intros k kap G n rho E f fn fnn fss f' fn' fnn' fss' Hn Hr HG HE H2 H3 H4 H5. rewrite inhomo_linear.
  pose proof (Rabs_pos n) as Pn. assert (R0 : 0 <= rho) by lra.
  assert (Pw : forall m, 0 <= Rabs n ^ m <= rho ^ m) by (intros m; split; [apply pow_le; exact Pn|apply pow_incr; lra]).
  apply inhomo_bound; [lra|apply Rmult_le_pos; [exact HE|apply pow_le; exact R0]|exact HG| | | |].
  - replace (E * rho ^ 5) with (rho ^ 2 * (E * rho ^ 3)) by ring. apply Rmult_le_compat; try apply Cmod_ge_0; try assumption; apply Pw.
  - replace (E * rho ^ 5) with (rho ^ 3 * (E * rho ^ 2)) by ring. apply Rmult_le_compat; try apply Cmod_ge_0; try assumption; apply Pw.
  - replace (E * rho ^ 5) with (rho ^ 4 * (E * rho)) by ring. apply Rmult_le_compat; try apply Cmod_ge_0; try assumption; apply Pw.
  - replace (E * rho ^ 5) with (rho ^ 4 * (E * rho)) by ring. apply Rmult_le_compat; try apply Cmod_ge_0; try assumption; apply Pw.
Qed.

Lemma Cmod_scal_le : forall u z A, Rabs u <= 1 -> Cmod z <= A -> Cmod (Cmult z (RtoC u)) <= A.
Proof.
  intros u z A Hu Hz. rewrite Cmod_mult, Cmod_R. pose proof (Cmod_ge_0 z). pose proof (Rabs_pos u).
  assert (Cmod z * Rabs u <= A * 1) by (apply Rmult_le_compat; lra). lra.
Qed.

Lemma cdot_near : forall g g' nx ny A, Rabs nx <= 1 -> Rabs ny <= 1 ->
  Cmod (Cminus (fst g') (fst g)) <= A -> Cmod (Cminus (snd g') (snd g)) <= A -> Cmod (Cminus (cdot g' (nx, ny)) (cdot g (nx, ny))) <= 2 * A.
Proof.
  intros g g' nx ny A Hx Hy H1 H2. unfold cdot. cbn [fst snd].
  replace (Cminus _ _) with (Cplus (Cmult (Cminus (fst g') (fst g)) (RtoC nx)) (Cmult (Cminus (snd g') (snd g)) (RtoC ny))) by ring.
  eapply Rle_trans; [apply Cmod_triangle|]. pose proof (Cmod_scal_le nx _ A Hx H1). pose proof (Cmod_scal_le ny _ A Hy H2). lra.
Qed.

Lemma quad_near : forall h h' nx ny A, Rabs nx <= 1 -> Rabs ny <= 1 ->
  Cmod (Cminus (fst (fst h')) (fst (fst h))) <= A -> Cmod (Cminus (snd (fst h')) (snd (fst h))) <= A ->
  Cmod (Cminus (fst (snd h')) (fst (snd h))) <= A -> Cmod (Cminus (snd (snd h')) (snd (snd h))) <= A ->
  Cmod (Cminus (quad_form h' (nx, ny)) (quad_form h (nx, ny))) <= 4 * A.
Proof.
  intros h h' nx ny A Hx Hy H1 H2 H3 H4. unfold quad_form. replace (4 * A) with (2 * (2 * A)) by ring.
  apply cdot_near; try assumption; unfold mat_vec; cbn [fst snd]; apply cdot_near; assumption.
Qed.

(** The contribution of the source on a straight line. *)
Lemma wex_straight : forall k F e1 e2 s n,
  let q i j := F i j (s * e1) (s * e2) in
  let grad := (q 1%nat 0%nat, q 0%nat 1%nat) in
  let hess := ((q 2%nat 0%nat, q 1%nat 1%nat), (q 1%nat 1%nat, q 0%nat 2%nat)) in
  wex k 0 F (s * e1) (s * e2) e2 (- e1) n =
  inhomo_extend_arbitrary k n 0 (q 0%nat 0%nat) (cdot grad (e2, - e1)) (quad_form hess (e2, - e1)) (quad_form hess (e1, e2)).
Proof.
  intros k F e1 e2 s n q grad hess. unfold wex. cbv zeta. unfold quad_form, mat_vec, cdot, grad, hess; cbn [fst snd]; unfold q.
  set (a := F 1%nat 0%nat _ _). set (b := F 0%nat 1%nat _ _). set (aa := F 2%nat 0%nat _ _). set (ab := F 1%nat 1%nat _ _). set (bb := F 0%nat 2%nat _ _).
  f_equal; apply injective_projections; unfold Cplus, Cmult, RtoC; cbn [fst snd]; ring.
Qed.

(** Derivatives shifted from a nearby point. *)
Lemma shifted_near : forall k F x0 y0 dx dy nx ny tx ty n rho M f', partials all_plane 3 F -> 0 <= M ->
  Rabs dx <= rho -> Rabs dy <= rho -> Rabs nx <= 1 -> Rabs ny <= 1 -> Rabs tx <= 1 -> Rabs ty <= 1 -> Rabs n <= rho -> rho <= 1 ->
  (forall i j t, (i + j <= 3)%nat -> 0 <= t <= 1 -> Cmod (F i j (x0 + t * dx) (y0 + t * dy)) <= M) ->
  let g i j := F i j x0 y0 in
  let q i j := F i j (x0 + dx) (y0 + dy) in
  let hess := ((g 2%nat 0%nat, g 1%nat 1%nat), (g 1%nat 1%nat, g 0%nat 2%nat)) in
  let qhess := ((q 2%nat 0%nat, q 1%nat 1%nat), (q 1%nat 1%nat, q 0%nat 2%nat)) in
  let grad := (Cplus (g 1%nat 0%nat) (Cplus (Cmult (RtoC dx) (g 2%nat 0%nat)) (Cmult (RtoC dy) (g 1%nat 1%nat))),
               Cplus (g 0%nat 1%nat) (Cplus (Cmult (RtoC dx) (g 1%nat 1%nat)) (Cmult (RtoC dy) (g 0%nat 2%nat)))) in
  f' = q 0%nat 0%nat \/
  f' = Cplus (Cplus (g 0%nat 0%nat) (Cplus (Cmult (RtoC dx) (g 1%nat 0%nat)) (Cmult (RtoC dy) (g 0%nat 1%nat))))
         (Cmult (RtoC (1 / 2)) (Cplus (Cplus (Cmult (RtoC (dx ^ 2)) (g 2%nat 0%nat)) (Cmult (RtoC (2 * dx * dy)) (g 1%nat 1%nat))) (Cmult (RtoC (dy ^ 2)) (g 0%nat 2%nat)))) ->
  Cmod (Cminus (inhomo_extend_arbitrary k n 0 f' (cdot grad (nx, ny)) (quad_form hess (nx, ny)) (quad_form hess (tx, ty)))
    (inhomo_extend_arbitrary k n 0 (q 0%nat 0%nat) (cdot (q 1%nat 0%nat, q 0%nat 1%nat) (nx, ny)) (quad_form qhess (nx, ny)) (quad_form qhess (tx, ty))))
  <= inh_const k 0 * (16 * M * rho ^ 5).
Proof.
  intros k F x0 y0 dx dy nx ny tx ty n rho M f' HF HM Hdx Hdy Hnx Hny Htx Hty Hn Hrho HB g q hess qhess grad Hf.
  assert (R0 : 0 <= rho) by (pose proof (Rabs_pos n); lra).
  destruct (source_steps F x0 y0 dx dy rho M HF HM R0 Hdx Hdy HB) as (S0 & S1 & S2 & S3).
  fold (g 0 0)%nat (g 1 0)%nat (g 0 1)%nat (g 2 0)%nat (g 1 1)%nat (g 0 2)%nat (q 0 0)%nat (q 1 0)%nat (q 0 1)%nat in *.
  assert (Sy : forall z w : C, Cmod (Cminus z w) = Cmod (Cminus w z)) by (intros z w; rewrite <- Cmod_opp; f_equal; ring).
  assert (P : 0 <= 16 * M) by lra.
  assert (H3 : forall i j, (i + j <= 2)%nat -> Cmod (Cminus (g i j) (q i j)) <= 4 * M * rho) by (intros i j Hij; rewrite Sy; apply S3; exact Hij).
  apply inhomo_near; try assumption.
  - rewrite Rabs_R0. lra.
  - destruct Hf as [-> | ->]; [|rewrite Sy; exact S0]. unfold Cminus. rewrite Cplus_opp_r, Cmod_0. apply Rmult_le_pos; [exact P|apply pow_le; exact R0].
  - replace (16 * M * rho ^ 2) with (2 * (8 * M * rho ^ 2)) by ring. apply cdot_near; try assumption; cbn [fst snd]; rewrite Sy; assumption.
  - replace (16 * M * rho) with (4 * (4 * M * rho)) by ring. apply quad_near; try assumption; cbn [fst snd]; apply H3; lia.
  - replace (16 * M * rho) with (4 * (4 * M * rho)) by ring. apply quad_near; try assumption; cbn [fst snd]; apply H3; lia.
Qed.

Lemma unit_abs : forall e1 e2, e1 ^ 2 + e2 ^ 2 = 1 -> Rabs e1 <= 1 /\ Rabs e2 <= 1.
Proof. intros e1 e2 H. pose proof (pow2_ge_0 e1). pose proof (pow2_ge_0 e2). split; apply abs_of_sq; lra. Qed.

Lemma straight_src : forall c sid e p x y e1 e2 F M rho, 0 < ec_R c -> 0 < ec_a c < PI ->
  ctx_coord c p = (x, y) -> frame12 (ec_a c) sid e1 e2 -> node_etype c sid p = Ok e -> ec_homogeneous c = false ->
  (forall x y, s_f (ec_src c) x y = F 0%nat 0%nat x y) -> (forall x y, x <> 0 \/ y <> 0 -> cart_source (ec_src c) F x y) ->
  partials all_plane 3 F -> 0 <= M -> rho <= 1 ->
  (forall i j x y, (i + j <= 3)%nat -> in_disc x y -> Cmod (F i j x y) <= M) ->
  0 < ec_AD c / (10 * IZR (ec_N c)) <= rho ->
  let s := x * e1 + y * e2 in
  let n := x * e2 - y * e1 in
  let s0 := match sid with 1%nat => - ec_R c | _ => ec_R c end in
  Rabs n <= rho -> (e = ERight -> Rabs (s - s0) <= rho) -> in_disc (s * e1) (s * e2) -> ec_R c <= 3 ->
  exists len w, do_extend_inhomo c sid e p = Ok (len, w) /\
    Cmod (Cminus w (wex (ec_k c) 0 F (s * e1) (s * e2) e2 (- e1) n)) <= inh_const (ec_k c) 0 * (16 * M * rho ^ 5).
Proof.
  intros c sid e p x y e1 e2 F M rho HR Ha Exy Hfr Het Hhom Hf0 Hsrc HF HM Hrho HB Hh s n s0 Hn Hcor Hds HR3.
  pose proof (frame12_unit _ _ _ _ Hfr) as Hu. destruct (unit_abs _ _ Hu) as [He1 He2].
  assert (He1' : Rabs (- e1) <= 1) by (rewrite Rabs_Ropp; exact He1).
  assert (Px : s * e1 + n * e2 = x) by (unfold s, n; transitivity (x * (e1 ^ 2 + e2 ^ 2)); [ring|rewrite Hu; ring]).
  assert (Py : s * e2 + n * - e1 = y) by (unfold s, n; transitivity (y * (e1 ^ 2 + e2 ^ 2)); [ring|rewrite Hu; ring]).
  assert (Hc0 : 0 <= inh_const (ec_k c) 0 * (16 * M * rho ^ 5)).
  { pose proof (pow2_ge_0 (ec_k c)). apply Rmult_le_pos; [unfold inh_const; lra|]. apply Rmult_le_pos; [lra|apply pow_le; lra]. }
  assert (Hcirc : forall v, Rabs v <= 3 -> in_disc (v * e1) (v * e2)).
  { intros v Hv. unfold in_disc. replace ((v * e1) ^ 2 + (v * e2) ^ 2) with (v ^ 2 * (e1 ^ 2 + e2 ^ 2)) by ring. rewrite Hu, Rmult_1_r, <- (pow2_abs v).
    apply pow_incr. split; [apply Rabs_pos|lra]. }
  rewrite wex_straight. cbv zeta.
  assert (Hcase : e <> ERight \/ e = ERight) by (destruct e; [left|left|right]; congruence). destruct Hcase as [He|He].
  - (* over the segment or beyond the tip *)
    assert (Er : extend_inhomo_radius c p sid = calc_inhomo_radius c (s * e1) (s * e2) x y (e1, e2) n).
    { unfold extend_inhomo_radius. rewrite Exy. destruct Hfr as [(-> & E1 & E2)|(-> & E1 & E2)].
      - unfold s, n. rewrite E1, E2. f_equal; try ring.
      - rewrite get_radius_point_eq, signed_dist_eq by exact Ha. unfold s, n. rewrite E1, E2. reflexivity. }
    assert (Ed : do_extend_inhomo c sid e p = Ok (calc_inhomo_radius c (s * e1) (s * e2) x y (e1, e2) n)).
    { unfold do_extend_inhomo. rewrite Hhom, <- Er. destruct Hfr as [(-> & _)|(-> & _)]; destruct e; try contradiction; reflexivity. }
    rewrite Ed. destruct (Req_dec s 0) as [Hs|Hs].
    + (* foot at the tip *)
      rewrite Hs, !Rmult_0_l. set (hh := ec_AD c / (10 * IZR (ec_N c))) in *.
      unfold calc_inhomo_radius, radius_derivs. destruct (Reqb_spec 0 0) as [_|]; [|contradiction]. cbn [andb]. fold hh.
      rewrite Hf0. destruct (Hsrc (- hh) 0 ltac:(left; lra)) as (_ & Eg & Eh). rewrite Eg, Eh.
      unfold mat_vec. cbn [fst snd]. eexists _, _. split; [reflexivity|].
      rewrite !Rminus_0_r.
      destruct (Req_dec n 0) as [Hn0|Hn0]; [rewrite Hn0, !inhomo_zero_n; unfold Cminus; rewrite Cplus_opp_r, Cmod_0; exact Hc0|].
      replace (x, y) with (n * e2, n * - e1) by (f_equal; rewrite Hs in Px, Py; lra).
      rewrite unit_or_zero_scaled by (try assumption; nra).
      destruct (np_sign_cases n Hn0) as [S1 _]. rewrite cdot_scaled, quad_form_scaled by exact S1.
      pose proof (shifted_near (ec_k c) F (- hh) 0 hh 0 e2 (- e1) e1 e2 n rho M (F 0%nat 0%nat 0 0) HF HM
        ltac:(rewrite Rabs_pos_eq; lra) ltac:(rewrite Rabs_R0; lra) He2 He1' He1 He2 Hn Hrho) as P.
      assert (Dd : forall i j t, (i + j <= 3)%nat -> 0 <= t <= 1 -> Cmod (F i j (- hh + t * hh) (0 + t * 0)) <= M).
      { intros i j t Hij Ht. apply HB; [exact Hij|]. unfold in_disc. assert (0 <= (1 - t) * hh <= 1 * 1) by (split; [apply Rmult_le_pos; lra|apply Rmult_le_compat; lra]).
        replace ((- hh + t * hh) ^ 2 + (0 + t * 0) ^ 2) with (((1 - t) * hh) ^ 2) by ring. apply pow_incr. lra. }
      specialize (P Dd). cbv zeta in P. replace (- hh + hh) with 0 in P by ring. rewrite !Rplus_0_r in P. specialize (P (or_introl eq_refl)).
      eapply Rle_trans; [|exact P]. right. do 2 f_equal. f_equal. unfold cdot. cbn [fst snd]. ring.
    + destruct (calc_radius_eq c F e1 e2 s n (e1, e2) Hu Hs eq_refl) as (len & _ & E).
      { apply Hsrc. destruct (Req_dec (s * e1) 0) as [Z|]; [|left; assumption]. right. intros Z2.
        destruct (Rmult_integral _ _ Z); [contradiction|]. destruct (Rmult_integral _ _ Z2); [contradiction|]. nra. }
      rewrite Px, Py in E. rewrite E. eexists _, _. split; [reflexivity|]. unfold Cminus. rewrite Cplus_opp_r, Cmod_0. exact Hc0.
  - (* beyond the outer corner *)
    specialize (Hcor He). subst e.
    assert (Hsin : 0 < sin (ec_a c)) by (apply sin_gt_0; lra).
    assert (Hss : s - s0 <> 0).
    { unfold node_etype in Het. rewrite Exy in Het. destruct Hfr as [(-> & F1 & F2)|(-> & F1 & F2)].
      - cbn [etype_of] in Het. unfold s, s0. rewrite F1, F2.
        destruct (Rltb_spec x 0); [discriminate|]. destruct (Rltb_spec (ec_R c) x); [lra|discriminate].
      - cbn [etype_of] in Het. rewrite get_radius_point_eq in Het by exact Ha. unfold s, s0. rewrite F1, F2.
        destruct (Rltb_spec ((x * cos (ec_a c) + y * sin (ec_a c)) * sin (ec_a c)) 0); [discriminate|].
        destruct (Rltb_spec (ec_R c * sin (ec_a c)) ((x * cos (ec_a c) + y * sin (ec_a c)) * sin (ec_a c))) as [L|]; [|discriminate].
        intros Z. assert (Z' : x * cos (ec_a c) + y * sin (ec_a c) = ec_R c) by lra. rewrite Z' in L. lra. }
    assert (Hs0 : s0 <> 0 /\ Rabs s0 <= 3).
    { unfold s0. destruct sid as [|[|sid]]; [split; [lra|rewrite Rabs_pos_eq; lra]|split; [lra|rewrite Rabs_Ropp, Rabs_pos_eq; lra]|split; [lra|rewrite Rabs_pos_eq; lra]]. }
    destruct Hs0 as [Hs0 Hs03].
    destruct (Hsrc (s0 * e1) (s0 * e2)) as (E0 & E1 & E2).
    { destruct (Req_dec (s0 * e1) 0) as [Z|]; [|left; assumption]. right. intros Z2.
      destruct (Rmult_integral _ _ Z); [contradiction|]. destruct (Rmult_integral _ _ Z2); [contradiction|]. nra. }
    assert (Er : do_extend_inhomo c sid ERight p = extend_inhomo_12_r c p sid).
    { unfold do_extend_inhomo. rewrite Hhom. destruct Hfr as [(-> & _)|(-> & _)]; reflexivity. }
    rewrite Er. unfold extend_inhomo_12_r. rewrite Exy.
    assert (Ept : match sid with
        | 1%nat => (ec_R c, 0, x, 0, y)
        | _ => let '(x1, y1) := get_radius_point (ec_a c) x y in
          (ec_R c * cos (ec_a c), ec_R c * sin (ec_a c), x1, y1, signed_dist_to_radius (ec_a c) x y)
        end = (s0 * e1, s0 * e2, s * e1, s * e2, n)).
    { destruct Hfr as [(-> & F1 & F2)|(-> & F1 & F2)].
      - unfold s, n, s0. rewrite F1, F2. repeat f_equal; ring.
      - rewrite get_radius_point_eq, signed_dist_eq by exact Ha. unfold s, n, s0. rewrite F1, F2. reflexivity. }
    rewrite Ept. cbv beta iota.
    replace (s * e1 - s0 * e1) with ((s - s0) * e1) by ring. replace (s * e2 - s0 * e2) with ((s - s0) * e2) by ring.
    rewrite unit_vec_scaled, norm2_scaled by assumption. cbn [bind].
    destruct (np_sign_cases (s - s0) Hss) as [Sg Sa]. set (sg := np_sign (s - s0)) in *.
    assert (Sd : Rabs (s - s0) * sg = s - s0) by (rewrite Sa; transitivity ((sg * sg) * (s - s0)); [ring|rewrite Sg; ring]).
    rewrite E0, E1, E2.
    eexists _, _. split; [reflexivity|].
    destruct (Req_dec n 0) as [Hn0|Hn0]; [rewrite Hn0, !inhomo_zero_n; unfold Cminus; rewrite Cplus_opp_r, Cmod_0; exact Hc0|].
    replace (x - s * e1) with (n * e2) by lra. replace (y - s * e2) with (n * - e1) by lra.
    rewrite unit_or_zero_scaled by (try assumption; nra). destruct (np_sign_cases n Hn0) as [Sn _].
    rewrite !quad_form_scaled by assumption.
    match goal with |- context [if Rltb n 0 then Copp (cdot ?gg _) else _] => set (grad := gg) end.
    assert (Ed : (if Rltb n 0 then Copp (cdot grad (np_sign n * e2, np_sign n * - e1)) else cdot grad (np_sign n * e2, np_sign n * - e1))
      = cdot grad (e2, - e1)).
    { rewrite cdot_lin. unfold np_sign. destruct (Rltb_spec n 0) as [L|L], (Rltb_spec 0 n) as [L'|L']; try lra;
        destruct (cdot grad (e2, - e1)); apply injective_projections; cbn [fst snd Copp Cmult RtoC]; ring. }
    rewrite Ed.
    set (dx := (s - s0) * e1). set (dy := (s - s0) * e2).
    assert (Sub : forall u, Rabs u <= 1 -> Rabs ((s - s0) * u) <= rho).
    { intros u Hu1. rewrite Rabs_mult. pose proof (Rabs_pos (s - s0)). pose proof (Rabs_pos u).
      assert (Rabs (s - s0) * Rabs u <= rho * 1) by (apply Rmult_le_compat; lra). lra. }
    match goal with |- Cmod (Cminus (inhomo_extend_arbitrary _ _ _ ?ff _ _ _) _) <= _ => set (f' := ff) end.
    pose proof (shifted_near (ec_k c) F (s0 * e1) (s0 * e2) dx dy e2 (- e1) e1 e2 n rho M f' HF HM (Sub e1 He1) (Sub e2 He2) He2 He1' He1 He2 Hn Hrho) as P.
    assert (Dd : forall i j t, (i + j <= 3)%nat -> 0 <= t <= 1 -> Cmod (F i j (s0 * e1 + t * dx) (s0 * e2 + t * dy)) <= M).
    { intros i j t Hij Ht. apply HB; [exact Hij|].
      replace (s0 * e1 + t * dx) with (s0 * e1 + t * (s * e1 - s0 * e1)) by (unfold dx; ring).
      replace (s0 * e2 + t * dy) with (s0 * e2 + t * (s * e2 - s0 * e2)) by (unfold dy; ring).
      apply disc_between; [apply Hcirc; exact Hs03|exact Hds|exact Ht]. }
    specialize (P Dd). cbv zeta in P. replace (s0 * e1 + dx) with (s * e1) in P by (unfold dx; ring). replace (s0 * e2 + dy) with (s * e2) in P by (unfold dy; ring).
    assert (Ef : f' = Cplus (Cplus (F 0%nat 0%nat (s0 * e1) (s0 * e2)) (Cplus (Cmult (RtoC dx) (F 1%nat 0%nat (s0 * e1) (s0 * e2))) (Cmult (RtoC dy) (F 0%nat 1%nat (s0 * e1) (s0 * e2)))))
         (Cmult (RtoC (1 / 2)) (Cplus (Cplus (Cmult (RtoC (dx ^ 2)) (F 2%nat 0%nat (s0 * e1) (s0 * e2))) (Cmult (RtoC (2 * dx * dy)) (F 1%nat 1%nat (s0 * e1) (s0 * e2)))) (Cmult (RtoC (dy ^ 2)) (F 0%nat 2%nat (s0 * e1) (s0 * e2)))))).
    { unfold f', f_taylor. rewrite cdot_lin. unfold quad_form, mat_vec, cdot. cbn [fst snd].
      replace (INR (fact 0)) with 1 by reflexivity. replace (INR (fact 1)) with 1 by reflexivity. replace (INR (fact 2)) with 2 by (cbn; lra).
      assert (Ex : dx = Rabs (s - s0) * sg * e1) by (unfold dx; rewrite Sd; reflexivity). assert (Ey : dy = Rabs (s - s0) * sg * e2) by (unfold dy; rewrite Sd; reflexivity).
      rewrite Ex, Ey. set (dd := Rabs (s - s0)). assert (S2 : sg ^ 2 = 1) by (rewrite <- Sg; ring).
      set (z0 := F 0%nat 0%nat _ _). set (za := F 1%nat 0%nat _ _). set (zb := F 0%nat 1%nat _ _). set (aa := F 2%nat 0%nat _ _). set (ab := F 1%nat 1%nat _ _). set (bb := F 0%nat 2%nat _ _).
      replace ((dd * sg * e1) ^ 2) with (dd ^ 2 * e1 ^ 2) by (transitivity (dd ^ 2 * e1 ^ 2 * sg ^ 2); [rewrite S2; ring|ring]).
      replace ((dd * sg * e2) ^ 2) with (dd ^ 2 * e2 ^ 2) by (transitivity (dd ^ 2 * e2 ^ 2 * sg ^ 2); [rewrite S2; ring|ring]).
      replace (2 * (dd * sg * e1) * (dd * sg * e2)) with (2 * (dd ^ 2 * e1 * e2)) by (transitivity (2 * (dd ^ 2 * e1 * e2) * sg ^ 2); [rewrite S2; ring|ring]).
      apply injective_projections; unfold Cplus, Cmult, RtoC; cbn [fst snd]; field. }
    specialize (P (or_intror Ef)). eapply Rle_trans; [|exact P]. right. do 2 f_equal. f_equal. f_equal. unfold grad. unfold mat_vec. cbn [fst snd].
    assert (Ex : dx = Rabs (s - s0) * sg * e1) by (unfold dx; rewrite Sd; reflexivity). assert (Ey : dy = Rabs (s - s0) * sg * e2) by (unfold dy; rewrite Sd; reflexivity).
    rewrite Ex, Ey. rewrite !cdot_lin. f_equal; f_equal; unfold cdot; cbn [fst snd]; apply injective_projections; unfold Cplus, Cmult, RtoC; cbn [fst snd]; ring.
Qed.
