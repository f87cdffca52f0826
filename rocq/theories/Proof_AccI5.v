(** Accuracy of the extension of the source at every node of the discrete
    boundary. *)
From Coq Require Import ZArith List Bool Reals Lra Lia Psatz.
From Coquelicot Require Import Coquelicot.
From Verif Require Import Model_Py Model_Multivalue Model_Grid Model_Domain Model_Ext Model_Extend Spec_Grid Spec_Domain Spec_Ext Spec_Extend Spec_Inhomo Spec_Program Spec_Curve Spec_Accuracy
  Lib_Sm Proof_Grid Proof_Domain Proof_Boundary Proof_Ext Proof_Ext2 Proof_Place Proof_Extend Proof_Extend2 Proof_ExtendF Proof_Inhomo Proof_Gentle Proof_CurvePlace
  Proof_Acc1 Proof_Acc2 Proof_Acc3 Proof_Acc4 Proof_Acc5 Proof_Acc6 Proof_AccI1 Proof_AccI2 Proof_AccI3 Proof_AccI4.
Import ListNotations.
Open Scope R_scope.

Lemma disc_grid : forall N p x y, (16 <= N)%Z -> get_coord (2 * PI) N (fst p) (snd p) = (x, y) -> in_disc x y -> in_open_grid N p.
Proof.
  intros N [i j] x y HN E Hd. unfold get_coord in E. cbn [fst snd] in E. injection E as Ex Ey. pose proof PI_num as HPI.
  assert (Hx : Rabs x < PI /\ Rabs y < PI).
  { unfold in_disc in Hd. pose proof (pow2_ge_0 x). pose proof (pow2_ge_0 y).
    assert (Rabs x <= 301 / 100) by (apply abs_of_sq; lra). assert (Rabs y <= 301 / 100) by (apply abs_of_sq; lra). lra. }
  destruct Hx as [Hx Hy]. apply Rabs_lt_between in Hx. apply Rabs_lt_between in Hy.
  assert (HN' : 0 < IZR N) by (apply IZR_lt; lia).
  assert (Q : forall m z, 2 * PI * (IZR m / IZR N - 1 / 2) = z -> - PI < z < PI -> (1 <= m <= N - 1)%Z).
  { intros m z Ez Hz. assert (A : 0 < IZR m / IZR N < 1) by (split; nra).
    assert (B : IZR m = IZR m / IZR N * IZR N) by (field; lra).
    assert (0 < IZR m) by (rewrite B; apply Rmult_lt_0_compat; lra).
    assert (IZR m < IZR N) by (rewrite B; apply Rlt_le_trans with (1 * IZR N); [apply Rmult_lt_compat_r; lra|lra]).
    assert (0 < m)%Z by (apply lt_IZR; assumption). assert (m < N)%Z by (apply lt_IZR; assumption). lia. }
  split; cbn [fst snd]; [apply (Q i x Ex Hx)|apply (Q j y Ey Hy)].
Qed.

Lemma corner_chord : forall r1 R0 th th0, 0 < r1 -> 0 < R0 -> 0 < Rabs (th - th0) < PI ->
  (r1 * cos th - R0 * cos th0, r1 * sin th - R0 * sin th0) <> (0, 0).
Proof.
  intros r1 R0 th th0 H1 H0 Hgap E. injection E as C1 C2.
  pose proof (sc2 th) as S1. pose proof (sc2 th0) as S2.
  assert (Er2 : r1 ^ 2 = R0 ^ 2).
  { transitivity ((r1 * cos th) ^ 2 + (r1 * sin th) ^ 2); [ring [S1]|].
    replace (r1 * cos th) with (R0 * cos th0) by lra. replace (r1 * sin th) with (R0 * sin th0) by lra. ring [S2]. }
  assert (Er1 : r1 = R0).
  { assert (Z : (r1 - R0) * (r1 + R0) = 0) by (replace ((r1 - R0) * (r1 + R0)) with (r1 ^ 2 - R0 ^ 2) by ring; lra).
    apply Rmult_integral in Z. lra. }
  rewrite Er1 in C1, C2.
  assert (C1' : cos th = cos th0) by (apply Rmult_eq_reg_l with R0; lra). assert (C2' : sin th = sin th0) by (apply Rmult_eq_reg_l with R0; lra).
  assert (Cc : cos (th - th0) = 1) by (rewrite cos_minus, C1', C2'; ring [S2]).
  assert (Ca : cos (Rabs (th - th0)) = 1) by (unfold Rabs; destruct (Rcase_abs (th - th0)); [rewrite cos_neg|]; exact Cc).
  pose proof (cos_decreasing_1 0 (Rabs (th - th0)) ltac:(lra) ltac:(lra) ltac:(lra) ltac:(lra) ltac:(lra)) as L.
  rewrite cos_0 in L. lra.
Qed.

(** The formula used at a corner, against the contribution of the source at the
    foot of the perpendicular. *)
Lemma corner_near : forall r k F Q M rho G R0 th0 th n d mx my, good_curve r ->
  partials all_plane 3 F -> partials right_half 2 Q -> (forall r th, 0 < r -> Q 0%nat 0%nat r th = F 0%nat 0%nat (r * cos th) (r * sin th)) ->
  0 <= M -> (forall i j x y, (i + j <= 3)%nat -> in_disc x y -> Cmod (F i j x y) <= M) ->
  0 < R0 <= 3 -> 0 < r th <= 3 -> Rabs (r th - R0) <= rho -> Rabs (th - th0) <= rho -> Rabs n <= rho -> rho <= 1 ->
  Rabs (b_curv r th) <= G -> Rabs (b_d_th r th) <= G -> Rabs (b_d2_th r th) <= G -> Rabs (b_d_r r th) <= G -> Rabs (b_d2_r r th) <= G ->
  r th * cos th - R0 * cos th0 = d * mx -> r th * sin th - R0 * sin th0 = d * my ->
  let nx := fst (eval_normal r th) in
  let ny := snd (eval_normal r th) in
  let g i j := F i j (R0 * cos th0) (R0 * sin th0) in
  let q i j := Q i j R0 th0 in
  let hess := (((g 2 0)%nat, (g 1 1)%nat), ((g 1 1)%nat, (g 0 2)%nat)) in
  let hv := mat_vec hess (mx, my) in
  let pv := (r th - R0, th - th0) in
  let f := f_taylor (g 0 0)%nat (cdot ((g 1 0)%nat, (g 0 1)%nat) (mx, my)) (quad_form hess (mx, my)) d in
  let grad := (Cplus (g 1 0)%nat (Cmult (RtoC d) (fst hv)), Cplus (g 0 1)%nat (Cmult (RtoC d) (snd hv))) in
  Cmod (Cminus (inhomo_extend_polar k n (b_curv r th) f (cdot grad (nx, ny)) (quad_form hess (nx, ny))
     (Cplus (q 0 1)%nat (cdot ((q 1 1)%nat, (q 0 2)%nat) pv)) (q 0 2)%nat (Cplus (q 1 0)%nat (cdot ((q 2 0)%nat, (q 1 1)%nat) pv)) (q 2 0)%nat (q 1 1)%nat
     (b_d_th r th) (b_d2_th r th) (b_d_r r th) (b_d2_r r th))
    (wex k (b_curv r th) F (r th * cos th) (r th * sin th) nx ny n)) <= inh_const k G * ((4000 + 300000 * d2_const G) * M * rho ^ 5).
Proof.
  intros r k F Q M rho G R0 th0 th n d mx my Hg HF HQ HQF HM HB HR0 Hr1 Hdr Hdt Hn Hrho G1 G2 G3 G4 G5 Ex Ey nx ny g q hess hv pv f grad.
  assert (Pr : 0 <= rho) by (pose proof (Rabs_pos n); lra).
  assert (HF2 : partials all_plane 2 F) by (intros i j x y Hij H; apply HF; [lia|exact H]).
  rewrite wex_curve. cbv zeta. fold nx ny. rewrite <- (fss_exact r F Q th Hg HF2 HQ HQF (proj1 Hr1)). cbv zeta. unfold inhomo_extend_polar.
  pose proof (g_normal_unit r Hg th) as Un. fold nx ny in Un. destruct (unit_abs nx ny Un) as [Nx Ny].
  destruct (near_step rho R0 th0 (r th) th Pr HR0 Hr1 Hdr Hdt) as [Sx Sy].
  destruct (source_steps F (R0 * cos th0) (R0 * sin th0) _ _ (6 * rho) M HF HM ltac:(lra) Sx Sy) as (T0 & T1 & T2 & T3).
  { intros i j t Hij Ht. apply (near_seg F M R0 th0 (r th) th HR0 Hr1 HB); assumption. }
  replace (R0 * cos th0 + (r th * cos th - R0 * cos th0)) with (r th * cos th) in * by ring.
  replace (R0 * sin th0 + (r th * sin th - R0 * sin th0)) with (r th * sin th) in * by ring.
  rewrite Ex, Ey in T0, T1, T2. fold (g 0 0)%nat (g 1 0)%nat (g 0 1)%nat (g 2 0)%nat (g 1 1)%nat (g 0 2)%nat in T0, T1, T2.
  destruct (near_Q F Q M rho R0 th0 (r th) th HF HQ HQF HM Pr HR0 Hr1 Hdr Hdt HB) as ((_ & _ & Q1) & (_ & _ & Q2) & (Q3b & _ & Q3) & (Q4b & _ & Q4) & (Q5b & _ & Q5)).
  fold (q 1 0)%nat (q 0 1)%nat (q 2 0)%nat (q 1 1)%nat (q 0 2)%nat in *.
  assert (Sy' : forall z w : C, Cmod (Cminus z w) = Cmod (Cminus w z)) by (intros z w; rewrite <- Cmod_opp; f_equal; ring).
  assert (P2 : forall a b, 0 <= a -> a <= b -> a * M <= b * M) by (intros; apply Rmult_le_compat_r; assumption).
  assert (P3 : forall j, 0 <= rho ^ j) by (intros; apply pow_le; exact Pr).
  assert (Dc : 0 <= d2_const G).
  { unfold d2_const. apply Rmult_le_pos; [apply pow2_ge_0|]. pose proof (pow2_ge_0 (1 + G)). lra. }
  assert (Mr : 0 <= M * rho) by (apply Rmult_le_pos; assumption).
  set (E := (4000 + 300000 * d2_const G) * M).
  assert (HE : 0 <= E) by (unfold E; apply Rmult_le_pos; [lra|exact HM]).
  assert (HE1 : 4000 * M <= E) by (unfold E; apply Rmult_le_compat_r; [exact HM|lra]).
  apply inhomo_near; try assumption.
  - replace f with (Cplus (Cplus (g 0 0)%nat (Cplus (Cmult (RtoC (d * mx)) (g 1 0)%nat) (Cmult (RtoC (d * my)) (g 0 1)%nat)))
      (Cmult (RtoC (1 / 2)) (Cplus (Cplus (Cmult (RtoC ((d * mx) ^ 2)) (g 2 0)%nat) (Cmult (RtoC (2 * (d * mx) * (d * my))) (g 1 1)%nat)) (Cmult (RtoC ((d * my) ^ 2)) (g 0 2)%nat)))).
    + rewrite Sy'. eapply Rle_trans; [exact T0|]. replace (16 * M * (6 * rho) ^ 3) with (3456 * M * rho ^ 3) by ring.
      apply Rmult_le_compat_r; [apply P3|lra].
    + unfold f, f_taylor, hess, quad_form, mat_vec, cdot. cbn [fst snd].
      replace (INR (fact 0)) with 1 by reflexivity. replace (INR (fact 1)) with 1 by reflexivity. replace (INR (fact 2)) with 2 by (cbn; lra).
      generalize (g 0 0)%nat (g 1 0)%nat (g 0 1)%nat (g 2 0)%nat (g 1 1)%nat (g 0 2)%nat. intros z0 za zb aa ab bb.
      apply injective_projections; unfold Cplus, Cmult, RtoC; cbn [fst snd]; field.
  - eapply Rle_trans; [apply (cdot_near _ _ nx ny (8 * M * (6 * rho) ^ 2) Nx Ny)|]; cbn [fst snd].
    + rewrite Sy'. eapply Rle_trans; [|exact T1]. right. do 2 f_equal. unfold grad, hv, hess, mat_vec, cdot. cbn [fst snd]. rewrite !RtoC_mult. ring.
    + rewrite Sy'. eapply Rle_trans; [|exact T2]. right. do 2 f_equal. unfold grad, hv, hess, mat_vec, cdot. cbn [fst snd]. rewrite !RtoC_mult. ring.
    + replace (2 * (8 * M * (6 * rho) ^ 2)) with (576 * M * rho ^ 2) by ring. apply Rmult_le_compat_r; [apply P3|lra].
  - assert (T4 : forall i j, (i + j <= 2)%nat -> Cmod (Cminus (g i j) (F i j (r th * cos th) (r th * sin th))) <= 24 * M * rho).
    { intros i j Hij. rewrite Sy'. eapply Rle_trans; [apply (T3 i j Hij)|]. lra. }
    eapply Rle_trans; [apply (quad_near _ _ nx ny (24 * M * rho) Nx Ny)|]; cbn [fst snd hess]; try (apply T4; lia).
    replace (4 * (24 * M * rho)) with (96 * M * rho) by ring. apply Rmult_le_compat_r; [exact Pr|lra].
  - rewrite polar_d2_linear. eapply Rle_trans; [apply (polar_d2_bound _ _ _ _ _ _ _ _ _ G (300000 * M * rho)); try assumption|].
    + apply Rmult_le_pos; [lra|exact Pr].
    + unfold cdot, pv. cbn [fst snd].
      replace (Cminus _ _) with (Cplus (Copp (Cminus (Q 0 1 (r th) th)%nat (q 0 1)%nat)) (Cplus (Cmult (q 1 1)%nat (RtoC (r th - R0))) (Cmult (q 0 2)%nat (RtoC (th - th0))))) by ring.
      eapply Rle_trans; [apply Cmod_triangle|]. rewrite Cmod_opp.
      assert (B1 : Cmod (Cmult (q 1 1)%nat (RtoC (r th - R0))) <= 100000 * M * rho) by (rewrite Cmod_mult, Cmod_R; apply Rmult_le_compat; try assumption; [apply Cmod_ge_0|apply Rabs_pos]).
      assert (B2 : Cmod (Cmult (q 0 2)%nat (RtoC (th - th0))) <= 100000 * M * rho) by (rewrite Cmod_mult, Cmod_R; apply Rmult_le_compat; try assumption; [apply Cmod_ge_0|apply Rabs_pos]).
      pose proof (Cmod_triangle (Cmult (q 1 1)%nat (RtoC (r th - R0))) (Cmult (q 0 2)%nat (RtoC (th - th0)))). lra.
    + rewrite Sy'. lra.
    + unfold cdot, pv. cbn [fst snd].
      replace (Cminus _ _) with (Cplus (Copp (Cminus (Q 1 0 (r th) th)%nat (q 1 0)%nat)) (Cplus (Cmult (q 2 0)%nat (RtoC (r th - R0))) (Cmult (q 1 1)%nat (RtoC (th - th0))))) by ring.
      eapply Rle_trans; [apply Cmod_triangle|]. rewrite Cmod_opp.
      assert (B1 : Cmod (Cmult (q 2 0)%nat (RtoC (r th - R0))) <= 100000 * M * rho) by (rewrite Cmod_mult, Cmod_R; apply Rmult_le_compat; try assumption; [apply Cmod_ge_0|apply Rabs_pos]).
      assert (B2 : Cmod (Cmult (q 1 1)%nat (RtoC (th - th0))) <= 100000 * M * rho) by (rewrite Cmod_mult, Cmod_R; apply Rmult_le_compat; try assumption; [apply Cmod_ge_0|apply Rabs_pos]).
      pose proof (Cmod_triangle (Cmult (q 2 0)%nat (RtoC (r th - R0))) (Cmult (q 1 1)%nat (RtoC (th - th0)))). lra.
    + rewrite Sy'. lra.
    + rewrite Sy'. lra.
    + replace (d2_const G * (300000 * M * rho)) with (300000 * d2_const G * M * rho) by ring. apply Rmult_le_compat_r; [exact Pr|].
      unfold E. apply Rmult_le_compat_r; [exact HM|lra].
Qed.

Section Source.
Context (r : R -> R) (Hr : gentle r) (Hg : good_curve r) (k : R).

Definition src_claim (sid : nat) (K : R) : Prop := forall brentq order c F Q M,
  brentq_contract brentq -> (order = 2 \/ order = 4)%Z -> curve_solver brentq order r c -> ec_k c = k ->
  ec_homogeneous c = false -> Spec_Curve.off_curve r (ec_N c) -> source_of (ec_src c) F Q ->
  partials all_plane 3 F -> 0 <= M -> (forall i j x y, (i + j <= 3)%nat -> in_disc x y -> Cmod (F i j x y) <= M) ->
  forall e p n t, In p (ec_gamma c sid) -> node_etype c sid p = Ok e -> base r c sid p n t ->
  exists len w, do_extend_inhomo c sid e p = Ok (len, w) /\ Cmod (Cminus w (wsrc r k F sid n t)) <= K * (M * (2 * PI / IZR (ec_N c)) ^ 5).

Lemma corner_gap : forall th th0, PI / 8 <= th <= 2 * PI + PI / 8 -> PI / 8 <= th0 <= 2 * PI + PI / 8 -> r th0 = 23 / 10 ->
  Rabs (r th - 23 / 10) <= Rabs (th - th0).
Proof using Hr.
  intros th th0 H1 H0 E. destruct Hr as (r1 & r2 & D1 & _ & _ & B1 & _). rewrite <- E.
  destruct (MVT_gen r th0 th r1) as (xi & Hxi & Em).
  { intros x _. apply D1. }
  { intros x _. apply continuity_pt_filterlim, (ex_derive_continuous r). exists (r1 x). apply D1. }
  rewrite Em, Rabs_mult. rewrite <- (Rmult_1_l (Rabs (th - th0))) at 2. apply Rmult_le_compat_r; [apply Rabs_pos|].
  assert (PI / 8 <= xi <= 2 * PI + PI / 8).
  { unfold Rmin, Rmax in Hxi. destruct (Rle_dec th0 th); lra. }
  pose proof (B1 xi H). lra.
Qed.

Lemma curve_src : exists K, 0 <= K /\ src_claim 0 K.
Proof using All.
  destruct (geometry_bounded r Hg (PI / 8) (2 * PI + PI / 8)) as (G0 & HG0).
  destruct (sm_bounded 0 _ (PI / 8) (2 * PI + PI / 8) (g_sm1 r Hg 0)) as (G1 & PG1 & HG1).
  destruct (sm_bounded 0 _ (PI / 8) (2 * PI + PI / 8) (g_sm2 r Hg 0)) as (G2 & PG2 & HG2).
  pose proof PI_num as HPI.
  assert (PG0 : 0 <= G0) by (destruct (HG0 PI ltac:(lra)) as (Q & _); pose proof (Rabs_pos (b_curv r PI)); lra).
  set (G := G0 + G1 + G2).
  set (C := inh_const k G * (4000 + 300000 * d2_const G)).
  assert (PC : 0 <= C).
  { unfold C, inh_const, d2_const. assert (PG : 0 <= G) by (unfold G; lra).
    pose proof (pow2_ge_0 G). pose proof (pow2_ge_0 k). pose proof (pow2_ge_0 (1 + G)).
    assert (0 <= G * (1 + G)) by (apply Rmult_le_pos; lra).
    apply Rmult_le_pos; [lra|]. assert (0 <= (1 + G) ^ 2 * (8 + 8 * (1 + G) ^ 2)) by (apply Rmult_le_pos; lra). lra. }
  exists (C * 32). split; [lra|].
  intros brentq order c F Q M Hb Ho Hc Ek Hhom Hoff (_ & _ & Hpol & HQ & HQF) HF HM HB e p n th Hp Het Hbase. cbn [base] in Hbase.
  destruct (ctx_coord c p) as [x y] eqn:Exy.
  pose proof (step_range r brentq order c Hc) as (Hh & Hrho & Hrho1). set (h := 2 * PI / IZR (ec_N c)) in *. set (rho := 5 / 4 * (h * sqrt 2)) in *.
  destruct (geo_0 brentq Hb r Hr order Ho c Hc p x y Hg Hp Exy) as (n' & th' & phi & Ebc & Hth & Hn & Hphi & Hdel & Px & Py & Q1 & Q2).
  rewrite Hbase in Ebc. injection Ebc as <- <-.
  pose proof (geo_e brentq r order c Hc) as He. fold h in Hn, Hdel, He. fold rho in Hdel.
  assert (Hn' : Rabs n <= rho) by (unfold rho; pose proof (Rabs_pos n); lra).
  pose proof Hc as (ER & Ea & EA & HN & Er & Ebc & _).
  assert (Exy2 := Exy). unfold ctx_coord in Exy2. rewrite EA in Exy2.
  assert (Hgrid : in_open_grid (ec_N c) p) by (apply (disc_grid _ p x y HN Exy2 Q2)).
  set (nx := fst (eval_normal r th)) in *. set (ny := snd (eval_normal r th)) in *.
  assert (Un : nx ^ 2 + ny ^ 2 = 1) by (apply (g_normal_unit r Hg)).
  assert (Hn0 : n <> 0).
  { intros ->. destruct p as [i j]. apply (Hoff i j th Hgrid Hth).
    assert (0 < IZR (ec_N c)) by (apply IZR_lt; lia).
    transitivity (x, y); [|f_equal; lra]. rewrite <- Exy2. unfold square_pt, get_coord. cbn [fst snd]. f_equal; field; lra. }
  pose proof Hr as (r1 & rr2 & D1 & D2 & Band & Slope & Bend & Ra & R2). pose proof (Band th Hth) as Bt.
  assert (Ecache : ctx_cache c p = Ok (n, th)).
  { unfold ctx_cache, cache_get. rewrite (proj2 (node_mem_in _ _) Hp), Hbase. reflexivity. }
  destruct (np_sign_cases n Hn0) as [Sn _].
  assert (Hnorm : unit_vec (x - r th * cos th, y - r th * sin th) = Ok (np_sign n * nx, np_sign n * ny)).
  { replace (x - r th * cos th) with (n * nx) by lra. replace (y - r th * sin th) with (n * ny) by lra. apply unit_vec_scaled; assumption. }
  assert (HF2 : partials all_plane 2 F) by (intros i j u v Hij H; apply HF; [lia|exact H]).
  assert (Pfin : 0 <= C * 32 * (M * h ^ 5)).
  { apply Rmult_le_pos; [lra|apply Rmult_le_pos; [exact HM|apply pow_le, Hh]]. }
  unfold wsrc. cbn [seg_point nvec fst snd]. fold nx ny.
  (* the corner formula *)
  assert (Hlr : forall sid th0, (sid = 1%nat /\ th0 = 2 * PI \/ sid = 2%nat /\ th0 = PI / 4) -> 0 < Rabs (th - th0) < PI -> Rabs (th - th0) <= rho ->
    exists len w, extend_inhomo_0_lr c p sid = Ok (len, w) /\
      Cmod (Cminus w (wex k (b_curv r th) F (r th * cos th) (r th * sin th) nx ny n)) <= C * 32 * (M * h ^ 5)).
  { intros sid th0 Hcase Hgap Hd0.
    assert (H0 : PI / 8 <= th0 <= 2 * PI + PI / 8 /\ r th0 = 23 / 10) by (destruct Hcase as [[_ ->]|[_ ->]]; split; (lra || assumption)).
    destruct H0 as [H0 E0]. pose proof (corner_gap th th0 Hth H0 E0) as Hdr.
    destruct (unit_decomp _ _ (corner_chord (r th) (23 / 10) th th0 ltac:(lra) ltac:(lra) Hgap)) as (mx & my & Hm & Hd & Hmx & Hmy).
    set (d := norm2 (r th * cos th - 23 / 10 * cos th0, r th * sin th - 23 / 10 * sin th0)) in *.
    assert (Hunit : unit_vec (r th * cos th - 23 / 10 * cos th0, r th * sin th - 23 / 10 * sin th0) = Ok (mx, my)).
    { rewrite Hmx, Hmy at 1. rewrite unit_vec_scaled by (assumption || lra).
      unfold np_sign. destruct (Rltb_spec 0 d); [|lra]. rewrite !Rmult_1_l. reflexivity. }
    destruct (ps_polar_xy (PI / 4) x y) as [r2 th2] eqn:Ep.
    destruct (ps_polar_spec (PI / 4) x y r2 th2 ltac:(lra) Ep) as (Hr2 & Hth2 & Hx & Hy).
    assert (Epol : ps_get_polar (PI / 4) (2 * PI) (ec_N c) (fst p) (snd p) = (r2, th2)) by (unfold ps_get_polar; rewrite Exy2; exact Ep).
    assert (Hside : (n < 0 -> r2 < r th2) /\ (0 < n -> r th2 < r2)).
    { assert (Eb2 : get_boundary_coord brentq r (PI / 4) r2 th2 = Some (n, th)).
      { rewrite Ebc in Hbase. unfold node_bcoord in Hbase. rewrite Epol in Hbase. exact Hbase. }
      assert (Er1 : forall t, ex_derive r t) by (intros t; exists (r1 t); apply D1).
      assert (Er2 : forall t, ex_derive (b_d_r r) t) by (intros t; apply (sm_ex_derive 0 1 (Derive r) t (g_sm1 r Hg 1)); lia).
      destruct (boundary_coord_contract brentq r (PI / 4) r2 th2 n th Hb Er1 Er2 (g_pos r Hg) ltac:(lra) ltac:(lra) Eb2) as (_ & _ & Hs & _).
      apply (side_of_curve r th th2 n r2 Hr Hg Hth ltac:(lra)); try assumption.
      - destruct (search_le (PI / 4) th2 ltac:(lra) ltac:(lra)) as (L1 & L2 & _). apply Rabs_le. lra.
      - lra.
      - fold nx. lra.
      - fold ny. lra. }
    destruct (Hpol (23 / 10) th0 ltac:(lra)) as (S0 & S1 & S2 & S3 & S4 & S5 & S6 & S7).
    assert (Eth0 : match sid with 1%nat => 2 * PI | _ => PI / 4 end = th0) by (destruct Hcase as [[-> ->]|[-> ->]]; reflexivity).
    unfold extend_inhomo_0_lr. rewrite Ecache. cbn [bind]. rewrite Er, Exy, ER, Ea, EA. cbv beta. rewrite Eth0, Epol, Hunit. cbn [bind].
    rewrite Hnorm. cbn [bind]. rewrite S0, S1, S2, S3, S4, S5, S6, S7. rewrite quad_form_scaled by exact Sn. fold d.
    eexists. eexists. split; [reflexivity|]. cbn [fst snd].
    match goal with |- context [if Rltb r2 (r th2) then Copp (cdot ?g _) else _] => set (grad := g) end.
    assert (Ed : (if Rltb r2 (r th2) then Copp (cdot grad (np_sign n * nx, np_sign n * ny)) else cdot grad (np_sign n * nx, np_sign n * ny)) = cdot grad (nx, ny)).
    { rewrite cdot_lin. unfold np_sign. destruct Hside as [Hs1 Hs2].
      destruct (Rltb_spec 0 n) as [L'|L'], (Rltb_spec n 0) as [L''|L'']; try lra.
      - specialize (Hs2 L'). destruct (Rltb_spec r2 (r th2)); [lra|]. destruct (cdot grad (nx, ny)); apply injective_projections; cbn [fst snd Copp Cmult RtoC]; ring.
      - specialize (Hs1 L''). destruct (Rltb_spec r2 (r th2)); [|lra]. destruct (cdot grad (nx, ny)); apply injective_projections; cbn [fst snd Copp Cmult RtoC]; ring. }
    rewrite Ed, Ek. clear Ed.
    destruct (HG0 th Hth) as (A1 & _ & _ & A2 & A3 & _). pose proof (HG1 th Hth) as A4. pose proof (HG2 th Hth) as A5.
    eapply Rle_trans; [apply (corner_near r k F Q M rho G (23 / 10) th0 th n d mx my Hg HF HQ HQF HM HB); try assumption; try lra; unfold G; try lra|].
    - fold (b_d_r r th) in A4. change (Derive r th) with (b_d_r r th) in A4. lra.
    - change (inh_const k G * ((4000 + 300000 * d2_const G) * M * rho ^ 5) <= C * 32 * (M * h ^ 5)).
      replace (inh_const k G * ((4000 + 300000 * d2_const G) * M * rho ^ 5)) with (C * M * rho ^ 5) by (unfold C; ring).
      replace (C * 32 * (M * h ^ 5)) with (C * M * (2 * h) ^ 5) by ring. apply Rmult_le_compat_l; [apply Rmult_le_pos; assumption|]. apply pow_incr. lra. }
  unfold node_etype in Het. rewrite Exy, (proj2 (node_mem_in _ _) Hp), Ecache, ER, Ea in Het. cbn [bind etype_of] in Het.
  assert (Hclose : forall th0, (th0 = 2 * PI /\ 2 * PI < th \/ th0 = PI / 4 /\ th < PI / 4) -> 0 < Rabs (th - th0) < PI /\ Rabs (th - th0) <= rho).
  { intros th0 [[-> L]|[-> L]]; apply Rabs_le_between in Hdel.
    - rewrite Rabs_pos_eq by lra. lra.
    - rewrite Rabs_left by lra. lra. }
  unfold do_extend_inhomo. rewrite Hhom.
  destruct (Rltb_spec (2 * PI) th) as [T1|T1]; [|destruct (Rltb_spec th (PI / 4)) as [T2|T2]];
    (match type of Het with Ok ?u = Ok ?v => assert (Ev : v = u) by congruence end); rewrite Ev; clear Ev Het.
  - destruct (Hclose (2 * PI) ltac:(left; split; [reflexivity|exact T1])). apply (Hlr 1%nat (2 * PI)); auto.
  - destruct (Hclose (PI / 4) ltac:(right; split; [reflexivity|exact T2])). apply (Hlr 2%nat (PI / 4)); auto.
  - clear Hlr. destruct (Hpol (r th) th ltac:(lra)) as (S0 & S1 & S2 & S3 & S4 & S5 & S6 & S7).
    unfold do_extend_inhomo_0_standard. rewrite Ecache. cbn [bind]. rewrite Er, Exy. cbv beta. rewrite Hnorm. cbn [bind].
    rewrite S0, S1, S2, S3, S4, S5, S6, S7, cdot_scaled, quad_form_scaled by exact Sn.
    eexists. eexists. split; [reflexivity|].
    match goal with |- Cmod (Cminus ?a ?b) <= _ => assert (E : a = b) end.
    { unfold nx, ny. rewrite wex_curve. cbv zeta. rewrite <- (fss_exact r F Q th Hg HF2 HQ HQF ltac:(lra)). rewrite Ek. reflexivity. }
    rewrite E. replace (Cminus _ _) with (RtoC 0) by ring. rewrite Cmod_0. exact Pfin.
Qed.

Lemma radius_src : forall sid, (1 <= sid < 3)%nat -> exists K, 0 <= K /\ src_claim sid K.
Proof using Hr.
  intros sid Hsid. pose proof PI_num as HPI.
  assert (PC : 0 <= inh_const k 0) by (unfold inh_const; pose proof (pow2_ge_0 k); lra).
  exists (inh_const k 0 * (16 * 32)). split; [lra|].
  intros brentq order c F Q M Hb Ho Hc Ek Hhom Hoff (Hf & Hcart & _) HF HM HB e p n t Hp Het Hbase.
  destruct (ctx_coord c p) as [x y] eqn:Exy.
  pose proof (step_range r brentq order c Hc) as (Hh & Hrho & Hrho1). set (h := 2 * PI / IZR (ec_N c)) in *. set (rho := 5 / 4 * (h * sqrt 2)) in *.
  pose proof Hc as (ER & Ea & EA & HN & Er & _). pose proof sqrt2_num as S2n.
  assert (HN' : 0 < IZR (ec_N c)) by (apply IZR_lt; lia).
  assert (Hh' : 0 < h) by (unfold h; apply Rdiv_lt_0_compat; lra).
  set (e1 := match sid with 1%nat => 1 | _ => cos (PI / 4) end). set (e2 := match sid with 1%nat => 0 | _ => sin (PI / 4) end).
  set (sg := match sid with 1%nat => -1 | _ => 1 end).
  assert (Hcase : sid = 1%nat /\ e1 = 1 /\ e2 = 0 \/ sid = 2%nat /\ e1 = cos (PI / 4) /\ e2 = sin (PI / 4)).
  { unfold e1, e2. destruct sid as [|[|[|sid]]]; [lia|left; auto|right; auto|lia]. }
  assert (Hsg : sg = 1 \/ sg = -1) by (unfold sg; destruct sid as [|[|sid]]; auto).
  assert (Hsg2 : sg * sg = 1) by (destruct Hsg as [-> | ->]; ring).
  assert (U : e1 ^ 2 + e2 ^ 2 = 1).
  { destruct Hcase as [(_ & -> & ->)|(_ & -> & ->)]; [ring|]. pose proof (sc2 (PI / 4)). lra. }
  assert (Hpt : x = t * e1 + n * (sg * e2) /\ y = t * e2 + n * (sg * - e1)).
  { unfold e1, e2, sg. destruct sid as [|[|[|sid]]]; [lia| | |lia]; unfold base in Hbase; rewrite Exy in Hbase; cbn [seg_point nvec fst snd] in Hbase; injection Hbase as -> ->; lra. }
  destruct Hpt as [Px Py].
  destruct (geo_12 brentq Hb r Hr order Ho c Hc sid p x y e1 e2 sg t n Hsid Hp Exy Hcase Hsg Px Py) as (Hn & (s & Hs & Hts) & Q1 & Q2).
  fold h in Hn, Hts. pose proof (Rabs_pos n) as Pn. pose proof (Rabs_pos (t - s)) as Pt.
  assert (Hn' : Rabs n <= rho) by (unfold rho; lra). assert (Hts' : Rabs (t - s) <= rho) by (unfold rho; lra).
  assert (Hfr : frame12 (ec_a c) sid (sg * e1) (sg * e2)).
  { rewrite Ea. unfold sg. destruct Hcase as [(-> & -> & ->)|(-> & -> & ->)]; [left|right]; (split; [reflexivity|]); split; ring. }
  assert (Es : x * (sg * e1) + y * (sg * e2) = sg * t).
  { rewrite Px, Py. transitivity (sg * t * (e1 ^ 2 + e2 ^ 2)); [ring|rewrite U; ring]. }
  assert (En : x * (sg * e2) - y * (sg * e1) = n).
  { rewrite Px, Py. transitivity (n * (sg * sg) * (e1 ^ 2 + e2 ^ 2)); [ring|rewrite U, Hsg2; ring]. }
  assert (E1 : sg * t * (sg * e1) = t * e1) by (transitivity (t * e1 * (sg * sg)); [ring|rewrite Hsg2; ring]).
  assert (E2 : sg * t * (sg * e2) = t * e2) by (transitivity (t * e2 * (sg * sg)); [ring|rewrite Hsg2; ring]).
  assert (Hright : e = ERight -> 23 / 10 < t).
  { intros ->. rewrite (node_etype_12 c sid p x y Hsid Exy), ER, Ea in Het. injection Het as Het.
    destruct Hcase as [(-> & _)|(-> & _)]; unfold e1, e2, sg in Px, Py; cbn [etype_of] in Het.
    - destruct (Rltb_spec x 0); [discriminate|]. destruct (Rltb_spec (23 / 10) x); [lra|discriminate].
    - rewrite get_radius_point_eq in Het by lra.
      assert (Ey : (x * cos (PI / 4) + y * sin (PI / 4)) * sin (PI / 4) = t * sin (PI / 4)).
      { f_equal. rewrite Px, Py. pose proof (sc2 (PI / 4)) as S4. transitivity (t * (sin (PI / 4) * sin (PI / 4) + cos (PI / 4) * cos (PI / 4))); [ring|]. 
        replace (sin (PI / 4) * sin (PI / 4) + cos (PI / 4) * cos (PI / 4)) with 1 by lra. ring. }
      rewrite Ey in Het. destruct (Rltb_spec (t * sin (PI / 4)) 0); [discriminate|].
      destruct (Rltb_spec (23 / 10 * sin (PI / 4)) (t * sin (PI / 4))) as [L|L]; [|discriminate].
      apply Rmult_lt_reg_r with (sin (PI / 4)); [apply sin_gt_0; lra|exact L]. }
  assert (Hcor : e = ERight -> Rabs (x * (sg * e1) + y * (sg * e2) - match sid with 1%nat => - ec_R c | _ => ec_R c end) <= rho).
  { intros Ee. specialize (Hright Ee). rewrite Es, ER.
    assert (Hd : Rabs (t - 23 / 10) <= rho).
    { rewrite Rabs_pos_eq by lra. apply Rabs_le_between in Hts'. lra. }
    replace (sg * t - _) with (sg * (t - 23 / 10)) by (unfold sg; destruct sid as [|[|[|sid]]]; [lia|ring|ring|lia]).
    rewrite Rabs_mult. replace (Rabs sg) with 1; [lra|]. destruct Hsg as [-> | ->]; [rewrite Rabs_pos_eq; lra|rewrite Rabs_left; lra]. }
  destruct (straight_src c sid e p x y (sg * e1) (sg * e2) F M rho ltac:(lra) ltac:(rewrite Ea; lra) Exy Hfr Het Hhom Hf Hcart HF HM Hrho1 HB) as (len & w & Ew & Hw).
  { rewrite EA. replace (2 * PI / (10 * IZR (ec_N c))) with (h / 10) by (unfold h; field; lra). unfold rho.
    assert (0 < h * sqrt 2) by (apply Rmult_lt_0_compat; lra).
    assert (h * 1 <= h * sqrt 2) by (apply Rmult_le_compat_l; lra). lra. }
  { rewrite En. exact Hn'. }
  { exact Hcor. }
  { rewrite Es, E1, E2. exact Q1. }
  { lra. }
  exists len, w. split; [exact Ew|]. rewrite Es, En, E1, E2, Ek in Hw.
  assert (Ews : wsrc r k F sid n t = wex k 0 F (t * e1) (t * e2) (sg * e2) (- (sg * e1)) n).
  { unfold wsrc, e1, e2, sg. destruct sid as [|[|[|sid]]]; [lia| | |lia]; cbn [seg_point nvec fst snd]; f_equal; ring. }
  rewrite Ews. eapply Rle_trans; [exact Hw|].
  rewrite (Rmult_assoc (inh_const k 0)). apply Rmult_le_compat_l; [exact PC|].
  replace (16 * 32 * (M * h ^ 5)) with (16 * M * (2 * h) ^ 5) by ring. apply Rmult_le_compat_l; [lra|]. apply pow_incr. lra.
Qed.

Lemma src_accuracy : exists K, 0 <= K /\ forall sid, (sid < 3)%nat -> src_claim sid K.
Proof using All.
  destruct curve_src as (K0 & H0 & C0). destruct (radius_src 1 ltac:(lia)) as (K1 & H1 & C1). destruct (radius_src 2 ltac:(lia)) as (K2 & H2 & C2).
  exists (K0 + K1 + K2). split; [lra|].
  assert (Up : forall sid K, src_claim sid K -> K <= K0 + K1 + K2 -> src_claim sid (K0 + K1 + K2)).
  { intros sid K HC HK brentq order c F Q M Hb Ho Hc Ek Hhom Hoff Hs HF HM HB e p n t Hp Het Hbs.
    destruct (HC brentq order c F Q M Hb Ho Hc Ek Hhom Hoff Hs HF HM HB e p n t Hp Het Hbs) as (len & w & Ew & Hw).
    exists len, w. split; [exact Ew|]. eapply Rle_trans; [exact Hw|]. apply Rmult_le_compat_r; [|exact HK].
    destruct (step_range r brentq order c Hc) as (Hh & _). apply Rmult_le_pos; [exact HM|apply pow_le, Hh]. }
  intros [|[|[|sid]]] Hs; [apply (Up _ K0)|apply (Up _ K1)|apply (Up _ K2)|lia]; try assumption; lra.
Qed.
End Source.
