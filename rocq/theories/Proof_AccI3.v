(** The source in polar coordinates near the outer curve. *)
From Coq Require Import ZArith List Bool Reals Lra Lia Psatz.
From Coquelicot Require Import Coquelicot.
From Verif Require Import Model_Py Model_Multivalue Model_Grid Model_Domain Model_Ext Model_Extend Spec_Grid Spec_Domain Spec_Ext Spec_Extend Spec_Inhomo Spec_Curve
  Lib_Sm Proof_Grid Proof_Domain Proof_Boundary Proof_Ext Proof_Ext2 Proof_Place Proof_Extend Proof_Extend2 Proof_ExtendF Proof_Inhomo Proof_Gentle Proof_CurvePlace
  Proof_Acc1 Proof_Acc2 Proof_Acc3 Proof_Acc4 Proof_Acc5 Proof_Acc6 Proof_AccI1 Proof_AccI2.
Import ListNotations.
Open Scope R_scope.

(** ** Polar derivatives *)

Definition right_half (r th : R) : Prop := 0 < r.

Lemma polar_partials_R : forall G P, partialsR all_plane 2 G -> partialsR right_half 2 P ->
  (forall r th, 0 < r -> P 0%nat 0%nat r th = G 0%nat 0%nat (r * cos th) (r * sin th)) -> forall r th, 0 < r ->
  let c := cos th in let s := sin th in let x := r * c in let y := r * s in let g i j := G i j x y in
  P 1%nat 0%nat r th = c * g 1%nat 0%nat + s * g 0%nat 1%nat /\
  P 0%nat 1%nat r th = - y * g 1%nat 0%nat + x * g 0%nat 1%nat /\
  P 2%nat 0%nat r th = c * (c * g 2%nat 0%nat + s * g 1%nat 1%nat) + s * (c * g 1%nat 1%nat + s * g 0%nat 2%nat) /\
  P 1%nat 1%nat r th = - s * g 1%nat 0%nat + c * g 0%nat 1%nat + (c * (- y * g 2%nat 0%nat + x * g 1%nat 1%nat) + s * (- y * g 1%nat 1%nat + x * g 0%nat 2%nat)) /\
  P 0%nat 2%nat r th = - x * g 1%nat 0%nat + - y * g 0%nat 1%nat + (- y * (- y * g 2%nat 0%nat + x * g 1%nat 1%nat) + x * (- y * g 1%nat 1%nat + x * g 0%nat 2%nat)).
Proof.
  intros G P HG HP E.
  assert (dR : forall i j r th, (i + j < 2)%nat -> is_derive (fun r => G i j (r * cos th) (r * sin th)) r
     (cos th * G (S i) j (r * cos th) (r * sin th) + sin th * G i (S j) (r * cos th) (r * sin th))).
  { intros i j r th Hij. apply (chain2 (G i j) (fun r => r * cos th) (fun r => r * sin th)); [apply HG; [exact Hij|exact I]| |]; auto_derive; try exact I; ring. }
  assert (dT : forall i j r th, (i + j < 2)%nat -> is_derive (fun t => G i j (r * cos t) (r * sin t)) th
     (- (r * sin th) * G (S i) j (r * cos th) (r * sin th) + r * cos th * G i (S j) (r * cos th) (r * sin th))).
  { intros i j r th Hij. apply (chain2 (G i j) (fun t => r * cos t) (fun t => r * sin t)); [apply HG; [exact Hij|exact I]| |]; auto_derive; try exact I; ring. }
  assert (pR : forall i j r th, (i + j < 2)%nat -> 0 < r -> is_derive (fun r => P i j r th) r (P (S i) j r th)).
  { intros i j r th Hij Hr. apply (is_derive_eq _ _ (1 * P (S i) j r th + 0 * P i (S j) r th)); [|ring].
    apply (chain2 (P i j) (fun r => r) (fun _ => th)); [apply HP; assumption|apply (is_derive_id (K := R_AbsRing))|apply (is_derive_const (K := R_AbsRing) (V := R_NormedModule))]. }
  assert (pT : forall i j r th, (i + j < 2)%nat -> 0 < r -> is_derive (fun t => P i j r t) th (P i (S j) r th)).
  { intros i j r th Hij Hr. apply (is_derive_eq _ _ (0 * P (S i) j r th + 1 * P i (S j) r th)); [|ring].
    apply (chain2 (P i j) (fun _ => r) (fun t => t)); [apply HP; assumption|apply (is_derive_const (K := R_AbsRing) (V := R_NormedModule))|apply (is_derive_id (K := R_AbsRing))]. }
  assert (uR : forall (f g : R -> R) r lf lg, 0 < r -> (forall u, 0 < u -> f u = g u) -> is_derive f r lf -> is_derive g r lg -> lf = lg).
  { intros f g r lf lg Hr Hfg Hf Hg. rewrite <- (is_derive_unique _ _ _ Hf), <- (is_derive_unique _ _ _ Hg).
    apply Derive_ext_loc. exists (mkposreal r Hr). intros u Hu. apply Hfg. apply Rabs_lt_between in Hu. unfold minus, plus, opp in Hu. cbn in Hu. lra. }
  assert (uT : forall (f g : R -> R) t lf lg, (forall u, f u = g u) -> is_derive f t lf -> is_derive g t lg -> lf = lg).
  { intros f g t lf lg Hfg Hf Hg. rewrite <- (is_derive_unique _ _ _ Hf), <- (is_derive_unique _ _ _ Hg). apply Derive_ext. exact Hfg. }
  assert (E10 : forall r th, 0 < r -> P 1%nat 0%nat r th = cos th * G 1%nat 0%nat (r * cos th) (r * sin th) + sin th * G 0%nat 1%nat (r * cos th) (r * sin th)).
  { intros r th Hr. apply (uR (fun r => P 0%nat 0%nat r th) (fun r => G 0%nat 0%nat (r * cos th) (r * sin th)) r); [exact Hr|intros u Hu; apply E, Hu|apply pR; [lia|exact Hr]|apply dR; lia]. }
  assert (E01 : forall r th, 0 < r -> P 0%nat 1%nat r th = - (r * sin th) * G 1%nat 0%nat (r * cos th) (r * sin th) + r * cos th * G 0%nat 1%nat (r * cos th) (r * sin th)).
  { intros r th Hr. apply (uT (fun t => P 0%nat 0%nat r t) (fun t => G 0%nat 0%nat (r * cos t) (r * sin t)) th); [intros u; apply E, Hr|apply pT; [lia|exact Hr]|apply dT; lia]. }
  intros r th Hr. cbv zeta. split; [apply E10, Hr|]. split; [apply E01, Hr|].
  assert (Dc : is_derive (fun t => cos t) th (- sin th)) by (auto_derive; [exact I|ring]).
  assert (Ds : is_derive (fun t => sin t) th (cos th)) by (auto_derive; [exact I|ring]).
  assert (Dy : is_derive (fun t => - (r * sin t)) th (- (r * cos th))) by (auto_derive; [exact I|ring]).
  assert (Dx : is_derive (fun t => r * cos t) th (- (r * sin th))) by (auto_derive; [exact I|ring]).
  assert (K1 : is_derive (fun _ : R => cos th) r 0) by apply (is_derive_const (K := R_AbsRing) (V := R_NormedModule)).
  assert (K2 : is_derive (fun _ : R => sin th) r 0) by apply (is_derive_const (K := R_AbsRing) (V := R_NormedModule)).
  split; [|split].
  - refine (eq_trans (uR (fun r => P 1%nat 0%nat r th) _ r _ _ Hr (fun u Hu => E10 u th Hu) (pR 1%nat 0%nat r th ltac:(lia) Hr)
      (der_plus _ _ r _ _ (der_mult _ _ r _ _ K1 (dR 1%nat 0%nat r th ltac:(lia))) (der_mult _ _ r _ _ K2 (dR 0%nat 1%nat r th ltac:(lia))))) _). cbv beta. match goal with |- @eq _ ?a ?b => change (@eq R a b) end. ring.
  - refine (eq_trans (uT (fun t => P 1%nat 0%nat r t) _ th _ _ (fun u => E10 r u Hr) (pT 1%nat 0%nat r th ltac:(lia) Hr)
      (der_plus _ _ th _ _ (der_mult _ _ th _ _ Dc (dT 1%nat 0%nat r th ltac:(lia))) (der_mult _ _ th _ _ Ds (dT 0%nat 1%nat r th ltac:(lia))))) _). cbv beta. match goal with |- @eq _ ?a ?b => change (@eq R a b) end. ring.
  - refine (eq_trans (uT (fun t => P 0%nat 1%nat r t) _ th _ _ (fun u => E01 r u Hr) (pT 0%nat 1%nat r th ltac:(lia) Hr)
      (der_plus _ _ th _ _ (der_mult _ _ th _ _ Dy (dT 1%nat 0%nat r th ltac:(lia))) (der_mult _ _ th _ _ Dx (dT 0%nat 1%nat r th ltac:(lia))))) _). cbv beta. match goal with |- @eq _ ?a ?b => change (@eq R a b) end. ring.
Qed.

Lemma polar_partials : forall F Q, partials all_plane 2 F -> partials right_half 2 Q ->
  (forall r th, 0 < r -> Q 0%nat 0%nat r th = F 0%nat 0%nat (r * cos th) (r * sin th)) -> forall r th, 0 < r ->
  let c := RtoC (cos th) in let s := RtoC (sin th) in let x := Cmult (RtoC r) c in let y := Cmult (RtoC r) s in let y' := Cmult (RtoC (-1)) y in
  let g i j := F i j (r * cos th) (r * sin th) in
  (Q 1%nat 0%nat r th = c * g 1%nat 0%nat + s * g 0%nat 1%nat /\
  Q 0%nat 1%nat r th = y' * g 1%nat 0%nat + x * g 0%nat 1%nat /\
  Q 2%nat 0%nat r th = c * (c * g 2%nat 0%nat + s * g 1%nat 1%nat) + s * (c * g 1%nat 1%nat + s * g 0%nat 2%nat) /\
  Q 1%nat 1%nat r th = (RtoC (-1) * s) * g 1%nat 0%nat + c * g 0%nat 1%nat + (c * (y' * g 2%nat 0%nat + x * g 1%nat 1%nat) + s * (y' * g 1%nat 1%nat + x * g 0%nat 2%nat)) /\
  Q 0%nat 2%nat r th = (RtoC (-1) * x) * g 1%nat 0%nat + y' * g 0%nat 1%nat + (y' * (y' * g 2%nat 0%nat + x * g 1%nat 1%nat) + x * (y' * g 1%nat 1%nat + x * g 0%nat 2%nat)))%C.
Proof.
  intros F Q HF HQ E r th Hr. cbv zeta.
  assert (H1 := polar_partials_R (fun i j x y => fst (F i j x y)) (fun i j x y => fst (Q i j x y))
    (fun i j x y a b => proj1 (HF i j x y a b)) (fun i j x y a b => proj1 (HQ i j x y a b)) (fun r th H => f_equal fst (E r th H)) r th Hr).
  assert (H2 := polar_partials_R (fun i j x y => snd (F i j x y)) (fun i j x y => snd (Q i j x y))
    (fun i j x y a b => proj2 (HF i j x y a b)) (fun i j x y a b => proj2 (HQ i j x y a b)) (fun r th H => f_equal snd (E r th H)) r th Hr).
  cbv zeta in H1, H2. destruct H1 as (A1 & A2 & A3 & A4 & A5). destruct H2 as (B1 & B2 & B3 & B4 & B5).
  refine (conj _ (conj _ (conj _ (conj _ _)))); apply injective_projections; unfold Cplus, Cmult, RtoC; cbn [fst snd].
  - rewrite A1; ring.
  - rewrite B1; ring.
  - rewrite A2; ring.
  - rewrite B2; ring.
  - rewrite A3; ring.
  - rewrite B3; ring.
  - rewrite A4; ring.
  - rewrite B4; ring.
  - rewrite A5; ring.
  - rewrite B5; ring.
Qed.

(** ** Values at two nearby points *)

(** Complex numbers bounded by [B * M] with a difference of at most [B * M * d]. *)
Definition nc (M d B : R) (z0 z1 : C) : Prop := Cmod z0 <= B * M /\ Cmod z1 <= B * M /\ Cmod (Cminus z1 z0) <= B * M * d.

Lemma nc_plus : forall M d A B z0 z1 w0 w1, nc M d A z0 z1 -> nc M d B w0 w1 -> nc M d (A + B) (Cplus z0 w0) (Cplus z1 w1).
Proof.
  intros M d A B z0 z1 w0 w1 (H1 & H2 & H3) (H4 & H5 & H6). unfold nc. rewrite !Rmult_plus_distr_r.
  split; [eapply Rle_trans; [apply Cmod_triangle|lra]|]. split; [eapply Rle_trans; [apply Cmod_triangle|lra]|].
  replace (Cminus (Cplus z1 w1) (Cplus z0 w0)) with (Cplus (Cminus z1 z0) (Cminus w1 w0)) by ring. eapply Rle_trans; [apply Cmod_triangle|lra].
Qed.

Lemma nc_mult : forall M d A B z0 z1 w0 w1, 0 <= d -> nc 1 d A z0 z1 -> nc M d B w0 w1 -> nc M d (2 * (A * B)) (Cmult z0 w0) (Cmult z1 w1).
Proof.
  intros M d A B z0 z1 w0 w1 Hd (H1 & H2 & H3) (H4 & H5 & H6). rewrite Rmult_1_r in H1, H2, H3.
  pose proof (Cmod_ge_0 z0). pose proof (Cmod_ge_0 z1). pose proof (Cmod_ge_0 w0). pose proof (Cmod_ge_0 w1).
  pose proof (Cmod_ge_0 (Cminus z1 z0)). pose proof (Cmod_ge_0 (Cminus w1 w0)).
  assert (P : 0 <= A * (B * M)) by (apply Rmult_le_pos; lra).
  split; [|split].
  - rewrite Cmod_mult. assert (Cmod z0 * Cmod w0 <= A * (B * M)) by (apply Rmult_le_compat; assumption). lra.
  - rewrite Cmod_mult. assert (Cmod z1 * Cmod w1 <= A * (B * M)) by (apply Rmult_le_compat; assumption). lra.
  - replace (Cminus (Cmult z1 w1) (Cmult z0 w0)) with (Cplus (Cmult z1 (Cminus w1 w0)) (Cmult (Cminus z1 z0) w0)) by ring.
    eapply Rle_trans; [apply Cmod_triangle|]. rewrite !Cmod_mult.
    assert (Cmod z1 * Cmod (Cminus w1 w0) <= A * (B * M * d)) by (apply Rmult_le_compat; assumption).
    assert (Cmod (Cminus z1 z0) * Cmod w0 <= A * d * (B * M)) by (apply Rmult_le_compat; assumption). lra.
Qed.

Lemma nc_const : forall d u, 0 <= d -> nc 1 d (Rabs u) (RtoC u) (RtoC u).
Proof.
  intros d u Hd. unfold nc. rewrite Cmod_R, !Rmult_1_r. unfold Cminus. rewrite Cplus_opp_r, Cmod_0. repeat split; try lra.
  apply Rmult_le_pos; [apply Rabs_pos|exact Hd].
Qed.

Lemma nc_le : forall M d A B z0 z1, 0 <= M -> 0 <= d -> A <= B -> nc M d A z0 z1 -> nc M d B z0 z1.
Proof.
  intros M d A B z0 z1 HM Hd HAB (H1 & H2 & H3). assert (A * M <= B * M) by (apply Rmult_le_compat_r; assumption).
  assert (A * M * d <= B * M * d) by (apply Rmult_le_compat_r; assumption). unfold nc. repeat split; lra.
Qed.

Lemma cos_sin_lip : forall a b, Rabs (cos b - cos a) <= Rabs (b - a) /\ Rabs (sin b - sin a) <= Rabs (b - a).
Proof.
  intros a b. split.
  - destruct (MVT_gen cos a b (fun t => - sin t)) as (t & _ & E).
    + intros t _. auto_derive; [exact I|ring].
    + intros t _. apply continuity_cos.
    + rewrite E, Rabs_mult, Rabs_Ropp. rewrite <- (Rmult_1_l (Rabs (b - a))) at 2. apply Rmult_le_compat_r; [apply Rabs_pos|]. apply Rabs_le, SIN_bound.
  - destruct (MVT_gen sin a b cos) as (t & _ & E).
    + intros t _. auto_derive; [exact I|ring].
    + intros t _. apply continuity_sin.
    + rewrite E, Rabs_mult. rewrite <- (Rmult_1_l (Rabs (b - a))) at 2. apply Rmult_le_compat_r; [apply Rabs_pos|]. apply Rabs_le, COS_bound.
Qed.

Lemma nc_real : forall d A u v, Rabs u <= A -> Rabs v <= A -> Rabs (v - u) <= A * d -> nc 1 d A (RtoC u) (RtoC v).
Proof. intros d A u v H1 H2 H3. unfold nc. rewrite !Rmult_1_r, <- RtoC_minus, !Cmod_R. auto. Qed.

Section Near.
Context (F Q : nat -> nat -> R -> R -> C) (M d : R) (r0 t0 r1 t1 : R) (HF : partials all_plane 3 F) (HQ : partials right_half 2 Q)
  (HQF : forall r th, 0 < r -> Q 0%nat 0%nat r th = F 0%nat 0%nat (r * cos th) (r * sin th)) (HM : 0 <= M) (Hd : 0 <= d)
  (Hr0 : 0 < r0 <= 3) (Hr1 : 0 < r1 <= 3) (Hdr : Rabs (r1 - r0) <= d) (Hdt : Rabs (t1 - t0) <= d)
  (HB : forall i j x y, (i + j <= 3)%nat -> in_disc x y -> Cmod (F i j x y) <= M).

Lemma near_cos : nc 1 d 1 (RtoC (cos t0)) (RtoC (cos t1)).
Proof using Hdt.
  apply nc_real; [apply Rabs_le, COS_bound|apply Rabs_le, COS_bound|]. destruct (cos_sin_lip t0 t1). lra.
Qed.
Lemma near_sin : nc 1 d 1 (RtoC (sin t0)) (RtoC (sin t1)).
Proof using Hdt.
  apply nc_real; [apply Rabs_le, SIN_bound|apply Rabs_le, SIN_bound|]. destruct (cos_sin_lip t0 t1). lra.
Qed.
Lemma near_r : nc 1 d 3 (RtoC r0) (RtoC r1).
Proof using Hdr Hr0 Hr1 Hd. apply nc_real; [rewrite Rabs_pos_eq; lra|rewrite Rabs_pos_eq; lra|lra]. Qed.
Lemma near_x : nc 1 d 6 (Cmult (RtoC r0) (RtoC (cos t0))) (Cmult (RtoC r1) (RtoC (cos t1))).
Proof using Hdr Hr0 Hr1 Hd Hdt. replace 6 with (2 * (3 * 1)) by ring. apply nc_mult; [exact Hd|apply near_r|apply near_cos]. Qed.
Lemma near_y : nc 1 d 6 (Cmult (RtoC r0) (RtoC (sin t0))) (Cmult (RtoC r1) (RtoC (sin t1))).
Proof using Hdr Hr0 Hr1 Hd Hdt. replace 6 with (2 * (3 * 1)) by ring. apply nc_mult; [exact Hd|apply near_r|apply near_sin]. Qed.
Lemma near_neg : forall A z0 z1, nc 1 d A z0 z1 -> nc 1 d (2 * A) (Cmult (RtoC (-1)) z0) (Cmult (RtoC (-1)) z1).
Proof using Hd.
  intros A z0 z1 H. replace (2 * A) with (2 * (Rabs (-1) * A)) by (rewrite Rabs_left; lra). apply nc_mult; [exact Hd|apply nc_const, Hd|exact H].
Qed.

Lemma near_step : Rabs (r1 * cos t1 - r0 * cos t0) <= 6 * d /\ Rabs (r1 * sin t1 - r0 * sin t0) <= 6 * d.
Proof using Hdr Hr0 Hr1 Hd Hdt.
  destruct near_x as (_ & _ & X). destruct near_y as (_ & _ & Y). rewrite <- !RtoC_mult, <- RtoC_minus, Cmod_R in X, Y. lra.
Qed.

Lemma polar_disc : forall r t, 0 < r <= 3 -> in_disc (r * cos t) (r * sin t).
Proof using Type.
  intros r t Hr. unfold in_disc. pose proof (sc2 t) as S2. replace ((r * cos t) ^ 2 + (r * sin t) ^ 2) with (r ^ 2) by (ring [S2]). apply pow_incr. lra.
Qed.

Lemma near_seg : forall i j t, (i + j <= 3)%nat -> 0 <= t <= 1 ->
  Cmod (F i j (r0 * cos t0 + t * (r1 * cos t1 - r0 * cos t0)) (r0 * sin t0 + t * (r1 * sin t1 - r0 * sin t0))) <= M.
Proof using HB Hr0 Hr1.
  intros i j t Hij Ht. apply HB; [exact Hij|]. apply disc_between; [apply polar_disc, Hr0|apply polar_disc, Hr1|exact Ht].
Qed.

Lemma near_F : forall i j, (i + j <= 2)%nat -> nc M d 24 (F i j (r0 * cos t0) (r0 * sin t0)) (F i j (r1 * cos t1) (r1 * sin t1)).
Proof using HF HM HB Hdr Hr0 Hr1 Hd Hdt.
  intros i j Hij. destruct near_step as [Sx Sy].
  destruct (source_steps F (r0 * cos t0) (r0 * sin t0) _ _ (6 * d) M HF HM ltac:(lra) Sx Sy near_seg) as (_ & _ & _ & S3).
  specialize (S3 i j Hij). replace (r0 * cos t0 + (r1 * cos t1 - r0 * cos t0)) with (r1 * cos t1) in S3 by ring.
  replace (r0 * sin t0 + (r1 * sin t1 - r0 * sin t0)) with (r1 * sin t1) in S3 by ring.
  pose proof (HB i j _ _ ltac:(lia) (polar_disc r0 t0 Hr0)). pose proof (HB i j _ _ ltac:(lia) (polar_disc r1 t1 Hr1)).
  unfold nc. repeat split; lra.
Qed.

Lemma near_Q : nc M d 100000 (Q 1 0 r0 t0)%nat (Q 1 0 r1 t1)%nat /\ nc M d 100000 (Q 0 1 r0 t0)%nat (Q 0 1 r1 t1)%nat /\
  nc M d 100000 (Q 2 0 r0 t0)%nat (Q 2 0 r1 t1)%nat /\ nc M d 100000 (Q 1 1 r0 t0)%nat (Q 1 1 r1 t1)%nat /\ nc M d 100000 (Q 0 2 r0 t0)%nat (Q 0 2 r1 t1)%nat.
Proof using All.
  assert (HF2 : partials all_plane 2 F) by (intros i j x y Hij H; apply HF; [lia|exact H]).
  destruct (polar_partials F Q HF2 HQ HQF r0 t0 (proj1 Hr0)) as (-> & -> & -> & -> & ->).
  destruct (polar_partials F Q HF2 HQ HQF r1 t1 (proj1 Hr1)) as (-> & -> & -> & -> & ->).
  pose proof near_cos as Pc. pose proof near_sin as Ps. pose proof near_x as Px. pose proof near_y as Py.
  pose proof (near_neg _ _ _ Ps) as Ps'. pose proof (near_neg _ _ _ Px) as Px'. pose proof (near_neg _ _ _ Py) as Py'.
  pose proof (near_F 1 0 ltac:(lia)) as F10. pose proof (near_F 0 1 ltac:(lia)) as F01. pose proof (near_F 2 0 ltac:(lia)) as F20.
  pose proof (near_F 1 1 ltac:(lia)) as F11. pose proof (near_F 0 2 ltac:(lia)) as F02.
  refine (conj _ (conj _ (conj _ (conj _ _))));
    (eapply nc_le; [exact HM|exact Hd| |repeat first [exact Pc|exact Ps|exact Px|exact Py|exact Ps'|exact Px'|exact Py'|exact F10|exact F01|exact F20|exact F11|exact F02
       |apply nc_plus|apply nc_mult; [exact Hd| |]]]; lra).
Qed.
End Near.

(** ** The second derivative along the curve *)

Lemma polar_d2_linear : forall a1 a2 a3 a4 a5 b1 b2 b3 b4 b5 T1 T2 R1 R2,
  Cminus (polar_d2_f_s a1 a2 a3 a4 a5 T1 T2 R1 R2) (polar_d2_f_s b1 b2 b3 b4 b5 T1 T2 R1 R2) =
  polar_d2_f_s (Cminus a1 b1) (Cminus a2 b2) (Cminus a3 b3) (Cminus a4 b4) (Cminus a5 b5) T1 T2 R1 R2.
Proof. intros. unfold polar_d2_f_s. cbv zeta. ring. Qed.

Definition d2_const (G : R) : R := (1 + G) ^ 2 * (8 + 8 * (1 + G) ^ 2).

Lemma polar_d2_bound : forall a1 a2 a3 a4 a5 T1 T2 R1 R2 G E, Rabs T1 <= G -> Rabs T2 <= G -> Rabs R1 <= G -> Rabs R2 <= G -> 0 <= E ->
  Cmod a1 <= E -> Cmod a2 <= E -> Cmod a3 <= E -> Cmod a4 <= E -> Cmod a5 <= E ->
  Cmod (polar_d2_f_s a1 a2 a3 a4 a5 T1 T2 R1 R2) <= d2_const G * E.
Proof.
  intros a1 a2 a3 a4 a5 T1 T2 R1 R2 G E H1 H2 H3 H4 HE A1 A2 A3 A4 A5.
  set (g := 1 + G). assert (Hg : 1 <= g) by (unfold g; pose proof (Rabs_pos T1); lra).
  assert (g1 : Rabs T1 <= g /\ Rabs T2 <= g /\ Rabs R1 <= g /\ Rabs R2 <= g) by (unfold g; lra). destruct g1 as (T1g & T2g & R1g & R2g).
  assert (pm : forall u v a b, Rabs u <= a -> Rabs v <= b -> Rabs (u * v) <= a * b).
  { intros u v a b Hu Hv. rewrite Rabs_mult. apply Rmult_le_compat; try apply Rabs_pos; assumption. }
  assert (cm : forall z u a b, Cmod z <= a -> Rabs u <= b -> Cmod (Cmult z (RtoC u)) <= a * b).
  { intros z u a b Hz Hu. rewrite Cmod_mult, Cmod_R. apply Rmult_le_compat; try assumption; [apply Cmod_ge_0|apply Rabs_pos]. }
  assert (cp : forall z w a b, Cmod z <= a -> Cmod w <= b -> Cmod (Cplus z w) <= a + b).
  { intros z w a b Hz Hw. eapply Rle_trans; [apply Cmod_triangle|lra]. }
  assert (rp : forall u v a b, Rabs u <= a -> Rabs v <= b -> Rabs (u + v) <= a + b).
  { intros u v a b Hu Hv. eapply Rle_trans; [apply Rabs_triang|lra]. }
  unfold polar_d2_f_s. cbv zeta.
  assert (W : Rabs (R1 * T1) <= g * g) by (apply pm; assumption).
  assert (W2 : Rabs (R2 * T1 ^ 2 + R1 * T2) <= g * (g * g) + g * g).
  { apply rp; [|apply pm; assumption]. replace (T1 ^ 2) with (T1 * T1) by ring. apply pm; [assumption|apply pm; assumption]. }
  eapply Rle_trans.
  - apply cp; [apply cp; [apply cp|]|].
    + apply cm; [apply cp; apply cm; eassumption|exact T1g].
    + apply cm; eassumption.
    + apply cm; [apply cp; apply cm; eassumption|exact W].
    + apply cm; eassumption.
  - unfold d2_const. fold g.
    replace ((E * g + E * (g * g)) * g + E * g + (E * g + E * (g * g)) * (g * g) + E * (g * (g * g) + g * g))
      with (E * (g * (1 + 2 * g + 3 * g ^ 2 + g ^ 3))) by ring.
    rewrite (Rmult_comm (g ^ 2 * (8 + 8 * g ^ 2)) E). apply Rmult_le_compat_l; [exact HE|].
    replace (g ^ 2 * (8 + 8 * g ^ 2)) with (g * (8 * g + 8 * g ^ 3)) by ring. apply Rmult_le_compat_l; [lra|].
    assert (1 * 1 <= g * g) by (apply Rmult_le_compat; lra). assert (g ^ 2 <= g ^ 3) by (replace (g ^ 3) with (g * g ^ 2) by ring; replace (g ^ 2) with (g * g) by ring; nra). nra.
Qed.
