(** Least-squares coefficients and the a/b conversions. *)
From Coq Require Import String ZArith List Bool Reals Lia Lra.
From Coquelicot Require Import Complex.
From Verif Require Import Model_Py Model_Grid Model_Fourier Model_Abcoef Lib_Csum Proof_Fourier
  Proof_ArcDst Spec_Abcoef.
Import ListNotations.
Open Scope R_scope.

Lemma convert_map : forall jv coef ty k R0 nu, ty = "a"%string \/ ty = "b"%string ->
  convert_ab jv coef ty k R0 nu =
  Ok (map (fun m => Cmult (nth m coef (RtoC 0))
    (RtoC (if String.eqb ty "b" then 1 / jv ((INR m + 1) * nu) (k * R0)
           else jv ((INR m + 1) * nu) (k * R0)))) (seq 0 (length coef))).
Proof.
  intros jv coef ty k R0 nu Ht. unfold convert_ab.
  replace (String.eqb ty "a" || String.eqb ty "b")%bool with true
    by (destruct Ht; subst; reflexivity).
  f_equal. rewrite <- seq_shift, map_map. apply map_ext. intros m.
  rewrite S_INR. simpl. rewrite Nat.sub_0_r. reflexivity.
Qed.

Lemma nth_map_seq : forall (f : nat -> C) n i, (i < n)%nat -> nth i (map f (seq 0 n)) (RtoC 0) = f i.
Proof.
  intros f n i H. rewrite (nth_indep _ _ (f 0%nat)) by (rewrite map_length, seq_length; lia).
  rewrite map_nth, seq_nth by assumption. reflexivity.
Qed.

Lemma list_as_map : forall (l : list C), map (fun i => nth i l (RtoC 0)) (seq 0 (length l)) = l.
Proof.
  induction l as [|x l IH]; [reflexivity|]. simpl. f_equal.
  rewrite <- seq_shift, map_map. exact IH.
Qed.

Lemma convert_inverse : forall jv c k R0 nu,
  (forall m, (m < length c)%nat -> jv ((INR m + 1) * nu) (k * R0) <> 0) ->
  exists b a, a_to_b jv c k R0 nu = Ok b /\ b_to_a jv c k R0 nu = Ok a /\
    length b = length c /\ length a = length c /\
    b_to_a jv b k R0 nu = Ok c /\ a_to_b jv a k R0 nu = Ok c.
Proof.
  intros jv c k R0 nu H. unfold a_to_b, b_to_a.
  eexists. eexists.
  split; [apply convert_map; auto|]. split; [apply convert_map; auto|].
  rewrite !map_length, seq_length. split; [reflexivity|]. split; [reflexivity|].
  split; (rewrite convert_map by auto; rewrite map_length, seq_length; f_equal;
    etransitivity; [|apply list_as_map]; apply map_ext_in; intros i Hi;
    apply in_seq in Hi; rewrite nth_map_seq by lia; simpl;
    rewrite <- Cmult_assoc, <- RtoC_mult).
  - replace (_ * _) with 1; [ring|]. field. apply H. lia.
  - replace (_ * _) with 1; [ring|]. field. apply H. lia.
Qed.

(** Squared modulus. *)
Definition nrm2 (z : C) : R := fst z ^ 2 + snd z ^ 2.

Lemma Cmod_sq : forall z, Cmod z ^ 2 = nrm2 z.
Proof.
  intros z. unfold Cmod, nrm2. rewrite pow2_sqrt; [reflexivity|]. nra.
Qed.

Lemma nrm2_step : forall rho w d, nrm2 (Cplus rho (Cmult w d)) =
  nrm2 rho + 2 * (fst d * (fst w * fst rho + snd w * snd rho)
                  + snd d * (fst w * snd rho - snd w * fst rho)) + nrm2 d * nrm2 w.
Proof. intros [a b] [c e] [f g]. unfold nrm2. simpl. ring. Qed.

Lemma mat_app_step : forall m W x p d i, (p < m)%nat ->
  mat_app m W (fun j => Cplus (x j) (if Nat.eqb j p then d else RtoC 0)) i =
  Cplus (mat_app m W x i) (Cmult (W i p) d).
Proof.
  intros m W x p d i Hp. unfold mat_app.
  rewrite (csum_ext m _ (fun j => Cplus (Cmult (W i j) (x j))
    (if Nat.eqb j p then Cmult (W i j) d else RtoC 0))).
  - rewrite csum_plus, csum_delta by assumption. reflexivity.
  - intros j Hj. destruct (Nat.eqb j p); ring.
Qed.

Lemma stationary : forall S g1 g2,
  (forall d1 d2, 0 <= 2 * (d1 * g1 + d2 * g2) + (d1 ^ 2 + d2 ^ 2) * S) -> g1 = 0 /\ g2 = 0.
Proof.
  intros S g1 g2 H.
  assert (Hz : g1 ^ 2 + g2 ^ 2 <= 0).
  { apply Rnot_lt_le. intros Hp.
    set (t := / (Rabs S + 1)). pose proof (Rabs_pos S) as Hs.
    assert (Ht : 0 < t) by (apply Rinv_0_lt_compat; lra).
    specialize (H (- t * g1) (- t * g2)).
    assert (HtS : t * S < 1).
    { apply Rmult_lt_reg_l with (Rabs S + 1); [lra|].
      rewrite <- Rmult_assoc. unfold t. rewrite Rinv_r by lra.
      pose proof (Rle_abs S). lra. }
    assert (E : 2 * (- t * g1 * g1 + - t * g2 * g2) + ((- t * g1) ^ 2 + (- t * g2) ^ 2) * S
      = t * (g1 ^ 2 + g2 ^ 2) * (t * S - 2)) by ring.
    rewrite E in H. pose proof (Rmult_lt_0_compat _ _ Ht Hp). nra. }
  split; nra.
Qed.

Lemma normal_equations : forall n m W y x p, (p < m)%nat -> least_squares n m W y x ->
  rsum n (fun i => fst (W i p) * fst (Cminus (mat_app m W x i) (y i))
                   + snd (W i p) * snd (Cminus (mat_app m W x i) (y i))) = 0 /\
  rsum n (fun i => fst (W i p) * snd (Cminus (mat_app m W x i) (y i))
                   - snd (W i p) * fst (Cminus (mat_app m W x i) (y i))) = 0.
Proof.
  intros n m W y x p Hp H.
  apply stationary with (S := rsum n (fun i => nrm2 (W i p))).
  intros d1 d2.
  specialize (H (fun j => Cplus (x j) (if Nat.eqb j p then (d1, d2) else RtoC 0))).
  unfold lsq_error in H.
  rewrite (rsum_ext n (fun i => Cmod (Cminus (mat_app m W (fun j =>
      Cplus (x j) (if Nat.eqb j p then (d1, d2) else RtoC 0)) i) (y i)) ^ 2)
    (fun i => Cmod (Cminus (mat_app m W x i) (y i)) ^ 2 +
      ((2 * d1) * (fst (W i p) * fst (Cminus (mat_app m W x i) (y i))
                   + snd (W i p) * snd (Cminus (mat_app m W x i) (y i))) +
      ((2 * d2) * (fst (W i p) * snd (Cminus (mat_app m W x i) (y i))
                   - snd (W i p) * fst (Cminus (mat_app m W x i) (y i))) +
      (d1 ^ 2 + d2 ^ 2) * nrm2 (W i p))))) in H.
  - rewrite !rsum_plus, !rsum_scal in H. lra.
  - intros i Hi. rewrite mat_app_step by assumption. rewrite !Cmod_sq.
    replace (Cminus (Cplus (mat_app m W x i) (Cmult (W i p) (d1, d2))) (y i))
      with (Cplus (Cminus (mat_app m W x i) (y i)) (Cmult (W i p) (d1, d2))) by ring.
    rewrite nrm2_step. unfold nrm2 at 2. simpl fst. simpl snd. ring.
Qed.

Lemma rsum_fst : forall n (f : nat -> C), rsum n (fun i => fst (f i)) = fst (csum n f).
Proof. induction n as [|n IH]; intros f; simpl; [reflexivity|]. rewrite IH. reflexivity. Qed.
Lemma rsum_snd : forall n (f : nat -> C), rsum n (fun i => snd (f i)) = snd (csum n f).
Proof. induction n as [|n IH]; intros f; simpl; [reflexivity|]. rewrite IH. reflexivity. Qed.

(** The normal equations for a column of reals. *)
Lemma normal_real : forall n m W w y x p, (p < m)%nat -> least_squares n m W y x ->
  (forall i, (i < n)%nat -> W i p = RtoC (w i)) ->
  csum n (fun i => Cmult (RtoC (w i)) (Cminus (mat_app m W x i) (y i))) = RtoC 0.
Proof.
  intros n m W w y x p Hp H Hw.
  destruct (normal_equations n m W y x p Hp H) as [E1 E2].
  apply injective_projections; simpl.
  - rewrite <- rsum_fst, <- E1. apply rsum_ext. intros i Hi. rewrite (Hw i Hi). simpl. ring.
  - rewrite <- rsum_snd, <- E2. apply rsum_ext. intros i Hi. rewrite (Hw i Hi). simpl. ring.
Qed.

(** Orthogonal real columns: every least-squares solution is the projection. *)
Lemma projection : forall n m W (c : nat -> R) y x p, (m <= n)%nat -> (p < m)%nat ->
  least_squares n m W y x ->
  (forall i j, (i < n)%nat -> (j < m)%nat -> W i j = RtoC (c j * sn n j i)) ->
  c p <> 0 ->
  Cmult (x p) (RtoC (c p)) =
  Cmult (RtoC (2 / (INR n + 1))) (csum n (fun i => Cmult (y i) (RtoC (sn n p i)))).
Proof.
  intros n m W c y x p Hmn Hp H HW Hc. pose proof (pos_INR n) as Hn.
  pose proof (normal_real n m W (fun i => c p * sn n p i) y x p Hp H
    (fun i Hi => HW i p Hi Hp)) as E.
  rewrite (csum_ext n _ (fun i => Cplus
     (csum m (fun j => Cmult (Cmult (RtoC (c p)) (Cmult (RtoC (c j)) (x j)))
                        (RtoC (sn n j i * sn n p i))))
     (Cmult (RtoC (- c p)) (Cmult (y i) (RtoC (sn n p i)))))) in E.
  2:{ intros i Hi. unfold mat_app.
      rewrite (csum_ext m (fun j => Cmult (W i j) (x j))
        (fun j => Cmult (RtoC (c j * sn n j i)) (x j)))
        by (intros j Hj; rewrite HW by assumption; reflexivity).
      rewrite (csum_ext m (fun j => Cmult (Cmult (RtoC (c p)) (Cmult (RtoC (c j)) (x j)))
                        (RtoC (sn n j i * sn n p i)))
        (fun j => Cmult (RtoC (c p * sn n p i)) (Cmult (RtoC (c j * sn n j i)) (x j))))
        by (intros j Hj; rewrite !RtoC_mult; ring).
      rewrite csum_scal. rewrite RtoC_opp, !RtoC_mult. ring. }
  rewrite csum_plus, csum_scal, csum_swap in E.
  rewrite (csum_ext m _ (fun j => if Nat.eqb j p then
     Cmult (Cmult (RtoC (c p)) (Cmult (RtoC (c j)) (x j))) (RtoC ((INR n + 1) / 2)) else RtoC 0)) in E.
  2:{ intros j Hj. rewrite csum_scal, csum_RtoC, sine_orthogonal by lia.
      destruct (Nat.eqb j p); [reflexivity|ring]. }
  rewrite csum_delta in E by assumption.
  set (Y := csum n (fun i => Cmult (y i) (RtoC (sn n p i)))) in *.
  assert (Hcp : RtoC (c p) <> RtoC 0) by (apply RtoC_neq; assumption).
  assert (E2 : Cmult (RtoC (c p)) (Cminus (Cmult (Cmult (x p) (RtoC (c p))) (RtoC ((INR n + 1) / 2))) Y)
    = RtoC 0) by (rewrite <- E, RtoC_opp; ring).
  assert (E3 : Cminus (Cmult (Cmult (x p) (RtoC (c p))) (RtoC ((INR n + 1) / 2))) Y = RtoC 0).
  { replace (Cminus _ Y) with (Cmult (Cinv (RtoC (c p))) (Cmult (RtoC (c p))
      (Cminus (Cmult (Cmult (x p) (RtoC (c p))) (RtoC ((INR n + 1) / 2))) Y))).
    - rewrite E2. ring.
    - rewrite Cmult_assoc, Cinv_l by assumption. ring. }
  replace Y with (Cmult (Cmult (x p) (RtoC (c p))) (RtoC ((INR n + 1) / 2))).
  - transitivity (Cmult (Cmult (x p) (RtoC (c p))) (RtoC (2 / (INR n + 1) * ((INR n + 1) / 2)))).
    + replace (2 / (INR n + 1) * ((INR n + 1) / 2)) with 1 by (field; lra). ring.
    + rewrite RtoC_mult. ring.
  - replace Y with (Cminus (Cmult (Cmult (x p) (RtoC (c p))) (RtoC ((INR n + 1) / 2)))
      (Cminus (Cmult (Cmult (x p) (RtoC (c p))) (RtoC ((INR n + 1) / 2))) Y)) by ring.
    rewrite E3. ring.
Qed.

Lemma pizza_gap : 2 * PI - pizza_a <> 0.
Proof. unfold pizza_a. pose proof PI_RGT_0. lra. Qed.

Lemma ab_sample : forall n i m,
  sin ((INR m + 1) * pizza_nu * (ab_th n i - pizza_a)) = sn n m i.
Proof.
  intros n i m. unfold sn, ab_th, pizza_nu. f_equal.
  rewrite (INR_IZR_INZ i). rewrite arc_sample by apply pizza_gap.
  rewrite (INR_IZR_INZ i). reflexivity.
Qed.

Lemma ab_W_arc : forall jv k R0 n M i j,
  (jv ((INR j + 1) * pizza_nu) (k * R0) <> 0) ->
  ab_W jv k R0 pizza_a pizza_nu (fun _ => R0) n M i j =
  RtoC ((if Nat.leb M j then 1 else jv ((INR j + 1) * pizza_nu) (k * R0)) * sn n j i).
Proof.
  intros jv k R0 n M i j H. unfold ab_W, ab_W0. rewrite ab_sample.
  destruct (Nat.leb M j); [|reflexivity].
  rewrite <- RtoC_div by assumption. f_equal. field. assumption.
Qed.

Lemma arc_dst_value : forall n f p,
  arc_dst pizza_a f n (Z.of_nat p) =
  Cmult (RtoC (2 / (INR n + 1))) (csum n (fun i => Cmult (f (ab_th n i)) (RtoC (sn n p i)))).
Proof.
  intros n f p. unfold arc_dst. rewrite dst1_nat. pose proof (pos_INR n).
  rewrite (csum_ext n _ (fun i => Cmult (f (ab_th n i)) (RtoC (sn n p i)))).
  - rewrite RtoC_div by lra. unfold Cdiv. ring.
  - intros i Hi. unfold ab_th. rewrite (INR_IZR_INZ i). reflexivity.
Qed.

Lemma firstn_seq : forall m M, firstn M (seq 0 m) = seq 0 (Nat.min M m).
Proof.
  intros m M. generalize 0%nat. revert M. induction m as [|m IH]; intros [|M] s; try reflexivity.
  simpl. f_equal. apply IH.
Qed.

Lemma calc_on_arc : forall lstsq jv k R0 bc0 n M m1,
  (M <= m1)%nat -> (m1 <= n)%nat ->
  (forall m, (m < m1)%nat -> jv ((INR m + 1) * pizza_nu) (k * R0) <> 0) ->
  (let W := fun i m => ab_W jv k R0 pizza_a pizza_nu (fun _ => R0) n M i m in
   let y := fun i => bc0 (ab_th n i) in least_squares n m1 W y (lstsq n m1 W y)) ->
  b_to_a jv (map (fun m => arc_dst pizza_a bc0 n (Z.of_nat m)) (seq 0 M)) k R0 pizza_nu =
  Ok (calc_a_coef lstsq jv k R0 pizza_a pizza_nu (fun _ => R0) bc0 n M m1).
Proof.
  intros lstsq jv k R0 bc0 n M m1 HM Hm Hj Hl. unfold b_to_a. rewrite convert_map by auto.
  rewrite map_length, seq_length. unfold calc_a_coef.
  rewrite firstn_map, firstn_seq, Nat.min_l by assumption. f_equal.
  apply map_ext_in. intros p Hp. apply in_seq in Hp.
  rewrite nth_map_seq by lia. simpl String.eqb. cbv iota.
  set (W := fun i m => ab_W jv k R0 pizza_a pizza_nu (fun _ => R0) n M i m).
  set (y := fun i => bc0 (ab_th n i)).
  assert (H := Hl). cbv zeta in H. fold W y in H.
  pose proof (projection n m1 W
    (fun j => if Nat.leb M j then 1 else jv ((INR j + 1) * pizza_nu) (k * R0)) y _ p
    Hm ltac:(lia) H) as E. cbv beta in E.
  assert (Hp' : Nat.leb M p = false) by (apply Nat.leb_gt; lia).
  rewrite Hp' in E.
  assert (Hjp := Hj p ltac:(lia)).
  rewrite arc_dst_value. fold y. unfold y in E at 2. rewrite <- E.
  - rewrite <- Cmult_assoc, <- RtoC_mult. replace (_ * (1 / _)) with 1; [ring|].
    field. assumption.
  - intros i j Hi Hjm. unfold W. apply ab_W_arc. apply Hj. assumption.
  - assumption.
Qed.

Lemma rsum_S : forall n f, rsum (S n) f = rsum n f + f n.
Proof. reflexivity. Qed.

(** Exact data in the range of a matrix of full column rank. *)
Lemma recovered : forall n m W y x x0, full_rank n m W -> least_squares n m W y x ->
  (forall i, (i < n)%nat -> y i = mat_app m W x0 i) ->
  forall j, (j < m)%nat -> x j = x0 j.
Proof.
  intros n m W y x x0 Hr Hl Hy j Hj.
  assert (H0 : lsq_error n m W y x0 = 0).
  { unfold lsq_error. rewrite (rsum_ext n _ (fun _ => 0)).
    - rewrite rsum_const. ring.
    - intros i Hi. rewrite (Hy i Hi).
      replace (Cminus _ _) with (RtoC 0) by ring. rewrite Cmod_0. ring. }
  specialize (Hl x0). rewrite H0 in Hl. unfold lsq_error in Hl.
  assert (Hz : forall k, (k <= n)%nat ->
    rsum k (fun i => Cmod (Cminus (mat_app m W x i) (y i)) ^ 2) <= 0).
  { intros k Hk. replace n with (k + (n - k))%nat in Hl by lia.
    induction (n - k)%nat as [|d IH].
    - rewrite Nat.add_0_r in Hl. exact Hl.
    - apply IH. rewrite Nat.add_succ_r, rsum_S in Hl.
      pose proof (pow2_ge_0 (Cmod (Cminus (mat_app m W x (k + d)) (y (k + d)%nat)))).
      lra. }
  assert (Hp : forall i, (i < n)%nat -> mat_app m W x i = y i).
  { intros i Hi. pose proof (Hz (S i) Hi) as H1. rewrite rsum_S in H1.
    assert (H2 : 0 <= rsum i (fun i => Cmod (Cminus (mat_app m W x i) (y i)) ^ 2)).
    { rewrite <- (Rmult_0_r (INR i)), <- rsum_const. apply rsum_le. intros. apply pow2_ge_0. }
    assert (H3 : Cmod (Cminus (mat_app m W x i) (y i)) = 0).
    { pose proof (Cmod_ge_0 (Cminus (mat_app m W x i) (y i))). nra. }
    apply Cmod_eq_0 in H3. replace (y i) with (Cplus (y i) (RtoC 0)) by ring.
    rewrite <- H3. ring. }
  replace (x j) with (Cplus (Cminus (x j) (x0 j)) (x0 j)) by ring.
  rewrite (Hr (fun j => Cminus (x j) (x0 j))) by
    (try assumption; intros i Hi; unfold mat_app;
     rewrite (csum_ext m _ (fun j => Cplus (Cmult (W i j) (x j)) (Cmult (Copp (RtoC 1)) (Cmult (W i j) (x0 j)))))
       by (intros; ring);
     rewrite csum_plus, csum_scal; fold (mat_app m W x i); fold (mat_app m W x0 i);
     rewrite Hp, Hy by assumption; ring).
  ring.
Qed.

Lemma calc_recovers : forall lstsq jv k R0 a nu eval_r bc0 n M m1 c,
  (M <= m1)%nat ->
  (forall m, (m < m1)%nat -> jv ((INR m + 1) * nu) (k * R0) <> 0) ->
  (let W := fun i m => ab_W jv k R0 a nu eval_r n M i m in
   let y := fun i => bc0 (ab_th n i) in least_squares n m1 W y (lstsq n m1 W y)) ->
  full_rank n m1 (fun i m => RtoC (jv ((INR m + 1) * nu) (k * eval_r (ab_th n i)) *
                                   sin ((INR m + 1) * nu * (ab_th n i - a)))) ->
  (forall i, (i < n)%nat -> bc0 (ab_th n i) =
     csum m1 (fun m => Cmult (c m) (RtoC (jv ((INR m + 1) * nu) (k * eval_r (ab_th n i)) *
                                   sin ((INR m + 1) * nu * (ab_th n i - a)))))) ->
  calc_a_coef lstsq jv k R0 a nu eval_r bc0 n M m1 = map c (seq 0 M).
Proof.
  intros lstsq jv k R0 a nu eval_r bc0 n M m1 c HM Hj Hl Hr Hy. cbv zeta in Hl.
  unfold calc_a_coef. rewrite firstn_map, firstn_seq, Nat.min_l by assumption.
  apply map_ext_in. intros p Hp. apply in_seq in Hp.
  set (W := fun i m => ab_W jv k R0 a nu eval_r n M i m) in *.
  set (y := fun i => bc0 (ab_th n i)) in *.
  set (s := fun j : nat => if Nat.leb M j then jv ((INR j + 1) * nu) (k * R0) else 1).
  assert (Hs : forall j, (j < m1)%nat -> s j <> 0).
  { intros j Hjm. unfold s. destruct (Nat.leb M j); [auto|lra]. }
  assert (HW : forall i j, (j < m1)%nat -> RtoC (ab_W0 jv k a nu eval_r n i j) =
    Cmult (W i j) (RtoC (s j))).
  { intros i j Hjm. unfold W, ab_W, s. destruct (Nat.leb M j).
    - field. apply RtoC_neq. auto.
    - ring. }
  rewrite (recovered n m1 W y _ (fun j => Cmult (RtoC (s j)) (c j))) with (j := p);
    [| |exact Hl| |lia].
  - unfold s. replace (Nat.leb M p) with false by (symmetry; apply Nat.leb_gt; lia). ring.
  - intros x Hx j Hjm.
    specialize (Hr (fun j => Cmult (x j) (Cinv (RtoC (s j))))).
    replace (x j) with (Cmult (Cmult (x j) (Cinv (RtoC (s j)))) (RtoC (s j)))
      by (field; apply RtoC_neq; auto).
    rewrite Hr; [ring| |assumption].
    intros i Hi. rewrite <- (Hx i Hi). unfold mat_app. apply csum_ext. intros l Hlm.
    fold (ab_W0 jv k a nu eval_r n i l). rewrite HW by assumption.
    field. apply RtoC_neq; auto.
  - intros i Hi. unfold y. rewrite Hy by assumption. apply csum_ext. intros l Hlm.
    fold (ab_W0 jv k a nu eval_r n i l). rewrite HW by assumption. ring.
Qed.

Lemma zero_error : forall n m W y x, (forall i, (i < n)%nat -> y i = mat_app m W x i) ->
  least_squares n m W y x.
Proof.
  intros n m W y x H x'. unfold lsq_error.
  rewrite (rsum_ext n (fun i => Cmod (Cminus (mat_app m W x i) (y i)) ^ 2) (fun _ => 0)).
  - rewrite rsum_const, Rmult_0_r. rewrite <- (Rmult_0_r (INR n)), <- rsum_const.
    apply rsum_le. intros. apply pow2_ge_0.
  - intros i Hi. rewrite (H i Hi). replace (Cminus _ _) with (RtoC 0) by ring.
    rewrite Cmod_0. ring.
Qed.

Lemma arc_full_rank : forall n m (c : nat -> R), (m <= n)%nat ->
  (forall j, (j < m)%nat -> c j <> 0) ->
  full_rank n m (fun i j => RtoC (c j * sn n j i)).
Proof.
  intros n m c Hm Hc x Hx j Hj.
  pose proof (projection n m (fun i j => RtoC (c j * sn n j i)) c (fun _ => RtoC 0) x j Hm Hj) as E.
  rewrite (csum_ext n _ (fun _ => RtoC 0)), csum_zero in E by (intros; ring).
  replace (x j) with (Cmult (Cmult (x j) (RtoC (c j))) (Cinv (RtoC (c j))))
    by (field; apply RtoC_neq; auto).
  rewrite E; [ring| |reflexivity|auto].
  apply zero_error. intros i Hi. symmetry. auto.
Qed.

(** A solver that knows the answer, for the examples. *)
Definition sample_coef (m : nat) : C := (INR m + 1, 2)%R.
Definition sample_jv (v x : R) : R := 1 + v ^ 2 + x ^ 2.
Lemma sample_jv_nz : forall v x, sample_jv v x <> 0.
Proof. intros. unfold sample_jv. pose proof (pow2_ge_0 v). pose proof (pow2_ge_0 x). lra. Qed.
Definition sample_bc (m1 : nat) (th : R) : C :=
  csum m1 (fun m => Cmult (sample_coef m) (RtoC (sample_jv ((INR m + 1) * pizza_nu) (2 * 3) *
    sin ((INR m + 1) * pizza_nu * (th - pizza_a))))).

Lemma sample_lstsq : forall n m,
  let W := fun i j => ab_W sample_jv 2 3 pizza_a pizza_nu (fun _ => 3) n m i j in
  let y := fun i => sample_bc m (ab_th n i) in least_squares n m W y sample_coef.
Proof.
  intros n m W y. apply zero_error. intros i Hi. unfold y, sample_bc, mat_app.
  apply csum_ext. intros j Hj. unfold W, ab_W.
  replace (Nat.leb m j) with false by (symmetry; apply Nat.leb_gt; assumption).
  unfold ab_W0. ring.
Qed.

Lemma sample_rank : forall n m, (m <= n)%nat -> full_rank n m (fun i m =>
   RtoC (sample_jv ((INR m + 1) * pizza_nu) (2 * 3) *
         sin ((INR m + 1) * pizza_nu * (ab_th n i - pizza_a)))).
Proof.
  intros n m Hm.
  intros x Hx. apply (arc_full_rank n m (fun j => sample_jv ((INR j + 1) * pizza_nu) (2 * 3)) Hm).
  - intros. apply sample_jv_nz.
  - intros i Hi. rewrite <- (Hx i Hi). unfold mat_app. apply csum_ext. intros j Hj.
    rewrite ab_sample. reflexivity.
Qed.
