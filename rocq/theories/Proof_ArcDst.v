(** arc_dst recovers sine coefficients. *)
From Coq Require Import ZArith List Bool Reals Lia Lra.
From Coquelicot Require Import Complex.
From Verif Require Import Model_Py Model_Grid Model_Fourier Lib_Csum Proof_Fourier.
Import ListNotations.
Open Scope R_scope.

Lemma arc_sample : forall a (N l : nat) q, 2 * PI - a <> 0 ->
  q * (PI / (2 * PI - a)) *
    (a + (2 * PI - a) / (INR N + 1) * (IZR (Z.of_nat l) + 1) - a) =
  PI * q * (INR l + 1) / (INR N + 1).
Proof.
  intros a N l q Ha. rewrite <- INR_IZR_INZ. pose proof (pos_INR N). field. split; lra.
Qed.

Lemma arc_dst_modes : forall a (N p : nat) func (b : nat -> C), 2 * PI - a <> 0 ->
  (p < N)%nat ->
  (forall th, func th = csum N (fun m =>
     Cmult (b m) (RtoC (sin ((INR m + 1) * (PI / (2 * PI - a)) * (th - a)))))) ->
  arc_dst a func N (Z.of_nat p) = b p.
Proof.
  intros a N p func b Ha Hp Hf. unfold arc_dst. pose proof (pos_INR N) as HN.
  rewrite dst1_nat.
  rewrite (csum_ext N _ (fun l => csum N (fun m =>
     Cmult (b m) (RtoC (sn N m l * sn N p l))))).
  2:{ intros l Hl. rewrite Hf, <- csum_scal_r. apply csum_ext. intros m Hm.
      rewrite arc_sample by assumption. fold (sn N m l). rewrite RtoC_mult. ring. }
  rewrite csum_swap.
  rewrite (csum_ext N _ (fun m => if Nat.eqb m p then
      Cmult (b m) (RtoC ((INR N + 1) / 2)) else RtoC 0)).
  2:{ intros m Hm. rewrite csum_scal, csum_RtoC, sine_orthogonal by assumption.
      destruct (Nat.eqb m p); [reflexivity|ring]. }
  rewrite csum_delta by assumption.
  assert (H1 : RtoC (INR N + 1) <> RtoC 0) by (apply RtoC_neq; lra).
  replace (RtoC ((INR N + 1) / 2)) with (Cdiv (RtoC (INR N + 1)) (RtoC 2)).
  - field. split; [apply RtoC_neq; lra|assumption].
  - rewrite <- RtoC_div by lra. reflexivity.
Qed.

Lemma arc_dst_lin : forall a N c f g m,
  arc_dst a (fun th => Cplus (Cmult c (f th)) (g th)) N m =
  Cplus (Cmult c (arc_dst a f N m)) (arc_dst a g N m).
Proof.
  intros. unfold arc_dst. rewrite dst1_plus, dst1_scal. unfold Cdiv. ring.
Qed.

Lemma arc_dst_ext : forall a N f g m,
  (forall l, (l < N)%nat -> f (a + (2 * PI - a) / (INR N + 1) * (INR l + 1)) =
                            g (a + (2 * PI - a) / (INR N + 1) * (INR l + 1))) ->
  arc_dst a f N m = arc_dst a g N m.
Proof.
  intros a N f g m H. unfold arc_dst. f_equal. apply dst1_ext. intros l Hl.
  specialize (H (Z.to_nat l)). rewrite (INR_IZR_INZ (Z.to_nat l)), Z2Nat.id in H by lia.
  apply H. lia.
Qed.

(** Samples of a mode of any index. *)
Lemma alias_plus : forall (n t p l : nat),
  sin (PI * (2 * (INR n + 1) * INR t + (INR p + 1)) * (INR l + 1) / (INR n + 1)) = sn n p l.
Proof.
  intros n t p l. pose proof (pos_INR n). unfold sn.
  replace (PI * (2 * (INR n + 1) * INR t + (INR p + 1)) * (INR l + 1) / (INR n + 1))
    with (PI * (INR p + 1) * (INR l + 1) / (INR n + 1) + 2 * INR (t * (l + 1)) * PI).
  - apply sin_period.
  - rewrite mult_INR, plus_INR. simpl (INR 1). field. lra.
Qed.

Lemma alias_minus : forall (n t p l : nat),
  sin (PI * (2 * (INR n + 1) * INR t - (INR p + 1)) * (INR l + 1) / (INR n + 1)) = - sn n p l.
Proof.
  intros n t p l. pose proof (pos_INR n). unfold sn. rewrite <- sin_neg.
  replace (PI * (2 * (INR n + 1) * INR t - (INR p + 1)) * (INR l + 1) / (INR n + 1))
    with (- (PI * (INR p + 1) * (INR l + 1) / (INR n + 1)) + 2 * INR (t * (l + 1)) * PI).
  - apply sin_period.
  - rewrite mult_INR, plus_INR. simpl (INR 1). field. lra.
Qed.

Lemma single_mode : forall a (N p q : nat) c, 2 * PI - a <> 0 -> (q < N)%nat -> (p < N)%nat ->
  arc_dst a (fun th => RtoC (c * sin ((INR p + 1) * (PI / (2 * PI - a)) * (th - a)))) N
    (Z.of_nat q) = if Nat.eqb q p then RtoC c else RtoC 0.
Proof.
  intros a N p q c Ha Hq Hp.
  apply (arc_dst_modes a N q _ (fun m => if Nat.eqb m p then RtoC c else RtoC 0)); try assumption.
  intros th.
  rewrite (csum_ext N _ (fun m => if Nat.eqb m p then Cmult (RtoC c)
     (RtoC (sin ((INR m + 1) * (PI / (2 * PI - a)) * (th - a)))) else RtoC 0)).
  - rewrite csum_delta by assumption. apply RtoC_mult.
  - intros m _. destruct (Nat.eqb m p); [reflexivity|ring].
Qed.

Lemma arc_dst_alias_plus : forall a (N t p q : nat), 2 * PI - a <> 0 ->
  (p < N)%nat -> (q < N)%nat ->
  arc_dst a (fun th => RtoC (sin ((2 * (INR N + 1) * INR t + (INR p + 1)) *
     (PI / (2 * PI - a)) * (th - a)))) N (Z.of_nat q) =
  if Nat.eqb q p then RtoC 1 else RtoC 0.
Proof.
  intros a N t p q Ha Hp Hq. rewrite <- (single_mode a N p q 1) by assumption.
  apply arc_dst_ext. intros l Hl. rewrite (INR_IZR_INZ l).
  rewrite !arc_sample by assumption. rewrite alias_plus. unfold sn. f_equal. ring.
Qed.

Lemma arc_dst_alias_minus : forall a (N t p q : nat), 2 * PI - a <> 0 ->
  (p < N)%nat -> (q < N)%nat ->
  arc_dst a (fun th => RtoC (sin ((2 * (INR N + 1) * INR t - (INR p + 1)) *
     (PI / (2 * PI - a)) * (th - a)))) N (Z.of_nat q) =
  if Nat.eqb q p then RtoC (-1) else RtoC 0.
Proof.
  intros a N t p q Ha Hp Hq. rewrite <- (single_mode a N p q (-1)) by assumption.
  apply arc_dst_ext. intros l Hl. rewrite (INR_IZR_INZ l).
  rewrite !arc_sample by assumption. rewrite alias_minus. unfold sn. f_equal. ring.
Qed.

Lemma arc_dst_alias_zero : forall a (N t q : nat), 2 * PI - a <> 0 -> (q < N)%nat ->
  arc_dst a (fun th => RtoC (sin ((INR N + 1) * INR t *
     (PI / (2 * PI - a)) * (th - a)))) N (Z.of_nat q) = RtoC 0.
Proof.
  intros a N t q Ha Hq. pose proof (pos_INR N).
  replace (RtoC 0) with (if Nat.eqb q 0 then RtoC 0 else RtoC 0) by (destruct (Nat.eqb q 0); reflexivity).
  rewrite <- (single_mode a N 0 q 0) by (try assumption; lia).
  apply arc_dst_ext. intros l Hl. rewrite (INR_IZR_INZ l).
  rewrite !arc_sample by assumption. rewrite Rmult_0_l.
  replace (PI * ((INR N + 1) * INR t) * (INR l + 1) / (INR N + 1)) with (INR (t * (l + 1)) * PI).
  - rewrite sin_INR_PI. reflexivity.
  - rewrite mult_INR, plus_INR. simpl (INR 1). field. lra.
Qed.
