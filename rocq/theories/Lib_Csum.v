(** Finite sums of reals and complex numbers. *)
From Coq Require Import ZArith List Bool Reals Lia Lra.
From Coquelicot Require Import Complex.
From Verif Require Import Model_Fourier.
Open Scope R_scope.

Fixpoint rsum (n : nat) (f : nat -> R) : R :=
  match n with O => 0 | S n' => rsum n' f + f n' end.

Lemma rsum_ext : forall n f g, (forall m, (m < n)%nat -> f m = g m) -> rsum n f = rsum n g.
Proof.
  induction n as [|n IH]; intros f g H; simpl; [reflexivity|].
  rewrite (IH f g), (H n) by (intros; try apply H; lia). reflexivity.
Qed.

Lemma rsum_plus : forall n f g, rsum n (fun m => f m + g m) = rsum n f + rsum n g.
Proof. induction n as [|n IH]; intros; simpl; [lra|]. rewrite IH. lra. Qed.

Lemma rsum_scal : forall n c f, rsum n (fun m => c * f m) = c * rsum n f.
Proof. induction n as [|n IH]; intros; simpl; [lra|]. rewrite IH. lra. Qed.

Lemma rsum_const : forall n c, rsum n (fun _ => c) = INR n * c.
Proof.
  induction n as [|n IH]; intros c; [simpl; lra|].
  rewrite S_INR. simpl. rewrite IH. lra.
Qed.

Lemma rsum_le : forall n f g, (forall m, (m < n)%nat -> f m <= g m) -> rsum n f <= rsum n g.
Proof.
  induction n as [|n IH]; intros f g H; simpl; [lra|].
  apply Rplus_le_compat; [apply IH; intros; apply H; lia|apply H; lia].
Qed.

Lemma rsum_abs : forall n f, Rabs (rsum n f) <= rsum n (fun m => Rabs (f m)).
Proof.
  induction n as [|n IH]; intros f; simpl; [rewrite Rabs_R0; lra|].
  eapply Rle_trans; [apply Rabs_triang|]. specialize (IH f). lra.
Qed.

Lemma rsum_swap : forall n m f,
  rsum n (fun i => rsum m (fun j => f i j)) = rsum m (fun j => rsum n (fun i => f i j)).
Proof.
  induction n as [|n IH]; intros m f; simpl.
  - induction m as [|m IHm]; simpl; lra.
  - rewrite IH. symmetry. apply rsum_plus.
Qed.

Lemma rsum_shift : forall n f, rsum (S n) f = f O + rsum n (fun m => f (S m)).
Proof.
  induction n as [|n IH]; intros f; [simpl; lra|].
  change (rsum (S (S n)) f) with (rsum (S n) f + f (S n)). rewrite IH. simpl. lra.
Qed.

Lemma rsum_delta : forall n k c, (k < n)%nat ->
  rsum n (fun m => if Nat.eqb m k then c m else 0) = c k.
Proof.
  induction n as [|n IH]; intros k c H; [lia|]. simpl.
  destruct (Nat.eqb_spec n k) as [->|Hne].
  - rewrite (rsum_ext k _ (fun _ => 0)).
    + rewrite rsum_const. lra.
    + intros m Hm. destruct (Nat.eqb_spec m k); [lia|reflexivity].
  - rewrite IH by lia. lra.
Qed.

Lemma csum_ext : forall n f g, (forall m, (m < n)%nat -> f m = g m) -> csum n f = csum n g.
Proof.
  induction n as [|n IH]; intros f g H; simpl; [reflexivity|].
  rewrite (IH f g), (H n) by (intros; try apply H; lia). reflexivity.
Qed.

Lemma csum_zero : forall n, csum n (fun _ => RtoC 0) = RtoC 0.
Proof. induction n as [|n IH]; simpl; [reflexivity|]. rewrite IH. ring. Qed.

Lemma csum_plus : forall n f g,
  csum n (fun m => Cplus (f m) (g m)) = Cplus (csum n f) (csum n g).
Proof. induction n as [|n IH]; intros; simpl; [ring|]. rewrite IH. ring. Qed.

Lemma csum_scal : forall n c f, csum n (fun m => Cmult c (f m)) = Cmult c (csum n f).
Proof. induction n as [|n IH]; intros; simpl; [ring|]. rewrite IH. ring. Qed.

Lemma csum_scal_r : forall n c f, csum n (fun m => Cmult (f m) c) = Cmult (csum n f) c.
Proof. induction n as [|n IH]; intros; simpl; [ring|]. rewrite IH. ring. Qed.

Lemma csum_swap : forall n m f,
  csum n (fun i => csum m (fun j => f i j)) = csum m (fun j => csum n (fun i => f i j)).
Proof.
  induction n as [|n IH]; intros m f; simpl.
  - symmetry. apply csum_zero.
  - rewrite IH. symmetry. apply csum_plus.
Qed.

Lemma csum_RtoC : forall n f, csum n (fun m => RtoC (f m)) = RtoC (rsum n f).
Proof.
  induction n as [|n IH]; intros f; simpl; [reflexivity|].
  rewrite IH. symmetry. apply RtoC_plus.
Qed.

Lemma csum_delta : forall n k c, (k < n)%nat ->
  csum n (fun m => if Nat.eqb m k then c m else RtoC 0) = c k.
Proof.
  induction n as [|n IH]; intros k c H; [lia|]. simpl.
  destruct (Nat.eqb_spec n k) as [->|Hne].
  - rewrite (csum_ext k _ (fun _ => RtoC 0)).
    + rewrite csum_zero. ring.
    + intros m Hm. destruct (Nat.eqb_spec m k); [lia|reflexivity].
  - rewrite IH by lia. ring.
Qed.

Lemma csum_shift : forall n f, csum (S n) f = Cplus (f O) (csum n (fun m => f (S m))).
Proof.
  induction n as [|n IH]; intros f; [simpl; ring|].
  change (csum (S (S n)) f) with (Cplus (csum (S n) f) (f (S n))). rewrite IH. simpl. ring.
Qed.
