(** Functions of one real variable with [n] derivatives on the whole line. *)
From Coq Require Import ZArith List Reals Lia Lra.
From Coquelicot Require Import Coquelicot.
Import ListNotations.
Open Scope R_scope.

(** [f] is continuous, and so are its derivatives up to order [n]. *)
Fixpoint sm (n : nat) (f : R -> R) : Prop :=
  match n with
  | O => forall t, continuous f t
  | S m => exists f' : R -> R, (forall t, is_derive f t (f' t)) /\ sm m f'
  end.

Lemma sm_ext : forall n f g, (forall t, f t = g t) -> sm n f -> sm n g.
Proof.
  intros [|n] f g E; cbn [sm].
  - intros H t. apply (continuous_ext f); [exact E|apply H].
  - intros (f' & H & K). exists f'. split; [|exact K]. intros t. apply (is_derive_ext f); [exact E|apply H].
Qed.

Lemma sm_cont : forall n f, sm n f -> forall t, continuous f t.
Proof.
  intros [|n] f H t; [apply H|]. destruct H as (f1 & H & _). apply (@ex_derive_continuous R_AbsRing R_NormedModule f t). exists (f1 t). apply H.
Qed.

Lemma sm_pred : forall n f, sm (S n) f -> sm n f.
Proof.
  induction n as [|n IH]; intros f H.
  - intros t. apply (sm_cont 1 f H).
  - destruct H as (f' & H & K). exists f'. split; [exact H|]. apply IH, K.
Qed.

Lemma sm_le : forall m n f, (m <= n)%nat -> sm n f -> sm m f.
Proof. intros m n f H. induction H as [|n H IH]; [auto|]. intros K. apply IH, sm_pred, K. Qed.

Lemma sm_const : forall n c, sm n (fun _ => c).
Proof.
  induction n as [|n IH]; intros c; cbn [sm].
  - intros t. apply continuous_const.
  - exists (fun _ => 0). split; [|apply IH]. intros t. apply (is_derive_const c).
Qed.

Lemma sm_id : forall n, sm n (fun t => t).
Proof.
  intros [|n]; cbn [sm]; [intros t; apply continuous_id|]. exists (fun _ => 1). split; [|apply sm_const].
  intros t. apply (is_derive_id t).
Qed.

Lemma sm_plus : forall n f g, sm n f -> sm n g -> sm n (fun t => f t + g t).
Proof.
  induction n as [|n IH]; intros f g; cbn [sm].
  - intros H K t. apply (continuous_plus f g t (H t) (K t)).
  - intros (f' & H & H2) (g' & K & K2). exists (fun t => f' t + g' t). split; [|apply IH; assumption].
    intros t. apply (is_derive_plus f g t (f' t) (g' t) (H t) (K t)).
Qed.

Lemma sm_mult : forall n f g, sm n f -> sm n g -> sm n (fun t => f t * g t).
Proof.
  induction n as [|n IH]; intros f g.
  - cbn [sm]. intros H K t. apply (continuous_mult f g t (H t) (K t)).
  - intros Hf Hg. pose proof (sm_pred _ _ Hf) as Pf. pose proof (sm_pred _ _ Hg) as Pg.
    destruct Hf as (f' & H & H2). destruct Hg as (g' & K & K2). exists (fun t => f' t * g t + f t * g' t). split.
    + intros t. apply (is_derive_mult f g t (f' t) (g' t) (H t) (K t)). intros u v. apply Rmult_comm.
    + apply sm_plus; apply IH; assumption.
Qed.

Lemma sm_scal : forall n c f, sm n f -> sm n (fun t => c * f t).
Proof. intros n c f H. apply sm_mult; [apply sm_const|exact H]. Qed.

Lemma sm_opp : forall n f, sm n f -> sm n (fun t => - f t).
Proof. intros n f H. apply (sm_ext n (fun t => -1 * f t)); [intros; ring|]. apply sm_scal, H. Qed.

Lemma sm_minus : forall n f g, sm n f -> sm n g -> sm n (fun t => f t - g t).
Proof. intros n f g H K. apply (sm_ext n (fun t => f t + - g t)); [intros; ring|]. apply sm_plus; [exact H|]. apply sm_opp, K. Qed.

Lemma sm_pow : forall n m f, sm n f -> sm n (fun t => f t ^ m).
Proof. intros n m f H. induction m as [|m IH]; cbn [pow]; [apply sm_const|]. apply sm_mult; assumption. Qed.

Lemma sm_sincos : forall n f, sm n f -> sm n (fun t => sin (f t)) /\ sm n (fun t => cos (f t)).
Proof.
  induction n as [|n IH]; intros f Hf.
  - cbn [sm] in *. split; intros t; apply continuous_comp; auto.
    + apply (@ex_derive_continuous R_AbsRing R_NormedModule sin). eexists; apply is_derive_sin.
    + apply (@ex_derive_continuous R_AbsRing R_NormedModule cos). eexists; apply is_derive_cos.
  - destruct (IH f (sm_pred _ _ Hf)) as [S C]. destruct Hf as (f' & H & H2). split.
    + exists (fun t => f' t * cos (f t)). split; [|apply sm_mult; assumption]. intros t.
      apply (is_derive_comp sin f t (cos (f t)) (f' t)); [apply is_derive_sin|apply H].
    + exists (fun t => f' t * - sin (f t)). split; [|apply sm_mult; [assumption|apply sm_opp; assumption]]. intros t.
      apply (is_derive_comp cos f t (- sin (f t)) (f' t)); [apply is_derive_cos|apply H].
Qed.

Lemma sm_inv : forall n f, (forall t, f t <> 0) -> sm n f -> sm n (fun t => / f t).
Proof.
  intros n f Hz. induction n as [|n IH]; intros Hf.
  - cbn [sm] in *. intros t. apply continuous_comp; auto. apply (@ex_derive_continuous R_AbsRing R_NormedModule Rinv). auto_derive. apply Hz.
  - pose proof (IH (sm_pred _ _ Hf)) as K. destruct Hf as (f' & H & H2).
    exists (fun t => - f' t * (/ f t) ^ 2). split.
    + intros t. eapply is_derive_ext_loc; [apply filter_forall; intros u; reflexivity|].
      replace (- f' t * (/ f t) ^ 2) with (- f' t / f t ^ 2) by (field; apply Hz). apply is_derive_inv; [apply H|apply Hz].
    + apply sm_mult; [apply sm_opp; assumption|]. apply sm_pow; assumption.
Qed.

Lemma sm_div : forall n f g, (forall t, g t <> 0) -> sm n f -> sm n g -> sm n (fun t => f t / g t).
Proof. intros n f g Hz H K. unfold Rdiv. apply sm_mult; [exact H|]. apply sm_inv; assumption. Qed.

Lemma sm_sqrt : forall n f, (forall t, 0 < f t) -> sm n f -> sm n (fun t => sqrt (f t)).
Proof.
  intros n f Hp. assert (Hz : forall t, 2 * sqrt (f t) <> 0).
  { intros t. pose proof (sqrt_lt_R0 _ (Hp t)). lra. }
  induction n as [|n IH]; intros Hf.
  - cbn [sm] in *. intros t. apply continuous_comp; auto. apply continuous_sqrt.
  - pose proof (IH (sm_pred _ _ Hf)) as K. destruct Hf as (f' & H & H2).
    exists (fun t => f' t / (2 * sqrt (f t))). split.
    + intros t. apply is_derive_sqrt; [apply H|apply Hp].
    + apply sm_div; [exact Hz|assumption|]. apply sm_scal; assumption.
Qed.

Lemma sm_Derive : forall n f, sm (S n) f -> (forall t, is_derive f t (Derive f t)) /\ sm n (Derive f).
Proof.
  intros n f (f' & H & K). assert (E : forall t, Derive f t = f' t) by (intros t; apply is_derive_unique, H). split.
  - intros t. rewrite E. apply H.
  - apply (sm_ext n f'); [intros; symmetry; apply E|exact K].
Qed.

Lemma sm_Derive_n : forall l n f, sm (l + n) f -> sm n (Derive_n f l).
Proof.
  induction l as [|l IH]; intros n f H; [apply (sm_ext n f); [reflexivity|exact H]|].
  cbn [Derive_n]. apply sm_Derive. apply (IH (S n)). replace (l + S n)%nat with (S l + n)%nat by lia. exact H.
Qed.

Lemma sm_ex_derive : forall l n f t, sm n f -> (l < n)%nat -> ex_derive (Derive_n f l) t.
Proof.
  intros l n f t H Hl. assert (K : sm 1 (Derive_n f l)) by (apply sm_Derive_n; apply (sm_le _ n); [lia|exact H]).
  destruct K as (f' & K & _). exists (f' t). apply K.
Qed.

Lemma sm_bounded : forall n f lo hi, sm n f -> exists B, 0 <= B /\ forall t, lo <= t <= hi -> Rabs (f t) <= B.
Proof.
  intros n f lo hi Hf. destruct (Rle_lt_dec lo hi) as [L|L]; [|exists 0; split; [lra|intros; lra]].
  destruct (continuity_ab_maj (fun t => Rabs (f t)) lo hi L) as (m & Hm & _).
  { intros t _. apply continuity_pt_filterlim. apply (continuous_comp f Rabs); [apply (sm_cont n f Hf)|apply continuous_Rabs]. }
  exists (Rabs (f m)). split; [apply Rabs_pos|]. intros t Ht. apply Hm, Ht.
Qed.
