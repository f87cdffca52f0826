(** The complex logarithm on the left half plane: a harmonic function with
    affine trace on circles, used in an example. *)
From Coq Require Import ZArith List Bool Reals Lra Lia Psatz.
From Coquelicot Require Import Coquelicot.
From Verif Require Import Spec_Ext Proof_Ext Proof_Ext2 Proof_Smooth.
Import ListNotations.
Open Scope R_scope.

Definition dplC (f : R -> R -> C) (x y : R) (a b : C) : Prop :=
  differentiable_pt_lim (fun u v => fst (f u v)) x y (fst a) (fst b) /\
  differentiable_pt_lim (fun u v => snd (f u v)) x y (snd a) (snd b).

Lemma dpl_prod : forall (f g : R -> R -> R) x y a b a' b', differentiable_pt_lim f x y a b -> differentiable_pt_lim g x y a' b' ->
  differentiable_pt_lim (fun u v => f u v * g u v) x y (g x y * a + f x y * a') (g x y * b + f x y * b').
Proof.
  intros f g x y a b a' b' Hf Hg.
  exact (differentiable_pt_lim_comp Rmult f g x y _ _ _ _ _ _ (dpl_mult _ _) Hf Hg).
Qed.

Lemma dpl_comp1 : forall (h : R -> R) (f : R -> R -> R) x y a b h', is_derive h (f x y) h' -> differentiable_pt_lim f x y a b ->
  differentiable_pt_lim (fun u v => h (f u v)) x y (h' * a) (h' * b).
Proof.
  intros h f x y a b h' Hh Hf. apply is_derive_Reals in Hh.
  eapply dpl_value; [exact (differentiable_pt_lim_comp (fun u _ => h u) f (fun _ _ => 0) x y h' 0 _ _ _ _
    (differentiable_pt_lim_proj1_0 h _ _ h' Hh) Hf (dpl_const 0 x y))| |]; ring.
Qed.

Lemma dplC_mult : forall f g x y a b a' b', dplC f x y a b -> dplC g x y a' b' ->
  dplC (fun u v => Cmult (f u v) (g u v)) x y
    (Cplus (Cmult (g x y) a) (Cmult (f x y) a')) (Cplus (Cmult (g x y) b) (Cmult (f x y) b')).
Proof.
  intros f g x y a b a' b' [F1 F2] [G1 G2].
  pose proof (dpl_prod _ _ _ _ _ _ _ _ F1 G1) as P1. pose proof (dpl_prod _ _ _ _ _ _ _ _ F2 G2) as P2.
  pose proof (dpl_prod _ _ _ _ _ _ _ _ F1 G2) as P3. pose proof (dpl_prod _ _ _ _ _ _ _ _ F2 G1) as P4.
  split.
  - eapply dpl_value; [eapply differentiable_pt_lim_ext; [|exact (dpl_sum _ _ _ _ _ _ _ _ P1 (dpl_scal (-1) _ _ _ _ _ P2))]| |];
      [exists (mkposreal 1 Rlt_0_1); intros u v _ _| |]; cbn; ring.
  - eapply dpl_value; [eapply differentiable_pt_lim_ext; [|exact (dpl_sum _ _ _ _ _ _ _ _ P3 P4)]| |];
      [exists (mkposreal 1 Rlt_0_1); intros u v _ _| |]; cbn; ring.
Qed.

Lemma dplC_value : forall f x y a b a' b', dplC f x y a b -> a = a' -> b = b' -> dplC f x y a' b'.
Proof. intros; subst; assumption. Qed.

Lemma dplC_const : forall c x y, dplC (fun _ _ => c) x y (RtoC 0) (RtoC 0).
Proof. intros. split; apply dpl_const. Qed.

Lemma dplC_ext : forall f g x y a b, (forall u v, f u v = g u v) -> dplC f x y a b -> dplC g x y a b.
Proof.
  intros f g x y a b E [H1 H2]. split; eapply differentiable_pt_lim_ext.
  - exists (mkposreal 1 Rlt_0_1). intros u v _ _. cbn. rewrite <- E. reflexivity.
  - exact H1.
  - exists (mkposreal 1 Rlt_0_1). intros u v _ _. cbn. rewrite <- E. reflexivity.
  - exact H2.
Qed.

Definition left_half (x y : R) : Prop := x < 0.
Lemma left_half_open : open2 left_half.
Proof.
  intros x y H. unfold left_half in H. exists (mkposreal (- x) ltac:(lra)). intros u v Hu _. cbn in Hu.
  unfold left_half. apply Rabs_def2 in Hu. lra.
Qed.

(** 1/z *)
Definition rec (x y : R) : C := (x * / (x * x + y * y), - y * / (x * x + y * y)).

Lemma dpl_x : forall x y, differentiable_pt_lim (fun u _ => u) x y 1 0.
Proof. intros. apply (differentiable_pt_lim_proj1_0 (fun u => u)). apply derivable_pt_lim_id. Qed.

Lemma dpl_q : forall x y, differentiable_pt_lim (fun u v => u * u + v * v) x y (2 * x) (2 * y).
Proof.
  intros. eapply dpl_value; [exact (dpl_sum _ _ _ _ _ _ _ _ (dpl_prod _ _ _ _ _ _ _ _ (dpl_x x y) (dpl_x x y))
    (dpl_prod _ _ _ _ _ _ _ _ (dpl_snd x y) (dpl_snd x y)))| |]; cbv beta; ring.
Qed.

Lemma is_derive_inv' : forall s, s <> 0 -> is_derive Rinv s (- / (s * s)).
Proof. intros s H. apply (is_derive_ext (fun t => / t)); [reflexivity|]. auto_derive; [exact H|field; exact H]. Qed.

Definition Ci' : C := (0, 1).

Lemma left_q : forall x y, left_half x y -> 0 < x * x + y * y.
Proof. intros x y H. unfold left_half in H. nra. Qed.

Lemma dplC_rec : forall x y, left_half x y ->
  dplC rec x y (Copp (Cmult (rec x y) (rec x y))) (Cmult Ci' (Copp (Cmult (rec x y) (rec x y)))).
Proof.
  intros x y H. pose proof (left_q x y H) as Hq.
  pose proof (dpl_comp1 Rinv _ x y _ _ _ (is_derive_inv' _ (Rgt_not_eq _ _ Hq)) (dpl_q x y)) as I.
  pose proof (dpl_prod _ _ _ _ _ _ _ _ (dpl_x x y) I) as P1.
  pose proof (dpl_scal (-1) _ _ _ _ _ (dpl_prod _ _ _ _ _ _ _ _ (dpl_snd x y) I)) as P2.
  split.
  - eapply dpl_value; [exact P1| |]; cbn; field; lra.
  - eapply dpl_value; [eapply differentiable_pt_lim_ext; [|exact P2]| |].
    + exists (mkposreal 1 Rlt_0_1). intros u v _ _. cbn. ring.
    + cbn. field. lra.
    + cbn. field. lra.
Qed.

Fixpoint Cpw (z : C) (n : nat) : C := match n with O => RtoC 1 | S n' => Cmult z (Cpw z n') end.

Lemma dplC_pw : forall n x y, left_half x y ->
  let d := Copp (Cmult (RtoC (INR n)) (Cpw (rec x y) (S n))) in
  dplC (fun u v => Cpw (rec u v) n) x y d (Cmult Ci' d).
Proof.
  induction n as [|n IH]; intros x y H d.
  - unfold d. cbn [Cpw INR]. destruct (dplC_const (RtoC 1) x y) as [A B].
    split; [eapply dpl_value; [exact A| |]|eapply dpl_value; [exact B| |]]; cbn; ring.
  - pose proof (dplC_mult _ _ _ _ _ _ _ _ (dplC_rec x y H) (IH x y H)) as P.
    assert (E1 : forall u v, Cmult (rec u v) (Cpw (rec u v) n) = Cpw (rec u v) (S n)) by reflexivity.
    unfold d. apply (dplC_value _ _ _ _ _ _ _ P); rewrite S_INR, RtoC_plus; cbn [Cpw]; ring.
Qed.

(** (-1)^n n! *)
Definition cf (n : nat) : C := RtoC ((-1) ^ n * INR (fact n)).
Fixpoint Ipow (j : nat) : C := match j with O => RtoC 1 | S j' => Cmult Ci' (Ipow j') end.

Definition logz (n : nat) (x y : R) : C :=
  match n with
  | O => (ln (x * x + y * y) / 2, PI + atan (y * / x))
  | S n' => Cmult (cf n') (Cpw (rec x y) n)
  end.

Lemma dplC_log : forall n x y, left_half x y -> dplC (logz n) x y (logz (S n) x y) (Cmult Ci' (logz (S n) x y)).
Proof.
  intros [|n] x y H.
  - pose proof (left_q x y H) as Hq. unfold left_half in H.
    assert (L : is_derive ln (x * x + y * y) (/ (x * x + y * y))).
    { apply is_derive_Reals. apply derivable_pt_lim_ln. exact Hq. }
    assert (Ix : is_derive Rinv x (- / (x * x))) by (apply is_derive_inv'; lra).
    pose proof (dpl_comp1 ln _ x y _ _ _ L (dpl_q x y)) as P1.
    pose proof (dpl_prod _ _ _ _ _ _ _ _ (dpl_snd x y) (dpl_comp1 Rinv (fun u _ => u) x y _ _ _ Ix (dpl_x x y))) as P2.
    assert (A : is_derive atan (y * / x) (/ (1 + (y * / x) ^ 2))).
    { apply is_derive_Reals. apply derivable_pt_lim_atan. }
    pose proof (dpl_comp1 atan (fun u v => v * / u) x y _ _ _ A P2) as P3.
    split.
    + eapply dpl_value; [eapply differentiable_pt_lim_ext; [|exact (dpl_scal (1 / 2) _ _ _ _ _ P1)]| |].
      * exists (mkposreal 1 Rlt_0_1). intros u v _ _. cbn. field.
      * cbn. field. lra.
      * cbn. field. lra.
    + eapply dpl_value; [exact (dpl_sum _ _ _ _ _ _ _ _ (dpl_const PI x y) P3)| |].
      * cbn. field. nra.
      * cbn. field. nra.
  - pose proof (dplC_mult _ _ _ _ _ _ _ _ (dplC_const (cf n) x y) (dplC_pw (S n) x y H)) as P.
    assert (E : cf (S n) = Copp (Cmult (cf n) (RtoC (INR (S n))))).
    { unfold cf. rewrite <- RtoC_mult, <- RtoC_opp. f_equal.
      change (fact (S n)) with (S n * fact n)%nat. rewrite mult_INR. cbn [pow]. ring. }
    apply (dplC_value _ _ _ _ _ _ _ P);
    cbn [logz]; rewrite E; cbn [Cpw]; ring.
Qed.

Definition logD (i j : nat) (x y : R) : C := Cmult (Ipow j) (logz (i + j) x y).

Lemma logD_partials : forall m, partials left_half m logD.
Proof.
  intros m i j x y _ H. unfold logD.
  pose proof (dplC_mult _ _ _ _ _ _ _ _ (dplC_const (Ipow j) x y) (dplC_log (i + j) x y H)) as P.
  replace (S i + j)%nat with (S (i + j)) by lia. replace (i + S j)%nat with (S (i + j)) by lia.
  apply (dplC_value _ _ _ _ _ _ _ P);
    cbn [Ipow]; ring.
Qed.

Lemma logD_harmonic : forall O, helmholtz O 0 logD (fun _ _ _ _ => RtoC 0).
Proof.
  intros O x y _. unfold logD. cbn [Ipow Nat.add]. replace (RtoC (0 ^ 2)) with (RtoC 0) by (f_equal; ring).
  set (w := logz 2 x y). apply injective_projections; unfold Ci', Cplus, Cmult, RtoC; cbn [fst snd]; ring.
Qed.

(** On the circle of radius [R0], for angles in the left half plane. *)
Lemma logD_trace : forall R0 t, 0 < R0 -> PI / 2 < t < 3 * (PI / 2) ->
  logD 0 0 (R0 * cos t) (R0 * sin t) = (ln R0, t) /\
  Cplus (Cmult (RtoC (cos t)) (logD 1 0 (R0 * cos t) (R0 * sin t)))
        (Cmult (RtoC (sin t)) (logD 0 1 (R0 * cos t) (R0 * sin t))) = RtoC (/ R0).
Proof.
  intros R0 t HR Ht. pose proof PI_RGT_0.
  assert (Hc : cos t < 0).
  { apply cos_lt_0; lra. }
  assert (E2 : R0 * cos t * (R0 * cos t) + R0 * sin t * (R0 * sin t) = R0 * R0).
  { pose proof (sin2_cos2 t) as S. unfold Rsqr in S.
    transitivity (R0 * R0 * (sin t * sin t + cos t * cos t)); [ring|rewrite S; ring]. }
  split.
  - unfold logD. cbn [Ipow Nat.add logz]. rewrite E2.
    rewrite ln_mult by lra.
    replace (R0 * sin t * / (R0 * cos t)) with (tan (t - PI)).
    2:{ unfold tan. replace (t - PI) with (- (PI - t)) by ring. rewrite sin_neg, cos_neg.
        rewrite sin_PI_x. replace (cos (PI - t)) with (- cos t).
        - field. split; lra.
        - rewrite cos_minus, cos_PI, sin_PI. ring. }
    rewrite atan_tan by lra. apply injective_projections; unfold Cmult, RtoC; cbn [fst snd]; field.
  - unfold logD. cbn [Ipow Nat.add logz Cpw]. unfold cf, rec. cbn [pow fact INR]. rewrite E2.
    pose proof (sin2_cos2 t) as S. unfold Rsqr in S.
    apply injective_projections; unfold Ci', Cplus, Cmult, RtoC; cbn [fst snd].
    + transitivity ((sin t * sin t + cos t * cos t) * / R0); [field; lra|rewrite S; ring].
    + field. lra.
Qed.
