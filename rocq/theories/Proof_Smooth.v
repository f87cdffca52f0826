(** Concrete smooth functions of the plane, used in the examples. *)
From Coq Require Import ZArith List Bool Reals Lra Lia Psatz.
From Coquelicot Require Import Coquelicot.
From Verif Require Import Spec_Ext Proof_Ext Proof_Ext2.
Import ListNotations.
Open Scope R_scope.

Lemma dpl_mult : forall x y, differentiable_pt_lim Rmult x y y x.
Proof.
  intros x y eps. exists eps. intros u v Hu Hv.
  replace (u * v - x * y - (y * (u - x) + x * (v - y))) with ((u - x) * (v - y)) by ring.
  rewrite Rabs_mult. destruct eps as [e He]. cbn in *.
  pose proof (Rabs_pos (u - x)). pose proof (Rabs_pos (v - y)).
  apply Rle_trans with (e * Rabs (v - y)); [apply Rmult_le_compat_r; lra|].
  apply Rmult_le_compat_l; [lra|apply Rmax_r].
Qed.

Lemma dpl_plus : forall x y, differentiable_pt_lim Rplus x y 1 1.
Proof.
  intros x y eps. exists eps. intros u v _ _.
  replace (u + v - (x + y) - (1 * (u - x) + 1 * (v - y))) with 0 by ring. rewrite Rabs_R0.
  destruct eps as [e He]. cbn. apply Rmult_le_pos; [lra|]. apply Rle_trans with (Rabs (u - x)); [apply Rabs_pos|apply Rmax_l].
Qed.

Lemma dpl_snd : forall x y, differentiable_pt_lim (fun _ v => v) x y 0 1.
Proof.
  intros x y eps. exists eps. intros u v _ _.
  replace (v - y - (0 * (u - x) + 1 * (v - y))) with 0 by ring. rewrite Rabs_R0.
  destruct eps as [e He]. cbn. apply Rmult_le_pos; [lra|]. apply Rle_trans with (Rabs (u - x)); [apply Rabs_pos|apply Rmax_l].
Qed.

Lemma dpl_const : forall c x y, differentiable_pt_lim (fun _ _ => c) x y 0 0.
Proof.
  intros c x y eps. exists eps. intros u v _ _.
  replace (c - c - (0 * (u - x) + 0 * (v - y))) with 0 by ring. rewrite Rabs_R0.
  destruct eps as [e He]. cbn. apply Rmult_le_pos; [lra|]. apply Rle_trans with (Rabs (u - x)); [apply Rabs_pos|apply Rmax_l].
Qed.

Lemma dpl_value : forall f x y a b a' b', differentiable_pt_lim f x y a b -> a = a' -> b = b' ->
  differentiable_pt_lim f x y a' b'.
Proof. intros; subst; assumption. Qed.

Lemma dpl_sep : forall (f g : R -> R) x y f' g', is_derive f x f' -> is_derive g y g' ->
  differentiable_pt_lim (fun u v => f u * g v) x y (f' * g y) (f x * g').
Proof.
  intros f g x y f' g' Hf Hg. apply is_derive_Reals in Hf. apply is_derive_Reals in Hg.
  pose proof (differentiable_pt_lim_proj1_0 f x y f' Hf) as H1.
  pose proof (differentiable_pt_lim_comp (fun u _ => g u) (fun _ v => v) (fun _ v => v) x y g' 0 0 1 0 1
    (differentiable_pt_lim_proj1_0 g y y g' Hg) (dpl_snd x y) (dpl_snd x y)) as H2.
  eapply dpl_value; [exact (differentiable_pt_lim_comp Rmult (fun u _ => f u) (fun _ v => g v) x y _ _ _ _ _ _ (dpl_mult _ _) H1 H2)| |]; ring.
Qed.

Lemma dpl_sum : forall (f g : R -> R -> R) x y a b a' b', differentiable_pt_lim f x y a b -> differentiable_pt_lim g x y a' b' ->
  differentiable_pt_lim (fun u v => f u v + g u v) x y (a + a') (b + b').
Proof.
  intros f g x y a b a' b' Hf Hg.
  eapply dpl_value; [exact (differentiable_pt_lim_comp Rplus f g x y _ _ _ _ _ _ (dpl_plus _ _) Hf Hg)| |]; ring.
Qed.

Lemma dpl_scal : forall c (f : R -> R -> R) x y a b, differentiable_pt_lim f x y a b ->
  differentiable_pt_lim (fun u v => c * f u v) x y (c * a) (c * b).
Proof.
  intros c f x y a b Hf.
  eapply dpl_value; [exact (differentiable_pt_lim_comp Rmult (fun _ _ => c) f x y _ _ _ _ _ _ (dpl_mult _ _) (dpl_const c x y) Hf)| |]; ring.
Qed.

(** Finite sums of products of functions of one variable; the families hold
    all derivatives. *)
Definition fam := nat -> R -> R.
Definition is_fam (f : fam) : Prop := forall i x, is_derive (f i) x (f (S i) x).
Definition sep_sum := list (C * fam * fam).

Fixpoint sep (l : sep_sum) (i j : nat) (x y : R) : C :=
  match l with
  | [] => RtoC 0
  | (c, f, g) :: l' => Cplus (fst c * (f i x * g j y), snd c * (f i x * g j y)) (sep l' i j x y)
  end.

Lemma sep_partials : forall l, (forall c f g, In (c, f, g) l -> is_fam f /\ is_fam g) ->
  forall O m, partials O m (sep l).
Proof.
  intros l Hl O m i j x y _ _. induction l as [|[[c f] g] l IH].
  - cbn [sep]. split; apply dpl_const.
  - destruct IH as [I1 I2]; [intros c' f' g' H; apply (Hl c' f' g'); right; exact H|].
    destruct (Hl c f g (or_introl eq_refl)) as [Hf Hg].
    pose proof (dpl_sep (f i) (g j) x y _ _ (Hf i x) (Hg j y)) as Hp.
    cbn [sep]. unfold Cplus. cbn [fst snd]. split; apply dpl_sum; try assumption; apply dpl_scal; exact Hp.
Qed.

(** Monomials. *)
Fixpoint mono_ce (n i : nat) : R * nat :=
  match i with
  | O => (1, n)
  | S i' => let '(c, e) := mono_ce n i' in (c * INR e, pred e)
  end.
Definition mono (n : nat) : fam := fun i x => fst (mono_ce n i) * x ^ snd (mono_ce n i).

Lemma mono_fam : forall n, is_fam (mono n).
Proof.
  intros n i x. unfold mono. cbn [mono_ce]. destruct (mono_ce n i) as [c e]. cbn [fst snd].
  auto_derive; [exact I|]. ring.
Qed.

(** Cosines and sines. *)
Definition cosf (w : R) : fam := fun i x => w ^ i * cos (w * x + INR i * (PI / 2)).
Definition sinf (w : R) : fam := fun i x => w ^ i * sin (w * x + INR i * (PI / 2)).

Lemma cosf_fam : forall w, is_fam (cosf w).
Proof.
  intros w i x. unfold cosf. rewrite S_INR.
  replace (w * x + (INR i + 1) * (PI / 2)) with (PI / 2 + (w * x + INR i * (PI / 2))) by ring.
  rewrite <- Ropp_involutive with (r := cos (PI / 2 + _)), <- sin_cos.
  auto_derive; [exact I|]. cbn [pow]. ring.
Qed.

Lemma sinf_fam : forall w, is_fam (sinf w).
Proof.
  intros w i x. unfold sinf. rewrite S_INR.
  replace (w * x + (INR i + 1) * (PI / 2)) with (PI / 2 + (w * x + INR i * (PI / 2))) by ring.
  rewrite <- cos_sin. auto_derive; [exact I|]. cbn [pow]. ring.
Qed.

Definition everywhere (x y : R) : Prop := True.
Lemma everywhere_open : open2 everywhere.
Proof. intros x y _. exists (mkposreal 1 Rlt_0_1). intros u v _ _. exact I. Qed.

(** The plane wave exp(i k (x cos b + y sin b)) with b = 0 or b general. *)
Definition wave (k p q : R) : sep_sum :=
  [((1, 0), cosf (k * p), cosf (k * q)); ((-1, 0), sinf (k * p), sinf (k * q));
   ((0, 1), sinf (k * p), cosf (k * q)); ((0, 1), cosf (k * p), sinf (k * q))].

Lemma wave_partials : forall k p q O m, partials O m (sep (wave k p q)).
Proof.
  intros k p q. apply sep_partials. intros c f g H. unfold wave in H. cbn [In] in H.
  repeat (destruct H as [H|H]; [injection H as <- <- <-; split; (apply cosf_fam || apply sinf_fam)|]). destruct H.
Qed.

Lemma wave_helmholtz : forall k p q O, p ^ 2 + q ^ 2 = 1 -> helmholtz O k (sep (wave k p q)) (fun _ _ _ _ => RtoC 0).
Proof.
  intros k p q O H x y _. unfold wave. cbn [sep].
  assert (C2 : forall w z, cosf w 2%nat z = - w ^ 2 * cosf w 0%nat z).
  { intros w z. unfold cosf. replace (INR 2) with 2 by (cbn; ring). replace (INR 0) with 0 by reflexivity.
    replace (w * z + 2 * (PI / 2)) with (w * z + PI) by field. rewrite neg_cos.
    replace (w * z + 0 * (PI / 2)) with (w * z) by ring. ring. }
  assert (S2 : forall w z, sinf w 2%nat z = - w ^ 2 * sinf w 0%nat z).
  { intros w z. unfold sinf. replace (INR 2) with 2 by (cbn; ring). replace (INR 0) with 0 by reflexivity.
    replace (w * z + 2 * (PI / 2)) with (w * z + PI) by field. rewrite neg_sin.
    replace (w * z + 0 * (PI / 2)) with (w * z) by ring. ring. }
  rewrite !C2, !S2.
  apply injective_projections; unfold Cplus, Cmult, RtoC; cbn [fst snd];
    set (a1 := cosf (k * p) 0%nat x); set (a2 := cosf (k * q) 0%nat y); set (a3 := sinf (k * p) 0%nat x); set (a4 := sinf (k * q) 0%nat y).
  - transitivity (k ^ 2 * (1 - (p ^ 2 + q ^ 2)) * (a1 * a2 - a3 * a4)); [ring|rewrite H; ring].
  - transitivity (k ^ 2 * (1 - (p ^ 2 + q ^ 2)) * (a3 * a2 + a1 * a4)); [ring|rewrite H; ring].
Qed.

(** It is not constant: its value at the origin is 1 and its x-derivative i k p. *)
Lemma wave_origin : forall k p q, sep (wave k p q) 0%nat 0%nat 0 0 = RtoC 1 /\ sep (wave k p q) 1%nat 0%nat 0 0 = (0, k * p).
Proof.
  intros k p q. unfold wave, cosf, sinf. cbn [sep]. replace (INR 1) with 1 by reflexivity. replace (INR 0) with 0 by reflexivity.
  rewrite !Rmult_0_r, !Rmult_0_l, !Rmult_1_l, !Rplus_0_l, cos_0, sin_0, cos_PI2, sin_PI2.
  split; apply injective_projections; unfold Cplus, RtoC; cbn [fst snd]; ring.
Qed.

(** The unit circle. *)
Lemma circle_unit : forall lo hi, unit_curve lo hi cos sin (fun s => - sin s) cos (fun _ => -1).
Proof.
  intros lo hi s _.
  assert (Dc : is_derive cos s (- sin s)) by (apply is_derive_Reals; apply derivable_pt_lim_cos).
  assert (Ds : is_derive sin s (cos s)) by (apply is_derive_Reals; apply derivable_pt_lim_sin).
  split; [exact Dc|]. split; [exact Ds|]. split; [|split; [|split; [|split]]].
  - pose proof (sin2_cos2 s). unfold Rsqr in *. lra.
  - auto_derive; [exact I|ring].
  - replace (- (-1 * - sin s)) with (- sin s) by ring. exact Dc.
  - auto_derive; exact I.
  - apply (ex_derive_ext (fun _ => 0)); [intros t; symmetry; apply Derive_const|]. auto_derive; exact I.
Qed.

(** (x^2 + y^2 - 1)^2 has zero Cauchy data on it. *)
Definition bump : sep_sum :=
  [(RtoC 1, mono 4, mono 0); (RtoC 2, mono 2, mono 2); (RtoC 1, mono 0, mono 4);
   (RtoC (-2), mono 2, mono 0); (RtoC (-2), mono 0, mono 2); (RtoC 1, mono 0, mono 0)].

Lemma bump_partials : forall O m, partials O m (sep bump).
Proof.
  apply sep_partials. intros c f g H. unfold bump in H. cbn [In] in H.
  repeat (destruct H as [H|H]; [injection H as <- <- <-; split; apply mono_fam|]). destruct H.
Qed.

(** Its source. *)
Definition bump_source (k : R) : sep_sum :=
  [(RtoC 16, mono 2, mono 0); (RtoC 16, mono 0, mono 2); (RtoC (-8), mono 0, mono 0)] ++
  map (fun t => ((k ^ 2 * fst (fst (fst t)), k ^ 2 * snd (fst (fst t))), snd (fst t), snd t)) bump.

Lemma bump_source_partials : forall k O m, partials O m (sep (bump_source k)).
Proof.
  intros k. apply sep_partials. intros c f g H. unfold bump_source, bump in H. cbn [map app In fst snd] in H.
  repeat (destruct H as [H|H]; [injection H as <- <- <-; split; apply mono_fam|]). destruct H.
Qed.

Lemma bump_helmholtz : forall k O, helmholtz O k (sep bump) (sep (bump_source k)).
Proof.
  intros k O x y _. unfold bump_source, bump. cbn [app map sep fst snd]. unfold mono. cbn [mono_ce fst snd pred pow INR].
  apply injective_projections; unfold Cplus, Cmult, RtoC; cbn [fst snd]; ring.
Qed.

Lemma bump_traces : forall s, trace0 (sep bump) cos sin s = RtoC 0 /\
  trace1 (sep bump) cos sin (fun s => - sin s) cos s = RtoC 0.
Proof.
  intros s. pose proof (sin2_cos2 s) as H. unfold Rsqr in H.
  assert (E : sin s * sin s = 1 - cos s * cos s) by lra.
  unfold trace0, trace1, bump. cbn [sep]. unfold mono. cbn [mono_ce fst snd pred pow INR].
  set (c := cos s) in *. set (z := sin s) in *.
  split; apply injective_projections; unfold Cplus, Cmult, RtoC; cbn [fst snd].
  - transitivity ((c * c + z * z - 1) * (c * c + z * z - 1)); [ring|rewrite E; ring].
  - ring.
  - transitivity (4 * (c * c + z * z) * (c * c + z * z - 1)); [ring|rewrite E; ring].
  - ring.
Qed.
