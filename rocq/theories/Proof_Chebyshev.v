(** Chebyshev derivatives and roots. *)
From Coq Require Import ZArith List Bool Reals Lia Lra Sorted.
From Coquelicot Require Import Coquelicot.
From Verif Require Import Model_Py Model_Chebyshev.
Import ListNotations.
Open Scope R_scope.

Lemma one_minus_sq_pos : forall t, -1 < t < 1 -> 0 < - t ^ 2 + 1.
Proof. intros t H. nra. Qed.

(** Powers of half-integers. *)
Lemma Rpower_half : forall x (p : nat), 0 < x ->
  Rpower x (INR p / 2) = sqrt x ^ p.
Proof.
  intros x p Hx. rewrite <- Rpower_sqrt by assumption.
  rewrite <- (Rpower_pow p) by (unfold Rpower; apply exp_pos).
  rewrite Rpower_mult. f_equal. field.
Qed.

Lemma half_powers : forall x, 0 < x ->
  Rpower x (3 / 2) = sqrt x ^ 3 /\ Rpower x (5 / 2) = sqrt x ^ 5 /\
  Rpower x (7 / 2) = sqrt x ^ 7 /\ Rpower x (9 / 2) = sqrt x ^ 9.
Proof.
  intros x Hx. pose proof (Rpower_half x 3 Hx) as H3. pose proof (Rpower_half x 5 Hx) as H5.
  pose proof (Rpower_half x 7 Hx) as H7. pose proof (Rpower_half x 9 Hx) as H9.
  rewrite INR_IZR_INZ in H3, H5, H7, H9. simpl Z.of_nat in *. auto.
Qed.

Section Deriv.
Context (J : nat).

Let Sf (t : R) := sin (INR J * acos t).
Let Cf (t : R) := cos (INR J * acos t).
Let Wf (t : R) := sqrt (- t ^ 2 + 1).

Lemma W_pos : forall t, -1 < t < 1 -> 0 < Wf t.
Proof. intros t H. apply sqrt_lt_R0. apply one_minus_sq_pos. assumption. Qed.

Lemma W_sq : forall t, -1 < t < 1 -> Wf t ^ 2 = 1 - t ^ 2.
Proof.
  intros t H. unfold Wf. rewrite pow2_sqrt by (apply Rlt_le, one_minus_sq_pos; assumption). ring.
Qed.

Lemma acos_derive : forall t, -1 < t < 1 -> is_derive acos t (- / Wf t).
Proof.
  intros t H. apply is_derive_Reals. pose proof (derive_pt_acos t H) as D.
  apply derive_pt_eq_1 in D.
  replace (- / Wf t) with (-1 / sqrt (1 - t²)); [exact D|].
  unfold Wf, Rdiv. replace (1 - t²) with (- t ^ 2 + 1) by (unfold Rsqr; ring). ring.
Qed.

Lemma S_derive : forall t, -1 < t < 1 -> is_derive Sf t (- INR J * Cf t / Wf t).
Proof.
  intros t H. unfold Sf.
  apply (is_derive_ext (fun t => sin (INR J * acos t))); [reflexivity|].
  evar_last.
  - apply (is_derive_comp sin (fun t => INR J * acos t)).
    + apply is_derive_Reals. apply derivable_pt_lim_sin.
    + apply is_derive_scal. apply acos_derive. assumption.
  - unfold Cf. unfold scal; simpl; unfold mult; simpl. field. apply Rgt_not_eq, W_pos; assumption.
Qed.

Lemma C_derive : forall t, -1 < t < 1 -> is_derive Cf t (INR J * Sf t / Wf t).
Proof.
  intros t H. unfold Cf. evar_last.
  - apply (is_derive_comp cos (fun t => INR J * acos t)).
    + apply is_derive_Reals. apply derivable_pt_lim_cos.
    + apply is_derive_scal. apply acos_derive. assumption.
  - unfold Sf. unfold scal; simpl; unfold mult; simpl. field. apply Rgt_not_eq, W_pos; assumption.
Qed.

Lemma W_derive : forall t, -1 < t < 1 -> is_derive Wf t (- t / Wf t).
Proof.
  intros t H. unfold Wf. pose proof (one_minus_sq_pos t H). pose proof (W_pos t H).
  auto_derive; [lra|]. unfold Wf in *.
  match goal with |- context [sqrt ?x] => replace x with (- t ^ 2 + 1) by ring end.
  match goal with |- context [sqrt ?x] => generalize dependent (sqrt x) end.
  intros w Hw. field. lra.
Qed.

Lemma interval_locally : forall t, -1 < t < 1 -> locally t (fun u => -1 < u < 1).
Proof.
  intros t [H1 H2]. assert (He : 0 < Rmin (t + 1) (1 - t)) by (apply Rmin_pos; lra).
  exists (mkposreal _ He). intros u Hu. unfold ball in Hu. simpl in Hu.
  unfold AbsRing_ball, abs, minus, plus, opp in Hu. simpl in Hu.
  apply Rabs_def2 in Hu. pose proof (Rmin_l (t + 1) (1 - t)). pose proof (Rmin_r (t + 1) (1 - t)).
  lra.
Qed.

(** The formulas in terms of S, C, W. *)
Let d1 t := INR J * Sf t / Wf t.
Let d2 t := INR J * (- INR J * Cf t / Wf t ^ 2 + t * Sf t / Wf t ^ 3).
Let d3 t := INR J * (- INR J ^ 2 * Sf t / Wf t ^ 3 - 3 * INR J * t * Cf t / Wf t ^ 4
  + 3 * t ^ 2 * Sf t / Wf t ^ 5 + Sf t / Wf t ^ 3).
Let d4 t := INR J * (INR J ^ 3 * Cf t / Wf t ^ 4 - 6 * INR J ^ 2 * t * Sf t / Wf t ^ 5
  - 15 * INR J * t ^ 2 * Cf t / Wf t ^ 6 - 4 * INR J * Cf t / Wf t ^ 4
  + 15 * t ^ 3 * Sf t / Wf t ^ 7 + 9 * t * Sf t / Wf t ^ 5).
Let d5 t := INR J * (INR J ^ 4 * Sf t / Wf t ^ 5 + 10 * INR J ^ 3 * t * Cf t / Wf t ^ 6
  - 45 * INR J ^ 2 * t ^ 2 * Sf t / Wf t ^ 7 - 10 * INR J ^ 2 * Sf t / Wf t ^ 5
  - 105 * INR J * t ^ 3 * Cf t / Wf t ^ 8 - 55 * INR J * t * Cf t / Wf t ^ 6
  + 105 * t ^ 4 * Sf t / Wf t ^ 9 + 90 * t ^ 2 * Sf t / Wf t ^ 7 + 9 * Sf t / Wf t ^ 5).

Lemma forms : forall t, -1 < t < 1 ->
  eval_T J t = Cf t /\ eval_d_T_t J t = d1 t /\ eval_d2_T_t J t = d2 t /\
  eval_d3_T_t J t = d3 t /\ eval_d4_T_t J t = d4 t /\ eval_d5_T_t J t = d5 t.
Proof.
  intros t H. pose proof (one_minus_sq_pos t H) as Hp. pose proof (W_pos t H) as HW.
  destruct (half_powers _ Hp) as (H3 & H5 & H7 & H9).
  unfold eval_T, eval_d_T_t, eval_d2_T_t, eval_d3_T_t, eval_d4_T_t, eval_d5_T_t.
  rewrite H3, H5, H7, H9. fold (Wf t) (Sf t) (Cf t).
  assert (E : t ^ 2 - 1 = - Wf t ^ 2) by (rewrite W_sq by assumption; ring).
  rewrite E. unfold d1, d2, d3, d4, d5.
  split; [reflexivity|]. split; [reflexivity|].
  repeat split; field; apply Rgt_not_eq; assumption.
Qed.

Lemma T_derive : forall t, -1 < t < 1 -> is_derive (eval_T J) t (eval_d_T_t J t).
Proof.
  intros t H. destruct (forms t H) as (_ & -> & _).
  apply (is_derive_ext Cf); [reflexivity|]. unfold d1. apply C_derive. assumption.
Qed.

Lemma derive_transfer : forall (f g : R -> R) t l, -1 < t < 1 ->
  (forall u, -1 < u < 1 -> f u = g u) -> is_derive g t l -> is_derive f t l.
Proof.
  intros f g t l H E D. eapply is_derive_ext_loc; [|exact D].
  eapply filter_imp; [|apply interval_locally; exact H]. intros u Hu. symmetry. apply E. assumption.
Qed.

Ltac derive_tac t H df df' :=
  let HW := fresh in let HW2 := fresh in let ES := fresh in let EC := fresh in let EW := fresh in
  pose proof (W_pos t H) as HW; pose proof (W_sq t H) as HW2;
  pose proof (S_derive t H) as ES; pose proof (C_derive t H) as EC; pose proof (W_derive t H) as EW;
  unfold df; auto_derive;
  [ repeat split; try (eexists; eassumption);
    apply Rgt_not_eq; repeat apply Rmult_lt_0_compat; solve [assumption | lra]
  | replace (Derive (fun x => Sf x) t) with (- INR J * Cf t / Wf t) by (symmetry; apply is_derive_unique; exact ES);
    replace (Derive (fun x => Cf x) t) with (INR J * Sf t / Wf t) by (symmetry; apply is_derive_unique; exact EC);
    replace (Derive (fun x => Wf x) t) with (- t / Wf t) by (symmetry; apply is_derive_unique; exact EW);
    unfold df'; field_simplify_eq; [|apply Rgt_not_eq; assumption];
    clear ES EC EW; revert HW HW2;
    generalize (Sf t) (Cf t) (Wf t) (INR J);
    intros s c w j _ Hw; ring [Hw] ].

Lemma d1_derive : forall t, -1 < t < 1 -> is_derive d1 t (d2 t).
Proof. intros t H. derive_tac t H d1 d2. Qed.

Lemma d2_derive : forall t, -1 < t < 1 -> is_derive d2 t (d3 t).
Proof. intros t H. derive_tac t H d2 d3. Qed.

Lemma d3_derive : forall t, -1 < t < 1 -> is_derive d3 t (d4 t).
Proof. intros t H. derive_tac t H d3 d4. Qed.

Lemma d4_derive : forall t, -1 < t < 1 -> is_derive d4 t (d5 t).
Proof. intros t H. derive_tac t H d4 d5. Qed.

End Deriv.
