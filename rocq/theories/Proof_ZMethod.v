(** The correction q and the source f1. *)
From Coq Require Import String ZArith List Bool Reals Lia Lra.
From Coquelicot Require Import Coquelicot.
From Verif Require Import Model_Py Model_Grid Model_Fourier Model_Domain Model_Abcoef Model_ZMethod
  Lib_Csum Proof_Consist Spec_Fd Spec_PolarFD.
Import ListNotations.
Open Scope R_scope.

(** The correction in th for fixed r, with its first two derivatives. *)
Definition pd1 (x : R) : R := 30 * x ^ 2 - 60 * x ^ 3 + 30 * x ^ 4.
Definition pd2 (x : R) : R := 60 * x - 180 * x ^ 2 + 120 * x ^ 3.
Definition qx (A B a D th : R) : R :=
  A * (th - a) ^ 2 * zm_p ((a - th) / D + 1) + B * (th - 2 * PI) ^ 2 * zm_p ((th - 2 * PI) / D + 1).
Definition qx1 (A B a D th : R) : R :=
  A * (2 * (th - a) * zm_p ((a - th) / D + 1) - (th - a) ^ 2 * pd1 ((a - th) / D + 1) / D)
  + B * (2 * (th - 2 * PI) * zm_p ((th - 2 * PI) / D + 1)
         + (th - 2 * PI) ^ 2 * pd1 ((th - 2 * PI) / D + 1) / D).
Definition qx2 (A B a D th : R) : R :=
  A * (2 * zm_p ((a - th) / D + 1) - 4 * (th - a) * pd1 ((a - th) / D + 1) / D
       + (th - a) ^ 2 * pd2 ((a - th) / D + 1) / D ^ 2)
  + B * (2 * zm_p ((th - 2 * PI) / D + 1) + 4 * (th - 2 * PI) * pd1 ((th - 2 * PI) / D + 1) / D
         + (th - 2 * PI) ^ 2 * pd2 ((th - 2 * PI) / D + 1) / D ^ 2).

Lemma qx_derive : forall A B a D th, D <> 0 -> is_derive (qx A B a D) th (qx1 A B a D th).
Proof.
  intros A B a D th HD. unfold qx, qx1, zm_p, pd1. auto_derive; [exact I|]. field. assumption.
Qed.
Lemma qx1_derive : forall A B a D th, D <> 0 -> is_derive (qx1 A B a D) th (qx2 A B a D th).
Proof.
  intros A B a D th HD. unfold qx1, qx2, zm_p, pd1, pd2. auto_derive; [exact I|]. field. assumption.
Qed.

Lemma zm_q_eq : forall k a g r th,
  zm_q k a g r th =
  qx (r ^ 2 * 1 / 2 * zm_f0 k g r a) (r ^ 2 * 1 / 2 * zm_f0 k g r (2 * PI)) a (2 * PI - a) th.
Proof. intros. unfold zm_q, zm_q1, zm_q2, qx. ring. Qed.

Lemma qx_edges : forall A B a, 2 * PI - a <> 0 ->
  let D := 2 * PI - a in
  qx A B a D a = 0 /\ qx A B a D (2 * PI) = 0 /\
  qx1 A B a D a = 0 /\ qx1 A B a D (2 * PI) = 0 /\
  qx2 A B a D a = 2 * A /\ qx2 A B a D (2 * PI) = 2 * B.
Proof.
  intros A B a HD D. unfold qx, qx1, qx2, zm_p, pd1, pd2.
  assert (E1 : (a - a) / D + 1 = 1) by (unfold D; field; assumption).
  assert (E2 : (a - 2 * PI) / D + 1 = 0) by (unfold D; field; assumption).
  assert (E3 : (2 * PI - 2 * PI) / D + 1 = 1) by (unfold D; field; assumption).
  rewrite E1, E2, E3.
  repeat split; unfold D; field; assumption.
Qed.

Lemma zm_q_edges : forall k a g r, 2 * PI - a <> 0 ->
  zm_q k a g r a = 0 /\ zm_q k a g r (2 * PI) = 0 /\
  is_derive (fun th => zm_q k a g r th) a 0 /\
  is_derive (fun th => zm_q k a g r th) (2 * PI) 0.
Proof.
  intros k a g r HD.
  destruct (qx_edges (r ^ 2 * 1 / 2 * zm_f0 k g r a) (r ^ 2 * 1 / 2 * zm_f0 k g r (2 * PI)) a HD)
    as [E1 [E2 [E3 [E4 _]]]].
  rewrite !zm_q_eq. split; [exact E1|]. split; [exact E2|]. split.
  - apply (is_derive_ext (qx (r ^ 2 * 1 / 2 * zm_f0 k g r a) (r ^ 2 * 1 / 2 * zm_f0 k g r (2 * PI)) a (2 * PI - a)));
      [intros t; symmetry; apply zm_q_eq|].
    rewrite <- E3. apply qx_derive. exact HD.
  - apply (is_derive_ext (qx (r ^ 2 * 1 / 2 * zm_f0 k g r a) (r ^ 2 * 1 / 2 * zm_f0 k g r (2 * PI)) a (2 * PI - a)));
      [intros t; symmetry; apply zm_q_eq|].
    rewrite <- E4. apply qx_derive. exact HD.
Qed.

Lemma zm_q_th1 : forall k a g r th, 2 * PI - a <> 0 ->
  diff_th (zm_q k a g) r th =
  qx1 (r ^ 2 * 1 / 2 * zm_f0 k g r a) (r ^ 2 * 1 / 2 * zm_f0 k g r (2 * PI)) a (2 * PI - a) th.
Proof.
  intros k a g r th HD. unfold diff_th. apply is_derive_unique.
  apply (is_derive_ext (qx (r ^ 2 * 1 / 2 * zm_f0 k g r a) (r ^ 2 * 1 / 2 * zm_f0 k g r (2 * PI)) a (2 * PI - a)));
    [intros t; symmetry; apply zm_q_eq|].
  apply qx_derive. exact HD.
Qed.

Lemma zm_q_th2 : forall k a g r th, 2 * PI - a <> 0 ->
  diff_th (diff_th (zm_q k a g)) r th =
  qx2 (r ^ 2 * 1 / 2 * zm_f0 k g r a) (r ^ 2 * 1 / 2 * zm_f0 k g r (2 * PI)) a (2 * PI - a) th.
Proof.
  intros k a g r th HD. unfold diff_th at 1. apply is_derive_unique.
  apply (is_derive_ext (qx1 (r ^ 2 * 1 / 2 * zm_f0 k g r a) (r ^ 2 * 1 / 2 * zm_f0 k g r (2 * PI)) a (2 * PI - a)));
    [intros t; symmetry; apply zm_q_th1; exact HD|].
  apply qx1_derive. exact HD.
Qed.

Lemma zero_diff_r : forall (u : R -> R -> R) th r, (forall r, u r th = 0) -> diff_r u r th = 0.
Proof.
  intros u th r H. unfold diff_r. rewrite (Derive_ext _ (fun _ => 0)) by exact H.
  apply (Derive_const 0 r).
Qed.

Lemma f1_edge : forall k a g r e, 2 * PI - a <> 0 -> r <> 0 -> e = a \/ e = 2 * PI ->
  zm_f1 k a g r e = 0.
Proof.
  intros k a g r e HD Hr He. unfold zm_f1, apply_helmholtz_op.
  assert (Hq : forall r, zm_q k a g r e = 0).
  { intros r'. destruct (zm_q_edges k a g r' HD) as [H1 [H2 _]]. destruct He; subst e; assumption. }
  rewrite (zero_diff_r (zm_q k a g) e r Hq).
  rewrite (zero_diff_r (diff_r (zm_q k a g)) e r (fun r' => zero_diff_r _ e r' Hq)).
  rewrite Hq, zm_q_th2 by assumption.
  destruct (qx_edges (r ^ 2 * 1 / 2 * zm_f0 k g r a) (r ^ 2 * 1 / 2 * zm_f0 k g r (2 * PI)) a HD)
    as [_ [_ [_ [_ [E5 E6]]]]].
  destruct He; subst e; [rewrite E5|rewrite E6]; field; assumption.
Qed.

(** Sympy's operator on a twice differentiable function. *)
Definition right_half (r th : R) : Prop := 0 < r.

Lemma helm_partials : forall k u U r th, partials 2 right_half u U -> 0 < r ->
  apply_helmholtz_op k u r th = polar_helmholtz k U r th.
Proof.
  intros k u U r th [H0 H] Hr. unfold apply_helmholtz_op, polar_helmholtz.
  assert (Hloc : forall P : R -> Prop, (forall r, 0 < r -> P r) -> locally r P).
  { intros P HP. exists (mkposreal r Hr). intros y Hy. apply HP.
    change (Rabs (y - r) < r) in Hy. apply Rabs_def2 in Hy. lra. }
  assert (E1 : forall r, 0 < r -> diff_r u r th = U 1%nat 0%nat r th).
  { intros r' Hr'. unfold diff_r. apply is_derive_unique.
    apply (is_derive_ext (fun t => U 0%nat 0%nat t th)); [intros; apply H0|].
    apply H; [lia|exact Hr']. }
  assert (E2 : diff_r (diff_r u) r th = U 2%nat 0%nat r th).
  { unfold diff_r at 1. apply is_derive_unique.
    apply (is_derive_ext_loc (fun t => U 1%nat 0%nat t th)).
    - apply Hloc. intros t Ht. symmetry. apply E1. exact Ht.
    - apply H; [lia|exact Hr]. }
  assert (E3 : forall th, diff_th u r th = U 0%nat 1%nat r th).
  { intros th'. unfold diff_th. apply is_derive_unique.
    apply (is_derive_ext (fun t => U 0%nat 0%nat r t)); [intros; apply H0|].
    apply H; [lia|exact Hr]. }
  assert (E4 : diff_th (diff_th u) r th = U 0%nat 2%nat r th).
  { unfold diff_th at 1. apply is_derive_unique.
    apply (is_derive_ext (fun t => U 0%nat 1%nat r t)).
    - intros t. symmetry. apply E3.
    - apply H; [lia|exact Hr]. }
  rewrite E1, E2, E4, <- H0 by exact Hr. reflexivity.
Qed.

Lemma partials_comb : forall n D u v U V (c d : R), partials n D u U -> partials n D v V ->
  partials n D (fun x y => c * u x y + d * v x y) (fun i j x y => c * U i j x y + d * V i j x y).
Proof.
  intros n D u v U V c d [Hu0 Hu] [Hv0 Hv]. split.
  - intros x y. rewrite Hu0, Hv0. reflexivity.
  - intros i j Hij x y HD. destruct (Hu i j Hij x y HD), (Hv i j Hij x y HD).
    split; apply (is_derive_plus (V := R_NormedModule)); apply is_derive_scal; assumption.
Qed.

(** q is twice differentiable when f0 is, in r, on the two edges. *)
Lemma q_partials : forall k a g (A B : nat -> R -> R), 2 * PI - a <> 0 ->
  (forall r, A 0%nat r = zm_f0 k g r a) -> (forall r, B 0%nat r = zm_f0 k g r (2 * PI)) ->
  (forall i r, (i < 2)%nat -> 0 < r -> is_derive (A i) r (A (S i) r)) ->
  (forall i r, (i < 2)%nat -> 0 < r -> is_derive (B i) r (B (S i) r)) ->
  exists Q, partials 2 right_half (zm_q k a g) Q.
Proof.
  intros k a g A B HD HA0 HB0 HA HB.
  set (c := fun (F : nat -> R -> R) (i : nat) (r : R) => match i with
    | 0%nat => r ^ 2 * 1 / 2 * F 0%nat r
    | 1%nat => r * F 0%nat r + r ^ 2 * 1 / 2 * F 1%nat r
    | _ => F 0%nat r + 2 * r * F 1%nat r + r ^ 2 * 1 / 2 * F 2%nat r
    end).
  assert (Hc : forall F i r, (i < 2)%nat -> 0 < r ->
    (forall i r, (i < 2)%nat -> 0 < r -> is_derive (F i) r (F (S i) r)) ->
    is_derive (c F i) r (c F (S i) r)).
  { intros F i r Hi Hr HF. pose proof (HF 0%nat r ltac:(lia) Hr) as H0.
    pose proof (HF 1%nat r ltac:(lia) Hr) as H1.
    destruct i as [|[|i]]; [| |lia].
    - change (is_derive (fun r => r ^ 2 * 1 / 2 * F 0%nat r) r (r * F 0%nat r + r ^ 2 * 1 / 2 * F 1%nat r)).
      auto_derive; [exists (F 1%nat r); exact H0|].
      replace (Derive (fun x => F 0%nat x) r) with (F 1%nat r) by (symmetry; apply is_derive_unique; exact H0).
      field.
    - change (is_derive (fun r => r * F 0%nat r + r ^ 2 * 1 / 2 * F 1%nat r) r
        (F 0%nat r + 2 * r * F 1%nat r + r ^ 2 * 1 / 2 * F 2%nat r)).
      auto_derive; [split; [exists (F 1%nat r); exact H0|split; [exists (F 2%nat r); exact H1|exact I]]|].
      replace (Derive (fun x => F 0%nat x) r) with (F 1%nat r) by (symmetry; apply is_derive_unique; exact H0).
      replace (Derive (fun x => F 1%nat x) r) with (F 2%nat r) by (symmetry; apply is_derive_unique; exact H1).
      field. }
  set (D := 2 * PI - a).
  set (t := fun (j : nat) (X Y th : R) => match j with
    | 0%nat => qx X Y a D th | 1%nat => qx1 X Y a D th | _ => qx2 X Y a D th end).
  exists (fun i j r th => t j (c A i r) (c B i r) th). split.
  - intros r th. unfold t, c. rewrite HA0, HB0. symmetry. apply zm_q_eq.
  - intros i j Hij r th Hr. split.
    + assert (Hlin : forall X Y th, t j X Y th = X * t j 1 0 th + Y * t j 0 1 th).
      { intros X Y th'. destruct j as [|[|j]]; unfold t, qx, qx1, qx2; ring. }
      apply (is_derive_ext (fun r => t j 1 0 th * c A i r + t j 0 1 th * c B i r)).
      { intros r'. rewrite (Hlin (c A i r')).
        match goal with |- @eq _ ?x ?y => change (@eq R x y) end. ring. }
      rewrite (Hlin (c A (S i) r)), (Rmult_comm _ (t j 1 0 th)), (Rmult_comm _ (t j 0 1 th)).
      apply (is_derive_plus (V := R_NormedModule)); apply is_derive_scal; apply Hc; try assumption; lia.
    + destruct j as [|[|j]]; [| |lia]; unfold t; [apply qx_derive|apply qx1_derive]; exact HD.
Qed.

Lemma z1_equation : forall k a g v V G Q r th, 0 < r ->
  partials 2 right_half v V -> partials 2 right_half g G -> partials 2 right_half (zm_q k a g) Q ->
  apply_helmholtz_op k v r th = 0 ->
  apply_helmholtz_op k (fun r th => v r th - (g r th + zm_q k a g r th)) r th = zm_f1 k a g r th.
Proof.
  intros k a g v V G Q r th Hr HV HG HQ Hv.
  pose proof (partials_comb 2 right_half _ _ _ _ 1 (-1) HV
    (partials_comb 2 right_half _ _ _ _ 1 1 HG HQ)) as H.
  assert (H' : partials 2 right_half (fun r th => v r th - (g r th + zm_q k a g r th))
    (fun i j x y => 1 * V i j x y + -1 * (1 * G i j x y + 1 * Q i j x y))).
  { destruct H as [H0 H]. split; [|exact H]. intros x y. rewrite H0. ring. }
  rewrite (helm_partials k _ _ r th H' Hr). unfold zm_f1, zm_f0.
  rewrite (helm_partials k _ _ r th HG Hr), (helm_partials k _ _ r th HQ Hr).
  rewrite (helm_partials k _ _ r th HV Hr) in Hv. unfold polar_helmholtz in *.
  replace (V 2%nat 0%nat r th) with
    (- (V 1%nat 0%nat r th / r) - V 0%nat 2%nat r th / r ^ 2 - k ^ 2 * V 0%nat 0%nat r th) by lra.
  field. lra.
Qed.

Lemma z1_full : forall k a g v V G A B, 2 * PI - a <> 0 ->
  partials 2 right_half v V -> partials 2 right_half g G ->
  (forall r th, 0 < r -> polar_helmholtz k V r th = 0) ->
  (forall r, 0 < r -> A 0%nat r = zm_f0 k g r a) -> (forall r, 0 < r -> B 0%nat r = zm_f0 k g r (2 * PI)) ->
  (forall i r, (i < 2)%nat -> 0 < r -> is_derive (A i) r (A (S i) r)) ->
  (forall i r, (i < 2)%nat -> 0 < r -> is_derive (B i) r (B (S i) r)) ->
  exists W, partials 2 right_half (zm_initial k a v g) W /\
    forall r th, 0 < r -> polar_helmholtz k W r th = zm_f1 k a g r th.
Proof.
  intros k a g v V G A B HD HV HG Hv HA0 HB0 HA HB.
  set (fix0 := fun (F : nat -> R -> R) (f : R -> R) (i : nat) => match i with 0%nat => f | _ => F i end).
  assert (Hfix : forall F f, (forall r, 0 < r -> F 0%nat r = f r) ->
    (forall i r, (i < 2)%nat -> 0 < r -> is_derive (F i) r (F (S i) r)) ->
    forall i r, (i < 2)%nat -> 0 < r -> is_derive (fix0 F f i) r (fix0 F f (S i) r)).
  { intros F f E HF [|i] r Hi Hr; [|apply HF; assumption].
    apply (is_derive_ext_loc (F 0%nat)); [|apply HF; assumption].
    exists (mkposreal r Hr). intros y Hy. apply E. change (Rabs (y - r) < r) in Hy.
    apply Rabs_def2 in Hy. lra. }
  destruct (q_partials k a g (fix0 A (fun r => zm_f0 k g r a)) (fix0 B (fun r => zm_f0 k g r (2 * PI))) HD
    (fun _ => eq_refl) (fun _ => eq_refl) (Hfix _ _ HA0 HA) (Hfix _ _ HB0 HB)) as [Q HQ].
  exists (fun i j x y => 1 * V i j x y + -1 * (1 * G i j x y + 1 * Q i j x y)).
  assert (H : partials 2 right_half (zm_initial k a v g)
    (fun i j x y => 1 * V i j x y + -1 * (1 * G i j x y + 1 * Q i j x y))).
  { destruct (partials_comb 2 right_half _ _ _ _ 1 (-1) HV
      (partials_comb 2 right_half _ _ _ _ 1 1 HG HQ)) as [H0 H].
    split; [|exact H]. intros x y. rewrite H0. unfold zm_initial. ring. }
  split; [exact H|]. intros r th Hr.
  rewrite <- (helm_partials k _ _ r th H Hr).
  apply (z1_equation k a g v V G Q r th Hr HV HG HQ).
  rewrite (helm_partials k _ _ r th HV Hr). apply Hv. exact Hr.
Qed.
