(** The truncated Bessel series and the boundary data of the singular problems. *)
From Coq Require Import ZArith List Bool Reals Lia Lra.
From Coquelicot Require Import Coquelicot.
From Verif Require Import Model_Py Model_Domain Model_ZMethod Model_Problems Lib_Csum Proof_Domain
  Proof_Consist Proof_ZMethod Spec_Fd Spec_PolarFD Spec_Problems Proof_Taper.
Import ListNotations.
Open Scope R_scope.

(** Term [l] of the series. *)
Definition bterm (gamma : R -> R) (alpha k : R) (l : nat) (r : R) : R :=
  (-1) ^ l / (INR (fact l) * gamma (alpha + INR l + 1)) * (k * r / 2) ^ (2 * l)
  * Rpower (k * r / 2) alpha.

Lemma fold_rsum : forall (f : nat -> R) n x,
  fold_left (fun acc l => acc + f l) (seq 0 n) x = x + rsum n f.
Proof.
  intros f n x. induction n as [|n IH]; [simpl; ring|].
  rewrite seq_S, fold_left_app, IH. simpl. ring.
Qed.

Lemma v_asympt0_sum : forall gamma K k nu n r,
  v_asympt0 gamma K k nu n r = rsum n (fun l => bterm gamma ((K + 1 / 2) * nu) k l r).
Proof.
  intros. unfold v_asympt0.
  rewrite (fold_rsum (fun l => (-1) ^ l / (INR (fact l) * gamma ((K + 1 / 2) * nu + INR l + 1)) *
    (k * r / 2) ^ (2 * l)) n 0).
  rewrite Rplus_0_l, Rmult_comm, <- rsum_scal. apply rsum_ext. intros l Hl. unfold bterm. ring.
Qed.

Lemma bterm_derive : forall gamma alpha k l (r : R), 0 < k -> 0 < r ->
  is_derive (bterm gamma alpha k l) r ((2 * INR l + alpha) * bterm gamma alpha k l r / r).
Proof.
  intros gamma alpha k l r Hk Hr.
  assert (Hkr : 0 < k * r / 2) by nra.
  set (c := (-1) ^ l / (INR (fact l) * gamma (alpha + INR l + 1))).
  apply (is_derive_ext_loc (fun r => c * (exp (INR (2 * l) * ln (k * r / 2)) * Rpower (k * r / 2) alpha))).
  - exists (mkposreal r Hr). intros y Hy. change (Rabs (y - r) < r) in Hy. apply Rabs_def2 in Hy.
    unfold bterm. fold c. fold (Rpower (k * y / 2) (INR (2 * l))).
    rewrite Rpower_pow by nra.
    match goal with |- @eq _ ?x ?y => change (@eq R x y) end. ring.
  - unfold bterm. fold c. rewrite <- (Rpower_pow (2 * l) (k * r / 2)) by assumption.
    assert (E2 : INR (2 * l) = 2 * INR l) by (rewrite mult_INR; reflexivity).
    rewrite E2. clearbody c. unfold Rpower. generalize (INR l). intros m.
    auto_derive; [split; [exact Hkr|split; [exact Hkr|exact I]]|].
    unfold Rdiv. field. lra.
Qed.

Definition bsum (gamma : R -> R) (alpha k : R) (n i : nat) (r : R) : R :=
  rsum n (fun l => match i with
    | 0%nat => bterm gamma alpha k l r
    | 1%nat => (2 * INR l + alpha) * bterm gamma alpha k l r / r
    | _ => (2 * INR l + alpha) * (2 * INR l + alpha - 1) * bterm gamma alpha k l r / r ^ 2
    end).

Lemma bsum_derive : forall gamma alpha k n i (r : R), 0 < k -> 0 < r -> (i < 2)%nat ->
  is_derive (bsum gamma alpha k n i) r (bsum gamma alpha k n (S i) r).
Proof.
  intros gamma alpha k n i r Hk Hr Hi. unfold bsum.
  destruct i as [|[|i]]; [| |lia].
  - apply (rsum_is_derive n (fun l r => bterm gamma alpha k l r)
      (fun l r => (2 * INR l + alpha) * bterm gamma alpha k l r / r)).
    intros l Hl. apply bterm_derive; assumption.
  - apply (rsum_is_derive n (fun l r => (2 * INR l + alpha) * bterm gamma alpha k l r / r)
      (fun l r => (2 * INR l + alpha) * (2 * INR l + alpha - 1) * bterm gamma alpha k l r / r ^ 2)).
    intros l Hl. pose proof (bterm_derive gamma alpha k l r Hk Hr) as H.
    auto_derive; [split; [exists ((2 * INR l + alpha) * bterm gamma alpha k l r / r); exact H|split; [lra|exact I]]|].
    replace (Derive (fun x => bterm gamma alpha k l x) r)
      with ((2 * INR l + alpha) * bterm gamma alpha k l r / r) by (symmetry; apply is_derive_unique; exact H).
    field. lra.
Qed.

(** One mode of the series with the angle measured from [b]. *)
Definition mode_u (gamma : R -> R) (alpha k b : R) (n : nat) (r th : R) : R :=
  bsum gamma alpha k n 0 r * sin (alpha * (th - b)).
Definition mode_U (gamma : R -> R) (alpha k b : R) (n i j : nat) (r th : R) : R :=
  bsum gamma alpha k n i r * match j with
    | 0%nat => sin (alpha * (th - b))
    | 1%nat => alpha * cos (alpha * (th - b))
    | _ => - alpha ^ 2 * sin (alpha * (th - b))
    end.

Lemma mode_partials : forall gamma alpha k b n, 0 < k ->
  partials 2 right_half (mode_u gamma alpha k b n) (mode_U gamma alpha k b n).
Proof.
  intros gamma alpha k b n Hk. split; [reflexivity|].
  intros i j Hij r th Hr. unfold mode_U. split.
  - set (s := match j with 0%nat => _ | _ => _ end).
    apply (is_derive_ext (fun r => s * bsum gamma alpha k n i r)); [intros; apply Rmult_comm|].
    rewrite (Rmult_comm _ s). apply is_derive_scal. apply bsum_derive; [assumption|exact Hr|lia].
  - apply is_derive_scal. destruct j as [|[|j]]; [| |lia]; auto_derive; try exact I; unfold Rminus; ring.
Qed.

Lemma bterm_step : forall gamma alpha k l r, gamma_like gamma -> 0 < alpha -> 0 < r ->
  4 * (INR l + 1) * (INR l + 1 + alpha) * bterm gamma alpha k (S l) r / r ^ 2 =
  - k ^ 2 * bterm gamma alpha k l r.
Proof.
  intros gamma alpha k l r Hg Ha Hr. unfold bterm. pose proof (pos_INR l) as Hl.
  rewrite S_INR. replace (alpha + (INR l + 1) + 1) with ((alpha + INR l + 1) + 1) by ring.
  destruct (Hg (alpha + INR l + 1) ltac:(lra)) as [E Hnz]. rewrite E.
  change (fact (S l)) with (S l * fact l)%nat. rewrite mult_INR, S_INR.
  replace (2 * S l)%nat with (S (S (2 * l))) by lia.
  cbn [pow]. pose proof (INR_fact_neq_0 l). field. repeat split; try assumption; lra.
Qed.

Lemma rsum_telescope : forall gamma alpha k n r, gamma_like gamma -> 0 < alpha -> 0 < r ->
  rsum (S n) (fun l => (4 * INR l * (INR l + alpha) / r ^ 2 + k ^ 2) * bterm gamma alpha k l r) =
  k ^ 2 * bterm gamma alpha k n r.
Proof.
  intros gamma alpha k n r Hg Ha Hr. induction n as [|n IH].
  - cbn [rsum]. simpl INR. field. lra.
  - change (rsum (S (S n)) ?f) with (rsum (S n) f + f (S n)). rewrite IH. cbv beta.
    pose proof (bterm_step gamma alpha k n r Hg Ha Hr) as E. rewrite S_INR.
    replace ((4 * (INR n + 1) * (INR n + 1 + alpha) / r ^ 2 + k ^ 2) * bterm gamma alpha k (S n) r)
      with (4 * (INR n + 1) * (INR n + 1 + alpha) * bterm gamma alpha k (S n) r / r ^ 2
            + k ^ 2 * bterm gamma alpha k (S n) r) by (field; lra).
    rewrite E. ring.
Qed.

Lemma mode_residual : forall gamma alpha k b n r th, gamma_like gamma -> 0 < alpha -> 0 < r ->
  polar_helmholtz k (mode_U gamma alpha k b (S n)) r th =
  k ^ 2 * (bterm gamma alpha k n r * sin (alpha * (th - b))).
Proof.
  intros gamma alpha k b n r th Hg Ha Hr. unfold polar_helmholtz, mode_U.
  rewrite <- (Rmult_assoc (k ^ 2) (bterm gamma alpha k n r)), <- rsum_telescope by assumption.
  set (s := sin (alpha * (th - b))).
  rewrite (rsum_ext (S n) _ (fun l =>
     (2 * INR l + alpha) * (2 * INR l + alpha - 1) * bterm gamma alpha k l r / r ^ 2
     + (/ r * ((2 * INR l + alpha) * bterm gamma alpha k l r / r)
     + (k ^ 2 - alpha ^ 2 / r ^ 2) * bterm gamma alpha k l r)))
    by (intros l Hl; field; lra).
  rewrite !rsum_plus, !rsum_scal. unfold bsum. field. lra.
Qed.

(** The gamma recurrence is satisfiable: a product over the fractional part. *)
Fixpoint gprod (n : nat) (x : R) : R :=
  match n with O => 1 | S n' => (x - 1) * gprod n' (x - 1) end.
Definition gamma_ex (x : R) : R := gprod (Z.to_nat (- Int_part (- x) - 1)) x.

Lemma gprod_nz : forall n x, INR n < x -> gprod n x <> 0.
Proof.
  induction n as [|n IH]; intros x H; [simpl; lra|].
  rewrite S_INR in H. pose proof (pos_INR n). cbn [gprod]. apply Rmult_integral_contrapositive_currified; [lra|].
  apply IH. lra.
Qed.

Lemma gamma_ex_like : gamma_like gamma_ex.
Proof.
  intros x Hx. unfold gamma_ex.
  destruct (base_Int_part (- x)) as [L U].
  assert (Ex : Int_part (- (x + 1)) = (Int_part (- x) - 1)%Z).
  { destruct (base_Int_part (- (x + 1))) as [L' U'].
    assert (A : (Int_part (- (x + 1)) < Int_part (- x))%Z) by (apply lt_IZR; lra).
    assert (B : (Int_part (- x) - 2 < Int_part (- (x + 1)))%Z)
      by (apply lt_IZR; rewrite minus_IZR; lra).
    lia. }
  assert (Hn : (Int_part (- x) <= -1)%Z).
  { assert ((Int_part (- x) < 0)%Z) by (apply lt_IZR; simpl; lra). lia. }
  rewrite Ex. split.
  - replace (Z.to_nat (- (Int_part (- x) - 1) - 1)) with (S (Z.to_nat (- Int_part (- x) - 1))) by lia.
    cbn [gprod]. replace (x + 1 - 1) with x by ring. reflexivity.
  - apply gprod_nz. rewrite INR_IZR_INZ, Z2Nat.id by lia.
    rewrite minus_IZR, opp_IZR. lra.
Qed.

(** ** The statements about the program's functions *)

Lemma last_term : forall gamma K k nu n r,
  v_asympt0 gamma K k nu (S n) r - v_asympt0 gamma K k nu n r = bterm gamma ((K + 1 / 2) * nu) k n r.
Proof. intros. rewrite !v_asympt0_sum. cbn [rsum]. ring. Qed.

Lemma bterm_power : forall gamma alpha k n, 0 < k -> exists c, forall r, 0 < r ->
  bterm gamma alpha k n r = c * Rpower r (2 * INR n + alpha).
Proof.
  intros gamma alpha k n Hk.
  exists ((-1) ^ n / (INR (fact n) * gamma (alpha + INR n + 1)) * Rpower (k / 2) (2 * INR n + alpha)).
  intros r Hr. unfold bterm.
  rewrite <- (Rpower_pow (2 * n)) by nra. rewrite mult_INR. change (INR 2) with 2.
  rewrite Rmult_assoc, <- Rpower_plus.
  replace (k * r / 2) with (k / 2 * r) by field. rewrite <- Rpower_mult_distr by lra. ring.
Qed.

Lemma mode_series : forall gamma K k nu b n, gamma_like gamma -> 0 < k -> 0 < (K + 1 / 2) * nu ->
  exists U, partials 2 off_tip
      (fun r th => v_asympt0 gamma K k nu (S n) r * sin ((K + 1 / 2) * nu * (th - b))) U /\
    forall r th, 0 < r -> polar_helmholtz k U r th =
      k ^ 2 * ((v_asympt0 gamma K k nu (S n) r - v_asympt0 gamma K k nu n r)
               * sin ((K + 1 / 2) * nu * (th - b))).
Proof.
  intros gamma K k nu b n Hg Hk Ha. set (al := (K + 1 / 2) * nu) in *.
  exists (mode_U gamma al k b (S n)). split.
  - destruct (mode_partials gamma al k b (S n) Hk) as [H0 H]. split; [|exact H].
    intros r th. rewrite H0. unfold mode_u. rewrite v_asympt0_sum. reflexivity.
  - intros r th Hr. rewrite mode_residual by assumption. rewrite last_term. reflexivity.
Qed.

Lemma partials_ext : forall n D u v U, (forall x y, u x y = v x y) -> partials n D u U -> partials n D v U.
Proof. intros n D u v U E [H0 H]. split; [|exact H]. intros. rewrite H0. apply E. Qed.

Lemma ih_series : forall gamma K k nu a, gamma_like gamma -> 0 < k -> 0 < (K + 1 / 2) * nu ->
  exists U, partials 2 off_tip (ih_v_series gamma K k nu a) U /\
    exists c, forall r th, 0 < r -> polar_helmholtz k U r th =
      c * Rpower r (18 + (K + 1 / 2) * nu) * sin ((K + 1 / 2) * nu * (th - a)).
Proof.
  intros gamma K k nu a Hg Hk Ha.
  destruct (mode_series gamma K k nu a 9 Hg Hk Ha) as [U [HU HL]].
  exists U. split; [exact HU|].
  destruct (bterm_power gamma ((K + 1 / 2) * nu) k 9 Hk) as [c Hc].
  exists (k ^ 2 * c). intros r th Hr. rewrite HL, last_term, Hc by assumption.
  replace (2 * INR 9 + (K + 1 / 2) * nu) with (18 + (K + 1 / 2) * nu) by (simpl; lra). ring.
Qed.

Lemma polar_helmholtz_plus : forall k U V r th,
  polar_helmholtz k (fun i j x y => 1 * U i j x y + 1 * V i j x y) r th =
  polar_helmholtz k U r th + polar_helmholtz k V r th.
Proof. intros. unfold polar_helmholtz, Rdiv. ring. Qed.

Lemma quad_series : forall gamma k nu a, gamma_like gamma -> 0 < k -> 0 < nu ->
  exists U, partials 2 off_tip (quad_v_series gamma k nu a) U /\
    exists c1 c3, forall r th, 0 < r -> polar_helmholtz k U r th =
      c1 * Rpower r (18 + nu / 2) * sin (nu / 2 * (th - a))
      + c3 * Rpower r (18 + 3 * nu / 2) * sin (3 * nu / 2 * (th - 2 * PI)).
Proof.
  intros gamma k nu a Hg Hk Hnu.
  assert (E1 : (0 + 1 / 2) * nu = nu / 2) by field.
  assert (E3 : (1 + 1 / 2) * nu = 3 * nu / 2) by field.
  destruct (ih_series gamma 0 k nu a Hg Hk ltac:(lra)) as [U [HU [c1 H1]]].
  destruct (ih_series gamma 1 k nu (2 * PI) Hg Hk ltac:(lra)) as [V [HV [c3 H3]]].
  exists (fun i j x y => 1 * U i j x y + 1 * V i j x y). split.
  - apply (partials_ext _ _ _ _ _ (fun r th => eq_refl) ) in HU.
    eapply partials_ext; [|apply (partials_comb 2 off_tip _ _ _ _ 1 1 HU HV)].
    intros r th. unfold ih_v_series, quad_v_series. rewrite E1, E3. ring.
  - exists c1, c3. intros r th Hr.
    rewrite polar_helmholtz_plus, H1, H3 by assumption. rewrite E1, E3. reflexivity.
Qed.

(** Where the taper is 1, and where it is 0. *)
Lemma helm_loc : forall k u v r th (P : R -> Prop), P r -> (forall x, P x -> locally x P) ->
  (forall x t, P x -> u x t = v x t) -> apply_helmholtz_op k u r th = apply_helmholtz_op k v r th.
Proof.
  intros k u v r th P Hr Hloc E. unfold apply_helmholtz_op.
  assert (D1 : forall x t, P x -> diff_r u x t = diff_r v x t).
  { intros x t Hx. unfold diff_r. apply Derive_ext_loc. generalize (Hloc x Hx). apply filter_imp.
    intros y Hy. apply E. exact Hy. }
  assert (D2 : diff_r (diff_r u) r th = diff_r (diff_r v) r th).
  { unfold diff_r at 1 3. apply Derive_ext_loc. generalize (Hloc r Hr). apply filter_imp.
    intros y Hy. apply D1. exact Hy. }
  assert (T1 : forall t, diff_th u r t = diff_th v r t).
  { intros t. unfold diff_th. apply Derive_ext. intros s. apply E. exact Hr. }
  assert (T2 : diff_th (diff_th u) r th = diff_th (diff_th v) r th).
  { unfold diff_th at 1 3. apply Derive_ext. exact T1. }
  rewrite D2, T2, (D1 r th Hr), (E r th Hr). reflexivity.
Qed.

Lemma locally_between : forall lo hi x, lo < x < hi -> locally x (fun y => lo < y < hi).
Proof.
  intros lo hi x H. assert (Hd : 0 < Rmin (x - lo) (hi - x)) by (apply Rmin_glb_lt; lra).
  exists (mkposreal _ Hd). intros y Hy. change (Rabs (y - x) < Rmin (x - lo) (hi - x)) in Hy.
  pose proof (Rmin_l (x - lo) (hi - x)). pose proof (Rmin_r (x - lo) (hi - x)).
  apply Rabs_def2 in Hy. lra.
Qed.

Lemma locally_above : forall lo x, lo < x -> locally x (fun y => lo < y).
Proof.
  intros lo x H. generalize (locally_between lo (x + 1) x ltac:(lra)). apply filter_imp. intros y Hy. lra.
Qed.

Lemma ih_source : forall gamma K k nu a R1, gamma_like gamma -> 0 < k -> 0 < (K + 1 / 2) * nu -> zm_R0 < R1 ->
  (exists c, forall r th, 0 < r < zm_R0 -> zm_f k (ih_v_asympt gamma K k nu a R1) r th =
     c * Rpower r (2 + (K + 1 / 2) * nu) * sin ((K + 1 / 2) * nu * (th - a))) /\
  (forall r th, R1 < r -> zm_f k (ih_v_asympt gamma K k nu a R1) r th = 0).
Proof.
  intros gamma K k nu a R1 Hg Hk Ha HR.
  destruct (taper_spec zm_R0 R1 HR) as [T1 [T0 _]]. split.
  - destruct (mode_series gamma K k nu a 1 Hg Hk Ha) as [U [HU HL]].
    destruct (bterm_power gamma ((K + 1 / 2) * nu) k 1 Hk) as [c Hc].
    exists (- (k ^ 2 * c)). intros r th Hr. unfold zm_f.
    rewrite (helm_loc k _ (fun r th => v_asympt0 gamma K k nu 2 r * sin ((K + 1 / 2) * nu * (th - a)))
      r th (fun x => 0 < x < zm_R0) Hr (locally_between 0 zm_R0)).
    + rewrite (helm_partials k _ U r th HU) by lra. rewrite HL, last_term, Hc by lra.
      replace (2 * INR 1 + (K + 1 / 2) * nu) with (2 + (K + 1 / 2) * nu) by (simpl; lra). ring.
    + intros x t Hx. unfold ih_v_asympt, ih_nterms. rewrite T1 by lra. ring.
  - intros r th Hr. unfold zm_f.
    rewrite (helm_loc k _ (fun r th => 0) r th (fun x => R1 < x) Hr (locally_above R1)).
    + unfold apply_helmholtz_op, diff_r, diff_th.
      rewrite !(Derive_ext (fun x => Derive (fun _ => 0) x) (fun _ => 0)) by (intros; apply Derive_const).
      rewrite !Derive_const. unfold Rdiv. ring.
    + intros x t Hx. unfold ih_v_asympt. rewrite T0 by lra. ring.
Qed.
