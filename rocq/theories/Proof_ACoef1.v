(** The Bessel factors of abcoef.py do not vanish (C87). *)
From Coq Require Import ZArith List Bool Reals Lia Lra Psatz.
From Coquelicot Require Import Coquelicot.
From Verif Require Import Model_Py Model_Abcoef Model_Problems Model_Run Model_Program Model_ZProgram
  Spec_Problems Spec_Bessel Spec_OdeAcc Proof_BesselJ Proof_OdeSeries Proof_OdeSing Proof_ZProgram.
Import ListNotations.
Open Scope R_scope.

(** ** Tail of a series whose terms halve *)

Lemma half_tail : forall (a : nat -> R) L, ex_series a -> (forall i, (L <= i)%nat -> Rabs (a (S i)) <= Rabs (a i) / 2) ->
  Rabs (Series a - sum_f_R0 a L) <= Rabs (a L).
Proof.
  intros a L Ha Hh. rewrite (Series_incr_n a (S L)) by (try lia; exact Ha). cbn [Nat.pred].
  replace (sum_f_R0 a L + Series (fun k => a (S L + k)%nat) - sum_f_R0 a L) with (Series (fun k => a (S L + k)%nat)) by ring.
  assert (B : forall j, Rabs (a (S L + j)%nat) <= Rabs (a L) / 2 * (/ 2) ^ j).
  { induction j as [|j IH].
    - rewrite Nat.add_0_r. specialize (Hh L ltac:(lia)). cbn [pow]. lra.
    - replace (S L + S j)%nat with (S (S L + j)) by lia. specialize (Hh (S L + j)%nat ltac:(lia)). cbn [pow]. lra. }
  assert (Hg : is_series (fun j => Rabs (a L) / 2 * (/ 2) ^ j) (Rabs (a L))).
  { set (c := Rabs (a L) / 2). assert (Ec : Rabs (a L) = c * / (1 - / 2)) by (unfold c; field). rewrite Ec. clearbody c.
    apply (is_series_scal_l (K := R_AbsRing) (V := R_NormedModule) c). apply is_series_geom. rewrite Rabs_pos_eq; lra. }
  assert (He : ex_series (fun j => Rabs (a (S L + j)%nat))).
  { apply (ex_series_le (K := R_AbsRing) (V := R_CompleteNormedModule) _ (fun j => Rabs (a L) / 2 * (/ 2) ^ j)); [|exists (Rabs (a L)); exact Hg].
    intros j. change (Rabs (Rabs (a (S L + j)%nat)) <= Rabs (a L) / 2 * (/ 2) ^ j). rewrite Rabs_Rabsolu. apply B. }
  eapply Rle_trans; [apply Series_Rabs; exact He|]. rewrite <- (is_series_unique _ _ Hg).
  apply Series_le; [|exists (Rabs (a L)); exact Hg]. intros j. split; [apply Rabs_pos|apply B].
Qed.

(** ** The check: a_l = T / D is the l-th term, N / D the partial sum. *)

Fixpoint bcheck (fuel : nat) (tn td m l N T : Z) : bool :=
  if ((14 * tn <=? td * ((l + 1) * (7 * (l + 1) + 4 * m))) && (Z.abs T <? Z.abs N))%Z%bool then true else
  match fuel with
  | O => false
  | S fuel => let d := (td * ((l + 1) * (7 * (l + 1) + 4 * m)))%Z in let T' := (- T * (7 * tn))%Z in
      bcheck fuel tn td m (l + 1) (N * d + T') T'
  end.

Section Check.
Variables (tn td m : Z).
Hypothesis Htn : (0 < tn)%Z.
Hypothesis Htd : (0 < td)%Z.
Hypothesis Hm : (1 <= m)%Z.
Let p := IZR m * (4 / 7).
Let t := IZR tn / IZR td.
Let a (l : nat) := bcoef p l * t ^ l.

Lemma p_pos : 0 < p.
Proof using Hm. unfold p. apply (IZR_le 1) in Hm. lra. Qed.
Lemma t_pos : 0 < t.
Proof using Htn Htd. unfold t. apply Rdiv_lt_0_compat; apply (IZR_lt 0); assumption. Qed.

Lemma a_step : forall l, a (S l) = - a l * (t / ((INR l + 1) * (INR l + 1 + p))).
Proof using Hm. intros l. unfold a. pose proof p_pos. pose proof (pos_INR l). cbn [bcoef pow]. field. lra. Qed.

Definition den (l : nat) : R := IZR td * ((INR l + 1) * (7 * (INR l + 1) + 4 * IZR m)).
Lemma den_Z : forall l, IZR (td * ((Z.of_nat l + 1) * (7 * (Z.of_nat l + 1) + 4 * m))) = den l.
Proof. intros l. unfold den. rewrite !mult_IZR, !plus_IZR, !mult_IZR, !plus_IZR, <- INR_IZR_INZ. reflexivity. Qed.
Lemma den_pos : forall l, 0 < den l.
Proof using Htd Hm.
  intros l. unfold den. pose proof (pos_INR l). assert (1 <= IZR m) by (apply (IZR_le 1); exact Hm). assert (0 < IZR td) by (apply (IZR_lt 0); exact Htd).
  apply Rmult_lt_0_compat; [assumption|]. apply Rmult_lt_0_compat; lra.
Qed.
Lemma a_den : forall l, a (S l) = - a l * (7 * IZR tn) / den l.
Proof using Htd Hm.
  intros l. rewrite a_step. pose proof (den_pos l) as Hd. pose proof p_pos. pose proof (pos_INR l). assert (0 < IZR td) by (apply (IZR_lt 0); exact Htd).
  unfold den, t, p in *. field. assert (1 <= IZR m) by (apply (IZR_le 1); exact Hm). repeat split; lra.
Qed.

Lemma bcheck_sound : forall fuel l N T, bcheck fuel tn td m (Z.of_nat l) N T = true ->
  (exists D, 0 < D /\ a l = IZR T / D /\ sum_f_R0 a l = IZR N / D) ->
  exists L, (forall i, (L <= i)%nat -> Rabs (a (S i)) <= Rabs (a i) / 2) /\ Rabs (a L) < Rabs (sum_f_R0 a L).
Proof using Htn Htd Hm.
  induction fuel as [|fuel IH]; intros l N T H (D & HD & Ea & Es); cbn [bcheck] in H;
    destruct ((14 * tn <=? td * ((Z.of_nat l + 1) * (7 * (Z.of_nat l + 1) + 4 * m))) && (Z.abs T <? Z.abs N))%Z%bool eqn:Hc.
  1,3: clear H; apply andb_prop in Hc; destruct Hc as [H1 H2]; apply Z.leb_le in H1; apply Z.ltb_lt in H2; exists l; split.
  - intros i Hi. rewrite a_den. unfold Rdiv at 1. rewrite !Rabs_mult, Rabs_Ropp. apply IZR_le in H1. rewrite den_Z, mult_IZR in H1.
    assert (Hli : den l <= den i).
    { unfold den. apply Rmult_le_compat_l; [left; apply (IZR_lt 0); exact Htd|]. apply le_INR in Hi. pose proof (pos_INR l).
      assert (1 <= IZR m) by (apply (IZR_le 1); exact Hm). apply Rmult_le_compat; lra. }
    pose proof (den_pos i) as Hd. assert (0 < IZR tn) by (apply (IZR_lt 0); exact Htn).
    rewrite (Rabs_pos_eq 7), (Rabs_pos_eq (IZR tn)), (Rabs_pos_eq (/ den i)) by (try lra; left; apply Rinv_0_lt_compat; exact Hd).
    rewrite Rmult_assoc. unfold Rdiv. apply Rmult_le_compat_l; [apply Rabs_pos|].
    apply (Rmult_le_reg_r (den i)); [exact Hd|]. rewrite Rmult_assoc, Rinv_l by lra. lra.
  - rewrite Ea, Es. unfold Rdiv. rewrite !Rabs_mult. apply Rmult_lt_compat_r; [apply Rabs_pos_lt, Rinv_neq_0_compat; lra|].
    rewrite <- !abs_IZR. apply IZR_lt. exact H2.
  - intros i Hi. rewrite a_den. unfold Rdiv at 1. rewrite !Rabs_mult, Rabs_Ropp. apply IZR_le in H1. rewrite den_Z, mult_IZR in H1.
    assert (Hli : den l <= den i).
    { unfold den. apply Rmult_le_compat_l; [left; apply (IZR_lt 0); exact Htd|]. apply le_INR in Hi. pose proof (pos_INR l).
      assert (1 <= IZR m) by (apply (IZR_le 1); exact Hm). apply Rmult_le_compat; lra. }
    pose proof (den_pos i) as Hd. assert (0 < IZR tn) by (apply (IZR_lt 0); exact Htn).
    rewrite (Rabs_pos_eq 7), (Rabs_pos_eq (IZR tn)), (Rabs_pos_eq (/ den i)) by (try lra; left; apply Rinv_0_lt_compat; exact Hd).
    rewrite Rmult_assoc. unfold Rdiv. apply Rmult_le_compat_l; [apply Rabs_pos|].
    apply (Rmult_le_reg_r (den i)); [exact Hd|]. rewrite Rmult_assoc, Rinv_l by lra. lra.
  - rewrite Ea, Es. unfold Rdiv. rewrite !Rabs_mult. apply Rmult_lt_compat_r; [apply Rabs_pos_lt, Rinv_neq_0_compat; lra|].
    rewrite <- !abs_IZR. apply IZR_lt. exact H2.
  - discriminate H.
  - cbv zeta in H. assert (IH' := IH (S l)). rewrite Nat2Z.inj_succ in IH'. unfold Z.succ in IH'. apply (IH' _ _ H). clear IH IH' H.
    pose proof (den_pos l) as Hd. exists (D * den l). split; [apply Rmult_lt_0_compat; assumption|].
    assert (E1 : a (S l) = IZR (- T * (7 * tn)) / (D * den l)).
    { rewrite a_den, Ea, !mult_IZR, opp_IZR. field. lra. }
    split; [exact E1|]. change (sum_f_R0 a (S l)) with (sum_f_R0 a l + a (S l)). rewrite E1, Es, (plus_IZR (N * _)), (mult_IZR N), den_Z. field. lra.
Qed.

Lemma bser_nonzero : forall fuel, bcheck fuel tn td m 0 1 1 = true -> bser p 0 t <> 0.
Proof using Htn Htd Hm.
  intros fuel H. destruct (bcheck_sound fuel 0 1 1 H) as (L & HL & Hs).
  { exists 1. split; [lra|]. unfold a. cbn. lra. }
  assert (He : ex_series a).
  { apply (proj1 (ex_pseries_R (bcoef p) t)). apply inf_ex. apply bcoef_radius. apply p_pos. }
  pose proof (half_tail a L He HL) as B. change (bser p 0 t) with (Series a). intros E. rewrite E in B.
  replace (0 - sum_f_R0 a L) with (- sum_f_R0 a L) in B by ring. rewrite Rabs_Ropp in B. lra.
Qed.
End Check.

(** (k R / 2)^2 = 385641/6400 and 978121/6400. *)
Lemma bchecks : forallb (fun m => bcheck 40 385641 6400 m 0 1 1 && bcheck 40 978121 6400 m 0 1 1)%bool (map (fun i => Z.of_nat i + 1)%Z (seq 0 200)) = true.
Proof. vm_compute. reflexivity. Qed.

Lemma factors_nonzero : forall jv gamma s m, gamma_like gamma -> (forall p, 0 < p -> bessel_series jv gamma p) -> (m < 200)%nat ->
  jv ((INR m + 1) * pizza_nu) (zp_k (sing_problem jv gamma s) * problem_R) <> 0.
Proof.
  intros jv gamma s m Hg Hj Hm. set (mz := (Z.of_nat m + 1)%Z). pose proof bchecks as C. rewrite forallb_forall in C.
  specialize (C mz ltac:(unfold mz; apply (in_map (fun i => Z.of_nat i + 1)%Z); apply in_seq; lia)). apply andb_prop in C. destruct C as [C1 C2].
  assert (Ep : (INR m + 1) * pizza_nu = IZR mz * (4 / 7)) by (unfold mz; rewrite plus_IZR, <- INR_IZR_INZ, nu_val; reflexivity).
  assert (Hmz : (1 <= mz)%Z) by (unfold mz; lia). assert (Hp : 0 < IZR mz * (4 / 7)) by (apply (IZR_le 1) in Hmz; lra).
  assert (G : forall x, 0 < x -> bser (IZR mz * (4 / 7)) 0 ((x / 2) ^ 2) <> 0 -> jv (IZR mz * (4 / 7)) x <> 0).
  { intros x Hx Hb. rewrite (jv_eq _ Hp jv gamma Hg (Hj _ Hp) x Hx). apply Rmult_integral_contrapositive_currified; [|exact Hb].
    apply Rmult_integral_contrapositive_currified; [apply Rgt_not_eq; unfold Rpower; apply exp_pos|]. apply Rinv_neq_0_compat. apply Hg. lra. }
  rewrite Ep. unfold problem_R. destruct s; cbn [sing_problem zp_k].
  - unfold smooth_k. apply G; [lra|]. match goal with |- bser _ _ ?x <> 0 => replace x with (IZR 385641 / IZR 6400) by field end.
    apply (bser_nonzero 385641 6400 mz ltac:(lia) ltac:(lia) Hmz 40 C1).
  - unfold smooth_k. apply G; [lra|]. match goal with |- bser _ _ ?x <> 0 => replace x with (IZR 385641 / IZR 6400) by field end.
    apply (bser_nonzero 385641 6400 mz ltac:(lia) ltac:(lia) Hmz 40 C1).
  - unfold quadratic_k. apply G; [lra|]. match goal with |- bser _ _ ?x <> 0 => replace x with (IZR 978121 / IZR 6400) by field end.
    apply (bser_nonzero 978121 6400 mz ltac:(lia) ltac:(lia) Hmz 40 C2).
Qed.
