(** Accuracy of the ODE step for a remainder with any number of modes. *)
From Coq Require Import ZArith List Bool Reals Lia Lra Psatz.
From Coquelicot Require Import Coquelicot.
From Verif Require Import Model_Py Model_Grid Model_Fourier Model_Domain Model_Ode Lib_Csum
  Proof_Fourier Proof_ArcDst Proof_Consist Proof_Taylor Proof_Ode Proof_OdeExact Spec_Fd Spec_PolarFD Spec_Ode Spec_OdeAcc.
Import ListNotations.
Open Scope R_scope.

Section Mode.
Variables (a : R) (N m : nat).
Hypothesis Ha : a < 2 * PI.
Let h := (2 * PI - a) / (INR N + 1).
Let beta := mode_freq a m.

Lemma h_pos : 0 < h.
Proof. unfold h. pose proof (pos_INR N). apply Rdiv_lt_0_compat; lra. Qed.

Lemma beta_pos : 0 < beta.
Proof. unfold beta, mode_freq. pose proof (pos_INR m). pose proof PI_RGT_0. apply Rmult_lt_0_compat; [lra|]. apply Rdiv_lt_0_compat; lra. Qed.

Lemma arc_end : a + h * (INR N + 1) = 2 * PI.
Proof. unfold h. pose proof (pos_INR N). field. lra. Qed.

Lemma beta_end : beta * (2 * PI - a) = INR (S m) * PI.
Proof. rewrite S_INR. unfold beta, mode_freq. field. lra. Qed.

Lemma sin_end : sin (beta * (2 * PI - a)) = 0.
Proof. rewrite beta_end. apply sin_eq_0_1. exists (Z.of_nat (S m)). rewrite INR_IZR_INZ. reflexivity. Qed.

Lemma sin_start : sin (beta * (a - a)) = 0.
Proof. replace (a - a) with 0 by ring. rewrite Rmult_0_r. apply sin_0. Qed.

(** ** The trapezoidal rule with end correction *)

Lemma em_cell : forall (g : nat -> R -> R) x d G, 0 <= d ->
  (forall i t, (i < 4)%nat -> is_derive (g i) t (g (S i) t)) ->
  (forall t, x <= t <= x + d -> Rabs (g 4%nat t) <= G) ->
  Rabs (RInt (g 0%nat) x (x + d) - d / 2 * (g 0%nat x + g 0%nat (x + d)) + d ^ 2 / 12 * (g 1%nat (x + d) - g 1%nat x)) <= G / 720 * d ^ 5.
Proof.
  intros g x d G Hd Hg HG.
  assert (HG0 : 0 <= G) by (pose proof (HG x ltac:(lra)); pose proof (Rabs_pos (g 4%nat x)); lra).
  assert (Hc : forall t, continuous (g 0%nat) t).
  { intros t. apply (ex_derive_continuous (K := R_AbsRing) (V := R_NormedModule)). exists (g 1%nat t). apply Hg. lia. }
  assert (U : forall i t, (i < 4)%nat -> Derive (fun y => g i y) (x + t) = g (S i) (x + t)).
  { intros i t Hi. apply is_derive_unique. apply Hg. exact Hi. }
  assert (Xd : forall i t, (i < 4)%nat -> ex_derive (fun y => g i y) (x + t)).
  { intros i t Hi. eexists. apply Hg. exact Hi. }
  assert (H3 : forall t, 0 <= t <= d -> Rabs (1 / 6 * (g 1%nat (x + t) - g 1%nat x) - t / 6 * g 2%nat (x + t) + t ^ 2 / 12 * g 3%nat (x + t)) <= G / 36 * t ^ 3).
  { apply (mono_bound (fun t => 1 / 6 * (g 1%nat (x + t) - g 1%nat x) - t / 6 * g 2%nat (x + t) + t ^ 2 / 12 * g 3%nat (x + t)) (fun t => t ^ 2 / 12 * g 4%nat (x + t)) (G / 36) 2 d).
    - lra.
    - rewrite Rplus_0_r. field.
    - intros t Ht. auto_derive; [repeat split; try exact I; apply Xd; lia|]. rewrite !U by lia. field.
    - intros t Ht. pose proof (HG (x + t) ltac:(lra)) as B. rewrite Rabs_mult, (Rabs_pos_eq (t ^ 2 / 12)) by (pose proof (pow2_ge_0 t); lra).
      apply Rle_trans with (t ^ 2 / 12 * G); [apply Rmult_le_compat_l; [pose proof (pow2_ge_0 t); lra|exact B]|]. simpl. lra. }
  assert (H2 : forall t, 0 <= t <= d -> Rabs (1 / 2 * (g 0%nat (x + t) - g 0%nat x) - t / 3 * g 1%nat (x + t) - t / 6 * g 1%nat x + t ^ 2 / 12 * g 2%nat (x + t)) <= G / 144 * t ^ 4).
  { apply (mono_bound (fun t => 1 / 2 * (g 0%nat (x + t) - g 0%nat x) - t / 3 * g 1%nat (x + t) - t / 6 * g 1%nat x + t ^ 2 / 12 * g 2%nat (x + t))
      (fun t => 1 / 6 * (g 1%nat (x + t) - g 1%nat x) - t / 6 * g 2%nat (x + t) + t ^ 2 / 12 * g 3%nat (x + t)) (G / 144) 3 d).
    - lra.
    - rewrite Rplus_0_r. field.
    - intros t Ht. auto_derive; [repeat split; try exact I; apply Xd; lia|]. rewrite !U by lia. field.
    - intros t Ht. eapply Rle_trans; [apply H3; exact Ht|]. simpl. lra. }
  assert (H1 : forall t, 0 <= t <= d -> Rabs (RInt (g 0%nat) x (x + t) - t / 2 * (g 0%nat x + g 0%nat (x + t)) + t ^ 2 / 12 * (g 1%nat (x + t) - g 1%nat x)) <= G / 720 * t ^ 5).
  { apply (mono_bound (fun t => RInt (g 0%nat) x (x + t) - t / 2 * (g 0%nat x + g 0%nat (x + t)) + t ^ 2 / 12 * (g 1%nat (x + t) - g 1%nat x))
      (fun t => 1 / 2 * (g 0%nat (x + t) - g 0%nat x) - t / 3 * g 1%nat (x + t) - t / 6 * g 1%nat x + t ^ 2 / 12 * g 2%nat (x + t)) (G / 720) 4 d).
    - lra.
    - rewrite Rplus_0_r. replace (RInt (g 0%nat) x x) with 0 by (symmetry; exact (RInt_point x (g 0%nat))). field.
    - intros t Ht.
      assert (DI : is_derive (fun t => RInt (g 0%nat) x (x + t)) t (g 0%nat (x + t))).
      { replace (g 0%nat (x + t)) with (1 * g 0%nat (x + t)) by ring.
        apply (is_derive_comp (fun u => RInt (g 0%nat) x u) (fun t => x + t)); [|auto_derive; [exact I|ring]].
        apply (is_derive_RInt (g 0%nat) (fun u => RInt (g 0%nat) x u) x).
        - apply filter_forall. intros u. apply (RInt_correct (V := R_CompleteNormedModule)), (ex_RInt_continuous (V := R_CompleteNormedModule)). intros z _. apply Hc.
        - apply Hc. }
      assert (A : forall J : R -> R, is_derive J t (g 0%nat (x + t)) ->
        is_derive (fun t => J t - t / 2 * (g 0%nat x + g 0%nat (x + t)) + t ^ 2 / 12 * (g 1%nat (x + t) - g 1%nat x)) t
          (1 / 2 * (g 0%nat (x + t) - g 0%nat x) - t / 3 * g 1%nat (x + t) - t / 6 * g 1%nat x + t ^ 2 / 12 * g 2%nat (x + t))).
      { intros J DJ. auto_derive; [repeat split; try exact I; first [apply Xd; lia|eexists; exact DJ]|].
        replace (Derive (fun t => J t) t) with (g 0%nat (x + t)) by (symmetry; apply is_derive_unique; exact DJ).
        rewrite !U by lia. field. }
      apply (A (fun t => RInt (g 0%nat) x (x + t)) DI).
    - intros t Ht. eapply Rle_trans; [apply H2; exact Ht|]. simpl. lra. }
  apply H1. lra.
Qed.

Lemma em_sum : forall (g : nat -> R -> R) G,
  (forall i t, (i < 4)%nat -> is_derive (g i) t (g (S i) t)) ->
  (forall t, a <= t <= 2 * PI -> Rabs (g 4%nat t) <= G) ->
  g 0%nat a = 0 -> g 0%nat (2 * PI) = 0 -> g 1%nat a = 0 -> g 1%nat (2 * PI) = 0 ->
  Rabs (h * rsum N (fun l => g 0%nat (arc_pt a N l)) - RInt (g 0%nat) a (2 * PI)) <= (2 * PI - a) * h ^ 4 / 720 * G.
Proof using Ha.
  intros g G Hg HG G0 G1 G2 G3. pose proof h_pos as Hh. pose proof (pos_INR N) as HN.
  assert (Hc : forall t, continuous (g 0%nat) t).
  { intros t. apply (ex_derive_continuous (K := R_AbsRing) (V := R_NormedModule)). exists (g 1%nat t). apply Hg. lia. }
  assert (Hex : forall u v, ex_RInt (g 0%nat) u v) by (intros u v; apply (ex_RInt_continuous (V := R_CompleteNormedModule)); intros z _; apply Hc).
  assert (K : forall n, (n <= S N)%nat ->
    Rabs (h * rsum n (fun l => g 0%nat (a + h * INR l)) + h / 2 * (g 0%nat (a + h * INR n) - g 0%nat a)
          - h ^ 2 / 12 * (g 1%nat (a + h * INR n) - g 1%nat a) - RInt (g 0%nat) a (a + h * INR n)) <= INR n * (G / 720 * h ^ 5)).
  { induction n as [|n IH]; intros Hn.
    - cbn [rsum INR]. rewrite Rmult_0_r, Rplus_0_r. replace (RInt (g 0%nat) a a) with 0 by (symmetry; exact (RInt_point a (g 0%nat))).
      match goal with |- Rabs ?e <= _ => replace e with 0 by field end. rewrite Rabs_R0. lra.
    - specialize (IH ltac:(lia)). cbn [rsum]. rewrite S_INR.
      assert (Hle : INR n + 1 <= INR N + 1) by (rewrite <- !S_INR; apply le_INR; exact Hn).
      pose proof (pos_INR n). pose proof arc_end as AE.
      pose proof (em_cell g (a + h * INR n) h G (Rlt_le _ _ Hh) Hg) as T.
      replace (a + h * INR n + h) with (a + h * (INR n + 1)) in T by ring.
      match type of T with ?P -> _ => assert (HP : P) end.
      { intros t Ht. apply HG. split; [assert (0 <= h * INR n) by (apply Rmult_le_pos; lra); lra|].
        rewrite <- AE. assert (h * (INR n + 1) <= h * (INR N + 1)) by (apply Rmult_le_compat_l; lra). lra. }
      specialize (T HP).
      rewrite <- (RInt_Chasles (g 0%nat) a (a + h * INR n) (a + h * (INR n + 1))) by apply Hex. unfold plus. simpl AbelianGroup.plus.
      set (I1 := RInt (g 0%nat) a (a + h * INR n)) in *. set (I2 := RInt (g 0%nat) (a + h * INR n) (a + h * (INR n + 1))) in *.
      set (Sn := rsum n (fun l => g 0%nat (a + h * INR l))) in *.
      match type of T with Rabs ?e <= _ => match type of IH with Rabs ?e' <= _ =>
        match goal with |- Rabs ?e0 <= _ => replace e0 with (e' + - e) by (change (e' + - e = e0); change (@AbelianGroup.plus _ _ I1 I2) with (I1 + I2); field) end end end.
      eapply Rle_trans; [apply Rabs_triang|]. rewrite Rabs_Ropp. lra. }
  specialize (K (S N) (le_n _)). rewrite S_INR, arc_end, G0, G1, G2, G3 in K.
  rewrite rsum_shift in K. cbv beta in K. change (INR 0) with 0 in K. rewrite Rmult_0_r, Rplus_0_r, G0 in K.
  rewrite (rsum_ext N (fun l => g 0%nat (a + h * INR (S l))) (fun l => g 0%nat (arc_pt a N l))) in K by (intros l _; rewrite S_INR; reflexivity).
  match type of K with Rabs ?e <= _ => replace e with (h * rsum N (fun l => g 0%nat (arc_pt a N l)) - RInt (g 0%nat) a (2 * PI)) in K by field end.
  eapply Rle_trans; [exact K|]. right. replace (2 * PI - a) with (h * (INR N + 1)) by (rewrite <- arc_end; ring). field.
Qed.

(** The product with a mode and its derivatives. *)
Definition prod_d (phi : nat -> R -> R) (i : nat) (t : R) : R :=
  let s := sin (beta * (t - a)) in
  let c := cos (beta * (t - a)) in
  match i with
  | 0%nat => phi 0%nat t * s
  | 1%nat => phi 1%nat t * s + beta * phi 0%nat t * c
  | 2%nat => phi 2%nat t * s + 2 * beta * phi 1%nat t * c - beta ^ 2 * phi 0%nat t * s
  | 3%nat => phi 3%nat t * s + 3 * beta * phi 2%nat t * c - 3 * beta ^ 2 * phi 1%nat t * s - beta ^ 3 * phi 0%nat t * c
  | _ => phi 4%nat t * s + 4 * beta * phi 3%nat t * c - 6 * beta ^ 2 * phi 2%nat t * s - 4 * beta ^ 3 * phi 1%nat t * c + beta ^ 4 * phi 0%nat t * s
  end.

Lemma prod_derive : forall phi, (forall i t, (i < 4)%nat -> is_derive (phi i) t (phi (S i) t)) ->
  forall i t, (i < 4)%nat -> is_derive (prod_d phi i) t (prod_d phi (S i) t).
Proof.
  intros phi H i t Hi.
  assert (U : forall j, (j < 4)%nat -> Derive (fun y => phi j y) t = phi (S j) t) by (intros j Hj; apply is_derive_unique, H; exact Hj).
  assert (Xd : forall j, (j < 4)%nat -> ex_derive (fun y => phi j y) t) by (intros j Hj; eexists; apply H; exact Hj).
  destruct i as [|[|[|[|i]]]]; [| | | |lia]; unfold prod_d;
    (auto_derive; [repeat split; try exact I; apply Xd; lia|]; rewrite !U by lia; unfold Rminus; ring).
Qed.

Lemma mul_bound : forall c p q K, 0 <= c -> Rabs p <= K -> Rabs q <= 1 -> Rabs (c * p * q) <= c * K.
Proof.
  intros c p q K Hc Hp Hq. rewrite !Rabs_mult, (Rabs_pos_eq c Hc). rewrite Rmult_assoc. apply Rmult_le_compat_l; [exact Hc|].
  pose proof (Rabs_pos p). pose proof (Rabs_pos q). nra.
Qed.

Lemma prod_bound : forall phi (K : nat -> R) j t, (forall i, (i <= 4)%nat -> Rabs (phi i t) <= K (i + j)%nat) ->
  Rabs (prod_d phi 4 t) <= product4 beta K j.
Proof using Ha.
  intros phi K j t H. pose proof beta_pos as Hb. unfold prod_d, product4.
  set (s := sin (beta * (t - a))). set (c := cos (beta * (t - a))).
  assert (Hs : Rabs s <= 1) by (apply Rabs_le, SIN_bound). assert (Hcc : Rabs c <= 1) by (apply Rabs_le, COS_bound).
  assert (Q : forall i, 0 <= beta ^ i) by (intros i; apply pow_le; lra).
  pose proof (mul_bound 1 _ s _ ltac:(lra) (H 4%nat ltac:(lia)) Hs) as B4.
  pose proof (mul_bound (4 * beta) _ c _ ltac:(lra) (H 3%nat ltac:(lia)) Hcc) as B3.
  pose proof (mul_bound (6 * beta ^ 2) _ s _ ltac:(pose proof (Q 2%nat); lra) (H 2%nat ltac:(lia)) Hs) as B2.
  pose proof (mul_bound (4 * beta ^ 3) _ c _ ltac:(pose proof (Q 3%nat); lra) (H 1%nat ltac:(lia)) Hcc) as B1.
  pose proof (mul_bound (beta ^ 4) _ s _ (Q 4%nat) (H 0%nat ltac:(lia)) Hs) as B0.
  rewrite !Rmult_1_l in B4. change (K (0 + j)%nat) with (K j) in B0.
  apply Rabs_le. apply Rabs_le_between in B4, B3, B2, B1, B0. lra.
Qed.

Lemma dst_coef : forall phi (K : nat -> R) j, (forall i t, (i < 4)%nat -> is_derive (phi i) t (phi (S i) t)) ->
  phi 0%nat a = 0 -> phi 0%nat (2 * PI) = 0 ->
  (forall i t, (i <= 4)%nat -> a <= t <= 2 * PI -> Rabs (phi i t) <= K (i + j)%nat) ->
  Rabs (ode_dst a N (phi 0%nat) m - sine_coef a (phi 0%nat) m) <= h ^ 4 / 360 * product4 beta K j.
Proof using Ha.
  intros phi K j Hd P0 P1 HK. pose proof h_pos as Hh. pose proof (pos_INR N) as HN.
  set (g := prod_d phi).
  assert (E : ode_dst a N (phi 0%nat) m = 2 / (2 * PI - a) * (h * rsum N (fun l => g 0%nat (arc_pt a N l)))).
  { rewrite ode_dst_sum. unfold h. rewrite (rsum_ext N (fun l => g 0%nat (arc_pt a N l)) (fun l => dst_w N m l * phi 0%nat (arc_pt a N l))).
    - set (S0 := rsum N _). field. lra.
    - intros l _. unfold g, prod_d, dst_w. rewrite Rmult_comm.
      replace (PI * (INR m + 1) * (INR l + 1) / (INR N + 1)) with (beta * (arc_pt a N l - a)) by (unfold arc_pt, beta, mode_freq; field; lra). reflexivity. }
  rewrite E. unfold sine_coef. rewrite <- Rmult_minus_distr_l, Rabs_mult, Rabs_pos_eq by (left; apply Rdiv_lt_0_compat; lra).
  apply Rmult_le_reg_l with ((2 * PI - a) / 2); [lra|].
  change (RInt (fun th => phi 0%nat th * sin (mode_freq a m * (th - a))) a (2 * PI)) with (RInt (g 0%nat) a (2 * PI)).
  set (Q := Rabs _). replace ((2 * PI - a) / 2 * (2 / (2 * PI - a) * Q)) with Q by (field; lra). unfold Q.
  replace ((2 * PI - a) / 2 * (h ^ 4 / 360 * product4 beta K j)) with ((2 * PI - a) * h ^ 4 / 720 * product4 beta K j) by field.
  apply em_sum.
  - apply prod_derive. exact Hd.
  - intros t Ht. apply prod_bound. intros i Hi. apply HK; assumption.
  - unfold g, prod_d. rewrite P0. ring.
  - unfold g, prod_d. rewrite P1. ring.
  - unfold g, prod_d. rewrite sin_start, P0. ring.
  - unfold g, prod_d. rewrite sin_end, P1. ring.
Qed.

Lemma coef_second : forall phi, (forall i t, (i < 3)%nat -> is_derive (phi i) t (phi (S i) t)) ->
  phi 0%nat a = 0 -> phi 0%nat (2 * PI) = 0 ->
  sine_coef a (phi 2%nat) m = - beta ^ 2 * sine_coef a (phi 0%nat) m.
Proof using Ha.
  intros phi Hd P0 P1.
  set (F := fun t => phi 1%nat t * sin (beta * (t - a)) - beta * phi 0%nat t * cos (beta * (t - a))).
  set (f := fun t => phi 2%nat t * sin (beta * (t - a)) + beta ^ 2 * (phi 0%nat t * sin (beta * (t - a)))).
  assert (C : forall i t, (i < 3)%nat -> continuous (phi i) t).
  { intros i t Hi. apply (ex_derive_continuous (K := R_AbsRing) (V := R_NormedModule)). exists (phi (S i) t). apply Hd. exact Hi. }
  assert (Cs : forall t, continuous (fun t => sin (beta * (t - a))) t).
  { intros t. apply (ex_derive_continuous (K := R_AbsRing) (V := R_NormedModule)). auto_derive. exact I. }
  assert (C2 : forall t, continuous (fun t => phi 2%nat t * sin (beta * (t - a))) t).
  { intros t. apply (continuous_mult (K := R_AbsRing)); [apply C; lia|apply Cs]. }
  assert (C0 : forall t, continuous (fun t => phi 0%nat t * sin (beta * (t - a))) t).
  { intros t. apply (continuous_mult (K := R_AbsRing)); [apply C; lia|apply Cs]. }
  assert (HI : is_RInt f a (2 * PI) (F (2 * PI) - F a)).
  { apply (is_RInt_derive (V := R_CompleteNormedModule) F f).
    - intros t _. unfold F, f.
      auto_derive; [repeat split; try exact I; eexists; apply Hd; lia|].
      replace (Derive (fun y => phi 1%nat y) t) with (phi 2%nat t) by (symmetry; apply is_derive_unique, Hd; lia).
      replace (Derive (fun y => phi 0%nat y) t) with (phi 1%nat t) by (symmetry; apply is_derive_unique, Hd; lia).
      unfold Rminus. ring.
    - intros t _. unfold f. apply (continuous_plus (V := R_NormedModule)); [apply C2|].
      apply (continuous_mult (K := R_AbsRing)); [apply continuous_const|apply C0]. }
  assert (EF : F (2 * PI) - F a = 0) by (unfold F; rewrite sin_end, sin_start, P0, P1; ring).
  rewrite EF in HI.
  assert (X2 : ex_RInt (fun t => phi 2%nat t * sin (beta * (t - a))) a (2 * PI)) by (apply (ex_RInt_continuous (V := R_CompleteNormedModule)); intros; apply C2).
  assert (X0 : ex_RInt (fun t => phi 0%nat t * sin (beta * (t - a))) a (2 * PI)) by (apply (ex_RInt_continuous (V := R_CompleteNormedModule)); intros; apply C0).
  assert (HJ : is_RInt f a (2 * PI) (RInt (fun t => phi 2%nat t * sin (beta * (t - a))) a (2 * PI) + beta ^ 2 * RInt (fun t => phi 0%nat t * sin (beta * (t - a))) a (2 * PI))).
  { apply (is_RInt_plus (V := R_CompleteNormedModule)); [apply (RInt_correct (V := R_CompleteNormedModule)); exact X2|].
    apply (is_RInt_scal (V := R_CompleteNormedModule)). apply (RInt_correct (V := R_CompleteNormedModule)). exact X0. }
  pose proof (is_RInt_unique (V := R_CompleteNormedModule) _ _ _ _ HI) as E1.
  pose proof (is_RInt_unique (V := R_CompleteNormedModule) _ _ _ _ HJ) as E2. rewrite E1 in E2.
  unfold sine_coef. fold beta.
  replace (RInt (fun th => phi 2%nat th * sin (beta * (th - a))) a (2 * PI)) with
    (- beta ^ 2 * RInt (fun th => phi 0%nat th * sin (beta * (th - a))) a (2 * PI)) by lra. ring.
Qed.

(** The transform of the second derivative. *)
Lemma dst_second : forall phi (K : nat -> R), (forall i t, (i < 6)%nat -> is_derive (phi i) t (phi (S i) t)) ->
  phi 0%nat a = 0 -> phi 0%nat (2 * PI) = 0 -> phi 2%nat a = 0 -> phi 2%nat (2 * PI) = 0 ->
  (forall i t, (i <= 6)%nat -> a <= t <= 2 * PI -> Rabs (phi i t) <= K i) ->
  Rabs (ode_dst a N (phi 2%nat) m + beta ^ 2 * ode_dst a N (phi 0%nat) m) <=
  h ^ 4 / 360 * (product4 beta K 2 + beta ^ 2 * product4 beta K 0).
Proof using Ha.
  intros phi K Hd P0 P1 Q0 Q1 HK.
  pose proof (dst_coef phi K 0%nat ltac:(intros; apply Hd; lia) P0 P1) as B0.
  pose proof (dst_coef (fun i => phi (S (S i))) K 2%nat ltac:(intros; apply Hd; lia) Q0 Q1) as B2.
  match type of B0 with ?P -> _ => assert (HP : P) by (intros i t Hi Ht; rewrite Nat.add_0_r; apply HK; [lia|exact Ht]); specialize (B0 HP); clear HP end.
  match type of B2 with ?P -> _ => assert (HP : P) by (intros i t Hi Ht; replace (i + 2)%nat with (S (S i)) by lia; apply HK; [lia|exact Ht]); specialize (B2 HP); clear HP end.
  cbv beta in B2. rewrite (coef_second phi) in B2 by (try assumption; intros; apply Hd; lia).
  replace (ode_dst a N (phi 2%nat) m + beta ^ 2 * ode_dst a N (phi 0%nat) m) with
    ((ode_dst a N (phi 2%nat) m - - beta ^ 2 * sine_coef a (phi 0%nat) m) + beta ^ 2 * (ode_dst a N (phi 0%nat) m - sine_coef a (phi 0%nat) m)) by ring.
  eapply Rle_trans; [apply Rabs_triang|]. rewrite Rabs_mult, (Rabs_pos_eq (beta ^ 2)) by apply pow2_ge_0.
  rewrite Rmult_plus_distr_l. apply Rplus_le_compat; [exact B2|].
  replace (h ^ 4 / 360 * (beta ^ 2 * product4 beta K 0)) with (beta ^ 2 * (h ^ 4 / 360 * product4 beta K 0)) by ring.
  apply Rmult_le_compat_l; [apply pow2_ge_0|exact B0].
Qed.

End Mode.

(** ** Stability with a defect in the angle *)

Lemma gronwall2 : forall (E E' : R -> R) lam B R0 R1, 0 < R0 < R1 -> 0 <= lam -> 0 <= B ->
  (forall r, R0 < r < R1 -> is_derive E r (E' r) /\ E' r <= (lam / r + 1) * E r + B) ->
  (forall r, R0 <= r <= R1 -> continuous E r) ->
  E R1 <= (E R0 + B * (R1 - R0)) * (Rpower (R1 / R0) lam * exp (R1 - R0)).
Proof.
  intros E E' lam B R0 R1 H HL HB HE HC.
  set (W := fun r => exp (- (lam * (ln r - ln R0) + (r - R0)))).
  assert (HW : forall r, R0 <= r -> 0 < W r <= 1).
  { intros r Hr. split; [apply exp_pos|]. unfold W. rewrite <- exp_0.
    assert (Hl : ln R0 <= ln r) by (destruct (Req_dec R0 r) as [->|]; [lra|left; apply ln_increasing; lra]).
    assert (0 <= lam * (ln r - ln R0)) by (apply Rmult_le_pos; lra).
    destruct (Req_dec (lam * (ln r - ln R0) + (r - R0)) 0) as [->|]; [rewrite Ropp_0; lra|]. left. apply exp_increasing. lra. }
  assert (DW : forall r, 0 < r -> is_derive W r (- (lam / r + 1) * W r)).
  { intros r Hr. unfold W. auto_derive; [exact Hr|]. unfold Rminus. field. lra. }
  assert (HG : E R1 * W R1 - B * (R1 - R0) <= E R0 * W R0 - B * (R0 - R0)).
  { apply (decreasing (fun r => E r * W r - B * (r - R0)) (fun r => (E' r - (lam / r + 1) * E r) * W r - B)); [lra| |].
    - intros r Hr. destruct (HE r Hr) as [Hd Hle]. pose proof (DW r ltac:(lra)) as Hw. split.
      + auto_derive; [split; [exists (E' r); exact Hd|split; [eexists; exact Hw|exact I]]|].
        replace (Derive (fun x => E x) r) with (E' r) by (symmetry; apply is_derive_unique; exact Hd).
        replace (Derive (fun x => W x) r) with (- (lam / r + 1) * W r) by (symmetry; apply is_derive_unique; exact Hw). unfold Rminus. ring.
      + pose proof (HW r ltac:(lra)). nra.
    - intros r Hr. apply (continuous_minus (V := R_NormedModule)).
      + apply (continuous_mult (K := R_AbsRing)); [apply HC; assumption|].
        apply (ex_derive_continuous (K := R_AbsRing) (V := R_NormedModule)). eexists. apply DW. lra.
      + apply (ex_derive_continuous (K := R_AbsRing) (V := R_NormedModule)). auto_derive. exact I. }
  assert (E0 : W R0 = 1) by (unfold W; rewrite <- exp_0; f_equal; ring).
  assert (E1 : W R1 * (Rpower (R1 / R0) lam * exp (R1 - R0)) = 1).
  { unfold W, Rpower. rewrite ln_div by lra. rewrite <- !exp_plus, <- exp_0. f_equal. ring. }
  rewrite E0 in HG. set (X := Rpower (R1 / R0) lam * exp (R1 - R0)) in *.
  assert (HX : 0 < X) by (apply Rmult_lt_0_compat; [apply exp_pos|apply exp_pos]).
  replace (E R1) with (E R1 * W R1 * X) by (rewrite Rmult_assoc, E1; ring).
  apply Rmult_le_compat_r; lra.
Qed.

Lemma energy2 : forall y v r k be rho e, 0 < r -> 0 <= be -> Rabs rho <= e ->
  2 * v * (- v / r - (k ^ 2 - (be / r) ^ 2) * y + rho) + (- 2 * be ^ 2 / r ^ 3 * y ^ 2 + (k ^ 2 + (be / r) ^ 2) * (2 * y * v)) <=
  (2 * be / r + 1) * (v ^ 2 + (k ^ 2 + (be / r) ^ 2) * y ^ 2) + e ^ 2.
Proof.
  intros y v r k be rho e Hr Hb He.
  assert (Hi : 0 < / r) by (apply Rinv_0_lt_compat; exact Hr).
  assert (Hq : rho ^ 2 <= e ^ 2) by (pose proof (Rabs_pos rho); rewrite <- (pow2_abs rho); nra).
  set (b := be / r). assert (H0 : 0 <= b) by (unfold b; apply Rmult_le_pos; lra).
  replace (2 * v * (- v / r - (k ^ 2 - b ^ 2) * y + rho) + (- 2 * be ^ 2 / r ^ 3 * y ^ 2 + (k ^ 2 + b ^ 2) * (2 * y * v)))
    with (- 2 * (/ r * v ^ 2) + 2 * v * rho - 2 * (/ r * (b * y) ^ 2) + 4 * b ^ 2 * (y * v)) by (unfold b; field; lra).
  replace (2 * be / r) with (2 * b) by (unfold b; field; lra).
  assert (A1 : 0 <= / r * v ^ 2) by (apply Rmult_le_pos; [lra|apply pow2_ge_0]).
  assert (A2 : 0 <= / r * (b * y) ^ 2) by (apply Rmult_le_pos; [lra|apply pow2_ge_0]).
  assert (A3 : 0 <= 2 * b * (b * y - v) ^ 2) by (apply Rmult_le_pos; [lra|apply pow2_ge_0]).
  assert (A4 : 0 <= (v - rho) ^ 2) by apply pow2_ge_0.
  assert (A5 : 0 <= (2 * b + 1) * (k * y) ^ 2) by (apply Rmult_le_pos; [lra|apply pow2_ge_0]).
  assert (A6 : 0 <= (b * y) ^ 2) by apply pow2_ge_0.
  replace ((2 * b + 1) * (v ^ 2 + (k ^ 2 + b ^ 2) * y ^ 2)) with
    (2 * b * (b * y - v) ^ 2 + 4 * b ^ 2 * (y * v) + v ^ 2 + (2 * b + 1) * (k * y) ^ 2 + (b * y) ^ 2) by ring.
  replace ((v - rho) ^ 2) with (v ^ 2 - 2 * v * rho + rho ^ 2) in A4 by ring. lra.
Qed.

Lemma ode_defect : forall odeint init d_init f1 a k R0 R1 M N z1 Z f d0 d1 d2 e m,
  a < 2 * PI -> 0 < R0 < R1 -> (M <= N)%nat -> 0 <= d0 -> 0 <= d1 -> 0 <= d2 -> 0 <= e -> (m < M)%nat ->
  (let deriv := ode_eval_deriv a (PI / (2 * PI - a)) k N f1 M in let ic := ode_ic a R0 N init d_init in
   trajectory deriv (2 * M) ic R0 R1 (odeint deriv (2 * M)%nat ic R0 R1)) ->
  partials 2 (fun r th => R0 < r < R1 /\ a < th < 2 * PI) z1 Z ->
  (forall r th, R0 <= r <= R1 -> a < th < 2 * PI ->
     continuous (fun r => z1 r th) r /\ continuous (fun r => Z 1%nat 0%nat r th) r) ->
  (forall r th, R0 < r < R1 -> a < th < 2 * PI -> polar_helmholtz k Z r th = f r th) ->
  (forall r, R0 < r < R1 ->
     Rabs (ode_dst a N (Z 0%nat 2%nat r) m + mode_freq a m ^ 2 * ode_dst a N (z1 r) m) <= e) ->
  (forall th, a < th < 2 * PI -> Rabs (init R0 th - z1 R0 th) <= d0) ->
  (forall th, a < th < 2 * PI -> Rabs (d_init R0 th - Z 1%nat 0%nat R0 th) <= d1) ->
  (forall r th, R0 < r < R1 -> a < th < 2 * PI -> Rabs (f1 r th - f r th) <= d2) ->
  let beta := mode_freq a m in
  (k ^ 2 + (beta / R1) ^ 2) * (nth m (ode_calc_z1_fourier odeint init d_init f1 a (PI / (2 * PI - a)) k R0 R1 M N) 0 - ode_dst a N (z1 R1) m) ^ 2 <=
  (4 * d1 ^ 2 + (k ^ 2 + (beta / R0) ^ 2) * (4 * d0 ^ 2) + (2 * d2 + e / R0 ^ 2) ^ 2 * (R1 - R0))
    * (Rpower (R1 / R0) (2 * beta) * exp (R1 - R0)).
Proof.
  intros odeint init d_init f1 a k R0 R1 M N z1 Z f d0 d1 d2 e m Ha HR HM Hd0 Hd1 Hd2 He Hm Ht [HZ0 HZ] HC Heq Hdef
    Hi Hdi Hf beta.
  cbv zeta in Ht. destruct Ht as [Y [Hend [Hcont HY]]].
  set (nu := PI / (2 * PI - a)) in *.
  assert (Eb : INR (m + 1) * nu = beta) by (rewrite plus_INR; reflexivity).
  assert (Hb : 0 < beta) by (apply beta_pos; exact Ha). fold beta in Hdef.
  set (d := fun r => ode_dst a N (z1 r) m).
  set (w := fun r => ode_dst a N (Z 1%nat 0%nat r) m).
  set (s := fun r => ode_dst a N (Z 2%nat 0%nat r) m).
  assert (Dd : forall r, R0 < r < R1 -> is_derive d r (w r)).
  { intros r Hr. unfold d, w. apply ode_dst_derive; [assumption|]. intros th Hth.
    apply (is_derive_ext (fun r => Z 0%nat 0%nat r th)); [intros; apply HZ0|].
    apply (HZ 0%nat 0%nat); [lia|split; assumption]. }
  assert (Dw : forall r, R0 < r < R1 -> is_derive w r (s r)).
  { intros r Hr. unfold w, s. apply ode_dst_derive; [assumption|]. intros th Hth.
    apply (HZ 1%nat 0%nat); [lia|split; assumption]. }
  set (df := fun r => (ode_dst a N (Z 0%nat 2%nat r) m + beta ^ 2 * d r) / r ^ 2).
  assert (Hs : forall r, R0 < r < R1 ->
    s r = - w r / r - (k ^ 2 - (beta / r) ^ 2) * d r + ode_dst a N (f r) m - df r).
  { intros r Hr.
    assert (E : ode_dst a N (f r) m = s r + (/ r * w r + (/ r ^ 2 * ode_dst a N (Z 0%nat 2%nat r) m + k ^ 2 * d r))).
    { unfold s, w, d. rewrite <- !ode_dst_scal, <- !ode_dst_plus. apply ode_dst_loc; [assumption|].
      intros th Hth. rewrite <- Heq by assumption. unfold polar_helmholtz. rewrite HZ0. field. lra. }
    rewrite E. unfold df. field. lra. }
  set (y := fun r => Y r (2 * m)%nat - d r).
  set (v := fun r => Y r (2 * m + 1)%nat - w r).
  set (rho := fun r => ode_dst a N (f1 r) m - ode_dst a N (f r) m + df r).
  assert (Dy : forall r, R0 < r < R1 -> is_derive y r (v r)).
  { intros r Hr. unfold y, v. apply (is_derive_minus (V := R_NormedModule)); [|apply Dd; assumption].
    destruct (HY r Hr) as [D [HD Hdv]]. unfold ode_eval_deriv, Reqb in HD. destruct (Req_EM_T r 0) as [E|E]; [lra|].
    apply Ok_inj in HD. pose proof (Hdv (2 * m)%nat ltac:(lia)) as H. rewrite <- HD in H. cbv beta zeta in H.
    destruct (even_div m) as [E1 _]. rewrite E1 in H. exact H. }
  assert (Dv : forall r, R0 < r < R1 -> is_derive v r (- v r / r - (k ^ 2 - (beta / r) ^ 2) * y r + rho r)).
  { intros r Hr. unfold v.
    replace (- (Y r (2 * m + 1)%nat - w r) / r - (k ^ 2 - (beta / r) ^ 2) * y r + rho r)
      with ((- Y r (2 * m + 1)%nat / r - (k ^ 2 - (beta / r) ^ 2) * Y r (2 * m)%nat + ode_dst a N (f1 r) m) - s r)
      by (rewrite (Hs r Hr); unfold y, rho; field; lra).
    apply (is_derive_minus (V := R_NormedModule)); [|apply Dw; assumption].
    destruct (HY r Hr) as [D [HD Hdv]]. unfold ode_eval_deriv, Reqb in HD. destruct (Req_EM_T r 0) as [E|E]; [lra|].
    apply Ok_inj in HD. pose proof (Hdv (2 * m + 1)%nat ltac:(lia)) as H. rewrite <- HD in H. cbv beta zeta in H.
    destruct (even_div m) as [_ [E2 [_ E4]]]. rewrite E2, E4, Eb in H.
    replace (2 * m + 1 - 1)%nat with (2 * m)%nat in H by lia.
    replace (m + 1 - 1)%nat with m in H by lia. exact H. }
  assert (HG : v R1 ^ 2 + (k ^ 2 + (beta / R1) ^ 2) * y R1 ^ 2 <=
    (v R0 ^ 2 + (k ^ 2 + (beta / R0) ^ 2) * y R0 ^ 2 + (2 * d2 + e / R0 ^ 2) ^ 2 * (R1 - R0)) * (Rpower (R1 / R0) (2 * beta) * exp (R1 - R0))).
  { apply (gronwall2 (fun r => v r ^ 2 + (k ^ 2 + (beta / r) ^ 2) * y r ^ 2)
      (fun r => 2 * v r * (- v r / r - (k ^ 2 - (beta / r) ^ 2) * y r + rho r)
        + (- 2 * beta ^ 2 / r ^ 3 * y r ^ 2 + (k ^ 2 + (beta / r) ^ 2) * (2 * y r * v r))));
      [lra|lra|apply pow2_ge_0| |].
    - intros r Hr. split.
      + pose proof (Dy r Hr) as A1. pose proof (Dv r Hr) as A2.
        auto_derive; [repeat split; try exact I; try lra; eexists; first [exact A1|exact A2]|].
        replace (Derive (fun x => y x) r) with (v r) by (symmetry; apply is_derive_unique; exact A1).
        replace (Derive (fun x => v x) r) with (- v r / r - (k ^ 2 - (beta / r) ^ 2) * y r + rho r)
          by (symmetry; apply is_derive_unique; exact A2). field. lra.
      + apply energy2; [lra|lra|].
        unfold rho. eapply Rle_trans; [apply Rabs_triang|]. apply Rplus_le_compat.
        * apply ode_dst_bound; [assumption|assumption|]. intros th Hth. apply Hf; assumption.
        * unfold df, Rdiv. rewrite Rabs_mult. specialize (Hdef r Hr).
             assert (H0 : 0 < / r ^ 2) by (apply Rinv_0_lt_compat, pow_lt; lra).
             rewrite (Rabs_pos_eq (/ r ^ 2)) by lra. apply Rmult_le_compat; [apply Rabs_pos|lra|exact Hdef|].
             apply Rinv_le_contravar; [apply pow_lt; lra|]. apply pow_incr. lra.
    - intros r Hr.
      assert (Cy : continuous y r).
      { apply (continuous_minus (V := R_NormedModule)); [apply Hcont; [lia|assumption]|].
        apply ode_dst_continuous; [assumption|]. intros th Hth. apply (HC r th Hr Hth). }
      assert (Cv : continuous v r).
      { apply (continuous_minus (V := R_NormedModule)); [apply Hcont; [lia|assumption]|].
        apply ode_dst_continuous; [assumption|]. intros th Hth. apply (HC r th Hr Hth). }
      assert (Cb : continuous (fun r => k ^ 2 + (beta / r) ^ 2) r)
        by (apply (ex_derive_continuous (K := R_AbsRing) (V := R_NormedModule)); auto_derive; lra).
      apply (continuous_ext (fun r => v r * v r + (k ^ 2 + (beta / r) ^ 2) * (y r * y r)));
        [intros x; change (v x * v x + (k ^ 2 + (beta / x) ^ 2) * (y x * y x) = v x ^ 2 + (k ^ 2 + (beta / x) ^ 2) * y x ^ 2); ring|].
      apply (continuous_plus (V := R_NormedModule)); apply (continuous_mult (K := R_AbsRing)); try assumption.
      apply (continuous_mult (K := R_AbsRing)); assumption. }
  destruct (even_div m) as [E1 [E2 [E3 E4]]].
  assert (Hy0 : y R0 ^ 2 <= 4 * d0 ^ 2).
  { assert (B : Rabs (y R0) <= 2 * d0).
    { unfold y, d. destruct (Hend (2 * m)%nat ltac:(lia)) as [-> _]. unfold ode_ic. rewrite E1, E3.
      replace (m + 1 - 1)%nat with m by lia. apply ode_dst_bound; assumption. }
    pose proof (Rabs_pos (y R0)). rewrite <- (pow2_abs (y R0)). nra. }
  assert (Hv0 : v R0 ^ 2 <= 4 * d1 ^ 2).
  { assert (B : Rabs (v R0) <= 2 * d1).
    { unfold v, w. destruct (Hend (2 * m + 1)%nat ltac:(lia)) as [-> _]. unfold ode_ic. rewrite E2, E4.
      replace (m + 1 - 1)%nat with m by lia. apply ode_dst_bound; assumption. }
    pose proof (Rabs_pos (v R0)). rewrite <- (pow2_abs (v R0)). nra. }
  assert (HyR : y R1 = nth m (ode_calc_z1_fourier odeint init d_init f1 a nu k R0 R1 M N) 0 - ode_dst a N (z1 R1) m).
  { unfold y, d.
    unfold ode_calc_z1_fourier. rewrite nth_map_seqR by assumption.
    destruct (Hend (2 * m)%nat ltac:(lia)) as [_ ->]. reflexivity. }
  rewrite <- HyR. assert (0 <= v R1 ^ 2) by apply pow2_ge_0.
  assert (HX : 0 < Rpower (R1 / R0) (2 * beta) * exp (R1 - R0)) by (apply Rmult_lt_0_compat; apply exp_pos).
  eapply Rle_trans; [|eapply Rle_trans; [exact HG|]]; [lra|].
  apply Rmult_le_compat_r; [lra|]. apply Rplus_le_compat_r. apply Rplus_le_compat; [exact Hv0|].
  apply Rmult_le_compat_l; [|exact Hy0]. pose proof (pow2_ge_0 k). pose proof (pow2_ge_0 (beta / R0)). lra.
Qed.

Lemma abs_sqrt : forall x c X, 0 < c -> c * x ^ 2 <= X -> Rabs x <= sqrt (X / c).
Proof.
  intros x c X Hc H. rewrite <- sqrt_Rsqr_abs. apply sqrt_le_1_alt. unfold Rsqr.
  apply Rmult_le_reg_l with c; [exact Hc|]. replace (c * (X / c)) with X by (field; lra). lra.
Qed.

Lemma ode_accurate : forall odeint init d_init f1 a k R0 R1 M N z1 Z T f (K : nat -> R) d0 d1 d2 m,
  a < 2 * PI -> 0 < R0 < R1 -> (M <= N)%nat -> 0 <= d0 -> 0 <= d1 -> 0 <= d2 -> (m < M)%nat ->
  (let deriv := ode_eval_deriv a (PI / (2 * PI - a)) k N f1 M in let ic := ode_ic a R0 N init d_init in
   trajectory deriv (2 * M) ic R0 R1 (odeint deriv (2 * M)%nat ic R0 R1)) ->
  partials 2 (fun r th => R0 < r < R1 /\ a < th < 2 * PI) z1 Z ->
  (forall r th, R0 <= r <= R1 -> a < th < 2 * PI ->
     continuous (fun r => z1 r th) r /\ continuous (fun r => Z 1%nat 0%nat r th) r) ->
  (forall r th, R0 < r < R1 -> a < th < 2 * PI -> polar_helmholtz k Z r th = f r th) ->
  angular 6 (fun r => R0 <= r <= R1) z1 T ->
  (forall r th, R0 <= r <= R1 -> th = a \/ th = 2 * PI -> T 0%nat r th = 0 /\ T 2%nat r th = 0) ->
  (forall i r th, (i <= 6)%nat -> R0 <= r <= R1 -> a <= th <= 2 * PI -> Rabs (T i r th) <= K i) ->
  (forall th, a < th < 2 * PI -> Rabs (init R0 th - z1 R0 th) <= d0) ->
  (forall th, a < th < 2 * PI -> Rabs (d_init R0 th - Z 1%nat 0%nat R0 th) <= d1) ->
  (forall r th, R0 < r < R1 -> a < th < 2 * PI -> Rabs (f1 r th - f r th) <= d2) ->
  let beta := mode_freq a m in
  Rabs (nth m (ode_calc_z1_fourier odeint init d_init f1 a (PI / (2 * PI - a)) k R0 R1 M N) 0 - sine_coef a (z1 R1) m) <=
  mode_error a k m R0 R1 (2 * d0) (2 * d1) (2 * d2 + step4 a N * (product4 beta K 2 + beta ^ 2 * product4 beta K 0) / R0 ^ 2)
  + step4 a N * product4 beta K 0.
Proof.
  intros odeint init d_init f1 a k R0 R1 M N z1 Z T f K d0 d1 d2 m Ha HR HM Hd0 Hd1 Hd2 Hm Ht HZ HC Heq [HT0 HT] Hedge HK Hi Hdi Hf beta.
  assert (Hb : 0 < beta) by (apply beta_pos; exact Ha).
  set (e := step4 a N * (product4 beta K 2 + beta ^ 2 * product4 beta K 0)).
  assert (Hdef : forall r, R0 <= r <= R1 -> Rabs (ode_dst a N (T 2%nat r) m + beta ^ 2 * ode_dst a N (T 0%nat r) m) <= e).
  { intros r Hr. apply (dst_second a N m Ha (fun i => T i r) K).
    - intros i t Hi'. apply HT; assumption.
    - apply (Hedge r a Hr). left; reflexivity.
    - apply (Hedge r (2 * PI) Hr). right; reflexivity.
    - apply (Hedge r a Hr). left; reflexivity.
    - apply (Hedge r (2 * PI) Hr). right; reflexivity.
    - intros i t Hi' Ht'. apply HK; assumption. }
  assert (He : 0 <= e) by (eapply Rle_trans; [apply Rabs_pos|apply (Hdef R0); lra]).
  assert (Hco : Rabs (ode_dst a N (z1 R1) m - sine_coef a (z1 R1) m) <= step4 a N * product4 beta K 0).
  { assert (E1 : ode_dst a N (z1 R1) m = ode_dst a N (T 0%nat R1) m) by (apply ode_dst_loc; [exact Ha|]; intros th _; symmetry; apply HT0).
    assert (E2 : sine_coef a (z1 R1) m = sine_coef a (T 0%nat R1) m).
    { unfold sine_coef. f_equal. apply RInt_ext. intros th _. rewrite HT0. reflexivity. }
    rewrite E1, E2. apply (dst_coef a N m Ha (fun i => T i R1) K 0%nat).
    - intros i t Hi'. apply HT; [lia|lra].
    - apply (Hedge R1 a ltac:(lra)). left; reflexivity.
    - apply (Hedge R1 (2 * PI) ltac:(lra)). right; reflexivity.
    - intros i t Hi' Ht'. rewrite Nat.add_0_r. apply HK; [lia|lra|exact Ht']. }
  assert (Hst : Rabs (nth m (ode_calc_z1_fourier odeint init d_init f1 a (PI / (2 * PI - a)) k R0 R1 M N) 0 - ode_dst a N (z1 R1) m) <=
    mode_error a k m R0 R1 (2 * d0) (2 * d1) (2 * d2 + e / R0 ^ 2)).
  { assert (Hc : 0 < k ^ 2 + (beta / R1) ^ 2).
    { assert (0 < (beta / R1) ^ 2) by (apply pow_lt, Rdiv_lt_0_compat; lra). pose proof (pow2_ge_0 k). lra. }
    pose proof (ode_defect odeint init d_init f1 a k R0 R1 M N z1 Z f d0 d1 d2 e m Ha HR HM Hd0 Hd1 Hd2 He Hm Ht HZ HC Heq) as D.
    cbv zeta in D. fold beta in D.
    assert (Hdz : forall r, R0 < r < R1 -> Rabs (ode_dst a N (Z 0%nat 2%nat r) m + beta ^ 2 * ode_dst a N (z1 r) m) <= e).
    { intros r Hr. specialize (Hdef r ltac:(lra)). destruct HZ as [HZ0 HZ].
      rewrite (ode_dst_loc a N (Z 0%nat 2%nat r) (T 2%nat r)); [|exact Ha|].
      + rewrite (ode_dst_loc a N (z1 r) (T 0%nat r)); [exact Hdef|exact Ha|]. intros th _. symmetry. apply HT0.
      + intros th Hth.
        assert (E1 : forall t, a < t < 2 * PI -> Z 0%nat 1%nat r t = T 1%nat r t).
        { intros t Ht'. pose proof (HZ 0%nat 0%nat ltac:(lia) r t (conj Hr Ht')) as [_ A]. pose proof (HT 0%nat r t ltac:(lia) ltac:(lra)) as B.
          apply is_derive_unique in A. apply is_derive_unique in B. rewrite <- A, <- B. apply Derive_ext. intros u. rewrite HZ0, HT0. reflexivity. }
        pose proof (HZ 0%nat 1%nat ltac:(lia) r th (conj Hr Hth)) as [_ A]. pose proof (HT 1%nat r th ltac:(lia) ltac:(lra)) as B.
        apply is_derive_unique in A. apply is_derive_unique in B. rewrite <- A, <- B. apply Derive_ext_loc.
        assert (Hm' : 0 < Rmin (th - a) (2 * PI - th)) by (apply Rmin_pos; lra).
        exists (mkposreal _ Hm'). intros y Hy. apply E1. change (Rabs (y - th) < Rmin (th - a) (2 * PI - th)) in Hy.
        pose proof (Rmin_l (th - a) (2 * PI - th)). pose proof (Rmin_r (th - a) (2 * PI - th)). apply Rabs_def2 in Hy. lra. }
    specialize (D Hdz Hi Hdi Hf). eapply Rle_trans; [exact (abs_sqrt _ _ _ Hc D)|]. right.
    unfold mode_error, growth. fold beta. f_equal.
    set (c := k ^ 2 + (beta / R1) ^ 2) in *. set (c0 := k ^ 2 + (beta / R0) ^ 2). set (e0 := e / R0 ^ 2). set (P := Rpower (R1 / R0) (2 * beta)).
    clearbody c c0 e0 P. field. lra. }
  replace (nth m (ode_calc_z1_fourier odeint init d_init f1 a (PI / (2 * PI - a)) k R0 R1 M N) 0 - sine_coef a (z1 R1) m) with
    ((nth m (ode_calc_z1_fourier odeint init d_init f1 a (PI / (2 * PI - a)) k R0 R1 M N) 0 - ode_dst a N (z1 R1) m)
     + (ode_dst a N (z1 R1) m - sine_coef a (z1 R1) m)) by ring.
  eapply Rle_trans; [apply Rabs_triang|]. apply Rplus_le_compat; assumption.
Qed.
