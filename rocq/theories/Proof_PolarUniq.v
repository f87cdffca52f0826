(** The difference equations of the polar solver have one solution (C86). *)
From Coq Require Import String ZArith List Reals Lia Lra Psatz.
From Coquelicot Require Import Coquelicot.
From Verif Require Import Model_Py Model_Fourier Model_PolarFD Model_Problems Lib_Csum Spec_PolarFD Spec_PolarAcc Proof_Fourier Proof_Eig Proof_PolarAcc2.
Import ListNotations.
Open Scope R_scope.

(** ** Balls: [(c, r)] holds x when |2^30 x - c| <= r *)

(** The scale of the fixed-point numbers. *)
Definition pc : Z := (2 ^ 30)%Z.

Lemma pc_pos : 0 < IZR pc.
Proof. apply IZR_lt. reflexivity. Qed.

Definition ball : Type := (Z * Z)%type.
Definition bin (b : ball) (x : R) : Prop := Rabs (IZR pc * x - IZR (fst b)) <= IZR (snd b).

Definition badd (a b : ball) : ball := (fst a + fst b, snd a + snd b)%Z.
Definition bneg (a : ball) : ball := (- fst a, snd a)%Z.
Definition bmul (a b : ball) : ball :=
  (Z.shiftr (fst a * fst b) 30, Z.shiftr (Z.abs (fst a) * snd b + Z.abs (fst b) * snd a + snd a * snd b) 30 + 2)%Z.
Definition bnz (a : ball) : bool := (snd a <? Z.abs (fst a))%Z.
Definition binv (a : ball) : ball :=
  (pc * pc / fst a, pc * pc * snd a / ((Z.abs (fst a) - snd a) * Z.abs (fst a)) + 2)%Z.
Definition brat (p q : Z) : ball := (p * pc / q, 1)%Z.

Lemma floor_near : forall n d, (d <> 0)%Z -> Rabs (IZR n / IZR d - IZR (n / d)) <= 1.
Proof.
  intros n d Hd. pose proof (Z_div_mod_eq_full n d) as E. set (q := (n / d)%Z) in *. set (r := (n mod d)%Z) in *.
  assert (Hdr : IZR d <> 0) by (apply not_0_IZR; exact Hd).
  replace (IZR n / IZR d - IZR q) with (IZR r / IZR d) by (rewrite E, plus_IZR, mult_IZR; field; exact Hdr).
  assert (Hr : (Z.abs r <= Z.abs d)%Z).
  { destruct (Z_lt_le_dec 0 d) as [P|P]; [pose proof (Z.mod_pos_bound n d P)|pose proof (Z.mod_neg_bound n d ltac:(lia))]; fold r in H; lia. }
  unfold Rdiv. rewrite Rabs_mult, Rabs_inv. apply IZR_le in Hr. rewrite !abs_IZR in Hr.
  apply Rmult_le_reg_r with (Rabs (IZR d)); [apply Rabs_pos_lt; exact Hdr|]. rewrite Rmult_assoc, Rinv_l, Rmult_1_r, Rmult_1_l; [exact Hr|].
  apply Rabs_no_R0; exact Hdr.
Qed.

Lemma floor_above : forall n d, (0 < d)%Z -> IZR n / IZR d <= IZR (n / d) + 1.
Proof. intros n d Hd. pose proof (floor_near n d ltac:(lia)) as H. apply Rabs_le_between in H. lra. Qed.

Lemma bin_r : forall b x, bin b x -> 0 <= IZR (snd b).
Proof. intros b x H. eapply Rle_trans; [apply Rabs_pos|exact H]. Qed.

Lemma bin_add : forall a b x y, bin a x -> bin b y -> bin (badd a b) (x + y).
Proof.
  intros a b x y Hx Hy. unfold bin, badd in *. cbn [fst snd]. rewrite !plus_IZR.
  replace (IZR pc * (x + y) - (IZR (fst a) + IZR (fst b))) with ((IZR pc * x - IZR (fst a)) + (IZR pc * y - IZR (fst b))) by ring.
  eapply Rle_trans; [apply Rabs_triang|lra].
Qed.

Lemma bin_neg : forall a x, bin a x -> bin (bneg a) (- x).
Proof.
  intros a x Hx. unfold bin, bneg in *. cbn [fst snd]. rewrite opp_IZR.
  replace (IZR pc * - x - - IZR (fst a)) with (- (IZR pc * x - IZR (fst a))) by ring. rewrite Rabs_Ropp. exact Hx.
Qed.

Lemma shr : forall x, Z.shiftr x 30 = (x / pc)%Z.
Proof. intros x. unfold pc. apply Z.shiftr_div_pow2. discriminate. Qed.

Lemma bin_mul : forall a b x y, bin a x -> bin b y -> bin (bmul a b) (x * y).
Proof.
  intros a b x y Hx Hy. pose proof (bin_r _ _ Hx) as Ra. pose proof (bin_r _ _ Hy) as Rb. pose proof pc_pos as S.
  unfold bin, bmul in *. rewrite !shr. cbn [fst snd]. set (c := fst a) in *. set (c' := fst b) in *. set (r := snd a) in *. set (r' := snd b) in *.
  pose proof (floor_near (c * c') pc ltac:(discriminate)) as F1.
  pose proof (floor_above (Z.abs c * r' + Z.abs c' * r + r * r') pc ltac:(reflexivity)) as F2.
  rewrite plus_IZR. rewrite !plus_IZR, !mult_IZR, !abs_IZR in F2. rewrite mult_IZR in F1.
  set (X := IZR pc * x) in *. set (Y := IZR pc * y) in *.
  replace (IZR pc * (x * y)) with (X * Y / IZR pc) by (unfold X, Y; field; lra).
  replace (X * Y / IZR pc - IZR (c * c' / pc)) with ((X * Y - IZR c * IZR c') / IZR pc + (IZR c * IZR c' / IZR pc - IZR (c * c' / pc))) by (field; lra).
  eapply Rle_trans; [apply Rabs_triang|].
  assert (E : Rabs ((X * Y - IZR c * IZR c') / IZR pc) <= (Rabs (IZR c) * IZR r' + Rabs (IZR c') * IZR r + IZR r * IZR r') / IZR pc).
  { unfold Rdiv. rewrite Rabs_mult, Rabs_inv, (Rabs_pos_eq (IZR pc)) by lra. apply Rmult_le_compat_r; [apply Rlt_le, Rinv_0_lt_compat; exact S|].
    replace (X * Y - IZR c * IZR c') with (IZR c * (Y - IZR c') + IZR c' * (X - IZR c) + (X - IZR c) * (Y - IZR c')) by ring.
    eapply Rle_trans; [apply Rabs_triang|]. apply Rplus_le_compat; [eapply Rle_trans; [apply Rabs_triang|]; apply Rplus_le_compat|];
      rewrite Rabs_mult; apply Rmult_le_compat; try apply Rabs_pos; try lra; assumption. }
  lra.
Qed.

Lemma bnz_sound : forall a x, bnz a = true -> bin a x -> x <> 0.
Proof.
  intros a x H Hx E. subst x. unfold bnz in H. apply Z.ltb_lt in H. unfold bin in Hx. rewrite Rmult_0_r, Rminus_0_l, Rabs_Ropp, <- abs_IZR in Hx.
  apply le_IZR in Hx. lia.
Qed.

Lemma bin_inv : forall a x, bnz a = true -> bin a x -> bin (binv a) (/ x).
Proof.
  intros a x H Hx. pose proof (bnz_sound a x H Hx) as Hx0. pose proof (bin_r _ _ Hx) as Ra. pose proof pc_pos as S.
  unfold bnz in H. apply Z.ltb_lt in H. unfold bin, binv in *. cbn [fst snd]. set (c := fst a) in *. set (r := snd a) in *.
  assert (Hr0 : (0 <= r)%Z) by (apply le_IZR; exact Ra). assert (Hc0 : (c <> 0)%Z) by lia.
  assert (Hd : (0 < (Z.abs c - r) * Z.abs c)%Z) by (apply Z.mul_pos_pos; lia).
  pose proof (floor_near (pc * pc) c Hc0) as F1. pose proof (floor_above (pc * pc * r) ((Z.abs c - r) * Z.abs c) Hd) as F2.
  rewrite plus_IZR. rewrite !mult_IZR in F1. rewrite !mult_IZR, minus_IZR, abs_IZR in F2.
  assert (Hcr : IZR c <> 0) by (apply not_0_IZR; exact Hc0).
  assert (Hlt : IZR r < Rabs (IZR c)) by (rewrite <- abs_IZR; apply IZR_lt; exact H).
  set (X := IZR pc * x) in *. assert (HX0 : X <> 0) by (unfold X; apply Rmult_integral_contrapositive_currified; lra).
  replace (IZR pc * / x) with (IZR pc * IZR pc / X) by (unfold X; field; split; lra).
  replace (IZR pc * IZR pc / X - IZR (pc * pc / c)) with (IZR pc * IZR pc * (IZR c - X) / (X * IZR c) + (IZR pc * IZR pc / IZR c - IZR (pc * pc / c))) by (field; split; assumption).
  eapply Rle_trans; [apply Rabs_triang|].
  assert (HXl : Rabs (IZR c) - IZR r <= Rabs X).
  { pose proof (Rabs_triang_inv (IZR c) X) as T. replace (Rabs (IZR c - X)) with (Rabs (X - IZR c)) in T by apply Rabs_minus_sym. lra. }
  assert (E : Rabs (IZR pc * IZR pc * (IZR c - X) / (X * IZR c)) <= IZR pc * IZR pc * IZR r / ((Rabs (IZR c) - IZR r) * Rabs (IZR c))).
  { unfold Rdiv. rewrite Rabs_mult, Rabs_inv, !Rabs_mult, (Rabs_pos_eq (IZR pc)) by lra.
    apply Rmult_le_compat; [apply Rmult_le_pos; [apply Rmult_le_pos; lra|apply Rabs_pos]|apply Rlt_le, Rinv_0_lt_compat, Rmult_lt_0_compat; apply Rabs_pos_lt; assumption| |].
    - apply Rmult_le_compat_l; [apply Rmult_le_pos; lra|]. rewrite Rabs_minus_sym. exact Hx.
    - apply Rinv_le_contravar; [apply Rmult_lt_0_compat; [lra|apply Rabs_pos_lt; assumption]|]. apply Rmult_le_compat_r; [apply Rabs_pos|exact HXl]. }
  lra.
Qed.

Lemma bin_rat : forall p q, (q <> 0)%Z -> bin (brat p q) (IZR p / IZR q).
Proof.
  intros p q Hq. unfold bin, brat. cbn [fst snd]. pose proof (floor_near (p * pc) q Hq) as F. rewrite mult_IZR in F.
  replace (IZR pc * (IZR p / IZR q)) with (IZR p * IZR pc / IZR q) by (field; apply not_0_IZR; exact Hq). exact F.
Qed.

(** The ball around an enclosure with scale 2^50. *)
Definition shrink (p : Z * Z) : ball := (fst p / 2 ^ 20, snd p / 2 ^ 20 + 1 - fst p / 2 ^ 20)%Z.

Lemma encl_bin : forall p x, encl p x -> bin (shrink p) x.
Proof.
  intros p x [L U]. unfold bin, shrink. cbn [fst snd].
  assert (E : IZR sc = IZR pc * IZR (2 ^ 20)) by (rewrite <- mult_IZR; reflexivity). assert (H0 : 0 < IZR (2 ^ 20)) by (apply IZR_lt; reflexivity).
  pose proof (floor_above (snd p) (2 ^ 20) ltac:(reflexivity)) as F.
  assert (G : IZR (fst p / 2 ^ 20) * IZR (2 ^ 20) <= IZR (fst p)).
  { rewrite <- mult_IZR. apply IZR_le. rewrite Z.mul_comm. apply Z.mul_div_le. reflexivity. }
  rewrite E in L, U. rewrite minus_IZR, plus_IZR.
  assert (A : IZR (fst p / 2 ^ 20) <= IZR pc * x) by (apply Rmult_le_reg_r with (IZR (2 ^ 20)); lra).
  assert (B : IZR pc * x <= IZR (snd p) / IZR (2 ^ 20)).
  { apply Rmult_le_reg_r with (IZR (2 ^ 20)); [exact H0|]. unfold Rdiv. rewrite (Rmult_assoc (IZR (snd p))), Rinv_l by lra. lra. }
  apply Rabs_le. lra.
Qed.

(** ** Coefficients of the separated equations *)

(** Six coefficients of one circle: i, ip, im are 1/rho, 1/(rho+1), 1/(rho-1),
    q = (k hr)^2 and t = 1/hth^2. *)
Record coefs (A : Type) := mk_coefs { co_a0 : A; co_a1 : A; co_b0 : A; co_b1 : A; co_c0 : A; co_c1 : A }.
Arguments mk_coefs {A}. Arguments co_a0 {A}. Arguments co_a1 {A}. Arguments co_b0 {A}. Arguments co_b1 {A}. Arguments co_c0 {A}. Arguments co_c1 {A}.

Definition rcoefs (i ip im q t : R) : coefs R :=
  mk_coefs
    ((1 / 1 + - (1 / 2 * i)) * (1 / 1 + 1 / 12 * q) + - (1 / 12 * (i * (i * i))))
    (- (1 / 12 * ((1 / 1 + - (1 / 2 * i)) * (1 / 1 + t * (im * im)))))
    (- 2 / 1 + q * (5 / 6 + 1 / 12 * (i * i)))
    (1 / 6 + - (1 / 12 * q) + - (t * (i * i) * (5 / 6 + 1 / 12 * (i * i))))
    ((1 / 1 + 1 / 2 * i) * (1 / 1 + 1 / 12 * q) + 1 / 12 * (i * (i * i)))
    (- (1 / 12 * ((1 / 1 + 1 / 2 * i) * (1 / 1 + t * (ip * ip))))).

Definition bcoefs (i ip im q t : ball) : coefs ball :=
  let one := brat 1 1 in let half := brat 1 2 in let tw := brat 1 12 in
  mk_coefs
    (badd (bmul (badd one (bneg (bmul half i))) (badd one (bmul tw q))) (bneg (bmul tw (bmul i (bmul i i)))))
    (bneg (bmul tw (bmul (badd one (bneg (bmul half i))) (badd one (bmul t (bmul im im))))))
    (badd (brat (-2) 1) (bmul q (badd (brat 5 6) (bmul tw (bmul i i)))))
    (badd (badd (brat 1 6) (bneg (bmul tw q))) (bneg (bmul (bmul t (bmul i i)) (badd (brat 5 6) (bmul tw (bmul i i))))))
    (badd (bmul (badd one (bmul half i)) (badd one (bmul tw q))) (bmul tw (bmul i (bmul i i))))
    (bneg (bmul tw (bmul (badd one (bmul half i)) (badd one (bmul t (bmul ip ip)))))).

Definition cin (b : coefs ball) (x : coefs R) : Prop :=
  bin (co_a0 b) (co_a0 x) /\ bin (co_a1 b) (co_a1 x) /\ bin (co_b0 b) (co_b0 x) /\ bin (co_b1 b) (co_b1 x) /\ bin (co_c0 b) (co_c0 x) /\ bin (co_c1 b) (co_c1 x).

Ltac benc := repeat match goal with
  | |- bin (badd _ _) _ => apply bin_add
  | |- bin (bneg _) _ => apply bin_neg
  | |- bin (bmul _ _) _ => apply bin_mul
  | |- bin (brat _ _) _ => apply bin_rat; discriminate
  | H : bin ?b _ |- bin ?b _ => exact H
  end.

Lemma cin_coefs : forall i ip im q t I IP IM Q T, bin I i -> bin IP ip -> bin IM im -> bin Q q -> bin T t -> cin (bcoefs I IP IM Q T) (rcoefs i ip im q t).
Proof.
  intros i ip im q t I IP IM Q T H1 H2 H3 H4 H5. unfold cin, bcoefs, rcoefs. cbv zeta. cbn [co_a0 co_a1 co_b0 co_b1 co_c0 co_c1].
  repeat split; benc.
Qed.

Definition second_diff (w : Z -> Z -> R) (m l : Z) : R := w m (l + 1)%Z - 2 * w m l + w m (l - 1)%Z.

Lemma scheme_split : forall rad hr hth k rho w m l, hr <> 0 -> hth <> 0 -> rho <> 0 -> rho + 1 <> 0 -> rho - 1 <> 0 ->
  rad m = hr * rho -> rad (m + 1)%Z = hr * (rho + 1) -> rad (m - 1)%Z = hr * (rho - 1) ->
  let c := rcoefs (/ rho) (/ (rho + 1)) (/ (rho - 1)) ((k * hr) ^ 2) (/ hth ^ 2) in
  hr ^ 2 * compact_scheme rad hr hth k w m l =
  (co_a0 c * w (m - 1)%Z l - co_a1 c * second_diff w (m - 1) l) + (co_b0 c * w m l - co_b1 c * second_diff w m l)
  + (co_c0 c * w (m + 1)%Z l - co_c1 c * second_diff w (m + 1) l).
Proof.
  intros rad hr hth k rho w m l Hh He H0 Hp Hm E0 Ep Em c. unfold c, rcoefs, second_diff. cbn [co_a0 co_a1 co_b0 co_b1 co_c0 co_c1].
  unfold compact_scheme, op_radial, op_angular, op_drr, op_dr, op_dthth. cbv zeta beta. rewrite E0, Ep, Em. field. repeat split; assumption.
Qed.

(** ** Elimination *)

Definition lin (a0 a1 s : ball) : ball := badd a0 (bmul a1 s).

(** The pivots of the elimination along the radius do not vanish; [prev]
    encloses the quotient of the upper coefficient and the pivot before. *)
Fixpoint piv (tab : list (coefs ball)) (s prev : ball) : bool :=
  match tab with
  | [] => true
  | c :: tab' =>
      let q := badd (lin (co_b0 c) (co_b1 c) s) (bneg (bmul (lin (co_a0 c) (co_a1 c) s) prev)) in
      if bnz q then piv tab' s (bmul (lin (co_c0 c) (co_c1 c) s) (binv q)) else false
  end.

Lemma piv_sound : forall tab rs s sg, List.Forall2 cin tab rs -> bin s sg -> forall prev P m (x : nat -> R), bin prev P -> piv tab s prev = true ->
  x m = - (P * x (S m)) ->
  (forall i c, nth_error rs i = Some c -> (co_a0 c + co_a1 c * sg) * x (m + i)%nat + (co_b0 c + co_b1 c * sg) * x (S (m + i)) + (co_c0 c + co_c1 c * sg) * x (S (S (m + i))) = 0) ->
  x (S (m + length rs)) = 0 -> forall i, (i <= length rs)%nat -> x (m + i)%nat = 0.
Proof.
  intros tab rs s sg HF Hs. induction HF as [|b c tab rs Hc HF IH]; intros prev P m x HP Hp Hx He Hend i Hi.
  - cbn [length] in *. replace (m + i)%nat with m by lia. rewrite Nat.add_0_r in Hend. rewrite Hx, Hend. ring.
  - destruct Hc as (Ca0 & Ca1 & Cb0 & Cb1 & Cc0 & Cc1). cbn [piv] in Hp.
    set (q := badd _ _) in Hp. destruct (bnz q) eqn:Eq; [|discriminate Hp].
    assert (Hq : bin q (co_b0 c + co_b1 c * sg + - ((co_a0 c + co_a1 c * sg) * P))) by (unfold q, lin; benc).
    pose proof (bnz_sound _ _ Eq Hq) as Hq0. set (Q := co_b0 c + co_b1 c * sg + - ((co_a0 c + co_a1 c * sg) * P)) in *.
    assert (HP' : bin (bmul (lin (co_c0 b) (co_c1 b) s) (binv q)) ((co_c0 c + co_c1 c * sg) * / Q)).
    { apply bin_mul; [unfold lin; benc|]. apply bin_inv; assumption. }
    pose proof (He 0%nat c eq_refl) as E0. rewrite Nat.add_0_r, Hx in E0.
    assert (Hx' : x (S m) = - ((co_c0 c + co_c1 c * sg) * / Q * x (S (S m)))).
    { apply Rmult_eq_reg_l with Q; [|exact Hq0]. replace (Q * - ((co_c0 c + co_c1 c * sg) * / Q * x (S (S m)))) with (- ((co_c0 c + co_c1 c * sg) * x (S (S m)))) by (field; exact Hq0).
      unfold Q in *. lra. }
    assert (R : forall i, (i <= length rs)%nat -> x (S m + i)%nat = 0).
    { apply (IH _ _ (S m) x HP' Hp Hx').
      - intros i' c' Hn. specialize (He (S i') c' Hn). replace (m + S i')%nat with (S m + i')%nat in He by lia. exact He.
      - cbn [length] in Hend. replace (S m + length rs)%nat with (m + S (length rs))%nat by lia. exact Hend. }
    destruct i as [|i]; [|replace (m + S i)%nat with (S m + i)%nat by lia; apply R; cbn [length] in Hi; lia].
    rewrite Nat.add_0_r, Hx. pose proof (R 0%nat ltac:(lia)) as R0. rewrite Nat.add_0_r in R0. rewrite R0. ring.
Qed.

(** ** The check *)

(** 1/hth^2 = 16 N^2 / (49 pi^2). *)
Definition tball (N : Z) : ball :=
  let lo := (16 * N ^ 2 * 10 ^ 24 * sc / (49 * 3141592653590 ^ 2))%Z in
  let hi := (16 * N ^ 2 * 10 ^ 24 * sc / (49 * 3141592653588 ^ 2) + 1)%Z in
  shrink (lo, hi).

Lemma tball_in : forall N, (1 <= N)%Z -> bin (tball N) (/ (7 * PI / 4 / IZR N) ^ 2).
Proof.
  intros N HN. assert (HNr : 0 < IZR N) by (apply IZR_lt; lia). pose proof PI_bounds as [L U].
  assert (HP : 3141592653588 / 10 ^ 12 < PI < 3141592653590 / 10 ^ 12) by lra. clear L U.
  assert (HP0 : 0 < PI) by apply PI_RGT_0.
  unfold tball. cbv zeta. set (n := (16 * N ^ 2 * 10 ^ 24 * sc)%Z).
  apply (encl_bin (n / (49 * 3141592653590 ^ 2), n / (49 * 3141592653588 ^ 2) + 1)%Z). unfold encl. cbn [fst snd].
  assert (En : IZR n = 16 * IZR N ^ 2 * 10 ^ 24 * IZR sc).
  { unfold n. rewrite !mult_IZR. rewrite <- (pow_IZR N 2 : _ = IZR (N ^ 2)), <- (pow_IZR 10 24 : _ = IZR (10 ^ 24)). reflexivity. }
  assert (S := sc_pos).
  replace (IZR sc * / (7 * PI / 4 / IZR N) ^ 2) with (IZR n / (49 * (10 ^ 12 * PI) ^ 2)) by (rewrite En; field; lra).
  assert (Hn0 : 0 < IZR n) by (rewrite En; repeat apply Rmult_lt_0_compat; try lra; apply pow_lt; lra).
  assert (Hin : forall a : Z, (0 < a)%Z -> IZR (n / (49 * a ^ 2)) <= IZR n / (49 * IZR a ^ 2) <= IZR (n / (49 * a ^ 2)) + 1).
  { intros a Ha. assert (Hd : (0 < 49 * a ^ 2)%Z) by (apply Z.mul_pos_pos; [lia|apply Z.pow_pos_nonneg; lia]).
    assert (Ed : IZR (49 * a ^ 2) = 49 * IZR a ^ 2) by (rewrite mult_IZR, (pow_IZR a 2); reflexivity). rewrite <- Ed.
    split; [|apply floor_above; exact Hd]. assert (0 < IZR (49 * a ^ 2)) by (apply IZR_lt; exact Hd).
    apply Rmult_le_reg_r with (IZR (49 * a ^ 2)); [assumption|]. unfold Rdiv. rewrite Rmult_assoc, Rinv_l, Rmult_1_r by lra.
    rewrite <- mult_IZR. apply IZR_le. rewrite Z.mul_comm. apply Z.mul_div_le. exact Hd. }
  pose proof (Hin 3141592653590%Z ltac:(lia)) as [A1 _]. pose proof (Hin 3141592653588%Z ltac:(lia)) as [_ A2].
  rewrite plus_IZR. split.
  - eapply Rle_trans; [exact A1|]. apply Rmult_le_compat_l; [lra|]. apply Rinv_le_contravar; [apply Rmult_lt_0_compat; [lra|apply pow_lt; lra]|].
    apply Rmult_le_compat_l; [lra|]. apply pow_incr. lra.
  - eapply Rle_trans; [|exact A2]. apply Rmult_le_compat_l; [lra|]. apply Rinv_le_contravar; [lra|].
    apply Rmult_le_compat_l; [lra|]. apply pow_incr. lra.
Qed.

Definition brow (N D K : Z) (t : ball) (m : Z) : coefs ball :=
  bcoefs (brat D (m * D + 4 * N)) (brat D ((m + 1) * D + 4 * N)) (brat D ((m - 1) * D + 4 * N)) (brat ((K * D) ^ 2) ((160 * N) ^ 2)) t.

Definition rrow (N D K : Z) (m : Z) : coefs R :=
  let rho := IZR m + 4 * IZR N / IZR D in
  rcoefs (/ rho) (/ (rho + 1)) (/ (rho - 1)) ((IZR K / 4 * (IZR D / 40 / IZR N)) ^ 2) (/ (7 * PI / 4 / IZR N) ^ 2).

Lemma row_in : forall N D K m, (1 <= N)%Z -> (1 <= D)%Z -> (1 <= m)%Z -> cin (brow N D K (tball N) m) (rrow N D K m).
Proof.
  intros N D K m HN HD Hm. assert (HNr : 0 < IZR N) by (apply IZR_lt; lia). assert (HDr : 0 < IZR D) by (apply IZR_lt; lia).
  assert (Hmr : 1 <= IZR m) by (apply IZR_le; exact Hm). assert (Hq : 0 < 4 * IZR N / IZR D) by (apply Rdiv_lt_0_compat; lra).
  unfold brow, rrow. cbv zeta.
  assert (Q : forall j, (0 <= j)%Z -> bin (brat D (j * D + 4 * N)) (/ (IZR j + 4 * IZR N / IZR D))).
  { intros j Hj. assert (Hjr : 0 <= IZR j) by (apply IZR_le; exact Hj).
    replace (/ (IZR j + 4 * IZR N / IZR D)) with (IZR D / IZR (j * D + 4 * N)).
    - apply bin_rat. nia.
    - rewrite plus_IZR, !mult_IZR. field. split; [lra|]. nra. }
  apply cin_coefs; [apply Q; lia| | | |apply tball_in; exact HN].
  - replace (IZR m + 4 * IZR N / IZR D + 1) with (IZR (m + 1) + 4 * IZR N / IZR D) by (rewrite plus_IZR; ring). apply Q; lia.
  - replace (IZR m + 4 * IZR N / IZR D - 1) with (IZR (m - 1) + 4 * IZR N / IZR D) by (rewrite minus_IZR; ring). apply Q; lia.
  - replace ((IZR K / 4 * (IZR D / 40 / IZR N)) ^ 2) with (IZR ((K * D) ^ 2) / IZR ((160 * N) ^ 2)); [apply bin_rat; nia|].
    rewrite !Z.pow_2_r, !mult_IZR. field. lra.
Qed.

Definition sball (p : Z * Z) : ball := let c := shrink p in badd (brat 2 1) (bneg (badd c c)).

Lemma sball_in : forall p x, encl p x -> bin (sball p) (2 * (1 - x)).
Proof.
  intros p x H. apply encl_bin in H. unfold sball. cbv zeta. replace (2 * (1 - x)) with (2 / 1 + - (x + x)) by field. benc.
Qed.

Definition tab (N D K : Z) : list (coefs ball) := let t := tball N in map (fun m => brow N D K t (Z.of_nat m)) (seq 1 (Z.to_nat N - 1)).

Definition pcheck (e : nat) (D K : Z) : bool :=
  let tb := tab (2 ^ Z.of_nat e) D K in forallb (fun p => piv tb (sball p) (0, 0)%Z) (cosT e).

Lemma tab_in : forall N D K, (1 <= N)%Z -> (1 <= D)%Z -> List.Forall2 cin (tab N D K) (map (fun m => rrow N D K (Z.of_nat m)) (seq 1 (Z.to_nat N - 1))).
Proof.
  intros N D K HN HD. unfold tab. cbv zeta. assert (G : forall l, (forall m, In m l -> (1 <= m)%nat) ->
    List.Forall2 cin (map (fun m => brow N D K (tball N) (Z.of_nat m)) l) (map (fun m => rrow N D K (Z.of_nat m)) l)).
  { induction l as [|m l IH]; intros Hl; cbn [map]; constructor; [|apply IH; intros; apply Hl; right; assumption].
    apply row_in; [exact HN|exact HD|]. specialize (Hl m (or_introl eq_refl)). lia. }
  apply G. intros m Hm. apply in_seq in Hm. lia.
Qed.

(** ** Separation of the angle *)

Definition mode (N : Z) (w : Z -> Z -> R) (j m : Z) : R := rsum (Z.to_nat N - 1) (fun i => w m (Z.of_nat i + 1)%Z * sin (PI * IZR j * (INR i + 1) / IZR N)).

Lemma rsum_parts : forall n (u v : nat -> R), u 0%nat = 0 -> v 0%nat = 0 ->
  rsum n (fun i => (u (S (S i)) - 2 * u (S i) + u i) * v (S i)) - rsum n (fun i => u (S i) * (v (S (S i)) - 2 * v (S i) + v i)) = u (S n) * v n - u n * v (S n).
Proof.
  intros n u v H0 K0. induction n as [|n IH]; cbn [rsum]; [rewrite H0, K0; ring|].
  replace (rsum n _ + _ - _) with ((u (S n) * v n - u n * v (S n)) + ((u (S (S n)) - 2 * u (S n) + u n) * v (S n) - u (S n) * (v (S (S n)) - 2 * v (S n) + v n))) by (rewrite <- IH; ring). ring.
Qed.

Lemma mode_diff : forall N w j m, (1 <= N)%Z -> w m 0%Z = 0 -> w m N = 0 ->
  mode N (second_diff w) j m = - (2 * (1 - cos (PI * IZR j / IZR N))) * mode N w j m.
Proof.
  intros N w j m HN H0 H1. assert (HNr : 0 < IZR N) by (apply IZR_lt; lia).
  set (u := fun i => w m (Z.of_nat i)). set (x := PI * IZR j / IZR N). set (v := fun i => sin (INR i * x)).
  assert (Ev : forall i, sin (PI * IZR j * (INR i + 1) / IZR N) = v (S i)).
  { intros i. unfold v, x. rewrite S_INR. f_equal. field. lra. }
  set (n := (Z.to_nat N - 1)%nat). assert (En : Z.of_nat (S n) = N) by (unfold n; lia).
  assert (Ed : forall i, v (S (S i)) - 2 * v (S i) + v i = - (2 * (1 - cos x)) * v (S i)).
  { intros i. unfold v. rewrite !S_INR. replace ((INR i + 1 + 1) * x) with ((INR i + 1) * x + x) by ring.
    replace (INR i * x) with ((INR i + 1) * x - x) by ring. rewrite sin_plus, sin_minus. ring. }
  unfold mode. fold n. transitivity (rsum n (fun i => (u (S (S i)) - 2 * u (S i) + u i) * v (S i))).
  { apply rsum_ext. intros i Hi. rewrite Ev. f_equal. unfold second_diff, u.
    replace (Z.of_nat (S (S i))) with (Z.of_nat i + 1 + 1)%Z by lia. replace (Z.of_nat (S i)) with (Z.of_nat i + 1)%Z by lia.
    replace (Z.of_nat i + 1 - 1)%Z with (Z.of_nat i) by lia. reflexivity. }
  pose proof (rsum_parts n u v ltac:(exact H0) ltac:(unfold v; cbn [INR]; rewrite Rmult_0_l; apply sin_0)) as P.
  assert (U1 : u (S n) = 0) by (unfold u; rewrite En; exact H1).
  assert (V1 : v (S n) = 0).
  { unfold v, x. rewrite INR_IZR_INZ, En. replace (IZR N * (PI * IZR j / IZR N)) with (IZR j * PI) by (field; lra). apply sin_eq_0_1. exists j. reflexivity. }
  rewrite U1, V1, Rmult_0_l, Rmult_0_r, Rminus_0_r in P.
  apply Rminus_diag_uniq in P. rewrite P, <- rsum_scal. apply rsum_ext. intros i Hi. rewrite Ed, Ev. unfold u.
  replace (Z.of_nat (S i)) with (Z.of_nat i + 1)%Z by lia. unfold x. ring.
Qed.

Lemma mode_complete : forall N w m, (1 <= N)%Z -> (forall j, (1 <= j <= N - 1)%Z -> mode N w j m = 0) -> forall l, (1 <= l <= N - 1)%Z -> w m l = 0.
Proof.
  intros N w m HN H l Hl. set (n := (Z.to_nat N - 1)%nat). assert (En : INR n + 1 = IZR N).
  { rewrite <- S_INR, INR_IZR_INZ. f_equal. unfold n. lia. }
  set (x := fun i => RtoC (w m (i + 1)%Z)).
  assert (Z0 : forall p, (0 <= p < Z.of_nat n)%Z -> dst1 n x p = RtoC 0).
  { intros p Hp. unfold dst1. rewrite (csum_ext n _ (fun i => RtoC (w m (Z.of_nat i + 1)%Z * sin (PI * IZR (p + 1) * (INR i + 1) / IZR N)))).
    - rewrite csum_RtoC. fold n. unfold mode in H. fold n in H. rewrite H by (unfold n in Hp; lia). rewrite Cmult_0_r. reflexivity.
    - intros i Hi. rewrite RtoC_mult, En, plus_IZR. reflexivity. }
  pose proof (dst1_involution n x (l - 1) ltac:(unfold n; lia)) as I.
  rewrite (dst1_ext n (dst1 n x) (fun _ => RtoC 0)) in I by exact Z0.
  unfold dst1 in I. rewrite (csum_ext n _ (fun _ => RtoC 0)) in I by (intros; apply Cmult_0_l). rewrite csum_zero, Cmult_0_r in I.
  unfold x in I. replace (l - 1 + 1)%Z with l in I by lia. rewrite <- RtoC_mult in I. apply RtoC_inj in I.
  pose proof (pos_INR n). apply Rmult_eq_reg_l with (2 * (INR n + 1)); lra.
Qed.

Lemma check_trivial : forall e D K R1, (1 <= D)%Z -> R1 = / 10 + IZR D / 40 -> pcheck e D K = true ->
  polar_trivial (2 ^ Z.of_nat e) (/ 10) R1 (PI / 4) (IZR K / 4).
Proof.
  intros e D K R1 HD HR Hc w Hb Hi. set (N := (2 ^ Z.of_nat e)%Z). fold N in Hb, Hi.
  assert (HN : (1 <= N)%Z) by (unfold N; pose proof (Z.pow_pos_nonneg 2 (Z.of_nat e) ltac:(lia) ltac:(lia)); lia).
  assert (HNr : 0 < IZR N) by (apply IZR_lt; lia). assert (HDr : 1 <= IZR D) by (apply IZR_le; exact HD). pose proof PI_RGT_0 as HP.
  set (hr := (R1 - / 10) / IZR N). set (hth := (2 * PI - PI / 4) / IZR N).
  assert (Ehr : hr = IZR D / 40 / IZR N) by (unfold hr; rewrite HR; field; lra).
  assert (Eth : hth = 7 * PI / 4 / IZR N) by (unfold hth; field; lra).
  assert (Hhr : 0 < hr) by (rewrite Ehr; repeat apply Rdiv_lt_0_compat; lra).
  assert (Hht : 0 < hth) by (rewrite Eth; repeat apply Rdiv_lt_0_compat; lra).
  set (rho := fun m => IZR m + 4 * IZR N / IZR D).
  assert (Hr0 : 0 < 4 * IZR N / IZR D) by (apply Rdiv_lt_0_compat; lra).
  assert (Erad : forall m, circle N (/ 10) R1 m = hr * rho m).
  { intros m. unfold circle, rho. fold hr. rewrite Ehr. field. lra. }
  assert (Mz : forall j, (1 <= j <= N - 1)%Z -> forall m, (0 <= m <= N)%Z -> mode N w j m = 0).
  { intros j Hj. set (sg := 2 * (1 - cos (PI * IZR j / IZR N))).
    assert (Em : forall m, (0 <= m <= N)%Z -> mode N (second_diff w) j m = - sg * mode N w j m).
    { intros m Hm. apply mode_diff; [exact HN| |]; apply Hb; unfold on_edge; lia. }
    assert (Eq : forall m, (1 <= m <= N - 1)%Z -> let c := rrow N D K m in
      (co_a0 c + co_a1 c * sg) * mode N w j (m - 1) + (co_b0 c + co_b1 c * sg) * mode N w j m + (co_c0 c + co_c1 c * sg) * mode N w j (m + 1) = 0).
    { intros m Hm c. assert (Hmr : 1 <= IZR m) by (apply IZR_le; lia).
      assert (T : rsum (Z.to_nat N - 1) (fun i => hr ^ 2 * polar_op N (/ 10) R1 (PI / 4) (IZR K / 4) w m (Z.of_nat i + 1) * sin (PI * IZR j * (INR i + 1) / IZR N)) = 0).
      { rewrite <- (Rmult_0_r (INR (Z.to_nat N - 1))), <- rsum_const. apply rsum_ext. intros i Hii. rewrite Hi by (unfold inside; lia). ring. }
      rewrite (rsum_ext _ _ (fun i => (co_a0 c * w (m - 1)%Z (Z.of_nat i + 1)%Z - co_a1 c * second_diff w (m - 1) (Z.of_nat i + 1)
          + (co_b0 c * w m (Z.of_nat i + 1)%Z - co_b1 c * second_diff w m (Z.of_nat i + 1))
          + (co_c0 c * w (m + 1)%Z (Z.of_nat i + 1)%Z - co_c1 c * second_diff w (m + 1) (Z.of_nat i + 1))) * sin (PI * IZR j * (INR i + 1) / IZR N))) in T.
      2:{ intros i Hii. f_equal. unfold polar_op. fold hr hth.
          rewrite (scheme_split (circle N (/ 10) R1) hr hth (IZR K / 4) (rho m) w m (Z.of_nat i + 1)).
          - unfold c, rrow. cbv zeta. fold (rho m). rewrite Ehr, Eth. reflexivity.
          - lra.
          - lra.
          - unfold rho; lra.
          - unfold rho; lra.
          - unfold rho; lra.
          - apply Erad.
          - rewrite Erad. unfold rho. rewrite plus_IZR. ring.
          - rewrite Erad. unfold rho. rewrite minus_IZR. ring. }
      assert (Sp : forall n (f1 f2 f3 g1 g2 g3 v : nat -> R), rsum n (fun i => (co_a0 c * f1 i - co_a1 c * g1 i + (co_b0 c * f2 i - co_b1 c * g2 i) + (co_c0 c * f3 i - co_c1 c * g3 i)) * v i)
        = co_a0 c * rsum n (fun i => f1 i * v i) - co_a1 c * rsum n (fun i => g1 i * v i) + (co_b0 c * rsum n (fun i => f2 i * v i) - co_b1 c * rsum n (fun i => g2 i * v i))
          + (co_c0 c * rsum n (fun i => f3 i * v i) - co_c1 c * rsum n (fun i => g3 i * v i))).
      { intros n f1 f2 f3 g1 g2 g3 v. induction n as [|n IH]; cbn [rsum]; [ring|]. rewrite IH. ring. }
      rewrite Sp in T. fold (mode N w j (m - 1)) (mode N w j m) (mode N w j (m + 1)) in T.
      fold (mode N (second_diff w) j (m - 1)) (mode N (second_diff w) j m) (mode N (second_diff w) j (m + 1)) in T.
      rewrite !Em in T by lia. rewrite <- T. ring. }
    assert (Z0 : mode N w j 0 = 0).
    { unfold mode. rewrite <- (Rmult_0_r (INR (Z.to_nat N - 1))), <- rsum_const. apply rsum_ext. intros i Hii. rewrite Hb by (unfold on_edge; lia). ring. }
    assert (ZN : mode N w j N = 0).
    { unfold mode. rewrite <- (Rmult_0_r (INR (Z.to_nat N - 1))), <- rsum_const. apply rsum_ext. intros i Hii. rewrite Hb by (unfold on_edge; lia). ring. }
    assert (Hpv : piv (tab N D K) (sball (cosI e j)) (0, 0)%Z = true).
    { unfold pcheck in Hc. cbv zeta in Hc. fold N in Hc. rewrite forallb_forall in Hc. apply Hc. rewrite <- cosT_nth by (fold N; lia).
      apply nth_In. rewrite cosT_length. fold N. lia. }
    pose proof (piv_sound _ _ (sball (cosI e j)) sg (tab_in N D K HN HD) (sball_in _ _ (cosI_encl e j ltac:(fold N; lia))) (0, 0)%Z 0 0 (fun i => mode N w j (Z.of_nat i))
      ltac:(unfold bin; cbn [fst snd]; rewrite Rmult_0_r, Rminus_0_r, Rabs_R0; lra) Hpv) as P.
    rewrite map_length, seq_length in P.
    intros m Hm. destruct (Z.eq_dec m N) as [->|Hne]; [exact ZN|].
    rewrite <- (Z2Nat.id m) by lia. refine (P _ _ _ (Z.to_nat m) _); [cbn [Z.of_nat]; rewrite Z0; ring| | |lia].
    - intros i c Hn. assert (Hlen : (i < Z.to_nat N - 1)%nat).
      { assert (Hl : nth_error (map (fun m0 : nat => rrow N D K (Z.of_nat m0)) (seq 1 (Z.to_nat N - 1))) i <> None) by congruence.
        apply nth_error_Some in Hl. rewrite map_length, seq_length in Hl. exact Hl. }
      rewrite nth_error_map in Hn. rewrite (nth_error_nth' _ 0%nat) in Hn by (rewrite seq_length; exact Hlen). rewrite seq_nth in Hn by exact Hlen.
      cbn [option_map] in Hn. apply (f_equal (fun o => match o with Some c => c | None => c end)) in Hn. subst c.
      pose proof (Eq (Z.of_nat (1 + i)) ltac:(lia)) as E. cbv zeta in E. cbn [Nat.add].
      replace (Z.of_nat (1 + i) - 1)%Z with (Z.of_nat i) in E by lia. replace (Z.of_nat (1 + i) + 1)%Z with (Z.of_nat (S (S i))) in E by lia. exact E.
    - replace (Z.of_nat (S (0 + (Z.to_nat N - 1)))) with N by lia. exact ZN. }
  intros m l [Hm Hl]. cbn [fst snd] in Hm, Hl.
  pose proof (edgeb_spec N m l Hm Hl) as S. destruct (edgeb N m l); [apply Hb; exact S|].
  apply (mode_complete N w m HN); [|destruct S; lia]. intros j Hj. apply Mz; [exact Hj|lia].
Qed.
