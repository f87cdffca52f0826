(** The coarse grids of the table and the second-order scheme (C93). *)
From Coq Require Import ZArith List Bool Reals Lia Lra Psatz.
From Verif Require Import Model_Py Model_Fourier Proof_Grid Proof_Eig Proof_Gap.
Open Scope R_scope.

Lemma lo4 : forall t p q T P Q, wide t p = true -> wide t q = true -> encl t T -> encl p P -> encl q Q ->
  IZR (eig_lo 4 t p q) <= IZR sc * IZR sc * eig_num 4 T P Q.
Proof.
  intros t p q T P Q Wp Wq [T1 _] [P1 _] [Q1 _]. pose proof sc_pos as S.
  unfold wide in *. apply andb_prop in Wp. apply andb_prop in Wq. destruct Wp as [W1 W2], Wq as [_ W3].
  apply Z.leb_le, IZR_le in W1. apply Z.leb_le, IZR_le in W2. apply Z.leb_le, IZR_le in W3.
  rewrite plus_IZR, mult_IZR in W2, W3. unfold eig_lo, eig_num in *. cbn [Z.eqb Pos.eqb].
  repeat rewrite ?minus_IZR, ?plus_IZR, ?mult_IZR. set (s := IZR sc) in *.
  set (a := IZR (fst t)) in *. set (b := IZR (fst p)) in *. set (c := IZR (fst q)) in *.
  assert (a * (b + c + 4 * s) <= s * T * (s * P + s * Q + 4 * s)) by (apply Rmult_le_compat; lra).
  assert ((b + 2 * s) * (c + 2 * s) <= (s * P + 2 * s) * (s * Q + 2 * s)) by (apply Rmult_le_compat; lra). lra.
Qed.

Lemma hi4 : forall t p q T P Q, 0 <= T -> -1 <= P -> -1 <= Q -> encl t T -> encl p P -> encl q Q ->
  IZR sc * IZR sc * eig_num 4 T P Q <= IZR (eig_hi 4 t p q).
Proof.
  intros t p q T P Q T0 P0 Q0 [_ T1] [_ P1] [_ Q1]. pose proof sc_pos as S.
  unfold eig_hi, eig_num in *. cbn [Z.eqb Pos.eqb].
  repeat rewrite ?minus_IZR, ?plus_IZR, ?mult_IZR. set (s := IZR sc) in *.
  set (a := IZR (snd t)) in *. set (b := IZR (snd p)) in *. set (c := IZR (snd q)) in *.
  assert (0 <= s * T) by nra. assert (- s <= s * P) by nra. assert (- s <= s * Q) by nra.
  assert (s * T * (s * P + s * Q + 4 * s) <= a * (b + c + 4 * s)) by (apply Rmult_le_compat; lra).
  assert ((s * P + 2 * s) * (s * Q + 2 * s) <= (b + 2 * s) * (c + 2 * s)) by (apply Rmult_le_compat; lra). lra.
Qed.

(** Every eigenvalue of the fourth-order scheme for N = 2^m, k = p/4 is at least d/1000 in absolute value. *)
Definition gap_check (m : nat) (p d : Z) : bool :=
  let t := tI m p in
  let n := (2 ^ Z.of_nat m)%Z in
  forallb (fun j => let a := cosI m j in wide t a &&
    forallb (fun l => let b := cosI m l in
      (96 * d * snd t * sc <=? 1000 * p ^ 2 * eig_lo 4 t a b)%Z || (96 * d * snd t * sc <=? - (1000 * p ^ 2 * eig_hi 4 t a b))%Z)
    (py_range 1 n)) (py_range 1 n).

Lemma gap_check_sound : forall m p d, (0 < p)%Z -> (0 <= d)%Z -> gap_check m p d = true ->
  let N := (2 ^ Z.of_nat m)%Z in forall j l, (1 <= j <= N - 1)%Z -> (1 <= l <= N - 1)%Z ->
  IZR d / 1000 <= Rabs (eigenval N 4 (2 * PI) (IZR p / 4) j l).
Proof.
  intros m p d Hp Hd H N j l Hj Hl. unfold gap_check in H. fold N in H. rewrite forallb_forall in H.
  pose proof (H j ltac:(apply py_range_in; lia)) as Ha. pose proof (H l ltac:(apply py_range_in; lia)) as Hb.
  apply andb_prop in Ha. apply andb_prop in Hb. destruct Ha as [Wa Ha]. destruct Hb as [Wb _].
  rewrite forallb_forall in Ha. specialize (Ha l ltac:(apply py_range_in; lia)).
  assert (Ja : encl (cosI m j) (cos (PI * IZR j / IZR N))) by (apply cosI_encl; fold N; lia).
  assert (Jb : encl (cosI m l) (cos (PI * IZR l / IZR N))) by (apply cosI_encl; fold N; lia).
  pose proof (tI_encl m p) as Jt. fold N in Jt. set (w := (2 * PI / IZR N) ^ 2) in *.
  assert (Hw : 0 < w) by (apply pow_lt; apply step_pos; lia).
  assert (Hk : 0 < (IZR p / 4) ^ 2) by (apply pow_lt; apply IZR_lt in Hp; lra).
  set (P := cos (PI * IZR j / IZR N)) in *. set (Q := cos (PI * IZR l / IZR N)) in *.
  assert (E : eigenval N 4 (2 * PI) (IZR p / 4) j l * (6 * w) = eig_num 4 (w * (IZR p / 4) ^ 2) P Q).
  { unfold eigenval, eig_num. cbn [Z.eqb Pos.eqb]. fold P Q. fold w. field. lra. }
  set (T := w * (IZR p / 4) ^ 2) in *. assert (HT : 0 < T) by (apply Rmult_lt_0_compat; assumption).
  pose proof sc_pos as S. destruct Jt as [Jt1 Jt2]. set (s := IZR sc) in *.
  pose proof (lo4 _ _ _ _ _ _ Wa Wb (conj Jt1 Jt2) Ja Jb) as Lo.
  pose proof (hi4 _ _ _ _ _ _ (Rlt_le _ _ HT) (proj1 (COS_bound _)) (proj1 (COS_bound _)) (conj Jt1 Jt2) Ja Jb) as Hi. fold P Q s in Lo, Hi.
  rewrite <- E in Lo, Hi. set (v := eigenval N 4 (2 * PI) (IZR p / 4) j l) in *.
  assert (Hdr : 0 <= IZR d) by (apply IZR_le; lia). assert (Hpr : 0 < IZR p) by (apply IZR_lt; lia).
  assert (Et : T * 16 = w * IZR p ^ 2) by (unfold T; field).
  assert (Hs : 0 < s * s * (6 * w) * (1000 * IZR p ^ 2)) by (assert (0 < IZR p ^ 2) by (apply pow_lt; exact Hpr); apply Rmult_lt_0_compat; [apply Rmult_lt_0_compat; [apply Rmult_lt_0_compat; exact S|]|]; lra).
  assert (B : 96 * IZR d * (s * T) * s <= 96 * IZR d * IZR (snd (tI m p)) * s) by (apply Rmult_le_compat_r; [lra|]; apply Rmult_le_compat_l; lra).
  assert (B2 : 96 * IZR d * (s * T) * s = IZR d / 1000 * (s * s * (6 * w) * (1000 * IZR p ^ 2))) by (replace (96 * IZR d * (s * T) * s) with (6 * IZR d * s * s * (T * 16)) by ring; rewrite Et; field).
  assert (Hp2 : 0 <= 1000 * IZR p ^ 2) by (assert (0 < IZR p ^ 2) by (apply pow_lt; lra); lra).
  apply orb_prop in Ha. destruct Ha as [Ha|Ha]; apply Z.leb_le, IZR_le in Ha.
  - eapply Rle_trans; [|apply Rle_abs]. apply (Rmult_le_reg_r _ _ _ Hs). rewrite <- B2. eapply Rle_trans; [exact B|].
    rewrite !mult_IZR in Ha. rewrite Z.pow_2_r, mult_IZR in Ha. eapply Rle_trans; [exact Ha|].
    apply Rle_trans with (1000 * IZR p ^ 2 * (s * s * (v * (6 * w)))); [|right; ring].
    replace (1000 * (IZR p * IZR p)) with (1000 * IZR p ^ 2) by ring. apply Rmult_le_compat_l; [exact Hp2|exact Lo].
  - rewrite <- Rabs_Ropp. eapply Rle_trans; [|apply Rle_abs]. apply (Rmult_le_reg_r _ _ _ Hs). rewrite <- B2. eapply Rle_trans; [exact B|].
    rewrite opp_IZR, !mult_IZR in Ha. rewrite Z.pow_2_r, mult_IZR in Ha. eapply Rle_trans; [exact Ha|].
    apply Rle_trans with (- (1000 * IZR p ^ 2 * (s * s * (v * (6 * w))))); [|right; ring].
    apply Ropp_le_contravar. replace (1000 * (IZR p * IZR p)) with (1000 * IZR p ^ 2) by ring. apply Rmult_le_compat_l; [exact Hp2|exact Hi].
Qed.

Lemma check_16 : gap_check 4 27 96 = true.
Proof. vm_compute. reflexivity. Qed.
Lemma check_16q : gap_check 4 43 4844 = true.
Proof. vm_compute. reflexivity. Qed.
Lemma check_32q : gap_check 5 43 63 = true.
Proof. vm_compute. reflexivity. Qed.

Lemma coarse_gap : forall j l,
  ((1 <= j <= 15)%Z -> (1 <= l <= 15)%Z -> 12 / 125 <= Rabs (eigenval 16 4 (2 * PI) (27 / 4) j l) /\ 4 <= Rabs (eigenval 16 4 (2 * PI) (43 / 4) j l)) /\
  ((1 <= j <= 31)%Z -> (1 <= l <= 31)%Z -> 63 / 1000 <= Rabs (eigenval 32 4 (2 * PI) (43 / 4) j l)).
Proof.
  intros j l. split.
  - intros Hj Hl. split.
    + pose proof (gap_check_sound 4 27 96 ltac:(lia) ltac:(lia) check_16 j l Hj Hl) as H. change (2 ^ Z.of_nat 4)%Z with 16%Z in H. lra.
    + pose proof (gap_check_sound 4 43 4844 ltac:(lia) ltac:(lia) check_16q j l Hj Hl) as H. change (2 ^ Z.of_nat 4)%Z with 16%Z in H. lra.
  - intros Hj Hl. pose proof (gap_check_sound 5 43 63 ltac:(lia) ltac:(lia) check_32q j l Hj Hl) as H. exact H.
Qed.

(** The gap is no larger than the exact one. *)
Lemma gap_sharp : forall N, (32 <= N)%Z -> 0 < eigenval N 4 (2 * PI) (27 / 4) 9 10 <= 5 / 16.
Proof.
  intros N HN. rewrite eig_lam by lia. replace ((27 / 4) ^ 2) with (729 / 16) by field. pose proof (smooth_w N HN) as Hw.
  set (w := (2 * PI / IZR N) ^ 2) in *. split.
  { pose proof (smooth_in_9_10 N HN 9 10 ltac:(lia) ltac:(lia)) as H. fold w in H. lra. }
  eapply Rle_trans; [apply (stair_high N (729 / 16) 9 10 9 10); try lia; [lra|]|]; fold w.
  - pose proof (powers _ _ Hw) as P. unfold loX, upX. lra.
  - pose proof (powers _ _ Hw) as P. unfold lam, loX, upX. lra.
Qed.

(** On the grid of 32 cells the second-order scheme is almost resonant. *)
Lemma order2_close : Rabs (eigenval 32 2 (2 * PI) (27 / 4) 6 13) <= 9 / 4000.
Proof.
  pose proof (cosI_encl 5 6 ltac:(cbn; lia)) as [A1 A2]. pose proof (cosI_encl 5 13 ltac:(cbn; lia)) as [B1 B2].
  change (2 ^ Z.of_nat 5)%Z with 32%Z in *. set (P := cos (PI * 6 / 32)) in *. set (Q := cos (PI * 13 / 32)) in *.
  set (p := cosI 5 6) in *. set (q := cosI 5 13) in *. vm_compute in p, q. subst p q. cbn [fst snd] in *.
  replace (IZR sc) with 1125899906842624 in * by reflexivity.
  unfold eigenval. cbn [Z.eqb Pos.eqb]. fold P Q. pose proof PI_bounds as [L U]. pose proof PI_RGT_0 as HP.
  assert (Hw : (2 * (3141592653588 / 10 ^ 12) / 32) ^ 2 <= (2 * PI / 32) ^ 2 <= (2 * (3141592653590 / 10 ^ 12) / 32) ^ 2) by (split; apply pow_incr; lra).
  set (w := (2 * PI / 32) ^ 2) in *. assert (0 < w) by lra.
  apply Rabs_le. split; apply (Rmult_le_reg_r w); try assumption; replace (((27 / 4) ^ 2 + (2 * P + 2 * Q - 4) / w) * w) with ((27 / 4) ^ 2 * w + (2 * P + 2 * Q - 4)) by (field; lra); lra.
Qed.
