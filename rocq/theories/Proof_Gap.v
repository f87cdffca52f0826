(** Distance of the eigenvalues of the auxiliary problem from zero (C93). *)
From Coq Require Import ZArith Reals Lia Lra Psatz.
From Verif Require Import Model_Fourier Proof_Eig.
Open Scope R_scope.

Definition lam (k2 w X Y : R) : R := k2 - (X + Y) * (1 + k2 * w / 12) + w * X * Y / 6.
Definition vers (N j : Z) : R := 2 * (1 - cos (PI * IZR j / IZR N)) / (2 * PI / IZR N) ^ 2.
Definition upX (q w : R) : R := q - q ^ 2 * w / 12 + q ^ 3 * w ^ 2 / 360.
Definition loX (q w : R) : R := upX q w - q ^ 4 * w ^ 3 / 20160.

Lemma step_pos : forall N, (1 <= N)%Z -> 0 < 2 * PI / IZR N.
Proof. intros N HN. apply IZR_le in HN. pose proof PI_RGT_0. apply Rdiv_lt_0_compat; lra. Qed.

Lemma eig_lam : forall N k j l, (1 <= N)%Z -> eigenval N 4 (2 * PI) k j l = lam (k ^ 2) ((2 * PI / IZR N) ^ 2) (vers N j) (vers N l).
Proof.
  intros N k j l HN. pose proof (step_pos N HN) as Hh. unfold eigenval, lam, vers. cbn [Z.eqb Pos.eqb].
  set (h := 2 * PI / IZR N) in *. field. lra.
Qed.

Lemma vers_range : forall N j, (1 <= N)%Z -> 0 <= vers N j <= 4 / (2 * PI / IZR N) ^ 2.
Proof.
  intros N j HN. pose proof (step_pos N HN) as Hh. unfold vers. pose proof (COS_bound (PI * IZR j / IZR N)) as [B1 B2].
  assert (Hw : 0 < (2 * PI / IZR N) ^ 2) by (apply pow_lt; exact Hh).
  split; [apply Rmult_le_pos; [lra|left; apply Rinv_0_lt_compat; exact Hw]|].
  unfold Rdiv. apply Rmult_le_compat_r; [left; apply Rinv_0_lt_compat; exact Hw|lra].
Qed.

Lemma vers_mono : forall N i j, (1 <= N)%Z -> (0 <= i <= j)%Z -> (j <= N)%Z -> vers N i <= vers N j.
Proof.
  intros N i j HN Hi Hj. pose proof (step_pos N HN) as Hh. unfold vers.
  assert (Hw : 0 < (2 * PI / IZR N) ^ 2) by (apply pow_lt; exact Hh).
  unfold Rdiv. apply Rmult_le_compat_r; [left; apply Rinv_0_lt_compat; exact Hw|].
  assert (HN' : 0 < IZR N) by (apply IZR_lt; lia). pose proof PI_RGT_0 as HP.
  assert (H0 : 0 <= IZR i) by (apply IZR_le; lia). assert (H1 : IZR i <= IZR j) by (apply IZR_le; lia). assert (H2 : IZR j <= IZR N) by (apply IZR_le; lia).
  assert (Ha : forall x, 0 <= x <= IZR N -> 0 <= PI * x * / IZR N <= PI).
  { intros x Hx. split.
    - apply Rmult_le_pos; [apply Rmult_le_pos; lra|left; apply Rinv_0_lt_compat; exact HN'].
    - apply (Rmult_le_reg_r (IZR N)); [exact HN'|]. rewrite Rmult_assoc, Rinv_l by lra. rewrite Rmult_1_r. apply Rmult_le_compat_l; lra. }
  assert (Hc : cos (PI * IZR j * / IZR N) <= cos (PI * IZR i * / IZR N)).
  { destruct (Ha (IZR i)) as [A1 A2]; [lra|]. destruct (Ha (IZR j)) as [A3 A4]; [lra|].
    apply cos_decr_1; try assumption. apply Rmult_le_compat_r; [left; apply Rinv_0_lt_compat; exact HN'|]. apply Rmult_le_compat_l; lra. }
  lra.
Qed.

(** Both variables decrease [lam] below [6 / w]. *)
Lemma lam_mono : forall k2 w X Y X' Y', 0 <= k2 -> 0 < w -> X <= X' -> Y <= Y' -> w * Y <= 6 -> w * X' <= 6 -> lam k2 w X' Y' <= lam k2 w X Y.
Proof.
  intros k2 w X Y X' Y' Hk Hw HX HY H6 H6'. unfold lam.
  assert (E : k2 - (X + Y) * (1 + k2 * w / 12) + w * X * Y / 6 - (k2 - (X' + Y') * (1 + k2 * w / 12) + w * X' * Y' / 6) =
    (X' - X) * ((6 - w * Y) / 6 + k2 * w / 12) + (Y' - Y) * ((6 - w * X') / 6 + k2 * w / 12)) by field.
  assert (Hkw : 0 <= k2 * w) by (apply Rmult_le_pos; lra).
  assert (0 <= (X' - X) * ((6 - w * Y) / 6 + k2 * w / 12)) by (apply Rmult_le_pos; lra).
  assert (0 <= (Y' - Y) * ((6 - w * X') / 6 + k2 * w / 12)) by (apply Rmult_le_pos; lra). lra.
Qed.

Lemma cos_taylor : forall z, -2 <= z <= 2 -> 1 - z ^ 2 / 2 + z ^ 4 / 24 - z ^ 6 / 720 <= cos z <= 1 - z ^ 2 / 2 + z ^ 4 / 24 - z ^ 6 / 720 + z ^ 8 / 40320.
Proof.
  intros z Hz. destruct (pre_cos_bound z 1 (proj1 Hz) (proj2 Hz)) as [A B].
  unfold cos_approx, cos_term in A, B. cbn [Nat.mul Nat.add sum_f_R0] in A, B.
  replace (INR (fact 0)) with 1 in * by reflexivity. replace (INR (fact 2)) with 2 in * by (cbn; lra).
  replace (INR (fact 4)) with 24 in * by (cbn; lra). replace (INR (fact 6)) with 720 in * by (rewrite INR_IZR_INZ; f_equal).
  replace (INR (fact 8)) with 40320 in * by (rewrite INR_IZR_INZ; apply f_equal; vm_compute; reflexivity).
  split; [eapply Rle_trans; [|exact A]|eapply Rle_trans; [exact B|]]; right; field.
Qed.

Lemma vers_taylor : forall N j, (1 <= N)%Z -> (0 <= j)%Z -> (2 * j <= N)%Z ->
  let q := IZR j ^ 2 / 4 in let w := (2 * PI / IZR N) ^ 2 in loX q w <= vers N j <= upX q w.
Proof.
  intros N j HN Hj0 Hj q w. pose proof (step_pos N HN) as Hh. assert (Hw : 0 < w) by (apply pow_lt; exact Hh).
  assert (HN' : 0 < IZR N) by (apply IZR_lt; lia). pose proof PI_RGT_0 as HP. pose proof PI_4 as H4.
  assert (Hz : -2 <= PI * IZR j / IZR N <= 2).
  { apply IZR_le in Hj0, Hj. rewrite mult_IZR in Hj. split.
    - apply Rle_trans with 0; [lra|]. apply Rmult_le_pos; [apply Rmult_le_pos; lra|left; apply Rinv_0_lt_compat; exact HN'].
    - apply (Rmult_le_reg_r (IZR N)); [exact HN'|]. unfold Rdiv. rewrite Rmult_assoc, Rinv_l by lra. rewrite Rmult_1_r. nra. }
  destruct (cos_taylor _ Hz) as [A B]. set (z := PI * IZR j / IZR N) in *.
  assert (E : z ^ 2 = q * w) by (unfold z, q, w; field; lra).
  replace (z ^ 4) with ((z ^ 2) ^ 2) in * by ring. replace (z ^ 6) with ((z ^ 2) ^ 3) in * by ring. replace (z ^ 8) with ((z ^ 2) ^ 4) in * by ring.
  rewrite E in A, B. unfold vers. fold z. change ((2 * PI / IZR N) ^ 2) with w. unfold loX, upX.
  split; apply (Rmult_le_reg_r w); try exact Hw; replace (2 * (1 - cos z) / w * w) with (2 * (1 - cos z)) by (field; lra); lra.
Qed.

Lemma powers : forall w0 w, 0 < w <= w0 ->
  0 < w ^ 2 <= w0 * w /\ 0 < w ^ 3 <= w0 * w ^ 2 /\ 0 < w ^ 4 <= w0 * w ^ 3 /\ 0 < w ^ 5 <= w0 * w ^ 4 /\ 0 < w ^ 6 <= w0 * w ^ 5 /\ 0 < w ^ 7 <= w0 * w ^ 6.
Proof.
  intros w0 w H. assert (Hp : forall n, 0 < w ^ n) by (intro n; apply pow_lt; lra).
  assert (Hs : forall n, 0 < w ^ S n <= w0 * w ^ n) by (intro n; split; [apply Hp|]; cbn [pow]; apply Rmult_le_compat_r; [left; apply Hp|lra]).
  pose proof (Hs 1%nat) as H1. rewrite pow_1 in H1. repeat split; try apply Hp; try apply Hs. apply H1.
Qed.

(** One node of the staircase, from inside and from outside. *)
Lemma stair_low : forall N k2 j l j0 l0, (1 <= N)%Z -> 0 <= k2 -> (0 <= j <= j0)%Z -> (0 <= l <= l0)%Z -> (2 * j0 <= N)%Z -> (2 * l0 <= N)%Z ->
  let w := (2 * PI / IZR N) ^ 2 in let q := IZR j0 ^ 2 / 4 in let r := IZR l0 ^ 2 / 4 in w * upX q w <= 6 ->
  lam k2 w (upX q w) (upX r w) <= lam k2 w (vers N j) (vers N l).
Proof.
  intros N k2 j l j0 l0 HN Hk Hj Hl Hj0 Hl0 w q r H6.
  assert (Hw : 0 < w) by (apply pow_lt; apply step_pos; exact HN).
  destruct (vers_taylor N j0 HN ltac:(lia) Hj0) as [_ A]. destruct (vers_taylor N l0 HN ltac:(lia) Hl0) as [_ B].
  apply lam_mono; try assumption.
  - eapply Rle_trans; [apply (vers_mono N j j0 HN); lia|exact A].
  - eapply Rle_trans; [apply (vers_mono N l l0 HN); lia|exact B].
  - pose proof (vers_range N l HN) as [_ H]. fold w in H. apply Rle_trans with (w * (4 / w)); [apply Rmult_le_compat_l; lra|]. replace (w * (4 / w)) with 4 by (field; lra). lra.
Qed.

Lemma stair_high : forall N k2 j l j0 l0, (1 <= N)%Z -> 0 <= k2 -> (0 <= j0 <= j)%Z -> (0 <= l0 <= l)%Z -> (j <= N)%Z -> (l <= N)%Z -> (2 * j0 <= N)%Z -> (2 * l0 <= N)%Z ->
  let w := (2 * PI / IZR N) ^ 2 in let q := IZR j0 ^ 2 / 4 in let r := IZR l0 ^ 2 / 4 in w * loX r w <= 6 ->
  lam k2 w (vers N j) (vers N l) <= lam k2 w (loX q w) (loX r w).
Proof.
  intros N k2 j l j0 l0 HN Hk Hj Hl HjN HlN Hj0 Hl0 w q r H6.
  assert (Hw : 0 < w) by (apply pow_lt; apply step_pos; exact HN).
  destruct (vers_taylor N j0 HN ltac:(lia) Hj0) as [A _]. destruct (vers_taylor N l0 HN ltac:(lia) Hl0) as [B _].
  apply lam_mono; try assumption.
  - eapply Rle_trans; [exact A|apply (vers_mono N j0 j HN); lia].
  - eapply Rle_trans; [exact B|apply (vers_mono N l0 l HN); lia].
  - pose proof (vers_range N j HN) as [_ H]. fold w in H. apply Rle_trans with (w * (4 / w)); [apply Rmult_le_compat_l; lra|]. replace (w * (4 / w)) with 4 by (field; lra). lra.
Qed.

Lemma step_le : forall M N, (1 <= M <= N)%Z -> (2 * PI / IZR N) ^ 2 <= (2 * PI / IZR M) ^ 2.
Proof.
  intros M N H. pose proof PI_RGT_0. assert (0 < IZR M) by (apply IZR_lt; lia). assert (IZR M <= IZR N) by (apply IZR_le; lia).
  apply pow_incr. split; [left; apply step_pos; lia|]. unfold Rdiv. apply Rmult_le_compat_l; [lra|]. apply Rinv_le_contravar; assumption.
Qed.

Lemma step_32 : (2 * PI / 32) ^ 2 <= 241 / 6250.
Proof.
  pose proof PI_bounds. pose proof PI_RGT_0. apply Rle_trans with ((2 * (31416 / 10000) / 32) ^ 2); [apply pow_incr; lra|lra].
Qed.

Lemma step_64 : (2 * PI / 64) ^ 2 <= 241 / 25000.
Proof. pose proof step_32 as H. replace ((2 * PI / 64) ^ 2) with ((2 * PI / 32) ^ 2 / 4) by field. lra. Qed.

Lemma lam_sym : forall k2 w X Y, lam k2 w X Y = lam k2 w Y X.
Proof. intros. unfold lam. field. Qed.

Lemma hor_lo : forall w0 w c p m m', 0 < w <= w0 -> m <= p -> m' <= c -> m' <= c + w0 * m -> m' <= c + w * p.
Proof.
  intros w0 w c p m m' Hw H1 H2 H3. assert (w * m <= w * p) by (apply Rmult_le_compat_l; lra).
  destruct (Rle_lt_dec 0 m) as [G|G].
  - assert (0 <= w * m) by (apply Rmult_le_pos; lra). lra.
  - assert (w0 * m <= w * m) by nra. lra.
Qed.

Section Stair_smooth.
Context (N : Z) (HN : (32 <= N)%Z).
Let w := (2 * PI / IZR N) ^ 2.

Lemma smooth_w : 0 < w <= (241 / 6250).
Proof. split; [apply pow_lt; apply step_pos; lia|]. eapply Rle_trans; [apply (step_le 32 N); lia|exact step_32]. Qed.

Lemma smooth_in_3_13 : forall j l, (0 <= j <= 3)%Z -> (0 <= l <= 13)%Z -> 9 / 50 <= lam (729 / 16) w (vers N j) (vers N l).
Proof.
  intros j l Hj Hl. pose proof smooth_w as Hw.
  eapply Rle_trans; [|apply (stair_low N (729 / 16) j l 3 13); try lia; [lra|]].
  - fold w. replace (lam (729 / 16) w (upX (3 ^ 2 / 4) w) (upX (13 ^ 2 / 4) w)) with ((17 / 16) + w * ((-1513 / 384) + w * ((27475133 / 92160) + w * ((-173582807 / 245760) + w * ((-2541929 / 163840) + w * ((14480427 / 13107200))))))) by (unfold lam, upX; field).
    apply (hor_lo (241 / 6250) w _ _ (-788021 / 200000) _ Hw); [|lra|lra]. apply (hor_lo (241 / 6250) w _ _ (270865881 / 1000000) _ Hw); [|lra|lra]. apply (hor_lo (241 / 6250) w _ _ (-706908497 / 1000000) _ Hw); [|lra|lra]. apply (hor_lo (241 / 6250) w _ _ (-969669 / 62500) _ Hw); [|lra|lra]. apply (hor_lo (241 / 6250) w _ _ (17262 / 15625) _ Hw); [|lra|lra]. lra.
  - fold w. apply Rge_le, Rminus_ge, Rle_ge. replace (6 - w * upX (3 ^ 2 / 4) w) with (6 + w * ((-9 / 4) + w * ((27 / 64) + w * ((-81 / 2560))))) by (unfold upX; field).
    apply (hor_lo (241 / 6250) w _ _ (-9 / 4) _ Hw); [|lra|lra]. apply (hor_lo (241 / 6250) w _ _ (210327 / 500000) _ Hw); [|lra|lra]. apply (hor_lo (241 / 6250) w _ _ (-31641 / 1000000) _ Hw); [|lra|lra]. lra.
Qed.

Lemma smooth_in_6_12 : forall j l, (0 <= j <= 6)%Z -> (0 <= l <= 12)%Z -> 9 / 50 <= lam (729 / 16) w (vers N j) (vers N l).
Proof.
  intros j l Hj Hl. pose proof smooth_w as Hw.
  eapply Rle_trans; [|apply (stair_low N (729 / 16) j l 6 12); try lia; [lra|]].
  - fold w. replace (lam (729 / 16) w (upX (6 ^ 2 / 4) w) (upX (12 ^ 2 / 4) w)) with ((9 / 16) + w * ((-135 / 64) + w * ((26001 / 256) + w * ((-439587 / 2560) + w * ((-729 / 4) + w * ((2187 / 50))))))) by (unfold lam, upX; field).
    apply (hor_lo (241 / 6250) w _ _ (-135 / 64) _ Hw); [|lra|lra]. apply (hor_lo (241 / 6250) w _ _ (2958567 / 31250) _ Hw); [|lra|lra]. apply (hor_lo (241 / 6250) w _ _ (-11171327 / 62500) _ Hw); [|lra|lra]. apply (hor_lo (241 / 6250) w _ _ (-729 / 4) _ Hw); [|lra|lra]. apply (hor_lo (241 / 6250) w _ _ (2187 / 50) _ Hw); [|lra|lra]. lra.
  - fold w. apply Rge_le, Rminus_ge, Rle_ge. replace (6 - w * upX (6 ^ 2 / 4) w) with (6 + w * ((-9) + w * ((27 / 4) + w * ((-81 / 40))))) by (unfold upX; field).
    apply (hor_lo (241 / 6250) w _ _ (-9) _ Hw); [|lra|lra]. apply (hor_lo (241 / 6250) w _ _ (1667979 / 250000) _ Hw); [|lra|lra]. apply (hor_lo (241 / 6250) w _ _ (-81 / 40) _ Hw); [|lra|lra]. lra.
Qed.

Lemma smooth_in_7_11 : forall j l, (0 <= j <= 7)%Z -> (0 <= l <= 11)%Z -> 9 / 50 <= lam (729 / 16) w (vers N j) (vers N l).
Proof.
  intros j l Hj Hl. pose proof smooth_w as Hw.
  eapply Rle_trans; [|apply (stair_low N (729 / 16) j l 7 11); try lia; [lra|]].
  - fold w. replace (lam (729 / 16) w (upX (7 ^ 2 / 4) w) (upX (11 ^ 2 / 4) w)) with ((49 / 16) + w * ((-4165 / 384) + w * ((222907 / 6144) + w * ((7453493 / 245760) + w * ((-597601697 / 2654208) + w * ((208422380089 / 3185049600))))))) by (unfold lam, upX; field).
    apply (hor_lo (241 / 6250) w _ _ (-2169271 / 200000) _ Hw); [|lra|lra]. apply (hor_lo (241 / 6250) w _ _ (9070109 / 250000) _ Hw); [|lra|lra]. apply (hor_lo (241 / 6250) w _ _ (10823229 / 500000) _ Hw); [|lra|lra]. apply (hor_lo (241 / 6250) w _ _ (-4503051 / 20000) _ Hw); [|lra|lra]. apply (hor_lo (241 / 6250) w _ _ (32718859 / 500000) _ Hw); [|lra|lra]. lra.
  - fold w. apply Rge_le, Rminus_ge, Rle_ge. replace (6 - w * upX (7 ^ 2 / 4) w) with (6 + w * ((-49 / 4) + w * ((2401 / 192) + w * ((-117649 / 23040))))) by (unfold upX; field).
    apply (hor_lo (241 / 6250) w _ _ (-49 / 4) _ Hw); [|lra|lra]. apply (hor_lo (241 / 6250) w _ _ (12308309 / 1000000) _ Hw); [|lra|lra]. apply (hor_lo (241 / 6250) w _ _ (-2553147 / 500000) _ Hw); [|lra|lra]. lra.
Qed.

Lemma smooth_in_9_10 : forall j l, (0 <= j <= 9)%Z -> (0 <= l <= 10)%Z -> 9 / 50 <= lam (729 / 16) w (vers N j) (vers N l).
Proof.
  intros j l Hj Hl. pose proof smooth_w as Hw.
  eapply Rle_trans; [|apply (stair_low N (729 / 16) j l 9 10); try lia; [lra|]].
  - fold w. replace (lam (729 / 16) w (upX (9 ^ 2 / 4) w) (upX (10 ^ 2 / 4) w)) with ((5 / 16) + w * ((-905 / 768) + w * ((-10530683 / 184320) + w * ((46997493 / 163840) + w * ((-1832625 / 4096) + w * ((1366875 / 8192))))))) by (unfold lam, upX; field).
    apply (hor_lo (241 / 6250) w _ _ (-3381419 / 1000000) _ Hw); [|lra|lra]. apply (hor_lo (241 / 6250) w _ _ (-14283153 / 250000) _ Hw); [|lra|lra]. apply (hor_lo (241 / 6250) w _ _ (134798743 / 500000) _ Hw); [|lra|lra]. apply (hor_lo (241 / 6250) w _ _ (-447418213 / 1000000) _ Hw); [|lra|lra]. apply (hor_lo (241 / 6250) w _ _ (83427429 / 500000) _ Hw); [|lra|lra]. lra.
  - fold w. apply Rge_le, Rminus_ge, Rle_ge. replace (6 - w * upX (9 ^ 2 / 4) w) with (6 + w * ((-81 / 4) + w * ((2187 / 64) + w * ((-59049 / 2560))))) by (unfold upX; field).
    apply (hor_lo (241 / 6250) w _ _ (-81 / 4) _ Hw); [|lra|lra]. apply (hor_lo (241 / 6250) w _ _ (33282449 / 1000000) _ Hw); [|lra|lra]. apply (hor_lo (241 / 6250) w _ _ (-720813 / 31250) _ Hw); [|lra|lra]. lra.
Qed.

Lemma smooth_out_1_14 : forall j l, (1 <= j <= N)%Z -> (14 <= l <= N)%Z -> 9 / 50 <= - lam (729 / 16) w (vers N j) (vers N l).
Proof.
  intros j l Hj Hl. pose proof smooth_w as Hw.
  eapply Rle_trans; [|apply Ropp_le_contravar; apply (stair_high N (729 / 16) j l 1 14); try lia; [lra|]].
  - fold w. replace (- lam (729 / 16) w (loX (1 ^ 2 / 4) w) (loX (14 ^ 2 / 4) w)) with ((59 / 16) + w * ((-11623 / 768) + w * ((-26083063 / 61440) + w * ((9713816579 / 10321920) + w * ((-3191284114987 / 2972712960) + w * ((-199537849 / 796262400) + w * ((3310979 / 1592524800) + w * ((-117649 / 12740198400))))))))) by (unfold lam, loX, upX; field).
    apply (hor_lo (241 / 6250) w _ _ (-15751977 / 500000) _ Hw); [|lra|lra]. apply (hor_lo (241 / 6250) w _ _ (-424529021 / 1000000) _ Hw); [|lra|lra]. apply (hor_lo (241 / 6250) w _ _ (449845341 / 500000) _ Hw); [|lra|lra]. apply (hor_lo (241 / 6250) w _ _ (-536767741 / 500000) _ Hw); [|lra|lra]. apply (hor_lo (241 / 6250) w _ _ (-125297 / 500000) _ Hw); [|lra|lra]. apply (hor_lo (241 / 6250) w _ _ (1039 / 500000) _ Hw); [|lra|lra]. apply (hor_lo (241 / 6250) w _ _ (-1 / 100000) _ Hw); [|lra|lra]. lra.
  - fold w. apply Rge_le, Rminus_ge, Rle_ge. replace (6 - w * loX (14 ^ 2 / 4) w) with (6 + w * ((-49) + w * ((2401 / 12) + w * ((-117649 / 360) + w * ((823543 / 2880)))))) by (unfold loX, upX; field).
    apply (hor_lo (241 / 6250) w _ _ (-49) _ Hw); [|lra|lra]. apply (hor_lo (241 / 6250) w _ _ (93740909 / 500000) _ Hw); [|lra|lra]. apply (hor_lo (241 / 6250) w _ _ (-163401389 / 500000) _ Hw); [|lra|lra]. apply (hor_lo (241 / 6250) w _ _ (28595243 / 100000) _ Hw); [|lra|lra]. lra.
Qed.

Lemma smooth_out_4_13 : forall j l, (4 <= j <= N)%Z -> (13 <= l <= N)%Z -> 9 / 50 <= - lam (729 / 16) w (vers N j) (vers N l).
Proof.
  intros j l Hj Hl. pose proof smooth_w as Hw.
  eapply Rle_trans; [|apply Ropp_le_contravar; apply (stair_high N (729 / 16) j l 4 13); try lia; [lra|]].
  - fold w. replace (- lam (729 / 16) w (loX (4 ^ 2 / 4) w) (loX (13 ^ 2 / 4) w)) with ((11 / 16) + w * ((-2035 / 768) + w * ((-3092075 / 12288) + w * ((958007935 / 2064384) + w * ((-1319143319659 / 2972712960) + w * ((-14508045487 / 348364800) + w * ((178591933 / 34836480) + w * ((-815730721 / 2438553600))))))))) by (unfold lam, loX, upX; field).
    apply (hor_lo (241 / 6250) w _ _ (-386023 / 31250) _ Hw); [|lra|lra]. apply (hor_lo (241 / 6250) w _ _ (-62908427 / 250000) _ Hw); [|lra|lra]. apply (hor_lo (241 / 6250) w _ _ (89378369 / 200000) _ Hw); [|lra|lra]. apply (hor_lo (241 / 6250) w _ _ (-445356529 / 1000000) _ Hw); [|lra|lra]. apply (hor_lo (241 / 6250) w _ _ (-4164613 / 100000) _ Hw); [|lra|lra]. apply (hor_lo (241 / 6250) w _ _ (5113679 / 1000000) _ Hw); [|lra|lra]. apply (hor_lo (241 / 6250) w _ _ (-66903 / 200000) _ Hw); [|lra|lra]. lra.
  - fold w. apply Rge_le, Rminus_ge, Rle_ge. replace (6 - w * loX (13 ^ 2 / 4) w) with (6 + w * ((-169 / 4) + w * ((28561 / 192) + w * ((-4826809 / 23040) + w * ((815730721 / 5160960)))))) by (unfold loX, upX; field).
    apply (hor_lo (241 / 6250) w _ _ (-169 / 4) _ Hw); [|lra|lra]. apply (hor_lo (241 / 6250) w _ _ (140677007 / 1000000) _ Hw); [|lra|lra]. apply (hor_lo (241 / 6250) w _ _ (-209496919 / 1000000) _ Hw); [|lra|lra]. apply (hor_lo (241 / 6250) w _ _ (79028971 / 500000) _ Hw); [|lra|lra]. lra.
Qed.

Lemma smooth_out_7_12 : forall j l, (7 <= j <= N)%Z -> (12 <= l <= N)%Z -> 9 / 50 <= - lam (729 / 16) w (vers N j) (vers N l).
Proof.
  intros j l Hj Hl. pose proof smooth_w as Hw.
  eapply Rle_trans; [|apply Ropp_le_contravar; apply (stair_high N (729 / 16) j l 7 12); try lia; [lra|]].
  - fold w. replace (- lam (729 / 16) w (loX (7 ^ 2 / 4) w) (loX (12 ^ 2 / 4) w)) with ((43 / 16) + w * ((-8299 / 768) + w * ((-5032981 / 184320) + w * ((-192606697 / 2064384) + w * ((24029732207 / 110100480) + w * ((-62268563 / 204800) + w * ((9731253 / 102400) + w * ((-3176523 / 204800))))))))) by (unfold lam, loX, upX; field).
    apply (hor_lo (241 / 6250) w _ _ (-5998811 / 500000) _ Hw); [|lra|lra]. apply (hor_lo (241 / 6250) w _ _ (-1931457 / 62500) _ Hw); [|lra|lra]. apply (hor_lo (241 / 6250) w _ _ (-93299841 / 1000000) _ Hw); [|lra|lra]. apply (hor_lo (241 / 6250) w _ _ (25816093 / 125000) _ Hw); [|lra|lra]. apply (hor_lo (241 / 6250) w _ _ (-152022859 / 500000) _ Hw); [|lra|lra]. apply (hor_lo (241 / 6250) w _ _ (94433687 / 1000000) _ Hw); [|lra|lra]. apply (hor_lo (241 / 6250) w _ _ (-15510367 / 1000000) _ Hw); [|lra|lra]. lra.
  - fold w. apply Rge_le, Rminus_ge, Rle_ge. replace (6 - w * loX (12 ^ 2 / 4) w) with (6 + w * ((-36) + w * (108 + w * ((-648 / 5) + w * ((2916 / 35)))))) by (unfold loX, upX; field).
    apply (hor_lo (241 / 6250) w _ _ (-36) _ Hw); [|lra|lra]. apply (hor_lo (241 / 6250) w _ _ (1609416 / 15625) _ Hw); [|lra|lra]. apply (hor_lo (241 / 6250) w _ _ (-648 / 5) _ Hw); [|lra|lra]. apply (hor_lo (241 / 6250) w _ _ (16662857 / 200000) _ Hw); [|lra|lra]. lra.
Qed.

Lemma smooth_out_8_11 : forall j l, (8 <= j <= N)%Z -> (11 <= l <= N)%Z -> 9 / 50 <= - lam (729 / 16) w (vers N j) (vers N l).
Proof.
  intros j l Hj Hl. pose proof smooth_w as Hw.
  eapply Rle_trans; [|apply Ropp_le_contravar; apply (stair_high N (729 / 16) j l 8 11); try lia; [lra|]].
  - fold w. replace (- lam (729 / 16) w (loX (8 ^ 2 / 4) w) (loX (11 ^ 2 / 4) w)) with ((11 / 16) + w * ((-2035 / 768) + w * ((351925 / 12288) + w * ((-502007825 / 2064384) + w * ((1115050418261 / 2972712960) + w * ((-7289563567 / 21772800) + w * ((65547757 / 544320) + w * ((-214358881 / 9525600))))))))) by (unfold lam, loX, upX; field).
    apply (hor_lo (241 / 6250) w _ _ (-132487 / 50000) _ Hw); [|lra|lra]. apply (hor_lo (241 / 6250) w _ _ (9631439 / 500000) _ Hw); [|lra|lra]. apply (hor_lo (241 / 6250) w _ _ (-60793901 / 250000) _ Hw); [|lra|lra]. apply (hor_lo (241 / 6250) w _ _ (362185277 / 1000000) _ Hw); [|lra|lra]. apply (hor_lo (241 / 6250) w _ _ (-41850173 / 125000) _ Hw); [|lra|lra]. apply (hor_lo (241 / 6250) w _ _ (119553631 / 1000000) _ Hw); [|lra|lra]. apply (hor_lo (241 / 6250) w _ _ (-5625863 / 250000) _ Hw); [|lra|lra]. lra.
  - fold w. apply Rge_le, Rminus_ge, Rle_ge. replace (6 - w * loX (11 ^ 2 / 4) w) with (6 + w * ((-121 / 4) + w * ((14641 / 192) + w * ((-1771561 / 23040) + w * ((214358881 / 5160960)))))) by (unfold loX, upX; field).
    apply (hor_lo (241 / 6250) w _ _ (-121 / 4) _ Hw); [|lra|lra]. apply (hor_lo (241 / 6250) w _ _ (1145161 / 15625) _ Hw); [|lra|lra]. apply (hor_lo (241 / 6250) w _ _ (-76890669 / 1000000) _ Hw); [|lra|lra]. apply (hor_lo (241 / 6250) w _ _ (41534691 / 1000000) _ Hw); [|lra|lra]. lra.
Qed.

Lemma smooth_out_10_10 : forall j l, (10 <= j <= N)%Z -> (10 <= l <= N)%Z -> 9 / 50 <= - lam (729 / 16) w (vers N j) (vers N l).
Proof.
  intros j l Hj Hl. pose proof smooth_w as Hw.
  eapply Rle_trans; [|apply Ropp_le_contravar; apply (stair_high N (729 / 16) j l 10 10); try lia; [lra|]].
  - fold w. replace (- lam (729 / 16) w (loX (10 ^ 2 / 4) w) (loX (10 ^ 2 / 4) w)) with ((71 / 16) + w * ((-1775 / 96) + w * ((48125 / 384) + w * ((-8434375 / 16128) + w * ((891640625 / 1161216) + w * ((-283203125 / 435456) + w * ((244140625 / 870912) + w * ((-6103515625 / 97542144))))))))) by (unfold lam, loX, upX; field).
    apply (hor_lo (241 / 6250) w _ _ (-1155599 / 62500) _ Hw); [|lra|lra]. apply (hor_lo (241 / 6250) w _ _ (105160001 / 1000000) _ Hw); [|lra|lra]. apply (hor_lo (241 / 6250) w _ _ (-6537059 / 12500) _ Hw); [|lra|lra]. apply (hor_lo (241 / 6250) w _ _ (742772913 / 1000000) _ Hw); [|lra|lra]. apply (hor_lo (241 / 6250) w _ _ (-650359911 / 1000000) _ Hw); [|lra|lra]. apply (hor_lo (241 / 6250) w _ _ (34739341 / 125000) _ Hw); [|lra|lra]. apply (hor_lo (241 / 6250) w _ _ (-31286557 / 500000) _ Hw); [|lra|lra]. lra.
  - fold w. apply Rge_le, Rminus_ge, Rle_ge. replace (6 - w * loX (10 ^ 2 / 4) w) with (6 + w * ((-25) + w * ((625 / 12) + w * ((-3125 / 72) + w * ((78125 / 4032)))))) by (unfold loX, upX; field).
    apply (hor_lo (241 / 6250) w _ _ (-25) _ Hw); [|lra|lra]. apply (hor_lo (241 / 6250) w _ _ (25204861 / 500000) _ Hw); [|lra|lra]. apply (hor_lo (241 / 6250) w _ _ (-21701389 / 500000) _ Hw); [|lra|lra]. apply (hor_lo (241 / 6250) w _ _ (242203 / 12500) _ Hw); [|lra|lra]. lra.
Qed.

Lemma smooth_gap_in : forall j l, (1 <= j <= N - 1)%Z -> (1 <= l <= N - 1)%Z -> 9 / 50 <= Rabs (eigenval N 4 (2 * PI) (27 / 4) j l).
Proof.
  intros j l Hj Hl. rewrite eig_lam by lia. replace ((27 / 4) ^ 2) with (729 / 16) by field. fold w.
  assert (Hp : 9 / 50 <= lam (729 / 16) w (vers N j) (vers N l) \/ 9 / 50 <= - lam (729 / 16) w (vers N j) (vers N l)).
  2:{ destruct Hp as [Hp|Hp]; [eapply Rle_trans; [exact Hp|apply Rle_abs]|rewrite <- Rabs_Ropp; eapply Rle_trans; [exact Hp|apply Rle_abs]]. }
  destruct (Z_le_gt_dec j 3); [destruct (Z_le_gt_dec l 13); [left; apply smooth_in_3_13; lia|right; apply smooth_out_1_14; lia]|].
  destruct (Z_le_gt_dec j 6); [destruct (Z_le_gt_dec l 12); [left; apply smooth_in_6_12; lia|right; apply smooth_out_4_13; lia]|].
  destruct (Z_le_gt_dec j 7); [destruct (Z_le_gt_dec l 11); [left; apply smooth_in_7_11; lia|right; apply smooth_out_7_12; lia]|].
  destruct (Z_le_gt_dec j 9); [destruct (Z_le_gt_dec l 10); [left; apply smooth_in_9_10; lia|right; apply smooth_out_8_11; lia]|].
  destruct (Z_le_gt_dec j 10); [destruct (Z_le_gt_dec l 9); [left; rewrite lam_sym; apply smooth_in_9_10; lia|right; apply smooth_out_10_10; lia]|].
  destruct (Z_le_gt_dec j 11); [destruct (Z_le_gt_dec l 7); [left; rewrite lam_sym; apply smooth_in_7_11; lia|right; rewrite lam_sym; apply smooth_out_8_11; lia]|].
  destruct (Z_le_gt_dec j 12); [destruct (Z_le_gt_dec l 6); [left; rewrite lam_sym; apply smooth_in_6_12; lia|right; rewrite lam_sym; apply smooth_out_7_12; lia]|].
  destruct (Z_le_gt_dec j 13); [destruct (Z_le_gt_dec l 3); [left; rewrite lam_sym; apply smooth_in_3_13; lia|right; rewrite lam_sym; apply smooth_out_4_13; lia]|].
  right. rewrite lam_sym. apply smooth_out_1_14; lia.
Qed.
End Stair_smooth.

Lemma smooth_gap : forall N, (32 <= N)%Z -> forall j l, (1 <= j <= N - 1)%Z -> (1 <= l <= N - 1)%Z -> 9 / 50 <= Rabs (eigenval N 4 (2 * PI) (27 / 4) j l).
Proof. exact smooth_gap_in. Qed.

Section Stair_quadratic.
Context (N : Z) (HN : (64 <= N)%Z).
Let w := (2 * PI / IZR N) ^ 2.

Lemma quadratic_w : 0 < w <= (241 / 25000).
Proof. split; [apply pow_lt; apply step_pos; lia|]. eapply Rle_trans; [apply (step_le 64 N); lia|exact step_64]. Qed.

Lemma quadratic_in_4_21 : forall j l, (0 <= j <= 4)%Z -> (0 <= l <= 21)%Z -> 13 / 100 <= lam (1849 / 16) w (vers N j) (vers N l).
Proof.
  intros j l Hj Hl. pose proof quadratic_w as Hw.
  eapply Rle_trans; [|apply (stair_low N (1849 / 16) j l 4 21); try lia; [lra|]].
  - fold w. replace (lam (1849 / 16) w (upX (4 ^ 2 / 4) w) (upX (21 ^ 2 / 4) w)) with ((21 / 16) + w * ((-3199 / 256) + w * ((109466461 / 20480) + w * ((-146600874337 / 4423680) + w * ((-1097257 / 1280) + w * ((352947 / 3200))))))) by (unfold lam, upX; field).
    apply (hor_lo (241 / 25000) w _ _ (-6248047 / 500000) _ Hw); [|lra|lra]. apply (hor_lo (241 / 25000) w _ _ (5025492519 / 1000000) _ Hw); [|lra|lra]. apply (hor_lo (241 / 25000) w _ _ (-33148290649 / 1000000) _ Hw); [|lra|lra]. apply (hor_lo (241 / 25000) w _ _ (-26788501 / 31250) _ Hw); [|lra|lra]. apply (hor_lo (241 / 25000) w _ _ (110295937 / 1000000) _ Hw); [|lra|lra]. lra.
  - fold w. apply Rge_le, Rminus_ge, Rle_ge. replace (6 - w * upX (4 ^ 2 / 4) w) with (6 + w * ((-4) + w * ((4 / 3) + w * ((-8 / 45))))) by (unfold upX; field).
    apply (hor_lo (241 / 25000) w _ _ (-4) _ Hw); [|lra|lra]. apply (hor_lo (241 / 25000) w _ _ (1331619 / 1000000) _ Hw); [|lra|lra]. apply (hor_lo (241 / 25000) w _ _ (-88889 / 500000) _ Hw); [|lra|lra]. lra.
Qed.

Lemma quadratic_in_7_20 : forall j l, (0 <= j <= 7)%Z -> (0 <= l <= 20)%Z -> 13 / 100 <= lam (1849 / 16) w (vers N j) (vers N l).
Proof.
  intros j l Hj Hl. pose proof quadratic_w as Hw.
  eapply Rle_trans; [|apply (stair_low N (1849 / 16) j l 7 20); try lia; [lra|]].
  - fold w. replace (lam (1849 / 16) w (upX (7 ^ 2 / 4) w) (upX (20 ^ 2 / 4) w)) with ((53 / 16) + w * ((-23797 / 768) + w * ((636440053 / 184320) + w * ((-85405856201 / 4423680) + w * ((-134756125 / 20736) + w * ((73530625 / 31104))))))) by (unfold lam, upX; field).
    apply (hor_lo (241 / 25000) w _ _ (-15492839 / 500000) _ Hw); [|lra|lra]. apply (hor_lo (241 / 25000) w _ _ (130647581 / 40000) _ Hw); [|lra|lra]. apply (hor_lo (241 / 25000) w _ _ (-9684582369 / 500000) _ Hw); [|lra|lra]. apply (hor_lo (241 / 25000) w _ _ (-162466393 / 25000) _ Hw); [|lra|lra]. apply (hor_lo (241 / 25000) w _ _ (2364024723 / 1000000) _ Hw); [|lra|lra]. lra.
  - fold w. apply Rge_le, Rminus_ge, Rle_ge. replace (6 - w * upX (7 ^ 2 / 4) w) with (6 + w * ((-49 / 4) + w * ((2401 / 192) + w * ((-117649 / 23040))))) by (unfold upX; field).
    apply (hor_lo (241 / 25000) w _ _ (-49 / 4) _ Hw); [|lra|lra]. apply (hor_lo (241 / 25000) w _ _ (12455983 / 1000000) _ Hw); [|lra|lra]. apply (hor_lo (241 / 25000) w _ _ (-2553147 / 500000) _ Hw); [|lra|lra]. lra.
Qed.

Lemma quadratic_in_10_19 : forall j l, (0 <= j <= 10)%Z -> (0 <= l <= 19)%Z -> 13 / 100 <= lam (1849 / 16) w (vers N j) (vers N l).
Proof.
  intros j l Hj Hl. pose proof quadratic_w as Hw.
  eapply Rle_trans; [|apply (stair_low N (1849 / 16) j l 10 19); try lia; [lra|]].
  - fold w. replace (lam (1849 / 16) w (upX (10 ^ 2 / 4) w) (upX (19 ^ 2 / 4) w)) with ((5 / 16) + w * ((-2305 / 768) + w * ((247216597 / 184320) + w * ((-22247929169 / 4423680) + w * ((-7509747625 / 331776) + w * ((29403675625 / 1990656))))))) by (unfold lam, upX; field).
    apply (hor_lo (241 / 25000) w _ _ (-3001303 / 1000000) _ Hw); [|lra|lra]. apply (hor_lo (241 / 25000) w _ _ (1290650149 / 1000000) _ Hw); [|lra|lra]. apply (hor_lo (241 / 25000) w _ _ (-2623741101 / 500000) _ Hw); [|lra|lra]. apply (hor_lo (241 / 25000) w _ _ (-4526998713 / 200000) _ Hw); [|lra|lra]. apply (hor_lo (241 / 25000) w _ _ (1477084721 / 100000) _ Hw); [|lra|lra]. lra.
  - fold w. apply Rge_le, Rminus_ge, Rle_ge. replace (6 - w * upX (10 ^ 2 / 4) w) with (6 + w * ((-25) + w * ((625 / 12) + w * ((-3125 / 72))))) by (unfold upX; field).
    apply (hor_lo (241 / 25000) w _ _ (-25) _ Hw); [|lra|lra]. apply (hor_lo (241 / 25000) w _ _ (5166493 / 100000) _ Hw); [|lra|lra]. apply (hor_lo (241 / 25000) w _ _ (-21701389 / 500000) _ Hw); [|lra|lra]. lra.
Qed.

Lemma quadratic_in_11_18 : forall j l, (0 <= j <= 11)%Z -> (0 <= l <= 18)%Z -> 13 / 100 <= lam (1849 / 16) w (vers N j) (vers N l).
Proof.
  intros j l Hj Hl. pose proof quadratic_w as Hw.
  eapply Rle_trans; [|apply (stair_low N (1849 / 16) j l 11 18); try lia; [lra|]].
  - fold w. replace (lam (1849 / 16) w (upX (11 ^ 2 / 4) w) (upX (18 ^ 2 / 4) w)) with ((69 / 16) + w * ((-10235 / 256) + w * ((8117179 / 12288) + w * ((2090572799 / 4423680) + w * ((-105546969 / 4096) + w * ((3874403907 / 204800))))))) by (unfold lam, upX; field).
    apply (hor_lo (241 / 25000) w _ _ (-39980469 / 1000000) _ Hw); [|lra|lra]. apply (hor_lo (241 / 25000) w _ _ (330288859 / 500000) _ Hw); [|lra|lra]. apply (hor_lo (241 / 25000) w _ _ (56045091 / 250000) _ Hw); [|lra|lra]. apply (hor_lo (241 / 25000) w _ _ (-25768302979 / 1000000) _ Hw); [|lra|lra]. apply (hor_lo (241 / 25000) w _ _ (18917987827 / 1000000) _ Hw); [|lra|lra]. lra.
  - fold w. apply Rge_le, Rminus_ge, Rle_ge. replace (6 - w * upX (11 ^ 2 / 4) w) with (6 + w * ((-121 / 4) + w * ((14641 / 192) + w * ((-1771561 / 23040))))) by (unfold upX; field).
    apply (hor_lo (241 / 25000) w _ _ (-121 / 4) _ Hw); [|lra|lra]. apply (hor_lo (241 / 25000) w _ _ (37756991 / 500000) _ Hw); [|lra|lra]. apply (hor_lo (241 / 25000) w _ _ (-76890669 / 1000000) _ Hw); [|lra|lra]. lra.
Qed.

Lemma quadratic_in_13_17 : forall j l, (0 <= j <= 13)%Z -> (0 <= l <= 17)%Z -> 13 / 100 <= lam (1849 / 16) w (vers N j) (vers N l).
Proof.
  intros j l Hj Hl. pose proof quadratic_w as Hw.
  eapply Rle_trans; [|apply (stair_low N (1849 / 16) j l 13 17); try lia; [lra|]].
  - fold w. replace (lam (1849 / 16) w (upX (13 ^ 2 / 4) w) (upX (17 ^ 2 / 4) w)) with ((17 / 16) + w * ((-3893 / 384) + w * ((-45142027 / 92160) + w * ((18973653197 / 2211840) + w * ((-546266511349 / 13271040) + w * ((116507435287321 / 3185049600))))))) by (unfold lam, upX; field).
    apply (hor_lo (241 / 25000) w _ _ (-14859909 / 1000000) _ Hw); [|lra|lra]. apply (hor_lo (241 / 25000) w _ _ (-244911171 / 500000) _ Hw); [|lra|lra]. apply (hor_lo (241 / 25000) w _ _ (818141683 / 100000) _ Hw); [|lra|lra]. apply (hor_lo (241 / 25000) w _ _ (-41162298611 / 1000000) _ Hw); [|lra|lra]. apply (hor_lo (241 / 25000) w _ _ (4572434103 / 125000) _ Hw); [|lra|lra]. lra.
  - fold w. apply Rge_le, Rminus_ge, Rle_ge. replace (6 - w * upX (13 ^ 2 / 4) w) with (6 + w * ((-169 / 4) + w * ((28561 / 192) + w * ((-4826809 / 23040))))) by (unfold upX; field).
    apply (hor_lo (241 / 25000) w _ _ (-169 / 4) _ Hw); [|lra|lra]. apply (hor_lo (241 / 25000) w _ _ (73367829 / 500000) _ Hw); [|lra|lra]. apply (hor_lo (241 / 25000) w _ _ (-209496919 / 1000000) _ Hw); [|lra|lra]. lra.
Qed.

Lemma quadratic_in_14_16 : forall j l, (0 <= j <= 14)%Z -> (0 <= l <= 16)%Z -> 13 / 100 <= lam (1849 / 16) w (vers N j) (vers N l).
Proof.
  intros j l Hj Hl. pose proof quadratic_w as Hw.
  eapply Rle_trans; [|apply (stair_low N (1849 / 16) j l 14 16); try lia; [lra|]].
  - fold w. replace (lam (1849 / 16) w (upX (14 ^ 2 / 4) w) (upX (16 ^ 2 / 4) w)) with ((41 / 16) + w * ((-4633 / 192) + w * ((-8787491 / 11520) + w * ((736509367 / 69120) + w * ((-17364032 / 405) + w * ((240945152 / 6075))))))) by (unfold lam, upX; field).
    apply (hor_lo (241 / 25000) w _ _ (-3148363 / 100000) _ Hw); [|lra|lra]. apply (hor_lo (241 / 25000) w _ _ (-762803039 / 1000000) _ Hw); [|lra|lra]. apply (hor_lo (241 / 25000) w _ _ (5121105313 / 500000) _ Hw); [|lra|lra]. apply (hor_lo (241 / 25000) w _ _ (-42874153087 / 1000000) _ Hw); [|lra|lra]. apply (hor_lo (241 / 25000) w _ _ (7932350683 / 200000) _ Hw); [|lra|lra]. lra.
  - fold w. apply Rge_le, Rminus_ge, Rle_ge. replace (6 - w * upX (14 ^ 2 / 4) w) with (6 + w * ((-49) + w * ((2401 / 12) + w * ((-117649 / 360))))) by (unfold upX; field).
    apply (hor_lo (241 / 25000) w _ _ (-49) _ Hw); [|lra|lra]. apply (hor_lo (241 / 25000) w _ _ (98466477 / 500000) _ Hw); [|lra|lra]. apply (hor_lo (241 / 25000) w _ _ (-163401389 / 500000) _ Hw); [|lra|lra]. lra.
Qed.

Lemma quadratic_in_15_15 : forall j l, (0 <= j <= 15)%Z -> (0 <= l <= 15)%Z -> 13 / 100 <= lam (1849 / 16) w (vers N j) (vers N l).
Proof.
  intros j l Hj Hl. pose proof quadratic_w as Hw.
  eapply Rle_trans; [|apply (stair_low N (1849 / 16) j l 15 15); try lia; [lra|]].
  - fold w. replace (lam (1849 / 16) w (upX (15 ^ 2 / 4) w) (upX (15 ^ 2 / 4) w)) with ((49 / 16) + w * ((-3675 / 128) + w * ((-1749375 / 2048) + w * ((185709375 / 16384) + w * ((-1423828125 / 32768) + w * ((21357421875 / 524288))))))) by (unfold lam, upX; field).
    apply (hor_lo (241 / 25000) w _ _ (-36945301 / 1000000) _ Hw); [|lra|lra]. apply (hor_lo (241 / 25000) w _ _ (-213546753 / 250000) _ Hw); [|lra|lra]. apply (hor_lo (241 / 25000) w _ _ (5457962751 / 500000) _ Hw); [|lra|lra]. apply (hor_lo (241 / 25000) w _ _ (-21725893021 / 500000) _ Hw); [|lra|lra]. apply (hor_lo (241 / 25000) w _ _ (40736049413 / 1000000) _ Hw); [|lra|lra]. lra.
  - fold w. apply Rge_le, Rminus_ge, Rle_ge. replace (6 - w * upX (15 ^ 2 / 4) w) with (6 + w * ((-225 / 4) + w * ((16875 / 64) + w * ((-253125 / 512))))) by (unfold upX; field).
    apply (hor_lo (241 / 25000) w _ _ (-225 / 4) _ Hw); [|lra|lra]. apply (hor_lo (241 / 25000) w _ _ (51781201 / 200000) _ Hw); [|lra|lra]. apply (hor_lo (241 / 25000) w _ _ (-247192383 / 500000) _ Hw); [|lra|lra]. lra.
Qed.

Lemma quadratic_out_1_22 : forall j l, (1 <= j <= N)%Z -> (22 <= l <= N)%Z -> 13 / 100 <= - lam (1849 / 16) w (vers N j) (vers N l).
Proof.
  intros j l Hj Hl. pose proof quadratic_w as Hw.
  eapply Rle_trans; [|apply Ropp_le_contravar; apply (stair_high N (1849 / 16) j l 1 22); try lia; [lra|]].
  - fold w. replace (- lam (1849 / 16) w (loX (1 ^ 2 / 4) w) (loX (22 ^ 2 / 4) w)) with ((91 / 16) + w * ((-44135 / 768) + w * ((-249855425 / 36864) + w * ((226367754325 / 6193152) + w * ((-43295246392477 / 424673280) + w * ((-51644765887 / 5573836800) + w * ((171841417 / 2229534720) + w * ((-214358881 / 624269721600))))))))) by (unfold lam, loX, upX; field).
    apply (hor_lo (241 / 25000) w _ _ (-30701269 / 250000) _ Hw); [|lra|lra]. apply (hor_lo (241 / 25000) w _ _ (-338888109 / 50000) _ Hw); [|lra|lra]. apply (hor_lo (241 / 25000) w _ _ (35568505171 / 1000000) _ Hw); [|lra|lra]. apply (hor_lo (241 / 25000) w _ _ (-101949631313 / 1000000) _ Hw); [|lra|lra]. apply (hor_lo (241 / 25000) w _ _ (-9265569 / 1000000) _ Hw); [|lra|lra]. apply (hor_lo (241 / 25000) w _ _ (77071 / 1000000) _ Hw); [|lra|lra]. apply (hor_lo (241 / 25000) w _ _ (-43 / 125000) _ Hw); [|lra|lra]. lra.
  - fold w. apply Rge_le, Rminus_ge, Rle_ge. replace (6 - w * loX (22 ^ 2 / 4) w) with (6 + w * ((-121) + w * ((14641 / 12) + w * ((-1771561 / 360) + w * ((214358881 / 20160)))))) by (unfold loX, upX; field).
    apply (hor_lo (241 / 25000) w _ _ (-121) _ Hw); [|lra|lra]. apply (hor_lo (241 / 25000) w _ _ (586322433 / 500000) _ Hw); [|lra|lra]. apply (hor_lo (241 / 25000) w _ _ (-2460501389 / 500000) _ Hw); [|lra|lra]. apply (hor_lo (241 / 25000) w _ _ (10632881001 / 1000000) _ Hw); [|lra|lra]. lra.
Qed.

Lemma quadratic_out_5_21 : forall j l, (5 <= j <= N)%Z -> (21 <= l <= N)%Z -> 13 / 100 <= - lam (1849 / 16) w (vers N j) (vers N l).
Proof.
  intros j l Hj Hl. pose proof quadratic_w as Hw.
  eapply Rle_trans; [|apply Ropp_le_contravar; apply (stair_high N (1849 / 16) j l 5 21); try lia; [lra|]].
  - fold w. replace (- lam (1849 / 16) w (loX (5 ^ 2 / 4) w) (loX (21 ^ 2 / 4) w)) with ((15 / 16) + w * ((-1165 / 128) + w * ((-50666389 / 10240) + w * ((372929053331 / 15482880) + w * ((-30127291243457 / 495452160) + w * ((-4623768625 / 1048576) + w * ((7342558125 / 8388608) + w * ((-49633171875 / 536870912))))))))) by (unfold lam, loX, upX; field).
    apply (hor_lo (241 / 25000) w _ _ (-28399609 / 500000) _ Hw); [|lra|lra]. apply (hor_lo (241 / 25000) w _ _ (-4947889551 / 1000000) _ Hw); [|lra|lra]. apply (hor_lo (241 / 25000) w _ _ (4699989437 / 200000) _ Hw); [|lra|lra]. apply (hor_lo (241 / 25000) w _ _ (-760627223 / 12500) _ Hw); [|lra|lra]. apply (hor_lo (241 / 25000) w _ _ (-4409569383 / 1000000) _ Hw); [|lra|lra]. apply (hor_lo (241 / 25000) w _ _ (874409929 / 1000000) _ Hw); [|lra|lra]. apply (hor_lo (241 / 25000) w _ _ (-92448987 / 1000000) _ Hw); [|lra|lra]. lra.
  - fold w. apply Rge_le, Rminus_ge, Rle_ge. replace (6 - w * loX (21 ^ 2 / 4) w) with (6 + w * ((-441 / 4) + w * ((64827 / 64) + w * ((-9529569 / 2560) + w * ((600362847 / 81920)))))) by (unfold loX, upX; field).
    apply (hor_lo (241 / 25000) w _ _ (-441 / 4) _ Hw); [|lra|lra]. apply (hor_lo (241 / 25000) w _ _ (977037091 / 1000000) _ Hw); [|lra|lra]. apply (hor_lo (241 / 25000) w _ _ (-3722487891 / 1000000) _ Hw); [|lra|lra]. apply (hor_lo (241 / 25000) w _ _ (3664324017 / 500000) _ Hw); [|lra|lra]. lra.
Qed.

Lemma quadratic_out_8_20 : forall j l, (8 <= j <= N)%Z -> (20 <= l <= N)%Z -> 13 / 100 <= - lam (1849 / 16) w (vers N j) (vers N l).
Proof.
  intros j l Hj Hl. pose proof quadratic_w as Hw.
  eapply Rle_trans; [|apply Ropp_le_contravar; apply (stair_high N (1849 / 16) j l 8 20); try lia; [lra|]].
  - fold w. replace (- lam (1849 / 16) w (loX (8 ^ 2 / 4) w) (loX (20 ^ 2 / 4) w)) with ((7 / 16) + w * ((-203 / 48) + w * ((-2061853 / 720) + w * ((85704551 / 7560) + w * ((-149439901 / 6480) + w * ((-39728000 / 1701) + w * ((18560000 / 1701) + w * ((-32000000 / 11907))))))))) by (unfold lam, loX, upX; field).
    apply (hor_lo (241 / 25000) w _ _ (-1989693 / 62500) _ Hw); [|lra|lra]. apply (hor_lo (241 / 25000) w _ _ (-2863684723 / 1000000) _ Hw); [|lra|lra]. apply (hor_lo (241 / 25000) w _ _ (694505967 / 62500) _ Hw); [|lra|lra]. apply (hor_lo (241 / 25000) w _ _ (-23286861807 / 1000000) _ Hw); [|lra|lra]. apply (hor_lo (241 / 25000) w _ _ (-11677836567 / 500000) _ Hw); [|lra|lra]. apply (hor_lo (241 / 25000) w _ _ (10885321239 / 1000000) _ Hw); [|lra|lra]. apply (hor_lo (241 / 25000) w _ _ (-2687494751 / 1000000) _ Hw); [|lra|lra]. lra.
  - fold w. apply Rge_le, Rminus_ge, Rle_ge. replace (6 - w * loX (20 ^ 2 / 4) w) with (6 + w * ((-100) + w * ((2500 / 3) + w * ((-25000 / 9) + w * ((312500 / 63)))))) by (unfold loX, upX; field).
    apply (hor_lo (241 / 25000) w _ _ (-100) _ Hw); [|lra|lra]. apply (hor_lo (241 / 25000) w _ _ (161311111 / 200000) _ Hw); [|lra|lra]. apply (hor_lo (241 / 25000) w _ _ (-1388888889 / 500000) _ Hw); [|lra|lra]. apply (hor_lo (241 / 25000) w _ _ (248015873 / 50000) _ Hw); [|lra|lra]. lra.
Qed.

Lemma quadratic_out_11_19 : forall j l, (11 <= j <= N)%Z -> (19 <= l <= N)%Z -> 13 / 100 <= - lam (1849 / 16) w (vers N j) (vers N l).
Proof.
  intros j l Hj Hl. pose proof quadratic_w as Hw.
  eapply Rle_trans; [|apply Ropp_le_contravar; apply (stair_high N (1849 / 16) j l 11 19); try lia; [lra|]].
  - fold w. replace (- lam (1849 / 16) w (loX (11 ^ 2 / 4) w) (loX (19 ^ 2 / 4) w)) with ((79 / 16) + w * ((-19039 / 384) + w * ((-53732237 / 92160) + w * ((-46532156549 / 15482880) + w * ((29391839066269 / 1486356480) + w * ((-3241263648468989 / 44590694400) + w * ((20086060165648081 / 356725555200) + w * ((-3640577568861717121 / 159813048729600))))))))) by (unfold lam, loX, upX; field).
    apply (hor_lo (241 / 25000) w _ _ (-55480449 / 1000000) _ Hw); [|lra|lra]. apply (hor_lo (241 / 25000) w _ _ (-122400817 / 200000) _ Hw); [|lra|lra]. apply (hor_lo (241 / 25000) w _ _ (-3005394123 / 1000000) _ Hw); [|lra|lra]. apply (hor_lo (241 / 25000) w _ _ (19073696919 / 1000000) _ Hw); [|lra|lra]. apply (hor_lo (241 / 25000) w _ _ (-2271538723 / 31250) _ Hw); [|lra|lra]. apply (hor_lo (241 / 25000) w _ _ (56087158449 / 1000000) _ Hw); [|lra|lra]. apply (hor_lo (241 / 25000) w _ _ (-22780227259 / 1000000) _ Hw); [|lra|lra]. lra.
  - fold w. apply Rge_le, Rminus_ge, Rle_ge. replace (6 - w * loX (19 ^ 2 / 4) w) with (6 + w * ((-361 / 4) + w * ((130321 / 192) + w * ((-47045881 / 23040) + w * ((16983563041 / 5160960)))))) by (unfold loX, upX; field).
    apply (hor_lo (241 / 25000) w _ _ (-361 / 4) _ Hw); [|lra|lra]. apply (hor_lo (241 / 25000) w _ _ (659071081 / 1000000) _ Hw); [|lra|lra]. apply (hor_lo (241 / 25000) w _ _ (-2041921919 / 1000000) _ Hw); [|lra|lra]. apply (hor_lo (241 / 25000) w _ _ (822693987 / 250000) _ Hw); [|lra|lra]. lra.
Qed.

Lemma quadratic_out_12_18 : forall j l, (12 <= j <= N)%Z -> (18 <= l <= N)%Z -> 13 / 100 <= - lam (1849 / 16) w (vers N j) (vers N l).
Proof.
  intros j l Hj Hl. pose proof quadratic_w as Hw.
  eapply Rle_trans; [|apply Ropp_le_contravar; apply (stair_high N (1849 / 16) j l 12 18); try lia; [lra|]].
  - fold w. replace (- lam (1849 / 16) w (loX (12 ^ 2 / 4) w) (loX (18 ^ 2 / 4) w)) with ((23 / 16) + w * ((-897 / 64) + w * ((49851 / 1280) + w * ((-25814079 / 3584) + w * ((4437399429 / 143360) + w * ((-436313061 / 5600) + w * ((186535791 / 2800) + w * ((-1162261467 / 39200))))))))) by (unfold lam, loX, upX; field).
    apply (hor_lo (241 / 25000) w _ _ (-14309519 / 1000000) _ Hw); [|lra|lra]. apply (hor_lo (241 / 25000) w _ _ (-6097373 / 200000) _ Hw); [|lra|lra]. apply (hor_lo (241 / 25000) w _ _ (-7202589007 / 1000000) _ Hw); [|lra|lra]. apply (hor_lo (241 / 25000) w _ _ (30201760229 / 1000000) _ Hw); [|lra|lra]. apply (hor_lo (241 / 25000) w _ _ (-4869565413 / 62500) _ Hw); [|lra|lra]. apply (hor_lo (241 / 25000) w _ _ (33167051957 / 500000) _ Hw); [|lra|lra]. apply (hor_lo (241 / 25000) w _ _ (-1482476361 / 50000) _ Hw); [|lra|lra]. lra.
  - fold w. apply Rge_le, Rminus_ge, Rle_ge. replace (6 - w * loX (18 ^ 2 / 4) w) with (6 + w * ((-81) + w * ((2187 / 4) + w * ((-59049 / 40) + w * ((4782969 / 2240)))))) by (unfold loX, upX; field).
    apply (hor_lo (241 / 25000) w _ _ (-81) _ Hw); [|lra|lra]. apply (hor_lo (241 / 25000) w _ _ (532519191 / 1000000) _ Hw); [|lra|lra]. apply (hor_lo (241 / 25000) w _ _ (-59049 / 40) _ Hw); [|lra|lra]. apply (hor_lo (241 / 25000) w _ _ (2135254017 / 1000000) _ Hw); [|lra|lra]. lra.
Qed.

Lemma quadratic_out_14_17 : forall j l, (14 <= j <= N)%Z -> (17 <= l <= N)%Z -> 13 / 100 <= - lam (1849 / 16) w (vers N j) (vers N l).
Proof.
  intros j l Hj Hl. pose proof quadratic_w as Hw.
  eapply Rle_trans; [|apply Ropp_le_contravar; apply (stair_high N (1849 / 16) j l 14 17); try lia; [lra|]].
  - fold w. replace (- lam (1849 / 16) w (loX (14 ^ 2 / 4) w) (loX (17 ^ 2 / 4) w)) with ((91 / 16) + w * ((-44135 / 768) + w * ((44984575 / 36864) + w * ((-95365977995 / 6193152) + w * ((170457348895541 / 2972712960) + w * ((-97834398095161 / 796262400) + w * ((39350971851751 / 318504960) + w * ((-820690887176209 / 12740198400))))))))) by (unfold lam, loX, upX; field).
    apply (hor_lo (241 / 25000) w _ _ (-7183431 / 125000) _ Hw); [|lra|lra]. apply (hor_lo (241 / 25000) w _ _ (1071842023 / 1000000) _ Hw); [|lra|lra]. apply (hor_lo (241 / 25000) w _ _ (-481206793 / 31250) _ Hw); [|lra|lra]. apply (hor_lo (241 / 25000) w _ _ (56156230479 / 1000000) _ Hw); [|lra|lra]. apply (hor_lo (241 / 25000) w _ _ (-24573406479 / 200000) _ Hw); [|lra|lra]. apply (hor_lo (241 / 25000) w _ _ (6146401197 / 50000) _ Hw); [|lra|lra]. apply (hor_lo (241 / 25000) w _ _ (-16104358453 / 250000) _ Hw); [|lra|lra]. lra.
  - fold w. apply Rge_le, Rminus_ge, Rle_ge. replace (6 - w * loX (17 ^ 2 / 4) w) with (6 + w * ((-289 / 4) + w * ((83521 / 192) + w * ((-24137569 / 23040) + w * ((6975757441 / 5160960)))))) by (unfold loX, upX; field).
    apply (hor_lo (241 / 25000) w _ _ (-289 / 4) _ Hw); [|lra|lra]. apply (hor_lo (241 / 25000) w _ _ (212452991 / 500000) _ Hw); [|lra|lra]. apply (hor_lo (241 / 25000) w _ _ (-130954693 / 125000) _ Hw); [|lra|lra]. apply (hor_lo (241 / 25000) w _ _ (1351639509 / 1000000) _ Hw); [|lra|lra]. lra.
Qed.

Lemma quadratic_out_15_16 : forall j l, (15 <= j <= N)%Z -> (16 <= l <= N)%Z -> 13 / 100 <= - lam (1849 / 16) w (vers N j) (vers N l).
Proof.
  intros j l Hj Hl. pose proof quadratic_w as Hw.
  eapply Rle_trans; [|apply Ropp_le_contravar; apply (stair_high N (1849 / 16) j l 15 16); try lia; [lra|]].
  - fold w. replace (- lam (1849 / 16) w (loX (15 ^ 2 / 4) w) (loX (16 ^ 2 / 4) w)) with ((75 / 16) + w * ((-12025 / 256) + w * ((86552761 / 61440) + w * ((-515746103063 / 30965760) + w * ((59877684076871 / 990904320) + w * ((-27960125 / 224) + w * ((901875 / 7) + w * ((-3375000 / 49))))))))) by (unfold lam, loX, upX; field).
    apply (hor_lo (241 / 25000) w _ _ (-46972657 / 1000000) _ Hw); [|lra|lra]. apply (hor_lo (241 / 25000) w _ _ (312044651 / 250000) _ Hw); [|lra|lra]. apply (hor_lo (241 / 25000) w _ _ (-16655367189 / 1000000) _ Hw); [|lra|lra]. apply (hor_lo (241 / 25000) w _ _ (11844805523 / 200000) _ Hw); [|lra|lra]. apply (hor_lo (241 / 25000) w _ _ (-7801374163 / 62500) _ Hw); [|lra|lra]. apply (hor_lo (241 / 25000) w _ _ (64087653061 / 500000) _ Hw); [|lra|lra]. apply (hor_lo (241 / 25000) w _ _ (-68877551021 / 1000000) _ Hw); [|lra|lra]. lra.
  - fold w. apply Rge_le, Rminus_ge, Rle_ge. replace (6 - w * loX (16 ^ 2 / 4) w) with (6 + w * ((-64) + w * ((1024 / 3) + w * ((-32768 / 45) + w * ((262144 / 315)))))) by (unfold loX, upX; field).
    apply (hor_lo (241 / 25000) w _ _ (-64) _ Hw); [|lra|lra]. apply (hor_lo (241 / 25000) w _ _ (334313699 / 1000000) _ Hw); [|lra|lra]. apply (hor_lo (241 / 25000) w _ _ (-364088889 / 500000) _ Hw); [|lra|lra]. apply (hor_lo (241 / 25000) w _ _ (416101587 / 500000) _ Hw); [|lra|lra]. lra.
Qed.

Lemma quadratic_gap_in : forall j l, (1 <= j <= N - 1)%Z -> (1 <= l <= N - 1)%Z -> 13 / 100 <= Rabs (eigenval N 4 (2 * PI) (43 / 4) j l).
Proof.
  intros j l Hj Hl. rewrite eig_lam by lia. replace ((43 / 4) ^ 2) with (1849 / 16) by field. fold w.
  assert (Hp : 13 / 100 <= lam (1849 / 16) w (vers N j) (vers N l) \/ 13 / 100 <= - lam (1849 / 16) w (vers N j) (vers N l)).
  2:{ destruct Hp as [Hp|Hp]; [eapply Rle_trans; [exact Hp|apply Rle_abs]|rewrite <- Rabs_Ropp; eapply Rle_trans; [exact Hp|apply Rle_abs]]. }
  destruct (Z_le_gt_dec j 4); [destruct (Z_le_gt_dec l 21); [left; apply quadratic_in_4_21; lia|right; apply quadratic_out_1_22; lia]|].
  destruct (Z_le_gt_dec j 7); [destruct (Z_le_gt_dec l 20); [left; apply quadratic_in_7_20; lia|right; apply quadratic_out_5_21; lia]|].
  destruct (Z_le_gt_dec j 10); [destruct (Z_le_gt_dec l 19); [left; apply quadratic_in_10_19; lia|right; apply quadratic_out_8_20; lia]|].
  destruct (Z_le_gt_dec j 11); [destruct (Z_le_gt_dec l 18); [left; apply quadratic_in_11_18; lia|right; apply quadratic_out_11_19; lia]|].
  destruct (Z_le_gt_dec j 13); [destruct (Z_le_gt_dec l 17); [left; apply quadratic_in_13_17; lia|right; apply quadratic_out_12_18; lia]|].
  destruct (Z_le_gt_dec j 14); [destruct (Z_le_gt_dec l 16); [left; apply quadratic_in_14_16; lia|right; apply quadratic_out_14_17; lia]|].
  destruct (Z_le_gt_dec j 15); [destruct (Z_le_gt_dec l 15); [left; apply quadratic_in_15_15; lia|right; apply quadratic_out_15_16; lia]|].
  destruct (Z_le_gt_dec j 16); [destruct (Z_le_gt_dec l 14); [left; rewrite lam_sym; apply quadratic_in_14_16; lia|right; rewrite lam_sym; apply quadratic_out_15_16; lia]|].
  destruct (Z_le_gt_dec j 17); [destruct (Z_le_gt_dec l 13); [left; rewrite lam_sym; apply quadratic_in_13_17; lia|right; rewrite lam_sym; apply quadratic_out_14_17; lia]|].
  destruct (Z_le_gt_dec j 18); [destruct (Z_le_gt_dec l 11); [left; rewrite lam_sym; apply quadratic_in_11_18; lia|right; rewrite lam_sym; apply quadratic_out_12_18; lia]|].
  destruct (Z_le_gt_dec j 19); [destruct (Z_le_gt_dec l 10); [left; rewrite lam_sym; apply quadratic_in_10_19; lia|right; rewrite lam_sym; apply quadratic_out_11_19; lia]|].
  destruct (Z_le_gt_dec j 20); [destruct (Z_le_gt_dec l 7); [left; rewrite lam_sym; apply quadratic_in_7_20; lia|right; rewrite lam_sym; apply quadratic_out_8_20; lia]|].
  destruct (Z_le_gt_dec j 21); [destruct (Z_le_gt_dec l 4); [left; rewrite lam_sym; apply quadratic_in_4_21; lia|right; rewrite lam_sym; apply quadratic_out_5_21; lia]|].
  right. rewrite lam_sym. apply quadratic_out_1_22; lia.
Qed.
End Stair_quadratic.

Lemma quadratic_gap : forall N, (64 <= N)%Z -> forall j l, (1 <= j <= N - 1)%Z -> (1 <= l <= N - 1)%Z -> 13 / 100 <= Rabs (eigenval N 4 (2 * PI) (43 / 4) j l).
Proof. exact quadratic_gap_in. Qed.
