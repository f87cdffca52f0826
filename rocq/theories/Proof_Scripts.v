(** Proofs about the scripts (C78 to C81). *)
From Coq Require Import ZArith List Bool Reals Lia Lra Permutation Sorted.
From Coquelicot Require Import Coquelicot.
From Verif Require Import Model_Py Model_Multivalue Model_Grid Model_Fourier Model_PS Model_Domain Model_Extend Model_Run Model_Program Model_Scripts
  Spec_Scripts Spec_PS Proof_Domain Proof_Gentle.
Import ListNotations.
Open Scope R_scope.

(** ** range and sort *)

Lemma range_step_in : forall lo hi st x, (0 < st)%Z ->
  In x (py_range_step lo hi st) <-> (lo <= x < hi)%Z /\ exists n, x = (lo + st * n)%Z.
Proof.
  intros lo hi st x Hst. unfold py_range_step. rewrite in_map_iff. split.
  - intros (n & <- & Hn). apply in_seq in Hn.
    assert (Hn' : (Z.of_nat n < (hi - lo + st - 1) / st)%Z) by lia.
    assert ((Z.of_nat n + 1) * st <= hi - lo + st - 1)%Z.
    { apply Z.le_trans with ((hi - lo + st - 1) / st * st)%Z; [apply Z.mul_le_mono_nonneg_r; lia|].
      rewrite Z.mul_comm. apply Z.mul_div_le. exact Hst. }
    split; [nia|exists (Z.of_nat n); lia].
  - intros [H (n & ->)]. assert (0 <= n)%Z by nia. exists (Z.to_nat n). split; [rewrite Z2Nat.id by lia; lia|].
    apply in_seq. split; [lia|]. cbn [Nat.add]. apply Z2Nat.inj_lt; [lia|apply Z.div_pos; nia|].
    apply Z.lt_le_trans with (n + 1)%Z; [lia|]. apply Z.div_le_lower_bound; nia.
Qed.

Lemma insert_perm : forall x l, Permutation (sort_insert x l) (x :: l).
Proof.
  intros x. induction l as [|y l IH]; cbn; [reflexivity|]. destruct (Rleb x y); [reflexivity|].
  rewrite IH. apply perm_swap.
Qed.

Lemma sort_perm : forall l, Permutation (py_sort l) l.
Proof. induction l as [|x l IH]; cbn; [constructor|]. rewrite insert_perm. constructor. exact IH. Qed.

Lemma insert_sorted : forall x l, LocallySorted Rle l -> LocallySorted Rle (sort_insert x l).
Proof.
  intros x. induction l as [|y l IH]; intros H; cbn; [constructor|].
  destruct (Rleb_spec x y) as [Hxy|Hxy]; [constructor; assumption|].
  apply Rnot_le_lt in Hxy. inversion H; subst; cbn in *.
  - constructor; [constructor|lra].
  - specialize (IH H2). destruct (Rleb x b); constructor; auto; lra.
Qed.

Lemma sort_sorted : forall l, LocallySorted Rle (py_sort l).
Proof. induction l as [|x l IH]; cbn; [constructor|]. apply insert_sorted. exact IH. Qed.

(** ** resonance.py *)

Lemma pairs_in : forall a b, In (a, b) resonance_pairs <-> (Z.Odd a /\ Z.Odd b /\ 1 <= a <= b /\ b <= 9)%Z.
Proof.
  intros a b. unfold resonance_pairs. rewrite in_flat_map. split.
  - intros (a' & Ha & Hb). apply in_map_iff in Hb. destruct Hb as (b' & E & Hb). injection E as -> ->.
    apply range_step_in in Ha; [|lia]. apply range_step_in in Hb; [|lia].
    destruct Ha as [Ha (n & En)], Hb as [Hb (m & Em)]. split; [exists n; lia|]. split; [exists (n + m)%Z; lia|].
    split; [lia|]. assert (b <> 9 + 1)%Z by lia. lia.
  - intros ((n & Ha) & (m & Hb) & H1 & H2). exists a. split; [apply range_step_in; [lia|]; split; [lia|exists n; lia]|].
    apply in_map_iff. exists b. split; [reflexivity|]. apply range_step_in; [lia|]. split; [lia|]. exists (m - n)%Z. lia.
Qed.

Lemma k2_eq : forall s p, s <> 0 -> sqrt (resonance_k2 s p) = PI * sqrt (IZR (fst p) ^ 2 + IZR (snd p) ^ 2) / Rabs s.
Proof.
  intros s [a b] Hs. unfold resonance_k2. cbn [fst snd]. pose proof PI_RGT_0.
  replace ((IZR a * PI / s) ^ 2 + (IZR b * PI / s) ^ 2) with ((PI / Rabs s) ^ 2 * (IZR a ^ 2 + IZR b ^ 2)).
  - rewrite sqrt_mult_alt by apply pow2_ge_0. rewrite sqrt_pow2; [field; apply Rabs_no_R0; exact Hs|].
    apply Rlt_le, Rdiv_lt_0_compat; [lra|apply Rabs_pos_lt; exact Hs].
  - replace ((PI / Rabs s) ^ 2) with (PI ^ 2 / s ^ 2) by (unfold Rdiv; rewrite Rpow_mult_distr, pow_inv, pow2_abs; reflexivity).
    field. exact Hs.
Qed.

Lemma resonance_values : forall s l, s <> 0 -> resonance_main s = Ok l ->
  LocallySorted Rle l /\ length l = 15%nat /\
  forall k, In k l <-> exists a b, (Z.Odd a /\ Z.Odd b /\ 1 <= a <= b /\ b <= 9)%Z /\ k = PI * sqrt (IZR a ^ 2 + IZR b ^ 2) / Rabs s.
Proof.
  intros s l Hs E. unfold resonance_main in E. destruct (Reqb_spec s 0) as [|_]; [contradiction|].
  assert (El : l = map sqrt (py_sort (map (resonance_k2 s) resonance_pairs))) by congruence. clear E.
  pose proof (sort_perm (map (resonance_k2 s) resonance_pairs)) as HP.
  pose proof (sort_sorted (map (resonance_k2 s) resonance_pairs)) as HS.
  split; [|split].
  - subst l. revert HS. generalize (py_sort (map (resonance_k2 s) resonance_pairs)). induction l as [|x l IH]; intros H; [constructor|].
    inversion H; subst; cbn [map]; constructor; [apply IH; assumption|apply sqrt_le_1_alt; assumption].
  - subst l. rewrite map_length, (Permutation_length HP), map_length. reflexivity.
  - intros k. subst l. rewrite in_map_iff. split.
    + intros (q & <- & Hq). apply (Permutation_in _ HP) in Hq. apply in_map_iff in Hq. destruct Hq as ([a b] & <- & Hab).
      exists a, b. split; [apply pairs_in; exact Hab|]. apply (k2_eq s (a, b) Hs).
    + intros (a & b & Hab & ->). exists (resonance_k2 s (a, b)). split; [apply (k2_eq s (a, b) Hs)|].
      apply (Permutation_in _ (Permutation_sym HP)). apply in_map. apply pairs_in. exact Hab.
Qed.

Lemma sine_mode : forall c t, ex_derive_n (fun x => sin (c * x)) 2 t /\ Derive_n (fun x => sin (c * x)) 2 t = - c ^ 2 * sin (c * t).
Proof.
  intros c t.
  assert (D1 : forall x, is_derive (fun x => sin (c * x)) x (c * cos (c * x))) by (intros x; auto_derive; [exact I|ring]).
  assert (D2 : is_derive (fun x => c * cos (c * x)) t (- c ^ 2 * sin (c * t))) by (auto_derive; [exact I|ring]).
  assert (E : forall x, Derive (fun x => sin (c * x)) x = c * cos (c * x)) by (intros x; apply is_derive_unique, D1).
  split.
  - cbn. apply (ex_derive_ext (fun x => c * cos (c * x))); [intros x; symmetry; apply E|]. eexists. exact D2.
  - change (Derive (fun x => Derive (fun x => sin (c * x)) x) t = - c ^ 2 * sin (c * t)).
    transitivity (Derive (fun x => c * cos (c * x)) t); [apply Derive_ext; exact E|]. apply is_derive_unique. exact D2.
Qed.

Lemma mode_resonance : forall s a b, s <> 0 -> (1 <= a)%Z -> (1 <= b)%Z ->
  square_resonance s (PI * sqrt (IZR a ^ 2 + IZR b ^ 2) / Rabs s).
Proof.
  intros s a b Hs Ha Hb. pose proof PI_RGT_0 as HPI. set (p := IZR a * PI / s). set (q := IZR b * PI / s).
  assert (Ha' : 1 <= IZR a) by (apply IZR_le; exact Ha). assert (Hb' : 1 <= IZR b) by (apply IZR_le; exact Hb).
  exists (fun x y => sin (p * x) * sin (q * y)). split; [|split].
  - exists (s / (2 * IZR a)), (s / (2 * IZR b)).
    replace (p * (s / (2 * IZR a))) with (PI / 2) by (unfold p; field; split; lra).
    replace (q * (s / (2 * IZR b))) with (PI / 2) by (unfold q; field; split; lra).
    rewrite sin_PI2. lra.
  - intros t. assert (Sp : sin (p * s) = 0) by (replace (p * s) with (IZR a * PI) by (unfold p; field; exact Hs); apply sin_eq_0_1; exists a; reflexivity).
    assert (Sq : sin (q * s) = 0) by (replace (q * s) with (IZR b * PI) by (unfold q; field; exact Hs); apply sin_eq_0_1; exists b; reflexivity).
    rewrite Sp, Sq, !Rmult_0_r, sin_0. repeat split; ring.
  - intros x y. destruct (sine_mode p x) as [E1 D1], (sine_mode q y) as [E2 D2]. split; [|split].
    + apply (ex_derive_n_ext (fun t => sin (q * y) * sin (p * t))); [intros; ring|]. apply ex_derive_n_scal_l. exact E1.
    + apply ex_derive_n_scal_l. exact E2.
    + rewrite (Derive_n_ext (fun t => sin (p * t) * sin (q * y)) (fun t => sin (q * y) * sin (p * t))) by (intros; ring).
      rewrite !Derive_n_scal_l, D1, D2.
      replace ((PI * sqrt (IZR a ^ 2 + IZR b ^ 2) / Rabs s) ^ 2) with (p ^ 2 + q ^ 2); [ring|].
      unfold Rdiv. rewrite !Rpow_mult_distr, pow_inv, pow2_abs, pow2_sqrt by nra. unfold p, q. field. exact Hs.
Qed.

Lemma resonance_true : forall s l k, s <> 0 -> resonance_main s = Ok l -> In k l -> square_resonance s k.
Proof.
  intros s l k Hs E Hk. destruct (resonance_values s l Hs E) as (_ & _ & H). apply H in Hk. destruct Hk as (a & b & Hab & ->).
  apply mode_resonance; [exact Hs|lia|lia].
Qed.

Lemma resonance_missed : exists l k k', resonance_main (2 * PI) = Ok l /\ square_resonance (2 * PI) k /\ ~ In k l /\ In k' l /\ k < k'.
Proof.
  pose proof PI_RGT_0 as HPI. assert (Hs : 2 * PI <> 0) by lra.
  assert (E : exists l, resonance_main (2 * PI) = Ok l) by (unfold resonance_main; destruct (Reqb_spec (2 * PI) 0); [contradiction|eexists; reflexivity]).
  destruct E as [l E]. destruct (resonance_values _ l Hs E) as (_ & _ & H).
  exists l, (PI * sqrt (IZR 1 ^ 2 + IZR 2 ^ 2) / Rabs (2 * PI)), (PI * sqrt (IZR 1 ^ 2 + IZR 3 ^ 2) / Rabs (2 * PI)).
  assert (Habs : 0 < Rabs (2 * PI)) by (apply Rabs_pos_lt; exact Hs).
  split; [exact E|]. split; [apply mode_resonance; [exact Hs|lia|lia]|]. split; [|split].
  - intros Hin. apply H in Hin. destruct Hin as (a & b & ((n & Ha) & (m & Hb) & Hr & Hr9) & Eq).
    assert (K : sqrt (IZR 1 ^ 2 + IZR 2 ^ 2) = sqrt (IZR a ^ 2 + IZR b ^ 2)).
    { apply (Rmult_eq_reg_l (PI / Rabs (2 * PI))); [|apply Rgt_not_eq, Rdiv_lt_0_compat; lra].
      unfold Rdiv in *. rewrite !Rmult_assoc, !(Rmult_comm (/ Rabs (2 * PI))), <- !Rmult_assoc. exact Eq. }
    apply sqrt_inj in K; [|lra|nra].
    assert (K' : (1 ^ 2 + 2 ^ 2 = a ^ 2 + b ^ 2)%Z).
    { apply eq_IZR. cbn [Z.pow Z.pow_pos Pos.iter] in *. rewrite !plus_IZR, !mult_IZR. lra. }
    subst a b. nia.
  - apply H. exists 1%Z, 3%Z. split; [|reflexivity]. split; [exists 0%Z; lia|]. split; [exists 1%Z; lia|]. lia.
  - unfold Rdiv. apply Rmult_lt_compat_r; [apply Rinv_0_lt_compat; exact Habs|]. apply Rmult_lt_compat_l; [exact HPI|].
    apply sqrt_lt_1_alt. lra.
Qed.

(** ** The discrete resonances *)

Lemma sin_window : forall y, 0 <= y <= PI -> y - y ^ 3 / 6 <= sin y <= y - y ^ 3 / 6 + y ^ 5 / 120.
Proof.
  intros y [H0 H1]. destruct (sin_bound y 0 H0 H1) as [L U].
  unfold sin_approx, sin_term in L, U. cbn in L, U.
  split; [eapply Rle_trans; [|exact L]|eapply Rle_trans; [exact U|]]; apply Req_le; field.
Qed.

Lemma symbol_window : forall x, 0 < x < PI ->
  x ^ 2 - x ^ 4 / 12 <= 2 - 2 * cos x <= x ^ 2 - x ^ 4 / 12 + x ^ 6 / 360 /\ 2 - 2 * cos x < x ^ 2 /\ 0 < 2 - 2 * cos x <= 4.
Proof.
  intros x [H0 H1]. pose proof PI_4 as HP. set (y := x / 2). assert (Ex : x = 2 * y) by (unfold y; field).
  assert (Hy : 0 < y < 2) by (unfold y; lra).
  assert (EA : 2 - 2 * cos x = 4 * (sin y) ^ 2).
  { rewrite Ex, cos_2a_sin. ring. }
  destruct (sin_window y) as [L U]; [unfold y; split; lra|].
  assert (Hlow : 0 <= y - y ^ 3 / 6) by nra.
  assert (Hs : 0 < sin y) by (apply sin_gt_0; unfold y; lra).
  assert (Hlt : sin y < y) by (apply sin_lt_x; lra).
  assert (Q1 : (y - y ^ 3 / 6) ^ 2 <= sin y ^ 2) by (apply pow_incr; lra).
  assert (Q2 : sin y ^ 2 <= (y - y ^ 3 / 6 + y ^ 5 / 120) ^ 2) by (apply pow_incr; lra).
  rewrite EA, Ex. split; [split|split; [|split]].
  - replace ((2 * y) ^ 2 - (2 * y) ^ 4 / 12) with (4 * ((y - y ^ 3 / 6) ^ 2 - y ^ 6 / 36)) by field.
    assert (0 <= y ^ 6) by (apply pow_le; lra). lra.
  - replace ((2 * y) ^ 2 - (2 * y) ^ 4 / 12 + (2 * y) ^ 6 / 360)
      with (4 * ((y - y ^ 3 / 6 + y ^ 5 / 120) ^ 2 + y ^ 8 * (40 - y ^ 2) / 14400)) by field.
    assert (0 <= y ^ 8 * (40 - y ^ 2)) by (apply Rmult_le_pos; [apply pow_le; lra|nra]). lra.
  - nra.
  - nra.
  - pose proof (SIN_bound y). nra.
Qed.

(** With p, q the squares of the mode numbers times the step and A, B the
    symbols of the second differences. *)
Lemma symbol4_close : forall p q A B, 0 < p <= 10 -> 0 < q <= 10 ->
  p - p ^ 2 / 12 <= A <= p - p ^ 2 / 12 + p ^ 3 / 360 -> q - q ^ 2 / 12 <= B <= q - q ^ 2 / 12 + q ^ 3 / 360 ->
  Rabs ((p + q) * (1 - (A + B) / 12) - (A + B - A * B / 6)) <= (p + q) ^ 3 / 30.
Proof.
  intros p q A B Hp Hq HA HB.
  set (e := A - (p - p ^ 2 / 12)). set (f := B - (q - q ^ 2 / 12)).
  assert (He : 0 <= e <= p ^ 3 / 360) by (unfold e; lra). assert (Hf : 0 <= f <= q ^ 3 / 360) by (unfold f; lra).
  replace A with (p - p ^ 2 / 12 + e) by (unfold e; ring). replace B with (q - q ^ 2 / 12 + f) by (unfold f; ring).
  clearbody e f. clear HA HB A B.
  replace ((p + q) * (1 - (p - p ^ 2 / 12 + e + (q - q ^ 2 / 12 + f)) / 12) -
     (p - p ^ 2 / 12 + e + (q - q ^ 2 / 12 + f) - (p - p ^ 2 / 12 + e) * (q - q ^ 2 / 12 + f) / 6))
    with ((p + q) * (p - q) ^ 2 / 144 + p ^ 2 * q ^ 2 / 864
          - e * (1 + (p + q) / 12 - (q - q ^ 2 / 12) / 6) - f * (1 + (p + q) / 12 - (p - p ^ 2 / 12) / 6) + e * f / 6) by field.
  assert (Ha : 0 <= (p + q) * (p - q) ^ 2 <= (p + q) ^ 3).
  { split; [apply Rmult_le_pos; [lra|apply pow2_ge_0]|]. replace ((p + q) ^ 3) with ((p + q) * (p + q) ^ 2) by ring.
    apply Rmult_le_compat_l; [lra|]. nra. }
  assert (Hb : 0 <= p ^ 2 * q ^ 2 <= (p + q) ^ 3 * (5 / 4)).
  { assert (Hpq : 0 <= p * q <= (p + q) ^ 2 / 4) by (split; nra).
    replace (p ^ 2 * q ^ 2) with ((p * q) * (p * q)) by ring. split; [apply Rmult_le_pos; lra|].
    apply Rle_trans with (((p + q) ^ 2 / 4) * ((p + q) ^ 2 / 4)); [apply Rmult_le_compat; lra|].
    replace ((p + q) ^ 2 / 4 * ((p + q) ^ 2 / 4)) with ((p + q) ^ 3 * ((p + q) / 16)) by field.
    apply Rmult_le_compat_l; [apply pow_le; lra|lra]. }
  assert (Hc : p ^ 3 + q ^ 3 <= (p + q) ^ 3).
  { replace ((p + q) ^ 3) with (p ^ 3 + q ^ 3 + 3 * p * q * (p + q)) by ring.
    assert (0 <= 3 * p * q * (p + q)) by (repeat apply Rmult_le_pos; lra). lra. }
  assert (G : forall u v w g, 0 < u <= 10 -> 0 < v <= 10 -> 0 <= g <= w -> 0 <= g * (1 + (u + v) / 12 - (v - v ^ 2 / 12) / 6) <= 3 * w).
  { intros u v w g Hu Hv Hg. assert (M : 0 <= 1 + (u + v) / 12 - (v - v ^ 2 / 12) / 6 <= 3) by (split; nra).
    split; [apply Rmult_le_pos; lra|]. rewrite (Rmult_comm 3). apply Rmult_le_compat; lra. }
  pose proof (G p q _ e Hp Hq He) as G1. pose proof (G q p _ f Hq Hp Hf) as G2. rewrite (Rplus_comm q p) in G2.
  assert (Hef : 0 <= e * f <= 3 * e).
  { assert (q ^ 3 <= 10 ^ 3) by (apply pow_incr; lra). split; [apply Rmult_le_pos; lra|]. rewrite (Rmult_comm e). apply Rmult_le_compat_r; lra. }
  apply Rabs_le. split; lra.
Qed.

Lemma discrete_resonance : forall s l N order k, 0 < s -> resonance_main s = Ok l -> In k l ->
  (10 <= N)%Z -> (order = 2 \/ order = 4)%Z ->
  exists k', 0 < k' /\ ~ eig_nonzero N order s k' /\
    Rabs (k ^ 2 - k' ^ 2) <= (if Z.eqb order 2 then k ^ 4 * (s / IZR N) ^ 2 / 12 else k ^ 6 * (s / IZR N) ^ 4 / 10).
Proof.
  intros s l N order k Hs E Hk HN Ho. assert (Hs0 : s <> 0) by lra.
  destruct (resonance_values s l Hs0 E) as (_ & _ & H). apply H in Hk. destruct Hk as (a & b & (_ & _ & Hab & Hb9) & ->).
  rewrite (Rabs_pos_eq s) by lra. pose proof PI_RGT_0 as HPI. pose proof PI_4 as HPI4.
  assert (HN' : 10 <= IZR N) by (apply IZR_le; exact HN).
  set (h := s / IZR N). assert (Hh : 0 < h) by (apply Rdiv_lt_0_compat; lra). assert (Hh2 : 0 < h ^ 2) by (apply pow_lt; exact Hh).
  set (x := PI * IZR a / IZR N). set (y := PI * IZR b / IZR N).
  assert (Ang : forall c, (1 <= c <= 9)%Z -> 0 < PI * IZR c / IZR N < PI).
  { intros c [Hc1 Hc9]. apply IZR_le in Hc1, Hc9. split; [apply Rdiv_lt_0_compat; nra|].
    apply (Rmult_lt_reg_r (IZR N)); [lra|]. unfold Rdiv. rewrite Rmult_assoc, Rinv_l by lra. nra. }
  destruct (symbol_window x (Ang a ltac:(lia))) as (Wx & Wx2 & Wx4).
  destruct (symbol_window y (Ang b ltac:(lia))) as (Wy & Wy2 & Wy4).
  assert (Hx : 0 < x < PI) by (apply Ang; lia). assert (Hy : 0 < y < PI) by (apply Ang; lia).
  set (k := PI * sqrt (IZR a ^ 2 + IZR b ^ 2) / s).
  assert (Ek : k ^ 2 = (x ^ 2 + y ^ 2) / h ^ 2).
  { unfold k, Rdiv. rewrite !Rpow_mult_distr, pow2_sqrt by nra. unfold x, y, h. field. split; lra. }
  set (A := 2 - 2 * cos x) in *. set (B := 2 - 2 * cos y) in *.
  destruct Ho as [-> | ->]; cbn [Z.eqb Pos.eqb].
  - exists (sqrt ((A + B) / h ^ 2)).
    assert (Hp : 0 < (A + B) / h ^ 2) by (apply Rdiv_lt_0_compat; lra).
    split; [apply sqrt_lt_R0; exact Hp|]. split.
    + intros Hn. apply (Hn a b); [lia|lia|]. unfold eigenval. cbn [Z.eqb Pos.eqb]. fold x y h.
      rewrite pow2_sqrt by lra. unfold A, B. field. lra.
    + rewrite pow2_sqrt by lra. replace (k ^ 4) with (k ^ 2 * k ^ 2) by ring. rewrite !Ek.
      replace ((x ^ 2 + y ^ 2) / h ^ 2 - (A + B) / h ^ 2) with ((x ^ 2 - A + (y ^ 2 - B)) / h ^ 2) by (field; lra).
      replace ((x ^ 2 + y ^ 2) / h ^ 2 * ((x ^ 2 + y ^ 2) / h ^ 2) * h ^ 2 / 12) with (((x ^ 2 + y ^ 2) ^ 2 / 12) / h ^ 2) by (field; lra).
      unfold Rdiv at 1 3. rewrite Rabs_mult, (Rabs_pos_eq (/ h ^ 2)) by (apply Rlt_le, Rinv_0_lt_compat; exact Hh2).
      apply Rmult_le_compat_r; [apply Rlt_le, Rinv_0_lt_compat; exact Hh2|].
      assert (0 <= x ^ 2 * y ^ 2) by (apply Rmult_le_pos; apply pow2_ge_0).
      apply Rabs_le. split; [nra|]. nra.
  - set (p := x ^ 2) in *. set (q := y ^ 2) in *.
    assert (P4 : forall z, z ^ 4 = (z ^ 2) ^ 2) by (intros; ring). assert (P6 : forall z, z ^ 6 = (z ^ 2) ^ 3) by (intros; ring).
    rewrite !P4, !P6 in Wx, Wy. fold p in Wx. fold q in Wy.
    assert (Hp : 0 < p <= 10) by (unfold p; split; [nra|]; pose proof PI_num; nra).
    assert (Hq : 0 < q <= 10) by (unfold q; split; [nra|]; pose proof PI_num; nra).
    set (d := 1 - (A + B) / 12). assert (Hd : 1 / 3 <= d) by (unfold d; lra).
    assert (Hn : 0 < A + B - A * B / 6) by nra.
    pose proof (symbol4_close p q A B Hp Hq Wx Wy) as Hc. fold d in Hc.
    exists (sqrt ((A + B - A * B / 6) / (d * h ^ 2))).
    assert (Hpos : 0 < (A + B - A * B / 6) / (d * h ^ 2)) by (apply Rdiv_lt_0_compat; [exact Hn|apply Rmult_lt_0_compat; lra]).
    split; [apply sqrt_lt_R0; exact Hpos|]. split.
    + intros Hz. apply (Hz a b); [lia|lia|]. unfold eigenval. cbn [Z.eqb Pos.eqb]. fold x y h.
      rewrite pow2_sqrt by lra.
      replace (cos x) with (1 - A / 2) by (unfold A; field). replace (cos y) with (1 - B / 2) by (unfold B; field).
      unfold d. field. split; [lra|]. unfold d in Hd. lra.
    + rewrite pow2_sqrt by lra. replace (k ^ 6) with (k ^ 2 * k ^ 2 * k ^ 2) by ring. rewrite !Ek.
      replace ((p + q) / h ^ 2 - (A + B - A * B / 6) / (d * h ^ 2)) with (((p + q) * d - (A + B - A * B / 6)) / (d * h ^ 2)) by (field; lra).
      replace ((p + q) / h ^ 2 * ((p + q) / h ^ 2) * ((p + q) / h ^ 2) * h ^ 4 / 10) with ((p + q) ^ 3 / 10 / h ^ 2) by (field; lra).
      unfold Rdiv at 1. rewrite Rabs_mult, (Rabs_pos_eq (/ (d * h ^ 2))) by (apply Rlt_le, Rinv_0_lt_compat, Rmult_lt_0_compat; lra).
      rewrite Rinv_mult, <- Rmult_assoc. unfold Rdiv at 3. apply Rmult_le_compat_r; [apply Rlt_le, Rinv_0_lt_compat; exact Hh2|].
      apply (Rmult_le_reg_r d); [lra|]. rewrite Rmult_assoc, Rinv_l, Rmult_1_r by lra.
      eapply Rle_trans; [exact Hc|]. assert (0 <= (p + q) ^ 3) by (apply pow_le; lra). nra.
Qed.
