(** Certified enclosures of cos (pi j / 2^m) and of pi, and a check that the
    eigenvalues of the auxiliary problem do not vanish. *)
From Coq Require Import ZArith Reals Lia Lra Psatz Bool List.
From Verif Require Import Model_Py Model_Fourier Spec_PS.
Open Scope R_scope.
Lemma fact_step : forall n, INR (fact (2 * S n)) = (2 * INR n + 2) * (2 * INR n + 1) * INR (fact (2 * n)).
Proof.
  intro n. replace (2 * S n)%nat with (S (S (2 * n))) by lia. rewrite !fact_simpl, !mult_INR, !S_INR, mult_INR.
  replace (INR 2) with 2 by (simpl; lra). ring.
Qed.
Fixpoint cosq (a : R) (n : nat) (t : R) (k : R) : R :=
  match n with O => t | S n' => t - cosq a n' (t * a ^ 2 / ((k + 1) * (k + 2))) (k + 2) end.

Lemma cosq_sum : forall n i a, 
  cosq a n (a ^ (2 * i) / INR (fact (2 * i))) (2 * INR i) =
  sum_f_R0 (fun j => (-1) ^ j * (a ^ (2 * (i + j)) / INR (fact (2 * (i + j))))) n.
Proof.
  induction n; intros i a.
  - cbn [cosq sum_f_R0]. rewrite Nat.add_0_r. simpl pow at 2. ring.
  - rewrite decomp_sum by lia. cbn [cosq pred]. rewrite Nat.add_0_r.
    replace (a ^ (2 * i) / INR (fact (2 * i)) * a ^ 2 / ((2 * INR i + 1) * (2 * INR i + 2)))
      with (a ^ (2 * S i) / INR (fact (2 * S i))).
    2:{ rewrite fact_step. replace (2 * S i)%nat with (2 * i + 2)%nat by lia. rewrite pow_add.
        field. pose proof (INR_fact_neq_0 (2 * i)). pose proof (pos_INR i). repeat split; try assumption; lra. }
    replace (2 * INR i + 2) with (2 * INR (S i)) by (rewrite S_INR; ring). rewrite IHn.
    rewrite Rmult_1_l || (simpl pow at 2; rewrite Rmult_1_l). unfold Rminus. f_equal.
    rewrite <- scal_sum with (x := -1) || idtac.
    replace (- sum_f_R0 (fun j : nat => (-1) ^ j * (a ^ (2 * (S i + j)) / INR (fact (2 * (S i + j))))) n)
      with ((-1) * sum_f_R0 (fun j : nat => (-1) ^ j * (a ^ (2 * (S i + j)) / INR (fact (2 * (S i + j))))) n) by ring.
    rewrite scal_sum. apply sum_eq. intros j _. replace (i + S j)%nat with (S i + j)%nat by lia. simpl pow at 3. ring.
Qed.
Lemma cosq_approx : forall n a, cosq a n 1 0 = cos_approx a n.
Proof.
  intros n a. unfold cos_approx, cos_term. pose proof (cosq_sum n 0 a) as H. change (2 * 0)%nat with 0%nat in H.
  replace (a ^ 0 / INR (fact 0)) with 1 in H by (simpl; field). replace (2 * INR 0) with 0 in H by (simpl; ring).
  rewrite H. apply sum_eq. intros. reflexivity.
Qed.
Lemma PI_bounds : 1570796326794 / 10 ^ 12 < PI / 2 < 1570796326795 / 10 ^ 12.
Proof.
  pose proof PI_4. pose proof PI2_3_2 as P3. unfold PI2 in P3.
  split; apply Rnot_le_lt; intro Hle.
  - pose proof (pre_cos_bound (1570796326794 / 10 ^ 12) 5 ltac:(lra) ltac:(lra)) as [B _].
    rewrite <- cosq_approx in B. cbn [Nat.mul Nat.add cosq] in B.
    assert (cos (1570796326794 / 10 ^ 12) <= 0) by (rewrite <- cos_PI2; apply cos_decr_1; lra).
    lra.
  - pose proof (pre_cos_bound (1570796326795 / 10 ^ 12) 5 ltac:(lra) ltac:(lra)) as [_ B].
    rewrite <- cosq_approx in B. cbn [Nat.mul Nat.add cosq] in B.
    assert (0 <= cos (1570796326795 / 10 ^ 12)) by (rewrite <- cos_PI2; apply cos_decr_1; lra).
    lra.
Qed.

Open Scope Z_scope.

(** Scale of the fixed-point numbers. *)
Definition sc : Z := 2 ^ 50.

Lemma sc_pos : (0 < IZR sc)%R.
Proof. apply IZR_lt. reflexivity. Qed.

(** Enclosure of cos (x/2) from one of cos x. *)
Definition halfI (p : Z * Z) : Z * Z :=
  (Z.sqrt (sc * (sc + fst p) / 2), Z.sqrt (sc * (sc + snd p) / 2) + 1).

Fixpoint cosI (m : nat) (j : Z) : Z * Z :=
  match m with
  | O => if j <=? 0 then (sc, sc) else (- sc, - sc)
  | S m' =>
      if j <=? 2 ^ Z.of_nat m' then halfI (cosI m' j)
      else let p := halfI (cosI m' (2 * 2 ^ Z.of_nat m' - j)) in (- snd p, - fst p)
  end.

Definition encl (p : Z * Z) (x : R) : Prop := (IZR (fst p) <= IZR sc * x <= IZR (snd p))%R.

Lemma half_encl : forall p x, (0 <= x <= PI)%R -> encl p (cos x) -> encl (halfI p) (cos (x / 2)).
Proof.
  intros p x Hx [L U]. pose proof sc_pos as S. pose proof PI_RGT_0 as P.
  assert (C0 : (0 <= cos (x / 2))%R) by (apply cos_ge_0; lra).
  assert (E : (cos x = 2 * (cos (x / 2) * cos (x / 2)) - 1)%R).
  { replace x with (2 * (x / 2))%R at 1 by field. rewrite cos_2a_cos. ring. }
  set (c := cos (x / 2)) in *. rewrite E in L, U. clear E.
  assert (A : forall n d : Z, d * 2 <= n -> (2 * IZR d <= IZR n)%R).
  { intros n d H. rewrite <- mult_IZR. apply IZR_le. lia. }
  unfold encl, halfI. cbn [fst snd]. split.
  - destruct (Z_lt_le_dec (sc * (sc + fst p) / 2) 0) as [N|N].
    { rewrite Z.sqrt_neg by assumption. nra. }
    pose proof (Z.sqrt_spec _ N) as [Q _]. pose proof (Z.sqrt_nonneg (sc * (sc + fst p) / 2)) as Q0.
    set (r := Z.sqrt _) in *.
    assert (Q1 : r * r * 2 <= sc * (sc + fst p)).
    { pose proof (Z.mul_div_le (sc * (sc + fst p)) 2 ltac:(lia)). nia. }
    apply A in Q1. rewrite !mult_IZR, plus_IZR in Q1. apply IZR_le in Q0. 
    apply Rnot_lt_le. intro H. set (s := IZR sc) in *.
    assert (0 <= s * c)%R by nra. assert (s * c * (s * c) < IZR r * IZR r)%R by nra. nra.
  - set (v := sc * (sc + snd p) / 2).
    assert (V : sc * (sc + snd p) < 2 * (v + 1)).
    { pose proof (Z.mul_succ_div_gt (sc * (sc + snd p)) 2 ltac:(lia)). fold v in H. lia. }
    assert (Q : v + 1 <= (Z.sqrt v + 1) * (Z.sqrt v + 1)).
    { destruct (Z_lt_le_dec v 0) as [N|N].
      - rewrite Z.sqrt_neg by assumption. lia.
      - pose proof (Z.sqrt_spec _ N) as [_ Q]. unfold Z.succ in Q. lia. }
    pose proof (Z.sqrt_nonneg v) as Q0. set (r := Z.sqrt v) in *.
    assert (Q1 : sc * (sc + snd p) < 2 * ((r + 1) * (r + 1))) by lia.
    apply IZR_lt in Q1. rewrite !mult_IZR, !plus_IZR in Q1. apply IZR_le in Q0.
    rewrite plus_IZR. set (s := IZR sc) in *. apply Rnot_lt_le. intro H.
    assert ((IZR r + 1) * (IZR r + 1) < s * c * (s * c))%R by nra. nra.
Qed.

Lemma cosI_encl : forall m j, 0 <= j <= 2 ^ Z.of_nat m ->
  encl (cosI m j) (cos (PI * IZR j / IZR (2 ^ Z.of_nat m))).
Proof.
  induction m; intros j Hj.
  - cbn [cosI]. change (2 ^ Z.of_nat 0) with 1 in *. unfold Rdiv. rewrite Rinv_1, Rmult_1_r.
    destruct (j <=? 0) eqn:E.
    + assert (j = 0) by lia. subst. rewrite Rmult_0_r, cos_0. unfold encl. cbn [fst snd]. lra.
    + assert (j = 1) by lia. subst. rewrite Rmult_1_r, cos_PI. unfold encl. cbn [fst snd]. rewrite opp_IZR. lra.
  - cbn [cosI]. pose proof PI_RGT_0 as P.
    assert (E2 : 2 ^ Z.of_nat (S m) = 2 * 2 ^ Z.of_nat m) by (rewrite Nat2Z.inj_succ, Z.pow_succ_r by lia; reflexivity).
    rewrite E2 in *. assert (Hp : 0 < 2 ^ Z.of_nat m) by (apply Z.pow_pos_nonneg; lia).
    set (n := 2 ^ Z.of_nat m) in *. assert (Hr : (0 < IZR n)%R) by (apply IZR_lt; assumption).
    assert (Hin : forall i, 0 <= i <= n -> (0 <= PI * IZR i / IZR n <= PI)%R).
    { intros i Hi. assert (0 <= IZR i <= IZR n)%R by (split; apply IZR_le; lia).
      split; [apply Rmult_le_pos; [nra|apply Rlt_le, Rinv_0_lt_compat; assumption]|].
      apply Rmult_le_reg_r with (IZR n); [assumption|]. unfold Rdiv. rewrite Rmult_assoc, Rinv_l by lra. nra. }
    destruct (j <=? n) eqn:E.
    + pose proof (half_encl _ _ (Hin j ltac:(lia)) (IHm j ltac:(lia))) as H.
      replace (PI * IZR j / IZR n / 2)%R with (PI * IZR j / IZR (2 * n))%R in H
        by (rewrite mult_IZR; field; lra). exact H.
    + pose proof (half_encl _ _ (Hin (2 * n - j) ltac:(lia)) (IHm (2 * n - j) ltac:(lia))) as H.
      replace (PI * IZR (2 * n - j) / IZR n / 2)%R with (- (PI * IZR j / IZR (2 * n)) + PI)%R in H
        by (rewrite minus_IZR, !mult_IZR; field; lra).
      rewrite neg_cos, cos_neg in H. destruct H as [L U]. unfold encl. cbn [fst snd].
      rewrite !opp_IZR. lra.
Qed.

(** The same enclosures for all j at once. *)
Fixpoint cosT (m : nat) : list (Z * Z) :=
  match m with
  | O => ((sc, sc) :: (- sc, - sc) :: nil)%list
  | S m' =>
      let h := map halfI (cosT m') in
      (h ++ tl (rev (map (fun p => (- snd p, - fst p)) h)))%list
  end.

Lemma cosT_length : forall m, length (cosT m) = S (Z.to_nat (2 ^ Z.of_nat m)).
Proof.
  induction m; [reflexivity|]. cbn [cosT]. rewrite app_length.
  assert (T : forall (A : Type) (l : list A), length (tl l) = pred (length l)) by (destruct l; reflexivity).
  rewrite T, rev_length, !map_length, IHm.
  rewrite Nat2Z.inj_succ, Z.pow_succ_r by lia. rewrite Z2Nat.inj_mul by (try apply Z.pow_nonneg; lia).
  change (Z.to_nat 2) with 2%nat. lia.
Qed.

Lemma cosT_nth : forall m j, 0 <= j <= 2 ^ Z.of_nat m -> nth (Z.to_nat j) (cosT m) (0, 0) = cosI m j.
Proof.
  induction m; intros j Hj.
  - change (2 ^ Z.of_nat 0) with 1 in Hj. assert (j = 0 \/ j = 1) as [-> | ->] by lia; reflexivity.
  - assert (E2 : 2 ^ Z.of_nat (S m) = 2 * 2 ^ Z.of_nat m) by (rewrite Nat2Z.inj_succ, Z.pow_succ_r by lia; reflexivity).
    rewrite E2 in Hj. assert (Hp : 0 < 2 ^ Z.of_nat m) by (apply Z.pow_pos_nonneg; lia).
    pose proof (cosT_length m) as HL.
    cbn [cosT cosI]. set (n := 2 ^ Z.of_nat m) in *. set (h := map halfI (cosT m)).
    assert (Lh : length h = S (Z.to_nat n)) by (unfold h; rewrite map_length; exact HL).
    assert (Nh : forall i, 0 <= i <= n -> nth (Z.to_nat i) h (0, 0) = halfI (cosI m i)).
    { intros i Hi. unfold h. rewrite <- (IHm i Hi).
      rewrite (nth_indep _ (0, 0) (halfI (0, 0))) by (rewrite map_length, HL; lia). apply map_nth. }
    destruct (j <=? n) eqn:E.
    + rewrite app_nth1 by (rewrite Lh; lia). apply Nh. lia.
    + rewrite app_nth2 by (rewrite Lh; lia). rewrite Lh.
      assert (T : forall (l : list (Z * Z)) i d, nth i (tl l) d = nth (S i) l d)
        by (destruct l; [intros; destruct i; reflexivity|reflexivity]).
      rewrite T. rewrite rev_nth by (rewrite map_length, Lh; lia). rewrite map_length, Lh.
      rewrite (nth_indep _ (0, 0) ((fun p : Z * Z => (- snd p, - fst p)) (0, 0))) by (rewrite map_length, Lh; lia).
      rewrite (map_nth (fun p : Z * Z => (- snd p, - fst p))).
      replace (S (Z.to_nat n) - S (S (Z.to_nat j - S (Z.to_nat n))))%nat with (Z.to_nat (2 * n - j)) by lia.
      rewrite Nh by lia. reflexivity.
Qed.

(** ** The sign of an eigenvalue *)

(** Lower and upper bounds of the numerator of an eigenvalue, up to a positive
    factor; [t] encloses (h k)^2. *)
Definition eig_lo (order : Z) (t p q : Z * Z) : Z :=
  if order =? 2 then fst t + 2 * fst p + 2 * fst q - 4 * sc
  else fst t * (fst p + fst q + 4 * sc) + 4 * (fst p + 2 * sc) * (fst q + 2 * sc) - 36 * (sc * sc).
Definition eig_hi (order : Z) (t p q : Z * Z) : Z :=
  if order =? 2 then snd t + 2 * snd p + 2 * snd q - 4 * sc
  else snd t * (snd p + snd q + 4 * sc) + 4 * (snd p + 2 * sc) * (snd q + 2 * sc) - 36 * (sc * sc).

(** The real number they enclose. *)
Definition eig_num (order : Z) (t p q : R) : R :=
  (if order =? 2 then t + 2 * p + 2 * q - 4 else t * (p + q + 4) + 4 * (p + 2) * (q + 2) - 36)%R.

Definition wide (t p : Z * Z) : bool := (0 <=? fst t) && (0 <=? fst p + 2 * sc).

Lemma eig_lo_sound : forall order t p q T P Q, wide t p = true -> wide t q = true ->
  encl t T -> encl p P -> encl q Q -> 0 < eig_lo order t p q -> (0 < eig_num order T P Q)%R.
Proof.
  intros order t p q T P Q Wp Wq [T1 _] [P1 _] [Q1 _] H. pose proof sc_pos as S.
  unfold wide in *. apply andb_prop in Wp. apply andb_prop in Wq. destruct Wp as [W1 W2], Wq as [_ W3].
  apply Z.leb_le, IZR_le in W1. apply Z.leb_le, IZR_le in W2. apply Z.leb_le, IZR_le in W3.
  rewrite plus_IZR, mult_IZR in W2, W3. unfold eig_lo, eig_num in *.
  destruct (order =? 2); apply IZR_lt in H;
    repeat rewrite ?minus_IZR, ?plus_IZR, ?mult_IZR in H; set (s := IZR sc) in *.
  - assert (0 < s * (T + 2 * P + 2 * Q - 4))%R by lra. nra.
  - set (a := IZR (fst t)) in *. set (b := IZR (fst p)) in *. set (c := IZR (fst q)) in *.
    assert (a * (b + c + 4 * s) <= s * T * (s * P + s * Q + 4 * s))%R by (apply Rmult_le_compat; lra).
    assert ((b + 2 * s) * (c + 2 * s) <= (s * P + 2 * s) * (s * Q + 2 * s))%R by (apply Rmult_le_compat; lra).
    assert (G : (0 < s * s * (T * (P + Q + 4) + 4 * (P + 2) * (Q + 2) - 36))%R) by lra.
    apply Rnot_le_lt. intro K. assert (0 < s * s)%R by nra. nra.
Qed.

Lemma eig_hi_sound : forall order t p q T P Q, (0 <= T)%R -> (-1 <= P)%R -> (-1 <= Q)%R ->
  encl t T -> encl p P -> encl q Q -> eig_hi order t p q < 0 -> (eig_num order T P Q < 0)%R.
Proof.
  intros order t p q T P Q T0 P0 Q0 [_ T1] [_ P1] [_ Q1] H. pose proof sc_pos as S.
  unfold eig_hi, eig_num in *.
  destruct (order =? 2); apply IZR_lt in H;
    repeat rewrite ?minus_IZR, ?plus_IZR, ?mult_IZR in H; set (s := IZR sc) in *.
  - assert (s * (T + 2 * P + 2 * Q - 4) < 0)%R by lra. nra.
  - set (a := IZR (snd t)) in *. set (b := IZR (snd p)) in *. set (c := IZR (snd q)) in *.
    assert (0 <= s * T)%R by nra. assert (- s <= s * P)%R by nra. assert (- s <= s * Q)%R by nra.
    assert (s * T * (s * P + s * Q + 4 * s) <= a * (b + c + 4 * s))%R by (apply Rmult_le_compat; lra).
    assert ((s * P + 2 * s) * (s * Q + 2 * s) <= (b + 2 * s) * (c + 2 * s))%R by (apply Rmult_le_compat; lra).
    assert (G : (s * s * (T * (P + Q + 4) + 4 * (P + 2) * (Q + 2) - 36) < 0)%R) by lra.
    apply Rnot_le_lt. intro K. assert (0 < s * s)%R by nra. nra.
Qed.

(** Bisection for the change of sign along a row. *)
Fixpoint bis (fuel : nat) (tab : list (Z * Z)) (order : Z) (t p : Z * Z) (a b : Z) : bool :=
  match fuel with
  | O => false
  | S fuel' =>
      if b <=? a + 1 then true
      else
        let c := (a + b) / 2 in
        let q := nth (Z.to_nat c) tab (0, 0) in
        if wide t q && (0 <? eig_lo order t p q) then bis fuel' tab order t p c b
        else if eig_hi order t p q <? 0 then bis fuel' tab order t p a c
        else false
  end.

Lemma bis_sound : forall m order t p T P, wide t p = true -> encl t T -> encl p P -> (0 <= T)%R -> (-1 <= P)%R ->
  forall fuel a b, 0 <= a -> b <= 2 ^ Z.of_nat m -> bis fuel (cosT m) order t p a b = true ->
  forall l, a < l < b -> eig_num order T P (cos (PI * IZR l / IZR (2 ^ Z.of_nat m))) <> 0%R.
Proof.
  intros m order t p T P W Ht Hp T0 P0. set (n := 2 ^ Z.of_nat m).
  assert (Hn : 0 < n) by (apply Z.pow_pos_nonneg; lia). assert (Hr : (0 < IZR n)%R) by (apply IZR_lt; assumption).
  pose proof PI_RGT_0 as PP.
  assert (Mono : forall i j, 0 <= i -> i <= j -> j <= n ->
            (cos (PI * IZR j / IZR n) <= cos (PI * IZR i / IZR n))%R).
  { intros i j Hi Hij Hj. assert (0 <= IZR i /\ IZR i <= IZR j /\ IZR j <= IZR n)%R as (A & B & D)
      by (repeat split; apply IZR_le; assumption).
    assert (I0 : (0 < / IZR n)%R) by (apply Rinv_0_lt_compat; assumption).
    assert (E : (IZR n * / IZR n = 1)%R) by (apply Rinv_r; lra).
    set (w := (/ IZR n)%R) in *. unfold Rdiv. fold w.
    assert (F : forall u v, (u <= v)%R -> (PI * u * w <= PI * v * w)%R).
    { intros u v Huv. apply Rmult_le_compat_r; [lra|]. apply Rmult_le_compat_l; lra. }
    pose proof (F _ _ A) as F1. pose proof (F _ _ B) as F2. pose proof (F _ _ D) as F3.
    replace (PI * IZR n * w)%R with PI in F3 by (rewrite Rmult_assoc, E; ring).
    replace (PI * 0 * w)%R with 0%R in F1 by ring.
    apply cos_decr_1; lra. }
  assert (Up : forall x y, (x <= y)%R -> (eig_num order T P x <= eig_num order T P y)%R).
  { intros x y H. unfold eig_num. destruct (order =? 2); [lra|].
    assert (0 <= T * (y - x))%R by (apply Rmult_le_pos; lra).
    assert (0 <= (P + 2) * (y - x))%R by (apply Rmult_le_pos; lra). lra. }
  induction fuel; intros a b Ha Hb H; [discriminate|].
  cbn [bis] in H. destruct (b <=? a + 1) eqn:E; [intros; lia|].
  set (c := (a + b) / 2) in *.
  assert (Hc : a < c < b) by (unfold c; split; [assert (a + 1 <= (a + b) / 2) by (apply Z.div_le_lower_bound; lia); lia|apply Z.div_lt_upper_bound; lia]).
  pose proof (cosI_encl m c ltac:(fold n; lia)) as HI. fold n in HI.
  rewrite (cosT_nth m c) in H by (fold n; lia).
  set (q := cosI m c) in *.
  destruct (wide t q && (0 <? eig_lo order t p q)) eqn:E1.
  - apply andb_prop in E1. destruct E1 as [W2 L]. apply Z.ltb_lt in L.
    pose proof (eig_lo_sound order t p q T P _ W W2 Ht Hp HI L) as Pos.
    intros l Hl. destruct (Z_le_gt_dec l c) as [K|K].
    + pose proof (Up _ _ (Mono l c ltac:(lia) K ltac:(lia))). lra.
    + apply (IHfuel c b); try lia. assumption.
  - destruct (eig_hi order t p q <? 0) eqn:E2; [|discriminate]. apply Z.ltb_lt in E2.
    pose proof (eig_hi_sound order t p q T P _ T0 P0 (proj1 (COS_bound _)) Ht Hp HI E2) as Neg.
    intros l Hl. destruct (Z_le_gt_dec c l) as [K|K].
    + pose proof (Up _ _ (Mono c l ltac:(lia) K ltac:(lia))). lra.
    + apply (IHfuel a c); try lia. assumption.
Qed.

(** Enclosure of (h k)^2 for AD_len = 2 pi, k = p/4, N = 2^m. *)
Definition tI (m : nat) (p : Z) : Z * Z :=
  let d := 4 * (2 ^ Z.of_nat m) ^ 2 * 10 ^ 24 in
  (sc * p ^ 2 * (2 * 1570796326794) ^ 2 / d, sc * p ^ 2 * (2 * 1570796326795) ^ 2 / d + 1).

Lemma tI_encl : forall m p, encl (tI m p) ((2 * PI / IZR (2 ^ Z.of_nat m)) ^ 2 * (IZR p / 4) ^ 2).
Proof.
  intros m p. pose proof PI_bounds as [L U].
  set (n := 2 ^ Z.of_nat m). assert (Hn : 0 < n) by (apply Z.pow_pos_nonneg; lia).
  assert (Hr : (0 < IZR n)%R) by (apply IZR_lt; assumption).
  set (d := 4 * n ^ 2 * 10 ^ 24).
  assert (Hd : 0 < d) by (unfold d; nia).
  assert (Ed : IZR d = (4 * (IZR n * IZR n) * 10 ^ 24)%R).
  { unfold d. rewrite !mult_IZR. rewrite Z.pow_2_r, mult_IZR. replace (IZR (10 ^ 24)) with (10 ^ 24)%R; [ring|].
    change (10 ^ 24)%R with (IZR 10 ^ 24)%R. rewrite pow_IZR. reflexivity. }
  assert (Hdr : (0 < IZR d)%R) by (apply IZR_lt; assumption).
  assert (E : forall x, ((2 * x / IZR n) ^ 2 * (IZR p / 4) ^ 2 * IZR d = (x * 10 ^ 12) ^ 2 * (IZR p * IZR p))%R).
  { intro x. rewrite Ed. field. lra. }
  assert (M : forall x y, (0 < x < y)%R -> (x ^ 2 <= y ^ 2)%R) by (intros; nra).
  assert (P2 : (0 <= IZR p * IZR p)%R) by nra.
  pose proof sc_pos as S. unfold encl, tI. fold n. fold d. cbn [fst snd]. split.
  - set (v := _ / d). assert (V : d * v <= sc * p ^ 2 * (2 * 1570796326794) ^ 2) by (apply Z.mul_div_le; assumption).
    apply IZR_le in V. rewrite !mult_IZR in V. rewrite !Z.pow_2_r, !mult_IZR in V.
    apply Rmult_le_reg_r with (IZR d); [assumption|]. rewrite Rmult_assoc, E.
    assert (Q : ((2 * 1570796326794) ^ 2 <= (PI * 10 ^ 12) ^ 2)%R) by (apply M; lra).
    assert ((2 * 1570796326794) ^ 2 * (IZR p * IZR p) <= (PI * 10 ^ 12) ^ 2 * (IZR p * IZR p))%R
      by (apply Rmult_le_compat_r; assumption).
    apply Rle_trans with (IZR sc * ((2 * 1570796326794) ^ 2 * (IZR p * IZR p)))%R; [lra|].
    apply Rmult_le_compat_l; lra.
  - set (v := _ / d). assert (V : sc * p ^ 2 * (2 * 1570796326795) ^ 2 < d * Z.succ v) by (apply Z.mul_succ_div_gt; assumption).
    unfold Z.succ in V. set (w := v + 1) in *.
    apply IZR_lt in V. rewrite !mult_IZR in V. rewrite !Z.pow_2_r, !mult_IZR in V.
    apply Rmult_le_reg_r with (IZR d); [assumption|]. rewrite Rmult_assoc, E.
    assert (Q : ((PI * 10 ^ 12) ^ 2 <= (2 * 1570796326795) ^ 2)%R) by (apply M; pose proof PI_RGT_0; lra).
    assert ((PI * 10 ^ 12) ^ 2 * (IZR p * IZR p) <= (2 * 1570796326795) ^ 2 * (IZR p * IZR p))%R
      by (apply Rmult_le_compat_r; assumption).
    apply Rle_trans with (IZR sc * ((2 * 1570796326795) ^ 2 * (IZR p * IZR p)))%R; [|lra].
    apply Rmult_le_compat_l; lra.
Qed.

(** All rows. *)
Definition eig_check (m : nat) (order p : Z) : bool :=
  let t := tI m p in
  let tab := cosT m in
  forallb (fun c => wide t c && bis (S (S m)) tab order t c 0 (2 ^ Z.of_nat m)) tab.

Lemma eig_num_eq : forall N order L k j l, order = 2 \/ order = 4 -> (L / IZR N <> 0)%R ->
  eigenval N order L k j l = 0%R ->
  eig_num order ((L / IZR N) ^ 2 * k ^ 2) (cos (PI * IZR j / IZR N)) (cos (PI * IZR l / IZR N)) = 0%R.
Proof.
  intros N order L k j l Ho Hh. unfold eigenval, eig_num.
  set (cj := cos _). set (cl := cos _). set (h := (L / IZR N)%R) in *.
  destruct Ho as [-> | ->]; cbn [Z.eqb Pos.eqb]; intro H.
  - apply Rmult_eq_compat_r with (r := (h ^ 2)%R) in H. rewrite Rmult_0_l in H. rewrite <- H. field. assumption.
  - apply Rmult_eq_compat_r with (r := (6 * h ^ 2)%R) in H. rewrite Rmult_0_l in H. rewrite <- H. field. assumption.
Qed.

Lemma eig_check_sound : forall m order p, order = 2 \/ order = 4 -> eig_check m order p = true ->
  eig_nonzero (2 ^ Z.of_nat m) order (2 * PI) (IZR p / 4).
Proof.
  intros m order p Ho H j l Hj Hl K.
  set (n := 2 ^ Z.of_nat m) in *. assert (Hn : 0 < n) by (apply Z.pow_pos_nonneg; lia).
  assert (Hr : (0 < IZR n)%R) by (apply IZR_lt; assumption). pose proof PI_RGT_0.
  apply eig_num_eq in K; [|assumption|apply Rmult_integral_contrapositive_currified; [lra|apply Rinv_neq_0_compat; lra]].
  unfold eig_check in H. fold n in H.
  rewrite forallb_forall in H. specialize (H (cosI m j)).
  destruct (andb_prop _ _ (H ltac:(rewrite <- cosT_nth by (fold n; lia); apply nth_In; rewrite cosT_length; fold n; lia))) as [W B].
  apply (bis_sound m order (tI m p) (cosI m j) _ _ W (tI_encl m p) (cosI_encl m j ltac:(fold n; lia))
     ltac:(apply Rmult_le_pos; apply pow2_ge_0) (proj1 (COS_bound _)) _ 0 n ltac:(lia) ltac:(lia) B l ltac:(lia)).
  exact K.
Qed.

Lemma check_all : forallb (fun m => forallb (fun o => forallb (fun p => eig_check m o p) (cons 27 (cons 43 nil))) (cons 2 (cons 4 nil)))
  (cons 4%nat (cons 5%nat (cons 6%nat (cons 7%nat (cons 8%nat (cons 9%nat (cons 10%nat nil))))))) = true.
Proof. vm_compute. reflexivity. Qed.
