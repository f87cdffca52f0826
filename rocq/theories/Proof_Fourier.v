(** Discrete sine orthogonality and the auxiliary-problem solver. *)
From Coq Require Import ZArith List Bool Reals Lia Lra.
From Coquelicot Require Import Complex.
From Verif Require Import Model_Py Model_Multivalue Model_Grid Model_Fourier
  Model_Linop Model_PS Spec_Grid Spec_PS Lib_Csum Proof_Grid.
Import ListNotations.
Open Scope R_scope.

Lemma cos_sum_telescope : forall n th,
  2 * sin (th / 2) * rsum n (fun m => cos ((INR m + 1) * th)) =
  sin ((INR n + 1 / 2) * th) - sin (th / 2).
Proof.
  induction n as [|n IH]; intros th.
  - simpl. replace ((0 + 1 / 2) * th) with (th / 2) by field. ring.
  - simpl rsum. rewrite Rmult_plus_distr_l, IH. rewrite S_INR.
    replace ((INR n + 1 + 1 / 2) * th) with ((INR n + 1) * th + th / 2) by field.
    replace ((INR n + 1 / 2) * th) with ((INR n + 1) * th - th / 2) by field.
    rewrite sin_plus, sin_minus. ring.
Qed.

Lemma sin_INR_PI : forall p, sin (INR p * PI) = 0.
Proof. intros p. apply sin_eq_0_1. exists (Z.of_nat p). rewrite INR_IZR_INZ. reflexivity. Qed.

Lemma cos_sum_value : forall n p, (0 < p < 2 * (n + 1))%nat ->
  rsum n (fun m => cos (PI * INR p * (INR m + 1) / (INR n + 1))) =
  (- cos (INR p * PI) - 1) / 2.
Proof.
  intros n p Hp. pose proof (pos_INR n) as Hn.
  set (th := PI * INR p / (INR n + 1)).
  assert (Hs : sin (th / 2) <> 0).
  { apply Rgt_not_eq. apply sin_gt_0.
    - unfold th. assert (0 < INR p) by (apply lt_0_INR; lia).
      pose proof PI_RGT_0. apply Rdiv_lt_0_compat; [|lra].
      apply Rdiv_lt_0_compat; [|lra]. apply Rmult_lt_0_compat; lra.
    - unfold th. assert (Hpr : INR p < 2 * (INR n + 1)).
      { replace (2 * (INR n + 1)) with (INR (2 * (n + 1)))
          by (rewrite mult_INR, plus_INR; simpl; ring). apply lt_INR. lia. }
      pose proof PI_RGT_0. apply Rmult_lt_reg_r with (2 * (INR n + 1)); [lra|].
      field_simplify; [|lra].
      replace (2 * PI * INR n + 2 * PI) with (PI * (2 * (INR n + 1))) by ring.
      apply Rmult_lt_compat_l; assumption. }
  pose proof (cos_sum_telescope n th) as T.
  replace ((INR n + 1 / 2) * th) with (INR p * PI - th / 2) in T by (unfold th; field; lra).
  rewrite sin_minus, sin_INR_PI in T.
  rewrite (rsum_ext n _ (fun m => cos ((INR m + 1) * th))).
  2:{ intros m _. f_equal. unfold th. field. lra. }
  apply Rmult_eq_reg_l with (2 * sin (th / 2)); [|lra]. rewrite T. field.
Qed.

Definition sn (n j m : nat) : R := sin (PI * (INR j + 1) * (INR m + 1) / (INR n + 1)).

Lemma sine_orthogonal_lt : forall n j l, (l < j < n)%nat ->
  rsum n (fun m => sn n j m * sn n l m) = 0.
Proof.
  intros n j l H. pose proof (pos_INR n) as Hn.
  rewrite (rsum_ext n _ (fun m =>
     (1/2) * cos (PI * INR (j - l) * (INR m + 1) / (INR n + 1)) +
     (-1/2) * cos (PI * INR (j + l + 2) * (INR m + 1) / (INR n + 1)))).
  2:{ intros m _. unfold sn. rewrite minus_INR, !plus_INR by lia. simpl.
      set (A := PI * (INR j + 1) * (INR m + 1) / (INR n + 1)).
      set (B := PI * (INR l + 1) * (INR m + 1) / (INR n + 1)).
      replace (PI * (INR j - INR l) * (INR m + 1) / (INR n + 1)) with (A - B)
        by (unfold A, B; field; lra).
      replace (PI * (INR j + INR l + (1 + 1)) * (INR m + 1) / (INR n + 1)) with (A + B)
        by (unfold A, B; field; lra).
      rewrite cos_minus, cos_plus. field. }
  rewrite rsum_plus, !rsum_scal, !cos_sum_value by lia.
  assert (E : cos (INR (j + l + 2) * PI) = cos (INR (j - l) * PI)).
  { replace (INR (j + l + 2) * PI) with (INR (j - l) * PI + 2 * INR (l + 1) * PI).
    - apply cos_period.
    - rewrite minus_INR, !plus_INR by lia. simpl. ring. }
  rewrite E. field.
Qed.

Lemma sine_orthogonal : forall n j l, (j < n)%nat -> (l < n)%nat ->
  rsum n (fun m => sn n j m * sn n l m) =
  if Nat.eqb j l then (INR n + 1) / 2 else 0.
Proof.
  intros n j l Hj Hl. destruct (Nat.eqb_spec j l) as [->|Hne].
  - pose proof (pos_INR n) as Hn.
    rewrite (rsum_ext n _ (fun m => (1/2) * 1 +
       (-1/2) * cos (PI * INR (2 * (l + 1)) * (INR m + 1) / (INR n + 1)))).
    2:{ intros m _. unfold sn.
        set (A := PI * (INR l + 1) * (INR m + 1) / (INR n + 1)).
        replace (PI * INR (2 * (l + 1)) * (INR m + 1) / (INR n + 1)) with (2 * A)
          by (unfold A; rewrite mult_INR, plus_INR; simpl; field; lra).
        rewrite cos_2a_sin. field. }
    rewrite rsum_plus, !rsum_scal, cos_sum_value by lia.
    rewrite rsum_const.
    replace (INR (2 * (l + 1)) * PI) with (0 + 2 * INR (l + 1) * PI)
      by (rewrite mult_INR; simpl; ring).
    rewrite cos_period, cos_0. field.
  - destruct (Nat.lt_ge_cases l j).
    + apply sine_orthogonal_lt. lia.
    + rewrite (rsum_ext n _ (fun m => sn n l m * sn n j m)) by (intros; ring).
      apply sine_orthogonal_lt. lia.
Qed.

(** ** one-dimensional transform *)

Lemma dst1_nat : forall n x k, dst1 n x (Z.of_nat k) =
  Cmult (RtoC 2) (csum n (fun m => Cmult (x (Z.of_nat m)) (RtoC (sn n k m)))).
Proof. intros. unfold dst1, sn. rewrite <- INR_IZR_INZ. reflexivity. Qed.

Lemma dst1_ext : forall n x y k,
  (forall m, (0 <= m < Z.of_nat n)%Z -> x m = y m) -> dst1 n x k = dst1 n y k.
Proof.
  intros n x y k H. unfold dst1. f_equal. apply csum_ext. intros m Hm.
  rewrite H by lia. reflexivity.
Qed.

Lemma dst1_plus : forall n x y k,
  dst1 n (fun m => Cplus (x m) (y m)) k = Cplus (dst1 n x k) (dst1 n y k).
Proof.
  intros. unfold dst1.
  rewrite (csum_ext n _ (fun m =>
    Cplus (Cmult (x (Z.of_nat m)) (RtoC (sin (PI * (IZR k + 1) * (INR m + 1) / (INR n + 1)))))
          (Cmult (y (Z.of_nat m)) (RtoC (sin (PI * (IZR k + 1) * (INR m + 1) / (INR n + 1)))))))
    by (intros; ring).
  rewrite csum_plus. ring.
Qed.

Lemma dst1_scal : forall n c x k,
  dst1 n (fun m => Cmult c (x m)) k = Cmult c (dst1 n x k).
Proof.
  intros. unfold dst1.
  rewrite (csum_ext n _ (fun m => Cmult c
    (Cmult (x (Z.of_nat m)) (RtoC (sin (PI * (IZR k + 1) * (INR m + 1) / (INR n + 1)))))))
    by (intros; ring).
  rewrite csum_scal. ring.
Qed.

Lemma sn_sym : forall n j m, sn n j m = sn n m j.
Proof. intros. unfold sn. f_equal. unfold Rdiv. ring. Qed.

Lemma dst1_involution : forall n x k, (0 <= k < Z.of_nat n)%Z ->
  dst1 n (dst1 n x) k = Cmult (RtoC (2 * (INR n + 1))) (x k).
Proof.
  intros n x k Hk. rewrite <- (Z2Nat.id k) by lia.
  set (q := Z.to_nat k). assert (Hq : (q < n)%nat) by lia. clearbody q. clear k Hk.
  rewrite dst1_nat.
  rewrite (csum_ext n _ (fun m => csum n (fun p =>
     Cmult (RtoC 2) (Cmult (x (Z.of_nat p)) (RtoC (sn n p m * sn n q m)))))).
  2:{ intros m Hm. rewrite dst1_nat, csum_scal, <- Cmult_assoc. f_equal.
      rewrite <- csum_scal_r. apply csum_ext. intros p Hp.
      rewrite (sn_sym n m p), RtoC_mult. ring. }
  rewrite csum_swap.
  rewrite (csum_ext n _ (fun p => if Nat.eqb p q then
     Cmult (RtoC (INR n + 1)) (x (Z.of_nat p)) else RtoC 0)).
  2:{ intros p Hp. rewrite csum_scal, csum_scal, csum_RtoC, sine_orthogonal by assumption.
      destruct (Nat.eqb p q).
      - rewrite Cmult_comm, <- Cmult_assoc, <- RtoC_mult.
        replace ((INR n + 1) / 2 * 2) with (INR n + 1) by field. ring.
      - ring. }
  rewrite csum_delta by assumption. rewrite RtoC_mult. ring.
Qed.

(** ** two-dimensional transform *)

Definition nn (N : Z) : nat := Z.to_nat (N - 1).

Lemma dst2_ext : forall N A B, (2 <= N)%Z -> arr_eq N A B -> forall i k,
  (0 <= i < N - 1)%Z -> (0 <= k < N - 1)%Z -> dst2 N A i k = dst2 N B i k.
Proof.
  intros N A B HN H i k Hi Hk. unfold dst2. apply dst1_ext. intros m Hm.
  apply dst1_ext. intros p Hp. apply H; lia.
Qed.

(** dst2 as a symmetric double sum. *)
Lemma dst2_sum : forall N A i k,
  dst2 N A (Z.of_nat i) (Z.of_nat k) =
  Cmult (RtoC 4) (csum (nn N) (fun m => csum (nn N) (fun p =>
    Cmult (A (Z.of_nat m) (Z.of_nat p)) (RtoC (sn (nn N) i m * sn (nn N) k p))))).
Proof.
  intros. unfold dst2. fold (nn N). rewrite dst1_nat.
  replace (RtoC 4) with (Cmult (RtoC 2) (RtoC 2)) by (rewrite <- RtoC_mult; f_equal; ring).
  rewrite <- Cmult_assoc. f_equal. rewrite <- csum_scal. apply csum_ext. intros m Hm.
  rewrite dst1_nat. rewrite <- Cmult_assoc. f_equal. rewrite <- csum_scal_r.
  apply csum_ext. intros p Hp. rewrite RtoC_mult. ring.
Qed.

Lemma dst2_plus : forall N A B i k,
  dst2 N (fun i j => Cplus (A i j) (B i j)) i k = Cplus (dst2 N A i k) (dst2 N B i k).
Proof.
  intros. unfold dst2. rewrite <- dst1_plus. apply dst1_ext. intros m Hm.
  apply dst1_plus.
Qed.

Lemma dst2_scal : forall N c A i k,
  dst2 N (fun i j => Cmult c (A i j)) i k = Cmult c (dst2 N A i k).
Proof.
  intros. unfold dst2. rewrite <- dst1_scal. apply dst1_ext. intros m Hm.
  apply dst1_scal.
Qed.

Lemma dst1_comm : forall n (A : arr2) i k,
  dst1 n (fun m => dst1 n (fun p => A m p) k) i =
  dst1 n (fun p => dst1 n (fun m => A m p) i) k.
Proof.
  intros. unfold dst1. f_equal.
  rewrite (csum_ext n _ (fun m => csum n (fun p =>
    Cmult (RtoC 2) (Cmult (Cmult (A (Z.of_nat m) (Z.of_nat p))
      (RtoC (sin (PI * (IZR k + 1) * (INR p + 1) / (INR n + 1)))))
      (RtoC (sin (PI * (IZR i + 1) * (INR m + 1) / (INR n + 1)))))))).
  2:{ intros m _. rewrite csum_scal, csum_scal_r. ring. }
  rewrite csum_swap. apply csum_ext. intros p _.
  rewrite csum_scal. rewrite <- Cmult_assoc. f_equal.
  rewrite <- csum_scal_r. apply csum_ext. intros. ring.
Qed.

Lemma dst2_involution : forall N A i k, (2 <= N)%Z ->
  (0 <= i < N - 1)%Z -> (0 <= k < N - 1)%Z ->
  dst2 N (dst2 N A) i k = Cmult (RtoC (4 * IZR N ^ 2)) (A i k).
Proof.
  intros N A i k HN Hi Hk. unfold dst2. fold (nn N).
  assert (En : Z.of_nat (nn N) = (N - 1)%Z) by (unfold nn; lia).
  assert (Er : INR (nn N) + 1 = IZR N).
  { rewrite INR_IZR_INZ, En, minus_IZR. ring. }
  (* rows of (columns of rows) *)
  rewrite (dst1_ext (nn N) _ (fun m =>
    Cmult (RtoC (2 * IZR N)) (dst1 (nn N) (fun q => A q k) m))).
  2:{ intros m Hm.
      rewrite (dst1_ext (nn N) _ (fun p => dst1 (nn N) (fun p' =>
         dst1 (nn N) (fun q => A q p') m) p)).
      2:{ intros p Hp. apply dst1_comm. }
      rewrite dst1_involution by lia. rewrite Er. reflexivity. }
  rewrite dst1_scal, dst1_involution by lia. rewrite Er, Cmult_assoc, <- RtoC_mult.
  f_equal. f_equal. ring.
Qed.

(** ** eigenvalue table *)

Lemma tab_store_same : forall A i j v, tab_store A i j v i j = v.
Proof. intros. unfold tab_store. rewrite !Z.eqb_refl. reflexivity. Qed.

Lemma tab_store_other : forall A i j v i' j', (i', j') <> (i, j) ->
  tab_store A i j v i' j' = A i' j'.
Proof.
  intros A i j v i' j' H. unfold tab_store.
  destruct (Z.eqb_spec i' i), (Z.eqb_spec j' j); simpl; try reflexivity. congruence.
Qed.

Lemma eigenval_sym : forall N order L k j l, eigenval N order L k j l = eigenval N order L k l j.
Proof.
  intros. unfold eigenval. destruct (order =? 2)%Z; [|destruct (order =? 4)%Z].
  - f_equal. f_equal. ring.
  - f_equal. ring.
  - reflexivity.
Qed.

(** A store at (j-1,l-1) keeps the invariant "every entry already set equals
    the formula". *)
Lemma eig_row_spec : forall N order L k j ls tab (P : Z -> Z -> Prop),
  (forall a b, P a b -> tab (a - 1)%Z (b - 1)%Z = eigenval N order L k a b) ->
  forall a b, (P a b \/ (a = j /\ In b ls) \/ (b = j /\ In a ls)) ->
  fold_left (fun t l =>
    tab_store (tab_store t (j - 1) (l - 1) (eigenval N order L k j l))
      (l - 1) (j - 1) (eigenval N order L k j l)) ls tab (a - 1)%Z (b - 1)%Z =
  eigenval N order L k a b.
Proof.
  intros N order L k j ls. induction ls as [|l ls IH]; intros tab P HP a b H.
  - simpl. destruct H as [H|[[_ []]|[_ []]]]. apply HP; assumption.
  - simpl. apply (IH _ (fun a b => P a b \/ (a = j /\ b = l) \/ (b = j /\ a = l))).
    + clear a b H. intros a b H.
      destruct (Z.eq_dec a l) as [Ha|Ha]; [destruct (Z.eq_dec b j) as [Hb|Hb]|].
      * subst. rewrite tab_store_same. apply eigenval_sym.
      * rewrite tab_store_other by (intros E; injection E; lia).
        destruct (Z.eq_dec a j) as [Hj|Hj].
        -- destruct (Z.eq_dec b l) as [Hl|Hl]; [subst; rewrite tab_store_same; reflexivity|].
           rewrite tab_store_other by (intros E; injection E; lia).
           apply HP. intuition lia.
        -- rewrite tab_store_other by (intros E; injection E; lia).
           apply HP. intuition lia.
      * rewrite tab_store_other by (intros E; injection E; lia).
        destruct (Z.eq_dec a j) as [Hj|Hj].
        -- destruct (Z.eq_dec b l) as [Hl|Hl]; [subst; rewrite tab_store_same; reflexivity|].
           rewrite tab_store_other by (intros E; injection E; lia).
           apply HP. intuition lia.
        -- rewrite tab_store_other by (intros E; injection E; lia).
           apply HP. intuition lia.
    + destruct H as [H|[[H1 [H2|H2]]|[H1 [H2|H2]]]]; auto.
Qed.

Lemma eigenvals_spec : forall N order L k j l,
  (1 <= j < N)%Z -> (1 <= l < N)%Z ->
  eigenvals N order L k (j - 1)%Z (l - 1)%Z = eigenval N order L k j l.
Proof.
  intros N order L k j l Hj Hl. unfold eigenvals.
  assert (G : forall js tab (P : Z -> Z -> Prop),
    (forall a b, P a b -> tab (a - 1)%Z (b - 1)%Z = eigenval N order L k a b) ->
    forall a b, (P a b \/ (In a js /\ 1 <= b <= a)%Z \/ (In b js /\ 1 <= a <= b)%Z) ->
    fold_left (fun t j => eig_row N order L k j t) js tab (a - 1)%Z (b - 1)%Z =
    eigenval N order L k a b).
  { induction js as [|c js IH]; intros tab P HP a b H.
    - simpl. destruct H as [H|[[[] _]|[[] _]]]. apply HP; assumption.
    - simpl. apply (IH _ (fun a b => P a b \/ (a = c /\ (1 <= b <= c)%Z) \/
                                      (b = c /\ (1 <= a <= c)%Z))).
      + clear a b H. intros a b H. unfold eig_row. apply (eig_row_spec _ _ _ _ _ _ _ P HP).
        rewrite !py_range_in. intuition lia.
      + destruct H as [H|[[[H1|H1] H2]|[[H1|H1] H2]]]; subst; auto. }
  apply (G _ _ (fun _ _ => False)); [intros a b []|].
  rewrite !py_range_in. lia.
Qed.

(** ** solver *)

Lemma RtoC_neq : forall x, x <> 0 -> RtoC x <> RtoC 0.
Proof. intros x H E. apply RtoC_inj in E. contradiction. Qed.

(** Both directions act diagonally on the sine transform. *)
Lemma dst2_ap_fourier : forall N order L k A solve i j, (2 <= N)%Z -> L <> 0 ->
  (0 <= i < N - 1)%Z -> (0 <= j < N - 1)%Z ->
  dst2 N (ap_fourier N order L k A solve) i j =
  let e := RtoC (eigenval N order L k (i + 1) (j + 1)) in
  if solve then Cdiv (dst2 N A i j) e else Cmult (dst2 N A i j) e.
Proof.
  intros N order L k A solve i j HN HL Hi Hj.
  assert (HNr : IZR N <> 0) by (apply not_0_IZR; lia).
  assert (H2 : RtoC (2 * L ^ 2) <> RtoC 0).
  { apply RtoC_neq. apply Rmult_integral_contrapositive_currified; [lra|].
    apply pow_nonzero; assumption. }
  unfold ap_fourier.
  set (fc := fun i0 j0 : Z => if solve then _ else _).
  rewrite (dst2_ext N _ (fun i j => Cmult (Cinv (RtoC (2 * L ^ 2))) (dst2 N fc i j)))
    by (try assumption; intros ? ? ? ?; unfold Cdiv; ring).
  rewrite dst2_scal, dst2_involution by assumption.
  unfold fc.
  assert (Ee : eigenvals N order L k i j = eigenval N order L k (i + 1) (j + 1)).
  { replace i with (i + 1 - 1)%Z at 1 by lia. replace j with (j + 1 - 1)%Z at 1 by lia.
    apply eigenvals_spec; lia. }
  rewrite Ee.
  assert (Es : Cmult (Cinv (RtoC (2 * L ^ 2)))
            (Cmult (RtoC (4 * IZR N ^ 2)) (RtoC ((L / IZR N) ^ 2 / 2))) = RtoC 1).
  { rewrite <- RtoC_mult, <- RtoC_inv, <- RtoC_mult.
    - f_equal. field. auto.
    - intros E. apply H2. rewrite E. reflexivity. }
  destruct solve; cbv zeta.
  - unfold Cdiv.
    transitivity (Cmult (Cmult (Cinv (RtoC (2 * L ^ 2)))
            (Cmult (RtoC (4 * IZR N ^ 2)) (RtoC ((L / IZR N) ^ 2 / 2))))
       (Cmult (dst2 N A i j) (Cinv (RtoC (eigenval N order L k (i + 1) (j + 1)))))); [ring|].
    rewrite Es. ring.
  - transitivity (Cmult (Cmult (Cinv (RtoC (2 * L ^ 2)))
            (Cmult (RtoC (4 * IZR N ^ 2)) (RtoC ((L / IZR N) ^ 2 / 2))))
       (Cmult (dst2 N A i j) (RtoC (eigenval N order L k (i + 1) (j + 1))))); [ring|].
    rewrite Es. ring.
Qed.

Lemma dst2_injective : forall N A B, (2 <= N)%Z ->
  arr_eq N (dst2 N A) (dst2 N B) -> arr_eq N A B.
Proof.
  intros N A B HN H i j Hi Hj.
  assert (E : dst2 N (dst2 N A) i j = dst2 N (dst2 N B) i j)
    by (apply dst2_ext; assumption).
  rewrite !dst2_involution in E by assumption.
  assert (HNr : IZR N <> 0) by (apply not_0_IZR; lia).
  assert (H4 : RtoC (4 * IZR N ^ 2) <> RtoC 0).
  { apply RtoC_neq. apply Rmult_integral_contrapositive_currified; [lra|].
    apply pow_nonzero; assumption. }
  apply (f_equal (Cmult (Cinv (RtoC (4 * IZR N ^ 2))))) in E.
  rewrite !Cmult_assoc, !Cinv_l, !Cmult_1_l in E by assumption. exact E.
Qed.

Lemma ap_solve_apply_L : forall N order L k v, (2 <= N)%Z -> L <> 0 ->
  eig_nonzero N order L k ->
  arr_eq N (ap_solve N order L k (ap_apply_L N order L k v)) v.
Proof.
  intros N order L k v HN HL He. apply dst2_injective; [assumption|].
  intros i j Hi Hj. unfold ap_solve, ap_apply_L.
  rewrite !dst2_ap_fourier by assumption. cbv zeta iota.
  field. apply RtoC_neq. apply He; lia.
Qed.

Lemma ap_apply_L_solve : forall N order L k g, (2 <= N)%Z -> L <> 0 ->
  eig_nonzero N order L k ->
  arr_eq N (ap_apply_L N order L k (ap_solve N order L k g)) g.
Proof.
  intros N order L k v HN HL He. apply dst2_injective; [assumption|].
  intros i j Hi Hj. unfold ap_solve, ap_apply_L.
  rewrite !dst2_ap_fourier by assumption. cbv zeta iota.
  field. apply RtoC_neq. apply He; lia.
Qed.

Lemma ap_fourier_ext : forall N order L k A B solve, (2 <= N)%Z ->
  arr_eq N A B -> arr_eq N (ap_fourier N order L k A solve) (ap_fourier N order L k B solve).
Proof.
  intros N order L k A B solve HN H i j Hi Hj. unfold ap_fourier. f_equal.
  apply dst2_ext; try assumption. intros i' j' Hi' Hj'.
  rewrite (dst2_ext N A B HN H i' j' Hi' Hj'). reflexivity.
Qed.

Lemma ap_fourier_lin : forall N order L k c A B solve i j,
  ap_fourier N order L k (fun i j => Cplus (Cmult c (A i j)) (B i j)) solve i j =
  Cplus (Cmult c (ap_fourier N order L k A solve i j)) (ap_fourier N order L k B solve i j).
Proof.
  intros. unfold ap_fourier, Cdiv.
  match goal with |- Cmult (dst2 N ?f i j) ?d = Cplus (Cmult c (Cmult (dst2 N ?g i j) _)) (Cmult (dst2 N ?h i j) _) =>
    set (F := f); set (G := g); set (H := h) end.
  assert (E : dst2 N F i j = Cplus (Cmult c (dst2 N G i j)) (dst2 N H i j)).
  { rewrite <- dst2_scal, <- dst2_plus. unfold dst2 at 1 2.
    apply dst1_ext. intros m Hm. apply dst1_ext. intros p Hp.
    unfold F, G, H. destruct solve; rewrite dst2_plus, dst2_scal; ring. }
  rewrite E. ring.
Qed.

(** ** the spectral operator is the stencil *)

Lemma sn_recur : forall n j m,
  sin (PI * (INR j + 1) * (m + 1) / (INR n + 1)) + sin (PI * (INR j + 1) * (m - 1) / (INR n + 1))
  = 2 * cos (PI * (INR j + 1) / (INR n + 1)) * sin (PI * (INR j + 1) * m / (INR n + 1)).
Proof.
  intros n j m. pose proof (pos_INR n).
  set (A := PI * (INR j + 1) * m / (INR n + 1)).
  set (B := PI * (INR j + 1) / (INR n + 1)).
  replace (PI * (INR j + 1) * (m + 1) / (INR n + 1)) with (A + B) by (unfold A, B; field; lra).
  replace (PI * (INR j + 1) * (m - 1) / (INR n + 1)) with (A - B) by (unfold A, B; field; lra).
  rewrite sin_plus, sin_minus. ring.
Qed.

(** Sine mode j at node index i (nodes 0..N). *)
Definition mode (N : Z) (j : nat) (i : Z) : R := sin (PI * (INR j + 1) * IZR i / IZR N).

Lemma mode_0 : forall N j, mode N j 0 = 0.
Proof. intros. unfold mode. rewrite Rmult_0_r. unfold Rdiv. rewrite Rmult_0_l. apply sin_0. Qed.

Lemma mode_N : forall N j, (2 <= N)%Z -> mode N j N = 0.
Proof.
  intros N j HN. unfold mode. assert (IZR N <> 0) by (apply not_0_IZR; lia).
  replace (PI * (INR j + 1) * IZR N / IZR N) with (INR (S j) * PI)
    by (rewrite S_INR; field; assumption).
  apply sin_INR_PI.
Qed.

Lemma mode_recur : forall N j i, (2 <= N)%Z ->
  mode N j (i + 1) = 2 * cos (PI * (INR j + 1) / IZR N) * mode N j i - mode N j (i - 1).
Proof.
  intros N j i HN. unfold mode. rewrite plus_IZR, minus_IZR.
  assert (Er : IZR N = INR (nn N) + 1).
  { rewrite INR_IZR_INZ. unfold nn. rewrite Z2Nat.id by lia. rewrite minus_IZR. ring. }
  rewrite Er. pose proof (sn_recur (nn N) j (IZR i)). lra.
Qed.

(** Spectral representation of the padded array. *)
Lemma node_value_modes : forall N A i k, (2 <= N)%Z -> (0 <= i <= N)%Z -> (0 <= k <= N)%Z ->
  node_value N A i k =
  Cmult (RtoC (1 / IZR N ^ 2)) (csum (nn N) (fun m => csum (nn N) (fun p =>
    Cmult (dst2 N A (Z.of_nat m) (Z.of_nat p)) (RtoC (mode N m i * mode N p k))))).
Proof.
  intros N A i k HN Hi Hk.
  assert (HNr : IZR N <> 0) by (apply not_0_IZR; lia).
  assert (Er : INR (nn N) + 1 = IZR N).
  { rewrite INR_IZR_INZ. unfold nn. rewrite Z2Nat.id by lia. rewrite minus_IZR. ring. }
  assert (Zr : forall c, csum (nn N) (fun m => csum (nn N) (fun p =>
    Cmult (dst2 N A (Z.of_nat m) (Z.of_nat p)) (RtoC (c m p * 0)))) = RtoC 0).
  { intros c. rewrite (csum_ext _ _ (fun _ => RtoC 0)); [apply csum_zero|].
    intros m _. rewrite (csum_ext _ _ (fun _ => RtoC 0)); [apply csum_zero|].
    intros p _. rewrite Rmult_0_r. ring. }
  unfold node_value.
  destruct (Z.leb_spec 1 i) as [H1|H1]; simpl.
  2:{ assert (i = 0)%Z by lia. subst i. 
      rewrite (csum_ext _ _ (fun m => csum (nn N) (fun p =>
        Cmult (dst2 N A (Z.of_nat m) (Z.of_nat p)) (RtoC (mode N p k * 0))))).
      - rewrite (Zr (fun m p => mode N p k)). ring.
      - intros m _. apply csum_ext. intros p _. rewrite mode_0. f_equal. f_equal. ring. }
  destruct (Z.leb_spec i (N - 1)) as [H2|H2]; simpl.
  2:{ assert (i = N)%Z by lia. subst i.
      rewrite (csum_ext _ _ (fun m => csum (nn N) (fun p =>
        Cmult (dst2 N A (Z.of_nat m) (Z.of_nat p)) (RtoC (mode N p k * 0))))).
      - rewrite (Zr (fun m p => mode N p k)). ring.
      - intros m _. apply csum_ext. intros p _. rewrite mode_N by assumption.
        f_equal. f_equal. ring. }
  destruct (Z.leb_spec 1 k) as [H3|H3]; simpl.
  2:{ assert (k = 0)%Z by lia. subst k.
      rewrite (csum_ext _ _ (fun m => csum (nn N) (fun p =>
        Cmult (dst2 N A (Z.of_nat m) (Z.of_nat p)) (RtoC (mode N m i * 0))))).
      - rewrite (Zr (fun m p => mode N m i)). ring.
      - intros m _. apply csum_ext. intros p _. rewrite mode_0. reflexivity. }
  destruct (Z.leb_spec k (N - 1)) as [H4|H4]; simpl.
  2:{ assert (k = N)%Z by lia. subst k.
      rewrite (csum_ext _ _ (fun m => csum (nn N) (fun p =>
        Cmult (dst2 N A (Z.of_nat m) (Z.of_nat p)) (RtoC (mode N m i * 0))))).
      - rewrite (Zr (fun m p => mode N m i)). ring.
      - intros m _. apply csum_ext. intros p _. rewrite mode_N by assumption. reflexivity. }
  pose proof (dst2_involution N A (i - 1) (k - 1) HN ltac:(lia) ltac:(lia)) as E.
  set (i' := Z.to_nat (i - 1)). set (k' := Z.to_nat (k - 1)).
  replace (i - 1)%Z with (Z.of_nat i') in E |- * by (unfold i'; lia).
  replace (k - 1)%Z with (Z.of_nat k') in E |- * by (unfold k'; lia).
  rewrite dst2_sum in E.
  assert (E2 : csum (nn N) (fun m => csum (nn N) (fun p =>
      Cmult (dst2 N A (Z.of_nat m) (Z.of_nat p)) (RtoC (mode N m i * mode N p k)))) =
    Cmult (RtoC (IZR N ^ 2)) (A (Z.of_nat i') (Z.of_nat k'))).
  { transitivity (csum (nn N) (fun m => csum (nn N) (fun p =>
      Cmult (dst2 N A (Z.of_nat m) (Z.of_nat p)) (RtoC (sn (nn N) i' m * sn (nn N) k' p))))).
    - apply csum_ext. intros m _. apply csum_ext. intros p _. f_equal. f_equal.
      assert (Hsn : forall a b c, (1 <= c)%Z -> b = Z.to_nat (c - 1) ->
                 mode N a c = sn (nn N) b a).
      { intros a b c Hc ->. unfold mode, sn. rewrite Er.
        rewrite (INR_IZR_INZ (Z.to_nat (c - 1))), Z2Nat.id, minus_IZR by lia.
        f_equal. field. assumption. }
      rewrite (Hsn m i' i), (Hsn p k' k) by (try lia; reflexivity). reflexivity.
    - apply (f_equal (Cmult (RtoC (1 / 4)))) in E.
      rewrite !Cmult_assoc, <- !RtoC_mult in E.
      replace (1 / 4 * 4) with 1 in E by field.
      replace (1 / 4 * (4 * IZR N ^ 2)) with (IZR N ^ 2) in E by field.
      rewrite Cmult_1_l in E. exact E. }
  rewrite E2, Cmult_assoc, <- RtoC_mult.
  match goal with |- _ = Cmult (RtoC ?r) _ => replace r with 1 by (field; assumption) end.
  rewrite Cmult_1_l. reflexivity.
Qed.

(** Finite combination of products of modes. *)
Lemma lin_apply_L_csum : forall N order L k n (V : nat -> nat -> arr2) (a b : Z),
  lin_apply_L N order L k (fun i j => csum n (fun m => csum n (fun p => V m p i j))) a b =
  csum n (fun m => csum n (fun p => lin_apply_L N order L k (V m p) a b)).
Proof.
  assert (P : forall N order L k (u v : arr2) a b,
    lin_apply_L N order L k (fun i j => Cplus (u i j) (v i j)) a b =
    Cplus (lin_apply_L N order L k u a b) (lin_apply_L N order L k v a b)).
  { intros. unfold lin_apply_L. destruct (order =? 4)%Z; ring. }
  assert (Z0 : forall N order L k a b,
    lin_apply_L N order L k (fun _ _ => RtoC 0) a b = RtoC 0).
  { intros. unfold lin_apply_L. destruct (order =? 4)%Z; ring. }
  assert (S1 : forall N order L k n (V : nat -> arr2) a b,
    lin_apply_L N order L k (fun i j => csum n (fun m => V m i j)) a b =
    csum n (fun m => lin_apply_L N order L k (V m) a b)).
  { intros N order L k n V a b. induction n as [|n IH]; simpl; [apply Z0|].
    rewrite P, IH. reflexivity. }
  intros. rewrite S1. apply csum_ext. intros m _. apply S1.
Qed.

Lemma lin_apply_L_ext : forall N order L k (u v : arr2) a b,
  (forall i j, (a - 1 <= i <= a + 1)%Z -> (b - 1 <= j <= b + 1)%Z ->
     ((order =? 4)%Z = false -> i = a \/ j = b) -> u i j = v i j) ->
  lin_apply_L N order L k u a b = lin_apply_L N order L k v a b.
Proof.
  intros N order L k u v a b H. unfold lin_apply_L.
  destruct (order =? 4)%Z; repeat (rewrite H by (try lia; try discriminate; tauto)); try reflexivity.
Qed.

Lemma lin_apply_L_mode : forall N order L k m p c a b, (2 <= N)%Z -> L <> 0 ->
  (order = 2 \/ order = 4)%Z ->
  lin_apply_L N order L k
    (fun i j => Cmult c (RtoC (mode N m i * mode N p j))) a b =
  Cmult (RtoC (eigenval N order L k (Z.of_nat m + 1) (Z.of_nat p + 1)))
    (Cmult c (RtoC (mode N m a * mode N p b))).
Proof.
  intros N order L k m p c a b HN HL Ho.
  assert (HNr : IZR N <> 0) by (apply not_0_IZR; lia).
  unfold lin_apply_L, eigenval. rewrite !plus_IZR, <- !INR_IZR_INZ.
  rewrite (mode_recur N m a HN), (mode_recur N p b HN).
  set (cm := cos (PI * (INR m + 1) / IZR N)). set (cp := cos (PI * (INR p + 1) / IZR N)).
  set (x := mode N m a). set (x' := mode N m (a - 1)).
  set (y := mode N p b). set (y' := mode N p (b - 1)).
  set (h := L / IZR N).
  assert (Hh : h <> 0).
  { unfold h. apply Rmult_integral_contrapositive_currified; [assumption|].
    apply Rinv_neq_0_compat; assumption. }
  destruct Ho as [-> | ->]; simpl Z.eqb; cbv iota; destruct c as [cr ci];
    apply injective_projections; simpl; field; assumption.
Qed.

Lemma ap_apply_L_modes : forall N order L k A i j, (2 <= N)%Z -> L <> 0 ->
  (1 <= i <= N - 1)%Z -> (1 <= j <= N - 1)%Z ->
  ap_apply_L N order L k A (i - 1)%Z (j - 1)%Z =
  Cmult (RtoC (1 / IZR N ^ 2)) (csum (nn N) (fun m => csum (nn N) (fun p =>
    Cmult (RtoC (eigenval N order L k (Z.of_nat m + 1) (Z.of_nat p + 1)))
      (Cmult (dst2 N A (Z.of_nat m) (Z.of_nat p)) (RtoC (mode N m i * mode N p j)))))).
Proof.
  intros N order L k A i j HN HL Hi Hj.
  pose proof (node_value_modes N (ap_apply_L N order L k A) i j HN ltac:(lia) ltac:(lia)) as E.
  unfold node_value in E.
  replace (1 <=? i)%Z with true in E by (symmetry; apply Z.leb_le; lia).
  replace (i <=? N - 1)%Z with true in E by (symmetry; apply Z.leb_le; lia).
  replace (1 <=? j)%Z with true in E by (symmetry; apply Z.leb_le; lia).
  replace (j <=? N - 1)%Z with true in E by (symmetry; apply Z.leb_le; lia).
  simpl in E. rewrite E. f_equal. apply csum_ext. intros m Hm. apply csum_ext. intros p Hp.
  unfold ap_apply_L. unfold nn in *. rewrite dst2_ap_fourier by (try assumption; lia).
  cbv zeta iota. ring.
Qed.

Lemma ap_apply_L_is_stencil : forall N order L k A i j, (2 <= N)%Z -> L <> 0 ->
  (order = 2 \/ order = 4)%Z -> (1 <= i <= N - 1)%Z -> (1 <= j <= N - 1)%Z ->
  ap_apply_L N order L k A (i - 1)%Z (j - 1)%Z =
  lin_apply_L N order L k (node_value N A) i j.
Proof.
  intros N order L k A i j HN HL Ho Hi Hj.
  rewrite ap_apply_L_modes by assumption.
  rewrite (lin_apply_L_ext N order L k (node_value N A)
    (fun a b => csum (nn N) (fun m => csum (nn N) (fun p =>
       Cmult (Cmult (RtoC (1 / IZR N ^ 2)) (dst2 N A (Z.of_nat m) (Z.of_nat p)))
         (RtoC (mode N m a * mode N p b)))))).
  2:{ intros a b Ha Hb _. rewrite node_value_modes by lia.
      rewrite <- csum_scal. apply csum_ext. intros m _.
      rewrite <- csum_scal. apply csum_ext. intros p _. ring. }
  rewrite lin_apply_L_csum. rewrite <- csum_scal. apply csum_ext. intros m _.
  rewrite <- csum_scal. apply csum_ext. intros p _.
  rewrite lin_apply_L_mode by assumption. ring.
Qed.
