(** Consistency of the compact nine-point scheme (C29). *)
From Coq Require Import Reals Lra Lia ZArith.
From Coquelicot Require Import Coquelicot.
From Verif Require Import Model_Grid Model_Linop Spec_Fd Proof_Taylor Lib_Csum Model_Fourier.
Open Scope R_scope.

(** Real residual of the scheme on a nine-point stencil. *)
Definition lap_residual (u fx fy : R -> R -> R) (x y h : R) : R :=
  let f := fun a b => fx a b + fy a b in
  (f x y + 1 / 12 * (dd (fun t => f t y) x h + dd (fun t => f x t) y h))
  - (1 / h ^ 2 * (dd (fun t => u t y) x h + dd (fun t => u x t) y h)
     + 1 / (6 * h ^ 2) * dd (fun s => dd (fun t => u t s) x h) y h).

Lemma triang4 : forall a b c d A B C D,
  Rabs a <= A -> Rabs b <= B -> Rabs c <= C -> Rabs d <= D ->
  Rabs (a + b + c + d) <= A + B + C + D.
Proof.
  intros. apply Rabs_le_between in H, H0, H1, H2. apply Rabs_le. lra.
Qed.

Lemma one_dim : forall (g : nat -> R -> R) x h M, 0 < h ->
  (forall i, (i < 6)%nat -> forall t, x - h <= t <= x + h -> is_derive (g i) t (g (S i) t)) ->
  (forall t, x - h <= t <= x + h -> Rabs (g 6%nat t) <= M) ->
  Rabs (g 2%nat x + 1 / 12 * dd (g 2%nat) x h - 1 / h ^ 2 * dd (g 0%nat) x h)
    <= (1 / 144 + 1 / 360) * M * h ^ 4.
Proof.
  intros g x h M Hh Hg HM.
  pose proof (dd_6 g x h M ltac:(lra) Hg HM) as H6.
  assert (H4 : Rabs (dd (g 2%nat) x h - h ^ 2 * g 4%nat x) <= M / 12 * h ^ 4).
  { apply (dd_4 (fun i => g (S (S i))) x h M ltac:(lra)); [intros i Hi; apply Hg; lia|exact HM]. }
  set (A := dd (g 0%nat) x h - h ^ 2 * g 2%nat x - h ^ 4 / 12 * g 4%nat x) in *.
  set (B := dd (g 2%nat) x h - h ^ 2 * g 4%nat x) in *.
  replace (g 2%nat x + 1 / 12 * dd (g 2%nat) x h - 1 / h ^ 2 * dd (g 0%nat) x h)
    with (B / 12 - A / h ^ 2) by (unfold A, B; field; lra).
  assert (HA : Rabs (A / h ^ 2) <= M / 360 * h ^ 4).
  { unfold Rdiv at 1. rewrite Rabs_mult, (Rabs_pos_eq (/ h ^ 2)).
    2:{ left. apply Rinv_0_lt_compat. apply pow_lt. lra. }
    apply (Rmult_le_reg_r (h ^ 2)); [apply pow_lt; lra|].
    rewrite Rmult_assoc, Rinv_l by (apply pow_nonzero; lra). lra. }
  apply Rabs_le_between in HA, H4. apply Rabs_le. lra.
Qed.

Lemma cross_term : forall (U : nat -> nat -> R -> R -> R) u x y h M, 0 < h ->
  partials 6 (box x h y h) u U -> top_bounded 6 M (box x h y h) U ->
  Rabs (dd (fun t => U 0%nat 2%nat t y - 1 / h ^ 2 * dd (U 0%nat 0%nat t) y h) x h)
    <= M / 12 * h ^ 4.
Proof.
  intros U u x y h M Hh [_ HU] HM.
  pose (G := fun i t => U i 2%nat t y - 1 / h ^ 2 * dd (U i 0%nat t) y h).
  replace (M / 12 * h ^ 4) with (M / 12 * h ^ 2 * h ^ 2) by ring.
  apply (dd_2 G x h (M / 12 * h ^ 2) ltac:(lra)).
  - intros i Hi t Ht. unfold G, dd.
    apply (is_derive_minus (V := R_NormedModule)).
    + apply (HU i 2%nat); [lia|]. split; lra.
    + apply (is_derive_scal (fun t => U i 0%nat t (y + h) - 2 * U i 0%nat t y + U i 0%nat t (y - h))).
      apply (is_derive_plus (V := R_NormedModule)).
      * apply (is_derive_minus (V := R_NormedModule)).
        -- apply (HU i 0%nat); [lia|]. split; lra.
        -- apply (is_derive_scal (fun t => U i 0%nat t y)). apply (HU i 0%nat); [lia|]. split; lra.
      * apply (HU i 0%nat); [lia|]. split; lra.
  - intros t Ht. unfold G.
    assert (H4 : Rabs (dd (U 2%nat 0%nat t) y h - h ^ 2 * U 2%nat 2%nat t y) <= M / 12 * h ^ 4).
    { apply (dd_4 (fun j => U 2%nat j t) y h M ltac:(lra)).
      - intros j Hj s Hs. apply (HU 2%nat j); [lia|]. split; lra.
      - intros s Hs. apply (HM 2%nat 4%nat); [reflexivity|]. split; lra. }
    set (A := dd (U 2%nat 0%nat t) y h - h ^ 2 * U 2%nat 2%nat t y) in *.
    replace (U 2%nat 2%nat t y - 1 / h ^ 2 * dd (U 2%nat 0%nat t) y h) with (- (A / h ^ 2))
      by (unfold A; field; lra).
    rewrite Rabs_Ropp. unfold Rdiv at 1. rewrite Rabs_mult, (Rabs_pos_eq (/ h ^ 2)).
    2:{ left. apply Rinv_0_lt_compat. apply pow_lt. lra. }
    apply (Rmult_le_reg_r (h ^ 2)); [apply pow_lt; lra|].
    rewrite Rmult_assoc, Rinv_l by (apply pow_nonzero; lra). lra.
Qed.

Lemma partials_swap : forall n x h y U u,
  partials n (box x h y h) u U ->
  partials n (box y h x h) (fun a b => u b a) (fun i j a b => U j i b a).
Proof.
  intros n x h y U u [H0 HU]. split; [intros; apply H0|].
  intros i j Hij a b [Ha Hb].
  destruct (HU j i ltac:(lia) b a (conj Hb Ha)) as [H1 H2]. split; assumption.
Qed.

Lemma lap_residual_bound : forall U u x y h M, 0 < h ->
  partials 6 (box x h y h) u U -> top_bounded 6 M (box x h y h) U ->
  Rabs (lap_residual u (U 2%nat 0%nat) (U 0%nat 2%nat) x y h) <= M * h ^ 4 / 30.
Proof.
  intros U u x y h M Hh HP HM. pose proof HP as [H0 HU].
  assert (Hx : Rabs (U 2%nat 0%nat x y + 1 / 12 * dd (fun t => U 2%nat 0%nat t y) x h
      - 1 / h ^ 2 * dd (fun t => U 0%nat 0%nat t y) x h) <= (1 / 144 + 1 / 360) * M * h ^ 4).
  { apply (one_dim (fun i t => U i 0%nat t y) x h M Hh).
    - intros i Hi t Ht. apply (HU i 0%nat); [lia|]. split; lra.
    - intros t Ht. apply (HM 6%nat 0%nat); [reflexivity|]. split; lra. }
  assert (Hy : Rabs (U 0%nat 2%nat x y + 1 / 12 * dd (U 0%nat 2%nat x) y h
      - 1 / h ^ 2 * dd (U 0%nat 0%nat x) y h) <= (1 / 144 + 1 / 360) * M * h ^ 4).
  { apply (one_dim (fun i t => U 0%nat i x t) y h M Hh).
    - intros i Hi t Ht. apply (HU 0%nat i); [lia|]. split; lra.
    - intros t Ht. apply (HM 0%nat 6%nat); [reflexivity|]. split; lra. }
  pose proof (cross_term U u x y h M Hh HP HM) as Hc.
  assert (Hd : Rabs (dd (fun t => U 2%nat 0%nat x t
      - 1 / h ^ 2 * dd (fun s => U 0%nat 0%nat s t) x h) y h) <= M / 12 * h ^ 4).
  { apply (cross_term (fun i j a b => U j i b a) (fun a b => u b a) y x h M Hh).
    - apply partials_swap, HP.
    - intros i j Hij a b [Ha Hb]. apply (HM j i); [lia|]. split; assumption. }
  replace (lap_residual u (U 2%nat 0%nat) (U 0%nat 2%nat) x y h) with
   ((U 2%nat 0%nat x y + 1 / 12 * dd (fun t => U 2%nat 0%nat t y) x h
      - 1 / h ^ 2 * dd (fun t => U 0%nat 0%nat t y) x h)
   + (U 0%nat 2%nat x y + 1 / 12 * dd (U 0%nat 2%nat x) y h
      - 1 / h ^ 2 * dd (U 0%nat 0%nat x) y h)
   + 1 / 12 * dd (fun t => U 0%nat 2%nat t y - 1 / h ^ 2 * dd (U 0%nat 0%nat t) y h) x h
   + 1 / 12 * dd (fun t => U 2%nat 0%nat x t - 1 / h ^ 2 * dd (fun s => U 0%nat 0%nat s t) x h) y h).
  2:{ unfold lap_residual, dd. rewrite !H0. field. lra. }
  apply Rabs_le_between in Hx, Hy, Hc, Hd. apply Rabs_le. lra.
Qed.

Lemma coord_step : forall L N i j, (0 < N)%Z ->
  fst (get_coord L N (i + 1) j) = fst (get_coord L N i j) + L / IZR N /\
  fst (get_coord L N (i - 1) j) = fst (get_coord L N i j) - L / IZR N /\
  snd (get_coord L N i (j + 1)) = snd (get_coord L N i j) + L / IZR N /\
  snd (get_coord L N i (j - 1)) = snd (get_coord L N i j) - L / IZR N.
Proof.
  intros L N i j HN. assert (IZR N <> 0) by (apply not_0_IZR; lia).
  unfold get_coord; cbn [fst snd]. rewrite !plus_IZR, !minus_IZR.
  repeat split; field; assumption.
Qed.


Lemma residual_parts : forall L N k i j ur ui frx fry fix_ fiy, 0 < L -> (0 < N)%Z ->
  let x := fst (get_coord L N i j) in let y := snd (get_coord L N i j) in
  let h := L / IZR N in
  Cminus (lin_apply_B (sampled L N (fun a b => frx a b + fry a b + k ^ 2 * ur a b)
                                   (fun a b => fix_ a b + fiy a b + k ^ 2 * ui a b)) i j)
         (lin_apply_L N 4 L k (sampled L N ur ui) i j)
  = (lap_residual ur frx fry x y h, lap_residual ui fix_ fiy x y h).
Proof.
  intros L N k i j ur ui frx fry fix_ fiy HL HN x y h.
  assert (HN0 : 0 < IZR N) by (apply IZR_lt; lia).
  assert (Hh : 0 < h) by (unfold h; apply Rdiv_lt_0_compat; assumption).
  unfold lin_apply_B, lin_apply_L. rewrite Z.eqb_refl. unfold sampled.
  destruct (coord_step L N i j HN) as (E1 & E2 & E3 & E4).
  assert (F1 : forall q p, fst (get_coord L N p q) = fst (get_coord L N p j)) by reflexivity.
  assert (F2 : forall q p, snd (get_coord L N p q) = snd (get_coord L N i q)) by reflexivity.
  rewrite (F1 (j + 1)%Z), (F1 (j - 1)%Z), (F2 j (i + 1)%Z), (F2 j (i - 1)%Z).
  rewrite (F1 (j + 1)%Z (i + 1)%Z), (F1 (j - 1)%Z (i + 1)%Z),
          (F1 (j + 1)%Z (i - 1)%Z), (F1 (j - 1)%Z (i - 1)%Z).
  rewrite (F2 (j + 1)%Z (i + 1)%Z), (F2 (j - 1)%Z (i + 1)%Z),
          (F2 (j + 1)%Z (i - 1)%Z), (F2 (j - 1)%Z (i - 1)%Z).
  rewrite E1, E2, E3, E4. fold x y h.
  unfold lap_residual, dd.
  cbv [Cminus Cplus Copp Cmult RtoC fst snd].
  apply injective_projections; cbn [fst snd]; field; lra.
Qed.

Lemma Cmod_le_sum : forall a b, Cmod (a, b) <= Rabs a + Rabs b.
Proof.
  intros a b. unfold Cmod. cbn [fst snd].
  pose proof (Rabs_pos a). pose proof (Rabs_pos b).
  rewrite <- (sqrt_square (Rabs a + Rabs b)) by lra.
  apply sqrt_le_1_alt. rewrite <- (pow2_abs a), <- (pow2_abs b). nra.
Qed.

Lemma consistency : forall L N k i j ur ui Ur Ui M, 0 < L -> (0 < N)%Z ->
  let x := fst (get_coord L N i j) in let y := snd (get_coord L N i j) in
  let h := L / IZR N in
  partials 6 (box x h y h) ur Ur -> partials 6 (box x h y h) ui Ui ->
  top_bounded 6 M (box x h y h) Ur -> top_bounded 6 M (box x h y h) Ui ->
  Cmod (Cminus
    (lin_apply_B (sampled L N
       (fun a b => Ur 2%nat 0%nat a b + Ur 0%nat 2%nat a b + k ^ 2 * ur a b)
       (fun a b => Ui 2%nat 0%nat a b + Ui 0%nat 2%nat a b + k ^ 2 * ui a b)) i j)
    (lin_apply_L N 4 L k (sampled L N ur ui) i j)) <= M * h ^ 4 / 15.
Proof.
  intros L N k i j ur ui Ur Ui M HL HN x y h Pr Pi Br Bi.
  assert (HN0 : 0 < IZR N) by (apply IZR_lt; lia).
  assert (Hh : 0 < h) by (unfold h; apply Rdiv_lt_0_compat; assumption).
  rewrite residual_parts by assumption. fold x y h.
  eapply Rle_trans; [apply Cmod_le_sum|].
  pose proof (lap_residual_bound Ur ur x y h M Hh Pr Br).
  pose proof (lap_residual_bound Ui ui x y h M Hh Pi Bi). lra.
Qed.

(** Polynomials in two variables. *)
Fixpoint fall (n a : nat) : R :=
  match a with O => 1 | S a' => fall n a' * INR (n - a') end.
Definition mon (n a : nat) (x : R) : R := fall n a * x ^ (n - a).

Lemma mon_derive : forall n a x, is_derive (mon n a) x (mon n (S a) x).
Proof.
  intros n a x. unfold mon. cbn [fall].
  replace (fall n a * INR (n - a) * x ^ (n - S a))
    with (fall n a * (INR (n - a) * x ^ (n - S a))) by ring.
  apply (is_derive_scal (fun t => t ^ (n - a))).
  pose proof (is_derive_pow (fun s => s) (n - a) x 1 (is_derive_id x)) as Hd.
  replace (pred (n - a)) with (n - S a)%nat in Hd by lia.
  rewrite Rmult_1_r in Hd. exact Hd.
Qed.

Lemma mon_0 : forall n x, mon n 0 x = x ^ n.
Proof. intros. unfold mon. cbn [fall]. rewrite Nat.sub_0_r. ring. Qed.

Lemma fall_zero : forall a n, (n < a)%nat -> fall n a = 0.
Proof.
  induction a as [|a IH]; intros n H; [lia|]. cbn [fall].
  destruct (Nat.eq_dec n a) as [->|].
  - rewrite Nat.sub_diag. simpl. ring.
  - rewrite IH by lia. ring.
Qed.
Lemma mon_zero : forall n a x, (n < a)%nat -> mon n a x = 0.
Proof. intros n a x H. unfold mon. rewrite fall_zero by exact H. ring. Qed.

Definition poly2_d (d : nat) (c : nat -> nat -> R) (a b : nat) (x y : R) : R :=
  rsum (S d) (fun i => rsum (S (d - i)) (fun j => c i j * mon i a x * mon j b y)).

Lemma rsum_is_derive : forall n (f f' : nat -> R -> R) x,
  (forall m, (m < n)%nat -> is_derive (f m) x (f' m x)) ->
  is_derive (fun t => rsum n (fun m => f m t)) x (rsum n (fun m => f' m x)).
Proof.
  induction n as [|n IH]; intros f f' x H; cbn [rsum].
  - apply (is_derive_const (V := R_NormedModule) 0).
  - apply (is_derive_plus (V := R_NormedModule)); [apply IH; intros; apply H; lia|apply H; lia].
Qed.

Lemma poly2_partials : forall n D d c, partials n D (poly2 d c) (poly2_d d c).
Proof.
  intros n D d c. split.
  - intros x y. unfold poly2, poly2_d. apply rsum_ext. intros i Hi. apply rsum_ext.
    intros j Hj. rewrite !mon_0. reflexivity.
  - intros a b _ x y _. unfold poly2_d. split.
    + apply (rsum_is_derive (S d) (fun i t => rsum (S (d - i)) (fun j => c i j * mon i a t * mon j b y))
        (fun i t => rsum (S (d - i)) (fun j => c i j * mon i (S a) t * mon j b y))).
      intros i Hi.
      apply (rsum_is_derive (S (d - i)) (fun j t => c i j * mon i a t * mon j b y)
        (fun j t => c i j * mon i (S a) t * mon j b y)).
      intros j Hj.
      apply (is_derive_ext (fun t => (c i j * mon j b y) * mon i a t)); [intros t; change (c i j * mon j b y * mon i a t = c i j * mon i a t * mon j b y); ring|].
      replace (c i j * mon i (S a) x * mon j b y) with ((c i j * mon j b y) * mon i (S a) x) by ring.
      apply (is_derive_scal (mon i a)). apply mon_derive.
    + apply (rsum_is_derive (S d) (fun i t => rsum (S (d - i)) (fun j => c i j * mon i a x * mon j b t))
        (fun i t => rsum (S (d - i)) (fun j => c i j * mon i a x * mon j (S b) t))).
      intros i Hi.
      apply (rsum_is_derive (S (d - i)) (fun j t => c i j * mon i a x * mon j b t)
        (fun j t => c i j * mon i a x * mon j (S b) t)).
      intros j Hj.
      apply (is_derive_scal (mon j b)). apply mon_derive.
Qed.

Lemma poly2_top : forall d c a b x y, (d < a + b)%nat -> poly2_d d c a b x y = 0.
Proof.
  intros d c a b x y H. unfold poly2_d.
  transitivity (rsum (S d) (fun _ => 0)); [|rewrite rsum_const; ring].
  apply rsum_ext. intros i Hi.
  transitivity (rsum (S (d - i)) (fun _ => 0)); [|rewrite rsum_const; ring].
  apply rsum_ext. intros j Hj.
  destruct (le_lt_dec a i).
  - rewrite (mon_zero j b) by lia. ring.
  - rewrite (mon_zero i a) by lia. ring.
Qed.

Lemma exact_quintic : forall L N k i j cr ci, 0 < L -> (0 < N)%Z ->
  lin_apply_L N 4 L k (sampled L N (poly2 5 cr) (poly2 5 ci)) i j =
  lin_apply_B (sampled L N
    (fun a b => Derive_n (fun t => poly2 5 cr t b) 2 a + Derive_n (fun t => poly2 5 cr a t) 2 b
       + k ^ 2 * poly2 5 cr a b)
    (fun a b => Derive_n (fun t => poly2 5 ci t b) 2 a + Derive_n (fun t => poly2 5 ci a t) 2 b
       + k ^ 2 * poly2 5 ci a b)) i j.
Proof.
  intros L N k i j cr ci HL HN.
  pose (D := fun _ _ : R => True).
  assert (Dx : forall c a b, Derive_n (fun t => poly2 5 c t b) 2 a = poly2_d 5 c 2 0 a b).
  { intros c a b. destruct (poly2_partials 6 D 5 c) as [H0 HP]. cbn [Derive_n].
    rewrite (Derive_ext (Derive (fun t => poly2 5 c t b)) (fun t => poly2_d 5 c 1 0 t b)).
    - apply is_derive_unique. apply (HP 1%nat 0%nat); [lia|exact I].
    - intros t. rewrite (Derive_ext _ (fun s => poly2_d 5 c 0 0 s b)) by (intros; symmetry; apply H0).
      apply is_derive_unique. apply (HP 0%nat 0%nat); [lia|exact I]. }
  assert (Dy : forall c a b, Derive_n (fun t => poly2 5 c a t) 2 b = poly2_d 5 c 0 2 a b).
  { intros c a b. destruct (poly2_partials 6 D 5 c) as [H0 HP]. cbn [Derive_n].
    rewrite (Derive_ext (Derive (fun t => poly2 5 c a t)) (fun t => poly2_d 5 c 0 1 a t)).
    - apply is_derive_unique. apply (HP 0%nat 1%nat); [lia|exact I].
    - intros t. rewrite (Derive_ext _ (fun s => poly2_d 5 c 0 0 a s)) by (intros; symmetry; apply H0).
      apply is_derive_unique. apply (HP 0%nat 0%nat); [lia|exact I]. }
  set (F := sampled L N (fun a b => poly2_d 5 cr 2 0 a b + poly2_d 5 cr 0 2 a b + k ^ 2 * poly2 5 cr a b)
    (fun a b => poly2_d 5 ci 2 0 a b + poly2_d 5 ci 0 2 a b + k ^ 2 * poly2 5 ci a b)).
  transitivity (lin_apply_B F i j).
  - pose proof (consistency L N k i j (poly2 5 cr) (poly2 5 ci) (poly2_d 5 cr) (poly2_d 5 ci) 0 HL HN
      (poly2_partials _ _ _ _) (poly2_partials _ _ _ _)) as H.
    cbv zeta in H. fold F in H.
    assert (Hm : Cmod (Cminus (lin_apply_B F i j)
        (lin_apply_L N 4 L k (sampled L N (poly2 5 cr) (poly2 5 ci)) i j)) <= 0).
    { eapply Rle_trans; [apply H|lra];
        (intros a b Hab x y _; rewrite poly2_top by lia; rewrite Rabs_R0; lra). }
    pose proof (Cmod_ge_0 (Cminus (lin_apply_B F i j)
        (lin_apply_L N 4 L k (sampled L N (poly2 5 cr) (poly2 5 ci)) i j))) as Hp.
    pose proof (Cmod_eq_0 _ (Rle_antisym _ _ Hm Hp)) as E.
    transitivity (Cplus (lin_apply_L N 4 L k (sampled L N (poly2 5 cr) (poly2 5 ci)) i j) (RtoC 0)).
    + ring.
    + rewrite <- E. ring.
  - unfold lin_apply_B, F, sampled. rewrite !Dx, !Dy. reflexivity.
Qed.
