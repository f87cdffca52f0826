(** Smoothness of the functions v of the problems of runz.py away from the tip. *)
From Coq Require Import String ZArith List Reals Lia Lra FunctionalExtensionality.
From Coquelicot Require Import Coquelicot.
From Verif Require Import Model_Py Model_Domain Model_Abcoef Model_ZMethod Model_Problems Model_ZRun Model_Run Model_Program Model_ZProgram
  Spec_Fd Spec_PolarFD Spec_Problems Spec_Bessel Spec_OdeAcc Proof_Domain Proof_Bessel Proof_OdeSing.
Open Scope R_scope.

(** [f] has [n] continuous derivatives on the positive axis. *)
Fixpoint pcd (n : nat) (f : R -> R) : Prop :=
  match n with
  | O => forall t, 0 < t -> continuous f t
  | S m => exists f' : R -> R, (forall t, 0 < t -> is_derive f t (f' t)) /\ pcd m f'
  end.

Lemma pcd_ext : forall n f g, (forall t, 0 < t -> f t = g t) -> pcd n f -> pcd n g.
Proof.
  intros [|n] f g E; cbn [pcd].
  - intros H t Ht. apply (continuous_ext_loc g f t); [|apply H; exact Ht]. apply (filter_imp (fun u => 0 < u)); [exact E|]. apply locally_above; exact Ht.
  - intros (f' & H & K). exists f'. split; [|exact K]. intros t Ht. apply (is_derive_ext_loc f g); [|apply H; exact Ht].
    apply (filter_imp (fun u => 0 < u)); [exact E|]. apply locally_above; exact Ht.
Qed.

Lemma pcd_cont : forall n f, pcd n f -> forall t, 0 < t -> continuous f t.
Proof.
  intros [|n] f H t Ht; [apply H; exact Ht|]. destruct H as (f1 & H & _). apply (@ex_derive_continuous R_AbsRing R_NormedModule f t). exists (f1 t). apply H; exact Ht.
Qed.

Lemma pcd_pred : forall n f, pcd (S n) f -> pcd n f.
Proof.
  induction n as [|n IH]; intros f H.
  - intros t. apply (pcd_cont 1 f H).
  - destruct H as (f' & H & K). exists f'. split; [exact H|]. apply IH, K.
Qed.

Lemma pcd_const : forall n c, pcd n (fun _ => c).
Proof.
  induction n as [|n IH]; intros c; cbn [pcd].
  - intros t _. apply continuous_const.
  - exists (fun _ => 0). split; [|apply IH]. intros t _. apply (is_derive_const c).
Qed.

Lemma pcd_plus : forall n f g, pcd n f -> pcd n g -> pcd n (fun t => f t + g t).
Proof.
  induction n as [|n IH]; intros f g; cbn [pcd].
  - intros H K t Ht. apply (continuous_plus f g t (H t Ht) (K t Ht)).
  - intros (f' & H & H2) (g' & K & K2). exists (fun t => f' t + g' t). split; [|apply IH; assumption].
    intros t Ht. apply (is_derive_plus f g t (f' t) (g' t) (H t Ht) (K t Ht)).
Qed.

Lemma pcd_mult : forall n f g, pcd n f -> pcd n g -> pcd n (fun t => f t * g t).
Proof.
  induction n as [|n IH]; intros f g.
  - cbn [pcd]. intros H K t Ht. apply (continuous_mult f g t (H t Ht) (K t Ht)).
  - intros Hf Hg. pose proof (pcd_pred _ _ Hf) as Pf. pose proof (pcd_pred _ _ Hg) as Pg.
    destruct Hf as (f' & H & H2). destruct Hg as (g' & K & K2). exists (fun t => f' t * g t + f t * g' t). split.
    + intros t Ht. apply (is_derive_mult f g t (f' t) (g' t) (H t Ht) (K t Ht)). intros u v. apply Rmult_comm.
    + apply pcd_plus; apply IH; assumption.
Qed.

Lemma pcd_inv : forall n, pcd n (fun t => / t).
Proof.
  induction n as [|n IH].
  - intros t Ht. apply (@ex_derive_continuous R_AbsRing R_NormedModule Rinv). auto_derive. lra.
  - exists (fun t => -1 * (/ t * / t)). split; [|apply pcd_mult; [apply pcd_const|apply pcd_mult; exact IH]].
    intros t Ht. auto_derive; [lra|]. field. lra.
Qed.

(** The derivatives as one family. *)
Lemma pcd_family : forall n f, pcd n f -> exists F : nat -> R -> R, F 0%nat = f /\ (forall i, (i < n)%nat -> forall t, 0 < t -> is_derive (F i) t (F (S i) t)) /\
  forall i, (i <= n)%nat -> forall t, 0 < t -> continuous (F i) t.
Proof.
  induction n as [|n IH]; intros f H.
  - exists (fun _ => f). split; [reflexivity|]. split; [intros; lia|]. intros i _. exact H.
  - pose proof (pcd_cont _ _ H) as Hc. destruct H as (f' & H & K). destruct (IH f' K) as (F & F0 & FD & FC).
    exists (fun i => match i with O => f | S i => F i end). split; [reflexivity|]. split.
    + intros [|i] Hi; [rewrite F0; exact H|apply FD; lia].
    + intros [|i] Hi; [exact Hc|apply FC; lia].
Qed.

(** Solutions of Bessel's equation are smooth. *)
Lemma bessel_pcd : forall jv p (J1 J2 : R -> R), (forall x, 0 < x -> is_derive (jv p) x (J1 x) /\ is_derive J1 x (J2 x) /\
    x ^ 2 * J2 x + x * J1 x + (x ^ 2 - p ^ 2) * jv p x = 0) -> forall n, pcd n (jv p) /\ pcd n J1 /\ pcd n J2.
Proof.
  intros jv p J1 J2 H. assert (E : forall n, pcd n (jv p) -> pcd n J1 -> pcd n J2).
  { intros n K K1. apply (pcd_ext n (fun t => -1 * (/ t * J1 t) + (p ^ 2 * (/ t * / t) + -1) * jv p t)).
    - intros t Ht. destruct (H t Ht) as (_ & _ & Eq). apply Rmult_eq_reg_l with (t ^ 2); [|apply pow_nonzero; lra].
      replace (t ^ 2 * J2 t) with (- (t * J1 t) - (t ^ 2 - p ^ 2) * jv p t) by lra. field. lra.
    - apply pcd_plus; [apply pcd_mult; [apply pcd_const|apply pcd_mult; [apply pcd_inv|exact K1]]|].
      apply pcd_mult; [|exact K]. apply pcd_plus; [|apply pcd_const]. apply pcd_mult; [apply pcd_const|apply pcd_mult; apply pcd_inv]. }
  induction n as [|n (A & B & C)].
  - assert (K : pcd 0 (jv p)) by (intros t Ht; apply (@ex_derive_continuous R_AbsRing R_NormedModule (jv p) t); exists (J1 t); apply H; exact Ht).
    assert (K1 : pcd 0 J1) by (intros t Ht; apply (@ex_derive_continuous R_AbsRing R_NormedModule J1 t); exists (J2 t); apply H; exact Ht). auto.
  - assert (K : pcd (S n) (jv p)) by (exists J1; split; [intros t Ht; apply H; exact Ht|exact B]).
    assert (K1 : pcd (S n) J1) by (exists J2; split; [intros t Ht; apply H; exact Ht|exact C]). auto.
Qed.

(** A continuous family is bounded on an interval. *)
Lemma cont_bound : forall (f : R -> R) lo hi, lo <= hi -> (forall t, lo <= t <= hi -> continuous f t) -> exists M, 0 <= M /\ forall t, lo <= t <= hi -> Rabs (f t) <= M.
Proof.
  intros f lo hi Hle Hc.
  destruct (continuity_ab_maj (fun t => Rabs (f t)) lo hi Hle) as (x & Hx & _).
  { intros t Ht. apply continuity_pt_filterlim. apply (continuous_comp f Rabs); [apply Hc; exact Ht|]. apply continuous_Rabs. }
  exists (Rabs (f x)). split; [apply Rabs_pos|]. exact Hx.
Qed.

Lemma family_bound : forall n (F : nat -> R -> R) lo hi, lo <= hi -> (forall i, (i <= n)%nat -> forall t, lo <= t <= hi -> continuous (F i) t) ->
  exists M, 0 <= M /\ forall i, (i <= n)%nat -> forall t, lo <= t <= hi -> Rabs (F i t) <= M.
Proof.
  induction n as [|n IH]; intros F lo hi Hle Hc.
  - destruct (cont_bound (F 0%nat) lo hi Hle (Hc 0%nat ltac:(lia))) as (M & HM & B). exists M. split; [exact HM|]. intros i Hi. replace i with 0%nat by lia. exact B.
  - destruct (IH F lo hi Hle) as (M & HM & B); [intros i Hi; apply Hc; lia|].
    destruct (cont_bound (F (S n)) lo hi Hle (Hc (S n) ltac:(lia))) as (M' & HM' & B').
    exists (M + M'). split; [lra|]. intros i Hi t Ht. destruct (Nat.eq_dec i (S n)) as [->|Hne]; [specialize (B' t Ht); lra|].
    specialize (B i ltac:(lia) t Ht). lra.
Qed.

Definition off_axis (r th : R) : Prop := 0 < r.

(** [u] has partial derivatives up to order six for r > 0, solves the
    Helmholtz equation there and its derivatives are bounded on annuli. *)
Definition regular (k : R) (u : R -> R -> R) : Prop := exists U, partials 6 off_axis u U /\
  (forall r th, 0 < r -> polar_helmholtz k U r th = 0) /\
  forall lo hi, 0 < lo <= hi -> exists M, 0 <= M /\ forall i j, (i + j <= 6)%nat -> forall r th, lo <= r <= hi -> Rabs (U i j r th) <= M.

Definition sin_j (p c : R) (j : nat) (th : R) : R := p ^ j * sin (p * (th - c) + INR j * (PI / 2)).

Lemma sin_j_derive : forall p c j th, is_derive (sin_j p c j) th (sin_j p c (S j) th).
Proof.
  intros p c j th. unfold sin_j. auto_derive; [exact I|]. rewrite S_INR.
  replace (p * (th - c) + (INR j + 1) * (PI / 2)) with (PI / 2 + (p * (th - c) + INR j * (PI / 2))) by ring.
  replace (sin (PI / 2 + _)) with (cos (p * (th - c) + INR j * (PI / 2))) by apply cos_sin. unfold Rminus. simpl pow. ring.
Qed.

Lemma mode_regular : forall jv p k c, 0 < k -> bessel_like jv p -> regular k (fun r th => jv p (k * r) * sin (p * (th - c))).
Proof.
  intros jv p k c Hk (J1 & J2 & H). destruct (bessel_pcd jv p J1 J2 H 4) as (_ & _ & C). pose proof (bessel_pcd jv p J1 J2 H 0) as (Ca & Cb & _).
  destruct (pcd_family 4 J2 C) as (G & G0 & GD & GC).
  set (F := fun i => match i with O => jv p | S O => J1 | S (S i) => G i end).
  assert (FD : forall i, (i < 6)%nat -> forall t, 0 < t -> is_derive (F i) t (F (S i) t)).
  { intros [|[|i]] Hi t Ht; cbn [F]; [apply H; exact Ht|rewrite G0; apply H; exact Ht|apply GD; [lia|exact Ht]]. }
  assert (FC : forall i, (i <= 6)%nat -> forall t, 0 < t -> continuous (F i) t).
  { intros [|[|i]] Hi t Ht; cbn [F]; [apply Ca; exact Ht|apply Cb; exact Ht|apply GC; [lia|exact Ht]]. }
  exists (fun i j r th => k ^ i * F i (k * r) * sin_j p c j th). split; [|split].
  - split.
    { intros r th. cbn [F pow]. unfold sin_j. cbn [pow INR]. rewrite Rmult_0_l, Rplus_0_r. ring. }
    intros i j Hij r th Hr. red in Hr. assert (Hkr : 0 < k * r) by (apply Rmult_lt_0_compat; assumption). split.
    + pose proof (FD i ltac:(lia) (k * r) Hkr) as D.
      assert (D' : is_derive (fun t => F i (k * t)) r (k * F (S i) (k * r))).
      { apply (is_derive_comp (F i) (fun t => k * t) r (F (S i) (k * r)) k D). auto_derive; [exact I|ring]. }
      apply (is_derive_ext (fun t => k ^ i * sin_j p c j th * F i (k * t))); [intros t; match goal with |- @eq _ ?a ?b => change (@eq R a b) end; ring|].
      replace (k ^ S i * F (S i) (k * r) * sin_j p c j th) with (k ^ i * sin_j p c j th * (k * F (S i) (k * r))) by (simpl pow; ring).
      apply is_derive_scal. exact D'.
    + apply (is_derive_scal (sin_j p c j) th (k ^ i * F i (k * r)) (sin_j p c (S j) th)). apply sin_j_derive.
  - intros r th Hr. assert (Hkr : 0 < k * r) by (apply Rmult_lt_0_compat; assumption). destruct (H (k * r) Hkr) as (_ & _ & Eq).
    unfold polar_helmholtz. cbn [F]. rewrite G0. unfold sin_j.
    replace (sin (p * (th - c) + INR 2 * (PI / 2))) with (- sin (p * (th - c))).
    2:{ replace (p * (th - c) + INR 2 * (PI / 2)) with (p * (th - c) + PI) by (simpl; field). rewrite neg_sin. reflexivity. }
    cbn [INR pow]. rewrite Rmult_0_l, Rplus_0_r.
    transitivity (sin (p * (th - c)) / r ^ 2 * ((k * r) ^ 2 * J2 (k * r) + k * r * J1 (k * r) + ((k * r) ^ 2 - p ^ 2) * jv p (k * r))); [field; lra|].
    rewrite Eq. ring.
  - intros lo hi Hlo. destruct (family_bound 6 F (k * lo) (k * hi)) as (M & HM & B).
    { apply Rmult_le_compat_l; lra. }
    { intros i Hi t Ht. apply FC; [exact Hi|]. apply Rlt_le_trans with (k * lo); [apply Rmult_lt_0_compat; lra|lra]. }
    set (P := (1 + k) ^ 6 * (1 + Rabs p) ^ 6). pose proof (Rabs_pos p) as Hp.
    assert (HP : 0 <= P) by (apply Rmult_le_pos; apply pow_le; lra).
    exists (P * M). split; [apply Rmult_le_pos; assumption|]. intros i j Hij r th Hr.
    rewrite !Rabs_mult. rewrite (Rabs_pos_eq (k ^ i)) by (apply pow_le; lra).
    assert (A1 : k ^ i <= (1 + k) ^ 6).
    { apply Rle_trans with ((1 + k) ^ i); [apply pow_incr; lra|]. apply Rle_pow; [lra|lia]. }
    assert (A2 : Rabs (sin_j p c j th) <= (1 + Rabs p) ^ 6).
    { unfold sin_j. rewrite Rabs_mult, <- RPow_abs.
      assert (Rabs (sin (p * (th - c) + INR j * (PI / 2))) <= 1) by (apply Rabs_le; apply SIN_bound).
      assert (Q : Rabs p ^ j <= (1 + Rabs p) ^ 6).
      { apply Rle_trans with ((1 + Rabs p) ^ j); [apply pow_incr; lra|]. apply Rle_pow; [lra|lia]. }
      rewrite <- (Rmult_1_r ((1 + Rabs p) ^ 6)). apply Rmult_le_compat; [apply pow_le; lra|apply Rabs_pos|exact Q|assumption]. }
    assert (A3 : Rabs (F i (k * r)) <= M) by (apply B; [lia|split; apply Rmult_le_compat_l; lra]).
    unfold P. replace ((1 + k) ^ 6 * (1 + Rabs p) ^ 6 * M) with ((1 + k) ^ 6 * M * (1 + Rabs p) ^ 6) by ring.
    apply Rmult_le_compat; [apply Rmult_le_pos; [apply pow_le; lra|apply Rabs_pos]|apply Rabs_pos| |exact A2].
    apply Rmult_le_compat; [apply pow_le; lra|apply Rabs_pos|exact A1|exact A3].
Qed.

Lemma regular_plus : forall k u v, regular k u -> regular k v -> regular k (fun r th => u r th + v r th).
Proof.
  intros k u v (U & (U0 & UD) & UH & UB) (V & (V0 & VD) & VH & VB). exists (fun i j r th => U i j r th + V i j r th). split; [|split].
  - split; [intros; rewrite U0, V0; reflexivity|]. intros i j Hij r th Hr. destruct (UD i j Hij r th Hr) as [A1 A2]. destruct (VD i j Hij r th Hr) as [B1 B2].
    split; [apply (is_derive_plus (fun t => U i j t th) (fun t => V i j t th) r _ _ A1 B1)|apply (is_derive_plus (fun t => U i j r t) (fun t => V i j r t) th _ _ A2 B2)].
  - intros r th Hr. rewrite <- (Rplus_0_l 0). rewrite <- (UH r th Hr) at 1. rewrite <- (VH r th Hr). unfold polar_helmholtz. field. lra.
  - intros lo hi Hlo. destruct (UB lo hi Hlo) as (M & HM & B). destruct (VB lo hi Hlo) as (M' & HM' & B'). exists (M + M'). split; [lra|].
    intros i j Hij r th Hr. eapply Rle_trans; [apply Rabs_triang|]. apply Rplus_le_compat; auto.
Qed.

Lemma regular_ext : forall k u v, (forall r th, u r th = v r th) -> regular k u -> regular k v.
Proof. intros k u v E (U & (U0 & UD) & R). exists U. split; [|exact R]. split; [intros; rewrite U0; apply E|exact UD]. Qed.

(** The functions v of the problems. *)
Lemma sing_regular : forall jv gamma s, gamma_like gamma -> (forall p, 0 < p -> bessel_series jv gamma p) ->
  let p := sing_problem jv gamma s in regular (zp_k p) (zp_eval_v p).
Proof.
  intros jv gamma s Hg Hj p. pose proof (like1 jv gamma Hg Hj) as L1. pose proof (like3 jv gamma Hg Hj) as L3.
  assert (E : (0 + 1 / 2) * pizza_nu = pizza_nu / 2) by field.
  unfold p. destruct s; cbn [sing_problem zp_k zp_eval_v]; unfold ih_eval_v, quad_eval_v, smooth_k, quadratic_k; rewrite ?E.
  - apply mode_regular; [lra|exact L1].
  - apply mode_regular; [lra|exact L1].
  - apply regular_plus; apply mode_regular; try lra; assumption.
Qed.

(** v on the edges. *)
Lemma sing_edges_v : forall jv gamma s r, 0 < r -> let p := sing_problem jv gamma s in zp_phi2 p r = zp_eval_v p r (PI / 4) /\ zp_phi1 p r = zp_eval_v p r (2 * PI).
Proof.
  intros jv gamma s r Hr p. pose proof (nu_val) as Hn. pose proof PI_RGT_0 as HP.
  assert (E1 : (0 + 1 / 2) * pizza_nu * (2 * PI - pizza_a) = PI / 2) by (rewrite Hn; unfold pizza_a; field).
  assert (E2 : pizza_nu / 2 * (2 * PI - pizza_a) = PI / 2) by (rewrite Hn; unfold pizza_a; field).
  assert (E3 : 3 * pizza_nu / 2 * (pizza_a - 2 * PI) = - (3 * (PI / 2))) by (rewrite Hn; unfold pizza_a; field).
  assert (S3 : sin (- (3 * (PI / 2))) = 1) by (rewrite sin_antisym, sin_3PI2; ring).
  assert (Eb : forall A B : R, (if Rltb 0 r then A else B) = A) by (intros A B; destruct (Rltb_spec 0 r); [reflexivity|lra]).
  unfold p. change (PI / 4) with pizza_a. destruct s; cbn [sing_problem zp_phi1 zp_phi2 zp_eval_v]; unfold iz_phi2, iz_phi1, line_phi2, line_phi1, quad_phi1, quad_phi2, ih_eval_v, quad_eval_v; rewrite ?Eb, ?E1, ?E2, ?E3, ?S3.
  - split; [|reflexivity]. rewrite Rminus_diag_eq, Rmult_0_r, sin_0 by reflexivity. ring.
  - split; [rewrite Rminus_diag_eq, Rmult_0_r, sin_0 by reflexivity; ring|]. rewrite sin_PI2. ring.
  - split.
    + rewrite (Rminus_diag_eq pizza_a pizza_a eq_refl), Rmult_0_r, sin_0. ring.
    + rewrite (Rminus_diag_eq (2 * PI) (2 * PI) eq_refl), Rmult_0_r, sin_0, sin_PI2. ring.
Qed.
