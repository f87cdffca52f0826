(** A least-squares solver for matrices of any rank, for the examples: the
    columns are orthogonalised one after the other. *)
From Coq Require Import Arith List Reals Lia Lra.
From Coquelicot Require Import Complex.
From Verif Require Import Model_Fourier Lib_Csum Spec_Abcoef Proof_Abcoef.
Open Scope R_scope.

Definition cdot (n : nat) (f g : nat -> C) : C := csum n (fun i => Cmult (Cconj (f i)) (g i)).

Fixpoint gs_lstsq (n m : nat) (W : nat -> nat -> C) (y : nat -> C) : nat -> C :=
  match m with
  | O => fun _ => RtoC 0
  | S m' =>
    let g := gs_lstsq n m' W (fun i => W i m') in
    let q := fun i => Cminus (W i m') (mat_app m' W g i) in
    let x := gs_lstsq n m' W y in
    let c := if Req_EM_T (rsum n (fun i => nrm2 (q i))) 0 then RtoC 0
             else Cdiv (cdot n q y) (RtoC (rsum n (fun i => nrm2 (q i)))) in
    fun j => if Nat.eqb j m' then c else Cminus (x j) (Cmult c (g j))
  end.

Lemma cdot_lin : forall n f g h c, cdot n f (fun i => Cminus (g i) (Cmult c (h i))) = Cminus (cdot n f g) (Cmult c (cdot n f h)).
Proof.
  intros. unfold cdot. rewrite (csum_ext n _ (fun i => Cplus (Cmult (Cconj (f i)) (g i)) (Cmult (Copp c) (Cmult (Cconj (f i)) (h i))))).
  - rewrite csum_plus, csum_scal. ring.
  - intros i _. ring.
Qed.

Lemma cconj_csum : forall n f, Cconj (csum n f) = csum n (fun i => Cconj (f i)).
Proof.
  induction n as [|n IH]; intros f; simpl; [apply injective_projections; cbn; ring|].
  rewrite <- IH. apply injective_projections; cbn; ring.
Qed.

Lemma cdot_conj : forall n f g, cdot n g f = Cconj (cdot n f g).
Proof.
  intros. unfold cdot. rewrite cconj_csum. apply csum_ext. intros i _. destruct (f i), (g i). apply injective_projections; cbn; ring.
Qed.

Lemma cdot_self : forall n f, cdot n f f = RtoC (rsum n (fun i => nrm2 (f i))).
Proof.
  intros. rewrite <- csum_RtoC. apply csum_ext. intros i _. destruct (f i). unfold nrm2; apply injective_projections; cbn; ring.
Qed.

Lemma cdot_mat : forall n m W x f, (forall j, (j < m)%nat -> cdot n (fun i => W i j) f = RtoC 0) -> cdot n (mat_app m W x) f = RtoC 0.
Proof.
  intros n m W x f H. rewrite cdot_conj. unfold cdot, mat_app.
  rewrite (csum_ext n _ (fun i => csum m (fun j => Cmult (x j) (Cmult (Cconj (f i)) (W i j))))).
  - rewrite csum_swap. rewrite (csum_ext m _ (fun _ => RtoC 0)).
    + rewrite csum_zero. apply injective_projections; cbn; ring.
    + intros j Hj. rewrite csum_scal. fold (cdot n f (fun i => W i j)). rewrite cdot_conj, (H j Hj).
      apply injective_projections; cbn; ring.
  - intros i _. rewrite <- csum_scal. apply csum_ext. intros j _. ring.
Qed.

Lemma nrm2_zero : forall z, nrm2 z = 0 -> z = RtoC 0.
Proof. intros [a b] H. unfold nrm2 in H. cbn in H. unfold RtoC. f_equal; nra. Qed.

Lemma nrm2_pos : forall z, 0 <= nrm2 z.
Proof. intros [a b]. unfold nrm2. cbn. nra. Qed.

Lemma sum_nrm2_zero : forall n q, rsum n (fun i => nrm2 (q i)) = 0 -> forall i, (i < n)%nat -> q i = RtoC 0.
Proof.
  induction n as [|n IH]; intros q H i Hi; [lia|]. cbn in H.
  assert (0 <= rsum n (fun i => nrm2 (q i))).
  { rewrite <- (Rmult_0_r (INR n)), <- rsum_const. apply rsum_le. intros. apply nrm2_pos. }
  pose proof (nrm2_pos (q n)). destruct (Nat.eq_dec i n) as [->|].
  - apply nrm2_zero. lra.
  - apply IH; [lra|lia].
Qed.

Lemma gs_normal : forall n m W y j, (j < m)%nat ->
  cdot n (fun i => W i j) (fun i => Cminus (y i) (mat_app m W (gs_lstsq n m W y) i)) = RtoC 0.
Proof.
  intros n m W. induction m as [|m IH]; intros y j Hj; [lia|].
  set (g := gs_lstsq n m W (fun i => W i m)). set (q := fun i => Cminus (W i m) (mat_app m W g i)).
  set (x := gs_lstsq n m W y). set (S0 := rsum n (fun i => nrm2 (q i))).
  set (c := if Req_EM_T S0 0 then RtoC 0 else Cdiv (cdot n q y) (RtoC S0)).
  set (r' := fun i => Cminus (y i) (mat_app m W x i)).
  assert (Er : forall i, Cminus (y i) (mat_app (S m) W (gs_lstsq n (S m) W y) i) = Cminus (r' i) (Cmult c (q i))).
  { intros i. change (gs_lstsq n (S m) W y) with (fun j => if Nat.eqb j m then c else Cminus (x j) (Cmult c (g j))).
    unfold mat_app at 1. cbn [csum]. rewrite Nat.eqb_refl. clearbody c.
    rewrite (csum_ext m _ (fun l => Cplus (Cmult (W i l) (x l)) (Cmult (Copp c) (Cmult (W i l) (g l))))).
    - rewrite csum_plus, csum_scal. unfold r', q, mat_app. ring.
    - intros l Hl. destruct (Nat.eqb_spec l m); [lia|]. ring. }
  assert (Eq : cdot n (fun i => W i j) (fun i => Cminus (y i) (mat_app (S m) W (gs_lstsq n (S m) W y) i)) =
    Cminus (cdot n (fun i => W i j) r') (Cmult c (cdot n (fun i => W i j) q))).
  { rewrite <- cdot_lin. unfold cdot. apply csum_ext. intros i _. rewrite Er. reflexivity. }
  rewrite Eq. destruct (Nat.eq_dec j m) as [->|].
  2: { change (cdot n (fun i => W i j) r') with (cdot n (fun i => W i j) (fun i => Cminus (y i) (mat_app m W (gs_lstsq n m W y) i))).
       change (cdot n (fun i => W i j) q) with (cdot n (fun i => W i j) (fun i => Cminus ((fun i => W i m) i) (mat_app m W (gs_lstsq n m W (fun i => W i m)) i))).
       rewrite !IH by lia. ring. }
  assert (Ew : forall f, (forall j, (j < m)%nat -> cdot n (fun i => W i j) f = RtoC 0) -> cdot n (fun i => W i m) f = cdot n q f).
  { intros f Hf. pose proof (cdot_mat n m W g f Hf) as H0. transitivity (Cplus (cdot n q f) (cdot n (mat_app m W g) f)); [|rewrite H0; ring].
    unfold cdot. rewrite <- csum_plus. apply csum_ext. intros i _. unfold q. destruct (W i m), (mat_app m W g i), (f i).
    apply injective_projections; cbn; ring. }
  rewrite (Ew r') by (intros l Hl; apply IH; exact Hl). rewrite (Ew q) by (intros l Hl; apply IH; exact Hl).
  rewrite cdot_self. fold S0.
  assert (Ey : cdot n q r' = cdot n q y).
  { assert (H0 : cdot n q (mat_app m W x) = RtoC 0).
    { rewrite cdot_conj. rewrite cdot_mat by (intros l Hl; apply IH; exact Hl). apply injective_projections; cbn; ring. }
    transitivity (Cminus (cdot n q y) (Cmult (RtoC 1) (cdot n q (mat_app m W x)))); [|rewrite H0; ring].
    rewrite <- cdot_lin. unfold cdot. apply csum_ext. intros i _. unfold r'. ring. }
  rewrite Ey. unfold c. destruct (Req_EM_T S0 0) as [E|E].
  - rewrite E. transitivity (cdot n q y); [ring|]. unfold cdot. rewrite (csum_ext n _ (fun _ => RtoC 0)); [apply csum_zero|].
    intros i Hi. rewrite (sum_nrm2_zero n q E i Hi). apply injective_projections; cbn; ring.
  - field. intros F. apply RtoC_inj in F. contradiction.
Qed.

Theorem gs_least_squares : forall n m W y, least_squares n m W y (gs_lstsq n m W y).
Proof.
  intros n m W y x'. set (x := gs_lstsq n m W y). unfold lsq_error.
  set (r := fun i => Cminus (y i) (mat_app m W x i)). set (d := fun j => Cminus (x' j) (x j)).
  assert (E : forall i, Cminus (mat_app m W x' i) (y i) = Cminus (mat_app m W d i) (r i)).
  { intros i. unfold r. replace (mat_app m W d i) with (Cminus (mat_app m W x' i) (mat_app m W x i)); [ring|].
    unfold mat_app. replace (Cminus (csum m (fun j => Cmult (W i j) (x' j))) (csum m (fun j => Cmult (W i j) (x j)))) with
      (Cplus (csum m (fun j => Cmult (W i j) (x' j))) (Cmult (RtoC (-1)) (csum m (fun j => Cmult (W i j) (x j))))).
    - rewrite <- csum_scal, <- csum_plus. apply csum_ext. intros j _. unfold d. apply injective_projections; cbn; ring.
    - apply injective_projections; cbn; ring. }
  assert (H0 : cdot n (mat_app m W d) r = RtoC 0) by (apply cdot_mat; intros j Hj; apply gs_normal; exact Hj).
  assert (H1 : rsum n (fun i => Cmod (Cminus (mat_app m W x' i) (y i)) ^ 2) =
    rsum n (fun i => nrm2 (mat_app m W d i)) + rsum n (fun i => nrm2 (r i)) + -2 * fst (cdot n (mat_app m W d) r)).
  { unfold cdot. rewrite <- rsum_fst, <- rsum_scal, <- !rsum_plus. apply rsum_ext. intros i _. rewrite E, Cmod_sq.
    destruct (mat_app m W d i), (r i). unfold nrm2, Cconj, Cmult, Cminus, Cplus, Copp. cbn. ring. }
  rewrite H1, H0. cbn [fst RtoC].
  assert (0 <= rsum n (fun i => nrm2 (mat_app m W d i))).
  { rewrite <- (Rmult_0_r (INR n)), <- rsum_const. apply rsum_le. intros. apply nrm2_pos. }
  assert (H2 : rsum n (fun i => Cmod (Cminus (mat_app m W x i) (y i)) ^ 2) = rsum n (fun i => nrm2 (r i))).
  { apply rsum_ext. intros i _. rewrite Cmod_sq. unfold r. destruct (mat_app m W x i), (y i). unfold nrm2, Cminus, Cplus, Copp. cbn. ring. }
  rewrite H2. lra.
Qed.
