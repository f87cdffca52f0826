(** Properties C29 (consistency of the Cartesian scheme), C33 (polar part),
    C35, C36 and C37 (polar finite differences). *)
From Coq Require Import ZArith List Bool Reals Lra Lia.
From Coquelicot Require Import Coquelicot.
From Verif Require Import Model_Py Model_Grid Model_Linop Model_PolarFD
  Spec_Fd Spec_PolarFD Lib_Csum Proof_Taylor Proof_Consist Proof_PolarFD Proof_PolarRes.
Import ListNotations.
Open Scope R_scope.

(** C29. For u = ur + i ui with bounded sixth derivatives around a node, the
    nine-point operator on samples of u and apply_B on samples of
    Laplacian(u) + k^2 u differ by at most M h^4 / 15. *)
Theorem C29_consistency : forall L N k i j ur ui Ur Ui M, 0 < L -> (0 < N)%Z ->
  let x := fst (get_coord L N i j) in let y := snd (get_coord L N i j) in
  let h := L / IZR N in
  partials 6 (box x h y h) ur Ur -> partials 6 (box x h y h) ui Ui ->
  top_bounded 6 M (box x h y h) Ur -> top_bounded 6 M (box x h y h) Ui ->
  Cmod (Cminus
    (lin_apply_B (sampled L N
       (fun a b => Ur 2%nat 0%nat a b + Ur 0%nat 2%nat a b + k ^ 2 * ur a b)
       (fun a b => Ui 2%nat 0%nat a b + Ui 0%nat 2%nat a b + k ^ 2 * ui a b)) i j)
    (lin_apply_L N 4 L k (sampled L N ur ui) i j)) <= M * h ^ 4 / 15.
Proof. exact consistency. Qed.
Print Assumptions C29_consistency.

(** C29. Exact on polynomials of degree at most five. *)
Theorem C29_exact : forall L N k i j cr ci, 0 < L -> (0 < N)%Z ->
  lin_apply_L N 4 L k (sampled L N (poly2 5 cr) (poly2 5 ci)) i j =
  lin_apply_B (sampled L N
    (fun a b => Derive_n (fun t => poly2 5 cr t b) 2 a + Derive_n (fun t => poly2 5 cr a t) 2 b
       + k ^ 2 * poly2 5 cr a b)
    (fun a b => Derive_n (fun t => poly2 5 ci t b) 2 a + Derive_n (fun t => poly2 5 ci a t) 2 b
       + k ^ 2 * poly2 5 ci a b)) i j.
Proof. exact exact_quintic. Qed.
Print Assumptions C29_exact.

(** exp(x + y) and x^2 y^3. *)
Example C29_nonvacuous : forall x y h, 0 < h ->
  partials 6 (box x h y h) (fun a b => exp (a + b)) (fun _ _ a b => exp (a + b)) /\
  top_bounded 6 (exp (x + h + (y + h))) (box x h y h) (fun _ _ a b => exp (a + b)) /\
  poly2 5 (fun i j => if (Nat.eqb i 2 && Nat.eqb j 3)%bool then 1 else 0) x y = x ^ 2 * y ^ 3.
Proof.
  intros x y h Hh. split; [|split].
  - split; [reflexivity|]. intros i j _ a b _. split; (auto_derive; [exact I|ring]).
  - intros i j _ a b [Ha Hb]. rewrite Rabs_pos_eq by (left; apply exp_pos).
    destruct (Rle_lt_or_eq_dec (a + b) (x + h + (y + h)) ltac:(lra)) as [H|H].
    + left. apply exp_increasing, H.
    + rewrite H. lra.
  - unfold poly2. simpl. ring.
Qed.

(** C33, polar part. On three nested polar grids the differences compared are
    exactly those at the interior nodes shared with the coarser grid; they
    denote the same point and are read in range. *)
Theorem C33_polar_same_points : forall s0 s1 s2 u0 u1 u2,
  (0 < pf_N s2)%Z -> pf_N s1 = (2 * pf_N s2)%Z -> pf_N s0 = (2 * pf_N s1)%Z ->
  pf_a s0 = pf_a s1 -> pf_R0 s0 = pf_R0 s1 -> pf_R1 s0 = pf_R1 s1 ->
  pf_a s1 = pf_a s2 -> pf_R0 s1 = pf_R0 s2 -> pf_R1 s1 = pf_R1 s2 ->
  exists d12 d01, pf_rel_diffs (pf_N s0) u0 u1 u2 (pf_nodes (pf_N s0)) = Ok (d12, d01) /\
    (forall d, In d d12 <-> exists m l, (1 <= m < pf_N s2)%Z /\ (1 <= l < pf_N s2)%Z /\
       get_r s1 (IZR (2 * m)) = get_r s2 (IZR m) /\ get_th s1 (2 * l) = get_th s2 l /\
       d = Cmod (Cminus (u1 (2 * m)%Z (2 * l)%Z) (u2 m l))) /\
    (forall d, In d d01 <-> exists m l, (1 <= m < pf_N s1)%Z /\ (1 <= l < pf_N s1)%Z /\
       get_r s0 (IZR (2 * m)) = get_r s1 (IZR m) /\ get_th s0 (2 * l) = get_th s1 l /\
       d = Cmod (Cminus (u0 (2 * m)%Z (2 * l)%Z) (u1 m l))).
Proof. exact pf_rel_points. Qed.
Print Assumptions C33_polar_same_points.

(** C33, polar part. The reported ratio is that of the two maxima. *)
Theorem C33_polar_maxima : forall N u0 u1 u2 m12 m01,
  pf_rel_pair N u0 u1 u2 = Ok (m12, m01) <->
  exists d12 d01, pf_rel_diffs N u0 u1 u2 (pf_nodes N) = Ok (d12, d01) /\
    (In m12 d12 /\ forall x, In x d12 -> x <= m12) /\
    (In m01 d01 /\ forall x, In x d01 -> x <= m01).
Proof. exact pf_pair_spec. Qed.
Print Assumptions C33_polar_maxima.

Example C33_polar_nonvacuous : exists d12 d01,
  pf_rel_diffs 8 (fun m l => RtoC 5) (fun m l => RtoC 3) (fun m l => RtoC 2) (pf_nodes 8)
    = Ok (d12, d01) /\ In 1 d12 /\ In 2 d01.
Proof.
  destruct (C33_polar_same_points (unit_pf 8) (unit_pf 4) (unit_pf 2) (fun m l => RtoC 5)
    (fun m l => RtoC 3) (fun m l => RtoC 2)) as (d12 & d01 & E & H12 & H01);
    try reflexivity.
  exists d12, d01. split; [exact E|]. split.
  - apply H12. exists 1%Z, 1%Z. cbn [pf_N unit_pf]. repeat split; try lia.
    + unfold get_r, pf_hr. cbn [pf_N unit_pf pf_R0 pf_R1]. simpl. field.
    + unfold get_th, pf_hth. cbn [pf_N unit_pf pf_a]. simpl. field.
    + rewrite <- RtoC_minus, Cmod_R. replace (3 - 2) with 1 by ring. symmetry. apply Rabs_R1.
  - apply H01. exists 1%Z, 1%Z. cbn [pf_N unit_pf]. repeat split; try lia.
    + unfold get_r, pf_hr. cbn [pf_N unit_pf pf_R0 pf_R1]. simpl. field.
    + unfold get_th, pf_hth. cbn [pf_N unit_pf pf_a]. simpl. field.
    + rewrite <- RtoC_minus, Cmod_R. rewrite Rabs_pos_eq; lra.
Qed.

(** C35. get_index maps the (N+1)^2 nodes one-to-one onto 0..(N+1)^2-1. *)
Theorem C35_bijection : forall N, (0 <= N)%Z ->
  (forall p, in_polar_grid N p -> (0 <= get_index N (fst p) (snd p) < (N + 1) * (N + 1))%Z) /\
  (forall p q, in_polar_grid N p -> in_polar_grid N q ->
     get_index N (fst p) (snd p) = get_index N (fst q) (snd q) -> p = q) /\
  (forall i, (0 <= i < (N + 1) * (N + 1))%Z ->
     exists p, in_polar_grid N p /\ get_index N (fst p) (snd p) = i).
Proof.
  intros N HN. split; [intros; apply index_range; assumption|].
  split; [intros; apply (index_inj N); assumption|]. intros i Hi. exact (index_onto N i Hi HN).
Qed.
Print Assumptions C35_bijection.

(** C35. (N+1)^2 rows, one per node: the row of a boundary node refers to that
    node only, the row of an interior node to its nine neighbours. *)
Theorem C35_rows : forall s, (1 <= pf_N s)%Z ->
  let N := pf_N s in let y := assemble s in
  sy_row y = ((N + 1) * (N + 1))%Z /\ Z.of_nat (length (sy_rhs y)) = ((N + 1) * (N + 1))%Z /\
  length (sy_data y) = length (sy_row_ind y) /\ length (sy_row_ind y) = length (sy_col_ind y) /\
  exists own, NoDup own /\ (forall p, In p own <-> in_polar_grid N p) /\
    Z.of_nat (length own) = ((N + 1) * (N + 1))%Z /\
    forall i, (0 <= i < (N + 1) * (N + 1))%Z ->
      row_of N (nth (Z.to_nat i) own (0%Z, 0%Z)) (cols_of_row y i).
Proof. exact assembled. Qed.
Print Assumptions C35_rows.

(** C35. Row and column indices both cover exactly 0..(N+1)^2-1, so the sparse
    matrix built from them is square. *)
Theorem C35_square : forall s, (1 <= pf_N s)%Z ->
  let n := ((pf_N s + 1) * (pf_N s + 1))%Z in let y := assemble s in
  (forall r, In r (sy_row_ind y) <-> (0 <= r < n)%Z) /\
  (forall c, In c (sy_col_ind y) <-> (0 <= c < n)%Z).
Proof. exact square_shape. Qed.
Print Assumptions C35_square.

(** The 2 x 2 grid: nine rows, the last one holding the full stencil. *)
Example C35_nonvacuous :
  (1 <= pf_N (unit_pf 2))%Z /\ sy_row (assemble (unit_pf 2)) = 9%Z /\
  cols_of_row (assemble (unit_pf 2)) 8 = [0; 1; 2; 3; 4; 5; 6; 7; 8]%Z /\
  cols_of_row (assemble (unit_pf 2)) 0 = [1%Z].
Proof. cbn [pf_N unit_pf]. split; [lia|]. repeat split; reflexivity. Qed.

(** C36. A vector solves the assembled system exactly when it takes the
    prescribed values on the two sides, near the origin and on the arc, and
    satisfies the compact scheme at every interior node. *)
Theorem C36_system : forall s z, pf_ok s ->
  let N := pf_N s in
  let r := fun m => pf_R0 s + IZR m * ((pf_R1 s - pf_R0 s) / IZR N) in
  let th := fun l => pf_a s + IZR l * ((2 * PI - pf_a s) / IZR N) in
  (solves (assemble s) z <->
   (forall m, (0 <= m <= N)%Z -> pf_at s z m 0 = pf_phi2 s (r m) /\
                                 pf_at s z m N = pf_phi1 s (r m)) /\
   (forall l, (1 <= l <= N - 1)%Z -> pf_at s z 0 l = pf_phi_initial s (th l) /\
                                     pf_at s z N l = pf_phi0 s (th l)) /\
   (forall m l, (1 <= m <= N - 1)%Z -> (1 <= l <= N - 1)%Z ->
      compact_scheme r ((pf_R1 s - pf_R0 s) / IZR N) ((2 * PI - pf_a s) / IZR N) (pf_k s)
        (pf_at s z) m l =
      compact_source ((pf_R1 s - pf_R0 s) / IZR N) ((2 * PI - pf_a s) / IZR N) (r m)
        (pf_f s (r m) (th l)) (pf_d_f_r s (r m) (th l)) (pf_d2_f_r s (r m) (th l))
        (pf_d2_f_th s (r m) (th l)))).
Proof. exact solves_iff. Qed.
Print Assumptions C36_system.

(** The constant function solves its own system on every grid. *)
Example C36_nonvacuous : forall N, (1 <= N)%Z ->
  pf_ok (unit_pf N) /\ solves (assemble (unit_pf N)) (fun _ => 1).
Proof.
  intros N HN. assert (HP := PI_RGT_0).
  assert (Hok : pf_ok (unit_pf N)).
  { unfold pf_ok. cbn [pf_N pf_R0 pf_R1 pf_a unit_pf]. repeat split; try lia; lra. }
  split; [exact Hok|]. apply C36_system; [exact Hok|].
  assert (0 < IZR N) by (apply IZR_lt; lia).
  cbn [pf_N pf_R0 pf_R1 pf_a pf_k pf_f pf_d_f_r pf_d2_f_r pf_d2_f_th pf_phi0 pf_phi1 pf_phi2
       pf_phi_initial unit_pf].
  split; [intros; split; reflexivity|]. split; [intros; split; reflexivity|].
  intros m l Hm Hl. unfold compact_scheme, compact_source, op_radial, op_angular, op_drr, op_dr,
    op_dthth, pf_at.
  assert (Hr : forall j, (0 <= j)%Z -> 0 < 1 + IZR j * ((2 - 1) / IZR N)).
  { intros j Hj. apply IZR_le in Hj. assert (0 < (2 - 1) / IZR N) by (apply Rdiv_lt_0_compat; lra).
    nra. }
  pose proof (Hr m ltac:(lia)) as R0'. pose proof (Hr (m - 1)%Z ltac:(lia)) as R1'.
  pose proof (Hr (m + 1)%Z ltac:(lia)) as R2'.
  set (ra := 1 + IZR m * ((2 - 1) / IZR N)) in *.
  set (rb := 1 + IZR (m - 1) * ((2 - 1) / IZR N)) in *.
  set (rc := 1 + IZR (m + 1) * ((2 - 1) / IZR N)) in *.
  field. repeat split; lra.
Qed.

(** C37. The nine coefficients are those of the composed difference operators. *)
Theorem C37_coefficients : forall r hr hth k w m l,
  r <> 0 -> r - hr <> 0 -> r + hr <> 0 -> hr <> 0 -> hth <> 0 ->
  stencil_sum (local_get (fd4_local (r - hr) (r - hr / 2) r (r + hr / 2) (r + hr) hr hth k)) w m l =
  compact_scheme (fun j => r + IZR (j - m) * hr) hr hth k w m l.
Proof. exact coefficients. Qed.
Print Assumptions C37_coefficients.

(** C37. Fourth order: away from the origin (r - hr >= rho > 0) the residual of
    the scheme on a function with derivatives up to order six bounded by M is
    at most C M (hr^4 + hth^4), C depending on rho and k only. [f_r], [f_rr],
    [f_tt] are the derivatives of the source that the code is given. *)
Theorem C37_residual : forall rho k, exists C,
  forall U u r0 t0 h e M f_r f_rr f_t f_tt,
  0 < rho <= r0 - h -> 0 < h -> 0 < e ->
  partials 6 (box r0 h t0 e) u U -> all_bounded 6 M (box r0 h t0 e) U ->
  (forall r, r0 - h < r < r0 + h -> is_derive (fun s => polar_helmholtz k U s t0) r (f_r r)) ->
  is_derive f_r r0 f_rr ->
  (forall t, t0 - e < t < t0 + e -> is_derive (polar_helmholtz k U r0) t (f_t t)) ->
  is_derive f_t t0 f_tt ->
  Rabs (stencil_sum (local_get (fd4_local (r0 - h) (r0 - h / 2) r0 (r0 + h / 2) (r0 + h) h e k))
          (fun m l => u (r0 + IZR m * h) (t0 + IZR l * e)) 0 0
        - fd4_rhs h e r0 (polar_helmholtz k U r0 t0) (f_r r0) f_rr f_tt)
    <= C * M * (h ^ 4 + e ^ 4).
Proof. intros rho k. exists (rconst rho k). exact (residual_bound rho k). Qed.
Print Assumptions C37_residual.

(** exp(r + th) near r = 1, th = 1 with steps below 1/2. *)
Example C37_nonvacuous : forall h e, 0 < h <= / 2 -> 0 < e <= / 2 ->
  exists U u M f_r f_rr f_t f_tt, 0 < / 2 <= 1 - h /\
  u 1 1 <> 0 /\ partials 6 (box 1 h 1 e) u U /\ all_bounded 6 M (box 1 h 1 e) U /\
  (forall r, 1 - h < r < 1 + h -> is_derive (fun s => polar_helmholtz 2 U s 1) r (f_r r)) /\
  is_derive f_r 1 f_rr /\
  (forall t, 1 - e < t < 1 + e -> is_derive (polar_helmholtz 2 U 1) t (f_t t)) /\
  is_derive f_t 1 f_tt.
Proof.
  intros h e Hh He.
  pose (U := fun (_ _ : nat) a b => exp (a + b)).
  assert (HU : partials 6 (box 1 h 1 e) (fun a b => exp (a + b)) U).
  { split; [reflexivity|]. intros i j _ x y _. unfold U. split; (auto_derive; [exact I|ring]). }
  exists U, (fun a b => exp (a + b)), (exp 3), (fun r => src_r U 2 r 1), (src_rr U 2 1 1),
    (fun t => U 2%nat 1%nat 1 t + U 1%nat 1%nat 1 t / 1 + U 0%nat 3%nat 1 t / 1 ^ 2
      + 2 ^ 2 * U 0%nat 1%nat 1 t),
    (U 2%nat 2%nat 1 1 + U 1%nat 2%nat 1 1 / 1 + U 0%nat 4%nat 1 1 / 1 ^ 2
      + 2 ^ 2 * U 0%nat 2%nat 1 1).
  split; [lra|]. split; [apply Rgt_not_eq, exp_pos|]. split; [exact HU|]. split.
  - intros i j _ x y [Hx Hy]. unfold U. rewrite Rabs_pos_eq by (left; apply exp_pos).
    destruct (Rle_lt_or_eq_dec (x + y) 3 ltac:(lra)) as [H|H].
    + left. apply exp_increasing, H.
    + rewrite H. lra.
  - split; [|split; [|split]].
    + intros r Hr. apply (src_r_derive U (fun a b => exp (a + b)) 1 1 h e); [exact HU| |lra].
      split; lra.
    + apply (src_rr_derive U (fun a b => exp (a + b)) 1 1 h e); [exact HU|split; lra|lra].
    + intros t Ht. apply (src_t_chain U (fun a b => exp (a + b)) 1 1 h e 2 1 t 0);
        [exact HU|lia|split; lra|lra].
    + apply (src_t_chain U (fun a b => exp (a + b)) 1 1 h e 2 1 1 1);
        [exact HU|lia|split; lra|lra].
Qed.
