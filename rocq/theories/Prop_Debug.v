(** Property C71: the sample of the boundary and the comparison of the
    boundary data with their Chebyshev expansions. *)
From Coq Require Import ZArith List Bool Reals Lia Lra Sorted.
From Coquelicot Require Import Coquelicot.
From Verif Require Import Model_Py Model_Multivalue Model_Grid Model_Fourier Model_Chebyshev Model_Domain Model_Ext Model_Extend
  Model_Debug Spec_Chebyshev Spec_Extend Spec_ZRun Spec_Debug Proof_Domain Proof_Chebyshev Proof_Basis Proof_Debug Proof_Tight.
Import ListNotations.
Open Scope R_scope.

(** C71. Every sampled point lies on the segment it is recorded with, at the
    parameter it is recorded with, at least 1e-5 from the tip and from the ends of the
    outer arc. *)
Theorem C71_points : forall eval_r R0 a n p, 1 / 100000 <= R0 -> a + 2 * (1 / 100000) <= 2 * PI ->
  In p (get_boundary_sample eval_r R0 a n) ->
  (bp_sid p < 3)%nat /\ (bp_x p, bp_y p) = seg_point eval_r a (bp_sid p) (bp_arg p) /\
  match bp_sid p with O => a + 1 / 100000 <= bp_arg p <= 2 * PI - 1 / 100000 | _ => 1 / 100000 <= bp_arg p <= R0 end.
Proof. exact in_sample. Qed.
Print Assumptions C71_points.

(** C71. There are 5n of them. *)
Theorem C71_length : forall eval_r R0 a n, length (get_boundary_sample eval_r R0 a n) = (5 * n)%nat.
Proof. exact sample_length. Qed.
Print Assumptions C71_length.

(** C71. With the default n there are 500. *)
Theorem C71_default : forall eval_r R0 a, length (get_boundary_sample eval_r R0 a sample_n) = 500%nat.
Proof. exact default_sample. Qed.
Print Assumptions C71_default.

(** C71. No stretch of the boundary is left out: every parameter is within one
    step of a sampled one on the same segment. *)
Theorem C71_cover : forall eval_r R0 a n, (2 <= n)%nat -> 1 / 100000 < R0 -> a + 2 * (1 / 100000) < 2 * PI ->
  (forall th, a + 1 / 100000 <= th <= 2 * PI - 1 / 100000 -> exists p, In p (get_boundary_sample eval_r R0 a n) /\
     bp_sid p = 0%nat /\ bp_arg p <= th < bp_arg p + (2 * PI - a - 2 * (1 / 100000)) / INR (3 * n - 1)) /\
  (forall sid r, (sid = 1 \/ sid = 2)%nat -> 1 / 100000 <= r <= R0 -> exists p, In p (get_boundary_sample eval_r R0 a n) /\
     bp_sid p = sid /\ bp_arg p <= r < bp_arg p + (R0 - 1 / 100000) / INR (n - 1)).
Proof. exact sample_cover. Qed.
Print Assumptions C71_cover.

(** C71. The abscissa s of the plots increases strictly along the sample: the
    boundary is traversed once, in one direction. *)
Theorem C71_sorted : forall eval_r R0 a n, 1 / 100000 < R0 -> a + 2 * (1 / 100000) < 2 * PI ->
  StronglySorted (fun p q => bp_s p < bp_s q) (get_boundary_sample eval_r R0 a n).
Proof. exact sample_sorted. Qed.
Print Assumptions C71_sorted.

(** C71. Segment and parameter computed again from the Cartesian coordinates
    are the recorded ones. *)
Theorem C71_recomputed : forall eval_r R0 a n p, 1 / 100000 <= R0 -> 0 < a -> a + 2 * (1 / 100000) <= 2 * PI ->
  (forall th, a < th < 2 * PI -> 0 < eval_r th) ->
  In p (get_boundary_sample eval_r R0 a n) ->
  exists r th, cart_to_polar (bp_x p) (bp_y p) = (r, th) /\ get_sid a th = Some (bp_sid p) /\
    (if Nat.eqb (bp_sid p) 0 then th else r) = bp_arg p.
Proof. exact sample_recomputed. Qed.
Print Assumptions C71_recomputed.

(** C71. That rests on exact arithmetic: the tolerance of get_sid guards
    one side only, and an angle beyond a by less than it counts as the outer arc. *)
Theorem C71_tolerance_refuted : exists a th, 0 < a < 2 * PI /\ Rabs (th - a) < / 10 ^ 12 /\ get_sid a th = Some 0%nat.
Proof. exact tolerance_one_sided. Qed.
Print Assumptions C71_tolerance_refuted.

(** C71. c0_test never fails, and prints the largest difference of the real
    parts of the data and of the function the coefficients stand for, over
    the outer arc and over the whole sample. *)
Theorem C71_c0_test : forall n eval_r eval_bc R0 a B c0, (1 <= n)%nat -> sample_ok eval_r R0 a -> length c0 = length B ->
  exists eo e, c0_test n eval_r eval_bc R0 a B c0 = Ok (eo, e) /\
    let S := get_boundary_sample eval_r R0 a n in
    let diff p := Rabs (Re (eval_bc (bp_arg p) (bp_sid p)) -
                        Re (seg_function (eval_g_inv R0 a (bp_sid p)) B c0 (bp_sid p) (bp_arg p))) in
    is_max (fun p => In p S /\ bp_sid p = 0%nat) diff eo /\ is_max (fun p => In p S) diff e.
Proof. exact c0_test_spec. Qed.
Print Assumptions C71_c0_test.

(** C71. Likewise c1_test. *)
Theorem C71_c1_test : forall n eval_r ev R0 a B c1, (1 <= n)%nat -> sample_ok eval_r R0 a -> length c1 = length B ->
  exists e, c1_test n eval_r ev R0 a B c1 = Ok e /\
    is_max (fun p => In p (get_boundary_sample eval_r R0 a n))
      (fun p => Rabs (Re (ev (bp_arg p) (bp_sid p)) -
                      Re (seg_function (eval_g_inv R0 a (bp_sid p)) B c1 (bp_sid p) (bp_arg p)))) e.
Proof. exact c1_test_spec. Qed.
Print Assumptions C71_c1_test.

(** C71. At a point in the removed sector c1_test compares with 0. *)
Theorem C71_gap : forall ev R0 a B c1 p r th, 0 < a < 2 * PI -> 0 < r -> 0 < th <= a - / 10 ^ 12 ->
  bp_x p = r * cos th -> bp_y p = r * sin th ->
  c1_point ev R0 a B c1 p = Ok (Re (ev (bp_arg p) (bp_sid p)), 0).
Proof. exact c1_in_gap. Qed.
Print Assumptions C71_gap.

Example C71_gap_example : 0 < PI / 2 < 2 * PI /\ 0 < PI / 4 <= PI / 2 - / 10 ^ 12.
Proof. pose proof PI2_3_2. assert (/ 10 ^ 12 <= / 10) by (apply Rinv_le_contravar; lra). lra. Qed.

Example pizza_sample : sample_ok (fun _ => 23 / 10) (23 / 10) (PI / 4).
Proof. pose proof PI_RGT_0. pose proof PI2_3_2. repeat split; intros; lra. Qed.

Example C71_c0_test_nonvacuous : exists eo e,
  c0_test 100 (fun _ => 23 / 10) (ex_bc (23 / 10) (PI / 4)) (23 / 10) (PI / 4) (fst (setup_basis 3 2)) (repeat (RtoC 1) 7) = Ok (eo, e).
Proof.
  destruct (C71_c0_test 100 (fun _ => 23 / 10) (ex_bc (23 / 10) (PI / 4)) (23 / 10) (PI / 4)
    (fst (setup_basis 3 2)) (repeat (RtoC 1) 7)) as (eo & e & H & _); [lia|exact pizza_sample|reflexivity|exists eo, e; exact H].
Qed.

(** C71. Data in the span of the basis are recovered exactly by a least-squares
    fit, and the test then prints zeros. *)
Theorem C71_span : forall chebfit n R0 a nc nr bc b m eval_r,
  0 < R0 -> 0 < a < 2 * PI -> (1 <= nc <= n)%nat -> (1 <= nr <= n)%nat ->
  (forall sid, (sid < 3)%nat -> length (b sid) = seg_size nc nr sid) ->
  (forall sid, (sid < 3)%nat -> let ys := map (fun t => bc (eval_g R0 a sid t) sid) (get_chebyshev_roots n) in
     is_cheb_lsq (get_chebyshev_roots n) ys (seg_size nc nr sid - 1)
       (chebfit (get_chebyshev_roots n) ys (seg_size nc nr sid - 1)%nat)) ->
  (forall sid arg, (sid < 3)%nat -> -1 < eval_g_inv R0 a sid arg < 1 ->
     bc arg sid = cheb_expand (b sid) (eval_g_inv R0 a sid arg)) ->
  (1 <= m)%nat -> sample_ok eval_r R0 a ->
  exists c0, calc_c0 chebfit (get_chebyshev_roots n) R0 a (snd (setup_basis nc nr)) bc = Ok c0 /\
    c0_test m eval_r bc R0 a (fst (setup_basis nc nr)) c0 = Ok (0, 0).
Proof. exact span_theorem. Qed.
Print Assumptions C71_span.

(** C71. The same for the normal derivative and calc_c1_exact. *)
Theorem C71_span_c1 : forall chebfit n R0 a nc nr du b m eval_r,
  0 < R0 -> 0 < a < 2 * PI -> (1 <= nc <= n)%nat -> (1 <= nr <= n)%nat ->
  (forall sid, (sid < 3)%nat -> length (b sid) = seg_size nc nr sid) ->
  (forall sid, (sid < 3)%nat -> let ys := map (fun t => du (eval_g R0 a sid t) sid) (get_chebyshev_roots n) in
     is_cheb_lsq (get_chebyshev_roots n) ys (seg_size nc nr sid - 1)
       (chebfit (get_chebyshev_roots n) ys (seg_size nc nr sid - 1)%nat)) ->
  (forall sid arg, (sid < 3)%nat -> -1 < eval_g_inv R0 a sid arg < 1 ->
     du arg sid = cheb_expand (b sid) (eval_g_inv R0 a sid arg)) ->
  (1 <= m)%nat -> sample_ok eval_r R0 a ->
  exists c1, calc_c1_exact chebfit (get_chebyshev_roots n) R0 a (snd (setup_basis nc nr)) du = Ok c1 /\
    c1_test m eval_r du R0 a (fst (setup_basis nc nr)) c1 = Ok 0.
Proof. exact span_c1_theorem. Qed.
Print Assumptions C71_span_c1.

Example C71_span_nonvacuous : exists c0,
  calc_c0 ex_fit (get_chebyshev_roots 1024) (23 / 10) (PI / 4) (snd (setup_basis 3 2)) (ex_bc (23 / 10) (PI / 4)) = Ok c0 /\
  c0_test 100 (fun _ => 23 / 10) (ex_bc (23 / 10) (PI / 4)) (23 / 10) (PI / 4) (fst (setup_basis 3 2)) c0 = Ok (0, 0).
Proof.
  pose proof PI_RGT_0.
  apply C71_span with (b := ex_coef); [lra|lra|lia|lia| | | |lia|exact pizza_sample].
  - intros sid Hs. destruct sid as [|[|[|sid]]]; [reflexivity..|lia].
  - intros sid Hs. apply ex_fit_lsq; [lra|lra|exact Hs].
  - intros sid arg _ _. reflexivity.
Qed.

(** C71. Only real parts are compared: with the data i and coefficients 0 the
    test prints zeros as well. *)
Theorem C71_imaginary_refuted : exists bc c0,
  c0_test 100 (fun _ => 23 / 10) bc (23 / 10) (PI / 4) (fst (setup_basis 3 2)) c0 = Ok (0, 0) /\
  forall arg sid, Cmod (Cminus (bc arg sid)
    (seg_function (eval_g_inv (23 / 10) (PI / 4) sid) (fst (setup_basis 3 2)) c0 sid arg)) = 1.
Proof. exact c0_test_imaginary. Qed.
Print Assumptions C71_imaginary_refuted.

(** C71. etype_filter keeps exactly the nodes with one of the wanted types, in
    their order; it fails only where the type of a node is not defined. *)
Theorem C71_filter : forall c sid nodes etypes,
  match etype_filter c sid nodes etypes with
  | Ok l => l = filter (fun p => match node_etype c sid p with Ok e => existsb (etype_eqb e) etypes | Err _ => false end) nodes
  | Err _ => exists p e, In p nodes /\ node_etype c sid p = Err e
  end.
Proof. exact etype_filter_spec. Qed.
Print Assumptions C71_filter.

(** C71. The extended sample continues the outer curve by a/4 at both ends. *)
Theorem C71_extended : forall eval_r R0 a n p, 0 < a ->
  (In p (fst (get_boundary_extensions eval_r R0 a n)) ->
     bp_sid p = 0%nat /\ (bp_x p, bp_y p) = seg_point eval_r a 0 (bp_arg p) /\ 2 * PI <= bp_arg p <= 2 * PI + a / 4) /\
  (In p (snd (get_boundary_extensions eval_r R0 a n)) ->
     bp_sid p = 0%nat /\ (bp_x p, bp_y p) = seg_point eval_r a 0 (bp_arg p) /\ 3 * a / 4 <= bp_arg p <= a).
Proof. exact in_extensions. Qed.
Print Assumptions C71_extended.

Example C71_extended_nonvacuous :
  In (mk_bp (2 * PI) (1 * cos (2 * PI)) (1 * sin (2 * PI)) (1 * (2 * PI - 1)) 0)
    (fst (get_boundary_extensions (fun _ => 1) 1 1 1)).
Proof. left. cbn. f_equal; replace (2 * PI + 0 * ((2 * PI + 1 / 4 - 2 * PI) / 0)) with (2 * PI) by ring; reflexivity. Qed.
