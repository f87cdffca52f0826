(** Consequences for the solver object: array indices, relative convergence,
    source samples, concrete solvers. *)
From Coq Require Import ZArith List Bool Reals Lia Lra.
From Coquelicot Require Import Complex.
From Verif Require Import Model_Py Model_Multivalue Model_Grid Model_Fourier
  Model_Linop Model_PS Spec_Grid Spec_PS Lib_Csum Proof_Grid Proof_Fourier Proof_PS.
Import ListNotations.
Open Scope Z_scope.

(** ** concrete solvers *)

Definition node_dec : forall p q : node, {p = q} + {p <> q}.
Proof. unfold node. decide equality; apply Z.eq_dec. Defined.

Definition build_solver (N order : Z) (L k : R) (ins : Z -> Z -> bool) : ps_solver :=
  mk_ps N order L k ins (nodup node_dec (gamma_set order N ins))
    (nodup node_dec (global_Mminus N ins)).

Lemma enumerates_nodup : forall l, enumerates (nodup node_dec l) l.
Proof. intros l. split; [apply NoDup_nodup|]. intros p. apply nodup_In. Qed.

Lemma build_solver_ok : forall N order L k ins, 2 <= N -> (order = 2 \/ order = 4) ->
  L <> 0%R -> ps_ok (build_solver N order L k ins).
Proof.
  intros. unfold ps_ok. simpl. split; [assumption|]. split; [assumption|].
  split; [assumption|]. split; apply enumerates_nodup.
Qed.

Lemma cos_lt_1 : forall N j, 1 <= j <= N - 1 -> (cos (PI * IZR j / IZR N) < 1)%R.
Proof.
  intros N j H. pose proof PI_RGT_0.
  assert (0 < IZR j)%R by (apply IZR_lt; lia).
  assert (IZR j < IZR N)%R by (apply IZR_lt; lia).
  rewrite <- cos_0. apply cos_decreasing_1; try lra.
  - apply Rlt_le. apply Rdiv_lt_0_compat; nra.
  - apply Rmult_le_reg_r with (IZR N); [lra|].
    unfold Rdiv. rewrite Rmult_assoc, Rinv_l by lra. nra.
  - apply Rdiv_lt_0_compat; nra.
Qed.

Lemma eig_nonzero_k0 : forall N order L, 2 <= N -> (order = 2 \/ order = 4) -> L <> 0%R ->
  eig_nonzero N order L 0.
Proof.
  intros N order L HN Ho HL j l Hj Hl. unfold eigenval.
  pose proof (cos_lt_1 N j Hj) as A1. pose proof (cos_lt_1 N l Hl) as A2.
  pose proof (COS_bound (PI * IZR j / IZR N)) as B1.
  pose proof (COS_bound (PI * IZR l / IZR N)) as B2.
  set (cj := cos (PI * IZR j / IZR N)) in *. set (cl := cos (PI * IZR l / IZR N)) in *.
  assert (HNr : IZR N <> 0%R) by (apply not_0_IZR; lia).
  assert (Hh : (0 < (L / IZR N) ^ 2)%R).
  { rewrite <- Rsqr_pow2. apply Rsqr_pos_lt. apply Rmult_integral_contrapositive_currified;
      [assumption|apply Rinv_neq_0_compat; assumption]. }
  set (h2 := ((L / IZR N) ^ 2)%R) in *.
  destruct Ho as [-> | ->]; simpl Z.eqb; cbv iota.
  - apply Rlt_not_eq. replace (0 ^ 2)%R with 0%R by ring. rewrite Rplus_0_l.
    apply Rmult_lt_reg_r with h2; [assumption|]. unfold Rdiv.
    rewrite Rmult_assoc, Rinv_l by lra. lra.
  - apply Rlt_not_eq. replace (h2 * 0 ^ 2 * (cj + cl + 4))%R with 0%R by ring.
    apply Rmult_lt_reg_r with (6 * h2)%R; [lra|]. unfold Rdiv.
    rewrite Rmult_assoc, Rinv_l by lra. 
    assert ((cj + 2) * (cl + 2) < 3 * 3)%R by (apply Rmult_gt_0_lt_compat; lra).
    lra.
Qed.

Lemma build_solver_usable : forall N order L ins, 2 <= N -> (order = 2 \/ order = 4) ->
  L <> 0%R -> margin N ins -> ps_usable (build_solver N order L 0 ins).
Proof.
  intros N order L ins HN Ho HL Hm. split; [apply build_solver_ok; assumption|]. split.
  - intros p Hp. apply (margin_gamma order N ins Ho Hm). apply nodup_In in Hp. exact Hp.
  - apply eig_nonzero_k0; assumption.
Qed.

(** ** array indices *)

Lemma margin_gamma_inside : forall s, ps_ok s -> margin (ps_N s) (ps_interior s) -> gamma_inside s.
Proof.
  intros s (HN & Ho & _ & [_ Hg] & _) Hm p Hp. apply Hg in Hp.
  eapply margin_gamma; eassumption.
Qed.

Lemma gamma_index_ok : forall s, ps_ok s -> margin (ps_N s) (ps_interior s) ->
  forall i j, In (i, j) (ps_gamma s) ->
    py_index (ps_N s - 1) (i - 1) = Ok (i - 1) /\ py_index (ps_N s - 1) (j - 1) = Ok (j - 1).
Proof.
  intros s Hs Hm i j H. destruct (margin_gamma_inside s Hs Hm (i, j) H). simpl in *.
  split; apply py_index_in; lia.
Qed.

Lemma potential_trace_total : forall s, ps_ok s -> margin (ps_N s) (ps_interior s) ->
  forall ext A, (exists P, get_potential s ext = Ok P) /\ (exists tr, get_trace s A = Ok tr).
Proof.
  intros s Hs Hm ext A. pose proof (margin_gamma_inside s Hs Hm) as Hg.
  pose proof Hs as (HN & Ho & HL & [Hnd Hgam] & [Hnd' HMm]).
  split.
  - destruct (write_gamma_spec (ps_N s) ext (ps_gamma s) 0 arr_zeros Hg Hnd) as (w & Ew & _).
    destruct (zero_on_spec (ps_N s) (ps_Mminus s) (ps_apply_L s w)) as (G & EG & _).
    { intros p Hp. apply HMm in Hp. apply Mminus_in in Hp. apply Hp. }
    unfold get_potential. rewrite Ew. cbn [bind]. rewrite EG. cbn [bind]. eexists; reflexivity.
  - destruct (read_gamma_spec (ps_N s) A (ps_gamma s) 0 (fun _ => RtoC 0) Hg) as (tr & E & _).
    exists tr. exact E.
Qed.

Definition at_node (a b i j : Z) : bool := (i =? a) && (j =? b).

(** Domain = the single node (1,1) of a 4 x 4 grid, order 4. *)
Definition corner_solver : ps_solver := build_solver 4 4 1 0 (at_node 1 1).
(** Domain = the single node (3,1). *)
Definition edge_solver : ps_solver := build_solver 4 4 1 0 (at_node 3 1).

Lemma corner_wraps : exists l, nth_error (ps_gamma corner_solver) l = Some (0, 1) /\
  forall A, exists tr, get_trace corner_solver A = Ok tr /\ tr l = A 2 0.
Proof.
  exists 1%nat. split; [reflexivity|]. intros A. eexists. split.
  - cbv -[RtoC Nat.eqb]. reflexivity.
  - reflexivity.
Qed.

Lemma edge_raises : forall A, get_trace edge_solver A = Err IndexError.
Proof. intros A. cbv -[RtoC Nat.eqb]. reflexivity. Qed.

Lemma edge_raises_potential : forall ext, get_potential edge_solver ext = Err IndexError.
Proof.
  intros ext. unfold get_potential.
  replace (write_gamma (ps_N edge_solver) (ps_gamma edge_solver) 0 ext arr_zeros)
    with (@Err arr2 IndexError); [reflexivity|].
  symmetry. cbv -[RtoC arr_store arr_zeros]. reflexivity.
Qed.

(** ** relative convergence *)

Lemma coord_half : forall L N i j, N mod 2 = 0 -> N <> 0 ->
  get_coord L N (2 * i) (2 * j) = get_coord L (N / 2) i j.
Proof.
  intros L N i j H HN.
  assert (E : N = 2 * (N / 2)) by (apply Z.div_exact; lia).
  rewrite E at 1. apply coord_doubling; lia.
Qed.

(** The three arrays as functions of the physical point. *)
Lemma rel_convergence_points : forall L N u0 u1 u2 (P : R -> R -> bool) nodes,
  N mod 4 = 0 -> 0 < N ->
  let ins := fun M i j => P (fst (get_coord L M i j)) (snd (get_coord L M i j)) in
  enumerates nodes (global_Mplus N (ins N)) ->
  exists d12 d01, rel_diffs N u0 u1 u2 nodes = Ok (d12, d01) /\
    (forall d, In d d12 <-> exists i j, In (i, j) (global_Mplus (N / 4) (ins (N / 4))) /\
       In (2 * i, 2 * j) (global_Mplus (N / 2) (ins (N / 2))) /\
       get_coord L (N / 4) i j = get_coord L (N / 2) (2 * i) (2 * j) /\
       d = Cmod (Cminus (node_value (N / 2) u1 (2 * i) (2 * j)) (node_value (N / 4) u2 i j))) /\
    (forall d, In d d01 <-> exists i j, In (i, j) (global_Mplus (N / 2) (ins (N / 2))) /\
       In (2 * i, 2 * j) (global_Mplus N (ins N)) /\
       get_coord L (N / 2) i j = get_coord L N (2 * i) (2 * j) /\
       d = Cmod (Cminus (node_value N u0 (2 * i) (2 * j)) (node_value (N / 2) u1 i j))).
Proof.
  intros L N u0 u1 u2 P nodes HN HNp ins [_ Hnodes].
  assert (E4 : N = 4 * (N / 4)) by (apply Z.div_exact; lia).
  assert (E2 : N / 2 = 2 * (N / 4)).
  { rewrite E4 at 1. replace (4 * (N / 4)) with ((2 * (N / 4)) * 2) by lia.
    apply Z.div_mul. lia. }
  assert (C1 : forall i j, get_coord L (N / 4) i j = get_coord L (N / 2) (2 * i) (2 * j)).
  { intros. rewrite E2. symmetry. apply coord_doubling; lia. }
  assert (C2 : forall i j, get_coord L (N / 2) i j = get_coord L N (2 * i) (2 * j)).
  { intros. replace N with (2 * (N / 2)) at 2 by lia. symmetry. apply coord_doubling; lia. }
  destruct (rel_diffs_spec N u0 u1 u2 nodes HN) as (d12 & d01 & E & H12 & H01).
  { intros p Hp. apply Hnodes in Hp. apply Mplus_in in Hp. apply Hp. }
  exists d12, d01. split; [exact E|]. split; intros d.
  - rewrite H12. split; intros (i & j & H1 & H2 & H3 & H4); exists i, j.
    + apply Hnodes in H1. apply Mplus_in in H1. destruct H1 as [Ho Hi].
      cbn [fst snd] in Hi. unfold ins in Hi.
      replace (4 * i) with (2 * (2 * i)) in Hi by lia.
      replace (4 * j) with (2 * (2 * j)) in Hi by lia. rewrite <- C2 in Hi.
      repeat split; [| |apply C1|exact H4].
      * apply Mplus_in. split; [assumption|]. cbn [fst snd]. unfold ins. rewrite C1. exact Hi.
      * apply Mplus_in. split; [assumption|]. cbn [fst snd]. unfold ins. exact Hi.
    + apply Mplus_in in H1. apply Mplus_in in H2. destruct H1 as [Ho1 Hi1].
      destruct H2 as [Ho2 Hi2]. cbn [fst snd] in Hi1, Hi2. repeat split; try apply Ho1; try apply Ho2;
        try exact H4.
      apply Hnodes. apply Mplus_in. unfold in_open_grid in *. cbn [fst snd] in *.
      split; [lia|]. unfold ins in *.
      replace (4 * i) with (2 * (2 * i)) by lia. replace (4 * j) with (2 * (2 * j)) by lia.
      rewrite <- C2. exact Hi2.
  - rewrite H01. split.
    + intros (i & j & H1 & H2 & H4). exists i, j.
      apply Hnodes in H1. pose proof H1 as H1'. apply Mplus_in in H1. destruct H1 as [Ho Hi].
      cbn [fst snd] in Hi. unfold ins in Hi. rewrite <- C2 in Hi.
      repeat split; [|exact H1'|apply C2|exact H4].
      apply Mplus_in. split; [assumption|]. exact Hi.
    + intros (i & j & H1 & H2 & H3 & H4). exists i, j. split; [apply Hnodes; exact H2|].
      apply Mplus_in in H1. split; [apply H1|exact H4].
Qed.

(** ** source samples *)

Lemma B_reads_Kplus : forall N ins (f g : arr2) i j,
  in_open_grid N (i, j) -> ins i j = true ->
  (forall p, In p (Kplus 4 N ins) -> f (fst p) (snd p) = g (fst p) (snd p)) ->
  lin_apply_B f i j = lin_apply_B g i j.
Proof.
  intros N ins f g i j Ho Hi H.
  assert (HK : forall i' j', Z.abs (i - i') + Z.abs (j - j') <= 1 -> f i' j' = g i' j').
  { intros i' j' Hd. apply (H (i', j')). apply Kplus_in; [right; reflexivity|].
    exists (i, j). split; [apply Mplus_in; auto|]. cbn [fst snd].
    destruct (Z.eq_dec (Z.abs (i - i') + Z.abs (j - j')) 0) as [E|E].
    - left. f_equal; lia.
    - right. split; [reflexivity|lia]. }
  unfold lin_apply_B. rewrite !HK by lia. reflexivity.
Qed.

Lemma B_order2_constant : forall s c i j, inside_node s (i, j) ->
  lin_apply_B (setup_f_interior s (fun _ _ => c)) i j =
  Cmult c (RtoC (1 - missing (ps_N s) (ps_interior s) i j / 12)).
Proof.
  intros s c i j [Ho Hi].
  assert (E : node_mem (i, j) (global_Mplus (ps_N s) (ps_interior s)) = true).
  { apply node_mem_in. apply Mplus_in. auto. }
  unfold lin_apply_B, setup_f_interior, missing, get_coord. rewrite E.
  destruct (node_mem (i + 1, j) _), (node_mem (i - 1, j) _), (node_mem (i, j + 1) _),
    (node_mem (i, j - 1) _); destruct c as [cr ci];
    apply injective_projections; simpl; field.
Qed.

Lemma grid_partition_within : forall N ins p,
  In p (global_Mplus N ins) \/ In p (global_Mminus N ins) -> in_open_grid N p.
Proof. intros N ins p [H|H]; [apply Mplus_in in H|apply Mminus_in in H]; apply H. Qed.

Lemma rel_pair_spec : forall N u0 u1 u2 nodes m12 m01,
  rel_convergence_pair N u0 u1 u2 nodes = Ok (m12, m01) <->
  exists d12 d01, rel_diffs N u0 u1 u2 nodes = Ok (d12, d01) /\
    (In m12 d12 /\ forall x, In x d12 -> (x <= m12)%R) /\
    (In m01 d01 /\ forall x, In x d01 -> (x <= m01)%R).
Proof.
  intros. unfold rel_convergence_pair.
  destruct (rel_diffs N u0 u1 u2 nodes) as [[d12 d01]|e]; cbn [bind fst snd].
  - split.
    + intros H. exists d12, d01. split; [reflexivity|].
      destruct (py_max d12) as [x|] eqn:E1; cbn [bind] in H; [|discriminate].
      destruct (py_max d01) as [y|] eqn:E2; cbn [bind] in H; [|discriminate].
      assert (x = m12) by congruence. assert (y = m01) by congruence. subst.
      split; apply py_max_spec; assumption.
    + intros (a & b & E & H1 & H2). assert (a = d12) by congruence.
      assert (b = d01) by congruence. subst. apply py_max_spec in H1. apply py_max_spec in H2.
      rewrite H1. cbn [bind]. rewrite H2. reflexivity.
  - split; [discriminate|]. intros (a & b & E & _). discriminate.
Qed.

Lemma order2_witness : exists s f i j, ps_ok s /\ ps_order s = 2 /\
  inside_node s (i, j) /\ (forall x y, f x y = RtoC 1) /\
  lin_apply_B (setup_f_interior s f) i j = RtoC (5 / 6) /\
  lin_apply_B (fun i j => let '(x, y) := get_coord (ps_AD_len s) (ps_N s) i j in f x y) i j
    = RtoC 1.
Proof.
  exists (build_solver 6 2 1 0 (fun i j => (2 <=? i) && (i <=? 4) && (2 <=? j) && (j <=? 4))).
  exists (fun _ _ => RtoC 1), 2, 2.
  assert (Hin : inside_node (build_solver 6 2 1 0
    (fun i j => (2 <=? i) && (i <=? 4) && (2 <=? j) && (j <=? 4))) (2, 2)).
  { split; [split; cbn; lia|reflexivity]. }
  split; [apply build_solver_ok; [lia|left; reflexivity|lra]|].
  split; [reflexivity|]. split; [exact Hin|]. split; [reflexivity|]. split.
  - rewrite B_order2_constant by exact Hin. rewrite Cmult_1_l. f_equal.
    unfold missing.
    replace (node_mem (2 + 1, 2) _) with true by reflexivity.
    replace (node_mem (2 - 1, 2) _) with false by reflexivity.
    replace (node_mem (2, 2 + 1) _) with true by reflexivity.
    replace (node_mem (2, 2 - 1) _) with false by reflexivity. field.
  - unfold lin_apply_B, get_coord. apply injective_projections; simpl; field.
Qed.
