(** Proofs about the relative convergence (C96). *)
From Coq Require Import ZArith List Bool Reals Lia Lra Psatz.
From Coquelicot Require Import Coquelicot.
From Verif Require Import Model_Py Model_Domain Model_Grid Model_Multivalue Model_MvRel Model_Problems Model_Run Model_Program Model_Rel
  Spec_Grid Spec_ZRun Spec_Run Spec_Program Spec_Curve Spec_MvRel Spec_Rel
  Proof_Domain Proof_Grid Proof_Grid2 Proof_Run Proof_Program Proof_CurveRun Proof_Place Proof_RunEx.
From Verif Require Proof_MvRel.
From Verif Require Import Model_ZProgram Proof_ZProgram Proof_CurveZ Proof_Bessel Proof_BesselJ Proof_ZRunEx.
Import ListNotations.
Open Scope R_scope.

Lemma list_max : forall l x, In x l -> exists m, py_max l = Ok m /\ In m l /\ forall y, In y l -> y <= m.
Proof.
  intros l x H. destruct (py_max_total l) as [m Hm]; [intros ->; destruct H|]. exists m. split; [exact Hm|]. apply py_max_spec. exact Hm.
Qed.

Section Core.
Variables (M : Z) (nodes : list (Z * Z)) (u0 u1 u2 : arr2) (I1 I2 I4 : Z * Z -> Prop) (ex1 ex2 ex4 : Z * Z -> C) (e0 e1 e2 : R).
Hypothesis HM : (0 < M)%Z.
Hypothesis Hn : forall p, In p nodes <-> I4 p.
Hypothesis G4 : forall p, I4 p -> in_open_grid (4 * M) p.
Hypothesis G2 : forall i j, I2 (i, j) <-> in_open_grid (2 * M) (i, j) /\ I4 (2 * i, 2 * j)%Z.
Hypothesis G1 : forall i j, I1 (i, j) <-> in_open_grid M (i, j) /\ I4 (4 * i, 4 * j)%Z.
Hypothesis X2 : forall i j, ex2 (i, j) = ex4 (2 * i, 2 * j)%Z.
Hypothesis X1 : forall i j, ex1 (i, j) = ex4 (4 * i, 4 * j)%Z.
Let nv (N : Z) (u : arr2) (p : Z * Z) : C := node_value N u (fst p) (snd p).
Let dbl (p : Z * Z) : Z * Z := (2 * fst p, 2 * snd p)%Z.
Hypothesis E0 : is_max I4 (fun p => Cmod (Cminus (ex4 p) (nv (4 * M)%Z u0 p))) e0.
Hypothesis E1 : is_max I2 (fun p => Cmod (Cminus (ex2 p) (nv (2 * M)%Z u1 p))) e1.
Hypothesis E2 : is_max I1 (fun p => Cmod (Cminus (ex1 p) (nv M u2 p))) e2.

Lemma I1_I2 : forall p, I1 p -> I2 (dbl p).
Proof using HM G1 G2.
  intros [i j] H. apply G1 in H. destruct H as [Ho H]. unfold dbl. cbn [fst snd]. apply G2.
  replace (2 * (2 * i))%Z with (4 * i)%Z by lia. replace (2 * (2 * j))%Z with (4 * j)%Z by lia. split; [|exact H].
  unfold in_open_grid in *. cbn [fst snd] in *. lia.
Qed.

Lemma I2_I4 : forall p, I2 p -> I4 (dbl p).
Proof using G2. intros [i j] H. apply G2 in H. apply H. Qed.

Lemma tri : forall a b c : C, Cmod (Cminus a b) <= Cmod (Cminus c a) + Cmod (Cminus c b).
Proof.
  intros a b c. replace (Cminus a b) with (Cplus (Copp (Cminus c a)) (Cminus c b)) by ring.
  eapply Rle_trans; [apply Cmod_triangle|]. rewrite Cmod_opp. lra.
Qed.

Lemma tri2 : forall a b c : C, Cmod (Cminus c b) - Cmod (Cminus c a) <= Cmod (Cminus a b).
Proof.
  intros a b c. assert (H : Cmod (Cminus c b) <= Cmod (Cminus c a) + Cmod (Cminus a b)); [|lra].
  replace (Cminus c b) with (Cplus (Cminus c a) (Cminus a b)) by ring. apply Cmod_triangle.
Qed.

Lemma ex_dbl2 : forall p, ex4 (dbl p) = ex2 p.
Proof using X2. intros [i j]. unfold dbl. cbn [fst snd]. symmetry. apply X2. Qed.
Lemma ex_dbl1 : forall p, ex2 (dbl p) = ex1 p.
Proof using X1 X2. intros [i j]. unfold dbl. cbn [fst snd]. rewrite X2, X1. f_equal. f_equal; lia. Qed.

Lemma rel_core : exists m12 m01,
  rel_convergence_pair (4 * M) u0 u1 u2 nodes = Ok (m12, m01) /\
  is_max I1 (fun p => Cmod (Cminus (nv (2 * M)%Z u1 (dbl p)) (nv M u2 p))) m12 /\
  is_max I2 (fun p => Cmod (Cminus (nv (4 * M)%Z u0 (dbl p)) (nv (2 * M)%Z u1 p))) m01 /\
  e2 - e1 <= m12 <= e2 + e1 /\ e1 - e0 <= m01 <= e1 + e0.
Proof using All.
  assert (D4 : (4 * M / 4 = M)%Z) by (rewrite Z.mul_comm; apply Z.div_mul; lia).
  assert (D2 : (4 * M / 2 = 2 * M)%Z) by (replace (4 * M)%Z with (2 * M * 2)%Z by lia; apply Z.div_mul; lia).
  destruct (Proof_Grid.rel_diffs_spec (4 * M)%Z u0 u1 u2 nodes) as (d12 & d01 & ED & H12 & H01).
  { rewrite Z.mul_comm. apply Z.mod_mul. lia. }
  { intros p Hp. apply G4, Hn, Hp. }
  rewrite D4, D2 in *.
  destruct E2 as [([i2 j2] & Hi2 & Ee2) M2]. destruct E1 as [([i1 j1] & Hi1 & Ee1) M1]. destruct E0 as [_ M0].
  assert (A12 : forall p, I1 p -> In (Cmod (Cminus (nv (2 * M)%Z u1 (dbl p)) (nv M u2 p))) d12).
  { intros [i j] Hp. apply H12. exists i, j. pose proof (I1_I2 _ Hp) as Hp2. apply G1 in Hp. apply G2 in Hp2.
    split; [apply Hn, Hp|]. split; [apply Hp|]. split; [apply Hp2|reflexivity]. }
  assert (A01 : forall p, I2 p -> In (Cmod (Cminus (nv (4 * M)%Z u0 (dbl p)) (nv (2 * M)%Z u1 p))) d01).
  { intros [i j] Hp. apply H01. exists i, j. apply G2 in Hp. split; [apply Hn, Hp|]. split; [apply Hp|reflexivity]. }
  destruct (list_max d12 _ (A12 _ Hi2)) as (m12 & P12 & In12 & Mx12).
  destruct (list_max d01 _ (A01 _ Hi1)) as (m01 & P01 & In01 & Mx01).
  assert (IM12 : is_max I1 (fun p => Cmod (Cminus (nv (2 * M)%Z u1 (dbl p)) (nv M u2 p))) m12).
  { split; [|intros p Hp; apply Mx12, A12, Hp]. apply H12 in In12. destruct In12 as (i & j & Hin & Ho & _ & ->). exists (i, j). split; [|reflexivity].
    apply G1. split; [exact Ho|apply Hn, Hin]. }
  assert (IM01 : is_max I2 (fun p => Cmod (Cminus (nv (4 * M)%Z u0 (dbl p)) (nv (2 * M)%Z u1 p))) m01).
  { split; [|intros p Hp; apply Mx01, A01, Hp]. apply H01 in In01. destruct In01 as (i & j & Hin & Ho & ->). exists (i, j). split; [|reflexivity].
    apply G2. split; [exact Ho|apply Hn, Hin]. }
  exists m12, m01. split; [unfold rel_convergence_pair; rewrite ED; cbn [bind fst snd]; rewrite P12; cbn [bind]; rewrite P01; reflexivity|].
  split; [exact IM12|]. split; [exact IM01|]. destruct IM12 as [(p & Hp & Vp) Mp]. destruct IM01 as [(q & Hq & Vq) Mq]. split; split.
  - specialize (Mp _ Hi2). pose proof (M1 _ (I1_I2 _ Hi2)) as B. cbv beta in *. rewrite ex_dbl1 in B.
    pose proof (tri2 (nv (2 * M)%Z u1 (dbl (i2, j2))) (nv M u2 (i2, j2)) (ex1 (i2, j2))). lra.
  - pose proof (M1 _ (I1_I2 _ Hp)) as B. pose proof (M2 _ Hp) as B2. cbv beta in *. rewrite ex_dbl1 in B.
    pose proof (tri (nv (2 * M)%Z u1 (dbl p)) (nv M u2 p) (ex1 p)). lra.
  - specialize (Mq _ Hi1). pose proof (M0 _ (I2_I4 _ Hi1)) as B. cbv beta in *. rewrite ex_dbl2 in B.
    pose proof (tri2 (nv (4 * M)%Z u0 (dbl (i1, j1))) (nv (2 * M)%Z u1 (i1, j1)) (ex2 (i1, j1))). lra.
  - pose proof (M0 _ (I2_I4 _ Hq)) as B. pose proof (M1 _ Hq) as B2. cbv beta in *. rewrite ex_dbl2 in B.
    pose proof (tri (nv (4 * M)%Z u0 (dbl q)) (nv (2 * M)%Z u1 q) (ex2 q)). lra.
Qed.
End Core.

Lemma ln2_pos : 0 < ln 2.
Proof. rewrite <- ln_1. apply ln_increasing; lra. Qed.

Lemma log2_value : forall m12 m01 e0 e1 e2, e2 - e1 <= m12 <= e2 + e1 -> e1 - e0 <= m01 <= e1 + e0 -> 0 <= e0 -> e0 < e1 -> e1 < e2 ->
  exists v, log2_ratio (m12, m01) = Some v /\ (e2 - e1) / (e1 + e0) <= Rpower 2 v <= (e2 + e1) / (e1 - e0).
Proof.
  intros m12 m01 e0 e1 e2 H1 H2 H0 L1 L2. unfold log2_ratio. cbn [fst snd].
  destruct (Rltb_spec 0 m12) as [A|A]; [|lra]. destruct (Rltb_spec 0 m01) as [B|B]; [|lra]. cbn [andb].
  eexists. split; [reflexivity|]. pose proof ln2_pos.
  assert (E : Rpower 2 (ln (m12 / m01) / ln 2) = m12 / m01).
  { unfold Rpower. replace (ln (m12 / m01) / ln 2 * ln 2) with (ln (m12 / m01)) by (field; lra). apply exp_ln. apply Rdiv_lt_0_compat; assumption. }
  rewrite E. unfold Rdiv. split.
  - apply Rmult_le_compat; [lra|apply Rlt_le, Rinv_0_lt_compat; lra|lra|apply Rinv_le_contravar; lra].
  - apply Rmult_le_compat; [lra|apply Rlt_le, Rinv_0_lt_compat; lra|lra|apply Rinv_le_contravar; lra].
Qed.

Lemma ln_le' : forall x y, 0 < x -> x <= y -> ln x <= ln y.
Proof. intros x y Hx [H| ->]; [apply Rlt_le, ln_increasing; assumption|lra]. Qed.

Lemma order_seen : forall v q e0, 1 < q -> 0 < e0 ->
  (q * (q * e0) - q * e0) / (q * e0 + e0) <= Rpower 2 v <= (q * (q * e0) + q * e0) / (q * e0 - e0) ->
  Rabs (v - ln q / ln 2) <= ln ((q + 1) / (q - 1)) / ln 2.
Proof.
  intros v q e0 Hq He [H1 H2]. pose proof ln2_pos as L2.
  assert (P : 0 < Rpower 2 v) by (unfold Rpower; apply exp_pos).
  assert (EV : ln (Rpower 2 v) = v * ln 2) by (unfold Rpower; apply ln_exp).
  replace ((q * (q * e0) - q * e0) / (q * e0 + e0)) with (q / ((q + 1) / (q - 1))) in H1 by (field; repeat split; nra).
  replace ((q * (q * e0) + q * e0) / (q * e0 - e0)) with (q * ((q + 1) / (q - 1))) in H2 by (field; repeat split; nra).
  set (d := (q + 1) / (q - 1)) in *. assert (Hd : 0 < d) by (apply Rdiv_lt_0_compat; lra).
  apply ln_le' in H1; [|apply Rdiv_lt_0_compat; lra]. apply ln_le' in H2; [|exact P].
  rewrite ln_div in H1 by lra. rewrite ln_mult in H2 by lra. rewrite EV in *.
  apply Rabs_le. replace (v - ln q / ln 2) with ((v * ln 2 - ln q) / ln 2) by (field; lra).
  split; [replace (- (ln d / ln 2)) with ((- ln d) / ln 2) by (field; lra)|]; apply Rmult_le_compat_r; try (apply Rlt_le, Rinv_0_lt_compat; exact L2); lra.
Qed.

Lemma square_dbl : forall N i j, (0 < N)%Z -> square_pt (2 * N) (2 * i) (2 * j) = square_pt N i j.
Proof.
  intros N i j H. assert (IZR N <> 0) by (apply not_0_IZR; lia). unfold square_pt. rewrite !mult_IZR. f_equal; field; assumption.
Qed.

Lemma region_dbl : forall r N i j, (0 < N)%Z -> (region_node r N (i, j) <-> in_open_grid N (i, j) /\ region_node r (2 * N) (2 * i, 2 * j)%Z).
Proof.
  intros r N i j H. unfold region_node. cbn [fst snd]. rewrite square_dbl by exact H. split.
  - intros [A B]. repeat split; try exact B; unfold in_open_grid in *; cbn [fst snd] in *; lia.
  - tauto.
Qed.

Lemma smooth_rel : forall fuel lib p b M order o0 o1 o2 st0 st1 st2 res0 res1 res2 e0 e1 e2,
  enumerating lib -> table_size M -> table_size (4 * M) ->
  smooth_options (S fuel) p b (4 * M) order = Ok o0 -> ps_run lib o0 st0 = Ok res0 -> res_error res0 = Some e0 ->
  smooth_options (S fuel) p b (2 * M) order = Ok o1 -> ps_run lib o1 st1 = Ok res1 -> res_error res1 = Some e1 ->
  smooth_options (S fuel) p b M order = Ok o2 -> ps_run lib o2 st2 = Ok res2 -> res_error res2 = Some e2 ->
  let r := boundary_r b (23 / 10) None (PI / 4) in
  let rel := run_rel lib o0 (UArray (res_u res0)) (UArray (res_u res1)) (UArray (res_u res2)) in
  exists m12 m01,
    is_max (region_node r M) (fun q => Cmod (Cminus (node_value (2 * M)%Z (res_u res1) (2 * fst q)%Z (2 * snd q)%Z) (node_value M (res_u res2) (fst q) (snd q)))) m12 /\
    is_max (region_node r (2 * M)) (fun q => Cmod (Cminus (node_value (4 * M)%Z (res_u res0) (2 * fst q)%Z (2 * snd q)%Z) (node_value (2 * M) (res_u res1) (fst q) (snd q)))) m01 /\
    rel = Ok (if (Rltb 0 m12 && Rltb 0 m01)%bool then Some (ln (m12 / m01) / ln 2) else None) /\
    e2 - e1 <= m12 <= e2 + e1 /\ e1 - e0 <= m01 <= e1 + e0 /\
    (e0 < e1 -> e1 < e2 -> exists v, rel = Ok (Some v) /\ (e2 - e1) / (e1 + e0) <= Rpower 2 v <= (e2 + e1) / (e1 - e0)) /\
    (forall q, 1 < q -> 0 < e0 -> e1 = q * e0 -> e2 = q * e1 ->
       exists v, rel = Ok (Some v) /\ Rabs (v - ln q / ln 2) <= ln ((q + 1) / (q - 1)) / ln 2).
Proof.
  intros fuel lib p b M order o0 o1 o2 st0 st1 st2 res0 res1 res2 e0 e1 e2 Hl HM HM4 O0 R0 X0 O1 R1 X1 O2 R2 X2 r rel.
  assert (HM2 : table_size (2 * M)).
  { destruct HM as [m [Hm ->]]. destruct HM4 as [m' [Hm' E']]. exists (m + 1)%Z. split.
    - split; [lia|]. destruct (Z.le_gt_cases (m + 1) 10) as [|G]; [assumption|]. assert (m = 10)%Z by lia. subst m.
      assert (2 ^ m' <= 2 ^ 10)%Z by (apply Z.pow_le_mono_r; lia). rewrite <- E' in H. lia.
    - rewrite Z.pow_add_r by lia. lia. }
  destruct (table_size_range M HM) as [HMr _].
  assert (ERR : forall N o st res e, table_size N -> smooth_options (S fuel) p b N order = Ok o -> ps_run lib o st = Ok res -> res_error res = Some e ->
    is_max (region_node r N) (fun q => Cmod (Cminus (smooth_expected p (fst (square_pt N (fst q) (snd q))) (snd (square_pt N (fst q) (snd q))))
      (node_value N (res_u res) (fst q) (snd q)))) e).
  { intros N o st res e HN O R X. pose proof (run_error lib o st res Hl R) as He. rewrite X in He. destruct He as [_ He].
    pose proof (fun i j => region_inside fuel p b N order o i j HN O) as Hin. fold r in Hin.
    destruct (smooth_options_ok fuel p b N order HN) as (nc & nr & _ & _ & E'). rewrite O in E'. apply Ok_inj' in E'.
    destruct (table_size_range N HN) as [HN1 _].
    assert (Hfun : forall q : Z * Z, Cmod (Cminus (o_expected o (fst (get_coord (o_AD o) (o_N o) (fst q) (snd q))) (snd (get_coord (o_AD o) (o_N o) (fst q) (snd q))))
                               (node_value (o_N o) (res_u res) (fst q) (snd q))) =
       Cmod (Cminus (smooth_expected p (fst (square_pt N (fst q) (snd q))) (snd (square_pt N (fst q) (snd q)))) (node_value N (res_u res) (fst q) (snd q)))).
    { intros q. rewrite E'. cbn [o_AD o_N o_expected]. rewrite square_coord by lia. reflexivity. }
    destruct He as [(q & Hq1 & Hq2) Hmax]. split.
    - exists q. split; [destruct q as [i j]; apply Hin; exact Hq1|]. rewrite <- Hq2, <- Hfun. reflexivity.
    - intros q' Hq'. rewrite <- Hfun. apply Hmax. destruct q' as [i j]. apply Hin. exact Hq'. }
  pose proof (ERR _ _ _ _ _ HM4 O0 R0 X0) as M0. pose proof (ERR _ _ _ _ _ HM2 O1 R1 X1) as M1. pose proof (ERR _ _ _ _ _ HM O2 R2 X2) as M2.
  assert (EN : o_N o0 = (4 * M)%Z).
  { destruct (smooth_options_ok fuel p b (4 * M) order HM4) as (nc & nr & _ & _ & E'). rewrite O0 in E'. apply Ok_inj' in E'. rewrite E'. reflexivity. }
  set (nodes := lib_enum lib (global_Mplus (o_N o0) (o_interior o0))).
  assert (Hn : forall q, In q nodes <-> region_node r (4 * M) q).
  { intros [i j]. unfold nodes. destruct (Hl (global_Mplus (o_N o0) (o_interior o0))) as [_ HL]. rewrite HL, Mplus_in.
    pose proof (region_inside fuel p b (4 * M) order o0 i j HM4 O0) as HI. fold r in HI. rewrite <- HI. unfold o_inside. cbn [fst snd]. tauto. }
  assert (F : (4 * M = 2 * (2 * M))%Z) by lia.
  destruct (rel_core M nodes (res_u res0) (res_u res1) (res_u res2) (region_node r M) (region_node r (2 * M)) (region_node r (4 * M))
    (fun q => smooth_expected p (fst (square_pt M (fst q) (snd q))) (snd (square_pt M (fst q) (snd q))))
    (fun q => smooth_expected p (fst (square_pt (2 * M) (fst q) (snd q))) (snd (square_pt (2 * M) (fst q) (snd q))))
    (fun q => smooth_expected p (fst (square_pt (4 * M) (fst q) (snd q))) (snd (square_pt (4 * M) (fst q) (snd q)))) e0 e1 e2
    ltac:(lia) Hn (fun q H => proj1 H)) as (m12 & m01 & EP & I12 & I01 & B12 & B01).
  - intros i j. rewrite (region_dbl r (2 * M) i j) by lia. rewrite <- F. reflexivity.
  - intros i j. rewrite (region_dbl r M i j) by lia. split.
    + intros [A B]. split; [exact A|]. apply (region_dbl r (2 * M)) in B; [|lia]. destruct B as [_ B]. rewrite F.
      replace (4 * i)%Z with (2 * (2 * i))%Z by lia. replace (4 * j)%Z with (2 * (2 * j))%Z by lia. exact B.
    + intros [A B]. split; [exact A|]. apply (region_dbl r (2 * M)); [lia|]. split; [unfold in_open_grid in *; cbn [fst snd] in *; lia|].
      rewrite <- F. replace (2 * (2 * i))%Z with (4 * i)%Z by lia. replace (2 * (2 * j))%Z with (4 * j)%Z by lia. exact B.
  - intros i j. cbn [fst snd]. rewrite F, square_dbl by lia. reflexivity.
  - intros i j. cbn [fst snd]. rewrite F. replace (4 * i)%Z with (2 * (2 * i))%Z by lia. replace (4 * j)%Z with (2 * (2 * j))%Z by lia.
    rewrite !square_dbl by lia. reflexivity.
  - exact M0.
  - exact M1.
  - exact M2.
  - assert (ER : rel = Ok (log2_ratio (m12, m01))).
    { unfold rel, run_rel, calc_rel_convergence. fold nodes. rewrite EN, EP. reflexivity. }
    assert (P0 : 0 <= e0) by (destruct M0 as [(q & _ & <-) _]; apply Cmod_ge_0).
    exists m12, m01. split; [exact I12|]. split; [exact I01|]. split; [rewrite ER; reflexivity|]. split; [exact B12|]. split; [exact B01|]. split.
    + intros L1 L2. destruct (log2_value m12 m01 e0 e1 e2 B12 B01 P0 L1 L2) as (v & Ev & Hv). exists v. split; [rewrite ER, Ev; reflexivity|exact Hv].
    + intros q Hq He -> ->. assert (Q1 : e0 < q * e0) by nra. assert (Q2 : q * e0 < q * (q * e0)) by nra. destruct (log2_value m12 m01 e0 (q * e0) (q * (q * e0)) B12 B01 P0 Q1 Q2) as (v & Ev & Hv).
      exists v. split; [rewrite ER, Ev; reflexivity|]. apply (order_seen v q e0 Hq He Hv).
Qed.

Lemma set_dbl : forall S N i j, (0 < N)%Z -> (set_node S N (i, j) <-> in_open_grid N (i, j) /\ set_node S (2 * N) (2 * i, 2 * j)%Z).
Proof.
  intros S N i j H. unfold set_node. cbn [fst snd]. rewrite square_dbl by exact H. split.
  - intros [A B]. repeat split; try exact B; unfold in_open_grid in *; cbn [fst snd] in *; lia.
  - tauto.
Qed.

Lemma set_dbl4 : forall S M i j, (0 < M)%Z -> (set_node S M (i, j) <-> in_open_grid M (i, j) /\ set_node S (4 * M) (4 * i, 4 * j)%Z).
Proof.
  intros S M i j H. assert (F : (4 * M = 2 * (2 * M))%Z) by lia. rewrite (set_dbl S M i j) by lia. split.
  - intros [A B]. split; [exact A|]. apply (set_dbl S (2 * M)) in B; [|lia]. destruct B as [_ B]. rewrite F.
    replace (4 * i)%Z with (2 * (2 * i))%Z by lia. replace (4 * j)%Z with (2 * (2 * j))%Z by lia. exact B.
  - intros [A B]. split; [exact A|]. apply (set_dbl S (2 * M)); [lia|]. split; [unfold in_open_grid in *; cbn [fst snd] in *; lia|].
    rewrite <- F. replace (2 * (2 * i))%Z with (4 * i)%Z by lia. replace (2 * (2 * j))%Z with (4 * j)%Z by lia. exact B.
Qed.

Lemma array_rel : forall S (expd : R -> R -> C) M nodes u0 u1 u2 e0 e1 e2, (0 < M)%Z ->
  (forall p, In p nodes <-> set_node S (4 * M) p) ->
  let err N u := fun p : Z * Z => Cmod (Cminus (expd (fst (square_pt N (fst p) (snd p))) (snd (square_pt N (fst p) (snd p)))) (node_value N u (fst p) (snd p))) in
  is_max (set_node S (4 * M)) (err (4 * M)%Z u0) e0 -> is_max (set_node S (2 * M)) (err (2 * M)%Z u1) e1 -> is_max (set_node S M) (err M u2) e2 ->
  let rel := calc_rel_convergence (4 * M) nodes (UArray u0) (UArray u1) (UArray u2) in
  (e0 < e1 -> e1 < e2 -> exists v, rel = Ok (Some v) /\ (e2 - e1) / (e1 + e0) <= Rpower 2 v <= (e2 + e1) / (e1 - e0)) /\
  (forall q, 1 < q -> 0 < e0 -> e1 = q * e0 -> e2 = q * e1 ->
     exists v, rel = Ok (Some v) /\ Rabs (v - ln q / ln 2) <= ln ((q + 1) / (q - 1)) / ln 2).
Proof.
  intros S expd M nodes u0 u1 u2 e0 e1 e2 HM Hn err M0 M1 M2 rel. assert (F : (4 * M = 2 * (2 * M))%Z) by lia.
  destruct (rel_core M nodes u0 u1 u2 (set_node S M) (set_node S (2 * M)) (set_node S (4 * M))
    (fun q => expd (fst (square_pt M (fst q) (snd q))) (snd (square_pt M (fst q) (snd q))))
    (fun q => expd (fst (square_pt (2 * M) (fst q) (snd q))) (snd (square_pt (2 * M) (fst q) (snd q))))
    (fun q => expd (fst (square_pt (4 * M) (fst q) (snd q))) (snd (square_pt (4 * M) (fst q) (snd q)))) e0 e1 e2
    HM Hn (fun q H => proj1 H)) as (m12 & m01 & EP & _ & _ & B12 & B01).
  - intros i j. rewrite (set_dbl S (2 * M) i j) by lia. rewrite <- F. reflexivity.
  - intros i j. apply set_dbl4. exact HM.
  - intros i j. cbn [fst snd]. rewrite F, square_dbl by lia. reflexivity.
  - intros i j. cbn [fst snd]. rewrite F. replace (4 * i)%Z with (2 * (2 * i))%Z by lia. replace (4 * j)%Z with (2 * (2 * j))%Z by lia.
    rewrite !square_dbl by lia. reflexivity.
  - exact M0.
  - exact M1.
  - exact M2.
  - assert (ER : rel = Ok (log2_ratio (m12, m01))) by (unfold rel, calc_rel_convergence; rewrite EP; reflexivity).
    assert (P0 : 0 <= e0) by (destruct M0 as [(q & _ & <-) _]; apply Cmod_ge_0). split.
    + intros L1 L2. destruct (log2_value m12 m01 e0 e1 e2 B12 B01 P0 L1 L2) as (v & Ev & Hv). exists v. split; [rewrite ER, Ev; reflexivity|exact Hv].
    + intros q Hq He -> ->. assert (Q1 : e0 < q * e0) by nra. assert (Q2 : q * e0 < q * (q * e0)) by nra.
      destruct (log2_value m12 m01 e0 (q * e0) (q * (q * e0)) B12 B01 P0 Q1 Q2) as (v & Ev & Hv).
      exists v. split; [rewrite ER, Ev; reflexivity|]. apply (order_seen v q e0 Hq He Hv).
Qed.

Lemma py_max_same : forall l l', (forall x, In x l <-> In x l') -> py_max l = py_max l'.
Proof.
  intros l l' H. destruct l as [|a l].
  - destruct l' as [|b l']; [reflexivity|]. exfalso. apply (proj2 (H b)). left. reflexivity.
  - destruct (list_max (a :: l) a (or_introl eq_refl)) as (m & E & Hi & Hm). rewrite E. symmetry. apply py_max_spec. split; [apply H, Hi|].
    intros x Hx. apply Hm, H, Hx.
Qed.

Lemma holds_compared : forall s Nf Nc If Ic mf mc uf uc i j d, holds_array s Nf If mf uf -> holds_array s Nc Ic mc uc ->
  Ic (i, j) -> If (2 * i, 2 * j)%Z ->
  (compared mf mc i j d <-> d = Cmod (Cminus (node_value Nf uf (2 * i) (2 * j)) (node_value Nc uc i j))).
Proof.
  intros s Nf Nc If Ic mf mc uf uc i j d [_ Hf] [_ Hc] Pc Pf. destruct (Hf _ Pf) as (ef & Gf & Sf & Vf). destruct (Hc _ Pc) as (ec & Gc & Sc & Vc).
  cbn [fst snd] in *. rewrite <- Vf, <- Vc. split.
  - intros (lc & lf & ec' & ef' & G1 & G2 & I1 & (bf & af & El & Es & _) & ->). rewrite Gc in G1. rewrite Gf in G2.
    injection G1 as <-. injection G2 as <-. destruct I1 as [<-|[]].
    assert (In ef' [ef]) as [->|[]] by (rewrite El; apply in_elt). reflexivity.
  - intros ->. exists [ec], [ef], ec, ef. split; [exact Gc|]. split; [exact Gf|]. split; [left; reflexivity|]. split; [|reflexivity].
    exists [], []. split; [reflexivity|]. split; [congruence|intros x []].
Qed.

Lemma multi_rel : forall s S M nodes m0 m1 m2 u0 u1 u2, (0 < M)%Z -> (forall p, In p nodes <-> set_node S (4 * M) p) ->
  holds_array s (4 * M) (set_node S (4 * M)) m0 u0 -> holds_array s (2 * M) (set_node S (2 * M)) m1 u1 -> holds_array s M (set_node S M) m2 u2 ->
  forall N nodes', calc_rel_convergence N nodes' (UMulti m0) (UMulti m1) (UMulti m2) =
    calc_rel_convergence (4 * M) nodes (UArray u0) (UArray u1) (UArray u2).
Proof.
  intros s S M nodes m0 m1 m2 u0 u1 u2 HM Hn H0 H1 H2 N nodes'. assert (F : (4 * M = 2 * (2 * M))%Z) by lia.
  unfold calc_rel_convergence. f_equal.
  assert (D4 : (4 * M / 4 = M)%Z) by (rewrite Z.mul_comm; apply Z.div_mul; lia).
  assert (D2 : (4 * M / 2 = 2 * M)%Z) by (replace (4 * M)%Z with (2 * M * 2)%Z by lia; apply Z.div_mul; lia).
  destruct (Proof_Grid.rel_diffs_spec (4 * M)%Z u0 u1 u2 nodes) as (d12 & d01 & ED & A12 & A01).
  { rewrite Z.mul_comm. apply Z.mod_mul. lia. }
  { intros p Hp. apply Hn in Hp. apply Hp. }
  rewrite D4, D2 in *.
  assert (N1 : forall i j, set_node S (4 * M) (4 * i, 4 * j)%Z -> set_node S M (i, j) /\ set_node S (2 * M) (2 * i, 2 * j)%Z).
  { intros i j H. assert (P : set_node S M (i, j)).
    { apply set_dbl4; [exact HM|]. split; [destruct H as [H _]; unfold in_open_grid in *; cbn [fst snd] in *; lia|exact H]. }
    split; [exact P|]. apply (set_dbl S M i j HM) in P. apply P. }
  assert (N2 : forall i j, set_node S (4 * M) (2 * i, 2 * j)%Z -> set_node S (2 * M) (i, j)).
  { intros i j H. apply set_dbl; [lia|]. rewrite <- F. split; [destruct H as [H _]; unfold in_open_grid in *; cbn [fst snd] in *; lia|exact H]. }
  assert (Hm0 : forall p, In p (mv_nodes m0) <-> set_node S (4 * M) p) by (apply H0).
  assert (ex : exists d, mv_rel_diffs m0 m1 m2 (mv_nodes m0) = Ok d).
  { apply Proof_MvRel.rel_diffs_ok_iff. split; intros i j Hi; apply Hm0 in Hi.
    - destruct (N1 i j Hi) as [Pa Pb]. destruct (proj2 H2 _ Pa) as (ec & Gc & _). destruct (proj2 H1 _ Pb) as (ef & Gf & _).
      exists [ec]. split; [exact Gc|]. right. exists [ef]. exact Gf.
    - pose proof (N2 i j Hi) as Pb. destruct (proj2 H1 _ Pb) as (ec & Gc & _). destruct (proj2 H0 _ Hi) as (ef & Gf & _).
      exists [ec]. split; [exact Gc|]. right. exists [ef]. exact Gf. }
  destruct ex as [[e12 e01] EM]. destruct (Proof_MvRel.rel_diffs_spec _ _ _ _ _ _ EM) as [C12 C01].
  unfold mv_rel_pair, rel_convergence_pair. rewrite ED, EM. cbn [bind fst snd].
  rewrite (py_max_same e12 d12), (py_max_same e01 d01); [reflexivity| |].
  - intros d. rewrite C01, A01. split.
    + intros (i & j & Hi & Hd). exists i, j. apply Hm0 in Hi. pose proof (N2 i j Hi) as Pb. split; [apply Hn, Hi|]. split; [apply Pb|].
      apply (holds_compared s _ _ _ _ m0 m1 u0 u1 i j d H0 H1 Pb Hi). exact Hd.
    + intros (i & j & Hi & _ & Hd). exists i, j. apply Hn in Hi. pose proof (N2 i j Hi) as Pb. split; [apply Hm0, Hi|].
      apply (holds_compared s _ _ _ _ m0 m1 u0 u1 i j d H0 H1 Pb Hi). exact Hd.
  - intros d. rewrite C12, A12. split.
    + intros (i & j & Hi & Hd). exists i, j. apply Hm0 in Hi. destruct (N1 i j Hi) as [Pa Pb]. split; [apply Hn, Hi|]. split; [apply Pa|]. split; [apply Pb|].
      apply (holds_compared s _ _ _ _ m1 m2 u1 u2 i j d H1 H2 Pa Pb). exact Hd.
    + intros (i & j & Hi & _ & _ & Hd). exists i, j. apply Hn in Hi. destruct (N1 i j Hi) as [Pa Pb]. split; [apply Hm0, Hi|].
      apply (holds_compared s _ _ _ _ m1 m2 u1 u2 i j d H1 H2 Pa Pb). exact Hd.
Qed.

Lemma z_rel : forall fuel L s b acheat z1cheat attr M order z, enumerating (zl_ps L) -> (0 < M)%Z -> table_size (4 * M) ->
  zm_run fuel L (sing_problem (zl_jv L) (zl_gamma L) s) b acheat z1cheat attr (4 * M) order = Ok z ->
  forall (w : R -> R -> C) u1 u2 e0 e1 e2,
  let r := boundary_r b (23 / 10) None (PI / 4) in
  let err N u := fun p : Z * Z => Cmod (Cminus (w (fst (square_pt N (fst p) (snd p))) (snd (square_pt N (fst p) (snd p)))) (node_value N u (fst p) (snd p))) in
  is_max (region_node r (4 * M)) (err (4 * M)%Z (zr_u z)) e0 -> is_max (region_node r (2 * M)) (err (2 * M)%Z u1) e1 -> is_max (region_node r M) (err M u2) e2 ->
  let rel := run_rel (zl_ps L) (zr_opt z) (UArray (zr_u z)) (UArray u1) (UArray u2) in
  (e0 < e1 -> e1 < e2 -> exists v, rel = Ok (Some v) /\ (e2 - e1) / (e1 + e0) <= Rpower 2 v <= (e2 + e1) / (e1 - e0)) /\
  (forall q, 1 < q -> 0 < e0 -> e1 = q * e0 -> e2 = q * e1 ->
     exists v, rel = Ok (Some v) /\ Rabs (v - ln q / ln 2) <= ln ((q + 1) / (q - 1)) / ln 2).
Proof.
  intros fuel L s b acheat z1cheat attr M order z Hl HM HN Hz w u1 u2 e0 e1 e2 r err H0 H1 H2 rel.
  destruct (zm_run_inv _ _ _ _ _ _ _ _ _ _ Hz) as (_ & _ & _ & _ & _ & (nc & nr & Eo) & _).
  assert (EN : o_N (zr_opt z) = (4 * M)%Z) by (rewrite Eo; reflexivity).
  unfold rel, run_rel. rewrite EN.
  apply (array_rel (in_region r (PI / 4)) w M _ (zr_u z) u1 u2 e0 e1 e2 HM); [|exact H0|exact H1|exact H2].
  intros [i j]. destruct (Hl (global_Mplus (4 * M) (o_interior (zr_opt z)))) as [_ HL]. rewrite HL, Mplus_in.
  pose proof (zopt_region L (sing_problem (zl_jv L) (zl_gamma L) s) b (zr_a z) nc nr (4 * M) order i j HN) as HI. rewrite <- Eo in HI.
  unfold o_inside in HI. rewrite EN in HI. cbn [fst snd]. exact HI.
Qed.

(** ** Examples *)

Lemma centre_only : forall S M p, (0 < M)%Z -> (forall q, S q <-> q = (0, 0)) -> (set_node S (2 * M) p <-> p = (M, M)).
Proof.
  intros S M [i j] HM HS. unfold set_node. rewrite HS. cbn [fst snd]. unfold square_pt.
  assert (0 < IZR M) by (apply IZR_lt; exact HM). pose proof PI_RGT_0. rewrite mult_IZR.
  assert (Z : forall k, 2 * PI * IZR k / (2 * IZR M) - PI = 0 <-> k = M).
  { intros k. split; [|intros ->; field; lra]. intros E. apply eq_IZR.
    assert (E' : PI / IZR M * (IZR k - IZR M) = 0) by (rewrite <- E; field; lra). apply Rmult_integral in E'.
    destruct E' as [E'|E']; [|lra]. exfalso. assert (0 < PI / IZR M) by (apply Rdiv_lt_0_compat; lra). lra. }
  split.
  - intros [_ E]. injection E as E1 E2. apply Z in E1. apply Z in E2. congruence.
  - intros E. injection E as -> ->. split; [unfold in_open_grid; cbn [fst snd]; lia|]. f_equal; apply Z; reflexivity.
Qed.

Definition only0 (q : R * R) : Prop := q = (0, 0).
Definition const_arr (c : R) : arr2 := fun _ _ => RtoC c.

Lemma const_max : forall M c, (0 < M)%Z -> 0 <= c ->
  is_max (set_node only0 (2 * M)) (fun p : Z * Z => Cmod (Cminus (RtoC 0) (node_value (2 * M)%Z (const_arr c) (fst p) (snd p)))) c.
Proof.
  intros M c HM Hc. assert (V : Cmod (Cminus (RtoC 0) (node_value (2 * M)%Z (const_arr c) M M)) = c).
  { unfold node_value, const_arr. replace (1 <=? M)%Z with true by (symmetry; apply Z.leb_le; lia).
    replace (M <=? 2 * M - 1)%Z with true by (symmetry; apply Z.leb_le; lia). cbn [andb]. rewrite <- RtoC_minus, Cmod_R.
    replace (0 - c) with (- c) by ring. rewrite Rabs_Ropp. apply Rabs_pos_eq. exact Hc. }
  split.
  - exists (M, M). split; [apply (centre_only only0 M); [exact HM|reflexivity|reflexivity]|exact V].
  - intros p Hp. apply (centre_only only0 M) in Hp; [|exact HM|reflexivity]. subst p. cbn [fst snd]. rewrite V. lra.
Qed.

Lemma array_example :
  (forall p, In p [(4, 4)%Z] <-> set_node only0 (4 * 2) p) /\
  let err N u := fun p : Z * Z => Cmod (Cminus (RtoC 0) (node_value N u (fst p) (snd p))) in
  is_max (set_node only0 (4 * 2)) (err (4 * 2)%Z (const_arr 1)) 1 /\ is_max (set_node only0 (2 * 2)) (err (2 * 2)%Z (const_arr 16)) 16 /\
  is_max (set_node only0 2) (err 2%Z (const_arr 256)) 256 /\
  calc_rel_convergence 8 [(4, 4)%Z] (UArray (const_arr 1)) (UArray (const_arr 16)) (UArray (const_arr 256)) = Ok (Some 4).
Proof.
  split.
  { intros p. change (4 * 2)%Z with (2 * 4)%Z. rewrite (centre_only only0 4 p) by (lia || reflexivity). split; [intros [<-|[]]; reflexivity|intros ->; left; reflexivity]. }
  intros err. split; [apply (const_max 4 1); [lia|lra]|]. split; [apply (const_max 2 16); [lia|lra]|]. split; [apply (const_max 1 256); [lia|lra]|].
  unfold calc_rel_convergence, rel_convergence_pair. cbn. unfold const_arr. rewrite <- !RtoC_minus, !Cmod_R. unfold log2_ratio. cbn [fst snd].
  rewrite !Rabs_left by lra. repeat (match goal with |- context [Rltb 0 ?x] => destruct (Rltb_spec 0 x); [|lra] end). cbn [andb].
  f_equal. f_equal. pose proof ln2_pos. replace (- (16 - 256) / - (1 - 16)) with (2 ^ 4) by field.
  rewrite ln_pow by lra. cbn [INR]. field. lra.
Qed.

Definition single_mv (p : Z * Z) (c : R) : multivalue := mk_mv [p] [(p, [mk_entry 0 (RtoC c) (0%Z, EStandard)])].

Lemma single_holds : forall M c, (0 < M)%Z -> holds_array (0%Z, EStandard) (2 * M) (set_node only0 (2 * M)) (single_mv (M, M) c) (const_arr c).
Proof.
  intros M c HM. split.
  - intros p. rewrite (centre_only only0 M p) by (exact HM || reflexivity). cbn. split; [intros [<-|[]]; reflexivity|intros ->; left; reflexivity].
  - intros p Hp. apply (centre_only only0 M) in Hp; [|exact HM|reflexivity]. subst p. eexists. split.
    + unfold mv_get, single_mv. cbn. unfold node_eqb. cbn. rewrite !Z.eqb_refl. reflexivity.
    + split; [reflexivity|]. cbn [me_value fst snd]. unfold node_value, const_arr. replace (1 <=? M)%Z with true by (symmetry; apply Z.leb_le; lia).
      replace (M <=? 2 * M - 1)%Z with true by (symmetry; apply Z.leb_le; lia). reflexivity.
Qed.

Lemma smooth_rel_example : let lib := ex_lib min_zero in
  enumerating lib /\ table_size 32 /\ table_size (4 * 32) /\
  exists o0 o1 o2 st0 st1 st2 res0 res1 res2 e0 e1 e2,
    (smooth_options 1 SmoothSine OuterSine (4 * 32) 4 = Ok o0 /\ ps_run lib o0 st0 = Ok res0 /\ res_error res0 = Some e0) /\
    (smooth_options 1 SmoothSine OuterSine (2 * 32) 4 = Ok o1 /\ ps_run lib o1 st1 = Ok res1 /\ res_error res1 = Some e1) /\
    (smooth_options 1 SmoothSine OuterSine 32 4 = Ok o2 /\ ps_run lib o2 st2 = Ok res2 /\ res_error res2 = Some e2).
Proof.
  intros lib. split; [apply ex_enumerating|].
  assert (T5 : table_size 32) by (exists 5%Z; split; [lia|reflexivity]). assert (T6 : table_size (2 * 32)) by (exists 6%Z; split; [lia|reflexivity]).
  assert (T7 : table_size (4 * 32)) by (exists 7%Z; split; [lia|reflexivity]). split; [exact T5|]. split; [exact T7|].
  assert (Q : forall N, table_size N -> exists o st res e, smooth_options 1 SmoothSine OuterSine N 4 = Ok o /\ ps_run lib o st = Ok res /\ res_error res = Some e).
  { intros N HN. destruct (curve_run_full 0 lib SmoothSine OuterSine N 4 (ex_enumerating _) (ex_fit _) min_zero_contract HN (or_intror eq_refl))
      as (o & st & res & e & A & _ & B & _ & D & _); [discriminate|]. exists o, st, res, e. auto. }
  destruct (Q _ T7) as (o0 & st0 & res0 & e0 & P0). destruct (Q _ T6) as (o1 & st1 & res1 & e1 & P1). destruct (Q _ T5) as (o2 & st2 & res2 & e2 & P2).
  exists o0, o1, o2, st0, st1, st2, res0, res1, res2, e0, e1, e2. auto.
Qed.

Lemma region_max : forall b N (f : Z * Z -> R), table_size N -> exists e, is_max (region_node (boundary_r b (23 / 10) None (PI / 4)) N) f e.
Proof.
  intros b N f HN. destruct (smooth_options_ok 0 SmoothSine b N 4 HN) as (nc & nr & _ & _ & E).
  set (o := mk_opt _ _ _ _ _ _ _ _ _ _ _ _ _ _ _) in E.
  assert (Hin : forall p, In p (global_Mplus (o_N o) (o_interior o)) <-> region_node (boundary_r b (23 / 10) None (PI / 4)) N p).
  { intros [i j]. rewrite Mplus_in. rewrite <- (region_inside 0 SmoothSine b N 4 o i j HN E). reflexivity. }
  destruct (curve_node_inside b N HN) as (i & j & Hij). apply Hin in Hij.
  destruct (list_max (map f (global_Mplus (o_N o) (o_interior o))) (f (i, j)) (in_map f _ _ Hij)) as (e & _ & Hi & Hm).
  exists e. split.
  - apply in_map_iff in Hi. destruct Hi as (p & Ep & Hp). exists p. split; [apply Hin, Hp|exact Ep].
  - intros p Hp. apply Hm, in_map, Hin, Hp.
Qed.

Lemma region_const : forall b N c, table_size N -> 0 <= c ->
  is_max (region_node (boundary_r b (23 / 10) None (PI / 4)) N) (fun p => Cmod (Cminus (RtoC 0) (node_value N (const_arr c) (fst p) (snd p)))) c.
Proof.
  intros b N c HN Hc. assert (V : forall p, in_open_grid N p -> Cmod (Cminus (RtoC 0) (node_value N (const_arr c) (fst p) (snd p))) = c).
  { intros [i j] [H1 H2]. cbn [fst snd] in *. unfold node_value, const_arr.
    replace (1 <=? i)%Z with true by (symmetry; apply Z.leb_le; lia). replace (i <=? N - 1)%Z with true by (symmetry; apply Z.leb_le; lia).
    replace (1 <=? j)%Z with true by (symmetry; apply Z.leb_le; lia). replace (j <=? N - 1)%Z with true by (symmetry; apply Z.leb_le; lia).
    cbn [andb]. rewrite <- RtoC_minus, Cmod_R. replace (0 - c) with (- c) by ring. rewrite Rabs_Ropp. apply Rabs_pos_eq. exact Hc. }
  destruct (curve_node_inside b N HN) as (i & j & Hij). split.
  - exists (i, j). split; [exact Hij|apply V, Hij].
  - intros p Hp. rewrite V by apply Hp. lra.
Qed.

Lemma z_rel_example : let L := mk_zlib (ex_lib min_zero) jv_series gamma_ex (fun _ _ _ _ _ _ => 0) (fun _ _ => 0) lookup2d in
  enumerating (zl_ps L) /\ table_size (4 * 16) /\
  exists z e0, zm_run 1 L (sing_problem (zl_jv L) (zl_gamma L) IhzLine) Arc true false (Some None) (4 * 16) 4 = Ok z /\
    let r := boundary_r Arc (23 / 10) None (PI / 4) in
    let err N u := fun p : Z * Z => Cmod (Cminus (RtoC 0) (node_value N u (fst p) (snd p))) in
    is_max (region_node r (4 * 16)) (err (4 * 16)%Z (zr_u z)) e0 /\ is_max (region_node r (2 * 16)) (err (2 * 16)%Z (const_arr (e0 + 1))) (e0 + 1) /\
    is_max (region_node r 16) (err 16%Z (const_arr (e0 + 2))) (e0 + 2) /\ e0 < e0 + 1 < e0 + 2.
Proof.
  intros L. assert (Hl : enumerating (zl_ps L)) by apply ex_enumerating.
  assert (T4 : table_size 16) by (exists 4%Z; split; [lia|reflexivity]). assert (T5 : table_size (2 * 16)) by (exists 5%Z; split; [lia|reflexivity]).
  assert (T6 : table_size (4 * 16)) by (exists 6%Z; split; [lia|reflexivity]). split; [exact Hl|]. split; [exact T6|].
  destruct (z_run L IhzLine true false None (4 * 16) 4 Hl (ex_fit _) min_zero_contract T6 (or_intror eq_refl)) as (z & Hz & _).
  destruct (region_max Arc (4 * 16) (fun p => Cmod (Cminus (RtoC 0) (node_value (4 * 16)%Z (zr_u z) (fst p) (snd p)))) T6) as (e0 & He).
  assert (P : 0 <= e0) by (destruct He as [(q & _ & <-) _]; apply Cmod_ge_0).
  exists z, e0. split; [apply Hz|]. intros r err. split; [exact He|]. split; [apply (region_const Arc (2 * 16)); [exact T5|lra]|].
  split; [apply (region_const Arc 16); [exact T4|lra]|lra].
Qed.
