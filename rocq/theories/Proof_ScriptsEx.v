(** Instances for the properties of the scripts (C78 to C81). *)
From Coq Require Import ZArith List Bool Reals Lia Lra.
From Coquelicot Require Import Coquelicot.
From Verif Require Import Model_Py Model_Multivalue Model_Grid Model_Domain Model_Extend Model_Abcoef Model_Run Model_Program Model_Scripts
  Spec_Domain Spec_Grid Spec_Extend Spec_Run Spec_Program Spec_Curve Spec_Scripts
  Proof_Place Proof_RunEx Proof_Domain Proof_Run Proof_Program Proof_CurveRun Proof_Scripts Proof_Scripts2.
Import ListNotations.
Open Scope R_scope.
Local Notation table_size := Spec_Program.table_size.

Lemma table16 : table_size 16.
Proof. exists 4%Z. split; [lia|reflexivity]. Qed.

Lemma resonance_ex : exists l, resonance_main (2 * PI) = Ok l /\ In (/ sqrt 2) l.
Proof.
  pose proof PI_RGT_0 as HPI. assert (Hs : 2 * PI <> 0) by lra.
  assert (E : exists l, resonance_main (2 * PI) = Ok l) by (unfold resonance_main; destruct (Reqb_spec (2 * PI) 0); [contradiction|eexists; reflexivity]).
  destruct E as [l E]. exists l. split; [exact E|]. apply (resonance_values _ l Hs E). exists 1%Z, 1%Z.
  split; [split; [exists 0%Z; lia|split; [exists 0%Z; lia|lia]]|]. rewrite Rabs_pos_eq by lra.
  assert (Hq : 0 < sqrt 2) by (apply sqrt_lt_R0; lra). assert (Q : sqrt 2 * sqrt 2 = 2) by (apply sqrt_sqrt; lra).
  replace (1 ^ 2 + 1 ^ 2) with 2 by ring. replace (PI * sqrt 2 / (2 * PI)) with (sqrt 2 / 2) by (field; lra).
  apply (Rmult_eq_reg_r (sqrt 2)); [|lra]. rewrite Rinv_l by lra. unfold Rdiv. rewrite (Rmult_comm (sqrt 2 * / 2)), <- Rmult_assoc, Q. field.
Qed.

Lemma smooth_opt_ex : forall p b, exists o, smooth_options 1 p b 16 4 = Ok o.
Proof. intros p b. destruct (smooth_options_ok 0 p b 16 4 table16) as (nc & nr & _ & _ & E). eexists. exact E. Qed.

Lemma ebt_ex : let lib := ex_lib min_zero in forall p b, exists o st, smooth_options 1 p b 16 4 = Ok o /\ ps_init lib o = Ok st /\
  ctx_wf (st_ctx st) /\ ec_union (st_ctx st) <> [].
Proof.
  intros lib p b. destruct (smooth_opt_ex p b) as [o E]. exists o.
  destruct (smooth_solver 0 lib p b 16 4 o (ex_enumerating min_zero) min_zero_contract table16 (or_intror eq_refl) E) as (st & Hi & Hwf & Hu & _).
  exists st. auto.
Qed.

Lemma unknown_ex : let lib := ex_lib min_zero in exists o, o_known o = false /\ forall nc nr, tried nc nr -> exists x, error_with lib o nc nr x.
Proof.
  intros lib. destruct (smooth_options_ok 0 SmoothSine OuterSine 16 4 table16) as (nc0 & nr0 & _ & _ & E).
  match type of E with _ = Ok ?o => set (o0 := o) in E end.
  exists (mk_opt (o_k o0) (o_R o0) (o_a o0) (o_AD o0) (o_N o0) (o_order o0) (o_r o0) (o_n_basis o0) None None
    (o_homogeneous o0) (o_src o0) (o_bc o0) false (o_expected o0)).
  split; [reflexivity|]. intros nc nr (_ & Hnc & _ & Hnr).
  pose proof (smooth_ok 0 SmoothSine OuterSine 16 4 o0 table16 (or_intror eq_refl) E) as Hok.
  pose proof (smooth_curve_options 0 lib SmoothSine OuterSine 16 4 o0 min_zero_contract table16 E) as Hcv.
  match goal with |- exists x, error_with lib ?o nc nr x => set (o' := resized o (Z.to_nat nc) (Z.to_nat nr)) end.
  destruct (curve_total lib o' (Z.to_nat nc) (Z.to_nat nr) (ex_enumerating min_zero) Hok (ex_fit min_zero) Hcv eq_refl ltac:(lia) ltac:(lia)) as (st & res & Hi & _ & _ & Hrun).
  - left. reflexivity.
  - intros F. discriminate F.
  - exists (res_error res), st, res. auto.
Qed.

Lemma tef_ex : exists e, tef_run_test 1 (ex_lib min_zero) [0; 1; 2]%nat 16 = Ok e.
Proof.
  destruct (tef_default 0 (ex_lib min_zero) 16 (ex_enumerating min_zero) min_zero_contract table16) as (_ & _ & e & _ & _ & H & _).
  exists e. exact H.
Qed.

Lemma resonance_total : forall s, (exists l, resonance_main s = Ok l) <-> s <> 0.
Proof.
  intros s. unfold resonance_main. destruct (Reqb_spec s 0) as [E|E]; split.
  - intros [l H]. discriminate.
  - intros H. contradiction.
  - intros _. exact E.
  - intros _. eexists. reflexivity.
Qed.
