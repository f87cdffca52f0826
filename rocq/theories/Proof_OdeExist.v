(** The system handed to odeint has exactly one trajectory. *)
From Coq Require Import ZArith List Bool Reals Lia Lra Psatz.
From Coquelicot Require Import Coquelicot.
From Verif Require Import Model_Py Model_Ode Model_Domain Proof_Domain Proof_Ode Proof_Picard Proof_OdeAcc Spec_Ode Spec_OdeAcc.
Import ListNotations.
Open Scope R_scope.

Lemma deriv_even : forall m, (Nat.even (2 * m) = true /\ Nat.even (2 * m + 1) = false /\ Nat.div (2 * m + 1) 2 = m /\ 2 * m + 1 - 1 = 2 * m)%nat.
Proof.
  intros m. split; [|split; [|split]].
  - apply Nat.even_spec. exists m. reflexivity.
  - apply not_true_is_false. intros H. apply Nat.even_spec in H. destruct H as [c H]. lia.
  - symmetry. apply (Nat.div_unique (2 * m + 1) 2 m 1); lia.
  - lia.
Qed.

Lemma parity_cases : forall i M, (i < 2 * M)%nat -> exists m, (m < M)%nat /\ (i = 2 * m \/ i = 2 * m + 1)%nat.
Proof.
  intros i M H. destruct (Nat.Even_or_Odd i) as [[m E]|[m E]]; exists m; split; lia.
Qed.

Lemma ode_exists : forall a nu k N f1 M ic R0 R1, 0 < R0 < R1 ->
  (forall m r, (m < M)%nat -> R0 <= r <= R1 -> continuous (fun r => ode_dst a N (f1 r) m) r) ->
  exists sol, trajectory (ode_eval_deriv a nu k N f1 M) (2 * M) ic R0 R1 sol.
Proof.
  intros a nu k N f1 M ic R0 R1 HR Hs.
  assert (P : forall m, (m < M)%nat -> exists Y W : R -> R, Y R0 = ic (2 * m)%nat /\ W R0 = ic (2 * m + 1)%nat /\
    (forall t, continuous Y t /\ continuous W t) /\
    forall t, R0 < t < R1 -> is_derive Y t (W t) /\
      is_derive W t (ode_dst a N (f1 t) m - / t * W t - (k ^ 2 - (INR (m + 1) * nu / t) ^ 2) * Y t)).
  { intros m Hm. set (cl := clamp R0 R1).
    assert (Hcl : forall t, R0 <= cl t <= R1) by (intros t; apply clamp_in; lra).
    assert (Hcc : forall t, continuous cl t) by (intros t; apply clamp_cont).
    assert (CC : forall f : R -> R, (forall r, R0 <= r <= R1 -> continuous f r) -> forall t, continuous (fun t => f (cl t)) t)
      by (intros f Hf t; apply (continuous_comp cl f); [apply Hcc|apply Hf, Hcl]).
    set (p0 := fun r => / r). set (q0 := fun r => k ^ 2 - (INR (m + 1) * nu / r) ^ 2).
    assert (Dp : forall r, R0 <= r <= R1 -> continuous p0 r).
    { intros r Hr. apply (ex_derive_continuous (K := R_AbsRing) (V := R_NormedModule)). unfold p0. auto_derive. lra. }
    assert (Dq : forall r, R0 <= r <= R1 -> continuous q0 r).
    { intros r Hr. apply (ex_derive_continuous (K := R_AbsRing) (V := R_NormedModule)). unfold q0. auto_derive. repeat split; lra. }
    assert (Bd : forall f : R -> R, (forall r, R0 <= r <= R1 -> continuous f r) -> exists L, forall r, R0 <= r <= R1 -> Rabs (f r) <= L).
    { intros f Hf. destruct (continuity_ab_maj (fun r => Rabs (f r)) R0 R1 ltac:(lra)) as [M0 [HM _]].
      - intros c Hc. apply continuity_pt_filterlim. apply (continuous_comp f Rabs); [apply Hf; exact Hc|apply continuous_Rabs].
      - exists (Rabs (f M0)). exact HM. }
    destruct (Bd p0 Dp) as [L1 HL1]. destruct (Bd q0 Dq) as [L2 HL2].
    destruct (picard R0 R1 (fun t => p0 (cl t)) (fun t => q0 (cl t)) (fun t => ode_dst a N (f1 (cl t)) m) (Rmax L1 L2)
      (ic (2 * m)%nat) (ic (2 * m + 1)%nat)) as (Y & W & E1 & E2 & C & D).
    - lra.
    - apply CC. exact Dp.
    - apply CC. exact Dq.
    - apply (CC (fun r => ode_dst a N (f1 r) m)). intros r Hr. apply Hs; assumption.
    - intros t. split; [apply Rle_trans with L1; [apply HL1, Hcl|apply Rmax_l]|apply Rle_trans with L2; [apply HL2, Hcl|apply Rmax_r]].
    - exists Y, W. split; [exact E1|]. split; [exact E2|]. split; [exact C|]. intros t Ht. destruct (D t Ht) as [D1 D2]. split; [exact D1|].
      replace (cl t) with t in D2 by (symmetry; apply clamp_id; lra). exact D2. }
  assert (Q : forall n, (n <= M)%nat -> exists Y : R -> nat -> R, forall m, (m < n)%nat ->
    Y R0 (2 * m)%nat = ic (2 * m)%nat /\ Y R0 (2 * m + 1)%nat = ic (2 * m + 1)%nat /\
    (forall t, continuous (fun r => Y r (2 * m)%nat) t /\ continuous (fun r => Y r (2 * m + 1)%nat) t) /\
    forall t, R0 < t < R1 -> is_derive (fun r => Y r (2 * m)%nat) t (Y t (2 * m + 1)%nat) /\
      is_derive (fun r => Y r (2 * m + 1)%nat) t (ode_dst a N (f1 t) m - / t * Y t (2 * m + 1)%nat - (k ^ 2 - (INR (m + 1) * nu / t) ^ 2) * Y t (2 * m)%nat)).
  { induction n as [|n IH]; intros Hn.
    - exists (fun _ _ => 0). intros m Hm. lia.
    - destruct (IH ltac:(lia)) as [Y HY]. destruct (P n ltac:(lia)) as (U & W & HUW).
      exists (fun r i => if Nat.eqb i (2 * n) then U r else if Nat.eqb i (2 * n + 1) then W r else Y r i).
      intros m Hm. destruct (Nat.eq_dec m n) as [->|Hne].
      + rewrite Nat.eqb_refl. destruct (Nat.eqb_spec (2 * n + 1) (2 * n)); [lia|]. rewrite Nat.eqb_refl. exact HUW.
      + destruct (Nat.eqb_spec (2 * m) (2 * n)); [lia|]. destruct (Nat.eqb_spec (2 * m) (2 * n + 1)); [lia|].
        destruct (Nat.eqb_spec (2 * m + 1) (2 * n)); [lia|]. destruct (Nat.eqb_spec (2 * m + 1) (2 * n + 1)); [lia|]. apply HY. lia. }
  destruct (Q M (le_n M)) as [Y HY]. exists (Y R1), Y. split; [|split].
  - intros i Hi. split; [|reflexivity]. destruct (parity_cases i M Hi) as (m & Hm & [-> | ->]); apply HY; exact Hm.
  - intros i r Hi Hr. destruct (parity_cases i M Hi) as (m & Hm & [-> | ->]); apply (HY m Hm).
  - intros r Hr. unfold ode_eval_deriv. destruct (Reqb_spec r 0) as [E|_]; [lra|]. eexists. split; [reflexivity|].
    intros i Hi. destruct (parity_cases i M Hi) as (m & Hm & [-> | ->]); destruct (deriv_even m) as (E1 & E2 & E3 & E4); cbv beta zeta.
    + rewrite E1. apply (HY m Hm). exact Hr.
    + rewrite E2, E3, E4. replace (m + 1 - 1)%nat with m by lia.
      destruct (HY m Hm) as (_ & _ & _ & D). destruct (D r Hr) as [_ D2]. evar_last; [exact D2|].
      change (fun th => f1 r th) with (f1 r). unfold Rdiv. ring.
Qed.

Lemma ode_unique : forall a nu k N f1 M ic R0 R1 sol sol', 0 < R0 < R1 -> 0 < nu ->
  trajectory (ode_eval_deriv a nu k N f1 M) (2 * M) ic R0 R1 sol ->
  trajectory (ode_eval_deriv a nu k N f1 M) (2 * M) ic R0 R1 sol' -> forall i, (i < 2 * M)%nat -> sol' i = sol i.
Proof.
  intros a nu k N f1 M ic R0 R1 sol sol' HR Hnu (Y & I1 & C1 & D1) (Y' & I2 & C2 & D2).
  assert (K : forall m, (m < M)%nat -> sol' (2 * m)%nat = sol (2 * m)%nat /\ sol' (2 * m + 1)%nat = sol (2 * m + 1)%nat).
  { intros m Hm. destruct (deriv_even m) as (E1 & E2 & E3 & E4).
    set (y := fun r => Y' r (2 * m)%nat - Y r (2 * m)%nat). set (v := fun r => Y' r (2 * m + 1)%nat - Y r (2 * m + 1)%nat).
    set (be := INR (m + 1) * nu). assert (Hbe : 0 < be) by (unfold be; apply Rmult_lt_0_compat; [apply lt_0_INR; lia|exact Hnu]).
    assert (Dy : forall r, R0 < r < R1 -> is_derive y r (v r) /\ is_derive v r (- v r / r - (k ^ 2 - (be / r) ^ 2) * y r)).
    { intros r Hr. destruct (D1 r Hr) as (F & EF & HF). destruct (D2 r Hr) as (G & EG & HG).
      unfold ode_eval_deriv in EF, EG. destruct (Reqb_spec r 0) as [E|_]; [lra|].
      apply Ok_inj in EF. apply Ok_inj in EG.
      pose proof (HF (2 * m)%nat ltac:(lia)) as F0. pose proof (HF (2 * m + 1)%nat ltac:(lia)) as F1.
      pose proof (HG (2 * m)%nat ltac:(lia)) as G0. pose proof (HG (2 * m + 1)%nat ltac:(lia)) as G1.
      rewrite <- EF in F0, F1. rewrite <- EG in G0, G1. cbv beta zeta in F0, F1, G0, G1.
      rewrite E1 in F0, G0. rewrite E2, E3, E4 in F1, G1. split.
      - apply (is_derive_minus (V := R_NormedModule)); assumption.
      - evar_last. { apply (is_derive_minus (V := R_NormedModule)); [exact G1|exact F1]. }
        unfold y, v, be. match goal with |- minus ?u ?w = _ => change (u - w = - (Y' r (2 * m + 1)%nat - Y r (2 * m + 1)%nat) / r -
          (k ^ 2 - (INR (m + 1) * nu / r) ^ 2) * (Y' r (2 * m)%nat - Y r (2 * m)%nat)) end. unfold Rdiv. ring. }
    set (E := fun r => v r ^ 2 + (k ^ 2 + (be / r) ^ 2) * y r ^ 2).
    set (E' := fun r => 2 * v r * (- v r / r - (k ^ 2 - (be / r) ^ 2) * y r + 0) + (- 2 * be ^ 2 / r ^ 3 * y r ^ 2 + (k ^ 2 + (be / r) ^ 2) * (2 * y r * v r))).
    assert (I0 : y R0 = 0 /\ v R0 = 0).
    { unfold y, v. destruct (I1 (2 * m)%nat ltac:(lia)) as [-> _]. destruct (I1 (2 * m + 1)%nat ltac:(lia)) as [-> _].
      destruct (I2 (2 * m)%nat ltac:(lia)) as [-> _]. destruct (I2 (2 * m + 1)%nat ltac:(lia)) as [-> _]. split; ring. }
    pose proof (gronwall2 E E' (2 * be) 0 R0 R1 HR ltac:(lra) ltac:(lra)) as G.
    assert (GE : E R1 <= (E R0 + 0 * (R1 - R0)) * (Rpower (R1 / R0) (2 * be) * exp (R1 - R0))).
    { apply G.
      - intros r Hr. destruct (Dy r Hr) as [Y1 V1]. split.
        + unfold E, E'. auto_derive.
          * repeat split; try exact I; try lra; eexists; first [exact Y1|exact V1].
          * replace (Derive (fun x => y x) r) with (v r) by (symmetry; apply is_derive_unique; exact Y1).
            replace (Derive (fun x => v x) r) with (- v r / r - (k ^ 2 - (be / r) ^ 2) * y r) by (symmetry; apply is_derive_unique; exact V1).
            field. lra.
        + unfold E', E. replace 0 with (0 ^ 2) at 2 by ring. apply energy2; [lra|lra|rewrite Rabs_R0; lra].
      - intros r Hr. assert (Cy : continuous y r) by (apply (continuous_minus (V := R_NormedModule)); [apply C2|apply C1]; (lia || assumption)).
        assert (Cv : continuous v r) by (apply (continuous_minus (V := R_NormedModule)); [apply C2|apply C1]; (lia || assumption)).
        unfold E. apply (continuous_plus (V := R_NormedModule) (fun r => v r ^ 2) (fun r => (k ^ 2 + (be / r) ^ 2) * y r ^ 2)).
        + apply (continuous_ext (fun r => v r * v r)); [intros x; match goal with |- @eq _ ?u ?w => change (@eq R u w) end; ring|]. apply (continuous_mult (K := R_AbsRing) v v); assumption.
        + apply (continuous_mult (K := R_AbsRing) (fun r => k ^ 2 + (be / r) ^ 2) (fun r => y r ^ 2)).
          * apply (ex_derive_continuous (K := R_AbsRing) (V := R_NormedModule)). auto_derive. lra.
          * apply (continuous_ext (fun r => y r * y r)); [intros x; match goal with |- @eq _ ?u ?w => change (@eq R u w) end; ring|]. apply (continuous_mult (K := R_AbsRing) y y); assumption. }
    destruct I0 as [Y0 V0]. unfold E at 2 in GE. rewrite Y0, V0 in GE.
    replace ((0 ^ 2 + (k ^ 2 + (be / R0) ^ 2) * 0 ^ 2 + 0 * (R1 - R0)) * (Rpower (R1 / R0) (2 * be) * exp (R1 - R0))) with 0 in GE by ring.
    unfold E in GE. assert (Hc : 0 < k ^ 2 + (be / R1) ^ 2).
    { assert (0 < (be / R1) ^ 2) by (apply pow_lt, Rdiv_lt_0_compat; lra). pose proof (pow2_ge_0 k). lra. }
    pose proof (pow2_ge_0 (v R1)) as Sv. pose proof (pow2_ge_0 (y R1)) as Sy.
    assert (Vz : v R1 = 0).
    { assert (v R1 ^ 2 = 0) by nra. destruct (Req_dec (v R1) 0) as [e|ne]; [exact e|]. exfalso. apply (pow_nonzero _ 2) in ne. contradiction. }
    assert (Yz : y R1 = 0).
    { assert (y R1 ^ 2 = 0) by nra. destruct (Req_dec (y R1) 0) as [e|ne]; [exact e|]. exfalso. apply (pow_nonzero _ 2) in ne. contradiction. }
    unfold y in Yz. unfold v in Vz.
    destruct (I1 (2 * m)%nat ltac:(lia)) as [_ S1]. destruct (I1 (2 * m + 1)%nat ltac:(lia)) as [_ S2].
    destruct (I2 (2 * m)%nat ltac:(lia)) as [_ S3]. destruct (I2 (2 * m + 1)%nat ltac:(lia)) as [_ S4].
    rewrite S1, S3 in Yz. rewrite S2, S4 in Vz. split; lra. }
  intros i Hi. destruct (parity_cases i M Hi) as (m & Hm & [-> | ->]); apply K; exact Hm.
Qed.
