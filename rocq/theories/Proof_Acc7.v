(** Accuracy of the extension on the five curves (C82). *)
From Coq Require Import ZArith List Bool Reals Lra Lia Psatz.
From Coquelicot Require Import Coquelicot.
From Verif Require Import Model_Py Model_Multivalue Model_Grid Model_Chebyshev Model_Domain Model_Ext Model_Extend Model_Problems Model_Driver Model_Program
  Spec_Chebyshev Spec_Domain Spec_Grid Spec_Program
  Spec_Ext Spec_Extend Spec_Curve Spec_Accuracy Lib_Sm Proof_Grid Proof_Basis Proof_Domain Proof_Boundary Proof_Curves Proof_Place Proof_Ext Proof_Ext2 Proof_Extend
  Proof_Linear Proof_Extend2 Proof_Smooth Proof_Gentle Proof_CurvePlace Proof_CurveRun Proof_Acc1 Proof_Acc2 Proof_Acc3 Proof_Acc4 Proof_Acc5 Proof_Acc6.
Import ListNotations.
Open Scope R_scope.

(** ** The five curves *)

Lemma good_ext : forall r r', (forall t, r t = r' t) -> good_curve r -> good_curve r'.
Proof.
  intros r r' E. assert (r = r') by (apply FunctionalExtensionality.functional_extensionality; exact E). subst. auto.
Qed.

Lemma sine_good : forall bet m, Rabs bet <= 5 / 10 -> good_curve (fun th => 23 / 10 + bet * sin (m * (th - PI / 4))).
Proof.
  intros bet m Hb. split.
  - intros n. apply sm_plus; [apply sm_const|]. apply sm_scal.
    apply (sm_sincos n (fun t => m * (t - PI / 4))). apply sm_scal, sm_minus; [apply sm_id|apply sm_const].
  - exists 1. split; [lra|]. intros t. pose proof (pow2_ge_0 (Derive (fun th => 23 / 10 + bet * sin (m * (th - PI / 4))) t)).
    set (s := sin (m * (t - PI / 4))). assert (Hs : Rabs s <= 1) by (apply Rabs_le, SIN_bound).
    assert (Hbs : Rabs (bet * s) <= 5 / 10 * 1) by (rewrite Rabs_mult; apply Rmult_le_compat; try apply Rabs_pos; assumption).
    apply Rabs_le_between in Hbs. assert (1 ^ 2 <= (23 / 10 + bet * s) ^ 2) by (apply pow_incr; lra). lra.
Qed.

Lemma cubic_good : good_curve (r_cubic (23 / 10) (75 / 1000) (PI / 4)).
Proof.
  pose proof PI_num as HPI. set (kp := 75 / 1000 / kappa).
  assert (Hk : 0 < kp <= 299 / 1000).
  { pose proof kappa_bounds as K. unfold kp. split; [apply Rdiv_lt_0_compat; lra|].
    apply Rmult_le_reg_r with kappa; [lra|]. unfold Rdiv at 1. rewrite Rmult_assoc, Rinv_l by lra. lra. }
  assert (EK : forall u, 75 / 1000 / cubic_C * (PI * PI * PI * u) = kp * u).
  { intros u. unfold kp, cubic_C. pose proof kappa_bounds as K. unfold kappa in *. field. split; lra. }
  set (K := 75 / 1000 / cubic_C) in *.
  assert (HI : 0 < / PI) by (apply Rinv_0_lt_compat; lra).
  split.
  - intros n. unfold r_cubic. fold K. apply sm_plus; [apply sm_const|].
    assert (L : forall a, sm n (fun t => t - a)) by (intros a; apply sm_minus; [apply sm_id|apply sm_const]).
    exact (sm_mult n _ _ (sm_mult n _ _ (sm_mult n _ _ (sm_const n K) (L (PI / 4))) (L PI)) (L (2 * PI))).
  - set (v := kp * (/ PI * 7)). assert (Hv : 0 < v) by (unfold v; apply Rmult_lt_0_compat; [lra|apply Rmult_lt_0_compat; lra]).
    exists (Rmin 1 (v ^ 2)). split; [apply Rmin_glb_lt; [lra|apply pow_lt; exact Hv]|]. intros t.
    assert (Ed : Derive (r_cubic (23 / 10) (75 / 1000) (PI / 4)) t = K * ((t - PI) * (t - 2 * PI) + (t - PI / 4) * (t - 2 * PI) + (t - PI / 4) * (t - PI))).
    { apply is_derive_unique. unfold r_cubic. fold K. auto_derive; [trivial|field]. }
    rewrite Ed. pose (s := t / PI). assert (Et : t = PI * s) by (unfold s; field; lra). clearbody s. subst t. clear Ed.
    unfold r_cubic. fold K.
    replace (K * (PI * s - PI / 4) * (PI * s - PI) * (PI * s - 2 * PI)) with (K * (PI * PI * PI * ((s - 1 / 4) * (s - 1) * (s - 2)))) by field.
    replace (K * ((PI * s - PI) * (PI * s - 2 * PI) + (PI * s - PI / 4) * (PI * s - 2 * PI) + (PI * s - PI / 4) * (PI * s - PI)))
      with (K * (PI * PI * PI * (/ PI * (3 * s ^ 2 - 13 / 2 * s + 11 / 4)))) by (field; lra).
    rewrite !EK. set (c := (s - 1 / 4) * (s - 1) * (s - 2)). set (q := 3 * s ^ 2 - 13 / 2 * s + 11 / 4).
    destruct (Rle_lt_dec (- (6 / 10)) s) as [L|L].
    + assert (C1 : - (36 / 10) <= c).
      { unfold c. destruct (Rle_lt_dec s (1 / 2)) as [L2|L2].
        - assert (0 <= (s + 6 / 10) * (s - 1 / 2) ^ 2) by (apply Rmult_le_pos; [lra|apply pow2_ge_0]).
          assert (0 <= (s + 6 / 10) * (1 / 2 - s)) by (apply Rmult_le_pos; lra). lra.
        - assert (0 <= s * (s - 13 / 8) ^ 2) by (apply Rmult_le_pos; [lra|apply pow2_ge_0]). lra. }
      assert (kp * - (36 / 10) <= kp * c) by (apply Rmult_le_compat_l; lra).
      assert (1 ^ 2 <= (23 / 10 + kp * c) ^ 2) by (apply pow_incr; lra).
      pose proof (pow2_ge_0 (kp * (/ PI * q))). pose proof (Rmin_l 1 (v ^ 2)). lra.
    + assert (Hq : 7 <= q) by (unfold q; assert (0 <= (- (6 / 10) - s) ^ 2) by apply pow2_ge_0; lra).
      assert (Hle : v <= kp * (/ PI * q)) by (unfold v; apply Rmult_le_compat_l; [lra|apply Rmult_le_compat_l; lra]).
      assert (v ^ 2 <= (kp * (/ PI * q)) ^ 2) by (apply pow_incr; lra).
      pose proof (pow2_ge_0 (23 / 10 + kp * c)). pose proof (Rmin_r 1 (v ^ 2)). lra.
Qed.

Lemma curves_good : forall b, good_curve (boundary_r b (23 / 10) None (PI / 4)).
Proof.
  intros b. assert (Hnu : problem_nu (PI / 4) = 4 / 7) by (pose proof PI_RGT_0; unfold problem_nu; field; lra).
  destruct b; unfold boundary_r, boundary_bet, bet0; cbv zeta; rewrite ?Hnu.
  - apply good_ext with (fun th => 23 / 10 + 0 * sin (0 * (th - PI / 4))); [intros t; unfold r_arc; ring|]. apply sine_good. rewrite Rabs_R0. lra.
  - apply good_ext with (fun th => 23 / 10 + 15 / 100 * sin (4 / 7 * (th - PI / 4))); [intros t; reflexivity|]. apply sine_good. rewrite Rabs_pos_eq; lra.
  - apply good_ext with (fun th => 23 / 10 + - (5 / 10) * sin (4 / 7 * (th - PI / 4))); [intros t; unfold r_inner_sine; ring|].
    apply sine_good. rewrite Rabs_Ropp, Rabs_pos_eq; lra.
  - apply good_ext with (fun th => 23 / 10 + 25 / 1000 * sin (4 * (th - PI / 4))); [intros t; unfold r_sine7; do 3 f_equal; field|].
    apply sine_good. rewrite Rabs_pos_eq; lra.
  - apply cubic_good.
Qed.

(** ** The extension at every node *)

Lemma normal_is : forall r, good_curve r -> forall sid t, (sid = 0%nat -> 0 < r t) -> (sid < 3)%nat -> is_normal r (PI / 4) sid t (nvec r sid t).
Proof.
  intros r Hg sid t Hr Hs. destruct sid as [|[|[|sid]]]; [|reflexivity|reflexivity|lia]. cbn [is_normal nvec].
  assert (Ex : forall t, ex_derive r t) by (intros u; pose proof (proj1 Hg 1%nat) as (f & Hf & _); eexists; apply Hf).
  destruct (eval_tangent r t) as [tx ty] eqn:Et. destruct (eval_normal r t) as [nx ny] eqn:En. cbn [fst snd].
  destruct (frame_spec r t tx ty nx ny Ex (g_pos r Hg t) Et En) as ((U1 & U2 & O & _) & (v & Pv & Dx & Dy) & Out).
  split; [exact U2|]. split; [|apply Out, Hr; reflexivity].
  assert (Ex1 : Derive (fun t => r t * cos t) t = v * tx) by (apply is_derive_unique; exact Dx).
  assert (Ey1 : Derive (fun t => r t * sin t) t = v * ty) by (apply is_derive_unique; exact Dy).
  rewrite Ex1, Ey1. transitivity (v * (tx * nx + ty * ny)); [ring|rewrite O; ring].
Qed.

Lemma curve_accuracy_src : forall r k, gentle r -> good_curve r -> exists K, 0 <= K /\ forall brentq order c D F un M eps,
  brentq_contract brentq -> (order = 2 \/ order = 4)%Z -> curve_solver brentq order r c -> ec_k c = k ->
  partials plane 6 D -> partials plane 2 F -> helmholtz plane k D F -> square_bound D M -> normal_trace r (PI / 4) D un -> 0 <= eps ->
  fits (23 / 10) (PI / 4) (ec_B c) (ec_c0 c) (value_trace r (PI / 4) D) eps -> fits (23 / 10) (PI / 4) (ec_B c) (ec_c1 c) un eps ->
  forall sid e p, (sid < 3)%nat -> In p (ec_gamma c sid) -> node_etype c sid p = Ok e ->
  exists len v n t, do_extend c SrcCoef sid e p = Ok (len, v) /\ base r c sid p n t /\
    Cmod (Cminus (Cplus v (wsrc r k F sid n t)) (D 0%nat 0%nat (fst (ctx_coord c p)) (snd (ctx_coord c p)))) <= K * (eps + M * (2 * PI / IZR (ec_N c)) ^ 5).
Proof.
  intros r k Hr Hg. destruct (node_accuracy r Hr Hg k) as (K & HK & Acc). exists K. split; [exact HK|].
  intros brentq order c D F un M eps Hb Ho Hc Ek HD HF PDE (HM & HB) Hun He (L0 & F0) (L1 & F1) sid e p Hs Hp Het.
  destruct (ctx_coord c p) as [x y] eqn:Exy. cbn [fst snd].
  apply (Acc sid Hs brentq order c D F M eps Hb Ho Hc Ek L0 L1 HD HF PDE HM He HB); try assumption.
  intros l t Hl Ht g. split; [apply F0; assumption|].
  assert (Eq : CDerive_n (tr1 r D sid) l t = CDerive_n (un sid) l t).
  { assert (Hloc : exists lo hi, lo < t < hi /\ forall u, lo < u < hi -> sid = 0%nat -> 0 < r u).
    { pose proof PI_num. destruct sid as [|sid].
      - exists (PI / 8), (2 * PI + PI / 8). cbn [seg_range] in Ht. split; [lra|]. intros u Hu _.
        destruct Hr as (_ & _ & _ & _ & B0 & _). pose proof (B0 u ltac:(lra)). lra.
      - exists (t - 1), (t + 1). split; [lra|]. discriminate. }
    destruct Hloc as (lo & hi & Hlt & Hpos). apply (CDerive_n_ext_loc _ _ lo hi); [|exact Hlt].
    intros u Hu. symmetry. apply (Hun sid u (nvec r sid u) Hs). apply normal_is; auto. }
  rewrite Eq. apply F1; assumption.
Qed.

Lemma curve_accuracy : forall r k, gentle r -> good_curve r -> exists K, 0 <= K /\ forall brentq order c D un M eps,
  brentq_contract brentq -> (order = 2 \/ order = 4)%Z -> curve_solver brentq order r c -> ec_k c = k ->
  partials plane 6 D -> helmholtz plane k D (fun _ _ _ _ => RtoC 0) -> square_bound D M -> normal_trace r (PI / 4) D un -> 0 <= eps ->
  fits (23 / 10) (PI / 4) (ec_B c) (ec_c0 c) (value_trace r (PI / 4) D) eps -> fits (23 / 10) (PI / 4) (ec_B c) (ec_c1 c) un eps ->
  forall sid e p, (sid < 3)%nat -> In p (ec_gamma c sid) -> node_etype c sid p = Ok e ->
  exists len v, do_extend c SrcCoef sid e p = Ok (len, v) /\
    Cmod (Cminus v (D 0%nat 0%nat (fst (ctx_coord c p)) (snd (ctx_coord c p)))) <= K * (eps + M * (2 * PI / IZR (ec_N c)) ^ 5).
Proof.
  intros r k Hr Hg. destruct (curve_accuracy_src r k Hr Hg) as (K & HK & Acc). exists K. split; [exact HK|].
  intros brentq order c D un M eps Hb Ho Hc Ek HD PDE HM Hun He F0 F1 sid e p Hs Hp Het.
  destruct (Acc brentq order c D (fun _ _ _ _ => RtoC 0) un M eps Hb Ho Hc Ek HD (zero_partials plane 2) PDE HM Hun He F0 F1 sid e p Hs Hp Het) as (len & v & n & t & Ev & _ & Hv).
  exists len, v. split; [exact Ev|]. unfold wsrc in Hv. rewrite wex_zero, Cplus_0_r in Hv. exact Hv.
Qed.

(** ** The extended boundary data *)

Lemma mean_near : forall f ss z E, (length ss = 1%nat \/ length ss = 2%nat) -> (forall s, In s ss -> Cmod (Cminus (f s) z) <= E) ->
  Cmod (Cminus (mean f ss) z) <= E.
Proof.
  intros f ss z E Hl H. destruct ss as [|s [|t [|w ss]]]; cbn [length] in Hl; try lia.
  - apply H. left; reflexivity.
  - cbn [mean]. pose proof (H s (or_introl eq_refl)). pose proof (H t (or_intror (or_introl eq_refl))).
    replace (Cminus (Cmult (Cplus (f s) (f t)) (RtoC (1 / 2))) z) with (Cmult (Cplus (Cminus (f s) z) (Cminus (f t) z)) (RtoC (1 / 2))).
    2:{ apply injective_projections; unfold Cminus, Cplus, Cmult, Copp, RtoC; cbn [fst snd]; field. }
    rewrite Cmod_mult, Cmod_R, (Rabs_pos_eq (1 / 2)) by lra. pose proof (Cmod_triangle (Cminus (f s) z) (Cminus (f t) z)). lra.
Qed.

Lemma boundary_accuracy : forall r k, gentle r -> good_curve r -> exists K, 0 <= K /\ forall brentq order c D un M eps hom,
  brentq_contract brentq -> (order = 2 \/ order = 4)%Z -> curve_solver brentq order r c -> ctx_wf c -> ec_k c = k ->
  partials plane 6 D -> helmholtz plane k D (fun _ _ _ _ => RtoC 0) -> square_bound D M -> normal_trace r (PI / 4) D un -> 0 <= eps ->
  fits (23 / 10) (PI / 4) (ec_B c) (ec_c0 c) (value_trace r (PI / 4) D) eps -> fits (23 / 10) (PI / 4) (ec_B c) (ec_c1 c) un eps ->
  ec_homogeneous c = true \/ hom = true ->
  exists e, extend_boundary c SrcCoef hom = Ok e /\ length e = length (ec_union c) /\
    forall l p, nth_error (ec_union c) l = Some p ->
      Cmod (Cminus (as_vec e l) (D 0%nat 0%nat (fst (ctx_coord c p)) (snd (ctx_coord c p)))) <= K * (eps + M * (2 * PI / IZR (ec_N c)) ^ 5).
Proof.
  intros r k Hr Hg. destruct (curve_accuracy r k Hr Hg) as (K & HK & Acc). exists K. split; [exact HK|].
  intros brentq order c D un M eps hom Hb Ho Hc Hwf Ek HD PDE HB Hun He F0 F1 Hh.
  assert (HV : forall sid p, (sid < 3)%nat -> In p (ec_gamma c sid) -> exists e, node_etype c sid p = Ok e).
  { intros sid p Hs Hp. destruct Hwf as (_ & _ & _ & _ & Hbc). destruct (ctx_coord c p) as [x y] eqn:Exy.
    destruct sid as [|sid].
    - destruct (Hbc p Hp) as (bc & Eb). destruct (node_etype_0 c p bc x y Hp Eb Exy) as [_ E]. eexists; exact E.
    - eexists. apply (node_etype_12 c (S sid) p x y ltac:(lia) Exy). }
  pose (et := fun sid p => match node_etype c sid p with Ok e => e | Err _ => EStandard end).
  pose (va := fun sid p => match do_extend c SrcCoef sid (et sid p) p with Ok v => v | Err _ => (0, RtoC 0) end).
  assert (Hv : forall sid p, (sid < 3)%nat -> In p (ec_gamma c sid) -> node_etype c sid p = Ok (et sid p) /\ do_extend c SrcCoef sid (et sid p) p = Ok (va sid p) /\
     Cmod (Cminus (snd (va sid p)) (D 0%nat 0%nat (fst (ctx_coord c p)) (snd (ctx_coord c p)))) <= K * (eps + M * (2 * PI / IZR (ec_N c)) ^ 5)).
  { intros sid p Hs Hp. destruct (HV sid p Hs Hp) as (e & Ee).
    assert (Et : et sid p = e) by (unfold et; rewrite Ee; reflexivity). rewrite Et. split; [exact Ee|].
    destruct (Acc brentq order c D un M eps Hb Ho Hc Ek HD PDE HB Hun He F0 F1 sid e p Hs Hp Ee) as (len & v & Ev & Hvv).
    unfold va. rewrite Et, Ev. split; [reflexivity|exact Hvv]. }
  assert (Eb : extend_boundary c SrcCoef hom = (m <- mv_extend c (do_extend c SrcCoef);; mv_reduce m)).
  { unfold extend_boundary, mv_extend_boundary. destruct (mv_extend c (do_extend c SrcCoef)); [|reflexivity]. cbn [bind orb].
    destruct Hh as [-> | ->]; [reflexivity|rewrite orb_true_r; reflexivity]. }
  rewrite Eb, (extend_reduce c (do_extend c SrcCoef) et va Hwf) by (intros sid p Hs Hp; destruct (Hv sid p Hs Hp) as (A & B & _); auto).
  eexists. split; [reflexivity|]. split; [apply map_length|]. intros l p El. unfold as_vec.
  rewrite (nth_indep _ _ (mean (fun s => snd (va s p)) (sids c p))).
  2:{ rewrite map_length. apply nth_error_Some. congruence. }
  rewrite (map_nth (fun p => mean (fun s => snd (va s p)) (sids c p)) (ec_union c) p l), (nth_error_nth _ _ p El).
  apply mean_near.
  - rewrite sids_length. apply Hwf. eapply nth_error_In; exact El.
  - intros s Hs. destruct (sids_in c p s Hs) as [S1 S2]. apply (Hv s p S1 S2).
Qed.
