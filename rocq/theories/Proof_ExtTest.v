(** Proofs about the data of extension_test.py (C83): solutions, boundary values
    and normal derivatives of the smooth problems. *)
From Coq Require Import ZArith List Bool Reals Lra Lia.
From Coquelicot Require Import Coquelicot.
From Verif Require Import Model_Py Model_Multivalue Model_Grid Model_Abcoef Model_PS Model_Domain Model_Chebyshev
  Model_Extend Model_Problems Model_Run Model_Program Model_ExtTest
  Spec_Chebyshev Spec_Domain Spec_Ext Spec_Extend Spec_Program Spec_Accuracy Spec_ExtTest
  Proof_Domain Proof_Basis Proof_Smooth Proof_Gentle Proof_CurvePlace Proof_CurveRun Proof_Acc2 Proof_Acc3 Proof_Acc6 Proof_Acc7 Proof_Acc8 Proof_AccEx.
Import ListNotations.
Open Scope R_scope.
Local Notation curve b := (boundary_r b (23 / 10) None (PI / 4)).

(** ** The families of partial derivatives *)

Lemma family_unique : forall D D', partials plane 6 D -> partials plane 6 D' -> (forall x y, D 0%nat 0%nat x y = D' 0%nat 0%nat x y) ->
  forall i j x y, (i + j <= 6)%nat -> D i j x y = D' i j x y.
Proof.
  intros D D' HD HD' H0 i j. remember (i + j)%nat as n eqn:En. revert i j En. induction n as [|n IH]; intros i j En x y Hn.
  - replace i with 0%nat by lia. replace j with 0%nat by lia. apply H0.
  - assert (Step : forall i' j', n = (i' + j')%nat -> D (S i') j' x y = D' (S i') j' x y /\ D i' (S j') x y = D' i' (S j') x y).
    { intros i' j' E. destruct (HD i' j' x y ltac:(lia) I) as [A1 A2]. destruct (HD' i' j' x y ltac:(lia) I) as [B1 B2].
      apply differentiable_pt_lim_unique in A1, A2, B1, B2. destruct A1 as [A1 A1'], A2 as [A2 A2'], B1 as [B1 B1'], B2 as [B2 B2'].
      split; apply injective_projections.
      - rewrite <- A1, <- B1. apply Derive_ext. intros t. rewrite (IH i' j' E) by lia. reflexivity.
      - rewrite <- A2, <- B2. apply Derive_ext. intros t. rewrite (IH i' j' E) by lia. reflexivity.
      - rewrite <- A1', <- B1'. apply Derive_ext. intros t. rewrite (IH i' j' E) by lia. reflexivity.
      - rewrite <- A2', <- B2'. apply Derive_ext. intros t. rewrite (IH i' j' E) by lia. reflexivity. }
    destruct i as [|i]; [|apply (Step i j); lia]. destruct j as [|j]; [lia|]. apply (Step 0%nat j). lia.
Qed.

Definition smooth_sep (p : smooth_name) : sep_sum :=
  match p with
  | SmoothSine => [((1, 0), sinf (27 / 4), mono 0)]
  | SmoothE => wave (27 / 4) (8 / 10) (6 / 10)
  | SmoothYCos => [((1, 0), cosf 1, mono 1)]
  end.
Definition smooth_D (p : smooth_name) : nat -> nat -> R -> R -> C := sep (smooth_sep p).

Lemma smooth_D_family : forall p, solution_family p (smooth_D p).
Proof.
  intros p. split.
  - destruct p; [apply (sine_partials (27 / 4))|apply wave_partials|].
    apply sep_partials. intros c f g [H|[]]. injection H as <- <- <-. split; [apply cosf_fam|apply mono_fam].
  - intros x y. destruct p; cbn [exact_solution].
    + apply (sine_value (27 / 4)).
    + unfold smooth_D, smooth_sep, wave, cosf, sinf. cbn [sep fst snd pow INR].
      rewrite !Rmult_0_l, !Rplus_0_r.
      replace (27 / 5 * x) with (27 / 4 * (8 / 10) * x) by field. replace (81 / 20 * y) with (27 / 4 * (6 / 10) * y) by field.
      apply injective_projections; unfold Cplus, RtoC; cbn [fst snd]; [rewrite cos_plus|rewrite sin_plus]; match goal with |- ?u = ?w => change (@eq R u w) end; ring.
    + unfold smooth_D, smooth_sep, cosf, mono. cbn [sep mono_ce fst snd pow INR]. replace (1 * x + 0 * (PI / 2)) with x by ring.
      apply injective_projections; unfold Cplus, RtoC; cbn [fst snd]; match goal with |- ?u = ?w => change (@eq R u w) end; ring.
Qed.

Lemma family_eq : forall p D, solution_family p D -> forall i j x y, (i + j <= 6)%nat -> D i j x y = smooth_D p i j x y.
Proof.
  intros p D [HD H0] i j x y Hij. destruct (smooth_D_family p) as [HD' H0'].
  apply (family_unique D (smooth_D p) HD HD'); [|exact Hij]. intros u v. rewrite H0, H0'. reflexivity.
Qed.

Lemma smooth_D_helmholtz : forall p, p <> SmoothYCos -> helmholtz plane (27 / 4) (smooth_D p) (fun _ _ _ _ => RtoC 0).
Proof.
  intros [| |] Hp; [apply (sine_helmholtz (27 / 4))| |congruence]. apply wave_helmholtz. field.
Qed.

Lemma trig_fam : forall w W n x f, f = cosf w \/ f = sinf w -> Rabs w <= W -> 1 <= W -> (n <= 6)%nat -> Rabs (f n x) <= W ^ n.
Proof.
  intros w W n x f Hf Hw HW Hn.
  assert (P : Rabs (w ^ n) <= W ^ n) by (rewrite <- RPow_abs; apply pow_incr; split; [apply Rabs_pos|exact Hw]).
  assert (Q : 0 <= W ^ n) by (apply pow_le; lra).
  assert (H : exists v, -1 <= v <= 1 /\ f n x = w ^ n * v).
  { destruct Hf as [-> | ->]; [exists (cos (w * x + INR n * (PI / 2)))|exists (sin (w * x + INR n * (PI / 2)))]; (split; [apply COS_bound || apply SIN_bound|reflexivity]). }
  destruct H as (v & Hv & ->). rewrite Rabs_mult. replace (W ^ n) with (W ^ n * 1) by ring.
  apply Rmult_le_compat; [apply Rabs_pos|apply Rabs_pos|exact P|apply Rabs_le; lra].
Qed.

Lemma smooth_D_bound : forall p, p <> SmoothYCos -> square_bound (smooth_D p) (8 * (27 / 4) ^ 6).
Proof.
  intros p Hp. assert (HM : 0 <= (27 / 4) ^ 6) by (apply pow_le; lra). split; [lra|]. intros i j x y Hij Hx Hy.
  destruct p; [|clear Hp|congruence].
  - destruct (sine_bound (27 / 4) ltac:(lra)) as [_ H]. specialize (H i j x y Hij Hx Hy). change (smooth_D SmoothSine) with (sine_D (27 / 4)). lra.
  - assert (W : (27 / 4) ^ i * (27 / 4) ^ j <= (27 / 4) ^ 6) by (rewrite <- pow_add; apply Rle_pow; [lra|lia]).
    assert (T : forall f g, (f = cosf (27 / 4 * (8 / 10)) \/ f = sinf (27 / 4 * (8 / 10))) -> (g = cosf (27 / 4 * (6 / 10)) \/ g = sinf (27 / 4 * (6 / 10))) ->
      Rabs (f i x * g j y) <= (27 / 4) ^ 6).
    { intros f g Hf Hg. rewrite Rabs_mult. eapply Rle_trans; [|exact W]. apply Rmult_le_compat; try apply Rabs_pos.
      - apply (trig_fam _ (27 / 4) i x f Hf); [rewrite Rabs_pos_eq; lra|lra|lia].
      - apply (trig_fam _ (27 / 4) j y g Hg); [rewrite Rabs_pos_eq; lra|lra|lia]. }
    assert (T' : forall f g, (f = cosf (27 / 4 * (8 / 10)) \/ f = sinf (27 / 4 * (8 / 10))) -> (g = cosf (27 / 4 * (6 / 10)) \/ g = sinf (27 / 4 * (6 / 10))) ->
      - (27 / 4) ^ 6 <= f i x * g j y <= (27 / 4) ^ 6) by (intros f g Hf Hg; apply Rabs_le_between, T; assumption).
    pose proof (T' _ _ (or_introl eq_refl) (or_introl eq_refl)) as T1. pose proof (T' _ _ (or_intror eq_refl) (or_intror eq_refl)) as T2.
    pose proof (T' _ _ (or_intror eq_refl) (or_introl eq_refl)) as T3. pose proof (T' _ _ (or_introl eq_refl) (or_intror eq_refl)) as T4.
    replace (8 * (27 / 4) ^ 6) with (2 * (4 * (27 / 4) ^ 6)) by ring. set (M := (27 / 4) ^ 6) in *. clearbody M.
    unfold smooth_D, smooth_sep, wave. cbn [sep]. apply Cmod_comp; unfold Cplus, RtoC; cbn [fst snd]; apply Rabs_le; lra.
Qed.

(** ** Boundary values and normal derivatives *)

Lemma smooth_expected_exact : forall p x y, smooth_expected p x y = exact_solution p x y.
Proof.
  intros [| |] x y; cbn [smooth_expected exact_solution]; [reflexivity| |reflexivity].
  unfold e_expected, cis, smooth_k. cbn [snd]. replace (8 / 10 * (27 / 4) * x + 6 / 10 * (27 / 4) * y) with (27 / 5 * x + 81 / 20 * y) by field. reflexivity.
Qed.

Lemma abs_point : forall r t sid, (sid < 3)%nat -> exists rr th, arg_to_polar_abs r (PI / 4) t sid = Some (rr, th) /\
  rr * cos th = fst (seg_point r (PI / 4) sid t) /\ rr * sin th = snd (seg_point r (PI / 4) sid t) /\ (sid = 0%nat -> th = t).
Proof.
  intros r t sid Hs. destruct sid as [|[|[|sid]]]; [| | |lia]; cbn [arg_to_polar_abs seg_point fst snd].
  - exists (r t), t. auto.
  - destruct (Rleb 0 t); eexists _, _; (split; [reflexivity|]); rewrite ?cos_2PI, ?sin_2PI, ?cos_PI, ?sin_PI; (split; [ring|split; [ring|discriminate]]).
  - destruct (Rleb 0 t); eexists _, _; (split; [reflexivity|]); rewrite ?(Rplus_comm PI (PI / 4)), ?neg_cos, ?neg_sin; (split; [ring|split; [ring|discriminate]]).
Qed.

Lemma smooth_bc_trace : forall p b D sid t, solution_family p D -> (sid < 3)%nat ->
  match smooth_bc (curve b) (PI / 4) (smooth_expected p) t sid with Ok v => v | Err _ => RtoC 0 end = value_trace (curve b) (PI / 4) D sid t.
Proof.
  intros p b D sid t [_ H0] Hs. destruct (abs_point (curve b) t sid Hs) as (rr & th & E & Ex & Ey & _).
  unfold smooth_bc. rewrite E, Ex, Ey, smooth_expected_exact. unfold value_trace. rewrite H0. reflexivity.
Qed.

Lemma smooth_grad_spec : forall p x y, smooth_grad p x y = Ok (smooth_D p 1%nat 0%nat x y, smooth_D p 0%nat 1%nat x y).
Proof.
  intros p x y. destruct p; cbn [smooth_grad].
  - unfold sine_grad, smooth_k. change (smooth_D SmoothSine) with (sine_D (27 / 4)). rewrite sine_dx, sine_dy. reflexivity.
  - unfold e_run. cbn [fold_left e_expected fst e_grad]. unfold smooth_k, cis, smooth_D, smooth_sep, wave, cosf, sinf. cbn [sep fst snd pow INR].
    assert (HC : forall u, cos (u + 1 * (PI / 2)) = - sin u) by (intros u; rewrite Rmult_1_l, (Rplus_comm u), (sin_cos u); ring).
    assert (HS : forall u, sin (u + 1 * (PI / 2)) = cos u) by (intros u; rewrite Rmult_1_l, (Rplus_comm u), <- cos_sin; ring).
    rewrite !HC, !HS, !Rmult_0_l, !Rplus_0_r.
    replace (8 / 10 * (27 / 4) * x) with (27 / 4 * (8 / 10) * x) by field. replace (6 / 10 * (27 / 4) * y) with (27 / 4 * (6 / 10) * y) by field.
    rewrite cos_plus, sin_plus. f_equal. f_equal; apply injective_projections; unfold Cplus, Cmult, RtoC; cbn [fst snd]; ring.
  - unfold ycos_grad, smooth_D, smooth_sep, cosf, mono. cbn [sep mono_ce fst snd pow INR pred].
    assert (HC : cos (1 * x + 1 * (PI / 2)) = - sin x) by (rewrite !Rmult_1_l, (Rplus_comm x), (sin_cos x); ring).
    rewrite HC. replace (1 * x + 0 * (PI / 2)) with x by ring.
    f_equal. f_equal; apply injective_projections; unfold Cplus, RtoC; cbn [fst snd]; ring.
Qed.

Lemma smooth_du_trace : forall p b D sid t, solution_family p D -> (sid < 3)%nat -> smooth_du p b t sid = tr1 (curve b) D sid t.
Proof.
  intros p b D sid t HD Hs. change (smooth_du p b t sid) with (match d_u_outwards (curve b) (PI / 4) (smooth_grad p) t sid with Ok v => v | Err _ => RtoC 0 end).
  destruct (abs_point (curve b) t sid Hs) as (rr & th & E & Ex & Ey & Et).
  unfold d_u_outwards. rewrite E. cbv zeta. rewrite Ex, Ey, smooth_grad_spec. cbn [bind]. unfold tr1, cdot.
  rewrite <- !(family_eq p D HD) by lia.
  destruct sid as [|[|[|sid]]]; [rewrite (Et eq_refl)| | |lia]; cbn [nvec fst snd]; ring.
Qed.

(** On the interval of the fits the prescribed normal derivative is the one the
    program computes. *)
Lemma fit_range : forall sid t, (sid < 3)%nat -> -1 < t < 1 -> forall r, gentle r -> sid = 0%nat -> 0 < r (eval_g (23 / 10) (PI / 4) sid t).
Proof.
  intros sid t Hs Ht r Hr ->. pose proof PI_num. unfold eval_g, get_span_center, basis_eps.
  destruct Hr as (_ & _ & _ & _ & B0 & _).
  assert (A : PI / 8 <= (PI - / 2 * (PI / 4) + 1 / 1000) * t + (PI + / 2 * (PI / 4)) <= 2 * PI + PI / 8) by nra.
  pose proof (B0 _ A). lra.
Qed.

Lemma calc_c0_ext : forall cf n R0 a nc nr w w', (forall sid t, (sid < 3)%nat -> -1 < t < 1 -> w (eval_g R0 a sid t) sid = w' (eval_g R0 a sid t) sid) ->
  (0 < nc)%nat -> (0 < nr)%nat ->
  calc_c0 cf (get_chebyshev_roots n) R0 a (snd (setup_basis nc nr)) w = calc_c0 cf (get_chebyshev_roots n) R0 a (snd (setup_basis nc nr)) w'.
Proof.
  intros cf n R0 a nc nr w w' H Hc Hr. rewrite !calc_c0_eq by assumption.
  assert (E : forall sid, (sid < 3)%nat -> seg_fit cf (get_chebyshev_roots n) R0 a nc nr w sid = seg_fit cf (get_chebyshev_roots n) R0 a nc nr w' sid).
  { intros sid Hs. unfold seg_fit. f_equal. apply map_ext_in. intros t Ht. apply H; [exact Hs|]. apply (roots_interior n); exact Ht. }
  rewrite !E by lia. reflexivity.
Qed.

Lemma du_normal : forall p b D un sid t, solution_family p D -> normal_trace (curve b) (PI / 4) D un -> (sid < 3)%nat -> -1 < t < 1 ->
  smooth_du p b (eval_g (23 / 10) (PI / 4) sid t) sid = un sid (eval_g (23 / 10) (PI / 4) sid t).
Proof.
  intros p b D un sid t HD Hun Hs Ht. rewrite (smooth_du_trace p b D sid _ HD Hs). symmetry. apply (Hun sid _ (nvec (curve b) sid _) Hs).
  apply normal_is; [apply curves_good| |exact Hs]. apply fit_range; [exact Hs|exact Ht|apply curves_gentle].
Qed.
