(** Concrete data for the examples beside the extension properties. *)
From Coq Require Import ZArith List Bool Reals Lra Lia Psatz.
From Coquelicot Require Import Coquelicot.
From Verif Require Import Model_Py Model_Multivalue Model_Grid Model_Fourier Model_Chebyshev Model_Domain Model_Ext
  Model_Extend Spec_Chebyshev Spec_Domain Spec_Grid Spec_Ext Spec_Extend Lib_Csum
  Proof_Basis Proof_Chebyshev Proof_Multivalue Proof_Grid Proof_Domain Proof_Boundary Proof_Place Proof_Ext Proof_Ext2 Proof_Smooth Proof_Log
  Proof_Extend Proof_Linear Proof_Extend2.
Import ListNotations.
Open Scope R_scope.

(** Three nodes of a 4 x 4 grid on a square of side 4: (-2, 0) beside the
    arc, (1, 1) above the segment at angle 0, (0, 1) beside the one at
    angle pi/4. *)
Definition ex_ctx (k : R) (B : list (nat * nat)) (c0 c1 : list C) (hom : bool) (src : source) : ext_ctx :=
  mk_ctx k (23 / 10) (PI / 4) 4 4 (r_arc (23 / 10)) (node_bcoord min_zero (r_arc (23 / 10)) (PI / 4) 4 4)
    [(0, 2); (3, 3); (2, 3)]%Z
    (fun sid => match sid with 0%nat => [(0, 2)%Z] | 1%nat => [(3, 3)%Z] | _ => [(2, 3)%Z] end)
    B c0 c1 hom src.

Lemma ex_coord_arc : forall k B c0 c1 hom src, ctx_coord (ex_ctx k B c0 c1 hom src) (0, 2)%Z = (-2, 0).
Proof. intros. unfold ctx_coord, get_coord, ex_ctx. cbn [ec_AD ec_N fst snd]. f_equal; field. Qed.
Lemma ex_coord_1 : forall k B c0 c1 hom src, ctx_coord (ex_ctx k B c0 c1 hom src) (3, 3)%Z = (1, 1).
Proof. intros. unfold ctx_coord, get_coord, ex_ctx. cbn [ec_AD ec_N fst snd]. f_equal; field. Qed.

Lemma ex_bcoord : forall k B c0 c1 hom src, ec_bcoord (ex_ctx k B c0 c1 hom src) (0, 2)%Z = Some (- (3 / 10), PI).
Proof.
  intros. pose proof PI_RGT_0. cbn [ex_ctx ec_bcoord]. unfold node_bcoord, ps_get_polar. cbn [fst snd].
  replace (get_coord 4 4 0 2) with (2 * cos PI, 2 * sin PI).
  2:{ unfold get_coord. rewrite cos_PI, sin_PI. f_equal; field. }
  rewrite ps_polar_of_polar by lra.
  rewrite (arc_coord_positive _ _ _ _ _ min_zero_contract) by lra. do 2 f_equal. lra.
Qed.

Lemma ex_etype_arc : forall k B c0 c1 hom src, node_etype (ex_ctx k B c0 c1 hom src) 0 (0, 2)%Z = Ok EStandard.
Proof.
  intros. pose proof PI_RGT_0. destruct (node_etype_0 (ex_ctx k B c0 c1 hom src) (0, 2)%Z (- (3 / 10), PI) (-2) 0) as [_ H'].
  - left; reflexivity.
  - apply ex_bcoord.
  - apply ex_coord_arc.
  - rewrite H'. f_equal. unfold etype_of. cbn [ec_a ex_ctx].
    destruct (Rltb_spec (2 * PI) PI); [lra|]. destruct (Rltb_spec PI (PI / 4)); [lra|reflexivity].
Qed.
Lemma ex_etype_1 : forall k B c0 c1 hom src, node_etype (ex_ctx k B c0 c1 hom src) 1 (3, 3)%Z = Ok EStandard.
Proof.
  intros. rewrite (node_etype_12 _ 1 _ 1 1 ltac:(lia) (ex_coord_1 _ _ _ _ _ _)). f_equal. unfold etype_of. cbn [ec_R ex_ctx].
  destruct (Rltb_spec 1 0); [lra|]. destruct (Rltb_spec (23 / 10) 1); [lra|reflexivity].
Qed.
(** The same node seen from the segment at angle 0 with its foot point left of
    the corner. *)
Lemma ex_etype_left : forall k B c0 c1 hom src, node_etype (ex_ctx k B c0 c1 hom src) 1 (0, 2)%Z = Ok ELeft.
Proof.
  intros. rewrite (node_etype_12 _ 1 _ (-2) 0 ltac:(lia) (ex_coord_arc _ _ _ _ _ _)). f_equal. unfold etype_of. cbn [ec_R ex_ctx].
  destruct (Rltb_spec (-2) 0); [reflexivity|lra].
Qed.

Lemma ex_wf : forall k B c0 c1 hom src, ctx_wf (ex_ctx k B c0 c1 hom src).
Proof.
  intros. pose proof PI_RGT_0. split; [cbn; lra|]. split; [cbn; lra|]. split; [|split].
  - intros [|[|[|s]]] p Hs Hp; try lia; cbn in *; tauto.
  - intros p Hp. cbn in Hp. left. destruct Hp as [<-|[<-|[<-|[]]]]; reflexivity.
  - intros p Hp. cbn in Hp. destruct Hp as [<-|[]]. eexists. apply ex_bcoord.
Qed.

Definition no_source : source :=
  mk_source (fun _ _ => RtoC 0) (fun _ _ => (RtoC 0, RtoC 0)) (fun _ _ => ((RtoC 0, RtoC 0), (RtoC 0, RtoC 0)))
    (fun _ _ => RtoC 0) (fun _ _ => (RtoC 0, RtoC 0)) (fun _ _ => ((RtoC 0, RtoC 0), (RtoC 0, RtoC 0)))
    (fun _ _ => RtoC 0) (fun _ _ => RtoC 0) (fun _ _ => RtoC 0) (fun _ _ => RtoC 0) (fun _ _ => RtoC 0).

(** The solution x cos(k y) + sin(k y), with affine trace x and constant
    normal derivative k on the line y = 0. *)
Definition ridge (k : R) : sep_sum :=
  [(RtoC 1, mono 1, cosf k); (RtoC 1, mono 0, sinf k)].
Lemma ridge_partials : forall k O m, partials O m (sep (ridge k)).
Proof.
  intros k. apply sep_partials. intros c f g H. unfold ridge in H. cbn [In] in H.
  destruct H as [H|[H|[]]]; injection H as <- <- <-; split; (apply mono_fam || apply cosf_fam || apply sinf_fam).
Qed.
Lemma ridge_helmholtz : forall k O, helmholtz O k (sep (ridge k)) (fun _ _ _ _ => RtoC 0).
Proof.
  intros k O x y _. unfold ridge. cbn [sep].
  assert (C2 : cosf k 2%nat y = - k ^ 2 * cosf k 0%nat y).
  { unfold cosf. replace (INR 2) with 2 by (cbn; ring). replace (INR 0) with 0 by reflexivity.
    replace (k * y + 2 * (PI / 2)) with (k * y + PI) by field. rewrite neg_cos.
    replace (k * y + 0 * (PI / 2)) with (k * y) by ring. ring. }
  assert (S2 : sinf k 2%nat y = - k ^ 2 * sinf k 0%nat y).
  { unfold sinf. replace (INR 2) with 2 by (cbn; ring). replace (INR 0) with 0 by reflexivity.
    replace (k * y + 2 * (PI / 2)) with (k * y + PI) by field. rewrite neg_sin.
    replace (k * y + 0 * (PI / 2)) with (k * y) by ring. ring. }
  rewrite !C2, !S2. unfold mono. cbn [mono_ce fst snd pred INR].
  apply injective_projections; unfold Cplus, Cmult, RtoC; cbn [fst snd]; ring.
Qed.

Definition ridge_ctx (k : R) : ext_ctx :=
  ex_ctx k [(1, 0); (1, 1)]%nat [RtoC (23 / 20); RtoC (- (23 / 20 + basis_eps))] [RtoC k; RtoC 0] true no_source.

Lemma ridge_trace : forall k t,
  let u0 t := sep (ridge k) 0%nat 0%nat (t * 1) (t * 0) in
  let u1 t := Cplus (Cmult (RtoC (-1 * 0)) (sep (ridge k) 1%nat 0%nat (t * 1) (t * 0)))
                    (Cmult (RtoC (-1 * - (1))) (sep (ridge k) 0%nat 1%nat (t * 1) (t * 0))) in
  let g := eval_g_inv (ec_R (ridge_ctx k)) (ec_a (ridge_ctx k)) 1 in
  seg_function g (ec_B (ridge_ctx k)) (ec_c0 (ridge_ctx k)) 1 t = u0 t /\
  seg_function g (ec_B (ridge_ctx k)) (ec_c1 (ridge_ctx k)) 1 t = u1 t.
Proof.
  intros k t u0 u1 g. unfold u0, u1, g, ridge, seg_function, eval_g_inv, get_span_center.
  cbn [ridge_ctx ex_ctx ec_B ec_c0 ec_c1 ec_R ec_a length csum nth_error Nat.eqb nth sep].
  unfold chebT, mono, cosf, sinf. cbn [mono_ce fst snd pred pow INR chebT_pair].
  replace (k * (t * 0) + 0 * (PI / 2)) with 0 by ring. replace (k * (t * 0) + 1 * (PI / 2)) with (PI / 2) by ring.
  rewrite cos_0, sin_0, cos_PI2, sin_PI2. unfold basis_eps.
  split; apply injective_projections; unfold Cplus, Cmult, RtoC; cbn [fst snd]; try ring; field.
Qed.

(** The complex logarithm near the arc: trace ln R + i theta, normal
    derivative 1/R. *)
Definition log_ctx : ext_ctx :=
  ex_ctx 0 [(0, 0); (0, 1)]%nat [(ln (23 / 10), PI + / 2 * (PI / 4)); (0, PI - / 2 * (PI / 4) + basis_eps)]
    [RtoC (/ (23 / 10)); RtoC 0] true no_source.

Lemma log_trace : forall t, PI / 2 < t < 3 * (PI / 2) ->
  let c := log_ctx in let r := ec_r c in let D := logD in
  let u0 t := D 0%nat 0%nat (r t * cos t) (r t * sin t) in
  let u1 t := Cplus (Cmult (RtoC (fst (eval_normal r t))) (D 1%nat 0%nat (r t * cos t) (r t * sin t)))
                    (Cmult (RtoC (snd (eval_normal r t))) (D 0%nat 1%nat (r t * cos t) (r t * sin t))) in
  let g := eval_g_inv (ec_R c) (ec_a c) 0 in
  seg_function g (ec_B c) (ec_c0 c) 0 t = u0 t /\ seg_function g (ec_B c) (ec_c1 c) 0 t = u1 t.
Proof.
  intros t Ht c r D u0 u1 g. destruct (logD_trace (23 / 10) t ltac:(lra) Ht) as [E0 E1]. pose proof PI_RGT_0.
  assert (U1 : u1 t = RtoC (/ (23 / 10))).
  { unfold u1, r. cbn [c log_ctx ex_ctx ec_r]. rewrite arc_normal by lra. cbn [fst snd]. exact E1. }
  assert (U0 : u0 t = (ln (23 / 10), t)) by exact E0.
  rewrite U0, U1. unfold g, seg_function, eval_g_inv, get_span_center, chebT.
  cbn [c log_ctx ex_ctx ec_B ec_c0 ec_c1 ec_R ec_a length csum nth_error Nat.eqb nth chebT_pair fst snd].
  unfold basis_eps.
  split; apply injective_projections; unfold Cplus, Cmult, RtoC; cbn [fst snd]; try ring; field; lra.
Qed.

Lemma bump_centre : sep bump 0%nat 0%nat 0 0 = RtoC 1.
Proof.
  unfold bump. cbn [sep]. unfold mono. cbn [mono_ce fst snd pred pow INR].
  apply injective_projections; unfold Cplus, RtoC; cbn [fst snd]; ring.
Qed.

Lemma ridge_corner : let c := ridge_ctx 1 in
  -1 < eval_g_inv (ec_R c) (ec_a c) 1 0 < 1 /\
  length (ec_c0 c) = length (ec_B c) /\ length (ec_c1 c) = length (ec_B c) /\
  seg_function (eval_g_inv (ec_R c) (ec_a c) 1) (ec_B c) (ec_c1 c) 1 0 = RtoC 1.
Proof.
  intros c. pose proof PI_RGT_0. split.
  - apply seg_range_g_inv; cbn; [lra|lra|lia|lra].
  - split; [reflexivity|]. split; [reflexivity|].
    unfold seg_function, chebT. cbn [c ridge_ctx ex_ctx ec_B ec_c1 length csum nth_error Nat.eqb nth chebT_pair fst].
    apply injective_projections; unfold Cplus, Cmult, RtoC; cbn [fst snd]; ring.
Qed.

Lemma arc_normal_pi : is_normal (r_arc (23 / 10)) (PI / 4) 0 PI (-1, 0).
Proof.
  cbn [is_normal fst snd]. rewrite cos_PI, sin_PI. split; [ring|]. split; [|lra].
  assert (E : Derive (fun t => r_arc (23 / 10) t * cos t) PI = 0).
  { apply is_derive_unique. unfold r_arc. replace 0 with (23 / 10 * - sin PI) by (rewrite sin_PI; ring).
    auto_derive; [exact I|ring]. }
  rewrite E. ring.
Qed.
