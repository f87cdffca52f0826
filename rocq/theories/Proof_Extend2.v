(** Extension of boundary data: end-to-end statements. *)
From Coq Require Import ZArith List Bool Reals Lra Lia Psatz.
From Coquelicot Require Import Coquelicot.
From Verif Require Import Model_Py Model_Multivalue Model_Grid Model_Fourier Model_Chebyshev Model_Domain Model_Ext
  Model_Extend Spec_Chebyshev Spec_Domain Spec_Grid Spec_Ext Spec_Extend Spec_Multivalue Spec_PS Lib_Csum
  Proof_Basis Proof_Multivalue Proof_Grid Proof_Domain Proof_Boundary Proof_Place Proof_Ext Proof_Ext2 Proof_Extend Proof_Linear.
Import ListNotations.
Open Scope R_scope.

(** ** Derivatives of the boundary functions *)

Fixpoint rsum_ (n : nat) (f : nat -> R) : R :=
  match n with O => 0 | S n' => rsum_ n' f + f n' end.

Lemma rsum_derive : forall n (f f' : nat -> R -> R) t,
  (forall m, (m < n)%nat -> is_derive (f m) t (f' m t)) ->
  is_derive (fun t => rsum_ n (fun m => f m t)) t (rsum_ n (fun m => f' m t)).
Proof.
  induction n as [|n IH]; intros f f' t H; cbn [rsum_].
  - apply (@is_derive_const R_AbsRing R_NormedModule).
  - apply (is_derive_plus (V := R_NormedModule)); [apply IH; intros m Hm; apply H; lia|apply H; lia].
Qed.

Lemma bval_derive : forall R0 a B sid o JJ t, (o < 5)%nat -> (JJ < length B)%nat -> -1 < eval_g_inv R0 a sid t < 1 ->
  is_derive (fun t => bval R0 a B t sid o JJ) t (bval R0 a B t sid (S o) JJ).
Proof.
  intros R0 a B sid o JJ t Ho HJ Ht. destruct (nth_error B JJ) as [[s J]|] eqn:E; [|apply nth_error_None in E; lia].
  destruct (Nat.eq_dec s sid) as [->|Hne].
  - apply (is_derive_ext (dnB R0 a sid o J)).
    { intros u. unfold bval. rewrite (eval_dn_B_same _ _ _ _ _ _ _ _ E) by lia. reflexivity. }
    unfold bval. rewrite (eval_dn_B_same _ _ _ _ _ _ _ _ E) by lia. apply dnB_derive; [exact Ho|exact Ht].
  - apply (is_derive_ext (fun _ => 0)).
    { intros u. unfold bval. rewrite (eval_dn_B_other _ _ _ _ _ _ _ _ _ E) by assumption. reflexivity. }
    unfold bval. rewrite (eval_dn_B_other _ _ _ _ _ _ _ _ _ E) by assumption.
    apply (@is_derive_const R_AbsRing R_NormedModule).
Qed.

Lemma seg_function_bval : forall R0 a B cs sid t, -1 < eval_g_inv R0 a sid t < 1 ->
  seg_function (eval_g_inv R0 a sid) B cs sid t =
  csum (length B) (fun JJ => Cmult (as_vec cs JJ) (RtoC (bval R0 a B t sid 0 JJ))).
Proof.
  intros R0 a B cs sid t Ht. unfold seg_function. apply csum_ext. intros JJ HJ.
  destruct (nth_error B JJ) as [[s J]|] eqn:E; [|apply nth_error_None in E; lia].
  unfold bval, as_vec. destruct (Nat.eqb_spec s sid) as [->|Hne].
  - rewrite (eval_dn_B_same _ _ _ _ _ _ _ _ E), dnB_0 by (lia || lra). reflexivity.
  - rewrite (eval_dn_B_other _ _ _ _ _ _ _ _ _ E) by assumption. ring.
Qed.

Lemma csum_comp : forall n (x : nat -> C) (b : nat -> R),
  csum n (fun JJ => Cmult (x JJ) (RtoC (b JJ))) = (rsum_ n (fun JJ => fst (x JJ) * b JJ), rsum_ n (fun JJ => snd (x JJ) * b JJ)).
Proof.
  induction n as [|n IH]; intros x b; cbn [csum rsum_]; [reflexivity|]. rewrite IH.
  apply injective_projections; unfold Cplus, Cmult, RtoC; cbn [fst snd]; ring.
Qed.

Lemma seg_function_derivs : forall R0 a B cs sid o t, (o <= 4)%nat -> -1 < eval_g_inv R0 a sid t < 1 ->
  CDerive_n (seg_function (eval_g_inv R0 a sid) B cs sid) o t =
  csum (length B) (fun JJ => Cmult (as_vec cs JJ) (RtoC (bval R0 a B t sid o JJ))).
Proof.
  intros R0 a B cs sid o t Ho Ht. rewrite csum_comp. unfold CDerive_n.
  assert (K : forall (pr : C -> R), (pr = fst \/ pr = snd) ->
    Derive_n (fun t => pr (seg_function (eval_g_inv R0 a sid) B cs sid t)) o t =
    rsum_ (length B) (fun JJ => pr (as_vec cs JJ) * bval R0 a B t sid o JJ)).
  { intros pr Hpr.
    set (f := fun l u => rsum_ (length B) (fun JJ => pr (as_vec cs JJ) * bval R0 a B u sid l JJ)).
    rewrite (Derive_n_ext_loc _ (f 0%nat)).
    - apply (chain_open (fun u => -1 < eval_g_inv R0 a sid u < 1) f 5); [|intros l u Hl Hu|lia|exact Ht].
      + intros u Hu. apply g_inv_locally; exact Hu.
      + unfold f. apply (rsum_derive (length B) (fun JJ u => pr (as_vec cs JJ) * bval R0 a B u sid l JJ)
          (fun JJ u => pr (as_vec cs JJ) * bval R0 a B u sid (S l) JJ)).
        intros JJ HJ. apply (is_derive_scal (fun u => bval R0 a B u sid l JJ)). apply bval_derive; [lia|exact HJ|exact Hu].
    - eapply filter_imp; [|apply g_inv_locally; exact Ht]. intros u Hu. unfold f. rewrite seg_function_bval by exact Hu.
      rewrite csum_comp. destruct Hpr as [-> | ->]; reflexivity. }
  f_equal; apply K; auto.
Qed.

Lemma ctab_csum : forall c c0 c1 arg sid o i n, (i < 2)%nat ->
  ctab c c0 c1 arg sid (seq 0 n) o i =
  csum n (fun JJ => Cmult (match i with O => c0 JJ | _ => c1 JJ end) (RtoC (bval (ec_R c) (ec_a c) (ec_B c) arg sid o JJ))).
Proof.
  intros c c0 c1 arg sid o i n Hi.
  assert (G : forall n k, ctab c c0 c1 arg sid (seq k n) o i =
    csum n (fun JJ => Cmult (match i with O => c0 (k + JJ)%nat | _ => c1 (k + JJ)%nat end)
      (RtoC (bval (ec_R c) (ec_a c) (ec_B c) arg sid o (k + JJ))))).
  { clear n. induction n as [|n IH]; intros k; [reflexivity|]. cbn [seq ctab]. rewrite csum_shift, IH.
    rewrite (csum_ext n (fun JJ => Cmult (match i with O => c0 (S k + JJ)%nat | _ => c1 (S k + JJ)%nat end)
       (RtoC (bval (ec_R c) (ec_a c) (ec_B c) arg sid o (S k + JJ))))
       (fun m => Cmult (match i with O => c0 (k + S m)%nat | _ => c1 (k + S m)%nat end)
       (RtoC (bval (ec_R c) (ec_a c) (ec_B c) arg sid o (k + S m))))).
    2:{ intros m _. replace (S k + m)%nat with (k + S m)%nat by lia. reflexivity. }
    rewrite Nat.add_0_r. unfold btab. destruct i as [|[|i]]; [| |lia]; cbn [Nat.eqb]; ring. }
  rewrite G. reflexivity.
Qed.

(** The derivatives handed to the extension formulas are those of the boundary
    functions. *)
Lemma table_derivs : forall c types arg sid, (forall o i, In (o, i) types -> (o <= 4)%nat /\ (i < 2)%nat) ->
  length (ec_c0 c) = length (ec_B c) -> length (ec_c1 c) = length (ec_B c) ->
  -1 < eval_g_inv (ec_R c) (ec_a c) sid arg < 1 ->
  exists d, calc_xi_derivs c SrcCoef types arg sid = Ok d /\
    forall o i, In (o, i) types -> xi_get d o i =
      Ok (CDerive_n (seg_function (eval_g_inv (ec_R c) (ec_a c) sid) (ec_B c)
            (match i with O => ec_c0 c | _ => ec_c1 c end) sid) o arg).
Proof.
  intros c types arg sid Ht L0 L1 Hg. eexists. split; [apply coef_table; assumption|].
  intros o i Hin. rewrite tab_get by exact Hin. destruct (Ht o i Hin) as [Ho Hi].
  rewrite ctab_csum by exact Hi. rewrite seg_function_derivs by assumption.
  f_equal. apply csum_ext. intros JJ _. destruct i; reflexivity.
Qed.

(** ** Straight segments *)

Lemma smooth_opp : forall m lo hi f l s, smooth_on m lo hi f -> (l <= m)%nat -> lo < - s < hi ->
  Derive_n (fun y => f (- y)) l s = (-1) ^ l * Derive_n f l (- s).
Proof.
  intros m lo hi f l s Hf Hl Hs. apply Derive_n_comp_opp.
  eapply filter_imp; [|apply interval_locally'; exact Hs]. intros u Hu [|k] Hk; [exact I|].
  cbn [ex_derive_n]. apply Hf; [lia|exact Hu].
Qed.

Lemma flat_ignores : forall k n x0 x1 d0 d1 e0 e1 dd0 dd1 d4,
  extend_arbitrary k n 0 0 0 (mk_ed x0 x1 d0 d1 dd0 dd1 d4) =
  extend_arbitrary k n 0 0 0 (mk_ed x0 x1 e0 e1 dd0 dd1 d4).
Proof.
  intros. unfold extend_arbitrary, arbitrary_derivs.
  cbn [ed_xi0 ed_xi1 ed_d_xi0 ed_d_xi1 ed_d2_xi0 ed_d2_xi1 ed_d4_xi0].
  replace (2 * 0) with 0 by ring. replace (6 * 0 * 0) with 0 by ring. rewrite !Cmult_0_l. reflexivity.
Qed.

Lemma line_unit : forall lo hi e1 e2, e1 ^ 2 + e2 ^ 2 = 1 ->
  unit_curve lo hi (fun s => s * e1) (fun s => s * e2) (fun _ => e1) (fun _ => e2) (fun _ => 0).
Proof.
  intros lo hi e1 e2 H s _.
  assert (D0 : forall c : R, is_derive (fun _ : R => c) s 0) by (intros c; apply (@is_derive_const R_AbsRing R_NormedModule)).
  split; [auto_derive; [exact I|ring]|]. split; [auto_derive; [exact I|ring]|]. split; [exact H|].
  split; [replace (0 * e2) with 0 by ring; apply D0|]. split; [replace (- (0 * e1)) with 0 by ring; apply D0|].
  split; [eexists; apply D0|].
  apply (ex_derive_ext (fun _ => 0)); [intros t; symmetry; apply Derive_const|]. eexists; apply D0.
Qed.

Lemma line_taylor_pos : forall O lo hi D k e1 e2 t n, e1 ^ 2 + e2 ^ 2 = 1 -> open2 O ->
  (forall t, lo < t < hi -> O (t * e1) (t * e2)) -> partials O 4 D ->
  helmholtz O k D (fun _ _ _ _ => RtoC 0) -> lo < t < hi ->
  let u0 t := D 0%nat 0%nat (t * e1) (t * e2) in
  let u1 t := Cplus (Cmult (RtoC e2) (D 1%nat 0%nat (t * e1) (t * e2)))
                    (Cmult (RtoC (- e1)) (D 0%nat 1%nat (t * e1) (t * e2))) in
  extend_arbitrary k n 0 0 0 (mk_ed (u0 t) (u1 t) (CDerive_n u0 1 t) (CDerive_n u1 1 t)
     (CDerive_n u0 2 t) (CDerive_n u1 2 t) (CDerive_n u0 4 t)) =
  taylor_poly (fun m => D 0%nat 0%nat (t * e1 + m * e2) (t * e2 + m * - e1)) 4 n.
Proof.
  intros O lo hi D k e1 e2 t n He HO Hin HD PDE Ht u0 u1.
  pose proof (homogeneous_taylor O lo hi _ _ _ _ _ D k t n HO (line_unit lo hi e1 e2 He) Hin HD PDE Ht) as H.
  rewrite Derive_const in H. replace (Derive_n (fun _ => 0) 2 t) with 0 in H.
  2:{ cbn [Derive_n]. rewrite (Derive_ext _ (fun _ => 0)) by (intros; apply Derive_const). symmetry. apply Derive_const. }
  etransitivity; [exact H|]. unfold along_normal. f_equal.
  apply FunctionalExtensionality.functional_extensionality. intros m. f_equal; ring.
Qed.

Lemma line_taylor_neg : forall O lo hi D k e1 e2 t n, e1 ^ 2 + e2 ^ 2 = 1 -> open2 O ->
  (forall t, lo < t < hi -> O (t * e1) (t * e2)) -> partials O 4 D ->
  helmholtz O k D (fun _ _ _ _ => RtoC 0) -> lo < t < hi ->
  let u0 t := D 0%nat 0%nat (t * e1) (t * e2) in
  let u1 t := Cplus (Cmult (RtoC (- e2)) (D 1%nat 0%nat (t * e1) (t * e2)))
                    (Cmult (RtoC e1) (D 0%nat 1%nat (t * e1) (t * e2))) in
  extend_arbitrary k n 0 0 0 (mk_ed (u0 t) (u1 t) (CDerive_n u0 1 t) (CDerive_n u1 1 t)
     (CDerive_n u0 2 t) (CDerive_n u1 2 t) (CDerive_n u0 4 t)) =
  taylor_poly (fun m => D 0%nat 0%nat (t * e1 + m * - e2) (t * e2 + m * e1)) 4 n.
Proof.
  intros O lo hi D k e1 e2 t n He HO Hin HD PDE Ht u0 u1.
  assert (He' : (- e1) ^ 2 + (- e2) ^ 2 = 1) by (rewrite <- He; ring).
  assert (Hin' : forall s, - hi < s < - lo -> O (s * - e1) (s * - e2)).
  { intros s Hs. replace (s * - e1) with ((- s) * e1) by ring. replace (s * - e2) with ((- s) * e2) by ring. apply Hin. lra. }
  assert (Ht' : - hi < - t < - lo) by lra.
  pose proof (line_taylor_pos O (- hi) (- lo) D k (- e1) (- e2) (- t) n He' HO Hin' HD PDE Ht') as H. cbv zeta in H.
  destruct (trace_smooth O (- hi) (- lo) _ _ _ _ _ D HO (line_unit (- hi) (- lo) (- e1) (- e2) He') Hin' HD) as [S0 S1].
  set (w0 := trace0 D (fun s => s * - e1) (fun s => s * - e2)) in *.
  set (w1 := trace1 D (fun s => s * - e1) (fun s => s * - e2) (fun _ => - e1) (fun _ => - e2)) in *.
  change (fun t => D 0%nat 0%nat (t * - e1) (t * - e2)) with w0 in H.
  change (fun t => Cplus (Cmult (RtoC (- e2)) (D 1%nat 0%nat (t * - e1) (t * - e2)))
     (Cmult (RtoC (- - e1)) (D 0%nat 1%nat (t * - e1) (t * - e2)))) with w1 in H.
  assert (E0 : u0 = fun t => w0 (- t)).
  { apply FunctionalExtensionality.functional_extensionality. intros x. unfold u0, w0, trace0. f_equal; ring. }
  assert (E1 : u1 = fun t => w1 (- t)).
  { apply FunctionalExtensionality.functional_extensionality. intros x. unfold u1, w1, trace1.
    replace (- - e1) with e1 by ring. do 3 f_equal; ring. }
  assert (D0 : forall l, (l <= 4)%nat -> (-1) ^ l = 1 -> CDerive_n u0 l t = CDerive_n w0 l (- t)).
  { intros l Hl Hev. rewrite E0. destruct S0 as [A B]. unfold CDerive_n.
    rewrite (smooth_opp 4 (- hi) (- lo) (fun t => fst (w0 t)) l t A Hl Ht'), (smooth_opp 4 (- hi) (- lo) (fun t => snd (w0 t)) l t B Hl Ht').
    rewrite Hev. f_equal; ring. }
  assert (D1 : forall l, (l <= 2)%nat -> (-1) ^ l = 1 -> CDerive_n u1 l t = CDerive_n w1 l (- t)).
  { intros l Hl Hev. rewrite E1. destruct S1 as [A B]. unfold CDerive_n.
    rewrite (smooth_opp 2 (- hi) (- lo) (fun t => fst (w1 t)) l t A Hl Ht'), (smooth_opp 2 (- hi) (- lo) (fun t => snd (w1 t)) l t B Hl Ht').
    rewrite Hev. f_equal; ring. }
  rewrite (D0 2%nat), (D0 4%nat), (D1 2%nat) by (lia || (cbn [pow]; ring)).
  rewrite (flat_ignores k n _ _ _ _ (CDerive_n w0 1 (- t)) (CDerive_n w1 1 (- t))).
  replace (u0 t) with (w0 (- t)) by (rewrite E0; reflexivity). replace (u1 t) with (w1 (- t)) by (rewrite E1; reflexivity).
  etransitivity; [exact H|]. f_equal. apply FunctionalExtensionality.functional_extensionality. intros m. f_equal; ring.
Qed.

(** ** Whole nodes *)

(** Traces of a plane function on a segment. *)
Definition on_point (D : nat -> nat -> R -> R -> C) (i j : nat) (q : R * R) : C := D i j (fst q) (snd q).

Lemma CDerive_n_near : forall (f g : R -> C) l s, locally s (fun t => f t = g t) ->
  CDerive_n f l s = CDerive_n g l s.
Proof.
  intros f g l s H. unfold CDerive_n. f_equal; apply Derive_n_ext_loc;
    (eapply filter_imp; [|exact H]); intros t Ht; rewrite Ht; reflexivity.
Qed.
Lemma near_at : forall (f g : R -> C) s, locally s (fun t => f t = g t) -> f s = g s.
Proof. intros f g s H. apply locally_singleton in H. exact H. Qed.

(** Segments 1 and 2, nodes projecting into the segment: if the boundary
    functions are the traces of a Helmholtz solution near the foot point, the
    value is the solution's Taylor polynomial at the node. *)
Lemma node_taylor_12 : forall c sid p x y O lo hi D e1 e2 sg,
  0 < ec_R c -> 0 < ec_a c < PI -> (1 <= sid < 3)%nat ->
  length (ec_c0 c) = length (ec_B c) -> length (ec_c1 c) = length (ec_B c) ->
  ctx_coord c p = (x, y) -> node_etype c sid p = Ok EStandard ->
  (sid = 1%nat /\ e1 = 1 /\ e2 = 0 /\ sg = -1 \/ sid = 2%nat /\ e1 = cos (ec_a c) /\ e2 = sin (ec_a c) /\ sg = 1) ->
  let foot := x * e1 + y * e2 in
  let nn := sg * (x * e2 - y * e1) in
  let u0 t := D 0%nat 0%nat (t * e1) (t * e2) in
  let u1 t := Cplus (Cmult (RtoC (sg * e2)) (D 1%nat 0%nat (t * e1) (t * e2)))
                    (Cmult (RtoC (sg * - e1)) (D 0%nat 1%nat (t * e1) (t * e2))) in
  let g := eval_g_inv (ec_R c) (ec_a c) sid in
  open2 O -> (forall t, lo < t < hi -> O (t * e1) (t * e2)) -> partials O 4 D ->
  helmholtz O (ec_k c) D (fun _ _ _ _ => RtoC 0) -> lo < foot < hi ->
  (forall t, lo < t < hi -> seg_function g (ec_B c) (ec_c0 c) sid t = u0 t /\
                            seg_function g (ec_B c) (ec_c1 c) sid t = u1 t) ->
  do_extend c SrcCoef sid EStandard p =
  Ok (Rabs nn, taylor_poly (fun m => D 0%nat 0%nat (foot * e1 + m * (sg * e2)) (foot * e2 + m * (sg * - e1))) 4 nn).
Proof.
  intros c sid p x y O lo hi D e1 e2 sg HR Ha Hsid L0 L1 E Het Hcase foot nn u0 u1 g HO Hin HD PDE Hf Htr.
  destruct (coords_12 c sid EStandard p x y HR Ha Hsid E Het) as (arg & delta & n & Hr & Hd & Hpt & Hdo).
  rewrite (Hd eq_refl) in *. rewrite Rplus_0_r in Hpt.
  specialize (Hdo (ec_B c) (ec_c0 c) (ec_c1 c) SrcCoef). rewrite with_basis_id in Hdo.
  pose proof PI_RGT_0.
  assert (He : e1 ^ 2 + e2 ^ 2 = 1).
  { destruct Hcase as [(_ & -> & -> & _)|(_ & -> & -> & _)]; [ring|]. pose proof (sin2_cos2 (ec_a c)). unfold Rsqr in *. lra. }
  assert (Hsg : sg * sg = 1) by (destruct Hcase as [(_ & _ & _ & ->)|(_ & _ & _ & ->)]; ring).
  assert (P : x = arg * e1 + n * (sg * e2) /\ y = arg * e2 + n * (sg * - e1)).
  { destruct Hcase as [(-> & -> & -> & ->)|(-> & -> & -> & ->)].
    - destruct (Hpt (0, 1) eq_refl) as [Hx Hy]. cbn [seg_point fst snd] in Hx, Hy. split; lra.
    - destruct (Hpt (sin (ec_a c), - cos (ec_a c)) eq_refl) as [Hx Hy]. cbn [seg_point fst snd] in Hx, Hy. split; lra. }
  assert (Ef : arg = foot).
  { unfold foot. destruct P as [-> ->].
    transitivity (arg * (e1 ^ 2 + e2 ^ 2)); [rewrite He; ring|ring]. }
  assert (En : n = nn).
  { unfold nn. destruct P as [-> ->].
    transitivity (n * (sg * sg) * (e1 ^ 2 + e2 ^ 2)); [rewrite He, Hsg; ring|ring]. }
  rewrite Hdo, Ef, En. clear Hdo.
  assert (Hg : -1 < g foot < 1).
  { apply seg_range_g_inv; [exact HR|lra|lia|]. rewrite <- Ef. exact Hr. }
  destruct (table_derivs c types_12 foot sid (types_small _ (or_intror (or_introl eq_refl))) L0 L1 Hg) as (d & Ed & Hxi).
  rewrite Ed. cbn [bind].
  assert (V0 : forall o, CDerive_n (seg_function g (ec_B c) (ec_c0 c) sid) o foot = CDerive_n u0 o foot).
  { intros o. apply (CDerive_n_ext_loc _ _ lo hi); [|exact Hf]. intros t Ht. apply Htr; exact Ht. }
  assert (V1 : forall o, CDerive_n (seg_function g (ec_B c) (ec_c1 c) sid) o foot = CDerive_n u1 o foot).
  { intros o. apply (CDerive_n_ext_loc _ _ lo hi); [|exact Hf]. intros t Ht. apply Htr; exact Ht. }
  rewrite (extend_radius_eq c nn d (fun o i => match i with O => CDerive_n u0 o foot | _ => CDerive_n u1 o foot end)).
  2:{ intros o i Hoi. rewrite (Hxi o i Hoi). fold g. destruct i; [rewrite V0|rewrite V1]; reflexivity. }
  cbn [bind]. do 2 f_equal. unfold phi_r.
  assert (Z : forall (f : R -> C) t, CDerive_n f 0 t = f t) by (intros f t; unfold CDerive_n; cbn [Derive_n]; symmetry; apply surjective_pairing).
  rewrite !Z.
  destruct Hcase as [(_ & _ & _ & Es)|(_ & _ & _ & Es)].
  - pose proof (line_taylor_neg O lo hi D (ec_k c) e1 e2 foot nn He HO Hin HD PDE Hf) as H'. cbv zeta in H'.
    assert (Eu : u1 = fun t => Cplus (Cmult (RtoC (- e2)) (D 1%nat 0%nat (t * e1) (t * e2)))
                    (Cmult (RtoC e1) (D 0%nat 1%nat (t * e1) (t * e2)))).
    { apply FunctionalExtensionality.functional_extensionality. intros t. unfold u1. rewrite Es. do 3 f_equal; ring. }
    rewrite Eu. etransitivity; [exact H'|]. f_equal.
    apply FunctionalExtensionality.functional_extensionality. intros m. rewrite Es. f_equal; ring.
  - pose proof (line_taylor_pos O lo hi D (ec_k c) e1 e2 foot nn He HO Hin HD PDE Hf) as H'. cbv zeta in H'.
    assert (Eu : u1 = fun t => Cplus (Cmult (RtoC e2) (D 1%nat 0%nat (t * e1) (t * e2)))
                    (Cmult (RtoC (- e1)) (D 0%nat 1%nat (t * e1) (t * e2)))).
    { apply FunctionalExtensionality.functional_extensionality. intros t. unfold u1. rewrite Es. do 3 f_equal; ring. }
    rewrite Eu. etransitivity; [exact H'|]. f_equal.
    apply FunctionalExtensionality.functional_extensionality. intros m. rewrite Es. f_equal; ring.
Qed.

(** ** The arc solver *)

Lemma count_nodup : forall l p, NoDup l -> length (filter (node_eqb p) l) = if node_mem p l then 1%nat else 0%nat.
Proof.
  induction l as [|q l IH]; intros p Hn; [reflexivity|]. inversion Hn; subst. cbn [filter].
  destruct (node_eqb_spec p q) as [->|Hne].
  - cbn [length]. rewrite IH by assumption.
    destruct (node_mem q l) eqn:E; [apply node_mem_in in E; contradiction|].
    rewrite (proj2 (node_mem_in q (q :: l))); [reflexivity|left; reflexivity].
  - rewrite IH by assumption. destruct (node_mem p l) eqn:E.
    + apply node_mem_in in E. rewrite (proj2 (node_mem_in p (q :: l))); [reflexivity|right; exact E].
    + destruct (node_mem p (q :: l)) eqn:E'; [|reflexivity]. apply node_mem_in in E'. destruct E' as [E'|E']; [congruence|].
      apply node_mem_in in E'. congruence.
Qed.

Lemma arc_ctx_wf : forall brentq order c, brentq_contract brentq -> (order = 2 \/ order = 4)%Z ->
  arc_solver brentq order c ->
  ec_R c > ec_AD c / IZR (ec_N c) * sqrt 2 * (1 + sqrt (2 / (1 - Rabs (cos (ec_a c))))) ->
  ctx_wf c.
Proof.
  intros brentq order c Hb Ho (HR & Ha & HL & HN & Er & Ebc & Hen & Hall) Hbound.
  rewrite Ebc in Hall.
  destruct (gamma_placed_spec brentq _ _ _ _ Hb HR Ha HL HN order _ Ho Hen) as (g0 & g1 & g2 & E & Hin & N0 & N1 & N2).
  rewrite Hall in E. injection E as E0 E1 E2. subst g0 g1 g2.
  assert (H2 := at_most_two brentq _ _ _ _ Hb HR Ha HL HN Hbound order _ _ _ _ Ho Hen Hall).
  split; [exact HR|]. split; [exact Ha|]. split; [|split].
  - intros [|[|[|sid]]] p Hs Hp; try lia; apply Hin; auto.
  - intros p Hp. unfold occurrences. rewrite !app_length, !count_nodup by assumption.
    specialize (H2 p). rewrite <- !node_mem_in in H2. apply Hin in Hp. rewrite <- !node_mem_in in Hp.
    destruct (node_mem p (ec_gamma c 0)), (node_mem p (ec_gamma c 1)), (node_mem p (ec_gamma c 2)); cbn; auto;
      exfalso; intuition congruence.
  - intros p _. rewrite Ebc. destruct (get_coord (ec_AD c) (ec_N c) (fst p) (snd p)) as [x y] eqn:Exy.
    destruct (ps_polar_xy (ec_a c) x y) as [r th] eqn:Ep.
    destruct (bcoord_arc brentq (ec_R c) (ec_a c) (ec_AD c) (ec_N c) Hb HR Ha p x y r th Exy Ep) as (th0 & Eb & _).
    eexists; exact Eb.
Qed.

(** ** Nodes of the outer curve *)

Lemma CDerive_n_0 : forall (f : R -> C) t, CDerive_n f 0 t = f t.
Proof. intros f t. unfold CDerive_n. cbn [Derive_n]. symmetry. apply surjective_pairing. Qed.

Lemma node_taylor_0 : forall c p n th Sa Th O lo hi D,
  0 < ec_R c -> 0 < ec_a c < PI ->
  length (ec_c0 c) = length (ec_B c) -> length (ec_c1 c) = length (ec_B c) ->
  let r := ec_r c in
  (forall t, 0 < r t ^ 2 + Derive r t ^ 2) ->
  (forall t, is_derive Sa t (sqrt (r t ^ 2 + Derive r t ^ 2))) -> (forall y, Sa (Th y) = y) ->
  (forall t, ex_derive r t) -> (forall t, ex_derive (Derive r) t) ->
  (forall l t, (l <= 2)%nat -> ex_derive (Derive_n (fun t => sqrt (r t ^ 2 + Derive r t ^ 2)) l) t) ->
  (forall l t, (l <= 1)%nat -> ex_derive (Derive_n (b_curv r) l) t) ->
  In p (ec_gamma c 0) -> ec_bcoord c p = Some (n, th) -> node_etype c 0 p = Ok EStandard ->
  let nx t := fst (eval_normal r t) in
  let ny t := snd (eval_normal r t) in
  let u0 t := D 0%nat 0%nat (r t * cos t) (r t * sin t) in
  let u1 t := Cplus (Cmult (RtoC (nx t)) (D 1%nat 0%nat (r t * cos t) (r t * sin t)))
                    (Cmult (RtoC (ny t)) (D 0%nat 1%nat (r t * cos t) (r t * sin t))) in
  let g := eval_g_inv (ec_R c) (ec_a c) 0 in
  open2 O -> (forall t, lo < t < hi -> O (r t * cos t) (r t * sin t)) -> partials O 4 D ->
  helmholtz O (ec_k c) D (fun _ _ _ _ => RtoC 0) -> lo < th < hi ->
  (forall t, lo < t < hi -> seg_function g (ec_B c) (ec_c0 c) 0 t = u0 t /\
                            seg_function g (ec_B c) (ec_c1 c) 0 t = u1 t) ->
  do_extend c SrcCoef 0 EStandard p =
  Ok (Rabs n, taylor_poly (fun m => D 0%nat 0%nat (r th * cos th + m * nx th) (r th * sin th + m * ny th)) 4 n).
Proof.
  intros c p n th Sa Th O lo hi D HR Ha L0 L1 r Hv HS Hinv Er Er2 Ev Ek Hp Hbc Het nx ny u0 u1 g HO Hin HD PDE Hth Htr.
  destruct (coords_0 c EStandard p n th Ha Hp Hbc Het) as (arg & delta & Hr & Hsum & Hd & Hdo).
  rewrite (Hd eq_refl), Rplus_0_r in Hsum. subst arg. clear Hd delta.
  specialize (Hdo (ec_B c) (ec_c0 c) (ec_c1 c) SrcCoef). rewrite with_basis_id in Hdo. rewrite Hdo. clear Hdo.
  pose proof PI_RGT_0.
  assert (Hg : -1 < g th < 1) by (apply seg_range_g_inv; [exact HR|lra|lia|exact Hr]).
  destruct (table_derivs c types_0 th 0 (types_small _ (or_introl eq_refl)) L0 L1 Hg) as (d & Ed & Hxi).
  rewrite Ed. cbn [bind].
  assert (V0 : forall o, CDerive_n (seg_function g (ec_B c) (ec_c0 c) 0) o th = CDerive_n u0 o th).
  { intros o. apply (CDerive_n_ext_loc _ _ lo hi); [|exact Hth]. intros t Ht. apply Htr; exact Ht. }
  assert (V1 : forall o, CDerive_n (seg_function g (ec_B c) (ec_c1 c) 0) o th = CDerive_n u1 o th).
  { intros o. apply (CDerive_n_ext_loc _ _ lo hi); [|exact Hth]. intros t Ht. apply Htr; exact Ht. }
  rewrite (extend_at_eq c n th d (fun o i => match i with O => CDerive_n u0 o th | _ => CDerive_n u1 o th end)).
  2:{ intros o i Hoi. rewrite (Hxi o i Hoi). fold g. destruct i; [rewrite V0|rewrite V1]; reflexivity. }
  cbn [bind]. do 2 f_equal. unfold phi_0. rewrite !CDerive_n_0.
  exact (polar_homogeneous_taylor r Sa Th Hv HS Hinv Er Er2 Ev Ek O lo hi D (ec_k c) th n HO Hin HD PDE Hth).
Qed.

(** The circle of radius [R0] satisfies the smoothness conditions. *)
Lemma Derive_arc : forall R0, Derive (r_arc R0) = fun _ => 0.
Proof. intros R0. apply FunctionalExtensionality.functional_extensionality. intros t. apply (Derive_const R0 t). Qed.
Lemma Derive_n_const' : forall (c : R) l, exists c', Derive_n (fun _ : R => c) l = fun _ => c'.
Proof.
  intros c l. induction l as [|l [c' IH]]; [exists c; reflexivity|]. exists 0. cbn [Derive_n].
  rewrite IH. apply FunctionalExtensionality.functional_extensionality. intros t. apply Derive_const.
Qed.
Lemma ex_derive_const' : forall (c : R) l t, ex_derive (Derive_n (fun _ : R => c) l) t.
Proof. intros c l t. destruct (Derive_n_const' c l) as [c' ->]. apply (@ex_derive_const R_AbsRing R_NormedModule). Qed.

Lemma arc_smooth : forall R0, 0 < R0 ->
  let r := r_arc R0 in
  (forall t, 0 < r t ^ 2 + Derive r t ^ 2) /\
  (forall t, is_derive (fun th => R0 * th) t (sqrt (r t ^ 2 + Derive r t ^ 2))) /\
  (forall y, (fun th => R0 * th) ((fun s => s / R0) y) = y) /\
  (forall t, ex_derive r t) /\ (forall t, ex_derive (Derive r) t) /\
  (forall l t, (l <= 2)%nat -> ex_derive (Derive_n (fun t => sqrt (r t ^ 2 + Derive r t ^ 2)) l) t) /\
  (forall l t, (l <= 1)%nat -> ex_derive (Derive_n (b_curv r) l) t).
Proof.
  intros R0 HR r.
  assert (Es : (fun t => sqrt (r t ^ 2 + Derive r t ^ 2)) = fun _ => R0).
  { apply FunctionalExtensionality.functional_extensionality. intros t. unfold r. rewrite Derive_arc. unfold r_arc.
    replace (R0 ^ 2 + 0 ^ 2) with (R0 ^ 2) by ring. apply sqrt_pow2. lra. }
  assert (Ec : exists k, b_curv r = fun _ => k).
  { eexists. apply FunctionalExtensionality.functional_extensionality. intros t. unfold b_curv, b_d2_r, b_d_r, r.
    cbn [Derive_n]. rewrite ?Derive_arc, ?Derive_const. unfold r_arc. reflexivity. }
  split; [intros t; unfold r; rewrite Derive_arc; unfold r_arc; apply Rlt_le_trans with (R0 ^ 2); [apply pow_lt; exact HR|lra]|].
  split.
  { intros t. replace (sqrt (r t ^ 2 + Derive r t ^ 2)) with R0 by (change (R0 = (fun t => sqrt (r t ^ 2 + Derive r t ^ 2)) t); rewrite Es; reflexivity).
    auto_derive; [exact I|ring]. }
  split; [intros y; cbv beta; field; lra|].
  split; [intros t; apply (ex_derive_const' R0 0)|]. split; [intros t; unfold r; rewrite Derive_arc; apply (ex_derive_const' 0 0)|].
  split; [intros l t _; rewrite Es; apply ex_derive_const'|]. destruct Ec as [kk ->]. intros l t _. apply ex_derive_const'.
Qed.

(** ** Linearity, stated with the basis extensions themselves *)

(** The basis extensions do not involve the coefficients. *)
Lemma extend_basis_any : forall c JJ bi, ctx_wf c -> (JJ < length (ec_B c))%nat -> (bi < 2)%nat ->
  extend_basis c JJ bi = Ok (map (fun p => mean (fun s => bext c JJ bi s p) (sids c p)) (ec_union c)).
Proof.
  intros c JJ bi Hc HJ Hb. unfold extend_basis, extend_boundary, mv_extend_boundary.
  pose proof (extend_reduce c (do_extend c (SrcBasis JJ bi)) (node_et c) (node_va (do_extend c (SrcBasis JJ bi)) c) Hc) as H.
  assert (K : forall sid p, (sid < 3)%nat -> In p (ec_gamma c sid) ->
    node_etype c sid p = Ok (node_et c sid p) /\
    do_extend c (SrcBasis JJ bi) sid (node_et c sid p) p = Ok (node_va (do_extend c (SrcBasis JJ bi)) c sid p)).
  { intros sid p Hs Hp. destruct (node_linear c sid p Hc Hs Hp) as (e & elen & v0 & v1 & He & Hbe & _).
    assert (Et : node_et c sid p = e) by (unfold node_et; rewrite He; reflexivity).
    pose proof (Hbe (ec_c0 c) (ec_c1 c) JJ HJ) as H2. rewrite with_basis_id in H2. destruct H2 as [B1 B2].
    unfold node_va. rewrite Et. split; [exact He|].
    destruct bi as [|[|bi]]; [rewrite B1|rewrite B2|lia]; reflexivity. }
  destruct (mv_extend c (do_extend c (SrcBasis JJ bi))) as [m|e]; cbn [bind orb] in *; apply H; exact K.
Qed.

Lemma extend_basis_ok : forall c JJ bi, ctx_wf c -> (JJ < length (ec_B c))%nat -> (bi < 2)%nat ->
  exists e, extend_basis c JJ bi = Ok e /\ length e = length (ec_union c).
Proof. intros. eexists. split; [apply extend_basis_any; assumption|]. apply map_length. Qed.

Lemma lincomb_csum : forall (cs : list C) (es : list (nat -> C)) i, length cs = length es ->
  lincomb cs es i = csum (length cs) (fun JJ => Cmult (as_vec cs JJ) (nth JJ es (fun _ => RtoC 0) i)).
Proof.
  induction cs as [|x cs IH]; intros [|e es] i H; try discriminate; [reflexivity|].
  cbn [lincomb length]. rewrite csum_shift. cbn [nth as_vec]. f_equal. rewrite IH by (cbn in H; lia). reflexivity.
Qed.

Lemma basis_exts_nth : forall c bi JJ i, ctx_wf c -> (JJ < length (ec_B c))%nat -> (bi < 2)%nat ->
  forall e, extend_basis c JJ bi = Ok e -> nth JJ (basis_exts c bi) (fun _ => RtoC 0) i = as_vec e i.
Proof.
  intros c bi JJ i Hwf HJ Hb e E. rewrite extend_basis_any in E by assumption. injection E as <-.
  unfold basis_exts. rewrite (nth_indep _ _ (as_vec (map (fun p => mean (fun s => bext c 0 bi s p) (sids c p)) (ec_union c))))
    by (rewrite map_length, seq_length; exact HJ).
  rewrite (map_nth (fun JJ => as_vec (map (fun p => mean (fun s => bext c JJ bi s p) (sids c p)) (ec_union c)))).
  rewrite seq_nth by exact HJ. reflexivity.
Qed.

Lemma lincomb_basis : forall c bi cs i (E : nat -> list C), ctx_wf c -> (bi < 2)%nat -> length cs = length (ec_B c) ->
  (forall JJ, (JJ < length (ec_B c))%nat -> extend_basis c JJ bi = Ok (E JJ)) ->
  lincomb cs (basis_exts c bi) i = csum (length (ec_B c)) (fun JJ => Cmult (as_vec cs JJ) (as_vec (E JJ) i)).
Proof.
  intros c bi cs i E Hwf Hb L HE. rewrite lincomb_csum by (unfold basis_exts; rewrite map_length, seq_length; exact L).
  rewrite L. apply csum_ext. intros JJ HJ. f_equal. apply basis_exts_nth; auto.
Qed.

Lemma extension_linear : forall c extf (E0 E1 : nat -> list C), ctx_wf c ->
  length (ec_c0 c) = length (ec_B c) -> length (ec_c1 c) = length (ec_B c) ->
  (forall JJ, (JJ < length (ec_B c))%nat -> extend_basis c JJ 0 = Ok (E0 JJ) /\ extend_basis c JJ 1 = Ok (E1 JJ)) ->
  extend_inhomo_f c = Ok extf ->
  exists r, extend_boundary c SrcCoef false = Ok r /\ length r = length (ec_union c) /\
    forall i, (i < length (ec_union c))%nat -> as_vec r i =
      Cplus (csum (length (ec_B c)) (fun JJ => Cplus (Cmult (as_vec (ec_c0 c) JJ) (as_vec (E0 JJ) i))
                                                     (Cmult (as_vec (ec_c1 c) JJ) (as_vec (E1 JJ) i))))
            (as_vec extf i).
Proof.
  intros c extf E0 E1 Hwf L0 L1 HE Hf.
  destruct (extend_inhomogeneous c extf Hwf L0 L1 Hf) as (r & Er & Lr & Hr). exists r. split; [exact Er|]. split; [exact Lr|].
  intros i Hi. rewrite (Hr i Hi), csum_plus. unfold bd_ext.
  rewrite (lincomb_basis c 0 (ec_c0 c) i E0), (lincomb_basis c 1 (ec_c1 c) i E1) by (auto; try lia; intros; apply HE; assumption).
  ring.
Qed.

Lemma extension_linear_homogeneous : forall c (E0 E1 : nat -> list C), ctx_wf c ->
  length (ec_c0 c) = length (ec_B c) -> length (ec_c1 c) = length (ec_B c) ->
  (forall JJ, (JJ < length (ec_B c))%nat -> extend_basis c JJ 0 = Ok (E0 JJ) /\ extend_basis c JJ 1 = Ok (E1 JJ)) ->
  exists r, extend_boundary c SrcCoef true = Ok r /\ length r = length (ec_union c) /\
    forall i, (i < length (ec_union c))%nat -> as_vec r i =
      csum (length (ec_B c)) (fun JJ => Cplus (Cmult (as_vec (ec_c0 c) JJ) (as_vec (E0 JJ) i))
                                              (Cmult (as_vec (ec_c1 c) JJ) (as_vec (E1 JJ) i))).
Proof.
  intros c E0 E1 Hwf L0 L1 HE.
  destruct (extend_homogeneous c true Hwf (or_introl eq_refl) L0 L1) as (r & Er & Lr & Hr). exists r. split; [exact Er|]. split; [exact Lr|].
  intros i Hi. rewrite (Hr i Hi), csum_plus.
  rewrite (lincomb_basis c 0 (ec_c0 c) i E0), (lincomb_basis c 1 (ec_c1 c) i E1) by (auto; try lia; intros; apply HE; assumption).
  ring.
Qed.

(** A solver on the project's geometry exists. *)
Definition node_dec (p q : node) : {p = q} + {p <> q}.
Proof. destruct p as [a b], q as [a' b']. destruct (Z.eq_dec a a'); [destruct (Z.eq_dec b b')|]; [left|right|right]; congruence. Defined.

Lemma arc_solver_exists : forall brentq order k R0 a AD N B c0 c1 hom src, brentq_contract brentq -> (order = 2 \/ order = 4)%Z ->
  0 < R0 -> 0 < a < PI -> 0 < AD -> (1 <= N)%Z ->
  exists c, arc_solver brentq order c /\ ec_k c = k /\ ec_R c = R0 /\ ec_a c = a /\ ec_AD c = AD /\ ec_N c = N /\
    ec_B c = B /\ ec_c0 c = c0 /\ ec_c1 c = c1 /\ ec_homogeneous c = hom /\ ec_src c = src.
Proof.
  intros brentq order k R0 a AD N B c0 c1 hom src Hb Ho HR Ha HL HN.
  set (S := gamma_set order N (ps_is_interior (r_arc R0) a AD N)).
  set (U := nodup node_dec S).
  assert (HU : enumerates U S).
  { split; [apply NoDup_nodup|]. intros p. apply nodup_In. }
  destruct (gamma_placed_spec brentq R0 a AD N Hb HR Ha HL HN order U Ho HU) as (g0 & g1 & g2 & E & _).
  exists (mk_ctx k R0 a AD N (r_arc R0) (node_bcoord brentq (r_arc R0) a AD N) U
    (fun s => match s with 0%nat => g0 | 1%nat => g1 | _ => g2 end) B c0 c1 hom src).
  split; [|repeat split]. repeat split; cbn; auto; try lra; try lia; try apply HU; exact E.
Qed.

Lemma g_inverse : forall R0 a sid, 0 < R0 -> 0 < a < 2 * PI -> (sid < 3)%nat ->
  (forall t, eval_g_inv R0 a sid (eval_g R0 a sid t) = t) /\
  (forall arg, eval_g R0 a sid (eval_g_inv R0 a sid arg) = arg).
Proof. intros. split; intros; [apply g_inv_g|apply g_g_inv]; assumption. Qed.

Lemma evaluated_inside : forall c sid e p, 0 < ec_R c -> 0 < ec_a c < PI -> (sid < 3)%nat ->
  node_etype c sid p = Ok e ->
  (sid = 0%nat -> In p (ec_gamma c 0) /\ exists bc, ec_bcoord c p = Some bc) ->
  exists arg types (rest : xi_dict -> result (R * C)),
    seg_range (ec_R c) (ec_a c) sid arg /\ -1 < eval_g_inv (ec_R c) (ec_a c) sid arg < 1 /\
    (forall o i, In (o, i) types -> (o <= 4)%nat /\ (i < 2)%nat) /\
    forall B c0 c1 s, do_extend (with_basis c B c0 c1) s sid e p =
      (d <- calc_xi_derivs (with_basis c B c0 c1) s types arg sid;; rest d).
Proof.
  intros c sid e p HR Ha Hs He H0. destruct (factor_exists c sid e p HR Ha Hs He H0) as (arg & types & K & Hr & Ht & HF & _).
  exists arg, types, K. split; [exact Hr|]. pose proof PI_RGT_0.
  split; [apply seg_range_g_inv; auto; lra|]. split; [apply types_small; exact Ht|exact HF].
Qed.
