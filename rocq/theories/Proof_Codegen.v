(** Proofs about the code generators (C95). *)
From Coq Require Import ZArith List Reals Lia Lra Psatz String.
From Coquelicot Require Import Coquelicot.
From Verif Require Import Model_Py Model_Chebyshev Model_Domain Model_Fourier Model_Abcoef Model_Singular Model_ZMethod Model_Codegen Spec_Chebyshev Spec_Problems Spec_Codegen
  Proof_Domain Proof_Basis Proof_Problems Proof_Ext Proof_Acc8 Proof_AccI7.
From Verif Require Proof_Bessel.
From Verif Require Import Model_Grid Lib_Csum Spec_Abcoef Spec_ZRun Proof_Abcoef Proof_ArcDst Proof_Lstsq Proof_Singular.
Import ListNotations.
Open Scope R_scope.

Section Regular.
Variables (n : nat) (U : nat -> nat -> R -> R -> R).
Hypothesis HU : regular n U.

Lemma reg_x : forall i j x y, (i + j < n)%nat -> cg_diff_x (U i j) x y = U (S i) j x y.
Proof using HU. intros i j x y H. unfold cg_diff_x. apply is_derive_unique. apply (dpl_partial _ _ _ _ _ (HU i j x y H)). Qed.

Lemma reg_y : forall i j x y, (i + j < n)%nat -> cg_diff_y (U i j) x y = U i (S j) x y.
Proof using HU. intros i j x y H. unfold cg_diff_y. apply is_derive_unique. apply (dpl_partial _ _ _ _ _ (HU i j x y H)). Qed.

Lemma reg_r : forall i j r th, (i + j < n)%nat ->
  is_derive (fun r => U i j (r * cos th) (r * sin th)) r (cos th * U (S i) j (r * cos th) (r * sin th) + sin th * U i (S j) (r * cos th) (r * sin th)).
Proof using HU.
  intros i j r th H. apply (chain2 (U i j) (fun r => r * cos th) (fun r => r * sin th)); [apply HU; exact H| |]; auto_derive; trivial; ring.
Qed.

Lemma reg_th : forall i j r th, (i + j < n)%nat ->
  is_derive (fun th => U i j (r * cos th) (r * sin th)) th
    (- r * sin th * U (S i) j (r * cos th) (r * sin th) + r * cos th * U i (S j) (r * cos th) (r * sin th)).
Proof using HU.
  intros i j r th H. apply (chain2 (U i j) (fun th => r * cos th) (fun th => r * sin th)); [apply HU; exact H| |]; auto_derive; trivial; ring.
Qed.
End Regular.

Lemma diff_x_ext : forall u v x y, (forall x y, u x y = v x y) -> cg_diff_x u x y = cg_diff_x v x y.
Proof. intros u v x y H. apply Derive_ext. intros t. apply H. Qed.
Lemma diff_y_ext : forall u v x y, (forall x y, u x y = v x y) -> cg_diff_y u x y = cg_diff_y v x y.
Proof. intros u v x y H. apply Derive_ext. intros t. apply H. Qed.
Lemma diff_r_ext : forall u v r th, (forall r th, u r th = v r th) -> diff_r u r th = diff_r v r th.
Proof. intros u v x y H. apply Derive_ext. intros t. apply H. Qed.
Lemma diff_th_ext : forall u v r th, (forall r th, u r th = v r th) -> diff_th u r th = diff_th v r th.
Proof. intros u v x y H. apply Derive_ext. intros t. apply H. Qed.

Definition helm_of (k : R) (U : nat -> nat -> R -> R -> R) (i j : nat) (x y : R) : R := U (S (S i)) j x y + U i (S (S j)) x y + k ^ 2 * U i j x y.

Lemma helm_regular : forall k U n, regular (S (S n)) U -> regular n (helm_of k U).
Proof.
  intros k U n HU i j x y H.
  pose proof (HU (S (S i)) j x y ltac:(lia)) as H1. pose proof (HU i (S (S j)) x y ltac:(lia)) as H2. pose proof (HU i j x y ltac:(lia)) as H3.
  unfold helm_of. intros eps. unfold differentiable_pt_lim in H1, H2, H3.
  assert (He : 0 < pos eps / (2 + k ^ 2 + 1)) by (apply Rdiv_lt_0_compat; [apply cond_pos|pose proof (pow2_ge_0 k); lra]).
  specialize (H1 (mkposreal _ He)). specialize (H2 (mkposreal _ He)). specialize (H3 (mkposreal _ He)). cbn [pos] in *.
  pose proof (locally_2d_and _ _ _ _ H1 (locally_2d_and _ _ _ _ H2 H3)) as L. revert L. apply locally_2d_impl. apply locally_2d_forall.
  intros u v (A1 & A2 & A3). set (m := Rmax (Rabs (u - x)) (Rabs (v - y))) in *.
  assert (Hm : 0 <= m) by (unfold m; eapply Rle_trans; [apply Rabs_pos|apply Rmax_l]).
  set (e := eps / (2 + k ^ 2 + 1)) in *. pose proof (pow2_ge_0 k) as Hk.
  assert (Ee : pos eps = e * (2 + k ^ 2 + 1)) by (unfold e; field; lra). rewrite Ee.
  match goal with |- Rabs ?z <= _ =>
    match type of A1 with Rabs ?z1 <= _ => match type of A2 with Rabs ?z2 <= _ => match type of A3 with Rabs ?z3 <= _ =>
      replace z with (z1 + z2 + k ^ 2 * z3) by ring;
      apply Rle_trans with (Rabs z1 + Rabs z2 + k ^ 2 * Rabs z3);
      [eapply Rle_trans; [apply Rabs_triang|]; apply Rplus_le_compat; [apply Rabs_triang|rewrite Rabs_mult, (Rabs_pos_eq (k ^ 2)) by exact Hk; lra]|] end end end end.
  assert (k ^ 2 * Rabs (U i j u v - U i j x y - (U (S i) j x y * (u - x) + U i (S j) x y * (v - y))) <= k ^ 2 * (e * m)) by (apply Rmult_le_compat_l; assumption).
  assert (0 <= e * m) by (apply Rmult_le_pos; [apply Rlt_le; exact He|exact Hm]). nra.
Qed.

Lemma cartesian_f : forall k U x y, regular 2 U ->
  cg_diff_x (cg_diff_x (U 0%nat 0%nat)) x y + cg_diff_y (cg_diff_y (U 0%nat 0%nat)) x y + k ^ 2 * U 0%nat 0%nat x y = helm_of k U 0 0 x y.
Proof.
  intros k U x y HU. unfold helm_of.
  rewrite (diff_x_ext _ (U 1%nat 0%nat)) by (intros; apply (reg_x 2 U HU); lia).
  rewrite (diff_y_ext _ (U 0%nat 1%nat)) by (intros; apply (reg_y 2 U HU); lia).
  rewrite (reg_x 2 U HU), (reg_y 2 U HU) by lia. reflexivity.
Qed.

(** The five polar derivatives of a function given by its Cartesian ones. *)
Lemma polar_five : forall F f r th, regular 2 F -> (forall r th, f r th = F 0%nat 0%nat (r * cos th) (r * sin th)) ->
  let D i j := F i j (r * cos th) (r * sin th) in let c := cos th in let s := sin th in
  diff_r f r th = c * D 1%nat 0%nat + s * D 0%nat 1%nat /\
  diff_r (diff_r f) r th = c ^ 2 * D 2%nat 0%nat + c * s * (D 1%nat 1%nat + D 1%nat 1%nat) + s ^ 2 * D 0%nat 2%nat /\
  diff_th f r th = r * (c * D 0%nat 1%nat - s * D 1%nat 0%nat) /\
  diff_th (diff_th f) r th = r ^ 2 * (s ^ 2 * D 2%nat 0%nat - c * s * (D 1%nat 1%nat + D 1%nat 1%nat) + c ^ 2 * D 0%nat 2%nat) - r * (c * D 1%nat 0%nat + s * D 0%nat 1%nat) /\
  diff_th (diff_r f) r th = c * D 0%nat 1%nat - s * D 1%nat 0%nat + r * (c * s * (D 0%nat 2%nat - D 2%nat 0%nat) + (c ^ 2 - s ^ 2) * D 1%nat 1%nat).
Proof.
  intros F f r th HF Hf D c s.
  assert (R1 : forall r th, diff_r f r th = cos th * F 1%nat 0%nat (r * cos th) (r * sin th) + sin th * F 0%nat 1%nat (r * cos th) (r * sin th)).
  { intros r' th'. rewrite (diff_r_ext f (fun r th => F 0%nat 0%nat (r * cos th) (r * sin th))) by apply Hf.
    apply is_derive_unique. apply (reg_r 2 F HF). lia. }
  assert (T1 : forall r th, diff_th f r th = - r * sin th * F 1%nat 0%nat (r * cos th) (r * sin th) + r * cos th * F 0%nat 1%nat (r * cos th) (r * sin th)).
  { intros r' th'. rewrite (diff_th_ext f (fun r th => F 0%nat 0%nat (r * cos th) (r * sin th))) by apply Hf.
    apply is_derive_unique. apply (reg_th 2 F HF). lia. }
  split; [apply R1|]. split; [|split; [rewrite T1; unfold D, c, s; ring|split]].
  - rewrite (diff_r_ext _ _ r th R1). unfold diff_r. etransitivity.
    + apply is_derive_unique. apply (is_derive_plus (V := R_NormedModule)); apply is_derive_scal; apply (reg_r 2 F HF); lia.
    + unfold D, c, s, plus, scal; cbn; unfold mult; cbn. ring.
  - rewrite (diff_th_ext _ _ r th T1). unfold diff_th. etransitivity.
    + apply is_derive_unique. apply (is_derive_plus (V := R_NormedModule)).
      * apply (is_derive_mult (fun th => - r * sin th)); [auto_derive; [exact I|reflexivity]|apply (reg_th 2 F HF); lia|intros; apply Rmult_comm].
      * apply (is_derive_mult (fun th => r * cos th)); [auto_derive; [exact I|reflexivity]|apply (reg_th 2 F HF); lia|intros; apply Rmult_comm].
    + unfold D, c, s, plus, mult; cbn. unfold mult; cbn. ring.
  - rewrite (diff_th_ext _ _ r th R1). unfold diff_th. etransitivity.
    + apply is_derive_unique. apply (is_derive_plus (V := R_NormedModule)).
      * apply (is_derive_mult (fun th => cos th)); [auto_derive; [exact I|reflexivity]|apply (reg_th 2 F HF); lia|intros; apply Rmult_comm].
      * apply (is_derive_mult (fun th => sin th)); [auto_derive; [exact I|reflexivity]|apply (reg_th 2 F HF); lia|intros; apply Rmult_comm].
    + unfold D, c, s, plus, mult; cbn. unfold mult; cbn. ring.
Qed.

Lemma total_of : forall F f x y, regular 2 F -> (forall x y, f x y = F 0%nat 0%nat x y) ->
  is_grad f x y (cg_diff_x f x y, cg_diff_y f x y) /\
  is_hessian f x y ((cg_diff_x (cg_diff_x f) x y, cg_diff_y (cg_diff_x f) x y), (cg_diff_x (cg_diff_y f) x y, cg_diff_y (cg_diff_y f) x y)) /\
  cg_diff_x f x y = F 1%nat 0%nat x y /\ cg_diff_y f x y = F 0%nat 1%nat x y /\
  cg_diff_x (cg_diff_x f) x y = F 2%nat 0%nat x y /\ cg_diff_y (cg_diff_x f) x y = F 1%nat 1%nat x y /\
  cg_diff_x (cg_diff_y f) x y = F 1%nat 1%nat x y /\ cg_diff_y (cg_diff_y f) x y = F 0%nat 2%nat x y.
Proof.
  intros F f x y HF Hf.
  assert (X1 : forall x y, cg_diff_x f x y = F 1%nat 0%nat x y).
  { intros x' y'. rewrite (diff_x_ext f (F 0%nat 0%nat)) by exact Hf. apply (reg_x 2 F HF). lia. }
  assert (Y1 : forall x y, cg_diff_y f x y = F 0%nat 1%nat x y).
  { intros x' y'. rewrite (diff_y_ext f (F 0%nat 0%nat)) by exact Hf. apply (reg_y 2 F HF). lia. }
  rewrite (diff_x_ext _ _ x y X1), (diff_y_ext _ _ x y X1), (diff_x_ext _ _ x y Y1), (diff_y_ext _ _ x y Y1), X1, Y1.
  rewrite !(reg_x 2 F HF), !(reg_y 2 F HF) by lia.
  assert (G : forall x y, is_grad f x y (F 1%nat 0%nat x y, F 0%nat 1%nat x y)).
  { intros x' y'. unfold is_grad. cbn [fst snd]. pose proof (HF 0%nat 0%nat x' y' ltac:(lia)) as H.
    revert H. apply differentiable_pt_lim_ext. apply locally_2d_forall. intros u v. symmetry. apply Hf. }
  repeat split; try reflexivity; [apply G|].
  exists (F 1%nat 0%nat), (F 0%nat 1%nat). split; [apply locally_2d_forall; apply G|].
  split; unfold is_grad; cbn [fst snd]; apply HF; lia.
Qed.

Lemma generated : forall k U, regular 4 U -> exists f dr d2r dth d2th drth g h,
  find_derivs k (U 0%nat 0%nat) =
    [CNum "eval_expected(self, x, y)" (U 0%nat 0%nat); CNum "eval_f(self, x, y)" f;
     CNum "eval_d_f_r(self, r, th)" dr; CNum "eval_d2_f_r(self, r, th)" d2r; CNum "eval_d_f_th(self, r, th)" dth;
     CNum "eval_d2_f_th(self, r, th)" d2th; CNum "eval_d2_f_r_th(self, r, th)" drth;
     CVec "eval_grad_f(self, x, y)" g; CMat "eval_hessian_f(self, x, y)" h] /\
  (forall x y, f x y = U 2%nat 0%nat x y + U 0%nat 2%nat x y + k ^ 2 * U 0%nat 0%nat x y) /\
  (forall x y, is_grad f x y (g x y) /\ is_hessian f x y (h x y) /\ snd (fst (h x y)) = fst (snd (h x y))) /\
  (forall r th, let G := g (r * cos th) (r * sin th) in let H := h (r * cos th) (r * sin th) in
     let c := cos th in let s := sin th in let hxx := fst (fst H) in let hxy := snd (fst H) in let hyy := snd (snd H) in
     dr r th = c * fst G + s * snd G /\
     d2r r th = c ^ 2 * hxx + 2 * c * s * hxy + s ^ 2 * hyy /\
     dth r th = r * (c * snd G - s * fst G) /\
     d2th r th = r ^ 2 * (s ^ 2 * hxx - 2 * c * s * hxy + c ^ 2 * hyy) - r * (c * fst G + s * snd G) /\
     drth r th = c * snd G - s * fst G + r * (c * s * (hyy - hxx) + (c ^ 2 - s ^ 2) * hxy)).
Proof.
  intros k U HU.
  assert (H2 : regular 2 U) by (intros i j x y H; apply HU; lia).
  pose proof (helm_regular k U 2 HU) as HF. set (F := helm_of k U) in *.
  do 8 eexists. split; [unfold find_derivs, find_f_polar_derivs, find_f_total_derivs; cbn [app]; reflexivity|]. cbv beta.
  pose proof (fun x y => cartesian_f k U x y H2) as Ef. fold F in Ef.
  split; [intros x y; rewrite Ef; unfold F, helm_of; reflexivity|]. split.
  - intros x y. destruct (total_of F _ x y HF Ef) as (A & B & _ & _ & _ & E1 & E2 & _). cbn [fst snd].
    split; [exact A|]. split; [exact B|]. rewrite E1, E2. reflexivity.
  - intros r th. cbv zeta. cbn [fst snd].
    destruct (total_of F _ (r * cos th) (r * sin th) HF Ef) as (_ & _ & E1 & E2 & E3 & E4 & E5 & E6).
    rewrite E1, E2, E3, E4, E6.
    destruct (polar_five F (fun r th => cg_diff_x (cg_diff_x (U 0%nat 0%nat)) (r * cos th) (r * sin th) + cg_diff_y (cg_diff_y (U 0%nat 0%nat)) (r * cos th) (r * sin th) + k ^ 2 * U 0%nat 0%nat (r * cos th) (r * sin th)) r th HF (fun r th => Ef (r * cos th) (r * sin th)))
      as (P1 & P2 & P3 & P4 & P5). cbv zeta in *.
    rewrite P1, P2, P3, P4, P5. repeat split; ring.
Qed.

Lemma locally_ne : forall r, r <> 0 -> locally r (fun s => s <> 0).
Proof.
  intros r H. assert (Hd : 0 < Rabs r) by (apply Rabs_pos_lt; exact H). exists (mkposreal _ Hd). intros y Hy E. subst y.
  change (Rabs (0 - r) < Rabs r) in Hy. rewrite Rminus_0_l, Rabs_Ropp in Hy. lra.
Qed.

Lemma five_loc : forall u v r th, r <> 0 -> (forall r th, r <> 0 -> u r th = v r th) ->
  diff_r u r th = diff_r v r th /\ diff_r (diff_r u) r th = diff_r (diff_r v) r th /\
  diff_th u r th = diff_th v r th /\ diff_th (diff_th u) r th = diff_th (diff_th v) r th /\
  diff_th (diff_r u) r th = diff_th (diff_r v) r th.
Proof.
  intros u v r th Hr E.
  assert (DR : forall u v, (forall r th, r <> 0 -> u r th = v r th) -> forall r th, r <> 0 -> diff_r u r th = diff_r v r th).
  { intros u' v' E' x t Hx. unfold diff_r. apply Derive_ext_loc. generalize (locally_ne x Hx). apply filter_imp. intros y Hy. apply E'. exact Hy. }
  assert (DT : forall u v, (forall r th, r <> 0 -> u r th = v r th) -> forall r th, r <> 0 -> diff_th u r th = diff_th v r th).
  { intros u' v' E' x t Hx. unfold diff_th. apply Derive_ext. intros y. apply E'. exact Hx. }
  repeat split; auto.
Qed.

Lemma polar_same : forall k U, regular 2 U ->
  exists f fp dr d2r dth d2th drth dr' d2r' dth' d2th' drth' rest,
  find_derivs k (U 0%nat 0%nat) =
    CNum "eval_expected(self, x, y)" (U 0%nat 0%nat) :: CNum "eval_f(self, x, y)" f ::
    [CNum "eval_d_f_r(self, r, th)" dr; CNum "eval_d2_f_r(self, r, th)" d2r; CNum "eval_d_f_th(self, r, th)" dth;
     CNum "eval_d2_f_th(self, r, th)" d2th; CNum "eval_d2_f_r_th(self, r, th)" drth] ++ rest /\
  find_derivs_polar k (fun r th => U 0%nat 0%nat (r * cos th) (r * sin th)) =
    [CNum "eval_expected_polar(self, r, th)" (fun r th => U 0%nat 0%nat (r * cos th) (r * sin th)); CNum "eval_f_polar(self, r, th)" fp;
     CNum "eval_d_f_r(self, r, th)" dr'; CNum "eval_d2_f_r(self, r, th)" d2r'; CNum "eval_d_f_th(self, r, th)" dth';
     CNum "eval_d2_f_th(self, r, th)" d2th'; CNum "eval_d2_f_r_th(self, r, th)" drth'] /\
  forall r th, r <> 0 ->
    fp r th = f (r * cos th) (r * sin th) /\ dr' r th = dr r th /\ d2r' r th = d2r r th /\
    dth' r th = dth r th /\ d2th' r th = d2th r th /\ drth' r th = drth r th.
Proof.
  intros k U HU. do 13 eexists.
  split; [unfold find_derivs, find_f_polar_derivs; cbn [app]; reflexivity|].
  split; [unfold find_derivs_polar, find_f_polar_derivs; reflexivity|]. cbv beta.
  assert (E : forall r th, r <> 0 ->
    diff_r (diff_r (fun r th => U 0%nat 0%nat (r * cos th) (r * sin th))) r th + 1 / r * diff_r (fun r th => U 0%nat 0%nat (r * cos th) (r * sin th)) r th
     + 1 / r ^ 2 * diff_th (diff_th (fun r th => U 0%nat 0%nat (r * cos th) (r * sin th))) r th + k ^ 2 * U 0%nat 0%nat (r * cos th) (r * sin th) =
    cg_diff_x (cg_diff_x (U 0%nat 0%nat)) (r * cos th) (r * sin th) + cg_diff_y (cg_diff_y (U 0%nat 0%nat)) (r * cos th) (r * sin th)
     + k ^ 2 * U 0%nat 0%nat (r * cos th) (r * sin th)).
  { intros r th Hr. rewrite (cartesian_f k U _ _ HU). unfold helm_of.
    destruct (polar_five U (fun r th => U 0%nat 0%nat (r * cos th) (r * sin th)) r th HU (fun _ _ => eq_refl)) as (P1 & P2 & _ & P4 & _). cbv zeta in *.
    rewrite P1, P2, P4. pose proof (sin2_cos2 th) as T. unfold Rsqr in T.
    set (c := cos th) in *. set (s := sin th) in *.
    set (A := U 2%nat 0%nat _ _). set (B := U 0%nat 2%nat _ _). set (M := U 1%nat 1%nat _ _). set (X := U 1%nat 0%nat _ _). set (Y := U 0%nat 1%nat _ _). set (V := U 0%nat 0%nat _ _).
    transitivity ((s * s + c * c) * A + (s * s + c * c) * B + k ^ 2 * V); [field; exact Hr|rewrite T; ring]. }
  intros r th Hr. split; [apply E; exact Hr|]. apply five_loc; [exact Hr|exact E].
Qed.

Lemma op_same : forall k u r th, ah_op k u r th = match nth 1 (find_derivs_polar k u) (CNum "" u) with CNum _ f => f r th | _ => 0 end.
Proof. intros k u r th. unfold ah_op, find_derivs_polar. cbn [nth]. unfold Rdiv. ring. Qed.

Lemma op_helmholtz : forall k U r th, regular 2 U -> r <> 0 ->
  ah_op k (fun r th => U 0%nat 0%nat (r * cos th) (r * sin th)) r th =
  let D i j := U i j (r * cos th) (r * sin th) in D 2%nat 0%nat + D 0%nat 2%nat + k ^ 2 * D 0%nat 0%nat.
Proof.
  intros k U r th HU Hr. rewrite op_same.
  destruct (polar_same k U HU) as (f & fp & dr & d2r & dth & d2th & drth & dr' & d2r' & dth' & d2th' & drth' & rest & E1 & E2 & H).
  rewrite E2. cbn [nth]. destruct (H r th Hr) as [-> _]. cbv zeta.
  assert (Ef : f = fun x y => cg_diff_x (cg_diff_x (U 0%nat 0%nat)) x y + cg_diff_y (cg_diff_y (U 0%nat 0%nat)) x y + k ^ 2 * U 0%nat 0%nat x y).
  { apply (f_equal (fun l => match nth 1 l (CNum "" f) with CNum _ g => g | _ => f end)) in E1. cbn [nth find_derivs app] in E1. symmetry. exact E1. }
  rewrite Ef, (cartesian_f k U _ _ HU). reflexivity.
Qed.

Lemma ah_script : forall k u out grad, ah_main k = (u, out, grad) ->
  (forall r th, r <> 0 -> out r th = / r + k ^ 2 * r) /\
  (forall x y, (x <> 0 \/ y <> 0) ->
     grad x y = (x / sqrt (x ^ 2 + y ^ 2), y / sqrt (x ^ 2 + y ^ 2)) /\
     is_grad (fun x y => sqrt (x ^ 2 + y ^ 2)) x y (grad x y)).
Proof.
  intros k u out grad H. unfold ah_main in H. injection H as <- <- <-. split.
  - intros r th Hr. unfold ah_op.
    assert (D1 : forall r th, diff_r (fun r _ : R => r) r th = 1) by (intros; unfold diff_r; apply Derive_id).
    rewrite (diff_r_ext _ (fun _ _ => 1) r th D1), D1.
    assert (T1 : forall r th, diff_th (fun r _ : R => r) r th = 0) by (intros; unfold diff_th; apply Derive_const).
    rewrite (diff_th_ext _ (fun _ _ => 0) r th T1). unfold diff_r, diff_th. rewrite !Derive_const. field. exact Hr.
  - intros x y Hxy.
    assert (P : 0 < x ^ 2 + y ^ 2).
    { destruct Hxy as [Hx|Hx]; pose proof (Rsqr_pos_lt _ Hx) as A; unfold Rsqr in A;
        [pose proof (pow2_ge_0 y)|pose proof (pow2_ge_0 x)]; nra. }
    pose proof (sqrt_lt_R0 _ P) as Q.
    assert (EX : cg_diff_x (fun x y => sqrt (x ^ 2 + y ^ 2)) x y = x / sqrt (x ^ 2 + y ^ 2)).
    { unfold cg_diff_x. apply is_derive_unique. auto_derive; replace (x * (x * 1) + y * (y * 1)) with (x ^ 2 + y ^ 2) by ring; [exact P|field; lra]. }
    assert (EY : cg_diff_y (fun x y => sqrt (x ^ 2 + y ^ 2)) x y = y / sqrt (x ^ 2 + y ^ 2)).
    { unfold cg_diff_y. apply is_derive_unique. auto_derive; replace (x * (x * 1) + y * (y * 1)) with (x ^ 2 + y ^ 2) by ring; [exact P|field; lra]. }
    cbv beta zeta in *.
    change (cg_diff_x (fun x y => sqrt (x * (x * 1) + y * (y * 1))) x y) with (cg_diff_x (fun x y => sqrt (x ^ 2 + y ^ 2)) x y).
    change (cg_diff_y (fun x y => sqrt (x * (x * 1) + y * (y * 1))) x y) with (cg_diff_y (fun x y => sqrt (x ^ 2 + y ^ 2)) x y).
    rewrite EX, EY. split; [reflexivity|].
    assert (Dz : is_derive sqrt (x ^ 2 + y ^ 2) (/ (2 * sqrt (x ^ 2 + y ^ 2)))) by (auto_derive; [exact P|field; lra]).
    assert (Dxy : is_grad (fun x y => x ^ 2 + y ^ 2) x y (2 * x + 0, 0 + 2 * y)).
    { apply (grad_plus (fun x _ => x ^ 2) (fun _ y => y ^ 2)).
      - eapply grad_eq; [apply (grad_comp1 (fun a => a ^ 2) (fun x _ => x) x y (2 * x) 1 0); [auto_derive; trivial; ring|apply grad_x]|f_equal; ring].
      - eapply grad_eq; [apply (grad_comp1 (fun a => a ^ 2) (fun _ y => y) x y (2 * y) 0 1); [auto_derive; trivial; ring|apply grad_y]|f_equal; ring]. }
    pose proof (grad_comp1 sqrt (fun x y => x ^ 2 + y ^ 2) x y _ _ _ Dz Dxy) as G.
    replace (x / sqrt (x ^ 2 + y ^ 2)) with (/ (2 * sqrt (x ^ 2 + y ^ 2)) * (2 * x + 0)) by (field; lra).
    replace (y / sqrt (x ^ 2 + y ^ 2)) with (/ (2 * sqrt (x ^ 2 + y ^ 2)) * (0 + 2 * y)) by (field; lra).
    exact G.
Qed.

Lemma cheb_printed : forall J t, -1 < t < 1 ->
  map fst (cheb_codegen (INR J)) = [1; 2; 3; 4; 5]%nat /\
  forall n g, In (n, g) (cheb_codegen (INR J)) -> eval_dn_T_t n J t = Ok (g t).
Proof.
  intros J t Ht. split; [reflexivity|]. intros n g Hin. unfold cheb_codegen in Hin. apply in_map_iff in Hin. destruct Hin as [m [E Hm]].
  injection E as <- <-. apply in_seq in Hm. destruct (eval_dn_T_t_spec m J t ltac:(lia) Ht) as [-> _]. f_equal.
  apply Derive_n_ext_loc. generalize (Proof_Bessel.locally_between (-1) 1 t Ht). apply filter_imp. intros s Hs.
  symmetry. apply (eval_T_chebT J s). lra.
Qed.

Lemma search_from : forall error7 l m e, exists m' e', gd_search error7 l (Some (m, e)) = Some (m', e') /\
  ((m' = m /\ e' = e /\ (forall x, In x l -> e <= error7 x)) \/
   (exists l1 l2, l = l1 ++ m' :: l2 /\ e' = error7 m' /\ e' < e /\ (forall x, In x l1 -> e' < error7 x) /\ (forall x, In x l2 -> e' <= error7 x))).
Proof.
  intros error7 l. induction l as [|a l IH]; intros m e; [exists m, e; split; [reflexivity|left; repeat split; intros x []]|].
  cbn [gd_search]. destruct (Rltb_spec (error7 a) e) as [B|B].
  - destruct (IH a (error7 a)) as [m' [e' [E [[-> [-> H]]|(l1 & l2 & -> & -> & H1 & H2 & H3)]]]]; eexists; eexists; (split; [exact E|]).
    + right. exists [], l. repeat split; auto. intros x [].
    + right. exists (a :: l1), l2. repeat split; auto; [lra|]. intros x [<-|Hx]; [exact H1|apply H2; exact Hx].
  - destruct (IH m e) as [m' [e' [E [[-> [-> H]]|(l1 & l2 & -> & -> & H1 & H2 & H3)]]]]; eexists; eexists; (split; [exact E|]).
    + left. repeat split; auto. intros x [<-|Hx]; [lra|apply H; exact Hx].
    + right. exists (a :: l1), l2. repeat split; auto. intros x [<-|Hx]; [lra|apply H2; exact Hx].
Qed.

Lemma seq_sorted : forall n s, Sorted.StronglySorted Z.lt (map (fun i => 8 + 2 * Z.of_nat i)%Z (seq s n)).
Proof.
  induction n as [|n IH]; intros s; cbn [seq map]; constructor; [apply IH|].
  apply List.Forall_forall. intros y Hy. apply in_map_iff in Hy. destruct Hy as [i [<- Hi]]. apply in_seq in Hi. lia.
Qed.

Lemma search_spec : forall error7, exists m1, gd_search error7 gd_m1_list None = Some (m1, error7 m1) /\
  (8 <= m1 <= 248)%Z /\ Z.Even m1 /\
  forall m, (8 <= m <= 248)%Z -> Z.Even m -> error7 m1 <= error7 m /\ ((m < m1)%Z -> error7 m1 < error7 m).
Proof.
  intros error7.
  assert (IN : forall m, In m gd_m1_list <-> (8 <= m <= 248)%Z /\ Z.Even m).
  { intros m. unfold gd_m1_list. rewrite in_map_iff. split.
    - intros [i [<- Hi]]. apply in_seq in Hi. split; [lia|]. exists (4 + Z.of_nat i)%Z. lia.
    - intros [Hm [q ->]]. exists (Z.to_nat (q - 4)). split; [lia|]. apply in_seq. lia. }
  assert (SPLIT : forall l1 m l2, gd_m1_list = l1 ++ m :: l2 -> forall x, In x gd_m1_list -> (x < m)%Z -> In x l1).
  { intros l1 m l2 E x Hx Hlt. rewrite E in Hx. apply in_app_or in Hx. destruct Hx as [Hx|[<-|Hx]]; [exact Hx|lia|exfalso].
    assert (S : Sorted.StronglySorted Z.lt gd_m1_list).
    { apply seq_sorted. }
    rewrite E in S. clear E. induction l1 as [|a l1 IH]; cbn [app] in S; inversion S as [|? ? S' F]; subst; [|apply IH; exact S'].
    rewrite List.Forall_forall in F. specialize (F x Hx). lia. }
  assert (H8 : exists l, gd_m1_list = 8%Z :: l) by (eexists; reflexivity). destruct H8 as [l El].
  assert (ST : gd_search error7 gd_m1_list None = gd_search error7 l (Some (8%Z, error7 8%Z))) by (rewrite El; reflexivity).
  destruct (search_from error7 l 8 (error7 8%Z)) as [m1 [e [E C]]]. rewrite ST, E.
  destruct C as [(-> & -> & H)|(l1 & l2 & El2 & -> & H1 & H2 & H3)].
  - exists 8%Z. split; [reflexivity|]. destruct (proj1 (IN 8%Z)) as [A B]; [rewrite El; left; reflexivity|]. split; [exact A|]. split; [exact B|].
    intros m Hm Hev. split; [|lia]. assert (Hin : In m gd_m1_list) by (apply IN; auto). rewrite El in Hin. destruct Hin as [<-|Hin]; [lra|apply H; exact Hin].
  - assert (Ef : gd_m1_list = (8%Z :: l1) ++ m1 :: l2) by (rewrite El, El2; reflexivity).
    exists m1. split; [reflexivity|]. destruct (proj1 (IN m1)) as [A B]; [rewrite Ef; apply in_or_app; right; left; reflexivity|]. split; [exact A|]. split; [exact B|].
    assert (ALL : forall m, In m (8%Z :: l1) -> error7 m1 < error7 m) by (intros m [<-|Hm]; [exact H1|apply H2; exact Hm]).
    intros m Hm Hev. assert (Hin : In m gd_m1_list) by (apply IN; auto). split.
    + rewrite Ef in Hin. apply in_app_or in Hin. destruct Hin as [Hin|[<-|Hin]]; [apply Rlt_le, ALL; exact Hin|lra|apply H3; exact Hin].
    + intros Hlt. apply ALL. exact (SPLIT _ _ _ Ef m Hin Hlt).
Qed.

Lemma regular_ex : exists U, regular 4 U /\ (forall x y, U 0%nat 0%nat x y = exp (x + 2 * y)) /\ U 1%nat 2%nat 0 0 = 4.
Proof.
  exists (fun _ j x y => 2 ^ j * exp (x + 2 * y)). split; [|split].
  - intros i j x y _.
    assert (G : is_grad (fun x y => x + 2 * y) x y (1, 2)).
    { intros eps. exists (mkposreal 1 Rlt_0_1). intros u v _ _. cbn [fst snd].
      replace (u + 2 * v - (x + 2 * y) - (1 * (u - x) + 2 * (v - y))) with 0 by ring. rewrite Rabs_R0.
      apply Rmult_le_pos; [left; apply cond_pos|]. eapply Rle_trans; [apply Rabs_pos|apply Rmax_l]. }
    pose proof (grad_comp1 (fun a => 2 ^ j * exp a) (fun x y => x + 2 * y) x y (2 ^ j * exp (x + 2 * y)) 1 2 ltac:(auto_derive; trivial; ring) G) as H.
    unfold is_grad in H. cbn [fst snd] in H. rewrite Rmult_1_r in H. replace (2 ^ S j * exp (x + 2 * y)) with (2 ^ j * exp (x + 2 * y) * 2) by (cbn [pow]; ring).
    exact H.
  - intros x y. cbn [pow]. ring.
  - replace (0 + 2 * 0) with 0 by ring. rewrite exp_0. cbn. ring.
Qed.

Lemma script_ex : exists u out grad, ah_main 2 = (u, out, grad) /\ out 1 0 = 5 /\ fst (grad 3 4) = 3 / 5.
Proof.
  destruct (ah_main 2) as [[u out] grad] eqn:E. exists u, out, grad. split; [reflexivity|].
  destruct (ah_script 2 u out grad E) as [H1 H2]. split; [rewrite H1 by lra; field|].
  destruct (H2 3 4 ltac:(left; lra)) as [-> _]. cbn [fst]. replace (3 ^ 2 + 4 ^ 2) with (5 * 5) by ring. rewrite sqrt_square by lra. reflexivity.
Qed.

Lemma cheb_ex : -1 < / 2 < 1 /\ exists g, In (1%nat, g) (cheb_codegen (INR 2)) /\ g (/ 2) = 2.
Proof.
  assert (Ht : -1 < / 2 < 1) by lra. split; [exact Ht|]. eexists. split; [left; reflexivity|].
  destruct (cheb_printed 2 (/ 2) Ht) as [_ H]. specialize (H 1%nat _ (or_introl eq_refl)).
  destruct (eval_dn_T_t_spec 1 2 (/ 2) ltac:(lia) Ht) as [E _]. rewrite E in H. apply (f_equal (fun r => match r with Ok x => x | Err _ => 0 end)) in H. cbv beta iota in H. etransitivity; [symmetry; exact H|].
  apply is_derive_unique. unfold chebT. cbn. auto_derive; trivial. field.
Qed.

Lemma search_ex : gd_search (fun m => Rabs (IZR m - 11)) gd_m1_list None = Some (10%Z, 1).
Proof.
  destruct (search_spec (fun m => Rabs (IZR m - 11))) as [m1 [E [B [[q ->] H]]]]. cbv beta in *. rewrite E.
  assert (K : (2 * q = 10)%Z).
  { assert (A10 : Rabs (IZR 10 - 11) = 1) by (rewrite Rabs_left; lra).
    destruct (H 10%Z ltac:(lia) ltac:(exists 5%Z; lia)) as [H1 H2]. rewrite A10 in H1, H2.
    assert (L : IZR (2 * q) - 11 <= 1 /\ -1 <= IZR (2 * q) - 11) by (split; [eapply Rle_trans; [apply Rle_abs|exact H1]|pose proof (Rle_abs (- (IZR (2 * q) - 11))) as A; rewrite Rabs_Ropp in A; lra]).
    destruct L as [L1 L2]. assert (2 * q <= 12)%Z by (apply le_IZR; lra). assert (10 <= 2 * q)%Z by (apply le_IZR; lra).
    destruct (Z.eq_dec q 5) as [->|N]; [reflexivity|]. assert (q = 6)%Z by lia. subst q. specialize (H2 ltac:(lia)). cbn in H2.
    rewrite Rabs_pos_eq in H2 by lra. lra. }
  rewrite K. f_equal. f_equal. rewrite Rabs_left; lra.
Qed.

Lemma ab_nodes_big : (300 <= ab_n_nodes)%nat.
Proof. unfold ab_n_nodes. lia. Qed.

Lemma arc_exact : forall (lstsq : nat -> nat -> (nat -> nat -> C) -> (nat -> C) -> nat -> C) jv k R0 to_dst A m1,
  (forall n m W y, least_squares n m W y (lstsq n m W y)) ->
  (forall m, (m < 300)%nat -> jv ((INR m + 1) * pizza_nu) (k * R0) <> 0) ->
  sk_a_coef jv to_dst pizza_a k R0 pizza_nu ab_n_nodes sk_m_max = Ok A ->
  (7 <= m1 <= 300)%Z -> gd_error7 lstsq jv k R0 pizza_a pizza_nu (fun _ => R0) A m1 = 0.
Proof.
  intros lstsq jv k R0 to_dst A m1 Hl Hj HA Hm. pose proof ab_nodes_big as HB.
  assert (Ha : 2 * PI - pizza_a <> 0) by (unfold pizza_a; pose proof PI_RGT_0; lra).
  unfold gd_error7. cbv zeta. set (bc := fun th => sk_expected _ _ _ _ _ _ _ _ _).
  pose proof (calc_on_arc lstsq jv k R0 bc ab_n_nodes 7 (Z.to_nat m1) ltac:(lia) ltac:(lia) (fun m H => Hj m ltac:(lia)) (Hl _ _ _ _)) as E.
  set (B := calc_a_coef _ _ _ _ _ _ _ _ _ _ _) in *.
  destruct (b_to_a_nth _ _ _ _ _ _ E) as [_ HN]. rewrite map_length, seq_length in HN.
  assert (EQ : forall i, (i < 7)%nat -> nth i B (RtoC 0) = nth i A (RtoC 0)).
  { intros i Hi. specialize (HN i Hi (Hj i ltac:(lia))). rewrite nth_map_seq in HN by exact Hi.
    rewrite (arc_dst_low pizza_a ab_n_nodes 300 i bc (fun m => Cmult (nth m A (RtoC 0)) (RtoC (jv ((INR m + 1) * pizza_nu) (k * R0)))) Ha HB ltac:(lia)) in HN.
    - assert (NZ : RtoC (jv ((INR i + 1) * pizza_nu) (k * R0)) <> RtoC 0) by (intros Z; apply (Hj i ltac:(lia)); apply (f_equal fst) in Z; exact Z).
      apply (f_equal (fun z => Cdiv z (RtoC (jv ((INR i + 1) * pizza_nu) (k * R0))))) in HN. cbv beta in HN.
      transitivity (Cdiv (Cmult (nth i B (RtoC 0)) (RtoC (jv ((INR i + 1) * pizza_nu) (k * R0)))) (RtoC (jv ((INR i + 1) * pizza_nu) (k * R0)))); [field; exact NZ|].
      rewrite HN. field. exact NZ.
    - intros th. unfold bc. rewrite sk_value. unfold fourier_bessel. rewrite Cplus_0_l. apply csum_ext. intros m _.
      rewrite RtoC_mult. unfold pizza_nu. ring. }
  assert (Z : map (fun i => Cmod (Cminus (nth i B (RtoC 0)) (nth i A (RtoC 0)))) (seq 0 7) = [0; 0; 0; 0; 0; 0; 0]).
  { cbn [seq map]. rewrite !EQ by lia.
    assert (CZ : forall z, Cmod (Cminus z z) = 0) by (intros z; replace (Cminus z z) with (RtoC 0) by ring; apply Cmod_0).
    rewrite !CZ. reflexivity. }
  rewrite Z. cbn [fold_right]. rewrite !(Rmax_left 0 0) by lra. reflexivity.
Qed.

Lemma arc_search : forall (lstsq : nat -> nat -> (nat -> nat -> C) -> (nat -> C) -> nat -> C) jv k R0 to_dst A,
  (forall n m W y, least_squares n m W y (lstsq n m W y)) ->
  (forall m, (m < 300)%nat -> jv ((INR m + 1) * pizza_nu) (k * R0) <> 0) ->
  sk_a_coef jv to_dst pizza_a k R0 pizza_nu ab_n_nodes sk_m_max = Ok A ->
  gd_search (gd_error7 lstsq jv k R0 pizza_a pizza_nu (fun _ => R0) A) gd_m1_list None = Some (8%Z, 0).
Proof.
  intros lstsq jv k R0 to_dst A Hl Hj HA. pose proof (fun m1 H => arc_exact lstsq jv k R0 to_dst A m1 Hl Hj HA H) as E.
  destruct (search_spec (gd_error7 lstsq jv k R0 pizza_a pizza_nu (fun _ => R0) A)) as [m1 [-> [B [_ H]]]].
  assert (m1 = 8)%Z as ->.
  { destruct (Z.eq_dec m1 8) as [|N]; [assumption|]. destruct (H 8%Z ltac:(lia) ltac:(exists 4%Z; lia)) as [_ H2].
    specialize (H2 ltac:(lia)). rewrite !E in H2 by lia. lra. }
  rewrite E by lia. reflexivity.
Qed.

Lemma arc_search_ex : exists A,
  (forall n m W y, least_squares n m W y (gs_lstsq n m W y)) /\
  (forall m, (m < 300)%nat -> sample_jv ((INR m + 1) * pizza_nu) (2 * 3) <> 0) /\
  sk_a_coef sample_jv (Some (fun th => RtoC (sin (pizza_nu * (th - pizza_a))))) pizza_a 2 3 pizza_nu ab_n_nodes sk_m_max = Ok A /\
  nth 0 A (RtoC 0) <> RtoC 0.
Proof.
  destruct (sk_total sample_jv (Some (fun th => RtoC (sin (pizza_nu * (th - pizza_a))))) pizza_a 2 3 pizza_nu ab_n_nodes sk_m_max) as [A [HA LA]].
  exists A. split; [intros; apply gs_least_squares|]. split; [intros; apply sample_jv_nz|]. split; [exact HA|].
  unfold sk_a_coef in HA. destruct (b_to_a_nth _ _ _ _ _ _ HA) as [_ HN]. unfold sk_b_coef in HN. rewrite map_length, seq_length in HN.
  specialize (HN 0%nat ltac:(unfold sk_m_max; lia) (sample_jv_nz _ _)). rewrite nth_map_seq in HN by (unfold sk_m_max; lia).
  rewrite (arc_dst_low pizza_a ab_n_nodes 1 0 _ (fun _ => RtoC 1)) in HN.
  - intros Z. rewrite Z in HN. apply (f_equal fst) in HN. cbn in HN. lra.
  - unfold pizza_a. pose proof PI_RGT_0. lra.
  - pose proof ab_nodes_big. lia.
  - lia.
  - intros th. cbn [csum]. rewrite Cplus_0_l, Cmult_1_l. f_equal. f_equal. unfold pizza_nu. cbn [INR]. ring.
Qed.
