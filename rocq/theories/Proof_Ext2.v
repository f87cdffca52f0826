(** Consequences of the Taylor identity, remainders, chain rules. *)
From Coq Require Import ZArith List Bool Reals Lra Lia Psatz.
From Coquelicot Require Import Coquelicot.
From Verif Require Import Model_Py Model_Domain Model_Ext Model_Extend Spec_Ext Proof_Boundary Proof_Ext.
Import ListNotations.
Open Scope R_scope.

(** ** Lagrange remainder along a segment of either orientation *)

Lemma chain_open : forall (P : R -> Prop) (f : nat -> R -> R) m,
  (forall t, P t -> locally t P) ->
  (forall l s, (l < m)%nat -> P s -> is_derive (f l) s (f (S l) s)) ->
  forall l s, (l <= m)%nat -> P s -> Derive_n (f 0%nat) l s = f l s.
Proof.
  intros P f m HP H. induction l; intros s Hl Hs; [reflexivity|].
  cbn [Derive_n]. apply is_derive_unique. apply is_derive_ext_loc with (f l).
  - eapply filter_imp; [|apply HP; exact Hs]. intros t Ht. symmetry. apply IHl; [lia|assumption].
  - apply H; [lia|assumption].
Qed.

Lemma chain_open_ex : forall (P : R -> Prop) (f : nat -> R -> R) m,
  (forall t, P t -> locally t P) ->
  (forall l s, (l < m)%nat -> P s -> is_derive (f l) s (f (S l) s)) ->
  forall l s, (l <= m)%nat -> P s -> ex_derive_n (f 0%nat) l s.
Proof.
  intros P f m HP H l s Hl Hs. destruct l; [exact I|]. cbn [ex_derive_n].
  exists (f (S l) s). apply is_derive_ext_loc with (f l); [|apply H; [lia|assumption]].
  eapply filter_imp; [|apply HP; exact Hs]. intros t Ht. symmetry.
  apply (chain_open P f m HP H); [lia|assumption].
Qed.

Lemma lagrange : forall (P : R -> Prop) (f : nat -> R -> R) p x d,
  (forall t, P t -> locally t P) -> (forall t, 0 <= t <= 1 -> P (x + t * d)) ->
  (forall l t, (l <= p)%nat -> P t -> is_derive (f l) t (f (S l) t)) ->
  exists t, 0 < t < 1 /\
    f 0%nat (x + d) = sum_f_R0 (fun m => d ^ m / INR (fact m) * f m x) p
                      + d ^ S p / INR (fact (S p)) * f (S p) (x + t * d).
Proof.
  intros P f p x d HP Hseg Hf.
  set (g := fun l t => d ^ l * f l (x + t * d)).
  set (Q := fun t => P (x + t * d)).
  assert (HQ : forall t, Q t -> locally t Q).
  { intros t Ht. assert (Cn : continuous (fun t => x + t * d) t).
    { apply (@ex_derive_continuous R_AbsRing R_NormedModule). auto_derive. exact I. }
    apply Cn. apply HP. exact Ht. }
  assert (Hg : forall l t, (l < S p)%nat -> Q t -> is_derive (g l) t (g (S l) t)).
  { intros l t Hl Ht. pose proof (Hf l (x + t * d) ltac:(lia) Ht) as D.
    pose proof (is_derive_comp (f l) (fun t => x + t * d) t (f (S l) (x + t * d)) d D) as D1.
    assert (D2 : is_derive (fun t => x + t * d) t d) by (auto_derive; [exact I|ring]).
    specialize (D1 D2). pose proof (is_derive_scal _ t (d ^ l) _ D1) as D3.
    refine (is_derive_eq _ t _ _ D3 _). unfold scal; simpl; unfold mult; simpl. unfold g. simpl. ring. }
  destruct (Taylor_Lagrange (g 0%nat) p 0 1 ltac:(lra)) as (z & Hz & E).
  { intros t Ht k Hk. apply (chain_open_ex Q g (S p) HQ Hg); [exact Hk|apply Hseg; exact Ht]. }
  exists z. split; [exact Hz|].
  assert (Hz' : Q z) by (apply Hseg; lra).
  assert (H0 : Q 0) by (apply Hseg; lra).
  rewrite (chain_open Q g (S p) HQ Hg (S p) z (le_n _) Hz') in E.
  replace (f 0%nat (x + d)) with (g 0%nat 1).
  2:{ unfold g. simpl. replace (x + 1 * d) with (x + d) by ring. ring. }
  rewrite E. f_equal.
  - apply sum_eq. intros i Hi.
    rewrite (chain_open Q g (S p) HQ Hg i 0 ltac:(lia) H0). unfold g.
    replace (x + 0 * d) with x by ring. replace (1 - 0) with 1 by ring. rewrite pow1.
    field. apply fact_nz.
  - unfold g. replace (1 - 0) with 1 by ring. rewrite pow1. field. apply fact_nz.
Qed.

(** ** C19: homogeneous extension *)

Definition zero_source : nat -> nat -> R -> R -> C := fun _ _ _ _ => RtoC 0.

Lemma zero_partials : forall O m, partials O m zero_source.
Proof.
  intros O m i j x y _ _. unfold zero_source. split.
  all: intros eps; exists eps; intros u v _ _; unfold zero_source; cbn [fst snd RtoC];
    replace (0 - 0 - (0 * (u - x) + 0 * (v - y))) with 0 by ring; rewrite Rabs_R0;
    apply Rmult_le_pos; [left; apply cond_pos|apply Rle_trans with (Rabs (u - x)); [apply Rabs_pos|apply Rmax_l]].
Qed.

Lemma CDerive_n_zero : forall (f : R -> C) lo hi s n, (forall t, lo < t < hi -> f t = RtoC 0) -> lo < s < hi ->
  CDerive_n f n s = RtoC 0.
Proof.
  intros f lo hi s n H Hs. unfold CDerive_n, RtoC.
  assert (E : forall pr : C -> R, pr (RtoC 0) = 0 -> Derive_n (fun t => pr (f t)) n s = 0).
  { intros pr Hpr. rewrite (Derive_n_ext_loc _ (fun _ => 0)).
    - destruct n; [reflexivity|]. apply Derive_n_const.
    - eapply filter_imp; [|apply interval_locally'; exact Hs]. intros t Ht. rewrite H by exact Ht. exact Hpr. }
  rewrite (E fst), (E snd) by reflexivity. reflexivity.
Qed.

Lemma Cminus_0_0 : Cminus (RtoC 0) (RtoC 0) = RtoC 0.
Proof. apply injective_projections; simpl; ring. Qed.

Lemma inhomo_zero : forall k n c, inhomo_extend_arbitrary k n c (RtoC 0) (RtoC 0) (RtoC 0) (RtoC 0) = RtoC 0.
Proof.
  intros k n c. unfold inhomo_extend_arbitrary, inhomo_derivs. cbn [taylor_loop].
  rewrite !Cdiv_R by apply fact_nz. 
  apply injective_projections; unfold Cminus, Copp, Cplus, Cmult, RtoC; cbn [fst snd]; ring.
Qed.

Lemma extend_zero : forall k n c c1 c2,
  extend_arbitrary k n c c1 c2 (mk_ed (RtoC 0) (RtoC 0) (RtoC 0) (RtoC 0) (RtoC 0) (RtoC 0) (RtoC 0)) = RtoC 0.
Proof.
  intros k n c c1 c2. unfold extend_arbitrary, arbitrary_derivs.
  cbn [taylor_loop ed_xi0 ed_xi1 ed_d_xi0 ed_d_xi1 ed_d2_xi0 ed_d2_xi1 ed_d4_xi0].
  rewrite !Cdiv_R by apply fact_nz.
  repeat (rewrite ?Cmult_0_r, ?Cmult_0_l, ?Cplus_0_r, ?Cminus_0_0). reflexivity.
Qed.

Lemma homogeneous_taylor : forall O lo hi X Y tx ty kap D k s n,
  open2 O -> unit_curve lo hi X Y tx ty kap -> (forall s, lo < s < hi -> O (X s) (Y s)) ->
  partials O 4 D -> helmholtz O k D (fun _ _ _ _ => RtoC 0) -> lo < s < hi ->
  extend_arbitrary k n (kap s) (Derive kap s) (Derive_n kap 2 s)
    (mk_ed (trace0 D X Y s) (trace1 D X Y tx ty s)
       (CDerive_n (trace0 D X Y) 1 s) (CDerive_n (trace1 D X Y tx ty) 1 s)
       (CDerive_n (trace0 D X Y) 2 s) (CDerive_n (trace1 D X Y tx ty) 2 s)
       (CDerive_n (trace0 D X Y) 4 s))
  = taylor_poly (along_normal D X Y tx ty s) 4 n.
Proof.
  intros O lo hi X Y tx ty kap D k s n HO HC Hin HD PDE Hs.
  rewrite <- (general_taylor O lo hi X Y tx ty kap D zero_source k s n HO HC Hin HD (zero_partials O 2) PDE Hs).
  assert (Z1 : trace1 zero_source X Y tx ty s = RtoC 0).
  { unfold trace1, zero_source. rewrite !Cmult_0_r. apply Cplus_0_r. }
  assert (Z2 : trace2 zero_source X Y tx ty s = RtoC 0).
  { apply (CDerive_n_zero _ (-1) 1); [reflexivity|lra]. }
  assert (Z3 : CDerive_n (trace0 zero_source X Y) 2 s = RtoC 0).
  { apply (CDerive_n_zero _ lo hi); [reflexivity|exact Hs]. }
  rewrite Z1, Z2, Z3. change (trace0 zero_source X Y s) with (RtoC 0). rewrite inhomo_zero.
  symmetry. apply Cplus_0_r.
Qed.

Lemma particular_taylor : forall O lo hi X Y tx ty kap D F k s n,
  open2 O -> unit_curve lo hi X Y tx ty kap -> (forall s, lo < s < hi -> O (X s) (Y s)) ->
  partials O 4 D -> partials O 2 F -> helmholtz O k D F ->
  (forall s, lo < s < hi -> trace0 D X Y s = RtoC 0 /\ trace1 D X Y tx ty s = RtoC 0) -> lo < s < hi ->
  inhomo_extend_arbitrary k n (kap s) (trace0 F X Y s) (trace1 F X Y tx ty s)
      (trace2 F X Y tx ty s) (CDerive_n (trace0 F X Y) 2 s)
  = taylor_poly (along_normal D X Y tx ty s) 4 n.
Proof.
  intros O lo hi X Y tx ty kap D F k s n HO HC Hin HD HF PDE HZ Hs.
  rewrite <- (general_taylor O lo hi X Y tx ty kap D F k s n HO HC Hin HD HF PDE Hs).
  rewrite (proj1 (HZ s Hs)), (proj2 (HZ s Hs)).
  rewrite !(CDerive_n_zero (trace0 D X Y) lo hi s) by (try exact Hs; intros t Ht; apply (HZ t Ht)).
  rewrite !(CDerive_n_zero (trace1 D X Y tx ty) lo hi s) by (try exact Hs; intros t Ht; apply (HZ t Ht)).
  rewrite extend_zero. symmetry. apply Cplus_0_l.
Qed.

(** Remainder: along the normal the function differs from its Taylor
    polynomial by the Lagrange term. *)
Lemma component_remainder : forall O D x y nx ny n, open2 O -> partialsR O 5 D ->
  (forall t, 0 <= t <= 1 -> O (x + t * n * nx) (y + t * n * ny)) ->
  let f := fun t => D 0%nat 0%nat (x + t * nx) (y + t * ny) in
  exists t, 0 < t < 1 /\
    f n = taylorR (map (fun l => Derive_n f l 0) [0; 1; 2; 3; 4]%nat) 0 n + n ^ 5 / 120 * Derive_n f 5 (t * n).
Proof.
  intros O D x y nx ny n HO HD Hseg f.
  set (P := fun t => O (x + t * nx) (y + t * ny)).
  assert (HP : forall t, P t -> locally t P).
  { intros t Ht. destruct (line_open O _ _ nx ny HO Ht) as [d Hd].
    exists d. intros u Hu. unfold ball in Hu. simpl in Hu. unfold AbsRing_ball, abs, minus, plus, opp in Hu. simpl in Hu.
    apply Rabs_def2 in Hu. unfold P.
    replace (x + u * nx) with (x + t * nx + (u - t) * nx) by ring.
    replace (y + u * ny) with (y + t * ny + (u - t) * ny) by ring. apply Hd. lra. }
  set (g := fun l t => dirn D nx ny l 0 0 (x + t * nx) (y + t * ny)).
  assert (Hg : forall l t, (l < 5)%nat -> P t -> is_derive (g l) t (g (S l) t)).
  { intros l t Hl Ht. apply (dirn_derive O 5 D HD); [lia|exact Ht]. }
  destruct (lagrange P g 4 0 n HP) as (t & Ht & E).
  { intros t Ht. unfold P. replace (0 + t * n) with (t * n) by ring. apply Hseg. exact Ht. }
  { intros l t Hl. apply Hg. lia. }
  exists t. split; [exact Ht|].
  assert (P0 : P 0). { unfold P. replace (x + 0 * nx) with (x + 0 * n * nx) by ring. replace (y + 0 * ny) with (y + 0 * n * ny) by ring. apply Hseg. lra. }
  assert (Pt : P (t * n)). { apply Hseg. lra. }
  assert (Hl : forall l t, (l <= 5)%nat -> P t -> Derive_n f l t = g l t).
  { intros l u Hl Hu. change f with (g 0%nat). apply (chain_open P g 5 HP Hg); assumption. }
  replace (0 + n) with n in E by ring. replace (0 + t * n) with (t * n) in E by ring.
  change (f n) with (g 0%nat n). rewrite E. cbn [map taylorR sum_f_R0].
  rewrite !Hl by (try lia; assumption).
  replace (INR (fact 5)) with 120 by (simpl; ring). field. split; [|repeat split]; try apply fact_nz; try lra.
Qed.

Lemma taylor_remainder : forall O X Y tx ty D s n M,
  open2 O -> partials O 5 D ->
  (forall t, 0 <= t <= 1 -> O (X s + t * n * ty s) (Y s - t * n * tx s)) ->
  (forall t, 0 <= t <= 1 -> Cmod (CDerive_n (along_normal D X Y tx ty s) 5 (t * n)) <= M) ->
  Cmod (Cminus (along_normal D X Y tx ty s n) (taylor_poly (along_normal D X Y tx ty s) 4 n)) <= M * Rabs n ^ 5 / 60.
Proof.
  intros O X Y tx ty D s n M HO HD Hseg HM.
  assert (AN : forall pr, (fun t => pr (along_normal D X Y tx ty s t) : R) =
             (fun t => pr (D 0%nat 0%nat (X s + t * ty s) (Y s + t * - tx s)))).
  { intros pr. apply FunctionalExtensionality.functional_extensionality. intros t.
    unfold along_normal. do 2 f_equal. ring. }
  assert (Seg : forall t, 0 <= t <= 1 -> O (X s + t * n * ty s) (Y s + t * n * - tx s)).
  { intros t Ht. replace (Y s + t * n * - tx s) with (Y s - t * n * tx s) by ring. apply Hseg. exact Ht. }
  assert (HDf : partialsR O 5 (fun i j x y => fst (D i j x y))) by (intros i j x y H1 H2; apply (HD i j x y H1 H2)).
  assert (HDs : partialsR O 5 (fun i j x y => snd (D i j x y))) by (intros i j x y H1 H2; apply (HD i j x y H1 H2)).
  destruct (component_remainder O _ (X s) (Y s) (ty s) (- tx s) n HO HDf Seg) as (t1 & H1 & E1).
  destruct (component_remainder O _ (X s) (Y s) (ty s) (- tx s) n HO HDs Seg) as (t2 & H2 & E2).
  cbv zeta in E1, E2.
  rewrite <- (AN fst) in E1. rewrite <- (AN snd) in E2.
  pose proof (f_equal (fun h => h n) (AN fst)) as A1. pose proof (f_equal (fun h => h n) (AN snd)) as A2.
  cbv beta in A1, A2. rewrite <- A1 in E1. rewrite <- A2 in E2.
  rewrite <- (proj1 (taylor_poly_comp _ n)) in E1. rewrite <- (proj2 (taylor_poly_comp _ n)) in E2.
  set (u := along_normal D X Y tx ty s n) in *. set (p := taylor_poly (along_normal D X Y tx ty s) 4 n) in *.
  assert (B1 : Rabs (fst u - fst p) <= M * Rabs n ^ 5 / 120).
  { rewrite E1. replace (_ + _ - _) with (n ^ 5 * / 120 * Derive_n (fun t => fst (along_normal D X Y tx ty s t)) 5 (t1 * n)) by (unfold Rdiv; ring).
    rewrite !Rabs_mult, <- RPow_abs, (Rabs_pos_eq (/ 120)) by lra.
    assert (Q : Rabs (Derive_n (fun t => fst (along_normal D X Y tx ty s t)) 5 (t1 * n)) <= M).
    { eapply Rle_trans; [|apply (HM t1); lra]. eapply Rle_trans; [|apply Rmax_Cmod]. apply Rmax_l. }
    pose proof (pow_le (Rabs n) 5 (Rabs_pos n)). unfold Rdiv. nra. }
  assert (B2 : Rabs (snd u - snd p) <= M * Rabs n ^ 5 / 120).
  { rewrite E2. replace (_ + _ - _) with (n ^ 5 * / 120 * Derive_n (fun t => snd (along_normal D X Y tx ty s t)) 5 (t2 * n)) by (unfold Rdiv; ring).
    rewrite !Rabs_mult, <- RPow_abs, (Rabs_pos_eq (/ 120)) by lra.
    assert (Q : Rabs (Derive_n (fun t => snd (along_normal D X Y tx ty s t)) 5 (t2 * n)) <= M).
    { eapply Rle_trans; [|apply (HM t2); lra]. eapply Rle_trans; [|apply Rmax_Cmod]. apply Rmax_r. }
    pose proof (pow_le (Rabs n) 5 (Rabs_pos n)). unfold Rdiv. nra. }
  clearbody u p. clear - B1 B2.
  pose proof (Cmod_2Rmax (Cminus u p)) as K.
  assert (L : Rmax (Rabs (fst (Cminus u p))) (Rabs (snd (Cminus u p))) <= M * Rabs n ^ 5 / 120).
  { apply Rmax_lub; [replace (fst (Cminus u p)) with (fst u - fst p) by reflexivity|
      replace (snd (Cminus u p)) with (snd u - snd p) by reflexivity]; assumption. }
  assert (Q2 : sqrt 2 <= 2). { replace 2 with (sqrt (2 * 2)) at 2 by (apply sqrt_square; lra). apply sqrt_le_1_alt. lra. }
  assert (0 <= Rmax (Rabs (fst (Cminus u p))) (Rabs (snd (Cminus u p)))) by (eapply Rle_trans; [apply Rabs_pos|apply Rmax_l]).
  nra.
Qed.

(** ** C20: the chain rule *)

Definition faa (g T : nat -> R) (l : nat) : R :=
  match l with
  | 0%nat => g 0%nat
  | 1%nat => g 1%nat * T 1%nat
  | 2%nat => g 2%nat * T 1%nat ^ 2 + g 1%nat * T 2%nat
  | 3%nat => g 3%nat * T 1%nat ^ 3 + 3 * g 2%nat * T 1%nat * T 2%nat + g 1%nat * T 3%nat
  | _ => T 1%nat ^ 4 * g 4%nat + 6 * T 1%nat ^ 2 * T 2%nat * g 3%nat + 4 * T 1%nat * g 2%nat * T 3%nat
         + 3 * T 2%nat ^ 2 * g 2%nat + T 4%nat * g 1%nat
  end.

Lemma der_mult : forall (f g : R -> R) s (f' g' : R), is_derive f s f' -> is_derive g s g' ->
  is_derive (fun t => f t * g t) s (f' * g s + f s * g').
Proof. intros f g s f' g' Hf Hg. apply prod_rule; assumption. Qed.

Lemma der_plus : forall (f g : R -> R) s (f' g' : R), is_derive f s f' -> is_derive g s g' ->
  is_derive (fun t => f t + g t) s (f' + g').
Proof. intros f g s f' g' Hf Hg. apply (is_derive_plus (V := R_NormedModule)); assumption. Qed.

Lemma der_scal : forall (c : R) (f : R -> R) s (f' : R), is_derive f s f' ->
  is_derive (fun t => c * f t) s (c * f').
Proof. intros c f s f' Hf. apply is_derive_scal. exact Hf. Qed.

Lemma der_pow : forall (f : R -> R) n s (f' : R), is_derive f s f' ->
  is_derive (fun t => f t ^ n) s (INR n * f' * f s ^ pred n).
Proof. intros f n s f' Hf. apply is_derive_pow. exact Hf. Qed.

Lemma der_comp : forall (f g : R -> R) s (f' g' : R), is_derive f (g s) f' -> is_derive g s g' ->
  is_derive (fun t => f (g t)) s (f' * g').
Proof.
  intros f g s f' g' Hf Hg. pose proof (is_derive_comp f g s f' g' Hf Hg) as D.
  refine (is_derive_eq _ s _ _ D _). unfold scal; simpl; unfold mult; simpl. ring.
Qed.

Lemma faa_derive : forall (m : nat) (g T : nat -> R -> R) (P : R -> Prop) lo hi, (m <= 4)%nat ->
  (forall l t, (l < m)%nat -> P t -> is_derive (g l) t (g (S l) t)) ->
  (forall l s, (l < m)%nat -> lo < s < hi -> is_derive (T l) s (T (S l) s)) ->
  (forall s, lo < s < hi -> P (T 0%nat s)) ->
  forall l s, (l < m)%nat -> lo < s < hi ->
    is_derive (fun s => faa (fun l => g l (T 0%nat s)) (fun l => T l s) l) s
      (faa (fun l => g l (T 0%nat s)) (fun l => T l s) (S l)).
Proof.
  intros m g T P lo hi Hm Hg HT HP l s Hl Hs.
  assert (G : forall l, (l < m)%nat -> is_derive (fun s => g l (T 0%nat s)) s (g (S l) (T 0%nat s) * T 1%nat s)).
  { intros l' Hl'. apply der_comp; [apply Hg; [exact Hl'|apply HP; exact Hs]|apply HT; [lia|exact Hs]]. }
  assert (T' : forall l, (l < m)%nat -> is_derive (T l) s (T (S l) s)) by (intros; apply HT; assumption).
  assert (G0 := G 0%nat). assert (G1 := G 1%nat). assert (G2 := G 2%nat). assert (G3 := G 3%nat).
  assert (T1 := T' 1%nat). assert (T2 := T' 2%nat). assert (T3 := T' 3%nat).
  destruct l as [|[|[|[|l]]]]; [| | | |lia]; unfold faa.
  - refine (is_derive_eq _ s _ _ (G0 ltac:(lia)) _). ring.
  - refine (is_derive_eq _ s _ _ (der_mult _ _ s _ _ (G1 ltac:(lia)) (T1 ltac:(lia))) _). ring.
  - refine (is_derive_eq _ s _ _ (der_plus _ _ s _ _
      (der_mult _ _ s _ _ (G2 ltac:(lia)) (der_pow _ 2 s _ (T1 ltac:(lia))))
      (der_mult _ _ s _ _ (G1 ltac:(lia)) (T2 ltac:(lia)))) _). simpl. ring.
  - refine (is_derive_eq _ s _ _ (der_plus _ _ s _ _ (der_plus _ _ s _ _
      (der_mult _ _ s _ _ (G3 ltac:(lia)) (der_pow _ 3 s _ (T1 ltac:(lia))))
      (der_mult _ _ s _ _ (der_mult _ _ s _ _ (der_scal 3 _ s _ (G2 ltac:(lia))) (T1 ltac:(lia))) (T2 ltac:(lia))))
      (der_mult _ _ s _ _ (G1 ltac:(lia)) (T3 ltac:(lia)))) _). simpl. ring.
Qed.

Lemma faa_real : forall (m : nat) (g Th : R -> R) glo ghi lo hi, (m <= 4)%nat ->
  smooth_on m glo ghi g -> smooth_on m lo hi Th -> (forall s, lo < s < hi -> glo < Th s < ghi) ->
  forall l s, (l <= m)%nat -> lo < s < hi ->
  Derive_n (fun s => g (Th s)) l s = faa (fun l => Derive_n g l (Th s)) (fun l => Derive_n Th l s) l.
Proof.
  intros m g Th glo ghi lo hi Hm Hg HT HP l s Hl Hs.
  apply (derive_chain_eq (fun s => g (Th s))
    (fun l s => faa (fun l => Derive_n g l (Th s)) (fun l => Derive_n Th l s) l) m lo hi); try assumption.
  - intros u _. reflexivity.
  - intros l' u Hl' Hu.
    apply (faa_derive m (fun l => Derive_n g l) (fun l => Derive_n Th l) (fun t => glo < t < ghi) lo hi); try assumption.
    + intros k t Hk Ht. apply Derive_correct. apply Hg; assumption.
    + intros k t Hk Ht. apply Derive_correct. apply HT; assumption.
Qed.

Lemma faa_ex : forall (m : nat) (g Th : R -> R) glo ghi lo hi, (m <= 4)%nat ->
  smooth_on m glo ghi g -> smooth_on m lo hi Th -> (forall s, lo < s < hi -> glo < Th s < ghi) ->
  smooth_on m lo hi (fun s => g (Th s)).
Proof.
  intros m g Th glo ghi lo hi Hm Hg HT HP l s Hl Hs.
  eexists. apply is_derive_ext_loc with (fun s => faa (fun l => Derive_n g l (Th s)) (fun l => Derive_n Th l s) l).
  - eapply filter_imp; [|apply interval_locally'; exact Hs]. intros t Ht. symmetry.
    apply (faa_real m g Th glo ghi lo hi); try assumption. lia.
  - apply (faa_derive m (fun l => Derive_n g l) (fun l => Derive_n Th l) (fun t => glo < t < ghi) lo hi); try assumption.
    + intros k t Hk Ht. apply Derive_correct. apply Hg; assumption.
    + intros k t Hk Ht. apply Derive_correct. apply HT; assumption.
Qed.

Lemma convert_chain : forall (xi : R -> C) (Th : R -> R) glo ghi lo hi s,
  Csmooth_on 4 glo ghi xi -> smooth_on 4 lo hi Th -> (forall s, lo < s < hi -> glo < Th s < ghi) ->
  lo < s < hi ->
  let T l := Derive_n Th l s in
  let d l := CDerive_n xi l (Th s) in
  convert_d (T 1%nat) (d 1%nat) = CDerive_n (fun s => xi (Th s)) 1 s /\
  convert_d2 (T 1%nat) (T 2%nat) (d 1%nat) (d 2%nat) = CDerive_n (fun s => xi (Th s)) 2 s /\
  convert_d4 (T 1%nat) (T 2%nat) (T 3%nat) (T 4%nat) (d 1%nat) (d 2%nat) (d 3%nat) (d 4%nat)
    = CDerive_n (fun s => xi (Th s)) 4 s.
Proof.
  intros xi Th glo ghi lo hi s [H1 H2] HT HP Hs T d.
  unfold CDerive_n at 1 2 3.
  rewrite !(faa_real 4 (fun t => fst (xi t)) Th glo ghi lo hi), !(faa_real 4 (fun t => snd (xi t)) Th glo ghi lo hi)
    by (assumption || lia).
  unfold convert_d, convert_d2, convert_d4, faa, T, d, CDerive_n.
  repeat split; apply injective_projections; cbn [fst snd]; unfold Cminus, Copp, Cplus, Cmult, RtoC; cbn [fst snd]; ring.
Qed.

Lemma convert_real_chain : forall (g Th : R -> R) glo ghi lo hi s,
  smooth_on 2 glo ghi g -> smooth_on 2 lo hi Th -> (forall s, lo < s < hi -> glo < Th s < ghi) ->
  lo < s < hi ->
  convert_d_real (Derive_n Th 1 s) (Derive_n g 1 (Th s)) = Derive_n (fun s => g (Th s)) 1 s /\
  convert_d2_real (Derive_n Th 1 s) (Derive_n Th 2 s) (Derive_n g 1 (Th s)) (Derive_n g 2 (Th s))
    = Derive_n (fun s => g (Th s)) 2 s.
Proof.
  intros g Th glo ghi lo hi s Hg HT HP Hs.
  rewrite !(faa_real 2 g Th glo ghi lo hi) by (assumption || lia).
  unfold convert_d_real, convert_d2_real, faa. split; ring.
Qed.

(** Boundary's derivatives of the inverse arclength function. *)
Lemma boundary_th_derivs : forall (r S Th : R -> R),
  (forall th, 0 < r th ^ 2 + Derive r th ^ 2) ->
  (forall th, is_derive S th (sqrt (r th ^ 2 + Derive r th ^ 2))) ->
  (forall y, S (Th y) = y) ->
  (forall l th, (l <= 2)%nat -> ex_derive (Derive_n (fun t => sqrt (r t ^ 2 + Derive r t ^ 2)) l) th) ->
  forall s, Derive_n Th 1 s = b_d_th r (Th s) /\ Derive_n Th 2 s = b_d2_th r (Th s) /\
            Derive_n Th 3 s = b_d3_th r (Th s) /\ Derive_n Th 4 s = b_d4_th r (Th s) /\
            (forall l, (l < 4)%nat -> ex_derive (Derive_n Th l) s).
Proof.
  intros r S Th Hs HS H2 E s.
  assert (E1 : forall th, ex_derive (b_d_s r) th) by (intros th; apply (E 0%nat); lia).
  assert (E2 : forall th, ex_derive (b_d2_s r) th) by (intros th; apply (E 1%nat); lia).
  assert (E3 : forall th, ex_derive (b_d3_s r) th) by (intros th; apply (E 2%nat); lia).
  set (f := fun l s => match l with 0%nat => Th s | 1%nat => b_d_th r (Th s) | 2%nat => b_d2_th r (Th s)
    | 3%nat => b_d3_th r (Th s) | _ => b_d4_th r (Th s) end).
  assert (Hf : forall l u, (l < 4)%nat -> s - 1 < u < s + 1 -> is_derive (f l) u (f (Datatypes.S l) u)).
  { intros l u Hl _. destruct l as [|[|[|[|l]]]]; [| | | |lia]; unfold f.
    - apply (Th_derive r S Th Hs HS H2).
    - apply (d_th_derive r S Th Hs HS H2 E1).
    - apply (d2_th_derive r S Th Hs HS H2 E1 E2).
    - apply (d3_th_derive r S Th Hs HS H2 E1 E2 E3). }
  assert (K : forall l, (l <= 4)%nat -> Derive_n Th l s = f l s /\ ((l < 4)%nat -> ex_derive (Derive_n Th l) s)).
  { intros l Hl. exact (derive_chain f 4 (s - 1) (s + 1) Hf l s Hl ltac:(lra)). }
  repeat split; try (apply K; lia).
  intros l Hl. apply K; lia.
Qed.

(** ** Composition: extend_polar on the boundary curve r(th) *)

Lemma convert_chain2 : forall (xi : R -> C) (Th : R -> R) glo ghi lo hi s,
  Csmooth_on 2 glo ghi xi -> smooth_on 2 lo hi Th -> (forall s, lo < s < hi -> glo < Th s < ghi) ->
  lo < s < hi ->
  let T l := Derive_n Th l s in
  let d l := CDerive_n xi l (Th s) in
  convert_d (T 1%nat) (d 1%nat) = CDerive_n (fun s => xi (Th s)) 1 s /\
  convert_d2 (T 1%nat) (T 2%nat) (d 1%nat) (d 2%nat) = CDerive_n (fun s => xi (Th s)) 2 s.
Proof.
  intros xi Th glo ghi lo hi s [H1 H2] HT HP Hs T d.
  unfold CDerive_n at 1 2.
  rewrite !(faa_real 2 (fun t => fst (xi t)) Th glo ghi lo hi), !(faa_real 2 (fun t => snd (xi t)) Th glo ghi lo hi)
    by (assumption || lia).
  unfold convert_d, convert_d2, faa, T, d, CDerive_n.
  repeat split; apply injective_projections; cbn [fst snd]; unfold Cminus, Copp, Cplus, Cmult, RtoC; cbn [fst snd]; ring.
Qed.

Lemma CDerive_n_ext_loc : forall (f g : R -> C) lo hi l s, (forall t, lo < t < hi -> f t = g t) -> lo < s < hi ->
  CDerive_n f l s = CDerive_n g l s.
Proof.
  intros f g lo hi l s H Hs. unfold CDerive_n. f_equal; apply Derive_n_ext_loc;
    (eapply filter_imp; [|apply interval_locally'; exact Hs]); intros t Ht; rewrite H by exact Ht; reflexivity.
Qed.

Lemma trace_smooth : forall O lo hi X Y tx ty kap D,
  open2 O -> unit_curve lo hi X Y tx ty kap -> (forall s, lo < s < hi -> O (X s) (Y s)) -> partials O 4 D ->
  Csmooth_on 4 lo hi (trace0 D X Y) /\ Csmooth_on 2 lo hi (trace1 D X Y tx ty).
Proof.
  intros O lo hi X Y tx ty kap D HO HC Hin HD.
  assert (HDf : partialsR O 4 (fun i j x y => fst (D i j x y))) by (intros i j x y H1 H2; apply (HD i j x y H1 H2)).
  assert (HDs : partialsR O 4 (fun i j x y => snd (D i j x y))) by (intros i j x y H1 H2; apply (HD i j x y H1 H2)).
  assert (S0 : forall G, partialsR O 4 G -> smooth_on 4 lo hi (fun s => G 0%nat 0%nat (X s) (Y s))).
  { intros G HG l s Hl Hs.
    exact (proj2 (derive_chain (xi0_chain X Y tx ty kap G) 4 lo hi
      (xi0_chain_derive O lo hi X Y tx ty kap HC Hin G HG) l s ltac:(lia) Hs) Hl). }
  assert (S1 : forall G, partialsR O 4 G -> smooth_on 2 lo hi (fun s => ty s * G 1%nat 0%nat (X s) (Y s) + - tx s * G 0%nat 1%nat (X s) (Y s))).
  { intros G HG l s Hl Hs.
    pose proof (proj2 (derive_chain (xi1_chain X Y tx ty kap G) 2 lo hi
      (xi1_chain_derive O lo hi X Y tx ty kap HC Hin G HG) l s ltac:(lia) Hs) Hl) as K.
    apply ex_derive_ext with (2 := K). intros t. apply Derive_n_ext. intros u. unfold xi1_chain, E10, Gt. ring. }
  split; split; [exact (S0 _ HDf)|exact (S0 _ HDs)| |].
  - intros l s Hl Hs. apply ex_derive_ext with (2 := S1 _ HDf l s Hl Hs). intros t. apply Derive_n_ext. intros u.
    unfold trace1. rewrite fst_Cplus, !fst_R_Cmult. reflexivity.
  - intros l s Hl Hs. apply ex_derive_ext with (2 := S1 _ HDs l s Hl Hs). intros t. apply Derive_n_ext. intros u.
    unfold trace1. rewrite snd_Cplus, !snd_R_Cmult. reflexivity.
Qed.

Section PolarCurve.
Context (r Sa Th : R -> R)
  (Hv : forall th, 0 < r th ^ 2 + Derive r th ^ 2)
  (HS : forall th, is_derive Sa th (sqrt (r th ^ 2 + Derive r th ^ 2)))
  (Hinv : forall y, Sa (Th y) = y)
  (Er : forall th, ex_derive r th) (Er2 : forall th, ex_derive (Derive r) th)
  (Ev : forall l th, (l <= 2)%nat -> ex_derive (Derive_n (fun t => sqrt (r t ^ 2 + Derive r t ^ 2)) l) th)
  (Ek : forall l th, (l <= 1)%nat -> ex_derive (Derive_n (b_curv r) l) th).

Lemma Sa_incr : forall x y, x < y -> Sa x < Sa y.
Proof.
  intros x y Hxy.
  destruct (MVT_gen Sa x y (fun t => sqrt (r t ^ 2 + Derive r t ^ 2))) as (c & Hc & E).
  - intros t _. apply HS.
  - intros t _. apply continuity_pt_filterlim. apply (@ex_derive_continuous R_AbsRing R_NormedModule).
    eexists; apply HS.
  - pose proof (sqrt_lt_R0 _ (Hv c)). nra.
Qed.

Lemma Th_Sa : forall t, Th (Sa t) = t.
Proof.
  intros t. destruct (Rtotal_order (Th (Sa t)) t) as [L|[E|L]]; [|exact E|];
    apply Sa_incr in L; rewrite Hinv in L; lra.
Qed.

Lemma Th_range : forall glo ghi s, Sa glo < s < Sa ghi -> glo < Th s < ghi.
Proof.
  intros glo ghi s [H1 H2].
  split.
  - destruct (Rlt_le_dec glo (Th s)) as [L|[L|L]]; [exact L| |].
    + apply Sa_incr in L. rewrite Hinv in L. lra.
    + rewrite <- L, Hinv in H1. lra.
  - destruct (Rlt_le_dec (Th s) ghi) as [L|[L|L]]; [exact L| |].
    + apply Sa_incr in L. rewrite Hinv in L. lra.
    + rewrite L, Hinv in H2. lra.
Qed.

Lemma Th_smooth : forall lo hi, smooth_on 4 lo hi Th.
Proof.
  intros lo hi l s Hl _. apply (boundary_th_derivs r Sa Th Hv HS Hinv Ev s). exact Hl.
Qed.

Lemma Sa_smooth : forall lo hi, smooth_on 4 lo hi Sa.
Proof.
  intros lo hi l s Hl _.
  set (v := fun t => sqrt (r t ^ 2 + Derive r t ^ 2)) in *.
  destruct l; [eexists; apply HS|].
  apply ex_derive_ext with (Derive_n v l); [|apply Ev; lia].
  intros t. replace (Derive_n Sa (S l) t) with (Derive_n (Derive Sa) l t).
  - apply Derive_n_ext. intros u. symmetry. apply is_derive_unique. apply HS.
  - replace (S l) with (l + 1)%nat by lia. rewrite <- (Derive_n_comp Sa l 1 t). reflexivity.
Qed.

Definition pcX (s : R) : R := r (Th s) * cos (Th s).
Definition pcY (s : R) : R := r (Th s) * sin (Th s).
Definition pctx (s : R) : R := fst (eval_tangent r (Th s)).
Definition pcty (s : R) : R := snd (eval_tangent r (Th s)).
Definition pckap (s : R) : R := b_curv r (Th s).

Lemma Th_d1 : forall s, is_derive Th s (1 / sqrt (r (Th s) ^ 2 + Derive r (Th s) ^ 2)).
Proof. intros s. exact (Th_derive r Sa Th Hv HS Hinv s). Qed.

Lemma pckap_smooth : forall lo hi, smooth_on 2 lo hi pckap.
Proof.
  intros lo hi l s Hl Hs.
  apply (faa_ex 2 (b_curv r) Th (Th s - 1) (Th s + 1) (Sa (Th s - 1)) (Sa (Th s + 1))); try lia.
  - intros l' t Hl' _. apply Ek. lia.
  - intros l' t Hl' _. apply (Th_smooth (t - 1) (t + 1)); [lia|lra].
  - intros u Hu. apply Th_range. exact Hu.
  - rewrite <- (Hinv s) at 2 3. split; apply Sa_incr; lra.
Qed.

Lemma pc_unit : forall lo hi, unit_curve lo hi pcX pcY pctx pcty pckap.
Proof.
  intros lo hi s Hs.
  destruct (eval_tangent r (Th s)) as [tx ty] eqn:Et.
  destruct (eval_normal r (Th s)) as [nx ny] eqn:En.
  destruct (curvature_spec r (Th s) tx ty nx ny Er Er2 Hv Et En) as (D1 & D2 & D3 & D4).
  destruct (frame_spec r (Th s) tx ty nx ny Er (Hv (Th s)) Et En) as ((U & _) & _).
  assert (N : nx = ty /\ ny = - tx).
  { unfold eval_normal in En. rewrite Et in En. injection En as <- <-. split; reflexivity. }
  destruct N as [-> ->].
  set (v := sqrt (r (Th s) ^ 2 + Derive r (Th s) ^ 2)) in *.
  assert (Pv : 0 < v) by (apply sqrt_lt_R0, Hv).
  pose proof (Th_d1 s) as Dt. fold v in Dt.
  unfold pctx at 1 2 3, pcty at 1 2 3. rewrite Et. cbn [fst snd].
  split; [refine (is_derive_eq _ s _ _ (der_comp _ Th s _ _ D1 Dt) _); unfold pctx; rewrite ?Et; cbn [fst]; field; lra|].
  split; [refine (is_derive_eq _ s _ _ (der_comp _ Th s _ _ D2 Dt) _); unfold pcty; rewrite ?Et; cbn [snd]; field; lra|].
  split; [unfold pctx, pcty; rewrite ?Et; exact U|].
  split; [refine (is_derive_eq _ s _ _ (der_comp _ Th s _ _ D3 Dt) _); unfold pctx, pcty, pckap; rewrite ?Et; cbn [fst snd]; field; lra|].
  split; [refine (is_derive_eq _ s _ _ (der_comp _ Th s _ _ D4 Dt) _); unfold pctx, pcty, pckap; rewrite ?Et; cbn [fst snd]; field; lra|].
  split; [apply (pckap_smooth lo hi 0%nat s); [lia|exact Hs]|apply (pckap_smooth lo hi 1%nat s); [lia|exact Hs]].
Qed.

Lemma polar_homogeneous_taylor : forall O glo ghi D k th n,
  open2 O -> (forall t, glo < t < ghi -> O (r t * cos t) (r t * sin t)) ->
  partials O 4 D -> helmholtz O k D (fun _ _ _ _ => RtoC 0) -> glo < th < ghi ->
  let nx t := fst (eval_normal r t) in
  let ny t := snd (eval_normal r t) in
  let u0 t := D 0%nat 0%nat (r t * cos t) (r t * sin t) in
  let u1 t := Cplus (Cmult (RtoC (nx t)) (D 1%nat 0%nat (r t * cos t) (r t * sin t)))
                    (Cmult (RtoC (ny t)) (D 0%nat 1%nat (r t * cos t) (r t * sin t))) in
  extend_polar k n (b_curv r th) (b_d_curv r th) (b_d2_curv r th)
    (b_d_th r th) (b_d2_th r th) (b_d3_th r th) (b_d4_th r th)
    (mk_pd (u0 th) (u1 th) (CDerive_n u0 1 th) (CDerive_n u1 1 th)
       (CDerive_n u0 2 th) (CDerive_n u1 2 th) (CDerive_n u0 3 th) (CDerive_n u0 4 th))
  = taylor_poly (fun t => D 0%nat 0%nat (r th * cos th + t * nx th) (r th * sin th + t * ny th)) 4 n.
Proof.
  intros O glo ghi D k th n HO Hin HD PDE Hth nx ny u0 u1.
  set (lo := Sa glo). set (hi := Sa ghi). set (s := Sa th).
  assert (Hs : lo < s < hi) by (split; apply Sa_incr; lra).
  assert (Es : Th s = th) by apply Th_Sa.
  assert (HP : forall u, lo < u < hi -> glo < Th u < ghi) by (intros u Hu; apply Th_range; exact Hu).
  assert (Hin' : forall u, lo < u < hi -> O (pcX u) (pcY u)).
  { intros u Hu. apply Hin. apply HP. exact Hu. }
  pose proof (pc_unit lo hi) as HC.
  pose proof (homogeneous_taylor O lo hi pcX pcY pctx pcty pckap D k s n HO HC Hin' HD PDE Hs) as Main.
  destruct (trace_smooth O lo hi pcX pcY pctx pcty pckap D HO HC Hin' HD) as [S0 S1].
  assert (HSr : forall t, glo < t < ghi -> lo < Sa t < hi) by (intros t Ht; split; apply Sa_incr; lra).
  assert (NN : forall t, nx t = snd (eval_tangent r t) /\ ny t = - fst (eval_tangent r t)).
  { intros t. unfold nx, ny, eval_normal. destruct (eval_tangent r t); split; reflexivity. }
  assert (Q0 : forall t, u0 t = trace0 D pcX pcY (Sa t)).
  { intros t. unfold u0, trace0, pcX, pcY. rewrite Th_Sa. reflexivity. }
  assert (Q1 : forall t, u1 t = trace1 D pcX pcY pctx pcty (Sa t)).
  { intros t. unfold u1, trace1, pcX, pcY, pctx, pcty. rewrite Th_Sa, (proj1 (NN t)), (proj2 (NN t)). reflexivity. }
  assert (U0 : Csmooth_on 4 glo ghi u0).
  { split; intros l t Hl Ht.
    - eapply ex_derive_ext; [|apply (faa_ex 4 (fun t => fst (trace0 D pcX pcY t)) Sa lo hi glo ghi (le_n _) (proj1 S0) (Sa_smooth glo ghi) HSr l t Hl Ht)].
      intros u. apply Derive_n_ext. intros w. cbv beta. rewrite Q0. reflexivity.
    - eapply ex_derive_ext; [|apply (faa_ex 4 (fun t => snd (trace0 D pcX pcY t)) Sa lo hi glo ghi (le_n _) (proj2 S0) (Sa_smooth glo ghi) HSr l t Hl Ht)].
      intros u. apply Derive_n_ext. intros w. cbv beta. rewrite Q0. reflexivity. }
  assert (Sa2 : smooth_on 2 glo ghi Sa) by (intros l t Hl Ht; apply (Sa_smooth glo ghi); [lia|exact Ht]).
  assert (Th2 : smooth_on 2 lo hi Th) by (intros l t Hl Ht; apply (Th_smooth lo hi); [lia|exact Ht]).
  assert (U1 : Csmooth_on 2 glo ghi u1).
  { split; intros l t Hl Ht.
    - eapply ex_derive_ext; [|apply (faa_ex 2 (fun t => fst (trace1 D pcX pcY pctx pcty t)) Sa lo hi glo ghi ltac:(lia) (proj1 S1) Sa2 HSr l t Hl Ht)].
      intros u. apply Derive_n_ext. intros w. cbv beta. rewrite Q1. reflexivity.
    - eapply ex_derive_ext; [|apply (faa_ex 2 (fun t => snd (trace1 D pcX pcY pctx pcty t)) Sa lo hi glo ghi ltac:(lia) (proj2 S1) Sa2 HSr l t Hl Ht)].
      intros u. apply Derive_n_ext. intros w. cbv beta. rewrite Q1. reflexivity. }
  destruct (convert_chain u0 Th glo ghi lo hi s U0 (Th_smooth lo hi) HP Hs) as (C1 & C2 & C4).
  destruct (convert_chain2 u1 Th glo ghi lo hi s U1 Th2 HP Hs) as (C1' & C2').
  assert (K2 : smooth_on 2 glo ghi (b_curv r)) by (intros l t Hl Ht; apply Ek; lia).
  destruct (convert_real_chain (b_curv r) Th glo ghi lo hi s K2 Th2 HP Hs) as (R1 & R2).
  destruct (boundary_th_derivs r Sa Th Hv HS Hinv Ev s) as (T1 & T2 & T3 & T4 & _).
  rewrite T1, T2, T3, T4 in C4. rewrite T1 in C1, C1', R1. rewrite T1, T2 in C2, C2', R2.
  rewrite Es in C1, C2, C4, C1', C2', R1, R2.
  assert (V0 : forall l, CDerive_n (fun s => u0 (Th s)) l s = CDerive_n (trace0 D pcX pcY) l s).
  { intros l. apply (CDerive_n_ext_loc _ _ lo hi); [|exact Hs]. intros t _. reflexivity. }
  assert (V1 : forall l, CDerive_n (fun s => u1 (Th s)) l s = CDerive_n (trace1 D pcX pcY pctx pcty) l s).
  { intros l. apply (CDerive_n_ext_loc _ _ lo hi); [|exact Hs]. intros t _. rewrite Q1, Hinv. reflexivity. }
  unfold extend_polar. cbn [pd_xi0 pd_xi1 pd_d_xi0 pd_d_xi1 pd_d2_xi0 pd_d2_xi1 pd_d3_xi0 pd_d4_xi0].
  rewrite C1, C2, C4, C1', C2', (V0 1%nat), (V0 2%nat), (V0 4%nat), (V1 1%nat), (V1 2%nat).
  change (b_d_curv r th) with (Derive_n (b_curv r) 1 th). change (b_d2_curv r th) with (Derive_n (b_curv r) 2 th).
  rewrite R1, R2. change (fun s0 : R => b_curv r (Th s0)) with pckap.
  rewrite Q0, Q1. fold s. replace (b_curv r th) with (pckap s) by (unfold pckap; rewrite Es; reflexivity).
  change (Derive_n pckap 1 s) with (Derive pckap s).
  rewrite Main. unfold along_normal, pcX, pcY, pctx, pcty. rewrite Es.
  rewrite (proj1 (NN th)), (proj2 (NN th)).
  f_equal. apply FunctionalExtensionality.functional_extensionality. intros t. f_equal. ring.
Qed.

Lemma polar_second : forall (U : R -> R -> Prop) (Q : nat -> nat -> R -> R -> R) glo ghi s,
  partialsR U 2 Q -> (forall t, glo < t < ghi -> U (r t) t) -> glo < Th s < ghi ->
  Derive_n (fun s => Q 0%nat 0%nat (r (Th s)) (Th s)) 2 s =
  let rs := b_d_r r (Th s) * b_d_th r (Th s) in
  let rss := b_d2_r r (Th s) * b_d_th r (Th s) ^ 2 + b_d_r r (Th s) * b_d2_th r (Th s) in
  let q i j := Q i j (r (Th s)) (Th s) in
  (q 0%nat 2%nat * b_d_th r (Th s) + q 1%nat 1%nat * rs) * b_d_th r (Th s) + q 0%nat 1%nat * b_d2_th r (Th s)
  + (q 1%nat 1%nat * b_d_th r (Th s) + q 2%nat 0%nat * rs) * rs + q 1%nat 0%nat * rss.
Proof.
  intros U Q glo ghi s HQ HU Hs.
  assert (HS' : Sa glo < s < Sa ghi) by (rewrite <- (Hinv s); split; apply Sa_incr; lra).
  set (T1 := fun s => b_d_th r (Th s)). set (r1 := fun s => b_d_r r (Th s)).
  assert (E1 : forall th, ex_derive (b_d_s r) th) by (intros th; apply (Ev 0%nat); lia).
  assert (DT : forall u, is_derive Th u (T1 u)) by (intros u; apply (Th_derive r Sa Th Hv HS Hinv)).
  assert (DT1 : forall u, is_derive T1 u (b_d2_th r (Th u))) by (intros u; apply (d_th_derive r Sa Th Hv HS Hinv E1)).
  assert (Dr : forall u, is_derive (fun s => r (Th s)) u (r1 u * T1 u)).
  { intros u. apply der_comp; [apply Derive_correct, Er|apply DT]. }
  assert (Dr1 : forall u, is_derive r1 u (b_d2_r r (Th u) * T1 u)).
  { intros u. apply (der_comp (b_d_r r) Th u (b_d2_r r (Th u))); [apply Derive_correct, Er2|apply DT]. }
  assert (DQ : forall i j u, (i + j < 2)%nat -> Sa glo < u < Sa ghi ->
    is_derive (fun s => Q i j (r (Th s)) (Th s)) u
      (r1 u * T1 u * Q (S i) j (r (Th u)) (Th u) + T1 u * Q i (S j) (r (Th u)) (Th u))).
  { intros i j u Hij Hu. apply (chain2 (Q i j) (fun s => r (Th s)) Th); [|apply Dr|apply DT].
    apply HQ; [exact Hij|]. apply HU. apply Th_range. exact Hu. }
  apply (derive_chain_eq _ (fun l s => match l with 0%nat => Q 0%nat 0%nat (r (Th s)) (Th s)
    | 1%nat => r1 s * T1 s * Q 1%nat 0%nat (r (Th s)) (Th s) + T1 s * Q 0%nat 1%nat (r (Th s)) (Th s)
    | _ => let rs := r1 s * T1 s in
           let rss := b_d2_r r (Th s) * T1 s ^ 2 + r1 s * b_d2_th r (Th s) in
           let q i j := Q i j (r (Th s)) (Th s) in
           (q 0%nat 2%nat * T1 s + q 1%nat 1%nat * rs) * T1 s + q 0%nat 1%nat * b_d2_th r (Th s)
           + (q 1%nat 1%nat * T1 s + q 2%nat 0%nat * rs) * rs + q 1%nat 0%nat * rss end) 2 (Sa glo) (Sa ghi));
    [intros u _; reflexivity| |lia|exact HS'].
  intros l u Hl Hu. destruct l as [|[|l]]; [| |lia].
  - apply DQ; [lia|exact Hu].
  - refine (is_derive_eq _ u _ _ (der_plus _ _ u _ _
      (der_mult _ _ u _ _ (der_mult _ _ u _ _ (Dr1 u) (DT1 u)) (DQ 1%nat 0%nat u ltac:(lia) Hu))
      (der_mult _ _ u _ _ (DT1 u) (DQ 0%nat 1%nat u ltac:(lia) Hu))) _).
    cbv zeta beta. match goal with |- @eq _ ?a ?b => change (@eq R a b) end. ring.
Qed.

Lemma polar_d2_f_s_spec : forall (U : R -> R -> Prop) (Q : nat -> nat -> R -> R -> C) glo ghi s,
  partials U 2 Q -> (forall t, glo < t < ghi -> U (r t) t) -> glo < Th s < ghi ->
  let q i j := Q i j (r (Th s)) (Th s) in
  polar_d2_f_s (q 0 1)%nat (q 0 2)%nat (q 1 0)%nat (q 2 0)%nat (q 1 1)%nat
    (b_d_th r (Th s)) (b_d2_th r (Th s)) (b_d_r r (Th s)) (b_d2_r r (Th s))
  = CDerive_n (fun s => Q 0%nat 0%nat (r (Th s)) (Th s)) 2 s.
Proof.
  intros U Q glo ghi s HQ HU Hs q.
  assert (HDf : partialsR U 2 (fun i j x y => fst (Q i j x y))) by (intros i j x y H1 H2; apply (HQ i j x y H1 H2)).
  assert (HDs : partialsR U 2 (fun i j x y => snd (Q i j x y))) by (intros i j x y H1 H2; apply (HQ i j x y H1 H2)).
  unfold CDerive_n.
  rewrite (polar_second U _ glo ghi s HDf HU Hs), (polar_second U _ glo ghi s HDs HU Hs). cbv zeta.
  unfold polar_d2_f_s, q.
  apply injective_projections; cbn [fst snd]; unfold Cminus, Copp, Cplus, Cmult, RtoC; cbn [fst snd]; ring.
Qed.

Lemma polar_particular_taylor : forall O U glo ghi D F Q k th n,
  open2 O -> (forall t, glo < t < ghi -> O (r t * cos t) (r t * sin t)) ->
  partials O 4 D -> partials O 2 F -> helmholtz O k D F ->
  partials U 2 Q -> (forall t, glo < t < ghi -> U (r t) t) ->
  (forall t, glo < t < ghi -> Q 0%nat 0%nat (r t) t = F 0%nat 0%nat (r t * cos t) (r t * sin t)) ->
  glo < th < ghi ->
  let nx t := fst (eval_normal r t) in
  let ny t := snd (eval_normal r t) in
  let grad_n t := Cplus (Cmult (RtoC (nx t)) (D 1%nat 0%nat (r t * cos t) (r t * sin t)))
                    (Cmult (RtoC (ny t)) (D 0%nat 1%nat (r t * cos t) (r t * sin t))) in
  (forall t, glo < t < ghi -> D 0%nat 0%nat (r t * cos t) (r t * sin t) = RtoC 0 /\ grad_n t = RtoC 0) ->
  let q i j := Q i j (r th) th in
  let line G t := G 0%nat 0%nat (r th * cos th + t * nx th) (r th * sin th + t * ny th) in
  inhomo_extend_polar k n (b_curv r th) (line F 0) (CDerive_n (line F) 1 0) (CDerive_n (line F) 2 0)
    (q 0 1)%nat (q 0 2)%nat (q 1 0)%nat (q 2 0)%nat (q 1 1)%nat
    (b_d_th r th) (b_d2_th r th) (b_d_r r th) (b_d2_r r th)
  = taylor_poly (line D) 4 n.
Proof.
  intros O U glo ghi D F Q k th n HO Hin HD HF PDE HQ HU HQF Hth nx ny grad_n HZ q line.
  set (lo := Sa glo). set (hi := Sa ghi). set (s := Sa th).
  assert (Hs : lo < s < hi) by (split; apply Sa_incr; lra).
  assert (Es : Th s = th) by apply Th_Sa.
  assert (HP : forall u, lo < u < hi -> glo < Th u < ghi) by (intros u Hu; apply Th_range; exact Hu).
  assert (Hin' : forall u, lo < u < hi -> O (pcX u) (pcY u)).
  { intros u Hu. apply Hin. apply HP. exact Hu. }
  pose proof (pc_unit lo hi) as HC.
  assert (NN : forall t, nx t = snd (eval_tangent r t) /\ ny t = - fst (eval_tangent r t)).
  { intros t. unfold nx, ny, eval_normal. destruct (eval_tangent r t); split; reflexivity. }
  assert (HZ' : forall u, lo < u < hi -> trace0 D pcX pcY u = RtoC 0 /\ trace1 D pcX pcY pctx pcty u = RtoC 0).
  { intros u Hu. destruct (HZ (Th u) (HP u Hu)) as [Z0 Z1]. split; [exact Z0|].
    unfold grad_n in Z1. rewrite (proj1 (NN (Th u))), (proj2 (NN (Th u))) in Z1. exact Z1. }
  pose proof (particular_taylor O lo hi pcX pcY pctx pcty pckap D F k s n HO HC Hin' HD HF PDE HZ' Hs) as Main.
  assert (L : forall G : nat -> nat -> R -> R -> C, along_normal G pcX pcY pctx pcty s = line G).
  { intros G. apply FunctionalExtensionality.functional_extensionality. intros t.
    unfold along_normal, line, pcX, pcY, pctx, pcty. rewrite Es, (proj1 (NN th)), (proj2 (NN th)). f_equal. ring. }
  unfold trace2 in Main. rewrite !L in Main. rewrite <- Main.
  unfold inhomo_extend_polar.
  assert (HthS : glo < Th s < ghi) by (rewrite Es; exact Hth).
  pose proof (polar_d2_f_s_spec U Q glo ghi s HQ HU HthS) as P. cbv zeta in P. rewrite Es in P.
  unfold q. rewrite P.
  replace (pckap s) with (b_curv r th) by (unfold pckap; rewrite Es; reflexivity).
  replace (trace0 F pcX pcY s) with (line F 0).
  2:{ unfold trace0, line, pcX, pcY. rewrite Es. f_equal; ring. }
  f_equal.
  - pose proof (HF 0%nat 0%nat (r th * cos th) (r th * sin th) ltac:(lia) (Hin th Hth)) as [F1 F2].
    unfold trace1, pcX, pcY, pctx, pcty. rewrite Es.
    destruct (line_open O _ _ (nx th) (ny th) HO (Hin th Hth)) as [d Hd].
    assert (X0 : r th * cos th + 0 * nx th = r th * cos th) by ring.
    assert (Y0 : r th * sin th + 0 * ny th = r th * sin th) by ring.
    assert (D1 : is_derive (fun t => r th * cos th + t * nx th) 0 (nx th)) by (auto_derive; [exact I|ring]).
    assert (D2 : is_derive (fun t => r th * sin th + t * ny th) 0 (ny th)) by (auto_derive; [exact I|ring]).
    rewrite <- X0, <- Y0 in F1, F2.
    pose proof (chain2 (fun x y => fst (F 0%nat 0%nat x y)) _ _ 0 _ _ _ _ F1 D1 D2) as G1.
    pose proof (chain2 (fun x y => snd (F 0%nat 0%nat x y)) _ _ 0 _ _ _ _ F2 D1 D2) as G2.
    unfold CDerive_n. cbn [Derive_n]. unfold line.
    apply injective_projections; cbn [fst snd].
    + etransitivity; [apply is_derive_unique; exact G1|]. rewrite X0, Y0. rewrite fst_Cplus, !fst_R_Cmult, (proj1 (NN th)), (proj2 (NN th)). reflexivity.
    + etransitivity; [apply is_derive_unique; exact G2|]. rewrite X0, Y0. rewrite snd_Cplus, !snd_R_Cmult, (proj1 (NN th)), (proj2 (NN th)). reflexivity.
  - apply (CDerive_n_ext_loc _ _ lo hi); [|exact Hs]. intros t Ht. apply HQF. apply HP. exact Ht.
Qed.

End PolarCurve.
