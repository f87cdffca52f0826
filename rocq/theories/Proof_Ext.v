(** The extension formulas are Taylor polynomials along the normal. *)
From Coq Require Import ZArith List Bool Reals Lra Lia Psatz.
From Coquelicot Require Import Coquelicot.
From Verif Require Import Model_Py Model_Ext Spec_Ext.
Import ListNotations.
Open Scope R_scope.

(** ** Chains of derivatives *)

Lemma interval_locally' : forall lo hi (s : R), lo < s < hi -> locally s (fun t => lo < t < hi).
Proof.
  intros lo hi s [H1 H2].
  assert (Hd : 0 < Rmin (s - lo) (hi - s)) by (apply Rmin_pos; lra).
  exists (mkposreal _ Hd). intros t Ht.
  unfold ball in Ht. simpl in Ht. unfold AbsRing_ball, abs, minus, plus, opp in Ht. simpl in Ht.
  pose proof (Rmin_l (s - lo) (hi - s)). pose proof (Rmin_r (s - lo) (hi - s)).
  apply Rabs_def2 in Ht. lra.
Qed.

Lemma derive_chain : forall (f : nat -> R -> R) m lo hi,
  (forall l s, (l < m)%nat -> lo < s < hi -> is_derive (f l) s (f (S l) s)) ->
  forall l s, (l <= m)%nat -> lo < s < hi ->
    Derive_n (f 0%nat) l s = f l s /\ ((l < m)%nat -> ex_derive (Derive_n (f 0%nat) l) s).
Proof.
  intros f m lo hi H. induction l; intros s Hl Hs.
  - split; [reflexivity|]. intros Hm. exists (f 1%nat s). apply H; [lia|assumption].
  - assert (E : locally s (fun t => f l t = Derive_n (f 0%nat) l t)).
    { eapply filter_imp; [|apply interval_locally'; exact Hs].
      intros t Ht. symmetry. apply IHl; [lia|assumption]. }
    assert (D : is_derive (Derive_n (f 0%nat) l) s (f (S l) s)).
    { apply is_derive_ext_loc with (f l); [exact E|]. apply H; [lia|assumption]. }
    split.
    + cbn [Derive_n]. apply is_derive_unique. exact D.
    + intros Hm. cbn [Derive_n].
      assert (D2 : is_derive (f (S l)) s (f (S (S l)) s)) by (apply H; [lia|assumption]).
      exists (f (S (S l)) s). apply is_derive_ext_loc with (f (S l)); [|exact D2].
      eapply filter_imp; [|apply interval_locally'; exact Hs].
      intros t Ht. symmetry. apply is_derive_unique.
      apply is_derive_ext_loc with (f l); [|apply H; [lia|assumption]].
      eapply filter_imp; [|apply interval_locally'; exact Ht].
      intros u Hu. symmetry. apply IHl; [lia|assumption].
Qed.

Lemma derive_chain_eq : forall (g : R -> R) (f : nat -> R -> R) m lo hi,
  (forall s, lo < s < hi -> g s = f 0%nat s) ->
  (forall l s, (l < m)%nat -> lo < s < hi -> is_derive (f l) s (f (S l) s)) ->
  forall l s, (l <= m)%nat -> lo < s < hi -> Derive_n g l s = f l s.
Proof.
  intros g f m lo hi Hg H l s Hl Hs.
  rewrite <- (proj1 (derive_chain f m lo hi H l s Hl Hs)).
  apply Derive_n_ext_loc. eapply filter_imp; [|apply interval_locally'; exact Hs]. exact Hg.
Qed.

(** ** Two-dimensional chain rule *)

Lemma chain2 : forall (f : R -> R -> R) (X Y : R -> R) s lx ly x' y',
  differentiable_pt_lim f (X s) (Y s) lx ly -> is_derive X s x' -> is_derive Y s y' ->
  is_derive (fun t => f (X t) (Y t)) s (x' * lx + y' * ly).
Proof.
  intros f X Y s lx ly x' y' Hf HX HY.
  apply is_derive_Reals. replace (x' * lx + y' * ly) with (lx * x' + ly * y') by ring.
  apply derivable_pt_lim_comp_2d; [exact Hf|apply is_derive_Reals; exact HX|apply is_derive_Reals; exact HY].
Qed.

Definition partialsR (O : R -> R -> Prop) (m : nat) (D : nat -> nat -> R -> R -> R) : Prop :=
  forall i j x y, (i + j < m)%nat -> O x y ->
    differentiable_pt_lim (D i j) x y (D (S i) j x y) (D i (S j) x y).

Lemma dir_derive : forall O m D, partialsR O m D -> forall i j x y nx ny t, (i + j < m)%nat ->
  O (x + t * nx) (y + t * ny) ->
  is_derive (fun t => D i j (x + t * nx) (y + t * ny)) t
    (nx * D (S i) j (x + t * nx) (y + t * ny) + ny * D i (S j) (x + t * nx) (y + t * ny)).
Proof.
  intros O m D H i j x y nx ny t Hm HO.
  apply (chain2 (D i j) (fun t => x + t * nx) (fun t => y + t * ny)).
  - apply H; assumption.
  - auto_derive; [exact I|ring].
  - auto_derive; [exact I|ring].
Qed.

(** Iterated directional derivative. *)
Fixpoint dirn (D : nat -> nat -> R -> R -> R) (nx ny : R) (l i j : nat) (x y : R) : R :=
  match l with
  | O => D i j x y
  | S l' => nx * dirn D nx ny l' (S i) j x y + ny * dirn D nx ny l' i (S j) x y
  end.

Lemma dirn_derive : forall O m D, partialsR O m D -> forall l i j x y nx ny t, (l + i + j < m)%nat ->
  O (x + t * nx) (y + t * ny) ->
  is_derive (fun t => dirn D nx ny l i j (x + t * nx) (y + t * ny)) t
    (dirn D nx ny (S l) i j (x + t * nx) (y + t * ny)).
Proof.
  intros O m D H. induction l; intros i j x y nx ny t Hm HO.
  - cbn [dirn]. apply (dir_derive O m D H); [lia|exact HO].
  - change (is_derive (fun t => nx * dirn D nx ny l (S i) j (x + t * nx) (y + t * ny)
        + ny * dirn D nx ny l i (S j) (x + t * nx) (y + t * ny)) t
      (nx * dirn D nx ny (S l) (S i) j (x + t * nx) (y + t * ny)
       + ny * dirn D nx ny (S l) i (S j) (x + t * nx) (y + t * ny))).
    apply (is_derive_plus (V := R_NormedModule));
    apply is_derive_scal; apply IHl; try assumption; lia.
Qed.

(** ** The moving frame *)

Definition helmholtzR (O : R -> R -> Prop) (k : R) (D F : nat -> nat -> R -> R -> R) : Prop :=
  forall x y, O x y -> D 2%nat 0%nat x y + D 0%nat 2%nat x y + k ^ 2 * D 0%nat 0%nat x y = F 0%nat 0%nat x y.

Lemma pde_shift : forall O k D F i j, open2 O -> partialsR O 4 D -> partialsR O 2 F -> (i + j < 2)%nat ->
  (forall x y, O x y -> D (2 + i)%nat j x y + D i (2 + j)%nat x y + k ^ 2 * D i j x y = F i j x y) ->
  (forall x y, O x y -> D (3 + i)%nat j x y + D (S i) (2 + j)%nat x y + k ^ 2 * D (S i) j x y = F (S i) j x y) /\
  (forall x y, O x y -> D (2 + i)%nat (S j) x y + D i (3 + j)%nat x y + k ^ 2 * D i (S j) x y = F i (S j) x y).
Proof.
  intros O k D F i j HO HD HF Hij H.
  assert (Hx : forall f x y lx ly, differentiable_pt_lim f x y lx ly -> is_derive (fun t => f t y) x lx).
  { intros f x y lx ly Hf. replace lx with (1 * lx + 0 * ly) by ring.
    apply (chain2 f (fun t => t) (fun _ => y)); [exact Hf| |]; auto_derive; auto. }
  assert (Hy : forall f x y lx ly, differentiable_pt_lim f x y lx ly -> is_derive (fun t => f x t) y ly).
  { intros f x y lx ly Hf. replace ly with (0 * lx + 1 * ly) by ring.
    apply (chain2 f (fun _ => x) (fun t => t)); [exact Hf| |]; auto_derive; auto. }
  split; intros x y Hxy.
  - pose proof (Hx _ _ _ _ _ (HF i j x y Hij Hxy)) as DF.
    assert (D1 := Hx _ _ _ _ _ (HD (2 + i)%nat j x y ltac:(lia) Hxy)).
    assert (D2 := Hx _ _ _ _ _ (HD i (2 + j)%nat x y ltac:(lia) Hxy)).
    assert (D3 := Hx _ _ _ _ _ (HD i j x y ltac:(lia) Hxy)).
    transitivity (Derive (fun t => F i j t y) x); [|apply is_derive_unique; exact DF].
    symmetry. apply is_derive_unique.
    apply is_derive_ext_loc with (fun t => D (2 + i)%nat j t y + D i (2 + j)%nat t y + k ^ 2 * D i j t y).
    { destruct (HO x y Hxy) as [d Hd]. exists d. intros t Ht. apply H. apply Hd; [exact Ht|].
      rewrite Rminus_eq_0, Rabs_R0. apply cond_pos. }
    apply (is_derive_plus (V := R_NormedModule)).
    + apply (is_derive_plus (V := R_NormedModule)); [exact D1|exact D2].
    + apply is_derive_scal. exact D3.
  - pose proof (Hy _ _ _ _ _ (HF i j x y Hij Hxy)) as DF.
    assert (D1 := Hy _ _ _ _ _ (HD (2 + i)%nat j x y ltac:(lia) Hxy)).
    assert (D2 := Hy _ _ _ _ _ (HD i (2 + j)%nat x y ltac:(lia) Hxy)).
    assert (D3 := Hy _ _ _ _ _ (HD i j x y ltac:(lia) Hxy)).
    transitivity (Derive (fun t => F i j x t) y); [|apply is_derive_unique; exact DF].
    symmetry. apply is_derive_unique.
    apply is_derive_ext_loc with (fun t => D (2 + i)%nat j x t + D i (2 + j)%nat x t + k ^ 2 * D i j x t).
    { destruct (HO x y Hxy) as [d Hd]. exists d. intros t Ht. apply H. apply Hd; [|exact Ht].
      rewrite Rminus_eq_0, Rabs_R0. apply cond_pos. }
    apply (is_derive_plus (V := R_NormedModule)).
    + apply (is_derive_plus (V := R_NormedModule)); [exact D1|exact D2].
    + apply is_derive_scal. exact D3.
Qed.

(** Real version of the model's lists of normal derivatives. *)
Definition derivsR (k c c1 c2 : R) (xi0 xi1 d0 d1 dd0 dd1 d40 : R) (l : nat) : R :=
  let a2 := - k ^ 2 * xi0 + c * xi1 - dd0 in
  let a3 := (c ^ 2 - k ^ 2) * xi1 + c * a2 - c1 * d0 - 2 * c * dd0 - dd1 in
  let v22 := c2 * xi1 - k ^ 2 * dd0 - d40 + 2 * c1 * d1 + c * dd1 in
  let a4 := 2 * c ^ 3 * xi1 + (2 * c ^ 2 - k ^ 2) * a2 + c * a3 - 6 * c * c1 * d0
            - 6 * c ^ 2 * dd0 - 2 * c1 * d1 - 4 * c * dd1 - v22 in
  match l with 0%nat => xi0 | 1%nat => xi1 | 2%nat => a2 | 3%nat => a3 | _ => a4 end.

Definition inhomoR (k c : R) (f fn fnn fss : R) (l : nat) : R :=
  let a2 := f in
  let a3 := fn + c * a2 in
  let a4 := fnn + (2 * c ^ 2 - k ^ 2) * a2 + c * a3 - fss in
  match l with 0%nat => 0 | 1%nat => 0 | 2%nat => a2 | 3%nat => a3 | _ => a4 end.

Lemma is_derive_eq : forall (f : R -> R) (s l l' : R), is_derive f s l -> l = l' -> is_derive f s l'.
Proof. intros f s l l' H <-. exact H. Qed.

Lemma prod_rule : forall (f g : R -> R) (s f' g' : R), is_derive f s f' -> is_derive g s g' ->
  is_derive (fun u => f u * g u) s (f' * g s + f s * g').
Proof.
  intros f g s f' g' Hf Hg. auto_derive.
  - split; [eexists; exact Hf|split; [eexists; exact Hg|exact I]].
  - rewrite (is_derive_unique (fun x : R => f x) _ _ Hf), (is_derive_unique (fun x : R => g x) _ _ Hg). ring.
Qed.

(** Product rules for the chains below. *)
Lemma chain_2 : forall (e f k : R -> R) (s e' f' k' : R), is_derive e s e' -> is_derive f s f' -> is_derive k s k' ->
  is_derive (fun u => e u + k u * f u) s (e' + (k' * f s + k s * f')).
Proof.
  intros e f k s e' f' k' He Hf Hk. auto_derive.
  - repeat match goal with |- _ /\ _ => split end; try exact I; eexists; eassumption.
  - rewrite (is_derive_unique (fun x : R => e x) _ _ He), (is_derive_unique (fun x : R => f x) _ _ Hf), (is_derive_unique (fun x : R => k x) _ _ Hk). ring.
Qed.

Lemma chain_1 : forall (e f k : R -> R) (s e' f' k' : R), is_derive e s e' -> is_derive f s f' -> is_derive k s k' ->
  is_derive (fun u => e u - k u * f u) s (e' - (k' * f s + k s * f')).
Proof.
  intros e f k s e' f' k' He Hf Hk. auto_derive.
  - repeat match goal with |- _ /\ _ => split end; try exact I; eexists; eassumption.
  - rewrite (is_derive_unique (fun x : R => e x) _ _ He), (is_derive_unique (fun x : R => f x) _ _ Hf), (is_derive_unique (fun x : R => k x) _ _ Hk). ring.
Qed.

Lemma chain_3 : forall (e f g h k l : R -> R) (s e' f' g' h' k' l' : R),
  is_derive e s e' -> is_derive f s f' -> is_derive g s g' -> is_derive h s h' ->
  is_derive k s k' -> is_derive l s l' ->
  is_derive (fun u => e u + 3 * k u * f u + l u * g u - k u ^ 2 * h u) s
    (e' + 3 * (k' * f s + k s * f') + (l' * g s + l s * g') - (2 * k s * k' * h s + k s ^ 2 * h')).
Proof.
  intros e f g h k l s e' f' g' h' k' l' He Hf Hg Hh Hk Hl. auto_derive.
  - repeat match goal with |- _ /\ _ => split end; try exact I; eexists; eassumption.
  - rewrite (is_derive_unique (fun x : R => e x) _ _ He), (is_derive_unique (fun x : R => f x) _ _ Hf), (is_derive_unique (fun x : R => g x) _ _ Hg),
      (is_derive_unique (fun x : R => h x) _ _ Hh), (is_derive_unique (fun x : R => k x) _ _ Hk), (is_derive_unique (fun x : R => l x) _ _ Hl). ring.
Qed.

Section Frame.
Context (O : R -> R -> Prop) (HO : open2 O) (lo hi : R) (X Y tx ty kap : R -> R)
  (HC : unit_curve lo hi X Y tx ty kap) (Hin : forall s, lo < s < hi -> O (X s) (Y s))
  (D : nat -> nat -> R -> R -> R) (HD : partialsR O 4 D).

Definition Gt (i j : nat) (s : R) : R := D i j (X s) (Y s).

Lemma Gt_derive : forall i j s, (i + j < 4)%nat -> lo < s < hi ->
  is_derive (Gt i j) s (tx s * Gt (S i) j s + ty s * Gt i (S j) s).
Proof.
  intros i j s Hij Hs. destruct (HC s Hs) as (HX & HY & _).
  apply (chain2 (D i j) X Y); [|exact HX|exact HY]. apply HD; [exact Hij|apply Hin; exact Hs].
Qed.

(** Frame derivatives: [i] times in the normal, [j] times in the tangent. *)
Definition E00 s := Gt 0 0 s.
Definition E10 s := ty s * Gt 1 0 s - tx s * Gt 0 1 s.
Definition E01 s := tx s * Gt 1 0 s + ty s * Gt 0 1 s.
Definition E20 s := ty s ^ 2 * Gt 2 0 s - 2 * tx s * ty s * Gt 1 1 s + tx s ^ 2 * Gt 0 2 s.
Definition E11 s := tx s * ty s * Gt 2 0 s + (ty s ^ 2 - tx s ^ 2) * Gt 1 1 s - tx s * ty s * Gt 0 2 s.
Definition E02 s := tx s ^ 2 * Gt 2 0 s + 2 * tx s * ty s * Gt 1 1 s + ty s ^ 2 * Gt 0 2 s.
Definition E30 s := ty s ^ 3 * Gt 3 0 s - 3 * ty s ^ 2 * tx s * Gt 2 1 s + 3 * ty s * tx s ^ 2 * Gt 1 2 s
  - tx s ^ 3 * Gt 0 3 s.
Definition E12 s := tx s ^ 2 * ty s * Gt 3 0 s + (2 * tx s * ty s ^ 2 - tx s ^ 3) * Gt 2 1 s
  + (ty s ^ 3 - 2 * tx s ^ 2 * ty s) * Gt 1 2 s - tx s * ty s ^ 2 * Gt 0 3 s.
Definition E03 s := tx s ^ 3 * Gt 3 0 s + 3 * tx s ^ 2 * ty s * Gt 2 1 s + 3 * tx s * ty s ^ 2 * Gt 1 2 s
  + ty s ^ 3 * Gt 0 3 s.
Definition E40 s := ty s ^ 4 * Gt 4 0 s - 4 * ty s ^ 3 * tx s * Gt 3 1 s + 6 * ty s ^ 2 * tx s ^ 2 * Gt 2 2 s
  - 4 * ty s * tx s ^ 3 * Gt 1 3 s + tx s ^ 4 * Gt 0 4 s.
Definition E22 s := tx s ^ 2 * ty s ^ 2 * Gt 4 0 s + (2 * tx s * ty s ^ 3 - 2 * tx s ^ 3 * ty s) * Gt 3 1 s
  + (ty s ^ 4 - 4 * tx s ^ 2 * ty s ^ 2 + tx s ^ 4) * Gt 2 2 s
  + (2 * tx s ^ 3 * ty s - 2 * tx s * ty s ^ 3) * Gt 1 3 s + tx s ^ 2 * ty s ^ 2 * Gt 0 4 s.
Definition E04 s := tx s ^ 4 * Gt 4 0 s + 4 * tx s ^ 3 * ty s * Gt 3 1 s + 6 * tx s ^ 2 * ty s ^ 2 * Gt 2 2 s
  + 4 * tx s * ty s ^ 3 * Gt 1 3 s + ty s ^ 4 * Gt 0 4 s.

Lemma frame_ex : forall s, lo < s < hi -> ex_derive tx s /\ ex_derive ty s.
Proof.
  intros s Hs. destruct (HC s Hs) as (_ & _ & _ & H1 & H2 & _).
  split; eexists; eassumption.
Qed.

Lemma tx_D : forall s, lo < s < hi -> Derive (fun x => tx x) s = kap s * ty s.
Proof. intros s Hs. apply is_derive_unique. apply (HC s Hs). Qed.
Lemma ty_D : forall s, lo < s < hi -> Derive (fun x => ty x) s = - (kap s * tx s).
Proof. intros s Hs. apply is_derive_unique. apply (HC s Hs). Qed.
Lemma Gt_D : forall i j s, (i + j < 4)%nat -> lo < s < hi ->
  Derive (fun x => Gt i j x) s = tx s * Gt (S i) j s + ty s * Gt i (S j) s.
Proof. intros i j s Hij Hs. apply is_derive_unique. apply Gt_derive; assumption. Qed.
Lemma Gt_ex : forall i j s, (i + j < 4)%nat -> lo < s < hi -> ex_derive (Gt i j) s.
Proof. intros i j s Hij Hs. eexists. apply Gt_derive; assumption. Qed.

Ltac frame_derive Hs :=
  auto_derive;
  [ repeat match goal with |- _ /\ _ => split end;
    try exact I; try (apply (frame_ex _ Hs)); try (apply Gt_ex; [simpl; lia|exact Hs])
  | rewrite ?(tx_D _ Hs), ?(ty_D _ Hs); repeat rewrite Gt_D by (try exact Hs; simpl; lia) ].

Lemma E00_derive : forall s, lo < s < hi -> is_derive E00 s (E01 s).
Proof. intros s Hs. unfold E00. frame_derive Hs. unfold E01. ring. Qed.
Lemma E01_derive : forall s, lo < s < hi -> is_derive E01 s (E02 s + kap s * E10 s).
Proof. intros s Hs. unfold E01. frame_derive Hs. unfold E02, E10. ring. Qed.
Lemma E10_derive : forall s, lo < s < hi -> is_derive E10 s (E11 s - kap s * E01 s).
Proof. intros s Hs. unfold E10. frame_derive Hs. unfold E11, E01. ring. Qed.
Lemma E02_derive : forall s, lo < s < hi -> is_derive E02 s (E03 s + 2 * kap s * E11 s).
Proof. intros s Hs. unfold E02. frame_derive Hs. unfold E03, E11. ring. Qed.
Lemma E11_derive : forall s, lo < s < hi -> is_derive E11 s (E12 s - kap s * E02 s + kap s * E20 s).
Proof. intros s Hs. unfold E11. frame_derive Hs. unfold E12, E02, E20. ring. Qed.
Lemma E03_derive : forall s, lo < s < hi -> is_derive E03 s (E04 s + 3 * kap s * E12 s).
Proof. intros s Hs. unfold E03. frame_derive Hs. unfold E04, E12. ring. Qed.

Definition kap1 := Derive kap.
Definition kap2 := Derive (Derive kap).

(** The arclength derivatives of the traces. *)
Definition xi0_chain (l : nat) (s : R) : R :=
  match l with
  | 0%nat => E00 s
  | 1%nat => E01 s
  | 2%nat => E02 s + kap s * E10 s
  | 3%nat => E03 s + 3 * kap s * E11 s + kap1 s * E10 s - kap s ^ 2 * E01 s
  | _ => E04 s + 6 * kap s * E12 s + 4 * kap1 s * E11 s + kap2 s * E10 s
         - 3 * kap s * kap1 s * E01 s - 4 * kap s ^ 2 * E02 s + 3 * kap s ^ 2 * E20 s
         - kap s ^ 3 * E10 s
  end.
Definition xi1_chain (l : nat) (s : R) : R :=
  match l with
  | 0%nat => E10 s
  | 1%nat => E11 s - kap s * E01 s
  | _ => E12 s - 2 * kap s * E02 s + kap s * E20 s - kap1 s * E01 s - kap s ^ 2 * E10 s
  end.

Lemma kap_derive : forall s, lo < s < hi -> is_derive kap s (kap1 s) /\ is_derive kap1 s (kap2 s).
Proof.
  intros s Hs. destruct (HC s Hs) as (_ & _ & _ & _ & _ & H1 & H2).
  split; apply Derive_correct; assumption.
Qed.

Lemma xi0_chain_derive : forall l s, (l < 4)%nat -> lo < s < hi ->
  is_derive (xi0_chain l) s (xi0_chain (S l) s).
Proof.
  intros l s Hl Hs. destruct (kap_derive s Hs) as [K1 K2].
  destruct l as [|[|[|[|l]]]]; [| | | |lia].
  - apply E00_derive; exact Hs.
  - apply E01_derive; exact Hs.
  - refine (is_derive_eq _ s _ _ (chain_2 E02 E10 kap s _ _ _ (E02_derive s Hs) (E10_derive s Hs) K1) _).
    unfold xi0_chain. ring.
  - refine (is_derive_eq _ s _ _ (chain_3 E03 E11 E10 E01 kap kap1 s _ _ _ _ _ _ (E03_derive s Hs)
      (E11_derive s Hs) (E10_derive s Hs) (E01_derive s Hs) K1 K2) _).
    unfold xi0_chain. ring.
Qed.

Lemma xi1_chain_derive : forall l s, (l < 2)%nat -> lo < s < hi ->
  is_derive (xi1_chain l) s (xi1_chain (S l) s).
Proof.
  intros l s Hl Hs. destruct (kap_derive s Hs) as [K1 K2]. destruct l as [|[|l]]; [| |lia].
  - apply E10_derive; exact Hs.
  - refine (is_derive_eq _ s _ _ (chain_1 E11 E01 kap s _ _ _ (E11_derive s Hs) (E01_derive s Hs) K1) _).
    unfold xi1_chain. ring.
Qed.

End Frame.

Arguments E00 X Y D s /. 

(** ** Main identity, real form *)
Section Main.
Context (O : R -> R -> Prop) (HO : open2 O) (lo hi : R) (X Y tx ty kap : R -> R)
  (HC : unit_curve lo hi X Y tx ty kap) (Hin : forall s, lo < s < hi -> O (X s) (Y s))
  (D F : nat -> nat -> R -> R -> R) (HD : partialsR O 4 D) (HF : partialsR O 2 F)
  (k : R) (PDE : helmholtzR O k D F).

Lemma pde_all : forall x y, O x y ->
  D 2%nat 0%nat x y + D 0%nat 2%nat x y + k ^ 2 * D 0%nat 0%nat x y = F 0%nat 0%nat x y /\
  D 3%nat 0%nat x y + D 1%nat 2%nat x y + k ^ 2 * D 1%nat 0%nat x y = F 1%nat 0%nat x y /\
  D 2%nat 1%nat x y + D 0%nat 3%nat x y + k ^ 2 * D 0%nat 1%nat x y = F 0%nat 1%nat x y /\
  D 4%nat 0%nat x y + D 2%nat 2%nat x y + k ^ 2 * D 2%nat 0%nat x y = F 2%nat 0%nat x y /\
  D 3%nat 1%nat x y + D 1%nat 3%nat x y + k ^ 2 * D 1%nat 1%nat x y = F 1%nat 1%nat x y /\
  D 2%nat 2%nat x y + D 0%nat 4%nat x y + k ^ 2 * D 0%nat 2%nat x y = F 0%nat 2%nat x y.
Proof.
  intros x y Hxy.
  destruct (pde_shift O k D F 0 0 HO HD HF ltac:(lia) PDE) as [P10 P01].
  destruct (pde_shift O k D F 1 0 HO HD HF ltac:(lia) P10) as [P20 P11].
  destruct (pde_shift O k D F 0 1 HO HD HF ltac:(lia) P01) as [_ P02].
  split; [apply PDE; exact Hxy|]. split; [apply P10; exact Hxy|]. split; [apply P01; exact Hxy|].
  split; [apply P20; exact Hxy|]. split; [apply P11; exact Hxy|apply P02; exact Hxy].
Qed.

Lemma frame_pde : forall s, lo < s < hi ->
  E20 X Y tx ty D s + E02 X Y tx ty D s + k ^ 2 * E00 X Y D s = E00 X Y F s /\
  E30 X Y tx ty D s + E12 X Y tx ty D s + k ^ 2 * E10 X Y tx ty D s = E10 X Y tx ty F s /\
  E40 X Y tx ty D s + E22 X Y tx ty D s + k ^ 2 * E20 X Y tx ty D s = E20 X Y tx ty F s /\
  E22 X Y tx ty D s + E04 X Y tx ty D s + k ^ 2 * E02 X Y tx ty D s = E02 X Y tx ty F s.
Proof.
  intros s Hs. destruct (pde_all _ _ (Hin s Hs)) as (P0 & P10 & P01 & P20 & P11 & P02).
  destruct (HC s Hs) as (_ & _ & U & _).
  unfold E00, E10, E20, E02, E30, E12, E40, E22, E04, Gt.
  rewrite <- P0, <- P10, <- P01, <- P20, <- P11, <- P02.
  set (d00 := D 0%nat 0%nat (X s) (Y s)). 
  assert (U1 : ty s ^ 2 = 1 - tx s ^ 2) by lra.
  assert (U3 : ty s ^ 3 = ty s * (1 - tx s ^ 2)) by (rewrite <- U1; ring).
  assert (U4 : ty s ^ 4 = (1 - tx s ^ 2) ^ 2) by (rewrite <- U1; ring).
  rewrite U4, U3, U1. repeat split; ring.
Qed.

Lemma main_identity : forall s l, lo < s < hi -> (l <= 4)%nat ->
  derivsR k (kap s) (Derive kap s) (Derive (Derive kap) s)
    (xi0_chain X Y tx ty kap D 0 s) (xi1_chain X Y tx ty kap D 0 s)
    (xi0_chain X Y tx ty kap D 1 s) (xi1_chain X Y tx ty kap D 1 s)
    (xi0_chain X Y tx ty kap D 2 s) (xi1_chain X Y tx ty kap D 2 s)
    (xi0_chain X Y tx ty kap D 4 s) l
  + inhomoR k (kap s) (E00 X Y F s) (E10 X Y tx ty F s) (E20 X Y tx ty F s)
      (E02 X Y tx ty F s + kap s * E10 X Y tx ty F s) l
  = match l with
    | 0%nat => E00 X Y D s | 1%nat => E10 X Y tx ty D s | 2%nat => E20 X Y tx ty D s
    | 3%nat => E30 X Y tx ty D s | _ => E40 X Y tx ty D s
    end.
Proof.
  intros s l Hs Hl. destruct (frame_pde s Hs) as (P0 & P1 & P2 & P3).
  unfold derivsR, inhomoR, xi0_chain, xi1_chain, kap1, kap2.
  rewrite <- P0, <- P1, <- P2, <- P3.
  destruct l as [|[|[|[|[|l]]]]]; [| | | | |lia]; ring.
Qed.

End Main.

(** ** Components of the model's functions *)

Lemma fst_Cplus : forall a b, fst (Cplus a b) = fst a + fst b.
Proof. reflexivity. Qed.
Lemma snd_Cplus : forall a b, snd (Cplus a b) = snd a + snd b.
Proof. reflexivity. Qed.
Lemma fst_Cmult_R : forall z r, fst (Cmult z (RtoC r)) = fst z * r.
Proof. intros [x y] r. simpl. ring. Qed.
Lemma snd_Cmult_R : forall z r, snd (Cmult z (RtoC r)) = snd z * r.
Proof. intros [x y] r. simpl. ring. Qed.
Lemma fst_R_Cmult : forall z r, fst (Cmult (RtoC r) z) = r * fst z.
Proof. intros [x y] r. simpl. ring. Qed.
Lemma snd_R_Cmult : forall z r, snd (Cmult (RtoC r) z) = r * snd z.
Proof. intros [x y] r. simpl. ring. Qed.
Lemma fact_nz : forall l, INR (fact l) <> 0.
Proof. intros l. apply INR_fact_neq_0. Qed.
Lemma Cdiv_R : forall z r, r <> 0 -> Cdiv z (RtoC r) = Cmult z (RtoC (/ r)).
Proof. intros z r Hr. unfold Cdiv. rewrite RtoC_inv by exact Hr. reflexivity. Qed.

Fixpoint taylorR (ds : list R) (l : nat) (n : R) : R :=
  match ds with
  | [] => 0
  | d :: ds' => d * (n ^ l / INR (fact l)) + taylorR ds' (S l) n
  end.

Lemma taylor_loop_comp : forall ds l n,
  fst (taylor_loop ds l n) = taylorR (map fst ds) l n /\
  snd (taylor_loop ds l n) = taylorR (map snd ds) l n.
Proof.
  induction ds as [|d ds IH]; intros l n; [split; reflexivity|].
  cbn [taylor_loop map taylorR]. destruct (IH (S l) n) as [H1 H2].
  rewrite Cdiv_R by apply fact_nz.
  split.
  - rewrite <- H1. change (fst (Cplus ?a ?b)) with (fst a + fst b). rewrite !fst_Cmult_R. unfold Rdiv. ring.
  - rewrite <- H2. change (snd (Cplus ?a ?b)) with (snd a + snd b). rewrite !snd_Cmult_R. unfold Rdiv. ring.
Qed.

Definition ed_comp (pr : C -> R) (e : ext_data) (f : R -> R -> R -> R -> R -> R -> R -> R) : R :=
  f (pr (ed_xi0 e)) (pr (ed_xi1 e)) (pr (ed_d_xi0 e)) (pr (ed_d_xi1 e))
    (pr (ed_d2_xi0 e)) (pr (ed_d2_xi1 e)) (pr (ed_d4_xi0 e)).

Lemma arbitrary_derivs_comp : forall k c c1 c2 e pr, pr = (fst : C -> R) \/ pr = (snd : C -> R) ->
  map pr (arbitrary_derivs k c c1 c2 e) =
  map (fun l => ed_comp pr e (fun a b c' d x y z => derivsR k c c1 c2 a b c' d x y z l)) [0; 1; 2; 3; 4]%nat.
Proof.
  intros k c c1 c2 [x0 x1 d0 d1 dd0 dd1 d4] pr Hpr.
  destruct x0, x1, d0, d1, dd0, dd1, d4.
  destruct Hpr; subst pr; unfold arbitrary_derivs, ed_comp, derivsR; cbn [map ed_xi0 ed_xi1 ed_d_xi0 ed_d_xi1 ed_d2_xi0 ed_d2_xi1 ed_d4_xi0];
    unfold Cminus, Copp, Cplus, Cmult, RtoC; cbn [fst snd]; repeat (apply (f_equal2 (@cons R)); [cbn [fst snd]; ring|]); reflexivity.
Qed.

Lemma inhomo_derivs_comp : forall k c f fn fnn fss pr, pr = (fst : C -> R) \/ pr = (snd : C -> R) ->
  map pr (inhomo_derivs k c f fn fnn fss) =
  map (inhomoR k c (pr f) (pr fn) (pr fnn) (pr fss)) [0; 1; 2; 3; 4]%nat.
Proof.
  intros k c f fn fnn fss pr Hpr. destruct f, fn, fnn, fss.
  destruct Hpr; subst pr; unfold inhomo_derivs, inhomoR; cbn [map];
    unfold Cminus, Copp, Cplus, Cmult, RtoC; cbn [fst snd]; repeat (apply (f_equal2 (@cons R)); [cbn [fst snd]; ring|]); reflexivity.
Qed.

Lemma taylor_poly_comp : forall f n,
  fst (taylor_poly f 4 n) = taylorR (map (fun l => Derive_n (fun t => fst (f t)) l 0) [0; 1; 2; 3; 4]%nat) 0 n /\
  snd (taylor_poly f 4 n) = taylorR (map (fun l => Derive_n (fun t => snd (f t)) l 0) [0; 1; 2; 3; 4]%nat) 0 n.
Proof.
  intros f n. cbn [taylor_poly map taylorR].
  split.
  - rewrite !fst_Cplus, !fst_Cmult_R.
    unfold CDerive_n. cbn [fst]. change (Derive_n (fun t : R => fst (f t)) 0 0) with (fst (f 0)).
    replace (n ^ 0 / INR (fact 0)) with 1 by (simpl; field). ring.
  - rewrite !snd_Cplus, !snd_Cmult_R.
    unfold CDerive_n. cbn [snd]. change (Derive_n (fun t : R => snd (f t)) 0 0) with (snd (f 0)).
    replace (n ^ 0 / INR (fact 0)) with 1 by (simpl; field). ring.
Qed.

Lemma taylorR_plus : forall (f g : nat -> R) ls l n,
  taylorR (map f ls) l n + taylorR (map g ls) l n = taylorR (map (fun i => f i + g i) ls) l n.
Proof. induction ls; intros l n; cbn [map taylorR]; [ring|]. rewrite <- IHls. ring. Qed.

(** ** Derivatives along the normal *)

Lemma line_open : forall O x y nx ny, open2 O -> O x y ->
  exists d : posreal, forall t, - d < t < d -> O (x + t * nx) (y + t * ny).
Proof.
  intros O x y nx ny HO Hxy. destruct (HO x y Hxy) as [d Hd].
  set (m := 1 + Rabs nx + Rabs ny).
  assert (Hm : 0 < m) by (unfold m; pose proof (Rabs_pos nx); pose proof (Rabs_pos ny); lra).
  assert (Hp : 0 < d / m) by (apply Rdiv_lt_0_compat; [apply cond_pos|exact Hm]).
  exists (mkposreal _ Hp). cbn [pos]. intros t Ht.
  assert (A : Rabs t < d / m) by (apply Rabs_def1; lra).
  assert (B : forall z, Rabs z <= m -> Rabs (t * z) < d).
  { intros z Hz. rewrite Rabs_mult. apply Rle_lt_trans with (Rabs t * m).
    - apply Rmult_le_compat_l; [apply Rabs_pos|exact Hz].
    - apply Rlt_le_trans with (d / m * m); [apply Rmult_lt_compat_r; assumption|].
      right. field. lra. }
  apply Hd.
  - replace (x + t * nx - x) with (t * nx) by ring. apply B. unfold m. pose proof (Rabs_pos ny). lra.
  - replace (y + t * ny - y) with (t * ny) by ring. apply B. unfold m. pose proof (Rabs_pos nx). lra.
Qed.

Lemma normal_derivs : forall O m D x y nx ny l, open2 O -> partialsR O m D -> O x y -> (l <= m)%nat ->
  Derive_n (fun t => D 0%nat 0%nat (x + t * nx) (y + t * ny)) l 0 = dirn D nx ny l 0 0 x y.
Proof.
  intros O m D x y nx ny l HO HD Hxy Hl.
  destruct (line_open O x y nx ny HO Hxy) as [d Hd].
  transitivity (dirn D nx ny l 0 0 (x + 0 * nx) (y + 0 * ny)).
  - apply (derive_chain_eq _ (fun l t => dirn D nx ny l 0 0 (x + t * nx) (y + t * ny)) m (- d) d).
    + intros s _. reflexivity.
    + intros l' s Hl' Hs. apply (dirn_derive O m D HD); [lia|]. apply Hd. exact Hs.
    + exact Hl.
    + pose proof (cond_pos d). lra.
  - f_equal; ring.
Qed.

Lemma dirn_E : forall X Y tx ty D s l, (l <= 4)%nat ->
  dirn D (ty s) (- tx s) l 0 0 (X s) (Y s) =
  match l with
  | 0%nat => E00 X Y D s | 1%nat => E10 X Y tx ty D s | 2%nat => E20 X Y tx ty D s
  | 3%nat => E30 X Y tx ty D s | _ => E40 X Y tx ty D s
  end.
Proof.
  intros X Y tx ty D s l Hl.
  destruct l as [|[|[|[|[|l]]]]]; [| | | | |lia]; unfold E00, E10, E20, E30, E40, Gt; cbn [dirn]; ring.
Qed.

(** One component of the general statement. *)
Lemma component_taylor : forall O lo hi X Y tx ty kap D F k s n,
  open2 O -> unit_curve lo hi X Y tx ty kap -> (forall s, lo < s < hi -> O (X s) (Y s)) ->
  partialsR O 4 D -> partialsR O 2 F -> helmholtzR O k D F -> lo < s < hi ->
  let t0 := fun s => D 0%nat 0%nat (X s) (Y s) in
  let t1 := fun s => ty s * D 1%nat 0%nat (X s) (Y s) + - tx s * D 0%nat 1%nat (X s) (Y s) in
  let g0 := fun s => F 0%nat 0%nat (X s) (Y s) in
  taylorR (map (derivsR k (kap s) (Derive kap s) (Derive_n kap 2 s)
      (t0 s) (t1 s) (Derive_n t0 1 s) (Derive_n t1 1 s) (Derive_n t0 2 s) (Derive_n t1 2 s) (Derive_n t0 4 s))
     [0; 1; 2; 3; 4]%nat) 0 n
  + taylorR (map (inhomoR k (kap s) (g0 s)
       (ty s * F 1%nat 0%nat (X s) (Y s) + - tx s * F 0%nat 1%nat (X s) (Y s))
       (Derive_n (fun t => F 0%nat 0%nat (X s + t * ty s) (Y s + t * - tx s)) 2 0)
       (Derive_n g0 2 s)) [0; 1; 2; 3; 4]%nat) 0 n
  = taylorR (map (fun l => Derive_n (fun t => D 0%nat 0%nat (X s + t * ty s) (Y s + t * - tx s)) l 0)
       [0; 1; 2; 3; 4]%nat) 0 n.
Proof.
  intros O lo hi X Y tx ty kap D F k s n HO HC Hin HD HF PDE Hs t0 t1 g0.
  rewrite taylorR_plus. f_equal.
  assert (T0 : forall l, (l <= 4)%nat -> Derive_n t0 l s = xi0_chain X Y tx ty kap D l s).
  { intros l Hl. apply (derive_chain_eq _ _ 4 lo hi); try assumption.
    - intros u _. reflexivity.
    - intros l' u Hl' Hu. apply (xi0_chain_derive O lo hi); assumption. }
  assert (T1 : forall l, (l <= 2)%nat -> Derive_n t1 l s = xi1_chain X Y tx ty kap D l s).
  { intros l Hl. apply (derive_chain_eq _ _ 2 lo hi); try assumption.
    - intros u _. unfold t1, xi1_chain, E10, Gt. ring.
    - intros l' u Hl' Hu. apply (xi1_chain_derive O lo hi); assumption. }
  assert (E1 : Derive_n g0 2 s = E02 X Y tx ty F s + kap s * E10 X Y tx ty F s).
  { assert (HF' : partialsR O 2 F) by exact HF.
    apply (derive_chain_eq _ (fun l s => match l with 0%nat => E00 X Y F s | 1%nat => E01 X Y tx ty F s
        | _ => E02 X Y tx ty F s + kap s * E10 X Y tx ty F s end) 2 lo hi); [intros u _; reflexivity| |lia|exact Hs].
    assert (HG : forall i j u, (i + j < 2)%nat -> lo < u < hi ->
      is_derive (Gt X Y F i j) u (tx u * Gt X Y F (S i) j u + ty u * Gt X Y F i (S j) u)).
    { intros i j u Hij Hu. destruct (HC u Hu) as (HX & HY & _).
      apply (chain2 (F i j) X Y); [|exact HX|exact HY]. apply HF; [exact Hij|apply Hin; exact Hu]. }
    intros l u Hl Hu. destruct l as [|[|l]]; [| |lia].
    - refine (is_derive_eq _ u _ _ (HG 0%nat 0%nat u ltac:(lia) Hu) _). reflexivity.
    - destruct (HC u Hu) as (_ & _ & _ & HX & HY & _).
      pose proof (HG 1%nat 0%nat u ltac:(lia) Hu) as G1. pose proof (HG 0%nat 1%nat u ltac:(lia) Hu) as G2.
      set (a := Gt X Y F 1%nat 0%nat) in *. set (b := Gt X Y F 0%nat 1%nat) in *.
      change (is_derive (fun v => tx v * a v + ty v * b v) u
        (E02 X Y tx ty F u + kap u * E10 X Y tx ty F u)).
      assert (Dr : is_derive (fun v => tx v * a v + ty v * b v) u
        ((kap u * ty u * a u + tx u * (tx u * Gt X Y F 2 0 u + ty u * Gt X Y F 1 1 u))
         + (- (kap u * tx u) * b u + ty u * (tx u * Gt X Y F 1 1 u + ty u * Gt X Y F 0 2 u)))).
      { apply (is_derive_plus (V := R_NormedModule)); apply prod_rule; assumption. }
      refine (is_derive_eq _ u _ _ Dr _). unfold a, b, E02, E10. ring. }
  apply map_ext_in. intros l Hl.
  assert (Hl4 : (l <= 4)%nat) by (simpl in Hl; lia).
  rewrite E1. change (t0 s) with (Derive_n t0 0 s). change (t1 s) with (Derive_n t1 0 s).
  rewrite !T0, !T1 by lia.
  rewrite (normal_derivs O 4 D (X s) (Y s) (ty s) (- tx s) l HO HD (Hin s Hs) Hl4), dirn_E by exact Hl4.
  rewrite (normal_derivs O 2 F (X s) (Y s) (ty s) (- tx s) 2 HO HF (Hin s Hs) (le_n _)), dirn_E by lia.
  change (Derive_n kap 2 s) with (Derive (Derive kap) s).
  rewrite <- (main_identity O HO lo hi X Y tx ty kap HC Hin D F HD HF k PDE s l Hs Hl4).
  f_equal. unfold g0. f_equal. unfold E10, Gt. ring.
Qed.

Lemma general_taylor : forall O lo hi X Y tx ty kap D F k s n,
  open2 O -> unit_curve lo hi X Y tx ty kap -> (forall s, lo < s < hi -> O (X s) (Y s)) ->
  partials O 4 D -> partials O 2 F -> helmholtz O k D F -> lo < s < hi ->
  Cplus
   (extend_arbitrary k n (kap s) (Derive kap s) (Derive_n kap 2 s)
    (mk_ed (trace0 D X Y s) (trace1 D X Y tx ty s)
       (CDerive_n (trace0 D X Y) 1 s) (CDerive_n (trace1 D X Y tx ty) 1 s)
       (CDerive_n (trace0 D X Y) 2 s) (CDerive_n (trace1 D X Y tx ty) 2 s)
       (CDerive_n (trace0 D X Y) 4 s)))
   (inhomo_extend_arbitrary k n (kap s) (trace0 F X Y s) (trace1 F X Y tx ty s)
      (trace2 F X Y tx ty s) (CDerive_n (trace0 F X Y) 2 s))
  = taylor_poly (along_normal D X Y tx ty s) 4 n.
Proof.
  intros O lo hi X Y tx ty kap D F k s n HO HC Hin HD HF PDE Hs.
  assert (HDf : partialsR O 4 (fun i j x y => fst (D i j x y))) by (intros i j x y H1 H2; apply (HD i j x y H1 H2)).
  assert (HDs : partialsR O 4 (fun i j x y => snd (D i j x y))) by (intros i j x y H1 H2; apply (HD i j x y H1 H2)).
  assert (HFf : partialsR O 2 (fun i j x y => fst (F i j x y))) by (intros i j x y H1 H2; apply (HF i j x y H1 H2)).
  assert (HFs : partialsR O 2 (fun i j x y => snd (F i j x y))) by (intros i j x y H1 H2; apply (HF i j x y H1 H2)).
  assert (Pf : helmholtzR O k (fun i j x y => fst (D i j x y)) (fun i j x y => fst (F i j x y))).
  { intros x y H. pose proof (f_equal fst (PDE x y H)) as E. cbv beta.
    rewrite <- E. change (fst (Cplus ?a ?b)) with (fst a + fst b). rewrite fst_R_Cmult. reflexivity. }
  assert (Ps : helmholtzR O k (fun i j x y => snd (D i j x y)) (fun i j x y => snd (F i j x y))).
  { intros x y H. pose proof (f_equal snd (PDE x y H)) as E. cbv beta.
    rewrite <- E. change (snd (Cplus ?a ?b)) with (snd a + snd b). rewrite snd_R_Cmult. reflexivity. }
  pose proof (component_taylor O lo hi X Y tx ty kap _ _ k s n HO HC Hin HDf HFf Pf Hs) as Cf.
  pose proof (component_taylor O lo hi X Y tx ty kap _ _ k s n HO HC Hin HDs HFs Ps Hs) as Cs.
  cbv zeta in Cf, Cs.
  assert (AN : forall G pr, (fun t => pr (along_normal G X Y tx ty s t) : R) =
             (fun t => pr (G 0%nat 0%nat (X s + t * ty s) (Y s + t * - tx s)))).
  { intros G pr. apply FunctionalExtensionality.functional_extensionality. intros t.
    unfold along_normal. do 2 f_equal. ring. }
  assert (T1f : forall G : nat -> nat -> R -> R -> C, (fun u => fst (trace1 G X Y tx ty u)) =
    (fun u => ty u * fst (G 1%nat 0%nat (X u) (Y u)) + - tx u * fst (G 0%nat 1%nat (X u) (Y u)))).
  { intros G. apply FunctionalExtensionality.functional_extensionality. intros u.
    unfold trace1. change (fst (Cplus ?a ?b)) with (fst a + fst b). rewrite !fst_R_Cmult. reflexivity. }
  assert (T1s : forall G : nat -> nat -> R -> R -> C, (fun u => snd (trace1 G X Y tx ty u)) =
    (fun u => ty u * snd (G 1%nat 0%nat (X u) (Y u)) + - tx u * snd (G 0%nat 1%nat (X u) (Y u)))).
  { intros G. apply FunctionalExtensionality.functional_extensionality. intros u.
    unfold trace1. change (snd (Cplus ?a ?b)) with (snd a + snd b). rewrite !snd_R_Cmult. reflexivity. }
  apply injective_projections.
  - change (fst (Cplus ?a ?b)) with (fst a + fst b).
    unfold extend_arbitrary, inhomo_extend_arbitrary.
    rewrite (proj1 (taylor_loop_comp _ _ _)), (proj1 (taylor_loop_comp _ _ _)), (proj1 (taylor_poly_comp _ _)).
    rewrite arbitrary_derivs_comp, inhomo_derivs_comp by (left; reflexivity).
    unfold ed_comp; cbn [ed_xi0 ed_xi1 ed_d_xi0 ed_d_xi1 ed_d2_xi0 ed_d2_xi1 ed_d4_xi0].
    rewrite AN. unfold trace2, CDerive_n. cbn [fst]. rewrite (AN F fst).
    pose proof (f_equal (fun h => h s) (T1f F)) as T1Fs. cbv beta in T1Fs. rewrite T1Fs.
    pose proof (f_equal (fun h => h s) (T1f D)) as T1Ds. cbv beta in T1Ds. rewrite T1Ds.
    rewrite T1f. exact Cf.
  - change (snd (Cplus ?a ?b)) with (snd a + snd b).
    unfold extend_arbitrary, inhomo_extend_arbitrary.
    rewrite (proj2 (taylor_loop_comp _ _ _)), (proj2 (taylor_loop_comp _ _ _)), (proj2 (taylor_poly_comp _ _)).
    rewrite arbitrary_derivs_comp, inhomo_derivs_comp by (right; reflexivity).
    unfold ed_comp; cbn [ed_xi0 ed_xi1 ed_d_xi0 ed_d_xi1 ed_d2_xi0 ed_d2_xi1 ed_d4_xi0].
    rewrite AN. unfold trace2, CDerive_n. cbn [snd]. rewrite (AN F snd).
    pose proof (f_equal (fun h => h s) (T1s F)) as T1Fs. cbv beta in T1Fs. rewrite T1Fs.
    pose proof (f_equal (fun h => h s) (T1s D)) as T1Ds. cbv beta in T1Ds. rewrite T1Ds.
    rewrite T1s. exact Cs.
Qed.
