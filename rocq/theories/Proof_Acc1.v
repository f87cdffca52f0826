(** Bounds of the derivatives of traces, of the tangential Taylor step and of
    the extension formulas. *)
From Coq Require Import ZArith List Bool Reals Lra Lia Psatz.
From Coquelicot Require Import Coquelicot.
From Verif Require Import Model_Py Model_Ext Model_Extend Spec_Ext Lib_Sm Proof_Ext Proof_Ext2 Proof_Extend.
Import ListNotations.
Open Scope R_scope.

(** ** Derivatives of a plane function along a curve *)

Section Along.
Context (X Y : R -> R).

(** A combination of partial derivatives along the curve, with coefficient
    functions. *)
Definition rep := list ((R -> R) * (nat * nat)).

Fixpoint reval (l : rep) (G : nat -> nat -> R -> R -> R) (t : R) : R :=
  match l with
  | [] => 0
  | (c, (i, j)) :: l' => c t * G i j (X t) (Y t) + reval l' G t
  end.

Fixpoint rder (l : rep) : rep :=
  match l with
  | [] => []
  | (c, (i, j)) :: l' =>
      (Derive c, (i, j)) :: (fun t => c t * Derive X t, (S i, j)) :: (fun t => c t * Derive Y t, (i, S j)) :: rder l'
  end.

Definition rwf (q m : nat) (l : rep) : Prop := List.Forall (fun x => sm q (fst x) /\ (fst (snd x) + snd (snd x) <= m)%nat) l.

Lemma rder_wf : forall q m l, sm (S q) X -> sm (S q) Y -> rwf (S q) m l -> rwf q (S m) (rder l).
Proof.
  intros q m l HX HY. induction l as [|[c [i j]] l IH]; intros H; [constructor|].
  inversion H as [|? ? [H1 H2] H3]; subst. cbn [fst snd] in *. cbn [rder].
  constructor; [cbn [fst snd]; split; [apply sm_Derive; exact H1|lia]|].
  constructor; [cbn [fst snd]; split; [apply sm_mult; [apply sm_pred; exact H1|apply sm_Derive; exact HX]|lia]|].
  constructor; [cbn [fst snd]; split; [apply sm_mult; [apply sm_pred; exact H1|apply sm_Derive; exact HY]|lia]|].
  apply IH, H3.
Qed.

Lemma reval_derive : forall q m M l G t, sm (S q) X -> sm (S q) Y -> rwf (S q) m l -> (m < M)%nat ->
  partialsR (fun _ _ => True) M G -> is_derive (reval l G) t (reval (rder l) G t).
Proof.
  intros q m M l G t HX HY Hl Hm HG. induction l as [|[c [i j]] l IH]; [apply (is_derive_const 0)|].
  inversion Hl as [|? ? [H1 H2] H3]; subst. cbn [fst snd] in *. specialize (IH H3). cbn [reval rder].
  assert (D1 : is_derive (fun t => G i j (X t) (Y t)) t (Derive X t * G (S i) j (X t) (Y t) + Derive Y t * G i (S j) (X t) (Y t))).
  { apply chain2; [apply HG; [lia|exact I]|apply (sm_Derive q X HX)|apply (sm_Derive q Y HY)]. }
  pose proof (proj1 (sm_Derive q c H1) t) as D2.
  eapply is_derive_eq; [apply (is_derive_plus (fun t => c t * G i j (X t) (Y t)) (reval l G)); [|exact IH]; apply (der_mult c _ t _ _ D2 D1)|].
  change plus with Rplus. ring.
Qed.

Fixpoint rdern (n : nat) (l : rep) : rep := match n with O => l | S n' => rder (rdern n' l) end.

Lemma rdern_wf : forall n q m l, sm (n + q) X -> sm (n + q) Y -> rwf (n + q) m l -> rwf q (n + m) (rdern n l).
Proof.
  induction n as [|n IH]; intros q m l HX HY Hl; [exact Hl|]. cbn [rdern].
  apply rder_wf; [apply (sm_le _ (S n + q)); [lia|exact HX]|apply (sm_le _ (S n + q)); [lia|exact HY]|].
  apply IH; (replace (n + S q)%nat with (S n + q)%nat by lia); assumption.
Qed.

Lemma reval_derive_n : forall Q m M l G, sm Q X -> sm Q Y -> rwf Q m l -> partialsR (fun _ _ => True) M G ->
  forall n, (n <= Q)%nat -> (n + m <= M)%nat ->
  (forall t, Derive_n (reval l G) n t = reval (rdern n l) G t) /\
  ((n < Q)%nat -> (n + m < M)%nat -> forall t, ex_derive (Derive_n (reval l G) n) t).
Proof.
  intros Q m M l G HX HY Hl HG. induction n as [|n IH]; intros HQ HM.
  - split; [reflexivity|]. intros H1 H2 t. eexists. apply (reval_derive 0 m M); try assumption; try lia.
    + apply (sm_le _ Q); [lia|exact HX].
    + apply (sm_le _ Q); [lia|exact HY].
    + eapply Forall_impl; [|exact Hl]. intros a [A B]. split; [apply (sm_le _ Q); [lia|exact A]|exact B].
  - destruct (IH ltac:(lia) ltac:(lia)) as [E Ex].
    assert (D : forall k, (k <= Q - 1)%nat -> (k + m < M)%nat -> forall t, is_derive (reval (rdern k l) G) t (reval (rder (rdern k l)) G t)).
    { intros k Hk HkM t. apply (reval_derive 0 (k + m) M); try assumption.
      - apply (sm_le _ Q); [lia|exact HX].
      - apply (sm_le _ Q); [lia|exact HY].
      - apply rdern_wf; [apply (sm_le _ Q); [lia|exact HX]|apply (sm_le _ Q); [lia|exact HY]|].
        eapply Forall_impl; [|exact Hl]. intros a [A B]. split; [apply (sm_le _ Q); [lia|exact A]|exact B]. }
    assert (E2 : forall t, Derive_n (reval l G) (S n) t = reval (rdern (S n) l) G t).
    { intros t. cbn [Derive_n]. transitivity (Derive (reval (rdern n l) G) t); [apply Derive_ext; exact E|].
      apply is_derive_unique. cbn [rdern]. apply D; lia. }
    split; [exact E2|]. intros H1 H2 t. eexists. eapply is_derive_ext; [intros u; symmetry; apply E2|].
    apply (D (S n)); lia.
Qed.

Lemma reval_bound : forall m l lo hi, rwf 0 m l -> exists K, 0 <= K /\ forall G M t, lo <= t <= hi -> 0 <= M ->
  (forall i j, (i + j <= m)%nat -> Rabs (G i j (X t) (Y t)) <= M) -> Rabs (reval l G t) <= K * M.
Proof.
  intros m l lo hi. induction l as [|[c [i j]] l IH]; intros H.
  - exists 0. split; [lra|]. intros G M t _ HM _. cbn [reval]. rewrite Rabs_R0. lra.
  - inversion H as [|? ? [H1 H2] H3]; subst. cbn [fst snd] in *. destruct (IH H3) as (K & HK & B).
    destruct (sm_bounded 0 c lo hi H1) as (Bc & HBc & Hc). exists (Bc + K). split; [lra|].
    intros G M t Ht HM HG. cbn [reval]. eapply Rle_trans; [apply Rabs_triang|]. rewrite Rabs_mult.
    assert (Rabs (c t) * Rabs (G i j (X t) (Y t)) <= Bc * M).
    { apply Rmult_le_compat; try apply Rabs_pos; [apply Hc, Ht|apply HG; lia]. }
    specialize (B G M t Ht HM HG). lra.
Qed.

Lemma rdern_bound : forall Q m l lo hi, sm Q X -> sm Q Y -> rwf Q m l -> forall n, (n <= Q)%nat ->
  exists K, 0 <= K /\ forall k G M t, (k <= n)%nat -> lo <= t <= hi -> 0 <= M ->
  (forall i j, (i + j <= n + m)%nat -> Rabs (G i j (X t) (Y t)) <= M) -> Rabs (reval (rdern k l) G t) <= K * M.
Proof.
  intros Q m l lo hi HX HY Hl. induction n as [|n IH]; intros Hn.
  - destruct (reval_bound m l lo hi) as (K & HK & B).
    { eapply Forall_impl; [|exact Hl]. intros a [A B]. split; [apply (sm_le _ Q); [lia|exact A]|exact B]. }
    exists K. split; [exact HK|]. intros k G M t Hk. replace k with 0%nat by lia. apply B.
  - destruct (IH ltac:(lia)) as (K & HK & B).
    destruct (reval_bound (S n + m) (rdern (S n) l) lo hi) as (K' & HK' & B').
    { apply rdern_wf; [apply (sm_le _ Q); [lia|exact HX]|apply (sm_le _ Q); [lia|exact HY]|].
      eapply Forall_impl; [|exact Hl]. intros a [A A']. split; [apply (sm_le _ Q); [lia|exact A]|exact A']. }
    exists (K + K'). split; [lra|]. intros k G M t Hk Ht HM HG.
    assert (0 <= K * M) by (apply Rmult_le_pos; assumption). assert (0 <= K' * M) by (apply Rmult_le_pos; assumption).
    destruct (Nat.eq_dec k (S n)) as [->|Hne].
    + specialize (B' G M t Ht HM HG). lra.
    + assert (Rabs (reval (rdern k l) G t) <= K * M) by (apply B; [lia|assumption|assumption|intros i j Hij; apply HG; lia]). lra.
Qed.

(** The two traces of a real function: its values and its derivative in the
    direction (p, q). *)
Lemma trace_bounds : forall (p q : R -> R) lo hi, sm 6 X -> sm 6 Y -> sm 6 p -> sm 6 q -> exists K, 0 <= K /\
  forall G M, partialsR (fun _ _ => True) 6 G -> 0 <= M ->
  (forall i j t, (i + j <= 6)%nat -> lo <= t <= hi -> Rabs (G i j (X t) (Y t)) <= M) ->
  let x0 t := G 0%nat 0%nat (X t) (Y t) in
  let x1 t := p t * G 1%nat 0%nat (X t) (Y t) + q t * G 0%nat 1%nat (X t) (Y t) in
  forall n, (n <= 5)%nat ->
    (forall t, lo <= t <= hi -> Rabs (Derive_n x0 n t) <= K * M /\ Rabs (Derive_n x1 n t) <= K * M) /\
    ((n < 5)%nat -> forall t, ex_derive (Derive_n x0 n) t /\ ex_derive (Derive_n x1 n) t).
Proof.
  intros p q lo hi HX HY Hp Hq.
  set (l0 := [((fun _ : R => 1), (0%nat, 0%nat))] : rep).
  set (l1 := [(p, (1%nat, 0%nat)); (q, (0%nat, 1%nat))] : rep).
  assert (W0 : rwf 6 0 l0) by (repeat constructor; cbn [fst]; apply sm_const).
  assert (W1 : rwf 6 1 l1) by (repeat constructor; cbn [fst snd]; try assumption; lia).
  destruct (rdern_bound 6 0 l0 lo hi HX HY W0 5 ltac:(lia)) as (K0 & P0 & B0).
  destruct (rdern_bound 6 1 l1 lo hi HX HY W1 5 ltac:(lia)) as (K1 & P1 & B1).
  exists (K0 + K1). split; [lra|]. intros G M HG HM Hb x0 x1 n Hn.
  assert (A0 : 0 <= K0 * M) by (apply Rmult_le_pos; assumption). assert (A1 : 0 <= K1 * M) by (apply Rmult_le_pos; assumption).
  assert (E0 : forall t, reval l0 G t = x0 t) by (intros t; unfold l0, x0; cbn [reval]; ring).
  assert (E1 : forall t, reval l1 G t = x1 t) by (intros t; unfold l1, x1; cbn [reval]; ring).
  destruct (reval_derive_n 6 0 6 l0 G HX HY W0 HG n ltac:(lia) ltac:(lia)) as [D0 X0].
  destruct (reval_derive_n 6 1 6 l1 G HX HY W1 HG n ltac:(lia) ltac:(lia)) as [D1 X1].
  split.
  - intros t Ht. rewrite <- (Derive_n_ext _ _ n t E0), <- (Derive_n_ext _ _ n t E1), D0, D1. split.
    + assert (Q : Rabs (reval (rdern n l0) G t) <= K0 * M) by (apply B0; try assumption; intros; apply Hb; [lia|assumption]). lra.
    + assert (Q : Rabs (reval (rdern n l1) G t) <= K1 * M) by (apply B1; try assumption; intros; apply Hb; [lia|assumption]). lra.
  - intros Hlt t. split.
    + eapply ex_derive_ext; [intros u; apply (Derive_n_ext _ _ n u E0)|]. apply X0; lia.
    + eapply ex_derive_ext; [intros u; apply (Derive_n_ext _ _ n u E1)|]. apply X1; lia.
Qed.
End Along.
