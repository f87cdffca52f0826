(** The tapering function is a C^6 cutoff. *)
From Coq Require Import ZArith List Bool Reals Lia Lra.
From Coquelicot Require Import Coquelicot.
From Verif Require Import Model_Py Model_Domain Model_ZMethod Model_Problems Proof_Domain.
Import ListNotations.
Open Scope R_scope.

(** Polynomials by their coefficients. *)
Fixpoint peval (l : list R) (x : R) : R :=
  match l with [] => 0 | c :: l' => c + x * peval l' x end.
Fixpoint padd (a b : list R) : list R :=
  match a, b with [], _ => b | _, [] => a | x :: a', y :: b' => (x + y) :: padd a' b' end.
Fixpoint pderiv (l : list R) : list R :=
  match l with [] => [] | c :: l' => padd l' (0 :: pderiv l') end.

Lemma padd_eval : forall a b x, peval (padd a b) x = peval a x + peval b x.
Proof.
  induction a as [|c a IH]; intros [|d b] x; simpl; try ring. rewrite IH. ring.
Qed.

Lemma pderiv_eval : forall l (x : R), is_derive (peval l) x (peval (pderiv l) x).
Proof.
  induction l as [|c l IH]; intros x.
  - apply (is_derive_const (V := R_NormedModule) 0).
  - cbn [pderiv]. rewrite padd_eval. cbn [peval].
    replace (peval l x + (0 + x * peval (pderiv l) x)) with (0 + (1 * peval l x + x * peval (pderiv l) x)) by ring.
    apply (is_derive_plus (V := R_NormedModule) (fun _ => c) (fun x => x * peval l x)).
    + apply (is_derive_const (V := R_NormedModule) c).
    + apply (is_derive_mult (fun x : R => x) (peval l) x 1 (peval (pderiv l) x));
        [apply (is_derive_id (K := R_AbsRing))|apply IH|]. intros; apply Rmult_comm.
Qed.

(** Derivative of a function defined differently on both sides of a point. *)
Lemma glue : forall (f g h : R -> R) x d, is_derive g x d -> is_derive h x d ->
  locally x (fun t => (t <= x -> f t = g t) /\ (x <= t -> f t = h t)) -> is_derive f x d.
Proof.
  intros f g h x d Hg Hh [e He]. apply is_derive_Reals. apply is_derive_Reals in Hg, Hh.
  intros eps Heps. destruct (Hg eps Heps) as [d1 H1]. destruct (Hh eps Heps) as [d2 H2].
  assert (Hm : 0 < Rmin e (Rmin d1 d2)).
  { apply Rmin_pos; [apply cond_pos|]. apply Rmin_pos; apply cond_pos. }
  exists (mkposreal _ Hm). intros t Ht Hd. cbn in Hd.
  pose proof (Rmin_l e (Rmin d1 d2)). pose proof (Rmin_r e (Rmin d1 d2)).
  pose proof (Rmin_l d1 d2). pose proof (Rmin_r d1 d2).
  assert (Hx : f x = g x /\ f x = h x).
  { destruct (He x (ball_center x e)) as [A B]. split; [apply A|apply B]; lra. }
  assert (Hb : ball x e (x + t)).
  { change (Rabs (x + t - x) < e). replace (x + t - x) with t by ring. lra. }
  destruct (He _ Hb) as [A B]. destruct (Rle_lt_dec t 0) as [Hn|Hp].
  - rewrite A by lra. destruct Hx as [-> _]. apply H1; [exact Ht|lra].
  - rewrite B by lra. destruct Hx as [_ ->]. apply H2; [exact Ht|lra].
Qed.

Definition piece (c0 c1 : R) (l : list R) (x : R) : R :=
  if Rltb x 0 then c0 else if Rleb x 1 then peval l x else c1.

Lemma near : forall (x lo hi : R) (P : R -> Prop), lo < x < hi -> (forall t, lo < t < hi -> P t) -> locally x P.
Proof.
  intros x lo hi P Hx H. assert (Hd : 0 < Rmin (x - lo) (hi - x)) by (apply Rmin_pos; lra).
  exists (mkposreal _ Hd). intros t Ht. change (Rabs (t - x) < Rmin (x - lo) (hi - x)) in Ht.
  pose proof (Rmin_l (x - lo) (hi - x)). pose proof (Rmin_r (x - lo) (hi - x)).
  apply Rabs_def2 in Ht. apply H. lra.
Qed.

Lemma piece_derive : forall c0 c1 l x, peval l 0 = c0 -> peval l 1 = c1 ->
  peval (pderiv l) 0 = 0 -> peval (pderiv l) 1 = 0 ->
  is_derive (piece c0 c1 l) x (piece 0 0 (pderiv l) x).
Proof.
  intros c0 c1 l x H0 H1 Hd0 Hd1.
  assert (Hc : forall (c t : R), is_derive (fun _ : R => c) t 0)
    by (intros; apply (is_derive_const (V := R_NormedModule))).
  unfold piece at 2.
  destruct (Rltb_spec x 0) as [Hx|Hx].
  { apply (is_derive_ext_loc (fun _ => c0)); [|apply Hc].
    apply (near x (x - 1) 0); [lra|]. intros t Ht. unfold piece.
    destruct (Rltb_spec t 0); [reflexivity|lra]. }
  destruct (Req_dec x 0) as [->|Hx0].
  { destruct (Rleb_spec 0 1); [|lra]. rewrite Hd0.
    apply (glue _ (fun _ => c0) (peval l)); [apply Hc|pose proof (pderiv_eval l 0) as HD; rewrite Hd0 in HD; exact HD|].
    apply (near 0 (-1) 1); [lra|]. intros t Ht. unfold piece. split; intros Hs.
    - destruct (Rltb_spec t 0); [reflexivity|]. destruct (Rleb_spec t 1); [|lra].
      replace t with 0 by lra. exact H0.
    - destruct (Rltb_spec t 0); [lra|]. destruct (Rleb_spec t 1); [reflexivity|lra]. }
  destruct (Rleb_spec x 1) as [Hx1|Hx1].
  - destruct (Req_dec x 1) as [->|Hx1'].
    + rewrite Hd1. apply (glue _ (peval l) (fun _ => c1)); [pose proof (pderiv_eval l 1) as HD; rewrite Hd1 in HD; exact HD|apply Hc|].
      apply (near 1 0 2); [lra|]. intros t Ht. unfold piece. split; intros Hs.
      * destruct (Rltb_spec t 0); [lra|]. destruct (Rleb_spec t 1); [reflexivity|lra].
      * destruct (Rltb_spec t 0); [lra|]. destruct (Rleb_spec t 1); [|reflexivity].
        replace t with 1 by lra. exact H1.
    + apply (is_derive_ext_loc (peval l)); [|apply pderiv_eval].
      apply (near x 0 1); [lra|]. intros t Ht. unfold piece.
      destruct (Rltb_spec t 0); [lra|]. destruct (Rleb_spec t 1); [reflexivity|lra].
  - apply (is_derive_ext_loc (fun _ => c1)); [|apply Hc].
    apply (near x 1 (x + 1)); [lra|]. intros t Ht. unfold piece.
    destruct (Rltb_spec t 0); [lra|]. destruct (Rleb_spec t 1); [lra|reflexivity].
Qed.

(** Integer coefficients, for computing. *)
Fixpoint zeval (l : list Z) (x : Z) : Z :=
  match l with [] => 0%Z | c :: l' => (c + x * zeval l' x)%Z end.
Fixpoint zadd (a b : list Z) : list Z :=
  match a, b with [], _ => b | _, [] => a | x :: a', y :: b' => (x + y)%Z :: zadd a' b' end.
Fixpoint zderiv (l : list Z) : list Z :=
  match l with [] => [] | c :: l' => zadd l' (0%Z :: zderiv l') end.
Fixpoint zder_n (n : nat) (l : list Z) : list Z :=
  match n with O => l | S n' => zderiv (zder_n n' l) end.

Lemma zeval_IZR : forall l x, peval (map IZR l) (IZR x) = IZR (zeval l x).
Proof.
  induction l as [|c l IH]; intros x; cbn [map peval zeval]; [reflexivity|].
  rewrite IH, plus_IZR, mult_IZR. reflexivity.
Qed.
Lemma zadd_IZR : forall a b, padd (map IZR a) (map IZR b) = map IZR (zadd a b).
Proof.
  induction a as [|c a IH]; intros [|d b]; cbn [map padd zadd]; try reflexivity.
  rewrite IH, plus_IZR. reflexivity.
Qed.
Lemma zderiv_IZR : forall l, pderiv (map IZR l) = map IZR (zderiv l).
Proof.
  induction l as [|c l IH]; cbn [map pderiv zderiv]; [reflexivity|].
  rewrite IH. apply (zadd_IZR l (0%Z :: zderiv l)).
Qed.

Definition tcoefZ : list Z :=
  [0; 0; 0; 0; 0; 0; 0; 1716; -9009; 20020; -24024; 16380; -6006; 924]%Z.
Definition tcoef : list R := map IZR tcoefZ.

Fixpoint pder_n (n : nat) (l : list R) : list R :=
  match n with O => l | S n' => pderiv (pder_n n' l) end.

Lemma taper_piece : forall x, taper_p x = piece 0 1 tcoef x.
Proof.
  intros x. unfold taper_p, piece. destruct (Rltb x 0); [reflexivity|].
  destruct (Rleb x 1); [|reflexivity]. unfold tcoef, tcoefZ. cbn [map peval]. ring.
Qed.

Lemma tcoef_ends : peval tcoef 0 = 0 /\ peval tcoef 1 = 1.
Proof.
  unfold tcoef. split; [rewrite (zeval_IZR tcoefZ 0)|rewrite (zeval_IZR tcoefZ 1)]; reflexivity.
Qed.

Lemma pder_n_IZR : forall n, pder_n n tcoef = map IZR (zder_n n tcoefZ).
Proof.
  induction n as [|n IH]; cbn [pder_n zder_n]; [reflexivity|]. rewrite IH. apply zderiv_IZR.
Qed.

Lemma tcoef_derivs : forall n, (1 <= n <= 6)%nat ->
  peval (pder_n n tcoef) 0 = 0 /\ peval (pder_n n tcoef) 1 = 0.
Proof.
  intros n Hn. assert (H : n = 1%nat \/ n = 2%nat \/ n = 3%nat \/ n = 4%nat \/ n = 5%nat \/ n = 6%nat) by lia.
  rewrite pder_n_IZR.
  split; [rewrite (zeval_IZR (zder_n n tcoefZ) 0)|rewrite (zeval_IZR (zder_n n tcoefZ) 1)];
    apply f_equal; decompose [or] H; subst n; reflexivity.
Qed.

Definition tap (n : nat) (x : R) : R :=
  match n with O => taper_p x | _ => piece 0 0 (pder_n n tcoef) x end.

Lemma tap_derive : forall n (x : R), (n < 6)%nat -> is_derive (tap n) x (tap (S n) x).
Proof.
  intros n x Hn. destruct n as [|n].
  - apply (is_derive_ext (piece 0 1 tcoef)); [intros t; symmetry; apply taper_piece|].
    destruct tcoef_ends as [E0 E1]. destruct (tcoef_derivs 1 ltac:(lia)) as [D0 D1].
    apply (piece_derive 0 1 tcoef); assumption.
  - destruct (tcoef_derivs (S n) ltac:(lia)) as [E0 E1].
    destruct (tcoef_derivs (S (S n)) ltac:(lia)) as [D0 D1].
    apply (piece_derive 0 0 (pder_n (S n) tcoef)); assumption.
Qed.

Lemma clamp_eq : forall t : R,
  (0 + (t + 1 - Rabs (t - 1)) / 2 + Rabs ((t + 1 - Rabs (t - 1)) / 2)) / 2 = Rmax 0 (Rmin t 1).
Proof.
  intros t. unfold Rmax, Rmin. destruct (Rle_dec t 1) as [A|A].
  - rewrite (Rabs_left1 (t - 1)) by lra.
    replace ((t + 1 - - (t - 1)) / 2) with t by field.
    destruct (Rle_dec 0 t); [rewrite Rabs_pos_eq by lra; lra|rewrite Rabs_left by lra; lra].
  - rewrite (Rabs_pos_eq (t - 1)) by lra.
    replace ((t + 1 - (t - 1)) / 2) with 1 by field.
    destruct (Rle_dec 0 1); [rewrite Rabs_pos_eq by lra; lra|lra].
Qed.

Lemma piece_cont : forall l x, peval l 0 = 0 -> peval l 1 = 0 -> continuous (piece 0 0 l) x.
Proof.
  intros l x H0 H1.
  (* clamp the argument to [0, 1] *)
  apply (continuous_ext (fun x => peval l (Rmax 0 (Rmin x 1)))).
  - intros t. unfold piece. destruct (Rltb_spec t 0) as [A|A].
    + rewrite Rmax_left; [exact H0|]. apply Rle_trans with t; [apply Rmin_l|lra].
    + destruct (Rleb_spec t 1) as [B|B].
      * rewrite Rmin_left, Rmax_right by lra. reflexivity.
      * rewrite Rmin_right, Rmax_right by lra. exact H1.
  - apply (continuous_comp (fun x => Rmax 0 (Rmin x 1)) (peval l)).
    + apply (continuous_ext (fun x => (0 + (x + 1 - Rabs (x - 1)) / 2 + Rabs ((x + 1 - Rabs (x - 1)) / 2)) / 2)).
      { exact clamp_eq. }
      assert (Hi : continuous (fun x : R => (x + 1 - Rabs (x - 1)) / 2) x).
      { unfold Rdiv. apply (continuous_mult (K := R_AbsRing)); [|apply continuous_const].
        apply (continuous_minus (V := R_NormedModule)).
        - apply (continuous_plus (V := R_NormedModule)); [apply continuous_id|apply continuous_const].
        - apply (continuous_comp (fun x : R => x - 1) Rabs); [|apply continuous_Rabs].
          apply (continuous_minus (V := R_NormedModule)); [apply continuous_id|apply continuous_const]. }
      unfold Rdiv at 1. apply (continuous_mult (K := R_AbsRing)); [|apply continuous_const].
      apply (continuous_plus (V := R_NormedModule)).
      * apply (continuous_plus (V := R_NormedModule)); [apply continuous_const|exact Hi].
      * apply (continuous_comp (fun x : R => (x + 1 - Rabs (x - 1)) / 2) Rabs); [exact Hi|apply continuous_Rabs].
    + apply (ex_derive_continuous (K := R_AbsRing) (V := R_NormedModule) (peval l)).
      eexists. apply pderiv_eval.
Qed.

Lemma tap1_value : forall x, 0 <= x <= 1 -> tap 1 x = 12012 * x ^ 6 * (1 - x) ^ 6.
Proof.
  intros x Hx. unfold tap, piece. destruct (Rltb_spec x 0); [lra|].
  destruct (Rleb_spec x 1); [|lra]. rewrite pder_n_IZR.
  change (zder_n 1 tcoefZ) with
    [0; 0; 0; 0; 0; 0; 12012; -72072; 180180; -240240; 180180; -72072; 12012; 0]%Z.
  cbn [map peval]. ring.
Qed.

Lemma tap_end : forall n x, (1 <= n <= 6)%nat -> x <= 0 \/ 1 <= x -> tap n x = 0.
Proof.
  intros n x Hn Hx. destruct (tcoef_derivs n Hn) as [E0 E1]. destruct n as [|n]; [lia|].
  unfold tap, piece. destruct (Rltb_spec x 0); [reflexivity|].
  destruct (Rleb_spec x 1); [|reflexivity].
  destruct (Req_dec x 0) as [->|]; [exact E0|]. replace x with 1 by lra. exact E1.
Qed.

Section Taper.
Variables r1 r2 : R.
Hypothesis Hr : r1 < r2.

Let arg (r : R) : R := 1 - (r - r1) / (r2 - r1).
Definition tapn (n : nat) (r : R) : R := (- / (r2 - r1)) ^ n * tap n (1 - (r - r1) / (r2 - r1)).

Lemma tapn_derive : forall n (r : R), (n < 6)%nat -> is_derive (tapn n) r (tapn (S n) r).
Proof.
  intros n r Hn. unfold tapn.
  change (1 - (r - r1) / (r2 - r1)) with (arg r).
  replace ((- / (r2 - r1)) ^ S n * tap (S n) (arg r)) with
    ((- / (r2 - r1)) ^ n * (- / (r2 - r1) * tap (S n) (arg r))) by (simpl; ring).
  apply is_derive_scal. apply (is_derive_comp (tap n) arg).
  - apply tap_derive. exact Hn.
  - unfold arg. auto_derive; [exact I|]. field. lra.
Qed.

Lemma arg_ends : arg r1 = 1 /\ arg r2 = 0.
Proof. unfold arg. split; field; lra. Qed.

Lemma taper_spec :
  (forall r, r <= r1 -> tapering r1 r2 r = 1) /\
  (forall r, r2 <= r -> tapering r1 r2 r = 0) /\
  (forall r r', r1 <= r < r' -> r' <= r2 -> tapering r1 r2 r' < tapering r1 r2 r) /\
  (forall r, 0 <= tapering r1 r2 r <= 1) /\
  exists T : nat -> R -> R,
    (forall r, T 0%nat r = tapering r1 r2 r) /\
    (forall n r, (n < 6)%nat -> is_derive (T n) r (T (S n) r)) /\
    (forall r, continuous (T 6%nat) r) /\
    (forall n, (1 <= n <= 6)%nat -> T n r1 = 0 /\ T n r2 = 0).
Proof.
  destruct arg_ends as [A1 A2].
  assert (Hi : 0 < / (r2 - r1)) by (apply Rinv_0_lt_compat; lra).
  assert (H1 : forall r, r <= r1 -> tapering r1 r2 r = 1).
  { intros r Hle. unfold tapering. change (1 - (r - r1) / (r2 - r1)) with (arg r). rewrite taper_piece.
    assert (Hx : 1 <= arg r).
    { unfold arg. assert ((r - r1) / (r2 - r1) <= 0); [|lra]. unfold Rdiv. nra. }
    unfold piece. destruct (Rltb_spec (arg r) 0); [lra|].
    destruct (Rleb_spec (arg r) 1); [|reflexivity].
    replace (arg r) with 1 by lra. apply tcoef_ends. }
  assert (H2 : forall r, r2 <= r -> tapering r1 r2 r = 0).
  { intros r Hle. unfold tapering. change (1 - (r - r1) / (r2 - r1)) with (arg r). rewrite taper_piece.
    assert (Hx : arg r <= 0).
    { rewrite <- A2. unfold arg. apply Rplus_le_compat_l, Ropp_le_contravar.
      unfold Rdiv. apply Rmult_le_compat_r; lra. }
    unfold piece. destruct (Rltb_spec (arg r) 0); [reflexivity|].
    destruct (Rleb_spec (arg r) 1); [|lra].
    replace (arg r) with 0 by lra. apply tcoef_ends. }
  assert (H3 : forall r r', r1 <= r < r' -> r' <= r2 -> tapering r1 r2 r' < tapering r1 r2 r).
  { intros r r' Hrr Hr2.
    destruct (MVT_cor2 (tapn 0) (tapn 1) r r' ltac:(lra)) as [c [Hc Hcc]].
    { intros c _. apply is_derive_Reals. apply tapn_derive. lia. }
    unfold tapn at 1 2 in Hc. cbn [pow tap] in Hc.
    change (1 * tapering r1 r2 r' - 1 * tapering r1 r2 r = tapn 1 c * (r' - r)) in Hc.
    assert (Hneg : tapn 1 c < 0).
    { unfold tapn. change (1 - (c - r1) / (r2 - r1)) with (arg c).
      assert (Hx : 0 < arg c < 1).
      { unfold arg. split.
        - assert ((c - r1) / (r2 - r1) < 1); [|lra].
          apply Rmult_lt_reg_r with (r2 - r1); [lra|]. unfold Rdiv. rewrite Rmult_assoc, Rinv_l by lra. lra.
        - assert (0 < (c - r1) / (r2 - r1)); [|lra]. apply Rdiv_lt_0_compat; lra. }
      rewrite tap1_value by lra. cbn [pow].
      assert (Hp : 0 < 12012 * arg c ^ 6 * (1 - arg c) ^ 6).
      { repeat apply Rmult_lt_0_compat; try lra; apply pow_lt; lra. }
      change (- / (r2 - r1) * 1 * (12012 * arg c ^ 6 * (1 - arg c) ^ 6) < 0).
      nra. }
    nra. }
  split; [exact H1|]. split; [exact H2|]. split; [exact H3|]. split.
  - intros r. destruct (Rle_lt_dec r r1) as [A|A]; [rewrite H1 by lra; lra|].
    destruct (Rle_lt_dec r2 r) as [B|B]; [rewrite H2 by lra; lra|].
    pose proof (H3 r1 r ltac:(lra) ltac:(lra)) as P. rewrite (H1 r1) in P by lra.
    pose proof (H3 r r2 ltac:(lra) ltac:(lra)) as Q. rewrite (H2 r2) in Q by lra. lra.
  - exists tapn. split; [intros r; unfold tapn, tapering; cbn [pow tap]; ring|].
    split; [exact tapn_derive|]. split.
    + intros r. unfold tapn. apply (continuous_mult (K := R_AbsRing)); [apply continuous_const|].
      apply (continuous_comp arg (tap 6)).
      * apply (ex_derive_continuous (K := R_AbsRing) (V := R_NormedModule) arg). unfold arg. auto_derive. exact I.
      * apply piece_cont; apply (tcoef_derivs 6); lia.
    + intros n Hn. unfold tapn. change (1 - (r1 - r1) / (r2 - r1)) with (arg r1). change (1 - (r2 - r1) / (r2 - r1)) with (arg r2). rewrite A1, A2.
      rewrite !tap_end by (try exact Hn; lra). split; ring.
Qed.
End Taper.
