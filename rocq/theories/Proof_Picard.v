(** Existence of the trajectories handed to odeint: Picard iteration for a
    linear equation of second order. *)
From Coq Require Import ZArith List Bool Reals Lia Lra Psatz.
From Coquelicot Require Import Coquelicot.
Open Scope R_scope.

Lemma cont_rint : forall (f : R -> R) a b, (forall t, continuous f t) -> ex_RInt f a b.
Proof. intros f a b H. apply (ex_RInt_continuous (V := R_CompleteNormedModule)). intros z _. apply H. Qed.

Lemma derive_rint : forall (f : R -> R) a r, (forall t, continuous f t) -> is_derive (fun r => RInt f a r) r (f r).
Proof.
  intros f a r H. apply (is_derive_RInt (V := R_NormedModule) f (fun r => RInt f a r) a r); [|apply H].
  apply filter_forall. intros x. apply (RInt_correct (V := R_CompleteNormedModule)). apply cont_rint. exact H.
Qed.

Lemma rint_cont : forall (f : R -> R) a r, (forall t, continuous f t) -> continuous (fun r => RInt f a r) r.
Proof.
  intros f a r H. apply (ex_derive_continuous (K := R_AbsRing) (V := R_NormedModule)). eexists. apply derive_rint. exact H.
Qed.

Lemma unif_cont : forall (F : R -> R) (f : nat -> R -> R) (tau : nat -> R),
  (forall n t, continuous (f n) t) -> (forall n t, Rabs (F t - f n t) <= tau n) -> is_lim_seq tau 0 -> forall t, continuous F t.
Proof.
  intros F f tau Hf Hb Ht t. apply (filterlim_locally (T := R) F (F t)). intros eps.
  assert (He : 0 < eps / 3) by (pose proof (cond_pos eps); lra).
  apply is_lim_seq_spec in Ht. destruct (Ht (mkposreal _ He)) as [n Hn]. specialize (Hn n (le_n n)). cbn in Hn.
  rewrite Rminus_0_r in Hn. apply Rabs_lt_between in Hn.
  pose proof (proj1 (filterlim_locally (F := locally t) (f n) (f n t)) (Hf n t) (mkposreal _ He)) as Hc.
  revert Hc. apply filter_imp. intros x Hx.
  change (Rabs (f n x - f n t) < eps / 3) in Hx. change (Rabs (F x - F t) < eps).
  replace (F x - F t) with ((F x - f n x) + (f n x - f n t) - (F t - f n t)) by ring.
  pose proof (Hb n x) as H1. pose proof (Hb n t) as H2.
  apply Rabs_le_between in H1. apply Rabs_le_between in H2. apply Rabs_lt_between in Hx.
  apply Rabs_lt_between. lra.
Qed.

Lemma small_zero : forall x (e : nat -> R), (forall n, Rabs x <= e n) -> is_lim_seq e 0 -> x = 0.
Proof.
  intros x e Hx He. assert (H : Rbar_le (Rabs x) 0).
  { apply (is_lim_seq_le (fun _ => Rabs x) e (Rabs x) 0 Hx); [apply is_lim_seq_const|exact He]. }
  cbn in H. apply Rabs_eq_0. pose proof (Rabs_pos x). lra.
Qed.

Section Picard.
Variables (A B : R) (p q s : R -> R) (L y0 w0 : R).
Hypothesis HAB : A < B.
Hypothesis Hp : forall t, continuous p t.
Hypothesis Hq : forall t, continuous q t.
Hypothesis Hs : forall t, continuous s t.
Hypothesis HL : forall t, Rabs (p t) <= L /\ Rabs (q t) <= L.

Definition rhs (y w : R -> R) (t : R) : R := s t - p t * w t - q t * y t.
Fixpoint pic (n : nat) : (R -> R) * (R -> R) :=
  match n with
  | O => (fun _ => y0, fun _ => w0)
  | S n => let '(y, w) := pic n in (fun r => y0 + RInt w A r, fun r => w0 + RInt (rhs y w) A r)
  end.
Definition py n := fst (pic n).
Definition pw n := snd (pic n).

Lemma pic_S : forall n, py (S n) = (fun r => y0 + RInt (pw n) A r) /\ pw (S n) = (fun r => w0 + RInt (rhs (py n) (pw n)) A r).
Proof. intros n. unfold py, pw. cbn [pic]. destruct (pic n). split; reflexivity. Qed.

Lemma rhs_cont : forall y w, (forall t, continuous y t) -> (forall t, continuous w t) -> forall t, continuous (rhs y w) t.
Proof using Hp Hq Hs.
  intros y w Hy Hw t. unfold rhs.
  apply (continuous_minus (V := R_NormedModule) (fun t => s t - p t * w t) (fun t => q t * y t)).
  - apply (continuous_minus (V := R_NormedModule) s (fun t => p t * w t)); [apply Hs|].
    apply (continuous_mult (K := R_AbsRing) p w); [apply Hp|apply Hw].
  - apply (continuous_mult (K := R_AbsRing) q y); [apply Hq|apply Hy].
Qed.

Lemma pic_cont : forall n t, continuous (py n) t /\ continuous (pw n) t.
Proof using Hp Hq Hs.
  induction n as [|n IH]; intros t.
  - split; apply continuous_const.
  - destruct (pic_S n) as [E1 E2]. rewrite E1, E2. split.
    + apply (continuous_plus (V := R_NormedModule) (fun _ => y0) (fun r => RInt (pw n) A r)); [apply continuous_const|].
      apply rint_cont. intros u. apply IH.
    + apply (continuous_plus (V := R_NormedModule) (fun _ => w0) (fun r => RInt (rhs (py n) (pw n)) A r)); [apply continuous_const|].
      apply rint_cont. intros u. apply rhs_cont; intros v; apply IH.
Qed.

Definition dif (n : nat) (r : R) : R := Rabs (py (S n) r - py n r) + Rabs (pw (S n) r - pw n r).

Lemma dif_cont : forall n t, continuous (dif n) t.
Proof using Hp Hq Hs.
  intros n t. unfold dif.
  assert (C : forall f g : R -> R, continuous f t -> continuous g t -> continuous (fun r => Rabs (f r - g r)) t).
  { intros f g Hf Hg. apply (continuous_comp (fun r => f r - g r) Rabs).
    - apply (continuous_minus (V := R_NormedModule) f g); assumption.
    - apply continuous_Rabs. }
  apply (continuous_plus (V := R_NormedModule) (fun r => Rabs (py (S n) r - py n r)) (fun r => Rabs (pw (S n) r - pw n r)));
    apply C; apply pic_cont.
Qed.

Lemma L_pos : 0 <= L.
Proof using HL. pose proof (HL 0) as [H _]. pose proof (Rabs_pos (p 0)). lra. Qed.

Lemma rint_minus : forall f g r, (forall t, continuous f t) -> (forall t, continuous g t) ->
  RInt f A r - RInt g A r = RInt (fun t => f t - g t) A r.
Proof.
  intros f g r Hf Hg. symmetry. apply (RInt_minus (V := R_CompleteNormedModule) f g A r); apply cont_rint; assumption.
Qed.

Lemma rint_abs : forall f g r, A <= r -> (forall t, continuous f t) -> (forall t, continuous g t) -> (forall t, A <= t <= r -> Rabs (f t) <= g t) ->
  Rabs (RInt f A r) <= RInt g A r.
Proof.
  intros f g r Hr Hf Hg H.
  apply (norm_RInt_le (V := R_NormedModule) f g A r _ _ Hr); [exact H| |]; apply (RInt_correct (V := R_CompleteNormedModule)); apply cont_rint; assumption.
Qed.

Lemma dif_step : forall n r, A <= r -> dif (S n) r <= RInt (fun t => (1 + L) * dif n t) A r.
Proof using Hp Hq Hs HL.
  intros n r Hr. pose proof L_pos as HL0. unfold dif at 1. destruct (pic_S (S n)) as [E1 E2]. destruct (pic_S n) as [E3 E4].
  assert (X1 : py (S (S n)) r - py (S n) r = RInt (fun t => pw (S n) t - pw n t) A r).
  { rewrite E1. replace (py (S n) r) with (y0 + RInt (pw n) A r) by (rewrite E3; reflexivity).
    rewrite <- rint_minus by (intros; apply pic_cont). ring. }
  assert (X2 : pw (S (S n)) r - pw (S n) r = RInt (fun t => rhs (py (S n)) (pw (S n)) t - rhs (py n) (pw n) t) A r).
  { rewrite E2. replace (pw (S n) r) with (w0 + RInt (rhs (py n) (pw n)) A r) by (rewrite E4; reflexivity).
    rewrite <- rint_minus by (intros; apply rhs_cont; intros; apply pic_cont). ring. }
  rewrite X1, X2.
  assert (C1 : forall t, continuous (fun t => pw (S n) t - pw n t) t)
    by (intros t; apply (continuous_minus (V := R_NormedModule)); apply pic_cont).
  assert (C2 : forall t, continuous (fun t => rhs (py (S n)) (pw (S n)) t - rhs (py n) (pw n) t) t)
    by (intros t; apply (continuous_minus (V := R_NormedModule)); apply rhs_cont; intros; apply pic_cont).
  set (g1 := fun t => Rabs (pw (S n) t - pw n t)). set (g2 := fun t => L * dif n t).
  assert (G1 : forall t, continuous g1 t) by (intros t; apply (continuous_comp _ Rabs); [apply C1|apply continuous_Rabs]).
  assert (G2 : forall t, continuous g2 t)
    by (intros t; apply (continuous_mult (K := R_AbsRing) (fun _ => L) (dif n)); [apply continuous_const|apply dif_cont]).
  assert (Y1 : Rabs (RInt (fun t => pw (S n) t - pw n t) A r) <= RInt g1 A r)
    by (apply rint_abs; try assumption; intros t _; apply Rle_refl).
  assert (Y2 : Rabs (RInt (fun t => rhs (py (S n)) (pw (S n)) t - rhs (py n) (pw n) t) A r) <= RInt g2 A r).
  { apply rint_abs; try assumption. intros t _. unfold rhs, g2, dif.
    replace (s t - p t * pw (S n) t - q t * py (S n) t - (s t - p t * pw n t - q t * py n t)) with
      (- (p t * (pw (S n) t - pw n t) + q t * (py (S n) t - py n t))) by ring.
    rewrite Rabs_Ropp. eapply Rle_trans; [apply Rabs_triang|]. rewrite !Rabs_mult. destruct (HL t) as [H1 H2].
    pose proof (Rabs_pos (pw (S n) t - pw n t)). pose proof (Rabs_pos (py (S n) t - py n t)).
    pose proof (Rmult_le_compat_r _ _ _ H H1). pose proof (Rmult_le_compat_r _ _ _ H0 H2). lra. }
  eapply Rle_trans; [apply Rplus_le_compat; [exact Y1|exact Y2]|].
  assert (E : RInt g1 A r + RInt g2 A r = RInt (fun t => g1 t + g2 t) A r)
    by (symmetry; apply (RInt_plus (V := R_CompleteNormedModule) g1 g2 A r); apply cont_rint; assumption).
  rewrite E. apply RInt_le; [exact Hr| | |].
  - apply cont_rint. intros t. apply (continuous_plus (V := R_NormedModule) g1 g2); [apply G1|apply G2].
  - apply cont_rint. intros t. apply (continuous_mult (K := R_AbsRing) (fun _ => 1 + L) (dif n)); [apply continuous_const|apply dif_cont].
  - intros t _. unfold g1, g2. assert (Rabs (pw (S n) t - pw n t) <= dif n t); [|lra].
    unfold dif. pose proof (Rabs_pos (py (S n) t - py n t)). lra.
Qed.

Lemma dif_base : exists C, 0 <= C /\ forall t, A <= t <= B -> dif 0 t <= C.
Proof using Hp Hq Hs HAB.
  destruct (continuity_ab_maj (dif 0) A B (Rlt_le _ _ HAB)) as [M [HM _]].
  { intros c _. apply continuity_pt_filterlim. apply dif_cont. }
  exists (dif 0 M). split; [|exact HM]. unfold dif. pose proof (Rabs_pos (py 1 M - py 0 M)). pose proof (Rabs_pos (pw 1 M - pw 0 M)). lra.
Qed.

Lemma dif_bound : exists C, 0 <= C /\ forall n t, A <= t <= B -> dif n t <= C * (((1 + L) * (t - A)) ^ n / INR (fact n)).
Proof using Hp Hq Hs HL HAB.
  pose proof L_pos as HL0. destruct dif_base as (C & HC & H0). exists C. split; [exact HC|].
  induction n as [|n IH]; intros t Ht.
  - cbn. eapply Rle_trans; [apply H0; exact Ht|]. lra.
  - eapply Rle_trans; [apply dif_step; lra|].
    set (e := fun t => (1 + L) * (C * (((1 + L) * (t - A)) ^ n / INR (fact n)))).
    assert (Hf : 0 < INR (fact n)) by apply INR_fact_lt_0.
    assert (Hn : 0 < INR (S n)) by (apply lt_0_INR; lia).
    assert (E : is_RInt e A t (C * (((1 + L) * (t - A)) ^ S n / INR (fact (S n))))).
    { set (P := fun t => C * (((1 + L) * (t - A)) ^ S n / INR (fact (S n)))).
      replace (C * (((1 + L) * (t - A)) ^ S n / INR (fact (S n)))) with (minus (P t) (P A)).
      2:{ change (P t - P A = C * (((1 + L) * (t - A)) ^ S n / INR (fact (S n)))). unfold P.
          replace (A - A) with 0 by ring. rewrite Rmult_0_r, (pow_i (S n)) by lia. unfold Rdiv. ring. }
      apply (is_RInt_derive P e).
      - intros x _. unfold P, e. rewrite fact_simpl, mult_INR.
        auto_derive; [exact I|]. cbn [pred]. unfold Rminus. field. split; [lra|]. change (INR (S n) <> 0). lra.
      - intros x _. apply (ex_derive_continuous (K := R_AbsRing) (V := R_NormedModule)). unfold e. auto_derive. exact I. }
    rewrite <- (is_RInt_unique e A t _ E). apply RInt_le; [lra| |exists (C * (((1 + L) * (t - A)) ^ S n / INR (fact (S n)))); exact E|].
    + apply cont_rint. intros u. apply (continuous_mult (K := R_AbsRing) (fun _ => 1 + L) (dif n)); [apply continuous_const|apply dif_cont].
    + intros x Hx. unfold e. apply Rmult_le_compat_l; [lra|]. apply IH. lra.
Qed.

Lemma limits : exists (Y W : R -> R) (tau : nat -> R), is_lim_seq tau 0 /\
  forall n t, A <= t <= B -> Rabs (Y t - py n t) <= tau n /\ Rabs (W t - pw n t) <= tau n.
Proof using Hp Hq Hs HL HAB.
  destruct dif_bound as (C & HC & Hd). pose proof L_pos as HL0.
  set (b := fun n => C * (((1 + L) * (B - A)) ^ n / INR (fact n))).
  assert (Hb : ex_series b).
  { unfold b. apply (ex_series_scal_l C (fun n => ((1 + L) * (B - A)) ^ n / INR (fact n))).
    exists (exp ((1 + L) * (B - A))). pose proof (is_exp_Reals ((1 + L) * (B - A))) as H. unfold is_pseries in H.
    eapply is_series_ext; [|exact H]. intros n. rewrite pow_n_pow. reflexivity. }
  assert (Hdb : forall n t, A <= t <= B -> dif n t <= b n).
  { intros n t Ht. eapply Rle_trans; [apply Hd; exact Ht|]. unfold b. apply Rmult_le_compat_l; [exact HC|].
    unfold Rdiv. apply Rmult_le_compat_r; [left; apply Rinv_0_lt_compat, INR_fact_lt_0|].
    apply pow_incr. split; [apply Rmult_le_pos; lra|]. apply Rmult_le_compat_l; lra. }
  assert (K : forall f : nat -> R -> R, (forall n t, A <= t <= B -> Rabs (f (S n) t - f n t) <= b n) ->
    forall n t, A <= t <= B -> Rabs (f 0%nat t + Series (fun i => f (S i) t - f i t) - f n t) <= Series (fun i => b (n + i)%nat)).
  { intros f Hf n t Ht.
    assert (Ex : forall m, ex_series (fun i => Rabs (f (S (m + i)) t - f (m + i)%nat t))).
    { intros m. apply (ex_series_le (K := R_AbsRing) (V := R_CompleteNormedModule) _ (fun i => b (m + i)%nat)).
      - intros i. change (Rabs (Rabs (f (S (m + i)) t - f (m + i)%nat t)) <= b (m + i)%nat). rewrite Rabs_Rabsolu. apply Hf. exact Ht.
      - apply (ex_series_incr_n b m). exact Hb. }
    assert (T : f 0%nat t + Series (fun i => f (S i) t - f i t) - f n t = Series (fun i => f (S (n + i)) t - f (n + i)%nat t)).
    { destruct n as [|n]; [cbn [Nat.add]; ring|].
      rewrite (Series_incr_n (fun i => f (S i) t - f i t) (S n)); [|lia|apply ex_series_Rabs; apply (Ex 0%nat)].
      assert (S' : forall m, sum_f_R0 (fun i => f (S i) t - f i t) m = f (S m) t - f 0%nat t).
      { induction m as [|m IHm]; [reflexivity|]. cbn [sum_f_R0]. rewrite IHm. ring. }
      cbn [pred]. rewrite S'. change (fun k => f (S (S n + k)) t - f (S n + k)%nat t) with (fun i => f (S (S n + i)) t - f (S n + i)%nat t). ring. }
    rewrite T. eapply Rle_trans; [apply Series_Rabs; apply Ex|].
    apply Series_le; [|apply (ex_series_incr_n b n); exact Hb].
    intros i. split; [apply Rabs_pos|]. apply Hf. exact Ht. }
  exists (fun t => py 0 t + Series (fun i => py (S i) t - py i t)), (fun t => pw 0 t + Series (fun i => pw (S i) t - pw i t)),
    (fun n => Series (fun i => b (n + i)%nat)).
  split.
  - assert (E : forall n, Series (fun i => b (n + i)%nat) = Series b - sum_n b n + b n).
    { intros n. destruct n as [|n].
      - rewrite sum_O. cbn [Nat.add]. change (fun i => b i) with b. ring.
      - rewrite (Series_incr_n b (S n) ltac:(lia) Hb). cbn [pred]. rewrite sum_Sn, sum_n_Reals.
        change (plus (sum_f_R0 b n) (b (S n))) with (sum_f_R0 b n + b (S n)). ring. }
    apply (is_lim_seq_ext (fun n => Series b - sum_n b n + b n)); [intros n; symmetry; apply E|].
    replace 0 with (Series b - Series b + 0) by ring.
    apply (is_lim_seq_plus' _ _ (Series b - Series b) 0).
    + apply (is_lim_seq_minus' _ _ (Series b) (Series b)); [apply is_lim_seq_const|]. apply Series_correct in Hb. exact Hb.
    + apply ex_series_lim_0. exact Hb.
  - intros n t Ht. split.
    + apply (K py); [|exact Ht]. intros m u Hu. eapply Rle_trans; [|apply Hdb; exact Hu]. unfold dif. pose proof (Rabs_pos (pw (S m) u - pw m u)). lra.
    + apply (K pw); [|exact Ht]. intros m u Hu. eapply Rle_trans; [|apply Hdb; exact Hu]. unfold dif. pose proof (Rabs_pos (py (S m) u - py m u)). lra.
Qed.

Definition clamp (t : R) : R := Rmax A (Rmin t B).

Lemma clamp_in : forall t, A <= clamp t <= B.
Proof using HAB. intros t. unfold clamp. split; [apply Rmax_l|]. apply Rmax_lub; [lra|apply Rmin_r]. Qed.
Lemma clamp_id : forall t, A <= t <= B -> clamp t = t.
Proof. intros t Ht. unfold clamp. rewrite Rmin_left, Rmax_right; lra. Qed.
Lemma clamp_cont : forall t, continuous clamp t.
Proof.
  intros t. apply (continuous_ext (fun t => (A + (t + B - Rabs (t - B)) / 2 + Rabs (A - (t + B - Rabs (t - B)) / 2)) / 2)).
  - intros x. unfold clamp.
    assert (E : (x + B - Rabs (x - B)) / 2 = Rmin x B).
    { unfold Rmin. destruct (Rle_dec x B); [rewrite Rabs_left1 by lra|rewrite Rabs_pos_eq by lra]; field. }
    rewrite E. unfold Rmax. match goal with |- @eq _ ?u ?v => change (@eq R u v) end. destruct (Rle_dec A (Rmin x B)); [rewrite Rabs_left1 by lra|rewrite Rabs_pos_eq by lra]; field.
  - assert (C : forall (f : R -> R), continuous f t -> continuous (fun x => Rabs (f x)) t)
      by (intros f Hf; apply (continuous_comp f Rabs); [exact Hf|apply continuous_Rabs]).
    assert (CM : forall (f : R -> R) c, continuous f t -> continuous (fun x => f x / c) t)
      by (intros f c Hf; apply (continuous_mult (K := R_AbsRing) f (fun _ => / c)); [exact Hf|apply continuous_const]).
    assert (CI : continuous (fun x : R => x) t) by apply continuous_id.
    assert (CK : forall c : R, continuous (fun _ : R => c) t) by (intros; apply continuous_const).
    assert (CP : forall f g : R -> R, continuous f t -> continuous g t -> continuous (fun x => f x + g x) t)
      by (intros; apply (continuous_plus (V := R_NormedModule)); assumption).
    assert (CS : forall f g : R -> R, continuous f t -> continuous g t -> continuous (fun x => f x - g x) t)
      by (intros; apply (continuous_minus (V := R_NormedModule)); assumption).
    assert (C1 : continuous (fun x => (x + B - Rabs (x - B)) / 2) t) by (apply CM, CS; [apply CP; auto|apply C, CS; auto]).
    apply CM. apply CP; [apply CP; auto|]. apply C. apply CS; auto.
Qed.

Lemma picard : exists Y W : R -> R, Y A = y0 /\ W A = w0 /\ (forall t, continuous Y t /\ continuous W t) /\
  forall t, A < t < B -> is_derive Y t (W t) /\ is_derive W t (s t - p t * W t - q t * Y t).
Proof using Hp Hq Hs HL HAB.
  destruct limits as (Y & W & tau & Ht & Hlim). pose proof L_pos as HL0.
  set (Yc := fun t => Y (clamp t)). set (Wc := fun t => W (clamp t)).
  assert (CY : forall t, continuous Yc t).
  { apply (unif_cont Yc (fun n t => py n (clamp t)) tau); [| |exact Ht].
    - intros n t. apply (continuous_comp clamp (py n)); [apply clamp_cont|apply pic_cont].
    - intros n t. apply Hlim. apply clamp_in. }
  assert (CW : forall t, continuous Wc t).
  { apply (unif_cont Wc (fun n t => pw n (clamp t)) tau); [| |exact Ht].
    - intros n t. apply (continuous_comp clamp (pw n)); [apply clamp_cont|apply pic_cont].
    - intros n t. apply Hlim. apply clamp_in. }
  assert (LT : forall c, is_lim_seq (fun n => tau (S n) + tau n * c) 0).
  { intros c. replace 0 with (0 + 0 * c) by ring. apply (is_lim_seq_plus' _ _ 0 (0 * c)).
    - apply (is_lim_seq_incr_1 tau). exact Ht.
    - apply (is_lim_seq_mult' tau (fun _ => c) 0 c); [exact Ht|apply is_lim_seq_const]. }
  assert (Ktau : forall n c r, A <= r <= B -> RInt (fun _ => tau n * c) A r <= tau n * c * (B - A) \/ tau n * c < 0).
  { intros n c r Hr. destruct (Rlt_le_dec (tau n * c) 0) as [H|H]; [right; exact H|left].
    replace (RInt (fun _ => tau n * c) A r) with (scal (r - A) (tau n * c)) by (symmetry; exact (RInt_const (V := R_CompleteNormedModule) A r (tau n * c))).
    change ((r - A) * (tau n * c) <= tau n * c * (B - A)). nra. }
  assert (Tpos : forall n, 0 <= tau n) by (intros n; pose proof (proj1 (Hlim n A ltac:(lra))); pose proof (Rabs_pos (Y A - py n A)); lra).
  assert (IY : forall r, A <= r <= B -> Y r = y0 + RInt Wc A r).
  { intros r Hr. apply Rminus_diag_uniq. apply (small_zero _ (fun n => tau (S n) + tau n * (B - A))); [|apply LT].
    intros n. destruct (pic_S n) as [E _].
    assert (X : RInt (pw n) A r - RInt Wc A r = RInt (fun t => pw n t - Wc t) A r) by (apply rint_minus; [intros; apply pic_cont|exact CW]).
    replace (Y r - (y0 + RInt Wc A r)) with ((Y r - py (S n) r) + RInt (fun t => pw n t - Wc t) A r)
      by (rewrite <- X, E; ring).
    eapply Rle_trans; [apply Rabs_triang|]. apply Rplus_le_compat; [apply Hlim; exact Hr|].
    eapply Rle_trans; [apply (rint_abs _ (fun _ => tau n * 1)); [lra| | |]|].
    - intros t. apply (continuous_minus (V := R_NormedModule) (pw n) Wc); [apply pic_cont|apply CW].
    - intros t. apply continuous_const.
    - intros t Ht'. unfold Wc. rewrite clamp_id by lra. rewrite Rabs_minus_sym, Rmult_1_r. apply Hlim. lra.
    - destruct (Ktau n 1 r Hr) as [K|K]; [eapply Rle_trans; [exact K|]; lra|]. pose proof (Tpos n). lra. }
  assert (IW : forall r, A <= r <= B -> W r = w0 + RInt (rhs Yc Wc) A r).
  { intros r Hr. apply Rminus_diag_uniq. apply (small_zero _ (fun n => tau (S n) + tau n * ((2 * L) * (B - A)))); [|apply LT].
    intros n. destruct (pic_S n) as [_ E].
    assert (CP : forall t, continuous (rhs (py n) (pw n)) t) by (apply rhs_cont; intros; apply pic_cont).
    assert (CR : forall t, continuous (rhs Yc Wc) t) by (apply rhs_cont; assumption).
    assert (X : RInt (rhs (py n) (pw n)) A r - RInt (rhs Yc Wc) A r = RInt (fun t => rhs (py n) (pw n) t - rhs Yc Wc t) A r)
      by (apply rint_minus; assumption).
    replace (W r - (w0 + RInt (rhs Yc Wc) A r)) with ((W r - pw (S n) r) + RInt (fun t => rhs (py n) (pw n) t - rhs Yc Wc t) A r)
      by (rewrite <- X, E; ring).
    eapply Rle_trans; [apply Rabs_triang|]. apply Rplus_le_compat; [apply Hlim; exact Hr|].
    eapply Rle_trans; [apply (rint_abs _ (fun _ => tau n * (2 * L))); [lra| | |]|].
    - intros t. apply (continuous_minus (V := R_NormedModule)); [apply CP|apply CR].
    - intros t. apply continuous_const.
    - intros t Ht'. unfold rhs, Yc, Wc. rewrite clamp_id by lra. destruct (HL t) as [H1 H2]. destruct (Hlim n t ltac:(lra)) as [H3 H4].
      replace (s t - p t * pw n t - q t * py n t - (s t - p t * W t - q t * Y t)) with (p t * (W t - pw n t) + q t * (Y t - py n t)) by ring.
      eapply Rle_trans; [apply Rabs_triang|]. rewrite !Rabs_mult.
      pose proof (Rmult_le_compat _ _ _ _ (Rabs_pos _) (Rabs_pos _) H1 H4). pose proof (Rmult_le_compat _ _ _ _ (Rabs_pos _) (Rabs_pos _) H2 H3). lra.
    - destruct (Ktau n (2 * L) r Hr) as [K|K]; [eapply Rle_trans; [exact K|]; lra|]. pose proof (Tpos n). pose proof (Rmult_le_pos (tau n) (2 * L) H ltac:(lra)). lra. }
  assert (CR : forall t, continuous (rhs Yc Wc) t) by (apply rhs_cont; assumption).
  exists (fun r => y0 + RInt Wc A r), (fun r => w0 + RInt (rhs Yc Wc) A r).
  assert (DY : forall t, is_derive (fun r => y0 + RInt Wc A r) t (Wc t)).
  { intros t. replace (Wc t) with (0 + Wc t) by ring.
    apply (is_derive_plus (V := R_NormedModule) (fun _ => y0) (fun r => RInt Wc A r)); [apply (is_derive_const (V := R_NormedModule))|apply derive_rint; exact CW]. }
  assert (DW : forall t, is_derive (fun r => w0 + RInt (rhs Yc Wc) A r) t (rhs Yc Wc t)).
  { intros t. replace (rhs Yc Wc t) with (0 + rhs Yc Wc t) by ring.
    apply (is_derive_plus (V := R_NormedModule) (fun _ => w0) (fun r => RInt (rhs Yc Wc) A r)); [apply (is_derive_const (V := R_NormedModule))|apply derive_rint; exact CR]. }
  split; [|split; [|split]].
  - replace (RInt Wc A A) with 0 by (symmetry; exact (RInt_point A Wc)). ring.
  - replace (RInt (rhs Yc Wc) A A) with 0 by (symmetry; exact (RInt_point A (rhs Yc Wc))). ring.
  - intros t. split; apply (ex_derive_continuous (K := R_AbsRing) (V := R_NormedModule)); eexists; [apply DY|apply DW].
  - intros t Ht'. cbv beta. rewrite <- (IY t), <- (IW t) by lra. split.
    + replace (W t) with (Wc t) by (unfold Wc; rewrite clamp_id by lra; reflexivity). apply DY.
    + replace (s t - p t * W t - q t * Y t) with (rhs Yc Wc t) by (unfold rhs, Yc, Wc; rewrite clamp_id by lra; reflexivity). apply DW.
Qed.
End Picard.
