(** Central difference remainders. *)
From Coq Require Import Reals Lra Lia.
From Coquelicot Require Import Coquelicot.
Open Scope R_scope.

Lemma mono_bound : forall (F F' : R -> R) c n h,
  0 <= c -> F 0 = 0 ->
  (forall t, 0 <= t <= h -> is_derive F t (F' t)) ->
  (forall t, 0 <= t <= h -> Rabs (F' t) <= c * INR (S n) * t ^ n) ->
  forall t, 0 <= t <= h -> Rabs (F t) <= c * t ^ (S n).
Proof.
  intros F F' c n h Hc H0 HF HF' t Ht.
  destruct (Req_dec t 0) as [->|Hne].
  - rewrite H0, Rabs_R0. simpl. rewrite Rmult_0_l, Rmult_0_r. lra.
  - assert (Hp : 0 < t) by lra.
    assert (Hup : F t <= c * t ^ (S n)).
    { destruct (MVT_gen (fun s => F s - c * s ^ (S n)) 0 t
        (fun s => F' s - c * (INR (S n) * s ^ n))) as [s [Hs Es]].
      - intros s Hs. rewrite Rmin_left, Rmax_right in Hs by lra.
        apply (is_derive_minus (V := R_NormedModule)); [apply HF; lra|].
        apply (is_derive_scal (fun s => s ^ S n)).
        pose proof (is_derive_pow (fun s => s) (S n) s 1 (is_derive_id s)) as Hd.
        simpl pred in Hd. rewrite Rmult_1_r in Hd. exact Hd.
      - intros s Hs. rewrite Rmin_left, Rmax_right in Hs by lra.
        apply continuity_pt_filterlim.
        apply (ex_derive_continuous (fun s => F s - c * s ^ S n)).
        apply (ex_derive_minus (V := R_NormedModule)); [eexists; apply HF; lra|].
        auto_derive. exact I.
      - rewrite Rmin_left, Rmax_right in Hs by lra.
        pose proof (Rle_trans _ _ _ (Rle_abs _) (HF' s ltac:(lra))) as Hb.
        rewrite H0 in Es. simpl (0 ^ S n) in Es.
        assert ((F' s - c * (INR (S n) * s ^ n)) * (t - 0) <= 0).
        { apply Rmult_le_0_r; lra. }
        lra. }
    assert (Hlo : - F t <= c * t ^ (S n)).
    { destruct (MVT_gen (fun s => F s + c * s ^ (S n)) 0 t
        (fun s => F' s + c * (INR (S n) * s ^ n))) as [s [Hs Es]].
      - intros s Hs. rewrite Rmin_left, Rmax_right in Hs by lra.
        apply (is_derive_plus (V := R_NormedModule)); [apply HF; lra|].
        apply (is_derive_scal (fun s => s ^ S n)).
        pose proof (is_derive_pow (fun s => s) (S n) s 1 (is_derive_id s)) as Hd.
        simpl pred in Hd. rewrite Rmult_1_r in Hd. exact Hd.
      - intros s Hs. rewrite Rmin_left, Rmax_right in Hs by lra.
        apply continuity_pt_filterlim.
        apply (ex_derive_continuous (fun s => F s + c * s ^ S n)).
        apply (ex_derive_plus (V := R_NormedModule)); [eexists; apply HF; lra|].
        auto_derive. exact I.
      - rewrite Rmin_left, Rmax_right in Hs by lra.
        pose proof (HF' s ltac:(lra)) as Hb. apply Rabs_le_between in Hb.
        rewrite H0 in Es. simpl (0 ^ S n) in Es.
        assert (0 <= (F' s + c * (INR (S n) * s ^ n)) * (t - 0)).
        { apply Rmult_le_pos; lra. }
        lra. }
    apply Rabs_le. lra.
Qed.

(** Second and first central differences of [g]. *)
Definition dd (g : R -> R) (x h : R) : R := g (x + h) - 2 * g x + g (x - h).
Definition d1 (g : R -> R) (x h : R) : R := g (x + h) - g (x - h).

Section Chain.
Variable (g : nat -> R -> R) (x h : R) (n : nat).
Hypothesis Hg : forall i, (i < n)%nat -> forall t, x - h <= t <= x + h ->
  is_derive (g i) t (g (S i) t).

Lemma shift_plus : forall i t, (i < n)%nat -> 0 <= t <= h ->
  is_derive (fun s => g i (x + s)) t (g (S i) (x + t)).
Proof.
  intros i t Hi Ht. rewrite <- (Rmult_1_l (g (S i) (x + t))).
  apply (is_derive_comp (g i) (fun s => x + s)).
  - apply Hg; [exact Hi|lra].
  - auto_derive; [exact I|ring].
Qed.

Lemma shift_minus : forall i t, (i < n)%nat -> 0 <= t <= h ->
  is_derive (fun s => g i (x - s)) t (- g (S i) (x - t)).
Proof.
  intros i t Hi Ht. replace (- g (S i) (x - t)) with ((-1) * g (S i) (x - t)) by ring.
  apply (is_derive_comp (g i) (fun s => x - s)).
  - apply Hg; [exact Hi|lra].
  - auto_derive; [exact I|ring].
Qed.

(** Derivatives in [t] of even and odd combinations minus polynomials. *)
Lemma even_derive : forall i t (p : R -> R) p', (i < n)%nat -> 0 <= t <= h ->
  is_derive p t p' ->
  is_derive (fun s => g i (x + s) + g i (x - s) - p s) t
            (g (S i) (x + t) - g (S i) (x - t) - p').
Proof.
  intros i t p p' Hi Ht Hp.
  apply (is_derive_minus (V := R_NormedModule)); [|exact Hp].
  apply (is_derive_plus (V := R_NormedModule)); [apply shift_plus; assumption|apply shift_minus; assumption].
Qed.

Lemma odd_derive : forall i t (p : R -> R) p', (i < n)%nat -> 0 <= t <= h ->
  is_derive p t p' ->
  is_derive (fun s => g i (x + s) - g i (x - s) - p s) t
            (g (S i) (x + t) + g (S i) (x - t) - p').
Proof.
  intros i t p p' Hi Ht Hp.
  apply (is_derive_minus (V := R_NormedModule)); [|exact Hp].
  replace (g (S i) (x + t) + g (S i) (x - t)) with (g (S i) (x + t) - (- g (S i) (x - t))) by ring.
  apply (is_derive_minus (V := R_NormedModule)); [apply shift_plus; assumption|apply shift_minus; assumption].
Qed.

Variable M : R.
Hypothesis HM : forall t, x - h <= t <= x + h -> Rabs (g n t) <= M.
Hypothesis Hh : 0 <= h.

Lemma M_pos : 0 <= M.
Proof. eapply Rle_trans; [apply Rabs_pos|apply (HM x); lra]. Qed.

Lemma top_even : forall t, 0 <= t <= h -> Rabs (g n (x + t) + g n (x - t) - 0) <= 2 * M.
Proof.
  intros t Ht. rewrite Rminus_0_r. eapply Rle_trans; [apply Rabs_triang|].
  pose proof (HM (x + t) ltac:(lra)). pose proof (HM (x - t) ltac:(lra)). lra.
Qed.
Lemma top_odd : forall t, 0 <= t <= h -> Rabs (g n (x + t) - g n (x - t) - 0) <= 2 * M.
Proof.
  intros t Ht. rewrite Rminus_0_r.
  pose proof (Rabs_triang (g n (x + t)) (- g n (x - t))) as H. rewrite Rabs_Ropp in H.
  fold (g n (x + t) - g n (x - t)) in H.
  pose proof (HM (x + t) ltac:(lra)). pose proof (HM (x - t) ltac:(lra)). lra.
Qed.
End Chain.

Ltac same_abs H :=
  match type of H with Rabs ?b <= _ =>
    match goal with |- Rabs ?a <= _ => replace a with b by ring; exact H end end.

Ltac pder := auto_derive; [exact I|simpl; field].

Lemma odd1 : forall (g : nat -> R -> R) x h M, 0 <= h ->
  (forall i, (i < 1)%nat -> forall t, x - h <= t <= x + h -> is_derive (g i) t (g (S i) t)) ->
  (forall t, x - h <= t <= x + h -> Rabs (g 1%nat t) <= M) ->
  forall t, 0 <= t <= h -> Rabs (g 0%nat (x + t) - g 0%nat (x - t) - 0) <= 2 * M * t ^ 1.
Proof.
  intros g x h M Hh Hg HM t Ht.
  pose proof (M_pos g x h 1 M HM Hh) as Mp.
  apply (mono_bound (fun s => g 0%nat (x + s) - g 0%nat (x - s) - 0)
    (fun s => g 1%nat (x + s) + g 1%nat (x - s) - 0) (2 * M) 0 h); try lra.
  - rewrite Rplus_0_r, !Rminus_0_r. ring.
  - intros s Hs. apply (odd_derive g x h 1 Hg 0 s (fun _ => 0) 0); [lia|lra|pder].
  - intros s Hs. simpl. pose proof (top_even g x h 1 M HM Hh s Hs). lra.
Qed.

Lemma even2 : forall (g : nat -> R -> R) x h M, 0 <= h ->
  (forall i, (i < 2)%nat -> forall t, x - h <= t <= x + h -> is_derive (g i) t (g (S i) t)) ->
  (forall t, x - h <= t <= x + h -> Rabs (g 2%nat t) <= M) ->
  forall t, 0 <= t <= h ->
    Rabs (g 0%nat (x + t) + g 0%nat (x - t) - 2 * g 0%nat x) <= M * t ^ 2.
Proof.
  intros g x h M Hh Hg HM t Ht.
  pose proof (M_pos g x h 2 M HM Hh) as Mp.
  apply (mono_bound (fun s => g 0%nat (x + s) + g 0%nat (x - s) - 2 * g 0%nat x)
    (fun s => g 1%nat (x + s) - g 1%nat (x - s) - 0) M 1 h); try lra.
  - rewrite Rplus_0_r, !Rminus_0_r. ring.
  - intros s Hs. apply (even_derive g x h 2 Hg 0 s (fun _ => 2 * g 0%nat x) 0); [lia|lra|pder].
  - intros s Hs.
    assert (H1 : Rabs (g 1%nat (x + s) - g 1%nat (x - s) - 0) <= 2 * M * s ^ 1).
    { apply (odd1 (fun i => g (S i)) x h M Hh); [intros i Hi; apply Hg; lia|exact HM|exact Hs]. }
    simpl. simpl in H1. lra.
Qed.

Lemma odd3 : forall (g : nat -> R -> R) x h M, 0 <= h ->
  (forall i, (i < 3)%nat -> forall t, x - h <= t <= x + h -> is_derive (g i) t (g (S i) t)) ->
  (forall t, x - h <= t <= x + h -> Rabs (g 3%nat t) <= M) ->
  forall t, 0 <= t <= h ->
    Rabs (g 0%nat (x + t) - g 0%nat (x - t) - 2 * t * g 1%nat x) <= M / 3 * t ^ 3.
Proof.
  intros g x h M Hh Hg HM t Ht.
  pose proof (M_pos g x h 3 M HM Hh) as Mp.
  apply (mono_bound (fun s => g 0%nat (x + s) - g 0%nat (x - s) - 2 * s * g 1%nat x)
    (fun s => g 1%nat (x + s) + g 1%nat (x - s) - 2 * g 1%nat x) (M / 3) 2 h); try lra.
  - rewrite Rplus_0_r, !Rminus_0_r. ring.
  - intros s Hs.
    apply (odd_derive g x h 3 Hg 0 s (fun s => 2 * s * g 1%nat x) (2 * g 1%nat x)); [lia|lra|pder].
  - intros s Hs.
    assert (H1 : Rabs (g 1%nat (x + s) + g 1%nat (x - s) - 2 * g 1%nat x) <= M * s ^ 2).
    { apply (even2 (fun i => g (S i)) x h M Hh); [intros i Hi; apply Hg; lia|exact HM|exact Hs]. }
    simpl. simpl in H1. lra.
Qed.

Lemma even4 : forall (g : nat -> R -> R) x h M, 0 <= h ->
  (forall i, (i < 4)%nat -> forall t, x - h <= t <= x + h -> is_derive (g i) t (g (S i) t)) ->
  (forall t, x - h <= t <= x + h -> Rabs (g 4%nat t) <= M) ->
  forall t, 0 <= t <= h ->
    Rabs (g 0%nat (x + t) + g 0%nat (x - t) - (2 * g 0%nat x + t ^ 2 * g 2%nat x)) <= M / 12 * t ^ 4.
Proof.
  intros g x h M Hh Hg HM t Ht.
  pose proof (M_pos g x h 4 M HM Hh) as Mp.
  apply (mono_bound
    (fun s => g 0%nat (x + s) + g 0%nat (x - s) - (2 * g 0%nat x + s ^ 2 * g 2%nat x))
    (fun s => g 1%nat (x + s) - g 1%nat (x - s) - 2 * s * g 2%nat x) (M / 12) 3 h); try lra.
  - rewrite Rplus_0_r, !Rminus_0_r. ring.
  - intros s Hs.
    apply (even_derive g x h 4 Hg 0 s (fun s => 2 * g 0%nat x + s ^ 2 * g 2%nat x)
      (2 * s * g 2%nat x)); [lia|lra|pder].
  - intros s Hs.
    assert (H1 : Rabs (g 1%nat (x + s) - g 1%nat (x - s) - 2 * s * g 2%nat x) <= M / 3 * s ^ 3).
    { apply (odd3 (fun i => g (S i)) x h M Hh); [intros i Hi; apply Hg; lia|exact HM|exact Hs]. }
    simpl. simpl in H1. lra.
Qed.

Lemma odd5 : forall (g : nat -> R -> R) x h M, 0 <= h ->
  (forall i, (i < 5)%nat -> forall t, x - h <= t <= x + h -> is_derive (g i) t (g (S i) t)) ->
  (forall t, x - h <= t <= x + h -> Rabs (g 5%nat t) <= M) ->
  forall t, 0 <= t <= h ->
    Rabs (g 0%nat (x + t) - g 0%nat (x - t) - (2 * t * g 1%nat x + t ^ 3 / 3 * g 3%nat x))
      <= M / 60 * t ^ 5.
Proof.
  intros g x h M Hh Hg HM t Ht.
  pose proof (M_pos g x h 5 M HM Hh) as Mp.
  apply (mono_bound
    (fun s => g 0%nat (x + s) - g 0%nat (x - s) - (2 * s * g 1%nat x + s ^ 3 / 3 * g 3%nat x))
    (fun s => g 1%nat (x + s) + g 1%nat (x - s) - (2 * g 1%nat x + s ^ 2 * g 3%nat x))
    (M / 60) 4 h); try lra.
  - rewrite Rplus_0_r, !Rminus_0_r. field.
  - intros s Hs.
    apply (odd_derive g x h 5 Hg 0 s (fun s => 2 * s * g 1%nat x + s ^ 3 / 3 * g 3%nat x)
      (2 * g 1%nat x + s ^ 2 * g 3%nat x)); [lia|lra|pder].
  - intros s Hs.
    assert (H1 : Rabs (g 1%nat (x + s) + g 1%nat (x - s) - (2 * g 1%nat x + s ^ 2 * g 3%nat x))
      <= M / 12 * s ^ 4).
    { apply (even4 (fun i => g (S i)) x h M Hh); [intros i Hi; apply Hg; lia|exact HM|exact Hs]. }
    simpl. simpl in H1. lra.
Qed.

Lemma even6 : forall (g : nat -> R -> R) x h M, 0 <= h ->
  (forall i, (i < 6)%nat -> forall t, x - h <= t <= x + h -> is_derive (g i) t (g (S i) t)) ->
  (forall t, x - h <= t <= x + h -> Rabs (g 6%nat t) <= M) ->
  forall t, 0 <= t <= h ->
    Rabs (g 0%nat (x + t) + g 0%nat (x - t)
          - (2 * g 0%nat x + t ^ 2 * g 2%nat x + t ^ 4 / 12 * g 4%nat x)) <= M / 360 * t ^ 6.
Proof.
  intros g x h M Hh Hg HM t Ht.
  pose proof (M_pos g x h 6 M HM Hh) as Mp.
  apply (mono_bound
    (fun s => g 0%nat (x + s) + g 0%nat (x - s)
       - (2 * g 0%nat x + s ^ 2 * g 2%nat x + s ^ 4 / 12 * g 4%nat x))
    (fun s => g 1%nat (x + s) - g 1%nat (x - s) - (2 * s * g 2%nat x + s ^ 3 / 3 * g 4%nat x))
    (M / 360) 5 h); try lra.
  - rewrite Rplus_0_r, !Rminus_0_r. field.
  - intros s Hs.
    apply (even_derive g x h 6 Hg 0 s
      (fun s => 2 * g 0%nat x + s ^ 2 * g 2%nat x + s ^ 4 / 12 * g 4%nat x)
      (2 * s * g 2%nat x + s ^ 3 / 3 * g 4%nat x)); [lia|lra|pder].
  - intros s Hs.
    assert (H1 : Rabs (g 1%nat (x + s) - g 1%nat (x - s)
        - (2 * s * g 2%nat x + s ^ 3 / 3 * g 4%nat x)) <= M / 60 * s ^ 5).
    { apply (odd5 (fun i => g (S i)) x h M Hh); [intros i Hi; apply Hg; lia|exact HM|exact Hs]. }
    simpl. simpl in H1. lra.
Qed.

(** The same, in terms of the difference operators at the end point. *)
Section Ops.
Variable (g : nat -> R -> R) (x h M : R).
Hypothesis Hh : 0 <= h.

Lemma dd_2 : (forall i, (i < 2)%nat -> forall t, x - h <= t <= x + h -> is_derive (g i) t (g (S i) t)) ->
  (forall t, x - h <= t <= x + h -> Rabs (g 2%nat t) <= M) ->
  Rabs (dd (g 0%nat) x h) <= M * h ^ 2.
Proof.
  intros Hg HM. pose proof (even2 g x h M Hh Hg HM h ltac:(lra)) as H.
  unfold dd. replace (_ - _ + _) with (g 0%nat (x + h) + g 0%nat (x - h) - 2 * g 0%nat x) by ring.
  exact H.
Qed.
Lemma dd_4 : (forall i, (i < 4)%nat -> forall t, x - h <= t <= x + h -> is_derive (g i) t (g (S i) t)) ->
  (forall t, x - h <= t <= x + h -> Rabs (g 4%nat t) <= M) ->
  Rabs (dd (g 0%nat) x h - h ^ 2 * g 2%nat x) <= M / 12 * h ^ 4.
Proof.
  intros Hg HM. pose proof (even4 g x h M Hh Hg HM h ltac:(lra)) as H.
  unfold dd. same_abs H.
Qed.
Lemma dd_6 : (forall i, (i < 6)%nat -> forall t, x - h <= t <= x + h -> is_derive (g i) t (g (S i) t)) ->
  (forall t, x - h <= t <= x + h -> Rabs (g 6%nat t) <= M) ->
  Rabs (dd (g 0%nat) x h - h ^ 2 * g 2%nat x - h ^ 4 / 12 * g 4%nat x) <= M / 360 * h ^ 6.
Proof.
  intros Hg HM. pose proof (even6 g x h M Hh Hg HM h ltac:(lra)) as H.
  unfold dd. same_abs H.
Qed.
Lemma d1_1 : (forall i, (i < 1)%nat -> forall t, x - h <= t <= x + h -> is_derive (g i) t (g (S i) t)) ->
  (forall t, x - h <= t <= x + h -> Rabs (g 1%nat t) <= M) ->
  Rabs (d1 (g 0%nat) x h) <= 2 * M * h.
Proof.
  intros Hg HM. pose proof (odd1 g x h M Hh Hg HM h ltac:(lra)) as H.
  unfold d1. rewrite Rminus_0_r, pow_1 in H. exact H.
Qed.
Lemma d1_3 : (forall i, (i < 3)%nat -> forall t, x - h <= t <= x + h -> is_derive (g i) t (g (S i) t)) ->
  (forall t, x - h <= t <= x + h -> Rabs (g 3%nat t) <= M) ->
  Rabs (d1 (g 0%nat) x h - 2 * h * g 1%nat x) <= M / 3 * h ^ 3.
Proof. intros Hg HM. exact (odd3 g x h M Hh Hg HM h ltac:(lra)). Qed.
Lemma d1_5 : (forall i, (i < 5)%nat -> forall t, x - h <= t <= x + h -> is_derive (g i) t (g (S i) t)) ->
  (forall t, x - h <= t <= x + h -> Rabs (g 5%nat t) <= M) ->
  Rabs (d1 (g 0%nat) x h - 2 * h * g 1%nat x - h ^ 3 / 3 * g 3%nat x) <= M / 60 * h ^ 5.
Proof.
  intros Hg HM. pose proof (odd5 g x h M Hh Hg HM h ltac:(lra)) as H.
  unfold d1. same_abs H.
Qed.
End Ops.
