(** The Fourier ODE system is the separated Helmholtz equation. *)
From Coq Require Import ZArith List Bool Reals Lia Lra.
From Coquelicot Require Import Coquelicot.
From Verif Require Import Model_Py Model_Grid Model_Fourier Model_Domain Model_Ode Lib_Csum
  Proof_Fourier Proof_ArcDst Proof_Consist Spec_Fd Spec_PolarFD Spec_Ode.
Import ListNotations.
Open Scope R_scope.

Lemma sine_series_derive_c : forall M (c c' : nat -> R -> R) (s : nat -> R) r,
  (forall m, (m < M)%nat -> is_derive (c m) r (c' m r)) ->
  is_derive (fun t => rsum M (fun m => c m t * s m)) r (rsum M (fun m => c' m r * s m)).
Proof.
  intros M c c' s r H.
  apply (rsum_is_derive M (fun m t => c m t * s m) (fun m t => c' m t * s m)).
  intros m Hm.
  apply (is_derive_ext (fun t => s m * c m t)); [intros t; apply Rmult_comm|].
  rewrite (Rmult_comm (c' m r)). apply is_derive_scal. apply H. assumption.
Qed.

(** Derivatives of sin(w (th - a)) of order 0, 1, 2. *)
Definition sin_d (w a : R) (j : nat) (th : R) : R :=
  match j with
  | 0%nat => sin (w * (th - a))
  | 1%nat => w * cos (w * (th - a))
  | _ => - w ^ 2 * sin (w * (th - a))
  end.

Lemma sin_d_derive : forall w a j (th : R), (j < 2)%nat -> is_derive (sin_d w a j) th (sin_d w a (S j) th).
Proof.
  intros w a [|[|j]] th Hj; [| |lia].
  - change (is_derive (fun th => sin (w * (th - a))) th (w * cos (w * (th - a)))).
    auto_derive; [exact I|unfold Rminus; ring].
  - change (is_derive (fun th => w * cos (w * (th - a))) th (- w ^ 2 * sin (w * (th - a)))).
    auto_derive; [exact I|unfold Rminus; ring].
Qed.

Lemma sum_derive_th : forall M (c : nat -> R) (s s' : nat -> R -> R) th,
  (forall m, (m < M)%nat -> is_derive (s m) th (s' m th)) ->
  is_derive (fun t => rsum M (fun m => c m * s m t)) th (rsum M (fun m => c m * s' m th)).
Proof.
  intros M c s s' th H.
  apply (rsum_is_derive M (fun m t => c m * s m t) (fun m t => c m * s' m t)).
  intros m Hm. apply is_derive_scal. apply H. assumption.
Qed.

Lemma Ok_inj : forall A (x y : A), Ok x = Ok y -> x = y.
Proof. intros A x y H. injection H as H. exact H. Qed.

Lemma even_div : forall m, Nat.even (2 * m) = true /\ Nat.even (2 * m + 1) = false /\
  Nat.div (2 * m) 2 = m /\ Nat.div (2 * m + 1) 2 = m.
Proof.
  intros m. split; [rewrite Nat.even_mul; reflexivity|].
  split; [rewrite Nat.even_add, Nat.even_mul; reflexivity|].
  split; [rewrite Nat.mul_comm; apply Nat.div_mul; lia|].
  rewrite Nat.mul_comm, Nat.div_add_l by lia. simpl. lia.
Qed.

Lemma nth_map_seqR : forall (f : nat -> R) n i, (i < n)%nat -> nth i (map f (seq 0 n)) 0 = f i.
Proof.
  intros f n i H. rewrite (nth_indep _ _ (f 0%nat)) by (rewrite map_length, seq_length; lia).
  rewrite map_nth, seq_nth by assumption. reflexivity.
Qed.

Lemma ode_solves : forall odeint init d_init f1 a nu k R0 R1 M N,
  0 < R0 < R1 ->
  (let deriv := ode_eval_deriv a nu k N f1 M in let ic := ode_ic a R0 N init d_init in
   trajectory deriv (2 * M) ic R0 R1 (odeint deriv (2 * M)%nat ic R0 R1)) ->
  exists (u : R -> R -> R) (U : nat -> nat -> R -> R -> R),
    partials 2 (fun r th => R0 < r < R1) u U /\
    (forall r th, R0 < r < R1 -> polar_helmholtz k U r th =
       sine_series a nu M (ode_dst a N (fun th => f1 r th)) th) /\
    (forall r th, R0 <= r <= R1 -> continuous (fun r => u r th) r /\ continuous (fun r => U 1%nat 0%nat r th) r) /\
    (forall th, u R0 th = sine_series a nu M (ode_dst a N (fun th => init R0 th)) th) /\
    (forall th, U 1%nat 0%nat R0 th = sine_series a nu M (ode_dst a N (fun th => d_init R0 th)) th) /\
    (forall th, u R1 th = sine_series a nu M
       (fun m => nth m (ode_calc_z1_fourier odeint init d_init f1 a nu k R0 R1 M N) 0) th).
Proof.
  intros odeint init d_init f1 a nu k R0 R1 M N HR Ht. cbv zeta in Ht.
  destruct Ht as [Y [Hend [Hcont HY]]].
  set (F := fun r m => ode_dst a N (fun th => f1 r th) m).
  set (z := fun (i m : nat) (r : R) => match i with
    | 0%nat => Y r (2 * m)%nat
    | 1%nat => Y r (2 * m + 1)%nat
    | _ => - Y r (2 * m + 1)%nat / r - (k ^ 2 - (INR (m + 1) * nu / r) ^ 2) * Y r (2 * m)%nat + F r m
    end).
  assert (Hz : forall i m r, (i < 2)%nat -> (m < M)%nat -> R0 < r < R1 -> is_derive (z i m) r (z (S i) m r)).
  { intros i m r Hi Hm Hr. destruct (HY r Hr) as [D [HD Hd]].
    unfold ode_eval_deriv in HD. unfold Reqb in HD. destruct (Req_EM_T r 0) as [E|E]; [lra|].
    apply Ok_inj in HD. destruct (even_div m) as [E1 [E2 [E3 E4]]].
    destruct i as [|[|i]]; [| |lia].
    - pose proof (Hd (2 * m)%nat ltac:(lia)) as H. rewrite <- HD in H. cbv beta zeta in H.
      rewrite E1 in H. exact H.
    - pose proof (Hd (2 * m + 1)%nat ltac:(lia)) as H. rewrite <- HD in H. cbv beta zeta in H.
      rewrite E2, E4 in H.
      replace (2 * m + 1 - 1)%nat with (2 * m)%nat in H by lia.
      replace (m + 1 - 1)%nat with m in H by lia. exact H. }
  set (s := fun (j m : nat) (th : R) => sin_d ((INR m + 1) * nu) a j th).
  exists (fun r th => rsum M (fun m => z 0%nat m r * s 0%nat m th)).
  exists (fun i j r th => rsum M (fun m => z i m r * s j m th)).
  split; [|split; [|split; [|split; [|split]]]].
  - split; [reflexivity|]. intros i j Hij r th Hr. split.
    + apply (sine_series_derive_c M (z i) (z (S i)) (fun m => s j m th)).
      intros m Hm. apply Hz; [lia|assumption|assumption].
    + apply (sum_derive_th M (fun m => z i m r) (s j) (s (S j))).
      intros m Hm. apply sin_d_derive. lia.
  - intros r th Hr. unfold polar_helmholtz, sine_series.
    set (A := rsum M (fun m => z 2%nat m r * s 0%nat m th)).
    set (B := rsum M (fun m => z 1%nat m r * s 0%nat m th)).
    set (C0 := rsum M (fun m => z 0%nat m r * s 2%nat m th)).
    set (E := rsum M (fun m => z 0%nat m r * s 0%nat m th)).
    replace (A + B / r + C0 / r ^ 2 + k ^ 2 * E)
      with (A + (/ r * B + (/ r ^ 2 * C0 + k ^ 2 * E))) by (unfold Rdiv; ring).
    unfold A, B, C0, E. rewrite <- !rsum_scal, <- !rsum_plus. apply rsum_ext.
    intros m Hm. unfold z, s, sin_d, F. rewrite plus_INR. simpl (INR 1). field. lra.
  - intros r th Hr. split.
    + apply (continuous_ext (fun r => rsum M (fun m => z 0%nat m r * s 0%nat m th))); [reflexivity|].
      assert (HM : forall n, (n <= M)%nat -> continuous (fun r => rsum n (fun m => z 0%nat m r * s 0%nat m th)) r).
      { induction n as [|n IH]; intros Hn; simpl.
        - apply continuous_const.
        - apply (continuous_plus (V := R_NormedModule)); [apply IH; lia|].
          apply (continuous_mult (K := R_AbsRing)); [apply Hcont; [lia|assumption]|apply continuous_const]. }
      apply HM. lia.
    + assert (HM : forall n, (n <= M)%nat -> continuous (fun r => rsum n (fun m => z 1%nat m r * s 0%nat m th)) r).
      { induction n as [|n IH]; intros Hn; simpl.
        - apply continuous_const.
        - apply (continuous_plus (V := R_NormedModule)); [apply IH; lia|].
          apply (continuous_mult (K := R_AbsRing)); [apply Hcont; [lia|assumption]|apply continuous_const]. }
      apply HM. lia.
  - intros th. unfold sine_series. apply rsum_ext. intros m Hm. unfold z, s, sin_d.
    destruct (Hend (2 * m)%nat ltac:(lia)) as [-> _]. unfold ode_ic.
    destruct (even_div m) as [E1 [E2 [E3 E4]]]. rewrite E1, E3.
    replace (m + 1 - 1)%nat with m by lia. reflexivity.
  - intros th. unfold sine_series. apply rsum_ext. intros m Hm. unfold z, s, sin_d.
    destruct (Hend (2 * m + 1)%nat ltac:(lia)) as [-> _]. unfold ode_ic.
    destruct (even_div m) as [E1 [E2 [E3 E4]]]. rewrite E2, E4.
    replace (m + 1 - 1)%nat with m by lia. reflexivity.
  - intros th. unfold sine_series. apply rsum_ext. intros m Hm. unfold z, s, sin_d.
    unfold ode_calc_z1_fourier. rewrite nth_map_seqR by assumption.
    destruct (Hend (2 * m)%nat ltac:(lia)) as [_ ->]. reflexivity.
Qed.

Lemma rsum_csum : forall n (f : nat -> R), RtoC (rsum n f) = csum n (fun m => RtoC (f m)).
Proof. intros. symmetry. apply csum_RtoC. Qed.

Lemma csum_pad : forall n m (f : nat -> C), (m <= n)%nat ->
  csum n (fun i => if Nat.ltb i m then f i else RtoC 0) = csum m f.
Proof.
  intros n m f H. induction n as [|n IH].
  - replace m with 0%nat by lia. reflexivity.
  - simpl. destruct (Nat.eq_dec m (S n)) as [->|Hne].
    + simpl. f_equal.
      * apply csum_ext. intros i Hi. destruct (Nat.ltb_spec i (S n)); [reflexivity|lia].
      * destruct (Nat.ltb_spec n (S n)); [reflexivity|lia].
    + rewrite IH by lia. destruct (Nat.ltb_spec n m); [lia|]. ring.
Qed.

(** The transform is exact on the first M sine modes. *)
Lemma ode_dst_series : forall a M N (c : nat -> R) func m, 2 * PI - a <> 0 -> (M <= N)%nat -> (m < M)%nat ->
  (forall th, func th = sine_series a (PI / (2 * PI - a)) M c th) -> ode_dst a N func m = c m.
Proof.
  intros a M N c func m Ha HM Hm Hf. unfold ode_dst.
  rewrite (arc_dst_modes a N m (fun th => RtoC (func th))
    (fun i => if Nat.ltb i M then RtoC (c i) else RtoC 0) Ha).
  - destruct (Nat.ltb_spec m M); [reflexivity|lia].
  - lia.
  - intros th. rewrite Hf. unfold sine_series. rewrite rsum_csum.
    rewrite <- (csum_pad N M) by assumption. apply csum_ext. intros i Hi.
    destruct (Nat.ltb i M); [rewrite RtoC_mult; reflexivity|ring].
Qed.

Lemma dst_series_id : forall a M N (c : nat -> R) func th, 2 * PI - a <> 0 -> (M <= N)%nat ->
  (forall th, func th = sine_series a (PI / (2 * PI - a)) M c th) ->
  sine_series a (PI / (2 * PI - a)) M (ode_dst a N func) th = func th.
Proof.
  intros a M N c func th Ha HM Hf. rewrite Hf. unfold sine_series. apply rsum_ext.
  intros m Hm. f_equal. apply (ode_dst_series a M N c func m Ha HM Hm Hf).
Qed.
