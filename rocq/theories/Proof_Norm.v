(** Sums of squares of grid functions and the sine transform. *)
From Coq Require Import ZArith List Bool Reals Lia Lra.
From Coquelicot Require Import Complex.
From Verif Require Import Model_Py Model_Multivalue Model_Grid Model_Fourier Lib_Csum Spec_Abcoef Spec_Grid Spec_PS
  Proof_Fourier Proof_PS Proof_Abcoef Proof_Lstsq.
Import ListNotations.
Open Scope R_scope.

(** ** Minkowski's inequality *)

Definition sq (n : nat) (x : nat -> C) : R := rsum n (fun i => Cmod (x i) ^ 2).

Lemma rsum_nonneg : forall n f, (forall i, (i < n)%nat -> 0 <= f i) -> 0 <= rsum n f.
Proof. intros n f H. rewrite <- (Rmult_0_r (INR n)), <- rsum_const. apply rsum_le. exact H. Qed.

Lemma pair_tri : forall a b c d, sqrt ((a + c) ^ 2 + (b + d) ^ 2) <= sqrt (a ^ 2 + b ^ 2) + sqrt (c ^ 2 + d ^ 2).
Proof. intros. exact (Cmod_triangle (a, b) (c, d)). Qed.

Lemma rsum_mink : forall n a b, (forall i, (i < n)%nat -> 0 <= a i /\ 0 <= b i) ->
  sqrt (rsum n (fun i => (a i + b i) ^ 2)) <= sqrt (rsum n (fun i => a i ^ 2)) + sqrt (rsum n (fun i => b i ^ 2)).
Proof.
  induction n as [|n IH]; intros a b H; cbn [rsum]; [rewrite sqrt_0; lra|].
  assert (IH' := IH a b (fun i Hi => H i (Nat.lt_lt_succ_r _ _ Hi))). destruct (H n (Nat.lt_succ_diag_r n)) as [Ha Hb].
  set (A := rsum n (fun i => a i ^ 2)) in *. set (B := rsum n (fun i => b i ^ 2)) in *. set (D := rsum n (fun i => (a i + b i) ^ 2)) in *.
  assert (PA : 0 <= A) by (apply rsum_nonneg; intros; apply pow2_ge_0). assert (PB : 0 <= B) by (apply rsum_nonneg; intros; apply pow2_ge_0).
  assert (PS : 0 <= D) by (apply rsum_nonneg; intros; apply pow2_ge_0).
  pose proof (pair_tri (sqrt A) (a n) (sqrt B) (b n)) as T. rewrite !pow2_sqrt in T by assumption.
  eapply Rle_trans; [|exact T]. apply sqrt_le_1_alt. apply Rplus_le_compat_r.
  rewrite <- (pow2_sqrt D) by exact PS. apply pow_incr. split; [apply sqrt_pos|exact IH'].
Qed.

Lemma rsum_le_nonneg : forall n f g, (forall i, (i < n)%nat -> 0 <= f i <= g i) -> 0 <= rsum n f <= rsum n g.
Proof. intros n f g H. split; [apply rsum_nonneg; intros; apply H; assumption|apply rsum_le; intros; apply H; assumption]. Qed.

Lemma sq_nonneg : forall n x, 0 <= sq n x.
Proof. intros. apply rsum_nonneg. intros. apply pow2_ge_0. Qed.

Lemma sq_tri : forall n x y z, (forall i, (i < n)%nat -> Cmod (z i) <= Cmod (x i) + Cmod (y i)) -> sqrt (sq n z) <= sqrt (sq n x) + sqrt (sq n y).
Proof.
  intros n x y z H. eapply Rle_trans; [|apply (rsum_mink n (fun i => Cmod (x i)) (fun i => Cmod (y i)))].
  - apply sqrt_le_1_alt. apply rsum_le. intros i Hi. apply pow_incr. split; [apply Cmod_ge_0|apply H; exact Hi].
  - intros. split; apply Cmod_ge_0.
Qed.

Lemma sq_ext : forall n x y, (forall i, (i < n)%nat -> x i = y i) -> sq n x = sq n y.
Proof. intros n x y H. apply rsum_ext. intros i Hi. rewrite H by exact Hi. reflexivity. Qed.

Lemma rsum_term : forall n f i, (forall j, (j < n)%nat -> 0 <= f j) -> (i < n)%nat -> f i <= rsum n f.
Proof.
  induction n as [|n IH]; intros f i H Hi; [lia|]. simpl.
  assert (0 <= rsum n f) by (apply rsum_nonneg; intros; apply H; lia). assert (0 <= f n) by (apply H; lia).
  destruct (Nat.eq_dec i n) as [->|]; [lra|]. specialize (IH f i (fun j Hj => H j (Nat.lt_lt_succ_r _ _ Hj)) ltac:(lia)). lra.
Qed.

(** ** Arrays *)

Definition gsq (N : Z) (A : arr2) : R := rsum (nn N) (fun i => rsum (nn N) (fun j => Cmod (A (Z.of_nat i) (Z.of_nat j)) ^ 2)).

Lemma gsq_nonneg : forall N A, 0 <= gsq N A.
Proof. intros. apply rsum_nonneg. intros. apply rsum_nonneg. intros. apply pow2_ge_0. Qed.

Lemma gsq_le : forall N A B, (forall i j, (0 <= i < N - 1)%Z -> (0 <= j < N - 1)%Z -> Cmod (A i j) <= Cmod (B i j)) -> gsq N A <= gsq N B.
Proof.
  intros N A B H. apply rsum_le. intros i Hi. apply rsum_le. intros j Hj. apply pow_incr. split; [apply Cmod_ge_0|].
  unfold nn in *. apply H; lia.
Qed.

Lemma gsq_ext : forall N A B, arr_eq N A B -> gsq N A = gsq N B.
Proof. intros N A B H. apply Rle_antisym; apply gsq_le; intros i j Hi Hj; rewrite (H i j Hi Hj); apply Rle_refl. Qed.

Lemma gsq_tri : forall N A B D, (forall i j, (0 <= i < N - 1)%Z -> (0 <= j < N - 1)%Z -> Cmod (D i j) <= Cmod (A i j) + Cmod (B i j)) ->
  sqrt (gsq N D) <= sqrt (gsq N A) + sqrt (gsq N B).
Proof.
  intros N A B D H. set (n := nn N). set (row := fun (A : arr2) i => sqrt (sq n (fun j => A (Z.of_nat i) (Z.of_nat j)))).
  assert (E : forall A, gsq N A = rsum n (fun i => row A i ^ 2)).
  { intros A0. unfold gsq. fold n. apply rsum_ext. intros i _. unfold row. rewrite pow2_sqrt by apply sq_nonneg. reflexivity. }
  rewrite !E. eapply Rle_trans; [|apply rsum_mink; intros; split; apply sqrt_pos].
  apply sqrt_le_1_alt. apply rsum_le. intros i Hi. apply pow_incr. split; [apply sqrt_pos|].
  apply sq_tri. intros j Hj. unfold n, nn in *. apply H; lia.
Qed.

Lemma gsq_term : forall N A i j, (0 <= i < N - 1)%Z -> (0 <= j < N - 1)%Z -> Cmod (A i j) ^ 2 <= gsq N A.
Proof.
  intros N A i j Hi Hj. eapply Rle_trans; [|apply (rsum_term (nn N) _ (Z.to_nat i)); [intros; apply rsum_nonneg; intros; apply pow2_ge_0|unfold nn; lia]].
  cbv beta. eapply Rle_trans; [|apply (rsum_term (nn N) _ (Z.to_nat j)); [intros; apply pow2_ge_0|unfold nn; lia]].
  cbv beta. rewrite !Z2Nat.id by lia. apply Rle_refl.
Qed.

Lemma gsq_const : forall N A eta, (2 <= N)%Z -> 0 <= eta -> (forall i j, (0 <= i < N - 1)%Z -> (0 <= j < N - 1)%Z -> Cmod (A i j) <= eta) -> sqrt (gsq N A) <= (IZR N - 1) * eta.
Proof.
  intros N A eta HN He H. assert (En : INR (nn N) = IZR N - 1) by (unfold nn; rewrite INR_IZR_INZ, Z2Nat.id by lia; rewrite minus_IZR; reflexivity).
  assert (HNr : 2 <= IZR N) by (apply IZR_le; exact HN).
  rewrite <- (sqrt_pow2 ((IZR N - 1) * eta)) by (apply Rmult_le_pos; lra). apply sqrt_le_1_alt.
  replace (((IZR N - 1) * eta) ^ 2) with (INR (nn N) * (INR (nn N) * eta ^ 2)) by (rewrite En; ring).
  rewrite <- !rsum_const. apply rsum_le. intros i Hi. apply rsum_le. intros j Hj.
  apply pow_incr. split; [apply Cmod_ge_0|]. unfold nn in *. apply H; lia.
Qed.

(** ** Parseval's identity *)

Lemma cdot_sq : forall n x, cdot n x x = RtoC (sq n x).
Proof. intros n x. rewrite cdot_self. f_equal. apply rsum_ext. intros i _. rewrite Cmod_sq. reflexivity. Qed.

Lemma dst1_sym : forall n (x y : Z -> C), cdot n (fun i => dst1 n x (Z.of_nat i)) (fun i => y (Z.of_nat i)) = cdot n (fun i => x (Z.of_nat i)) (fun i => dst1 n y (Z.of_nat i)).
Proof.
  intros n x y. unfold cdot.
  rewrite (csum_ext n _ (fun i => csum n (fun m => Cmult (RtoC 2) (Cmult (Cmult (Cconj (x (Z.of_nat m))) (y (Z.of_nat i))) (RtoC (sn n i m)))))).
  - rewrite csum_swap. apply csum_ext. intros m _. rewrite dst1_nat, <- !csum_scal. apply csum_ext. intros i _. rewrite (sn_sym n m i). ring.
  - intros i _. rewrite dst1_nat. rewrite <- csum_scal, cconj_csum, <- csum_scal_r. apply csum_ext. intros m _.
    destruct (x (Z.of_nat m)), (y (Z.of_nat i)). apply injective_projections; cbn; ring.
Qed.

Lemma dst1_sq : forall n (x : Z -> C), sq n (fun i => dst1 n x (Z.of_nat i)) = 2 * (INR n + 1) * sq n (fun i => x (Z.of_nat i)).
Proof.
  intros n x. apply RtoC_inj. rewrite <- cdot_sq. rewrite (dst1_sym n x (dst1 n x)). rewrite RtoC_mult, <- cdot_sq. unfold cdot. rewrite <- csum_scal.
  apply csum_ext. intros i Hi. rewrite dst1_involution by lia. ring.
Qed.

Lemma dst2_sq : forall N A, (2 <= N)%Z -> gsq N (dst2 N A) = 4 * IZR N ^ 2 * gsq N A.
Proof.
  intros N A HN. assert (Er : INR (nn N) + 1 = IZR N) by (unfold nn; rewrite INR_IZR_INZ, Z2Nat.id by lia; rewrite minus_IZR; ring).
  unfold gsq. rewrite rsum_swap.
  rewrite (rsum_ext (nn N) _ (fun k => 2 * IZR N * rsum (nn N) (fun m => Cmod (dst1 (nn N) (fun p => A (Z.of_nat m) p) (Z.of_nat k)) ^ 2))).
  - rewrite rsum_scal, rsum_swap.
    rewrite (rsum_ext (nn N) _ (fun m => 2 * IZR N * rsum (nn N) (fun p => Cmod (A (Z.of_nat m) (Z.of_nat p)) ^ 2))).
    + rewrite rsum_scal. ring.
    + intros m _. rewrite <- Er. exact (dst1_sq (nn N) (fun p => A (Z.of_nat m) p)).
  - intros k _. rewrite <- Er. exact (dst1_sq (nn N) (fun m => dst1 (nn N) (fun p => A m p) (Z.of_nat k))).
Qed.

Section Norms.
Context (N order : Z) (L k : R) (HN : (2 <= N)%Z) (HL : L <> 0).

Lemma N4_pos : 0 < 4 * IZR N ^ 2.
Proof. apply Rmult_lt_0_compat; [lra|]. apply pow_lt. apply IZR_lt. lia. Qed.

Lemma solve_norm : forall delta A, 0 < delta -> (forall j l, (1 <= j <= N - 1)%Z -> (1 <= l <= N - 1)%Z -> delta <= Rabs (eigenval N order L k j l)) ->
  sqrt (gsq N (ap_solve N order L k A)) <= sqrt (gsq N A) / delta.
Proof.
  intros delta A Hd He. assert (P := N4_pos).
  replace (sqrt (gsq N A) / delta) with (sqrt (gsq N A / delta ^ 2)).
  2:{ rewrite sqrt_div_alt by (apply pow_lt; exact Hd). rewrite sqrt_pow2 by lra. reflexivity. }
  apply sqrt_le_1_alt. apply (Rmult_le_reg_l (4 * IZR N ^ 2)); [exact P|].
  replace (4 * IZR N ^ 2 * (gsq N A / delta ^ 2)) with (/ delta ^ 2 * (4 * IZR N ^ 2 * gsq N A)) by (field; lra).
  rewrite <- !dst2_sq by exact HN. unfold gsq. rewrite <- rsum_scal. apply rsum_le. intros i Hi. rewrite <- rsum_scal. apply rsum_le. intros j Hj.
  unfold ap_solve. rewrite dst2_ap_fourier by (try assumption; unfold nn in *; lia). cbv zeta iota.
  specialize (He (Z.of_nat i + 1)%Z (Z.of_nat j + 1)%Z ltac:(unfold nn in *; lia) ltac:(unfold nn in *; lia)).
  set (e := eigenval _ _ _ _ _ _) in *. assert (e <> 0) by (intros E; rewrite E, Rabs_R0 in He; lra).
  rewrite Cmod_div by (intros E; apply RtoC_inj in E; contradiction). rewrite Cmod_R.
  replace (/ delta ^ 2 * Cmod (dst2 N A (Z.of_nat i) (Z.of_nat j)) ^ 2) with ((Cmod (dst2 N A (Z.of_nat i) (Z.of_nat j)) / delta) ^ 2) by (field; lra).
  apply pow_incr. split; [apply Rmult_le_pos; [apply Cmod_ge_0|left; apply Rinv_0_lt_compat; lra]|].
  apply Rmult_le_compat_l; [apply Cmod_ge_0|]. apply Rinv_le_contravar; assumption.
Qed.

Lemma apply_norm : forall Lam A, 0 <= Lam -> (forall j l, (1 <= j <= N - 1)%Z -> (1 <= l <= N - 1)%Z -> Rabs (eigenval N order L k j l) <= Lam) ->
  sqrt (gsq N (ap_apply_L N order L k A)) <= Lam * sqrt (gsq N A).
Proof.
  intros Lam A Hl He. assert (P := N4_pos).
  replace (Lam * sqrt (gsq N A)) with (sqrt (Lam ^ 2 * gsq N A)).
  2:{ rewrite sqrt_mult_alt by apply pow2_ge_0. rewrite sqrt_pow2 by exact Hl. reflexivity. }
  apply sqrt_le_1_alt. apply (Rmult_le_reg_l (4 * IZR N ^ 2)); [exact P|].
  replace (4 * IZR N ^ 2 * (Lam ^ 2 * gsq N A)) with (Lam ^ 2 * (4 * IZR N ^ 2 * gsq N A)) by ring.
  rewrite <- !dst2_sq by exact HN. unfold gsq. rewrite <- rsum_scal. apply rsum_le. intros i Hi. rewrite <- rsum_scal. apply rsum_le. intros j Hj.
  unfold ap_apply_L. rewrite dst2_ap_fourier by (try assumption; unfold nn in *; lia). cbv zeta iota.
  specialize (He (Z.of_nat i + 1)%Z (Z.of_nat j + 1)%Z ltac:(unfold nn in *; lia) ltac:(unfold nn in *; lia)).
  set (e := eigenval _ _ _ _ _ _) in *. rewrite Cmod_mult, Cmod_R.
  replace (Lam ^ 2 * Cmod (dst2 N A (Z.of_nat i) (Z.of_nat j)) ^ 2) with ((Cmod (dst2 N A (Z.of_nat i) (Z.of_nat j)) * Lam) ^ 2) by ring.
  apply pow_incr. split; [apply Rmult_le_pos; [apply Cmod_ge_0|apply Rabs_pos]|]. apply Rmult_le_compat_l; [apply Cmod_ge_0|exact He].
Qed.

Lemma eig_upper : (order = 2 \/ order = 4)%Z -> forall j l, Rabs (eigenval N order L k j l) <= k ^ 2 + 8 / (L / IZR N) ^ 2.
Proof.
  intros Ho j l. unfold eigenval. set (h2 := (L / IZR N) ^ 2). set (a := cos (PI * IZR j / IZR N)). set (b := cos (PI * IZR l / IZR N)).
  assert (Hh : 0 < h2) by (unfold h2; rewrite <- Rsqr_pow2; apply Rsqr_pos_lt; apply Rmult_integral_contrapositive_currified; [exact HL|apply Rinv_neq_0_compat; apply not_0_IZR; lia]).
  pose proof (COS_bound (PI * IZR j / IZR N)) as Ha. fold a in Ha. pose proof (COS_bound (PI * IZR l / IZR N)) as Hb. fold b in Hb.
  pose proof (pow2_ge_0 k) as Hk. set (k2 := k ^ 2) in *. clearbody k2 a b h2.
  assert (Hi : 0 < / h2) by (apply Rinv_0_lt_compat; exact Hh).
  destruct Ho as [-> | ->]; cbn [Z.eqb Pos.eqb]; apply Rabs_le.
  - replace ((2 * a + 2 * b - 4) / h2) with ((2 * a + 2 * b - 4) * / h2) by reflexivity. unfold Rdiv. split; nra.
  - replace ((h2 * k2 * (a + b + 4) + 4 * a * b + 8 * a + 8 * b - 20) / (6 * h2)) with
      (k2 * (a + b + 4) / 6 + (4 * a * b + 8 * a + 8 * b - 20) / 6 * / h2) by (field; lra).
    assert (X : - 8 <= (4 * a * b + 8 * a + 8 * b - 20) / 6 <= 8) by nra.
    assert (Y : 0 <= k2 * (a + b + 4) / 6 <= k2) by nra. unfold Rdiv at 1 3. split; nra.
Qed.
End Norms.

(** ** Sums over a list of nodes *)

Definition fsum (N : Z) (l : list node) (A : arr2) : R := fold_right (fun p s => Cmod (node_value N A (fst p) (snd p)) ^ 2 + s) 0 l.

Lemma gsq_remove : forall N A i j, (0 <= i < N - 1)%Z -> (0 <= j < N - 1)%Z -> gsq N A = Cmod (A i j) ^ 2 + gsq N (arr_store A i j (RtoC 0)).
Proof.
  intros N A i j Hi Hj.
  assert (E : forall (f : Z -> Z -> R), rsum (nn N) (fun a => rsum (nn N) (fun b => f (Z.of_nat a) (Z.of_nat b))) =
    f i j + rsum (nn N) (fun a => rsum (nn N) (fun b => if (Z.of_nat a =? i)%Z && (Z.of_nat b =? j)%Z then 0 else f (Z.of_nat a) (Z.of_nat b)))).
  { intros f.
    assert (F1 : f i j = rsum (nn N) (fun a => if Nat.eqb a (Z.to_nat i) then f (Z.of_nat a) j else 0)).
    { rewrite (rsum_delta (nn N) (Z.to_nat i) (fun a => f (Z.of_nat a) j)) by (unfold nn; lia). rewrite Z2Nat.id by lia. reflexivity. }
    rewrite F1, <- rsum_plus. apply rsum_ext. intros a Ha.
    destruct (Nat.eqb_spec a (Z.to_nat i)) as [->|Ne].
    - assert (F2 : f (Z.of_nat (Z.to_nat i)) j = rsum (nn N) (fun b => if Nat.eqb b (Z.to_nat j) then f (Z.of_nat (Z.to_nat i)) (Z.of_nat b) else 0)).
      { rewrite (rsum_delta (nn N) (Z.to_nat j) (fun b => f (Z.of_nat (Z.to_nat i)) (Z.of_nat b))) by (unfold nn; lia). rewrite (Z2Nat.id j) by lia. reflexivity. }
      rewrite F2, <- rsum_plus. apply rsum_ext. intros b Hb. rewrite (proj2 (Z.eqb_eq (Z.of_nat (Z.to_nat i)) i)) by lia. cbn [andb].
      destruct (Nat.eqb_spec b (Z.to_nat j)); destruct (Z.eqb_spec (Z.of_nat b) j); try lia; lra.
    - rewrite Rplus_0_l. apply rsum_ext. intros b _. rewrite (proj2 (Z.eqb_neq (Z.of_nat a) i)) by lia. reflexivity. }
  unfold gsq. rewrite (E (fun a b => Cmod (A a b) ^ 2)). f_equal. apply rsum_ext. intros a _. apply rsum_ext. intros b _.
  unfold arr_store. destruct (_ && _); [rewrite Cmod_0; ring|reflexivity].
Qed.

Lemma node_store : forall N A i j p, in_open_grid N (i, j) -> p <> (i, j) -> node_value N (arr_store A (i - 1) (j - 1) (RtoC 0)) (fst p) (snd p) = node_value N A (fst p) (snd p).
Proof.
  intros N A i j [a b] Hg Hp. cbn [fst snd]. destruct (open_dec N a b) as [Ho|Ho]; [|rewrite !node_value_out by exact Ho; reflexivity].
  rewrite !node_value_in by exact Ho. apply arr_store_neq. intros E. apply Hp. injection E as E1 E2. f_equal; lia.
Qed.

Lemma fsum_ext : forall N l A B, (forall p, In p l -> node_value N A (fst p) (snd p) = node_value N B (fst p) (snd p)) -> fsum N l A = fsum N l B.
Proof.
  induction l as [|p l IH]; intros A B H; [reflexivity|]. cbn [fsum fold_right]. fold (fsum N l A) (fsum N l B).
  rewrite (IH A B), (H p) by (intros; try apply H; cbn; auto). reflexivity.
Qed.

Lemma fsum_le : forall N l A, NoDup l -> (forall p, In p l -> in_open_grid N p) -> fsum N l A <= gsq N A.
Proof.
  induction l as [|[i j] l IH]; intros A Hn Hg; [apply gsq_nonneg|]. inversion Hn as [|? ? Hp Hl]; subst.
  assert (Ho : in_open_grid N (i, j)) by (apply Hg; left; reflexivity).
  cbn [fsum fold_right fst snd]. fold (fsum N l A). rewrite node_value_in by exact Ho. destruct Ho as [Hi Hj]. cbn [fst snd] in Hi, Hj.
  rewrite (gsq_remove N A (i - 1) (j - 1)) by lia. apply Rplus_le_compat_l.
  rewrite (fsum_ext N l A (arr_store A (i - 1) (j - 1) (RtoC 0))).
  - apply IH; [exact Hl|]. intros p Hin. apply Hg. right. exact Hin.
  - intros p Hin. symmetry. apply node_store; [split; cbn; lia|]. intros ->. contradiction.
Qed.

Lemma fsum_eq : forall N l A, NoDup l -> (forall p, In p l -> in_open_grid N p) -> (forall i j, in_open_grid N (i, j) -> ~ In (i, j) l -> node_value N A i j = RtoC 0) ->
  gsq N A = fsum N l A.
Proof.
  induction l as [|[i j] l IH]; intros A Hn Hg Hz.
  - unfold fsum. cbn. unfold gsq. rewrite (rsum_ext (nn N) _ (fun _ => 0)); [rewrite rsum_const; ring|]. intros a Ha.
    rewrite (rsum_ext (nn N) _ (fun _ => 0)); [rewrite rsum_const; ring|]. intros b Hb.
    assert (Ho : in_open_grid N (Z.of_nat a + 1, Z.of_nat b + 1)%Z) by (unfold nn in *; split; cbn; lia).
    specialize (Hz _ _ Ho (fun F => F)). rewrite node_value_in in Hz by exact Ho. rewrite !Z.add_simpl_r in Hz. rewrite Hz, Cmod_0. ring.
  - inversion Hn as [|? ? Hp Hl]; subst. assert (Ho : in_open_grid N (i, j)) by (apply Hg; left; reflexivity).
    cbn [fsum fold_right fst snd]. fold (fsum N l A). rewrite node_value_in by exact Ho. pose proof Ho as [Hi Hj]. cbn [fst snd] in Hi, Hj.
    rewrite (gsq_remove N A (i - 1) (j - 1)) by lia. f_equal.
    rewrite (fsum_ext N l A (arr_store A (i - 1) (j - 1) (RtoC 0))).
    + apply IH; [exact Hl|intros p Hin; apply Hg; right; exact Hin|]. intros a b Hab Hin.
      destruct (Z.eq_dec a i) as [->|Ha]; [destruct (Z.eq_dec b j) as [->|Hb]|].
      * rewrite node_value_in by exact Hab. apply arr_store_eq.
      * transitivity (node_value N A i b); [apply (node_store N A i j (i, b) Ho); congruence|]. apply Hz; [exact Hab|]. intros [E|E]; [congruence|contradiction].
      * transitivity (node_value N A a b); [apply (node_store N A i j (a, b) Ho); congruence|]. apply Hz; [exact Hab|]. intros [E|E]; [congruence|contradiction].
    + intros p Hin. symmetry. apply node_store; [exact Ho|]. intros ->. contradiction.
Qed.

Lemma fsum_rsum : forall N l A x, (forall m i j, nth_error l m = Some (i, j) -> node_value N A i j = x m) -> fsum N l A = sq (length l) x.
Proof.
  induction l as [|[i j] l IH]; intros A x H; [reflexivity|]. cbn [fsum fold_right length fst snd]. fold (fsum N l A).
  unfold sq. rewrite rsum_shift. rewrite (H 0%nat i j eq_refl). f_equal. apply IH. intros m a b E. apply (H (Datatypes.S m)). exact E.
Qed.
