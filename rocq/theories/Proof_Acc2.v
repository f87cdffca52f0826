(** Error bounds of the extension formulas. *)
From Coq Require Import ZArith List Bool Reals Lra Lia Psatz.
From Coquelicot Require Import Coquelicot.
From Verif Require Import Model_Py Model_Ext Model_Extend Spec_Ext Spec_Extend Lib_Sm Proof_Ext Proof_Ext2 Proof_Extend.
Import ListNotations.
Open Scope R_scope.

Definition all_plane (x y : R) : Prop := True.

Lemma all_plane_open : open2 all_plane.
Proof. intros x y _. exists (mkposreal 1 Rlt_0_1). intros u v _ _. exact I. Qed.

Lemma Rabs_le_Cmod : forall z : C, Rabs (fst z) <= Cmod z /\ Rabs (snd z) <= Cmod z.
Proof. intros z. pose proof (Rmax_Cmod z). split; (eapply Rle_trans; [|exact H]); [apply Rmax_l|apply Rmax_r]. Qed.

Lemma Cmod_comp : forall (z : C) B, Rabs (fst z) <= B -> Rabs (snd z) <= B -> Cmod z <= 2 * B.
Proof.
  intros z B H1 H2. pose proof (Cmod_2Rmax z) as K.
  assert (L : Rmax (Rabs (fst z)) (Rabs (snd z)) <= B) by (apply Rmax_lub; assumption).
  assert (Q2 : sqrt 2 <= 2). { replace 2 with (sqrt (2 * 2)) at 2 by (apply sqrt_square; lra). apply sqrt_le_1_alt. lra. }
  assert (0 <= Rmax (Rabs (fst z)) (Rabs (snd z))) by (eapply Rle_trans; [apply Rabs_pos|apply Rmax_l]).
  nra.
Qed.

(** ** The Taylor polynomial along a line *)

Lemma dirn_bound : forall G a b x y M m, 0 <= M -> Rabs a <= 1 -> Rabs b <= 1 ->
  (forall i j, (i + j <= m)%nat -> Rabs (G i j x y) <= M) ->
  forall l i j, (l + i + j <= m)%nat -> Rabs (dirn G a b l i j x y) <= 2 ^ l * M.
Proof.
  intros G a b x y M m HM Ha Hb HG. induction l as [|l IH]; intros i j Hl; cbn [dirn].
  - replace (2 ^ 0 * M) with M by (simpl; ring). apply HG. lia.
  - eapply Rle_trans; [apply Rabs_triang|]. rewrite !Rabs_mult.
    pose proof (IH (S i) j ltac:(lia)) as H1. pose proof (IH i (S j) ltac:(lia)) as H2.
    pose proof (Rabs_pos (dirn G a b l (S i) j x y)). pose proof (Rabs_pos (dirn G a b l i (S j) x y)).
    pose proof (Rabs_pos a). pose proof (Rabs_pos b). cbn [pow]. nra.
Qed.

Lemma line_remainder : forall D x y a b n M, partials all_plane 5 D -> Rabs a <= 1 -> Rabs b <= 1 -> 0 <= M ->
  (forall i j t, (i + j <= 5)%nat -> 0 <= t <= 1 -> Cmod (D i j (x + t * n * a) (y + t * n * b)) <= M) ->
  Cmod (Cminus (D 0%nat 0%nat (x + n * a) (y + n * b))
               (taylor_poly (fun t => D 0%nat 0%nat (x + t * a) (y + t * b)) 4 n)) <= 2 * M * Rabs n ^ 5.
Proof.
  intros D x y a b n M HD Ha Hb HM HB.
  pose proof (taylor_remainder all_plane (fun _ => x) (fun _ => y) (fun _ => - b) (fun _ => a) D 0 n (64 * M)
    all_plane_open HD (fun _ _ => I)) as T. unfold along_normal in T.
  assert (E : (fun n : R => D 0%nat 0%nat (x + n * a) (y - n * - b)) = (fun t => D 0%nat 0%nat (x + t * a) (y + t * b))).
  { apply FunctionalExtensionality.functional_extensionality. intros t. f_equal. ring. }
  rewrite E in T. replace (y - n * - b) with (y + n * b) in T by ring.
  pose proof (pow_le (Rabs n) 5 (Rabs_pos n)).
  eapply Rle_trans; [apply T|assert (0 <= M * Rabs n ^ 5) by (apply Rmult_le_pos; lra); lra].
  intros t Ht. replace (64 * M) with (2 * (32 * M)) by ring.
  assert (K : forall pr : C -> R, pr = fst \/ pr = snd ->
     Rabs (Derive_n (fun u => pr (D 0%nat 0%nat (x + u * a) (y + u * b))) 5 (t * n)) <= 32 * M).
  { intros pr Hpr. set (G := fun i j x y => pr (D i j x y)).
    assert (HG : partialsR all_plane 5 G).
    { intros i j u v H1 H2. destruct (HD i j u v H1 H2). unfold G. destruct Hpr as [-> | ->]; assumption. }
    pose proof (chain_open (fun _ => True) (fun l u => dirn G a b l 0 0 (x + u * a) (y + u * b)) 5) as C.
    rewrite (C (fun _ _ => filter_true)); [| |lia|exact I].
    - replace 32 with (2 ^ 5) by ring. apply (dirn_bound G a b _ _ M 5); try assumption; [|lia].
      intros i j Hij. eapply Rle_trans; [|apply (HB i j t Hij Ht)]. unfold G.
      destruct Hpr as [-> | ->]; apply Rabs_le_Cmod.
    - intros l s Hl _. apply (dirn_derive all_plane 5 G HG l 0 0 x y a b s); [lia|exact I]. }
  apply Cmod_comp; cbn [CDerive_n fst snd]; apply K; auto.
Qed.

(** ** The Taylor step along the boundary *)

Lemma inv_le1 : forall x, 1 <= x -> 0 < / x <= 1.
Proof.
  intros x Hx. split; [apply Rinv_0_lt_compat; lra|].
  replace 1 with (/ 1) by apply Rinv_1. apply Rinv_le_contravar; lra.
Qed.

Lemma shift_sum_small : forall (v : nat -> C) delta m eps, (m < 5)%nat -> 0 <= eps -> Rabs delta <= 1 ->
  (forall l, (l < 5)%nat -> Cmod (v l) <= eps) ->
  Cmod (shift_sum v delta m (seq m (5 - m))) <= 5 * eps.
Proof.
  intros v delta m eps Hm He Hd Hv.
  assert (G : forall ls, (forall l, In l ls -> (l < 5)%nat) ->
     Cmod (shift_sum v delta m ls) <= INR (length ls) * eps).
  { induction ls as [|l ls IH]; intros Hl.
    - cbn [shift_sum length INR]. rewrite Cmod_0. lra.
    - cbn [shift_sum]. change (length (l :: ls)) with (S (length ls)). rewrite S_INR.
      eapply Rle_trans; [apply Cmod_triangle|]. rewrite Cmod_mult, Cmod_R.
      pose proof (IH (fun u Hu => Hl u (or_intror Hu))) as H1. pose proof (Hv l (Hl l (or_introl eq_refl))) as H2.
      assert (H3 : Rabs (delta ^ (l - m) / INR (fact (l - m))) <= 1).
      { unfold Rdiv. rewrite Rabs_mult, <- RPow_abs.
        assert (1 <= INR (fact (l - m))) by (change 1 with (INR 1); apply le_INR; pose proof (lt_O_fact (l - m)); lia).
        rewrite Rabs_inv, (Rabs_pos_eq (INR _)) by lra.
        assert (0 < / INR (fact (l - m)) <= 1).
        { apply inv_le1. assumption. }
        assert (0 <= Rabs delta ^ (l - m) <= 1).
        { split; [apply pow_le, Rabs_pos|]. rewrite <- (pow1 (l - m)). apply pow_incr. split; [apply Rabs_pos|exact Hd]. }
        nra. }
      pose proof (Cmod_ge_0 (v l)). pose proof (Rabs_pos (delta ^ (l - m) / INR (fact (l - m)))). nra. }
  eapply Rle_trans; [apply G; intros l Hl; apply in_seq in Hl; lia|]. rewrite seq_length.
  apply Rmult_le_compat_r; [exact He|]. replace 5 with (INR 5) by (simpl; ring). apply le_INR. lia.
Qed.

Lemma shift_lagrange_bound : forall (f : R -> R) arg delta m B,
  (forall l t, (l < 5)%nat -> ex_derive (Derive_n f l) t) ->
  (forall t, 0 <= t <= 1 -> Rabs (Derive_n f 5 (arg + t * delta)) <= B) -> (m < 5)%nat ->
  Rabs (sum_f_R0 (fun l => delta ^ l / INR (fact l) * Derive_n f (m + l) arg) (4 - m) - Derive_n f m (arg + delta))
   <= B * Rabs delta ^ (5 - m).
Proof.
  intros f arg delta m B Hf HB Hm.
  set (lo := arg - Rabs delta - 1). set (hi := arg + Rabs delta + 1).
  assert (A : - Rabs delta <= delta <= Rabs delta).
  { pose proof (Rle_abs delta). pose proof (Rle_abs (- delta)). rewrite Rabs_Ropp in *. lra. }
  pose proof (Rabs_pos delta).
  destruct (shift_lagrange f lo hi arg delta m) as (t & Ht & E);
    [intros l s Hl _; apply Hf; exact Hl|unfold lo, hi; lra|unfold lo, hi; lra|exact Hm|].
  rewrite E. replace (_ - _) with (- (delta ^ (5 - m) / INR (fact (5 - m)) * Derive_n f 5 (arg + t * delta))) by ring.
  rewrite Rabs_Ropp, Rabs_mult. unfold Rdiv. rewrite Rabs_mult, <- RPow_abs.
  assert (1 <= INR (fact (5 - m))) by (change 1 with (INR 1); apply le_INR; pose proof (lt_O_fact (5 - m)); lia).
  rewrite Rabs_inv, (Rabs_pos_eq (INR _)) by lra.
  assert (0 < / INR (fact (5 - m)) <= 1).
  { apply inv_le1. assumption. }
  pose proof (pow_le (Rabs delta) (5 - m) (Rabs_pos delta)).
  pose proof (HB t ltac:(lra)). pose proof (Rabs_pos (Derive_n f 5 (arg + t * delta))).
  assert (0 <= Rabs delta ^ (5 - m) * / INR (fact (5 - m)) <= Rabs delta ^ (5 - m)) by nra. nra.
Qed.

Definition all_smooth5 (xi : R -> C) : Prop :=
  forall l t, (l < 5)%nat -> ex_derive (Derive_n (fun u => fst (xi u)) l) t /\ ex_derive (Derive_n (fun u => snd (xi u)) l) t.

Lemma shift_bound : forall (xi : R -> C) (d : nat -> C) arg delta eps B m, all_smooth5 xi ->
  (forall t, 0 <= t <= 1 -> Cmod (CDerive_n xi 5 (arg + t * delta)) <= B) ->
  0 <= eps -> Rabs delta <= 1 -> (m < 5)%nat ->
  (forall l, (l < 5)%nat -> Cmod (Cminus (d l) (CDerive_n xi l arg)) <= eps) ->
  Cmod (Cminus (shift_sum d delta m (seq m (5 - m))) (CDerive_n xi m (arg + delta)))
    <= 5 * eps + 2 * (B * Rabs delta ^ (5 - m)).
Proof.
  intros xi d arg delta eps B m Hs HB He Hd Hm Hdl.
  set (w := fun l => CDerive_n xi l arg).
  assert (E : shift_sum d delta m (seq m (5 - m)) =
    Cplus (shift_sum w delta m (seq m (5 - m))) (shift_sum (fun l => Cminus (d l) (w l)) delta m (seq m (5 - m)))).
  { rewrite <- (Cmult_1_l (shift_sum (fun l => Cminus (d l) (w l)) _ _ _)). change (RtoC 1) with (RtoC 1).
    rewrite <- shift_sum_lin. generalize (seq m (5 - m)) as ls. induction ls as [|l ls IH]; cbn [shift_sum]; [reflexivity|].
    rewrite IH. f_equal. ring. }
  rewrite E.
  replace (Cminus (Cplus (shift_sum w delta m (seq m (5 - m))) (shift_sum (fun l => Cminus (d l) (w l)) delta m (seq m (5 - m))))
      (CDerive_n xi m (arg + delta)))
   with (Cplus (shift_sum (fun l => Cminus (d l) (w l)) delta m (seq m (5 - m)))
      (Cminus (shift_sum w delta m (seq m (5 - m))) (CDerive_n xi m (arg + delta)))) by ring.
  eapply Rle_trans; [apply Cmod_triangle|]. apply Rplus_le_compat.
  - apply shift_sum_small; assumption.
  - apply Cmod_comp.
    + replace (fst (Cminus (shift_sum w delta m (seq m (5 - m))) (CDerive_n xi m (arg + delta))))
        with (fst (shift_sum w delta m (seq m (5 - m))) - Derive_n (fun u => fst (xi u)) m (arg + delta)) by reflexivity.
      rewrite (shift_sum_comp _ _ _ _ fst) by (left; reflexivity).
      rewrite (shift_fold (fun l => fst (w l))) by exact Hm. unfold w. cbn [CDerive_n fst].
      apply (shift_lagrange_bound (fun u => fst (xi u))); [intros l t Hl; apply (Hs l t Hl)| |exact Hm].
      intros t Ht. eapply Rle_trans; [|apply (HB t Ht)]. apply (proj1 (Rabs_le_Cmod (CDerive_n xi 5 (arg + t * delta)))).
    + replace (snd (Cminus (shift_sum w delta m (seq m (5 - m))) (CDerive_n xi m (arg + delta))))
        with (snd (shift_sum w delta m (seq m (5 - m))) - Derive_n (fun u => snd (xi u)) m (arg + delta)) by reflexivity.
      rewrite (shift_sum_comp _ _ _ _ snd) by (right; reflexivity).
      rewrite (shift_fold (fun l => snd (w l))) by exact Hm. unfold w. cbn [CDerive_n snd].
      apply (shift_lagrange_bound (fun u => snd (xi u))); [intros l t Hl; apply (Hs l t Hl)| |exact Hm].
      intros t Ht. eapply Rle_trans; [|apply (HB t Ht)]. apply (proj2 (Rabs_le_Cmod (CDerive_n xi 5 (arg + t * delta)))).
Qed.

(** ** The extension formulas *)

Section Weights.
Context (n T : R) (Hn : Rabs n <= 1) (HT : 0 <= T).

(** [x] is at most [K T / |n|^w]. *)
Definition wb (w : nat) (x : C) (K : R) : Prop := 0 <= K /\ Rabs n ^ w * Cmod x <= K * T.

Lemma wb_plus : forall w x y K1 K2, wb w x K1 -> wb w y K2 -> wb w (Cplus x y) (K1 + K2).
Proof.
  intros w x y K1 K2 [P1 H1] [P2 H2]. split; [lra|]. pose proof (Cmod_triangle x y). pose proof (pow_le (Rabs n) w (Rabs_pos n)). nra.
Qed.
Lemma wb_opp : forall w x K, wb w x K -> wb w (Copp x) K.
Proof. intros w x K [P H]. split; [exact P|]. rewrite Cmod_opp. exact H. Qed.
Lemma wb_minus : forall w x y K1 K2, wb w x K1 -> wb w y K2 -> wb w (Cminus x y) (K1 + K2).
Proof. intros. apply wb_plus; [assumption|apply wb_opp; assumption]. Qed.
Lemma wb_scal : forall w c B x K, Rabs c <= B -> wb w x K -> wb w (Cmult (RtoC c) x) (B * K).
Proof.
  intros w c B x K Hc [P H]. pose proof (Rabs_pos c). split; [apply Rmult_le_pos; lra|].
  rewrite Cmod_mult, Cmod_R. pose proof (Cmod_ge_0 x). pose proof (pow_le (Rabs n) w (Rabs_pos n)).
  assert (0 <= Rabs n ^ w * Cmod x) by (apply Rmult_le_pos; assumption).
  replace (Rabs n ^ w * (Rabs c * Cmod x)) with (Rabs c * (Rabs n ^ w * Cmod x)) by ring.
  rewrite Rmult_assoc. apply Rmult_le_compat; assumption || lra.
Qed.
Lemma wb_scal_r : forall w c B x K, Rabs c <= B -> wb w x K -> wb w (Cmult x (RtoC c)) (B * K).
Proof. intros. rewrite Cmult_comm. apply wb_scal; assumption. Qed.
Lemma wb_up : forall w w' x K, (w <= w')%nat -> wb w x K -> wb w' x K.
Proof.
  intros w w' x K Hw [P H]. split; [exact P|]. eapply Rle_trans; [|exact H]. apply Rmult_le_compat_r; [apply Cmod_ge_0|].
  replace w' with (w + (w' - w))%nat by lia. rewrite pow_add.
  pose proof (pow_le (Rabs n) w (Rabs_pos n)).
  assert (Rabs n ^ (w' - w) <= 1). { rewrite <- (pow1 (w' - w)). apply pow_incr. split; [apply Rabs_pos|exact Hn]. }
  nra.
Qed.
Lemma wb_le : forall w x K K', K <= K' -> wb w x K -> wb w x K'.
Proof. intros w x K K' HK [P H]. split; [lra|]. eapply Rle_trans; [exact H|]. apply Rmult_le_compat_r; assumption. Qed.

Lemma Rabs_2 : forall a b A B, Rabs a <= A -> Rabs b <= B -> Rabs (a * b) <= A * B.
Proof. intros a b A B Ha Hb. rewrite Rabs_mult. apply Rmult_le_compat; try apply Rabs_pos; assumption. Qed.
Lemma Rabs_n : forall a A m, Rabs a <= A -> Rabs (a ^ m) <= A ^ m.
Proof. intros a A m Ha. rewrite <- RPow_abs. apply pow_incr. split; [apply Rabs_pos|exact Ha]. Qed.
Lemma Rabs_s : forall a b A B, Rabs a <= A -> Rabs b <= B -> Rabs (a + b) <= A + B.
Proof. intros a b A B Ha Hb. eapply Rle_trans; [apply Rabs_triang|]. lra. Qed.
Lemma Rabs_m : forall a b A B, Rabs a <= A -> Rabs b <= B -> Rabs (a - b) <= A + B.
Proof. intros a b A B Ha Hb. unfold Rminus. apply Rabs_s; [exact Ha|rewrite Rabs_Ropp; exact Hb]. Qed.
Lemma Rabs_o : forall a A, Rabs a <= A -> Rabs (- a) <= A.
Proof. intros a A Ha. rewrite Rabs_Ropp. exact Ha. Qed.

Ltac rb := solve [repeat first [eassumption | lazymatch goal with
  | |- Rabs (_ + _) <= _ => apply Rabs_s
  | |- Rabs (_ - _) <= _ => apply Rabs_m
  | |- Rabs (_ * _) <= _ => apply Rabs_2
  | |- Rabs (_ ^ _) <= _ => apply Rabs_n
  end]].
Ltac wbs := repeat first [ eassumption | lazymatch goal with
  | |- wb _ (Cplus _ _) _ => apply wb_plus
  | |- wb _ (Cminus _ _) _ => apply wb_minus
  | |- wb _ (Cmult (RtoC _) _) _ => eapply wb_scal; [rb|]
  | |- wb _ (Cmult _ (RtoC _)) _ => eapply wb_scal_r; [rb|]
  end ].

Lemma taylor_wb : forall l d K, wb l d K -> wb 0 (Cmult (Cdiv d (RtoC (INR (fact l)))) (RtoC (n ^ l))) K.
Proof.
  intros l d K [P H]. split; [exact P|]. eapply Rle_trans; [|exact H].
  assert (1 <= INR (fact l)) by (change 1 with (INR 1); apply le_INR; pose proof (lt_O_fact l); lia).
  unfold Cdiv. rewrite <- RtoC_inv by lra. rewrite !Cmod_mult, !Cmod_R, <- RPow_abs, Rabs_inv, (Rabs_pos_eq (INR _)) by lra.
  assert (0 < / INR (fact l) <= 1).
  { apply inv_le1. assumption. }
  pose proof (Cmod_ge_0 d). pose proof (pow_le (Rabs n) l (Rabs_pos n)). cbn [pow].
  assert (0 <= Rabs n ^ l * Cmod d) by (apply Rmult_le_pos; assumption). nra.
Qed.

Definition arb_const (k G : R) : R :=
  let G2 := k ^ 2 + G + 1 in
  let G3 := (G ^ 2 + k ^ 2) + G * G2 + G + 2 * G + 1 in
  let Gx := G + k ^ 2 + 1 + 2 * G + G in
  let G4 := 2 * G ^ 3 + (2 * G ^ 2 + k ^ 2) * G2 + G * G3 + 6 * G * G + 6 * G ^ 2 + 2 * G + 4 * G + Gx in
  1 + 1 + G2 + G3 + G4.

Lemma arb_bound : forall k curv c1 c2 G e K, Rabs curv <= G -> Rabs c1 <= G -> Rabs c2 <= G -> 
  wb 0 (ed_xi0 e) K -> wb 1 (ed_xi1 e) K -> wb 2 (ed_d2_xi0 e) K -> wb 3 (ed_d2_xi1 e) K ->
  wb 3 (ed_d_xi0 e) K -> wb 4 (ed_d_xi1 e) K -> wb 4 (ed_d4_xi0 e) K ->
  wb 0 (extend_arbitrary k n curv c1 c2 e) (arb_const k G * K).
Proof.
  intros k curv c1 c2 G e K Hc H1 H2 W0 W1 W2 W3 V0 V1 V4.
  assert (Hk : Rabs (- k ^ 2) <= k ^ 2).
  { rewrite Rabs_Ropp. rewrite Rabs_pos_eq; [lra|]. apply pow2_ge_0. }
  assert (Hk' : Rabs (k ^ 2) <= k ^ 2) by (rewrite <- (Rabs_Ropp (k ^ 2)); exact Hk).
  assert (Q2 : Rabs 2 <= 2) by (rewrite Rabs_pos_eq; lra). assert (Q4 : Rabs 4 <= 4) by (rewrite Rabs_pos_eq; lra).
  assert (Q6 : Rabs 6 <= 6) by (rewrite Rabs_pos_eq; lra).
  unfold extend_arbitrary, arbitrary_derivs. cbv zeta.
  set (d2 := Cminus _ (ed_d2_xi0 e)).
  set (d3 := Cminus _ (ed_d2_xi1 e)).
  set (dx := Cplus (Cplus (Cminus (Cminus _ _) _) _) _).
  set (d4 := Cminus _ dx).
  set (G2 := k ^ 2 + G + 1). set (G3 := (G ^ 2 + k ^ 2) + G * G2 + G + 2 * G + 1).
  set (Gx := G + k ^ 2 + 1 + 2 * G + G).
  set (G4 := 2 * G ^ 3 + (2 * G ^ 2 + k ^ 2) * G2 + G * G3 + 6 * G * G + 6 * G ^ 2 + 2 * G + 4 * G + Gx).
  assert (U2 : wb 2 d2 (G2 * K)).
  { replace (G2 * K) with (k ^ 2 * K + G * K + K) by (unfold G2; ring). unfold d2.
    assert (wb 2 (ed_xi0 e) K) by (apply (wb_up 0); [lia|exact W0]). assert (wb 2 (ed_xi1 e) K) by (apply (wb_up 1); [lia|exact W1]).
    wbs. }
  assert (U3 : wb 3 d3 (G3 * K)).
  { replace (G3 * K) with ((G ^ 2 + k ^ 2) * K + G * (G2 * K) + G * K + (2 * G) * K + K) by (unfold G3; ring). unfold d3.
    assert (wb 3 (ed_xi1 e) K) by (apply (wb_up 1); [lia|exact W1]). assert (wb 3 (ed_d2_xi0 e) K) by (apply (wb_up 2); [lia|exact W2]).
    assert (wb 3 d2 (G2 * K)) by (apply (wb_up 2); [lia|exact U2]). clearbody d2. wbs. }
  assert (Ux : wb 4 dx (Gx * K)).
  { replace (Gx * K) with (G * K + k ^ 2 * K + K + (2 * G) * K + G * K) by (unfold Gx; ring). unfold dx.
    assert (wb 4 (ed_xi1 e) K) by (apply (wb_up 1); [lia|exact W1]). assert (wb 4 (ed_d2_xi0 e) K) by (apply (wb_up 2); [lia|exact W2]).
    assert (wb 4 (ed_d2_xi1 e) K) by (apply (wb_up 3); [lia|exact W3]). wbs. }
  assert (U4 : wb 4 d4 (G4 * K)).
  { replace (G4 * K) with ((2 * G ^ 3) * K + (2 * G ^ 2 + k ^ 2) * (G2 * K) + G * (G3 * K) + (6 * G * G) * K
       + (6 * G ^ 2) * K + (2 * G) * K + (4 * G) * K + Gx * K) by (unfold G4; ring). unfold d4.
    assert (wb 4 (ed_xi1 e) K) by (apply (wb_up 1); [lia|exact W1]). assert (wb 4 (ed_d2_xi0 e) K) by (apply (wb_up 2); [lia|exact W2]).
    assert (wb 4 (ed_d2_xi1 e) K) by (apply (wb_up 3); [lia|exact W3]). assert (wb 4 (ed_d_xi0 e) K) by (apply (wb_up 3); [lia|exact V0]).
    assert (wb 4 d2 (G2 * K)) by (apply (wb_up 2); [lia|exact U2]). assert (wb 4 d3 (G3 * K)) by (apply (wb_up 3); [lia|exact U3]).
    clearbody d2 d3 dx. wbs. }
  clearbody d2 d3 d4. cbn [taylor_loop].
  replace (arb_const k G * K) with (K + (K + (G2 * K + (G3 * K + (G4 * K + 0))))).
  2:{ unfold arb_const. fold G2. fold G3. fold Gx. fold G4. ring. }
  repeat first [apply wb_plus | apply taylor_wb; assumption].
  split; [lra|]. rewrite Cmod_0. lra.
Qed.

Definition polar_const (k G : R) : R :=
  let G' := G + G ^ 2 + (G * G ^ 2 + G * G) in
  arb_const k G' * (1 + G + (G ^ 2 + G) + (G ^ 4 + 6 * G ^ 2 * G + 4 * G * G + 3 * G ^ 2 + G)).

Lemma polar_bound : forall k curv c1 c2 t1 t2 t3 t4 G d K, Rabs curv <= G -> Rabs c1 <= G -> Rabs c2 <= G ->
  Rabs t1 <= G -> Rabs t2 <= G -> Rabs t3 <= G -> Rabs t4 <= G ->
  wb 0 (pd_xi0 d) K -> wb 0 (pd_xi1 d) K -> wb 1 (pd_d_xi0 d) K -> wb 1 (pd_d_xi1 d) K ->
  wb 2 (pd_d2_xi0 d) K -> wb 2 (pd_d2_xi1 d) K -> wb 3 (pd_d3_xi0 d) K -> wb 4 (pd_d4_xi0 d) K ->
  wb 0 (extend_polar k n curv c1 c2 t1 t2 t3 t4 d) (polar_const k G * K).
Proof.
  intros k curv c1 c2 t1 t2 t3 t4 G d K Hc H1 H2 T1 T2 T3 T4 X0 X1 D0 D1 E0 E1 F0 F4.
  assert (P : 0 <= K) by apply X0. assert (PG : 0 <= G) by (pose proof (Rabs_pos curv); lra).
  pose proof (pow2_ge_0 G). pose proof (pow_le G 3 PG). pose proof (pow_le G 4 PG).
  assert (0 <= G * G) by (apply Rmult_le_pos; assumption). assert (0 <= G * G ^ 2) by (apply Rmult_le_pos; assumption).
  assert (0 <= 6 * G ^ 2 * G) by (apply Rmult_le_pos; lra). assert (0 <= 4 * G * G) by lra.
  set (G' := G + G ^ 2 + (G * G ^ 2 + G * G)).
  set (Q := 1 + G + (G ^ 2 + G) + (G ^ 4 + 6 * G ^ 2 * G + 4 * G * G + 3 * G ^ 2 + G)).
  replace (polar_const k G * K) with (arb_const k G' * (Q * K)) by (unfold polar_const, G', Q; ring).
  assert (Q2 : Rabs 2 <= 2) by (rewrite Rabs_pos_eq; lra). assert (Q3 : Rabs 3 <= 3) by (rewrite Rabs_pos_eq; lra).
  assert (Q4 : Rabs 4 <= 4) by (rewrite Rabs_pos_eq; lra). assert (Q6 : Rabs 6 <= 6) by (rewrite Rabs_pos_eq; lra).
  assert (LQ : forall w x a, a <= Q -> wb w x (a * K) -> wb w x (Q * K)).
  { intros w x a Ha Hw. eapply wb_le; [|exact Hw]. apply Rmult_le_compat_r; assumption. }
  assert (L1 : forall w x, wb w x K -> wb w x (Q * K)).
  { intros w x Hw. apply (LQ w x 1); [unfold Q; lra|]. rewrite Rmult_1_l. exact Hw. }
  unfold extend_polar. apply arb_bound; cbn [ed_xi0 ed_xi1 ed_d_xi0 ed_d_xi1 ed_d2_xi0 ed_d2_xi1 ed_d4_xi0].
  - unfold G'; lra.
  - unfold convert_d_real. eapply Rle_trans; [apply Rabs_2; eassumption|]. unfold G'; lra.
  - unfold convert_d2_real. eapply Rle_trans; [rb|]. unfold G'; lra.
  - apply L1; exact X0.
  - apply L1, (wb_up 0); [lia|exact X1].
  - unfold convert_d2. apply (LQ _ _ (G ^ 2 + G)); [unfold Q; lra|]. rewrite Rmult_plus_distr_r.
    assert (wb 2 (pd_d_xi0 d) K) by (apply (wb_up 1); [lia|exact D0]). wbs.
  - unfold convert_d2. apply (LQ _ _ (G ^ 2 + G)); [unfold Q; lra|]. rewrite Rmult_plus_distr_r.
    assert (wb 3 (pd_d_xi1 d) K) by (apply (wb_up 1); [lia|exact D1]).
    assert (wb 3 (pd_d2_xi1 d) K) by (apply (wb_up 2); [lia|exact E1]). wbs.
  - unfold convert_d. apply (LQ _ _ G); [unfold Q; lra|]. assert (wb 3 (pd_d_xi0 d) K) by (apply (wb_up 1); [lia|exact D0]). wbs.
  - unfold convert_d. apply (LQ _ _ G); [unfold Q; lra|]. assert (wb 4 (pd_d_xi1 d) K) by (apply (wb_up 1); [lia|exact D1]). wbs.
  - unfold convert_d4. apply (LQ _ _ (G ^ 4 + 6 * G ^ 2 * G + 4 * G * G + 3 * G ^ 2 + G)); [unfold Q; lra|].
    replace ((G ^ 4 + 6 * G ^ 2 * G + 4 * G * G + 3 * G ^ 2 + G) * K)
      with (G ^ 4 * K + (6 * G ^ 2 * G) * K + G * ((4 * G) * K) + (3 * G ^ 2) * K + G * K) by ring.
    assert (wb 4 (pd_d_xi0 d) K) by (apply (wb_up 1); [lia|exact D0]).
    assert (wb 4 (pd_d2_xi0 d) K) by (apply (wb_up 2); [lia|exact E0]).
    assert (wb 4 (pd_d3_xi0 d) K) by (apply (wb_up 3); [lia|exact F0]). wbs.
Qed.
End Weights.

(** Both formulas are linear in the boundary data. *)
Lemma arb_linear : forall k n curv c1 c2 e e',
  Cminus (extend_arbitrary k n curv c1 c2 e) (extend_arbitrary k n curv c1 c2 e') =
  extend_arbitrary k n curv c1 c2 (mk_ed (Cminus (ed_xi0 e) (ed_xi0 e')) (Cminus (ed_xi1 e) (ed_xi1 e'))
    (Cminus (ed_d_xi0 e) (ed_d_xi0 e')) (Cminus (ed_d_xi1 e) (ed_d_xi1 e')) (Cminus (ed_d2_xi0 e) (ed_d2_xi0 e'))
    (Cminus (ed_d2_xi1 e) (ed_d2_xi1 e')) (Cminus (ed_d4_xi0 e) (ed_d4_xi0 e'))).
Proof.
  intros. unfold extend_arbitrary, arbitrary_derivs. cbv zeta.
  cbn [ed_xi0 ed_xi1 ed_d_xi0 ed_d_xi1 ed_d2_xi0 ed_d2_xi1 ed_d4_xi0]. cbn [taylor_loop]. unfold Cdiv. ring.
Qed.

Lemma polar_linear : forall k n curv c1 c2 t1 t2 t3 t4 d d',
  Cminus (extend_polar k n curv c1 c2 t1 t2 t3 t4 d) (extend_polar k n curv c1 c2 t1 t2 t3 t4 d') =
  extend_polar k n curv c1 c2 t1 t2 t3 t4 (mk_pd (Cminus (pd_xi0 d) (pd_xi0 d')) (Cminus (pd_xi1 d) (pd_xi1 d'))
    (Cminus (pd_d_xi0 d) (pd_d_xi0 d')) (Cminus (pd_d_xi1 d) (pd_d_xi1 d')) (Cminus (pd_d2_xi0 d) (pd_d2_xi0 d'))
    (Cminus (pd_d2_xi1 d) (pd_d2_xi1 d')) (Cminus (pd_d3_xi0 d) (pd_d3_xi0 d')) (Cminus (pd_d4_xi0 d) (pd_d4_xi0 d'))).
Proof.
  intros. unfold extend_polar. rewrite arb_linear.
  cbn [ed_xi0 ed_xi1 ed_d_xi0 ed_d_xi1 ed_d2_xi0 ed_d2_xi1 ed_d4_xi0 pd_xi0 pd_xi1 pd_d_xi0 pd_d_xi1 pd_d2_xi0 pd_d2_xi1 pd_d3_xi0 pd_d4_xi0].
  unfold convert_d, convert_d2, convert_d4. f_equal. f_equal; ring.
Qed.
