(** Error bounds of the extension of the source term. *)
From Coq Require Import ZArith List Bool Reals Lra Lia Psatz.
From Coquelicot Require Import Coquelicot.
From Verif Require Import Model_Py Model_Ext Model_Extend Spec_Ext Spec_Extend Lib_Sm Proof_Ext Proof_Ext2 Proof_Extend Proof_Acc2 Proof_Acc3.
Import ListNotations.
Open Scope R_scope.

(** ** Taylor steps of a function of one variable *)

Lemma inc1 : forall (f f' : R -> R) B t, 0 <= t <= 1 -> (forall u, is_derive f u (f' u)) ->
  (forall u, 0 <= u <= t -> Rabs (f' u) <= B) -> Rabs (f t - f 0) <= B * t.
Proof.
  intros f f' B t Ht Hd HB.
  destruct (MVT_gen f 0 t f') as (u & Hu & E).
  - intros u _. apply Hd.
  - intros u _. apply continuity_pt_filterlim. apply (ex_derive_continuous f). eexists. apply Hd.
  - rewrite E, Rminus_0_r, Rabs_mult, (Rabs_pos_eq t) by lra. apply Rmult_le_compat_r; [lra|].
    apply HB. rewrite Rmin_left, Rmax_right in Hu by lra. exact Hu.
Qed.

Lemma is_derive_minus_lin : forall (f : R -> R) u l c, is_derive f u l -> is_derive (fun t => f t - t * c) u (l - c).
Proof.
  intros f u l c H. apply (is_derive_minus (K := R_AbsRing) (V := R_NormedModule) f (fun t => t * c) u l c H).
  auto_derive; [exact I|ring].
Qed.

Lemma inc2 : forall (f f1 f2 : R -> R) B t, 0 <= t <= 1 -> (forall u, is_derive f u (f1 u)) -> (forall u, is_derive f1 u (f2 u)) ->
  (forall u, 0 <= u <= t -> Rabs (f2 u) <= B) -> Rabs (f t - f 0 - t * f1 0) <= B * t.
Proof.
  intros f f1 f2 B t Ht H1 H2 HB.
  assert (B0 : 0 <= B) by (eapply Rle_trans; [apply Rabs_pos|apply (HB 0); lra]).
  replace (f t - f 0 - t * f1 0) with ((fun u => f u - u * f1 0) t - (fun u => f u - u * f1 0) 0) by (cbv beta; ring).
  apply (inc1 (fun u => f u - u * f1 0) (fun u => f1 u - f1 0)); [exact Ht| |].
  - intros u. apply is_derive_minus_lin, H1.
  - intros u Hu. eapply Rle_trans; [apply (inc1 f1 f2 B u ltac:(lra) H2)|].
    + intros w Hw. apply HB. lra.
    + assert (B * u <= B * 1) by (apply Rmult_le_compat_l; lra). lra.
Qed.

Lemma inc3 : forall (f f1 f2 f3 : R -> R) B, (forall u, is_derive f u (f1 u)) -> (forall u, is_derive f1 u (f2 u)) -> (forall u, is_derive f2 u (f3 u)) ->
  (forall u, 0 <= u <= 1 -> Rabs (f3 u) <= B) -> Rabs (f 1 - f 0 - f1 0 - 1 / 2 * f2 0) <= B.
Proof.
  intros f f1 f2 f3 B H1 H2 H3 HB.
  assert (B0 : 0 <= B) by (eapply Rle_trans; [apply Rabs_pos|apply (HB 0); lra]).
  set (g := fun u => f u - u * f1 0 - (u ^ 2 / 2) * f2 0).
  replace (f 1 - f 0 - f1 0 - 1 / 2 * f2 0) with (g 1 - g 0) by (unfold g; field).
  rewrite <- (Rmult_1_r B). apply (inc1 g (fun u => f1 u - f1 0 - u * f2 0)); [lra| |].
  - intros u. apply (is_derive_minus (K := R_AbsRing) (V := R_NormedModule) (fun u => f u - u * f1 0) (fun u => u ^ 2 / 2 * f2 0) u (f1 u - f1 0) (u * f2 0)).
    + apply is_derive_minus_lin, H1.
    + auto_derive; [exact I|field].
  - intros u Hu. eapply Rle_trans; [apply (inc2 f1 f2 f3 B u Hu H2 H3)|].
    + intros w Hw. apply HB. lra.
    + assert (B * u <= B * 1) by (apply Rmult_le_compat_l; lra). lra.
Qed.

(** ** Taylor steps in the plane *)

Lemma dirn_bound_d : forall G a b x y M d m, 0 <= M -> 0 <= d -> Rabs a <= d -> Rabs b <= d ->
  (forall i j, (i + j <= m)%nat -> Rabs (G i j x y) <= M) ->
  forall l i j, (l + i + j <= m)%nat -> Rabs (dirn G a b l i j x y) <= (2 * d) ^ l * M.
Proof.
  intros G a b x y M d m HM Hd Ha Hb HG. induction l as [|l IH]; intros i j Hl; cbn [dirn].
  - replace ((2 * d) ^ 0 * M) with M by (simpl; ring). apply HG. lia.
  - eapply Rle_trans; [apply Rabs_triang|]. rewrite !Rabs_mult.
    pose proof (IH (S i) j ltac:(lia)) as H1. pose proof (IH i (S j) ltac:(lia)) as H2. cbn [pow].
    assert (Rabs a * Rabs (dirn G a b l (S i) j x y) <= d * ((2 * d) ^ l * M)) by (apply Rmult_le_compat; try apply Rabs_pos; assumption).
    assert (Rabs b * Rabs (dirn G a b l i (S j) x y) <= d * ((2 * d) ^ l * M)) by (apply Rmult_le_compat; try apply Rabs_pos; assumption).
    lra.
Qed.

Lemma real_steps : forall G x y dx dy d M, partialsR all_plane 3 G -> 0 <= M -> 0 <= d -> Rabs dx <= d -> Rabs dy <= d ->
  (forall i j t, (i + j <= 3)%nat -> 0 <= t <= 1 -> Rabs (G i j (x + t * dx) (y + t * dy)) <= M) ->
  let g i j := G i j x y in
  let q i j := G i j (x + dx) (y + dy) in
  Rabs (q 0%nat 0%nat - (g 0%nat 0%nat + (dx * g 1%nat 0%nat + dy * g 0%nat 1%nat) + 1 / 2 * (dx ^ 2 * g 2%nat 0%nat + 2 * dx * dy * g 1%nat 1%nat + dy ^ 2 * g 0%nat 2%nat))) <= 8 * M * d ^ 3 /\
  Rabs (q 1%nat 0%nat - (g 1%nat 0%nat + (dx * g 2%nat 0%nat + dy * g 1%nat 1%nat))) <= 4 * M * d ^ 2 /\
  Rabs (q 0%nat 1%nat - (g 0%nat 1%nat + (dx * g 1%nat 1%nat + dy * g 0%nat 2%nat))) <= 4 * M * d ^ 2 /\
  (forall i j, (i + j <= 2)%nat -> Rabs (q i j - g i j) <= 2 * M * d).
Proof.
  intros G x y dx dy d M HG HM Hd Hx Hy HB g q.
  pose (f := fun i j l t => dirn G dx dy l i j (x + t * dx) (y + t * dy)).
  assert (Df : forall i j l t, (l + i + j < 3)%nat -> is_derive (f i j l) t (f i j (S l) t)).
  { intros i j l t Hl. apply (dirn_derive all_plane 3 G HG l i j x y dx dy t Hl I). }
  assert (Bf : forall i j l t, (l + i + j <= 3)%nat -> 0 <= t <= 1 -> Rabs (f i j l t) <= (2 * d) ^ l * M).
  { intros i j l t Hl Ht. apply (dirn_bound_d G dx dy _ _ M d 3 HM Hd Hx Hy); [|exact Hl]. intros i' j' Hij. apply HB; assumption. }
  assert (E0 : forall i j, f i j 0%nat 0 = g i j) by (intros; unfold f, g; cbn [dirn]; f_equal; ring).
  assert (E1 : forall i j, f i j 0%nat 1 = q i j) by (intros; unfold f, q; cbn [dirn]; f_equal; ring).
  assert (F1 : forall i j, f i j 1%nat 0 = dx * g (S i) j + dy * g i (S j)) by (intros; unfold f, g; cbn [dirn]; f_equal; f_equal; f_equal; ring).
  assert (F2 : f 0%nat 0%nat 2%nat 0 = dx ^ 2 * g 2%nat 0%nat + 2 * dx * dy * g 1%nat 1%nat + dy ^ 2 * g 0%nat 2%nat).
  { unfold f, g. cbn [dirn]. replace (x + 0 * dx) with x by ring. replace (y + 0 * dy) with y by ring. ring. }
  split; [|split; [|split]].
  - pose proof (inc3 (f 0%nat 0%nat 0%nat) (f 0%nat 0%nat 1%nat) (f 0%nat 0%nat 2%nat) (f 0%nat 0%nat 3%nat) ((2 * d) ^ 3 * M) (fun u => Df 0%nat 0%nat 0%nat u ltac:(lia)) (fun u => Df 0%nat 0%nat 1%nat u ltac:(lia)) (fun u => Df 0%nat 0%nat 2%nat u ltac:(lia))
      (fun u Hu => Bf 0%nat 0%nat 3%nat u ltac:(lia) Hu)) as P.
    rewrite E0, E1, F1, F2 in P. replace (8 * M * d ^ 3) with ((2 * d) ^ 3 * M) by ring. eapply Rle_trans; [|exact P]. right. f_equal. ring.
  - pose proof (inc2 (f 1%nat 0%nat 0%nat) (f 1%nat 0%nat 1%nat) (f 1%nat 0%nat 2%nat) ((2 * d) ^ 2 * M) 1 ltac:(lra) (fun u => Df 1%nat 0%nat 0%nat u ltac:(lia)) (fun u => Df 1%nat 0%nat 1%nat u ltac:(lia)) (fun u Hu => Bf 1%nat 0%nat 2%nat u ltac:(lia) Hu)) as P.
    rewrite E0, E1, F1 in P. replace (4 * M * d ^ 2) with ((2 * d) ^ 2 * M * 1) by ring. eapply Rle_trans; [|exact P]. right. f_equal. ring.
  - pose proof (inc2 (f 0%nat 1%nat 0%nat) (f 0%nat 1%nat 1%nat) (f 0%nat 1%nat 2%nat) ((2 * d) ^ 2 * M) 1 ltac:(lra) (fun u => Df 0%nat 1%nat 0%nat u ltac:(lia)) (fun u => Df 0%nat 1%nat 1%nat u ltac:(lia)) (fun u Hu => Bf 0%nat 1%nat 2%nat u ltac:(lia) Hu)) as P.
    rewrite E0, E1, F1 in P. replace (4 * M * d ^ 2) with ((2 * d) ^ 2 * M * 1) by ring. eapply Rle_trans; [|exact P]. right. f_equal. ring.
  - intros i j Hij. pose proof (inc1 (f i j 0%nat) (f i j 1%nat) ((2 * d) ^ 1 * M) 1 ltac:(lra) (fun u => Df i j 0%nat u ltac:(lia)) (fun u Hu => Bf i j 1%nat u ltac:(lia) Hu)) as P.
    rewrite E0, E1 in P. eapply Rle_trans; [exact P|]. right. ring.
Qed.

Lemma source_steps : forall F x y dx dy d M, partials all_plane 3 F -> 0 <= M -> 0 <= d -> Rabs dx <= d -> Rabs dy <= d ->
  (forall i j t, (i + j <= 3)%nat -> 0 <= t <= 1 -> Cmod (F i j (x + t * dx) (y + t * dy)) <= M) ->
  let g i j := F i j x y in
  let q i j := F i j (x + dx) (y + dy) in
  (Cmod (q 0%nat 0%nat - (g 0%nat 0%nat + (RtoC dx * g 1%nat 0%nat + RtoC dy * g 0%nat 1%nat)
      + RtoC (1 / 2) * (RtoC (dx ^ 2) * g 2%nat 0%nat + RtoC (2 * dx * dy) * g 1%nat 1%nat + RtoC (dy ^ 2) * g 0%nat 2%nat)))%C <= 16 * M * d ^ 3)%R /\
  (Cmod (q 1%nat 0%nat - (g 1%nat 0%nat + (RtoC dx * g 2%nat 0%nat + RtoC dy * g 1%nat 1%nat)))%C <= 8 * M * d ^ 2)%R /\
  (Cmod (q 0%nat 1%nat - (g 0%nat 1%nat + (RtoC dx * g 1%nat 1%nat + RtoC dy * g 0%nat 2%nat)))%C <= 8 * M * d ^ 2)%R /\
  (forall i j, (i + j <= 2)%nat -> (Cmod (q i j - g i j)%C <= 4 * M * d)%R).
Proof.
  intros F x y dx dy d M HF HM Hd Hx Hy HB g q.
  assert (K : forall pr : C -> R, pr = fst \/ pr = snd -> partialsR all_plane 3 (fun i j x y => pr (F i j x y)) /\
     forall i j t, (i + j <= 3)%nat -> 0 <= t <= 1 -> Rabs (pr (F i j (x + t * dx) (y + t * dy))) <= M).
  { intros pr Hpr. split.
    - intros i j u v H1 H2. destruct (HF i j u v H1 H2). destruct Hpr as [-> | ->]; assumption.
    - intros i j t Hij Ht. eapply Rle_trans; [|apply (HB i j t Hij Ht)]. destruct Hpr as [-> | ->]; apply Rabs_le_Cmod. }
  destruct (K fst (or_introl eq_refl)) as [P1 Q1]. destruct (K snd (or_intror eq_refl)) as [P2 Q2].
  destruct (real_steps _ x y dx dy d M P1 HM Hd Hx Hy Q1) as (A1 & A2 & A3 & A4).
  destruct (real_steps _ x y dx dy d M P2 HM Hd Hx Hy Q2) as (B1 & B2 & B3 & B4).
  split; [|split; [|split]]; [replace (16 * M * d ^ 3) with (2 * (8 * M * d ^ 3)) by ring|replace (8 * M * d ^ 2) with (2 * (4 * M * d ^ 2)) by ring
    |replace (8 * M * d ^ 2) with (2 * (4 * M * d ^ 2)) by ring|intros i j Hij; replace (4 * M * d) with (2 * (2 * M * d)) by ring].
  1: apply Cmod_comp; [eapply Rle_trans; [|exact A1]|eapply Rle_trans; [|exact B1]].
  3: apply Cmod_comp; [eapply Rle_trans; [|exact A2]|eapply Rle_trans; [|exact B2]].
  5: apply Cmod_comp; [eapply Rle_trans; [|exact A3]|eapply Rle_trans; [|exact B3]].
  7: apply Cmod_comp; [eapply Rle_trans; [|exact (A4 i j Hij)]|eapply Rle_trans; [|exact (B4 i j Hij)]].
  all: right; f_equal; unfold g, q, Cminus, Copp, Cplus, Cmult, RtoC; cbn [fst snd]; ring.
Qed.

(** ** The extension formula for the source *)

Lemma inhomo_linear : forall k n kap f fn fnn fss f' fn' fnn' fss',
  Cminus (inhomo_extend_arbitrary k n kap f fn fnn fss) (inhomo_extend_arbitrary k n kap f' fn' fnn' fss') =
  inhomo_extend_arbitrary k n kap (Cminus f f') (Cminus fn fn') (Cminus fnn fnn') (Cminus fss fss').
Proof. intros. unfold inhomo_extend_arbitrary, inhomo_derivs. cbn [taylor_loop]. unfold Cdiv. ring. Qed.

Definition inh_const (k G : R) : R := 1 + (1 + G) + (1 + (2 * G ^ 2 + k ^ 2) + G * (1 + G) + 1).

Lemma inhomo_bound : forall n T k kap G f fn fnn fss, Rabs n <= 1 -> 0 <= T -> Rabs kap <= G ->
  Rabs n ^ 2 * Cmod f <= T -> Rabs n ^ 3 * Cmod fn <= T -> Rabs n ^ 4 * Cmod fnn <= T -> Rabs n ^ 4 * Cmod fss <= T ->
  Cmod (inhomo_extend_arbitrary k n kap f fn fnn fss) <= inh_const k G * T.
Proof.
  intros n T k kap G f fn fnn fss Hn HT HG H2 H3 H4 H5.
  assert (HG0 : 0 <= G) by (eapply Rle_trans; [apply Rabs_pos|exact HG]).
  assert (W2 : wb n T 2 f 1) by (split; lra). assert (W3 : wb n T 3 fn 1) by (split; lra).
  assert (W4 : wb n T 4 fnn 1) by (split; lra). assert (W5 : wb n T 4 fss 1) by (split; lra).
  assert (Hk : Rabs (2 * kap ^ 2 - k ^ 2) <= 2 * G ^ 2 + k ^ 2).
  { apply Rabs_m; [apply Rabs_2; [rewrite Rabs_pos_eq; lra|apply Rabs_n; exact HG]|]. rewrite Rabs_pos_eq; [lra|apply pow2_ge_0]. }
  unfold inhomo_extend_arbitrary, inhomo_derivs. cbv zeta. set (d3 := Cplus fn _). set (d4 := Cminus _ fss).
  assert (V3 : wb n T 3 d3 (1 + G)).
  { unfold d3. replace (1 + G) with (1 + G * 1) by ring. apply wb_plus; [exact W3|]. apply wb_scal; [exact HG|]. apply (wb_up n T Hn 2); [lia|exact W2]. }
  assert (V4 : wb n T 4 d4 (1 + (2 * G ^ 2 + k ^ 2) + G * (1 + G) + 1)).
  { unfold d4. apply wb_minus; [|exact W5]. apply wb_plus.
    - replace (1 + (2 * G ^ 2 + k ^ 2)) with (1 + (2 * G ^ 2 + k ^ 2) * 1) by ring. apply wb_plus; [exact W4|]. apply wb_scal; [exact Hk|]. apply (wb_up n T Hn 2); [lia|exact W2].
    - apply wb_scal; [exact HG|]. apply (wb_up n T Hn 3); [lia|exact V3]. }
  cbn [taylor_loop].
  assert (Z : forall l, wb n T 0 (Cmult (Cdiv (RtoC 0) (RtoC (INR (fact l)))) (RtoC (n ^ l))) 0).
  { intros l. apply taylor_wb. split; [lra|]. rewrite Cmod_0. lra. }
  pose proof (taylor_wb n T 2 _ _ W2) as T2. pose proof (taylor_wb n T 3 _ _ V3) as T3. pose proof (taylor_wb n T 4 _ _ V4) as T4.
  assert (Fin : wb n T 0 (Cplus (Cmult (Cdiv f (RtoC (INR (fact 2)))) (RtoC (n ^ 2)))
     (Cplus (Cmult (Cdiv d3 (RtoC (INR (fact 3)))) (RtoC (n ^ 3))) (Cmult (Cdiv d4 (RtoC (INR (fact 4)))) (RtoC (n ^ 4))))) (inh_const k G)).
  { unfold inh_const. replace (1 + (1 + G) + (1 + (2 * G ^ 2 + k ^ 2) + G * (1 + G) + 1)) with (1 + ((1 + G) + (1 + (2 * G ^ 2 + k ^ 2) + G * (1 + G) + 1))) by ring.
    apply wb_plus; [exact T2|]. apply wb_plus; [exact T3|exact T4]. }
  destruct Fin as [_ Fin]. rewrite pow_O, Rmult_1_l in Fin. eapply Rle_trans; [|exact Fin]. right. f_equal. unfold Cdiv. ring.
Qed.
