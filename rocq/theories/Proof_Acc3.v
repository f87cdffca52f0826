(** Accuracy of the extension from a smooth curve and from a straight line. *)
From Coq Require Import ZArith List Bool Reals Lra Lia Psatz.
From Coquelicot Require Import Coquelicot.
From Verif Require Import Model_Py Model_Domain Model_Ext Model_Extend Spec_Ext Spec_Extend Lib_Sm Proof_Ext Proof_Ext2 Proof_Extend
  Proof_Extend2 Proof_Acc1 Proof_Acc2.
Import ListNotations.
Open Scope R_scope.

(** The traces of a smooth function on a curve, with bounds. *)
Lemma traces_bounded : forall (X Y nx ny : R -> R) lo hi, sm 6 X -> sm 6 Y -> sm 6 nx -> sm 6 ny -> exists K, 0 <= K /\ forall D M, partials all_plane 6 D -> 0 <= M ->
  (forall i j t, (i + j <= 6)%nat -> lo <= t <= hi -> Cmod (D i j (X t) (Y t)) <= M) ->
  let u0 t := D 0%nat 0%nat (X t) (Y t) in
  let u1 t := Cplus (Cmult (RtoC (nx t)) (D 1%nat 0%nat (X t) (Y t)))
                    (Cmult (RtoC (ny t)) (D 0%nat 1%nat (X t) (Y t))) in
  all_smooth5 u0 /\ all_smooth5 u1 /\
  forall t, lo <= t <= hi -> Cmod (CDerive_n u0 5 t) <= K * M /\ Cmod (CDerive_n u1 5 t) <= K * M.
Proof.
  intros X Y nx ny lo hi SX SY Sp Sq.
  destruct (trace_bounds X Y nx ny lo hi SX SY Sp Sq) as (K & HK & B).
  exists (2 * K). split; [lra|]. intros D M HD HM HB u0 u1.
  assert (Bf : forall pr : C -> R, pr = fst \/ pr = snd -> forall n, (n <= 5)%nat ->
     (forall t, lo <= t <= hi -> Rabs (Derive_n (fun t => pr (u0 t)) n t) <= K * M /\ Rabs (Derive_n (fun t => pr (u1 t)) n t) <= K * M) /\
     ((n < 5)%nat -> forall t, ex_derive (Derive_n (fun t => pr (u0 t)) n) t /\ ex_derive (Derive_n (fun t => pr (u1 t)) n) t)).
  { intros pr Hpr n Hn.
    assert (E1 : forall t, nx t * pr (D 1%nat 0%nat (X t) (Y t)) + ny t * pr (D 0%nat 1%nat (X t) (Y t)) = pr (u1 t)).
    { intros t. unfold u1. destruct Hpr as [-> | ->]; unfold Cplus, Cmult, RtoC; cbn [fst snd]; ring. }
    destruct (B (fun i j x y => pr (D i j x y)) M) with (n := n) as [B1 B2].
    - intros i j x y Hij H. destruct (HD i j x y Hij I) as [P1 P2]. destruct Hpr as [-> | ->]; assumption.
    - exact HM.
    - intros i j t Hij Ht. eapply Rle_trans; [|apply (HB i j t Hij Ht)]. destruct Hpr as [-> | ->]; apply Rabs_le_Cmod.
    - exact Hn.
    - cbv zeta in B1, B2. split.
      + intros t Ht. specialize (B1 t Ht). rewrite <- (Derive_n_ext _ _ n t E1). exact B1.
      + intros H t. specialize (B2 H t). split; [apply B2|]. eapply ex_derive_ext; [intros u; apply (Derive_n_ext _ _ n u E1)|]. apply B2. }
  destruct (Bf fst (or_introl eq_refl) 5%nat (le_n 5)) as [F5 _]. destruct (Bf snd (or_intror eq_refl) 5%nat (le_n 5)) as [S5 _].
  split; [|split].
  - intros l t Hl. destruct (Bf fst (or_introl eq_refl) l ltac:(lia)) as [_ Q1]. destruct (Bf snd (or_intror eq_refl) l ltac:(lia)) as [_ Q2].
    split; [apply (Q1 Hl t)|apply (Q2 Hl t)].
  - intros l t Hl. destruct (Bf fst (or_introl eq_refl) l ltac:(lia)) as [_ Q1]. destruct (Bf snd (or_intror eq_refl) l ltac:(lia)) as [_ Q2].
    split; [apply (Q1 Hl t)|apply (Q2 Hl t)].
  - intros t Ht. destruct (F5 t Ht) as [P1 P2]. destruct (S5 t Ht) as [P3 P4]. rewrite Rmult_assoc.
    split; apply Cmod_comp; unfold CDerive_n; cbn [fst snd]; assumption.
Qed.

(** A smooth curve in polar form whose speed stays away from zero. *)
Definition good_curve (r : R -> R) : Prop :=
  (forall n, sm n r) /\ exists v0, 0 < v0 /\ forall t, v0 <= r t ^ 2 + Derive r t ^ 2.

(** The contribution of the source [F] to the extension from a curve with
    curvature [kap] at a point (x, y) with unit normal (nx, ny). *)
Definition wex (k kap : R) (F : nat -> nat -> R -> R -> C) (x y nx ny n : R) : C :=
  let fn := Cplus (Cmult (RtoC nx) (F 1%nat 0%nat x y)) (Cmult (RtoC ny) (F 0%nat 1%nat x y)) in
  inhomo_extend_arbitrary k n kap (F 0%nat 0%nat x y) fn
    (Cplus (Cplus (Cmult (RtoC (nx ^ 2)) (F 2%nat 0%nat x y)) (Cmult (RtoC (2 * nx * ny)) (F 1%nat 1%nat x y))) (Cmult (RtoC (ny ^ 2)) (F 0%nat 2%nat x y)))
    (Cplus (Cplus (Cplus (Cmult (RtoC (ny ^ 2)) (F 2%nat 0%nat x y)) (Cmult (RtoC (- 2 * nx * ny)) (F 1%nat 1%nat x y))) (Cmult (RtoC (nx ^ 2)) (F 0%nat 2%nat x y)))
       (Cmult (RtoC kap) fn)).

Lemma wex_zero : forall k kap x y nx ny n, wex k kap (fun _ _ _ _ => RtoC 0) x y nx ny n = RtoC 0.
Proof.
  intros. unfold wex. cbv zeta beta. rewrite !Cmult_0_r, !Cplus_0_r, Cmult_0_r, !Cplus_0_r. apply inhomo_zero.
Qed.

(** Second derivatives of the source across and along a unit speed curve. *)
Lemma source_traces : forall O lo hi X Y tx ty kap F s, open2 O -> unit_curve lo hi X Y tx ty kap ->
  (forall s, lo < s < hi -> O (X s) (Y s)) -> partials O 2 F -> lo < s < hi ->
  let F' i j := F i j (X s) (Y s) in
  trace2 F X Y tx ty s = Cplus (Cplus (Cmult (RtoC (ty s ^ 2)) (F' 2 0)%nat) (Cmult (RtoC (2 * ty s * - tx s)) (F' 1 1)%nat)) (Cmult (RtoC ((- tx s) ^ 2)) (F' 0 2)%nat) /\
  CDerive_n (trace0 F X Y) 2 s = Cplus (Cplus (Cplus (Cmult (RtoC ((- tx s) ^ 2)) (F' 2 0)%nat) (Cmult (RtoC (- 2 * ty s * - tx s)) (F' 1 1)%nat)) (Cmult (RtoC (ty s ^ 2)) (F' 0 2)%nat))
    (Cmult (RtoC (kap s)) (trace1 F X Y tx ty s)).
Proof.
  intros O lo hi X Y tx ty kap F s HO HC Hin HF Hs F'.
  assert (HR : forall pr : C -> R, pr = fst \/ pr = snd -> partialsR O 2 (fun i j x y => pr (F i j x y))).
  { intros pr [-> | ->] i j x y H1 H2; apply (HF i j x y H1 H2). }
  assert (Two : forall pr : C -> R, pr = fst \/ pr = snd ->
    Derive_n (fun t => pr (F 0%nat 0%nat (X s + t * ty s) (Y s + t * - tx s))) 2 0 =
      ty s ^ 2 * pr (F' 2 0)%nat + 2 * ty s * - tx s * pr (F' 1 1)%nat + (- tx s) ^ 2 * pr (F' 0 2)%nat /\
    Derive_n (fun t => pr (F 0%nat 0%nat (X t) (Y t))) 2 s =
      (- tx s) ^ 2 * pr (F' 2 0)%nat + - 2 * ty s * - tx s * pr (F' 1 1)%nat + ty s ^ 2 * pr (F' 0 2)%nat + kap s * (ty s * pr (F' 1 0)%nat + - tx s * pr (F' 0 1)%nat)).
  { intros pr Hpr. specialize (HR pr Hpr). split.
    - rewrite (normal_derivs O 2 _ (X s) (Y s) (ty s) (- tx s) 2 HO HR (Hin s Hs) (le_n _)). unfold F'. cbn [dirn]. ring.
    - assert (DG : forall i j u, (i + j < 2)%nat -> lo < u < hi -> is_derive (fun t => pr (F i j (X t) (Y t))) u (tx u * pr (F (S i) j (X u) (Y u)) + ty u * pr (F i (S j) (X u) (Y u)))).
      { intros i j u Hij Hu. destruct (HC u Hu) as (C1 & C2 & _). apply (chain2 (fun x y => pr (F i j x y)) X Y); [|exact C1|exact C2]. apply HR; [exact Hij|apply Hin, Hu]. }
      apply (derive_chain_eq _ (fun l t => match l with 0%nat => pr (F 0%nat 0%nat (X t) (Y t)) | 1%nat => tx t * pr (F 1%nat 0%nat (X t) (Y t)) + ty t * pr (F 0%nat 1%nat (X t) (Y t))
        | _ => (- tx t) ^ 2 * pr (F 2%nat 0%nat (X t) (Y t)) + - 2 * ty t * - tx t * pr (F 1%nat 1%nat (X t) (Y t)) + ty t ^ 2 * pr (F 0%nat 2%nat (X t) (Y t))
               + kap t * (ty t * pr (F 1%nat 0%nat (X t) (Y t)) + - tx t * pr (F 0%nat 1%nat (X t) (Y t))) end) 2 lo hi);
        [intros u _; reflexivity| |lia|exact Hs].
      intros l u Hl Hu. destruct (HC u Hu) as (_ & _ & _ & C3 & C4 & _). destruct l as [|[|l]]; [| |lia].
      + apply DG; [lia|exact Hu].
      + refine (is_derive_eq _ u _ _ (der_plus _ _ u _ _ (der_mult _ _ u _ _ C3 (DG 1%nat 0%nat u ltac:(lia) Hu)) (der_mult _ _ u _ _ C4 (DG 0%nat 1%nat u ltac:(lia) Hu))) _).
        cbv beta. match goal with |- @eq _ ?a ?b => change (@eq R a b) end. ring. }
  destruct (Two fst (or_introl eq_refl)) as [A1 A2]. destruct (Two snd (or_intror eq_refl)) as [B1 B2].
  assert (AN : forall pr : C -> R, (fun t => pr (along_normal F X Y tx ty s t)) = (fun t => pr (F 0%nat 0%nat (X s + t * ty s) (Y s + t * - tx s)))).
  { intros pr. apply FunctionalExtensionality.functional_extensionality. intros t. unfold along_normal. do 2 f_equal. ring. }
  split.
  - unfold trace2, CDerive_n. rewrite (AN fst), (AN snd), A1, B1.
    apply injective_projections; cbn [fst snd]; unfold Cplus, Cmult, RtoC; cbn [fst snd]; ring.
  - unfold CDerive_n, trace0. rewrite A2, B2. unfold trace1. fold (F' 1 0)%nat (F' 0 1)%nat.
    apply injective_projections; cbn [fst snd]; unfold Cplus, Cmult, RtoC; cbn [fst snd]; ring.
Qed.

Section Curve.
Context (r : R -> R) (Hg : good_curve r).

Lemma g_pos : forall t, 0 < r t ^ 2 + Derive r t ^ 2.
Proof using Hg. intros t. destruct Hg as (_ & v & Hv & H). specialize (H t). lra. Qed.
Lemma g_sm : forall n, sm n r.
Proof using Hg. apply Hg. Qed.
Lemma g_sm1 : forall n, sm n (Derive r).
Proof using Hg. intros n. apply sm_Derive, g_sm. Qed.
Lemma g_sm2 : forall n, sm n (b_d2_r r).
Proof using Hg. intros n. apply sm_Derive, g_sm1. Qed.
Lemma g_speed : forall n, sm n (b_d_s r).
Proof using Hg.
  intros n. unfold b_d_s, b_d_r. apply sm_sqrt; [apply g_pos|]. apply sm_plus; apply sm_pow; [apply g_sm|apply g_sm1].
Qed.
Lemma g_speed_pos : forall t, 0 < b_d_s r t.
Proof using Hg. intros t. apply sqrt_lt_R0. apply g_pos. Qed.
Lemma g_curv : forall n, sm n (b_curv r).
Proof using Hg.
  intros n. apply (sm_ext n (fun t => - (r t ^ 2 + 2 * Derive r t ^ 2 - r t * b_d2_r r t) / b_d_s r t ^ 3)).
  { intros t. unfold b_curv. f_equal. f_equal. unfold b_d_s, b_d_r. pose proof (g_pos t) as P.
    replace (3 / 2) with (1 + / 2) by field. rewrite Rpower_plus, Rpower_1, Rpower_sqrt by exact P.
    replace (sqrt (r t ^ 2 + Derive r t ^ 2) ^ 3) with (sqrt (r t ^ 2 + Derive r t ^ 2) * sqrt (r t ^ 2 + Derive r t ^ 2) * sqrt (r t ^ 2 + Derive r t ^ 2)) by ring.
    rewrite sqrt_sqrt by lra. ring. }
  apply sm_div; [intros t; apply pow_nonzero; pose proof (g_speed_pos t); lra| |apply sm_pow, g_speed].
  apply sm_opp, sm_minus; [apply sm_plus; [apply sm_pow, g_sm|apply sm_scal, sm_pow, g_sm1]|apply sm_mult; [apply g_sm|apply g_sm2]].
Qed.
Lemma g_d_curv : forall n, sm n (b_d_curv r).
Proof using Hg. intros n. apply sm_Derive, g_curv. Qed.
Lemma g_d2_curv : forall n, sm n (b_d2_curv r).
Proof using Hg. intros n. apply sm_Derive, g_d_curv. Qed.
Lemma g_d2_s : forall n, sm n (b_d2_s r).
Proof using Hg. intros n. apply sm_Derive, g_speed. Qed.
Lemma g_d3_s : forall n, sm n (b_d3_s r).
Proof using Hg. intros n. apply sm_Derive, g_d2_s. Qed.
Lemma g_d4_s : forall n, sm n (b_d4_s r).
Proof using Hg. intros n. apply sm_Derive, g_d3_s. Qed.
Lemma g_d_th : forall n, sm n (b_d_th r).
Proof using Hg.
  intros n. unfold b_d_th, f_d_th_s. apply sm_div; [intros t; pose proof (g_speed_pos t); lra|apply sm_const|apply g_speed].
Qed.
Ltac sms := repeat first [apply g_sm | apply g_sm1 | apply g_speed | apply g_d2_s | apply g_d3_s | apply g_d4_s | apply g_d_th
  | eassumption | apply sm_const | lazymatch goal with
  | |- sm _ (fun t => _ + _) => apply sm_plus
  | |- sm _ (fun t => _ - _) => apply sm_minus
  | |- sm _ (fun t => - _) => apply sm_opp
  | |- sm _ (fun t => _ * _) => apply sm_mult
  | |- sm _ (fun t => _ ^ _) => apply sm_pow end].
Lemma g_d2_th : forall n, sm n (b_d2_th r).
Proof using Hg. intros n. unfold b_d2_th, f_d2_th_s. sms. Qed.
Lemma g_d3_th : forall n, sm n (b_d3_th r).
Proof using Hg. intros n. unfold b_d3_th, f_d3_th_s. pose proof (g_d2_th n). sms. Qed.
Lemma g_d4_th : forall n, sm n (b_d4_th r).
Proof using Hg. intros n. unfold b_d4_th, f_d4_th_s. pose proof (g_d2_th n). pose proof (g_d3_th n). sms. Qed.

Lemma g_X : forall n, sm n (fun t => r t * cos t).
Proof using Hg. intros n. apply sm_mult; [apply g_sm|apply (sm_sincos n (fun t => t) (sm_id n))]. Qed.
Lemma g_Y : forall n, sm n (fun t => r t * sin t).
Proof using Hg. intros n. apply sm_mult; [apply g_sm|apply (sm_sincos n (fun t => t) (sm_id n))]. Qed.

Lemma g_dxy : forall t, b_d_x r t ^ 2 + b_d_y r t ^ 2 = r t ^ 2 + Derive r t ^ 2.
Proof using Hg.
  intros t. assert (D : is_derive r t (Derive r t)) by (apply (sm_Derive 0), g_sm).
  assert (Ex : b_d_x r t = Derive r t * cos t + r t * - sin t).
  { apply is_derive_unique, der_mult; [exact D|]. auto_derive; [exact I|ring]. }
  assert (Ey : b_d_y r t = Derive r t * sin t + r t * cos t).
  { apply is_derive_unique, der_mult; [exact D|]. auto_derive; [exact I|ring]. }
  rewrite Ex, Ey.
  pose proof (sin2_cos2 t) as S. unfold Rsqr in S. assert (S' : sin t * sin t = 1 - cos t * cos t) by lra. ring [S'].
Qed.

Lemma g_normal : forall n, sm n (fun t => fst (eval_normal r t)) /\ sm n (fun t => snd (eval_normal r t)).
Proof using Hg.
  intros n.
  assert (Q : forall t, eval_normal r t = (b_d_y r t / sqrt (b_d_x r t ^ 2 + b_d_y r t ^ 2), - (b_d_x r t / sqrt (b_d_x r t ^ 2 + b_d_y r t ^ 2)))) by reflexivity.
  assert (Sx : sm n (b_d_x r)) by apply sm_Derive, g_X. assert (Sy : sm n (b_d_y r)) by apply sm_Derive, g_Y.
  assert (Sq : sm n (fun t => sqrt (b_d_x r t ^ 2 + b_d_y r t ^ 2))).
  { apply sm_sqrt; [intros t; rewrite g_dxy; apply g_pos|]. apply sm_plus; apply sm_pow; assumption. }
  assert (Nz : forall t, sqrt (b_d_x r t ^ 2 + b_d_y r t ^ 2) <> 0).
  { intros t. pose proof (sqrt_lt_R0 (b_d_x r t ^ 2 + b_d_y r t ^ 2)) as P. rewrite g_dxy in *. specialize (P (g_pos t)). lra. }
  split.
  - apply (sm_ext n (fun t => b_d_y r t / sqrt (b_d_x r t ^ 2 + b_d_y r t ^ 2))); [intros t; rewrite Q; reflexivity|].
    apply sm_div; assumption.
  - apply (sm_ext n (fun t => - (b_d_x r t / sqrt (b_d_x r t ^ 2 + b_d_y r t ^ 2)))); [intros t; rewrite Q; reflexivity|].
    apply sm_opp, sm_div; assumption.
Qed.

Lemma g_normal_unit : forall t, fst (eval_normal r t) ^ 2 + snd (eval_normal r t) ^ 2 = 1.
Proof using Hg.
  intros t. unfold eval_normal, eval_tangent. cbn [fst snd]. set (w := b_d_x r t ^ 2 + b_d_y r t ^ 2).
  assert (P : 0 < w) by (unfold w; rewrite g_dxy; apply g_pos). pose proof (sqrt_lt_R0 w P).
  assert (E : sqrt w * sqrt w = w) by (apply sqrt_sqrt; lra).
  replace ((b_d_y r t / sqrt w) ^ 2 + (- (b_d_x r t / sqrt w)) ^ 2) with (w / (sqrt w * sqrt w)) by (unfold w at 1; field; lra).
  rewrite E. field. lra.
Qed.

(** Arc length and its inverse. *)
Lemma arclength : exists Sa Th : R -> R, (forall th, is_derive Sa th (sqrt (r th ^ 2 + Derive r th ^ 2))) /\ (forall y, Sa (Th y) = y).
Proof using Hg.
  destruct Hg as (_ & v0 & Hv0 & Hv).
  set (v := fun t => sqrt (r t ^ 2 + Derive r t ^ 2)). set (Sa := (fun x => RInt v 0 x) : R -> R).
  assert (Cv : forall t, continuous v t) by (intros t; apply (sm_cont 0); apply g_speed).
  assert (HS : forall t, is_derive Sa t (v t)).
  { intros t. apply (is_derive_RInt v Sa 0 t); [|apply Cv]. apply filter_forall. intros x. apply (RInt_correct v 0 x).
    apply (ex_RInt_continuous (V := R_CompleteNormedModule)). intros z _. apply Cv. }
  assert (C0 : continuity Sa).
  { intros t. apply continuity_pt_filterlim. apply (@ex_derive_continuous R_AbsRing R_NormedModule Sa t). eexists. apply HS. }
  assert (Hq : 0 < sqrt v0) by (apply sqrt_lt_R0; exact Hv0).
  assert (S0 : Sa 0 = 0) by (unfold Sa; rewrite RInt_point; reflexivity).
  assert (G : forall x y, x <= y -> sqrt v0 * (y - x) <= Sa y - Sa x).
  { intros x y Hxy. destruct (MVT_gen Sa x y v) as (c & Hc & E).
    - intros t _. apply HS.
    - intros t _. apply C0.
    - rewrite E. apply Rmult_le_compat_r; [lra|]. apply sqrt_le_1_alt. apply Hv. }
  assert (Inv : forall y, {z | Sa z = y}).
  { intros y. set (B := (Rabs y + 1) / sqrt v0).
    assert (PB : 0 < B) by (apply Rdiv_lt_0_compat; [pose proof (Rabs_pos y); lra|exact Hq]).
    assert (EB : sqrt v0 * B = Rabs y + 1) by (unfold B; field; lra).
    destruct (IVT_cor (fun x => Sa x - y) (- B) B) as (z & Hz & E).
    - intros t. apply continuity_pt_minus; [apply C0|]. apply continuity_pt_const. intros u w. reflexivity.
    - lra.
    - pose proof (G 0 B ltac:(lra)) as G1. pose proof (G (- B) 0 ltac:(lra)) as G2. rewrite S0 in *.
      pose proof (Rle_abs y). pose proof (Rle_abs (- y)). rewrite Rabs_Ropp in *. nra.
    - exists z. lra. }
  exists Sa, (fun y => proj1_sig (Inv y)). split; [exact HS|]. intros y. apply (proj2_sig (Inv y)).
Qed.

Lemma polar_taylor : forall D F k th n, partials all_plane 4 D -> partials all_plane 2 F -> helmholtz all_plane k D F ->
  let nx t := fst (eval_normal r t) in
  let ny t := snd (eval_normal r t) in
  let u0 t := D 0%nat 0%nat (r t * cos t) (r t * sin t) in
  let u1 t := Cplus (Cmult (RtoC (nx t)) (D 1%nat 0%nat (r t * cos t) (r t * sin t)))
                    (Cmult (RtoC (ny t)) (D 0%nat 1%nat (r t * cos t) (r t * sin t))) in
  Cplus (extend_polar k n (b_curv r th) (b_d_curv r th) (b_d2_curv r th)
    (b_d_th r th) (b_d2_th r th) (b_d3_th r th) (b_d4_th r th)
    (mk_pd (u0 th) (u1 th) (CDerive_n u0 1 th) (CDerive_n u1 1 th)
       (CDerive_n u0 2 th) (CDerive_n u1 2 th) (CDerive_n u0 3 th) (CDerive_n u0 4 th)))
   (wex k (b_curv r th) F (r th * cos th) (r th * sin th) (nx th) (ny th) n)
  = taylor_poly (fun t => D 0%nat 0%nat (r th * cos th + t * nx th) (r th * sin th + t * ny th)) 4 n.
Proof using Hg.
  intros D F k th n HD HF PDE nx ny u0 u1. destruct arclength as (Sa & Th & HS & Hinv).
  set (O := all_plane) in *. set (glo := th - 1). set (ghi := th + 1).
  assert (HO : open2 O) by apply all_plane_open. assert (Hth : glo < th < ghi) by (unfold glo, ghi; lra).
  assert (Er : forall t, ex_derive r t) by (intros t; apply (sm_ex_derive 0 1 r t (g_sm 1)); lia).
  assert (Er2 : forall t, ex_derive (Derive r) t) by (intros t; apply (sm_ex_derive 0 1 (Derive r) t (g_sm1 1)); lia).
  assert (Ev : forall l t, (l <= 2)%nat -> ex_derive (Derive_n (fun t => sqrt (r t ^ 2 + Derive r t ^ 2)) l) t) by (intros l t Hl; apply (sm_ex_derive l 4 _ t (g_speed 4)); lia).
  assert (Ek : forall l t, (l <= 1)%nat -> ex_derive (Derive_n (b_curv r) l) t) by (intros l t Hl; apply (sm_ex_derive l 4 _ t (g_curv 4)); lia).
  pose proof g_pos as Hv.
  set (pcX := pcX r Th). set (pcY := pcY r Th). set (pctx := pctx r Th). set (pcty := pcty r Th). set (pckap := pckap r Th).
  set (lo := Sa glo). set (hi := Sa ghi). set (s := Sa th).
  assert (Hs : lo < s < hi) by (split; apply (Sa_incr r Sa Hv HS); lra).
  assert (Es : Th s = th) by apply (Th_Sa r Sa Th Hv HS Hinv).
  assert (HP : forall u, lo < u < hi -> glo < Th u < ghi) by (intros u Hu; apply (Th_range r Sa Th Hv HS Hinv); exact Hu).
  assert (Hin' : forall u, lo < u < hi -> O (pcX u) (pcY u)).
  { intros u Hu. exact I. }
  assert (HC : unit_curve lo hi pcX pcY pctx pcty pckap) by (apply (pc_unit r Sa Th Hv HS Hinv Er Er2 Ev Ek)).
  pose proof (general_taylor O lo hi pcX pcY pctx pcty pckap D F k s n HO HC Hin' HD HF PDE Hs) as Main.
  destruct (source_traces O lo hi pcX pcY pctx pcty pckap F s HO HC Hin' HF Hs) as [ST1 ST2]. rewrite ST1, ST2 in Main. clear ST1 ST2.
  destruct (trace_smooth O lo hi pcX pcY pctx pcty pckap D HO HC Hin' HD) as [S0 S1].
  assert (HSr : forall t, glo < t < ghi -> lo < Sa t < hi) by (intros t Ht; split; apply (Sa_incr r Sa Hv HS); lra).
  assert (NN : forall t, nx t = snd (eval_tangent r t) /\ ny t = - fst (eval_tangent r t)).
  { intros t. unfold nx, ny, eval_normal. destruct (eval_tangent r t); split; reflexivity. }
  assert (Q0 : forall t, u0 t = trace0 D pcX pcY (Sa t)).
  { intros t. unfold u0, trace0, pcX, pcY, Proof_Ext2.pcX, Proof_Ext2.pcY. rewrite (Th_Sa r Sa Th Hv HS Hinv). reflexivity. }
  assert (Q1 : forall t, u1 t = trace1 D pcX pcY pctx pcty (Sa t)).
  { intros t. unfold u1, trace1, pcX, pcY, pctx, pcty, Proof_Ext2.pcX, Proof_Ext2.pcY, Proof_Ext2.pctx, Proof_Ext2.pcty. rewrite (Th_Sa r Sa Th Hv HS Hinv), (proj1 (NN t)), (proj2 (NN t)). reflexivity. }
  assert (U0 : Csmooth_on 4 glo ghi u0).
  { split; intros l t Hl Ht.
    - eapply ex_derive_ext; [|apply (faa_ex 4 (fun t => fst (trace0 D pcX pcY t)) Sa lo hi glo ghi (le_n _) (proj1 S0) (Sa_smooth r Sa HS Ev glo ghi) HSr l t Hl Ht)].
      intros u. apply Derive_n_ext. intros w. cbv beta. rewrite Q0. reflexivity.
    - eapply ex_derive_ext; [|apply (faa_ex 4 (fun t => snd (trace0 D pcX pcY t)) Sa lo hi glo ghi (le_n _) (proj2 S0) (Sa_smooth r Sa HS Ev glo ghi) HSr l t Hl Ht)].
      intros u. apply Derive_n_ext. intros w. cbv beta. rewrite Q0. reflexivity. }
  assert (Sa2 : smooth_on 2 glo ghi Sa) by (intros l t Hl Ht; apply (Sa_smooth r Sa HS Ev glo ghi); [lia|exact Ht]).
  assert (Th2 : smooth_on 2 lo hi Th) by (intros l t Hl Ht; apply (Th_smooth r Sa Th Hv HS Hinv Ev lo hi); [lia|exact Ht]).
  assert (U1 : Csmooth_on 2 glo ghi u1).
  { split; intros l t Hl Ht.
    - eapply ex_derive_ext; [|apply (faa_ex 2 (fun t => fst (trace1 D pcX pcY pctx pcty t)) Sa lo hi glo ghi ltac:(lia) (proj1 S1) Sa2 HSr l t Hl Ht)].
      intros u. apply Derive_n_ext. intros w. cbv beta. rewrite Q1. reflexivity.
    - eapply ex_derive_ext; [|apply (faa_ex 2 (fun t => snd (trace1 D pcX pcY pctx pcty t)) Sa lo hi glo ghi ltac:(lia) (proj2 S1) Sa2 HSr l t Hl Ht)].
      intros u. apply Derive_n_ext. intros w. cbv beta. rewrite Q1. reflexivity. }
  destruct (convert_chain u0 Th glo ghi lo hi s U0 (Th_smooth r Sa Th Hv HS Hinv Ev lo hi) HP Hs) as (C1 & C2 & C4).
  destruct (convert_chain2 u1 Th glo ghi lo hi s U1 Th2 HP Hs) as (C1' & C2').
  assert (K2 : smooth_on 2 glo ghi (b_curv r)) by (intros l t Hl Ht; apply Ek; lia).
  destruct (convert_real_chain (b_curv r) Th glo ghi lo hi s K2 Th2 HP Hs) as (R1 & R2).
  destruct (boundary_th_derivs r Sa Th Hv HS Hinv Ev s) as (T1 & T2 & T3 & T4 & _).
  rewrite T1, T2, T3, T4 in C4. rewrite T1 in C1, C1', R1. rewrite T1, T2 in C2, C2', R2.
  rewrite Es in C1, C2, C4, C1', C2', R1, R2.
  assert (V0 : forall l, CDerive_n (fun s => u0 (Th s)) l s = CDerive_n (trace0 D pcX pcY) l s).
  { intros l. apply (CDerive_n_ext_loc _ _ lo hi); [|exact Hs]. intros t _. reflexivity. }
  assert (V1 : forall l, CDerive_n (fun s => u1 (Th s)) l s = CDerive_n (trace1 D pcX pcY pctx pcty) l s).
  { intros l. apply (CDerive_n_ext_loc _ _ lo hi); [|exact Hs]. intros t _. rewrite Q1, Hinv. reflexivity. }
  unfold extend_polar. cbn [pd_xi0 pd_xi1 pd_d_xi0 pd_d_xi1 pd_d2_xi0 pd_d2_xi1 pd_d3_xi0 pd_d4_xi0].
  rewrite C1, C2, C4, C1', C2', (V0 1%nat), (V0 2%nat), (V0 4%nat), (V1 1%nat), (V1 2%nat).
  change (b_d_curv r th) with (Derive_n (b_curv r) 1 th). change (b_d2_curv r th) with (Derive_n (b_curv r) 2 th).
  rewrite R1, R2. change (fun s0 : R => b_curv r (Th s0)) with pckap.
  rewrite Q0, Q1. fold s. replace (b_curv r th) with (pckap s) by (unfold pckap, Proof_Ext2.pckap; rewrite Es; reflexivity).
  change (Derive_n pckap 1 s) with (Derive pckap s).
  assert (EF : wex k (pckap s) F (r th * cos th) (r th * sin th) (nx th) (ny th) n =
     inhomo_extend_arbitrary k n (pckap s) (trace0 F pcX pcY s) (trace1 F pcX pcY pctx pcty s)
       (Cplus (Cplus (Cmult (RtoC (pcty s ^ 2)) (F 2%nat 0%nat (pcX s) (pcY s))) (Cmult (RtoC (2 * pcty s * - pctx s)) (F 1%nat 1%nat (pcX s) (pcY s)))) (Cmult (RtoC ((- pctx s) ^ 2)) (F 0%nat 2%nat (pcX s) (pcY s))))
       (Cplus (Cplus (Cplus (Cmult (RtoC ((- pctx s) ^ 2)) (F 2%nat 0%nat (pcX s) (pcY s))) (Cmult (RtoC (- 2 * pcty s * - pctx s)) (F 1%nat 1%nat (pcX s) (pcY s)))) (Cmult (RtoC (pcty s ^ 2)) (F 0%nat 2%nat (pcX s) (pcY s))))
          (Cmult (RtoC (pckap s)) (trace1 F pcX pcY pctx pcty s)))).
  { unfold wex, trace0, trace1, pcX, pcY, pctx, pcty, Proof_Ext2.pcX, Proof_Ext2.pcY, Proof_Ext2.pctx, Proof_Ext2.pcty.
    rewrite Es, (proj1 (NN th)), (proj2 (NN th)). reflexivity. }
  rewrite EF, Main. unfold along_normal, pcX, pcY, pctx, pcty, Proof_Ext2.pcX, Proof_Ext2.pcY, Proof_Ext2.pctx, Proof_Ext2.pcty. rewrite Es.
  rewrite (proj1 (NN th)), (proj2 (NN th)).
  f_equal. apply FunctionalExtensionality.functional_extensionality. intros t. f_equal. ring.
Qed.

Lemma geometry_bounded : forall lo hi, exists G, forall t, lo <= t <= hi ->
  Rabs (b_curv r t) <= G /\ Rabs (b_d_curv r t) <= G /\ Rabs (b_d2_curv r t) <= G /\
  Rabs (b_d_th r t) <= G /\ Rabs (b_d2_th r t) <= G /\ Rabs (b_d3_th r t) <= G /\ Rabs (b_d4_th r t) <= G.
Proof using Hg.
  intros lo hi.
  destruct (sm_bounded 0 _ lo hi (g_curv 0)) as (B1 & P1 & H1). destruct (sm_bounded 0 _ lo hi (g_d_curv 0)) as (B2 & P2 & H2).
  destruct (sm_bounded 0 _ lo hi (g_d2_curv 0)) as (B3 & P3 & H3). destruct (sm_bounded 0 _ lo hi (g_d_th 0)) as (B4 & P4 & H4).
  destruct (sm_bounded 0 _ lo hi (g_d2_th 0)) as (B5 & P5 & H5). destruct (sm_bounded 0 _ lo hi (g_d3_th 0)) as (B6 & P6 & H6).
  destruct (sm_bounded 0 _ lo hi (g_d4_th 0)) as (B7 & P7 & H7).
  exists (B1 + B2 + B3 + B4 + B5 + B6 + B7). intros t Ht.
  specialize (H1 t Ht). specialize (H2 t Ht). specialize (H3 t Ht). specialize (H4 t Ht). specialize (H5 t Ht).
  specialize (H6 t Ht). specialize (H7 t Ht). repeat split; lra.
Qed.

(** Weighted error of the derivative of order [l] of the boundary data. *)
Lemma polar_accuracy : forall k lo hi, exists K, 0 <= K /\
  forall D F M th n T d, partials all_plane 5 D -> partials all_plane 2 F -> helmholtz all_plane k D F -> 0 <= M -> lo <= th <= hi ->
  Rabs n <= 1 -> M * Rabs n ^ 5 <= T ->
  let nx t := fst (eval_normal r t) in
  let ny t := snd (eval_normal r t) in
  let u0 t := D 0%nat 0%nat (r t * cos t) (r t * sin t) in
  let u1 t := Cplus (Cmult (RtoC (nx t)) (D 1%nat 0%nat (r t * cos t) (r t * sin t)))
                    (Cmult (RtoC (ny t)) (D 0%nat 1%nat (r t * cos t) (r t * sin t))) in
  (forall i j t, (i + j <= 5)%nat -> 0 <= t <= 1 ->
     Cmod (D i j (r th * cos th + t * n * nx th) (r th * sin th + t * n * ny th)) <= M) ->
  let near l x u := Rabs n ^ l * Cmod (Cminus x (CDerive_n u l th)) <= T in
  near 0%nat (pd_xi0 d) u0 -> near 0%nat (pd_xi1 d) u1 -> near 1%nat (pd_d_xi0 d) u0 -> near 1%nat (pd_d_xi1 d) u1 ->
  near 2%nat (pd_d2_xi0 d) u0 -> near 2%nat (pd_d2_xi1 d) u1 -> near 3%nat (pd_d3_xi0 d) u0 -> near 4%nat (pd_d4_xi0 d) u0 ->
  Cmod (Cminus (Cplus (extend_polar k n (b_curv r th) (b_d_curv r th) (b_d2_curv r th)
      (b_d_th r th) (b_d2_th r th) (b_d3_th r th) (b_d4_th r th) d) (wex k (b_curv r th) F (r th * cos th) (r th * sin th) (nx th) (ny th) n))
    (D 0%nat 0%nat (r th * cos th + n * nx th) (r th * sin th + n * ny th))) <= K * T.
Proof using Hg.
  intros k lo hi. destruct (geometry_bounded lo hi) as (G & HG).
  exists (Rabs (polar_const k G) + 2). split; [pose proof (Rabs_pos (polar_const k G)); lra|].
  intros D F M th n T d HD HF PDE HM Hth Hn HT nx ny u0 u1 HB near A0 A1 B0 B1 C0 C1 E0 F0.
  assert (P5 : 0 <= M * Rabs n ^ 5) by (apply Rmult_le_pos; [exact HM|apply pow_le, Rabs_pos]).
  assert (PT : 0 <= T) by lra.
  assert (HD4 : partials all_plane 4 D) by (intros i j x y Hij H; apply HD; [lia|exact H]).
  pose proof (polar_taylor D F k th n HD4 HF PDE) as TP. cbv zeta in TP. fold nx ny in TP.
  destruct (HG th Hth) as (G1 & G2 & G3 & G4 & G5 & G6 & G7).
  set (d' := mk_pd (u0 th) (u1 th) (CDerive_n u0 1 th) (CDerive_n u1 1 th)
       (CDerive_n u0 2 th) (CDerive_n u1 2 th) (CDerive_n u0 3 th) (CDerive_n u0 4 th)).
  set (V := extend_polar k n _ _ _ _ _ _ _ d).
  set (V' := extend_polar k n (b_curv r th) (b_d_curv r th) (b_d2_curv r th)
      (b_d_th r th) (b_d2_th r th) (b_d3_th r th) (b_d4_th r th) d').
  set (L := D 0%nat 0%nat (r th * cos th + n * nx th) (r th * sin th + n * ny th)).
  set (W := wex k (b_curv r th) F (r th * cos th) (r th * sin th) (nx th) (ny th) n).
  replace (Cminus (Cplus V W) L) with (Cminus (Cminus V V') (Cminus L (Cplus V' W))) by ring.
  eapply Rle_trans; [apply Cmod_triangle|]. rewrite Cmod_opp, Rmult_plus_distr_r. apply Rplus_le_compat.
  - unfold V, V'. rewrite polar_linear.
    assert (WB : forall l x u, near l x u -> wb n T l (Cminus x (CDerive_n u l th)) 1).
    { intros l x u H. split; [lra|]. rewrite Rmult_1_l. exact H. }
    assert (Z : forall (f : R -> C) t, CDerive_n f 0 t = f t) by (intros f t; unfold CDerive_n; cbn [Derive_n]; symmetry; apply surjective_pairing).
    destruct (polar_bound n T Hn PT k (b_curv r th) (b_d_curv r th) (b_d2_curv r th)
      (b_d_th r th) (b_d2_th r th) (b_d3_th r th) (b_d4_th r th) G
      (mk_pd (Cminus (pd_xi0 d) (pd_xi0 d')) (Cminus (pd_xi1 d) (pd_xi1 d'))
    (Cminus (pd_d_xi0 d) (pd_d_xi0 d')) (Cminus (pd_d_xi1 d) (pd_d_xi1 d')) (Cminus (pd_d2_xi0 d) (pd_d2_xi0 d'))
    (Cminus (pd_d2_xi1 d) (pd_d2_xi1 d')) (Cminus (pd_d3_xi0 d) (pd_d3_xi0 d')) (Cminus (pd_d4_xi0 d) (pd_d4_xi0 d'))) 1)
     as [_ Q]; try assumption; unfold d';
     cbn [pd_xi0 pd_xi1 pd_d_xi0 pd_d_xi1 pd_d2_xi0 pd_d2_xi1 pd_d3_xi0 pd_d4_xi0]; try (apply WB; assumption).
    + rewrite <- (Z u0). apply WB; assumption.
    + rewrite <- (Z u1). apply WB; assumption.
    + cbn [pow] in Q. rewrite Rmult_1_l, Rmult_1_r in Q. unfold d' in Q.
      cbn [pd_xi0 pd_xi1 pd_d_xi0 pd_d_xi1 pd_d2_xi0 pd_d2_xi1 pd_d3_xi0 pd_d4_xi0] in Q.
      eapply Rle_trans; [exact Q|]. apply Rmult_le_compat_r; [exact PT|apply Rle_abs].
  - unfold V', d', W, L. unfold u0, u1. rewrite TP.
    pose proof (g_normal_unit th) as U. fold (nx th) (ny th) in U.
    assert (Hx : Rabs (nx th) <= 1 /\ Rabs (ny th) <= 1).
    { split; rewrite <- (Rabs_pos_eq 1) by lra; apply Rsqr_le_abs_0; unfold Rsqr; nra. }
    eapply Rle_trans; [apply (line_remainder D (r th * cos th) (r th * sin th) (nx th) (ny th) n M HD (proj1 Hx) (proj2 Hx) HM HB)|]. lra.
Qed.

End Curve.

(** A line through the origin with a source. *)
Lemma line_src_pos : forall D F k e1 e2 t n, e1 ^ 2 + e2 ^ 2 = 1 -> partials all_plane 4 D -> partials all_plane 2 F -> helmholtz all_plane k D F ->
  let u0 t := D 0%nat 0%nat (t * e1) (t * e2) in
  let u1 t := Cplus (Cmult (RtoC e2) (D 1%nat 0%nat (t * e1) (t * e2)))
                    (Cmult (RtoC (- e1)) (D 0%nat 1%nat (t * e1) (t * e2))) in
  Cplus (extend_arbitrary k n 0 0 0 (mk_ed (u0 t) (u1 t) (CDerive_n u0 1 t) (CDerive_n u1 1 t)
     (CDerive_n u0 2 t) (CDerive_n u1 2 t) (CDerive_n u0 4 t))) (wex k 0 F (t * e1) (t * e2) e2 (- e1) n) =
  taylor_poly (fun m => D 0%nat 0%nat (t * e1 + m * e2) (t * e2 + m * - e1)) 4 n.
Proof.
  intros D F k e1 e2 t n He HD HF PDE u0 u1.
  pose proof (line_unit (t - 1) (t + 1) e1 e2 He) as HC. assert (Ht : t - 1 < t < t + 1) by lra.
  pose proof (general_taylor all_plane _ _ _ _ _ _ _ D F k t n all_plane_open HC (fun _ _ => I) HD HF PDE Ht) as H.
  destruct (source_traces all_plane _ _ _ _ _ _ _ F t all_plane_open HC (fun _ _ => I) HF Ht) as [S1 S2]. rewrite S1, S2 in H.
  rewrite Derive_const in H. replace (Derive_n (fun _ => 0) 2 t) with 0 in H.
  2:{ cbn [Derive_n]. rewrite (Derive_ext _ (fun _ => 0)) by (intros; apply Derive_const). symmetry. apply Derive_const. }
  etransitivity; [exact H|]. unfold along_normal. f_equal.
  apply FunctionalExtensionality.functional_extensionality. intros m. f_equal; ring.
Qed.

Lemma line_src : forall D F k e1 e2 sg t n, e1 ^ 2 + e2 ^ 2 = 1 -> sg = 1 \/ sg = -1 ->
  partials all_plane 4 D -> partials all_plane 2 F -> helmholtz all_plane k D F ->
  let u0 t := D 0%nat 0%nat (t * e1) (t * e2) in
  let u1 t := Cplus (Cmult (RtoC (sg * e2)) (D 1%nat 0%nat (t * e1) (t * e2)))
                    (Cmult (RtoC (sg * - e1)) (D 0%nat 1%nat (t * e1) (t * e2))) in
  Cplus (extend_arbitrary k n 0 0 0 (mk_ed (u0 t) (u1 t) (CDerive_n u0 1 t) (CDerive_n u1 1 t)
     (CDerive_n u0 2 t) (CDerive_n u1 2 t) (CDerive_n u0 4 t))) (wex k 0 F (t * e1) (t * e2) (sg * e2) (sg * - e1) n) =
  taylor_poly (fun m => D 0%nat 0%nat (t * e1 + m * (sg * e2)) (t * e2 + m * (sg * - e1))) 4 n.
Proof.
  intros D F k e1 e2 sg t n He Hsg HD HF PDE u0 u1. destruct Hsg as [Es|Es].
  - unfold u1. rewrite Es, !Rmult_1_l. apply line_src_pos; assumption.
  - unfold u1. replace (sg * e2) with (- e2) by (rewrite Es; ring). replace (sg * - e1) with e1 by (rewrite Es; ring). clear u1.
    assert (He' : (- e1) ^ 2 + (- e2) ^ 2 = 1) by (rewrite <- He; ring).
    pose proof (line_src_pos D F k (- e1) (- e2) (- t) n He' HD HF PDE) as H. cbv zeta in H.
    set (u1 := fun t => Cplus (Cmult (RtoC (- e2)) (D 1%nat 0%nat (t * e1) (t * e2))) (Cmult (RtoC e1) (D 0%nat 1%nat (t * e1) (t * e2)))).
    assert (Ht : - t - 1 < - t < - t + 1) by lra.
    destruct (trace_smooth all_plane (- t - 1) (- t + 1) _ _ _ _ _ D all_plane_open (line_unit (- t - 1) (- t + 1) (- e1) (- e2) He') (fun _ _ => I) HD) as [S0 S1].
    set (w0 := trace0 D (fun s => s * - e1) (fun s => s * - e2)) in *.
    set (w1 := trace1 D (fun s => s * - e1) (fun s => s * - e2) (fun _ => - e1) (fun _ => - e2)) in *.
    change (fun t => D 0%nat 0%nat (t * - e1) (t * - e2)) with w0 in H.
    change (fun t => Cplus (Cmult (RtoC (- e2)) (D 1%nat 0%nat (t * - e1) (t * - e2)))
       (Cmult (RtoC (- - e1)) (D 0%nat 1%nat (t * - e1) (t * - e2)))) with w1 in H.
    assert (E0 : u0 = fun t => w0 (- t)).
    { apply FunctionalExtensionality.functional_extensionality. intros x. unfold u0, w0, trace0. f_equal; ring. }
    assert (E1 : u1 = fun t => w1 (- t)).
    { apply FunctionalExtensionality.functional_extensionality. intros x. unfold u1, w1, trace1.
      replace (- - e1) with e1 by ring. do 3 f_equal; ring. }
    assert (D0 : forall l, (l <= 4)%nat -> (-1) ^ l = 1 -> CDerive_n u0 l t = CDerive_n w0 l (- t)).
    { intros l Hl Hev. rewrite E0. destruct S0 as [A B]. unfold CDerive_n.
      rewrite (smooth_opp 4 (- t - 1) (- t + 1) (fun t => fst (w0 t)) l t A Hl Ht), (smooth_opp 4 (- t - 1) (- t + 1) (fun t => snd (w0 t)) l t B Hl Ht).
      rewrite Hev. f_equal; ring. }
    assert (D1 : forall l, (l <= 2)%nat -> (-1) ^ l = 1 -> CDerive_n u1 l t = CDerive_n w1 l (- t)).
    { intros l Hl Hev. rewrite E1. destruct S1 as [A B]. unfold CDerive_n.
      rewrite (smooth_opp 2 (- t - 1) (- t + 1) (fun t => fst (w1 t)) l t A Hl Ht), (smooth_opp 2 (- t - 1) (- t + 1) (fun t => snd (w1 t)) l t B Hl Ht).
      rewrite Hev. f_equal; ring. }
    fold u1. change (Cplus (Cmult (RtoC (- e2)) (D 1%nat 0%nat (t * e1) (t * e2))) (Cmult (RtoC e1) (D 0%nat 1%nat (t * e1) (t * e2)))) with (u1 t).
    rewrite (D0 2%nat), (D0 4%nat), (D1 2%nat) by (lia || (cbn [pow]; ring)).
    rewrite (flat_ignores k n _ _ _ _ (CDerive_n w0 1 (- t)) (CDerive_n w1 1 (- t))).
    replace (u0 t) with (w0 (- t)) by (rewrite E0; reflexivity). replace (u1 t) with (w1 (- t)) by (rewrite E1; reflexivity).
    replace (t * e1) with (- t * - e1) by ring. replace (t * e2) with (- t * - e2) by ring.
    rewrite Ropp_involutive in H. etransitivity; [exact H|]. f_equal.
Qed.

(** A straight line through the origin with unit direction (e1, e2) and unit
    normal (sg e2, - sg e1). *)
Lemma straight_accuracy : forall k, exists K, 0 <= K /\
  forall e1 e2 sg D F M s n T d, e1 ^ 2 + e2 ^ 2 = 1 -> sg = 1 \/ sg = -1 ->
  partials all_plane 5 D -> partials all_plane 2 F -> helmholtz all_plane k D F -> 0 <= M -> Rabs n <= 1 -> M * Rabs n ^ 5 <= T ->
  let u0 t := D 0%nat 0%nat (t * e1) (t * e2) in
  let u1 t := Cplus (Cmult (RtoC (sg * e2)) (D 1%nat 0%nat (t * e1) (t * e2)))
                    (Cmult (RtoC (sg * - e1)) (D 0%nat 1%nat (t * e1) (t * e2))) in
  (forall i j t, (i + j <= 5)%nat -> 0 <= t <= 1 ->
     Cmod (D i j (s * e1 + t * n * (sg * e2)) (s * e2 + t * n * (sg * - e1))) <= M) ->
  let near l x u := Rabs n ^ l * Cmod (Cminus x (CDerive_n u l s)) <= T in
  near 0%nat (ed_xi0 d) u0 -> near 0%nat (ed_xi1 d) u1 -> near 1%nat (ed_d_xi0 d) u0 -> near 1%nat (ed_d_xi1 d) u1 ->
  near 2%nat (ed_d2_xi0 d) u0 -> near 2%nat (ed_d2_xi1 d) u1 -> near 4%nat (ed_d4_xi0 d) u0 ->
  Cmod (Cminus (Cplus (extend_arbitrary k n 0 0 0 d) (wex k 0 F (s * e1) (s * e2) (sg * e2) (sg * - e1) n))
    (D 0%nat 0%nat (s * e1 + n * (sg * e2)) (s * e2 + n * (sg * - e1)))) <= K * T.
Proof.
  intros k. exists (Rabs (arb_const k 0) + 2). split; [pose proof (Rabs_pos (arb_const k 0)); lra|].
  intros e1 e2 sg D F M s n T d He Hsg HD HF PDE HM Hn HT u0 u1 HB near A0 A1 B0 B1 C0 C1 F0.
  assert (P5 : 0 <= M * Rabs n ^ 5) by (apply Rmult_le_pos; [exact HM|apply pow_le, Rabs_pos]).
  assert (PT : 0 <= T) by lra.
  assert (HD4 : partials all_plane 4 D) by (intros i j x y Hij H; apply HD; [lia|exact H]).
  set (d' := mk_ed (u0 s) (u1 s) (CDerive_n u0 1 s) (CDerive_n u1 1 s) (CDerive_n u0 2 s) (CDerive_n u1 2 s) (CDerive_n u0 4 s)).
  set (L := D 0%nat 0%nat (s * e1 + n * (sg * e2)) (s * e2 + n * (sg * - e1))).
  set (W := wex k 0 F (s * e1) (s * e2) (sg * e2) (sg * - e1) n).
  assert (TP : Cplus (extend_arbitrary k n 0 0 0 d') W =
     taylor_poly (fun t => D 0%nat 0%nat (s * e1 + t * (sg * e2)) (s * e2 + t * (sg * - e1))) 4 n) by (apply line_src; assumption).
  set (V := extend_arbitrary k n 0 0 0 d). set (V' := extend_arbitrary k n 0 0 0 d') in *.
  replace (Cminus (Cplus V W) L) with (Cminus (Cminus V V') (Cminus L (Cplus V' W))) by ring.
  eapply Rle_trans; [apply Cmod_triangle|]. rewrite Cmod_opp, Rmult_plus_distr_r. apply Rplus_le_compat.
  - unfold V, V'. rewrite arb_linear.
    assert (WB : forall l w x u, (l <= w)%nat -> near l x u -> wb n T w (Cminus x (CDerive_n u l s)) 1).
    { intros l w x u Hl H. apply (wb_up n T Hn l w); [exact Hl|]. split; [lra|]. rewrite Rmult_1_l. exact H. }
    assert (Z : forall (f : R -> C) t, CDerive_n f 0 t = f t) by (intros f t; unfold CDerive_n; cbn [Derive_n]; symmetry; apply surjective_pairing).
    assert (Q0 : Rabs 0 <= 0) by (rewrite Rabs_R0; lra).
    destruct (arb_bound n T Hn k 0 0 0 0
      (mk_ed (Cminus (ed_xi0 d) (ed_xi0 d')) (Cminus (ed_xi1 d) (ed_xi1 d'))
    (Cminus (ed_d_xi0 d) (ed_d_xi0 d')) (Cminus (ed_d_xi1 d) (ed_d_xi1 d')) (Cminus (ed_d2_xi0 d) (ed_d2_xi0 d'))
    (Cminus (ed_d2_xi1 d) (ed_d2_xi1 d')) (Cminus (ed_d4_xi0 d) (ed_d4_xi0 d'))) 1)
     as [_ Q]; try assumption; unfold d';
     cbn [ed_xi0 ed_xi1 ed_d_xi0 ed_d_xi1 ed_d2_xi0 ed_d2_xi1 ed_d4_xi0];
     try (eapply WB; [|eassumption]; lia).
    + rewrite <- (Z u0). eapply WB; [|eassumption]; lia.
    + rewrite <- (Z u1). eapply WB; [|eassumption]; lia.
    + cbn [pow] in Q. rewrite Rmult_1_l, Rmult_1_r in Q. unfold d' in Q.
      cbn [ed_xi0 ed_xi1 ed_d_xi0 ed_d_xi1 ed_d2_xi0 ed_d2_xi1 ed_d4_xi0] in Q.
      eapply Rle_trans; [exact Q|]. apply Rmult_le_compat_r; [exact PT|apply Rle_abs].
  - rewrite TP. unfold L.
    assert (Hx : Rabs (sg * e2) <= 1 /\ Rabs (sg * - e1) <= 1).
    { assert (Es : sg * sg = 1) by (destruct Hsg as [-> | ->]; ring).
      split; rewrite <- (Rabs_pos_eq 1) by lra; apply Rsqr_le_abs_0; unfold Rsqr.
      - replace (sg * e2 * (sg * e2)) with (sg * sg * e2 ^ 2) by ring. rewrite Es. nra.
      - replace (sg * - e1 * (sg * - e1)) with (sg * sg * e1 ^ 2) by ring. rewrite Es. nra. }
    eapply Rle_trans; [apply (line_remainder D (s * e1) (s * e2) (sg * e2) (sg * - e1) n M HD (proj1 Hx) (proj2 Hx) HM HB)|]. lra.
Qed.

(** The weighted errors after the Taylor step. *)
Lemma data_near : forall (xi : R -> C) (v : nat -> C) arg delta n rho eps KM m, all_smooth5 xi ->
  (forall t, 0 <= t <= 1 -> Cmod (CDerive_n xi 5 (arg + t * delta)) <= KM) -> 0 <= KM -> 0 <= eps ->
  Rabs delta <= 1 -> Rabs n <= 1 -> Rabs delta <= rho -> Rabs n <= rho -> (m < 5)%nat ->
  (forall l, (l < 5)%nat -> Cmod (Cminus (v l) (CDerive_n xi l arg)) <= eps) ->
  Rabs n ^ m * Cmod (Cminus (shift_sum v delta m (seq m (5 - m))) (CDerive_n xi m (arg + delta))) <= 5 * eps + 2 * KM * rho ^ 5.
Proof.
  intros xi v arg delta n rho eps KM m Hs HB HK He Hd Hn Hdr Hnr Hm Hv.
  pose proof (shift_bound xi v arg delta eps KM m Hs HB He Hd Hm Hv) as Q.
  pose proof (Rabs_pos n). pose proof (Rabs_pos delta).
  assert (N1 : 0 <= Rabs n ^ m <= 1).
  { split; [apply pow_le; assumption|]. rewrite <- (pow1 m). apply pow_incr. lra. }
  assert (N2 : Rabs n ^ m <= rho ^ m) by (apply pow_incr; lra).
  assert (N3 : 0 <= Rabs delta ^ (5 - m) <= rho ^ (5 - m)) by (split; [apply pow_le; assumption|apply pow_incr; lra]).
  assert (N4 : rho ^ 5 = rho ^ m * rho ^ (5 - m)) by (rewrite <- pow_add; f_equal; lia).
  eapply Rle_trans; [apply Rmult_le_compat_l; [apply N1|exact Q]|].
  rewrite Rmult_plus_distr_l. apply Rplus_le_compat.
  - rewrite <- (Rmult_1_l (5 * eps)) at 2. apply Rmult_le_compat_r; [lra|apply N1].
  - replace (Rabs n ^ m * (2 * (KM * Rabs delta ^ (5 - m)))) with (2 * KM * (Rabs n ^ m * Rabs delta ^ (5 - m))) by ring.
    rewrite N4. apply Rmult_le_compat_l; [lra|]. apply Rmult_le_compat; try apply N1; try apply N3; assumption.
Qed.
