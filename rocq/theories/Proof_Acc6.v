(** Accuracy of the extension of fitted boundary data at one node. *)
From Coq Require Import ZArith List Bool Reals Lra Lia Psatz.
From Coquelicot Require Import Coquelicot.
From Verif Require Import Model_Py Model_Multivalue Model_Grid Model_Domain Model_Chebyshev Model_Ext Model_Extend Spec_Chebyshev Spec_Domain Spec_Grid
  Spec_Ext Spec_Extend Spec_Curve Lib_Sm Proof_Grid Proof_Basis Proof_Domain Proof_Boundary Proof_Place Proof_Ext Proof_Ext2 Proof_Extend
  Proof_Linear Proof_Extend2 Proof_Gentle Proof_CurvePlace Proof_Acc1 Proof_Acc2 Proof_Acc3 Proof_Acc4 Proof_Acc5.
Import ListNotations.
Open Scope R_scope.

(** The data entering the extension formulas. *)
Lemma entries : forall c sid e types arg delta n rho eps KM (u : nat -> R -> C),
  (types = types_0 \/ types = types_12) ->
  0 < ec_R c -> 0 < ec_a c < PI -> (sid < 3)%nat ->
  length (ec_c0 c) = length (ec_B c) -> length (ec_c1 c) = length (ec_B c) ->
  seg_range (ec_R c) (ec_a c) sid arg -> (e = EStandard -> delta = 0) ->
  (forall i, (i < 2)%nat -> all_smooth5 (u i) /\ forall t, 0 <= t <= 1 -> Cmod (CDerive_n (u i) 5 (arg + t * delta)) <= KM) ->
  0 <= KM -> 0 <= eps -> Rabs delta <= 1 -> Rabs n <= 1 -> Rabs delta <= rho -> Rabs n <= rho ->
  let g := eval_g_inv (ec_R c) (ec_a c) sid in
  (forall l, (l <= 4)%nat ->
     Cmod (Cminus (CDerive_n (seg_function g (ec_B c) (ec_c0 c) sid) l arg) (CDerive_n (u 0%nat) l arg)) <= eps /\
     Cmod (Cminus (CDerive_n (seg_function g (ec_B c) (ec_c1 c) sid) l arg) (CDerive_n (u 1%nat) l arg)) <= eps) ->
  exists d w,
    match e with
    | EStandard => calc_xi_derivs c SrcCoef types arg sid = Ok d
    | _ => exists d0, calc_xi_derivs c SrcCoef taylor_types arg sid = Ok d0 /\ taylor_shift d0 delta = Ok d
    end /\
    (forall o i, In (o, i) types -> xi_get d o i = Ok (w o i)) /\
    (forall o i, (o <= 4)%nat -> (i < 2)%nat -> Rabs n ^ o * Cmod (Cminus (w o i) (CDerive_n (u i) o (arg + delta))) <= 5 * eps + 2 * KM * rho ^ 5).
Proof.
  intros c sid e types arg delta n rho eps KM u Hty HR Ha Hsid L0 L1 Hr Hd Hu HKM He D1 N1 D2 N2 g Hfit.
  assert (Hg : -1 < g arg < 1) by (apply seg_range_g_inv; [exact HR|lra|lia|exact Hr]).
  set (w := fun o i => CDerive_n (seg_function g (ec_B c) (match i with O => ec_c0 c | _ => ec_c1 c end) sid) o arg).
  assert (Hw : forall o i, (o <= 4)%nat -> (i < 2)%nat -> Cmod (Cminus (w o i) (CDerive_n (u i) o arg)) <= eps).
  { intros o i Hoi Hi. destruct i as [|[|i]]; [apply (Hfit o Hoi)|apply (Hfit o Hoi)|lia]. }
  pose proof (Rabs_pos n) as Pn.
  assert (Hrho : 0 <= 2 * KM * rho ^ 5) by (apply Rmult_le_pos; [lra|apply pow_le; lra]).
  assert (Std : delta = 0 -> forall o i, (o <= 4)%nat -> (i < 2)%nat -> Rabs n ^ o * Cmod (Cminus (w o i) (CDerive_n (u i) o (arg + delta))) <= 5 * eps + 2 * KM * rho ^ 5).
  { intros -> o i Hoi Hi. rewrite Rplus_0_r. pose proof (Hw o i Hoi Hi) as Q.
    assert (P : 0 <= Rabs n ^ o <= 1) by (split; [apply pow_le; assumption|]; rewrite <- (pow1 o); apply pow_incr; lra).
    pose proof (Cmod_ge_0 (Cminus (w o i) (CDerive_n (u i) o arg))).
    assert (Rabs n ^ o * Cmod (Cminus (w o i) (CDerive_n (u i) o arg)) <= 1 * eps) by (apply Rmult_le_compat; lra). lra. }
  assert (Tay : exists d, (exists d0, calc_xi_derivs c SrcCoef taylor_types arg sid = Ok d0 /\ taylor_shift d0 delta = Ok d) /\
     forall o i, (o < 5)%nat -> (i < 2)%nat -> xi_get d o i = Ok (shift_sum (fun l => w l i) delta o (seq o (5 - o)))).
  { destruct (table_derivs c taylor_types arg sid (types_small _ (or_intror (or_intror eq_refl))) L0 L1 Hg) as (d0 & Ed0 & Hxi).
    destruct (taylor_shift_eq d0 delta w) as (d & Ed & Hx).
    { intros l i Hl Hi. rewrite (Hxi l i) by (apply taylor_types_all; assumption). reflexivity. }
    exists d. split; [exists d0; auto|]. intros o i Ho Hi. apply Hx; assumption. }
  assert (Sm : forall o i, In (o, i) types -> (o <= 4)%nat /\ (i < 2)%nat) by (apply types_small; tauto).
  assert (Tw : forall o i, (o <= 4)%nat -> (i < 2)%nat ->
     Rabs n ^ o * Cmod (Cminus (shift_sum (fun l => w l i) delta o (seq o (5 - o))) (CDerive_n (u i) o (arg + delta))) <= 5 * eps + 2 * KM * rho ^ 5).
  { intros o i Ho Hi. destruct (Hu i Hi) as [S5 B5].
    apply (data_near (u i) (fun l => w l i) arg delta n rho eps KM o); try assumption; [lia|].
    intros l Hl. apply Hw; [lia|exact Hi]. }
  destruct Tay as (dT & Ht1 & Ht2).
  destruct e.
  1: destruct (table_derivs c types arg sid Sm L0 L1 Hg) as (d & Ed & Hxi); exists d, w; split; [exact Ed|]; split; [exact Hxi|apply Std, Hd; reflexivity].
  all: exists dT, (fun o i => shift_sum (fun l => w l i) delta o (seq o (5 - o))); split; [exact Ht1|]; split;
    [intros o i Hoi; destruct (Sm o i Hoi); apply Ht2; lia|exact Tw].
Qed.

Lemma between : forall lo hi arg delta t, lo <= arg <= hi -> lo <= arg + delta <= hi -> 0 <= t <= 1 -> lo <= arg + t * delta <= hi.
Proof.
  intros lo hi arg delta t H1 H2 Ht.
  replace (arg + t * delta) with ((1 - t) * arg + t * (arg + delta)) by ring.
  assert ((1 - t) * lo <= (1 - t) * arg <= (1 - t) * hi) by (split; apply Rmult_le_compat_l; lra).
  assert (t * lo <= t * (arg + delta) <= t * hi) by (split; apply Rmult_le_compat_l; lra). lra.
Qed.

(** The normal used on each piece, and the two traces of the solution. *)
Definition nvec (r : R -> R) (sid : nat) (t : R) : R * R :=
  match sid with
  | 0%nat => eval_normal r t
  | 1%nat => (0, 1)
  | _ => (sin (PI / 4), - cos (PI / 4))
  end.
Definition tr0 (r : R -> R) (D : nat -> nat -> R -> R -> C) (sid : nat) (t : R) : C :=
  D 0%nat 0%nat (fst (seg_point r (PI / 4) sid t)) (snd (seg_point r (PI / 4) sid t)).
Definition tr1 (r : R -> R) (D : nat -> nat -> R -> R -> C) (sid : nat) (t : R) : C :=
  Cplus (Cmult (RtoC (fst (nvec r sid t))) (D 1%nat 0%nat (fst (seg_point r (PI / 4) sid t)) (snd (seg_point r (PI / 4) sid t))))
        (Cmult (RtoC (snd (nvec r sid t))) (D 0%nat 1%nat (fst (seg_point r (PI / 4) sid t)) (snd (seg_point r (PI / 4) sid t)))).

Lemma final_const : forall K KT M h eps rho, 0 <= K -> 0 <= KT -> 0 <= M -> 0 <= eps -> 0 <= rho <= 2 * h ->
  K * (5 * eps + 2 * (KT * M) * rho ^ 5 + M * rho ^ 5) <= K * (5 + 32 * (2 * KT + 1)) * (eps + M * h ^ 5).
Proof.
  intros K KT M h eps rho HK HKT HM He Hr. rewrite (Rmult_assoc K (5 + 32 * (2 * KT + 1))). apply Rmult_le_compat_l; [exact HK|].
  assert (Q : rho ^ 5 <= 32 * h ^ 5) by (replace (32 * h ^ 5) with ((2 * h) ^ 5) by ring; apply pow_incr; lra).
  assert (P : 0 <= h ^ 5) by (apply pow_le; lra).
  assert (P2 : 0 <= M * h ^ 5) by (apply Rmult_le_pos; assumption).
  assert ((2 * KT + 1) * M * rho ^ 5 <= (2 * KT + 1) * M * (32 * h ^ 5)) by (apply Rmult_le_compat_l; [apply Rmult_le_pos; lra|exact Q]).
  assert (0 <= 32 * (2 * KT + 1) * eps) by (apply Rmult_le_pos; lra).
  replace (5 * eps + 2 * (KT * M) * rho ^ 5 + M * rho ^ 5) with (5 * eps + (2 * KT + 1) * M * rho ^ 5) by ring.
  replace ((5 + 32 * (2 * KT + 1)) * (eps + M * h ^ 5)) with (5 * eps + 32 * (2 * KT + 1) * eps + (2 * KT + 1) * M * (32 * h ^ 5) + 5 * (M * h ^ 5)) by ring. lra.
Qed.

Section Node.
Context (r : R -> R) (Hr : gentle r) (Hg : good_curve r) (k : R).

(** Normal coordinates of a node, and the contribution of the source there. *)
Definition base (c : ext_ctx) (sid : nat) (p : node) (n t : R) : Prop :=
  match sid with
  | 0%nat => ec_bcoord c p = Some (n, t)
  | _ => ctx_coord c p = (fst (seg_point r (PI / 4) sid t) + n * fst (nvec r sid t), snd (seg_point r (PI / 4) sid t) + n * snd (nvec r sid t))
  end.
Definition wsrc (F : nat -> nat -> R -> R -> C) (sid : nat) (n t : R) : C :=
  wex k (match sid with 0%nat => b_curv r t | _ => 0 end) F (fst (seg_point r (PI / 4) sid t)) (snd (seg_point r (PI / 4) sid t))
    (fst (nvec r sid t)) (snd (nvec r sid t)) n.

Definition node_claim (sid : nat) (K : R) : Prop := forall brentq order c D F M eps,
  brentq_contract brentq -> (order = 2 \/ order = 4)%Z -> curve_solver brentq order r c -> ec_k c = k ->
  length (ec_c0 c) = length (ec_B c) -> length (ec_c1 c) = length (ec_B c) ->
  partials all_plane 6 D -> partials all_plane 2 F -> helmholtz all_plane k D F -> 0 <= M -> 0 <= eps ->
  (forall i j x y, (i + j <= 6)%nat -> Rabs x <= PI -> Rabs y <= PI -> Cmod (D i j x y) <= M) ->
  (forall l t, (l <= 4)%nat -> seg_range (23 / 10) (PI / 4) sid t ->
     let g := eval_g_inv (23 / 10) (PI / 4) sid in
     Cmod (Cminus (CDerive_n (seg_function g (ec_B c) (ec_c0 c) sid) l t) (CDerive_n (tr0 r D sid) l t)) <= eps /\
     Cmod (Cminus (CDerive_n (seg_function g (ec_B c) (ec_c1 c) sid) l t) (CDerive_n (tr1 r D sid) l t)) <= eps) ->
  forall e p x y, In p (ec_gamma c sid) -> node_etype c sid p = Ok e -> ctx_coord c p = (x, y) ->
  exists len v n t, do_extend c SrcCoef sid e p = Ok (len, v) /\ base c sid p n t /\
    Cmod (Cminus (Cplus v (wsrc F sid n t)) (D 0%nat 0%nat x y)) <= K * (eps + M * (2 * PI / IZR (ec_N c)) ^ 5).

Lemma step_range : forall brentq order c, curve_solver brentq order r c ->
  let h := 2 * PI / IZR (ec_N c) in 0 <= h /\ 0 <= 5 / 4 * (h * sqrt 2) <= 2 * h /\ 5 / 4 * (h * sqrt 2) <= 1.
Proof using Type.
  intros brentq order c Hc h. pose proof (geo_e brentq r order c Hc) as He. fold h in He. pose proof sqrt2_num as S2.
  assert (Hh : 0 <= h).
  { destruct Hc as (_ & _ & _ & HN & _). unfold h. pose proof PI_RGT_0. apply Rlt_le, Rdiv_lt_0_compat; [lra|]. apply IZR_lt. lia. }
  split; [exact Hh|]. split; [split; [lra|]|lra].
  replace (5 / 4 * (h * sqrt 2)) with (h * (5 / 4 * sqrt 2)) by ring. rewrite (Rmult_comm 2 h). apply Rmult_le_compat_l; lra.
Qed.

Lemma curve_node : exists K, 0 <= K /\ node_claim 0 K.
Proof using All.
  destruct (polar_accuracy r Hg k (PI / 8) (2 * PI + PI / 8)) as (K & HK & Acc).
  destruct (traces_bounded (fun t => r t * cos t) (fun t => r t * sin t) (fun t => fst (eval_normal r t)) (fun t => snd (eval_normal r t))
     (PI / 8) (2 * PI + PI / 8) (g_X r Hg 6) (g_Y r Hg 6) (proj1 (g_normal r Hg 6)) (proj2 (g_normal r Hg 6))) as (KT & HKT & TB).
  exists (K * (5 + 32 * (2 * KT + 1))). split; [apply Rmult_le_pos; lra|].
  intros brentq order c D F M eps Hb Ho Hc Ek L0 L1 HD HF PDE HM He HB Hfit e p x y Hp Het Exy.
  pose proof (step_range brentq order c Hc) as (Hh & Hrho & Hrho1). set (h := 2 * PI / IZR (ec_N c)) in *. set (rho := 5 / 4 * (h * sqrt 2)) in *.
  destruct (geo_0 brentq Hb r Hr order Ho c Hc p x y Hg Hp Exy) as (n & th & phi & Ebc & Hth & Hn & Hphi & Hdel & Px & Py & Q1 & Q2).
  fold h in Hn, Hdel. fold rho in Hdel. assert (Hn' : Rabs n <= rho) by (unfold rho; pose proof (Rabs_pos n); lra).
  pose proof Hc as (ER & Ea & _ & _ & Er & _). pose proof PI_num as HPI.
  destruct (coords_0_near c e p n th ltac:(rewrite Ea; lra) Hp Ebc Het) as (arg & delta & Hrg & Eth & Hd0 & Hdn & Hdo).
  specialize (Hdo (ec_B c) (ec_c0 c) (ec_c1 c) SrcCoef). rewrite with_basis_id in Hdo.
  assert (Hdl : Rabs delta <= rho).
  { eapply Rle_trans; [apply (Hdn phi)|rewrite Eth; exact Hdel]. rewrite Ea. exact Hphi. }
  assert (Hcv : forall t, PI / 8 <= t <= 2 * PI + PI / 8 -> Rabs (r t * cos t) <= PI /\ Rabs (r t * sin t) <= PI).
  { intros t Ht. apply disc_square. unfold in_disc. pose proof (sc2 t) as S2. replace ((r t * cos t) ^ 2 + (r t * sin t) ^ 2) with (r t ^ 2) by (ring [S2]).
    destruct Hr as (_ & _ & _ & _ & B0 & _). pose proof (B0 t Ht). apply pow_incr. lra. }
  destruct (TB D M HD HM) as (S0 & S1 & B5).
  { intros i j t Hij Ht. destruct (Hcv t Ht). apply HB; assumption. }
  assert (Harg : PI / 4 <= arg <= 2 * PI) by (rewrite Ea in Hrg; exact Hrg).
  destruct (entries c 0 e types_0 arg delta n rho eps (KT * M) (fun i => match i with O => tr0 r D 0 | _ => tr1 r D 0 end)
     (or_introl eq_refl) ltac:(lra) ltac:(rewrite Ea; lra) ltac:(lia) L0 L1 Hrg Hd0) as (d & w & Hcase & Hw & Hest).
  { intros i Hi. assert (HT : forall t, 0 <= t <= 1 -> PI / 8 <= arg + t * delta <= 2 * PI + PI / 8).
    { intros t Ht. apply between; [lra|rewrite Eth; exact Hth|exact Ht]. }
    destruct i as [|[|i]]; [| |lia]; split; [exact S0| |exact S1|]; intros t Ht; apply (B5 _ (HT t Ht)). }
  { apply Rmult_le_pos; assumption. }
  { exact He. }
  { lra. }
  { lra. }
  { exact Hdl. }
  { exact Hn'. }
  { intros l Hl. rewrite ER, Ea. apply Hfit; [exact Hl|exact Harg]. }
  assert (Hval : exists len, do_extend c SrcCoef 0 e p = Ok (len, phi_0 c n th w)).
  { rewrite Hdo. destruct e.
    1: rewrite Hcase; cbn [bind]; rewrite (extend_at_eq c n th d w Hw); cbn [bind]; eexists; reflexivity.
    all: destruct Hcase as (d0 & -> & E2); cbn [bind]; rewrite E2; cbn [bind]; rewrite (extend_at_eq c n th d w Hw); cbn [bind]; eexists; reflexivity. }
  destruct Hval as (len & Hval). exists len, (phi_0 c n th w), n, th. split; [exact Hval|]. split; [exact Ebc|].
  assert (Pn5 : M * Rabs n ^ 5 <= M * rho ^ 5).
  { apply Rmult_le_compat_l; [exact HM|]. apply pow_incr. split; [apply Rabs_pos|exact Hn']. }
  assert (Pk : 0 <= 2 * (KT * M) * rho ^ 5).
  { apply Rmult_le_pos; [apply Rmult_le_pos; [lra|apply Rmult_le_pos; assumption]|apply pow_le; lra]. }
  assert (Pn0 : 0 <= M * Rabs n ^ 5) by (apply Rmult_le_pos; [exact HM|apply pow_le, Rabs_pos]).
  assert (HD5 : partials all_plane 5 D) by (intros i j x' y' Hij H; apply HD; [lia|exact H]).
  eapply Rle_trans; [|apply (final_const K KT M h eps rho); assumption].
  set (T := 5 * eps + 2 * (KT * M) * rho ^ 5 + M * rho ^ 5).
  unfold phi_0. rewrite Ek, Er, Px, Py. unfold wsrc. cbn [seg_point nvec fst snd].
  apply (Acc D F M th n T (mk_pd (w 0 0) (w 0 1) (w 1 0) (w 1 1) (w 2 0) (w 2 1) (w 3 0) (w 4 0))%nat HD5 HF PDE HM Hth ltac:(lra)).
  { unfold T. lra. }
  { intros i j t Hij Ht.
    assert (Dz : in_disc (r th * cos th + t * n * fst (eval_normal r th)) (r th * sin th + t * n * snd (eval_normal r th))).
    { pose proof (disc_between _ _ _ _ t Q1 Q2 Ht) as Q. rewrite Px, Py in Q.
      replace (t * n * fst (eval_normal r th)) with (t * (r th * cos th + n * fst (eval_normal r th) - r th * cos th)) by ring.
      replace (t * n * snd (eval_normal r th)) with (t * (r th * sin th + n * snd (eval_normal r th) - r th * sin th)) by ring. exact Q. }
    apply disc_square in Dz. apply HB; [lia|apply Dz|apply Dz]. }
  all: rewrite <- Eth; cbn [pd_xi0 pd_xi1 pd_d_xi0 pd_d_xi1 pd_d2_xi0 pd_d2_xi1 pd_d3_xi0 pd_d4_xi0];
    lazymatch goal with |- Rabs _ ^ ?o * Cmod (Cminus (_ _ ?i) _) <= _ => assert (G := Hest o i); specialize (G ltac:(lia) ltac:(lia)) end;
    cbv beta iota in G; eapply Rle_trans; [exact G|unfold T; lra].
Qed.

Lemma radius_node : forall sid, (1 <= sid < 3)%nat -> exists K, 0 <= K /\ node_claim sid K.
Proof using Hr.
  intros sid Hsid.
  set (e1 := match sid with 1%nat => 1 | _ => cos (PI / 4) end). set (e2 := match sid with 1%nat => 0 | _ => sin (PI / 4) end).
  set (sg := match sid with 1%nat => -1 | _ => 1 end).
  assert (Hcase : sid = 1%nat /\ e1 = 1 /\ e2 = 0 \/ sid = 2%nat /\ e1 = cos (PI / 4) /\ e2 = sin (PI / 4)).
  { unfold e1, e2. destruct sid as [|[|[|sid]]]; [lia|left; auto|right; auto|lia]. }
  assert (Hsg : sg = 1 \/ sg = -1) by (unfold sg; destruct sid as [|[|sid]]; auto).
  assert (U : e1 ^ 2 + e2 ^ 2 = 1).
  { destruct Hcase as [(_ & -> & ->)|(_ & -> & ->)]; [ring|]. pose proof (sc2 (PI / 4)). lra. }
  destruct (straight_accuracy k) as (K & HK & Acc).
  destruct (traces_bounded (fun t => t * e1) (fun t => t * e2) (fun _ => sg * e2) (fun _ => sg * - e1) (-3) 3
    (sm_mult _ _ _ (sm_id 6) (sm_const 6 e1)) (sm_mult _ _ _ (sm_id 6) (sm_const 6 e2)) (sm_const 6 _) (sm_const 6 _)) as (KT & HKT & TB).
  exists (K * (5 + 32 * (2 * KT + 1))). split; [apply Rmult_le_pos; lra|].
  intros brentq order c D F M eps Hb Ho Hc Ek L0 L1 HD HF PDE HM He HB Hfit e p x y Hp Het Exy.
  pose proof (step_range brentq order c Hc) as (Hh & Hrho & Hrho1). set (h := 2 * PI / IZR (ec_N c)) in *. set (rho := 5 / 4 * (h * sqrt 2)) in *.
  pose proof Hc as (ER & Ea & _ & _ & Er & _). pose proof PI_num as HPI.
  destruct (coords_12_near c sid e p x y ltac:(lra) ltac:(rewrite Ea; lra) Hsid Exy Het) as (arg & delta & n & Hrg & Hd0 & Hdn & Hpt & Hdo).
  specialize (Hdo (ec_B c) (ec_c0 c) (ec_c1 c) SrcCoef). rewrite with_basis_id in Hdo.
  assert (Hpt' : x = (arg + delta) * e1 + n * (sg * e2) /\ y = (arg + delta) * e2 + n * (sg * - e1)).
  { destruct (Hpt (nvec r sid 0)) as [P1 P2].
    { rewrite Ea. destruct sid as [|[|[|sid]]]; [lia|reflexivity|reflexivity|lia]. }
    rewrite Ea in P1, P2. unfold e1, e2, sg. destruct sid as [|[|[|sid]]]; [lia| | |lia]; cbn [seg_point nvec fst snd] in P1, P2; lra. }
  destruct Hpt' as [Px Py].
  destruct (geo_12 brentq Hb r Hr order Ho c Hc sid p x y e1 e2 sg (arg + delta) n Hsid Hp Exy Hcase Hsg Px Py) as (Hn & (s & Hs & Hts) & Q1 & Q2).
  fold h in Hn, Hts. assert (Hn' : Rabs n <= rho) by (unfold rho; pose proof (Rabs_pos n); lra).
  assert (Hdl : Rabs delta <= rho).
  { eapply Rle_trans; [apply (Hdn s)|]; [rewrite ER; destruct sid; [lia|exact Hs]|]. unfold rho. pose proof (Rabs_pos (arg + delta - s)). lra. }
  assert (E0 : tr0 r D sid = fun t => D 0%nat 0%nat (t * e1) (t * e2)).
  { apply FunctionalExtensionality.functional_extensionality. intros t. unfold tr0, e1, e2.
    destruct sid as [|[|[|sid]]]; [lia| |reflexivity|lia]. cbn [seg_point fst snd]. f_equal; ring. }
  assert (E1 : tr1 r D sid = fun t => Cplus (Cmult (RtoC (sg * e2)) (D 1%nat 0%nat (t * e1) (t * e2)))
                    (Cmult (RtoC (sg * - e1)) (D 0%nat 1%nat (t * e1) (t * e2)))).
  { apply FunctionalExtensionality.functional_extensionality. intros t. unfold tr1, e1, e2, sg.
    destruct sid as [|[|[|sid]]]; [lia| | |lia]; cbn [seg_point nvec fst snd]; do 3 f_equal; ring. }
  assert (Hln : forall t, -3 <= t <= 3 -> Rabs (t * e1) <= PI /\ Rabs (t * e2) <= PI).
  { intros t Ht. apply disc_square. unfold in_disc. replace ((t * e1) ^ 2 + (t * e2) ^ 2) with (t ^ 2 * (e1 ^ 2 + e2 ^ 2)) by ring.
    rewrite U, Rmult_1_r, <- (pow2_abs t). apply pow_incr. split; [apply Rabs_pos|apply Rabs_le; lra]. }
  destruct (TB D M HD HM) as (S0 & S1 & B5).
  { intros i j t Hij Ht. destruct (Hln t Ht). apply HB; assumption. }
  rewrite <- E0 in S0, B5. rewrite <- E1 in S1, B5.
  assert (Harg : 0 <= arg <= 23 / 10) by (rewrite ER in Hrg; destruct sid; [lia|exact Hrg]).
  destruct (entries c sid e types_12 arg delta n rho eps (KT * M) (fun i => match i with O => tr0 r D sid | _ => tr1 r D sid end)
     (or_intror eq_refl) ltac:(lra) ltac:(rewrite Ea; lra) ltac:(lia) L0 L1 Hrg Hd0) as (d & w & Hc2 & Hw & Hest).
  { intros i Hi. assert (HT : forall t, 0 <= t <= 1 -> -3 <= arg + t * delta <= 3).
    { intros t Ht. apply between; [lra| |exact Ht]. pose proof (geo_e brentq r order c Hc) as Ge. fold h in Ge. apply Rabs_le_between in Hts. lra. }
    destruct i as [|[|i]]; [| |lia]; split; [exact S0| |exact S1|]; intros t Ht; apply (B5 _ (HT t Ht)). }
  { apply Rmult_le_pos; assumption. }
  { exact He. }
  { lra. }
  { lra. }
  { exact Hdl. }
  { exact Hn'. }
  { intros l Hl. rewrite ER, Ea. apply Hfit; [exact Hl|]. destruct sid; [lia|exact Harg]. }
  assert (Hval : exists len, do_extend c SrcCoef sid e p = Ok (len, phi_r c n w)).
  { rewrite Hdo. destruct e.
    1: rewrite Hc2; cbn [bind]; rewrite (extend_radius_eq c n d w Hw); cbn [bind]; eexists; reflexivity.
    all: destruct Hc2 as (d0 & F1 & F2); unfold do_extend_taylor; rewrite F1; cbn [bind]; rewrite F2; cbn [bind];
      destruct sid; [lia|]; rewrite (extend_radius_eq c n d w Hw); cbn [bind]; eexists; reflexivity. }
  destruct Hval as (len & Hval). exists len, (phi_r c n w), n, (arg + delta). split; [exact Hval|].
  assert (Eb : seg_point r (PI / 4) sid (arg + delta) = ((arg + delta) * e1, (arg + delta) * e2) /\ nvec r sid (arg + delta) = (sg * e2, sg * - e1)).
  { unfold e1, e2, sg. destruct sid as [|[|[|sid]]]; [lia| | |lia]; cbn [seg_point nvec]; split; f_equal; ring. }
  destruct Eb as [Eb1 Eb2].
  split; [unfold base; rewrite Eb1, Eb2; destruct sid; [lia|]; rewrite Exy; f_equal; assumption|].
  assert (Pn5 : M * Rabs n ^ 5 <= M * rho ^ 5).
  { apply Rmult_le_compat_l; [exact HM|]. apply pow_incr. split; [apply Rabs_pos|exact Hn']. }
  assert (Pk : 0 <= 2 * (KT * M) * rho ^ 5).
  { apply Rmult_le_pos; [apply Rmult_le_pos; [lra|apply Rmult_le_pos; assumption]|apply pow_le; lra]. }
  assert (Pn0 : 0 <= M * Rabs n ^ 5) by (apply Rmult_le_pos; [exact HM|apply pow_le, Rabs_pos]).
  assert (HD5 : partials all_plane 5 D) by (intros i j x' y' Hij H; apply HD; [lia|exact H]).
  eapply Rle_trans; [|apply (final_const K KT M h eps rho); assumption].
  set (T := 5 * eps + 2 * (KT * M) * rho ^ 5 + M * rho ^ 5).
  unfold phi_r. rewrite Ek, Px, Py. unfold wsrc. rewrite Eb1, Eb2. cbn [fst snd]. replace (match sid with 0%nat => b_curv r (arg + delta) | _ => 0 end) with 0 by (destruct sid; [lia|reflexivity]).
  apply (Acc e1 e2 sg D F M (arg + delta) n T (mk_ed (w 0 0) (w 0 1) (w 1 0) (w 1 1) (w 2 0) (w 2 1) (w 4 0))%nat U Hsg HD5 HF PDE HM ltac:(lra)).
  { unfold T. lra. }
  { intros i j t Hij Ht.
    assert (Dz : in_disc ((arg + delta) * e1 + t * n * (sg * e2)) ((arg + delta) * e2 + t * n * (sg * - e1))).
    { pose proof (disc_between _ _ _ _ t Q1 Q2 Ht) as Q. rewrite Px, Py in Q.
      replace (t * n * (sg * e2)) with (t * ((arg + delta) * e1 + n * (sg * e2) - (arg + delta) * e1)) by ring.
      replace (t * n * (sg * - e1)) with (t * ((arg + delta) * e2 + n * (sg * - e1) - (arg + delta) * e2)) by ring. exact Q. }
    apply disc_square in Dz. apply HB; [lia|apply Dz|apply Dz]. }
  all: cbn [ed_xi0 ed_xi1 ed_d_xi0 ed_d_xi1 ed_d2_xi0 ed_d2_xi1 ed_d4_xi0];
    lazymatch goal with |- Rabs _ ^ ?o * Cmod (Cminus (_ _ ?i) _) <= _ => assert (G := Hest o i); specialize (G ltac:(lia) ltac:(lia)) end;
    cbv beta iota in G; first [rewrite E0 in G|rewrite E1 in G]; eapply Rle_trans; [exact G|unfold T; lra].
Qed.

Lemma node_accuracy : exists K, 0 <= K /\ forall sid, (sid < 3)%nat -> node_claim sid K.
Proof using All.
  destruct curve_node as (K0 & H0 & C0). destruct (radius_node 1 ltac:(lia)) as (K1 & H1 & C1). destruct (radius_node 2 ltac:(lia)) as (K2 & H2 & C2).
  exists (K0 + K1 + K2). split; [lra|].
  assert (Up : forall sid K, node_claim sid K -> K <= K0 + K1 + K2 -> node_claim sid (K0 + K1 + K2)).
  { intros sid K HC HK brentq order c D F M eps Hb Ho Hc Ek L0 L1 HD HF PDE HM He HB Hfit e p x y Hp Het Exy.
    destruct (HC brentq order c D F M eps Hb Ho Hc Ek L0 L1 HD HF PDE HM He HB Hfit e p x y Hp Het Exy) as (len & v & n & t & Ev & Hbs & Hv).
    exists len, v, n, t. split; [exact Ev|]. split; [exact Hbs|]. eapply Rle_trans; [exact Hv|]. apply Rmult_le_compat_r; [|exact HK].
    destruct (step_range brentq order c Hc) as (Hh & _). apply Rplus_le_le_0_compat; [exact He|]. apply Rmult_le_pos; [exact HM|apply pow_le, Hh]. }
  intros [|[|[|sid]]] Hs; [apply (Up _ K0)|apply (Up _ K1)|apply (Up _ K2)|lia]; try assumption; lra.
Qed.
End Node.
