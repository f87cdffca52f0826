(** Existence of a solution of the polar system, and the bounds of C86 for runs. *)
From Coq Require Import String ZArith List Reals Lia Lra Psatz.
From Coquelicot Require Import Coquelicot.
From Verif Require Import Model_Py Model_Grid Model_Fourier Model_Domain Model_Abcoef Model_Ode Model_PolarFD Model_ZMethod Model_Problems Model_ZRun Model_Run Model_Program Model_ZProgram
  Lib_Csum Spec_Abcoef Spec_PolarFD Spec_Ode Spec_Problems Spec_Bessel Spec_OdeAcc Spec_PolarAcc
  Proof_Fourier Proof_PolarFD Proof_ZProgram Proof_OdeSing Proof_PolarAcc2 Proof_PolarCheck.
Import ListNotations.
Open Scope R_scope.

(** ** Linear algebra *)

Definition skip (p j : nat) : nat := if Nat.ltb j p then j else S j.

Lemma csum_skip : forall m f p, (p <= m)%nat -> csum (S m) f = Cplus (f p) (csum m (fun j => f (skip p j))).
Proof.
  induction m as [|m IH]; intros f p Hp.
  - replace p with 0%nat by lia. cbn [csum]. ring.
  - cbn [csum]. destruct (Nat.eq_dec p (S m)) as [->|Hne].
    + replace (csum m (fun j => f (skip (S m) j))) with (csum m f).
      2:{ apply csum_ext. intros j Hj. unfold skip. destruct (Nat.ltb_spec j (S m)); [reflexivity|lia]. }
      unfold skip. destruct (Nat.ltb_spec m (S m)); [|lia]. ring.
    + specialize (IH f p ltac:(lia)). cbn [csum] in IH. rewrite IH. replace (skip p m) with (S m); [ring|]. unfold skip. destruct (Nat.ltb_spec m p); [lia|reflexivity].
Qed.

(** Fewer equations than unknowns. *)
Lemma underdetermined : forall n m (A : nat -> nat -> C), (n < m)%nat ->
  exists x : nat -> C, (exists j, (j < m)%nat /\ x j <> RtoC 0) /\ forall i, (i < n)%nat -> mat_app m A x i = RtoC 0.
Proof.
  induction n as [|n IH]; intros m A Hm.
  - exists (fun _ => RtoC 1). split; [exists 0%nat; split; [lia|apply RtoC_neq; lra]|]. intros; lia.
  - assert (D : (forall j, (j < m)%nat -> A n j = RtoC 0) \/ exists p, (p < m)%nat /\ A n p <> RtoC 0).
    { clear. induction m as [|m IH]; [left; intros; lia|]. destruct IH as [H|(p & Hp & Hne)]; [|right; exists p; split; [lia|exact Hne]].
      assert (Hc : A n m = RtoC 0 \/ A n m <> RtoC 0).
      { destruct (Req_dec (Cmod (A n m)) 0) as [H0|H0]; [left; apply Cmod_eq_0; exact H0|right; intros H1; apply H0; rewrite H1; apply Cmod_0]. }
      destruct Hc as [E|E]; [left|right; exists m; split; [lia|exact E]].
      intros j Hj. destruct (Nat.eq_dec j m) as [->|]; [exact E|apply H; lia]. }
    destruct D as [D|(p & Hp & Hne)].
    + destruct (IH m A ltac:(lia)) as (x & Hx & He). exists x. split; [exact Hx|]. intros i Hi. destruct (Nat.eq_dec i n) as [->|]; [|apply He; lia].
      unfold mat_app. rewrite (csum_ext m _ (fun _ => RtoC 0)); [apply csum_zero|]. intros j Hj. rewrite D by exact Hj. apply Cmult_0_l.
    + destruct m as [|m]; [lia|].
      destruct (IH m (fun i j => Cminus (A i (skip p j)) (Cmult (Cdiv (A i p) (A n p)) (A n (skip p j)))) ltac:(lia)) as (y & (j0 & Hj0 & Hy0) & Hy).
      set (c := Copp (Cdiv (csum m (fun j => Cmult (A n (skip p j)) (y j))) (A n p))).
      set (x := fun j => if Nat.ltb j p then y j else if Nat.eqb j p then c else y (pred j)).
      assert (Ex : forall j, x (skip p j) = y j).
      { intros j. unfold x, skip. destruct (Nat.ltb_spec j p) as [H|H]; [destruct (Nat.ltb_spec j p); [reflexivity|lia]|].
        destruct (Nat.ltb_spec (S j) p); [lia|]. destruct (Nat.eqb_spec (S j) p); [lia|reflexivity]. }
      assert (Ep : x p = c).
      { unfold x. destruct (Nat.ltb_spec p p); [lia|]. rewrite Nat.eqb_refl. reflexivity. }
      assert (Em : forall i, mat_app (S m) A x i = Cplus (Cmult (A i p) c) (csum m (fun j => Cmult (A i (skip p j)) (y j)))).
      { intros i. unfold mat_app. rewrite (csum_skip m _ p ltac:(lia)), Ep. f_equal. apply csum_ext. intros j Hj. rewrite Ex. reflexivity. }
      exists x. split.
      * exists (skip p j0). split; [unfold skip; destruct (Nat.ltb_spec j0 p); lia|]. rewrite Ex. exact Hy0.
      * intros i Hi. rewrite Em. destruct (Nat.eq_dec i n) as [->|Hin].
        { unfold c. field. exact Hne. }
        specialize (Hy i ltac:(lia)). unfold mat_app in Hy.
        rewrite (csum_ext m _ (fun j => Cplus (Cmult (A i (skip p j)) (y j)) (Cmult (Copp (Cdiv (A i p) (A n p))) (Cmult (A n (skip p j)) (y j))))) in Hy by (intros; ring).
        rewrite csum_plus, csum_scal in Hy. rewrite <- Hy. unfold c. field. exact Hne.
Qed.

(** An injective square matrix is onto. *)
Lemma square_onto : forall n (A : nat -> nat -> C) y, full_rank n n A -> exists x, forall i, (i < n)%nat -> mat_app n A x i = y i.
Proof.
  intros n A y HA. destruct (underdetermined n (S n) (fun i j => if Nat.ltb j n then A i j else y i) ltac:(lia)) as (x & (j0 & Hj0 & Hx0) & Hx).
  assert (E : forall i, (i < n)%nat -> Cplus (mat_app n A x i) (Cmult (y i) (x n)) = RtoC 0).
  { intros i Hi. rewrite <- (Hx i Hi). unfold mat_app. cbn [csum]. destruct (Nat.ltb_spec n n); [lia|]. f_equal.
    apply csum_ext. intros j Hj. destruct (Nat.ltb_spec j n); [reflexivity|lia]. }
  assert (Hn : x n <> RtoC 0).
  { intros H0. apply Hx0. destruct (Nat.eq_dec j0 n) as [->|Hne]; [exact H0|]. apply (HA x); [|lia].
    intros i Hi. specialize (E i Hi). rewrite H0, Cmult_0_r, Cplus_0_r in E. exact E. }
  exists (fun j => Cmult (Copp (Cinv (x n))) (x j)). intros i Hi. unfold mat_app.
  rewrite (csum_ext n _ (fun j => Cmult (Copp (Cinv (x n))) (Cmult (A i j) (x j)))) by (intros; ring). rewrite csum_scal. fold (mat_app n A x i).
  assert (E2 : mat_app n A x i = Copp (Cmult (y i) (x n))).
  { specialize (E i Hi). replace (mat_app n A x i) with (Cminus (Cplus (mat_app n A x i) (Cmult (y i) (x n))) (Cmult (y i) (x n))) by ring. rewrite E. ring. }
  rewrite E2. field. exact Hn.
Qed.

(** ** The polar system *)

Lemma parts_fst : forall N R0 R1 a k, (1 <= N)%Z -> forall x i,
  fst (mat_app (Z.to_nat ((N + 1) * (N + 1))) (pmat N R0 R1 a k) x i) =
  prow N R0 R1 a k (fun m l => rsum (Z.to_nat ((N + 1) * (N + 1))) (fun j => fst (x j) * unit_at (N + 1) j m l)) i.
Proof. intros N R0 R1 a k HN x i. rewrite (pmat_parts N R0 R1 a k). cbn [fst]. rewrite prow_sum. reflexivity. Qed.

Lemma polar_onto : forall N R0 R1 a k, (1 <= N)%Z -> polar_trivial N R0 R1 a k -> forall e : Z -> Z -> R, exists w : Z -> Z -> R,
  (forall m l, on_edge N m l -> w m l = e m l) /\ (forall m l, inside N m l -> polar_op N R0 R1 a k w m l = e m l).
Proof.
  intros N R0 R1 a k HN Ht e. set (n := Z.to_nat ((N + 1) * (N + 1))).
  destruct (square_onto n (pmat N R0 R1 a k) (fun i => RtoC (e (fst (node_of (N + 1) i)) (snd (node_of (N + 1) i)))) (pmat_rank N R0 R1 a k HN Ht)) as [x Hx].
  exists (fun m l => rsum n (fun j => fst (x j) * unit_at (N + 1) j m l)).
  assert (G : forall m l, (0 <= m <= N)%Z -> (0 <= l <= N)%Z ->
    (if edgeb N m l then rsum n (fun j => fst (x j) * unit_at (N + 1) j m l) else polar_op N R0 R1 a k (fun m l => rsum n (fun j => fst (x j) * unit_at (N + 1) j m l)) m l) = e m l).
  { intros m l Hm Hl. set (i := Z.to_nat (m * (N + 1) + l)). assert (Ei : Z.of_nat i = (m * (N + 1) + l)%Z) by (unfold i; rewrite Z2Nat.id; nia).
    assert (En : node_of (N + 1) i = (m, l)).
    { unfold node_of. rewrite Ei. f_equal; [symmetry; apply (Z.div_unique _ _ _ l); lia|symmetry; apply (Z.mod_unique _ _ m); lia]. }
    specialize (Hx i ltac:(unfold i, n; nia)). apply (f_equal fst) in Hx. unfold n in Hx at 1. rewrite (parts_fst N R0 R1 a k HN) in Hx.
    unfold prow in Hx. cbv zeta in Hx. rewrite En in Hx. cbn [fst snd RtoC] in Hx. exact Hx. }
  split; intros m l H.
  - destruct H as (Hm & Hl & H). specialize (G m l Hm Hl). pose proof (edgeb_spec N m l Hm Hl) as B. destruct (edgeb N m l); [exact G|]. destruct B. lia.
  - destruct H as (Hm & Hl). specialize (G m l ltac:(lia) ltac:(lia)). pose proof (edgeb_spec N m l ltac:(lia) ltac:(lia)) as B.
    destruct (edgeb N m l); [|exact G]. destruct B as (_ & _ & B). lia.
Qed.

Lemma solves_same : forall s u u', pf_ok s -> (forall i, (0 <= i < (pf_N s + 1) * (pf_N s + 1))%Z -> u i = u' i) ->
  Model_PolarFD.solves (assemble s) u -> Model_PolarFD.solves (assemble s) u'.
Proof.
  intros s u u' Hok He Hu. assert (HN : (1 <= pf_N s)%Z) by apply Hok.
  assert (Ea : forall m l, (0 <= m <= pf_N s)%Z -> (0 <= l <= pf_N s)%Z -> pf_at s u m l = pf_at s u' m l) by (intros m l Hm Hl; unfold pf_at; apply He; nia).
  apply (solves_iff s u Hok) in Hu. apply (solves_iff s u' Hok). destruct Hu as (H1 & H2 & H3). repeat split.
  - rewrite <- Ea by lia. apply H1; lia.
  - rewrite <- Ea by lia. apply H1; lia.
  - rewrite <- Ea by lia. apply H2; lia.
  - rewrite <- Ea by lia. apply H2; lia.
  - intros m l Hm Hl. rewrite <- (H3 m l Hm Hl). symmetry. apply scheme_ext. intros p q Hp Hq. apply Ea; lia.
Qed.

Lemma one_solution : forall s, pf_ok s -> polar_trivial (pf_N s) (pf_R0 s) (pf_R1 s) (pf_a s) (pf_k s) ->
  exists u, Model_PolarFD.solves (assemble s) u /\
    forall u', Model_PolarFD.solves (assemble s) u' -> forall i, (0 <= i < (pf_N s + 1) * (pf_N s + 1))%Z -> u' i = u i.
Proof.
  intros s Hok Ht. assert (HN : (1 <= pf_N s)%Z) by apply Hok. set (N := pf_N s) in *.
  set (r := fun m => pf_R0 s + IZR m * ((pf_R1 s - pf_R0 s) / IZR N)). set (th := fun l => pf_a s + IZR l * ((2 * PI - pf_a s) / IZR N)).
  set (e := fun m l => if (l =? 0)%Z then pf_phi2 s (r m) else if (l =? N)%Z then pf_phi1 s (r m) else
    if (m =? 0)%Z then pf_phi_initial s (th l) else if (m =? N)%Z then pf_phi0 s (th l) else
    compact_source ((pf_R1 s - pf_R0 s) / IZR N) ((2 * PI - pf_a s) / IZR N) (r m)
        (pf_f s (r m) (th l)) (pf_d_f_r s (r m) (th l)) (pf_d2_f_r s (r m) (th l)) (pf_d2_f_th s (r m) (th l))).
  destruct (polar_onto N _ _ _ _ HN Ht e) as (w & Hw1 & Hw2).
  assert (Ea : forall m l, (0 <= m <= N)%Z -> (0 <= l <= N)%Z -> pf_at s (fun i => w (i / (N + 1))%Z (i mod (N + 1))%Z) m l = w m l).
  { intros m l Hm Hl. unfold pf_at. fold N. f_equal; [symmetry; apply (Z.div_unique _ _ _ l); lia|symmetry; apply (Z.mod_unique _ _ m); lia]. }
  exists (fun i => w (i / (N + 1))%Z (i mod (N + 1))%Z). split.
  - apply solves_iff; [exact Hok|]. fold N. repeat split.
    + rewrite Ea, Hw1 by (unfold on_edge; lia). unfold e. rewrite Z.eqb_refl. reflexivity.
    + rewrite Ea, Hw1 by (unfold on_edge; lia). unfold e. rewrite Z.eqb_refl. destruct (Z.eqb_spec N 0); [lia|reflexivity].
    + rewrite Ea, Hw1 by (unfold on_edge; lia). unfold e. rewrite Z.eqb_refl. destruct (Z.eqb_spec l 0); [lia|]. destruct (Z.eqb_spec l N); [lia|reflexivity].
    + rewrite Ea, Hw1 by (unfold on_edge; lia). unfold e. rewrite Z.eqb_refl. destruct (Z.eqb_spec l 0); [lia|]. destruct (Z.eqb_spec l N); [lia|].
      destruct (Z.eqb_spec N 0); [lia|reflexivity].
    + intros m l Hm Hl. specialize (Hw2 m l (conj Hm Hl)). unfold e in Hw2.
      destruct (Z.eqb_spec l 0); [lia|]. destruct (Z.eqb_spec l N); [lia|]. destruct (Z.eqb_spec m 0); [lia|]. destruct (Z.eqb_spec m N); [lia|].
      refine (eq_trans _ Hw2). unfold polar_op. apply scheme_ext. intros p q Hp Hq. apply Ea; lia.
  - intros u' Hu' i Hi. apply (solves_iff s u' Hok) in Hu'. fold N in Hu'. destruct Hu' as (H1 & H2 & H3).
    assert (Hz : forall m l, in_polar_grid N (m, l) -> pf_at s u' m l - w m l = 0).
    { apply Ht.
      - intros m l Hml. rewrite Hw1 by exact Hml. destruct Hml as (Hm & Hl & Ho). unfold e.
        destruct (Z.eqb_spec l 0) as [->|]; [rewrite (proj1 (H1 m Hm)); apply Rminus_diag_eq; reflexivity|].
        destruct (Z.eqb_spec l N) as [->|]; [rewrite (proj2 (H1 m Hm)); apply Rminus_diag_eq; reflexivity|].
        destruct (Z.eqb_spec m 0) as [->|]; [rewrite (proj1 (H2 l ltac:(lia))); apply Rminus_diag_eq; reflexivity|].
        destruct (Z.eqb_spec m N) as [->|]; [rewrite (proj2 (H2 l ltac:(lia))); apply Rminus_diag_eq; reflexivity|lia].
      - intros m l Hi'. specialize (Hw2 m l Hi'). destruct Hi' as [Hm Hl]. specialize (H3 m l Hm Hl). unfold polar_op in *.
        change (fun m : Z => pf_R0 s + IZR m * ((pf_R1 s - pf_R0 s) / IZR N)) with (circle N (pf_R0 s) (pf_R1 s)) in H3.
        rewrite scheme_minus, H3, Hw2. unfold e.
        destruct (Z.eqb_spec l 0); [lia|]. destruct (Z.eqb_spec l N); [lia|]. destruct (Z.eqb_spec m 0); [lia|]. destruct (Z.eqb_spec m N); [lia|].
        apply Rminus_diag_eq. reflexivity. }
    pose proof (Z_div_mod_eq_full i (N + 1)) as Ed. pose proof (Z.mod_pos_bound i (N + 1) ltac:(lia)) as Bm.
    assert (Bd : (0 <= i / (N + 1) < N + 1)%Z) by (split; [apply Z.div_pos; lia|apply Z.div_lt_upper_bound; lia]).
    specialize (Hz (i / (N + 1))%Z (i mod (N + 1))%Z ltac:(split; cbn [fst snd]; lia)). unfold pf_at in Hz. fold N in Hz.
    replace (i / (N + 1) * (N + 1) + i mod (N + 1))%Z with i in Hz by lia. lra.
Qed.

Lemma contract_solves : forall spsolve s, spsolve_contract spsolve -> pf_ok s -> polar_trivial (pf_N s) (pf_R0 s) (pf_R1 s) (pf_a s) (pf_k s) ->
  Model_PolarFD.solves (assemble s) (spsolve (assemble s)).
Proof.
  intros spsolve s Hc Hok Ht. assert (HN : (1 <= pf_N s)%Z) by apply Hok. destruct (one_solution s Hok Ht) as (u & Hu & Hu').
  assert (Er : sy_row (assemble s) = ((pf_N s + 1) * (pf_N s + 1))%Z) by apply (assembled s HN).
  apply (solves_same s u); [exact Hok| |exact Hu]. intros i Hi. symmetry. apply (Hc _ u Hu); rewrite Er; [exact Hu'|exact Hi].
Qed.

(** ** Runs *)

Lemma run_fd_ok : forall fuel L p b acheat z1cheat attr N order z, zm_run fuel L p b acheat z1cheat attr N order = Ok z -> (1 <= N)%Z ->
  pf_ok (zr_fd z) /\ pf_N (zr_fd z) = N /\ pf_R0 (zr_fd z) = / 10 /\ pf_R1 (zr_fd z) = outer_radius b /\ pf_a (zr_fd z) = PI / 4 /\ pf_k (zr_fd z) = zp_k p.
Proof.
  intros fuel L p b acheat z1cheat attr N order z Hz HN. destruct (zm_run_inv _ _ _ _ _ _ _ _ _ _ Hz) as (_ & _ & Ef & _).
  destruct (outer_arc b) as [EA HR1]. pose proof PI_RGT_0. rewrite Ef. unfold zfd, zm_z_fd, pf_ok. cbn [pf_N pf_R0 pf_R1 pf_a pf_k]. rewrite EA. unfold zm_R0, pizza_a.
  repeat split; lra || lia.
Qed.

Lemma run_one_solution : forall fuel L s b acheat z1cheat attr N order z, (N = 16 \/ N = 32)%Z ->
  zm_run fuel L (sing_problem (zl_jv L) (zl_gamma L) s) b acheat z1cheat attr N order = Ok z ->
  exists u, Model_PolarFD.solves (assemble (zr_fd z)) u /\
    forall u', Model_PolarFD.solves (assemble (zr_fd z)) u' -> forall i, (0 <= i < (N + 1) * (N + 1))%Z -> u' i = u i.
Proof.
  intros fuel L s b acheat z1cheat attr N order z HN Hz. destruct (run_fd_ok _ _ _ _ _ _ _ _ _ _ Hz ltac:(lia)) as (Hok & E1 & E2 & E3 & E4 & E5).
  pose proof (one_solution (zr_fd z) Hok) as Q. rewrite E1, E2, E3, E4, E5 in Q. apply Q. apply grids_trivial. exact HN.
Qed.

Lemma grid_stable : forall jv gamma s b N, (N = 16 \/ N = 32)%Z ->
  exists sigma, 0 <= sigma /\ polar_stable N (/ 10) (outer_radius b) (PI / 4) (zp_k (sing_problem jv gamma s)) sigma.
Proof. intros jv gamma s b N HN. apply stable_exists; [lia|]. apply grids_trivial. exact HN. Qed.

Lemma grid_run : forall jv gamma s b, gamma_like gamma -> (forall p, 0 < p -> bessel_series jv gamma p) ->
  let p := sing_problem jv gamma s in
  let R1 := outer_radius b in
  let z1 := fun th => zp_eval_v p R1 th - (zp_g p R1 th + zm_q (zp_k p) (PI / 4) (zp_g p) R1 th) in
  let g1 := / Rabs (gamma (9 / 7)) in let g3 := / Rabs (gamma (13 / 7)) in
  exists K, 0 <= K /\ forall fuel L z1cheat N order z sigma d, zl_jv L = jv -> zl_gamma L = gamma ->
    odeint_contract (zl_odeint L) -> spsolve_contract (zl_spsolve L) -> (N = 16 \/ N = 32)%Z ->
    zm_run fuel L p b false z1cheat (Some None) N order = Ok z ->
    polar_stable N (/ 10) R1 (PI / 4) (zp_k p) sigma ->
    (forall th, PI / 4 <= th <= 2 * PI ->
       Rabs (z1 th - rsum 7 (fun m => sine_coef (PI / 4) z1 m * sin (mode_freq (PI / 4) m * (th - PI / 4)))) <= d) ->
    let hr := (R1 - / 10) / IZR N in let hth := 7 * PI / 4 / IZR N in
    let D := sigma * (K * (hr ^ 4 + hth ^ 4) + d + rsum 7 (coef_error s (zp_k p) R1 g1 g3 z1cheat) + / 10 ^ 18 * wedge_sum s g1 g3) in
    (forall m l, (0 <= m <= N)%Z -> (0 <= l <= N)%Z ->
      Cmod (Cminus (zr_v z m l) (RtoC (zp_eval_v p (/ 10 + IZR m * hr) (PI / 4 + IZR l * hth)))) <= D) /\
    zr_v_error z <= 2 * D.
Proof.
  intros jv gamma s b Hg Hj p R1 z1 g1 g3. destruct (table_bound jv gamma s b Hg Hj) as (K & HK & T). exists K. split; [exact HK|].
  intros fuel L z1cheat N order z sigma d EJ EG Ho Hc HN Hz Hst Hd hr hth D.
  destruct (run_fd_ok _ _ _ _ _ _ _ _ _ _ Hz ltac:(lia)) as (Hok & E1 & E2 & E3 & E4 & E5).
  assert (Hs : Model_PolarFD.solves (assemble (zr_fd z)) (zl_spsolve L (assemble (zr_fd z)))).
  { apply contract_solves; [exact Hc|exact Hok|]. rewrite E1, E2, E3, E4, E5. apply grids_trivial. exact HN. }
  assert (He : forall m, (m < 7)%nat -> Rabs (nth m (zr_z1 z) 0 - sine_coef (PI / 4) z1 m) <= coef_error s (zp_k p) R1 g1 g3 z1cheat m).
  { intros m Hm. unfold coef_error. cbv zeta. subst jv gamma. destruct z1cheat.
    - exact (cheat_accurate fuel L s b false (Some None) N order z m Hg Hj Hz Hm).
    - exact (run_accurate fuel L s b false N order z m Hg Hj Ho Hz Hm). }
  assert (B := T fuel L z1cheat (Some None) N order z sigma d _ EJ EG Hz ltac:(lia) Hs Hst Hd He). cbv zeta in B.
  split; [exact B|]. apply (table_error fuel L p b z1cheat (Some None) N order z D Hz ltac:(lia)). exact B.
Qed.
