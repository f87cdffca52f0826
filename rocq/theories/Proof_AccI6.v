(** Accuracy of the extension with a source term on the five curves (C85). *)
From Coq Require Import ZArith List Bool Reals Lra Lia Psatz.
From Coquelicot Require Import Coquelicot.
From Verif Require Import Model_Py Model_Multivalue Model_Grid Model_Domain Model_Chebyshev Model_Ext Model_Extend Model_Problems Model_Program
  Spec_Grid Spec_Domain Spec_Chebyshev Spec_PS Spec_Ext Spec_Extend Spec_Inhomo Spec_Program Spec_Curve Spec_Accuracy
  Lib_Sm Proof_Grid Proof_Domain Proof_Ext Proof_Ext2 Proof_Extend Proof_Linear Proof_Extend2 Proof_Smooth Proof_Gentle Proof_CurvePlace Proof_CurveRun Proof_CurveFill
  Proof_Acc2 Proof_Acc3 Proof_Acc5 Proof_Acc6 Proof_Acc7 Proof_AccI1 Proof_AccI2 Proof_AccI3 Proof_AccI5.
Import ListNotations.
Open Scope R_scope.

Local Notation curve b := (boundary_r b (23 / 10) None (PI / 4)).

(** The derivatives of a function are determined by it. *)
Lemma family_unique_n : forall m D D', partials plane m D -> partials plane m D' -> (forall x y, D 0%nat 0%nat x y = D' 0%nat 0%nat x y) ->
  forall i j x y, (i + j <= m)%nat -> D i j x y = D' i j x y.
Proof.
  intros m D D' HD HD' H0 i j. remember (i + j)%nat as n eqn:En. revert i j En. induction n as [|n IH]; intros i j En x y Hn.
  - replace i with 0%nat by lia. replace j with 0%nat by lia. apply H0.
  - assert (Step : forall i' j', n = (i' + j')%nat -> D (S i') j' x y = D' (S i') j' x y /\ D i' (S j') x y = D' i' (S j') x y).
    { intros i' j' E. destruct (HD i' j' x y ltac:(lia) I) as [A1 A2]. destruct (HD' i' j' x y ltac:(lia) I) as [B1 B2].
      apply differentiable_pt_lim_unique in A1, A2, B1, B2. destruct A1 as [A1 A1'], A2 as [A2 A2'], B1 as [B1 B1'], B2 as [B2 B2'].
      split; apply injective_projections.
      - rewrite <- A1, <- B1. apply Derive_ext. intros t. rewrite (IH i' j' E) by lia. reflexivity.
      - rewrite <- A2, <- B2. apply Derive_ext. intros t. rewrite (IH i' j' E) by lia. reflexivity.
      - rewrite <- A1', <- B1'. apply Derive_ext. intros t. rewrite (IH i' j' E) by lia. reflexivity.
      - rewrite <- A2', <- B2'. apply Derive_ext. intros t. rewrite (IH i' j' E) by lia. reflexivity. }
    destruct i as [|i]; [|apply (Step i j); lia]. destruct j as [|j]; [lia|]. apply (Step 0%nat j). lia.
Qed.

(** The source of the equation solved by [D]. *)
Definition src_fam (k : R) (D : nat -> nat -> R -> R -> C) (i j : nat) (x y : R) : C :=
  Cplus (Cplus (D (S (S i)) j x y) (D i (S (S j)) x y)) (Cmult (RtoC (k ^ 2)) (D i j x y)).

Lemma dpl_comb : forall f g u x y a b a' b' c d (q : R), differentiable_pt_lim f x y a b -> differentiable_pt_lim g x y a' b' -> differentiable_pt_lim u x y c d ->
  differentiable_pt_lim (fun v w => f v w + g v w + q * u v w) x y (a + a' + q * c) (b + b' + q * d).
Proof. intros f g u x y a b a' b' c d q Hf Hg Hu. exact (dpl_sum _ _ _ _ _ _ _ _ (dpl_sum _ _ _ _ _ _ _ _ Hf Hg) (dpl_scal q _ _ _ _ _ Hu)). Qed.

Lemma src_fam_partials : forall k D, partials plane 6 D -> partials plane 4 (src_fam k D).
Proof.
  intros k D HD i j x y Hij _.
  destruct (HD (S (S i)) j x y ltac:(lia) I) as [A1 A2]. destruct (HD i (S (S j)) x y ltac:(lia) I) as [B1 B2]. destruct (HD i j x y ltac:(lia) I) as [C1 C2].
  split.
  - pose proof (dpl_comb _ _ _ x y _ _ _ _ _ _ (k ^ 2) A1 B1 C1) as Q.
    apply (differentiable_pt_lim_ext _ (fun u v => fst (src_fam k D i j u v))) in Q.
    + replace (fst (src_fam k D (S i) j x y)) with (fst (D (S (S (S i))) j x y) + fst (D (S i) (S (S j)) x y) + k ^ 2 * fst (D (S i) j x y)) by (unfold src_fam, Cplus, Cmult, RtoC; cbn [fst snd]; ring).
      replace (fst (src_fam k D i (S j) x y)) with (fst (D (S (S i)) (S j) x y) + fst (D i (S (S (S j))) x y) + k ^ 2 * fst (D i (S j) x y)) by (unfold src_fam, Cplus, Cmult, RtoC; cbn [fst snd]; ring).
      exact Q.
    + exists (mkposreal 1 Rlt_0_1). intros u v _ _. unfold src_fam, Cplus, Cmult, RtoC; cbn [fst snd]; ring.
  - pose proof (dpl_comb _ _ _ x y _ _ _ _ _ _ (k ^ 2) A2 B2 C2) as Q.
    apply (differentiable_pt_lim_ext _ (fun u v => snd (src_fam k D i j u v))) in Q.
    + replace (snd (src_fam k D (S i) j x y)) with (snd (D (S (S (S i))) j x y) + snd (D (S i) (S (S j)) x y) + k ^ 2 * snd (D (S i) j x y)) by (unfold src_fam, Cplus, Cmult, RtoC; cbn [fst snd]; ring).
      replace (snd (src_fam k D i (S j) x y)) with (snd (D (S (S i)) (S j) x y) + snd (D i (S (S (S j))) x y) + k ^ 2 * snd (D i (S j) x y)) by (unfold src_fam, Cplus, Cmult, RtoC; cbn [fst snd]; ring).
      exact Q.
    + exists (mkposreal 1 Rlt_0_1). intros u v _ _. unfold src_fam, Cplus, Cmult, RtoC; cbn [fst snd]; ring.
Qed.

Lemma src_fam_bound : forall k D M i j x y, square_bound D M -> (i + j <= 4)%nat -> Rabs x <= PI -> Rabs y <= PI ->
  Cmod (src_fam k D i j x y) <= (2 + k ^ 2) * M.
Proof.
  intros k D M i j x y [HM HB] Hij Hx Hy. unfold src_fam.
  eapply Rle_trans; [apply Cmod_triangle|]. pose proof (Cmod_triangle (D (S (S i)) j x y) (D i (S (S j)) x y)).
  rewrite Cmod_mult, Cmod_R, (Rabs_pos_eq (k ^ 2)) by apply pow2_ge_0.
  pose proof (HB (S (S i)) j x y ltac:(lia) Hx Hy). pose proof (HB i (S (S j)) x y ltac:(lia) Hx Hy).
  assert (k ^ 2 * Cmod (D i j x y) <= k ^ 2 * M) by (apply Rmult_le_compat_l; [apply pow2_ge_0|apply HB; (lia || assumption)]). lra.
Qed.

(** Replacing the derivatives of the source by those of the equation. *)
Lemma source_same : forall s F F' Q, (forall i j x y, (i + j <= 2)%nat -> F i j x y = F' i j x y) -> source_of s F Q -> source_of s F' Q.
Proof.
  intros s F F' Q E (A & B & C & D & G). split; [intros x y; rewrite A; apply E; lia|]. split; [|split; [|split; [exact D|]]].
  - intros x y H. specialize (B x y H). unfold cart_source in *. rewrite <- !E by lia. exact B.
  - intros r th H. specialize (C r th H). unfold polar_source in *. cbv zeta in *. rewrite <- !E by lia. exact C.
  - intros r th H. rewrite <- E by lia. apply G, H.
Qed.

Lemma curve_source_accuracy : forall r k, gentle r -> good_curve r -> exists K, 0 <= K /\ forall brentq order c D F Q un M eps,
  brentq_contract brentq -> (order = 2 \/ order = 4)%Z -> curve_solver brentq order r c -> ec_k c = k ->
  ec_homogeneous c = false -> Spec_Curve.off_curve r (ec_N c) -> source_of (ec_src c) F Q ->
  partials plane 6 D -> partials plane 2 F -> helmholtz plane k D F -> square_bound D M -> normal_trace r (PI / 4) D un -> 0 <= eps ->
  fits (23 / 10) (PI / 4) (ec_B c) (ec_c0 c) (value_trace r (PI / 4) D) eps -> fits (23 / 10) (PI / 4) (ec_B c) (ec_c1 c) un eps ->
  forall sid e p, (sid < 3)%nat -> In p (ec_gamma c sid) -> node_etype c sid p = Ok e ->
  exists len v len' w, do_extend c SrcCoef sid e p = Ok (len, v) /\ do_extend_inhomo c sid e p = Ok (len', w) /\
    Cmod (Cminus (Cplus v w) (D 0%nat 0%nat (fst (ctx_coord c p)) (snd (ctx_coord c p)))) <= K * (eps + M * (2 * PI / IZR (ec_N c)) ^ 5).
Proof.
  intros r k Hr Hg. destruct (curve_accuracy_src r k Hr Hg) as (K & HK & Acc). destruct (src_accuracy r Hr Hg k) as (K' & HK' & Acc').
  exists (K + K' * (2 + k ^ 2)). pose proof (pow2_ge_0 k) as Pk.
  assert (P2 : 0 <= K' * (2 + k ^ 2)) by (apply Rmult_le_pos; lra). split; [lra|].
  intros brentq order c D F Q un M eps Hb Ho Hc Ek Hhom Hoff Hs HD HF PDE HB Hun He F0 F1 sid e p Hsid Hp Het.
  pose proof (src_fam_partials k D HD) as HS.
  assert (HS2 : partials plane 2 (src_fam k D)) by (intros i j x y Hij H; apply HS; [lia|exact H]).
  assert (HS3 : partials all_plane 3 (src_fam k D)) by (intros i j x y Hij H; apply HS; [lia|exact I]).
  assert (E : forall i j x y, (i + j <= 2)%nat -> F i j x y = src_fam k D i j x y).
  { apply (family_unique_n 2); try assumption. intros x y. symmetry. exact (PDE x y I). }
  assert (PDE' : helmholtz plane k D (src_fam k D)) by (intros x y _; reflexivity).
  destruct (Acc brentq order c D (src_fam k D) un M eps Hb Ho Hc Ek HD HS2 PDE' HB Hun He F0 F1 sid e p Hsid Hp Het) as (len & v & n & t & Ev & Hbs & Hv).
  destruct (Acc' sid Hsid brentq order c (src_fam k D) Q ((2 + k ^ 2) * M) Hb Ho Hc Ek Hhom Hoff (source_same _ _ _ _ E Hs) HS3) with (e := e) (p := p) (n := n) (t := t) as (len' & w & Ew & Hw); try assumption.
  { apply Rmult_le_pos; [lra|apply HB]. }
  { intros i j x y Hij Hd. destruct (disc_square x y Hd). apply src_fam_bound; [exact HB|lia|assumption|assumption]. }
  exists len, v, len', w. split; [exact Ev|]. split; [exact Ew|].
  set (z := D 0%nat 0%nat _ _) in *. set (ws := wsrc r k (src_fam k D) sid n t) in *.
  replace (Cminus (Cplus v w) z) with (Cplus (Cminus (Cplus v ws) z) (Cminus w ws)) by ring.
  eapply Rle_trans; [apply Cmod_triangle|]. set (h5 := (2 * PI / IZR (ec_N c)) ^ 5) in *.
  assert (0 <= K' * (2 + k ^ 2) * eps) by (apply Rmult_le_pos; assumption).
  replace (K' * ((2 + k ^ 2) * M * h5)) with (K' * (2 + k ^ 2) * (M * h5)) in Hw by ring.
  rewrite Rmult_plus_distr_r. rewrite (Rmult_plus_distr_l (K' * (2 + k ^ 2))). lra.
Qed.

Lemma curve_source_boundary : forall r k, gentle r -> good_curve r -> exists K, 0 <= K /\ forall brentq order c D F Q un M eps,
  brentq_contract brentq -> (order = 2 \/ order = 4)%Z -> curve_solver brentq order r c -> ctx_wf c -> ec_k c = k ->
  ec_homogeneous c = false -> Spec_Curve.off_curve r (ec_N c) -> source_of (ec_src c) F Q ->
  partials plane 6 D -> partials plane 2 F -> helmholtz plane k D F -> square_bound D M -> normal_trace r (PI / 4) D un -> 0 <= eps ->
  fits (23 / 10) (PI / 4) (ec_B c) (ec_c0 c) (value_trace r (PI / 4) D) eps -> fits (23 / 10) (PI / 4) (ec_B c) (ec_c1 c) un eps ->
  exists e, extend_boundary c SrcCoef false = Ok e /\ length e = length (ec_union c) /\
    forall l p, nth_error (ec_union c) l = Some p ->
      Cmod (Cminus (as_vec e l) (D 0%nat 0%nat (fst (ctx_coord c p)) (snd (ctx_coord c p)))) <= K * (eps + M * (2 * PI / IZR (ec_N c)) ^ 5).
Proof.
  intros r k Hr Hg. destruct (curve_source_accuracy r k Hr Hg) as (K & HK & Acc). exists K. split; [exact HK|].
  intros brentq order c D F Q un M eps Hb Ho Hc Hwf Ek Hhom Hoff Hs HD HF PDE HB Hun He F0 F1.
  set (z := fun p => D 0%nat 0%nat (fst (ctx_coord c p)) (snd (ctx_coord c p))).
  assert (L0 : length (ec_c0 c) = length (ec_B c)) by apply F0. assert (L1 : length (ec_c1 c) = length (ec_B c)) by apply F1.
  assert (Hv : forall sid p, (sid < 3)%nat -> In p (ec_gamma c sid) -> node_etype c sid p = Ok (node_et c sid p) /\
     do_extend c SrcCoef sid (node_et c sid p) p = Ok (node_va (do_extend c SrcCoef) c sid p) /\
     do_extend_inhomo c sid (node_et c sid p) p = Ok (node_va (do_extend_inhomo c) c sid p) /\
     Cmod (Cminus (Cplus (snd (node_va (do_extend c SrcCoef) c sid p)) (snd (node_va (do_extend_inhomo c) c sid p))) (z p)) <= K * (eps + M * (2 * PI / IZR (ec_N c)) ^ 5)).
  { intros sid p H3 Hp. destruct (node_linear c sid p Hwf H3 Hp) as (e & elen & v0 & v1 & Ee & _).
    assert (Et : node_et c sid p = e) by (unfold node_et; rewrite Ee; reflexivity). 
    destruct (Acc brentq order c D F Q un M eps Hb Ho Hc Ek Hhom Hoff Hs HD HF PDE HB Hun He F0 F1 sid e p H3 Hp Ee) as (len & v & len' & w & Ev & Ew & Hvw).
    unfold node_va. rewrite Et, Ev, Ew. split; [exact Ee|]. split; [reflexivity|]. split; [reflexivity|exact Hvw]. }
  assert (Hf : extend_inhomo_f c = Ok (map (fun p => mean (fun s => snd (node_va (do_extend_inhomo c) c s p)) (sids c p)) (ec_union c))).
  { unfold extend_inhomo_f, mv_extend_inhomo_f. apply (extend_reduce c (do_extend_inhomo c) (node_et c) (node_va (do_extend_inhomo c) c) Hwf).
    intros sid p H3 Hp. destruct (Hv sid p H3 Hp) as (A & _ & B & _). auto. }
  destruct (extend_inhomogeneous c _ Hwf L0 L1 Hf) as (e & Ee & Le & He').
  destruct (extend_homogeneous c true Hwf (or_introl eq_refl) L0 L1) as (e1 & Ee1 & _ & He1).
  assert (Eb : extend_boundary c SrcCoef true = Ok (map (fun p => mean (fun s => snd (node_va (do_extend c SrcCoef) c s p)) (sids c p)) (ec_union c))).
  { rewrite <- (extend_reduce c (do_extend c SrcCoef) (node_et c) (node_va (do_extend c SrcCoef) c) Hwf).
    - unfold extend_boundary, mv_extend_boundary. destruct (mv_extend c (do_extend c SrcCoef)); [|reflexivity]. cbn [bind orb]. rewrite orb_true_r. reflexivity.
    - intros sid p H3 Hp. destruct (Hv sid p H3 Hp) as (A & B & _). auto. }
  rewrite Ee1 in Eb. injection Eb as Eb.
  exists e. split; [exact Ee|]. split; [exact Le|]. intros l p El.
  assert (Hl : (l < length (ec_union c))%nat) by (apply nth_error_Some; congruence).
  rewrite He' by exact Hl. unfold bd_ext. rewrite <- He1 by exact Hl.
  assert (Nth : forall f, as_vec (map f (ec_union c)) l = f p).
  { intros f. unfold as_vec. rewrite (nth_indep _ _ (f p)) by (rewrite map_length; exact Hl). rewrite map_nth, (nth_error_nth _ _ p El). reflexivity. }
  rewrite Eb, !Nth, <- mean_plus. fold (z p). apply mean_near.
  - rewrite sids_length. apply Hwf. eapply nth_error_In; exact El.
  - intros s Hs3. destruct (sids_in c p s Hs3) as [S1 S2]. apply (Hv s p S1 S2).
Qed.

(** ** On the five curves *)

Lemma source_node : forall b k, exists K, 0 <= K /\ forall brentq order c D F Q un M eps,
  brentq_contract brentq -> (order = 2 \/ order = 4)%Z -> curve_solver brentq order (curve b) c -> ec_k c = k ->
  ec_homogeneous c = false -> off_curve (curve b) (ec_N c) -> source_of (ec_src c) F Q ->
  partials plane 6 D -> partials plane 2 F -> helmholtz plane k D F -> square_bound D M -> normal_trace (curve b) (PI / 4) D un -> 0 <= eps ->
  fits (23 / 10) (PI / 4) (ec_B c) (ec_c0 c) (value_trace (curve b) (PI / 4) D) eps -> fits (23 / 10) (PI / 4) (ec_B c) (ec_c1 c) un eps ->
  forall sid e p, (sid < 3)%nat -> In p (ec_gamma c sid) -> node_etype c sid p = Ok e ->
  exists len v len' w, do_extend c SrcCoef sid e p = Ok (len, v) /\ do_extend_inhomo c sid e p = Ok (len', w) /\
    Cmod (Cminus (Cplus v w) (D 0%nat 0%nat (fst (ctx_coord c p)) (snd (ctx_coord c p)))) <= K * (eps + M * (2 * PI / IZR (ec_N c)) ^ 5).
Proof. intros b k. exact (curve_source_accuracy (curve b) k (curves_gentle b) (curves_good b)). Qed.

Lemma source_boundary : forall b k, exists K, 0 <= K /\ forall brentq order c D F Q un M eps,
  brentq_contract brentq -> (order = 2 \/ order = 4)%Z -> curve_solver brentq order (curve b) c -> ctx_wf c -> ec_k c = k ->
  ec_homogeneous c = false -> off_curve (curve b) (ec_N c) -> source_of (ec_src c) F Q ->
  partials plane 6 D -> partials plane 2 F -> helmholtz plane k D F -> square_bound D M -> normal_trace (curve b) (PI / 4) D un -> 0 <= eps ->
  fits (23 / 10) (PI / 4) (ec_B c) (ec_c0 c) (value_trace (curve b) (PI / 4) D) eps -> fits (23 / 10) (PI / 4) (ec_B c) (ec_c1 c) un eps ->
  exists e, extend_boundary c SrcCoef false = Ok e /\ length e = length (ec_union c) /\
    forall l p, nth_error (ec_union c) l = Some p ->
      Cmod (Cminus (as_vec e l) (D 0%nat 0%nat (fst (ctx_coord c p)) (snd (ctx_coord c p)))) <= K * (eps + M * (2 * PI / IZR (ec_N c)) ^ 5).
Proof. intros b k. exact (curve_source_boundary (curve b) k (curves_gentle b) (curves_good b)). Qed.
