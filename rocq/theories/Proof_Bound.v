(** Error bound of the solver. *)
From Coq Require Import ZArith List Bool Reals Lia Lra.
From Coquelicot Require Import Coquelicot.
From Verif Require Import Model_Py Model_Multivalue Model_Grid Model_Fourier Model_Linop Model_PS Model_Extend Model_Run
  Lib_Csum Proof_Linear Proof_Extend2 Proof_Inhomo Spec_Abcoef Spec_Grid Spec_PS Spec_Extend Spec_Run Spec_Bound
  Proof_Fourier Proof_PS Proof_Abcoef Proof_Lstsq Proof_Run Proof_Ode Proof_Norm.
Import ListNotations.
Open Scope R_scope.

Section Solver.
Context (s : ps_solver) (U : ps_usable s) (delta : R) (Hd : 0 < delta).
Context (Hgap : forall j l, (1 <= j <= ps_N s - 1)%Z -> (1 <= l <= ps_N s - 1)%Z ->
  delta <= Rabs (eigenval (ps_N s) (ps_order s) (ps_AD_len s) (ps_k s) j l)).
Let N := ps_N s.
Let n := length (ps_gamma s).
Let Lam := ps_k s ^ 2 + 8 / (ps_AD_len s / IZR N) ^ 2.

Lemma Lam_pos : 0 <= Lam.
Proof using U.
  unfold Lam. pose proof (us_N s U) as HN. pose proof (us_L s U) as HL. fold N in HN.
  assert (0 < (ps_AD_len s / IZR N) ^ 2).
  { rewrite <- Rsqr_pow2. apply Rsqr_pos_lt. apply Rmult_integral_contrapositive_currified; [exact HL|]. apply Rinv_neq_0_compat, not_0_IZR. lia. }
  pose proof (pow2_ge_0 (ps_k s)). assert (0 < / (ps_AD_len s / IZR N) ^ 2) by (apply Rinv_0_lt_compat; assumption). unfold Rdiv at 1. lra.
Qed.

Lemma trace_norm : forall A tr, is_trace s A tr -> sqrt (sq n tr) <= sqrt (gsq N A).
Proof using U.
  intros A tr Ht. apply sqrt_le_1_alt. replace (sq n tr) with (fsum N (ps_gamma s) A).
  - apply fsum_le; [apply (us_gam s U)|]. apply (us_inside s U).
  - apply fsum_rsum. intros m i j E. symmetry. apply Ht. exact E.
Qed.

Lemma solve_T : forall T, sqrt (gsq N (ps_solve_ap s T)) <= sqrt (gsq N T) / delta.
Proof using U Hd Hgap. intros T. apply solve_norm; [apply (us_N s U)|apply (us_L s U)|exact Hd|exact Hgap]. Qed.

Lemma potential_norm : forall d P, get_potential s d = Ok P -> sqrt (gsq N P) <= (1 + Lam / delta) * sqrt (sq n d).
Proof using U Hd Hgap.
  intros d P EP. destruct (potential_struct s U d) as (w & G & P' & EP' & H1 & H2 & H3 & H4 & EPs).
  assert (EQ : P = P') by congruence. rewrite EQ, EPs. fold N in H1, H2, H3, H4.
  assert (Ew : gsq N w = sq n d).
  { rewrite (fsum_eq N (ps_gamma s) w); [apply fsum_rsum; intros m i j E; apply H1; exact E|apply (us_gam s U)|apply (us_inside s U)|].
    intros i j _ Hn. apply H2. exact Hn. }
  assert (EG : sqrt (gsq N G) <= Lam * sqrt (sq n d)).
  { rewrite <- Ew. eapply Rle_trans; [|apply (apply_norm N (ps_order s) (ps_AD_len s) (ps_k s) (us_N s U) (us_L s U) Lam w Lam_pos)].
    - apply sqrt_le_1_alt. apply gsq_le. intros i j Hi Hj.
      assert (Ho : in_open_grid N (i + 1, j + 1)%Z) by (split; cbn; lia).
      assert (EI : forall B : arr2, node_value N B (i + 1) (j + 1) = B i j) by (intros B; rewrite node_value_in by exact Ho; rewrite !Z.add_simpl_r; reflexivity).
      destruct (in_or_out s (i + 1, j + 1)%Z Ho) as [Hin|Hout].
      + specialize (H4 _ _ Hin). rewrite EI in H4. rewrite H4, <- (apply_L_fd s U w _ _ Ho). fold N. rewrite EI. apply Rle_refl.
      + specialize (H3 _ _ Hout). rewrite EI in H3. rewrite H3, Cmod_0. apply Cmod_ge_0.
    - intros j l _ _. apply eig_upper; [apply (us_N s U)|apply (us_L s U)|apply (us_ord s U)]. }
  eapply Rle_trans; [apply (gsq_tri N w (ps_solve_ap s G))|].
  - intros i j _ _. unfold arr_sub. eapply Rle_trans; [apply Cmod_triangle|]. rewrite Cmod_opp. apply Rle_refl.
  - rewrite Ew. pose proof (solve_T G) as HG. assert (Hi : 0 < / delta) by (apply Rinv_0_lt_compat; exact Hd).
    apply Rle_trans with (sqrt (sq n d) + Lam * sqrt (sq n d) / delta); [|apply Req_le; field; lra].
    apply Rplus_le_compat_l. eapply Rle_trans; [exact HG|]. unfold Rdiv. apply Rmult_le_compat_r; [lra|exact EG].
Qed.

Lemma node_norm : forall A i j, Cmod (node_value N A i j) <= sqrt (gsq N A).
Proof using Type.
  intros A i j. destruct (open_dec N i j) as [Ho|Ho].
  - rewrite node_value_in by exact Ho. destruct Ho as [Hi Hj]. cbn [fst snd] in *.
    rewrite <- (sqrt_pow2 (Cmod _)) by apply Cmod_ge_0. apply sqrt_le_1_alt. apply gsq_term; lia.
  - rewrite node_value_out by exact Ho. rewrite Cmod_0. apply sqrt_pos.
Qed.

(** Computed minus given grid function: the potential of the boundary
    difference, less the solution for the residual. *)
Lemma error_split : forall f A e v u eta, 0 <= eta -> calc_ap_sol_f s f = Ok A -> ps_u_act s e A = Ok u ->
  (forall i j, inside_node s (i, j) -> Cmod (Cminus (fd_L s v i j) (lin_apply_B f i j)) <= eta) ->
  exists tv d P g, is_trace s v tv /\ d = (fun l => Cminus (e l) (tv l)) /\ get_potential s d = Ok P /\
    sqrt (gsq N g) <= (IZR N - 1) * eta / delta /\
    forall i j, reached s (i, j) -> Cminus (node_value N u i j) (node_value N v i j) = Cminus (node_value N P i j) (node_value N g i j).
Proof using U Hd Hgap.
  intros f A e v u eta He EA Eu Hv.
  set (T := fun i j : Z => if ps_interior s (i + 1) (j + 1) then Cminus (fd_L s v (i + 1) (j + 1)) (lin_apply_B f (i + 1) (j + 1)) else RtoC 0).
  set (g := ps_solve_ap s T).
  assert (ET : forall i j, in_open_grid N (i, j) -> node_value N T i j = if ps_interior s i j then Cminus (fd_L s v i j) (lin_apply_B f i j) else RtoC 0).
  { intros i j Ho. rewrite node_value_in by exact Ho. unfold T. rewrite !Z.sub_add. reflexivity. }
  assert (Lg : forall i j, in_open_grid N (i, j) -> fd_L s g i j = node_value N T i j) by (intros; apply (fd_L_solve s U); assumption).
  destruct (trace_spec s U v) as (tv & _ & Htv). destruct (trace_spec s U g) as (tg & _ & Htg).
  destruct (trace_spec s U (arr_sub v g)) as (tw & _ & Htw).
  destruct (reproduces s U f A tw (arr_sub v g) EA) as (u' & Eu' & Hu').
  { intros i j Hin. rewrite (fd_L_sub s), Lg by apply Hin. rewrite ET by apply Hin. destruct Hin as [_ Hin]. cbn [fst snd] in Hin. rewrite Hin. ring. }
  { exact Htw. }
  destruct (projection_exterior s U g tg) as (Pg & EPg & HPg).
  { intros i j Hout. rewrite Lg, ET by apply Hout. destruct Hout as [_ Hout]. cbn [fst snd] in Hout. rewrite Hout. reflexivity. }
  { exact Htg. }
  set (d := fun l => Cminus (e l) (tv l)). destruct (potential_L s U d) as (P & _ & EP & _).
  exists tv, d, P, g. split; [exact Htv|]. split; [reflexivity|]. split; [exact EP|]. split.
  { eapply Rle_trans; [apply solve_T|]. unfold Rdiv. apply Rmult_le_compat_r; [left; apply Rinv_0_lt_compat; exact Hd|].
    apply gsq_const; [apply (us_N s U)|exact He|]. intros i j Hi Hj. assert (Ho : in_open_grid N (i + 1, j + 1)%Z) by (split; cbn; lia).
    unfold T. destruct (ps_interior s (i + 1) (j + 1)) eqn:E; [|rewrite Cmod_0; exact He]. apply Hv. split; assumption. }
  (* e = d + tg + tw on the boundary *)
  unfold ps_u_act in Eu, Eu'. destruct (get_potential s e) as [Pe|] eqn:EPe; [|discriminate]. cbn [bind] in Eu.
  destruct (get_potential s tw) as [Pw|] eqn:EPw; [|discriminate]. cbn [bind] in Eu'.
  injection Eu as Eu. injection Eu' as Eu'.
  destruct (potential_lin s U (RtoC 1) tg tw Pg Pw EPg EPw) as (Pa & EPa & HPa).
  destruct (potential_lin s U (RtoC 1) d _ P Pa EP EPa) as (Pb & EPb & HPb).
  assert (Hsub : forall X Y i j, node_value N (arr_sub X Y) i j = Cminus (node_value N X i j) (node_value N Y i j)).
  { intros X Y i j. destruct (open_dec N i j); [rewrite !node_value_in by assumption; reflexivity|rewrite !node_value_out by assumption; ring]. }
  assert (Hadd : forall X Y i j, node_value N (arr_add X Y) i j = Cplus (node_value N X i j) (node_value N Y i j)).
  { intros X Y i j. destruct (open_dec N i j); [rewrite !node_value_in by assumption; reflexivity|rewrite !node_value_out by assumption; ring]. }
  destruct (potential_ext_eq s U (fun l => Cplus (Cmult (RtoC 1) (d l)) (Cplus (Cmult (RtoC 1) (tg l)) (tw l))) e Pb) as (P2 & EP2 & HP2).
  { intros l Hl. destruct (nth_error (ps_gamma s) l) as [[i j]|] eqn:E; [|apply nth_error_None in E; lia].
    unfold d. rewrite (Htv l i j E), (Htg l i j E), (Htw l i j E). fold N. rewrite Hsub. ring. }
  { exact EPb. }
  rewrite EPe in EP2. injection EP2 as <-.
  intros i j Hr. specialize (Hu' i j Hr). fold N in Hu'. rewrite Hsub, <- Eu', Hadd in Hu'.
  rewrite <- Eu, Hadd, (node_value_ext _ _ _ HP2), (node_value_ext _ _ _ HPb).
  rewrite (node_value_lin s), (node_value_ext _ _ _ HPa), (node_value_lin s), (node_value_ext _ _ _ HPg). fold N.
  replace (node_value N (fun i0 j0 => if reachedb s (i0 + 1, j0 + 1)%Z then RtoC 0 else Copp (g i0 j0)) i j) with (RtoC 0).
  - replace (node_value N v i j) with (Cplus (Cplus (node_value N Pw i j) (node_value N A i j)) (node_value N g i j)) by (rewrite Hu'; ring). ring.
  - symmetry. destruct (open_dec N i j) as [Ho|Ho]; [|apply node_value_out; exact Ho]. rewrite node_value_in by exact Ho. rewrite !Z.sub_add.
    apply (reachedb_spec s U) in Hr. rewrite Hr. reflexivity.
Qed.
End Solver.

Section Run.
Variables (lib : library) (o : options) (st : ps_state) (delta : R).
Hypothesis Hl : enumerating lib.
Hypothesis Ho : options_ok o.
Hypothesis Hi : ps_init lib o = Ok st.
Hypothesis Hgap : eig_gap o delta.
Let c := st_ctx st.
Let s := st_ps st.
Let A := st_ap st.
Let n := length (ps_gamma s).

Lemma ps_params : ps_N s = o_N o /\ ps_order s = o_order o /\ ps_AD_len s = o_AD o /\ ps_k s = o_k o.
Proof using Hi.
  unfold s. destruct (ps_init_inv lib o st Hi) as (nc & nr & c' & f & b & A' & _ & _ & _ & _ & ->). repeat split.
Qed.

Lemma st_gap : 0 < delta /\ forall j l, (1 <= j <= ps_N s - 1)%Z -> (1 <= l <= ps_N s - 1)%Z ->
  delta <= Rabs (eigenval (ps_N s) (ps_order s) (ps_AD_len s) (ps_k s) j l).
Proof using Hi Hgap. destruct ps_params as (-> & -> & -> & ->). exact Hgap. Qed.

Lemma gap_sq : forall v e tv, is_trace s v tv -> boundary_gap st v e = sq n (fun l => Cminus (as_vec e l) (tv l)).
Proof using Type.
  intros v e tv Ht. unfold boundary_gap. fold s. cbv zeta. apply rsum_ext. intros l Hlt.
  unfold nth_value. destruct (nth_error (ps_gamma s) l) as [[i j]|] eqn:E; [|apply nth_error_None in E; unfold n in Hlt; lia].
  rewrite <- (Ht l i j E). rewrite <- (Cmod_opp (Cminus (tv l) _)). do 2 f_equal. ring.
Qed.

Lemma gap_nonneg : forall v e, 0 <= boundary_gap st v e.
Proof using Type. intros. apply rsum_nonneg. intros. apply pow2_ge_0. Qed.

Lemma amp_eq : amplification o delta = 1 + (ps_k s ^ 2 + 8 / (ps_AD_len s / IZR (ps_N s)) ^ 2) / delta.
Proof using Hi. destruct ps_params as (-> & _ & -> & ->). reflexivity. Qed.

Lemma amp_pos : 1 <= amplification o delta.
Proof using Hl Ho Hi Hgap.
  rewrite amp_eq. destruct st_gap as [Hd _]. pose proof (Lam_pos s (st_usable lib o st Hl Ho Hi)) as H. 
  assert (0 < / delta) by (apply Rinv_0_lt_compat; exact Hd). unfold Rdiv at 1. nra.
Qed.

Variables (v : arr2) (eta : R).
Hypothesis Heta : 0 <= eta.
Hypothesis Hv : forall i j, o_inside o i j -> Cmod (Cminus (o_L o v i j) (lin_apply_B (st_f st) i j)) <= eta.

Lemma run_split : forall c0 c1 e u, candidate st c0 c1 e u -> exists d P g tv, is_trace s v tv /\
  (forall l, d l = Cminus (as_vec e l) (tv l)) /\ get_potential s d = Ok P /\ boundary_gap st v e = sq n d /\
  sqrt (gsq (ps_N s) P) <= amplification o delta * sqrt (boundary_gap st v e) /\
  sqrt (gsq (ps_N s) g) <= residual_part o delta eta /\
  forall i j, reached s (i, j) -> Cminus (node_value (ps_N s) u i j) (node_value (ps_N s) v i j) = Cminus (node_value (ps_N s) P i j) (node_value (ps_N s) g i j).
Proof using Hl Ho Hi Hgap Heta Hv.
  intros c0 c1 e u [_ Eu]. pose proof (st_usable lib o st Hl Ho Hi) as U. destruct st_gap as [Hd Hg].
  destruct (error_split s U delta Hd Hg (st_f st) A (as_vec e) v u eta Heta (st_f_A lib o st Hi) Eu) as (tv & d & P & g & Ht & Ed & EP & Eg & Hs).
  { intros i j Hin. rewrite <- (st_L lib o st Hi). apply Hv. apply (st_inside lib o st Hi). exact Hin. }
  assert (EB : boundary_gap st v e = sq n d) by (rewrite (gap_sq v e tv Ht), Ed; reflexivity).
  exists d, P, g, tv. split; [exact Ht|]. split; [intros l; rewrite Ed; reflexivity|]. split; [exact EP|]. split; [exact EB|]. split; [|split; [|exact Hs]].
  - rewrite amp_eq, EB. apply (potential_norm s U delta Hd Hg). exact EP.
  - unfold residual_part. destruct ps_params as (EN & _). rewrite <- EN. exact Eg.
Qed.

Lemma candidate_error : forall c0 c1 e u eps, 0 <= eps -> candidate st c0 c1 e u -> boundary_gap st v e <= eps ^ 2 ->
  forall i j, reached s (i, j) ->
  Cmod (Cminus (node_value (ps_N s) u i j) (node_value (ps_N s) v i j)) <= amplification o delta * eps + residual_part o delta eta.
Proof using Hl Ho Hi Hgap Heta Hv.
  intros c0 c1 e u eps Heps Hc Hb i j Hr. destruct (run_split c0 c1 e u Hc) as (d & P & g & tv & _ & _ & _ & _ & HP & Hg & Hs).
  rewrite (Hs i j Hr). eapply Rle_trans; [apply Cmod_triangle|]. rewrite Cmod_opp.
  pose proof (node_norm s P i j) as B1. pose proof (node_norm s g i j) as B2. pose proof amp_pos as Ha.
  assert (sqrt (boundary_gap st v e) <= eps) by (rewrite <- (sqrt_pow2 eps Heps); apply sqrt_le_1_alt; exact Hb).
  assert (amplification o delta * sqrt (boundary_gap st v e) <= amplification o delta * eps) by (apply Rmult_le_compat_l; lra). lra.
Qed.

Lemma gamma_reached_nth : forall l i j, nth_error (ps_gamma s) l = Some (i, j) -> reached s (i, j).
Proof using Hl Ho Hi.
  intros l i j E. pose proof (st_usable lib o st Hl Ho Hi) as U. apply (reachedb_spec s U), (gamma_reached s U). eapply nth_error_In. exact E.
Qed.

(** The gap of a candidate near a grid function with a small residual. *)
Lemma candidate_gap : forall c0 c1 e u eps, 0 <= eps -> candidate st c0 c1 e u -> boundary_gap st v e <= eps ^ 2 ->
  sqrt (boundary_gap st u e) <= (amplification o delta + 1) * eps + residual_part o delta eta.
Proof using Hl Ho Hi Hgap Heta Hv.
  intros c0 c1 e u eps Heps Hc Hb. pose proof (st_usable lib o st Hl Ho Hi) as U. destruct (run_split c0 c1 e u Hc) as (d & P & g & tv & Ht & Ed & EP & EB & HP & Hg & Hs).
  destruct (trace_spec s U u) as (tu & _ & Htu). destruct (trace_spec s U P) as (tP & _ & HtP). destruct (trace_spec s U g) as (tg & _ & Htg).
  rewrite (gap_sq u e tu Htu).
  assert (E : forall l, (l < n)%nat -> Cminus (as_vec e l) (tu l) = Cplus (d l) (Cminus (tg l) (tP l))).
  { intros l Hlt. destruct (nth_error (ps_gamma s) l) as [[i j]|] eqn:E; [|apply nth_error_None in E; unfold n in Hlt; lia].
    pose proof (Hs i j (gamma_reached_nth l i j E)) as K. rewrite Ed, (Htu l i j E), (HtP l i j E), (Htg l i j E), (Ht l i j E).
    replace (node_value (ps_N s) u i j) with (Cplus (node_value (ps_N s) v i j) (Cminus (node_value (ps_N s) u i j) (node_value (ps_N s) v i j))) by ring. rewrite K. ring. }
  assert (S1 : sqrt (sq n (fun l => Cminus (as_vec e l) (tu l))) <= sqrt (sq n d) + sqrt (sq n (fun l => Cminus (tg l) (tP l)))).
  { apply sq_tri. intros l Hlt. rewrite (E l Hlt). apply Cmod_triangle. }
  assert (S2 : sqrt (sq n (fun l => Cminus (tg l) (tP l))) <= sqrt (sq n tg) + sqrt (sq n tP)).
  { apply sq_tri. intros l _. eapply Rle_trans; [apply Cmod_triangle|]. rewrite Cmod_opp. apply Rle_refl. }
  pose proof (trace_norm s U g tg Htg) as S3. pose proof (trace_norm s U P tP HtP) as S4. fold n in S3, S4. rewrite <- EB in S1.
  pose proof amp_pos as Ha.
  assert (S5 : sqrt (boundary_gap st v e) <= eps) by (rewrite <- (sqrt_pow2 eps Heps); apply sqrt_le_1_alt; exact Hb).
  assert (amplification o delta * sqrt (boundary_gap st v e) <= amplification o delta * eps) by (apply Rmult_le_compat_l; lra). lra.
Qed.

Variable res : ps_result.
Hypothesis Hfit : fit_sizes lib.
Hypothesis Hwf : ctx_wf c.
Hypothesis Hr : ps_run lib o st = Ok res.
Hypothesis Hlsq : lstsq_contract lib st (res_c0 res).
Variables (c1' e' : list C) (eps : R).
Hypothesis L1' : length c1' = length (ec_B c).
Hypothesis He' : extend_boundary (with_basis c (ec_B c) (res_c0 res) c1') SrcCoef false = Ok e'.
Hypothesis Heps : 0 <= eps.
Hypothesis Hb' : boundary_gap st v e' <= eps ^ 2.
Let rho := (amplification o delta + 1) * eps + residual_part o delta eta.

Lemma other_candidate : exists u', candidate st (res_c0 res) c1' e' u'.
Proof using Hl Ho Hi He'.
  pose proof (st_usable lib o st Hl Ho Hi) as U. destruct (u_act_solves s U (as_vec e') (st_f st) A (st_f_A lib o st Hi)) as (u' & Eu & _).
  exists u'. split; [exact He'|exact Eu].
Qed.

Lemma rho_nonneg : 0 <= rho.
Proof using Hl Ho Hi Hgap Heta Heps.
  unfold rho, residual_part. pose proof amp_pos. destruct Hgap as [Hd _]. assert (0 < / delta) by (apply Rinv_0_lt_compat; exact Hd).
  destruct Ho as (HN & _). assert (2 <= IZR (o_N o)) by (apply IZR_le; exact HN).
  assert (0 <= (IZR (o_N o) - 1) * eta) by (apply Rmult_le_pos; lra). unfold Rdiv. nra.
Qed.

Lemma run_gap : forall e, candidate st (res_c0 res) (res_c1 res) e (res_u res) -> sqrt (boundary_gap st (res_u res) e) <= rho.
Proof using Hl Ho Hi Hgap Heta Hv Hfit Hwf Hr Hlsq L1' He' Heps Hb'.
  intros e Hc. destruct other_candidate as [u' Hu']. eapply Rle_trans; [|exact (candidate_gap _ _ _ _ eps Heps Hu' Hb')].
  apply sqrt_le_1_alt. exact (ran_best lib o st Hl Ho Hi res Hfit Hwf Hr Hlsq e Hc c1' e' u' L1' Hu').
Qed.

Variable kappa : R.
Hypothesis Hkap : 0 <= kappa.
Hypothesis Hstab : neumann_stable st kappa.

Lemma run_bound : forall i j, reached s (i, j) ->
  Cmod (Cminus (node_value (ps_N s) (res_u res) i j) (node_value (ps_N s) v i j)) <=
  amplification o delta * (eps + 2 * kappa * rho) + residual_part o delta eta.
Proof using Hl Ho Hi Hgap Heta Hv Hfit Hwf Hr Hlsq L1' He' Heps Hb' Hkap Hstab.
  pose proof (st_usable lib o st Hl Ho Hi) as U.
  destruct (ran_candidate lib o st res Hl Ho Hi Hfit Hwf Hr) as (L0 & L1 & e & Hc). fold c in L0, L1.
  destruct other_candidate as [u' Hu'].
  pose proof rho_nonneg as Hrho. pose proof (run_gap e Hc) as G. pose proof (candidate_gap _ _ _ _ eps Heps Hu' Hb') as G'. fold rho in G'.
  (* the extension of the difference of the coefficients *)
  set (d1 := map (fun j => Cminus (as_vec (res_c1 res) j) (as_vec c1' j)) (seq 0 (length (ec_B c)))).
  assert (Ld : length d1 = length (ec_B c)) by (unfold d1; rewrite map_length, seq_length; reflexivity).
  set (z := map (fun _ => RtoC 0) d1). assert (Lz : length z = length (ec_B c)) by (unfold z; rewrite map_length; exact Ld).
  destruct (extend_homogeneous (with_basis c (ec_B c) z d1) true Hwf (or_introl eq_refl) Lz Ld) as (e2 & Ee2 & Le2 & He2).
  destruct (ran_system lib o st Hl Ho Hi res Hfit Hwf Hr) as (extf & Q1 & rhs & e3 & Hf & HB & _ & _ & _ & Hc3). fold c in Hf, HB.
  pose proof (extend_inhomogeneous (with_basis c (ec_B c) (res_c0 res) (res_c1 res)) extf Hwf L0 L1 ltac:(rewrite inhomo_coef; exact Hf)) as X.
  destruct X as (ea & Eea & Lea & Hea). destruct Hc as [Ee Eu]. fold c in Ee. assert (EQ : ea = e) by congruence. subst ea.
  pose proof (extend_inhomogeneous (with_basis c (ec_B c) (res_c0 res) c1') extf Hwf L0 L1' ltac:(rewrite inhomo_coef; exact Hf)) as X.
  destruct X as (ea & Eea' & Lea' & Hea'). assert (EQ : ea = e') by congruence. subst ea.
  cbn [with_basis ec_c0 ec_c1 ec_union] in He2, Hea, Hea', Le2, Lea, Lea'. rewrite !basis_exts_coef in He2, Hea, Hea' by (auto; lia).
  pose proof (st_gamma lib o st Hi) as EG. fold s c in EG.
  assert (Z0 : forall l E, lincomb z E l = RtoC 0).
  { intros l. unfold z. clear. induction d1 as [|y d IH]; intros [|E0 E]; try reflexivity. cbn [map lincomb]. rewrite IH. ring. }
  assert (D1 : forall l E, length E = length (ec_B c) -> lincomb d1 E l = Cminus (lincomb (res_c1 res) E l) (lincomb c1' E l)).
  { intros l E LE. unfold d1. revert L1 L1' LE. clear. generalize (length (ec_B c)) as m. generalize (res_c1 res) as x.
    intros x m. revert x c1' E. induction m as [|m IH]; intros x y E Lx Ly LE.
    - destruct x; [|discriminate]. destruct y; [|discriminate]. cbn. ring.
    - destruct x as [|x0 x]; [discriminate|]. destruct y as [|y0 y]; [discriminate|]. destruct E as [|E0 E]; [discriminate|].
      cbn [seq map lincomb]. rewrite <- seq_shift, map_map.
      specialize (IH x y E ltac:(cbn in *; lia) ltac:(cbn in *; lia) ltac:(cbn in *; lia)).
      transitivity (Cplus (Cmult (Cminus x0 y0) (E0 l)) (lincomb (map (fun j => Cminus (as_vec x j) (as_vec y j)) (seq 0 m)) E l));
        [reflexivity|]. rewrite IH. ring. }
  assert (Lb : length (basis_exts c 1) = length (ec_B c)) by (unfold basis_exts; rewrite map_length, seq_length; reflexivity).
  assert (ED : forall l, (l < n)%nat -> as_vec e2 l = Cminus (as_vec e l) (as_vec e' l)).
  { intros l Hlt. unfold n in Hlt. rewrite EG in Hlt. rewrite He2, Hea, Hea' by exact Hlt. unfold bd_ext. rewrite Z0, D1 by exact Lb. ring. }
  (* its potential *)
  unfold ps_u_act in Eu. destruct (get_potential (st_ps st) (as_vec e)) as [Pe|] eqn:EPe; [|discriminate]. cbn [bind] in Eu. apply Ok_inj in Eu.
  destruct Hu' as [_ Eu']. unfold ps_u_act in Eu'. destruct (get_potential (st_ps st) (as_vec e')) as [Pe'|] eqn:EPe'; [|discriminate]. cbn [bind] in Eu'. apply Ok_inj in Eu'.
  destruct (potential_lin s U (RtoC (-1)) _ _ _ _ EPe' EPe) as (P2 & EP2 & HP2).
  assert (M1 : RtoC (-1) = Copp (RtoC 1)) by (rewrite <- RtoC_opp; reflexivity).
  assert (V2 : vec_eq s (fun l => Cplus (Cmult (RtoC (-1)) (as_vec e' l)) (as_vec e l)) (as_vec e2)).
  { intros l Hlt. rewrite (ED l Hlt), M1. ring. }
  destruct (potential_ext_eq s U _ (as_vec e2) P2 V2 EP2) as (P3 & EP3 & HP3).
  destruct (trace_spec s U P3) as (t3 & Et3 & Ht3).
  pose proof (Hstab d1 e2 P3 t3 Ld Ee2 EP3 Et3) as K. cbv zeta in K. fold s n in K.
  change (sq n (as_vec e2) <= kappa ^ 2 * sq n (fun l => Cminus (t3 l) (as_vec e2 l))) in K.
  destruct (trace_spec s U (res_u res)) as (tu & _ & Htu). destruct (trace_spec s U u') as (tu' & _ & Htu').
  assert (S1 : sqrt (sq n (fun l => Cminus (t3 l) (as_vec e2 l))) <= 2 * rho).
  { rewrite (gap_sq _ e tu Htu) in G. rewrite (gap_sq _ e' tu' Htu') in G'.
    apply Rle_trans with (sqrt (sq n (fun l => Cminus (as_vec e l) (tu l))) + sqrt (sq n (fun l => Cminus (as_vec e' l) (tu' l)))); [|lra].
    apply sq_tri. intros l Hlt. destruct (nth_error (ps_gamma s) l) as [[i j]|] eqn:E; [|apply nth_error_None in E; unfold n in Hlt; lia].
    replace (Cminus (t3 l) (as_vec e2 l)) with (Cplus (Copp (Cminus (as_vec e l) (tu l))) (Cminus (as_vec e' l) (tu' l))).
    - eapply Rle_trans; [apply Cmod_triangle|]. rewrite Cmod_opp. apply Rle_refl.
    - rewrite (ED l Hlt), (Ht3 l i j E), (Htu l i j E), (Htu' l i j E), (node_value_ext _ _ _ HP3), (node_value_ext _ _ _ HP2), (node_value_lin s), <- Eu, <- Eu'.
      assert (Hadd : forall X Y, node_value (ps_N s) (arr_add X Y) i j = Cplus (node_value (ps_N s) X i j) (node_value (ps_N s) Y i j)).
      { intros X Y. destruct (open_dec (ps_N s) i j); [rewrite !node_value_in by assumption; reflexivity|rewrite !node_value_out by assumption; ring]. }
      rewrite !Hadd, M1. ring. }
  assert (S2 : sqrt (sq n (as_vec e2)) <= kappa * (2 * rho)).
  { apply Rle_trans with (kappa * sqrt (sq n (fun l => Cminus (t3 l) (as_vec e2 l)))); [|apply Rmult_le_compat_l; assumption].
    rewrite <- (sqrt_pow2 kappa Hkap) at 1. rewrite <- sqrt_mult_alt by apply pow2_ge_0. apply sqrt_le_1_alt. exact K. }
  intros i j Hreach.
  apply (candidate_error (res_c0 res) (res_c1 res) e (res_u res) (eps + 2 * kappa * rho)); [|split; [exact Ee|]| |exact Hreach].
  - assert (0 <= kappa * rho) by (apply Rmult_le_pos; assumption). lra.
  - unfold ps_u_act. rewrite EPe. cbn [bind]. rewrite Eu. reflexivity.
  - destruct (trace_spec s U v) as (tv & _ & Htv). rewrite (gap_sq v e tv Htv). rewrite (gap_sq v e' tv Htv) in Hb'.
    rewrite <- (pow2_sqrt (sq n _)) by apply sq_nonneg. apply pow_incr. split; [apply sqrt_pos|].
    assert (S3 : sqrt (sq n (fun l => Cminus (as_vec e' l) (tv l))) <= eps) by (rewrite <- (sqrt_pow2 eps Heps); apply sqrt_le_1_alt; exact Hb').
    apply Rle_trans with (sqrt (sq n (fun l => Cminus (as_vec e' l) (tv l))) + sqrt (sq n (as_vec e2))); [|lra].
    apply sq_tri. intros l Hlt. rewrite (ED l Hlt). eapply Rle_trans; [|apply Cmod_triangle]. right. f_equal. ring.
Qed.
End Run.

(** ** The constants exist *)

Lemma csum_le : forall n f, Cmod (csum n f) <= rsum n (fun i => Cmod (f i)).
Proof.
  induction n as [|n IH]; intros f; [cbn; rewrite Cmod_0; lra|]. cbn [csum rsum]. eapply Rle_trans; [apply Cmod_triangle|]. specialize (IH f). lra.
Qed.

Lemma sq_coord : forall n y i, (i < n)%nat -> Cmod (y i) <= sqrt (sq n y).
Proof.
  intros n y i Hlt. rewrite <- (sqrt_pow2 (Cmod (y i))) by apply Cmod_ge_0. apply sqrt_le_1_alt.
  apply (rsum_term n (fun i => Cmod (y i) ^ 2)); [intros; apply pow2_ge_0|exact Hlt].
Qed.

Lemma Cmod_conj : forall z, Cmod (Cconj z) = Cmod z.
Proof. intros [a b]. unfold Cmod, Cconj. cbn [fst snd]. f_equal. ring. Qed.

Lemma cdot_le : forall n q y, Cmod (Proof_Lstsq.cdot n q y) <= rsum n (fun i => Cmod (q i)) * sqrt (sq n y).
Proof.
  intros n q y. unfold Proof_Lstsq.cdot. eapply Rle_trans; [apply csum_le|]. rewrite Rmult_comm, <- rsum_scal. apply rsum_le. intros i Hlt.
  rewrite Cmod_mult, Cmod_conj, Rmult_comm. apply Rmult_le_compat_r; [apply Cmod_ge_0|apply sq_coord; exact Hlt].
Qed.

Lemma gs_bounded : forall n m W, exists K, 0 <= K /\ forall y j, (j < m)%nat -> Cmod (gs_lstsq n m W y j) <= K * sqrt (sq n y).
Proof.
  intros n m W. induction m as [|m (K & HK & B)]; [exists 0; split; [lra|intros; lia]|].
  set (g := gs_lstsq n m W (fun i => W i m)). set (q := fun i => Cminus (W i m) (mat_app m W g i)).
  set (D := rsum n (fun i => nrm2 (q i))). set (Kc := if Req_EM_T D 0 then 0 else rsum n (fun i => Cmod (q i)) / Rabs D).
  assert (HKc : 0 <= Kc).
  { unfold Kc. destruct (Req_EM_T D 0); [lra|]. apply Rmult_le_pos; [apply rsum_nonneg; intros; apply Cmod_ge_0|].
    left. apply Rinv_0_lt_compat, Rabs_pos_lt. assumption. }
  set (G := rsum m (fun j => Cmod (g j))). assert (HG : 0 <= G) by (apply rsum_nonneg; intros; apply Cmod_ge_0).
  exists (K + Kc * G + Kc). split; [assert (0 <= Kc * G) by (apply Rmult_le_pos; assumption); lra|].
  intros y j Hj. pose proof (sqrt_pos (sq n y)) as Hy.
  set (cc := if Req_EM_T D 0 then RtoC 0 else Cdiv (Proof_Lstsq.cdot n q y) (RtoC D)).
  assert (Hc : Cmod cc <= Kc * sqrt (sq n y)).
  { unfold cc, Kc. destruct (Req_EM_T D 0) as [_|HD]; [rewrite Cmod_0; lra|].
    unfold Cdiv. rewrite Cmod_mult, Cmod_inv, Cmod_R by (intros H; apply HD; injection H; auto). 
    unfold Rdiv. rewrite (Rmult_assoc _ (/ _)), (Rmult_comm (/ _)), <- Rmult_assoc.
    apply Rmult_le_compat_r; [left; apply Rinv_0_lt_compat, Rabs_pos_lt; assumption|apply cdot_le]. }
  assert (HKy : 0 <= K * sqrt (sq n y)) by (apply Rmult_le_pos; assumption).
  assert (HKc' : 0 <= Kc * sqrt (sq n y)) by (apply Rmult_le_pos; assumption).
  change (gs_lstsq n (Datatypes.S m) W y j) with (if Nat.eqb j m then cc else Cminus (gs_lstsq n m W y j) (Cmult cc (g j))).
  destruct (Nat.eqb_spec j m) as [->|Hne].
  - assert (0 <= Kc * sqrt (sq n y) * G) by (apply Rmult_le_pos; assumption). nra.
  - eapply Rle_trans; [apply Cmod_triangle|]. rewrite Cmod_opp, Cmod_mult. assert (Hj' : (j < m)%nat) by lia. specialize (B y j Hj').
    assert (Cmod (g j) <= G) by (apply (rsum_term m (fun j => Cmod (g j))); [intros; apply Cmod_ge_0|exact Hj']).
    assert (Cmod cc * Cmod (g j) <= Kc * sqrt (sq n y) * G) by (apply Rmult_le_compat; auto using Cmod_ge_0). nra.
Qed.

Lemma rank_bounded : forall n m W, full_rank n m W -> exists K, 0 <= K /\ forall x j, (j < m)%nat -> Cmod (x j) <= K * sqrt (sq n (mat_app m W x)).
Proof.
  intros n m W HW. destruct (gs_bounded n m W) as (K & HK & B). exists K. split; [exact HK|]. intros x j Hj.
  rewrite <- (recovered n m W (mat_app m W x) (gs_lstsq n m W (mat_app m W x)) x HW (gs_least_squares n m W _) ltac:(reflexivity) j Hj).
  apply B. exact Hj.
Qed.

Definition esum (E : list (nat -> C)) (l : nat) : R := fold_right (fun f r => Cmod (f l) + r) 0 E.

Lemma esum_nonneg : forall E l, 0 <= esum E l.
Proof. induction E as [|f E IH]; intros l; cbn; [lra|]. pose proof (Cmod_ge_0 (f l)). specialize (IH l). unfold esum in IH. lra. Qed.

Lemma lincomb_le : forall t E d l, 0 <= t -> (forall j, (j < length d)%nat -> Cmod (as_vec d j) <= t) -> Cmod (lincomb d E l) <= t * esum E l.
Proof.
  intros t E. induction E as [|f E IH]; intros d l Ht Hd; [destruct d; cbn; rewrite Cmod_0; lra|].
  destruct d as [|y d]; [cbn [lincomb]; rewrite Cmod_0; apply Rmult_le_pos; [exact Ht|apply esum_nonneg]|].
  cbn [lincomb]. eapply Rle_trans; [apply Cmod_triangle|]. rewrite Cmod_mult. change (esum (f :: E) l) with (Cmod (f l) + esum E l).
  assert (Cmod y <= t) by (apply (Hd 0%nat); cbn; lia).
  assert (Cmod (lincomb d E l) <= t * esum E l) by (apply IH; [exact Ht|intros j Hj; apply (Hd (Datatypes.S j)); cbn; lia]).
  assert (Cmod y * Cmod (f l) <= t * Cmod (f l)) by (apply Rmult_le_compat_r; [apply Cmod_ge_0|assumption]). lra.
Qed.

Lemma stable_exists : forall lib o st, enumerating lib -> options_ok o -> ps_init lib o = Ok st -> ctx_wf (st_ctx st) ->
  (0 < length (ec_B (st_ctx st)))%nat -> neumann_determined st -> exists kappa, 0 <= kappa /\ neumann_stable st kappa.
Proof.
  intros lib o st Hl Ho Hi Hwf HB Hdet. set (c := st_ctx st) in *. set (s := st_ps st). set (n := length (ps_gamma s)).
  pose proof (st_usable lib o st Hl Ho Hi) as U.
  assert (Lb : length (basis_exts c 1) = length (ec_B c)) by (unfold basis_exts; rewrite map_length, seq_length; reflexivity).
  destruct (get_Q_spec s U (basis_exts c 1)) as (Q1 & EQ & LQ0 & HQ). pose proof (eq_trans LQ0 Lb) as LQ. clear LQ0.
  pose proof (determined_rank lib o st Hl Ho Hi Hwf Q1 Hdet HB EQ LQ) as HR. fold s n in HR.
  destruct (rank_bounded _ _ _ HR) as (K & HK & B).
  set (E2 := rsum n (fun l => esum (basis_exts c 1) l ^ 2)). assert (HE2 : 0 <= E2) by (apply rsum_nonneg; intros; apply pow2_ge_0).
  exists (K * sqrt E2). split; [apply Rmult_le_pos; [exact HK|apply sqrt_pos]|].
  intros d e P tr Ld Ee EP Et. fold c in Ld, Ee. fold s in EP, Et |- *. fold n. cbv zeta. set (z := map (fun _ => RtoC 0) d) in *.
  assert (Lz : length z = length (ec_B c)) by (unfold z; rewrite map_length; exact Ld).
  destruct (extend_homogeneous (with_basis c (ec_B c) z d) true Hwf (or_introl eq_refl) Lz Ld) as (e2 & Ee2 & Le & He).
  assert (EQe : e2 = e) by congruence. subst e2.
  cbn [with_basis ec_c0 ec_c1 ec_union] in Le, He. rewrite !basis_exts_coef in He by (auto; lia).
  assert (Z0 : forall l E, lincomb z E l = RtoC 0).
  { intros l. unfold z. clear. induction d as [|y d IH]; intros [|E0 E]; try reflexivity. cbn [map lincomb]. rewrite IH. ring. }
  pose proof (st_gamma lib o st Hi) as EG. fold s c in EG.
  assert (Hext : vec_eq s (lincomb d (basis_exts c 1)) (as_vec e)).
  { intros l Hlt. rewrite He by (rewrite <- EG; exact Hlt). rewrite Z0. ring. }
  destruct (HQ d (eq_trans Ld (eq_sym Lb))) as (w & P' & tr' & Ew & EP' & Htr' & Hw).
  destruct (potential_ext_eq s U _ _ P' Hext EP') as (P2 & EP2 & HP2). assert (EQP : P2 = P) by congruence. subst P2.
  destruct (trace_spec s U P) as (t2 & Et2 & Ht2). assert (EQt : t2 = tr) by congruence. subst t2.
  assert (HW : forall l, (l < n)%nat -> Cminus (tr l) (as_vec e l) = mat_app (length (ec_B c)) (cols_matrix Q1) (as_vec d) l).
  { intros l Hlt. destruct (mat_dot_app _ _ _ Ew) as [_ Wl]. rewrite <- LQ, <- Wl, (Hw l Hlt), (Hext l Hlt). f_equal.
    destruct (nth_error (ps_gamma s) l) as [[p r]|] eqn:E; [|apply nth_error_None in E; unfold n in Hlt; lia].
    rewrite (Ht2 l p r E), (Htr' l p r E). apply node_value_ext. exact HP2. }
  change (rsum n (fun l => Cmod (Cminus (tr l) (as_vec e l)) ^ 2)) with (sq n (fun l => Cminus (tr l) (as_vec e l))).
  rewrite (sq_ext n _ _ HW). set (w2 := sq n _). assert (Hw2 : 0 <= w2) by apply sq_nonneg.
  set (t := K * sqrt w2). assert (Ht : 0 <= t) by (apply Rmult_le_pos; [exact HK|apply sqrt_pos]).
  assert (Hdt : forall j, (j < length d)%nat -> Cmod (as_vec d j) <= t) by (intros j Hj; apply (B (as_vec d) j); change (j < length (ec_B c))%nat; rewrite <- Ld; exact Hj).
  apply Rle_trans with (rsum n (fun l => t ^ 2 * esum (basis_exts c 1) l ^ 2)).
  - apply rsum_le. intros l Hlt. rewrite <- (Hext l Hlt), <- Rpow_mult_distr. apply pow_incr. split; [apply Cmod_ge_0|apply lincomb_le; assumption].
  - rewrite rsum_scal. fold E2. unfold t. rewrite !Rpow_mult_distr, !pow2_sqrt by assumption. right. ring.
Qed.

Lemma gap_exists : forall o, (2 <= o_N o)%Z -> eig_nonzero (o_N o) (o_order o) (o_AD o) (o_k o) -> exists delta, eig_gap o delta.
Proof.
  intros o HN H.
  assert (K : forall a b, exists delta, 0 < delta /\ forall j l, (1 <= j <= Z.of_nat a)%Z -> (1 <= l <= Z.of_nat b)%Z ->
    (j <= o_N o - 1)%Z -> (l <= o_N o - 1)%Z -> delta <= Rabs (eigenval (o_N o) (o_order o) (o_AD o) (o_k o) j l)).
  { assert (Row : forall (f : Z -> R), (forall l, (1 <= l <= o_N o - 1)%Z -> 0 < f l) -> forall b, exists delta, 0 < delta /\ forall l, (1 <= l <= Z.of_nat b)%Z -> (l <= o_N o - 1)%Z -> delta <= f l).
    { intros f Hf. induction b as [|b (d & Hd & Hb)]; [exists 1; split; [lra|lia]|].
      destruct (Z_le_dec (Z.of_nat (Datatypes.S b)) (o_N o - 1)) as [Hle|Hgt].
      - exists (Rmin d (f (Z.of_nat (Datatypes.S b)))). split; [apply Rmin_pos; [exact Hd|apply Hf; lia]|].
        intros l H1 H2. destruct (Z.eq_dec l (Z.of_nat (Datatypes.S b))) as [->|]; [apply Rmin_r|].
        eapply Rle_trans; [apply Rmin_l|]. apply Hb; lia.
      - exists d. split; [exact Hd|]. intros l H1 H2. apply Hb; lia. }
    assert (Pos : forall j l, (1 <= j <= o_N o - 1)%Z -> (1 <= l <= o_N o - 1)%Z -> 0 < Rabs (eigenval (o_N o) (o_order o) (o_AD o) (o_k o) j l)).
    { intros j l Hj Hl. apply Rabs_pos_lt. apply H; assumption. }
    induction a as [|a IH]; intros b; [exists 1; split; [lra|lia]|].
    destruct (IH b) as (d & Hd & Hb). destruct (Z_le_dec (Z.of_nat (Datatypes.S a)) (o_N o - 1)) as [Hle|Hgt].
    - destruct (Row _ (fun l Hl => Pos (Z.of_nat (Datatypes.S a)) l ltac:(lia) Hl) b) as (d2 & Hd2 & Hb2).
      exists (Rmin d d2). split; [apply Rmin_pos; assumption|]. intros j l H1 H2 H3 H4.
      destruct (Z.eq_dec j (Z.of_nat (Datatypes.S a))) as [->|]; [eapply Rle_trans; [apply Rmin_r|]; apply Hb2; assumption|].
      eapply Rle_trans; [apply Rmin_l|]. apply Hb; lia.
    - exists d. split; [exact Hd|]. intros j l H1 H2 H3 H4. apply Hb; lia. }
  destruct (K (Z.to_nat (o_N o)) (Z.to_nat (o_N o))) as (d & Hd & Hb). exists d. split; [exact Hd|]. intros j l Hj Hl. apply Hb; lia.
Qed.
