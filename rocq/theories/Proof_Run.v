(** Proofs about the construction and the run of PizzaSolver (C72). *)
From Coq Require Import ZArith List Bool Reals Lia Lra.
From Coquelicot Require Import Coquelicot.
From Verif Require Import Model_Py Model_Multivalue Model_Grid Model_Fourier Model_Linop Model_PS Model_Chebyshev
  Model_Domain Model_Ext Model_Extend Model_Debug Model_Run
  Spec_Grid Spec_PS Spec_Chebyshev Spec_Extend Spec_Abcoef Spec_Inhomo Spec_Domain Spec_ZRun Spec_Debug Spec_Run
  Lib_Csum Proof_Grid Proof_PS Proof_Grid2 Proof_Domain Proof_Place Proof_Chebyshev Proof_Basis Proof_Linear Proof_Extend2
  Proof_ExtendF Proof_Inhomo Proof_Abcoef Proof_Debug.
Import ListNotations.
Open Scope R_scope.

(** ** The constructor *)

Lemma init_ps_usable : forall lib o, enumerating lib -> options_ok o -> ps_usable (init_ps lib o).
Proof.
  intros lib o Hl (HN & Ho & HL & Hm & He).
  assert (Hok : ps_ok (init_ps lib o)).
  { split; [exact HN|]. split; [exact Ho|]. split; [exact HL|]. split; apply Hl. }
  split; [exact Hok|]. split; [apply margin_gamma_inside; assumption|exact He].
Qed.

Lemma ps_init_inv : forall lib o st, ps_init lib o = Ok st -> exists nc nr c f b A,
  basis_sizes o = Ok (nc, nr) /\ init_ctx lib o (fst (setup_basis nc nr)) = Ok c /\
  setup_f lib o c (init_ps lib o) = Ok (f, b) /\ calc_ap_sol_f (init_ps lib o) f = Ok A /\
  st = mk_state c (init_ps lib o) (snd (setup_basis nc nr)) f b A.
Proof.
  intros lib o st H. unfold ps_init in H.
  destruct (basis_sizes o) as [[nc nr]|] eqn:E1; [|discriminate]. cbn [bind fst snd] in H.
  destruct (setup_basis nc nr) as [B seg] eqn:EB.
  destruct (init_ctx lib o B) as [c|] eqn:E2; [|discriminate]. cbn [bind] in H.
  destruct (setup_f lib o c (init_ps lib o)) as [[f b]|] eqn:E3; [|discriminate]. cbn [bind fst snd] in H.
  destruct (calc_ap_sol_f (init_ps lib o) f) as [A|] eqn:E4; [|discriminate]. cbn [bind] in H. injection H as <-.
  exists nc, nr, c, f, b, A. rewrite EB. repeat split; assumption.
Qed.

Lemma init_ctx_inv : forall lib o B c, init_ctx lib o B = Ok c -> exists g0 g1 g2,
  all_gamma (o_R o) (o_a o) (o_AD o) (o_N o) (node_bcoord (lib_brentq lib) (o_r o) (o_a o) (o_AD o) (o_N o))
    (lib_enum lib (gamma_set (o_order o) (o_N o) (o_interior o))) = Ok (g0, g1, g2) /\
  c = mk_ctx (o_k o) (o_R o) (o_a o) (o_AD o) (o_N o) (o_r o)
        (node_bcoord (lib_brentq lib) (o_r o) (o_a o) (o_AD o) (o_N o))
        (lib_enum lib (gamma_set (o_order o) (o_N o) (o_interior o)))
        (fun sid => match sid with 0%nat => g0 | 1%nat => g1 | _ => g2 end)
        B [] [] (o_homogeneous o) (o_src o).
Proof.
  intros lib o B c H. unfold init_ctx in H.
  destruct (all_gamma _ _ _ _ _ _) as [[[g0 g1] g2]|] eqn:E; [|discriminate]. cbn [bind] in H. injection H as <-.
  exists g0, g1, g2. split; reflexivity.
Qed.

(** The source extension changes only the nodes it is given. *)
Lemma extend_f_loop_keeps : forall c todo f f' b,
  (forall p, In p todo -> (0 <= fst p < ec_N c + 1)%Z /\ (0 <= snd p < ec_N c + 1)%Z) ->
  extend_f_loop c todo f = Ok (f', b) -> forall i j, ~ In (i, j) todo -> f' i j = f i j.
Proof.
  intros c todo. induction todo as [|q todo IH]; intros f f' b Hr H i j Hn.
  - injection H as <- _. reflexivity.
  - cbn [extend_f_loop] in H.
    destruct (extend_f_base c q) as [x|e]; [|destruct e; try discriminate; injection H as <- _; reflexivity].
    destruct (extend_f_node c q) as [v|]; [|discriminate]. cbn [bind] in H.
    destruct (Hr q (or_introl eq_refl)) as [R1 R2].
    rewrite np_set_in in H by assumption. cbn [bind] in H.
    rewrite (IH _ _ _ (fun p Hp => Hr p (or_intror Hp)) H i j) by (intros Hi; apply Hn; right; exact Hi).
    apply arr_store_neq. intros E. apply Hn. left. rewrite (surjective_pairing q). symmetry. exact E.
Qed.

Lemma Kplus_range : forall order N ins p, (order = 2 \/ order = 4)%Z -> In p (Kplus order N ins) ->
  (0 <= fst p < N + 1)%Z /\ (0 <= snd p < N + 1)%Z.
Proof.
  intros order N ins q Ho Hq. apply Kplus_in in Hq; [|exact Ho]. destruct Hq as (p & Hp & H).
  apply Mplus_in in Hp. destruct Hp as [[H1 H2] _]. destruct H as [->|[_ H]]; lia.
Qed.

(** The source array of the constructed solver. *)
Lemma init_source : forall lib o st, enumerating lib -> (o_order o = 2 \/ o_order o = 4)%Z -> ps_init lib o = Ok st ->
  (forall i j, o_inside o i j -> st_f st i j =
     s_f (o_src o) (fst (get_coord (o_AD o) (o_N o) i j)) (snd (get_coord (o_AD o) (o_N o) i j))) /\
  (forall i j, ~ In (i, j) (Kplus (o_order o) (o_N o) (o_interior o)) -> st_f st i j = RtoC 0).
Proof.
  intros lib o st Hl Ho H. destruct (ps_init_inv lib o st H) as (nc & nr & c & f & b & A & _ & Ec & Ef & _ & ->). cbn [st_f].
  destruct (init_ctx_inv _ _ _ _ Ec) as (g0 & g1 & g2 & _ & Hc).
  assert (K : forall i j, ~ In (i, j) (node_diff (Kplus (o_order o) (o_N o) (o_interior o)) (global_Mplus (o_N o) (o_interior o))) ->
    f i j = setup_f_interior (init_ps lib o) (s_f (o_src o)) i j).
  { intros i j Hn. unfold setup_f, extend_f in Ef.
    destruct (ec_homogeneous c); [injection Ef as <- _; reflexivity|].
    apply (extend_f_loop_keeps c _ _ _ _) with (2 := Ef).
    - intros p Hp. apply Hl, node_diff_in in Hp. rewrite Hc. cbn [ec_N]. apply (Kplus_range (o_order o) _ (o_interior o)); [exact Ho|apply Hp].
    - intros Hp. apply Hn. apply Hl. exact Hp. }
  split; intros i j Hij.
  - assert (Hp : In (i, j) (global_Mplus (o_N o) (o_interior o))) by (apply Mplus_in; exact Hij).
    rewrite K by (rewrite node_diff_in; tauto).
    unfold setup_f_interior. cbn [init_ps ps_N ps_interior ps_AD_len].
    apply node_mem_in in Hp. rewrite Hp. destruct (get_coord _ _ i j). reflexivity.
  - assert (Hp : ~ In (i, j) (global_Mplus (o_N o) (o_interior o))).
    { intros Hp. apply Hij. apply Kplus_in; [exact Ho|]. exists (i, j). split; [exact Hp|left; reflexivity]. }
    rewrite K by (rewrite node_diff_in; tauto).
    unfold setup_f_interior. cbn [init_ps ps_N ps_interior ps_AD_len].
    apply node_mem_not_in in Hp. rewrite Hp. reflexivity.
Qed.

(** ** The run *)

Lemma ps_run_inv : forall lib o st res, ps_run lib o st = Ok res -> exists c0 c1 ext u t e,
  calc_c0 (lib_chebfit lib) (get_chebyshev_roots (Z.to_nat n_chebyshev_nodes)) (o_R o) (o_a o) (st_seg st) (o_bc o) = Ok c0 /\
  c0_test sample_n (o_r o) (o_bc o) (o_R o) (o_a o) (ec_B (st_ctx st)) c0 = Ok t /\
  solve_var lib (set_coef (st_ctx st) c0 []) (st_ps st) (st_ap st) = Ok c1 /\
  extend_boundary (set_coef (st_ctx st) c0 c1) SrcCoef false = Ok ext /\
  ps_u_act (st_ps st) (list_vec ext) (st_ap st) = Ok u /\
  eval_error (o_N o) (o_AD o) (o_known o) (o_expected o) u (lib_enum lib (global_Mplus (o_N o) (o_interior o))) = Ok e /\
  res = mk_result e u c0 c1 t.
Proof.
  intros lib o st res H. unfold ps_run in H.
  destruct (calc_c0 _ _ _ _ _ _) as [c0|] eqn:E1; [|discriminate]. cbn [bind] in H.
  destruct (c0_test _ _ _ _ _ _ _) as [t|] eqn:E2; [|discriminate]. cbn [bind] in H.
  destruct (solve_var _ _ _ _) as [c1|] eqn:E3; [|discriminate]. cbn [bind] in H.
  destruct (extend_boundary _ _ _) as [ext|] eqn:E4; [|discriminate]. cbn [bind] in H.
  destruct (ps_u_act _ _ _) as [u|] eqn:E5; [|discriminate]. cbn [bind] in H.
  destruct (eval_error _ _ _ _ _ _) as [e|] eqn:E6; [|discriminate]. cbn [bind] in H. injection H as <-.
  exists c0, c1, ext, u, t, e. repeat split; assumption.
Qed.

Lemma run_equation : forall lib o st res, enumerating lib -> options_ok o -> ps_init lib o = Ok st -> ps_run lib o st = Ok res ->
  forall i j, o_inside o i j -> o_L o (res_u res) i j = lin_apply_B (st_f st) i j.
Proof.
  intros lib o st res Hl Ho Hi Hr i j Hij.
  pose proof (init_ps_usable lib o Hl Ho) as U.
  destruct (ps_init_inv lib o st Hi) as (nc & nr & c & f & b & A & _ & _ & _ & EA & ->).
  destruct (ps_run_inv _ _ _ _ Hr) as (c0 & c1 & ext & u & t & e & _ & _ & _ & _ & Eu & _ & ->).
  cbn [st_ps st_ap st_f res_u] in *.
  destruct (u_act_solves (init_ps lib o) U (list_vec ext) f A EA) as (u' & Eu' & Hu).
  assert (u' = u) by congruence. subst u'. exact (Hu i j Hij).
Qed.

Lemma run_error : forall lib o st res, enumerating lib -> ps_run lib o st = Ok res ->
  match res_error res with
  | None => o_known o = false
  | Some e => o_known o = true /\
      is_max (fun p : node => o_inside o (fst p) (snd p))
        (fun p => Cmod (Cminus (o_expected o (fst (get_coord (o_AD o) (o_N o) (fst p) (snd p))) (snd (get_coord (o_AD o) (o_N o) (fst p) (snd p))))
                               (node_value (o_N o) (res_u res) (fst p) (snd p)))) e
  end.
Proof.
  intros lib o st res Hl Hr.
  destruct (ps_run_inv _ _ _ _ Hr) as (c0 & c1 & ext & u & t & e & _ & _ & _ & _ & _ & Ee & ->). cbn [res_error res_u].
  destruct (o_known o) eqn:Ek.
  - assert (Hne : lib_enum lib (global_Mplus (o_N o) (o_interior o)) <> []) by (intros E; rewrite E, eval_error_empty in Ee; discriminate).
    destruct (eval_error_spec (o_N o) (o_AD o) (o_expected o) u (o_interior o) _ (Hl _) Hne) as (e' & Ee' & (i & j & H1 & H2 & H3) & Hmax).
    rewrite Ee' in Ee. injection Ee as <-. split; [reflexivity|]. split.
    + exists (i, j). split; [split; assumption|symmetry; exact H3].
    + intros [i' j'] [A B]. apply Hmax; assumption.
  - rewrite eval_error_unknown in Ee. injection Ee as <-. reflexivity.
Qed.

(** ** The system *)

Lemma get_Q_loop_eq : forall c s bi E JJs, (forall JJ, In JJ JJs -> extend_basis c JJ bi = Ok (E JJ)) ->
  get_Q_loop c s bi JJs = get_Q s (map (fun JJ => as_vec (E JJ)) JJs).
Proof.
  intros c s bi E. induction JJs as [|JJ JJs IH]; intros H; [reflexivity|].
  cbn [get_Q_loop get_Q map]. rewrite (H JJ (or_introl eq_refl)). cbn [bind].
  change (list_vec (E JJ)) with (as_vec (E JJ)). destruct (Q_column s (as_vec (E JJ))); cbn [bind]; [|reflexivity].
  rewrite IH by (intros; apply H; right; assumption). reflexivity.
Qed.

Lemma run_get_Q_eq : forall c s bi, ps_usable s -> ctx_wf c -> (bi < 2)%nat -> (0 < length (ec_B c))%nat ->
  run_get_Q c s bi = get_Q s (basis_exts c bi).
Proof.
  intros c s bi U Hc Hb HB. unfold run_get_Q.
  rewrite (get_Q_loop_eq c s bi (fun JJ => map (fun p => mean (fun s => bext c JJ bi s p) (sids c p)) (ec_union c))).
  2:{ intros JJ HJ. apply in_seq in HJ. apply extend_basis_any; [exact Hc|lia|exact Hb]. }
  fold (basis_exts c bi). destruct (get_Q_spec s U (basis_exts c bi)) as (Q & EQ & LQ & _). rewrite EQ. cbn [bind].
  unfold basis_exts in LQ. rewrite map_length, seq_length in LQ. destruct Q; [cbn in LQ; lia|reflexivity].
Qed.

Lemma run_get_var_eq : forall c s A e, ps_usable s -> ctx_wf c -> (0 < length (ec_B c))%nat -> extend_inhomo_f c = Ok e ->
  run_get_var c s A = get_var s (basis_exts c 0) (basis_exts c 1) (ec_c0 c) (as_vec e) A.
Proof.
  intros c s A e U Hc HB He. unfold run_get_var, get_var.
  rewrite !run_get_Q_eq by (auto; lia). rewrite He. reflexivity.
Qed.

Lemma basis_exts_coef : forall c c0 c1 bi, ctx_wf c -> (bi < 2)%nat ->
  basis_exts (with_basis c (ec_B c) c0 c1) bi = basis_exts c bi.
Proof.
  intros c c0 c1 bi Hc Hb. reflexivity.
Qed.

Lemma segment_loop_ext : forall c c' ext ext' sid gamma mv,
  (forall p, node_etype c' sid p = node_etype c sid p) -> (forall e p, ext' sid e p = ext sid e p) ->
  mv_segment_loop c' ext' sid gamma mv = mv_segment_loop c ext sid gamma mv.
Proof.
  intros c c' ext ext' sid gamma mv H1 H2. revert mv. induction gamma as [|p gamma IH]; intros mv; [reflexivity|].
  cbn [mv_segment_loop]. rewrite H1. destruct (node_etype c sid p) as [e|]; cbn [bind]; [|reflexivity].
  rewrite H2. destruct (ext sid e p) as [v|]; cbn [bind]; [|reflexivity].
  destruct (mv_append mv p _) as [mv'|]; cbn [bind]; [apply IH|reflexivity].
Qed.

Lemma do_inhomo_coef : forall c c0 c1 sid e p,
  do_extend_inhomo (with_basis c (ec_B c) c0 c1) sid e p = do_extend_inhomo c sid e p.
Proof.
  intros c c0 c1 sid e p. unfold do_extend_inhomo. cbn [with_basis ec_homogeneous].
  destruct (ec_homogeneous c); [reflexivity|]. destruct sid as [|[|sid]], e; reflexivity.
Qed.

Lemma inhomo_coef : forall c c0 c1, extend_inhomo_f (with_basis c (ec_B c) c0 c1) = extend_inhomo_f c.
Proof.
  intros c c0 c1. unfold extend_inhomo_f, mv_extend_inhomo_f, mv_extend. cbn [with_basis ec_union ec_gamma].
  assert (K : forall sid g mv, mv_segment_loop (with_basis c (ec_B c) c0 c1) (do_extend_inhomo (with_basis c (ec_B c) c0 c1)) sid g mv =
    mv_segment_loop c (do_extend_inhomo c) sid g mv).
  { intros sid g mv. apply segment_loop_ext; [reflexivity|]. intros e p. apply do_inhomo_coef. }
  rewrite K. destruct (mv_segment_loop c _ 0 _ _) as [m0|]; cbn [bind]; [|reflexivity].
  rewrite K. destruct (mv_segment_loop c _ 1 _ _) as [m1|]; cbn [bind]; [|reflexivity].
  rewrite K. reflexivity.
Qed.

Lemma mat_dot_app : forall cols x q, mat_dot cols x = Ok q -> length x = length cols /\
  forall l, q l = mat_app (length cols) (cols_matrix cols) (as_vec x) l.
Proof.
  induction cols as [|a cols IH]; intros [|y x] q H; try discriminate.
  - injection H as <-. split; reflexivity.
  - cbn [mat_dot] in H. destruct (mat_dot cols x) as [v|] eqn:E; [|discriminate]. cbn [bind] in H. injection H as <-.
    destruct (IH x v E) as [L Hv]. split; [cbn; lia|]. intros l. rewrite Hv. unfold mat_app. cbn [length].
    rewrite csum_shift. cbn [cols_matrix as_vec nth]. rewrite (Cmult_comm y). reflexivity.
Qed.

Lemma mat_dot_total : forall cols x, length x = length cols -> exists q, mat_dot cols x = Ok q.
Proof.
  induction cols as [|a cols IH]; intros [|y x] H; try discriminate; [eexists; reflexivity|].
  cbn [mat_dot]. destruct (IH x) as (q & ->); [cbn in H; lia|]. eexists. reflexivity.
Qed.

(** The linear system of the run, described by its residuals. *)
Lemma system : forall c s A extf c0, ps_usable s -> ctx_wf c -> ps_gamma s = ec_union c -> (0 < length (ec_B c))%nat ->
  length c0 = length (ec_B c) -> extend_inhomo_f c = Ok extf ->
  exists Q1 rhs, (forall c1, run_get_var (with_basis c (ec_B c) c0 c1) s A = Ok (Q1, rhs)) /\ length Q1 = length (ec_B c) /\
    get_Q s (basis_exts c 1) = Ok Q1 /\
    forall c1, length c1 = length (ec_B c) -> exists e u tr,
      extend_boundary (with_basis c (ec_B c) c0 c1) SrcCoef false = Ok e /\ length e = length (ec_union c) /\
      ps_u_act s (as_vec e) A = Ok u /\ get_trace s u = Ok tr /\
      vec_eq s (as_vec e) (bd_ext c0 c1 (basis_exts c 0) (basis_exts c 1) (as_vec extf)) /\
      forall l, (l < length (ps_gamma s))%nat ->
        Cminus (mat_app (length (ec_B c)) (cols_matrix Q1) (as_vec c1) l) (rhs l) = Cminus (tr l) (as_vec e l).
Proof.
  intros c s A extf c0 U Hc Hg HB L0 Hf.
  assert (Lb : forall bi, length (basis_exts c bi) = length (ec_B c)) by (intros; unfold basis_exts; rewrite map_length, seq_length; reflexivity).
  assert (Ev : forall c1, run_get_var (with_basis c (ec_B c) c0 c1) s A = get_var s (basis_exts c 0) (basis_exts c 1) c0 (as_vec extf) A).
  { intros c1. rewrite (run_get_var_eq (with_basis c (ec_B c) c0 c1) s A extf U Hc HB ltac:(rewrite inhomo_coef; exact Hf)).
    rewrite !basis_exts_coef by (auto; lia). reflexivity. }
  assert (K : forall c1, length c1 = length (ec_B c) -> exists Q1 rhs q e u tr,
      get_var s (basis_exts c 0) (basis_exts c 1) c0 (as_vec extf) A = Ok (Q1, rhs) /\
      mat_dot Q1 c1 = Ok q /\
      extend_boundary (with_basis c (ec_B c) c0 c1) SrcCoef false = Ok e /\ length e = length (ec_union c) /\
      ps_u_act s (as_vec e) A = Ok u /\ get_trace s u = Ok tr /\
      vec_eq s (as_vec e) (bd_ext c0 c1 (basis_exts c 0) (basis_exts c 1) (as_vec extf)) /\
      vec_eq s (fun l => Cminus (q l) (rhs l)) (fun l => Cminus (tr l) (as_vec e l))).
  { intros c1 L1.
    destruct (extend_inhomogeneous (with_basis c (ec_B c) c0 c1) extf Hc L0 L1 ltac:(rewrite inhomo_coef; exact Hf)) as (e & Ee & Le & He).
    cbn [with_basis ec_c0 ec_c1 ec_union] in Le, He.
    rewrite !basis_exts_coef in He by (auto; lia).
    assert (Hext : vec_eq s (as_vec e) (bd_ext c0 c1 (basis_exts c 0) (basis_exts c 1) (as_vec extf))).
    { intros l Hl. apply He. rewrite <- Hg. exact Hl. }
    destruct (residual_spec s U (basis_exts c 0) (basis_exts c 1) c0 c1 (as_vec extf) A (as_vec e)) as (Q1 & rhs & q & u & tr & H1 & H2 & H3 & H4 & H5).
    { rewrite Lb. exact L0. } { rewrite Lb. exact L1. } { exact Hext. }
    exists Q1, rhs, q, e, u, tr. repeat split; assumption. }
  destruct (K c0 L0) as (Q1 & rhs & q & e & u & tr & H1 & H2 & _).
  exists Q1, rhs. split; [intros c1; rewrite Ev; exact H1|].
  assert (LQ : length Q1 = length (ec_B c)) by (destruct (mat_dot_app _ _ _ H2); congruence).
  split; [exact LQ|]. split.
  { unfold get_var in H1. destruct (get_Q s (basis_exts c 0)); [|discriminate]. cbn [bind] in H1.
    destruct (get_Q s (basis_exts c 1)) as [Q|]; [|discriminate]. cbn [bind] in H1.
    destruct (get_potential s (as_vec extf)); [|discriminate]. cbn [bind] in H1.
    destruct (get_trace s _); [|discriminate]. cbn [bind] in H1.
    destruct (mat_dot _ c0); [|discriminate]. cbn [bind] in H1. injection H1 as <- _. reflexivity. }
  intros c1 L1.
  destruct (K c1 L1) as (Q1' & rhs' & q' & e' & u' & tr' & G1 & G2 & G3 & G4 & G5 & G6 & G7 & G8).
  rewrite H1 in G1. injection G1 as <- <-. exists e', u', tr'. repeat split; try assumption.
  intros l Hl. destruct (mat_dot_app _ _ _ G2) as [_ Hq]. rewrite <- LQ, <- Hq. exact (G8 l Hl).
Qed.

(** ** Least squares *)

Lemma rsum_zero_terms : forall n f, (forall i, (i < n)%nat -> 0 <= f i) -> rsum n f = 0 -> forall i, (i < n)%nat -> f i = 0.
Proof.
  induction n as [|n IH]; intros f Hp Hs i Hin; [lia|]. rewrite rsum_S in Hs.
  assert (0 <= rsum n f) by (rewrite <- (Rmult_0_r (INR n)), <- rsum_const; apply rsum_le; intros; apply Hp; lia).
  assert (0 <= f n) by (apply Hp; lia).
  destruct (Nat.eq_dec i n) as [->|Hne]; [lra|]. apply IH; [intros; apply Hp; lia|lra|lia].
Qed.

Lemma zero_list_vec : forall (d : list C) j, as_vec (map (fun _ => RtoC 0) d) j = RtoC 0.
Proof. unfold as_vec. induction d as [|y d IH]; intros [|j]; cbn; auto. Qed.

Section Constructed.
Variables (lib : library) (o : options) (st : ps_state).
Hypothesis Hl : enumerating lib.
Hypothesis Ho : options_ok o.
Hypothesis Hi : ps_init lib o = Ok st.
Let c := st_ctx st.
Let s := st_ps st.
Let A := st_ap st.

Lemma st_usable : ps_usable s.
Proof using Hl Ho Hi.
  unfold s. destruct (ps_init_inv lib o st Hi) as (nc & nr & c' & f & b & A' & _ & _ & _ & _ & ->). cbn [st_ps].
  apply init_ps_usable; assumption.
Qed.

Lemma st_gamma : ps_gamma s = ec_union c.
Proof using Hi.
  unfold s, c. destruct (ps_init_inv lib o st Hi) as (nc & nr & c' & f & b & A' & _ & Ec & _ & _ & ->). cbn [st_ps st_ctx].
  destruct (init_ctx_inv _ _ _ _ Ec) as (g0 & g1 & g2 & _ & ->). reflexivity.
Qed.

Lemma st_f_A : calc_ap_sol_f s (st_f st) = Ok A.
Proof using Hi.
  unfold s, A. destruct (ps_init_inv lib o st Hi) as (nc & nr & c' & f & b & A' & _ & _ & _ & EA & ->). exact EA.
Qed.

Lemma st_inside : forall i j, o_inside o i j <-> inside_node s (i, j).
Proof using Hi.
  unfold s. destruct (ps_init_inv lib o st Hi) as (nc & nr & c' & f & b & A' & _ & _ & _ & _ & ->). reflexivity.
Qed.

Lemma st_L : forall v i j, o_L o v i j = fd_L s v i j.
Proof using Hi.
  unfold s. destruct (ps_init_inv lib o st Hi) as (nc & nr & c' & f & b & A' & _ & _ & _ & _ & ->). reflexivity.
Qed.

Lemma st_N : ps_N s = o_N o /\ ps_order s = o_order o.
Proof using Hi.
  unfold s. destruct (ps_init_inv lib o st Hi) as (nc & nr & c' & f & b & A' & _ & _ & _ & _ & ->). split; reflexivity.
Qed.

Lemma st_basis : exists nc nr, basis_sizes o = Ok (nc, nr) /\ ec_B c = fst (setup_basis nc nr) /\ st_seg st = snd (setup_basis nc nr).
Proof using Hi.
  unfold c. destruct (ps_init_inv lib o st Hi) as (nc & nr & c' & f & b & A' & En & Ec & _ & _ & ->).
  destruct (init_ctx_inv _ _ _ _ Ec) as (g0 & g1 & g2 & _ & ->). exists nc, nr. repeat split. exact En.
Qed.

Lemma gap_trace : forall u tr e, get_trace s u = Ok tr ->
  boundary_gap st u e = rsum (length (ps_gamma s)) (fun l => Cmod (Cminus (tr l) (as_vec e l)) ^ 2).
Proof using Hl Ho Hi.
  intros u tr e Et. unfold boundary_gap. fold s. cbv zeta. apply rsum_ext. intros l Hlt.
  destruct (trace_spec s st_usable u) as (tr' & Et' & Htr). rewrite Et in Et'. injection Et' as <-.
  unfold nth_value. destruct (nth_error (ps_gamma s) l) as [[i j]|] eqn:E; [|apply nth_error_None in E; lia].
  rewrite (Htr l i j E). reflexivity.
Qed.

Lemma gap_zero : forall u e, boundary_gap st u e = 0 <->
  forall l, (l < length (ps_gamma s))%nat -> nth_value (ps_N s) (ps_gamma s) u l = as_vec e l.
Proof using Type.
  intros u e. unfold boundary_gap. fold s. cbv zeta. split.
  - intros H l Hlt. pose proof (rsum_zero_terms (length (ps_gamma s)) (fun l => Cmod (Cminus (nth_value (ps_N s) (ps_gamma s) u l) (as_vec e l)) ^ 2)) as Z.
    cbv beta in Z. specialize (Z (fun i _ => pow2_ge_0 _) H l Hlt).
    assert (Z' : Cmod (Cminus (nth_value (ps_N s) (ps_gamma s) u l) (as_vec e l)) = 0) by (apply Rsqr_0_uniq; unfold Rsqr; lra).
    apply Cmod_eq_0 in Z'. replace (nth_value (ps_N s) (ps_gamma s) u l) with (Cplus (Cminus (nth_value (ps_N s) (ps_gamma s) u l) (as_vec e l)) (as_vec e l)) by ring.
    rewrite Z'. ring.
  - intros H. rewrite (rsum_ext _ _ (fun _ => 0)); [rewrite rsum_const; ring|]. intros l Hlt. rewrite (H l Hlt).
    replace (Cminus (as_vec e l) (as_vec e l)) with (RtoC 0) by ring. rewrite Cmod_0. ring.
Qed.

Lemma lsq_gap : forall Q1 rhs c1 tr e,
  (forall l, (l < length (ps_gamma s))%nat ->
     Cminus (mat_app (length (ec_B c)) (cols_matrix Q1) (as_vec c1) l) (rhs l) = Cminus (tr l) (as_vec e l)) ->
  lsq_error (length (ps_gamma s)) (length (ec_B c)) (cols_matrix Q1) rhs (as_vec c1) =
  rsum (length (ps_gamma s)) (fun l => Cmod (Cminus (tr l) (as_vec e l)) ^ 2).
Proof using Type. intros Q1 rhs c1 tr e H. unfold lsq_error. apply rsum_ext. intros l Hlt. rewrite (H l Hlt). reflexivity. Qed.

Lemma mat_app_ext : forall m W x y l, (forall j, (j < m)%nat -> x j = y j) -> mat_app m W x l = mat_app m W y l.
Proof using Type. intros m W x y l H. unfold mat_app. apply csum_ext. intros j Hj. rewrite H by exact Hj. reflexivity. Qed.

Lemma as_vec_map_seq : forall (x : nat -> C) n j, (j < n)%nat -> as_vec (map x (seq 0 n)) j = x j.
Proof using Type. intros x n j H. apply nth_map_seq. exact H. Qed.

Section Ran.
Variable res : ps_result.
Hypothesis Hfit : fit_sizes lib.
Hypothesis Hwf : ctx_wf c.
Hypothesis Hr : ps_run lib o st = Ok res.
Let c0 := res_c0 res.
Let c1 := res_c1 res.
Let B := ec_B c.

Lemma ran_c0 : calc_c0 (lib_chebfit lib) (get_chebyshev_roots (Z.to_nat n_chebyshev_nodes)) (o_R o) (o_a o) (st_seg st) (o_bc o) = Ok c0 /\ length c0 = length B.
Proof using Hi Hfit Hr.
  destruct (ps_run_inv _ _ _ _ Hr) as (c0' & c1' & ext & u & t & e & E0 & _ & _ & _ & _ & _ & Eres).
  unfold c0, B. rewrite Eres. cbn [res_c0]. split; [exact E0|].
  destruct st_basis as (nc & nr & _ & EB & Eseg). rewrite EB. rewrite Eseg in E0.
  apply (calc_c0_nth _ _ _ _ _ _ _ _ Hfit E0).
Qed.

(** What the run computed. *)
Lemma ran_system : exists extf Q1 rhs e,
  extend_inhomo_f c = Ok extf /\ (0 < length B)%nat /\
  run_get_var (with_basis c B c0 []) s A = Ok (Q1, rhs) /\ length Q1 = length B /\
  c1 = map (lib_lstsq lib (length (ps_gamma s)) (length Q1) (cols_matrix Q1) rhs) (seq 0 (length Q1)) /\
  candidate st c0 c1 e (res_u res).
Proof using Hl Ho Hi Hfit Hwf Hr.
  destruct ran_c0 as [_ L0].
  destruct (ps_run_inv _ _ _ _ Hr) as (c0' & c1' & ext & u & t & e & E0 & _ & Es & Ee & Eu & _ & Eres).
  assert (c0' = c0) by (unfold c0; rewrite Eres; reflexivity). subst c0'.
  assert (c1' = c1) by (unfold c1; rewrite Eres; reflexivity). subst c1'.
  change (set_coef (st_ctx st) c0 []) with (with_basis c B c0 []) in Es.
  unfold solve_var in Es. destruct (run_get_var _ _ _) as [[Q1 rhs]|] eqn:Ev; [|discriminate]. cbn [bind] in Es.
  injection Es as Ec1.
  assert (HB : (0 < length B)%nat).
  { unfold run_get_var, run_get_Q in Ev. cbn [with_basis ec_B] in Ev. destruct (length B) eqn:EB; [|lia]. cbn in Ev. discriminate. }
  assert (Hf : exists extf, extend_inhomo_f c = Ok extf).
  { unfold run_get_var in Ev. destruct (run_get_Q _ _ 0); [|discriminate]. cbn [bind] in Ev.
    destruct (run_get_Q _ _ 1); [|discriminate]. cbn [bind] in Ev. unfold B in Ev. rewrite inhomo_coef in Ev.
    destruct (extend_inhomo_f c) as [extf|]; [|discriminate]. exists extf. reflexivity. }
  destruct Hf as (extf & Hf). exists extf, Q1, rhs, ext. split; [exact Hf|]. split; [exact HB|]. split; [reflexivity|].
  destruct (system c s A extf c0 st_usable Hwf st_gamma HB L0 Hf) as (Q1' & rhs' & Ev' & LQ & _).
  specialize (Ev' []). fold B in Ev'. unfold s, A in Ev'. rewrite Ev in Ev'. injection Ev' as <- <-.
  split; [exact LQ|]. split; [symmetry; exact Ec1|].
  split; [exact Ee|]. rewrite Eres. exact Eu.
Qed.

Lemma ran_c1_length : length c1 = length B.
Proof using Hl Ho Hi Hfit Hwf Hr.
  destruct ran_system as (extf & Q1 & rhs & e & _ & _ & _ & LQ & -> & _). rewrite map_length, seq_length. exact LQ.
Qed.

Lemma determined_rank : forall Q1, neumann_determined st -> (0 < length B)%nat -> get_Q s (basis_exts c 1) = Ok Q1 -> length Q1 = length B ->
  full_rank (length (ps_gamma s)) (length B) (cols_matrix Q1).
Proof using Hl Ho Hi Hwf.
  intros Q1 Hdet HB EQ LQ x Hx j Hj.
  set (d := map x (seq 0 (length B))).
  assert (Ld : length d = length B) by (unfold d; rewrite map_length, seq_length; reflexivity).
  assert (Lb : length (basis_exts c 1) = length B) by (unfold basis_exts; rewrite map_length, seq_length; reflexivity).
  set (z := map (fun _ => RtoC 0) d).
  assert (Lz : length z = length B) by (unfold z; rewrite map_length; exact Ld).
  destruct (extend_homogeneous (with_basis c (ec_B c) z d) true Hwf (or_introl eq_refl) Lz Ld) as (e & Ee & Le & He).
  cbn [with_basis ec_c0 ec_c1 ec_union] in Le, He. rewrite !basis_exts_coef in He by (auto; lia).
  assert (Z0 : forall l E, lincomb z E l = RtoC 0).
  { intros l. unfold z. clear. induction d as [|y d IH]; intros [|E0 E]; try reflexivity. cbn [map lincomb]. rewrite IH. ring. }
  destruct (get_Q_spec s st_usable (basis_exts c 1)) as (Q & EQ' & _ & HQ). rewrite EQ in EQ'. injection EQ' as <-.
  destruct (HQ d (eq_trans Ld (eq_sym Lb))) as (w & P & tr & Ew & EP & Htr' & Hw).
  assert (Hext : vec_eq s (lincomb d (basis_exts c 1)) (as_vec e)).
  { intros l Hlt. rewrite He by (rewrite <- st_gamma; exact Hlt). rewrite Z0. ring. }
  destruct (potential_ext_eq s st_usable _ _ P Hext EP) as (P' & EP' & HP').
  destruct (trace_spec s st_usable P') as (tr' & Et' & Ht').
  assert (V : vec_eq s tr' (as_vec e)).
  { intros l Hlt. destruct (nth_error (ps_gamma s) l) as [[p q]|] eqn:E; [|apply nth_error_None in E; lia].
    rewrite (Ht' l p q E), (node_value_ext _ _ _ HP'), <- (Htr' l p q E), <- (Hext l Hlt).
    assert (W : w l = RtoC 0).
    { destruct (mat_dot_app _ _ _ Ew) as [_ Wl]. rewrite Wl, LQ, <- (Hx l Hlt). apply mat_app_ext. intros j' Hj'. apply as_vec_map_seq. exact Hj'. }
    rewrite Hw in W by exact Hlt.
    replace (tr l) with (Cplus (Cminus (tr l) (lincomb d (basis_exts c 1) l)) (lincomb d (basis_exts c 1) l)) by ring. rewrite W. ring. }
  pose proof (Hdet d e P' tr' Ld Ee EP' Et' V) as Hd.
  rewrite <- (as_vec_map_seq x (length B) j Hj). fold d. rewrite Hd. apply zero_list_vec.
Qed.

Hypothesis Hlsq : lstsq_contract lib st c0.

Lemma ran_best : forall e, candidate st c0 c1 e (res_u res) ->
  forall c1' e' u', length c1' = length B -> candidate st c0 c1' e' u' ->
  boundary_gap st (res_u res) e <= boundary_gap st u' e'.
Proof using Hl Ho Hi Hfit Hwf Hr Hlsq.
  intros e0 Hcand c1' e' u' L1' Hcand'.
  destruct ran_c0 as [_ L0]. pose proof ran_c1_length as L1.
  destruct ran_system as (extf & Q1 & rhs & e & Hf & HB & Ev & LQ & Ec1 & _).
  destruct (system c s A extf c0 st_usable Hwf st_gamma HB L0 Hf) as (Q1' & rhs' & Ev' & _ & _ & Hres).
  specialize (Ev' []). fold B in Ev'. rewrite Ev in Ev'. injection Ev' as <- <-.
  assert (K : forall d d' w, length d = length B -> candidate st c0 d d' w ->
    lsq_error (length (ps_gamma s)) (length Q1) (cols_matrix Q1) rhs (as_vec d) = boundary_gap st w d').
  { intros d d' w Ld [Ee' Eu']. destruct (Hres d Ld) as (e1 & u1 & tr1 & E1 & _ & E2 & E3 & _ & E4).
    fold c in Ee'. rewrite E1 in Ee'. injection Ee' as <-. fold s A in Eu'. rewrite E2 in Eu'. injection Eu' as <-.
    rewrite (gap_trace u1 tr1 e1 E3). rewrite LQ. apply lsq_gap. exact E4. }
  rewrite <- (K c1 e0 _ L1 Hcand), <- (K c1' e' u' L1' Hcand').
  pose proof (Hlsq Q1 rhs Ev (as_vec c1')) as H. fold s in H.
  replace (lsq_error (length (ps_gamma s)) (length Q1) (cols_matrix Q1) rhs (as_vec c1)) with
    (lsq_error (length (ps_gamma s)) (length Q1) (cols_matrix Q1) rhs (lib_lstsq lib (length (ps_gamma s)) (length Q1) (cols_matrix Q1) rhs)); [exact H|].
  unfold lsq_error. apply rsum_ext. intros l _. do 3 f_equal. apply mat_app_ext. intros j Hj. rewrite Ec1, as_vec_map_seq by exact Hj. reflexivity.
Qed.

(** ** Reproduction of a discrete solution *)

Variables (v : arr2) (c1' e' : list C).
Hypothesis Hv : forall i j, o_inside o i j -> o_L o v i j = lin_apply_B (st_f st) i j.
Hypothesis L1' : length c1' = length B.
Hypothesis He' : extend_boundary (with_basis c B c0 c1') SrcCoef false = Ok e'.
Hypothesis Htr : forall l, (l < length (ps_gamma s))%nat -> nth_value (ps_N s) (ps_gamma s) v l = as_vec e' l.

Lemma exact_candidate : exists u', candidate st c0 c1' e' u' /\
  (forall i j, reached s (i, j) -> node_value (ps_N s) u' i j = node_value (ps_N s) v i j) /\ boundary_gap st u' e' = 0.
Proof using Hl Ho Hi Hv He' Htr.
  destruct (reproduces s st_usable (st_f st) A (as_vec e') v st_f_A) as (u' & Eu' & Hu').
  - intros i j H. rewrite <- st_L. apply Hv. apply st_inside. exact H.
  - intros l i j E. rewrite <- (Htr l) by (apply nth_error_Some; congruence). unfold nth_value. rewrite E. reflexivity.
  - exists u'. split; [split; [exact He'|exact Eu']|]. split; [exact Hu'|]. apply gap_zero. intros l Hlt. rewrite <- (Htr l Hlt).
    unfold nth_value. destruct (nth_error (ps_gamma s) l) as [[i j]|] eqn:E; [|reflexivity]. apply Hu'.
    apply (reachedb_spec s st_usable). apply (gamma_reached s st_usable). eapply nth_error_In. exact E.
Qed.

Lemma ran_gap_zero : forall e, candidate st c0 c1 e (res_u res) -> boundary_gap st (res_u res) e = 0.
Proof using Hl Ho Hi Hfit Hwf Hr Hlsq Hv L1' He' Htr.
  intros e Hc. destruct exact_candidate as (u' & Hc' & _ & Hz).
  pose proof (ran_best e Hc c1' e' u' L1' Hc') as H. rewrite Hz in H. apply Rle_antisym; [exact H|].
  unfold boundary_gap. cbv zeta. rewrite <- (Rmult_0_r (INR (length (ps_gamma (st_ps st))))), <- rsum_const.
  apply rsum_le. intros. apply pow2_ge_0.
Qed.

Lemma list_eq_vec : forall (l l' : list C), length l = length l' -> (forall j, (j < length l)%nat -> as_vec l j = as_vec l' j) -> l = l'.
Proof using Type. intros l l' L H. apply (nth_ext l l' (RtoC 0) (RtoC 0) L). exact H. Qed.

Lemma ran_exact : neumann_determined st -> c1 = c1' /\
  forall i j, reached s (i, j) -> node_value (ps_N s) (res_u res) i j = node_value (ps_N s) v i j.
Proof using Hl Ho Hi Hfit Hwf Hr Hlsq Hv L1' He' Htr.
  intros Hdet. destruct ran_c0 as [_ L0]. pose proof ran_c1_length as L1.
  destruct ran_system as (extf & Q1 & rhs & e & Hf & HB & Ev & LQ & Ec1 & Hcand).
  destruct (system c s A extf c0 st_usable Hwf st_gamma HB L0 Hf) as (Q1' & rhs' & Ev' & _ & EQ & Hres).
  specialize (Ev' []). fold B in Ev'. rewrite Ev in Ev'. injection Ev' as <- <-.
  destruct exact_candidate as (u' & [Ee' Eu'] & Hu' & Hz).
  assert (Ec : c1 = c1').
  { apply list_eq_vec; [congruence|]. intros j Hj. rewrite L1 in Hj.
    rewrite Ec1, as_vec_map_seq by (rewrite LQ; exact Hj). rewrite LQ.
    apply (recovered (length (ps_gamma s)) (length B) (cols_matrix Q1) rhs); [apply determined_rank; assumption| | |exact Hj].
    - pose proof (Hlsq Q1 rhs Ev) as H. fold s in H. rewrite LQ in H. exact H.
    - intros l Hlt. destruct (Hres c1' L1') as (e1 & u1 & tr1 & E1 & _ & E2 & E3 & _ & E4).
      change (extend_boundary (with_basis c (ec_B c) c0 c1') SrcCoef false = Ok e') in Ee'. rewrite E1 in Ee'. injection Ee' as <-.
      change (ps_u_act s (as_vec e1) A = Ok u') in Eu'. rewrite E2 in Eu'. injection Eu' as <-.
      destruct (trace_spec s st_usable u1) as (tr2 & Et2 & Ht2). rewrite E3 in Et2. injection Et2 as <-.
      specialize (E4 l Hlt). pose proof (proj1 (gap_zero u1 e1) Hz l Hlt) as G. unfold nth_value in G.
      destruct (nth_error (ps_gamma s) l) as [[p q]|] eqn:E; [|apply nth_error_None in E; lia].
      rewrite (Ht2 l p q E), G in E4. fold B in E4.
      replace (rhs l) with (Cminus (mat_app (length B) (cols_matrix Q1) (as_vec c1') l) (Cminus (mat_app (length B) (cols_matrix Q1) (as_vec c1') l) (rhs l))) by ring.
      rewrite E4. ring. }
  split; [exact Ec|]. destruct Hcand as [Ee Eu]. rewrite Ec in Ee.
  rewrite Ee' in Ee. injection Ee as <-. rewrite Eu' in Eu. injection Eu as <-. exact Hu'.
Qed.

End Ran.
End Constructed.

(** ** The source extension on the arc domain *)

Lemma unit_vec_ok : forall v : R * R, v <> (0, 0) -> exists w, unit_vec v = Ok w.
Proof.
  intros [vx vy] H. unfold unit_vec. destruct (Reqb_spec (norm2 (vx, vy)) 0) as [E|E]; [|eexists; reflexivity].
  exfalso. apply H. unfold norm2 in E. cbn [fst snd] in E. apply sqrt_eq_0 in E; [|nra].
  f_equal; nra.
Qed.

(** A listed node lies at signed distance n along the ray at its angle. *)
Lemma arc_point : forall brentq order c p n th x y, brentq_contract brentq -> arc_solver brentq order c ->
  ec_bcoord c p = Some (n, th) -> ctx_coord c p = (x, y) ->
  x = ec_R c * cos th + n * cos th /\ y = ec_R c * sin th + n * sin th /\ n = sqrt (x ^ 2 + y ^ 2) - ec_R c /\
  ec_a c / 2 <= th <= 2 * PI + ec_a c / 2.
Proof.
  intros brentq order c p n th x y Hb (HR & Ha & HL & HN & Er & Hnb & _) Hbc Exy.
  destruct (ps_polar_xy (ec_a c) x y) as [r2 th2] eqn:Ep. pose proof PI_RGT_0 as HPI.
  destruct (ps_polar_spec (ec_a c) x y r2 th2 ltac:(lra) Ep) as (Hr2 & Hth2 & Hx & Hy).
  destruct (bcoord_arc brentq (ec_R c) (ec_a c) (ec_AD c) (ec_N c) Hb HR Ha p x y r2 th2 Exy Ep) as (th' & Eb & Hth' & Eth).
  unfold bcoord in Eb. rewrite <- Hnb, Hbc in Eb. injection Eb as En Eth'. subst th'.
  assert (Er2 : sqrt (x ^ 2 + y ^ 2) = r2).
  { rewrite <- Hx, <- Hy. replace ((r2 * cos th2) ^ 2 + (r2 * sin th2) ^ 2) with (r2 ^ 2).
    - rewrite sqrt_pow2 by exact Hr2. reflexivity.
    - pose proof (sin2_cos2 th2) as S. unfold Rsqr in S. nra. }
  rewrite Er2. split; [|split; [|split; [exact En|lra]]].
  - destruct (Rle_lt_or_eq_dec 0 r2 Hr2) as [L|L]; [rewrite (Eth L), <- Hx, En; ring|rewrite <- Hx, En, <- L; ring].
  - destruct (Rle_lt_or_eq_dec 0 r2 Hr2) as [L|L]; [rewrite (Eth L), <- Hy, En; ring|rewrite <- Hy, En, <- L; ring].
Qed.

Lemma arc_inhomo_0 : forall brentq order c p e, brentq_contract brentq -> arc_solver brentq order c -> ec_homogeneous c = false ->
  In p (ec_gamma c 0) -> node_etype c 0 p = Ok e ->
  fst (ctx_coord c p) ^ 2 + snd (ctx_coord c p) ^ 2 <> ec_R c ^ 2 ->
  exists v, do_extend_inhomo c 0 e p = Ok v.
Proof.
  intros brentq order c p e Hb Hc Hhom Hin Het Hoff.
  pose proof Hc as (HR & Ha & HL & HN & Er & Hnb & _ & _). pose proof PI_RGT_0 as HPI.
  destruct (ctx_coord c p) as [x y] eqn:Exy. cbn [fst snd] in Hoff.
  destruct (ps_polar_xy (ec_a c) x y) as [r2 th2] eqn:Ep.
  destruct (bcoord_arc brentq (ec_R c) (ec_a c) (ec_AD c) (ec_N c) Hb HR Ha p x y r2 th2 Exy Ep) as (th & Eb & _).
  unfold bcoord in Eb. rewrite <- Hnb in Eb. clear Ep. set (n := r2 - ec_R c) in Eb. clearbody n.
  destruct (arc_point brentq order c p n th x y Hb Hc Eb Exy) as (Px & Py & En & Hth).
  assert (Hn : n <> 0).
  { intros Z. apply Hoff. rewrite Z in En. assert (E : sqrt (x ^ 2 + y ^ 2) = ec_R c) by lra.
    rewrite <- E, pow2_sqrt by nra. reflexivity. }
  assert (Ecache : ctx_cache c p = Ok (n, th)).
  { unfold ctx_cache, cache_get. rewrite (proj2 (node_mem_in _ _) Hin), Eb. reflexivity. }
  assert (Hnv : exists w, unit_vec (x - ec_R c * cos th, y - ec_R c * sin th) = Ok w).
  { apply unit_vec_ok. intros E. injection E as E1 E2. rewrite Px in E1. rewrite Py in E2.
    pose proof (sin2_cos2 th) as S. unfold Rsqr in S.
    assert (n * cos th = 0) by lra. assert (n * sin th = 0) by lra.
    assert (cos th = 0) by (apply (Rmult_eq_reg_l n); [lra|exact Hn]). assert (sin th = 0) by (apply (Rmult_eq_reg_l n); [lra|exact Hn]). nra. }
  destruct Hnv as (nv & Enw).
  unfold node_etype in Het. rewrite Exy, (proj2 (node_mem_in _ _) Hin), Ecache in Het. cbn [bind etype_of] in Het.
  assert (Hcorner : forall th0, 0 < Rabs (th - th0) < PI -> exists w, unit_vec (ec_R c * cos th - ec_R c * cos th0, ec_R c * sin th - ec_R c * sin th0) = Ok w).
  { intros th0 Hgap. apply unit_vec_ok. intros E. injection E as C1 C2.
    assert (C1' : cos th = cos th0) by nra. assert (C2' : sin th = sin th0) by nra.
    assert (Cc : cos (th - th0) = 1). { rewrite cos_minus, C1', C2'. pose proof (sin2_cos2 th0) as S. unfold Rsqr in S. lra. }
    assert (Ca : cos (Rabs (th - th0)) = 1) by (unfold Rabs; destruct (Rcase_abs (th - th0)); [rewrite cos_neg|]; exact Cc).
    pose proof (cos_decreasing_1 0 (Rabs (th - th0)) ltac:(lra) ltac:(lra) ltac:(lra) ltac:(lra) ltac:(lra)) as L.
    rewrite cos_0 in L. lra. }
  unfold do_extend_inhomo. rewrite Hhom.
  destruct (Rltb_spec (2 * PI) th) as [T1|T1]; [|destruct (Rltb_spec th (ec_a c)) as [T2|T2]]; injection Het as <-.
  - destruct (Hcorner (2 * PI)) as (w & Ew); [rewrite Rabs_pos_eq by lra; lra|].
    unfold extend_inhomo_0_lr. rewrite Ecache. cbn [bind]. rewrite Er, Exy. unfold r_arc. cbv beta.
    rewrite Ew. cbn [bind]. destruct (ps_get_polar _ _ _ _ _). rewrite Enw. cbn [bind]. eexists. reflexivity.
  - destruct (Hcorner (ec_a c)) as (w & Ew); [rewrite Rabs_left by lra; lra|].
    unfold extend_inhomo_0_lr. rewrite Ecache. cbn [bind]. rewrite Er, Exy. unfold r_arc. cbv beta.
    rewrite Ew. cbn [bind]. destruct (ps_get_polar _ _ _ _ _). rewrite Enw. cbn [bind]. eexists. reflexivity.
  - unfold do_extend_inhomo_0_standard. rewrite Ecache. cbn [bind]. rewrite Er, Exy. unfold r_arc at 1 2. cbv beta.
    rewrite Enw. cbn [bind]. eexists. reflexivity.
Qed.

Lemma straight_inhomo : forall c sid p e, 0 < ec_R c -> 0 < ec_a c < PI -> ec_homogeneous c = false -> (sid = 1 \/ sid = 2)%nat ->
  node_etype c sid p = Ok e -> exists v, do_extend_inhomo c sid e p = Ok v.
Proof.
  intros c sid p e HR Ha Hhom Hs Het. destruct (ctx_coord c p) as [x y] eqn:Exy.
  assert (Hsin : 0 < sin (ec_a c)) by (apply sin_gt_0; lra).
  unfold node_etype in Het. rewrite Exy in Het.
  destruct Hs as [-> | ->]; unfold do_extend_inhomo; rewrite Hhom; destruct e; try (eexists; reflexivity).
  - cbn [etype_of] in Het. destruct (Rltb_spec x 0); [discriminate|]. destruct (Rltb_spec (ec_R c) x) as [L|]; [|discriminate].
    unfold extend_inhomo_12_r. rewrite Exy.
    destruct (unit_vec_ok (x - ec_R c, 0 - 0)) as (w & ->); [intros E; injection E as E1 _; lra|]. cbn [bind]. eexists. reflexivity.
  - cbn [etype_of] in Het. unfold extend_inhomo_12_r. rewrite Exy. rewrite get_radius_point_eq in * by exact Ha.
    destruct (Rltb_spec ((x * cos (ec_a c) + y * sin (ec_a c)) * sin (ec_a c)) 0); [discriminate|].
    destruct (Rltb_spec (ec_R c * sin (ec_a c)) ((x * cos (ec_a c) + y * sin (ec_a c)) * sin (ec_a c))) as [L|]; [|discriminate].
    destruct (unit_vec_ok ((x * cos (ec_a c) + y * sin (ec_a c)) * cos (ec_a c) - ec_R c * cos (ec_a c),
                           (x * cos (ec_a c) + y * sin (ec_a c)) * sin (ec_a c) - ec_R c * sin (ec_a c))) as (w & ->).
    + intros E. injection E as _ E2. lra.
    + cbn [bind]. eexists. reflexivity.
Qed.

Lemma arc_inhomo_ok : forall brentq order c, brentq_contract brentq -> arc_solver brentq order c -> ctx_wf c ->
  (ec_homogeneous c = true \/ forall p, In p (ec_gamma c 0) -> fst (ctx_coord c p) ^ 2 + snd (ctx_coord c p) ^ 2 <> ec_R c ^ 2) ->
  exists extf, extend_inhomo_f c = Ok extf.
Proof.
  intros brentq order c Hb Hc Hwf Hoff. pose proof Hc as (HR & Ha & _).
  unfold extend_inhomo_f, mv_extend_inhomo_f. eexists.
  apply (extend_reduce c (do_extend_inhomo c) (node_et c) (node_va (do_extend_inhomo c) c) Hwf).
  intros sid p Hs Hp. destruct (node_linear c sid p Hwf Hs Hp) as (e & elen & v0 & v1 & He & _).
  assert (Et : node_et c sid p = e) by (unfold node_et; rewrite He; reflexivity).
  unfold node_va. rewrite Et. split; [exact He|].
  assert (K : exists v, do_extend_inhomo c sid e p = Ok v).
  { destruct (ec_homogeneous c) eqn:Eh.
    - unfold do_extend_inhomo. rewrite Eh. eexists. reflexivity.
    - destruct Hoff as [|Hoff]; [discriminate|]. destruct sid as [|sid].
      + apply (arc_inhomo_0 brentq order); auto.
      + apply straight_inhomo; auto. lia. }
  destruct K as (v & ->). reflexivity.
Qed.

(** ** The constructor and the run succeed *)

Lemma run_total : forall lib o st nc nr extf, enumerating lib -> options_ok o -> fit_sizes lib -> ps_init lib o = Ok st ->
  ctx_wf (st_ctx st) -> extend_inhomo_f (st_ctx st) = Ok extf -> basis_sizes o = Ok (nc, nr) -> (1 <= nc)%nat -> (1 <= nr)%nat ->
  sample_ok (o_r o) (o_R o) (o_a o) -> (o_known o = true -> exists i j, o_inside o i j) ->
  exists res, ps_run lib o st = Ok res.
Proof.
  intros lib o st nc nr extf Hl Ho Hfit Hi Hwf Hf Hn Hc Hr Hs Hk.
  destruct (st_basis lib o st Hi) as (nc' & nr' & En & EB & Eseg). rewrite Hn in En. injection En as <- <-.
  unfold ps_run. cbv zeta. rewrite Eseg.
  destruct (calc_c0 (lib_chebfit lib) (get_chebyshev_roots (Z.to_nat n_chebyshev_nodes)) (o_R o) (o_a o) (snd (setup_basis nc nr)) (o_bc o)) as [c0|] eqn:E0;
    [|rewrite calc_c0_eq in E0 by lia; discriminate].
  cbn [bind]. destruct (calc_c0_nth _ _ _ _ _ _ _ _ Hfit E0) as [L0 _]. rewrite <- EB in L0.
  destruct (c0_test_spec sample_n (o_r o) (o_bc o) (o_R o) (o_a o) (ec_B (st_ctx st)) c0) as (eo & e & Et & _); [unfold sample_n; lia|exact Hs|exact L0|].
  rewrite Et. cbn [bind].
  assert (HB : (0 < length (ec_B (st_ctx st)))%nat) by (rewrite EB, B_desc_length; lia).
  destruct (system (st_ctx st) (st_ps st) (st_ap st) extf c0 (st_usable lib o st Hl Ho Hi) Hwf (st_gamma lib o st Hi) HB L0 Hf)
    as (Q1 & rhs & Ev & LQ & _ & Hres).
  unfold solve_var. change (set_coef (st_ctx st) c0 []) with (with_basis (st_ctx st) (ec_B (st_ctx st)) c0 []). rewrite Ev. cbn [bind].
  match goal with |- context [map ?x (seq 0 (length Q1))] => set (c1 := map x (seq 0 (length Q1))) end.
  assert (L1 : length c1 = length (ec_B (st_ctx st))) by (unfold c1; rewrite map_length, seq_length; exact LQ).
  destruct (Hres c1 L1) as (ext & u & tr & Ee & _ & Eu & _).
  change (set_coef (st_ctx st) c0 c1) with (with_basis (st_ctx st) (ec_B (st_ctx st)) c0 c1). rewrite Ee. cbn [bind].
  change (list_vec ext) with (as_vec ext). rewrite Eu. cbn [bind].
  destruct (o_known o) eqn:Ek.
  - destruct (Hk eq_refl) as (i & j & Hij).
    destruct (eval_error_spec (o_N o) (o_AD o) (o_expected o) u (o_interior o) (lib_enum lib (global_Mplus (o_N o) (o_interior o))) (Hl _)) as (e' & Ee' & _).
    { intros E. assert (H : In (i, j) (lib_enum lib (global_Mplus (o_N o) (o_interior o)))) by (apply Hl, Mplus_in; exact Hij).
      rewrite E in H. destruct H. }
    rewrite Ee'. cbn [bind]. eexists. reflexivity.
  - rewrite eval_error_unknown. cbn [bind]. eexists. reflexivity.
Qed.

Lemma arc_init : forall lib o nc nr, enumerating lib -> options_ok o -> arc_options lib o -> basis_sizes o = Ok (nc, nr) ->
  (o_homogeneous o = true \/ (o_order o = 2)%Z \/ exists F, boundary_source o F) ->
  exists st, ps_init lib o = Ok st /\ arc_solver (lib_brentq lib) (o_order o) (st_ctx st) /\ ctx_wf (st_ctx st) /\ st_gave_up st = false.
Proof.
  intros lib o nc nr Hl Ho (Hb & Er & HR & Ha & HL & Hbound) Hn Hsrc.
  pose proof (init_ps_usable lib o Hl Ho) as U. destruct Ho as (HN & Hord & _ & Hm & _).
  assert (HR' : 0 < o_R o) by lra.
  assert (Hins : o_interior o = ps_is_interior (r_arc (o_R o)) (o_a o) (o_AD o) (o_N o)) by (unfold o_interior; rewrite Er; reflexivity).
  destruct (gamma_placed_spec (lib_brentq lib) (o_R o) (o_a o) (o_AD o) (o_N o) Hb HR' Ha HL ltac:(lia) (o_order o)
    (lib_enum lib (gamma_set (o_order o) (o_N o) (o_interior o))) Hord ltac:(rewrite <- Hins; apply Hl)) as (g0 & g1 & g2 & Eg & _).
  set (c := mk_ctx (o_k o) (o_R o) (o_a o) (o_AD o) (o_N o) (o_r o)
        (node_bcoord (lib_brentq lib) (o_r o) (o_a o) (o_AD o) (o_N o))
        (lib_enum lib (gamma_set (o_order o) (o_N o) (o_interior o)))
        (fun sid => match sid with 0%nat => g0 | 1%nat => g1 | _ => g2 end)
        (fst (setup_basis nc nr)) [] [] (o_homogeneous o) (o_src o)).
  assert (Ec : init_ctx lib o (fst (setup_basis nc nr)) = Ok c) by (unfold init_ctx; rewrite Er, Eg; cbn [bind]; unfold c; rewrite Er; reflexivity).
  assert (Hc : arc_solver (lib_brentq lib) (o_order o) c).
  { split; [exact HR'|]. split; [exact Ha|]. split; [exact HL|]. split; [cbn; lia|]. split; [exact Er|].
    split; [cbn [c ec_bcoord]; rewrite Er; reflexivity|]. split; [cbn [c ec_union ec_N ec_R ec_a ec_AD]; rewrite <- Hins; apply Hl|].
    cbn [c ec_R ec_a ec_AD ec_N ec_bcoord ec_union ec_gamma]. rewrite Er. exact Eg. }
  assert (Hwf : ctx_wf c) by (apply (arc_ctx_wf (lib_brentq lib) (o_order o)); auto).
  assert (Hf : exists f, setup_f lib o c (init_ps lib o) = Ok (f, false)).
  { unfold setup_f. destruct (o_homogeneous o) eqn:Eh.
    - unfold extend_f. cbn [c ec_homogeneous]. eexists. reflexivity.
    - destruct Hord as [E2|E4].
      + assert (En : lib_enum lib (node_diff (Kplus (o_order o) (o_N o) (o_interior o)) (global_Mplus (o_N o) (o_interior o))) = []).
        { destruct (lib_enum lib (node_diff (Kplus (o_order o) (o_N o) (o_interior o)) (global_Mplus (o_N o) (o_interior o)))) as [|q l] eqn:E; [reflexivity|]. exfalso.
          assert (Hq : In q (q :: l)) by (left; reflexivity). rewrite <- E in Hq. apply Hl, node_diff_in in Hq. destruct Hq as [H1 H2].
          apply Kplus_in in H1; [|left; exact E2]. destruct H1 as (p & Hp & [->|[H4 _]]); [contradiction|lia]. }
        rewrite En. unfold extend_f. cbn [c ec_homogeneous extend_f_loop]. eexists. reflexivity.
      + destruct Hsrc as [|[|(F & HF)]]; [congruence|lia|]. rewrite E4 in Hc |- *.
        destruct (extend_f_arc (lib_brentq lib) c F (lib_enum lib (node_diff (Kplus 4 (o_N o) (o_interior o)) (global_Mplus (o_N o) (o_interior o))))
          (setup_f_interior (init_ps lib o) (s_f (o_src o))) Hb Hc) as (f' & Ef & _).
        * cbn [c ec_R ec_a ec_AD ec_N]. rewrite <- Hins. exact Hm.
        * cbn [c ec_R ec_a ec_AD ec_N]. assert (0 < IZR (o_N o)) by (apply IZR_lt; lia).
          assert (0 < o_AD o / IZR (o_N o)) by (apply Rdiv_lt_0_compat; lra).
          assert (1 < sqrt 2) by (rewrite <- sqrt_1 at 1; apply sqrt_lt_1; lra).
          pose proof (sqrt_pos (2 / (1 - Rabs (cos (o_a o))))) as Hq. set (q := sqrt (2 / (1 - Rabs (cos (o_a o))))) in *.
          set (h := o_AD o / IZR (o_N o)) in *. assert (h * 1 <= h * sqrt 2) by (apply Rmult_le_compat_l; lra).
          assert (0 <= h * sqrt 2 * q) by (apply Rmult_le_pos; [apply Rmult_le_pos|]; lra). lra.
        * reflexivity.
        * exact HF.
        * cbn [c ec_R ec_a ec_AD ec_N]. rewrite <- Hins. apply Hl.
        * exists f'. exact Ef. }
  destruct Hf as (f & Ef). destruct (ap_sol_f_spec (init_ps lib o) U f) as (A & EA & _).
  exists (mk_state c (init_ps lib o) (snd (setup_basis nc nr)) f false A).
  split; [|split; [exact Hc|split; [exact Hwf|reflexivity]]].
  unfold ps_init. rewrite Hn. cbn [bind fst snd]. destruct (setup_basis nc nr) as [B seg] eqn:EBs. cbn [fst snd] in *.
  rewrite Ec. cbn [bind]. rewrite Ef. cbn [bind fst snd]. rewrite EA. reflexivity.
Qed.

Lemma arc_inhomo_state : forall lib o st, enumerating lib -> arc_options lib o -> ps_init lib o = Ok st ->
  arc_solver (lib_brentq lib) (o_order o) (st_ctx st) -> ctx_wf (st_ctx st) -> (o_homogeneous o = true \/ off_circle o) ->
  exists extf, extend_inhomo_f (st_ctx st) = Ok extf.
Proof.
  intros lib o st Hl (Hb & _) Hi Hc Hwf Hoff.
  destruct (ps_init_inv lib o st Hi) as (nc & nr & c & f & b & A & _ & Ec & _ & _ & ->). cbn [st_ctx] in *.
  apply (arc_inhomo_ok (lib_brentq lib) (o_order o) c Hb Hc Hwf).
  destruct (init_ctx_inv _ _ _ _ Ec) as (g0 & g1 & g2 & Eg & Ecc).
  destruct Hoff as [Hh|Hoff]; [left; rewrite Ecc; exact Hh|right]. intros p Hp.
  destruct Hwf as (_ & _ & Hin & _). specialize (Hin 0%nat p ltac:(lia) Hp). rewrite Ecc in Hin. cbn [ec_union] in Hin.
  apply (proj2 (Hl (gamma_set (o_order o) (o_N o) (o_interior o)))) in Hin. specialize (Hoff p Hin). unfold ctx_coord. rewrite Ecc. cbn [ec_AD ec_N ec_R].
  destruct (get_coord (o_AD o) (o_N o) (fst p) (snd p)). exact Hoff.
Qed.

Lemma arc_sample_ok : forall lib o, arc_options lib o -> sample_ok (o_r o) (o_R o) (o_a o).
Proof.
  intros lib o (_ & Er & HR & Ha & _). pose proof PI_RGT_0.
  split; [exact HR|]. split; [lra|]. split.
  - assert (1 < PI) by (pose proof PI2_1; lra). lra.
  - intros th _. rewrite Er. unfold r_arc. lra.
Qed.

Lemma arc_total : forall lib o nc nr, enumerating lib -> options_ok o -> fit_sizes lib -> arc_options lib o ->
  basis_sizes o = Ok (nc, nr) -> (1 <= nc)%nat -> (1 <= nr)%nat ->
  (o_homogeneous o = true \/ off_circle o /\ ((o_order o = 2)%Z \/ exists F, boundary_source o F)) ->
  (o_known o = true -> exists i j, o_inside o i j) ->
  exists st res, ps_init lib o = Ok st /\ st_gave_up st = false /\ ctx_wf (st_ctx st) /\ ps_run lib o st = Ok res.
Proof.
  intros lib o nc nr Hl Ho Hfit Harc Hn Hc Hr Hsrc Hk.
  destruct (arc_init lib o nc nr Hl Ho Harc Hn) as (st & Hi & Hs & Hwf & Hg); [tauto|].
  destruct (arc_inhomo_state lib o st Hl Harc Hi Hs Hwf) as (extf & Hf); [tauto|].
  destruct (run_total lib o st nc nr extf Hl Ho Hfit Hi Hwf Hf Hn Hc Hr (arc_sample_ok lib o Harc) Hk) as (res & Hres).
  exists st, res. auto.
Qed.

(** Order 4, quadratic source: the array f is the source on every node the
    right-hand side reads. *)
Lemma quadratic_source : forall lib o st F, enumerating lib -> options_ok o -> arc_options lib o -> (o_order o = 4)%Z ->
  ps_init lib o = Ok st -> o_homogeneous o = false -> boundary_source o F -> quadratic F ->
  (forall x y, s_f (o_src o) x y = F 0%nat 0%nat x y) ->
  forall i j, In (i, j) (Kplus 4 (o_N o) (o_interior o)) ->
    st_f st i j = F 0%nat 0%nat (fst (get_coord (o_AD o) (o_N o) i j)) (snd (get_coord (o_AD o) (o_N o) i j)).
Proof.
  intros lib o st F Hl Ho Harc E4 Hi Hh HF Hq Hs i j Hij.
  destruct (basis_sizes o) as [[nc nr]|] eqn:Hn; [|destruct (ps_init_inv lib o st Hi) as (nc & nr & c & f & b & A & En & _); congruence].
  destruct (arc_init lib o nc nr Hl Ho Harc Hn) as (st' & Hi' & Hc & Hwf & _); [right; right; exists F; exact HF|].
  rewrite Hi in Hi'. injection Hi' as <-.
  destruct (ps_init_inv lib o st Hi) as (nc' & nr' & c & f & b & A & En & Ec & Ef & _ & Est).
  destruct Harc as (Hb & Er & HR & Ha & HL & Hbound). destruct Ho as (HN & Hord & _ & Hm & _).
  assert (Hins : o_interior o = ps_is_interior (r_arc (o_R o)) (o_a o) (o_AD o) (o_N o)) by (unfold o_interior; rewrite Er; reflexivity).
  rewrite Est in *. cbn [st_ctx st_f] in *. clear Est.
  destruct (init_ctx_inv _ _ _ _ Ec) as (g0 & g1 & g2 & Eg & Ecc).
  assert (F1 : ec_R c = o_R o /\ ec_a c = o_a o /\ ec_AD c = o_AD o /\ ec_N c = o_N o /\ ec_homogeneous c = o_homogeneous o /\ ec_src c = o_src o)
    by (rewrite Ecc; repeat split; reflexivity).
  destruct F1 as (X1 & X2 & X3 & X4 & X5 & X6). rewrite E4 in Hc.
  unfold setup_f in Ef. rewrite E4 in Ef.
  destruct (extend_f_quadratic (lib_brentq lib) c F (lib_enum lib (node_diff (Kplus 4 (o_N o) (o_interior o)) (global_Mplus (o_N o) (o_interior o))))
     (setup_f_interior (init_ps lib o) (s_f (o_src o))) Hb Hc) as (f' & Ef' & Hf').
  - rewrite X1, X2, X3, X4, <- Hins. exact Hm.
  - rewrite X1, X3, X4. assert (0 < IZR (o_N o)) by (apply IZR_lt; lia).
    assert (0 < o_AD o / IZR (o_N o)) by (apply Rdiv_lt_0_compat; lra).
    assert (1 < sqrt 2) by (rewrite <- sqrt_1 at 1; apply sqrt_lt_1; lra).
    pose proof (sqrt_pos (2 / (1 - Rabs (cos (o_a o))))) as Hq'. set (q := sqrt (2 / (1 - Rabs (cos (o_a o))))) in *.
    set (h := o_AD o / IZR (o_N o)) in *. assert (h * 1 <= h * sqrt 2) by (apply Rmult_le_compat_l; lra).
    assert (0 <= h * sqrt 2 * q) by (apply Rmult_le_pos; [apply Rmult_le_pos|]; lra). lra.
  - rewrite X5. exact Hh.
  - rewrite X1, X2, X6. exact HF.
  - exact Hq.
  - rewrite X1, X2, X3, X4, <- Hins. apply Hl.
  - rewrite Ef in Ef'. injection Ef' as <- _. rewrite Hf', X3, X4.
    destruct (node_mem (i, j) (lib_enum lib _)) eqn:Em.
    + destruct (get_coord (o_AD o) (o_N o) i j). reflexivity.
    + apply node_mem_not_in in Em.
      assert (Hp : In (i, j) (global_Mplus (o_N o) (o_interior o))).
      { destruct (node_mem (i, j) (global_Mplus (o_N o) (o_interior o))) eqn:E; [apply node_mem_in; exact E|].
        apply node_mem_not_in in E. exfalso. apply Em. apply Hl. apply node_diff_in. tauto. }
      unfold setup_f_interior. cbn [init_ps ps_N ps_interior ps_AD_len].
      apply node_mem_in in Hp. rewrite Hp. destruct (get_coord _ _ i j). apply Hs.
Qed.

(** Then the run solves the scheme for the source itself. *)
Lemma quadratic_equation : forall lib o st res F, enumerating lib -> options_ok o -> arc_options lib o -> (o_order o = 4)%Z ->
  ps_init lib o = Ok st -> ps_run lib o st = Ok res -> o_homogeneous o = false -> boundary_source o F -> quadratic F ->
  (forall x y, s_f (o_src o) x y = F 0%nat 0%nat x y) ->
  forall i j, o_inside o i j -> o_L o (res_u res) i j =
    lin_apply_B (fun i j => F 0%nat 0%nat (fst (get_coord (o_AD o) (o_N o) i j)) (snd (get_coord (o_AD o) (o_N o) i j))) i j.
Proof.
  intros lib o st res F Hl Ho Harc E4 Hi Hr Hh HF Hq Hs i j Hij.
  rewrite (run_equation lib o st res Hl Ho Hi Hr i j Hij).
  apply (B_reads_Kplus (o_N o) (o_interior o)); [apply Hij|apply Hij|].
  intros [p q] Hp. apply (quadratic_source lib o st F Hl Ho Harc E4 Hi Hh HF Hq Hs p q Hp).
Qed.

(** ** Q_residual *)

Lemma Q_residual_spec : forall lib o st nc nr extf du, enumerating lib -> options_ok o -> fit_sizes lib -> ps_init lib o = Ok st ->
  ctx_wf (st_ctx st) -> extend_inhomo_f (st_ctx st) = Ok extf -> basis_sizes o = Ok (nc, nr) -> (1 <= nc)%nat -> (1 <= nr)%nat ->
  (0 < length (ps_gamma (st_ps st)))%nat ->
  exists c0 c1 e u rs m,
    calc_c0 (lib_chebfit lib) (get_chebyshev_roots (Z.to_nat n_chebyshev_nodes)) (o_R o) (o_a o) (st_seg st) (o_bc o) = Ok c0 /\
    calc_c0 (lib_chebfit lib) (get_chebyshev_roots (Z.to_nat n_chebyshev_nodes)) (o_R o) (o_a o) (st_seg st) du = Ok c1 /\
    candidate st c0 c1 e u /\ Q_residual lib o st du = Ok (rs, m) /\
    length rs = length (ps_gamma (st_ps st)) /\
    (forall l, (l < length rs)%nat -> nth l rs 0 = Cmod (Cminus (nth_value (o_N o) (ps_gamma (st_ps st)) u l) (as_vec e l))) /\
    is_max (fun l => (l < length rs)%nat) (fun l => nth l rs 0) m.
Proof.
  intros lib o st nc nr extf du Hl Ho Hfit Hi Hwf Hf Hn Hc Hr Hg.
  destruct (st_basis lib o st Hi) as (nc' & nr' & En & EB & Eseg). rewrite Hn in En. injection En as <- <-.
  destruct (st_N lib o st Hi) as [EN _].
  destruct (calc_c0 (lib_chebfit lib) (get_chebyshev_roots (Z.to_nat n_chebyshev_nodes)) (o_R o) (o_a o) (snd (setup_basis nc nr)) (o_bc o)) as [c0|] eqn:E0;
    [|rewrite calc_c0_eq in E0 by lia; discriminate].
  destruct (calc_c0 (lib_chebfit lib) (get_chebyshev_roots (Z.to_nat n_chebyshev_nodes)) (o_R o) (o_a o) (snd (setup_basis nc nr)) du) as [c1|] eqn:E1;
    [|rewrite calc_c0_eq in E1 by lia; discriminate].
  destruct (calc_c0_nth _ _ _ _ _ _ _ _ Hfit E0) as [L0 _]. rewrite <- EB in L0.
  destruct (calc_c0_nth _ _ _ _ _ _ _ _ Hfit E1) as [L1 _]. rewrite <- EB in L1.
  assert (HB : (0 < length (ec_B (st_ctx st)))%nat) by (rewrite EB, B_desc_length; lia).
  pose proof (st_usable lib o st Hl Ho Hi) as U.
  destruct (system (st_ctx st) (st_ps st) (st_ap st) extf c0 U Hwf (st_gamma lib o st Hi) HB L0 Hf)
    as (Q1 & rhs & Ev & LQ & _ & Hres).
  destruct (Hres c1 L1) as (e & u & tr & Ee & _ & Eu & Et & _ & Hq).
  destruct (mat_dot_total Q1 c1 ltac:(congruence)) as (q & Eq).
  set (rs := map (fun l => Cmod (Cminus (q l) (rhs l))) (seq 0 (length (ps_gamma (st_ps st))))).
  assert (Lrs : length rs = length (ps_gamma (st_ps st))) by (unfold rs; rewrite map_length, seq_length; reflexivity).
  destruct (py_max_total rs) as (m & Em); [intros E; rewrite E in Lrs; cbn in Lrs; lia|].
  exists c0, c1, e, u, rs, m. rewrite Eseg. split; [exact E0|]. split; [exact E1|]. split; [split; assumption|].
  split; [|split; [exact Lrs|split]].
  - unfold Q_residual. cbv zeta. rewrite Eseg, calc_c1_exact_eq, E0. cbn [bind]. rewrite E1. cbn [bind].
    change (set_coef (st_ctx st) c0 c1) with (with_basis (st_ctx st) (ec_B (st_ctx st)) c0 c1). rewrite Ev. cbn [bind]. rewrite Eq. cbn [bind].
    fold rs. rewrite Em. reflexivity.
  - intros l Hlt. rewrite Lrs in Hlt. unfold rs.
    erewrite nth_error_nth; [|rewrite nth_error_map, (nth_error_nth' _ 0%nat), seq_nth by (rewrite ?seq_length; exact Hlt); reflexivity].
    cbn [Nat.add]. f_equal.
    destruct (mat_dot_app _ _ _ Eq) as [_ Hq']. rewrite Hq', LQ, (Hq l Hlt). f_equal.
    destruct (trace_spec (st_ps st) U u) as (tr' & Et' & Ht'). rewrite Et in Et'. injection Et' as <-.
    unfold nth_value. destruct (nth_error (ps_gamma (st_ps st)) l) as [[i j]|] eqn:E; [|apply nth_error_None in E; lia].
    rewrite (Ht' l i j E), EN. reflexivity.
  - apply py_max_spec in Em. destruct Em as [Hin Hmax]. split.
    + destruct (In_nth _ _ 0 Hin) as (l & Hlt & El). exists l. split; [exact Hlt|]. exact El.
    + intros l Hlt. apply Hmax. apply nth_In. exact Hlt.
Qed.

Lemma ran_candidate : forall lib o st res, enumerating lib -> options_ok o -> ps_init lib o = Ok st ->
  fit_sizes lib -> ctx_wf (st_ctx st) -> ps_run lib o st = Ok res ->
  length (res_c0 res) = length (ec_B (st_ctx st)) /\ length (res_c1 res) = length (ec_B (st_ctx st)) /\
  exists e, candidate st (res_c0 res) (res_c1 res) e (res_u res).
Proof.
  intros lib o st res Hl Ho Hi Hfit Hwf Hr. split; [apply (ran_c0 lib o st Hi res Hfit Hr)|].
  split; [apply (ran_c1_length lib o st Hl Ho Hi res Hfit Hwf Hr)|].
  destruct (ran_system lib o st Hl Ho Hi res Hfit Hwf Hr) as (extf & Q1 & rhs & e & _ & _ & _ & _ & _ & H). exists e. exact H.
Qed.

Lemma ran_reproduces : forall lib o st, enumerating lib -> options_ok o -> ps_init lib o = Ok st ->
  forall res, fit_sizes lib -> ctx_wf (st_ctx st) -> ps_run lib o st = Ok res -> lstsq_contract lib st (res_c0 res) ->
  forall v c1' e', (forall i j, o_inside o i j -> o_L o v i j = lin_apply_B (st_f st) i j) ->
  length c1' = length (ec_B (st_ctx st)) ->
  extend_boundary (with_basis (st_ctx st) (ec_B (st_ctx st)) (res_c0 res) c1') SrcCoef false = Ok e' ->
  (forall l, (l < length (ps_gamma (st_ps st)))%nat ->
     nth_value (ps_N (st_ps st)) (ps_gamma (st_ps st)) v l = as_vec e' l) ->
  (forall e, candidate st (res_c0 res) (res_c1 res) e (res_u res) -> boundary_gap st (res_u res) e = 0) /\
  (neumann_determined st -> res_c1 res = c1' /\
     forall i j, reached (st_ps st) (i, j) ->
       node_value (ps_N (st_ps st)) (res_u res) i j = node_value (ps_N (st_ps st)) v i j).
Proof.
  intros lib o st Hl Ho Hi res Hfit Hwf Hr Hlsq v c1' e' Hv L1' He' Htr. split.
  - exact (ran_gap_zero lib o st Hl Ho Hi res Hfit Hwf Hr Hlsq v c1' e' Hv L1' He' Htr).
  - exact (ran_exact lib o st Hl Ho Hi res Hfit Hwf Hr Hlsq v c1' e' Hv L1' He' Htr).
Qed.
