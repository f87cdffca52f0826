(** The run of the regularisation and the main loop of runz.py (C74). *)
From Coq Require Import String ZArith List Bool Reals Lia Lra Psatz.
From Coquelicot Require Import Coquelicot.
From Verif Require Import Model_Py Model_Multivalue Model_Grid Model_Fourier Model_Linop Model_Abcoef Model_PS Model_Domain Model_Extend
  Model_Ode Model_PolarFD Model_ZMethod Model_Problems Model_ZRun Model_Driver Model_Run Model_Program Model_ZProgram
  Spec_Domain Spec_Grid Spec_PS Spec_Fd Spec_PolarFD Spec_Problems Spec_Bessel Spec_Extend Spec_Inhomo Spec_Ode Spec_ZRun Spec_Run Spec_Program Spec_ZProgram
  Proof_Domain Proof_Grid Proof_Place Proof_Curves Proof_Hessian Proof_Regular Proof_ZSing Proof_IzExpected Proof_Corners Proof_ZRun Proof_Driver Proof_Run
  Proof_Program.
Import ListNotations.
Open Scope R_scope.

Local Notation table_size := Spec_Program.table_size.

Lemma zsizes_in_table : forall N, table_size N -> exists nc nr : Z,
  (1 <= nc)%Z /\ (1 <= nr)%Z /\ forall fuel, get_n_basis (S fuel) ihz_n_basis_dict N = Ok (nc, nr).
Proof.
  intros N H. destruct (table_size_cases N H) as (m & Hm & ->).
  cbn [In] in Hm. destruct Hm as [<-|[<-|[<-|[<-|[<-|[<-|[<-|[]]]]]]]];
  (eexists; eexists; split; [|split; [|intros fuel; cbn [get_n_basis]; vm_compute; reflexivity]]; lia).
Qed.

(** The options of the problem u_BVP, with the basis sizes. *)
Definition zopt (L : zlibrary) (p : zproblem) (b : bname) (A : list C) (nc nr : nat) (N order : Z) : options :=
  let r := boundary_r b (23 / 10) None pizza_a in
  mk_opt (zp_k p) (23 / 10) (PI / 4) (2 * PI) N order r (nc, nr) None None
    false (sympy_source (2 * PI) (zm_f (zp_k p) (zp_v_asympt p)))
    (fun arg sid =>
       match zm_u_bc (zl_jv L) (zp_phi0 p r) (zp_phi1 p) (zp_phi2 p) (zm_lambdify (zp_v_asympt p)) A r pizza_a pizza_nu (zp_k p) zm_M arg sid with
       | Ok v => v | Err _ => RtoC 0 end)
    (String.eqb (zp_name p) "iz-bessel") (zm_u_eval_expected p).

Lemma zm_u_options_ok : forall fuel L p b A N order, table_size N -> exists nc nr : nat,
  (1 <= nc)%nat /\ (1 <= nr)%nat /\ forall f, zm_u_options (S (fuel + f)) L p b A N order = Ok (zopt L p b A nc nr N order).
Proof.
  intros fuel L p b A N order H. destruct (zsizes_in_table N H) as (nc & nr & H1 & H2 & E).
  exists (Z.to_nat nc), (Z.to_nat nr). split; [lia|]. split; [lia|]. intros f.
  unfold zm_u_options. rewrite E. reflexivity.
Qed.

Lemma zm_u_options_any : forall fuel L p b A N order o, zm_u_options fuel L p b A N order = Ok o ->
  exists nc nr, o = zopt L p b A nc nr N order.
Proof.
  intros fuel L p b A N order o H. unfold zm_u_options in H.
  destruct (get_n_basis fuel ihz_n_basis_dict N) as [nb|]; cbn [bind] in H.
  - apply Ok_inj' in H. subst o. eexists; eexists; reflexivity.
  - discriminate H.
Qed.

Lemma sing_k : forall J g s, zp_k (sing_problem J g s) = 27 / 4 \/ zp_k (sing_problem J g s) = 43 / 4.
Proof. intros J g s. destruct s; [left|left|right]; reflexivity. Qed.

Lemma zopt_ok : forall L p b A nc nr N order, (zp_k p = 27 / 4 \/ zp_k p = 43 / 4) -> table_size N -> (order = 2 \/ order = 4)%Z ->
  options_ok (zopt L p b A nc nr N order).
Proof.
  intros L p b A nc nr N order Hk HN Ho. destruct (table_size_range N HN) as [HN1 _]. pose proof PI_RGT_0.
  unfold options_ok, zopt. cbn [o_N o_order o_AD o_k]. split; [lia|]. split; [exact Ho|]. split; [lra|]. split.
  - unfold o_interior. cbn [o_r o_a o_AD o_N]. apply program_margin; [lia|]. apply boundary_curves.
  - apply program_solvable; auto.
Qed.

Lemma zopt_arc : forall L p A nc nr N order, brentq_contract (lib_brentq (zl_ps L)) -> table_size N ->
  arc_options (zl_ps L) (zopt L p Arc A nc nr N order).
Proof.
  intros L p A nc nr N order Hb HN. destruct (smooth_options_ok 0 SmoothYCos Arc N order HN) as (nc' & nr' & _ & _ & E).
  exact (smooth_arc 0 (zl_ps L) SmoothYCos N order _ Hb HN E).
Qed.

Lemma zopt_off_circle : forall L p b A nc nr N order, table_size N -> off_circle (zopt L p b A nc nr N order).
Proof.
  intros L p b A nc nr N order HN. destruct (smooth_options_ok 0 SmoothYCos b N order HN) as (nc' & nr' & _ & _ & E).
  exact (smooth_off_circle 0 SmoothYCos b N order _ HN E).
Qed.

Lemma zopt_inside : forall L p A nc nr N order, table_size N -> exists i j, o_inside (zopt L p Arc A nc nr N order) i j.
Proof.
  intros L p A nc nr N order HN. destruct (smooth_options_ok 0 SmoothYCos Arc N order HN) as (nc' & nr' & _ & _ & E).
  exact (smooth_inside 0 SmoothYCos N order _ HN E).
Qed.

Lemma zopt_pizza : forall L p A nc nr N order i j, table_size N ->
  (o_inside (zopt L p Arc A nc nr N order) i j <-> pizza_node N (i, j)).
Proof.
  intros L p A nc nr N order i j HN. destruct (smooth_options_ok 0 SmoothYCos Arc N order HN) as (nc' & nr' & _ & _ & E).
  exact (pizza_inside 0 SmoothYCos N order _ i j HN E).
Qed.

Lemma sympy_symmetric : forall AD f x y, fst (snd (s_hess (sympy_source AD f) x y)) = snd (fst (s_hess (sympy_source AD f) x y)).
Proof.
  intros AD f x y. cbn [sympy_source s_hess]. unfold sp_hessian. destruct (cart_to_polar x y) as [r th]. reflexivity.
Qed.

Lemma zopt_total : forall L p A nc nr N order, enumerating (zl_ps L) -> fit_sizes (zl_ps L) -> brentq_contract (lib_brentq (zl_ps L)) ->
  (zp_k p = 27 / 4 \/ zp_k p = 43 / 4) -> table_size N -> (order = 2 \/ order = 4)%Z -> (1 <= nc)%nat -> (1 <= nr)%nat ->
  let o := zopt L p Arc A nc nr N order in
  exists st res, ps_init (zl_ps L) o = Ok st /\ ps_run (zl_ps L) o st = Ok res /\ st_gave_up st = false.
Proof.
  intros L p A nc nr N order Hl Hf Hb Hk HN Ho Hc Hr o.
  destruct (arc_total (zl_ps L) o nc nr Hl (zopt_ok L p Arc A nc nr N order Hk HN Ho) Hf (zopt_arc L p A nc nr N order Hb HN) eq_refl Hc Hr)
    as (st & res & Hi & Hg & _ & Hrun).
  - right. split; [apply zopt_off_circle; exact HN|right].
    exists (read_source (o_src o)). intros sid b _. apply read_cart. apply sympy_symmetric.
  - intros _. apply zopt_inside. exact HN.
  - exists st, res. auto.
Qed.

(** ** The steps before *)

Lemma convert_ab_b : forall jv c k R0 nu, exists A, b_to_a jv c k R0 nu = Ok A.
Proof. intros. unfold b_to_a, convert_ab. cbn. eexists. reflexivity. Qed.

Lemma a_coef_total : forall lstsq jv acheat name phi0 v vi r a k R0 nu n M m1, exists A,
  zm_calc_a_coef lstsq jv acheat name phi0 v vi r a k R0 nu n M m1 = Ok A.
Proof.
  intros. unfold zm_calc_a_coef, zm_expected_a_coef. destruct (String.eqb name "iz-bessel").
  - cbn [bind]. destruct acheat; eexists; reflexivity.
  - match goal with |- context [b_to_a ?j ?c ?k ?r ?n] => destruct (convert_ab_b j c k r n) as (A & E) end.
    rewrite E. cbn [bind]. destruct acheat; eexists; reflexivity.
Qed.

Lemma v_error_total : forall s v0 v M, (2 <= pf_N s)%Z -> (1 <= M)%nat -> exists e, zm_v_error s v0 v M = Ok e.
Proof.
  intros s v0 v M HN HM.
  assert (Hrow : forall m, exists e, zm_row_error s v0 v M m = Ok e).
  { intros m. unfold zm_row_error. apply py_max_total. intros E. apply (f_equal (@length R)) in E.
    rewrite map_length, seq_length in E. cbn [length] in E. lia. }
  assert (Hrows : forall rows, exists es, zm_row_errors s v0 v M rows = Ok es /\ length es = length rows).
  { induction rows as [|m rows (es & E & El)]; [exists []; split; reflexivity|].
    destruct (Hrow m) as (e & Ee). exists (e :: es). cbn [zm_row_errors]. rewrite Ee. cbn [bind]. rewrite E. cbn [bind length].
    split; [reflexivity|lia]. }
  unfold zm_v_error. destruct (Hrows (py_range 1 (pf_N s))) as (es & E & El). rewrite E. cbn [bind].
  apply py_max_total. intros ->. cbn [length] in El. symmetry in El. apply length_zero_iff_nil in El.
  assert (H : In 1%Z (py_range 1 (pf_N s))).
  { unfold py_range. apply in_map_iff. exists 0%nat. split; [lia|]. apply in_seq. lia. }
  rewrite El in H. destruct H.
Qed.

(** ** The run taken apart *)

Definition zfd (L : zlibrary) (p : zproblem) (b : bname) (z1 : list R) (N : Z) : polar_fd :=
  zm_z_fd N (zp_k p) pizza_a pizza_nu zm_R0 (zm_arc_R problem_R (boundary_bet b None)) zm_M z1 (zp_v_series p) (zp_gq p) (zp_phi1 p) (zp_phi2 p).

Definition zac (L : zlibrary) (p : zproblem) (b : bname) (acheat : bool) (z1 : list R) (N : Z) : result (list C) :=
  let r := boundary_r b problem_R None pizza_a in
  let fd := zfd L p b z1 N in
  zm_calc_a_coef (lib_lstsq (zl_ps L)) (zl_jv L) acheat (zp_name p) (zp_phi0 p r) (zp_eval_v p)
    (zm_v_interp (zl_interp2d L) fd problem_R (boundary_bet b None) (zm_v (zl_spsolve L) acheat fd)) r
    pizza_a (zp_k p) problem_R pizza_nu ab_n_nodes zm_M (get_m1 b).

Lemma zm_run_inv : forall fuel L p b acheat z1cheat attr N order z, zm_run fuel L p b acheat z1cheat attr N order = Ok z ->
  (N <> 0)%Z /\
  zm_z1_fourier L p z1cheat attr (zm_arc_R problem_R (boundary_bet b None)) = Ok (zr_z1 z) /\
  zr_fd z = zfd L p b (zr_z1 z) N /\ zr_v z = zm_v (zl_spsolve L) acheat (zr_fd z) /\
  zac L p b acheat (zr_z1 z) N = Ok (zr_a z) /\
  (exists nc nr, zr_opt z = zopt L p b (zr_a z) nc nr N order) /\
  (exists res, ps_init (zl_ps L) (zr_opt z) = Ok (zr_st z) /\ ps_run (zl_ps L) (zr_opt z) (zr_st z) = Ok res /\
     zr_u z = res_u res /\ zr_u_error z = res_error res) /\
  zm_v_error (zr_fd z) (zp_eval_v p) (zr_v z) zm_M = Ok (zr_v_error z).
Proof.
  intros fuel L p b acheat z1cheat attr N order z H. unfold zm_run in H.
  destruct (zm_z1_fourier L p z1cheat attr (zm_arc_R problem_R (boundary_bet b None))) as [z1|] eqn:E1; cbn [bind] in H; [|discriminate H].
  destruct (Z.eqb_spec N 0) as [E0|E0]; [discriminate H|].
  fold (zfd L p b z1 N) in H.
  change (bind (zac L p b acheat z1 N) (fun ac => o <- zm_u_options fuel L p b ac N order;;
    st <- ps_init (zl_ps L) o;; res <- ps_run (zl_ps L) o st;;
    ve <- zm_v_error (zfd L p b z1 N) (zp_eval_v p) (zm_v (zl_spsolve L) acheat (zfd L p b z1 N)) zm_M;;
    Ok (mk_zresult (zm_v (zl_spsolve L) acheat (zfd L p b z1 N)) ve (res_u res) (res_error res) (zfd L p b z1 N) o st z1 ac)) = Ok z) in H.
  destruct (zac L p b acheat z1 N) as [A|] eqn:E2; cbn [bind] in H; [|discriminate H].
  destruct (zm_u_options fuel L p b A N order) as [o|] eqn:E3; cbn [bind] in H; [|discriminate H].
  destruct (ps_init (zl_ps L) o) as [st|] eqn:E4; cbn [bind] in H; [|discriminate H].
  destruct (ps_run (zl_ps L) o st) as [res|] eqn:E5; cbn [bind] in H; [|discriminate H].
  destruct (zm_v_error (zfd L p b z1 N) (zp_eval_v p) (zm_v (zl_spsolve L) acheat (zfd L p b z1 N)) zm_M) as [ve|] eqn:E6;
    cbn [bind] in H; [|discriminate H].
  apply Ok_inj' in H. subst z. cbn [zr_z1 zr_fd zr_v zr_a zr_opt zr_st zr_u zr_u_error zr_v_error].
  split; [exact E0|]. split; [reflexivity|]. split; [reflexivity|]. split; [reflexivity|]. split; [exact E2|].
  split; [exact (zm_u_options_any fuel L p b A N order o E3)|]. split; [|exact E6].
  exists res. repeat split; assumption.
Qed.

Lemma zm_run_form : forall fuel L p b acheat z1cheat attr N order z1 A o st res ve,
  zm_z1_fourier L p z1cheat attr (zm_arc_R problem_R (boundary_bet b None)) = Ok z1 -> (N <> 0)%Z ->
  zac L p b acheat z1 N = Ok A -> zm_u_options fuel L p b A N order = Ok o -> ps_init (zl_ps L) o = Ok st ->
  ps_run (zl_ps L) o st = Ok res ->
  zm_v_error (zfd L p b z1 N) (zp_eval_v p) (zm_v (zl_spsolve L) acheat (zfd L p b z1 N)) zm_M = Ok ve ->
  zm_run fuel L p b acheat z1cheat attr N order =
    Ok (mk_zresult (zm_v (zl_spsolve L) acheat (zfd L p b z1 N)) ve (res_u res) (res_error res) (zfd L p b z1 N) o st z1 A).
Proof.
  intros fuel L p b acheat z1cheat attr N order z1 A o st res ve E1 E0 E2 E3 E4 E5 E6. unfold zm_run. rewrite E1. cbn [bind].
  destruct (Z.eqb_spec N 0) as [E|_]; [contradiction|].
  fold (zfd L p b z1 N).
  change (bind (zac L p b acheat z1 N) (fun ac => o <- zm_u_options fuel L p b ac N order;;
    st <- ps_init (zl_ps L) o;; res <- ps_run (zl_ps L) o st;;
    ve <- zm_v_error (zfd L p b z1 N) (zp_eval_v p) (zm_v (zl_spsolve L) acheat (zfd L p b z1 N)) zm_M;;
    Ok (mk_zresult (zm_v (zl_spsolve L) acheat (zfd L p b z1 N)) ve (res_u res) (res_error res) (zfd L p b z1 N) o st z1 ac)) =
    Ok (mk_zresult (zm_v (zl_spsolve L) acheat (zfd L p b z1 N)) ve (res_u res) (res_error res) (zfd L p b z1 N) o st z1 A)).
  rewrite E2. cbn [bind]. rewrite E3. cbn [bind]. rewrite E4. cbn [bind]. rewrite E5. cbn [bind]. rewrite E6. reflexivity.
Qed.

Lemma z1_total : forall L p z1cheat cache r, exists z1, zm_z1_fourier L p z1cheat (Some cache) r = Ok z1.
Proof. intros L p z1cheat cache r. unfold zm_z1_fourier. destruct z1cheat; [eexists; reflexivity|]. destruct cache; eexists; reflexivity. Qed.

Lemma zm_run_total : forall L s acheat z1cheat cache N order,
  enumerating (zl_ps L) -> fit_sizes (zl_ps L) -> brentq_contract (lib_brentq (zl_ps L)) -> table_size N -> (order = 2 \/ order = 4)%Z ->
  let p := sing_problem (zl_jv L) (zl_gamma L) s in
  exists z, st_gave_up (zr_st z) = false /\ forall fuel, zm_run (S fuel) L p Arc acheat z1cheat (Some cache) N order = Ok z.
Proof.
  intros L s acheat z1cheat cache N order Hl Hf Hb HN Ho p.
  destruct (z1_total L p z1cheat cache (zm_arc_R problem_R (boundary_bet Arc None))) as (z1 & E1).
  destruct (table_size_range N HN) as [HN1 _].
  assert (exists A, zac L p Arc acheat z1 N = Ok A) as (A & E2) by apply a_coef_total.
  destruct (zm_u_options_ok 0 L p Arc A N order HN) as (nc & nr & Hc & Hr & E3).
  destruct (zopt_total L p A nc nr N order Hl Hf Hb (sing_k _ _ s) HN Ho Hc Hr) as (st & res & E4 & E5 & Hg).
  destruct (v_error_total (zfd L p Arc z1 N) (zp_eval_v p) (zm_v (zl_spsolve L) acheat (zfd L p Arc z1 N)) zm_M) as (ve & E6).
  { cbn. lia. } { unfold zm_M. lia. }
  eexists. split; [|intros fuel; eapply zm_run_form; [exact E1|lia|exact E2|exact (E3 fuel)|exact E4|exact E5|exact E6]].
  exact Hg.
Qed.

(** ** The polar coordinates of a node *)

Lemma polar_in_domain : forall R0 p r th, in_domain R0 (PI / 4) p -> cart_to_polar (fst p) (snd p) = (r, th) -> polar_coords p r th.
Proof.
  intros R0 [x y] r th [_ Hd] E. cbn [fst snd] in *. pose proof PI_RGT_0 as P0. pose proof PI2_1 as P2.
  destruct (cart_to_polar_spec _ _ _ _ E) as (Hr & Hth & Hx & Hy).
  assert (H0 : r = 0 -> th = 2 * PI).
  { intros ->. rewrite Rmult_0_l in Hx, Hy. subst x y. unfold cart_to_polar in E. injection E as _ <-.
    unfold atan2. repeat match goal with |- context [Rltb ?a ?b] => destruct (Rltb_spec a b) end; try lra.
    all: repeat match goal with |- context [Reqb ?a ?b] => destruct (Reqb_spec a b) end; try lra.
    all: repeat match goal with |- context [Rleb ?a ?b] => destruct (Rleb_spec a b) end; try lra. }
  split; [rewrite Hx, Hy; reflexivity|]. split; [exact Hr|]. split; [|exact H0]. split; [|lra].
  destruct (Req_dec r 0) as [E0|Hn]; [rewrite (H0 E0); lra|].
  destruct (Rle_lt_dec (PI / 4) th) as [|Hlt]; [assumption|exfalso]. apply Hd.
  assert (0 < sin th) by (apply sin_gt_0; lra). split; [rewrite <- Hy; nra|].
  assert (S : 0 < sin (PI / 4 - th)) by (apply sin_gt_0; lra). rewrite sin_minus in S.
  rewrite <- Hx, <- Hy. nra.
Qed.

Lemma polar_coords_unique : forall p r th r' th', polar_coords p r th -> polar_coords p r' th' -> r = r' /\ th = th'.
Proof.
  intros p r th r' th' (E & Hr & Ht & H0) (E' & Hr' & Ht' & H0'). pose proof PI_RGT_0.
  assert (S : r * r = r' * r').
  { rewrite E in E'. injection E' as E1 E2.
    pose proof (sin2_cos2 th) as T1. pose proof (sin2_cos2 th') as T2. unfold Rsqr in *.
    transitivity ((r * cos th) * (r * cos th) + (r * sin th) * (r * sin th)); [nra|]. rewrite E1, E2. nra. }
  assert (Er : r = r') by nra. split; [exact Er|].
  destruct (Req_dec r 0) as [Ez|Hn]; [rewrite H0, H0' by lra; reflexivity|].
  assert (P : 0 < r) by lra.
  pose proof (cart_to_polar_of_polar r th P ltac:(lra)) as C1.
  pose proof (cart_to_polar_of_polar r' th' ltac:(lra) ltac:(lra)) as C2.
  rewrite E in E'. injection E' as E1 E2. rewrite E1, E2 in C1. rewrite C1 in C2. injection C2 as _ C2. exact C2.
Qed.

Lemma lambdify_pos : forall f r th, 0 < r -> zm_lambdify f r th = f r th.
Proof. intros f r th H. unfold zm_lambdify. destruct (Reqb_spec r 0); [lra|reflexivity]. Qed.

Lemma lambdify_zero : forall f r th, zm_lambdify f r th = zero_at_origin f r th.
Proof. intros f r th. unfold zm_lambdify, zero_at_origin. destruct (Reqb_spec r 0), (Req_EM_T r 0); reflexivity || contradiction. Qed.

Lemma sympy_value : forall AD f r th, 0 < r -> s_f_polar (sympy_source AD f) r th = RtoC (f r th).
Proof. intros AD f r th H. cbn [sympy_source s_f_polar]. cbn [sp_eval_f_polar]. destruct (Reqb_spec r 0); [lra|reflexivity]. Qed.

Lemma sympy_value_cart : forall AD f x y r th, polar_coords (x, y) r th -> 0 < r -> s_f (sympy_source AD f) x y = RtoC (f r th).
Proof.
  intros AD f x y r th (E & _ & Ht & _) Hr. pose proof PI_RGT_0. injection E as -> ->. cbn [sympy_source s_f]. unfold sp_eval_f.
  rewrite cart_to_polar_of_polar by lra. cbn [sp_eval_f_polar]. destruct (Reqb_spec r 0); [lra|reflexivity].
Qed.

Lemma u_expected_value : forall p e R0 q r th, zp_expected p = Some e -> in_domain R0 (PI / 4) q -> polar_coords q r th ->
  zm_u_eval_expected p (fst q) (snd q) = RtoC (e r th - zero_at_origin (zp_v_asympt p) r th).
Proof.
  intros p e R0 q r th Ep Hd Hq. unfold zm_u_eval_expected. rewrite Ep.
  destruct (cart_to_polar (fst q) (snd q)) as [r' th'] eqn:E.
  destruct (polar_coords_unique q r th r' th' Hq (polar_in_domain R0 q r' th' Hd E)) as [<- <-].
  destruct Hq as (_ & _ & Ht & _). pose proof PI_RGT_0. unfold pizza_a. destruct (Rltb_spec th (PI / 4 / 2)); [lra|].
  unfold zm_u_expected. rewrite lambdify_zero. reflexivity.
Qed.

(** ** The statements *)

Lemma z_attribute : forall fuel L s b acheat N order,
  zm_run fuel L (sing_problem (zl_jv L) (zl_gamma L) s) b acheat false None N order = Err AttributeError.
Proof. reflexivity. Qed.

Lemma z_equation : forall fuel L s b acheat z1cheat attr N order z, enumerating (zl_ps L) -> table_size N -> (order = 2 \/ order = 4)%Z ->
  zm_run fuel L (sing_problem (zl_jv L) (zl_gamma L) s) b acheat z1cheat attr N order = Ok z ->
  forall i j, o_inside (zr_opt z) i j -> o_L (zr_opt z) (zr_u z) i j = lin_apply_B (st_f (zr_st z)) i j.
Proof.
  intros fuel L s b acheat z1cheat attr N order z Hl HN Ho H.
  destruct (zm_run_inv _ _ _ _ _ _ _ _ _ _ H) as (_ & _ & _ & _ & _ & (nc & nr & Eo) & (res & E1 & E2 & Eu & _) & _).
  rewrite Eu. apply (run_equation (zl_ps L) (zr_opt z) (zr_st z) res Hl); [|exact E1|exact E2].
  rewrite Eo. apply zopt_ok; [apply sing_k|exact HN|exact Ho].
Qed.

Lemma z_run : forall L s acheat z1cheat cache N order,
  enumerating (zl_ps L) -> fit_sizes (zl_ps L) -> brentq_contract (lib_brentq (zl_ps L)) -> table_size N -> (order = 2 \/ order = 4)%Z ->
  let p := sing_problem (zl_jv L) (zl_gamma L) s in
  exists z, (forall fuel, zm_run (S fuel) L p Arc acheat z1cheat (Some cache) N order = Ok z) /\
    st_gave_up (zr_st z) = false /\
    (forall i j, pizza_node N (i, j) ->
       lin_apply_L N order (2 * PI) (zp_k p) (node_value N (zr_u z)) i j = lin_apply_B (st_f (zr_st z)) i j) /\
    (forall i j r th, pizza_node N (i, j) -> polar_coords (square_pt N i j) r th -> 0 < r ->
       st_f (zr_st z) i j = RtoC (zm_f (zp_k p) (zp_v_asympt p) r th)) /\
    (s <> IzBessel -> zr_u_error z = None) /\
    (s = IzBessel -> exists e, zr_u_error z = Some e /\
       is_max (fun q : node * (R * R) => pizza_node N (fst q) /\
           polar_coords (square_pt N (fst (fst q)) (snd (fst q))) (fst (snd q)) (snd (snd q)))
         (fun q => Cmod (Cminus (RtoC (ih_eval_v (zl_jv L) 0 (27 / 4) pizza_nu (PI / 4) (fst (snd q)) (snd (snd q)) -
                                       zero_at_origin (zp_v_asympt p) (fst (snd q)) (snd (snd q))))
                                (node_value N (zr_u z) (fst (fst q)) (snd (fst q))))) e).
Proof.
  intros L s acheat z1cheat cache N order Hl Hf Hb HN Ho p.
  destruct (zm_run_total L s acheat z1cheat cache N order Hl Hf Hb HN Ho) as (z & Hg & Hz). fold p in Hz.
  exists z. split; [exact Hz|]. split; [exact Hg|].
  destruct (zm_run_inv _ _ _ _ _ _ _ _ _ _ (Hz 0%nat)) as (_ & _ & _ & _ & _ & (nc & nr & Eo) & (res & E1 & E2 & Eu & Ee) & _).
  pose proof (fun i j => zopt_pizza L p (zr_a z) nc nr N order i j HN) as Hin. rewrite <- Eo in Hin.
  destruct (table_size_range N HN) as [HN1 _]. pose proof PI_RGT_0. assert (0 < IZR N) by (apply IZR_lt; lia).
  assert (Ec : forall i j, get_coord (2 * PI) N i j = square_pt N i j)
    by (intros i j; unfold get_coord, square_pt; f_equal; field; lra).
  pose proof (run_error (zl_ps L) (zr_opt z) (zr_st z) res Hl E2) as He. rewrite <- Ee in He.
  split; [|split; [|split]].
  - intros i j Hij. apply Hin in Hij. pose proof (z_equation 1 L s Arc acheat z1cheat (Some cache) N order z Hl HN Ho (Hz 0%nat) i j Hij) as Q.
    rewrite <- Q. rewrite Eo. reflexivity.
  - intros i j r th Hij Hp Hr. apply Hin in Hij.
    rewrite (proj1 (init_source (zl_ps L) (zr_opt z) (zr_st z) Hl ltac:(rewrite Eo; exact Ho) E1) i j Hij).
    rewrite Eo. cbn [zopt o_src o_AD o_N]. rewrite Ec. apply sympy_value_cart; [rewrite <- surjective_pairing; exact Hp|exact Hr].
  - intros Hs. destruct (zr_u_error z) as [e|]; [|reflexivity]. destruct He as [K _]. exfalso. rewrite Eo in K. cbn [zopt o_known] in K.
    unfold p in K. destruct s; [apply Hs; reflexivity|discriminate K|discriminate K].
  - intros ->. destruct (zr_u_error z) as [e|]; [|rewrite Eo in He; discriminate He].
    exists e. split; [reflexivity|]. destruct He as [_ He]. rewrite <- Eu in He.
    assert (Hfun : forall q : node, pizza_node N q -> forall r th, polar_coords (square_pt N (fst q) (snd q)) r th ->
      o_expected (zr_opt z) (fst (get_coord (o_AD (zr_opt z)) (o_N (zr_opt z)) (fst q) (snd q))) (snd (get_coord (o_AD (zr_opt z)) (o_N (zr_opt z)) (fst q) (snd q))) =
      RtoC (ih_eval_v (zl_jv L) 0 (27 / 4) pizza_nu (PI / 4) r th - zero_at_origin (zp_v_asympt p) r th)).
    { intros q Hq r th Hp. rewrite Eo. cbn [zopt o_AD o_N o_expected]. rewrite Ec.
      exact (u_expected_value p (iz_expected (zl_jv L) 0 smooth_k pizza_nu pizza_a) (23 / 10) (square_pt N (fst q) (snd q)) r th eq_refl (proj2 Hq) Hp). }
    assert (EN : o_N (zr_opt z) = N) by (rewrite Eo; reflexivity).
    destruct He as [(q & Hq1 & Hq2) Hmax]. split.
    + assert (Hq : pizza_node N q) by (destruct q as [i j]; apply Hin; exact Hq1).
      destruct (cart_to_polar (fst (square_pt N (fst q) (snd q))) (snd (square_pt N (fst q) (snd q)))) as [r th] eqn:Ep.
      pose proof (polar_in_domain (23 / 10) _ r th (proj2 Hq) Ep) as Hp.
      exists (q, (r, th)). cbn [fst snd]. split; [split; assumption|].
      rewrite <- Hq2. rewrite (Hfun q Hq r th Hp), EN. reflexivity.
    + intros [q' [r th]] [Hq Hp]. cbn [fst snd] in *. rewrite <- (Hfun q' Hq r th Hp).
      pose proof (Hmax q') as Hm. rewrite EN in Hm. rewrite EN. apply Hm. destruct q' as [i j]. apply Hin. exact Hq.
Qed.

(** ** The problem posed *)

Lemma pizza_nu_pos : 0 < pizza_nu.
Proof. pose proof PI_RGT_0. unfold pizza_nu, pizza_a. apply Rdiv_lt_0_compat; lra. Qed.

Lemma pizza_nu_turn : pizza_nu * (2 * PI - pizza_a) = PI.
Proof. pose proof PI_RGT_0. unfold pizza_nu, pizza_a. field. lra. Qed.

Lemma boundary_r_pos : forall b th, PI / 4 <= th <= 2 * PI -> 0 < boundary_r b (23 / 10) None pizza_a th.
Proof.
  intros b th Ht.
  assert (B : forall b', b' <> Arc -> 23 / 10 - 4 / 3 * bet0 b' <= boundary_r b' (23 / 10) None pizza_a th).
  { intros b' Hb'. assert (Hp : 0 < bet0 b') by (destruct b'; cbn; [exfalso; apply Hb'; reflexivity|lra|lra|lra|lra]).
    refine (proj1 (curve_band _ (23 / 10) (bet0 b') th Hp Ht _)).
    destruct b'; unfold boundary_r, boundary_bet, bet0, problem_nu; cbv zeta; fold pizza_nu; tauto. }
  destruct b; [cbn; unfold r_arc; lra| | | |].
  - specialize (B OuterSine ltac:(discriminate)). cbn [bet0] in B. lra.
  - specialize (B InnerSine ltac:(discriminate)). cbn [bet0] in B. lra.
  - specialize (B Sine7 ltac:(discriminate)). cbn [bet0] in B. lra.
  - specialize (B Cubic ltac:(discriminate)). cbn [bet0] in B. lra.
Qed.

Lemma sing_asympt : forall J g s, gamma_like g -> exists W, partials 2 off_tip (zp_v_asympt (sing_problem J g s)) W.
Proof.
  intros J g s Hg. pose proof pizza_nu_pos as Hn. assert (HR : zm_R0 < problem_R) by (unfold zm_R0, problem_R; lra).
  destruct s; cbn [sing_problem zp_v_asympt].
  - apply ih_asympt_partials; [exact Hg|unfold smooth_k; lra|lra|exact HR].
  - apply ih_asympt_partials; [exact Hg|unfold smooth_k; lra|lra|exact HR].
  - apply quad_asympt_partials; [exact Hg|unfold quadratic_k; lra|exact Hn|exact HR].
Qed.

(** The data at positive radius, with the tapered part itself. *)
Lemma bc_raw : forall jv p0 p1 p2 w A r0 a nu k M, (forall th, 0 < r0 th ->
    zm_u_bc jv p0 p1 p2 (zm_lambdify w) A r0 a nu k M th 0%nat = zm_u_bc jv p0 p1 p2 w A r0 a nu k M th 0%nat) /\
  forall r, 0 < r -> zm_u_bc jv p0 p1 p2 (zm_lambdify w) A r0 a nu k M r 1%nat = zm_u_bc jv p0 p1 p2 w A r0 a nu k M r 1%nat /\
    zm_u_bc jv p0 p1 p2 (zm_lambdify w) A r0 a nu k M r 2%nat = zm_u_bc jv p0 p1 p2 w A r0 a nu k M r 2%nat.
Proof.
  intros jv p0 p1 p2 w A r0 a nu k M. split.
  - intros th H. unfold zm_u_bc. cbn [arg_to_polar Nat.eqb]. rewrite lambdify_pos by exact H. reflexivity.
  - intros r H. unfold zm_u_bc. cbn [arg_to_polar Nat.eqb andb]. rewrite !lambdify_pos by exact H. split; reflexivity.
Qed.

Lemma bc_some : forall jv p0 p1 p2 w A r0 a nu k M arg sid, (sid < 3)%nat -> exists v, zm_u_bc jv p0 p1 p2 w A r0 a nu k M arg sid = Ok v.
Proof.
  intros jv p0 p1 p2 w A r0 a nu k M arg sid H. unfold zm_u_bc.
  destruct sid as [|[|[|]]]; [| | |lia]; cbn [arg_to_polar]; eexists; reflexivity.
Qed.

Lemma z_equivalence : forall fuel L s b acheat z1cheat attr N order z, gamma_like (zl_gamma L) ->
  (forall m, (m < 7)%nat -> bessel_like (zl_jv L) ((INR m + 1) * pizza_nu)) ->
  let p := sing_problem (zl_jv L) (zl_gamma L) s in
  zm_run fuel L p b acheat z1cheat attr N order = Ok z ->
  forall u, posed (zr_opt z) u <->
    bvp (zp_k p) (o_r (zr_opt z)) (fun _ _ => RtoC 0) (fun th => RtoC (zp_phi0 p (o_r (zr_opt z)) th))
      (fun r => RtoC (zp_phi1 p r)) (fun r => RtoC (zp_phi2 p r))
      (fun r th => Cplus (u r th) (Cplus (RtoC (zp_v_asympt p r th))
         (fourier_bessel (zl_jv L) (zp_k p) pizza_nu (PI / 4) 7 (fun m => nth m (zr_a z) (RtoC 0)) r th))).
Proof.
  intros fuel L s b acheat z1cheat attr N order z Hg HJ p H u.
  destruct (zm_run_inv _ _ _ _ _ _ _ _ _ _ H) as (_ & _ & _ & _ & _ & (nc & nr & Eo) & _ & _).
  rewrite Eo. unfold posed, zopt. cbn [o_k o_r o_src o_bc].
  set (r0 := boundary_r b (23 / 10) None pizza_a). set (A := zr_a z).
  destruct (sing_asympt (zl_jv L) (zl_gamma L) s Hg) as (W & HW). fold p in HW.
  assert (Hk : 0 < zp_k p) by (destruct (sing_k (zl_jv L) (zl_gamma L) s) as [E|E]; fold p in E; rewrite E; lra).
  pose proof (regular_equation (zl_jv L) (zp_k p) pizza_nu (PI / 4) 7 (fun m => nth m A (RtoC 0)) (zp_v_asympt p) W (pizza_region r0)
    Hk HJ HW (fun r th Hr => proj1 (proj1 Hr)) u) as Heq.
  destruct (regular_boundary (zl_jv L) (zp_phi0 p r0) (zp_phi1 p) (zp_phi2 p) (zp_v_asympt p) A r0 pizza_a pizza_nu (zp_k p) 7 u pizza_nu_turn)
    as (B0 & B1 & B2).
  destruct (bc_raw (zl_jv L) (zp_phi0 p r0) (zp_phi1 p) (zp_phi2 p) (zp_v_asympt p) A r0 pizza_a pizza_nu (zp_k p) zm_M) as (R0' & R12).
  assert (Hsrc : csolves (zp_k p) (pizza_region r0) (s_f_polar (sympy_source (2 * PI) (zm_f (zp_k p) (zp_v_asympt p)))) u <->
                 csolves (zp_k p) (pizza_region r0) (fun r th => RtoC (zm_f (zp_k p) (zp_v_asympt p) r th)) u).
  { split; (apply csolves_ext; [|reflexivity]); intros r th [[Hr _] _]; [|symmetry]; apply sympy_value; exact Hr. }
  set (bc := zm_u_bc (zl_jv L) (zp_phi0 p r0) (zp_phi1 p) (zp_phi2 p) (zm_lambdify (zp_v_asympt p)) A r0 pizza_a pizza_nu (zp_k p) zm_M) in *.
  assert (Val : forall arg sid c, (sid < 3)%nat -> (c = match bc arg sid with Ok v => v | Err _ => RtoC 0 end <-> bc arg sid = Ok c)).
  { intros arg sid c Hs. destruct (bc_some (zl_jv L) (zp_phi0 p r0) (zp_phi1 p) (zp_phi2 p) (zm_lambdify (zp_v_asympt p)) A r0 pizza_a pizza_nu (zp_k p) zm_M arg sid Hs) as (v & Ev).
    fold bc in Ev. rewrite Ev. split; [intros ->; reflexivity|intros E; injection E as ->; reflexivity]. }
  unfold bvp. rewrite Hsrc, Heq.
  assert (C0 : (forall th, PI / 4 <= th <= 2 * PI -> u (r0 th) th = match bc th 0%nat with Ok v => v | Err _ => RtoC 0 end) <->
    (forall th, PI / 4 <= th <= 2 * PI -> Cplus (u (r0 th) th) (Cplus (RtoC (zp_v_asympt p (r0 th) th))
         (fourier_bessel (zl_jv L) (zp_k p) pizza_nu (PI / 4) 7 (fun m => nth m A (RtoC 0)) (r0 th) th)) = RtoC (zp_phi0 p r0 th))).
  { split; intros K th Ht; specialize (K th Ht); specialize (R0' th (boundary_r_pos b th Ht)).
    - apply B0. change 7%nat with zm_M. rewrite <- R0'. apply Val; [lia|exact K].
    - apply Val; [lia|]. rewrite R0'. apply B0. exact K. }
  assert (C12 : (forall r, 0 < r <= 23 / 10 -> u r (2 * PI) = match bc r 1%nat with Ok v => v | Err _ => RtoC 0 end /\
      u r (PI / 4) = match bc r 2%nat with Ok v => v | Err _ => RtoC 0 end) <->
    (forall r, 0 < r <= 23 / 10 -> Cplus (u r (2 * PI)) (Cplus (RtoC (zp_v_asympt p r (2 * PI)))
         (fourier_bessel (zl_jv L) (zp_k p) pizza_nu (PI / 4) 7 (fun m => nth m A (RtoC 0)) r (2 * PI))) = RtoC (zp_phi1 p r) /\
       Cplus (u r (PI / 4)) (Cplus (RtoC (zp_v_asympt p r (PI / 4)))
         (fourier_bessel (zl_jv L) (zp_k p) pizza_nu (PI / 4) 7 (fun m => nth m A (RtoC 0)) r (PI / 4))) = RtoC (zp_phi2 p r))).
  { split; intros K r Hr; destruct (K r Hr) as [K1 K2]; destruct (R12 r (proj1 Hr)) as [R1 R2]; split.
    - apply B1; [lra|]. change 7%nat with zm_M. rewrite <- R1. apply Val; [lia|exact K1].
    - apply B2; [lra|]. change 7%nat with zm_M. rewrite <- R2. apply Val; [lia|exact K2].
    - apply Val; [lia|]. rewrite R1. apply B1; [lra|exact K1].
    - apply Val; [lia|]. rewrite R2. apply B2; [lra|exact K2]. }
  tauto.
Qed.

Lemma z_iz : forall fuel L b z1cheat attr N order z, gamma_like (zl_gamma L) ->
  (forall m, (m < 7)%nat -> bessel_like (zl_jv L) ((INR m + 1) * pizza_nu)) -> bessel_like (zl_jv L) (pizza_nu / 2) ->
  zm_run fuel L (sing_problem (zl_jv L) (zl_gamma L) IzBessel) b true z1cheat attr N order = Ok z ->
  exists e, posed (zr_opt z) e /\
    forall r th, 0 < r -> PI / 4 <= th <= 2 * PI -> o_expected (zr_opt z) (r * cos th) (r * sin th) = e r th.
Proof.
  intros fuel L b z1cheat attr N order z Hg HJ HB H.
  set (p := sing_problem (zl_jv L) (zl_gamma L) IzBessel) in *.
  exists (fun r th => RtoC (ih_eval_v (zl_jv L) 0 smooth_k pizza_nu pizza_a r th - zp_v_asympt p r th)).
  destruct (zm_run_inv _ _ _ _ _ _ _ _ _ _ H) as (_ & _ & _ & _ & EA & (nc & nr & Eo) & _ & _).
  assert (Ea : zr_a z = repeat (RtoC 0) 7).
  { unfold zac, zm_calc_a_coef, zm_expected_a_coef in EA. cbn [p sing_problem zp_name String.eqb Ascii.eqb Bool.eqb bind] in EA.
    apply Ok_inj' in EA. symmetry. exact EA. }
  pose proof PI_RGT_0 as P0. assert (Hk : 0 < smooth_k) by (unfold smooth_k; lra).
  split.
  - apply (z_equivalence fuel L IzBessel b true z1cheat attr N order z Hg HJ H). fold p.
    assert (Full : forall r th, Cplus (RtoC (ih_eval_v (zl_jv L) 0 smooth_k pizza_nu pizza_a r th - zp_v_asympt p r th))
        (Cplus (RtoC (zp_v_asympt p r th)) (fourier_bessel (zl_jv L) (zp_k p) pizza_nu (PI / 4) 7 (fun m => nth m (zr_a z) (RtoC 0)) r th)) =
      RtoC (ih_eval_v (zl_jv L) 0 smooth_k pizza_nu pizza_a r th)).
    { intros r th. rewrite Ea, fb_zero, Cplus_0_r, <- RtoC_plus. f_equal. ring. }
    assert (E0 : (0 + 1 / 2) * pizza_nu = pizza_nu / 2) by field.
    assert (HB' : bessel_like (zl_jv L) ((0 + 1 / 2) * pizza_nu)) by (rewrite E0; exact HB).
    destruct (ih_v_solves (zl_jv L) 0 smooth_k pizza_nu pizza_a Hk HB') as [V [PV HV]].
    assert (Er : o_r (zr_opt z) = boundary_r b (23 / 10) None pizza_a) by (rewrite Eo; reflexivity).
    split; [|split].
    + eapply csolves_ext; [| |apply (csolves_real (zp_k p) (pizza_region (o_r (zr_opt z))) (ih_eval_v (zl_jv L) 0 smooth_k pizza_nu pizza_a) V (fun _ _ => 0))].
      * intros r th _. reflexivity.
      * intros r th. symmetry. apply Full.
      * apply (partials_sub 2 _ off_tip); [|exact PV]. intros r th [[Hr _] _]. exact Hr.
      * intros r th [[Hr _] _]. exact Hr.
      * intros r th [[Hr _] _]. apply HV. exact Hr.
    + intros th Ht. rewrite Full. reflexivity.
    + intros r Hr. rewrite !Full.
      destruct (phi_v pizza_nu pizza_a pizza_nu_turn ltac:(unfold pizza_a; lra) (zl_jv L) smooth_k r (proj1 Hr)) as [[P1 P2] _].
      cbn [p sing_problem zp_phi1 zp_phi2]. split; f_equal; [symmetry; exact P1|symmetry; exact P2].
  - intros r th Hr Ht. rewrite Eo. cbn [zopt o_expected]. unfold zm_u_eval_expected.
    rewrite cart_to_polar_of_polar by lra. unfold pizza_a at 1. destruct (Rltb_spec th (PI / 4 / 2)); [lra|].
    cbn [p sing_problem zp_expected]. unfold zm_u_expected. rewrite lambdify_pos by exact Hr. reflexivity.
Qed.

(** ** The table of v *)

Lemma z_table : forall fuel L s b z1cheat attr N order z, (1 <= N)%Z ->
  let p := sing_problem (zl_jv L) (zl_gamma L) s in
  zm_run fuel L p b false z1cheat attr N order = Ok z ->
  let R1 := 23 / 10 + bet0 b in
  let hr := (R1 - / 10) / IZR N in let hth := (2 * PI - PI / 4) / IZR N in
  let r := fun m => / 10 + IZR m * hr in let th := fun l => PI / 4 + IZR l * hth in
  (Model_PolarFD.solves (assemble (zr_fd z)) (zl_spsolve L (assemble (zr_fd z))) <->
   (forall m, (0 <= m <= N)%Z -> zr_v z m 0%Z = RtoC (zp_phi2 p (r m)) /\ zr_v z m N = RtoC (zp_phi1 p (r m))) /\
   (forall l, (1 <= l <= N - 1)%Z -> zr_v z 0%Z l = RtoC (zp_v_series p (/ 10) (th l)) /\
      zr_v z N l = RtoC (sine_series (PI / 4) pizza_nu 7 (fun m => nth m (zr_z1 z) 0) (th l) +
                         (zp_g p R1 (th l) + zm_q (zp_k p) (PI / 4) (zp_g p) R1 (th l)))) /\
   (forall m l, (1 <= m <= N - 1)%Z -> (1 <= l <= N - 1)%Z ->
      compact_scheme r hr hth (zp_k p) (fun m l => fst (zr_v z m l)) m l = 0)).
Proof.
  intros fuel L s b z1cheat attr N order z HN p H R1 hr hth r th.
  destruct (zm_run_inv _ _ _ _ _ _ _ _ _ _ H) as (_ & _ & Efd & Ev & _).
  assert (Hb : 0 <= bet0 b) by (destruct b; cbn; lra). pose proof PI_RGT_0.
  assert (Gq : forall t, zp_gq p R1 t = zp_g p R1 t + zm_q (zp_k p) (PI / 4) (zp_g p) R1 t).
  { intros t. unfold zp_gq. rewrite lambdify_pos; [reflexivity|]. unfold R1. lra. }
  rewrite Ev, Efd.
  pose proof (z_system (zl_spsolve L) N (zp_k p) (PI / 4) pizza_nu zm_R0 R1 zm_M (zr_z1 z) (zp_v_series p) (zp_gq p) (zp_phi1 p) (zp_phi2 p)
    HN ltac:(unfold zm_R0, R1; lra) ltac:(lra)) as Z.
  cbv zeta in Z. change (zm_z_fd N (zp_k p) (PI / 4) pizza_nu zm_R0 R1 zm_M (zr_z1 z) (zp_v_series p) (zp_gq p) (zp_phi1 p) (zp_phi2 p))
    with (zfd L p b (zr_z1 z) N) in Z.
  rewrite Z. fold hr hth. unfold zm_R0. fold hr. fold r th.
  split; (intros (H1 & H2 & H3); split; [exact H1|split; [|exact H3]]); intros l Hl; destruct (H2 l Hl) as [K1 K2]; split.
  - exact K1.
  - rewrite <- Gq. exact K2.
  - exact K1.
  - rewrite <- Gq in K2. exact K2.
Qed.

Lemma z_v_error : forall fuel L s b acheat z1cheat attr N order z (c : Z -> nat -> C), (2 <= N)%Z ->
  let p := sing_problem (zl_jv L) (zl_gamma L) s in
  zm_run fuel L p b acheat z1cheat attr N order = Ok z ->
  let R1 := 23 / 10 + bet0 b in
  let hr := (R1 - / 10) / IZR N in let hth := (2 * PI - PI / 4) / IZR N in
  let r := fun m => / 10 + IZR m * hr in let th := fun l => PI / 4 + IZR l * hth in
  (forall m l, (1 <= m < N)%Z -> (1 <= l < N)%Z ->
     Cminus (RtoC (zp_eval_v p (r m) (th l))) (zr_v z m l) =
     csum (Z.to_nat (N - 1)) (fun j => Cmult (c m j) (RtoC (sin ((INR j + 1) * pizza_nu * (th l - PI / 4)))))) ->
  is_max (fun q : Z * nat => (1 <= fst q < N)%Z /\ (snd q < 7)%nat /\ (Z.of_nat (snd q) < N - 1)%Z)
    (fun q => Cmod (c (fst q) (snd q))) (zr_v_error z).
Proof.
  intros fuel L s b acheat z1cheat attr N order z c HN p H R1 hr hth r th Hc.
  destruct (zm_run_inv _ _ _ _ _ _ _ _ _ _ H) as (_ & _ & Efd & _ & _ & _ & _ & Ee). rewrite Efd in Ee.
  assert (Hb : 0 <= bet0 b) by (destruct b; cbn; lra). pose proof PI_RGT_0.
  assert (Hok : pf_ok (zfd L p b (zr_z1 z) N)).
  { split; [cbn; lia|]. cbn. unfold zm_R0, zm_arc_R, problem_R, boundary_bet, pizza_a. split; lra. }
  refine (proj1 (v_error_max (zfd L p b (zr_z1 z) N) (zp_eval_v p) (zr_v z) zm_M c (zr_v_error z) Hok ltac:(cbn; lia) ltac:(unfold zm_M; lia) _) Ee).
  cbn [zfd zm_z_fd pf_N pf_a]. intros m l Hm Hl. rewrite <- (Rplus_0_r (get_r _ _)).
  assert (Er : get_r (zfd L p b (zr_z1 z) N) (IZR m) = r m).
  { unfold get_r, pf_hr, r, hr, R1. cbn [zfd zm_z_fd pf_R0 pf_R1 pf_N]. unfold zm_R0, zm_arc_R, problem_R, boundary_bet. ring. }
  assert (Et : get_th (zfd L p b (zr_z1 z) N) l = th l).
  { unfold get_th, pf_hth, th, hth. cbn [zfd zm_z_fd pf_a pf_N]. unfold pizza_a. ring. }
  rewrite Rplus_0_r, Er, Et. apply Hc; assumption.
Qed.

(** ** The cache and the loop *)

Lemma z1_cached : forall L p z1cheat cache r z1, zm_z1_fourier L p z1cheat (Some cache) r = Ok z1 ->
  zm_z1_fourier L p z1cheat (Some (Some z1)) r = Ok z1.
Proof.
  intros L p z1cheat cache r z1 H. unfold zm_z1_fourier in *. destruct z1cheat; [exact H|reflexivity].
Qed.

Lemma z_cache : forall fuel fuel' L p b acheat z1cheat cache N N' order order' z,
  zm_run fuel L p b acheat z1cheat (Some cache) N order = Ok z ->
  zm_run fuel' L p b acheat z1cheat (Some (Some (zr_z1 z))) N' order' = zm_run fuel' L p b acheat z1cheat (Some cache) N' order'.
Proof.
  intros fuel fuel' L p b acheat z1cheat cache N N' order order' z H.
  destruct (zm_run_inv _ _ _ _ _ _ _ _ _ _ H) as (_ & E & _). unfold zm_run at 1 2.
  rewrite E, (z1_cached _ _ _ _ _ _ E). reflexivity.
Qed.

(** The loop variables after the runs [prevs], the latest first. *)
Definition state_after (prevs : list zresult) : runz_state :=
  match prevs with
  | [] => runz_init
  | b :: rest =>
      mk_runz (option_map zr_v (hd_error rest)) (Some (zr_v b)) (option_map zr_u (hd_error rest)) (Some (zr_u b))
        (Some (zr_z1 b)) (zr_u_error b) (Some (zr_v_error b))
  end.

Lemma nth_at : forall (l : list zresult) z rest, nth_error (rev l ++ z :: rest) (length l) = Some z.
Proof.
  intros l z rest. rewrite nth_error_app2 by (rewrite rev_length; lia). rewrite rev_length, Nat.sub_diag. reflexivity.
Qed.

Lemma report_step : forall prevs z rest,
  ((forall y, In y (z :: prevs) -> exists e, zr_u_error y = Some e) \/ (forall y, In y (z :: prevs) -> zr_u_error y = None)) ->
  runz_step (state_after prevs) z = Ok (state_after (z :: prevs), report (rev prevs ++ z :: rest) (length prevs)).
Proof.
  intros prevs z rest Hu. unfold report. rewrite nth_at.
  destruct prevs as [|b [|c prevs]].
  - cbn [length]. unfold runz_step, state_after, runz_init. cbn [rz_v1 rz_v0 rz_u1 rz_u0 rz_prev_v rz_prev_u option_map hd_error bind].
    rewrite !app_nil_r. reflexivity.
  - cbn [length rev app nth_error]. unfold runz_step, state_after.
    cbn [rz_v1 rz_v0 rz_u1 rz_u0 rz_prev_v rz_prev_u option_map hd_error].
    destruct Hu as [Hu|Hu].
    + destruct (Hu z (or_introl eq_refl)) as (e & Ee). destruct (Hu b (or_intror (or_introl eq_refl))) as (e' & Ee'). rewrite Ee, Ee'.
      cbn [bind]. reflexivity.
    + rewrite (Hu z (or_introl eq_refl)), (Hu b (or_intror (or_introl eq_refl))). cbn [bind]. reflexivity.
  - assert (Eb : nth_error (rev (b :: c :: prevs) ++ z :: rest) (length (c :: prevs)) = Some b).
    { cbn [rev]. rewrite <- app_assoc. cbn [app]. exact (nth_at (c :: prevs) b (z :: rest)). }
    assert (Ec : nth_error (rev (b :: c :: prevs) ++ z :: rest) (length prevs) = Some c).
    { cbn [rev]. rewrite <- !app_assoc. cbn [app]. exact (nth_at prevs c (b :: z :: rest)). }
    cbn [length] in *. rewrite Eb, Ec. unfold runz_step, state_after.
    cbn [rz_v1 rz_v0 rz_u1 rz_u0 rz_prev_v rz_prev_u option_map hd_error].
    destruct Hu as [Hu|Hu].
    + destruct (Hu z (or_introl eq_refl)) as (e & Ee). destruct (Hu b (or_intror (or_introl eq_refl))) as (e' & Ee'). rewrite Ee, Ee'.
      cbn [bind]. reflexivity.
    + rewrite (Hu z (or_introl eq_refl)), (Hu b (or_intror (or_introl eq_refl))). cbn [bind]. reflexivity.
Qed.

Lemma report_loop : forall fuel L p b order acheat z1cheat Ns zs, 
  Forall2 (fun N z => zm_run fuel L p b acheat z1cheat (Some None) N order = Ok z) Ns zs ->
  forall prevs, (forall y, In y prevs -> exists N, zm_run fuel L p b acheat z1cheat (Some None) N order = Ok y) ->
  ((forall y, In y (prevs ++ zs) -> exists e, zr_u_error y = Some e) \/ (forall y, In y (prevs ++ zs) -> zr_u_error y = None)) ->
  runz_main_loop fuel L p b order acheat z1cheat (state_after prevs) Ns =
    Ok (map (report (rev prevs ++ zs)) (seq (length prevs) (length zs))).
Proof.
  intros fuel L p b order acheat z1cheat Ns zs HF. induction HF as [|N z Ns zs Hz HF IH]; intros prevs Hp Hu; [reflexivity|].
  cbn [runz_main_loop].
  assert (Hrun : zm_run fuel L p b acheat z1cheat (Some (rz_z1 (state_after prevs))) N order = Ok z).
  { destruct prevs as [|y prevs]; [exact Hz|]. cbn [state_after rz_z1].
    destruct (Hp y (or_introl eq_refl)) as (N' & Hy). rewrite (z_cache _ fuel _ _ _ _ _ _ _ N _ order _ Hy). exact Hz. }
  rewrite Hrun. cbn [bind]. rewrite (report_step prevs z zs).
  - cbn [bind fst snd]. rewrite (IH (z :: prevs)).
    + cbn [bind length seq map rev]. rewrite <- app_assoc. reflexivity.
    + intros y [<-|Hy]; [exists N; exact Hz|apply Hp; exact Hy].
    + assert (Sub : forall y, In y ((z :: prevs) ++ zs) -> In y (prevs ++ z :: zs)).
      { intros y Hy. cbn [app] in Hy. rewrite in_app_iff. destruct Hy as [<-|Hy]; [right; left; reflexivity|].
        apply in_app_iff in Hy. destruct Hy; [left; assumption|right; right; assumption]. }
      destruct Hu as [Hu|Hu]; [left|right]; intros y Hy; apply Hu, Sub, Hy.
  - assert (Sub : forall y, In y (z :: prevs) -> In y (prevs ++ z :: zs)).
    { intros y Hy. rewrite in_app_iff. destruct Hy as [<-|Hy]; [right; left; reflexivity|left; exact Hy]. }
    destruct Hu as [Hu|Hu]; [left|right]; intros y Hy; apply Hu, Sub, Hy.
Qed.

Lemma z_main : forall L s acheat z1cheat order N0 c,
  enumerating (zl_ps L) -> fit_sizes (zl_ps L) -> brentq_contract (lib_brentq (zl_ps L)) -> (order = 2 \/ order = 4)%Z ->
  table_size N0 -> (c < 2048)%Z ->
  exists fuel0 Ns zs,
    (forall x, In x Ns <-> exists i : nat, x = (N0 * 2 ^ Z.of_nat i)%Z /\ (x <= c)%Z) /\
    Forall2 (fun N z => zm_run fuel0 L (sing_problem (zl_jv L) (zl_gamma L) s) Arc acheat z1cheat (Some None) N order = Ok z) Ns zs /\
    forall fuel, (fuel0 <= fuel)%nat -> runz_main fuel L s Arc N0 (Some c) order acheat z1cheat = Ok (map (report zs) (seq 0 (length zs))).
Proof.
  intros L s acheat z1cheat order N0 c Hl Hf Hb Ho H0 Hc.
  destruct (N_list_sizes N0 c H0 Hc) as (Ns & fuel0 & Hget & Hin & Hts).
  assert (exists zs, Forall2 (fun N z => (forall fuel, zm_run (S fuel) L (sing_problem (zl_jv L) (zl_gamma L) s) Arc acheat z1cheat (Some None) N order = Ok z) /\
     ((s <> IzBessel -> zr_u_error z = None) /\ (s = IzBessel -> exists e, zr_u_error z = Some e))) Ns zs) as (zs & HF).
  { clear Hget Hin. induction Ns as [|N Ns IH]; [exists []; constructor|].
    destruct IH as (zs & IH); [intros x Hx; apply Hts; right; exact Hx|].
    destruct (z_run L s acheat z1cheat None N order Hl Hf Hb (Hts N (or_introl eq_refl)) Ho) as (z & E1 & _ & _ & _ & E2 & E3).
    exists (z :: zs). constructor; [|exact IH]. split; [exact E1|]. split; [exact E2|].
    intros Hs. destruct (E3 Hs) as (e & Ee & _). exists e. exact Ee. }
  exists (S fuel0), Ns, zs. split; [exact Hin|]. split.
  - clear -HF. induction HF as [|N z Ns zs [Hz _] _ IH]; constructor; [apply Hz|exact IH].
  - intros fuel Hfuel. unfold runz_main. rewrite Hget by lia. cbn [bind]. destruct fuel as [|fuel]; [lia|].
    apply (report_loop (S fuel) L (sing_problem (zl_jv L) (zl_gamma L) s) Arc order acheat z1cheat Ns zs) with (prevs := []).
    + clear -HF. induction HF as [|N z Ns zs [Hz _] _ IH]; constructor; [apply Hz|exact IH].
    + intros y [].
    + cbn [app]. assert (HP : forall y, In y zs -> (s <> IzBessel -> zr_u_error y = None) /\ (s = IzBessel -> exists e, zr_u_error y = Some e)).
      { clear -HF. induction HF as [|N z Ns zs [_ Hz] _ IH]; intros y Hy; [destruct Hy|]. destruct Hy as [<-|Hy]; [exact Hz|exact (IH y Hy)]. }
      destruct s; [left|right|right]; intros y Hy; apply (HP y Hy); [reflexivity|discriminate|discriminate].
Qed.

Lemma z_diverges : forall fuel L s b acheat z1cheat N order, (16 <= N)%Z -> ~ leads_10000 N ->
  runz_main fuel L s b N None order acheat z1cheat = Err OutOfFuel.
Proof.
  intros fuel L s b acheat z1cheat N order HN Hn. unfold runz_main. cbn [get_N_list bind runz_main_loop].
  set (p := sing_problem _ _ _). assert (H : zm_run fuel L p b acheat z1cheat (Some (rz_z1 runz_init)) N order = Err OutOfFuel).
  { unfold zm_run. destruct (z1_total L p z1cheat (rz_z1 runz_init) (zm_arc_R problem_R (boundary_bet b None))) as (z1 & ->). cbn [bind].
    destruct (Z.eqb_spec N 0) as [E|_]; [lia|].
    match goal with |- bind ?x _ = _ => assert (exists A, x = Ok A) as (A & E) by apply a_coef_total; rewrite E end.
    cbn [bind]. unfold zm_u_options.
    destruct (get_n_basis_dec fuel ihz_n_basis_dict N) as [(v & E')|E'].
    - exfalso. apply Hn. apply (tables_end_iff ihz_n_basis_dict N (or_intror eq_refl)). exists fuel, v. exact E'.
    - rewrite E'. reflexivity. }
  rewrite H. reflexivity.
Qed.

Lemma z_diverges_ex : (forall fuel L s b acheat z1cheat N order, (16 <= N)%Z -> ~ leads_10000 N ->
    runz_main fuel L s b N None order acheat z1cheat = Err OutOfFuel) /\
  exists N, (16 <= N)%Z /\ forall fuel L s b acheat z1cheat order, runz_main fuel L s b N None order acheat z1cheat = Err OutOfFuel.
Proof.
  split; [exact z_diverges|]. exists 24%Z. split; [lia|]. intros. apply z_diverges; [lia|exact not_leads_24].
Qed.

(** ** The problems *)

Lemma boundary_r_ends : forall b, boundary_r b (23 / 10) None pizza_a pizza_a = 23 / 10 /\ boundary_r b (23 / 10) None pizza_a (2 * PI) = 23 / 10.
Proof.
  intros b. pose proof (curve_ends (23 / 10) (bet0 b) pizza_nu pizza_a pizza_nu_turn) as H.
  destruct b; unfold boundary_r, boundary_bet, problem_nu; cbv zeta; fold pizza_nu; tauto.
Qed.

Lemma sing_problems : forall J g s b, bessel_like J (pizza_nu / 2) -> bessel_like J (3 * pizza_nu / 2) ->
  let p := sing_problem J g s in
  (exists V, partials 2 off_tip (zp_eval_v p) V /\ forall r th, 0 < r -> polar_helmholtz (zp_k p) V r th = 0) /\
  (forall r, 0 < r -> zp_phi1 p r = zp_eval_v p r (2 * PI) /\ zp_phi2 p r = zp_eval_v p r (PI / 4)) /\
  (zp_phi0 p (boundary_r b (23 / 10) None (PI / 4)) (2 * PI) = zp_phi1 p (23 / 10) /\
   zp_phi0 p (boundary_r b (23 / 10) None (PI / 4)) (PI / 4) = zp_phi2 p (23 / 10)) /\
  (let z1 := fun r th => zp_eval_v p r th - (zp_g p r th + zm_q (zp_k p) (PI / 4) (zp_g p) r th) in
   (exists W, partials 2 off_tip z1 W /\
      forall r th, 0 < r -> polar_helmholtz (zp_k p) W r th = zm_f1 (zp_k p) (PI / 4) (zp_g p) r th) /\
   forall r, z1 r (PI / 4) = 0 /\ z1 r (2 * PI) = 0) /\
  (s = IzBessel <-> exists e, zp_expected p = Some e) /\
  (forall e, zp_expected p = Some e -> (forall th, zp_phi0 p (boundary_r b (23 / 10) None (PI / 4)) th = e (boundary_r b (23 / 10) None (PI / 4) th) th) /\
     forall r th, e r th = zp_eval_v p r th).
Proof.
  intros J g s b HB1 HB3 p. pose proof PI_RGT_0 as P0.
  assert (Ha : 0 < pizza_a < 2 * PI) by (unfold pizza_a; lra).
  assert (E0 : (0 + 1 / 2) * pizza_nu = pizza_nu / 2) by field.
  assert (HB' : bessel_like J ((0 + 1 / 2) * pizza_nu)) by (rewrite E0; exact HB1).
  destruct (boundary_r_ends b) as [Ee1 Ee2].
  change (boundary_r b (23 / 10) None (PI / 4)) with (boundary_r b (23 / 10) None pizza_a).
  change (PI / 4) with pizza_a.
  split; [|split; [|split; [|split; [|split]]]].
  - unfold p. destruct s; cbn [sing_problem zp_eval_v zp_k].
    + apply ih_v_solves; [unfold smooth_k; lra|exact HB'].
    + apply ih_v_solves; [unfold smooth_k; lra|exact HB'].
    + apply quad_v_solves; [unfold quadratic_k; lra|exact HB1|exact HB3].
  - intros r Hr. unfold p. destruct s; cbn [sing_problem zp_phi1 zp_phi2 zp_eval_v].
    + apply (phi_v pizza_nu pizza_a pizza_nu_turn Ha J smooth_k r Hr).
    + apply (phi_v pizza_nu pizza_a pizza_nu_turn Ha J smooth_k r Hr).
    + apply (phi_v pizza_nu pizza_a pizza_nu_turn Ha J quadratic_k r Hr).
  - unfold p. destruct s; cbn [sing_problem zp_phi0 zp_phi1 zp_phi2].
    + apply (phi_corners pizza_nu pizza_a pizza_nu_turn Ha J smooth_k _ (23 / 10)); [lra|exact Ee1|exact Ee2].
    + apply (phi_corners pizza_nu pizza_a pizza_nu_turn Ha J smooth_k _ (23 / 10)); [lra|exact Ee1|exact Ee2].
    + apply (phi_corners pizza_nu pizza_a pizza_nu_turn Ha J quadratic_k _ (23 / 10)); [lra|exact Ee1|exact Ee2].
  - unfold p. destruct s; cbn [sing_problem zp_eval_v zp_g zp_k].
    + apply (line_remainder J smooth_k pizza_nu pizza_a pizza_nu_turn Ha); [unfold smooth_k; lra|exact HB1].
    + apply (line_remainder J smooth_k pizza_nu pizza_a pizza_nu_turn Ha); [unfold smooth_k; lra|exact HB1].
    + apply (quad_remainder J quadratic_k pizza_nu pizza_a pizza_nu_turn Ha); [unfold quadratic_k; lra|exact HB1|exact HB3].
  - unfold p. destruct s; cbn [sing_problem zp_expected]; split; intros H; try discriminate H.
    + eexists. reflexivity.
    + reflexivity.
    + destruct H as (e & H). discriminate H.
    + destruct H as (e & H). discriminate H.
  - intros e He. unfold p in *. destruct s; cbn [sing_problem zp_expected zp_phi0 zp_eval_v] in *; try discriminate He.
    injection He as <-. split; reflexivity.
Qed.
