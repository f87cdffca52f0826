(** The runs of the program on its smooth problems (C73). *)
From Coq Require Import ZArith List Bool Reals Lia Lra Psatz.
From Coquelicot Require Import Coquelicot.
From Verif Require Import Model_Py Model_Multivalue Model_Grid Model_Fourier Model_Linop Model_Abcoef Model_PS Model_Domain Model_Extend Model_Problems
  Model_Driver Model_Debug Model_Run Model_Program
  Spec_Domain Spec_Grid Spec_PS Spec_Extend Spec_Inhomo Spec_ZRun Spec_Debug Spec_Run Spec_Program
  Proof_Domain Proof_Grid Proof_Place Proof_Curves Proof_Hessian Proof_Problems Proof_Driver Proof_Run Proof_RunEx Proof_Boundary Proof_Eig.
Import ListNotations.
Open Scope R_scope.

Lemma table_size_cases : forall N, table_size N -> exists m, In m [4; 5; 6; 7; 8; 9; 10]%nat /\ N = (2 ^ Z.of_nat m)%Z.
Proof.
  intros N (m & Hm & ->).
  exists (Z.to_nat m). split; [|rewrite Z2Nat.id by lia; reflexivity].
  assert (H : (m = 4 \/ m = 5 \/ m = 6 \/ m = 7 \/ m = 8 \/ m = 9 \/ m = 10)%Z) by lia.
  destruct H as [->|[->|[->|[->|[->|[->| ->]]]]]]; cbn; tauto.
Qed.

Lemma program_solvable : forall N order k, table_size N -> (order = 2 \/ order = 4)%Z -> (k = 27 / 4 \/ k = 43 / 4) ->
  eig_nonzero N order (2 * PI) k.
Proof.
  intros N order k HN Ho Hk. destruct (table_size_cases N HN) as (m & Hm & ->).
  assert (exists p, In p [27; 43]%Z /\ k = IZR p / 4) as (p & Hp & ->).
  { destruct Hk as [-> | ->]; [exists 27%Z|exists 43%Z]; cbn; tauto. }
  apply eig_check_sound; [exact Ho|].
  pose proof check_all as H. rewrite forallb_forall in H. specialize (H m Hm). rewrite forallb_forall in H.
  specialize (H order). rewrite forallb_forall in H.
  apply H; [destruct Ho as [-> | ->]; cbn; tauto|exact Hp].
Qed.

Lemma table_size_range : forall N, table_size N -> (16 <= N <= 1024)%Z /\ exists M, N = (2 * M)%Z.
Proof.
  intros N (m & Hm & ->). split.
  - split; [change 16%Z with (2 ^ 4)%Z|change 1024%Z with (2 ^ 10)%Z]; apply Z.pow_le_mono_r; lia.
  - exists (2 ^ (m - 1))%Z. rewrite <- Z.pow_succ_r by lia. f_equal. lia.
Qed.

Lemma sizes_in_table : forall N, table_size N -> exists nc nr : Z,
  (1 <= nc)%Z /\ (1 <= nr)%Z /\ forall fuel, get_n_basis (S fuel) smooth_n_basis_dict N = Ok (nc, nr).
Proof.
  intros N H. destruct (table_size_cases N H) as (m & Hm & ->).
  cbn [In] in Hm. destruct Hm as [<-|[<-|[<-|[<-|[<-|[<-|[<-|[]]]]]]]];
  (eexists; eexists; split; [|split; [|intros fuel; cbn [get_n_basis]; vm_compute; reflexivity]]; lia).
Qed.

Lemma smooth_options_ok : forall fuel p b N order, table_size N -> exists nc nr : nat,
  (1 <= nc)%nat /\ (1 <= nr)%nat /\
  smooth_options (S fuel) p b N order = Ok (mk_opt (27 / 4) (23 / 10) (PI / 4) (2 * PI) N order (boundary_r b (23 / 10) None pizza_a)
    (nc, nr) None None (smooth_homogeneous p) (smooth_source p)
    (fun arg sid => match smooth_bc (boundary_r b (23 / 10) None pizza_a) pizza_a (smooth_expected p) arg sid with Ok v => v | Err _ => RtoC 0 end)
    true (smooth_expected p)).
Proof.
  intros fuel p b N order H. destruct (sizes_in_table N H) as (nc & nr & H1 & H2 & E).
  exists (Z.to_nat nc), (Z.to_nat nr). split; [lia|]. split; [lia|].
  unfold smooth_options. rewrite E. reflexivity.
Qed.

(** The curves are those of property C70. *)
Lemma boundary_curves : forall b, let eval_r := boundary_r b (23 / 10) None pizza_a in
  eval_r = r_arc 2.3 \/ eval_r = r_outer_sine 2.3 0.15 pizza_nu pizza_a \/
  eval_r = r_inner_sine 2.3 0.5 pizza_nu pizza_a \/ eval_r = r_sine7 2.3 0.025 pizza_nu pizza_a \/
  eval_r = r_cubic 2.3 0.075 pizza_a.
Proof.
  intros b eval_r. unfold eval_r.
  replace 2.3 with (23 / 10) by lra. replace 0.15 with (15 / 100) by lra. replace 0.5 with (5 / 10) by lra.
  replace 0.025 with (25 / 1000) by lra. replace 0.075 with (75 / 1000) by lra.
  destruct b; unfold boundary_r, boundary_bet, bet0, problem_nu; cbv zeta; fold pizza_nu; tauto.
Qed.

Lemma Ok_inj' : forall {A} (x y : A), Ok x = Ok y -> x = y.
Proof. intros A x y H. injection H as H. exact H. Qed.

Lemma smooth_ok : forall fuel p b N order o, table_size N -> (order = 2 \/ order = 4)%Z ->
  smooth_options (S fuel) p b N order = Ok o -> options_ok o.
Proof.
  intros fuel p b N order o HN Ho E. destruct (smooth_options_ok fuel p b N order HN) as (nc & nr & _ & _ & E').
  rewrite E in E'. apply Ok_inj' in E'. subst o.
  destruct (table_size_range N HN) as [HN1 _]. pose proof PI_RGT_0.
  unfold options_ok. cbn [o_N o_order o_AD o_k]. split; [lia|]. split; [exact Ho|]. split; [lra|]. split.
  - unfold o_interior. cbn [o_r o_a o_AD o_N]. apply program_margin; [lia|]. apply boundary_curves.
  - apply program_solvable; auto.
Qed.

Lemma smooth_arc : forall fuel lib p N order o, brentq_contract (lib_brentq lib) -> table_size N ->
  smooth_options (S fuel) p Arc N order = Ok o -> arc_options lib o.
Proof.
  intros fuel lib p N order o Hb HN E. destruct (smooth_options_ok fuel p Arc N order HN) as (nc & nr & _ & _ & E').
  rewrite E in E'. apply Ok_inj' in E'. subst o.
  destruct (table_size_range N HN) as [HN1 _]. pose proof PI_RGT_0 as P0. pose proof PI_bounds as [_ PU].
  unfold arc_options. cbn [o_r o_R o_a o_AD o_N]. split; [exact Hb|]. split; [reflexivity|]. split; [lra|].
  split; [lra|]. split; [lra|].
  rewrite cos_PI4. assert (S1 : 1.41421 < sqrt 2 < 1.41422).
  { split; apply Rsqr_incrst_0; try (apply sqrt_pos || lra); rewrite Rsqr_sqrt by lra; unfold Rsqr; lra. }
  set (s := sqrt 2) in *.
  assert (I : 1 / s <= 0.70711) by (apply Rmult_le_reg_r with s; [lra|]; unfold Rdiv; rewrite Rmult_1_l, Rinv_l by lra; lra).
  assert (I0 : 0 <= 1 / s) by (apply Rlt_le, Rdiv_lt_0_compat; lra).
  rewrite Rabs_right by lra.
  assert (Q : sqrt (2 / (1 - 1 / s)) <= 2.62).
  { rewrite <- (sqrt_Rsqr 2.62) by lra. apply sqrt_le_1_alt. unfold Rsqr.
    apply Rmult_le_reg_r with (1 - 1 / s); [lra|]. unfold Rdiv at 1. rewrite Rmult_assoc, Rinv_l by lra. lra. }
  assert (HNr : 16 <= IZR N) by (apply IZR_le; lia).
  assert (Hh : 2 * PI / IZR N <= 0.3927).
  { apply Rmult_le_reg_r with (IZR N); [lra|]. unfold Rdiv. rewrite Rmult_assoc, Rinv_l by lra. lra. }
  assert (Hh0 : 0 < 2 * PI / IZR N) by (apply Rdiv_lt_0_compat; lra).
  set (h := 2 * PI / IZR N) in *. pose proof (sqrt_pos (2 / (1 - 1 / s))) as Q0. set (q := sqrt (2 / (1 - 1 / s))) in *.
  assert (A : h * s <= 0.3927 * 1.41422) by (apply Rmult_le_compat; lra).
  assert (B : h * s * (1 + q) <= 0.3927 * 1.41422 * (1 + 2.62)) by (apply Rmult_le_compat; try lra; apply Rmult_le_pos; lra).
  lra.
Qed.

(** No node lies on the circle of radius 2.3: 400 pi^2 (i^2 + j^2) = 529 N^2 has no integer solution. *)
Lemma no_lattice : forall N n : Z, table_size N -> 400 * PI ^ 2 * IZR n <> 529 * IZR N ^ 2.
Proof.
  intros N n HN E. pose proof PI_bounds as [PL PU]. pose proof PI_RGT_0 as P0.
  assert (L : 9.8696044010 < PI ^ 2 < 9.8696044012) by nra.
  set (q := PI ^ 2) in *.
  destruct (table_size_cases N HN) as (m & Hm & EN). cbn [In] in Hm.
  destruct (Z_le_gt_dec n 0) as [Hn|Hn].
  { destruct (table_size_range N HN) as [HN1 _]. apply IZR_le in Hn.
    assert (16 <= IZR N) by (apply IZR_le; lia). nra. }
  assert (Hn0 : 1 <= IZR n) by (apply IZR_le; lia).
  assert (T : forall z : Z, IZR z * (400 * 9.8696044012) < 529 * IZR N ^ 2 -> 529 * IZR N ^ 2 < (IZR z + 1) * (400 * 9.8696044010) -> False).
  { intros z H1 H2. assert (A : IZR z < IZR n) by (apply Rnot_le_lt; intro; nra).
    assert (B : IZR n < IZR (z + 1)) by (rewrite plus_IZR; apply Rnot_le_lt; intro; nra).
    apply lt_IZR in A. apply lt_IZR in B. lia. }
  destruct Hm as [<-|[<-|[<-|[<-|[<-|[<-|[<-|[]]]]]]]]; subst N; cbn [Z.of_nat Pos.of_succ_nat Pos.succ Z.pow Z.pow_pos Pos.iter Z.mul Pos.mul] in *.
  - apply (T 34%Z); lra.
  - apply (T 137%Z); lra.
  - apply (T 548%Z); lra.
  - apply (T 2195%Z); lra.
  - apply (T 8781%Z); lra.
  - apply (T 35126%Z); lra.
  - apply (T 140506%Z); lra.
Qed.

Lemma smooth_off_circle : forall fuel p b N order o, table_size N -> smooth_options (S fuel) p b N order = Ok o -> off_circle o.
Proof.
  intros fuel p b N order o HN E. destruct (smooth_options_ok fuel p b N order HN) as (nc & nr & _ & _ & E').
  rewrite E in E'. apply Ok_inj' in E'. subst o.
  intros [i j] _. unfold get_coord. cbn [o_AD o_N o_R fst snd]. intros K.
  destruct (table_size_range N HN) as [HN1 (M & EM)]. assert (HNr : 0 < IZR N) by (apply IZR_lt; lia).
  apply (no_lattice N ((i - M) ^ 2 + (j - M) ^ 2)%Z HN).
  rewrite plus_IZR, !Z.pow_2_r, !mult_IZR, !minus_IZR.
  assert (EM' : IZR N = 2 * IZR M) by (rewrite EM, mult_IZR; ring).
  replace (529 * IZR N ^ 2) with (100 * IZR N ^ 2 * (23 / 10) ^ 2) by field. rewrite <- K.
  rewrite EM' in *. field. lra.
Qed.

Lemma smooth_inside : forall fuel p N order o, table_size N -> smooth_options (S fuel) p Arc N order = Ok o -> exists i j, o_inside o i j.
Proof.
  intros fuel p N order o HN E. destruct (smooth_options_ok fuel p Arc N order HN) as (nc & nr & _ & _ & E').
  rewrite E in E'. apply Ok_inj' in E'. subst o.
  destruct (table_size_range N HN) as [HN1 (M & EM)].
  exists (M - 1)%Z, M. split; [cbn [o_N]; unfold in_open_grid; cbn; lia|].
  unfold o_interior. cbn [o_r o_a o_AD o_N]. pose proof PI_RGT_0 as P0. pose proof PI_bounds as [PL PU].
  assert (HNr : 16 <= IZR N) by (apply IZR_le; lia).
  assert (EM' : IZR N = 2 * IZR M) by (rewrite EM, mult_IZR; ring).
  change (boundary_r Arc (23 / 10) None pizza_a) with (r_arc (23 / 10)). unfold ps_is_interior.
  replace (get_coord (2 * PI) N (M - 1) M) with (- (2 * PI / IZR N), 0)
    by (unfold get_coord; rewrite minus_IZR; f_equal; rewrite EM'; field; lra).
  apply interior_arc_iff; [lra|lra|]. unfold in_domain. cbn [fst snd]. split; [|intros [? _]; lra].
  assert (Hh : 0 < 2 * PI / IZR N) by (apply Rdiv_lt_0_compat; lra).
  assert (Hh1 : 2 * PI / IZR N <= 1).
  { apply Rmult_le_reg_r with (IZR N); [lra|]. unfold Rdiv. rewrite Rmult_assoc, Rinv_l by lra. lra. }
  nra.
Qed.

(** The derivatives of a source as its methods return them. *)
Definition read_source (s : source) (i j : nat) (x y : R) : C :=
  match i, j with
  | 0, 0 => s_f s x y
  | 1, 0 => fst (s_grad s x y)
  | 0, 1 => snd (s_grad s x y)
  | 2, 0 => fst (fst (s_hess s x y))
  | 1, 1 => snd (fst (s_hess s x y))
  | _, _ => snd (snd (s_hess s x y))
  end%nat.

Lemma read_cart : forall s x y, fst (snd (s_hess s x y)) = snd (fst (s_hess s x y)) -> cart_source s (read_source s) x y.
Proof.
  intros s x y H. split; [reflexivity|]. split; [cbn; apply surjective_pairing|]. cbn.
  destruct (s_hess s x y) as [[h1 h2] [h3 h4]]. cbn in *. rewrite H. reflexivity.
Qed.

Lemma smooth_symmetric : forall p x y, fst (snd (s_hess (smooth_source p) x y)) = snd (fst (s_hess (smooth_source p) x y)).
Proof.
  intros p x y. destruct p; reflexivity.
Qed.

Lemma smooth_run : forall fuel lib p N order, enumerating lib -> fit_sizes lib -> brentq_contract (lib_brentq lib) ->
  table_size N -> (order = 2 \/ order = 4)%Z ->
  exists o st res e, smooth_options (S fuel) p Arc N order = Ok o /\ ps_init lib o = Ok st /\ ps_run lib o st = Ok res /\
    st_gave_up st = false /\ ctx_wf (st_ctx st) /\ res_error res = Some e.
Proof.
  intros fuel lib p N order Hl Hf Hb HN Ho.
  destruct (smooth_options_ok fuel p Arc N order HN) as (nc & nr & Hc & Hr & E).
  set (o := mk_opt _ _ _ _ _ _ _ _ _ _ _ _ _ _ _) in E.
  destruct (arc_total lib o nc nr Hl (smooth_ok fuel p Arc N order o HN Ho E) Hf (smooth_arc fuel lib p N order o Hb HN E) eq_refl Hc Hr)
    as (st & res & Hi & Hg & Hwf & Hrun).
  - destruct p; [left; reflexivity|left; reflexivity|right].
    split; [exact (smooth_off_circle fuel SmoothYCos Arc N order o HN E)|right].
    exists (read_source (o_src o)). intros sid b _. apply read_cart. apply (smooth_symmetric SmoothYCos).
  - intros _. exact (smooth_inside fuel p N order o HN E).
  - pose proof (run_error lib o st res Hl Hrun) as He. destruct (res_error res) as [e|] eqn:Ee.
    + exists o, st, res, e. repeat (split; [assumption|]). exact Ee.
    + discriminate He.
Qed.

Lemma main_loop_runs : forall fuel lib p b order do_rel Ns (runs : list (R * arr2)) rs,
  Forall2 (fun N eu => exists o st res, smooth_options fuel p b N order = Ok o /\ ps_init lib o = Ok st /\
     ps_run lib o st = Ok res /\ res_error res = Some (fst eu) /\ res_u res = snd eu) Ns runs ->
  smooth_main_loop fuel lib p b order do_rel rs Ns = run_loop do_rel rs (map (fun r => (Some (fst r), snd r)) runs).
Proof.
  intros fuel lib p b order do_rel Ns runs rs H. revert rs. induction H as [|N eu Ns runs (o & st & res & E1 & E2 & E3 & E4 & E5) _ IH]; intros rs.
  - reflexivity.
  - cbn [smooth_main_loop map run_loop]. rewrite E1. cbn [bind]. rewrite E2. cbn [bind]. rewrite E3. cbn [bind]. rewrite E4, E5.
    destruct (run_step do_rel rs (Some (fst eu), snd eu)) as [so|]; cbn [bind]; [|reflexivity]. rewrite IH. reflexivity.
Qed.

Lemma N_list_sizes : forall N0 c, table_size N0 -> (c < 2048)%Z -> exists l fuel0,
  (forall fuel, (fuel0 <= fuel)%nat -> get_N_list fuel N0 (Some c) = Ok l) /\
  (forall x, In x l <-> exists i : nat, x = (N0 * 2 ^ Z.of_nat i)%Z /\ (x <= c)%Z) /\ forall x, In x l -> table_size x.
Proof.
  intros N0 c H0 Hc. destruct (table_size_range N0 H0) as [HN _].
  destruct (get_N_list_spec N0 c ltac:(lia)) as (l & (fuel0 & Hf) & Hin & _). exists l, fuel0. split; [exact Hf|]. split; [exact Hin|].
  intros x Hx. apply Hin in Hx. destruct Hx as (i & -> & Hle). destruct H0 as (m & Hm & ->).
  exists (m + Z.of_nat i)%Z. rewrite Z.pow_add_r by lia. split; [|reflexivity]. split; [lia|].
  rewrite <- Z.pow_add_r in Hle by lia. apply Z.lt_succ_r. apply Z.pow_lt_mono_r_iff with (a := 2%Z); [lia|lia|].
  change (2 ^ Z.succ 10)%Z with 2048%Z. lia.
Qed.

Lemma smooth_main_runs : forall lib p order r N0 c, enumerating lib -> fit_sizes lib -> brentq_contract (lib_brentq lib) ->
  (order = 2 \/ order = 4)%Z -> table_size N0 -> (c < 2048)%Z ->
  exists fuel0 Ns runs outs,
    (forall x, In x Ns <-> exists i : nat, x = (N0 * 2 ^ Z.of_nat i)%Z /\ (x <= c)%Z) /\
    Forall2 (fun N eu => exists o st res, smooth_options fuel0 p Arc N order = Ok o /\ ps_init lib o = Ok st /\
      ps_run lib o st = Ok res /\ res_error res = Some (fst eu) /\ res_u res = snd eu) Ns runs /\
    run_loop r run_init (map (fun eu => (Some (fst eu), snd eu)) runs) = Ok outs /\
    forall fuel, (fuel0 <= fuel)%nat -> smooth_main fuel lib p Arc N0 (Some c) order r = Ok outs.
Proof.
  intros lib p order r N0 c Hl Hf Hb Ho H0 Hc.
  destruct (N_list_sizes N0 c H0 Hc) as (Ns & fuel0 & Hget & Hin & Hts).
  assert (Hrun : forall fuel, exists runs, Forall2 (fun N (eu : R * arr2) => exists o st res, smooth_options (S fuel) p Arc N order = Ok o /\ ps_init lib o = Ok st /\
      ps_run lib o st = Ok res /\ res_error res = Some (fst eu) /\ res_u res = snd eu) Ns runs).
  { intros fuel. clear Hget Hin. induction Ns as [|N Ns IH]; [exists []; constructor|].
    destruct IH as (runs & IH); [intros x Hx; apply Hts; right; exact Hx|].
    destruct (smooth_run fuel lib p N order Hl Hf Hb (Hts N (or_introl eq_refl)) Ho) as (o & st & res & e & E1 & E2 & E3 & _ & _ & E4).
    exists ((e, res_u res) :: runs). constructor; [|exact IH]. exists o, st, res. auto. }
  destruct (Hrun fuel0) as (runs & HF).
  destruct (run_loop_known r runs) as (outs & Eo & _).
  exists (S fuel0), Ns, runs, outs. split; [exact Hin|]. split; [exact HF|]. split; [exact Eo|].
  intros fuel Hfuel. unfold smooth_main. rewrite Hget by lia. cbn [bind]. rewrite <- Eo.
  apply main_loop_runs. destruct fuel as [|fuel]; [lia|].
  assert (Same : forall N, In N Ns -> smooth_options (S fuel) p Arc N order = smooth_options (S fuel0) p Arc N order).
  { intros N HN'. destruct (sizes_in_table N (Hts N HN')) as (nc & nr & _ & _ & E). unfold smooth_options. rewrite !E. reflexivity. }
  clear -HF Same. induction HF as [|N eu Ns runs (o & H) _ IH]; constructor.
  - exists o. rewrite Same by (left; reflexivity). exact H.
  - apply IH. intros x Hx. apply Same. right. exact Hx.
Qed.

(** ** The run in terms of the grid points *)

Lemma pizza_inside : forall fuel p N order o i j, table_size N -> smooth_options (S fuel) p Arc N order = Ok o ->
  (o_inside o i j <-> pizza_node N (i, j)).
Proof.
  intros fuel p N order o i j HN E. destruct (smooth_options_ok fuel p Arc N order HN) as (nc & nr & _ & _ & E').
  rewrite E in E'. apply Ok_inj' in E'. subst o. destruct (table_size_range N HN) as [HN1 _]. pose proof PI_RGT_0.
  assert (0 < IZR N) by (apply IZR_lt; lia).
  unfold o_inside, pizza_node, o_interior. cbn [o_N o_r o_a o_AD fst snd].
  change (boundary_r Arc (23 / 10) None pizza_a) with (r_arc (23 / 10)). unfold ps_is_interior.
  replace (get_coord (2 * PI) N i j) with (square_pt N i j) by (unfold get_coord, square_pt; f_equal; field; lra).
  destruct (square_pt N i j) as [x y]. rewrite (interior_arc_iff (23 / 10) (PI / 4) x y) by lra. reflexivity.
Qed.

Lemma apply_B_zero : forall f i j, (forall i j, f i j = RtoC 0) -> lin_apply_B f i j = RtoC 0.
Proof. intros f i j H. unfold lin_apply_B. rewrite !H. apply injective_projections; cbn; field. Qed.

Lemma homogeneous_f : forall lib o st, ps_init lib o = Ok st -> o_homogeneous o = true ->
  (forall x y, s_f (o_src o) x y = RtoC 0) -> forall i j, st_f st i j = RtoC 0.
Proof.
  intros lib o st H Hh Hs i j. destruct (ps_init_inv lib o st H) as (nc & nr & c & f & b & A & _ & Ec & Ef & _ & ->). cbn [st_f].
  destruct (init_ctx_inv _ _ _ _ Ec) as (g0 & g1 & g2 & _ & Hc).
  unfold setup_f, extend_f in Ef. rewrite Hc in Ef. cbn [ec_homogeneous] in Ef. rewrite Hh in Ef.
  apply Ok_inj' in Ef. injection Ef as <- _. unfold setup_f_interior. destruct (node_mem _ _); [|reflexivity].
  destruct (get_coord _ _ i j). apply Hs.
Qed.

Lemma smooth_run_full : forall fuel lib p N order, enumerating lib -> fit_sizes lib -> brentq_contract (lib_brentq lib) ->
  table_size N -> (order = 2 \/ order = 4)%Z ->
  exists o st res e, smooth_options (S fuel) p Arc N order = Ok o /\ ps_init lib o = Ok st /\ ps_run lib o st = Ok res /\
    st_gave_up st = false /\ res_error res = Some e /\
    is_max (pizza_node N) (fun q => Cmod (Cminus (smooth_expected p (fst (square_pt N (fst q) (snd q))) (snd (square_pt N (fst q) (snd q))))
      (node_value N (res_u res) (fst q) (snd q)))) e /\
    (forall i j, pizza_node N (i, j) ->
      lin_apply_L N order (2 * PI) (27 / 4) (node_value N (res_u res)) i j = lin_apply_B (st_f st) i j) /\
    (p <> SmoothYCos -> forall i j, pizza_node N (i, j) ->
      lin_apply_L N order (2 * PI) (27 / 4) (node_value N (res_u res)) i j = RtoC 0) /\
    (p = SmoothYCos -> forall i j, pizza_node N (i, j) ->
      st_f st i j = RtoC (((27 / 4) ^ 2 - 1) * snd (square_pt N i j) * cos (fst (square_pt N i j)))).
Proof.
  intros fuel lib p N order Hl Hf Hb HN Ho.
  destruct (smooth_run fuel lib p N order Hl Hf Hb HN Ho) as (o & st & res & e & E1 & E2 & E3 & E4 & E5 & E6).
  exists o, st, res, e. do 5 (split; [assumption|]).
  pose proof (run_error lib o st res Hl E3) as He. rewrite E6 in He. destruct He as [_ He].
  pose proof (smooth_ok fuel p Arc N order o HN Ho E1) as Hok.
  pose proof (run_equation lib o st res Hl Hok E2 E3) as Hq.
  pose proof (fun i j => pizza_inside fuel p N order o i j HN E1) as Hin.
  destruct (smooth_options_ok fuel p Arc N order HN) as (nc & nr & _ & _ & E').
  assert (Eo : o = mk_opt (27 / 4) (23 / 10) (PI / 4) (2 * PI) N order (boundary_r Arc (23 / 10) None pizza_a)
    (nc, nr) None None (smooth_homogeneous p) (smooth_source p)
    (fun arg sid => match smooth_bc (boundary_r Arc (23 / 10) None pizza_a) pizza_a (smooth_expected p) arg sid with Ok v => v | Err _ => RtoC 0 end)
    true (smooth_expected p)) by (rewrite E1 in E'; apply Ok_inj' in E'; exact E').
  destruct (table_size_range N HN) as [HN1 _]. pose proof PI_RGT_0. assert (0 < IZR N) by (apply IZR_lt; lia).
  assert (Ec : forall i j, get_coord (2 * PI) N i j = square_pt N i j)
    by (intros i j; unfold get_coord, square_pt; f_equal; field; lra).
  assert (Hq' : forall i j, pizza_node N (i, j) ->
      lin_apply_L N order (2 * PI) (27 / 4) (node_value N (res_u res)) i j = lin_apply_B (st_f st) i j).
  { intros i j Hij. apply Hin in Hij. rewrite <- (Hq i j Hij). rewrite Eo. reflexivity. }
  assert (Hsrc : forall i j, pizza_node N (i, j) -> st_f st i j = s_f (smooth_source p) (fst (square_pt N i j)) (snd (square_pt N i j))).
  { intros i j Hij. apply Hin in Hij. rewrite (proj1 (init_source lib o st Hl ltac:(rewrite Eo; exact Ho) E2) i j Hij).
    rewrite Eo. cbn [o_src o_AD o_N]. rewrite Ec. reflexivity. }
  split; [|split; [exact Hq'|split]].
  - assert (Hfun : forall q : node, Cmod (Cminus (o_expected o (fst (get_coord (o_AD o) (o_N o) (fst q) (snd q))) (snd (get_coord (o_AD o) (o_N o) (fst q) (snd q))))
                               (node_value (o_N o) (res_u res) (fst q) (snd q))) =
       Cmod (Cminus (smooth_expected p (fst (square_pt N (fst q) (snd q))) (snd (square_pt N (fst q) (snd q)))) (node_value N (res_u res) (fst q) (snd q)))).
    { intros q. rewrite Eo. cbn [o_AD o_N o_expected]. rewrite Ec. reflexivity. }
    destruct He as [(q & Hq1 & Hq2) Hmax]. split.
    + exists q. split; [destruct q as [i j]; apply Hin; exact Hq1|]. rewrite <- Hq2, <- Hfun. reflexivity.
    + intros q' Hq'1. rewrite <- Hfun. apply Hmax. destruct q' as [i j]. apply Hin. exact Hq'1.
  - intros Hp i j Hij. rewrite (Hq' i j Hij). apply apply_B_zero. clear i j Hij.
    assert (Hh : o_homogeneous o = true) by (rewrite Eo; destruct p; [reflexivity|reflexivity|exfalso; apply Hp; reflexivity]).
    apply (homogeneous_f lib o st E2 Hh). intros x y. rewrite Eo. destruct p; [reflexivity|reflexivity|exfalso; apply Hp; reflexivity].
  - intros -> i j Hij. rewrite (Hsrc i j Hij). cbn [smooth_source sympy_source s_f].
    rewrite (ycos_source 0 problem_AD smooth_k (fst (square_pt N i j)) (snd (square_pt N i j))); [reflexivity|unfold problem_AD; lra].
Qed.

(** ** The tables *)

Lemma get_n_basis_dec : forall fuel d N, (exists v, get_n_basis fuel d N = Ok v) \/ get_n_basis fuel d N = Err OutOfFuel.
Proof.
  induction fuel as [|fuel IH]; intros d N; [right; reflexivity|]. cbn [get_n_basis].
  destruct (table_get d N) as [v|]; [left; exists v; reflexivity|apply IH].
Qed.

Lemma get_n_basis_ends : forall k d N v, table_get d (N / 2 ^ Z.of_nat k) = Some v -> exists w, get_n_basis (S k) d N = Ok w.
Proof.
  intros k d N v H. destruct (get_n_basis_dec (S k) d N) as [?|E]; [assumption|exfalso].
  revert N H E. induction k as [|k IH]; intros N H E.
  - cbn [get_n_basis] in E. change (2 ^ Z.of_nat 0)%Z with 1%Z in H. rewrite Z.div_1_r in H. rewrite H in E. discriminate E.
  - change (get_n_basis (S (S k)) d N) with (match table_get d N with Some v => Ok v | None => get_n_basis (S k) d (N / 2) end) in E.
    destruct (table_get d N); [discriminate E|]. apply (IH (N / 2)%Z); [|exact E].
    rewrite Z.div_div by (try lia; apply Z.pow_pos_nonneg; lia). rewrite Nat2Z.inj_succ, Z.pow_succ_r in H by lia. exact H.
Qed.

Lemma table_ends_iff : forall d N, (forall n v, table_get d n = Some v -> exists e, (0 <= e)%Z /\ n = (16 * 2 ^ e)%Z) ->
  (exists v, table_get d 16 = Some v) ->
  ((exists fuel v, get_n_basis fuel d N = Ok v) <-> leads_10000 N).
Proof.
  intros d N Hkeys (v16 & H16). split.
  - intros (fuel & v & H). apply get_n_basis_first_hit in H. destruct H as (k & _ & Hv & _).
    destruct (Hkeys _ _ Hv) as (e & He & Eq).
    assert (Hp : (0 < 2 ^ Z.of_nat k)%Z) by (apply Z.pow_pos_nonneg; lia).
    pose proof (Z.div_mod N (2 ^ Z.of_nat k) ltac:(lia)) as E. pose proof (Z.mod_pos_bound N (2 ^ Z.of_nat k) Hp) as B.
    exists (Z.of_nat k + 4 + e)%Z. replace (Z.of_nat k + 4 + e - 4)%Z with (Z.of_nat k + e)%Z by lia.
    rewrite !Z.pow_add_r by lia. change (2 ^ 4)%Z with 16%Z.
    assert (1 <= 2 ^ e)%Z by (apply Z.lt_pred_le, Z.pow_pos_nonneg; lia).
    split; [lia|]. rewrite Eq in E. nia.
  - intros (m & Hm & Hl & Hu).
    assert (Hq : (N / 2 ^ Z.of_nat (Z.to_nat (m - 4)) = 16)%Z).
    { rewrite Z2Nat.id by lia. symmetry. assert (E : (2 ^ m = 16 * 2 ^ (m - 4))%Z).
      { replace m with (4 + (m - 4))%Z at 1 by lia. rewrite Z.pow_add_r by lia. reflexivity. }
      apply Z.div_unique with (r := (N - 16 * 2 ^ (m - 4))%Z); lia. }
    destruct (get_n_basis_ends (Z.to_nat (m - 4)) d N v16) as (w & Hw); [rewrite Hq; exact H16|].
    exists (S (Z.to_nat (m - 4))), w. exact Hw.
Qed.

Lemma tables_end_iff : forall d N, d = smooth_n_basis_dict \/ d = ihz_n_basis_dict ->
  ((exists fuel v, get_n_basis fuel d N = Ok v) <-> leads_10000 N).
Proof.
  intros d N Hd. apply table_ends_iff.
  - intros n v H.
    assert (K : (n = 16 * 2 ^ 0 \/ n = 16 * 2 ^ 1 \/ n = 16 * 2 ^ 2 \/ n = 16 * 2 ^ 3 \/ n = 16 * 2 ^ 4 \/ n = 16 * 2 ^ 5 \/ n = 16 * 2 ^ 6)%Z).
    { destruct Hd as [-> | ->]; revert H; unfold table_get, smooth_n_basis_dict, ihz_n_basis_dict;
      repeat match goal with |- context [Z.eqb ?k n] => destruct (Z.eqb_spec k n); [lia|] end; discriminate. }
    destruct K as [K|[K|[K|[K|[K|[K|K]]]]]]; rewrite K; eexists; (split; [|reflexivity]); lia.
  - destruct Hd as [-> | ->]; eexists; reflexivity.
Qed.

Lemma main_diverges : forall lib p b N order r, ~ leads_10000 N ->
  forall fuel, smooth_main fuel lib p b N None order r = Err OutOfFuel.
Proof.
  intros lib p b N order r HN fuel. unfold smooth_main. cbn [get_N_list bind smooth_main_loop].
  unfold smooth_options. destruct (get_n_basis_dec fuel smooth_n_basis_dict N) as [(v & E)|E].
  - exfalso. apply HN. apply (tables_end_iff smooth_n_basis_dict N (or_introl eq_refl)). exists fuel, v. exact E.
  - rewrite E. reflexivity.
Qed.

Lemma not_leads_24 : ~ leads_10000 24.
Proof.
  intros (m & Hm & Hl & Hu).
  assert (m < 5)%Z. { destruct (Z_lt_le_dec m 5); [assumption|].
    assert (2 ^ 5 <= 2 ^ m)%Z by (apply Z.pow_le_mono_r; lia). change (2 ^ 5)%Z with 32%Z in *. lia. }
  assert (m = 4)%Z by lia. subst m. change (2 ^ 4 + 2 ^ (4 - 4))%Z with 17%Z in Hu. lia.
Qed.

Lemma main_diverges_ex : (forall lib p b N order r, ~ leads_10000 N ->
    forall fuel, smooth_main fuel lib p b N None order r = Err OutOfFuel) /\
  exists N, (16 <= N)%Z /\ forall lib p b order r fuel, smooth_main fuel lib p b N None order r = Err OutOfFuel.
Proof.
  split; [exact main_diverges|]. exists 24%Z. split; [lia|].
  intros lib p b order r fuel. apply main_diverges. exact not_leads_24.
Qed.

Lemma smooth_options_meet : forall fuel p b N order, table_size N -> (order = 2 \/ order = 4)%Z ->
  exists o, smooth_options (S fuel) p b N order = Ok o /\ options_ok o.
Proof.
  intros fuel p b N order HN Ho. destruct (smooth_options_ok fuel p b N order HN) as (nc & nr & _ & _ & E).
  eexists. split; [exact E|]. exact (smooth_ok fuel p b N order _ HN Ho E).
Qed.

Lemma program_example : let lib := ex_lib min_zero in
  enumerating lib /\ fit_sizes lib /\ brentq_contract (lib_brentq lib) /\ table_size 16 /\ (128 < 2048)%Z /\
  get_N_list 9 16 (Some 128%Z) = Ok [16; 32; 64; 128]%Z /\ pizza_node 16 (7, 8)%Z.
Proof.
  intros lib. split; [apply ex_enumerating|]. split; [apply ex_fit|]. split; [exact min_zero_contract|].
  split; [exists 4%Z; split; [lia|reflexivity]|]. split; [lia|]. split; [reflexivity|].
  pose proof PI_bounds as [PL PU].
  split; [unfold in_open_grid; cbn; lia|]. unfold square_pt. cbn [fst snd].
  replace (2 * PI * 7 / 16 - PI) with (- (PI / 8)) by field. replace (2 * PI * 8 / 16 - PI) with 0 by field.
  unfold in_domain. cbn [fst snd]. split; [nra|]. intros [? _]; lra.
Qed.
