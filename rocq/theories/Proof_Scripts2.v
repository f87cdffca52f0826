(** Proofs about extend_basis_test.py, test_extend_f.py and optimize_basis.py
    (C79 to C81). *)
From Coq Require Import ZArith List Bool Reals Lia Lra Sorted.
From Coquelicot Require Import Coquelicot.
From Verif Require Import Lib_Csum Model_Py Model_Multivalue Model_Grid Model_Fourier Model_PS Model_Domain Model_Problems Model_Extend Model_Abcoef Model_Chebyshev Model_Run Model_Program Model_Scripts
  Spec_Domain Spec_Grid Spec_PS Spec_Extend Spec_Abcoef Spec_Run Spec_Program Spec_ZRun Spec_Curve Spec_Scripts
  Proof_Domain Proof_Grid Proof_Gentle Proof_Linear Proof_Extend2 Proof_Run Proof_Program Proof_CurveRun Proof_Source Proof_Hessian Proof_Debug Proof_Scripts.
Import ListNotations.
Open Scope R_scope.
Local Notation table_size := Spec_Program.table_size.

(** ** extend_basis_test.py *)

Lemma basis_coef_free : forall c JJ bi c0 c1, ctx_wf c -> (JJ < length (ec_B c))%nat -> (bi < 2)%nat ->
  extend_basis (set_coef c c0 c1) JJ bi = extend_basis c JJ bi.
Proof.
  intros c JJ bi c0 c1 Hwf HJ Hb. rewrite (extend_basis_any c JJ bi Hwf HJ Hb), (extend_basis_any (set_coef c c0 c1) JJ bi Hwf HJ Hb). reflexivity.
Qed.

Lemma coef_nth : forall n JJ hit l, (l < n)%nat -> as_vec (ebt_coef n JJ hit) l = if (hit && Nat.eqb l JJ)%bool then RtoC 1 else RtoC 0.
Proof.
  intros n JJ hit l Hl. unfold as_vec, ebt_coef.
  rewrite (nth_indep _ (RtoC 0) (if (hit && Nat.eqb 0 JJ)%bool then RtoC 1 else RtoC 0)) by (rewrite map_length, seq_length; exact Hl).
  rewrite (map_nth (fun j => if (hit && Nat.eqb j JJ)%bool then RtoC 1 else RtoC 0)), seq_nth by exact Hl. reflexivity.
Qed.

Lemma csum_pick : forall n JJ (f : nat -> C), (JJ < n)%nat -> (forall l, (l < n)%nat -> l <> JJ -> f l = RtoC 0) -> csum n f = f JJ.
Proof.
  induction n as [|n IH]; intros JJ f HJ Hz; [lia|]. cbn [csum]. destruct (Nat.eq_dec JJ n) as [->|Hne].
  - rewrite (csum_ext n f (fun _ => RtoC 0)) by (intros l Hl; apply Hz; lia). rewrite csum_zero. ring.
  - rewrite (IH JJ f) by (try lia; intros; apply Hz; lia). rewrite (Hz n) by lia. ring.
Qed.

Lemma ebt_step_ok : forall c index JJ, ctx_wf c -> ec_union c <> [] -> (index < 2)%nat -> (JJ < length (ec_B c))%nat ->
  exists c', ebt_step c index JJ = Ok (c', 0) /\ ctx_wf c' /\ ec_union c' = ec_union c /\ ec_B c' = ec_B c.
Proof.
  intros c index JJ Hwf Hu Hi HJ. unfold ebt_step. set (n := length (ec_B c)).
  set (c' := set_coef c (ebt_coef n JJ (Nat.eqb index 0)) (ebt_coef n JJ (Nat.eqb index 1))).
  assert (Hwf' : ctx_wf c') by exact Hwf.
  set (ext := fun bi JJ' => match extend_basis c JJ' bi with Ok e => e | Err _ => [] end).
  assert (HE : forall JJ' bi, (JJ' < n)%nat -> (bi < 2)%nat -> extend_basis c JJ' bi = Ok (ext bi JJ') /\ length (ext bi JJ') = length (ec_union c)).
  { intros JJ' bi HJ' Hb. destruct (extend_basis_ok c JJ' bi Hwf HJ' Hb) as (e & Ee & Le). unfold ext. rewrite Ee. split; [reflexivity|exact Le]. }
  assert (Lc : forall hit, length (ebt_coef n JJ hit) = n) by (intros; unfold ebt_coef; rewrite map_length, seq_length; reflexivity).
  destruct (extension_linear_homogeneous c' (ext 0%nat) (ext 1%nat) Hwf' (Lc _) (Lc _)) as (r & Er & Lr & Hr).
  { intros JJ' HJ'. unfold c'. rewrite !basis_coef_free by (assumption || lia). split; apply HE; (exact HJ' || lia). }
  destruct (HE JJ index HJ Hi) as [E1 L1]. rewrite E1. cbn [bind]. fold n c'. rewrite Er. cbn [bind].
  assert (Hval : forall l, (l < length (ec_union c))%nat -> as_vec r l = as_vec (ext index JJ) l).
  { intros l Hl. rewrite (Hr l Hl). change (length (ec_B c')) with n.
    rewrite (csum_pick n JJ) by (try exact HJ; intros l' Hl' Hne; change (ec_c0 c') with (ebt_coef n JJ (Nat.eqb index 0)); change (ec_c1 c') with (ebt_coef n JJ (Nat.eqb index 1));
      rewrite !coef_nth by exact Hl'; apply Nat.eqb_neq in Hne; rewrite Hne, !andb_false_r; ring).
    change (ec_c0 c') with (ebt_coef n JJ (Nat.eqb index 0)). change (ec_c1 c') with (ebt_coef n JJ (Nat.eqb index 1)).
    rewrite !coef_nth by exact HJ. rewrite Nat.eqb_refl, !andb_true_r.
    destruct index as [|[|index]]; [| |lia]; cbn [Nat.eqb]; ring. }
  assert (Er' : r = ext index JJ).
  { change (length (ec_union c')) with (length (ec_union c)) in Lr. apply (nth_ext _ _ (RtoC 0) (RtoC 0)); [exact (eq_trans Lr (eq_sym L1))|].
    intros l Hl. apply Hval. rewrite Lr in Hl. exact Hl. }
  rewrite Er'.
  assert (Hm : py_max (map (fun p : C * C => Cmod (Cminus (fst p) (snd p))) (combine (ext index JJ) (ext index JJ))) = Ok 0).
  { apply py_max_spec.
    assert (Hz : forall x, In x (map (fun p : C * C => Cmod (Cminus (fst p) (snd p))) (combine (ext index JJ) (ext index JJ))) -> x = 0).
    { intros x Hx. apply in_map_iff in Hx. destruct Hx as ([u v] & <- & Hp).
      assert (u = v).
      { clear -Hp. revert Hp. generalize (ext index JJ). induction l as [|w l IH]; cbn; [tauto|]. intros [Hp|Hp]; [congruence|exact (IH Hp)]. }
      subst v. cbn [fst snd]. replace (Cminus u u) with (RtoC 0) by ring. apply Cmod_0. }
    split; [|intros x Hx; rewrite (Hz x Hx); lra].
    destruct (ext index JJ) as [|w e] eqn:Ee; [destruct (ec_union c); [congruence|discriminate L1]|].
    left. cbn [fst snd]. replace (Cminus w w) with (RtoC 0) by ring. apply Cmod_0. }
  rewrite Hm. cbn [bind]. exists c'. split; [reflexivity|]. split; [exact Hwf'|]. split; reflexivity.
Qed.

Lemma ebt_loop_ok : forall todo c, ctx_wf c -> ec_union c <> [] ->
  (forall index JJ, In (index, JJ) todo -> (index < 2)%nat /\ (JJ < length (ec_B c))%nat) ->
  ebt_loop c todo = Ok (map (fun t => (t, 0)) todo, true).
Proof.
  induction todo as [|[index JJ] todo IH]; intros c Hwf Hu Hin; [reflexivity|]. cbn [ebt_loop map].
  destruct (Hin index JJ (or_introl eq_refl)) as [Hi HJ].
  destruct (ebt_step_ok c index JJ Hwf Hu Hi HJ) as (c' & E & Hwf' & Eu & EB). rewrite E. cbn [bind fst snd].
  destruct (Rltb_spec (1 / 10 ^ 14) 0) as [Hlt|_]; [exfalso; assert (0 < 1 / 10 ^ 14) by (apply Rdiv_lt_0_compat; [lra|apply pow_lt; lra]); lra|].
  rewrite (IH c' Hwf') by (try (rewrite Eu; exact Hu); intros; rewrite EB; apply Hin; right; assumption). reflexivity.
Qed.

Lemma ebt_main_ok : forall lib o st, ps_init lib o = Ok st -> ctx_wf (st_ctx st) -> ec_union (st_ctx st) <> [] ->
  exists lines, ebt_main lib o = Ok (lines, true) /\ length lines = (2 * length (ec_B (st_ctx st)))%nat /\
    forall index JJ e, In (index, JJ, e) lines <-> (index < 2 /\ JJ < length (ec_B (st_ctx st)))%nat /\ e = 0.
Proof.
  intros lib o st Hi Hwf Hu. unfold ebt_main. rewrite Hi. cbn [bind].
  rewrite (ebt_loop_ok _ _ Hwf Hu).
  - eexists. split; [reflexivity|]. split; [rewrite map_length, prod_length, seq_length; reflexivity|].
    intros index JJ e. rewrite in_map_iff. split.
    + intros (t & E & Ht). injection E as -> <-. apply in_prod_iff in Ht. destruct Ht as [Hx HJ]. apply in_seq in HJ.
      split; [destruct Hx as [<-|[<-|[]]]; lia|reflexivity].
    + intros [[Hx HJ] ->]. exists (index, JJ). split; [reflexivity|]. apply in_prod; [cbn; lia|apply in_seq; lia].
  - intros index JJ Hin. apply in_prod_iff in Hin. destruct Hin as [Hx HJ]. apply in_seq in HJ.
    destruct Hx as [<-|[<-|[]]]; lia.
Qed.

(** ** The discrete boundary of the smooth problems is not empty *)

Lemma tip_nodes : forall b N M, (N = 2 * M)%Z -> (16 <= N)%Z ->
  region_node (boundary_r b (23 / 10) None (PI / 4)) N (M + 2, M)%Z /\
  ~ region_node (boundary_r b (23 / 10) None (PI / 4)) N (M + 2, M + 1)%Z.
Proof.
  intros b N M EM HN. pose proof PI_num as HPI.
  assert (HNr : 16 <= IZR N) by (apply IZR_le; lia).
  assert (EM' : IZR N = 2 * IZR M) by (rewrite EM, mult_IZR; ring).
  set (h := 2 * PI / IZR N). assert (Hh : 0 < h) by (apply Rdiv_lt_0_compat; lra).
  assert (Hh2 : h <= 1 / 2).
  { unfold h. apply Rmult_le_reg_r with (IZR N); [lra|]. unfold Rdiv. rewrite Rmult_assoc, Rinv_l by lra. lra. }
  split.
  - split; [unfold in_open_grid; cbn; lia|]. cbn [fst snd].
    exists (2 * h), (2 * PI). split; [lra|]. split.
    + split; [lra|]. destruct (curves_gentle b) as (r1 & r2 & _ & _ & Band & _).
      pose proof (Band (2 * PI) ltac:(lra)) as [Bl _]. lra.
    + rewrite cos_2PI, sin_2PI. unfold square_pt, h. rewrite plus_IZR. f_equal; rewrite EM'; field; lra.
  - intros [_ (rho & th & Hth & Hrho & Eq)]. cbn [fst snd] in Eq.
    assert (Ex : rho * cos th = 2 * h /\ rho * sin th = h).
    { unfold square_pt in Eq. injection Eq as E1 E2. rewrite <- E1, <- E2. unfold h. rewrite !plus_IZR, EM'. split; field; lra. }
    destruct Ex as [Ex Ey].
    assert (Hr : 0 < rho) by (destruct (Req_dec rho 0) as [->|]; lra).
    assert (Hc : 0 < cos th) by nra. assert (Hs : 0 < sin th) by nra.
    assert (Hth1 : th < PI).
    { destruct (Rlt_le_dec th PI) as [|Hge]; [assumption|]. pose proof (sin_le_0 th Hge ltac:(lra)). lra. }
    assert (Hth2 : th < PI / 2).
    { destruct (Rlt_le_dec th (PI / 2)) as [|Hge]; [assumption|]. pose proof (cos_le_0 th Hge ltac:(lra)). lra. }
    assert (Hd : 0 <= sin (th - PI / 4)) by (apply sin_ge_0; lra).
    rewrite sin_minus, sin_PI4, cos_PI4 in Hd. assert (0 < 1 / sqrt 2) by (apply Rdiv_lt_0_compat; [lra|apply sqrt_lt_R0; lra]).
    nra.
Qed.

Lemma smooth_gamma : forall fuel p b N order o, table_size N -> (order = 2 \/ order = 4)%Z -> smooth_options (S fuel) p b N order = Ok o ->
  exists q, In q (gamma_set order N (o_interior o)).
Proof.
  intros fuel p b N order o HN Ho E. destruct (table_size_range N HN) as [HN1 (M & EM)].
  destruct (tip_nodes b N M EM ltac:(lia)) as [Hin Hout].
  pose proof (fun i j => region_inside fuel p b N order o i j HN E) as Hri.
  assert (EN : o_N o = N) by (destruct (smooth_options_ok fuel p b N order HN) as (nc & nr & _ & _ & E'); rewrite E in E'; apply Ok_inj' in E'; rewrite E'; reflexivity).
  apply Hri in Hin. exists (M + 2, M)%Z. apply gamma_set_in; [exact Ho|]. unfold o_inside in Hin. rewrite EN in Hin. split.
  - exists (M + 2, M)%Z. split; [apply Hin|]. split; [apply Hin|apply neighbour_refl].
  - exists (M + 2, M + 1)%Z. assert (Hg : in_open_grid N (M + 2, M + 1)%Z) by (unfold in_open_grid; cbn; lia). split; [exact Hg|]. split.
    + cbn [fst snd]. destruct (o_interior o (M + 2) (M + 1)) eqn:Ei; [|reflexivity]. exfalso. apply Hout, Hri. split; [rewrite EN; exact Hg|exact Ei].
    + unfold neighbour. cbn [fst snd]. lia.
Qed.

Lemma smooth_solver : forall fuel lib p b N order o, enumerating lib -> brentq_contract (lib_brentq lib) ->
  table_size N -> (order = 2 \/ order = 4)%Z -> smooth_options (S fuel) p b N order = Ok o ->
  exists st, ps_init lib o = Ok st /\ ctx_wf (st_ctx st) /\ ec_union (st_ctx st) <> [] /\
    curve_solver (lib_brentq lib) order (boundary_r b (23 / 10) None (PI / 4)) (st_ctx st) /\ ec_N (st_ctx st) = N /\ (1 <= length (ec_B (st_ctx st)))%nat.
Proof.
  intros fuel lib p b N order o Hl Hb HN Ho E.
  destruct (smooth_options_ok fuel p b N order HN) as (nc & nr & Hc & Hr & E').
  pose proof (smooth_ok fuel p b N order o HN Ho E) as Hok. pose proof (smooth_curve_options fuel lib p b N order o Hb HN E) as Hcv.
  destruct (smooth_gamma fuel p b N order o HN Ho E) as (q & Hq).
  assert (Eo : o = mk_opt (27 / 4) (23 / 10) (PI / 4) (2 * PI) N order (boundary_r b (23 / 10) None pizza_a)
    (nc, nr) None None (smooth_homogeneous p) (smooth_source p)
    (fun arg sid => match smooth_bc (boundary_r b (23 / 10) None pizza_a) pizza_a (smooth_expected p) arg sid with Ok v => v | Err _ => RtoC 0 end)
    true (smooth_expected p)) by (rewrite E in E'; apply Ok_inj' in E'; exact E').
  destruct (curve_init lib o nc nr Hl Hok Hcv) as (st & Hi & Hwf & Hcs & _ & _ & EN).
  - rewrite Eo. reflexivity.
  - destruct p; [left; rewrite Eo; reflexivity|left; rewrite Eo; reflexivity|right; right].
    exists (read_source (o_src o)). intros bp _. apply read_cart. rewrite Eo. apply (smooth_symmetric SmoothYCos).
  - assert (EN' : ec_N (st_ctx st) = N) by (rewrite EN, Eo; reflexivity).
    exists st. split; [exact Hi|]. split; [exact Hwf|].
    assert (Hcs' : curve_solver (lib_brentq lib) order (boundary_r b (23 / 10) None (PI / 4)) (st_ctx st)) by (rewrite Eo in Hcs; exact Hcs).
    split; [|split; [exact Hcs'|split; [exact EN'|]]].
    + destruct Hcs' as (_ & _ & _ & _ & _ & _ & [_ Hen] & _). rewrite EN' in Hen.
      assert (Hq' : In q (ec_union (st_ctx st))) by (apply Hen; rewrite Eo in Hq; exact Hq).
      intros Z0. rewrite Z0 in Hq'. exact Hq'.
    + destruct (st_basis lib o st Hi) as (nc' & nr' & En & EB & _). rewrite Eo in En. cbn in En. injection En as <- <-.
      rewrite EB, Proof_Basis.setup_basis_eq. cbn [fst]. rewrite !app_length, !map_length, !seq_length. lia.
Qed.

Lemma ebt_smooth : forall fuel lib p b N order o, enumerating lib -> brentq_contract (lib_brentq lib) ->
  table_size N -> (order = 2 \/ order = 4)%Z -> smooth_options (S fuel) p b N order = Ok o ->
  exists lines, ebt_main lib o = Ok (lines, true) /\ (2 <= length lines)%nat /\ forall index JJ e, In (index, JJ, e) lines -> e = 0.
Proof.
  intros fuel lib p b N order o Hl Hb HN Ho E.
  destruct (smooth_solver fuel lib p b N order o Hl Hb HN Ho E) as (st & Hi & Hwf & Hu & _ & _ & HB).
  destruct (ebt_main_ok lib o st Hi Hwf Hu) as (lines & Em & Le & Hz). exists lines. split; [exact Em|]. split; [lia|].
  intros index JJ e He. apply Hz in He. apply He.
Qed.

(** ** test_extend_f.py *)

Definition sid_of (c : ext_ctx) (q : node) : nat := match extend_f_get_sid c q with Ok s => s | Err _ => 0%nat end.

Lemma get_sid_total : forall c q, ctx_wf c -> extend_f_get_sid c q = Ok (sid_of c q) /\ (sid_of c q < 3)%nat.
Proof.
  intros c q Hwf. unfold sid_of.
  assert (X : exists s, extend_f_get_sid c q = Ok s /\ (s < 3)%nat).
  { unfold extend_f_get_sid. destruct (ps_get_polar (ec_a c) (ec_AD c) (ec_N c) (fst q) (snd q)) as [r th].
    assert (Y : exists v : bool, (if node_mem q (ec_gamma c 0) then e <- node_etype c 0 q;; Ok (etype_eqb e EStandard) else Ok false) = Ok v).
    { destruct (node_mem q (ec_gamma c 0)) eqn:Em; [|eexists; reflexivity].
      destruct (node_linear c 0 q Hwf ltac:(lia)) as (e & _ & _ & _ & He & _); [apply node_mem_in; exact Em|].
      rewrite He. eexists; reflexivity. }
    destruct Y as [v ->]. cbn [bind]. destruct v; [exists 0%nat; split; [reflexivity|lia]|].
    destruct (Rltb r (ec_r c th)); [destruct (Rleb (2 * PI) th)|]; eexists; (split; [reflexivity|lia]). }
  destruct X as (s & -> & Hs). split; [reflexivity|exact Hs].
Qed.

Lemma polar_of_node : forall c q, 0 < ec_a c < PI -> let '(r, th) := ps_get_polar (ec_a c) (ec_AD c) (ec_N c) (fst q) (snd q) in
  0 <= r /\ (r * cos th, r * sin th) = get_coord (ec_AD c) (ec_N c) (fst q) (snd q).
Proof.
  intros c q Ha. unfold ps_get_polar. destruct (get_coord (ec_AD c) (ec_N c) (fst q) (snd q)) as [x y].
  destruct (ps_polar_xy (ec_a c) x y) as [r th] eqn:E. destruct (ps_polar_spec (ec_a c) x y r th ltac:(lra) E) as (Hr & _ & Hx & Hy).
  split; [exact Hr|]. rewrite Hx, Hy. reflexivity.
Qed.

Lemma ycos_polar_value : forall r th, s_f_polar (smooth_source SmoothYCos) r th = RtoC (((27 / 4) ^ 2 - 1) * (r * sin th) * cos (r * cos th)).
Proof.
  intros r th. pose proof PI_RGT_0. assert (HA : 0 < problem_AD) by (unfold problem_AD; lra).
  destruct (Req_dec r 0) as [->|Hr].
  - pose proof (ycos_source 0 problem_AD smooth_k 0 0 HA) as Y. unfold sp_eval_f in Y.
    destruct (cart_to_polar 0 0) as [r0 th0] eqn:E.
    assert (r0 = 0) by (pose proof Proof_Hessian.polar_zero_r as Z; rewrite E in Z; exact Z). subst r0.
    cbn [smooth_source sympy_source s_f_polar].
    assert (Y' : sp_eval_f_polar 2 problem_AD (ycos_f smooth_k) 0 th = sp_eval_f_polar 2 problem_AD (ycos_f smooth_k) 0 th0).
    { cbn [sp_eval_f_polar]. destruct (Reqb_spec 0 0) as [_|N]; [reflexivity|exfalso; apply N; reflexivity]. }
    rewrite Y', Y. f_equal. unfold smooth_k. rewrite !Rmult_0_l. ring.
  - cbn [smooth_source sympy_source s_f_polar]. cbn [sp_eval_f_polar]. destruct (Reqb_spec r 0) as [|_]; [contradiction|].
    unfold ycos_f, smooth_k. f_equal. ring.
Qed.

(** What is measured at a node. *)
Definition source_gap (N : Z) (st : ps_state) (q : node) : R :=
  Cmod (Cminus (RtoC (((27 / 4) ^ 2 - 1) * snd (square_pt N (fst q) (snd q)) * cos (fst (square_pt N (fst q) (snd q))))) (st_f st (fst q) (snd q))).

Lemma tef_errors_eq : forall st N allowed nodes, ctx_wf (st_ctx st) -> ec_N (st_ctx st) = N -> ec_AD (st_ctx st) = 2 * PI -> (1 <= N)%Z ->
  tef_errors st (smooth_source SmoothYCos) allowed nodes =
  Ok (map (source_gap N st) (filter (fun q => existsb (Nat.eqb (sid_of (st_ctx st) q)) allowed) nodes)).
Proof.
  intros st N allowed nodes Hwf EN EAD HN. induction nodes as [|q nodes IH]; [reflexivity|]. cbn [tef_errors filter].
  rewrite (proj1 (get_sid_total (st_ctx st) q Hwf)). cbn [bind]. rewrite IH. cbn [bind].
  destruct (existsb (Nat.eqb (sid_of (st_ctx st) q)) allowed); [|reflexivity]. cbn [map].
  pose proof (polar_of_node (st_ctx st) q ltac:(apply Hwf)) as P.
  destruct (ps_get_polar (ec_a (st_ctx st)) (ec_AD (st_ctx st)) (ec_N (st_ctx st)) (fst q) (snd q)) as [r th].
  destruct P as [_ P]. rewrite EN, EAD, square_coord in P by exact HN. rewrite ycos_polar_value. unfold source_gap.
  rewrite <- P. reflexivity.
Qed.

Lemma all_allowed : forall c q, ctx_wf c -> existsb (Nat.eqb (sid_of c q)) [0; 1; 2]%nat = true.
Proof.
  intros c q Hwf. destruct (get_sid_total c q Hwf) as [_ H]. destruct (sid_of c q) as [|[|[|s]]]; [reflexivity|reflexivity|reflexivity|lia].
Qed.

(** The nodes the source is needed at. *)
Lemma kplus_needed : forall fuel b N o q, table_size N -> smooth_options (S fuel) SmoothYCos b N 4 = Ok o ->
  In q (Kplus 4 N (o_interior o)) <-> source_node (boundary_r b (23 / 10) None (PI / 4)) N q.
Proof.
  intros fuel b N o q HN E. pose proof (fun i j => region_inside fuel SmoothYCos b N 4 o i j HN E) as Hri.
  assert (EN : o_N o = N) by (destruct (smooth_options_ok fuel SmoothYCos b N 4 HN) as (nc & nr & _ & _ & E'); rewrite E in E'; apply Ok_inj' in E'; rewrite E'; reflexivity).
  rewrite Kplus_in by auto. split.
  - intros ([i j] & Hp & H). exists (i, j). apply Mplus_in in Hp. split; [apply Hri; unfold o_inside; rewrite EN; tauto|].
    destruct H as [->|[_ H]]; [cbn [fst snd]; lia|cbn [fst snd] in *; lia].
  - intros ([i j] & Hp & H). exists (i, j). apply Hri in Hp. unfold o_inside in Hp. rewrite EN in Hp. split; [apply Mplus_in; tauto|].
    cbn [fst snd] in *. destruct q as [i' j']. cbn [fst snd] in *.
    destruct (Z.eq_dec (Z.abs (i - i') + Z.abs (j - j')) 0); [left; f_equal; lia|right; lia].
Qed.

Lemma tef_run : forall fuel lib allowed N, enumerating lib -> brentq_contract (lib_brentq lib) -> table_size N ->
  exists o st, smooth_options (S fuel) SmoothYCos OuterSine N 4 = Ok o /\ ps_init lib o = Ok st /\ ctx_wf (st_ctx st) /\
  tef_run_test (S fuel) lib allowed N =
  py_max (map (source_gap N st) (filter (fun q => existsb (Nat.eqb (sid_of (st_ctx st) q)) allowed) (lib_enum lib (Kplus 4 N (o_interior o))))).
Proof.
  intros fuel lib allowed N Hl Hb HN.
  destruct (smooth_options_ok fuel SmoothYCos OuterSine N 4 HN) as (nc & nr & _ & _ & E').
  set (o := mk_opt _ _ _ _ _ _ _ _ _ _ _ _ _ _ _) in E'.
  destruct (smooth_solver fuel lib SmoothYCos OuterSine N 4 o Hl Hb HN (or_intror eq_refl) E') as (st & Hi & Hwf & _ & Hcs & EN & _).
  exists o, st. split; [exact E'|]. split; [exact Hi|]. split; [exact Hwf|].
  unfold tef_run_test. rewrite E'. cbn [bind]. rewrite Hi. cbn [bind]. destruct (table_size_range N HN) as [HN1 _].
  change (o_src o) with (smooth_source SmoothYCos). change (o_order o) with 4%Z. change (o_N o) with N.
  rewrite (tef_errors_eq st N allowed _ Hwf EN); [reflexivity| |lia]. apply Hcs.
Qed.

Lemma tef_bound : forall fuel lib allowed N e, enumerating lib -> brentq_contract (lib_brentq lib) -> table_size N ->
  tef_run_test (S fuel) lib allowed N = Ok e -> 0 <= e <= ((27 / 4) ^ 2 - 1) * (2 * PI / IZR N * sqrt 2) ^ 3.
Proof.
  intros fuel lib allowed N e Hl Hb HN He.
  destruct (tef_run fuel lib allowed N Hl Hb HN) as (o & st & Eo & Hi & Hwf & Et). rewrite He in Et. symmetry in Et.
  apply py_max_spec in Et. destruct Et as [Hin _]. apply in_map_iff in Hin. destruct Hin as ([i j] & <- & Hq).
  apply filter_In in Hq. destruct Hq as [Hq _]. apply (proj1 (proj2 (Hl _) _)) in Hq.
  pose proof (ycos_stored fuel lib OuterSine N o st Hl Hb HN Eo Hi i j Hq) as B. unfold source_gap. cbn [fst snd].
  split; [apply Cmod_ge_0|]. rewrite <- Cmod_opp; match goal with |- Cmod (Copp (Cminus ?u ?v)) <= _ => replace (Copp (Cminus u v)) with (Cminus v u) by ring end. eapply Rle_trans; [exact B|].
  destruct (node_mem (i, j) _); [|apply Rle_refl]. apply Rmult_le_pos; [lra|]. apply pow_le, Rmult_le_pos; [|apply sqrt_pos].
  destruct (table_size_range N HN) as [HN1 _]. assert (0 < IZR N) by (apply IZR_lt; lia). pose proof PI_RGT_0. apply Rlt_le, Rdiv_lt_0_compat; lra.
Qed.

Lemma tef_default : forall fuel lib N, enumerating lib -> brentq_contract (lib_brentq lib) -> table_size N ->
  exists o st e, smooth_options (S fuel) SmoothYCos OuterSine N 4 = Ok o /\ ps_init lib o = Ok st /\
  tef_run_test (S fuel) lib [0; 1; 2]%nat N = Ok e /\
  is_max (source_node (boundary_r OuterSine (23 / 10) None (PI / 4)) N) (fun q =>
    Cmod (Cminus (RtoC (((27 / 4) ^ 2 - 1) * snd (square_pt N (fst q) (snd q)) * cos (fst (square_pt N (fst q) (snd q))))) (st_f st (fst q) (snd q)))) e.
Proof.
  intros fuel lib N Hl Hb HN.
  destruct (tef_run fuel lib [0; 1; 2]%nat N Hl Hb HN) as (o & st & Eo & Hi & Hwf & Et).
  set (nodes := filter _ _) in Et.
  assert (Hn : forall q, In q nodes <-> source_node (boundary_r OuterSine (23 / 10) None (PI / 4)) N q).
  { intros q. rewrite <- (kplus_needed fuel OuterSine N o q HN Eo). unfold nodes. rewrite filter_In. split.
    - intros [H _]. apply (proj1 (proj2 (Hl _) _)) in H. exact H.
    - intros H. split; [apply (proj2 (Hl _)); exact H|apply all_allowed; exact Hwf]. }
  destruct (curve_node_inside OuterSine N HN) as (i & j & Hij).
  destruct (py_max_is_max nodes (source_gap N st)) as (e & Ee & [(q & Hq & Hqe) Hmax]).
  { intros Z0. assert (In (i, j) nodes) by (apply Hn; exists (i, j); split; [exact Hij|lia]). rewrite Z0 in H. exact H. }
  exists o, st, e. split; [exact Eo|]. split; [exact Hi|]. split; [rewrite Et; exact Ee|]. split.
  - exists q. split; [apply Hn; exact Hq|exact Hqe].
  - intros q' Hq'. apply Hmax, Hn. exact Hq'.
Qed.

Lemma table_16 : forall n, (n <= 6)%nat -> table_size (16 * 2 ^ Z.of_nat n).
Proof. intros n Hn. exists (4 + Z.of_nat n)%Z. split; [lia|]. rewrite Z.pow_add_r by lia. reflexivity. Qed.

Lemma tef_main_runs : forall fuel lib, enumerating lib -> brentq_contract (lib_brentq lib) ->
  exists e0 e1 e2 e3 e4, (forall n e, In (n, e) [(0%nat, e0); (1%nat, e1); (2%nat, e2); (3%nat, e3); (4%nat, e4)] ->
     tef_run_test (S fuel) lib [0; 1; 2]%nat (16 * 2 ^ Z.of_nat n) = Ok e) /\
  tef_main 5 (S fuel) lib [0; 1; 2]%nat None 16 256 =
    Ok [(16, e0, None); (32, e1, Some e0); (64, e2, Some e1); (128, e3, Some e2); (256, e4, Some e3)]%Z.
Proof.
  intros fuel lib Hl Hb.
  assert (T : forall n, (n <= 4)%nat -> exists e, tef_run_test (S fuel) lib [0; 1; 2]%nat (16 * 2 ^ Z.of_nat n) = Ok e).
  { intros n Hn. destruct (tef_default fuel lib _ Hl Hb (table_16 n ltac:(lia))) as (_ & _ & e & _ & _ & E & _). exists e. exact E. }
  destruct (T 0%nat ltac:(lia)) as [e0 E0]. destruct (T 1%nat ltac:(lia)) as [e1 E1]. destruct (T 2%nat ltac:(lia)) as [e2 E2].
  destruct (T 3%nat ltac:(lia)) as [e3 E3]. destruct (T 4%nat ltac:(lia)) as [e4 E4].
  exists e0, e1, e2, e3, e4. split.
  - intros n e [H|[H|[H|[H|[H|[]]]]]]; injection H as <- <-; assumption.
  - cbn [Z.of_nat Z.mul Z.pow Z.pow_pos Pos.iter Pos.mul Pos.of_succ_nat Pos.succ] in E0, E1, E2, E3, E4.
    unfold tef_main. cbn [Z.leb Z.compare Pos.compare Pos.compare_cont Z.mul Pos.mul].
    rewrite E0. cbn [bind]. rewrite E1. cbn [bind]. rewrite E2. cbn [bind]. rewrite E3. cbn [bind]. rewrite E4. reflexivity.
Qed.

(** ** optimize_basis.py *)

Lemma options_in : forall nc nr, In (nc, nr) ob_all_options <-> tried nc nr.
Proof.
  intros nc nr. unfold ob_all_options. rewrite in_flat_map. split.
  - intros (nc' & Ha & Hb). apply in_map_iff in Hb. destruct Hb as (nr' & E & Hb). injection E as -> ->.
    apply range_step_in in Ha; [|lia]. apply range_step_in in Hb; [|lia]. destruct Ha as [Ha Ei], Hb as [Hb Ej].
    split; [exact Ei|]. split; [exact Ha|]. split; [exact Ej|exact Hb].
  - intros (Ei & Ha & Ej & Hb). exists nc. split; [apply range_step_in; [lia|]; auto|].
    apply in_map_iff. exists nr. split; [reflexivity|]. apply range_step_in; [lia|]. auto.
Qed.

Definition pair_lt (t t' : Z * Z) : Prop := (fst t < fst t')%Z \/ fst t = fst t' /\ (snd t < snd t')%Z.

Lemma range_sorted : forall lo hi st, (0 < st)%Z -> StronglySorted Z.lt (py_range_step lo hi st).
Proof.
  intros lo hi st Hst. unfold py_range_step. generalize (Z.to_nat ((hi - lo + st - 1) / st)) as n. generalize 0%nat as s.
  intros s n. revert s. induction n as [|n IH]; intros s; cbn [seq map]; [constructor|]. constructor; [apply IH|].
  apply Forall_forall. intros x Hx. apply in_map_iff in Hx. destruct Hx as (m & <- & Hm). apply in_seq in Hm. nia.
Qed.

Lemma sorted_app : forall {A} (lt : A -> A -> Prop) l l', StronglySorted lt l -> StronglySorted lt l' ->
  (forall x y, In x l -> In y l' -> lt x y) -> StronglySorted lt (l ++ l').
Proof.
  intros A lt l l' H H' Hx. induction l as [|x l IH]; [exact H'|]. inversion H; subst. cbn. constructor.
  - apply IH; [assumption|]. intros; apply Hx; [right; assumption|assumption].
  - apply Forall_app. split; [assumption|]. apply Forall_forall. intros y Hy. apply Hx; [left; reflexivity|exact Hy].
Qed.

Lemma options_sorted : StronglySorted pair_lt ob_all_options.
Proof.
  unfold ob_all_options. assert (H := range_sorted 30 100 5 ltac:(lia)). revert H. generalize (py_range_step 30 100 5) as l.
  induction l as [|nc l IH]; intros H; cbn [flat_map]; [constructor|]. inversion H; subst. apply sorted_app; [|apply IH; assumption|].
  - assert (H' := range_sorted 17 nc 4 ltac:(lia)). clear -H'. induction H' as [|x l' Hs IH Hf]; cbn [map]; constructor; [exact IH|].
    apply Forall_forall. intros t Ht. apply in_map_iff in Ht. destruct Ht as (y & <- & Hy). right. cbn. split; [reflexivity|].
    rewrite Forall_forall in Hf. apply Hf. exact Hy.
  - intros t t' Ht Ht'. apply in_map_iff in Ht. destruct Ht as (y & <- & _). apply in_flat_map in Ht'. destruct Ht' as (nc' & Hn & Ht').
    apply in_map_iff in Ht'. destruct Ht' as (y' & <- & _). left. cbn. rewrite Forall_forall in H3. apply H3. exact Hn.
Qed.

Lemma ob_map_spec : forall lib o ts rs, ob_map lib o ts = Ok rs ->
  Forall2 (fun t x => ob_worker lib o t = Ok x) ts rs.
Proof.
  intros lib o. induction ts as [|t ts IH]; intros rs H; cbn [ob_map] in H; [apply Ok_inj' in H; subst; constructor|].
  destruct (ob_worker lib o t) as [x|] eqn:E; [|discriminate]. cbn [bind] in H.
  destruct (ob_map lib o ts) as [xs|] eqn:Es; [|discriminate]. cbn [bind] in H. apply Ok_inj' in H. subst. constructor; auto.
Qed.

Lemma ob_map_total : forall lib o ts, (forall t, In t ts -> exists x, ob_worker lib o t = Ok x) -> exists rs, ob_map lib o ts = Ok rs.
Proof.
  intros lib o. induction ts as [|t ts IH]; intros H; [eexists; reflexivity|]. cbn [ob_map].
  destruct (H t (or_introl eq_refl)) as [x ->]. destruct IH as [rs ->]; [intros; apply H; right; assumption|]. eexists; reflexivity.
Qed.

Lemma worker_inv : forall lib o t t' e, ob_worker lib o t = Ok (t', e) -> t' = t /\
  exists st res, ps_init lib (resized o (Z.to_nat (fst t)) (Z.to_nat (snd t))) = Ok st /\
    ps_run lib (resized o (Z.to_nat (fst t)) (Z.to_nat (snd t))) st = Ok res /\ res_error res = e.
Proof.
  intros lib o t t' e H. unfold ob_worker in H. change (with_sizes o (Z.to_nat (fst t)) (Z.to_nat (snd t))) with (resized o (Z.to_nat (fst t)) (Z.to_nat (snd t))) in H.
  destruct (ps_init lib (resized o (Z.to_nat (fst t)) (Z.to_nat (snd t)))) as [st|]; [|discriminate]. cbn [bind] in H.
  destruct (ps_run lib _ st) as [res|] eqn:Er; [|discriminate]. cbn [bind] in H. apply Ok_inj' in H. injection H as <- <-.
  split; [reflexivity|]. exists st, res. auto.
Qed.

(** The loop keeps the first of the least. *)
Lemma ob_min_spec : forall results best r, ob_min best results = Ok r ->
  (forall t x, In (t, x) results -> x <> None) /\
  (r = None -> best = None /\ results = []) /\
  (forall t e, r = Some (t, e) -> (best = Some (t, e) \/ In (t, Some e) results) /\
     (forall t' e', best = Some (t', e') -> e <= e') /\
     (forall t' e', In (t', Some e') results -> e <= e') /\
     (best = Some (t, e) \/ (forall t' e', best = Some (t', e') -> e < e') /\
        exists pre post, results = pre ++ (t, Some e) :: post /\ forall t' e', In (t', Some e') pre -> e < e')).
Proof.
  induction results as [|[t0 [e0|]] results IH]; intros best r H; cbn [ob_min] in H; [| |discriminate].
  - apply Ok_inj' in H. subst r. split; [intros t x []|]. split; [intros ->; auto|]. intros t e ->.
    split; [auto|]. split; [intros t' e' E; assert (e = e') by congruence; lra|]. split; [intros t' e' []|auto].
  - set (best' := match best with None => Some (t0, e0) | Some (t', e') => if Rltb e0 e' then Some (t0, e0) else best end) in H.
    destruct (IH best' r H) as (H1 & H2 & H3). split; [|split].
    + intros t x [E|Hx]; [injection E as <- <-; discriminate|exact (H1 t x Hx)].
    + intros Hr. destruct (H2 Hr) as [Hb _]. exfalso. unfold best' in Hb. destruct best as [[t' e']|]; [destruct (Rltb e0 e')|]; discriminate.
    + intros t e Hr. destruct (H3 t e Hr) as (Hsrc & Hle & Hall & Hfirst).
      assert (Hb : (best' = best /\ exists t' e', best = Some (t', e') /\ e' <= e0) \/ (best' = Some (t0, e0) /\ forall t' e', best = Some (t', e') -> e0 < e')).
      { unfold best'. destruct best as [[t' e']|]; [|right; split; [reflexivity|discriminate]].
        destruct (Rltb_spec e0 e') as [Hlt|Hge].
        - right. split; [reflexivity|]. intros t1 e1 E1. injection E1 as <- <-. exact Hlt.
        - left. split; [reflexivity|]. exists t', e'. split; [reflexivity|]. lra. }
      assert (He0 : e <= e0).
      { destruct Hb as [[Eb (t' & e' & Eb2 & Hle')]|[Eb _]]; [pose proof (Hle t' e' ltac:(congruence)); lra|exact (Hle t0 e0 Eb)]. }
      split; [|split; [|split]].
      * destruct Hsrc as [Hs|Hs]; [|right; right; exact Hs]. destruct Hb as [[Eb _]|[Eb _]]; [left; congruence|].
        right. left. congruence.
      * intros t' e' E. destruct Hb as [[Eb _]|[Eb Hlt]]; [apply (Hle t' e'); congruence|]. pose proof (Hlt t' e' E). lra.
      * intros t' e' [E|Hin]; [injection E as <- <-; exact He0|exact (Hall t' e' Hin)].
      * destruct Hb as [[Eb _]|[Eb Hlt]].
        -- destruct Hfirst as [Hf|[Hf (pre & post & Ep & Hpre)]]; [left; congruence|]. right. split; [intros t' e' E; apply (Hf t' e'); congruence|].
           exists ((t0, Some e0) :: pre), post. split; [rewrite Ep; reflexivity|]. intros t' e' [E|Hin]; [|exact (Hpre t' e' Hin)].
           assert (exists t1 e1, best = Some (t1, e1) /\ e1 <= e0).
           { unfold best' in Eb. destruct best as [[t1 e1]|]; [|discriminate]. exists t1, e1. split; [reflexivity|]. destruct (Rltb_spec e0 e1) as [Hlt|Hge]; [injection Eb as <- <-; lra|lra]. }
           destruct H0 as (t1 & e1 & E1 & L1). injection E as <- <-. pose proof (Hf t1 e1 ltac:(congruence)). lra.
        -- right. destruct Hfirst as [Hf|[Hf (pre & post & Ep & Hpre)]].
           ++ assert (E : (t0, e0) = (t, e)) by congruence. injection E as <- <-. split; [exact Hlt|]. exists [], results. split; [reflexivity|intros t' e' []].
           ++ pose proof (Hf t0 e0 Eb) as L0. split; [intros t' e' E; pose proof (Hlt t' e' E); lra|].
              exists ((t0, Some e0) :: pre), post. split; [rewrite Ep; reflexivity|]. intros t' e' [E|Hin]; [injection E as <- <-; exact L0|exact (Hpre t' e' Hin)].
Qed.

Lemma ob_min_total : forall results best, (forall t x, In (t, x) results -> x <> None) -> exists r, ob_min best results = Ok r.
Proof.
  induction results as [|[t [e|]] results IH]; intros best H; cbn [ob_min]; [eexists; reflexivity| |exfalso; apply (H t None); [left|]; reflexivity].
  apply IH. intros t' x Hx. apply (H t' x). right. exact Hx.
Qed.

Lemma F2_in_r : forall {A B} (P : A -> B -> Prop) l l', Forall2 P l l' -> forall y, In y l' -> exists x, In x l /\ P x y.
Proof. intros A B P l l' H. induction H as [|x y l l' Hp H IH]; intros z Hz; [destruct Hz|]. destruct Hz as [<-|Hz]; [exists x; split; [left|]; auto|]. destruct (IH z Hz) as (w & Hw & Pw). exists w. split; [right|]; auto. Qed.

Lemma F2_in_l : forall {A B} (P : A -> B -> Prop) l l', Forall2 P l l' -> forall x, In x l -> exists y, In y l' /\ P x y.
Proof. intros A B P l l' H. induction H as [|x y l l' Hp H IH]; intros z Hz; [destruct Hz|]. destruct Hz as [<-|Hz]; [exists y; split; [left|]; auto|]. destruct (IH z Hz) as (w & Hw & Pw). exists w. split; [right|]; auto. Qed.

Lemma worker_det : forall lib o t e, error_with lib o (fst t) (snd t) e -> ob_worker lib o t = Ok (t, e).
Proof.
  intros lib o t e (st & res & Hi & Hr & He). unfold ob_worker.
  change (with_sizes o (Z.to_nat (fst t)) (Z.to_nat (snd t))) with (resized o (Z.to_nat (fst t)) (Z.to_nat (snd t))).
  rewrite Hi. cbn [bind]. rewrite Hr. cbn [bind]. rewrite He. reflexivity.
Qed.

Lemma sorted_split : forall {A} (lt : A -> A -> Prop) pre x post, StronglySorted lt (pre ++ x :: post) -> forall y, In y post -> lt x y.
Proof.
  intros A lt pre. induction pre as [|z pre IH]; intros x post H y Hy; cbn in H; inversion H; subst.
  - rewrite Forall_forall in H3. apply H3. exact Hy.
  - eapply IH; eassumption.
Qed.

Lemma ob_best : forall lib o r, ob_main lib o = Ok r -> exists nc nr e, r = Some (nc, nr, e) /\ tried nc nr /\ error_with lib o nc nr (Some e) /\
  forall nc' nr' e', tried nc' nr' -> error_with lib o nc' nr' (Some e') ->
    e <= e' /\ ((nc' < nc)%Z \/ nc' = nc /\ (nr' < nr)%Z -> e < e').
Proof.
  intros lib o r H. unfold ob_main in H. destruct (ob_map lib o ob_all_options) as [rs|] eqn:Em; [|discriminate]. cbn [bind] in H.
  pose proof (ob_map_spec lib o ob_all_options rs Em) as F. destruct (ob_min_spec rs None r H) as (_ & Hnone & Hsome).
  assert (Hsame : map fst rs = ob_all_options).
  { clear -F. induction F as [|t x l l' Hp H IH]; [reflexivity|]. cbn [map]. destruct x as [t' e]. destruct (worker_inv lib o t t' e Hp) as [-> _].
    cbn [fst]. f_equal. exact IH. }
  destruct r as [[[nc nr] e]|].
  2:{ destruct (Hnone eq_refl) as [_ Er]. rewrite Er in Hsame. exfalso. assert (X : In (30, 17)%Z ob_all_options) by (apply options_in; repeat split; try lia; [exists 0%Z; lia|exists 0%Z; lia]).
      rewrite <- Hsame in X. exact X. }
  destruct (Hsome (nc, nr) e eq_refl) as (Hsrc & _ & Hall & Hfirst). destruct Hsrc as [Hs|Hs]; [discriminate|].
  destruct Hfirst as [Hf|[_ (pre & post & Ep & Hpre)]]; [discriminate|].
  exists nc, nr, e. split; [reflexivity|].
  destruct (F2_in_r _ _ _ F _ Hs) as (t & Ht & Hw). destruct (worker_inv lib o t _ _ Hw) as [<- Hew].
  split; [apply options_in; exact Ht|]. split; [exact Hew|].
  intros nc' nr' e' Htr He'. apply options_in in Htr. destruct (F2_in_l _ _ _ F _ Htr) as (x & Hx & Hwx).
  rewrite (worker_det lib o (nc', nr') (Some e') He') in Hwx. apply Ok_inj' in Hwx. subst x.
  split; [exact (Hall _ _ Hx)|]. intros Hlt. apply (Hpre (nc', nr')). rewrite Ep in Hx. apply in_app_iff in Hx. destruct Hx as [Hx|[Hx|Hx]]; [exact Hx| |].
  - injection Hx as <- <- _. lia.
  - exfalso. pose proof options_sorted as S0. rewrite <- Hsame, Ep, map_app in S0. cbn [map] in S0.
    pose proof (sorted_split _ _ _ _ S0 (nc', nr') (in_map fst _ _ Hx)) as L. unfold pair_lt in L. cbn [fst snd] in L. lia.
Qed.

Lemma ob_unknown : forall lib o, enumerating lib -> o_known o = false ->
  (forall nc nr, tried nc nr -> exists x, error_with lib o nc nr x) -> ob_main lib o = Err TypeError.
Proof.
  intros lib o Hl Hk Hall. unfold ob_main.
  destruct (ob_map_total lib o ob_all_options) as [rs Em].
  { intros [nc nr] Ht. destruct (Hall nc nr) as [x Hx]; [apply options_in; exact Ht|]. eexists. apply worker_det. exact Hx. }
  rewrite Em. cbn [bind]. pose proof (ob_map_spec lib o ob_all_options rs Em) as F.
  destruct rs as [|[t x] rs]; [inversion F|]. inversion F; subst. destruct (worker_inv _ _ _ _ _ H2) as [-> (st & res & Hi & Hr & Ee)].
  pose proof (run_error lib _ st res Hl Hr) as He. destruct (res_error res) as [e|]; [|subst x; reflexivity].
  destruct He as [He _]. exfalso. unfold resized in He. cbn [o_known] in He. congruence.
Qed.

Lemma ob_smooth : forall fuel lib p N o, enumerating lib -> fit_sizes lib -> brentq_contract (lib_brentq lib) -> table_size N ->
  (p = SmoothYCos -> off_curve (boundary_r OuterSine (23 / 10) None (PI / 4)) N) ->
  smooth_options (S fuel) p OuterSine N 4 = Ok o -> exists r, ob_main lib o = Ok r.
Proof.
  intros fuel lib p N o Hl Hf Hb HN Hoff E.
  assert (W : forall nc nr, tried nc nr -> exists e, error_with lib o nc nr (Some e)).
  { intros nc nr (_ & Hnc & _ & Hnr).
    pose proof (smooth_ok fuel p OuterSine N 4 o HN (or_intror eq_refl) E) as Hok. pose proof (smooth_curve_options fuel lib p OuterSine N 4 o Hb HN E) as Hcv.
    set (o' := resized o (Z.to_nat nc) (Z.to_nat nr)).
    destruct (smooth_options_ok fuel p OuterSine N 4 HN) as (nc0 & nr0 & _ & _ & E'). rewrite E in E'. apply Ok_inj' in E'.
    destruct (curve_total lib o' (Z.to_nat nc) (Z.to_nat nr) Hl Hok Hf Hcv eq_refl ltac:(lia) ltac:(lia)) as (st & res & Hi & _ & _ & Hrun).
    - subst o. destruct p; [left; reflexivity|left; reflexivity|right].
      split; [exact (Hoff eq_refl)|right]. exists (read_source (o_src o')). intros bp _. apply read_cart. apply (smooth_symmetric SmoothYCos).
    - intros _. destruct (curve_node_inside OuterSine N HN) as (i & j & Hij). exists i, j. apply (region_inside fuel p OuterSine N 4 o i j HN E). exact Hij.
    - pose proof (run_error lib o' st res Hl Hrun) as He. destruct (res_error res) as [e|] eqn:Ee; [exists e, st, res; auto|].
      subst o. discriminate He. }
  unfold ob_main. destruct (ob_map_total lib o ob_all_options) as [rs Em].
  { intros [nc nr] Ht. destruct (W nc nr) as [x Hx]; [apply options_in; exact Ht|]. eexists. apply worker_det. exact Hx. }
  rewrite Em. cbn [bind]. apply ob_min_total. intros t x Hx.
  destruct (F2_in_r _ _ _ (ob_map_spec lib o ob_all_options rs Em) _ Hx) as ([nc nr] & Ht & Hw).
  destruct (W nc nr) as [e He]; [apply options_in; exact Ht|]. rewrite (worker_det lib o (nc, nr) _ He) in Hw. apply Ok_inj' in Hw. congruence.
Qed.
