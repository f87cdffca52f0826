(** Proofs about extension_test.py and c0_basis.py (C83 and C84). *)
From Coq Require Import ZArith List Bool Reals Lra Lia.
From Coquelicot Require Import Coquelicot.
From Verif Require Import Model_Py Model_Multivalue Model_Grid Model_Abcoef Model_PS Model_Domain Model_Chebyshev
  Model_Extend Model_Problems Model_Debug Model_Run Model_Program Model_Scripts Model_ExtTest
  Spec_Multivalue Spec_Chebyshev Spec_Domain Spec_Grid Spec_Debug Spec_Ext Spec_Extend Spec_Run Spec_Program Spec_ZRun Spec_Curve Spec_Scripts Spec_Accuracy Spec_ExtTest
  Proof_Domain Proof_Grid Proof_Basis Proof_Multivalue Proof_Linear Proof_Debug Proof_Run Proof_Program Proof_CurvePlace Proof_CurveFill Proof_CurveRun Proof_Source Proof_Scripts Proof_Scripts2
  Proof_Place Proof_RunEx Proof_CurveEx Proof_Acc7 Proof_Acc8 Proof_AccEx Proof_ExtTest Proof_AccI6 Proof_AccI7 Proof_AccI8.
Import ListNotations.
Open Scope R_scope.
Local Notation table_size := Spec_Program.table_size.
Local Notation curve b := (boundary_r b (23 / 10) None (PI / 4)).

(** ** The extension with its entries *)

Lemma mv_total : forall c extf, ctx_wf c -> length (ec_c0 c) = length (ec_B c) -> length (ec_c1 c) = length (ec_B c) -> extend_inhomo_f c = Ok extf ->
  exists mv r, mv_extend_boundary c SrcCoef false = Ok mv /\ mv_reduce mv = Ok r /\
    (forall q, In q (ec_union c) <-> exists l, mv_get mv q = Ok l) /\ (forall q l, mv_get mv q = Ok l -> l <> []) /\
    (ec_homogeneous c = true -> forall q l d, mv_get mv q = Ok l -> In d l -> exists sid e, (sid < 3)%nat /\ In q (ec_gamma c sid) /\
       node_etype c sid q = Ok e /\ do_extend c SrcCoef sid e q = Ok (me_elen d, me_value d) /\ me_setype d = (Z.of_nat sid, e)).
Proof.
  intros c extf Hwf L0 L1 Hf. destruct (extend_inhomogeneous c extf Hwf L0 L1 Hf) as (r & Er & _).
  unfold extend_boundary in Er. destruct (mv_extend_boundary c SrcCoef false) as [mv|] eqn:Em; [|discriminate]. cbn [bind] in Er.
  exists mv, r. split; [reflexivity|]. split; [exact Er|].
  pose proof Hwf as (_ & _ & Hin & Hocc & _).
  destruct (mv_extend_spec c (do_extend c SrcCoef) (node_et c) (node_va (do_extend c SrcCoef) c) Hin) as (m & E0 & N0 & W0 & G0).
  { intros sid p Hs Hp. destruct (node_linear_c c sid p Hwf Hs Hp L0 L1) as (A & _ & B & _); auto. }
  assert (Ne : forall q l, mv_get m q = Ok l -> l = map (fun s => entry s (node_et c s q) (node_va (do_extend c SrcCoef) c s q)) (sids c q) /\ l <> []).
  { intros q l Hl. assert (Hq : In q (ec_union c)) by (rewrite <- N0; apply W0; exists l; exact Hl). rewrite (G0 q Hq) in Hl. injection Hl as <-. split; [reflexivity|].
    intros E. apply (f_equal (@length _)) in E. rewrite map_length, sids_length in E. cbn in E. destruct (Hocc q Hq); lia. }
  unfold mv_extend_boundary in Em. rewrite E0 in Em. cbn [bind orb] in Em. destruct (ec_homogeneous c) eqn:Eh; cbn [orb] in Em.
  - injection Em as <-. split; [intros q; rewrite <- N0; apply W0|]. split; [intros q l Hl; apply (Ne q l Hl)|]. intros _ q l d Hl Hd.
    destruct (Ne q l Hl) as [-> _]. apply in_map_iff in Hd. destruct Hd as (s & <- & Hs). destruct (sids_in c q s Hs) as [Hs3 Hqs].
    destruct (node_linear_c c s q Hwf Hs3 Hqs L0 L1) as (A & _ & B & _).
    exists s, (node_et c s q). split; [exact Hs3|]. split; [exact Hqs|]. split; [exact A|]. split; [|reflexivity].
    cbn [entry me_elen me_value]. rewrite <- surjective_pairing. exact B.
  - destruct (mv_extend_inhomo_f c) as [mf|]; [|discriminate]. cbn [bind] in Em.
    destruct (mv_add_value m mf mv W0 Em) as (N1 & W1 & G1). split; [intros q; rewrite <- N0, <- N1; apply W1|]. split; [|discriminate].
    intros q l Hl. assert (Hq : In q (mv_nodes m)) by (rewrite <- N1; apply W1; exists l; exact Hl).
    apply W0 in Hq. destruct Hq as (l1 & Hl1). destruct (G1 q l1 Hl1) as (l' & El' & Len & _). rewrite Hl in El'. injection El' as <-.
    destruct (Ne q l1 Hl1) as [_ N]. destruct l1; [congruence|]. destruct l; [discriminate|discriminate].
Qed.

(** With a source term the entries are the sums of both extensions. *)
Lemma mv_sums : forall c mv, ctx_wf c -> length (ec_c0 c) = length (ec_B c) -> length (ec_c1 c) = length (ec_B c) -> ec_homogeneous c = false ->
  (forall sid p, (sid < 3)%nat -> In p (ec_gamma c sid) -> exists w, do_extend_inhomo c sid (node_et c sid p) p = Ok w) ->
  mv_extend_boundary c SrcCoef false = Ok mv ->
  forall q l d, mv_get mv q = Ok l -> In d l -> exists sid e v len w, (sid < 3)%nat /\ In q (ec_gamma c sid) /\
    node_etype c sid q = Ok e /\ do_extend c SrcCoef sid e q = Ok (me_elen d, v) /\ do_extend_inhomo c sid e q = Ok (len, w) /\ me_value d = Cplus v w.
Proof.
  intros c mv Hwf L0 L1 Eh Hw Em q l d Hl Hd. pose proof Hwf as (_ & _ & Hin & Hocc & _).
  destruct (mv_extend_spec c (do_extend c SrcCoef) (node_et c) (node_va (do_extend c SrcCoef) c) Hin) as (m & E0 & N0 & W0 & G0).
  { intros sid p Hs Hp. destruct (node_linear_c c sid p Hwf Hs Hp L0 L1) as (A & _ & B & _); auto. }
  destruct (mv_extend_spec c (do_extend_inhomo c) (node_et c) (node_va (do_extend_inhomo c) c) Hin) as (mf & Ef & Nf & Wf & Gf).
  { intros sid p Hs Hp. destruct (node_linear_c c sid p Hwf Hs Hp L0 L1) as (A & _). split; [exact A|].
    destruct (Hw sid p Hs Hp) as (w & Ew). unfold node_va. rewrite Ew. reflexivity. }
  unfold mv_extend_boundary in Em. rewrite E0 in Em. cbn [bind] in Em. rewrite Eh in Em. cbn [orb] in Em.
  unfold mv_extend_inhomo_f in Em. rewrite Ef in Em. cbn [bind] in Em.
  destruct (mv_add_value m mf mv W0 Em) as (N1 & W1 & G1).
  assert (Hq : In q (mv_nodes m)) by (rewrite <- N1; apply W1; exists l; exact Hl).
  rewrite N0 in Hq. destruct (G1 q _ (G0 q Hq)) as (l' & El' & Len & Hj). rewrite Hl in El'. injection El' as <-.
  apply In_nth_error in Hd. destruct Hd as (j & Hj'). rewrite map_length in Len.
  assert (Hlt : (j < length (sids c q))%nat) by (rewrite <- Len; apply nth_error_Some; congruence).
  destruct (nth_error (sids c q) j) as [s|] eqn:Es; [|apply nth_error_None in Es; lia].
  destruct (Hj j (entry s (node_et c s q) (node_va (do_extend c SrcCoef) c s q))) as (l2 & e2 & Hl2 & He2 & _ & Hnth).
  { rewrite nth_error_map, Es. reflexivity. }
  rewrite (Gf q Hq) in Hl2. injection Hl2 as <-. rewrite nth_error_map, Es in He2. injection He2 as <-. rewrite Hj' in Hnth. injection Hnth as ->.
  destruct (sids_in c q s (nth_error_In _ _ Es)) as [Hs3 Hqs]. destruct (node_linear_c c s q Hwf Hs3 Hqs L0 L1) as (A & _ & B & _).
  destruct (Hw s q Hs3 Hqs) as ([len w] & Ew).
  exists s, (node_et c s q), (snd (node_va (do_extend c SrcCoef) c s q)), len, w. split; [exact Hs3|]. split; [exact Hqs|]. split; [exact A|].
  cbn [entry me_elen me_value]. split; [rewrite <- surjective_pairing; exact B|]. split; [exact Ew|]. unfold node_va at 2. rewrite Ew. reflexivity.
Qed.

(** ** The solver of the scripts *)

Lemma sized_state : forall fuel lib p b N nc nr, enumerating lib -> brentq_contract (lib_brentq lib) -> table_size N -> (1 <= nc)%nat -> (1 <= nr)%nat ->
  exists o st, smooth_options (S fuel) p b N 4 = Ok o /\ ps_init lib (resized o nc nr) = Ok st /\ ctx_wf (st_ctx st) /\
    curve_solver (lib_brentq lib) 4 (curve b) (st_ctx st) /\ ec_N (st_ctx st) = N /\ ec_k (st_ctx st) = 27 / 4 /\
    ec_homogeneous (st_ctx st) = smooth_homogeneous p /\ ec_src (st_ctx st) = smooth_source p /\ ec_B (st_ctx st) = fst (setup_basis nc nr) /\ st_seg st = snd (setup_basis nc nr) /\
    o_R o = 23 / 10 /\ o_a o = PI / 4 /\ o_r o = curve b /\ o_expected o = smooth_expected p /\
    o_bc o = (fun arg sid => match smooth_bc (curve b) (PI / 4) (smooth_expected p) arg sid with Ok v => v | Err _ => RtoC 0 end) /\
    ec_union (st_ctx st) <> [] /\ sample_ok (curve b) (23 / 10) (PI / 4) /\
    ((p = SmoothYCos -> off_curve (curve b) N) -> forall c0 c1, exists extf, extend_inhomo_f (set_coef (st_ctx st) c0 c1) = Ok extf).
Proof.
  intros fuel lib p b N nc nr Hl Hb HN Hc Hr.
  destruct (smooth_options_ok fuel p b N 4 HN) as (nc0 & nr0 & _ & _ & E).
  set (o := mk_opt _ _ _ _ _ _ _ _ _ _ _ _ _ _ _) in E. set (o' := resized o nc nr).
  assert (Hok : options_ok o') by exact (smooth_ok fuel p b N 4 o HN (or_intror eq_refl) E).
  assert (Hcv : curve_options lib o') by exact (smooth_curve_options fuel lib p b N 4 o Hb HN E).
  destruct (curve_init lib o' nc nr Hl Hok Hcv eq_refl) as (st & Hi & Hwf & Hcs & _ & Eh & EN).
  { destruct p; [left; reflexivity|left; reflexivity|right; right]. exists (read_source (o_src o')). intros bp _. apply read_cart. apply (smooth_symmetric SmoothYCos). }
  exists o, st. split; [exact E|]. split; [exact Hi|]. split; [exact Hwf|]. split; [exact Hcs|]. split; [exact EN|].
  destruct (st_basis lib o' st Hi) as (nc' & nr' & En & EB & Eseg). cbn in En. injection En as <- <-.
  split.
  { destruct (ps_init_inv _ o' st Hi) as (nc' & nr' & c' & f & b' & A' & _ & Ec & _ & _ & Est).
    rewrite Est. cbn [st_ctx]. destruct (init_ctx_inv _ _ _ _ Ec) as (g0 & g1 & g2 & _ & ->). reflexivity. }
  split; [exact Eh|]. split.
  { destruct (ps_init_inv _ o' st Hi) as (nc' & nr' & c' & f & b' & A' & _ & Ec & _ & _ & Est).
    rewrite Est. cbn [st_ctx]. destruct (init_ctx_inv _ _ _ _ Ec) as (g0 & g1 & g2 & _ & ->). reflexivity. }
  split; [exact EB|]. split; [exact Eseg|]. repeat (split; [reflexivity|]).
  split.
  { destruct (smooth_gamma fuel p b N 4 o HN (or_intror eq_refl) E) as (q & Hq). destruct Hcs as (_ & _ & _ & _ & _ & _ & [_ Hen] & _).
    intros Z0. rewrite Z0 in Hen. assert (F : In q []); [|exact F]. apply Hen. rewrite EN. exact Hq. }
  split; [exact (curve_sample_ok lib o' Hcv)|].
  intros Hoff c0 c1. apply (curve_inhomo_ok (lib_brentq lib) 4 (curve b) (set_coef (st_ctx st) c0 c1) Hb (curves_gentle b) (or_intror eq_refl) Hcs Hwf); cbn [set_coef ec_union ec_N ec_homogeneous].
  - intros q Hq. destruct Hcs as (_ & _ & _ & _ & _ & _ & [_ Hen] & _). apply Hen in Hq. rewrite EN in *.
    apply (gamma_in_grid 4 _ _ q (or_intror eq_refl)) in Hq; [exact Hq|]. destruct Hok as (_ & _ & _ & Hm & _). exact Hm.
  - rewrite Eh, EN. destruct p; [left; reflexivity|left; reflexivity|right; apply Hoff; reflexivity].
Qed.

(** ** The errors *)

Definition entries_of (setypes : option (list setype_t)) (mv : multivalue) (q : node) : list (node * mv_entry) :=
  match mv_get mv q with Ok l => map (pair q) (filter (et_allowed setypes) l) | Err _ => [] end.

Lemma et_errors_eq : forall c p N setypes mv nodes, 0 < ec_a c < PI -> ec_N c = N -> ec_AD c = 2 * PI -> (1 <= N)%Z ->
  (forall q, In q nodes -> exists l, mv_get mv q = Ok l) ->
  et_errors c (smooth_expected p) setypes mv nodes = Ok (map (entry_error p N) (flat_map (entries_of setypes mv) nodes)).
Proof.
  intros c p N setypes mv nodes Ha EN EAD HN. induction nodes as [|q nodes IH]; intros Hg; [reflexivity|]. cbn [et_errors flat_map].
  pose proof (polar_of_node c q Ha) as P. destruct (ps_get_polar (ec_a c) (ec_AD c) (ec_N c) (fst q) (snd q)) as [r th].
  destruct P as [_ P]. rewrite EN, EAD, square_coord in P by exact HN.
  destruct (Hg q (or_introl eq_refl)) as (l & El). unfold entries_of at 1. rewrite El. cbn [bind]. rewrite IH by (intros q' Hq'; apply Hg; right; exact Hq'). cbn [bind].
  rewrite map_app, map_map. do 2 f_equal. apply map_ext. intros d. unfold entry_error. cbn [fst snd]. rewrite <- P. cbn [fst snd].
  rewrite smooth_expected_exact. reflexivity.
Qed.

Lemma allowed_iff : forall setypes d, et_allowed setypes d = true <-> match setypes with None => True | Some l => In (me_setype d) l end.
Proof.
  intros [l|] d; cbn [et_allowed]; [|tauto]. rewrite existsb_exists. split.
  - intros (x & Hx & E). destruct (setype_eqb_spec (me_setype d) x) as [->|]; [exact Hx|discriminate].
  - intros H. exists (me_setype d). split; [exact H|]. destruct (setype_eqb_spec (me_setype d) (me_setype d)); [reflexivity|congruence].
Qed.

Lemma entries_looked : forall setypes mv nodes d, (forall q, In q nodes <-> exists l, mv_get mv q = Ok l) ->
  (In d (flat_map (entries_of setypes mv) nodes) <-> looked_at setypes mv d).
Proof.
  intros setypes mv nodes d Hn. rewrite in_flat_map. unfold entries_of, looked_at. split.
  - intros (q & Hq & Hd). apply Hn in Hq. destruct Hq as (l & El). rewrite El in Hd. apply in_map_iff in Hd. destruct Hd as (e & <- & He).
    apply filter_In in He. destruct He as [He Ha]. cbn [fst snd]. split; [exists l; auto|]. apply allowed_iff; exact Ha.
  - intros [(l & El & Hd) Ha]. exists (fst d). split; [apply Hn; exists l; exact El|]. rewrite El. apply in_map_iff. exists (snd d).
    split; [symmetry; apply surjective_pairing|]. apply filter_In. split; [exact Hd|]. apply allowed_iff; exact Ha.
Qed.

(** ** run_test *)

Lemma et_run : forall fuel lib p b N setypes D un, enumerating lib -> fit_sizes lib -> brentq_contract (lib_brentq lib) -> table_size N ->
  (p = SmoothYCos -> off_curve (curve b) N) -> solution_family p D -> normal_trace (curve b) (PI / 4) D un ->
  exists o st c0 c1 mv, smooth_options (S fuel) p b N 4 = Ok o /\ ps_init lib (resized o 115 30) = Ok st /\
    fitted lib st (value_trace (curve b) (PI / 4) D) c0 /\ fitted lib st un c1 /\
    mv_extend_boundary (set_coef (st_ctx st) c0 c1) SrcCoef false = Ok mv /\
    (forall q, In q (ec_union (st_ctx st)) <-> exists l, mv_get mv q = Ok l) /\ (forall q l, mv_get mv q = Ok l -> l <> []) /\ ec_union (st_ctx st) <> [] /\
    et_run_test (S fuel) lib p b setypes N = py_max (map (entry_error p N) (flat_map (entries_of setypes mv) (ec_union (st_ctx st)))).
Proof.
  intros fuel lib p b N setypes D un Hl Hfit Hb HN Hoff HD Hun.
  destruct (sized_state fuel lib p b N 115 30 Hl Hb HN ltac:(lia) ltac:(lia)) as
    (o & st & Eo & Hi & Hwf & Hcs & EN & Ek & Eh & _ & EB & Eseg & ER & Ea & Er & Eexp & Ebc & Hne & Hs & Hinh).
  destruct (calc_c0 (lib_chebfit lib) (get_chebyshev_roots (Z.to_nat n_chebyshev_nodes)) (23 / 10) (PI / 4) (snd (setup_basis 115 30)) (o_bc o)) as [c0|] eqn:E0;
    [|rewrite calc_c0_eq in E0 by lia; discriminate].
  destruct (calc_c0 (lib_chebfit lib) (get_chebyshev_roots (Z.to_nat n_chebyshev_nodes)) (23 / 10) (PI / 4) (snd (setup_basis 115 30)) (smooth_du p b)) as [c1|] eqn:E1;
    [|rewrite calc_c0_eq in E1 by lia; discriminate].
  destruct (calc_c0_nth _ _ _ _ _ _ _ _ Hfit E0) as [L0 _]. destruct (calc_c0_nth _ _ _ _ _ _ _ _ Hfit E1) as [L1 _]. rewrite <- EB in L0, L1. destruct (Hinh Hoff c0 c1) as (extf & Hf).
  destruct (mv_total (set_coef (st_ctx st) c0 c1) extf Hwf L0 L1 Hf) as (mv & red & Em & Ered & Gn & Gne & _).
  exists o, st, c0, c1, mv. split; [exact Eo|]. split; [exact Hi|].
  split. { unfold fitted. rewrite Eseg, <- E0, Ebc. apply calc_c0_ext; [|lia|lia]. intros sid t H3 _. symmetry. apply smooth_bc_trace; assumption. }
  split. { unfold fitted. rewrite Eseg, <- E1. apply calc_c0_ext; [|lia|lia]. intros sid t H3 Ht. symmetry. apply (du_normal p b D un sid t HD Hun H3 Ht). }
  split; [exact Em|]. split; [exact Gn|]. split; [exact Gne|]. split; [exact Hne|].
  destruct (c0_test_spec sample_n (curve b) (o_bc o) (23 / 10) (PI / 4) (ec_B (st_ctx st)) c0) as (eo & e & Et & _); [unfold sample_n; lia|exact Hs|exact L0|].
  unfold et_run_test. rewrite Eo. cbn [bind]. cbv zeta. change (with_sizes o 115 30) with (resized o 115 30). rewrite Hi. cbn [bind].
  change (o_R (resized o 115 30)) with (o_R o). change (o_a (resized o 115 30)) with (o_a o). change (o_r (resized o 115 30)) with (o_r o).
  change (o_bc (resized o 115 30)) with (o_bc o). change (o_expected (resized o 115 30)) with (o_expected o).
  rewrite ER, Ea, Er, Eseg, E0. cbn [bind]. rewrite calc_c1_exact_eq, E1. cbn [bind]. rewrite Et. cbn [bind]. rewrite Em. cbn [bind]. rewrite Ered. cbn [bind].
  destruct (table_size_range N HN) as [HN1 _].
  rewrite Eexp, (et_errors_eq (st_ctx st) p N setypes mv (ec_union (st_ctx st))); [|apply Hwf|exact EN|apply Hcs|lia|intros q Hq; apply Gn; exact Hq].
  cbn [bind]. rewrite map_map. f_equal. apply map_ext. intros d. unfold entry_error. apply Rabs_pos_eq, Cmod_ge_0.
Qed.

Lemma et_measured : forall fuel lib p b N setypes D un, enumerating lib -> fit_sizes lib -> brentq_contract (lib_brentq lib) -> table_size N ->
  (p = SmoothYCos -> off_curve (curve b) N) -> solution_family p D -> normal_trace (curve b) (PI / 4) D un ->
  exists o st c0 c1 mv, smooth_options (S fuel) p b N 4 = Ok o /\ ps_init lib (resized o 115 30) = Ok st /\
    fitted lib st (value_trace (curve b) (PI / 4) D) c0 /\ fitted lib st un c1 /\
    mv_extend_boundary (set_coef (st_ctx st) c0 c1) SrcCoef false = Ok mv /\
    ((exists d, looked_at setypes mv d) -> exists e, et_run_test (S fuel) lib p b setypes N = Ok e /\ is_max (looked_at setypes mv) (entry_error p N) e) /\
    ((forall d, ~ looked_at setypes mv d) -> et_run_test (S fuel) lib p b setypes N = Err ValueError) /\
    (setypes = None -> exists d, looked_at setypes mv d).
Proof.
  intros fuel lib p b N setypes D un Hl Hfit Hb HN Hoff HD Hun.
  destruct (et_run fuel lib p b N setypes D un Hl Hfit Hb HN Hoff HD Hun) as (o & st & c0 & c1 & mv & A1 & A2 & A3 & A4 & A5 & Gn & Gne & Hne & ->).
  exists o, st, c0, c1, mv. do 5 (split; [assumption|]).
  pose proof (fun d => entries_looked setypes mv (ec_union (st_ctx st)) d Gn) as Hd. set (ds := flat_map (entries_of setypes mv) (ec_union (st_ctx st))) in *.
  split; [|split].
  - intros (d & H). destruct (py_max_is_max ds (entry_error p N)) as (e & Ee & [(q & Hq & Hqe) Hmax]).
    { intros Z0. apply Hd in H. rewrite Z0 in H. exact H. }
    exists e. split; [exact Ee|]. split; [exists q; split; [apply Hd; exact Hq|exact Hqe]|]. intros q' Hq'. apply Hmax, Hd. exact Hq'.
  - intros H. destruct ds as [|d ds]; [reflexivity|]. exfalso. apply (H d), Hd. left; reflexivity.
  - intros ->. destruct (ec_union (st_ctx st)) as [|q qs] eqn:Eu; [congruence|]. destruct (proj1 (Gn q) (or_introl eq_refl)) as (l & El).
    pose proof (Gne q l El) as Hl0. destruct l as [|d l]; [congruence|]. exists (q, d). split; [|exact I]. exists (d :: l). split; [exact El|left; reflexivity].
Qed.

Lemma family_ex : forall p b, exists D un, solution_family p D /\ normal_trace (curve b) (PI / 4) D un.
Proof. intros p b. exists (smooth_D p), (normal_of (curve b) (smooth_D p)). split; [apply smooth_D_family|apply normal_of_trace, curves_good]. Qed.

Lemma solution_ex : forall p, exists D, solution_family p D.
Proof. intros p. exists (smooth_D p). apply smooth_D_family. Qed.

Lemma et_default : forall fuel lib p b N, enumerating lib -> fit_sizes lib -> brentq_contract (lib_brentq lib) -> table_size N ->
  (p = SmoothYCos -> off_curve (curve b) N) -> exists e, et_run_test (S fuel) lib p b None N = Ok e.
Proof.
  intros fuel lib p b N Hl Hfit Hb HN Hoff. destruct (family_ex p b) as (D & un & HD & Hun).
  destruct (et_measured fuel lib p b N None D un Hl Hfit Hb HN Hoff HD Hun) as (_ & _ & _ & _ & mv & _ & _ & _ & _ & _ & H & _ & Hn).
  destruct (H (Hn eq_refl)) as (e & E & _). exists e. exact E.
Qed.

(** The error is of fifth order up to the accuracy of the fits. *)
Lemma et_bound : forall b, exists K, 0 <= K /\ forall p fuel lib N setypes D un o st c0 c1 eps e,
  enumerating lib -> fit_sizes lib -> brentq_contract (lib_brentq lib) -> table_size N -> (p = SmoothYCos -> off_curve (curve b) N) ->
  solution_family p D -> normal_trace (curve b) (PI / 4) D un ->
  smooth_options (S fuel) p b N 4 = Ok o -> ps_init lib (resized o 115 30) = Ok st ->
  fitted lib st (value_trace (curve b) (PI / 4) D) c0 -> fitted lib st un c1 -> 0 <= eps ->
  fits (23 / 10) (PI / 4) (ec_B (st_ctx st)) c0 (value_trace (curve b) (PI / 4) D) eps -> fits (23 / 10) (PI / 4) (ec_B (st_ctx st)) c1 un eps ->
  et_run_test (S fuel) lib p b setypes N = Ok e -> 0 <= e <= K * (eps + (2 * PI / IZR N) ^ 5).
Proof.
  intros b. destruct (curve_accuracy (curve b) (27 / 4) (curves_gentle b) (curves_good b)) as (K1 & HK1 & Acc).
  destruct (curve_source_accuracy (curve b) (27 / 4) (curves_gentle b) (curves_good b)) as (K2 & HK2 & Acc').
  set (M := 8 * (27 / 4) ^ 6). assert (HM : 1 <= M) by (unfold M; lra).
  exists ((K1 + K2) * M). split; [apply Rmult_le_pos; lra|].
  intros p fuel lib N setypes D un o st c0 c1 eps e Hl Hfit Hb HN Hoff HD Hun Eo Hi F0 F1 Heps G0 G1 He.
  destruct (et_run fuel lib p b N setypes D un Hl Hfit Hb HN Hoff HD Hun) as (o' & st' & c0' & c1' & mv & A1 & A2 & A3 & A4 & A5 & Gn & Gne & Hne & Er).
  rewrite Eo in A1. apply Ok_inj' in A1. subst o'. rewrite Hi in A2. apply Ok_inj' in A2. subst st'.
  unfold fitted in F0, F1, A3, A4. rewrite F0 in A3. apply Ok_inj' in A3. subst c0'. rewrite F1 in A4. apply Ok_inj' in A4. subst c1'.
  rewrite He in Er. symmetry in Er. apply py_max_spec in Er. destruct Er as [Hin _]. apply in_map_iff in Hin. destruct Hin as (d & <- & Hd).
  apply (entries_looked setypes mv _ d Gn) in Hd. destruct Hd as [(l & El & Hdl) _].
  destruct (sized_state fuel lib p b N 115 30 Hl Hb HN ltac:(lia) ltac:(lia)) as
    (o' & st' & Eo' & Hi' & Hwf & Hcs & EN & Ek & Eh & Esrc & EB & Eseg & ER & Ea & Ecv & Eexp & Ebc & _ & Hs & Hinh).
  rewrite Eo in Eo'. apply Ok_inj' in Eo'. subst o'. rewrite Hi in Hi'. apply Ok_inj' in Hi'. subst st'.
  destruct (Hinh Hoff c0 c1) as (extf & Hf).
  destruct (mv_total (set_coef (st_ctx st) c0 c1) extf Hwf (proj1 G0) (proj1 G1) Hf) as (mv' & red & Em & _ & _ & _ & Hhom).
  rewrite A5 in Em. apply Ok_inj' in Em. subst mv'.
  assert (Hbd : square_bound D M).
  { split; [lra|]. intros i j x y Hij Hx Hy. rewrite (family_eq p D HD) by exact Hij. apply (smooth_bound_all p); assumption. }
  destruct (table_size_range N HN) as [HN1 _].
  assert (Ecc : ctx_coord (set_coef (st_ctx st) c0 c1) (fst d) = square_pt N (fst (fst d)) (snd (fst d))).
  { unfold ctx_coord. cbn [set_coef ec_AD ec_N]. destruct Hcs as (_ & _ & EA & _). rewrite EA, EN. apply square_coord. lia. }
  set (h := 2 * PI / IZR N). assert (Hh : 0 < h) by (unfold h; pose proof PI_RGT_0; apply Rdiv_lt_0_compat; [lra|apply IZR_lt; lia]).
  assert (Hh5 : 0 < h ^ 5) by (apply pow_lt; exact Hh).
  assert (Mono : forall K, 0 <= K -> K <= K1 + K2 -> K * (eps + M * h ^ 5) <= (K1 + K2) * M * (eps + h ^ 5)).
  { intros K P1 P2. apply Rle_trans with ((K1 + K2) * (eps + M * h ^ 5)).
    - apply Rmult_le_compat_r; [|exact P2]. assert (0 <= M * h ^ 5) by (apply Rmult_le_pos; lra). lra.
    - rewrite Rmult_assoc. apply Rmult_le_compat_l; [lra|]. assert (0 <= (M - 1) * eps) by (apply Rmult_le_pos; lra). lra. }
  unfold entry_error. cbv zeta. split; [apply Cmod_ge_0|].
  rewrite <- Cmod_opp. replace (Copp _) with (Cminus (me_value (snd d)) (exact_solution p (fst (square_pt N (fst (fst d)) (snd (fst d)))) (snd (square_pt N (fst (fst d)) (snd (fst d)))))) by ring.
  assert (Hol : p <> SmoothYCos -> Cmod (Cminus (me_value (snd d)) (exact_solution p (fst (square_pt N (fst (fst d)) (snd (fst d)))) (snd (square_pt N (fst (fst d)) (snd (fst d)))))) <= (K1 + K2) * M * (eps + h ^ 5)).
  { intros Hp.
    destruct (Hhom ltac:(cbn [set_coef ec_homogeneous]; rewrite Eh; destruct p; [reflexivity|reflexivity|congruence]) (fst d) l (snd d) El Hdl) as (sid & et & H3 & Hq & Het & Hext & _).
    assert (Hpde : helmholtz plane (27 / 4) D (fun _ _ _ _ => RtoC 0)).
    { intros x y Hxy. rewrite !(family_eq p D HD) by lia. apply (smooth_D_helmholtz p Hp x y Hxy). }
    destruct (Acc (lib_brentq lib) 4%Z (set_coef (st_ctx st) c0 c1) D un M eps Hb (or_intror eq_refl) Hcs Ek (proj1 HD) Hpde Hbd Hun Heps G0 G1 sid et (fst d) H3 Hq Het)
      as (len & v & Ev & Hv).
    rewrite Hext in Ev. injection Ev as _ <-. rewrite Ecc, (proj2 HD) in Hv. cbn [set_coef ec_N] in Hv. rewrite EN in Hv. fold h in Hv.
    eapply Rle_trans; [exact Hv|]. apply Mono; lra. }
  destruct p; try (apply Hol; discriminate). clear Hol Hhom.
  assert (Hpde : helmholtz plane (27 / 4) D ycos_FC).
  { intros x y Hxy. rewrite !(family_eq SmoothYCos D HD) by lia. apply (ycos_helmholtz x y Hxy). }
  set (cx := set_coef (st_ctx st) c0 c1) in *.
  assert (Ehf : ec_homogeneous cx = false) by exact Eh.
  assert (Hoff' : off_curve (curve b) (ec_N cx)) by (unfold cx; cbn [set_coef ec_N]; rewrite EN; apply Hoff; reflexivity).
  assert (Hsrc : source_of (ec_src cx) ycos_FC ycos_QC) by (unfold cx; cbn [set_coef ec_src]; rewrite Esrc; exact ycos_source_of).
  pose proof (Acc' (lib_brentq lib) 4%Z cx D ycos_FC ycos_QC un M eps Hb (or_intror eq_refl) Hcs Ek Ehf Hoff' Hsrc (proj1 HD) ycos_FC_partials Hpde Hbd Hun Heps G0 G1) as Node.
  destruct (mv_sums cx mv Hwf (proj1 G0) (proj1 G1) Ehf) with (q := fst d) (l := l) (d := snd d) as (sid & et & v & len & w & H3 & Hq & Het & Hext & Hinh' & ->); [|exact A5|exact El|exact Hdl|].
  { intros sid q H3 Hq. destruct (node_linear_c cx sid q Hwf H3 Hq (proj1 G0) (proj1 G1)) as (A & _).
    destruct (Node sid (node_et cx sid q) q H3 Hq A) as (len & v & len' & w & _ & Ew & _). exists (len', w). exact Ew. }
  destruct (Node sid et (fst d) H3 Hq Het) as (len1 & v' & len' & w' & Ev & Ew & Hv).
  rewrite Hext in Ev. injection Ev as _ <-. rewrite Hinh' in Ew. injection Ew as _ <-.
  rewrite Ecc, (proj2 HD) in Hv. unfold cx in Hv. cbn [set_coef ec_N] in Hv. rewrite EN in Hv. fold h in Hv.
  eapply Rle_trans; [exact Hv|]. apply Mono; lra.
Qed.

(** ** The loop over the grids *)

Lemma et_main_runs : forall fuel lib p b, enumerating lib -> fit_sizes lib -> brentq_contract (lib_brentq lib) -> p <> SmoothYCos ->
  exists e0 e1 e2 e3, (forall n e, In (n, e) [(0%nat, e0); (1%nat, e1); (2%nat, e2); (3%nat, e3)] ->
     et_run_test (S fuel) lib p b None (16 * 2 ^ Z.of_nat n) = Ok e) /\
  et_main 4 (S fuel) lib p b None None 16 128 =
    Ok [(16, e0, None); (32, e1, Some e0); (64, e2, Some e1); (128, e3, Some e2)]%Z.
Proof.
  intros fuel lib p b Hl Hfit Hb Hp.
  assert (T : forall n, (n <= 4)%nat -> exists e, et_run_test (S fuel) lib p b None (16 * 2 ^ Z.of_nat n) = Ok e)
    by (intros n Hn; apply et_default; auto; [apply table_16; lia|congruence]).
  destruct (T 0%nat ltac:(lia)) as [e0 E0]. destruct (T 1%nat ltac:(lia)) as [e1 E1]. destruct (T 2%nat ltac:(lia)) as [e2 E2].
  destruct (T 3%nat ltac:(lia)) as [e3 E3].
  exists e0, e1, e2, e3. split.
  - intros n e [H|[H|[H|[H|[]]]]]; injection H as <- <-; assumption.
  - cbn [Z.of_nat Z.mul Z.pow Z.pow_pos Pos.iter Pos.mul Pos.of_succ_nat Pos.succ] in E0, E1, E2, E3.
    unfold et_main. cbn [Z.leb Z.compare Pos.compare Pos.compare_cont Z.mul Pos.mul].
    rewrite E0. cbn [bind]. rewrite E1. cbn [bind]. rewrite E2. cbn [bind]. rewrite E3. reflexivity.
Qed.

(** ** c0_basis.py *)

Lemma is_max_ext : forall {A} (P : A -> Prop) f g e, (forall x, P x -> f x = g x) -> is_max P f e -> is_max P g e.
Proof.
  intros A P f g e H [(x & Hx & E) M]. split; [exists x; split; [exact Hx|rewrite <- H by exact Hx; exact E]|].
  intros y Hy. rewrite <- H by exact Hy. apply M; exact Hy.
Qed.

Lemma sample_sid : forall r R0 a n q, In q (get_boundary_sample r R0 a n) -> (bp_sid q < 3)%nat.
Proof.
  intros r R0 a n q H. unfold get_boundary_sample in H. rewrite !in_app_iff in H.
  destruct H as [H|[H|H]]; apply in_map_iff in H; destruct H as (t & <- & _); cbn [bp_sid]; lia.
Qed.

Lemma cb_step_spec : forall fuel lib p N o n D, enumerating lib -> fit_sizes lib -> brentq_contract (lib_brentq lib) -> table_size N ->
  solution_family p D -> smooth_options (S fuel) p OuterSine N 4 = Ok o -> (2 <= n)%Z ->
  exists st c0 eo e, cb_step lib o n = Ok (n, (eo, e)) /\ ps_init lib (resized o (Z.to_nat n) (Z.to_nat (3 * n / 4))) = Ok st /\
    fitted lib st (value_trace (curve OuterSine) (PI / 4) D) c0 /\ length c0 = (Z.to_nat n + 2 * Z.to_nat (3 * n / 4))%nat /\
    let S := get_boundary_sample (curve OuterSine) (23 / 10) (PI / 4) 100 in
    is_max (fun q => In q S /\ bp_sid q = 0%nat) (misfit p (ec_B (st_ctx st)) c0) eo /\ is_max (fun q => In q S) (misfit p (ec_B (st_ctx st)) c0) e.
Proof.
  intros fuel lib p N o n D Hl Hfit Hb HN HD Eo Hn.
  assert (H1 : (1 <= Z.to_nat n)%nat) by lia. assert (H2 : (1 <= Z.to_nat (3 * n / 4))%nat).
  { assert (1 <= 3 * n / 4)%Z by (apply Z.div_le_lower_bound; lia). lia. }
  destruct (sized_state fuel lib p OuterSine N (Z.to_nat n) (Z.to_nat (3 * n / 4)) Hl Hb HN H1 H2) as
    (o' & st & Eo' & Hi & Hwf & Hcs & EN & Ek & Eh & _ & EB & Eseg & ER & Ea & Er & Eexp & Ebc & Hne & Hs & _).
  rewrite Eo in Eo'. apply Ok_inj' in Eo'. subst o'.
  destruct (calc_c0 (lib_chebfit lib) (get_chebyshev_roots (Z.to_nat n_chebyshev_nodes)) (23 / 10) (PI / 4) (snd (setup_basis (Z.to_nat n) (Z.to_nat (3 * n / 4)))) (o_bc o)) as [c0|] eqn:E0;
    [|rewrite calc_c0_eq in E0 by assumption; discriminate].
  destruct (calc_c0_nth _ _ _ _ _ _ _ _ Hfit E0) as [L0 _]. assert (L0' := L0). rewrite <- EB in L0.
  destruct (c0_test_spec sample_n (curve OuterSine) (o_bc o) (23 / 10) (PI / 4) (ec_B (st_ctx st)) c0) as (eo & e & Et & Meo & Me); [unfold sample_n; lia|exact Hs|exact L0|].
  exists st, c0, eo, e. split.
  { unfold cb_step. cbv zeta. change (with_sizes o (Z.to_nat n) (Z.to_nat (3 * n / 4))) with (resized o (Z.to_nat n) (Z.to_nat (3 * n / 4))). rewrite Hi. cbn [bind].
    set (o' := resized o _ _). change (o_R o') with (o_R o). change (o_a o') with (o_a o). change (o_r o') with (o_r o). change (o_bc o') with (o_bc o).
    rewrite ER, Ea, Er, Eseg, E0. cbn [bind]. rewrite Et. reflexivity. }
  split; [exact Hi|]. split.
  { unfold fitted. rewrite Eseg, <- E0, Ebc. apply calc_c0_ext; [|assumption|assumption]. intros sid t H3 _. symmetry. apply smooth_bc_trace; assumption. }
  split. { rewrite L0', B_desc_length. reflexivity. }
  assert (Same : forall q, In q (get_boundary_sample (curve OuterSine) (23 / 10) (PI / 4) 100) ->
    Rabs (Re (o_bc o (bp_arg q) (bp_sid q)) - Re (seg_function (eval_g_inv (23 / 10) (PI / 4) (bp_sid q)) (ec_B (st_ctx st)) c0 (bp_sid q) (bp_arg q))) =
    misfit p (ec_B (st_ctx st)) c0 q).
  { intros q Hq. unfold misfit. rewrite Ebc, (smooth_bc_trace p OuterSine D _ _ HD (sample_sid _ _ _ _ _ Hq)). unfold value_trace. rewrite (proj2 HD). reflexivity. }
  split; [apply is_max_ext with (2 := Meo); intros q [Hq _]; apply Same; exact Hq|apply is_max_ext with (2 := Me); exact Same].
Qed.

Lemma cb_loop_total : forall lib o ns, (forall n, In n ns -> exists x, cb_step lib o n = Ok (n, x)) ->
  exists l, cb_loop lib o ns = Ok l /\ map fst l = ns /\ forall n x, In (n, x) l -> cb_step lib o n = Ok (n, x).
Proof.
  intros lib o ns. induction ns as [|n ns IH]; intros H.
  - exists []. split; [reflexivity|]. split; [reflexivity|]. intros n x [].
  - destruct (H n (or_introl eq_refl)) as (x & Ex). destruct IH as (l & El & Em & Hl); [intros m Hm; apply H; right; exact Hm|].
    exists ((n, x) :: l). cbn [cb_loop]. rewrite Ex. cbn [bind]. rewrite El. cbn [bind map fst]. split; [reflexivity|]. split; [rewrite Em; reflexivity|].
    intros m y [E|Hy]; [injection E as <- <-; exact Ex|apply Hl; exact Hy].
Qed.

Lemma cb_run : forall fuel lib p N D, enumerating lib -> fit_sizes lib -> brentq_contract (lib_brentq lib) -> table_size N ->
  solution_family p D ->
  exists o l, smooth_options (S fuel) p OuterSine N 4 = Ok o /\ cb_main (S fuel) lib p N = Ok l /\
    map fst l = [10; 15; 20; 25; 30; 35; 40; 45; 50; 55; 60; 65; 70; 75; 80; 85; 90; 95]%Z /\
    forall n eo e, In (n, (eo, e)) l -> eo <= e /\ exists st c0, ps_init lib (resized o (Z.to_nat n) (Z.to_nat (3 * n / 4))) = Ok st /\
      fitted lib st (value_trace (curve OuterSine) (PI / 4) D) c0 /\ length c0 = (Z.to_nat n + 2 * Z.to_nat (3 * n / 4))%nat /\
      let S := get_boundary_sample (curve OuterSine) (23 / 10) (PI / 4) 100 in
      is_max (fun q => In q S /\ bp_sid q = 0%nat) (misfit p (ec_B (st_ctx st)) c0) eo /\ is_max (fun q => In q S) (misfit p (ec_B (st_ctx st)) c0) e.
Proof.
  intros fuel lib p N D Hl Hfit Hb HN HD. destruct (smooth_options_ok fuel p OuterSine N 4 HN) as (nc0 & nr0 & _ & _ & E).
  set (o := mk_opt _ _ _ _ _ _ _ _ _ _ _ _ _ _ _) in E. exists o.
  destruct (cb_loop_total lib o (py_range_step 10 100 5)) as (l & El & Em & Hx).
  { intros n Hn. apply range_step_in in Hn; [|lia]. destruct (cb_step_spec fuel lib p N o n D Hl Hfit Hb HN HD E ltac:(lia)) as (st & c0 & eo & e & H & _). exists (eo, e). exact H. }
  exists l. split; [exact E|]. split; [unfold cb_main; rewrite E; exact El|]. split; [rewrite Em; reflexivity|].
  intros n eo e Hin. assert (Hn : In n (py_range_step 10 100 5)) by (rewrite <- Em; apply (in_map fst) in Hin; exact Hin).
  apply range_step_in in Hn; [|lia].
  destruct (cb_step_spec fuel lib p N o n D Hl Hfit Hb HN HD E ltac:(lia)) as (st & c0 & eo' & e' & H & Hi & Hft & Hlen & Meo & Me).
  rewrite (Hx _ _ Hin) in H. injection H as <- <-. split.
  - destruct Meo as [(q & [Hq _] & <-) _]. apply Me; exact Hq.
  - exists st, c0. auto.
Qed.

(** ** Instances *)

Lemma et_table : table_size 16.
Proof. exists 4%Z. split; [lia|reflexivity]. Qed.

Lemma et_ex : forall p b, (p = SmoothYCos -> b = OuterSine) -> let lib := ex_lib min_zero in exists D un o st c0 c1 eps e,
  (p = SmoothYCos -> off_curve (curve b) 16) /\ solution_family p D /\ normal_trace (curve b) (PI / 4) D un /\
  smooth_options 1 p b 16 4 = Ok o /\ ps_init lib (resized o 115 30) = Ok st /\
  fitted lib st (value_trace (curve b) (PI / 4) D) c0 /\ fitted lib st un c1 /\ 0 <= eps /\
  fits (23 / 10) (PI / 4) (ec_B (st_ctx st)) c0 (value_trace (curve b) (PI / 4) D) eps /\ fits (23 / 10) (PI / 4) (ec_B (st_ctx st)) c1 un eps /\
  et_run_test 1 lib p b None 16 = Ok e.
Proof.
  intros p b Hpb lib. pose proof (ex_enumerating min_zero) as Hl. pose proof (ex_fit min_zero) as Hf. pose proof min_zero_contract as Hb.
  assert (Hoff : p = SmoothYCos -> off_curve (curve b) 16) by (intros E; rewrite (Hpb E); exact outer_off_16).
  pose proof (smooth_D_family p) as HD. pose proof (normal_of_trace (curve b) (smooth_D p) (curves_good b)) as Hun.
  destruct (et_measured 0 lib p b 16 None _ _ Hl Hf Hb et_table Hoff HD Hun) as (o & st & c0 & c1 & mv & E1 & E2 & E3 & E4 & E5 & H & _ & Hn).
  destruct (H (Hn eq_refl)) as (e & Ee & _).
  destruct (st_basis lib (resized o 115 30) st E2) as (nc & nr & En & EB & Eseg). cbn in En. injection En as <- <-.
  assert (E3' := E3). assert (E4' := E4). unfold fitted in E3', E4'. rewrite Eseg in E3', E4'.
  destruct (calc_c0_nth _ _ _ _ _ _ _ _ Hf E3') as [L0 _]. destruct (calc_c0_nth _ _ _ _ _ _ _ _ Hf E4') as [L1 _]. rewrite <- EB in L0, L1.
  destruct (data_fits b (smooth_D p) (ec_B (st_ctx st)) c0 c1 (proj1 HD) L0 L1) as (eps & Heps & F0 & F1).
  exists (smooth_D p), (normal_of (curve b) (smooth_D p)), o, st, c0, c1, eps, e. repeat (refine (conj _ _); [assumption|]). exact Ee.
Qed.
