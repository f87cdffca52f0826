(** The drivers from their command lines (C90). *)
From Coq Require Import Ascii String ZArith List Bool Lia Reals.
From Verif Require Import Model_Py Model_Grid Model_Abcoef Model_PS Model_Driver Model_Run Model_Program Model_ZProgram Model_Cli
  Spec_Domain Spec_Run Spec_Program Spec_ZProgram Spec_Cli Proof_Driver Proof_Program Proof_ZProgram Proof_Cli.
Import ListNotations.
Open Scope string_scope.
Open Scope Z_scope.
Open Scope list_scope.

Lemma no_other : forall z l, List.Forall (item_ok z) l -> existsb is_other (map (classify z) (render l)) = false.
Proof.
  intros z l H. induction H as [|i l Hi Hl IH]; [reflexivity|]. unfold render in *. cbn [flat_map]. rewrite map_app, existsb_app, IH, orb_false_r.
  destruct i as [s|v|[v|]|v| | |]; cbn [item_ok] in Hi; cbn [render_item map existsb]; try reflexivity.
  - rewrite (classify_plain z s Hi). reflexivity.
  - rewrite (classify_plain z v (proj1 Hi)). reflexivity.
  - rewrite (classify_plain z v (proj1 Hi)). reflexivity.
  - rewrite (classify_plain z v (proj1 Hi)). reflexivity.
  - rewrite Hi. reflexivity.
Qed.

Lemma parse_items_inv : forall z l st st', List.Forall (item_ok z) l -> spaced l ->
  parse_tokens (map (classify z) (render l)) st = Some st' -> steps st l st'.
Proof.
  intros z l. induction l as [|i l IH]; intros st st' Hok Hsp H; [cbn in H; injection H as <-; constructor|].
  apply List.Forall_cons_iff in Hok. destruct Hok as [Hi Hok]. specialize (fun st => IH st st' Hok (spaced_tail i l Hsp)).
  unfold render in *. cbn [flat_map] in H. rewrite map_app in H.
  destruct i as [s|v|[v|]|v| | |]; cbn [item_ok] in Hi; cbn [render_item map app] in H.
  - rewrite (classify_plain z s Hi) in H. cbn [parse_tokens] in H. destruct (take_pos s st) as [st1|] eqn:E; [|discriminate].
    econstructor; [constructor; exact E|]. apply IH, H.
  - rewrite (classify_plain z v (proj1 Hi)) in H. cbn [classify String.eqb Ascii.eqb Bool.eqb parse_tokens] in H.
    destruct (py_int v) as [n|] eqn:E; [|discriminate]. apply py_int_iff in E. econstructor; [constructor; exact E|]. apply IH, H.
  - rewrite (classify_plain z v (proj1 Hi)) in H. cbn [classify String.eqb Ascii.eqb Bool.eqb parse_tokens] in H.
    destruct (py_int v) as [n|] eqn:E; [|discriminate]. apply py_int_iff in E. econstructor; [constructor; exact E|]. apply IH, H.
  - cbn [classify String.eqb Ascii.eqb Bool.eqb parse_tokens] in H. fold (set_c st (Some 128)) in H.
    econstructor; [constructor|]. apply IH.
    destruct (map (classify z) (flat_map render_item l)) as [|t ts] eqn:E; [exact H|].
    destruct t; try exact H. exfalso.
    destruct l as [|j l]; [discriminate|]. destruct j as [s'|v|[v|]|v| | |]; cbn in E; try discriminate.
    + exact (Hsp [] l s' eq_refl).
    + destruct z; cbn in E; [discriminate|]. apply List.Forall_cons_iff in Hok. destruct Hok as [Hz _]. discriminate Hz.
  - rewrite (classify_plain z v (proj1 Hi)) in H. cbn [classify String.eqb Ascii.eqb Bool.eqb parse_tokens] in H.
    destruct (py_int v) as [n|] eqn:E; [|discriminate]. apply py_int_iff in E. destruct ((n =? 2) || (n =? 4)) eqn:Eo; [|discriminate].
    apply order_ok in Eo. econstructor; [exact (s_o st v n E Eo)|]. apply IH, H.
  - econstructor; [constructor|]. apply IH, H.
  - econstructor; [constructor|]. apply IH, H.
  - rewrite Hi in H. econstructor; [constructor|]. rewrite Hi in IH. apply IH, H.
Qed.

Lemma required : forall z l, List.Forall (item_ok z) l -> spaced l -> length (args_of l) <> 2%nat -> parse_args z (render l) = Usage.
Proof.
  intros z l Hok Hsp Hn. destruct (parse_args z (render l)) as [a| |] eqn:E; [exfalso|reflexivity|exfalso].
  - apply parse_shape in E. destruct E as (_ & st & p & b & Hp & Epos & Eex & _).
    pose proof (parse_items_inv z l cli_start st Hok Hsp Hp) as Hs.
    destruct (steps_mean l cli_start st Hs start_ok) as (_ & _ & _ & _ & _ & _ & _ & H8). destruct (H8 Eex) as [_ E]. cbn in E.
    rewrite <- E, Epos in Hn. apply Hn. reflexivity.
  - unfold parse_args in E. rewrite (no_other z l Hok) in E. destruct (parse_tokens _ _) as [[[|p [|b [|]]] n c o r ach z1 [|]]|]; discriminate.
Qed.

Lemma bare_c : forall z p rest a, In p problem_choices -> parse_args z ("-c" :: p :: rest) <> Parsed a.
Proof.
  intros z p rest a Hp E. apply parse_shape in E. destruct E as (_ & st & p0 & b & E & _). cbn [map] in E.
  assert (H : classify z p = TPlain p /\ py_int p = None).
  { unfold problem_choices in Hp. cbn [In] in Hp. destruct z; repeat (destruct Hp as [<-|Hp]; [split; reflexivity|]); destruct Hp. }
  destruct H as [H1 H2]. rewrite H1 in E. cbn [classify String.eqb Ascii.eqb Bool.eqb parse_tokens] in E. rewrite H2 in E. discriminate.
Qed.

(** ** The listing *)

Lemma list_basis_ok : forall fuel d Ns, (forall N, In N Ns -> exists nb, get_n_basis fuel d N = Ok nb) ->
  exists ls, list_basis fuel d Ns = Ok ls /\ List.Forall2 (fun N x => exists nb, x = LBasis N nb /\ get_n_basis fuel d N = Ok nb) Ns ls.
Proof.
  intros fuel d. induction Ns as [|N Ns IH]; intros H; [exists []; split; [reflexivity|constructor]|].
  destruct (H N (or_introl eq_refl)) as [nb Hnb]. destruct IH as (ls & E & F); [intros M HM; apply H; right; exact HM|].
  exists (LBasis N nb :: ls). cbn [list_basis]. rewrite Hnb. cbn [bind]. rewrite E. split; [reflexivity|]. constructor; [exists nb; auto|exact F].
Qed.

Lemma table_lookup : forall p N fuel, table_size N -> exists nb, table_get (cli_table p) N = Some nb /\ get_n_basis (S fuel) (cli_table p) N = Ok nb.
Proof.
  intros p N fuel (m & Hm & ->). cbn [get_n_basis].
  assert (E : exists nb, table_get (cli_table p) (2 ^ m) = Some nb).
  { assert (m = 4 \/ m = 5 \/ m = 6 \/ m = 7 \/ m = 8 \/ m = 9 \/ m = 10) as K by lia.
    destruct p; cbn [cli_table]; repeat (destruct K as [K|K]; [subst m; eexists; reflexivity|]); subst m; eexists; reflexivity. }
  destruct E as [nb E]. exists nb. rewrite E. split; [reflexivity|reflexivity].
Qed.

Lemma given_order : forall z l v, List.Forall (item_ok z) l -> last_given gives_o 4 l v -> v = 2 \/ v = 4.
Proof.
  intros z l v Hok [(a & i & b & -> & Hi & _)|[-> _]]; [|right; reflexivity].
  apply List.Forall_app in Hok. destruct Hok as [_ Hok]. apply List.Forall_cons_iff in Hok. destruct Hok as [Hok _].
  destruct i as [s|w|[w|]|w| | |]; cbn in Hi; try contradiction. cbn in Hok. destruct Hok as [_ [H|H]]; [left|right]; eapply int_val_fun; eassumption.
Qed.

Lemma N_list_None : forall fuel N, 1 <= N -> get_N_list (S (S fuel)) N (Some N) = get_N_list (S (S fuel)) N None.
Proof.
  intros fuel N HN. cbn [get_N_list N_list_loop]. rewrite Z.leb_refl. destruct (Z.leb_spec (N * 2) N); [lia|]. reflexivity.
Qed.

Lemma N_list_limit : forall fuel a, 1 <= ca_N a -> get_N_list (S (S fuel)) (ca_N a) (ca_c a) = get_N_list (S (S fuel)) (ca_N a) (Some (limit a)).
Proof. intros fuel a H. unfold limit. destruct (ca_c a); [reflexivity|]. symmetry. apply N_list_None, H. Qed.

Lemma size_pos : forall N, table_size N -> 1 <= N < 2048.
Proof. intros N (m & Hm & ->). pose proof (Z.pow_le_mono_r 2 m 10 ltac:(lia) ltac:(lia)). pose proof (Z.pow_pos_nonneg 2 m ltac:(lia) ltac:(lia)). change (2 ^ 10) with 1024 in *. lia. Qed.

Lemma limit_lt : forall a, table_size (ca_N a) -> (forall c, ca_c a = Some c -> c < 2048) -> limit a < 2048.
Proof. intros a H Hc. unfold limit. destruct (ca_c a) as [c|]; [apply Hc; reflexivity|apply size_pos, H]. Qed.

Lemma listing : forall fuel today a p Ns, (forall N, In N Ns -> table_size N) ->
  exists basis, print_options (S fuel) today (ca_problem a) (ca_boundary a) p Arc (ca_o a) (ca_acheat a) Ns = Ok (heading today a p ++ basis) /\
    Forall2 (fun N x => exists nb, x = LBasis N nb /\ table_get (cli_table p) N = Some nb) Ns basis.
Proof.
  intros fuel today a p Ns H.
  destruct (list_basis_ok (S fuel) (cli_table p) Ns) as (ls & E & F).
  { intros N HN. destruct (table_lookup p N fuel (H N HN)) as (nb & _ & Hnb). exists nb. exact Hnb. }
  exists ls. split.
  - unfold print_options. rewrite E. cbn [bind]. unfold heading. f_equal. f_equal. destruct (ca_acheat a), p; reflexivity.
  - clear E. induction F as [|N x Ns ls (nb & -> & Hnb) F IH]; constructor; [|apply IH; intros M HM; apply H; right; exact HM].
    exists nb. split; [reflexivity|]. destruct (table_lookup p N fuel (H N (or_introl eq_refl))) as (nb' & E1 & E2). congruence.
Qed.

Lemma basis_unique : forall d Ns b b',
  Forall2 (fun N x => exists nb, x = LBasis N nb /\ table_get d N = Some nb) Ns b ->
  Forall2 (fun N x => exists nb, x = LBasis N nb /\ table_get d N = Some nb) Ns b' -> b = b'.
Proof.
  intros d. induction Ns as [|N Ns IH]; intros b b' H H'.
  - inversion H. inversion H'. reflexivity.
  - inversion H as [|N1 x Ns1 b1 (nb & Ex & Hx) F1]. inversion H' as [|N2 x' Ns2 b2 (nb' & Ex' & Hx') F2]. subst.
    f_equal; [congruence|apply IH; assumption].
Qed.

Lemma cli_runs : forall lib today l a p, enumerating lib -> fit_sizes lib -> brentq_contract (lib_brentq lib) ->
  List.Forall (item_ok false) l -> spaced l -> means l a -> problem_of (ca_problem a) = Some (Smooth p) -> ca_boundary a = "arc" ->
  table_size (ca_N a) -> (forall c, ca_c a = Some c -> c < 2048) ->
  exists fuel0 Ns basis outs,
    (forall x, In x Ns <-> exists i : nat, x = ca_N a * 2 ^ Z.of_nat i /\ x <= limit a) /\
    Forall2 (fun N x => exists nb, x = LBasis N nb /\ table_get smooth_n_basis_dict N = Some nb) Ns basis /\
    forall fuel, (fuel0 <= fuel)%nat ->
      smooth_main fuel lib p Arc (ca_N a) (Some (limit a)) (ca_o a) (ca_r a) = Ok outs /\
      run_cli fuel lib today (render l) = DRan (Ok (heading today a (Smooth p) ++ basis, outs)).
Proof.
  intros lib today l a p Hl Hf Hb Hok Hsp Hm Hp Ha HN Hc.
  assert (Ho : ca_o a = 2 \/ ca_o a = 4) by (destruct Hm as (_ & _ & _ & _ & _ & H & _); exact (given_order false l _ Hok H)).
  pose proof (limit_lt a HN Hc) as HL. destruct (size_pos _ HN) as [HN1 _].
  destruct (smooth_main_runs lib p (ca_o a) (ca_r a) (ca_N a) (limit a) Hl Hf Hb Ho HN HL) as (f1 & _ & _ & outs & _ & _ & _ & Hmain).
  destruct (N_list_sizes (ca_N a) (limit a) HN HL) as (Ns & f2 & Hget & Hin & Hts).
  destruct (listing 0 today a (Smooth p) Ns Hts) as (basis & _ & HB).
  exists (S (S (f1 + f2))), Ns, basis, outs. split; [exact Hin|]. split; [exact HB|].
  intros [|[|fuel]] Hfu; [lia|lia|]. split; [apply Hmain; lia|].
  unfold run_cli. rewrite (proj2 (parse_iff false (render l) a)) by (exists l; auto). rewrite Hp, Ha. cbn [boundary_of String.eqb Ascii.eqb Bool.eqb].
  f_equal. rewrite (N_list_limit fuel a HN1). rewrite Hget by lia. cbn [bind].
  destruct (listing (S fuel) today a (Smooth p) Ns Hts) as (basis' & E & HB'). rewrite <- Ha, E. cbn [bind].
  rewrite (basis_unique _ Ns basis' basis HB' HB).
  pose proof (Hmain (S (S fuel)) ltac:(lia)) as HM. unfold smooth_main in HM. rewrite Hget in HM by lia. cbn [bind] in HM. rewrite HM. reflexivity.
Qed.

Lemma cli_runs_z : forall L today l a s, enumerating (zl_ps L) -> fit_sizes (zl_ps L) -> brentq_contract (lib_brentq (zl_ps L)) ->
  List.Forall (item_ok true) l -> spaced l -> means l a -> problem_of (ca_problem a) = Some (Sing s) -> ca_boundary a = "arc" ->
  table_size (ca_N a) -> (forall c, ca_c a = Some c -> c < 2048) ->
  exists fuel0 Ns basis outs,
    (forall x, In x Ns <-> exists i : nat, x = ca_N a * 2 ^ Z.of_nat i /\ x <= limit a) /\
    Forall2 (fun N x => exists nb, x = LBasis N nb /\ table_get ihz_n_basis_dict N = Some nb) Ns basis /\
    forall fuel, (fuel0 <= fuel)%nat ->
      runz_main fuel L s Arc (ca_N a) (Some (limit a)) (ca_o a) (ca_acheat a) (ca_z1cheat a) = Ok outs /\
      runz_cli fuel L today (render l) = DRan (Ok (heading today a (Sing s) ++ basis, outs)).
Proof.
  intros L today l a s Hl Hf Hb Hok Hsp Hm Hp Ha HN Hc.
  assert (Ho : ca_o a = 2 \/ ca_o a = 4) by (destruct Hm as (_ & _ & _ & _ & _ & H & _); exact (given_order true l _ Hok H)).
  pose proof (limit_lt a HN Hc) as HL. destruct (size_pos _ HN) as [HN1 _].
  destruct (z_main L s (ca_acheat a) (ca_z1cheat a) (ca_o a) (ca_N a) (limit a) Hl Hf Hb Ho HN HL) as (f1 & _ & zs & _ & _ & Hmain).
  destruct (N_list_sizes (ca_N a) (limit a) HN HL) as (Ns & f2 & Hget & Hin & Hts).
  destruct (listing 0 today a (Sing s) Ns Hts) as (basis & _ & HB).
  exists (S (S (f1 + f2))), Ns, basis, (map (report zs) (seq 0 (length zs))). split; [exact Hin|]. split; [exact HB|].
  intros [|[|fuel]] Hfu; [lia|lia|]. pose proof (Hmain (S (S fuel)) ltac:(lia)) as HM. split; [exact HM|].
  unfold runz_cli. rewrite (proj2 (parse_iff true (render l) a)) by (exists l; auto). rewrite Hp, Ha. cbn [boundary_of String.eqb Ascii.eqb Bool.eqb].
  f_equal. rewrite (N_list_limit fuel a HN1). rewrite Hget by lia. cbn [bind].
  destruct (listing (S fuel) today a (Sing s) Ns Hts) as (basis' & E & HB'). rewrite <- Ha, E. cbn [bind].
  rewrite (basis_unique _ Ns basis' basis HB' HB).
  replace (runz_main (S (S fuel)) L s Arc (ca_N a) (ca_c a)) with (runz_main (S (S fuel)) L s Arc (ca_N a) (Some (limit a))).
  - rewrite HM. reflexivity.
  - unfold runz_main. rewrite (N_list_limit fuel a HN1). reflexivity.
Qed.

(** ** No end *)

Lemma listing_stuck : forall fuel today pn bn p b o acheat N, ~ leads_10000 N ->
  print_options fuel today pn bn p b o acheat [N] = Err OutOfFuel.
Proof.
  intros fuel today pn bn p b o acheat N HN. unfold print_options. cbn [list_basis].
  destruct (get_n_basis_dec fuel (cli_table p) N) as [[v Hv]|E]; [|rewrite E; reflexivity].
  exfalso. apply HN. apply (tables_end_iff (cli_table p) N); [destruct p; cbn; tauto|]. exists fuel, v. exact Hv.
Qed.

Lemma cli_stuck : forall fuel lib L today l a, means l a -> spaced l -> ca_c a = None -> ~ leads_10000 (ca_N a) ->
  (forall p, List.Forall (item_ok false) l -> problem_of (ca_problem a) = Some (Smooth p) -> run_cli fuel lib today (render l) = DRan (Err OutOfFuel)) /\
  (forall s, List.Forall (item_ok true) l -> problem_of (ca_problem a) = Some (Sing s) -> runz_cli fuel L today (render l) = DRan (Err OutOfFuel)).
Proof.
  intros fuel lib L today l a Hm Hsp Hc HN.
  assert (Hb : exists b, boundary_of (ca_boundary a) = Some b).
  { destruct Hm as (_ & _ & H & _). unfold boundary_choices in H. cbn [In] in H.
    destruct H as [<-|[<-|[<-|[<-|[<-|[]]]]]]; eexists; reflexivity. }
  destruct Hb as [b Hb]. split.
  - intros p Hok Hp. unfold run_cli. rewrite (proj2 (parse_iff false (render l) a)) by (exists l; auto). rewrite Hp, Hb, Hc.
    cbn [get_N_list bind]. rewrite listing_stuck by exact HN. reflexivity.
  - intros s Hok Hp. unfold runz_cli. rewrite (proj2 (parse_iff true (render l) a)) by (exists l; auto). rewrite Hp, Hb, Hc.
    cbn [get_N_list bind]. rewrite listing_stuck by exact HN. reflexivity.
Qed.

(** ** scripts/multirun.py *)

Lemma multirun_parse :
  map (parse_args true) multirun_commands =
    map (fun b => Parsed (mk_cli "ihz-bessel-line" b 16 (Some 1024) 4 false false false)) ["arc"; "outer-sine"; "inner-sine"; "cubic"; "sine7"] /\
  List.Forall (fun b => boundary_of b <> None) ["arc"; "outer-sine"; "inner-sine"; "cubic"; "sine7"] /\
  (forall fuel, (8 <= fuel)%nat -> get_N_list fuel 16 (Some 1024) = Ok [16; 32; 64; 128; 256; 512; 1024]) /\
  List.Forall (fun N => exists nb, table_get ihz_n_basis_dict N = Some nb) [16; 32; 64; 128; 256; 512; 1024].
Proof.
  split; [reflexivity|]. split; [repeat constructor; discriminate|]. split.
  - intros fuel H. do 8 (destruct fuel as [|fuel]; [lia|]). reflexivity.
  - repeat constructor; eexists; reflexivity.
Qed.

Definition multirun_arc : list item := [Arg "ihz-bessel-line"; Arg "arc"; OptC (Some "1024")].

Ltac int_lit := apply py_int_iff; reflexivity.
Ltac plain_lit := let t := fresh in let E := fresh in intros t E; first [discriminate E | injection E as <-; apply all_digits_iff; reflexivity].
Ltac no_gives := let j := fresh in let w := fresh in let H := fresh in intros j w H; cbn in H; intuition (subst; cbn in *; tauto).

Lemma spaced_check : forall l, (fix ok l := match l with OptC None :: Arg _ :: _ => false | _ :: l => ok l | [] => true end) l = true -> spaced l.
Proof.
  intros l H a. revert l H. induction a as [|i a IH]; intros l H b s E; subst l; [discriminate H|].
  cbn [app] in H. destruct i as [s0|v|[v|]|v| | |]; try exact (IH _ H b s eq_refl).
  destruct (a ++ OptC None :: Arg s :: b) as [|[s1|v1|[v1|]|v1| | |] l'] eqn:El; try discriminate H;
    try (apply (IH (a ++ OptC None :: Arg s :: b)) with (b := b) (s := s); [rewrite El; exact H|reflexivity]).
Qed.

Lemma parse_means : forall z l a, List.Forall (item_ok z) l -> spaced l -> parse_args z (render l) = Parsed a -> means l a.
Proof.
  intros z l a Hok Hsp E. apply parse_shape in E. destruct E as (_ & st & p & b & Hp & Epos & Eex & ->).
  apply state_means; [exact (parse_items_inv z l cli_start st Hok Hsp Hp)|exact Epos|exact Eex].
Qed.

Lemma multirun_means : render multirun_arc = ["ihz-bessel-line"; "arc"; "-c"; "1024"] /\ List.Forall (item_ok true) multirun_arc /\ spaced multirun_arc /\
  means multirun_arc (mk_cli "ihz-bessel-line" "arc" 16 (Some 1024) 4 false false false).
Proof.
  split; [reflexivity|].
  assert (F : List.Forall (item_ok true) multirun_arc).
  { unfold multirun_arc. constructor; [plain_lit|]. constructor; [plain_lit|]. constructor; [|constructor]. split; [plain_lit|exists 1024; int_lit]. }
  assert (Sp : spaced multirun_arc) by (apply spaced_check; reflexivity).
  split; [exact F|]. split; [exact Sp|]. apply (parse_means true); [exact F|exact Sp|reflexivity].
Qed.

(** A command line with every option of run.py, one of them twice. *)
Definition cli_example : list item :=
  [OptC None; OptR; Arg "smooth-ycos"; OptN "64"; OptN "+32"; Arg "arc"; OptO "2"; OptAcheat].

Lemma cli_example_means : render cli_example = ["-c"; "-r"; "smooth-ycos"; "-N"; "64"; "-N"; "+32"; "arc"; "-o"; "2"; "--acheat"] /\
  List.Forall (item_ok false) cli_example /\ spaced cli_example /\
  means cli_example (mk_cli "smooth-ycos" "arc" 32 (Some 128) 2 true true false).
Proof.
  split; [reflexivity|].
  assert (F : List.Forall (item_ok false) cli_example).
  { unfold cli_example. constructor; [exact Logic.I|]. constructor; [exact Logic.I|]. constructor; [plain_lit|].
    constructor; [split; [plain_lit|exists 64; int_lit]|]. constructor; [split; [plain_lit|exists 32; int_lit]|]. constructor; [plain_lit|].
    constructor; [split; [plain_lit|left; int_lit]|]. constructor; [exact Logic.I|constructor]. }
  assert (Sp : spaced cli_example) by (apply spaced_check; reflexivity).
  split; [exact F|]. split; [exact Sp|]. apply (parse_means false); [exact F|exact Sp|reflexivity].
Qed.

(** A size for which the listing does not end. *)
Definition cli_24 (pn : string) : list item := [Arg pn; Arg "cubic"; OptN "24"].

Lemma cli_24_means : forall z pn, In pn ["smooth-sine"; "iz-bessel"] ->
  List.Forall (item_ok z) (cli_24 pn) /\ spaced (cli_24 pn) /\ means (cli_24 pn) (mk_cli pn "cubic" 24 None 4 false false false).
Proof.
  intros z pn H. assert (F : List.Forall (item_ok z) (cli_24 pn)).
  { unfold cli_24. constructor; [destruct H as [<-|[<-|[]]]; plain_lit|]. constructor; [plain_lit|]. constructor; [split; [plain_lit|exists 24; int_lit]|constructor]. }
  assert (Sp : spaced (cli_24 pn)) by (apply spaced_check; reflexivity).
  split; [exact F|]. split; [exact Sp|]. apply (parse_means z); [exact F|exact Sp|]. destruct H as [<-|[<-|[]]]; destruct z; reflexivity.
Qed.
