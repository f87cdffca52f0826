(** Property C90: the command lines of run.py and runz.py. *)
From Coq Require Import Ascii String ZArith List Bool Lia Reals.
From Verif Require Import Model_Py Model_Grid Model_Abcoef Model_PS Model_Driver Model_Run Model_Program Model_ZProgram Model_Cli
  Spec_Domain Spec_Run Spec_Program Spec_ZProgram Spec_Cli Proof_Place Proof_RunEx Proof_Bessel Proof_BesselJ Proof_ZRunEx Proof_Program Proof_ZProgram Proof_Cli Proof_CliRun.
Import ListNotations.
Open Scope string_scope.
Open Scope Z_scope.
Open Scope list_scope.

(** C90. The numbers accepted by [type=int] and their values. *)
Theorem C90_int : forall s n, py_int s = Some n <-> int_val s n.
Proof. exact py_int_iff. Qed.
Print Assumptions C90_int.

Example C90_int_example : py_int "1_024" = Some 1024 /\ py_int "-16" = Some (-16) /\ py_int "1__0" = None /\ py_int "arc" = None.
Proof. repeat split; reflexivity. Qed.

(** C90. A command line is accepted exactly when it consists of the two names
    and well-formed options in any order, a bare [-c] not standing directly
    before a name; each option then has the value given last or its default
    (N = 16, no limit, order 4), a bare [-c] meaning 128. *)
Theorem C90_parse : forall z1 argv a, parse_args z1 argv = Parsed a <->
  exists l, render l = argv /\ List.Forall (item_ok z1) l /\ spaced l /\ means l a.
Proof. exact parse_iff. Qed.
Print Assumptions C90_parse.

Example C90_parse_example :
  parse_args false ["-c"; "-r"; "smooth-ycos"; "-N"; "64"; "-N"; "+32"; "arc"; "-o"; "2"; "--acheat"] =
    Parsed (mk_cli "smooth-ycos" "arc" 32 (Some 128) 2 true true false) /\
  parse_args false ["smooth-ycos"; "arc"; "--z1cheat"] = OtherForm /\
  parse_args true ["iz-bessel"; "arc"; "--z1cheat"] = Parsed (mk_cli "iz-bessel" "arc" 16 None 4 false false true) /\
  parse_args true ["iz-bessel"; "arc"; "-o"; "3"] = Usage /\ parse_args true ["iz-bessel"; "arc"; "cubic"] = Usage.
Proof. repeat split; reflexivity. Qed.

(** C90. Both names are required: the default 'arc' of the boundary
    (io_util.py:19) never takes effect. *)
Theorem C90_required : forall z1 l, List.Forall (item_ok z1) l -> spaced l -> List.length (args_of l) <> 2%nat -> parse_args z1 (render l) = Usage.
Proof. exact required. Qed.
Print Assumptions C90_required.

Theorem C90_default_refuted : exists p, In p problem_choices /\ parse_args false [p] = Usage /\ parse_args false [p; "arc"] <> Usage.
Proof. exists "smooth-sine". split; [left; reflexivity|]. split; [reflexivity|discriminate]. Qed.
Print Assumptions C90_default_refuted.

Example C90_required_example : List.Forall (item_ok false) [Arg "smooth-sine"; OptC None] /\ spaced [Arg "smooth-sine"; OptC None] /\
  List.length (args_of [Arg "smooth-sine"; OptC None]) <> 2%nat.
Proof. split; [constructor; [plain_lit|constructor; [exact Logic.I|constructor]]|]. split; [apply spaced_check; reflexivity|discriminate]. Qed.

(** C90. A bare [-c] before the name of the problem swallows it: such a command
    line is never accepted. *)
Theorem C90_bare_c : forall z1 p rest a, In p problem_choices -> parse_args z1 ("-c" :: p :: rest) <> Parsed a.
Proof. exact bare_c. Qed.
Print Assumptions C90_bare_c.

Example C90_bare_c_example : In "iz-bessel" problem_choices /\ parse_args true ["-c"; "iz-bessel"; "arc"] = Usage /\
  parse_args true ["iz-bessel"; "arc"; "-c"] = Parsed (mk_cli "iz-bessel" "arc" 16 (Some 128) 4 false false false).
Proof. split; [cbn; tauto|]. split; reflexivity. Qed.

(** C90. run.py from its command line, smooth problems on the arc: it lists the
    options and the tabulated basis sizes of the grids N, 2N, … up to the
    limit, and prints what C73_main describes. *)
Theorem C90_run : forall lib today l a p, enumerating lib -> fit_sizes lib -> brentq_contract (lib_brentq lib) ->
  List.Forall (item_ok false) l -> spaced l -> means l a -> problem_of (ca_problem a) = Some (Smooth p) -> ca_boundary a = "arc" ->
  table_size (ca_N a) -> (forall c, ca_c a = Some c -> c < 2048) ->
  exists fuel0 Ns basis outs,
    (forall x, In x Ns <-> exists i : nat, x = ca_N a * 2 ^ Z.of_nat i /\ x <= limit a) /\
    Forall2 (fun N x => exists nb, x = LBasis N nb /\ table_get smooth_n_basis_dict N = Some nb) Ns basis /\
    forall fuel, (fuel0 <= fuel)%nat ->
      smooth_main fuel lib p Arc (ca_N a) (Some (limit a)) (ca_o a) (ca_r a) = Ok outs /\
      run_cli fuel lib today (render l) = DRan (Ok (heading today a (Smooth p) ++ basis, outs)).
Proof. exact cli_runs. Qed.
Print Assumptions C90_run.

Example C90_run_example : let lib := ex_lib min_zero in let a := mk_cli "smooth-ycos" "arc" 32 (Some 128) 2 true true false in
  enumerating lib /\ fit_sizes lib /\ brentq_contract (lib_brentq lib) /\
  render cli_example = ["-c"; "-r"; "smooth-ycos"; "-N"; "64"; "-N"; "+32"; "arc"; "-o"; "2"; "--acheat"] /\
  List.Forall (item_ok false) cli_example /\ spaced cli_example /\ means cli_example a /\
  problem_of (ca_problem a) = Some (Smooth SmoothYCos) /\ ca_boundary a = "arc" /\ table_size (ca_N a) /\ limit a = 128.
Proof.
  intros lib a. destruct program_example as (H1 & H2 & H3 & _). destruct cli_example_means as (E1 & E2 & E3 & E4).
  repeat (split; [assumption|]). split; [reflexivity|]. split; [reflexivity|]. split; [exists 5; split; [lia|reflexivity]|reflexivity].
Qed.

(** C90. The same for runz.py and C74_main. *)
Theorem C90_runz : forall L today l a s, enumerating (zl_ps L) -> fit_sizes (zl_ps L) -> brentq_contract (lib_brentq (zl_ps L)) ->
  List.Forall (item_ok true) l -> spaced l -> means l a -> problem_of (ca_problem a) = Some (Sing s) -> ca_boundary a = "arc" ->
  table_size (ca_N a) -> (forall c, ca_c a = Some c -> c < 2048) ->
  exists fuel0 Ns basis outs,
    (forall x, In x Ns <-> exists i : nat, x = ca_N a * 2 ^ Z.of_nat i /\ x <= limit a) /\
    Forall2 (fun N x => exists nb, x = LBasis N nb /\ table_get ihz_n_basis_dict N = Some nb) Ns basis /\
    forall fuel, (fuel0 <= fuel)%nat ->
      runz_main fuel L s Arc (ca_N a) (Some (limit a)) (ca_o a) (ca_acheat a) (ca_z1cheat a) = Ok outs /\
      runz_cli fuel L today (render l) = DRan (Ok (heading today a (Sing s) ++ basis, outs)).
Proof. exact cli_runs_z. Qed.
Print Assumptions C90_runz.

(** The command of scripts/multirun.py for the arc. *)
Example C90_runz_example : let L := mk_zlib (ex_lib min_zero) jv_series gamma_ex (fun _ _ _ _ _ _ => 0%R) (fun _ _ => 0%R) lookup2d in
  let a := mk_cli "ihz-bessel-line" "arc" 16 (Some 1024) 4 false false false in
  enumerating (zl_ps L) /\ fit_sizes (zl_ps L) /\ brentq_contract (lib_brentq (zl_ps L)) /\
  render multirun_arc = ["ihz-bessel-line"; "arc"; "-c"; "1024"] /\
  List.Forall (item_ok true) multirun_arc /\ spaced multirun_arc /\ means multirun_arc a /\
  problem_of (ca_problem a) = Some (Sing IhzLine) /\ ca_boundary a = "arc" /\ table_size (ca_N a) /\ limit a = 1024.
Proof.
  intros L a. destruct program_example as (H1 & H2 & H3 & _). destruct multirun_means as (E1 & E2 & E3 & E4).
  repeat (split; [assumption|]). split; [reflexivity|]. split; [reflexivity|]. split; [exists 4; split; [lia|reflexivity]|reflexivity].
Qed.

(** C90. The listed k is the one of the problem. *)
Theorem C90_k : forall jv gamma s, zp_k (sing_problem jv gamma s) = cli_k (Sing s).
Proof. intros jv gamma s. destruct s; reflexivity. Qed.
Print Assumptions C90_k.

(** C90. For a single grid whose size has other leading binary digits than
    10000 both drivers stop for ever in the listing, before any computation, on
    every boundary. *)
Theorem C90_stuck : forall fuel lib L today l a, means l a -> spaced l -> ca_c a = None -> ~ leads_10000 (ca_N a) ->
  (forall p, List.Forall (item_ok false) l -> problem_of (ca_problem a) = Some (Smooth p) -> run_cli fuel lib today (render l) = DRan (Err OutOfFuel)) /\
  (forall s, List.Forall (item_ok true) l -> problem_of (ca_problem a) = Some (Sing s) -> runz_cli fuel L today (render l) = DRan (Err OutOfFuel)).
Proof. exact cli_stuck. Qed.
Print Assumptions C90_stuck.

Example C90_stuck_example : let l := cli_24 "iz-bessel" in let a := mk_cli "iz-bessel" "cubic" 24 None 4 false false false in
  means l a /\ spaced l /\ ca_c a = None /\ ~ leads_10000 (ca_N a) /\ List.Forall (item_ok true) l /\ problem_of (ca_problem a) = Some (Sing IzBessel) /\
  means (cli_24 "smooth-sine") (mk_cli "smooth-sine" "cubic" 24 None 4 false false false).
Proof.
  intros l a. destruct (cli_24_means true "iz-bessel") as (F & Sp & M); [cbn; tauto|].
  destruct (cli_24_means false "smooth-sine") as (F' & Sp' & M'); [cbn; tauto|].
  split; [exact M|]. split; [exact Sp|]. split; [reflexivity|]. split; [exact not_leads_24|]. split; [exact F|]. split; [reflexivity|exact M'].
Qed.

(** C90. The commands of scripts/multirun.py are accepted and ask for the grids
    16 to 1024 on the five boundaries, all of them tabulated. *)
Theorem C90_multirun :
  map (parse_args true) multirun_commands =
    map (fun b => Parsed (mk_cli "ihz-bessel-line" b 16 (Some 1024) 4 false false false)) ["arc"; "outer-sine"; "inner-sine"; "cubic"; "sine7"] /\
  List.Forall (fun b => boundary_of b <> None) ["arc"; "outer-sine"; "inner-sine"; "cubic"; "sine7"] /\
  (forall fuel, (8 <= fuel)%nat -> get_N_list fuel 16 (Some 1024) = Ok [16; 32; 64; 128; 256; 512; 1024]) /\
  List.Forall (fun N => exists nb, table_get ihz_n_basis_dict N = Some nb) [16; 32; 64; 128; 256; 512; 1024].
Proof. exact multirun_parse. Qed.
Print Assumptions C90_multirun.
