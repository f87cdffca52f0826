(** Properties C31, C32, C54, C55, C57: the command-line drivers. *)
From Coq Require Import String ZArith List Bool Lia Sorted.
From Verif Require Import Model_Py Model_Driver Proof_Driver.
Import ListNotations.
Open Scope Z_scope.

(** C31. For a positive start, get_N_list terminates and returns, in
    increasing order, exactly the N0*2^i that do not exceed c. *)
Theorem C31_get_N_list : forall N0 c, 1 <= N0 ->
  exists l,
    (exists fuel0, forall fuel, (fuel0 <= fuel)%nat ->
       get_N_list fuel N0 (Some c) = Ok l) /\
    (forall x, In x l <-> exists i : nat, x = N0 * 2 ^ Z.of_nat i /\ x <= c) /\
    StronglySorted Z.lt l.
Proof. exact get_N_list_spec. Qed.
Print Assumptions C31_get_N_list.

Example C31_nonvacuous : 1 <= 16 /\ get_N_list 9 16 (Some 128) = Ok [16; 32; 64; 128].
Proof. split; [lia|reflexivity]. Qed.

(** C31. Without a limit only the start is used. *)
Theorem C31_get_N_list_None : forall fuel N0, get_N_list fuel N0 None = Ok [N0].
Proof. exact (fun _ _ => eq_refl). Qed.
Print Assumptions C31_get_N_list_None.

(** C31. Termination for every integer start is false: every non-positive
    start not above the limit loops for ever. *)
Theorem C31_termination_refuted : forall N0 c, N0 <= 0 -> N0 <= c ->
  forall fuel, get_N_list fuel N0 (Some c) = Err OutOfFuel.
Proof. exact get_N_list_diverges. Qed.
Print Assumptions C31_termination_refuted.

Example C31_termination_refuted_nonvacuous : 0 <= 0 /\ 0 <= 128.
Proof. lia. Qed.

(** C32. get_n_basis returns the entry of the first of N, N//2, N//4, … that is
    a key of the table, and returns at all exactly when there is one. *)
Theorem C32_get_n_basis : forall d N v,
  (exists fuel, get_n_basis fuel d N = Ok v) <->
  (exists k : nat, table_get d (N / 2 ^ Z.of_nat k) = Some v /\
     forall j, (j < k)%nat -> table_get d (N / 2 ^ Z.of_nat j) = None).
Proof. exact get_n_basis_returns_iff. Qed.
Print Assumptions C32_get_n_basis.

Example C32_nonvacuous :
  table_get default_n_basis_dict (1024 / 2 ^ Z.of_nat 2) = Some (45, 29) /\
  get_n_basis 5 default_n_basis_dict 1024 = Ok (45, 29).
Proof. split; reflexivity. Qed.

(** C32. With no key among the halvings the call never returns. *)
Theorem C32_get_n_basis_diverges : forall d N,
  (forall k : nat, table_get d (N / 2 ^ Z.of_nat k) = None) ->
  forall fuel, get_n_basis fuel d N = Err OutOfFuel.
Proof. exact get_n_basis_diverges. Qed.
Print Assumptions C32_get_n_basis_diverges.

(** C32. On the shipped table the call returns exactly for N whose five leading
    binary digits are 10000. *)
Theorem C32_default_table_terminates_iff : forall N,
  (exists fuel v, get_n_basis fuel default_n_basis_dict N = Ok v) <->
  (exists m, 4 <= m /\ 2 ^ m <= N < 2 ^ m + 2 ^ (m - 4)).
Proof. exact default_terminates_iff. Qed.
Print Assumptions C32_default_table_terminates_iff.

Example C32_default_nonvacuous : exists m, 4 <= m /\ 2 ^ m <= 33 < 2 ^ m + 2 ^ (m - 4).
Proof. exists 5. change (2 ^ 5) with 32. change (2 ^ (5 - 4)) with 2. lia. Qed.

(** C32. Termination for every N (and the commented fallback to the largest
    tabulated N) is false already for N = 24. *)
Theorem C32_termination_refuted : exists N, 16 <= N /\
  forall fuel, get_n_basis fuel default_n_basis_dict N = Err OutOfFuel.
Proof. exists 24. split; [lia | exact get_n_basis_24_diverges]. Qed.
Print Assumptions C32_termination_refuted.

(** C54. Over any list of grid sizes each run uses the coefficients a fresh,
    cache-free run would have computed, with at most one ODE solve. *)
Theorem C54_cache_sound : forall {P V} (solver : P -> V) (expected : Z -> V) p Ns,
  runz_loop false expected (ode_of_run solver p) None Ns =
  (map (fun N => fst (zm_calc_z1_fourier false None (expected N)
                        (ode_of_run solver p N))) Ns,
   match Ns with [] => 0%nat | _ => 1%nat end).
Proof. exact @runz_loop_sound. Qed.
Print Assumptions C54_cache_sound.

Example C54_nonvacuous :
  runz_loop false (fun _ => 0) (ode_of_run (fun p => p + 1) 6) None [16; 32; 64]
  = ([7; 7; 7], 1%nat).
Proof. reflexivity. Qed.

(** C54. With z1cheat the ODE solver is never called and every run uses the
    expected coefficients. *)
Theorem C54_cheat : forall {V} (expected ode : Z -> V) c Ns,
  runz_loop true expected ode c Ns = (map expected Ns, 0%nat).
Proof. exact @runz_loop_cheat. Qed.
Print Assumptions C54_cheat.

(** C55. Known exact solution: what is printed at each grid. *)
Theorem C55_run_loop_known : forall {E U} do_rel (rs : list (E * U)),
  exists outs,
    run_loop do_rel run_init (map (fun r => (Some (fst r), snd r)) rs) = Ok outs /\
    List.length outs = List.length rs /\
    (forall e0 u0, nth_error rs 0 = Some (e0, u0) ->
       nth_error outs 0 = Some [PError e0]) /\
    (forall e0 u0 e1 u1, nth_error rs 0 = Some (e0, u0) ->
       nth_error rs 1 = Some (e1, u1) ->
       nth_error outs 1 = Some [PError e1; PConv e0 e1]) /\
    (forall n e0 u0 e1 u1 e2 u2, nth_error rs n = Some (e0, u0) ->
       nth_error rs (S n) = Some (e1, u1) ->
       nth_error rs (S (S n)) = Some (e2, u2) ->
       nth_error outs (S (S n)) =
         Some ([PError e2; PConv e1 e2] ++
               if do_rel then [PRel u2 u1 u0] else [])).
Proof. exact @run_loop_known. Qed.
Print Assumptions C55_run_loop_known.

(** C55. Unknown exact solution. *)
Theorem C55_run_loop_unknown : forall {E U} do_rel (us : list U),
  exists outs,
    run_loop do_rel (@run_init E U) (map (fun u => (None, u)) us) = Ok outs /\
    List.length outs = List.length us /\
    (forall n, (n < 2)%nat -> (n < List.length us)%nat -> nth_error outs n = Some []) /\
    (forall n u0 u1 u2, nth_error us n = Some u0 ->
       nth_error us (S n) = Some u1 -> nth_error us (S (S n)) = Some u2 ->
       nth_error outs (S (S n)) = Some (if do_rel then [PRel u2 u1 u0] else [])).
Proof. exact @run_loop_unknown_init. Qed.
Print Assumptions C55_run_loop_unknown.

Example C55_nonvacuous :
  run_loop true run_init [(Some 8, 1); (Some 4, 2); (Some 2, 3)] =
  Ok [[PError 8]; [PError 4; PConv 8 4]; [PError 2; PConv 4 2; PRel 3 2 1]].
Proof. reflexivity. Qed.

(** C57. Importing the problems package, and hence starting either driver,
    raises ImportError. *)
Theorem C57_problems_importable_refuted : forall fuel, (5 <= fuel)%nat ->
  py_import fuel [] "problems" = Err ImportError /\
  py_import fuel [] "run" = Err ImportError /\
  py_import fuel [] "runz" = Err ImportError.
Proof.
  exact (fun fuel H => conj (import_problems_fails fuel (PeanoNat.Nat.le_trans _ _ _
    (le_S _ _ (le_n 4)) H)) (import_run_fails fuel H)).
Qed.
Print Assumptions C57_problems_importable_refuted.

Example C57_nonvacuous : py_import 5 [] "ps.multivalue" = Ok ["ps.multivalue"%string].
Proof. reflexivity. Qed.
