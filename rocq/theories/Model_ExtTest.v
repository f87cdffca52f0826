(** scripts/extension_test.py and scripts/c0_basis.py for the smooth problems. *)
From Coq Require Import ZArith List Bool Reals.
From Coquelicot Require Import Coquelicot.
From Verif Require Import Model_Py Model_Multivalue Model_Grid Model_PS Model_Domain Model_Chebyshev Model_Problems Model_Extend
  Model_Abcoef Model_Debug Model_Run Model_Program Model_Scripts.
Import ListNotations.
Open Scope R_scope.

(** ** scripts/extension_test.py *)

(** problems/smooth.py:62-64, 79-84, 104-105 [get_grad] after a call of
    eval_expected: calc_c0 (scripts/extension_test.py:52) evaluates the boundary
    condition, hence eval_expected, before calc_c1_exact (53) evaluates the
    gradient. *)
Definition smooth_grad (p : smooth_name) (x y : R) : result (C * C) :=
  match p with
  | SmoothSine => let '(gx, gy) := sine_grad smooth_k x y in Ok (RtoC gx, RtoC gy)
  | SmoothE => e_grad x y (e_run smooth_k [CallExpected x y])
  | SmoothYCos => let '(gx, gy) := ycos_grad x y in Ok (RtoC gx, RtoC gy)
  end.

(** problems/smooth.py:33-52 [eval_d_u_outwards], called with segments 0, 1, 2
    only (ps/debug.py:97-101), for which it raises nothing; the value 0 is never
    used. *)
Definition smooth_du (p : smooth_name) (b : bname) (arg : R) (sid : nat) : C :=
  match d_u_outwards (boundary_r b problem_R None pizza_a) pizza_a (smooth_grad p) arg sid with
  | Ok v => v
  | Err _ => RtoC 0
  end.

(** scripts/extension_test.py:72-75: "setypes is None or setype in setypes". *)
Definition et_allowed (setypes : option (list setype_t)) (d : mv_entry) : bool :=
  match setypes with
  | None => true
  | Some l => existsb (setype_eqb (me_setype d)) l
  end.

(** scripts/extension_test.py:64-81: the errors at the nodes of union_gamma;
    eval_expected_polar is that of problems/problem.py:25-29. *)
Fixpoint et_errors (c : ext_ctx) (expected : R -> R -> C) (setypes : option (list setype_t)) (mv : multivalue)
    (nodes : list node) : result (list R) :=
  match nodes with
  | [] => Ok []
  | p :: nodes' =>
      let '(r, th) := ps_get_polar (ec_a c) (ec_AD c) (ec_N c) (fst p) (snd p) in
      l <- mv_get mv p;;
      rest <- et_errors c expected setypes mv nodes';;
      Ok (map (fun d => Cmod (Cminus (expected (r * cos th) (r * sin th)) (me_value d))) (filter (et_allowed setypes) l) ++ rest)
  end.

(** scripts/extension_test.py:45-98 [run_test], with the options of 126-132.
    [fuel] bounds the loop of get_n_basis, which PizzaSolver.__init__ calls even
    though n_circle is given. np.max of no error raises ValueError. *)
Definition et_run_test (fuel : nat) (lib : library) (p : smooth_name) (b : bname) (setypes : option (list setype_t)) (N : Z)
  : result R :=
  o' <- smooth_options fuel p b N 4;;
  let o := with_sizes o' 115 30 in
  st <- ps_init lib o;;
  let c := st_ctx st in
  let nodes := get_chebyshev_roots (Z.to_nat n_chebyshev_nodes) in
  c0 <- calc_c0 (lib_chebfit lib) nodes (o_R o) (o_a o) (st_seg st) (o_bc o);;
  c1 <- calc_c1_exact (lib_chebfit lib) nodes (o_R o) (o_a o) (st_seg st) (smooth_du p b);;
  _ <- c0_test sample_n (o_r o) (o_bc o) (o_R o) (o_a o) (ec_B c) c0;;
  mv <- mv_extend_boundary (set_coef c c0 c1) SrcCoef false;;
  _ <- mv_reduce mv;;
  errs <- et_errors c (o_expected o) setypes mv (ec_union c);;
  py_max (map Rabs errs).

(** scripts/extension_test.py:140-156: what is printed for each grid, the error
    and the earlier error it is compared with. *)
Fixpoint et_main (steps fuel : nat) (lib : library) (p : smooth_name) (b : bname) (setypes : option (list setype_t))
    (prev : option R) (N c : Z) : result (list (Z * R * option R)) :=
  if (N <=? c)%Z then
    match steps with
    | O => Err OutOfFuel
    | S steps' =>
        e <- et_run_test fuel lib p b setypes N;;
        rest <- et_main steps' fuel lib p b setypes (Some e) (N * 2) c;;
        Ok ((N, e, prev) :: rest)
    end
  else Ok [].

(** ** scripts/c0_basis.py *)

(** scripts/c0_basis.py:51-57, one pass of the loop: n_circle and the pair
    printed by c0_test. int(.75*n) is exact, as .75*n is a binary fraction. *)
Definition cb_step (lib : library) (o' : options) (n : Z) : result (Z * (R * R)) :=
  let o := with_sizes o' (Z.to_nat n) (Z.to_nat (3 * n / 4)) in
  st <- ps_init lib o;;
  c0 <- calc_c0 (lib_chebfit lib) (get_chebyshev_roots (Z.to_nat n_chebyshev_nodes)) (o_R o) (o_a o) (st_seg st) (o_bc o);;
  t <- c0_test sample_n (o_r o) (o_bc o) (o_R o) (o_a o) (ec_B (st_ctx st)) c0;;
  Ok (n, t).

(** scripts/c0_basis.py:50-57, the loop. *)
Fixpoint cb_loop (lib : library) (o : options) (ns : list Z) : result (list (Z * (R * R))) :=
  match ns with
  | [] => Ok []
  | n :: ns' => x <- cb_step lib o n;; xs <- cb_loop lib o ns';; Ok (x :: xs)
  end.

(** scripts/c0_basis.py:26-57 for a smooth problem: fourth-order scheme on the
    outer sine. *)
Definition cb_main (fuel : nat) (lib : library) (p : smooth_name) (N : Z) : result (list (Z * (R * R))) :=
  o <- smooth_options fuel p OuterSine N 4;;
  cb_loop lib o (py_range_step 10 100 5).
