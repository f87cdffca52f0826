(** run.py as a whole for the problems of problems/smooth.py: constants of the
    problems, boundaries, the options built from them, and the main loop. *)
From Coq Require Import ZArith List Bool Reals.
From Coquelicot Require Import Coquelicot.
From Verif Require Import Model_Py Model_Multivalue Model_Grid Model_Fourier Model_Abcoef Model_PS Model_Domain Model_Extend Model_Problems
  Model_Driver Model_Run.
Import ListNotations.
Open Scope R_scope.

(** problems/problem.py:12 [Problem.R]. *)
Definition problem_R : R := 23 / 10.
(** problems/problem.py:13 [Problem.AD_len]. *)
Definition problem_AD : R := 2 * PI.
(** problems/boundary.py:22-28, the value of nu for the angle a. *)
Definition problem_nu (a : R) : R := PI / (2 * PI - a).

(** problems/boundary.py:171-206: the five classes of [boundaries]. *)
Inductive bname := Arc | OuterSine | InnerSine | Sine7 | Cubic.

(** problems/boundary.py:174, 179, 184, 189, 198: class attribute bet0. *)
Definition bet0 (b : bname) : R :=
  match b with
  | Arc => 0
  | OuterSine => 15 / 100
  | InnerSine => 5 / 10
  | Sine7 => 25 / 1000
  | Cubic => 75 / 1000
  end.

(** problems/boundary.py:16-19, 32-33: bet given to the constructor, or bet0. *)
Definition boundary_bet (b : bname) (bet : option R) : R :=
  match bet with None => bet0 b | Some v => v end.

(** problems/boundary.py:12-30, 44-46: the curve eval_r of the constructed
    boundary; lambdify and subs are application. *)
Definition boundary_r (b : bname) (R0 : R) (bet : option R) (a : R) : R -> R :=
  let bt := boundary_bet b bet in
  let nu := problem_nu a in
  match b with
  | Arc => r_arc R0
  | OuterSine => r_outer_sine R0 bt nu a
  | InnerSine => r_inner_sine R0 bt nu a
  | Sine7 => r_sine7 R0 bt nu a
  | Cubic => r_cubic R0 bt a
  end.

(** problems/smooth.py:16-24 [SmoothProblem.n_basis_dict]. *)
Definition smooth_n_basis_dict : n_basis_table :=
  [ (Some 16, (20, 6)); (Some 32, (33, 8)); (Some 64, (42, 12)); (Some 128, (65, 18));
    (Some 256, (80, 30)); (Some 512, (80, 45)); (Some 1024, (80, 45)) ]%Z.

(** problems/sing_ihz.py:19-27 [_n_basis_dict]. *)
Definition ihz_n_basis_dict : n_basis_table :=
  [ (Some 16, (25, 5)); (Some 32, (30, 20)); (Some 64, (40, 30)); (Some 128, (55, 40));
    (Some 256, (70, 60)); (Some 512, (90, 60)); (Some 1024, (110, 60)) ]%Z.

(** problems/smooth.py:14 [SmoothProblem.k]; problems/sing_ihz.py:96 [IH_Bessel.k]. *)
Definition smooth_k : R := 27 / 4.
(** problems/sing_ihz.py:184 [IHZ_Bessel_Quadratic.k]. *)
Definition quadratic_k : R := 43 / 4.

(** problems/__init__.py:17-19: the smooth problems of problem_dict. *)
Inductive smooth_name := SmoothSine | SmoothE | SmoothYCos.

(** problems/smooth.py:59-60, 71-77, 101-102 [eval_expected]. *)
Definition smooth_expected (p : smooth_name) (x y : R) : C :=
  match p with
  | SmoothSine => RtoC (sine_expected smooth_k x y)
  | SmoothE => snd (e_expected smooth_k x y None)
  | SmoothYCos => RtoC (ycos_expected x y)
  end.

(** problems/smooth.py:57, 69 and problems/problem.py:8 [homogeneous]. *)
Definition smooth_homogeneous (p : smooth_name) : bool :=
  match p with SmoothYCos => false | _ => true end.

(** A pair of reals as complex numbers (numpy arrays of floats,
    problems/sympy_problem.py:110). *)
Definition cpair (p : R * R) : C * C := (RtoC (fst p), RtoC (snd p)).

(** problems/sympy_problem.py:44-155 (with problems/problem.py:32-36): the
    source methods of a SympyProblem for the expression [f]. eval_f_polar calls
    itself at most once (fuel 2 is enough, property C73); the value 0 for running
    out is never returned. *)
Definition sympy_source (AD_len : R) (f : R -> R -> R) : source :=
  let value (v : result R) := match v with Ok x => RtoC x | Err _ => RtoC 0 end in
  mk_source
    (fun x y => value (sp_eval_f 2 AD_len f x y))
    (fun x y => cpair (sp_grad f x y))
    (fun x y => let h := sp_hessian f x y in (cpair (fst h), cpair (snd h)))
    (fun r th => value (sp_eval_f_polar 2 AD_len f r th))
    (fun r th => cpair (sp_grad_polar f r th))
    (fun r th => let h := sp_hessian_polar f r th in (cpair (fst h), cpair (snd h)))
    (fun r th => RtoC (sp_d_f_r f r th)) (fun r th => RtoC (sp_d2_f_r f r th))
    (fun r th => RtoC (sp_d_f_th f r th)) (fun r th => RtoC (sp_d2_f_th f r th))
    (fun r th => RtoC (sp_d2_f_r_th f r th)).

(** The source methods. For a homogeneous problem eval_f and eval_f_polar
    return 0 (problems/problem.py:32-40) and the others do not exist; the solver
    does not call them (ps/inhomo.py:36-37, 423-424). Otherwise those of
    problems/sympy_problem.py for the expression of problems/smooth.py:98. *)
Definition smooth_source (p : smooth_name) : source :=
  match p with
  | SmoothYCos => sympy_source problem_AD (ycos_f smooth_k)
  | _ =>
      let z : R -> R -> C := fun _ _ => RtoC 0 in
      let z2 : R -> R -> C * C := fun _ _ => (RtoC 0, RtoC 0) in
      let z4 : R -> R -> (C * C) * (C * C) := fun _ _ => ((RtoC 0, RtoC 0), (RtoC 0, RtoC 0)) in
      mk_source z z2 z4 z z2 z4 z z z z z
  end.

(** run.py:43-54, 74 and ps/ps.py:27-48: the options for problem, boundary, N
    and scheme order. eval_bc is only called with segments 0, 1, 2, for which
    arg_to_polar_abs returns a pair (domain_util.py:40-51); the value 0 for
    another segment is never used. *)
Definition smooth_options (fuel : nat) (p : smooth_name) (b : bname) (N order : Z) : result options :=
  nb <- get_n_basis fuel smooth_n_basis_dict N;;
  let r := boundary_r b problem_R None pizza_a in
  Ok (mk_opt smooth_k problem_R pizza_a problem_AD N order r
        (Z.to_nat (fst nb), Z.to_nat (snd nb)) None None
        (smooth_homogeneous p) (smooth_source p)
        (fun arg sid => match smooth_bc r pizza_a (smooth_expected p) arg sid with Ok v => v | Err _ => RtoC 0 end)
        true (smooth_expected p)).

(** run.py:73-102, the loop over N_list, with what it prints for each grid. *)
Fixpoint smooth_main_loop (fuel : nat) (lib : library) (p : smooth_name) (b : bname) (order : Z) (do_rel : bool)
    (rs : run_state R arr2) (Ns : list Z) : result (list (list (printed R arr2))) :=
  match Ns with
  | [] => Ok []
  | N :: Ns' =>
      o <- smooth_options fuel p b N order;;
      st <- ps_init lib o;;
      res <- ps_run lib o st;;
      so <- run_step do_rel rs (res_error res, res_u res);;
      rest <- smooth_main_loop fuel lib p b order do_rel (fst so) Ns';;
      Ok (snd so :: rest)
  end.

(** run.py:43-102 for a smooth problem (expected_known, problems/smooth.py:12)
    with the arguments N, c, o and r. The listing of the options (io_util.py:42-76)
    is in Model_Cli.v. *)
Definition smooth_main (fuel : nat) (lib : library) (p : smooth_name) (b : bname) (N0 : Z) (c : option Z) (order : Z) (r : bool)
  : result (list (list (printed R arr2))) :=
  Ns <- get_N_list fuel N0 c;;
  smooth_main_loop fuel lib p b order r run_init Ns.
