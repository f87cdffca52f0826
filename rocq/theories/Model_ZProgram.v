(** ps/zmethod.py: the method run as a whole; problems/sing_ihz.py: the three
    problems; runz.py: the main loop. *)
From Coq Require Import String ZArith List Bool Reals.
From Coquelicot Require Import Coquelicot.
From Verif Require Import Model_Py Model_Multivalue Model_Grid Model_Fourier Model_Abcoef Model_PS Model_Domain Model_Extend
  Model_Ode Model_PolarFD Model_ZMethod Model_Problems Model_ZRun Model_Driver Model_Run Model_Program.
Import ListNotations.
Open Scope R_scope.

(** The library routines called: those of the solver (numpy's lstsq serves
    abcoef.py:31 too), scipy's jv and gamma (problems/sympy_problem.py:16-19),
    odeint (ps/ode.py:65), spsolve (ps/polarfd.py:237) and interp2d
    (ps/zmethod.py:336-337). *)
Record zlibrary := mk_zlib {
  zl_ps : library;
  zl_jv : R -> R -> R;
  zl_gamma : R -> R;
  zl_odeint : ((nat -> R) -> R -> result (nat -> R)) -> nat -> (nat -> R) -> R -> R -> nat -> R;
  zl_spsolve : pf_system -> Z -> R;
  zl_interp2d : list R -> list R -> list R -> R -> R -> R }.

(** What ZMethod takes from the problem (ps/zmethod.py:32-40, 63-64, 96, 118,
    255, 353-361). Expressions are functions of (r, th). eval_phi0 depends on the
    curve eval_r of the problem's boundary. [zp_expected] is None when the class
    does not define eval_expected_polar: the inherited one (problems/problem.py:26-30)
    never returns (property C66). *)
Record zproblem := mk_zproblem {
  zp_name : string; zp_k : R;
  zp_g : R -> R -> R; zp_v_asympt : R -> R -> R; zp_v_series : R -> R -> R;
  zp_eval_v : R -> R -> R;
  zp_phi0 : (R -> R) -> R -> R; zp_phi1 : R -> R; zp_phi2 : R -> R;
  zp_expected : option (R -> R -> R) }.

(** problems/__init__.py:29-31: the problems for runz.py. *)
Inductive sing_name := IzBessel | IhzLine | IhzQuadratic.

(** problems/__init__.py:29-31, 34-35 and problems/sing_ihz.py:93-245; K = 0
    (line 98). *)
Definition sing_problem (jv : R -> R -> R) (gamma : R -> R) (p : sing_name) : zproblem :=
  let a := pizza_a in
  let nu := pizza_nu in
  let R0 := problem_R in
  match p with
  | IzBessel =>
      let k := smooth_k in
      mk_zproblem "iz-bessel" k (ih_g jv 0 k nu a) (ih_v_asympt gamma 0 k nu a R0) (ih_v_series gamma 0 k nu a)
        (ih_eval_v jv 0 k nu a) (iz_phi0 jv 0 k nu a) (iz_phi1 jv 0 k nu a) iz_phi2 (Some (iz_expected jv 0 k nu a))
  | IhzLine =>
      let k := smooth_k in
      mk_zproblem "ihz-bessel-line" k (ih_g jv 0 k nu a) (ih_v_asympt gamma 0 k nu a R0) (ih_v_series gamma 0 k nu a)
        (ih_eval_v jv 0 k nu a) (line_phi0 jv 0 k nu a) (line_phi1 jv 0 k nu) line_phi2 None
  | IhzQuadratic =>
      let k := quadratic_k in
      mk_zproblem "ihz-bessel-quadratic" k (quad_g jv k nu a) (quad_v_asympt gamma k nu a R0) (quad_v_series gamma k nu a)
        (quad_eval_v jv k nu a) (quad_phi0 jv k nu a) (quad_phi1 jv k nu) (quad_phi2 jv k nu) None
  end.

(** problems/problem.py:89-98 [get_m1] with problems/sing_ihz.py:69-75
    [m1_dict], which lists all five boundaries (problems/boundary.py:172, 177,
    182, 187, 195). *)
Definition get_m1 (b : bname) : nat := match b with Arc => 7 | _ => 200 end.

(** ps/zmethod.py:130 [eval_gq]. *)
Definition zp_gq (p : zproblem) : R -> R -> R :=
  zm_lambdify (fun r th => zp_g p r th + zm_q (zp_k p) pizza_a (zp_g p) r th).

(** fourier.py:91, the default number of nodes of arc_dst. *)
Definition arc_dst_N : nat := Z.to_nat 2048.

(** ps/zmethod.py:157-171 [calc_z1_fourier]. [attr] is the attribute z1_fourier
    before the call: None when it was never assigned (runz.py:93 does, the class
    does not), in which case line 162 raises AttributeError. The printed ODE
    error (173-174) is dropped. *)
Definition zm_z1_fourier (L : zlibrary) (p : zproblem) (z1cheat : bool) (attr : option (option (list R))) (arc_R : R)
  : result (list R) :=
  if z1cheat then Ok (map fst (zm_expected_z1 (zp_eval_v p) (zp_gq p) pizza_a arc_R arc_dst_N zm_M))
  else match attr with
  | None => Err AttributeError
  | Some (Some z) => Ok z
  | Some None =>
      let a := pizza_a in
      let k := zp_k p in
      Ok (ode_calc_z1_fourier (zl_odeint L)
            (zm_lambdify (zm_initial k a (zp_v_series p) (zp_g p)))
            (zm_lambdify (zm_d_initial k a (zp_v_series p) (zp_g p)))
            (zm_lambdify (zm_f1 k a (zp_g p)))
            a pizza_nu k zm_R0 arc_R zm_M ode_fourier_N)
  end.

(** problems/problem.py:18-24 [eval_expected] with ps/zmethod.py:391-392 for
    the problem u_BVP. Without eval_expected_polar the method is not called,
    since expected_known is then False (ps/zmethod.py:361, solver.py:97-98); the
    value 0 is never used. *)
Definition zm_u_eval_expected (p : zproblem) (x y : R) : C :=
  let '(r, th) := cart_to_polar x y in
  let th := if Rltb th (pizza_a / 2) then th + 2 * PI else th in
  match zp_expected p with
  | Some e => RtoC (zm_u_expected e (zm_lambdify (zp_v_asympt p)) r th)
  | None => RtoC 0
  end.

(** ps/zmethod.py:344-399 and ps/ps.py:27-48: the options of the problem u_BVP.
    eval_bc is only called with segments 0, 1, 2, for which arg_to_polar returns
    a pair (domain_util.py:53-62); the value 0 for another segment is never used. *)
Definition zm_u_options (fuel : nat) (L : zlibrary) (p : zproblem) (b : bname) (a_coef : list C) (N order : Z)
  : result options :=
  nb <- get_n_basis fuel ihz_n_basis_dict N;;
  let r := boundary_r b problem_R None pizza_a in
  let k := zp_k p in
  let w := zm_lambdify (zp_v_asympt p) in
  Ok (mk_opt k problem_R pizza_a problem_AD N order r
        (Z.to_nat (fst nb), Z.to_nat (snd nb)) None None
        false (sympy_source problem_AD (zm_f k (zp_v_asympt p)))
        (fun arg sid =>
           match zm_u_bc (zl_jv L) (zp_phi0 p r) (zp_phi1 p) (zp_phi2 p) w a_coef r pizza_a pizza_nu k zm_M arg sid with
           | Ok v => v | Err _ => RtoC 0 end)
        (String.eqb (zp_name p) "iz-bessel") (zm_u_eval_expected p)).

(** ps/zmethod.py:51-58: the returned dictionary, with the attributes
    z1_fourier (read by runz.py:137) and a_coef. pert_solver is given by its
    options and state. *)
Record zresult := mk_zresult {
  zr_v : Z -> Z -> C; zr_v_error : R;
  zr_u : arr2; zr_u_error : option R;
  zr_fd : polar_fd; zr_opt : options; zr_st : ps_state;
  zr_z1 : list R; zr_a : list C }.

(** ps/zmethod.py:31-60 [run]. N = 0 raises ZeroDivisionError at
    ps/polarfd.py:34. interp2d is taken to return for every table, although the
    quintic one needs six points in each direction (N >= 5; the tables of the
    program start at 16). The report of 116-120 is dropped. *)
Definition zm_run (fuel : nat) (L : zlibrary) (p : zproblem) (b : bname) (acheat z1cheat : bool)
    (attr : option (option (list R))) (N order : Z) : result zresult :=
  let r := boundary_r b problem_R None pizza_a in
  let bet := boundary_bet b None in
  let arc_R := zm_arc_R problem_R bet in
  let k := zp_k p in
  z1 <- zm_z1_fourier L p z1cheat attr arc_R;;
  if (N =? 0)%Z then Err ZeroDivisionError
  else
    let fd := zm_z_fd N k pizza_a pizza_nu zm_R0 arc_R zm_M z1 (zp_v_series p) (zp_gq p) (zp_phi1 p) (zp_phi2 p) in
    let v := zm_v (zl_spsolve L) acheat fd in
    let v_interp := zm_v_interp (zl_interp2d L) fd problem_R bet v in
    ac <- zm_calc_a_coef (lib_lstsq (zl_ps L)) (zl_jv L) acheat (zp_name p) (zp_phi0 p r) (zp_eval_v p) v_interp r
            pizza_a k problem_R pizza_nu ab_n_nodes zm_M (get_m1 b);;
    o <- zm_u_options fuel L p b ac N order;;
    st <- ps_init (zl_ps L) o;;
    res <- ps_run (zl_ps L) o st;;
    ve <- zm_v_error fd (zp_eval_v p) v zm_M;;
    Ok (mk_zresult v ve (res_u res) (res_error res) fd o st z1 ac).

(** What runz.py prints (107, 111, 115, 124, 128, 132). [ZConv p e] is
    log2(p / e), [ZRel a b c] the calc_rel_convergence(a, b, c) of polarfd or
    pert_solver. *)
Inductive zprinted :=
| VError (e : R) | VRel (a b c : Z -> Z -> C) | VConv (prev cur : R)
| UError (e : R) | URel (a b c : arr2) | UConv (prev cur : R).

(** The loop variables of runz.py:74-86. *)
Record runz_state := mk_runz {
  rz_v1 : option (Z -> Z -> C); rz_v0 : option (Z -> Z -> C);
  rz_u1 : option arr2; rz_u0 : option arr2;
  rz_z1 : option (list R);
  rz_prev_u : option R; rz_prev_v : option R }.

(** runz.py:74-86: all start as None (v2 and u2 are assigned before use). *)
Definition runz_init : runz_state := mk_runz None None None None None None None.

(** runz.py:96-139: the body of the loop after the run. A previous error of u
    with none now would raise TypeError at line 131. *)
Definition runz_step (s : runz_state) (z : zresult) : result (runz_state * list zprinted) :=
  let v2 := rz_v1 s in
  let v1 := rz_v0 s in
  let out_v := [VError (zr_v_error z)] ++
    match v2, v1 with Some c, Some b => [VRel (zr_v z) b c] | _, _ => [] end ++
    match rz_prev_v s with Some e => [VConv e (zr_v_error z)] | None => [] end in
  let u2 := rz_u1 s in
  let u1 := rz_u0 s in
  let out_u := match zr_u_error z with Some e => [UError e] | None => [] end ++
    match u2, u1 with Some c, Some b => [URel (zr_u z) b c] | _, _ => [] end in
  out_c <- match rz_prev_u s with
           | Some e0 => match zr_u_error z with Some e => Ok [UConv e0 e] | None => Err TypeError end
           | None => Ok []
           end;;
  Ok (mk_runz v1 (Some (zr_v z)) u1 (Some (zr_u z)) (Some (zr_z1 z)) (zr_u_error z) (Some (zr_v_error z)),
      out_v ++ out_u ++ out_c).

(** runz.py:88-139, the loop over N_list: what is printed for each grid. *)
Fixpoint runz_main_loop (fuel : nat) (L : zlibrary) (p : zproblem) (b : bname) (order : Z) (acheat z1cheat : bool)
    (s : runz_state) (Ns : list Z) : result (list (list zprinted)) :=
  match Ns with
  | [] => Ok []
  | N :: Ns' =>
      z <- zm_run fuel L p b acheat z1cheat (Some (rz_z1 s)) N order;;
      so <- runz_step s z;;
      rest <- runz_main_loop fuel L p b order acheat z1cheat (fst so) Ns';;
      Ok (snd so :: rest)
  end.

(** runz.py:49-139 with the arguments problem, boundary, N, c, o, acheat and
    z1cheat. do_rel_conv (line 72) is computed and never used; the listing of
    the options (io_util.py:42-76) is in Model_Cli.v. *)
Definition runz_main (fuel : nat) (L : zlibrary) (p : sing_name) (b : bname) (N0 : Z) (c : option Z) (order : Z)
    (acheat z1cheat : bool) : result (list (list zprinted)) :=
  Ns <- get_N_list fuel N0 c;;
  runz_main_loop fuel L (sing_problem (zl_jv L) (zl_gamma L) p) b order acheat z1cheat runz_init Ns.
