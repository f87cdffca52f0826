(** Command-line drivers: run.py, runz.py, and the lookups they use. *)
From Coq Require Import String ZArith List Bool.
From Verif Require Import Model_Py.
Import ListNotations.
Open Scope Z_scope.

(** run.py:20-23 / runz.py:23-26, the [while N <= c] loop. [fuel] bounds the
    number of tests of the condition; running out is reported. *)
Fixpoint N_list_loop (fuel : nat) (c N : Z) : result (list Z) :=
  match fuel with
  | O => Err OutOfFuel
  | S fuel' =>
      if N <=? c then
        rest <- N_list_loop fuel' c (N * 2);; Ok (N :: rest)
      else Ok []
  end.

(** run.py:14-25 / runz.py:17-28 [get_N_list(N0, c)]; [c = None] is Python's
    None. *)
Definition get_N_list (fuel : nat) (N0 : Z) (c : option Z) : result (list Z) :=
  match c with
  | None => Ok [N0]
  | Some c => N_list_loop fuel c N0
  end.

(** A basis-size table (problems/problem.py:80-87): keys are ints or None. *)
Definition n_basis_table := list (option Z * (Z * Z)).

(** [N in n_basis_dict] / [n_basis_dict[N]] for an int [N]
    (problems/problem.py:67-68). *)
Fixpoint table_get (d : n_basis_table) (N : Z) : option (Z * Z) :=
  match d with
  | [] => None
  | (Some k, v) :: d' => if k =? N then Some v else table_get d' N
  | (None, _) :: d' => table_get d' N
  end.

(** problems/problem.py:58-70 [get_n_basis]; [N //= 2] is floor division,
    which is Coq's [Z.div]. *)
Fixpoint get_n_basis (fuel : nat) (d : n_basis_table) (N : Z)
  : result (Z * Z) :=
  match fuel with
  | O => Err OutOfFuel
  | S fuel' =>
      match table_get d N with
      | Some v => Ok v
      | None => get_n_basis fuel' d (N / 2)
      end
  end.

(** problems/problem.py:72-87 [get_n_basis_dict], the default table. *)
Definition default_n_basis_dict : n_basis_table :=
  [ (Some 16, (21, 9)); (Some 32, (28, 9)); (Some 64, (34, 17));
    (Some 128, (40, 24)); (Some 256, (45, 29)); (None, (53, 34)) ].

(** What the convergence loop prints (run.py:84, 93, 97). [PConv p e] is
    [log2(p / e)], [PRel a b c] is [calc_rel_convergence(a, b, c)]. *)
Inductive printed (E U : Type) :=
| PError (e : E)
| PConv (prev cur : E)
| PRel (a b c : U).
Arguments PError {E U} e.
Arguments PConv {E U} prev cur.
Arguments PRel {E U} a b c.

(** The loop variables of run.py:67-71. *)
Record run_state (E U : Type) := mk_run_state {
  rs_u2 : option U; rs_u1 : option U; rs_u0 : option U;
  rs_prev : option E }.
Arguments mk_run_state {E U} _ _ _ _.
Arguments rs_u2 {E U} _.
Arguments rs_u1 {E U} _.
Arguments rs_u0 {E U} _.
Arguments rs_prev {E U} _.

(** run.py:67-71: all four start as None. *)
Definition run_init {E U} : run_state E U := mk_run_state None None None None.

(** One pass of the body of run.py:73-102 for a solver result [(error, u_act)].
    Dividing by a [None] error is the TypeError of line 91. The [continue] of
    line 81 never happens because PizzaSolver.run always returns a Result
    (ps/ps.py:251-257); it is therefore not modelled. *)
Definition run_step {E U} (do_rel : bool) (st : run_state E U)
    (res : option E * U) : result (run_state E U * list (printed E U)) :=
  let '(err, u_act) := res in
  let out1 := match err with Some e => [PError e] | None => [] end in
  let u2 := rs_u1 st in
  let u1 := rs_u0 st in
  let u0 := Some u_act in
  out2 <- match rs_prev st with
          | Some p => match err with
                      | Some e => Ok [PConv p e]
                      | None => Err TypeError
                      end
          | None => Ok []
          end;;
  let out3 := if do_rel then
                match u2, u1 with
                | Some c, Some b => [PRel u_act b c]
                | _, _ => []
                end
              else [] in
  Ok (mk_run_state u2 u1 u0 err, out1 ++ out2 ++ out3).

(** run.py:73-102: the whole loop; returns what was printed per grid. *)
Fixpoint run_loop {E U} (do_rel : bool) (st : run_state E U)
    (rs : list (option E * U)) : result (list (list (printed E U))) :=
  match rs with
  | [] => Ok []
  | r :: rs' =>
      so <- run_step do_rel st r;;
      rest <- run_loop do_rel (fst so) rs';;
      Ok (snd so :: rest)
  end.

(** ps/zmethod.py:157-171 [ZMethod.calc_z1_fourier] together with the count of
    calls to the ODE solver. [cached] is the attribute [z1_fourier] assigned by
    runz.py:93; [expected] is get_expected_z1_fourier(); [ode] is the value of
    ps.ode.calc_z1_fourier on the arguments of lines 166-171, none of which
    mentions N (self.a, nu, k, R0, arc_R, M and the functions built by
    do_algebra from the problem). *)
Definition zm_calc_z1_fourier {V} (z1cheat : bool) (cached : option V)
    (expected ode : V) : V * nat :=
  if z1cheat then (expected, 0%nat)
  else match cached with
       | Some z => (z, 0%nat)
       | None => (ode, 1%nat)
       end.

(** runz.py:83-139 restricted to the cache: the coefficients used by each run
    and the number of ODE solves. [ode N] / [expected N] are what a fresh run at
    grid size N computes. *)
Fixpoint runz_loop {V} (z1cheat : bool) (expected ode : Z -> V)
    (cache : option V) (Ns : list Z) : list V * nat :=
  match Ns with
  | [] => ([], 0%nat)
  | N :: Ns' =>
      let '(z, n) := zm_calc_z1_fourier z1cheat cache (expected N) (ode N) in
      let '(zs, n') := runz_loop z1cheat expected ode (Some z) Ns' in
      (z :: zs, (n + n')%nat)
  end.

(** The inputs of the ODE solver (ps/zmethod.py:166-171): everything is
    determined by the problem and its boundary; M = 7 and R0 = 0.1 are class
    constants (ps/zmethod.py:25-26), arc_R = boundary.R + boundary.bet (42). *)
Definition ode_of_run {P V} (ode_solver : P -> V) (problem : P) (N : Z) : V :=
  ode_solver problem.

(** Import graph. A module is its file name without [.py]; the edges are the
    first-party imports that its top-level code executes, in order.
    Cites: run.py:6-12, runz.py:9-15, io_util.py:3-4,
    problems/__init__.py:9-14, problems/smooth.py:5-8, problems/problem.py:4,
    problems/sympy_problem.py:6, problems/boundary.py:5, problems/sing_ihz.py:7-14.
    Simplification: the edges of modules that are only reached after the
    failing import are not listed; third-party imports are assumed to succeed. *)
Definition repo_imports (m : string) : option (list string) :=
  (if m =? "run" then Some ["problems"; "ps.ps"; "ps.zmethod"; "io_util"]
   else if m =? "runz" then Some ["problems"; "ps.ps"; "ps.zmethod"; "io_util"]
   else if m =? "io_util" then Some ["problems"; "problems.boundary"]
   else if m =? "problems" then
     Some ["problems.smooth"; "problems.sing_h_trace"; "problems.sing_h_shift";
           "problems.sing_ih"; "problems.sing_ihz"]
   else if m =? "problems.smooth" then
     Some ["domain_util"; "problems.problem"; "problems.sympy_problem"]
   else if m =? "problems.problem" then Some ["domain_util"]
   else if m =? "problems.sympy_problem" then Some ["domain_util"]
   else if m =? "domain_util" then Some []
   else if m =? "problems.boundary" then Some ["problems.problem"]
   else if m =? "ps.multivalue" then Some []
   else None)%string.

(** Importing a submodule first imports its parent package (Python language
    reference 5.3.1); needed for problems/__init__.py being executed by
    [import problems.boundary] (io_util.py:4). *)
Definition repo_parent (m : string) : option string :=
  (if m =? "problems.boundary" then Some "problems"
   else if m =? "problems.problem" then Some "problems"
   else if m =? "problems.smooth" then Some "problems"
   else None)%string.

(** Python's import of one module: already-loaded modules ([sys.modules]) are
    not executed again; a name with no file raises ImportError. Returns the
    updated list of loaded modules. Cites: problems/__init__.py:9-14. *)
Fixpoint py_import (fuel : nat) (loaded : list string) (m : string)
  : result (list string) :=
  match fuel with
  | O => Err OutOfFuel
  | S fuel' =>
      if existsb (String.eqb m) loaded then Ok loaded
      else
        loaded1 <- match repo_parent m with
                   | Some p => py_import fuel' loaded p
                   | None => Ok loaded
                   end;;
        if existsb (String.eqb m) loaded1 then Ok loaded1
        else match repo_imports m with
             | None => Err ImportError
             | Some deps =>
                 (fix go (ld : list string) (ds : list string) :=
                    match ds with
                    | [] => Ok ld
                    | d :: ds' => ld' <- py_import fuel' ld d;; go ld' ds'
                    end) (m :: loaded1) deps
             end
  end.
