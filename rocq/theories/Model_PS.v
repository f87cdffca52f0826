(** ps/ps.py: difference potentials and the variational formulation. *)
From Coq Require Import ZArith List Bool Reals.
From Coquelicot Require Import Complex.
From Verif Require Import Model_Py Model_Multivalue Model_Grid Model_Fourier
  Model_Linop.
Import ListNotations.
Open Scope Z_scope.

(** A grid function on the discrete boundary: numpy vector of length
    len(union_gamma) (ps/ps.py:156). *)
Definition vec := nat -> C.

(** What PizzaSolver stores after construction (ps/ps.py:27-59): grid size,
    scheme order, side length, wavenumber, point test, the enumeration
    [union_gamma] (ps/grid.py:197) and an enumeration of [global_Mminus] in
    the order the set iterates (ps/ps.py:69, 150). *)
Record ps_solver := mk_ps {
  ps_N : Z;
  ps_order : Z;
  ps_AD_len : R;
  ps_k : R;
  ps_interior : Z -> Z -> bool;
  ps_gamma : list node;
  ps_Mminus : list node }.

(** ps/ps.py:56 [self.apply_L]. *)
Definition ps_apply_L (s : ps_solver) : arr2 -> arr2 :=
  ap_apply_L (ps_N s) (ps_order s) (ps_AD_len s) (ps_k s).

(** ps/ps.py:57 [self.solve_ap]. *)
Definition ps_solve_ap (s : ps_solver) : arr2 -> arr2 :=
  ap_solve (ps_N s) (ps_order s) (ps_AD_len s) (ps_k s).

(** ps/ps.py:144-146: write [ext[l]] at the l-th discrete-boundary node. *)
Fixpoint write_gamma (N : Z) (gam : list node) (l : nat) (ext : vec) (w : arr2)
  : result arr2 :=
  match gam with
  | [] => Ok w
  | (i, j) :: gam' =>
      w' <- np_set (N - 1) w (i - 1) (j - 1) (ext l);;
      write_gamma N gam' (S l) ext w'
  end.

(** ps/ps.py:69-70 and 150-151: zero an array on global_Mminus. *)
Fixpoint zero_on (N : Z) (nodes : list node) (w : arr2) : result arr2 :=
  match nodes with
  | [] => Ok w
  | (i, j) :: nodes' =>
      w' <- np_set (N - 1) w (i - 1) (j - 1) (RtoC 0);; zero_on N nodes' w'
  end.

(** Array subtraction (ps/ps.py:153). *)
Definition arr_sub (A B : arr2) : arr2 := fun i j => Cminus (A i j) (B i j).

(** Array addition (ps/ps.py:204, 247). *)
Definition arr_add (A B : arr2) : arr2 := fun i j => Cplus (A i j) (B i j).

(** ps/ps.py:134-153 [get_potential]. *)
Definition get_potential (s : ps_solver) (ext : vec) : result arr2 :=
  w <- write_gamma (ps_N s) (ps_gamma s) 0 ext arr_zeros;;
  Lw <- zero_on (ps_N s) (ps_Mminus s) (ps_apply_L s w);;
  Ok (arr_sub w (ps_solve_ap s Lw)).

(** ps/ps.py:158-160: the loop of [get_trace]. *)
Fixpoint read_gamma (N : Z) (gam : list node) (l : nat) (w : arr2) (tr : vec)
  : result vec :=
  match gam with
  | [] => Ok tr
  | (i, j) :: gam' =>
      v <- np_get (N - 1) w (i - 1) (j - 1);;
      read_gamma N gam' (S l) w (fun m => if Nat.eqb m l then v else tr m)
  end.

(** ps/ps.py:155-162 [get_trace]. *)
Definition get_trace (s : ps_solver) (w : arr2) : result vec :=
  read_gamma (ps_N s) (ps_gamma s) 0 w (fun _ => RtoC 0).

(** ps/ps.py:168-173: one column of Q. *)
Definition Q_column (s : ps_solver) (ext : vec) : result vec :=
  potential <- get_potential s ext;;
  projection <- get_trace s potential;;
  Ok (fun l => Cminus (projection l) (ext l)).

(** ps/ps.py:164-175 [get_Q]: the columns for a list of basis extensions
    ([extend_basis(JJ, index)] for JJ in range(len(B_desc))). *)
Fixpoint get_Q (s : ps_solver) (basis_ext : list vec) : result (list vec) :=
  match basis_ext with
  | [] => Ok []
  | ext :: rest =>
      c <- Q_column s ext;; cs <- get_Q s rest;; Ok (c :: cs)
  end.

(** numpy's [Q.dot(c)] for a matrix given by its columns (ps/ps.py:205);
    ValueError when the sizes differ. *)
Fixpoint mat_dot (cols : list vec) (c : list C) : result vec :=
  match cols, c with
  | [], [] => Ok (fun _ => RtoC 0)
  | q :: cols', x :: c' =>
      v <- mat_dot cols' c';; Ok (fun l => Cplus (Cmult x (q l)) (v l))
  | _, _ => Err ValueError
  end.

(** ps/ps.py:61-72 [calc_ap_sol_f] for the source grid [f] of shape
    (N+1, N+1) prepared by setup_f. *)
Definition calc_ap_sol_f (s : ps_solver) (f : arr2) : result arr2 :=
  let Bf : arr2 := fun i j => lin_apply_B f (i + 1) (j + 1) in
  Bf' <- zero_on (ps_N s) (ps_Mminus s) Bf;;
  Ok (ps_solve_ap s Bf').

(** ps/ps.py:177-208 [get_var]: Q1 (as columns) and the right-hand side.
    [ext0]/[ext1] are the basis extensions for index 0/1, [ext_f] is
    extend_inhomo_f(). *)
Definition get_var (s : ps_solver) (ext0 ext1 : list vec) (c0 : list C)
    (ext_f : vec) (ap_sol_f : arr2) : result (list vec * vec) :=
  Q0 <- get_Q s ext0;;
  Q1 <- get_Q s ext1;;
  proj_f <- get_potential s ext_f;;
  term <- get_trace s (arr_add proj_f ap_sol_f);;
  Q0c0 <- mat_dot Q0 c0;;
  Ok (Q1, fun l => Cminus (Cplus (Copp (Q0c0 l)) (ext_f l)) (term l)).

(** ps/ps.py:246-249: the reported solution for a boundary extension. *)
Definition ps_u_act (s : ps_solver) (ext : vec) (ap_sol_f : arr2) : result arr2 :=
  p <- get_potential s ext;; Ok (arr_add p ap_sol_f).

(** solver.py:82-87: f is zero except at interior nodes. *)
Definition setup_f_interior (s : ps_solver) (eval_f : R -> R -> C) : arr2 :=
  fun i j =>
    if node_mem (i, j) (global_Mplus (ps_N s) (ps_interior s)) then
      let '(x, y) := get_coord (ps_AD_len s) (ps_N s) i j in eval_f x y
    else RtoC 0.
