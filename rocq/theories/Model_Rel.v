(** solver.py:110-130: the relative convergence as the drivers print it. *)
From Coq Require Import ZArith List Bool Reals.
From Coquelicot Require Import Complex.
From Verif Require Import Model_Py Model_Domain Model_Grid Model_Multivalue Model_MvRel Model_Run.
Import ListNotations.
Open Scope R_scope.

(** solver.py:125: what calc_rel_convergence may be given, a numpy array or an
    object with a method of that name (ps/multivalue.py:104). *)
Inductive uval := UArray (u : arr2) | UMulti (u : multivalue).

(** solver.py:152 and ps/multivalue.py:149, [np.log2(m12 / m01)]; None stands
    for the infinities and nan numpy returns when a maximum is zero. *)
Definition log2_ratio (p : R * R) : option R :=
  if (Rltb 0 (fst p) && Rltb 0 (snd p))%bool then Some (ln (fst p / snd p) / ln 2) else None.

(** solver.py:110-130 [calc_rel_convergence] of the solver with [N] cells and
    the inside nodes [nodes] (in the order in which the set is walked). Three
    values of different kinds never occur; a TypeError here. *)
Definition calc_rel_convergence (N : Z) (nodes : list (Z * Z)) (u0 u1 u2 : uval) : result (option R) :=
  p <- match u0, u1, u2 with
       | UArray a0, UArray a1, UArray a2 => rel_convergence_pair N a0 a1 a2 nodes
       | UMulti m0, UMulti m1, UMulti m2 => mv_rel_pair m0 m1 m2
       | _, _, _ => Err TypeError
       end;;
  Ok (log2_ratio p).

(** run.py:96 and runz.py:127: the method of the solver with options [o]. *)
Definition run_rel (lib : library) (o : options) (u0 u1 u2 : uval) : result (option R) :=
  calc_rel_convergence (o_N o) (lib_enum lib (global_Mplus (o_N o) (o_interior o))) u0 u1 u2.
