(** scripts/resonance.py, scripts/extend_basis_test.py, scripts/test_extend_f.py
    and scripts/optimize_basis.py. *)
From Coq Require Import ZArith List Bool Reals.
From Coquelicot Require Import Coquelicot.
From Verif Require Import Model_Py Model_Multivalue Model_Grid Model_PS Model_Domain Model_Extend Model_Run Model_Program.
Import ListNotations.
Open Scope R_scope.

(** Python's range(lo, hi, step) for a positive step (scripts/resonance.py:27-28,
    scripts/optimize_basis.py:65-66). *)
Definition py_range_step (lo hi step : Z) : list Z :=
  map (fun n => (lo + Z.of_nat n * step)%Z) (seq 0 (Z.to_nat ((hi - lo + step - 1) / step))).

(** ** scripts/resonance.py *)

(** scripts/resonance.py:22, 27-28: the pairs of the double loop, a_cap = 10. *)
Definition resonance_pairs : list (Z * Z) :=
  flat_map (fun a => map (fun b => (a, b)) (py_range_step a 10 2)) (py_range_step 1 10 2).

(** scripts/resonance.py:30. *)
Definition resonance_k2 (s : R) (p : Z * Z) : R :=
  (IZR (fst p) * PI / s) ^ 2 + (IZR (snd p) * PI / s) ^ 2.

(** list.sort (scripts/resonance.py:35), as insertion sort. *)
Fixpoint sort_insert (x : R) (l : list R) : list R :=
  match l with
  | [] => [x]
  | y :: l' => if Rleb x y then x :: l else y :: sort_insert x l'
  end.
(** scripts/resonance.py:35, the call of [list.sort]. *)
Definition py_sort (l : list R) : list R := fold_right sort_insert [] l.

(** scripts/resonance.py:20-38: the array printed for side length [s]. The
    command line is not modelled; a zero side divides by zero. *)
Definition resonance_main (s : R) : result (list R) :=
  if Reqb s 0 then Err ZeroDivisionError
  else Ok (map sqrt (py_sort (map (resonance_k2 s) resonance_pairs))).

(** ** scripts/extend_basis_test.py *)

(** np.zeros(n) with entry JJ set to 1 when [hit] (scripts/extend_basis_test.py:48-54). *)
Definition ebt_coef (n JJ : nat) (hit : bool) : list C :=
  map (fun j => if hit && Nat.eqb j JJ then RtoC 1 else RtoC 0) (seq 0 n).

(** scripts/extend_basis_test.py:46-58: one pass of the loop; returns the solver
    with its new coefficients and the error. np.max of an empty array raises
    ValueError. *)
Definition ebt_step (c : ext_ctx) (index JJ : nat) : result (ext_ctx * R) :=
  e1 <- extend_basis c JJ index;;
  let n := length (ec_B c) in
  let c' := set_coef c (ebt_coef n JJ (Nat.eqb index 0)) (ebt_coef n JJ (Nat.eqb index 1)) in
  e2 <- extend_boundary c' SrcCoef true;;
  err <- py_max (map (fun p => Cmod (Cminus (fst p) (snd p))) (combine e1 e2));;
  Ok (c', err).

(** scripts/extend_basis_test.py:43-65: the lines printed (index, JJ, error; line
    58) and whether SUCCESS is printed at the end. *)
Fixpoint ebt_loop (c : ext_ctx) (todo : list (nat * nat)) : result (list (nat * nat * R) * bool) :=
  match todo with
  | [] => Ok ([], true)
  | (index, JJ) :: todo' =>
      ce <- ebt_step c index JJ;;
      if Rltb (1 / 10 ^ 14) (snd ce) then Ok ([(index, JJ, snd ce)], false)
      else r <- ebt_loop (fst ce) todo';; Ok ((index, JJ, snd ce) :: fst r, snd r)
  end.

(** scripts/extend_basis_test.py:31-65 for the options of a problem and a
    boundary. *)
Definition ebt_main (lib : library) (o : options) : result (list (nat * nat * R) * bool) :=
  st <- ps_init lib o;;
  ebt_loop (st_ctx st) (list_prod [0; 1]%nat (seq 0 (length (ec_B (st_ctx st))))).

(** ** scripts/test_extend_f.py *)

(** scripts/test_extend_f.py:48-53: the errors at the nodes on the segments in
    [allowed]. *)
Fixpoint tef_errors (st : ps_state) (src : source) (allowed : list nat) (nodes : list node) : result (list R) :=
  match nodes with
  | [] => Ok []
  | p :: nodes' =>
      let c := st_ctx st in
      sid <- extend_f_get_sid c p;;
      rest <- tef_errors st src allowed nodes';;
      if existsb (Nat.eqb sid) allowed then
        let '(r, th) := ps_get_polar (ec_a c) (ec_AD c) (ec_N c) (fst p) (snd p) in
        Ok (Cmod (Cminus (s_f_polar src r th) (st_f st (fst p) (snd p))) :: rest)
      else Ok rest
  end.

(** scripts/test_extend_f.py:42-61, 80-87 [run_test]: smooth-ycos on the outer
    sine, fourth-order scheme. [fuel] bounds the loop of get_n_basis. *)
Definition tef_run_test (fuel : nat) (lib : library) (allowed : list nat) (N : Z) : result R :=
  o <- smooth_options fuel SmoothYCos OuterSine N 4;;
  st <- ps_init lib o;;
  errs <- tef_errors st (o_src o) allowed (lib_enum lib (Kplus (o_order o) (o_N o) (o_interior o)));;
  py_max errs.

(** scripts/test_extend_f.py:92-108: what is printed for each grid, the error
    and the earlier error it is compared with. *)
Fixpoint tef_main (steps fuel : nat) (lib : library) (allowed : list nat) (prev : option R) (N c : Z)
  : result (list (Z * R * option R)) :=
  if (N <=? c)%Z then
    match steps with
    | O => Err OutOfFuel
    | S steps' =>
        e <- tef_run_test fuel lib allowed N;;
        rest <- tef_main steps' fuel lib allowed (Some e) (N * 2) c;;
        Ok ((N, e, prev) :: rest)
    end
  else Ok [].

(** ** scripts/optimize_basis.py *)

(** scripts/optimize_basis.py:63-67. *)
Definition ob_all_options : list (Z * Z) :=
  flat_map (fun nc => map (fun nr => (nc, nr)) (py_range_step 17 nc 4)) (py_range_step 30 100 5).

(** scripts/optimize_basis.py:53-54: the options with other basis sizes. *)
Definition with_sizes (o : options) (nc nr : nat) : options :=
  mk_opt (o_k o) (o_R o) (o_a o) (o_AD o) (o_N o) (o_order o) (o_r o) (o_n_basis o) (Some nc) (Some nr)
    (o_homogeneous o) (o_src o) (o_bc o) (o_known o) (o_expected o).

(** scripts/optimize_basis.py:52-61 [worker]. *)
Definition ob_worker (lib : library) (o : options) (t : Z * Z) : result (Z * Z * option R) :=
  let o' := with_sizes o (Z.to_nat (fst t)) (Z.to_nat (snd t)) in
  st <- ps_init lib o';;
  res <- ps_run lib o' st;;
  Ok (t, res_error res).

(** scripts/optimize_basis.py:69-70: Pool.map returns the results in the order
    of the arguments; of several exceptions the first in that order is taken. *)
Fixpoint ob_map (lib : library) (o : options) (ts : list (Z * Z)) : result (list (Z * Z * option R)) :=
  match ts with
  | [] => Ok []
  | t :: ts' => x <- ob_worker lib o t;; xs <- ob_map lib o ts';; Ok (x :: xs)
  end.

(** scripts/optimize_basis.py:72-77: the loop keeping min_t; None is the state
    before the first assignment (min_error infinite). Comparing an error None
    raises TypeError. *)
Fixpoint ob_min (best : option (Z * Z * R)) (results : list (Z * Z * option R)) : result (option (Z * Z * R)) :=
  match results with
  | [] => Ok best
  | (t, None) :: _ => Err TypeError
  | (t, Some e) :: rest =>
      ob_min (match best with
              | None => Some (t, e)
              | Some (t', e') => if Rltb e e' then Some (t, e) else best
              end) rest
  end.

(** scripts/optimize_basis.py:63-80: the triple printed at the end; printing
    raises NameError if it is None. *)
Definition ob_main (lib : library) (o : options) : result (option (Z * Z * R)) :=
  rs <- ob_map lib o ob_all_options;;
  ob_min None rs.
