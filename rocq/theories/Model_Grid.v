(** Grid sets: solver.py and ps/grid.py (set construction part). *)
From Coq Require Import ZArith List Bool Reals.
From Coquelicot Require Import Complex.
From Verif Require Import Model_Py Model_Multivalue.
Import ListNotations.
Open Scope Z_scope.

(** Membership test on a Python set of nodes (ps/grid.py:192-194). Sets are
    lists up to order and repetition. *)
Definition node_mem (p : node) (s : list node) : bool := existsb (node_eqb p) s.

(** Python's [s & t] (ps/grid.py:197). *)
Definition node_inter (s t : list node) : list node :=
  filter (fun p => node_mem p t) s.

(** Python's [s - t] (solver.py:63). *)
Definition node_diff (s t : list node) : list node :=
  filter (fun p => negb (node_mem p t)) s.

(** solver.py:55, the closed grid. *)
Definition grid_N0 (N : Z) : list node :=
  list_prod (py_range 0 (N + 1)) (py_range 0 (N + 1)).

(** solver.py:56, the open grid. *)
Definition grid_M0 (N : Z) : list node :=
  list_prod (py_range 1 N) (py_range 1 N).

(** solver.py:58-61. [is_interior] is the subclass's point test
    (ps/ps.py:74-77). *)
Definition global_Mplus (N : Z) (is_interior : Z -> Z -> bool) : list node :=
  filter (fun p => is_interior (fst p) (snd p)) (grid_M0 N).

(** solver.py:63. *)
Definition global_Mminus (N : Z) (is_interior : Z -> Z -> bool) : list node :=
  node_diff (grid_M0 N) (global_Mplus N is_interior).

(** solver.py:67-70, the neighbourhood used for the source term. *)
Definition source_stencil (order : Z) (p : node) : list node :=
  let '(i, j) := p in
  [(i, j)] ++
  (if 2 <? order then [(i - 1, j); (i + 1, j); (i, j - 1); (i, j + 1)] else []).

(** solver.py:65-72. *)
Definition Kplus (order N : Z) (is_interior : Z -> Z -> bool) : list node :=
  flat_map (source_stencil order) (global_Mplus N is_interior).

(** ps/grid.py:186-190, the stencil of a node. *)
Definition stencil (order : Z) (p : node) : list node :=
  let '(i, j) := p in
  [(i, j); (i - 1, j); (i + 1, j); (i, j - 1); (i, j + 1)] ++
  (if 2 <? order then
     [(i - 1, j - 1); (i + 1, j - 1); (i - 1, j + 1); (i + 1, j + 1)]
   else []).

(** ps/grid.py:185-195, the loop accumulating Nplus and Nminus over a list
    of nodes of M0. *)
Fixpoint nplus_nminus_loop (order : Z) (Mp Mm : list node) (todo : list node)
    (acc : list node * list node) : list node * list node :=
  match todo with
  | [] => acc
  | p :: todo' =>
      let acc' :=
        if node_mem p Mp then (fst acc ++ stencil order p, snd acc)
        else if node_mem p Mm then (fst acc, snd acc ++ stencil order p)
        else acc in
      nplus_nminus_loop order Mp Mm todo' acc'
  end.

(** ps/grid.py:182-195. *)
Definition nplus_nminus (order N : Z) (is_interior : Z -> Z -> bool)
  : list node * list node :=
  nplus_nminus_loop order (global_Mplus N is_interior)
    (global_Mminus N is_interior) (grid_M0 N) ([], []).

(** ps/grid.py:182, 193 ([self.Nplus]). *)
Definition Nplus order N is_interior := fst (nplus_nminus order N is_interior).

(** ps/grid.py:183, 195 ([self.Nminus]). *)
Definition Nminus order N is_interior := snd (nplus_nminus order N is_interior).

(** ps/grid.py:197: the set [Nplus & Nminus]; [self.union_gamma] is some
    enumeration of it (see [enumerates] in Spec_Grid.v). *)
Definition gamma_set order N is_interior : list node :=
  node_inter (Nplus order N is_interior) (Nminus order N is_interior).

(** solver.py:28-34 [get_coord] (exact arithmetic; [N] and [AD_len] are
    attributes). *)
Definition get_coord (AD_len : R) (N : Z) (i j : Z) : R * R :=
  ((AD_len * (IZR i / IZR N - 1 / 2))%R, (AD_len * (IZR j / IZR N - 1 / 2))%R).

(** solver.py:36-42 [get_coord_inv]. *)
Definition get_coord_inv (AD_len : R) (N : Z) (x y : R) : R * R :=
  ((IZR N * (x / AD_len + 1 / 2))%R, (IZR N * (y / AD_len + 1 / 2))%R).

(** A numpy array of shape (n, n), complex entries, 0-based (ps/ps.py:142). *)
Definition arr2 := Z -> Z -> C.

(** [np.zeros((n, n), dtype=complex)] (ps/ps.py:142). *)
Definition arr_zeros : arr2 := fun _ _ => RtoC 0.

(** Raw store; both indices already normalised (ps/ps.py:146). *)
Definition arr_store (A : arr2) (i j : Z) (v : C) : arr2 :=
  fun i' j' => if (i' =? i) && (j' =? j) then v else A i' j'.

(** [A[i, j] = v] on an (n, n) array with Python index rules
    (ps/ps.py:146, 151). *)
Definition np_set (n : Z) (A : arr2) (i j : Z) (v : C) : result arr2 :=
  i' <- py_index n i;; j' <- py_index n j;; Ok (arr_store A i' j' v).

(** [A[i, j]] on an (n, n) array with Python index rules (ps/ps.py:160). *)
Definition np_get (n : Z) (A : arr2) (i j : Z) : result C :=
  i' <- py_index n i;; j' <- py_index n j;; Ok (A i' j').

(** Python's [max] of a list of reals; ValueError on the empty list
    (solver.py:108). *)
Fixpoint py_max (l : list R) : result R :=
  match l with
  | [] => Err ValueError
  | [x] => Ok x
  | x :: l' => m <- py_max l';; Ok (Rmax x m)
  end.

(** solver.py:103-106: the list of absolute differences over an enumeration
    [nodes] of global_Mplus. *)
Fixpoint error_list (N : Z) (AD_len : R) (expected : R -> R -> C) (u_act : arr2)
    (nodes : list node) : result (list R) :=
  match nodes with
  | [] => Ok []
  | (i, j) :: nodes' =>
      let '(x, y) := get_coord AD_len N i j in
      v <- np_get (N - 1) u_act (i - 1) (j - 1);;
      rest <- error_list N AD_len expected u_act nodes';;
      Ok (Cmod (Cminus (expected x y) v) :: rest)
  end.

(** solver.py:92-108 [eval_error]; Python's None is [None]. *)
Definition eval_error (N : Z) (AD_len : R) (expected_known : bool)
    (expected : R -> R -> C) (u_act : arr2) (nodes : list node)
  : result (option R) :=
  if negb expected_known then Ok None
  else
    l <- error_list N AD_len expected u_act nodes;;
    m <- py_max l;; Ok (Some m).

(** solver.py:141-150: the two difference lists of
    [_array_calc_rel_convergence]; the arrays have shapes
    (N-1)^2, (N/2-1)^2 and (N/4-1)^2. *)
Fixpoint rel_diffs (N : Z) (u0 u1 u2 : arr2) (nodes : list node)
  : result (list R * list R) :=
  match nodes with
  | [] => Ok ([], [])
  | (i, j) :: nodes' =>
      d12 <- (if (i mod 4 =? 0) && (j mod 4 =? 0) then
                a <- np_get (N / 2 - 1) u1 (i / 2 - 1) (j / 2 - 1);;
                b <- np_get (N / 4 - 1) u2 (i / 4 - 1) (j / 4 - 1);;
                Ok [Cmod (Cminus a b)]
              else Ok []);;
      d01 <- (if (i mod 2 =? 0) && (j mod 2 =? 0) then
                a <- np_get (N - 1) u0 (i - 1) (j - 1);;
                b <- np_get (N / 2 - 1) u1 (i / 2 - 1) (j / 2 - 1);;
                Ok [Cmod (Cminus a b)]
              else Ok []);;
      rest <- rel_diffs N u0 u1 u2 nodes';;
      Ok (d12 ++ fst rest, d01 ++ snd rest)
  end.

(** solver.py:132-152 [_array_calc_rel_convergence]: returns the pair whose
    ratio's log2 is reported. *)
Definition rel_convergence_pair (N : Z) (u0 u1 u2 : arr2) (nodes : list node)
  : result (R * R) :=
  d <- rel_diffs N u0 u1 u2 nodes;;
  m12 <- py_max (fst d);;
  m01 <- py_max (snd d);;
  Ok (m12, m01).
