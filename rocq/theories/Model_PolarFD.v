(** ps/polarfd.py: fourth-order finite differences on a polar grid. *)
From Coq Require Import ZArith List Bool Reals.
From Coquelicot Require Import Complex.
From Verif Require Import Model_Py Model_Grid.
Import ListNotations.
Open Scope Z_scope.

(** Constructor arguments and the values computed by [calc_N_var]
    (ps/polarfd.py:9-16, 32-35); [nu] is stored but never read and is left out.
    The wave number [k] and the eight data functions set by [solve]
    (ps/polarfd.py:198-213) are fields too. Numbers are exact reals: real data,
    as in every caller (ps/zmethod.py:222-236). *)
Record polar_fd := {
  pf_N : Z; pf_a : R; pf_R0 : R; pf_R1 : R; pf_k : R;
  pf_phi_initial : R -> R; pf_phi0 : R -> R; pf_phi1 : R -> R; pf_phi2 : R -> R;
  pf_f : R -> R -> R; pf_d_f_r : R -> R -> R; pf_d2_f_r : R -> R -> R;
  pf_d2_f_th : R -> R -> R
}.

(** ps/polarfd.py:34 [self.hr = (self.R1-self.R0)/self.N]. *)
Definition pf_hr (s : polar_fd) : R := ((pf_R1 s - pf_R0 s) / IZR (pf_N s))%R.

(** ps/polarfd.py:35 [self.hth = (2*np.pi - self.a) / self.N]. *)
Definition pf_hth (s : polar_fd) : R := ((2 * PI - pf_a s) / IZR (pf_N s))%R.

(** ps/polarfd.py:23-24 [get_r]; the argument is real because [set_fd4] asks
    for half-integer nodes. *)
Definition get_r (s : polar_fd) (m : R) : R := (pf_R0 s + m * pf_hr s)%R.

(** ps/polarfd.py:26-27 [get_th]. *)
Definition get_th (s : polar_fd) (l : Z) : R := (pf_a s + IZR l * pf_hth s)%R.

(** ps/polarfd.py:29-30 [get_index]. *)
Definition get_index (N m l : Z) : Z := m * (N + 1) + l.

(** The attributes created by [new_system] (ps/polarfd.py:37-44): right-hand
    side, current row, and the coordinate-format sparse matrix. *)
Record pf_system := {
  sy_rhs : list R; sy_row : Z;
  sy_data : list R; sy_row_ind : list Z; sy_col_ind : list Z
}.

(** ps/polarfd.py:37-44 [new_system]. *)
Definition new_system : pf_system :=
  {| sy_rhs := []; sy_row := 0; sy_data := []; sy_row_ind := []; sy_col_ind := [] |}.

(** The three appends [data.append(v); row_ind.append(row); col_ind.append(i)]
    (ps/polarfd.py:55-57, 75-77, 83-85, 95-97, 194-196). *)
Definition put (v : R) (i : Z) (y : pf_system) : pf_system :=
  {| sy_rhs := sy_rhs y; sy_row := sy_row y; sy_data := sy_data y ++ [v];
     sy_row_ind := sy_row_ind y ++ [sy_row y]; sy_col_ind := sy_col_ind y ++ [i] |}.

(** [self.rhs.append(v)] (ps/polarfd.py:59, 79, 87, 101, 178-183). *)
Definition put_rhs (v : R) (y : pf_system) : pf_system :=
  {| sy_rhs := sy_rhs y ++ [v]; sy_row := sy_row y; sy_data := sy_data y;
     sy_row_ind := sy_row_ind y; sy_col_ind := sy_col_ind y |}.

(** [self.row += 1] (ps/polarfd.py:60, 80, 88, 102, 187). *)
Definition next_row (y : pf_system) : pf_system :=
  {| sy_rhs := sy_rhs y; sy_row := sy_row y + 1; sy_data := sy_data y;
     sy_row_ind := sy_row_ind y; sy_col_ind := sy_col_ind y |}.

(** ps/polarfd.py:46-60 [set_bc_origin]. *)
Definition set_bc_origin (s : polar_fd) (y : pf_system) : pf_system :=
  fold_left (fun y l =>
    next_row (put_rhs (pf_phi_initial s (get_th s l))
      (put 1 (get_index (pf_N s) 0 l) y))) (py_range 1 (pf_N s)) y.

(** ps/polarfd.py:62-88 [set_bc_wedge]. *)
Definition set_bc_wedge (s : polar_fd) (y : pf_system) : pf_system :=
  fold_left (fun y m =>
    let r := get_r s (IZR m) in
    let y := next_row (put_rhs (pf_phi2 s r) (put 1 (get_index (pf_N s) m 0) y)) in
    next_row (put_rhs (pf_phi1 s r) (put 1 (get_index (pf_N s) m (pf_N s)) y)))
    (py_range 0 (pf_N s + 1)) y.

(** ps/polarfd.py:90-102 [set_bc_arc]. *)
Definition set_bc_arc (s : polar_fd) (y : pf_system) : pf_system :=
  fold_left (fun y l =>
    next_row (put_rhs (pf_phi0 s (get_th s l))
      (put 1 (get_index (pf_N s) (pf_N s) l) y))) (py_range 1 (pf_N s)) y.

(** A 3 x 3 numpy array (ps/polarfd.py:119 [local = np.zeros([3, 3])]),
    addressed by normalised subscripts 0, 1, 2. *)
Definition local3 := Z -> Z -> R.

(** numpy's treatment of a subscript of an axis of length 3, which turns the
    -1 of ps/polarfd.py:122 into 2; the subscripts used are -1, 0 and 1, which
    are always valid. *)
Definition norm3 (i : Z) : Z := if i <? 0 then 3 + i else i.

(** [local[i, j] += v] (ps/polarfd.py:122-168). *)
Definition local_add (i j : Z) (v : R) (loc : local3) : local3 := fun p q =>
  if (p =? norm3 i) && (q =? norm3 j) then (loc p q + v)%R else loc p q.

(** [local[i, j]] (ps/polarfd.py:194). *)
Definition local_get (loc : local3) (i j : Z) : R := loc (norm3 i) (norm3 j).

(** The nine updates of [local] in ps/polarfd.py:109-168, from r(m-1),
    r(m-1/2), r(m), r(m+1/2), r(m+1), hr, hth and k. *)
Definition fd4_local (r_2 r_1 r r1 r2 hr hth k : R) : local3 :=
  let loc := (fun _ _ => 0%R) : local3 in
  let loc := local_add (-1) (-1) (
    - hr / (24 * hth ^ 2 * r * r_2 ^ 2) + 1 / (12 * hth ^ 2 * r_2 ^ 2)
    + r_1 / (12 * hr ^ 2 * r))%R loc in
  let loc := local_add 0 (-1) (
    hr ^ 2 / (12 * hth ^ 2 * r ^ 4)
    + k ^ 2 / 12 + 5 / (6 * hth ^ 2 * r ^ 2) - r1 / (12 * hr ^ 2 * r)
    - r_1 / (12 * hr ^ 2 * r))%R loc in
  let loc := local_add 1 (-1) (
    hr / (24 * hth ^ 2 * r * r2 ^ 2) + 1 / (12 * hth ^ 2 * r2 ^ 2)
    + r1 / (12 * hr ^ 2 * r))%R loc in
  let loc := local_add (-1) 0 (
    - hr * k ^ 2 / (24 * r) - hr / (12 * r ^ 3)
    + hr / (12 * hth ^ 2 * r * r_2 ^ 2) + k ^ 2 / 12 - 1 / (6 * hth ^ 2 * r_2 ^ 2)
    + 5 * r_1 / (6 * hr ^ 2 * r))%R loc in
  let loc := local_add 0 0 (
    hr ^ 2 * k ^ 2 / (12 * r ^ 2)
    - hr ^ 2 / (6 * hth ^ 2 * r ^ 4) + 2 * k ^ 2 / 3
    - 5 / (3 * hth ^ 2 * r ^ 2) - 5 * r1 / (6 * hr ^ 2 * r)
    - 5 * r_1 / (6 * hr ^ 2 * r))%R loc in
  let loc := local_add 1 0 (
    hr * k ^ 2 / (24 * r) + hr / (12 * r ^ 3)
    - hr / (12 * hth ^ 2 * r * r2 ^ 2) + k ^ 2 / 12 - 1 / (6 * hth ^ 2 * r2 ^ 2)
    + 5 * r1 / (6 * hr ^ 2 * r))%R loc in
  let loc := local_add (-1) 1 (
    - hr / (24 * hth ^ 2 * r * r_2 ^ 2)
    + 1 / (12 * hth ^ 2 * r_2 ^ 2) + r_1 / (12 * hr ^ 2 * r))%R loc in
  let loc := local_add 0 1 (
    hr ^ 2 / (12 * hth ^ 2 * r ^ 4)
    + k ^ 2 / 12 + 5 / (6 * hth ^ 2 * r ^ 2) - r1 / (12 * hr ^ 2 * r)
    - r_1 / (12 * hr ^ 2 * r))%R loc in
  local_add 1 1 (
    hr / (24 * hth ^ 2 * r * r2 ^ 2)
    + 1 / (12 * hth ^ 2 * r2 ^ 2) + r1 / (12 * hr ^ 2 * r))%R loc.

(** The nine pairs of [it.product((-1, 0, 1), repeat=2)] (ps/polarfd.py:190). *)
Definition local_offsets : list (Z * Z) :=
  [(-1, -1); (-1, 0); (-1, 1); (0, -1); (0, 0); (0, 1); (1, -1); (1, 0); (1, 1)].

(** ps/polarfd.py:189-196 [copy_local]. *)
Definition copy_local (N m l : Z) (loc : local3) (y : pf_system) : pf_system :=
  fold_left (fun y d =>
    put (local_get loc (fst d) (snd d)) (get_index N (m + fst d) (l + snd d)) y)
    local_offsets y.

(** The right-hand side of ps/polarfd.py:170-183. *)
Definition fd4_rhs (hr hth r f d_f_r d2_f_r d2_f_th : R) : R :=
  (d2_f_r * hr ^ 2 / 12 + d2_f_th * hth ^ 2 / 12 + d_f_r * hr ^ 2 / (12 * r)
   + f * hr ^ 2 / (12 * r ^ 2) + f)%R.

(** ps/polarfd.py:104-187 [set_fd4]. *)
Definition set_fd4 (s : polar_fd) (m l : Z) (y : pf_system) : pf_system :=
  let r := get_r s (IZR m) in
  let th := get_th s l in
  let loc := fd4_local (get_r s (IZR (m - 1))) (get_r s (IZR m - 1 / 2)) r
    (get_r s (IZR m + 1 / 2)) (get_r s (IZR (m + 1))) (pf_hr s) (pf_hth s) (pf_k s) in
  let y := put_rhs (fd4_rhs (pf_hr s) (pf_hth s) r (pf_f s r th) (pf_d_f_r s r th)
    (pf_d2_f_r s r th) (pf_d2_f_th s r th)) y in
  next_row (copy_local (pf_N s) m l loc y).

(** The assembly performed by [solve] (ps/polarfd.py:219-228). *)
Definition assemble (s : polar_fd) : pf_system :=
  let y := set_bc_arc s (set_bc_wedge s (set_bc_origin s new_system)) in
  fold_left (fun y m =>
    fold_left (fun y l => set_fd4 s m l y) (py_range 1 (pf_N s)) y)
    (py_range 1 (pf_N s)) y.

(** The product of row [row] of [csc_matrix((data, (row_ind, col_ind)))]
    (ps/polarfd.py:235) with the vector [z]; repeated (row, column) pairs are
    added, as scipy does. *)
Fixpoint coo_row (data : list R) (ri ci : list Z) (z : Z -> R) (row : Z) : R :=
  match data, ri, ci with
  | d :: data', r :: ri', c :: ci' =>
      ((if (r =? row)%Z then d * z c else 0) + coo_row data' ri' ci' z row)%R
  | _, _, _ => 0%R
  end.

(** [spsolve(M, rhs)] (ps/polarfd.py:237) is an oracle: whatever it returns is
    used as the solution. [solves y z] says that [z] does solve the system, row
    by row. *)
Definition solves (y : pf_system) (z : Z -> R) : Prop :=
  forall row, (0 <= row < sy_row y)%Z ->
    coo_row (sy_data y) (sy_row_ind y) (sy_col_ind y) z row =
    nth (Z.to_nat row) (sy_rhs y) 0%R.

(** ps/polarfd.py:248-257: the nodes visited by [calc_rel_convergence], in
    order. *)
Definition pf_nodes (N : Z) : list (Z * Z) :=
  flat_map (fun m => map (fun l => (m, l)) (py_range 1 N)) (py_range 1 N).

(** ps/polarfd.py:245-257: the two difference lists. The arrays have shapes
    (N+1)^2, (N/2+1)^2 and (N/4+1)^2 (ps/zmethod.py:234) and are indexed by
    (m, l). *)
Fixpoint pf_rel_diffs (N : Z) (u0 u1 u2 : arr2) (nodes : list (Z * Z))
  : result (list R * list R) :=
  match nodes with
  | [] => Ok ([], [])
  | (m, l) :: nodes' =>
      d12 <- (if (m mod 4 =? 0) && (l mod 4 =? 0) then
                a <- np_get (N / 2 + 1) u1 (m / 2) (l / 2);;
                b <- np_get (N / 4 + 1) u2 (m / 4) (l / 4);;
                Ok [Cmod (Cminus a b)]
              else Ok []);;
      d01 <- (if (m mod 2 =? 0) && (l mod 2 =? 0) then
                a <- np_get (N + 1) u0 m l;;
                b <- np_get (N / 2 + 1) u1 (m / 2) (l / 2);;
                Ok [Cmod (Cminus a b)]
              else Ok []);;
      rest <- pf_rel_diffs N u0 u1 u2 nodes';;
      Ok (d12 ++ fst rest, d01 ++ snd rest)
  end.

(** ps/polarfd.py:239-260 [calc_rel_convergence]: returns the pair whose
    ratio's log2 is reported. *)
Definition pf_rel_pair (N : Z) (u0 u1 u2 : arr2) : result (R * R) :=
  d <- pf_rel_diffs N u0 u1 u2 (pf_nodes N);;
  m12 <- py_max (fst d);;
  m01 <- py_max (snd d);;
  Ok (m12, m01).
