(** ps/polarfd.py: from the list of entries to the sparse matrix. *)
From Coq Require Import ZArith List Bool Reals.
From Verif Require Import Model_Py Model_PolarFD.
Import ListNotations.
Open Scope Z_scope.

(** [max] of a list of ints (ps/polarfd.py:231); an empty list raises
    ValueError. *)
Definition py_max_int (l : list Z) : result Z :=
  match l with [] => Err ValueError | x :: l => Ok (fold_left Z.max l x) end.

(** ps/polarfd.py:231 [shape]. scipy infers the same shape for the matrix of
    line 235, where none is given. *)
Definition pf_shape (y : pf_system) : result (Z * Z) :=
  r <- py_max_int (sy_row_ind y);;
  c <- py_max_int (sy_col_ind y);;
  Ok (r + 1, c + 1).

(** ps/polarfd.py:235 [csc_matrix]: the entries of column [col], in the order
    of the list, as (row, value). *)
Fixpoint coo_column (data : list R) (ri ci : list Z) (col : Z) : list (Z * R) :=
  match data, ri, ci with
  | d :: data, r :: ri, c :: ci =>
      if c =? col then (r, d) :: coo_column data ri ci col else coo_column data ri ci col
  | _, _, _ => []
  end.

(** ps/polarfd.py:235: the conversion adds an entry to an earlier one of the
    same row. scipy sorts the rows of a column too; the order does not enter
    here. *)
Fixpoint add_entry (r : Z) (v : R) (l : list (Z * R)) : list (Z * R) :=
  match l with
  | [] => [(r, v)]
  | (r', v') :: l => if r =? r' then (r', (v' + v)%R) :: l else (r', v') :: add_entry r v l
  end.

(** ps/polarfd.py:235: one column of the matrix. *)
Definition csc_column (y : pf_system) (col : Z) : list (Z * R) :=
  fold_left (fun l e => add_entry (fst e) (snd e) l)
    (coo_column (sy_data y) (sy_row_ind y) (sy_col_ind y) col) [].

(** ps/polarfd.py:231-237: the matrix by columns and the checks spsolve makes
    before it starts (a square matrix, a right-hand side of the same length),
    which raise ValueError. *)
Definition pf_matrix (y : pf_system) : result (list (list (Z * R))) :=
  sh <- pf_shape y;;
  if (fst sh =? snd sh) && (fst sh =? Z.of_nat (length (sy_rhs y)))
  then Ok (map (csc_column y) (py_range 0 (snd sh)))
  else Err ValueError.
