(** Property C89: the sparse matrix of the polar solver. *)
From Coq Require Import ZArith List Reals Lra Lia.
From Coquelicot Require Import Coquelicot.
From Verif Require Import Model_Py Model_Grid Model_PolarFD Model_Sparse Spec_PolarFD Spec_Sparse Proof_PolarFD Proof_Sparse.
Import ListNotations.
Open Scope R_scope.

(** C89. The printed shape is (N + 1)^2 by (N + 1)^2; the two maxima are never
    taken of an empty list. *)
Theorem C89_shape : forall s, (1 <= pf_N s)%Z ->
  let n := ((pf_N s + 1) * (pf_N s + 1))%Z in pf_shape (assemble s) = Ok (n, n).
Proof. exact shape. Qed.
Print Assumptions C89_shape.

(** C89. No position (row, column) is entered twice, so that nothing is added
    up by the conversion; there are 4N + 9 (N - 1)^2 entries. *)
Theorem C89_once : forall s, (1 <= pf_N s)%Z -> let y := assemble s in
  NoDup (combine (sy_row_ind y) (sy_col_ind y)) /\
  Z.of_nat (length (combine (sy_row_ind y) (sy_col_ind y))) = (4 * pf_N s + 9 * (pf_N s - 1) * (pf_N s - 1))%Z.
Proof. exact once. Qed.
Print Assumptions C89_once.

(** C89. The conversion succeeds, spsolve accepts the shapes, and the columns
    hold exactly the entries of the list, each row at most once per column. *)
Theorem C89_columns : forall s, (1 <= pf_N s)%Z ->
  let n := ((pf_N s + 1) * (pf_N s + 1))%Z in let y := assemble s in
  exists cols, pf_matrix y = Ok cols /\ Z.of_nat (length cols) = n /\
    (forall c r v, (0 <= c < n)%Z -> In (r, v) (nth (Z.to_nat c) cols []) <-> In ((r, c), v) (combine (combine (sy_row_ind y) (sy_col_ind y)) (sy_data y))) /\
    (forall c, NoDup (map fst (nth c cols []))) /\
    (forall z row, columns_times cols z row = coo_row (sy_data y) (sy_row_ind y) (sy_col_ind y) z row).
Proof. exact matrix. Qed.
Print Assumptions C89_columns.

(** C89. The system of the matrix by columns is the system of C35 and C36. *)
Theorem C89_solve : forall s z, (1 <= pf_N s)%Z ->
  let n := ((pf_N s + 1) * (pf_N s + 1))%Z in let y := assemble s in
  exists cols, pf_matrix y = Ok cols /\
    (Model_PolarFD.solves y z <-> forall row, (0 <= row < n)%Z -> columns_times cols z row = nth (Z.to_nat row) (sy_rhs y) 0).
Proof. exact columns_solve. Qed.
Print Assumptions C89_solve.

(** C89. For any lists of entries: the matrix is accepted exactly if the greatest
    row is the greatest column and one less than the length of the right-hand
    side; otherwise ValueError. *)
Theorem C89_accepts : forall y,
  ((exists cols, pf_matrix y = Ok cols) <->
   exists m, greatest (sy_row_ind y) m /\ greatest (sy_col_ind y) m /\ Z.of_nat (length (sy_rhs y)) = (m + 1)%Z) /\
  ((exists cols, pf_matrix y = Ok cols) \/ pf_matrix y = Err ValueError).
Proof. exact matrix_accepts. Qed.
Print Assumptions C89_accepts.

(** C89. The values given for one position are added up, and no row is stored
    twice in a column. *)
Theorem C89_sums : forall y cols, pf_matrix y = Ok cols ->
  length cols = length (sy_rhs y) /\
  forall c row, (c < length cols)%nat -> NoDup (map fst (nth c cols [])) /\
    column_entry row (nth c cols []) = position_sum row (Z.of_nat c) (combine (combine (sy_row_ind y) (sy_col_ind y)) (sy_data y)).
Proof. exact matrix_sums. Qed.
Print Assumptions C89_sums.

(** A position given twice; a matrix that is not square. *)
Example C89_sums_example :
  pf_matrix {| sy_rhs := [0; 0]; sy_row := 2%Z; sy_data := [1; 2; 4]; sy_row_ind := [0; 1; 0]%Z; sy_col_ind := [1; 0; 1]%Z |} = Ok [[(1%Z, 2)]; [(0%Z, 1 + 4)]] /\
  pf_matrix {| sy_rhs := [0; 0]; sy_row := 2%Z; sy_data := [1; 2]; sy_row_ind := [0; 1]%Z; sy_col_ind := [0; 0]%Z |} = Err ValueError.
Proof. split; reflexivity. Qed.

(** C89. A negative N assembles nothing and fails at the maxima. *)
Theorem C89_negative : forall s, (pf_N s < 0)%Z -> pf_matrix (assemble s) = Err ValueError.
Proof. exact negative. Qed.
Print Assumptions C89_negative.

(** The 2 x 2 grid: 17 entries; node (1, 1) is number 4 and its column holds the
    centre of the stencil only, in row 8. The 1 x 1 grid gives the identity up
    to the order of the rows. *)
Example C89_example :
  (1 <= pf_N (unit_pf 2))%Z /\ (pf_N (unit_pf (-1)) < 0)%Z /\
  length (sy_data (assemble (unit_pf 2))) = 17%nat /\
  map fst (csc_column (assemble (unit_pf 2)) 4) = [8]%Z /\
  map fst (csc_column (assemble (unit_pf 2)) 1) = [0; 8]%Z /\
  pf_matrix (assemble (unit_pf 1)) = Ok [[(0%Z, 1)]; [(1%Z, 1)]; [(2%Z, 1)]; [(3%Z, 1)]].
Proof. cbn [pf_N unit_pf]. split; [lia|]. split; [lia|]. repeat split; reflexivity. Qed.
