(** Specification for the sparse matrix of the polar solver (C89). *)
From Coq Require Import ZArith List Reals.
From Verif Require Import Lib_Csum.
Import ListNotations.
Open Scope R_scope.

(** Entry of row [row] in a column given by its (row, value) pairs. *)
Fixpoint column_entry (row : Z) (l : list (Z * R)) : R :=
  match l with
  | [] => 0
  | (r, v) :: l => (if (r =? row)%Z then v else 0) + column_entry row l
  end.

(** Entry [row] of the product of the matrix with columns [cols] and the
    vector [z]. *)
Definition columns_times (cols : list (list (Z * R))) (z : Z -> R) (row : Z) : R :=
  rsum (length cols) (fun c => column_entry row (nth c cols []) * z (Z.of_nat c)).

(** The greatest element of a list of ints. *)
Definition greatest (l : list Z) (m : Z) : Prop := In m l /\ forall x, In x l -> (x <= m)%Z.

(** Sum of the values a list of ((row, column), value) has for one position. *)
Fixpoint position_sum (row col : Z) (l : list (Z * Z * R)) : R :=
  match l with
  | [] => 0
  | (r, c, v) :: l => (if ((r =? row)%Z && (c =? col)%Z)%bool then v else 0) + position_sum row col l
  end.
