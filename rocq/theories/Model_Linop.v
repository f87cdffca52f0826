(** linop.py: finite-difference operators. *)
From Coq Require Import ZArith Reals Bool.
From Coquelicot Require Import Complex.
From Verif Require Import Model_Grid.
Open Scope Z_scope.

(** linop.py:4-32 [apply_L]: [v] has shape (N+1, N+1), [N = v.shape[0] - 1];
    the value stored at [Lv[m-1, n-1]] for m, n in 1..N-1. All subscripts
    m-1, m+1 lie in 0..N, so no index normalisation is needed. *)
Definition lin_apply_L (N order : Z) (AD_len k : R) (v : arr2) (m n : Z) : C :=
  let h := (AD_len / IZR N)%R in
  let h2 := (h ^ 2)%R in
  let k2 := (k ^ 2)%R in
  (RtoC (1 / h2) * (v (m + 1)%Z n + v (m - 1)%Z n + v m (n + 1)%Z + v m (n - 1)%Z
     - RtoC 4 * v m n) + RtoC k2 * v m n
   + (if (order =? 4)%Z then
        RtoC (1 / (6 * h2)) * (
          v (m + 1)%Z (n + 1)%Z - RtoC 2 * v (m + 1)%Z n + v (m + 1)%Z (n - 1)%Z
          - RtoC 2 * (v m (n + 1)%Z - RtoC 2 * v m n + v m (n - 1)%Z)
          + v (m - 1)%Z (n + 1)%Z - RtoC 2 * v (m - 1)%Z n + v (m - 1)%Z (n - 1)%Z)
        + RtoC (k2 / 12) * (
          v (m + 1)%Z n - RtoC 2 * v m n + v (m - 1)%Z n
          + v m (n + 1)%Z - RtoC 2 * v m n + v m (n - 1)%Z)
      else RtoC 0))%C.

(** linop.py:34-51 [apply_B]: the value stored at [Bf[i-1, j-1]] for i, j in
    1..N-1, from [f] of shape (N+1, N+1). *)
Definition lin_apply_B (f : arr2) (i j : Z) : C :=
  (f i j + RtoC (1 / 12) * (
     f (i + 1)%Z j - RtoC 2 * f i j + f (i - 1)%Z j
     + f i (j + 1)%Z - RtoC 2 * f i j + f i (j - 1)%Z))%C.
