(** fourier.py: the auxiliary-problem solver and arc_dst. *)
From Coq Require Import ZArith List Bool Reals.
From Coquelicot Require Import Complex.
From Verif Require Import Model_Py Model_Grid.
Import ListNotations.
Open Scope Z_scope.

(** [sum(f(m) for m in range(n))] over complex terms (used for the sums inside
    scipy's dst, fourier.py:62). *)
Fixpoint csum (n : nat) (f : nat -> C) : C :=
  match n with
  | O => RtoC 0
  | S n' => Cplus (csum n' f) (f n')
  end.

(** scipy.fftpack.dst(x, type=1) on a vector of length [n]
    (fourier.py:62-64, 77-79, 96), from scipy's documentation:
    y[k] = 2 * sum_{m=0}^{n-1} x[m] sin(pi (k+1)(m+1) / (n+1)). *)
Definition dst1 (n : nat) (x : Z -> C) (k : Z) : C :=
  Cmult (RtoC 2)
    (csum n (fun m => Cmult (x (Z.of_nat m))
       (RtoC (sin (PI * (IZR k + 1) * (INR m + 1) / (INR n + 1)))))).

(** fourier.py:37-44, one eigenvalue. Orders other than 2 and 4 raise
    UnboundLocalError at line 46; the CLI admits only 2 and 4
    (io_util.py:31-34) and every theorem assumes one of them. *)
Definition eigenval (N order : Z) (AD_len k : R) (j l : Z) : R :=
  let h := (AD_len / IZR N)%R in
  let h2 := (h ^ 2)%R in
  let k2 := (k ^ 2)%R in
  let cj := cos (PI * IZR j / IZR N) in
  let cl := cos (PI * IZR l / IZR N) in
  if order =? 2 then (k2 + (2 * cj + 2 * cl - 4) / h2)%R
  else if order =? 4 then
    ((h2 * k2 * (cj + cl + 4) + 4 * cj * cl + 8 * cj + 8 * cl - 20) / (6 * h2))%R
  else 0%R.

(** Store into a real table (fourier.py:46-47). *)
Definition tab_store (A : Z -> Z -> R) (i j : Z) (v : R) : Z -> Z -> R :=
  fun i' j' => if (i' =? i) && (j' =? j) then v else A i' j'.

(** fourier.py:35-47, inner loop for one [j]. *)
Definition eig_row (N order : Z) (AD_len k : R) (j : Z) (tab : Z -> Z -> R)
  : Z -> Z -> R :=
  fold_left (fun t l =>
    tab_store (tab_store t (j - 1) (l - 1) (eigenval N order AD_len k j l))
      (l - 1) (j - 1) (eigenval N order AD_len k j l))
    (py_range 1 (j + 1)) tab.

(** fourier.py:19-47 [calc_eigenvals]: the table after both loops. *)
Definition eigenvals (N order : Z) (AD_len k : R) : Z -> Z -> R :=
  fold_left (fun t j => eig_row N order AD_len k j t) (py_range 1 N)
    (fun _ _ => 0%R).

(** fourier.py:61-64 (and 76-79): dst along rows, then along columns of an
    (N-1, N-1) array. The loops write every row/column exactly once, so the
    result is given as a function. *)
Definition dst2 (N : Z) (A : arr2) : arr2 :=
  let n := Z.to_nat (N - 1) in
  let rows : arr2 := fun i k => dst1 n (fun m => A i m) k in
  fun i k => dst1 n (fun m => rows m k) i.

(** fourier.py:49-82 [_fourier]. [z / 0] is 0 in Coq where numpy would give
    inf/nan; theorems about [solve] assume no eigenvalue is zero. *)
Definition ap_fourier (N order : Z) (AD_len k : R) (Bf : arr2) (solve : bool)
  : arr2 :=
  let h := (AD_len / IZR N)%R in
  let eig := eigenvals N order AD_len k in
  let scoef : arr2 := fun i j => Cmult (dst2 N Bf i j) (RtoC (h ^ 2 / 2)) in
  let fcoef : arr2 := fun i j =>
    if solve then Cdiv (scoef i j) (RtoC (eig i j))
    else Cmult (scoef i j) (RtoC (eig i j)) in
  fun i j => Cdiv (dst2 N fcoef i j) (RtoC (2 * AD_len ^ 2)).

(** fourier.py:84-85 [solve]. *)
Definition ap_solve N order AD_len k (Bf : arr2) : arr2 :=
  ap_fourier N order AD_len k Bf true.

(** fourier.py:87-88 [apply_L]. *)
Definition ap_apply_L N order AD_len k (v : arr2) : arr2 :=
  ap_fourier N order AD_len k v false.

(** fourier.py:91-96 [arc_dst]: samples of linspace(a, 2 pi, N+2) without its
    two end points, dst type 1, divided by N+1. *)
Definition arc_dst (a : R) (func : R -> C) (N : nat) (m : Z) : C :=
  let th := fun l : Z => (a + (2 * PI - a) / (INR N + 1) * (IZR l + 1))%R in
  Cdiv (dst1 N (fun l => func (th l)) m) (RtoC (INR N + 1)).
