(** Python run-time conventions shared by every model file. *)
From Coq Require Import ZArith List Bool.
Import ListNotations.
Open Scope Z_scope.

(** Exceptions raised by the modelled code, as values. [OutOfFuel] is not a
    Python exception: it marks a [while] loop that was cut off by the model.
    Cites: ps/multivalue.py:28-29 (KeyError), 48 (IndexError), 50 and 100
    (AssertionError); ps/ps.py:144 (IndexError); problems/smooth.py:96
    (AttributeError); problems/__init__.py:10-13 (ImportError);
    solver.py:108 (ValueError of max([])); run.py:91 (TypeError). *)
Inductive py_error :=
| KeyError | IndexError | AssertionError | AttributeError
| ImportError | ValueError | TypeError | ZeroDivisionError | OutOfFuel.

(** Outcome of a Python call: returned value or raised exception.
    Cites: convention for every function of /repo that can raise, e.g.
    ps/multivalue.py:28-102. *)
Inductive result (A : Type) := Ok (a : A) | Err (e : py_error).
Arguments Ok {A} a.
Arguments Err {A} e.

(** Sequencing of statements that may raise (ps/multivalue.py:45-60 is the
    first use). *)
Definition bind {A B} (x : result A) (f : A -> result B) : result B :=
  match x with Ok a => f a | Err e => Err e end.
Notation "x <- a ;; b" := (bind a (fun x => b))
  (at level 61, a at next level, right associativity).

(** Python/numpy subscript normalisation for an axis of length [n]:
    negative indices count from the end, anything else raises IndexError.
    Cites: ps/ps.py:144 and 161 ([w[i-1, j-1]]). *)
Definition py_index (n i : Z) : result Z :=
  if (0 <=? i) && (i <? n) then Ok i
  else if (- n <=? i) && (i <? 0) then Ok (n + i)
  else Err IndexError.

(** Python's [range(a, b)] for integers (empty when [b <= a]).
    Cites: solver.py:54-57, fourier.py:26-27. *)
Definition py_range (a b : Z) : list Z :=
  map (fun n => a + Z.of_nat n) (seq 0 (Z.to_nat (b - a))).

(** [list[i]] for a non-negative index (ps/multivalue.py:47-48). *)
Definition list_get {A} (l : list A) (i : nat) : result A :=
  match nth_error l i with Some a => Ok a | None => Err IndexError end.
