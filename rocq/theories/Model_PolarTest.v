(** The convergence test of the polar finite differences: scripts/polarfd/sym.py,
    scripts/polarfd/test.py, and the interpolation test
    scripts/zmethod/interp_test.py. *)
From Coq Require Import ZArith List Bool Reals.
From Coquelicot Require Import Coquelicot.
From Verif Require Import Model_Py Model_Driver Model_ZMethod.
Import ListNotations.
Open Scope R_scope.

(** scripts/polarfd/sym.py:4-5 [do_lapacian]; sympy.diff is [diff_r], [diff_th]. *)
Definition do_lapacian (k : R) (u : R -> R -> R) (r th : R) : R :=
  diff_r (diff_r u) r th + diff_r u r th / r + diff_th (diff_th u) r th / r ^ 2 + k ^ 2 * u r th.

(** scripts/polarfd/sym.py:7 [_k]; scripts/polarfd/test.py:13 [k]. *)
Definition sym_k : R := 3.
(** scripts/polarfd/sym.py:9 and scripts/polarfd/test.py:15 [a]. *)
Definition sym_a : R := PI / 6.
(** scripts/polarfd/sym.py:10 and scripts/polarfd/test.py:16 [nu]. *)
Definition sym_nu : R := PI / (2 * PI - sym_a).

(** scripts/polarfd/sym.py:13-20 [v_asympt0] as a function of the symbols k and
    r. [gamma] is scipy.special.gamma (line 28); the float 3/11 of line 17 is
    the exact quotient; the power of line 20 is [Rpower] (theorems assume
    r > 0). *)
Definition sym_v_asympt0 (gamma : R -> R) (k r : R) : R :=
  let kr2 := k * r / 2 in
  fold_left (fun acc l =>
    let x := 3 / 11 + INR l + 1 in
    acc + (-1) ^ l / (INR (fact l) * gamma x) * kr2 ^ (2 * l)) (seq 0 3) 0
  * Rpower kr2 (3 / 11).

(** scripts/polarfd/sym.py:22 [v_asympt]. *)
Definition sym_v_asympt (gamma : R -> R) (k r th : R) : R :=
  sym_v_asympt0 gamma k r * sin (sym_nu / 2 * (th - sym_a)).

(** scripts/polarfd/sym.py:32 [eval_v_asympt]. *)
Definition eval_v_asympt (gamma : R -> R) (r th : R) : R := sym_v_asympt gamma sym_k r th.
(** scripts/polarfd/sym.py:24-25, 33 [eval_f]. *)
Definition sym_f (gamma : R -> R) (r th : R) : R := - do_lapacian sym_k (sym_v_asympt gamma sym_k) r th.
(** scripts/polarfd/sym.py:34 [eval_d_f_r]. *)
Definition sym_d_f_r (gamma : R -> R) : R -> R -> R := diff_r (sym_f gamma).
(** scripts/polarfd/sym.py:35 [eval_d2_f_r]. *)
Definition sym_d2_f_r (gamma : R -> R) : R -> R -> R := diff_r (diff_r (sym_f gamma)).
(** scripts/polarfd/sym.py:36 [eval_d2_f_th]. *)
Definition sym_d2_f_th (gamma : R -> R) : R -> R -> R := diff_th (diff_th (sym_f gamma)).

(** scripts/polarfd/test.py:18-19 [eval_u]; [jv] is scipy.special.jv. *)
Definition test_eval_u (jv : R -> R -> R) (gamma : R -> R) (r th : R) : R :=
  jv (sym_nu / 2) (sym_k * r) * sin (sym_nu / 2 * (th - sym_a)) - eval_v_asympt gamma r th.
(** scripts/polarfd/test.py:36 [R1]. *)
Definition test_R1 : R := 23 / 10.
(** scripts/polarfd/test.py:38-39 [eval_phi0]. *)
Definition test_phi0 (jv : R -> R -> R) (gamma : R -> R) (th : R) : R := test_eval_u jv gamma test_R1 th.
(** scripts/polarfd/test.py:41-42 [eval_phi1]. *)
Definition test_phi1 (jv : R -> R -> R) (gamma : R -> R) (r : R) : R := test_eval_u jv gamma r (2 * PI).
(** scripts/polarfd/test.py:44-45 [eval_phi2]. *)
Definition test_phi2 (jv : R -> R -> R) (gamma : R -> R) (r : R) : R := test_eval_u jv gamma r sym_a.

(** ps/polarfd.py:9 [PolarFD.__init__], the binding of positional arguments
    only: five are required. *)
Definition polarfd_init {A : Type} (args : list A) : result (list A) :=
  if Nat.eqb (length args) 5 then Ok args else Err TypeError.

(** scripts/polarfd/test.py:21-34, 64-95, the loop over [get_N_list 16 128] (the
    function of run.py:14-25): the values of N whose header was printed, and
    the outcome. [init] is the constructor called in line 66, without arguments;
    [body] is everything after it, for the object built there. *)
Fixpoint polar_test_loop (init : list R -> result (list R)) (body : Z -> list R -> result unit) (Ns : list Z) : list Z * result unit :=
  match Ns with
  | [] => ([], Ok tt)
  | N :: Ns =>
      match init [] with
      | Err e => ([N], Err e)
      | Ok s =>
          match body N s with
          | Err e => ([N], Err e)
          | Ok _ => let '(l, r) := polar_test_loop init body Ns in (N :: l, r)
          end
      end
  end.

(** scripts/polarfd/test.py:34, 64-95. *)
Definition polar_test (init : list R -> result (list R)) (body : Z -> list R -> result unit) (fuel : nat) : list Z * result unit :=
  match get_N_list fuel 16 (Some 128%Z) with
  | Err e => ([], Err e)
  | Ok Ns => polar_test_loop init body Ns
  end.

(** scripts/zmethod/interp_test.py:13-16 and 30-64: the four grids, with the
    call of line 35 of the constructor [init]; [body] is everything after it. ZMethod (line 31) only
    stores its options (ps/zmethod.py:28-29). The result holds the values of N
    whose lines were printed (lines 55-62). *)
Fixpoint interp_test_loop (init : list R -> result (list R)) (body : Z -> list R -> result unit) (Ns : list Z) : list Z * result unit :=
  match Ns with
  | [] => ([], Ok tt)
  | N :: Ns =>
      match init [IZR N; sym_a; sym_nu; 23 / 10] with
      | Err e => ([], Err e)
      | Ok s =>
          match body N s with
          | Err e => ([], Err e)
          | Ok _ => let '(l, r) := interp_test_loop init body Ns in (N :: l, r)
          end
      end
  end.

(** scripts/zmethod/interp_test.py:30. *)
Definition interp_test (init : list R -> result (list R)) (body : Z -> list R -> result unit) : list Z * result unit :=
  interp_test_loop init body [16; 32; 64; 128]%Z.
