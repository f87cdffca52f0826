(** problems/singular.py, problems/functions.py and the default evaluators of
    problems/problem.py. *)
From Coq Require Import String ZArith List Bool Reals.
From Coquelicot Require Import Coquelicot.
From Verif Require Import Model_Py Model_Grid Model_Fourier Model_Domain Model_Abcoef.
Import ListNotations.
Open Scope R_scope.

(** problems/singular.py:27 [m_max]. *)
Definition sk_m_max : nat := 300.

(** problems/singular.py:37 [fft_b_coef]; [n] is arc_dst's default 2048, [M]
    is m_max. *)
Definition sk_b_coef (to_dst : R -> C) (a : R) (n M : nat) : list C :=
  map (fun m => arc_dst a to_dst n (Z.of_nat m)) (seq 0 M).

(** problems/singular.py:29-39 [SingularKnown.__init__]: fft_a_coef. Without a
    to_dst argument the data are zero (line 35). *)
Definition sk_a_coef (jv : R -> R -> R) (to_dst : option (R -> C)) (a k R0 nu : R) (n M : nat)
  : result (list C) :=
  let f := match to_dst with Some f => f | None => fun _ => RtoC 0 end in
  b_to_a jv (sk_b_coef f a n M) k R0 nu.

(** problems/singular.py:42-53 [eval_expected_polar]; [no_w] is
    eval_expected__no_w (55-60), 0 unless overridden. *)
Definition sk_expected (jv : R -> R -> R) (no_w : R -> R -> C) (a_coef : list C) (k a nu : R)
    (M : nat) (r th : R) : C :=
  fold_left (fun u m => Cplus u (Cmult (nth (m - 1) a_coef (RtoC 0))
      (RtoC (jv (INR m * nu) (k * r) * sin (INR m * nu * (th - a))))))
    (seq 1 M) (no_w r th).

(** problems/functions.py:6-15 [eval_hat_x]. *)
Definition hat_x (x : R) : R :=
  if (Rltb (Rabs (Rabs x - 1)) (/ 10 ^ 15) || Rltb 1 (Rabs x))%bool then 0
  else exp (-1 / (1 - x ^ 2)).

(** problems/functions.py:17-24 [eval_hat_th]; [a] is PizzaProblem.a. *)
Definition hat_th (a th : R) : R := hat_x ((2 * th - (2 * PI + a)) / (2 * PI - a)).

(** problems/functions.py:26-27 [eval_parabola]. *)
Definition parabola (th a : R) : R := - (th - a) * (th - 2 * PI).

(** problems/functions.py:29-30 [eval_linesine]. *)
Definition linesine (jv : R -> R -> R) (th k R0 a nu : R) : R :=
  jv (nu / 2) (k * R0) * ((th - a) / (2 * PI - a) - sin (nu / 2 * (th - a))).

(** The methods of a problem that a subclass may override (problems/problem.py:
    18-44): None means that the inherited method is used. *)
Record evaluators := {
  ev_homogeneous : bool; ev_a : R;
  ev_expected : option (R -> R -> C); ev_expected_polar : option (R -> R -> C);
  ev_f : option (R -> R -> C); ev_f_polar : option (R -> R -> C)
}.

(** problems/problem.py:18-24 [eval_expected] and 26-30 [eval_expected_polar],
    which call each other unless overridden; Python's recursion limit is
    [fuel]. *)
Fixpoint pb_expected (fuel : nat) (p : evaluators) (x y : R) : result C :=
  match fuel with
  | O => Err OutOfFuel
  | S fuel' =>
      match ev_expected p with
      | Some f => Ok (f x y)
      | None =>
          let '(r, th) := cart_to_polar x y in
          let th := if Rltb th (ev_a p / 2) then th + 2 * PI else th in
          match ev_expected_polar p with
          | Some f => Ok (f r th)
          | None => pb_expected fuel' p (r * cos th) (r * sin th)
          end
      end
  end.

(** problems/problem.py:26-30 [eval_expected_polar]. *)
Definition pb_expected_polar (fuel : nat) (p : evaluators) (r th : R) : result C :=
  match ev_expected_polar p with
  | Some f => Ok (f r th)
  | None => pb_expected fuel p (r * cos th) (r * sin th)
  end.

(** problems/problem.py:32-36 [eval_f] and 38-44 [eval_f_polar]. *)
Fixpoint pb_f (fuel : nat) (p : evaluators) (x y : R) : result C :=
  match fuel with
  | O => Err OutOfFuel
  | S fuel' =>
      match ev_f p with
      | Some f => Ok (f x y)
      | None =>
          if ev_homogeneous p then Ok (RtoC 0)
          else
            let '(r, th) := cart_to_polar x y in
            match ev_f_polar p with
            | Some f => Ok (f r th)
            | None => pb_f fuel' p (r * cos th) (r * sin th)
            end
      end
  end.

(** problems/problem.py:38-44 [eval_f_polar]. *)
Definition pb_f_polar (fuel : nat) (p : evaluators) (r th : R) : result C :=
  match ev_f_polar p with
  | Some f => Ok (f r th)
  | None => if ev_homogeneous p then Ok (RtoC 0) else pb_f fuel p (r * cos th) (r * sin th)
  end.
