(** chebyshev.py and ps/basis.py. *)
From Coq Require Import ZArith List Bool Reals.
From Coquelicot Require Import Complex.
From Verif Require Import Model_Py.
Import ListNotations.
Open Scope R_scope.

(** chebyshev.py:9-11 [eval_T]; degrees are natural numbers. *)
Definition eval_T (J : nat) (t : R) : R := cos (INR J * acos t).

(** chebyshev.py:13-15. Python's [x**(p/2)] for a float exponent is
    [Rpower x (p/2)], which agrees with it for x > 0. *)
Definition eval_d_T_t (J : nat) (t : R) : R :=
  let J := INR J in
  J * sin (J * acos t) / sqrt (- t ^ 2 + 1).

(** chebyshev.py:17-18. *)
Definition eval_d2_T_t (J : nat) (t : R) : R :=
  let J := INR J in
  J * (J * cos (J * acos t) / (t ^ 2 - 1)
       + t * sin (J * acos t) / Rpower (- t ^ 2 + 1) (3 / 2)).

(** chebyshev.py:20-21. *)
Definition eval_d3_T_t (J : nat) (t : R) : R :=
  let J := INR J in
  J * (- J ^ 2 * sin (J * acos t) / Rpower (- t ^ 2 + 1) (3 / 2)
       - 3 * J * t * cos (J * acos t) / (t ^ 2 - 1) ^ 2
       + 3 * t ^ 2 * sin (J * acos t) / Rpower (- t ^ 2 + 1) (5 / 2)
       + sin (J * acos t) / Rpower (- t ^ 2 + 1) (3 / 2)).

(** chebyshev.py:23-24. *)
Definition eval_d4_T_t (J : nat) (t : R) : R :=
  let J := INR J in
  J * (J ^ 3 * cos (J * acos t) / (t ^ 2 - 1) ^ 2
       - 4 * J ^ 2 * t * sin (J * acos t) / (sqrt (- t ^ 2 + 1) * (t ^ 2 - 1) ^ 2)
       + J ^ 2 * t * sin (J * acos t) / (Rpower (- t ^ 2 + 1) (3 / 2) * (t ^ 2 - 1))
       - J ^ 2 * t * sin (J * acos t) / Rpower (- t ^ 2 + 1) (5 / 2)
       + 15 * J * t ^ 2 * cos (J * acos t) / (t ^ 2 - 1) ^ 3
       - 4 * J * cos (J * acos t) / (t ^ 2 - 1) ^ 2
       + 15 * t ^ 3 * sin (J * acos t) / Rpower (- t ^ 2 + 1) (7 / 2)
       + 9 * t * sin (J * acos t) / Rpower (- t ^ 2 + 1) (5 / 2)).

(** chebyshev.py:26-27. *)
Definition eval_d5_T_t (J : nat) (t : R) : R :=
  let J := INR J in
  J * (J ^ 4 * sin (J * acos t) / Rpower (- t ^ 2 + 1) (5 / 2)
       - 10 * J ^ 3 * t * cos (J * acos t) / (t ^ 2 - 1) ^ 3
       - 45 * J ^ 2 * t ^ 2 * sin (J * acos t) / Rpower (- t ^ 2 + 1) (7 / 2)
       - 10 * J ^ 2 * sin (J * acos t) / Rpower (- t ^ 2 + 1) (5 / 2)
       - 105 * J * t ^ 3 * cos (J * acos t) / (t ^ 2 - 1) ^ 4
       + 55 * J * t * cos (J * acos t) / (t ^ 2 - 1) ^ 3
       + 105 * t ^ 4 * sin (J * acos t) / Rpower (- t ^ 2 + 1) (9 / 2)
       + 90 * t ^ 2 * sin (J * acos t) / Rpower (- t ^ 2 + 1) (7 / 2)
       + 9 * sin (J * acos t) / Rpower (- t ^ 2 + 1) (5 / 2)).

(** chebyshev.py:30-37 [derivs], [eval_dn_T_t]; IndexError past the tuple. *)
Definition eval_dn_T_t (n : nat) (J : nat) (t : R) : result R :=
  match n with
  | 0%nat => Ok (eval_T J t)
  | 1%nat => Ok (eval_d_T_t J t)
  | 2%nat => Ok (eval_d2_T_t J t)
  | 3%nat => Ok (eval_d3_T_t J t)
  | 4%nat => Ok (eval_d4_T_t J t)
  | 5%nat => Ok (eval_d5_T_t J t)
  | _ => Err IndexError
  end.

(** chebyshev.py:39-41 [get_chebyshev_roots]: [l] runs over range(J, 0, -1). *)
Definition get_chebyshev_roots (J : nat) : list R :=
  map (fun l => cos (PI / 2 * (2 * INR l - 1) / INR J)) (rev (seq 1 J)).

(** ps/basis.py:41-51, the descriptors appended for one segment; [JJ] is the
    running counter, the result the new entries (sid, J) and the segment's
    JJ_list. *)
Fixpoint segment_loop (sid : nat) (J n JJ : nat) : list (nat * nat) * list nat :=
  match n with
  | O => ([], [])
  | S n' =>
      let '(b, jjs) := segment_loop sid (S J) n' (S JJ) in
      ((sid, J) :: b, JJ :: jjs)
  end.

(** ps/basis.py:36-51, the loop over segments given their basis sizes. *)
Fixpoint setup_loop (sid : nat) (sizes : list nat) (JJ : nat)
  : list (nat * nat) * list (nat * list nat) :=
  match sizes with
  | [] => ([], [])
  | n :: sizes' =>
      let '(b, jjs) := segment_loop sid 0 n JJ in
      let '(B, segs) := setup_loop (S sid) sizes' (JJ + n)%nat in
      (b ++ B, (n, jjs) :: segs)
  end.

(** ps/basis.py:26-51 [setup_basis]: (B_desc, segment_desc), B_desc entries
    being (sid, J) and segment_desc entries (n_basis, JJ_list). *)
Definition setup_basis (n_circle n_radius : nat)
  : list (nat * nat) * list (nat * list nat) :=
  setup_loop 0 [n_circle; n_radius; n_radius] 0.

(** ps/basis.py:15. *)
Definition basis_eps : R := 1 / 1000.

(** ps/basis.py:53-66 [get_span_center]. A sid outside {0,1,2} raises
    UnboundLocalError in Python; it is not reachable (loops over range(3)) and
    returns (0, 0) here. *)
Definition get_span_center (R0 a : R) (sid : nat) : R * R :=
  match sid with
  | 0%nat => (PI - / 2 * a + basis_eps, PI + / 2 * a)
  | 1%nat => (- (R0 / 2 + basis_eps), R0 / 2)
  | 2%nat => (R0 / 2 + basis_eps, R0 / 2)
  | _ => (0, 0)
  end.

(** ps/basis.py:68-70. *)
Definition eval_g (R0 a : R) (sid : nat) (t : R) : R :=
  let '(span, center) := get_span_center R0 a sid in span * t + center.

(** ps/basis.py:72-74. *)
Definition eval_g_inv (R0 a : R) (sid : nat) (arg : R) : R :=
  let '(span, center) := get_span_center R0 a sid in (arg - center) / span.

(** ps/basis.py:76-78. *)
Definition eval_d_g_inv_arg (R0 a : R) (sid : nat) : R :=
  let '(span, center) := get_span_center R0 a sid in 1 / span.

(** ps/basis.py:80-89 [eval_dn_B_arg]. *)
Definition eval_dn_B_arg (R0 a : R) (B_desc : list (nat * nat))
    (n JJ : nat) (arg : R) (sid : nat) : result R :=
  d <- list_get B_desc JJ;;
  if Nat.eqb (fst d) sid then
    let t := eval_g_inv R0 a sid arg in
    v <- eval_dn_T_t n (snd d) t;;
    Ok (eval_d_g_inv_arg R0 a sid ^ n * v)
  else Ok 0.

(** ps/basis.py:24. *)
Definition n_chebyshev_nodes : Z := 1024.

(** ps/basis.py:91-111 [get_chebyshev_coef]: sample the function at the images
    of the nodes and call numpy's chebfit. [chebfit t y deg] is an oracle for
    numpy.polynomial.chebyshev.chebfit; it raises ValueError for deg < 0. *)
Definition get_chebyshev_coef (chebfit : list R -> list C -> nat -> list C)
    (nodes : list R) (R0 a : R) (sid n_basis : nat) (func : R -> C)
  : result (list C) :=
  let data := map (fun t => func (eval_g R0 a sid t)) nodes in
  match n_basis with
  | O => Err ValueError
  | S deg => Ok (chebfit nodes data deg)
  end.

(** ps/basis.py:114-128 [calc_c0]: concatenated fits of the three segments;
    [eval_bc arg sid] is the problem's Dirichlet data. The closure over [sid]
    is called before [sid] changes. *)
Definition calc_c0 (chebfit : list R -> list C -> nat -> list C)
    (nodes : list R) (R0 a : R) (segment_desc : list (nat * list nat))
    (eval_bc : R -> nat -> C) : result (list C) :=
  let fit sid :=
    d <- list_get segment_desc sid;;
    get_chebyshev_coef chebfit nodes R0 a sid (fst d) (fun arg => eval_bc arg sid) in
  c_0 <- fit 0%nat;;
  c_1 <- fit 1%nat;;
  c_2 <- fit 2%nat;;
  Ok (c_0 ++ c_1 ++ c_2).
