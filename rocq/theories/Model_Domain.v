(** domain_util.py, problems/boundary.py, the geometric part of ps/ps.py,
    ps/extend.py:28-71 and ps/grid.py:179-264 (attribution to segments). *)
From Coq Require Import ZArith List Bool Reals.
From Coquelicot Require Import Coquelicot.
From Verif Require Import Model_Py Model_Multivalue Model_Grid.
Import ListNotations.
Open Scope R_scope.

(** Python's [<], [<=], [==] on floats (domain_util.py:10, ps/ps.py:77, 84);
    exact reals, no NaN. *)
Definition Rltb (x y : R) : bool := if Rlt_dec x y then true else false.
(** Python's [<=] on floats (domain_util.py:10). *)
Definition Rleb (x y : R) : bool := if Rle_dec x y then true else false.
(** Python's [==] on floats (ps/ps.py:84). *)
Definition Reqb (x y : R) : bool := if Req_EM_T x y then true else false.

(** math.hypot, used in domain_util.py:8. *)
Definition hypot (x y : R) : R := sqrt (x ^ 2 + y ^ 2).

(** math.atan2, used in domain_util.py:8; value in (-pi, pi]. Signed zeros are
    not modelled (atan2(-0.0, -1.0) would be -pi). *)
Definition atan2 (y x : R) : R :=
  if Rltb 0 x then atan (y / x)
  else if Rltb x 0 then (if Rleb 0 y then atan (y / x) + PI else atan (y / x) - PI)
  else if Rltb 0 y then PI / 2
  else if Rltb y 0 then - (PI / 2)
  else 0.

(** domain_util.py:4-13 [cart_to_polar]. *)
Definition cart_to_polar (x y : R) : R * R :=
  let r := hypot x y in
  let th := atan2 y x in
  let th := if Rleb th 0 then th + 2 * PI else th in
  (r, th).

(** domain_util.py:15-33 [wrap_func]. *)
Definition wrap_func (a arg : R) (sid : nat) : R * nat :=
  if Nat.eqb sid 0 && Rltb arg (a / 2) then (arg + 2 * PI, sid)
  else if Nat.eqb sid 1 && Rltb arg 0 then (- arg, 2%nat)
  else if Nat.eqb sid 2 && Rltb arg 0 then (- arg, 1%nat)
  else (arg, sid).

(** domain_util.py:36-51 [arg_to_polar_abs]; None for another sid (the Python
    function falls off the end). *)
Definition arg_to_polar_abs (eval_r : R -> R) (a arg : R) (sid : nat) : option (R * R) :=
  match sid with
  | 0%nat => Some (eval_r arg, arg)
  | 1%nat => Some (if Rleb 0 arg then (arg, 2 * PI) else (- arg, PI))
  | 2%nat => Some (if Rleb 0 arg then (arg, a) else (- arg, PI + a))
  | _ => None
  end.

(** domain_util.py:53-62 [arg_to_polar]. *)
Definition arg_to_polar (eval_r : R -> R) (a arg : R) (sid : nat) : option (R * R) :=
  match sid with
  | 0%nat => Some (eval_r arg, arg)
  | 1%nat => Some (arg, 2 * PI)
  | 2%nat => Some (arg, a)
  | _ => None
  end.

(** domain_util.py:69, the tolerance 1e-12. *)
Definition sid_tol : R := / 10 ^ 12.

(** domain_util.py:64-76 [get_sid]; None when the function falls off the end. *)
Definition get_sid (a th : R) : option nat :=
  if Rleb (2 * PI) th then Some 1%nat
  else if Rltb a th then Some 0%nat
  else if Rltb (Rabs (th - a)) sid_tol then Some 2%nat
  else None.

(** ps/ps.py:79-94 [get_radius_point] for sid 2 (the assertion on sid is a
    constant at every call site). The warning print is dropped. *)
Definition get_radius_point (a x y : R) : R * R :=
  if Reqb a (PI / 2) then (0, y)
  else
    let m := tan a in
    let x1 := (x / m + y) / (m + 1 / m) in
    let y1 := m * x1 in
    (x1, y1).

(** ps/ps.py:96-99. *)
Definition dist_to_radius (a x y : R) : R :=
  let '(x1, y1) := get_radius_point a x y in
  sqrt ((x1 - x) ^ 2 + (y1 - y) ^ 2).

(** ps/ps.py:101-108. *)
Definition signed_dist_to_radius (a x y : R) : R :=
  let unsigned := dist_to_radius a x y in
  let '(x1, y1) := get_radius_point a x y in
  if Rltb x x1 then - unsigned else unsigned.

(** ps/ps.py:110-115 [get_polar] on top of solver.py:44-49, as a function of
    the node's Cartesian coordinates. *)
Definition ps_polar_xy (a x y : R) : R * R :=
  let '(r, th) := cart_to_polar x y in
  (r, if Rltb th (a / 2) then th + 2 * PI else th).

(** ps/ps.py:110-115. *)
Definition ps_get_polar (a AD_len : R) (N : Z) (i j : Z) : R * R :=
  let '(x, y) := get_coord AD_len N i j in ps_polar_xy a x y.

(** ps/ps.py:74-77 [is_interior], as a function of Cartesian coordinates. *)
Definition interior_xy (eval_r : R -> R) (a x y : R) : bool :=
  let '(r, th) := ps_polar_xy a x y in
  let rb := eval_r th in
  Rleb r rb && Rleb a th && Rleb th (2 * PI).

(** ps/ps.py:74-77. *)
Definition ps_is_interior (eval_r : R -> R) (a AD_len : R) (N : Z) (i j : Z) : bool :=
  let '(x, y) := get_coord AD_len N i j in interior_xy eval_r a x y.

(** problems/boundary.py:51, and 35-107 [do_algebra] in general. The expression r(th) is a
    function; sympy.diff is Coquelicot's total [Derive] (theorems assume the
    derivatives exist); lambdify/subs are application. *)
Definition b_d_r (r : R -> R) : R -> R := Derive r.
(** problems/boundary.py:52. *)
Definition b_d2_r (r : R -> R) : R -> R := Derive (b_d_r r).
(** problems/boundary.py:54, 56, 62. *)
Definition b_d_x (r : R -> R) : R -> R := Derive (fun th => r th * cos th).
(** problems/boundary.py:55, 57, 63. *)
Definition b_d_y (r : R -> R) : R -> R := Derive (fun th => r th * sin th).
(** problems/boundary.py:68. *)
Definition b_d_s (r : R -> R) (th : R) : R := sqrt (r th ^ 2 + b_d_r r th ^ 2).
(** problems/boundary.py:69. *)
Definition b_d2_s (r : R -> R) : R -> R := Derive (b_d_s r).
(** problems/boundary.py:70. *)
Definition b_d3_s (r : R -> R) : R -> R := Derive (b_d2_s r).
(** problems/boundary.py:71. *)
Definition b_d4_s (r : R -> R) : R -> R := Derive (b_d3_s r).

(** problems/boundary.py:75, as a function of the value of ds/dth. *)
Definition f_d_th_s (d_s : R) : R := 1 / d_s.
(** problems/boundary.py:76. *)
Definition f_d2_th_s (d2_s d_th : R) : R := - d2_s * d_th ^ 3.
(** problems/boundary.py:77-79. *)
Definition f_d3_th_s (d2_s d3_s d_th d2_th : R) : R :=
  - d3_s * d_th ^ 4 - 3 * d2_s * d2_th * d_th ^ 2.
(** problems/boundary.py:80-87. *)
Definition f_d4_th_s (d2_s d3_s d4_s d_th d2_th d3_th : R) : R :=
  - d4_s * d_th ^ 5 - 4 * d3_s * d_th ^ 3 * d2_th
  - 3 * ((d3_s * d_th * d2_th + d2_s * d3_th) * d_th ^ 2 + 2 * d2_s * d2_th ^ 2 * d_th).

(** problems/boundary.py:89 [eval_d_th_s]. *)
Definition b_d_th (r : R -> R) (th : R) : R := f_d_th_s (b_d_s r th).
(** problems/boundary.py:90 [eval_d2_th_s]. *)
Definition b_d2_th (r : R -> R) (th : R) : R := f_d2_th_s (b_d2_s r th) (b_d_th r th).
(** problems/boundary.py:91 [eval_d3_th_s]. *)
Definition b_d3_th (r : R -> R) (th : R) : R :=
  f_d3_th_s (b_d2_s r th) (b_d3_s r th) (b_d_th r th) (b_d2_th r th).
(** problems/boundary.py:92 [eval_d4_th_s]. *)
Definition b_d4_th (r : R -> R) (th : R) : R :=
  f_d4_th_s (b_d2_s r th) (b_d3_s r th) (b_d4_s r th) (b_d_th r th) (b_d2_th r th) (b_d3_th r th).

(** problems/boundary.py:100, 105 (eval_curv); the float power 3/2 is [Rpower]. *)
Definition b_curv (r : R -> R) (th : R) : R :=
  - (r th ^ 2 + 2 * b_d_r r th ^ 2 - r th * b_d2_r r th)
    / Rpower (r th ^ 2 + b_d_r r th ^ 2) (3 / 2).
(** problems/boundary.py:102. *)
Definition b_d_curv (r : R -> R) : R -> R := Derive (b_curv r).
(** problems/boundary.py:103. *)
Definition b_d2_curv (r : R -> R) : R -> R := Derive (b_d_curv r).

(** problems/boundary.py:109-111 [eval_tangent]. A zero tangent would divide
    by zero in numpy (nan); excluded in the theorems. *)
Definition eval_tangent (r : R -> R) (th : R) : R * R :=
  let tx := b_d_x r th in let ty := b_d_y r th in
  let nrm := sqrt (tx ^ 2 + ty ^ 2) in
  (tx / nrm, ty / nrm).

(** problems/boundary.py:113-115 [eval_normal]. *)
Definition eval_normal (r : R -> R) (th : R) : R * R :=
  let '(t0, t1) := eval_tangent r th in (t1, - t0).

(** problems/boundary.py:126-136 [eval_dist_deriv]. *)
Definition eval_dist_deriv (r : R -> R) (x1 y1 th : R) : R :=
  let rv := r th in
  let dr := b_d_r r th in
  let x0 := rv * cos th in
  let y0 := rv * sin th in
  (x1 - x0) * (- dr * cos th + rv * sin th) + (y1 - y0) * (- dr * sin th - rv * cos th).

(** problems/boundary.py:138-144, lower end of the search interval. *)
Definition search_lo (a th1 : R) : R :=
  let lbound := th1 - PI / 7 in if Rltb lbound (a / 2) then a / 2 else lbound.
(** problems/boundary.py:146-148, upper end of the search interval. *)
Definition search_hi (a th1 : R) : R :=
  let ubound := th1 + PI / 7 in
  if Rltb (2 * PI + a / 2) ubound then 2 * PI + a / 2 else ubound.

(** problems/boundary.py:117-169 [get_boundary_coord]. [brentq f lo hi] is the
    root finder: None models its ValueError, on which the code returns None. *)
Definition get_boundary_coord (brentq : (R -> R) -> R -> R -> option R)
    (r : R -> R) (a r1 th1 : R) : option (R * R) :=
  let x1 := r1 * cos th1 in
  let y1 := r1 * sin th1 in
  match brentq (eval_dist_deriv r x1 y1) (search_lo a th1) (search_hi a th1) with
  | None => None
  | Some th0 =>
      let rv := r th0 in
      let x0 := rv * cos th0 in
      let y0 := rv * sin th0 in
      let n := sqrt ((x1 - x0) ^ 2 + (y1 - y0) ^ 2) in
      let '(n0, n1) := eval_normal r th0 in
      let n := if Rltb (n0 * (x1 - x0) + n1 * (y1 - y0)) 0 then - n else n in
      Some (n, th0)
  end.

(** problems/boundary.py:171-174, [r_expr_str] of Arc. *)
Definition r_arc (R0 : R) : R -> R := fun _ => R0.
(** problems/boundary.py:176-179, [r_expr_str] of OuterSine. *)
Definition r_outer_sine (R0 bet nu a : R) : R -> R := fun th => R0 + bet * sin (nu * (th - a)).
(** problems/boundary.py:181-184, [r_expr_str] of InnerSine. *)
Definition r_inner_sine (R0 bet nu a : R) : R -> R := fun th => R0 - bet * sin (nu * (th - a)).
(** problems/boundary.py:186-189, [r_expr_str] of Sine7. *)
Definition r_sine7 (R0 bet nu a : R) : R -> R := fun th => R0 + bet * sin (7 * nu * (th - a)).
(** problems/boundary.py:192 [cubic_C]. *)
Definition cubic_C : R := (91 * sqrt 91 - 136) * PI ^ 3 / 2916.
(** problems/boundary.py:194-196, [r_expr_str] of Cubic. *)
Definition r_cubic (R0 bet a : R) : R -> R :=
  fun th => R0 + bet / cubic_C * (th - a) * (th - PI) * (th - 2 * PI).

(** ps/extend.py:28-71 [get_etype] given the boundary coordinates of the node
    for sid 0 ([bc] is None when get_boundary_coord returned None). *)
Definition etype_of (R0 a : R) (bc : option (R * R)) (sid : nat) (x y : R) : EType :=
  match sid with
  | 0%nat =>
      match bc with
      | None => ERight
      | Some (n, th) =>
          if Rltb (2 * PI) th then ERight else if Rltb th a then ELeft else EStandard
      end
  | 1%nat => if Rltb x 0 then ELeft else if Rltb R0 x then ERight else EStandard
  | _ =>
      let '(x1, y1) := get_radius_point a x y in
      if Rltb y1 0 then ELeft else if Rltb (R0 * sin a) y1 then ERight else EStandard
  end.

(** ps/grid.py:201-202 [dformula]. *)
Definition dformula (x0 y0 x y : R) : R := sqrt ((x0 - x) ^ 2 + (y0 - y) ^ 2).

(** ps/grid.py:200-245 [get_dist]. Unpacking None for (0, standard) would
    raise TypeError; etype_of never returns standard for None. *)
Definition get_dist (R0 a : R) (bc : option (R * R)) (sid : nat) (e : EType) (x y : R) : result R :=
  match sid, e with
  | 0%nat, EStandard =>
      match bc with Some (n, th) => Ok (Rabs n) | None => Err TypeError end
  | 0%nat, ELeft => Ok (dformula (R0 * cos a) (R0 * sin a) x y)
  | 0%nat, ERight => Ok (dformula R0 0 x y)
  | 1%nat, EStandard => Ok (Rabs y)
  | 1%nat, ELeft => Ok (dformula 0 0 x y)
  | 1%nat, ERight => Ok (dformula R0 0 x y)
  | _, EStandard => Ok (dist_to_radius a x y)
  | _, ELeft => Ok (dformula 0 0 x y)
  | _, ERight => Ok (dformula (R0 * cos a) (R0 * sin a) x y)
  end.

(** ps/grid.py:251-260, one segment's test for one node: is the node appended
    to all_gamma[sid]? [bcoord] is boundary.get_boundary_coord(get_polar(node)),
    the cache being empty during construction (ps/ps.py:51-52). *)
Definition seg_claims (R0 a AD_len : R) (N : Z) (bcoord : node -> option (R * R))
    (sid : nat) (p : node) : result bool :=
  let '(x, y) := get_coord AD_len N (fst p) (snd p) in
  let bc := bcoord p in
  let e := etype_of R0 a bc sid x y in
  d <- get_dist R0 a bc sid e x y;;
  let h := AD_len / IZR N in
  Ok (Rleb d (h * sqrt 2)).

(** ps/grid.py:249-264, the loop attributing nodes; the three lists are
    all_gamma[0..2] accumulated so far, [assert placed] raises. *)
Fixpoint place_loop (R0 a AD_len : R) (N : Z) (bcoord : node -> option (R * R))
    (todo : list node) (g : list node * list node * list node)
  : result (list node * list node * list node) :=
  match todo with
  | [] => Ok g
  | p :: todo' =>
      let '(g0, g1, g2) := g in
      b0 <- seg_claims R0 a AD_len N bcoord 0 p;;
      b1 <- seg_claims R0 a AD_len N bcoord 1 p;;
      b2 <- seg_claims R0 a AD_len N bcoord 2 p;;
      if b0 || b1 || b2 then
        place_loop R0 a AD_len N bcoord todo'
          (if b0 then g0 ++ [p] else g0, if b1 then g1 ++ [p] else g1,
           if b2 then g2 ++ [p] else g2)
      else Err AssertionError
  end.

(** ps/grid.py:247-264 [all_gamma]. *)
Definition all_gamma (R0 a AD_len : R) (N : Z) (bcoord : node -> option (R * R))
    (union_gamma : list node) : result (list node * list node * list node) :=
  place_loop R0 a AD_len N bcoord union_gamma ([], [], []).

(** ps/ps.py:117-122 [get_boundary_coord] of a node. *)
Definition node_bcoord (brentq : (R -> R) -> R -> R -> option R) (r : R -> R)
    (a AD_len : R) (N : Z) (p : node) : option (R * R) :=
  let '(r1, th1) := ps_get_polar a AD_len N (fst p) (snd p) in
  get_boundary_coord brentq r a r1 th1.

(** ps/ps.py:124-131 [build_boundary_coord_cache]: a dict keyed by the nodes
    of all_gamma[0]; looking up another node raises KeyError. A value None
    (get_boundary_coord failed) is unpacked by the readers: TypeError. *)
Definition cache_get (bcoord : node -> option (R * R)) (gamma0 : list node) (p : node)
  : result (R * R) :=
  if node_mem p gamma0 then
    match bcoord p with Some c => Ok c | None => Err TypeError end
  else Err KeyError.
