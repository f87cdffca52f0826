(** ps/extend.py, ps/inhomo.py and ps/basis.py:131-135: extension of boundary
    data and of the source term to the discrete boundary. *)
From Coq Require Import ZArith List Bool Reals.
From Coquelicot Require Import Coquelicot.
From Verif Require Import Model_Py Model_Multivalue Model_Grid Model_Chebyshev
  Model_Domain Model_Ext.
Import ListNotations.
Open Scope R_scope.

(** What the extension methods read from the problem's source term
    (problems/problem.py and problems/sympy_problem.py:75-155): values,
    gradient, Hessian in Cartesian and polar arguments, polar derivatives. *)
Record source := mk_source {
  s_f : R -> R -> C;
  s_grad : R -> R -> C * C;
  s_hess : R -> R -> (C * C) * (C * C);
  s_f_polar : R -> R -> C;
  s_grad_polar : R -> R -> C * C;
  s_hess_polar : R -> R -> (C * C) * (C * C);
  s_d_f_r : R -> R -> C; s_d2_f_r : R -> R -> C;
  s_d_f_th : R -> R -> C; s_d2_f_th : R -> R -> C; s_d2_f_r_th : R -> R -> C }.

(** Attributes of the solver read by ps/extend.py:28-434 and
    ps/inhomo.py:10-456. [ec_bcoord] is boundary.get_boundary_coord at a node
    (ps/ps.py:117-122); the cache holds it on all_gamma[0]
    (ps/ps.py:124-131). *)
Record ext_ctx := mk_ctx {
  ec_k : R; ec_R : R; ec_a : R; ec_AD : R; ec_N : Z;
  ec_r : R -> R;
  ec_bcoord : node -> option (R * R);
  ec_union : list node;
  ec_gamma : nat -> list node;
  ec_B : list (nat * nat);
  ec_c0 : list C; ec_c1 : list C;
  ec_homogeneous : bool;
  ec_src : source }.

(** [self.get_coord(i, j)] (solver.py:28-34). *)
Definition ctx_coord (c : ext_ctx) (p : node) : R * R :=
  get_coord (ec_AD c) (ec_N c) (fst p) (snd p).

(** [self.boundary_coord_cache[(i, j)]] unpacked (ps/extend.py:279). *)
Definition ctx_cache (c : ext_ctx) (p : node) : result (R * R) :=
  cache_get (ec_bcoord c) (ec_gamma c 0) p.

(** ps/extend.py:28-71 [get_etype] after grid construction. A cached None is
    unpacked at line 36 (TypeError); an uncached node falls back to
    get_boundary_coord (39-47). *)
Definition node_etype (c : ext_ctx) (sid : nat) (p : node) : result EType :=
  let '(x, y) := ctx_coord c p in
  match sid with
  | 0%nat =>
      if node_mem p (ec_gamma c 0) then
        bc <- ctx_cache c p;; Ok (etype_of (ec_R c) (ec_a c) (Some bc) 0 x y)
      else Ok (etype_of (ec_R c) (ec_a c) (ec_bcoord c p) 0 x y)
  | _ => Ok (etype_of (ec_R c) (ec_a c) None sid x y)
  end.

(** The keyword arguments JJ, basis_index (ps/extend.py:106-124): full boundary
    data, or one basis function. *)
Inductive ext_src := SrcCoef | SrcBasis (JJ index : nat).

(** ps/extend.py:110, 123 [JJ_list]. *)
Definition src_JJs (c : ext_ctx) (s : ext_src) : list nat :=
  match s with
  | SrcCoef => seq 0 (length (ec_B c))
  | SrcBasis JJ _ => [JJ]
  end.

(** ps/extend.py:112-120, 124: [c[index][JJ]]. A basis_index other than 0, 1
    raises IndexError at line 113. *)
Definition src_coef (c : ext_ctx) (s : ext_src) (index JJ : nat) : result C :=
  match s with
  | SrcCoef =>
      match index with
      | 0%nat => list_get (ec_c0 c) JJ
      | 1%nat => list_get (ec_c1 c) JJ
      | _ => Err IndexError
      end
  | SrcBasis JJ' bi =>
      if Nat.ltb 1 bi then Err IndexError
      else if Nat.eqb JJ JJ' then Ok (if Nat.eqb index bi then RtoC 1 else RtoC 0)
      else Err KeyError
  end.

(** ps/extend.py:140-143, the inner loop; [acc] is [deriv]. *)
Fixpoint xi_loop (c : ext_ctx) (s : ext_src) (order index : nat) (arg : R) (sid : nat)
    (JJs : list nat) (acc : C) : result C :=
  match JJs with
  | [] => Ok acc
  | JJ :: JJs' =>
      b <- eval_dn_B_arg (ec_R c) (ec_a c) (ec_B c) order JJ arg sid;;
      x <- src_coef c s index JJ;;
      xi_loop c s order index arg sid JJs' (Cplus acc (Cmult x (RtoC b)))
  end.

(** ps/extend.py:126, a dict of derivatives keyed by (order, index).
    Simplification: the string keys of get_deriv_name (15-21) are identified
    with the pairs they encode, an injective renaming. *)
Definition xi_dict := list ((nat * nat) * C).

(** [derivs[name]], KeyError when it was not requested (ps/extend.py:79-85). *)
Fixpoint xi_get (d : xi_dict) (order index : nat) : result C :=
  match d with
  | [] => Err KeyError
  | ((o, i), v) :: d' =>
      if Nat.eqb o order && Nat.eqb i index then Ok v else xi_get d' order index
  end.

(** ps/extend.py:88-171 [_ext_calc_xi_derivs], [ext_calc_xi_derivs]. *)
Fixpoint calc_xi_derivs (c : ext_ctx) (s : ext_src) (types : list (nat * nat))
    (arg : R) (sid : nat) : result xi_dict :=
  match types with
  | [] => Ok []
  | (order, index) :: types' =>
      v <- xi_loop c s order index arg sid (src_JJs c s) (RtoC 0);;
      d <- calc_xi_derivs c s types' arg sid;;
      Ok (((order, index), v) :: d)
  end.

(** ps/extend.py:73-86 [extend_radius]. *)
Definition extend_radius (c : ext_ctx) (n : R) (d : xi_dict) : result C :=
  xi0 <- xi_get d 0 0;;
  xi1 <- xi_get d 0 1;;
  d_xi0 <- xi_get d 1 0;;
  d_xi1 <- xi_get d 1 1;;
  d2_xi0 <- xi_get d 2 0;;
  d2_xi1 <- xi_get d 2 1;;
  d4_xi0 <- xi_get d 4 0;;
  Ok (extend_arbitrary (ec_k c) n 0 0 0 (mk_ed xi0 xi1 d_xi0 d_xi1 d2_xi0 d2_xi1 d4_xi0)).

(** ps/extend.py:242-259, the call of extend_polar for a node with boundary
    coordinates (n, th). *)
Definition extend_at (c : ext_ctx) (n th : R) (d : xi_dict) : result C :=
  xi0 <- xi_get d 0 0;;
  xi1 <- xi_get d 0 1;;
  d_xi0 <- xi_get d 1 0;;
  d_xi1 <- xi_get d 1 1;;
  d2_xi0 <- xi_get d 2 0;;
  d2_xi1 <- xi_get d 2 1;;
  d3_xi0 <- xi_get d 3 0;;
  d4_xi0 <- xi_get d 4 0;;
  let r := ec_r c in
  Ok (extend_polar (ec_k c) n (b_curv r th) (b_d_curv r th) (b_d2_curv r th)
        (b_d_th r th) (b_d2_th r th) (b_d3_th r th) (b_d4_th r th)
        (mk_pd xi0 xi1 d_xi0 d_xi1 d2_xi0 d2_xi1 d3_xi0 d4_xi0)).

(** ps/extend.py:239-261 [do_extend_0]. *)
Definition do_extend_0 (c : ext_ctx) (p : node) (d : xi_dict) : result C :=
  nth <- ctx_cache c p;; extend_at c (fst nth) (snd nth) d.

(** ps/extend.py:26. *)
Definition taylor_n_terms : nat := 5.

(** ps/extend.py:193. *)
Definition taylor_types : list (nat * nat) :=
  list_prod (seq 0 taylor_n_terms) [0%nat; 1%nat].

(** ps/extend.py:206-212, the loop over [l]; [ls] is range(m, taylor_n_terms). *)
Fixpoint taylor_entry (d0 : xi_dict) (delta : R) (m index : nat) (ls : list nat) (acc : C)
  : result C :=
  match ls with
  | [] => Ok acc
  | l :: ls' =>
      v <- xi_get d0 l index;;
      let fac := delta ^ (l - m) / INR (fact (l - m)) in
      taylor_entry d0 delta m index ls' (Cplus acc (Cmult v (RtoC fac)))
  end.

(** ps/extend.py:202-212, the loops over index and m. *)
Fixpoint taylor_table (d0 : xi_dict) (delta : R) (keys : list (nat * nat)) : result xi_dict :=
  match keys with
  | [] => Ok []
  | (index, m) :: keys' =>
      v <- taylor_entry d0 delta m index (seq m (taylor_n_terms - m)) (RtoC 0);;
      d <- taylor_table d0 delta keys';;
      Ok (((m, index), v) :: d)
  end.

(** ps/extend.py:200-219: the shifted derivatives. *)
Definition taylor_shift (d0 : xi_dict) (delta : R) : result xi_dict :=
  taylor_table d0 delta (list_prod [0%nat; 1%nat] (seq 0 taylor_n_terms)).

(** ps/extend.py:173-237 [do_extend_taylor]: (elen, value). For segment 0 the
    argument [n] is overwritten by the cached one. *)
Definition do_extend_taylor (c : ext_ctx) (s : ext_src) (p : node) (arg : R)
    (taylor_sid : nat) (delta n : R) : result (R * C) :=
  d0 <- calc_xi_derivs c s taylor_types arg taylor_sid;;
  d <- taylor_shift d0 delta;;
  match taylor_sid with
  | 0%nat =>
      v <- do_extend_0 c p d;;
      nth <- ctx_cache c p;;
      Ok (Rabs delta * ec_R c + Rabs (fst nth), v)
  | _ =>
      v <- extend_radius c n d;;
      Ok (Rabs delta + Rabs n, v)
  end.

(** ps/extend.py:282-284. *)
Definition types_0 : list (nat * nat) :=
  [(0, 0); (0, 1); (1, 0); (1, 1); (2, 0); (2, 1); (3, 0); (4, 0)]%nat.
(** ps/extend.py:306-308 and 332-334. *)
Definition types_12 : list (nat * nat) :=
  [(0, 0); (0, 1); (1, 0); (1, 1); (2, 0); (2, 1); (4, 0)]%nat.

(** ps/extend.py:278-289. *)
Definition do_extend_0_standard (c : ext_ctx) (s : ext_src) (p : node) : result (R * C) :=
  nth <- ctx_cache c p;;
  d <- calc_xi_derivs c s types_0 (snd nth) 0;;
  v <- do_extend_0 c p d;;
  Ok (Rabs (fst nth), v).

(** ps/extend.py:291-295. *)
Definition do_extend_0_left (c : ext_ctx) (s : ext_src) (p : node) : result (R * C) :=
  nth <- ctx_cache c p;;
  do_extend_taylor c s p (ec_a c) 0 (snd nth - ec_a c) 0.

(** ps/extend.py:297-301. *)
Definition do_extend_0_right (c : ext_ctx) (s : ext_src) (p : node) : result (R * C) :=
  nth <- ctx_cache c p;;
  do_extend_taylor c s p (2 * PI) 0 (snd nth - 2 * PI) 0.

(** ps/extend.py:303-313. *)
Definition do_extend_1_standard (c : ext_ctx) (s : ext_src) (p : node) : result (R * C) :=
  let '(x, y) := ctx_coord c p in
  d <- calc_xi_derivs c s types_12 x 1;;
  v <- extend_radius c y d;;
  Ok (Rabs y, v).

(** ps/extend.py:315-318. *)
Definition do_extend_1_left (c : ext_ctx) (s : ext_src) (p : node) : result (R * C) :=
  let '(x, y) := ctx_coord c p in do_extend_taylor c s p 0 1 x y.

(** ps/extend.py:320-324. *)
Definition do_extend_1_right (c : ext_ctx) (s : ext_src) (p : node) : result (R * C) :=
  let '(x, y) := ctx_coord c p in
  do_extend_taylor c s p (ec_R c) 1 (x - ec_R c) y.

(** ps/extend.py:326-340. *)
Definition do_extend_2_standard (c : ext_ctx) (s : ext_src) (p : node) : result (R * C) :=
  let '(x, y) := ctx_coord c p in
  let '(x0, y0) := get_radius_point (ec_a c) x y in
  let param_r := fst (cart_to_polar x0 y0) in
  d <- calc_xi_derivs c s types_12 param_r 2;;
  let n := signed_dist_to_radius (ec_a c) x y in
  v <- extend_radius c n d;;
  Ok (Rabs n, v).

(** ps/extend.py:342-350. *)
Definition do_extend_2_left (c : ext_ctx) (s : ext_src) (p : node) : result (R * C) :=
  let '(x, y) := ctx_coord c p in
  let '(x1, y1) := get_radius_point (ec_a c) x y in
  do_extend_taylor c s p 0 2 (- sqrt (x1 ^ 2 + y1 ^ 2)) (signed_dist_to_radius (ec_a c) x y).

(** ps/extend.py:352-366. *)
Definition do_extend_2_right (c : ext_ctx) (s : ext_src) (p : node) : result (R * C) :=
  let '(x, y) := ctx_coord c p in
  let x0 := ec_R c * cos (ec_a c) in
  let y0 := ec_R c * sin (ec_a c) in
  let '(x1, y1) := get_radius_point (ec_a c) x y in
  do_extend_taylor c s p (ec_R c) 2 (sqrt ((x1 - x0) ^ 2 + (y1 - y0) ^ 2))
    (signed_dist_to_radius (ec_a c) x y).

(** ps/extend.py:390-412, the dispatch. *)
Definition do_extend (c : ext_ctx) (s : ext_src) (sid : nat) (e : EType) (p : node)
  : result (R * C) :=
  match sid, e with
  | 0%nat, EStandard => do_extend_0_standard c s p
  | 0%nat, ELeft => do_extend_0_left c s p
  | 0%nat, ERight => do_extend_0_right c s p
  | 1%nat, EStandard => do_extend_1_standard c s p
  | 1%nat, ELeft => do_extend_1_left c s p
  | 1%nat, ERight => do_extend_1_right c s p
  | _, EStandard => do_extend_2_standard c s p
  | _, ELeft => do_extend_2_left c s p
  | _, ERight => do_extend_2_right c s p
  end.

(** ps/extend.py:382-415 (and ps/inhomo.py:419-451), the loop over one
    segment's nodes; [ext] is the node's extension. *)
Fixpoint mv_segment_loop (c : ext_ctx) (ext : nat -> EType -> node -> result (R * C))
    (sid : nat) (gamma : list node) (mv : multivalue) : result multivalue :=
  match gamma with
  | [] => Ok mv
  | p :: gamma' =>
      e <- node_etype c sid p;;
      r <- ext sid e p;;
      mv' <- mv_append mv p (mk_entry (fst r) (snd r) (Z.of_nat sid, e));;
      mv_segment_loop c ext sid gamma' mv'
  end.

(** ps/extend.py:377-415 (and ps/inhomo.py:414-453), the loop over segments. *)
Definition mv_extend (c : ext_ctx) (ext : nat -> EType -> node -> result (R * C))
  : result multivalue :=
  mv0 <- mv_segment_loop c ext 0 (ec_gamma c 0) (mv_new (ec_union c));;
  mv1 <- mv_segment_loop c ext 1 (ec_gamma c 1) mv0;;
  mv_segment_loop c ext 2 (ec_gamma c 2) mv1.

(** numpy: [v.dot(w)] of a gradient and a real vector (ps/inhomo.py:84). *)
Definition cdot (g : C * C) (v : R * R) : C :=
  Cplus (Cmult (fst g) (RtoC (fst v))) (Cmult (snd g) (RtoC (snd v))).
(** numpy: [hessian.dot(v)] (ps/inhomo.py:87). *)
Definition mat_vec (h : (C * C) * (C * C)) (v : R * R) : C * C :=
  (cdot (fst h) v, cdot (snd h) v).
(** [hessian.dot(v).dot(v)] (ps/inhomo.py:87). *)
Definition quad_form (h : (C * C) * (C * C)) (v : R * R) : C := cdot (mat_vec h v) v.
(** [np.linalg.norm] of a plane vector (ps/inhomo.py:78). *)
Definition norm2 (v : R * R) : R := sqrt (fst v ^ 2 + snd v ^ 2).
(** [vec /= norm] unguarded (ps/inhomo.py:79). For the zero vector numpy gives
    nan with a RuntimeWarning; the model reports that as ZeroDivisionError. *)
Definition unit_vec (v : R * R) : result (R * R) :=
  if Reqb (norm2 v) 0 then Err ZeroDivisionError
  else Ok (fst v / norm2 v, snd v / norm2 v).
(** The guarded form (ps/inhomo.py:146-147, 348-349). *)
Definition unit_or_zero (v : R * R) : R * R :=
  if Reqb (norm2 v) 0 then v else (fst v / norm2 v, snd v / norm2 v).
(** [np.sign] (ps/inhomo.py:184). *)
Definition np_sign (x : R) : R := if Rltb 0 x then 1 else if Rltb x 0 then -1 else 0.

(** ps/inhomo.py:137-139 and 256-258: sum of f_derivs[l] * delta**l / l!. *)
Definition f_taylor (d0 d1 d2 : C) (delta : R) : C :=
  Cplus (Cplus (Cmult d0 (RtoC (delta ^ 0 / INR (fact 0))))
               (Cmult d1 (RtoC (delta ^ 1 / INR (fact 1)))))
        (Cmult d2 (RtoC (delta ^ 2 / INR (fact 2)))).

(** ps/inhomo.py:10-25 [_extend_f_get_sid]. *)
Definition extend_f_get_sid (c : ext_ctx) (p : node) : result nat :=
  let '(r, th) := ps_get_polar (ec_a c) (ec_AD c) (ec_N c) (fst p) (snd p) in
  std <- (if node_mem p (ec_gamma c 0) then
            e <- node_etype c 0 p;; Ok (etype_eqb e EStandard)
          else Ok false);;
  if std : bool then Ok 0%nat
  else if Rltb r (ec_r c th) then
    (if Rleb (2 * PI) th then Ok 1%nat else Ok 2%nat)
  else Ok 0%nat.

(** ps/inhomo.py:77-91: the quadratic Taylor value of f at (x, y) from
    (x0, y0). *)
Definition f_quadratic (s : source) (x0 y0 x y : R) : result C :=
  let vec := (x - x0, y - y0) in
  let delta := norm2 vec in
  u <- unit_vec vec;;
  let d0 := cdot (s_grad s x0 y0) u in
  let d1 := quad_form (s_hess s x0 y0) u in
  Ok (Cplus (Cplus (s_f s x0 y0)
        (Cmult (Cdiv d0 (RtoC (INR (fact 1)))) (RtoC (delta ^ 1))))
        (Cmult (Cdiv d1 (RtoC (INR (fact 2)))) (RtoC (delta ^ 2)))).

(** ps/inhomo.py:53-75: the point of the boundary f is expanded at. The
    KeyError handler at 61-63 is [Err KeyError] here. *)
Definition extend_f_base (c : ext_ctx) (p : node) : result (R * R) :=
  let '(x, y) := ctx_coord c p in
  sid <- extend_f_get_sid c p;;
  e <- node_etype c sid p;;
  match sid with
  | 1%nat => Ok (x, 0)
  | 2%nat => Ok (get_radius_point (ec_a c) x y)
  | _ =>
      nth <- ctx_cache c p;;
      let th0 := snd nth in
      let r0 := ec_r c th0 in
      match e with
      | EStandard => Ok (r0 * cos th0, r0 * sin th0)
      | ELeft => Ok (ec_R c * cos (ec_a c), ec_R c * sin (ec_a c))
      | ERight => Ok (ec_R c, 0)
      end
  end.

(** ps/inhomo.py:43-93 for one node. *)
Definition extend_f_node (c : ext_ctx) (p : node) : result C :=
  let '(x, y) := ctx_coord c p in
  b <- extend_f_base c p;;
  f_quadratic (ec_src c) (fst b) (snd b) x y.

(** ps/inhomo.py:43-93, the loop over an enumeration of
    Kplus - global_Mplus. An uncached node aborts the loop, keeping what was
    written (the returned flag is true then); other errors propagate. *)
Fixpoint extend_f_loop (c : ext_ctx) (todo : list node) (f : arr2) : result (arr2 * bool) :=
  match todo with
  | [] => Ok (f, false)
  | p :: todo' =>
      match extend_f_base c p with
      | Err KeyError => Ok (f, true)
      | Err e => Err e
      | Ok _ =>
          v <- extend_f_node c p;;
          f' <- np_set (ec_N c + 1) f (fst p) (snd p) v;;
          extend_f_loop c todo' f'
      end
  end.

(** ps/inhomo.py:27-93 [extend_f]. *)
Definition extend_f (c : ext_ctx) (todo : list node) (f : arr2) : result (arr2 * bool) :=
  if ec_homogeneous c then Ok (f, false) else extend_f_loop c todo f.

(** ps/inhomo.py:95-168 [_extend_inhomo_12_r]. *)
Definition extend_inhomo_12_r (c : ext_ctx) (p : node) (radius_sid : nat) : result (R * C) :=
  let '(x2, y2) := ctx_coord c p in
  let '(x0, y0, x1, y1, n) :=
    match radius_sid with
    | 1%nat => (ec_R c, 0, x2, 0, y2)
    | _ =>
        let '(x1, y1) := get_radius_point (ec_a c) x2 y2 in
        (ec_R c * cos (ec_a c), ec_R c * sin (ec_a c), x1, y1,
         signed_dist_to_radius (ec_a c) x2 y2)
    end in
  let delta := norm2 (x1 - x0, y1 - y0) in
  tangent <- unit_vec (x1 - x0, y1 - y0);;
  let f0 := s_f (ec_src c) x0 y0 in
  let grad_f0 := s_grad (ec_src c) x0 y0 in
  let hess := s_hess (ec_src c) x0 y0 in
  let f := f_taylor f0 (cdot grad_f0 tangent) (quad_form hess tangent) delta in
  let ht := mat_vec hess tangent in
  let grad_f := (Cplus (fst grad_f0) (Cmult (fst ht) (RtoC delta)),
                 Cplus (snd grad_f0) (Cmult (snd ht) (RtoC delta))) in
  let normal := unit_or_zero (x2 - x1, y2 - y1) in
  let d_f_n := cdot grad_f normal in
  let d_f_n := if Rltb n 0 then Copp d_f_n else d_f_n in
  let d2_f_n := quad_form hess normal in
  let d2_f_s := quad_form hess tangent in
  Ok (delta + Rabs n, inhomo_extend_arbitrary (ec_k c) n 0 f d_f_n d2_f_n d2_f_s).

(** ps/inhomo.py:170-206 [do_extend_inhomo_0_standard]. *)
Definition do_extend_inhomo_0_standard (c : ext_ctx) (p : node) : result (R * C) :=
  nth <- ctx_cache c p;;
  let '(n, th) := nth in
  let r := ec_r c in
  let r0 := r th in
  let x0 := r0 * cos th in
  let y0 := r0 * sin th in
  let '(x1, y1) := ctx_coord c p in
  vec <- unit_vec (x1 - x0, y1 - y0);;
  let s := ec_src c in
  let d_f_n := Cmult (cdot (s_grad_polar s r0 th) vec) (RtoC (np_sign n)) in
  let d2_f_n := quad_form (s_hess_polar s r0 th) vec in
  Ok (Rabs n,
      inhomo_extend_polar (ec_k c) n (b_curv r th) (s_f_polar s r0 th) d_f_n d2_f_n
        (s_d_f_th s r0 th) (s_d2_f_th s r0 th) (s_d_f_r s r0 th) (s_d2_f_r s r0 th)
        (s_d2_f_r_th s r0 th) (b_d_th r th) (b_d2_th r th) (b_d_r r th) (b_d2_r r th)).

(** ps/inhomo.py:208-318 [_extend_inhomo_0_lr]. *)
Definition extend_inhomo_0_lr (c : ext_ctx) (p : node) (radius_sid : nat) : result (R * C) :=
  nth <- ctx_cache c p;;
  let '(n, th1) := nth in
  let r := ec_r c in
  let r1 := r th1 in
  let th0 := match radius_sid with 1%nat => 2 * PI | _ => ec_a c end in
  let x0 := ec_R c * cos th0 in
  let y0 := ec_R c * sin th0 in
  let x1 := r1 * cos th1 in
  let y1 := r1 * sin th1 in
  let delta := norm2 (x1 - x0, y1 - y0) in
  vec <- unit_vec (x1 - x0, y1 - y0);;
  let s := ec_src c in
  let R0 := ec_R c in
  let f0 := s_f_polar s R0 th0 in
  let grad_f0 := s_grad_polar s R0 th0 in
  let hess := s_hess_polar s R0 th0 in
  let f := f_taylor f0 (cdot grad_f0 vec) (quad_form hess vec) delta in
  let hv := mat_vec hess vec in
  let grad_f := (Cplus (fst grad_f0) (Cmult (RtoC delta) (fst hv)),
                 Cplus (snd grad_f0) (Cmult (RtoC delta) (snd hv))) in
  let '(x2, y2) := ctx_coord c p in
  let '(r2, th2) := ps_get_polar (ec_a c) (ec_AD c) (ec_N c) (fst p) (snd p) in
  normal <- unit_vec (x2 - x1, y2 - y1);;
  let d_f_n := cdot grad_f normal in
  let d_f_n := if Rltb r2 (r th2) then Copp d_f_n else d_f_n in
  let d2_f_n := quad_form hess normal in
  let polar_vec := (r1 - R0, th1 - th0) in
  let d_f_th := Cplus (s_d_f_th s R0 th0)
                  (cdot (s_d2_f_r_th s R0 th0, s_d2_f_th s R0 th0) polar_vec) in
  let d_f_r := Cplus (s_d_f_r s R0 th0)
                 (cdot (s_d2_f_r s R0 th0, s_d2_f_r_th s R0 th0) polar_vec) in
  Ok (Rabs delta + Rabs n,
      inhomo_extend_polar (ec_k c) n (b_curv r th1) f d_f_n d2_f_n
        d_f_th (s_d2_f_th s R0 th0) d_f_r (s_d2_f_r s R0 th0) (s_d2_f_r_th s R0 th0)
        (b_d_th r th1) (b_d2_th r th1) (b_d_r r th1) (b_d2_r r th1)).

(** ps/inhomo.py:328-344: gradient and Hessian used by _calc_inhomo_radius,
    shifted from (-h, 0) at the origin. *)
Definition radius_derivs (c : ext_ctx) (x0 y0 : R) : (C * C) * ((C * C) * (C * C)) :=
  let s := ec_src c in
  if Reqb x0 0 && Reqb y0 0 then
    let h := ec_AD c / (10 * IZR (ec_N c)) in
    let hess := s_hess s (- h) 0 in
    let g := s_grad s (- h) 0 in
    let hv := mat_vec hess (1, 0) in
    ((Cplus (fst g) (Cmult (RtoC h) (fst hv)), Cplus (snd g) (Cmult (RtoC h) (snd hv))), hess)
  else (s_grad s x0 y0, s_hess s x0 y0).

(** ps/inhomo.py:326-375 [_calc_inhomo_radius]. *)
Definition calc_inhomo_radius (c : ext_ctx) (x0 y0 x1 y1 : R) (tan : R * R) (n : R) : R * C :=
  let f := s_f (ec_src c) x0 y0 in
  let '(grad_f, hess) := radius_derivs c x0 y0 in
  let vec := unit_or_zero (x1 - x0, y1 - y0) in
  let d_f_n := Cmult (cdot grad_f vec) (RtoC (np_sign n)) in
  let d2_f_n := quad_form hess vec in
  let d2_f_s := quad_form hess tan in
  let r := fst (cart_to_polar x0 y0) in
  let elen := if Rltb x0 0 || Rltb (ec_R c) r then Rabs n + r else Rabs n in
  (elen, inhomo_extend_arbitrary (ec_k c) n 0 f d_f_n d2_f_n d2_f_s).

(** ps/inhomo.py:377-391 [_extend_inhomo_radius]. *)
Definition extend_inhomo_radius (c : ext_ctx) (p : node) (radius_sid : nat) : R * C :=
  let '(x1, y1) := ctx_coord c p in
  match radius_sid with
  | 1%nat => calc_inhomo_radius c x1 0 x1 y1 (-1, 0) y1
  | _ =>
      let '(x0, y0) := get_radius_point (ec_a c) x1 y1 in
      calc_inhomo_radius c x0 y0 x1 y1 (cos (ec_a c), sin (ec_a c))
        (signed_dist_to_radius (ec_a c) x1 y1)
  end.

(** ps/inhomo.py:423-448, the dispatch with the wrappers 320-324, 393-409. *)
Definition do_extend_inhomo (c : ext_ctx) (sid : nat) (e : EType) (p : node)
  : result (R * C) :=
  if ec_homogeneous c then Ok (0, RtoC 0)
  else
    match sid, e with
    | 0%nat, EStandard => do_extend_inhomo_0_standard c p
    | 0%nat, ELeft => extend_inhomo_0_lr c p 2
    | 0%nat, ERight => extend_inhomo_0_lr c p 1
    | 1%nat, EStandard => Ok (extend_inhomo_radius c p 1)
    | 1%nat, ELeft => Ok (extend_inhomo_radius c p 1)
    | 1%nat, ERight => extend_inhomo_12_r c p 1
    | _, EStandard => Ok (extend_inhomo_radius c p 2)
    | _, ELeft => Ok (extend_inhomo_radius c p 2)
    | _, ERight => extend_inhomo_12_r c p 2
    end.

(** ps/inhomo.py:411-453 [mv_extend_inhomo_f]. *)
Definition mv_extend_inhomo_f (c : ext_ctx) : result multivalue :=
  mv_extend c (do_extend_inhomo c).

(** ps/inhomo.py:455-456 [extend_inhomo_f]. *)
Definition extend_inhomo_f (c : ext_ctx) : result (list C) :=
  m <- mv_extend_inhomo_f c;; mv_reduce m.

(** ps/extend.py:368-426 [mv_extend_boundary]. *)
Definition mv_extend_boundary (c : ext_ctx) (s : ext_src) (homogeneous_only : bool)
  : result multivalue :=
  m <- mv_extend c (do_extend c s);;
  let is_basis := match s with SrcBasis _ _ => true | SrcCoef => false end in
  if is_basis || ec_homogeneous c || homogeneous_only then Ok m
  else mf <- mv_extend_inhomo_f c;; mv_add m mf.

(** ps/extend.py:428-434 [extend_boundary]. *)
Definition extend_boundary (c : ext_ctx) (s : ext_src) (homogeneous_only : bool)
  : result (list C) :=
  m <- mv_extend_boundary c s homogeneous_only;; mv_reduce m.

(** ps/basis.py:131-135 [extend_basis]. *)
Definition extend_basis (c : ext_ctx) (JJ index : nat) : result (list C) :=
  extend_boundary c (SrcBasis JJ index) false.
