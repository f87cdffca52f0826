(** Properties C51, C52 and the node-level form of C21: extension of the source
    term and of the particular solution. *)
From Coq Require Import ZArith List Bool Reals Lia Lra.
From Coquelicot Require Import Coquelicot.
From Verif Require Import Model_Py Model_Multivalue Model_Grid Model_Domain Model_Ext Model_Extend
  Spec_Grid Spec_Domain Spec_Ext Spec_Extend Spec_Inhomo Proof_Place Proof_Smooth Proof_Extend2 Proof_ExtendF Proof_Inhomo Proof_InhomoEx Proof_Abort.
Import ListNotations.
Open Scope R_scope.

(** C51. On the arc domain extend_f never aborts; every filled value is the
    second Taylor polynomial of f at a boundary point within h sqrt 2 of the
    node and different from it; other entries are unchanged. *)
Theorem C51_never_aborts : forall brentq c F todo f0, brentq_contract brentq -> arc_solver brentq 4 c ->
  let ins := ps_is_interior (r_arc (ec_R c)) (ec_a c) (ec_AD c) (ec_N c) in
  let h := ec_AD c / IZR (ec_N c) in
  margin (ec_N c) ins -> h <= ec_R c -> ec_homogeneous c = false ->
  (forall sid b, on_seg (ec_R c) (ec_a c) sid b -> cart_source (ec_src c) F (fst b) (snd b)) ->
  enumerates todo (node_diff (Kplus 4 (ec_N c) ins) (global_Mplus (ec_N c) ins)) ->
  exists f', extend_f c todo f0 = Ok (f', false) /\
    (forall q x y, In q todo -> get_coord (ec_AD c) (ec_N c) (fst q) (snd q) = (x, y) ->
       exists sid b, (sid < 3)%nat /\ on_seg (ec_R c) (ec_a c) sid b /\ b <> (x, y) /\ dist2 b (x, y) <= h * sqrt 2 /\
         f' (fst q) (snd q) = taylor2 F (fst b) (snd b) x y) /\
    (forall i j, ~ In (i, j) todo -> f' i j = f0 i j).
Proof. exact extend_f_arc. Qed.
Print Assumptions C51_never_aborts.

(** C51. The values are exact for quadratic f. *)
Theorem C51_quadratic_exact : forall brentq c F todo f0, brentq_contract brentq -> arc_solver brentq 4 c ->
  let ins := ps_is_interior (r_arc (ec_R c)) (ec_a c) (ec_AD c) (ec_N c) in
  margin (ec_N c) ins -> ec_AD c / IZR (ec_N c) <= ec_R c -> ec_homogeneous c = false ->
  (forall sid b, on_seg (ec_R c) (ec_a c) sid b -> cart_source (ec_src c) F (fst b) (snd b)) -> quadratic F ->
  enumerates todo (node_diff (Kplus 4 (ec_N c) ins) (global_Mplus (ec_N c) ins)) ->
  exists f', extend_f c todo f0 = Ok (f', false) /\
    forall i j, f' i j = if node_mem (i, j) todo then
        let '(x, y) := get_coord (ec_AD c) (ec_N c) i j in F 0%nat 0%nat x y
      else f0 i j.
Proof. exact extend_f_quadratic. Qed.
Print Assumptions C51_quadratic_exact.

Example C51_nonvacuous : forall brentq, brentq_contract brentq ->
  let F := sep (bump_source 0) in
  exists c todo, arc_solver brentq 4 c /\
    (let ins := ps_is_interior (r_arc (ec_R c)) (ec_a c) (ec_AD c) (ec_N c) in
     margin (ec_N c) ins /\ ec_AD c / IZR (ec_N c) <= ec_R c /\ ec_homogeneous c = false /\
     (forall sid b, on_seg (ec_R c) (ec_a c) sid b -> cart_source (ec_src c) F (fst b) (snd b)) /\ quadratic F /\
     enumerates todo (node_diff (Kplus 4 (ec_N c) ins) (global_Mplus (ec_N c) ins))) /\
    In (3, 8)%Z todo /\ ctx_coord c (3, 8)%Z = (- (5 / 4), 0).
Proof. exact fill_example. Qed.

(** C51. On any domain the loop gives up, without an exception, at the first
    node on or outside the curve that has no cached coordinates, and only there;
    the nodes after it in the enumeration are not filled. *)
Theorem C51_gives_up : forall c before p after f f1, ec_homogeneous c = false ->
  extend_f c before f = Ok (f1, false) ->
  ~ In p (ec_gamma c 0) ->
  (let rt := ps_get_polar (ec_a c) (ec_AD c) (ec_N c) (fst p) (snd p) in ec_r c (snd rt) <= fst rt) ->
  extend_f c (before ++ p :: after) f = Ok (f1, true).
Proof. exact (fun c before p after f f1 Hh Hb Hp Hr => abort_prefix c before p after f f1 Hh Hb (conj Hp Hr)). Qed.
Print Assumptions C51_gives_up.

Theorem C51_only_then : forall c todo f f1, extend_f c todo f = Ok (f1, true) ->
  exists before p after, todo = before ++ p :: after /\ extend_f c before f = Ok (f1, false) /\
    ~ In p (ec_gamma c 0) /\
    let rt := ps_get_polar (ec_a c) (ec_AD c) (ec_N c) (fst p) (snd p) in ec_r c (snd rt) <= fst rt.
Proof. exact abort_only. Qed.
Print Assumptions C51_only_then.

(** Node (1, 2) is filled; node (0, 2), at distance 2 from the origin, is not
    cached. *)
Example C51_gives_up_nonvacuous : exists c f1, ec_homogeneous c = false /\
  extend_f c [(1, 2)%Z] (fun _ _ => RtoC 0) = Ok (f1, false) /\ f1 1%Z 2%Z = RtoC 8 /\
  ~ In (0, 2)%Z (ec_gamma c 0) /\
  (let rt := ps_get_polar (ec_a c) (ec_AD c) (ec_N c) 0 2 in ec_r c (snd rt) <= fst rt).
Proof. exact abort_example. Qed.

(** C52. A node on the outer curve has no value. *)
Theorem C52_on_curve : forall c p n th, In p (ec_gamma c 0) -> ec_bcoord c p = Some (n, th) ->
  ctx_coord c p = seg_point (ec_r c) (ec_a c) 0 th ->
  do_extend_inhomo_0_standard c p = Err ZeroDivisionError.
Proof. exact on_curve_undefined. Qed.
Print Assumptions C52_on_curve.

(** C52. It does occur, for a node that the solver visits, and then
    extend_inhomo_f fails. *)
Theorem C52_defined_refuted : forall brentq src, brentq_contract brentq ->
  exists c p, arc_solver brentq 4 c /\ ec_homogeneous c = false /\ ec_src c = src /\
    In p (ec_gamma c 0) /\ node_etype c 0 p = Ok EStandard /\
    do_extend_inhomo c 0 EStandard p = Err ZeroDivisionError /\ exists x, extend_inhomo_f c = Err x.
Proof. exact on_curve_witness. Qed.
Print Assumptions C52_defined_refuted.

(** C52. The segments at angles 0 and a are guarded: always a value, and 0 for
    a node on the line. *)
Theorem C52_radius_guarded : forall c sid e p, ec_homogeneous c = false -> (sid = 1 \/ sid = 2)%nat -> e <> ERight ->
  exists len v, do_extend_inhomo c sid e p = Ok (len, v).
Proof. exact radius_guarded. Qed.
Print Assumptions C52_radius_guarded.

Theorem C52_radius_on_line : forall c sid e p x y e1 e2, ec_homogeneous c = false -> 0 < ec_a c < PI -> e <> ERight ->
  ctx_coord c p = (x, y) -> frame12 (ec_a c) sid e1 e2 -> x * e2 - y * e1 = 0 ->
  exists len, do_extend_inhomo c sid e p = Ok (len, RtoC 0).
Proof. exact radius_on_line. Qed.
Print Assumptions C52_radius_on_line.

(** The node (1, 0) lies on the segment at angle 0. *)
Example C52_radius_nonvacuous : forall k, let c := saddle_ctx k (23 / 10) in
  ec_homogeneous c = false /\ 0 < ec_a c < PI /\ frame12 (ec_a c) 1 (-1) 0 /\
  exists x, ctx_coord c (3, 2)%Z = (x, 0) /\ x = 1 /\ x * 0 - 0 * -1 = 0.
Proof.
  intros k c. pose proof PI_RGT_0. repeat split; try (cbn; lra).
  - left. auto.
  - exists 1. split; [|split; lra]. unfold c, saddle_ctx. rewrite square_coord. f_equal; lra.
Qed.

(** C52. Off the curve, the normal derivatives passed on are those of f in the
    outward direction. *)
Theorem C52_off_curve : forall brentq c p n th nv O F, brentq_contract brentq -> 0 < ec_a c < PI ->
  (forall t, ex_derive (ec_r c) t) -> (forall t, ex_derive (Derive (ec_r c)) t) -> (forall t, 0 < ec_r c t) ->
  ec_bcoord c p = node_bcoord brentq (ec_r c) (ec_a c) (ec_AD c) (ec_N c) p ->
  In p (ec_gamma c 0) -> ec_bcoord c p = Some (n, th) -> n <> 0 -> is_normal (ec_r c) (ec_a c) 0 th nv ->
  let s := ec_src c in
  let r := ec_r c in
  let x0 := r th * cos th in
  let y0 := r th * sin th in
  open2 O -> O x0 y0 -> partials O 2 F ->
  s_grad_polar s (r th) th = (F 1%nat 0%nat x0 y0, F 0%nat 1%nat x0 y0) ->
  s_hess_polar s (r th) th = ((F 2%nat 0%nat x0 y0, F 1%nat 1%nat x0 y0), (F 1%nat 1%nat x0 y0, F 0%nat 2%nat x0 y0)) ->
  let line t := F 0%nat 0%nat (x0 + t * fst nv) (y0 + t * snd nv) in
  do_extend_inhomo_0_standard c p =
  Ok (Rabs n, inhomo_extend_polar (ec_k c) n (b_curv r th) (s_f_polar s (r th) th)
        (CDerive_n line 1 0) (CDerive_n line 2 0)
        (s_d_f_th s (r th) th) (s_d2_f_th s (r th) th) (s_d_f_r s (r th) th) (s_d2_f_r s (r th) th)
        (s_d2_f_r_th s (r th) th) (b_d_th r th) (b_d2_th r th) (b_d_r r th) (b_d2_r r th)).
Proof. exact off_curve. Qed.
Print Assumptions C52_off_curve.

(** C21. The inhomogeneous extension at a node of the outer curve is the
    fourth Taylor polynomial of the particular solution [D] on the normal
    through the node. *)
Theorem C21_node_curve : forall brentq c p n th Sa Th O U lo hi D F Q, brentq_contract brentq -> 0 < ec_a c < PI ->
  let r := ec_r c in
  (forall t, 0 < r t) ->
  (forall t, is_derive Sa t (sqrt (r t ^ 2 + Derive r t ^ 2))) -> (forall y, Sa (Th y) = y) ->
  (forall t, ex_derive r t) -> (forall t, ex_derive (Derive r) t) ->
  (forall l t, (l <= 2)%nat -> ex_derive (Derive_n (fun t => sqrt (r t ^ 2 + Derive r t ^ 2)) l) t) ->
  (forall l t, (l <= 1)%nat -> ex_derive (Derive_n (b_curv r) l) t) ->
  ec_bcoord c p = node_bcoord brentq r (ec_a c) (ec_AD c) (ec_N c) p ->
  In p (ec_gamma c 0) -> ec_bcoord c p = Some (n, th) -> n <> 0 -> ec_homogeneous c = false ->
  open2 O -> (forall t, lo < t < hi -> O (r t * cos t) (r t * sin t)) ->
  partials O 4 D -> partials O 2 F -> helmholtz O (ec_k c) D F ->
  partials U 2 Q -> (forall t, lo < t < hi -> U (r t) t) ->
  (forall t, lo < t < hi -> Q 0%nat 0%nat (r t) t = F 0%nat 0%nat (r t * cos t) (r t * sin t)) ->
  lo < th < hi -> polar_source (ec_src c) F Q (r th) th ->
  let nx t := fst (eval_normal r t) in
  let ny t := snd (eval_normal r t) in
  (forall t, lo < t < hi -> D 0%nat 0%nat (r t * cos t) (r t * sin t) = RtoC 0 /\
     Cplus (Cmult (RtoC (nx t)) (D 1%nat 0%nat (r t * cos t) (r t * sin t)))
           (Cmult (RtoC (ny t)) (D 0%nat 1%nat (r t * cos t) (r t * sin t))) = RtoC 0) ->
  do_extend_inhomo c 0 EStandard p =
  Ok (Rabs n, taylor_poly (fun t => D 0%nat 0%nat (r th * cos th + t * nx th) (r th * sin th + t * ny th)) 4 n).
Proof. exact inhomo_node_curve. Qed.
Print Assumptions C21_node_curve.

(** (x^2 + y^2 - 1)^2 at the node (-2, 0) beside the unit arc; also an instance
    of C52_off_curve. *)
Example C21_node_curve_nonvacuous : forall k,
  do_extend_inhomo (bump_curve_ctx k) 0 EStandard (0, 2)%Z =
  Ok (1, taylor_poly (fun t => sep bump 0%nat 0%nat (-1 - t) 0) 4 1).
Proof. exact bump_curve. Qed.

(** C21. The same beyond the corners of the outer arc, where the source is
    continued from the corner: exact for a source quadratic in both coordinate
    systems. *)
Theorem C21_node_corner : forall brentq c e p n th th0 O U lo hi D F Q, brentq_contract brentq ->
  0 < ec_R c -> 0 < ec_a c < PI -> ec_r c = r_arc (ec_R c) ->
  ec_bcoord c p = node_bcoord brentq (r_arc (ec_R c)) (ec_a c) (ec_AD c) (ec_N c) p ->
  In p (ec_gamma c 0) -> ec_bcoord c p = Some (n, th) -> n <> 0 -> ec_homogeneous c = false ->
  node_etype c 0 p = Ok e -> (e = ELeft /\ th0 = ec_a c \/ e = ERight /\ th0 = 2 * PI) ->
  let r := ec_R c in
  quadratic F -> quadratic Q -> polar_source (ec_src c) F Q r th0 ->
  open2 O -> (forall t, lo < t < hi -> O (r * cos t) (r * sin t)) ->
  partials O 4 D -> partials O 2 F -> helmholtz O (ec_k c) D F ->
  partials U 2 Q -> (forall t, lo < t < hi -> U r t) ->
  (forall t, lo < t < hi -> Q 0%nat 0%nat r t = F 0%nat 0%nat (r * cos t) (r * sin t)) -> lo < th < hi ->
  (forall t, lo < t < hi -> D 0%nat 0%nat (r * cos t) (r * sin t) = RtoC 0 /\
     Cplus (Cmult (RtoC (cos t)) (D 1%nat 0%nat (r * cos t) (r * sin t)))
           (Cmult (RtoC (sin t)) (D 0%nat 1%nat (r * cos t) (r * sin t))) = RtoC 0) ->
  exists len, Rabs n <= len /\ do_extend_inhomo c 0 e p =
  Ok (len, taylor_poly (fun t => D 0%nat 0%nat (r * cos th + t * cos th) (r * sin th + t * sin th)) 4 n).
Proof. exact inhomo_node_corner. Qed.
Print Assumptions C21_node_corner.

Example C21_node_corner_nonvacuous : forall a e, (a = PI / 3 /\ e = ELeft \/ a = 2 * PI / 3 /\ e = ERight) ->
  node_etype (bump_corner_ctx a) 0 (3, 3)%Z = Ok e /\
  exists len, do_extend_inhomo (bump_corner_ctx a) 0 e (3, 3)%Z =
  Ok (len, taylor_poly (fun t => sep bump 0%nat 0%nat ((1 + t) * (1 / sqrt 2)) ((1 + t) * (1 / sqrt 2))) 4 (sqrt 2 - 1)).
Proof. exact bump_corner. Qed.

(** C21. The same on the segments at angles 0 and a. *)
Theorem C21_node_straight : forall c sid e p x y e1 e2 O lo hi D F, 0 < ec_a c < PI ->
  ctx_coord c p = (x, y) -> frame12 (ec_a c) sid e1 e2 -> e <> ERight -> ec_homogeneous c = false ->
  let s := x * e1 + y * e2 in
  let n := x * e2 - y * e1 in
  s <> 0 -> cart_source (ec_src c) F (s * e1) (s * e2) ->
  open2 O -> (forall t, lo < t < hi -> O (t * e1) (t * e2)) ->
  partials O 4 D -> partials O 2 F -> helmholtz O (ec_k c) D F -> lo < s < hi ->
  (forall t, lo < t < hi -> D 0%nat 0%nat (t * e1) (t * e2) = RtoC 0 /\
     Cplus (Cmult (RtoC e2) (D 1%nat 0%nat (t * e1) (t * e2))) (Cmult (RtoC (- e1)) (D 0%nat 1%nat (t * e1) (t * e2))) = RtoC 0) ->
  exists len, Rabs n <= len /\ do_extend_inhomo c sid e p =
    Ok (len, taylor_poly (fun m => D 0%nat 0%nat (s * e1 + m * e2) (s * e2 + m * - e1)) 4 n).
Proof. exact inhomo_node_straight. Qed.
Print Assumptions C21_node_straight.

Example C21_node_straight_nonvacuous : forall k, node_etype (saddle_ctx k (23 / 10)) 1 (3, 3)%Z = Ok EStandard /\
  exists len, 1 <= len /\ do_extend_inhomo (saddle_ctx k (23 / 10)) 1 EStandard (3, 3)%Z =
  Ok (len, taylor_poly (fun m => sep saddle 0%nat 0%nat 1 m) 4 1).
Proof. exact saddle_straight. Qed.

(** C21. The same beyond the end of those segments, for quadratic sources. *)
Theorem C21_node_right : forall c sid p x y e1 e2 O lo hi D F, 0 < ec_R c -> 0 < ec_a c < PI ->
  ctx_coord c p = (x, y) -> frame12 (ec_a c) sid e1 e2 -> node_etype c sid p = Ok ERight -> ec_homogeneous c = false ->
  let s := x * e1 + y * e2 in
  let n := x * e2 - y * e1 in
  let s0 := match sid with 1%nat => - ec_R c | _ => ec_R c end in
  cart_source (ec_src c) F (s0 * e1) (s0 * e2) -> quadratic F ->
  open2 O -> (forall t, lo < t < hi -> O (t * e1) (t * e2)) ->
  partials O 4 D -> partials O 2 F -> helmholtz O (ec_k c) D F -> lo < s < hi ->
  (forall t, lo < t < hi -> D 0%nat 0%nat (t * e1) (t * e2) = RtoC 0 /\
     Cplus (Cmult (RtoC e2) (D 1%nat 0%nat (t * e1) (t * e2))) (Cmult (RtoC (- e1)) (D 0%nat 1%nat (t * e1) (t * e2))) = RtoC 0) ->
  do_extend_inhomo c sid ERight p =
    Ok (Rabs (s - s0) + Rabs n, taylor_poly (fun m => D 0%nat 0%nat (s * e1 + m * e2) (s * e2 + m * - e1)) 4 n).
Proof. exact inhomo_node_right. Qed.
Print Assumptions C21_node_right.

Example C21_node_right_nonvacuous : node_etype (saddle_ctx 0 (1 / 2)) 1 (3, 3)%Z = Ok ERight /\
  do_extend_inhomo (saddle_ctx 0 (1 / 2)) 1 ERight (3, 3)%Z =
  Ok (3 / 2, taylor_poly (fun m => sep saddle 0%nat 0%nat 1 m) 4 1).
Proof. exact saddle_right. Qed.
