(** Properties C17, C19, C20, C21, C22, C23, C28: extension of boundary data
    and of the source term to the discrete boundary. *)
From Coq Require Import ZArith List Bool Reals Lia Lra.
From Coquelicot Require Import Coquelicot.
From Verif Require Import Model_Py Model_Multivalue Model_Grid Model_Fourier Model_Chebyshev Model_Domain Model_Ext
  Model_Extend Spec_Chebyshev Spec_Domain Spec_Grid Spec_Ext Spec_Extend
  Proof_Basis Proof_Orient Proof_Place Proof_Ext2 Proof_Smooth Proof_Log Proof_Extend Proof_Linear Proof_Extend2 Proof_ExtendEx.
Import ListNotations.
Open Scope R_scope.

(** C17. eval_g and eval_g_inv are inverse to each other. *)
Theorem C17_inverse : forall R0 a sid, 0 < R0 -> 0 < a < 2 * PI -> (sid < 3)%nat ->
  (forall t, eval_g_inv R0 a sid (eval_g R0 a sid t) = t) /\
  (forall arg, eval_g R0 a sid (eval_g_inv R0 a sid arg) = arg).
Proof. exact g_inverse. Qed.
Print Assumptions C17_inverse.

(** C17. The parameter increases along the boundary, traversed from the angle a
    to 2 pi on the curve, inwards on segment 1 and outwards on segment 2. *)
Theorem C17_orientation : forall R0 a arg arg', 0 < R0 -> 0 < a < 2 * PI -> arg < arg' ->
  eval_g_inv R0 a 0 arg < eval_g_inv R0 a 0 arg' /\
  eval_g_inv R0 a 1 arg' < eval_g_inv R0 a 1 arg /\
  eval_g_inv R0 a 2 arg < eval_g_inv R0 a 2 arg'.
Proof. exact g_orient. Qed.
Print Assumptions C17_orientation.

(** C17. It runs from 1/1000 before the segment to 1/1000 after it. *)
Theorem C17_ends : forall R0 a,
  eval_g R0 a 0 (-1) = a - 1 / 1000 /\ eval_g R0 a 0 1 = 2 * PI + 1 / 1000 /\
  eval_g R0 a 1 (-1) = R0 + 1 / 1000 /\ eval_g R0 a 1 1 = - (1 / 1000) /\
  eval_g R0 a 2 (-1) = - (1 / 1000) /\ eval_g R0 a 2 1 = R0 + 1 / 1000.
Proof. exact g_ends. Qed.
Print Assumptions C17_ends.

(** C17. The physical segments are mapped strictly inside (-1, 1). *)
Theorem C17_strictly_inside : forall R0 a sid arg, 0 < R0 -> 0 < a < 2 * PI -> (sid < 3)%nat ->
  seg_range R0 a sid arg -> -1 < eval_g_inv R0 a sid arg < 1.
Proof. exact seg_range_g_inv. Qed.
Print Assumptions C17_strictly_inside.

(** C17. At any listed node and for every segment and extension type, the
    extension evaluates the basis at a single argument, which lies on the
    physical segment: all that follows does not involve the basis or the
    coefficients. *)
Theorem C17_evaluated_inside : forall c sid e p, 0 < ec_R c -> 0 < ec_a c < PI -> (sid < 3)%nat ->
  node_etype c sid p = Ok e ->
  (sid = 0%nat -> In p (ec_gamma c 0) /\ exists bc, ec_bcoord c p = Some bc) ->
  exists arg types (rest : xi_dict -> result (R * C)),
    seg_range (ec_R c) (ec_a c) sid arg /\ -1 < eval_g_inv (ec_R c) (ec_a c) sid arg < 1 /\
    (forall o i, In (o, i) types -> (o <= 4)%nat /\ (i < 2)%nat) /\
    forall B c0 c1 s, do_extend (with_basis c B c0 c1) s sid e p =
      (d <- calc_xi_derivs (with_basis c B c0 c1) s types arg sid;; rest d).
Proof. exact evaluated_inside. Qed.
Print Assumptions C17_evaluated_inside.

(** C17. There the formulas are the derivatives of the basis functions. *)
Theorem C17_derivatives : forall R0 a B n JJ arg sid J,
  nth_error B JJ = Some (sid, J) -> (n <= 5)%nat -> -1 < eval_g_inv R0 a sid arg < 1 ->
  eval_dn_B_arg R0 a B n JJ arg sid = Ok (Derive_n (fun x => chebT J (eval_g_inv R0 a sid x)) n arg).
Proof. exact eval_dn_B_spec. Qed.
Print Assumptions C17_derivatives.

(** A node beside the arc and one whose foot point is left of the corner. *)
Example C17_nonvacuous : let c := ridge_ctx 1 in
  0 < ec_R c /\ 0 < ec_a c < PI /\
  node_etype c 0 (0, 2)%Z = Ok EStandard /\ In (0, 2)%Z (ec_gamma c 0) /\
  ec_bcoord c (0, 2)%Z = Some (- (3 / 10), PI) /\ node_etype c 1 (0, 2)%Z = Ok ELeft.
Proof.
  intros c. pose proof PI_RGT_0. split; [cbn; lra|]. split; [cbn; lra|]. split; [apply ex_etype_arc|].
  split; [left; reflexivity|]. split; [apply ex_bcoord|apply ex_etype_left].
Qed.

(** C19. In boundary-fitted coordinates of an arclength curve, extend_arbitrary
    fed with the traces of a Helmholtz solution returns its Taylor polynomial
    of degree 4 along the normal. *)
Theorem C19_taylor : forall O lo hi X Y tx ty kap D k s n,
  open2 O -> unit_curve lo hi X Y tx ty kap -> (forall s, lo < s < hi -> O (X s) (Y s)) ->
  partials O 4 D -> helmholtz O k D (fun _ _ _ _ => RtoC 0) -> lo < s < hi ->
  extend_arbitrary k n (kap s) (Derive kap s) (Derive_n kap 2 s)
    (mk_ed (trace0 D X Y s) (trace1 D X Y tx ty s)
       (CDerive_n (trace0 D X Y) 1 s) (CDerive_n (trace1 D X Y tx ty) 1 s)
       (CDerive_n (trace0 D X Y) 2 s) (CDerive_n (trace1 D X Y tx ty) 2 s)
       (CDerive_n (trace0 D X Y) 4 s)) =
  taylor_poly (along_normal D X Y tx ty s) 4 n.
Proof. exact homogeneous_taylor. Qed.
Print Assumptions C19_taylor.

(** C19. It differs from the solution by O(n^5). *)
Theorem C19_remainder : forall O X Y tx ty D s n M,
  open2 O -> partials O 5 D ->
  (forall t, 0 <= t <= 1 -> O (X s + t * n * ty s) (Y s - t * n * tx s)) ->
  (forall t, 0 <= t <= 1 -> Cmod (CDerive_n (along_normal D X Y tx ty s) 5 (t * n)) <= M) ->
  Cmod (Cminus (along_normal D X Y tx ty s n) (taylor_poly (along_normal D X Y tx ty s) 4 n))
    <= M * Rabs n ^ 5 / 60.
Proof. exact taylor_remainder. Qed.
Print Assumptions C19_remainder.

(** C19. The same for extend_polar on a curve r = r(theta), with the geometry
    of class Boundary and angular derivatives of the traces. *)
Theorem C19_polar : forall r Sa Th,
  (forall th, 0 < r th ^ 2 + Derive r th ^ 2) ->
  (forall th, is_derive Sa th (sqrt (r th ^ 2 + Derive r th ^ 2))) -> (forall y, Sa (Th y) = y) ->
  (forall th, ex_derive r th) -> (forall th, ex_derive (Derive r) th) ->
  (forall l th, (l <= 2)%nat -> ex_derive (Derive_n (fun t => sqrt (r t ^ 2 + Derive r t ^ 2)) l) th) ->
  (forall l th, (l <= 1)%nat -> ex_derive (Derive_n (b_curv r) l) th) ->
  forall O glo ghi D k th n,
  open2 O -> (forall t, glo < t < ghi -> O (r t * cos t) (r t * sin t)) ->
  partials O 4 D -> helmholtz O k D (fun _ _ _ _ => RtoC 0) -> glo < th < ghi ->
  let nx t := fst (eval_normal r t) in
  let ny t := snd (eval_normal r t) in
  let u0 t := D 0%nat 0%nat (r t * cos t) (r t * sin t) in
  let u1 t := Cplus (Cmult (RtoC (nx t)) (D 1%nat 0%nat (r t * cos t) (r t * sin t)))
                    (Cmult (RtoC (ny t)) (D 0%nat 1%nat (r t * cos t) (r t * sin t))) in
  extend_polar k n (b_curv r th) (b_d_curv r th) (b_d2_curv r th)
    (b_d_th r th) (b_d2_th r th) (b_d3_th r th) (b_d4_th r th)
    (mk_pd (u0 th) (u1 th) (CDerive_n u0 1 th) (CDerive_n u1 1 th)
       (CDerive_n u0 2 th) (CDerive_n u1 2 th) (CDerive_n u0 3 th) (CDerive_n u0 4 th)) =
  taylor_poly (fun t => D 0%nat 0%nat (r th * cos th + t * nx th) (r th * sin th + t * ny th)) 4 n.
Proof. exact polar_homogeneous_taylor. Qed.
Print Assumptions C19_polar.

(** C19. End to end on the two straight segments: when the Chebyshev
    expansions equal the traces of a Helmholtz solution around the foot point,
    the value computed for a standard node is the Taylor polynomial of that
    solution at the node. The segment runs in direction (e1, e2) and has
    outward normal sg (e2, -e1). *)
Theorem C19_node_straight : forall c sid p x y O lo hi D e1 e2 sg,
  0 < ec_R c -> 0 < ec_a c < PI -> (1 <= sid < 3)%nat ->
  length (ec_c0 c) = length (ec_B c) -> length (ec_c1 c) = length (ec_B c) ->
  ctx_coord c p = (x, y) -> node_etype c sid p = Ok EStandard ->
  (sid = 1%nat /\ e1 = 1 /\ e2 = 0 /\ sg = -1 \/ sid = 2%nat /\ e1 = cos (ec_a c) /\ e2 = sin (ec_a c) /\ sg = 1) ->
  let foot := x * e1 + y * e2 in
  let nn := sg * (x * e2 - y * e1) in
  let u0 t := D 0%nat 0%nat (t * e1) (t * e2) in
  let u1 t := Cplus (Cmult (RtoC (sg * e2)) (D 1%nat 0%nat (t * e1) (t * e2)))
                    (Cmult (RtoC (sg * - e1)) (D 0%nat 1%nat (t * e1) (t * e2))) in
  let g := eval_g_inv (ec_R c) (ec_a c) sid in
  open2 O -> (forall t, lo < t < hi -> O (t * e1) (t * e2)) -> partials O 4 D ->
  helmholtz O (ec_k c) D (fun _ _ _ _ => RtoC 0) -> lo < foot < hi ->
  (forall t, lo < t < hi -> seg_function g (ec_B c) (ec_c0 c) sid t = u0 t /\
                            seg_function g (ec_B c) (ec_c1 c) sid t = u1 t) ->
  do_extend c SrcCoef sid EStandard p =
  Ok (Rabs nn, taylor_poly (fun m => D 0%nat 0%nat (foot * e1 + m * (sg * e2)) (foot * e2 + m * (sg * - e1))) 4 nn).
Proof. exact node_taylor_12. Qed.
Print Assumptions C19_node_straight.

(** C19. End to end on the outer curve. *)
Theorem C19_node_curve : forall c p n th Sa Th O lo hi D,
  0 < ec_R c -> 0 < ec_a c < PI ->
  length (ec_c0 c) = length (ec_B c) -> length (ec_c1 c) = length (ec_B c) ->
  let r := ec_r c in
  (forall t, 0 < r t ^ 2 + Derive r t ^ 2) ->
  (forall t, is_derive Sa t (sqrt (r t ^ 2 + Derive r t ^ 2))) -> (forall y, Sa (Th y) = y) ->
  (forall t, ex_derive r t) -> (forall t, ex_derive (Derive r) t) ->
  (forall l t, (l <= 2)%nat -> ex_derive (Derive_n (fun t => sqrt (r t ^ 2 + Derive r t ^ 2)) l) t) ->
  (forall l t, (l <= 1)%nat -> ex_derive (Derive_n (b_curv r) l) t) ->
  In p (ec_gamma c 0) -> ec_bcoord c p = Some (n, th) -> node_etype c 0 p = Ok EStandard ->
  let nx t := fst (eval_normal r t) in
  let ny t := snd (eval_normal r t) in
  let u0 t := D 0%nat 0%nat (r t * cos t) (r t * sin t) in
  let u1 t := Cplus (Cmult (RtoC (nx t)) (D 1%nat 0%nat (r t * cos t) (r t * sin t)))
                    (Cmult (RtoC (ny t)) (D 0%nat 1%nat (r t * cos t) (r t * sin t))) in
  let g := eval_g_inv (ec_R c) (ec_a c) 0 in
  open2 O -> (forall t, lo < t < hi -> O (r t * cos t) (r t * sin t)) -> partials O 4 D ->
  helmholtz O (ec_k c) D (fun _ _ _ _ => RtoC 0) -> lo < th < hi ->
  (forall t, lo < t < hi -> seg_function g (ec_B c) (ec_c0 c) 0 t = u0 t /\
                            seg_function g (ec_B c) (ec_c1 c) 0 t = u1 t) ->
  do_extend c SrcCoef 0 EStandard p =
  Ok (Rabs n, taylor_poly (fun m => D 0%nat 0%nat (r th * cos th + m * nx th) (r th * sin th + m * ny th)) 4 n).
Proof. exact node_taylor_0. Qed.
Print Assumptions C19_node_curve.

(** A plane wave near the unit circle. *)
Example C19_nonvacuous : let D := sep (wave 5 (3 / 5) (4 / 5)) in
  open2 everywhere /\ unit_curve 0 1 cos sin (fun s => - sin s) cos (fun _ => -1) /\
  (forall m, partials everywhere m D) /\ helmholtz everywhere 5 D (fun _ _ _ _ => RtoC 0) /\
  D 0%nat 0%nat 0 0 = RtoC 1 /\ D 1%nat 0%nat 0 0 = (0, 3).
Proof.
  intros D. split; [exact everywhere_open|]. split; [apply circle_unit|]. split; [intros m; apply wave_partials|].
  split; [apply wave_helmholtz; field|]. destruct (wave_origin 5 (3 / 5) (4 / 5)) as [E1 E2].
  split; [exact E1|]. unfold D. rewrite E2. f_equal. field.
Qed.

(** The solution x cos(k y) + sin(k y) has traces x and k on the segment at
    angle 0; they are represented by two Chebyshev coefficients. *)
Example C19_node_straight_nonvacuous : forall k, let c := ridge_ctx k in let D := sep (ridge k) in
  ctx_coord c (3, 3)%Z = (1, 1) /\ node_etype c 1 (3, 3)%Z = Ok EStandard /\ ec_k c = k /\
  length (ec_c0 c) = length (ec_B c) /\ length (ec_c1 c) = length (ec_B c) /\
  (forall m, partials everywhere m D) /\ helmholtz everywhere k D (fun _ _ _ _ => RtoC 0) /\
  (forall t, let u0 t := D 0%nat 0%nat (t * 1) (t * 0) in
     let u1 t := Cplus (Cmult (RtoC (-1 * 0)) (D 1%nat 0%nat (t * 1) (t * 0)))
                       (Cmult (RtoC (-1 * - (1))) (D 0%nat 1%nat (t * 1) (t * 0))) in
     let g := eval_g_inv (ec_R c) (ec_a c) 1 in
     seg_function g (ec_B c) (ec_c0 c) 1 t = u0 t /\ seg_function g (ec_B c) (ec_c1 c) 1 t = u1 t).
Proof.
  intros k c D. split; [apply ex_coord_1|]. split; [apply ex_etype_1|]. split; [reflexivity|].
  split; [reflexivity|]. split; [reflexivity|]. split; [intros m; apply ridge_partials|].
  split; [apply ridge_helmholtz|]. intros t. apply ridge_trace.
Qed.

(** The complex logarithm has affine trace ln R + i theta on the arc. *)
Example C19_node_curve_nonvacuous : let c := log_ctx in
  ec_bcoord c (0, 2)%Z = Some (- (3 / 10), PI) /\ node_etype c 0 (0, 2)%Z = Ok EStandard /\
  In (0, 2)%Z (ec_gamma c 0) /\ ec_k c = 0 /\ open2 left_half /\ partials left_half 4 logD /\
  helmholtz left_half 0 logD (fun _ _ _ _ => RtoC 0) /\
  (forall t, PI / 2 < t < 3 * (PI / 2) ->
     let r := ec_r c in
     let u0 t := logD 0%nat 0%nat (r t * cos t) (r t * sin t) in
     let u1 t := Cplus (Cmult (RtoC (fst (eval_normal r t))) (logD 1%nat 0%nat (r t * cos t) (r t * sin t)))
                       (Cmult (RtoC (snd (eval_normal r t))) (logD 0%nat 1%nat (r t * cos t) (r t * sin t))) in
     let g := eval_g_inv (ec_R c) (ec_a c) 0 in
     seg_function g (ec_B c) (ec_c0 c) 0 t = u0 t /\ seg_function g (ec_B c) (ec_c1 c) 0 t = u1 t).
Proof.
  intros c. split; [apply ex_bcoord|]. split; [apply ex_etype_arc|]. split; [left; reflexivity|].
  split; [reflexivity|]. split; [exact left_half_open|]. split; [apply logD_partials|].
  split; [apply logD_harmonic|exact log_trace].
Qed.

(** C20. convert_d, convert_d2 and convert_d4 are the chain rule. *)
Theorem C20_chain_rule : forall (xi : R -> C) (Th : R -> R) glo ghi lo hi s,
  Csmooth_on 4 glo ghi xi -> smooth_on 4 lo hi Th -> (forall s, lo < s < hi -> glo < Th s < ghi) -> lo < s < hi ->
  let T l := Derive_n Th l s in
  let d l := CDerive_n xi l (Th s) in
  convert_d (T 1%nat) (d 1%nat) = CDerive_n (fun s => xi (Th s)) 1 s /\
  convert_d2 (T 1%nat) (T 2%nat) (d 1%nat) (d 2%nat) = CDerive_n (fun s => xi (Th s)) 2 s /\
  convert_d4 (T 1%nat) (T 2%nat) (T 3%nat) (T 4%nat) (d 1%nat) (d 2%nat) (d 3%nat) (d 4%nat)
    = CDerive_n (fun s => xi (Th s)) 4 s.
Proof. exact convert_chain. Qed.
Print Assumptions C20_chain_rule.

(** C20. The formulas of class Boundary are the derivatives of the inverse of
    the arclength function. *)
Theorem C20_arclength : forall r Sa Th : R -> R,
  (forall th, 0 < r th ^ 2 + Derive r th ^ 2) ->
  (forall th, is_derive Sa th (sqrt (r th ^ 2 + Derive r th ^ 2))) -> (forall y, Sa (Th y) = y) ->
  (forall l th, (l <= 2)%nat -> ex_derive (Derive_n (fun t => sqrt (r t ^ 2 + Derive r t ^ 2)) l) th) ->
  forall s, Derive_n Th 1 s = b_d_th r (Th s) /\ Derive_n Th 2 s = b_d2_th r (Th s) /\
    Derive_n Th 3 s = b_d3_th r (Th s) /\ Derive_n Th 4 s = b_d4_th r (Th s) /\
    (forall l, (l < 4)%nat -> ex_derive (Derive_n Th l) s).
Proof. exact boundary_th_derivs. Qed.
Print Assumptions C20_arclength.

(** The circle of radius 2; a non-constant speed is used in C50. *)
Example C20_nonvacuous : let r := r_arc 2 in
  (forall t, 0 < r t ^ 2 + Derive r t ^ 2) /\
  (forall t, is_derive (fun th => 2 * th) t (sqrt (r t ^ 2 + Derive r t ^ 2))) /\
  (forall y, (fun th => 2 * th) ((fun s => s / 2) y) = y) /\
  (forall l t, (l <= 2)%nat -> ex_derive (Derive_n (fun t => sqrt (r t ^ 2 + Derive r t ^ 2)) l) t).
Proof.
  intros r. destruct (arc_smooth 2 ltac:(lra)) as (H1 & H2 & H3 & _ & _ & H6 & _).
  split; [exact H1|]. split; [exact H2|]. split; [exact H3|exact H6].
Qed.

(** C21. inhomo_extend_arbitrary returns the Taylor polynomial of the
    particular solution with zero Cauchy data. *)
Theorem C21_taylor : forall O lo hi X Y tx ty kap D F k s n,
  open2 O -> unit_curve lo hi X Y tx ty kap -> (forall s, lo < s < hi -> O (X s) (Y s)) ->
  partials O 4 D -> partials O 2 F -> helmholtz O k D F ->
  (forall s, lo < s < hi -> trace0 D X Y s = RtoC 0 /\ trace1 D X Y tx ty s = RtoC 0) -> lo < s < hi ->
  inhomo_extend_arbitrary k n (kap s) (trace0 F X Y s) (trace1 F X Y tx ty s) (trace2 F X Y tx ty s)
    (CDerive_n (trace0 F X Y) 2 s) =
  taylor_poly (along_normal D X Y tx ty s) 4 n.
Proof. exact particular_taylor. Qed.
Print Assumptions C21_taylor.

(** C21. d2_f_s is the second arclength derivative of the source along the
    curve. *)
Theorem C21_d2_f_s : forall r Sa Th : R -> R,
  (forall th, 0 < r th ^ 2 + Derive r th ^ 2) ->
  (forall th, is_derive Sa th (sqrt (r th ^ 2 + Derive r th ^ 2))) -> (forall y, Sa (Th y) = y) ->
  (forall th, ex_derive r th) -> (forall th, ex_derive (Derive r) th) ->
  (forall l th, (l <= 2)%nat -> ex_derive (Derive_n (fun t => sqrt (r t ^ 2 + Derive r t ^ 2)) l) th) ->
  forall (U : R -> R -> Prop) (Q : nat -> nat -> R -> R -> C) glo ghi s,
  partials U 2 Q -> (forall t, glo < t < ghi -> U (r t) t) -> glo < Th s < ghi ->
  let q i j := Q i j (r (Th s)) (Th s) in
  polar_d2_f_s (q 0%nat 1%nat) (q 0%nat 2%nat) (q 1%nat 0%nat) (q 2%nat 0%nat) (q 1%nat 1%nat)
    (b_d_th r (Th s)) (b_d2_th r (Th s)) (b_d_r r (Th s)) (b_d2_r r (Th s)) =
  CDerive_n (fun s => Q 0%nat 0%nat (r (Th s)) (Th s)) 2 s.
Proof. exact polar_d2_f_s_spec. Qed.
Print Assumptions C21_d2_f_s.

(** C21. inhomo_extend_polar on a curve r = r(theta). [F] is the source in
    Cartesian, [Q] in polar coordinates. *)
Theorem C21_polar : forall r Sa Th : R -> R,
  (forall th, 0 < r th ^ 2 + Derive r th ^ 2) ->
  (forall th, is_derive Sa th (sqrt (r th ^ 2 + Derive r th ^ 2))) -> (forall y, Sa (Th y) = y) ->
  (forall th, ex_derive r th) -> (forall th, ex_derive (Derive r) th) ->
  (forall l th, (l <= 2)%nat -> ex_derive (Derive_n (fun t => sqrt (r t ^ 2 + Derive r t ^ 2)) l) th) ->
  (forall l th, (l <= 1)%nat -> ex_derive (Derive_n (b_curv r) l) th) ->
  forall O U glo ghi D F Q k th n,
  open2 O -> (forall t, glo < t < ghi -> O (r t * cos t) (r t * sin t)) ->
  partials O 4 D -> partials O 2 F -> helmholtz O k D F ->
  partials U 2 Q -> (forall t, glo < t < ghi -> U (r t) t) ->
  (forall t, glo < t < ghi -> Q 0%nat 0%nat (r t) t = F 0%nat 0%nat (r t * cos t) (r t * sin t)) ->
  glo < th < ghi ->
  let nx t := fst (eval_normal r t) in
  let ny t := snd (eval_normal r t) in
  let grad_n t := Cplus (Cmult (RtoC (nx t)) (D 1%nat 0%nat (r t * cos t) (r t * sin t)))
                        (Cmult (RtoC (ny t)) (D 0%nat 1%nat (r t * cos t) (r t * sin t))) in
  (forall t, glo < t < ghi -> D 0%nat 0%nat (r t * cos t) (r t * sin t) = RtoC 0 /\ grad_n t = RtoC 0) ->
  let q i j := Q i j (r th) th in
  let line (G : nat -> nat -> R -> R -> C) t := G 0%nat 0%nat (r th * cos th + t * nx th) (r th * sin th + t * ny th) in
  inhomo_extend_polar k n (b_curv r th) (line F 0) (CDerive_n (line F) 1 0) (CDerive_n (line F) 2 0)
    (q 0%nat 1%nat) (q 0%nat 2%nat) (q 1%nat 0%nat) (q 2%nat 0%nat) (q 1%nat 1%nat)
    (b_d_th r th) (b_d2_th r th) (b_d_r r th) (b_d2_r r th) =
  taylor_poly (line D) 4 n.
Proof. exact polar_particular_taylor. Qed.
Print Assumptions C21_polar.

(** (x^2 + y^2 - 1)^2 near the unit circle. *)
Example C21_nonvacuous : forall k, let D := sep bump in let F := sep (bump_source k) in
  (forall m, partials everywhere m D) /\ (forall m, partials everywhere m F) /\ helmholtz everywhere k D F /\
  (forall s, trace0 D cos sin s = RtoC 0 /\ trace1 D cos sin (fun s => - sin s) cos s = RtoC 0) /\
  D 0%nat 0%nat 0 0 = RtoC 1.
Proof.
  intros k D F. split; [intros; apply bump_partials|]. split; [intros; apply bump_source_partials|].
  split; [apply bump_helmholtz|]. split; [apply bump_traces|]. exact bump_centre.
Qed.

(** C22. Every basis extension exists. *)
Theorem C22_basis : forall c JJ bi, ctx_wf c -> (JJ < length (ec_B c))%nat -> (bi < 2)%nat ->
  exists e, extend_basis c JJ bi = Ok e /\ length e = length (ec_union c).
Proof. exact extend_basis_ok. Qed.
Print Assumptions C22_basis.

(** C22. The boundary extension is the combination of the basis extensions
    plus the extension of the source term. *)
Theorem C22_linear : forall c extf (E0 E1 : nat -> list C), ctx_wf c ->
  length (ec_c0 c) = length (ec_B c) -> length (ec_c1 c) = length (ec_B c) ->
  (forall JJ, (JJ < length (ec_B c))%nat -> extend_basis c JJ 0 = Ok (E0 JJ) /\ extend_basis c JJ 1 = Ok (E1 JJ)) ->
  extend_inhomo_f c = Ok extf ->
  exists r, extend_boundary c SrcCoef false = Ok r /\ length r = length (ec_union c) /\
    forall i, (i < length (ec_union c))%nat -> as_vec r i =
      Cplus (csum (length (ec_B c)) (fun JJ => Cplus (Cmult (as_vec (ec_c0 c) JJ) (as_vec (E0 JJ) i))
                                                     (Cmult (as_vec (ec_c1 c) JJ) (as_vec (E1 JJ) i))))
            (as_vec extf i).
Proof. exact extension_linear. Qed.
Print Assumptions C22_linear.

(** C22. With homogeneous_only the source term is left out. *)
Theorem C22_homogeneous_only : forall c (E0 E1 : nat -> list C), ctx_wf c ->
  length (ec_c0 c) = length (ec_B c) -> length (ec_c1 c) = length (ec_B c) ->
  (forall JJ, (JJ < length (ec_B c))%nat -> extend_basis c JJ 0 = Ok (E0 JJ) /\ extend_basis c JJ 1 = Ok (E1 JJ)) ->
  exists r, extend_boundary c SrcCoef true = Ok r /\ length r = length (ec_union c) /\
    forall i, (i < length (ec_union c))%nat -> as_vec r i =
      csum (length (ec_B c)) (fun JJ => Cplus (Cmult (as_vec (ec_c0 c) JJ) (as_vec (E0 JJ) i))
                                              (Cmult (as_vec (ec_c1 c) JJ) (as_vec (E1 JJ) i))).
Proof. exact extension_linear_homogeneous. Qed.
Print Assumptions C22_homogeneous_only.

(** C22. For homogeneous problems the extension of the source term is zero;
    an error of it is an error of the boundary extension. *)
Theorem C22_source_zero : forall c, ctx_wf c -> ec_homogeneous c = true ->
  length (ec_c0 c) = length (ec_B c) -> length (ec_c1 c) = length (ec_B c) ->
  extend_inhomo_f c = Ok (map (fun _ => RtoC 0) (ec_union c)).
Proof. exact extend_inhomo_homogeneous. Qed.
Print Assumptions C22_source_zero.

Theorem C22_source_error : forall c e, ctx_wf c -> ec_homogeneous c = false ->
  length (ec_c0 c) = length (ec_B c) -> length (ec_c1 c) = length (ec_B c) ->
  extend_inhomo_f c = Err e -> extend_boundary c SrcCoef false = Err e.
Proof. exact extend_inhomo_error. Qed.
Print Assumptions C22_source_error.

(** C22. Unit coefficient vectors give the basis extensions. *)
Theorem C22_unit : forall c JJ bi, ctx_wf c -> (JJ < length (ec_B c))%nat -> (bi < 2)%nat ->
  length (ec_c0 c) = length (ec_B c) -> length (ec_c1 c) = length (ec_B c) ->
  let n := length (ec_B c) in let u := unit_coef n JJ in let z := repeat (RtoC 0) n in
  extend_boundary (match bi with 0%nat => with_basis c (ec_B c) u z | _ => with_basis c (ec_B c) z u end)
    SrcCoef true = extend_basis c JJ bi.
Proof. exact extend_unit. Qed.
Print Assumptions C22_unit.

(** C22. The solver on the arc domain satisfies [ctx_wf] under the bound of
    C10. *)
Theorem C22_arc_solver : forall brentq order c, brentq_contract brentq -> (order = 2 \/ order = 4)%Z ->
  arc_solver brentq order c ->
  ec_R c > ec_AD c / IZR (ec_N c) * sqrt 2 * (1 + sqrt (2 / (1 - Rabs (cos (ec_a c))))) ->
  ctx_wf c.
Proof. exact arc_ctx_wf. Qed.
Print Assumptions C22_arc_solver.

(** Solvers with the project's geometry exist for any basis and coefficients;
    a small one with three nodes is well-formed. *)
Example C22_nonvacuous : forall k B c0 c1 hom src,
  (exists c, arc_solver min_zero 4 c /\ ec_k c = k /\ ec_R c = 23 / 10 /\ ec_a c = PI / 4 /\ ec_AD c = 2 * PI /\
    ec_N c = 64%Z /\ ec_B c = B /\ ec_c0 c = c0 /\ ec_c1 c = c1 /\ ec_homogeneous c = hom /\ ec_src c = src) /\
  23 / 10 > 2 * PI / IZR 64 * sqrt 2 * (1 + sqrt (2 / (1 - Rabs (cos (PI / 4))))) /\
  ctx_wf (ex_ctx k B c0 c1 hom src).
Proof.
  intros. pose proof PI_RGT_0. split.
  - apply arc_solver_exists; [exact min_zero_contract|right; reflexivity|lra|lra|lra|lia].
  - split; [exact project_bound|apply ex_wf].
Qed.

(** C23. The tangential Taylor step is exact on quartic data. *)
Theorem C23_exact : forall d0 delta arg (xi : nat -> R -> C) (c : nat -> nat -> C),
  (forall i t, (i < 2)%nat -> xi i t =
     Cplus (Cplus (Cplus (Cplus (c i 0%nat) (Cmult (c i 1%nat) (RtoC t))) (Cmult (c i 2%nat) (RtoC (t ^ 2))))
       (Cmult (c i 3%nat) (RtoC (t ^ 3)))) (Cmult (c i 4%nat) (RtoC (t ^ 4)))) ->
  (forall l i, (l < 5)%nat -> (i < 2)%nat -> xi_get d0 l i = Ok (CDerive_n (xi i) l arg)) ->
  exists d, taylor_shift d0 delta = Ok d /\
    forall m i, (m < 5)%nat -> (i < 2)%nat -> xi_get d m i = Ok (CDerive_n (xi i) m (arg + delta)).
Proof. exact taylor_step_exact. Qed.
Print Assumptions C23_exact.

(** C23. For smooth data the error is the Lagrange remainder. *)
Theorem C23_remainder : forall d0 delta arg (xi : nat -> R -> C) lo hi,
  lo < arg < hi -> lo < arg + delta < hi -> (forall i, (i < 2)%nat -> Csmooth_on 5 lo hi (xi i)) ->
  (forall l i, (l < 5)%nat -> (i < 2)%nat -> xi_get d0 l i = Ok (CDerive_n (xi i) l arg)) ->
  exists d, taylor_shift d0 delta = Ok d /\
    forall m i, (m < 5)%nat -> (i < 2)%nat -> exists v t1 t2, xi_get d m i = Ok v /\ 0 < t1 < 1 /\ 0 < t2 < 1 /\
      Cminus (CDerive_n (xi i) m (arg + delta)) v =
      (delta ^ (5 - m) / INR (fact (5 - m)) * Derive_n (fun t => fst (xi i t)) 5 (arg + t1 * delta),
       delta ^ (5 - m) / INR (fact (5 - m)) * Derive_n (fun t => snd (xi i t)) 5 (arg + t2 * delta)).
Proof. exact taylor_step_spec. Qed.
Print Assumptions C23_remainder.

(** C23. The table starts from the derivatives of the boundary functions. *)
Theorem C23_starting_values : forall c types arg sid,
  (forall o i, In (o, i) types -> (o <= 4)%nat /\ (i < 2)%nat) ->
  length (ec_c0 c) = length (ec_B c) -> length (ec_c1 c) = length (ec_B c) ->
  -1 < eval_g_inv (ec_R c) (ec_a c) sid arg < 1 ->
  exists d, calc_xi_derivs c SrcCoef types arg sid = Ok d /\
    forall o i, In (o, i) types -> xi_get d o i =
      Ok (CDerive_n (seg_function (eval_g_inv (ec_R c) (ec_a c) sid) (ec_B c)
            (match i with O => ec_c0 c | _ => ec_c1 c end) sid) o arg).
Proof. exact table_derivs. Qed.
Print Assumptions C23_starting_values.

(** At a corner of the example solver the table exists with non-zero data. *)
Example C23_nonvacuous : let c := ridge_ctx 1 in
  -1 < eval_g_inv (ec_R c) (ec_a c) 1 0 < 1 /\
  length (ec_c0 c) = length (ec_B c) /\ length (ec_c1 c) = length (ec_B c) /\
  seg_function (eval_g_inv (ec_R c) (ec_a c) 1) (ec_B c) (ec_c1 c) 1 0 = RtoC 1.
Proof. exact ridge_corner. Qed.

(** C28. Straight segments: the node is point(arg + delta) + n normal with the
    values that are handed to the extension formulas. *)
Theorem C28_straight : forall c sid e p x y, 0 < ec_R c -> 0 < ec_a c < PI -> (1 <= sid < 3)%nat ->
  ctx_coord c p = (x, y) -> node_etype c sid p = Ok e ->
  exists arg delta n,
    seg_range (ec_R c) (ec_a c) sid arg /\ (e = EStandard -> delta = 0) /\
    (forall nv, is_normal (ec_r c) (ec_a c) sid (arg + delta) nv ->
       x = fst (seg_point (ec_r c) (ec_a c) sid (arg + delta)) + n * fst nv /\
       y = snd (seg_point (ec_r c) (ec_a c) sid (arg + delta)) + n * snd nv) /\
    (forall B c0 c1 s, do_extend (with_basis c B c0 c1) s sid e p =
       match e with
       | EStandard => d <- calc_xi_derivs (with_basis c B c0 c1) s types_12 arg sid;;
                      v <- extend_radius c n d;; Ok (Rabs n, v)
       | _ => do_extend_taylor (with_basis c B c0 c1) s p arg sid delta n
       end).
Proof. exact coords_12. Qed.
Print Assumptions C28_straight.

(** C28. Outer curve: the start argument plus the tangential step is the
    boundary coordinate theta. *)
Theorem C28_curve : forall c e p n th, 0 < ec_a c < PI ->
  In p (ec_gamma c 0) -> ec_bcoord c p = Some (n, th) -> node_etype c 0 p = Ok e ->
  exists arg delta, seg_range (ec_R c) (ec_a c) 0 arg /\ arg + delta = th /\ (e = EStandard -> delta = 0) /\
    forall B c0 c1 s, do_extend (with_basis c B c0 c1) s 0 e p =
      match e with
      | EStandard => d <- calc_xi_derivs (with_basis c B c0 c1) s types_0 arg 0;;
                     v <- extend_at c n th d;; Ok (Rabs n, v)
      | _ => d0 <- calc_xi_derivs (with_basis c B c0 c1) s taylor_types arg 0;;
             d <- taylor_shift d0 delta;; v <- extend_at c n th d;;
             Ok (Rabs delta * ec_R c + Rabs n, v)
      end.
Proof. exact coords_0. Qed.
Print Assumptions C28_curve.

(** C28. ... and the node is curve(theta) + n normal(theta), for every smooth
    curve (in particular the arc). *)
Theorem C28_curve_point : forall c p n th brentq x y nv, brentq_contract brentq -> 0 < ec_a c < PI ->
  (forall t, ex_derive (ec_r c) t) -> (forall t, ex_derive (Derive (ec_r c)) t) -> (forall t, 0 < ec_r c t) ->
  ec_bcoord c p = node_bcoord brentq (ec_r c) (ec_a c) (ec_AD c) (ec_N c) p ->
  ec_bcoord c p = Some (n, th) -> ctx_coord c p = (x, y) -> is_normal (ec_r c) (ec_a c) 0 th nv ->
  x = fst (seg_point (ec_r c) (ec_a c) 0 th) + n * fst nv /\
  y = snd (seg_point (ec_r c) (ec_a c) 0 th) + n * snd nv.
Proof. exact coords_0_point. Qed.
Print Assumptions C28_curve_point.

Example C28_nonvacuous : let c := ridge_ctx 1 in
  ctx_coord c (0, 2)%Z = (-2, 0) /\ ec_bcoord c (0, 2)%Z = Some (- (3 / 10), PI) /\
  ec_bcoord c = node_bcoord min_zero (ec_r c) (ec_a c) (ec_AD c) (ec_N c) /\ brentq_contract min_zero /\
  In (0, 2)%Z (ec_gamma c 0) /\ node_etype c 0 (0, 2)%Z = Ok EStandard /\ node_etype c 1 (0, 2)%Z = Ok ELeft /\
  is_normal (ec_r c) (ec_a c) 0 PI (-1, 0).
Proof.
  intros c. split; [apply ex_coord_arc|]. split; [apply ex_bcoord|]. split; [reflexivity|].
  split; [exact min_zero_contract|]. split; [left; reflexivity|]. split; [apply ex_etype_arc|].
  split; [apply ex_etype_left|exact arc_normal_pi].
Qed.
