(** extend.py: equation-based extension from the boundary along the normal. *)
From Coq Require Import ZArith List Bool Reals.
From Coquelicot Require Import Coquelicot.
Import ListNotations.
Open Scope C_scope.

(** The keyword arguments of extend_arbitrary holding boundary data
    (extend.py:71-77). Values are complex; geometry and [k] are real. A missing
    keyword would raise KeyError; the call sites are static. *)
Record ext_data := mk_ed {
  ed_xi0 : C; ed_xi1 : C; ed_d_xi0 : C; ed_d_xi1 : C;
  ed_d2_xi0 : C; ed_d2_xi1 : C; ed_d4_xi0 : C }.

(** extend.py:105-107 (and 169-171): sum of derivs[l] / l! * n**l, starting
    at index [l]. *)
Fixpoint taylor_loop (derivs : list C) (l : nat) (n : R) : C :=
  match derivs with
  | [] => 0
  | d :: ds => d / RtoC (INR (fact l)) * RtoC (n ^ l) + taylor_loop ds (S l) n
  end.

(** extend.py:81-103, the list [derivs] of extend_arbitrary. *)
Definition arbitrary_derivs (k curv d_curv_s d2_curv_s : R) (e : ext_data) : list C :=
  let xi0 := ed_xi0 e in let xi1 := ed_xi1 e in
  let d_xi0_s := ed_d_xi0 e in let d_xi1_s := ed_d_xi1 e in
  let d2_xi0_s := ed_d2_xi0 e in let d2_xi1_s := ed_d2_xi1 e in
  let d4_xi0_s := ed_d4_xi0 e in
  let d2 := RtoC (- k ^ 2) * xi0 + RtoC curv * xi1 - d2_xi0_s in
  let d3 := RtoC (curv ^ 2 - k ^ 2) * xi1 + RtoC curv * d2
            - RtoC d_curv_s * d_xi0_s - RtoC (2 * curv) * d2_xi0_s - d2_xi1_s in
  let d4_v_n2_s2 := RtoC d2_curv_s * xi1 - RtoC (k ^ 2) * d2_xi0_s - d4_xi0_s
            + RtoC (2 * d_curv_s) * d_xi1_s + RtoC curv * d2_xi1_s in
  let d4 := RtoC (2 * curv ^ 3) * xi1 + RtoC (2 * curv ^ 2 - k ^ 2) * d2
            + RtoC curv * d3 - RtoC (6 * curv * d_curv_s) * d_xi0_s
            - RtoC (6 * curv ^ 2) * d2_xi0_s - RtoC (2 * d_curv_s) * d_xi1_s
            - RtoC (4 * curv) * d2_xi1_s - d4_v_n2_s2 in
  [xi0; xi1; d2; d3; d4].

(** extend.py:60-109 [extend_arbitrary]. *)
Definition extend_arbitrary (k n curv d_curv_s d2_curv_s : R) (e : ext_data) : C :=
  taylor_loop (arbitrary_derivs k curv d_curv_s d2_curv_s e) 0 n.

(** extend.py:31-32 [convert_d]. *)
Definition convert_d (d_th_s : R) (d : C) : C := d * RtoC d_th_s.

(** extend.py:34-35 [convert_d2]. *)
Definition convert_d2 (d_th_s d2_th_s : R) (d d2 : C) : C :=
  d2 * RtoC (d_th_s ^ 2) + d * RtoC d2_th_s.

(** extend.py:37-43 [convert_d4]. *)
Definition convert_d4 (d_th_s d2_th_s d3_th_s d4_th_s : R) (d d2 d3 d4 : C) : C :=
  RtoC (d_th_s ^ 4) * d4 + RtoC (6 * d_th_s ^ 2 * d2_th_s) * d3
  + RtoC (4 * d_th_s) * d2 * RtoC d3_th_s + RtoC (3 * d2_th_s ^ 2) * d2
  + RtoC d4_th_s * d.

(** [convert_d] applied to the real curvature (extend.py:55). *)
Definition convert_d_real (d_th_s d : R) : R := (d * d_th_s)%R.
(** [convert_d2] applied to the real curvature (extend.py:56). *)
Definition convert_d2_real (d_th_s d2_th_s d d2 : R) : R :=
  (d2 * d_th_s ^ 2 + d * d2_th_s)%R.

(** Angular derivatives of the boundary data, the keyword arguments
    extend.py:24-29 and 47-48. *)
Record polar_data := mk_pd {
  pd_xi0 : C; pd_xi1 : C; pd_d_xi0 : C; pd_d_xi1 : C;
  pd_d2_xi0 : C; pd_d2_xi1 : C; pd_d3_xi0 : C; pd_d4_xi0 : C }.

(** extend.py:10-57 [extend_polar]. *)
Definition extend_polar (k n curv d_curv_th d2_curv_th d_th_s d2_th_s d3_th_s d4_th_s : R)
    (d : polar_data) : C :=
  extend_arbitrary k n curv
    (convert_d_real d_th_s d_curv_th)
    (convert_d2_real d_th_s d2_th_s d_curv_th d2_curv_th)
    (mk_ed (pd_xi0 d) (pd_xi1 d)
       (convert_d d_th_s (pd_d_xi0 d)) (convert_d d_th_s (pd_d_xi1 d))
       (convert_d2 d_th_s d2_th_s (pd_d_xi0 d) (pd_d2_xi0 d))
       (convert_d2 d_th_s d2_th_s (pd_d_xi1 d) (pd_d2_xi1 d))
       (convert_d4 d_th_s d2_th_s d3_th_s d4_th_s
          (pd_d_xi0 d) (pd_d2_xi0 d) (pd_d3_xi0 d) (pd_d4_xi0 d))).

(** extend.py:158-167, the list [derivs] of inhomo_extend_arbitrary. *)
Definition inhomo_derivs (k curv : R) (f d_f_n d2_f_n d2_f_s : C) : list C :=
  let d2 := f in
  let d3 := d_f_n + RtoC curv * d2 in
  let d4 := d2_f_n + RtoC (2 * curv ^ 2 - k ^ 2) * d2 + RtoC curv * d3 - d2_f_s in
  [RtoC 0; RtoC 0; d2; d3; d4].

(** extend.py:145-173 [inhomo_extend_arbitrary]. *)
Definition inhomo_extend_arbitrary (k n curv : R) (f d_f_n d2_f_n d2_f_s : C) : C :=
  taylor_loop (inhomo_derivs k curv f d_f_n d2_f_n d2_f_s) 0 n.

(** extend.py:128-140, the value [d2_f_s] of inhomo_extend_polar. *)
Definition polar_d2_f_s (d_f_th d2_f_th d_f_r d2_f_r d2_f_r_th : C)
    (d_th_s d2_th_s d_r_th d2_r_th : R) : C :=
  let d_r_s := (d_r_th * d_th_s)%R in
  let d2_r_s := (d2_r_th * d_th_s ^ 2 + d_r_th * d2_th_s)%R in
  let d2_f_th_s := d2_f_th * RtoC d_th_s + d2_f_r_th * RtoC d_r_s in
  let d2_f_r_s := d2_f_r_th * RtoC d_th_s + d2_f_r * RtoC d_r_s in
  d2_f_th_s * RtoC d_th_s + d_f_th * RtoC d2_th_s
  + d2_f_r_s * RtoC d_r_s + d_f_r * RtoC d2_r_s.

(** extend.py:111-143 [inhomo_extend_polar]. *)
Definition inhomo_extend_polar (k n curv : R) (f d_f_n d2_f_n : C)
    (d_f_th d2_f_th d_f_r d2_f_r d2_f_r_th : C)
    (d_th_s d2_th_s d_r_th d2_r_th : R) : C :=
  inhomo_extend_arbitrary k n curv f d_f_n d2_f_n
    (polar_d2_f_s d_f_th d2_f_th d_f_r d2_f_r d2_f_r_th d_th_s d2_th_s d_r_th d2_r_th).
