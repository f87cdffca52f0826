(** Vocabulary of property C74. *)
From Coq Require Import ZArith List Reals.
From Coquelicot Require Import Coquelicot.
From Verif Require Import Model_Multivalue Model_Fourier Model_Extend Model_Run Model_ZProgram Spec_Fd Spec_PolarFD Spec_ZRun
  Spec_Program.
Import ListNotations.
Open Scope R_scope.

(** The polar coordinates of a point, with the angle in [pi/4, 2 pi]; the
    origin gets the angle 2 pi. *)
Definition polar_coords (p : R * R) (r th : R) : Prop :=
  p = (r * cos th, r * sin th) /\ 0 <= r /\ PI / 4 <= th <= 2 * PI /\ (r = 0 -> th = 2 * PI).

(** The function with the value 0 at the origin. *)
Definition zero_at_origin (f : R -> R -> R) (r th : R) : R := if Req_EM_T r 0 then 0 else f r th.

(** The open region bounded by the curve and the two edges. *)
Definition pizza_region (eval_r : R -> R) (r th : R) : Prop := 0 < r < eval_r th /\ PI / 4 < th < 2 * PI.

(** [u] solves the Helmholtz equation with source [f] in the region and takes
    the values d0 on the curve and d1, d2 on the two edges. *)
Definition bvp (k : R) (eval_r : R -> R) (f : R -> R -> C) (d0 d1 d2 : R -> C) (u : R -> R -> C) : Prop :=
  csolves k (pizza_region eval_r) f u /\
  (forall th, PI / 4 <= th <= 2 * PI -> u (eval_r th) th = d0 th) /\
  (forall r, 0 < r <= 23 / 10 -> u r (2 * PI) = d1 r /\ u r (PI / 4) = d2 r).

(** The boundary value problem handed to the solver. *)
Definition posed (o : options) : (R -> R -> C) -> Prop :=
  bvp (o_k o) (o_r o) (s_f_polar (o_src o)) (fun th => o_bc o th 0%nat) (fun r => o_bc o r 1%nat) (fun r => o_bc o r 2%nat).

(** What the n-th of several runs is reported with: the error of v, the
    comparison of three successive tables, the comparison of two successive
    errors; then the same for u, errors only where there are some. *)
Definition report (zs : list zresult) (n : nat) : list zprinted :=
  let at_ i := nth_error zs i in
  let last2 (f : zresult -> zresult -> list zprinted) :=
    match n with S k => match at_ k, at_ n with Some b, Some c => f b c | _, _ => [] end | O => [] end in
  let last3 (f : zresult -> zresult -> zresult -> list zprinted) :=
    match n with
    | S (S k) => match at_ k, at_ (S k), at_ n with Some a, Some b, Some c => f a b c | _, _, _ => [] end
    | _ => []
    end in
  match at_ n with Some z => [VError (zr_v_error z)] | None => [] end ++
  last3 (fun a b c => [VRel (zr_v c) (zr_v b) (zr_v a)]) ++
  last2 (fun b c => [VConv (zr_v_error b) (zr_v_error c)]) ++
  match at_ n with Some z => match zr_u_error z with Some e => [UError e] | None => [] end | None => [] end ++
  last3 (fun a b c => [URel (zr_u c) (zr_u b) (zr_u a)]) ++
  last2 (fun b c => match zr_u_error b, zr_u_error c with Some e, Some e' => [UConv e e'] | _, _ => [] end).
