(** ps/zmethod.py: the run of the regularisation, from the z problem to the
    report of the error of v. *)
From Coq Require Import String ZArith List Bool Reals.
From Coquelicot Require Import Coquelicot.
From Verif Require Import Model_Py Model_Grid Model_Fourier Model_Domain Model_Abcoef Model_Ode
  Model_PolarFD Model_ZMethod.
Import ListNotations.
Open Scope R_scope.

(** ps/zmethod.py:42 [self.arc_R]. *)
Definition zm_arc_R (Rb bet : R) : R := Rb + bet.

(** ps/zmethod.py:216-229: the polar problem posed by [do_z_BVP]. The source
    and its derivatives are the constant [zero] of line 219; the problem of
    202-207 is never used. *)
Definition zm_z_fd (N : Z) (k a nu R0 arc_R : R) (M : nat) (z1_fourier : list R)
    (v_series eval_gq : R -> R -> R) (eval_phi1 eval_phi2 : R -> R) : polar_fd :=
  {| pf_N := N; pf_a := a; pf_R0 := R0; pf_R1 := arc_R; pf_k := k;
     pf_phi_initial := fun th => zm_lambdify v_series R0 th;
     pf_phi0 := zm_z_phi0 (fun m => nth m z1_fourier 0) eval_gq a nu arc_R M;
     pf_phi1 := eval_phi1; pf_phi2 := eval_phi2;
     pf_f := fun _ _ => 0; pf_d_f_r := fun _ _ => 0; pf_d2_f_r := fun _ _ => 0;
     pf_d2_f_th := fun _ _ => 0 |}.

(** ps/zmethod.py:218-241: the table v. [spsolve] stands for the sparse solver
    called at ps/polarfd.py:237. *)
Definition zm_v (spsolve : pf_system -> Z -> R) (acheat : bool) (s : polar_fd) (m l : Z) : C :=
  let z := if acheat then fun _ => 0 else spsolve (assemble s) in
  RtoC (z (get_index (pf_N s) m l)).

(** ps/zmethod.py:308-311 [rmin]. *)
Definition zm_rmin (N : Z) (Rb bet : R) : R :=
  if (128 <=? N)%Z then (Rb - bet) * (2 / 3) else 0.

(** ps/zmethod.py:313-318 and 324-327: the circles kept. *)
Definition zm_kept (s : polar_fd) (rmin : R) : list Z :=
  filter (fun m => negb (Rltb (get_r s (IZR m)) rmin)) (py_range 0 (pf_N s + 1)).

(** ps/zmethod.py:302-318 [r_data]. *)
Definition zm_r_data (s : polar_fd) (rmin : R) : list R :=
  map (fun m => get_r s (IZR m)) (zm_kept s rmin).

(** ps/zmethod.py:320-322 [th_data]. *)
Definition zm_th_data (s : polar_fd) : list R := map (get_th s) (py_range 0 (pf_N s + 1)).

(** ps/zmethod.py:324-333: the flattened table, in the order of the appends. *)
Definition zm_v_data (s : polar_fd) (rmin : R) (v : Z -> Z -> C) : list C :=
  flat_map (fun m => map (fun l => v m l) (py_range 0 (pf_N s + 1))) (zm_kept s rmin).

(** ps/zmethod.py:296-342 [create_v_interp]. [interp2d x y z] is scipy's
    interp2d(x, y, z, kind='quintic') applied to scalars. *)
Definition zm_v_interp (interp2d : list R -> list R -> list R -> R -> R -> R)
    (s : polar_fd) (Rb bet : R) (v : Z -> Z -> C) (r th : R) : C :=
  let rmin := zm_rmin (pf_N s) Rb bet in
  let x := zm_r_data s rmin in
  let y := zm_th_data s in
  (interp2d x y (map fst (zm_v_data s rmin v)) r th,
   interp2d x y (map snd (zm_v_data s rmin v)) r th).

(** ps/zmethod.py:391-392 [u_BVP.eval_expected_polar]. *)
Definition zm_u_expected (expected v_asympt : R -> R -> R) (r th : R) : R :=
  expected r th - v_asympt r th.

(** ps/zmethod.py:412-422, one row of [get_v_error]: np.max raises ValueError
    on an empty slice. *)
Definition zm_row_error (s : polar_fd) (eval_v : R -> R -> R) (v : Z -> Z -> C) (M : nat) (m : Z)
  : result R :=
  let n := Z.to_nat (pf_N s - 1) in
  let to_dst := fun i => Cminus (RtoC (eval_v (get_r s (IZR m)) (get_th s (i + 1)))) (v m (i + 1)%Z) in
  py_max (map (fun j => Cmod (Cdiv (dst1 n to_dst (Z.of_nat j)) (RtoC (IZR (pf_N s)))))
    (seq 0 (Nat.min M n))).

(** ps/zmethod.py:412-422, the loop over the circles. *)
Fixpoint zm_row_errors (s : polar_fd) (eval_v : R -> R -> R) (v : Z -> Z -> C) (M : nat)
    (rows : list Z) : result (list R) :=
  match rows with
  | [] => Ok []
  | m :: rows' =>
      e <- zm_row_error s eval_v v M m;;
      es <- zm_row_errors s eval_v v M rows';;
      Ok (e :: es)
  end.

(** ps/zmethod.py:408-424 [get_v_error]. *)
Definition zm_v_error (s : polar_fd) (eval_v : R -> R -> R) (v : Z -> Z -> C) (M : nat) : result R :=
  es <- zm_row_errors s eval_v v M (py_range 1 (pf_N s));;
  py_max es.
