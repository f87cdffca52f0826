(** ps/debug.py: sampling of the boundary and the comparison of the boundary
    data with their expansions. The plots (c0_test 166-178, c1_test 239-250,
    color_plot 271-300) are not modelled; print_c1 (181-195) is in
    Model_Plot.v. *)
From Coq Require Import ZArith List Bool Reals.
From Coquelicot Require Import Coquelicot.
From Verif Require Import Model_Py Model_Multivalue Model_Grid Model_Chebyshev Model_Domain
  Model_Ext Model_Extend.
Import ListNotations.
Open Scope R_scope.

(** numpy.linspace(lo, hi, n), used in ps/debug.py:22-24: [n] equidistant
    values, both ends included ([lo] alone for n = 1). *)
Definition np_linspace (lo hi : R) (n : nat) : list R :=
  map (fun i => lo + INR i * ((hi - lo) / INR (n - 1))) (seq 0 n).

(** The dict describing a sampled point (ps/debug.py:54-60). *)
Record bpoint := mk_bp { bp_arg : R; bp_x : R; bp_y : R; bp_s : R; bp_sid : nat }.

(** ps/debug.py:43-86 [get_boundary_sample_by_sid]; another sid gives no
    points. *)
Definition sample_by_sid (eval_r : R -> R) (R0 a : R) (sid : nat) (args : list R) : list bpoint :=
  match sid with
  | 0%nat => map (fun th => let r := eval_r th in
      mk_bp th (r * cos th) (r * sin th) (R0 * (th - a)) sid) args
  | 1%nat => map (fun r => mk_bp r r 0 (R0 * (2 * PI - a + 1) - r) sid) args
  | 2%nat => map (fun r => mk_bp r (r * cos a) (r * sin a) (R0 * (2 * PI - a + 1) + r) sid) args
  | _ => []
  end.

(** ps/debug.py:21. *)
Definition sample_ep : R := 1 / 100000.

(** ps/debug.py:20-33 [get_boundary_sample] with extended=False. *)
Definition get_boundary_sample (eval_r : R -> R) (R0 a : R) (n : nat) : list bpoint :=
  let th_data := np_linspace (a + sample_ep) (2 * PI - sample_ep) (3 * n) in
  let r_data := np_linspace sample_ep R0 n in
  sample_by_sid eval_r R0 a 0 th_data ++ sample_by_sid eval_r R0 a 1 (rev r_data) ++
  sample_by_sid eval_r R0 a 2 r_data.

(** ps/debug.py:35-41: the two lists added with extended=True. *)
Definition get_boundary_extensions (eval_r : R -> R) (R0 a : R) (n : nat)
  : list bpoint * list bpoint :=
  let dth := a / 4 in
  (sample_by_sid eval_r R0 a 0 (np_linspace (2 * PI) (2 * PI + dth) n),
   sample_by_sid eval_r R0 a 0 (np_linspace (a - dth) a n)).

(** ps/debug.py:143-146 (and 228-231), the loop over the basis; [acc] is
    expansion_data[l]. A coefficient list shorter than B_desc raises
    IndexError. *)
Fixpoint expansion_loop (R0 a : R) (B : list (nat * nat)) (cs : list C) (arg : R) (sid : nat)
    (JJs : list nat) (acc : R) : result R :=
  match JJs with
  | [] => Ok acc
  | JJ :: JJs' =>
      x <- list_get cs JJ;;
      b <- eval_dn_B_arg R0 a B 0 JJ arg sid;;
      expansion_loop R0 a B cs arg sid JJs' (acc + Re (Cmult x (RtoC b)))
  end.

(** ps/debug.py:130-146: (sid, exact value, value of the expansion) at one
    sampled point. The segment and the parameter of the expansion are computed
    again from the Cartesian coordinates; get_sid falling off the end makes
    eval_bc return None, whose [.real] raises AttributeError. *)
Definition c0_point (eval_bc : R -> nat -> C) (R0 a : R) (B : list (nat * nat)) (c0 : list C)
    (p : bpoint) : result (nat * R * R) :=
  let '(r, th) := cart_to_polar (bp_x p) (bp_y p) in
  match get_sid a th with
  | None => Err AttributeError
  | Some sid =>
      let exact := Re (eval_bc (bp_arg p) sid) in
      let arg := if Nat.eqb sid 0 then th else r in
      e <- expansion_loop R0 a B c0 arg sid (seq 0 (length B)) 0;;
      Ok (sid, exact, e)
  end.

(** ps/debug.py:129-150, the loop over the sample. *)
Fixpoint c0_points (eval_bc : R -> nat -> C) (R0 a : R) (B : list (nat * nat)) (c0 : list C)
    (ps : list bpoint) : result (list (nat * R * R)) :=
  match ps with
  | [] => Ok []
  | p :: ps' =>
      x <- c0_point eval_bc R0 a B c0 p;;
      xs <- c0_points eval_bc R0 a B c0 ps';;
      Ok (x :: xs)
  end.

(** ps/debug.py:111-156 [c0_test] up to the plot: the printed pair (outer
    error, error), for sample size [n] (the default, line 120); np.max of an empty
    array raises ValueError. *)
Definition c0_test (n : nat) (eval_r : R -> R) (eval_bc : R -> nat -> C) (R0 a : R)
    (B : list (nat * nat)) (c0 : list C) : result (R * R) :=
  xs <- c0_points eval_bc R0 a B c0 (get_boundary_sample eval_r R0 a n);;
  let diff := fun x : nat * R * R => Rabs (snd (fst x) - snd x) in
  eo <- py_max (map diff (filter (fun x => Nat.eqb (fst (fst x)) 0) xs));;
  e <- py_max (map diff xs);;
  Ok (eo, e).

(** ps/debug.py:20, 120: the default sample size. *)
Definition sample_n : nat := 100.

(** ps/debug.py:88-101 [calc_c1_exact]; [eval_d_u_outwards arg sid] is the
    problem's normal derivative. *)
Definition calc_c1_exact (chebfit : list R -> list C -> nat -> list C)
    (nodes : list R) (R0 a : R) (segment_desc : list (nat * list nat))
    (eval_d_u_outwards : R -> nat -> C) : result (list C) :=
  let fix go sids acc :=
    match sids with
    | [] => Ok acc
    | sid :: sids' =>
        d <- list_get segment_desc sid;;
        c <- get_chebyshev_coef chebfit nodes R0 a sid (fst d) (fun arg => eval_d_u_outwards arg sid);;
        go sids' (acc ++ c)
    end in
  go (seq 0 3) [].

(** ps/debug.py:214-231, one pass of the loop of c1_test: (exact, expansion).
    The exact value uses the recorded segment (218), the expansion the one
    computed again. With get_sid falling off the end no basis function has the
    segment None, so the expansion is 0 there. *)
Definition c1_point (eval_d_u_outwards : R -> nat -> C) (R0 a : R) (B : list (nat * nat))
    (c1 : list C) (p : bpoint) : result (R * R) :=
  let exact := Re (eval_d_u_outwards (bp_arg p) (bp_sid p)) in
  let '(r, th) := cart_to_polar (bp_x p) (bp_y p) in
  match get_sid a th with
  | None => Ok (exact, 0)
  | Some sid =>
      let arg := if Nat.eqb sid 0 then th else r in
      e <- expansion_loop R0 a B c1 arg sid (seq 0 (length B)) 0;;
      Ok (exact, e)
  end.

(** ps/debug.py:213-231, the loop over the sample. *)
Fixpoint c1_points (eval_d_u_outwards : R -> nat -> C) (R0 a : R) (B : list (nat * nat))
    (c1 : list C) (ps : list bpoint) : result (list (R * R)) :=
  match ps with
  | [] => Ok []
  | p :: ps' =>
      x <- c1_point eval_d_u_outwards R0 a B c1 p;;
      xs <- c1_points eval_d_u_outwards R0 a B c1 ps';;
      Ok (x :: xs)
  end.

(** ps/debug.py:197-237 [c1_test] when the exact normal derivative is known:
    the printed error. *)
Definition c1_test (n : nat) (eval_r : R -> R) (eval_d_u_outwards : R -> nat -> C) (R0 a : R)
    (B : list (nat * nat)) (c1 : list C) : result R :=
  xs <- c1_points eval_d_u_outwards R0 a B c1 (get_boundary_sample eval_r R0 a n);;
  py_max (map (fun x : R * R => Rabs (fst x - snd x)) xs).

(** ps/debug.py:103-109 [etype_filter]. *)
Fixpoint etype_filter (c : ext_ctx) (sid : nat) (nodes : list node) (etypes : list EType)
  : result (list node) :=
  match nodes with
  | [] => Ok []
  | p :: nodes' =>
      e <- node_etype c sid p;;
      rest <- etype_filter c sid nodes' etypes;;
      Ok (if existsb (etype_eqb e) etypes then p :: rest else rest)
  end.
