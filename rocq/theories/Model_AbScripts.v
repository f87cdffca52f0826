(** scripts/abcoef/generate_data2.py, scripts/abcoef/bet_generate.py,
    scripts/abcoef/run_test.py and scripts/abcoef/expansion_error.py. What
    abcoef.calc_a_coef returns, a pair of coefficients and singular values, is
    an argument (modelled in Model_Abcoef). The problems these scripts name are
    not in the repository (nor are modules that problems/__init__.py:11-15
    imports); they are arguments too. *)
From Coq Require Import ZArith List Bool Reals String.
From Coquelicot Require Import Coquelicot.
From Verif Require Import Model_Py Model_Domain Model_Abcoef Model_Singular.
Import ListNotations.
Open Scope R_scope.

(** scripts/abcoef/generate_data2.py:53, 56 and scripts/abcoef/bet_generate.py:63,
    np.abs(a_coef - problem.fft_a_coef[:7]), for arrays of at least seven
    entries (numpy would not subtract arrays of other lengths). *)
Definition as_errors (a_coef fft_a_coef : list C) : list R :=
  map (fun i => Cmod (Cminus (nth i a_coef (RtoC 0)) (nth i fft_a_coef (RtoC 0)))) (seq 0 7).

(** scripts/abcoef/generate_data2.py:67 [_problems]. *)
Definition gd2_problems : list string := ["trace-hat"; "trace-line-sine"; "trace-parabola"]%string.
(** scripts/abcoef/generate_data2.py:68 [_boundaries]. *)
Definition gd2_boundaries : list string := ["outer-sine"; "sine7"; "inner-sine"; "cubic"]%string.
(** scripts/abcoef/generate_data2.py:69 [m1_list], range(10, 276, 5). *)
Definition gd2_m1_list : list Z := map (fun i => 10 + 5 * Z.of_nat i)%Z (seq 0 54).
(** scripts/abcoef/generate_data2.py:70 [n_tests]. *)
Definition gd2_n_tests : Z :=
  (Z.of_nat (List.length gd2_m1_list) * Z.of_nat (List.length gd2_problems) * Z.of_nat (List.length gd2_boundaries))%Z.

(** scripts/abcoef/generate_data2.py:38-48 [output]; the entries m_max, k, a
    and bet are dropped. *)
Record trend := {
  tr_problem : string; tr_boundary : string;
  tr_m1_data : list Z; tr_error : list (list R); tr_singular : list (list R) }.

(** scripts/abcoef/generate_data2.py:50-59, the loop over m1 with n_done. The
    assertion of 26 holds for the real arrays it is given; the progress printed
    in 60-61 is dropped. *)
Fixpoint gd2_loop (calc : Z -> list C * list R) (fft_a_coef : list C) (m1s : list Z) (t : trend) (n_done : Z) : trend * Z :=
  match m1s with
  | [] => (t, n_done)
  | m1 :: rest =>
      let '(a_coef, singular_vals) := calc m1 in
      gd2_loop calc fft_a_coef rest
        {| tr_problem := tr_problem t; tr_boundary := tr_boundary t;
           tr_m1_data := tr_m1_data t ++ [m1];
           tr_error := tr_error t ++ [as_errors a_coef fft_a_coef];
           tr_singular := tr_singular t ++ [singular_vals] |} (n_done + 1)%Z
  end.

(** scripts/abcoef/generate_data2.py:63 [fname]; [k] is problem.k as text. *)
Definition gd2_fname (problem_name boundary_name k : string) : string :=
  ("m1trend_" ++ problem_name ++ "_" ++ boundary_name ++ "_" ++ k ++ ".dat")%string.

(** scripts/abcoef/generate_data2.py:21-65 [go]: the file written. *)
Definition gd2_go (kstr : string -> string) (calc : string -> string -> Z -> list C * list R) (fft : string -> list C)
    (p b : string) (n_done : Z) : (string * trend) * Z :=
  let '(t, n) := gd2_loop (calc p b) (fft p) gd2_m1_list
    {| tr_problem := p; tr_boundary := b; tr_m1_data := []; tr_error := []; tr_singular := [] |} n_done in
  ((gd2_fname p b (kstr p), t), n).

(** scripts/abcoef/generate_data2.py:19, 72-74: the files in the order of
    writing, and n_done at the end. *)
Definition gd2_run (kstr : string -> string) (calc : string -> string -> Z -> list C * list R) (fft : string -> list C)
  : list (string * trend) * Z :=
  fold_left (fun acc p =>
    fold_left (fun acc b =>
      let '(f, n) := gd2_go kstr calc fft p b (snd acc) in (fst acc ++ [f], n)) gd2_boundaries acc) gd2_problems ([], 0%Z).

(** scripts/abcoef/bet_generate.py:45-67 [test_many], from the values of bet
    and m1 at the head of the loop: m1 at the end and the entries bet, a_error
    and singular_vals of the results. [boundary] is boundary_cls(R, bet),
    [get_m1] problem.get_m1() for that boundary. *)
Fixpoint bg_loop {B : Type} (boundary : R -> B) (get_m1 : B -> Z) (calc : B -> Z -> list C * list R) (fft_a_coef : list C)
    (n : nat) (bet : R) (m1 : option Z) : option Z * list (R * list R * list R) :=
  match n with
  | O => (m1, [])
  | S n =>
      let b := boundary bet in
      let m := match m1 with None => get_m1 b | Some m => m end in
      let '(a_coef, singular_vals) := calc b m in
      let '(m', rest) := bg_loop boundary get_m1 calc fft_a_coef n (bet * (95 / 100)) (Some m) in
      (m', (bet, as_errors a_coef fft_a_coef, singular_vals) :: rest)
  end.

(** scripts/abcoef/bet_generate.py:28, 47-50, 71. *)
Definition bg_run {B : Type} (boundary : R -> B) (get_m1 : B -> Z) (calc : B -> Z -> list C * list R) (fft_a_coef : list C)
  : option Z * list (R * list R * list R) :=
  bg_loop boundary get_m1 calc fft_a_coef 100 (5 / 10) None.

(** scripts/abcoef/run_test.py:72 [m1_list], range(10, 250, 2). *)
Definition rt_m1_list : list Z := map (fun i => 10 + 2 * Z.of_nat i)%Z (seq 0 120).

(** The methods of a problem of class SingularKnown: problems/problem.py:15-44,
    55-101 and problems/singular.py:29-60. *)
Definition sk_methods : list string :=
  ["__init__"; "eval_expected"; "eval_expected_polar"; "eval_f"; "eval_f_polar"; "get_n_basis"; "get_n_basis_dict";
   "get_m1"; "set_boundary"; "eval_expected__no_w"]%string.

(** scripts/abcoef/run_test.py:36-38 [eval_phi0] on the attribute the script
    names; [methods] are those of the problem, [call] what they compute. *)
Definition rt_eval_phi0 (methods : list string) (call : string -> R -> R -> C) (eval_r : R -> R) (th : R) : result C :=
  let name := "eval_expected_"%string in
  if existsb (String.eqb name) methods then Ok (call name (eval_r th) th) else Err AttributeError.

(** abcoef.py:21-24, the values of eval_bc0 that calc_a_coef takes, when
    eval_bc0 may raise, at a list of angles. *)
Fixpoint rt_values (eval_bc0 : R -> result C) (ths : list R) : result (list C) :=
  match ths with
  | [] => Ok []
  | th :: rest => v <- eval_bc0 th;; vs <- rt_values eval_bc0 rest;; Ok (v :: vs)
  end.

(** scripts/abcoef/run_test.py:74-88, the loop of test_many: for each m1 whose
    header was printed, error7 with whether '!!!' was printed, and how the loop
    ended; the assertion is that of print_array (41). [coef m1] is the array of coefficients; min_error7 is None for inf. *)
Fixpoint rt_loop (coef : Z -> result (list C)) (fft_a_coef : list C) (min_error7 : option R) (m1s : list Z)
  : list (Z * option (R * bool)) * result unit :=
  match m1s with
  | [] => ([], Ok tt)
  | m1 :: rest =>
      match coef m1 with
      | Err e => ([(m1, None)], Err e)
      | Ok a_coef =>
          if negb (forallb (fun z => Reqb (Im z) 0) a_coef) then ([(m1, None)], Err AssertionError) else
          let error7 := fold_right Rmax 0 (as_errors a_coef fft_a_coef) in
          let better := match min_error7 with None => true | Some e => Rltb error7 e end in
          let '(out, r) := rt_loop coef fft_a_coef (if better then Some error7 else min_error7) rest in
          ((m1, Some (error7, better)) :: out, r)
      end
  end.

(** scripts/abcoef/run_test.py:68-72, 91; [solve m1 data] are the coefficients
    calc_a_coef finds from the values at its nodes. *)
Definition rt_run (solve : Z -> list C -> list C) (eval_bc0 : R -> result C) (fft_a_coef : list C)
  : list (Z * option (R * bool)) * result unit :=
  rt_loop (fun m1 => vs <- rt_values eval_bc0 (map (ab_th ab_n_nodes) (seq 0 ab_n_nodes));; Ok (solve m1 vs))
    fft_a_coef None rt_m1_list.

(** scripts/abcoef/expansion_error.py:16 [m_max]. *)
Definition ee_m_max : nat := 500.

(** scripts/abcoef/expansion_error.py:28-35 [b_expan]. *)
Definition ee_b_expan (fft_b_coef : list C) (a nu th : R) : result C :=
  fold_left (fun acc m =>
    expan <- acc;; b <- list_get fft_b_coef (m - 1);;
    Ok (Cplus expan (Cmult b (RtoC (sin (INR m * nu * (th - a))))))) (seq 1 ee_m_max) (Ok (RtoC 0)).
