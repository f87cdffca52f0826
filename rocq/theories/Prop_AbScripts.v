(** Property C97: the experiments with the Fourier-Bessel coefficients. *)
From Coq Require Import ZArith List Bool Reals String Lia.
From Coquelicot Require Import Coquelicot.
From Verif Require Import Model_Py Model_Domain Model_Abcoef Model_Singular Model_AbScripts Proof_AbScripts.
Import ListNotations.
Open Scope R_scope.

(** C97. generate_data2.py writes twelve files with different names, one for
    each problem and boundary; each holds the column numbers 10, 15, ..., 275,
    the errors of the seven coefficients for each, and the singular values. The
    progress ends at 100%. *)
Theorem C97_trend : forall kstr calc fft, let '(files, n_done) := gd2_run kstr calc fft in
  n_done = gd2_n_tests /\ n_done = 648%Z /\ List.length files = 12%nat /\ NoDup (map fst files) /\
  forall p b, In p ["trace-hat"; "trace-line-sine"; "trace-parabola"]%string ->
  In b ["outer-sine"; "sine7"; "inner-sine"; "cubic"]%string -> exists t,
    In (("m1trend_" ++ p ++ "_" ++ b ++ "_" ++ kstr p ++ ".dat")%string, t) files /\ tr_problem t = p /\ tr_boundary t = b /\
    List.length (tr_m1_data t) = 54%nat /\ List.length (tr_error t) = 54%nat /\ List.length (tr_singular t) = 54%nat /\
    forall i, (i < 54)%nat -> let m1 := (10 + 5 * Z.of_nat i)%Z in
      nth i (tr_m1_data t) 0%Z = m1 /\ List.length (nth i (tr_error t) []) = 7%nat /\
      nth i (tr_singular t) [] = snd (calc p b m1) /\
      forall j, (j < 7)%nat -> nth j (nth i (tr_error t) []) 0 = Cmod (Cminus (nth j (fst (calc p b m1)) (RtoC 0)) (nth j (fft p) (RtoC 0))).
Proof. exact trend_spec. Qed.
Print Assumptions C97_trend.

Example C97_trend_example : exists t, In ("m1trend_trace-hat_sine7_5.5.dat"%string, t) (fst (gd2_run (fun _ => "5.5"%string) (fun _ _ => ex_calc) (fun _ => repeat (RtoC 3) 300))) /\
  nth 2 (tr_m1_data t) 0%Z = 20%Z /\ nth 6 (nth 2 (tr_error t) []) 0 = 17.
Proof. exact trend_ex. Qed.

(** C97. bet_generate.py has 100 results; the one of number i is for the
    boundary with bet = .5 (.95)^i, which stays between .003 and .5, and all
    use the column number of the first boundary. *)
Theorem C97_bet : forall (B : Type) (boundary : R -> B) get_m1 calc fft,
  let '(m1, out) := bg_run boundary get_m1 calc fft in let m := get_m1 (boundary (/ 2)) in
  m1 = Some m /\ List.length out = 100%nat /\ forall i, (i < 100)%nat -> exists errors,
    let bet := / 2 * (19 / 20) ^ i in
    nth i out (0, [], []) = (bet, errors, snd (calc (boundary bet) m)) /\ 3 / 1000 < bet <= / 2 /\
    List.length errors = 7%nat /\
    forall j, (j < 7)%nat -> nth j errors 0 = Cmod (Cminus (nth j (fst (calc (boundary bet) m)) (RtoC 0)) (nth j fft (RtoC 0))).
Proof. exact bet_spec. Qed.
Print Assumptions C97_bet.

(** A column number that depends on bet: the first one is kept. *)
Example C97_bet_example : let '(m1, out) := bg_run (fun bet => bet) (fun b => if Rltb b (/ 3) then 9%Z else 12%Z) (fun b m => ([RtoC b], [IZR m])) [] in
  m1 = Some 12%Z /\ exists e, nth 99 out (0, [], []) = (/ 2 * (19 / 20) ^ 99, e, [12]).
Proof. exact bet_ex. Qed.

(** C97. run_test.py, as shipped, ends after the header of m1 = 10: no problem
    has the method eval_expected_ that it calls. *)
Theorem C97_run_test_fails : forall solve call eval_r fft,
  rt_run solve (rt_eval_phi0 sk_methods call eval_r) fft = ([(10%Z, None)], Err AttributeError).
Proof. exact run_test_fails. Qed.
Print Assumptions C97_run_test_fails.

(** C97. With a method that returns, and real coefficients, it would go
    through 10, 12, ..., 248 and mark the errors below all earlier ones. *)
Theorem C97_run_test_marks : forall solve phi fft, let data := map (fun i => phi (ab_th ab_n_nodes i)) (seq 0 ab_n_nodes) in
  let err m := fold_right Rmax 0 (map (fun j => Cmod (Cminus (nth j (solve m data) (RtoC 0)) (nth j fft (RtoC 0)))) (seq 0 7)) in
  (forall m, (10 <= m <= 248)%Z -> Z.Even m -> List.Forall (fun z => Im z = 0) (solve m data)) ->
  exists marks, rt_run solve (fun th => Ok (phi th)) fft = (marks, Ok tt) /\ List.length marks = 120%nat /\
  forall i, (i < 120)%nat -> let m := (10 + 2 * Z.of_nat i)%Z in exists b, nth i marks (0%Z, None) = (m, Some (err m, b)) /\
    (b = true <-> forall j, (j < i)%nat -> err m < err (10 + 2 * Z.of_nat j)%Z).
Proof. exact run_test_marks. Qed.
Print Assumptions C97_run_test_marks.

Example C97_run_test_example : let solve m (_ : list C) := repeat (RtoC (Rabs (IZR m - 14))) 7 in
  (forall m data, List.Forall (fun z => Im z = 0) (solve m data)) /\
  exists marks, rt_run solve (fun _ => Ok (RtoC 1)) [] = (marks, Ok tt) /\
    nth 1 marks (0%Z, None) = (12%Z, Some (2, true)) /\ nth 3 marks (0%Z, None) = (16%Z, Some (2, false)).
Proof. exact marks_ex. Qed.

(** C97. The first column number for which a coefficient is not real ends it,
    by the assertion of print_array. *)
Theorem C97_run_test_complex : forall solve phi fft i, let data := map (fun i => phi (ab_th ab_n_nodes i)) (seq 0 ab_n_nodes) in
  let real m := List.Forall (fun z => Im z = 0) (solve m data) in (i < 120)%nat ->
  (forall j, (j < i)%nat -> real (10 + 2 * Z.of_nat j)%Z) -> ~ real (10 + 2 * Z.of_nat i)%Z -> exists out,
  rt_run solve (fun th => Ok (phi th)) fft = (out ++ [((10 + 2 * Z.of_nat i)%Z, None)], Err AssertionError) /\ List.length out = i.
Proof. exact run_test_complex. Qed.
Print Assumptions C97_run_test_complex.

Example C97_run_test_complex_example : let solve (m : Z) (_ : list C) := repeat (if (m <? 14)%Z then RtoC 1 else Ci) 7 in
  (forall j data, (j < 2)%nat -> List.Forall (fun z => Im z = 0) (solve (10 + 2 * Z.of_nat j)%Z data)) /\
  forall data, ~ List.Forall (fun z => Im z = 0) (solve (10 + 2 * Z.of_nat 2)%Z data).
Proof. exact complex_ex. Qed.

(** C97. expansion_error.py sums 500 terms, but SingularKnown keeps 300
    coefficients: the sum raises IndexError. *)
Theorem C97_expansion : forall b a nu th,
  ((500 <= List.length b)%nat -> ee_b_expan b a nu th =
    Ok (fold_left (fun acc m => Cplus acc (Cmult (nth (m - 1) b (RtoC 0)) (RtoC (sin (INR m * nu * (th - a)))))) (seq 1 500) (RtoC 0))) /\
  ((List.length b < 500)%nat -> ee_b_expan b a nu th = Err IndexError).
Proof. exact expansion_spec. Qed.
Print Assumptions C97_expansion.

Example C97_expansion_example : (500 <= List.length (RtoC 1 :: repeat (RtoC 0) 499))%nat /\
  ee_b_expan (RtoC 1 :: repeat (RtoC 0) 499) 0 1 (PI / 2) = Ok (RtoC 1).
Proof. exact expansion_ex. Qed.

Theorem C97_expansion_fails : forall to_dst a nu th,
  ee_b_expan (sk_b_coef to_dst a ab_n_nodes sk_m_max) a nu th = Err IndexError.
Proof. exact expansion_class. Qed.
Print Assumptions C97_expansion_fails.
