(** The experiments with the Fourier-Bessel coefficients (C97). *)
From Coq Require Import ZArith List Bool Reals String Lia Lra.
From Coquelicot Require Import Coquelicot.
From Verif Require Import Model_Py Model_Domain Model_Abcoef Model_Singular Model_AbScripts Proof_Domain.
Import ListNotations.
Open Scope R_scope.

Lemma nth_map_in : forall (A B : Type) (f : A -> B) l i d d', (i < List.length l)%nat -> nth i (map f l) d = f (nth i l d').
Proof. intros A B f l i d d' H. rewrite (nth_indep _ d (f d')) by (rewrite map_length; exact H). apply map_nth. Qed.

(** ** generate_data2.py *)

Lemma gd2_loop_eq : forall calc fft l t n, gd2_loop calc fft l t n =
  ({| tr_problem := tr_problem t; tr_boundary := tr_boundary t; tr_m1_data := tr_m1_data t ++ l;
      tr_error := tr_error t ++ map (fun m => as_errors (fst (calc m)) fft) l;
      tr_singular := tr_singular t ++ map (fun m => snd (calc m)) l |}, n + Z.of_nat (List.length l))%Z.
Proof.
  intros calc fft l. induction l as [|m l IH]; intros t n.
  - cbn. rewrite !app_nil_r, Z.add_0_r. destruct t; reflexivity.
  - cbn [gd2_loop map List.length]. destruct (calc m) as [a s] eqn:E. rewrite IH. cbn [fst snd tr_problem tr_boundary tr_m1_data tr_error tr_singular].
    rewrite <- !app_assoc. cbn [app]. f_equal. lia.
Qed.

Definition gd2_file kstr calc fft p b : string * trend :=
  (gd2_fname p b (kstr p), {| tr_problem := p; tr_boundary := b; tr_m1_data := gd2_m1_list;
    tr_error := map (fun m => as_errors (fst (calc p b m)) (fft p)) gd2_m1_list;
    tr_singular := map (fun m => snd (calc p b m)) gd2_m1_list |}).

Lemma gd2_go_eq : forall kstr calc fft p b n, gd2_go kstr calc fft p b n = (gd2_file kstr calc fft p b, n + 54)%Z.
Proof. intros. unfold gd2_go. rewrite gd2_loop_eq. reflexivity. Qed.

Lemma gd2_run_eq : forall kstr calc fft, gd2_run kstr calc fft =
  (flat_map (fun p => map (gd2_file kstr calc fft p) gd2_boundaries) gd2_problems, 648%Z).
Proof.
  intros. unfold gd2_run, gd2_problems, gd2_boundaries. cbn [fold_left flat_map map fst snd].
  repeat (rewrite gd2_go_eq; cbn [fst snd]). reflexivity.
Qed.

Lemma trend_spec : forall kstr calc fft, let '(files, n_done) := gd2_run kstr calc fft in
  n_done = gd2_n_tests /\ n_done = 648%Z /\ List.length files = 12%nat /\ NoDup (map fst files) /\
  forall p b, In p ["trace-hat"; "trace-line-sine"; "trace-parabola"]%string ->
  In b ["outer-sine"; "sine7"; "inner-sine"; "cubic"]%string -> exists t,
    In (("m1trend_" ++ p ++ "_" ++ b ++ "_" ++ kstr p ++ ".dat")%string, t) files /\ tr_problem t = p /\ tr_boundary t = b /\
    List.length (tr_m1_data t) = 54%nat /\ List.length (tr_error t) = 54%nat /\ List.length (tr_singular t) = 54%nat /\
    forall i, (i < 54)%nat -> let m1 := (10 + 5 * Z.of_nat i)%Z in
      nth i (tr_m1_data t) 0%Z = m1 /\ List.length (nth i (tr_error t) []) = 7%nat /\
      nth i (tr_singular t) [] = snd (calc p b m1) /\
      forall j, (j < 7)%nat -> nth j (nth i (tr_error t) []) 0 = Cmod (Cminus (nth j (fst (calc p b m1)) (RtoC 0)) (nth j (fft p) (RtoC 0))).
Proof.
  intros. rewrite gd2_run_eq. split; [reflexivity|]. split; [reflexivity|]. split; [reflexivity|]. split.
  - unfold gd2_problems, gd2_boundaries. cbn [flat_map map app gd2_file fst]. unfold gd2_fname. cbn [String.append].
    repeat (apply NoDup_cons; [cbn [In]; intros H; repeat (destruct H as [H|H]; [discriminate H|]); exact H|]). apply NoDup_nil.
  - intros p b Hp Hb. exists (snd (gd2_file kstr calc fft p b)). split.
    + change (In (gd2_file kstr calc fft p b) (flat_map (fun p => map (gd2_file kstr calc fft p) gd2_boundaries) gd2_problems)).
      apply in_flat_map. exists p. split; [exact Hp|]. apply in_map. exact Hb.
    + cbn [gd2_file snd tr_problem tr_boundary tr_m1_data tr_error tr_singular]. rewrite !map_length.
      assert (L : List.length gd2_m1_list = 54%nat) by reflexivity. rewrite L.
      do 5 (split; [reflexivity|]). intros i Hi. set (m1 := (10 + 5 * Z.of_nat i)%Z).
      assert (N : nth i gd2_m1_list 0%Z = m1).
      { unfold gd2_m1_list. rewrite (nth_map_in _ _ _ _ _ _ 0%nat) by (rewrite seq_length; exact Hi). rewrite seq_nth by exact Hi. reflexivity. }
      rewrite (nth_map_in _ _ _ gd2_m1_list i [] 0%Z) by (rewrite L; exact Hi).
      rewrite (nth_map_in _ _ _ gd2_m1_list i [] 0%Z) by (rewrite L; exact Hi). rewrite N.
      split; [reflexivity|]. split; [reflexivity|]. split; [reflexivity|].
      intros j Hj. unfold as_errors. rewrite (nth_map_in _ _ _ _ _ _ 0%nat) by (rewrite seq_length; exact Hj). rewrite seq_nth by exact Hj. reflexivity.
Qed.

(** ** bet_generate.py *)

Lemma bg_loop_some : forall (B : Type) (boundary : R -> B) get_m1 calc fft n bet m,
  let '(m', out) := bg_loop boundary get_m1 calc fft n bet (Some m) in
  m' = Some m /\ List.length out = n /\ forall i d, (i < n)%nat ->
    nth i out d = (bet * (95 / 100) ^ i, as_errors (fst (calc (boundary (bet * (95 / 100) ^ i)) m)) fft, snd (calc (boundary (bet * (95 / 100) ^ i)) m)).
Proof.
  intros B boundary get_m1 calc fft n. induction n as [|n IH]; intros bet m; cbn [bg_loop].
  - split; [reflexivity|]. split; [reflexivity|]. intros i d H. lia.
  - destruct (calc (boundary bet) m) as [a s] eqn:E. specialize (IH (bet * (95 / 100)) m).
    destruct (bg_loop boundary get_m1 calc fft n (bet * (95 / 100)) (Some m)) as [m' out]. destruct IH as (-> & L & H).
    split; [reflexivity|]. split; [cbn [List.length]; rewrite L; reflexivity|]. intros [|i] d Hi; cbn [nth pow].
    + rewrite Rmult_1_r, E. reflexivity.
    + rewrite H by lia. rewrite Rmult_assoc. reflexivity.
Qed.

Lemma bet_spec : forall (B : Type) (boundary : R -> B) get_m1 calc fft,
  let '(m1, out) := bg_run boundary get_m1 calc fft in let m := get_m1 (boundary (/ 2)) in
  m1 = Some m /\ List.length out = 100%nat /\ forall i, (i < 100)%nat -> exists errors,
    let bet := / 2 * (19 / 20) ^ i in
    nth i out (0, [], []) = (bet, errors, snd (calc (boundary bet) m)) /\ 3 / 1000 < bet <= / 2 /\
    List.length errors = 7%nat /\
    forall j, (j < 7)%nat -> nth j errors 0 = Cmod (Cminus (nth j (fst (calc (boundary bet) m)) (RtoC 0)) (nth j fft (RtoC 0))).
Proof.
  intros B boundary get_m1 calc fft. unfold bg_run.
  assert (E : bg_loop boundary get_m1 calc fft 100 (5 / 10) None = bg_loop boundary get_m1 calc fft 100 (5 / 10) (Some (get_m1 (boundary (5 / 10))))) by reflexivity.
  rewrite E. pose proof (bg_loop_some B boundary get_m1 calc fft 100 (5 / 10) (get_m1 (boundary (5 / 10)))) as H.
  destruct (bg_loop boundary get_m1 calc fft 100 (5 / 10) (Some (get_m1 (boundary (5 / 10))))) as [m1 out].
  replace (5 / 10) with (/ 2) in H by lra. replace (95 / 100) with (19 / 20) in H by lra. destruct H as (-> & L & H). clear E.
  split; [reflexivity|]. split; [exact L|]. intros i Hi.
  exists (as_errors (fst (calc (boundary (/ 2 * (19 / 20) ^ i)) (get_m1 (boundary (/ 2))))) fft). cbv zeta.
  split; [apply H; exact Hi|]. split; [|split].
  - assert (A : (19 / 20) ^ i <= 1) by (rewrite <- (pow1 i); apply pow_incr; lra).
    assert (D : (19 / 20) ^ 99 <= (19 / 20) ^ i).
    { replace 99%nat with ((99 - i) + i)%nat by lia. rewrite pow_add.
      assert ((19 / 20) ^ (99 - i) <= 1) by (rewrite <- (pow1 (99 - i)); apply pow_incr; lra).
      assert (0 < (19 / 20) ^ i) by (apply pow_lt; lra).
      rewrite <- (Rmult_1_l ((19 / 20) ^ i)) at 2. apply Rmult_le_compat_r; lra. }
    assert (G : 6 / 1000 < (19 / 20) ^ 99).
    { assert (P10 : 598 / 1000 <= (19 / 20) ^ 10) by (cbn [pow]; lra).
      replace 99%nat with (10 * 10 - 1)%nat by reflexivity.
      assert (Q : (19 / 20) ^ 99 >= (19 / 20) ^ 9 * (598 / 1000) ^ 9).
      { replace 99%nat with (9 + 10 * 9)%nat by reflexivity. rewrite pow_add, pow_mult. apply Rle_ge. apply Rmult_le_compat_l; [apply pow_le; lra|]. apply pow_incr. lra. }
      change (10 * 10 - 1)%nat with 99%nat. assert (6 / 1000 < (19 / 20) ^ 9 * (598 / 1000) ^ 9) by (cbn [pow]; lra). lra. }
    lra.
  - reflexivity.
  - intros j Hj. unfold as_errors. rewrite (nth_map_in _ _ _ _ _ _ 0%nat) by (rewrite seq_length; exact Hj). rewrite seq_nth by exact Hj. reflexivity.
Qed.

(** ** run_test.py *)

Lemma run_test_fails : forall solve call eval_r fft,
  rt_run solve (rt_eval_phi0 sk_methods call eval_r) fft = ([(10%Z, None)], Err AttributeError).
Proof.
  intros. unfold rt_run. assert (N : exists n, ab_n_nodes = S n) by (exists (Z.to_nat 2047); unfold ab_n_nodes; lia).
  destruct N as [n ->]. reflexivity.
Qed.

Definition rt_error (coef : Z -> list C) (fft : list C) (m : Z) : R :=
  fold_right Rmax 0 (map (fun j => Cmod (Cminus (nth j (coef m) (RtoC 0)) (nth j fft (RtoC 0)))) (seq 0 7)).

Lemma rt_loop_spec : forall coef fft l mn, (forall m, In m l -> List.Forall (fun z => Im z = 0) (coef m)) ->
  exists marks, rt_loop (fun m => Ok (coef m)) fft mn l = (map (fun x => (fst x, Some (rt_error coef fft (fst x), snd x))) (combine l marks), Ok tt) /\
  List.length marks = List.length l /\
  forall i, (i < List.length l)%nat -> nth i marks false = true <->
    (match mn with Some e => rt_error coef fft (nth i l 0%Z) < e | None => True end) /\
    forall j, (j < i)%nat -> rt_error coef fft (nth i l 0%Z) < rt_error coef fft (nth j l 0%Z).
Proof.
  intros coef fft l. induction l as [|m l IH]; intros mn Hr.
  - exists []. split; [reflexivity|]. split; [reflexivity|]. intros i H. cbn in H. lia.
  - cbn [rt_loop].
    assert (F : forallb (fun z => Reqb (Im z) 0) (coef m) = true).
    { apply forallb_forall. intros z Hz. pose proof (Hr m (or_introl eq_refl)) as H. rewrite List.Forall_forall in H. rewrite (H z Hz).
      destruct (Reqb_spec 0 0); [reflexivity|contradiction]. }
    rewrite F. cbn [negb]. change (fold_right Rmax 0 (as_errors (coef m) fft)) with (rt_error coef fft m). set (e := rt_error coef fft m).
    set (b := match mn with None => true | Some e0 => Rltb e e0 end).
    destruct (IH (if b then Some e else mn) (fun x Hx => Hr x (or_intror Hx))) as (marks & E & L & H).
    exists (b :: marks). rewrite E. split; [reflexivity|]. split; [cbn [List.length]; rewrite L; reflexivity|].
    intros [|i] Hi; cbn [nth].
    + unfold b. destruct mn as [e0|]; [|split; [intros _; split; [exact I|intros j Hj; lia]|reflexivity]].
      fold e. destruct (Rltb_spec e e0) as [P|P]; split; intros Q; [split; [exact P|intros j Hj; lia]|reflexivity|discriminate Q|destruct (P (proj1 Q))].
    + cbn [List.length] in Hi. rewrite (H i ltac:(lia)). unfold b. split.
      * intros [A B]. split.
        -- destruct mn as [e0|]; [|exact I]. destruct (Rltb_spec e e0) as [P|P]; lra.
        -- intros [|j] Hj; [|apply B; lia]. fold e. destruct mn as [e0|]; [|exact A]. destruct (Rltb_spec e e0) as [P|P]; [exact A|lra].
      * intros [A B]. pose proof (B 0%nat ltac:(lia)) as B0. cbn [nth] in B0. fold e in B0. split.
        -- destruct mn as [e0|]; [|exact B0]. destruct (Rltb_spec e e0) as [P|P]; [exact B0|exact A].
        -- intros j Hj. exact (B (S j) ltac:(lia)).
Qed.

Lemma rt_values_ok : forall f ths, rt_values (fun th => Ok (f th)) ths = Ok (map f ths).
Proof. intros f ths. induction ths as [|th ths IH]; [reflexivity|]. cbn [rt_values bind map]. rewrite IH. reflexivity. Qed.

Lemma run_test_marks : forall solve phi fft, let data := map (fun i => phi (ab_th ab_n_nodes i)) (seq 0 ab_n_nodes) in
  let err m := fold_right Rmax 0 (map (fun j => Cmod (Cminus (nth j (solve m data) (RtoC 0)) (nth j fft (RtoC 0)))) (seq 0 7)) in
  (forall m, (10 <= m <= 248)%Z -> Z.Even m -> List.Forall (fun z => Im z = 0) (solve m data)) ->
  exists marks, rt_run solve (fun th => Ok (phi th)) fft = (marks, Ok tt) /\ List.length marks = 120%nat /\
  forall i, (i < 120)%nat -> let m := (10 + 2 * Z.of_nat i)%Z in exists b, nth i marks (0%Z, None) = (m, Some (err m, b)) /\
    (b = true <-> forall j, (j < i)%nat -> err m < err (10 + 2 * Z.of_nat j)%Z).
Proof.
  intros solve phi fft data err Hr. unfold rt_run. rewrite rt_values_ok, map_map. fold data. cbn [bind].
  destruct (rt_loop_spec (fun m => solve m data) fft rt_m1_list None) as (marks & E & L & H).
  { intros m Hm. unfold rt_m1_list in Hm. apply in_map_iff in Hm. destruct Hm as [i [<- Hi]]. apply in_seq in Hi. apply Hr; [lia|]. exists (5 + Z.of_nat i)%Z. lia. }
  rewrite E. eexists. split; [reflexivity|]. assert (L1 : List.length rt_m1_list = 120%nat) by reflexivity.
  rewrite map_length, combine_length, L, L1. split; [reflexivity|]. intros i Hi. set (m := (10 + 2 * Z.of_nat i)%Z).
  assert (N : forall j, (j < 120)%nat -> nth j rt_m1_list 0%Z = (10 + 2 * Z.of_nat j)%Z).
  { intros j Hj. unfold rt_m1_list. rewrite (nth_map_in _ _ _ _ _ _ 0%nat) by (rewrite seq_length; exact Hj). rewrite seq_nth by exact Hj. reflexivity. }
  exists (nth i marks false). split.
  - rewrite (nth_map_in _ _ _ _ _ _ (0%Z, false)) by (rewrite combine_length, L, L1; exact Hi). rewrite combine_nth by (rewrite L; reflexivity).
    cbn [fst snd]. rewrite N by exact Hi. reflexivity.
  - rewrite (H i) by (rewrite L1; exact Hi). rewrite N by exact Hi. split.
    + intros [_ B] j Hj. specialize (B j Hj). rewrite N in B by lia. exact B.
    + intros B. split; [exact I|]. intros j Hj. rewrite N by lia. exact (B j Hj).
Qed.

Lemma rt_loop_stop : forall coef fft l1 m l2 mn, (forall x, In x l1 -> List.Forall (fun z => Im z = 0) (coef x)) ->
  ~ List.Forall (fun z => Im z = 0) (coef m) -> exists out,
  rt_loop (fun m => Ok (coef m)) fft mn (l1 ++ m :: l2) = (out ++ [(m, None)], Err AssertionError) /\ map fst out = l1.
Proof.
  intros coef fft l1 m l2. induction l1 as [|x l1 IH]; intros mn Hr Hm.
  - exists []. split; [|reflexivity]. cbn [app rt_loop].
    destruct (forallb (fun z => Reqb (Im z) 0) (coef m)) eqn:F; [|reflexivity]. exfalso. apply Hm. apply List.Forall_forall. intros z Hz.
    rewrite forallb_forall in F. specialize (F z Hz). destruct (Reqb_spec (Im z) 0) as [E|E]; [exact E|discriminate F].
  - cbn [app rt_loop].
    assert (F : forallb (fun z => Reqb (Im z) 0) (coef x) = true).
    { apply forallb_forall. intros z Hz. pose proof (Hr x (or_introl eq_refl)) as H. rewrite List.Forall_forall in H. rewrite (H z Hz).
      destruct (Reqb_spec 0 0); [reflexivity|contradiction]. }
    rewrite F. cbn [negb]. cbv zeta.
    match goal with |- context [rt_loop _ fft ?b (l1 ++ m :: l2)] => destruct (IH b (fun y Hy => Hr y (or_intror Hy)) Hm) as (out & E & L); rewrite E end.
    eexists (_ :: out). split; [reflexivity|]. cbn [map fst]. rewrite L. reflexivity.
Qed.

Lemma run_test_complex : forall solve phi fft i, let data := map (fun i => phi (ab_th ab_n_nodes i)) (seq 0 ab_n_nodes) in
  let real m := List.Forall (fun z => Im z = 0) (solve m data) in (i < 120)%nat ->
  (forall j, (j < i)%nat -> real (10 + 2 * Z.of_nat j)%Z) -> ~ real (10 + 2 * Z.of_nat i)%Z -> exists out,
  rt_run solve (fun th => Ok (phi th)) fft = (out ++ [((10 + 2 * Z.of_nat i)%Z, None)], Err AssertionError) /\ List.length out = i.
Proof.
  intros solve phi fft i data real Hi Hr Hn. unfold rt_run. rewrite rt_values_ok, map_map. fold data. cbn [bind].
  assert (S : rt_m1_list = map (fun i => 10 + 2 * Z.of_nat i)%Z (seq 0 i) ++ (10 + 2 * Z.of_nat i)%Z :: map (fun i => 10 + 2 * Z.of_nat i)%Z (seq (S i) (119 - i))).
  { unfold rt_m1_list. replace 120%nat with (i + Datatypes.S (119 - i))%nat by lia. rewrite seq_app, map_app. reflexivity. }
  rewrite S. destruct (rt_loop_stop (fun m => solve m data) fft (map (fun i => 10 + 2 * Z.of_nat i)%Z (seq 0 i)) (10 + 2 * Z.of_nat i)%Z
    (map (fun i => 10 + 2 * Z.of_nat i)%Z (seq (Datatypes.S i) (119 - i))) None) as (out & E & L).
  - intros x Hx. apply in_map_iff in Hx. destruct Hx as [j [<- Hj]]. apply in_seq in Hj. apply Hr. lia.
  - exact Hn.
  - exists out. split; [exact E|]. rewrite <- (map_length fst out), L, map_length, seq_length. reflexivity.
Qed.

(** ** expansion_error.py *)

Lemma ee_fail : forall (l : list nat) f (e : py_error), (forall m, f (Err e) m = Err e) -> fold_left f l (@Err C e) = Err e.
Proof. intros l f e H. induction l as [|m l IH]; [reflexivity|]. cbn [fold_left]. rewrite H. exact IH. Qed.

Definition ee_sum (b : list C) (a nu th : R) (n : nat) : C :=
  fold_left (fun acc m => Cplus acc (Cmult (nth (m - 1) b (RtoC 0)) (RtoC (sin (INR m * nu * (th - a)))))) (seq 1 n) (RtoC 0).

Lemma ee_prefix : forall b a nu th n, (n <= List.length b)%nat ->
  fold_left (fun acc m => expan <- acc;; b0 <- list_get b (m - 1);; Ok (Cplus expan (Cmult b0 (RtoC (sin (INR m * nu * (th - a))))))) (seq 1 n) (Ok (RtoC 0))
  = Ok (ee_sum b a nu th n).
Proof.
  intros b a nu th n. induction n as [|n IH]; intros Hn; [reflexivity|]. unfold ee_sum in *. rewrite seq_S, !fold_left_app. rewrite IH by lia. cbn [fold_left bind Nat.add].
  unfold list_get. rewrite (nth_error_nth' b (RtoC 0)) by lia. reflexivity.
Qed.

Lemma expansion_spec : forall b a nu th,
  ((500 <= List.length b)%nat -> ee_b_expan b a nu th =
    Ok (fold_left (fun acc m => Cplus acc (Cmult (nth (m - 1) b (RtoC 0)) (RtoC (sin (INR m * nu * (th - a)))))) (seq 1 500) (RtoC 0))) /\
  ((List.length b < 500)%nat -> ee_b_expan b a nu th = Err IndexError).
Proof.
  intros b a nu th. unfold ee_b_expan, ee_m_max. split; intros H; [apply ee_prefix; exact H|].
  remember (List.length b) as n eqn:Hn. replace 500%nat with (n + S (499 - n))%nat by lia. rewrite seq_app, fold_left_app, ee_prefix by lia.
  cbn [seq fold_left bind]. unfold list_get at 2. rewrite (proj2 (nth_error_None b (1 + n - 1))) by lia. cbn [bind].
  apply ee_fail. reflexivity.
Qed.

Lemma expansion_class : forall to_dst a nu th, ee_b_expan (sk_b_coef to_dst a ab_n_nodes sk_m_max) a nu th = Err IndexError.
Proof.
  intros. apply expansion_spec. unfold sk_b_coef. rewrite map_length, seq_length. unfold sk_m_max. lia.
Qed.

(** ** Concrete cases *)

Definition ex_calc (m : Z) : list C * list R := (repeat (RtoC (IZR m)) 7, [1]).

Lemma trend_ex : exists t, In ("m1trend_trace-hat_sine7_5.5.dat"%string, t) (fst (gd2_run (fun _ => "5.5"%string) (fun _ _ => ex_calc) (fun _ => repeat (RtoC 3) 300))) /\
  nth 2 (tr_m1_data t) 0%Z = 20%Z /\ nth 6 (nth 2 (tr_error t) []) 0 = 17.
Proof.
  pose proof (trend_spec (fun _ => "5.5"%string) (fun _ _ => ex_calc) (fun _ => repeat (RtoC 3) 300)) as H.
  destruct (gd2_run _ _ _) as [files n]. destruct H as (_ & _ & _ & _ & H).
  destruct (H "trace-hat"%string "sine7"%string) as (t & Hin & _ & _ & _ & _ & _ & Hi); [cbn; tauto|cbn; tauto|].
  exists t. split; [exact Hin|]. destruct (Hi 2%nat ltac:(lia)) as (A & _ & _ & B). split; [exact A|]. rewrite (B 6%nat) by lia.
  cbn [ex_calc fst nth repeat]. unfold Cminus. rewrite <- RtoC_opp, <- RtoC_plus, Cmod_R. change (10 + 5 * Z.of_nat 2)%Z with 20%Z. rewrite Rabs_pos_eq; lra.
Qed.

Lemma bet_ex : let '(m1, out) := bg_run (fun bet => bet) (fun b => if Rltb b (/ 3) then 9%Z else 12%Z) (fun b m => ([RtoC b], [IZR m])) [] in
  m1 = Some 12%Z /\ exists e, nth 99 out (0, [], []) = (/ 2 * (19 / 20) ^ 99, e, [12]).
Proof.
  pose proof (bet_spec R (fun bet => bet) (fun b => if Rltb b (/ 3) then 9%Z else 12%Z) (fun b m => ([RtoC b], [IZR m])) []) as H.
  destruct (bg_run _ _ _ _) as [m1 out]. cbv zeta in H. destruct (Rltb_spec (/ 2) (/ 3)) as [F|_]; [lra|].
  destruct H as (-> & _ & H). split; [reflexivity|]. destruct (H 99%nat ltac:(lia)) as (e & E & _). exists e. exact E.
Qed.

Lemma marks_ex : let solve m (_ : list C) := repeat (RtoC (Rabs (IZR m - 14))) 7 in
  (forall m data, List.Forall (fun z => Im z = 0) (solve m data)) /\
  exists marks, rt_run solve (fun _ => Ok (RtoC 1)) [] = (marks, Ok tt) /\
    nth 1 marks (0%Z, None) = (12%Z, Some (2, true)) /\ nth 3 marks (0%Z, None) = (16%Z, Some (2, false)).
Proof.
  intros solve. assert (HR : forall m data, List.Forall (fun z => Im z = 0) (solve m data)).
  { intros m data. apply List.Forall_forall. intros z Hz. apply repeat_spec in Hz. rewrite Hz. reflexivity. }
  split; [exact HR|]. destruct (run_test_marks solve (fun _ => RtoC 1) [] (fun m _ _ => HR m _)) as (marks & E & _ & H).
  exists marks. split; [exact E|].
  set (data := map (fun i => RtoC 1) (seq 0 ab_n_nodes)) in H. clearbody data.
  assert (V : forall m, fold_right Rmax 0 (map (fun j => Cmod (Cminus (nth j (solve m data) (RtoC 0)) (nth j [] (RtoC 0)))) (seq 0 7)) = Rabs (IZR m - 14)).
  { intros m. unfold solve. cbn [seq map fold_right nth repeat]. unfold Cminus. rewrite <- RtoC_opp, <- RtoC_plus, Cmod_R.
    replace (Rabs (IZR m - 14) + - 0) with (Rabs (IZR m - 14)) by ring. rewrite Rabs_Rabsolu. pose proof (Rabs_pos (IZR m - 14)).
    rewrite (Rmax_left _ 0) by assumption. repeat rewrite (Rmax_left (Rabs (IZR m - 14)) (Rabs (IZR m - 14))) by apply Rle_refl. reflexivity. }
  split.
  - destruct (H 1%nat ltac:(lia)) as (b & Eb & Hb). cbv zeta in Eb, Hb. rewrite Eb. rewrite V in Eb |- *. change (10 + 2 * Z.of_nat 1)%Z with 12%Z in *.
    assert (A : Rabs (IZR 12 - 14) = 2) by (rewrite Rabs_left; lra). rewrite A. do 3 f_equal. apply Hb. intros j Hj. rewrite !V.
    replace j with 0%nat by lia. change (10 + 2 * Z.of_nat 0)%Z with 10%Z. rewrite A, Rabs_left by lra. lra.
  - destruct (H 3%nat ltac:(lia)) as (b & Eb & Hb). cbv zeta in Eb, Hb. rewrite Eb. rewrite V in Eb |- *. change (10 + 2 * Z.of_nat 3)%Z with 16%Z in *.
    assert (A : Rabs (IZR 16 - 14) = 2) by (rewrite Rabs_pos_eq; lra). rewrite A. do 3 f_equal. destruct b; [|reflexivity]. exfalso.
    pose proof (proj1 Hb eq_refl 2%nat ltac:(lia)) as K. rewrite !V in K. change (10 + 2 * Z.of_nat 2)%Z with 14%Z in K. rewrite A in K.
    rewrite Rminus_diag_eq in K by reflexivity. rewrite Rabs_R0 in K. lra.
Qed.

Lemma expansion_ex : (500 <= List.length (RtoC 1 :: repeat (RtoC 0) 499))%nat /\
  ee_b_expan (RtoC 1 :: repeat (RtoC 0) 499) 0 1 (PI / 2) = Ok (RtoC 1).
Proof.
  assert (L : (500 <= List.length (RtoC 1 :: repeat (RtoC 0) 499))%nat) by (cbn [List.length]; rewrite repeat_length; lia).
  split; [exact L|]. rewrite (proj1 (expansion_spec _ _ _ _) L). f_equal.
  change (seq 1 500) with (1%nat :: seq 2 499). cbn [fold_left]. replace (INR 1 * 1 * (PI / 2 - 0)) with (PI / 2) by (cbn [INR]; field). rewrite sin_PI2.
  assert (Z : forall l acc, (forall m, In m l -> (2 <= m)%nat) ->
    fold_left (fun acc m => Cplus acc (Cmult (nth (m - 1) (RtoC 1 :: repeat (RtoC 0) 499) (RtoC 0)) (RtoC (sin (INR m * 1 * (PI / 2 - 0)))))) l acc = acc).
  { induction l as [|m l IH]; intros acc Hl; [reflexivity|]. cbn [fold_left]. rewrite IH by (intros x Hx; apply Hl; right; exact Hx).
    assert (E : nth (m - 1) (RtoC 1 :: repeat (RtoC 0) 499) (RtoC 0) = RtoC 0).
    { specialize (Hl m (or_introl eq_refl)). destruct (m - 1)%nat as [|q] eqn:Q; [lia|]. cbn [nth]. apply nth_repeat. }
    rewrite E, Cmult_0_l. apply Cplus_0_r. }
  rewrite Z; [|intros m Hm; apply in_seq in Hm; lia]. cbn [Nat.sub nth]. rewrite Cplus_0_l, Cmult_1_l. reflexivity.
Qed.

Lemma complex_ex : let solve (m : Z) (_ : list C) := repeat (if (m <? 14)%Z then RtoC 1 else Ci) 7 in
  (forall j data, (j < 2)%nat -> List.Forall (fun z => Im z = 0) (solve (10 + 2 * Z.of_nat j)%Z data)) /\
  forall data, ~ List.Forall (fun z => Im z = 0) (solve (10 + 2 * Z.of_nat 2)%Z data).
Proof.
  intros solve. split.
  - intros j data Hj. apply List.Forall_forall. intros z Hz. unfold solve in Hz. apply repeat_spec in Hz. rewrite Hz.
    destruct (Z.ltb_spec (10 + 2 * Z.of_nat j) 14); [reflexivity|lia].
  - intros data H. apply List.Forall_inv in H. cbn in H. lra.
Qed.
