(** Property C91: the project's unit tests. *)
From Coq Require Import ZArith List Bool Reals.
From Coquelicot Require Import Complex.
From Verif Require Import Model_Py Model_Multivalue Model_MVTest Spec_Multivalue Proof_Multivalue Proof_MVTest.
Import ListNotations.
Open Scope R_scope.

(** C91. What the comparison of the tests means: the same nodes, and every value
    of the first object has at its place in the second one of the same type
    within 1e-13. *)
Theorem C91_is_equal : forall m1 m2, mv_wf m1 -> mv_wf m2 ->
  (is_equal m1 m2 = Ok true <->
   mv_nodes m1 = mv_nodes m2 /\
   forall p l1 l2 j e1, mv_get m1 p = Ok l1 -> mv_get m2 p = Ok l2 -> nth_error l1 j = Some e1 ->
     exists e2, nth_error l2 j = Some e2 /\ me_setype e1 = me_setype e2 /\
       Cmod (Cminus (me_value e1) (me_value e2)) <= 1 / 10 ^ 13).
Proof. exact is_equal_true. Qed.
Print Assumptions C91_is_equal.

Example C91_is_equal_nonvacuous : mv_wf test_mv1 /\ is_equal test_mv1 test_mv1 = Ok true /\ is_equal test_mv1 (mv_new [(0, 0)]%Z) = Ok false.
Proof. exact close_ex. Qed.

(** It is not symmetric: values missing in the first object are not noticed,
    values missing in the second raise IndexError. *)
Theorem C91_symmetric_refuted : exists m1 m2, mv_reachable m1 /\ mv_reachable m2 /\
  is_equal m1 m2 = Ok true /\ is_equal m2 m1 = Err IndexError.
Proof. exact is_equal_asym. Qed.
Print Assumptions C91_symmetric_refuted.

(** What test_add checks for one pair holds for all: the sums in both orders
    exist and pass the comparison. *)
Theorem C91_add : forall m1 m2, mv_wf m1 -> mv_wf m2 -> mv_nodes m2 = mv_nodes m1 ->
  (forall p l1 l2, mv_get m1 p = Ok l1 -> mv_get m2 p = Ok l2 -> map me_setype l1 = map me_setype l2) ->
  exists s s', mv_add m1 m2 = Ok s /\ mv_add m2 m1 = Ok s' /\ is_equal s s' = Ok true.
Proof. exact is_equal_comm. Qed.
Print Assumptions C91_add.

(** Three of the four unit tests pass; the fixture is the object of C11. *)
Theorem C91_pass : setup_mv1 = Ok test_mv1 /\ test_getitem mv_get = Ok true /\ test_add = Ok true /\ test_reduce0 mv_reduce = Ok true.
Proof. exact (conj setup_eq (conj test_getitem_passes (conj test_add_passes test_reduce0_passes))). Qed.
Print Assumptions C91_pass.

(** What test_getitem and test_reduce0 check of any implementation. *)
Theorem C91_getitem : forall get, test_getitem get = Ok true <->
  (exists d l, get test_mv1 (0, 0)%Z = Ok (d :: l) /\ me_setype d = (0%Z, EStandard)) /\ get test_mv1 (2, 2)%Z = Err KeyError.
Proof. exact test_getitem_iff. Qed.
Print Assumptions C91_getitem.

Example C91_getitem_nonvacuous : test_getitem mv_get = Ok true /\ test_getitem (fun m _ => mv_get m (0, 0)%Z) = Ok false.
Proof. split; reflexivity. Qed.

Theorem C91_reduce0 : forall reduce, test_reduce0 reduce = Ok true <->
  exists vs, reduce (mk_mv [(0, 0)%Z] [((0, 0)%Z, [mk_entry 0 (RtoC 2) (0%Z, EStandard); mk_entry 0 (RtoC (19 / 4)) (1%Z, EStandard)])]) =
    Ok (RtoC (27 / 8) :: vs).
Proof. exact test_reduce0_iff. Qed.
Print Assumptions C91_reduce0.

Example C91_reduce0_nonvacuous : test_reduce0 (fun _ => Ok [RtoC (27 / 8); RtoC 1]) = Ok true /\ test_reduce0 (fun _ => Ok []) = Err IndexError.
Proof. split; [apply C91_reduce0; exists [RtoC 1]; reflexivity|reflexivity]. Qed.

(** The comparison of arrays it uses. *)
Theorem C91_allclose : forall a b, allclose a b = true <->
  forall x y, In (x, y) (combine a b) -> Cmod (Cminus x y) <= 1 / 10 ^ 8 + 1 / 10 ^ 5 * Cmod y.
Proof. exact allclose_spec. Qed.
Print Assumptions C91_allclose.

Example C91_allclose_nonvacuous : allclose [RtoC 2; RtoC 3] [RtoC 2; RtoC 3] = true /\
  allclose [RtoC (3 / 5); RtoC 2] [RtoC (5 / 8); RtoC 2] = false.
Proof. exact allclose_ex. Qed.

(** The fourth, test_reduce_mv1, fails ... *)
Theorem C91_reduce_mv1_refuted : exists b, test_reduce_mv1 mv_reduce = Ok b /\ b <> true.
Proof. exact (ex_intro _ false (conj test_reduce_mv1_fails Bool.diff_false_true)). Qed.
Print Assumptions C91_reduce_mv1_refuted.

(** ... while any reduce computing the documented weighted average passes it. *)
Theorem C91_weighted : forall reduce vs, reduce test_mv1 = Ok vs -> length vs = length (mv_nodes test_mv1) ->
  (forall i p, nth_error (mv_nodes test_mv1) i = Some p ->
     exists l v, mv_get test_mv1 p = Ok l /\ nth_error vs i = Some v /\ weighted_average l v) ->
  test_reduce_mv1 reduce = Ok true.
Proof. exact weighted_passes. Qed.
Print Assumptions C91_weighted.

Example C91_weighted_nonvacuous : exists (reduce : multivalue -> result (list C)) vs,
  reduce test_mv1 = Ok vs /\ length vs = length (mv_nodes test_mv1) /\
  (forall i p, nth_error (mv_nodes test_mv1) i = Some p ->
     exists l v, mv_get test_mv1 p = Ok l /\ nth_error vs i = Some v /\ weighted_average l v).
Proof. exact weighted_ex. Qed.
