(** Properties C11 and C12: Multivalue. *)
From Coq Require Import ZArith List Bool Reals Lia Lra.
From Coquelicot Require Import Complex.
From Verif Require Import Model_Py Model_Multivalue Spec_Multivalue Proof_Multivalue.
Import ListNotations.
Open Scope Z_scope.

(** C11. Every object reachable through construction, append and addition is
    well formed: its keys are exactly its nodes. *)
Theorem C11_reachable_wf : forall m, mv_reachable m -> mv_wf m.
Proof. exact mv_reachable_wf. Qed.
Print Assumptions C11_reachable_wf.

(** C11. Indexing raises KeyError exactly off the nodes. *)
Theorem C11_getitem : forall m p, mv_reachable m ->
  mv_get m p = Err KeyError <-> ~ In p (mv_nodes m).
Proof. exact mv_reachable_get. Qed.
Print Assumptions C11_getitem.

(** The shipped test fixture is built by three appends. *)
Example C11_reachable_nonvacuous : mv_reachable test_mv1 /\ ~ In (2, 2) (mv_nodes test_mv1).
Proof.
  split; [|intros [H|[H|[]]]; discriminate].
  refine (reach_append _ (0, 1) (mk_entry 1 (RtoC 2) (0, EStandard)) _
    (reach_append _ (0, 0) (mk_entry (3/2) (RtoC (3/4)) (1, EStandard)) _
      (reach_append _ (0, 0) (mk_entry 1 (RtoC (1/2)) (0, EStandard)) _ (reach_new [(0, 0); (0, 1)]) _) _) _);
  reflexivity.
Qed.

(** C11. Addition succeeds exactly when every entry of the first operand has a
    partner of the same setype at the same position in the second. *)
Theorem C11_add_ok_iff : forall m1 m2, mv_wf m1 ->
  ((exists m, mv_add m1 m2 = Ok m) <->
   (forall p l1 j e1, mv_get m1 p = Ok l1 -> nth_error l1 j = Some e1 ->
      exists l2 e2, mv_get m2 p = Ok l2 /\ nth_error l2 j = Some e2 /\
        me_setype e1 = me_setype e2)).
Proof. exact mv_add_ok_iff. Qed.
Print Assumptions C11_add_ok_iff.

(** C11. The exception raised names the mismatch. *)
Theorem C11_add_error : forall m1 m2 e, mv_wf m1 -> mv_add m1 m2 = Err e ->
  exists p l1 j e1, mv_get m1 p = Ok l1 /\ nth_error l1 j = Some e1 /\
    ((e = KeyError /\ mv_get m2 p = Err KeyError) \/
     (e = IndexError /\ exists l2, mv_get m2 p = Ok l2 /\ nth_error l2 j = None) \/
     (e = AssertionError /\ exists l2 e2, mv_get m2 p = Ok l2 /\
        nth_error l2 j = Some e2 /\ me_setype e1 <> me_setype e2)).
Proof. exact mv_add_error. Qed.
Print Assumptions C11_add_error.

(** Each of the three exceptions occurs. *)
Example C11_add_error_nonvacuous : mv_wf test_mv1 /\
  mv_add test_mv1 (mv_new [(0, 0)]) = Err IndexError /\ mv_add test_mv1 (mv_new [(3, 4)]) = Err KeyError /\
  mv_add test_mv1 (mk_mv [(0, 0)] [((0, 0), [mk_entry 1 (RtoC 7) (1, EStandard)])]) = Err AssertionError.
Proof. split; [exact test_mv1_wf|]. repeat split; reflexivity. Qed.

(** C11. The sum, entry by entry. *)
Theorem C11_add_value : forall m1 m2 m, mv_wf m1 -> mv_add m1 m2 = Ok m ->
  mv_nodes m = mv_nodes m1 /\ mv_wf m /\
  forall p l1, mv_get m1 p = Ok l1 -> exists l, mv_get m p = Ok l /\
    length l = length l1 /\
    forall j e1, nth_error l1 j = Some e1 ->
      exists l2 e2, mv_get m2 p = Ok l2 /\ nth_error l2 j = Some e2 /\
        me_setype e2 = me_setype e1 /\
        nth_error l j = Some (mk_entry (me_elen e1)
           (Cplus (me_value e1) (me_value e2)) (me_setype e1)).
Proof. exact mv_add_value. Qed.
Print Assumptions C11_add_value.

(** C11. Addition commutes up to elen. *)
Theorem C11_add_comm : forall m1 m2 m m', mv_wf m1 -> mv_wf m2 ->
  mv_nodes m2 = mv_nodes m1 -> mv_add m1 m2 = Ok m -> mv_add m2 m1 = Ok m' ->
  forall p l l', mv_get m p = Ok l -> mv_get m' p = Ok l' ->
    map (fun e => (me_value e, me_setype e)) l =
    map (fun e => (me_value e, me_setype e)) l'.
Proof. exact mv_add_comm. Qed.
Print Assumptions C11_add_comm.

(** C11. reduce is additive. *)
Theorem C11_reduce_add : forall m1 m2 m v1 v2,
  mv_wf m1 -> mv_nodes m2 = mv_nodes m1 ->
  (forall p l1 l2, mv_get m1 p = Ok l1 -> mv_get m2 p = Ok l2 -> length l1 = length l2) ->
  mv_add m1 m2 = Ok m -> mv_reduce m1 = Ok v1 -> mv_reduce m2 = Ok v2 ->
  exists v, mv_reduce m = Ok v /\ length v = length v1 /\
    forall i x1 x2, nth_error v1 i = Some x1 -> nth_error v2 i = Some x2 ->
      nth_error v i = Some (Cplus x1 x2).
Proof. exact mv_reduce_add. Qed.
Print Assumptions C11_reduce_add.

(** The shipped test fixture meets the hypotheses of C11: it is well formed,
    can be added to itself, and reduces. *)
Example C11_nonvacuous : mv_wf test_mv1 /\ (exists m, mv_add test_mv1 test_mv1 = Ok m) /\
  mv_reduce test_mv1 = Ok [RtoC (5/8); RtoC 2].
Proof.
  split; [exact test_mv1_wf|]. split; [eexists; reflexivity|exact test_mv1_reduce].
Qed.

(** C12. reduce returns, in node order, the single value or the arithmetic mean
    of the two values. *)
Theorem C12_reduce_average : forall m vs,
  mv_reduce m = Ok vs <->
  (length vs = length (mv_nodes m) /\
   forall i p, nth_error (mv_nodes m) i = Some p ->
     exists l v, mv_get m p = Ok l /\ nth_error vs i = Some v /\ node_average l v).
Proof. exact mv_reduce_spec. Qed.
Print Assumptions C12_reduce_average.

(** C12. It raises AssertionError exactly when a node has no value or more
    than two. *)
Theorem C12_reduce_fails_iff : forall m, mv_wf m ->
  (mv_reduce m = Err AssertionError <->
   exists p l, In p (mv_nodes m) /\ mv_get m p = Ok l /\
     length l <> 1%nat /\ length l <> 2%nat).
Proof. exact mv_reduce_fails_iff. Qed.
Print Assumptions C12_reduce_fails_iff.

(** C12. elen plays no role. *)
Theorem C12_elen_irrelevant : forall m m',
  mv_nodes m = mv_nodes m' ->
  (forall p, In p (mv_nodes m) -> exists l l', mv_get m p = Ok l /\ mv_get m' p = Ok l' /\
     map me_value l = map me_value l') ->
  mv_reduce m = mv_reduce m'.
Proof. exact mv_reduce_elen_irrelevant. Qed.
Print Assumptions C12_elen_irrelevant.

(** The fixture with other lengths and setypes. *)
Example C12_elen_nonvacuous :
  let m := mk_mv [(0, 0); (0, 1)]
    [((0, 0), [mk_entry 9 (RtoC (1/2)) (2, ELeft); mk_entry 5 (RtoC (3/4)) (0, EStandard)]);
     ((0, 1), [mk_entry 0 (RtoC 2) (1, ERight)])] in
  mv_nodes test_mv1 = mv_nodes m /\
  (forall p, In p (mv_nodes test_mv1) -> exists l l', mv_get test_mv1 p = Ok l /\ mv_get m p = Ok l' /\
     map me_value l = map me_value l').
Proof.
  split; [reflexivity|]. intros p [<-|[<-|[]]]; do 2 eexists; (split; [reflexivity|]); (split; [reflexivity|]); reflexivity.
Qed.

(** C12. The documented elen-weighted average is refuted, on the very fixture
    of the shipped unit test (5/8 returned, 3/5 documented). *)
Theorem C12_weighted_average_refuted : exists m vs, mv_wf m /\ mv_reduce m = Ok vs /\
  exists i p l v, nth_error (mv_nodes m) i = Some p /\ mv_get m p = Ok l /\
    nth_error vs i = Some v /\ ~ weighted_average l v.
Proof. exact reduce_weighted_refuted. Qed.
Print Assumptions C12_weighted_average_refuted.

Example C12_nonvacuous : mv_wf test_mv1 /\ mv_reduce test_mv1 = Ok [RtoC (5/8); RtoC 2] /\
  mv_reduce (mv_new [(3, 4)]) = Err AssertionError.
Proof. split; [exact test_mv1_wf|]. split; [exact test_mv1_reduce|reflexivity]. Qed.
