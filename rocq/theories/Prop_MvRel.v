(** Property C68: relative convergence of multivalued functions. *)
From Coq Require Import ZArith List Bool Reals Lia Lra.
From Coquelicot Require Import Complex.
From Verif Require Import Model_Py Model_Grid Model_Multivalue Model_MvRel Spec_MvRel Proof_MvRel.
Import ListNotations.
Open Scope Z_scope.

(** C68. The two lists contain exactly the differences, at the nodes of the
    coarser grids that lie in the finest node set, between the values with a
    common setype. *)
Theorem C68_differences : forall u0 u1 u2 nodes d12 d01,
  mv_rel_diffs u0 u1 u2 nodes = Ok (d12, d01) ->
  (forall d, In d d12 <-> exists i j, In (4 * i, 4 * j) nodes /\ compared u1 u2 i j d) /\
  (forall d, In d d01 <-> exists i j, In (2 * i, 2 * j) nodes /\ compared u0 u1 i j d).
Proof. exact rel_diffs_spec. Qed.
Print Assumptions C68_differences.

(** C68. They are computed exactly when every such node is present in the
    coarser functions, and in the finer one if the coarser carries a value. *)
Theorem C68_defined_iff : forall u0 u1 u2 nodes,
  (exists d, mv_rel_diffs u0 u1 u2 nodes = Ok d) <->
  (forall i j, In (4 * i, 4 * j) nodes -> comparable u1 u2 i j) /\
  (forall i j, In (2 * i, 2 * j) nodes -> comparable u0 u1 i j).
Proof. exact rel_diffs_ok_iff. Qed.
Print Assumptions C68_defined_iff.

(** C68. Otherwise KeyError is raised. *)
Theorem C68_key_error : forall u0 u1 u2 nodes,
  (exists d, mv_rel_diffs u0 u1 u2 nodes = Ok d) \/ mv_rel_diffs u0 u1 u2 nodes = Err KeyError.
Proof. exact rel_diffs_total. Qed.
Print Assumptions C68_key_error.

(** C68. The ratio is taken of the largest elements. *)
Theorem C68_maxima : forall u0 u1 u2 m12 m01,
  mv_rel_pair u0 u1 u2 = Ok (m12, m01) <->
  exists d12 d01, mv_rel_diffs u0 u1 u2 (mv_nodes u0) = Ok (d12, d01) /\
    (In m12 d12 /\ forall x, In x d12 -> (x <= m12)%R) /\
    (In m01 d01 /\ forall x, In x d01 -> (x <= m01)%R).
Proof. exact mv_rel_pair_spec. Qed.
Print Assumptions C68_maxima.

(** Three grids with a value for two setypes at the common node (4, 4) =
    2 (2, 2) = 4 (1, 1), and a node of the finest grid that is on no other. *)
Definition mr_entry (v : R) (s : Z) : mv_entry := mk_entry 0 (RtoC v) (s, EStandard).
Example C68_nonvacuous :
  let u0 := mk_mv [(4, 4); (5, 4)] [((4, 4), [mr_entry 1 0; mr_entry 5 1]); ((5, 4), [mr_entry 9 0])] in
  let u1 := mk_mv [(2, 2)] [((2, 2), [mr_entry 3 1; mr_entry 4 2])] in
  let u2 := mk_mv [(1, 1)] [((1, 1), [mr_entry (-4) 1])] in
  mv_rel_pair u0 u1 u2 = Ok (7, 2)%R.
Proof.
  intros u0 u1 u2. apply C68_maxima.
  exists [7]%R, [2]%R. split; [|split; (split; [left; reflexivity|intros x [<-|[]]; lra])].
  cbn. unfold mr_entry. cbn. rewrite <- !RtoC_minus, !Cmod_R.
  replace (3 - -4)%R with 7%R by lra. replace (5 - 3)%R with 2%R by lra.
  rewrite !Rabs_pos_eq by lra. reflexivity.
Qed.
