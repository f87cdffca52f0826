(** Specification vocabulary for Multivalue (C11, C12). *)
From Coq Require Import ZArith List Bool Reals.
From Coquelicot Require Import Complex.
From Verif Require Import Model_Py Model_Multivalue.
Import ListNotations.
Open Scope Z_scope.

(** Well-formed objects: what every sequence of public operations produces. *)
Definition mv_wf (m : multivalue) : Prop :=
  NoDup (map fst (mv_data m)) /\
  forall p, In p (mv_nodes m) <-> exists l, mv_get m p = Ok l.

(** Objects obtainable through the public operations, in any order. *)
Inductive mv_reachable : multivalue -> Prop :=
| reach_new : forall ns, mv_reachable (mv_new ns)
| reach_append : forall m p e m', mv_reachable m -> mv_append m p e = Ok m' ->
    mv_reachable m'
| reach_add : forall m1 m2 m, mv_reachable m1 -> mv_reachable m2 ->
    mv_add m1 m2 = Ok m -> mv_reachable m.

(** Independent description of the value of a node. *)
Definition node_average (l : list mv_entry) (v : C) : Prop :=
  (exists e, l = [e] /\ v = me_value e) \/
  (exists e0 e1, l = [e0; e1] /\
     v = Cmult (Cplus (me_value e0) (me_value e1)) (RtoC (1 / 2))).

(** The documented elen-weighted average (ps/multivalue.py:69-70, 94). *)
Definition weighted_average (l : list mv_entry) (v : C) : Prop :=
  (exists e, l = [e] /\ v = me_value e) \/
  (exists e0 e1, l = [e0; e1] /\
     v = Cdiv (Cplus (Cmult (RtoC (me_elen e1)) (me_value e0))
                     (Cmult (RtoC (me_elen e0)) (me_value e1)))
              (RtoC (me_elen e0 + me_elen e1))).

(** The fixture of test/ps/test_multivalue.py:34-54. *)
Definition test_mv1 : multivalue :=
  mk_mv [(0, 0); (0, 1)]
    [((0, 0), [mk_entry 1 (RtoC (1/2)) (0, EStandard);
               mk_entry (3/2) (RtoC (3/4)) (1, EStandard)]);
     ((0, 1), [mk_entry 1 (RtoC 2) (0, EStandard)])].
