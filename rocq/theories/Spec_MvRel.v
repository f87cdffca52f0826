(** Specification vocabulary for the convergence of multivalued functions (C68). *)
From Coq Require Import ZArith List Reals.
From Coquelicot Require Import Complex.
From Verif Require Import Model_Py Model_Multivalue.
Import ListNotations.
Open Scope Z_scope.

(** [e] is the first entry of [l] with setype [s]. *)
Definition first_with (l : list mv_entry) (s : setype_t) (e : mv_entry) : Prop :=
  exists before after, l = before ++ e :: after /\ me_setype e = s /\
    forall x, In x before -> me_setype x <> s.

(** [d] compares two grid functions at node (i, j) of the coarser one, which is
    node (2i, 2j) of the finer one, on a common setype. *)
Definition compared (fine coarse : multivalue) (i j : Z) (d : R) : Prop :=
  exists lc lf ec ef, mv_get coarse (i, j) = Ok lc /\ mv_get fine (2 * i, 2 * j) = Ok lf /\
    In ec lc /\ first_with lf (me_setype ec) ef /\
    d = Cmod (Cminus (me_value ef) (me_value ec)).

(** Node (i, j) of the coarser function can be compared: it is there, and if
    it carries a value the finer one has the node, too. *)
Definition comparable (fine coarse : multivalue) (i j : Z) : Prop :=
  exists lc, mv_get coarse (i, j) = Ok lc /\
    (lc = [] \/ exists lf, mv_get fine (2 * i, 2 * j) = Ok lf).
