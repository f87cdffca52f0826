(** ps/multivalue.py:104-149: relative convergence of multivalued functions. *)
From Coq Require Import ZArith List Bool Reals.
From Coquelicot Require Import Complex.
From Verif Require Import Model_Py Model_Grid Model_Multivalue.
Import ListNotations.
Open Scope Z_scope.

(** ps/multivalue.py:124-128 (and 138-142): the first entry with the given
    setype. *)
Definition mv_find (l : list mv_entry) (s : setype_t) : option mv_entry :=
  find (fun e => setype_eqb (me_setype e) s) l.

(** ps/multivalue.py:120-131 (and 134-145): the differences at one node. The
    list [l] of the coarser function is walked; [fine] is looked up inside the
    loop. A dict that was found is never empty, hence true. *)
Fixpoint mv_node_diffs (fine : multivalue) (p : node) (l : list mv_entry) : result (list R) :=
  match l with
  | [] => Ok []
  | d2 :: l' =>
      f <- mv_get fine p;;
      rest <- mv_node_diffs fine p l';;
      Ok (match mv_find f (me_setype d2) with
          | Some d1 => Cmod (Cminus (me_value d1) (me_value d2)) :: rest
          | None => rest
          end)
  end.

(** ps/multivalue.py:115-145: both lists of differences. *)
Fixpoint mv_rel_diffs (u0 u1 u2 : multivalue) (nodes : list node) : result (list R * list R) :=
  match nodes with
  | [] => Ok ([], [])
  | (i, j) :: nodes' =>
      d12 <- (if (i mod 4 =? 0) && (j mod 4 =? 0) then
                l <- mv_get u2 (i / 4, j / 4);; mv_node_diffs u1 (i / 2, j / 2) l
              else Ok []);;
      d01 <- (if (i mod 2 =? 0) && (j mod 2 =? 0) then
                l <- mv_get u1 (i / 2, j / 2);; mv_node_diffs u0 (i, j) l
              else Ok []);;
      rest <- mv_rel_diffs u0 u1 u2 nodes';;
      Ok (d12 ++ fst rest, d01 ++ snd rest)
  end.

(** ps/multivalue.py:104-149 [calc_rel_convergence] of [u0]: the pair of maxima
    whose ratio's log2 is returned. *)
Definition mv_rel_pair (u0 u1 u2 : multivalue) : result (R * R) :=
  d <- mv_rel_diffs u0 u1 u2 (mv_nodes u0);;
  m12 <- py_max (fst d);;
  m01 <- py_max (snd d);;
  Ok (m12, m01).
