(** test/ps/test_multivalue.py: the unit tests of the project. *)
From Coq Require Import ZArith List Bool Reals.
From Coquelicot Require Import Complex.
From Verif Require Import Model_Py Model_Domain Model_Multivalue.
Import ListNotations.
Open Scope R_scope.

(** [==] on lists of nodes (test/ps/test_multivalue.py:16). *)
Fixpoint nodes_eqb (a b : list node) : bool :=
  match a, b with
  | [], [] => true
  | p :: a', q :: b' => node_eqb p q && nodes_eqb a' b'
  | _, _ => false
  end.

(** test/ps/test_multivalue.py:20-26, the loop over the values at one node from
    position [i] on. *)
Fixpoint eq_entries (p : node) (l1 : list mv_entry) (i : nat) (m2 : multivalue) : result bool :=
  match l1 with
  | [] => Ok true
  | d1 :: l1' =>
      l2 <- mv_get m2 p;;
      d2 <- list_get l2 i;;
      if negb (setype_eqb (me_setype d1) (me_setype d2))
         || Rltb (1 / 10 ^ 13) (Cmod (Cminus (me_value d1) (me_value d2)))
      then Ok false else eq_entries p l1' (S i) m2
  end.

(** test/ps/test_multivalue.py:19-28, the loop over the keys. *)
Fixpoint eq_nodes (d : mv_dict) (m2 : multivalue) : result bool :=
  match d with
  | [] => Ok true
  | (p, l1) :: d' =>
      b <- eq_entries p l1 0 m2;;
      if b : bool then eq_nodes d' m2 else Ok false
  end.

(** test/ps/test_multivalue.py:9-28 [is_equal]. *)
Definition is_equal (m1 m2 : multivalue) : result bool :=
  if negb (nodes_eqb (mv_nodes m1) (mv_nodes m2)) then Ok false
  else eq_nodes (mv_data m1) m2.

(** [m[node].extend(l)] (test/ps/test_multivalue.py:37-48). *)
Fixpoint mv_extend (m : multivalue) (p : node) (l : list mv_entry) : result multivalue :=
  match l with
  | [] => Ok m
  | e :: l' => m' <- mv_append m p e;; mv_extend m' p l'
  end.

(** test/ps/test_multivalue.py:34-54 [setUp]. Simplification: the test uses bare
    ints as setypes; they stand here as (int, standard). *)
Definition setup_mv1 : result multivalue :=
  m <- mv_extend (mv_new [(0, 0); (0, 1)]%Z) (0, 0)%Z
         [mk_entry 1 (RtoC (1 / 2)) (0%Z, EStandard); mk_entry (3 / 2) (RtoC (3 / 4)) (1%Z, EStandard)];;
  mv_append m (0, 1)%Z (mk_entry 1 (RtoC 2) (0%Z, EStandard)).

(** test/ps/test_multivalue.py:56-61 [test_getitem]: whether it passes,
    for any method in the place of __getitem__ (ps/multivalue.py:28-29). *)
Definition test_getitem (get : multivalue -> node -> result (list mv_entry)) : result bool :=
  mv1 <- setup_mv1;;
  l <- get mv1 (0, 0)%Z;;
  d <- list_get l 0;;
  Ok (setype_eqb (me_setype d) (0%Z, EStandard) &&
      match get mv1 (2, 2)%Z with Err KeyError => true | _ => false end).

(** test/ps/test_multivalue.py:63-103 [test_add]: whether it passes.
    Simplification: the expected dictionaries have no [elen]; it is never read
    and stands here as 0. *)
Definition test_add : result bool :=
  mv1 <- setup_mv1;;
  mv2 <- mv_extend (mv_new [(0, 0); (0, 1)]%Z) (0, 0)%Z
           [mk_entry 1 (RtoC (7 / 2)) (0%Z, EStandard); mk_entry 1 (RtoC 4) (1%Z, EStandard)];;
  mv2 <- mv_append mv2 (0, 1)%Z (mk_entry 1 (RtoC (-3)) (0%Z, EStandard));;
  ex <- mv_extend (mv_new [(0, 0); (0, 1)]%Z) (0, 0)%Z
          [mk_entry 0 (RtoC 4) (0%Z, EStandard); mk_entry 0 (RtoC (19 / 4)) (1%Z, EStandard)];;
  ex <- mv_append ex (0, 1)%Z (mk_entry 0 (RtoC (-1)) (0%Z, EStandard));;
  s12 <- mv_add mv1 mv2;;
  b12 <- is_equal ex s12;;
  s21 <- mv_add mv2 mv1;;
  b21 <- is_equal ex s21;;
  Ok (b12 && b21).

(** [np.allclose(a, b)] with its default tolerances, for arrays of the same
    length (test/ps/test_multivalue.py:108). *)
Definition allclose (a b : list C) : bool :=
  forallb (fun p => Rleb (Cmod (Cminus (fst p) (snd p))) (1 / 10 ^ 8 + 1 / 10 ^ 5 * Cmod (snd p))) (combine a b).

(** test/ps/test_multivalue.py:105-108 [test_reduce_mv1]: whether it passes, for
    any method in the place of reduce (ps/multivalue.py:64-102). *)
Definition test_reduce_mv1 (reduce : multivalue -> result (list C)) : result bool :=
  mv1 <- setup_mv1;;
  r <- reduce mv1;;
  Ok (allclose [RtoC (3 / 5); RtoC 2] r).

(** test/ps/test_multivalue.py:110-130 [test_reduce0]: whether it passes,
    for any method in the place of reduce (ps/multivalue.py:64-102). *)
Definition test_reduce0 (reduce : multivalue -> result (list C)) : result bool :=
  mv <- mv_extend (mv_new [(0, 0)]%Z) (0, 0)%Z
          [mk_entry 0 (RtoC 2) (0%Z, EStandard); mk_entry 0 (RtoC (19 / 4)) (1%Z, EStandard)];;
  r <- reduce mv;;
  v <- list_get r 0;;
  Ok (Rleb (Cmod (Cminus v (RtoC ((2 + 19 / 4) / 2)))) 0).
