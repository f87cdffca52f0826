(** ps/multivalue.py: grid functions with several values per node. *)
From Coq Require Import ZArith List Bool Reals.
From Coquelicot Require Import Complex.
From Verif Require Import Model_Py.
Import ListNotations.
Open Scope Z_scope.

(** ps/extend.py:13, the extension types. *)
Inductive EType := EStandard | ELeft | ERight.

(** Equality of [EType] members (ps/multivalue.py:50 compares them). *)
Definition etype_eqb (a b : EType) : bool :=
  match a, b with
  | EStandard, EStandard | ELeft, ELeft | ERight, ERight => true
  | _, _ => false
  end.

(** A setype is the pair (sid, etype) built in ps/extend.py:414 and
    ps/inhomo.py:450. Simplification: the unit test uses bare ints. *)
Definition setype_t := (Z * EType)%type.

(** [==] on setypes (ps/multivalue.py:50). *)
Definition setype_eqb (a b : setype_t) : bool :=
  (fst a =? fst b) && etype_eqb (snd a) (snd b).

(** One list item of [_data] (ps/multivalue.py:11-14). *)
Record mv_entry := mk_entry { me_elen : R; me_value : C; me_setype : setype_t }.

(** Grid nodes are pairs of ints (ps/multivalue.py:115). *)
Definition node := (Z * Z)%type.

(** Equality of nodes, used for dictionary lookup (ps/multivalue.py:29). *)
Definition node_eqb (p q : node) : bool :=
  (fst p =? fst q) && (snd p =? snd q).

(** An insertion-ordered Python dict from nodes (ps/multivalue.py:23). *)
Definition mv_dict := list (node * list mv_entry).

(** The object: [nodes] and [_data] (ps/multivalue.py:21-26). *)
Record multivalue := mk_mv { mv_nodes : list node; mv_data : mv_dict }.

(** [d[node]] with KeyError (ps/multivalue.py:28-29). *)
Fixpoint dict_get (d : mv_dict) (p : node) : result (list mv_entry) :=
  match d with
  | [] => Err KeyError
  | (q, l) :: d' => if node_eqb q p then Ok l else dict_get d' p
  end.

(** [d[node] = l]: overwrite in place or append (ps/multivalue.py:26). *)
Fixpoint dict_set (d : mv_dict) (p : node) (l : list mv_entry) : mv_dict :=
  match d with
  | [] => [(p, l)]
  | (q, m) :: d' => if node_eqb q p then (q, l) :: d' else (q, m) :: dict_set d' p l
  end.

(** ps/multivalue.py:21-26 [__init__]. *)
Definition mv_new (nodes : list node) : multivalue :=
  mk_mv nodes (fold_left (fun d p => dict_set d p []) nodes []).

(** ps/multivalue.py:28-29 [__getitem__]. *)
Definition mv_get (m : multivalue) (p : node) : result (list mv_entry) :=
  dict_get (mv_data m) p.

(** [m[node].append(e)] (ps/multivalue.py:60, ps/extend.py:415). *)
Definition mv_append (m : multivalue) (p : node) (e : mv_entry)
  : result multivalue :=
  l <- mv_get m p;; Ok (mk_mv (mv_nodes m) (dict_set (mv_data m) p (l ++ [e]))).

(** ps/multivalue.py:46-60, the inner loop of [__add__] at one node, starting
    at position [i]. *)
Fixpoint mv_add_entries (p : node) (l1 : list mv_entry) (i : nat)
    (m2 res : multivalue) : result multivalue :=
  match l1 with
  | [] => Ok res
  | d1 :: l1' =>
      l2 <- mv_get m2 p;;
      d2 <- list_get l2 i;;
      if setype_eqb (me_setype d1) (me_setype d2) then
        res' <- mv_append res p (mk_entry (me_elen d1)
                  (Cplus (me_value d1) (me_value d2)) (me_setype d1));;
        mv_add_entries p l1' (S i) m2 res'
      else Err AssertionError
  end.

(** ps/multivalue.py:45-60, the outer loop over the keys of [self._data]. *)
Fixpoint mv_add_nodes (d : mv_dict) (m2 res : multivalue) : result multivalue :=
  match d with
  | [] => Ok res
  | (p, l1) :: d' =>
      res' <- mv_add_entries p l1 0 m2 res;; mv_add_nodes d' m2 res'
  end.

(** ps/multivalue.py:31-62 [__add__]. *)
Definition mv_add (m1 m2 : multivalue) : result multivalue :=
  mv_add_nodes (mv_data m1) m2 (mv_new (mv_nodes m1)).

(** ps/multivalue.py:79-100, the value stored for one node. *)
Definition mv_reduce_list (l : list mv_entry) : result C :=
  match l with
  | [e0] => Ok (me_value e0)
  | [e0; e1] => Ok (Cdiv (Cplus (me_value e0) (me_value e1)) (RtoC 2))
  | _ => Err AssertionError
  end.

(** ps/multivalue.py:75-100: loop over [nodes]. *)
Fixpoint mv_reduce_nodes (nodes : list node) (d : mv_dict) : result (list C) :=
  match nodes with
  | [] => Ok []
  | p :: nodes' =>
      l <- dict_get d p;;
      v <- mv_reduce_list l;;
      rest <- mv_reduce_nodes nodes' d;;
      Ok (v :: rest)
  end.

(** ps/multivalue.py:64-102 [reduce]; the zero-initialised complex array
    becomes the list of its entries. *)
Definition mv_reduce (m : multivalue) : result (list C) :=
  mv_reduce_nodes (mv_nodes m) (mv_data m).
