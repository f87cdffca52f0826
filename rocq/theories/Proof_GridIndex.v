(** The closed grid and the subscripts (C07, C08). *)
From Coq Require Import ZArith List Bool Lia.
From Verif Require Import Model_Py Model_Grid Spec_Grid Proof_Grid Proof_Grid2.
Import ListNotations.
Open Scope Z_scope.

Lemma closed_grid : forall N,
  (forall p, In p (grid_N0 N) <-> 0 <= fst p <= N /\ 0 <= snd p <= N) /\
  forall order ins p, (order = 2 \/ order = 4) ->
    In p (Nplus order N ins) \/ In p (Nminus order N ins) \/ In p (Kplus order N ins) -> In p (grid_N0 N).
Proof.
  intros N. split; [apply grid_N0_in|]. intros order ins [x y] Ho H. apply grid_N0_in. cbn [fst snd].
  destruct H as [H|[H|H]].
  - apply nplus_in in H; [|exact Ho]. destruct H as ([i j] & Hp & _ & Hn). unfold in_open_grid, neighbour in *. cbn [fst snd] in *. lia.
  - apply nminus_in in H; [|exact Ho]. destruct H as ([i j] & Hp & _ & Hn). unfold in_open_grid, neighbour in *. cbn [fst snd] in *. lia.
  - apply Kplus_in in H; [|exact Ho]. destruct H as ([i j] & Hp & Hn).
    assert (Hg : in_open_grid N (i, j)) by (apply (grid_partition_within N ins); left; exact Hp).
    unfold in_open_grid in Hg. cbn [fst snd] in *. destruct Hn as [E|Hn]; [injection E; lia|lia].
Qed.

Lemma index_spec : forall n i,
  (forall k, py_index n i = Ok k <-> 0 <= k < n /\ (k = i \/ (i < 0 /\ k = n + i))) /\
  (forall e, py_index n i = Err e <-> e = IndexError /\ ~ (- n <= i < n)).
Proof.
  intros n i. unfold py_index.
  destruct (Z.leb_spec 0 i); destruct (Z.ltb_spec i n); cbn [andb]; try (split; intros; [split; [intros E; injection E; lia|intros; f_equal; lia]|split; [intros E; discriminate E|lia]]).
  all: destruct (Z.leb_spec (- n) i); destruct (Z.ltb_spec i 0); cbn [andb]; try lia.
  all: try (split; intros; [split; [intros E; injection E; lia|intros; f_equal; lia]|split; [intros E; discriminate E|lia]]).
  all: split; intros; [split; [intros E; discriminate E|intros; lia]|split; [intros E; injection E; intros; subst; split; [reflexivity|lia]|intros [-> _]; reflexivity]].
Qed.
