(** Lemmas about grid sets, coordinates and error norms. *)
From Coq Require Import ZArith List Bool Reals Lia Lra FinFun.
From Coquelicot Require Import Complex.
From Verif Require Import Model_Py Model_Multivalue Model_Grid Model_PS Spec_Grid
  Proof_Multivalue.
Import ListNotations.
Open Scope Z_scope.

Lemma py_range_in : forall a b x, In x (py_range a b) <-> a <= x < b.
Proof.
  intros a b x. unfold py_range. rewrite in_map_iff. split.
  - intros (n & <- & Hn). apply in_seq in Hn. lia.
  - intros H. exists (Z.to_nat (x - a)). split; [lia|]. apply in_seq. lia.
Qed.

Lemma py_range_nodup : forall a b, NoDup (py_range a b).
Proof.
  intros a b. unfold py_range. apply FinFun.Injective_map_NoDup; [|apply seq_NoDup].
  intros x y H. lia.
Qed.

Lemma node_mem_in : forall p s, node_mem p s = true <-> In p s.
Proof.
  intros p s. unfold node_mem. rewrite existsb_exists. split.
  - intros (q & Hq & He). destruct (node_eqb_spec p q); [subst; assumption|discriminate].
  - intros H. exists p. split; [assumption|apply node_eqb_refl].
Qed.

Lemma node_mem_not_in : forall p s, node_mem p s = false <-> ~ In p s.
Proof.
  intros p s. rewrite <- node_mem_in. destruct (node_mem p s); split; congruence.
Qed.

Lemma node_inter_in : forall p s t, In p (node_inter s t) <-> In p s /\ In p t.
Proof. intros. unfold node_inter. rewrite filter_In, node_mem_in. reflexivity. Qed.

Lemma node_diff_in : forall p s t, In p (node_diff s t) <-> In p s /\ ~ In p t.
Proof.
  intros. unfold node_diff. rewrite filter_In, negb_true_iff, node_mem_not_in.
  reflexivity.
Qed.

Lemma grid_M0_in : forall N p, In p (grid_M0 N) <-> in_open_grid N p.
Proof.
  intros N [i j]. unfold grid_M0, in_open_grid.
  pose proof (in_prod_iff (py_range 1 N) (py_range 1 N) i j) as H.
  rewrite !py_range_in in H. unfold node. rewrite H. simpl. lia.
Qed.

Lemma grid_N0_in : forall N p, In p (grid_N0 N) <-> 0 <= fst p <= N /\ 0 <= snd p <= N.
Proof.
  intros N [i j]. unfold grid_N0.
  pose proof (in_prod_iff (py_range 0 (N + 1)) (py_range 0 (N + 1)) i j) as H.
  rewrite !py_range_in in H. unfold node. rewrite H. simpl. lia.
Qed.

Lemma Mplus_in : forall N ins p, In p (global_Mplus N ins) <->
  in_open_grid N p /\ ins (fst p) (snd p) = true.
Proof. intros. unfold global_Mplus. rewrite filter_In, grid_M0_in. reflexivity. Qed.

Lemma Mminus_in : forall N ins p, In p (global_Mminus N ins) <->
  in_open_grid N p /\ ins (fst p) (snd p) = false.
Proof.
  intros. unfold global_Mminus. rewrite node_diff_in, grid_M0_in, Mplus_in.
  destruct (ins (fst p) (snd p)); intuition congruence.
Qed.

Lemma stencil_in : forall order p q, (order = 2 \/ order = 4) ->
  (In q (stencil order p) <-> neighbour order p q).
Proof.
  intros order [i j] [i' j'] Ho. unfold stencil, neighbour. simpl.
  split.
  - destruct Ho as [-> | ->]; simpl; intros H;
      repeat (destruct H as [H|H]; [injection H as <- <-; lia|]); destruct H.
  - intros (H1 & H2 & H3).
    assert (Hi : i' = i - 1 \/ i' = i \/ i' = i + 1) by lia.
    assert (Hj : j' = j - 1 \/ j' = j \/ j' = j + 1) by lia.
    destruct Ho as [-> | ->]; simpl.
    + specialize (H3 eq_refl).
      destruct Hi as [-> | [-> | ->]]; destruct Hj as [-> | [-> | ->]]; try lia; tauto.
    + destruct Hi as [-> | [-> | ->]]; destruct Hj as [-> | [-> | ->]]; tauto.
Qed.

Lemma source_stencil_in : forall order p q, (order = 2 \/ order = 4) ->
  (In q (source_stencil order p) <->
   q = p \/ (order = 4 /\ Z.abs (fst p - fst q) + Z.abs (snd p - snd q) = 1)).
Proof.
  intros order [i j] [i' j'] Ho. unfold source_stencil. simpl. split.
  - destruct Ho as [-> | ->]; simpl; intros H.
    + destruct H as [H|[]]. left. congruence.
    + destruct H as [H|H]; [left; congruence|]. right. split; [reflexivity|].
      repeat (destruct H as [H|H]; [injection H as <- <-; lia|]). destruct H.
  - intros [H|[-> H]]; [left; congruence|]. simpl.
    assert (D : (i' = i - 1 /\ j' = j) \/ (i' = i + 1 /\ j' = j) \/
                (i' = i /\ j' = j - 1) \/ (i' = i /\ j' = j + 1)) by lia.
    destruct D as [[-> ->]|[[-> ->]|[[-> ->]|[-> ->]]]]; tauto.
Qed.

Lemma Kplus_in : forall order N ins q, (order = 2 \/ order = 4) ->
  (In q (Kplus order N ins) <->
   exists p, In p (global_Mplus N ins) /\
     (q = p \/ (order = 4 /\ Z.abs (fst p - fst q) + Z.abs (snd p - snd q) = 1))).
Proof.
  intros order N ins q Ho. unfold Kplus. rewrite in_flat_map.
  split; intros (p & Hp & H); exists p; (split; [assumption|]);
    apply source_stencil_in; assumption.
Qed.

Lemma nn_loop : forall order Mp Mm todo acc q,
  (forall p, In p Mp -> ~ In p Mm) ->
  (In q (fst (nplus_nminus_loop order Mp Mm todo acc)) <->
   In q (fst acc) \/ exists p, In p todo /\ In p Mp /\ In q (stencil order p)) /\
  (In q (snd (nplus_nminus_loop order Mp Mm todo acc)) <->
   In q (snd acc) \/ exists p, In p todo /\ In p Mm /\ In q (stencil order p)).
Proof.
  intros order Mp Mm todo. induction todo as [|p todo IH]; intros acc q Hd; simpl.
  - split; (split; [tauto|]); intros [H|(p & [] & _)]; assumption.
  - destruct (IH (if node_mem p Mp then (fst acc ++ stencil order p, snd acc)
        else if node_mem p Mm then (fst acc, snd acc ++ stencil order p)
        else acc) q Hd) as [IH1 IH2].
    rewrite IH1, IH2. clear IH IH1 IH2.
    destruct (node_mem p Mp) eqn:E1.
    + apply node_mem_in in E1. pose proof (Hd p E1) as E2. simpl.
      rewrite in_app_iff. split; split.
      * intros [[H|H]|(r & Hr & H)]; [tauto|right; exists p; tauto|
          right; exists r; tauto].
      * intros [H|(r & [<-|Hr] & H)]; [tauto|tauto|right; exists r; tauto].
      * intros [H|(r & Hr & H)]; [tauto|right; exists r; tauto].
      * intros [H|(r & [<-|Hr] & H)]; [tauto|tauto|right; exists r; tauto].
    + apply node_mem_not_in in E1. destruct (node_mem p Mm) eqn:E2.
      * apply node_mem_in in E2. simpl. rewrite in_app_iff. split; split.
        -- intros [H|(r & Hr & H)]; [tauto|right; exists r; tauto].
        -- intros [H|(r & [<-|Hr] & H)]; [tauto|tauto|right; exists r; tauto].
        -- intros [[H|H]|(r & Hr & H)]; [tauto|right; exists p; tauto|
             right; exists r; tauto].
        -- intros [H|(r & [<-|Hr] & H)]; [tauto|tauto|right; exists r; tauto].
      * apply node_mem_not_in in E2. split; split.
        -- intros [H|(r & Hr & H)]; [tauto|right; exists r; tauto].
        -- intros [H|(r & [<-|Hr] & H)]; [tauto|tauto|right; exists r; tauto].
        -- intros [H|(r & Hr & H)]; [tauto|right; exists r; tauto].
        -- intros [H|(r & [<-|Hr] & H)]; [tauto|tauto|right; exists r; tauto].
Qed.

Lemma nplus_in : forall order N ins q, (order = 2 \/ order = 4) ->
  (In q (Nplus order N ins) <->
   exists p, in_open_grid N p /\ ins (fst p) (snd p) = true /\ neighbour order p q).
Proof.
  intros order N ins q Ho. unfold Nplus, nplus_nminus.
  destruct (nn_loop order (global_Mplus N ins) (global_Mminus N ins) (grid_M0 N)
    ([], []) q) as [H _].
  { intros p H1 H2. apply Mplus_in in H1. apply Mminus_in in H2. intuition congruence. }
  rewrite H. simpl. split.
  - intros [[]|(p & Hp & Hm & Hs)]. exists p. apply Mplus_in in Hm.
    apply stencil_in in Hs; [|assumption]. tauto.
  - intros (p & Hp & Hi & Hn). right. exists p. rewrite grid_M0_in, Mplus_in.
    rewrite stencil_in by assumption. tauto.
Qed.

Lemma nminus_in : forall order N ins q, (order = 2 \/ order = 4) ->
  (In q (Nminus order N ins) <->
   exists p, in_open_grid N p /\ ins (fst p) (snd p) = false /\ neighbour order p q).
Proof.
  intros order N ins q Ho. unfold Nminus, nplus_nminus.
  destruct (nn_loop order (global_Mplus N ins) (global_Mminus N ins) (grid_M0 N)
    ([], []) q) as [_ H].
  { intros p H1 H2. apply Mplus_in in H1. apply Mminus_in in H2. intuition congruence. }
  rewrite H. simpl. split.
  - intros [[]|(p & Hp & Hm & Hs)]. exists p. apply Mminus_in in Hm.
    apply stencil_in in Hs; [|assumption]. tauto.
  - intros (p & Hp & Hi & Hn). right. exists p. rewrite grid_M0_in, Mminus_in.
    rewrite stencil_in by assumption. tauto.
Qed.

Lemma gamma_set_in : forall order N ins q, (order = 2 \/ order = 4) ->
  (In q (gamma_set order N ins) <->
   (exists p, in_open_grid N p /\ ins (fst p) (snd p) = true /\ neighbour order p q) /\
   (exists p, in_open_grid N p /\ ins (fst p) (snd p) = false /\ neighbour order p q)).
Proof.
  intros order N ins q Ho. unfold gamma_set.
  rewrite node_inter_in, nplus_in, nminus_in by assumption. reflexivity.
Qed.

Lemma neighbour_refl : forall order p, neighbour order p p.
Proof. intros order p. unfold neighbour. split; [lia|]. split; [lia|]. auto. Qed.

Lemma neighbour_sym : forall order p q, neighbour order p q -> neighbour order q p.
Proof.
  unfold neighbour. intros order p q (H1 & H2 & H3). split; [lia|]. split; [lia|].
  intros H. destruct (H3 H); auto.
Qed.

(** Partition. *)
Lemma grid_partition : forall N ins p,
  in_open_grid N p ->
  (In p (global_Mplus N ins) /\ ~ In p (global_Mminus N ins) /\
     ins (fst p) (snd p) = true) \/
  (In p (global_Mminus N ins) /\ ~ In p (global_Mplus N ins) /\
     ins (fst p) (snd p) = false).
Proof.
  intros N ins p H. rewrite Mplus_in, Mminus_in.
  destruct (ins (fst p) (snd p)); [left|right]; intuition congruence.
Qed.

(** ** margins *)

Lemma margin_gamma : forall order N ins, (order = 2 \/ order = 4) -> margin N ins ->
  forall p, In p (gamma_set order N ins) -> in_open_grid N p.
Proof.
  intros order N ins Ho Hm [i j] H. apply gamma_set_in in H; [|assumption].
  destruct H as [([i' j'] & Hg & Hi & H1 & H2 & _) _].
  destruct (Hm i' j' Hg Hi). unfold in_open_grid. simpl in *. lia.
Qed.

Lemma disc_margin : forall AD_len rho N ins, (0 < AD_len)%R -> 2 <= N ->
  (rho < AD_len / 2 - AD_len / IZR N)%R ->
  (forall i j, in_open_grid N (i, j) -> ins i j = true ->
     let '(x, y) := get_coord AD_len N i j in (x * x + y * y <= rho * rho)%R /\ (0 <= rho)%R) ->
  margin N ins.
Proof.
  intros L rho N ins HL HN Hr Hins i j Hg Hi. specialize (Hins i j Hg Hi).
  unfold get_coord in Hins. destruct Hins as [Hd Hrho].
  assert (HNr : (2 <= IZR N)%R) by (apply IZR_le; assumption).
  unfold in_open_grid in Hg. simpl in Hg.
  assert (key : forall n, (1 <= n <= N - 1) ->
    ((L * (IZR n / IZR N - 1 / 2)) * (L * (IZR n / IZR N - 1 / 2)) <= rho * rho)%R ->
    2 <= n <= N - 2).
  { intros n Hn Hsq.
    set (x := (L * (IZR n / IZR N - 1 / 2))%R) in *.
    assert (Hx : (- rho <= x <= rho)%R).
    { split; apply Rnot_lt_le; intros Hlt.
      - assert (0 < (- x - rho) * (- x + rho))%R by (apply Rmult_lt_0_compat; lra). lra.
      - assert (0 < (x - rho) * (x + rho))%R by (apply Rmult_lt_0_compat; lra). lra. }
    assert (Hd0 : (0 < L / IZR N)%R) by (apply Rdiv_lt_0_compat; lra).
    assert (Ex : x = (IZR n * (L / IZR N) - L / 2)%R) by (unfold x; field; lra).
    assert (ELN : L = (IZR N * (L / IZR N))%R) by (field; lra).
    set (h := (L / IZR N)%R) in *.
    assert (1 < IZR n)%R by (apply Rmult_lt_reg_r with h; lra).
    assert (IZR n < IZR N - 1)%R by (apply Rmult_lt_reg_r with h; lra).
    assert (IZR 1 < IZR n)%R as A by lra. apply lt_IZR in A.
    assert (IZR n < IZR (N - 1))%R as B by (rewrite minus_IZR; lra).
    apply lt_IZR in B. lia. }
  pose proof (Rle_0_sqr (L * (IZR i / IZR N - 1 / 2))) as Sx.
  pose proof (Rle_0_sqr (L * (IZR j / IZR N - 1 / 2))) as Sy.
  unfold Rsqr in Sx, Sy.
  split; apply key; try lia; lra.
Qed.

(** ** coordinates *)

Lemma coord_inv_l : forall L N i j, L <> 0%R -> N <> 0 ->
  let '(x, y) := get_coord L N i j in get_coord_inv L N x y = (IZR i, IZR j).
Proof.
  intros L N i j HL HN. unfold get_coord, get_coord_inv.
  assert (IZR N <> 0)%R by (apply not_0_IZR; assumption).
  f_equal; field; auto.
Qed.

Lemma coord_doubling : forall L N q i j, N <> 0 -> q <> 0 ->
  get_coord L (q * N) (q * i) (q * j) = get_coord L N i j.
Proof.
  intros L N q i j HN Hq. unfold get_coord.
  assert (IZR N <> 0)%R by (apply not_0_IZR; assumption).
  assert (IZR q <> 0)%R by (apply not_0_IZR; assumption).
  rewrite !mult_IZR. f_equal; field; auto.
Qed.

Lemma coord_spacing : forall L N i j, N <> 0 ->
  (fst (get_coord L N (i + 1) j) - fst (get_coord L N i j) = L / IZR N /\
   snd (get_coord L N i (j + 1)) - snd (get_coord L N i j) = L / IZR N /\
   fst (get_coord L N i (j + 1)) = fst (get_coord L N i j) /\
   snd (get_coord L N (i + 1) j) = snd (get_coord L N i j) /\
   get_coord L N 0 0 = (- L / 2, - L / 2) /\ get_coord L N N N = (L / 2, L / 2))%R.
Proof.
  intros L N i j HN. assert (IZR N <> 0)%R by (apply not_0_IZR; assumption).
  unfold get_coord. simpl. rewrite !plus_IZR.
  split; [field; auto|]. split; [field; auto|]. split; [reflexivity|].
  split; [reflexivity|]. split; f_equal; field; auto.
Qed.

(** ** index normalisation *)

Lemma py_index_in : forall n i, 0 <= i < n -> py_index n i = Ok i.
Proof.
  intros n i H. unfold py_index.
  destruct (0 <=? i) eqn:A; [|apply Z.leb_gt in A; lia].
  destruct (i <? n) eqn:B; [reflexivity|apply Z.ltb_ge in B; lia].
Qed.

Lemma np_get_in : forall n A i j, 0 <= i < n -> 0 <= j < n -> np_get n A i j = Ok (A i j).
Proof. intros. unfold np_get. rewrite !py_index_in by assumption. reflexivity. Qed.

Lemma np_set_in : forall n A i j v, 0 <= i < n -> 0 <= j < n ->
  np_set n A i j v = Ok (arr_store A i j v).
Proof. intros. unfold np_set. rewrite !py_index_in by assumption. reflexivity. Qed.

(** ** maxima *)

Lemma py_max_spec : forall l m, py_max l = Ok m <->
  In m l /\ forall x, In x l -> (x <= m)%R.
Proof.
  induction l as [|a l IH]; intros m.
  - simpl. split; [discriminate|intros [[] _]].
  - destruct l as [|b l].
    + simpl. split.
      * intros H. injection H as <-. split; [auto|]. intros x [<-|[]]. lra.
      * intros [[<-|[]] _]. reflexivity.
    + change (py_max (a :: b :: l)) with (m0 <- py_max (b :: l);; Ok (Rmax a m0)).
      destruct (py_max (b :: l)) as [m0|e] eqn:E.
      * destruct (proj1 (IH m0) eq_refl) as [H1 H2]. simpl bind. split.
        -- intros H. injection H as <-. split.
           ++ destruct (Rle_dec a m0).
              ** rewrite Rmax_right by assumption. right; assumption.
              ** rewrite Rmax_left by lra. left; reflexivity.
           ++ intros x [<-|Hx]; [apply Rmax_l|].
              apply Rle_trans with m0; [apply H2; assumption|apply Rmax_r].
        -- intros [Hm Hall]. f_equal. apply Rle_antisym.
           ++ apply Rmax_lub; apply Hall; [left; reflexivity|right; assumption].
           ++ destruct Hm as [<-|Hm]; [apply Rmax_l|].
              apply Rle_trans with m0; [apply H2; assumption|apply Rmax_r].
      * exfalso. clear -E. revert b e E. induction l as [|c l IH]; intros b e E.
        -- discriminate.
        -- change (py_max (b :: c :: l)) with (m0 <- py_max (c :: l);; Ok (Rmax b m0)) in E.
           destruct (py_max (c :: l)) as [m0|] eqn:E'; [discriminate|].
           eapply IH; eauto.
Qed.

Lemma py_max_total : forall l, l <> [] -> exists m, py_max l = Ok m.
Proof.
  induction l as [|a l IH]; intros H; [congruence|].
  destruct l as [|b l]; [exists a; reflexivity|].
  destruct IH as [m Hm]; [discriminate|].
  change (py_max (a :: b :: l)) with (m0 <- py_max (b :: l);; Ok (Rmax a m0)).
  rewrite Hm. eexists; reflexivity.
Qed.

Lemma py_max_err : forall l e, py_max l = Err e -> l = [] /\ e = ValueError.
Proof.
  intros l e H. destruct l as [|a l].
  - simpl in H. split; congruence.
  - destruct (py_max_total (a :: l)) as [m Hm]; [discriminate|congruence].
Qed.

Lemma error_list_spec : forall N L expd u nodes,
  (forall p, In p nodes -> in_open_grid N p) ->
  error_list N L expd u nodes =
    Ok (map (fun p => Cmod (Cminus (expd (fst (get_coord L N (fst p) (snd p)))
                                         (snd (get_coord L N (fst p) (snd p))))
                                   (u (fst p - 1) (snd p - 1)))) nodes).
Proof.
  intros N L expd u nodes. induction nodes as [|[i j] nodes IH]; intros H; [reflexivity|].
  assert (Hg : in_open_grid N (i, j)) by (apply H; left; reflexivity).
  unfold in_open_grid in Hg. simpl in Hg.
  cbn [error_list get_coord fst snd map].
  rewrite np_get_in by lia. simpl bind.
  rewrite IH by (intros p Hp; apply H; right; assumption). reflexivity.
Qed.

Lemma eval_error_spec : forall N L expd u ins nodes,
  enumerates nodes (global_Mplus N ins) -> nodes <> [] ->
  exists e, eval_error N L true expd u nodes = Ok (Some e) /\
    (exists i j, in_open_grid N (i, j) /\ ins i j = true /\
       e = Cmod (Cminus (expd (fst (get_coord L N i j)) (snd (get_coord L N i j)))
                        (node_value N u i j))) /\
    (forall i j, in_open_grid N (i, j) -> ins i j = true ->
       (Cmod (Cminus (expd (fst (get_coord L N i j)) (snd (get_coord L N i j)))
                     (node_value N u i j)) <= e)%R).
Proof.
  intros N L expd u ins nodes [Hnd Hen] Hne.
  assert (Hin : forall p, In p nodes -> in_open_grid N p).
  { intros p Hp. apply Hen in Hp. apply Mplus_in in Hp. tauto. }
  unfold eval_error. simpl negb. cbv iota.
  rewrite error_list_spec by assumption. simpl bind.
  set (g := fun p => Cmod _).
  destruct (py_max_total (map g nodes)) as [e He].
  { destruct nodes; [congruence|discriminate]. }
  rewrite He. simpl. apply py_max_spec in He. destruct He as [He1 He2].
  assert (Hnv : forall i j, in_open_grid N (i, j) -> node_value N u i j = u (i - 1) (j - 1)).
  { intros i j [H1 H2]. simpl in *. unfold node_value.
    replace (1 <=? i) with true by (symmetry; apply Z.leb_le; lia).
    replace (i <=? N - 1) with true by (symmetry; apply Z.leb_le; lia).
    replace (1 <=? j) with true by (symmetry; apply Z.leb_le; lia).
    replace (j <=? N - 1) with true by (symmetry; apply Z.leb_le; lia). reflexivity. }
  exists e. split; [reflexivity|]. split.
  - apply in_map_iff in He1. destruct He1 as ([i j] & Hg & Hp). exists i, j.
    pose proof (Hin _ Hp) as Ho. apply Hen in Hp. apply Mplus_in in Hp.
    split; [tauto|]. split; [apply Hp|]. rewrite Hnv by assumption. symmetry. exact Hg.
  - intros i j Ho Hi. rewrite Hnv by assumption.
    apply (He2 (g (i, j))). apply in_map. apply Hen. apply Mplus_in. auto.
Qed.

Lemma eval_error_empty : forall N L expd u, eval_error N L true expd u [] = Err ValueError.
Proof. reflexivity. Qed.

Lemma eval_error_unknown : forall N L expd u nodes,
  eval_error N L false expd u nodes = Ok None.
Proof. reflexivity. Qed.

(** ** relative convergence *)

(** Differences at the nodes shared with the coarser grids, by coordinates. *)
Lemma rel_diffs_spec : forall N u0 u1 u2 nodes, N mod 4 = 0 ->
  (forall p, In p nodes -> in_open_grid N p) ->
  exists d12 d01, rel_diffs N u0 u1 u2 nodes = Ok (d12, d01) /\
   (forall d, In d d12 <-> exists i j, In (4 * i, 4 * j) nodes /\
      in_open_grid (N / 4) (i, j) /\ in_open_grid (N / 2) (2 * i, 2 * j) /\
      d = Cmod (Cminus (node_value (N / 2) u1 (2 * i) (2 * j))
                       (node_value (N / 4) u2 i j))) /\
   (forall d, In d d01 <-> exists i j, In (2 * i, 2 * j) nodes /\
      in_open_grid (N / 2) (i, j) /\
      d = Cmod (Cminus (node_value N u0 (2 * i) (2 * j))
                       (node_value (N / 2) u1 i j))).
Proof.
  intros N u0 u1 u2 nodes HN.
  assert (HN4 : N = 4 * (N / 4)) by (apply Z.div_exact; lia).
  assert (HN2 : N / 2 = 2 * (N / 4)).
  { rewrite HN4 at 1. replace (4 * (N / 4)) with ((2 * (N / 4)) * 2) by lia.
    apply Z.div_mul. lia. }
  assert (Hnv : forall M u i j, in_open_grid M (i, j) ->
                  node_value M u i j = u (i - 1) (j - 1)).
  { intros M u i j [H1 H2]. simpl in *. unfold node_value.
    replace (1 <=? i) with true by (symmetry; apply Z.leb_le; lia).
    replace (i <=? M - 1) with true by (symmetry; apply Z.leb_le; lia).
    replace (1 <=? j) with true by (symmetry; apply Z.leb_le; lia).
    replace (j <=? M - 1) with true by (symmetry; apply Z.leb_le; lia). reflexivity. }
  induction nodes as [|[i j] nodes IH]; intros Hin.
  - exists [], []. split; [reflexivity|]. split; intros d; simpl;
      (split; [intros []|intros (? & ? & [] & _)]).
  - destruct IH as (d12 & d01 & He & H12 & H01);
      [intros p Hp; apply Hin; right; assumption|].
    assert (Hg : in_open_grid N (i, j)) by (apply Hin; left; reflexivity).
    pose proof Hg as Hg'. unfold in_open_grid in Hg'. simpl in Hg'.
    cbn [rel_diffs].
    (* fine/half part *)
    assert (P01 : exists e01,
      (if (i mod 2 =? 0) && (j mod 2 =? 0) then
         a <- np_get (N - 1) u0 (i - 1) (j - 1);;
         b <- np_get (N / 2 - 1) u1 (i / 2 - 1) (j / 2 - 1);;
         Ok [Cmod (Cminus a b)]
       else Ok []) = Ok e01 /\
      (forall d, In d e01 <-> exists a b, (2 * a, 2 * b) = (i, j) /\
         in_open_grid (N / 2) (a, b) /\
         d = Cmod (Cminus (node_value N u0 (2 * a) (2 * b)) (node_value (N / 2) u1 a b)))).
    { destruct (Z.eqb_spec (i mod 2) 0) as [Ei|Ei]; cbn [andb].
      destruct (Z.eqb_spec (j mod 2) 0) as [Ej|Ej]; cbn [andb].
      - assert (Ei' : i = 2 * (i / 2)) by (apply Z.div_exact; lia).
        assert (Ej' : j = 2 * (j / 2)) by (apply Z.div_exact; lia).
        rewrite !np_get_in by lia. cbn [bind]. eexists. split; [reflexivity|].
        intros d. cbn [In]. split.
        + intros [<-|[]]. exists (i / 2), (j / 2). rewrite <- Ei', <- Ej'.
          split; [reflexivity|].
          assert (in_open_grid (N / 2) (i / 2, j / 2)) by (unfold in_open_grid; cbn [fst snd]; lia).
          split; [assumption|]. rewrite !Hnv by assumption. reflexivity.
        + intros (a & b & Hab & Hab' & ->). left. assert (Ha : 2 * a = i) by congruence. assert (Hb : 2 * b = j) by congruence.
          assert (a = i / 2) by lia. assert (b = j / 2) by lia. subst a b.
          rewrite <- Ei', <- Ej'. rewrite !Hnv by assumption. reflexivity.
      - eexists. split; [reflexivity|]. intros d. split; [intros []|].
        intros (a & b & Hab & _). assert (Ha : 2 * a = i) by congruence. assert (Hb : 2 * b = j) by congruence. apply Ej. rewrite <- Hb.
        rewrite Z.mul_comm. apply Z.mod_mul. lia.
      - eexists. split; [reflexivity|]. intros d. split; [intros []|].
        intros (a & b & Hab & _). assert (Ha : 2 * a = i) by congruence. assert (Hb : 2 * b = j) by congruence. apply Ei. rewrite <- Ha.
        rewrite Z.mul_comm. apply Z.mod_mul. lia. }
    assert (P12 : exists e12,
      (if (i mod 4 =? 0) && (j mod 4 =? 0) then
         a <- np_get (N / 2 - 1) u1 (i / 2 - 1) (j / 2 - 1);;
         b <- np_get (N / 4 - 1) u2 (i / 4 - 1) (j / 4 - 1);;
         Ok [Cmod (Cminus a b)]
       else Ok []) = Ok e12 /\
      (forall d, In d e12 <-> exists a b, (4 * a, 4 * b) = (i, j) /\
         in_open_grid (N / 4) (a, b) /\ in_open_grid (N / 2) (2 * a, 2 * b) /\
         d = Cmod (Cminus (node_value (N / 2) u1 (2 * a) (2 * b))
                          (node_value (N / 4) u2 a b)))).
    { destruct (Z.eqb_spec (i mod 4) 0) as [Ei|Ei]; cbn [andb].
      destruct (Z.eqb_spec (j mod 4) 0) as [Ej|Ej]; cbn [andb].
      - assert (Ei' : i = 4 * (i / 4)) by (apply Z.div_exact; lia).
        assert (Ej' : j = 4 * (j / 4)) by (apply Z.div_exact; lia).
        assert (Ei2 : i / 2 = 2 * (i / 4)).
        { rewrite Ei' at 1. replace (4 * (i / 4)) with ((2 * (i / 4)) * 2) by lia.
          apply Z.div_mul. lia. }
        assert (Ej2 : j / 2 = 2 * (j / 4)).
        { rewrite Ej' at 1. replace (4 * (j / 4)) with ((2 * (j / 4)) * 2) by lia.
          apply Z.div_mul. lia. }
        rewrite !np_get_in by lia. cbn [bind]. eexists. split; [reflexivity|].
        intros d. cbn [In]. split.
        + intros [<-|[]]. exists (i / 4), (j / 4). rewrite <- Ei', <- Ej'.
          split; [reflexivity|].
          assert (A : in_open_grid (N / 4) (i / 4, j / 4)) by (unfold in_open_grid; cbn [fst snd]; lia).
          assert (B : in_open_grid (N / 2) (2 * (i / 4), 2 * (j / 4)))
            by (unfold in_open_grid; cbn [fst snd]; lia).
          split; [assumption|]. split; [assumption|].
          rewrite !Hnv by assumption. rewrite Ei2, Ej2. reflexivity.
        + intros (a & b & Hab & Hab' & Hab'' & ->). left. assert (Ha : 4 * a = i) by congruence. assert (Hb : 4 * b = j) by congruence.
          assert (a = i / 4) by lia. assert (b = j / 4) by lia. subst a b.
          rewrite !Hnv by assumption. rewrite Ei2, Ej2. reflexivity.
      - eexists. split; [reflexivity|]. intros d. split; [intros []|].
        intros (a & b & Hab & _). assert (Ha : 4 * a = i) by congruence. assert (Hb : 4 * b = j) by congruence. apply Ej. rewrite <- Hb.
        rewrite Z.mul_comm. apply Z.mod_mul. lia.
      - eexists. split; [reflexivity|]. intros d. split; [intros []|].
        intros (a & b & Hab & _). assert (Ha : 4 * a = i) by congruence. assert (Hb : 4 * b = j) by congruence. apply Ei. rewrite <- Ha.
        rewrite Z.mul_comm. apply Z.mod_mul. lia. }
    destruct P01 as (e01 & E01 & S01). destruct P12 as (e12 & E12 & S12).
    rewrite E12. simpl bind. rewrite E01. simpl bind. rewrite He. simpl bind.
    exists (e12 ++ d12), (e01 ++ d01). split; [reflexivity|]. split; intros d.
    + rewrite in_app_iff, S12, H12. split.
      * intros [(a & b & Hab & H)|(a & b & Hab & H)]; exists a, b;
          (split; [simpl; auto|exact H]).
      * intros (a & b & [Hab|Hab] & H); [left|right]; exists a, b;
          (split; [auto|exact H]).
    + rewrite in_app_iff, S01, H01. split.
      * intros [(a & b & Hab & H)|(a & b & Hab & H)]; exists a, b;
          (split; [simpl; auto|exact H]).
      * intros (a & b & [Hab|Hab] & H); [left|right]; exists a, b;
          (split; [auto|exact H]).
Qed.
