(** Assembly of the polar system (C35, C36) and C33's polar part. *)
From Coq Require Import ZArith List Bool Reals Lra Lia.
From Coquelicot Require Import Complex.
From Verif Require Import Model_Py Model_Grid Model_PolarFD Spec_PolarFD Spec_Grid Proof_Grid Proof_Grid2.
Import ListNotations.
Open Scope Z_scope.

(** A system as a list of rows: right-hand side and (value, column) entries. *)
Notation prow := (R * list (R * Z))%type (only parsing).

Definition row_data (rows : list prow) : list R := flat_map (fun p => map fst (snd p)) rows.
Definition row_cols (rows : list prow) : list Z := flat_map (fun p => map snd (snd p)) rows.
Fixpoint row_nums (n : Z) (rows : list prow) : list Z :=
  match rows with [] => [] | p :: rows' => map (fun _ => n) (snd p) ++ row_nums (n + 1) rows' end.

Definition rep (y : pf_system) (rows : list prow) : Prop :=
  sy_rhs y = map fst rows /\ sy_row y = Z.of_nat (length rows) /\
  sy_data y = row_data rows /\ sy_row_ind y = row_nums 0 rows /\ sy_col_ind y = row_cols rows.

Lemma rep_new : rep new_system [].
Proof. repeat split. Qed.

Lemma row_nums_app : forall a n b,
  row_nums n (a ++ b) = row_nums n a ++ row_nums (n + Z.of_nat (length a)) b.
Proof.
  induction a as [|p a IH]; intros n b; cbn [row_nums app length].
  - rewrite Z.add_0_r. reflexivity.
  - rewrite IH, app_assoc. do 2 f_equal. lia.
Qed.

Lemma rep_push : forall y rows y' p, rep y rows ->
  sy_rhs y' = sy_rhs y ++ [fst p] -> sy_row y' = sy_row y + 1 ->
  sy_data y' = sy_data y ++ map fst (snd p) ->
  sy_row_ind y' = sy_row_ind y ++ map (fun _ => sy_row y) (snd p) ->
  sy_col_ind y' = sy_col_ind y ++ map snd (snd p) ->
  rep y' (rows ++ [p]).
Proof.
  intros y rows y' p (H1 & H2 & H3 & H4 & H5) E1 E2 E3 E4 E5.
  unfold rep. rewrite E1, E2, E3, E4, E5, H1, H2, H3, H4, H5.
  rewrite map_app, app_length, row_nums_app. unfold row_data, row_cols. rewrite !flat_map_app.
  cbn [map flat_map length row_nums]. rewrite !app_nil_r. repeat split. lia.
Qed.

Lemma rep_bc : forall y rows v i, rep y rows ->
  rep (next_row (put_rhs v (put 1 i y))) (rows ++ [(v, [(1%R, i)])]).
Proof.
  intros y rows v i H. apply (rep_push y rows _ _ H); reflexivity.
Qed.

Lemma rep_fold : forall (A : Type) (step : pf_system -> A -> pf_system) (rws : A -> list prow) l y rows,
  (forall y rows x, rep y rows -> rep (step y x) (rows ++ rws x)) ->
  rep y rows -> rep (fold_left step l y) (rows ++ flat_map rws l).
Proof.
  intros A step rws l. induction l as [|x l IH]; intros y rows Hs H; cbn [fold_left flat_map].
  - rewrite app_nil_r. exact H.
  - rewrite app_assoc. apply IH; [exact Hs|]. apply Hs, H.
Qed.

Definition origin_rows s : list prow := flat_map (fun l =>
  [(pf_phi_initial s (get_th s l), [(1%R, get_index (pf_N s) 0 l)])]) (py_range 1 (pf_N s)).
Definition wedge_rows s : list prow := flat_map (fun m =>
  [(pf_phi2 s (get_r s (IZR m)), [(1%R, get_index (pf_N s) m 0)]);
   (pf_phi1 s (get_r s (IZR m)), [(1%R, get_index (pf_N s) m (pf_N s))])])
  (py_range 0 (pf_N s + 1)).
Definition arc_rows s : list prow := flat_map (fun l =>
  [(pf_phi0 s (get_th s l), [(1%R, get_index (pf_N s) (pf_N s) l)])]) (py_range 1 (pf_N s)).
Definition stencil s m : local3 :=
  fd4_local (get_r s (IZR (m - 1))) (get_r s (IZR m - 1 / 2)) (get_r s (IZR m))
    (get_r s (IZR m + 1 / 2)) (get_r s (IZR (m + 1))) (pf_hr s) (pf_hth s) (pf_k s).
Definition fd_row s m l : prow :=
  (fd4_rhs (pf_hr s) (pf_hth s) (get_r s (IZR m)) (pf_f s (get_r s (IZR m)) (get_th s l))
     (pf_d_f_r s (get_r s (IZR m)) (get_th s l)) (pf_d2_f_r s (get_r s (IZR m)) (get_th s l))
     (pf_d2_f_th s (get_r s (IZR m)) (get_th s l)),
   map (fun d => (local_get (stencil s m) (fst d) (snd d),
                  get_index (pf_N s) (m + fst d) (l + snd d))) local_offsets).
Definition fd_rows s : list prow := flat_map (fun m =>
  flat_map (fun l => [fd_row s m l]) (py_range 1 (pf_N s))) (py_range 1 (pf_N s)).
Definition all_rows s : list prow :=
  ((origin_rows s ++ wedge_rows s) ++ arc_rows s) ++ fd_rows s.

Lemma copy_rep : forall s m l y rows, rep y rows -> rep (set_fd4 s m l y) (rows ++ [fd_row s m l]).
Proof.
  intros s m l y rows H. apply (rep_push y rows _ _ H).
  - reflexivity.
  - reflexivity.
  - unfold set_fd4, copy_local, local_offsets, fd_row, local_offsets.
    cbn [fold_left put put_rhs next_row sy_data sy_rhs sy_row sy_row_ind sy_col_ind map fst snd].
    rewrite <- !app_assoc. reflexivity.
  - unfold set_fd4, copy_local, local_offsets, fd_row, local_offsets.
    cbn [fold_left put put_rhs next_row sy_data sy_rhs sy_row sy_row_ind sy_col_ind map fst snd].
    rewrite <- !app_assoc. reflexivity.
  - unfold set_fd4, copy_local, local_offsets, fd_row, local_offsets.
    cbn [fold_left put put_rhs next_row sy_data sy_rhs sy_row sy_row_ind sy_col_ind map fst snd].
    rewrite <- !app_assoc. reflexivity.
Qed.

Lemma assemble_rep : forall s, rep (assemble s) (all_rows s).
Proof.
  intros s. unfold assemble, all_rows, fd_rows.
  apply (rep_fold Z (fun y m => fold_left (fun y l => set_fd4 s m l y) (py_range 1 (pf_N s)) y)
    (fun m => flat_map (fun l => [fd_row s m l]) (py_range 1 (pf_N s)))).
  { intros y rows m H.
    apply (rep_fold Z (fun y l => set_fd4 s m l y) (fun l => [fd_row s m l])); [|exact H].
    intros. apply copy_rep. assumption. }
  unfold arc_rows, set_bc_arc. apply rep_fold; [intros; apply rep_bc; assumption|].
  unfold wedge_rows, set_bc_wedge. apply rep_fold.
  { intros y rows m H. cbv zeta.
    change [?a; ?b] with ([a] ++ [b]). rewrite app_assoc. apply rep_bc. apply rep_bc. exact H. }
  unfold origin_rows, set_bc_origin.
  apply (rep_fold Z _ (fun l => [(pf_phi_initial s (get_th s l), [(1%R, get_index (pf_N s) 0 l)])])
    _ new_system []); [intros; apply rep_bc; assumption|apply rep_new].
Qed.

(** Row-wise evaluation. *)
Fixpoint row_value (es : list (R * Z)) (z : Z -> R) : R :=
  match es with [] => 0%R | e :: es' => (fst e * z (snd e) + row_value es' z)%R end.

Lemma coo_row_app : forall d1 r1 c1 d2 r2 c2 z row,
  length d1 = length r1 -> length r1 = length c1 ->
  coo_row (d1 ++ d2) (r1 ++ r2) (c1 ++ c2) z row =
  (coo_row d1 r1 c1 z row + coo_row d2 r2 c2 z row)%R.
Proof.
  induction d1 as [|d d1 IH]; intros [|r r1] [|c c1] d2 r2 c2 z row H1 H2;
    try discriminate; cbn [app coo_row]; [lra|].
  rewrite IH by (cbn [length] in *; congruence). lra.
Qed.

Lemma coo_row_same : forall es n row z,
  coo_row (map fst es) (map (fun _ => n) es) (map snd es) z row =
  if n =? row then row_value es z else 0%R.
Proof.
  induction es as [|e es IH]; intros n row z; cbn [map coo_row row_value].
  - destruct (n =? row); reflexivity.
  - rewrite IH. destruct (n =? row); lra.
Qed.

Lemma coo_row_rows : forall rows n z row,
  coo_row (row_data rows) (row_nums n rows) (row_cols rows) z row =
  if (n <=? row) && (row <? n + Z.of_nat (length rows))
  then row_value (snd (nth (Z.to_nat (row - n)) rows (0%R, []))) z else 0%R.
Proof.
  induction rows as [|p rows IH]; intros n z row.
  - cbn [row_data row_cols row_nums flat_map coo_row length].
    destruct ((n <=? row) && (row <? n + Z.of_nat 0)) eqn:E; [|reflexivity].
    apply andb_true_iff in E. rewrite Z.leb_le, Z.ltb_lt in E. lia.
  - unfold row_data, row_cols. cbn [flat_map row_nums].
    rewrite coo_row_app by (rewrite !map_length; reflexivity).
    fold (row_data rows) (row_cols rows). rewrite IH, coo_row_same. cbn [length].
    destruct (Z.eqb_spec n row) as [->|Hne].
    + rewrite Z.sub_diag. cbn [Z.to_nat nth].
      replace (row + 1 <=? row) with false by (symmetry; apply Z.leb_gt; lia).
      replace (row <=? row) with true by (symmetry; apply Z.leb_le; lia).
      replace (row <? row + Z.of_nat (S (length rows))) with true
        by (symmetry; apply Z.ltb_lt; lia).
      cbn [andb]. lra.
    + rewrite Rplus_0_l.
      replace (n + 1 + Z.of_nat (length rows)) with (n + Z.of_nat (S (length rows))) by lia.
      destruct (Z.leb_spec (n + 1) row).
      * replace (n <=? row) with true by (symmetry; apply Z.leb_le; lia).
        replace (Z.to_nat (row - n)) with (S (Z.to_nat (row - (n + 1)))) by lia. reflexivity.
      * replace (n <=? row) with false by (symmetry; apply Z.leb_gt; lia). reflexivity.
Qed.

Lemma solves_rows : forall y rows z, rep y rows ->
  (solves y z <-> forall p, In p rows -> row_value (snd p) z = fst p).
Proof.
  intros y rows z (H1 & H2 & H3 & H4 & H5). unfold solves. rewrite H1, H2, H3, H4, H5. split.
  - intros H p Hp. apply (In_nth rows p ((0%R, []) : prow)) in Hp. destruct Hp as (i & Hi & E).
    specialize (H (Z.of_nat i) ltac:(lia)). rewrite coo_row_rows in H.
    replace ((0 <=? Z.of_nat i) && (Z.of_nat i <? 0 + Z.of_nat (length rows))) with true in H.
    2:{ symmetry. apply andb_true_iff. rewrite Z.leb_le, Z.ltb_lt. lia. }
    rewrite Z.sub_0_r, Nat2Z.id, E in H. rewrite H.
    change 0%R with (fst (0%R, [] : list (R * Z))). rewrite map_nth, E. reflexivity.
  - intros H row Hr. rewrite coo_row_rows.
    replace ((0 <=? row) && (row <? 0 + Z.of_nat (length rows))) with true.
    2:{ symmetry. apply andb_true_iff. rewrite Z.leb_le, Z.ltb_lt. lia. }
    rewrite Z.sub_0_r.
    rewrite H by (apply (nth_In rows); lia).
    change 0%R with (fst (0%R, [] : list (R * Z))) at 2. rewrite map_nth. reflexivity.
Qed.

Lemma row_value_single : forall i z, row_value [(1%R, i)] z = z i.
Proof. intros. cbn [row_value fst snd]. lra. Qed.

Lemma solves_raw : forall s z, solves (assemble s) z <->
  (forall l, 1 <= l < pf_N s -> z (get_index (pf_N s) 0 l) = pf_phi_initial s (get_th s l)) /\
  (forall m, 0 <= m <= pf_N s -> z (get_index (pf_N s) m 0) = pf_phi2 s (get_r s (IZR m))) /\
  (forall m, 0 <= m <= pf_N s -> z (get_index (pf_N s) m (pf_N s)) = pf_phi1 s (get_r s (IZR m))) /\
  (forall l, 1 <= l < pf_N s -> z (get_index (pf_N s) (pf_N s) l) = pf_phi0 s (get_th s l)) /\
  (forall m l, 1 <= m < pf_N s -> 1 <= l < pf_N s ->
     row_value (snd (fd_row s m l)) z = fst (fd_row s m l)).
Proof.
  intros s z. rewrite (solves_rows _ _ z (assemble_rep s)). unfold all_rows. split.
  - intros H. repeat split; intros.
    + rewrite <- row_value_single. 
      apply (H (_, [(1%R, get_index (pf_N s) 0 l)])). rewrite !in_app_iff. left. left. left.
      unfold origin_rows. apply in_flat_map. exists l. split; [apply py_range_in; lia|left; reflexivity].
    + rewrite <- row_value_single. 
      apply (H (_, [(1%R, get_index (pf_N s) m 0)])). rewrite !in_app_iff. left. left. right.
      unfold wedge_rows. apply in_flat_map. exists m. split; [apply py_range_in; lia|left; reflexivity].
    + rewrite <- row_value_single. 
      apply (H (_, [(1%R, get_index (pf_N s) m (pf_N s))])). rewrite !in_app_iff. left. left. right.
      unfold wedge_rows. apply in_flat_map. exists m.
      split; [apply py_range_in; lia|right; left; reflexivity].
    + rewrite <- row_value_single. 
      apply (H (_, [(1%R, get_index (pf_N s) (pf_N s) l)])). rewrite !in_app_iff. left. right.
      unfold arc_rows. apply in_flat_map. exists l. split; [apply py_range_in; lia|left; reflexivity].
    + apply H. rewrite !in_app_iff. right. unfold fd_rows. apply in_flat_map. exists m.
      split; [apply py_range_in; lia|]. apply in_flat_map. exists l.
      split; [apply py_range_in; lia|left; reflexivity].
  - intros (H1 & H2 & H3 & H4 & H5) p. rewrite !in_app_iff.
    intros [[[Hp|Hp]|Hp]|Hp]; apply in_flat_map in Hp; destruct Hp as (x & Hx & Hp);
      apply py_range_in in Hx.
    + destruct Hp as [<-|[]]. cbn [fst snd]. rewrite row_value_single. apply H1. lia.
    + destruct Hp as [<-|[<-|[]]]; cbn [fst snd]; rewrite row_value_single;
        [apply H2; lia|apply H3; lia].
    + destruct Hp as [<-|[]]. cbn [fst snd]. rewrite row_value_single. apply H4. lia.
    + apply in_flat_map in Hp. destruct Hp as (l & Hl & Hp). apply py_range_in in Hl.
      destruct Hp as [<-|[]]. apply H5; lia.
Qed.

(** The nine coefficients are those of the composed operators. *)
Open Scope R_scope.

Lemma local_get_same : forall i j v loc,
  In (i, j) local_offsets ->
  forall p q, In (p, q) local_offsets ->
  local_get (local_add i j v loc) p q =
  if ((i =? p) && (j =? q))%Z%bool then local_get loc p q + v else local_get loc p q.
Proof.
  intros i j v loc H p q H'. unfold local_get, local_add.
  replace ((norm3 p =? norm3 i)%Z && (norm3 q =? norm3 j)%Z) with ((i =? p) && (j =? q))%Z%bool;
    [reflexivity|].
  unfold local_offsets in H, H'. cbn [In] in H, H'.
  repeat (destruct H as [H|H]; [injection H as <- <-;
    repeat (destruct H' as [H'|H']; [injection H' as <- <-; reflexivity|]); destruct H'|]).
  destruct H.
Qed.

Ltac offs := unfold local_offsets; cbn [In]; tauto.

(** Value of the stored row on a vector, as a sum over the nine neighbours. *)
Lemma fd_row_value : forall s m l z,
  pf_hr s <> 0 -> pf_hth s <> 0 ->
  get_r s (IZR m) <> 0 -> get_r s (IZR (m - 1)) <> 0 -> get_r s (IZR (m + 1)) <> 0 ->
  row_value (snd (fd_row s m l)) z =
  compact_scheme (fun m => get_r s (IZR m)) (pf_hr s) (pf_hth s) (pf_k s) (pf_at s z) m l.
Proof.
  intros s m l z H1 H2 H3 H4 H5.
  unfold fd_row, stencil. cbn [snd]. unfold local_offsets. cbn [map row_value fst snd].
  set (r := get_r s (IZR m)) in *. set (ra := get_r s (IZR (m - 1))) in *.
  set (rb := get_r s (IZR (m + 1))) in *.
  replace (get_r s (IZR m - 1 / 2)) with (r - pf_hr s / 2) by (unfold r, get_r; field).
  replace (get_r s (IZR m + 1 / 2)) with (r + pf_hr s / 2) by (unfold r, get_r; field).
  unfold fd4_local. rewrite !local_get_same by offs.
  cbn [Z.eqb Pos.eqb andb]. unfold local_get.
  unfold compact_scheme, op_radial, op_angular, op_drr, op_dr, op_dthth. cbv beta zeta.
  fold r ra rb. unfold pf_at, get_index.
  rewrite !Z.add_0_r. change (m + -1)%Z with (m - 1)%Z. change (l + -1)%Z with (l - 1)%Z.
  set (hr := pf_hr s) in *. set (hth := pf_hth s) in *. set (k := pf_k s).
  set (N1 := (pf_N s + 1)%Z).
  field. tauto.
Qed.

Lemma fd_row_rhs : forall s m l, pf_hr s <> 0 -> get_r s (IZR m) <> 0 ->
  fst (fd_row s m l) =
  let r := get_r s (IZR m) in let th := get_th s l in
  compact_source (pf_hr s) (pf_hth s) r (pf_f s r th) (pf_d_f_r s r th) (pf_d2_f_r s r th)
    (pf_d2_f_th s r th).
Proof.
  intros s m l H1 H2. unfold fd_row, fd4_rhs, compact_source. cbn [fst]. cbv zeta. field. exact H2.
Qed.

Lemma pf_steps : forall s, pf_ok s -> 0 < pf_hr s /\ 0 < pf_hth s /\
  forall m, (0 <= m)%Z -> 0 < get_r s (IZR m).
Proof.
  intros s (HN & HR & Ha). assert (0 < IZR (pf_N s)) by (apply IZR_lt; lia).
  assert (0 < pf_hr s) by (unfold pf_hr; apply Rdiv_lt_0_compat; lra).
  assert (0 < pf_hth s) by (unfold pf_hth; apply Rdiv_lt_0_compat; lra).
  repeat split; try assumption. intros m Hm. apply IZR_le in Hm. unfold get_r. nra.
Qed.

Lemma solves_iff : forall s z, pf_ok s ->
  let N := pf_N s in
  let r := fun m => pf_R0 s + IZR m * ((pf_R1 s - pf_R0 s) / IZR N) in
  let th := fun l => pf_a s + IZR l * ((2 * PI - pf_a s) / IZR N) in
  (solves (assemble s) z <->
   (forall m, (0 <= m <= N)%Z -> pf_at s z m 0 = pf_phi2 s (r m) /\
  pf_at s z m N = pf_phi1 s (r m)) /\
  (forall l, (1 <= l <= N - 1)%Z -> pf_at s z 0 l = pf_phi_initial s (th l) /\
  pf_at s z N l = pf_phi0 s (th l)) /\
  (forall m l, (1 <= m <= N - 1)%Z -> (1 <= l <= N - 1)%Z ->
      compact_scheme r ((pf_R1 s - pf_R0 s) / IZR N) ((2 * PI - pf_a s) / IZR N) (pf_k s)
        (pf_at s z) m l =
      compact_source ((pf_R1 s - pf_R0 s) / IZR N) ((2 * PI - pf_a s) / IZR N) (r m)
        (pf_f s (r m) (th l)) (pf_d_f_r s (r m) (th l)) (pf_d2_f_r s (r m) (th l))
        (pf_d2_f_th s (r m) (th l)))).
Proof.
  intros s z Hok N r th. destruct (pf_steps s Hok) as (Hr & Hth & Hp).
  rewrite solves_raw. unfold pf_at, get_index. fold N.
  assert (E : forall m l, (1 <= m < N)%Z -> (1 <= l < N)%Z ->
    (row_value (snd (fd_row s m l)) z = fst (fd_row s m l) <->
     compact_scheme r ((pf_R1 s - pf_R0 s) / IZR N) ((2 * PI - pf_a s) / IZR N) (pf_k s)
        (pf_at s z) m l =
     compact_source ((pf_R1 s - pf_R0 s) / IZR N) ((2 * PI - pf_a s) / IZR N) (r m)
        (pf_f s (r m) (th l)) (pf_d_f_r s (r m) (th l)) (pf_d2_f_r s (r m) (th l))
        (pf_d2_f_th s (r m) (th l)))).
  { intros m l Hm Hl.
    pose proof (Hp m ltac:(lia)). pose proof (Hp (m - 1)%Z ltac:(lia)).
    pose proof (Hp (m + 1)%Z ltac:(lia)).
    rewrite fd_row_value by lra. rewrite fd_row_rhs by lra. reflexivity. }
  split.
  - intros (H1 & H2 & H3 & H4 & H5). split; [|split].
    + intros m Hm. split; [apply H2, Hm|apply H3, Hm].
    + intros l Hl. split; [apply H1; lia|apply H4; lia].
    + intros m l Hm Hl. apply E; try lia. apply H5; lia.
  - intros (H1 & H2 & H3). repeat split.
    + intros l Hl. apply H2. lia.
    + intros m Hm. apply H1, Hm.
    + intros m Hm. apply H1, Hm.
    + intros l Hl. apply H2. lia.
    + intros m l Hm Hl. apply E; try lia. apply H3; lia.
Qed.

(** Numbering. *)
Open Scope Z_scope.

Lemma index_range : forall N p, in_polar_grid N p ->
  0 <= get_index N (fst p) (snd p) < (N + 1) * (N + 1).
Proof. intros N [m l] [Hm Hl]. unfold get_index. cbn [fst snd] in *. nia. Qed.

Lemma index_inj : forall N p q, in_polar_grid N p -> in_polar_grid N q ->
  get_index N (fst p) (snd p) = get_index N (fst q) (snd q) -> p = q.
Proof.
  intros N [m l] [m' l'] [Hm Hl] [Hm' Hl'] E. unfold get_index in E. cbn [fst snd] in *.
  assert (m = m').
  { destruct (Z.lt_trichotomy m m') as [H|[H|H]]; [|exact H|];
      exfalso; nia. }
  subst. f_equal. lia.
Qed.

Lemma index_onto : forall N i, 0 <= i < (N + 1) * (N + 1) -> 0 <= N ->
  exists p, in_polar_grid N p /\ get_index N (fst p) (snd p) = i.
Proof.
  intros N i Hi HN. exists (i / (N + 1), i mod (N + 1)). unfold in_polar_grid, get_index.
  cbn [fst snd]. pose proof (Z.mod_pos_bound i (N + 1) ltac:(lia)).
  pose proof (Z.div_mod i (N + 1) ltac:(lia)).
  assert (i / (N + 1) < N + 1) by (apply Z.div_lt_upper_bound; lia).
  assert (0 <= i / (N + 1)) by (apply Z.div_pos; lia). lia.
Qed.

(** Owners of the rows, in order. *)
Definition owners (N : Z) : list (Z * Z) :=
  ((flat_map (fun l => [(0, l)]) (py_range 1 N)
    ++ flat_map (fun m => [(m, 0); (m, N)]) (py_range 0 (N + 1)))
   ++ flat_map (fun l => [(N, l)]) (py_range 1 N))
  ++ flat_map (fun m => flat_map (fun l => [(m, l)]) (py_range 1 N)) (py_range 1 N).

Lemma py_range_length : forall a b, length (py_range a b) = Z.to_nat (b - a).
Proof. intros. unfold py_range. rewrite map_length, seq_length. reflexivity. Qed.

Lemma flat_map_length_const : forall A B (f : A -> list B) c l,
  (forall x, length (f x) = c) -> length (flat_map f l) = (length l * c)%nat.
Proof.
  intros A B f c l H. induction l as [|x l IH]; [reflexivity|].
  cbn [flat_map length]. rewrite app_length, H, IH. lia.
Qed.

Lemma owners_length : forall N, 1 <= N -> length (owners N) = Z.to_nat ((N + 1) * (N + 1)).
Proof.
  intros N HN. unfold owners. rewrite !app_length.
  rewrite !(flat_map_length_const Z (Z * Z) (fun l => [(_, l)]) 1) by reflexivity.
  rewrite (flat_map_length_const Z (Z * Z) (fun m => [(m, 0); (m, N)]) 2) by reflexivity.
  rewrite (flat_map_length_const Z (Z * Z) _ (Z.to_nat (N - 1))).
  2:{ intros m. rewrite (flat_map_length_const Z (Z * Z) (fun l => [(m, l)]) 1) by reflexivity.
      rewrite py_range_length. lia. }
  rewrite !py_range_length. rewrite <- Z2Nat.inj_mul by lia.
  apply Nat2Z.inj. rewrite !Nat2Z.inj_add, !Nat2Z.inj_mul, !Z2Nat.id by nia. nia.
Qed.

Lemma owners_in : forall N p, 1 <= N -> (In p (owners N) <-> in_polar_grid N p).
Proof.
  intros N [m l] HN. unfold owners, in_polar_grid. rewrite !in_app_iff. cbn [fst snd]. split.
  - intros [[[H|H]|H]|H]; apply in_flat_map in H; destruct H as (x & Hx & H);
      apply py_range_in in Hx.
    + destruct H as [H|[]]. injection H as <- <-. lia.
    + destruct H as [H|[H|[]]]; injection H as <- <-; lia.
    + destruct H as [H|[]]. injection H as <- <-. lia.
    + apply in_flat_map in H. destruct H as (y & Hy & H). apply py_range_in in Hy.
      destruct H as [H|[]]. injection H as <- <-. lia.
  - intros [Hm Hl].
    destruct (Z.eq_dec l 0) as [->|]; [|destruct (Z.eq_dec l N) as [->|]].
    + left. left. right. apply in_flat_map. exists m. split; [apply py_range_in; lia|left; reflexivity].
    + left. left. right. apply in_flat_map. exists m.
      split; [apply py_range_in; lia|right; left; reflexivity].
    + destruct (Z.eq_dec m 0) as [->|]; [|destruct (Z.eq_dec m N) as [->|]].
      * left. left. left. apply in_flat_map. exists l.
        split; [apply py_range_in; lia|left; reflexivity].
      * left. right. apply in_flat_map. exists l. split; [apply py_range_in; lia|left; reflexivity].
      * right. apply in_flat_map. exists m. split; [apply py_range_in; lia|].
        apply in_flat_map. exists l. split; [apply py_range_in; lia|left; reflexivity].
Qed.

Lemma owners_nodup : forall N, 1 <= N -> NoDup (owners N).
Proof.
  intros N HN.
  pose (full := map (fun i => (i / (N + 1), i mod (N + 1))) (py_range 0 ((N + 1) * (N + 1)))).
  apply (@NoDup_incl_NoDup _ full).
  - unfold full.
    assert (Inj : forall x y, (x / (N + 1), x mod (N + 1)) = (y / (N + 1), y mod (N + 1)) -> x = y).
    { intros x y E. injection E as E1 E2. rewrite (Z.div_mod x (N + 1)), (Z.div_mod y (N + 1)) by lia.
      rewrite E1, E2. reflexivity. }
    apply FinFun.Injective_map_NoDup; [exact Inj|]. apply py_range_nodup.
  - rewrite owners_length by exact HN. unfold full. rewrite map_length, py_range_length. lia.
  - intros p Hp. unfold full in Hp. apply in_map_iff in Hp. destruct Hp as (i & <- & Hi).
    apply py_range_in in Hi. apply owners_in; [exact HN|]. unfold in_polar_grid. cbn [fst snd].
    pose proof (Z.mod_pos_bound i (N + 1) ltac:(lia)).
    assert (i / (N + 1) < N + 1) by (apply Z.div_lt_upper_bound; lia).
    assert (0 <= i / (N + 1)) by (apply Z.div_pos; lia). lia.
Qed.

Lemma Forall2_flat_map : forall A B C (P : B -> C -> Prop) (f : A -> list B) (g : A -> list C) l,
  (forall x, In x l -> Forall2 P (f x) (g x)) -> Forall2 P (flat_map f l) (flat_map g l).
Proof.
  intros A B C P f g l. induction l as [|x l IH]; intros H; cbn [flat_map]; [constructor|].
  apply Forall2_app; [apply H; left; reflexivity|apply IH; intros; apply H; right; assumption].
Qed.

Lemma owners_rows : forall s, 1 <= pf_N s ->
  Forall2 (fun p row => row_of (pf_N s) p (map snd (snd row))) (owners (pf_N s)) (all_rows s).
Proof.
  intros s HN. unfold owners, all_rows.
  repeat apply Forall2_app; apply Forall2_flat_map; intros x Hx; apply py_range_in in Hx.
  - constructor; [|constructor]. split; cbn [fst snd map]; [reflexivity|lia].
  - constructor; [|constructor; [|constructor]]; (split; cbn [fst snd map]; [reflexivity|lia]).
  - constructor; [|constructor]. split; cbn [fst snd map]; [reflexivity|lia].
  - apply Forall2_flat_map. intros l Hl. apply py_range_in in Hl.
    constructor; [|constructor]. split; cbn [fst snd]; [lia|]. intros _ _.
    unfold fd_row. cbn [snd]. rewrite map_map. cbn [snd].
    split; [rewrite map_length; reflexivity|]. intros c. rewrite in_map_iff. split.
    + intros ([dm dl] & <- & Hd). exists (x + dm, l + dl). cbn [fst snd].
      unfold local_offsets in Hd. cbn [In] in Hd.
      assert (-1 <= dm <= 1 /\ -1 <= dl <= 1).
      { repeat (destruct Hd as [Hd|Hd]; [injection Hd as <- <-; lia|]). destruct Hd. }
      unfold get_index. lia.
    + intros ([m' l'] & H1 & H2 & ->). cbn [fst snd] in *. exists (m' - x, l' - l). cbn [fst snd].
      split.
      { unfold get_index. replace (x + (m' - x)) with m' by lia.
        replace (l + (l' - l)) with l' by lia. reflexivity. }
      unfold local_offsets. cbn [In].
      assert (Dm : m' - x = -1 \/ m' - x = 0 \/ m' - x = 1) by lia.
      assert (Dl : l' - l = -1 \/ l' - l = 0 \/ l' - l = 1) by lia.
      destruct Dm as [->|[->| ->]], Dl as [->|[->| ->]]; tauto.
Qed.

Lemma combine_app_eq : forall A B (a a' : list A) (b b' : list B), length a = length b ->
  combine (a ++ a') (b ++ b') = combine a b ++ combine a' b'.
Proof.
  induction a as [|x a IH]; intros a' [|y b] b' H; try discriminate; [reflexivity|].
  cbn [app combine]. rewrite IH by (cbn in H; congruence). reflexivity.
Qed.

Lemma row_filter : forall rows n row,
  map snd (filter (fun e => fst e =? row) (combine (row_nums n rows) (row_cols rows))) =
  if (n <=? row) && (row <? n + Z.of_nat (length rows))
  then map snd (snd (nth (Z.to_nat (row - n)) rows (0%R, []))) else [].
Proof.
  induction rows as [|p rows IH]; intros n row.
  - cbn. destruct ((n <=? row) && (row <? n + 0)) eqn:E; [|reflexivity].
    apply andb_true_iff in E. rewrite Z.leb_le, Z.ltb_lt in E. lia.
  - unfold row_cols. cbn [flat_map row_nums]. fold (row_cols rows).
    rewrite combine_app_eq by (rewrite !map_length; reflexivity).
    rewrite filter_app, map_app, IH. cbn [length].
    assert (Hs : map snd (filter (fun e => fst e =? row)
        (combine (map (fun _ => n) (snd p)) (map snd (snd p)))) =
        if n =? row then map snd (snd p) else []).
    { generalize (snd p). intros es. induction es as [|e es IHe]; cbn [map combine filter].
      - destruct (n =? row); reflexivity.
      - destruct (Z.eqb_spec n row) as [->|Hne]; cbn [fst].
        + rewrite Z.eqb_refl. cbn [map snd]. rewrite IHe. reflexivity.
        + destruct (Z.eqb_spec n row); [contradiction|]. exact IHe. }
    rewrite Hs. destruct (Z.eqb_spec n row) as [->|Hne].
    + rewrite Z.sub_diag. cbn [Z.to_nat nth].
      replace (row + 1 <=? row) with false by (symmetry; apply Z.leb_gt; lia).
      replace (row <=? row) with true by (symmetry; apply Z.leb_le; lia).
      replace (row <? row + Z.of_nat (S (length rows))) with true
        by (symmetry; apply Z.ltb_lt; lia).
      cbn [andb]. apply app_nil_r.
    + cbn [app]. replace (n + 1 + Z.of_nat (length rows)) with (n + Z.of_nat (S (length rows))) by lia.
      destruct (Z.leb_spec (n + 1) row).
      * replace (n <=? row) with true by (symmetry; apply Z.leb_le; lia).
        replace (Z.to_nat (row - n)) with (S (Z.to_nat (row - (n + 1)))) by lia. reflexivity.
      * replace (n <=? row) with false by (symmetry; apply Z.leb_gt; lia). reflexivity.
Qed.

Lemma Forall2_len : forall A B (P : A -> B -> Prop) l l', Forall2 P l l' -> length l = length l'.
Proof. intros A B P l l' H. induction H; cbn [length]; congruence. Qed.

Lemma Forall2_nth_both : forall A B (P : A -> B -> Prop) l l' da db i,
  Forall2 P l l' -> (i < length l)%nat -> P (nth i l da) (nth i l' db).
Proof.
  intros A B P l l' da db i H. revert i. induction H; intros i Hi; cbn [length] in Hi; [lia|].
  destruct i; cbn [nth]; [assumption|]. apply IHForall2. lia.
Qed.

Lemma assembled : forall s, 1 <= pf_N s ->
  let N := pf_N s in let y := assemble s in
  sy_row y = (N + 1) * (N + 1) /\ Z.of_nat (length (sy_rhs y)) = (N + 1) * (N + 1) /\
  length (sy_data y) = length (sy_row_ind y) /\ length (sy_row_ind y) = length (sy_col_ind y) /\
  exists own, NoDup own /\ (forall p, In p own <-> in_polar_grid N p) /\
    Z.of_nat (length own) = (N + 1) * (N + 1) /\
    forall i, 0 <= i < (N + 1) * (N + 1) ->
      row_of N (nth (Z.to_nat i) own (0, 0)) (cols_of_row y i).
Proof.
  intros s HN N y. pose proof (assemble_rep s) as (H1 & H2 & H3 & H4 & H5). fold y in H1, H2, H3, H4, H5.
  pose proof (owners_rows s HN) as HF. fold N in HF.
  pose proof (Forall2_len _ _ _ _ _ HF) as HL. pose proof (owners_length N HN) as HO.
  assert (HR : Z.of_nat (length (all_rows s)) = (N + 1) * (N + 1)) by (rewrite <- HL, HO; nia).
  assert (Hd : forall rows n, length (row_data rows) = length (row_nums n rows) /\
    length (row_nums n rows) = length (row_cols rows)).
  { induction rows as [|p rows IH]; intros n; [split; reflexivity|].
    unfold row_data, row_cols. cbn [flat_map row_nums]. rewrite !app_length, !map_length.
    destruct (IH (n + 1)) as [E1 E2]. unfold row_data, row_cols in E1, E2. lia. }
  split; [rewrite H2; exact HR|]. split; [rewrite H1, map_length; exact HR|].
  split; [rewrite H3, H4; apply Hd|]. split; [rewrite H4, H5; apply Hd|].
  exists (owners N). split; [apply owners_nodup, HN|]. split; [intros; apply owners_in, HN|].
  split; [rewrite HO; nia|]. intros i Hi. unfold cols_of_row. rewrite H4, H5, row_filter.
  replace ((0 <=? i) && (i <? 0 + Z.of_nat (length (all_rows s)))) with true.
  2:{ symmetry. apply andb_true_iff. rewrite Z.leb_le, Z.ltb_lt. lia. }
  rewrite Z.sub_0_r.
  apply (Forall2_nth_both _ _ _ _ _ (0, 0) (0%R, []) (Z.to_nat i) HF). lia.
Qed.

Lemma in_combine_cols : forall (ri ci : list Z) r c,
  In (r, c) (combine ri ci) <->
  In c (map snd (filter (fun e => fst e =? r) (combine ri ci))).
Proof.
  intros ri ci r c. rewrite in_map_iff. split.
  - intros H. exists (r, c). split; [reflexivity|]. apply filter_In. split; [exact H|].
    apply Z.eqb_refl.
  - intros ([r' c'] & <- & H). apply filter_In in H. destruct H as [H E]. cbn [fst] in E.
    apply Z.eqb_eq in E. subst. exact H.
Qed.

Lemma row_nums_range : forall rows n r, In r (row_nums n rows) ->
  n <= r < n + Z.of_nat (length rows).
Proof.
  induction rows as [|p rows IH]; intros n r H; cbn [row_nums length] in *; [destruct H|].
  apply in_app_iff in H. destruct H as [H|H].
  - apply in_map_iff in H. destruct H as (e & <- & _). lia.
  - apply IH in H. lia.
Qed.

Lemma square_shape : forall s, 1 <= pf_N s ->
  let n := (pf_N s + 1) * (pf_N s + 1) in let y := assemble s in
  (forall r, In r (sy_row_ind y) <-> 0 <= r < n) /\
  (forall c, In c (sy_col_ind y) <-> 0 <= c < n).
Proof.
  intros s HN n y. destruct (assembled s HN) as (H1 & H2 & H3 & H4 & own & Hnd & Hin & Hlen & Hrow).
  fold y in H1, H2, H3, H4, Hrow. fold n in H1, H2, Hlen, Hrow. set (N := pf_N s) in *.
  pose proof (assemble_rep s) as (G1 & G2 & G3 & G4 & G5). fold y in G1, G2, G3, G4, G5.
  assert (Hpair : forall r c, In (r, c) (combine (sy_row_ind y) (sy_col_ind y)) <->
     In c (cols_of_row y r)) by (intros; apply in_combine_cols).
  assert (Rng : forall r, In r (sy_row_ind y) -> 0 <= r < n).
  { intros r Hr. rewrite G4 in Hr. apply row_nums_range in Hr. lia. }
  assert (Own : forall i, 0 <= i < n -> exists p, in_polar_grid N p /\
    nth (Z.to_nat i) own (0, 0) = p).
  { intros i Hi. eexists. split; [|reflexivity]. apply Hin. apply nth_In. lia. }
  split.
  - intros r. split; [apply Rng|]. intros Hr.
    destruct (Own r Hr) as (p & Hp & E). pose proof (Hrow r Hr) as [Hb Hi]. rewrite E in Hb, Hi.
    assert (Hc : In (get_index N (fst p) (snd p)) (cols_of_row y r)).
    { destruct p as [m l]. unfold in_polar_grid in Hp. cbn [fst snd] in *.
      destruct (Z.eq_dec m 0); [rewrite Hb by tauto; left; reflexivity|].
      destruct (Z.eq_dec m N); [rewrite Hb by tauto; left; reflexivity|].
      destruct (Z.eq_dec l 0); [rewrite Hb by tauto; left; reflexivity|].
      destruct (Z.eq_dec l N); [rewrite Hb by tauto; left; reflexivity|].
      apply Hi; try lia. exists (m, l). cbn [fst snd]. repeat split; lia. }
    apply Hpair in Hc. apply in_combine_l in Hc. exact Hc.
  - intros c. split; intros Hc.
    + apply (In_nth _ _ 0) in Hc. destruct Hc as (i & Hi & E).
      assert (Hp : In (nth i (sy_row_ind y) 0, c) (combine (sy_row_ind y) (sy_col_ind y))).
      { rewrite <- E. rewrite <- combine_nth by exact H4. apply nth_In.
        rewrite combine_length. lia. }
      pose proof (in_combine_l _ _ _ _ Hp) as Hr. apply Rng in Hr. apply Hpair in Hp.
      destruct (Own _ Hr) as ([m l] & Hg & E'). pose proof (Hrow _ Hr) as [Hb Hii].
      rewrite E' in Hb, Hii. unfold in_polar_grid in Hg. cbn [fst snd] in *.
      assert (In c [m * (N + 1) + l] \/ (1 <= m <= N - 1 /\ 1 <= l <= N - 1)) as [H|[Hm Hl]].
      { destruct (Z.eq_dec m 0); [left; rewrite <- Hb by tauto; exact Hp|].
        destruct (Z.eq_dec m N); [left; rewrite <- Hb by tauto; exact Hp|].
        destruct (Z.eq_dec l 0); [left; rewrite <- Hb by tauto; exact Hp|].
        destruct (Z.eq_dec l N); [left; rewrite <- Hb by tauto; exact Hp|].
        right. lia. }
      * destruct H as [<-|[]]. apply (index_range N (m, l)). split; cbn [fst snd]; lia.
      * apply (proj2 (Hii Hm Hl)) in Hp. destruct Hp as ([m' l'] & A1 & A2 & ->). cbn [fst snd] in *.
        apply (index_range N (m', l')). split; cbn [fst snd]; lia.
    + destruct (index_onto N c Hc ltac:(lia)) as (p & Hp & E).
      pose proof Hp as Hp'. apply Hin in Hp'. apply (In_nth _ _ (0, 0)) in Hp'.
      destruct Hp' as (i & Hi & Ei).
      pose proof (Hrow (Z.of_nat i) ltac:(lia)) as [Hb Hii]. rewrite Nat2Z.id, Ei in Hb, Hii.
      assert (Hc' : In c (cols_of_row y (Z.of_nat i))).
      { subst c. destruct p as [m l]. unfold in_polar_grid in Hp. cbn [fst snd] in *.
        destruct (Z.eq_dec m 0); [rewrite Hb by tauto; left; reflexivity|].
        destruct (Z.eq_dec m N); [rewrite Hb by tauto; left; reflexivity|].
        destruct (Z.eq_dec l 0); [rewrite Hb by tauto; left; reflexivity|].
        destruct (Z.eq_dec l N); [rewrite Hb by tauto; left; reflexivity|].
        apply Hii; try lia. exists (m, l). cbn [fst snd]. repeat split; lia. }
      apply Hpair in Hc'. apply in_combine_r in Hc'. exact Hc'.
Qed.

(** Relative convergence. *)
Lemma np_get_ok : forall n A i j, 0 <= i < n -> 0 <= j < n -> np_get n A i j = Ok (A i j).
Proof.
  intros n A i j Hi Hj. unfold np_get, py_index.
  replace ((0 <=? i) && (i <? n)) with true
    by (symmetry; apply andb_true_iff; rewrite Z.leb_le, Z.ltb_lt; lia).
  replace ((0 <=? j) && (j <? n)) with true
    by (symmetry; apply andb_true_iff; rewrite Z.leb_le, Z.ltb_lt; lia).
  reflexivity.
Qed.

Lemma pf_rel_diffs_spec : forall N u0 u1 u2 nodes, N mod 4 = 0 -> 0 < N ->
  (forall p, In p nodes -> 1 <= fst p < N /\ 1 <= snd p < N) ->
  exists d12 d01, pf_rel_diffs N u0 u1 u2 nodes = Ok (d12, d01) /\
    (forall d, In d d12 <-> exists m l, In (4 * m, 4 * l) nodes /\
       d = Cmod (Cminus (u1 (2 * m) (2 * l)) (u2 m l))) /\
    (forall d, In d d01 <-> exists m l, In (2 * m, 2 * l) nodes /\
       d = Cmod (Cminus (u0 (2 * m) (2 * l)) (u1 m l))).
Proof.
  intros N u0 u1 u2 nodes HN HNp. induction nodes as [|[m l] nodes IH]; intros Hn.
  - exists [], []. split; [reflexivity|].
    split; intros d; (split; [intros []|intros (m & l & [] & _)]).
  - destruct IH as (d12 & d01 & E & H12 & H01); [intros p Hp; apply Hn; right; exact Hp|].
    destruct (Hn (m, l) (or_introl eq_refl)) as [Hm Hl]. cbn [fst snd] in Hm, Hl.
    assert (E4 : N = 4 * (N / 4)) by (apply Z.div_exact; lia).
    assert (E2 : N / 2 = 2 * (N / 4)).
    { rewrite E4 at 1. replace (4 * (N / 4)) with ((2 * (N / 4)) * 2) by lia.
      apply Z.div_mul. lia. }
    cbn [pf_rel_diffs].
    assert (A12 : exists e12, (if (m mod 4 =? 0) && (l mod 4 =? 0) then
                a <- np_get (N / 2 + 1) u1 (m / 2) (l / 2);;
                b <- np_get (N / 4 + 1) u2 (m / 4) (l / 4);;
                Ok [Cmod (Cminus a b)]
              else Ok []) = Ok e12 /\
       forall d, In d e12 <-> exists m' l', (4 * m', 4 * l') = (m, l) /\
         d = Cmod (Cminus (u1 (2 * m') (2 * l')) (u2 m' l'))).
    { destruct (Z.eqb_spec (m mod 4) 0) as [Em|Em], (Z.eqb_spec (l mod 4) 0) as [El|El];
        cbn [andb].
      - assert (Dm : m = 4 * (m / 4)) by (apply Z.div_exact; lia).
        assert (Dl : l = 4 * (l / 4)) by (apply Z.div_exact; lia).
        assert (Dm2 : m / 2 = 2 * (m / 4)).
        { rewrite Dm at 1. replace (4 * (m / 4)) with ((2 * (m / 4)) * 2) by lia. apply Z.div_mul. lia. }
        assert (Dl2 : l / 2 = 2 * (l / 4)).
        { rewrite Dl at 1. replace (4 * (l / 4)) with ((2 * (l / 4)) * 2) by lia. apply Z.div_mul. lia. }
        rewrite np_get_ok by lia. cbn [bind]. rewrite np_get_ok by lia. cbn [bind].
        eexists. split; [reflexivity|]. intros d. rewrite Dm2, Dl2. split.
        + intros [<-|[]]. exists (m / 4), (l / 4). split; [f_equal; lia|reflexivity].
        + intros (m' & l' & Ep & ->). apply pair_equal_spec in Ep; destruct Ep as [E1 E2']. left.
          replace m' with (m / 4) by lia. replace l' with (l / 4) by lia. reflexivity.
      - exists []. split; [reflexivity|]. intros d. split; [intros []|].
        intros (m' & l' & Ep & _). apply pair_equal_spec in Ep; destruct Ep as [E1 E2']. apply El. rewrite <- E2', Z.mul_comm.
        apply Z.mod_mul. lia.
      - exists []. split; [reflexivity|]. intros d. split; [intros []|].
        intros (m' & l' & Ep & _). apply pair_equal_spec in Ep; destruct Ep as [E1 E2']. apply Em. rewrite <- E1, Z.mul_comm.
        apply Z.mod_mul. lia.
      - exists []. split; [reflexivity|]. intros d. split; [intros []|].
        intros (m' & l' & Ep & _). apply pair_equal_spec in Ep; destruct Ep as [E1 E2']. apply El. rewrite <- E2', Z.mul_comm.
        apply Z.mod_mul. lia. }
    assert (A01 : exists e01, (if (m mod 2 =? 0) && (l mod 2 =? 0) then
                a <- np_get (N + 1) u0 m l;;
                b <- np_get (N / 2 + 1) u1 (m / 2) (l / 2);;
                Ok [Cmod (Cminus a b)]
              else Ok []) = Ok e01 /\
       forall d, In d e01 <-> exists m' l', (2 * m', 2 * l') = (m, l) /\
         d = Cmod (Cminus (u0 (2 * m') (2 * l')) (u1 m' l'))).
    { destruct (Z.eqb_spec (m mod 2) 0) as [Em|Em], (Z.eqb_spec (l mod 2) 0) as [El|El];
        cbn [andb].
      - assert (Dm : m = 2 * (m / 2)) by (apply Z.div_exact; lia).
        assert (Dl : l = 2 * (l / 2)) by (apply Z.div_exact; lia).
        rewrite np_get_ok by lia. cbn [bind]. rewrite np_get_ok by lia. cbn [bind].
        eexists. split; [reflexivity|]. intros d. split.
        + intros [<-|[]]. exists (m / 2), (l / 2). rewrite <- Dm, <- Dl. split; reflexivity.
        + intros (m' & l' & Ep & ->). apply pair_equal_spec in Ep; destruct Ep as [E1 E2']. left.
          rewrite E1, E2'. replace m' with (m / 2) by lia. replace l' with (l / 2) by lia. reflexivity.
      - exists []. split; [reflexivity|]. intros d. split; [intros []|].
        intros (m' & l' & Ep & _). apply pair_equal_spec in Ep; destruct Ep as [E1 E2']. apply El. rewrite <- E2', Z.mul_comm.
        apply Z.mod_mul. lia.
      - exists []. split; [reflexivity|]. intros d. split; [intros []|].
        intros (m' & l' & Ep & _). apply pair_equal_spec in Ep; destruct Ep as [E1 E2']. apply Em. rewrite <- E1, Z.mul_comm.
        apply Z.mod_mul. lia.
      - exists []. split; [reflexivity|]. intros d. split; [intros []|].
        intros (m' & l' & Ep & _). apply pair_equal_spec in Ep; destruct Ep as [E1 E2']. apply El. rewrite <- E2', Z.mul_comm.
        apply Z.mod_mul. lia. }
    destruct A12 as (e12 & -> & A12). destruct A01 as (e01 & -> & A01). cbn [bind].
    rewrite E. cbn [bind fst snd].
    exists (e12 ++ d12), (e01 ++ d01). split; [reflexivity|]. split; intros d; rewrite in_app_iff.
    + rewrite A12, H12. split.
      * intros [(m' & l' & Ep & Ed)|(m' & l' & Hi & Ed)]; exists m', l'.
        -- split; [left; symmetry; exact Ep|exact Ed].
        -- split; [right; exact Hi|exact Ed].
      * intros (m' & l' & [Ep|Hi] & Ed).
        -- left. exists m', l'. split; [symmetry; exact Ep|exact Ed].
        -- right. exists m', l'. split; assumption.
    + rewrite A01, H01. split.
      * intros [(m' & l' & Ep & Ed)|(m' & l' & Hi & Ed)]; exists m', l'.
        -- split; [left; symmetry; exact Ep|exact Ed].
        -- split; [right; exact Hi|exact Ed].
      * intros (m' & l' & [Ep|Hi] & Ed).
        -- left. exists m', l'. split; [symmetry; exact Ep|exact Ed].
        -- right. exists m', l'. split; assumption.
Qed.

Lemma pf_nodes_in : forall N p, In p (pf_nodes N) <-> 1 <= fst p < N /\ 1 <= snd p < N.
Proof.
  intros N [m l]. unfold pf_nodes. rewrite in_flat_map. cbn [fst snd]. split.
  - intros (x & Hx & H). apply py_range_in in Hx. apply in_map_iff in H.
    destruct H as (y & Ey & Hy). apply py_range_in in Hy. injection Ey as <- <-. lia.
  - intros [Hm Hl]. exists m. split; [apply py_range_in; lia|]. apply in_map_iff.
    exists l. split; [reflexivity|apply py_range_in; lia].
Qed.

Lemma pf_refine : forall s s' q, 0 < pf_N s' -> 0 < q -> pf_N s = q * pf_N s' ->
  pf_a s = pf_a s' -> pf_R0 s = pf_R0 s' -> pf_R1 s = pf_R1 s' ->
  forall m l, get_r s (IZR (q * m)) = get_r s' (IZR m) /\ get_th s (q * l) = get_th s' l.
Proof.
  intros s s' q HN Hq E Ea E0 E1 m l. unfold get_r, get_th, pf_hr, pf_hth.
  rewrite E, Ea, E0, E1, !mult_IZR.
  assert (IZR q <> 0%R) by (apply not_0_IZR; lia).
  assert (IZR (pf_N s') <> 0%R) by (apply not_0_IZR; lia).
  split; field; tauto.
Qed.

Lemma pf_rel_points : forall s0 s1 s2 u0 u1 u2,
  0 < pf_N s2 -> pf_N s1 = 2 * pf_N s2 -> pf_N s0 = 2 * pf_N s1 ->
  pf_a s0 = pf_a s1 -> pf_R0 s0 = pf_R0 s1 -> pf_R1 s0 = pf_R1 s1 ->
  pf_a s1 = pf_a s2 -> pf_R0 s1 = pf_R0 s2 -> pf_R1 s1 = pf_R1 s2 ->
  exists d12 d01, pf_rel_diffs (pf_N s0) u0 u1 u2 (pf_nodes (pf_N s0)) = Ok (d12, d01) /\
    (forall d, In d d12 <-> exists m l, 1 <= m < pf_N s2 /\ 1 <= l < pf_N s2 /\
       get_r s1 (IZR (2 * m)) = get_r s2 (IZR m) /\ get_th s1 (2 * l) = get_th s2 l /\
       d = Cmod (Cminus (u1 (2 * m) (2 * l)) (u2 m l))) /\
    (forall d, In d d01 <-> exists m l, 1 <= m < pf_N s1 /\ 1 <= l < pf_N s1 /\
       get_r s0 (IZR (2 * m)) = get_r s1 (IZR m) /\ get_th s0 (2 * l) = get_th s1 l /\
       d = Cmod (Cminus (u0 (2 * m) (2 * l)) (u1 m l))).
Proof.
  intros s0 s1 s2 u0 u1 u2 HN2 E1 E0 A1 A2 A3 B1 B2 B3.
  destruct (pf_rel_diffs_spec (pf_N s0) u0 u1 u2 (pf_nodes (pf_N s0))) as (d12 & d01 & E & H12 & H01).
  - rewrite E0, E1. replace (2 * (2 * pf_N s2)) with (pf_N s2 * 4) by lia. apply Z.mod_mul. lia.
  - lia.
  - intros p Hp. apply pf_nodes_in in Hp. lia.
  - exists d12, d01. split; [exact E|]. split; intros d.
    + rewrite H12. split.
      * intros (m & l & Hi & Ed). apply pf_nodes_in in Hi. cbn [fst snd] in Hi. exists m, l.
        destruct (pf_refine s1 s2 2 HN2 ltac:(lia) E1 B1 B2 B3 m l) as [R1 R2].
        repeat split; try lia; assumption.
      * intros (m & l & Hm & Hl & _ & _ & Ed). exists m, l. split; [|exact Ed].
        apply pf_nodes_in. cbn [fst snd]. lia.
    + rewrite H01. split.
      * intros (m & l & Hi & Ed). apply pf_nodes_in in Hi. cbn [fst snd] in Hi. exists m, l.
        destruct (pf_refine s0 s1 2 ltac:(lia) ltac:(lia) E0 A1 A2 A3 m l) as [R1 R2].
        repeat split; try lia; assumption.
      * intros (m & l & Hm & Hl & _ & _ & Ed). exists m, l. split; [|exact Ed].
        apply pf_nodes_in. cbn [fst snd]. lia.
Qed.

Lemma pf_pair_spec : forall N u0 u1 u2 m12 m01,
  pf_rel_pair N u0 u1 u2 = Ok (m12, m01) <->
  exists d12 d01, pf_rel_diffs N u0 u1 u2 (pf_nodes N) = Ok (d12, d01) /\
    (In m12 d12 /\ forall x, In x d12 -> (x <= m12)%R) /\
    (In m01 d01 /\ forall x, In x d01 -> (x <= m01)%R).
Proof.
  intros. unfold pf_rel_pair.
  destruct (pf_rel_diffs N u0 u1 u2 (pf_nodes N)) as [[d12 d01]|e]; cbn [bind fst snd].
  - split.
    + intros H. exists d12, d01. split; [reflexivity|].
      destruct (py_max d12) as [x|] eqn:E1; cbn [bind] in H; [|discriminate].
      destruct (py_max d01) as [y|] eqn:E2; cbn [bind] in H; [|discriminate].
      assert (x = m12) by congruence. assert (y = m01) by congruence. subst.
      split; apply py_max_spec; assumption.
    + intros (a & b & E & H1 & H2). assert (a = d12) by congruence.
      assert (b = d01) by congruence. subst. apply py_max_spec in H1. apply py_max_spec in H2.
      rewrite H1. cbn [bind]. rewrite H2. reflexivity.
  - split; [discriminate|]. intros (a & b & E & _). discriminate.
Qed.

Open Scope R_scope.

(** A polar problem on an N x N grid of the annulus 1 <= r <= 2 with a = pi/4:
    u = 1, source k^2. *)
Definition unit_pf (N : Z) : polar_fd :=
  {| pf_N := N; pf_a := PI / 4; pf_R0 := 1; pf_R1 := 2; pf_k := 3;
     pf_phi_initial := fun _ => 1; pf_phi0 := fun _ => 1; pf_phi1 := fun _ => 1;
     pf_phi2 := fun _ => 1; pf_f := fun _ _ => 9; pf_d_f_r := fun _ _ => 0;
     pf_d2_f_r := fun _ _ => 0; pf_d2_f_th := fun _ _ => 0 |}.
