(** The sparse matrix of the polar solver (C89). *)
From Coq Require Import ZArith List Bool Reals Lra Lia.
From Coquelicot Require Import Complex.
From Verif Require Import Model_Py Model_Grid Model_PolarFD Model_Sparse Spec_PolarFD Spec_Sparse Lib_Csum Proof_Grid Proof_PolarFD.
Import ListNotations.
Open Scope Z_scope.

Lemma fold_max : forall l x n, (forall y, In y (x :: l) -> y <= n) -> In n (x :: l) -> fold_left Z.max l x = n.
Proof.
  induction l as [|y l IH]; intros x n Hle Hin; cbn [fold_left].
  - destruct Hin as [H|[]]. exact H.
  - apply IH.
    + intros w [<-|Hw]; [|apply Hle; right; right; exact Hw].
      pose proof (Hle x (or_introl eq_refl)). pose proof (Hle y (or_intror (or_introl eq_refl))). lia.
    + pose proof (Hle x (or_introl eq_refl)). pose proof (Hle y (or_intror (or_introl eq_refl))).
      destruct Hin as [<-|[<-|Hin]]; [left; lia|left; lia|right; exact Hin].
Qed.

Lemma max_range : forall l n, 0 < n -> (forall r, In r l <-> 0 <= r < n) -> py_max_int l = Ok (n - 1).
Proof.
  intros l n Hn H. assert (Hin : In (n - 1) l) by (apply H; lia). destruct l as [|x l]; [destruct Hin|].
  cbn [py_max_int]. f_equal. apply fold_max; [|exact Hin]. intros y Hy. apply H in Hy. lia.
Qed.

Lemma shape : forall s, 1 <= pf_N s ->
  let n := (pf_N s + 1) * (pf_N s + 1) in pf_shape (assemble s) = Ok (n, n).
Proof.
  intros s HN n. destruct (square_shape s HN) as [H1 H2]. fold n in H1, H2.
  unfold pf_shape. rewrite (max_range _ n ltac:(unfold n; nia) H1), (max_range _ n ltac:(unfold n; nia) H2).
  cbn [bind]. do 2 f_equal; lia.
Qed.

(** ** Each position once *)

Lemma nodup_rows : forall (L : list (Z * Z)),
  (forall r, NoDup (map snd (filter (fun e => fst e =? r) L))) -> NoDup L.
Proof.
  induction L as [|[r c] L IH]; intros H; constructor.
  - intros Hin. specialize (H r). cbn [filter fst] in H. rewrite Z.eqb_refl in H. cbn [map snd] in H.
    apply NoDup_cons_iff in H. apply (proj1 H). apply in_map_iff. exists (r, c). split; [reflexivity|].
    apply filter_In. split; [exact Hin|]. apply Z.eqb_refl.
  - apply IH. intros r'. specialize (H r'). cbn [filter fst] in H. destruct (r =? r'); [|exact H].
    cbn [map] in H. apply NoDup_cons_iff in H. apply H.
Qed.

Lemma nine_nodup : forall N m l, 1 <= N ->
  NoDup [(m-1)*(N+1)+(l-1); (m-1)*(N+1)+l; (m-1)*(N+1)+(l+1); m*(N+1)+(l-1); m*(N+1)+l; m*(N+1)+(l+1); (m+1)*(N+1)+(l-1); (m+1)*(N+1)+l; (m+1)*(N+1)+(l+1)]
  \/ N = 1.
Proof.
  intros N m l HN. destruct (Z.eq_dec N 1) as [->|Hne]; [right; reflexivity|left].
  repeat constructor; cbn [In]; lia.
Qed.

Lemma cols_nodup : forall s row, 1 <= pf_N s -> NoDup (cols_of_row (assemble s) row).
Proof.
  intros s row HN. destruct (assembled s HN) as (H1 & H2 & H3 & H4 & own & Hnd & Hin & Hlen & Hrow).
  set (y := assemble s) in *. set (N := pf_N s) in *. set (n := (N + 1) * (N + 1)) in *.
  destruct (square_shape s HN) as [S1 _]. fold N in S1. fold n in S1. fold y in S1.
  destruct (Z_le_dec 0 row) as [Hr0|Hr0]; [destruct (Z_lt_dec row n) as [Hr1|Hr1]|].
  - specialize (Hrow row (conj Hr0 Hr1)). set (p := nth (Z.to_nat row) own (0, 0)) in *.
    assert (Hp : in_polar_grid N p) by (apply Hin, nth_In; lia). destruct Hp as [Hm Hl]. destruct Hrow as [Hb Hi].
    destruct (Z.eq_dec (fst p) 0); [rewrite Hb by tauto; repeat constructor; intros []|].
    destruct (Z.eq_dec (fst p) N); [rewrite Hb by tauto; repeat constructor; intros []|].
    destruct (Z.eq_dec (snd p) 0); [rewrite Hb by tauto; repeat constructor; intros []|].
    destruct (Z.eq_dec (snd p) N); [rewrite Hb by tauto; repeat constructor; intros []|].
    destruct (Hi ltac:(lia) ltac:(lia)) as [L9 H9]. set (m := fst p) in *. set (l := snd p) in *.
    destruct (nine_nodup N m l HN) as [ND|E]; [|lia].
    eapply NoDup_incl_NoDup; [exact ND|rewrite L9; cbn; lia|].
    intros c Hc. apply H9. cbn [In] in Hc.
    destruct Hc as [<-|[<-|[<-|[<-|[<-|[<-|[<-|[<-|[<-|[]]]]]]]]]];
      [exists (m-1,l-1)|exists (m-1,l)|exists (m-1,l+1)|exists (m,l-1)|exists (m,l)|exists (m,l+1)|exists (m+1,l-1)|exists (m+1,l)|exists (m+1,l+1)];
      cbn [fst snd]; repeat split; lia.
  - assert (E : cols_of_row y row = []); [|rewrite E; constructor].
    destruct (cols_of_row y row) as [|c t] eqn:E; [reflexivity|exfalso].
    assert (Hc : In c (cols_of_row y row)) by (rewrite E; left; reflexivity).
    apply in_combine_cols in Hc. apply in_combine_l in Hc. apply S1 in Hc. lia.
  - assert (E : cols_of_row y row = []); [|rewrite E; constructor].
    destruct (cols_of_row y row) as [|c t] eqn:E; [reflexivity|exfalso].
    assert (Hc : In c (cols_of_row y row)) by (rewrite E; left; reflexivity).
    apply in_combine_cols in Hc. apply in_combine_l in Hc. apply S1 in Hc. lia.
Qed.

Lemma row_cols_const : forall (rows : list (R * list (R * Z))) c, (forall p, In p rows -> length (snd p) = c) ->
  length (row_cols rows) = (length rows * c)%nat.
Proof.
  induction rows as [|p rows IH]; intros c H; [reflexivity|]. unfold row_cols in *. cbn [flat_map length].
  rewrite app_length, map_length, (H p (or_introl eq_refl)), (IH c) by (intros q Hq; apply H; right; exact Hq). lia.
Qed.

Lemma row_cols_app : forall a b, row_cols (a ++ b) = row_cols a ++ row_cols b.
Proof. intros. unfold row_cols. apply flat_map_app. Qed.

Lemma entry_count : forall s, 1 <= pf_N s ->
  Z.of_nat (length (sy_col_ind (assemble s))) = 4 * pf_N s + 9 * (pf_N s - 1) * (pf_N s - 1).
Proof.
  intros s HN. destruct (assemble_rep s) as (_ & _ & _ & _ & H5). rewrite H5. unfold all_rows. rewrite !row_cols_app, !app_length.
  set (N := pf_N s) in *.
  rewrite (row_cols_const (origin_rows s) 1), (row_cols_const (wedge_rows s) 1), (row_cols_const (arc_rows s) 1), (row_cols_const (fd_rows s) 9).
  - unfold origin_rows, wedge_rows, arc_rows, fd_rows. fold N.
    rewrite (flat_map_length_const Z _ (fun l => [(pf_phi_initial s (get_th s l), [(1%R, get_index N 0 l)])]) 1) by reflexivity.
    rewrite (flat_map_length_const Z _ _ 2) by reflexivity.
    rewrite (flat_map_length_const Z _ (fun l => [(pf_phi0 s (get_th s l), [(1%R, get_index N N l)])]) 1) by reflexivity.
    rewrite (flat_map_length_const Z _ _ (Z.to_nat (N - 1))).
    2:{ intros m. rewrite (flat_map_length_const Z _ (fun l => [fd_row s m l]) 1) by reflexivity. rewrite py_range_length. lia. }
    rewrite !py_range_length. rewrite <- Z2Nat.inj_mul by lia. nia.
  - intros p Hp. apply in_flat_map in Hp. destruct Hp as (m & _ & Hp). apply in_flat_map in Hp. destruct Hp as (l & _ & [<-|[]]). reflexivity.
  - intros p Hp. apply in_flat_map in Hp. destruct Hp as (l & _ & [<-|[]]). reflexivity.
  - intros p Hp. apply in_flat_map in Hp. destruct Hp as (l & _ & [<-|[<-|[]]]); reflexivity.
  - intros p Hp. apply in_flat_map in Hp. destruct Hp as (l & _ & [<-|[]]). reflexivity.
Qed.

Lemma once : forall s, 1 <= pf_N s -> let y := assemble s in
  NoDup (combine (sy_row_ind y) (sy_col_ind y)) /\
  Z.of_nat (length (combine (sy_row_ind y) (sy_col_ind y))) = 4 * pf_N s + 9 * (pf_N s - 1) * (pf_N s - 1).
Proof.
  intros s HN y. split; [apply nodup_rows; intros r; apply (cols_nodup s r HN)|].
  destruct (assembled s HN) as (_ & _ & _ & H4 & _). rewrite combine_length. fold y in H4. rewrite H4, Nat.min_id. apply entry_count, HN.
Qed.

(** ** The product *)

Open Scope R_scope.

Lemma add_entry_value : forall row r v l, column_entry row (add_entry r v l) = column_entry row l + (if (r =? row)%Z then v else 0).
Proof.
  intros row r v l. induction l as [|[r' v'] l IH]; cbn [add_entry column_entry]; [ring|].
  destruct (Z.eqb_spec r r') as [->|Hne]; cbn [column_entry]; [destruct (r' =? row)%Z; ring|]. rewrite IH. ring.
Qed.

Lemma fold_entry_value : forall row es l,
  column_entry row (fold_left (fun l e => add_entry (fst e) (snd e) l) es l) = column_entry row l + column_entry row es.
Proof.
  intros row es. induction es as [|[r v] es IH]; intros l; cbn [fold_left column_entry fst snd]; [ring|].
  rewrite IH, add_entry_value. ring.
Qed.

Lemma coo_columns : forall (z : Z -> R) row n data ri ci, List.Forall (fun c => (0 <= c < Z.of_nat n)%Z) ci ->
  rsum n (fun c => column_entry row (coo_column data ri ci (Z.of_nat c)) * z (Z.of_nat c)) = coo_row data ri ci z row.
Proof.
  intros z row n data. induction data as [|d data IH]; intros ri ci Hci; cbn [coo_column coo_row column_entry].
  - rewrite (rsum_ext n _ (fun _ => 0)) by (intros; ring). clear. induction n as [|n IH]; cbn [rsum]; lra.
  - destruct ri as [|r ri]; cbn [column_entry].
    { rewrite (rsum_ext n _ (fun _ => 0)) by (intros; ring). clear. induction n as [|n IH]; cbn [rsum]; lra. }
    destruct ci as [|c ci]; cbn [column_entry].
    { rewrite (rsum_ext n _ (fun _ => 0)) by (intros; ring). clear. induction n as [|n IH]; cbn [rsum]; lra. }
    apply List.Forall_cons_iff in Hci. destruct Hci as [Hc Hci]. rewrite <- (IH ri ci Hci).
    set (e := if (r =? row)%Z then d else 0).
    rewrite (rsum_ext n _ (fun i => (if (Z.of_nat i =? c)%Z then e * z c else 0) + column_entry row (coo_column data ri ci (Z.of_nat i)) * z (Z.of_nat i))).
    2:{ intros i _. rewrite (Z.eqb_sym c). destruct (Z.eqb_spec (Z.of_nat i) c) as [<-|_]; cbn [column_entry]; [fold e|]; ring. }
    assert (P : forall a b : nat -> R, forall k, rsum k (fun i => a i + b i) = rsum k a + rsum k b) by (intros a b k; induction k as [|k IHk]; cbn [rsum]; [ring|rewrite IHk; ring]).
    rewrite P. f_equal.
    assert (D : forall k, rsum k (fun i => if (Z.of_nat i =? c)%Z then e * z c else 0) = if (c <? Z.of_nat k)%Z then e * z c else 0).
    { induction k as [|k IHk]; cbn [rsum]; [destruct (Z.ltb_spec c (Z.of_nat 0)); [lia|reflexivity]|]. rewrite IHk.
      destruct (Z.ltb_spec c (Z.of_nat k)), (Z.ltb_spec c (Z.of_nat (S k))), (Z.eqb_spec (Z.of_nat k) c); try lia; ring. }
    rewrite D. destruct (Z.ltb_spec c (Z.of_nat n)); [|lia]. unfold e. destruct (r =? row)%Z; ring.
Qed.

Lemma add_fresh : forall r v l, ~ In r (map fst l) -> add_entry r v l = l ++ [(r, v)].
Proof.
  intros r v l. induction l as [|[r' v'] l IH]; intros H; cbn [add_entry app]; [reflexivity|].
  destruct (Z.eqb_spec r r') as [->|Hne]; [exfalso; apply H; left; reflexivity|]. f_equal. apply IH. intros Hin. apply H. right. exact Hin.
Qed.

Lemma fold_fresh : forall es l, NoDup (map fst (l ++ es)) -> fold_left (fun l e => add_entry (fst e) (snd e) l) es l = l ++ es.
Proof.
  induction es as [|[r v] es IH]; intros l H; cbn [fold_left fst snd]; [symmetry; apply app_nil_r|].
  rewrite add_fresh.
  - rewrite IH; [rewrite <- app_assoc; reflexivity|]. rewrite <- app_assoc. exact H.
  - rewrite map_app in H. cbn [map fst] in H. apply NoDup_remove_2 in H. intros Hin. apply H. apply in_or_app. left. exact Hin.
Qed.

Lemma coo_column_in : forall data ri ci col r v, length data = length ri -> length ri = length ci ->
  (In (r, v) (coo_column data ri ci col) <-> In ((r, col), v) (combine (combine ri ci) data)).
Proof.
  induction data as [|d data IH]; intros [|r0 ri] [|c0 ci] col r v L1 L2; try discriminate; cbn [coo_column combine In]; [tauto|].
  cbn [length] in L1, L2. specialize (IH ri ci col r v ltac:(lia) ltac:(lia)).
  destruct (Z.eqb_spec c0 col) as [->|Hne]; cbn [In]; rewrite IH.
  - split; (intros [E|H]; [left; inversion E; reflexivity|right; exact H]).
  - split; [intros H; right; exact H|intros [E|H]; [inversion E; subst; contradiction|exact H]].
Qed.

Lemma coo_column_rows : forall data ri ci col, length data = length ri -> length ri = length ci ->
  NoDup (combine ri ci) -> NoDup (map fst (coo_column data ri ci col)).
Proof.
  induction data as [|d data IH]; intros [|r0 ri] [|c0 ci] col L1 L2 H; try discriminate; cbn [coo_column]; [constructor|].
  cbn [length combine] in L1, L2, H. apply NoDup_cons_iff in H. destruct H as [Hn H]. specialize (IH ri ci col ltac:(lia) ltac:(lia) H).
  destruct (Z.eqb_spec c0 col) as [->|Hne]; [|exact IH]. cbn [map fst]. constructor; [|exact IH].
  intros Hin. apply in_map_iff in Hin. destruct Hin as ([r v] & Er & Hin). cbn [fst] in Er. subst r.
  apply coo_column_in in Hin; [|lia|lia]. apply in_combine_l in Hin. contradiction.
Qed.

Lemma matrix : forall s, (1 <= pf_N s)%Z ->
  let n := ((pf_N s + 1) * (pf_N s + 1))%Z in let y := assemble s in
  exists cols, pf_matrix y = Ok cols /\ Z.of_nat (length cols) = n /\
    (forall c r v, (0 <= c < n)%Z -> In (r, v) (nth (Z.to_nat c) cols []) <-> In ((r, c), v) (combine (combine (sy_row_ind y) (sy_col_ind y)) (sy_data y))) /\
    (forall c, NoDup (map fst (nth c cols []))) /\
    (forall z row, columns_times cols z row = coo_row (sy_data y) (sy_row_ind y) (sy_col_ind y) z row).
Proof.
  intros s HN n y. pose proof (shape s HN) as Sh. cbv zeta in Sh. fold n in Sh. fold y in Sh.
  destruct (assembled s HN) as (_ & H2 & H3 & H4 & _). fold y in H2, H3, H4. fold n in H2.
  destruct (once s HN) as [ND _]. fold y in ND. destruct (square_shape s HN) as [_ S2]. fold n in S2. fold y in S2.
  assert (Hn : (0 <= n)%Z) by (unfold n; nia).
  assert (Hcol : forall c, csc_column y c = coo_column (sy_data y) (sy_row_ind y) (sy_col_ind y) c).
  { intros c. unfold csc_column. apply (fold_fresh _ []). apply coo_column_rows; assumption. }
  assert (Hlen : length (map (csc_column y) (py_range 0 n)) = Z.to_nat n) by (rewrite map_length, py_range_length; f_equal; lia).
  assert (Hnth : forall i, (i < Z.to_nat n)%nat -> nth i (map (csc_column y) (py_range 0 n)) [] = csc_column y (Z.of_nat i)).
  { intros i Hi. rewrite (nth_indep _ [] (csc_column y 0)) by (rewrite Hlen; exact Hi). rewrite map_nth. f_equal.
    unfold py_range. change 0%Z with ((fun k => 0 + Z.of_nat k)%Z 0%nat) at 3. rewrite map_nth, seq_nth by lia. lia. }
  exists (map (csc_column y) (py_range 0 n)). split; [|split; [|split; [|split]]].
  - unfold pf_matrix. rewrite Sh. cbn [bind fst snd]. rewrite H2, Z.eqb_refl. reflexivity.
  - rewrite Hlen. lia.
  - intros c r v Hc. rewrite Hnth by lia. rewrite Z2Nat.id by lia. rewrite Hcol. apply coo_column_in; assumption.
  - intros c. destruct (Nat.lt_ge_cases c (Z.to_nat n)) as [Hc|Hc].
    + rewrite Hnth by exact Hc. rewrite Hcol. apply coo_column_rows; assumption.
    + rewrite nth_overflow by (rewrite Hlen; exact Hc). constructor.
  - intros z row. unfold columns_times. rewrite Hlen.
    rewrite (rsum_ext (Z.to_nat n) _ (fun c => column_entry row (coo_column (sy_data y) (sy_row_ind y) (sy_col_ind y) (Z.of_nat c)) * z (Z.of_nat c))).
    + apply coo_columns. apply List.Forall_forall. intros c Hc. apply S2 in Hc. lia.
    + intros c Hc. rewrite Hnth by exact Hc. rewrite Hcol. reflexivity.
Qed.

Lemma columns_solve : forall s z, (1 <= pf_N s)%Z ->
  let n := ((pf_N s + 1) * (pf_N s + 1))%Z in let y := assemble s in
  exists cols, pf_matrix y = Ok cols /\
    (solves y z <-> forall row, (0 <= row < n)%Z -> columns_times cols z row = nth (Z.to_nat row) (sy_rhs y) 0).
Proof.
  intros s z HN n y. destruct (matrix s HN) as (cols & E & _ & _ & _ & H). exists cols. split; [exact E|].
  destruct (assembled s HN) as (H1 & _). fold y in H1. fold n in H1. unfold solves. rewrite H1. fold y in H.
  split; intros Hs row Hr; [rewrite H|rewrite <- H]; apply Hs, Hr.
Qed.

Lemma negative : forall s, (pf_N s < 0)%Z -> pf_matrix (assemble s) = Err ValueError.
Proof.
  intros s HN. destruct (assemble_rep s) as (_ & _ & _ & H4 & _).
  assert (E : all_rows s = []).
  { unfold all_rows, origin_rows, wedge_rows, arc_rows, fd_rows, py_range.
    replace (Z.to_nat (pf_N s - 1)) with 0%nat by lia. replace (Z.to_nat (pf_N s + 1 - 0)) with 0%nat by lia. reflexivity. }
  rewrite E in H4. cbn in H4. unfold pf_matrix, pf_shape. rewrite H4. reflexivity.
Qed.

(** ** Any list of entries *)

Lemma fold_max_greatest : forall l x, greatest (x :: l) (fold_left Z.max l x).
Proof.
  induction l as [|a l IH]; intros x; cbn [fold_left].
  - split; [left; reflexivity|intros y [<-|[]]; lia].
  - destruct (IH (Z.max x a)) as [Hin Hle]. split.
    + destruct Hin as [E|Hin]; [rewrite <- E; destruct (Z.max_spec x a) as [[_ ->]|[_ ->]]; [right; left|left]; reflexivity|right; right; exact Hin].
    + pose proof (Hle (Z.max x a) (or_introl eq_refl)). intros y [<-|[<-|Hy]]; [lia|lia|apply Hle; right; exact Hy].
Qed.

Lemma greatest_unique : forall l m m', greatest l m -> greatest l m' -> m = m'.
Proof. intros l m m' [H1 H2] [H3 H4]. specialize (H2 _ H3). specialize (H4 _ H1). lia. Qed.

Lemma py_max_int_greatest : forall l, (l = [] /\ py_max_int l = Err ValueError) \/ (exists m, greatest l m /\ py_max_int l = Ok m).
Proof. intros [|x l]; [left; auto|right]. eexists. split; [apply fold_max_greatest|reflexivity]. Qed.

Lemma matrix_cases : forall y,
  (exists m, greatest (sy_row_ind y) m /\ greatest (sy_col_ind y) m /\ Z.of_nat (length (sy_rhs y)) = (m + 1)%Z /\
     pf_matrix y = Ok (map (csc_column y) (py_range 0 (m + 1)))) \/
  (pf_matrix y = Err ValueError /\
     ~ exists m, greatest (sy_row_ind y) m /\ greatest (sy_col_ind y) m /\ Z.of_nat (length (sy_rhs y)) = (m + 1)%Z).
Proof.
  intros y. unfold pf_matrix, pf_shape.
  destruct (py_max_int_greatest (sy_row_ind y)) as [[E ->]|(r & Gr & ->)]; cbn [bind].
  { right. split; [reflexivity|]. intros (m & [H _] & _). rewrite E in H. destruct H. }
  destruct (py_max_int_greatest (sy_col_ind y)) as [[E ->]|(c & Gc & ->)]; cbn [bind].
  { right. split; [reflexivity|]. intros (m & _ & [H _] & _). rewrite E in H. destruct H. }
  cbn [fst snd]. destruct (Z.eqb_spec (r + 1) (c + 1)) as [E|E]; cbn [andb].
  - assert (r = c) by lia. subst c. destruct (Z.eqb_spec (r + 1) (Z.of_nat (length (sy_rhs y)))) as [E'|E'].
    + left. exists r. split; [exact Gr|]. split; [exact Gc|]. split; [lia|reflexivity].
    + right. split; [reflexivity|]. intros (m & H1 & _ & H3). rewrite (greatest_unique _ _ _ Gr H1) in E'. lia.
  - right. split; [reflexivity|]. intros (m & H1 & H2 & _). apply E. rewrite (greatest_unique _ _ _ Gr H1), (greatest_unique _ _ _ Gc H2). reflexivity.
Qed.

Lemma matrix_accepts : forall y,
  ((exists cols, pf_matrix y = Ok cols) <->
   exists m, greatest (sy_row_ind y) m /\ greatest (sy_col_ind y) m /\ Z.of_nat (length (sy_rhs y)) = (m + 1)%Z) /\
  ((exists cols, pf_matrix y = Ok cols) \/ pf_matrix y = Err ValueError).
Proof.
  intros y. destruct (matrix_cases y) as [(m & H1 & H2 & H3 & ->)|[-> H]].
  - split; [split; intros _; [exists m; auto|eexists; reflexivity]|left; eexists; reflexivity].
  - split; [split; [intros (cols & E); discriminate|intros E; destruct (H E)]|right; reflexivity].
Qed.

Lemma coo_position : forall row col data ri ci, column_entry row (coo_column data ri ci col) = position_sum row col (combine (combine ri ci) data).
Proof.
  intros row col data. induction data as [|d data IH]; intros [|r ri] [|c ci]; cbn [coo_column combine column_entry position_sum]; try reflexivity.
  rewrite <- IH. destruct (c =? col)%Z; cbn [column_entry]; [rewrite andb_true_r|rewrite andb_false_r]; ring.
Qed.

Lemma add_entry_rows : forall r v l, NoDup (map fst l) -> NoDup (map fst (add_entry r v l)) /\ forall x, In x (map fst (add_entry r v l)) -> x = r \/ In x (map fst l).
Proof.
  intros r v l. induction l as [|[r' v'] l IH]; intros H; cbn [add_entry].
  - cbn. split; [constructor; [intros []|constructor]|intros x [<-|[]]; left; reflexivity].
  - destruct (Z.eqb_spec r r') as [->|Hne]; cbn [map fst] in *.
    + split; [exact H|intros x Hx; right; exact Hx].
    + apply NoDup_cons_iff in H. destruct H as [Hn H]. destruct (IH H) as [I1 I2]. split.
      * constructor; [|exact I1]. intros Hin. destruct (I2 _ Hin) as [E|E]; [congruence|contradiction].
      * intros x [<-|Hx]; [right; left; reflexivity|]. destruct (I2 _ Hx) as [E|E]; [left; exact E|right; right; exact E].
Qed.

Lemma matrix_sums : forall y cols, pf_matrix y = Ok cols ->
  length cols = length (sy_rhs y) /\
  forall c row, (c < length cols)%nat -> NoDup (map fst (nth c cols [])) /\
    column_entry row (nth c cols []) = position_sum row (Z.of_nat c) (combine (combine (sy_row_ind y) (sy_col_ind y)) (sy_data y)).
Proof.
  intros y cols E. destruct (matrix_cases y) as [(m & _ & _ & H3 & E')|[E' _]]; rewrite E' in E; [|discriminate]. injection E as <-.
  assert (L : length (map (csc_column y) (py_range 0 (m + 1))) = length (sy_rhs y)).
  { rewrite map_length. unfold py_range. rewrite map_length, seq_length. lia. }
  split; [exact L|]. intros c row Hc. rewrite L in Hc.
  assert (En : nth c (map (csc_column y) (py_range 0 (m + 1))) [] = csc_column y (Z.of_nat c)).
  { apply nth_error_nth. rewrite nth_error_map. unfold py_range. rewrite nth_error_map.
    rewrite (nth_error_nth' _ 0%nat) by (rewrite seq_length; lia). rewrite seq_nth by lia. reflexivity. }
  rewrite En. unfold csc_column. split.
  - generalize (coo_column (sy_data y) (sy_row_ind y) (sy_col_ind y) (Z.of_nat c)). assert (H0 : NoDup (map fst (@nil (Z * R)))) by constructor.
    revert H0. generalize (@nil (Z * R)). intros l H0 es. revert l H0. induction es as [|[r v] es IH]; intros l H0; cbn [fold_left fst snd]; [exact H0|].
    apply IH. apply add_entry_rows. exact H0.
  - rewrite fold_entry_value, coo_position. cbn [column_entry]. ring.
Qed.
