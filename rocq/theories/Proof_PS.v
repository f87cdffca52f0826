(** Difference potentials. *)
From Coq Require Import ZArith List Bool Reals Lia Lra.
From Coquelicot Require Import Complex.
From Verif Require Import Model_Py Model_Multivalue Model_Grid Model_Fourier
  Model_Linop Model_PS Spec_Grid Spec_PS Lib_Csum Proof_Grid Proof_Fourier.
Import ListNotations.
Open Scope Z_scope.

Lemma node_value_in : forall N A i j, in_open_grid N (i, j) ->
  node_value N A i j = A (i - 1) (j - 1).
Proof.
  intros N A i j [H1 H2]. simpl in *. unfold node_value.
  replace (1 <=? i) with true by (symmetry; apply Z.leb_le; lia).
  replace (i <=? N - 1) with true by (symmetry; apply Z.leb_le; lia).
  replace (1 <=? j) with true by (symmetry; apply Z.leb_le; lia).
  replace (j <=? N - 1) with true by (symmetry; apply Z.leb_le; lia). reflexivity.
Qed.

Lemma node_value_out : forall N A i j, ~ in_open_grid N (i, j) ->
  node_value N A i j = RtoC 0.
Proof.
  intros N A i j H. unfold node_value, in_open_grid in *. simpl in *.
  destruct (Z.leb_spec 1 i); [|reflexivity].
  destruct (Z.leb_spec i (N - 1)); [|reflexivity].
  destruct (Z.leb_spec 1 j); [|reflexivity].
  destruct (Z.leb_spec j (N - 1)); [|reflexivity]. exfalso. apply H. lia.
Qed.

Lemma open_dec : forall N i j, in_open_grid N (i, j) \/ ~ in_open_grid N (i, j).
Proof. intros. unfold in_open_grid. simpl. lia. Qed.

Lemma arr_eq_node : forall N A B, arr_eq N A B <->
  (forall i j, in_open_grid N (i, j) -> node_value N A i j = node_value N B i j).
Proof.
  intros N A B. split; intros H i j Hi.
  - rewrite !node_value_in by assumption. destruct Hi. simpl in *. apply H; lia.
  - intros Hj. specialize (H (i + 1) (j + 1)).
    rewrite !node_value_in in H by (unfold in_open_grid; simpl; lia).
    replace (i + 1 - 1) with i in H by lia. replace (j + 1 - 1) with j in H by lia.
    apply H. unfold in_open_grid; simpl; lia.
Qed.

Lemma node_value_ext : forall N A B, arr_eq N A B ->
  forall i j, node_value N A i j = node_value N B i j.
Proof.
  intros N A B H i j. destruct (open_dec N i j).
  - apply arr_eq_node; assumption.
  - rewrite !node_value_out by assumption. reflexivity.
Qed.

Lemma arr_eq_refl : forall N A, arr_eq N A A.
Proof. intros N A i j _ _. reflexivity. Qed.

Lemma arr_eq_sym : forall N A B, arr_eq N A B -> arr_eq N B A.
Proof. intros N A B H i j Hi Hj. symmetry. apply H; assumption. Qed.

Lemma arr_eq_trans : forall N A B D, arr_eq N A B -> arr_eq N B D -> arr_eq N A D.
Proof. intros N A B D H1 H2 i j Hi Hj. rewrite H1 by assumption. apply H2; assumption. Qed.

(** ** loops *)

Lemma arr_store_eq : forall A i j v, arr_store A i j v i j = v.
Proof. intros. unfold arr_store. rewrite !Z.eqb_refl. reflexivity. Qed.

Lemma arr_store_neq : forall A i j v i' j', (i', j') <> (i, j) ->
  arr_store A i j v i' j' = A i' j'.
Proof.
  intros A i j v i' j' H. unfold arr_store.
  destruct (Z.eqb_spec i' i), (Z.eqb_spec j' j); simpl; try reflexivity. congruence.
Qed.

Lemma write_gamma_spec : forall N ext gam l w,
  (forall p, In p gam -> in_open_grid N p) -> NoDup gam ->
  exists w', write_gamma N gam l ext w = Ok w' /\
    (forall m i j, nth_error gam m = Some (i, j) -> w' (i - 1) (j - 1) = ext (l + m)%nat) /\
    (forall i j, ~ In (i, j) gam -> w' (i - 1) (j - 1) = w (i - 1) (j - 1)).
Proof.
  intros N ext gam. induction gam as [|[i j] gam IH]; intros l w Hin Hnd.
  - exists w. split; [reflexivity|]. split; [intros [|m] ? ? H; discriminate|reflexivity].
  - assert (Hg : in_open_grid N (i, j)) by (apply Hin; left; reflexivity).
    destruct Hg as [Hg1 Hg2]; simpl in Hg1, Hg2.
    cbn [write_gamma]. rewrite np_set_in by lia. cbn [bind].
    inversion Hnd as [|? ? Hni Hnd']; subst.
    destruct (IH (S l) (arr_store w (i - 1) (j - 1) (ext l))) as (w' & E & H1 & H2);
      [intros p Hp; apply Hin; right; assumption|assumption|].
    exists w'. split; [exact E|]. split.
    + intros [|m] i' j' H; simpl in H.
      * injection H as <- <-. rewrite H2 by assumption. rewrite arr_store_eq.
        f_equal. lia.
      * rewrite (H1 m) by assumption. f_equal. lia.
    + intros i' j' H. rewrite H2 by (intros H'; apply H; right; assumption).
      apply arr_store_neq. intros E'. apply H. left. injection E'. intros. f_equal; lia.
Qed.

Lemma zero_on_spec : forall N nodes w,
  (forall p, In p nodes -> in_open_grid N p) ->
  exists w', zero_on N nodes w = Ok w' /\
    (forall i j, In (i, j) nodes -> w' (i - 1) (j - 1) = RtoC 0) /\
    (forall i j, ~ In (i, j) nodes -> w' (i - 1) (j - 1) = w (i - 1) (j - 1)).
Proof.
  intros N nodes. induction nodes as [|[i j] nodes IH]; intros w Hin.
  - exists w. split; [reflexivity|]. split; [intros ? ? []|reflexivity].
  - assert (Hg : in_open_grid N (i, j)) by (apply Hin; left; reflexivity).
    destruct Hg as [Hg1 Hg2]; simpl in Hg1, Hg2.
    cbn [zero_on]. rewrite np_set_in by lia. cbn [bind].
    destruct (IH (arr_store w (i - 1) (j - 1) (RtoC 0))) as (w' & E & H1 & H2);
      [intros p Hp; apply Hin; right; assumption|].
    exists w'. split; [exact E|]. split.
    + intros i' j' [H|H].
      * injection H as <- <-. destruct (node_mem (i, j) nodes) eqn:M.
        -- apply H1. apply node_mem_in. assumption.
        -- rewrite H2 by (apply node_mem_not_in; assumption). apply arr_store_eq.
      * apply H1. assumption.
    + intros i' j' H. rewrite H2 by (intros H'; apply H; right; assumption).
      apply arr_store_neq. intros E'. apply H. left. injection E'. intros. f_equal; lia.
Qed.

Lemma read_gamma_spec : forall N w gam l tr,
  (forall p, In p gam -> in_open_grid N p) ->
  exists tr', read_gamma N gam l w tr = Ok tr' /\
    (forall m i j, nth_error gam m = Some (i, j) -> tr' (l + m)%nat = w (i - 1) (j - 1)) /\
    (forall m, (m < l)%nat -> tr' m = tr m).
Proof.
  intros N w gam. induction gam as [|[i j] gam IH]; intros l tr Hin.
  - exists tr. split; [reflexivity|]. split; [intros [|m] ? ? H; discriminate|reflexivity].
  - assert (Hg : in_open_grid N (i, j)) by (apply Hin; left; reflexivity).
    destruct Hg as [Hg1 Hg2]; simpl in Hg1, Hg2.
    cbn [read_gamma]. rewrite np_get_in by lia. cbn [bind].
    destruct (IH (S l) (fun m => if Nat.eqb m l then w (i - 1) (j - 1) else tr m))
      as (tr' & E & H1 & H2); [intros p Hp; apply Hin; right; assumption|].
    exists tr'. split; [exact E|]. split.
    + intros [|m] i' j' H; simpl in H.
      * injection H as <- <-. rewrite H2 by lia.
        replace (l + 0)%nat with l by lia. rewrite Nat.eqb_refl. reflexivity.
      * replace (l + S m)%nat with (S l + m)%nat by lia. apply H1. assumption.
    + intros m Hm. rewrite H2 by lia. destruct (Nat.eqb_spec m l); [lia|reflexivity].
Qed.

(** ** operator level *)

Section Usable.
Context (s : ps_solver) (U : ps_usable s).

Let N := ps_N s.
Let ord := ps_order s.
Let Lr := ps_AD_len s.
Let k := ps_k s.

Lemma us_N : 2 <= N. Proof. apply U. Qed.
Lemma us_ord : ord = 2 \/ ord = 4. Proof. apply U. Qed.
Lemma us_L : Lr <> 0%R. Proof. apply U. Qed.
Lemma us_gam : enumerates (ps_gamma s) (gamma_set ord N (ps_interior s)). Proof. apply U. Qed.
Lemma us_Mm : enumerates (ps_Mminus s) (global_Mminus N (ps_interior s)). Proof. apply U. Qed.
Lemma us_inside : gamma_inside s. Proof. apply U. Qed.
Lemma us_eig : eig_nonzero N ord Lr k. Proof. apply U. Qed.

Lemma Mminus_list_in : forall p, In p (ps_Mminus s) <-> outside_node s p.
Proof. intros p. rewrite (proj2 us_Mm). apply Mminus_in. Qed.

Lemma Mminus_list_open : forall p, In p (ps_Mminus s) -> in_open_grid N p.
Proof. intros p H. apply Mminus_list_in in H. apply H. Qed.

Lemma gamma_list_in : forall p, In p (ps_gamma s) <->
  (exists q, inside_node s q /\ neighbour ord q p) /\
  (exists q, outside_node s q /\ neighbour ord q p).
Proof.
  intros p. rewrite (proj2 us_gam), gamma_set_in by apply us_ord.
  unfold inside_node, outside_node. fold N.
  split; intros [(q1 & H1) (q2 & H2)]; (split; [exists q1|exists q2]; tauto).
Qed.

Lemma in_or_out : forall p, in_open_grid N p -> inside_node s p \/ outside_node s p.
Proof.
  intros p H. unfold inside_node, outside_node.
  destruct (ps_interior s (fst p) (snd p)); tauto.
Qed.

Lemma in_not_out : forall p, inside_node s p -> ~ outside_node s p.
Proof. intros p [_ H] [_ H']. congruence. Qed.

(** apply_L is the finite-difference operator. *)
Lemma apply_L_fd : forall A i j, in_open_grid N (i, j) ->
  node_value N (ps_apply_L s A) i j = fd_L s A i j.
Proof.
  intros A i j H. rewrite node_value_in by assumption. destruct H as [H1 H2]. simpl in *.
  apply ap_apply_L_is_stencil; try assumption; [apply us_N|apply us_L|apply us_ord].
Qed.

Lemma fd_L_ext : forall A B i j,
  (forall i' j', neighbour ord (i, j) (i', j') -> node_value N A i' j' = node_value N B i' j') ->
  fd_L s A i j = fd_L s B i j.
Proof.
  intros A B i j H. unfold fd_L. apply lin_apply_L_ext. intros i' j' Hi Hj Ho.
  apply H. unfold neighbour. simpl. split; [lia|]. split; [lia|].
  intros E. destruct (Ho ltac:(fold ord; rewrite E; reflexivity)); [left|right]; congruence.
Qed.

Lemma node_value_lin : forall c A B i j,
  node_value N (fun i j => Cplus (Cmult c (A i j)) (B i j)) i j =
  Cplus (Cmult c (node_value N A i j)) (node_value N B i j).
Proof.
  intros. destruct (open_dec N i j).
  - rewrite !node_value_in by assumption. reflexivity.
  - rewrite !node_value_out by assumption. ring.
Qed.

Lemma fd_L_lin : forall c A B i j,
  fd_L s (fun i j => Cplus (Cmult c (A i j)) (B i j)) i j =
  Cplus (Cmult c (fd_L s A i j)) (fd_L s B i j).
Proof.
  intros. unfold fd_L. fold N ord Lr k.
  rewrite (lin_apply_L_ext N ord Lr k _ (fun i j =>
    Cplus (Cmult c (node_value N A i j)) (node_value N B i j)))
    by (intros; apply node_value_lin).
  unfold lin_apply_L. destruct (ord =? 4); ring.
Qed.

Lemma apply_L_arr_fd : forall A G,
  (forall i j, in_open_grid N (i, j) -> fd_L s A i j = node_value N G i j) ->
  arr_eq N (ps_apply_L s A) G.
Proof.
  intros A G H. apply arr_eq_node. intros i j Hi. rewrite apply_L_fd by assumption.
  apply H. assumption.
Qed.

(** If L A = G on the whole open grid then A = solve_ap G. *)
Lemma solve_unique : forall A G,
  (forall i j, in_open_grid N (i, j) -> fd_L s A i j = node_value N G i j) ->
  arr_eq N (ps_solve_ap s G) A.
Proof.
  intros A G H. apply apply_L_arr_fd in H.
  eapply arr_eq_trans; [|apply ap_solve_apply_L; [apply us_N|apply us_L|apply us_eig]].
  apply ap_fourier_ext; [apply us_N|]. apply arr_eq_sym. exact H.
Qed.

Lemma fd_L_solve : forall G i j, in_open_grid N (i, j) ->
  fd_L s (ps_solve_ap s G) i j = node_value N G i j.
Proof.
  intros G i j H. rewrite <- apply_L_fd by assumption. apply node_value_ext.
  apply ap_apply_L_solve; [apply us_N|apply us_L|apply us_eig].
Qed.

(** The density as an array. *)
Lemma potential_struct : forall ext, exists w G P,
  get_potential s ext = Ok P /\
  (forall l i j, nth_error (ps_gamma s) l = Some (i, j) -> node_value N w i j = ext l) /\
  (forall i j, ~ In (i, j) (ps_gamma s) -> node_value N w i j = RtoC 0) /\
  (forall i j, outside_node s (i, j) -> node_value N G i j = RtoC 0) /\
  (forall i j, inside_node s (i, j) -> node_value N G i j = fd_L s w i j) /\
  P = arr_sub w (ps_solve_ap s G).
Proof.
  intros ext.
  destruct (write_gamma_spec N ext (ps_gamma s) 0 arr_zeros us_inside (proj1 us_gam))
    as (w & Ew & Hw1 & Hw2).
  destruct (zero_on_spec N (ps_Mminus s) (ps_apply_L s w) Mminus_list_open)
    as (G & EG & HG1 & HG2).
  exists w, G, (arr_sub w (ps_solve_ap s G)). repeat split.
  - unfold get_potential. fold N. rewrite Ew. cbn [bind]. rewrite EG. reflexivity.
  - intros l i j H. rewrite node_value_in.
    + rewrite (Hw1 l) by assumption. reflexivity.
    + apply us_inside. eapply nth_error_In. eassumption.
  - intros i j H. destruct (open_dec N i j).
    + rewrite node_value_in by assumption. apply Hw2. assumption.
    + apply node_value_out. assumption.
  - intros i j H. rewrite node_value_in by apply H. apply HG1. apply Mminus_list_in. assumption.
  - intros i j H. rewrite node_value_in by apply H.
    rewrite HG2 by (rewrite Mminus_list_in; apply in_not_out; assumption).
    rewrite <- (node_value_in N) by apply H. apply apply_L_fd. apply H.
Qed.

Lemma sub_as_lin : forall A B : arr2, forall i j,
  arr_sub A B i j = Cplus (Cmult (RtoC (-1)) (B i j)) (A i j).
Proof. intros. unfold arr_sub. replace (RtoC (-1)) with (Copp (RtoC 1))
    by (rewrite <- RtoC_opp; reflexivity). ring. Qed.

Lemma fd_L_sub : forall A B i j, fd_L s (arr_sub A B) i j = Cminus (fd_L s A i j) (fd_L s B i j).
Proof.
  intros. rewrite (fd_L_ext _ (fun i j => Cplus (Cmult (RtoC (-1)) (B i j)) (A i j))).
  - rewrite fd_L_lin. replace (RtoC (-1)) with (Copp (RtoC 1))
      by (rewrite <- RtoC_opp; reflexivity). ring.
  - intros i' j' _. apply node_value_ext. intros a b _ _. apply sub_as_lin.
Qed.

Lemma fd_L_add : forall A B i j, fd_L s (arr_add A B) i j = Cplus (fd_L s A i j) (fd_L s B i j).
Proof.
  intros. rewrite (fd_L_ext _ (fun i j => Cplus (Cmult (RtoC 1) (A i j)) (B i j))).
  - rewrite fd_L_lin. ring.
  - intros i' j' _. apply node_value_ext. intros a b _ _. unfold arr_add. ring.
Qed.

(** Potential of a density: L P is zero inside, L w outside. *)
Lemma potential_L : forall ext, exists P w,
  get_potential s ext = Ok P /\
  density_fun s ext (node_value N w) /\
  (forall i j, inside_node s (i, j) -> fd_L s P i j = RtoC 0) /\
  (forall i j, outside_node s (i, j) -> fd_L s P i j = fd_L s w i j).
Proof.
  intros ext. destruct (potential_struct ext) as (w & G & P & EP & H1 & H2 & H3 & H4 & ->).
  exists (arr_sub w (ps_solve_ap s G)), w. split; [exact EP|]. split; [split; assumption|].
  split; intros i j H; rewrite fd_L_sub, fd_L_solve by apply H.
  - rewrite H4 by assumption. ring.
  - rewrite H3 by assumption. ring.
Qed.

(** Uniqueness of the potential: anything with the same L-values equals it. *)
Lemma potential_unique : forall ext w A,
  density_fun s ext (node_value N w) ->
  (forall i j, inside_node s (i, j) -> fd_L s A i j = RtoC 0) ->
  (forall i j, outside_node s (i, j) -> fd_L s A i j = fd_L s w i j) ->
  exists P, get_potential s ext = Ok P /\ arr_eq N P A.
Proof.
  intros ext w A Hw HA1 HA2.
  destruct (potential_L ext) as (P & w' & EP & Hw' & H1 & H2).
  exists P. split; [exact EP|].
  assert (Eww : forall i j, node_value N w i j = node_value N w' i j).
  { intros i j. destruct Hw as [Ha Hb]. destruct Hw' as [Ha' Hb'].
    destruct (node_mem (i, j) (ps_gamma s)) eqn:M.
    - apply node_mem_in in M. apply In_nth_error in M. destruct M as [l Hl].
      rewrite (Ha l), (Ha' l) by assumption. reflexivity.
    - apply node_mem_not_in in M. rewrite Hb, Hb' by assumption. reflexivity. }
  assert (HL : forall i j, in_open_grid N (i, j) -> fd_L s P i j = fd_L s A i j).
  { intros i j H. destruct (in_or_out (i, j) H) as [Hi|Ho].
    - rewrite H1, HA1 by assumption. reflexivity.
    - rewrite H2, HA2 by assumption. apply fd_L_ext. intros. symmetry. apply Eww. }
  eapply arr_eq_trans.
  - apply arr_eq_sym. apply (solve_unique P (ps_apply_L s A)).
    intros i j H. rewrite HL, apply_L_fd by assumption. reflexivity.
  - apply solve_unique. intros i j H. rewrite apply_L_fd by assumption. reflexivity.
Qed.

Lemma trace_spec : forall A, exists tr, get_trace s A = Ok tr /\ is_trace s A tr.
Proof.
  intros A. destruct (read_gamma_spec N A (ps_gamma s) 0 (fun _ => RtoC 0) us_inside)
    as (tr & E & H1 & _).
  exists tr. split; [exact E|]. intros l i j H. fold N.
  rewrite node_value_in by (apply us_inside; eapply nth_error_In; eassumption).
  apply (H1 l). assumption.
Qed.

Lemma reached_dec : forall p, reached s p \/ ~ reached s p.
Proof.
  intros p. destruct (node_mem p (Nplus ord N (ps_interior s))) eqn:M.
  - left. apply node_mem_in in M. apply nplus_in in M; [|apply us_ord].
    destruct M as (q & H1 & H2 & H3). exists q. split; [split; assumption|assumption].
  - right. apply node_mem_not_in in M. intros (q & [H1 H2] & H3). apply M.
    apply nplus_in; [apply us_ord|]. exists q. auto.
Qed.

Definition reachedb (p : node) : bool := node_mem p (Nplus ord N (ps_interior s)).

Lemma reachedb_spec : forall p, reachedb p = true <-> reached s p.
Proof.
  intros p. unfold reachedb. rewrite node_mem_in, nplus_in by apply us_ord.
  unfold reached, inside_node. fold N ord. split; intros (q & H); exists q; tauto.
Qed.

(** The array equal to A on reached nodes and zero elsewhere. *)
Definition restrict (A : arr2) : arr2 :=
  fun i j => if reachedb (i + 1, j + 1) then A i j else RtoC 0.

Lemma restrict_value : forall A i j,
  node_value N (restrict A) i j = if reachedb (i, j) then node_value N A i j else RtoC 0.
Proof.
  intros A i j. destruct (open_dec N i j) as [H|H].
  - rewrite !node_value_in by assumption. unfold restrict.
    replace (i - 1 + 1) with i by lia. replace (j - 1 + 1) with j by lia. reflexivity.
  - rewrite !node_value_out by assumption. destruct (reachedb (i, j)); reflexivity.
Qed.

Lemma inside_reached : forall p q, inside_node s p -> neighbour ord p q -> reachedb q = true.
Proof. intros p q H H'. apply reachedb_spec. exists p. auto. Qed.

Lemma trace_density : forall A tr w, is_trace s A tr -> density_fun s tr (node_value N w) ->
  forall i j, In (i, j) (ps_gamma s) -> node_value N w i j = node_value N A i j.
Proof.
  intros A tr w Ht [Hw _] i j H. apply In_nth_error in H. destruct H as [l Hl].
  rewrite (Hw l) by assumption. apply Ht. assumption.
Qed.

(** Interior discrete solutions are reproduced. *)
Lemma projection_interior : forall A tr,
  (forall i j, inside_node s (i, j) -> fd_L s A i j = RtoC 0) ->
  is_trace s A tr ->
  exists P, get_potential s tr = Ok P /\ arr_eq N P (restrict A).
Proof.
  intros A tr HA Ht. destruct (potential_L tr) as (P0 & w & _ & Hw & _ & _).
  apply (potential_unique tr w); [assumption| |].
  - intros i j H. rewrite (fd_L_ext _ A); [apply HA; assumption|].
    intros i' j' Hn. rewrite restrict_value.
    rewrite (inside_reached (i, j) (i', j') H Hn). reflexivity.
  - intros i j H. apply fd_L_ext. intros i' j' Hn. rewrite restrict_value.
    destruct (reachedb (i', j')) eqn:E.
    + symmetry. apply (trace_density A tr); [assumption|assumption|].
      apply gamma_list_in. split.
      * apply reachedb_spec in E. exact E.
      * exists (i, j). auto.
    + destruct Hw as [_ Hw]. symmetry. apply Hw. intros Hg. apply gamma_list_in in Hg.
      destruct Hg as [Hg _]. fold (reached s (i', j')) in Hg.
      apply reachedb_spec in Hg. congruence.
Qed.

(** Exterior discrete solutions have a potential that vanishes on the
    reached nodes. *)
Lemma projection_exterior : forall A tr,
  (forall i j, outside_node s (i, j) -> fd_L s A i j = RtoC 0) ->
  is_trace s A tr ->
  exists P, get_potential s tr = Ok P /\
    arr_eq N P (fun i j => if reachedb (i + 1, j + 1) then RtoC 0 else Copp (A i j)).
Proof.
  intros A tr HA Ht. destruct (potential_L tr) as (P0 & w & _ & Hw & _ & _).
  set (B := fun i j => if reachedb (i + 1, j + 1) then RtoC 0 else Copp (A i j)).
  assert (HB : forall i j, node_value N B i j =
     if reachedb (i, j) then RtoC 0 else Copp (node_value N A i j)).
  { intros i j. destruct (open_dec N i j) as [H|H].
    - rewrite !node_value_in by assumption. unfold B.
      replace (i - 1 + 1) with i by lia. replace (j - 1 + 1) with j by lia. reflexivity.
    - rewrite !node_value_out by assumption. destruct (reachedb (i, j)); [|ring].
      reflexivity. }
  apply (potential_unique tr w); [assumption| |].
  - intros i j H. rewrite (fd_L_ext _ (fun _ _ => RtoC 0)).
    + unfold fd_L. rewrite (lin_apply_L_ext _ _ _ _ _ (fun _ _ => RtoC 0)).
      * unfold lin_apply_L. destruct (_ =? 4); ring.
      * intros. unfold node_value. destruct (_ && _); reflexivity.
    + intros i' j' Hn. rewrite HB, (inside_reached (i, j) (i', j') H Hn).
      unfold node_value. destruct (_ && _); reflexivity.
  - intros i j H. rewrite (fd_L_ext B (arr_sub w A)).
    + rewrite fd_L_sub, HA by assumption. ring.
    + intros i' j' Hn. rewrite HB.
      replace (node_value N (arr_sub w A) i' j') with
        (Cminus (node_value N w i' j') (node_value N A i' j')).
      2:{ destruct (open_dec N i' j') as [H'|H'].
          - rewrite !node_value_in by assumption. reflexivity.
          - rewrite !node_value_out by assumption. ring. }
      destruct (reachedb (i', j')) eqn:E.
      * rewrite (trace_density A tr w Ht Hw i' j'); [ring|].
        apply gamma_list_in. split; [apply reachedb_spec in E; exact E|].
        exists (i, j). auto.
      * destruct Hw as [_ Hw]. rewrite Hw; [ring|]. intros Hg.
        apply gamma_list_in in Hg. destruct Hg as [Hg _].
        apply reachedb_spec in Hg. congruence.
Qed.

Lemma fd_L_arr_eq : forall A B i j, arr_eq N A B -> fd_L s A i j = fd_L s B i j.
Proof. intros A B i j H. apply fd_L_ext. intros. apply node_value_ext. assumption. Qed.

Lemma gamma_reached : forall p, In p (ps_gamma s) -> reachedb p = true.
Proof. intros p H. apply gamma_list_in in H. apply reachedb_spec. apply H. Qed.

Lemma trace_ext : forall A tr tr', is_trace s A tr -> is_trace s A tr' -> vec_eq s tr tr'.
Proof.
  intros A tr tr' H H' l Hl. destruct (nth_error (ps_gamma s) l) as [[i j]|] eqn:E.
  - rewrite (H l i j E), (H' l i j E). reflexivity.
  - apply nth_error_None in E. lia.
Qed.

Lemma trace_idempotent : forall ext P tr P' tr',
  get_potential s ext = Ok P -> get_trace s P = Ok tr ->
  get_potential s tr = Ok P' -> get_trace s P' = Ok tr' -> vec_eq s tr' tr.
Proof.
  intros ext P tr P' tr' E1 E2 E3 E4.
  destruct (potential_L ext) as (P0 & w & E & _ & H & _).
  assert (P0 = P) by congruence. subst P0.
  destruct (trace_spec P) as (t & Et & Ht). assert (t = tr) by congruence. subst t.
  destruct (trace_spec P') as (t & Et' & Ht'). assert (t = tr') by congruence. subst t.
  destruct (projection_interior P tr H Ht) as (Q & EQ & HQ).
  assert (Q = P') by congruence. subst Q.
  intros l Hl. destruct (nth_error (ps_gamma s) l) as [[i j]|] eqn:Eg.
  - rewrite (Ht' l i j Eg), (Ht l i j Eg). rewrite (node_value_ext _ _ _ HQ), restrict_value.
    rewrite gamma_reached; [reflexivity|]. eapply nth_error_In. eassumption.
  - apply nth_error_None in Eg. lia.
Qed.

(** ** linearity *)

Lemma density_lin : forall c e1 e2 w1 w2,
  density_fun s e1 (node_value N w1) -> density_fun s e2 (node_value N w2) ->
  density_fun s (fun l => Cplus (Cmult c (e1 l)) (e2 l))
    (node_value N (fun i j => Cplus (Cmult c (w1 i j)) (w2 i j))).
Proof.
  intros c e1 e2 w1 w2 [A1 B1] [A2 B2]. split.
  - intros l i j H. rewrite node_value_lin, (A1 l), (A2 l) by assumption. reflexivity.
  - intros i j H. rewrite node_value_lin, B1, B2 by assumption. ring.
Qed.

Lemma potential_lin : forall c e1 e2 P1 P2,
  get_potential s e1 = Ok P1 -> get_potential s e2 = Ok P2 ->
  exists P, get_potential s (fun l => Cplus (Cmult c (e1 l)) (e2 l)) = Ok P /\
    arr_eq N P (fun i j => Cplus (Cmult c (P1 i j)) (P2 i j)).
Proof.
  intros c e1 e2 P1 P2 E1 E2.
  destruct (potential_L e1) as (P1' & w1 & E1' & D1 & I1 & O1).
  assert (P1' = P1) by congruence. subst P1'.
  destruct (potential_L e2) as (P2' & w2 & E2' & D2 & I2 & O2).
  assert (P2' = P2) by congruence. subst P2'.
  apply (potential_unique _ (fun i j => Cplus (Cmult c (w1 i j)) (w2 i j))).
  - apply density_lin; assumption.
  - intros i j H. rewrite fd_L_lin, I1, I2 by assumption. ring.
  - intros i j H. rewrite !fd_L_lin, O1, O2 by assumption. reflexivity.
Qed.

Lemma potential_ext_eq : forall e1 e2 P1, vec_eq s e1 e2 -> get_potential s e1 = Ok P1 ->
  exists P2, get_potential s e2 = Ok P2 /\ arr_eq N P2 P1.
Proof.
  intros e1 e2 P1 He E1. destruct (potential_L e1) as (P1' & w1 & E1' & D1 & I1 & O1).
  assert (P1' = P1) by congruence. subst P1'.
  apply (potential_unique _ w1); [|assumption|assumption].
  destruct D1 as [A B]. split; [|assumption]. intros l i j H. rewrite (A l) by assumption.
  apply He. apply nth_error_Some. congruence.
Qed.

Lemma potential_zero : exists P, get_potential s (fun _ => RtoC 0) = Ok P /\
  arr_eq N P arr_zeros.
Proof.
  assert (Z0 : forall i j, node_value N arr_zeros i j = RtoC 0)
    by (intros; unfold node_value, arr_zeros; destruct (_ && _); reflexivity).
  assert (L0 : forall i j, fd_L s arr_zeros i j = RtoC 0).
  { intros. unfold fd_L. rewrite (lin_apply_L_ext _ _ _ _ _ (fun _ _ => RtoC 0)) by (intros; apply Z0).
    unfold lin_apply_L. destruct (_ =? 4); ring. }
  apply (potential_unique _ arr_zeros).
  - split; intros; apply Z0.
  - intros; apply L0.
  - intros; reflexivity.
Qed.

(** ** source term *)

Lemma ap_sol_f_spec : forall f, exists A, calc_ap_sol_f s f = Ok A /\
  (forall i j, inside_node s (i, j) -> fd_L s A i j = lin_apply_B f i j) /\
  (forall i j, outside_node s (i, j) -> fd_L s A i j = RtoC 0).
Proof.
  intros f. unfold calc_ap_sol_f. fold N.
  destruct (zero_on_spec N (ps_Mminus s) (fun i j => lin_apply_B f (i + 1) (j + 1))
              Mminus_list_open) as (G & EG & H1 & H2).
  rewrite EG. cbn [bind]. eexists. split; [reflexivity|]. split; intros i j H.
  - rewrite fd_L_solve, node_value_in by apply H.
    rewrite H2 by (rewrite Mminus_list_in; apply in_not_out; assumption).
    replace (i - 1 + 1) with i by lia. replace (j - 1 + 1) with j by lia. reflexivity.
  - rewrite fd_L_solve, node_value_in by apply H. apply H1. apply Mminus_list_in. assumption.
Qed.

Lemma u_act_solves : forall ext f A, calc_ap_sol_f s f = Ok A ->
  exists u, ps_u_act s ext A = Ok u /\
    forall i j, inside_node s (i, j) -> fd_L s u i j = lin_apply_B f i j.
Proof.
  intros ext f A EA. destruct (ap_sol_f_spec f) as (A' & EA' & H1 & _).
  assert (A' = A) by congruence. subst A'.
  destruct (potential_L ext) as (P & w & EP & _ & HP & _).
  unfold ps_u_act. rewrite EP. cbn [bind]. eexists. split; [reflexivity|].
  intros i j H. rewrite fd_L_add, HP, H1 by assumption. ring.
Qed.

(** ** the variational system *)

Lemma get_Q_spec : forall es, exists Q, get_Q s es = Ok Q /\ length Q = length es /\
  forall c, length c = length es ->
    exists v P tr, mat_dot Q c = Ok v /\ get_potential s (lincomb c es) = Ok P /\
      is_trace s P tr /\
      forall l, (l < length (ps_gamma s))%nat -> v l = Cminus (tr l) (lincomb c es l).
Proof.
  induction es as [|e es IH].
  - exists []. split; [reflexivity|]. split; [reflexivity|].
    intros [|x c] Hc; [|discriminate].
    destruct potential_zero as (P & EP & HP). destruct (trace_spec P) as (tr & Et & Ht).
    exists (fun _ => RtoC 0), P, tr. simpl. repeat split; try assumption.
    intros l Hl. destruct (nth_error (ps_gamma s) l) as [[i j]|] eqn:Eg.
    + rewrite (Ht l i j Eg). rewrite (node_value_ext _ _ _ HP).
      unfold node_value, arr_zeros. destruct (_ && _); ring.
    + apply nth_error_None in Eg. lia.
  - destruct IH as (Q & EQ & LQ & HQ).
    destruct (potential_L e) as (Pe & _ & EPe & _).
    destruct (trace_spec Pe) as (te & Ete & Hte).
    exists ((fun l => Cminus (te l) (e l)) :: Q). split; [|split].
    + cbn [get_Q]. unfold Q_column. rewrite EPe. cbn [bind]. rewrite Ete. cbn [bind].
      rewrite EQ. reflexivity.
    + simpl. congruence.
    + intros [|x c] Hc; [discriminate|].
      destruct (HQ c) as (v & P & tr & Ev & EP & Ht & Hv); [simpl in Hc; congruence|].
      destruct (potential_lin x e (lincomb c es) Pe P EPe EP) as (P' & EP' & HP').
      destruct (trace_spec P') as (tr' & _ & Ht').
      exists (fun l => Cplus (Cmult x (Cminus (te l) (e l))) (v l)), P', tr'.
      simpl. rewrite Ev. cbn [bind]. repeat split; try assumption.
      intros l Hl. rewrite Hv by assumption.
      destruct (nth_error (ps_gamma s) l) as [[i j]|] eqn:Eg.
      * rewrite (Ht' l i j Eg), (Ht l i j Eg), (Hte l i j Eg).
        rewrite (node_value_ext _ _ _ HP'), node_value_lin. fold N. ring.
      * apply nth_error_None in Eg. lia.
Qed.

Lemma residual_spec : forall ext0 ext1 c0 c1 ext_f A ext,
  length c0 = length ext0 -> length c1 = length ext1 ->
  vec_eq s ext (bd_ext c0 c1 ext0 ext1 ext_f) ->
  exists Q1 rhs q u tr,
    get_var s ext0 ext1 c0 ext_f A = Ok (Q1, rhs) /\
    mat_dot Q1 c1 = Ok q /\
    ps_u_act s ext A = Ok u /\ get_trace s u = Ok tr /\
    vec_eq s (fun l => Cminus (q l) (rhs l)) (fun l => Cminus (tr l) (ext l)).
Proof.
  intros ext0 ext1 c0 c1 ext_f A ext Hc0 Hc1 Hext.
  destruct (get_Q_spec ext0) as (Q0 & EQ0 & _ & HQ0).
  destruct (get_Q_spec ext1) as (Q1 & EQ1 & _ & HQ1).
  destruct (HQ0 c0 Hc0) as (v0 & P0 & t0 & Ev0 & EP0 & Ht0 & Hv0).
  destruct (HQ1 c1 Hc1) as (v1 & P1 & t1 & Ev1 & EP1 & Ht1 & Hv1).
  destruct (potential_L ext_f) as (Pf & _ & EPf & _).
  destruct (trace_spec (arr_add Pf A)) as (tf & Etf & Htf).
  (* potential of the whole extension *)
  destruct (potential_lin (RtoC 1) _ _ _ _ EP1 EPf) as (Pa & EPa & HPa).
  destruct (potential_lin (RtoC 1) _ _ _ _ EP0 EPa) as (Pb & EPb & HPb).
  destruct (potential_ext_eq (fun l => Cplus (Cmult (RtoC 1) (lincomb c0 ext0 l))
     (Cplus (Cmult (RtoC 1) (lincomb c1 ext1 l)) (ext_f l))) ext Pb ltac:(
       intros l Hl; rewrite (Hext l Hl); unfold bd_ext; ring) EPb) as (P & EP & HP).
  destruct (trace_spec (arr_add P A)) as (tr & Etr & Htr).
  exists Q1, (fun l => Cminus (Cplus (Copp (v0 l)) (ext_f l)) (tf l)), v1, (arr_add P A), tr.
  split; [|split; [|split; [|split]]].
  - unfold get_var. rewrite EQ0. cbn [bind]. rewrite EQ1. cbn [bind]. rewrite EPf. cbn [bind].
    rewrite Etf. cbn [bind]. rewrite Ev0. reflexivity.
  - assumption.
  - unfold ps_u_act. rewrite EP. reflexivity.
  - assumption.
  - intros l Hl. rewrite Hv0, Hv1, (Hext l Hl) by assumption. unfold bd_ext.
    destruct (nth_error (ps_gamma s) l) as [[i j]|] eqn:Eg.
    + rewrite (Htr l i j Eg), (Htf l i j Eg), (Ht0 l i j Eg), (Ht1 l i j Eg).
      assert (Hadd : forall X Y, node_value (ps_N s) (arr_add X Y) i j =
         Cplus (node_value N X i j) (node_value N Y i j)).
      { intros X Y. fold N. destruct (open_dec N i j).
        - rewrite !node_value_in by assumption. reflexivity.
        - rewrite !node_value_out by assumption. ring. }
      rewrite !Hadd. fold N.
      rewrite (node_value_ext _ _ _ HP), (node_value_ext _ _ _ HPb), node_value_lin,
        (node_value_ext _ _ _ HPa), node_value_lin. ring.
    + apply nth_error_None in Eg. lia.
Qed.

(** ** reproduction of discrete solutions *)

Lemma reproduces : forall f A ext v,
  calc_ap_sol_f s f = Ok A ->
  (forall i j, inside_node s (i, j) -> fd_L s v i j = lin_apply_B f i j) ->
  is_trace s v ext ->
  exists u, ps_u_act s ext A = Ok u /\
    forall i j, reached s (i, j) -> node_value N u i j = node_value N v i j.
Proof.
  intros f A ext v EA Hv Hext.
  destruct (ap_sol_f_spec f) as (A' & EA' & HA1 & HA2).
  assert (A' = A) by congruence. subst A'.
  destruct (trace_spec A) as (tA & _ & HtA).
  destruct (trace_spec (arr_sub v A)) as (tU & _ & HtU).
  destruct (projection_exterior A tA HA2 HtA) as (PA & EPA & HPA).
  destruct (projection_interior (arr_sub v A) tU) as (PU & EPU & HPU).
  { intros i j H. rewrite fd_L_sub, Hv, HA1 by assumption. ring. }
  { assumption. }
  destruct (potential_lin (RtoC 1) _ _ _ _ EPU EPA) as (Pa & EPa & HPa).
  assert (Hsub : forall i j, node_value N (arr_sub v A) i j =
     Cminus (node_value N v i j) (node_value N A i j)).
  { intros i j. destruct (open_dec N i j).
    - rewrite !node_value_in by assumption. reflexivity.
    - rewrite !node_value_out by assumption. ring. }
  destruct (potential_ext_eq (fun l => Cplus (Cmult (RtoC 1) (tU l)) (tA l)) ext Pa
     ltac:(intros l Hl; destruct (nth_error (ps_gamma s) l) as [[i j]|] eqn:Eg;
       [rewrite (Hext l i j Eg), (HtU l i j Eg), (HtA l i j Eg); fold N; rewrite Hsub; ring
       |apply nth_error_None in Eg; lia]) EPa) as (P & EP & HP).
  exists (arr_add P A). unfold ps_u_act. rewrite EP. split; [reflexivity|].
  intros i j H.
  assert (Hadd : node_value N (arr_add P A) i j =
         Cplus (node_value N P i j) (node_value N A i j)).
  { destruct (open_dec N i j).
    - rewrite !node_value_in by assumption. reflexivity.
    - rewrite !node_value_out by assumption. ring. }
  rewrite Hadd, (node_value_ext _ _ _ HP), (node_value_ext _ _ _ HPa), node_value_lin,
    (node_value_ext _ _ _ HPU), (node_value_ext _ _ _ HPA).
  rewrite restrict_value, Hsub. apply reachedb_spec in H. rewrite H.
  replace (node_value N (fun i0 j0 => if reachedb (i0 + 1, j0 + 1) then RtoC 0
      else Copp (A i0 j0)) i j) with (RtoC 0); [ring|].
  destruct (open_dec N i j) as [Ho|Ho].
  - rewrite node_value_in by assumption. replace (i - 1 + 1) with i by lia.
    replace (j - 1 + 1) with j by lia. rewrite H. reflexivity.
  - rewrite node_value_out by assumption. reflexivity.
Qed.

End Usable.

Lemma projection_interior_nodes : forall s, ps_usable s -> forall A tr,
  (forall i j, inside_node s (i, j) -> fd_L s A i j = RtoC 0) ->
  is_trace s A tr ->
  exists P, get_potential s tr = Ok P /\
    (forall i j, reached s (i, j) -> node_value (ps_N s) P i j = node_value (ps_N s) A i j) /\
    (forall i j, ~ reached s (i, j) -> node_value (ps_N s) P i j = RtoC 0).
Proof.
  intros s U A tr HA Ht. destruct (projection_interior s U A tr HA Ht) as (P & EP & HP).
  exists P. split; [exact EP|]. split; intros i j H;
    rewrite (node_value_ext _ _ _ HP), restrict_value.
  - apply (reachedb_spec s U) in H. rewrite H. reflexivity.
  - destruct (reachedb s (i, j)) eqn:E; [|reflexivity].
    apply (reachedb_spec s U) in E. contradiction.
Qed.

Lemma projection_exterior_nodes : forall s, ps_usable s -> forall A tr,
  (forall i j, outside_node s (i, j) -> fd_L s A i j = RtoC 0) ->
  is_trace s A tr ->
  exists P, get_potential s tr = Ok P /\
    forall i j, reached s (i, j) -> node_value (ps_N s) P i j = RtoC 0.
Proof.
  intros s U A tr HA Ht. destruct (projection_exterior s U A tr HA Ht) as (P & EP & HP).
  exists P. split; [exact EP|]. intros i j H. apply (reachedb_spec s U) in H.
  rewrite (node_value_ext _ _ _ HP).
  destruct (open_dec (ps_N s) i j) as [Ho|Ho].
  - rewrite node_value_in by assumption. replace (i - 1 + 1) with i by lia.
    replace (j - 1 + 1) with j by lia. rewrite H. reflexivity.
  - apply node_value_out. assumption.
Qed.
