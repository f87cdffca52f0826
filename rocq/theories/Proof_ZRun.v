(** The z problem, the interpolation table and the reported error of v
    (C61-C63). *)
From Coq Require Import ZArith List Bool Reals Lia Lra.
From Coquelicot Require Import Coquelicot.
From Verif Require Import Model_Py Model_Grid Model_Fourier Model_Domain Model_PolarFD Model_ZMethod
  Model_ZRun Lib_Csum Proof_Grid Proof_Domain Proof_Fourier Proof_ArcDst Proof_PolarFD
  Spec_Fd Spec_PolarFD Spec_Ode Spec_ZRun.
Import ListNotations.
Open Scope R_scope.

(** ** The z problem *)

Lemma fold_sines : forall (c : nat -> R) a nu th M (x : R),
  fold_left (fun acc m => acc + c (m - 1)%nat * sin (INR m * nu * (th - a))) (seq 1 M) x =
  x + sine_series a nu M c th.
Proof.
  intros c a nu th M x. unfold sine_series. induction M as [|M IH]; [simpl; ring|].
  rewrite seq_S, fold_left_app, IH. cbn [fold_left rsum]. replace (1 + M - 1)%nat with M by lia.
  rewrite plus_INR. simpl (INR 1). rewrite (Rplus_comm 1 (INR M)). ring.
Qed.

Lemma z_system : forall spsolve N k a nu R0 arc_R M z1 vs gq phi1 phi2,
  (1 <= N)%Z -> 0 < R0 < arc_R -> a < 2 * PI ->
  let s := zm_z_fd N k a nu R0 arc_R M z1 vs gq phi1 phi2 in
  let v := zm_v spsolve false s in
  let hr := (arc_R - R0) / IZR N in let hth := (2 * PI - a) / IZR N in
  let r := fun m => R0 + IZR m * hr in let th := fun l => a + IZR l * hth in
  (solves (assemble s) (spsolve (assemble s)) <->
   (forall m, (0 <= m <= N)%Z -> v m 0%Z = RtoC (phi2 (r m)) /\ v m N = RtoC (phi1 (r m))) /\
   (forall l, (1 <= l <= N - 1)%Z -> v 0%Z l = RtoC (vs R0 (th l)) /\
      v N l = RtoC (sine_series a nu M (fun m => nth m z1 0) (th l) + gq arc_R (th l))) /\
   (forall m l, (1 <= m <= N - 1)%Z -> (1 <= l <= N - 1)%Z ->
      compact_scheme r hr hth k (fun m l => fst (v m l)) m l = 0)).
Proof.
  intros spsolve N k a nu R0 arc_R M z1 vs gq phi1 phi2 HN HR Ha s v hr hth r th.
  assert (Hok : pf_ok s) by (split; [exact HN|split; [exact HR|exact Ha]]).
  pose proof (solves_iff s (spsolve (assemble s)) Hok) as E. cbv zeta in E.
  unfold zm_v, get_index in v.
  assert (EV : forall m l, v m l = RtoC (pf_at s (spsolve (assemble s)) m l)) by reflexivity.
  assert (RI : forall x y : R, RtoC x = RtoC y <-> x = y)
    by (intros x y; split; [apply RtoC_inj|intros ->; reflexivity]).
  assert (P0 : forall t, pf_phi0 s t = sine_series a nu M (fun m => nth m z1 0) t + gq arc_R t).
  { intros t. unfold s, zm_z_fd, pf_phi0, zm_z_phi0. rewrite (fold_sines (fun m => nth m z1 0)). ring. }
  assert (PI0 : forall t, pf_phi_initial s t = vs R0 t).
  { intros t. unfold s, zm_z_fd, pf_phi_initial, zm_lambdify. destruct (Reqb_spec R0 0); [lra|reflexivity]. }
  rewrite E. clear E.
  assert (Z0 : forall m l, compact_source ((pf_R1 s - pf_R0 s) / IZR (pf_N s)) ((2 * PI - pf_a s) / IZR (pf_N s))
     (pf_R0 s + IZR m * ((pf_R1 s - pf_R0 s) / IZR (pf_N s)))
     (pf_f s (pf_R0 s + IZR m * ((pf_R1 s - pf_R0 s) / IZR (pf_N s))) (pf_a s + IZR l * ((2 * PI - pf_a s) / IZR (pf_N s))))
     (pf_d_f_r s (pf_R0 s + IZR m * ((pf_R1 s - pf_R0 s) / IZR (pf_N s))) (pf_a s + IZR l * ((2 * PI - pf_a s) / IZR (pf_N s))))
     (pf_d2_f_r s (pf_R0 s + IZR m * ((pf_R1 s - pf_R0 s) / IZR (pf_N s))) (pf_a s + IZR l * ((2 * PI - pf_a s) / IZR (pf_N s))))
     (pf_d2_f_th s (pf_R0 s + IZR m * ((pf_R1 s - pf_R0 s) / IZR (pf_N s))) (pf_a s + IZR l * ((2 * PI - pf_a s) / IZR (pf_N s))))
     = 0).
  { intros m l. unfold compact_source, s, zm_z_fd. cbn [pf_f pf_d_f_r pf_d2_f_r pf_d2_f_th].
    unfold Rdiv. ring. }
  split; intros [H1 [H2 H3]]; (split; [|split]).
  - intros m Hm. rewrite !EV, !RI. exact (H1 m Hm).
  - intros l Hl. rewrite !EV, !RI. destruct (H2 l Hl) as [A B]. rewrite PI0 in A. rewrite P0 in B.
    split; assumption.
  - intros m l Hm Hl. specialize (H3 m l Hm Hl). rewrite Z0 in H3. exact H3.
  - intros m Hm. specialize (H1 m Hm). rewrite !EV, !RI in H1. exact H1.
  - intros l Hl. specialize (H2 l Hl). rewrite !EV, !RI in H2. rewrite PI0, P0. exact H2.
  - intros m l Hm Hl. rewrite Z0. exact (H3 m l Hm Hl).
Qed.

Lemma v_imag : forall spsolve acheat s m l, snd (zm_v spsolve acheat s m l) = 0.
Proof. reflexivity. Qed.

Lemma v_acheat : forall spsolve s m l, zm_v spsolve true s m l = RtoC 0.
Proof. reflexivity. Qed.

(** Exact coefficients put the exact v on the arc. *)
Lemma z_arc : forall spsolve N k a nu R0 arc_R M z1 vs gq phi1 phi2 (v0 : R -> R -> R) (c : nat -> R),
  (1 <= N)%Z -> 0 < R0 < arc_R -> a < 2 * PI ->
  let s := zm_z_fd N k a nu R0 arc_R M z1 vs gq phi1 phi2 in
  let th := fun l => a + IZR l * ((2 * PI - a) / IZR N) in
  solves (assemble s) (spsolve (assemble s)) ->
  (forall r, 0 < r -> phi1 r = v0 r (2 * PI) /\ phi2 r = v0 r a) ->
  (forall t, v0 arc_R t - gq arc_R t = sine_series a nu M c t) ->
  (forall m, (m < M)%nat -> nth m z1 0 = c m) ->
  forall l, (0 <= l <= N)%Z -> zm_v spsolve false s N l = RtoC (v0 arc_R (th l)).
Proof.
  intros spsolve N k a nu R0 arc_R M z1 vs gq phi1 phi2 v0 c HN HR Ha s th Hs Hphi Hc Hz l Hl.
  destruct (proj1 (z_system spsolve N k a nu R0 arc_R M z1 vs gq phi1 phi2 HN HR Ha) Hs) as [H1 [H2 _]].
  fold s in H1, H2.
  assert (HNr : IZR N <> 0) by (apply not_0_IZR; lia).
  assert (ER : R0 + IZR N * ((arc_R - R0) / IZR N) = arc_R) by (field; exact HNr).
  assert (E2 : th N = 2 * PI) by (unfold th; field; exact HNr).
  assert (E0 : th 0%Z = a) by (unfold th; simpl; ring).
  destruct (Z.eq_dec l 0) as [->|N0].
  { destruct (H1 N ltac:(lia)) as [A _]. rewrite A, ER, E0. f_equal. apply Hphi. lra. }
  destruct (Z.eq_dec l N) as [->|N1].
  { destruct (H1 N ltac:(lia)) as [_ B]. rewrite B, ER, E2. f_equal. apply Hphi. lra. }
  destruct (H2 l ltac:(lia)) as [_ B]. rewrite B. f_equal. fold (th l).
  replace (sine_series a nu M (fun m => nth m z1 0) (th l)) with (sine_series a nu M c (th l)).
  - rewrite <- Hc. ring.
  - unfold sine_series. apply rsum_ext. intros m Hm. rewrite Hz by exact Hm. reflexivity.
Qed.

(** The coefficients computed by the z1cheat option are exact. *)
Lemma cheat_exact : forall a arc_R n M (v0 gq : R -> R -> R) (c : nat -> R), 2 * PI - a <> 0 -> (M <= n)%nat ->
  (forall t, v0 arc_R t - gq arc_R t = sine_series a (PI / (2 * PI - a)) M c t) ->
  forall m, (m < M)%nat -> nth m (map fst (zm_expected_z1 v0 gq a arc_R n M)) 0 = c m.
Proof.
  intros a arc_R n M v0 gq c Ha HM Hc m Hm. unfold zm_expected_z1. rewrite map_map.
  set (F := fun m0 : nat => _). rewrite (nth_indep _ 0 (F 0%nat)) by (rewrite map_length, seq_length; lia).
  rewrite map_nth, seq_nth by lia. unfold F. cbn [Nat.add].
  rewrite (arc_dst_modes a n m _ (fun j => RtoC (if Nat.ltb j M then c j else 0)) Ha ltac:(lia)).
  - destruct (Nat.ltb_spec m M); [reflexivity|lia].
  - intros t. rewrite Hc. unfold sine_series. rewrite <- csum_RtoC.
    replace n with (M + (n - M))%nat by lia. generalize (n - M)%nat as d. intros d.
    induction d as [|d IH].
    + rewrite Nat.add_0_r. apply csum_ext. intros j Hj. destruct (Nat.ltb_spec j M); [|lia].
      rewrite RtoC_mult. reflexivity.
    + rewrite Nat.add_succ_r. cbn [csum]. rewrite <- IH.
      destruct (Nat.ltb_spec (M + d) M); [lia|]. ring.
Qed.

(** ** The table for the interpolant *)

Lemma flat_table : forall (A B : Type) (f : A -> B -> C) (l : list A) (l' : list B) i j x y,
  nth_error l i = Some x -> nth_error l' j = Some y ->
  nth_error (flat_map (fun a => map (fun b => f a b) l') l) (i * length l' + j) = Some (f x y).
Proof.
  intros A B f l l'. induction l as [|a l IH]; intros i j x y Hi Hj; [destruct i; discriminate|].
  assert (Hlen : (j < length l')%nat) by (apply nth_error_Some; congruence).
  destruct i as [|i]; cbn [flat_map].
  - injection Hi as ->. cbn [Nat.mul Nat.add]. rewrite nth_error_app1 by (rewrite map_length; exact Hlen).
    rewrite nth_error_map, Hj. reflexivity.
  - cbn [nth_error] in Hi. rewrite nth_error_app2 by (rewrite map_length; cbn [Nat.mul]; lia).
    rewrite map_length. replace (S i * length l' + j - length l')%nat with (i * length l' + j)%nat by (cbn [Nat.mul]; lia).
    apply IH; assumption.
Qed.

Lemma flat_length : forall (A B : Type) (f : A -> B -> C) (l : list A) (l' : list B),
  length (flat_map (fun a => map (fun b => f a b) l') l) = (length l * length l')%nat.
Proof.
  intros A B f l l'. induction l as [|a l IH]; [reflexivity|].
  cbn [flat_map length Nat.mul]. rewrite app_length, map_length, IH. reflexivity.
Qed.

Definition zincreasing (l : list Z) : Prop :=
  forall i j x y, (i < j)%nat -> nth_error l i = Some x -> nth_error l j = Some y -> (x < y)%Z.

Lemma range_nth : forall a b i x, nth_error (py_range a b) i = Some x -> x = (a + Z.of_nat i)%Z.
Proof.
  intros a b i x H. unfold py_range in H. rewrite nth_error_map in H.
  destruct (nth_error (seq 0 (Z.to_nat (b - a))) i) as [n|] eqn:E; [|discriminate].
  assert (Hi : (i < Z.to_nat (b - a))%nat) by (rewrite <- (seq_length (Z.to_nat (b - a)) 0); apply nth_error_Some; congruence).
  rewrite (nth_error_nth' _ 0%nat) in E by (rewrite seq_length; exact Hi).
  injection E as E. rewrite seq_nth in E by exact Hi. injection H as <-. subst n. reflexivity.
Qed.

Lemma range_increasing : forall a b, zincreasing (py_range a b).
Proof. intros a b i j x y Hij Hx Hy. apply range_nth in Hx, Hy. lia. Qed.

Lemma zincreasing_filter : forall f l, zincreasing l -> zincreasing (filter f l).
Proof.
  intros f. induction l as [|a l IH]; intros H; [exact H|].
  assert (HT : zincreasing l) by (intros i j x y Hij Hx Hy; apply (H (S i) (S j) x y); [lia|exact Hx|exact Hy]).
  cbn [filter]. destruct (f a); [|apply IH; exact HT].
  intros i j x y Hij Hx Hy. destruct j as [|j]; [lia|]. cbn [nth_error] in Hy. destruct i as [|i].
  - injection Hx as <-. apply nth_error_In, filter_In in Hy. destruct Hy as [Hy _].
    destruct (In_nth_error _ _ Hy) as [q Hq]. apply (H 0%nat (S q) a y); [lia|reflexivity|exact Hq].
  - apply (IH HT i j x y); [lia|exact Hx|exact Hy].
Qed.

Lemma increasing_map : forall (f : Z -> R) l, (forall x y, (x < y)%Z -> f x < f y) ->
  zincreasing l -> increasing (map f l).
Proof.
  intros f l Hf H i j x y Hij Hx Hy. rewrite nth_error_map in Hx, Hy.
  destruct (nth_error l i) as [p|] eqn:Ep; [|discriminate].
  destruct (nth_error l j) as [q|] eqn:Eq; [|discriminate].
  injection Hx as <-. injection Hy as <-. apply Hf. exact (H i j p q Hij Ep Eq).
Qed.

Section Table.
Variables (s : polar_fd).
Hypothesis (Hok : pf_ok s).

Lemma hr_pos : 0 < pf_hr s.
Proof using Hok.
  destruct Hok as [HN [HR _]]. unfold pf_hr. apply Rdiv_lt_0_compat; [lra|]. apply (IZR_lt 0). lia.
Qed.
Lemma hth_pos : 0 < pf_hth s.
Proof using Hok.
  destruct Hok as [HN [_ Ha]]. unfold pf_hth. apply Rdiv_lt_0_compat; [lra|]. apply (IZR_lt 0). lia.
Qed.
Lemma r_mono : forall x y, (x < y)%Z -> get_r s (IZR x) < get_r s (IZR y).
Proof using Hok. intros x y H. unfold get_r. apply IZR_lt in H. pose proof hr_pos. nra. Qed.
Lemma th_mono : forall x y, (x < y)%Z -> get_th s x < get_th s y.
Proof using Hok. intros x y H. unfold get_th. apply IZR_lt in H. pose proof hth_pos. nra. Qed.

Lemma r_data_increasing : forall rmin, increasing (zm_r_data s rmin).
Proof using Hok.
  intros rmin. apply increasing_map; [exact r_mono|]. apply zincreasing_filter, range_increasing.
Qed.
Lemma th_data_increasing : increasing (zm_th_data s).
Proof using Hok. apply increasing_map; [exact th_mono|]. apply range_increasing. Qed.

Lemma kept_in : forall rmin m, In m (zm_kept s rmin) <-> (0 <= m <= pf_N s)%Z /\ rmin <= get_r s (IZR m).
Proof using.
  intros rmin m. unfold zm_kept. rewrite filter_In, py_range_in.
  destruct (Rltb_spec (get_r s (IZR m)) rmin) as [H|H]; cbn [negb]; split; intros [A B]; split;
    try lia; try lra; try discriminate; try reflexivity.
Qed.

Lemma interp_nodes : forall interp2d Rb bet v m l, interp2d_ok interp2d ->
  let rmin := zm_rmin (pf_N s) Rb bet in
  (6 <= length (zm_r_data s rmin))%nat -> (5 <= pf_N s)%Z ->
  (0 <= m <= pf_N s)%Z -> (0 <= l <= pf_N s)%Z -> rmin <= get_r s (IZR m) ->
  zm_v_interp interp2d s Rb bet v (get_r s (IZR m)) (get_th s l) = v m l.
Proof using Hok.
  intros interp2d Rb bet v m l Hi rmin H6 HN Hm Hl Hr. unfold zm_v_interp. cbv zeta. fold rmin.
  assert (Lth : length (zm_th_data s) = Z.to_nat (pf_N s + 1))
    by (unfold zm_th_data; rewrite map_length, py_range_length; f_equal; lia).
  assert (Lv : length (zm_v_data s rmin v) = (length (zm_r_data s rmin) * length (zm_th_data s))%nat).
  { unfold zm_v_data, zm_r_data, zm_th_data. rewrite !map_length. apply flat_length. }
  destruct (In_nth_error (zm_kept s rmin) m (proj2 (kept_in rmin m) (conj Hm Hr))) as [i Ei].
  destruct (In_nth_error (py_range 0 (pf_N s + 1)) l) as [j Ej]; [apply py_range_in; lia|].
  assert (Ex : nth_error (zm_r_data s rmin) i = Some (get_r s (IZR m)))
    by (unfold zm_r_data; rewrite nth_error_map, Ei; reflexivity).
  assert (Ey : nth_error (zm_th_data s) j = Some (get_th s l))
    by (unfold zm_th_data; rewrite nth_error_map, Ej; reflexivity).
  assert (Ez : nth_error (zm_v_data s rmin v) (i * length (zm_th_data s) + j) = Some (v m l)).
  { unfold zm_th_data. rewrite map_length. unfold zm_v_data. apply flat_table; assumption. }
  rewrite (Hi _ _ (map fst (zm_v_data s rmin v)) (r_data_increasing rmin) th_data_increasing H6 ltac:(rewrite Lth; lia)
    ltac:(rewrite map_length; exact Lv) i j _ _ (fst (v m l)) Ex Ey) by (apply map_nth_error; exact Ez).
  rewrite (Hi _ _ (map snd (zm_v_data s rmin v)) (r_data_increasing rmin) th_data_increasing H6 ltac:(rewrite Lth; lia)
    ltac:(rewrite map_length; exact Lv) i j _ _ (snd (v m l)) Ex Ey) by (apply map_nth_error; exact Ez).
  symmetry. apply surjective_pairing.
Qed.

(** How many circles are kept, and what radii they span. *)
Lemma kept_many : forall rmin (j : nat), (Z.of_nat j <= pf_N s)%Z ->
  rmin <= get_r s (IZR (pf_N s - Z.of_nat j)) -> (j < length (zm_kept s rmin))%nat.
Proof using Hok.
  intros rmin j Hj Hr.
  assert (ND : NoDup (map (fun n => (pf_N s - Z.of_nat n)%Z) (seq 0 (S j)))).
  { apply FinFun.Injective_map_NoDup; [intros x y E; lia|apply seq_NoDup]. }
  assert (INC : incl (map (fun n => (pf_N s - Z.of_nat n)%Z) (seq 0 (S j))) (zm_kept s rmin)).
  { intros m Hm. apply in_map_iff in Hm. destruct Hm as [n [<- Hn]]. apply in_seq in Hn. apply kept_in.
    split; [lia|]. eapply Rle_trans; [exact Hr|].
    destruct (Z.eq_dec (Z.of_nat n) (Z.of_nat j)) as [->|D]; [lra|]. left. apply r_mono. lia. }
  pose proof (NoDup_incl_length ND INC) as L. rewrite map_length, seq_length in L. lia.
Qed.

Lemma r_top : get_r s (IZR (pf_N s)) = pf_R1 s.
Proof using Hok.
  destruct Hok as [HN _]. unfold get_r, pf_hr. field. apply not_0_IZR. lia.
Qed.
End Table.

Lemma rmin_le : forall N Rb bet, 0 <= bet < Rb -> zm_rmin N Rb bet <= (Rb - bet) * (2 / 3).
Proof. intros N Rb bet H. unfold zm_rmin. destruct (128 <=? N)%Z; lra. Qed.

Lemma table_size : forall s Rb bet, pf_ok s -> (5 <= pf_N s)%Z -> 0 <= bet < Rb ->
  pf_R1 s = zm_arc_R Rb bet -> (6 <= length (zm_r_data s (zm_rmin (pf_N s) Rb bet)))%nat.
Proof.
  intros s Rb bet Hok HN Hb HR. unfold zm_r_data. rewrite map_length.
  apply (kept_many s Hok _ 5); [lia|].
  destruct Hok as [_ [HR0 _]]. unfold zm_arc_R in HR.
  assert (E : get_r s (IZR (pf_N s - Z.of_nat 5)) = pf_R1 s - 5 * pf_hr s).
  { rewrite minus_IZR. unfold get_r, pf_hr. change (IZR (Z.of_nat 5)) with 5. field. apply not_0_IZR. lia. }
  rewrite E. unfold zm_rmin. destruct (Z.leb_spec 128 (pf_N s)) as [L|L].
  - apply IZR_le in L. assert (H5 : 5 * pf_hr s <= (pf_R1 s) / 3).
    { unfold pf_hr. apply Rmult_le_reg_r with (IZR (pf_N s)); [lra|].
      replace (5 * ((pf_R1 s - pf_R0 s) / IZR (pf_N s)) * IZR (pf_N s)) with (5 * (pf_R1 s - pf_R0 s)) by (field; lra).
      nra. }
    lra.
  - assert (H5 : 5 * pf_hr s <= pf_R1 s - pf_R0 s).
    { unfold pf_hr. apply IZR_le in HN. apply Rmult_le_reg_r with (IZR (pf_N s)); [lra|].
      replace (5 * ((pf_R1 s - pf_R0 s) / IZR (pf_N s)) * IZR (pf_N s)) with (5 * (pf_R1 s - pf_R0 s)) by (field; lra).
      nra. }
    lra.
Qed.

(** Every radius of a curve lies between two radii of the table. *)
Lemma table_range : forall s Rb bet rho, pf_ok s -> 0 <= bet <= Rb / 3 -> pf_R1 s = zm_arc_R Rb bet ->
  pf_R0 s <= rho -> Rb - 4 / 3 * bet <= rho <= Rb + bet ->
  exists lo hi, In lo (zm_r_data s (zm_rmin (pf_N s) Rb bet)) /\ In hi (zm_r_data s (zm_rmin (pf_N s) Rb bet)) /\
    lo <= rho <= hi.
Proof.
  intros s Rb bet rho Hok Hb HR H0 Hrho.
  set (rmin := zm_rmin (pf_N s) Rb bet).
  assert (In_r : forall m, (0 <= m <= pf_N s)%Z -> rmin <= get_r s (IZR m) -> In (get_r s (IZR m)) (zm_r_data s rmin)).
  { intros m Hm Hr. unfold zm_r_data. apply (in_map (fun m => get_r s (IZR m))). apply kept_in. auto. }
  pose proof (hr_pos s Hok) as Hh. pose proof (r_top s Hok) as Htop.
  destruct Hok as [HN [HR0 _]]. unfold zm_arc_R in HR.
  assert (Hhi : In (get_r s (IZR (pf_N s))) (zm_r_data s rmin)).
  { apply In_r; [lia|]. rewrite Htop, HR. pose proof (rmin_le (pf_N s) Rb bet ltac:(lra)). fold rmin in H. lra. }
  rewrite Htop, HR in Hhi.
  destruct (Rle_dec rmin (pf_R0 s)) as [L|L].
  - exists (get_r s (IZR 0)), (Rb + bet). split; [apply In_r; [lia|]|split; [exact Hhi|]];
      unfold get_r; rewrite ?Rmult_0_l, ?Rplus_0_r; lra.
  - assert (HN8 : (128 <= pf_N s)%Z).
    { unfold rmin, zm_rmin in L. destruct (Z.leb_spec 128 (pf_N s)); [assumption|lra]. }
    set (m := up ((rmin - pf_R0 s) / pf_hr s)).
    destruct (archimed ((rmin - pf_R0 s) / pf_hr s)) as [A1 A2]. fold m in A1, A2.
    assert (B1 : rmin - pf_R0 s < IZR m * pf_hr s).
    { apply Rmult_gt_compat_r with (r := pf_hr s) in A1; [|exact Hh].
      replace ((rmin - pf_R0 s) / pf_hr s * pf_hr s) with (rmin - pf_R0 s) in A1 by (field; lra). lra. }
    assert (B2 : IZR m * pf_hr s <= rmin - pf_R0 s + pf_hr s).
    { assert (A3 : IZR m <= (rmin - pf_R0 s) / pf_hr s + 1) by lra.
      apply Rmult_le_compat_r with (r := pf_hr s) in A3; [|lra].
      replace (((rmin - pf_R0 s) / pf_hr s + 1) * pf_hr s) with (rmin - pf_R0 s + pf_hr s) in A3 by (field; lra). lra. }
    assert (Hs : pf_hr s <= (Rb + bet) / 128).
    { unfold pf_hr. apply IZR_le in HN8. apply Rmult_le_reg_r with (IZR (pf_N s)); [lra|].
      replace ((pf_R1 s - pf_R0 s) / IZR (pf_N s) * IZR (pf_N s)) with (pf_R1 s - pf_R0 s) by (field; lra).
      nra. }
    assert (Er : rmin = (Rb - bet) * (2 / 3)).
    { unfold rmin, zm_rmin. destruct (Z.leb_spec 128 (pf_N s)); [reflexivity|lia]. }
    assert (M0 : (0 <= m)%Z).
    { apply le_IZR. destruct (Rle_dec 0 (IZR m)); [assumption|exfalso; nra]. }
    assert (MN : (m <= pf_N s)%Z).
    { apply le_IZR. apply Rmult_le_reg_r with (pf_hr s); [exact Hh|].
      unfold get_r in Htop. lra. }
    exists (get_r s (IZR m)), (Rb + bet). split; [apply In_r; [lia|unfold get_r; lra]|].
    split; [exact Hhi|]. unfold get_r. lra.
Qed.

(** ** The reported error *)

Lemma dst_row : forall s (c : nat -> C) (d : Z -> C) (p : nat), pf_ok s -> (2 <= pf_N s)%Z ->
  let n := Z.to_nat (pf_N s - 1) in
  (forall l, (1 <= l < pf_N s)%Z -> d l = csum n (fun j => Cmult (c j)
     (RtoC (sin ((INR j + 1) * (PI / (2 * PI - pf_a s)) * (get_th s l - pf_a s)))))) ->
  (p < n)%nat ->
  Cdiv (dst1 n (fun i => d (i + 1)%Z) (Z.of_nat p)) (RtoC (IZR (pf_N s))) = c p.
Proof.
  intros s c d p Hok HN n Hd Hp. destruct Hok as [_ [_ Ha]].
  assert (En : INR n + 1 = IZR (pf_N s)).
  { unfold n. rewrite INR_IZR_INZ, Z2Nat.id, minus_IZR by lia. ring. }
  rewrite <- En.
  rewrite <- (arc_dst_modes (pf_a s) n p (fun th => csum n (fun m => Cmult (c m)
     (RtoC (sin ((INR m + 1) * (PI / (2 * PI - pf_a s)) * (th - pf_a s)))))) c ltac:(lra) Hp (fun th => eq_refl)).
  unfold arc_dst. f_equal. apply dst1_ext. intros i Hi. rewrite Hd by lia.
  apply csum_ext. intros j Hj. do 3 f_equal. unfold get_th, pf_hth. rewrite plus_IZR, <- En.
  pose proof (pos_INR n). do 2 f_equal. field. lra.
Qed.

Lemma row_error_max : forall s v0 v M m (c : nat -> C) e, pf_ok s -> (2 <= pf_N s)%Z ->
  let n := Z.to_nat (pf_N s - 1) in
  (forall l, (1 <= l < pf_N s)%Z ->
     Cminus (RtoC (v0 (get_r s (IZR m)) (get_th s l))) (v m l) =
     csum n (fun j => Cmult (c j)
       (RtoC (sin ((INR j + 1) * (PI / (2 * PI - pf_a s)) * (get_th s l - pf_a s)))))) ->
  (zm_row_error s v0 v M m = Ok e <->
   is_max (fun j => (j < M)%nat /\ (Z.of_nat j < pf_N s - 1)%Z) (fun j => Cmod (c j)) e).
Proof.
  intros s v0 v M m c e Hok HN n Hd. unfold zm_row_error. cbv zeta. fold n. rewrite py_max_spec.
  assert (EC : forall j, (j < n)%nat ->
    Cmod (Cdiv (dst1 n (fun i => Cminus (RtoC (v0 (get_r s (IZR m)) (get_th s (i + 1)))) (v m (i + 1)%Z)) (Z.of_nat j))
      (RtoC (IZR (pf_N s)))) = Cmod (c j)).
  { intros j Hj. f_equal.
    exact (dst_row s c (fun l => Cminus (RtoC (v0 (get_r s (IZR m)) (get_th s l))) (v m l)) j Hok HN Hd Hj). }
  unfold is_max. split; intros [H1 H2]; split.
  - apply in_map_iff in H1. destruct H1 as [j [Ej Hj]]. apply in_seq in Hj. exists j. split; [unfold n in Hj; lia|].
    rewrite EC in Ej by lia. exact Ej.
  - intros j Hj. rewrite <- (EC j) by (unfold n; lia). apply H2.
    apply (in_map (fun j => Cmod (Cdiv (dst1 n _ (Z.of_nat j)) (RtoC (IZR (pf_N s)))))). apply in_seq. unfold n. lia.
  - destruct H1 as [j [Hj Ej]]. apply in_map_iff. exists j. split; [rewrite EC by (unfold n; lia); exact Ej|].
    apply in_seq. unfold n. lia.
  - intros x Hx. apply in_map_iff in Hx. destruct Hx as [j [<- Hj]]. apply in_seq in Hj.
    rewrite EC by lia. apply H2. unfold n in Hj. lia.
Qed.

Lemma row_error_total : forall s v0 v M m, (2 <= pf_N s)%Z -> (1 <= M)%nat ->
  exists e, zm_row_error s v0 v M m = Ok e.
Proof.
  intros s v0 v M m HN HM. apply py_max_total. intros H. apply map_eq_nil in H.
  assert (L : length (seq 0 (Nat.min M (Z.to_nat (pf_N s - 1)))) = 0%nat) by (rewrite H; reflexivity).
  rewrite seq_length in L. lia.
Qed.

Lemma row_errors_spec : forall s v0 v M rows, (2 <= pf_N s)%Z -> (1 <= M)%nat ->
  exists es, zm_row_errors s v0 v M rows = Ok es /\
    forall e, In e es <-> exists m, In m rows /\ zm_row_error s v0 v M m = Ok e.
Proof.
  intros s v0 v M rows HN HM. induction rows as [|m rows [es [IH1 IH2]]].
  - exists []. split; [reflexivity|]. intros e. split; [intros []|intros [m [[] _]]].
  - destruct (row_error_total s v0 v M m HN HM) as [e0 E0]. exists (e0 :: es). split.
    + cbn [zm_row_errors]. rewrite E0. cbn [bind]. rewrite IH1. reflexivity.
    + intros e. split.
      * intros [<-|H]; [exists m; split; [left; reflexivity|exact E0]|].
        apply IH2 in H. destruct H as [m' [A B]]. exists m'. split; [right; exact A|exact B].
      * intros [m' [[<-|A] B]]; [left; congruence|]. right. apply IH2. exists m'. auto.
Qed.

Lemma v_error_max : forall s v0 v M (c : Z -> nat -> C) e, pf_ok s -> (2 <= pf_N s)%Z -> (1 <= M)%nat ->
  let n := Z.to_nat (pf_N s - 1) in
  (forall m l, (1 <= m < pf_N s)%Z -> (1 <= l < pf_N s)%Z ->
     Cminus (RtoC (v0 (get_r s (IZR m)) (get_th s l))) (v m l) =
     csum n (fun j => Cmult (c m j)
       (RtoC (sin ((INR j + 1) * (PI / (2 * PI - pf_a s)) * (get_th s l - pf_a s)))))) ->
  (zm_v_error s v0 v M = Ok e <->
   is_max (fun p : Z * nat => (1 <= fst p < pf_N s)%Z /\ (snd p < M)%nat /\ (Z.of_nat (snd p) < pf_N s - 1)%Z)
     (fun p => Cmod (c (fst p) (snd p))) e).
Proof.
  intros s v0 v M c e Hok HN HM n Hd. unfold zm_v_error.
  destruct (row_errors_spec s v0 v M (py_range 1 (pf_N s)) HN HM) as [es [E1 E2]]. rewrite E1. cbn [bind].
  rewrite py_max_spec.
  assert (RM : forall m x, (1 <= m < pf_N s)%Z -> (zm_row_error s v0 v M m = Ok x <->
     is_max (fun j => (j < M)%nat /\ (Z.of_nat j < pf_N s - 1)%Z) (fun j => Cmod (c m j)) x)).
  { intros m x Hm. apply row_error_max; [exact Hok|exact HN|]. intros l Hl. apply Hd; assumption. }
  split; intros [H1 H2]; split.
  - apply E2 in H1. destruct H1 as [m [Hm Em]]. apply py_range_in in Hm. apply RM in Em; [|exact Hm].
    destruct Em as [[j [Hj Ej]] _]. exists (m, j). cbn [fst snd]. split; [lia|exact Ej].
  - intros [m j] [Hm Hj]. cbn [fst snd] in *. destruct (row_error_total s v0 v M m HN HM) as [x Ex].
    apply Rle_trans with x.
    + apply (RM m x Hm) in Ex. apply Ex. exact Hj.
    + apply H2, E2. exists m. split; [apply py_range_in; exact Hm|exact Ex].
  - destruct H1 as [[m j] [[Hm Hj] Ej]]. cbn [fst snd] in *. apply E2. exists m.
    split; [apply py_range_in; exact Hm|]. apply RM; [exact Hm|]. split; [exists j; auto|].
    intros i Hi. apply (H2 (m, i)). cbn [fst snd]. auto.
  - intros x Hx. apply E2 in Hx. destruct Hx as [m [Hm Em]]. apply py_range_in in Hm.
    apply RM in Em; [|exact Hm]. destruct Em as [[j [Hj Ej]] _]. rewrite <- Ej.
    apply (H2 (m, j)). cbn [fst snd]. auto.
Qed.

(** Every table of differences has such coefficients. *)
Lemma modes_exist : forall s (d : Z -> Z -> C), pf_ok s -> (2 <= pf_N s)%Z ->
  let n := Z.to_nat (pf_N s - 1) in
  exists c : Z -> nat -> C, forall m l, (1 <= l < pf_N s)%Z -> d m l =
     csum n (fun j => Cmult (c m j)
       (RtoC (sin ((INR j + 1) * (PI / (2 * PI - pf_a s)) * (get_th s l - pf_a s))))).
Proof.
  intros s d Hok HN n. destruct Hok as [_ [_ Ha]].
  exists (fun m j => Cdiv (dst1 n (fun i => d m (i + 1)%Z) (Z.of_nat j)) (RtoC (INR n + 1))).
  intros m l Hl. pose proof (pos_INR n) as Hn.
  assert (Hq : RtoC (INR n + 1) <> RtoC 0) by (apply RtoC_neq; lra).
  pose proof (dst1_involution n (fun i => d m (i + 1)%Z) (l - 1) ltac:(unfold n; lia)) as I.
  cbv beta in I. replace (l - 1 + 1)%Z with l in I by lia.
  assert (En : INR n + 1 = IZR (pf_N s)).
  { unfold n. rewrite INR_IZR_INZ, Z2Nat.id, minus_IZR by lia. ring. }
  transitivity (Cdiv (dst1 n (dst1 n (fun i => d m (i + 1)%Z)) (l - 1)) (RtoC (2 * (INR n + 1)))).
  - rewrite I. field. rewrite RtoC_mult. apply Cmult_neq_0; [apply RtoC_neq; lra|exact Hq].
  - unfold dst1 at 1. unfold Cdiv. rewrite RtoC_mult.
    rewrite Cmult_comm, Cmult_assoc, <- csum_scal. apply csum_ext. intros j Hj.
    replace (PI * (IZR (l - 1) + 1) * (INR j + 1) / (INR n + 1)) with
      ((INR j + 1) * (PI / (2 * PI - pf_a s)) * (get_th s l - pf_a s)).
    + field. split; [exact Hq|apply RtoC_neq; lra].
    + unfold get_th, pf_hth. rewrite minus_IZR, <- En. field. lra.
Qed.

Lemma v_error_zero : forall s v0 v M, pf_ok s -> (2 <= pf_N s)%Z -> (pf_N s - 1 <= Z.of_nat M)%Z ->
  (zm_v_error s v0 v M = Ok 0 <->
   forall m l, (1 <= m < pf_N s)%Z -> (1 <= l < pf_N s)%Z ->
     v m l = RtoC (v0 (get_r s (IZR m)) (get_th s l))).
Proof.
  intros s v0 v M Hok HN HM.
  destruct (modes_exist s (fun m l => Cminus (RtoC (v0 (get_r s (IZR m)) (get_th s l))) (v m l)) Hok HN) as [c Hc].
  rewrite (v_error_max s v0 v M c 0 Hok HN ltac:(lia)) by (intros m l _ Hl; apply Hc; exact Hl).
  split.
  - intros [_ H2] m l Hm Hl. specialize (Hc m l Hl). cbv beta in Hc.
    rewrite (csum_ext _ _ (fun _ => RtoC 0)) in Hc.
    + rewrite csum_zero in Hc.
      assert (E : Cplus (v m l) (Cminus (RtoC (v0 (get_r s (IZR m)) (get_th s l))) (v m l)) = Cplus (v m l) (RtoC 0))
        by (rewrite Hc; reflexivity).
      rewrite Cplus_0_r in E. rewrite <- E. ring.
    + intros j Hj. specialize (H2 (m, j)). cbn [fst snd] in H2.
      assert (Z0 : c m j = RtoC 0).
      { apply Cmod_eq_0. apply Rle_antisym; [|apply Cmod_ge_0]. apply H2. lia. }
      rewrite Z0. ring.
  - intros H.
    assert (Z0 : forall m j, (1 <= m < pf_N s)%Z -> (j < Z.to_nat (pf_N s - 1))%nat -> c m j = RtoC 0).
    { intros m j Hm Hj. rewrite <- (dst_row s (c m) (fun _ => RtoC 0) j Hok HN).
      - rewrite (dst1_ext _ _ (fun i => Cmult (RtoC 0) (RtoC 0))) by (intros; ring).
        rewrite dst1_scal. unfold Cdiv. ring.
      - intros l Hl. rewrite <- Hc by exact Hl. rewrite H by assumption. ring.
      - exact Hj. }
    split.
    + exists (1%Z, 0%nat). cbn [fst snd]. split; [lia|]. rewrite Z0 by lia. apply Cmod_0.
    + intros [m j] [Hm [H1 H2]]. cbn [fst snd] in *. rewrite Z0 by lia. rewrite Cmod_0. lra.
Qed.
