(** Proofs about ps/debug.py (C71). *)
From Coq Require Import ZArith List Bool Reals Lia Lra Sorted.
From Coquelicot Require Import Coquelicot.
From Verif Require Import Model_Py Model_Multivalue Model_Grid Model_Fourier Model_Chebyshev Model_Domain
  Model_Ext Model_Extend Model_Debug Spec_Chebyshev Spec_Extend Spec_ZRun Spec_Debug
  Lib_Csum Proof_Grid Proof_Domain Proof_Chebyshev Proof_Basis.
Import ListNotations.
Open Scope R_scope.

(** ** linspace *)

Lemma linspace_length : forall lo hi n, length (np_linspace lo hi n) = n.
Proof. intros. unfold np_linspace. rewrite map_length, seq_length. reflexivity. Qed.

Lemma linspace_range : forall lo hi n x, lo <= hi -> In x (np_linspace lo hi n) -> lo <= x <= hi.
Proof.
  intros lo hi n x H Hx. apply in_map_iff in Hx. destruct Hx as (i & <- & Hi). apply in_seq in Hi.
  destruct (Nat.eq_dec n 1) as [->|Hn].
  - replace i with 0%nat by lia. cbn. lra.
  - assert (0 < INR (n - 1)) by (apply lt_0_INR; lia).
    assert (0 <= INR i <= INR (n - 1)) by (split; [apply pos_INR|apply le_INR; lia]).
    assert (E : INR i * ((hi - lo) / INR (n - 1)) = (INR i / INR (n - 1)) * (hi - lo)) by (field; lra).
    rewrite E. assert (0 <= INR i / INR (n - 1) <= 1).
    { split; [apply Rle_mult_inv_pos; lra|apply Rle_div_l; lra]. }
    nra.
Qed.

Lemma map_sorted : forall {A} (lt : A -> A -> Prop) (f : nat -> A) n k,
  (forall i j, (k <= i < j)%nat -> (j < k + n)%nat -> lt (f i) (f j)) -> StronglySorted lt (map f (seq k n)).
Proof.
  intros A lt f n. induction n as [|n IH]; intros k H; [constructor|].
  cbn [seq map]. constructor.
  - apply IH. intros i j Hi Hj. apply H; lia.
  - apply Forall_forall. intros y Hy. apply in_map_iff in Hy. destruct Hy as (j & <- & Hj). apply in_seq in Hj.
    apply H; lia.
Qed.

Lemma linspace_sorted : forall lo hi n, lo < hi -> StronglySorted Rlt (np_linspace lo hi n).
Proof.
  intros lo hi n H. apply map_sorted. intros i j Hij Hj.
  assert (0 < INR (n - 1)) by (apply lt_0_INR; lia).
  assert (INR i < INR j) by (apply lt_INR; lia).
  assert (0 < (hi - lo) / INR (n - 1)) by (apply Rdiv_lt_0_compat; lra).
  nra.
Qed.

Lemma linspace_cover : forall lo hi n x, (2 <= n)%nat -> lo < hi -> lo <= x <= hi ->
  exists y, In y (np_linspace lo hi n) /\ y <= x < y + (hi - lo) / INR (n - 1).
Proof.
  intros lo hi n x Hn H Hx. assert (Hp : 0 < INR (n - 1)) by (apply lt_0_INR; lia).
  set (d := (hi - lo) / INR (n - 1)). assert (Hd : 0 < d) by (apply Rdiv_lt_0_compat; lra).
  assert (K : forall m, (m <= n - 1)%nat -> lo <= x < lo + INR (S m) * d ->
    exists y, In y (np_linspace lo hi n) /\ y <= x < y + d).
  { induction m as [|m IH]; intros Hm Hx'.
    - exists (lo + INR 0 * d). split; [|cbn in *; lra].
      apply in_map_iff. exists 0%nat. split; [reflexivity|apply in_seq; lia].
    - destruct (Rlt_dec x (lo + INR (S m) * d)) as [L|L].
      + apply IH; [lia|lra].
      + exists (lo + INR (S m) * d). split.
        * apply in_map_iff. exists (S m). split; [reflexivity|apply in_seq; lia].
        * rewrite (S_INR (S m)) in Hx'. lra. }
  apply (K (n - 1)%nat); [lia|]. rewrite S_INR.
  assert (INR (n - 1) * d = hi - lo) by (unfold d; field; lra). lra.
Qed.

(** ** The sample *)

Lemma sample_ep_small : 0 < sample_ep < 1 / 10000.
Proof. unfold sample_ep. lra. Qed.

Lemma in_sample : forall eval_r R0 a n p, sample_ep <= R0 -> a + 2 * sample_ep <= 2 * PI ->
  In p (get_boundary_sample eval_r R0 a n) ->
  (bp_sid p < 3)%nat /\ (bp_x p, bp_y p) = seg_point eval_r a (bp_sid p) (bp_arg p) /\
  match bp_sid p with O => a + sample_ep <= bp_arg p <= 2 * PI - sample_ep | _ => sample_ep <= bp_arg p <= R0 end.
Proof.
  intros eval_r R0 a n p HR Ha H. unfold get_boundary_sample in H.
  rewrite !in_app_iff in H. unfold sample_by_sid in H. destruct H as [H|[H|H]];
  apply in_map_iff in H; destruct H as (t & <- & Ht); cbn [bp_sid bp_x bp_y bp_arg seg_point];
  (split; [lia|split; [reflexivity|]]).
  - apply linspace_range in Ht; [exact Ht|lra].
  - apply in_rev in Ht. apply linspace_range in Ht; [exact Ht|lra].
  - apply linspace_range in Ht; [exact Ht|lra].
Qed.

Lemma sample_length : forall eval_r R0 a n, length (get_boundary_sample eval_r R0 a n) = (5 * n)%nat.
Proof.
  intros. unfold get_boundary_sample, sample_by_sid.
  rewrite !app_length, !map_length, rev_length, !linspace_length. lia.
Qed.

Lemma sample_cover : forall eval_r R0 a n, (2 <= n)%nat -> sample_ep < R0 -> a + 2 * sample_ep < 2 * PI ->
  (forall th, a + sample_ep <= th <= 2 * PI - sample_ep -> exists p, In p (get_boundary_sample eval_r R0 a n) /\
     bp_sid p = 0%nat /\ bp_arg p <= th < bp_arg p + (2 * PI - a - 2 * sample_ep) / INR (3 * n - 1)) /\
  (forall sid r, (sid = 1 \/ sid = 2)%nat -> sample_ep <= r <= R0 -> exists p, In p (get_boundary_sample eval_r R0 a n) /\
     bp_sid p = sid /\ bp_arg p <= r < bp_arg p + (R0 - sample_ep) / INR (n - 1)).
Proof.
  intros eval_r R0 a n Hn HR Ha. unfold get_boundary_sample, sample_by_sid. split.
  - intros th Hth. destruct (linspace_cover (a + sample_ep) (2 * PI - sample_ep) (3 * n) th) as (y & Hy & Hr); try lia; try lra.
    eexists. split; [apply in_or_app; left; apply in_map_iff; exists y; split; [reflexivity|exact Hy]|].
    cbn [bp_sid bp_arg]. split; [reflexivity|].
    replace (2 * PI - a - 2 * sample_ep) with (2 * PI - sample_ep - (a + sample_ep)) by ring. exact Hr.
  - intros sid r Hs Hr. destruct (linspace_cover sample_ep R0 n r) as (y & Hy & Hr'); try lia; try lra.
    destruct Hs as [->| ->]; eexists.
    + split; [apply in_or_app; right; apply in_or_app; left; apply in_map_iff; exists y; split; [reflexivity|apply in_rev; rewrite rev_involutive; exact Hy]|].
      cbn [bp_sid bp_arg]. split; [reflexivity|exact Hr'].
    + split; [apply in_or_app; right; apply in_or_app; right; apply in_map_iff; exists y; split; [reflexivity|exact Hy]|].
      cbn [bp_sid bp_arg]. split; [reflexivity|exact Hr'].
Qed.

Lemma sorted_app : forall {A} (lt : A -> A -> Prop) l l', StronglySorted lt l -> StronglySorted lt l' ->
  (forall x y, In x l -> In y l' -> lt x y) -> StronglySorted lt (l ++ l').
Proof.
  intros A lt l l' H H' K. induction H as [|x l H IH F]; [exact H'|].
  cbn. constructor.
  - apply IH. intros y z Hy Hz. apply K; [right; exact Hy|exact Hz].
  - apply Forall_forall. intros y Hy. apply in_app_or in Hy. destruct Hy as [Hy|Hy].
    + rewrite Forall_forall in F. apply F. exact Hy.
    + apply K; [left; reflexivity|exact Hy].
Qed.

Lemma sorted_map : forall {A B} (lt : A -> A -> Prop) (lt' : B -> B -> Prop) (f : A -> B) l,
  (forall x y, lt x y -> lt' (f x) (f y)) -> StronglySorted lt l -> StronglySorted lt' (map f l).
Proof.
  intros A B lt lt' f l K H. induction H as [|x l H IH F]; [constructor|].
  cbn. constructor; [exact IH|]. rewrite Forall_forall in *. intros y Hy.
  apply in_map_iff in Hy. destruct Hy as (z & <- & Hz). apply K, F, Hz.
Qed.

Lemma sorted_rev : forall {A} (lt : A -> A -> Prop) l, StronglySorted lt l -> StronglySorted (fun x y => lt y x) (rev l).
Proof.
  intros A lt l H. induction H as [|x l H IH F]; [constructor|].
  cbn. apply sorted_app; [exact IH|repeat constructor|].
  intros y z Hy [<-|[]]. rewrite Forall_forall in F. apply F. apply in_rev. exact Hy.
Qed.

Lemma sample_sorted : forall eval_r R0 a n, sample_ep < R0 -> a + 2 * sample_ep < 2 * PI ->
  StronglySorted (fun p q => bp_s p < bp_s q) (get_boundary_sample eval_r R0 a n).
Proof.
  intros eval_r R0 a n HR Ha. pose proof sample_ep_small as E. unfold get_boundary_sample, sample_by_sid.
  apply sorted_app; [|apply sorted_app|].
  - apply (sorted_map Rlt); [|apply linspace_sorted; lra]. intros x y Hxy. cbn [bp_s]. nra.
  - apply (sorted_map (fun x y => y < x)); [|apply (sorted_rev Rlt), linspace_sorted; lra]. intros x y Hxy. cbn [bp_s]. lra.
  - apply (sorted_map Rlt); [|apply linspace_sorted; lra]. intros x y Hxy. cbn [bp_s]. lra.
  - intros x y Hx Hy. apply in_map_iff in Hx, Hy. destruct Hx as (t & <- & Ht), Hy as (u & <- & Hu).
    apply in_rev in Ht. apply linspace_range in Ht, Hu; try lra. cbn [bp_s]. lra.
  - intros x y Hx Hy. apply in_map_iff in Hx. destruct Hx as (t & <- & Ht). apply linspace_range in Ht; [|lra].
    apply in_app_or in Hy. destruct Hy as [Hy|Hy]; apply in_map_iff in Hy; destruct Hy as (u & <- & Hu);
    [apply in_rev in Hu|]; apply linspace_range in Hu; try lra; cbn [bp_s]; nra.
Qed.

Lemma sample_recomputed : forall eval_r R0 a n p, sample_ep <= R0 -> 0 < a -> a + 2 * sample_ep <= 2 * PI ->
  (forall th, a < th < 2 * PI -> 0 < eval_r th) ->
  In p (get_boundary_sample eval_r R0 a n) ->
  exists r th, cart_to_polar (bp_x p) (bp_y p) = (r, th) /\ get_sid a th = Some (bp_sid p) /\
    (if Nat.eqb (bp_sid p) 0 then th else r) = bp_arg p.
Proof.
  intros eval_r R0 a n p HR Ha0 Ha Hr Hp. pose proof sample_ep_small as E. pose proof PI_RGT_0.
  destruct (in_sample _ _ _ _ _ HR Ha Hp) as (Hs & Hxy & Harg).
  destruct (get_sid_segments a ltac:(lra)) as (S0 & S1 & S2).
  destruct (bp_sid p) as [|[|[|sid]]]; [| | |lia]; cbn [seg_point] in Hxy; injection Hxy as -> ->.
  - exists (eval_r (bp_arg p)), (bp_arg p). split; [apply cart_to_polar_of_polar; [apply Hr; lra|lra]|].
    split; [apply S0; lra|reflexivity].
  - exists (bp_arg p), (2 * PI). split; [|split; [exact S1|reflexivity]].
    rewrite <- (cart_to_polar_of_polar (bp_arg p) (2 * PI)) by lra. rewrite cos_2PI, sin_2PI. f_equal; ring.
  - exists (bp_arg p), a. split; [apply cart_to_polar_of_polar; lra|]. split; [exact S2|reflexivity].
Qed.

(** ** The expansion *)

Lemma expansion_loop_spec : forall R0 a cs arg sid B k n acc, (k + n <= length B)%nat -> (k + n <= length cs)%nat ->
  -1 <= eval_g_inv R0 a sid arg <= 1 ->
  expansion_loop R0 a B cs arg sid (seq k n) acc =
  Ok (acc + Re (csum n (fun m => match nth_error B (k + m) with
    | Some (s, J) => if Nat.eqb s sid then Cmult (nth (k + m) cs (RtoC 0)) (RtoC (chebT J (eval_g_inv R0 a sid arg))) else RtoC 0
    | None => RtoC 0 end))).
Proof.
  intros R0 a cs arg sid B k n. revert k. induction n as [|n IH]; intros k acc HB Hc Hg.
  - cbn [seq expansion_loop csum]. f_equal. unfold Re, RtoC. cbn [fst]. ring.
  - cbn [seq expansion_loop].
    assert (E : exists x, nth_error cs k = Some x).
    { destruct (nth_error cs k) as [x|] eqn:E; [eexists; reflexivity|]. apply nth_error_None in E. lia. }
    destruct E as [x Ex]. unfold list_get. rewrite Ex. cbn [bind].
    assert (EB : exists d, nth_error B k = Some d).
    { destruct (nth_error B k) as [d|] eqn:E; [eexists; reflexivity|]. apply nth_error_None in E. lia. }
    destruct EB as [[s J] EB].
    assert (V : eval_dn_B_arg R0 a B 0 k arg sid = Ok (if Nat.eqb s sid then chebT J (eval_g_inv R0 a sid arg) else 0)).
    { destruct (Nat.eqb_spec s sid) as [->|Hne].
      - rewrite (eval_dn_B_same _ _ _ _ _ _ _ _ EB) by lia. rewrite dnB_0 by exact Hg. reflexivity.
      - apply (eval_dn_B_other _ _ _ _ _ _ _ _ _ EB Hne). }
    rewrite V. cbn [bind]. rewrite IH by (try lia; exact Hg). f_equal. rewrite csum_shift. rewrite Nat.add_0_r, EB.
    rewrite (nth_error_nth _ _ (RtoC 0) Ex).
    rewrite (csum_ext n (fun m => match nth_error B (k + S m) with
      | Some (s0, J0) => if Nat.eqb s0 sid then Cmult (nth (k + S m) cs (RtoC 0)) (RtoC (chebT J0 (eval_g_inv R0 a sid arg))) else RtoC 0
      | None => RtoC 0 end) (fun m => match nth_error B (S k + m) with
      | Some (s0, J0) => if Nat.eqb s0 sid then Cmult (nth (S k + m) cs (RtoC 0)) (RtoC (chebT J0 (eval_g_inv R0 a sid arg))) else RtoC 0
      | None => RtoC 0 end)) by (intros m _; replace (k + S m)%nat with (S k + m)%nat by lia; reflexivity).
    destruct (Nat.eqb s sid); unfold Re, Cmult, Cplus, RtoC; cbn [fst snd]; ring.
Qed.

Lemma expansion_value : forall R0 a B cs arg sid, length cs = length B -> -1 <= eval_g_inv R0 a sid arg <= 1 ->
  expansion_loop R0 a B cs arg sid (seq 0 (length B)) 0 =
  Ok (Re (seg_function (eval_g_inv R0 a sid) B cs sid arg)).
Proof.
  intros R0 a B cs arg sid HL Hg. rewrite expansion_loop_spec by (try lia; exact Hg). f_equal.
  rewrite Rplus_0_l. reflexivity.
Qed.

Lemma sample_g_inv : forall eval_r R0 a n p, sample_ok eval_r R0 a -> In p (get_boundary_sample eval_r R0 a n) ->
  -1 < eval_g_inv R0 a (bp_sid p) (bp_arg p) < 1.
Proof.
  intros eval_r R0 a n p (HR & Ha0 & Ha & _) Hp. pose proof sample_ep_small.
  destruct (in_sample _ _ _ _ _ HR Ha Hp) as (Hs & _ & Harg).
  apply seg_range_g_inv; try lra; try lia. unfold seg_range. destruct (bp_sid p); lra.
Qed.

Lemma c0_point_spec : forall eval_r eval_bc R0 a n B c0 p, sample_ok eval_r R0 a -> length c0 = length B ->
  In p (get_boundary_sample eval_r R0 a n) ->
  c0_point eval_bc R0 a B c0 p = Ok (bp_sid p, Re (eval_bc (bp_arg p) (bp_sid p)),
    Re (seg_function (eval_g_inv R0 a (bp_sid p)) B c0 (bp_sid p) (bp_arg p))).
Proof.
  intros eval_r eval_bc R0 a n B c0 p Hok HL Hp. pose proof Hok as (HR & Ha0 & Ha & Hr).
  destruct (sample_recomputed _ _ _ _ _ HR Ha0 Ha Hr Hp) as (r & th & E1 & E2 & E3).
  unfold c0_point. rewrite E1, E2, E3. pose proof (sample_g_inv _ _ _ _ _ Hok Hp).
  rewrite expansion_value by (try exact HL; lra). reflexivity.
Qed.

Lemma c0_points_spec : forall eval_bc R0 a B c0 (v : bpoint -> nat * R * R) ps,
  (forall p, In p ps -> c0_point eval_bc R0 a B c0 p = Ok (v p)) ->
  c0_points eval_bc R0 a B c0 ps = Ok (map v ps).
Proof.
  intros eval_bc R0 a B c0 v ps. induction ps as [|p ps IH]; intros H; [reflexivity|].
  cbn [c0_points map]. rewrite H by (left; reflexivity). cbn [bind]. rewrite IH by (intros; apply H; right; assumption).
  reflexivity.
Qed.

Lemma py_max_is_max : forall {A} (l : list A) (f : A -> R), l <> [] ->
  exists e, py_max (map f l) = Ok e /\ is_max (fun x => In x l) f e.
Proof.
  intros A l f Hl. destruct (py_max_total (map f l)) as [e He].
  { destruct l; [congruence|discriminate]. }
  exists e. split; [exact He|]. apply py_max_spec in He. destruct He as [H1 H2].
  apply in_map_iff in H1. destruct H1 as (x & Hx & Hin). split; [exists x; auto|].
  intros y Hy. apply H2. apply in_map. exact Hy.
Qed.

Lemma filter_map : forall {A B} (g : B -> bool) (f : A -> B) l, filter g (map f l) = map f (filter (fun x => g (f x)) l).
Proof.
  intros A B g f l. induction l as [|x l IH]; [reflexivity|]. cbn. destruct (g (f x)); cbn; rewrite IH; reflexivity.
Qed.

Lemma sample_outer : forall eval_r R0 a n, (1 <= n)%nat -> exists p,
  In p (get_boundary_sample eval_r R0 a n) /\ bp_sid p = 0%nat.
Proof.
  intros eval_r R0 a n Hn. unfold get_boundary_sample, sample_by_sid.
  eexists. split; [apply in_or_app; left; apply in_map_iff; eexists; split; [reflexivity|]|reflexivity].
  apply in_map_iff. exists 0%nat. split; [reflexivity|apply in_seq; lia].
Qed.

Lemma c0_test_spec : forall n eval_r eval_bc R0 a B c0, (1 <= n)%nat -> sample_ok eval_r R0 a -> length c0 = length B ->
  exists eo e, c0_test n eval_r eval_bc R0 a B c0 = Ok (eo, e) /\
    let S := get_boundary_sample eval_r R0 a n in
    let diff p := Rabs (Re (eval_bc (bp_arg p) (bp_sid p)) -
                        Re (seg_function (eval_g_inv R0 a (bp_sid p)) B c0 (bp_sid p) (bp_arg p))) in
    is_max (fun p => In p S /\ bp_sid p = 0%nat) diff eo /\ is_max (fun p => In p S) diff e.
Proof.
  intros n eval_r eval_bc R0 a B c0 Hn Hok HL. unfold c0_test.
  rewrite (c0_points_spec _ _ _ _ _ (fun p => (bp_sid p, Re (eval_bc (bp_arg p) (bp_sid p)),
    Re (seg_function (eval_g_inv R0 a (bp_sid p)) B c0 (bp_sid p) (bp_arg p)))))
    by (intros p Hp; apply (c0_point_spec eval_r _ _ _ n); assumption).
  cbn [bind]. cbv zeta. rewrite filter_map, !map_map. cbn [fst snd].
  destruct (sample_outer eval_r R0 a n Hn) as (p0 & Hp0 & Hs0).
  destruct (py_max_is_max (filter (fun x => Nat.eqb (bp_sid x) 0) (get_boundary_sample eval_r R0 a n))
    (fun p => Rabs (Re (eval_bc (bp_arg p) (bp_sid p)) -
       Re (seg_function (eval_g_inv R0 a (bp_sid p)) B c0 (bp_sid p) (bp_arg p))))) as (eo & E1 & M1).
  { intros F. assert (In p0 (filter (fun x => Nat.eqb (bp_sid x) 0) (get_boundary_sample eval_r R0 a n))).
    { apply filter_In. split; [exact Hp0|]. rewrite Hs0. reflexivity. }
    rewrite F in H. exact H. }
  destruct (py_max_is_max (get_boundary_sample eval_r R0 a n)
    (fun p => Rabs (Re (eval_bc (bp_arg p) (bp_sid p)) -
       Re (seg_function (eval_g_inv R0 a (bp_sid p)) B c0 (bp_sid p) (bp_arg p))))) as (e & E2 & M2).
  { intros F. rewrite F in Hp0. exact Hp0. }
  rewrite E1. cbn [bind]. rewrite E2. cbn [bind]. exists eo, e. split; [reflexivity|]. split; [|exact M2].
  destruct M1 as [(x & Hx & Ex) M1]. split.
  - exists x. apply filter_In in Hx. destruct Hx as [Hx Hs]. apply Nat.eqb_eq in Hs. auto.
  - intros y [Hy Hs]. apply M1. apply filter_In. split; [exact Hy|]. rewrite Hs. reflexivity.
Qed.

Lemma c1_points_spec : forall ev R0 a B c1 (v : bpoint -> R * R) ps,
  (forall p, In p ps -> c1_point ev R0 a B c1 p = Ok (v p)) -> c1_points ev R0 a B c1 ps = Ok (map v ps).
Proof.
  intros ev R0 a B c1 v ps. induction ps as [|p ps IH]; intros H; [reflexivity|].
  cbn [c1_points map]. rewrite H by (left; reflexivity). cbn [bind]. rewrite IH by (intros; apply H; right; assumption).
  reflexivity.
Qed.

Lemma c1_test_spec : forall n eval_r ev R0 a B c1, (1 <= n)%nat -> sample_ok eval_r R0 a -> length c1 = length B ->
  exists e, c1_test n eval_r ev R0 a B c1 = Ok e /\
    is_max (fun p => In p (get_boundary_sample eval_r R0 a n))
      (fun p => Rabs (Re (ev (bp_arg p) (bp_sid p)) -
                      Re (seg_function (eval_g_inv R0 a (bp_sid p)) B c1 (bp_sid p) (bp_arg p)))) e.
Proof.
  intros n eval_r ev R0 a B c1 Hn Hok HL. unfold c1_test.
  rewrite (c1_points_spec _ _ _ _ _ (fun p => (Re (ev (bp_arg p) (bp_sid p)),
    Re (seg_function (eval_g_inv R0 a (bp_sid p)) B c1 (bp_sid p) (bp_arg p))))).
  - cbn [bind]. rewrite map_map. cbn [fst snd]. apply py_max_is_max.
    destruct (sample_outer eval_r R0 a n Hn) as (p0 & Hp0 & _). intros F. rewrite F in Hp0. exact Hp0.
  - intros p Hp. pose proof Hok as (HR & Ha0 & Ha & Hr).
    destruct (sample_recomputed _ _ _ _ _ HR Ha0 Ha Hr Hp) as (r & th & E1 & E2 & E3).
    unfold c1_point. rewrite E1, E2, E3. pose proof (sample_g_inv _ _ _ _ _ Hok Hp).
    rewrite expansion_value by (try exact HL; lra). reflexivity.
Qed.

(** ** Data in the span of the basis *)

Lemma calc_c1_exact_eq : forall chebfit nodes R0 a nc nr f,
  calc_c1_exact chebfit nodes R0 a (snd (setup_basis nc nr)) f =
  calc_c0 chebfit nodes R0 a (snd (setup_basis nc nr)) f.
Proof.
  intros chebfit nodes R0 a nc nr f. rewrite setup_basis_eq. unfold calc_c1_exact, calc_c0, list_get. cbn [snd seq nth_error bind fst].
  destruct (get_chebyshev_coef chebfit nodes R0 a 0 nc (fun arg => f arg 0%nat)); [|reflexivity]. cbn [bind].
  destruct (get_chebyshev_coef chebfit nodes R0 a 1 nr (fun arg => f arg 1%nat)); [|reflexivity]. cbn [bind].
  destruct (get_chebyshev_coef chebfit nodes R0 a 2 nr (fun arg => f arg 2%nat)); [|reflexivity]. cbn [bind app].
  rewrite <- app_assoc. reflexivity.
Qed.

Lemma seg_function_desc : forall R0 a nc nr b0 b1 b2 sid arg, (sid < 3)%nat ->
  length b0 = nc -> length b1 = nr -> length b2 = nr ->
  seg_function (eval_g_inv R0 a sid) (fst (setup_basis nc nr)) (b0 ++ b1 ++ b2) sid arg =
  cheb_expand (match sid with 0%nat => b0 | 1%nat => b1 | _ => b2 end) (eval_g_inv R0 a sid arg).
Proof.
  intros R0 a nc nr b0 b1 b2 sid arg Hs L0 L1 L2. unfold seg_function. rewrite B_desc_length.
  set (F := fun JJ => match nth_error (fst (setup_basis nc nr)) JJ with
    | Some (s, J) => if Nat.eqb s sid then Cmult (nth JJ (b0 ++ b1 ++ b2) (RtoC 0)) (RtoC (chebT J (eval_g_inv R0 a sid arg))) else RtoC 0
    | None => RtoC 0 end).
  assert (FS : forall s J, (s < 3)%nat -> (J < seg_size nc nr s)%nat ->
     F (basis_index nc nr s J) = if Nat.eqb s sid then
       Cmult (nth J (match sid with 0%nat => b0 | 1%nat => b1 | _ => b2 end) (RtoC 0))
             (RtoC (chebT J (eval_g_inv R0 a sid arg))) else RtoC 0).
  { intros s J Hs' HJ.
    assert (HB : nth_error (fst (setup_basis nc nr)) (basis_index nc nr s J) = Some (s, J))
      by (apply B_desc_nth; auto).
    unfold F. rewrite HB. destruct (Nat.eqb_spec s sid) as [->|Hne]; [|reflexivity]. f_equal.
    destruct sid as [|[|[|sid]]]; [| | |lia]; cbn [basis_index seg_size] in *.
    - rewrite app_nth1 by lia. reflexivity.
    - rewrite app_nth2 by lia. rewrite app_nth1 by lia. f_equal. lia.
    - rewrite app_nth2 by lia. rewrite app_nth2 by lia. f_equal. lia. }
  replace (nc + 2 * nr)%nat with (nc + (nr + nr))%nat by lia. rewrite !csum_split.
  assert (Part : forall s n off, (s < 3)%nat -> n = seg_size nc nr s ->
     (forall m, basis_index nc nr s m = (off + m)%nat) ->
     csum n (fun m => F (off + m)%nat) = if Nat.eqb s sid then
       cheb_expand (match sid with 0%nat => b0 | 1%nat => b1 | _ => b2 end) (eval_g_inv R0 a sid arg) else RtoC 0).
  { intros s n off Hs' -> Hoff. destruct (Nat.eqb_spec s sid) as [->|Hne].
    - rewrite cheb_expand_csum.
      replace (length (match sid with 0%nat => b0 | 1%nat => b1 | _ => b2 end)) with (seg_size nc nr sid)
        by (destruct sid as [|[|sid]]; cbn; congruence).
      apply csum_ext. intros m Hm. rewrite <- Hoff, FS by assumption.
      rewrite Nat.eqb_refl. reflexivity.
    - rewrite (csum_ext _ _ (fun _ => RtoC 0)); [apply csum_zero|].
      intros m Hm. rewrite <- Hoff, FS by assumption. apply Nat.eqb_neq in Hne. rewrite Hne. reflexivity. }
  rewrite (csum_ext nc F (fun m => F (0 + m)%nat)) by reflexivity.
  rewrite (Part 0%nat nc 0%nat) by (try lia; reflexivity).
  rewrite (Part 1%nat nr nc) by (try lia; reflexivity).
  rewrite (csum_ext nr (fun m => F (nc + (nr + m))%nat) (fun m => F (nc + nr + m)%nat))
    by (intros; f_equal; lia).
  rewrite (Part 2%nat nr (nc + nr)%nat) by (try lia; reflexivity).
  destruct sid as [|[|[|sid]]]; cbn [Nat.eqb]; [ring|ring|ring|lia].
Qed.

Section Span.
Variables (chebfit : list R -> list C -> nat -> list C) (n : nat) (R0 a : R) (nc nr : nat) (bc : R -> nat -> C)
  (b : nat -> list C).
Hypotheses (HR : 0 < R0) (Ha : 0 < a < 2 * PI) (Hc : (1 <= nc <= n)%nat) (Hr : (1 <= nr <= n)%nat)
  (HL : forall sid, (sid < 3)%nat -> length (b sid) = seg_size nc nr sid)
  (Hfit : forall sid, (sid < 3)%nat -> let ys := map (fun t => bc (eval_g R0 a sid t) sid) (get_chebyshev_roots n) in
     is_cheb_lsq (get_chebyshev_roots n) ys (seg_size nc nr sid - 1)
       (chebfit (get_chebyshev_roots n) ys (seg_size nc nr sid - 1)%nat))
  (Hbc : forall sid arg, (sid < 3)%nat -> -1 < eval_g_inv R0 a sid arg < 1 ->
     bc arg sid = cheb_expand (b sid) (eval_g_inv R0 a sid arg)).

Lemma span_c0 : calc_c0 chebfit (get_chebyshev_roots n) R0 a (snd (setup_basis nc nr)) bc = Ok (b 0%nat ++ b 1%nat ++ b 2%nat).
Proof using HR Ha Hc Hr HL Hfit Hbc.
  assert (E : forall sid, (sid < 3)%nat ->
    get_chebyshev_coef chebfit (get_chebyshev_roots n) R0 a sid (seg_size nc nr sid) (fun arg => bc arg sid) = Ok (b sid)).
  { intros sid Hs. rewrite <- (HL sid Hs). apply get_chebyshev_coef_recovers; auto.
    - rewrite HL by exact Hs. destruct sid; cbn; lia.
    - cbv zeta. rewrite HL by exact Hs. apply Hfit. exact Hs. }
  rewrite setup_basis_eq. unfold calc_c0, list_get. cbn [snd nth_error bind fst].
  pose proof (E 0%nat ltac:(lia)) as E0. pose proof (E 1%nat ltac:(lia)) as E1. pose proof (E 2%nat ltac:(lia)) as E2.
  cbn [seg_size] in E0, E1, E2. rewrite E0. cbn [bind]. rewrite E1. cbn [bind]. rewrite E2. reflexivity.
Qed.

Lemma span_function : forall sid arg, (sid < 3)%nat -> -1 < eval_g_inv R0 a sid arg < 1 ->
  seg_function (eval_g_inv R0 a sid) (fst (setup_basis nc nr)) (b 0%nat ++ b 1%nat ++ b 2%nat) sid arg = bc arg sid.
Proof using HL Hbc Hc Hr.
  intros sid arg Hs Hg. rewrite Hbc by assumption.
  rewrite seg_function_desc; [|exact Hs|apply (HL 0%nat); lia|apply (HL 1%nat); lia|apply (HL 2%nat); lia].
  destruct sid as [|[|[|sid]]]; [reflexivity..|lia].
Qed.

Lemma span_c0_test : forall m eval_r, (1 <= m)%nat -> sample_ok eval_r R0 a ->
  c0_test m eval_r bc R0 a (fst (setup_basis nc nr)) (b 0%nat ++ b 1%nat ++ b 2%nat) = Ok (0, 0).
Proof using HL Hbc Hc Hr.
  intros m eval_r Hm Hok.
  destruct (c0_test_spec m eval_r bc R0 a (fst (setup_basis nc nr)) (b 0%nat ++ b 1%nat ++ b 2%nat) Hm Hok)
    as (eo & e & E & M1 & M2).
  { rewrite !app_length, B_desc_length, !HL by lia. cbn [seg_size]. lia. }
  rewrite E. cbv zeta in M1, M2.
  assert (Z : forall p, In p (get_boundary_sample eval_r R0 a m) -> Rabs (Re (bc (bp_arg p) (bp_sid p)) -
     Re (seg_function (eval_g_inv R0 a (bp_sid p)) (fst (setup_basis nc nr)) (b 0%nat ++ b 1%nat ++ b 2%nat) (bp_sid p) (bp_arg p))) = 0).
  { intros p Hp. pose proof Hok as (HR' & Ha0 & Ha' & _). destruct (in_sample _ _ _ _ _ HR' Ha' Hp) as (Hs & _).
    rewrite span_function; [|exact Hs|apply (sample_g_inv eval_r R0 a m); assumption].
    rewrite Rminus_eq_0. apply Rabs_R0. }
  destruct M1 as [(x & [Hx _] & <-) _]. destruct M2 as [(y & Hy & <-) _]. rewrite !Z by assumption. reflexivity.
Qed.

Lemma span_c1_test : forall m eval_r, (1 <= m)%nat -> sample_ok eval_r R0 a ->
  c1_test m eval_r bc R0 a (fst (setup_basis nc nr)) (b 0%nat ++ b 1%nat ++ b 2%nat) = Ok 0.
Proof using HL Hbc Hc Hr.
  intros m eval_r Hm Hok.
  destruct (c1_test_spec m eval_r bc R0 a (fst (setup_basis nc nr)) (b 0%nat ++ b 1%nat ++ b 2%nat) Hm Hok)
    as (e & E & M2).
  { rewrite !app_length, B_desc_length, !HL by lia. cbn [seg_size]. lia. }
  rewrite E. destruct M2 as [(p & Hp & <-) _]. pose proof Hok as (HR' & Ha0 & Ha' & _).
  destruct (in_sample _ _ _ _ _ HR' Ha' Hp) as (Hs & _).
  rewrite span_function; [|exact Hs|apply (sample_g_inv eval_r R0 a m); assumption].
  rewrite Rminus_eq_0, Rabs_R0. reflexivity.
Qed.
End Span.

(** ** etype_filter and the extended sample *)

Lemma etype_filter_spec : forall c sid nodes etypes,
  match etype_filter c sid nodes etypes with
  | Ok l => l = filter (fun p => match node_etype c sid p with Ok e => existsb (etype_eqb e) etypes | Err _ => false end) nodes
  | Err _ => exists p e, In p nodes /\ node_etype c sid p = Err e
  end.
Proof.
  intros c sid nodes etypes. induction nodes as [|p nodes IH]; [reflexivity|].
  cbn [etype_filter filter]. destruct (node_etype c sid p) as [e|e] eqn:E; cbn [bind]; [|exists p, e; split; [left; reflexivity|exact E]].
  destruct (etype_filter c sid nodes etypes) as [r|e']; cbn [bind].
  - rewrite <- IH. reflexivity.
  - destruct IH as (q & e2 & H1 & H2). exists q, e2. split; [right; exact H1|exact H2].
Qed.

Lemma in_extensions : forall eval_r R0 a n p, 0 < a ->
  (In p (fst (get_boundary_extensions eval_r R0 a n)) ->
     bp_sid p = 0%nat /\ (bp_x p, bp_y p) = seg_point eval_r a 0 (bp_arg p) /\ 2 * PI <= bp_arg p <= 2 * PI + a / 4) /\
  (In p (snd (get_boundary_extensions eval_r R0 a n)) ->
     bp_sid p = 0%nat /\ (bp_x p, bp_y p) = seg_point eval_r a 0 (bp_arg p) /\ 3 * a / 4 <= bp_arg p <= a).
Proof.
  intros eval_r R0 a n p Ha. unfold get_boundary_extensions, sample_by_sid. cbn [fst snd].
  split; intros H; apply in_map_iff in H; destruct H as (t & <- & Ht); cbn [bp_sid bp_x bp_y bp_arg];
  (split; [reflexivity|split; [reflexivity|]]); apply linspace_range in Ht; lra.
Qed.

(** ** The tolerance of get_sid and the sample *)

Lemma get_sid_one_sided : forall a th, a < th < 2 * PI -> get_sid a th = Some 0%nat.
Proof.
  intros a th H. unfold get_sid. destruct (Rleb_spec (2 * PI) th); [lra|]. destruct (Rltb_spec a th); [reflexivity|lra].
Qed.

(** ** An instance *)

Definition ex_fit (ts : list R) (ys : list C) (deg : nat) : list C :=
  match deg with 2%nat => [RtoC 1; RtoC 2; RtoC 5] | _ => [RtoC 1; RtoC 3] end.
Definition ex_coef (sid : nat) : list C :=
  match sid with 0%nat => [RtoC 1; RtoC 2; RtoC 5] | _ => [RtoC 1; RtoC 3] end.
Definition ex_bc (R0 a : R) (arg : R) (sid : nat) : C := cheb_expand (ex_coef sid) (eval_g_inv R0 a sid arg).

Lemma ex_fit_lsq : forall n R0 a sid, 0 < R0 -> 0 < a < 2 * PI -> (sid < 3)%nat ->
  let ys := map (fun t => ex_bc R0 a (eval_g R0 a sid t) sid) (get_chebyshev_roots n) in
  is_cheb_lsq (get_chebyshev_roots n) ys (seg_size 3 2 sid - 1)
    (ex_fit (get_chebyshev_roots n) ys (seg_size 3 2 sid - 1)).
Proof.
  intros n R0 a sid HR Ha Hs ys. subst ys. unfold ex_bc.
  rewrite (map_ext_in _ (cheb_expand (ex_coef sid))).
  - replace (ex_fit _ _ _) with (ex_coef sid) by (destruct sid; reflexivity).
    replace (seg_size 3 2 sid - 1)%nat with (length (ex_coef sid) - 1)%nat by (destruct sid; reflexivity).
    apply exact_data_is_lsq. destruct sid; cbn; lia.
  - intros t _. rewrite g_inv_g by (try assumption; lra). reflexivity.
Qed.

(** The tests look at real parts only. *)
Lemma c0_test_real_only : forall n eval_r R0 a B c0, (1 <= n)%nat -> sample_ok eval_r R0 a -> length c0 = length B ->
  (forall x, In x c0 -> x = RtoC 0) -> c0_test n eval_r (fun _ _ => Ci) R0 a B c0 = Ok (0, 0).
Proof.
  intros n eval_r R0 a B c0 Hn Hok HL H0.
  destruct (c0_test_spec n eval_r (fun _ _ => Ci) R0 a B c0 Hn Hok HL) as (eo & e & E & M1 & M2). rewrite E.
  assert (Z : forall sid arg, seg_function (eval_g_inv R0 a sid) B c0 sid arg = RtoC 0).
  { intros sid arg. unfold seg_function. rewrite (csum_ext _ _ (fun _ => RtoC 0)); [apply csum_zero|].
    intros m Hm. destruct (nth_error B m) as [[s J]|]; [|reflexivity]. destruct (Nat.eqb s sid); [|reflexivity].
    rewrite (H0 (nth m c0 (RtoC 0))) by (apply nth_In; rewrite HL; exact Hm). ring. }
  destruct M1 as [(x & _ & <-) _]. destruct M2 as [(y & _ & <-) _]. rewrite !Z. cbn. rewrite Rminus_eq_0, Rabs_R0. reflexivity.
Qed.

Lemma c0_test_imaginary : exists bc c0,
  c0_test 100 (fun _ => 23 / 10) bc (23 / 10) (PI / 4) (fst (setup_basis 3 2)) c0 = Ok (0, 0) /\
  forall arg sid, Cmod (Cminus (bc arg sid)
    (seg_function (eval_g_inv (23 / 10) (PI / 4) sid) (fst (setup_basis 3 2)) c0 sid arg)) = 1.
Proof.
  exists (fun _ _ => Ci), (repeat (RtoC 0) 7). split.
  - apply c0_test_real_only; [lia| |reflexivity|intros x Hx; exact (repeat_spec _ _ _ Hx)].
    pose proof PI_RGT_0. pose proof PI2_3_2. repeat split; intros; lra.
  - intros arg sid.
    replace (seg_function _ _ _ _ _) with (RtoC 0).
    + replace (Cminus Ci (RtoC 0)) with Ci by ring. unfold Cmod, Ci. cbn [fst snd].
      replace (0 ^ 2 + 1 ^ 2) with 1 by ring. apply sqrt_1.
    + symmetry. unfold seg_function. rewrite (csum_ext _ _ (fun _ => RtoC 0)); [apply csum_zero|].
      intros m _. destruct (nth_error _ m) as [[s J]|]; [|reflexivity]. destruct (Nat.eqb s sid); [|reflexivity].
      rewrite nth_repeat. ring.
Qed.

Lemma tolerance_one_sided : exists a th, 0 < a < 2 * PI /\ Rabs (th - a) < / 10 ^ 12 /\ get_sid a th = Some 0%nat.
Proof.
  exists (PI / 4), (PI / 4 + / (2 * 10 ^ 12)). pose proof PI2_3_2. pose proof PI_4.
  assert (E : 0 < / (2 * 10 ^ 12) < / 10 ^ 12) by (split; [apply Rinv_0_lt_compat; lra|apply Rinv_lt_contravar; lra]).
  assert (F : / 10 ^ 12 < 1) by (rewrite <- Rinv_1; apply Rinv_lt_contravar; lra).
  split; [lra|]. split.
  - replace (PI / 4 + / (2 * 10 ^ 12) - PI / 4) with (/ (2 * 10 ^ 12)) by ring. rewrite Rabs_pos_eq; lra.
  - apply get_sid_one_sided. lra.
Qed.

Lemma span_theorem : forall chebfit n R0 a nc nr bc b m eval_r,
  0 < R0 -> 0 < a < 2 * PI -> (1 <= nc <= n)%nat -> (1 <= nr <= n)%nat ->
  (forall sid, (sid < 3)%nat -> length (b sid) = seg_size nc nr sid) ->
  (forall sid, (sid < 3)%nat -> let ys := map (fun t => bc (eval_g R0 a sid t) sid) (get_chebyshev_roots n) in
     is_cheb_lsq (get_chebyshev_roots n) ys (seg_size nc nr sid - 1)
       (chebfit (get_chebyshev_roots n) ys (seg_size nc nr sid - 1)%nat)) ->
  (forall sid arg, (sid < 3)%nat -> -1 < eval_g_inv R0 a sid arg < 1 ->
     bc arg sid = cheb_expand (b sid) (eval_g_inv R0 a sid arg)) ->
  (1 <= m)%nat -> sample_ok eval_r R0 a ->
  exists c0, calc_c0 chebfit (get_chebyshev_roots n) R0 a (snd (setup_basis nc nr)) bc = Ok c0 /\
    c0_test m eval_r bc R0 a (fst (setup_basis nc nr)) c0 = Ok (0, 0).
Proof.
  intros chebfit n R0 a nc nr bc b m eval_r HR Ha Hc Hr HL Hfit Hbc Hm Hok. exists (b 0%nat ++ b 1%nat ++ b 2%nat). split.
  - eapply span_c0; eassumption.
  - eapply span_c0_test; eassumption.
Qed.

Lemma span_c1_theorem : forall chebfit n R0 a nc nr du b m eval_r,
  0 < R0 -> 0 < a < 2 * PI -> (1 <= nc <= n)%nat -> (1 <= nr <= n)%nat ->
  (forall sid, (sid < 3)%nat -> length (b sid) = seg_size nc nr sid) ->
  (forall sid, (sid < 3)%nat -> let ys := map (fun t => du (eval_g R0 a sid t) sid) (get_chebyshev_roots n) in
     is_cheb_lsq (get_chebyshev_roots n) ys (seg_size nc nr sid - 1)
       (chebfit (get_chebyshev_roots n) ys (seg_size nc nr sid - 1)%nat)) ->
  (forall sid arg, (sid < 3)%nat -> -1 < eval_g_inv R0 a sid arg < 1 ->
     du arg sid = cheb_expand (b sid) (eval_g_inv R0 a sid arg)) ->
  (1 <= m)%nat -> sample_ok eval_r R0 a ->
  exists c1, calc_c1_exact chebfit (get_chebyshev_roots n) R0 a (snd (setup_basis nc nr)) du = Ok c1 /\
    c1_test m eval_r du R0 a (fst (setup_basis nc nr)) c1 = Ok 0.
Proof.
  intros chebfit n R0 a nc nr bc b m eval_r HR Ha Hc Hr HL Hfit Hbc Hm Hok. exists (b 0%nat ++ b 1%nat ++ b 2%nat). split.
  - rewrite calc_c1_exact_eq. eapply span_c0; eassumption.
  - eapply span_c1_test; eassumption.
Qed.
