(** Basis descriptors, coefficient alignment, roots and fits. *)
From Coq Require Import ZArith List Bool Reals Lia Lra Sorted.
From Coquelicot Require Import Coquelicot.
From Verif Require Import Model_Py Model_Fourier Lib_Csum Model_Chebyshev Spec_Chebyshev Proof_Chebyshev Proof_Fourier.
Import ListNotations.
Open Scope R_scope.

(** ** Recurrence and derivatives *)

Lemma eval_T_0 : forall t, eval_T 0 t = 1.
Proof. intros t. unfold eval_T. simpl. rewrite Rmult_0_l. apply cos_0. Qed.

Lemma eval_T_1 : forall t, -1 <= t <= 1 -> eval_T 1 t = t.
Proof. intros t H. unfold eval_T. simpl. rewrite Rmult_1_l. apply cos_acos. assumption. Qed.

Lemma eval_T_rec : forall J t, -1 <= t <= 1 ->
  eval_T (S (S J)) t = 2 * t * eval_T (S J) t - eval_T J t.
Proof.
  intros J t H. unfold eval_T. rewrite !S_INR.
  set (th := acos t). assert (Ht : cos th = t) by (apply cos_acos; assumption).
  rewrite <- Ht at 1.
  replace ((INR J + 1 + 1) * th) with ((INR J + 1) * th + th) by ring.
  replace (INR J * th) with ((INR J + 1) * th - th) by ring.
  rewrite cos_plus, cos_minus. ring.
Qed.

Lemma chebT_pair_eval : forall J t, -1 <= t <= 1 ->
  chebT_pair J t = (eval_T J t, eval_T (S J) t).
Proof.
  induction J as [|J IH]; intros t H.
  - simpl chebT_pair. rewrite eval_T_0, eval_T_1 by assumption. reflexivity.
  - cbn [chebT_pair]. rewrite IH by assumption. rewrite (eval_T_rec J) by assumption. reflexivity.
Qed.

Lemma eval_T_chebT : forall J t, -1 <= t <= 1 -> eval_T J t = chebT J t.
Proof. intros J t H. unfold chebT. rewrite chebT_pair_eval by assumption. reflexivity. Qed.

Definition dnT (n J : nat) (t : R) : R :=
  match n with
  | 0%nat => eval_T J t | 1%nat => eval_d_T_t J t | 2%nat => eval_d2_T_t J t
  | 3%nat => eval_d3_T_t J t | 4%nat => eval_d4_T_t J t | _ => eval_d5_T_t J t
  end.

Lemma eval_dn_dnT : forall n J t, (n <= 5)%nat -> eval_dn_T_t n J t = Ok (dnT n J t).
Proof. intros n J t H. do 6 (destruct n as [|n]; [reflexivity|]). lia. Qed.

Lemma dnT_derive : forall n J t, (n < 5)%nat -> -1 < t < 1 ->
  is_derive (dnT n J) t (dnT (S n) J t).
Proof.
  intros n J t Hn H. destruct (forms J t H) as (E0 & E1 & E2 & E3 & E4 & E5).
  destruct n as [|[|[|[|[|n]]]]]; [| | | | |lia]; cbn [dnT].
  - apply T_derive. assumption.
  - rewrite E2. eapply derive_transfer; [exact H| |apply d1_derive; exact H].
    intros u Hu. apply (forms J u Hu).
  - rewrite E3. eapply derive_transfer; [exact H| |apply d2_derive; exact H].
    intros u Hu. apply (forms J u Hu).
  - rewrite E4. eapply derive_transfer; [exact H| |apply d3_derive; exact H].
    intros u Hu. apply (forms J u Hu).
  - rewrite E5. eapply derive_transfer; [exact H| |apply d4_derive; exact H].
    intros u Hu. apply (forms J u Hu).
Qed.

Lemma Derive_n_chebT : forall n J t, (n <= 5)%nat -> -1 < t < 1 ->
  Derive_n (chebT J) n t = dnT n J t.
Proof.
  induction n as [|n IH]; intros J t Hn H.
  - simpl. symmetry. apply eval_T_chebT. lra.
  - simpl. rewrite (Derive_ext_loc _ (dnT n J)).
    + apply is_derive_unique. apply dnT_derive; [lia|assumption].
    + eapply filter_imp; [|apply interval_locally; exact H]. intros u Hu. apply IH; [lia|assumption].
Qed.

Lemma ex_derive_n_chebT : forall n J t, (n <= 5)%nat -> -1 < t < 1 ->
  ex_derive_n (chebT J) n t.
Proof.
  intros [|n] J t Hn H; [exact I|]. simpl.
  apply ex_derive_ext_loc with (dnT n J).
  - eapply filter_imp; [|apply interval_locally; exact H]. intros u Hu. symmetry.
    apply Derive_n_chebT; [lia|assumption].
  - eexists. apply dnT_derive; [lia|assumption].
Qed.

Lemma eval_dn_T_t_spec : forall n J t, (n <= 5)%nat -> -1 < t < 1 ->
  eval_dn_T_t n J t = Ok (Derive_n (chebT J) n t) /\ ex_derive_n (chebT J) n t.
Proof.
  intros n J t Hn H. split.
  - rewrite Derive_n_chebT, eval_dn_dnT by assumption. reflexivity.
  - apply ex_derive_n_chebT; assumption.
Qed.

Lemma eval_dn_T_t_error : forall n J t, (5 < n)%nat -> eval_dn_T_t n J t = Err IndexError.
Proof. intros n J t H. do 6 (destruct n as [|n]; [lia|]). reflexivity. Qed.

(** ** Roots *)

Definition root_angle (J l : nat) : R := PI / 2 * (2 * INR l - 1) / INR J.

Lemma root_angle_bound : forall J l, (1 <= l <= J)%nat -> 0 < root_angle J l < PI.
Proof.
  intros J l [H1 H2]. assert (HJ : 0 < INR J) by (apply lt_0_INR; lia).
  pose proof PI_RGT_0. apply le_INR in H1, H2. simpl in H1. unfold root_angle. split.
  - apply Rdiv_lt_0_compat; [|assumption]. apply Rmult_lt_0_compat; lra.
  - apply Rmult_lt_reg_r with (INR J); [assumption|].
    replace (PI / 2 * (2 * INR l - 1) / INR J * INR J) with (PI * INR l - PI / 2) by (field; lra).
    assert (PI * INR l <= PI * INR J) by (apply Rmult_le_compat_l; lra). lra.
Qed.

Lemma root_angle_lt : forall J l l', (0 < J)%nat -> (l < l')%nat -> root_angle J l < root_angle J l'.
Proof.
  intros J l l' HJ H. unfold root_angle. apply lt_0_INR in HJ. apply lt_INR in H. pose proof PI_RGT_0.
  apply Rmult_lt_compat_r; [apply Rinv_0_lt_compat; assumption|].
  apply Rmult_lt_compat_l; lra.
Qed.

Lemma roots_length : forall J, length (get_chebyshev_roots J) = J.
Proof. intros J. unfold get_chebyshev_roots. rewrite map_length, rev_length, seq_length. reflexivity. Qed.

Lemma roots_In : forall J t, In t (get_chebyshev_roots J) <->
  exists l, (1 <= l <= J)%nat /\ t = cos (root_angle J l).
Proof.
  intros J t. unfold get_chebyshev_roots. rewrite in_map_iff. split.
  - intros (l & <- & Hl). apply in_rev in Hl. apply in_seq in Hl. exists l. split; [lia|reflexivity].
  - intros (l & Hl & ->). exists l. split; [reflexivity|]. rewrite <- in_rev. apply in_seq. lia.
Qed.

Lemma roots_are_roots : forall J t, (1 <= J)%nat -> -1 <= t <= 1 ->
  (In t (get_chebyshev_roots J) <-> eval_T J t = 0).
Proof.
  intros J t HJ Ht. rewrite roots_In. assert (HJ' : 0 < INR J) by (apply lt_0_INR; lia).
  pose proof PI_RGT_0 as HPI. split.
  - intros (l & Hl & ->). unfold eval_T. rewrite acos_cos by (pose proof (root_angle_bound J l Hl); lra).
    unfold root_angle. replace (INR J * (PI / 2 * (2 * INR l - 1) / INR J)) with (INR l * PI - PI / 2)
      by (field; lra).
    rewrite cos_minus, cos_PI2, sin_PI2, sin_INR_PI. ring.
  - intros H. unfold eval_T in H. apply cos_eq_0_0 in H. destruct H as [k Hk].
    pose proof (acos_bound t) as [B1 B2].
    assert (Hk0 : (0 <= k)%Z).
    { apply Z.nlt_ge. intros Hk'. assert (k <= -1)%Z as Hk'' by lia. apply IZR_le in Hk''.
      assert (0 <= INR J * acos t) by (apply Rmult_le_pos; lra).
      assert (IZR k * PI <= -1 * PI) by (apply Rmult_le_compat_r; lra). lra. }
    assert (HkJ : (k < Z.of_nat J)%Z).
    { apply Z.nle_gt. intros Hk'. apply IZR_le in Hk'. rewrite <- INR_IZR_INZ in Hk'.
      assert (INR J * acos t <= INR J * PI) by (apply Rmult_le_compat_l; lra).
      assert (INR J * PI <= IZR k * PI) by (apply Rmult_le_compat_r; lra). lra. }
    exists (S (Z.to_nat k)). split; [lia|].
    rewrite <- (cos_acos t) by assumption. f_equal.
    unfold root_angle. rewrite S_INR, INR_IZR_INZ, Z2Nat.id by assumption.
    apply Rmult_eq_reg_l with (INR J); [|lra]. rewrite Hk. field. lra.
Qed.

Lemma roots_interior : forall J t, In t (get_chebyshev_roots J) -> -1 < t < 1.
Proof.
  intros J t H. apply roots_In in H. destruct H as (l & Hl & ->).
  pose proof (root_angle_bound J l Hl) as [B1 B2]. split.
  - rewrite <- cos_PI. apply cos_decreasing_1; lra.
  - rewrite <- cos_0. apply cos_decreasing_1; lra.
Qed.

Lemma map_StronglySorted : forall (A : Type) (f : A -> R) (P : A -> A -> Prop) l,
  (forall x y, In x l -> In y l -> P x y -> f x < f y) ->
  StronglySorted P l -> StronglySorted Rlt (map f l).
Proof.
  intros A f P l. induction l as [|x l IH]; intros Hf Hs; [constructor|].
  inversion Hs; subst. constructor.
  - apply IH; [|assumption]. intros; apply Hf; try (right; assumption); assumption.
  - rewrite Forall_forall in *. intros y Hy. apply in_map_iff in Hy. destruct Hy as (z & <- & Hz).
    apply Hf; [left; reflexivity|right; assumption|auto].
Qed.

Lemma rev_seq_sorted : forall n s, StronglySorted (fun x y => (y < x)%nat) (rev (seq s n)).
Proof.
  induction n as [|n IH]; intros s; [constructor|].
  rewrite seq_S, rev_app_distr. simpl. constructor; [apply IH|].
  apply Forall_forall. intros y Hy. apply in_rev in Hy. apply in_seq in Hy. lia.
Qed.

Lemma roots_sorted : forall J, StronglySorted Rlt (get_chebyshev_roots J).
Proof.
  intros J. unfold get_chebyshev_roots.
  apply map_StronglySorted with (P := fun x y => (y < x)%nat); [|apply rev_seq_sorted].
  intros x y Hx Hy Hlt. apply in_rev in Hx, Hy. apply in_seq in Hx, Hy.
  fold (root_angle J x) (root_angle J y).
  pose proof (root_angle_bound J x ltac:(lia)). pose proof (root_angle_bound J y ltac:(lia)).
  apply cos_decreasing_1; try lra. apply root_angle_lt; lia.
Qed.

(** ** Descriptors *)

Lemma segment_loop_eq : forall n sid J JJ,
  segment_loop sid J n JJ = (map (fun i => (sid, i)) (seq J n), seq JJ n).
Proof.
  induction n as [|n IH]; intros sid J JJ; [reflexivity|].
  cbn [segment_loop]. rewrite IH. reflexivity.
Qed.

Lemma setup_basis_eq : forall nc nr, setup_basis nc nr =
  (map (fun i => (0%nat, i)) (seq 0 nc) ++ map (fun i => (1%nat, i)) (seq 0 nr)
     ++ map (fun i => (2%nat, i)) (seq 0 nr),
   [(nc, seq 0 nc); (nr, seq nc nr); (nr, seq (nc + nr) nr)]).
Proof.
  intros nc nr. unfold setup_basis. cbn [setup_loop]. rewrite !segment_loop_eq.
  rewrite app_nil_r. simpl Nat.add. reflexivity.
Qed.

Definition basis_index (nc nr sid J : nat) : nat :=
  match sid with 0 => J | 1 => nc + J | _ => nc + nr + J end%nat.

Lemma nth_error_map_seq : forall (A : Type) (f : nat -> A) n i,
  nth_error (map f (seq 0 n)) i = if Nat.ltb i n then Some (f i) else None.
Proof.
  intros A f n i. destruct (Nat.ltb_spec i n) as [H|H].
  - rewrite nth_error_map. rewrite (nth_error_nth' (seq 0 n) 0%nat) by (rewrite seq_length; assumption).
    rewrite seq_nth by assumption. reflexivity.
  - apply nth_error_None. rewrite map_length, seq_length. assumption.
Qed.

Lemma B_desc_nth : forall nc nr JJ sid J,
  nth_error (fst (setup_basis nc nr)) JJ = Some (sid, J) <->
  (sid < 3)%nat /\ (J < seg_size nc nr sid)%nat /\ JJ = basis_index nc nr sid J.
Proof.
  intros nc nr JJ sid J. rewrite setup_basis_eq. cbn [fst].
  assert (L0 : length (map (fun i => (0%nat, i)) (seq 0 nc)) = nc) by (rewrite map_length, seq_length; reflexivity).
  assert (L1 : length (map (fun i => (1%nat, i)) (seq 0 nr)) = nr) by (rewrite map_length, seq_length; reflexivity).
  destruct (Nat.lt_ge_cases JJ nc) as [H|H].
  - rewrite nth_error_app1 by lia. rewrite nth_error_map_seq.
    destruct (Nat.ltb_spec JJ nc); [|lia]. split.
    + intros E. injection E as <- <-. repeat split; cbn; lia.
    + intros (Hs & HJ & E). destruct sid as [|[|[|sid]]]; cbn in *; try lia. subst. reflexivity.
  - rewrite nth_error_app2 by lia. rewrite L0.
    destruct (Nat.lt_ge_cases (JJ - nc) nr) as [H'|H'].
    + rewrite nth_error_app1 by lia. rewrite nth_error_map_seq.
      destruct (Nat.ltb_spec (JJ - nc) nr); [|lia]. split.
      * intros E. injection E as <- <-. repeat split; cbn; lia.
      * intros (Hs & HJ & E). destruct sid as [|[|[|sid]]]; cbn in *; try lia.
        do 2 f_equal. lia.
    + rewrite nth_error_app2 by lia. rewrite L1, nth_error_map_seq.
      destruct (Nat.ltb_spec (JJ - nc - nr) nr) as [H2|H2]; split.
      * intros E. injection E as <- <-. repeat split; cbn; lia.
      * intros (Hs & HJ & E). destruct sid as [|[|[|sid]]]; cbn in *; try lia.
        do 2 f_equal. lia.
      * discriminate.
      * intros (Hs & HJ & E). destruct sid as [|[|[|sid]]]; cbn in *; lia.
Qed.

Lemma B_desc_length : forall nc nr, length (fst (setup_basis nc nr)) = (nc + 2 * nr)%nat.
Proof. intros. rewrite setup_basis_eq. cbn [fst]. rewrite !app_length, !map_length, !seq_length. lia. Qed.

Lemma segment_desc_nth : forall nc nr sid, (sid < 3)%nat ->
  nth_error (snd (setup_basis nc nr)) sid =
  Some (seg_size nc nr sid, map (basis_index nc nr sid) (seq 0 (seg_size nc nr sid))).
Proof.
  intros nc nr sid H. rewrite setup_basis_eq. cbn [snd].
  assert (M' : forall k n s, map (fun J => k + J)%nat (seq s n) = seq (k + s) n).
  { intros k n. induction n as [|n IH]; intros s; [reflexivity|].
    simpl. f_equal. rewrite IH. f_equal. lia. }
  assert (M : forall k n, map (fun J => k + J)%nat (seq 0 n) = seq k n).
  { intros k n. rewrite M'. f_equal. lia. }
  destruct sid as [|[|[|sid]]]; cbn; try lia.
  - f_equal. f_equal. symmetry. erewrite map_ext; [apply map_id|reflexivity].
  - do 2 f_equal. symmetry. apply M.
  - do 2 f_equal. symmetry. apply M.
Qed.

Lemma segment_desc_length : forall nc nr, length (snd (setup_basis nc nr)) = 3%nat.
Proof. intros. rewrite setup_basis_eq. reflexivity. Qed.

(** JJ_list: exactly the segment's indices in increasing degree. *)
Lemma JJ_list_spec : forall nc nr sid n jjs, 
  nth_error (snd (setup_basis nc nr)) sid = Some (n, jjs) ->
  n = seg_size nc nr sid /\ length jjs = n /\
  (forall J JJ, nth_error jjs J = Some JJ <-> nth_error (fst (setup_basis nc nr)) JJ = Some (sid, J)).
Proof.
  intros nc nr sid n jjs H.
  assert (Hs : (sid < 3)%nat).
  { rewrite <- (segment_desc_length nc nr). apply nth_error_Some. congruence. }
  rewrite segment_desc_nth in H by assumption. injection H as <- <-.
  split; [reflexivity|]. split; [rewrite map_length, seq_length; reflexivity|].
  intros J JJ. rewrite nth_error_map_seq, B_desc_nth.
  destruct (Nat.ltb_spec J (seg_size nc nr sid)) as [HJ|HJ]; split.
  - intros E. injection E as <-. auto.
  - intros (_ & _ & ->). reflexivity.
  - discriminate.
  - intros (_ & HJ' & _). lia.
Qed.

(** ** Arguments of the basis functions *)

Lemma span_nonzero : forall R0 a sid, 0 < R0 -> 0 < a < 2 * PI -> (sid < 3)%nat ->
  fst (get_span_center R0 a sid) <> 0.
Proof.
  intros R0 a sid HR Ha Hs. unfold get_span_center, basis_eps.
  destruct sid as [|[|[|sid]]]; cbn [fst]; try lra. lia.
Qed.

Lemma g_inv_g : forall R0 a sid t, 0 < R0 -> 0 < a < 2 * PI -> (sid < 3)%nat ->
  eval_g_inv R0 a sid (eval_g R0 a sid t) = t.
Proof.
  intros R0 a sid t HR Ha Hs. pose proof (span_nonzero R0 a sid HR Ha Hs) as H.
  unfold eval_g_inv, eval_g. destruct (get_span_center R0 a sid) as [sp ce]. cbn [fst] in H.
  field. assumption.
Qed.

Lemma g_g_inv : forall R0 a sid arg, 0 < R0 -> 0 < a < 2 * PI -> (sid < 3)%nat ->
  eval_g R0 a sid (eval_g_inv R0 a sid arg) = arg.
Proof.
  intros R0 a sid t HR Ha Hs. pose proof (span_nonzero R0 a sid HR Ha Hs) as H.
  unfold eval_g_inv, eval_g. destruct (get_span_center R0 a sid) as [sp ce]. cbn [fst] in H.
  field. assumption.
Qed.

Lemma Rabs_div_lt : forall x s, 0 < s -> - s < x < s -> -1 < x / s < 1.
Proof.
  intros x s Hs [H1 H2]. split.
  - apply Rmult_lt_reg_r with s; [assumption|]. replace (x / s * s) with x by (field; lra). lra.
  - apply Rmult_lt_reg_r with s; [assumption|]. replace (x / s * s) with x by (field; lra). lra.
Qed.

Lemma seg_range_g_inv : forall R0 a sid arg, 0 < R0 -> 0 < a < 2 * PI -> (sid < 3)%nat ->
  seg_range R0 a sid arg -> -1 < eval_g_inv R0 a sid arg < 1.
Proof.
  intros R0 a sid arg HR Ha Hs H.
  destruct sid as [|[|[|sid]]]; [| | |lia]; unfold eval_g_inv, get_span_center, seg_range, basis_eps in *.
  - apply Rabs_div_lt; lra.
  - replace ((arg - R0 / 2) / - (R0 / 2 + 1 / 1000)) with ((- (arg - R0 / 2)) / (R0 / 2 + 1 / 1000))
      by (field; lra).
    apply Rabs_div_lt; lra.
  - apply Rabs_div_lt; lra.
Qed.

(** ** C18 *)

Lemma d_g_inv_derive : forall R0 a sid arg,
  is_derive (eval_g_inv R0 a sid) arg (eval_d_g_inv_arg R0 a sid).
Proof.
  intros R0 a sid arg. unfold eval_g_inv, eval_d_g_inv_arg.
  destruct (get_span_center R0 a sid) as [sp ce].
  auto_derive; [exact I|]. unfold Rdiv. ring.
Qed.

Definition dnB (R0 a : R) (sid n J : nat) (arg : R) : R :=
  eval_d_g_inv_arg R0 a sid ^ n * dnT n J (eval_g_inv R0 a sid arg).

Lemma eval_dn_B_same : forall R0 a B n JJ arg sid J, nth_error B JJ = Some (sid, J) -> (n <= 5)%nat ->
  eval_dn_B_arg R0 a B n JJ arg sid = Ok (dnB R0 a sid n J arg).
Proof.
  intros R0 a B n JJ arg sid J H Hn. unfold eval_dn_B_arg, list_get. rewrite H. cbn [bind fst snd].
  rewrite Nat.eqb_refl, eval_dn_dnT by assumption. reflexivity.
Qed.

Lemma eval_dn_B_other : forall R0 a B n JJ arg sid sid' J, nth_error B JJ = Some (sid', J) -> sid' <> sid ->
  eval_dn_B_arg R0 a B n JJ arg sid = Ok 0.
Proof.
  intros R0 a B n JJ arg sid sid' J H Hn. unfold eval_dn_B_arg, list_get. rewrite H. cbn [bind fst snd].
  apply Nat.eqb_neq in Hn. rewrite Hn. reflexivity.
Qed.

Lemma dnB_derive : forall R0 a sid n J arg, (n < 5)%nat -> -1 < eval_g_inv R0 a sid arg < 1 ->
  is_derive (dnB R0 a sid n J) arg (dnB R0 a sid (S n) J arg).
Proof.
  intros R0 a sid n J arg Hn H. unfold dnB.
  evar_last.
  - apply is_derive_scal. apply (is_derive_comp (dnT n J) (eval_g_inv R0 a sid)).
    + apply dnT_derive; [assumption|exact H].
    + apply d_g_inv_derive.
  - unfold scal; simpl; unfold mult; simpl. ring.
Qed.

Lemma dnB_0 : forall R0 a sid J arg, -1 <= eval_g_inv R0 a sid arg <= 1 ->
  dnB R0 a sid 0 J arg = chebT J (eval_g_inv R0 a sid arg).
Proof.
  intros. unfold dnB. cbn [pow dnT]. rewrite Rmult_1_l. apply eval_T_chebT. assumption.
Qed.

Lemma g_inv_locally : forall R0 a sid arg, -1 < eval_g_inv R0 a sid arg < 1 ->
  locally arg (fun x => -1 < eval_g_inv R0 a sid x < 1).
Proof.
  intros R0 a sid arg H.
  assert (Cn : continuous (eval_g_inv R0 a sid) arg).
  { apply (ex_derive_continuous (V := R_NormedModule)). eexists. apply d_g_inv_derive. }
  exact (Cn (fun u => -1 < u < 1) (interval_locally _ H)).
Qed.

Lemma Derive_n_basis : forall R0 a sid n J arg, (n <= 5)%nat -> -1 < eval_g_inv R0 a sid arg < 1 ->
  Derive_n (fun x => chebT J (eval_g_inv R0 a sid x)) n arg = dnB R0 a sid n J arg.
Proof.
  intros R0 a sid n. induction n as [|n IH]; intros J arg Hn H.
  - simpl. symmetry. apply dnB_0. lra.
  - simpl. rewrite (Derive_ext_loc _ (dnB R0 a sid n J)).
    + apply is_derive_unique. apply dnB_derive; [lia|assumption].
    + eapply filter_imp; [|apply g_inv_locally; exact H]. intros u Hu. apply IH; [lia|assumption].
Qed.

Lemma eval_dn_B_spec : forall R0 a B n JJ arg sid J, nth_error B JJ = Some (sid, J) -> (n <= 5)%nat ->
  -1 < eval_g_inv R0 a sid arg < 1 ->
  eval_dn_B_arg R0 a B n JJ arg sid =
    Ok (Derive_n (fun x => chebT J (eval_g_inv R0 a sid x)) n arg).
Proof.
  intros. erewrite eval_dn_B_same by eassumption. rewrite Derive_n_basis by assumption. reflexivity.
Qed.

(** ** C14: alignment of the coefficients *)

Lemma list_get_nth : forall (A : Type) (l : list A) i x, nth_error l i = Some x -> list_get l i = Ok x.
Proof. intros A l i x H. unfold list_get. rewrite H. reflexivity. Qed.

Definition seg_fit (chebfit : list R -> list C -> nat -> list C) nodes R0 a nc nr
    (eval_bc : R -> nat -> C) (sid : nat) : list C :=
  chebfit nodes (map (fun t => eval_bc (eval_g R0 a sid t) sid) nodes) (seg_size nc nr sid - 1)%nat.

Lemma calc_c0_eq : forall chebfit nodes R0 a nc nr eval_bc, (0 < nc)%nat -> (0 < nr)%nat ->
  calc_c0 chebfit nodes R0 a (snd (setup_basis nc nr)) eval_bc =
  Ok (seg_fit chebfit nodes R0 a nc nr eval_bc 0 ++ seg_fit chebfit nodes R0 a nc nr eval_bc 1
      ++ seg_fit chebfit nodes R0 a nc nr eval_bc 2).
Proof.
  intros chebfit nodes R0 a nc nr eval_bc Hc Hr. rewrite setup_basis_eq. cbn [snd].
  unfold calc_c0, list_get. cbn [nth_error bind fst].
  destruct nc as [|nc]; [lia|]. destruct nr as [|nr]; [lia|].
  unfold get_chebyshev_coef. cbn [bind]. unfold seg_fit. cbn [seg_size].
  rewrite !Nat.sub_succ, !Nat.sub_0_r. reflexivity.
Qed.

Lemma calc_c0_error : forall chebfit nodes R0 a nc nr eval_bc, nc = 0%nat \/ nr = 0%nat ->
  calc_c0 chebfit nodes R0 a (snd (setup_basis nc nr)) eval_bc = Err ValueError.
Proof.
  intros chebfit nodes R0 a nc nr eval_bc H. rewrite setup_basis_eq. cbn [snd].
  unfold calc_c0, list_get. cbn [nth_error bind fst]. unfold get_chebyshev_coef.
  destruct nc as [|nc]; [reflexivity|]. destruct H as [H|H]; [discriminate|]. subst. reflexivity.
Qed.

Lemma calc_c0_nth : forall chebfit nodes R0 a nc nr eval_bc c0,
  (forall ts ys deg, length (chebfit ts ys deg) = S deg) ->
  calc_c0 chebfit nodes R0 a (snd (setup_basis nc nr)) eval_bc = Ok c0 ->
  length c0 = length (fst (setup_basis nc nr)) /\
  forall JJ sid J, nth_error (fst (setup_basis nc nr)) JJ = Some (sid, J) ->
    nth_error c0 JJ = nth_error (seg_fit chebfit nodes R0 a nc nr eval_bc sid) J.
Proof.
  intros chebfit nodes R0 a nc nr eval_bc c0 Hl H.
  destruct (Nat.eq_dec nc 0) as [E|Hc]; [rewrite calc_c0_error in H by auto; discriminate|].
  destruct (Nat.eq_dec nr 0) as [E|Hr]; [rewrite calc_c0_error in H by auto; discriminate|].
  rewrite calc_c0_eq in H by lia. injection H as <-.
  assert (L : forall sid, length (seg_fit chebfit nodes R0 a nc nr eval_bc sid) = seg_size nc nr sid).
  { intros sid. unfold seg_fit. rewrite Hl. destruct sid; cbn; lia. }
  split.
  - rewrite !app_length, !L, B_desc_length. cbn. lia.
  - intros JJ sid J HB. apply B_desc_nth in HB. destruct HB as (Hs & HJ & ->).
    pose proof (L 0%nat) as L0. pose proof (L 1%nat) as L1. pose proof (L 2%nat) as L2.
    cbn [seg_size] in L0, L1, L2.
    destruct sid as [|[|[|sid]]]; [| | |lia]; cbn [basis_index seg_size] in *.
    + rewrite nth_error_app1 by lia. reflexivity.
    + rewrite nth_error_app2 by lia. rewrite nth_error_app1 by lia. f_equal. lia.
    + rewrite nth_error_app2 by lia. rewrite nth_error_app2 by lia. f_equal. lia.
Qed.

(** ** Expansions as sums *)

Lemma cheb_expand_from_csum : forall c j t,
  cheb_expand_from j c t =
  csum (length c) (fun m => Cmult (nth m c (RtoC 0)) (RtoC (chebT (j + m) t))).
Proof.
  induction c as [|x c IH]; intros j t; [reflexivity|].
  cbn [cheb_expand_from length]. rewrite csum_shift. rewrite Nat.add_0_r. cbn [nth]. f_equal.
  rewrite IH. apply csum_ext. intros m _. do 3 f_equal. lia.
Qed.

Lemma cheb_expand_csum : forall c t,
  cheb_expand c t = csum (length c) (fun m => Cmult (nth m c (RtoC 0)) (RtoC (chebT m t))).
Proof. intros. unfold cheb_expand. rewrite cheb_expand_from_csum. reflexivity. Qed.

(** ** C58: discrete orthogonality *)

Lemma half_cos_telescope : forall n th,
  2 * sin (th / 2) * rsum n (fun m => cos ((INR m + 1 / 2) * th)) = sin (INR n * th).
Proof.
  induction n as [|n IH]; intros th.
  - simpl. rewrite Rmult_0_l, sin_0. ring.
  - simpl rsum. rewrite Rmult_plus_distr_l, IH, S_INR.
    replace ((INR n + 1) * th) with ((INR n + 1 / 2) * th + th / 2) by field.
    replace (INR n * th) with ((INR n + 1 / 2) * th - th / 2) by field.
    rewrite sin_plus, sin_minus. ring.
Qed.

Lemma half_cos_zero : forall n p, (0 < p < 2 * n)%nat ->
  rsum n (fun m => cos (INR p * (PI / 2 * (2 * (INR m + 1) - 1) / INR n))) = 0.
Proof.
  intros n p Hp. assert (Hn : 0 < INR n) by (apply lt_0_INR; lia).
  set (th := PI * INR p / INR n). pose proof PI_RGT_0.
  assert (Hs : sin (th / 2) <> 0).
  { apply Rgt_not_eq. apply sin_gt_0.
    - unfold th. assert (0 < INR p) by (apply lt_0_INR; lia).
      apply Rdiv_lt_0_compat; [|lra]. apply Rdiv_lt_0_compat; [|lra]. apply Rmult_lt_0_compat; lra.
    - assert (Hpr : INR p < 2 * INR n).
      { replace (2 * INR n) with (INR (2 * n)) by (rewrite mult_INR; simpl; ring).
        apply lt_INR. lia. }
      unfold th. apply Rmult_lt_reg_r with (2 * INR n); [lra|].
      replace (PI * INR p / INR n / 2 * (2 * INR n)) with (PI * INR p) by (field; lra).
      apply Rmult_lt_compat_l; lra. }
  rewrite (rsum_ext n _ (fun m => cos ((INR m + 1 / 2) * th))).
  2:{ intros m _. f_equal. unfold th. field. lra. }
  pose proof (half_cos_telescope n th) as T.
  replace (INR n * th) with (INR p * PI) in T by (unfold th; field; lra).
  rewrite sin_INR_PI in T. apply Rmult_eq_reg_l with (2 * sin (th / 2)); [|lra]. rewrite T. ring.
Qed.

Definition node_angle (n m : nat) : R := PI / 2 * (2 * (INR m + 1) - 1) / INR n.

Definition cheb_gram (n j : nat) : R := if Nat.eqb j 0 then INR n else INR n / 2.

Lemma cheb_orthogonal : forall n j l, (j < n)%nat -> (l < n)%nat ->
  rsum n (fun m => cos (INR j * node_angle n m) * cos (INR l * node_angle n m)) =
  if Nat.eqb j l then cheb_gram n l else 0.
Proof.
  intros n j l Hj Hl.
  assert (W : forall j l, (l <= j)%nat -> (j < n)%nat ->
    rsum n (fun m => cos (INR j * node_angle n m) * cos (INR l * node_angle n m)) =
    / 2 * rsum n (fun m => cos (INR (j - l) * node_angle n m)) +
    / 2 * rsum n (fun m => cos (INR (j + l) * node_angle n m))).
  { intros j' l' Hlj _. rewrite <- !rsum_scal, <- rsum_plus. apply rsum_ext. intros m _.
    rewrite minus_INR, plus_INR by assumption.
    rewrite Rmult_minus_distr_r, Rmult_plus_distr_r, cos_minus, cos_plus. field. }
  assert (Z0 : rsum n (fun m => cos (INR 0 * node_angle n m)) = INR n).
  { rewrite (rsum_ext n _ (fun _ => 1)).
    - rewrite rsum_const. ring.
    - intros m _. simpl. rewrite Rmult_0_l. apply cos_0. }
  assert (Z : forall p, (0 < p < 2 * n)%nat -> rsum n (fun m => cos (INR p * node_angle n m)) = 0)
    by (intros p Hp; apply half_cos_zero; assumption).
  destruct (Nat.eqb_spec j l) as [->|Hne].
  - rewrite W by lia. rewrite Nat.sub_diag, Z0. unfold cheb_gram.
    destruct (Nat.eqb_spec l 0) as [->|Hl0].
    + simpl Nat.add. rewrite Z0. field.
    + rewrite Z by lia. field.
  - destruct (Nat.lt_ge_cases l j) as [H|H].
    + rewrite W by lia. rewrite !Z by lia. ring.
    + rewrite (rsum_ext n _ (fun m => cos (INR l * node_angle n m) * cos (INR j * node_angle n m)))
        by (intros; ring).
      rewrite W by lia. rewrite !Z by lia. ring.
Qed.

Lemma chebT_node : forall n m j, (m < n)%nat ->
  chebT j (cos (node_angle n m)) = cos (INR j * node_angle n m).
Proof.
  intros n m j H.
  assert (B : 0 < node_angle n m < PI).
  { pose proof (root_angle_bound n (S m) ltac:(lia)) as B. unfold root_angle in B. rewrite S_INR in B. exact B. }
  rewrite <- eval_T_chebT by apply COS_bound. unfold eval_T. rewrite acos_cos by lra. reflexivity.
Qed.

Lemma node_in_roots : forall n m, (m < n)%nat -> In (cos (node_angle n m)) (get_chebyshev_roots n).
Proof.
  intros n m H. apply roots_In. exists (S m). split; [lia|].
  unfold root_angle. rewrite S_INR. reflexivity.
Qed.

Lemma expand_zero_coef : forall n d k, (length d <= n)%nat -> (k < length d)%nat ->
  (forall t, In t (get_chebyshev_roots n) -> cheb_expand d t = RtoC 0) ->
  nth k d (RtoC 0) = RtoC 0.
Proof.
  intros n d k Hn Hk H.
  assert (Hn0 : 0 < INR n) by (apply lt_0_INR; lia).
  assert (S0 : csum n (fun m => Cmult (cheb_expand d (cos (node_angle n m)))
                 (RtoC (cos (INR k * node_angle n m)))) = RtoC 0).
  { rewrite (csum_ext n _ (fun _ => RtoC 0)); [apply csum_zero|].
    intros m Hm. rewrite H by (apply node_in_roots; assumption). ring. }
  assert (S1 : csum n (fun m => Cmult (cheb_expand d (cos (node_angle n m)))
                 (RtoC (cos (INR k * node_angle n m)))) =
               Cmult (nth k d (RtoC 0)) (RtoC (cheb_gram n k))).
  { rewrite (csum_ext n _ (fun m => csum (length d) (fun j =>
       Cmult (nth j d (RtoC 0)) (RtoC (cos (INR j * node_angle n m) * cos (INR k * node_angle n m)))))).
    2:{ intros m Hm. rewrite cheb_expand_csum, <- csum_scal_r. apply csum_ext. intros j _.
        rewrite chebT_node by assumption. rewrite RtoC_mult. ring. }
    rewrite csum_swap.
    rewrite (csum_ext (length d) _ (fun j => if Nat.eqb j k then
       Cmult (nth j d (RtoC 0)) (RtoC (cheb_gram n k)) else RtoC 0)).
    2:{ intros j Hj. rewrite csum_scal, csum_RtoC, cheb_orthogonal by lia.
        destruct (Nat.eqb j k); [reflexivity|]. ring. }
    rewrite csum_delta by assumption. reflexivity. }
  rewrite S1 in S0.
  assert (HG : RtoC (cheb_gram n k) <> RtoC 0).
  { apply RtoC_neq. unfold cheb_gram. destruct (Nat.eqb k 0); lra. }
  replace (nth k d (RtoC 0)) with
    (Cmult (Cmult (nth k d (RtoC 0)) (RtoC (cheb_gram n k))) (Cinv (RtoC (cheb_gram n k)))).
  - rewrite S0. ring.
  - field. assumption.
Qed.

Lemma sq_residual_nonneg : forall c ts ys, 0 <= sq_residual c ts ys.
Proof.
  intros c. induction ts as [|t ts IH]; intros [|y ys]; cbn [sq_residual]; try lra.
  specialize (IH ys). pose proof (pow2_ge_0 (Cmod (Cminus (cheb_expand c t) y))). lra.
Qed.

Lemma sq_residual_zero : forall c ts f,
  sq_residual c ts (map f ts) <= 0 <-> (forall t, In t ts -> cheb_expand c t = f t).
Proof.
  intros c ts f. induction ts as [|t ts IH]; cbn [sq_residual map].
  - split; [intros _ t []|intros; lra].
  - pose proof (pow2_ge_0 (Cmod (Cminus (cheb_expand c t) (f t)))) as P.
    pose proof (sq_residual_nonneg c ts (map f ts)) as Q. split.
    + intros H u [<-|Hu].
      * assert (E : Cmod (Cminus (cheb_expand c t) (f t)) ^ 2 = 0) by lra.
        assert (E' : Cmod (Cminus (cheb_expand c t) (f t)) = 0).
        {
          destruct (Req_dec (Cmod (Cminus (cheb_expand c t) (f t))) 0) as [Z|Z]; [exact Z|].
          exfalso. apply (pow_nonzero _ 2 Z). exact E. }
        apply Cmod_eq_0 in E'. 
        replace (cheb_expand c t) with (Cplus (Cminus (cheb_expand c t) (f t)) (f t)) by ring.
        rewrite E'. ring.
      * apply IH; [lra|assumption].
    + intros H. assert (E : sq_residual c ts (map f ts) <= 0) by (apply IH; intros; apply H; right; assumption).
      rewrite (H t) by (left; reflexivity).
      replace (f t - f t)%C with (RtoC 0) by ring. rewrite Cmod_0. lra.
Qed.

Lemma fit_recovers : forall c n b f deg,
  is_cheb_lsq (get_chebyshev_roots n) (map f (get_chebyshev_roots n)) deg c ->
  length b = S deg -> (S deg <= n)%nat ->
  (forall t, In t (get_chebyshev_roots n) -> f t = cheb_expand b t) ->
  c = b.
Proof.
  intros c n b f deg [HL HM] Hb Hn Hf.
  specialize (HM b Hb).
  assert (Rb : sq_residual b (get_chebyshev_roots n) (map f (get_chebyshev_roots n)) <= 0).
  { apply sq_residual_zero. intros t Ht. symmetry. apply Hf. assumption. }
  assert (Rc : forall t, In t (get_chebyshev_roots n) -> cheb_expand c t = f t).
  { apply sq_residual_zero. lra. }
  set (d := map (fun p => Cminus (fst p) (snd p)) (combine c b)).
  assert (Ld : length d = S deg).
  { unfold d. rewrite map_length, combine_length. lia. }
  assert (Nd : forall m, (m < S deg)%nat -> nth m d (RtoC 0) = Cminus (nth m c (RtoC 0)) (nth m b (RtoC 0))).
  { intros m Hm. unfold d.
    assert (E0 : (fun p : C * C => Cminus (fst p) (snd p)) (RtoC 0, RtoC 0) = RtoC 0) by (cbn [fst snd]; ring).
    rewrite <- E0 at 1. rewrite (map_nth (fun p : C * C => Cminus (fst p) (snd p))).
    rewrite combine_nth by lia. reflexivity. }
  assert (Ed : forall t, cheb_expand d t = Cminus (cheb_expand c t) (cheb_expand b t)).
  { intros t. rewrite !cheb_expand_csum, Ld, HL, Hb.
    rewrite (csum_ext _ _ (fun m => Cplus (Cmult (nth m c (RtoC 0)) (RtoC (chebT m t)))
       (Cmult (RtoC (-1)) (Cmult (nth m b (RtoC 0)) (RtoC (chebT m t)))))).
    - rewrite csum_plus, csum_scal. replace (RtoC (-1)) with (Copp (RtoC 1)).
      + ring.
      + unfold RtoC, Copp; simpl. f_equal; ring.
    - intros m Hm. rewrite Nd by assumption. replace (RtoC (-1)) with (Copp (RtoC 1)).
      + ring.
      + unfold RtoC, Copp; simpl. f_equal; ring. }
  apply nth_ext with (d := RtoC 0) (d' := RtoC 0); [lia|].
  intros k Hk. assert (E : nth k d (RtoC 0) = RtoC 0).
  { apply expand_zero_coef with n; [lia|lia|]. intros t Ht. rewrite Ed, Rc, Hf by assumption. ring. }
  rewrite Nd in E by lia.
  replace (nth k c (RtoC 0)) with (Cplus (Cminus (nth k c (RtoC 0)) (nth k b (RtoC 0))) (nth k b (RtoC 0))) by ring.
  rewrite E. ring.
Qed.

Lemma get_chebyshev_coef_recovers : forall chebfit n R0 a sid b func,
  0 < R0 -> 0 < a < 2 * PI -> (sid < 3)%nat -> (1 <= length b <= n)%nat ->
  (let ys := map (fun t => func (eval_g R0 a sid t)) (get_chebyshev_roots n) in
   is_cheb_lsq (get_chebyshev_roots n) ys (length b - 1)
     (chebfit (get_chebyshev_roots n) ys (length b - 1)%nat)) ->
  (forall arg, -1 < eval_g_inv R0 a sid arg < 1 -> func arg = cheb_expand b (eval_g_inv R0 a sid arg)) ->
  get_chebyshev_coef chebfit (get_chebyshev_roots n) R0 a sid (length b) func = Ok b.
Proof.
  intros chebfit n R0 a sid b func HR Ha Hs [Hb1 Hbn] HF Hf. unfold get_chebyshev_coef.
  cbv zeta in HF. remember (length b) as nb eqn:E.
  destruct nb as [|deg]; [lia|]. f_equal. rewrite Nat.sub_succ, Nat.sub_0_r in HF.
  eapply fit_recovers; [exact HF|symmetry; exact E|assumption|].
  intros t Ht. apply roots_interior in Ht. cbv beta; rewrite Hf.
  - rewrite g_inv_g by assumption. reflexivity.
  - rewrite g_inv_g by assumption. assumption.
Qed.

Lemma exact_data_is_lsq : forall n b, (1 <= length b)%nat ->
  is_cheb_lsq (get_chebyshev_roots n) (map (cheb_expand b) (get_chebyshev_roots n)) (length b - 1) b.
Proof.
  intros n b Hb. split; [lia|]. intros c' _.
  apply Rle_trans with 0; [|apply sq_residual_nonneg].
  apply sq_residual_zero. reflexivity.
Qed.

(** The expansion of the coefficients on one segment. *)

Lemma csum_split : forall p q f,
  csum (p + q) f = Cplus (csum p f) (csum q (fun m => f (p + m)%nat)).
Proof.
  intros p q f. induction q as [|q IH].
  - rewrite Nat.add_0_r. simpl. ring.
  - rewrite Nat.add_succ_r. simpl. rewrite IH. ring.
Qed.

Lemma c0_expansion : forall chebfit nodes R0 a nc nr eval_bc c0 sid arg,
  (forall ts ys deg, length (chebfit ts ys deg) = S deg) ->
  calc_c0 chebfit nodes R0 a (snd (setup_basis nc nr)) eval_bc = Ok c0 ->
  (sid < 3)%nat -> -1 <= eval_g_inv R0 a sid arg <= 1 ->
  csum (nc + 2 * nr) (fun JJ => Cmult (nth JJ c0 (RtoC 0))
     (RtoC (match eval_dn_B_arg R0 a (fst (setup_basis nc nr)) 0 JJ arg sid with
            | Ok v => v | Err _ => 0 end))) =
  cheb_expand (seg_fit chebfit nodes R0 a nc nr eval_bc sid) (eval_g_inv R0 a sid arg).
Proof.
  intros chebfit nodes R0 a nc nr eval_bc c0 sid arg HL H Hs Harg.
  destruct (calc_c0_nth _ _ _ _ _ _ _ _ HL H) as [_ HN].
  assert (L : length (seg_fit chebfit nodes R0 a nc nr eval_bc sid) = seg_size nc nr sid).
  { destruct (Nat.eq_dec nc 0) as [E|Hc]; [rewrite calc_c0_error in H by auto; discriminate|].
    destruct (Nat.eq_dec nr 0) as [E|Hr]; [rewrite calc_c0_error in H by auto; discriminate|].
    unfold seg_fit. rewrite HL. destruct sid; cbn; lia. }
  set (F := fun JJ => Cmult (nth JJ c0 (RtoC 0))
     (RtoC (match eval_dn_B_arg R0 a (fst (setup_basis nc nr)) 0 JJ arg sid with
            | Ok v => v | Err _ => 0 end))).
  assert (FS : forall s J, (s < 3)%nat -> (J < seg_size nc nr s)%nat ->
     F (basis_index nc nr s J) = if Nat.eqb s sid then
       Cmult (nth J (seg_fit chebfit nodes R0 a nc nr eval_bc sid) (RtoC 0))
             (RtoC (chebT J (eval_g_inv R0 a sid arg))) else RtoC 0).
  { intros s J Hs' HJ.
    assert (HB : nth_error (fst (setup_basis nc nr)) (basis_index nc nr s J) = Some (s, J))
      by (apply B_desc_nth; auto).
    unfold F. destruct (Nat.eqb_spec s sid) as [->|Hne].
    - rewrite (eval_dn_B_same _ _ _ _ _ _ _ _ HB) by lia. rewrite dnB_0 by assumption.
      f_equal. specialize (HN _ _ _ HB). 
      destruct (nth_error c0 (basis_index nc nr sid J)) as [x|] eqn:E1.
      + rewrite (nth_error_nth _ _ (RtoC 0) E1). symmetry in HN.
        symmetry. apply (nth_error_nth _ _ (RtoC 0) HN).
      + exfalso. symmetry in HN. apply nth_error_None in HN. lia.
    - rewrite (eval_dn_B_other _ _ _ _ _ _ _ _ _ HB) by assumption. ring. }
  change (csum (nc + 2 * nr) F = cheb_expand (seg_fit chebfit nodes R0 a nc nr eval_bc sid) (eval_g_inv R0 a sid arg)).
  replace (nc + 2 * nr)%nat with (nc + (nr + nr))%nat by lia. rewrite !csum_split.
  assert (Part : forall s n off, (s < 3)%nat -> n = seg_size nc nr s ->
     (forall m, basis_index nc nr s m = (off + m)%nat) ->
     csum n (fun m => F (off + m)%nat) = if Nat.eqb s sid then
       cheb_expand (seg_fit chebfit nodes R0 a nc nr eval_bc sid) (eval_g_inv R0 a sid arg) else RtoC 0).
  { intros s n off Hs' -> Hoff. destruct (Nat.eqb_spec s sid) as [->|Hne].
    - rewrite cheb_expand_csum, L. apply csum_ext. intros m Hm. rewrite <- Hoff, FS by assumption.
      rewrite Nat.eqb_refl. reflexivity.
    - rewrite (csum_ext _ _ (fun _ => RtoC 0)); [apply csum_zero|].
      intros m Hm. rewrite <- Hoff, FS by assumption. apply Nat.eqb_neq in Hne. rewrite Hne. reflexivity. }
  rewrite (csum_ext nc F (fun m => F (0 + m)%nat)) by reflexivity.
  rewrite (Part 0%nat nc 0%nat) by (try lia; reflexivity).
  rewrite (Part 1%nat nr nc) by (try lia; reflexivity).
  rewrite (csum_ext nr (fun m => F (nc + (nr + m))%nat) (fun m => F (nc + nr + m)%nat))
    by (intros; f_equal; lia).
  rewrite (Part 2%nat nr (nc + nr)%nat) by (try lia; reflexivity).
  destruct sid as [|[|[|sid]]]; cbn [Nat.eqb]; [ring|ring|ring|lia].
Qed.

Lemma roots_spec : forall J, (1 <= J)%nat ->
  length (get_chebyshev_roots J) = J /\
  StronglySorted Rlt (get_chebyshev_roots J) /\
  (forall t, In t (get_chebyshev_roots J) -> -1 < t < 1) /\
  (forall t, -1 <= t <= 1 -> (In t (get_chebyshev_roots J) <-> chebT J t = 0)).
Proof.
  intros J HJ. split; [apply roots_length|]. split; [apply roots_sorted|].
  split; [apply roots_interior|]. intros t Ht. rewrite <- eval_T_chebT by assumption.
  apply roots_are_roots; assumption.
Qed.

Lemma eval_dn_B_step : forall R0 a B n JJ arg sid J,
  nth_error B JJ = Some (sid, J) -> (n < 5)%nat -> -1 < eval_g_inv R0 a sid arg < 1 ->
  exists f f', (forall x, eval_dn_B_arg R0 a B n JJ x sid = Ok (f x)) /\
    (forall x, eval_dn_B_arg R0 a B (S n) JJ x sid = Ok (f' x)) /\ is_derive f arg (f' arg).
Proof.
  intros R0 a B n JJ arg sid J H Hn Ha. exists (dnB R0 a sid n J), (dnB R0 a sid (S n) J).
  split; [intros x; apply eval_dn_B_same; [assumption|lia]|].
  split; [intros x; apply eval_dn_B_same; [assumption|lia]|].
  apply dnB_derive; assumption.
Qed.
