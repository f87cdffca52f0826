(** Lemmas about the drivers. *)
From Coq Require Import String ZArith List Bool Lia Sorted.
From Verif Require Import Model_Py Model_Driver.
Import ListNotations.
Open Scope Z_scope.

Lemma N_list_loop_ok : forall n c N, 1 <= N -> (Z.to_nat (c + 1 - N) <= n)%nat ->
  exists l, N_list_loop (S n) c N = Ok l /\
    (forall x, In x l <-> exists i : nat, x = N * 2 ^ Z.of_nat i /\ x <= c) /\
    StronglySorted Z.lt l.
Proof.
  induction n as [|n IH]; intros c N HN Hn.
  - exists []. simpl. destruct (N <=? c) eqn:E; [apply Z.leb_le in E; lia|].
    apply Z.leb_gt in E. split; [reflexivity|]. split; [|constructor].
    intros x; split; [intros []|]. intros (i & -> & H).
    assert (0 < 2 ^ Z.of_nat i) by (apply Z.pow_pos_nonneg; lia). nia.
  - simpl. destruct (N <=? c) eqn:E.
    + apply Z.leb_le in E.
      destruct (IH c (N * 2)) as (l & Hl & Hin & Hs); [lia|lia|].
      simpl in Hl. rewrite Hl. simpl. exists (N :: l).
      split; [reflexivity|]. split.
      * intros x; split.
        -- intros [<- | H].
           ++ exists 0%nat. simpl. lia.
           ++ apply Hin in H. destruct H as (i & -> & Hc). exists (S i).
              rewrite Nat2Z.inj_succ, Z.pow_succ_r by lia. lia.
        -- intros (i & Hx & Hc). destruct i as [|i].
           ++ left. simpl in Hx. lia.
           ++ right. apply Hin. exists i.
              rewrite Nat2Z.inj_succ, Z.pow_succ_r in Hx by lia. lia.
      * constructor; [assumption|]. apply Forall_forall. intros x Hx.
        apply Hin in Hx. destruct Hx as (i & -> & _).
        assert (1 <= 2 ^ Z.of_nat i) by (apply Z.lt_pred_le, Z.pow_pos_nonneg; lia).
        nia.
    + apply Z.leb_gt in E. exists []. split; [reflexivity|]. split; [|constructor].
      intros x; split; [intros []|]. intros (i & -> & H).
      assert (0 < 2 ^ Z.of_nat i) by (apply Z.pow_pos_nonneg; lia). nia.
Qed.

Lemma N_list_loop_det : forall f1 f2 c N l1 l2,
  N_list_loop f1 c N = Ok l1 -> N_list_loop f2 c N = Ok l2 -> l1 = l2.
Proof.
  induction f1 as [|f1 IH]; intros f2 c N l1 l2 H1 H2; [discriminate|].
  destruct f2 as [|f2]; [discriminate|]. simpl in *.
  destruct (N <=? c).
  - destruct (N_list_loop f1 c (N * 2)) eqn:E1; [|discriminate].
    destruct (N_list_loop f2 c (N * 2)) eqn:E2; [|discriminate].
    simpl in *. inversion H1; inversion H2; subst. f_equal. eauto.
  - congruence.
Qed.

Lemma get_N_list_spec : forall N0 c, 1 <= N0 ->
  exists l,
    (exists fuel0, forall fuel, (fuel0 <= fuel)%nat ->
       get_N_list fuel N0 (Some c) = Ok l) /\
    (forall x, In x l <-> exists i : nat, x = N0 * 2 ^ Z.of_nat i /\ x <= c) /\
    StronglySorted Z.lt l.
Proof.
  intros N0 c H.
  destruct (N_list_loop_ok (Z.to_nat (c + 1 - N0)) c N0 H (le_n _))
    as (l & Hl & Hr).
  exists l. split; [|exact Hr].
  exists (S (Z.to_nat (c + 1 - N0))). intros fuel Hf. simpl.
  destruct fuel as [|fuel]; [lia|].
  destruct (N_list_loop_ok fuel c N0 H) as (l' & Hl' & _); [lia|].
  rewrite Hl'. f_equal. eapply N_list_loop_det; eauto.
Qed.

Lemma get_N_list_diverges : forall N0 c, N0 <= 0 -> N0 <= c ->
  forall fuel, get_N_list fuel N0 (Some c) = Err OutOfFuel.
Proof.
  intros N0 c H1 H2 fuel. simpl. revert N0 H1 H2.
  induction fuel as [|fuel IH]; intros; [reflexivity|]. simpl.
  destruct (N0 <=? c) eqn:E; [|apply Z.leb_gt in E; lia].
  rewrite IH by lia. reflexivity.
Qed.

(** ** get_n_basis *)

Lemma get_n_basis_first_hit : forall fuel d N v,
  get_n_basis fuel d N = Ok v <->
  exists k, (k < fuel)%nat /\ table_get d (N / 2 ^ Z.of_nat k) = Some v /\
    forall j, (j < k)%nat -> table_get d (N / 2 ^ Z.of_nat j) = None.
Proof.
  induction fuel as [|fuel IH]; intros d N v.
  - simpl. split; [discriminate|]. intros (k & Hk & _). lia.
  - assert (Hhalf : forall k, N / 2 / 2 ^ Z.of_nat k = N / 2 ^ Z.of_nat (S k)).
    { intros k. rewrite Z.div_div by (try lia; apply Z.pow_pos_nonneg; lia).
      f_equal. rewrite Nat2Z.inj_succ, Z.pow_succ_r by lia. reflexivity. }
    assert (H0 : N / 2 ^ Z.of_nat 0 = N) by (simpl; apply Z.div_1_r).
    simpl. destruct (table_get d N) as [w|] eqn:E.
    + split.
      * intros H. injection H as <-. exists 0%nat. rewrite H0.
        split; [lia|]. split; [assumption|]. intros; lia.
      * intros (k & Hk & Hv & Hn). destruct k as [|k].
        -- rewrite H0 in Hv. congruence.
        -- specialize (Hn 0%nat ltac:(lia)). rewrite H0 in Hn. congruence.
    + rewrite IH. split.
      * intros (k & Hk & Hv & Hn). exists (S k). split; [lia|].
        rewrite <- Hhalf. split; [assumption|]. intros j Hj. destruct j as [|j].
        -- rewrite H0; assumption.
        -- rewrite <- Hhalf. apply Hn. lia.
      * intros (k & Hk & Hv & Hn). destruct k as [|k].
        -- rewrite H0 in Hv. congruence.
        -- exists k. split; [lia|]. rewrite Hhalf. split; [assumption|].
           intros j Hj. rewrite Hhalf. apply Hn. lia.
Qed.

Lemma get_n_basis_diverges : forall d N,
  (forall k : nat, table_get d (N / 2 ^ Z.of_nat k) = None) ->
  forall fuel, get_n_basis fuel d N = Err OutOfFuel.
Proof.
  intros d N H fuel. revert N H. induction fuel as [|fuel IH]; intros N H;
    [reflexivity|]. simpl.
  pose proof (H 0%nat) as H0. simpl in H0. rewrite Z.div_1_r in H0. rewrite H0.
  apply IH. intros k.
  rewrite Z.div_div by (try lia; apply Z.pow_pos_nonneg; lia).
  specialize (H (S k)). rewrite Nat2Z.inj_succ, Z.pow_succ_r in H by lia. exact H.
Qed.

Lemma default_get : forall n v, table_get default_n_basis_dict n = Some v ->
  n = 16 \/ n = 32 \/ n = 64 \/ n = 128 \/ n = 256.
Proof.
  intros n v. unfold table_get, default_n_basis_dict.
  repeat match goal with
  | |- context [?k =? n] => destruct (Z.eqb_spec k n); [lia|]
  end. discriminate.
Qed.

(** Termination on the shipped table: the five leading bits must be 10000. *)
Lemma default_terminates_iff : forall N,
  (exists fuel v, get_n_basis fuel default_n_basis_dict N = Ok v) <->
  (exists m, 4 <= m /\ 2 ^ m <= N < 2 ^ m + 2 ^ (m - 4)).
Proof.
  intros N; split.
  - intros (fuel & v & H). apply get_n_basis_first_hit in H.
    destruct H as (k & _ & Hv & _). apply default_get in Hv.
    assert (Hp : 0 < 2 ^ Z.of_nat k) by (apply Z.pow_pos_nonneg; lia).
    pose proof (Z.div_mod N (2 ^ Z.of_nat k) ltac:(lia)) as E.
    pose proof (Z.mod_pos_bound N (2 ^ Z.of_nat k) Hp) as B.
    assert (G : forall e, 0 <= e -> N / 2 ^ Z.of_nat k = 16 * 2 ^ e ->
      exists m, 4 <= m /\ 2 ^ m <= N < 2 ^ m + 2 ^ (m - 4)).
    { intros e He Hq. exists (Z.of_nat k + 4 + e).
      replace (Z.of_nat k + 4 + e - 4) with (Z.of_nat k + e) by lia.
      rewrite !Z.pow_add_r by lia. change (2 ^ 4) with 16.
      assert (1 <= 2 ^ e) by (apply Z.lt_pred_le, Z.pow_pos_nonneg; lia).
      split; [lia|]. rewrite Hq in E. nia. }
    destruct Hv as [Hv | [Hv | [Hv | [Hv | Hv]]]].
    + apply (G 0); [lia|]. rewrite Hv; reflexivity.
    + apply (G 1); [lia|]. rewrite Hv; reflexivity.
    + apply (G 2); [lia|]. rewrite Hv; reflexivity.
    + apply (G 3); [lia|]. rewrite Hv; reflexivity.
    + apply (G 4); [lia|]. rewrite Hv; reflexivity.
  - intros (m & Hm & Hl & Hu).
    assert (Hq : N / 2 ^ Z.of_nat (Z.to_nat (m - 4)) = 16).
    { rewrite Z2Nat.id by lia. symmetry.
      assert (E : 2 ^ m = 16 * 2 ^ (m - 4)).
      { replace m with (4 + (m - 4)) at 1 by lia. rewrite Z.pow_add_r by lia.
        reflexivity. }
      apply Z.div_unique with (r := N - 16 * 2 ^ (m - 4)); lia. }
    set (K := Z.to_nat (m - 4)) in *.
    assert (Hex : exists k v, (k <= K)%nat /\
      table_get default_n_basis_dict (N / 2 ^ Z.of_nat k) = Some v /\
      forall j, (j < k)%nat ->
        table_get default_n_basis_dict (N / 2 ^ Z.of_nat j) = None).
    { assert (G : forall n, (n <= K)%nat ->
        (exists k v, (k <= n)%nat /\
          table_get default_n_basis_dict (N / 2 ^ Z.of_nat k) = Some v /\
          forall j, (j < k)%nat ->
            table_get default_n_basis_dict (N / 2 ^ Z.of_nat j) = None) \/
        (forall j, (j <= n)%nat ->
            table_get default_n_basis_dict (N / 2 ^ Z.of_nat j) = None)).
      { induction n as [|n IH]; intros Hn.
        - destruct (table_get default_n_basis_dict (N / 2 ^ Z.of_nat 0)) as [v|] eqn:E.
          + left. exists 0%nat, v. split; [lia|]. split; [assumption|]. intros; lia.
          + right. intros j Hj. replace j with 0%nat by lia. assumption.
        - destruct (IH ltac:(lia)) as [(k & v & Hk & Hv & Hj) | Hall].
          + left. exists k, v. split; [lia|]. split; assumption.
          + destruct (table_get default_n_basis_dict (N / 2 ^ Z.of_nat (S n)))
              as [v|] eqn:E.
            * left. exists (S n), v. split; [lia|]. split; [assumption|].
              intros j Hj. apply Hall. lia.
            * right. intros j Hj. destruct (Nat.eq_dec j (S n)); [subst; assumption|].
              apply Hall. lia. }
      destruct (G K (le_n _)) as [H | H]; [assumption|].
      specialize (H K (le_n _)). rewrite Hq in H. discriminate H. }
    destruct Hex as (k & v & Hk & Hv & Hj).
    exists (S k), v. apply get_n_basis_first_hit. exists k. split; [lia|].
    split; assumption.
Qed.

Lemma get_n_basis_24_diverges :
  forall fuel, get_n_basis fuel default_n_basis_dict 24 = Err OutOfFuel.
Proof.
  apply get_n_basis_diverges. intros k.
  destruct (table_get default_n_basis_dict (24 / 2 ^ Z.of_nat k)) as [v|] eqn:E;
    [|reflexivity]. exfalso.
  assert (H : exists fuel v, get_n_basis fuel default_n_basis_dict 24 = Ok v).
  { clear -E. revert v E. induction k as [k IH] using lt_wf_ind. intros v E.
    assert (D : (forall j, (j < k)%nat ->
        table_get default_n_basis_dict (24 / 2 ^ Z.of_nat j) = None) \/
        exists j w, (j < k)%nat /\
        table_get default_n_basis_dict (24 / 2 ^ Z.of_nat j) = Some w).
    { clear. induction k as [|k IH]; [left; intros; lia|].
      destruct IH as [IH | (j & w & Hj & Hw)].
      - destruct (table_get default_n_basis_dict (24 / 2 ^ Z.of_nat k)) as [w|] eqn:E.
        + right. exists k, w. split; [lia|assumption].
        + left. intros j Hj. destruct (Nat.eq_dec j k); [subst; assumption|].
          apply IH. lia.
      - right. exists j, w. split; [lia|assumption]. }
    destruct D as [D | (j & w & Hj & Hw)].
    - exists (S k), v. apply get_n_basis_first_hit. exists k.
      split; [lia|]. split; assumption.
    - eapply IH; eauto. }
  apply default_terminates_iff in H. destruct H as (m & Hm & Hl & Hu).
  assert (m < 5). { destruct (Z_lt_le_dec m 5); [assumption|].
    assert (2 ^ 5 <= 2 ^ m) by (apply Z.pow_le_mono_r; lia).
    change (2 ^ 5) with 32 in *. lia. }
  assert (m = 4) by lia. subst m. change (2 ^ 4 + 2 ^ (4 - 4)) with 17 in Hu. lia.
Qed.

(** ** the convergence loop *)


Lemma run_loop_gen : forall {E U} do_rel (rs : list (option E * U)) st,
  (forall r, In r rs -> fst r <> None) ->
  exists outs, run_loop do_rel st rs = Ok outs /\ length outs = length rs /\
  forall n e u, nth_error rs n = Some (Some e, u) ->
    nth_error outs n = Some (
      [PError e] ++
      match (match n with O => rs_prev st
             | S n' => match nth_error rs n' with Some (x, _) => x | None => None end
             end) with
      | Some p => [PConv p e] | None => [] end ++
      (if do_rel then
         match (match n with O => rs_u1 st | S O => rs_u0 st
                | S (S n') => option_map snd (nth_error rs n') end),
               (match n with O => rs_u0 st
                | S n' => option_map snd (nth_error rs n') end) with
         | Some c, Some b => [PRel u b c] | _, _ => [] end
       else [])).
Proof.
  intros E U do_rel rs. induction rs as [|[err u] rs IH]; intros st Hall.
  - exists []. split; [reflexivity|]. split; [reflexivity|].
    intros [|n]; discriminate.
  - destruct err as [e|]; [|exfalso; apply (Hall (None, u)); [left|]; reflexivity].
    simpl.
    set (st' := mk_run_state (rs_u1 st) (rs_u0 st) (Some u) (Some e)).
    assert (Hall' : forall r, In r rs -> fst r <> None)
      by (intros r Hr; apply Hall; right; assumption).
    destruct (IH st' Hall') as (outs & Ho & Hlen & Hn).
    destruct (rs_prev st) as [p|] eqn:Ep; simpl; fold st'; rewrite Ho; simpl.
    + eexists. split; [reflexivity|]. split; [simpl; congruence|].
      intros [|n] e' u' H; simpl in H |- *.
      * injection H as <- <-. reflexivity.
      * rewrite (Hn _ _ _ H). destruct n as [|[|n]]; reflexivity.
    + eexists. split; [reflexivity|]. split; [simpl; congruence|].
      intros [|n] e' u' H; simpl in H |- *.
      * injection H as <- <-. reflexivity.
      * rewrite (Hn _ _ _ H). destruct n as [|[|n]]; reflexivity.
Qed.

Lemma run_loop_unknown : forall {E U} do_rel (rs : list (option E * U)) st,
  rs_prev st = None -> (forall r, In r rs -> fst r = None) ->
  exists outs, run_loop do_rel st rs = Ok outs /\ length outs = length rs /\
  forall n u, nth_error rs n = Some (None, u) ->
    nth_error outs n = Some (
      if do_rel then
         match (match n with O => rs_u1 st | S O => rs_u0 st
                | S (S n') => option_map snd (nth_error rs n') end),
               (match n with O => rs_u0 st
                | S n' => option_map snd (nth_error rs n') end) with
         | Some c, Some b => [PRel u b c] | _, _ => [] end
       else []).
Proof.
  intros E U do_rel rs. induction rs as [|[err u] rs IH]; intros st Hst Hall.
  - exists []. split; [reflexivity|]. split; [reflexivity|].
    intros [|n]; discriminate.
  - assert (err = None) by (apply (Hall (err, u)); left; reflexivity). subst err.
    simpl. rewrite Hst. simpl.
    set (st' := mk_run_state (rs_u1 st) (rs_u0 st) (Some u) None).
    assert (Hall' : forall r, In r rs -> fst r = None)
      by (intros r Hr; apply Hall; right; assumption).
    destruct (IH st' eq_refl Hall') as (outs & Ho & Hlen & Hn).
    rewrite Ho. simpl.
    eexists. split; [reflexivity|]. split; [simpl; congruence|].
    intros [|n] u' H; simpl in H |- *.
    + injection H as <-. reflexivity.
    + rewrite (Hn _ _ H). destruct n as [|[|n]]; reflexivity.
Qed.

(** ** the cache *)

Lemma runz_loop_cached : forall {V} (expected ode : Z -> V) v Ns,
  (forall N, In N Ns -> ode N = v) ->
  runz_loop false expected ode (Some v) Ns = (repeat v (length Ns), 0%nat).
Proof.
  intros V expected ode v Ns. induction Ns as [|N Ns IH]; intros H; [reflexivity|].
  simpl. rewrite IH by (intros; apply H; right; assumption). reflexivity.
Qed.

Lemma runz_loop_cheat : forall {V} (expected ode : Z -> V) c Ns,
  runz_loop true expected ode c Ns = (map expected Ns, 0%nat).
Proof.
  intros V expected ode c Ns. revert c.
  induction Ns as [|N Ns IH]; intros c; [reflexivity|].
  simpl. rewrite IH. reflexivity.
Qed.

Lemma runz_loop_sound : forall {P V} (solver : P -> V) (expected : Z -> V) p Ns,
  runz_loop false expected (ode_of_run solver p) None Ns =
  (map (fun N => fst (zm_calc_z1_fourier false None (expected N)
                        (ode_of_run solver p N))) Ns,
   match Ns with [] => 0%nat | _ => 1%nat end).
Proof.
  intros P V solver expected p [|N Ns]; [reflexivity|].
  simpl. rewrite (runz_loop_cached _ _ (solver p)) by reflexivity.
  unfold ode_of_run. simpl. f_equal. f_equal.
  induction Ns as [|M Ns IH]; [reflexivity|]. simpl. f_equal. assumption.
Qed.

(** ** imports *)

Lemma import_problems_fails : forall fuel, (4 <= fuel)%nat ->
  py_import fuel [] "problems" = Err ImportError.
Proof.
  intros fuel H. do 4 (destruct fuel as [|fuel]; [lia|]). reflexivity.
Qed.

Lemma import_run_fails : forall fuel, (5 <= fuel)%nat ->
  py_import fuel [] "run" = Err ImportError /\
  py_import fuel [] "runz" = Err ImportError.
Proof.
  intros fuel H. do 5 (destruct fuel as [|fuel]; [lia|]). split; reflexivity.
Qed.

Lemma run_loop_known : forall {E U} do_rel (rs : list (E * U)),
  exists outs,
    run_loop do_rel run_init (map (fun r => (Some (fst r), snd r)) rs) = Ok outs /\
    length outs = length rs /\
    (forall e0 u0, nth_error rs 0 = Some (e0, u0) ->
       nth_error outs 0 = Some [PError e0]) /\
    (forall e0 u0 e1 u1, nth_error rs 0 = Some (e0, u0) ->
       nth_error rs 1 = Some (e1, u1) ->
       nth_error outs 1 = Some [PError e1; PConv e0 e1]) /\
    (forall n e0 u0 e1 u1 e2 u2, nth_error rs n = Some (e0, u0) ->
       nth_error rs (S n) = Some (e1, u1) ->
       nth_error rs (S (S n)) = Some (e2, u2) ->
       nth_error outs (S (S n)) =
         Some ([PError e2; PConv e1 e2] ++
               if do_rel then [PRel u2 u1 u0] else [])).
Proof.
  intros E U do_rel rs.
  set (rs' := map (fun r => (Some (fst r), snd r)) rs).
  assert (Hall : forall r, In r rs' -> fst r <> None).
  { intros r Hr. apply in_map_iff in Hr. destruct Hr as (x & <- & _). discriminate. }
  assert (Hnth : forall n e u, nth_error rs n = Some (e, u) ->
                   nth_error rs' n = Some (Some e, u)).
  { intros n e u H. apply (map_nth_error (fun r => (Some (fst r), snd r))) in H.
    exact H. }
  destruct (run_loop_gen do_rel rs' run_init Hall) as (outs & Ho & Hl & Hn).
  exists outs. split; [exact Ho|]. split; [rewrite Hl; apply map_length|].
  split; [|split].
  - intros e0 u0 H0. rewrite (Hn _ _ _ (Hnth _ _ _ H0)).
    simpl. destruct do_rel; reflexivity.
  - intros e0 u0 e1 u1 H0 H1. rewrite (Hn _ _ _ (Hnth _ _ _ H1)).
    rewrite (Hnth _ _ _ H0). simpl. destruct do_rel; reflexivity.
  - intros n e0 u0 e1 u1 e2 u2 H0 H1 H2. rewrite (Hn _ _ _ (Hnth _ _ _ H2)).
    rewrite (Hnth _ _ _ H0), (Hnth _ _ _ H1). simpl.
    destruct do_rel; reflexivity.
Qed.

Lemma run_loop_unknown_init : forall {E U} do_rel (us : list U),
  exists outs,
    run_loop do_rel (@run_init E U) (map (fun u => (None, u)) us) = Ok outs /\
    length outs = length us /\
    (forall n, (n < 2)%nat -> (n < length us)%nat -> nth_error outs n = Some []) /\
    (forall n u0 u1 u2, nth_error us n = Some u0 ->
       nth_error us (S n) = Some u1 -> nth_error us (S (S n)) = Some u2 ->
       nth_error outs (S (S n)) = Some (if do_rel then [PRel u2 u1 u0] else [])).
Proof.
  intros E U do_rel us.
  set (rs' := map (fun u => (@None E, u)) us).
  assert (Hall : forall r, In r rs' -> fst r = None).
  { intros r Hr. apply in_map_iff in Hr. destruct Hr as (x & <- & _). reflexivity. }
  assert (Hnth : forall n u, nth_error us n = Some u ->
                   nth_error rs' n = Some (None, u)).
  { intros n u H. exact (map_nth_error (fun u => (@None E, u)) _ _ H). }
  destruct (run_loop_unknown do_rel rs' run_init eq_refl Hall) as (outs & Ho & Hl & Hn).
  exists outs. split; [exact Ho|]. split; [rewrite Hl; apply map_length|].
  split.
  - intros n Hn2 Hlt. destruct (nth_error us n) as [u|] eqn:Eu;
      [|apply nth_error_None in Eu; lia].
    rewrite (Hn _ _ (Hnth _ _ Eu)). destruct n as [|[|n]]; [| |lia];
      simpl; destruct do_rel; reflexivity.
  - intros n u0 u1 u2 H0 H1 H2. rewrite (Hn _ _ (Hnth _ _ H2)).
    rewrite (Hnth _ _ H0), (Hnth _ _ H1). simpl. destruct do_rel; reflexivity.
Qed.

Lemma get_n_basis_returns_iff : forall d N v,
  (exists fuel, get_n_basis fuel d N = Ok v) <->
  (exists k : nat, table_get d (N / 2 ^ Z.of_nat k) = Some v /\
     forall j, (j < k)%nat -> table_get d (N / 2 ^ Z.of_nat j) = None).
Proof.
  intros d N v; split.
  - intros (fuel & H). apply get_n_basis_first_hit in H.
    destruct H as (k & _ & H). exists k. exact H.
  - intros (k & H). exists (S k). apply get_n_basis_first_hit.
    exists k. split; [lia|exact H].
Qed.
