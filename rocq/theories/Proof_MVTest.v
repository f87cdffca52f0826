(** Proofs about the unit tests (C91). *)
From Coq Require Import ZArith List Bool Reals Lia Lra.
From Coquelicot Require Import Complex.
From Verif Require Import Model_Py Model_Domain Model_Multivalue Model_MVTest Spec_Multivalue Proof_Domain Proof_Multivalue.
Import ListNotations.
Open Scope R_scope.

Lemma nodes_eqb_spec : forall a b, nodes_eqb a b = true <-> a = b.
Proof.
  induction a as [|p a IH]; intros [|q b]; cbn; try (split; [discriminate|intros; discriminate]); [tauto|].
  rewrite andb_true_iff, IH. destruct (node_eqb_spec p q) as [->|n].
  - split; [intros [_ ->]; reflexivity|intros E; injection E as ->; auto].
  - split; [intros [? _]; discriminate|intros E; injection E as -> ->; congruence].
Qed.

Definition entry_close (e1 e2 : mv_entry) : Prop :=
  me_setype e1 = me_setype e2 /\ Cmod (Cminus (me_value e1) (me_value e2)) <= 1 / 10 ^ 13.

Lemma eq_test : forall d1 d2, negb (setype_eqb (me_setype d1) (me_setype d2))
  || Rltb (1 / 10 ^ 13) (Cmod (Cminus (me_value d1) (me_value d2))) = false <-> entry_close d1 d2.
Proof.
  intros d1 d2. unfold entry_close. rewrite orb_false_iff.
  destruct (setype_eqb_spec (me_setype d1) (me_setype d2)) as [E|E];
  destruct (Rltb_spec (1 / 10 ^ 13) (Cmod (Cminus (me_value d1) (me_value d2)))) as [F|F]; cbn [negb];
  split; intros [A B]; split; try discriminate; try reflexivity; try assumption; try lra; congruence.
Qed.

Lemma eq_entries_true : forall p m2 l2, mv_get m2 p = Ok l2 -> forall l1 i,
  eq_entries p l1 i m2 = Ok true <->
  forall j e1, nth_error l1 j = Some e1 -> exists e2, nth_error l2 (i + j) = Some e2 /\ entry_close e1 e2.
Proof.
  intros p m2 l2 G. induction l1 as [|d1 l1 IH]; intros i; cbn [eq_entries].
  - split; [intros _ [|j] e1 H; discriminate|reflexivity].
  - rewrite G. cbn [bind]. unfold list_get. destruct (nth_error l2 i) as [d2|] eqn:E; cbn [bind].
    + destruct (negb (setype_eqb (me_setype d1) (me_setype d2)) || Rltb (1 / 10 ^ 13) (Cmod (Cminus (me_value d1) (me_value d2)))) eqn:T.
      * split; [discriminate|]. intros H. destruct (H 0%nat d1 eq_refl) as (e2 & H2 & Hc).
        rewrite Nat.add_0_r, E in H2. injection H2 as <-. apply eq_test in Hc. congruence.
      * rewrite IH. split.
        -- intros H [|j] e1 Hn.
           ++ cbn in Hn. injection Hn as <-. rewrite Nat.add_0_r. exists d2. split; [exact E|apply eq_test, T].
           ++ rewrite <- Nat.add_succ_comm. apply H. exact Hn.
        -- intros H j e1 Hn. rewrite Nat.add_succ_comm. apply (H (S j)). exact Hn.
    + split; [discriminate|]. intros H. destruct (H 0%nat d1 eq_refl) as (e2 & H2 & _).
      rewrite Nat.add_0_r in H2. congruence.
Qed.

Lemma eq_nodes_true : forall m2 d, (forall p l, In (p, l) d -> exists l2, mv_get m2 p = Ok l2) ->
  (eq_nodes d m2 = Ok true <-> forall p l, In (p, l) d -> eq_entries p l 0 m2 = Ok true).
Proof.
  intros m2 d. induction d as [|[p l] d IH]; intros Hk; cbn [eq_nodes].
  - split; [intros _ p l []|reflexivity].
  - assert (Hk' : forall p l, In (p, l) d -> exists l2, mv_get m2 p = Ok l2) by (intros; eapply Hk; right; eassumption).
    destruct (eq_entries p l 0 m2) as [[|]|e] eqn:E; cbn [bind].
    + rewrite (IH Hk'). split.
      * intros H q k [Eq|Hin]; [injection Eq as <- <-; exact E|apply H, Hin].
      * intros H q k Hin. apply H. right; exact Hin.
    + split; [discriminate|]. intros H. rewrite (H p l (or_introl eq_refl)) in E. discriminate.
    + split; [discriminate|]. intros H. rewrite (H p l (or_introl eq_refl)) in E. discriminate.
Qed.

Lemma is_equal_true : forall m1 m2, mv_wf m1 -> mv_wf m2 ->
  (is_equal m1 m2 = Ok true <->
   mv_nodes m1 = mv_nodes m2 /\
   forall p l1 l2 j e1, mv_get m1 p = Ok l1 -> mv_get m2 p = Ok l2 -> nth_error l1 j = Some e1 ->
     exists e2, nth_error l2 j = Some e2 /\ me_setype e1 = me_setype e2 /\
       Cmod (Cminus (me_value e1) (me_value e2)) <= 1 / 10 ^ 13).
Proof.
  intros m1 m2 [N1 K1] [N2 K2]. unfold is_equal.
  destruct (nodes_eqb (mv_nodes m1) (mv_nodes m2)) eqn:E; cbn [negb].
  - apply nodes_eqb_spec in E.
    assert (Hk : forall p l, In (p, l) (mv_data m1) -> exists l2, mv_get m2 p = Ok l2).
    { intros p l Hin. apply K2. rewrite <- E. apply K1. exists l. apply (in_keys_get _ _ _ N1 Hin). }
    rewrite (eq_nodes_true _ _ Hk). split.
    + intros H. split; [exact E|]. intros p l1 l2 j e1 G1 G2 Hn.
      pose proof (H p l1 (get_in _ _ _ G1)) as Q. apply (proj1 (eq_entries_true p m2 l2 G2 l1 0) Q j e1 Hn).
    + intros [_ H] p l Hin. destruct (Hk p l Hin) as [l2 G2]. apply (eq_entries_true p m2 l2 G2).
      intros j e1 Hn. apply (H p l l2 j e1); [apply (in_keys_get _ _ _ N1 Hin)|exact G2|exact Hn].
  - split; [discriminate|]. intros [H _]. apply nodes_eqb_spec in H. congruence.
Qed.

Lemma Cmod_diag : forall z, Cmod (Cminus z z) = 0.
Proof. intros z. replace (Cminus z z) with (RtoC 0) by ring. apply Cmod_0. Qed.

Lemma is_equal_comm : forall m1 m2, mv_wf m1 -> mv_wf m2 -> mv_nodes m2 = mv_nodes m1 ->
  (forall p l1 l2, mv_get m1 p = Ok l1 -> mv_get m2 p = Ok l2 -> map me_setype l1 = map me_setype l2) ->
  exists s s', mv_add m1 m2 = Ok s /\ mv_add m2 m1 = Ok s' /\ is_equal s s' = Ok true.
Proof.
  intros m1 m2 W1 W2 En Hs.
  assert (add : forall a b, mv_wf a -> mv_wf b -> mv_nodes b = mv_nodes a ->
    (forall p l1 l2, mv_get a p = Ok l1 -> mv_get b p = Ok l2 -> map me_setype l1 = map me_setype l2) ->
    exists s, mv_add a b = Ok s).
  { intros a b Wa Wb Eab H. apply (mv_add_ok_iff a b Wa). intros p l1 j e1 G Hn.
    destruct (proj1 (proj2 Wb p)) as [l2 G2]; [rewrite Eab; apply (proj2 Wa); eauto|].
    pose proof (H p l1 l2 G G2) as Hm. pose proof (map_nth_error me_setype j l1 Hn) as M. rewrite Hm in M.
    destruct (nth_error l2 j) as [e2|] eqn:E2.
    - exists l2, e2. split; [exact G2|]. split; [exact E2|]. rewrite (map_nth_error me_setype j l2 E2) in M. congruence.
    - exfalso. apply nth_error_None in E2. assert (Hl : nth_error (map me_setype l2) j = None) by (apply nth_error_None; rewrite map_length; exact E2). congruence. }
  destruct (add m1 m2 W1 W2 En Hs) as [s Es].
  destruct (add m2 m1 W2 W1 (eq_sym En)) as [s' Es']; [intros p l1 l2 G1 G2; symmetry; apply (Hs p l2 l1 G2 G1)|].
  exists s, s'. split; [exact Es|]. split; [exact Es'|].
  destruct (mv_add_value m1 m2 s W1 Es) as (Ns & Ws & Vs). destruct (mv_add_value m2 m1 s' W2 Es') as (Ns' & Ws' & Vs').
  apply (is_equal_true s s' Ws Ws'). split; [congruence|]. intros p l l' j e G G' Hn.
  pose proof (mv_add_comm m1 m2 s s' W1 W2 En Es Es' p l l' G G') as M.
  pose proof (map_nth_error (fun e => (me_value e, me_setype e)) j l Hn) as Q. rewrite M in Q.
  destruct (nth_error l' j) as [e'|] eqn:E'.
  - exists e'. split; [reflexivity|]. rewrite (map_nth_error _ j l' E') in Q. injection Q as Q1 Q2.
    split; [congruence|]. rewrite Q1, Cmod_diag. lra.
  - exfalso. apply nth_error_None in E'. assert (Hl : nth_error (map (fun e => (me_value e, me_setype e)) l') j = None)
      by (apply nth_error_None; rewrite map_length; exact E'). congruence.
Qed.

Lemma is_equal_asym : exists m1 m2, mv_reachable m1 /\ mv_reachable m2 /\ is_equal m1 m2 = Ok true /\ is_equal m2 m1 = Err IndexError.
Proof.
  set (m := mv_new [(0, 0)]%Z). set (e := mk_entry 0 (RtoC 1) (0%Z, EStandard)).
  exists m. eexists. split; [constructor|]. split; [eapply (reach_append m (0, 0)%Z e); [constructor|reflexivity]|].
  split; reflexivity.
Qed.

Lemma setup_eq : setup_mv1 = Ok test_mv1.
Proof. reflexivity. Qed.

Lemma test_getitem_passes : test_getitem mv_get = Ok true.
Proof. reflexivity. Qed.

Lemma test_getitem_iff : forall get, test_getitem get = Ok true <->
  (exists d l, get test_mv1 (0, 0)%Z = Ok (d :: l) /\ me_setype d = (0%Z, EStandard)) /\ get test_mv1 (2, 2)%Z = Err KeyError.
Proof.
  intros get. unfold test_getitem. rewrite setup_eq. cbn [bind]. split.
  - intros H. destruct (get test_mv1 (0, 0)%Z) as [[|d l]|]; cbn [bind list_get nth_error] in H; try discriminate. unfold list_get in H. cbn [nth_error bind] in H.
    injection H as H. apply andb_prop in H. destruct H as [H1 H2].
    split; [exists d, l; split; [reflexivity|destruct (setype_eqb_spec (me_setype d) (0%Z, EStandard)); [assumption|discriminate]]|].
    destruct (get test_mv1 (2, 2)%Z) as [|[]]; try discriminate; reflexivity.
  - intros [(d & l & -> & E) ->]. cbn [bind]. unfold list_get. cbn [nth_error bind]. rewrite E. reflexivity.
Qed.


Lemma eq_step : forall p d1 l1 i m2 l2 d2, mv_get m2 p = Ok l2 -> nth_error l2 i = Some d2 ->
  me_setype d1 = me_setype d2 -> me_value d1 = me_value d2 -> eq_entries p (d1 :: l1) i m2 = eq_entries p l1 (S i) m2.
Proof.
  intros p d1 l1 i m2 l2 d2 G Hn H1 H2. cbn [eq_entries]. rewrite G. cbn [bind]. unfold list_get. rewrite Hn. cbn [bind].
  assert (T : entry_close d1 d2) by (split; [exact H1|rewrite H2, Cmod_diag; lra]). apply eq_test in T. rewrite T. reflexivity.
Qed.

Lemma eq_done : forall p i m2, eq_entries p [] i m2 = Ok true.
Proof. reflexivity. Qed.

Lemma test_add_passes : test_add = Ok true.
Proof.
  unfold test_add. rewrite setup_eq. cbn - [is_equal RtoC Cplus].
  assert (go : forall a b c a' b' c' el el' el'', a = a' -> b = b' -> c = c' ->
    is_equal (mk_mv [(0, 0)%Z; (0, 1)%Z] [((0, 0)%Z, [mk_entry 0 a (0%Z, EStandard); mk_entry 0 b (1%Z, EStandard)]); ((0, 1)%Z, [mk_entry 0 c (0%Z, EStandard)])])
      (mk_mv [(0, 0)%Z; (0, 1)%Z] [((0, 0)%Z, [mk_entry el a' (0%Z, EStandard); mk_entry el' b' (1%Z, EStandard)]); ((0, 1)%Z, [mk_entry el'' c' (0%Z, EStandard)])]) = Ok true).
  { intros a b c a' b' c' el el' el'' -> -> ->. unfold is_equal. cbn [mv_nodes mv_data].
    change (nodes_eqb [(0, 0)%Z; (0, 1)%Z] [(0, 0)%Z; (0, 1)%Z]) with true. cbn [negb eq_nodes].
    do 2 (erewrite eq_step; [|reflexivity|reflexivity|reflexivity|reflexivity]). rewrite eq_done. cbn [bind eq_nodes].
    erewrite eq_step; [|reflexivity|reflexivity|reflexivity|reflexivity]. reflexivity. }
  rewrite go; [|rewrite <- RtoC_plus; f_equal; lra..]. cbn - [is_equal RtoC Cplus].
  rewrite go; [|rewrite <- RtoC_plus; f_equal; lra..]. reflexivity.
Qed.

Lemma test_reduce0_passes : test_reduce0 mv_reduce = Ok true.
Proof.
  unfold test_reduce0. cbn - [Rleb Cmod]. f_equal. destruct (Rleb_spec (Cmod (Cminus (Cdiv (Cplus (RtoC 2) (RtoC (19 / 4))) (RtoC 2)) (RtoC ((2 + 19 / 4) / 2)))) 0) as [|n]; [reflexivity|].
  exfalso. apply n. rewrite <- RtoC_plus, <- RtoC_div by lra. rewrite Cmod_diag. lra.
Qed.

Lemma test_reduce0_iff : forall reduce, test_reduce0 reduce = Ok true <->
  exists vs, reduce (mk_mv [(0, 0)%Z] [((0, 0)%Z, [mk_entry 0 (RtoC 2) (0%Z, EStandard); mk_entry 0 (RtoC (19 / 4)) (1%Z, EStandard)])]) =
    Ok (RtoC (27 / 8) :: vs).
Proof.
  intros reduce. unfold test_reduce0. cbn - [Rleb Cmod Cminus RtoC]. set (m := mk_mv _ _). replace ((2 + 19 / 4) / 2) with (27 / 8) by lra. split.
  - intros H. destruct (reduce m) as [[|v vs]|]; cbn - [Rleb Cmod Cminus RtoC] in H; try discriminate. injection H as H.
    destruct (Rleb_spec (Cmod (Cminus v (RtoC (27 / 8)))) 0) as [L|]; [|discriminate]. exists vs. f_equal. f_equal.
    assert (Z : Cmod (Cminus v (RtoC (27 / 8))) = 0) by (apply Rle_antisym; [exact L|apply Cmod_ge_0]). apply Cmod_eq_0 in Z.
    replace v with (Cplus (Cminus v (RtoC (27 / 8))) (RtoC (27 / 8))) by ring. rewrite Z. ring.
  - intros [vs ->]. cbn - [Rleb Cmod Cminus RtoC]. rewrite Cmod_diag. f_equal. destruct (Rleb_spec 0 0); [reflexivity|lra].
Qed.

Lemma allclose_spec : forall a b, allclose a b = true <->
  forall x y, In (x, y) (combine a b) -> Cmod (Cminus x y) <= 1 / 10 ^ 8 + 1 / 10 ^ 5 * Cmod y.
Proof.
  intros a b. unfold allclose. rewrite forallb_forall. split.
  - intros H x y Hin. specialize (H _ Hin). cbn [fst snd] in H.
    destruct (Rleb_spec (Cmod (Cminus x y)) (1 / 10 ^ 8 + 1 / 10 ^ 5 * Cmod y)); [assumption|discriminate].
  - intros H [x y] Hin. cbn [fst snd].
    destruct (Rleb_spec (Cmod (Cminus x y)) (1 / 10 ^ 8 + 1 / 10 ^ 5 * Cmod y)) as [|n]; [reflexivity|]. exfalso; apply n, H, Hin.
Qed.

Lemma test_reduce_mv1_fails : test_reduce_mv1 mv_reduce = Ok false.
Proof.
  unfold test_reduce_mv1. rewrite setup_eq. cbn [bind]. rewrite test_mv1_reduce. cbn [bind]. f_equal.
  destruct (allclose [RtoC (3 / 5); RtoC 2] [RtoC (5 / 8); RtoC 2]) eqn:E; [|reflexivity]. exfalso.
  rewrite allclose_spec in E. specialize (E _ _ (or_introl eq_refl)). unfold Cminus in E. rewrite <- RtoC_opp, <- RtoC_plus, !Cmod_R in E.
  unfold Rabs in E. destruct (Rcase_abs (3 / 5 + - (5 / 8))), (Rcase_abs (5 / 8)); lra.
Qed.

Lemma weighted_passes : forall reduce vs, reduce test_mv1 = Ok vs -> length vs = length (mv_nodes test_mv1) ->
  (forall i p, nth_error (mv_nodes test_mv1) i = Some p ->
     exists l v, mv_get test_mv1 p = Ok l /\ nth_error vs i = Some v /\ weighted_average l v) ->
  test_reduce_mv1 reduce = Ok true.
Proof.
  intros reduce vs Er L H. unfold test_reduce_mv1. rewrite setup_eq. cbn [bind]. rewrite Er. cbn [bind]. f_equal. revert vs Er L H.
  intros [|v0 [|v1 [|? ?]]] _ L H; cbn in L; try discriminate.
  destruct (H 0%nat _ eq_refl) as (l & v & G & Nv & Wv). cbn in G, Nv. injection G as <-. injection Nv as <-.
  destruct (H 1%nat _ eq_refl) as (l & v & G & Nv & Wv1). cbn in G, Nv. injection G as <-. injection Nv as <-.
  assert (E0 : v0 = RtoC (3 / 5)).
  { destruct Wv as [(e & He & _)|(e0 & e1 & He & ->)]; [discriminate|]. injection He as <- <-. cbn [me_elen me_value].
    rewrite <- !RtoC_mult, <- RtoC_plus, <- RtoC_div by lra. f_equal. field. }
  assert (E1 : v1 = RtoC 2).
  { destruct Wv1 as [(e & He & ->)|(e0 & e1 & He & _)]; [injection He as <-; reflexivity|discriminate]. }
  subst. apply allclose_spec. intros x y [E|[E|[]]]; injection E as <- <-; rewrite Cmod_diag, Cmod_R;
  pose proof (Rabs_pos (3 / 5)); pose proof (Rabs_pos 2); lra.
Qed.

Lemma close_ex : mv_wf test_mv1 /\ is_equal test_mv1 test_mv1 = Ok true /\ is_equal test_mv1 (mv_new [(0, 0)]%Z) = Ok false.
Proof.
  split; [exact test_mv1_wf|]. split; [|reflexivity]. apply (is_equal_true _ _ test_mv1_wf test_mv1_wf).
  split; [reflexivity|]. intros p l1 l2 j e1 G1 G2 Hn. exists e1. rewrite G1 in G2. injection G2 as <-.
  split; [exact Hn|]. split; [reflexivity|]. rewrite Cmod_diag. lra.
Qed.

Lemma allclose_ex : allclose [RtoC 2; RtoC 3] [RtoC 2; RtoC 3] = true /\
  allclose [RtoC (3 / 5); RtoC 2] [RtoC (5 / 8); RtoC 2] = false.
Proof.
  split.
  - apply allclose_spec. intros x y [E|[E|[]]]; injection E as <- <-; rewrite Cmod_diag, Cmod_R;
    pose proof (Rabs_pos 2); pose proof (Rabs_pos 3); lra.
  - pose proof test_reduce_mv1_fails as F. unfold test_reduce_mv1 in F. rewrite setup_eq in F. cbn [bind] in F.
    rewrite test_mv1_reduce in F. cbn [bind] in F. injection F as F. exact F.
Qed.

(** The documented formula, entry list by entry list. *)
Definition reduce_weighted (m : multivalue) : result (list C) :=
  Ok (map (fun p => match mv_get m p with
                    | Ok [e] => me_value e
                    | Ok [e0; e1] => Cdiv (Cplus (Cmult (RtoC (me_elen e1)) (me_value e0)) (Cmult (RtoC (me_elen e0)) (me_value e1)))
                                          (RtoC (me_elen e0 + me_elen e1))
                    | _ => RtoC 0
                    end) (mv_nodes m)).

Lemma weighted_ex : exists (reduce : multivalue -> result (list C)) vs,
  reduce test_mv1 = Ok vs /\ length vs = length (mv_nodes test_mv1) /\
  (forall i p, nth_error (mv_nodes test_mv1) i = Some p ->
     exists l v, mv_get test_mv1 p = Ok l /\ nth_error vs i = Some v /\ weighted_average l v).
Proof.
  exists reduce_weighted. eexists. split; [reflexivity|]. split; [reflexivity|].
  intros [|[|[|i]]] p Hp; cbn in Hp; try discriminate; injection Hp as <-; do 2 eexists; (split; [reflexivity|]); (split; [reflexivity|]).
  - right. do 2 eexists. split; reflexivity.
  - left. eexists. split; reflexivity.
Qed.
