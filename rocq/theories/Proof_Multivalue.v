(** Lemmas about Multivalue. *)
From Coq Require Import ZArith List Bool Reals Lia Lra.
From Coquelicot Require Import Complex.
From Verif Require Import Model_Py Model_Multivalue Spec_Multivalue.
Import ListNotations.
Open Scope Z_scope.

Lemma node_eqb_spec : forall p q, reflect (p = q) (node_eqb p q).
Proof.
  intros [a b] [c d]. unfold node_eqb. simpl.
  destruct (Z.eqb_spec a c), (Z.eqb_spec b d); simpl; constructor; congruence.
Qed.

Lemma node_eqb_refl : forall p, node_eqb p p = true.
Proof. intros p. destruct (node_eqb_spec p p); congruence. Qed.

Lemma setype_eqb_spec : forall p q, reflect (p = q) (setype_eqb p q).
Proof.
  intros [a b] [c d]. unfold setype_eqb. simpl.
  destruct (Z.eqb_spec a c), b, d; simpl; constructor; congruence.
Qed.

Lemma dict_get_set_same : forall d p l, dict_get (dict_set d p l) p = Ok l.
Proof.
  induction d as [|[q m] d IH]; intros p l; simpl.
  - rewrite node_eqb_refl. reflexivity.
  - destruct (node_eqb_spec q p) as [->|n]; simpl.
    + rewrite node_eqb_refl. reflexivity.
    + destruct (node_eqb_spec q p); [congruence|]. apply IH.
Qed.

Lemma dict_get_set_other : forall d p q l, p <> q ->
  dict_get (dict_set d p l) q = dict_get d q.
Proof.
  induction d as [|[r m] d IH]; intros p q l Hpq; simpl.
  - destruct (node_eqb_spec p q); [congruence|reflexivity].
  - destruct (node_eqb_spec r p) as [->|n]; simpl.
    + destruct (node_eqb_spec p q); [congruence|]. reflexivity.
    + destruct (node_eqb_spec r q); [reflexivity|]. apply IH; assumption.
Qed.

Definition has_key (d : mv_dict) p := exists l, dict_get d p = Ok l.

Lemma dict_get_err : forall d p e, dict_get d p = Err e -> e = KeyError.
Proof.
  induction d as [|[q m] d IH]; intros p e; simpl; [congruence|].
  destruct (node_eqb q p); [discriminate|]. apply IH.
Qed.

Lemma has_key_set : forall d p l q, has_key (dict_set d p l) q <-> p = q \/ has_key d q.
Proof.
  intros d p l q. unfold has_key. destruct (node_eqb_spec p q) as [->|n].
  - rewrite dict_get_set_same. split; [intros; left; reflexivity|].
    intros _. exists l. reflexivity.
  - rewrite dict_get_set_other by assumption. tauto.
Qed.

(** Keys, as a list; [dict_set] keeps them duplicate-free. *)
Lemma dict_set_keys : forall d p l,
  map fst (dict_set d p l) = map fst d \/
  (~ In p (map fst d) /\ map fst (dict_set d p l) = map fst d ++ [p]).
Proof.
  induction d as [|[q m] d IH]; intros p l; simpl.
  - right. split; [tauto|reflexivity].
  - destruct (node_eqb_spec q p) as [->|n]; simpl.
    + left. reflexivity.
    + destruct (IH p l) as [H | [H1 H2]].
      * left. congruence.
      * right. split; [|rewrite H2; reflexivity]. intros [H|H]; congruence.
Qed.

Lemma NoDup_snoc : forall {A} (l : list A) a, NoDup l -> ~ In a l -> NoDup (l ++ [a]).
Proof.
  induction l as [|b l IH]; intros a Hl Ha; simpl.
  - constructor; [intros []|constructor].
  - inversion Hl; subst. constructor.
    + rewrite in_app_iff. intros [H|[H|[]]]; [contradiction|].
      subst. apply Ha. left; reflexivity.
    + apply IH; [assumption|]. intros H. apply Ha. right; assumption.
Qed.

Lemma dict_set_nodup : forall d p l, NoDup (map fst d) -> NoDup (map fst (dict_set d p l)).
Proof.
  intros d p l H. destruct (dict_set_keys d p l) as [-> | [H1 ->]]; [assumption|].
  apply NoDup_snoc; assumption.
Qed.

Lemma in_keys_get : forall d p l, NoDup (map fst d) -> In (p, l) d -> dict_get d p = Ok l.
Proof.
  induction d as [|[q m] d IH]; intros p l Hn H; [destruct H|].
  simpl in *. inversion Hn; subst. destruct H as [H|H].
  - injection H as -> ->. rewrite node_eqb_refl. reflexivity.
  - destruct (node_eqb_spec q p) as [->|n].
    + exfalso. apply H2. apply in_map_iff. exists (p, l). auto.
    + apply IH; assumption.
Qed.

Lemma get_in : forall d p l, dict_get d p = Ok l -> In (p, l) d.
Proof.
  induction d as [|[q m] d IH]; intros p l H; simpl in H; [discriminate|].
  destruct (node_eqb_spec q p) as [->|n].
  - injection H as ->. left; reflexivity.
  - right. apply IH; assumption.
Qed.


Lemma mv_new_aux : forall nodes d p,
  has_key (fold_left (fun d p => dict_set d p []) nodes d) p <->
  In p nodes \/ has_key d p.
Proof.
  induction nodes as [|q nodes IH]; intros d p; simpl; [tauto|].
  rewrite IH, has_key_set. tauto.
Qed.

Lemma mv_new_nodup : forall nodes d, NoDup (map fst d) ->
  NoDup (map fst (fold_left (fun d p => dict_set d p []) nodes d)).
Proof.
  induction nodes as [|q nodes IH]; intros d H; simpl; [assumption|].
  apply IH. apply dict_set_nodup. assumption.
Qed.

Lemma mv_new_get_aux : forall nodes d p,
  (forall l, dict_get d p = Ok l -> l = []) ->
  forall l, dict_get (fold_left (fun d p => dict_set d p []) nodes d) p = Ok l -> l = [].
Proof.
  induction nodes as [|q nodes IH]; intros d p Hd l H; simpl in H; [auto|].
  apply (IH (dict_set d q []) p); [|assumption].
  intros l'. destruct (node_eqb_spec q p) as [->|n].
  - rewrite dict_get_set_same. congruence.
  - rewrite dict_get_set_other by assumption. apply Hd.
Qed.

Lemma mv_new_wf : forall nodes, mv_wf (mv_new nodes).
Proof.
  intros nodes. split.
  - apply mv_new_nodup. constructor.
  - intros p. unfold mv_get. simpl. change (exists l, dict_get ?d p = Ok l)
      with (has_key d p). rewrite mv_new_aux. unfold has_key. simpl.
    split; [tauto|]. intros [H|[l H]]; [assumption|discriminate].
Qed.

Lemma mv_new_get : forall nodes p, In p nodes -> mv_get (mv_new nodes) p = Ok [].
Proof.
  intros nodes p H. destruct (mv_new_wf nodes) as [_ Hw].
  destruct (proj1 (Hw p) H) as [l Hl]. rewrite Hl. f_equal.
  unfold mv_get, mv_new in Hl. simpl in Hl.
  apply (mv_new_get_aux nodes [] p) in Hl; [assumption|]. simpl. discriminate.
Qed.

Lemma mv_append_spec : forall m p e m', mv_append m p e = Ok m' ->
  exists l, mv_get m p = Ok l /\ mv_nodes m' = mv_nodes m /\
    mv_get m' p = Ok (l ++ [e]) /\
    (forall q, p <> q -> mv_get m' q = mv_get m q) /\ (mv_wf m -> mv_wf m').
Proof.
  intros m p e m' H. unfold mv_append in H.
  destruct (mv_get m p) as [l|] eqn:E; [|discriminate]. simpl in H.
  injection H as <-. exists l. split; [reflexivity|]. split; [reflexivity|].
  unfold mv_get in *. simpl.
  split; [apply dict_get_set_same|]. split; [intros; apply dict_get_set_other; assumption|].
  intros [H1 H2]. split; [apply dict_set_nodup; assumption|].
  intros q. simpl. rewrite H2. unfold mv_get. simpl.
  change (exists l0, dict_get ?d q = Ok l0) with (has_key d q).
  rewrite has_key_set. split; [tauto|]. intros [<-|Hq]; [exists l; assumption|assumption].
Qed.

Lemma mv_append_ok : forall m p e l, mv_get m p = Ok l -> exists m', mv_append m p e = Ok m'.
Proof. intros m p e l H. unfold mv_append. rewrite H. simpl. eexists; reflexivity. Qed.

(** Sum of one entry with its partner. *)
Definition entry_sum (e1 e2 : mv_entry) : mv_entry :=
  mk_entry (me_elen e1) (Cplus (me_value e1) (me_value e2)) (me_setype e1).

(** Why an addition fails at a node. *)
Definition add_failure (m2 : multivalue) (p : node) (e1 : mv_entry) (i : nat)
    (e : py_error) : Prop :=
  (e = KeyError /\ mv_get m2 p = Err KeyError) \/
  (exists l2, mv_get m2 p = Ok l2 /\
     ((e = IndexError /\ nth_error l2 i = None) \/
      (e = AssertionError /\
       exists e2, nth_error l2 i = Some e2 /\ me_setype e1 <> me_setype e2))).

Definition add_success (m2 : multivalue) (p : node) (e1 : mv_entry) (i : nat)
    (e2 : mv_entry) : Prop :=
  exists l2, mv_get m2 p = Ok l2 /\ nth_error l2 i = Some e2 /\
    me_setype e1 = me_setype e2.

Lemma add_entries_spec : forall l1 i p m2 res l0,
  mv_get res p = Ok l0 ->
  (exists res' ls, mv_add_entries p l1 i m2 res = Ok res' /\
     length ls = length l1 /\
     (forall j e1, nth_error l1 j = Some e1 ->
        exists e2, add_success m2 p e1 (i + j) e2 /\
          nth_error ls j = Some (entry_sum e1 e2)) /\
     mv_nodes res' = mv_nodes res /\ mv_get res' p = Ok (l0 ++ ls) /\
     (forall q, p <> q -> mv_get res' q = mv_get res q) /\
     (mv_wf res -> mv_wf res')) \/
  (exists e j e1, mv_add_entries p l1 i m2 res = Err e /\
     nth_error l1 j = Some e1 /\ add_failure m2 p e1 (i + j) e).
Proof.
  induction l1 as [|d1 l1 IH]; intros i p m2 res l0 Hres.
  - left. exists res, []. split; [reflexivity|]. split; [reflexivity|].
    split; [intros [|j]; discriminate|]. split; [reflexivity|].
    rewrite app_nil_r. split; [assumption|]. split; [reflexivity|tauto].
  - simpl. destruct (mv_get m2 p) as [l2|e] eqn:E2; simpl.
    2:{ right. exists e, 0%nat, d1. split; [reflexivity|]. split; [reflexivity|].
        left. assert (e = KeyError) by (eapply dict_get_err; exact E2). subst. auto. }
    unfold list_get. destruct (nth_error l2 i) as [d2|] eqn:En; simpl.
    2:{ right. exists IndexError, 0%nat, d1. split; [reflexivity|].
        split; [reflexivity|]. right. exists l2. rewrite Nat.add_0_r. auto. }
    destruct (setype_eqb_spec (me_setype d1) (me_setype d2)) as [Es|Es]; simpl.
    2:{ right. exists AssertionError, 0%nat, d1. split; [reflexivity|].
        split; [reflexivity|]. right. exists l2. rewrite Nat.add_0_r.
        split; [assumption|]. right. split; [reflexivity|]. exists d2. auto. }
    fold (entry_sum d1 d2).
    destruct (mv_append_ok res p (entry_sum d1 d2) l0 Hres) as [res1 Hr1].
    rewrite Hr1. simpl.
    destruct (mv_append_spec _ _ _ _ Hr1) as (l0' & H0 & Hnodes & Hget & Hoth & Hwf).
    assert (l0' = l0) by congruence. subst l0'.
    destruct (IH (S i) p m2 res1 _ Hget)
      as [(res' & ls & Hok & Hlen & Hls & Hn' & Hg' & Ho' & Hw') |
          (e & j & e1 & Herr & Hj & Hf)].
    + left. exists res', (entry_sum d1 d2 :: ls).
      split; [exact Hok|]. split; [simpl; congruence|].
      split.
      * intros [|j] e1 H; simpl in H.
        -- injection H as <-. exists d2. rewrite Nat.add_0_r.
           split; [|reflexivity]. exists l2. auto.
        -- destruct (Hls j e1 H) as (e2 & Hs & Hnth). exists e2.
           replace (i + S j)%nat with (S i + j)%nat by lia. auto.
      * split; [congruence|]. split; [rewrite Hg', <- app_assoc; reflexivity|].
        split; [|tauto]. intros q Hq. rewrite Ho' by assumption. apply Hoth; assumption.
    + right. exists e, (S j), e1. split; [exact Herr|]. split; [assumption|].
      replace (i + S j)%nat with (S i + j)%nat by lia. assumption.
Qed.

Lemma add_nodes_spec : forall d m2 res,
  NoDup (map fst d) ->
  (forall p l, In (p, l) d -> mv_get res p = Ok []) ->
  mv_wf res ->
  (exists res', mv_add_nodes d m2 res = Ok res' /\
     mv_nodes res' = mv_nodes res /\ mv_wf res' /\
     (forall p l1, In (p, l1) d -> exists ls, mv_get res' p = Ok ls /\
        length ls = length l1 /\
        forall j e1, nth_error l1 j = Some e1 ->
          exists e2, add_success m2 p e1 j e2 /\
            nth_error ls j = Some (entry_sum e1 e2)) /\
     (forall q, ~ In q (map fst d) -> mv_get res' q = mv_get res q)) \/
  (exists e p l1 j e1, mv_add_nodes d m2 res = Err e /\ In (p, l1) d /\
     nth_error l1 j = Some e1 /\ add_failure m2 p e1 j e).
Proof.
  induction d as [|[p l1] d IH]; intros m2 res Hnd Hemp Hwf.
  - left. exists res. split; [reflexivity|]. split; [reflexivity|].
    split; [assumption|]. split; [intros p l1 []|reflexivity].
  - simpl in Hnd. inversion Hnd as [|? ? Hp Hnd']; subst. simpl.
    destruct (add_entries_spec l1 0 p m2 res [] (Hemp p l1 (or_introl eq_refl)))
      as [(res1 & ls & Hok & Hlen & Hls & Hn1 & Hg1 & Ho1 & Hw1) |
          (e & j & e1 & Herr & Hj & Hf)].
    + rewrite Hok. simpl.
      destruct (IH m2 res1 Hnd') as
        [(res' & Hok' & Hn' & Hw' & Hin' & Hout') |
         (e & q & l1' & j & e1 & Herr & Hin & Hj & Hf)].
      * intros q l Hq. rewrite Ho1.
        -- apply (Hemp q l). right; assumption.
        -- intros ->. apply Hp. apply in_map_iff. exists (q, l). auto.
      * auto.
      * left. exists res'. split; [exact Hok'|]. split; [congruence|].
        split; [assumption|]. split.
        -- intros q l [Hq|Hq].
           ++ injection Hq as <- <-. exists ls.
              rewrite Hout' by assumption. rewrite Hg1. auto.
           ++ apply Hin'; assumption.
        -- intros q Hq. simpl in Hq. rewrite Hout' by tauto.
           apply Ho1. tauto.
      * right. exists e, q, l1', j, e1. split; [exact Herr|].
        split; [right; assumption|]. auto.
    + right. exists e, p, l1, j, e1. rewrite Herr. simpl. auto.
Qed.

Lemma mv_add_spec : forall m1 m2, mv_wf m1 ->
  (exists m, mv_add m1 m2 = Ok m /\ mv_nodes m = mv_nodes m1 /\ mv_wf m /\
     forall p l1, mv_get m1 p = Ok l1 -> exists ls, mv_get m p = Ok ls /\
        length ls = length l1 /\
        forall j e1, nth_error l1 j = Some e1 ->
          exists e2, add_success m2 p e1 j e2 /\
            nth_error ls j = Some (entry_sum e1 e2)) \/
  (exists e p l1 j e1, mv_add m1 m2 = Err e /\ mv_get m1 p = Ok l1 /\
     nth_error l1 j = Some e1 /\ add_failure m2 p e1 j e).
Proof.
  intros m1 m2 [Hnd Hk]. unfold mv_add.
  destruct (add_nodes_spec (mv_data m1) m2 (mv_new (mv_nodes m1)) Hnd)
    as [(m & Hok & Hn & Hw & Hin & _) | (e & p & l1 & j & e1 & Herr & Hin & Hj & Hf)].
  - intros p l H. apply mv_new_get. apply Hk. exists l.
    apply in_keys_get; assumption.
  - apply mv_new_wf.
  - left. exists m. split; [exact Hok|]. split; [exact Hn|]. split; [exact Hw|].
    intros p l1 H. apply Hin. apply get_in. exact H.
  - right. exists e, p, l1, j, e1. split; [exact Herr|].
    split; [apply in_keys_get; assumption|]. auto.
Qed.

Lemma add_success_failure : forall m2 p e1 i e2 e,
  add_success m2 p e1 i e2 -> add_failure m2 p e1 i e -> False.
Proof.
  intros m2 p e1 i e2 e (l2 & H1 & H2 & H3) [[_ H]|(l2' & H & [[_ H']|(_ & e2' & H' & H'')])];
    rewrite H1 in H; try discriminate; injection H as <-; congruence.
Qed.

(** Addition succeeds exactly on matching operands. *)
Lemma mv_add_ok_iff : forall m1 m2, mv_wf m1 ->
  ((exists m, mv_add m1 m2 = Ok m) <->
   (forall p l1 j e1, mv_get m1 p = Ok l1 -> nth_error l1 j = Some e1 ->
      exists l2 e2, mv_get m2 p = Ok l2 /\ nth_error l2 j = Some e2 /\
        me_setype e1 = me_setype e2)).
Proof.
  intros m1 m2 Hwf. destruct (mv_add_spec m1 m2 Hwf)
    as [(m & Hok & _ & _ & H) | (e & p & l1 & j & e1 & Herr & Hg & Hj & Hf)].
  - split; [|intros _; exists m; assumption].
    intros _ p l1 j e1 Hg Hj. destruct (H p l1 Hg) as (ls & _ & _ & Hs).
    destruct (Hs j e1 Hj) as (e2 & (l2 & H1 & H2 & H3) & _). exists l2, e2. auto.
  - split; [intros [m Hm]; congruence|]. intros H. exfalso.
    destruct (H p l1 j e1 Hg Hj) as (l2 & e2 & H1 & H2 & H3).
    eapply add_success_failure; [|exact Hf]. exists l2. eauto.
Qed.

Lemma mv_add_error : forall m1 m2 e, mv_wf m1 -> mv_add m1 m2 = Err e ->
  exists p l1 j e1, mv_get m1 p = Ok l1 /\ nth_error l1 j = Some e1 /\
    ((e = KeyError /\ mv_get m2 p = Err KeyError) \/
     (e = IndexError /\ exists l2, mv_get m2 p = Ok l2 /\ nth_error l2 j = None) \/
     (e = AssertionError /\ exists l2 e2, mv_get m2 p = Ok l2 /\
        nth_error l2 j = Some e2 /\ me_setype e1 <> me_setype e2)).
Proof.
  intros m1 m2 e Hwf He. destruct (mv_add_spec m1 m2 Hwf)
    as [(m & Hok & _) | (e' & p & l1 & j & e1 & Herr & Hg & Hj & Hf)]; [congruence|].
  assert (e' = e) by congruence. subst e'.
  exists p, l1, j, e1. split; [assumption|]. split; [assumption|].
  destruct Hf as [Hf | (l2 & H & [[-> Hf]|(-> & e2 & Hf & Hf')])].
  - left; assumption.
  - right; left. eauto.
  - right; right. eauto 7.
Qed.

Lemma mv_add_value : forall m1 m2 m, mv_wf m1 -> mv_add m1 m2 = Ok m ->
  mv_nodes m = mv_nodes m1 /\ mv_wf m /\
  forall p l1, mv_get m1 p = Ok l1 -> exists l, mv_get m p = Ok l /\
    length l = length l1 /\
    forall j e1, nth_error l1 j = Some e1 ->
      exists l2 e2, mv_get m2 p = Ok l2 /\ nth_error l2 j = Some e2 /\
        me_setype e2 = me_setype e1 /\
        nth_error l j = Some (mk_entry (me_elen e1)
           (Cplus (me_value e1) (me_value e2)) (me_setype e1)).
Proof.
  intros m1 m2 m Hwf He. destruct (mv_add_spec m1 m2 Hwf)
    as [(m' & Hok & Hn & Hw & H) | (e' & p & l1 & j & e1 & Herr & _)]; [|congruence].
  assert (m' = m) by congruence. subst m'.
  split; [assumption|]. split; [assumption|].
  intros p l1 Hg. destruct (H p l1 Hg) as (ls & Hls & Hlen & Hs).
  exists ls. split; [assumption|]. split; [assumption|].
  intros j e1 Hj. destruct (Hs j e1 Hj) as (e2 & (l2 & H1 & H2 & H3) & H4).
  exists l2, e2. auto.
Qed.

(** ** reduce *)


Lemma reduce_list_spec : forall l v, mv_reduce_list l = Ok v <-> node_average l v.
Proof.
  intros l v. unfold node_average. split.
  - destruct l as [|e0 [|e1 [|e2 l]]]; simpl; try discriminate; intros H;
      injection H as <-.
    + left. exists e0; auto.
    + right. exists e0, e1. split; [reflexivity|]. unfold Cdiv. f_equal.
      rewrite <- RtoC_inv by lra. f_equal. lra.
  - intros [(e & -> & ->)|(e0 & e1 & -> & ->)]; simpl; [reflexivity|].
    f_equal. unfold Cdiv. f_equal. rewrite <- RtoC_inv by lra. f_equal. lra.
Qed.

Lemma reduce_list_total : forall l, length l = 1%nat \/ length l = 2%nat ->
  exists v, mv_reduce_list l = Ok v.
Proof.
  intros [|e0 [|e1 [|e2 l]]] [H|H]; simpl in *; try lia; eexists; reflexivity.
Qed.

Lemma reduce_list_err : forall l, length l <> 1%nat -> length l <> 2%nat ->
  mv_reduce_list l = Err AssertionError.
Proof. intros [|e0 [|e1 [|e2 l]]] H1 H2; simpl in *; try lia; reflexivity. Qed.

Lemma reduce_nodes_spec : forall d ns vs,
  mv_reduce_nodes ns d = Ok vs <->
  (length vs = length ns /\
   forall i p, nth_error ns i = Some p ->
     exists l v, dict_get d p = Ok l /\ nth_error vs i = Some v /\ node_average l v).
Proof.
  intros d. induction ns as [|q ns IH]; intros vs; simpl.
  - split.
    + intros H. injection H as <-. split; [reflexivity|]. intros [|i]; discriminate.
    + intros [H _]. destruct vs; [reflexivity|discriminate].
  - split.
    + destruct (dict_get d q) as [l|] eqn:E; [|discriminate]. simpl.
      destruct (mv_reduce_list l) as [v|] eqn:Ev; [|discriminate]. simpl.
      destruct (mv_reduce_nodes ns d) as [vs'|] eqn:Er; [|discriminate]. simpl.
      intros H. injection H as <-. destruct (proj1 (IH vs') eq_refl) as [H1 H2].
      split; [simpl; congruence|]. intros [|i] p Hp; simpl in Hp.
      * injection Hp as <-. exists l, v. split; [assumption|]. split; [reflexivity|].
        apply reduce_list_spec; assumption.
      * apply H2; assumption.
    + intros [Hlen H]. destruct vs as [|v vs]; [discriminate|].
      destruct (H 0%nat q eq_refl) as (l & v' & Hg & Hv & Ha).
      simpl in Hv. injection Hv as <-. rewrite Hg. simpl.
      rewrite (proj2 (reduce_list_spec l v) Ha). simpl.
      rewrite (proj2 (IH vs)); [reflexivity|]. split; [simpl in Hlen; lia|].
      intros i p Hp. apply (H (S i) p Hp).
Qed.

Lemma mv_reduce_spec : forall m vs,
  mv_reduce m = Ok vs <->
  (length vs = length (mv_nodes m) /\
   forall i p, nth_error (mv_nodes m) i = Some p ->
     exists l v, mv_get m p = Ok l /\ nth_error vs i = Some v /\ node_average l v).
Proof. intros m vs. apply reduce_nodes_spec. Qed.

Lemma reduce_nodes_err : forall d ns,
  (forall p, In p ns -> exists l, dict_get d p = Ok l) ->
  (exists vs, mv_reduce_nodes ns d = Ok vs /\
     forall p l, In p ns -> dict_get d p = Ok l -> length l = 1%nat \/ length l = 2%nat) \/
  (mv_reduce_nodes ns d = Err AssertionError /\
     exists p l, In p ns /\ dict_get d p = Ok l /\ length l <> 1%nat /\ length l <> 2%nat).
Proof.
  intros d. induction ns as [|q ns IH]; intros Hk; simpl.
  - left. exists []. split; [reflexivity|]. intros p l [].
  - destruct (Hk q (or_introl eq_refl)) as [l Hl]. rewrite Hl. simpl.
    destruct (Nat.eq_dec (length l) 1) as [H1|H1];
      [|destruct (Nat.eq_dec (length l) 2) as [H2|H2]].
    3:{ right. rewrite reduce_list_err by assumption. split; [reflexivity|].
        exists q, l. auto. }
    all: destruct (reduce_list_total l ltac:(tauto)) as [v Hv]; rewrite Hv; simpl;
      destruct (IH (fun p Hp => Hk p (or_intror Hp))) as
        [(vs & Hvs & Hall) | (Herr & p & l' & Hp & Hl' & Hlen)];
      [left; rewrite Hvs; simpl; eexists; split; [reflexivity|];
       intros p l' [<-|Hp] Hl'; [assert (l' = l) by congruence; subst; tauto|
         apply (Hall p l' Hp Hl')]
      |right; rewrite Herr; simpl; split; [reflexivity|]; exists p, l'; auto].
Qed.

Lemma mv_reduce_fails_iff : forall m, mv_wf m ->
  (mv_reduce m = Err AssertionError <->
   exists p l, In p (mv_nodes m) /\ mv_get m p = Ok l /\
     length l <> 1%nat /\ length l <> 2%nat).
Proof.
  intros m [_ Hk]. unfold mv_reduce.
  destruct (reduce_nodes_err (mv_data m) (mv_nodes m)) as
    [(vs & Hvs & Hall) | (Herr & H)].
  - intros p Hp. apply Hk; assumption.
  - rewrite Hvs. split; [discriminate|]. intros (p & l & Hp & Hl & H1 & H2).
    destruct (Hall p l Hp Hl); contradiction.
  - rewrite Herr. split; [intros _; exact H|reflexivity].
Qed.

Lemma list_eq_nth : forall {A} (l1 l2 : list A), length l1 = length l2 ->
  (forall i a, nth_error l1 i = Some a -> nth_error l2 i = Some a) -> l1 = l2.
Proof.
  induction l1 as [|a l1 IH]; intros [|b l2] Hl H; simpl in *; try discriminate;
    [reflexivity|].
  pose proof (H 0%nat a eq_refl) as H0. simpl in H0. injection H0 as ->.
  f_equal. apply IH; [lia|]. intros i c Hc. apply (H (S i) c Hc).
Qed.

Lemma node_average_fun : forall l v w, node_average l v -> node_average l w -> v = w.
Proof.
  intros l v w [(e & -> & ->)|(e0 & e1 & -> & ->)]
    [(e' & H & ->)|(e0' & e1' & H & ->)]; try discriminate; injection H; intros; subst;
    reflexivity.
Qed.

(** Additivity of [reduce]. *)
Lemma mv_reduce_add : forall m1 m2 m v1 v2,
  mv_wf m1 -> mv_nodes m2 = mv_nodes m1 ->
  (forall p l1 l2, mv_get m1 p = Ok l1 -> mv_get m2 p = Ok l2 -> length l1 = length l2) ->
  mv_add m1 m2 = Ok m -> mv_reduce m1 = Ok v1 -> mv_reduce m2 = Ok v2 ->
  exists v, mv_reduce m = Ok v /\ length v = length v1 /\
    forall i x1 x2, nth_error v1 i = Some x1 -> nth_error v2 i = Some x2 ->
      nth_error v i = Some (Cplus x1 x2).
Proof.
  intros m1 m2 m v1 v2 Hwf Hn Hlen Hadd H1 H2.
  destruct (mv_add_value m1 m2 m Hwf Hadd) as (Hn' & _ & Hv).
  apply mv_reduce_spec in H1. apply mv_reduce_spec in H2.
  destruct H1 as [L1 H1], H2 as [L2 H2].
  exists (map (fun q => Cplus (fst q) (snd q)) (combine v1 v2)).
  assert (HL : length (combine v1 v2) = length v1)
    by (rewrite combine_length; rewrite L2, Hn, <- L1; lia).
  assert (Hc : forall i x1 x2, nth_error v1 i = Some x1 -> nth_error v2 i = Some x2 ->
    nth_error (map (fun q => Cplus (fst q) (snd q)) (combine v1 v2)) i
      = Some (Cplus x1 x2)).
  { clear. revert v2. induction v1 as [|a v1 IH]; intros [|b v2] [|i] x1 x2 E1 E2;
      simpl in *; try discriminate.
    - congruence.
    - apply IH; assumption. }
  split; [|split; [rewrite map_length; assumption|assumption]].
  apply mv_reduce_spec. split; [rewrite map_length, HL, L1, Hn'; reflexivity|].
  intros i p Hp. rewrite Hn' in Hp.
  destruct (H1 i p Hp) as (l1 & x1 & G1 & X1 & A1).
  destruct (H2 i p ltac:(rewrite Hn; exact Hp)) as (l2 & x2 & G2 & X2 & A2).
  destruct (Hv p l1 G1) as (l & Gl & Ll & Hl).
  exists l, (Cplus x1 x2). split; [assumption|]. split; [apply Hc; assumption|].
  specialize (Hlen p l1 l2 G1 G2).
  destruct A1 as [(e & -> & ->)|(e0 & e1 & -> & ->)].
  - destruct l2 as [|f [|]]; simpl in Hlen; try discriminate.
    destruct l as [|g [|]]; simpl in Ll; try discriminate.
    destruct (Hl 0%nat e eq_refl) as (l2' & e2 & Gl2 & Hnth & _ & Hg).
    simpl in Hg. injection Hg as ->. rewrite G2 in Gl2. injection Gl2 as <-.
    simpl in Hnth. injection Hnth as <-.
    destruct A2 as [(e' & E & ->)|(a & b & E & _)]; [|discriminate].
    injection E as <-. left. eexists. split; [reflexivity|]. reflexivity.
  - destruct l2 as [|f0 [|f1 [|]]]; simpl in Hlen; try discriminate.
    destruct l as [|g0 [|g1 [|]]]; simpl in Ll; try discriminate.
    destruct (Hl 0%nat e0 eq_refl) as (l2' & x & Gl2 & Hnth & _ & Hg).
    simpl in Hg. injection Hg as ->. rewrite G2 in Gl2. injection Gl2 as <-.
    simpl in Hnth. injection Hnth as <-.
    destruct (Hl 1%nat e1 eq_refl) as (l2' & x & Gl2 & Hnth & _ & Hg).
    simpl in Hg. injection Hg as ->. rewrite G2 in Gl2. injection Gl2 as <-.
    simpl in Hnth. injection Hnth as <-.
    destruct A2 as [(e' & E & _)|(a & b & E & ->)]; [discriminate|].
    injection E as <- <-. right. do 2 eexists. split; [reflexivity|]. simpl. ring.
Qed.

(** [reduce] does not look at elen (nor at setype). *)
Lemma mv_reduce_elen_irrelevant : forall m m',
  mv_nodes m = mv_nodes m' ->
  (forall p, In p (mv_nodes m) -> exists l l', mv_get m p = Ok l /\ mv_get m' p = Ok l' /\
     map me_value l = map me_value l') ->
  mv_reduce m = mv_reduce m'.
Proof.
  intros [ns d] [ns' d'] Hn H. simpl in Hn. subst ns'. unfold mv_reduce. simpl in *.
  induction ns as [|p ns IH]; [reflexivity|]. simpl.
  destruct (H p (or_introl eq_refl)) as (l & l' & Hl & Hl' & Hv).
  unfold mv_get in *. simpl in *. rewrite Hl, Hl'. simpl.
  assert (E : mv_reduce_list l = mv_reduce_list l').
  { destruct l as [|e0 [|e1 [|e2 l]]]; destruct l' as [|f0 [|f1 [|f2 l']]];
      simpl in Hv; try discriminate; simpl; try reflexivity; injection Hv; intros;
      congruence. }
  rewrite E. rewrite IH; [reflexivity|]. intros q Hq. apply H. right; assumption.
Qed.

Lemma mv_add_comm : forall m1 m2 m m', mv_wf m1 -> mv_wf m2 ->
  mv_nodes m2 = mv_nodes m1 -> mv_add m1 m2 = Ok m -> mv_add m2 m1 = Ok m' ->
  forall p l l', mv_get m p = Ok l -> mv_get m' p = Ok l' ->
    map (fun e => (me_value e, me_setype e)) l =
    map (fun e => (me_value e, me_setype e)) l'.
Proof.
  intros m1 m2 m m' W1 W2 Hn A A' p l l' G G'.
  destruct (mv_add_value _ _ _ W1 A) as (N1 & Wm & H1).
  destruct (mv_add_value _ _ _ W2 A') as (N2 & Wm' & H2).
  assert (In p (mv_nodes m)) as Hp by (apply Wm; eauto). rewrite N1 in Hp.
  destruct (proj1 (proj2 W1 p) Hp) as [l1 G1].
  assert (In p (mv_nodes m2)) as Hp2 by congruence.
  destruct (proj1 (proj2 W2 p) Hp2) as [l2 G2].
  destruct (H1 p l1 G1) as (lx & Gx & Lx & Hx). assert (lx = l) by congruence. subst lx.
  destruct (H2 p l2 G2) as (ly & Gy & Ly & Hy). assert (ly = l') by congruence. subst ly.
  assert (L12 : length l1 = length l2).
  { assert (F : forall a b : list mv_entry, (forall j e, nth_error a j = Some e ->
        exists e2, nth_error b j = Some e2) -> (length a <= length b)%nat).
    { intros a b F. destruct (Nat.le_gt_cases (length a) (length b)); [assumption|].
      destruct (nth_error a (length b)) as [e|] eqn:E.
      - destruct (F _ _ E) as [e2 E2].
        assert (nth_error b (length b) <> None) as X by congruence.
        apply nth_error_Some in X. lia.
      - apply nth_error_None in E. lia. }
    apply Nat.le_antisymm.
    - apply F. intros j e Hj. destruct (Hx j e Hj) as (l2' & e2 & Ge & He & _).
      rewrite G2 in Ge. injection Ge as <-. eauto.
    - apply F. intros j e Hj. destruct (Hy j e Hj) as (l2' & e2 & Ge & He & _).
      rewrite G1 in Ge. injection Ge as <-. eauto. }
  apply list_eq_nth; [rewrite !map_length; lia|].
  intros i a Ha. rewrite nth_error_map in Ha |- *.
  destruct (nth_error l i) as [e|] eqn:Ei; [|discriminate]. simpl in Ha. injection Ha as <-.
  assert (Hi : (i < length l)%nat) by (apply nth_error_Some; congruence).
  destruct (nth_error l1 i) as [e1|] eqn:E1; [|apply nth_error_None in E1; lia].
  destruct (nth_error l2 i) as [e2|] eqn:E2; [|apply nth_error_None in E2; lia].
  destruct (Hx i e1 E1) as (lz & f2 & Gz & Fz & S1 & Ez).
  rewrite G2 in Gz. injection Gz as <-. rewrite E2 in Fz. injection Fz as <-.
  destruct (Hy i e2 E2) as (lz & f1 & Gz & Fz & S2 & Ez').
  rewrite G1 in Gz. injection Gz as <-. rewrite E1 in Fz. injection Fz as <-.
  rewrite Ez in Ei. injection Ei as <-. rewrite Ez'. simpl. f_equal. f_equal; [ring|congruence].
Qed.



Lemma test_mv1_wf : mv_wf test_mv1.
Proof.
  split; simpl.
  - repeat constructor; simpl; intuition discriminate.
  - intros p. unfold mv_get. simpl.
    destruct (node_eqb_spec (0, 0) p) as [<-|n1]; [split; eauto|].
    destruct (node_eqb_spec (0, 1) p) as [<-|n2]; [split; eauto|].
    split; [intuition|intros [l Hl]; discriminate].
Qed.

Lemma test_mv1_reduce : mv_reduce test_mv1 = Ok [RtoC (5/8); RtoC 2].
Proof.
  apply mv_reduce_spec. split; [reflexivity|].
  intros [|[|i]] p H; simpl in H.
  - injection H as <-. unfold mv_get; simpl.
    do 2 eexists. split; [reflexivity|]. split; [reflexivity|].
    right. do 2 eexists. split; [reflexivity|]. simpl.
    rewrite <- RtoC_plus, <- RtoC_mult. f_equal. lra.
  - injection H as <-. unfold mv_get; simpl.
    do 2 eexists. split; [reflexivity|]. split; [reflexivity|].
    left. eexists. split; reflexivity.
  - destruct i; discriminate.
Qed.

Lemma reduce_weighted_refuted : exists m vs, mv_wf m /\ mv_reduce m = Ok vs /\
  exists i p l v, nth_error (mv_nodes m) i = Some p /\ mv_get m p = Ok l /\
    nth_error vs i = Some v /\ ~ weighted_average l v.
Proof.
  exists test_mv1, [RtoC (5/8); RtoC 2]. split; [exact test_mv1_wf|].
  split; [exact test_mv1_reduce|].
  exists 0%nat, (0, 0). do 2 eexists. split; [reflexivity|].
  split; [unfold mv_get; simpl; reflexivity|]. split; [reflexivity|].
  intros [(e & H & _)|(e0 & e1 & H & Hv)]; [discriminate|].
  injection H as <- <-. simpl in Hv.
  rewrite <- !RtoC_mult, <- RtoC_plus in Hv. unfold Cdiv in Hv.
  rewrite <- RtoC_inv in Hv by lra. rewrite <- RtoC_mult in Hv.
  apply RtoC_inj in Hv. lra.
Qed.

Lemma mv_reachable_wf : forall m, mv_reachable m -> mv_wf m.
Proof.
  induction 1 as [ns|m p e m' _ IH Ha|m1 m2 m _ IH1 _ _ Ha].
  - apply mv_new_wf.
  - destruct (mv_append_spec _ _ _ _ Ha) as (l & _ & _ & _ & _ & H). auto.
  - destruct (mv_add_value _ _ _ IH1 Ha) as (_ & H & _). exact H.
Qed.

Lemma mv_reachable_get : forall m p, mv_reachable m ->
  mv_get m p = Err KeyError <-> ~ In p (mv_nodes m).
Proof.
  intros m p H. apply mv_reachable_wf in H. destruct H as [_ H]. rewrite H.
  destruct (mv_get m p) as [l|e] eqn:E.
  - split; [discriminate|]. intros N. exfalso. apply N. eauto.
  - assert (e = KeyError) by (eapply dict_get_err; exact E). subst.
    split; [|reflexivity]. intros _ [l Hl]. discriminate.
Qed.
