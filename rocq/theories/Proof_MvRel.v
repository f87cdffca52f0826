(** Relative convergence of multivalued functions (C68). *)
From Coq Require Import ZArith List Bool Reals Lia.
From Coquelicot Require Import Complex.
From Verif Require Import Model_Py Model_Grid Model_Multivalue Model_MvRel Proof_Grid Spec_MvRel.
Import ListNotations.
Open Scope Z_scope.

Lemma setype_eqb_spec : forall s t, reflect (s = t) (setype_eqb s t).
Proof.
  intros [a e] [b f]. unfold setype_eqb. cbn [fst snd].
  destruct (Z.eqb_spec a b) as [->|N]; [|constructor; congruence].
  destruct e, f; constructor; congruence.
Qed.

Lemma find_first : forall l s e, mv_find l s = Some e <-> first_with l s e.
Proof.
  intros l s e. unfold mv_find. induction l as [|x l IH]; cbn [find].
  - split; [discriminate|]. intros (b & a & E & _). destruct b; discriminate.
  - destruct (setype_eqb_spec (me_setype x) s) as [E|N].
    + split.
      * intros H. injection H as <-. exists [], l. split; [reflexivity|]. split; [exact E|]. intros y [].
      * intros (b & a & El & Es & Hb). destruct b as [|y b]; inversion El; subst; [reflexivity|].
        exfalso. apply (Hb y); [left; reflexivity|congruence].
    + rewrite IH. split.
      * intros (b & a & -> & Es & Hb). exists (x :: b), a. split; [reflexivity|]. split; [exact Es|].
        intros y [<-|Hy]; [exact N|apply Hb; exact Hy].
      * intros (b & a & El & Es & Hb). destruct b as [|y b]; injection El as Ex El'; [congruence|].
        exists b, a. split; [exact El'|]. split; [exact Es|]. intros z Hz. apply Hb. right. exact Hz.
Qed.

Lemma find_none : forall l s, mv_find l s = None -> forall e, ~ first_with l s e.
Proof. intros l s H e He. apply find_first in He. congruence. Qed.

Lemma node_diffs_ok : forall fine p lf l, mv_get fine p = Ok lf ->
  exists ds, mv_node_diffs fine p l = Ok ds /\
    forall d, In d ds <-> exists e f, In e l /\ first_with lf (me_setype e) f /\
      d = Cmod (Cminus (me_value f) (me_value e)).
Proof.
  intros fine p lf l Hf. induction l as [|e l [ds [E H]]].
  - exists []. split; [reflexivity|]. intros d. split; [intros []|]. intros (e & f & [] & _).
  - cbn [mv_node_diffs]. rewrite Hf. cbn [bind]. rewrite E. cbn [bind].
    eexists. split; [reflexivity|]. intros d.
    destruct (mv_find lf (me_setype e)) as [f|] eqn:Ef.
    + pose proof (proj1 (find_first _ _ _) Ef) as Hff. split.
      * intros [<-|Hd]; [exists e, f; repeat split; [left; reflexivity|exact Hff]|].
        apply H in Hd. destruct Hd as (e' & f' & He & Hr). exists e', f'. split; [right; exact He|exact Hr].
      * intros (e' & f' & [<-|He] & Hw & ->).
        -- left. apply find_first in Hw. rewrite Ef in Hw. injection Hw as ->. reflexivity.
        -- right. apply H. exists e', f'. auto.
    + rewrite H. split.
      * intros (e' & f' & He & Hr). exists e', f'. split; [right; exact He|exact Hr].
      * intros (e' & f' & [<-|He] & Hw & Hr); [destruct (find_none _ _ Ef _ Hw)|].
        exists e', f'. auto.
Qed.

Lemma node_diffs_err : forall fine p e, mv_get fine p = Err e -> forall l,
  mv_node_diffs fine p l = match l with [] => Ok [] | _ => Err e end.
Proof. intros fine p e H [|x l]; [reflexivity|]. cbn [mv_node_diffs]. rewrite H. reflexivity. Qed.

Lemma get_err : forall m p e, mv_get m p = Err e -> e = KeyError.
Proof.
  intros m p e. unfold mv_get. induction (mv_data m) as [|[q l] d IH]; cbn [dict_get].
  - congruence.
  - destruct (node_eqb q p); [discriminate|exact IH].
Qed.

(** One block of the loop. *)
Definition block (fine coarse : multivalue) (i j : Z) : result (list R) :=
  l <- mv_get coarse (i, j);; mv_node_diffs fine (2 * i, 2 * j) l.

Lemma block_ok : forall fine coarse i j ds, block fine coarse i j = Ok ds ->
  comparable fine coarse i j /\ forall d, In d ds <-> compared fine coarse i j d.
Proof.
  intros fine coarse i j ds. unfold block, comparable, compared.
  destruct (mv_get coarse (i, j)) as [l|e] eqn:El; [|discriminate]. cbn [bind].
  destruct (mv_get fine (2 * i, 2 * j)) as [lf|e] eqn:Ef.
  - destruct (node_diffs_ok fine _ lf l Ef) as [ds' [E H]]. rewrite E. intros HE. injection HE as <-.
    split; [exists l; split; [reflexivity|right; exists lf; reflexivity]|]. intros d. rewrite H. split.
    + intros (e & f & H1 & H2 & H3). exists l, lf, e, f. auto.
    + intros (lc & lf' & e & f & E1 & E2 & H1 & H2 & H3). injection E1 as <-. injection E2 as <-.
      exists e, f. auto.
  - rewrite (node_diffs_err _ _ _ Ef). destruct l; [|discriminate]. intros HE. injection HE as <-.
    split; [exists []; auto|]. intros d. split; [intros []|].
    intros (lc & lf & e' & f & E1 & E2 & _). discriminate.
Qed.

Lemma block_err : forall fine coarse i j e, block fine coarse i j = Err e ->
  e = KeyError /\ ~ comparable fine coarse i j.
Proof.
  intros fine coarse i j e. unfold block, comparable.
  destruct (mv_get coarse (i, j)) as [l|e'] eqn:El; cbn [bind].
  - destruct (mv_get fine (2 * i, 2 * j)) as [lf|e'] eqn:Ef.
    + destruct (node_diffs_ok fine _ lf l Ef) as [ds' [E H]]. rewrite E. discriminate.
    + rewrite (node_diffs_err _ _ _ Ef). destruct l; [discriminate|]. intros HE. injection HE as <-.
      split; [exact (get_err _ _ _ Ef)|]. intros (lc & E1 & [->|[lf E2]]); [discriminate|discriminate].
  - intros HE. injection HE as <-. split; [exact (get_err _ _ _ El)|]. intros (lc & E1 & _). discriminate.
Qed.

Lemma half : forall i, i mod 2 = 0 -> i = 2 * (i / 2).
Proof. intros i H. rewrite (Z.div_mod i 2) at 1 by lia. lia. Qed.
Lemma quarter : forall i, i mod 4 = 0 -> i / 2 = 2 * (i / 4) /\ i = 4 * (i / 4).
Proof.
  intros i H. assert (E : i = 4 * (i / 4)) by (rewrite (Z.div_mod i 4) at 1 by lia; lia).
  split; [|exact E]. rewrite E at 1. replace (4 * (i / 4)) with (2 * (i / 4) * 2) by ring.
  apply Z.div_mul. lia.
Qed.

Lemma diffs_step : forall u0 u1 u2 i j nodes, mv_rel_diffs u0 u1 u2 ((i, j) :: nodes) =
  (d12 <- (if (i mod 4 =? 0) && (j mod 4 =? 0) then block u1 u2 (i / 4) (j / 4) else Ok []);;
   d01 <- (if (i mod 2 =? 0) && (j mod 2 =? 0) then block u0 u1 (i / 2) (j / 2) else Ok []);;
   rest <- mv_rel_diffs u0 u1 u2 nodes;;
   Ok (d12 ++ fst rest, d01 ++ snd rest)).
Proof.
  intros u0 u1 u2 i j nodes. cbn [mv_rel_diffs]. unfold block.
  destruct (Z.eqb_spec (i mod 4) 0) as [E4|_].
  - destruct (Z.eqb_spec (j mod 4) 0) as [F4|_].
    + destruct (quarter i E4) as [<- _]. destruct (quarter j F4) as [<- _]. cbn [andb].
      destruct (Z.eqb_spec (i mod 2) 0) as [E2|_]; [|reflexivity].
      destruct (Z.eqb_spec (j mod 2) 0) as [F2|_]; [|reflexivity].
      rewrite <- (half i E2), <- (half j F2). reflexivity.
    + cbn [andb].
      destruct (Z.eqb_spec (i mod 2) 0) as [E2|_]; [|reflexivity].
      destruct (Z.eqb_spec (j mod 2) 0) as [F2|_]; [|reflexivity].
      rewrite <- (half i E2), <- (half j F2). reflexivity.
  - cbn [andb].
      destruct (Z.eqb_spec (i mod 2) 0) as [E2|_]; [|reflexivity].
      destruct (Z.eqb_spec (j mod 2) 0) as [F2|_]; [|reflexivity].
      rewrite <- (half i E2), <- (half j F2). reflexivity.
Qed.

Lemma mul_mod : forall n i, n <> 0 -> (n * i) mod n = 0.
Proof. intros n i H. rewrite Z.mul_comm. apply Z.mod_mul. exact H. Qed.

Lemma rel_diffs_spec : forall u0 u1 u2 nodes d12 d01,
  mv_rel_diffs u0 u1 u2 nodes = Ok (d12, d01) ->
  (forall d, In d d12 <-> exists i j, In (4 * i, 4 * j) nodes /\ compared u1 u2 i j d) /\
  (forall d, In d d01 <-> exists i j, In (2 * i, 2 * j) nodes /\ compared u0 u1 i j d).
Proof.
  intros u0 u1 u2 nodes. induction nodes as [|[i j] nodes IH]; intros d12 d01.
  - cbn [mv_rel_diffs]. intros H. injection H as <- <-.
    split; intros d; (split; [intros []|intros (i & j & [] & _)]).
  - rewrite diffs_step.
    set (B12 := if (i mod 4 =? 0) && (j mod 4 =? 0) then _ else _).
    set (B01 := if (i mod 2 =? 0) && (j mod 2 =? 0) then _ else _).
    destruct B12 as [b12|] eqn:E12; [|discriminate]. destruct B01 as [b01|] eqn:E01; [|discriminate].
    cbn [bind]. destruct (mv_rel_diffs u0 u1 u2 nodes) as [[r12 r01]|] eqn:Er; [|discriminate].
    cbn [bind fst snd]. intros H. injection H as <- <-. subst B12 B01.
    destruct (IH r12 r01 eq_refl) as [H12 H01]. split; intros d; rewrite in_app_iff.
    + rewrite H12. split.
      * intros [Hd|(i' & j' & Hn & Hc)]; [|exists i', j'; split; [right; exact Hn|exact Hc]].
        destruct (Z.eqb_spec (i mod 4) 0) as [E4|_];
          [|injection E12 as <-; destruct Hd].
        destruct (Z.eqb_spec (j mod 4) 0) as [F4|_]; [|injection E12 as <-; destruct Hd].
        apply block_ok in E12. exists (i / 4), (j / 4). split; [|apply E12; exact Hd].
        left. destruct (quarter i E4) as [_ <-]. destruct (quarter j F4) as [_ <-]. reflexivity.
      * intros (i' & j' & [Hn|Hn] & Hc); [|right; exists i', j'; auto]. left.
        assert (i = 4 * i') by congruence. assert (j = 4 * j') by congruence. subst i j. rewrite !mul_mod in E12 by lia. cbn [Z.eqb andb] in E12.
        apply block_ok in E12. replace (4 * i' / 4) with i' in E12 by (rewrite Z.mul_comm, Z.div_mul; lia).
        replace (4 * j' / 4) with j' in E12 by (rewrite Z.mul_comm, Z.div_mul; lia). apply E12. exact Hc.
    + rewrite H01. split.
      * intros [Hd|(i' & j' & Hn & Hc)]; [|exists i', j'; split; [right; exact Hn|exact Hc]].
        destruct (Z.eqb_spec (i mod 2) 0) as [E4|_];
          [|injection E01 as <-; destruct Hd].
        destruct (Z.eqb_spec (j mod 2) 0) as [F4|_]; [|injection E01 as <-; destruct Hd].
        apply block_ok in E01. exists (i / 2), (j / 2). split; [|apply E01; exact Hd].
        left. rewrite <- (half i E4), <- (half j F4). reflexivity.
      * intros (i' & j' & [Hn|Hn] & Hc); [|right; exists i', j'; auto]. left.
        assert (i = 2 * i') by congruence. assert (j = 2 * j') by congruence. subst i j. rewrite !mul_mod in E01 by lia. cbn [Z.eqb andb] in E01.
        apply block_ok in E01. replace (2 * i' / 2) with i' in E01 by (rewrite Z.mul_comm, Z.div_mul; lia).
        replace (2 * j' / 2) with j' in E01 by (rewrite Z.mul_comm, Z.div_mul; lia). apply E01. exact Hc.
Qed.

Lemma rel_diffs_total : forall u0 u1 u2 nodes,
  (exists d, mv_rel_diffs u0 u1 u2 nodes = Ok d) \/ mv_rel_diffs u0 u1 u2 nodes = Err KeyError.
Proof.
  intros u0 u1 u2 nodes. induction nodes as [|[i j] nodes IH]; [left; eexists; reflexivity|].
  rewrite diffs_step.
  destruct ((i mod 4 =? 0) && (j mod 4 =? 0)).
  - destruct (block u1 u2 (i / 4) (j / 4)) as [b|e] eqn:E; [|right; apply block_err in E; destruct E as [-> _]; reflexivity].
    cbn [bind]. destruct ((i mod 2 =? 0) && (j mod 2 =? 0)).
    + destruct (block u0 u1 (i / 2) (j / 2)) as [b'|e] eqn:E'; [|right; apply block_err in E'; destruct E' as [-> _]; reflexivity].
      cbn [bind]. destruct IH as [[d ->]| ->]; [left; eexists; reflexivity|right; reflexivity].
    + cbn [bind]. destruct IH as [[d ->]| ->]; [left; eexists; reflexivity|right; reflexivity].
  - cbn [bind]. destruct ((i mod 2 =? 0) && (j mod 2 =? 0)).
    + destruct (block u0 u1 (i / 2) (j / 2)) as [b'|e] eqn:E'; [|right; apply block_err in E'; destruct E' as [-> _]; reflexivity].
      cbn [bind]. destruct IH as [[d ->]| ->]; [left; eexists; reflexivity|right; reflexivity].
    + cbn [bind]. destruct IH as [[d ->]| ->]; [left; eexists; reflexivity|right; reflexivity].
Qed.

Lemma rel_diffs_ok_iff : forall u0 u1 u2 nodes,
  (exists d, mv_rel_diffs u0 u1 u2 nodes = Ok d) <->
  (forall i j, In (4 * i, 4 * j) nodes -> comparable u1 u2 i j) /\
  (forall i j, In (2 * i, 2 * j) nodes -> comparable u0 u1 i j).
Proof.
  intros u0 u1 u2 nodes. induction nodes as [|[i j] nodes IH].
  - split; [intros _; split; intros i j []|intros _; eexists; reflexivity].
  - rewrite diffs_step.
    set (B12 := if (i mod 4 =? 0) && (j mod 4 =? 0) then _ else _).
    set (B01 := if (i mod 2 =? 0) && (j mod 2 =? 0) then _ else _).
    assert (H12 : (exists b, B12 = Ok b) <-> forall i' j', (i, j) = (4 * i', 4 * j') -> comparable u1 u2 i' j').
    { subst B12. split.
      - intros [b Hb] i' j' E. assert (i = 4 * i') by congruence. assert (j = 4 * j') by congruence. subst i j. rewrite !mul_mod in Hb by lia. cbn [Z.eqb andb] in Hb.
        apply block_ok in Hb. replace (4 * i' / 4) with i' in Hb by (rewrite Z.mul_comm, Z.div_mul; lia).
        replace (4 * j' / 4) with j' in Hb by (rewrite Z.mul_comm, Z.div_mul; lia). apply Hb.
      - intros H. destruct (Z.eqb_spec (i mod 4) 0) as [E4|_]; [|eexists; reflexivity].
        destruct (Z.eqb_spec (j mod 4) 0) as [F4|_]; [|eexists; reflexivity]. cbn [andb].
        destruct (block u1 u2 (i / 4) (j / 4)) as [b|e] eqn:E; [eexists; reflexivity|].
        apply block_err in E. destruct E as [_ E]. exfalso. apply E. apply H.
        destruct (quarter i E4) as [_ <-]. destruct (quarter j F4) as [_ <-]. reflexivity. }
    assert (H01 : (exists b, B01 = Ok b) <-> forall i' j', (i, j) = (2 * i', 2 * j') -> comparable u0 u1 i' j').
    { subst B01. split.
      - intros [b Hb] i' j' E. assert (i = 2 * i') by congruence. assert (j = 2 * j') by congruence. subst i j. rewrite !mul_mod in Hb by lia. cbn [Z.eqb andb] in Hb.
        apply block_ok in Hb. replace (2 * i' / 2) with i' in Hb by (rewrite Z.mul_comm, Z.div_mul; lia).
        replace (2 * j' / 2) with j' in Hb by (rewrite Z.mul_comm, Z.div_mul; lia). apply Hb.
      - intros H. destruct (Z.eqb_spec (i mod 2) 0) as [E4|_]; [|eexists; reflexivity].
        destruct (Z.eqb_spec (j mod 2) 0) as [F4|_]; [|eexists; reflexivity]. cbn [andb].
        destruct (block u0 u1 (i / 2) (j / 2)) as [b|e] eqn:E; [eexists; reflexivity|].
        apply block_err in E. destruct E as [_ E]. exfalso. apply E. apply H.
        rewrite <- (half i E4), <- (half j F4). reflexivity. }
    split.
    + intros [d Hd]. destruct B12 as [b12|]; [|discriminate]. destruct B01 as [b01|]; [|discriminate].
      cbn [bind] in Hd. destruct (mv_rel_diffs u0 u1 u2 nodes) as [r|]; [|discriminate].
      destruct (proj1 IH (ex_intro _ r eq_refl)) as [I1 I2].
      split; intros i' j' [E|Hn].
      * apply (proj1 H12 (ex_intro _ b12 eq_refl)). exact E.
      * apply I1. exact Hn.
      * apply (proj1 H01 (ex_intro _ b01 eq_refl)). exact E.
      * apply I2. exact Hn.
    + intros [I1 I2]. destruct (proj2 H12) as [b12 ->]; [intros; apply I1; left; assumption|].
      destruct (proj2 H01) as [b01 ->]; [intros; apply I2; left; assumption|]. cbn [bind].
      destruct (proj2 IH) as [r ->]; [|eexists; reflexivity].
      split; intros i' j' Hn; [apply I1|apply I2]; right; exact Hn.
Qed.

Lemma mv_rel_pair_spec : forall u0 u1 u2 m12 m01,
  mv_rel_pair u0 u1 u2 = Ok (m12, m01) <->
  exists d12 d01, mv_rel_diffs u0 u1 u2 (mv_nodes u0) = Ok (d12, d01) /\
    (In m12 d12 /\ forall x, In x d12 -> (x <= m12)%R) /\
    (In m01 d01 /\ forall x, In x d01 -> (x <= m01)%R).
Proof.
  intros u0 u1 u2 m12 m01. unfold mv_rel_pair.
  destruct (mv_rel_diffs u0 u1 u2 (mv_nodes u0)) as [[d12 d01]|e]; cbn [bind fst snd].
  - split.
    + intros H. destruct (py_max d12) as [a|] eqn:E1; [|discriminate]. cbn [bind] in H.
      destruct (py_max d01) as [b|] eqn:E2; [|discriminate]. cbn [bind] in H. injection H as <- <-.
      exists d12, d01. split; [reflexivity|]. apply py_max_spec in E1. apply py_max_spec in E2. auto.
    + intros (e12 & e01 & E & H1 & H2). injection E as <- <-.
      apply py_max_spec in H1. apply py_max_spec in H2. rewrite H1. cbn [bind]. rewrite H2. reflexivity.
  - split; [discriminate|]. intros (e12 & e01 & E & _). discriminate.
Qed.
