(** Linearity of the boundary extension in the coefficients. *)
From Coq Require Import ZArith List Bool Reals Lra Lia Psatz.
From Coquelicot Require Import Coquelicot.
From Verif Require Import Model_Py Model_Multivalue Model_Grid Model_Chebyshev Model_Domain Model_Ext
  Model_Extend Spec_Chebyshev Spec_Domain Spec_Ext Spec_Extend Spec_Multivalue Spec_PS
  Proof_Basis Proof_Multivalue Proof_Grid Proof_Domain Proof_Boundary Proof_Place Proof_Ext Proof_Ext2 Proof_Extend.
Import ListNotations.
Open Scope R_scope.

Lemma nth_error_same : forall (A : Type) (l l' : list A), (forall j, nth_error l j = nth_error l' j) -> l = l'.
Proof.
  induction l as [|x l IH]; intros [|y l'] H; [reflexivity|specialize (H 0%nat); discriminate|specialize (H 0%nat); discriminate|].
  pose proof (H 0%nat) as H0. injection H0 as ->. f_equal. apply IH. intros j. exact (H (S j)).
Qed.

(** ** The loops of mv_extend *)

Definition sids (c : ext_ctx) (p : node) : list nat :=
  map (fun _ => 0%nat) (filter (node_eqb p) (ec_gamma c 0)) ++
  map (fun _ => 1%nat) (filter (node_eqb p) (ec_gamma c 1)) ++
  map (fun _ => 2%nat) (filter (node_eqb p) (ec_gamma c 2)).

Lemma sids_length : forall c p, length (sids c p) = occurrences c p.
Proof. intros. unfold sids, occurrences. rewrite !app_length, !map_length. reflexivity. Qed.

Lemma sids_in : forall c p s, In s (sids c p) -> (s < 3)%nat /\ In p (ec_gamma c s).
Proof.
  assert (A : forall c p s k, In s (map (fun _ => k) (filter (node_eqb p) (ec_gamma c k))) -> s = k /\ In p (ec_gamma c k)).
  { intros c p s k H. apply in_map_iff in H. destruct H as (q & <- & H). apply filter_In in H. destruct H as [H E].
    destruct (node_eqb_spec p q) as [->|]; [auto|discriminate]. }
  intros c p s H. unfold sids in H. rewrite !in_app_iff in H.
  destruct H as [H|[H|H]]; apply A in H; destruct H as [-> H]; split; auto.
Qed.

Definition entry (sid : nat) (e : EType) (r : R * C) : mv_entry :=
  mk_entry (fst r) (snd r) (Z.of_nat sid, e).

Lemma seg_loop_spec : forall c ext sid et va gamma mv, mv_wf mv ->
  (forall p, In p gamma -> In p (mv_nodes mv)) ->
  (forall p, In p gamma -> node_etype c sid p = Ok (et p) /\ ext sid (et p) p = Ok (va p)) ->
  exists m, mv_segment_loop c ext sid gamma mv = Ok m /\ mv_nodes m = mv_nodes mv /\ mv_wf m /\
    forall p l, mv_get mv p = Ok l ->
      mv_get m p = Ok (l ++ map (fun q => entry sid (et p) (va p)) (filter (node_eqb p) gamma)).
Proof.
  intros c ext sid et va. induction gamma as [|q gamma IH]; intros mv Hw Hin Hv.
  - exists mv. cbn. repeat split; auto; try apply Hw. intros p l ->. rewrite app_nil_r. reflexivity.
  - cbn [mv_segment_loop]. destruct (Hv q (or_introl eq_refl)) as [E1 E2]. rewrite E1. cbn [bind]. rewrite E2. cbn [bind].
    destruct Hw as [Hnd Hk]. destruct (proj1 (Hk q) (Hin q (or_introl eq_refl))) as [lq Hlq].
    destruct (mv_append_ok mv q (mk_entry (fst (va q)) (snd (va q)) (Z.of_nat sid, et q)) lq Hlq) as [mv' Hmv'].
    rewrite Hmv'. cbn [bind].
    destruct (mv_append_spec _ _ _ _ Hmv') as (l0 & G0 & N0 & G1 & G2 & W).
    destruct (IH mv' (W (conj Hnd Hk))) as (m & Hm & Nm & Wm & Gm).
    + intros p Hp. rewrite N0. apply Hin. right; exact Hp.
    + intros p Hp. apply Hv. right; exact Hp.
    + exists m. split; [exact Hm|]. split; [congruence|]. split; [exact Wm|].
      intros p l Hl. cbn [filter]. destruct (node_eqb_spec p q) as [->|Hne].
      * assert (l0 = l) by congruence. subst l0. rewrite (Gm q _ G1). rewrite <- app_assoc. reflexivity.
      * apply Gm. rewrite G2 by congruence. exact Hl.
Qed.

Lemma seg_loop_inv : forall c ext sid gamma mv m, mv_segment_loop c ext sid gamma mv = Ok m ->
  forall p, In p gamma -> exists e r, node_etype c sid p = Ok e /\ ext sid e p = Ok r.
Proof.
  intros c ext sid. induction gamma as [|q gamma IH]; intros mv m H p Hp; [destruct Hp|].
  cbn [mv_segment_loop] in H. destruct (node_etype c sid q) as [e|] eqn:E1; [|discriminate]. cbn [bind] in H.
  destruct (ext sid e q) as [r|] eqn:E2; [|discriminate]. cbn [bind] in H.
  destruct (mv_append _ _ _) as [mv'|] eqn:E3; [|discriminate]. cbn [bind] in H.
  destruct Hp as [<-|Hp]; [exists e, r; auto|]. exact (IH _ _ H p Hp).
Qed.

Lemma mv_extend_spec : forall c ext et va,
  (forall sid p, (sid < 3)%nat -> In p (ec_gamma c sid) -> In p (ec_union c)) ->
  (forall sid p, (sid < 3)%nat -> In p (ec_gamma c sid) ->
     node_etype c sid p = Ok (et sid p) /\ ext sid (et sid p) p = Ok (va sid p)) ->
  exists m, mv_extend c ext = Ok m /\ mv_nodes m = ec_union c /\ mv_wf m /\
    forall p, In p (ec_union c) ->
      mv_get m p = Ok (map (fun s => entry s (et s p) (va s p)) (sids c p)).
Proof.
  intros c ext et va Hin Hv. unfold mv_extend.
  destruct (seg_loop_spec c ext 0 (et 0%nat) (va 0%nat) (ec_gamma c 0) (mv_new (ec_union c)) (mv_new_wf _)) as (m0 & E0 & N0 & W0 & G0).
  { intros p Hp. cbn. apply (Hin 0%nat); [lia|exact Hp]. }
  { intros p Hp. apply Hv; [lia|exact Hp]. }
  rewrite E0. cbn [bind].
  destruct (seg_loop_spec c ext 1 (et 1%nat) (va 1%nat) (ec_gamma c 1) m0 W0) as (m1 & E1 & N1 & W1 & G1).
  { intros p Hp. rewrite N0. cbn. apply (Hin 1%nat); [lia|exact Hp]. }
  { intros p Hp. apply Hv; [lia|exact Hp]. }
  rewrite E1. cbn [bind].
  destruct (seg_loop_spec c ext 2 (et 2%nat) (va 2%nat) (ec_gamma c 2) m1 W1) as (m2 & E2 & N2 & W2 & G2).
  { intros p Hp. rewrite N1, N0. cbn. apply (Hin 2%nat); [lia|exact Hp]. }
  { intros p Hp. apply Hv; [lia|exact Hp]. }
  exists m2. split; [exact E2|]. split; [rewrite N2, N1, N0; reflexivity|]. split; [exact W2|].
  intros p Hp. rewrite (G2 p _ (G1 p _ (G0 p _ (mv_new_get _ _ Hp)))).
  unfold sids. rewrite !map_app, !map_map, <- app_assoc. reflexivity.
Qed.

Lemma mv_extend_inv : forall c ext m, mv_extend c ext = Ok m ->
  forall sid p, (sid < 3)%nat -> In p (ec_gamma c sid) ->
  exists e r, node_etype c sid p = Ok e /\ ext sid e p = Ok r.
Proof.
  intros c ext m H sid p Hs Hp. unfold mv_extend in H.
  destruct (mv_segment_loop c ext 0 _ _) as [m0|] eqn:E0; [|discriminate]. cbn [bind] in H.
  destruct (mv_segment_loop c ext 1 _ _) as [m1|] eqn:E1; [|discriminate]. cbn [bind] in H.
  destruct sid as [|[|[|sid]]]; [| | |lia];
    [apply (seg_loop_inv _ _ _ _ _ _ E0 p Hp)|apply (seg_loop_inv _ _ _ _ _ _ E1 p Hp)|apply (seg_loop_inv _ _ _ _ _ _ H p Hp)].
Qed.

(** ** Averages *)

Definition mean (f : nat -> C) (ss : list nat) : C :=
  match ss with
  | [s] => f s
  | [s; t] => Cmult (Cplus (f s) (f t)) (RtoC (1 / 2))
  | _ => RtoC 0
  end.

Lemma mean_ext : forall f g ss, (forall s, In s ss -> f s = g s) -> mean f ss = mean g ss.
Proof.
  intros f g [|s [|t [|u ss]]] H; cbn [mean]; try reflexivity; rewrite !H by (cbn [In]; auto); reflexivity.
Qed.

Lemma mean_plus : forall f g ss, mean (fun s => Cplus (f s) (g s)) ss = Cplus (mean f ss) (mean g ss).
Proof. intros f g [|s [|t [|u ss]]]; cbn [mean]; ring. Qed.

Lemma mean_scal : forall x f ss, mean (fun s => Cmult x (f s)) ss = Cmult x (mean f ss).
Proof. intros x f [|s [|t [|u ss]]]; cbn [mean]; ring. Qed.

Lemma mean_zero : forall ss, mean (fun _ => RtoC 0) ss = RtoC 0.
Proof. intros [|s [|t [|u ss]]]; cbn [mean]; ring. Qed.

Lemma reduce_mean : forall m (U : list node) (ss : node -> list nat) (f : nat -> node -> C),
  mv_nodes m = U ->
  (forall p, In p U -> length (ss p) = 1%nat \/ length (ss p) = 2%nat) ->
  (forall p, In p U -> exists l, mv_get m p = Ok l /\ map me_value l = map (fun s => f s p) (ss p)) ->
  mv_reduce m = Ok (map (fun p => mean (fun s => f s p) (ss p)) U).
Proof.
  intros m U ss f HU Hl Hg. apply mv_reduce_spec. rewrite HU. split; [apply map_length|].
  intros i p Hp. assert (Hin : In p U) by (eapply nth_error_In; exact Hp).
  destruct (Hg p Hin) as (l & G & E). exists l, (mean (fun s => f s p) (ss p)). split; [exact G|].
  split; [exact (map_nth_error (fun p => mean (fun s => f s p) (ss p)) i U Hp)|].
  destruct (ss p) as [|s [|t [|u sp]]] eqn:Es; destruct (Hl p Hin) as [H|H]; try rewrite Es in H; try discriminate.
  - destruct l as [|e0 [|e1 l]]; try discriminate. cbn in E. injection E as E. left. exists e0. split; [reflexivity|]. cbn. congruence.
  - destruct l as [|e0 [|e1 [|e2 l]]]; try discriminate. cbn in E. injection E as E0 E1. right. exists e0, e1. split; [reflexivity|]. cbn. congruence.
Qed.

Lemma extend_reduce : forall c ext et va, ctx_wf c ->
  (forall sid p, (sid < 3)%nat -> In p (ec_gamma c sid) ->
     node_etype c sid p = Ok (et sid p) /\ ext sid (et sid p) p = Ok (va sid p)) ->
  (m <- mv_extend c ext;; mv_reduce m) =
  Ok (map (fun p => mean (fun s => snd (va s p)) (sids c p)) (ec_union c)).
Proof.
  intros c ext et va (_ & _ & Hin & Hocc & _) Hv.
  destruct (mv_extend_spec c ext et va Hin Hv) as (m & Em & Nm & Wm & Gm). rewrite Em. cbn [bind].
  apply (reduce_mean m (ec_union c) (sids c) (fun s p => snd (va s p)) Nm).
  - intros p Hp. rewrite sids_length. apply Hocc; exact Hp.
  - intros p Hp. eexists. split; [exact (Gm p Hp)|]. rewrite map_map. reflexivity.
Qed.

Lemma extend_add_reduce : forall c ext1 ext2 et va1 va2, ctx_wf c ->
  (forall sid p, (sid < 3)%nat -> In p (ec_gamma c sid) ->
     node_etype c sid p = Ok (et sid p) /\ ext1 sid (et sid p) p = Ok (va1 sid p) /\
     ext2 sid (et sid p) p = Ok (va2 sid p)) ->
  (m <- mv_extend c ext1;; m' <- (m2 <- mv_extend c ext2;; mv_add m m2);; mv_reduce m') =
  Ok (map (fun p => mean (fun s => Cplus (snd (va1 s p)) (snd (va2 s p))) (sids c p)) (ec_union c)).
Proof.
  intros c ext1 ext2 et va1 va2 (_ & _ & Hin & Hocc & _) Hv.
  destruct (mv_extend_spec c ext1 et va1 Hin) as (m1 & E1 & N1 & W1 & G1).
  { intros sid p Hs Hp. destruct (Hv sid p Hs Hp) as (A & B & _). auto. }
  destruct (mv_extend_spec c ext2 et va2 Hin) as (m2 & E2 & N2 & W2 & G2).
  { intros sid p Hs Hp. destruct (Hv sid p Hs Hp) as (A & _ & B). auto. }
  rewrite E1. cbn [bind]. rewrite E2. cbn [bind].
  assert (Hadd : exists m, mv_add m1 m2 = Ok m).
  { apply (mv_add_ok_iff m1 m2 W1). intros p l1 j e1 Hl Hj.
    assert (Hp : In p (ec_union c)).
    { rewrite <- N1. apply (proj2 W1). eexists; exact Hl. }
    rewrite (G1 p Hp) in Hl. injection Hl as <-.
    rewrite nth_error_map in Hj. destruct (nth_error (sids c p) j) as [s|] eqn:Es; [|discriminate].
    injection Hj as <-. eexists. exists (entry s (et s p) (va2 s p)). split; [exact (G2 p Hp)|].
    rewrite nth_error_map, Es. split; reflexivity. }
  destruct Hadd as [m Hm]. rewrite Hm. cbn [bind].
  destruct (mv_add_value m1 m2 m W1 Hm) as (Nm & Wm & Gm).
  apply (reduce_mean m (ec_union c) (sids c) (fun s p => Cplus (snd (va1 s p)) (snd (va2 s p))) (eq_trans Nm N1)).
  - intros p Hp. rewrite sids_length. apply Hocc; exact Hp.
  - intros p Hp. destruct (Gm p _ (G1 p Hp)) as (l & Hl & Hlen & Hj). exists l. split; [exact Hl|].
    rewrite map_length in Hlen. apply nth_error_same. intros j. rewrite !nth_error_map.
    destruct (nth_error (sids c p) j) as [s|] eqn:Es.
    + destruct (Hj j (entry s (et s p) (va1 s p))) as (l2 & e2 & Hl2 & He2 & _ & Hnth).
      { rewrite nth_error_map, Es. reflexivity. }
      rewrite (G2 p Hp) in Hl2. injection Hl2 as <-. rewrite nth_error_map, Es in He2. injection He2 as <-.
      rewrite Hnth. reflexivity.
    + apply nth_error_None in Es. rewrite (proj2 (nth_error_None l j)) by lia. reflexivity.
Qed.

(** ** Sums over the basis *)

Definition bval (R0 a : R) (B : list (nat * nat)) (arg : R) (sid o JJ : nat) : R :=
  match eval_dn_B_arg R0 a B o JJ arg sid with Ok b => b | Err _ => 0 end.

Lemma bval_ok : forall R0 a B arg sid o JJ, (o <= 4)%nat -> (JJ < length B)%nat ->
  eval_dn_B_arg R0 a B o JJ arg sid = Ok (bval R0 a B arg sid o JJ).
Proof.
  intros R0 a B arg sid o JJ Ho HJ. unfold bval.
  destruct (nth_error B JJ) as [[s J]|] eqn:E; [|apply nth_error_None in E; lia].
  destruct (Nat.eq_dec s sid) as [->|Hne].
  - rewrite (eval_dn_B_same _ _ _ _ _ _ _ _ E) by lia. reflexivity.
  - rewrite (eval_dn_B_other _ _ _ _ _ _ _ _ _ E) by assumption. reflexivity.
Qed.

(** The table of the basis function JJ in slot [bi]. *)
Definition btab (c : ext_ctx) (arg : R) (sid JJ bi : nat) : nat -> nat -> C :=
  fun o i => Cmult (if Nat.eqb i bi then RtoC 1 else RtoC 0) (RtoC (bval (ec_R c) (ec_a c) (ec_B c) arg sid o JJ)).

Fixpoint ctab (c : ext_ctx) (c0 c1 : nat -> C) (arg : R) (sid : nat) (JJs : list nat) : nat -> nat -> C :=
  match JJs with
  | [] => fun _ _ => RtoC 0
  | JJ :: JJs' => fun o i =>
      Cplus (Cplus (ctab c c0 c1 arg sid JJs' o i) (Cmult (c1 JJ) (btab c arg sid JJ 1 o i)))
            (Cmult (c0 JJ) (btab c arg sid JJ 0 o i))
  end.

Lemma basis_table : forall c types arg sid JJ bi, (forall o i, In (o, i) types -> (o <= 4)%nat /\ (i < 2)%nat) ->
  (JJ < length (ec_B c))%nat -> (bi < 2)%nat ->
  calc_xi_derivs c (SrcBasis JJ bi) types arg sid = Ok (tab types (btab c arg sid JJ bi)).
Proof.
  intros c types arg sid JJ bi Ht HJ Hb. apply calc_tab. intros o i Hin. destruct (Ht o i Hin) as [Ho Hi].
  cbn [src_JJs xi_loop]. rewrite bval_ok by assumption. cbn [bind src_coef].
  destruct (Nat.ltb_spec 1 bi); [lia|]. rewrite Nat.eqb_refl. cbn [bind]. f_equal. unfold btab. ring.
Qed.

Lemma coef_loop : forall c arg sid o i, (o <= 4)%nat -> (i < 2)%nat ->
  length (ec_c0 c) = length (ec_B c) -> length (ec_c1 c) = length (ec_B c) ->
  forall JJs acc, (forall JJ, In JJ JJs -> (JJ < length (ec_B c))%nat) ->
  xi_loop c SrcCoef o i arg sid JJs acc =
  Ok (Cplus acc (ctab c (as_vec (ec_c0 c)) (as_vec (ec_c1 c)) arg sid JJs o i)).
Proof.
  intros c arg sid o i Ho Hi L0 L1. induction JJs as [|JJ JJs IH]; intros acc HJ; cbn [xi_loop ctab].
  - f_equal. ring.
  - assert (HJJ : (JJ < length (ec_B c))%nat) by (apply HJ; left; reflexivity).
    rewrite bval_ok by assumption. cbn [bind src_coef].
    assert (G : forall l, length l = length (ec_B c) -> list_get l JJ = Ok (as_vec l JJ)).
    { intros l Hl. apply list_get_nth. unfold as_vec. apply nth_error_nth'. lia. }
    destruct i as [|[|i]]; [| |lia]; rewrite G by assumption; cbn [bind];
      rewrite IH by (intros J HJ'; apply HJ; right; exact HJ'); f_equal; unfold btab; cbn [Nat.eqb]; ring.
Qed.

Lemma coef_table : forall c types arg sid, (forall o i, In (o, i) types -> (o <= 4)%nat /\ (i < 2)%nat) ->
  length (ec_c0 c) = length (ec_B c) -> length (ec_c1 c) = length (ec_B c) ->
  calc_xi_derivs c SrcCoef types arg sid =
  Ok (tab types (ctab c (as_vec (ec_c0 c)) (as_vec (ec_c1 c)) arg sid (seq 0 (length (ec_B c))))).
Proof.
  intros c types arg sid Ht L0 L1. apply calc_tab. intros o i Hin. destruct (Ht o i Hin) as [Ho Hi].
  cbn [src_JJs]. rewrite coef_loop; try assumption.
  - f_equal. ring.
  - intros JJ HJ. apply in_seq in HJ. lia.
Qed.

Lemma linear_zero : forall Phi, linear Phi -> Phi (fun _ _ => RtoC 0) = RtoC 0.
Proof.
  intros Phi H. specialize (H (fun _ _ => RtoC 0) (fun _ _ => RtoC 0) (RtoC (-1))).
  assert (E : (fun o i : nat => Cplus (RtoC 0) (Cmult (RtoC (-1)) (RtoC 0))) = (fun _ _ => RtoC 0)).
  { apply FunctionalExtensionality.functional_extensionality. intros o.
    apply FunctionalExtensionality.functional_extensionality. intros i. ring. }
  cbn beta in H. rewrite E in H. rewrite H. replace (RtoC (-1)) with (Copp (RtoC 1)) by (rewrite <- RtoC_opp; f_equal; lra). ring.
Qed.

(** Sum over basis functions of a quantity defined per basis function and slot. *)
Fixpoint lsum (c0 c1 : nat -> C) (f0 f1 : nat -> C) (JJs : list nat) : C :=
  match JJs with
  | [] => RtoC 0
  | JJ :: JJs' => Cplus (Cplus (lsum c0 c1 f0 f1 JJs') (Cmult (c1 JJ) (f1 JJ))) (Cmult (c0 JJ) (f0 JJ))
  end.

Lemma linear_ctab : forall Phi c c0 c1 arg sid JJs, linear Phi ->
  Phi (ctab c c0 c1 arg sid JJs) =
  lsum c0 c1 (fun JJ => Phi (btab c arg sid JJ 0)) (fun JJ => Phi (btab c arg sid JJ 1)) JJs.
Proof.
  intros Phi c c0 c1 arg sid JJs HP. induction JJs as [|JJ JJs IH]; cbn [ctab lsum].
  - apply linear_zero; exact HP.
  - rewrite (HP (fun o i => Cplus (ctab c c0 c1 arg sid JJs o i) (Cmult (c1 JJ) (btab c arg sid JJ 1 o i)))
              (btab c arg sid JJ 0) (c0 JJ)).
    rewrite (HP (ctab c c0 c1 arg sid JJs) (btab c arg sid JJ 1) (c1 JJ)). rewrite IH. reflexivity.
Qed.

Lemma with_basis_id : forall c, with_basis c (ec_B c) (ec_c0 c) (ec_c1 c) = c.
Proof. intros []. reflexivity. Qed.

(** One node: values of the basis extensions determine the extension. *)
Lemma node_linear : forall c sid p, ctx_wf c -> (sid < 3)%nat -> In p (ec_gamma c sid) ->
  exists e elen v0 v1, node_etype c sid p = Ok e /\
    (forall c0 c1 JJ, (JJ < length (ec_B c))%nat ->
       do_extend (with_basis c (ec_B c) c0 c1) (SrcBasis JJ 0) sid e p = Ok (elen, v0 JJ) /\
       do_extend (with_basis c (ec_B c) c0 c1) (SrcBasis JJ 1) sid e p = Ok (elen, v1 JJ)) /\
    (forall c0 c1, length c0 = length (ec_B c) -> length c1 = length (ec_B c) ->
       do_extend (with_basis c (ec_B c) c0 c1) SrcCoef sid e p =
       Ok (elen, lsum (as_vec c0) (as_vec c1) v0 v1 (seq 0 (length (ec_B c))))).
Proof.
  intros c sid p (HR & Ha & Hin & Hocc & Hbc) Hs Hp.
  assert (He : exists e, node_etype c sid p = Ok e).
  { destruct (ctx_coord c p) as [x y] eqn:E. destruct sid as [|sid].
    - destruct (Hbc p Hp) as [bc Hb]. destruct (node_etype_0 c p bc x y Hp Hb E) as [_ H]. eexists; exact H.
    - eexists. apply (node_etype_12 c (S sid) p x y); [lia|exact E]. }
  destruct He as [e He].
  destruct (factor_exists c sid e p HR Ha Hs He) as (arg & types & K & _ & Ht & HF & (elen & Phi & HL & HK)).
  { intros ->. split; [exact Hp|]. apply Hbc; exact Hp. }
  pose proof (types_small types Ht) as Hsm.
  exists e, elen, (fun JJ => Phi (btab c arg sid JJ 0)), (fun JJ => Phi (btab c arg sid JJ 1)).
  split; [exact He|]. split.
  - intros c0 c1 JJ HJ. rewrite !HF.
    rewrite !(basis_table (with_basis c (ec_B c) c0 c1) types arg sid JJ) by (auto; cbn; auto).
    cbn [bind]. rewrite !HK. split; reflexivity.
  - intros c0 c1 L0 L1. rewrite HF.
    rewrite (coef_table (with_basis c (ec_B c) c0 c1) types arg sid Hsm L0 L1). cbn [bind]. rewrite HK.
    rewrite (linear_ctab Phi (with_basis c (ec_B c) c0 c1)) by exact HL. reflexivity.
Qed.

(** Choice of the node data over the (finitely many) nodes: by excluded middle
    on reals it would follow from choice; here the data are computed. *)
Definition node_et (c : ext_ctx) (sid : nat) (p : node) : EType :=
  match node_etype c sid p with Ok e => e | Err _ => EStandard end.
Definition node_va (ext : nat -> EType -> node -> result (R * C)) (c : ext_ctx) (sid : nat) (p : node) : R * C :=
  match ext sid (node_et c sid p) p with Ok r => r | Err _ => (0, RtoC 0) end.

Definition bext (c : ext_ctx) (JJ bi sid : nat) (p : node) : C :=
  snd (node_va (do_extend c (SrcBasis JJ bi)) c sid p).

Lemma node_linear_c : forall c sid p, ctx_wf c -> (sid < 3)%nat -> In p (ec_gamma c sid) ->
  length (ec_c0 c) = length (ec_B c) -> length (ec_c1 c) = length (ec_B c) ->
  node_etype c sid p = Ok (node_et c sid p) /\
  (forall JJ bi, (JJ < length (ec_B c))%nat -> (bi < 2)%nat ->
     do_extend c (SrcBasis JJ bi) sid (node_et c sid p) p = Ok (node_va (do_extend c (SrcBasis JJ bi)) c sid p)) /\
  do_extend c SrcCoef sid (node_et c sid p) p = Ok (node_va (do_extend c SrcCoef) c sid p) /\
  snd (node_va (do_extend c SrcCoef) c sid p) =
    lsum (as_vec (ec_c0 c)) (as_vec (ec_c1 c)) (fun JJ => bext c JJ 0 sid p) (fun JJ => bext c JJ 1 sid p)
      (seq 0 (length (ec_B c))).
Proof.
  intros c sid p Hc Hs Hp L0 L1. destruct (node_linear c sid p Hc Hs Hp) as (e & elen & v0 & v1 & He & Hb & Hco).
  specialize (Hco (ec_c0 c) (ec_c1 c) L0 L1). rewrite with_basis_id in Hco.
  assert (Hb' : forall JJ, (JJ < length (ec_B c))%nat ->
     do_extend c (SrcBasis JJ 0) sid e p = Ok (elen, v0 JJ) /\ do_extend c (SrcBasis JJ 1) sid e p = Ok (elen, v1 JJ)).
  { intros JJ HJ. pose proof (Hb (ec_c0 c) (ec_c1 c) JJ HJ) as H. rewrite with_basis_id in H. exact H. }
  assert (Et : node_et c sid p = e) by (unfold node_et; rewrite He; reflexivity).
  rewrite Et. split; [exact He|]. unfold bext, node_va. rewrite Et. split; [|split].
  - intros JJ bi HJ Hbi. destruct (Hb' JJ HJ) as [H0 H1]. destruct bi as [|[|bi]]; [rewrite H0|rewrite H1|lia]; reflexivity.
  - rewrite Hco. reflexivity.
  - rewrite Hco. cbn [snd].
    assert (G : forall JJs, (forall JJ, In JJ JJs -> (JJ < length (ec_B c))%nat) ->
      lsum (as_vec (ec_c0 c)) (as_vec (ec_c1 c)) v0 v1 JJs =
      lsum (as_vec (ec_c0 c)) (as_vec (ec_c1 c))
        (fun JJ => snd match do_extend c (SrcBasis JJ 0) sid e p with Ok r => r | Err _ => (0, RtoC 0) end)
        (fun JJ => snd match do_extend c (SrcBasis JJ 1) sid e p with Ok r => r | Err _ => (0, RtoC 0) end) JJs).
    { induction JJs as [|JJ JJs IH]; intros H; [reflexivity|]. cbn [lsum].
      rewrite IH by (intros J HJ; apply H; right; exact HJ).
      destruct (Hb' JJ (H JJ (or_introl eq_refl))) as [-> ->]. reflexivity. }
    apply G. intros JJ HJ. apply in_seq in HJ. lia.
Qed.

Lemma mean_lsum : forall c0 c1 (f0 f1 : nat -> nat -> C) ss JJs,
  mean (fun s => lsum c0 c1 (fun JJ => f0 JJ s) (fun JJ => f1 JJ s) JJs) ss =
  lsum c0 c1 (fun JJ => mean (f0 JJ) ss) (fun JJ => mean (f1 JJ) ss) JJs.
Proof.
  intros c0 c1 f0 f1 ss. induction JJs as [|JJ JJs IH]; cbn [lsum]; [apply mean_zero|].
  rewrite !mean_plus, !mean_scal, IH. reflexivity.
Qed.

Lemma lsum_ext : forall c0 c1 f0 f1 g0 g1 JJs, (forall JJ, In JJ JJs -> f0 JJ = g0 JJ /\ f1 JJ = g1 JJ) ->
  lsum c0 c1 f0 f1 JJs = lsum c0 c1 g0 g1 JJs.
Proof.
  intros c0 c1 f0 f1 g0 g1 JJs. induction JJs as [|JJ JJs IH]; intros H; [reflexivity|]. cbn [lsum].
  rewrite IH by (intros J HJ; apply H; right; exact HJ).
  destruct (H JJ (or_introl eq_refl)) as [-> ->]. reflexivity.
Qed.

Lemma lsum_lincomb : forall c0 c1 (E0 E1 : list (nat -> C)) i, length c0 = length E0 -> length c1 = length E1 -> length c0 = length c1 ->
  lsum (as_vec c0) (as_vec c1) (fun JJ => nth JJ E0 (fun _ => RtoC 0) i) (fun JJ => nth JJ E1 (fun _ => RtoC 0) i) (seq 0 (length c0)) =
  Cplus (lincomb c0 E0 i) (lincomb c1 E1 i).
Proof.
  induction c0 as [|x c0 IH]; intros c1 E0 E1 i H0 H1 H01.
  - destruct c1; [|discriminate]. cbn. ring.
  - destruct c1 as [|y c1]; [discriminate|]. destruct E0 as [|e0 E0]; [discriminate|]. destruct E1 as [|e1 E1]; [discriminate|].
    cbn [length seq lsum lincomb]. rewrite <- seq_shift.
    assert (Sh : forall n c0' c1' f0 f1, lsum (as_vec (x :: c0')) (as_vec (y :: c1')) f0 f1 (map S n) =
       lsum (as_vec c0') (as_vec c1') (fun JJ => f0 (S JJ)) (fun JJ => f1 (S JJ)) n).
    { induction n as [|JJ n IHn]; intros; [reflexivity|]. cbn [map lsum]. rewrite IHn. reflexivity. }
    rewrite Sh. cbn [nth]. unfold as_vec at 3 4. cbn [nth].
    cbn in H0, H1, H01. change (fun JJ => nth JJ E0 (fun _ : nat => RtoC 0) i) with (fun JJ => nth JJ E0 (fun _ : nat => RtoC 0) i).
    rewrite (IH c1 E0 E1 i) by lia. ring.
Qed.

(** The basis extensions. *)
Lemma extend_basis_eq : forall c JJ bi, ctx_wf c -> (JJ < length (ec_B c))%nat -> (bi < 2)%nat ->
  length (ec_c0 c) = length (ec_B c) -> length (ec_c1 c) = length (ec_B c) ->
  extend_basis c JJ bi = Ok (map (fun p => mean (fun s => bext c JJ bi s p) (sids c p)) (ec_union c)).
Proof.
  intros c JJ bi Hc HJ Hb L0 L1. unfold extend_basis, extend_boundary, mv_extend_boundary.
  pose proof (extend_reduce c (do_extend c (SrcBasis JJ bi)) (node_et c) (node_va (do_extend c (SrcBasis JJ bi)) c) Hc) as H.
  destruct (mv_extend c (do_extend c (SrcBasis JJ bi))) as [m|e]; cbn [bind orb] in *; apply H;
    intros sid p Hs Hp; destruct (node_linear_c c sid p Hc Hs Hp L0 L1) as (A & B & _); auto.
Qed.

Definition basis_exts (c : ext_ctx) (bi : nat) : list (nat -> C) :=
  map (fun JJ => as_vec (map (fun p => mean (fun s => bext c JJ bi s p) (sids c p)) (ec_union c))) (seq 0 (length (ec_B c))).

Lemma combine_exts : forall c i p, length (ec_c0 c) = length (ec_B c) -> length (ec_c1 c) = length (ec_B c) ->
  nth_error (ec_union c) i = Some p ->
  lsum (as_vec (ec_c0 c)) (as_vec (ec_c1 c)) (fun JJ => mean (fun s => bext c JJ 0 s p) (sids c p))
    (fun JJ => mean (fun s => bext c JJ 1 s p) (sids c p)) (seq 0 (length (ec_B c))) =
  Cplus (lincomb (ec_c0 c) (basis_exts c 0) i) (lincomb (ec_c1 c) (basis_exts c 1) i).
Proof.
  intros c i p L0 L1 Hp.
  assert (Lb : forall bi, length (basis_exts c bi) = length (ec_B c)) by (intros; unfold basis_exts; rewrite map_length, seq_length; reflexivity).
  rewrite <- lsum_lincomb by (rewrite ?Lb; congruence). rewrite L0. apply lsum_ext. intros JJ HJ. apply in_seq in HJ.
  assert (N : forall bi, mean (fun s => bext c JJ bi s p) (sids c p) = nth JJ (basis_exts c bi) (fun _ => RtoC 0) i).
  { intros bi. unfold basis_exts.
    erewrite nth_error_nth; [|rewrite nth_error_map, (nth_error_nth' _ 0%nat), seq_nth by (rewrite ?seq_length; lia); cbn [option_map Nat.add]; reflexivity].
    unfold as_vec. symmetry. erewrite nth_error_nth; [reflexivity|]. rewrite nth_error_map, Hp. reflexivity. }
  split; apply N.
Qed.

(** C22: the whole extension. *)
Lemma extend_homogeneous : forall c (ho : bool), ctx_wf c -> ho = true \/ ec_homogeneous c = true ->
  length (ec_c0 c) = length (ec_B c) -> length (ec_c1 c) = length (ec_B c) ->
  exists r, extend_boundary c SrcCoef ho = Ok r /\ length r = length (ec_union c) /\
    forall i, (i < length (ec_union c))%nat ->
      as_vec r i = Cplus (lincomb (ec_c0 c) (basis_exts c 0) i) (lincomb (ec_c1 c) (basis_exts c 1) i).
Proof.
  intros c ho Hc Hh L0 L1. eexists. split; [|split].
  - unfold extend_boundary, mv_extend_boundary.
    pose proof (extend_reduce c (do_extend c SrcCoef) (node_et c) (node_va (do_extend c SrcCoef) c) Hc) as H.
    assert (Eb : (false || ec_homogeneous c || ho)%bool = true) by (destruct Hh as [-> | ->]; destruct (ec_homogeneous c); reflexivity).
    destruct (mv_extend c (do_extend c SrcCoef)) as [m|e]; cbn [bind] in *; [rewrite Eb; cbn [bind]|]; apply H;
      intros sid p Hs Hp; destruct (node_linear_c c sid p Hc Hs Hp L0 L1) as (A & _ & B & _); auto.
  - apply map_length.
  - intros i Hi. destruct (nth_error (ec_union c) i) as [p|] eqn:Hp; [|apply nth_error_None in Hp; lia].
    rewrite <- (combine_exts c i p L0 L1 Hp), <- mean_lsum. unfold as_vec at 1.
    erewrite nth_error_nth; [|rewrite nth_error_map, Hp; reflexivity].
    apply mean_ext. intros s Hs. destruct (sids_in c p s Hs) as [Hs3 Hps].
    destruct (node_linear_c c s p Hc Hs3 Hps L0 L1) as (_ & _ & _ & E). exact E.
Qed.

Lemma inhomo_eq : forall c extf, ctx_wf c -> extend_inhomo_f c = Ok extf ->
  (forall sid p, (sid < 3)%nat -> In p (ec_gamma c sid) ->
     do_extend_inhomo c sid (node_et c sid p) p = Ok (node_va (do_extend_inhomo c) c sid p)) /\
  extf = map (fun p => mean (fun s => snd (node_va (do_extend_inhomo c) c s p)) (sids c p)) (ec_union c).
Proof.
  intros c extf Hc H.
  assert (Hv : forall sid p, (sid < 3)%nat -> In p (ec_gamma c sid) ->
     node_etype c sid p = Ok (node_et c sid p) /\
     do_extend_inhomo c sid (node_et c sid p) p = Ok (node_va (do_extend_inhomo c) c sid p)).
  { intros sid p Hs Hp. unfold extend_inhomo_f, mv_extend_inhomo_f in H.
    destruct (mv_extend c (do_extend_inhomo c)) as [m|] eqn:E; [|discriminate].
    destruct (mv_extend_inv c _ m E sid p Hs Hp) as (e & r & He & Hr).
    assert (Et : node_et c sid p = e) by (unfold node_et; rewrite He; reflexivity).
    rewrite Et. split; [exact He|]. unfold node_va. rewrite Et, Hr. reflexivity. }
  split; [intros sid p Hs Hp; apply Hv; assumption|].
  pose proof (extend_reduce c (do_extend_inhomo c) (node_et c) (node_va (do_extend_inhomo c) c) Hc Hv) as E.
  unfold extend_inhomo_f, mv_extend_inhomo_f in H. rewrite H in E. injection E as E. exact E.
Qed.

Lemma extend_inhomogeneous : forall c extf, ctx_wf c ->
  length (ec_c0 c) = length (ec_B c) -> length (ec_c1 c) = length (ec_B c) ->
  extend_inhomo_f c = Ok extf ->
  exists r, extend_boundary c SrcCoef false = Ok r /\ length r = length (ec_union c) /\
    forall i, (i < length (ec_union c))%nat ->
      as_vec r i = bd_ext (ec_c0 c) (ec_c1 c) (basis_exts c 0) (basis_exts c 1) (as_vec extf) i.
Proof.
  intros c extf Hc L0 L1 Hf. destruct (inhomo_eq c extf Hc Hf) as [Hv Ef].
  destruct (ec_homogeneous c) eqn:Eh.
  - destruct (extend_homogeneous c false Hc (or_intror Eh) L0 L1) as (r & Er & Lr & Hr).
    exists r. split; [exact Er|]. split; [exact Lr|]. intros i Hi. rewrite Hr by exact Hi. unfold bd_ext.
    replace (as_vec extf i) with (RtoC 0); [ring|].
    destruct (nth_error (ec_union c) i) as [p|] eqn:Hp; [|apply nth_error_None in Hp; lia].
    rewrite Ef. unfold as_vec. erewrite nth_error_nth; [|rewrite nth_error_map, Hp; reflexivity].
    rewrite (mean_ext _ (fun _ => RtoC 0)); [symmetry; apply mean_zero|].
    intros s Hs. unfold node_va, do_extend_inhomo. rewrite Eh. reflexivity.
  - eexists. split; [|split].
    + unfold extend_boundary, mv_extend_boundary.
      pose proof (extend_add_reduce c (do_extend c SrcCoef) (do_extend_inhomo c) (node_et c)
        (node_va (do_extend c SrcCoef) c) (node_va (do_extend_inhomo c) c) Hc) as H.
      unfold mv_extend_inhomo_f.
      destruct (mv_extend c (do_extend c SrcCoef)) as [m|e]; cbn [bind] in *; [rewrite Eh; cbn [orb]|]; apply H;
        intros sid p Hs Hp; destruct (node_linear_c c sid p Hc Hs Hp L0 L1) as (A & _ & B & _); auto.
    + apply map_length.
    + intros i Hi. destruct (nth_error (ec_union c) i) as [p|] eqn:Hp; [|apply nth_error_None in Hp; lia].
      unfold bd_ext. rewrite <- (combine_exts c i p L0 L1 Hp), <- mean_lsum. unfold as_vec at 1.
      erewrite nth_error_nth; [|rewrite nth_error_map, Hp; reflexivity].
      rewrite Ef. unfold as_vec at 3. erewrite nth_error_nth; [|rewrite nth_error_map, Hp; reflexivity].
      rewrite mean_plus. f_equal.
      apply mean_ext. intros s Hs. destruct (sids_in c p s Hs) as [Hs3 Hps].
      destruct (node_linear_c c s p Hc Hs3 Hps L0 L1) as (_ & _ & _ & E). exact E.
Qed.

Lemma extend_inhomo_error : forall c e, ctx_wf c -> ec_homogeneous c = false ->
  length (ec_c0 c) = length (ec_B c) -> length (ec_c1 c) = length (ec_B c) ->
  extend_inhomo_f c = Err e -> extend_boundary c SrcCoef false = Err e.
Proof.
  intros c e Hc Eh L0 L1 Hf. unfold extend_boundary, mv_extend_boundary.
  destruct (mv_extend_spec c (do_extend c SrcCoef) (node_et c) (node_va (do_extend c SrcCoef) c)) as (m & Em & _).
  { apply Hc. }
  { intros sid p Hs Hp. destruct (node_linear_c c sid p Hc Hs Hp L0 L1) as (A & _ & B & _); auto. }
  rewrite Em. cbn [bind orb]. rewrite Eh.
  unfold extend_inhomo_f in Hf. destruct (mv_extend_inhomo_f c) as [mf|e'] eqn:Ef; cbn [bind orb] in *; [|injection Hf as ->; reflexivity].
  exfalso.
  assert (Hv : forall sid p, (sid < 3)%nat -> In p (ec_gamma c sid) ->
     node_etype c sid p = Ok (node_et c sid p) /\
     do_extend_inhomo c sid (node_et c sid p) p = Ok (node_va (do_extend_inhomo c) c sid p)).
  { intros sid p Hs Hp. unfold mv_extend_inhomo_f in Ef.
    destruct (mv_extend_inv c _ mf Ef sid p Hs Hp) as (e' & r & He & Hr).
    assert (Et : node_et c sid p = e') by (unfold node_et; rewrite He; reflexivity).
    rewrite Et. split; [exact He|]. unfold node_va. rewrite Et, Hr. reflexivity. }
  pose proof (extend_reduce c (do_extend_inhomo c) (node_et c) (node_va (do_extend_inhomo c) c) Hc Hv) as E.
  unfold mv_extend_inhomo_f in Ef. rewrite Ef in E. cbn [bind] in E. congruence.
Qed.

Lemma extend_inhomo_homogeneous : forall c, ctx_wf c -> ec_homogeneous c = true ->
  length (ec_c0 c) = length (ec_B c) -> length (ec_c1 c) = length (ec_B c) ->
  extend_inhomo_f c = Ok (map (fun _ => RtoC 0) (ec_union c)).
Proof.
  intros c Hc Eh L0 L1. unfold extend_inhomo_f, mv_extend_inhomo_f.
  rewrite (extend_reduce c (do_extend_inhomo c) (node_et c) (fun _ _ => (0, RtoC 0)) Hc).
  - f_equal. apply map_ext. intros p. apply mean_zero.
  - intros sid p Hs Hp. destruct (node_linear_c c sid p Hc Hs Hp L0 L1) as (A & _). split; [exact A|].
    unfold do_extend_inhomo. rewrite Eh. reflexivity.
Qed.

(** Unit coefficient vectors. *)
Lemma with_basis_bext : forall c c0 c1 JJ bi s p, ctx_wf c -> (JJ < length (ec_B c))%nat -> (bi < 2)%nat ->
  (s < 3)%nat -> In p (ec_gamma c s) ->
  bext (with_basis c (ec_B c) c0 c1) JJ bi s p = bext c JJ bi s p.
Proof.
  intros c c0 c1 JJ bi s p Hc HJ Hb Hs Hp. destruct (node_linear c s p Hc Hs Hp) as (e & elen & v0 & v1 & He & Hbe & _).
  unfold bext, node_va.
  assert (Et : node_et c s p = e) by (unfold node_et; rewrite He; reflexivity).
  change (node_et (with_basis c (ec_B c) c0 c1) s p) with (node_et c s p). rewrite Et.
  pose proof (Hbe c0 c1 JJ HJ) as H1. pose proof (Hbe (ec_c0 c) (ec_c1 c) JJ HJ) as H2. rewrite with_basis_id in H2.
  destruct H1 as [A1 A2]. destruct H2 as [B1 B2].
  destruct bi as [|[|bi]]; [rewrite A1, B1|rewrite A2, B2|lia]; reflexivity.
Qed.

Lemma unit_coef_length : forall n JJ, length (unit_coef n JJ) = n.
Proof. intros. unfold unit_coef. rewrite map_length, seq_length. reflexivity. Qed.

Lemma unit_coef_nth : forall n JJ l, (l < n)%nat -> as_vec (unit_coef n JJ) l = if Nat.eqb l JJ then RtoC 1 else RtoC 0.
Proof.
  intros n JJ l H. unfold as_vec, unit_coef.
  erewrite nth_error_nth; [|rewrite nth_error_map, (nth_error_nth' _ 0%nat), seq_nth by (rewrite ?seq_length; lia); reflexivity].
  reflexivity.
Qed.

Lemma zeros_nth : forall n l, as_vec (repeat (RtoC 0) n) l = RtoC 0.
Proof. intros n l. unfold as_vec. revert l. induction n as [|n IH]; intros [|l]; cbn; auto. Qed.

Lemma lsum_unit : forall c0 c1 f0 f1 JJ (x : C) JJs, NoDup JJs ->
  (forall l, In l JJs -> c0 l = if Nat.eqb l JJ then RtoC 1 else RtoC 0) -> (forall l, In l JJs -> c1 l = RtoC 0) ->
  lsum c0 c1 f0 f1 JJs = if in_dec Nat.eq_dec JJ JJs then f0 JJ else RtoC 0.
Proof.
  intros c0 c1 f0 f1 JJ x JJs. induction JJs as [|l JJs IH]; intros Hn H0 H1; [reflexivity|].
  inversion Hn; subst. cbn [lsum]. rewrite IH by first [assumption | intros; apply H0; right; assumption | intros; apply H1; right; assumption].
  rewrite (H0 l (or_introl eq_refl)), (H1 l (or_introl eq_refl)).
  destruct (Nat.eqb_spec l JJ) as [->|Hne].
  - destruct (in_dec Nat.eq_dec JJ JJs); [contradiction|]. destruct (in_dec Nat.eq_dec JJ (JJ :: JJs)) as [|n0]; [ring|].
    exfalso; apply n0; left; reflexivity.
  - destruct (in_dec Nat.eq_dec JJ JJs) as [i|n1]; destruct (in_dec Nat.eq_dec JJ (l :: JJs)) as [i'|n']; try ring.
    + exfalso; apply n'; right; exact i.
    + destruct i'; [congruence|contradiction].
Qed.

Lemma lsum_swap : forall c0 c1 f0 f1 JJs, lsum c0 c1 f0 f1 JJs = lsum c1 c0 f1 f0 JJs.
Proof. induction JJs as [|J JJs IH]; [reflexivity|]. cbn [lsum]. rewrite IH. ring. Qed.

Lemma extend_unit : forall c JJ bi, ctx_wf c -> (JJ < length (ec_B c))%nat -> (bi < 2)%nat ->
  length (ec_c0 c) = length (ec_B c) -> length (ec_c1 c) = length (ec_B c) ->
  let n := length (ec_B c) in
  let u := unit_coef n JJ in
  let z := repeat (RtoC 0) n in
  extend_boundary (match bi with O => with_basis c (ec_B c) u z | _ => with_basis c (ec_B c) z u end) SrcCoef true =
  extend_basis c JJ bi.
Proof.
  intros c JJ bi Hc HJ Hb L0 L1 n u z. rewrite (extend_basis_eq c JJ bi Hc HJ Hb L0 L1).
  assert (Lu : length u = n) by apply unit_coef_length.
  assert (Lz : length z = n) by apply repeat_length.
  assert (Main : forall c0 c1, length c0 = n -> length c1 = n ->
    (forall f0 f1, lsum (as_vec c0) (as_vec c1) f0 f1 (seq 0 n) = match bi with O => f0 JJ | _ => f1 JJ end) ->
    extend_boundary (with_basis c (ec_B c) c0 c1) SrcCoef true =
    Ok (map (fun p => mean (fun s => bext c JJ bi s p) (sids c p)) (ec_union c))).
  { intros c0 c1 H0 H1 HS. set (c' := with_basis c (ec_B c) c0 c1).
    assert (Hc' : ctx_wf c') by exact Hc.
    unfold extend_boundary, mv_extend_boundary.
    pose proof (extend_reduce c' (do_extend c' SrcCoef) (node_et c') (node_va (do_extend c' SrcCoef) c') Hc') as H.
    assert (H' : forall sid p, (sid < 3)%nat -> In p (ec_gamma c' sid) ->
       node_etype c' sid p = Ok (node_et c' sid p) /\
       do_extend c' SrcCoef sid (node_et c' sid p) p = Ok (node_va (do_extend c' SrcCoef) c' sid p)).
    { intros sid p Hs Hp; destruct (node_linear_c c' sid p Hc' Hs Hp H0 H1) as (A & _ & B & _); auto. }
    specialize (H H'). destruct (mv_extend c' (do_extend c' SrcCoef)) as [m|e]; cbn [bind] in *; [|discriminate].
    rewrite orb_true_r. cbn [bind]. rewrite H. f_equal. apply map_ext_in. intros p Hp. apply mean_ext. intros s Hs.
    destruct (sids_in c p s Hs) as [Hs3 Hps].
    destruct (node_linear_c c' s p Hc' Hs3 Hps H0 H1) as (_ & _ & _ & E). rewrite E.
    cbn [c' with_basis ec_c0 ec_c1 ec_B]. fold n. rewrite HS.
    destruct bi as [|[|bi]]; [| |lia]; apply with_basis_bext; auto. }
  assert (Nd : NoDup (seq 0 n)) by apply seq_NoDup.
  assert (InJ : In JJ (seq 0 n)) by (apply in_seq; lia).
  destruct bi as [|bi].
  - apply Main; [exact Lu|exact Lz|]. intros f0 f1. unfold u, z.
    rewrite (lsum_unit _ _ f0 f1 JJ (RtoC 0) _ Nd).
    + destruct (in_dec Nat.eq_dec JJ (seq 0 n)); [reflexivity|contradiction].
    + intros l Hl. apply in_seq in Hl. apply unit_coef_nth. lia.
    + intros l Hl. apply zeros_nth.
  - apply Main; [exact Lz|exact Lu|]. intros f0 f1. unfold u, z. rewrite lsum_swap.
    rewrite (lsum_unit _ _ f1 f0 JJ (RtoC 0) _ Nd).
    + destruct (in_dec Nat.eq_dec JJ (seq 0 n)); [reflexivity|contradiction].
    + intros l Hl. apply in_seq in Hl. apply unit_coef_nth. lia.
    + intros l Hl. apply zeros_nth.
Qed.
