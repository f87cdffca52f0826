(** When extend_f gives up (C51). *)
From Coq Require Import ZArith List Bool Reals Lia Lra.
From Coquelicot Require Import Coquelicot.
From Verif Require Import Model_Py Model_Grid Model_Multivalue Model_Domain Model_Ext Model_Extend
  Spec_Grid Spec_Domain Spec_Ext Spec_Extend Spec_Inhomo Proof_Grid Proof_Domain Proof_Multivalue Proof_Boundary
  Proof_Smooth Proof_Place Proof_ExtendEx Proof_ExtendF Proof_Inhomo Proof_InhomoEx.
Import ListNotations.
Open Scope R_scope.

(** The node is on or outside the curve but has no cached coordinates. *)
Definition uncached (c : ext_ctx) (p : node) : Prop :=
  ~ In p (ec_gamma c 0) /\
  let rt := ps_get_polar (ec_a c) (ec_AD c) (ec_N c) (fst p) (snd p) in ec_r c (snd rt) <= fst rt.

Lemma base_key_error : forall c p, extend_f_base c p = Err KeyError <-> uncached c p.
Proof.
  intros c p. unfold extend_f_base, uncached. destruct (ctx_coord c p) as [x y].
  unfold extend_f_get_sid. destruct (ps_get_polar (ec_a c) (ec_AD c) (ec_N c) (fst p) (snd p)) as [r th].
  cbn [fst snd].
  destruct (node_mem p (ec_gamma c 0)) eqn:Hm; [pose proof (proj1 (node_mem_in _ _) Hm) as Hin|pose proof (proj1 (node_mem_not_in _ _) Hm) as Hout].
  - split; [|intros [H _]; contradiction]. intros H. exfalso.
    unfold node_etype, ctx_cache, cache_get in H. rewrite Hm in H.
    destruct (ctx_coord c p) as [x' y'].
    destruct (ec_bcoord c p) as [[n t]|]; cbn [bind] in H; [|discriminate].
    destruct (etype_eqb _ _); cbn [bind snd] in H.
    + destruct (etype_of _ _ _ _ _ _); discriminate.
    + destruct (Rltb r (ec_r c th)); [destruct (Rleb (2 * PI) th)|]; cbn [bind snd] in H; try discriminate.
      destruct (etype_of _ _ _ _ _ _); discriminate.
  - cbn [bind].
    destruct (Rltb_spec r (ec_r c th)) as [L|G].
    + split; [|intros [_ H]; lra]. intros H. exfalso. unfold node_etype in H.
      destruct (ctx_coord c p) as [x' y'].
      destruct (Rleb (2 * PI) th); cbn [bind] in H; discriminate.
    + split; [intros _; split; [exact Hout|lra]|]. intros _.
      unfold node_etype. destruct (ctx_coord c p) as [x' y']. rewrite Hm. cbn [bind].
      unfold ctx_cache, cache_get. rewrite Hm. reflexivity.
Qed.

Lemma abort_prefix : forall c before p after f f1, ec_homogeneous c = false ->
  extend_f c before f = Ok (f1, false) -> uncached c p ->
  extend_f c (before ++ p :: after) f = Ok (f1, true).
Proof.
  intros c before p after f f1 Hh. unfold extend_f. rewrite Hh. revert f.
  induction before as [|q before IH]; intros f H Hp.
  - cbn in H. injection H as <-. cbn [app extend_f_loop].
    rewrite (proj2 (base_key_error c p) Hp). reflexivity.
  - cbn [app extend_f_loop] in *. destruct (extend_f_base c q) as [b|e].
    + destruct (extend_f_node c q) as [v|e]; [|discriminate]. cbn [bind] in *.
      destruct (np_set (ec_N c + 1) f (fst q) (snd q) v) as [f'|e]; [|discriminate]. cbn [bind] in *.
      apply IH; assumption.
    + destruct e; discriminate.
Qed.

Lemma abort_only : forall c todo f f1, extend_f c todo f = Ok (f1, true) ->
  exists before p after, todo = before ++ p :: after /\ extend_f c before f = Ok (f1, false) /\ uncached c p.
Proof.
  intros c todo f f1. unfold extend_f. destruct (ec_homogeneous c); [discriminate|]. revert f.
  induction todo as [|q todo IH]; intros f H; [discriminate|]. cbn [extend_f_loop] in H.
  destruct (extend_f_base c q) as [b|e] eqn:Eb.
  - destruct (extend_f_node c q) as [v|e] eqn:Ev; [|discriminate]. cbn [bind] in H.
    destruct (np_set (ec_N c + 1) f (fst q) (snd q) v) as [f'|e] eqn:Es; [|discriminate]. cbn [bind] in H.
    destruct (IH f' H) as [before [p [after [-> [H1 H2]]]]].
    exists (q :: before), p, after. split; [reflexivity|]. split; [|exact H2].
    cbn [extend_f_loop]. rewrite Eb, Ev. cbn [bind]. rewrite Es. exact H1.
  - destruct e; try discriminate. injection H as <-. exists [], q, todo.
    split; [reflexivity|]. split; [reflexivity|]. apply base_key_error. exact Eb.
Qed.

(** The arc of radius 1/2 and the source 16 (x^2 + y^2) - 8. *)
Lemma abort_example : exists c f1, ec_homogeneous c = false /\
  extend_f c [(1, 2)%Z] (fun _ _ => RtoC 0) = Ok (f1, false) /\ f1 1%Z 2%Z = RtoC 8 /\
  ~ In (0, 2)%Z (ec_gamma c 0) /\
  (let rt := ps_get_polar (ec_a c) (ec_AD c) (ec_N c) 0 2 in ec_r c (snd rt) <= fst rt).
Proof.
  pose proof PI_RGT_0 as HP. set (F := sep (bump_source 0)).
  set (c := square_ctx 0 (1 / 2) (PI / 4) [(1, 2)%Z] [] [] (exact_source F F)).
  assert (Eb : ec_bcoord c (1, 2)%Z = Some (1 / 2, PI)).
  { cbn [c square_ctx ec_bcoord]. unfold node_bcoord, ps_get_polar. cbn [fst snd].
    replace (get_coord 4 4 1 2) with (1 * cos PI, 1 * sin PI).
    2:{ unfold get_coord. rewrite cos_PI, sin_PI. f_equal; field. }
    rewrite ps_polar_of_polar by lra. rewrite arc_coord_positive by (apply min_zero_contract || lra). do 2 f_equal. lra. }
  assert (Ec : ctx_coord c (1, 2)%Z = (-1, 0)) by (unfold c; rewrite square_coord; f_equal; lra).
  assert (Em : node_mem (1, 2)%Z (ec_gamma c 0) = true) by reflexivity.
  assert (Eba : extend_f_base c (1, 2)%Z = Ok (1 / 2 * cos PI, 1 / 2 * sin PI)).
  { unfold extend_f_base, extend_f_get_sid, node_etype, ctx_cache, cache_get. rewrite Ec, Em, Eb. cbn [bind].
    assert (Et : etype_of (ec_R c) (ec_a c) (Some (1 / 2, PI)) 0 (-1) 0 = EStandard).
    { cbn [etype_of c square_ctx ec_a]. destruct (Rltb_spec (2 * PI) PI); [lra|].
      destruct (Rltb_spec PI (PI / 4)); [lra|]. reflexivity. }
    rewrite Et. destruct (ps_get_polar _ _ _ _ _). cbn [bind etype_eqb snd]. rewrite ?Em, ?Eb. cbn [bind snd]. rewrite ?Et.
    reflexivity. }
  destruct (extend_f_loop_spec c F [(1, 2)%Z] (fun _ _ => RtoC 0)) as (f1 & E1 & Hin & _).
  - intros q [<-|[]]. split; [split; cbn; lia|]. do 3 eexists. split; [exact Eba|]. split; [exact Ec|].
    split; [|apply exact_cart]. rewrite cos_PI, sin_PI. intros H. injection H as H _. lra.
  - constructor; [intros []|constructor].
  - exists c, f1. split; [reflexivity|]. split; [exact E1|]. split; [|split].
    + etransitivity; [apply (Hin _ _ _ _ (or_introl eq_refl) Eba Ec)|]. cbn [fst snd].
      rewrite quadratic_taylor2 by apply bump_quadratic.
      unfold F, bump_source, bump. cbn [app map sep fst snd]. unfold mono. cbn [mono_ce fst snd pred pow INR].
      apply injective_projections; unfold Cplus, Cmult, RtoC; cbn [fst snd]; lra.
    + intros [H|[]]. discriminate.
    + cbn [c square_ctx ec_a ec_AD ec_N ec_r]. unfold ps_get_polar.
      replace (get_coord 4 4 0 2) with (2 * cos PI, 2 * sin PI).
      2:{ unfold get_coord. rewrite cos_PI, sin_PI. f_equal; field. }
      rewrite ps_polar_of_polar by lra. cbn [fst snd]. unfold r_arc. lra.
Qed.
