(** The node on the curve (C52) and concrete data for the examples beside the
    theorems on the source term. *)
From Coq Require Import ZArith List Bool Reals Lra Lia Psatz.
From Coquelicot Require Import Coquelicot.
From Verif Require Import Model_Py Model_Multivalue Model_Grid Model_Chebyshev Model_Domain Model_Ext Model_Extend
  Spec_Grid Spec_Domain Spec_Ext Spec_Extend Spec_Inhomo Proof_Grid Proof_Domain Proof_Boundary Proof_Ext Proof_Ext2
  Proof_Place Proof_Smooth Proof_Extend Proof_Extend2 Proof_ExtendEx Proof_ExtendF Proof_Inhomo.
Import ListNotations.
Open Scope R_scope.

(** ** An undefined value stops the extension *)

Lemma segment_loop_err : forall c ext sid e p, node_etype c sid p = Ok e -> (exists x, ext sid e p = Err x) ->
  forall gamma mv, In p gamma -> exists x, mv_segment_loop c ext sid gamma mv = Err x.
Proof.
  intros c ext sid e p He [x Hx]. induction gamma as [|q gamma IH]; intros mv [].
  - subst q. cbn [mv_segment_loop]. rewrite He. cbn [bind]. rewrite Hx. cbn [bind]. eexists. reflexivity.
  - cbn [mv_segment_loop]. destruct (node_etype c sid q) as [e'|x']; cbn [bind]; [|eexists; reflexivity].
    destruct (ext sid e' q) as [[l v]|x']; cbn [bind]; [|eexists; reflexivity].
    match goal with |- exists _, bind ?m _ = _ => destruct m as [mv'|x'] end; cbn [bind]; [|eexists; reflexivity].
    apply IH. assumption.
Qed.

Lemma extend_inhomo_f_err : forall c e p, In p (ec_gamma c 0) -> node_etype c 0 p = Ok e ->
  (exists x, do_extend_inhomo c 0 e p = Err x) -> exists x, extend_inhomo_f c = Err x.
Proof.
  intros c e p Hin He Hx. unfold extend_inhomo_f, mv_extend_inhomo_f, mv_extend.
  destruct (segment_loop_err c (do_extend_inhomo c) 0 e p He Hx (ec_gamma c 0) (mv_new (ec_union c)) Hin) as [x E].
  rewrite E. eexists. reflexivity.
Qed.

(** The unit arc on a square of side 4 with 64 cells: node (16, 32) is (-1, 0). *)
Lemma on_curve_witness : forall brentq src, brentq_contract brentq ->
  exists c p, arc_solver brentq 4 c /\ ec_homogeneous c = false /\ ec_src c = src /\
    In p (ec_gamma c 0) /\ node_etype c 0 p = Ok EStandard /\
    do_extend_inhomo c 0 EStandard p = Err ZeroDivisionError /\ exists x, extend_inhomo_f c = Err x.
Proof.
  intros brentq src Hb. pose proof PI_RGT_0 as HPI.
  destruct (arc_solver_exists brentq 4 1 1 (PI / 4) 4 64 [] [] [] false src Hb ltac:(right; reflexivity)
    ltac:(lra) ltac:(lra) ltac:(lra) ltac:(lia)) as (c & Hc & _ & ER & Ea & EAD & EN & _ & _ & _ & Ehom & Esrc).
  exists c, (16, 32)%Z. split; [exact Hc|]. split; [exact Ehom|]. split; [exact Esrc|].
  destruct Hc as (HR & Ha & HL & HN & Er & Ebc & Hen & Hall). rewrite Ebc in Hall.
  destruct (gamma_placed brentq _ _ _ _ Hb HR Ha HL HN 4 _ ltac:(right; reflexivity) Hen)
    as (g0 & g1 & g2 & E & _ & _ & _ & _ & E0 & _).
  fold (bcoord brentq (ec_R c) (ec_a c) (ec_AD c) (ec_N c)) in Hall. rewrite Hall in E. injection E as Eg0 _ _. rewrite <- Eg0 in E0. clear Eg0 g0 g1 g2.
  assert (Exy : ctx_coord c (16, 32)%Z = (-1, 0)).
  { unfold ctx_coord, get_coord. rewrite EAD, EN. cbn [fst snd]. f_equal; field. }
  assert (Ebp : ec_bcoord c (16, 32)%Z = Some (0, PI)).
  { rewrite Ebc. unfold node_bcoord, ps_get_polar. unfold ctx_coord in Exy. rewrite Exy, Ea, ER.
    replace (-1) with (1 * cos PI) by (rewrite cos_PI; ring). replace 0 with (1 * sin PI) at 1 by (rewrite sin_PI; ring).
    rewrite ps_polar_of_polar by lra. rewrite arc_coord_positive by (assumption || lra). do 2 f_equal. lra. }
  assert (Hin : In (16, 32)%Z (ec_gamma c 0)).
  { rewrite E0. apply filter_In. split.
    - apply (proj2 Hen). apply gamma_set_in; [right; reflexivity|]. rewrite EN. split.
      + exists (16, 32)%Z. split; [unfold in_open_grid; cbn; lia|]. split; [|apply neighbour_refl].
        cbn [fst snd]. unfold ps_is_interior. rewrite EAD, Ea, ER.
        replace (get_coord 4 64 16 32) with (-1, 0) by (unfold get_coord; f_equal; field).
        apply interior_arc_iff; [lra|lra|]. unfold in_domain. cbn [fst snd]. split; [lra|]. intros [? _]; lra.
      + exists (15, 32)%Z. split; [unfold in_open_grid; cbn; lia|]. split.
        * cbn [fst snd]. unfold ps_is_interior. rewrite EAD, Ea, ER.
          replace (get_coord 4 64 15 32) with (-17 / 16, 0) by (unfold get_coord; f_equal; field).
          match goal with |- ?b = false => destruct b eqn:Eb; [exfalso|reflexivity] end.
          apply interior_arc_iff in Eb; [|lra|lra]. destruct Eb as [Hd _]. cbn [fst snd] in Hd. lra.
        * unfold neighbour. cbn. lia.
    - unfold claims. rewrite (proj2 (claims_iff brentq _ _ _ _ Hb HR Ha 0 (16, 32)%Z (-1) 0 ltac:(lia) Exy)); [reflexivity|].
      exists (-1, 0). split.
      + rewrite ER, Ea. cbn [on_seg]. exists PI. rewrite cos_PI, sin_PI. repeat split; try lra; f_equal; ring.
      + rewrite EAD, EN. unfold dist2. cbn [fst snd]. replace ((-1 - -1) ^ 2 + (0 - 0) ^ 2) with 0 by ring.
        rewrite sqrt_0. pose proof (sqrt_pos 2). lra. }
  split; [exact Hin|].
  assert (He : node_etype c 0 (16, 32)%Z = Ok EStandard).
  { destruct (node_etype_0 c _ _ _ _ Hin Ebp Exy) as [_ ->]. unfold etype_of. rewrite Ea.
    destruct (Rltb_spec (2 * PI) PI); [lra|]. destruct (Rltb_spec PI (PI / 4)); [lra|reflexivity]. }
  split; [exact He|].
  assert (Hd : do_extend_inhomo c 0 EStandard (16, 32)%Z = Err ZeroDivisionError).
  { unfold do_extend_inhomo. rewrite Ehom. apply (on_curve_undefined c _ 0 PI Hin Ebp).
    rewrite Exy, Er, ER. unfold seg_point, r_arc. rewrite cos_PI, sin_PI. f_equal; ring. }
  split; [exact Hd|]. apply (extend_inhomo_f_err c EStandard _ Hin He). eexists. exact Hd.
Qed.

(** The straight segments are guarded: a node on them gets the value 0. *)
Lemma radius_guarded : forall c sid e p, ec_homogeneous c = false -> (sid = 1 \/ sid = 2)%nat -> e <> ERight ->
  exists len v, do_extend_inhomo c sid e p = Ok (len, v).
Proof.
  intros c sid e p Hhom Hs He. unfold do_extend_inhomo. rewrite Hhom.
  destruct Hs as [-> | ->]; destruct e; try congruence; cbn;
  match goal with |- exists _ _, Ok ?m = _ => destruct m as [l v] end; eexists _, _; reflexivity.
Qed.

Lemma radius_on_line : forall c sid e p x y e1 e2, ec_homogeneous c = false -> 0 < ec_a c < PI -> e <> ERight ->
  ctx_coord c p = (x, y) -> frame12 (ec_a c) sid e1 e2 -> x * e2 - y * e1 = 0 ->
  exists len, do_extend_inhomo c sid e p = Ok (len, RtoC 0).
Proof.
  intros c sid e p x y e1 e2 Hhom Ha He Exy Hfr Hn.
  assert (Er : exists len, extend_inhomo_radius c p sid = (len, RtoC 0)).
  { unfold extend_inhomo_radius. rewrite Exy. destruct Hfr as [(-> & F1 & F2)|(-> & F1 & F2)].
    - assert (Ey : y = 0) by (rewrite F1, F2 in Hn; lra). unfold calc_inhomo_radius.
      destruct (radius_derivs c x 0) as [g hs]. rewrite Ey. eexists. f_equal. apply inhomo_zero_n.
    - rewrite get_radius_point_eq, signed_dist_eq by exact Ha. rewrite F1, F2 in Hn. rewrite Hn. unfold calc_inhomo_radius.
      destruct (radius_derivs _ _ _) as [g hs]. eexists. f_equal. apply inhomo_zero_n. }
  destruct Er as [len E]. exists len. unfold do_extend_inhomo. rewrite Hhom.
  destruct Hfr as [(-> & _)|(-> & _)]; destruct e; try congruence; cbn; rewrite E; reflexivity.
Qed.

(** ** Data for the examples *)

(** The source whose derivatives are the given ones. *)
Definition exact_source (F Q : nat -> nat -> R -> R -> C) : source :=
  mk_source (F 0%nat 0%nat) (fun x y => (F 1%nat 0%nat x y, F 0%nat 1%nat x y))
    (fun x y => ((F 2%nat 0%nat x y, F 1%nat 1%nat x y), (F 1%nat 1%nat x y, F 0%nat 2%nat x y)))
    (fun r t => F 0%nat 0%nat (r * cos t) (r * sin t))
    (fun r t => (F 1%nat 0%nat (r * cos t) (r * sin t), F 0%nat 1%nat (r * cos t) (r * sin t)))
    (fun r t => ((F 2%nat 0%nat (r * cos t) (r * sin t), F 1%nat 1%nat (r * cos t) (r * sin t)),
                 (F 1%nat 1%nat (r * cos t) (r * sin t), F 0%nat 2%nat (r * cos t) (r * sin t))))
    (Q 1%nat 0%nat) (Q 2%nat 0%nat) (Q 0%nat 1%nat) (Q 0%nat 2%nat) (Q 1%nat 1%nat).

Lemma exact_cart : forall F Q x y, cart_source (exact_source F Q) F x y.
Proof. intros. repeat split. Qed.
Lemma exact_polar : forall F Q r t, polar_source (exact_source F Q) F Q r t.
Proof. intros. repeat split. Qed.

(** The source of (x^2 + y^2 - 1)^2 in polar coordinates. *)
Definition bump_polar (k : R) : sep_sum :=
  [(RtoC (16 - 2 * k ^ 2), mono 2, mono 0); (RtoC (-8 + k ^ 2), mono 0, mono 0); (RtoC (k ^ 2), mono 4, mono 0)].

Lemma bump_polar_partials : forall k U m, partials U m (sep (bump_polar k)).
Proof.
  intros k. apply sep_partials. intros c f g H. unfold bump_polar in H. cbn [In] in H.
  repeat (destruct H as [H|H]; [injection H as <- <- <-; split; apply mono_fam|]). destruct H.
Qed.

Lemma bump_polar_eq : forall k r t,
  sep (bump_polar k) 0%nat 0%nat r t = sep (bump_source k) 0%nat 0%nat (r * cos t) (r * sin t).
Proof.
  intros k r t. unfold bump_polar, bump_source, bump. cbn [app map sep fst snd]. unfold mono.
  cbn [mono_ce fst snd pred pow INR]. pose proof (sc2 t) as S.
  assert (S4 : sin t ^ 4 = (1 - cos t ^ 2) ^ 2) by (rewrite <- S; ring).
  apply injective_projections; unfold Cplus, RtoC; cbn [fst snd]; ring_simplify; rewrite ?S4, ?S; ring.
Qed.

Lemma bump_zero : forall t, sep bump 0%nat 0%nat (1 * cos t) (1 * sin t) = RtoC 0 /\
  Cplus (Cmult (RtoC (cos t)) (sep bump 1%nat 0%nat (1 * cos t) (1 * sin t)))
        (Cmult (RtoC (sin t)) (sep bump 0%nat 1%nat (1 * cos t) (1 * sin t))) = RtoC 0.
Proof.
  intros t. rewrite !Rmult_1_l. destruct (bump_traces t) as [B0 B1]. split; [exact B0|].
  etransitivity; [|exact B1]. unfold trace1.
  destruct (sep bump 1%nat 0%nat (cos t) (sin t)), (sep bump 0%nat 1%nat (cos t) (sin t)).
  apply injective_projections; unfold Cplus, Cmult, RtoC; cbn [fst snd]; ring.
Qed.

Lemma bump_quadratic : quadratic (sep (bump_source 0)) /\ quadratic (sep (bump_polar 0)).
Proof.
  split.
  - exists (RtoC (-8)), (RtoC 0), (RtoC 0), (RtoC 16), (RtoC 0), (RtoC 16). intros x y.
    unfold bump_source, bump. cbn [app map sep fst snd]. unfold mono. cbn [mono_ce fst snd pred pow INR].
    repeat split; apply injective_projections; unfold Cplus, Cmult, RtoC; cbn [fst snd]; ring.
  - exists (RtoC (-8)), (RtoC 0), (RtoC 0), (RtoC 16), (RtoC 0), (RtoC 0). intros x y.
    unfold bump_polar. cbn [app map sep fst snd]. unfold mono. cbn [mono_ce fst snd pred pow INR].
    repeat split; apply injective_projections; unfold Cplus, Cmult, RtoC; cbn [fst snd]; ring.
Qed.

(** A 4 x 4 grid on a square of side 4, whose nodes have integer coordinates. *)
Definition square_ctx (k R0 a : R) (g0 g1 g2 : list node) (src : source) : ext_ctx :=
  mk_ctx k R0 a 4 4 (r_arc R0) (node_bcoord min_zero (r_arc R0) a 4 4) (g0 ++ g1 ++ g2)
    (fun sid => match sid with 0%nat => g0 | 1%nat => g1 | _ => g2 end) [] [] [] false src.

Lemma square_coord : forall k R0 a g0 g1 g2 src i j,
  ctx_coord (square_ctx k R0 a g0 g1 g2 src) (i, j) = (IZR i - 2, IZR j - 2).
Proof. intros. unfold ctx_coord, get_coord, square_ctx. cbn [ec_AD ec_N fst snd]. f_equal; field. Qed.

(** Node (3, 3), the point (1, 1) at angle pi/4. *)
Lemma square_bcoord : forall k a th g0 g1 g2 src, 0 < a < PI -> a / 2 <= th < 2 * PI + a / 2 ->
  th = PI / 4 \/ th = 2 * PI + PI / 4 ->
  ec_bcoord (square_ctx k 1 a g0 g1 g2 src) (3, 3)%Z = Some (sqrt 2 - 1, th).
Proof.
  intros k a th g0 g1 g2 src Ha Hth Hc. cbn [square_ctx ec_bcoord]. unfold node_bcoord, ps_get_polar. cbn [fst snd].
  assert (E : cos th = 1 / sqrt 2 /\ sin th = 1 / sqrt 2).
  { destruct Hc as [-> | ->]; [split; [apply cos_PI4|apply sin_PI4]|].
    rewrite (Rplus_comm (2 * PI)). rewrite cos_plus, sin_plus, cos_2PI, sin_2PI, cos_PI4, sin_PI4. split; ring. }
  assert (S2 : 0 < sqrt 2) by (apply sqrt_lt_R0; lra).
  replace (get_coord 4 4 3 3) with (sqrt 2 * cos th, sqrt 2 * sin th).
  2:{ unfold get_coord. destruct E as [-> ->]. f_equal; field; lra. }
  pose proof PI_RGT_0. rewrite ps_polar_of_polar by lra. rewrite arc_coord_positive by (apply min_zero_contract || lra). reflexivity.
Qed.

(** x^2 y^2 vanishes to second order on the line y = 0. *)
Definition saddle : sep_sum := [(RtoC 1, mono 2, mono 2)].
Definition saddle_source (k : R) : sep_sum :=
  [(RtoC 2, mono 0, mono 2); (RtoC 2, mono 2, mono 0); (RtoC (k ^ 2), mono 2, mono 2)].
Lemma saddle_partials : forall k O m, partials O m (sep saddle) /\ partials O m (sep (saddle_source k)).
Proof.
  intros k O m. split; apply sep_partials; intros c f g H; unfold saddle, saddle_source in H; cbn [In] in H;
  repeat (destruct H as [H|H]; [injection H as <- <- <-; split; apply mono_fam|]); destruct H.
Qed.
Lemma saddle_helmholtz : forall k O, helmholtz O k (sep saddle) (sep (saddle_source k)).
Proof.
  intros k O x y _. unfold saddle, saddle_source. cbn [app map sep fst snd]. unfold mono. cbn [mono_ce fst snd pred pow INR].
  apply injective_projections; unfold Cplus, Cmult, RtoC; cbn [fst snd]; ring.
Qed.
Lemma saddle_zero : forall t, sep saddle 0%nat 0%nat (t * -1) (t * 0) = RtoC 0 /\
  Cplus (Cmult (RtoC 0) (sep saddle 1%nat 0%nat (t * -1) (t * 0))) (Cmult (RtoC (- (-1))) (sep saddle 0%nat 1%nat (t * -1) (t * 0))) = RtoC 0.
Proof.
  intros t. unfold saddle. cbn [sep fst snd]. unfold mono. cbn [mono_ce fst snd pred pow INR].
  split; apply injective_projections; unfold Cplus, Cmult, RtoC; cbn [fst snd]; ring.
Qed.
Lemma saddle_quadratic : quadratic (sep (saddle_source 0)).
Proof.
  exists (RtoC 0), (RtoC 0), (RtoC 0), (RtoC 2), (RtoC 0), (RtoC 2). intros x y.
  unfold saddle_source. cbn [app map sep fst snd]. unfold mono. cbn [mono_ce fst snd pred pow INR].
  repeat split; apply injective_projections; unfold Cplus, Cmult, RtoC; cbn [fst snd]; ring.
Qed.

(** The unit arc on a square of side 4 with 16 cells and the source
    16 (x^2 + y^2) - 8; node (3, 8) at (-5/4, 0) has to be filled. *)
Lemma fill_example : forall brentq, brentq_contract brentq ->
  let F := sep (bump_source 0) in
  exists c todo, arc_solver brentq 4 c /\
    (let ins := ps_is_interior (r_arc (ec_R c)) (ec_a c) (ec_AD c) (ec_N c) in
     margin (ec_N c) ins /\ ec_AD c / IZR (ec_N c) <= ec_R c /\ ec_homogeneous c = false /\
     (forall sid b, on_seg (ec_R c) (ec_a c) sid b -> cart_source (ec_src c) F (fst b) (snd b)) /\ quadratic F /\
     enumerates todo (node_diff (Kplus 4 (ec_N c) ins) (global_Mplus (ec_N c) ins))) /\
    In (3, 8)%Z todo /\ ctx_coord c (3, 8)%Z = (- (5 / 4), 0).
Proof.
  intros brentq Hb F. pose proof PI_RGT_0 as HPI.
  destruct (arc_solver_exists brentq 4 1 1 (PI / 6) 4 16 [] [] [] false (exact_source F F) Hb ltac:(right; reflexivity)
    ltac:(lra) ltac:(lra) ltac:(lra) ltac:(lia)) as (c & Hc & _ & ER & Ea & EAD & EN & _ & _ & _ & Ehom & Esrc).
  set (S := node_diff (Kplus 4 (ec_N c) (ps_is_interior (r_arc (ec_R c)) (ec_a c) (ec_AD c) (ec_N c)))
                      (global_Mplus (ec_N c) (ps_is_interior (r_arc (ec_R c)) (ec_a c) (ec_AD c) (ec_N c)))).
  exists c, (nodup node_dec S). split; [exact Hc|]. split; [|split].
  - cbv zeta. split; [|split; [|split; [|split; [|split]]]].
    + rewrite ER, Ea, EAD, EN. apply (disc_margin 4 1); [lra|lia|lra|].
      intros i j _ Hi. unfold ps_is_interior in Hi. destruct (get_coord 4 16 i j) as [x y].
      apply interior_arc_iff in Hi; [|lra|lra]. destruct Hi as [Hd _]. cbn [fst snd] in Hd. split; lra.
    + rewrite EAD, EN, ER. lra.
    + exact Ehom.
    + intros. rewrite Esrc. apply exact_cart.
    + apply bump_quadratic.
    + split; [apply NoDup_nodup|]. intros p. apply nodup_In.
  - apply nodup_In. unfold S. apply node_diff_in. rewrite ER, Ea, EAD, EN. split.
    + apply Kplus_in; [right; reflexivity|]. exists (4, 8)%Z. split; [|right; split; [reflexivity|cbn; lia]].
      apply Mplus_in. split; [unfold in_open_grid; cbn; lia|]. cbn [fst snd]. unfold ps_is_interior.
      replace (get_coord 4 16 4 8) with (-1, 0) by (unfold get_coord; f_equal; field).
      apply interior_arc_iff; [lra|lra|]. unfold in_domain. cbn [fst snd]. split; [lra|]. intros [? _]; lra.
    + rewrite Mplus_in. intros [_ Hi]. cbn [fst snd] in Hi. unfold ps_is_interior in Hi.
      replace (get_coord 4 16 3 8) with (- (5 / 4), 0) in Hi by (unfold get_coord; f_equal; field).
      apply interior_arc_iff in Hi; [|lra|lra]. destruct Hi as [Hd _]. cbn [fst snd] in Hd. lra.
  - unfold ctx_coord. rewrite EAD, EN. unfold get_coord. cbn [fst snd]. f_equal; field.
Qed.

Lemma square_bcoord_pi : forall k a g0 g1 g2 src, 0 < a < PI ->
  ec_bcoord (square_ctx k 1 a g0 g1 g2 src) (0, 2)%Z = Some (1, PI).
Proof.
  intros k a g0 g1 g2 src Ha. cbn [square_ctx ec_bcoord]. unfold node_bcoord, ps_get_polar. cbn [fst snd].
  replace (get_coord 4 4 0 2) with (2 * cos PI, 2 * sin PI).
  2:{ unfold get_coord. rewrite cos_PI, sin_PI. f_equal; field. }
  rewrite ps_polar_of_polar by lra. rewrite arc_coord_positive by (apply min_zero_contract || lra). do 2 f_equal. lra.
Qed.

(** (x^2 + y^2 - 1)^2 at the node (-2, 0) beside the unit arc. *)
Definition bump_curve_ctx (k : R) : ext_ctx :=
  square_ctx k 1 (PI / 4) [(0, 2)%Z] [] [] (exact_source (sep (bump_source k)) (sep (bump_polar k))).

Lemma bump_curve : forall k,
  do_extend_inhomo (bump_curve_ctx k) 0 EStandard (0, 2)%Z =
  Ok (1, taylor_poly (fun t => sep bump 0%nat 0%nat (-1 - t) 0) 4 1).
Proof.
  intros k. pose proof PI_RGT_0 as HP. destruct (arc_smooth 1 ltac:(lra)) as (H1 & H2 & H3 & H4 & H5 & H6 & H7).
  rewrite (inhomo_node_curve min_zero (bump_curve_ctx k) (0, 2)%Z 1 PI (fun t => 1 * t) (fun s => s / 1) everywhere everywhere 0 (2 * PI)
    (sep bump) (sep (bump_source k)) (sep (bump_polar k)) min_zero_contract); cbn [bump_curve_ctx square_ctx ec_a ec_r ec_k ec_homogeneous].
  - rewrite Rabs_R1. do 2 f_equal. rewrite arc_normal by lra. cbn [fst snd]. unfold r_arc. rewrite cos_PI, sin_PI.
    f_equal. apply FunctionalExtensionality.functional_extensionality. intros t. f_equal; ring.
  - lra.
  - intros. unfold r_arc. lra.
  - exact H2.
  - exact H3.
  - exact H4.
  - exact H5.
  - exact H6.
  - exact H7.
  - reflexivity.
  - left. reflexivity.
  - apply square_bcoord_pi. lra.
  - lra.
  - reflexivity.
  - apply everywhere_open.
  - intros. exact I.
  - apply bump_partials.
  - apply bump_source_partials.
  - apply bump_helmholtz.
  - apply bump_polar_partials.
  - intros. exact I.
  - intros. apply bump_polar_eq.
  - lra.
  - apply exact_polar.
  - intros t _. rewrite arc_normal by lra. cbn [fst snd]. unfold r_arc. apply bump_zero.
Qed.

(** The same function at the node (1, 1), beyond either corner of the arc: the
    angle is below a for a = pi/3, and above 2 pi for a = 2 pi/3. *)
Definition bump_corner_ctx (a : R) : ext_ctx :=
  square_ctx 0 1 a [(3, 3)%Z] [] [] (exact_source (sep (bump_source 0)) (sep (bump_polar 0))).

Lemma bump_corner : forall a e, (a = PI / 3 /\ e = ELeft \/ a = 2 * PI / 3 /\ e = ERight) ->
  node_etype (bump_corner_ctx a) 0 (3, 3)%Z = Ok e /\
  exists len, do_extend_inhomo (bump_corner_ctx a) 0 e (3, 3)%Z =
  Ok (len, taylor_poly (fun t => sep bump 0%nat 0%nat ((1 + t) * (1 / sqrt 2)) ((1 + t) * (1 / sqrt 2))) 4 (sqrt 2 - 1)).
Proof.
  intros a e Hc. pose proof PI_RGT_0 as HP.
  set (th := match e with ELeft => PI / 4 | _ => 2 * PI + PI / 4 end).
  set (th0 := match e with ELeft => a | _ => 2 * PI end).
  assert (Ha : 0 < a < PI) by (destruct Hc as [[-> _]|[-> _]]; lra).
  assert (Hth : a / 2 <= th < 2 * PI + a / 2) by (unfold th; destruct Hc as [[-> ->]|[-> ->]]; lra).
  assert (Hbc : ec_bcoord (bump_corner_ctx a) (3, 3)%Z = Some (sqrt 2 - 1, th)).
  { apply square_bcoord; [exact Ha|exact Hth|]. unfold th. destruct Hc as [[_ ->]|[_ ->]]; auto. }
  assert (He : node_etype (bump_corner_ctx a) 0 (3, 3)%Z = Ok e).
  { destruct (node_etype_0 (bump_corner_ctx a) (3, 3)%Z (sqrt 2 - 1, th) (3 - 2) (3 - 2)) as [_ H'].
    - left; reflexivity.
    - exact Hbc.
    - apply square_coord.
    - rewrite H'. unfold etype_of. cbn [ec_a bump_corner_ctx square_ctx]. unfold th. f_equal.
      destruct Hc as [[-> ->]|[-> ->]].
      + destruct (Rltb_spec (2 * PI) (PI / 4)); [lra|]. destruct (Rltb_spec (PI / 4) (PI / 3)); [reflexivity|lra].
      + destruct (Rltb_spec (2 * PI) (2 * PI + PI / 4)); [reflexivity|lra]. }
  split; [exact He|].
  assert (Hcs : cos th = 1 / sqrt 2 /\ sin th = 1 / sqrt 2).
  { unfold th. destruct Hc as [[_ ->]|[_ ->]]; [split; [apply cos_PI4|apply sin_PI4]|].
    rewrite (Rplus_comm (2 * PI)). rewrite cos_plus, sin_plus, cos_2PI, sin_2PI, cos_PI4, sin_PI4. split; ring. }
  assert (S2 : 1 < sqrt 2) by (rewrite <- sqrt_1 at 1; apply sqrt_lt_1; lra).
  destruct bump_quadratic as [Q1 Q2].
  destruct (inhomo_node_corner min_zero (bump_corner_ctx a) e (3, 3)%Z (sqrt 2 - 1) th th0 everywhere everywhere 0 (4 * PI)
    (sep bump) (sep (bump_source 0)) (sep (bump_polar 0)) min_zero_contract) as (len & _ & E);
    cbn [bump_corner_ctx square_ctx ec_R ec_a ec_r ec_k ec_homogeneous].
  - lra.
  - exact Ha.
  - reflexivity.
  - reflexivity.
  - left. reflexivity.
  - exact Hbc.
  - lra.
  - reflexivity.
  - exact He.
  - unfold th0. destruct Hc as [[_ ->]|[_ ->]]; auto.
  - exact Q1.
  - exact Q2.
  - apply exact_polar.
  - apply everywhere_open.
  - intros. exact I.
  - apply bump_partials.
  - apply bump_source_partials.
  - apply bump_helmholtz.
  - apply bump_polar_partials.
  - intros. exact I.
  - intros. apply bump_polar_eq.
  - unfold th. destruct Hc as [[_ ->]|[_ ->]]; lra.
  - intros t _. apply bump_zero.
  - exists len. rewrite E. do 2 f_equal. destruct Hcs as [-> ->]. f_equal.
    apply FunctionalExtensionality.functional_extensionality. intros t. cbn [bump_corner_ctx square_ctx ec_R]. f_equal; ring.
Qed.

(** x^2 y^2 at the node (1, 1) above the segment at angle 0, whose foot point
    is on the segment for R = 23/10 and beyond its end for R = 1/2. *)
Definition saddle_ctx (k R0 : R) : ext_ctx :=
  square_ctx k R0 (PI / 4) [] [(3, 3)%Z] [] (exact_source (sep (saddle_source k)) (sep (saddle_source k))).

Lemma saddle_straight : forall k, node_etype (saddle_ctx k (23 / 10)) 1 (3, 3)%Z = Ok EStandard /\
  exists len, 1 <= len /\ do_extend_inhomo (saddle_ctx k (23 / 10)) 1 EStandard (3, 3)%Z =
  Ok (len, taylor_poly (fun m => sep saddle 0%nat 0%nat 1 m) 4 1).
Proof.
  intros k. pose proof PI_RGT_0 as HP.
  assert (Exy : ctx_coord (saddle_ctx k (23 / 10)) (3, 3)%Z = (1, 1)).
  { unfold saddle_ctx. rewrite square_coord. f_equal; lra. }
  split.
  { rewrite (node_etype_12 _ 1 _ 1 1 ltac:(lia) Exy). f_equal. unfold etype_of. cbn [ec_R saddle_ctx square_ctx].
    destruct (Rltb_spec 1 0); [lra|]. destruct (Rltb_spec (23 / 10) 1); [lra|reflexivity]. }
  destruct (inhomo_node_straight (saddle_ctx k (23 / 10)) 1 EStandard (3, 3)%Z 1 1 (-1) 0 everywhere (-2) 0
    (sep saddle) (sep (saddle_source k))) as (len & Hl & E); cbn [saddle_ctx square_ctx ec_a ec_k ec_homogeneous].
  - lra.
  - exact Exy.
  - left. auto.
  - discriminate.
  - reflexivity.
  - lra.
  - apply exact_cart.
  - apply everywhere_open.
  - intros. exact I.
  - apply (saddle_partials k).
  - apply saddle_partials.
  - apply saddle_helmholtz.
  - lra.
  - intros t _. apply saddle_zero.
  - exists len. replace (1 * 0 - 1 * -1) with 1 in Hl, E by ring. rewrite Rabs_R1 in Hl. split; [exact Hl|].
    rewrite E. do 2 f_equal. f_equal. apply FunctionalExtensionality.functional_extensionality. intros m. f_equal; ring.
Qed.

Lemma saddle_right : node_etype (saddle_ctx 0 (1 / 2)) 1 (3, 3)%Z = Ok ERight /\
  do_extend_inhomo (saddle_ctx 0 (1 / 2)) 1 ERight (3, 3)%Z =
  Ok (3 / 2, taylor_poly (fun m => sep saddle 0%nat 0%nat 1 m) 4 1).
Proof.
  pose proof PI_RGT_0 as HP.
  assert (Exy : ctx_coord (saddle_ctx 0 (1 / 2)) (3, 3)%Z = (1, 1)).
  { unfold saddle_ctx. rewrite square_coord. f_equal; lra. }
  assert (He : node_etype (saddle_ctx 0 (1 / 2)) 1 (3, 3)%Z = Ok ERight).
  { rewrite (node_etype_12 _ 1 _ 1 1 ltac:(lia) Exy). f_equal. unfold etype_of. cbn [ec_R saddle_ctx square_ctx].
    destruct (Rltb_spec 1 0); [lra|]. destruct (Rltb_spec (1 / 2) 1); [reflexivity|lra]. }
  split; [exact He|].
  rewrite (inhomo_node_right (saddle_ctx 0 (1 / 2)) 1 (3, 3)%Z 1 1 (-1) 0 everywhere (-2) 0
    (sep saddle) (sep (saddle_source 0))); cbn [saddle_ctx square_ctx ec_R ec_a ec_k ec_homogeneous].
  - replace (1 * -1 + 1 * 0 - - (1 / 2)) with (- (1 / 2)) by lra. replace (1 * 0 - 1 * -1) with 1 by ring.
    rewrite Rabs_R1, Rabs_Ropp, Rabs_pos_eq by lra. f_equal. f_equal; [lra|].
    f_equal. apply FunctionalExtensionality.functional_extensionality. intros m. f_equal; ring.
  - lra.
  - lra.
  - exact Exy.
  - left. auto.
  - exact He.
  - reflexivity.
  - apply exact_cart.
  - apply saddle_quadratic.
  - apply everywhere_open.
  - intros. exact I.
  - apply (saddle_partials 0).
  - apply saddle_partials.
  - apply saddle_helmholtz.
  - lra.
  - intros t _. apply saddle_zero.
Qed.
