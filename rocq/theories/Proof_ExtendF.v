(** Proofs for C51 and C52: extension of the source term. *)
From Coq Require Import ZArith List Bool Reals Lra Lia Psatz.
From Coquelicot Require Import Coquelicot.
From Verif Require Import Model_Py Model_Multivalue Model_Grid Model_Domain Model_Ext Model_Extend
  Spec_Grid Spec_Domain Spec_Ext Spec_Extend Spec_Inhomo Proof_Grid Proof_Domain Proof_Boundary Proof_Ext Proof_Ext2
  Proof_Place Proof_Extend Proof_Extend2.
Import ListNotations.
Open Scope R_scope.

(** ** Distance to a corner *)

(** A point outside the disc of radius [R0] within [h] of the point at distance
    [t] on a ray is within [h * sqrt 2] of the end of that ray. *)
Lemma corner_close : forall R0 t d2 c h, 0 < R0 -> 0 <= t <= R0 -> 0 <= h <= R0 -> d2 <= h ^ 2 -> 0 <= d2 ->
  R0 ^ 2 <= t ^ 2 + 2 * t * c + d2 -> (t = 0 -> 0 <= c) ->
  d2 + (R0 - t) ^ 2 - 2 * (R0 - t) * c <= 2 * h ^ 2.
Proof.
  intros R0 t d2 c h HR Ht Hh Hd Hd0 Hq H0. set (s := R0 - t).
  assert (Hs : 0 <= s <= R0) by (unfold s; lra).
  assert (E : s ^ 2 + 2 * t * (s - c) <= d2).
  { replace R0 with (t + s) in Hq by (unfold s; ring). nra. }
  destruct (Rle_lt_dec c s) as [L|L].
  - destruct (Rle_lt_dec 0 c) as [P|P].
    + assert (0 <= t * (s - c)) by (apply Rmult_le_pos; lra). assert (0 <= s * c) by (apply Rmult_le_pos; lra). nra.
    + (* c < 0 *)
      destruct (Rle_lt_or_eq_dec 0 t ltac:(lra)) as [T|T]; [|specialize (H0 (eq_sym T)); lra].
      assert (C2 : - 2 * c <= t).
      { assert (h ^ 2 <= R0 ^ 2) by nra. assert (t * (- 2 * c) <= t * t) by nra.
        apply Rmult_le_reg_l with t; lra. }
      assert (S1 : s * R0 <= d2).
      { assert (0 <= t * - c) by (apply Rmult_le_pos; lra). unfold s in *. nra. }
      assert (s * (s - 2 * c) <= s * R0).
      { apply Rmult_le_compat_l; [lra|]. unfold s. lra. }
      nra.
  - assert (0 <= s * (c - s)) by (apply Rmult_le_pos; lra). nra.
Qed.

(** ** Nodes where the source is extended (C51) *)

Section ExtendF.
Context (brentq : (R -> R) -> R -> R -> option R) (c : ext_ctx) (Hb : brentq_contract brentq)
  (Hc : arc_solver brentq 4 c)
  (Hm : margin (ec_N c) (ps_is_interior (r_arc (ec_R c)) (ec_a c) (ec_AD c) (ec_N c)))
  (Hh : ec_AD c / IZR (ec_N c) <= ec_R c).

Let R0 := ec_R c.
Let a := ec_a c.
Let h := ec_AD c / IZR (ec_N c).
Let ins := ps_is_interior (r_arc (ec_R c)) (ec_a c) (ec_AD c) (ec_N c).

Lemma h_pos : 0 < h.
Proof.
  destruct Hc as (_ & _ & HL & HN & _). unfold h. apply Rdiv_lt_0_compat; [assumption|]. apply (IZR_lt 0). lia.
Qed.

(** A node to be filled: outside the domain, next to a node inside. *)
Lemma fill_node : forall q x y, In q (node_diff (Kplus 4 (ec_N c) ins) (global_Mplus (ec_N c) ins)) ->
  ctx_coord c q = (x, y) ->
  in_open_grid (ec_N c) q /\ In q (ec_union c) /\ ~ in_domain R0 a (x, y) /\
  exists x' y', in_domain R0 a (x', y') /\ (x - x') * (y - y') = 0 /\ (x - x') ^ 2 + (y - y') ^ 2 = h ^ 2.
Proof.
  intros q x y Hq Exy. destruct Hc as (HR & Ha & HL & HN & Er & Ebc & Hen & Hall).
  apply node_diff_in in Hq. destruct Hq as [HK HM]. apply Kplus_in in HK; [|right; reflexivity].
  destruct HK as (p & Hp & [->|[_ Hpq]]); [contradiction|].
  apply Mplus_in in Hp. destruct Hp as [Hpg Hpi].
  assert (Hqg : in_open_grid (ec_N c) q).
  { assert (Hm' := Hm (fst p) (snd p)). destruct p as [i j], q as [i' j']. cbn [fst snd] in *.
    specialize (Hm' Hpg Hpi). unfold in_open_grid. cbn [fst snd]. lia. }
  assert (Hqi : ins (fst q) (snd q) = false).
  { destruct (ins (fst q) (snd q)) eqn:E; [|reflexivity]. exfalso. apply HM. apply Mplus_in. auto. }
  split; [exact Hqg|]. split; [|split].
  - apply Hen. apply gamma_set_in; [right; reflexivity|]. split.
    + exists p. split; [exact Hpg|]. split; [exact Hpi|]. split; [lia|]. split; [lia|]. intros; lia.
    + exists q. split; [exact Hqg|]. split; [exact Hqi|apply neighbour_refl].
  - intros D. apply (arc_ins_iff R0 a (ec_AD c) (ec_N c) HR Ha q x y Exy) in D.
    unfold arc_ins in D. unfold ins in Hqi. unfold R0, a in D. congruence.
  - destruct (get_coord (ec_AD c) (ec_N c) (fst p) (snd p)) as [x' y'] eqn:Ep.
    exists x', y'. split; [apply (arc_ins_iff R0 a (ec_AD c) (ec_N c) HR Ha p x' y' Ep); exact Hpi|].
    unfold ctx_coord, get_coord in Exy, Ep. injection Exy as <- <-. injection Ep as <- <-.
    assert (HN' : IZR (ec_N c) <> 0) by (apply not_0_IZR; lia).
    assert (Ex : forall i j, ec_AD c * (IZR i / IZR (ec_N c) - 1 / 2) - ec_AD c * (IZR j / IZR (ec_N c) - 1 / 2) = h * IZR (i - j)).
    { intros i j. rewrite minus_IZR. unfold h. field. assumption. }
    rewrite !Ex.
    destruct (Z.eq_dec (fst q - fst p) 0) as [E0|E0].
    + rewrite E0. split; [ring|]. assert (Hs : (snd q - snd p = 1 \/ snd q - snd p = -1)%Z) by lia.
      destruct Hs as [-> | ->]; ring.
    + assert (E1 : (snd q - snd p = 0)%Z) by lia. rewrite E1. split; [ring|].
      assert (Hs : (fst q - fst p = 1 \/ fst q - fst p = -1)%Z) by lia. destruct Hs as [-> | ->]; ring.
Qed.

(** The line from the interior neighbour meets the boundary. *)
Lemma fill_crossing : forall x y x' y' R1, 0 < R1 -> in_domain R1 a (x', y') -> ~ in_domain R1 a (x, y) ->
  (x - x') * (y - y') = 0 -> (x - x') ^ 2 + (y - y') ^ 2 = h ^ 2 ->
  exists sid b1 b2 t, (sid < 3)%nat /\ on_seg R1 a sid (b1, b2) /\ (x - b1) * (y - b2) = 0 /\
    (x - b1) ^ 2 + (y - b2) ^ 2 <= h ^ 2 /\ 0 <= t <= 1 /\ b1 = x' + t * (x - x') /\ b2 = y' + t * (y - y').
Proof.
  intros x y x' y' R1 HR1 H1 H2 E0 E1. destruct Hc as (HR & Ha & _).
  destruct (crossing R1 a x' y' x y HR1 Ha H1 H2) as (sid & t & Hs & Ht & Hseg).
  exists sid, (x' + t * (x - x')), (y' + t * (y - y')), t. split; [exact Hs|]. split; [exact Hseg|].
  split; [|split; [|auto]].
  - replace (x - (x' + t * (x - x'))) with ((1 - t) * (x - x')) by ring.
    replace (y - (y' + t * (y - y'))) with ((1 - t) * (y - y')) by ring.
    replace ((1 - t) * (x - x') * ((1 - t) * (y - y'))) with ((1 - t) ^ 2 * ((x - x') * (y - y'))) by ring.
    rewrite E0. ring.
  - replace (x - (x' + t * (x - x'))) with ((1 - t) * (x - x')) by ring.
    replace (y - (y' + t * (y - y'))) with ((1 - t) * (y - y')) by ring.
    replace (((1 - t) * (x - x')) ^ 2 + ((1 - t) * (y - y')) ^ 2) with ((1 - t) ^ 2 * ((x - x') ^ 2 + (y - y') ^ 2)) by ring.
    rewrite E1. assert (0 <= h ^ 2) by apply pow2_ge_0. assert ((1 - t) ^ 2 <= 1) by nra. nra.
Qed.

Lemma dist_bound : forall b x y, (fst b - x) ^ 2 + (snd b - y) ^ 2 <= 2 * h ^ 2 -> dist2 b (x, y) <= h * sqrt 2.
Proof.
  intros b x y H. pose proof h_pos. unfold dist2. cbn [fst snd].
  replace (h * sqrt 2) with (sqrt (2 * h ^ 2)).
  - apply sqrt_le_1_alt. exact H.
  - rewrite sqrt_mult_alt by lra. rewrite sqrt_pow2 by lra. ring.
Qed.

Lemma wedge_dec : forall x y, ~ in_domain R0 a (x, y) ->
  R0 ^ 2 < x ^ 2 + y ^ 2 \/ (0 < y /\ y * cos a < x * sin a).
Proof.
  intros x y H. destruct (Rlt_le_dec (R0 ^ 2) (x ^ 2 + y ^ 2)) as [L|L]; [left; exact L|right].
  destruct (Rlt_dec 0 y) as [Y|Y]; [|exfalso; apply H; split; cbn [fst snd]; [lra|tauto]].
  destruct (Rlt_dec (y * cos a) (x * sin a)) as [W|W]; [auto|].
  exfalso. apply H. split; cbn [fst snd]; [lra|tauto].
Qed.

(** Nodes to be filled outside the disc are listed under the outer curve. *)
Lemma fill_listed : forall q x y, In q (node_diff (Kplus 4 (ec_N c) ins) (global_Mplus (ec_N c) ins)) ->
  ctx_coord c q = (x, y) -> R0 ^ 2 <= x ^ 2 + y ^ 2 -> In q (ec_gamma c 0).
Proof.
  intros q x y Hq Exy Hr. destruct (fill_node q x y Hq Exy) as (Hg & Hu & Hnd & x' & y' & Hd & E0 & E1).
  assert (Hc' := Hc). destruct Hc' as (HR & Ha & HL & HN & Er & Ebc & Hen & Hall).
  assert (HR' : 0 < R0) by exact HR. assert (Ha' : 0 < a < PI) by exact Ha.
  destruct (fill_crossing x y x' y' R0 HR' Hd Hnd E0 E1) as (sid & b1 & b2 & t & Hs & Hseg & F0 & F1 & _).
  assert (Hsin : 0 < sin a) by (apply sin_gt_0; apply Ha).
  pose proof (sc2 a) as S2. pose proof h_pos as Hp.
  rewrite Ebc in Hall.
  destruct (gamma_placed brentq (ec_R c) (ec_a c) (ec_AD c) (ec_N c) Hb HR Ha HL HN 4%Z (ec_union c) ltac:(right; reflexivity) Hen)
    as (g0 & g1 & g2 & E & _ & _ & _ & _ & Eg0 & _).
  unfold bcoord in E. rewrite Hall in E. injection E as E _ _. rewrite E, Eg0. apply filter_In. split; [exact Hu|].
  assert (K : exists b, on_seg R0 a 0 b /\ dist2 b (x, y) <= h * sqrt 2).
  { assert (Hax : forall u1 u2, u1 ^ 2 + u2 ^ 2 = 1 -> (u1, u2) = (1, 0) \/ (u1, u2) = (cos a, sin a) ->
      forall t, 0 <= t <= R0 -> b1 = t * u1 -> b2 = t * u2 -> dist2 (R0 * u1, R0 * u2) (x, y) <= h * sqrt 2).
    { intros u1 u2 Hu1 Hor t0 Ht0 -> ->. apply dist_bound. cbn [fst snd].
      set (cc := (x - t0 * u1) * u1 + (y - t0 * u2) * u2). set (d2 := (x - t0 * u1) ^ 2 + (y - t0 * u2) ^ 2) in *.
      assert (X2 : x ^ 2 + y ^ 2 = t0 ^ 2 + 2 * t0 * cc + d2).
      { unfold cc, d2. transitivity (x ^ 2 + y ^ 2 + t0 ^ 2 * (1 - (u1 ^ 2 + u2 ^ 2))); [rewrite Hu1; ring|ring]. }
      assert (Y2 : (R0 * u1 - x) ^ 2 + (R0 * u2 - y) ^ 2 = d2 + (R0 - t0) ^ 2 - 2 * (R0 - t0) * cc).
      { unfold cc, d2. transitivity ((R0 * u1 - x) ^ 2 + (R0 * u2 - y) ^ 2 + (R0 - t0) ^ 2 * (1 - (u1 ^ 2 + u2 ^ 2))); [rewrite Hu1; ring|ring]. }
      rewrite Y2. apply corner_close; try assumption; try lra.
      - unfold h in *. unfold R0. lra.
      - unfold d2. pose proof (pow2_ge_0 (x - t0 * u1)). pose proof (pow2_ge_0 (y - t0 * u2)). lra.
      - intros ->. unfold cc. unfold d2 in F1. rewrite !Rmult_0_l, !Rminus_0_r in *.
        destruct (wedge_dec x y Hnd) as [W|[W1 W2]].
        + exfalso. assert (h ^ 2 <= R0 ^ 2) by (unfold h, R0 in *; nra). lra.
        + assert (x = 0) by (destruct (Rmult_integral _ _ F0); lra). subst x.
          destruct Hor as [Hor|Hor]; injection Hor as -> ->; nra. }
    destruct sid as [|[|[|sid]]]; [| | |lia].
    - exists (b1, b2). split; [exact Hseg|]. apply dist_bound. cbn [fst snd]. 
      assert (0 <= h ^ 2) by apply pow2_ge_0. nra.
    - destruct Hseg as (t0 & Ht0 & Et). injection Et as Et1 Et2. exists (R0 * 1, R0 * 0). split.
      + exists (2 * PI). pose proof PI_RGT_0. split; [lra|]. rewrite cos_2PI, sin_2PI. reflexivity.
      + assert (U1 : 1 ^ 2 + 0 ^ 2 = 1) by ring. apply (Hax 1 0 U1 (or_introl eq_refl) t0); lra.
    - destruct Hseg as (t0 & Ht0 & Et). injection Et as Et1 Et2. exists (R0 * cos a, R0 * sin a). split.
      + exists a. pose proof PI_RGT_0. split; [lra|]. reflexivity.
      + assert (U1 : cos a ^ 2 + sin a ^ 2 = 1) by ring [S2]. apply (Hax (cos a) (sin a) U1 (or_intror eq_refl) t0); lra. }
  unfold claims. rewrite (proj2 (claims_iff brentq (ec_R c) (ec_a c) (ec_AD c) (ec_N c) Hb HR Ha 0%nat q x y ltac:(lia) Exy) K).
  reflexivity.
Qed.

(** The boundary point used for a node. *)
Lemma fill_base : forall q x y, In q (node_diff (Kplus 4 (ec_N c) ins) (global_Mplus (ec_N c) ins)) ->
  ctx_coord c q = (x, y) ->
  exists sid b, (sid < 3)%nat /\ extend_f_base c q = Ok b /\ on_seg R0 a sid b /\ dist2 b (x, y) <= h * sqrt 2 /\ b <> (x, y).
Proof.
  intros q x y Hq Exy. destruct (fill_node q x y Hq Exy) as (Hg & Hu & Hnd & x' & y' & Hd & E0 & E1).
  assert (Hc' := Hc). destruct Hc' as (HR & Ha & HL & HN & Er & Ebc & Hen & Hall).
  fold R0 in HR. fold a in Ha. pose proof PI_RGT_0 as HPI. pose proof h_pos as Hp.
  assert (Hsin : 0 < sin a) by (apply sin_gt_0; apply Ha). pose proof (sc2 a) as S2.
  destruct (ps_polar_xy a x y) as [r th] eqn:Ep.
  destruct (ps_polar_spec a x y r th ltac:(lra) Ep) as (Hr & Hth & Hx & Hy).
  assert (Er2 : x ^ 2 + y ^ 2 = r ^ 2).
  { rewrite <- Hx, <- Hy. pose proof (sc2 th) as S. ring [S]. }
  assert (Hr0 : 0 < r).
  { destruct Hr as [Hr|Hr]; [exact Hr|]. exfalso. apply Hnd. subst r. rewrite !Rmult_0_l in *. subst x y.
    split; cbn [fst snd]; [nra|]. lra. }
  pose proof (wedge_iff a x y r th Ha Ep) as Hw.
  assert (Hout : ~ (r <= R0 /\ a <= th <= 2 * PI)).
  { intros [A1 A2]. apply Hnd. split; cbn [fst snd]; [nra|]. apply Hw. exact A2. }
  destruct (bcoord_arc brentq (ec_R c) (ec_a c) (ec_AD c) (ec_N c) Hb HR Ha q x y r th Exy Ep) as (th0 & Eb & _ & Eth).
  specialize (Eth Hr0). subst th0. assert (Ebq := Eb). unfold bcoord in Eb. rewrite <- Ebc in Eb. fold R0 in Eb, Ebq.
  assert (Ecache : In q (ec_gamma c 0) -> ctx_cache c q = Ok (r - R0, th)).
  { intros Hin. unfold ctx_cache, cache_get. rewrite (proj2 (node_mem_in _ _) Hin), Eb. reflexivity. }
  assert (Eety : In q (ec_gamma c 0) -> node_etype c 0 q = Ok (etype_of R0 a (Some (r - R0, th)) 0 x y)).
  { intros Hin. unfold node_etype. rewrite Exy, (proj2 (node_mem_in _ _) Hin), (Ecache Hin). reflexivity. }
  assert (Edist : In q (ec_gamma c 0) -> exists d, get_dist R0 a (Some (r - R0, th)) 0 (etype_of R0 a (Some (r - R0, th)) 0 x y) x y = Ok d
    /\ d <= h * sqrt 2).
  { intros Hin. rewrite Ebc in Hall.
    destruct (gamma_placed brentq (ec_R c) (ec_a c) (ec_AD c) (ec_N c) Hb HR Ha HL HN 4%Z (ec_union c) ltac:(right; reflexivity) Hen)
      as (g0 & g1 & g2 & E & _ & _ & _ & _ & Eg0 & _).
    unfold bcoord in E. rewrite Hall in E. injection E as E _ _. rewrite E, Eg0 in Hin. apply filter_In in Hin.
    destruct Hin as [_ Hin]. unfold claims, seg_claims in Hin. unfold ctx_coord in Exy. rewrite Exy in Hin.
    fold R0 a in Hin. fold a in Ebq. rewrite Ebq in Hin.
    destruct (get_dist R0 a (Some (r - R0, th)) 0 (etype_of R0 a (Some (r - R0, th)) 0 x y) x y) as [d|e]; [|discriminate].
    exists d. split; [reflexivity|]. cbn [bind] in Hin. fold h in Hin. destruct (Rleb_spec d (h * sqrt 2)); [assumption|discriminate]. }
  assert (Epol : ps_get_polar (ec_a c) (ec_AD c) (ec_N c) (fst q) (snd q) = (r, th)).
  { unfold ps_get_polar. unfold ctx_coord in Exy. rewrite Exy. exact Ep. }
  assert (Eer : ec_r c = r_arc R0) by exact Er.
  assert (Esid : forall e, etype_of R0 a (Some (r - R0, th)) 0 x y = e -> 
    extend_f_get_sid c q = if node_mem q (ec_gamma c 0) && etype_eqb e EStandard then Ok 0%nat
      else if Rltb r R0 then (if Rleb (2 * PI) th then Ok 1%nat else Ok 2%nat) else Ok 0%nat).
  { intros e Ee. unfold extend_f_get_sid. rewrite Epol, Eer. unfold r_arc.
    destruct (node_mem q (ec_gamma c 0)) eqn:Em; [|reflexivity].
    apply node_mem_in in Em. rewrite (Eety Em), Ee. cbn [bind andb]. destruct (etype_eqb e EStandard); reflexivity. }
  assert (Hstd : a <= th <= 2 * PI \/ ~ (a <= th <= 2 * PI)) by (destruct (Rle_dec a th), (Rle_dec th (2 * PI)); intuition lra).
  assert (Eet : etype_of R0 a (Some (r - R0, th)) 0 x y =
    if Rltb (2 * PI) th then ERight else if Rltb th a then ELeft else EStandard) by reflexivity.
  assert (Curve : In q (ec_gamma c 0) -> extend_f_get_sid c q = Ok 0%nat ->
    exists sid b, (sid < 3)%nat /\ extend_f_base c q = Ok b /\ on_seg R0 a sid b /\ dist2 b (x, y) <= h * sqrt 2 /\ b <> (x, y)).
  { intros Hin Hs0. exists 0%nat. destruct (Edist Hin) as (d & Ed & Hle).
    assert (Base : extend_f_base c q = match etype_of R0 a (Some (r - R0, th)) 0 x y with
        EStandard => Ok (R0 * cos th, R0 * sin th) | ELeft => Ok (R0 * cos a, R0 * sin a) | ERight => Ok (R0, 0) end).
    { unfold extend_f_base. rewrite Exy, Hs0. cbn [bind]. rewrite (Eety Hin). cbn [bind]. rewrite (Ecache Hin).
      cbn [bind fst snd]. rewrite Eer. unfold r_arc. reflexivity. }
    rewrite Eet in Base, Ed.
    destruct (Rltb_spec (2 * PI) th) as [T1|T1]; [|destruct (Rltb_spec th a) as [T2|T2]].
    - exists (R0, 0). split; [lia|]. split; [exact Base|]. split; [|split].
      + exists (2 * PI). split; [lra|]. rewrite cos_2PI, sin_2PI, Rmult_0_r, Rmult_1_r. reflexivity.
      + cbn in Ed. injection Ed as <-. exact Hle.
      + intros B. injection B as <- <-. apply Hnd. split; cbn [fst snd]; [lra|]. lra.
    - exists (R0 * cos a, R0 * sin a). split; [lia|]. split; [exact Base|]. split; [|split].
      + exists a. split; [lra|]. reflexivity.
      + cbn in Ed. injection Ed as <-. exact Hle.
      + intros B. injection B as <- <-. apply Hnd. split; cbn [fst snd]; [|lra].
        right. ring [S2].
    - exists (R0 * cos th, R0 * sin th). split; [lia|]. split; [exact Base|].
      assert (Hgt : R0 < r) by (destruct (Rle_lt_dec r R0); [exfalso; apply Hout; lra|assumption]).
      split; [|split].
      + exists th. split; [lra|]. reflexivity.
      + cbn in Ed. injection Ed as <-. eapply Rle_trans; [|exact Hle]. right. unfold dist2. cbn [fst snd].
        rewrite <- Hx, <- Hy. pose proof (sc2 th) as S.
        replace ((R0 * cos th - r * cos th) ^ 2 + (R0 * sin th - r * sin th) ^ 2) with ((r - R0) ^ 2) by ring [S].
        rewrite sqrt_pow2 by lra. rewrite Rabs_pos_eq by lra. reflexivity.
      + intros B. injection B as B1 B2. pose proof (sc2 th) as S. assert ((R0 * cos th) ^ 2 + (R0 * sin th) ^ 2 = r ^ 2) by (rewrite B1, B2; exact Er2).
        assert (R0 ^ 2 = r ^ 2) by (rewrite <- H; ring [S]). nra. }
  destruct (Rlt_le_dec r R0) as [Hlt|Hge].
  - (* inside the disc *)
    assert (Hnstd : ~ (a <= th <= 2 * PI)) by (intros H; apply Hout; lra).
    assert (Hsid : extend_f_get_sid c q = if Rleb (2 * PI) th then Ok 1%nat else Ok 2%nat).
    { rewrite (Esid _ eq_refl), Eet. destruct (Rltb_spec r R0); [|lra].
      destruct (Rltb_spec (2 * PI) th); [|destruct (Rltb_spec th a); [|lra]]; cbn [etype_eqb]; rewrite andb_false_r; reflexivity. }
    assert (Hwedge : 0 < y /\ y * cos a < x * sin a).
    { destruct (wedge_dec x y Hnd) as [W|W]; [nra|exact W]. }
    (* the line from the interior neighbour crosses one of the rays *)
    assert (Hray : exists t, 0 <= t /\ ((x - t) ^ 2 + y ^ 2 <= h ^ 2 \/ (x - t * cos a) ^ 2 + (y - t * sin a) ^ 2 <= h ^ 2)).
    { assert (D1 : in_domain (R0 + 1) a (x', y')).
      { destruct Hd as [D1 D2]. cbn [fst snd] in *. split; cbn [fst snd]; [nra|exact D2]. }
      assert (D2 : ~ in_domain (R0 + 1) a (x, y)) by (intros [_ D2]; apply D2; exact Hwedge).
      destruct (fill_crossing x y x' y' (R0 + 1) ltac:(lra) D1 D2 E0 E1) as (sid & b1 & b2 & t & Hs & Hseg & _ & F1 & Ht & G1 & G2).
      assert (Hb12 : b1 ^ 2 + b2 ^ 2 <= R0 ^ 2).
      { destruct Hd as [D3 _]. cbn [fst snd] in D3.
        assert (C1 : b1 ^ 2 <= (1 - t) * x' ^ 2 + t * x ^ 2).
        { rewrite G1. assert (0 <= t * (1 - t) * (x - x') ^ 2) by (apply Rmult_le_pos; [nra|apply pow2_ge_0]).
          replace ((1 - t) * x' ^ 2 + t * x ^ 2) with ((x' + t * (x - x')) ^ 2 + t * (1 - t) * (x - x') ^ 2) by ring. lra. }
        assert (C2 : b2 ^ 2 <= (1 - t) * y' ^ 2 + t * y ^ 2).
        { rewrite G2. assert (0 <= t * (1 - t) * (y - y') ^ 2) by (apply Rmult_le_pos; [nra|apply pow2_ge_0]).
          replace ((1 - t) * y' ^ 2 + t * y ^ 2) with ((y' + t * (y - y')) ^ 2 + t * (1 - t) * (y - y') ^ 2) by ring. lra. }
        assert (r ^ 2 <= R0 ^ 2) by nra.
        assert ((1 - t) * (x' ^ 2 + y' ^ 2) <= (1 - t) * R0 ^ 2) by (apply Rmult_le_compat_l; lra).
        assert (t * (x ^ 2 + y ^ 2) <= t * R0 ^ 2) by (apply Rmult_le_compat_l; lra). lra. }
      destruct sid as [|[|[|sid]]]; [| | |lia]; destruct Hseg as (t0 & Ht0 & Et); injection Et as Et1 Et2.
      - exfalso. pose proof (sc2 t0) as S. assert (b1 ^ 2 + b2 ^ 2 = (R0 + 1) ^ 2) by (rewrite Et1, Et2; ring [S]). nra.
      - exists t0. split; [lra|]. left. rewrite Et1, Et2 in F1. rewrite Rminus_0_r in F1. exact F1.
      - exists t0. split; [lra|]. right. rewrite Et1, Et2 in F1. exact F1. }
    assert (Hsq : h ^ 2 <= 2 * h ^ 2) by nra.
    set (g := x * sin a - y * cos a) in *.
    assert (Hg0 : 0 < g) by (unfold g; lra).
    assert (Hline : forall t, g ^ 2 <= (x - t * cos a) ^ 2 + (y - t * sin a) ^ 2).
    { intros t. replace ((x - t * cos a) ^ 2 + (y - t * sin a) ^ 2) with (g ^ 2 + (x * cos a + y * sin a - t) ^ 2)
        by (unfold g; ring [S2]). pose proof (pow2_ge_0 (x * cos a + y * sin a - t)). lra. }
    (* the nearer ray is chosen *)
    destruct (Rleb_spec (2 * PI) th) as [T|T].
    + set (ph := th - 2 * PI). assert (Hph : 0 < ph < a / 2) by (unfold ph; split; [|lra]; destruct (Req_dec th (2 * PI)); [exfalso; apply Hnstd|]; lra).
      assert (Ec : cos th = cos ph) by (unfold ph; rewrite cos_minus, cos_2PI, sin_2PI; ring).
      assert (Es : sin th = sin ph) by (unfold ph; rewrite sin_minus, cos_2PI, sin_2PI; ring).
      assert (Hcos : 0 < cos ph) by (apply cos_gt_0; lra).
      assert (Hyg : y <= g).
      { unfold g. rewrite <- Hx, <- Hy, Ec, Es.
        assert (Ed : sin (a - ph) - sin ph = 2 * cos (a / 2) * sin (a / 2 - ph)).
        { replace (sin ph) with (sin (a / 2 - (a / 2 - ph))) by (f_equal; lra).
          replace (sin (a - ph)) with (sin (a / 2 + (a / 2 - ph))) by (f_equal; lra).
          rewrite (sin_plus (a / 2) (a / 2 - ph)), (sin_minus (a / 2) (a / 2 - ph)). ring. }
        assert (0 <= 2 * cos (a / 2) * sin (a / 2 - ph)).
        { apply Rmult_le_pos; [apply Rmult_le_pos; [lra|]; apply cos_ge_0; lra|apply sin_ge_0; lra]. }
        rewrite (sin_minus a ph) in Ed.
        assert (r * sin ph <= r * (sin a * cos ph - cos a * sin ph)) by (apply Rmult_le_compat_l; lra). lra. }
      exists 1%nat, (x, 0). split; [lia|]. split; [|split; [|split]].
      * unfold extend_f_base. rewrite Exy, Hsid. cbn [bind]. unfold node_etype. rewrite Exy. reflexivity.
      * exists x. split; [|reflexivity]. rewrite <- Hx, Ec. pose proof (COS_bound ph). split; [apply Rmult_le_pos; lra|].
        assert (r * cos ph <= r * 1) by (apply Rmult_le_compat_l; lra). lra.
      * apply dist_bound. cbn [fst snd]. destruct Hray as (t & Ht & [F|F]).
        -- pose proof (pow2_ge_0 (x - t)). nra.
        -- specialize (Hline t). nra.
      * intros B. injection B as B. lra.
    + assert (Hta : a / 2 <= th < a).
      { split; [lra|]. destruct (Rlt_le_dec th a); [assumption|]. exfalso. apply Hnstd. lra. }
      assert (Hgy : g <= y).
      { unfold g. rewrite <- Hx, <- Hy.
        assert (Ed : sin th - sin (a - th) = 2 * cos (a / 2) * sin (th - a / 2)).
        { replace (sin th) with (sin (a / 2 + (th - a / 2))) by (f_equal; lra).
          replace (sin (a - th)) with (sin (a / 2 - (th - a / 2))) by (f_equal; lra).
          rewrite (sin_plus (a / 2) (th - a / 2)), (sin_minus (a / 2) (th - a / 2)). ring. }
        assert (0 <= 2 * cos (a / 2) * sin (th - a / 2)).
        { apply Rmult_le_pos; [apply Rmult_le_pos; [lra|]; apply cos_ge_0; lra|apply sin_ge_0; lra]. }
        rewrite (sin_minus a th) in Ed.
        assert (r * (sin a * cos th - cos a * sin th) <= r * sin th) by (apply Rmult_le_compat_l; lra). lra. }
      set (u := x * cos a + y * sin a).
      assert (Eu : u = r * cos (a - th)) by (unfold u; rewrite <- Hx, <- Hy, cos_minus; ring).
      exists 2%nat, (u * cos a, u * sin a). split; [lia|]. split; [|split; [|split]].
      * unfold extend_f_base. rewrite Exy, Hsid. cbn [bind]. unfold node_etype. rewrite Exy. cbn [bind].
        fold a. rewrite get_radius_point_eq by exact Ha. reflexivity.
      * exists u. split; [|reflexivity]. rewrite Eu. pose proof (COS_bound (a - th)).
        assert (0 <= cos (a - th)) by (apply cos_ge_0; lra). split; [apply Rmult_le_pos; lra|].
        assert (r * cos (a - th) <= r * 1) by (apply Rmult_le_compat_l; lra). lra.
      * apply dist_bound. cbn [fst snd].
        replace ((u * cos a - x) ^ 2 + (u * sin a - y) ^ 2) with (g ^ 2) by (unfold u, g; ring [S2]).
        destruct Hray as (t & Ht & [F|F]).
        -- pose proof (pow2_ge_0 (x - t)). nra.
        -- specialize (Hline t). lra.
      * intros B. injection B as B1 B2. unfold g in Hg0. rewrite <- B1, <- B2 in Hg0. lra.
  - destruct Hstd as [Hs|Hs].
    + assert (Hin := fill_listed q x y Hq Exy ltac:(nra)). apply Curve; [exact Hin|].
      rewrite (Esid _ eq_refl). destruct (Rltb_spec r R0); [lra|]. destruct (_ && _); reflexivity.
    + assert (Hin := fill_listed q x y Hq Exy ltac:(nra)). apply Curve; [exact Hin|].
      rewrite (Esid _ eq_refl). destruct (Rltb_spec r R0); [lra|]. destruct (_ && _); reflexivity.
Qed.
End ExtendF.

(** ** Unit vectors *)

Lemma np_sign_cases : forall m, m <> 0 -> np_sign m * np_sign m = 1 /\ Rabs m = np_sign m * m.
Proof.
  intros m Hm. unfold np_sign. destruct (Rltb_spec 0 m); [|destruct (Rltb_spec m 0); [|lra]].
  - rewrite Rabs_pos_eq by lra. split; ring.
  - rewrite Rabs_left by lra. split; ring.
Qed.

Lemma norm2_scaled : forall m nx ny, nx ^ 2 + ny ^ 2 = 1 -> norm2 (m * nx, m * ny) = Rabs m.
Proof.
  intros m nx ny H. unfold norm2. cbn [fst snd]. replace ((m * nx) ^ 2 + (m * ny) ^ 2) with (m ^ 2 * (nx ^ 2 + ny ^ 2)) by ring.
  rewrite H, Rmult_1_r, <- Rsqr_pow2. apply sqrt_Rsqr_abs.
Qed.

Lemma unit_vec_scaled : forall m nx ny, nx ^ 2 + ny ^ 2 = 1 -> m <> 0 ->
  unit_vec (m * nx, m * ny) = Ok (np_sign m * nx, np_sign m * ny).
Proof.
  intros m nx ny H Hm. unfold unit_vec. rewrite norm2_scaled by exact H. pose proof (Rabs_pos_lt m Hm).
  destruct (np_sign_cases m Hm) as [S1 S2].
  destruct (Reqb_spec (Rabs m) 0); [lra|]. cbn [fst snd]. f_equal.
  assert (Hs : m = np_sign m * Rabs m) by (rewrite S2; transitivity ((np_sign m * np_sign m) * m); [rewrite S1|]; ring).
  f_equal; apply Rmult_eq_reg_r with (Rabs m); try lra; field_simplify; try lra;
    rewrite Hs at 1; ring.
Qed.

Lemma unit_or_zero_scaled : forall m nx ny, nx ^ 2 + ny ^ 2 = 1 -> m <> 0 ->
  unit_or_zero (m * nx, m * ny) = (np_sign m * nx, np_sign m * ny).
Proof.
  intros m nx ny H Hm. pose proof (unit_vec_scaled m nx ny H Hm) as E. unfold unit_vec in E. unfold unit_or_zero.
  destruct (Reqb (norm2 (m * nx, m * ny)) 0); [discriminate|]. injection E as E1 E2. cbn [fst snd]. congruence.
Qed.

Lemma unit_vec_zero : unit_vec (0, 0) = Err ZeroDivisionError.
Proof.
  unfold unit_vec, norm2. cbn [fst snd]. replace (0 ^ 2 + 0 ^ 2) with 0 by ring. rewrite sqrt_0.
  destruct (Reqb_spec 0 0); [reflexivity|lra].
Qed.

(** Any non-zero vector is a positive multiple of a unit vector. *)
Lemma unit_decomp : forall vx vy, (vx, vy) <> (0, 0) ->
  exists nx ny, nx ^ 2 + ny ^ 2 = 1 /\ 0 < norm2 (vx, vy) /\ vx = norm2 (vx, vy) * nx /\ vy = norm2 (vx, vy) * ny.
Proof.
  intros vx vy H. unfold norm2. cbn [fst snd]. set (d := sqrt (vx ^ 2 + vy ^ 2)).
  assert (Hd2 : d ^ 2 = vx ^ 2 + vy ^ 2).
  { unfold d. rewrite pow2_sqrt; [reflexivity|]. pose proof (pow2_ge_0 vx). pose proof (pow2_ge_0 vy). lra. }
  assert (Hd : 0 < d).
  { destruct (sqrt_pos (vx ^ 2 + vy ^ 2)) as [G|G]; [exact G|]. exfalso. apply H. fold d in G. rewrite <- G in Hd2.
    assert (vx = 0) by nra. assert (vy = 0) by nra. subst. reflexivity. }
  exists (vx / d), (vy / d). split; [|split; [exact Hd|split; field; lra]].
  replace ((vx / d) ^ 2 + (vy / d) ^ 2) with ((vx ^ 2 + vy ^ 2) / d ^ 2) by (field; lra).
  rewrite <- Hd2. field. lra.
Qed.

(** ** The quadratic Taylor value *)

Lemma f_quadratic_value : forall s F x0 y0 x y, cart_source s F x0 y0 -> (x0, y0) <> (x, y) ->
  f_quadratic s x0 y0 x y = Ok (taylor2 F x0 y0 x y).
Proof.
  intros s F x0 y0 x y (E0 & E1 & E2) Hne.
  destruct (unit_decomp (x - x0) (y - y0)) as (nx & ny & Hu & Hd & Hx & Hy).
  { intros E. injection E as Ex Ey. apply Hne. f_equal; lra. }
  unfold f_quadratic, taylor2. cbv zeta. set (d := norm2 (x - x0, y - y0)) in *.
  rewrite E0, E1, E2. rewrite Hx, Hy. rewrite unit_vec_scaled by (assumption || lra).
  assert (Hs : np_sign d = 1) by (unfold np_sign; destruct (Rltb_spec 0 d); lra). rewrite Hs. cbn [bind]. f_equal.
  unfold quad_form, mat_vec, cdot. cbn [fst snd].
  rewrite !Cdiv_R by apply fact_nz. cbn [fact Nat.mul Nat.add INR].
  destruct (F 0%nat 0%nat x0 y0), (F 1%nat 0%nat x0 y0), (F 0%nat 1%nat x0 y0), (F 2%nat 0%nat x0 y0), (F 1%nat 1%nat x0 y0), (F 0%nat 2%nat x0 y0).
  apply injective_projections; cbn [fst snd Cplus Cmult RtoC]; field.
Qed.

Lemma quadratic_taylor2 : forall F x0 y0 x y, quadratic F -> taylor2 F x0 y0 x y = F 0%nat 0%nat x y.
Proof.
  intros F x0 y0 x y (q0 & qx & qy & qxx & qxy & qyy & H).
  destruct (H x0 y0) as (A0 & A1 & A2 & A3 & A4 & A5). destruct (H x y) as (B0 & _).
  unfold taylor2. cbv zeta. rewrite A0, A1, A2, A3, A4, A5, B0.
  destruct q0, qx, qy, qxx, qxy, qyy. apply injective_projections; cbn [fst snd Cplus Cmult RtoC]; field.
Qed.

(** ** The loop (C51) *)

Lemma np_set_in : forall n A i j v, (0 <= i < n)%Z -> (0 <= j < n)%Z -> np_set n A i j v = Ok (arr_store A i j v).
Proof. intros. unfold np_set. rewrite !py_index_in by assumption. reflexivity. Qed.

Lemma extend_f_loop_spec : forall c F todo f,
  (forall q, In q todo -> in_open_grid (ec_N c) q /\
     exists b x y, extend_f_base c q = Ok b /\ ctx_coord c q = (x, y) /\ b <> (x, y) /\ cart_source (ec_src c) F (fst b) (snd b)) ->
  NoDup todo ->
  exists f', extend_f_loop c todo f = Ok (f', false) /\
    (forall q b x y, In q todo -> extend_f_base c q = Ok b -> ctx_coord c q = (x, y) ->
       f' (fst q) (snd q) = taylor2 F (fst b) (snd b) x y) /\
    (forall i j, ~ In (i, j) todo -> f' i j = f i j).
Proof.
  intros c F. induction todo as [|q todo IH]; intros f H Hnd.
  - exists f. split; [reflexivity|]. split; [intros q b x y []|reflexivity].
  - destruct (H q (or_introl eq_refl)) as (Hg & b & x & y & Eb & Exy & Hne & Hs).
    assert (Hv : extend_f_node c q = Ok (taylor2 F (fst b) (snd b) x y)).
    { unfold extend_f_node. rewrite Exy, Eb. cbn [bind]. apply f_quadratic_value; [exact Hs|].
      destruct b; exact Hne. }
    inversion Hnd as [|? ? Hq Hnd']; subst.
    destruct Hg as [G1 G2].
    destruct (IH (arr_store f (fst q) (snd q) (taylor2 F (fst b) (snd b) x y))) as (f' & Ef & Hin & Hout);
      [intros; apply H; right; assumption|exact Hnd'|].
    exists f'. split; [|split].
    + cbn [extend_f_loop]. rewrite Eb, Hv. cbn [bind]. rewrite np_set_in by lia. cbn [bind]. exact Ef.
    + intros q' b' x' y' [<-|Hq'] Eb' Exy'.
      * rewrite Hout by (destruct q; exact Hq). unfold arr_store. rewrite !Z.eqb_refl. cbn [andb]. congruence.
      * apply Hin; assumption.
    + intros i j Hij. rewrite Hout by (intros Hin'; apply Hij; right; exact Hin'). unfold arr_store.
      destruct (Z.eqb_spec i (fst q)), (Z.eqb_spec j (snd q)); cbn [andb]; try reflexivity.
      subst. exfalso. apply Hij. left. destruct q; reflexivity.
Qed.

Lemma extend_f_arc : forall brentq c F todo f0, brentq_contract brentq -> arc_solver brentq 4 c ->
  let ins := ps_is_interior (r_arc (ec_R c)) (ec_a c) (ec_AD c) (ec_N c) in
  let h := ec_AD c / IZR (ec_N c) in
  margin (ec_N c) ins -> h <= ec_R c -> ec_homogeneous c = false ->
  (forall sid b, on_seg (ec_R c) (ec_a c) sid b -> cart_source (ec_src c) F (fst b) (snd b)) ->
  enumerates todo (node_diff (Kplus 4 (ec_N c) ins) (global_Mplus (ec_N c) ins)) ->
  exists f', extend_f c todo f0 = Ok (f', false) /\
    (forall q x y, In q todo -> get_coord (ec_AD c) (ec_N c) (fst q) (snd q) = (x, y) ->
       exists sid b, (sid < 3)%nat /\ on_seg (ec_R c) (ec_a c) sid b /\ b <> (x, y) /\ dist2 b (x, y) <= h * sqrt 2 /\
         f' (fst q) (snd q) = taylor2 F (fst b) (snd b) x y) /\
    (forall i j, ~ In (i, j) todo -> f' i j = f0 i j).
Proof.
  intros brentq c F todo f0 Hb Hc ins h Hm Hh Hhom Hs [Hnd Hen].
  destruct (extend_f_loop_spec c F todo f0) as (f' & Ef & Hin & Hout).
  - intros q Hq. apply Hen in Hq. destruct (ctx_coord c q) as [x y] eqn:Exy.
    destruct (fill_node brentq c Hc Hm q x y Hq Exy) as (Hg & _). split; [exact Hg|].
    destruct (fill_base brentq c Hb Hc Hm Hh q x y Hq Exy) as (sid & b & _ & Eb & Hseg & _ & Hne).
    exists b, x, y. split; [exact Eb|]. split; [reflexivity|]. split; [exact Hne|]. exact (Hs sid b Hseg).
  - exact Hnd.
  - exists f'. split; [unfold extend_f; rewrite Hhom; exact Ef|]. split; [|exact Hout].
    intros q x y Hq Exy. assert (Hq' := Hq). apply Hen in Hq'.
    destruct (fill_base brentq c Hb Hc Hm Hh q x y Hq' Exy) as (sid & b & Hsid & Eb & Hseg & Hd & Hne).
    exists sid, b. repeat (split; [assumption|]). exact (Hin q b x y Hq Eb Exy).
Qed.

Lemma extend_f_quadratic : forall brentq c F todo f0, brentq_contract brentq -> arc_solver brentq 4 c ->
  let ins := ps_is_interior (r_arc (ec_R c)) (ec_a c) (ec_AD c) (ec_N c) in
  margin (ec_N c) ins -> ec_AD c / IZR (ec_N c) <= ec_R c -> ec_homogeneous c = false ->
  (forall sid b, on_seg (ec_R c) (ec_a c) sid b -> cart_source (ec_src c) F (fst b) (snd b)) -> quadratic F ->
  enumerates todo (node_diff (Kplus 4 (ec_N c) ins) (global_Mplus (ec_N c) ins)) ->
  exists f', extend_f c todo f0 = Ok (f', false) /\
    forall i j, f' i j = if node_mem (i, j) todo then
        let '(x, y) := get_coord (ec_AD c) (ec_N c) i j in F 0%nat 0%nat x y
      else f0 i j.
Proof.
  intros brentq c F todo f0 Hb Hc ins Hm Hh Hhom Hs HF Hen.
  destruct (extend_f_arc brentq c F todo f0 Hb Hc Hm Hh Hhom Hs Hen) as (f' & Ef & Hin & Hout).
  exists f'. split; [exact Ef|]. intros i j. destruct (node_mem (i, j) todo) eqn:Em.
  - apply node_mem_in in Em. destruct (get_coord (ec_AD c) (ec_N c) i j) as [x y] eqn:Exy.
    destruct (Hin (i, j) x y Em Exy) as (sid & b & _ & _ & _ & _ & E). cbn [fst snd] in E. rewrite E.
    apply quadratic_taylor2. exact HF.
  - apply Hout. apply node_mem_not_in. exact Em.
Qed.

