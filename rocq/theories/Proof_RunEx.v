(** A run of the solver carried out: Laplace's equation with constant data. *)
From Coq Require Import ZArith List Bool Reals Lra Lia Psatz.
From Coquelicot Require Import Coquelicot.
From Verif Require Import Model_Py Model_Multivalue Model_Grid Model_Fourier Model_Linop Model_PS
  Model_Chebyshev Model_Domain Model_Ext Model_Extend Model_Debug Model_Run
  Lib_Csum Spec_Chebyshev Spec_Domain Spec_Grid Spec_PS Spec_Ext Spec_Extend Spec_Abcoef Spec_Inhomo Spec_Debug Spec_Run
  Proof_Basis Proof_Grid Proof_Grid2 Proof_PS Proof_Multivalue Proof_Domain Proof_Boundary Proof_Place Proof_Ext Proof_Ext2
  Proof_Extend Proof_Linear Proof_Extend2 Proof_Abcoef Proof_Smooth Proof_Smooth Proof_InhomoEx Proof_Run.
Import ListNotations.
Open Scope R_scope.

(** ** Constant boundary data *)

Definition B3 : list (nat * nat) := [(0, 0); (1, 0); (2, 0)]%nat.

Lemma B3_eq : fst (setup_basis 1 1) = B3.
Proof. reflexivity. Qed.

Lemma const_function : forall g x0 x1 x2 sid t, (sid < 3)%nat ->
  seg_function g B3 [x0; x1; x2] sid t = nth sid [x0; x1; x2] (RtoC 0).
Proof.
  intros g x0 x1 x2 sid t Hs. unfold seg_function. cbn [B3 length csum nth_error nth]. unfold chebT. cbn [chebT_pair fst].
  destruct sid as [|[|[|sid]]]; [| | |lia]; cbn [Nat.eqb nth]; ring.
Qed.

Lemma CDerive_n_const : forall (f : R -> C) z, (forall t, f t = z) ->
  forall o t, CDerive_n f o t = match o with O => z | _ => RtoC 0 end.
Proof.
  intros f z Hf o t. unfold CDerive_n.
  destruct o as [|o].
  - cbn [Derive_n]. rewrite Hf. destruct z; reflexivity.
  - rewrite (Derive_n_ext (fun t => fst (f t)) (fun _ => fst z)) by (intros; rewrite Hf; reflexivity).
    rewrite (Derive_n_ext (fun t => snd (f t)) (fun _ => snd z)) by (intros; rewrite Hf; reflexivity).
    rewrite !Derive_n_const. reflexivity.
Qed.

Definition cv (X Y : C) (o i : nat) : C :=
  match o with O => match i with O => X | _ => Y end | _ => RtoC 0 end.

Lemma cv_shifted : forall X Y delta m i, (m < 5)%nat -> shifted (cv X Y) delta m i = cv X Y m i.
Proof.
  intros X Y delta m i Hm. unfold shifted.
  assert (Z : forall ls m, (forall l, In l ls -> (0 < l)%nat) -> shift_sum (fun l => cv X Y l i) delta m ls = RtoC 0).
  { induction ls as [|l ls IH]; intros m' H; [reflexivity|]. cbn [shift_sum]. rewrite IH by (intros; apply H; right; assumption).
    destruct l as [|l]; [specialize (H 0%nat (or_introl eq_refl)); lia|]. cbn [cv]. ring. }
  destruct m as [|m].
  - change (Cplus (Cmult (cv X Y 0 i) (RtoC (delta ^ 0 / INR (fact 0)))) (shift_sum (fun l => cv X Y l i) delta 0 [1; 2; 3; 4]%nat) = cv X Y 0 i).
    rewrite Z by (intros l [<-|[<-|[<-|[<-|[]]]]]; lia).
    replace (delta ^ 0 / INR (fact 0)) with 1 by (cbn; field). cbn [cv]. ring.
  - rewrite Z by (intros l Hl; apply in_seq in Hl; lia). reflexivity.
Qed.

(** The quartic Taylor polynomial of R ln (1 + n/R). *)
Definition qn (R0 n : R) : R := n - n ^ 2 / (2 * R0) + n ^ 3 / (3 * R0 ^ 2) - n ^ 4 / (4 * R0 ^ 3).

Lemma phi_r_const : forall c n X Y, ec_k c = 0 -> phi_r c n (cv X Y) = Cplus X (Cmult Y (RtoC n)).
Proof.
  intros c n X Y Hk. unfold phi_r, extend_arbitrary, arbitrary_derivs. cbn [cv ed_xi0 ed_xi1 ed_d_xi0 ed_d_xi1 ed_d2_xi0 ed_d2_xi1 ed_d4_xi0].
  rewrite Hk. cbn [taylor_loop]. apply injective_projections; cbn; field.
Qed.

Lemma phi_0_const : forall c n th X Y, ec_k c = 0 -> 0 < ec_R c -> ec_r c = r_arc (ec_R c) ->
  phi_0 c n th (cv X Y) = Cplus X (Cmult Y (RtoC (qn (ec_R c) n))).
Proof.
  intros c n th X Y Hk HR Hr. unfold phi_0. rewrite Hr, Hk. cbv zeta.
  assert (D1 : b_d_curv (r_arc (ec_R c)) = fun _ => 0).
  { apply FunctionalExtensionality.functional_extensionality. intros t. unfold b_d_curv.
    rewrite (Derive_ext _ (fun _ => - 1 / ec_R c)) by (intros; apply arc_curv; exact HR). apply Derive_const. }
  assert (D2 : b_d2_curv (r_arc (ec_R c)) th = 0) by (unfold b_d2_curv; rewrite D1; apply Derive_const).
  rewrite D2, D1, arc_curv by exact HR.
  unfold extend_polar, extend_arbitrary, arbitrary_derivs, convert_d, convert_d2, convert_d4, convert_d_real, convert_d2_real.
  cbn [cv ed_xi0 ed_xi1 ed_d_xi0 ed_d_xi1 ed_d2_xi0 ed_d2_xi1 ed_d4_xi0 pd_xi0 pd_xi1 pd_d_xi0 pd_d_xi1 pd_d2_xi0 pd_d2_xi1 pd_d3_xi0 pd_d4_xi0].
  unfold qn. cbn [taylor_loop]. apply injective_projections; cbn; field; lra.
Qed.

Definition nu (c : ext_ctx) (sid : nat) (p : node) : R :=
  let '(x, y) := ctx_coord c p in
  match sid with
  | O => match ec_bcoord c p with Some (n, _) => qn (ec_R c) n | None => 0 end
  | 1%nat => y
  | _ => x * sin (ec_a c) - y * cos (ec_a c)
  end.

Lemma const_extend : forall c x0 x1 x2 y0 y1 y2 sid p e, ctx_wf c -> ec_k c = 0 -> ec_r c = r_arc (ec_R c) ->
  ec_B c = B3 -> ec_c0 c = [x0; x1; x2] -> ec_c1 c = [y0; y1; y2] -> (sid < 3)%nat -> In p (ec_gamma c sid) ->
  node_etype c sid p = Ok e ->
  exists d, do_extend c SrcCoef sid e p =
    Ok (d, Cplus (nth sid [x0; x1; x2] (RtoC 0)) (Cmult (nth sid [y0; y1; y2] (RtoC 0)) (RtoC (nu c sid p)))).
Proof.
  intros c x0 x1 x2 y0 y1 y2 sid p e (HR & Ha & Hin & Hocc & Hbc) Hk Hr EB E0 E1 Hs Hp He. pose proof PI_RGT_0 as HPI.
  set (X := nth sid [x0; x1; x2] (RtoC 0)). set (Y := nth sid [y0; y1; y2] (RtoC 0)).
  assert (T : forall types arg, (forall o i, In (o, i) types -> (o <= 4)%nat /\ (i < 2)%nat) -> seg_range (ec_R c) (ec_a c) sid arg ->
    exists d, calc_xi_derivs c SrcCoef types arg sid = Ok d /\ forall o i, In (o, i) types -> xi_get d o i = Ok (cv X Y o i)).
  { intros types arg Ht Hrange.
    destruct (table_derivs c types arg sid Ht) as (d & Ed & Hd).
    - rewrite E0, EB. reflexivity.
    - rewrite E1, EB. reflexivity.
    - apply seg_range_g_inv; auto; lra.
    - exists d. split; [exact Ed|]. intros o i Hoi. rewrite (Hd o i Hoi). f_equal. destruct (Ht o i Hoi) as [_ Hi].
      destruct i as [|[|i]]; [| |lia]; rewrite EB, ?E0, ?E1; rewrite (CDerive_n_const _ _ (fun t => const_function _ _ _ _ _ t Hs)); destruct o; reflexivity. }
  assert (T5 : forall d0, (forall o i, In (o, i) taylor_types -> xi_get d0 o i = Ok (cv X Y o i)) -> forall delta,
    exists d, taylor_shift d0 delta = Ok d /\ forall m i, (m < 5)%nat -> (i < 2)%nat -> xi_get d m i = Ok (cv X Y m i)).
  { intros d0 Hd0 delta. destruct (taylor_shift_eq d0 delta (cv X Y)) as (d & Ed & Hd).
    - intros l i Hl Hi. apply Hd0. apply taylor_types_all; assumption.
    - exists d. split; [exact Ed|]. intros m i Hm Hi. rewrite (Hd m i Hm Hi). f_equal. apply (cv_shifted X Y delta m i Hm). }
  pose proof (with_basis_id c) as Eid.
  destruct (ctx_coord c p) as [x y] eqn:Exy.
  destruct sid as [|sid].
  - destruct (Hbc p Hp) as ([n th] & Eb).
    destruct (coords_0 c e p n th Ha Hp Eb He) as (arg & delta & Hrg & _ & _ & HF).
    specialize (HF (ec_B c) (ec_c0 c) (ec_c1 c) SrcCoef). rewrite Eid in HF. rewrite HF.
    replace (nu c 0 p) with (qn (ec_R c) n) by (unfold nu; rewrite Exy, Eb; reflexivity).
    rewrite <- (phi_0_const c n th X Y Hk HR Hr).
    assert (S0 : forall d, (forall o i, In (o, i) types_0 -> xi_get d o i = Ok (cv X Y o i)) -> extend_at c n th d = Ok (phi_0 c n th (cv X Y)))
      by (intros d Hd; apply extend_at_eq; exact Hd).
    destruct e.
    + destruct (T types_0 arg (types_small types_0 ltac:(auto)) Hrg) as (d & Ed & Hd). rewrite Ed. cbn [bind]. rewrite (S0 d Hd). cbn [bind]. eexists. reflexivity.
    + destruct (T taylor_types arg (types_small taylor_types ltac:(auto)) Hrg) as (d0 & Ed0 & Hd0). rewrite Ed0. cbn [bind].
      destruct (T5 d0 Hd0 delta) as (d & Ed & Hd). rewrite Ed. cbn [bind]. rewrite (S0 d); [cbn [bind]; eexists; reflexivity|].
      intros o i Hi. apply (types_small types_0) in Hi; [|auto]. apply Hd; lia.
    + destruct (T taylor_types arg (types_small taylor_types ltac:(auto)) Hrg) as (d0 & Ed0 & Hd0). rewrite Ed0. cbn [bind].
      destruct (T5 d0 Hd0 delta) as (d & Ed & Hd). rewrite Ed. cbn [bind]. rewrite (S0 d); [cbn [bind]; eexists; reflexivity|].
      intros o i Hi. apply (types_small types_0) in Hi; [|auto]. apply Hd; lia.
  - destruct (coords_12 c (S sid) e p x y HR Ha ltac:(lia) Exy He) as (arg & delta & n & Hrg & _ & Hpt & HF).
    specialize (HF (ec_B c) (ec_c0 c) (ec_c1 c) SrcCoef). rewrite Eid in HF. rewrite HF.
    assert (En : nu c (S sid) p = n).
    { unfold nu. rewrite Exy. destruct sid as [|[|sid]]; [| |lia].
      - destruct (Hpt (0, 1) eq_refl) as [_ Hy]. cbn [seg_point fst snd] in Hy. lra.
      - destruct (Hpt (sin (ec_a c), - cos (ec_a c)) eq_refl) as [Hx Hy]. cbn [seg_point fst snd] in Hx, Hy. rewrite Hx, Hy.
        pose proof (sin2_cos2 (ec_a c)) as SC. unfold Rsqr in SC.
        replace (_ - _) with (n * (sin (ec_a c) * sin (ec_a c) + cos (ec_a c) * cos (ec_a c))) by ring. rewrite SC. ring. }
    rewrite En, <- (phi_r_const c n X Y Hk).
    assert (S0 : forall d, (forall o i, In (o, i) types_12 -> xi_get d o i = Ok (cv X Y o i)) -> extend_radius c n d = Ok (phi_r c n (cv X Y)))
      by (intros d Hd; apply extend_radius_eq; exact Hd).
    assert (S1 : exists d, do_extend_taylor c SrcCoef p arg (S sid) delta n = Ok (d, phi_r c n (cv X Y))).
    { unfold do_extend_taylor. destruct (T taylor_types arg (types_small taylor_types ltac:(auto)) Hrg) as (d0 & Ed0 & Hd0). rewrite Ed0. cbn [bind].
      destruct (T5 d0 Hd0 delta) as (d & Ed & Hd). rewrite Ed. cbn [bind]. rewrite (S0 d); [cbn [bind]; eexists; reflexivity|].
      intros o i Hi. apply (types_small types_12) in Hi; [|auto]. apply Hd; lia. }
    destruct e; [|exact S1|exact S1].
    destruct (T types_12 arg (types_small types_12 ltac:(auto)) Hrg) as (d & Ed & Hd). rewrite Ed. cbn [bind]. rewrite (S0 d Hd). cbn [bind]. eexists. reflexivity.
Qed.

(** The whole extension. *)
Lemma const_boundary : forall c x0 x1 x2 y0 y1 y2 (ho : bool), ctx_wf c -> ho = true \/ ec_homogeneous c = true ->
  ec_k c = 0 -> ec_r c = r_arc (ec_R c) -> ec_B c = B3 -> ec_c0 c = [x0; x1; x2] -> ec_c1 c = [y0; y1; y2] ->
  extend_boundary c SrcCoef ho = Ok (map (fun p => mean (fun s =>
     Cplus (nth s [x0; x1; x2] (RtoC 0)) (Cmult (nth s [y0; y1; y2] (RtoC 0)) (RtoC (nu c s p)))) (sids c p)) (ec_union c)).
Proof.
  intros c x0 x1 x2 y0 y1 y2 ho Hc Hh Hk Hr EB E0 E1. unfold extend_boundary, mv_extend_boundary.
  pose proof (extend_reduce c (do_extend c SrcCoef) (node_et c) (node_va (do_extend c SrcCoef) c) Hc) as H.
  assert (Hv : forall sid p, (sid < 3)%nat -> In p (ec_gamma c sid) ->
    node_etype c sid p = Ok (node_et c sid p) /\ do_extend c SrcCoef sid (node_et c sid p) p = Ok (node_va (do_extend c SrcCoef) c sid p)).
  { intros sid p Hs Hp.
    assert (L0 : length (ec_c0 c) = length (ec_B c)) by (rewrite E0, EB; reflexivity).
    assert (L1 : length (ec_c1 c) = length (ec_B c)) by (rewrite E1, EB; reflexivity).
    destruct (node_linear_c c sid p Hc Hs Hp L0 L1) as (A & _ & B & _). auto. }
  specialize (H Hv).
  assert (Eb : (false || ec_homogeneous c || ho)%bool = true) by (destruct Hh as [-> | ->]; destruct (ec_homogeneous c); reflexivity).
  assert (G : map (fun p => mean (fun s => snd (node_va (do_extend c SrcCoef) c s p)) (sids c p)) (ec_union c) =
    map (fun p => mean (fun s => Cplus (nth s [x0; x1; x2] (RtoC 0)) (Cmult (nth s [y0; y1; y2] (RtoC 0)) (RtoC (nu c s p)))) (sids c p)) (ec_union c)).
  { apply map_ext. intros p. apply mean_ext. intros s Hs. destruct (sids_in c p s Hs) as [Hs3 Hps].
    destruct (Hv s p Hs3 Hps) as [A B]. destruct (const_extend c x0 x1 x2 y0 y1 y2 s p _ Hc Hk Hr EB E0 E1 Hs3 Hps A) as (d & Ed).
    rewrite B in Ed. injection Ed as ->. reflexivity. }
  rewrite G in H.
  destruct (mv_extend c (do_extend c SrcCoef)) as [m|er]; cbn [bind] in *; [rewrite Eb; cbn [bind]|]; exact H.
Qed.

(** ** The case *)

Definition ex_lib (brentq : (R -> R) -> R -> R -> option R) : library :=
  mk_lib brentq (fun _ ys deg => hd (RtoC 0) ys :: repeat (RtoC 0) deg) (fun _ _ _ _ _ => RtoC 0) (nodup node_dec).
Definition zero_src : source :=
  let z := fun _ _ : R => RtoC 0 in let zz := fun _ _ : R => (RtoC 0, RtoC 0) in
  let zzz := fun _ _ : R => ((RtoC 0, RtoC 0), (RtoC 0, RtoC 0)) in
  mk_source z zz zzz z zz zzz z z z z z.
Definition ex_R : R := 41 / 40.
Definition ex_opt : options :=
  mk_opt 0 ex_R (PI / 2) 4 16 4 (r_arc ex_R) (1, 1)%nat None None true zero_src
    (fun _ _ => RtoC 1) true (fun _ _ => RtoC 1).

Section Case.
Variable brentq : (R -> R) -> R -> R -> option R.
Hypothesis Hb : brentq_contract brentq.
Let lib := ex_lib brentq.

Lemma ex_enumerating : enumerating lib.
Proof using Type. intros l. split; [apply NoDup_nodup|]. intros p. apply nodup_In. Qed.

Lemma ex_fit : fit_sizes lib.
Proof using Type. intros ts ys deg. cbn [lib ex_lib lib_chebfit length]. rewrite repeat_length. reflexivity. Qed.

Lemma ex_a : 0 < PI / 2 < PI.
Proof using Type. pose proof PI_RGT_0. lra. Qed.

Lemma ex_interior : forall i j, o_interior ex_opt i j = true <->
  in_domain ex_R (PI / 2) (get_coord 4 16 i j).
Proof using Type.
  intros i j. unfold o_interior, ps_is_interior. cbn [ex_opt o_r o_a o_AD o_N]. destruct (get_coord 4 16 i j) as [x y].
  apply interior_arc_iff; [apply ex_a|unfold ex_R; lra].
Qed.

Lemma ex_coord : forall i j, get_coord 4 16 i j = (IZR (i - 8) / 4, IZR (j - 8) / 4).
Proof using Type. intros i j. unfold get_coord. rewrite !minus_IZR. f_equal; field. Qed.

Lemma ex_in : forall i j, (IZR (i - 8) / 4) ^ 2 + (IZR (j - 8) / 4) ^ 2 <= ex_R ^ 2 ->
  IZR (i - 8) <= 0 \/ IZR (j - 8) <= 0 -> o_interior ex_opt i j = true.
Proof using Type.
  intros i j H1 H2. apply ex_interior. rewrite ex_coord. split; [exact H1|]. cbn [fst snd]. rewrite cos_PI2, sin_PI2. lra.
Qed.

Lemma ex_out : forall i j, ex_R ^ 2 < (IZR (i - 8) / 4) ^ 2 + (IZR (j - 8) / 4) ^ 2 -> o_interior ex_opt i j = false.
Proof using Type.
  intros i j H. apply not_true_is_false. rewrite ex_interior, ex_coord. intros [H1 _]. cbn [fst snd] in H1. lra.
Qed.

Lemma ex_margin : margin 16 (o_interior ex_opt).
Proof using Type.
  apply (disc_margin 4 ex_R); [lra|lia|unfold ex_R; lra|].
  intros i j _ H. apply ex_interior in H. destruct (get_coord 4 16 i j) as [x y]. destruct H as [H _]. cbn [fst snd] in H.
  unfold ex_R in *. split; lra.
Qed.

Lemma ex_options : options_ok ex_opt.
Proof using Type.
  split; [cbn; lia|]. split; [right; reflexivity|]. split; [cbn; lra|]. split; [exact ex_margin|].
  apply eig_nonzero_k0; [cbn; lia|right; reflexivity|cbn; lra].
Qed.

Lemma ex_arc : arc_options lib ex_opt.
Proof using Hb.
  split; [exact Hb|]. split; [reflexivity|]. split; [cbn; unfold ex_R; lra|]. split; [exact ex_a|]. split; [cbn; lra|].
  cbn [ex_opt o_R o_AD o_N o_a]. rewrite cos_PI2, Rabs_R0. replace (2 / (1 - 0)) with 2 by field.
  assert (H : sqrt 2 * sqrt 2 = 2) by (apply sqrt_sqrt; lra).
  assert (sqrt 2 < 3 / 2) by (rewrite <- (sqrt_pow2 (3 / 2)) by lra; apply sqrt_lt_1; lra). unfold ex_R. lra.
Qed.

Lemma ex_state : exists st, ps_init lib ex_opt = Ok st /\ ctx_wf (st_ctx st) /\ arc_solver brentq 4 (st_ctx st).
Proof using Hb.
  destruct (arc_init lib ex_opt 1 1 ex_enumerating ex_options ex_arc eq_refl (or_introl eq_refl)) as (st & H1 & H2 & H3 & _).
  exists st. auto.
Qed.

Variable st : ps_state.
Hypothesis Hi : ps_init lib ex_opt = Ok st.
Let c := st_ctx st.
Let s := st_ps st.

Lemma ex_fields : ec_k c = 0 /\ ec_R c = ex_R /\ ec_a c = PI / 2 /\ ec_AD c = 4 /\ ec_N c = 16%Z /\ ec_r c = r_arc ex_R /\
  ec_bcoord c = node_bcoord brentq (r_arc ex_R) (PI / 2) 4 16 /\
  ec_union c = nodup node_dec (gamma_set 4 16 (o_interior ex_opt)) /\ ec_B c = B3 /\ ec_homogeneous c = true /\
  s = init_ps lib ex_opt /\ st_seg st = snd (setup_basis 1 1) /\
  forall i j, st_f st i j = RtoC 0.
Proof using Hi.
  destruct (ps_init_inv _ _ _ Hi) as (nc & nr & c' & f & b & A & E1 & E2 & E3 & E4 & E5).
  injection E1 as <- <-. destruct (init_ctx_inv _ _ _ _ E2) as (g0 & g1 & g2 & _ & Ec).
  unfold c, s. rewrite E5. cbn [st_ctx st_ps st_f st_seg]. rewrite Ec. repeat split.
  intros i j. unfold setup_f, extend_f in E3. rewrite Ec in E3. cbn [ec_homogeneous ex_opt o_homogeneous] in E3. injection E3 as <- _.
  unfold setup_f_interior. destruct (node_mem _ _); [|reflexivity]. destruct (get_coord _ _ _ _). reflexivity.
Qed.

Hypothesis Hwf : ctx_wf c.
Hypothesis Hs : arc_solver brentq 4 c.

Lemma filter_one : forall p l, NoDup l -> In p l -> filter (node_eqb p) l = [p].
Proof using Type.
  intros p l. induction l as [|q l IH]; intros Hn Hin; [destruct Hin|]. apply NoDup_cons_iff in Hn. destruct Hn as [H1 H2].
  cbn [filter]. destruct (node_eqb_spec p q) as [->|H].
  - f_equal. clear - H1. induction l as [|r l IH]; [reflexivity|]. cbn [filter].
    destruct (node_eqb_spec q r) as [->|_]; [exfalso; apply H1; left; reflexivity|]. apply IH. intros H. apply H1. right. exact H.
  - destruct Hin as [->|Hin]; [congruence|]. apply IH; assumption.
Qed.

Lemma filter_none : forall p l, ~ In p l -> filter (node_eqb p) l = [].
Proof using Type.
  intros p l H. induction l as [|r l IH]; [reflexivity|]. cbn [filter].
  destruct (node_eqb_spec p r) as [->|_]; [exfalso; apply H; left; reflexivity|]. apply IH. intros H'. apply H. right. exact H'.
Qed.

Lemma ex_listed : forall p sid x y, (sid < 3)%nat -> In p (ec_union c) -> get_coord 4 16 (fst p) (snd p) = (x, y) ->
  NoDup (ec_gamma c sid) /\ (In p (ec_gamma c sid) <-> exists b, on_seg ex_R (PI / 2) sid b /\ dist2 b (x, y) <= / 4 * sqrt 2).
Proof using Hb Hi Hs.
  intros p sid x y Hsid Hp E. destruct ex_fields as (_ & ER & Ea & EAD & EN & _ & Ebc & _).
  destruct Hs as (_ & _ & _ & _ & _ & _ & Hen & Hall). rewrite ER, Ea, EAD, EN, Ebc in Hall. rewrite ER, Ea, EAD, EN in Hen.
  assert (HR : 0 < ex_R) by (unfold ex_R; lra).
  destruct (gamma_placed brentq ex_R (PI / 2) 4 16 Hb HR ex_a ltac:(lra) ltac:(lia) 4 (ec_union c) ltac:(right; reflexivity) Hen)
    as (g0 & g1 & g2 & Hall' & _ & N0 & N1 & N2 & F0 & F1 & F2).
  unfold bcoord in Hall'. rewrite Hall in Hall'. injection Hall' as E0 E1 E2.
  assert (K : In p (filter (claims brentq ex_R (PI / 2) 4 16 sid) (ec_union c)) <->
    exists b, on_seg ex_R (PI / 2) sid b /\ dist2 b (x, y) <= / 4 * sqrt 2).
  { rewrite filter_In. pose proof (claims_iff brentq ex_R (PI / 2) 4 16 Hb HR ex_a sid p x y Hsid E) as K.
    rewrite (claims_ok brentq ex_R (PI / 2) 4 16 Hb HR ex_a sid p Hsid) in K.
    replace (4 / 16 * sqrt 2) with (/ 4 * sqrt 2) in K by field. rewrite <- K.
    split; [intros [_ H]; rewrite H; reflexivity|intros H; injection H as H; auto]. }
  destruct sid as [|[|[|]]]; [| | |lia].
  - rewrite E0. rewrite F0 at 2. split; [exact N0|exact K].
  - rewrite E1. rewrite F1 at 2. split; [exact N1|exact K].
  - rewrite E2. rewrite F2 at 2. split; [exact N2|exact K].
Qed.

(** The segments a node is listed under, from the distances. *)
Lemma ex_sids : forall p (b0 b1 b2 : bool), In p (ec_union c) ->
  (let '(x, y) := get_coord 4 16 (fst p) (snd p) in
   forall sid, (sid < 3)%nat -> (nth sid [b0; b1; b2] false = true <-> exists b, on_seg ex_R (PI / 2) sid b /\ dist2 b (x, y) <= / 4 * sqrt 2)) ->
  sids c p = (if b0 then [0%nat] else []) ++ (if b1 then [1%nat] else []) ++ (if b2 then [2%nat] else []).
Proof using Hb Hi Hs.
  intros p b0 b1 b2 Hp H. destruct (get_coord 4 16 (fst p) (snd p)) as [x y] eqn:E.
  assert (K : forall sid (b : bool), (sid < 3)%nat -> nth sid [b0; b1; b2] false = b ->
    map (fun _ => sid) (filter (node_eqb p) (ec_gamma c sid)) = if b then [sid] else []).
  { intros sid b Hsid Eb. destruct (ex_listed p sid x y Hsid Hp E) as [Hn Hl]. specialize (H sid Hsid). rewrite Eb in H.
    destruct b; [rewrite filter_one; [reflexivity|exact Hn|apply Hl, H; reflexivity]|].
    rewrite filter_none; [reflexivity|]. rewrite Hl, <- H. discriminate. }
  unfold sids. rewrite (K 0%nat b0), (K 1%nat b1), (K 2%nat b2) by (reflexivity || lia). reflexivity.
Qed.

(** Distances in squared form. *)
Lemma near_iff : forall x y x' y', dist2 (x, y) (x', y') <= / 4 * sqrt 2 <-> (x - x') ^ 2 + (y - y') ^ 2 <= / 8.
Proof using Type.
  intros x y x' y'. unfold dist2. cbn [fst snd].
  assert (Hq : / 4 * sqrt 2 = sqrt (/ 8)).
  { replace (/ 8) with ((/ 4) ^ 2 * 2) by field. rewrite sqrt_mult by lra. rewrite sqrt_pow2 by lra. reflexivity. }
  rewrite Hq. split; intros H.
  - pose proof (pow2_ge_0 (x - x')). pose proof (pow2_ge_0 (y - y')). apply sqrt_le_0; [lra|lra|exact H].
  - apply sqrt_le_1_alt. exact H.
Qed.

Lemma near1 : forall x y, (exists b, on_seg ex_R (PI / 2) 1 b /\ dist2 b (x, y) <= / 4 * sqrt 2) <->
  exists t, 0 <= t <= ex_R /\ (t - x) ^ 2 + y ^ 2 <= / 8.
Proof using Type.
  intros x y. split.
  - intros (b & (t & Ht & ->) & H). apply near_iff in H. exists t. split; [exact Ht|nra].
  - intros (t & Ht & H). exists (t, 0). split; [exists t; auto|]. apply near_iff. nra.
Qed.

Lemma near2 : forall x y, (exists b, on_seg ex_R (PI / 2) 2 b /\ dist2 b (x, y) <= / 4 * sqrt 2) <->
  exists t, 0 <= t <= ex_R /\ x ^ 2 + (t - y) ^ 2 <= / 8.
Proof using Type.
  intros x y. split.
  - intros (b & (t & Ht & ->) & H). rewrite cos_PI2, sin_PI2 in H. apply near_iff in H. exists t. split; [exact Ht|nra].
  - intros (t & Ht & H). exists (0, t). split; [exists t; rewrite cos_PI2, sin_PI2; split; [auto|f_equal; ring]|]. apply near_iff. nra.
Qed.

(** Points of the arc: on the circle, not in the open first quadrant. *)
Lemma near0 : forall x y, (exists b, on_seg ex_R (PI / 2) 0 b /\ dist2 b (x, y) <= / 4 * sqrt 2) <->
  exists u v, u ^ 2 + v ^ 2 = ex_R ^ 2 /\ (u <= 0 \/ v <= 0) /\ (u - x) ^ 2 + (v - y) ^ 2 <= / 8.
Proof using Type.
  intros x y. pose proof PI_RGT_0 as HPI. split.
  - intros (b & (th & Hth & ->) & H). apply near_iff in H. exists (ex_R * cos th), (ex_R * sin th).
    split; [pose proof (sin2_cos2 th) as S; unfold Rsqr in S; nra|]. split; [|exact H].
    destruct (Rle_dec th PI).
    + left. assert (cos th <= 0) by (apply cos_le_0; lra). unfold ex_R. nra.
    + right. assert (sin th <= 0) by (apply sin_le_0; lra). unfold ex_R. nra.
  - intros (u & v & Hc & Hq & H). destruct (ps_polar_xy (PI / 2) u v) as [r th] eqn:E.
    destruct (ps_polar_spec (PI / 2) u v r th ltac:(lra) E) as (Hr & Hth & Hu & Hv).
    assert (Er : r = ex_R).
    { apply Rsqr_inj; [exact Hr|unfold ex_R; lra|]. pose proof (sin2_cos2 th) as S. unfold Rsqr in *. rewrite <- Hu, <- Hv in Hc.
      replace (ex_R * ex_R) with (ex_R ^ 2) by ring. rewrite <- Hc. transitivity (r * r * (sin th * sin th + cos th * cos th)); [rewrite S; ring|ring]. }
    subst r. exists (u, v). split; [|apply near_iff; exact H].
    destruct (Rle_dec (PI / 2) th) as [H1|H1]; [destruct (Rle_dec th (2 * PI)) as [H2|H2]|].
    + exists th. split; [lra|]. rewrite Hu, Hv. reflexivity.
    + exfalso. assert (0 < sin (th - 2 * PI)) by (apply sin_gt_0; lra). assert (0 < cos (th - 2 * PI)) by (apply cos_gt_0; lra).
      assert (Es : sin (th - 2 * PI) = sin th) by (rewrite <- (sin_period (th - 2 * PI) 1); f_equal; simpl; ring).
      assert (Ec : cos (th - 2 * PI) = cos th) by (rewrite <- (cos_period (th - 2 * PI) 1); f_equal; simpl; ring).
      rewrite Es in *. rewrite Ec in *. unfold ex_R in *. nra.
    + exfalso. assert (0 < sin th) by (apply sin_gt_0; lra). assert (0 < cos th) by (apply cos_gt_0; lra). unfold ex_R in *. nra.
Qed.

Definition near0P (x y : R) : Prop :=
  exists u v, u ^ 2 + v ^ 2 = ex_R ^ 2 /\ (u <= 0 \/ v <= 0) /\ (u - x) ^ 2 + (v - y) ^ 2 <= / 8.
Definition near1P (x y : R) : Prop := exists t, 0 <= t <= ex_R /\ (t - x) ^ 2 + y ^ 2 <= / 8.
Definition near2P (x y : R) : Prop := exists t, 0 <= t <= ex_R /\ x ^ 2 + (t - y) ^ 2 <= / 8.
Definition holds (b : bool) (P : Prop) : Prop := if b then P else ~ P.

Lemma ex_listing : forall i j b0 b1 b2, In (i, j) (ec_union c) ->
  holds b0 (near0P (IZR (i - 8) / 4) (IZR (j - 8) / 4)) -> holds b1 (near1P (IZR (i - 8) / 4) (IZR (j - 8) / 4)) ->
  holds b2 (near2P (IZR (i - 8) / 4) (IZR (j - 8) / 4)) ->
  sids c (i, j) = (if b0 then [0%nat] else []) ++ (if b1 then [1%nat] else []) ++ (if b2 then [2%nat] else []).
Proof using Hb Hi Hs.
  intros i j b0 b1 b2 Hp H0 H1 H2. apply ex_sids; [exact Hp|]. cbn [fst snd]. rewrite ex_coord.
  assert (K : forall (b : bool) P, holds b P -> (b = true <-> P)).
  { intros [|] P H; cbn [holds] in H; split; auto; try discriminate; contradiction. }
  intros [|[|[|sid]]] Hsid; [| | |lia]; cbn [nth].
  - rewrite near0. apply K, H0.
  - rewrite near1. apply K, H1.
  - rewrite near2. apply K, H2.
Qed.

Lemma near0_ring : forall x y, x <= 0 \/ y <= 0 -> 17 / 25 <= sqrt (x ^ 2 + y ^ 2) <= 137 / 100 -> near0P x y.
Proof using Type.
  intros x y Hq [H1 H2]. set (r := sqrt (x ^ 2 + y ^ 2)) in *.
  assert (Hr : r * r = x ^ 2 + y ^ 2) by (apply sqrt_sqrt; pose proof (pow2_ge_0 x); pose proof (pow2_ge_0 y); lra).
  exists (ex_R / r * x), (ex_R / r * y).
  assert (Hk : 0 < ex_R / r) by (apply Rdiv_lt_0_compat; unfold ex_R; lra).
  split; [|split].
  - replace ((ex_R / r * x) ^ 2 + (ex_R / r * y) ^ 2) with ((ex_R / r) ^ 2 * (x ^ 2 + y ^ 2)) by ring. rewrite <- Hr. field. lra.
  - destruct Hq; [left|right]; nra.
  - replace ((ex_R / r * x - x) ^ 2 + (ex_R / r * y - y) ^ 2) with ((ex_R / r - 1) ^ 2 * (x ^ 2 + y ^ 2)) by ring. rewrite <- Hr.
    replace ((ex_R / r - 1) ^ 2 * (r * r)) with ((ex_R - r) ^ 2) by (field; lra). unfold ex_R. nra.
Qed.

Lemma sqrt_between : forall lo hi z, 0 <= lo -> 0 <= hi -> lo ^ 2 <= z <= hi ^ 2 -> lo <= sqrt z <= hi.
Proof using Type.
  intros lo hi z H1 H2 [H3 H4]. split.
  - rewrite <- (sqrt_pow2 lo H1). apply sqrt_le_1_alt. exact H3.
  - rewrite <- (sqrt_pow2 hi H2). apply sqrt_le_1_alt. exact H4.
Qed.

Lemma ex_gamma : forall q p1 p2, in_open_grid 16 p1 -> neighbour 4 p1 q -> o_interior ex_opt (fst p1) (snd p1) = true ->
  in_open_grid 16 p2 -> neighbour 4 p2 q -> o_interior ex_opt (fst p2) (snd p2) = false -> In q (ec_union c).
Proof using Hi.
  intros q p1 p2 G1 N1 I1 G2 N2 I2. destruct ex_fields as (_ & _ & _ & _ & _ & _ & _ & -> & _).
  apply nodup_In. apply gamma_set_in; [right; reflexivity|]. split; [exists p1|exists p2]; auto.
Qed.

Lemma nu0 : forall i j, nu c 0 (i, j) = qn ex_R (sqrt ((IZR (i - 8) / 4) ^ 2 + (IZR (j - 8) / 4) ^ 2) - ex_R).
Proof using Hb Hi.
  intros i j. destruct ex_fields as (_ & ER & Ea & EAD & EN & _ & Ebc & _). unfold nu, ctx_coord. rewrite ER, EAD, EN, Ebc. cbn [fst snd].
  pose proof (ex_coord i j) as E. rewrite E.
  destruct (ps_polar_xy (PI / 2) (IZR (i - 8) / 4) (IZR (j - 8) / 4)) as [r th] eqn:Ep. pose proof PI_RGT_0.
  destruct (bcoord_arc brentq ex_R (PI / 2) 4 16 Hb ltac:(unfold ex_R; lra) ex_a (i, j) _ _ r th E Ep) as (th0 & Ebc' & _).
  unfold bcoord in Ebc'. rewrite Ebc'.
  destruct (ps_polar_spec (PI / 2) _ _ r th ltac:(lra) Ep) as (Hr & _ & <- & <-).
  f_equal. f_equal. replace ((r * cos th) ^ 2 + (r * sin th) ^ 2) with (r ^ 2 * ((sin th)² + (cos th)²)) by (unfold Rsqr; ring).
  rewrite sin2_cos2, Rmult_1_r, sqrt_pow2 by exact Hr. reflexivity.
Qed.

Lemma nu1 : forall i j, nu c 1 (i, j) = IZR (j - 8) / 4.
Proof using Hi.
  intros i j. destruct ex_fields as (_ & ER & Ea & EAD & EN & _). unfold nu, ctx_coord. rewrite EAD, EN. cbn [fst snd].
  rewrite ex_coord. reflexivity.
Qed.

Lemma nu2 : forall i j, nu c 2 (i, j) = IZR (i - 8) / 4.
Proof using Hi.
  intros i j. destruct ex_fields as (_ & ER & Ea & EAD & EN & _). unfold nu, ctx_coord. rewrite EAD, EN, Ea. cbn [fst snd].
  rewrite ex_coord, cos_PI2, sin_PI2. ring.
Qed.

(** Tactics for one node: membership in the discrete boundary and listing. *)
Ltac num := cbn [fst snd] in *;
  repeat match goal with |- context [IZR (?u - 8)] => let w := eval compute in (u - 8)%Z in change (IZR (u - 8)) with (IZR w) end.
Ltac gam p1 p2 := apply (ex_gamma _ p1 p2);
  [unfold in_open_grid; cbn; lia|unfold neighbour; cbn; lia|apply ex_in; num; unfold ex_R; lra
  |unfold in_open_grid; cbn; lia|unfold neighbour; cbn; lia|apply ex_out; num; unfold ex_R; lra].
Ltac ring0 := apply near0_ring; [lra|apply sqrt_between; lra].

Lemma S1 : forall i j, In i [7; 8; 9]%Z -> In j [3; 4; 5]%Z -> In (i, j) (ec_union c) /\ sids c (i, j) = [0%nat].
Proof using Hb Hi Hs.
  intros i j Hi0 Hj.
  assert (Hg : In (i, j) (ec_union c)).
  { destruct Hi0 as [<-|[<-|[<-|[]]]]; destruct Hj as [<-|[<-|[<-|[]]]];
    first [gam (8, 4)%Z (8, 3)%Z|gam (8, 4)%Z (9, 4)%Z|gam (8, 4)%Z (7, 4)%Z]. }
  split; [exact Hg|]. rewrite (ex_listing i j true false false Hg); [reflexivity| | |];
  destruct Hi0 as [<-|[<-|[<-|[]]]]; destruct Hj as [<-|[<-|[<-|[]]]]; num; cbn [holds]; try ring0;
  intros (t & Ht & H); nra.
Qed.

Lemma S2 : forall i j, In i [11; 12; 13]%Z -> In j [7; 8; 9]%Z -> In (i, j) (ec_union c) /\
  sids c (i, j) = if Z.eqb i 11 && Z.eqb j 9 then [1%nat] else [0%nat; 1%nat].
Proof using Hb Hi Hs.
  intros i j Hi0 Hj.
  assert (Hg : In (i, j) (ec_union c)).
  { destruct Hi0 as [<-|[<-|[<-|[]]]]; destruct Hj as [<-|[<-|[<-|[]]]];
    first [gam (12, 8)%Z (13, 8)%Z|gam (12, 8)%Z (12, 9)%Z|gam (12, 8)%Z (12, 7)%Z]. }
  split; [exact Hg|].
  destruct Hi0 as [<-|[<-|[<-|[]]]]; destruct Hj as [<-|[<-|[<-|[]]]]; cbn [Z.eqb Pos.eqb andb];
  first [rewrite (ex_listing _ _ true true false Hg); [reflexivity| | |]; num; cbn [holds];
      [first [ring0|exists ex_R, 0; unfold ex_R; repeat split; try (right; lra); lra]
      |first [exists 1; unfold ex_R; split; lra|exists (3/4); unfold ex_R; split; lra|exists ex_R; unfold ex_R; split; lra]
      |intros (t & Ht & H); nra]
    |rewrite (ex_listing _ _ false true false Hg); [reflexivity| | |]; num; cbn [holds];
      [intros (u & v & Hc & Hq & H); unfold ex_R in *; destruct Hq; [nra|nra]
      |exists (3/4); unfold ex_R; split; lra
      |intros (t & Ht & H); nra]].
Qed.

Lemma S3 : forall i j, In i [7; 8; 9]%Z -> In j [11; 12; 13]%Z -> In (i, j) (ec_union c) /\
  sids c (i, j) = if Z.eqb i 9 && Z.eqb j 11 then [2%nat] else [0%nat; 2%nat].
Proof using Hb Hi Hs.
  intros i j Hi0 Hj.
  assert (Hg : In (i, j) (ec_union c)).
  { destruct Hi0 as [<-|[<-|[<-|[]]]]; destruct Hj as [<-|[<-|[<-|[]]]];
    first [gam (8, 12)%Z (8, 13)%Z|gam (8, 12)%Z (9, 12)%Z|gam (8, 12)%Z (7, 12)%Z]. }
  split; [exact Hg|].
  destruct Hi0 as [<-|[<-|[<-|[]]]]; destruct Hj as [<-|[<-|[<-|[]]]]; cbn [Z.eqb Pos.eqb andb];
  first [rewrite (ex_listing _ _ true false true Hg); [reflexivity| | |]; num; cbn [holds];
      [first [ring0|exists 0, ex_R; unfold ex_R; repeat split; try (left; lra); lra]
      |intros (t & Ht & H); nra
      |first [exists 1; unfold ex_R; split; lra|exists (3/4); unfold ex_R; split; lra|exists ex_R; unfold ex_R; split; lra]]
    |rewrite (ex_listing _ _ false false true Hg); [reflexivity| | |]; num; cbn [holds];
      [intros (u & v & Hc & Hq & H); unfold ex_R in *; destruct Hq; [nra|nra]
      |intros (t & Ht & H); nra
      |exists (3/4); unfold ex_R; split; lra]].
Qed.

(** The stencil of the fourth-order scheme with k = 0. *)
Lemma nine : forall v m n, lin_apply_L 16 4 4 0 v m n = RtoC 0 ->
  Cplus (Cmult (RtoC 4) (Cplus (Cplus (v (m + 1)%Z n) (v (m - 1)%Z n)) (Cplus (v m (n + 1)%Z) (v m (n - 1)%Z))))
   (Cplus (Cplus (v (m + 1)%Z (n + 1)%Z) (v (m - 1)%Z (n + 1)%Z)) (Cplus (v (m + 1)%Z (n - 1)%Z) (v (m - 1)%Z (n - 1)%Z)))
  = Cmult (RtoC 20) (v m n).
Proof using Type.
  intros v m n H. unfold lin_apply_L in H. cbn [Z.eqb Pos.eqb] in H.
  apply (f_equal (Cmult (RtoC (6 / 16)))) in H. rewrite Cmult_0_r in H.
  apply injective_projections; apply (f_equal fst) in H as H1; apply (f_equal snd) in H as H2; cbn in H1, H2 |- *; lra.
Qed.

Lemma K_nonzero :
  let q r := qn ex_R (r / 4 - ex_R) in
  4 * (q 5 + q 3 + 2 * q (sqrt 17)) + 2 * q (sqrt 26) + 2 * q (sqrt 10) - 20 * q 4 <> 0.
Proof using Type.
  cbv zeta. unfold qn, ex_R.
  assert (A17 : sqrt 17 * sqrt 17 = 17) by (apply sqrt_sqrt; lra).
  assert (A26 : sqrt 26 * sqrt 26 = 26) by (apply sqrt_sqrt; lra).
  assert (A10 : sqrt 10 * sqrt 10 = 10) by (apply sqrt_sqrt; lra).
  assert (B17 : 4123105 / 1000000 <= sqrt 17 <= 4123106 / 1000000) by (apply sqrt_between; lra).
  assert (B26 : 5099019 / 1000000 <= sqrt 26 <= 5099020 / 1000000) by (apply sqrt_between; lra).
  assert (B10 : 3162277 / 1000000 <= sqrt 10 <= 3162278 / 1000000) by (apply sqrt_between; lra).
  assert (P : forall z w, z * z = w ->
    (z / 4 - 41 / 40) ^ 2 = w / 16 - z * (41 / 80) + (41 / 40) ^ 2 /\
    (z / 4 - 41 / 40) ^ 3 = z * w / 64 - 3 * (w / 16) * (41 / 40) + 3 * (z / 4) * (41 / 40) ^ 2 - (41 / 40) ^ 3 /\
    (z / 4 - 41 / 40) ^ 4 = w * w / 256 - 4 * (z * w / 64) * (41 / 40) + 6 * (w / 16) * (41 / 40) ^ 2 - 4 * (z / 4) * (41 / 40) ^ 3 + (41 / 40) ^ 4).
  { intros z w <-. repeat split; field. }
  destruct (P _ _ A17) as (C1 & C2 & C3). destruct (P _ _ A26) as (D1 & D2 & D3). destruct (P _ _ A10) as (E1 & E2 & E3).
  rewrite C1, C2, C3, D1, D2, D3, E1, E2, E3. clear P A17 A26 A10 C1 C2 C3 D1 D2 D3 E1 E2 E3. lra.
Qed.

Lemma C_move : forall x y : C, x = y -> Cminus x y = RtoC 0.
Proof using Type. intros x y ->. ring. Qed.

Lemma C_kill : forall (x : C) (r : R), r <> 0 -> Cmult x (RtoC r) = RtoC 0 -> x = RtoC 0.
Proof using Type.
  intros x r Hr H. apply (f_equal (fun z => Cmult z (RtoC (/ r)))) in H. rewrite <- Cmult_assoc, <- RtoC_mult, Rinv_r, Cmult_1_r in H by exact Hr.
  rewrite H. ring.
Qed.

Lemma ex_usable : ps_usable s.
Proof using Hi. apply (st_usable lib ex_opt st ex_enumerating ex_options Hi). Qed.

Lemma ex_determined : neumann_determined st.
Proof using Hb Hi Hwf Hs.
  intros c1 e P tr L1 He HP Ht Hv. destruct ex_fields as (Ek & ER & Ea & EAD & EN & Er & Ebc & Eu & EB & Ehom & Es & _).
  fold c in L1, He. rewrite EB in L1, He. destruct c1 as [|al [|be [|ga [|]]]]; cbn [length B3] in L1; try (exfalso; lia). cbn [map] in He |- *.
  rewrite (const_boundary (with_basis c B3 [RtoC 0; RtoC 0; RtoC 0] [al; be; ga]) (RtoC 0) (RtoC 0) (RtoC 0) al be ga true) in He;
    [|exact Hwf|left; reflexivity|exact Ek|cbn [with_basis ec_r ec_R]; rewrite ER; exact Er|reflexivity|reflexivity|reflexivity].
  injection He as He. cbn [with_basis ec_union] in He.
  set (E := fun p => mean (fun s0 => Cplus (nth s0 [RtoC 0; RtoC 0; RtoC 0] (RtoC 0)) (Cmult (nth s0 [al; be; ga] (RtoC 0)) (RtoC (nu c s0 p)))) (sids c p)).
  change (map E (ec_union c) = e) in He.
  fold s in HP, Ht, Hv.
  assert (HE : forall i j, In (i, j) (ec_union c) -> node_value 16 P i j = E (i, j)).
  { intros i j Hin. destruct (In_nth_error _ _ Hin) as [l Hl]. change (@nth_error node (ec_union c) l = Some (i, j)) in Hl. pose proof (st_gamma lib ex_opt st Hi) as Eg. fold s c in Eg.
    destruct (trace_spec s ex_usable P) as (tr' & Et & Htr). rewrite Ht in Et. injection Et as <-.
    rewrite <- Eg in Hl. pose proof (Htr l i j Hl) as K. rewrite Es in K at 1. cbn [init_ps ps_N ex_opt o_N] in K. rewrite <- K.
    rewrite (Hv l) by (apply nth_error_Some; intros Z; pose proof (eq_trans (eq_sym Hl) Z) as Z'; discriminate Z'). rewrite <- He. unfold as_vec. rewrite Eg in Hl.
    erewrite nth_error_nth; [reflexivity|]. rewrite nth_error_map, Hl. reflexivity. }
  assert (HL : forall i j, in_open_grid 16 (i, j) -> o_interior ex_opt i j = true -> lin_apply_L 16 4 4 0 (node_value 16 P) i j = RtoC 0).
  { intros i j H1 H2. destruct (potential_L s ex_usable (as_vec e)) as (P' & w & E1 & _ & K & _). rewrite HP in E1. injection E1 as <-.
    assert (Hin : inside_node s (i, j)) by (rewrite Es; split; assumption).
    specialize (K i j Hin). unfold fd_L in K. rewrite Es in K. exact K. }
  (* arc *)
  assert (V1 : forall i j, In i [7; 8; 9]%Z -> In j [3; 4; 5]%Z ->
    node_value 16 P i j = Cmult al (RtoC (qn ex_R (sqrt ((IZR (i - 8)) ^ 2 + (IZR (j - 8)) ^ 2) / 4 - ex_R)))).
  { intros i j H1 H2. destruct (S1 i j H1 H2) as [Hg Hl]. rewrite (HE i j Hg). unfold E. rewrite Hl. cbn [mean nth]. rewrite nu0, Cplus_0_l.
    do 4 f_equal. replace ((IZR (i - 8) / 4) ^ 2 + (IZR (j - 8) / 4) ^ 2) with (((IZR (i - 8)) ^ 2 + (IZR (j - 8)) ^ 2) * (/ 4) ^ 2) by field.
    rewrite sqrt_mult_alt by (pose proof (pow2_ge_0 (IZR (i - 8))); pose proof (pow2_ge_0 (IZR (j - 8))); lra). rewrite sqrt_pow2 by lra. field. }
  assert (Eal : al = RtoC 0).
  { pose proof (nine _ _ _ (HL 8 4 ltac:(unfold in_open_grid; cbn; lia) ltac:(apply ex_in; num; unfold ex_R; lra))%Z) as K.
    cbn [Z.add Z.sub Z.opp Z.pos_sub Pos.add Pos.succ Pos.pred_double] in K.
    rewrite !V1 in K by (cbn; tauto). 
    repeat match type of K with context [IZR (?u - 8)] => let w := eval compute in (u - 8)%Z in change (IZR (u - 8)) with (IZR w) in K end.
    replace (1 ^ 2 + (-4) ^ 2) with 17 in K by ring. replace ((-1) ^ 2 + (-4) ^ 2) with 17 in K by ring.
    replace (0 ^ 2 + (-3) ^ 2) with (3 ^ 2) in K by ring. replace (0 ^ 2 + (-5) ^ 2) with (5 ^ 2) in K by ring. replace (0 ^ 2 + (-4) ^ 2) with (4 ^ 2) in K by ring.
    replace (1 ^ 2 + (-3) ^ 2) with 10 in K by ring. replace ((-1) ^ 2 + (-3) ^ 2) with 10 in K by ring.
    replace (1 ^ 2 + (-5) ^ 2) with 26 in K by ring. replace ((-1) ^ 2 + (-5) ^ 2) with 26 in K by ring.
    rewrite !sqrt_pow2 in K by lra.
    apply (C_kill al _ K_nonzero). apply C_move in K. rewrite <- K. cbv zeta. clear.
    apply injective_projections; cbn; ring. }
  subst al.
  assert (V2 : forall i j, In i [11; 12; 13]%Z -> In j [7; 8; 9]%Z ->
    node_value 16 P i j = Cmult be (RtoC (IZR (j - 8) / (if Z.eqb i 11 && Z.eqb j 9 then 4 else 8)))).
  { intros i j H1 H2. destruct (S2 i j H1 H2) as [Hg Hl]. rewrite (HE i j Hg). unfold E. rewrite Hl.
    destruct (Z.eqb i 11 && Z.eqb j 9); cbn [mean nth]; rewrite nu1; [ring|].
    replace (IZR (j - 8) / 8) with (IZR (j - 8) / 4 * (1 / 2)) by field. rewrite (RtoC_mult (IZR (j - 8) / 4)). ring. }
  assert (V3 : forall i j, In i [7; 8; 9]%Z -> In j [11; 12; 13]%Z ->
    node_value 16 P i j = Cmult ga (RtoC (IZR (i - 8) / (if Z.eqb i 9 && Z.eqb j 11 then 4 else 8)))).
  { intros i j H1 H2. destruct (S3 i j H1 H2) as [Hg Hl]. rewrite (HE i j Hg). unfold E. rewrite Hl.
    destruct (Z.eqb i 9 && Z.eqb j 11); cbn [mean nth]; rewrite nu2; [ring|].
    replace (IZR (i - 8) / 8) with (IZR (i - 8) / 4 * (1 / 2)) by field. rewrite (RtoC_mult (IZR (i - 8) / 4)). ring. }
  assert (Ebe : be = RtoC 0).
  { pose proof (nine _ _ _ (HL 12 8 ltac:(unfold in_open_grid; cbn; lia) ltac:(apply ex_in; num; unfold ex_R; lra))%Z) as K.
    cbn [Z.add Z.sub Z.opp Z.pos_sub Pos.add Pos.succ Pos.pred_double] in K.
    rewrite !V2 in K by (cbn; tauto).
    repeat match type of K with context [IZR (?u - 8)] => let w := eval compute in (u - 8)%Z in change (IZR (u - 8)) with (IZR w) in K end.
    cbn [Z.eqb Pos.eqb andb] in K. 
    apply injective_projections; apply (f_equal fst) in K as K1; apply (f_equal snd) in K as K2; cbn in K1, K2 |- *; lra. }
  assert (Ega : ga = RtoC 0).
  { pose proof (nine _ _ _ (HL 8 12 ltac:(unfold in_open_grid; cbn; lia) ltac:(apply ex_in; num; unfold ex_R; lra))%Z) as K.
    cbn [Z.add Z.sub Z.opp Z.pos_sub Pos.add Pos.succ Pos.pred_double] in K.
    rewrite !V3 in K by (cbn; tauto).
    repeat match type of K with context [IZR (?u - 8)] => let w := eval compute in (u - 8)%Z in change (IZR (u - 8)) with (IZR w) in K end.
    cbn [Z.eqb Pos.eqb andb] in K. 
    apply injective_projections; apply (f_equal fst) in K as K1; apply (f_equal snd) in K as K2; cbn in K1, K2 |- *; lra. }
  subst be ga. reflexivity.
Qed.

(** ** The run *)

Variable res : ps_result.
Hypothesis Hr : ps_run lib ex_opt st = Ok res.

Lemma Ok_inj : forall (T : Type) (x y : T), Ok x = Ok y -> x = y.
Proof using Type. intros T x y H. injection H as ->. reflexivity. Qed.

Lemma ex_c0 : res_c0 res = [RtoC 1; RtoC 1; RtoC 1].
Proof using Hi Hr.
  destruct (ran_c0 lib ex_opt st Hi res ex_fit Hr) as [E _]. destruct ex_fields as (_ & _ & _ & _ & _ & _ & _ & _ & _ & _ & _ & Eseg & _).
  rewrite Eseg, calc_c0_eq in E by lia. apply Ok_inj in E. rewrite <- E. unfold seg_fit. cbn [ex_opt o_bc lib ex_lib lib_chebfit seg_size Nat.sub repeat].
  destruct (get_chebyshev_roots (Z.to_nat n_chebyshev_nodes)) as [|t l] eqn:En; [|reflexivity].
  exfalso. apply (f_equal (@length R)) in En. unfold get_chebyshev_roots in En. rewrite map_length, rev_length, seq_length in En.
  unfold n_chebyshev_nodes in En. cbn [length] in En. lia.
Qed.

Definition one_arr : arr2 := fun _ _ => RtoC 1.
Definition ones : list C := map (fun _ => RtoC 1) (ec_union c).
Definition zeros : list C := [RtoC 0; RtoC 0; RtoC 0].

Lemma ex_one_value : forall i j, in_open_grid 16 (i, j) -> node_value 16 one_arr i j = RtoC 1.
Proof using Type. intros i j H. rewrite node_value_in by exact H. reflexivity. Qed.

Lemma ex_one : forall i j, o_inside ex_opt i j -> o_L ex_opt one_arr i j = lin_apply_B (st_f st) i j.
Proof using Hi.
  intros i j [Hg Hin]. unfold o_L. cbn [ex_opt o_N o_order o_AD o_k]. change (o_N ex_opt) with 16%Z in Hg.
  pose proof (ex_margin i j Hg Hin) as Hm. destruct Hg as [H1 H2]. cbn [fst snd] in H1, H2.
  destruct ex_fields as (_ & _ & _ & _ & _ & _ & _ & _ & _ & _ & _ & _ & Hf).
  unfold lin_apply_L, lin_apply_B. rewrite !Hf. cbn [Z.eqb Pos.eqb].
  rewrite !ex_one_value by (unfold in_open_grid; cbn [fst snd]; lia).
  apply injective_projections; cbn; lra.
Qed.

Lemma ex_extension : extend_boundary (with_basis c (ec_B c) (res_c0 res) zeros) SrcCoef false = Ok ones.
Proof using Hi Hwf Hr.
  destruct ex_fields as (Ek & ER & Ea & EAD & EN & Er & Ebc & Eu & EB & Ehom & _). rewrite ex_c0, EB.
  rewrite (const_boundary _ (RtoC 1) (RtoC 1) (RtoC 1) (RtoC 0) (RtoC 0) (RtoC 0) false);
    [|exact Hwf|right; exact Ehom|exact Ek|cbn [with_basis ec_r ec_R]; rewrite ER; exact Er|reflexivity|reflexivity|reflexivity].
  unfold ones. f_equal. cbn [with_basis ec_union]. apply map_ext_in. intros p Hp.
  destruct Hwf as (_ & _ & _ & Hocc & _). specialize (Hocc p Hp). rewrite <- sids_length in Hocc.
  change (sids (with_basis c B3 [RtoC 1; RtoC 1; RtoC 1] zeros) p) with (sids c p).
  assert (Hlt : forall s0, In s0 (sids c p) -> (s0 < 3)%nat) by (intros s0 H; apply (sids_in c p s0 H)).
  rewrite (mean_ext _ (fun _ => RtoC 1)).
  - destruct (sids c p) as [|s1 [|s2 [|]]]; cbn [length] in Hocc; try lia; cbn [mean]; [reflexivity|]. apply injective_projections; cbn; lra.
  - intros s0 H. specialize (Hlt s0 H). destruct s0 as [|[|[|]]]; [| | |lia]; cbn [nth]; ring.
Qed.

Lemma ex_trace : forall l, (l < length (ps_gamma s))%nat -> nth_value (ps_N s) (ps_gamma s) one_arr l = as_vec ones l.
Proof using Hi.
  intros l Hlt. destruct ex_fields as (_ & _ & _ & _ & _ & _ & _ & _ & _ & _ & Es & _).
  pose proof (st_gamma lib ex_opt st Hi) as Eg. fold s c in Eg. unfold nth_value, as_vec, ones.
  destruct (nth_error (ps_gamma s) l) as [[i j]|] eqn:El; [|apply nth_error_None in El; lia].
  rewrite <- Eg. erewrite nth_error_nth; [|rewrite nth_error_map, El; reflexivity].
  assert (EN : ps_N s = 16%Z) by (rewrite Es; reflexivity). rewrite EN.
  apply ex_one_value. rewrite <- EN. apply (us_inside s ex_usable). eapply nth_error_In. exact El.
Qed.

Lemma ex_lstsq : lstsq_contract lib st (res_c0 res).
Proof using Hb Hi Hwf Hs Hr.
  intros Q1 rhs Ev. pose proof (st_gamma lib ex_opt st Hi) as Eg.
  destruct (ran_system lib ex_opt st ex_enumerating ex_options Hi res ex_fit Hwf Hr) as (extf & Q1' & rhs' & e & Hf & HB & Ev' & LQ & _).
  destruct (ran_c0 lib ex_opt st Hi res ex_fit Hr) as [_ L0].
  destruct (system (st_ctx st) (st_ps st) (st_ap st) extf (res_c0 res) ex_usable Hwf Eg HB L0 Hf) as (Q2 & rhs2 & Ev2 & LQ2 & _ & Hres).
  rewrite Ev2 in Ev. injection Ev as <- <-.
  destruct ex_fields as (_ & _ & _ & _ & _ & _ & _ & _ & EB & _).
  destruct (Hres zeros) as (e2 & u2 & tr2 & Ee & _ & Eu & Et & _ & Hl); [fold c; rewrite EB; reflexivity|].
  destruct (exact_candidate lib ex_opt st ex_enumerating ex_options Hi res one_arr zeros ones ex_one ex_extension ex_trace) as (u' & [Ec1 Ec2] & _ & Hz).
  rewrite Ee in Ec1. injection Ec1 as ->. rewrite Eu in Ec2. injection Ec2 as <-.
  pose proof (proj1 (gap_zero st u2 ones) Hz) as Hg.
  apply zero_error. intros l Hlt. specialize (Hl l Hlt). specialize (Hg l Hlt).
  destruct (trace_spec (st_ps st) ex_usable u2) as (tr' & Et' & Htr). rewrite Et in Et'. injection Et' as <-.
  assert (Etr : tr2 l = as_vec ones l).
  { rewrite <- Hg. unfold nth_value. destruct (nth_error (ps_gamma (st_ps st)) l) as [[i j]|] eqn:El; [exact (Htr l i j El)|].
    apply nth_error_None in El. lia. }
  rewrite Etr in Hl. replace (Cminus (as_vec ones l) (as_vec ones l)) with (RtoC 0) in Hl by ring.
  rewrite LQ2. rewrite (mat_app_ext _ _ _ (as_vec zeros)).
  - transitivity (Cminus (mat_app (length (ec_B (st_ctx st))) (cols_matrix Q2) (as_vec zeros) l) (RtoC 0)); [rewrite <- Hl|]; ring.
  - intros j Hj. cbn [lib ex_lib lib_lstsq]. unfold as_vec, zeros. destruct j as [|[|[|[|]]]]; reflexivity.
Qed.

Lemma ex_result : res_c1 res = zeros /\ (forall i j, reached s (i, j) -> node_value 16 (res_u res) i j = RtoC 1) /\ res_error res = Some 0.
Proof using Hb Hi Hwf Hs Hr.
  destruct ex_fields as (_ & _ & _ & _ & _ & _ & _ & _ & EB & _ & Es & _).
  assert (EN : ps_N s = 16%Z) by (rewrite Es; reflexivity).
  assert (L : length zeros = length (ec_B (st_ctx st))) by (fold c; rewrite EB; reflexivity).
  destruct (ran_exact lib ex_opt st ex_enumerating ex_options Hi res ex_fit Hwf Hr ex_lstsq one_arr zeros ones ex_one L ex_extension ex_trace ex_determined) as [E1 E2].
  fold s in E2. rewrite EN in E2. split; [exact E1|].
  assert (E3 : forall i j, reached s (i, j) -> node_value 16 (res_u res) i j = RtoC 1).
  { intros i j H. rewrite (E2 i j H). apply ex_one_value. destruct H as ((a, b) & Hq & Hn). rewrite Es in Hq. pose proof (ex_margin a b (proj1 Hq) (proj2 Hq)).
    destruct Hn as (N1 & N2 & _). cbn [fst snd] in N1, N2. unfold in_open_grid. cbn [fst snd]. lia. }
  split; [exact E3|].
  pose proof (run_error lib ex_opt st res ex_enumerating Hr) as He.
  destruct (res_error res) as [e|]; [|discriminate]. destruct He as [_ [(p & Hp & Ep) _]]. f_equal. rewrite <- Ep.
  cbn [ex_opt o_expected o_N]. rewrite E3; [|].
  - replace (Cminus (RtoC 1) (RtoC 1)) with (RtoC 0) by ring. rewrite Cmod_0. reflexivity.
  - exists p. split; [rewrite Es; destruct p; exact Hp|]. unfold neighbour. cbn [fst snd]. rewrite !Z.sub_diag. split; [cbn; lia|]. split; [cbn; lia|]. auto.
Qed.

End Case.

Lemma ex_runs : forall brentq, brentq_contract brentq -> exists st res,
  ps_init (ex_lib brentq) ex_opt = Ok st /\ ps_run (ex_lib brentq) ex_opt st = Ok res /\ ctx_wf (st_ctx st) /\ arc_solver brentq 4 (st_ctx st).
Proof.
  intros brentq Hb.
  destruct (arc_total (ex_lib brentq) ex_opt 1 1 (ex_enumerating brentq) ex_options (ex_fit brentq) (ex_arc brentq Hb) eq_refl (le_n 1) (le_n 1) (or_introl eq_refl))
    as (st & res & H1 & _ & H2 & H3).
  - intros _. exists 8%Z, 4%Z. split; [unfold in_open_grid; cbn; lia|]. apply ex_in; cbn; unfold ex_R; lra.
  - destruct (ex_state brentq Hb) as (st' & H1' & _ & H4). rewrite H1 in H1'. apply Ok_inj in H1'. subst st'. exists st, res. auto.
Qed.

(** ** A run with a source *)

Definition ex_F : nat -> nat -> R -> R -> C := sep (bump_source 0).
Definition ex_opt2 : options :=
  mk_opt 0 ex_R (PI / 2) 4 16 4 (r_arc ex_R) (3, 2)%nat None None false (exact_source ex_F ex_F)
    (fun x _ => RtoC x) false (fun _ _ => RtoC 0).

Lemma ex2_source : o_homogeneous ex_opt2 = false /\ boundary_source ex_opt2 ex_F /\ quadratic ex_F /\
  (forall x y, s_f (o_src ex_opt2) x y = ex_F 0%nat 0%nat x y).
Proof.
  split; [reflexivity|]. split; [intros sid b _; apply exact_cart|]. split; [apply bump_quadratic|]. reflexivity.
Qed.

Lemma ex2_off : off_circle ex_opt2.
Proof.
  intros [i j] _. cbn [fst snd ex_opt2 o_AD o_N o_R]. rewrite ex_coord. unfold ex_R. intros H.
  assert (E : IZR (100 * ((i - 8) * (i - 8) + (j - 8) * (j - 8))) = IZR 1681).
  { rewrite mult_IZR, plus_IZR, !mult_IZR. lra. }
  apply eq_IZR in E. lia.
Qed.

Lemma ex2_runs : forall brentq, brentq_contract brentq -> exists st res,
  ps_init (ex_lib brentq) ex_opt2 = Ok st /\ ps_run (ex_lib brentq) ex_opt2 st = Ok res /\ st_gave_up st = false /\
  ctx_wf (st_ctx st) /\ exists extf, extend_inhomo_f (st_ctx st) = Ok extf.
Proof.
  intros brentq Hb. destruct ex2_source as (_ & Hs & _).
  assert (Ha : arc_options (ex_lib brentq) ex_opt2) by exact (ex_arc brentq Hb).
  destruct (arc_total (ex_lib brentq) ex_opt2 3 2 (ex_enumerating brentq) ex_options (ex_fit brentq) Ha eq_refl ltac:(lia) ltac:(lia)
    (or_intror (conj ex2_off (or_intror (ex_intro _ ex_F Hs)))))
    as (st & res & H1 & H2 & H3 & H4); [discriminate|].
  exists st, res. split; [exact H1|]. split; [exact H4|]. split; [exact H2|]. split; [exact H3|].
  destruct (arc_init (ex_lib brentq) ex_opt2 3 2 (ex_enumerating brentq) ex_options Ha eq_refl (or_intror (or_intror (ex_intro _ ex_F Hs)))) as (st' & H1' & Hsv & _).
  rewrite H1 in H1'. apply Ok_inj in H1'. subst st'.
  exact (arc_inhomo_state (ex_lib brentq) ex_opt2 st (ex_enumerating brentq) Ha H1 Hsv H3 (or_intror ex2_off)).
Qed.

(** ** Everything together *)

Lemma ex_all : let lib := ex_lib min_zero in exists st res,
  enumerating lib /\ fit_sizes lib /\ options_ok ex_opt /\ arc_options lib ex_opt /\ sample_ok (o_r ex_opt) (o_R ex_opt) (o_a ex_opt) /\
  ps_init lib ex_opt = Ok st /\ ctx_wf (st_ctx st) /\ ps_run lib ex_opt st = Ok res /\
  lstsq_contract lib st (res_c0 res) /\ neumann_determined st /\
  (forall i j, o_inside ex_opt i j -> o_L ex_opt one_arr i j = lin_apply_B (st_f st) i j) /\
  (exists c1' e', length c1' = length (ec_B (st_ctx st)) /\
     extend_boundary (with_basis (st_ctx st) (ec_B (st_ctx st)) (res_c0 res) c1') SrcCoef false = Ok e' /\
     forall l, (l < length (ps_gamma (st_ps st)))%nat ->
       nth_value (ps_N (st_ps st)) (ps_gamma (st_ps st)) one_arr l = as_vec e' l) /\
  (0 < length (ps_gamma (st_ps st)))%nat /\
  (forall i j, o_inside ex_opt i j -> node_value 16 (res_u res) i j = RtoC 1) /\
  res_error res = Some 0.
Proof.
  cbv zeta. pose proof min_zero_contract as Hb. destruct (ex_runs min_zero Hb) as (st & res & Hi & Hr & Hwf & Hs). exists st, res.
  destruct (ex_fields min_zero st Hi) as (_ & _ & _ & _ & _ & _ & _ & _ & EB & _ & Es & _).
  destruct (ex_result min_zero Hb st Hi Hwf Hs res Hr) as (_ & Hu & He).
  split; [apply ex_enumerating|]. split; [apply ex_fit|]. split; [exact ex_options|]. split; [apply ex_arc; exact Hb|].
  split; [apply (arc_sample_ok (ex_lib min_zero) ex_opt (ex_arc min_zero Hb))|].
  split; [exact Hi|]. split; [exact Hwf|]. split; [exact Hr|].
  split; [exact (ex_lstsq min_zero Hb st Hi Hwf Hs res Hr)|]. split; [exact (ex_determined min_zero Hb st Hi Hwf Hs)|].
  split; [exact (ex_one min_zero st Hi)|].
  split; [exists zeros, (ones st); split; [rewrite EB; reflexivity|]; split; [exact (ex_extension min_zero st Hi Hwf res Hr)|exact (ex_trace min_zero st Hi)]|].
  split.
  - pose proof (st_gamma _ _ _ Hi) as Eg. destruct (S1 min_zero Hb st Hi Hs 8 4) as [H _]; [cbn; tauto|cbn; tauto|].
    rewrite Eg. destruct (ec_union (st_ctx st)); [destruct H|cbn [length]; lia].
  - split; [|exact He]. intros i j H. apply Hu. exists (i, j). split; [rewrite Es; exact H|].
    unfold neighbour. cbn [fst snd]. rewrite !Z.sub_diag. split; [cbn; lia|]. split; [cbn; lia|]. auto.
Qed.

Lemma ex2_all : let lib := ex_lib min_zero in exists st res extf,
  enumerating lib /\ fit_sizes lib /\ options_ok ex_opt2 /\ arc_options lib ex_opt2 /\ off_circle ex_opt2 /\
  (o_homogeneous ex_opt2 = false /\ boundary_source ex_opt2 ex_F /\ quadratic ex_F /\
    forall x y, s_f (o_src ex_opt2) x y = ex_F 0%nat 0%nat x y) /\
  ps_init lib ex_opt2 = Ok st /\ ps_run lib ex_opt2 st = Ok res /\ st_gave_up st = false /\
  ctx_wf (st_ctx st) /\ extend_inhomo_f (st_ctx st) = Ok extf.
Proof.
  cbv zeta. pose proof min_zero_contract as Hb. destruct (ex2_runs min_zero Hb) as (st & res & Hi & Hr & Hg & Hwf & extf & Hf).
  exists st, res, extf. split; [apply ex_enumerating|]. split; [apply ex_fit|]. split; [exact ex_options|].
  split; [exact (ex_arc min_zero Hb)|]. split; [exact ex2_off|]. split; [exact ex2_source|]. auto.
Qed.
