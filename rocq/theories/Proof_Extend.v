(** Extension of boundary data: Taylor step, linearity, coordinates. *)
From Coq Require Import ZArith List Bool Reals Lra Lia Psatz.
From Coquelicot Require Import Coquelicot.
From Verif Require Import Model_Py Model_Multivalue Model_Grid Model_Chebyshev Model_Domain Model_Ext
  Model_Extend Spec_Chebyshev Spec_Domain Spec_Ext Spec_Extend Spec_Multivalue
  Proof_Basis Proof_Multivalue Proof_Grid Proof_Domain Proof_Boundary Proof_Place Proof_Ext Proof_Ext2.
Import ListNotations.
Open Scope R_scope.

(** ** The tangential Taylor step *)

Fixpoint shift_sum (v : nat -> C) (delta : R) (m : nat) (ls : list nat) : C :=
  match ls with
  | [] => RtoC 0
  | l :: ls' => Cplus (Cmult (v l) (RtoC (delta ^ (l - m) / INR (fact (l - m))))) (shift_sum v delta m ls')
  end.

Lemma taylor_entry_eq : forall d0 delta m i v ls acc,
  (forall l, In l ls -> xi_get d0 l i = Ok (v l)) ->
  taylor_entry d0 delta m i ls acc = Ok (Cplus acc (shift_sum v delta m ls)).
Proof.
  induction ls as [|l ls IH]; intros acc H.
  - cbn [taylor_entry shift_sum]. rewrite Cplus_0_r. reflexivity.
  - cbn [taylor_entry shift_sum]. rewrite (H l (or_introl eq_refl)). cbn [bind].
    rewrite IH by (intros l' Hl'; apply H; right; exact Hl').
    rewrite Cplus_assoc. reflexivity.
Qed.

Lemma taylor_table_eq : forall d0 delta v keys,
  (forall i m, In (i, m) keys -> (i < 2)%nat /\ (m < 5)%nat) ->
  (forall l i, (l < 5)%nat -> (i < 2)%nat -> xi_get d0 l i = Ok (v l i)) ->
  exists d, taylor_table d0 delta keys = Ok d /\
    forall i m, In (i, m) keys -> xi_get d m i = Ok (shift_sum (fun l => v l i) delta m (seq m (5 - m))).
Proof.
  intros d0 delta v keys Hk H. induction keys as [|[i m] keys IH].
  - exists []. split; [reflexivity|intros i m []].
  - destruct IH as (d & E & Hd); [intros i' m' Hi; apply Hk; right; exact Hi|].
    cbn [taylor_table].
    rewrite (taylor_entry_eq d0 delta m i (fun l => v l i)).
    2:{ intros l Hl. apply in_seq in Hl. destruct (Hk i m (or_introl eq_refl)). unfold taylor_n_terms in Hl.
        apply H; lia. }
    cbn [bind]. rewrite E. cbn [bind]. eexists. split; [reflexivity|].
    intros i' m' Hi. cbn [xi_get].
    destruct (Nat.eqb m m' && Nat.eqb i i') eqn:Eq.
    + apply andb_prop in Eq. destruct Eq as [E1 E2]. apply Nat.eqb_eq in E1, E2. subst.
      rewrite Cplus_0_l. reflexivity.
    + destruct Hi as [Hi|Hi]; [|apply Hd; exact Hi].
      injection Hi as -> ->. rewrite !Nat.eqb_refl in Eq. discriminate.
Qed.

Lemma taylor_shift_eq : forall d0 delta v,
  (forall l i, (l < 5)%nat -> (i < 2)%nat -> xi_get d0 l i = Ok (v l i)) ->
  exists d, taylor_shift d0 delta = Ok d /\
    forall m i, (m < 5)%nat -> (i < 2)%nat ->
      xi_get d m i = Ok (shift_sum (fun l => v l i) delta m (seq m (5 - m))).
Proof.
  intros d0 delta v H.
  destruct (taylor_table_eq d0 delta v (list_prod [0%nat; 1%nat] (seq 0 taylor_n_terms))) as (d & E & Hd).
  - intros i m Hi. apply in_prod_iff in Hi. destruct Hi as [Hi Hm]. apply in_seq in Hm. unfold taylor_n_terms in Hm.
    cbn [In] in Hi. lia.
  - exact H.
  - exists d. split; [exact E|]. intros m i Hm Hi. apply Hd. apply in_prod_iff. split.
    + cbn [In]. lia.
    + apply in_seq. unfold taylor_n_terms. lia.
Qed.

Lemma shift_sum_comp : forall (v : nat -> C) delta m ls pr, pr = (fst : C -> R) \/ pr = (snd : C -> R) ->
  pr (shift_sum v delta m ls) = fold_right (fun l acc => pr (v l) * (delta ^ (l - m) / INR (fact (l - m))) + acc) 0 ls.
Proof.
  intros v delta m ls pr Hpr. induction ls as [|l ls IH]; [destruct Hpr; subst; reflexivity|].
  cbn [shift_sum fold_right]. rewrite <- IH.
  destruct Hpr; subst pr; [rewrite fst_Cplus, fst_Cmult_R|rewrite snd_Cplus, snd_Cmult_R]; reflexivity.
Qed.

Lemma shift_fold : forall (g : nat -> R) delta m, (m < 5)%nat ->
  fold_right (fun l acc => g l * (delta ^ (l - m) / INR (fact (l - m))) + acc) 0 (seq m (5 - m))
  = sum_f_R0 (fun l => delta ^ l / INR (fact l) * g (m + l)%nat) (4 - m).
Proof.
  intros g delta m Hm. do 5 (destruct m as [|m]; [simpl; try field|]); lia.
Qed.

(** The step applied to derivatives of a smooth function. *)
Lemma shift_lagrange : forall (f : R -> R) lo hi arg delta m,
  smooth_on 5 lo hi f -> lo < arg < hi -> lo < arg + delta < hi -> (m < 5)%nat ->
  exists t, 0 < t < 1 /\
    Derive_n f m (arg + delta)
    = sum_f_R0 (fun l => delta ^ l / INR (fact l) * Derive_n f (m + l) arg) (4 - m)
      + delta ^ (5 - m) / INR (fact (5 - m)) * Derive_n f 5 (arg + t * delta).
Proof.
  intros f lo hi arg delta m Hf Ha Hb Hm.
  destruct (lagrange (fun t => lo < t < hi) (fun l => Derive_n f (m + l)) (4 - m) arg delta) as (t & Ht & E).
  - intros t Ht. apply interval_locally'. exact Ht.
  - intros t Ht. destruct (Rle_lt_dec 0 delta) as [D|D].
    + assert (0 <= t * delta <= delta) by (split; nra). lra.
    + assert (delta <= t * delta <= 0) by (split; nra). lra.
  - intros l t Hl Ht. replace (m + S l)%nat with (S (m + l)) by lia. cbn [Derive_n].
    apply Derive_correct. apply Hf; [lia|exact Ht].
  - exists t. split; [exact Ht|]. replace (m + 0)%nat with m in E by lia.
    rewrite E. replace (S (4 - m)) with (5 - m)%nat by lia. replace (m + (5 - m))%nat with 5%nat by lia. reflexivity.
Qed.

Lemma taylor_step_spec : forall d0 delta arg (xi : nat -> R -> C) lo hi,
  lo < arg < hi -> lo < arg + delta < hi ->
  (forall i, (i < 2)%nat -> Csmooth_on 5 lo hi (xi i)) ->
  (forall l i, (l < 5)%nat -> (i < 2)%nat -> xi_get d0 l i = Ok (CDerive_n (xi i) l arg)) ->
  exists d, taylor_shift d0 delta = Ok d /\
    forall m i, (m < 5)%nat -> (i < 2)%nat ->
      exists v t1 t2, xi_get d m i = Ok v /\ 0 < t1 < 1 /\ 0 < t2 < 1 /\
        Cminus (CDerive_n (xi i) m (arg + delta)) v =
        (delta ^ (5 - m) / INR (fact (5 - m)) * Derive_n (fun t => fst (xi i t)) 5 (arg + t1 * delta),
         delta ^ (5 - m) / INR (fact (5 - m)) * Derive_n (fun t => snd (xi i t)) 5 (arg + t2 * delta)).
Proof.
  intros d0 delta arg xi lo hi Ha Hb Hs Hd.
  destruct (taylor_shift_eq d0 delta (fun l i => CDerive_n (xi i) l arg) Hd) as (d & E & Hv).
  exists d. split; [exact E|]. intros m i Hm Hi.
  destruct (Hs i Hi) as [S1 S2].
  destruct (shift_lagrange _ lo hi arg delta m S1 Ha Hb Hm) as (t1 & H1 & E1).
  destruct (shift_lagrange _ lo hi arg delta m S2 Ha Hb Hm) as (t2 & H2 & E2).
  eexists. exists t1, t2. split; [apply Hv; assumption|]. split; [exact H1|]. split; [exact H2|].
  apply injective_projections; cbn [fst snd].
  - unfold Cminus. rewrite fst_Cplus. change (fst (Copp ?z)) with (- fst z).
    rewrite (shift_sum_comp _ _ _ _ fst) by (left; reflexivity).
    rewrite (shift_fold (fun l => fst (CDerive_n (xi i) l arg))) by exact Hm.
    unfold CDerive_n at 1. cbn [fst]. rewrite E1. unfold CDerive_n. cbn [fst]. ring.
  - unfold Cminus. rewrite snd_Cplus. change (snd (Copp ?z)) with (- snd z).
    rewrite (shift_sum_comp _ _ _ _ snd) by (right; reflexivity).
    rewrite (shift_fold (fun l => snd (CDerive_n (xi i) l arg))) by exact Hm.
    unfold CDerive_n at 1. cbn [snd]. rewrite E2. unfold CDerive_n. cbn [snd]. ring.
Qed.

(** Quartic polynomials. *)
Definition quarticR (c0 c1 c2 c3 c4 : R) (l : nat) (t : R) : R :=
  match l with
  | 0%nat => c0 + c1 * t + c2 * t ^ 2 + c3 * t ^ 3 + c4 * t ^ 4
  | 1%nat => c1 + 2 * c2 * t + 3 * c3 * t ^ 2 + 4 * c4 * t ^ 3
  | 2%nat => 2 * c2 + 6 * c3 * t + 12 * c4 * t ^ 2
  | 3%nat => 6 * c3 + 24 * c4 * t
  | 4%nat => 24 * c4
  | _ => 0
  end.

Lemma quartic_derive : forall c0 c1 c2 c3 c4 l t, is_derive (quarticR c0 c1 c2 c3 c4 l) t (quarticR c0 c1 c2 c3 c4 (S l) t).
Proof.
  intros. destruct l as [|[|[|[|[|l]]]]]; unfold quarticR; auto_derive; try exact I; ring.
Qed.

Lemma quartic_derivs : forall c0 c1 c2 c3 c4 (f : R -> R), (forall t, f t = quarticR c0 c1 c2 c3 c4 0 t) ->
  forall l t, Derive_n f l t = quarticR c0 c1 c2 c3 c4 l t /\ ex_derive (Derive_n f l) t.
Proof.
  intros c0 c1 c2 c3 c4 f Hf l t.
  pose proof (derive_chain (quarticR c0 c1 c2 c3 c4) (S l) (t - 1) (t + 1)
    (fun l s _ _ => quartic_derive c0 c1 c2 c3 c4 l s) l t ltac:(lia) ltac:(lra)) as [E X].
  split.
  - rewrite <- E. apply Derive_n_ext. exact Hf.
  - apply ex_derive_ext with (2 := X (le_n _)). intros u. apply Derive_n_ext. intros w. symmetry. apply Hf.
Qed.

Lemma taylor_step_exact : forall d0 delta arg (xi : nat -> R -> C) (c : nat -> nat -> C),
  (forall i t, (i < 2)%nat -> xi i t =
     Cplus (Cplus (Cplus (Cplus (c i 0%nat) (Cmult (c i 1%nat) (RtoC t))) (Cmult (c i 2%nat) (RtoC (t ^ 2))))
       (Cmult (c i 3%nat) (RtoC (t ^ 3)))) (Cmult (c i 4%nat) (RtoC (t ^ 4)))) ->
  (forall l i, (l < 5)%nat -> (i < 2)%nat -> xi_get d0 l i = Ok (CDerive_n (xi i) l arg)) ->
  exists d, taylor_shift d0 delta = Ok d /\
    forall m i, (m < 5)%nat -> (i < 2)%nat -> xi_get d m i = Ok (CDerive_n (xi i) m (arg + delta)).
Proof.
  intros d0 delta arg xi c Hp Hd.
  assert (Q1 : forall i t, (i < 2)%nat -> fst (xi i t) =
    quarticR (fst (c i 0%nat)) (fst (c i 1%nat)) (fst (c i 2%nat)) (fst (c i 3%nat)) (fst (c i 4%nat)) 0 t).
  { intros i t Hi. rewrite Hp by exact Hi. rewrite !fst_Cplus, !fst_Cmult_R. reflexivity. }
  assert (Q2 : forall i t, (i < 2)%nat -> snd (xi i t) =
    quarticR (snd (c i 0%nat)) (snd (c i 1%nat)) (snd (c i 2%nat)) (snd (c i 3%nat)) (snd (c i 4%nat)) 0 t).
  { intros i t Hi. rewrite Hp by exact Hi. rewrite !snd_Cplus, !snd_Cmult_R. reflexivity. }
  set (lo := Rmin arg (arg + delta) - 1). set (hi := Rmax arg (arg + delta) + 1).
  pose proof (Rmin_l arg (arg + delta)). pose proof (Rmin_r arg (arg + delta)).
  pose proof (Rmax_l arg (arg + delta)). pose proof (Rmax_r arg (arg + delta)).
  destruct (taylor_step_spec d0 delta arg xi lo hi) as (d & E & Hv).
  - unfold lo, hi. lra.
  - unfold lo, hi. lra.
  - intros i Hi. split; intros l t Hl Ht.
    + apply (quartic_derivs _ _ _ _ _ (fun t => fst (xi i t)) (fun t => Q1 i t Hi)).
    + apply (quartic_derivs _ _ _ _ _ (fun t => snd (xi i t)) (fun t => Q2 i t Hi)).
  - exact Hd.
  - exists d. split; [exact E|]. intros m i Hm Hi.
    destruct (Hv m i Hm Hi) as (v & t1 & t2 & Ev & _ & _ & Eq). rewrite Ev. f_equal.
    rewrite (proj1 (quartic_derivs _ _ _ _ _ (fun t => fst (xi i t)) (fun t => Q1 i t Hi) 5 _)) in Eq.
    rewrite (proj1 (quartic_derivs _ _ _ _ _ (fun t => snd (xi i t)) (fun t => Q2 i t Hi) 5 _)) in Eq.
    cbn [quarticR] in Eq. rewrite !Rmult_0_r in Eq.
    pose proof (f_equal fst Eq) as A. pose proof (f_equal snd Eq) as B.
    unfold Cminus in A, B. rewrite fst_Cplus in A. rewrite snd_Cplus in B.
    change (fst (Copp v)) with (- fst v) in A. change (snd (Copp v)) with (- snd v) in B. cbn [fst] in A. cbn [snd] in B.
    apply injective_projections; lra.
Qed.

(** ** Factorisation of the extension through a table of derivatives *)

Definition tab (types : list (nat * nat)) (v : nat -> nat -> C) : xi_dict :=
  map (fun oi => (oi, v (fst oi) (snd oi))) types.

Lemma tab_get : forall types v o i, In (o, i) types -> xi_get (tab types v) o i = Ok (v o i).
Proof.
  induction types as [|[o' i'] types IH]; intros v o i H; [destruct H|].
  cbn [tab map xi_get fst snd].
  destruct (Nat.eqb o' o && Nat.eqb i' i) eqn:E.
  - apply andb_prop in E. destruct E as [E1 E2]. apply Nat.eqb_eq in E1, E2. subst. reflexivity.
  - destruct H as [H|H]; [|apply IH; exact H].
    injection H as -> ->. rewrite !Nat.eqb_refl in E. discriminate.
Qed.

Lemma calc_tab : forall c s types arg sid v,
  (forall o i, In (o, i) types -> xi_loop c s o i arg sid (src_JJs c s) (RtoC 0) = Ok (v o i)) ->
  calc_xi_derivs c s types arg sid = Ok (tab types v).
Proof.
  intros c s types arg sid v. induction types as [|[o i] types IH]; intros H; [reflexivity|].
  cbn [calc_xi_derivs]. rewrite (H o i (or_introl eq_refl)). cbn [bind].
  rewrite IH by (intros o' i' H'; apply H; right; exact H'). reflexivity.
Qed.

Definition linear (Phi : (nat -> nat -> C) -> C) : Prop :=
  forall v v' x, Phi (fun o i => Cplus (v o i) (Cmult x (v' o i))) = Cplus (Phi v) (Cmult x (Phi v')).

(** *** Linearity of the formulas *)

Lemma taylor_loop_lin : forall ds ds' x l n, length ds = length ds' ->
  taylor_loop (map (fun p => Cplus (fst p) (Cmult x (snd p))) (combine ds ds')) l n =
  Cplus (taylor_loop ds l n) (Cmult x (taylor_loop ds' l n)).
Proof.
  induction ds as [|d ds IH]; intros [|d' ds'] x l n H; try discriminate.
  - cbn [combine map taylor_loop]. ring.
  - cbn [combine map taylor_loop fst snd]. rewrite IH by (injection H; auto). unfold Cdiv. ring.
Qed.

Definition ed_lin (e e' : ext_data) (x : C) : ext_data :=
  let f a b := Cplus a (Cmult x b) in
  mk_ed (f (ed_xi0 e) (ed_xi0 e')) (f (ed_xi1 e) (ed_xi1 e')) (f (ed_d_xi0 e) (ed_d_xi0 e'))
    (f (ed_d_xi1 e) (ed_d_xi1 e')) (f (ed_d2_xi0 e) (ed_d2_xi0 e')) (f (ed_d2_xi1 e) (ed_d2_xi1 e'))
    (f (ed_d4_xi0 e) (ed_d4_xi0 e')).

Lemma extend_arbitrary_lin : forall k n c c1 c2 e e' x,
  extend_arbitrary k n c c1 c2 (ed_lin e e' x) =
  Cplus (extend_arbitrary k n c c1 c2 e) (Cmult x (extend_arbitrary k n c c1 c2 e')).
Proof.
  intros k n c c1 c2 e e' x. unfold extend_arbitrary. rewrite <- taylor_loop_lin by reflexivity.
  f_equal. unfold arbitrary_derivs, ed_lin.
  cbn [combine map fst snd ed_xi0 ed_xi1 ed_d_xi0 ed_d_xi1 ed_d2_xi0 ed_d2_xi1 ed_d4_xi0].
  repeat (apply (f_equal2 (@cons C)); [ring|]). reflexivity.
Qed.

(** Value of the radius extension on a table. *)
Definition phi_r (c : ext_ctx) (n : R) (v : nat -> nat -> C) : C :=
  extend_arbitrary (ec_k c) n 0 0 0
    (mk_ed (v 0 0) (v 0 1) (v 1 0) (v 1 1) (v 2 0) (v 2 1) (v 4 0))%nat.

Definition phi_0 (c : ext_ctx) (n th : R) (v : nat -> nat -> C) : C :=
  let r := ec_r c in
  extend_polar (ec_k c) n (b_curv r th) (b_d_curv r th) (b_d2_curv r th)
    (b_d_th r th) (b_d2_th r th) (b_d3_th r th) (b_d4_th r th)
    (mk_pd (v 0 0) (v 0 1) (v 1 0) (v 1 1) (v 2 0) (v 2 1) (v 3 0) (v 4 0))%nat.

Lemma phi_r_linear : forall c n, linear (phi_r c n).
Proof. intros c n v v' x. unfold phi_r. rewrite <- extend_arbitrary_lin. reflexivity. Qed.

Lemma phi_0_linear : forall c n th, linear (phi_0 c n th).
Proof.
  intros c n th v v' x. unfold phi_0, extend_polar. rewrite <- extend_arbitrary_lin. f_equal.
  unfold ed_lin, convert_d, convert_d2, convert_d4.
  cbn [ed_xi0 ed_xi1 ed_d_xi0 ed_d_xi1 ed_d2_xi0 ed_d2_xi1 ed_d4_xi0
       pd_xi0 pd_xi1 pd_d_xi0 pd_d_xi1 pd_d2_xi0 pd_d2_xi1 pd_d3_xi0 pd_d4_xi0].
  f_equal; ring.
Qed.

Lemma extend_radius_eq : forall c n d v, (forall o i, In (o, i) types_12 -> xi_get d o i = Ok (v o i)) ->
  extend_radius c n d = Ok (phi_r c n v).
Proof.
  intros c n d v H. unfold extend_radius.
  rewrite !H by (unfold types_12; cbn [In]; auto 20). reflexivity.
Qed.

Lemma extend_at_eq : forall c n th d v, (forall o i, In (o, i) types_0 -> xi_get d o i = Ok (v o i)) ->
  extend_at c n th d = Ok (phi_0 c n th v).
Proof.
  intros c n th d v H. unfold extend_at.
  rewrite !H by (unfold types_0; cbn [In]; auto 20). reflexivity.
Qed.

Definition shifted (v : nat -> nat -> C) (delta : R) : nat -> nat -> C :=
  fun m i => shift_sum (fun l => v l i) delta m (seq m (5 - m)).

Lemma shift_sum_lin : forall v v' x delta m ls,
  shift_sum (fun l => Cplus (v l) (Cmult x (v' l))) delta m ls =
  Cplus (shift_sum v delta m ls) (Cmult x (shift_sum v' delta m ls)).
Proof. intros v v' x delta m. induction ls as [|l ls IH]; cbn [shift_sum]; [|rewrite IH]; ring. Qed.

Lemma shifted_linear : forall Phi delta, linear Phi -> linear (fun v => Phi (shifted v delta)).
Proof.
  intros Phi delta HP v v' x. rewrite <- HP. f_equal.
  apply FunctionalExtensionality.functional_extensionality. intros m.
  apply FunctionalExtensionality.functional_extensionality. intros i.
  unfold shifted. apply shift_sum_lin.
Qed.

(** *** The factorisation *)

Definition taylor_K (c : ext_ctx) (p : node) (tsid : nat) (delta n : R) (d0 : xi_dict) : result (R * C) :=
  d <- taylor_shift d0 delta;;
  match tsid with
  | 0%nat =>
      v <- do_extend_0 c p d;;
      nth <- ctx_cache c p;;
      Ok (Rabs delta * ec_R c + Rabs (fst nth), v)
  | _ =>
      v <- extend_radius c n d;;
      Ok (Rabs delta + Rabs n, v)
  end.

Definition factors (c : ext_ctx) (sid : nat) (e : EType) (p : node) (arg : R)
    (types : list (nat * nat)) (K : xi_dict -> result (R * C)) : Prop :=
  forall B c0 c1 s, do_extend (with_basis c B c0 c1) s sid e p =
    (d <- calc_xi_derivs (with_basis c B c0 c1) s types arg sid;; K d).

Definition linear_K (types : list (nat * nat)) (K : xi_dict -> result (R * C)) : Prop :=
  exists elen Phi, linear Phi /\ forall v, K (tab types v) = Ok (elen, Phi v).

Lemma types_small : forall types, types = types_0 \/ types = types_12 \/ types = taylor_types ->
  forall o i, In (o, i) types -> (o <= 4)%nat /\ (i < 2)%nat.
Proof.
  intros types [-> | [-> | ->]] o i H.
  - unfold types_0 in H. cbn [In] in H. repeat (destruct H as [H|H]; [injection H as <- <-; lia|]). destruct H.
  - unfold types_12 in H. cbn [In] in H. repeat (destruct H as [H|H]; [injection H as <- <-; lia|]). destruct H.
  - unfold taylor_types in H. apply in_prod_iff in H. destruct H as [H1 H2]. apply in_seq in H1. unfold taylor_n_terms in H1.
    cbn [In] in H2. lia.
Qed.

Lemma taylor_types_all : forall o i, (o < 5)%nat -> (i < 2)%nat -> In (o, i) taylor_types.
Proof.
  intros o i Ho Hi. unfold taylor_types. apply in_prod_iff. split; [apply in_seq; unfold taylor_n_terms; lia|].
  cbn [In]. lia.
Qed.

Lemma taylor_K_linear : forall c p tsid delta n,
  (tsid = 0%nat -> exists bc, ctx_cache c p = Ok bc) -> linear_K taylor_types (taylor_K c p tsid delta n).
Proof.
  intros c p tsid delta n Hc. unfold linear_K, taylor_K.
  assert (Hsh : forall v, exists d, taylor_shift (tab taylor_types v) delta = Ok d /\
     forall m i, (m < 5)%nat -> (i < 2)%nat -> xi_get d m i = Ok (shifted v delta m i)).
  { intros v. apply taylor_shift_eq. intros l i Hl Hi. apply tab_get. apply taylor_types_all; assumption. }
  destruct tsid as [|tsid].
  - destruct (Hc eq_refl) as [[n' th] E].
    exists (Rabs delta * ec_R c + Rabs n')%R, (fun v => phi_0 c n' th (shifted v delta)). split.
    + apply shifted_linear. apply phi_0_linear.
    + intros v. destruct (Hsh v) as (d & Ed & Hd). rewrite Ed. cbn [bind]. unfold do_extend_0. rewrite E. cbn [bind fst snd].
      rewrite (extend_at_eq c n' th d (shifted v delta)); [reflexivity|].
      intros o i Hi. apply (types_small types_0) in Hi; [|auto]. apply Hd; lia.
  - exists (Rabs delta + Rabs n)%R, (fun v => phi_r c n (shifted v delta)). split.
    + apply shifted_linear. apply phi_r_linear.
    + intros v. destruct (Hsh v) as (d & Ed & Hd). rewrite Ed. cbn [bind].
      rewrite (extend_radius_eq c n d (shifted v delta)); [reflexivity|].
      intros o i Hi. apply (types_small types_12) in Hi; [|auto]. apply Hd; lia.
Qed.

Lemma taylor_factors : forall c s p arg tsid delta n,
  do_extend_taylor c s p arg tsid delta n =
  (d0 <- calc_xi_derivs c s taylor_types arg tsid;; taylor_K c p tsid delta n d0).
Proof. reflexivity. Qed.

Lemma node_etype_12 : forall c sid p x y, (1 <= sid < 3)%nat -> ctx_coord c p = (x, y) ->
  node_etype c sid p = Ok (etype_of (ec_R c) (ec_a c) None sid x y).
Proof. intros c [|sid] p x y Hs E; [lia|]. unfold node_etype. rewrite E. reflexivity. Qed.

Lemma node_etype_0 : forall c p bc x y, In p (ec_gamma c 0) -> ec_bcoord c p = Some bc -> ctx_coord c p = (x, y) ->
  ctx_cache c p = Ok bc /\ node_etype c 0 p = Ok (etype_of (ec_R c) (ec_a c) (Some bc) 0 x y).
Proof.
  intros c p bc x y Hp Hb E.
  assert (Ec : ctx_cache c p = Ok bc).
  { unfold ctx_cache, cache_get. rewrite (proj2 (node_mem_in p (ec_gamma c 0)) Hp), Hb. reflexivity. }
  split; [exact Ec|]. unfold node_etype. rewrite E, (proj2 (node_mem_in p (ec_gamma c 0)) Hp), Ec. reflexivity.
Qed.

(** Node coordinates with respect to segments 1 and 2. *)
Lemma coords_12 : forall c sid e p x y, 0 < ec_R c -> 0 < ec_a c < PI -> (1 <= sid < 3)%nat ->
  ctx_coord c p = (x, y) -> node_etype c sid p = Ok e ->
  exists arg delta n, seg_range (ec_R c) (ec_a c) sid arg /\ (e = EStandard -> delta = 0) /\
    (forall nv, is_normal (ec_r c) (ec_a c) sid (arg + delta) nv ->
       x = fst (seg_point (ec_r c) (ec_a c) sid (arg + delta)) + n * fst nv /\
       y = snd (seg_point (ec_r c) (ec_a c) sid (arg + delta)) + n * snd nv) /\
    forall B c0 c1 s,
      do_extend (with_basis c B c0 c1) s sid e p =
      match e with
      | EStandard => d <- calc_xi_derivs (with_basis c B c0 c1) s types_12 arg sid;;
                     v <- extend_radius c n d;; Ok (Rabs n, v)
      | _ => do_extend_taylor (with_basis c B c0 c1) s p arg sid delta n
      end.
Proof.
  intros c sid e p x y HR Ha Hsid E He.
  rewrite (node_etype_12 c sid p x y Hsid E) in He. injection He as <-.
  assert (Ek : forall B c0 c1, ctx_coord (with_basis c B c0 c1) p = (x, y)) by (intros; exact E).
  destruct sid as [|[|[|sid]]]; [lia| | |lia].
  - (* segment 1 *)
    cbn [etype_of]. destruct (Rltb_spec x 0) as [H|H]; [|destruct (Rltb_spec (ec_R c) x) as [H'|H']].
    + exists 0, x, y. split; [cbn; lra|]. split; [discriminate|]. split.
      * intros nv ->. cbn [seg_point fst snd]. split; ring.
      * intros B c0 c1 s. cbn [do_extend]. unfold do_extend_1_left. rewrite Ek. reflexivity.
    + exists (ec_R c), (x - ec_R c), y. split; [cbn; lra|]. split; [discriminate|]. split.
      * intros nv ->. cbn [seg_point fst snd]. split; ring.
      * intros B c0 c1 s. cbn [do_extend]. unfold do_extend_1_right. rewrite Ek. reflexivity.
    + exists x, 0, y. split; [cbn; lra|]. split; [reflexivity|]. split.
      * intros nv ->. cbn [seg_point fst snd]. split; ring.
      * intros B c0 c1 s. cbn [do_extend]. unfold do_extend_1_standard. rewrite Ek. reflexivity.
  - (* segment 2 *)
    pose proof (sin2_cos2 (ec_a c)) as SC. unfold Rsqr in SC.
    assert (Hs : 0 < sin (ec_a c)) by (apply sin_gt_0; lra).
    set (t := x * cos (ec_a c) + y * sin (ec_a c)) in *.
    pose proof (get_radius_point_eq (ec_a c) x y Ha) as G. fold t in G.
    pose proof (signed_dist_eq (ec_a c) x y Ha) as Sd.
    assert (Pt : forall nv, is_normal (ec_r c) (ec_a c) 2 t nv ->
       x = fst (seg_point (ec_r c) (ec_a c) 2 t) + signed_dist_to_radius (ec_a c) x y * fst nv /\
       y = snd (seg_point (ec_r c) (ec_a c) 2 t) + signed_dist_to_radius (ec_a c) x y * snd nv).
    { intros nv ->. rewrite Sd. cbn [seg_point fst snd]. unfold t.
      split; [transitivity (x * (sin (ec_a c) * sin (ec_a c) + cos (ec_a c) * cos (ec_a c)))
             |transitivity (y * (sin (ec_a c) * sin (ec_a c) + cos (ec_a c) * cos (ec_a c)))];
        try (rewrite SC; ring); ring. }
    cbn [etype_of]. rewrite G.
    destruct (Rltb_spec (t * sin (ec_a c)) 0) as [H|H]; [|destruct (Rltb_spec (ec_R c * sin (ec_a c)) (t * sin (ec_a c))) as [H'|H']].
    + assert (Ht : t < 0) by nra.
      exists 0, t, (signed_dist_to_radius (ec_a c) x y). split; [cbn; lra|]. split; [discriminate|]. split.
      * rewrite Rplus_0_l. exact Pt.
      * intros B c0 c1 s. cbn [do_extend]. unfold do_extend_2_left. rewrite Ek.
        change (ec_a (with_basis c B c0 c1)) with (ec_a c). rewrite G.
        f_equal. replace ((t * cos (ec_a c)) ^ 2 + (t * sin (ec_a c)) ^ 2) with ((- t) ^ 2 * (sin (ec_a c) * sin (ec_a c) + cos (ec_a c) * cos (ec_a c))) by ring.
        rewrite SC, Rmult_1_r, sqrt_pow2 by lra. ring.
    + assert (Ht : ec_R c < t) by nra.
      exists (ec_R c), (t - ec_R c), (signed_dist_to_radius (ec_a c) x y). split; [cbn; lra|]. split; [discriminate|]. split.
      * replace (ec_R c + (t - ec_R c)) with t by ring. exact Pt.
      * intros B c0 c1 s. cbn [do_extend]. unfold do_extend_2_right. rewrite Ek.
        change (ec_a (with_basis c B c0 c1)) with (ec_a c). change (ec_R (with_basis c B c0 c1)) with (ec_R c). rewrite G.
        f_equal.
        replace ((t * cos (ec_a c) - ec_R c * cos (ec_a c)) ^ 2 + (t * sin (ec_a c) - ec_R c * sin (ec_a c)) ^ 2)
          with ((t - ec_R c) ^ 2 * (sin (ec_a c) * sin (ec_a c) + cos (ec_a c) * cos (ec_a c))) by ring.
        rewrite SC, Rmult_1_r, sqrt_pow2 by lra. reflexivity.
    + assert (Ht : 0 <= t <= ec_R c) by (split; nra).
      exists t, 0, (signed_dist_to_radius (ec_a c) x y). split; [cbn; lra|]. split; [reflexivity|]. split.
      * rewrite Rplus_0_r. exact Pt.
      * intros B c0 c1 s. cbn [do_extend]. unfold do_extend_2_standard. rewrite Ek.
        change (ec_a (with_basis c B c0 c1)) with (ec_a c). rewrite G.
        replace (fst (cart_to_polar (t * cos (ec_a c)) (t * sin (ec_a c)))) with t; [reflexivity|].
        unfold cart_to_polar, hypot. cbn [fst].
        replace ((t * cos (ec_a c)) ^ 2 + (t * sin (ec_a c)) ^ 2) with (t ^ 2 * (sin (ec_a c) * sin (ec_a c) + cos (ec_a c) * cos (ec_a c))) by ring.
        rewrite SC, Rmult_1_r, sqrt_pow2 by lra. reflexivity.
Qed.

(** Segment 0: the cached coordinates. *)
Lemma coords_0 : forall c e p n th, 0 < ec_a c < PI ->
  In p (ec_gamma c 0) -> ec_bcoord c p = Some (n, th) -> node_etype c 0 p = Ok e ->
  exists arg delta, seg_range (ec_R c) (ec_a c) 0 arg /\ arg + delta = th /\ (e = EStandard -> delta = 0) /\
    forall B c0 c1 s,
      do_extend (with_basis c B c0 c1) s 0 e p =
      match e with
      | EStandard => d <- calc_xi_derivs (with_basis c B c0 c1) s types_0 arg 0;;
                     v <- extend_at c n th d;; Ok (Rabs n, v)
      | _ => d0 <- calc_xi_derivs (with_basis c B c0 c1) s taylor_types arg 0;;
             d <- taylor_shift d0 delta;;
             v <- extend_at c n th d;; Ok (Rabs delta * ec_R c + Rabs n, v)
      end.
Proof.
  intros c e p n th Ha Hp Hb He. destruct (ctx_coord c p) as [x y] eqn:E.
  destruct (node_etype_0 c p (n, th) x y Hp Hb E) as [Ec Et]. rewrite Et in He. injection He as <-.
  pose proof PI_RGT_0.
  assert (Ec' : forall B c0 c1, ctx_cache (with_basis c B c0 c1) p = Ok (n, th)) by (intros; exact Ec).
  cbn [etype_of]. destruct (Rltb_spec (2 * PI) th) as [H0|H0]; [|destruct (Rltb_spec th (ec_a c)) as [H1|H1]].
  - exists (2 * PI), (th - 2 * PI). split; [cbn; lra|]. split; [ring|]. split; [discriminate|].
    intros B c0 c1 s. cbn [do_extend]. unfold do_extend_0_right, do_extend_taylor, do_extend_0. rewrite Ec'. cbn [bind fst snd].
    destruct (calc_xi_derivs _ _ _ _ _); [|reflexivity]. cbn [bind]. destruct (taylor_shift _ _); [|reflexivity]. cbn [bind].
    destruct (extend_at _ _ _ _); reflexivity.
  - exists (ec_a c), (th - ec_a c). split; [cbn; lra|]. split; [ring|]. split; [discriminate|].
    intros B c0 c1 s. cbn [do_extend]. unfold do_extend_0_left, do_extend_taylor, do_extend_0. rewrite Ec'. cbn [bind fst snd].
    change (ec_a (with_basis c B c0 c1)) with (ec_a c).
    destruct (calc_xi_derivs _ _ _ _ _); [|reflexivity]. cbn [bind]. destruct (taylor_shift _ _); [|reflexivity]. cbn [bind].
    destruct (extend_at _ _ _ _); reflexivity.
  - exists th, 0. split; [cbn; lra|]. split; [ring|]. split; [reflexivity|].
    intros B c0 c1 s. cbn [do_extend]. unfold do_extend_0_standard, do_extend_0. rewrite Ec'. cbn [bind fst snd].
    reflexivity.
Qed.

(** The cached coordinates reconstruct the node. *)
Lemma coords_0_point : forall c p n th brentq x y nv, brentq_contract brentq -> 0 < ec_a c < PI ->
  (forall t, ex_derive (ec_r c) t) -> (forall t, ex_derive (Derive (ec_r c)) t) -> (forall t, 0 < ec_r c t) ->
  ec_bcoord c p = node_bcoord brentq (ec_r c) (ec_a c) (ec_AD c) (ec_N c) p ->
  ec_bcoord c p = Some (n, th) -> ctx_coord c p = (x, y) -> is_normal (ec_r c) (ec_a c) 0 th nv ->
  x = fst (seg_point (ec_r c) (ec_a c) 0 th) + n * fst nv /\
  y = snd (seg_point (ec_r c) (ec_a c) 0 th) + n * snd nv.
Proof.
  intros c p n th brentq x y [mx my] Hb Ha Er Er2 Hr Hn Hs E (U & O & P).
  rewrite Hs in Hn. symmetry in Hn. unfold node_bcoord, ps_get_polar in Hn. unfold ctx_coord in E. rewrite E in Hn.
  destruct (ps_polar_xy (ec_a c) x y) as [r1 th1] eqn:Ep.
  pose proof PI_RGT_0.
  destruct (ps_polar_spec (ec_a c) x y r1 th1 ltac:(lra) Ep) as (Hr1 & Hth & Hx & Hy).
  assert (Hv : forall t, 0 < ec_r c t ^ 2 + Derive (ec_r c) t ^ 2).
  { intros t. pose proof (Hr t). pose proof (pow2_ge_0 (Derive (ec_r c) t)). nra. }
  destruct (boundary_coord_contract brentq (ec_r c) (ec_a c) r1 th1 n th Hb Er Er2 Hv ltac:(lra) ltac:(lra) Hn) as (X & Y & _).
  rewrite Hx in X. rewrite Hy in Y.
  destruct (eval_tangent (ec_r c) th) as [tx ty] eqn:Et. destruct (eval_normal (ec_r c) th) as [nx ny] eqn:En.
  destruct (frame_spec (ec_r c) th tx ty nx ny Er (Hv th) Et En) as ((U1 & U2 & U3 & U4) & (v & Hvp & D1 & D2) & Hout).
  specialize (Hout (Hr th)). cbn [fst snd] in *.
  pose proof (is_derive_unique _ _ _ D1) as E1. pose proof (is_derive_unique _ _ _ D2) as E2.
  change (Derive (fun t : R => ec_r c t * cos t) th = v * tx) in E1.
  change (Derive (fun t : R => ec_r c t * sin t) th = v * ty) in E2.
  rewrite E1, E2 in O.
  assert (O' : mx * tx + my * ty = 0) by nra.
  (* (mx,my) = s (nx,ny) with s = mx nx + my ny, s^2 = 1, s > 0 *)
  set (s := mx * nx + my * ny).
  assert (Hnx : nx = ty /\ ny = - tx).
  { unfold eval_normal in En. rewrite Et in En. injection En as <- <-. split; reflexivity. }
  destruct Hnx as [N1 N2].
  assert (Mx : mx = s * nx).
  { unfold s. rewrite N1, N2. transitivity (mx * (tx ^ 2 + ty ^ 2) - tx * (mx * tx + my * ty)); [rewrite U1, O'; ring|ring]. }
  assert (My : my = s * ny).
  { unfold s. rewrite N1, N2. transitivity (my * (tx ^ 2 + ty ^ 2) - ty * (mx * tx + my * ty)); [rewrite U1, O'; ring|ring]. }
  assert (S2 : s ^ 2 = 1).
  { rewrite Mx, My in U. replace ((s * nx) ^ 2 + (s * ny) ^ 2) with (s ^ 2 * (nx ^ 2 + ny ^ 2)) in U by ring. rewrite U2 in U. lra. }
  assert (Sp : 0 < s).
  { rewrite Mx, My in P. replace (s * nx * cos th + s * ny * sin th) with (s * (nx * cos th + ny * sin th)) in P by ring. nra. }
  assert (S1 : s = 1) by nra. rewrite S1 in Mx, My.
  cbn [seg_point fst snd]. rewrite Mx, My. split; [rewrite X|rewrite Y]; ring.
Qed.

Lemma factor_exists : forall c sid e p, 0 < ec_R c -> 0 < ec_a c < PI -> (sid < 3)%nat ->
  node_etype c sid p = Ok e ->
  (sid = 0%nat -> In p (ec_gamma c 0) /\ exists bc, ec_bcoord c p = Some bc) ->
  exists arg types K, seg_range (ec_R c) (ec_a c) sid arg /\
    (types = types_0 \/ types = types_12 \/ types = taylor_types) /\
    factors c sid e p arg types K /\ linear_K types K.
Proof.
  intros c sid e p HR Ha Hsid He H0.
  destruct (Nat.eq_dec sid 0) as [->|Hne].
  - destruct (H0 eq_refl) as (Hp & [n th] & Hb).
    destruct (coords_0 c e p n th Ha Hp Hb He) as (arg & delta & Hr & _ & _ & Hd).
    exists arg. destruct e.
    + exists types_0, (fun d => v <- extend_at c n th d;; Ok (Rabs n, v)). split; [exact Hr|]. split; [auto|]. split.
      * intros B c0 c1 s. rewrite Hd. reflexivity.
      * exists (Rabs n), (phi_0 c n th). split; [apply phi_0_linear|]. intros v.
        rewrite (extend_at_eq c n th _ v) by (intros o i Hi; apply tab_get; exact Hi). reflexivity.
    + exists taylor_types, (taylor_K c p 0 delta 0). split; [exact Hr|]. split; [auto|].
      destruct (ctx_coord c p) as [x y] eqn:E. destruct (node_etype_0 c p (n, th) x y Hp Hb E) as [Ec _].
      split.
      * intros B c0 c1 s. rewrite Hd. unfold taylor_K, do_extend_0. rewrite Ec. cbn [bind fst snd].
        destruct (calc_xi_derivs _ _ _ _ _); [|reflexivity]. cbn [bind]. destruct (taylor_shift _ _); [|reflexivity]. cbn [bind].
        change (extend_at (with_basis c B c0 c1)) with (extend_at c). destruct (extend_at _ _ _ _); reflexivity.
      * apply taylor_K_linear. intros _. eexists; exact Ec.
    + exists taylor_types, (taylor_K c p 0 delta 0). split; [exact Hr|]. split; [auto|].
      destruct (ctx_coord c p) as [x y] eqn:E. destruct (node_etype_0 c p (n, th) x y Hp Hb E) as [Ec _].
      split.
      * intros B c0 c1 s. rewrite Hd. unfold taylor_K, do_extend_0. rewrite Ec. cbn [bind fst snd].
        destruct (calc_xi_derivs _ _ _ _ _); [|reflexivity]. cbn [bind]. destruct (taylor_shift _ _); [|reflexivity]. cbn [bind].
        change (extend_at (with_basis c B c0 c1)) with (extend_at c). destruct (extend_at _ _ _ _); reflexivity.
      * apply taylor_K_linear. intros _. eexists; exact Ec.
  - destruct (ctx_coord c p) as [x y] eqn:E.
    destruct (coords_12 c sid e p x y HR Ha ltac:(lia) E He) as (arg & delta & n & Hr & _ & _ & Hd).
    exists arg. destruct e.
    + exists types_12, (fun d => v <- extend_radius c n d;; Ok (Rabs n, v)). split; [exact Hr|]. split; [auto|]. split.
      * intros B c0 c1 s. rewrite Hd. reflexivity.
      * exists (Rabs n), (phi_r c n). split; [apply phi_r_linear|]. intros v.
        rewrite (extend_radius_eq c n _ v) by (intros o i Hi; apply tab_get; exact Hi). reflexivity.
    + exists taylor_types, (taylor_K c p sid delta n). split; [exact Hr|]. split; [auto|]. split.
      * intros B c0 c1 s. rewrite Hd. reflexivity.
      * apply taylor_K_linear. intros ->. lia.
    + exists taylor_types, (taylor_K c p sid delta n). split; [exact Hr|]. split; [auto|]. split.
      * intros B c0 c1 s. rewrite Hd. reflexivity.
      * apply taylor_K_linear. intros ->. lia.
Qed.
