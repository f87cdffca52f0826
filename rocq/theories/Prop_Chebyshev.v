(** Properties C13-C16, C18, C58: Chebyshev basis. *)
From Coq Require Import ZArith List Bool Reals Lia Lra Sorted.
From Coquelicot Require Import Coquelicot.
From Verif Require Import Model_Py Model_Fourier Model_Chebyshev Spec_Chebyshev Proof_Chebyshev Proof_Basis.
Import ListNotations.
Open Scope R_scope.

(** C13. Number of descriptors; a position carries (sid, J) exactly when it is
    the J-th of that segment's block; blocks are contiguous in segment order. *)
Theorem C13_length : forall nc nr, length (fst (setup_basis nc nr)) = (nc + 2 * nr)%nat /\
  length (snd (setup_basis nc nr)) = 3%nat.
Proof. intros nc nr. exact (conj (B_desc_length nc nr) (segment_desc_length nc nr)). Qed.
Print Assumptions C13_length.

Theorem C13_bijection : forall nc nr JJ sid J,
  nth_error (fst (setup_basis nc nr)) JJ = Some (sid, J) <->
  (sid < 3)%nat /\ (J < (match sid with O => nc | _ => nr end))%nat /\
  JJ = (match sid with O => J | 1 => nc + J | _ => nc + nr + J end)%nat.
Proof. exact B_desc_nth. Qed.
Print Assumptions C13_bijection.

Theorem C13_JJ_list : forall nc nr sid n jjs,
  nth_error (snd (setup_basis nc nr)) sid = Some (n, jjs) ->
  n = (match sid with O => nc | _ => nr end) /\ length jjs = n /\
  (forall J JJ, nth_error jjs J = Some JJ <-> nth_error (fst (setup_basis nc nr)) JJ = Some (sid, J)).
Proof. exact JJ_list_spec. Qed.
Print Assumptions C13_JJ_list.

Example C13_nonvacuous : nth_error (fst (setup_basis 3 2)) 4 = Some (1%nat, 1%nat) /\
  nth_error (snd (setup_basis 3 2)) 2 = Some (2%nat, [5; 6]%nat).
Proof. split; reflexivity. Qed.

(** C14. *)
Theorem C14_alignment : forall chebfit nodes R0 a nc nr eval_bc c0,
  (forall ts ys deg, length (chebfit ts ys deg) = S deg) ->
  calc_c0 chebfit nodes R0 a (snd (setup_basis nc nr)) eval_bc = Ok c0 ->
  length c0 = length (fst (setup_basis nc nr)) /\
  forall JJ sid J, nth_error (fst (setup_basis nc nr)) JJ = Some (sid, J) ->
    nth_error c0 JJ =
    nth_error (chebfit nodes (map (fun t => eval_bc (eval_g R0 a sid t) sid) nodes)
                 ((match sid with O => nc | _ => nr end) - 1)%nat) J.
Proof. exact calc_c0_nth. Qed.
Print Assumptions C14_alignment.

Theorem C14_expansion : forall chebfit nodes R0 a nc nr eval_bc c0 sid arg,
  (forall ts ys deg, length (chebfit ts ys deg) = S deg) ->
  calc_c0 chebfit nodes R0 a (snd (setup_basis nc nr)) eval_bc = Ok c0 ->
  (sid < 3)%nat -> -1 <= eval_g_inv R0 a sid arg <= 1 ->
  csum (nc + 2 * nr) (fun JJ => Cmult (nth JJ c0 (RtoC 0))
     (RtoC (match eval_dn_B_arg R0 a (fst (setup_basis nc nr)) 0 JJ arg sid with
            | Ok v => v | Err _ => 0 end))) =
  cheb_expand (chebfit nodes (map (fun t => eval_bc (eval_g R0 a sid t) sid) nodes)
                 ((match sid with O => nc | _ => nr end) - 1)%nat) (eval_g_inv R0 a sid arg).
Proof. exact c0_expansion. Qed.
Print Assumptions C14_expansion.

(** C14. calc_c0 succeeds exactly when every segment has a basis function. *)
Theorem C14_total : forall chebfit nodes R0 a nc nr eval_bc,
  ((0 < nc)%nat -> (0 < nr)%nat ->
    exists c0, calc_c0 chebfit nodes R0 a (snd (setup_basis nc nr)) eval_bc = Ok c0) /\
  (nc = 0%nat \/ nr = 0%nat ->
    calc_c0 chebfit nodes R0 a (snd (setup_basis nc nr)) eval_bc = Err ValueError).
Proof.
  exact (fun f n R0 a nc nr e => conj (fun Hc Hr => ex_intro _ _ (calc_c0_eq f n R0 a nc nr e Hc Hr))
    (calc_c0_error f n R0 a nc nr e)).
Qed.
Print Assumptions C14_total.

Example C14_nonvacuous :
  let fit := fun (_ : list R) (_ : list C) deg => map (fun j => RtoC (INR j)) (seq 0 (S deg)) in
  (forall ts ys deg, length (fit ts ys deg) = S deg) /\
  calc_c0 fit (get_chebyshev_roots 4) 2 1 (snd (setup_basis 2 1)) (fun _ _ => RtoC 1) =
    Ok (map (fun j => RtoC (INR j)) [0; 1; 0; 0]%nat) /\
  -1 <= eval_g_inv 2 1 1 1 <= 1.
Proof.
  split; [intros; rewrite map_length, seq_length; reflexivity|]. split; [reflexivity|].
  unfold eval_g_inv, get_span_center, basis_eps.
  replace ((1 - 2 / 2) / - (2 / 2 + 1 / 1000)) with 0 by field. lra.
Qed.

(** C15. The n-th formula is the n-th derivative of the Chebyshev polynomial
    of degree J (defined by its recurrence), which exists. *)
Theorem C15_derivatives : forall n J t, (n <= 5)%nat -> -1 < t < 1 ->
  eval_dn_T_t n J t = Ok (Derive_n (chebT J) n t) /\ ex_derive_n (chebT J) n t.
Proof. exact eval_dn_T_t_spec. Qed.
Print Assumptions C15_derivatives.

Theorem C15_recurrence : forall J t, -1 <= t <= 1 ->
  eval_T 0 t = 1 /\ eval_T 1 t = t /\
  eval_T (S (S J)) t = 2 * t * eval_T (S J) t - eval_T J t /\ eval_T J t = chebT J t.
Proof.
  exact (fun J t H => conj (eval_T_0 t) (conj (eval_T_1 t H) (conj (eval_T_rec J t H) (eval_T_chebT J t H)))).
Qed.
Print Assumptions C15_recurrence.

Theorem C15_past_table : forall n J t, (5 < n)%nat -> eval_dn_T_t n J t = Err IndexError.
Proof. exact eval_dn_T_t_error. Qed.
Print Assumptions C15_past_table.

Example C15_nonvacuous : -1 < / 2 < 1 /\ (5 <= 5)%nat /\ chebT 3 (/ 2) = -1.
Proof. unfold chebT. cbn. repeat split; try lra; try lia; field. Qed.

(** C16. *)
Theorem C16_roots : forall J, (1 <= J)%nat ->
  length (get_chebyshev_roots J) = J /\
  StronglySorted Rlt (get_chebyshev_roots J) /\
  (forall t, In t (get_chebyshev_roots J) -> -1 < t < 1) /\
  (forall t, -1 <= t <= 1 -> (In t (get_chebyshev_roots J) <-> chebT J t = 0)).
Proof. exact roots_spec. Qed.
Print Assumptions C16_roots.

Example C16_nonvacuous : In 0 (get_chebyshev_roots 1) /\ chebT 1 0 = 0.
Proof.
  split; [|reflexivity]. apply roots_are_roots; [lia|lra|]. rewrite eval_T_chebT by lra. reflexivity.
Qed.

(** C18. [eval_dn_B_arg n] is the n-th derivative in the boundary parameter of
    the basis function x |-> T_J(g^-1(x)); it is zero on other segments. *)
Theorem C18_derivative : forall R0 a B n JJ arg sid J,
  nth_error B JJ = Some (sid, J) -> (n <= 5)%nat -> -1 < eval_g_inv R0 a sid arg < 1 ->
  eval_dn_B_arg R0 a B n JJ arg sid =
    Ok (Derive_n (fun x => chebT J (eval_g_inv R0 a sid x)) n arg).
Proof. exact eval_dn_B_spec. Qed.
Print Assumptions C18_derivative.

Theorem C18_step : forall R0 a B n JJ arg sid J,
  nth_error B JJ = Some (sid, J) -> (n < 5)%nat -> -1 < eval_g_inv R0 a sid arg < 1 ->
  exists f f', (forall x, eval_dn_B_arg R0 a B n JJ x sid = Ok (f x)) /\
    (forall x, eval_dn_B_arg R0 a B (S n) JJ x sid = Ok (f' x)) /\ is_derive f arg (f' arg).
Proof. exact eval_dn_B_step. Qed.
Print Assumptions C18_step.

Theorem C18_other_segment : forall R0 a B n JJ arg sid sid' J,
  nth_error B JJ = Some (sid', J) -> sid' <> sid -> eval_dn_B_arg R0 a B n JJ arg sid = Ok 0.
Proof. exact eval_dn_B_other. Qed.
Print Assumptions C18_other_segment.

Example C18_nonvacuous : nth_error (fst (setup_basis 3 2)) 4 = Some (1%nat, 1%nat) /\
  -1 < eval_g_inv 2 1 1 1 < 1.
Proof.
  split; [reflexivity|]. apply seg_range_g_inv; try lra; try lia.
  - pose proof PI2_3_2. lra.
  - unfold seg_range. lra.
Qed.

(** C58. *)
Theorem C58_fit_recovers : forall chebfit R0 a sid b func,
  0 < R0 -> 0 < a < 2 * PI -> (sid < 3)%nat ->
  (1 <= length b <= Z.to_nat 1024)%nat ->
  (let nodes := get_chebyshev_roots (Z.to_nat 1024) in
   let ys := map (fun t => func (eval_g R0 a sid t)) nodes in
   is_cheb_lsq nodes ys (length b - 1) (chebfit nodes ys (length b - 1)%nat)) ->
  (forall arg, -1 < eval_g_inv R0 a sid arg < 1 -> func arg = cheb_expand b (eval_g_inv R0 a sid arg)) ->
  get_chebyshev_coef chebfit (get_chebyshev_roots (Z.to_nat 1024)) R0 a sid (length b) func = Ok b.
Proof. exact (fun f => get_chebyshev_coef_recovers f (Z.to_nat 1024)). Qed.
Print Assumptions C58_fit_recovers.

(** C58. The same for any number of nodes at least the basis size. *)
Theorem C58_unique_minimiser : forall c n b f deg,
  is_cheb_lsq (get_chebyshev_roots n) (map f (get_chebyshev_roots n)) deg c ->
  length b = S deg -> (S deg <= n)%nat ->
  (forall t, In t (get_chebyshev_roots n) -> f t = cheb_expand b t) ->
  c = b.
Proof. exact fit_recovers. Qed.
Print Assumptions C58_unique_minimiser.

Example C58_nonvacuous : forall n b, (1 <= length b)%nat ->
  is_cheb_lsq (get_chebyshev_roots n) (map (cheb_expand b) (get_chebyshev_roots n)) (length b - 1) b.
Proof. exact exact_data_is_lsq. Qed.
