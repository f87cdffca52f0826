(** The pivots of the polar systems of runz.py on its first grids (C86). *)
From Coq Require Import ZArith List Reals Lia Lra Psatz.
From Coquelicot Require Import Coquelicot.
From Verif Require Import Model_Py Model_PolarFD Model_Problems Model_Run Model_Program Model_ZProgram Spec_PolarFD Spec_OdeAcc Spec_PolarAcc Proof_PolarAcc2 Proof_PolarUniq.
Import ListNotations.
Open Scope R_scope.

Lemma check_grids : forallb (fun e => forallb (fun D => pcheck e D 27 && pcheck e D 43)%bool [88; 94; 108; 89; 91]%Z) [4%nat; 5%nat] = true.
Proof. vm_compute. reflexivity. Qed.

Definition radius40 (b : bname) : Z := match b with Arc => 88 | OuterSine => 94 | InnerSine => 108 | Sine7 => 89 | Cubic => 91 end.

Lemma grids_trivial : forall jv gamma s b N, N = 16%Z \/ N = 32%Z -> polar_trivial N (/ 10) (outer_radius b) (PI / 4) (zp_k (sing_problem jv gamma s)).
Proof.
  intros jv gamma s b N HN. pose proof check_grids as C. rewrite forallb_forall in C.
  assert (G : forall e, In e [4%nat; 5%nat] -> polar_trivial (2 ^ Z.of_nat e) (/ 10) (outer_radius b) (PI / 4) (zp_k (sing_problem jv gamma s))).
  { intros e He. specialize (C e He). rewrite forallb_forall in C. specialize (C (radius40 b) ltac:(destruct b; cbn [radius40 In]; auto 6)).
    apply andb_prop in C. destruct C as [C27 C43].
    assert (Q : forall K, pcheck e (radius40 b) K = true -> polar_trivial (2 ^ Z.of_nat e) (/ 10) (outer_radius b) (PI / 4) (IZR K / 4)).
    { intros K HK. apply (check_trivial e (radius40 b) K); [destruct b; discriminate| |exact HK]. unfold outer_radius, radius40. destruct b; lra. }
    destruct s; cbn [sing_problem zp_k].
    - replace smooth_k with (27 / 4) by (unfold smooth_k; lra). apply (Q 27%Z C27).
    - replace smooth_k with (27 / 4) by (unfold smooth_k; lra). apply (Q 27%Z C27).
    - replace quadratic_k with (43 / 4) by (unfold quadratic_k; lra). apply (Q 43%Z C43). }
  destruct HN as [-> | ->]; [apply (G 4%nat)|apply (G 5%nat)]; cbn [In]; auto.
Qed.
