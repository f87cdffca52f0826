(** Property C94: what the plotting scripts show. *)
From Coq Require Import ZArith List Bool Reals Lia Lra String.
From Coquelicot Require Import Coquelicot.
From Verif Require Import Model_Py Model_Multivalue Model_Grid Model_Chebyshev Model_Domain Model_Problems Model_Run Model_Program Model_Debug Model_Plot
  Spec_Domain Spec_Grid Spec_Run Spec_Program Spec_Curve Spec_Plot
  Proof_Place Proof_RunEx Proof_Program Proof_Plot.
Import ListNotations.
Open Scope R_scope.

Local Notation table_size := Spec_Program.table_size.

(** C94. The figure gamma of scripts/plot_domain.py: the square, the boundary,
    and for each radius and the curve the nodes of the grid boundary within
    h sqrt 2 of it, each once; together these are all nodes of the grid
    boundary. The labels count the pieces from the upper radius. *)
Theorem C94_gamma : forall fuel lib b N, enumerating lib -> brentq_contract (lib_brentq lib) -> table_size N ->
  let r := boundary_r b (23 / 10) None (PI / 4) in
  let boundary p := touched (region_node r N) p /\ touched (outer_node r N) p in
  let near sid p := exists q, on_piece r (23 / 10) (PI / 4) sid q /\ dist2 q (square_pt N (fst p) (snd p)) <= 2 * PI / IZR N * sqrt 2 in
  exists outline l1 l2 l3,
    plot_domain (S fuel) lib PGamma b N = Ok [mk_drawn "" square_outline; mk_drawn "" outline;
      mk_drawn "$\gamma_1$" l1; mk_drawn "$\gamma_2$" l2; mk_drawn "$\gamma_3$" l3] /\
    outlines r outline /\
    shows N (fun p => boundary p /\ near 2%nat p) l1 /\ shows N (fun p => boundary p /\ near 1%nat p) l2 /\
    shows N (fun p => boundary p /\ near 0%nat p) l3 /\
    (forall p, boundary p -> near 0%nat p \/ near 1%nat p \/ near 2%nat p).
Proof. intros fuel lib b N Hl Hb HN. exact (figure_gamma b N HN fuel lib Hl Hb). Qed.
Print Assumptions C94_gamma.

Example C94_gamma_example : enumerating (ex_lib min_zero) /\ brentq_contract (lib_brentq (ex_lib min_zero)) /\ table_size 16 /\
  exists p, touched (region_node (boundary_r OuterSine (23 / 10) None (PI / 4)) 16) p /\
    touched (outer_node (boundary_r OuterSine (23 / 10) None (PI / 4)) 16) p.
Proof.
  destruct program_example as (H1 & _ & H2 & H3 & _). split; [exact H1|]. split; [exact H2|]. split; [exact H3|]. exact inner_outline_example.
Qed.

(** C94. The other figures of scripts/plot_domain.py: the arc the boundary is
    a perturbation of, the inside and the outside nodes, the nodes the
    right-hand side is needed at, and the nodes the scheme reaches from the
    inside and from the outside nodes. *)
Theorem C94_nodes : forall fuel lib b N, enumerating lib -> brentq_contract (lib_brentq lib) -> table_size N ->
  let r := boundary_r b (23 / 10) None (PI / 4) in
  exists outline arc mp mm kp np nm,
    plot_domain (S fuel) lib PPert b N = Ok [mk_drawn "" arc; mk_drawn "" outline] /\
    plot_domain (S fuel) lib PM b N = Ok [mk_drawn "" outline; mk_drawn "$\mathbb{M}^+$" mp; mk_drawn "$\mathbb{M}^-$" mm] /\
    plot_domain (S fuel) lib PK b N = Ok [mk_drawn "" outline; mk_drawn "$\mathbb{K}^+$" kp; mk_drawn "" []] /\
    plot_domain (S fuel) lib PInt b N =
      Ok [mk_drawn "" outline; mk_drawn "" square_outline; mk_drawn "$\mathbb{M}^+$" mp; mk_drawn "$\mathbb{N}^+$" np] /\
    plot_domain (S fuel) lib PExt b N =
      Ok [mk_drawn "" outline; mk_drawn "" square_outline; mk_drawn "$\mathbb{M}^-$" mm; mk_drawn "$\mathbb{N}^-$" nm] /\
    plot_domain (S fuel) lib PAux b N = Ok [mk_drawn "" square_outline; mk_drawn "" outline] /\
    outlines r outline /\
    (List.length arc = 512%nat /\ nth_error arc 0 = Some (23 / 10 * cos (PI / 4), 23 / 10 * sin (PI / 4)) /\
     nth_error arc 511 = Some (23 / 10, 0) /\
     forall x, In x arc -> exists th, PI / 4 <= th <= 2 * PI /\ x = (23 / 10 * cos th, 23 / 10 * sin th)) /\
    shows N (region_node r N) mp /\ shows N (outer_node r N) mm /\ shows N (crossed (region_node r N)) kp /\
    shows N (touched (region_node r N)) np /\ shows N (touched (outer_node r N)) nm.
Proof. intros fuel lib b N Hl Hb HN. exact (figure_nodes b N HN fuel lib Hl Hb). Qed.
Print Assumptions C94_nodes.

Example C94_nodes_example : enumerating (ex_lib min_zero) /\ brentq_contract (lib_brentq (ex_lib min_zero)) /\ table_size 1024.
Proof.
  destruct program_example as (H1 & _ & H2 & _). split; [exact H1|]. split; [exact H2|]. exists 10%Z. split; [lia|reflexivity].
Qed.

(** C94. The two figures of scripts/plot_domain2.py: radii and arcs belong to
    the angle of the figure, and every curve joins the ends of the two radii,
    but for the cubic, which starts at least 3/100 off the end of the upper
    one. *)
Theorem C94_plot2 : exists arc1 arc2 right1 right2 top1 top2 inner cubic outer sine7,
  plot2_main =
    [[mk_drawn "arc" arc1; mk_drawn "" right1; mk_drawn "" top1; mk_drawn "inner-sine" inner; mk_drawn "cubic" cubic];
     [mk_drawn "arc" arc2; mk_drawn "" right2; mk_drawn "" top2; mk_drawn "outer-sine" outer; mk_drawn "sine7" sine7]] /\
  (forall x, In x right1 \/ In x right2 -> on_seg (23 / 10) (PI / 6) 1 x) /\
  (forall x, In x top1 -> on_seg (23 / 10) (PI / 6) 2 x) /\ (forall x, In x top2 -> on_seg (23 / 10) (PI / 2) 2 x) /\
  meets (PI / 6) arc1 /\ meets (PI / 2) arc2 /\
  meets (PI / 6) inner /\ closes inner /\ meets (PI / 2) outer /\ closes outer /\ meets (PI / 2) sine7 /\ closes sine7 /\ closes cubic /\
  exists x, nth_error cubic 0 = Some x /\ 3 / 100 <= dist2 x (23 / 10 * cos (PI / 6), 23 / 10 * sin (PI / 6)).
Proof. exact figures_plot2. Qed.
Print Assumptions C94_plot2.

(** C94. It is false that every curve of these figures starts where the arc of
    the figure does: line 134 constructs the second boundary with the default
    angle. *)
Theorem C94_corner_refuted : exists fig l x, In fig plot2_main /\ In (mk_drawn "cubic" l) fig /\
  (exists la, In (mk_drawn "arc" la) fig /\ meets (PI / 6) la) /\
  nth_error l 0 = Some x /\ 3 / 100 <= dist2 x (23 / 10 * cos (PI / 6), 23 / 10 * sin (PI / 6)).
Proof. exact corner_missed. Qed.
Print Assumptions C94_corner_refuted.

(** C94. print_c1 of ps/debug.py splits the coefficients into the three slices
    of the segments; none is lost and none is shown twice. *)
Theorem C94_print : forall nc nr c1, List.length c1 = (nc + 2 * nr)%nat -> exists s0 s1 s2,
  print_c1 (snd (setup_basis nc nr)) c1 = [(0%nat, nc, s0); (1%nat, nr, s1); (2%nat, nr, s2)] /\
  (s0 ++ s1 ++ s2)%list = map Re c1 /\ List.length s0 = nc /\ List.length s1 = nr /\ List.length s2 = nr.
Proof. exact print_c1_slices. Qed.
Print Assumptions C94_print.

Example C94_print_example : List.length (map RtoC [1; 2; 3; 4; 5; 6; 7]) = (3 + 2 * 2)%nat /\
  print_c1 (snd (setup_basis 3 2)) (map RtoC [1; 2; 3; 4; 5; 6; 7]) = [(0%nat, 3%nat, [1; 2; 3]); (1%nat, 2%nat, [4; 5]); (2%nat, 2%nat, [6; 7])].
Proof. split; reflexivity. Qed.
