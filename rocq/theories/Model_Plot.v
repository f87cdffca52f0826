(** scripts/plot_domain.py and scripts/plot_domain2.py: the points handed to
    matplotlib. Colours, marker shapes, axis limits, legends and the files the
    figures are saved to (plot_domain.py:145-146, 202-203, 223-224 and
    plot_domain2.py:146-147) are left out. plot_Mplus of both scripts
    (plot_domain.py:64-81 reads the attribute all_Mplus that nothing sets) and
    plot_gamma of plot_domain2.py are never called and are left out too. Also
    print_c1 of ps/debug.py. *)
From Coq Require Import ZArith List Bool Reals String.
From Coquelicot Require Import Coquelicot.
From Verif Require Import Model_Py Model_Multivalue Model_Grid Model_Abcoef Model_PS Model_Domain Model_Extend Model_Problems Model_Run Model_Program Model_Debug.
Import ListNotations.
Open Scope R_scope.

(** One call of plt.plot (scripts/plot_domain.py:23, 30, 45, 103-104): its label
    (empty if none is given) and its points, x_data and y_data taken together. *)
Record drawn := mk_drawn { dr_label : string; dr_pts : list (R * R) }.

(** scripts/plot_domain.py:16-23 [plot_aux]. *)
Definition plot_aux (AD_len : R) : drawn :=
  let s := AD_len / 2 in
  mk_drawn "" [(- s, s); (s, s); (s, - s); (- s, - s); (- s, s)].

(** scripts/plot_domain.py:25-30 [plot_arc]; scripts/plot_domain2.py:23-28, which adds
    the label. *)
Definition plot_arc (label : string) (R0 a : R) : drawn :=
  mk_drawn label (map (fun th => (R0 * cos th, R0 * sin th)) (np_linspace a (2 * PI) 512)).

(** scripts/plot_domain.py:36-45: the coordinates of the sampled points. *)
Definition sample_pts (l : list bpoint) : list (R * R) := map (fun p => (bp_x p, bp_y p)) l.

(** scripts/plot_domain.py:32-48 [plot_Gamma]: the sample and, unless the loop
    is left after the first, its two extensions. *)
Definition plot_Gamma (extended : bool) (eval_r : R -> R) (R0 a : R) : list drawn :=
  let '(e1, e2) := get_boundary_extensions eval_r R0 a sample_n in
  mk_drawn "" (sample_pts (get_boundary_sample eval_r R0 a sample_n)) ::
  (if extended then [mk_drawn "" (sample_pts e1); mk_drawn "" (sample_pts e2)] else []).

(** scripts/plot_domain.py:50-61 [nodes_to_plottable]. *)
Definition nodes_to_plottable (AD_len : R) (N : Z) (nodes : list node) : list (R * R) :=
  map (fun p => get_coord AD_len N (fst p) (snd p)) nodes.

(** scripts/plot_domain.py:182-183: the argument method. *)
Inductive plot_method := PGamma | PPert | PM | PK | PAux | PInt | PExt.

(** scripts/plot_domain.py:83-112 [plot_allMK]; [isM] is ntype == 'm'. The
    sets are iterated over in the order lib_enum. *)
Definition plot_allMK (lib : library) (o : options) (isM : bool) : list drawn :=
  let pts := fun nodes => nodes_to_plottable (o_AD o) (o_N o) (lib_enum lib nodes) in
  plot_Gamma false (o_r o) (o_R o) (o_a o) ++
  (if isM then
     [mk_drawn "$\mathbb{M}^+$" (pts (global_Mplus (o_N o) (o_interior o)));
      mk_drawn "$\mathbb{M}^-$" (pts (global_Mminus (o_N o) (o_interior o)))]
   else
     [mk_drawn "$\mathbb{K}^+$" (pts (Kplus (o_order o) (o_N o) (o_interior o))); mk_drawn "" []]).

(** scripts/plot_domain.py:114-147 [plot_intext]. *)
Definition plot_intext (lib : library) (o : options) (interior : bool) : list drawn :=
  let pts := fun nodes => nodes_to_plottable (o_AD o) (o_N o) (lib_enum lib nodes) in
  plot_Gamma false (o_r o) (o_R o) (o_a o) ++ [plot_aux (o_AD o)] ++
  (if interior then
     [mk_drawn "$\mathbb{M}^+$" (pts (global_Mplus (o_N o) (o_interior o)));
      mk_drawn "$\mathbb{N}^+$" (pts (Nplus (o_order o) (o_N o) (o_interior o)))]
   else
     [mk_drawn "$\mathbb{M}^-$" (pts (global_Mminus (o_N o) (o_interior o)));
      mk_drawn "$\mathbb{N}^-$" (pts (Nminus (o_order o) (o_N o) (o_interior o)))]).

(** scripts/plot_domain.py:149-173 [plot_gamma]: the paper numbers the segments
    3, 2, 1 (line 164). *)
Definition plot_gamma (o : options) (st : ps_state) : list drawn :=
  plot_Gamma false (o_r o) (o_R o) (o_a o) ++
  [mk_drawn "$\gamma_1$" (nodes_to_plottable (o_AD o) (o_N o) (ec_gamma (st_ctx st) 2%nat));
   mk_drawn "$\gamma_2$" (nodes_to_plottable (o_AD o) (o_N o) (ec_gamma (st_ctx st) 1%nat));
   mk_drawn "$\gamma_3$" (nodes_to_plottable (o_AD o) (o_N o) (ec_gamma (st_ctx st) 0%nat))].

(** scripts/plot_domain.py:187-225, the script, after its arguments have been
    parsed: smooth-sine on the chosen boundary, fourth order. *)
Definition plot_domain (fuel : nat) (lib : library) (m : plot_method) (b : bname) (N : Z) : result (list drawn) :=
  o <- smooth_options fuel SmoothSine b N 4;;
  st <- ps_init lib o;;
  Ok (match m with
      | PGamma => plot_aux (o_AD o) :: plot_gamma o st
      | PPert => plot_arc "" (o_R o) (o_a o) :: plot_Gamma false (o_r o) (o_R o) (o_a o)
      | PM => plot_allMK lib o true
      | PK => plot_allMK lib o false
      | PInt => plot_intext lib o true
      | PExt => plot_intext lib o false
      | PAux => plot_aux (o_AD o) :: plot_Gamma false (o_r o) (o_R o) (o_a o)
      end).

(** scripts/plot_domain2.py:30-42 [plot_Gamma] with a segment. *)
Definition plot2_Gamma (eval_r : R -> R) (R0 a : R) (sid : nat) (label : string) : drawn :=
  mk_drawn label (sample_pts (filter (fun p => Nat.eqb (bp_sid p) sid) (get_boundary_sample eval_r R0 a sample_n))).

(** scripts/plot_domain2.py:101-112: angle and the two boundaries of each
    figure. *)
Definition plot2_data : list (R * bname * bname) := [(PI / 6, InnerSine, Cubic); (PI / 2, OuterSine, Sine7)].

(** problems/boundary.py:172, 177, 182, 187, 195: the names used as labels. *)
Definition bname_str (b : bname) : string :=
  match b with Arc => "arc" | OuterSine => "outer-sine" | InnerSine => "inner-sine" | Sine7 => "sine7" | Cubic => "cubic" end.

(** scripts/plot_domain2.py:116-139, one pass of the loop. Line 134 constructs the
    second boundary without the angle, so with the default of
    problems/boundary.py:12. The two constructors of PizzaSolver are taken to
    return; the figure only uses the attributes R, a and boundary. *)
Definition plot2_figure (d : R * bname * bname) : list drawn :=
  let '(a, b0, b1) := d in
  let r0 := boundary_r b0 problem_R None a in
  let r1 := boundary_r b1 problem_R None pizza_a in
  [plot_arc "arc" problem_R a;
   plot2_Gamma r0 problem_R a 1 ""; plot2_Gamma r0 problem_R a 2 "";
   plot2_Gamma r0 problem_R a 0 (bname_str b0); plot2_Gamma r1 problem_R a 0 (bname_str b1)].

(** scripts/plot_domain2.py:114-150: both figures. *)
Definition plot2_main : list (list drawn) := map plot2_figure plot2_data.

(** ps/debug.py:181-195 [print_c1]: for each segment its number, its basis size
    and the real parts of its slice of c1, before np.round. *)
Fixpoint print_c1_loop (segment_desc : list (nat * list nat)) (c1 : list C) (sid i : nat) : list (nat * nat * list R) :=
  match segment_desc with
  | [] => []
  | d :: ds => (sid, fst d, map Re (firstn (fst d) (skipn i c1))) :: print_c1_loop ds c1 (S sid) (i + fst d)
  end.

(** ps/debug.py:181-195 [print_c1]: sid and i start at 0. *)
Definition print_c1 (segment_desc : list (nat * list nat)) (c1 : list C) : list (nat * nat * list R) :=
  print_c1_loop segment_desc c1 0 0.
