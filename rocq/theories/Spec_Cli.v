(** Specification for the command lines (C90). *)
From Coq Require Import Ascii String ZArith List Bool Reals.
From Verif Require Import Model_Program Model_ZProgram Model_Cli.
Import ListNotations.
Open Scope string_scope.
Open Scope Z_scope.
Open Scope list_scope.

(** The decimal digit with value [d]. *)
Definition digit (c : ascii) (d : Z) : Prop := 0 <= d <= 9 /\ c = ascii_of_nat (48 + Z.to_nat d).
Inductive only_digits : string -> Prop :=
| od_nil : only_digits ""
| od_cons : forall c d s, digit c d -> only_digits s -> only_digits (String c s).

(** Decimal numerals: digits, single underscores between them. *)
Inductive digits_val : string -> Z -> Prop :=
| dv_one : forall c d, digit c d -> digits_val (String c "") d
| dv_next : forall s n c d, digits_val s n -> digit c d -> digits_val (String.append s (String c "")) (10 * n + d)
| dv_under : forall s n c d, digits_val s n -> digit c d -> digits_val (String.append s (String "_" (String c ""))) (10 * n + d).

(** Integer literals with an optional sign. *)
Definition int_val (s : string) (n : Z) : Prop :=
  digits_val s n \/ (exists t, s = String "+" t /\ digits_val t n) \/ (exists t, s = String "-" t /\ digits_val t (- n)).

(** The parts of a command line as its user means them. *)
Inductive item := Arg (s : string) | OptN (v : string) | OptC (v : option string) | OptO (v : string) | OptR | OptAcheat | OptZ1cheat.

(** The arguments a part is written with. *)
Definition render_item (i : item) : list string :=
  match i with
  | Arg s => [s]
  | OptN v => ["-N"; v]
  | OptC None => ["-c"]
  | OptC (Some v) => ["-c"; v]
  | OptO v => ["-o"; v]
  | OptR => ["-r"]
  | OptAcheat => ["--acheat"]
  | OptZ1cheat => ["--z1cheat"]
  end.
Definition render (l : list item) : list string := flat_map render_item l.

(** The arguments that are not options. *)
Definition args_of (l : list item) : list string := flat_map (fun i => match i with Arg s => [s] | _ => [] end) l.

(** Integers are given where they belong; a minus sign is followed by digits
    only; orders are 2 or 4; --z1cheat is an option of runz.py only. *)
Definition plain (s : string) : Prop := forall t, s = String "-" t -> only_digits t.
Definition item_ok (z1 : bool) (i : item) : Prop :=
  match i with
  | Arg s => plain s
  | OptN v => plain v /\ exists n, int_val v n
  | OptC None => True
  | OptC (Some v) => plain v /\ exists n, int_val v n
  | OptO v => plain v /\ (int_val v 2 \/ int_val v 4)
  | OptZ1cheat => z1 = true
  | _ => True
  end.

(** A [-c] without value does not stand directly before an argument. *)
Definition spaced (l : list item) : Prop := forall a b s, l <> a ++ OptC None :: Arg s :: b.

(** The value of an option: the one given last, or the default. *)
Definition last_given {A} (P : item -> A -> Prop) (dflt : A) (l : list item) (v : A) : Prop :=
  (exists a i b, l = a ++ i :: b /\ P i v /\ forall j w, In j b -> ~ P j w) \/
  (v = dflt /\ forall j w, In j l -> ~ P j w).
Definition gives_N (i : item) (n : Z) : Prop := match i with OptN v => int_val v n | _ => False end.
Definition gives_c (i : item) (n : option Z) : Prop :=
  match i with OptC None => n = Some 128 | OptC (Some v) => exists m, n = Some m /\ int_val v m | _ => False end.
Definition gives_o (i : item) (n : Z) : Prop := match i with OptO v => int_val v n | _ => False end.

(** What a command line means. *)
Definition means (l : list item) (a : cli_args) : Prop :=
  args_of l = [ca_problem a; ca_boundary a] /\ In (ca_problem a) problem_choices /\ In (ca_boundary a) boundary_choices /\
  last_given gives_N 16 l (ca_N a) /\ last_given gives_c None l (ca_c a) /\ last_given gives_o 4 l (ca_o a) /\
  (ca_r a = true <-> In OptR l) /\ (ca_acheat a = true <-> In OptAcheat l) /\ (ca_z1cheat a = true <-> In OptZ1cheat l).

(** The limit in force: a single grid without [-c]. *)
Definition limit (a : cli_args) : Z := match ca_c a with Some c => c | None => ca_N a end.

(** The lines listed before the basis sets for the arc: names and date, order of
    the scheme, k, R, a, bet, side of the square, and m1 or the warning. *)
Definition heading (today : string) (a : cli_args) (p : cli_problem) : list listed :=
  [LHeading [ca_problem a; ca_boundary a; today]; LOrder (ca_o a);
   LK (match p with Sing IhzQuadratic => 43 / 4 | _ => 27 / 4 end)%R; LR (23 / 10)%R; LA (PI / 4)%R; LBet 0%R; LAD (2 * PI)%R;
   if ca_acheat a then LAcheat else LM1 7].
