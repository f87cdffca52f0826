(** The command lines of run.py and runz.py, and what is listed before the
    first run (io_util.py). *)
From Coq Require Import Ascii String ZArith List Bool Reals.
From Verif Require Import Model_Py Model_Driver Model_Abcoef Model_Grid Model_PS Model_Run Model_Program Model_ZProgram.
Import ListNotations.
Open Scope string_scope.
Open Scope Z_scope.
Open Scope list_scope.

(** ** argparse, as far as io_util.py:8-39, run.py:31-41 and runz.py:34-47 need it

    [parse_args] of the standard library is transcribed for arguments that are
    one of the option strings below, written in full, or no option at all.
    Other forms (abbreviations, [-N16], [-h], [--], unknown options) are
    recognised and left open ([OtherForm]). *)

(** Value of a decimal digit, for [type=int] (io_util.py:23, 27, 32). *)
Definition digit_of (c : ascii) : option Z :=
  let n := Z.of_nat (nat_of_ascii c) in
  if (48 <=? n) && (n <=? 57) then Some (n - 48) else None.

(** The digits of [int(s)] (io_util.py:23, 27, 32); [last] tells whether the
    character before was a digit, single underscores between digits being
    allowed. *)
Fixpoint int_digits (acc : Z) (last : bool) (s : string) : option Z :=
  match s with
  | EmptyString => if last then Some acc else None
  | String c s =>
      match digit_of c with
      | Some d => int_digits (10 * acc + d) true s
      | None => if (Ascii.eqb c "_") && last then int_digits acc false s else None
      end
  end.

(** [int(s)] (io_util.py:23, 27, 32); None is ValueError. Simplification:
    surrounding blanks and digits outside ASCII, which Python accepts, count as
    errors here. *)
Definition py_int (s : string) : option Z :=
  match s with
  | EmptyString => None
  | String c t =>
      if Ascii.eqb c "-" then option_map Z.opp (int_digits 0 false t)
      else if Ascii.eqb c "+" then int_digits 0 false t
      else int_digits 0 false s
  end.

(** The options added by io_util.py:23, 27, 32, 37, run.py:37 and runz.py:40, 44,
    and arguments that are not options. *)
Inductive token := TN | TC | TO | TR | TAcheat | TZ1cheat | TPlain (s : string) | TOther.

(** [-] alone or followed by digits only: an argument, not an option, because no option
    of io_util.py:23-37 looks like a negative number. *)
Fixpoint all_digits (s : string) : bool :=
  match s with
  | EmptyString => true
  | String c s => match digit_of c with Some _ => all_digits s | None => false end
  end.

(** The kind of one argument for the parser of runz.py:37-45 ([z1] true) or of
    run.py:34-39 ([z1] false). *)
Definition classify (z1 : bool) (s : string) : token :=
  if String.eqb s "-N" then TN
  else if String.eqb s "-c" then TC
  else if String.eqb s "-o" then TO
  else if String.eqb s "-r" then TR
  else if String.eqb s "--acheat" then TAcheat
  else if z1 && (String.eqb s "--z1cheat") then TZ1cheat
  else match s with
       | EmptyString => TPlain s
       | String c t => if Ascii.eqb c "-" && negb (all_digits t) then TOther else TPlain s
       end.

(** problems/__init__.py:16-32: the keys of problem_dict. *)
Definition problem_choices : list string :=
  ["smooth-sine"; "smooth-e"; "smooth-ycos"; "trace-sine8"; "trace-sine-range"; "trace-hat"; "trace-parabola";
   "trace-line-sine"; "shift-hat"; "shift-parabola"; "shift-line-sine"; "i-bessel"; "iz-bessel"; "ihz-bessel-line";
   "ihz-bessel-quadratic"].

(** problems/boundary.py:172, 177, 182, 187, 195, 202-206: the keys of boundaries. *)
Definition boundary_choices : list string := ["arc"; "outer-sine"; "inner-sine"; "sine7"; "cubic"].

(** [x in choices] (io_util.py:12, 20). *)
Definition is_choice (l : list string) (s : string) : bool := existsb (String.eqb s) l.

(** The namespace returned by parse_args (run.py:41, runz.py:47); io_util.py:11,
    18, 23, 27, 32, 37 and run.py:37, runz.py:44. *)
Record cli_args := mk_cli {
  ca_problem : string; ca_boundary : string; ca_N : Z; ca_c : option Z; ca_o : Z; ca_r : bool;
  ca_acheat : bool; ca_z1cheat : bool }.

(** The namespace while it is filled: the positional arguments taken so far
    (io_util.py:11, 18) and whether some argument was left over. *)
Record cli_state := mk_cs {
  cs_pos : list string; cs_N : Z; cs_c : option Z; cs_o : Z; cs_r : bool; cs_acheat : bool; cs_z1 : bool; cs_extra : bool }.

(** The defaults (io_util.py:23, 27, 33; run.py:37, runz.py:44). The default of
    the positional [boundary] (io_util.py:19) is never used by argparse: a
    positional argument is required. *)
Definition cli_start : cli_state := mk_cs [] 16 None 4 false false false false.

(** One positional argument: the problem (io_util.py:11-13), then the boundary
    (io_util.py:18-20), each among its choices; further ones are left over. None
    is argparse's error, which exits with status 2. *)
Definition take_pos (s : string) (st : cli_state) : option cli_state :=
  match cs_pos st with
  | [] => if is_choice problem_choices s
          then Some (mk_cs [s] (cs_N st) (cs_c st) (cs_o st) (cs_r st) (cs_acheat st) (cs_z1 st) (cs_extra st)) else None
  | [p] => if is_choice boundary_choices s
           then Some (mk_cs [p; s] (cs_N st) (cs_c st) (cs_o st) (cs_r st) (cs_acheat st) (cs_z1 st) (cs_extra st)) else None
  | ps => Some (mk_cs ps (cs_N st) (cs_c st) (cs_o st) (cs_r st) (cs_acheat st) (cs_z1 st) true)
  end.

(** The arguments in order. [-N] and [-o] take the next argument, which must be
    there (io_util.py:23, 32); [-c] takes it if it is there and means 128
    otherwise (io_util.py:27, [nargs='?'], [const=128]); [-o] must be 2 or 4
    (io_util.py:33). A repeated option overwrites. *)
Fixpoint parse_tokens (ts : list token) (st : cli_state) : option cli_state :=
  match ts with
  | [] => Some st
  | TPlain s :: ts => match take_pos s st with Some st => parse_tokens ts st | None => None end
  | TN :: TPlain v :: ts =>
      match py_int v with
      | Some n => parse_tokens ts (mk_cs (cs_pos st) n (cs_c st) (cs_o st) (cs_r st) (cs_acheat st) (cs_z1 st) (cs_extra st))
      | None => None
      end
  | TO :: TPlain v :: ts =>
      match py_int v with
      | Some n => if (n =? 2) || (n =? 4)
                  then parse_tokens ts (mk_cs (cs_pos st) (cs_N st) (cs_c st) n (cs_r st) (cs_acheat st) (cs_z1 st) (cs_extra st))
                  else None
      | None => None
      end
  | TC :: ts =>
      match ts with
      | TPlain v :: ts =>
          match py_int v with
          | Some n => parse_tokens ts (mk_cs (cs_pos st) (cs_N st) (Some n) (cs_o st) (cs_r st) (cs_acheat st) (cs_z1 st) (cs_extra st))
          | None => None
          end
      | _ => parse_tokens ts (mk_cs (cs_pos st) (cs_N st) (Some 128) (cs_o st) (cs_r st) (cs_acheat st) (cs_z1 st) (cs_extra st))
      end
  | TR :: ts => parse_tokens ts (mk_cs (cs_pos st) (cs_N st) (cs_c st) (cs_o st) true (cs_acheat st) (cs_z1 st) (cs_extra st))
  | TAcheat :: ts => parse_tokens ts (mk_cs (cs_pos st) (cs_N st) (cs_c st) (cs_o st) (cs_r st) true (cs_z1 st) (cs_extra st))
  | TZ1cheat :: ts => parse_tokens ts (mk_cs (cs_pos st) (cs_N st) (cs_c st) (cs_o st) (cs_r st) (cs_acheat st) true (cs_extra st))
  | _ => None
  end.

(** Outcome of parse_args (run.py:41, runz.py:47): a namespace, the exit with a
    usage message, or a form that is not modelled. *)
Inductive parsed := Parsed (a : cli_args) | Usage | OtherForm.

(** Whether an argument has a form that is not modelled (io_util.py:23-37). *)
Definition is_other (t : token) : bool := match t with TOther => true | _ => false end.

(** run.py:34-41 ([z1] false), runz.py:37-47 ([z1] true): both positional
    arguments must be there and nothing be left over. *)
Definition parse_args (z1 : bool) (argv : list string) : parsed :=
  let ts := map (classify z1) argv in
  if existsb is_other ts then OtherForm
  else match parse_tokens ts cli_start with
       | Some (mk_cs [p; b] N c o r ach z1 false) => Parsed (mk_cli p b N c o r ach z1)
       | _ => Usage
       end.

(** ** The listing of the options *)

(** The problems of problems/__init__.py:16-32 whose modules exist. *)
Inductive cli_problem := Smooth (p : smooth_name) | Sing (p : sing_name).

(** problems/__init__.py:17-19, 29-31: [problem_dict[args.problem]] (run.py:43,
    runz.py:49); None for the entries whose modules are missing. *)
Definition problem_of (s : string) : option cli_problem :=
  if String.eqb s "smooth-sine" then Some (Smooth SmoothSine)
  else if String.eqb s "smooth-e" then Some (Smooth SmoothE)
  else if String.eqb s "smooth-ycos" then Some (Smooth SmoothYCos)
  else if String.eqb s "iz-bessel" then Some (Sing IzBessel)
  else if String.eqb s "ihz-bessel-line" then Some (Sing IhzLine)
  else if String.eqb s "ihz-bessel-quadratic" then Some (Sing IhzQuadratic)
  else None.

(** problems/boundary.py:202-206: [boundaries[args.boundary]] (run.py:44,
    runz.py:50). *)
Definition boundary_of (s : string) : option bname :=
  if String.eqb s "arc" then Some Arc
  else if String.eqb s "outer-sine" then Some OuterSine
  else if String.eqb s "inner-sine" then Some InnerSine
  else if String.eqb s "sine7" then Some Sine7
  else if String.eqb s "cubic" then Some Cubic
  else None.

(** problems/smooth.py:14, problems/sing_ihz.py:96, 184: [problem.k]. *)
Definition cli_k (p : cli_problem) : R := match p with Sing IhzQuadratic => quadratic_k | _ => smooth_k end.

(** problems/problem.py:89-98 [get_m1]: the smooth problems have neither m1 nor
    m1_dict. *)
Definition cli_m1 (p : cli_problem) (b : bname) : nat := match p with Smooth _ => 7%nat | Sing _ => get_m1 b end.

(** problems/smooth.py:16-24, problems/sing_ihz.py:67: [n_basis_dict]. *)
Definition cli_table (p : cli_problem) : n_basis_table :=
  match p with Smooth _ => smooth_n_basis_dict | Sing _ => ihz_n_basis_dict end.

(** A line printed by io_util.py:42-76. Numbers stand for themselves; their
    rounding to five digits (io_util.py:6) is left out. *)
Inductive listed :=
| LHeading (items : list string) | LOrder (o : Z) | LK (x : R) | LR (x : R) | LA (x : R) | LBet (x : R) | LAD (x : R)
| LAcheat | LM1 (m : nat) | LBasis (N : Z) (nb : Z * Z).

(** io_util.py:71-76: the basis sets. *)
Fixpoint list_basis (fuel : nat) (d : n_basis_table) (Ns : list Z) : result (list listed) :=
  match Ns with
  | [] => Ok []
  | N :: Ns => nb <- get_n_basis fuel d N;; rest <- list_basis fuel d Ns;; Ok (LBasis N nb :: rest)
  end.

(** io_util.py:42-76 [print_options] as called by run.py:60 and runz.py:67
    (scheme_order and N_list present, procedure_name absent); [today] is the
    date of line 49, [pn] and [bn] are the names of problem and boundary. *)
Definition print_options (fuel : nat) (today pn bn : string) (p : cli_problem) (b : bname) (o : Z) (acheat : bool) (Ns : list Z)
  : result (list listed) :=
  basis <- list_basis fuel (cli_table p) Ns;;
  Ok ([LHeading [pn; bn; today]; LOrder o; LK (cli_k p); LR problem_R; LA pizza_a; LBet (boundary_bet b None); LAD problem_AD;
       if acheat then LAcheat else LM1 (cli_m1 p b)] ++ basis).

(** ** The drivers from their command lines *)

(** What a driver does (run.py:41-102, runz.py:47-139): the exit of argparse, its listing and its reports (or an
    exception, or no end), or a case that is not modelled. *)
Inductive driver_outcome (A : Type) := DUsage | DOther | DRan (r : result (list listed * A)).
Arguments DUsage {A}.
Arguments DOther {A}.
Arguments DRan {A} r.

(** run.py:31-102 for the smooth problems; --acheat (line 53) is not read by
    PizzaSolver. *)
Definition run_cli (fuel : nat) (lib : library) (today : string) (argv : list string)
  : driver_outcome (list (list (printed R arr2))) :=
  match parse_args false argv with
  | Usage => DUsage
  | OtherForm => DOther
  | Parsed a =>
      match problem_of (ca_problem a), boundary_of (ca_boundary a) with
      | Some (Smooth p), Some b =>
          DRan (Ns <- get_N_list fuel (ca_N a) (ca_c a);;
                ls <- print_options fuel today (ca_problem a) (ca_boundary a) (Smooth p) b (ca_o a) (ca_acheat a) Ns;;
                outs <- smooth_main_loop fuel lib p b (ca_o a) (ca_r a) run_init Ns;;
                Ok (ls, outs))
      | _, _ => DOther
      end
  end.

(** runz.py:34-139 for the problems of problems/sing_ihz.py. *)
Definition runz_cli (fuel : nat) (L : zlibrary) (today : string) (argv : list string) : driver_outcome (list (list zprinted)) :=
  match parse_args true argv with
  | Usage => DUsage
  | OtherForm => DOther
  | Parsed a =>
      match problem_of (ca_problem a), boundary_of (ca_boundary a) with
      | Some (Sing p), Some b =>
          DRan (Ns <- get_N_list fuel (ca_N a) (ca_c a);;
                ls <- print_options fuel today (ca_problem a) (ca_boundary a) (Sing p) b (ca_o a) (ca_acheat a) Ns;;
                outs <- runz_main fuel L p b (ca_N a) (ca_c a) (ca_o a) (ca_acheat a) (ca_z1cheat a);;
                Ok (ls, outs))
      | _, _ => DOther
      end
  end.

(** scripts/multirun.py:15: [problem_list]. *)
Definition multirun_problems : list string := ["ihz-bessel-line"].
(** scripts/multirun.py:16: [boundary_list]. *)
Definition multirun_boundaries : list string := ["arc"; "outer-sine"; "inner-sine"; "cubic"; "sine7"].

(** scripts/multirun.py:18-24, 38-39: the arguments of runz.py in the commands,
    after the shell has split them; the redirection of the output is left out. *)
Definition multirun_commands : list (list string) :=
  flat_map (fun p => map (fun b => [p; b; "-c"; "1024"]) multirun_boundaries) multirun_problems.
