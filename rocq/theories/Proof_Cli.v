(** The command lines of run.py and runz.py (C90). *)
From Coq Require Import Ascii String ZArith List Bool Lia.
From Verif Require Import Model_Py Model_Cli Spec_Cli.
Import ListNotations.
Open Scope string_scope.
Open Scope Z_scope.
Open Scope list_scope.

(** ** Integers *)

Lemma digit_of_iff : forall c d, digit_of c = Some d <-> digit c d.
Proof.
  intros c d. unfold digit_of, digit. cbv zeta. split.
  - destruct (Z.leb_spec 48 (Z.of_nat (nat_of_ascii c))); cbn [andb]; [|discriminate].
    destruct (Z.leb_spec (Z.of_nat (nat_of_ascii c)) 57); [|discriminate]. intros E. injection E as <-. split; [lia|].
    replace (48 + Z.to_nat (Z.of_nat (nat_of_ascii c) - 48))%nat with (nat_of_ascii c) by lia. symmetry. apply ascii_nat_embedding.
  - intros [Hd ->]. rewrite nat_ascii_embedding by lia.
    destruct (Z.leb_spec 48 (Z.of_nat (48 + Z.to_nat d))); [|lia]. destruct (Z.leb_spec (Z.of_nat (48 + Z.to_nat d)) 57); [|lia].
    cbn [andb]. f_equal. lia.
Qed.

Lemma sapp_assoc : forall a b c, String.append (String.append a b) c = String.append a (String.append b c).
Proof. induction a as [|x a IH]; intros b c; cbn; [reflexivity|]. rewrite IH. reflexivity. Qed.

Lemma sapp_nil : forall a, String.append a "" = a.
Proof. induction a as [|x a IH]; cbn; [reflexivity|]. rewrite IH. reflexivity. Qed.

Lemma under_no_digit : digit_of "_" = None.
Proof. reflexivity. Qed.

Lemma digits_sound : forall s s0 m n,
  (digits_val s0 m -> int_digits m true s = Some n -> digits_val (String.append s0 s) n) /\
  (digits_val s0 m -> int_digits m false s = Some n -> digits_val (String.append s0 (String "_" s)) n).
Proof.
  induction s as [|c s IH]; intros s0 m n; split; intros H0 H; cbn [int_digits] in H.
  - injection H as <-. rewrite sapp_nil. exact H0.
  - discriminate.
  - destruct (digit_of c) as [d|] eqn:Ed.
    + apply digit_of_iff in Ed. pose proof (dv_next s0 m c d H0 Ed) as H1.
      pose proof (proj1 (IH _ _ n) H1 H) as H2. rewrite sapp_assoc in H2. exact H2.
    + destruct (Ascii.eqb_spec c "_") as [->|]; cbn [andb] in H; [|discriminate]. apply (proj2 (IH _ _ n) H0 H).
  - destruct (digit_of c) as [d|] eqn:Ed.
    + apply digit_of_iff in Ed. pose proof (dv_under s0 m c d H0 Ed) as H1.
      pose proof (proj1 (IH _ _ n) H1 H) as H2. rewrite sapp_assoc in H2. exact H2.
    + rewrite andb_false_r in H. discriminate.
Qed.

Lemma digits_complete : forall s n, digits_val s n -> forall t, int_digits 0 false (String.append s t) = int_digits n true t.
Proof.
  intros s n H. induction H as [c d Hd|s n c d H IH Hd|s n c d H IH Hd]; intros t.
  - cbn [String.append int_digits]. apply digit_of_iff in Hd. rewrite Hd. f_equal.
  - rewrite sapp_assoc, IH. cbn [String.append int_digits]. apply digit_of_iff in Hd. rewrite Hd. reflexivity.
  - rewrite sapp_assoc, IH. cbn [String.append int_digits]. rewrite under_no_digit. cbn [Ascii.eqb andb]. apply digit_of_iff in Hd.
    cbn. rewrite Hd. reflexivity.
Qed.

Lemma int_digits_iff : forall s n, int_digits 0 false s = Some n <-> digits_val s n.
Proof.
  intros s n. split; intros H.
  - destruct s as [|c s]; [discriminate|]. cbn [int_digits] in H. destruct (digit_of c) as [d|] eqn:Ed.
    + apply digit_of_iff in Ed. exact (proj1 (digits_sound s (String c "") _ n) (dv_one c d Ed) H).
    + rewrite andb_false_r in H. discriminate.
  - pose proof (digits_complete s n H "") as E. rewrite sapp_nil in E. rewrite E. reflexivity.
Qed.

Lemma digits_head : forall s n, digits_val s n -> exists c d t, s = String c t /\ digit c d.
Proof.
  intros s n H. induction H as [c d Hd|s n c d H IH Hd|s n c d H IH Hd].
  - exists c, d, "". split; [reflexivity|exact Hd].
  - destruct IH as (c0 & d0 & t & -> & Hc). exists c0, d0, (String.append t (String c "")). split; [reflexivity|exact Hc].
  - destruct IH as (c0 & d0 & t & -> & Hc). exists c0, d0, (String.append t (String "_" (String c ""))). split; [reflexivity|exact Hc].
Qed.

Lemma no_digit : forall c, digit_of c = None -> forall d, ~ digit c d.
Proof. intros c H d Hd. apply digit_of_iff in Hd. congruence. Qed.

Lemma py_int_iff : forall s n, py_int s = Some n <-> int_val s n.
Proof.
  intros s n. unfold py_int, int_val. destruct s as [|c t].
  - split; [discriminate|]. intros [H|[(t & E & _)|(t & E & _)]]; [|discriminate|discriminate].
    destruct (digits_head _ _ H) as (c & d & t & E & _). discriminate.
  - destruct (Ascii.eqb_spec c "-") as [->|H1]; [|destruct (Ascii.eqb_spec c "+") as [->|H2]].
    + split.
      * destruct (int_digits 0 false t) as [m|] eqn:E; [|discriminate]. cbn. intros H. injection H as <-. right. right.
        exists t. split; [reflexivity|]. apply int_digits_iff. rewrite E. f_equal. lia.
      * intros [H|[(u & E & _)|(u & E & H)]].
        { destruct (digits_head _ _ H) as (c & d & u & E & Hc). injection E as <- <-. exfalso. exact (no_digit "-" eq_refl d Hc). }
        { discriminate. }
        injection E as <-. apply int_digits_iff in H. rewrite H. cbn. f_equal. lia.
    + split.
      * intros H. right. left. exists t. split; [reflexivity|]. apply int_digits_iff, H.
      * intros [H|[(u & E & H)|(u & E & _)]].
        { destruct (digits_head _ _ H) as (c & d & u & E & Hc). injection E as <- <-. exfalso. exact (no_digit "+" eq_refl d Hc). }
        { injection E as <-. apply int_digits_iff, H. }
        discriminate.
    + rewrite int_digits_iff. split; [intros H; left; exact H|].
      intros [H|[(u & E & _)|(u & E & _)]]; [exact H|injection E as E1 _; contradiction|injection E as E1 _; contradiction].
Qed.

Lemma int_val_fun : forall s a b, int_val s a -> int_val s b -> a = b.
Proof. intros s a b Ha Hb. apply py_int_iff in Ha, Hb. congruence. Qed.

(** ** Kinds of arguments *)

Lemma all_digits_iff : forall s, all_digits s = true <-> only_digits s.
Proof.
  induction s as [|c s IH]; cbn [all_digits]; [split; [constructor|reflexivity]|].
  destruct (digit_of c) as [d|] eqn:E.
  - rewrite IH. split; intros H; [apply (od_cons c d); [apply digit_of_iff, E|exact H]|inversion H; assumption].
  - split; [discriminate|]. intros H. inversion H as [|c0 d s0 Hd Hs]; subst. exfalso. exact (no_digit c E d Hd).
Qed.

Lemma classify_plain : forall z s, plain s -> classify z s = TPlain s.
Proof.
  intros z s H. assert (K : forall t, ~ only_digits t -> s <> String "-" t) by (intros t Ht ->; apply Ht, H; reflexivity).
  unfold classify.
  destruct (String.eqb_spec s "-N") as [E|_]; [exfalso; apply (K "N"); [|exact E]; intros D; apply all_digits_iff in D; discriminate|].
  destruct (String.eqb_spec s "-c") as [E|_]; [exfalso; apply (K "c"); [|exact E]; intros D; apply all_digits_iff in D; discriminate|].
  destruct (String.eqb_spec s "-o") as [E|_]; [exfalso; apply (K "o"); [|exact E]; intros D; apply all_digits_iff in D; discriminate|].
  destruct (String.eqb_spec s "-r") as [E|_]; [exfalso; apply (K "r"); [|exact E]; intros D; apply all_digits_iff in D; discriminate|].
  destruct (String.eqb_spec s "--acheat") as [E|_]; [exfalso; apply (K "-acheat"); [|exact E]; intros D; apply all_digits_iff in D; discriminate|].
  destruct (String.eqb_spec s "--z1cheat") as [E|_]; [exfalso; apply (K "-z1cheat"); [|exact E]; intros D; apply all_digits_iff in D; discriminate|].
  rewrite andb_false_r. destruct s as [|c t]; [reflexivity|]. destruct (Ascii.eqb_spec c "-") as [->|_]; [|reflexivity].
  rewrite (proj2 (all_digits_iff t)); [reflexivity|]. apply H. reflexivity.
Qed.

Lemma classify_cases : forall z s,
  (classify z s = TPlain s /\ plain s) \/ (classify z s = TN /\ s = "-N") \/ (classify z s = TC /\ s = "-c") \/
  (classify z s = TO /\ s = "-o") \/ (classify z s = TR /\ s = "-r") \/ (classify z s = TAcheat /\ s = "--acheat") \/
  (classify z s = TZ1cheat /\ s = "--z1cheat" /\ z = true) \/ classify z s = TOther.
Proof.
  intros z s. unfold classify.
  destruct (String.eqb_spec s "-N"); [tauto|]. destruct (String.eqb_spec s "-c"); [tauto|]. destruct (String.eqb_spec s "-o"); [tauto|].
  destruct (String.eqb_spec s "-r"); [tauto|]. destruct (String.eqb_spec s "--acheat"); [tauto|].
  destruct z; cbn [andb].
  - destruct (String.eqb_spec s "--z1cheat"); [tauto|].
    destruct s as [|c t]; [left; split; [reflexivity|intros t E; discriminate]|].
    destruct (Ascii.eqb_spec c "-") as [->|Hc]; cbn [andb].
    + destruct (all_digits t) eqn:E; cbn [negb]; [left; split; [reflexivity|]|tauto].
      intros u Eu. injection Eu as <-. apply all_digits_iff, E.
    + left. split; [reflexivity|]. intros u Eu. injection Eu as E1 _. contradiction.
  - destruct s as [|c t]; [left; split; [reflexivity|intros t E; discriminate]|].
    destruct (Ascii.eqb_spec c "-") as [->|Hc]; cbn [andb].
    + destruct (all_digits t) eqn:E; cbn [negb]; [left; split; [reflexivity|]|tauto].
      intros u Eu. injection Eu as <-. apply all_digits_iff, E.
    + left. split; [reflexivity|]. intros u Eu. injection Eu as E1 _. contradiction.
Qed.

(** ** The parts one after the other *)

Definition set_N st n := mk_cs (cs_pos st) n (cs_c st) (cs_o st) (cs_r st) (cs_acheat st) (cs_z1 st) (cs_extra st).
Definition set_c st n := mk_cs (cs_pos st) (cs_N st) n (cs_o st) (cs_r st) (cs_acheat st) (cs_z1 st) (cs_extra st).
Definition set_o st n := mk_cs (cs_pos st) (cs_N st) (cs_c st) n (cs_r st) (cs_acheat st) (cs_z1 st) (cs_extra st).
Definition set_r st := mk_cs (cs_pos st) (cs_N st) (cs_c st) (cs_o st) true (cs_acheat st) (cs_z1 st) (cs_extra st).
Definition set_acheat st := mk_cs (cs_pos st) (cs_N st) (cs_c st) (cs_o st) (cs_r st) true (cs_z1 st) (cs_extra st).
Definition set_z1 st := mk_cs (cs_pos st) (cs_N st) (cs_c st) (cs_o st) (cs_r st) (cs_acheat st) true (cs_extra st).

Inductive step : cli_state -> item -> cli_state -> Prop :=
| s_arg : forall st s st', take_pos s st = Some st' -> step st (Arg s) st'
| s_N : forall st v n, int_val v n -> step st (OptN v) (set_N st n)
| s_c0 : forall st, step st (OptC None) (set_c st (Some 128))
| s_c : forall st v n, int_val v n -> step st (OptC (Some v)) (set_c st (Some n))
| s_o : forall st v n, int_val v n -> n = 2 \/ n = 4 -> step st (OptO v) (set_o st n)
| s_r : forall st, step st OptR (set_r st)
| s_acheat : forall st, step st OptAcheat (set_acheat st)
| s_z1 : forall st, step st OptZ1cheat (set_z1 st).

Inductive steps : cli_state -> list item -> cli_state -> Prop :=
| ss_nil : forall st, steps st [] st
| ss_cons : forall st i st1 l st2, step st i st1 -> steps st1 l st2 -> steps st (i :: l) st2.

Lemma spaced_tail : forall i l, spaced (i :: l) -> spaced l.
Proof. intros i l H a b s E. apply (H (i :: a) b s). rewrite E. reflexivity. Qed.

Lemma order_ok : forall n, (n =? 2) || (n =? 4) = true <-> n = 2 \/ n = 4.
Proof. intros n. rewrite orb_true_iff, !Z.eqb_eq. reflexivity. Qed.

Lemma parse_items : forall z l st st', List.Forall (item_ok z) l -> spaced l -> steps st l st' ->
  parse_tokens (map (classify z) (render l)) st = Some st' /\ existsb is_other (map (classify z) (render l)) = false.
Proof.
  intros z l. induction l as [|i l IH]; intros st st' Hok Hsp H; inversion H as [|st0 i0 st1 l0 st2 Hs Hss]; subst; [split; reflexivity|].
  apply List.Forall_cons_iff in Hok. destruct Hok as [Hi Hok]. destruct (IH st1 st' Hok (spaced_tail i l Hsp) Hss) as [P O].
  unfold render in *. cbn [flat_map]. rewrite map_app, existsb_app.
  inversion Hs as [st2 s st3 Ht|st2 v n Hn|st2|st2 v n Hn|st2 v n Hn Ho|st2|st2|st2]; subst; cbn [item_ok] in Hi; cbn [render_item map app existsb].
  - rewrite (classify_plain z s Hi). cbn [parse_tokens is_other orb]. rewrite Ht. split; assumption.
  - destruct Hi as [Hp _]. rewrite (classify_plain z v Hp). cbn [classify String.eqb Ascii.eqb Bool.eqb parse_tokens is_other orb].
    rewrite (proj2 (py_int_iff v n) Hn). split; assumption.
  - cbn [classify String.eqb Ascii.eqb Bool.eqb is_other orb]. split; [|exact O]. cbn [parse_tokens]. fold (set_c st (Some 128)).
    destruct (map (classify z) (flat_map render_item l)) as [|t ts] eqn:E; [exact P|].
    destruct t; try exact P. exfalso.
    destruct l as [|j l]; [discriminate|]. destruct j as [s'|v|[v|]|v| | |]; cbn in E; try discriminate.
    + exact (Hsp [] l s' eq_refl).
    + destruct z; cbn in E; [discriminate|]. apply List.Forall_cons_iff in Hok. destruct Hok as [Hz _]. discriminate Hz.
  - destruct Hi as [Hp _]. rewrite (classify_plain z v Hp). cbn [classify String.eqb Ascii.eqb Bool.eqb parse_tokens is_other orb].
    rewrite (proj2 (py_int_iff v n) Hn). split; assumption.
  - destruct Hi as [Hp _]. rewrite (classify_plain z v Hp). cbn [classify String.eqb Ascii.eqb Bool.eqb parse_tokens is_other orb].
    rewrite (proj2 (py_int_iff v n) Hn). rewrite (proj2 (order_ok n) Ho). split; assumption.
  - split; [exact P|exact O].
  - split; [exact P|exact O].
  - rewrite Hi in *. split; [exact P|exact O].
Qed.

Lemma items_parse : forall z k argv st st', (length argv <= k)%nat -> existsb is_other (map (classify z) argv) = false ->
  parse_tokens (map (classify z) argv) st = Some st' ->
  exists l, render l = argv /\ List.Forall (item_ok z) l /\ spaced l /\ steps st l st'.
Proof.
  intros z. induction k as [|k IH]; intros argv st st' Hk Ho Hp.
  { destruct argv; [|cbn in Hk; lia]. cbn in Hp. injection Hp as <-. exists []. split; [reflexivity|]. split; [constructor|].
    split; [intros [|? a] b s E; discriminate|constructor]. }
  destruct argv as [|s argv].
  { cbn in Hp. injection Hp as <-. exists []. split; [reflexivity|]. split; [constructor|]. split; [intros [|? a] b s E; discriminate|constructor]. }
  cbn [length] in Hk. cbn [map existsb] in Ho, Hp. apply orb_false_iff in Ho. destruct Ho as [Ho1 Ho].
  assert (SP : forall i l, i <> OptC None -> spaced l -> spaced (i :: l)).
  { intros i l Hi Hl [|j a] b u E; injection E as E1 E2; [contradiction|]. exact (Hl a b u E2). }
  destruct (classify_cases z s) as [[E Pl]|[[E ->]|[[E ->]|[[E ->]|[[E ->]|[[E ->]|[[E [-> Hz]]|E]]]]]]]; rewrite E in Hp, Ho1; cbn [parse_tokens] in Hp.
  - destruct (take_pos s st) as [st1|] eqn:Et; [|discriminate].
    destruct (IH argv st1 st' ltac:(lia) Ho Hp) as (l & R & F & S1 & S2). exists (Arg s :: l).
    split; [unfold render in *; cbn; rewrite R; reflexivity|]. split; [constructor; [exact Pl|exact F]|].
    split; [apply SP; [discriminate|exact S1]|]. econstructor; [constructor; exact Et|exact S2].
  - destruct argv as [|v argv]; [discriminate|]. cbn [map] in Hp, Ho. cbn [length] in Hk. cbn [existsb] in Ho. apply orb_false_iff in Ho. destruct Ho as [_ Ho].
    destruct (classify_cases z v) as [[E2 Pl]|[[E2 _]|[[E2 _]|[[E2 _]|[[E2 _]|[[E2 _]|[[E2 _]|E2]]]]]]]; rewrite E2 in Hp; try discriminate.
    destruct (py_int v) as [n|] eqn:En; [|discriminate]. apply py_int_iff in En.
    destruct (IH argv _ st' ltac:(lia) Ho Hp) as (l & R & F & S1 & S2). exists (OptN v :: l).
    split; [unfold render in *; cbn; rewrite R; reflexivity|]. split; [constructor; [split; [exact Pl|exists n; exact En]|exact F]|].
    split; [apply SP; [discriminate|exact S1]|]. econstructor; [constructor; exact En|exact S2].
  - assert (HC : (exists v argv', argv = v :: argv' /\ classify z v = TPlain v /\ plain v) \/
        (parse_tokens (map (classify z) argv) (set_c st (Some 128)) = Some st' /\ forall v argv', argv = v :: argv' -> ~ plain v)).
    { destruct argv as [|v argv]; [right; split; [exact Hp|intros; discriminate]|].
      destruct (classify_cases z v) as [[E2 Pl]|Hrest]; [left; exists v, argv; auto|]. right.
      assert (NP : ~ plain v) by (intros Pl; rewrite (classify_plain z v Pl) in Hrest;
        destruct Hrest as [[X _]|[[X _]|[[X _]|[[X _]|[[X _]|[[X _]|X]]]]]]; discriminate X).
      split; [|intros v' a' E3; injection E3 as <- <-; exact NP]. cbn [map] in Hp |- *.
      destruct Hrest as [[X _]|[[X _]|[[X _]|[[X _]|[[X _]|[[X _]|X]]]]]]; rewrite X in Hp |- *; exact Hp. }
    destruct HC as [(v & argv' & -> & E2 & Pl)|[Hp2 NP]].
    + cbn [map] in Hp, Ho. cbn [length] in Hk. cbn [existsb] in Ho. apply orb_false_iff in Ho. destruct Ho as [_ Ho]. rewrite E2 in Hp.
      destruct (py_int v) as [n|] eqn:En; [|discriminate]. apply py_int_iff in En.
      destruct (IH argv' _ st' ltac:(lia) Ho Hp) as (l & R & F & S1 & S2). exists (OptC (Some v) :: l).
      split; [unfold render in *; cbn; rewrite R; reflexivity|]. split; [constructor; [split; [exact Pl|exists n; exact En]|exact F]|].
      split; [apply SP; [discriminate|exact S1]|]. econstructor; [constructor; exact En|exact S2].
    + destruct (IH argv _ st' ltac:(lia) Ho Hp2) as (l & R & F & S1 & S2). exists (OptC None :: l).
      split; [unfold render in *; cbn; rewrite R; reflexivity|]. split; [constructor; [exact Logic.I|exact F]|].
      split; [|econstructor; [constructor|exact S2]].
      intros [|j a] b u E3; injection E3 as E3; [|exact (S1 a b u H)].
      subst l. apply List.Forall_cons_iff in F. destruct F as [Pu _]. cbn in R. exact (NP u _ (eq_sym R) Pu).
  - destruct argv as [|v argv]; [discriminate|]. cbn [map] in Hp, Ho. cbn [length] in Hk. cbn [existsb] in Ho. apply orb_false_iff in Ho. destruct Ho as [_ Ho].
    destruct (classify_cases z v) as [[E2 Pl]|[[E2 _]|[[E2 _]|[[E2 _]|[[E2 _]|[[E2 _]|[[E2 _]|E2]]]]]]]; rewrite E2 in Hp; try discriminate.
    destruct (py_int v) as [n|] eqn:En; [|discriminate]. apply py_int_iff in En.
    destruct ((n =? 2) || (n =? 4)) eqn:Eo; [|discriminate]. apply order_ok in Eo.
    destruct (IH argv _ st' ltac:(lia) Ho Hp) as (l & R & F & S1 & S2). exists (OptO v :: l).
    split; [unfold render in *; cbn; rewrite R; reflexivity|].
    split; [constructor; [split; [exact Pl|destruct Eo; subst; tauto]|exact F]|].
    split; [apply SP; [discriminate|exact S1]|]. econstructor; [exact (s_o st v n En Eo)|exact S2].
  - destruct (IH argv _ st' ltac:(lia) Ho Hp) as (l & R & F & S1 & S2). exists (OptR :: l).
    split; [unfold render in *; cbn; rewrite R; reflexivity|]. split; [constructor; [exact Logic.I|exact F]|].
    split; [apply SP; [discriminate|exact S1]|]. econstructor; [constructor|exact S2].
  - destruct (IH argv _ st' ltac:(lia) Ho Hp) as (l & R & F & S1 & S2). exists (OptAcheat :: l).
    split; [unfold render in *; cbn; rewrite R; reflexivity|]. split; [constructor; [exact Logic.I|exact F]|].
    split; [apply SP; [discriminate|exact S1]|]. econstructor; [constructor|exact S2].
  - destruct (IH argv _ st' ltac:(lia) Ho Hp) as (l & R & F & S1 & S2). exists (OptZ1cheat :: l).
    split; [unfold render in *; cbn; rewrite R; reflexivity|]. split; [constructor; [exact Hz|exact F]|].
    split; [apply SP; [discriminate|exact S1]|]. econstructor; [constructor|exact S2].
  - discriminate.
Qed.

(** ** Meaning *)

Lemma last_cons_yes : forall (A : Type) (P : item -> A -> Prop) d i w l v, P i w -> last_given P w l v -> last_given P d (i :: l) v.
Proof.
  intros A P d i w l v Hi [(a & j & b & -> & Hj & Hb)|[-> Hb]].
  - left. exists (i :: a), j, b. split; [reflexivity|]. split; assumption.
  - left. exists [], i, l. split; [reflexivity|]. split; assumption.
Qed.

Lemma last_cons_no : forall (A : Type) (P : item -> A -> Prop) d i l v, (forall w, ~ P i w) -> last_given P d l v -> last_given P d (i :: l) v.
Proof.
  intros A P d i l v Hi [(a & j & b & -> & Hj & Hb)|[-> Hb]].
  - left. exists (i :: a), j, b. split; [reflexivity|]. split; assumption.
  - right. split; [reflexivity|]. intros j w [<-|Hj]; [apply Hi|apply Hb, Hj].
Qed.

Lemma last_cons_inv : forall (A : Type) (P : item -> A -> Prop), (forall i v w, P i v -> P i w -> v = w) ->
  forall d i l v, last_given P d (i :: l) v ->
  (forall w, P i w -> last_given P w l v) /\ ((forall w, ~ P i w) -> last_given P d l v).
Proof.
  intros A P F d i l v [(a & j & b & E & Hj & Hb)|[-> Hb]].
  - destruct a as [|k a]; cbn in E; injection E as E1 E2.
    + subst j b. split; [|intros H; exfalso; exact (H v Hj)]. intros w Hw. right. split; [exact (F i v w Hj Hw)|exact Hb].
    + subst k l. split; intros; left; exists a, j, b; (split; [reflexivity|split; assumption]).
  - split; [intros w Hw; exfalso; exact (Hb i w (or_introl eq_refl) Hw)|].
    intros _. right. split; [reflexivity|]. intros j w Hj. apply Hb. right. exact Hj.
Qed.

Lemma last_unique : forall (A : Type) (P : item -> A -> Prop), (forall i v w, P i v -> P i w -> v = w) ->
  forall l, (forall i, In i l -> (exists w, P i w) \/ (forall w, ~ P i w)) ->
  forall d v w, last_given P d l v -> last_given P d l w -> v = w.
Proof.
  intros A P F l. induction l as [|i l IH]; intros D d v w Hv Hw.
  - destruct Hv as [([|? a] & j & b & E & _)|[-> _]]; [discriminate|discriminate|].
    destruct Hw as [([|? a] & j & b & E & _)|[-> _]]; [discriminate|discriminate|]. reflexivity.
  - apply (last_cons_inv A P F) in Hv, Hw. specialize (IH (fun j Hj => D j (or_intror Hj))).
    destruct (D i (or_introl eq_refl)) as [[u Hu]|Hn].
    + exact (IH u v w (proj1 Hv u Hu) (proj1 Hw u Hu)).
    + exact (IH d v w (proj2 Hv Hn) (proj2 Hw Hn)).
Qed.

Lemma gives_N_fun : forall i v w, gives_N i v -> gives_N i w -> v = w.
Proof. intros [] v0 w0; cbn; try tauto. apply int_val_fun. Qed.
Lemma gives_o_fun : forall i v w, gives_o i v -> gives_o i w -> v = w.
Proof. intros [] v0 w0; cbn; try tauto. apply int_val_fun. Qed.
Lemma gives_c_fun : forall i v w, gives_c i v -> gives_c i w -> v = w.
Proof.
  intros [s|v|[v|]|v| | |] a b; cbn; try tauto; [|congruence].
  intros (m & -> & H1) (m' & -> & H2). f_equal. exact (int_val_fun v m m' H1 H2).
Qed.

Lemma int_dec : forall v, (exists n, int_val v n) \/ (forall n, ~ int_val v n).
Proof.
  intros v. destruct (py_int v) as [n|] eqn:E; [left; exists n; apply py_int_iff, E|].
  right. intros n H. apply py_int_iff in H. congruence.
Qed.

Lemma gives_dec : forall i, ((exists w, gives_N i w) \/ (forall w, ~ gives_N i w)) /\ ((exists w, gives_c i w) \/ (forall w, ~ gives_c i w)) /\
  ((exists w, gives_o i w) \/ (forall w, ~ gives_o i w)).
Proof.
  intros [s|v|[v|]|v| | |]; cbn; (split; [|split]); try (right; tauto).
  - apply int_dec.
  - destruct (int_dec v) as [[n Hn]|Hn]; [left; exists (Some n), n; split; [reflexivity|exact Hn]|].
    right. intros w (m & -> & Hm). exact (Hn m Hm).
  - left. exists (Some 128). reflexivity.
  - apply int_dec.
Qed.

Definition pos_ok (st : cli_state) : Prop :=
  match cs_pos st with
  | [] => cs_extra st = false
  | [p] => In p problem_choices /\ cs_extra st = false
  | [p; b] => In p problem_choices /\ In b boundary_choices
  | _ => False
  end.

Lemma choice_in : forall l s, is_choice l s = true <-> In s l.
Proof.
  intros l s. unfold is_choice. rewrite existsb_exists. split.
  - intros (x & Hx & E). apply String.eqb_eq in E. subst. exact Hx.
  - intros H. exists s. split; [exact H|apply String.eqb_refl].
Qed.

Lemma flag_cons : forall (b : bool) (i j : item) l, i <> j -> ((b = true \/ In j l) <-> (b = true \/ In j (i :: l))).
Proof. intros b i j l H. cbn [In]. tauto. Qed.

Lemma steps_mean : forall l st st', steps st l st' -> pos_ok st ->
  last_given gives_N (cs_N st) l (cs_N st') /\ last_given gives_c (cs_c st) l (cs_c st') /\ last_given gives_o (cs_o st) l (cs_o st') /\
  (cs_r st' = true <-> cs_r st = true \/ In OptR l) /\ (cs_acheat st' = true <-> cs_acheat st = true \/ In OptAcheat l) /\
  (cs_z1 st' = true <-> cs_z1 st = true \/ In OptZ1cheat l) /\
  pos_ok st' /\ (cs_extra st' = false -> cs_extra st = false /\ cs_pos st' = cs_pos st ++ args_of l).
Proof.
  induction l as [|i l IH]; intros st st' H Hp; inversion H as [st0|st0 i0 st1 l0 st2 Hs Hss]; subst.
  - assert (L : forall (A : Type) (P : item -> A -> Prop) d, last_given P d [] d) by (intros A P d; right; split; [reflexivity|intros j w []]).
    split; [apply L|]. split; [apply L|]. split; [apply L|]. cbn [In]. split; [tauto|]. split; [tauto|]. split; [tauto|]. split; [exact Hp|].
    intros He. split; [exact He|]. symmetry. apply app_nil_r.
  - assert (NN : forall i, (match i with OptN _ => False | _ => True end) -> forall w, ~ gives_N i w) by (intros [] Hi w; cbn in *; tauto).
    assert (NC : forall i, (match i with OptC _ => False | _ => True end) -> forall w, ~ gives_c i w) by (intros [] Hi w; cbn in *; tauto).
    assert (NO : forall i, (match i with OptO _ => False | _ => True end) -> forall w, ~ gives_o i w) by (intros [] Hi w; cbn in *; tauto).
    inversion Hs as [st2 s st3 Ht|st2 v n Hn|st2|st2 v n Hn|st2 v n Hn Ho|st2|st2|st2]; subst.
    + assert (Q : pos_ok st1 /\ cs_N st1 = cs_N st /\ cs_c st1 = cs_c st /\ cs_o st1 = cs_o st /\ cs_r st1 = cs_r st /\ cs_acheat st1 = cs_acheat st /\
          cs_z1 st1 = cs_z1 st /\ (cs_extra st1 = false -> cs_extra st = false /\ cs_pos st1 = cs_pos st ++ [s])).
      { unfold take_pos in Ht. unfold pos_ok in Hp |- *. destruct (cs_pos st) as [|p [|b [|]]] eqn:Ep.
        - destruct (is_choice problem_choices s) eqn:E; [|discriminate]. injection Ht as <-. cbn. apply choice_in in E. tauto.
        - destruct (is_choice boundary_choices s) eqn:E; [|discriminate]. injection Ht as <-. cbn. apply choice_in in E. tauto.
        - injection Ht as <-. cbn. repeat split; try tauto; discriminate.
        - destruct Hp. }
      destruct Q as (Q1 & Q2 & Q3 & Q4 & Q5 & Q6 & Q7 & Q8).
      destruct (IH st1 st' Hss Q1) as (H1 & H2 & H3 & H4 & H5 & H6 & H7 & H8). rewrite Q2 in H1. rewrite Q3 in H2. rewrite Q4 in H3. rewrite Q5 in H4. rewrite Q6 in H5. rewrite Q7 in H6.
      split; [apply last_cons_no; [apply NN; exact Logic.I|exact H1]|]. split; [apply last_cons_no; [apply NC; exact Logic.I|exact H2]|].
      split; [apply last_cons_no; [apply NO; exact Logic.I|exact H3]|].
      rewrite <- !(flag_cons _ (Arg s)) by discriminate. do 4 (split; [assumption|]).
      intros He. destruct (H8 He) as [He1 Epos]. destruct (Q8 He1) as [He0 Epos1]. split; [exact He0|]. rewrite Epos, Epos1, <- app_assoc. reflexivity.
    + destruct (IH _ st' Hss Hp) as (H1 & H2 & H3 & H4 & H5 & H6 & H7 & H8). cbn [set_N cs_N cs_c cs_o cs_r cs_acheat cs_z1 cs_extra cs_pos] in *.
      split; [apply (last_cons_yes _ _ _ _ n); [exact Hn|exact H1]|]. split; [apply last_cons_no; [apply NC; exact Logic.I|exact H2]|].
      split; [apply last_cons_no; [apply NO; exact Logic.I|exact H3]|].
      rewrite <- !(flag_cons _ (OptN v)) by discriminate. do 4 (split; [assumption|]). exact H8.
    + destruct (IH _ st' Hss Hp) as (H1 & H2 & H3 & H4 & H5 & H6 & H7 & H8). cbn [set_c cs_N cs_c cs_o cs_r cs_acheat cs_z1 cs_extra cs_pos] in *.
      split; [apply last_cons_no; [apply NN; exact Logic.I|exact H1]|]. split; [apply (last_cons_yes _ _ _ _ (Some 128)); [reflexivity|exact H2]|].
      split; [apply last_cons_no; [apply NO; exact Logic.I|exact H3]|].
      rewrite <- !(flag_cons _ (OptC None)) by discriminate. do 4 (split; [assumption|]). exact H8.
    + destruct (IH _ st' Hss Hp) as (H1 & H2 & H3 & H4 & H5 & H6 & H7 & H8). cbn [set_c cs_N cs_c cs_o cs_r cs_acheat cs_z1 cs_extra cs_pos] in *.
      split; [apply last_cons_no; [apply NN; exact Logic.I|exact H1]|]. split; [apply (last_cons_yes _ _ _ _ (Some n)); [exists n; split; [reflexivity|exact Hn]|exact H2]|].
      split; [apply last_cons_no; [apply NO; exact Logic.I|exact H3]|].
      rewrite <- !(flag_cons _ (OptC (Some v))) by discriminate. do 4 (split; [assumption|]). exact H8.
    + destruct (IH _ st' Hss Hp) as (H1 & H2 & H3 & H4 & H5 & H6 & H7 & H8). cbn [set_o cs_N cs_c cs_o cs_r cs_acheat cs_z1 cs_extra cs_pos] in *.
      split; [apply last_cons_no; [apply NN; exact Logic.I|exact H1]|]. split; [apply last_cons_no; [apply NC; exact Logic.I|exact H2]|].
      split; [apply (last_cons_yes _ _ _ _ n); [exact Hn|exact H3]|].
      rewrite <- !(flag_cons _ (OptO v)) by discriminate. do 4 (split; [assumption|]). exact H8.
    + destruct (IH _ st' Hss Hp) as (H1 & H2 & H3 & H4 & H5 & H6 & H7 & H8). cbn [set_r cs_N cs_c cs_o cs_r cs_acheat cs_z1 cs_extra cs_pos] in *.
      split; [apply last_cons_no; [apply NN; exact Logic.I|exact H1]|]. split; [apply last_cons_no; [apply NC; exact Logic.I|exact H2]|].
      split; [apply last_cons_no; [apply NO; exact Logic.I|exact H3]|].
      rewrite <- (flag_cons _ OptR OptAcheat), <- (flag_cons _ OptR OptZ1cheat) by discriminate. cbn [In]. repeat split; try tauto; apply H8; assumption.
    + destruct (IH _ st' Hss Hp) as (H1 & H2 & H3 & H4 & H5 & H6 & H7 & H8). cbn [set_acheat cs_N cs_c cs_o cs_r cs_acheat cs_z1 cs_extra cs_pos] in *.
      split; [apply last_cons_no; [apply NN; exact Logic.I|exact H1]|]. split; [apply last_cons_no; [apply NC; exact Logic.I|exact H2]|].
      split; [apply last_cons_no; [apply NO; exact Logic.I|exact H3]|].
      rewrite <- (flag_cons _ OptAcheat OptR), <- (flag_cons _ OptAcheat OptZ1cheat) by discriminate. cbn [In]. repeat split; try tauto; apply H8; assumption.
    + destruct (IH _ st' Hss Hp) as (H1 & H2 & H3 & H4 & H5 & H6 & H7 & H8). cbn [set_z1 cs_N cs_c cs_o cs_r cs_acheat cs_z1 cs_extra cs_pos] in *.
      split; [apply last_cons_no; [apply NN; exact Logic.I|exact H1]|]. split; [apply last_cons_no; [apply NC; exact Logic.I|exact H2]|].
      split; [apply last_cons_no; [apply NO; exact Logic.I|exact H3]|].
      rewrite <- (flag_cons _ OptZ1cheat OptR), <- (flag_cons _ OptZ1cheat OptAcheat) by discriminate. cbn [In]. repeat split; try tauto; apply H8; assumption.
Qed.

Lemma steps_total : forall z l st p b, List.Forall (item_ok z) l -> cs_pos st ++ args_of l = [p; b] -> In p problem_choices -> In b boundary_choices ->
  exists st', steps st l st' /\ cs_extra st' = cs_extra st /\ cs_pos st' = [p; b].
Proof.
  intros z. induction l as [|i l IH]; intros st p b Hok Hpos Hp Hb.
  - exists st. split; [constructor|]. split; [reflexivity|]. rewrite app_nil_r in Hpos. exact Hpos.
  - apply List.Forall_cons_iff in Hok. destruct Hok as [Hi Hok].
    destruct i as [s|v|[v|]|v| | |]; cbn [item_ok] in Hi.
    + cbn [args_of flat_map app] in Hpos.
      assert (T : exists st1, take_pos s st = Some st1 /\ cs_extra st1 = cs_extra st /\ cs_pos st1 = cs_pos st ++ [s]).
      { unfold take_pos. destruct (cs_pos st) as [|q [|c [|]]] eqn:Ep; cbn in Hpos.
        - injection Hpos as -> Hl. rewrite (proj2 (choice_in _ _) Hp). eexists. split; [reflexivity|]. split; reflexivity.
        - injection Hpos as -> -> Hl. rewrite (proj2 (choice_in _ _) Hb). eexists. split; [reflexivity|]. split; reflexivity.
        - discriminate.
        - discriminate. }
      destruct T as (st1 & T1 & T2 & T3). destruct (IH st1 p b Hok) as (st' & S1 & S2 & S3); [rewrite T3, <- app_assoc; exact Hpos|assumption|assumption|].
      exists st'. split; [econstructor; [constructor; exact T1|exact S1]|]. split; [congruence|exact S3].
    + destruct Hi as [_ [n Hn]]. destruct (IH (set_N st n) p b Hok Hpos Hp Hb) as (st' & S1 & S2). exists st'. split; [econstructor; [constructor; exact Hn|exact S1]|exact S2].
    + destruct Hi as [_ [n Hn]]. destruct (IH (set_c st (Some n)) p b Hok Hpos Hp Hb) as (st' & S1 & S2). exists st'. split; [econstructor; [constructor; exact Hn|exact S1]|exact S2].
    + destruct (IH (set_c st (Some 128)) p b Hok Hpos Hp Hb) as (st' & S1 & S2). exists st'. split; [econstructor; [constructor|exact S1]|exact S2].
    + assert (E : exists n, int_val v n /\ (n = 2 \/ n = 4)) by (destruct Hi as [_ [H|H]]; [exists 2|exists 4]; auto).
      destruct E as (n & Hn & Ho). destruct (IH (set_o st n) p b Hok Hpos Hp Hb) as (st' & S1 & S2). exists st'. split; [econstructor; [exact (s_o st v n Hn Ho)|exact S1]|exact S2].
    + destruct (IH (set_r st) p b Hok Hpos Hp Hb) as (st' & S1 & S2). exists st'. split; [econstructor; [constructor|exact S1]|exact S2].
    + destruct (IH (set_acheat st) p b Hok Hpos Hp Hb) as (st' & S1 & S2). exists st'. split; [econstructor; [constructor|exact S1]|exact S2].
    + destruct (IH (set_z1 st) p b Hok Hpos Hp Hb) as (st' & S1 & S2). exists st'. split; [econstructor; [constructor|exact S1]|exact S2].
Qed.

Lemma start_ok : pos_ok cli_start.
Proof. reflexivity. Qed.

Definition final_args st p b := mk_cli p b (cs_N st) (cs_c st) (cs_o st) (cs_r st) (cs_acheat st) (cs_z1 st).

Lemma parse_shape : forall z argv a, parse_args z argv = Parsed a <->
  existsb is_other (map (classify z) argv) = false /\ exists st p b, parse_tokens (map (classify z) argv) cli_start = Some st /\
  cs_pos st = [p; b] /\ cs_extra st = false /\ a = final_args st p b.
Proof.
  intros z argv a. unfold parse_args. cbv zeta. destruct (existsb is_other (map (classify z) argv)); [split; [discriminate|intros [E _]; discriminate]|].
  destruct (parse_tokens (map (classify z) argv) cli_start) as [[pos n c o r ach z1 ex]|].
  2:{ split; [discriminate|]. intros (_ & st & p & b & E & _). discriminate. }
  split.
  - destruct pos as [|p [|b [|]]]; try discriminate. destruct ex; [discriminate|]. intros E. injection E as <-. split; [reflexivity|].
    eexists; exists p, b. split; [reflexivity|]. split; [reflexivity|]. split; reflexivity.
  - intros (_ & st & p & b & E & Ep & Ee & ->). injection E as <-. cbn in Ep, Ee. subst. reflexivity.
Qed.

Lemma state_means : forall l st p b, steps cli_start l st -> cs_pos st = [p; b] -> cs_extra st = false -> means l (final_args st p b).
Proof.
  intros l st p b Hs Hp He. destruct (steps_mean l cli_start st Hs start_ok) as (H1 & H2 & H3 & H4 & H5 & H6 & H7 & H8).
  destruct (H8 He) as [_ E]. cbn in E. unfold pos_ok in H7. rewrite Hp in H7. cbn in H4, H5, H6.
  unfold means, final_args. cbn [ca_problem ca_boundary ca_N ca_c ca_o ca_r ca_acheat ca_z1cheat].
  split; [rewrite <- E; exact Hp|]. split; [tauto|]. split; [tauto|]. split; [exact H1|]. split; [exact H2|]. split; [exact H3|].
  split; [|split]; intuition discriminate.
Qed.

Lemma means_unique : forall l a b, means l a -> means l b -> a = b.
Proof.
  intros l [p1 b1 N1 c1 o1 r1 h1 z1] [p2 b2 N2 c2 o2 r2 h2 z2] (A1 & _ & _ & A2 & A3 & A4 & A5 & A6 & A7) (B1 & _ & _ & B2 & B3 & B4 & B5 & B6 & B7).
  cbn in *. rewrite A1 in B1. injection B1 as -> ->.
  assert (E2 : N1 = N2) by (apply (last_unique _ gives_N gives_N_fun l (fun i _ => proj1 (gives_dec i)) 16); assumption).
  assert (E3 : c1 = c2) by (apply (last_unique _ gives_c gives_c_fun l (fun i _ => proj1 (proj2 (gives_dec i))) None); assumption).
  assert (E4 : o1 = o2) by (apply (last_unique _ gives_o gives_o_fun l (fun i _ => proj2 (proj2 (gives_dec i))) 4); assumption).
  assert (E5 : r1 = r2) by (apply eq_true_iff_eq; rewrite A5, B5; reflexivity).
  assert (E6 : h1 = h2) by (apply eq_true_iff_eq; rewrite A6, B6; reflexivity).
  assert (E7 : z1 = z2) by (apply eq_true_iff_eq; rewrite A7, B7; reflexivity).
  subst. reflexivity.
Qed.

Lemma parse_iff : forall z argv a, parse_args z argv = Parsed a <->
  exists l, render l = argv /\ List.Forall (item_ok z) l /\ spaced l /\ means l a.
Proof.
  intros z argv a. rewrite parse_shape. split.
  - intros (Ho & st & p & b & Hp & Epos & Eex & ->).
    destruct (items_parse z (length argv) argv cli_start st (le_n _) Ho Hp) as (l & R & F & S1 & S2).
    exists l. split; [exact R|]. split; [exact F|]. split; [exact S1|]. apply state_means; assumption.
  - intros (l & <- & F & S1 & M). destruct M as (M1 & M2 & M3 & M4).
    destruct (steps_total z l cli_start _ _ F M1 M2 M3) as (st & Hs & He & Hp).
    destruct (parse_items z l cli_start st F S1 Hs) as [P O]. split; [exact O|].
    exists st, (ca_problem a), (ca_boundary a). split; [exact P|]. split; [exact Hp|]. split; [exact He|].
    apply (means_unique l); [repeat split; try assumption; apply M4|]. apply state_means; assumption.
Qed.
