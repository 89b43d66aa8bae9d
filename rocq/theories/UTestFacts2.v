(** Lemmas about the test program, and about suites with null pointers. *)
From Coq Require Import List Bool ZArith String Lia Arith.
From Verif Require Import UTest SpecUTest UTestFacts.
Import ListNotations.
Open Scope Z_scope.

(** the end of a run over existing tests: normal or by an exception; nothing is
    printed but introductions and failures *)
Definition no_summary (x : nat * line) : Prop :=
  match snd x with LIntro _ _ | LFailure _ _ => True | _ => False end.
Definition tame {A} (w : world) (r : ures A) : Prop :=
  match r with
  | Done _ w' | Thrown w' => (forall b, w_heap w b <> None -> w_heap w' b <> None)
      /\ exists x, w_out w' = w_out w ++ x /\ Forall no_summary x
  | _ => False
  end.

Lemma tame_trans : forall {A} w w1 (r : ures A),
  (forall b, w_heap w b <> None -> w_heap w1 b <> None) ->
  (exists x, w_out w1 = w_out w ++ x /\ Forall no_summary x) -> tame w1 r -> tame w r.
Proof.
  intros A w w1 r H (x & X & F) T. destruct r as [u w2|w2| | |]; cbn [tame] in *; try contradiction;
    (destruct T as (H2 & y & Y & G); split; [auto|]; exists (x ++ y); split; [rewrite Y, X, app_assoc; reflexivity|apply Forall_app; auto]).
Qed.

Lemma doStep_tame : forall w a x, w_heap w a <> None -> tame w (doStep w a x).
Proof.
  intros w a x H. unfold doStep. destruct (w_heap w a) as [t|] eqn:Ha; [|congruence].
  destruct x as [c lbl n|lbl n| |]; [destruct c| | |]; cbn [negb tame]; unfold doFail, print, setTest; try destruct (t_stream (tfail t)); cbn [w_heap w_out];
    (split; [intros b; try destruct (Nat.eqb b a); auto; discriminate|]); first [exists []; rewrite app_nil_r; split; [reflexivity|constructor]
    | eexists; split; [reflexivity|repeat constructor]].
Qed.

Lemma doSteps_tame : forall a l w, w_heap w a <> None -> tame w (doSteps w a l).
Proof.
  intros a l. induction l as [|x l IH]; intros w H.
  - cbn [doSteps tame]. split; [auto|]. exists []. rewrite app_nil_r. split; [reflexivity|constructor].
  - cbn [doSteps]. assert (T := doStep_tame w a x H). destruct (doStep w a x) as [u w1|w1| | |]; cbn [ubind]; try exact T.
    destruct T as [T1 T2]. apply (tame_trans w w1); auto.
Qed.

Lemma one_run_tame : forall script w a, w_heap w a <> None -> tame w (one_run script w a).
Proof.
  intros script w a H. unfold one_run. destruct (w_heap w a) as [t|] eqn:Ha; [|congruence]. unfold introTest. rewrite Ha.
  assert (R : forall w1, w_heap w1 a <> None -> tame w1 (runTest script w1 a)).
  { intros w1 H1. unfold runTest. destruct (w_heap w1 a) as [t1|] eqn:H1a; [|congruence].
    eapply tame_trans; [| |apply doSteps_tame].
    - intros b. cbn [setTest w_heap]. destruct (Nat.eqb b a); [discriminate|auto].
    - exists []. cbn [setTest w_out]. rewrite app_nil_r. split; [reflexivity|constructor].
    - cbn [setTest w_heap]. rewrite Nat.eqb_refl. discriminate. }
  destruct (t_stream t) as [n|]; cbn [ubind].
  - eapply tame_trans; [| |apply R].
    + intros b. cbn [print setTest w_heap]. destruct (Nat.eqb b a); [discriminate|auto].
    + cbn [print setTest w_out]. eexists. split; [reflexivity|repeat constructor].
    + cbn [print setTest w_heap]. rewrite Nat.eqb_refl. discriminate.
  - apply R. congruence.
Qed.

Lemma runAll_tame : forall dbg script l w, (forall a, In a l -> w_heap w a <> None) ->
  tame w (runAll dbg script w (map Some l)).
Proof.
  intros dbg script l. induction l as [|a l IH]; intros w H.
  - cbn [map runAll tame]. split; [auto|]. exists []. rewrite app_nil_r. split; [reflexivity|constructor].
  - cbn [map]. rewrite runAll_cons. assert (T := one_run_tame script w a (H a (or_introl eq_refl))).
    destruct (one_run script w a) as [u w1|w1| | |]; cbn [ubind]; try exact T.
    destruct T as [T1 T2]. apply (tame_trans w w1); auto. apply IH. intros b I. apply T1, H. right; exact I.
Qed.

Lemma run_tame : forall dbg script w s l, consists w s l -> tame w (run dbg script w s).
Proof.
  intros dbg script w s l [L A]. unfold run. rewrite L. destruct (resetAll_done dbg l w A) as (w1 & -> & _ & O & H). cbn [ubind].
  assert (Al : forall b, w_heap w b <> None -> w_heap w1 b <> None).
  { intros b. rewrite H. destruct (in_dec Nat.eq_dec b l); [|auto]. destruct (w_heap w b); [discriminate|congruence]. }
  apply (tame_trans w w1); auto.
  - exists []. rewrite app_nil_r. split; [exact O|constructor].
  - apply runAll_tame. auto.
Qed.

(** null pointers *)
Lemma in_none_split : forall ps : list (option nat), In None ps -> exists l ps', ps = map Some l ++ None :: ps'.
Proof.
  induction ps as [|[a|] ps IH]; intros I; [destruct I| |exists [], ps; reflexivity].
  destruct I as [I|I]; [discriminate|]. destruct (IH I) as (l & ps' & ->). exists (a :: l), ps'. reflexivity.
Qed.

Lemma resetAll_null : forall dbg ps' l w, (forall a, In a l -> w_heap w a <> None) ->
  null_end dbg (resetAll dbg w (map Some l ++ None :: ps')).
Proof.
  intros dbg ps' l. induction l as [|a l IH]; intros w A; cbn [map List.app resetAll usePtr]; [reflexivity|].
  destruct (w_heap w a) as [t|] eqn:Ha; [|exfalso; apply (A a); [left; reflexivity|exact Ha]].
  apply IH. intros b I. cbn [setTest w_heap]. destruct (Nat.eqb b a); [discriminate|]. apply A. right; exact I.
Qed.

Lemma sumAll_null : forall dbg f w ps' l tot, (forall a, In a l -> w_heap w a <> None) ->
  null_end dbg (sumAll dbg f w (map Some l ++ None :: ps') tot).
Proof.
  intros dbg f w ps' l. induction l as [|a l IH]; intros tot A; cbn [map List.app sumAll usePtr]; [reflexivity|].
  destruct (w_heap w a) as [t|] eqn:Ha; [|exfalso; apply (A a); [left; reflexivity|exact Ha]].
  apply IH. intros b I. apply A. right; exact I.
Qed.

Lemma reportAll_null : forall dbg n ps' l w tf ts, (forall a, In a l -> w_heap w a <> None) ->
  null_end dbg (reportAll dbg n w (map Some l ++ None :: ps') tf ts).
Proof.
  intros dbg n ps' l. induction l as [|a l IH]; intros w tf ts A; cbn [map List.app reportAll usePtr]; [reflexivity|].
  destruct (w_heap w a) as [t|] eqn:Ha; [|exfalso; apply (A a); [left; reflexivity|exact Ha]].
  apply IH. intros b I. cbn [print setTest w_heap]. destruct (Nat.eqb b a); [discriminate|]. apply A. right; exact I.
Qed.

(** the program *)
Definition made (c : string * string * string) : tobj :=
  let '(name, type, file) := c in TO name type file (Some 0%nat) 0 0 0.

Lemma addTests_done : forall l a w, su_stream (w_suite w 0) = Some 0%nat -> su_tests (w_suite w 0) = map Some (seq 0 a) ->
  exists w', addTests w a l = Done tt w' /\ w_out w' = w_out w
  /\ su_stream (w_suite w' 0) = Some 0%nat /\ su_tests (w_suite w' 0) = map Some (seq 0 (a + List.length l))
  /\ forall b, w_heap w' b = if (a <=? b)%nat then match nth_error l (b - a) with Some c => Some (made c) | None => w_heap w b end else w_heap w b.
Proof.
  induction l as [|[[name type] file] l IH]; intros a w S T.
  - exists w. cbn [addTests List.length]. rewrite Nat.add_0_r. repeat split; auto. intros b. destruct (a <=? b)%nat; [|reflexivity].
    destruct (b - a)%nat; reflexivity.
  - cbn [addTests]. set (w1 := newTest w a name type file).
    assert (H1 : w_heap w1 a = Some (made (name, type, file))) by (unfold w1, newTest, setTest; cbn [w_heap]; rewrite Nat.eqb_refl; reflexivity).
    destruct (addTest_done w1 0 a _ H1) as (w2 & E2 & O2 & H2 & S2). change (w_suite w1) with (w_suite w) in S2, H2.
    rewrite E2. cbn [ubind]. destruct (IH (Datatypes.S a) w2) as (w' & E & O & S' & T' & H').
    + rewrite S2. exact S.
    + rewrite S2. cbn [Nat.eqb su_tests]. rewrite T, seq_S, map_app. reflexivity.
    + exists w'. split; [exact E|]. split; [rewrite O, O2; reflexivity|]. split; [exact S'|]. split.
      { rewrite T'. cbn [List.length]. do 2 f_equal. lia. }
      intros b. rewrite H', H2, S. destruct (Nat.eqb_spec b a) as [->|N].
      * rewrite (proj2 (Nat.leb_gt (Datatypes.S a) a)) by lia. rewrite (proj2 (Nat.leb_le a a)) by lia. rewrite Nat.sub_diag. reflexivity.
      * assert (U : w_heap w1 b = w_heap w b). { unfold w1, newTest, setTest. cbn [w_heap]. destruct (Nat.eqb_spec b a); [contradiction|reflexivity]. }
        rewrite U. destruct (Nat.leb_spec (Datatypes.S a) b) as [L|L].
        -- rewrite (proj2 (Nat.leb_le a b)) by lia. replace (b - a)%nat with (Datatypes.S (b - Datatypes.S a)) by lia. reflexivity.
        -- rewrite (proj2 (Nat.leb_gt a b)) by lia. reflexivity.
Qed.

Lemma times_seq : forall n i, (i < n)%nat -> times i (seq 0 n) = 1%nat.
Proof.
  intros n i L. unfold times. assert (N := seq_NoDup n 0). apply (NoDup_count_occ' Nat.eq_dec); [exact N|]. apply in_seq. lia.
Qed.

Lemma sessions_1 : forall script a r, sessions script a r 1 = script a r.
Proof. intros. unfold sessions. cbn [seq flat_map]. rewrite app_nil_r, Nat.add_0_r. reflexivity. Qed.

Lemma flat_map_in : forall {A B} (f g : A -> list B) l, (forall x, In x l -> f x = g x) -> flat_map f l = flat_map g l.
Proof.
  intros A B f g l. induction l as [|x l IH]; intros H; [reflexivity|]. cbn [flat_map]. rewrite (H x) by (left; reflexivity).
  rewrite IH by (intros y I; apply H; right; exact I). reflexivity.
Qed.

Lemma map_flat_map : forall {A B C} (f : B -> C) (g : A -> list B) l, map f (flat_map g l) = flat_map (fun x => map f (g x)) l.
Proof. intros. induction l as [|x l IH]; [reflexivity|]. cbn [flat_map]. rewrite map_app, IH. reflexivity. Qed.

Lemma map_as_flat : forall {A B} (f : A -> B) l, map f l = flat_map (fun x => [f x]) l.
Proof. intros. induction l as [|x l IH]; [reflexivity|]. cbn [map flat_map List.app]. rewrite IH. reflexivity. Qed.

(** for tests that are all different *)
Lemma printed_nodup : forall script w l before, NoDup (before ++ l) ->
  printed script w before l = flat_map (fun a => match w_heap w a with
    | Some t => match t_stream t with
                | Some n => map (fun x => (n, x)) (LIntro (shown t) (t_file t) :: flat_map complaint (script a (t_runs t)))
                | None => [] end
    | None => [] end) l.
Proof.
  intros script w l. induction l as [|a l IH]; intros before N; [reflexivity|]. cbn [printed flat_map].
  rewrite IH by (rewrite <- app_assoc; exact N). replace (times a before) with 0%nat; [|symmetry; apply count_occ_not_In; intros I].
  - destruct (w_heap w a) as [t|]; [|reflexivity]. rewrite Nat.add_0_r. reflexivity.
  - apply NoDup_remove_2 in N. apply N. apply in_or_app. left; exact I.
Qed.

Lemma total_count : forall (f : tobj -> Z) g script w l, (forall a, In a l -> exists t, w_heap w a = Some t /\ f t = count g (script a)) ->
  total f w l = count g (flat_map script l).
Proof.
  intros f g script w l. induction l as [|a l IH]; intros H; [reflexivity|]. cbn [total flat_map]. rewrite count_app.
  destruct (H a (or_introl eq_refl)) as (t & -> & ->). rewrite IH by (intros b I; apply H; right; exact I). reflexivity.
Qed.

Lemma program_done : forall dbg script l, (forall i, (i < List.length l)%nat -> ~ In Raise (script i 0%nat)) ->
  exists w', unitMain dbg script l = Done 0 w' /\ w_out w' = map (fun x => (0%nat, x)) (program_output script l).
Proof.
  intros dbg script l Q. unfold unitMain. set (n := List.length l) in *.
  destruct (addTests_done l 0 (introSuite start 0) eq_refl eq_refl) as (w1 & E1 & O1 & S1 & T1 & H1). rewrite E1. cbn [ubind].
  cbn [Nat.add] in T1. fold n in T1.
  assert (Hi : forall i, (i < n)%nat -> exists c, nth_error l i = Some c /\ w_heap w1 i = Some (made c)).
  { intros i I. rewrite H1. cbn [Nat.leb]. rewrite Nat.sub_0_r. destruct (nth_error l i) as [c|] eqn:C; [eauto|].
    apply nth_error_None in C. unfold n in I. lia. }
  assert (Cn : consists w1 0 (seq 0 n)).
  { split; [exact T1|]. intros a I. apply in_seq in I. destruct (Hi a) as (c & _ & ->); [lia|discriminate]. }
  assert (Qu : quiet script w1 (seq 0 n)).
  { intros a t j I Ha J. assert (L : (a < n)%nat) by (apply in_seq in I; lia). rewrite (times_seq n a L) in J. replace j with 0%nat by lia.
    destruct (Hi a L) as ([[nm ty] fl] & _ & X). rewrite X in Ha. injection Ha as <-. apply Q. exact L. }
  destruct (run_done dbg script w1 0 _ Cn Qu) as (w2 & E2 & S2 & H2 & _ & O2). rewrite E2. cbn [ubind].
  assert (Hr : forall i, (i < n)%nat -> exists t, w_heap w2 i = Some t /\ shown t = class_name l i
      /\ t_pass t = count good (script i 0%nat) /\ t_fail t = count bad (script i 0%nat)).
  { intros i I. destruct (Hi i I) as ([[nm ty] fl] & C & X). rewrite H2 by (apply in_seq; lia). rewrite X, (times_seq n i I). cbn [option_map].
    eexists. split; [reflexivity|]. unfold ran, made. cbn [t_pass t_fail t_runs]. rewrite sessions_1. split; [|split; reflexivity].
    transitivity (shown (TO nm ty fl (Some 0%nat) 0 0 0)); [apply shown_idem; reflexivity|].
    unfold class_name. rewrite (nth_error_nth _ _ _ C). destruct nm; reflexivity. }
  unfold report. rewrite S2, S1, T1.
  destruct (reportAll_done dbg 0 (seq 0 n) w2 0 0) as (w3 & E3 & S3 & H3 & O3).
  { intros a I. destruct (Hr a) as (t & -> & _); [apply in_seq in I; lia|discriminate]. }
  rewrite E3. cbn [ubind]. exists w3. split; [reflexivity|]. rewrite O3, O2, O1. cbn [introSuite start print w_suite su_stream w_out w_heap List.app].
  unfold program_output. cbn [map]. f_equal.
  match goal with |- _ = map _ (?a ++ ?b) => rewrite (map_app _ a b) end. f_equal.
  - rewrite printed_nodup by (apply seq_NoDup). rewrite map_flat_map. apply flat_map_in. intros i I. apply in_seq in I.
    destruct (Hi i) as ([[nm ty] fl] & C & X); [lia|]. rewrite X. cbn [made t_stream t_file t_runs]. unfold class_name, class_file, shown. rewrite (nth_error_nth _ _ _ C).
    destruct nm; reflexivity.
  - f_equal. fold n. rewrite map_as_flat. f_equal.
    + apply flat_map_in. intros i I. destruct (Hr i) as (t & X & Sh & P & F); [apply in_seq in I; lia|]. rewrite X, Sh, P, F. reflexivity.
    + rewrite !Z.add_0_l. do 2 f_equal; apply total_count; intros i I; destruct (Hr i) as (t & X & Sh & P & F); try (apply in_seq in I; lia); eauto.
Qed.

Lemma program_raise : forall dbg script l i, (i < List.length l)%nat -> In Raise (script i 0%nat) ->
  exists w', unitMain dbg script l = Thrown w' /\ forall o f p, ~ In (o, LSummary f p) (w_out w').
Proof.
  intros dbg script l i I R. unfold unitMain. set (n := List.length l) in *.
  destruct (addTests_done l 0 (introSuite start 0) eq_refl eq_refl) as (w1 & E1 & O1 & S1 & T1 & H1). rewrite E1. cbn [ubind].
  cbn [Nat.add] in T1. fold n in T1.
  assert (Hi : forall i, (i < n)%nat -> exists c, nth_error l i = Some c /\ w_heap w1 i = Some (made c)).
  { intros j J. rewrite H1. cbn [Nat.leb]. rewrite Nat.sub_0_r. destruct (nth_error l j) as [c|] eqn:C; [eauto|].
    apply nth_error_None in C. unfold n in J. lia. }
  assert (Cn : consists w1 0 (seq 0 n)).
  { split; [exact T1|]. intros a J. apply in_seq in J. destruct (Hi a) as (c & _ & ->); [lia|discriminate]. }
  assert (T := run_tame dbg script w1 0 _ Cn). destruct (run dbg script w1 0) as [u w2|w2| | |] eqn:E2; try contradiction; cbn [ubind].
  - exfalso. destruct u. destruct (run_conv _ _ _ _ _ E2) as (l' & Cn' & Qu). rewrite (consists_fun _ _ _ _ Cn' Cn) in Qu.
    destruct (Hi i I) as ([[nm ty] fl] & _ & X). apply (Qu i _ 0%nat) in X; [|apply in_seq; lia|rewrite times_seq by exact I; lia]. cbn [made t_runs] in X. exact (X R).
  - exists w2. split; [reflexivity|]. destruct T as (_ & x & X & F). intros o f p J. rewrite X, O1 in J.
    cbn [introSuite start print w_suite su_stream w_out w_heap List.app] in J. destruct J as [J|J]; [discriminate|].
    rewrite Forall_forall in F. exact (F _ J).
Qed.
