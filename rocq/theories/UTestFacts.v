(** Lemmas about the test framework. *)
From Coq Require Import List Bool ZArith String Lia Arith.
From Verif Require Import UTest SpecUTest.
Import ListNotations.
Open Scope Z_scope.

Lemma count_app : forall f l1 l2, count f (l1 ++ l2) = count f l1 + count f l2.
Proof. intros. unfold count. rewrite filter_app, app_length. lia. Qed.

Lemma count_cons : forall f x l, count f (x :: l) = (if f x then 1 else 0) + count f l.
Proof. intros. unfold count. cbn [filter]. destruct (f x); cbn [List.length]; lia. Qed.

Lemma count_nonneg : forall f l, 0 <= count f l.
Proof. intros. unfold count. lia. Qed.

Lemma count_zero : forall f l, count f l = 0 <-> forall x, In x l -> f x = false.
Proof.
  intros f l. induction l as [|y l IH]; [cbn; split; [intros _ x []|reflexivity]|].
  rewrite count_cons. assert (N := count_nonneg f l). split.
  - intros H x [<-|I]; [destruct (f y); [lia|reflexivity]|]. apply IH; [|exact I]. destruct (f y); lia.
  - intros H. rewrite (H y) by (left; reflexivity). cbn. apply IH. intros x I. apply H. right; exact I.
Qed.

(** a test after [p] successes and [q] failures more *)
Definition more (t : tobj) (p q : Z) : tobj :=
  TO (t_name t) (t_type t) (t_file t) (t_stream t) (t_pass t + p) (t_fail t + q) (t_runs t).

Lemma doSteps_done : forall a l w t, w_heap w a = Some t -> ~ In Raise l ->
  exists w', doSteps w a l = Done tt w' /\ w_suite w' = w_suite w
  /\ (forall b, w_heap w' b = if Nat.eqb b a then Some (more t (count good l) (count bad l)) else w_heap w b)
  /\ w_out w' = w_out w ++ match t_stream t with
       | Some n => map (fun x => (n, x)) (flat_map complaint l) | None => [] end.
Proof.
  intros a l. induction l as [|x l IH]; intros w t H R.
  - exists w. cbn [doSteps flat_map map]. split; [reflexivity|]. split; [reflexivity|]. split.
    + intros b. destruct (Nat.eqb_spec b a) as [->|]; [|reflexivity]. rewrite H. unfold more, count. cbn [filter List.length].
      destruct t; cbn. f_equal. f_equal; lia.
    + destruct (t_stream t); rewrite app_nil_r; reflexivity.
  - assert (R1 : x <> Raise) by (intros ->; apply R; left; reflexivity).
    assert (R2 : ~ In Raise l) by (intros I; apply R; right; exact I).
    assert (exists w1, doStep w a x = Done tt w1 /\ w_suite w1 = w_suite w
      /\ (forall b, w_heap w1 b = if Nat.eqb b a then Some (more t (if good x then 1 else 0) (if bad x then 1 else 0)) else w_heap w b)
      /\ w_out w1 = w_out w ++ match t_stream t with Some n => map (fun x => (n, x)) (complaint x) | None => [] end)
      as (w1 & E & S1 & H1 & O1).
    { unfold doStep. rewrite H. destruct x as [c lbl n|lbl n| |]; [destruct c| | |contradiction]; cbn [negb];
        (eexists; split; [reflexivity|]); unfold doFail, print, setTest; cbn [t_stream tfail good bad complaint map];
        destruct (t_stream t) eqn:ST; cbn [w_suite w_heap w_out]; rewrite ?app_nil_r;
        (split; [reflexivity|split; [|reflexivity]]); intros b; destruct (Nat.eqb b a); auto;
        unfold more, tfail, tsucceed; rewrite ?ST; f_equal; f_equal; lia. }
    assert (Ha : w_heap w1 a = Some (more t (if good x then 1 else 0) (if bad x then 1 else 0))).
    { rewrite H1, Nat.eqb_refl. reflexivity. }
    destruct (IH w1 _ Ha R2) as (w' & E' & S' & H' & O').
    exists w'. cbn [doSteps]. rewrite E. cbn [ubind]. rewrite E'. split; [reflexivity|]. split; [congruence|]. split.
    + intros b. rewrite H', H1. destruct (Nat.eqb b a); [|reflexivity]. rewrite !count_cons. unfold more. cbn [t_name t_type t_file t_stream t_pass t_fail t_runs]. f_equal. f_equal; lia.
    + rewrite O', O1. unfold more at 1. cbn [t_stream flat_map]. rewrite <- app_assoc. f_equal.
      destruct (t_stream t); [|reflexivity]. rewrite map_app. reflexivity.
Qed.

Lemma doSteps_conv : forall a l w w', doSteps w a l = Done tt w' -> ~ In Raise l.
Proof.
  intros a l. induction l as [|x l IH]; intros w w' H; [intros []|]. cbn [doSteps] in H.
  destruct (doStep w a x) as [u w1|w1| | |] eqn:E; try discriminate. cbn [ubind] in H.
  intros [->|I]; [|exact (IH _ _ H I)]. unfold doStep in E. destruct (w_heap w a); discriminate.
Qed.

(** [ran] with counters that are not reset before *)
Definition after (script : nat -> nat -> list step) (a k : nat) (t : tobj) : tobj :=
  match k with
  | O => t
  | S _ => TO (name_after t) (t_type t) (t_file t) (t_stream t)
     (t_pass t + count good (sessions script a (t_runs t) k))
     (t_fail t + count bad (sessions script a (t_runs t) k)) (t_runs t + k)%nat
  end.

Lemma sessions_S : forall script a r k, sessions script a r (S k) = sessions script a r k ++ script a (r + k)%nat.
Proof. intros. unfold sessions. rewrite seq_S, flat_map_app. cbn [flat_map Nat.add]. rewrite app_nil_r. reflexivity. Qed.

Lemma times_snoc : forall a b l, times b (l ++ [a]) = (times b l + if Nat.eqb b a then 1 else 0)%nat.
Proof.
  intros. unfold times. rewrite count_occ_app. cbn [count_occ]. f_equal.
  destruct (Nat.eq_dec a b) as [->|N]; [rewrite Nat.eqb_refl; reflexivity|].
  destruct (Nat.eqb_spec b a); [congruence|reflexivity].
Qed.

Lemma after_stream : forall script a k t, t_stream (after script a k t) = t_stream t.
Proof. intros. destruct k; reflexivity. Qed.
Lemma after_runs : forall script a k t, t_runs (after script a k t) = (t_runs t + k)%nat.
Proof. intros. destruct k; cbn [after t_runs]; lia. Qed.
Lemma after_file : forall script a k t, t_file (after script a k t) = t_file t.
Proof. intros. destruct k; reflexivity. Qed.
Lemma after_type : forall script a k t, t_type (after script a k t) = t_type t.
Proof. intros. destruct k; reflexivity. Qed.

Lemma shown_name : forall t, t_name (tname t) = shown t.
Proof. intros t. unfold tname, shown. destruct (t_name t) eqn:E; [reflexivity|]. cbn [String.eqb]. exact E. Qed.

Lemma shown_idem : forall t t', t_type t' = t_type t -> t_name t' = shown t -> shown t' = shown t.
Proof.
  intros t t' T N. unfold shown at 1. rewrite N, T. unfold shown. destruct (t_name t) eqn:E; [|reflexivity].
  destruct (t_type t); reflexivity.
Qed.

Lemma after_shown : forall script a k t, t_stream t <> None -> shown (after script a k t) = shown t.
Proof.
  intros. destruct k; [reflexivity|]. apply shown_idem; [reflexivity|]. cbn [after t_name].
  unfold name_after. destruct (t_stream t); congruence.
Qed.

Lemma after_pass : forall script a k t, t_pass (after script a k t) = t_pass t + count good (sessions script a (t_runs t) k).
Proof. intros. destruct k; [cbn; lia|reflexivity]. Qed.
Lemma after_fail : forall script a k t, t_fail (after script a k t) = t_fail t + count bad (sessions script a (t_runs t) k).
Proof. intros. destruct k; [cbn; lia|reflexivity]. Qed.
Lemma after_name_none : forall script a k t, t_stream t = None -> t_name (after script a k t) = t_name t.
Proof. intros. destruct k; [reflexivity|]. cbn [after t_name]. unfold name_after. rewrite H. reflexivity. Qed.

Lemma tname_fields : forall t, t_type (tname t) = t_type t /\ t_file (tname t) = t_file t /\ t_stream (tname t) = t_stream t
  /\ t_pass (tname t) = t_pass t /\ t_fail (tname t) = t_fail t /\ t_runs (tname t) = t_runs t.
Proof. intros t. unfold tname. destruct (String.eqb (t_name t) ""); auto 7. Qed.

Lemma tobj_ext : forall t t', t_name t = t_name t' -> t_type t = t_type t' -> t_file t = t_file t' -> t_stream t = t_stream t' ->
  t_pass t = t_pass t' -> t_fail t = t_fail t' -> t_runs t = t_runs t' -> t = t'.
Proof. intros [] [] A B C D E F G. cbn in *. congruence. Qed.

(** one test: introduced and run *)
Definition one_run (script : nat -> nat -> list step) (w : world) (a : nat) : ures unit :=
  ubind (introTest w a) (fun _ w => runTest script w a).

Lemma one_run_done : forall script w a k t0, w_heap w a = Some (after script a k t0) ->
  ~ In Raise (script a (t_runs t0 + k)%nat) ->
  exists w', one_run script w a = Done tt w' /\ w_suite w' = w_suite w
  /\ (forall b, w_heap w' b = if Nat.eqb b a then Some (after script a (S k) t0) else w_heap w b)
  /\ w_out w' = w_out w ++ match t_stream t0 with
       | Some n => map (fun x => (n, x)) (LIntro (shown t0) (t_file t0) :: flat_map complaint (script a (t_runs t0 + k)%nat))
       | None => [] end.
Proof.
  intros script w a k t0 H R. set (t := after script a k t0) in *.
  assert (exists w1 t1, introTest w a = Done tt w1 /\ w_suite w1 = w_suite w /\ w_heap w1 a = Some t1
    /\ (forall b, b <> a -> w_heap w1 b = w_heap w b)
    /\ t1 = TO (name_after t0) (t_type t0) (t_file t0) (t_stream t0) (t_pass t) (t_fail t) (t_runs t0 + k)%nat
    /\ w_out w1 = w_out w ++ match t_stream t0 with Some n => [(n, LIntro (shown t0) (t_file t0))] | None => [] end)
    as (w1 & t1 & E1 & S1 & H1 & F1 & T1 & O1).
  { unfold introTest. rewrite H. assert (St : t_stream t = t_stream t0) by apply after_stream. rewrite St.
    destruct (tname_fields t) as (Q1 & Q2 & Q3 & Q4 & Q5 & Q6).
    destruct (t_stream t0) as [n|] eqn:SS.
    - assert (Sh : t_name (tname t) = shown t0) by (rewrite shown_name; apply after_shown; congruence).
      eexists. exists (tname t). split; [reflexivity|]. cbn [print setTest w_suite w_heap w_out]. split; [reflexivity|].
      split; [rewrite Nat.eqb_refl; reflexivity|]. split; [intros b N; destruct (Nat.eqb_spec b a); [contradiction|reflexivity]|].
      split.
      + apply tobj_ext; cbn [t_name t_type t_file t_stream t_pass t_fail t_runs]; auto.
        * rewrite Sh. unfold name_after. rewrite SS. reflexivity.
        * rewrite Q1. apply after_type.
        * rewrite Q2. apply after_file.
        * congruence.
        * rewrite Q6. apply after_runs.
      + rewrite Sh, Q2. unfold t at 1. rewrite after_file. reflexivity.
    - exists w, t. split; [reflexivity|]. split; [reflexivity|]. split; [exact H|]. split; [reflexivity|]. split.
      + apply tobj_ext; cbn [t_name t_type t_file t_stream t_pass t_fail t_runs]; auto.
        * unfold name_after. rewrite SS. apply after_name_none. exact SS.
        * apply after_type.
        * apply after_file.
        * apply after_runs.
      + rewrite app_nil_r. reflexivity. }
  unfold one_run. rewrite E1. cbn [ubind]. unfold runTest. rewrite H1.
  set (t2 := TO (t_name t1) _ _ _ _ _ _). set (w2 := setTest w1 a (Some t2)).
  assert (R1 : t_runs t1 = (t_runs t0 + k)%nat) by (rewrite T1; reflexivity). rewrite R1.
  destruct (doSteps_done a _ w2 t2 ltac:(unfold w2, setTest; cbn [w_heap]; rewrite Nat.eqb_refl; reflexivity) R) as (w' & E & S' & H' & O').
  exists w'. split; [exact E|]. split; [rewrite S'; exact S1|]. split.
  - intros b. rewrite H'. destruct (Nat.eqb_spec b a) as [->|N].
    + unfold more, t2. f_equal. cbn [t_name t_type t_file t_stream t_pass t_fail t_runs]. rewrite T1.
      cbn [t_name t_type t_file t_stream t_pass t_fail t_runs after]. rewrite sessions_S, !count_app.
      unfold t. rewrite after_pass, after_fail. f_equal; lia.
    + unfold w2, setTest. cbn [w_heap]. destruct (Nat.eqb_spec b a); [contradiction|]. apply F1; exact N.
  - rewrite O'. unfold w2, setTest. cbn [w_out]. rewrite O1, <- app_assoc. f_equal.
    unfold t2. cbn [t_stream]. rewrite T1. cbn [t_stream]. destruct (t_stream t0); reflexivity.
Qed.

Lemma runAll_cons : forall dbg script w a l, runAll dbg script w (Some a :: l)
  = ubind (one_run script w a) (fun _ w => runAll dbg script w l).
Proof. intros. cbn [runAll usePtr]. unfold one_run. destruct (introTest w a); reflexivity. Qed.

Lemma runAll_done : forall dbg script w0 l before w,
  (forall b, w_heap w b = option_map (after script b (times b before)) (w_heap w0 b)) ->
  (forall a, In a l -> w_heap w0 a <> None) ->
  (forall a t j, In a l -> w_heap w0 a = Some t -> (j < times a (before ++ l))%nat -> ~ In Raise (script a (t_runs t + j)%nat)) ->
  exists w', runAll dbg script w (map Some l) = Done tt w' /\ w_suite w' = w_suite w
  /\ (forall b, w_heap w' b = option_map (after script b (times b (before ++ l))) (w_heap w0 b))
  /\ w_out w' = w_out w ++ printed script w0 before l.
Proof.
  intros dbg script w0 l. induction l as [|a l IH]; intros before w H A Q.
  - exists w. cbn [map runAll printed]. rewrite !app_nil_r. auto.
  - destruct (w_heap w0 a) as [t|] eqn:Ha; [|exfalso; apply (A a); [left; reflexivity|exact Ha]].
    assert (Hw : w_heap w a = Some (after script a (times a before) t)) by (rewrite H, Ha; reflexivity).
    assert (Qa : ~ In Raise (script a (t_runs t + times a before)%nat)).
    { apply Q; [left; reflexivity|exact Ha|]. unfold times. rewrite count_occ_app. cbn [count_occ]. destruct (Nat.eq_dec a a); [lia|congruence]. }
    destruct (one_run_done script w a _ t Hw Qa) as (w1 & E1 & S1 & H1 & O1).
    assert (Eq : before ++ a :: l = (before ++ [a]) ++ l) by (rewrite <- app_assoc; reflexivity).
    destruct (IH (before ++ [a]) w1) as (w' & E & S' & H' & O').
    + intros b. rewrite H1, times_snoc. destruct (Nat.eqb_spec b a) as [->|N].
      * rewrite Ha. cbn [option_map]. rewrite Nat.add_1_r. reflexivity.
      * rewrite H, Nat.add_0_r. reflexivity.
    + intros b I. apply A. right; exact I.
    + intros b t' j I Hb J. apply (Q b t' j); [right; exact I|exact Hb|rewrite Eq; exact J].
    + exists w'. cbn [map]. rewrite runAll_cons, E1. cbn [ubind]. rewrite E. split; [reflexivity|]. split; [congruence|].
      split; [rewrite Eq; exact H'|]. rewrite O', O1, <- app_assoc. f_equal. cbn [printed]. rewrite Ha. reflexivity.
Qed.

Lemma resetAll_done : forall dbg l w, (forall a, In a l -> w_heap w a <> None) ->
  exists w', resetAll dbg w (map Some l) = Done tt w' /\ w_suite w' = w_suite w /\ w_out w' = w_out w
  /\ forall b, w_heap w' b = if in_dec Nat.eq_dec b l then option_map treset (w_heap w b) else w_heap w b.
Proof.
  intros dbg l. induction l as [|a l IH]; intros w A.
  - exists w. cbn [map resetAll]. auto.
  - cbn [map resetAll usePtr]. destruct (w_heap w a) as [t|] eqn:Ha; [|exfalso; apply (A a); [left; reflexivity|exact Ha]].
    set (w1 := setTest w a (Some (treset t))).
    assert (H1 : forall b, w_heap w1 b = if Nat.eqb b a then Some (treset t) else w_heap w b) by reflexivity.
    destruct (IH w1) as (w' & E & S' & O' & H').
    { intros b I. rewrite H1. destruct (Nat.eqb b a); [discriminate|]. apply A. right; exact I. }
    exists w'. split; [exact E|]. split; [exact S'|]. split; [exact O'|]. intros b. rewrite H', H1.
    destruct (Nat.eqb_spec b a) as [->|N].
    + destruct (in_dec Nat.eq_dec a (a :: l)) as [_|C]; [|exfalso; apply C; left; reflexivity]. rewrite Ha. cbn [option_map].
      destruct (in_dec Nat.eq_dec a l); reflexivity.
    + destruct (in_dec Nat.eq_dec b l) as [I|I], (in_dec Nat.eq_dec b (a :: l)) as [J|J]; auto.
      * exfalso. apply J. right; exact I.
      * exfalso. destruct J as [J|J]; [congruence|contradiction].
Qed.

Lemma resetAll_conv : forall dbg ps w w', resetAll dbg w ps = Done tt w' ->
  exists l, ps = map Some l /\ forall a, In a l -> w_heap w a <> None.
Proof.
  intros dbg ps. induction ps as [|p ps IH]; intros w w' H; [exists []; split; [reflexivity|intros a []]|].
  cbn [resetAll] in H. destruct p as [a|]; cbn [usePtr] in H; [|destruct dbg; discriminate].
  destruct (w_heap w a) as [t|] eqn:Ha; [|discriminate]. destruct (IH _ _ H) as (l & -> & F).
  exists (a :: l). split; [reflexivity|]. intros c [<-|I]; [congruence|]. specialize (F c I). unfold setTest in F. cbn [w_heap] in F.
  destruct (Nat.eqb_spec c a) as [E|]; [subst c; congruence|exact F].
Qed.

Lemma times_in : forall a l, (0 < times a l)%nat <-> In a l.
Proof. intros. unfold times. rewrite (count_occ_In Nat.eq_dec). lia. Qed.

Lemma after_reset : forall script a k t, (0 < k)%nat -> after script a k (treset t) = ran script a k t.
Proof. intros. destruct k; [lia|]. unfold after, ran, treset, name_after, shown. cbn [t_name t_type t_file t_stream t_pass t_fail t_runs]. reflexivity. Qed.

Lemma printed_reset : forall script w w' l before, (forall a, In a l -> w_heap w' a = option_map treset (w_heap w a)) ->
  printed script w' before l = printed script w before l.
Proof.
  intros script w w' l. induction l as [|a l IH]; intros before H; [reflexivity|]. cbn [printed].
  rewrite (H a) by (left; reflexivity). rewrite IH by (intros b I; apply H; right; exact I). f_equal.
  destruct (w_heap w a); reflexivity.
Qed.

(** the effect of running a suite *)
Lemma run_done : forall dbg script w s l, consists w s l -> quiet script w l ->
  exists w', run dbg script w s = Done tt w' /\ w_suite w' = w_suite w
  /\ (forall a, In a l -> w_heap w' a = option_map (ran script a (times a l)) (w_heap w a))
  /\ (forall a, ~ In a l -> w_heap w' a = w_heap w a)
  /\ w_out w' = w_out w ++ printed script w [] l.
Proof.
  intros dbg script w s l [L A] Q. unfold run. rewrite L.
  destruct (resetAll_done dbg l w A) as (w1 & E1 & S1 & O1 & H1).
  assert (Hin : forall a, In a l -> w_heap w1 a = option_map treset (w_heap w a)).
  { intros a I. rewrite H1. destruct (in_dec Nat.eq_dec a l); [reflexivity|contradiction]. }
  destruct (runAll_done dbg script w1 l [] w1) as (w' & E & S' & H' & O').
  - intros b. cbn [times count_occ]. destruct (w_heap w1 b); reflexivity.
  - intros a I. rewrite (Hin a I). specialize (A a I). destruct (w_heap w a); [discriminate|congruence].
  - intros a t j I Ha J. rewrite (Hin a I) in Ha. destruct (w_heap w a) as [t0|] eqn:Hw; [|discriminate].
    injection Ha as <-. cbn [treset t_runs]. exact (Q a t0 j I Hw J).
  - exists w'. rewrite E1. cbn [ubind]. rewrite E. split; [reflexivity|]. split; [congruence|]. split; [|split].
    + intros a I. rewrite H', (Hin a I). cbn [List.app]. destruct (w_heap w a); [|reflexivity]. cbn [option_map]. f_equal.
      apply after_reset. apply times_in. exact I.
    + intros a N. rewrite H', H1. destruct (in_dec Nat.eq_dec a l) as [I|_]; [contradiction|].
      cbn [List.app]. replace (times a l) with 0%nat; [destruct (w_heap w a); reflexivity|].
      destruct (times a l) eqn:T; [reflexivity|]. exfalso. apply N, times_in. lia.
    + rewrite O', O1. f_equal. apply printed_reset. exact Hin.
Qed.

Lemma one_run_conv : forall script w a w', one_run script w a = Done tt w' ->
  exists t, w_heap w a = Some t /\ ~ In Raise (script a (t_runs t)) /\ (forall b, w_heap w b <> None <-> w_heap w' b <> None)
  /\ (forall b t', w_heap w b = Some t' -> exists t'', w_heap w' b = Some t'' /\ t_runs t'' = (t_runs t' + if Nat.eqb b a then 1 else 0)%nat).
Proof.
  intros script w a w' H. assert (H0 := H). unfold one_run in H. destruct (introTest w a) as [u w1|w1| | |] eqn:E1; try discriminate.
  cbn [ubind] in H. destruct (w_heap w a) as [t|] eqn:Ha; [|unfold introTest in E1; rewrite Ha in E1; discriminate].
  exists t. split; [reflexivity|].
  assert (Q : ~ In Raise (script a (t_runs t))).
  { unfold introTest in E1. rewrite Ha in E1. unfold runTest in H.
    assert (exists t1, w_heap w1 a = Some t1 /\ t_runs t1 = t_runs t) as (t1 & H1 & R1).
    { destruct (t_stream t); injection E1 as _ <-; cbn [print setTest w_heap].
      - rewrite Nat.eqb_refl. eexists. split; [reflexivity|]. apply tname_fields.
      - exists t. auto. }
    rewrite H1, R1 in H. apply doSteps_conv in H. exact H. }
  split; [exact Q|].
  destruct (one_run_done script w a 0 t Ha) as (w2 & E & _ & HH & _); [rewrite Nat.add_0_r; exact Q|].
  rewrite E in H0. injection H0 as <-. split.
  - intros b. rewrite HH. destruct (Nat.eqb_spec b a) as [->|]; [rewrite Ha; split; discriminate|reflexivity].
  - intros b t' Hb. rewrite HH. destruct (Nat.eqb_spec b a) as [->|].
    + eexists. split; [reflexivity|]. rewrite after_runs. congruence.
    + exists t'. split; [exact Hb|]. lia.
Qed.

Lemma runAll_conv : forall dbg script l w w', runAll dbg script w (map Some l) = Done tt w' ->
  quiet script w l.
Proof.
  intros dbg script l. induction l as [|a l IH]; intros w w' H; [intros b t j []|].
  cbn [map] in H. rewrite runAll_cons in H. destruct (one_run script w a) as [u w1|w1| | |] eqn:E1; try discriminate.
  cbn [ubind] in H. destruct u. destruct (one_run_conv _ _ _ _ E1) as (t & Ha & Q & Al & R). specialize (IH _ _ H).
  intros b t' j I Hb J. destruct (R b t' Hb) as (t'' & Hb' & Rb). unfold times in J. cbn [count_occ] in J.
  destruct (Nat.eqb_spec b a) as [->|N].
  - destruct (Nat.eq_dec a a) as [_|C]; [|congruence]. assert (t' = t) by congruence. subst t'.
    destruct j as [|j]; [rewrite Nat.add_0_r; exact Q|].
    assert (Ia : In a l). { apply times_in. unfold times. lia. }
    specialize (IH a t'' j Ia Hb'). rewrite Rb in IH. replace (t_runs t + S j)%nat with (t_runs t + 1 + j)%nat by lia. apply IH. unfold times. lia.
  - destruct (Nat.eq_dec a b) as [C|_]; [congruence|]. assert (Ib : In b l) by (destruct I; [congruence|assumption]).
    specialize (IH b t'' j Ib Hb'). rewrite Rb, Nat.add_0_r in IH. apply IH. exact J.
Qed.

Lemma run_conv : forall dbg script w s w', run dbg script w s = Done tt w' ->
  exists l, consists w s l /\ quiet script w l.
Proof.
  intros dbg script w s w' H. unfold run in H.
  destruct (resetAll dbg w (su_tests (w_suite w s))) as [u w1|w1| | |] eqn:E1; try discriminate. cbn [ubind] in H. destruct u.
  destruct (resetAll_conv _ _ _ _ E1) as (l & L & A). exists l. split; [split; assumption|].
  rewrite L in *. assert (Q := runAll_conv _ _ _ _ _ H). destruct (resetAll_done dbg l w A) as (w2 & E2 & _ & _ & H2).
  rewrite E1 in E2. injection E2 as <-. intros a t j I Ha J. apply (Q a (treset t) j I).
  - rewrite H2. destruct (in_dec Nat.eq_dec a l); [|contradiction]. rewrite Ha. reflexivity.
  - exact J.
Qed.

(** the pointers of a suite, without nulls and dead objects, or not *)
Lemma total_ext : forall f w w' l, (forall a, In a l -> option_map f (w_heap w' a) = option_map f (w_heap w a)) ->
  total f w' l = total f w l.
Proof.
  intros f w w' l. induction l as [|a l IH]; intros H; [reflexivity|]. cbn [total].
  rewrite IH by (intros b I; apply H; right; exact I). f_equal. specialize (H a (or_introl eq_refl)).
  destruct (w_heap w a), (w_heap w' a); cbn in H; congruence.
Qed.

Lemma sumAll_done : forall dbg f w l tot, (forall a, In a l -> w_heap w a <> None) ->
  sumAll dbg f w (map Some l) tot = Done (tot + total f w l) w.
Proof.
  intros dbg f w l. induction l as [|a l IH]; intros tot A; cbn [map sumAll total usePtr]; [f_equal; lia|].
  destruct (w_heap w a) as [t|] eqn:E; [|exfalso; apply (A a); [left; reflexivity|exact E]].
  rewrite IH by (intros b I; apply A; right; exact I). f_equal. lia.
Qed.

Lemma sumAll_conv : forall dbg f w ps tot v w', sumAll dbg f w ps tot = Done v w' ->
  exists l, ps = map Some l /\ forall a, In a l -> w_heap w a <> None.
Proof.
  intros dbg f w ps. induction ps as [|p ps IH]; intros tot v w' H; [exists []; split; [reflexivity|intros a []]|].
  cbn [sumAll] in H. destruct p as [a|]; cbn [usePtr] in H; [|destruct dbg; discriminate].
  destruct (w_heap w a) as [t|] eqn:E; [|discriminate]. destruct (IH _ _ _ H) as (l & -> & A).
  exists (a :: l). split; [reflexivity|]. intros b [<-|I]; [congruence|auto].
Qed.

Lemma tname_with : forall t, tname t = with_name t.
Proof.
  intros t. destruct (tname_fields t) as (Q1 & Q2 & Q3 & Q4 & Q5 & Q6). apply tobj_ext; auto. apply shown_name.
Qed.

Lemma with_idem : forall t, with_name (with_name t) = with_name t.
Proof. intros t. unfold with_name. cbn [t_type t_file t_stream t_pass t_fail t_runs]. f_equal. apply shown_idem; reflexivity. Qed.

Lemma shown_with : forall t, shown (with_name t) = shown t.
Proof. intros. apply shown_idem; reflexivity. Qed.

Definition test_lines (w : world) (l : list nat) : list line :=
  flat_map (fun a => match w_heap w a with Some t => [LTest (shown t) (t_pass t) (t_fail t)] | None => [] end) l.

Lemma reportAll_done : forall dbg n l w tf ts, (forall a, In a l -> w_heap w a <> None) ->
  exists w', reportAll dbg n w (map Some l) tf ts = Done (tf + total t_fail w l) w' /\ w_suite w' = w_suite w
  /\ (forall b, w_heap w' b = if in_dec Nat.eq_dec b l then option_map with_name (w_heap w b) else w_heap w b)
  /\ w_out w' = w_out w ++ map (fun x => (n, x)) (test_lines w l ++ [LSummary (tf + total t_fail w l) (ts + total t_pass w l)]).
Proof.
  intros dbg n l. induction l as [|a l IH]; intros w tf ts A.
  - eexists. cbn [map reportAll total test_lines flat_map List.app print]. rewrite !Z.add_0_r. split; [reflexivity|].
    cbn [w_suite w_heap w_out]. auto.
  - cbn [map reportAll usePtr]. destruct (w_heap w a) as [t|] eqn:Ha; [|exfalso; apply (A a); [left; reflexivity|exact Ha]].
    rewrite !tname_with. set (w1 := print _ _ _).
    assert (H1 : forall b, w_heap w1 b = if Nat.eqb b a then Some (with_name t) else w_heap w b) by reflexivity.
    assert (Ex : forall f, (forall t, f (with_name t) = f t) -> forall l, total f w1 l = total f w l).
    { intros f Hf l'. apply total_ext. intros b _. rewrite H1. destruct (Nat.eqb_spec b a) as [->|]; [|reflexivity].
      rewrite Ha. cbn [option_map]. rewrite Hf. reflexivity. }
    assert (Tl : test_lines w1 l = test_lines w l).
    { unfold test_lines. apply flat_map_ext. intros b. rewrite H1. destruct (Nat.eqb_spec b a) as [->|]; [|reflexivity].
      rewrite Ha, shown_with. reflexivity. }
    destruct (IH w1 (tf + t_fail (with_name t)) (ts + t_pass (with_name t))) as (w' & E & S' & H' & O').
    { intros b I. rewrite H1. destruct (Nat.eqb b a); [discriminate|]. apply A. right; exact I. }
    exists w'. cbn [total]. rewrite Ha. rewrite (Ex t_fail), (Ex t_pass), Tl in * by reflexivity. cbn [with_name t_pass t_fail] in *.
    split; [rewrite E; f_equal; lia|]. split; [exact S'|]. split.
    + intros b. rewrite H', H1. destruct (Nat.eqb_spec b a) as [->|N].
      * destruct (in_dec Nat.eq_dec a (a :: l)) as [_|C]; [|exfalso; apply C; left; reflexivity]. rewrite Ha. cbn [option_map]. rewrite with_idem.
        destruct (in_dec Nat.eq_dec a l); reflexivity.
      * destruct (in_dec Nat.eq_dec b l) as [I|I], (in_dec Nat.eq_dec b (a :: l)) as [J|J]; auto.
        -- exfalso. apply J. right; exact I.
        -- exfalso. destruct J as [J|J]; [congruence|contradiction].
    + rewrite O'. unfold w1. cbn [print w_out setTest]. rewrite <- app_assoc. f_equal. cbn [test_lines flat_map]. rewrite Ha.
      cbn [List.app map with_name t_name t_pass t_fail]. fold (test_lines w l). f_equal. f_equal. f_equal. f_equal. f_equal; lia.
Qed.

Lemma reportAll_conv : forall dbg n ps w tf ts v w', reportAll dbg n w ps tf ts = Done v w' ->
  exists l, ps = map Some l /\ forall a, In a l -> w_heap w a <> None.
Proof.
  intros dbg n ps. induction ps as [|p ps IH]; intros w tf ts v w' H; [exists []; split; [reflexivity|intros a []]|].
  cbn [reportAll] in H. destruct p as [a|]; cbn [usePtr] in H; [|destruct dbg; discriminate].
  destruct (w_heap w a) as [t|] eqn:E; [|discriminate]. destruct (IH _ _ _ _ _ H) as (l & -> & A).
  exists (a :: l). split; [reflexivity|]. intros c [<-|I]; [congruence|]. specialize (A c I).
  cbn [print setTest w_heap] in A. destruct (Nat.eqb_spec c a) as [Q|]; [subst c; congruence|exact A].
Qed.

Lemma consists_fun : forall w s l l', consists w s l -> consists w s l' -> l = l'.
Proof.
  intros w s l l' [A _] [B _]. rewrite A in B. clear A. revert l' B. induction l as [|x l IH]; intros [|y l'] B; try discriminate; auto.
  cbn [map] in B. injection B as -> B. f_equal. apply IH. exact B.
Qed.

(** adding a test *)
Lemma addTest_done : forall w s a t, w_heap w a = Some t ->
  exists w', addTest w s (Some a) = Done tt w' /\ w_out w' = w_out w
  /\ (forall b, w_heap w' b = if Nat.eqb b a then Some (joined (su_stream (w_suite w s)) t) else w_heap w b)
  /\ (forall b, w_suite w' b = if Nat.eqb b s then SU (su_stream (w_suite w s)) (su_tests (w_suite w s) ++ [Some a]) else w_suite w b).
Proof.
  intros w s a t H. unfold addTest. rewrite H. eexists. split; [reflexivity|]. split; [reflexivity|]. split; [|reflexivity].
  intros b. cbn [setTest setSuite w_heap]. destruct (Nat.eqb b a); [|reflexivity]. f_equal. unfold joined, treset, tstream.
  destruct (su_stream (w_suite w s)), (t_stream t) eqn:E; cbn [t_name t_type t_file t_stream t_pass t_fail t_runs]; rewrite ?E; reflexivity.
Qed.

Lemma joined_idem : forall o t, joined o (joined o t) = joined o t.
Proof. intros. unfold joined. cbn [t_name t_type t_file t_stream t_pass t_fail t_runs]. destruct (t_stream t), o; reflexivity. Qed.

Definition assert_ok (dbg : bool) (ps : list (option nat)) (n : nat) : Prop :=
  dbg = true -> (n <> 0)%nat -> ps <> [] /\ ~ In None (firstn n ps).

Lemma nth_app_some : forall (ps : list (option nat)) l1 k, ps <> [] -> ~ In None (firstn k ps) -> (List.length l1 < k)%nat ->
  exists b, nth_error (ps ++ map Some l1) (List.length l1) = Some (Some b).
Proof.
  intros ps l1 k P N K. destruct (nth_error (ps ++ map Some l1) (List.length l1)) as [[b|]|] eqn:E.
  - eauto.
  - exfalso. destruct (Nat.lt_ge_cases (List.length l1) (List.length ps)) as [L|L].
    + rewrite nth_error_app1 in E by exact L. apply N. apply nth_error_In with (n := List.length l1).
      rewrite <- (firstn_skipn k ps), nth_error_app1 in E; [exact E|]. rewrite firstn_length. lia.
    + rewrite nth_error_app2 in E by exact L. apply nth_error_In in E. apply in_map_iff in E. destruct E as (x & C & _). discriminate.
  - exfalso. apply nth_error_None in E. rewrite app_length, map_length in E. destruct ps; [congruence|]. cbn [List.length] in E. lia.
Qed.

Lemma addSuite_done : forall dbg s o ps l2 l1 w fuel, s <> o ->
  su_tests (w_suite w o) = map Some (l1 ++ l2) -> su_tests (w_suite w s) = ps ++ map Some l1 ->
  (forall a, In a l2 -> w_heap w a <> None) -> assert_ok dbg ps (List.length (l1 ++ l2)) -> (List.length l2 < fuel)%nat ->
  exists w', addSuite dbg fuel (List.length l1) w s o = Done tt w' /\ w_out w' = w_out w
  /\ (forall b, w_heap w' b = if in_dec Nat.eq_dec b l2 then option_map (joined (su_stream (w_suite w s))) (w_heap w b) else w_heap w b)
  /\ (forall b, w_suite w' b = if Nat.eqb b s then SU (su_stream (w_suite w s)) (ps ++ map Some (l1 ++ l2)) else w_suite w b).
Proof.
  intros dbg s o ps l2. induction l2 as [|a l2 IH]; intros l1 w fuel SO To Ts A Ok F; (destruct fuel as [|fuel]; [cbn in F; lia|]); cbn [addSuite].
  - rewrite app_nil_r in *. rewrite To. replace (nth_error (map Some l1) (List.length l1)) with (@None (option nat)).
    2: { symmetry. apply nth_error_None. rewrite map_length. lia. }
    exists w. split; [reflexivity|]. split; [reflexivity|]. split; [reflexivity|]. intros b.
    destruct (Nat.eqb_spec b s) as [->|]; [|reflexivity]. rewrite <- Ts. destruct (w_suite w s); reflexivity.
  - rewrite To. replace (nth_error (map Some (l1 ++ a :: l2)) (List.length l1)) with (Some (Some a)).
    2: { rewrite map_app. rewrite nth_error_app2 by (rewrite map_length; lia). rewrite map_length, Nat.sub_diag. reflexivity. }
    destruct (w_heap w a) as [t|] eqn:Ha; [|exfalso; apply (A a); [left; reflexivity|exact Ha]].
    destruct (addTest_done w s a t Ha) as (w1 & E1 & O1 & H1 & S1).
    assert (Eq : l1 ++ a :: l2 = (l1 ++ [a]) ++ l2) by (rewrite <- app_assoc; reflexivity).
    assert (Ss : su_stream (w_suite w1 s) = su_stream (w_suite w s)) by (rewrite S1, Nat.eqb_refl; reflexivity).
    destruct (IH (l1 ++ [a]) w1 fuel SO) as (w' & E & O' & H' & S').
    { rewrite S1. destruct (Nat.eqb_spec o s); [congruence|]. rewrite To, Eq. reflexivity. }
    { rewrite S1, Nat.eqb_refl. cbn [su_tests]. rewrite Ts, map_app, <- app_assoc. reflexivity. }
    { intros b I. rewrite H1. destruct (Nat.eqb b a); [discriminate|]. apply A. right; exact I. }
    { rewrite <- Eq. exact Ok. }
    { cbn [List.length] in F. lia. }
    replace (List.length (l1 ++ [a])) with (S (List.length l1)) in E by (rewrite app_length; cbn; lia).
    exists w'. split; [|split; [congruence|split]].
    + rewrite E1. cbn [ubind]. rewrite E. destruct dbg; [|reflexivity]. rewrite Ts.
      destruct Ok as [P N]; [reflexivity|rewrite app_length; cbn; lia|].
      destruct (nth_app_some ps l1 _ P N) as (b & ->); [rewrite app_length; cbn; lia|reflexivity].
    + intros b. rewrite H', H1, Ss. destruct (Nat.eqb_spec b a) as [->|N].
      * destruct (in_dec Nat.eq_dec a (a :: l2)) as [_|C]; [|exfalso; apply C; left; reflexivity]. rewrite Ha. cbn [option_map]. rewrite joined_idem.
        destruct (in_dec Nat.eq_dec a l2); reflexivity.
      * destruct (in_dec Nat.eq_dec b l2) as [I|I], (in_dec Nat.eq_dec b (a :: l2)) as [J|J]; auto.
        -- exfalso. apply J. right; exact I.
        -- exfalso. destruct J as [J|J]; [congruence|contradiction].
    + intros b. rewrite S', Ss, S1, Eq. destruct (Nat.eqb_spec b s); reflexivity.
Qed.

(** the assert that fails: a null pointer among the first tests of the suite *)
Lemma addSuite_abort : forall s o ps l2 l1 w fuel, s <> o -> ps <> [] ->
  su_tests (w_suite w o) = map Some (l1 ++ l2) -> su_tests (w_suite w s) = ps ++ map Some l1 ->
  (forall a, In a l2 -> w_heap w a <> None) -> ~ In None (firstn (List.length l1) ps) ->
  In None (firstn (List.length (l1 ++ l2)) ps) -> (List.length l2 < fuel)%nat ->
  addSuite true fuel (List.length l1) w s o = Abort.
Proof.
  intros s o ps l2. induction l2 as [|a l2 IH]; intros l1 w fuel SO P To Ts A N I F; (destruct fuel as [|fuel]; [cbn in F; lia|]); cbn [addSuite].
  - exfalso. rewrite app_nil_r in I. contradiction.
  - rewrite To. replace (nth_error (map Some (l1 ++ a :: l2)) (List.length l1)) with (Some (Some a)).
    2: { rewrite map_app. rewrite nth_error_app2 by (rewrite map_length; lia). rewrite map_length, Nat.sub_diag. reflexivity. }
    rewrite Ts. destruct (nth_error (ps ++ map Some l1) (List.length l1)) as [[b|]|] eqn:E; [|reflexivity|].
    + destruct (w_heap w a) as [t|] eqn:Ha; [|exfalso; apply (A a); [left; reflexivity|exact Ha]].
      destruct (addTest_done w s a t Ha) as (w1 & E1 & O1 & H1 & S1). rewrite E1. cbn [ubind].
      assert (Eq : l1 ++ a :: l2 = (l1 ++ [a]) ++ l2) by (rewrite <- app_assoc; reflexivity).
      replace (S (List.length l1)) with (List.length (l1 ++ [a])) by (rewrite app_length; cbn; lia).
      apply IH; auto.
      * rewrite S1. destruct (Nat.eqb_spec o s); [congruence|]. rewrite To, Eq. reflexivity.
      * rewrite S1, Nat.eqb_refl. cbn [su_tests]. rewrite Ts, map_app, <- app_assoc. reflexivity.
      * intros c J. rewrite H1. destruct (Nat.eqb c a); [discriminate|]. apply A. right; exact J.
      * rewrite app_length. cbn [List.length]. rewrite Nat.add_1_r. intros J.
        destruct (nth_error ps (List.length l1)) as [x|] eqn:X.
        -- assert (L : (List.length l1 < List.length ps)%nat) by (apply nth_error_Some; congruence).
           rewrite nth_error_app1 in E by exact L. rewrite E in X. injection X as <-.
           assert (Sp : firstn (S (List.length l1)) ps = firstn (List.length l1) ps ++ [Some b]).
           { clear - E. revert E. generalize (List.length l1). intros k. revert ps. induction k as [|k IHk]; intros [|q ps] E; try discriminate.
             - cbn in E. injection E as ->. reflexivity.
             - cbn [firstn List.app]. f_equal. apply IHk. exact E. }
           rewrite Sp in J. apply in_app_or in J. destruct J as [J|[J|[]]]; [contradiction|discriminate].
        -- apply nth_error_None in X. rewrite firstn_all2 in J by lia. apply N. rewrite firstn_all2 by lia. exact J.
      * rewrite <- Eq. exact I.
      * cbn [List.length] in F. lia.
    + exfalso. apply nth_error_None in E. rewrite app_length, map_length in E. destruct ps; [congruence|]. cbn [List.length] in E. lia.
Qed.

Lemma addSuite_self : forall dbg s fuel i w l, consists w s l -> (i < List.length l)%nat ->
  addSuite dbg fuel i w s s = NoEnd.
Proof.
  intros dbg s fuel. induction fuel as [|fuel IH]; intros i w l [L A] I; cbn [addSuite]; [reflexivity|].
  rewrite L. destruct (nth_error l i) as [a|] eqn:E; [|apply nth_error_None in E; lia].
  rewrite (map_nth_error _ _ _ E). destruct (w_heap w a) as [t|] eqn:Ha; [|exfalso; exact (A a (nth_error_In _ _ E) Ha)].
  destruct (addTest_done w s a t Ha) as (w1 & E1 & O1 & H1 & S1). rewrite E1. cbn [ubind].
  rewrite (IH (S i) w1 (l ++ [a])).
  - destruct dbg; reflexivity.
  - split; [rewrite S1, Nat.eqb_refl; cbn [su_tests]; rewrite L, map_app; reflexivity|].
    intros b J. rewrite H1. destruct (Nat.eqb_spec b a); [discriminate|]. apply A. apply in_app_or in J. destruct J as [J|[J|[]]]; [exact J|congruence].
  - rewrite app_length. cbn. lia.
Qed.

(** deleting the tests *)
Lemma setNth_app : forall {A} (l : list A) x y l', setNth (List.length l) x (l ++ y :: l') = l ++ x :: l'.
Proof. intros A l. induction l as [|z l IH]; intros; cbn [List.length List.app setNth]; [reflexivity|]. f_equal. apply IH. Qed.

Lemma repeat_S : forall {A} (x : A) n l, repeat x n ++ x :: l = repeat x (S n) ++ l.
Proof. intros A x n. induction n as [|n IH]; intros l; cbn [repeat List.app]; [reflexivity|]. f_equal. apply IH. Qed.

Lemma freeFrom_spec : forall s ps i w, su_tests (w_suite w s) = repeat None i ++ ps ->
  (NoDup (objects ps) /\ (forall a, In a (objects ps) -> w_heap w a <> None)
   /\ exists w', freeFrom (List.length ps) i w s = Done tt w' /\ w_out w' = w_out w
      /\ (forall b, w_heap w' b = if in_dec Nat.eq_dec b (objects ps) then None else w_heap w b)
      /\ (forall b, w_suite w' b = if Nat.eqb b s then SU (su_stream (w_suite w s)) (repeat None (i + List.length ps)) else w_suite w b))
  \/ (~ (NoDup (objects ps) /\ forall a, In a (objects ps) -> w_heap w a <> None)
      /\ freeFrom (List.length ps) i w s = Undef).
Proof.
  intros s ps. induction ps as [|p ps IH]; intros i w T.
  - left. cbn [objects flat_map List.length freeFrom]. split; [constructor|]. split; [intros a []|]. exists w. split; [reflexivity|].
    split; [reflexivity|]. split; [reflexivity|]. intros b. destruct (Nat.eqb_spec b s) as [->|]; [|reflexivity].
    rewrite Nat.add_0_r. rewrite app_nil_r in T. rewrite <- T. destruct (w_suite w s); reflexivity.
  - cbn [List.length freeFrom]. rewrite T. rewrite nth_error_app2 by (rewrite repeat_length; lia). rewrite repeat_length, Nat.sub_diag. cbn [nth_error].
    destruct p as [a|].
    + change (objects (Some a :: ps)) with (a :: objects ps). destruct (w_heap w a) as [t|] eqn:Ha.
      2: { right. split; [|reflexivity]. intros [_ C]. apply (C a); [left; reflexivity|exact Ha]. }
      set (w1 := setSuite _ _ _).
      assert (H1 : forall b, w_heap w1 b = if Nat.eqb b a then None else w_heap w b) by reflexivity.
      assert (S1 : forall b, w_suite w1 b = if Nat.eqb b s then SU (su_stream (w_suite w s)) (repeat None (S i) ++ ps) else w_suite w b).
      { intros b. unfold w1. cbn [setSuite w_suite setTest]. destruct (Nat.eqb b s); [|reflexivity].
        f_equal. rewrite <- repeat_S. rewrite <- (repeat_length (@None nat) i) at 1. apply setNth_app. }
      destruct (IH (S i) w1) as [(N & A & w' & E & O & H' & S')|(N & E)].
      { rewrite S1, Nat.eqb_refl. reflexivity. }
      * left. assert (Na : ~ In a (objects ps)). { intros I. apply (A a I). rewrite H1, Nat.eqb_refl. reflexivity. }
        split; [constructor; assumption|]. split.
        { intros b [<-|I]; [congruence|]. specialize (A b I). rewrite H1 in A. destruct (Nat.eqb b a); [congruence|exact A]. }
        exists w'. split; [exact E|]. split; [exact O|]. split.
        { intros b. rewrite H', H1. destruct (Nat.eqb_spec b a) as [->|Nb].
          - destruct (in_dec Nat.eq_dec a (a :: objects ps)) as [_|C]; [|exfalso; apply C; left; reflexivity]. destruct (in_dec Nat.eq_dec a (objects ps)); reflexivity.
          - destruct (in_dec Nat.eq_dec b (objects ps)) as [I|I], (in_dec Nat.eq_dec b (a :: objects ps)) as [J|J]; auto.
            + exfalso. apply J. right; exact I.
            + exfalso. destruct J as [J|J]; [congruence|contradiction]. }
        { intros b. rewrite S', (S1 b), (S1 s), Nat.eqb_refl. cbn [su_stream]. destruct (Nat.eqb b s); [|reflexivity]. f_equal. f_equal. lia. }
      * right. split; [|exact E]. intros [ND A]. apply N. inversion ND as [|x y Na ND']; subst. split; [exact ND'|]. intros b I. rewrite H1.
        destruct (Nat.eqb_spec b a) as [->|]; [contradiction|]. apply A. right; exact I.
    + change (objects (None :: ps)) with (objects ps). destruct (IH (S i) w) as [(N & A & w' & E & O & H' & S')|(N & E)].
      { rewrite T. apply repeat_S. }
      * left. split; [exact N|]. split; [exact A|]. exists w'. split; [exact E|]. split; [exact O|]. split; [exact H'|]. intros b. rewrite S'.
        destruct (Nat.eqb b s); [|reflexivity]. f_equal. f_equal. lia.
      * right. auto.
Qed.
