(** C83: what the test suites and the test program report. *)
From Coq Require Import List Bool ZArith String Lia Arith.
From Verif Require Import UTest SpecUTest UTestFacts UTestFacts2.
Import ListNotations.
Open Scope Z_scope.

(** A suite can be run exactly if all its tests exist and none throws; a test that
    throws ends the run. *)
Theorem C83_run_ends : forall dbg script w s,
  ((exists w', run dbg script w s = Done tt w') <-> exists l, consists w s l /\ quiet script w l)
  /\ (forall l, consists w s l -> ~ quiet script w l -> exists w', run dbg script w s = Thrown w').
Proof.
  intros dbg script w s. split.
  - split; [intros (w' & H); exact (run_conv _ _ _ _ _ H)|]. intros (l & C & Q). destruct (run_done dbg script w s l C Q) as (w' & E & _). eauto.
  - intros l C N. assert (T := run_tame dbg script w s l C). destruct (run dbg script w s) as [u w'|w'| | |] eqn:E; try contradiction; [|eauto].
    exfalso. destruct u. destruct (run_conv _ _ _ _ _ E) as (l' & C' & Q). rewrite (consists_fun _ _ _ _ C' C) in Q. exact (N Q).
Qed.
Print Assumptions C83_run_ends.

(** What a run leaves behind: the counters of the tests of the suite count the steps
    of this run only; other tests and the suites are as before; each test with a
    stream prints its introduction and one line for each failure. *)
Theorem C83_run : forall dbg script w s w' l, run dbg script w s = Done tt w' -> consists w s l ->
  (forall a, In a l -> w_heap w' a = option_map (ran script a (times a l)) (w_heap w a))
  /\ (forall a, ~ In a l -> w_heap w' a = w_heap w a)
  /\ w_suite w' = w_suite w
  /\ w_out w' = w_out w ++ printed script w [] l.
Proof.
  intros dbg script w s w' l H C. destruct (run_conv _ _ _ _ _ H) as (l' & C' & Q). rewrite (consists_fun _ _ _ _ C' C) in Q.
  destruct (run_done dbg script w s l C Q) as (w2 & E & S & H1 & H2 & O). rewrite H in E. injection E as <-. auto.
Qed.
Print Assumptions C83_run.

(** A report is the sum of the counters, whether printed or not. *)
Theorem C83_report : forall dbg w s,
  (forall l, consists w s l ->
     getNumFailed dbg w s = Done (total t_fail w l) w
     /\ getNumPassed dbg w s = Done (total t_pass w l) w
     /\ exists w', report dbg w s = Done (total t_fail w l) w' /\ w_suite w' = w_suite w
        /\ (match su_stream (w_suite w s) with
            | None => w' = w
            | Some n => w_out w' = w_out w ++ map (fun x => (n, x)) (report_lines w l)
                /\ (forall a, In a l -> w_heap w' a = option_map with_name (w_heap w a))
                /\ (forall a, ~ In a l -> w_heap w' a = w_heap w a)
            end))
  /\ (forall v w', getNumFailed dbg w s = Done v w' \/ getNumPassed dbg w s = Done v w' \/ report dbg w s = Done v w' ->
        exists l, consists w s l).
Proof.
  intros dbg w s. split.
  - intros l [L A]. unfold report, getNumFailed, getNumPassed. rewrite L, !sumAll_done by exact A. split; [reflexivity|]. split; [reflexivity|].
    destruct (su_stream (w_suite w s)) as [n|].
    + destruct (reportAll_done dbg n l w 0 0 A) as (w' & E & S & H & O). exists w'. split; [exact E|]. split; [exact S|]. split; [exact O|].
      split; intros a I; rewrite H; destruct (in_dec Nat.eq_dec a l); auto; contradiction.
    + exists w. auto.
  - unfold report, getNumFailed, getNumPassed.
    assert (F : forall f v w', sumAll dbg f w (su_tests (w_suite w s)) 0 = Done v w' -> exists l, consists w s l).
    { intros f v w' H. destruct (sumAll_conv _ _ _ _ _ _ _ H) as (l & L & A). exists l. split; assumption. }
    intros v w' [H|[H|H]]; eauto. destruct (su_stream (w_suite w s)) as [n|]; eauto.
    destruct (reportAll_conv _ _ _ _ _ _ _ _ H) as (l & L & A). exists l. split; assumption.
Qed.
Print Assumptions C83_report.

(** The verdict: the number reported after a run is the number of failed checks in
    this run; it is zero exactly if no check failed.  Earlier results do not matter. *)
Theorem C83_verdict : forall dbg script w s w1 n w2 l, consists w s l -> NoDup l ->
  run dbg script w s = Done tt w1 -> report dbg w1 s = Done n w2 ->
  n = count bad (flat_map (fun a => match w_heap w a with Some t => script a (t_runs t) | None => [] end) l)
  /\ (n = 0 <-> forall a t x, In a l -> w_heap w a = Some t -> In x (script a (t_runs t)) ->
        (exists lbl k, x = Check true lbl k) \/ x = Succeed).
Proof.
  intros dbg script w s w1 n w2 l C N H R. destruct (C83_run _ _ _ _ _ _ H C) as (H1 & _ & S & _).
  destruct (run_conv _ _ _ _ _ H) as (l' & C' & Q). rewrite (consists_fun _ _ _ _ C' C) in Q. clear l' C'.
  destruct C as [L A].
  assert (Ha : forall a, In a l -> exists t, w_heap w a = Some t /\ w_heap w1 a = Some (ran script a 1 t)).
  { intros a I. specialize (H1 a I). unfold times in H1. rewrite (proj1 (NoDup_count_occ' Nat.eq_dec l) N a I) in H1.
    destruct (w_heap w a) as [t|] eqn:E; [|exfalso; exact (A a I E)]. exists t. auto. }
  assert (C1 : consists w1 s l).
  { split; [rewrite S; exact L|]. intros a I. destruct (Ha a I) as (t & _ & ->). discriminate. }
  destruct (proj1 (C83_report dbg w1 s) l C1) as (_ & _ & w' & E & _). rewrite E in R. injection R as <- _.
  assert (Eq : total t_fail w1 l = count bad (flat_map (fun a => match w_heap w a with Some t => script a (t_runs t) | None => [] end) l)).
  { apply total_count. intros a I. destruct (Ha a I) as (t & Hw & Hw1). exists (ran script a 1 t). split; [exact Hw1|].
    unfold ran. cbn [t_fail]. rewrite sessions_1, Hw. reflexivity. }
  split; [exact Eq|]. rewrite Eq, count_zero. split.
  - intros Z a t x I Hw J. assert (B : bad x = false).
    { apply Z. apply in_flat_map. exists a. split; [exact I|]. rewrite Hw. exact J. }
    destruct x as [[] lbl k|lbl k| |]; try discriminate; eauto. exfalso.
    apply (Q a t 0%nat I Hw); [apply times_in; exact I|]. rewrite Nat.add_0_r. exact J.
  - intros G x J. apply in_flat_map in J. destruct J as (a & I & J). destruct (Ha a I) as (t & Hw & _). rewrite Hw in J.
    destruct (G a t x I Hw J) as [(lbl & k & ->)| ->]; reflexivity.
Qed.
Print Assumptions C83_verdict.

(** Adding a test: not null; it comes last, gets the stream of the suite if it has
    none, and loses its counts. *)
Theorem C83_addTest : forall w s,
  addTest w s None = Thrown w
  /\ (forall a, w_heap w a = None -> addTest w s (Some a) = Undef)
  /\ (forall a t, w_heap w a = Some t -> exists w', addTest w s (Some a) = Done tt w' /\ w_out w' = w_out w
       /\ w_heap w' a = Some (joined (su_stream (w_suite w s)) t) /\ (forall b, b <> a -> w_heap w' b = w_heap w b)
       /\ w_suite w' s = SU (su_stream (w_suite w s)) (su_tests (w_suite w s) ++ [Some a])
       /\ forall o, o <> s -> w_suite w' o = w_suite w o).
Proof.
  intros w s. split; [reflexivity|]. split; [intros a H; unfold addTest; rewrite H; reflexivity|].
  intros a t H. destruct (addTest_done w s a t H) as (w' & E & O & Hw & Sw). exists w'. split; [exact E|]. split; [exact O|].
  split; [rewrite Hw, Nat.eqb_refl; reflexivity|]. split; [intros b N; rewrite Hw; destruct (Nat.eqb_spec b a); [contradiction|reflexivity]|].
  split; [rewrite Sw, Nat.eqb_refl; reflexivity|]. intros o N. rewrite Sw. destruct (Nat.eqb_spec o s); [contradiction|reflexivity].
Qed.
Print Assumptions C83_addTest.

(** Adding a suite to another one.  With asserts, the suite added to must not be
    empty, and its first tests must not be null. *)
Theorem C83_addSuite : forall dbg w s o l fuel, s <> o -> consists w o l -> (List.length l < fuel)%nat ->
  let ps := su_tests (w_suite w s) in
  (dbg = false \/ l = [] \/ (ps <> [] /\ ~ In None (firstn (List.length l) ps)) ->
     exists w', addSuite dbg fuel 0 w s o = Done tt w' /\ w_out w' = w_out w
     /\ w_suite w' s = SU (su_stream (w_suite w s)) (ps ++ map Some l)
     /\ (forall b, b <> s -> w_suite w' b = w_suite w b)
     /\ (forall a, In a l -> w_heap w' a = option_map (joined (su_stream (w_suite w s))) (w_heap w a))
     /\ (forall a, ~ In a l -> w_heap w' a = w_heap w a))
  /\ (dbg = true -> l <> [] -> ps = [] -> addSuite dbg fuel 0 w s o = Undef)
  /\ (dbg = true -> In None (firstn (List.length l) ps) -> addSuite dbg fuel 0 w s o = Abort).
Proof.
  intros dbg w s o l fuel SO [L A] F ps. split; [|split].
  - intros Ok. destruct (addSuite_done dbg s o ps l [] w fuel SO) as (w' & E & O & H & S); auto.
    + cbn [map]. rewrite app_nil_r. reflexivity.
    + intros D Z. cbn [List.app] in *. destruct Ok as [Ok|[Ok|Ok]]; [congruence| |exact Ok]. exfalso. apply Z. rewrite Ok. reflexivity.
    + cbn [List.length List.app] in *. exists w'. split; [exact E|]. split; [exact O|]. split; [rewrite S, Nat.eqb_refl; reflexivity|].
      split; [intros b N; rewrite S; destruct (Nat.eqb_spec b s); [contradiction|reflexivity]|].
      split; intros a I; rewrite H; destruct (in_dec Nat.eq_dec a l); auto; contradiction.
  - intros -> Nl Ep. destruct fuel as [|fuel]; [lia|]. cbn [addSuite]. rewrite L. destruct l as [|a l]; [congruence|]. cbn [map nth_error].
    fold ps. rewrite Ep. reflexivity.
  - intros -> I. assert (P : ps <> []). { intros E. rewrite E in I. rewrite firstn_nil in I. exact I. }
    apply (addSuite_abort s o ps l [] w fuel); auto. cbn [map]. rewrite app_nil_r. reflexivity.
Qed.
Print Assumptions C83_addSuite.

(** Adding a suite to itself never ends, unless it is empty. *)
Theorem C83_addSuite_self : forall dbg w s l fuel, consists w s l -> l <> [] ->
  addSuite dbg fuel 0 w s s = NoEnd.
Proof. intros dbg w s l fuel C N. apply (addSuite_self dbg s fuel 0 w l C). destruct l; [congruence|]. cbn. lia. Qed.
Print Assumptions C83_addSuite_self.

(** Deleting the tests works exactly if no test is in the suite twice and all exist;
    then all pointers are null, and it can be repeated. *)
Theorem C83_free : forall w s, let ps := su_tests (w_suite w s) in
  ((exists w', free w s = Done tt w') <-> NoDup (objects ps) /\ forall a, In a (objects ps) -> w_heap w a <> None)
  /\ (~ (exists w', free w s = Done tt w') -> free w s = Undef)
  /\ (forall w', free w s = Done tt w' -> w_out w' = w_out w
       /\ w_suite w' s = SU (su_stream (w_suite w s)) (repeat None (List.length ps))
       /\ (forall b, b <> s -> w_suite w' b = w_suite w b)
       /\ (forall a, In a (objects ps) -> w_heap w' a = None)
       /\ (forall a, ~ In a (objects ps) -> w_heap w' a = w_heap w a)
       /\ exists w'', free w' s = Done tt w'').
Proof.
  intros w s ps. assert (F := freeFrom_spec s ps 0 w eq_refl). fold (free w s) in F. fold ps in F.
  change (freeFrom (List.length ps) 0 w s) with (free w s) in F.
  destruct F as [(N & A & w1 & E & O & H & S)|(N & E)]; rewrite E.
  - split; [split; [auto|eauto]|]. split; [intros C; exfalso; eauto|]. intros w' Q. injection Q as <-. split; [exact O|].
    split; [rewrite S, Nat.eqb_refl; reflexivity|]. split; [intros b Nb; rewrite S; destruct (Nat.eqb_spec b s); [contradiction|reflexivity]|].
    split; [intros a I; rewrite H; destruct (in_dec Nat.eq_dec a (objects ps)); [reflexivity|contradiction]|].
    split; [intros a I; rewrite H; destruct (in_dec Nat.eq_dec a (objects ps)); [contradiction|reflexivity]|].
    assert (Ob : objects (su_tests (w_suite w1 s)) = []).
    { rewrite S, Nat.eqb_refl. cbn [su_tests Nat.add]. clear. induction (List.length ps) as [|k IHk]; [reflexivity|]. exact IHk. }
    destruct (freeFrom_spec s (su_tests (w_suite w1 s)) 0 w1 eq_refl) as [(_ & _ & w2 & E2 & _)|(C & _)].
    + exists w2. exact E2.
    + exfalso. apply C. rewrite Ob. split; [constructor|intros a []].
  - split; [split; [intros (w' & Q); discriminate|intros C; contradiction]|]. split; [reflexivity|]. intros w' Q. discriminate.
Qed.
Print Assumptions C83_free.

(** A null pointer in a suite: a failed assert, or undefined behaviour without
    asserts, in all functions that use the tests. *)
Theorem C83_null : forall dbg script w s, let ps := su_tests (w_suite w s) in
  In None ps -> (forall a, In a (objects ps) -> w_heap w a <> None) ->
  null_end dbg (run dbg script w s) /\ null_end dbg (report dbg w s)
  /\ null_end dbg (getNumPassed dbg w s) /\ null_end dbg (getNumFailed dbg w s).
Proof.
  intros dbg script w s ps I A. destruct (in_none_split ps I) as (l & ps' & E).
  assert (Al : forall a, In a l -> w_heap w a <> None).
  { intros a J. apply A. rewrite E. unfold objects. rewrite flat_map_app. apply in_or_app. left. apply in_flat_map. exists (Some a).
    split; [apply in_map; exact J|left; reflexivity]. }
  unfold run, report, getNumPassed, getNumFailed. fold ps. rewrite E.
  split; [|split; [|split]].
  - assert (R := resetAll_null dbg ps' l w Al). unfold null_end in *. rewrite R. destruct dbg; reflexivity.
  - destruct (su_stream (w_suite w s)); [apply reportAll_null|apply sumAll_null]; exact Al.
  - apply sumAll_null; exact Al.
  - apply sumAll_null; exact Al.
Qed.
Print Assumptions C83_null.

(** The test program prints the result of every test class and the sums, and returns
    0; if a test throws it ends by the exception, without a summary. *)
Theorem C83_program : forall dbg script l,
  ((forall i, (i < List.length l)%nat -> ~ In Raise (script i 0%nat)) ->
     exists w, unitMain dbg script l = Done 0 w
     /\ w_out w = map (fun x => (0%nat, x)) (program_output script l))
  /\ ((exists i, (i < List.length l)%nat /\ In Raise (script i 0%nat)) ->
     exists w, unitMain dbg script l = Thrown w /\ forall o f p, ~ In (o, LSummary f p) (w_out w)).
Proof.
  intros dbg script l. split; [apply program_done|]. intros (i & I & R). exact (program_raise dbg script l i I R).
Qed.
Print Assumptions C83_program.

(** The claim that the value returned tells whether a check failed is false: whatever
    fails, it is 0. *)
Theorem C83_exit_refuted : exists script l, forall dbg,
  (exists w, unitMain dbg script l = Done 0 w /\ In (0%nat, LSummary 1 0) (w_out w))
  /\ count bad (script 0%nat 0%nat) = 1.
Proof.
  exists (fun _ _ => [Check false "a == b" 12]), [("", "matrixOps", "matrixOps.cc")]%string. intros dbg. split; [|reflexivity].
  destruct (program_done dbg (fun _ _ => [Check false "a == b" 12]) [("", "matrixOps", "matrixOps.cc")]%string) as (w & E & O).
  - intros i I [C|[]]. discriminate.
  - exists w. split; [exact E|]. rewrite O. apply in_map. cbn. auto 6.
Qed.
Print Assumptions C83_exit_refuted.

(** The claim that results of a suite survive its being added to another suite is
    false. *)
Theorem C83_survive_refuted : exists w s o w', s <> o /\ addSuite false 5 0 w s o = Done tt w'
  /\ (exists w1, report false w o = Done 1 w1) /\ (exists w1, report false w' o = Done 0 w1).
Proof.
  set (t := TO "t" "t" "t.cc" None 2 1 1).
  set (w := WD (fun b => if Nat.eqb b 7 then Some t else None) (fun b => if Nat.eqb b 1 then SU None [Some 7%nat] else SU None []) []).
  assert (C : consists w 1 [7%nat]). { split; [reflexivity|]. intros a [<-|[]]. discriminate. }
  destruct (proj1 (C83_addSuite false w 0 1 [7%nat] 5 ltac:(lia) C ltac:(cbn; lia)) (or_introl eq_refl)) as (w' & E & _ & _ & S & H & _).
  exists w, 0%nat, 1%nat, w'. split; [lia|]. split; [exact E|]. split.
  - destruct (proj1 (C83_report false w 1) _ C) as (_ & _ & w1 & R & _). exists w1. exact R.
  - assert (C' : consists w' 1 [7%nat]).
    { split; [rewrite S by lia; reflexivity|]. intros a [<-|[]]. rewrite H by (left; reflexivity). discriminate. }
    destruct (proj1 (C83_report false w' 1) _ C') as (_ & _ & w1 & R & _). exists w1. rewrite R. f_equal.
    cbn [total]. rewrite H by (left; reflexivity). reflexivity.
Qed.
Print Assumptions C83_survive_refuted.

(** A suite of two tests, one of which fails a check, run after an earlier run. *)
Example C83_instance : exists w script w1 w2,
  consists w 0 [3%nat; 4%nat] /\ run true script w 0 = Done tt w1 /\ report true w1 0 = Done 1 w2
  /\ w_out w2 = [(0%nat, LIntro "x" "x.cc"); (0%nat, LFailure "a == b" 12); (0%nat, LTest "x" 1 1);
                 (0%nat, LTest "T" 1 0); (0%nat, LSummary 1 2)].
Proof.
  exists (WD (fun b => if Nat.eqb b 3 then Some (TO "x" "X" "x.cc" (Some 0%nat) 5 6 2)
                    else if Nat.eqb b 4 then Some (TO "" "T" "t.cc" None 0 0 0) else None)
          (fun _ => SU (Some 0%nat) [Some 3%nat; Some 4%nat]) []).
  exists (fun a r => if Nat.eqb a 3 then (if Nat.eqb r 2 then [Succeed; Check false "a == b" 12] else [Raise]) else [Check true "c" 1]).
  eexists. eexists. split; [split; [reflexivity|intros a [<-|[<-|[]]]; discriminate]|].
  split; [reflexivity|]. split; reflexivity.
Qed.
