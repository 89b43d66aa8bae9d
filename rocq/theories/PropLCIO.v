(** Property C48: conversion between track states and track parameters. *)
From Coq Require Import Reals List Bool ZArith Lra Lia.
From Verif Require Import Num Vec LCIO NumFacts SpecMat SpecLCIO.
Import ListNotations.
Open Scope R_scope.

Lemma rdiv_nz a b : b <> 0 -> rdiv a b = Ok (a / b).
Proof. intros H. unfold rdiv. destruct (Req_EM_T b 0); [contradiction|reflexivity]. Qed.

Lemma at_short l n : (length l <= n)%nat -> at_ l n = Throw.
Proof. intros H. unfold at_. apply nth_error_None in H. rewrite H. reflexivity. Qed.

Ltac nz := repeat rewrite rdiv_nz by
  (try assumption; repeat apply Rmult_integral_contrapositive_currified; assumption).

(** Reading: the five parameters, the reference point and every covariance
    entry are LCIO's values, each scaled by the unit factors of the parameters
    it belongs to; a covariance with less than 15 entries is rejected. *)
Theorem C48_read : forall mm ts, mm <> 0 ->
  ((15 <= length (ts_cov ts))%nat <-> exists tp, readLCIO mm ts = Ok tp)
  /\ ((length (ts_cov ts) < 15)%nat <-> readLCIO mm ts = Throw)
  /\ (forall tp, readLCIO mm ts = Ok tp ->
        (forall i, tp_par tp i = unit_factor mm i * lcio_par ts i)
        /\ (forall i j, tp_cov tp i j = unit_factor mm i * unit_factor mm j * lcio_mat ts i j)
        /\ tp_ref tp = (let '(x, y, z) := ts_ref ts in V3 (mm * x) (mm * y) (mm * z))).
Proof.
  intros mm ts M.
  assert (S : (length (ts_cov ts) < 15)%nat -> readLCIO mm ts = Throw).
  { intros L. unfold readLCIO. destruct (ts_ref ts) as [[r0 r1] r2]. nz. cbn [bind].
    destruct (at_ (ts_cov ts) 5) eqn:A5; unfold at_ in A5; destruct (nth_error (ts_cov ts) 5); try discriminate;
      cbn [bind]; auto.
    nz. cbn [bind]. rewrite at_short by lia. reflexivity. }
  assert (G : (15 <= length (ts_cov ts))%nat -> exists tp, readLCIO mm ts = Ok tp /\
        (forall i, tp_par tp i = unit_factor mm i * lcio_par ts i)
        /\ (forall i j, tp_cov tp i j = unit_factor mm i * unit_factor mm j * lcio_mat ts i j)
        /\ tp_ref tp = (let '(x, y, z) := ts_ref ts in V3 (mm * x) (mm * y) (mm * z))).
  { intros L. destruct ts as [lo a b c d e cv [[r0 r1] r2]]. cbn [ts_cov] in *. clear S.
    do 15 (destruct cv as [|? cv]; [cbn in L; lia|]). clear L.
    unfold readLCIO. cbn [ts_Omega ts_TanLambda ts_Phi ts_D0 ts_Z0 ts_cov ts_ref]. nz. cbn [bind at_ nth_error].
    nz. cbn [bind]. nz. cbn [bind].
    eexists. split; [reflexivity|]. split; [|split].
    - intros []; cbn; field; auto.
    - intros [] []; cbn; field; auto.
    - cbn. f_equal; ring. }
  destruct (Nat.lt_ge_cases (length (ts_cov ts)) 15) as [H|H].
  - specialize (S H). clear G. rewrite S. repeat split; intros; try discriminate; auto; try lia.
    destruct H0; discriminate.
  - destruct (G H) as (tp & T & A & B & C). rewrite T. repeat split; intros; try discriminate; eauto; try lia;
      injection H0 as <-; auto.
Qed.
Print Assumptions C48_read.

(** Symmetry and positivity: the covariance read is symmetric, and it is
    positive semidefinite exactly if LCIO's is. *)
Theorem C48_covariance : forall mm ts tp, mm <> 0 -> readLCIO mm ts = Ok tp ->
  msym (tp_cov tp) /\ (mpsd (tp_cov tp) <-> mpsd (lcio_mat ts)).
Proof.
  intros mm ts tp M E. destruct (C48_read mm ts M) as (_ & _ & R). destruct (R tp E) as (_ & C & _).
  assert (T : forall i j, lcio_mat ts i j = lcio_mat ts j i).
  { intros i j. unfold lcio_mat, lcio_tri. now rewrite Nat.max_comm, Nat.min_comm. }
  split.
  - intros i j. rewrite !C, (T i j). ring.
  - assert (Q : forall v, quad (tp_cov tp) v = quad (lcio_mat ts) (fun i => unit_factor mm i * v i)).
    { intros v. unfold quad, sum5. rewrite !C. ring. }
    split; intros P v.
    + specialize (P (fun i => / unit_factor mm i * v i)). rewrite Q in P.
      replace (quad (lcio_mat ts) v) with
        (quad (lcio_mat ts) (fun i => unit_factor mm i * (/ unit_factor mm i * v i))); auto.
      unfold quad, sum5, unit_factor. field. auto.
    + rewrite Q. apply P.
Qed.
Print Assumptions C48_covariance.

(** Track state to parameters and back: everything but the location, which
    becomes 0. *)
Theorem C48_state_round_trip : forall mm ts, mm <> 0 -> length (ts_cov ts) = 15%nat ->
  exists tp, readLCIO mm ts = Ok tp
    /\ createLCIO mm tp = Ok (TS 0 (ts_D0 ts) (ts_Phi ts) (ts_Omega ts) (ts_Z0 ts) (ts_TanLambda ts)
                                (ts_cov ts) (ts_ref ts)).
Proof.
  intros mm ts M L. destruct ts as [lo a b c d e cv [[r0 r1] r2]]. cbn [ts_cov] in *.
  do 15 (destruct cv as [|? cv]; [cbn in L; lia|]). destruct cv; [|cbn in L; lia]. clear L.
  unfold readLCIO. cbn [ts_Omega ts_TanLambda ts_Phi ts_D0 ts_Z0 ts_cov ts_ref]. nz. cbn [bind at_ nth_error].
  nz. cbn [bind]. nz. cbn [bind].
  eexists. split; [reflexivity|].
  unfold createLCIO. nz. cbn [bind]. cbn.
  f_equal. f_equal; try (field; auto).
  - repeat (f_equal; try (field; auto)).
  - repeat (f_equal; try (field; auto)).
Qed.
Print Assumptions C48_state_round_trip.

(** Parameters to track state and back: parameters and reference point are
    unchanged; of each pair of mirrored covariance entries one is kept, so the
    covariance is unchanged exactly if it was symmetric. *)
Theorem C48_parameter_round_trip : forall mm tp, mm <> 0 ->
  exists ts tp', createLCIO mm tp = Ok ts /\ length (ts_cov ts) = 15%nat
    /\ readLCIO mm ts = Ok tp'
    /\ (forall i, tp_par tp' i = tp_par tp i) /\ tp_ref tp' = tp_ref tp
    /\ (forall i j, tp_cov tp' i j = lcio_written (tp_cov tp) i j)
    /\ (same_tp tp' tp <-> msym (tp_cov tp)).
Proof.
  intros mm [cov par [rx ry rz]] M.
  unfold createLCIO. cbn [tp_par tp_cov tp_ref vx vy vz]. nz. cbn [bind].
  do 2 eexists. split; [reflexivity|]. split; [reflexivity|].
  unfold readLCIO. cbn [ts_Omega ts_TanLambda ts_Phi ts_D0 ts_Z0 ts_cov ts_ref]. nz. cbn [bind at_ nth_error].
  nz. cbn [bind]. nz. cbn [bind].
  split; [reflexivity|]. cbn [tp_par tp_cov tp_ref].
  match goal with |- ?A /\ ?B /\ ?C /\ _ => assert (HA : A); [|assert (HB : B); [|assert (HC : C)]] end.
  - intros []; cbn; unfold calculateOmega, calculateTanLambda, calculatePhi0, calculateD0, calculateZ0,
      OMEGA, TANL, PHI0, D0, Z0; field; auto.
  - cbn. f_equal; field; auto.
  - intros [] []; cbn; field; auto.
  - split; [exact HA|]. split; [exact HB|]. split; [exact HC|].
    split.
    + intros (_ & P & _) i j. cbn [tp_cov] in P. rewrite <- (P i j), <- (P j i), !HC.
      destruct i, j; reflexivity.
    + intros S. split; [exact HA|]. split; [|exact HB].
      intros i j. rewrite HC. destruct i, j; cbn [lcio_written tp_cov]; auto.
Qed.
Print Assumptions C48_parameter_round_trip.

(** a track state with a full covariance *)
Definition ex_state : trackState :=
  TS 2 (-3) (1/2) (1/1000) 70 (4/5)
    [4; 1/10; 1/100; 1/1000; 1/5000; 1/100000; 1/2; 1/20; 1/3000; 9; 1/7; 1/30; 1/4000; 1/8; 1/50]
    (1, 2, 3).

Example ex_state_reads : exists tp, readLCIO (1/10) ex_state = Ok tp
  /\ tp_par tp OMEGA = 1/100 /\ tp_par tp D0 = -3/10 /\ tp_cov tp OMEGA OMEGA = 1/1000
  /\ tp_cov tp D0 Z0 = 1/200 /\ tp_cov tp TANL PHI0 = 1/30 /\ tp_cov tp OMEGA TANL = 1/400.
Proof.
  assert (M : 1/10 <> 0) by lra.
  destruct (C48_read (1/10) ex_state M) as ((G & _) & _ & R).
  destruct G as [tp E]; [cbn; lia|]. exists tp. split; auto. destruct (R tp E) as (P & C & _).
  rewrite !P, !C. cbn. repeat split; lra.
Qed.

Example ex_state_short : readLCIO (1/10) (TS 0 0 0 0 0 0 [1; 2; 3] (0, 0, 0)) = Throw.
Proof. apply (C48_read (1/10)); [lra|cbn; lia]. Qed.

(** an asymmetric covariance is not reproduced *)
Example ex_asymmetric :
  let tp := TP (m5set m5zero I0 I1 1) (mk5 1 2 3 4 5) (V3 1 1 1) in
  exists ts tp', createLCIO (1/10) tp = Ok ts /\ readLCIO (1/10) ts = Ok tp' /\ ~ same_tp tp' tp.
Proof.
  intros tp. assert (M : 1/10 <> 0) by lra.
  destruct (C48_parameter_round_trip (1/10) tp M) as (ts & tp' & A & _ & B & _ & _ & _ & I).
  exists ts, tp'. split; auto. split; auto. intros H. apply I in H. specialize (H I0 I1). unfold tp, m5set, m5zero in H. cbn in H. clear - H. lra.
Qed.
