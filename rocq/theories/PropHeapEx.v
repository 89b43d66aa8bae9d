(** Concrete cases for C42. *)
From Coq Require Import Reals List Bool ZArith Lra Lia Permutation.
From Verif Require Import Num Vec Helix Isect Trans Material Traj SpecTraj SpecThrow ThrowFacts TrajFacts TrajEx PropTrajEx PropThrow
  Heap SpecHeap HeapFacts HeapFacts2 HeapFacts3 PropHeap.
Import ListNotations.
Open Scope R_scope.

(** sorting pointers by insertion *)
Definition ex_hsort : list helem -> list helem := isort (fun e => te_s (he_val e)).
Lemma ex_hsort_ok : hsort_ok ex_env ex_hsort.
Proof.
  intros l. split; [apply isort_sorts|]. cbn [ex_env en_sortE]. unfold ex_hsort.
  induction l as [|x l IH]; cbn [isort map]; auto. rewrite <- IH. generalize (isort (fun e => te_s (he_val e)) l). clear.
  intros l. induction l as [|y l IH]; cbn [insert map]; auto.
  destruct Rle_dec; cbn [map]; [auto|]. rewrite IH. auto.
Qed.

(** A measurement and a preparation in a memory that already holds something:
    while the trajectory exists it owns nine objects, afterwards the memory is as
    before. *)
Example C42_instance : exists c h t n,
  hhist ex_env ex_hsort [Some KJac; None] ex_ref (Some ex_prop)
    [HCall c false; HCall CPrep false] h t
  /\ length (owned t) = 9%nat
  /\ hDestroy t h = ([Some KJac; None] ++ repeat None n, Ok tt).
Proof.
  destruct traj_instance as (th & t0 & e & e0' & e' & A & _ & E0 & Es & _ & _ & _ & P & _).
  set (surf := ex_station 1 th (fun _ => true)) in *. set (h0 := [Some KJac; None]).
  assert (I0 : hhist ex_env ex_hsort h0 ex_ref (Some ex_prop) [] h0 (hTraj ex_ref (Some ex_prop))) by constructor.
  destruct (hist_inv _ _ _ _ _ _ _ _ ex_hsort_ok I0) as (lost0 & _ & V0).
  destruct (hAddMeasurement ex_env (hTraj ex_ref (Some ex_prop)) v3zero [1; 1] surf 7 false h0) as [[h1 t1] r1] eqn:Q1.
  destruct (push_effect h0 h0 _ lost0 surf _ _ _ _ _ V0
    (fun las h => newMeasurement_effect ex_env (tr_mass (ht_base (hTraj ex_ref (Some ex_prop)))) las v3zero [1; 1] surf 7 false h) Q1) as (B & _).
  assert (X : (erase t1, r1) = (t0, Ok true)) by (rewrite <- A, <- B; reflexivity). injection X as X1 ->.
  assert (I1 : hhist ex_env ex_hsort h0 ex_ref (Some ex_prop) ([] ++ [HCall (CMeas v3zero [1; 1] surf 7 false) false]) h1 t1).
  { apply hh_snoc with h0 (hTraj ex_ref (Some ex_prop)); [exact I0|]. apply hs_meas with true. exact Q1. }
  destruct (hist_inv _ _ _ _ _ _ _ _ ex_hsort_ok I1) as (lost1 & _ & V1).
  destruct (hPrepareForFitting ex_env ex_hsort t1 h1) as [[h2 t2] r2] eqn:Q2.
  destruct (prepare_effect _ _ _ _ _ _ _ _ _ ex_hsort_ok V1 Q2) as (B2 & _).
  rewrite X1, P in B2. destruct r2 as [[]| | | |]; try discriminate. assert (B2' : tr_elems (erase t2) = [e0'; e']) by (injection B2 as B2; cbn; congruence).
  assert (I2 : hhist ex_env ex_hsort h0 ex_ref (Some ex_prop)
     (([] ++ [HCall (CMeas v3zero [1; 1] surf 7 false) false]) ++ [HCall CPrep false]) h2 t2).
  { apply hh_snoc with h1 t1; [exact I1|]. apply hs_prep. exact Q2. }
  destruct (C42_no_leak _ _ _ _ _ _ _ _ ex_hsort_ok I2) as [n D].
  { intros c [J|[J|[]]]; discriminate. }
  exists (CMeas v3zero [1; 1] surf 7 false), h2, t2, n. split; [exact I2|]. split; [|exact D].
  destruct (C42_lost_defined _ _ _ _ _ _ _ _ ex_hsort_ok I2) as (lost2 & L2 & _).
  destruct (C42_alive _ _ _ _ _ _ _ _ _ ex_hsort_ok I2 L2) as (_ & _ & Ag & _).
  assert (El : map he_val (ht_elems t2) = [e0'; e']).
  { transitivity (tr_elems (erase t2)); [reflexivity|exact B2']. }
  assert (Srt : en_sortE ex_env (tr_elems t0) = [ex_initial; e]).
  { rewrite E0. apply isort_id. constructor; [constructor; [constructor|constructor]|]. constructor; [cbn; lra|constructor]. }
  unfold prepareForFitting in P. rewrite Srt in P. cbn [set_elems tr_elems] in P. cbn [prepareLoop] in P.
  dres P. dres B0. cbn [bind] in B0. injection B0 as <-. injection P as <- <-.
  assert (N : exists j, a0 = setJacobian e j).
  { unfold prepareOne in B1. cbv zeta in B1. dres B1. dres B1. dres B1. dres B1.
    match type of B1 with match ?x with _ => _ end = _ => destruct x; [|discriminate] end. dres B1. injection B1 as <-. eauto. }
  destruct N as [j ->].
  assert (Nm : newMeasurement ex_env pionMass ex_initial v3zero [1; 1] surf 7 false = Ok (Some e)).
  { unfold addMeasurement, pushElement in A. fold (ex_traj (Some ex_prop)) in A. rewrite ex_ensure in A.
    cbn [set_elems tr_elems ex_traj mkTraj tr_mass last] in A.
    destruct newMeasurement as [[e1|]| | | |]; try discriminate. injection A as <-. cbn in E0. injection E0 as <-. auto. }
  destruct (newMeasurement_spec _ _ _ _ _ _ _ _ _ Nm) as (s0 & xx & moved & fid & mom & el & Bu & _).
  destruct (bu_proj _ _ _ _ _ _ _ _ _ _ _ _ _ _ _ Bu) as (p & dirs & Pj & Pd & _).
  assert (Pc := bu_cls _ _ _ _ _ _ _ _ _ _ _ _ _ _ _ Bu).
  destruct (ht_elems t2) as [|b0 [|b1 [|b2 l]]] eqn:Et; cbn in El; try discriminate. injection El as F0 F1.
  unfold owned. rewrite Et. cbn [flat_map app]. rewrite app_nil_r, app_length.
  destruct (Ag b0) as (G1 & G2 & G3 & G4); [cbn; auto|].
  destruct (Ag b1) as (K1 & K2 & K3 & K4); [cbn; auto|].
  rewrite F0 in G1, G2, G3, G4. rewrite F1 in K1, K2, K3, K4. cbn in G1, G2, G3, G4, K1, K2, K3, K4.
  unfold agrees in *. unfold owned1. cbv zeta.
  rewrite (proj2 G1), (proj2 G2), (proj2 G3) by auto.
  destruct (he_jac b0); [|exfalso; assert (Some (m5Unit m5zero) = None) by (apply G4; auto); discriminate].
  destruct (he_dirs b1); [|exfalso; rewrite (proj1 K1) in Pd; auto; discriminate].
  destruct (he_frame b1); [|exfalso; rewrite (proj1 K2) in Pc; auto; discriminate].
  destruct (he_proj b1); [|exfalso; rewrite (proj1 K3) in Pj; auto; discriminate].
  destruct (he_jac b1); [reflexivity|exfalso; assert (Some j = None) by (apply K4; auto); discriminate].
Qed.

(** A hit on a station that is crossed edge-on: four objects remain. *)
Example C42_leak_instance : exists c h t tail,
  hhist ex_env ex_hsort [] ex_ref (Some ex_prop) [HCall c true] h t
  /\ hDestroy t h = (tail, Ok tt) /\ live tail = [KParams; KDirs; KFrame; KProj].
Proof.
  destruct (C59_edge_on_instance (Some ex_prop)) as (th & t' & A & _ & U).
  set (surf := ex_flat 1 th (fun _ => true)) in *.
  assert (I0 : hhist ex_env ex_hsort [] ex_ref (Some ex_prop) [] [] (hTraj ex_ref (Some ex_prop))) by constructor.
  destruct (hist_inv _ _ _ _ _ _ _ _ ex_hsort_ok I0) as (lost0 & _ & V0).
  destruct (hAddMeasurement ex_env (hTraj ex_ref (Some ex_prop)) v3zero [1; 1] surf 7 true []) as [[h1 t1] r1] eqn:Q1.
  destruct (push_effect [] [] _ lost0 surf _ _ _ _ _ V0
    (fun las h => newMeasurement_effect ex_env (tr_mass (ht_base (hTraj ex_ref (Some ex_prop)))) las v3zero [1; 1] surf 7 true h) Q1) as (B & _).
  assert (X : (erase t1, r1) = (t', Throw)) by (rewrite <- A, <- B; reflexivity). injection X as X1 ->.
  assert (I1 : hhist ex_env ex_hsort [] ex_ref (Some ex_prop) ([] ++ [HCall (CMeas v3zero [1; 1] surf 7 true) true]) h1 t1).
  { apply hh_snoc with [] (hTraj ex_ref (Some ex_prop)); [exact I0|]. apply hs_meas_throw. exact Q1. }
  destruct (C42_destroy _ _ _ _ _ _ _ _ ([] ++ [KParams; KDirs; KFrame; KProj]) ex_hsort_ok I1) as (tail & D & L).
  { constructor; [constructor|]. apply lv_meas. exact U. }
  exists (CMeas v3zero [1; 1] surf 7 true), h1, t1, tail. split; [exact I1|]. split; [exact D|exact L].
Qed.
