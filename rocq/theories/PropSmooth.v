(** C60: the trajectory as a curve. *)
From Coq Require Import Reals List Bool ZArith Lra Lia.
From Coquelicot Require Import Coquelicot.
From Verif Require Import SpecConst Num Vec Helix Isect Trans Material Traj.
From Verif Require Import SpecHelix HelixFacts SpecTraj SpecSmooth TrajFacts TrajFacts2 TrajFacts3 TrajEx SmoothFacts PropTrajEx.
Import ListNotations.
Open Scope R_scope.

(** Although made of many helices, of different curvature, the trajectory is one
    continuously differentiable curve, and tangentAt is its unit direction. *)
Theorem C60_smooth : forall E ref prop cs t, env_ok E ->
  tp_par ref OMEGA <> 0 -> Rabs (tp_par ref PHI0) <= 2 * PI ->
  history E (orderly E) (mkTraj ref prop) cs t -> tr_elems t <> [] ->
  let k := sqrt (1 + tp_par ref TANL * tp_par ref TANL) in
  exists f g : R -> vec3,
    (forall s, lowest <= s -> tr_pointAt t s = Ok (f s) /\ tr_tangentAt t s = Ok (g s))
    /\ forall s,
       is_derive (fun u => vx (f u)) s (k * vx (g s))
       /\ is_derive (fun u => vy (f u)) s (k * vy (g s))
       /\ is_derive (fun u => vz (f u)) s (k * vz (g s))
       /\ continuous (fun u => vx (g u)) s /\ continuous (fun u => vy (g u)) s
       /\ continuous (fun u => vz (g u)) s.
Proof.
  intros E ref prop cs t [So _] Ho Hp H Ne k.
  assert (L := history_linked E _ ref prop cs t So Ho Hp (fun t c X => X) H).
  destruct (history_placed E _ ref prop cs t So Ho Hp (fun t c X => proj1 X) H) as [P _].
  destruct (history_good _ _ _ _ _ _ So H) as (G & R & _).
  destruct (tr_elems t) as [|e l] eqn:El; [contradiction|]. unfold linked in L. rewrite El in L.
  assert (O : forall x, In x (e :: l) -> tp_par (te_tp x) OMEGA <> 0) by (intros x I; apply (pl_om _ P); rewrite El; auto).
  exists (track curve_of e l), (track tangent_of e l). split.
  - intros s Hs. change lowest with bigNegative in Hs. apply traj_track; auto.
  - assert (T : tp_par (te_tp e) TANL = tp_par ref TANL).
    { destruct (g_first _ G) as [N|((i & I & (_ & Q & _) & _) & _)]; [congruence|].
      rewrite El in I. rewrite <- (chain_tanl l e L i I), Q, R. reflexivity. }
    intros s. assert (X := smooth e l O L). cbv zeta in X. rewrite T in X. fold k in X. destruct (X s) as ((A & B & C) & D).
    split; auto.
Qed.
Print Assumptions C60_smooth.

(** Surfaces without material do not bend the track: whatever is added, in
    whatever order ties are sorted, the trajectory is the initial helix, counted
    from the path length of the initial element. *)
Theorem C60_no_material : forall E ref prop cs t f, env_ok E ->
  tp_par ref OMEGA <> 0 -> Rabs (tp_par ref PHI0) <= 2 * PI -> is_helix (tp_par ref) (tp_ref ref) f ->
  history E bare (mkTraj ref prop) cs t ->
  tr_elems t <> [] ->
  exists s0, calculateSfromXY 0 0 (tp_par ref) (tp_ref ref) = Ok s0
    /\ forall s, lowest <= s -> tr_pointAt t s = Ok (f (s - s0)).
Proof.
  intros E ref prop cs t f [So _] Ho Hp Hf H Ne.
  destruct (history_placed E _ ref prop cs t So Ho Hp (fun t c X => proj1 X) H) as [P _].
  destruct (history_good _ _ _ _ _ _ So H) as (G & R & _).
  destruct (g_first _ G) as [N|((i & I & (_ & _ & S) & _) & _)]; [contradiction|]. rewrite R in S.
  exists (te_s i). split; auto. intros s Hs. change lowest with bigNegative in Hs.
  assert (U := history_uniform E _ ref prop cs t (fun u => f (u - te_s i)) So Ho Hp
    ltac:(intros s0 S0 u; rewrite S in S0; injection S0 as <-; apply helix_is_hcurve; auto) (fun t c X => X) H).
  destruct (tr_elems t) as [|e l] eqn:El; [contradiction|].
  destruct (traj_track t e l El (fun x I => pl_om _ P x ltac:(rewrite El; exact I)) s Hs) as [-> _].
  f_equal. apply track_all. intros x Ix. apply U. rewrite El; auto.
Qed.
Print Assumptions C60_no_material.

(** Elements at different path lengths are left in order by every sort. *)
Lemma distinct_order E t c : env_ok E -> ordered (tr_elems t) ->
  (forall a b, In a (tr_elems t) -> In b (tr_elems t) -> te_s a = te_s b -> a = b) ->
  surfaces_ok t c -> within_half_turn t c -> orderly E t c.
Proof. intros [So _] O D A B. split; auto. split; auto. intros _. apply TrajFacts4.sort_distinct; auto. Qed.

(** ** Instances *)

(** a hit in a station with material, and a preparation *)
Example C60_smooth_instance : exists c t,
  history ex_env (orderly ex_env) (mkTraj ex_ref (Some ex_prop)) [c; CPrep] t
  /\ length (tr_elems t) = 2%nat /\ env_ok ex_env
  /\ tp_par ex_ref OMEGA <> 0 /\ Rabs (tp_par ex_ref PHI0) <= 2 * PI.
Proof.
  destruct traj_instance as (th & t & e & e0' & e' & A & H & El & _ & _ & _ & _ & P & _).
  exists (CMeas v3zero [1; 1] (ex_station 1 th (fun _ => true)) 7 false), (set_elems t [e0'; e']).
  split; [|split; [reflexivity|split; [exact ex_env_ok|split; [exact ex_om_ok|exact ex_phi_ok]]]].
  set (c := CMeas v3zero [1; 1] (ex_station 1 th (fun _ => true)) 7 false) in *.
  change [c; CPrep] with (([] ++ [c]) ++ [CPrep]). apply hist_snoc with t.
  - inversion H as [|cs t0 c0 t1 H0 O St Q]. destruct cs as [|x cs]; [|destruct cs; discriminate].
    injection Q as ->. apply hist_snoc with t0; auto.
    + inversion H0; [constructor|]. destruct cs; discriminate.
    + destruct O as [O1 O2]. split; auto. split; auto. discriminate.
  - split; [exact I|]. split; [exact I|]. intros _. apply isort_id.
    destruct (history_good _ _ _ _ _ _ (proj1 ex_env_ok) H) as [G _]. apply (g_ord _ G).
  - constructor. exact P.
Qed.

(** a hit in a station without material *)
Example C60_no_material_instance : exists c t,
  history ex_env bare (mkTraj ex_ref None) [c] t /\ length (tr_elems t) = 2%nat.
Proof.
  destruct (station_new ex_initial pionMass 1 (fun _ => true) pion_pos) as [K HK]; [cbn; lra|cbn; lra|cbn; lra|].
  destruct (HK 0) as [HM _]; [lra|lra|]. destruct (HM v3zero [1; 1] 7%Z false) as [e He].
  set (surf := ex_station 1 0 (fun _ => true)) in *.
  exists (CMeas v3zero [1; 1] surf 7 false), (set_elems (ex_traj None) [ex_initial; e]). split; [|reflexivity].
  change [CMeas v3zero [1; 1] surf 7 false] with ([] ++ [CMeas v3zero [1; 1] surf 7 false]).
  apply hist_snoc with (mkTraj ex_ref None); [constructor| |].
  - split; [apply station_wf|]. split; [|split; reflexivity]. intros s x Q. unfold surf in Q.
    change (from_state (mkTraj ex_ref None)) with ex_ref in *.
    rewrite station_isect in Q by (cbn; lra). injection Q as _ <- _. cbn.
    replace (1 * ((1 - (0 + 0)) / 1)) with 1 by field. rewrite Rabs_R1. generalize PI2_3_2. lra.
  - apply step_meas with (Ok true); [|left; eauto].
    unfold addMeasurement, pushElement. fold (ex_traj None). rewrite ex_ensure.
    cbn [set_elems tr_elems ex_traj mkTraj tr_mass last]. rewrite He. reflexivity.
Qed.
