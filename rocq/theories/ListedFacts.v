(** Searching for a surface from a later point of the same track. *)
From Coq Require Import Reals List Bool ZArith Lra Lia Permutation Sorted.
From Verif Require Import SpecConst Num Vec Helix Isect Trans Material Traj.
From Verif Require Import NumFacts SpecHelix HelixFacts PathFacts MoveFacts SpecIsect SurfFacts SurfFacts2 SurfFacts3 SpecTraj SpecSmooth TrajFacts TrajFacts2 TrajFacts3 TrajFacts4 SmoothFacts SpecListed.
Import ListNotations.
Open Scope R_scope.

(** ** two parametrisations of one helix *)
Lemma hcurve_opposite hp rp s : hp OMEGA <> 0 ->
  vx (hcurve hp rp s) + vx (hcurve hp rp (s + PI / hp OMEGA)) = 2 * vx (centre hp rp)
  /\ vy (hcurve hp rp s) + vy (hcurve hp rp (s + PI / hp OMEGA)) = 2 * vy (centre hp rp).
Proof.
  intros H. destruct (hcurve_centre hp rp s H) as [A B].
  destruct (hcurve_centre hp rp (s + PI / hp OMEGA) H) as [C D].
  replace (hp PHI0 - (s + PI / hp OMEGA) * hp OMEGA) with ((hp PHI0 - s * hp OMEGA) - PI) in C, D by (field; auto).
  unfold Rminus in C, D.
  assert (S1 : forall x, sin (x + - PI) = - sin x).
  { intros x. rewrite sin_plus, sin_neg, cos_neg, sin_PI, cos_PI. ring. }
  assert (C1 : forall x, cos (x + - PI) = - cos x).
  { intros x. rewrite cos_plus, sin_neg, cos_neg, sin_PI, cos_PI. ring. }
  rewrite S1 in C. rewrite C1 in D. unfold Rminus in A, B. lra.
Qed.

Lemma same_hcircle hp rp hp' rp' a : hp OMEGA <> 0 -> hp' OMEGA = hp OMEGA ->
  (forall u, hcurve hp' rp' u = hcurve hp rp (a + u)) -> hcircle hp' rp' = hcircle hp rp.
Proof.
  intros H O G. assert (H' : hp' OMEGA <> 0) by congruence.
  destruct (hcurve_opposite hp' rp' 0 H') as [A B]. destruct (hcurve_opposite hp rp a H) as [C D].
  rewrite !G, O, Rplus_0_r, Rplus_0_l in A, B.
  rewrite !hcircle_centre, O. f_equal; lra.
Qed.

Lemma pline_on_surface surf x : zplane_ok surf ->
  st_plane (sf_type surf) = true -> st_parallelToZ (sf_type surf) = true ->
  on_line (pline surf) (vx x, vy x) -> on_surface surf x.
Proof.
  intros [Z _] A B L. right. left. split; auto. split; auto.
  unfold on_line, pline in L. cbn [l_n0 l_n1 l_d fst snd] in L. unfold vdot at 1. rewrite Z. lra.
Qed.

Section later.
Variables (hp : vec5) (rp : vec3) (hp' : vec5) (rp' : vec3) (f g : R -> vec3) (a : R).
Hypothesis Ho : hp OMEGA <> 0.
Hypothesis Hp : Rabs (hp PHI0) <= 2 * PI.
Hypothesis Hp' : Rabs (hp' PHI0) <= 2 * PI.
Hypothesis Hf : is_helix hp rp f.
Hypothesis Hg : is_helix hp' rp' g.
Hypothesis Om : hp' OMEGA = hp OMEGA.
Hypothesis Same : forall u, g u = f (a + u).

Lemma later_om : hp' OMEGA <> 0.
Proof. congruence. Qed.

Lemma later_circle : hcircle hp' rp' = hcircle hp rp.
Proof.
  apply same_hcircle with a; auto. intros u.
  rewrite <- (helix_is_hcurve hp' rp' g later_om Hg), <- (helix_is_hcurve hp rp f Ho Hf). auto.
Qed.

(** the first crossing ahead stays the first one *)
Lemma later_picked (P : vec3 -> Prop) s s' tol : 0 <= a <= s ->
  picked tol 1 (crossing f (hp OMEGA) P) s -> picked tol 1 (crossing g (hp' OMEGA) P) s' -> s' = s - a.
Proof.
  intros As [In1 Po1 _ _] [In2 Po2 _ _].
  destruct (Po1 ltac:(lia)) as [S0 S1]. destruct (Po2 ltac:(lia)) as [T0 T1].
  destruct In1 as [I1 I2]. destruct In2 as [J1 J2]. rewrite Om in *.
  assert (K : 0 < Rabs (hp OMEGA)) by (apply Rabs_pos_lt; auto).
  rewrite Rabs_mult, (Rabs_pos_eq s) in I1 by auto. rewrite Rabs_mult, (Rabs_pos_eq s') in J1 by auto.
  rewrite Same in J2.
  assert (L1 : s' <= s - a).
  { apply T1; [|lra]. split.
    - rewrite Rabs_mult, (Rabs_pos_eq (s - a)) by lra. nra.
    - rewrite Same. replace (a + (s - a)) with s by ring. auto. }
  assert (L2 : s <= a + s').
  { apply S1; [|lra]. split; auto. rewrite Rabs_mult, (Rabs_pos_eq (a + s')) by lra. nra. }
  lra.
Qed.

Lemma later_none (P : vec3 -> Prop) s tol : 0 <= a <= s ->
  picked tol 1 (crossing f (hp OMEGA) P) s -> ~ none_for 1 (crossing g (hp' OMEGA) P).
Proof.
  intros As [In1 Po1 _ _] N. destruct (Po1 ltac:(lia)) as [S0 _]. destruct In1 as [I1 I2].
  assert (K : 0 < Rabs (hp OMEGA)) by (apply Rabs_pos_lt; auto).
  destruct (N (s - a)) as [[_ X]|[X _]]; [|lra|lia].
  split.
  - rewrite Om. rewrite Rabs_mult in *. rewrite (Rabs_pos_eq s) in I1 by auto. rewrite (Rabs_pos_eq (s - a)) by lra. nra.
  - rewrite Same. replace (a + (s - a)) with s by ring. auto.
Qed.

Lemma later_search surf s x o o' cb' : wf_surface surf -> regular surf hp rp ->
  not_opposite f (hp OMEGA) a surf -> 0 <= a <= s -> (disk surf -> a < s) ->
  intersectWithSurface surf hp rp o 1 true = Ok (true, OVal s x) ->
  intersectWithSurface surf hp' rp' o' 1 cb' = Ok (true, OVal (s - a) (f s)) /\ x = f s.
Proof.
  intros [Wc Wp] [Ty Mg] Op As Ad. unfold intersectWithSurface. cbv zeta.
  assert (Sa : forall u, Rabs (hp' OMEGA * u) = PI -> Rabs (hp OMEGA * (a + u - a)) = PI).
  { intros u U. replace (a + u - a) with u by ring. rewrite <- Om. auto. }
  assert (Gs : g (s - a) = f s) by (rewrite Same; f_equal; ring).
  destruct (isZCylinder (sf_type surf)) eqn:T1.
  { apply andb_prop in T1. destruct T1 as [T1 T2]. intros Q.
    destruct (sf_cyl surf) as [[rho c]|] eqn:Cy.
    2: { exfalso. unfold intersectWithZCylinder in Q. rewrite Cy, T2 in Q. cbn in Q. discriminate. }
    specialize (Wc _ _ eq_refl).
    destruct (zcyl_complete surf hp rp rho c o 1 true f Ho Hp Hf Wc T2 Cy)
      as [(Q1 & _)|[(_ & s1 & b & Pk & B & _ & Q1)|(_ & _ & Q1)]]; rewrite Q1 in Q; try discriminate.
    injection Q as -> -> <-. split; auto.
    destruct (zcyl_complete surf hp' rp' rho c o' 1 cb' g later_om Hp' Hg Wc T2 Cy)
      as [(_ & u & U & V)|[(_ & s2 & b & Pk' & B' & _ & Q2)|(_ & N & _)]].
    - exfalso. rewrite Same in V. apply (Op (a + u)); auto. left. eauto.
    - rewrite Q2. assert (E := later_picked _ _ _ _ As Pk Pk'). subst s2. rewrite Gs in *.
      destruct b; auto. destruct B' as [_ B']. rewrite B'; auto. intros _. apply B; auto.
    - exfalso. exact (later_none _ _ _ As Pk N). }
  destruct (isZPlane (sf_type surf)) eqn:T2.
  { apply andb_prop in T2. destruct T2 as [T2 T3]. intros Q. specialize (Wp T2 T3). specialize (Mg T2 T3).
    destruct (zplane_outcomes surf hp rp o 1 true f Ho Hp Hf Wp) as (_ & _ & _ & X).
    destruct (zplane_outcomes surf hp' rp' o' 1 cb' g later_om Hp' Hg Wp) as (_ & _ & _ & Y).
    assert (Mg' : plane_margin surf hp' rp' = plane_margin surf hp rp)
      by (unfold plane_margin; rewrite later_circle; auto).
    specialize (X Mg). rewrite Mg' in Y. specialize (Y Mg).
    destruct X as [(Q1 & _)|[(_ & s1 & b & Pk & B & Q1)|(_ & _ & Q1)]]; rewrite Q1 in Q; try discriminate.
    injection Q as -> -> <-. split; auto.
    destruct Y as [(_ & u & U & V)|[(_ & s2 & b & Pk' & B' & Q2)|(_ & N & _)]].
    - exfalso. rewrite Same in V. apply (Op (a + u)); auto. apply pline_on_surface; auto.
    - rewrite Q2. assert (E := later_picked _ _ _ _ As Pk Pk'). subst s2. rewrite Gs in *.
      destruct b; auto. destruct B' as [_ B']. rewrite B'; auto. intros _. apply B; auto.
    - exfalso. exact (later_none _ _ _ As Pk N). }
  assert (T3 : isZDisk (sf_type surf) = true).
  { unfold isZCylinder, isZPlane, isZDisk in *. destruct Ty as [[A B]|[A [B|B]]]; rewrite A, B in *; try discriminate.
    reflexivity. }
  rewrite T3. assert (T4 : disk surf).
  { apply andb_prop in T3. destruct T3 as [T3 T4]. split; auto. split; auto. unfold isZPlane in T2. rewrite T3 in T2. auto. }
  intros Q.
  destruct (zdisk_spec surf hp rp o 1 true f Hf) as [Z1 Z2].
  destruct (zdisk_spec surf hp' rp' o' 1 cb' g Hg) as [Y1 Y2].
  assert (Tn : hp' TANL = hp TANL).
  { assert (F := helix_is_hcurve hp rp f Ho Hf). assert (G := helix_is_hcurve hp' rp' g later_om Hg).
    assert (A0 := Same 0). assert (A1 := Same 1). rewrite F, G in A0, A1.
    apply (f_equal vz) in A0. apply (f_equal vz) in A1. unfold hcurve in A0, A1. cbn [vz] in A0, A1. lra. }
  destruct (Req_dec (hp TANL) 0) as [Z|Z]; [rewrite (Z1 Z) in Q; discriminate|].
  destruct (Z2 Z) as (s1 & U1 & x1 & b1 & Q1 & _ & _ & X1 & _ & B1).
  rewrite <- Tn in Z. destruct (Y2 Z) as (s2 & U2 & x2 & b2 & Q2 & _ & _ & X2 & _ & B2).
  specialize (X1 Ho). specialize (X2 later_om). rewrite Q1 in Q. injection Q as -> -> ->.
  assert (s - a = s2). { apply U2. rewrite Gs. apply U1. auto. }
  subst s2 x x2. rewrite Q2, Gs in *. split; auto. destruct b2; auto.
  destruct B1 as [B1 _]. destruct (B1 eq_refl) as [_ B3].
  destruct B2 as [_ B2]. rewrite B2; auto. split; [split; intros; [|lia]|intros _; auto].
  specialize (Ad T4). lra.
Qed.
End later.

Lemma found_disk t surf s : disk surf -> found t surf s -> 0 < s.
Proof.
  intros (A & B & C) [[x X] _]. unfold intersectWithSurface in X. cbv zeta in X.
  unfold isZCylinder, isZPlane, isZDisk in X. rewrite A, B, C, andb_false_r in X. cbn [andb] in X.
  unfold intersectWithZDisk in X. cbv zeta in X. dres X. injection X as X <- _.
  destruct (Rlt_dec 0 a); auto. exfalso. clear B0. apply andb_prop in X. destruct X as [X _].
  apply mode_ok_iff in X. destruct X as [X _]. specialize (X ltac:(lia)). lra.
Qed.

(** ** additions *)
Lemma adds_outcome E t surf c t' r : adds E t surf c t' r -> (exists b, r = Ok b) \/ r = Throw ->
  (r = Throw /\ t' = t /\ ensureInitial t = Throw)
  \/ exists t1 e0 l, ensureInitial t = Ok t1 /\ tr_elems t1 = e0 :: l
     /\ ((r = Ok false /\ t' = t1 /\ exists cb o, intersectWithSurface surf (tp_par (te_tp (last l e0)))
             (tp_ref (te_tp (last l e0))) (OVal 0 v3zero) 1 cb = Ok (false, o))
         \/ (r = Throw /\ t' = t1)
         \/ (exists e cb sc meas elUV s0 xx moved fid mom el, r = Ok true /\ t' = set_elems t1 (tr_elems t1 ++ [e])
              /\ built E (tr_mass t) (last l e0) surf cb sc meas elUV e s0 xx moved fid mom el)).
Proof.
  intros A W. destruct A as [position precision id sc t' r A|t' r A].
  - destruct (push_spec _ _ _ _ A W) as [X|(t1 & e0 & l & En & El & C)]; auto.
    right. exists t1, e0, l. split; auto. split; auto.
    destruct C as [(-> & -> & N)|[(-> & -> & _)|(e & -> & N & ->)]]; auto.
    + left. split; auto. split; auto. exists false. unfold newMeasurement in N. cbv zeta in N. dres N.
      destruct a as [[] [s x|]]; try discriminate; [|eauto|eauto]. exfalso.
      repeat (dres N).
    + right. right. destruct (newMeasurement_spec _ _ _ _ _ _ _ _ _ N) as (s0 & xx & moved & fid & mom & el & B & _).
      do 11 eexists. split; [reflexivity|]. split; [reflexivity|exact B].
  - destruct (push_spec _ _ _ _ A W) as [X|(t1 & e0 & l & En & El & C)]; auto.
    right. exists t1, e0, l. split; auto. split; auto.
    destruct C as [(-> & -> & N)|[(-> & -> & _)|(e & -> & N & ->)]]; auto.
    + left. split; auto. split; auto. exists true. unfold newScatterer in N. cbv zeta in N. dres N.
      destruct a as [[] [s x|]]; try discriminate; [|eauto|eauto]. exfalso.
      repeat (dres N).
    + right. right. destruct (newScatterer_spec _ _ _ _ _ N) as (s0 & xx & moved & fid & mom & el & B & _).
      do 11 eexists. split; [reflexivity|]. split; [reflexivity|exact B].
Qed.

Lemma reached_last t1 e0 l s0 : tr_elems t1 = e0 :: l -> reached t1 s0 = te_s (last l e0) - s0.
Proof. intros El. unfold reached. rewrite El. destruct (rev_last l e0) as [l' ->]. auto. Qed.

(** what an addition of a listed surface, not behind the last element, does *)
Lemma listed_next E ref prop cs t f s0 surf s c t' r : env_ok E ->
  tp_par ref OMEGA <> 0 -> Rabs (tp_par ref PHI0) <= 2 * PI -> is_helix (tp_par ref) (tp_ref ref) f ->
  history E bare (mkTraj ref prop) cs t -> calculateSfromXY 0 0 (tp_par ref) (tp_ref ref) = Ok s0 ->
  found (mkTraj ref prop) surf s -> wf_surface surf -> regular surf (tp_par ref) (tp_ref ref) ->
  reached t s0 <= s -> (disk surf -> reached t s0 < s) ->
  not_opposite f (tp_par ref OMEGA) (reached t s0) surf ->
  adds E t surf c t' r ->
  within_half_turn t c
  /\ r <> Ok false
  /\ (r = Ok true -> exists t1 e, with_initial t t1 /\ extended t1 t' e /\ te_surf e = Some surf
        /\ te_s e = s + s0 /\ tp_ref (te_tp e) = f s).
Proof.
  intros [So _] Ho Hp Hf H S0 [[x F1] F2] Wf Rg As Ad Op A.
  destruct (history_good _ _ _ _ _ _ So H) as (G & R & _).
  destruct (history_placed E _ ref prop cs t So Ho Hp (fun t c X => proj1 X) H) as [P _].
  assert (F : forall u, f u = hcurve (tp_par ref) (tp_ref ref) u) by (apply helix_is_hcurve; auto).
  assert (U := history_uniform E _ ref prop cs t (fun u => f (u - s0)) So Ho Hp
    ltac:(intros s1 S1 u; rewrite S0 in S1; injection S1 as <-; apply F) (fun t c X => X) H).
  cbn [tr_ref mkTraj] in F1, F2.
  assert (St : tp_par (from_state t) OMEGA = tp_par ref OMEGA /\ Rabs (tp_par (from_state t) PHI0) <= 2 * PI
     /\ 0 <= reached t s0
     /\ forall u, hcurve (tp_par (from_state t)) (tp_ref (from_state t)) u = f (reached t s0 + u)).
  { unfold from_state, reached. destruct (rev (tr_elems t)) as [|e l] eqn:El.
    - rewrite R. split; auto. split; auto. split; [lra|]. intros u. rewrite Rplus_0_l. symmetry. apply F.
    - assert (I : In e (tr_elems t)) by (apply in_rev; rewrite El; left; auto).
      destruct (U e I) as [U1 U2]. split; auto. split; [apply (pl_phi _ P); auto|].
      destruct (g_first _ G) as [N|((i & Ii & (_ & _ & Si) & Mi) & _)]; [rewrite N in I; destruct I|].
      rewrite R, S0 in Si. injection Si as Si. specialize (Mi e I). split; [lra|].
      intros u. specialize (U2 (te_s e + u)). unfold curve_of in U2. replace (te_s e + u - te_s e) with u in U2 by ring.
      rewrite U2. f_equal. ring. }
  destruct St as (St1 & St2 & St3 & St4).
  assert (Q : forall cb, intersectWithSurface surf (tp_par (from_state t)) (tp_ref (from_state t)) (OVal 0 v3zero) 1 cb
     = Ok (true, OVal (s - reached t s0) (f s))).
  { intros cb. eapply later_search with (hp := tp_par ref) (rp := tp_ref ref)
      (g := hcurve (tp_par (from_state t)) (tp_ref (from_state t))); eauto.
    apply hcurve_helix. congruence. }
  assert (Hw : forall s' xx cb, intersectWithSurface surf (tp_par (from_state t)) (tp_ref (from_state t)) (OVal 0 v3zero) 1 cb
     = Ok (true, OVal s' xx) -> Rabs (tp_par (from_state t) OMEGA * s') < PI).
  { intros s' xx cb Q'. rewrite Q in Q'. injection Q' as <- _. rewrite St1.
    rewrite (radius_eq _ Ho) in F2. unfold Rdiv in F2. rewrite Rmult_1_l, Rabs_inv in F2.
    assert (K : 0 < Rabs (tp_par ref OMEGA)) by (apply Rabs_pos_lt; auto).
    rewrite Rabs_mult, (Rabs_pos_eq (s - _)) by lra.
    apply Rle_lt_trans with (Rabs (tp_par ref OMEGA) * s); [nra|].
    apply Rlt_le_trans with (Rabs (tp_par ref OMEGA) * (PI * / Rabs (tp_par ref OMEGA))); [nra|].
    right. field. lra. }
  split; [destruct A; unfold within_half_turn; intros s' xx Q'; eapply Hw; eauto|].
  assert (Ev : ensureInitial t = Throw \/ ((exists b, r = Ok b) \/ r = Throw) \/ forall b, r <> Ok b).
  { destruct r; eauto; right; right; discriminate. }
  assert (Wr : (exists b, r = Ok b) -> r <> Ok false
    /\ (r = Ok true -> exists t1 e, with_initial t t1 /\ extended t1 t' e /\ te_surf e = Some surf
        /\ te_s e = s + s0 /\ tp_ref (te_tp e) = f s)).
  { intros W. destruct (adds_outcome _ _ _ _ _ _ A (or_introl W)) as [(-> & _)|(t1 & e0 & l & En & El & C)].
    { destruct W; discriminate. }
    destruct (ensure_last _ _ En) as (e0' & l' & L1 & L2 & _). rewrite El in L1. injection L1 as <- <-.
    rewrite L2 in C.
    destruct C as [(-> & _ & cb & o & N)|[(-> & _)|(e & cb & sc & meas & elUV & sx & xx & moved & fid & mom & el & -> & -> & B)]].
    - rewrite Q in N. discriminate.
    - destruct W; discriminate.
    - split; [discriminate|]. intros _. exists t1, e.
      assert (Bi := bu_isect _ _ _ _ _ _ _ _ _ _ _ _ _ _ _ B). rewrite L2, Q in Bi. injection Bi as <- <-.
      destruct (built_facts _ _ _ _ _ _ _ _ _ _ _ _ _ _ _ B ltac:(rewrite L2; congruence) ltac:(rewrite L2; auto) Wf)
        as (_ & _ & _ & _ & Rf & _).
      assert (Tr : tp_ref (te_tp e) = tp_ref moved).
      { assert (X := bu_tp _ _ _ _ _ _ _ _ _ _ _ _ _ _ _ B). unfold applyLoss in X. repeat (dres X).
        injection X as <-. reflexivity. }
      split; [|split; [reflexivity|split; [exact (bu_surf _ _ _ _ _ _ _ _ _ _ _ _ _ _ _ B)|split; [|congruence]]]].
      + destruct (ensure_spec _ _ En) as [(N & ->)|(N & s1 & S1 & ->)]; [left; auto|]. right. split; auto.
        eexists. split; [reflexivity|]. cbn. repeat split; auto.
      + rewrite (bu_s _ _ _ _ _ _ _ _ _ _ _ _ _ _ _ B).
        destruct (ensure_spec _ _ En) as [(N & ->)|(N & s1 & S1 & ->)].
        * rewrite (reached_last _ _ _ s0 El). ring.
        * cbn [set_elems tr_elems] in El. injection El as <- <-. cbn [last te_s]. rewrite R, S0 in S1. injection S1 as <-.
          unfold reached. rewrite N. cbn [rev]. ring. }
  destruct r as [b| | | |]; [apply Wr; eauto| | | |]; split; intros; discriminate.
Qed.

(** ** one call per listed entry, in order *)
Lemma located_reached f s0 l t : List.Forall (located f s0 l) (tr_elems t) ->
  reached t s0 = 0 \/ In (reached t s0) (map fst l).
Proof.
  intros L. unfold reached. destruct (rev (tr_elems t)) as [|e k] eqn:El; auto.
  assert (I : In e (tr_elems t)) by (apply in_rev; rewrite El; left; auto).
  rewrite Forall_forall in L. destruct (L e I) as [(_ & ->)|(s & surf & J & _ & -> & _)]; [left; ring|].
  right. replace (s + s0 - s0) with s by ring. apply (in_map fst) in J. exact J.
Qed.

Section feeding.
Variables (E : env) (ref : trackParameters) (prop : option propagator) (surfaces : list surface)
  (t1 : traj) (f : R -> vec3) (s0 : R).
Hypothesis Ek : env_ok E.
Hypothesis Ho : tp_par ref OMEGA <> 0.
Hypothesis Hp : Rabs (tp_par ref PHI0) <= 2 * PI.
Hypothesis Hf : is_helix (tp_par ref) (tp_ref ref) f.
Hypothesis Li : getIntersectionsWithSurfaces E (mkTraj ref prop) surfaces = Ok t1.
Hypothesis S0 : calculateSfromXY 0 0 (tp_par ref) (tp_ref ref) = Ok s0.
Hypothesis Sf : forall surf, In surf surfaces ->
  wf_surface surf /\ thin surf /\ regular surf (tp_par ref) (tp_ref ref).
Hypothesis Da : disks_apart (tr_isect t1).
Hypothesis Op : forall a s surf, a = 0 \/ In a (map fst (tr_isect t1)) ->
  In (s, surf) (tr_isect t1) -> a <= s -> not_opposite f (tp_par ref OMEGA) a surf.

Lemma listed_facts : ordered_by fst (tr_isect t1) /\ tr_elems t1 = []
  /\ forall s surf, In (s, surf) (tr_isect t1) -> In surf surfaces /\ found (mkTraj ref prop) surf s.
Proof.
  destruct Ek as [_ Si]. destruct (intersections_spec _ _ _ _ Si Li) as (ents & A & Pm & O & F1 & F2 & F3 & F4).
  split; auto. split; auto. intros s surf I. apply (all_found_in _ _ _ A).
  eapply Permutation_in; [apply Permutation_sym; exact Pm|exact I].
Qed.

Lemma ordered_before (l1 : list (R * surface)) s surf l2 a : ordered_by fst (l1 ++ (s, surf) :: l2) -> In a (map fst l1) -> a <= s.
Proof.
  intros O I. apply in_map_iff in I. destruct I as ((a' & sf) & <- & I). cbn [fst].
  induction l1 as [|x l1 IH]; [destruct I|]. cbn [app] in O. apply StronglySorted_inv in O. destruct O as [O1 O2].
  destruct I as [->|I]; auto. rewrite Forall_forall in O2. apply (O2 (s, surf)). apply in_or_app. right. left. auto.
Qed.

Lemma fed_step l s surf rest t cs c t' r : tr_isect t1 = l ++ (s, surf) :: rest ->
  history E bare (mkTraj ref prop) cs t -> List.Forall (located f s0 l) (tr_elems t) -> adds E t surf c t' r ->
  bare t c /\ r <> Ok false
  /\ (r = Ok true -> exists t1 e, with_initial t t1 /\ extended t1 t' e /\ te_surf e = Some surf
        /\ te_s e = s + s0 /\ tp_ref (te_tp e) = f s).
Proof.
  intros Eq H L A. destruct listed_facts as (O & _ & Fd).
  destruct (Fd s surf) as [I F]; [rewrite Eq; apply in_or_app; right; left; auto|].
  destruct (Sf surf I) as (W & Th & Rg).
  assert (Re := located_reached _ _ _ _ L).
  assert (Le : reached t s0 <= s).
  { destruct Re as [->|Re]; [destruct F; lra|]. rewrite Eq in O. eapply ordered_before; eauto. }
  destruct (listed_next E ref prop cs t f s0 surf s c t' r Ek Ho Hp Hf H S0 F W Rg Le) as (X & Y); auto.
  - intros D. destruct Re as [->|Re]; [eapply found_disk; eauto|].
    destruct Le as [Le|Le]; auto. exfalso. rewrite Le in Re. exact (Da _ _ _ _ Eq D Re).
  - apply (Op (reached t s0) s surf); auto; [|rewrite Eq; apply in_or_app; right; left; auto]. destruct Re as [->|Re]; [left; auto|]. right. rewrite Eq, map_app. apply in_or_app. left. auto.
  - split; [|exact Y]. destruct A; (split; [exact W|split; [exact X|exact Th]]).
Qed.

Lemma fed_history l t : fed E t1 l t -> forall rest, tr_isect t1 = l ++ rest ->
  (exists cs, history E bare (mkTraj ref prop) cs t) /\ List.Forall (located f s0 l) (tr_elems t).
Proof.
  induction 1 as [|l t s surf c t' r Fe IH A W]; intros rest Eq.
  - destruct listed_facts as (_ & N & _). split; [|rewrite N; constructor].
    exists ([] ++ [CIsect surfaces]). apply hist_snoc with (mkTraj ref prop); [constructor| |].
    + repeat split.
    + constructor. exact Li.
  - rewrite <- app_assoc in Eq. cbn [app] in Eq. destruct (IH _ Eq) as [[cs H] L].
    destruct (fed_step l s surf rest t cs c t' r Eq H L A) as (B & Nf & Ac). split.
    + exists (cs ++ [c]). apply hist_snoc with t; auto. destruct A; econstructor; eauto.
    + assert (L' : List.Forall (located f s0 (l ++ [(s, surf)])) (tr_elems t)).
      { eapply Forall_impl; [|exact L]. intros e [X|(s' & sf & I & X)]; [left; auto|]. right. exists s', sf.
        split; auto. apply in_or_app. auto. }
      destruct Ek as [So _].
      destruct (history_good _ _ _ _ _ _ So H) as (_ & R & _).
      assert (L1 : forall tt, with_initial t tt -> List.Forall (located f s0 (l ++ [(s, surf)])) (tr_elems tt)).
      { intros tt [(_ & ->)|(_ & i & -> & Pl & _ & Si & _)]; auto. cbn [set_elems tr_elems].
        constructor; [|constructor]. left. destruct Pl as [Pl _]. split; auto. rewrite R, S0 in Si. congruence. }
      destruct (adds_outcome _ _ _ _ _ _ A W) as [(_ & -> & _)|(t2 & e0 & k & En & El & C)]; auto.
      assert (Wi : with_initial t t2).
      { destruct (ensure_spec _ _ En) as [(N & ->)|(N & s1 & S1 & ->)]; [left; auto|]. right. split; auto.
        eexists. split; [reflexivity|]. cbn. repeat split; auto. }
      destruct C as [(-> & _)|[(_ & ->)|(e & cb & sc & meas & elUV & sx & xx & moved & fid & mom & el & -> & -> & _)]];
        [contradiction|auto|].
      destruct (Ac eq_refl) as (t3 & e' & W3 & X3 & Y1 & Y2 & Y3).
      unfold extended in X3. apply (f_equal tr_elems) in X3. cbn [set_elems tr_elems] in X3 |- *. rewrite X3.
      apply Forall_app. split; [apply L1; auto|]. constructor; [|constructor]. right. exists s, surf.
      split; auto. apply in_or_app. right. left. auto.
Qed.
End feeding.
