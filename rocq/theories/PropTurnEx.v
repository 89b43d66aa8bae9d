(** C70: concrete cases, and the shift that changes a Jacobian. *)
From Coq Require Import Reals List Bool ZArith Lra Lia Permutation Sorted.
From Verif Require Import SpecConst Num Vec Helix Isect Trans Propag Material Traj Fit.
From Verif Require Import NumFacts SpecHelix HelixFacts PathFacts SpecTraj TrajFacts TrajFacts2 TrajFacts3 TrajEx.
From Verif Require Import SpecSym SymFacts PropSym SpecTurn TurnFacts TurnFacts2 PropTurn.
Import ListNotations.
Open Scope R_scope.

Definition simp : propagator := fun jac dw _ ts te B _ => Ok (simplifiedJacobian jac dw ts te B).

Lemma insert_same {A} (key : A -> R) (Q : A -> A -> Prop) x x' l l' :
  (forall a b, Q a b -> key b = key a) -> Q x x' -> Forall2 Q l l' ->
  Forall2 Q (insert key x l) (insert key x' l').
Proof.
  intros HK Hx. induction 1 as [|a b l l' Hab F IH]; cbn [insert]; [constructor; auto|].
  rewrite (HK _ _ Hx), (HK _ _ Hab). destruct (Rle_dec (key x) (key a)); constructor; auto.
Qed.
Lemma isort_same {A} (key : A -> R) : same_order key (isort key) (isort key).
Proof.
  intros Q l l' HK. induction 1 as [|a b l l' Hab F IH]; cbn [isort]; [constructor|].
  apply insert_same; auto.
Qed.

(** the uniform field along z looks the same everywhere *)
Lemma ex_env_turned g : turned_env g ex_env ex_env.
Proof.
  constructor; try apply isort_same; intros p; cbn [ex_env en_gfield en_bfield]; unfold ex_field, map_dir;
    cbn [vx vy vz]; f_equal; ring.
Qed.

Lemma station_ok g h th inb : usable g (ex_station h th inb).
Proof. split; [split|]; cbn; intros; discriminate. Qed.

(** preparation of two elements *)
Lemma prep_two t a b : tr_elems t = [a; b] -> te_s a <= te_s b -> te_scat b = false -> tr_prop t = Some simp ->
  exists J, prepareForFitting ex_env t = Ok (set_elems t [setJacobian a (m5Unit m5zero); setJacobian b J])
  /\ J I4 I1 = te_s b / cos (atan (tp_par (te_tp b) TANL)).
Proof.
  intros El L Sc Pm. unfold prepareForFitting. rewrite El. cbv zeta. cbn [ex_env en_sortE set_elems tr_elems].
  rewrite (isort_id te_s [a; b]).
  2: { constructor; [constructor; [constructor|constructor]|]. constructor; [auto|constructor]. }
  cbn [set_elems tr_elems prepareLoop]. unfold prepareOne. cbv zeta. unfold lossTerm. rewrite Sc.
  rewrite rdiv_ok by (generalize (cos_atan_pos (tp_par (te_tp b) TANL)); unfold calculateLambda; lra).
  unfold tr_tangentAt, trajectoryElementAt. cbn [set_elems tr_elems bind tr_prop]. rewrite Pm. unfold simp. cbn [bind].
  eexists. split; [reflexivity|]. unfold simplifiedJacobian. cbv zeta. unfold m5set.
  destruct (idx_eq_dec I4 I4); [|contradiction]. destruct (idx_eq_dec I1 I1); [|contradiction].
  unfold calculateLambda. replace (te_s b - 0) with (te_s b) by ring. reflexivity.
Qed.

(** one hit on a silicon disk *)
Lemma ex_hit : exists th e, 
  run ex_env (mkTraj ex_ref (Some simp)) [CMeas v3zero [1; 1] (ex_station 1 th (fun _ => true)) 7 false]
  = ([Ok true], Some (set_elems (mkTraj ex_ref (Some simp)) [ex_initial; e]))
  /\ te_s e = 1 /\ te_scat e = false /\ 1 / 100 <= th.
Proof.
  destruct (ex_first_hit (Some simp) 1 (fun _ => true) v3zero [1; 1] 7 false ltac:(lra)) as (th & e & Th & A & N).
  exists th, e. cbn [run exec]. unfold ex_traj in A. rewrite A. unfold added. cbn [fst snd].
  split; [reflexivity|].
  destruct (newMeasurement_spec _ _ _ _ _ _ _ _ _ N) as (s0 & xx & moved & fid & mom & el & B & _).
  assert (Is := bu_isect _ _ _ _ _ _ _ _ _ _ _ _ _ _ _ B).
  rewrite station_isect in Is by (cbn; lra). injection Is as _ Is Ix.
  split; [|split; [apply (bu_scat _ _ _ _ _ _ _ _ _ _ _ _ _ _ _ B)|lra]].
  rewrite (bu_s _ _ _ _ _ _ _ _ _ _ _ _ _ _ _ B), <- Is. cbn. field.
Qed.

Lemma ex_start_ok : start_ok ex_ref.
Proof.
  split; [cbn; lra|]. split; [cbn; rewrite Rabs_R0; generalize PI_pos; lra|].
  intros _. right. cbn. rewrite cos_0. lra.
Qed.

(** A hit on a disk, preparation, fit and query, in the setup turned by any angle
    up to a full turn and shifted along the axis. *)
Example C70_instance : forall a h, Rabs a <= 2 * PI ->
  let g := Mot false a (V3 0 0 h) in
  exists th t t', keeps_axis g /\ 1 / 100 <= th
  /\ run ex_env (mkTraj ex_ref (Some simp))
       [CMeas v3zero [1; 1] (ex_station 1 th (fun _ => true)) 7 false; CPrep] = ([Ok true; Ok true], Some t)
  /\ run ex_env (mkTraj (map_tp g ex_ref) (Some simp))
       [CMeas (map_point g v3zero) [1; 1] (carry g (ex_station 1 th (fun _ => true))) 7 false; CPrep]
     = ([Ok true; Ok true], Some t')
  /\ turned_traj g 0 t t' /\ length (tr_elems t') = 2%nat
  /\ Forall (fun e => te_jac e <> None) (tr_elems t').
Proof.
  intros a h Ha g. assert (K : keeps_axis g) by (repeat split). destruct ex_hit as (th & e & R & Es & Sc & Th).
  set (S := ex_station 1 th (fun _ => true)) in *.
  set (t1 := set_elems (mkTraj ex_ref (Some simp)) [ex_initial; e]) in *.
  destruct (prep_two t1 ex_initial e eq_refl) as (J & Pr & _); [cbn; lra|auto|reflexivity|].
  set (t := set_elems t1 [setJacobian ex_initial (m5Unit m5zero); setJacobian e J]) in *.
  assert (R2 : run ex_env (mkTraj ex_ref (Some simp)) [CMeas v3zero [1; 1] S 7 false; CPrep] = ([Ok true; Ok true], Some t)).
  { cbn [run] in *. destruct (exec ex_env (mkTraj ex_ref (Some simp)) (CMeas v3zero [1; 1] S 7 false)) as [r [x|]]; [|discriminate].
    injection R as -> ->. cbn [exec]. rewrite Pr. reflexivity. }
  assert (T : turned_tp g ex_ref (map_tp g ex_ref)).
  { split; [cbn; apply map_cov_id; auto|]. split; [auto|]. repeat split. exists 0%Z. cbn. ring. }
  assert (B : both (turned_prop g) (Some simp) (Some simp)) by (apply (C70_propagators g); auto).
  destruct (C70_carried g S) as [MD _]; [intros [_ E]; discriminate E|].
  assert (C : Forall2 (turned_call g) [CMeas v3zero [1; 1] S 7 false; CPrep]
    [CMeas (map_point g v3zero) [1; 1] (carry g S) 7 false; CPrep]).
  { constructor; [constructor; [exact MD|apply station_ok]|]. constructor; [constructor|constructor]. }
  assert (P' : Rabs (tp_par (map_tp g ex_ref) PHI0) <= 2 * PI).
  { cbn. replace (1 * 0 + a) with a by ring. exact Ha. }
  destruct (C70_run g ex_env ex_env ex_ref (map_tp g ex_ref) (Some simp) (Some simp) _ _ K (ex_env_turned g) T ex_start_ok P' B C) as [Q1 Q2].
  rewrite R2 in Q1, Q2. cbn [fst snd] in *.
  destruct (run ex_env (mkTraj (map_tp g ex_ref) (Some simp)) _) as [rs [t'|]] eqn:R3; cbn [fst snd both] in *; [|contradiction]. subst rs.
  exists th, t, t'. split; auto. split; auto. split; auto. split; auto. split; auto.
  assert (El := tt_elems _ _ _ _ Q2). cbn [t set_elems tr_elems] in El.
  inversion El as [|x y l l' H1 H2 A1 A2]. inversion H2 as [|x2 y2 l2 l2' H3 H4 A3 A4]. inversion H4.
  split; [reflexivity|].
  constructor; [rewrite (tu_jac _ _ _ _ H1); discriminate|]. constructor; [rewrite (tu_jac _ _ _ _ H3); discriminate|constructor].
Qed.

(** The fit does depend on the transverse position of the coordinate origin: with
    the whole setup shifted, the Jacobian of the first hit differs. *)
Theorem C70_shifted_jacobian_refuted : exists g E tp tp' cs cs' t t' e e',
  m_flip g = false /\ m_turn g = 0 /\ turned_env g E E /\ turned_tp g tp tp'
  /\ start_ok tp /\ start_ok tp' /\ turned_prop g simp simp /\ Forall2 (turned_call g) cs cs'
  /\ run E (mkTraj tp (Some simp)) cs = ([Ok true; Ok true], Some t)
  /\ run E (mkTraj tp' (Some simp)) cs' = ([Ok true; Ok true], Some t')
  /\ nth_error (tr_elems t) 1 = Some e /\ nth_error (tr_elems t') 1 = Some e'
  /\ exists J J', te_jac e = Some J /\ te_jac e' = Some J' /\ J I4 I1 < J' I4 I1.
Proof.
  set (g := Mot false 0 (V3 (-1) 1 0)). destruct ex_hit as (th & e & R & Es & Sc & Th).
  set (S := ex_station 1 th (fun _ => true)) in *.
  set (c := CMeas v3zero [1; 1] S 7 false) in *.
  set (c' := CMeas (map_point g v3zero) [1; 1] (carry g S) 7 false).
  assert (G := PI_pos).
  assert (T : turned_tp g ex_ref (map_tp g ex_ref)).
  { split; [cbn; apply map_cov_id; auto|]. split; [auto|]. repeat split. exists 0%Z. cbn. ring. }
  assert (B : turned_prop g simp simp) by (apply (C70_propagators g); auto).
  destruct (C70_carried g S) as [MD _]; [intros [_ E]; discriminate E|].
  assert (C : turned_call g c c') by (constructor; [exact MD|apply station_ok]).
  assert (Z : calculateSfromXY 0 0 (tp_par (map_tp g ex_ref)) (tp_ref (map_tp g ex_ref)) = Ok (PI / 2)).
  { assert (A := SfromXY_inverse (tp_par (map_tp g ex_ref)) (tp_ref (map_tp g ex_ref)) (PI / 2)).
    assert (P0 : map_par g (mk5 1 1 0 0 0) PHI0 = 0) by (cbn; ring).
    assert (W0 : map_par g (mk5 1 1 0 0 0) OMEGA = 1) by (cbn; ring).
    assert (D0' : map_par g (mk5 1 1 0 0 0) D0 = 0) by (cbn; ring).
    cbn [map_tp tp_par tp_ref ex_ref] in *.
    assert (X : vx (hcurve (map_par g (mk5 1 1 0 0 0)) (map_point g v3zero) (PI / 2)) = 0).
    { unfold hcurve. cbn [vx]. rewrite P0, W0, D0'. replace (0 - PI / 2 * 1) with (- (PI / 2)) by ring.
      rewrite sin_neg, sin_PI2, sin_0. unfold map_point, map_dir, vadd, g; cbn. field. }
    assert (Y : vy (hcurve (map_par g (mk5 1 1 0 0 0)) (map_point g v3zero) (PI / 2)) = 0).
    { unfold hcurve. cbn [vy]. rewrite P0, W0, D0'. replace (0 - PI / 2 * 1) with (- (PI / 2)) by ring.
      rewrite cos_neg, cos_PI2, cos_0. unfold map_point, map_dir, vadd, g; cbn. field. }
    rewrite X, Y in A. apply A.
    - rewrite W0. lra.
    - rewrite P0, Rabs_R0. lra.
    - rewrite W0. apply Rabs_def1; lra. }
  destruct (C70_shift g ex_env ex_env ex_ref (map_tp g ex_ref) (Some simp) (Some simp) [c] [c'] 0 (PI / 2)) as [Q1 Q2]; auto.
  { apply ex_env_turned. }
  { apply ex_start_ok. }
  { cbn. rewrite Rmult_0_r, Rplus_0_l, Rabs_R0. lra. }
  { apply ex_first. }
  { constructor; [exact I|constructor]. }
  rewrite R in Q1, Q2. cbn [fst snd] in *.
  destruct (run ex_env (mkTraj (map_tp g ex_ref) (Some simp)) [c']) as [rs [t1'|]] eqn:R'; cbn [fst snd both] in *; [|contradiction]. subst rs.
  set (t1 := set_elems (mkTraj ex_ref (Some simp)) [ex_initial; e]) in *.
  assert (El := tt_elems _ _ _ _ Q2). cbn [t1 set_elems tr_elems] in El.
  inversion El as [|x y l l' H1 H2 A1 A2]. inversion H2 as [|x2 y2 l2 l2' H3 H4 A3 A4]. inversion H4 as [A5 A6|]. subst.
  destruct (prep_two t1 ex_initial e eq_refl) as (J & Pr & EJ); [cbn; lra|auto|reflexivity|].
  assert (S1 := tu_s _ _ _ _ H1). assert (S3 := tu_s _ _ _ _ H3). cbn [ex_initial te_s] in S1.
  assert (Pm : tr_prop t1' = Some simp).
  { clear - R'. cbn [run] in R'. unfold c' in R'. cbn [exec] in R'. unfold addMeasurement, pushElement in R'.
    destruct (ensureInitial (mkTraj (map_tp g ex_ref) (Some simp))) as [u| | | |] eqn:En; try discriminate.
    assert (Pu : tr_prop u = Some simp).
    { unfold ensureInitial, addElement in En. cbn [mkTraj tr_elems] in En. dres En. injection En as <-. reflexivity. }
    destruct (tr_elems u); [discriminate|].
    match type of R' with context [match ?x with Ok _ => _ | _ => _ end] => destruct x as [[n|]| | | |] end;
      cbn in R'; try discriminate; injection R' as <-; exact Pu. }
  destruct (prep_two t1' y y2 (eq_sym A2)) as (J' & Pr' & EJ').
  { rewrite S1, S3, Es. lra. }
  { rewrite (tu_scat _ _ _ _ H3). auto. }
  { exact Pm. }
  exists g, ex_env, ex_ref, (map_tp g ex_ref), [c; CPrep], [c'; CPrep].
  eexists. eexists. exists (setJacobian e J), (setJacobian y2 J').
  split; [reflexivity|]. split; [reflexivity|]. split; [apply ex_env_turned|]. split; [exact T|].
  split; [apply ex_start_ok|].
  split.
  { split; [cbn; lra|]. split; [cbn; rewrite Rmult_0_r, Rplus_0_l, Rabs_R0; lra|]. intros _. left. cbn.
    replace (1 * 0 + 0) with 0 by ring. rewrite cos_0, sin_0. lra. }
  split; [exact B|]. split; [constructor; [exact C|constructor; constructor]|].
  split.
  { cbn [run] in R |- *. destruct (exec ex_env (mkTraj ex_ref (Some simp)) c) as [r [x|]]; [|discriminate].
    injection R as -> ->. cbn [exec]. rewrite Pr. reflexivity. }
  split.
  { cbn [run] in R' |- *. destruct (exec ex_env (mkTraj (map_tp g ex_ref) (Some simp)) c') as [r [x|]]; [|discriminate].
    injection R' as -> ->. cbn [exec]. rewrite Pr'. reflexivity. }
  split; [reflexivity|]. split; [reflexivity|].
  exists J, J'. split; [reflexivity|]. split; [reflexivity|].
  rewrite EJ, EJ', S3, Es. destruct (tu_tp _ _ _ _ H3) as (_ & _ & (_ & Tl & _)). rewrite Tl.
  change (map_par g (tp_par (te_tp e)) TANL) with (tp_par (te_tp e) TANL).
  assert (Pc := cos_atan_pos (tp_par (te_tp e) TANL)).
  unfold Rdiv. apply Rmult_lt_compat_r; [apply Rinv_0_lt_compat; auto|lra].
Qed.
Print Assumptions C70_shifted_jacobian_refuted.
