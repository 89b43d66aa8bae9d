(** Proofs about moveHelixTo (C07-C09). *)
From Coq Require Import Reals Lra Lia ZArith Psatz List.
From Coquelicot Require Import Coquelicot.
From Verif Require Import Num NumFacts Vec Helix SpecHelix HelixFacts PathFacts.
Open Scope R_scope.

Lemma half_sin t : 0 <= t <= 2 * PI ->
  (if Rlt_dec PI t then - sqrt (Rmax 0 ((1 - cos t) * (1 + cos t)))
   else sqrt (Rmax 0 ((1 - cos t) * (1 + cos t)))) = sin t.
Proof.
  intros Ht.
  assert (E : (1 - cos t) * (1 + cos t) = sin t * sin t) by (generalize (sc1 t); intros; lra).
  rewrite E. rewrite Rmax_right by nra.
  destruct (Rlt_dec PI t) as [L|L].
  - assert (sin t <= 0) by (apply sin_le_0; lra).
    replace (sin t * sin t) with (- sin t * - sin t) by ring.
    rewrite sqrt_square by lra. ring.
  - assert (0 <= sin t) by (apply sin_ge_0; lra).
    rewrite sqrt_square by lra. reflexivity.
Qed.

(** sign of the curvature *)
Definition sg (x : R) : R := if Rlt_dec 0 x then 1 else -1.

Lemma sg_sq x : sg x * sg x = 1.
Proof. unfold sg. destruct (Rlt_dec 0 x); lra. Qed.

Lemma sg_abs x : x <> 0 -> sg x * Rabs x = x.
Proof.
  intros H. unfold sg. destruct (Rlt_dec 0 x).
  - rewrite Rabs_pos_eq; lra.
  - rewrite Rabs_left; lra.
Qed.

Lemma sg_cases x : sg x = 1 \/ sg x = -1.
Proof. unfold sg. destruct (Rlt_dec 0 x); auto. Qed.

(** transverse distance of the circle centre from the new reference point *)
Definition crho (hp : vec5) (rp v : vec3) : R :=
  sqrt ((vx (centre hp rp) - vx v) * (vx (centre hp rp) - vx v)
        + (vy (centre hp rp) - vy v) * (vy (centre hp rp) - vy v)).

Lemma cos_shift a : cos (a - PI / 2) = sin a.
Proof. rewrite cos_minus, cos_PI2, sin_PI2. ring. Qed.
Lemma sin_shift a : sin (a - PI / 2) = - cos a.
Proof. rewrite sin_minus, cos_PI2, sin_PI2. ring. Qed.

(** the angle fi0p before wrapping *)
Definition fi0p_raw (hp : vec5) (rp v : vec3) : R :=
  atan2 (sg (hp OMEGA) * (vy (centre hp rp) - vy v))
        (sg (hp OMEGA) * (vx (centre hp rp) - vx v)).

Lemma fi0p_raw_polar hp rp v :
  crho hp rp v * cos (fi0p_raw hp rp v) = sg (hp OMEGA) * (vx (centre hp rp) - vx v)
  /\ crho hp rp v * sin (fi0p_raw hp rp v) = sg (hp OMEGA) * (vy (centre hp rp) - vy v).
Proof.
  unfold fi0p_raw, crho. set (s := sg (hp OMEGA)).
  set (a := vx (centre hp rp) - vx v). set (b := vy (centre hp rp) - vy v).
  replace (a * a + b * b) with ((s * a) * (s * a) + (s * b) * (s * b))
    by (generalize (sg_sq (hp OMEGA)); fold s; intros Hs;
        transitivity (s * s * (a * a + b * b)); [ring | rewrite Hs; ring]).
  split; [apply atan2_cos | apply atan2_sin].
Qed.

(** Everything moveHelixTo does, in closed form. *)
Record moved_spec (tp : trackParameters) (v : vec3) (p' : vec5) (fid : R) : Prop := {
  ms_om : p' OMEGA = tp_par tp OMEGA;
  ms_tl : p' TANL = tp_par tp TANL;
  ms_d0 : p' D0 = 1 / tp_par tp OMEGA - sg (tp_par tp OMEGA) * crho (tp_par tp) (tp_ref tp) v;
  ms_cos : cos (p' PHI0) = - sin (fi0p_raw (tp_par tp) (tp_ref tp) v);
  ms_sin : sin (p' PHI0) = cos (fi0p_raw (tp_par tp) (tp_ref tp) v);
  ms_phi_range : - PI <= p' PHI0 <= PI;
  ms_z0 : p' Z0 = vz (tp_ref tp) - vz v + tp_par tp Z0
                  - 1 / tp_par tp OMEGA * tp_par tp TANL * fid;
  ms_fid : exists k : Z, p' PHI0 = tp_par tp PHI0 + fid + 2 * IZR k * PI;
  ms_fid_range : - PI < fid <= PI
}.

(** the wrapped azimuth depends only on the raw angle *)
Definition newphi (raw : R) : R :=
  match while_less 0 raw with
  | Ok a =>
    match while_greater (2 * PI) a with
    | Ok b => match while_less (- PI) (b + PI / 2) with
              | Ok c => match while_greater PI c with Ok d => d | _ => 0 end
              | _ => 0
              end
    | _ => 0
    end
  | _ => 0
  end.

Lemma moveHelixTo_closed tp v cm :
  tp_par tp OMEGA <> 0 ->
  exists p' fid csfd snfd,
    moved_spec tp v p' fid
    /\ p' PHI0 = newphi (fi0p_raw (tp_par tp) (tp_ref tp) v)
    /\ p' = mk5 (p' OMEGA) (p' TANL) (p' PHI0) (p' D0) (p' Z0)
    /\ csfd = cos fid /\ snfd = sin fid
    /\ moveHelixTo tp v cm =
       (if cm then
          rdrpr <- rdiv 1 (1 / tp_par tp OMEGA - p' D0) ;;
          let F := moveF (tp_par tp OMEGA) (1 / tp_par tp OMEGA)
                     (1 / tp_par tp OMEGA - tp_par tp D0) (- p' D0)
                     (tp_par tp TANL) fid csfd snfd rdrpr in
          Ok (TP (m5mul (m5mul F (tp_cov tp)) (m5transpose F)) p' v, fid)
        else Ok (TP (tp_cov tp) p' v, fid)).
Proof.
  intros H. generalize PI_pos; intros HP.
  destruct tp as [C hp rp]; simpl in *.
  unfold moveHelixTo. simpl tp_par; simpl tp_ref; simpl tp_cov. cbv zeta.
  (* fi0 *)
  destruct (wrap_spec 0 (hp PHI0 - PI / 2)) as (y1 & fi0 & k1 & E1 & E1' & K1 & R1 & _).
  rewrite Rplus_0_l in E1', R1.
  rewrite E1; simpl bind. rewrite E1'; simpl bind.
  rewrite rdiv_ok by auto. simpl bind.
  rewrite (half_sin fi0) by lra.
  assert (Ec : cos fi0 = sin (hp PHI0)) by (rewrite K1, cos_2kpi; apply cos_shift).
  assert (Es : sin fi0 = - cos (hp PHI0)) by (rewrite K1, sin_2kpi; apply sin_shift).
  set (r := 1 / hp OMEGA).
  assert (Xc : vx rp + (r + - hp D0) * cos fi0 = vx (centre hp rp)).
  { rewrite Ec. unfold centre; simpl. unfold r. ring. }
  assert (Yc : vy rp + (r + - hp D0) * sin fi0 = vy (centre hp rp)).
  { rewrite Es. unfold centre; simpl. unfold r. ring. }
  rewrite Xc, Yc.
  assert (Ea : (if Rlt_dec (hp OMEGA) 0
                then atan2 (vy v - vy (centre hp rp)) (vx v - vx (centre hp rp))
                else if Rlt_dec 0 (hp OMEGA)
                     then atan2 (vy (centre hp rp) - vy v) (vx (centre hp rp) - vx v)
                     else 0) = fi0p_raw hp rp v).
  { unfold fi0p_raw, sg.
    destruct (Rlt_dec (hp OMEGA) 0); destruct (Rlt_dec 0 (hp OMEGA)); try lra;
    f_equal; ring. }
  rewrite Ea. clear Ea.
  set (raw := fi0p_raw hp rp v).
  destruct (wrap_spec 0 raw) as (y2 & fi0p & k2 & E2 & E2' & K2 & R2 & _).
  rewrite Rplus_0_l in E2', R2.
  rewrite E2; simpl bind. rewrite E2'; simpl bind.
  rewrite (half_sin fi0p) by lra.
  replace (cos fi0p * cos fi0p + sin fi0p * sin fi0p) with 1
    by (generalize (sc1 fi0p); intros; lra).
  rewrite sqrt_1, rdiv_ok by lra. simpl bind.
  replace (cos fi0p * (1 / 1)) with (cos fi0p) by field.
  replace (sin fi0p * (1 / 1)) with (sin fi0p) by field.
  destruct (wrap_spec 0 (fi0p - fi0)) as (y3 & fd & k3 & E3 & E3' & K3 & R3 & _).
  rewrite Rplus_0_l in E3', R3.
  rewrite E3; simpl bind. rewrite E3'; simpl bind.
  destruct (wrap_spec (- PI) (fi0p + PI / 2)) as (y4 & ph & k4 & E4 & E4' & K4 & R4 & _).
  replace (- PI + 2 * PI) with PI in E4', R4 by ring.
  rewrite E4; simpl bind. rewrite E4'; simpl bind.
  set (fid := if Rlt_dec PI fd then fd - 2 * PI else fd).
  assert (Hfid : exists k5 : Z, fid = fi0p - fi0 + 2 * IZR k5 * PI).
  { unfold fid. destruct (Rlt_dec PI fd).
    - exists (k3 - 1)%Z. rewrite K3, minus_IZR. ring.
    - exists k3. exact K3. }
  assert (Rfid : - PI < fid <= PI) by (unfold fid; destruct (Rlt_dec PI fd); lra).
  destruct Hfid as [k5 Hfid].
  assert (Ecs : cos fi0p = cos raw) by (rewrite K2; apply cos_2kpi).
  assert (Esn : sin fi0p = sin raw) by (rewrite K2; apply sin_2kpi).
  assert (Edrp : - ((vx (centre hp rp) - vx v) * cos fi0p
                    + (vy (centre hp rp) - vy v) * sin fi0p - r)
                 = r - sg (hp OMEGA) * crho hp rp v).
  { rewrite Ecs, Esn.
    destruct (fi0p_raw_polar hp rp v) as [P1 P2]. fold raw in P1, P2.
    assert (Q1 : vx (centre hp rp) - vx v = sg (hp OMEGA) * (crho hp rp v * cos raw)).
    { rewrite P1. generalize (sg_sq (hp OMEGA)); intros Hs.
      transitivity (sg (hp OMEGA) * sg (hp OMEGA) * (vx (centre hp rp) - vx v));
        [rewrite Hs; ring | ring]. }
    assert (Q2 : vy (centre hp rp) - vy v = sg (hp OMEGA) * (crho hp rp v * sin raw)).
    { rewrite P2. generalize (sg_sq (hp OMEGA)); intros Hs.
      transitivity (sg (hp OMEGA) * sg (hp OMEGA) * (vy (centre hp rp) - vy v));
        [rewrite Hs; ring | ring]. }
    rewrite Q1, Q2. generalize (sc1 raw); intros Hsc.
    transitivity (r - sg (hp OMEGA) * crho hp rp v * (sin raw * sin raw + cos raw * cos raw));
      [ring | rewrite Hsc; ring]. }
  set (drp := (vx (centre hp rp) - vx v) * cos fi0p
              + (vy (centre hp rp) - vy v) * sin fi0p - r) in *.
  set (p' := mk5 (hp OMEGA) (hp TANL) ph (- drp)
              (vz rp - vz v + hp Z0 - r * hp TANL * fid)).
  exists p', fid, (cos fi0p * cos fi0 + sin fi0p * sin fi0),
    (sin fi0p * cos fi0 - cos fi0p * sin fi0).
  split; [|split; [|split; [|split; [|split]]]].
  - constructor; simpl.
    + reflexivity.
    + reflexivity.
    + exact Edrp.
    + rewrite K4, cos_2kpi, cos_plus, cos_PI2, sin_PI2, Esn. fold raw. ring.
    + rewrite K4, sin_2kpi, sin_plus, cos_PI2, sin_PI2, Ecs. fold raw. ring.
    + exact R4.
    + reflexivity.
    + exists (k4 - k5 + k1)%Z. rewrite K4, Hfid, K1, plus_IZR, minus_IZR. field.
    + exact Rfid.
  - unfold newphi. rewrite E2, E2', E4, E4'. reflexivity.
  - reflexivity.
  - rewrite Hfid, cos_2kpi, cos_minus. reflexivity.
  - rewrite Hfid, sin_2kpi, sin_minus. reflexivity.
  - change (p' D0) with (- drp).
    replace (r - - drp) with (r + drp) by ring.
    replace (r - hp D0) with (r + - hp D0) by ring.
    rewrite Ropp_involutive.
    destruct cm; reflexivity.
Qed.

(** ** C07: the curve is unchanged *)
Lemma moved_centre tp v p' fid : tp_par tp OMEGA <> 0 -> moved_spec tp v p' fid ->
  centre p' v = centre (tp_par tp) (tp_ref tp).
Proof.
  intros H M. destruct M.
  destruct (fi0p_raw_polar (tp_par tp) (tp_ref tp) v) as [P1 P2].
  set (s := sg (tp_par tp OMEGA)) in *. assert (Hs : s * s = 1) by apply sg_sq.
  set (rho := crho (tp_par tp) (tp_ref tp) v) in *.
  set (raw := fi0p_raw (tp_par tp) (tp_ref tp) v) in *.
  set (c := centre (tp_par tp) (tp_ref tp)) in *.
  assert (Ea : 1 / p' OMEGA - p' D0 = s * rho) by (rewrite ms_om0, ms_d1; ring).
  assert (Hc0 : vz c = 0) by reflexivity.
  unfold centre. rewrite Ea, ms_cos0, ms_sin0.
  destruct c as [cx cy cz]; simpl in *.
  f_equal; auto.
  - transitivity (vx v + s * (rho * cos raw)); [ring|]. rewrite P1.
    transitivity (vx v + s * s * (cx - vx v)); [ring|]. rewrite Hs. ring.
  - transitivity (vy v + s * (rho * sin raw)); [ring|]. rewrite P2.
    transitivity (vy v + s * s * (cy - vy v)); [ring|]. rewrite Hs. ring.
Qed.

Lemma hcurve_by_centre hp rp s : hp OMEGA <> 0 ->
  hcurve hp rp s =
  V3 (vx (centre hp rp) - 1 / hp OMEGA * sin (hp PHI0 - s * hp OMEGA))
     (vy (centre hp rp) + 1 / hp OMEGA * cos (hp PHI0 - s * hp OMEGA))
     (vz rp + hp Z0 + s * hp TANL).
Proof. intros H. unfold hcurve, centre; simpl. f_equal; ring. Qed.

Lemma moved_curve tp v p' fid : tp_par tp OMEGA <> 0 -> moved_spec tp v p' fid ->
  forall s, hcurve p' v s = hcurve (tp_par tp) (tp_ref tp) (s - fid / tp_par tp OMEGA).
Proof.
  intros H M s.
  assert (H' : p' OMEGA <> 0) by (rewrite (ms_om _ _ _ _ M); auto).
  rewrite !hcurve_by_centre by auto.
  rewrite (moved_centre tp v p' fid) by auto.
  destruct M. destruct ms_fid0 as [k Hk].
  rewrite ms_om0, ms_tl0, ms_z1, Hk.
  replace (tp_par tp PHI0 + fid + 2 * IZR k * PI - s * tp_par tp OMEGA)
    with ((tp_par tp PHI0 - (s - fid / tp_par tp OMEGA) * tp_par tp OMEGA) + 2 * IZR k * PI)
    by (field; auto).
  rewrite sin_2kpi, cos_2kpi. f_equal. field. auto.
Qed.

Lemma move_ok tp v : tp_par tp OMEGA <> 0 ->
  exists p' fid, moveHelixTo tp v false = Ok (TP (tp_cov tp) p' v, fid)
                 /\ moved_spec tp v p' fid
                 /\ p' PHI0 = newphi (fi0p_raw (tp_par tp) (tp_ref tp) v).
Proof.
  intros H. destruct (moveHelixTo_closed tp v false H) as (p' & fid & a & b & M & E0 & _ & _ & _ & E).
  exists p', fid. auto.
Qed.

Lemma move_diverges_or_nonfin tp v cm : tp_par tp OMEGA = 0 ->
  moveHelixTo tp v cm = NonFin.
Proof.
  intros H. unfold moveHelixTo.
  destruct (wrap_spec 0 (tp_par tp PHI0 - PI / 2)) as (y1 & fi0 & k1 & E1 & E1' & _).
  rewrite Rplus_0_l in E1'. rewrite E1; simpl bind. rewrite E1'; simpl bind.
  rewrite H, rdiv_zero. reflexivity.
Qed.

(** outcome of the function with the covariance update *)
Lemma move_cov_ok tp v tp' fid : moveHelixTo tp v true = Ok (tp', fid) ->
  tp_par tp OMEGA <> 0
  /\ moveHelixTo tp v false = Ok (TP (tp_cov tp) (tp_par tp') v, fid)
  /\ tp_ref tp' = v
  /\ moved_spec tp v (tp_par tp') fid
  /\ 1 / tp_par tp OMEGA - tp_par tp' D0 <> 0
  /\ tp_cov tp' =
     let F := moveF (tp_par tp OMEGA) (1 / tp_par tp OMEGA)
                (1 / tp_par tp OMEGA - tp_par tp D0) (- tp_par tp' D0)
                (tp_par tp TANL) fid (cos fid) (sin fid)
                (1 / (1 / tp_par tp OMEGA - tp_par tp' D0)) in
     m5mul (m5mul F (tp_cov tp)) (m5transpose F).
Proof.
  intros E.
  destruct (Req_dec (tp_par tp OMEGA) 0) as [H|H].
  { rewrite move_diverges_or_nonfin in E by auto. discriminate. }
  destruct (moveHelixTo_closed tp v true H) as (p' & fi & a & b & M & E0 & Em & Ea & Eb & Eq).
  destruct (moveHelixTo_closed tp v false H) as (p2 & fi2 & a2 & b2 & M2 & E02 & Em2 & _ & _ & Eq2).
  rewrite Eq in E. cbv iota in Eq2, E. cbv iota.
  apply bind_ok in E. destruct E as (rd & Er & E).
  apply rdiv_inv in Er. destruct Er as [Er1 Er2]. subst rd.
  cbv zeta in E. injection E as <- <-. simpl.
  (* both runs compute the same parameters *)
  assert (EE : p2 = p' /\ fi2 = fi).
  { clear - H M M2 E0 E02 Em Em2.
    destruct M as [m1 m2 m3 m4 m5 m6 m7 m8 m9].
    destruct M2 as [n1 n2 n3 n4 n5 n6 n7 n8 n9].
    assert (F : fi2 = fi).
    { destruct m8 as [k Hk]. destruct n8 as [k2 Hk2].
      apply angle_unique; auto.
      - rewrite <- (cos_2kpi fi (k - k2)). f_equal.
        rewrite minus_IZR. rewrite E0 in Hk. rewrite E02 in Hk2. lra.
      - rewrite <- (sin_2kpi fi (k - k2)). f_equal.
        rewrite minus_IZR. rewrite E0 in Hk. rewrite E02 in Hk2. lra. }
    subst fi2. split; auto.
    rewrite Em, Em2, n1, m1, n2, m2, E02, E0, n3, m3, n7, m7. reflexivity. }
  destruct EE as [-> ->].
  split; [exact H|]. split; [exact Eq2|]. split; [reflexivity|].
  split; [exact M|]. split; [exact Er1|].
  subst a b. reflexivity.
Qed.

Lemma moved_d0_le tp v p' fid : tp_par tp OMEGA <> 0 -> moved_spec tp v p' fid ->
  p' OMEGA * p' D0 <= 1 /\ Rabs (p' D0) = Rabs (crho (tp_par tp) (tp_ref tp) v - calculateRadius (tp_par tp)).
Proof.
  intros H M. destruct M. rewrite ms_om0, ms_d1.
  set (om := tp_par tp OMEGA) in *.
  set (rho := crho (tp_par tp) (tp_ref tp) v) in *.
  assert (Hr : 0 <= rho) by apply sqrt_pos.
  generalize (sg_abs om H) (sg_sq om); intros S1 S2.
  split.
  - apply Rle_trans with (1 - Rabs om * rho).
    + right. transitivity (1 - sg om * (sg om * Rabs om) * rho).
      * rewrite S1. field. auto.
      * transitivity (1 - sg om * sg om * Rabs om * rho); [ring|]. rewrite S2. ring.
    + generalize (Rabs_pos om); intros. nra.
  - rewrite radius_eq by exact H. fold om.
    assert (Ei : 1 / om = sg om * Rabs (1 / om)).
    { assert (N : 1 / om <> 0) by (unfold Rdiv; rewrite Rmult_1_l; apply Rinv_neq_0_compat; auto).
      rewrite <- (sg_abs (1 / om)) at 1 by auto. f_equal.
      unfold sg. destruct (Rlt_dec 0 om) as [L|L]; destruct (Rlt_dec 0 (1 / om)) as [L'|L']; auto.
      - exfalso. apply L'. unfold Rdiv. rewrite Rmult_1_l. apply Rinv_0_lt_compat; auto.
      - exfalso. assert (om < 0) by lra.
        assert (/ om < 0) by (apply Rinv_lt_0_compat; auto).
        unfold Rdiv in L'. lra. }
    rewrite Ei at 1.
    replace (sg om * Rabs (1 / om) - sg om * rho) with (sg om * - (rho - Rabs (1 / om))) by ring.
    rewrite Rabs_mult, Rabs_Ropp.
    destruct (sg_cases om) as [-> | ->].
    + rewrite Rabs_R1. ring.
    + replace (-1) with (- (1)) by ring. rewrite Rabs_Ropp, Rabs_R1. ring.
Qed.

(** new reference point on the track *)
Lemma moved_on_track tp s p' fid : tp_par tp OMEGA <> 0 ->
  moved_spec tp (hcurve (tp_par tp) (tp_ref tp) s) p' fid ->
  p' D0 = 0
  /\ (exists k : Z, fid = - (s * tp_par tp OMEGA) + 2 * IZR k * PI)
  /\ (Rabs (tp_par tp OMEGA * s) < PI -> fid = - (tp_par tp OMEGA * s) /\ p' Z0 = 0).
Proof.
  intros H M.
  set (hp := tp_par tp) in *. set (rp := tp_ref tp) in *.
  set (v := hcurve hp rp s) in *.
  set (om := hp OMEGA) in *.
  assert (V1 : vx (centre hp rp) - vx v = 1 / om * sin (hp PHI0 - s * om)).
  { unfold v. destruct (hcurve_centre hp rp s H) as [A _]. fold om in A. lra. }
  assert (V2 : vy (centre hp rp) - vy v = - (1 / om * cos (hp PHI0 - s * om))).
  { unfold v. destruct (hcurve_centre hp rp s H) as [_ A]. fold om in A. lra. }
  assert (Ni : 1 / om <> 0) by (unfold Rdiv; rewrite Rmult_1_l; apply Rinv_neq_0_compat; auto).
  assert (Hrho : crho hp rp v = Rabs (1 / om)).
  { unfold crho. rewrite V1, V2. apply sqrt_eq_sq; [apply Rabs_pos|]. rewrite Rabs_sq.
    generalize (sc1 (hp PHI0 - s * om)); intros Hsc.
    transitivity (1 / om * (1 / om) * (sin (hp PHI0 - s * om) * sin (hp PHI0 - s * om)
       + cos (hp PHI0 - s * om) * cos (hp PHI0 - s * om))); [ring | rewrite Hsc; ring]. }
  assert (Ei : 1 / om = sg om * Rabs (1 / om)).
  { rewrite <- (sg_abs (1 / om)) at 1 by auto. f_equal.
    unfold sg. destruct (Rlt_dec 0 om) as [L|L]; destruct (Rlt_dec 0 (1 / om)) as [L'|L']; auto.
    - exfalso. apply L'. unfold Rdiv. rewrite Rmult_1_l. apply Rinv_0_lt_compat; auto.
    - exfalso. assert (om < 0) by lra.
      assert (/ om < 0) by (apply Rinv_lt_0_compat; auto).
      unfold Rdiv in L'. lra. }
  assert (Hab : 0 < Rabs (1 / om)) by (apply Rabs_pos_lt; auto).
  destruct (fi0p_raw_polar hp rp v) as [P1 P2]. fold om in P1, P2.
  rewrite Hrho, V1 in P1. rewrite Hrho, V2 in P2.
  assert (Q : sg om * (1 / om) = Rabs (1 / om)).
  { rewrite Ei at 1. transitivity (sg om * sg om * Rabs (1 / om)); [ring|].
    rewrite sg_sq. ring. }
  assert (C1 : cos (fi0p_raw hp rp v) = sin (hp PHI0 - s * om)).
  { apply Rmult_eq_reg_l with (Rabs (1 / om)); [|lra]. rewrite P1.
    transitivity (sg om * (1 / om) * sin (hp PHI0 - s * om)); [ring | rewrite Q; ring]. }
  assert (C2 : sin (fi0p_raw hp rp v) = - cos (hp PHI0 - s * om)).
  { apply Rmult_eq_reg_l with (Rabs (1 / om)); [|lra]. rewrite P2.
    transitivity (- (sg om * (1 / om) * cos (hp PHI0 - s * om))); [ring | rewrite Q; ring]. }
  destruct M. fold hp rp in ms_d1, ms_cos0, ms_sin0, ms_z1, ms_fid0.
  fold om in ms_d1, ms_z1.
  destruct ms_fid0 as [k Hk].
  rewrite C2 in ms_cos0. rewrite C1 in ms_sin0.
  rewrite Ropp_involutive in ms_cos0.
  assert (Fc : cos fid = cos (- (s * om))).
  { assert (A : fid = (p' PHI0 - hp PHI0) + 2 * IZR (- k) * PI) by (rewrite opp_IZR; lra).
    rewrite A, cos_2kpi. rewrite cos_minus, ms_cos0, ms_sin0, <- cos_minus. f_equal. ring. }
  assert (Fs : sin fid = sin (- (s * om))).
  { assert (A : fid = (p' PHI0 - hp PHI0) + 2 * IZR (- k) * PI) by (rewrite opp_IZR; lra).
    rewrite A, sin_2kpi. rewrite sin_minus, ms_cos0, ms_sin0, <- sin_minus. f_equal. ring. }
  split; [|split].
  - rewrite ms_d1, Hrho. lra.
  - apply angle_eq_2pi; auto.
  - intros Hs. apply Rabs_def2 in Hs.
    assert (F : fid = - (om * s)).
    { rewrite (Rmult_comm om s). apply angle_unique; auto. lra. }
    split; auto.
    rewrite ms_z1, F. unfold v, hcurve; simpl. fold om. field. auto.
Qed.

(** ** C09: sequences of moves *)
Fixpoint moves (tp : trackParameters) (l : list vec3) : res trackParameters :=
  match l with
  | nil => Ok tp
  | v :: l' => ' (tp', _) <- moveHelixTo tp v false ;; moves tp' l'
  end.

Record same_track (tp tp1 : trackParameters) : Prop := {
  st_om : tp_par tp1 OMEGA = tp_par tp OMEGA;
  st_tl : tp_par tp1 TANL = tp_par tp TANL;
  st_cen : centre (tp_par tp1) (tp_ref tp1) = centre (tp_par tp) (tp_ref tp);
  st_shift : exists (t : R) (k : Z),
    tp_par tp1 PHI0 = tp_par tp PHI0 - t * tp_par tp OMEGA + 2 * IZR k * PI
    /\ tp_par tp1 Z0 + vz (tp_ref tp1) = tp_par tp Z0 + vz (tp_ref tp) + t * tp_par tp TANL;
  st_cov : tp_cov tp1 = tp_cov tp
}.

Lemma same_track_refl tp : same_track tp tp.
Proof.
  constructor; auto. exists 0, 0%Z. split; simpl; ring.
Qed.

Lemma same_track_move tp tp1 v p' fid : tp_par tp OMEGA <> 0 ->
  same_track tp tp1 -> moved_spec tp1 v p' fid -> same_track tp (TP (tp_cov tp1) p' v).
Proof.
  intros H [A1 A2 A3 (t & k & A4 & A5) A6] M.
  assert (H1 : tp_par tp1 OMEGA <> 0) by (rewrite A1; auto).
  generalize (moved_centre _ _ _ _ H1 M). intros Ec.
  destruct M. destruct ms_fid0 as [k' Hk'].
  constructor; simpl.
  - congruence.
  - congruence.
  - congruence.
  - exists (t - fid / tp_par tp OMEGA), (k + k')%Z. split.
    + rewrite Hk', A4, plus_IZR. field. auto.
    + rewrite ms_z1, A1, A2. unfold Rdiv in *. lra.
  - exact A6.
Qed.

Lemma moves_same_track l : forall tp tp0, tp_par tp0 OMEGA <> 0 -> same_track tp0 tp ->
  exists tp', moves tp l = Ok tp' /\ same_track tp0 tp'.
Proof.
  induction l as [|v l IH]; intros tp tp0 H S; simpl.
  - eauto.
  - assert (H1 : tp_par tp OMEGA <> 0) by (rewrite (st_om _ _ S); auto).
    destruct (move_ok tp v H1) as (p' & fid & E & M & _). rewrite E. simpl.
    apply IH; auto. eapply same_track_move; eauto.
Qed.

Lemma moves_app l1 l2 tp : moves tp (l1 ++ l2) = (tp' <- moves tp l1 ;; moves tp' l2).
Proof.
  revert tp. induction l1 as [|v l IH]; intros tp; simpl; auto.
  destruct (moveHelixTo tp v false) as [[tp' fid]| | | |]; simpl; auto.
Qed.

Lemma angle_2pi_diff a b om : om <> 0 -> cos a = cos b -> sin a = sin b ->
  exists k : Z, (a - b) / om = 2 * IZR k * PI / om.
Proof.
  intros H Hc Hs. destruct (angle_eq_2pi a b Hc Hs) as [k Hk]. exists k.
  rewrite Hk. field. auto.
Qed.

Lemma moves_path_independent tp l v : tp_par tp OMEGA <> 0 ->
  exists tp1 tp2 fid, moves tp (l ++ v :: nil) = Ok tp1 /\ moveHelixTo tp v false = Ok (tp2, fid)
    /\ tp_ref tp1 = v /\ tp_ref tp2 = v
    /\ tp_par tp1 OMEGA = tp_par tp2 OMEGA
    /\ tp_par tp1 TANL = tp_par tp2 TANL
    /\ tp_par tp1 PHI0 = tp_par tp2 PHI0
    /\ tp_par tp1 D0 = tp_par tp2 D0
    /\ exists k : Z, tp_par tp1 Z0 = tp_par tp2 Z0 + IZR k * (2 * PI * tp_par tp TANL / tp_par tp OMEGA).
Proof.
  intros H.
  destruct (moves_same_track l tp tp H (same_track_refl tp)) as (t1 & E1 & S1).
  assert (H1 : tp_par t1 OMEGA <> 0) by (rewrite (st_om _ _ S1); auto).
  destruct (move_ok t1 v H1) as (p1 & f1 & Em1 & M1 & N1).
  destruct (move_ok tp v H) as (p2 & f2 & Em2 & M2 & N2).
  exists (TP (tp_cov t1) p1 v), (TP (tp_cov tp) p2 v), f2.
  rewrite moves_app, E1. simpl. rewrite Em1. simpl.
  split; [reflexivity|]. split; [exact Em2|].
  assert (ST := same_track_move tp t1 v p1 f1 H S1 M1).
  assert (ST2 := same_track_move tp tp v p2 f2 H (same_track_refl tp) M2).
  assert (Eraw : fi0p_raw (tp_par t1) (tp_ref t1) v = fi0p_raw (tp_par tp) (tp_ref tp) v).
  { unfold fi0p_raw. rewrite (st_cen _ _ S1), (st_om _ _ S1). reflexivity. }
  assert (Ephi : p1 PHI0 = p2 PHI0) by (rewrite N1, N2, Eraw; reflexivity).
  split; [reflexivity|]. split; [reflexivity|].
  split; [rewrite (ms_om _ _ _ _ M1), (ms_om _ _ _ _ M2); apply (st_om _ _ S1)|].
  split; [rewrite (ms_tl _ _ _ _ M1), (ms_tl _ _ _ _ M2); apply (st_tl _ _ S1)|].
  split; [exact Ephi|].
  split.
  { rewrite (ms_d0 _ _ _ _ M1), (ms_d0 _ _ _ _ M2). unfold crho.
    rewrite (st_cen _ _ S1), (st_om _ _ S1). reflexivity. }
  destruct (st_shift _ _ ST) as (ta & ka & Pa & Za).
  destruct (st_shift _ _ ST2) as (tb & kb & Pb & Zb).
  simpl in Pa, Pb, Za, Zb.
  exists (ka - kb)%Z.
  assert (Et : ta - tb = IZR (ka - kb) * (2 * PI / tp_par tp OMEGA)).
  { apply Rmult_eq_reg_r with (tp_par tp OMEGA); auto.
    rewrite minus_IZR.
    transitivity (2 * IZR ka * PI - 2 * IZR kb * PI); [lra | field; auto]. }
  assert (p1 Z0 - p2 Z0 = (ta - tb) * tp_par tp TANL) by lra.
  rewrite Et in H0. simpl. unfold Rdiv in *. lra.
Qed.

(** back at the original reference point *)
Lemma crho_own hp rp : crho hp rp rp = Rabs (1 / hp OMEGA - hp D0).
Proof.
  unfold crho, centre; simpl. apply sqrt_eq_sq; [apply Rabs_pos|]. rewrite Rabs_sq.
  generalize (sc1 (hp PHI0)); intros Hsc.
  set (a := 1 / hp OMEGA - hp D0).
  transitivity (a * a * (sin (hp PHI0) * sin (hp PHI0) + cos (hp PHI0) * cos (hp PHI0)));
    [ring | rewrite Hsc; ring].
Qed.

Lemma sg_a_pos om d : om <> 0 -> om * d < 1 -> sg om * (1 / om - d) = Rabs (1 / om - d)
  /\ 0 < Rabs (1 / om - d).
Proof.
  intros H Hd.
  assert (E : 1 / om - d = / om * (1 - om * d)) by (field; auto).
  unfold sg. destruct (Rlt_dec 0 om) as [L|L].
  - assert (0 < / om) by (apply Rinv_0_lt_compat; auto).
    assert (0 < 1 / om - d) by (rewrite E; apply Rmult_lt_0_compat; lra).
    rewrite Rabs_pos_eq by lra. split; [ring | auto].
  - assert (/ om < 0) by (apply Rinv_lt_0_compat; lra).
    assert (1 / om - d < 0) by (rewrite E; nra).
    rewrite Rabs_left by lra. split; [ring | lra].
Qed.

Lemma move_back_params tp tp1 p' fid : tp_par tp OMEGA <> 0 ->
  tp_par tp OMEGA * tp_par tp D0 < 1 ->
  same_track tp tp1 -> moved_spec tp1 (tp_ref tp) p' fid ->
  p' D0 = tp_par tp D0 /\ cos (p' PHI0) = cos (tp_par tp PHI0)
  /\ sin (p' PHI0) = sin (tp_par tp PHI0).
Proof.
  intros H Hd S M.
  set (hp := tp_par tp) in *. set (rp := tp_ref tp) in *.
  destruct (sg_a_pos _ _ H Hd) as [Sa Pa].
  set (a := 1 / hp OMEGA - hp D0) in *.
  assert (Erho : crho (tp_par tp1) (tp_ref tp1) rp = Rabs a).
  { unfold crho. rewrite (st_cen _ _ S). fold hp rp. apply (crho_own hp rp). }
  destruct (fi0p_raw_polar (tp_par tp1) (tp_ref tp1) rp) as [P1 P2].
  rewrite Erho, (st_om _ _ S), (st_cen _ _ S) in P1, P2. fold hp rp in P1, P2.
  assert (C1 : cos (fi0p_raw (tp_par tp1) (tp_ref tp1) rp) = sin (hp PHI0)).
  { apply Rmult_eq_reg_l with (Rabs a); [|lra]. rewrite P1, <- Sa.
    unfold centre; simpl. fold a. ring. }
  assert (C2 : sin (fi0p_raw (tp_par tp1) (tp_ref tp1) rp) = - cos (hp PHI0)).
  { apply Rmult_eq_reg_l with (Rabs a); [|lra]. rewrite P2, <- Sa.
    unfold centre; simpl. fold a. ring. }
  destruct M. split; [|split].
  - rewrite ms_d1, Erho, (st_om _ _ S). fold hp.
    rewrite <- Sa. transitivity (1 / hp OMEGA - sg (hp OMEGA) * sg (hp OMEGA) * a); [ring|].
    rewrite sg_sq. unfold a. ring.
  - rewrite ms_cos0, C2. ring.
  - rewrite ms_sin0, C1. ring.
Qed.

Lemma move_round_trip tp v : tp_par tp OMEGA <> 0 -> tp_par tp OMEGA * tp_par tp D0 < 1 ->
  exists tp1 fid1 tp2 fid2,
    moveHelixTo tp v false = Ok (tp1, fid1)
    /\ moveHelixTo tp1 (tp_ref tp) false = Ok (tp2, fid2)
    /\ tp_ref tp2 = tp_ref tp /\ tp_cov tp2 = tp_cov tp
    /\ tp_par tp2 OMEGA = tp_par tp OMEGA
    /\ tp_par tp2 TANL = tp_par tp TANL
    /\ tp_par tp2 D0 = tp_par tp D0
    /\ cos (tp_par tp2 PHI0) = cos (tp_par tp PHI0)
    /\ sin (tp_par tp2 PHI0) = sin (tp_par tp PHI0)
    /\ (tp_par tp2 Z0 = tp_par tp Z0 <-> (fid1 < PI \/ tp_par tp TANL = 0)).
Proof.
  intros H Hd.
  destruct (move_ok tp v H) as (p1 & f1 & E1 & M1 & _).
  assert (S1 := same_track_move tp tp v p1 f1 H (same_track_refl tp) M1).
  set (tp1 := TP (tp_cov tp) p1 v) in *.
  assert (H1 : tp_par tp1 OMEGA <> 0) by (rewrite (st_om _ _ S1); auto).
  destruct (move_ok tp1 (tp_ref tp) H1) as (p2 & f2 & E2 & M2 & _).
  destruct (move_back_params tp tp1 p2 f2 H Hd S1 M2) as (B1 & B2 & B3).
  exists tp1, f1, (TP (tp_cov tp1) p2 (tp_ref tp)), f2.
  split; [exact E1|]. split; [exact E2|]. split; [reflexivity|]. split; [reflexivity|]. simpl.
  split; [rewrite (ms_om _ _ _ _ M2); apply (st_om _ _ S1)|].
  split; [rewrite (ms_tl _ _ _ _ M2); apply (st_tl _ _ S1)|].
  split; [exact B1|]. split; [exact B2|]. split; [exact B3|].
  (* the two turning angles *)
  destruct (ms_fid _ _ _ _ M1) as [k1 K1]. destruct (ms_fid _ _ _ _ M2) as [k2 K2].
  simpl in K2.
  assert (Fc : cos (f1 + f2) = 1 /\ sin (f1 + f2) = 0).
  { assert (A : f1 + f2 = (p2 PHI0 - tp_par tp PHI0) + 2 * IZR (- k1 - k2) * PI)
      by (rewrite minus_IZR, opp_IZR; lra).
    rewrite A, cos_2kpi, sin_2kpi, cos_minus, sin_minus, B2, B3.
    generalize (sc1 (tp_par tp PHI0)); intros. split; lra. }
  destruct Fc as [Fc Fs].
  destruct (angle_eq_2pi (f1 + f2) 0) as [k K]; [rewrite cos_0; auto | rewrite sin_0; auto|].
  assert (R1 := ms_fid_range _ _ _ _ M1). assert (R2 := ms_fid_range _ _ _ _ M2).
  generalize PI_pos; intros HP.
  assert (Z2 : p2 Z0 - tp_par tp Z0 = - (1 / tp_par tp OMEGA * tp_par tp TANL * (f1 + f2))).
  { rewrite (ms_z0 _ _ _ _ M2). simpl.
    rewrite (ms_z0 _ _ _ _ M1), (ms_om _ _ _ _ M1), (ms_tl _ _ _ _ M1). ring. }
  assert (Ni : 1 / tp_par tp OMEGA <> 0).
  { unfold Rdiv; rewrite Rmult_1_l; apply Rinv_neq_0_compat; auto. }
  split.
  - intros Ez. destruct (Rlt_dec f1 PI) as [L|L]; [left; auto|right].
    assert (F1 : f1 = PI) by lra.
    assert (N : f1 + f2 <> 0) by lra.
    assert (P : 1 / tp_par tp OMEGA * tp_par tp TANL * (f1 + f2) = 0) by lra.
    apply Rmult_integral in P. destruct P as [P|P]; [|contradiction].
    apply Rmult_integral in P. destruct P as [P|P]; [contradiction|auto].
  - intros [L|L].
    + assert (k = 0%Z).
      { assert (IZR (-1) < IZR k < IZR 1).
        { split; apply Rmult_lt_reg_l with (2 * PI); simpl; lra. }
        apply IZR_between in H0. lia. }
      subst k. assert (f1 + f2 = 0) by (simpl in K; lra). rewrite H0 in Z2. lra.
    + rewrite L in Z2. lra.
Qed.
