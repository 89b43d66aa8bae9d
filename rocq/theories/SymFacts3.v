(** Proofs about motions of the whole setup (C69): moving the reference point,
    start helix. *)
From Coq Require Import Reals Lra Lia ZArith Psatz List Bool FunctionalExtensionality.
From Verif Require Import SpecConst Num NumFacts Vec Helix Isect SpecHelix SpecIsect SpecSym
  HelixFacts PathFacts MoveFacts StartFacts SymFacts.
Import ListNotations.
Open Scope R_scope.

Lemma cos_q x : cos (x + PI / 2) = - sin x.
Proof. rewrite cos_plus, cos_PI2, sin_PI2. ring. Qed.
Lemma sin_q x : sin (x + PI / 2) = cos x.
Proof. rewrite sin_plus, cos_PI2, sin_PI2. ring. Qed.

(** ** Covariances *)
Lemma par_hand_sq g i : par_hand g i * par_hand g i = 1.
Proof. destruct i; cbn [par_hand]; try apply hand_sq; ring. Qed.

Lemma m5mul_map g a b : m5mul (map_cov g a) (map_cov g b) = map_cov g (m5mul a b).
Proof.
  extensionality i. extensionality j. unfold m5mul, map_cov, sum5.
  assert (Q : forall k, par_hand g i * a i k * par_hand g k * (par_hand g k * b k j * par_hand g j)
              = par_hand g i * (a i k * b k j) * par_hand g j).
  { intros k. transitivity (par_hand g k * par_hand g k * (par_hand g i * (a i k * b k j) * par_hand g j));
      [ring|]. rewrite par_hand_sq. ring. }
  rewrite !Q. ring.
Qed.

Lemma m5transpose_map g a : m5transpose (map_cov g a) = map_cov g (m5transpose a).
Proof. extensionality i. extensionality j. unfold m5transpose, map_cov. ring. Qed.

Lemma moveF_map g cpa r rdr drp tnl fid cs sn rd : cpa <> 0 ->
  moveF (hand g * cpa) (hand g * r) (hand g * rdr) (hand g * drp) tnl (hand g * fid) cs
    (hand g * sn) (hand g * rd)
  = map_cov g (moveF cpa r rdr drp tnl fid cs sn rd).
Proof.
  intros N. extensionality i. extensionality j. unfold map_cov.
  assert (E : hand g * r / (hand g * cpa) = r / cpa).
  { destruct (hand_cases g) as [-> | ->]; field; auto. }
  destruct i, j; unfold moveF; rewrite ?E; cbn [par_hand];
    destruct (hand_cases g) as [Eh|Eh]; rewrite ?Eh; ring.
Qed.

(** ** Moving the reference point *)
Lemma sg_hand g x : x <> 0 -> sg (hand g * x) = hand g * sg x.
Proof.
  intros N. unfold sg. destruct (hand_cases g) as [-> | ->];
    destruct (Rlt_dec 0 _) as [a|a]; destruct (Rlt_dec 0 x) as [b|b]; lra.
Qed.

Lemma centre_map g hp rp : hp OMEGA <> 0 ->
  vx (centre (map_par g hp) (map_point g rp)) = vx (map_point g (centre hp rp))
  /\ vy (centre (map_par g hp) (map_point g rp)) = vy (map_point g (centre hp rp)).
Proof.
  intros N. unfold centre.
  change (map_par g hp PHI0) with (hand g * hp PHI0 + m_turn g).
  change (map_par g hp OMEGA) with (hand g * hp OMEGA).
  change (map_par g hp D0) with (hand g * hp D0).
  rewrite hand_inv, sin_map, cos_map.
  unfold map_point, map_dir, vadd; cbn [vx vy vz].
  destruct (hand_cases g) as [-> | ->]; split; ring.
Qed.

Lemma crho_map g hp rp v : hp OMEGA <> 0 ->
  crho (map_par g hp) (map_point g rp) (map_point g v) = crho hp rp v.
Proof.
  intros N. unfold crho. destruct (centre_map g hp rp N) as [-> ->].
  f_equal. rewrite Rplus_comm. unfold map_point, map_dir, vadd; cbn [vx vy vz].
  set (b := vx (centre hp rp) - vx v). set (a := vy (centre hp rp) - vy v).
  rewrite <- (norm_map g a b). unfold a, b. ring.
Qed.

Lemma crho_pos hp rp v : hp OMEGA <> 0 -> off_axis hp rp (vx v) (vy v) -> 0 < crho hp rp v.
Proof.
  intros N O. unfold crho. apply sqrt_x2y2_pos. unfold centre; cbn [vx vy].
  destruct (O N) as [F|F]; [left|right]; intros Z; apply F; lra.
Qed.

Lemma raw_map g hp rp v : hp OMEGA <> 0 -> off_axis hp rp (vx v) (vy v) ->
  exists k : Z, fi0p_raw (map_par g hp) (map_point g rp) (map_point g v) + PI / 2
    = hand g * (fi0p_raw hp rp v + PI / 2) + m_turn g + 2 * IZR k * PI.
Proof.
  intros N O. assert (P := crho_pos hp rp v N O).
  destruct (fi0p_raw_polar hp rp v) as [C S].
  destruct (fi0p_raw_polar (map_par g hp) (map_point g rp) (map_point g v)) as [C' S'].
  rewrite crho_map in C', S' by auto.
  change (map_par g hp OMEGA) with (hand g * hp OMEGA) in C', S'.
  destruct (centre_map g hp rp N) as [EX EY]. rewrite EX in C'. rewrite EY in S'. clear EX EY.
  rewrite sg_hand in C', S' by auto.
  set (raw := fi0p_raw hp rp v) in *. set (raw' := fi0p_raw (map_par g hp) _ _) in *.
  set (h := hand g) in *. set (rho := crho hp rp v) in *.
  assert (Q1 : rho * cos raw' = h * (cos (m_turn g) * (rho * cos raw) - sin (m_turn g) * (h * (rho * sin raw)))).
  { rewrite C', C, S. unfold map_point, map_dir, vadd; cbn [vx vy vz]. fold h. ring. }
  assert (Q2 : rho * sin raw' = h * (sin (m_turn g) * (rho * cos raw) + cos (m_turn g) * (h * (rho * sin raw)))).
  { rewrite S', C, S. unfold map_point, map_dir, vadd; cbn [vx vy vz]. fold h. ring. }
  apply angle_eq_2pi.
  - unfold h. rewrite cos_map. rewrite !cos_plus, !sin_plus, cos_PI2, sin_PI2.
    apply (Rmult_eq_reg_l rho); [|lra].
    transitivity (- (rho * sin raw')); [ring|]. rewrite Q2. fold h.
    assert (Hh := hand_sq g). fold h in Hh.
    transitivity (- (h * sin (m_turn g) * rho * cos raw) - h * h * cos (m_turn g) * rho * sin raw); [ring|].
    rewrite Hh. ring.
  - unfold h. rewrite sin_map. rewrite !cos_plus, !sin_plus, cos_PI2, sin_PI2.
    apply (Rmult_eq_reg_l rho); [|lra].
    transitivity (rho * cos raw'); [ring|]. rewrite Q1. fold h.
    assert (Hh := hand_sq g). fold h in Hh.
    transitivity (h * cos (m_turn g) * rho * cos raw - h * h * sin (m_turn g) * rho * sin raw); [ring|].
    rewrite Hh. ring.
Qed.

Lemma move_map g tp v cm :
  tp_par tp OMEGA <> 0 -> off_axis (tp_par tp) (tp_ref tp) (vx v) (vy v) ->
  exists c' p' fid, moveHelixTo tp v cm = Ok (TP c' p' v, fid)
  /\ ((m_flip g = false \/ fid <> PI) ->
      exists p'', moveHelixTo (map_tp g tp) (map_point g v) cm
                  = Ok (TP (map_cov g c') p'' (map_point g v), hand g * fid)
        /\ same_par p'' (map_par g p')).
Proof.
  destruct tp as [C hp rp]; cbn [tp_par tp_ref]. intros N O.
  assert (P := crho_pos hp rp v N O).
  assert (N' : tp_par (map_tp g (TP C hp rp)) OMEGA <> 0) by (cbn [map_tp tp_par]; apply om_map; auto).
  destruct (moveHelixTo_closed (TP C hp rp) v cm N) as (p' & fid & cd & sd & M & E0 & _ & -> & -> & E).
  destruct (moveHelixTo_closed (map_tp g (TP C hp rp)) (map_point g v) cm N')
    as (p'' & fid' & cd' & sd' & M' & E0' & _ & -> & -> & E').
  cbn [map_tp tp_par tp_ref tp_cov] in *.
  destruct M as [m1 m2 m3 m4 m5 m6 m7 m8 m9]. destruct M' as [n1 n2 n3 n4 n5 n6 n7 n8 n9].
  cbn [map_tp tp_par tp_ref tp_cov] in *.
  rewrite crho_map in n3 by auto.
  assert (Nd : 1 / hp OMEGA - p' D0 = sg (hp OMEGA) * crho hp rp v) by (rewrite m3; ring).
  assert (Nz : 1 / hp OMEGA - p' D0 <> 0).
  { rewrite Nd. destruct (sg_cases (hp OMEGA)) as [-> | ->]; lra. }
  rewrite rdiv_ok in E by auto. cbn [bind] in E. cbv zeta in E.
  assert (PH : exists k : Z, p'' PHI0 = hand g * p' PHI0 + m_turn g + 2 * IZR k * PI).
  { destruct (raw_map g hp rp v N O) as [k Hk].
    apply (f_equal cos) in Hk as Hc. apply (f_equal sin) in Hk as Hs.
    rewrite cos_2kpi in Hc. rewrite sin_2kpi in Hs.
    rewrite cos_map in Hc. rewrite sin_map in Hs.
    rewrite !cos_q, !sin_q in Hc. rewrite !cos_q, !sin_q in Hs.
    apply angle_eq_2pi.
    - rewrite cos_map, m4, m5, n4. lra.
    - rewrite sin_map, m4, m5, n5. lra. }
  destruct PH as [kp PH]. destruct m8 as [k1 K1]. destruct n8 as [k2 K2].
  change (map_par g hp PHI0) with (hand g * hp PHI0 + m_turn g) in K2.
  change (map_par g hp OMEGA) with (hand g * hp OMEGA) in *.
  change (map_par g hp TANL) with (hp TANL) in *. change (map_par g hp Z0) with (hp Z0) in *.
  change (map_par g hp D0) with (hand g * hp D0) in *.
  exists (if cm then (let F := moveF (hp OMEGA) (1 / hp OMEGA) (1 / hp OMEGA - hp D0) (- p' D0)
             (hp TANL) fid (cos fid) (sin fid) (1 / (1 / hp OMEGA - p' D0)) in
           m5mul (m5mul F C) (m5transpose F)) else C), p', fid.
  split. { rewrite E. destruct cm; reflexivity. }
  intros HF.
  assert (EF : fid' = hand g * fid).
  { assert (H : exists k : Z, fid' = hand g * fid + 2 * IZR k * PI).
    { destruct (hand_cases g) as [Eh|Eh].
      - exists (kp - k2 + k1)%Z. rewrite Eh in *. rewrite plus_IZR, minus_IZR.
        rewrite K1 in PH. rewrite PH in K2. lra.
      - exists (kp - k2 - k1)%Z. rewrite Eh in *. rewrite !minus_IZR.
        rewrite K1 in PH. rewrite PH in K2. lra. }
    destruct H as [k Hk].
    apply angle_unique; auto.
    - rewrite Hk. apply cos_2kpi.
    - rewrite Hk. apply sin_2kpi.
    - destruct HF as [HF|HF].
      + unfold hand. rewrite HF. lra.
      + destruct (hand_cases g) as [-> | ->]; lra. }
  assert (ED : p'' D0 = hand g * p' D0).
  { rewrite n3, m3, hand_inv, sg_hand by auto. ring. }
  exists p''. split.
  - rewrite E'. rewrite ED, hand_inv, EF.
    replace (hand g * (1 / hp OMEGA) - hand g * p' D0) with (hand g * (1 / hp OMEGA - p' D0)) by ring.
    replace (hand g * (1 / hp OMEGA) - hand g * hp D0) with (hand g * (1 / hp OMEGA - hp D0)) by ring.
    rewrite rdiv_ok by (rewrite hand_mul_0; auto). cbn [bind]. cbv zeta.
    rewrite hand_inv, cos_hand, sin_hand.
    replace (- (hand g * p' D0)) with (hand g * - p' D0) by ring.
    rewrite moveF_map by auto.
    destruct cm; [|reflexivity].
    rewrite m5transpose_map, !m5mul_map. reflexivity.
  - unfold same_par.
    change (map_par g p' OMEGA) with (hand g * p' OMEGA).
    change (map_par g p' TANL) with (p' TANL). change (map_par g p' Z0) with (p' Z0).
    change (map_par g p' D0) with (hand g * p' D0).
    change (map_par g p' PHI0) with (hand g * p' PHI0 + m_turn g).
    split; [|split; [|split; [|split]]].
    + rewrite n1, m1. reflexivity.
    + rewrite n2, m2. reflexivity.
    + exact ED.
    + rewrite n7, m7, hand_inv, EF. unfold map_point, map_dir, vadd; cbn [vx vy vz].
      assert (Hh := hand_sq g).
      transitivity (vz rp - vz v + hp Z0 - hand g * hand g * (1 / hp OMEGA * hp TANL * fid)); [ring|].
      rewrite Hh. ring.
    + exists kp. exact PH.
Qed.

(** ** Start helix *)
Lemma atan2_hand g a b : a <> 0 -> atan2 (hand g * a) b = hand g * atan2 a b.
Proof.
  intros N. destruct (hand_cases g) as [-> | ->]; [rewrite !Rmult_1_l; reflexivity|].
  replace (-1 * a) with (- a) by ring. replace (-1 * atan2 a b) with (- atan2 a b) by ring.
  unfold atan2. replace (- a / b) with (- (a / b)) by (unfold Rdiv; ring). rewrite atan_opp.
  destruct (Rlt_dec 0 b); [reflexivity|]. destruct (Rlt_dec b 0).
  - destruct (Rle_dec 0 (- a)); destruct (Rle_dec 0 a); lra.
  - destruct (Rlt_dec 0 (- a)); destruct (Rlt_dec (- a) 0); destruct (Rlt_dec 0 a);
      destruct (Rlt_dec a 0); lra.
Qed.

Lemma start_map g x1 x2 x3 tp backward hp :
  calculateStartHelix x1 x2 x3 tp backward = Ok (TP (tp_cov tp) hp x1) ->
  exists hp', calculateStartHelix (map_point g x1) (map_point g x2) (map_point g x3) tp backward
              = Ok (TP (tp_cov tp) hp' (map_point g x1))
    /\ same_par hp' (map_par g hp).
Proof.
  intros E.
  assert (T : turn x1 x2 x3 <> 0).
  { intros Z. rewrite start_degenerate in E by auto. discriminate. }
  assert (X : forall p q, vx (map_point g p) - vx (map_point g q)
     = cos (m_turn g) * (vx p - vx q) - sin (m_turn g) * (hand g * (vy p - vy q))).
  { intros p q. unfold map_point, map_dir, vadd; cbn [vx vy]. ring. }
  assert (Y : forall p q, vy (map_point g p) - vy (map_point g q)
     = sin (m_turn g) * (vx p - vx q) + cos (m_turn g) * (hand g * (vy p - vy q))).
  { intros p q. unfold map_point, map_dir, vadd; cbn [vx vy]. ring. }
  assert (Zz : forall p q, vz (map_point g p) - vz (map_point g q) = vz p - vz q).
  { intros p q. unfold map_point, map_dir, vadd; cbn [vz]. ring. }
  assert (Hh := hand_sq g). assert (Hsc := sc1 (m_turn g)).
  assert (TT : turn (map_point g x1) (map_point g x2) (map_point g x3) = hand g * turn x1 x2 x3).
  { unfold turn. rewrite !X, !Y.
    transitivity ((sin (m_turn g) * sin (m_turn g) + cos (m_turn g) * cos (m_turn g))
      * (hand g * ((vx x2 - vx x1) * (vy x3 - vy x1) - (vy x2 - vy x1) * (vx x3 - vx x1)))); [ring|].
    rewrite Hsc. ring. }
  assert (T' : turn (map_point g x1) (map_point g x2) (map_point g x3) <> 0).
  { rewrite TT, hand_mul_0. exact T. }
  rewrite (start_value x1 x2 x3 tp backward T) in E. injection E as E.
  rewrite (start_value (map_point g x1) (map_point g x2) (map_point g x3) tp backward T').
  rewrite !X, !Y, !Zz.
  assert (RS := radius_sq x1 x2 x3 backward T). assert (RN := r_nz x1 x2 x3 backward T).
  assert (SN := sa_nz x1 x2 x3 T).
  cbv zeta in RS, RN, SN.
  set (ax := vx x2 - vx x1) in *. set (ay := vy x2 - vy x1) in *.
  set (bx := vx x3 - vx x1) in *. set (by' := vy x3 - vy x1) in *.
  set (ax' := cos (m_turn g) * ax - sin (m_turn g) * (hand g * ay)).
  set (ay' := sin (m_turn g) * ax + cos (m_turn g) * (hand g * ay)).
  set (bx' := cos (m_turn g) * bx - sin (m_turn g) * (hand g * by')).
  set (by'' := sin (m_turn g) * bx + cos (m_turn g) * (hand g * by')).
  assert (EA : ax' * ax' + ay' * ay' = ax * ax + ay * ay) by (apply (norm_map g ay ax)).
  assert (EB : bx' * bx' + by'' * by'' = bx * bx + by' * by') by (apply (norm_map g by' bx)).
  assert (EAB : ax' * bx' + ay' * by'' = ax * bx + ay * by').
  { unfold ax', ay', bx', by''.
    transitivity ((sin (m_turn g) * sin (m_turn g) + cos (m_turn g) * cos (m_turn g)) * (ax * bx)
      + (sin (m_turn g) * sin (m_turn g) + cos (m_turn g) * cos (m_turn g)) * (hand g * hand g) * (ay * by'));
      [ring|]. rewrite Hsc, Hh. ring. }
  assert (ECR : ax' * by'' - ay' * bx' = hand g * (ax * by' - ay * bx)).
  { unfold ax', ay', bx', by''.
    transitivity ((sin (m_turn g) * sin (m_turn g) + cos (m_turn g) * cos (m_turn g))
      * (hand g * (ax * by' - ay * bx))); [ring|].
    rewrite Hsc. ring. }
  rewrite EA, EB, EAB, ECR.
  change (turn x1 x2 x3) with (ax * by' - ay * bx) in T.
  set (cr := ax * by' - ay * bx) in *. set (AB := ax * bx + ay * by') in *.
  set (AA := ax * ax + ay * ay) in *. set (BB := bx * bx + by' * by') in *.
  set (m12 := sqrt AA) in *. set (m13 := sqrt BB) in *. set (m23 := sqrt (AA + BB - 2 * AB)) in *.
  replace (hand g * cr / (m12 * m13)) with (hand g * (cr / (m12 * m13))) by (unfold Rdiv; ring).
  set (sa := cr / (m12 * m13)) in *.
  replace (- (1 / 2) * m23 / (hand g * sa)) with (hand g * (- (1 / 2) * m23 / sa)).
  2:{ destruct (hand_cases g) as [-> | ->]; field; auto. }
  set (r0 := - (1 / 2) * m23 / sa) in *.
  replace (if backward then - (hand g * r0) else hand g * r0)
    with (hand g * (if backward then - r0 else r0)) by (destruct backward; ring).
  set (r := if backward then - r0 else r0) in *.
  rewrite atan2_hand by exact SN.
  set (al := atan2 sa (AB / (m12 * m13))) in *.
  set (U := (ax + bx) / 2 - AB / (2 * cr) * (by' - ay)) in *.
  set (V := (ay + by') / 2 + AB / (2 * cr) * (bx - ax)) in *.
  replace (vx x1 + U - vx x1) with U in * by ring.
  replace (vy x1 + V - vy x1) with V in * by ring.
  assert (HNZ := hand_nz g).
  assert (EU : vx (map_point g x1) + ((ax' + bx') / 2 - AB / (2 * (hand g * cr)) * (by'' - ay')) - vx (map_point g x1)
               = cos (m_turn g) * U - sin (m_turn g) * (hand g * V)).
  { unfold U, V, ax', bx', ay', by''. destruct (hand_cases g) as [-> | ->]; field; auto. }
  assert (EV : vy (map_point g x1) + ((ay' + by'') / 2 + AB / (2 * (hand g * cr)) * (bx' - ax')) - vy (map_point g x1)
               = sin (m_turn g) * U + cos (m_turn g) * (hand g * V)).
  { unfold U, V, ax', bx', ay', by''. destruct (hand_cases g) as [-> | ->]; field; auto. }
  rewrite EU, EV. eexists. split; [reflexivity|].
  assert (UV : U <> 0 \/ V <> 0).
  { destruct (Req_dec U 0) as [E1|]; [|auto]. destruct (Req_dec V 0) as [E2|]; [|auto].
    exfalso. rewrite E1, E2 in RS. assert (Q : r * r = 0) by lra. apply Rmult_integral in Q. tauto. }
  rewrite <- E. unfold same_par, map_par, OMEGA, TANL, D0, Z0, PHI0; cbn [mk5].
  split; [apply hand_inv|]. split; [|split; [ring|split; [reflexivity|]]].
  { destruct (Req_dec al 0) as [->|Na].
    - rewrite !Rmult_0_r. reflexivity.
    - destruct (hand_cases g) as [-> | ->]; field; auto. }
  (* azimuth *)
  assert (UV' : r * U <> 0 \/ r * V <> 0).
  { destruct UV as [F|F]; [left|right]; apply Rmult_integral_contrapositive; auto. }
  destruct (atan2_map g (r * V) (r * U) UV') as [k Hk].
  destruct (hand_cases g) as [Eh|Eh].
  - exists k.
    replace (hand g * r * (sin (m_turn g) * U + cos (m_turn g) * (hand g * V)))
      with (sin (m_turn g) * (r * U) + cos (m_turn g) * (hand g * (r * V))) by (rewrite Eh; ring).
    replace (hand g * r * (cos (m_turn g) * U - sin (m_turn g) * (hand g * V)))
      with (cos (m_turn g) * (r * U) - sin (m_turn g) * (hand g * (r * V))) by (rewrite Eh; ring).
    rewrite Hk, Eh. ring.
  - apply angle_eq_2pi.
    all: assert (C := atan2_cos (hand g * r * (sin (m_turn g) * U + cos (m_turn g) * (hand g * V)))
                  (hand g * r * (cos (m_turn g) * U - sin (m_turn g) * (hand g * V))));
         assert (S := atan2_sin (hand g * r * (sin (m_turn g) * U + cos (m_turn g) * (hand g * V)))
                  (hand g * r * (cos (m_turn g) * U - sin (m_turn g) * (hand g * V))));
         assert (C0 := atan2_cos (r * V) (r * U)); assert (S0 := atan2_sin (r * V) (r * U));
         set (t' := atan2 (hand g * r * _) _) in *; set (t := atan2 (r * V) (r * U)) in *;
         assert (NN : hand g * r * (cos (m_turn g) * U - sin (m_turn g) * (hand g * V))
                 * (hand g * r * (cos (m_turn g) * U - sin (m_turn g) * (hand g * V)))
               + hand g * r * (sin (m_turn g) * U + cos (m_turn g) * (hand g * V))
                 * (hand g * r * (sin (m_turn g) * U + cos (m_turn g) * (hand g * V)))
               = r * U * (r * U) + r * V * (r * V))
           by (transitivity (hand g * hand g * (r * r) *
                 ((sin (m_turn g) * sin (m_turn g) + cos (m_turn g) * cos (m_turn g)) * (U * U)
                  + (sin (m_turn g) * sin (m_turn g) + cos (m_turn g) * cos (m_turn g)) * (hand g * hand g) * (V * V)));
               [ring | rewrite Hsc, Hh; ring]);
         rewrite NN in C, S;
         assert (PP := sqrt_x2y2_pos _ _ UV');
         set (rho := sqrt (r * U * (r * U) + r * V * (r * V))) in *;
         apply (Rmult_eq_reg_l rho); [|lra].
    + rewrite cos_q, cos_map, cos_q, sin_q.
      transitivity (- (rho * sin t')); [ring|]. rewrite S.
      transitivity (cos (m_turn g) * (- (rho * sin t)) - sin (m_turn g) * (hand g * (rho * cos t))); [|ring].
      rewrite C0, S0, Eh. ring.
    + rewrite sin_q, sin_map, cos_q, sin_q.
      transitivity (rho * cos t'); [ring|]. rewrite C.
      transitivity (sin (m_turn g) * (- (rho * sin t)) + cos (m_turn g) * (hand g * (rho * cos t))); [|ring].
      rewrite C0, S0, Eh. ring.
Qed.
