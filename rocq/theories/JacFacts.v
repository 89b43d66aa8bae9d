(** Proofs about the transformation from curvilinear corrections (C52). *)
From Coq Require Import Reals Lra List Psatz.
From Coquelicot Require Import Coquelicot.
From Verif Require Import SpecConst Num NumFacts Vec Helix Trans SpecHelix SpecMat SpecTrans SpecPropag SpecJac HelixFacts TransFacts.
Import ListNotations.
Open Scope R_scope.

Lemma derive_eq_loc (f g : R -> R) x a b : locally x (fun e => f e = g e) ->
  is_derive f x a -> is_derive g x b -> a = b.
Proof.
  intros L F G. apply (is_derive_ext_loc f g) in F; auto.
  rewrite <- (is_derive_unique _ _ _ F). apply is_derive_unique. auto.
Qed.

Lemma derive_val (f : R -> R) (x a b : R) : is_derive f x a -> a = b -> is_derive f x b.
Proof. intros H E. rewrite <- E. exact H. Qed.

Lemma cos_near l (w : R) : 0 < cos l -> locally 0 (fun e => 0 < cos (l + e * w)).
Proof.
  intros H.
  assert (C : continuous (fun e => cos (l + e * w)) 0).
  { apply (ex_derive_continuous (fun e => cos (l + e * w))). auto_derive. auto. }
  apply C. replace (l + 0 * w) with l by ring.
  exists (mkposreal _ H). intros y Hy. unfold ball in Hy; simpl in Hy; unfold AbsRing_ball, abs, minus, plus, opp in Hy; simpl in Hy.
  apply Rabs_def2 in Hy. lra.
Qed.

Lemma near_nonzero (f : R -> R) x : ex_derive f x -> f x <> 0 -> locally x (fun e => f e <> 0).
Proof.
  intros D H. apply (ex_derive_continuous f) in D. apply (D (fun y => y <> 0)).
  assert (Hp : 0 < Rabs (f x)) by (apply Rabs_pos_lt; auto).
  exists (mkposreal _ Hp). intros y Hy E. subst y.
  unfold ball in Hy; simpl in Hy; unfold AbsRing_ball, abs, minus, plus, opp in Hy; simpl in Hy.
  rewrite Rplus_0_l, Rabs_Ropp in Hy. lra.
Qed.

Section Family.
Variables (hp : vec5) (rp : vec3) (bz : R) (w : vec5) (P : R -> vec5) (sg : R -> R).
Hypothesis Hbz : bz <> 0.
Hypothesis Hom : hp OMEGA <> 0.
Hypothesis Hk : 1 - hp OMEGA * hp D0 <> 0.
Hypothesis F : curvilinear_family hp rp bz w P sg.

Lemma fam_tanl : is_derive (fun e => P e TANL) 0 ((1 + hp TANL * hp TANL) * w I1).
Proof.
  set (l := atan (hp TANL)).
  apply (is_derive_ext_loc (fun e => tan (l + e * w I1))).
  - generalize (cf_lam _ _ _ _ _ _ F). apply filter_imp. intros e E. fold l in E. rewrite <- E. apply tan_atan.
  - replace ((1 + hp TANL * hp TANL) * w I1) with (scal (w I1) (1 + hp TANL * hp TANL))
      by (unfold scal; simpl; unfold mult; simpl; ring).
    apply (is_derive_comp tan (fun e => l + e * w I1)).
    + replace (l + 0 * w I1) with l by ring. 
      assert (D := tan_derive l). unfold l in D. rewrite tan_atan in D. apply D.
      generalize (cos_atan_pos (hp TANL)). lra.
    + auto_derive; auto. ring.
Qed.

Lemma fam_omega : is_derive (fun e => P e OMEGA) 0
  (bz * convertBr2P_cm / cos (atan (hp TANL)) * w I0 + hp OMEGA * tan (atan (hp TANL)) * w I1).
Proof.
  set (l := atan (hp TANL)).
  assert (C := cos_atan_pos (hp TANL)). fold l in C.
  assert (K : convertBr2P_cm <> 0) by (unfold convertBr2P_cm; lra).
  apply (is_derive_ext_loc (fun e => (cos l * hp OMEGA + e * w I0 * (bz * convertBr2P_cm)) / cos (l + e * w I1))).
  - generalize (filter_and _ _ (cf_qop _ _ _ _ _ _ F) (filter_and _ _ (cf_lam _ _ _ _ _ _ F) (cos_near l (w I1) C))).
    apply filter_imp. intros e (E1 & E2 & E3). fold l in E2.
    change field_unit with convertBr2P_cm in E1. rewrite E2 in E1. fold l in E1.
    apply Rmult_eq_reg_r with (cos (l + e * w I1)); [|lra].
    apply Rmult_eq_reg_r with (/ (bz * convertBr2P_cm)).
    2:{ apply Rinv_neq_0_compat. apply Rmult_integral_contrapositive_currified; auto. }
    transitivity (cos l * hp OMEGA / (bz * convertBr2P_cm) + e * w I0).
    + field. repeat split; auto; lra.
    + rewrite <- E1. field. split; auto.
  - auto_derive.
    + replace (l + 0 * w I1) with l by ring. repeat split; lra.
    + replace (l + 0 * w I1) with l by ring. unfold tan. field. lra.
Qed.

Lemma fam_rest : exists d' s' p' z',
  is_derive (fun e => P e D0) 0 d' /\ is_derive sg 0 s' /\ is_derive (fun e => P e PHI0) 0 p'
  /\ is_derive (fun e => P e Z0) 0 z'
  /\ d' = w I3 /\ s' = - w I4 * sin (atan (hp TANL)) + hp D0 * p'
  /\ p' - hp OMEGA * s' = w I2
  /\ z' + hp TANL * s' = w I4 * cos (atan (hp TANL)).
Proof.
  exists (Derive (fun e => P e D0) 0), (Derive sg 0), (Derive (fun e => P e PHI0) 0), (Derive (fun e => P e Z0) 0).
  assert (Do := cf_diff _ _ _ _ _ _ F OMEGA). assert (Dt := cf_diff _ _ _ _ _ _ F TANL).
  assert (Dp := cf_diff _ _ _ _ _ _ F PHI0). assert (Dd := cf_diff _ _ _ _ _ _ F D0).
  assert (Dz := cf_diff _ _ _ _ _ _ F Z0). assert (Ds := cf_sdiff _ _ _ _ _ _ F).
  split; [apply Derive_correct; auto|]. split; [apply Derive_correct; auto|].
  split; [apply Derive_correct; auto|]. split; [apply Derive_correct; auto|].
  assert (S := cf_start _ _ _ _ _ _ F). assert (S0 := cf_s0 _ _ _ _ _ _ F).
  assert (No : locally 0 (fun e => P e OMEGA <> 0)).
  { apply near_nonzero; auto. rewrite S. auto. }
  set (l := atan (hp TANL)).
  assert (Pos : locally 0 (fun e =>
     vx rp - P e D0 * sin (P e PHI0) + 1 / P e OMEGA * (sin (P e PHI0) - sin (P e PHI0 - sg e * P e OMEGA))
       = vx rp - hp D0 * sin (hp PHI0) + e * (w I3 * - sin (hp PHI0) + w I4 * (- cos (hp PHI0) * sin l))
     /\ vy rp + P e D0 * cos (P e PHI0) - 1 / P e OMEGA * (cos (P e PHI0) - cos (P e PHI0 - sg e * P e OMEGA))
       = vy rp + hp D0 * cos (hp PHI0) + e * (w I3 * cos (hp PHI0) + w I4 * (- sin (hp PHI0) * sin l))
     /\ vz rp + P e Z0 + sg e * P e TANL = vz rp + hp Z0 + e * (w I4 * cos l))).
  { generalize (filter_and _ _ No (cf_pos _ _ _ _ _ _ F)). apply filter_imp. intros e (N & Q).
    specialize (Q (hcurve hp rp) (hcurve (P e) rp) (hcurve_helix hp rp Hom) (hcurve_helix (P e) rp N)).
    unfold vsub, vscale, vadd, axis_u, axis_v in Q. cbn [vx vy vz] in Q.
    unfold hcurve in Q. cbn [vx vy vz] in Q.
    replace (hp PHI0 - 0 * hp OMEGA) with (hp PHI0) in Q by ring. fold l in Q.
    inversion Q as [[Q1 Q2 Q3]]. clear Q. repeat split; lra. }
  assert (Px : locally 0 (fun e =>
     vx rp - P e D0 * sin (P e PHI0) + 1 / P e OMEGA * (sin (P e PHI0) - sin (P e PHI0 - sg e * P e OMEGA))
       = vx rp - hp D0 * sin (hp PHI0) + e * (w I3 * - sin (hp PHI0) + w I4 * (- cos (hp PHI0) * sin l))))
    by (revert Pos; apply filter_imp; intros e (A & _); exact A).
  assert (Py : locally 0 (fun e =>
     vy rp + P e D0 * cos (P e PHI0) - 1 / P e OMEGA * (cos (P e PHI0) - cos (P e PHI0 - sg e * P e OMEGA))
       = vy rp + hp D0 * cos (hp PHI0) + e * (w I3 * cos (hp PHI0) + w I4 * (- sin (hp PHI0) * sin l))))
    by (revert Pos; apply filter_imp; intros e (_ & A & _); exact A).
  assert (Pz : locally 0 (fun e => vz rp + P e Z0 + sg e * P e TANL = vz rp + hp Z0 + e * (w I4 * cos l)))
    by (revert Pos; apply filter_imp; intros e (_ & _ & A); exact A).
  assert (Pp := cf_phi _ _ _ _ _ _ F).
  assert (So := S OMEGA). assert (St := S TANL). assert (Sp := S PHI0). assert (Sd := S D0). assert (Sz := S Z0).
  clear Pos.
  set (om := fun e => P e OMEGA) in *. set (tl := fun e => P e TANL) in *. set (ph := fun e => P e PHI0) in *.
  set (d := fun e => P e D0) in *. set (z := fun e => P e Z0) in *.
  change (P 0 OMEGA) with (om 0) in *. change (P 0 TANL) with (tl 0) in *. change (P 0 PHI0) with (ph 0) in *.
  change (P 0 D0) with (d 0) in *. change (P 0 Z0) with (z 0) in *.
  change (locally 0 (fun e => vx rp - d e * sin (ph e) + 1 / om e * (sin (ph e) - sin (ph e - sg e * om e))
       = vx rp - hp D0 * sin (hp PHI0) + e * (w I3 * - sin (hp PHI0) + w I4 * (- cos (hp PHI0) * sin l)))) in Px.
  change (locally 0 (fun e => vy rp + d e * cos (ph e) - 1 / om e * (cos (ph e) - cos (ph e - sg e * om e))
       = vy rp + hp D0 * cos (hp PHI0) + e * (w I3 * cos (hp PHI0) + w I4 * (- sin (hp PHI0) * sin l)))) in Py.
  change (locally 0 (fun e => vz rp + z e + sg e * tl e = vz rp + hp Z0 + e * (w I4 * cos l))) in Pz.
  change (locally 0 (fun e => ph e - om e * sg e = hp PHI0 + e * w I2)) in Pp.
  assert (No0 : om 0 <> 0) by (rewrite So; auto).
  change (ex_derive om 0) in Do. change (ex_derive tl 0) in Dt. change (ex_derive ph 0) in Dp.
  change (ex_derive d 0) in Dd. change (ex_derive z 0) in Dz.
  change (Derive d 0 = w I3 /\ Derive sg 0 = - w I4 * sin l + hp D0 * Derive ph 0
    /\ Derive ph 0 - hp OMEGA * Derive sg 0 = w I2 /\ Derive z 0 + hp TANL * Derive sg 0 = w I4 * cos l).
  clear No S F. clearbody om tl ph d z.
  set (c := cos (hp PHI0)) in *. set (s := sin (hp PHI0)) in *.
  assert (SC := sc1 (hp PHI0)). fold c s in SC.
  (* x *)
  assert (Ex : - Derive d 0 * s - hp D0 * c * Derive ph 0 + c * Derive sg 0 = w I3 * - s + w I4 * (- c * sin l)).
  { eapply derive_eq_loc; [exact Px| |].
    - auto_derive; [repeat split; try assumption; auto|]. change (fun x : R => d x) with d; change (fun x : R => ph x) with ph; change (fun x : R => om x) with om; change (fun x : R => sg x) with sg; change (fun x : R => tl x) with tl; change (fun x : R => z x) with z. rewrite S0, So, Sp, Sd.
      replace (hp PHI0 + - (0 * hp OMEGA)) with (hp PHI0) by ring. fold c s.
      field. auto.
    - auto_derive; auto. ring. }
  assert (Ey : Derive d 0 * c - hp D0 * s * Derive ph 0 + s * Derive sg 0 = w I3 * c + w I4 * (- s * sin l)).
  { eapply derive_eq_loc; [exact Py| |].
    - auto_derive; [repeat split; try assumption; auto|]. change (fun x : R => d x) with d; change (fun x : R => ph x) with ph; change (fun x : R => om x) with om; change (fun x : R => sg x) with sg; change (fun x : R => tl x) with tl; change (fun x : R => z x) with z. rewrite S0, So, Sp, Sd.
      replace (hp PHI0 + - (0 * hp OMEGA)) with (hp PHI0) by ring. fold c s.
      field. auto.
    - auto_derive; auto. ring. }
  assert (Ez : Derive z 0 + hp TANL * Derive sg 0 = w I4 * cos l).
  { eapply derive_eq_loc; [exact Pz| |].
    - auto_derive; [repeat split; try assumption; auto|]. change (fun x : R => d x) with d; change (fun x : R => ph x) with ph; change (fun x : R => om x) with om; change (fun x : R => sg x) with sg; change (fun x : R => tl x) with tl; change (fun x : R => z x) with z. rewrite S0, St. ring.
    - auto_derive; auto. ring. }
  assert (Ep : Derive ph 0 - hp OMEGA * Derive sg 0 = w I2).
  { eapply derive_eq_loc; [exact Pp| |].
    - auto_derive; [repeat split; try assumption; auto|]. change (fun x : R => d x) with d; change (fun x : R => ph x) with ph; change (fun x : R => om x) with om; change (fun x : R => sg x) with sg; change (fun x : R => tl x) with tl; change (fun x : R => z x) with z. rewrite S0, So. ring.
    - auto_derive; auto. ring. }
  set (dd := Derive d 0) in *. set (ds := Derive sg 0) in *. set (dp := Derive ph 0) in *. set (dz := Derive z 0) in *.
  clearbody dd ds dp dz c s.
  split; [|split; [|split; assumption]].
  - transitivity (dd * (s * s + c * c)); [rewrite SC; ring|].
    transitivity (w I3 * (s * s + c * c)); [|rewrite SC; ring].
    transitivity (c * (dd * c - hp D0 * s * dp + s * ds) - s * (- dd * s - hp D0 * c * dp + c * ds)); [ring|].
    rewrite Ex, Ey. ring.
  - transitivity (ds * (s * s + c * c)); [rewrite SC; ring|].
    transitivity ((- w I4 * sin l + hp D0 * dp) * (s * s + c * c)); [|rewrite SC; ring].
    transitivity (s * (dd * c - hp D0 * s * dp + s * ds) + c * (- dd * s - hp D0 * c * dp + c * ds) + hp D0 * dp * (s * s + c * c)); [ring|].
    rewrite Ex, Ey. ring.
Qed.

Lemma family_derivative i : is_derive (fun e => P e i) 0 (m5mulv (l3_derivative hp bz) w i).
Proof.
  destruct fam_rest as (d' & s' & p' & z' & Dd & Ds & Dp & Dz & E1 & E2 & E3 & E4).
  assert (Fo := fam_omega). assert (Ft := fam_tanl).
  assert (C := cos_atan_pos (hp TANL)). assert (Sn := sin_atan_cos (hp TANL)).
  assert (C2 := cos_atan_sq (hp TANL)).
  assert (Ep : p' = / (1 - hp OMEGA * hp D0) * (w I2 - hp OMEGA * sin (atan (hp TANL)) * w I4)).
  { apply Rmult_eq_reg_l with (1 - hp OMEGA * hp D0); auto.
    rewrite <- Rmult_assoc, Rinv_r, Rmult_1_l by auto. rewrite E2 in E3. lra. }
  unfold m5mulv, sum5, l3_derivative. change field_unit with convertBr2P_cm. cbv zeta.
  destruct i.
  - eapply derive_val; [exact Fo|]. ring.
  - eapply derive_val; [exact Ft|]. rewrite tan_atan. ring.
  - eapply derive_val; [exact Dp|]. rewrite Ep. ring.
  - eapply derive_val; [exact Dd|]. rewrite E1. ring.
  - eapply derive_val; [exact Dz|]. rewrite tan_atan.
    assert (z' = w I4 * cos (atan (hp TANL)) - hp TANL * s') by lra.
    assert (I : / cos (atan (hp TANL)) = cos (atan (hp TANL)) * (1 + hp TANL * hp TANL)).
    { apply Rmult_eq_reg_l with (cos (atan (hp TANL))); [|lra]. rewrite Rinv_r by lra.
      rewrite <- Rmult_assoc. lra. }
    rewrite I, H, E2, Ep, Sn. ring.
Qed.
End Family.

Lemma near_lt (f : R -> R) x (a : R) : ex_derive f x -> f x < a -> locally x (fun e => f e < a).
Proof.
  intros D H. apply (ex_derive_continuous f) in D. apply (D (fun y => y < a)).
  assert (Hp : 0 < a - f x) by lra.
  exists (mkposreal _ Hp). intros y Hy.
  unfold ball in Hy; simpl in Hy; unfold AbsRing_ball, abs, minus, plus, opp in Hy; simpl in Hy.
  apply Rabs_def2 in Hy. lra.
Qed.

Section Exists.
Variables (hp : vec5) (rp : vec3) (bz : R) (w : vec5).
Hypothesis Hbz : bz <> 0.
Hypothesis Hom : hp OMEGA <> 0.
Hypothesis Hk : 1 - hp OMEGA * hp D0 <> 0.

Definition ge_om (e : R) : R :=
  (cos (atan (hp TANL)) * hp OMEGA + e * w I0 * (bz * convertBr2P_cm)) / cos (atan (hp TANL) + e * w I1).
Definition ge_tl (e : R) : R := tan (atan (hp TANL) + e * w I1).
Definition ge_A (e : R) : R := - e * w I4 * sin (atan (hp TANL)) + sin (e * w I2) / ge_om e.
Definition ge_B (e : R) : R := cos (e * w I2) / ge_om e - hp D0 - e * w I3.
Definition ge_de (e : R) : R := atan (ge_A e / ge_B e).
Definition ge_sg (e : R) : R := (ge_de e - e * w I2) / ge_om e.
Definition ge_P (e : R) : vec5 :=
  mk5 (ge_om e) (ge_tl e) (hp PHI0 + ge_de e) (1 / ge_om e - ge_B e / cos (ge_de e))
      (hp Z0 + e * w I4 * cos (atan (hp TANL)) - ge_tl e * ge_sg e).

Let l := atan (hp TANL).
Lemma ge_C : 0 < cos l. Proof. apply cos_atan_pos. Qed.

Lemma ge_om0 : ge_om 0 = hp OMEGA.
Proof. unfold ge_om. fold l. rewrite !Rmult_0_l, !Rplus_0_r. field. generalize ge_C. lra. Qed.
Lemma ge_om_d : ex_derive ge_om 0.
Proof. unfold ge_om. fold l. auto_derive. rewrite Rmult_0_l, Rplus_0_r. generalize ge_C. lra. Qed.
Lemma ge_tl_d : ex_derive ge_tl 0.
Proof.
  unfold ge_tl. fold l. apply (ex_derive_comp tan (fun e => l + e * w I1)).
  - rewrite Rmult_0_l, Rplus_0_r. exists (1 + tan l * tan l). apply tan_derive. generalize ge_C. lra.
  - auto_derive. auto.
Qed.
Lemma ge_A_d : ex_derive ge_A 0.
Proof.
  assert (D := ge_om_d). assert (E := ge_om0). unfold ge_A. 
  clear - D E Hom. set (g := ge_om) in *. clearbody g. auto_derive. split; auto. rewrite E. auto.
Qed.
Lemma ge_B_d : ex_derive ge_B 0.
Proof.
  assert (D := ge_om_d). assert (E := ge_om0). unfold ge_B.
  clear - D E Hom. set (g := ge_om) in *. clearbody g. auto_derive. split; auto. rewrite E. auto.
Qed.
Lemma ge_A0 : ge_A 0 = 0.
Proof. unfold ge_A. rewrite ge_om0, !Rmult_0_l, sin_0. unfold Rdiv. ring. Qed.
Lemma ge_B0 : ge_B 0 = (1 - hp OMEGA * hp D0) / hp OMEGA.
Proof. unfold ge_B. rewrite ge_om0, !Rmult_0_l, cos_0. field. auto. Qed.
Lemma ge_B0_nz : ge_B 0 <> 0.
Proof.
  rewrite ge_B0. apply Rmult_integral_contrapositive_currified; auto. apply Rinv_neq_0_compat; auto.
Qed.
Lemma ge_de0 : ge_de 0 = 0.
Proof. unfold ge_de. rewrite ge_A0. unfold Rdiv. rewrite Rmult_0_l. apply atan_0. Qed.
Lemma ge_de_d : ex_derive ge_de 0.
Proof.
  assert (DA := ge_A_d). assert (DB := ge_B_d). assert (N := ge_B0_nz). unfold ge_de.
  set (A := ge_A) in *. set (B := ge_B) in *. clearbody A B.
  apply (ex_derive_comp atan (fun e => A e / B e)).
  - eexists. apply is_derive_atan.
  - auto_derive. auto.
Qed.
Lemma ge_sg0 : ge_sg 0 = 0.
Proof. unfold ge_sg. rewrite ge_de0. unfold Rdiv. ring. Qed.
Lemma ge_sg_d : ex_derive ge_sg 0.
Proof.
  assert (D := ge_om_d). assert (E := ge_om0). assert (DD := ge_de_d). unfold ge_sg.
  set (g := ge_om) in *. set (d := ge_de) in *. clearbody g d. auto_derive. repeat split; auto. rewrite E. auto.
Qed.

Lemma family_exists : curvilinear_family hp rp bz w ge_P ge_sg.
Proof.
  assert (C := ge_C).
  assert (No : locally 0 (fun e => ge_om e <> 0)).
  { apply near_nonzero; [exact ge_om_d|]. rewrite ge_om0. auto. }
  assert (NB : locally 0 (fun e => ge_B e <> 0)) by (apply near_nonzero; [exact ge_B_d|exact ge_B0_nz]).
  assert (Nl : locally 0 (fun e => atan (ge_tl e) = l + e * w I1)).
  { assert (R1 := atan_bound (hp TANL)). fold l in R1.
    assert (L1 : locally 0 (fun e => l + e * w I1 < PI / 2)).
    { apply (near_lt (fun e => l + e * w I1)); [auto_derive; auto|]. lra. }
    assert (L2 : locally 0 (fun e => - (l + e * w I1) < PI / 2)).
    { apply (near_lt (fun e => - (l + e * w I1))); [auto_derive; auto|]. lra. }
    generalize (filter_and _ _ L1 L2). apply filter_imp. intros e (A & B).
    unfold ge_tl. fold l. apply atan_tan. lra. }
  assert (Nc := cos_near l (w I1) C).
  assert (K : convertBr2P_cm <> 0) by (unfold convertBr2P_cm; lra).
  split.
  - intros i. unfold ge_P. destruct i; cbn.
    + apply ge_om0.
    + unfold ge_tl. rewrite Rmult_0_l, Rplus_0_r. apply tan_atan.
    + rewrite ge_de0. apply Rplus_0_r.
    + rewrite ge_de0, ge_om0, ge_B0, cos_0. unfold OMEGA, D0. field. exact Hom.
    + rewrite ge_sg0. unfold Z0. ring.
  - apply ge_sg0.
  - intros i. unfold ge_P. destruct i; cbn.
    + exact ge_om_d.
    + exact ge_tl_d.
    + assert (D := ge_de_d). set (d := ge_de) in *. clearbody d. auto_derive. auto.
    + assert (D1 := ge_de_d). assert (D2 := ge_om_d). assert (D3 := ge_B_d).
      assert (E1 := ge_om0). assert (E2 := ge_de0).
      set (d := ge_de) in *. set (g := ge_om) in *. set (b := ge_B) in *. clearbody d g b.
      auto_derive. repeat split; auto; [rewrite E1; auto|]. rewrite E2, cos_0. lra.
    + assert (D1 := ge_sg_d). assert (D2 := ge_tl_d).
      set (d := ge_sg) in *. set (g := ge_tl) in *. clearbody d g. auto_derive. auto.
  - exact ge_sg_d.
  - generalize (filter_and _ _ Nl Nc). apply filter_imp. intros e (E & P).
    change field_unit with convertBr2P_cm.
    change (ge_P e TANL) with (ge_tl e). change (ge_P e OMEGA) with (ge_om e). rewrite E.
    unfold ge_om. fold l. field. repeat split; auto; lra.
  - exact Nl.
  - revert No. apply filter_imp. intros e N.
    change (ge_P e PHI0) with (hp PHI0 + ge_de e). change (ge_P e OMEGA) with (ge_om e).
    unfold ge_sg. field. auto.
  - generalize (filter_and _ _ No NB). apply filter_imp. intros e (N & NB') f0 f H0 H1.
    rewrite (helix_is_hcurve _ _ _ Hom H0), (helix_is_hcurve (ge_P e) rp f N H1).
    unfold vsub, vscale, vadd, hcurve, axis_u, axis_v. cbn [vx vy vz].
    change (ge_P e PHI0) with (hp PHI0 + ge_de e). change (ge_P e OMEGA) with (ge_om e).
    change (ge_P e D0) with (1 / ge_om e - ge_B e / cos (ge_de e)).
    change (ge_P e TANL) with (ge_tl e). change (ge_P e Z0) with (hp Z0 + e * w I4 * cos (atan (hp TANL)) - ge_tl e * ge_sg e).
    replace (hp PHI0 + ge_de e - ge_sg e * ge_om e) with (hp PHI0 + e * w I2) by (unfold ge_sg; field; auto).
    replace (hp PHI0 - 0 * hp OMEGA) with (hp PHI0) by ring.
    assert (Cd : 0 < cos (ge_de e)) by apply cos_atan_pos.
    assert (Td : ge_B e * sin (ge_de e) = ge_A e * cos (ge_de e)).
    { unfold ge_de. rewrite sin_atan_cos. field. auto. }
    fold l.
    rewrite !sin_plus, !cos_plus. 
    assert (EA : ge_A e = - e * w I4 * sin l + sin (e * w I2) / ge_om e) by reflexivity.
    assert (EB : ge_B e = cos (e * w I2) / ge_om e - hp D0 - e * w I3) by reflexivity.
    set (sd := sin (ge_de e)) in *. set (cd := cos (ge_de e)) in *. set (A := ge_A e) in *. set (B := ge_B e) in *.
    set (g := ge_om e) in *. set (s := sin (hp PHI0)). set (c := cos (hp PHI0)).
    set (s2 := sin (e * w I2)) in *. set (c2 := cos (e * w I2)) in *.
    assert (Tb : B / cd * sd = A) by (apply Rmult_eq_reg_r with cd; [|lra]; rewrite <- Td; field; lra).
    clearbody sd cd A B g s c s2 c2.
    f_equal.
    + transitivity (B / cd * sd * c + B * s - (s * c2 + c * s2) / g + hp D0 * s); [field; lra|].
      rewrite Tb, EA, EB. field. auto.
    + transitivity (B / cd * sd * s - B * c + (c * c2 - s * s2) / g - hp D0 * c); [field; lra|].
      rewrite Tb, EA, EB. field. auto.
    + ring.
Qed.
End Exists.

Lemma cl2l3_value_d0 hp bz : bz <> 0 -> 1 - hp OMEGA * hp D0 <> 0 ->
  exists J, curvilinearToL3Jacobian hp (V3 0 0 bz) = Ok J
  /\ forall i j, J i j =
       match i, j with
       | I0, I1 => - l3_derivative hp bz i j
       | I2, I2 => 0
       | I2, I4 => (if Rlt_dec 0 bz then - 1 else 1) * (1 - hp OMEGA * hp D0) * l3_derivative hp bz i j
       | I4, I2 => 0
       | I4, I4 => / cos (atan (hp TANL))
       | _, _ => l3_derivative hp bz i j
       end.
Proof.
  intros Hb Hd.
  unfold curvilinearToL3Jacobian, curvilinearToPerigeeJacobian. cbv zeta.
  set (sb := if Rlt_dec 0 bz then 1 else -1).
  assert (U : vunit (V3 0 0 bz) = Ok (V3 0 0 sb)).
  { unfold vunit, vr. cbn [vx vy vz].
    replace (0 * 0 + 0 * 0 + bz * bz) with (bz * bz) by ring.
    fold (Rsqr bz). rewrite sqrt_Rsqr_abs. assert (Rabs bz <> 0) by (apply Rabs_no_R0; auto).
    rewrite !rdiv_ok by auto. cbn [bind]. f_equal. unfold sb. destruct (Rlt_dec 0 bz).
    - rewrite Rabs_right in * by lra. f_equal; field; auto.
    - rewrite Rabs_left in * by lra. f_equal; field; lra. }
  rewrite U. cbn [bind].
  unfold calculateLambda, calculatePhi0, calculateCurvature.
  rewrite cosl_eq. set (p := hp PHI0). set (l := atan (hp TANL)).
  assert (Cl : 0 < cos l) by apply cos_atan_pos.
  assert (SC := sc1 p).
  assert (T : vdot (V3 (cos p * cos l) (sin p * cos l) (sin l)) (vcross (V3 (sin p) (- cos p) 0) (V3 0 0 1)) = - cos l).
  { unfold vdot, vcross. cbn [vx vy vz]. transitivity (- (sin p * sin p + cos p * cos p) * cos l); [ring|].
    rewrite SC. ring. }
  assert (Ui : vdot (V3 (- sin p) (cos p) 0) (vcross (V3 (sin p) (- cos p) 0) (V3 0 0 1)) = 0).
  { unfold vdot, vcross. cbn [vx vy vz]. ring. }
  assert (Vi : vdot (V3 (- cos p * sin l) (- sin p * sin l) (cos l)) (vcross (V3 (sin p) (- cos p) 0) (V3 0 0 1)) = sin l).
  { unfold vdot, vcross. cbn [vx vy vz]. transitivity ((sin p * sin p + cos p * cos p) * sin l); [ring|].
    rewrite SC. ring. }
  assert (Av : vdot (vcross (V3 0 0 sb) (V3 (cos p * cos l) (sin p * cos l) (sin l))) (V3 (- cos p * sin l) (- sin p * sin l) (cos l)) = 0).
  { unfold vdot, vcross. cbn [vx vy vz]. ring. }
  assert (Au : vdot (vcross (V3 0 0 sb) (V3 (cos p * cos l) (sin p * cos l) (sin l))) (V3 (- sin p) (cos p) 0) = sb * cos l).
  { unfold vdot, vcross. cbn [vx vy vz]. transitivity ((sin p * sin p + cos p * cos p) * (sb * cos l)); [ring|].
    rewrite SC. ring. }
  assert (Vk : vdot (V3 (- cos p * sin l) (- sin p * sin l) (cos l)) (V3 0 0 1) = cos l).
  { unfold vdot. cbn [vx vy vz]. ring. }
  rewrite T, Ui, Vi, Av, Au, Vk.
  rewrite !rdiv_ok by lra. cbn [bind]. eexists. split; [reflexivity|].
  intros i j. unfold m5mul, sum5, perigeeToL3Jacobian, m5set, m5Unit, m5zero, l3_derivative, calculateTanLambda.
  change field_unit with convertBr2P_cm.
  fold l. assert (Tl : tan l = hp TANL) by apply tan_atan. cbn [vz].
  rewrite <- Tl.
  destruct i, j; cbn; unfold sb; try destruct (Rlt_dec 0 bz); unfold OMEGA, D0 in *; field; lra.
Qed.

Lemma cl2l3_value hp bz : bz <> 0 -> hp D0 = 0 ->
  exists J, curvilinearToL3Jacobian hp (V3 0 0 bz) = Ok J
  /\ forall i j, J i j =
       match i, j with
       | I0, I1 => - l3_derivative hp bz i j
       | I2, I2 => 0
       | I2, I4 => if Rlt_dec 0 bz then - l3_derivative hp bz i j else l3_derivative hp bz i j
       | _, _ => l3_derivative hp bz i j
       end.
Proof.
  intros Hb Hd. destruct (cl2l3_value_d0 hp bz Hb) as [J [E V]]; [rewrite Hd; lra|].
  exists J. split; auto. intros i j. rewrite V.
  assert (Cl : 0 < cos (atan (hp TANL))) by apply cos_atan_pos.
  destruct i, j; auto; unfold l3_derivative; rewrite Hd;
    try destruct (Rlt_dec 0 bz); try field; lra.
Qed.
