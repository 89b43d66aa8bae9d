(** C95: the multiple-scattering angle in double precision. *)
From Coq Require Import Reals ZArith Lra Lia Psatz.
From Flocq Require Import Core.
From Verif Require Import Num Vec Isect Material FloatWrap PointFloat SpecRound RoundFacts PointFloatFacts PropMoveFloat PropCylFloat PropStartFloat NearFacts StartFloat StartFloatFacts
  SpecMaterial MaterialFacts PropMaterial TrajEx QmsFloat SpecQmsFloat RelFacts QmsFloatFacts.
Open Scope R_scope.

(** The angle is finite and close to Highland's width. *)
Theorem C95_angle : forall mlog surf uv p m, log_accurate mlog -> ordinary_layer surf uv p m ->
  let t := radiation_lengths surf uv p in
  exists q, computeQMS_d mlog surf uv p m = Ok q
  /\ Rabs (q - highland (vr p) m t) <= uround * (33 + 14 / Rabs (cos_angle p (normal_at surf uv))) * highland_scale (vr p) m t.
Proof. intros mlog surf uv p m HL HO t. destruct (angle_ok mlog surf uv p m HL HO) as (q & E & D). exists q. split; [exact E|]. exact D. Qed.
Print Assumptions C95_angle.

Lemma highland_low p m t : 0 < p -> 0 < t -> exp (-20) <= t ->
  0 < highland p m t /\ highland_scale p m t <= 734 / 100 * highland p m t
  /\ 24 / 100 * (136 / 10000 / (p * (p / sqrt (p * p + m * m))) * sqrt t) <= highland p m t.
Proof.
  intros P T H. unfold highland, highland_scale, velocity. assert (EP : 0 < sqrt (p * p + m * m)) by (apply sqrt_lt_R0; nra).
  assert (A : 0 < 136 / 10000 / (p * (p / sqrt (p * p + m * m))) * sqrt t).
  { apply Rmult_lt_0_compat; [|apply sqrt_lt_R0, T]. apply Rdiv_lt_0_compat; [lra|]. apply Rmult_lt_0_compat; [exact P|]. apply Rdiv_lt_0_compat; assumption. }
  set (a := 136 / 10000 / (p * (p / sqrt (p * p + m * m))) * sqrt t) in *.
  assert (L : -20 <= ln t). { rewrite <- (ln_exp (-20)). destruct H as [H| <-]; [left; apply ln_increasing; [apply exp_pos|exact H]|lra]. }
  set (l := ln t) in *. assert (F : 24 / 100 <= 1 + 38 / 1000 * l) by lra.
  assert (G : 1 + 38 / 1000 * Rabs l <= 734 / 100 * (1 + 38 / 1000 * l)) by (unfold Rabs; destruct Rcase_abs; lra).
  split; [apply Rmult_lt_0_compat; lra|]. split.
  - replace (734 / 100 * (a * (1 + 38 / 1000 * l))) with (a * (734 / 100 * (1 + 38 / 1000 * l))) by ring. apply Rmult_le_compat_l; lra.
  - rewrite (Rmult_comm (24 / 100)). apply Rmult_le_compat_l; lra.
Qed.

(** Not for extremely thin layers, the relative error is small. *)
Theorem C95_close : forall mlog surf uv p m, log_accurate mlog -> ordinary_layer surf uv p m ->
  let t := radiation_lengths surf uv p in
  exp (-20) <= t ->
  exists q, computeQMS_d mlog surf uv p m = Ok q /\ 0 < q
  /\ Rabs (q - highland (vr p) m t) <= uround * (243 + 103 / Rabs (cos_angle p (normal_at surf uv))) * highland (vr p) m t.
Proof.
  intros mlog surf uv p m HL HO t HT. destruct (C95_angle mlog surf uv p m HL HO) as (q & E & D). fold t in D. exists q. split; [exact E|].
  assert (TP : 0 < t) by (apply (btw_pos _ _ _ (t_range surf uv p m HO))). assert (PP : 0 < vr p) by (apply (btw_pos (-100) 100), HO).
  destruct (highland_low (vr p) m t PP TP HT) as (H0 & H1 & _). assert (KR := kap_range surf uv p m HO).
  unfold Rdiv in *. set (kap := / Rabs (cos_angle p (normal_at surf uv))) in *. set (h := highland (vr p) m t) in *. set (g := highland_scale (vr p) m t) in *.
  assert (U := u_small). assert (B : Rabs (q - h) <= uround * (243 + 103 * kap) * h).
  { eapply Rle_trans; [exact D|]. apply Rle_trans with (uround * (33 + 14 * kap) * (734 / 100 * h)).
    - apply Rmult_le_compat_l; [apply Rmult_le_pos; lra|lra].
    - replace (uround * (33 + 14 * kap) * (734 / 100 * h)) with (uround * (734 / 100 * (33 + 14 * kap)) * h) by ring. apply Rmult_le_compat_r; [lra|]. apply Rmult_le_compat_l; lra. }
  split; [|exact B]. assert (R : rel (243 + 103 * kap) q h) by (split; [lra|exact B]). assert (Q := r_range _ _ _ R ltac:(unfold few; lra)). lra.
Qed.
Print Assumptions C95_close.

(** The same for the square that the fit uses as the precision of a scatterer. *)
Theorem C95_weight : forall mlog surf uv p m, log_accurate mlog -> ordinary_layer surf uv p m ->
  let t := radiation_lengths surf uv p in
  exp (-20) <= t ->
  exists w, scatter_weight_d mlog surf uv p m = Ok w /\ 0 < w
  /\ Rabs (w - (highland (vr p) m t) ^ 2) <= uround * (488 + 207 / Rabs (cos_angle p (normal_at surf uv))) * (highland (vr p) m t) ^ 2.
Proof.
  intros mlog surf uv p m HL HO t HT. destruct (C95_close mlog surf uv p m HL HO HT) as (q & E & Q0 & D). fold t in D.
  assert (TR := t_range surf uv p m HO). fold t in TR. assert (TP : 0 < t) by (apply (btw_pos _ _ _ TR)). assert (PP : 0 < vr p) by (apply (btw_pos (-100) 100), HO).
  destruct (highland_low (vr p) m t PP TP HT) as (H0 & H1 & H2). assert (KR := kap_range surf uv p m HO).
  destruct (mom_ok surf uv p m HO) as (mo & m2 & w2 & e2 & en & be & mb & c1 & c2 & _ & _ & _ & _ & _ & _ & _ & _ & _ & _ & BA).
  assert (SQ : btw (-101) 111 (sqrt t)) by (apply btw_sqrt; apply (btw_weak _ _ _ _ _ TR); lia). assert (AR := btw_mul _ _ _ _ _ _ BA SQ).
  assert (LR := ln_range surf uv p m HO). fold t in LR.
  set (a := 136 / 10000 / (vr p * (vr p / sqrt (vr p * vr p + m * m))) * sqrt t) in *.
  assert (HB : btw (-220) 420 (highland (vr p) m t)).
  { destruct AR as [AL AU]. split.
    - eapply Rle_trans; [|exact H2]. apply Rle_trans with (bpow radix2 (-3) * bpow radix2 (-110 + -101)); [rewrite <- bpow_plus; apply bpow_le; lia|].
      apply Rmult_le_compat; try apply bpow_ge_0; [change (bpow radix2 (-3)) with (/ 8); lra|exact AL].
    - unfold highland, velocity. fold a. assert (AP : 0 < a) by (generalize (bpow_gt_0 radix2 (-110 + -101)); lra). apply Rabs_le_inv in LR.
      apply Rle_trans with (a * 16); [apply Rmult_le_compat_l; lra|]. apply Rle_trans with (bpow radix2 (302 + 111) * bpow radix2 4); [|rewrite <- bpow_plus; apply bpow_le; lia].
      apply Rmult_le_compat; try lra. change (bpow radix2 4) with 16. lra. }
  unfold Rdiv in D |- *. set (kap := / Rabs (cos_angle p (normal_at surf uv))) in *. set (h := highland (vr p) m t) in *.
  assert (R : rel (243 + 103 * kap) q h) by (split; [lra|exact D]).
  assert (R2 := r_mul _ _ _ _ _ _ R R ltac:(unfold few; lra) ltac:(unfold few; lra)).
  destruct (r_op _ _ _ _ _ R2 ltac:(unfold few; lra) (btw_mul _ _ _ _ _ _ HB HB) ltac:(lia) ltac:(lia)) as [E3 R3].
  exists (rnd (q * q)). split; [unfold scatter_weight_d; rewrite E; exact E3|]. replace (h ^ 2) with (h * h) by ring.
  apply (r_weak _ (488 + 207 * kap)) in R3; [|lra]. assert (RR := r_range _ _ _ R3 ltac:(unfold few; lra)). assert (0 < h * h) by (apply Rmult_lt_0_compat; lra). split; [lra|]. apply R3.
Qed.
Print Assumptions C95_weight.

(** ** where it is not finite *)
Definition tame {A} (m : res A) : Prop := m = NonFin \/ exists a, m = Ok a.
Lemma tame_rd x : tame (rd x).
Proof. unfold rd. destruct Rlt_dec; [right; eauto|left; reflexivity]. Qed.
Lemma tame_div x y : tame (rd_div x y).
Proof. unfold rd_div. destruct Req_EM_T; [left; reflexivity|apply tame_rd]. Qed.
Lemma tame_bind {A B} (m : res A) (k : A -> res B) : tame m -> (forall a, k a = NonFin) -> bind m k = NonFin.
Proof. intros [->|(a & ->)] H; [reflexivity|apply H]. Qed.

(** A surface without material gives no finite angle, whatever the material is called. *)
Theorem C95_nothing : forall mlog surf uv p m, sf_innerThickness surf = 0 -> sf_outerThickness surf = 0 -> computeQMS_d mlog surf uv p m = NonFin.
Proof.
  intros mlog surf uv p m H1 H2. unfold computeQMS_d. rewrite H1, H2. cbv zeta. rewrite Rplus_0_l. replace (rd 0) with (Ok 0); [cbn [bind]|].
  - apply tame_bind; [apply tame_div|intros a]. apply tame_bind; [apply tame_div|intros b]. apply tame_bind; [apply tame_rd|intros ab].
    unfold rd_div at 1. destruct Req_EM_T; [reflexivity|lra].
  - unfold rd. rewrite rnd_0, Rabs_R0. destruct Rlt_dec as [|N]; [reflexivity|]. exfalso. apply N, bpow_gt_0.
Qed.
Print Assumptions C95_nothing.

(** A track that grazes a surface, so that its direction and the normal are orthogonal
    but for rounding. *)
Definition n_graze : vec3 := V3 (rnd (4 / 5)) (rnd (3 / 5)) 0.
Definition graze : surface :=
  Surf 1 (ST false true false true false) None (fun _ => true) (fun _ => V3 (- rnd (3 / 5)) (rnd (4 / 5)) 0) (fun _ => V3 0 0 1)
    (fun _ => n_graze) (fun x => (0, vz x)) (fun uv => V3 0 0 (snd uv)) v3zero ex_silicon ex_silicon 1 1 (fun x => vdot x n_graze).
Definition p_graze : vec3 := V3 3 (-4) 0.

Lemma r45 : rnd (4 / 5) = 7205759403792794 * bpow radix2 (-53).
Proof.
  rewrite (rounds (4 / 5) 7205759403792794 (-1)); [reflexivity|lia| |].
  - change (bpow radix2 (-1)) with (/ 2). change (bpow radix2 (-1 + 1)) with 1. rewrite Rabs_pos_eq; lra.
  - change (bpow radix2 (52 - -1)) with 9007199254740992. apply Rabs_def1; lra.
Qed.
Lemma r35 : rnd (3 / 5) = 5404319552844595 * bpow radix2 (-53).
Proof.
  rewrite (rounds (3 / 5) 5404319552844595 (-1)); [reflexivity|lia| |].
  - change (bpow radix2 (-1)) with (/ 2). change (bpow radix2 (-1 + 1)) with 1. rewrite Rabs_pos_eq; lra.
  - change (bpow radix2 (52 - -1)) with 9007199254740992. apply Rabs_def1; lra.
Qed.
Lemma rd_int n : (Z.abs n < 2 ^ 53)%Z -> rd (IZR n) = Ok (IZR n).
Proof.
  intros H. rewrite (mag_rd _ 53); [|lia|]. 
  - f_equal. apply rnd_id, d_int, H.
  - unfold mag. rewrite <- abs_IZR. change (bpow radix2 53) with (IZR (2 ^ 53)). apply IZR_le. lia.
Qed.
Lemma rd_small x : Rabs x <= 2 -> rd x = Ok (rnd x).
Proof. intros H. apply (mag_rd _ 1); [lia|exact H]. Qed.
Lemma graze_up : vunit_d p_graze = Ok (V3 (rnd (3 / 5)) (- rnd (4 / 5)) 0).
Proof.
  assert (V : vr_d p_graze = Ok 5).
  { unfold vr_d, p_graze. cbn [vx vy vz]. replace (3 * 3) with 9 by ring. replace (-4 * -4) with 16 by ring. rewrite Rmult_0_r.
    rewrite (rd_int 9), (rd_int 16) by reflexivity. cbn [bind]. replace (9 + 16) with 25 by ring. rewrite (rd_int 25), (rd_int 0) by reflexivity. cbn [bind].
    rewrite Rplus_0_r, (rd_int 25) by reflexivity. cbn [bind]. replace 25 with (5 * 5) by ring. rewrite sqrt_square by lra. rewrite (rnd_id 5); [reflexivity|]. apply (d_int 5). reflexivity. }
  unfold vunit_d. rewrite V. cbn [bind p_graze vx vy vz]. rewrite !div_ok by lra.
  rewrite (rd_small (3 / 5)) by (rewrite Rabs_pos_eq; lra). cbn [bind]. rewrite (rd_small (-4 / 5)) by (apply Rabs_le; lra). cbn [bind].
  replace (0 / 5) with 0 by field. rewrite (rd_int 0) by reflexivity. cbn [bind]. replace (-4 / 5) with (- (4 / 5)) by field. rewrite FloatWrapFacts.rnd_opp. reflexivity.
Qed.
Theorem C95_grazing_refuted : exists surf uv p m, 0 < sf_innerThickness surf /\ vr p = 5
  /\ (exists q, computeQMS_uv surf uv p m = Ok q) /\ forall mlog, computeQMS_d mlog surf uv p m = NonFin.
Proof.
  exists graze, (0, 0), p_graze, 0. split; [cbn; lra|]. split.
  { unfold vr, p_graze. cbn [vx vy vz]. replace (3 * 3 + -4 * -4 + 0 * 0) with (5 * 5) by ring. apply sqrt_square. lra. }
  split.
  - eexists. apply (C40_scattering_angle graze (0, 0) p_graze 0); cbn; try lra. split; [lra|]. split; [intros E; injection E; intros; lra|].
    unfold vdot, p_graze, n_graze. cbn [vx vy vz]. rewrite r45, r35. assert (B := bpow_gt_0 radix2 (-53)). lra.
  - intros mlog. unfold computeQMS_d. cbv zeta. cbn [graze sf_innerThickness sf_outerThickness sf_innerMaterial sf_outerMaterial sf_normal].
    apply tame_bind; [apply tame_rd|intros r]. apply tame_bind; [apply tame_div|intros a]. apply tame_bind; [apply tame_div|intros b]. apply tame_bind; [apply tame_rd|intros ab]. apply tame_bind; [apply tame_div|intros x0].
    rewrite graze_up. cbn [bind]. assert (D : vdot_d (V3 (rnd (3 / 5)) (- rnd (4 / 5)) 0) n_graze = Ok 0).
    { unfold vdot_d, n_graze. cbn [vx vy vz]. set (x := rnd (3 / 5) * rnd (4 / 5)). replace (- rnd (4 / 5) * rnd (3 / 5)) with (- x) by (unfold x; ring).
      assert (X : Rabs x <= 2). { unfold x. rewrite r45, r35. change (bpow radix2 (-53)) with (/ 9007199254740992). rewrite Rabs_pos_eq; lra. }
      rewrite (rd_small x X), (rd_small (- x)) by (rewrite Rabs_Ropp; exact X). cbn [bind]. rewrite FloatWrapFacts.rnd_opp, Rplus_opp_r, Rmult_0_r, !(rd_int 0) by reflexivity. cbn [bind].
      rewrite Rplus_0_r, (rd_int 0) by reflexivity. reflexivity. }
    rewrite D. cbn [bind]. rewrite Rabs_R0. apply tame_bind; [apply tame_rd|intros pa]. unfold rd_div at 1. destruct Req_EM_T; [reflexivity|lra].
Qed.
Print Assumptions C95_grazing_refuted.

(** ** a concrete case: a pion of 5 GeV through 0.3 mm of silicon at an angle *)
Definition best_log (x : R) : R := rnd (ln x).
Lemma best_log_accurate : log_accurate best_log.
Proof.
  intros x _ _. split; [apply rnd_double|]. eapply Rle_trans; [apply rnd_err|]. assert (U := u_small). assert (0 <= uround * Rabs (ln x)) by (apply Rmult_le_pos; [lra|apply Rabs_pos]). unfold best_log. lra.
Qed.
Lemma common_mid x : / 1024 <= x <= 1024 -> common x.
Proof.
  intros H. split; [apply Rle_trans with (bpow radix2 (-10)); [apply bpow_le; lia|change (bpow radix2 (-10)) with (/ 1024); lra]|apply Rle_trans with (bpow radix2 10); [change (bpow radix2 10) with 1024; lra|apply bpow_le; lia]].
Qed.
Example C95_ex : let surf := ex_station 1 (3 / 100) (fun _ => true) in let p := V3 0 3 4 in
  ordinary_layer surf (0, 0) p pionMass /\ exp (-20) <= radiation_lengths surf (0, 0) p
  /\ exists w, scatter_weight_d best_log surf (0, 0) p pionMass = Ok w /\ 0 < w
     /\ Rabs (w - (highland 5 pionMass (radiation_lengths surf (0, 0) p)) ^ 2) <= / 10000000000000 * (highland 5 pionMass (radiation_lengths surf (0, 0) p)) ^ 2.
Proof.
  intros surf p. assert (V : vr p = 5) by (unfold vr, p; cbn [vx vy vz]; replace (0 * 0 + 3 * 3 + 4 * 4) with (5 * 5) by ring; apply sqrt_square; lra).
  assert (C : cos_angle p (normal_at surf (0, 0)) = 4 / 5) by (unfold cos_angle; rewrite V; unfold vdot; cbn; field).
  assert (O : ordinary_layer surf (0, 0) p pionMass).
  { constructor; cbn.
    - right. apply common_mid. lra.
    - left. reflexivity.
    - lra.
    - apply common_mid. lra.
    - apply common_mid. lra.
    - fold p. rewrite V. apply common_mid. lra.
    - right. apply common_mid. unfold pionMass. lra.
    - rewrite Rabs_R0. lra.
    - rewrite Rabs_R0. lra.
    - rewrite Rabs_R1. lra.
    - change (bpow radix2 (-20) <= Rabs (cos_angle p (normal_at surf (0, 0)))). rewrite C, Rabs_pos_eq by lra. change (bpow radix2 (-20)) with (/ 1048576). lra. }
  assert (T : exp (-20) <= radiation_lengths surf (0, 0) p).
  { unfold radiation_lengths. rewrite C, (Rabs_pos_eq (4 / 5)) by lra. cbn. assert (E := exp_ineq1 5 ltac:(lra)). replace (-20) with (- (5 + 5 + (5 + 5))) by ring. rewrite exp_Ropp, !exp_plus.
    apply Rle_trans with (/ (6 * 6 * (6 * 6))); [|lra]. apply Rinv_le_contravar; [lra|]. apply Rmult_le_compat; try lra; apply Rmult_le_compat; lra. }
  split; [exact O|]. split; [exact T|].
  destruct (C95_weight best_log surf (0, 0) p pionMass best_log_accurate O T) as (w & E & W & D). exists w. split; [exact E|]. split; [exact W|].
  rewrite C, V, (Rabs_pos_eq (4 / 5)) in D by lra. eapply Rle_trans; [exact D|]. apply Rmult_le_compat_r; [apply pow2_ge_0|]. unfold uround. lra.
Qed.
Print Assumptions C95_ex.
