(** Proofs about the material scans. *)
From Coq Require Import Reals List Bool ZArith Lra Lia Permutation Sorted.
From Verif Require Import SpecConst Num Vec Helix Isect Trans Material Traj MatScan.
From Verif Require Import NumFacts SpecHelix HelixFacts PathFacts SpecIsect SurfFacts SurfFacts2 SurfFacts3 SpecTraj TrajFacts TrajFacts4 SmoothFacts RoundFacts SpecListed ListedFacts SpecScan.
Import ListNotations.
Open Scope R_scope.

Lemma rdiv_cases a b : (b = 0 /\ rdiv a b = NonFin) \/ (b <> 0 /\ rdiv a b = Ok (a / b)).
Proof. destruct (Req_dec b 0) as [->|N]; [left; rewrite rdiv_zero; auto|right; rewrite rdiv_ok; auto]. Qed.

Lemma vunit_one v : vx v * vx v + vy v * vy v + vz v * vz v = 1 -> vunit v = Ok v.
Proof.
  intros H. unfold vunit, vr. rewrite H, sqrt_1. cbv zeta. rewrite !rdiv_ok by lra. cbn [bind].
  destruct v as [a b c]. cbn [vx vy vz]. do 2 f_equal; field.
Qed.

Lemma direction_unit theta phi : let u := direction_of theta phi in
  vx u * vx u + vy u * vy u + vz u * vz u = 1.
Proof.
  cbn. assert (A := sin2_cos2 theta). assert (B := sin2_cos2 phi). unfold Rsqr in *.
  replace (sin theta * cos phi * (sin theta * cos phi) + sin theta * sin phi * (sin theta * sin phi))
    with (sin theta * sin theta * (sin phi * sin phi + cos phi * cos phi)) by ring. rewrite B. lra.
Qed.

Lemma v3sph_direction theta phi : v3sph 1 phi theta = direction_of theta phi.
Proof. unfold v3sph, direction_of. cbv zeta. f_equal; ring. Qed.

Lemma xOverX0_spec surf u xx : vx u * vx u + vy u * vy u + vz u * vz u = 1 ->
  (measurable surf u xx /\ xOverX0 surf u xx = Ok (budget surf u xx))
  \/ (~ measurable surf u xx /\ xOverX0 surf u xx = NonFin).
Proof.
  intros U. unfold xOverX0, measurable, budget. cbv zeta.
  set (ri := sf_innerThickness surf). set (ro := sf_outerThickness surf).
  set (Xi := mat_radiationLength (sf_innerMaterial surf)). set (Xo := mat_radiationLength (sf_outerMaterial surf)).
  destruct (rdiv_cases ri Xi) as [[A ->]|[A ->]]; cbn [bind]; [right; split; [tauto|auto]|].
  destruct (rdiv_cases ro Xo) as [[B ->]|[B ->]]; cbn [bind]; [right; split; [tauto|auto]|].
  destruct (rdiv_cases (ri / Xi + ro / Xo) (ri + ro)) as [[C ->]|[C ->]]; cbn [bind]; [right; split; [tauto|auto]|].
  rewrite (vunit_one u U). cbn [bind].
  destruct (rdiv_cases (ri + ro) (Rabs (vdot u (sf_normal surf xx)))) as [[D ->]|[D ->]]; cbn [bind].
  - right. split; auto. intros (_ & _ & _ & N). apply Rabs_no_R0 in N. contradiction.
  - left. split; [repeat split; auto; intros N; rewrite N, Rabs_R0 in D; auto|]. f_equal. field. repeat split; auto.
Qed.

(** ** running totals *)
Lemma sum_app a b : sum (a ++ b) = sum a + sum b.
Proof. induction a as [|x a IH]; cbn; [ring|rewrite IH; ring]. Qed.

(** [start] is the total before the list *)
Definition runs {A : Type} (g tot : A -> res R) (start : res R) (l : list A) : Prop :=
  forall before row after, l = before ++ row :: after ->
    (forall v, tot row = Ok v <->
       exists s xs, start = Ok s /\ Forall2 (fun r x => g r = Ok x) (before ++ [row]) xs /\ v = s + sum xs)
    /\ ((exists v, tot row = Ok v) \/ tot row = NonFin).

Lemma runs_cons {A : Type} (g tot : A -> res R) start a l :
  tot a = accumulate start (g a) -> runs g tot (tot a) l -> runs g tot start (a :: l).
Proof.
  intros Ha R before row after Q. destruct before as [|b before]; cbn [app] in Q.
  - injection Q as <- _. rewrite Ha. split.
    + intros v. unfold accumulate. split.
      * intros E. destruct start as [s| | | |]; try discriminate. destruct (g a) as [x| | | |] eqn:G; try discriminate.
        injection E as <-. exists s, [x]. split; auto. split; [constructor; auto|cbn; ring].
      * intros (s & xs & -> & F & ->). cbn [app] in F. inversion F as [|? x ? xs' G F']; subst. inversion F'; subst.
        rewrite G. cbn. f_equal. ring.
    + unfold accumulate. destruct start; auto; destruct (g a); eauto.
  - injection Q as <- ->. destruct (R before row after eq_refl) as [R1 R2]. split; auto.
    intros v. rewrite R1. rewrite Ha. unfold accumulate. split.
    + intros (s & xs & E & F & ->). destruct start as [s'| | | |]; try discriminate.
      destruct (g a) as [x| | | |] eqn:G; try discriminate. injection E as <-.
      exists s', (x :: xs). split; auto. split; [constructor; auto|cbn; ring].
    + intros (s & xs & -> & F & ->). cbn [app] in F. inversion F as [|? x ? xs' G F']; subst. rewrite G.
      exists (s + x), xs'. split; auto. split; auto. cbn. ring.
Qed.

Lemma runs_running {A : Type} (g tot : A -> res R) l : runs g tot (Ok 0) l -> running g tot l.
Proof.
  intros R before row after Q. destruct (R before row after Q) as [R1 R2]. split; auto.
  intros v. rewrite R1. split.
  - intros (s & xs & E & F & ->). injection E as <-. exists xs. split; auto. ring.
  - intros (xs & F & ->). exists 0, xs. split; auto. split; auto. ring.
Qed.

Lemma scanLoop_spec tP u : vx u * vx u + vy u * vy u + vz u * vz u = 1 -> forall l start rows,
  scanLoop tP u start l = Ok rows ->
  Forall2 (fun row ent => sr_s row = fst ent
    /\ (exists b s, intersectWithSurface (snd ent) (tp_par tP) (tp_ref tP) (OVal 0 v3zero) 0 true
          = Ok (b, OVal s (sr_xx row)))
    /\ (forall x, sr_x row = Ok x <-> measurable (snd ent) u (sr_xx row) /\ x = budget (snd ent) u (sr_xx row))
    /\ ((exists x, sr_x row = Ok x) \/ sr_x row = NonFin)) rows l
  /\ runs sr_x sr_tot start rows.
Proof.
  intros U. induction l as [|[s0 surf] l IH]; cbn [scanLoop]; intros start rows H.
  - injection H as <-. split; [constructor|]. intros before row after Q. destruct before; discriminate.
  - dres H. destruct a as [b [s xx|]]; cbn [snd] in H; [|discriminate]. cbv zeta in H. dres H. injection H as <-.
    destruct (IH _ _ B0) as [I1 I2]. split.
    + constructor; auto. cbn [sr_s sr_xx sr_x fst snd]. split; auto. split; [eauto|].
      destruct (xOverX0_spec surf u xx U) as [[M ->]|[M ->]].
      * split; [|eauto]. intros x. split; [intros E; injection E as <-; auto|]. intros [_ ->]. auto.
      * split; [|auto]. intros x. split; [discriminate|]. tauto.
    + apply runs_cons; auto.
Qed.

(** if the searches find something, the loop gets through *)
Lemma scanLoop_ok tP u : forall l start,
  (forall ent, In ent l -> exists b s xx,
     intersectWithSurface (snd ent) (tp_par tP) (tp_ref tP) (OVal 0 v3zero) 0 true = Ok (b, OVal s xx)) ->
  exists rows, scanLoop tP u start l = Ok rows.
Proof.
  induction l as [|[s0 surf] l IH]; intros start H; cbn [scanLoop]; [eauto|].
  destruct (H (s0, surf) (or_introl eq_refl)) as (b & s & xx & Q). cbn [snd] in Q. rewrite Q. cbn [bind snd]. cbv zeta.
  destruct (IH (accumulate start (xOverX0 surf u xx))) as [rows R]; [intros; apply H; right; auto|].
  rewrite R. cbn [bind]. eauto.
Qed.

(** ** mode 0 and mode 1 *)
Lemma select_modes tol s0 x0 s1 x1 s x : 0 < tol -> select tol 1 s0 x0 s1 x1 = Some (s, x) ->
  (forall s' x', select tol (-1) s0 x0 s1 x1 = Some (s', x') -> s < Rabs s' + tol) ->
  select tol 0 s0 x0 s1 x1 = Some (s, x).
Proof.
  intros T. unfold select.
  change (Z.ltb 1 1) with false. change (Z.ltb 1 0) with false. change (Z.ltb 0 1) with true.
  change (Z.ltb (-1) 0) with true. change (Z.ltb (-1) 1) with true. change (Z.ltb 0 0) with false.
  change (Z.ltb 0 (-1)) with false. change (Z.ltb (-1) (-1)) with false.
  destruct (Rlt_dec s0 0) as [L0|L0]; destruct (Rlt_dec s1 0) as [L1|L1]; intros E H; try discriminate.
  - injection E as <- <-. specialize (H _ _ eq_refl). rewrite (Rabs_pos_eq s1) by lra.
    destruct (Rlt_dec (Rabs s0 + tol) s1); [lra|auto].
  - injection E as <- <-. specialize (H _ _ eq_refl). rewrite (Rabs_pos_eq s0) by lra.
    destruct (Rlt_dec s0 (Rabs s1 + tol)); [auto|lra].
  - exact E.
Qed.

(** a cylinder: the nearest crossing is the forward one unless a backward one
    is nearer by the tolerance *)
Lemma zcyl_forward surf hp rp rho c o o' f s x : hp OMEGA <> 0 -> Rabs (hp PHI0) <= 2 * PI -> is_helix hp rp f ->
  0 < rho -> st_parallelToZ (sf_type surf) = true -> sf_cyl surf = Some (rho, c) ->
  intersectWithZCylinder surf hp rp o 1 true = Ok (true, OVal s x) ->
  (forall s', s' < 0 -> Rabs (hp OMEGA * s') < PI -> on_cylinder rho c (f s') -> s < Rabs s' + tol4) ->
  intersectWithZCylinder surf hp rp o' 0 true = Ok (true, OVal s x).
Proof.
  intros Ho Hp Hf Hr Hpar Hcyl E H.
  assert (Neg : forall s' x', intersectWithZCylinder surf hp rp (OVal 0 v3zero) (-1) false = Ok (true, OVal s' x') ->
            s < Rabs s' + eps4).
  { intros s' x' E'. destruct (zcyl_sound _ _ _ _ _ _ _ _ _ _ _ Ho Hp Hf Hr Hcyl E') as (X & _ & On & L & _ & Ng & _).
    subst x'. apply H; auto. apply Ng. lia. }
  revert E Neg. unfold intersectWithZCylinder. rewrite Hpar, Hcyl. cbv zeta.
  match goal with |- context [match ?d with XFin _ => _ | XInf => _ | XNaN => _ end] => destruct d end; try discriminate.
  match goal with |- context [if Rlt_dec 1 ?g then _ else _] => destruct (Rlt_dec 1 g) end; try discriminate.
  match goal with |- context [bind ?a _] => destruct a as [s0| | | |] end; cbn [bind]; try discriminate.
  match goal with |- context [bind ?a _] => destruct a as [s1| | | |] end; cbn [bind]; try discriminate.
  match goal with |- context [select eps4 1 s0 ?a s1 ?b] => set (x0 := a); set (x1 := b) end.
  destruct (select eps4 1 s0 x0 s1 x1) as [[s' x']|] eqn:Se; [|discriminate].
  intros E Neg. injection E as Eb -> ->.
  rewrite (select_modes eps4 s0 x0 s1 x1 s x).
  - unfold bounds. rewrite Eb. reflexivity.
  - unfold eps4. lra.
  - exact Se.
  - intros s' x' S'. apply (Neg s' x'). rewrite S'. reflexivity.
Qed.

(** ** the track of the programs *)
Lemma scanTrack_spec omega theta phi tP : scanTrack omega theta phi = Ok tP ->
  sin theta <> 0 /\ tP = TP m5zero (mk5 omega (cos theta / sin theta) phi 0 0) v3zero.
Proof.
  unfold scanTrack. replace (1 / 2 * PI - theta) with (PI / 2 - theta) by lra. rewrite sin_shift, cos_shift.
  destruct (rdiv_cases (cos theta) (sin theta)) as [[A ->]|[A ->]]; cbn [bind]; [discriminate|].
  intros E. injection E as <-. auto.
Qed.

(** the track from the origin meets a cylinder about the z axis at opposite
    path lengths *)
Lemma concentric hp rho c s : hp OMEGA <> 0 -> hp D0 = 0 -> vx c = 0 -> vy c = 0 ->
  on_cylinder rho c (hcurve hp v3zero s) -> on_cylinder rho c (hcurve hp v3zero (- s)).
Proof.
  intros Ho D A B. unfold on_cylinder. rewrite A, B.
  assert (Q : forall u, (vx (hcurve hp v3zero u) - 0) * (vx (hcurve hp v3zero u) - 0)
     + (vy (hcurve hp v3zero u) - 0) * (vy (hcurve hp v3zero u) - 0)
     = (1 / hp OMEGA) * (1 / hp OMEGA) * (2 - 2 * cos (u * hp OMEGA))).
  { intros u. unfold hcurve. cbn [vx vy v3zero]. rewrite D.
    assert (S1 := sin2_cos2 (hp PHI0)). assert (S2 := sin2_cos2 (u * hp OMEGA)). unfold Rsqr in *.
    rewrite sin_minus, cos_minus.
    set (sp := sin (hp PHI0)) in *. set (cp := cos (hp PHI0)) in *.
    set (su := sin (u * hp OMEGA)) in *. set (cu := cos (u * hp OMEGA)) in *.
    set (r := 1 / hp OMEGA) in *.
    transitivity (r * r * ((sp * sp + cp * cp) * (1 + (su * su + cu * cu) - 2 * cu))); [unfold r; ring|].
    rewrite S1, S2. ring. }
  rewrite !Q. replace (- s * hp OMEGA) with (- (s * hp OMEGA)) by ring. rewrite cos_neg. auto.
Qed.

Lemma one_minus_cos x : 2 - 2 * cos x <= x * x.
Proof.
  assert (E : 2 - 2 * cos x = 4 * (sin (x / 2) * sin (x / 2))).
  { replace (cos x) with (cos (2 * (x / 2))) by (f_equal; field). rewrite cos_2a_sin. ring. }
  assert (L : Rabs (sin (x / 2)) <= Rabs (x / 2)).
  { assert (Q := sin_lip (x / 2) 0). rewrite sin_0, !Rminus_0_r in Q. exact Q. }
  rewrite E, <- Rabs_sq. assert (A := Rabs_pos (sin (x / 2))). assert (B := Rabs_sq (x / 2)).
  assert (Rabs (sin (x / 2)) * Rabs (sin (x / 2)) <= Rabs (x / 2) * Rabs (x / 2)) by (apply Rmult_le_compat; auto).
  nra.
Qed.

Lemma tangent_straight hp s n : vdot n n = 1 ->
  Rabs (vdot (calculateTangent s hp) n - vdot (calculateTangent 0 hp) n) <= Rabs (hp OMEGA * s).
Proof.
  intros N. apply Rsqr_le_abs_0. unfold Rsqr.
  unfold calculateTangent, calculateCurvature, calculatePhi0. cbv zeta.
  set (w := hp OMEGA * s). replace (hp OMEGA * 0) with 0 by ring. rewrite Rminus_0_r.
  set (lam := calculateLambda hp). unfold vdot in *. cbn [vx vy vz].
  set (c := cos (hp PHI0 - w) - cos (hp PHI0)). set (d := sin (hp PHI0 - w) - sin (hp PHI0)).
  assert (Q : c * c + d * d = 2 - 2 * cos w).
  { unfold c, d. rewrite cos_minus, sin_minus.
    assert (S1 := sin2_cos2 (hp PHI0)). assert (S2 := sin2_cos2 w). unfold Rsqr in *.
    set (sp := sin (hp PHI0)) in *. set (cp := cos (hp PHI0)) in *. set (su := sin w) in *. set (cu := cos w) in *.
    transitivity ((sp * sp + cp * cp) * (1 + (su * su + cu * cu) - 2 * cu)); [ring|]. rewrite S1, S2. ring. }
  assert (L := one_minus_cos w). rewrite <- Q in L.
  assert (C : cos lam * cos lam <= 1).
  { assert (S := sin2_cos2 lam). unfold Rsqr in S. assert (0 <= sin lam * sin lam) by nra. lra. }
  match goal with |- ?a * ?a <= _ => replace a with (cos lam * (c * vx n + d * vy n)) by (unfold c, d; ring) end.
  clearbody c d w lam. destruct n as [n1 n2 n3]. cbn [vx vy vz] in *.
  assert (P : (c * n1 + d * n2) * (c * n1 + d * n2) <= (c * c + d * d) * (n1 * n1 + n2 * n2)).
  { assert (0 <= (c * n2 - d * n1) * (c * n2 - d * n1)) by (apply Rle_0_sqr). nra. }
  assert (P2 : (c * c + d * d) * (n1 * n1 + n2 * n2) <= w * w).
  { assert (0 <= c * c + d * d) by nra. assert (0 <= n3 * n3) by nra.
    assert ((c * c + d * d) * (n1 * n1 + n2 * n2) <= (c * c + d * d) * 1) by (apply Rmult_le_compat_l; lra). lra. }
  assert (0 <= (c * n1 + d * n2) * (c * n1 + d * n2)) by (apply Rle_0_sqr).
  replace (cos lam * (c * n1 + d * n2) * (cos lam * (c * n1 + d * n2)))
    with (cos lam * cos lam * ((c * n1 + d * n2) * (c * n1 + d * n2))) by ring.
  assert (0 <= cos lam * cos lam) by (apply Rle_0_sqr).
  apply Rle_trans with (1 * ((c * n1 + d * n2) * (c * n1 + d * n2))); [apply Rmult_le_compat_r; auto|lra].
Qed.

Lemma direction_tangent omega theta phi d0 z0 : 0 < sin theta ->
  calculateTangent 0 (mk5 omega (cos theta / sin theta) phi d0 z0) = direction_of theta phi.
Proof.
  intros S. unfold calculateTangent, calculateCurvature, calculatePhi0, calculateLambda, calculateTanLambda. cbv zeta.
  change (mk5 omega (cos theta / sin theta) phi d0 z0 TANL) with (cos theta / sin theta).
  change (mk5 omega (cos theta / sin theta) phi d0 z0 PHI0) with phi.
  change (mk5 omega (cos theta / sin theta) phi d0 z0 OMEGA) with omega.
  rewrite Rmult_0_r, Rminus_0_r.
  destruct (sec_atan (cos theta / sin theta)) as [A B].
  assert (R1 : sqrt (1 + cos theta / sin theta * (cos theta / sin theta)) = / sin theta).
  { replace (1 + cos theta / sin theta * (cos theta / sin theta)) with (/ sin theta * / sin theta).
    - apply sqrt_square. left. apply Rinv_0_lt_compat; auto.
    - assert (Q := sin2_cos2 theta). unfold Rsqr in Q. field_simplify; try lra.
      replace (sin theta ^ 2 + cos theta ^ 2) with 1 by (rewrite <- Q; ring). reflexivity. }
  rewrite R1 in A, B.
  assert (C : cos (atan (cos theta / sin theta)) = sin theta).
  { apply Rmult_eq_reg_l with (/ sin theta); [rewrite A; field; lra|apply Rinv_neq_0_compat; lra]. }
  assert (D : sin (atan (cos theta / sin theta)) = cos theta).
  { apply Rmult_eq_reg_l with (/ sin theta); [rewrite B; field; lra|apply Rinv_neq_0_compat; lra]. }
  rewrite C, D. unfold direction_of. f_equal; ring.
Qed.

(** ** the second table *)
Lemma matLoop_spec dir : forall l sx sl p,
  let rows := matLoop dir sx sl p l in
  length rows = length l
  /\ runs (fun r => rdiv (fst (fst (snd r))) (snd (fst (snd r)))) (fun r => mr_x0 (fst r)) sx (combine rows l)
  /\ runs (fun r => rdiv (fst (fst (snd r))) (snd (snd r))) (fun r => mr_lambda (fst r)) sl (combine rows l)
  /\ (forall before row after, combine rows l = before ++ row :: after ->
        mr_end (fst row) = (d <- dir ;; Ok (vscale (p + covered (map snd before ++ [snd row])) d))).
Proof.
  induction l as [|[[len rad] int] l IH]; intros sx sl p rows; cbn [matLoop] in rows; cbv zeta in rows.
  - split; auto. split; [|split]; intros before row after Q; destruct before; discriminate.
  - destruct (IH (accumulate sx (rdiv len rad)) (accumulate sl (rdiv len int)) (p + len)) as (A & B & C & D).
    subst rows. cbn [length combine]. split; [f_equal; exact A|].
    split; [|split].
    + apply runs_cons; auto.
    + apply runs_cons; auto.
    + intros before row after Q. destruct before as [|b before]; cbn [app] in Q.
      * injection Q as <- _. cbn [fst snd mr_end map app]. unfold covered. cbn [map sum fst]. rewrite Rplus_0_r. reflexivity.
      * injection Q as <- Q. rewrite (D _ _ _ Q). cbn [map app snd]. unfold covered. cbn [map sum fst].
        destruct dir; cbn [bind]; auto. do 2 f_equal. ring.
Qed.
