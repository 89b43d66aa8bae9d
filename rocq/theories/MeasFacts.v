(** Measurements of a displaced track. *)
From Coq Require Import Reals List Bool ZArith Lra Psatz.
From Verif Require Import Num Vec Helix Isect Trans Material Traj.
From Verif Require Import NumFacts SpecTrans TransFacts SpecTraj TrajFacts TrajFacts5 SpecFit FitFacts2 SpecMeas.
Import ListNotations.
Open Scope R_scope.

Lemma vecs_eq a b : vx a = vx b -> vy a = vy b -> vz a = vz b -> a = b.
Proof. destruct a, b. cbn. intros -> -> ->. auto. Qed.

(** the scalar products with a frame determine a vector *)
Lemma frame_ext u v t a b : is_frame u v t ->
  vdot a u = vdot b u -> vdot a v = vdot b v -> vdot a t = vdot b t -> a = b.
Proof.
  intros (Uu & Vv & Tt & Uv & Ut & Vt & Cr) A B C.
  assert (Z : forall d, vdot d u = 0 -> vdot d v = 0 -> vdot d t = 0 -> vx d = 0 /\ vy d = 0 /\ vz d = 0).
  { intros d D1 D2 D3.
    assert (K : vcross d t = v3zero).
    { rewrite <- Cr. transitivity (vadd (vscale (vdot d v) u) (vscale (- vdot d u) v)).
      - unfold vcross, vadd, vscale, vdot. cbn [vx vy vz]. apply vecs_eq; cbn [vx vy vz]; ring.
      - rewrite D1, D2. unfold v3zero, vadd, vscale. cbn [vx vy vz]. f_equal; ring. }
    assert (Kx := f_equal vx K). assert (Ky := f_equal vy K). assert (Kz := f_equal vz K).
    unfold vcross, v3zero in Kx, Ky, Kz. cbn [vx vy vz] in Kx, Ky, Kz. unfold vdot in D3, Tt.
    destruct d as [dx dy dz], t as [tx ty tz]. cbn [vx vy vz] in *.
    split; [|split].
    - transitivity (dx * (tx * tx + ty * ty + tz * tz)); [rewrite Tt; ring|].
      transitivity (tx * (dx * tx + dy * ty + dz * tz) + ty * (dx * ty - dy * tx) - tz * (dz * tx - dx * tz)); [ring|].
      rewrite D3, Ky, Kz. ring.
    - transitivity (dy * (tx * tx + ty * ty + tz * tz)); [rewrite Tt; ring|].
      transitivity (ty * (dx * tx + dy * ty + dz * tz) + tz * (dy * tz - dz * ty) - tx * (dx * ty - dy * tx)); [ring|].
      rewrite D3, Kx, Kz. ring.
    - transitivity (dz * (tx * tx + ty * ty + tz * tz)); [rewrite Tt; ring|].
      transitivity (tz * (dx * tx + dy * ty + dz * tz) + tx * (dz * tx - dx * tz) - ty * (dy * tz - dz * ty)); [ring|].
      rewrite D3, Kx, Ky. ring. }
  assert (L : forall w, vdot (vsub a b) w = vdot a w - vdot b w) by (intros w; unfold vdot, vsub; cbn [vx vy vz]; ring).
  destruct (Z (vsub a b)) as (Z1 & Z2 & Z3); try (rewrite L; lra).
  unfold vsub in *. cbn [vx vy vz] in *. apply vecs_eq; lra.
Qed.

Lemma dot_lin2 x y a b c : vdot (vadd (vscale x a) (vscale y b)) c = x * vdot a c + y * vdot b c.
Proof. unfold vdot, vadd, vscale. cbn [vx vy vz]. ring. Qed.
Lemma dot_lin3 x y s a b t c : vdot (vadd (vadd (vscale x a) (vscale y b)) (vscale s t)) c = x * vdot a c + y * vdot b c + s * vdot t c.
Proof. unfold vdot, vadd, vscale. cbn [vx vy vz]. ring. Qed.
Lemma dot_sym a b : vdot a b = vdot b a.
Proof. unfold vdot. ring. Qed.

Lemma meets_iff u v t m n x y a b : is_frame u v t ->
  (meets u v t m n x y a b <-> x = a * vdot m u + b * vdot n u /\ y = a * vdot m v + b * vdot n v).
Proof.
  intros F. assert (F' := F). destruct F' as (Uu & Vv & Tt & Uv & Ut & Vt & _).
  assert (Vu := Uv). rewrite dot_sym in Vu. assert (Tu := Ut). rewrite dot_sym in Tu. assert (Tv := Vt). rewrite dot_sym in Tv.
  split.
  - intros [s Q]. split.
    + apply (f_equal (fun w => vdot w u)) in Q. rewrite dot_lin2, dot_lin3, Uu, Vu, Tu in Q. lra.
    + apply (f_equal (fun w => vdot w v)) in Q. rewrite dot_lin2, dot_lin3, Vv, Uv, Tv in Q. lra.
  - intros [X Y]. exists (a * vdot m t + b * vdot n t). apply (frame_ext u v t); auto.
    + rewrite dot_lin2, dot_lin3, Uu, Vu, Tu. lra.
    + rewrite dot_lin2, dot_lin3, Vv, Uv, Tv. lra.
    + rewrite dot_lin2, dot_lin3, Ut, Vt, Tt. lra.
Qed.

Lemma projection_meets u v t m n : is_frame u v t -> vdot (vcross m n) t <> 0 ->
  exists p11 p12 p21 p22,
    calculateLocalToMeasurementProjectionMatrix u v [m; n] = Ok (p11, p12, p21, p22)
    /\ (forall x y a b, meets u v t m n x y a b <-> a = p11 * x + p21 * y /\ b = p12 * x + p22 * y)
    /\ ((forall x y, meets u v t m n x y (p11 * x + p12 * y) (p21 * x + p22 * y)) <-> vdot m v = vdot n u).
Proof.
  intros F. rewrite <- (frame_det u v t m n F). unfold calculateLocalToMeasurementProjectionMatrix. cbn [bind].
  set (det := vdot m u * vdot n v - vdot m v * vdot n u). intros D.
  destruct Req_EM_T as [|_]; [contradiction|].
  do 4 eexists. split; [reflexivity|].
  assert (S : forall x y a b, meets u v t m n x y a b <->
     a = vdot n v / det * x + - vdot n u / det * y /\ b = - vdot m v / det * x + vdot m u / det * y).
  { intros x y a b. rewrite (meets_iff u v t m n x y a b F). revert D. unfold det.
    generalize (vdot m u) (vdot n v) (vdot m v) (vdot n u). intros mu nv mv nu D. split; intros [-> ->]; split; field; auto. }
  split; [exact S|]. split.
  - intros H. destruct (proj1 (S _ _ _ _) (H 1 0)) as [_ B]. destruct (proj1 (S _ _ _ _) (H 0 1)) as [A _].
    assert (Q : - vdot m v / det = - vdot n u / det) by lra.
    apply (f_equal (fun z => - (z * det))) in Q. field_simplify in Q; auto.
  - intros H x y. apply S. rewrite H. split; reflexivity.
Qed.

(** ** a measurement on a flat surface *)
Lemma applyLoss_ref tp el tp' : applyLoss tp el = Ok tp' -> tp_ref tp' = tp_ref tp.
Proof. unfold applyLoss. intros H. dres H. dres H. injection H as <-. reflexivity. Qed.

Lemma flat_local o m n p q a b : vdot m m = 1 -> vdot n n = 1 -> vdot m n = 0 ->
  vsub q p = vadd (vscale a m) (vscale b n) ->
  vdot (vsub q o) m = vdot (vsub p o) m + a /\ vdot (vsub q o) n = vdot (vsub p o) n + b.
Proof.
  intros M N O Q.
  assert (L : forall w, vdot (vsub q o) w = vdot (vsub p o) w + vdot (vsub q p) w) by (intros w; unfold vdot, vsub; cbn [vx vy vz]; ring).
  rewrite !L, Q, !dot_lin2, (dot_sym n m), M, N, O. split; ring.
Qed.

Lemma measurement_model E t position precision surf id sc t' o m n :
  addMeasurement E t position precision surf id sc = (t', Ok true) -> flat surf o m n ->
  exists t1 e u v p11 p12 p21 p22 r0 r1,
    extended t1 t' e /\ te_cls e = Some (u, v) /\ te_proj e = Some (p11, p12, p21, p22) /\ te_res e = [r0; r1]
    /\ is_frame u v (calculateTangent 0 (tp_par (te_tp e)))
    /\ vdot (vcross m n) (calculateTangent 0 (tp_par (te_tp e))) <> 0
    /\ (forall x y a b, meets u v (calculateTangent 0 (tp_par (te_tp e))) m n x y a b ->
          let q := vadd (tp_ref (te_tp e)) (vadd (vscale a m) (vscale b n)) in
          fst (sf_globalToLocal surf position) - fst (sf_globalToLocal surf q) = r0 - (p11 * x + p21 * y)
          /\ snd (sf_globalToLocal surf position) - snd (sf_globalToLocal surf q) = r1 - (p12 * x + p22 * y)).
Proof.
  intros A Fl. destruct (push_ok _ _ _ _ A) as (t1 & las & _ & _ & _ & [(Q & _)|(_ & e & Xt & N)]); [discriminate|].
  destruct (newMeasurement_spec _ _ _ _ _ _ _ _ _ N) as (s0 & xx & mv & fid & mom & el & B & D & Rs & _).
  destruct (bu_proj _ _ _ _ _ _ _ _ _ _ _ _ _ _ _ B) as (p & dirs & P1 & P2 & P3).
  rewrite D in P2. injection P2 as <-. destruct Fl as (M & Nn & O & Fl).
  destruct (Fl position) as (Su & Sv & _). rewrite Su, Sv in P3.
  assert (C := bu_cls _ _ _ _ _ _ _ _ _ _ _ _ _ _ _ B).
  assert (Fr := local_frame 0 (tp_par (te_tp e))).
  destruct (calculateLocalCurvilinearSystem 0 (tp_par (te_tp e))) as [u v] eqn:Ec. destruct Fr as [Fr _]. cbn [fst snd] in P3.
  set (tg := calculateTangent 0 (tp_par (te_tp e))) in *.
  assert (Nd : vdot (vcross m n) tg <> 0).
  { intros Z. destruct (projection_two u v tg m n Fr) as [Th _]. rewrite (Th Z) in P3. discriminate. }
  destruct (projection_meets u v tg m n Fr Nd) as (p11 & p12 & p21 & p22 & E1 & S & _).
  rewrite E1 in P3. injection P3 as <-.
  assert (Rf : tp_ref (te_tp e) = xx).
  { rewrite (applyLoss_ref _ _ _ (bu_tp _ _ _ _ _ _ _ _ _ _ _ _ _ _ _ B)). apply (move_ref _ _ _ _ (bu_move _ _ _ _ _ _ _ _ _ _ _ _ _ _ _ B)). }
  do 10 eexists. split; [exact Xt|]. split; [exact C|]. split; [exact P1|]. split; [exact Rs|]. split; auto. split; auto.
  intros x y a b H. apply S in H. destruct H as [-> ->]. cbv zeta. rewrite Rf.
  destruct (Fl xx) as (_ & _ & ->). destruct (Fl (vadd xx (vadd (vscale (p11 * x + p21 * y) m) (vscale (p12 * x + p22 * y) n)))) as (_ & _ & ->).
  cbn [fst snd].
  destruct (flat_local o m n xx (vadd xx (vadd (vscale (p11 * x + p21 * y) m) (vscale (p12 * x + p22 * y) n))) (p11 * x + p21 * y) (p12 * x + p22 * y) M Nn O) as [L1 L2].
  - unfold vsub, vadd, vscale. cbn [vx vy vz]. f_equal; ring.
  - rewrite L1, L2. split; ring.
Qed.
