(** Properties C28, C29, C53: propagation Jacobian. *)
From Coq Require Import Reals Lra List Psatz.
From Coquelicot Require Import Coquelicot.
From Verif Require Import SpecConst Num NumFacts Vec Helix Trans Propag SpecHelix SpecMat SpecTrans SpecPropag
  HelixFacts TransFacts JacFacts PropagFacts PropagFacts2 FamilyFacts LineFacts NeutralFacts.
Import ListNotations.
Open Scope R_scope.

(** C28: a step of length zero without energy loss is the identity. *)
Theorem C28_identity : forall b qop t,
  b <> v3zero -> qop <> 0 -> vdot t t = 1 -> 0 < vtrans t ->
  exists J, analyticalJacobian m5zero 0 qop t t b 0 = Ok J /\ m5eq J mident.
Proof. exact jac_identity. Qed.
Print Assumptions C28_identity.

(** C28: the energy loss enters the first entry only; the rest of the first row
    is what the caller passed in (zero for a fresh matrix). *)
Theorem C28_energy_loss : forall jac dw qop ts te b e,
  - vr b * field_unit * qop <> 0 -> forall J0, analyticalJacobian jac dw qop ts te b 0 = Ok J0 ->
  exists J, analyticalJacobian jac dw qop ts te b e = Ok J
  /\ J I0 I0 = 1 + e
  /\ (forall j, j <> I0 -> J I0 j = jac I0 j)
  /\ (forall i j, ~ (i = I0 /\ j = I0) -> J i j = J0 i j).
Proof. exact jac_energy. Qed.
Print Assumptions C28_energy_loss.

(** C28: two steps along one motion compose, for any direction of the field. *)
Theorem C28_composition : forall b qop x0 t0 X T d1 d2, b <> v3zero -> qop <> 0 ->
  motion b qop x0 t0 X T -> vdot t0 t0 = 1 ->
  0 < vtrans t0 -> 0 < vtrans (T d1) -> 0 < vtrans (T (d1 + d2)) ->
  exists J1 J2 J,
    analyticalJacobian m5zero d1 qop t0 (T d1) b 0 = Ok J1
    /\ analyticalJacobian m5zero d2 qop (T d1) (T (d1 + d2)) b 0 = Ok J2
    /\ analyticalJacobian m5zero (d1 + d2) qop t0 (T (d1 + d2)) b 0 = Ok J
    /\ m5eq J (m5mul J2 J1).
Proof. exact jac_composition. Qed.
Print Assumptions C28_composition.

(** a motion for which the hypotheses hold for all pairs of steps *)
Example C28_composition_case : exists X T,
  motion (V3 0 0 2) (1 / 3) v3zero (V3 (3 / 5) 0 (4 / 5)) X T
  /\ forall d, 0 < vtrans (T d).
Proof.
  assert (Hb : V3 0 0 2 <> v3zero) by (unfold v3zero; intros X; injection X; lra).
  destruct (unit_field (V3 0 0 2) Hb) as (h & Eu & Hh & Pb & Eb).
  assert (NQ := Q_nz (V3 0 0 2) (1 / 3) Pb ltac:(lra)). cbv zeta in NQ.
  assert (M := motion_exists (V3 0 0 2) (1 / 3) v3zero (V3 (3 / 5) 0 (4 / 5)) h Eb Hh NQ). cbv zeta in M.
  eexists. eexists. split; [exact M|]. intros d. cbv beta.
  assert (Hq : 1 / 3 <> 0) by lra.
  assert (U1 : vdot (V3 (3 / 5) 0 (4 / 5)) (V3 (3 / 5) 0 (4 / 5)) = 1) by (unfold vdot; cbn [vx vy vz]; lra).
  assert (U := motion_unit _ _ _ _ _ _ Hb Hq M U1 d). cbv beta in U.
  set (t := rot _ _ _) in *.
  assert (Z : vdot h t = vdot h (V3 (3 / 5) 0 (4 / 5))) by (apply rot_dot_h; auto).
  clearbody t.
  assert (V2 : vr (V3 0 0 2) = 2).
  { unfold vr. cbn [vx vy vz]. replace (0 * 0 + 0 * 0 + 2 * 2) with (2 * 2) by ring. apply sqrt_square. lra. }
  rewrite V2 in Eb. assert (H1 := f_equal vx Eb). assert (H2 := f_equal vy Eb). assert (H3 := f_equal vz Eb).
  cbn [vx vy vz vscale] in H1, H2, H3.
  unfold vdot in Z, U. cbn [vx vy vz] in Z.
  assert (vx h = 0) by lra. assert (vy h = 0) by lra. assert (vz h = 1) by lra.
  rewrite H, H0, H4 in Z. unfold vtrans. apply sqrt_lt_R0. nra.
Qed.

(** C28: without a field, or without charge, the matrix computed from a fresh one
    is singular, and it is zero (not the identity) for a step of length zero. *)
Theorem C28_straight_line_singular : forall dw qop ts te b e, vr b * qop = 0 ->
  exists J, analyticalJacobian m5zero dw qop ts te b e = Ok J /\ singular J
   /\ (dw = 0 -> m5eq J m5zero).
Proof. exact jac_line. Qed.
Print Assumptions C28_straight_line_singular.

Theorem C28_straight_line_identity_refuted : exists qop t b J,
  vdot t t = 1 /\ 0 < vtrans t /\ analyticalJacobian m5zero 0 qop t t b 0 = Ok J /\ ~ m5eq J mident.
Proof.
  exists 0, (V3 1 0 0), (V3 0 0 1).
  destruct (C28_straight_line_singular 0 0 (V3 1 0 0) (V3 1 0 0) (V3 0 0 1) 0) as (J & E & _ & Z); [ring|].
  exists J. split; [unfold vdot; cbn [vx vy vz]; lra|]. split.
  - unfold vtrans. cbn [vx vy]. apply sqrt_lt_R0. lra.
  - split; auto. intros I. assert (A := I I0 I0). rewrite (Z eq_refl) in A. unfold mident, m5zero in A. cbn in A. lra.
Qed.
Print Assumptions C28_straight_line_identity_refuted.

Theorem C28_simplified_singular : forall dw ts te b, singular (simplifiedJacobian m5zero dw ts te b).
Proof. exact jac_simplified. Qed.
Print Assumptions C28_simplified_singular.

(** C28: filled into a unit matrix the straight-line branch is the derivative of
    the transport without field. *)
Theorem C28_straight_line_derivative : forall qop dw x0 l f w, 0 < cos l ->
  (exists X T sg la ph, transport_family v3zero qop dw x0 l f w X T sg la ph)
  /\ forall X T sg la ph nrj, transport_family v3zero qop dw x0 l f w X T sg la ph ->
     exists J, analyticalJacobian mident dw qop (dirvec l f) (T 0 dw) v3zero nrj = Ok J
       /\ forall i, is_derive (fun e => end_coords qop dw w X sg la ph e i) 0 (m5mulv J w i).
Proof.
  intros qop dw x0 l f w C. split.
  - exact (line_family qop dw x0 l f w C).
  - intros X T sg la ph nrj F. exact (line_derivative qop dw x0 l f w C X T sg la ph nrj F).
Qed.
Print Assumptions C28_straight_line_derivative.

(** "In a field too, the straight-line branch filled into a unit matrix is the
    derivative of the motion" is false: at q/p = 0 the end direction turns with q/p
    at the rate - field_unit * |b| * dw, and the matrix has no such entry. *)
Theorem C28_uncharged_in_field_refuted : exists b X T sg la ph J,
  let w := mk5 1 0 0 0 0 in
  b <> v3zero
  /\ transport_family b 0 1 v3zero 0 0 w X T sg la ph
  /\ analyticalJacobian mident 1 0 (dirvec 0 0) (T 0 1) b 0 = Ok J
  /\ is_derive ph 0 (- field_unit)
  /\ m5mulv J w I2 = 0
  /\ ~ is_derive ph 0 (m5mulv J w I2).
Proof.
  exists (V3 0 0 1), (nb_X field_unit), (nb_T field_unit), (nb_sg field_unit), (fun _ => 0),
    (fun e => - asin (field_unit * e)), (lineJacobian mident 1 (dirvec 0 0)). intros w.
  assert (Z : m5mulv (lineJacobian mident 1 (dirvec 0 0)) w I2 = 0)
    by (unfold m5mulv, sum5, lineJacobian, w, mident, mk5, m5set; cbn; ring).
  split; [intros E; injection E; lra|]. split; [apply nb_family|]. split; [apply nb_jacobian|].
  split; [apply asin_k_derive|]. split; [exact Z|]. rewrite Z. intros D.
  assert (U := is_derive_unique _ _ _ D). assert (V := is_derive_unique _ _ _ (asin_k_derive field_unit)).
  assert (W : - field_unit = 0) by (rewrite <- V; exact U). clear U V. rename W into U.
  unfold field_unit in U. lra.
Qed.
Print Assumptions C28_uncharged_in_field_refuted.

(** C28: what the simplified propagation writes, and what it leaves alone. *)
Theorem C28_simplified_entries : forall jac dw ts te b,
  let J := simplifiedJacobian jac dw ts te b in
  J I4 I1 = dw /\ J I2 I0 = - (vz b * dw) /\ 2 * J I3 I0 = J I2 I0 * J I3 I2
  /\ J I3 I2 * J I3 I2 * (1 + (vz ts - vz te) * (vz ts - vz te)) = dw * dw /\ 0 <= dw * J I3 I2
  /\ forall i j, (i, j) <> (I3, I2) -> (i, j) <> (I4, I1) -> (i, j) <> (I2, I0) -> (i, j) <> (I3, I0) -> J i j = jac i j.
Proof. exact simplified_entries. Qed.
Print Assumptions C28_simplified_entries.

(** C28: even in a unit matrix and without field it is the derivative of the
    transport for steps of length zero and for horizontal tracks only. *)
Theorem C28_simplified_without_field : forall qop dw x0 l f, 0 < cos l ->
  (forall w X T sg la ph, transport_family v3zero qop dw x0 l f w X T sg la ph ->
     forall i, is_derive (fun e => end_coords qop dw w X sg la ph e i) 0
       (m5mulv (simplifiedJacobian mident dw (dirvec l f) (T 0 dw) v3zero) w i))
  <-> dw = 0 \/ cos l = 1.
Proof. exact simplified_line_derivative. Qed.
Print Assumptions C28_simplified_without_field.

(** C29: for every direction of the field the matrix is the derivative of the
    transport of curvilinear coordinates. *)
Theorem C29_jacobian_is_the_derivative : forall b qop dw x0 l f w X T sg la ph,
  b <> v3zero -> qop <> 0 -> 0 < cos l ->
  transport_family b qop dw x0 l f w X T sg la ph ->
  exists J, analyticalJacobian m5zero dw qop (dirvec l f) (T 0 dw) b 0 = Ok J
    /\ forall i, is_derive (fun e => end_coords qop dw w X sg la ph e i) 0 (m5mulv J w i).
Proof. exact jacobian_is_derivative. Qed.
Print Assumptions C29_jacobian_is_the_derivative.

(** C29: the neighbouring motions exist, for every correction [w] and every motion
    that does not end along z; so the derivative exists and is the matrix. *)
Theorem C29_transport_is_differentiable : forall b qop dw x0 l f w X0 T0,
  b <> v3zero -> qop <> 0 -> 0 < cos l ->
  motion b qop x0 (dirvec l f) X0 T0 -> 0 < vtrans (T0 dw) ->
  exists J X T sg la ph,
    analyticalJacobian m5zero dw qop (dirvec l f) (T0 dw) b 0 = Ok J
    /\ transport_family b qop dw x0 l f w X T sg la ph
    /\ (forall s, X 0 s = X0 s) /\ (forall s, T 0 s = T0 s)
    /\ forall i, is_derive (fun e => end_coords qop dw w X sg la ph e i) 0 (m5mulv J w i).
Proof.
  intros b qop dw x0 l f w X0 T0 Hb Hq Cl M P.
  destruct (family_exists b qop dw x0 l f w X0 T0 Hb Hq M P) as (X & T & sg & la & ph & F & EX & ET).
  destruct (jacobian_is_derivative _ _ _ _ _ _ _ _ _ _ _ _ Hb Hq Cl F) as (J & EJ & D).
  rewrite ET in EJ. exists J, X, T, sg, la, ph. auto.
Qed.
Print Assumptions C29_transport_is_differentiable.

(** In a field along z every start direction and every length will do; with
    another field the direction may pass through the z axis. *)
Example C29_case : forall l f dw, 0 < cos l ->
  exists X0 T0, motion (V3 0 0 2) (1 / 3) v3zero (dirvec l f) X0 T0 /\ 0 < vtrans (T0 dw).
Proof.
  intros l f dw C.
  assert (Hb : V3 0 0 2 <> v3zero) by (unfold v3zero; intros X; injection X; lra).
  destruct (unit_field (V3 0 0 2) Hb) as (h & Eu & Hh & Pb & Eb).
  assert (NQ := Q_nz (V3 0 0 2) (1 / 3) Pb ltac:(lra)). cbv zeta in NQ.
  assert (M := motion_exists (V3 0 0 2) (1 / 3) v3zero (dirvec l f) h Eb Hh NQ). cbv zeta in M.
  eexists. eexists. split; [exact M|]. cbv beta.
  assert (Hq : 1 / 3 <> 0) by lra. assert (SC := sin2_cos2 l). assert (SF := sin2_cos2 f). unfold Rsqr in SC, SF.
  assert (U1 : vdot (dirvec l f) (dirvec l f) = 1).
  { unfold vdot, dirvec; cbn [vx vy vz].
    replace (cos l * cos f * (cos l * cos f) + cos l * sin f * (cos l * sin f) + sin l * sin l)
      with (cos l * cos l * (sin f * sin f + cos f * cos f) + sin l * sin l) by ring. rewrite SF. lra. }
  assert (U := motion_unit _ _ _ _ _ _ Hb Hq M U1 dw). cbv beta in U.
  set (t := rot _ _ _) in *.
  assert (Z : vdot h t = vdot h (dirvec l f)) by (apply rot_dot_h; auto).
  clearbody t.
  assert (V2 : vr (V3 0 0 2) = 2).
  { unfold vr. cbn [vx vy vz]. replace (0 * 0 + 0 * 0 + 2 * 2) with (2 * 2) by ring. apply sqrt_square. lra. }
  rewrite V2 in Eb. assert (H1 := f_equal vx Eb). assert (H2 := f_equal vy Eb). assert (H3 := f_equal vz Eb).
  cbn [vx vy vz vscale] in H1, H2, H3.
  unfold vdot, dirvec in Z, U. cbn [vx vy vz] in Z.
  assert (A1 : vx h = 0) by lra. assert (A2 : vy h = 0) by lra. assert (A3 : vz h = 1) by lra.
  rewrite A1, A2, A3 in Z. assert (Z1 : vz t = sin l) by lra. rewrite Z1 in U.
  unfold vtrans. apply sqrt_lt_R0. assert (0 < cos l * cos l) by (apply Rmult_lt_0_compat; auto). lra.
Qed.

(** C53: the helix with parameters [hp] is the motion of a particle with the q/p
    of calculateQoverP in the field along z. *)
Theorem C53_helix_is_the_motion : forall hp rp f bz, bz <> 0 -> is_helix hp rp f ->
  motion (V3 0 0 bz) (calculateQoverP hp bz) (f 0) (calculateTangent 0 hp)
    (fun w => f (w * cos (atan (hp TANL)))) (fun w => calculateTangent (w * cos (atan (hp TANL))) hp).
Proof. exact helix_motion. Qed.
Print Assumptions C53_helix_is_the_motion.

Example C53_case : exists f, is_helix (mk5 (1 / 100) 1 (1 / 2) (-3) 7) v3zero f.
Proof. destruct (proj1 (pointAt_is_helix (mk5 (1 / 100) 1 (1 / 2) (-3) 7) v3zero)) as (f & H & _); [unfold OMEGA; cbn; lra|]. exists f. exact H. Qed.
