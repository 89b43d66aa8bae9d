(** Properties C40, C54, C55: multiple scattering and energy loss. *)
From Coq Require Import Reals Lra List Psatz ZArith.
From Coquelicot Require Import Coquelicot.
From Verif Require Import Num NumFacts Vec Helix Isect Trans Material SpecHelix SpecIsect SpecMaterial HelixFacts
  IsectFacts SurfFacts SurfFacts2 TransFacts MaterialFacts PropSurf.
Import ListNotations.
Open Scope R_scope.

(** C40: the scattering angle is Highland's width for the path in radiation
    lengths; it is finite exactly if there is material, momentum, and the track does
    not graze the surface. *)
Theorem C40_scattering_angle : forall surf uv p m,
  let n := sf_normal surf (sf_localToGlobal surf uv) in
  let ri := sf_innerThickness surf in
  let ro := sf_outerThickness surf in
  let xi := mat_radiationLength (sf_innerMaterial surf) in
  let xo := mat_radiationLength (sf_outerMaterial surf) in
  0 <= ri -> 0 <= ro -> 0 < xi -> 0 < xo ->
  (0 < ri + ro /\ p <> v3zero /\ vdot p n <> 0 ->
   computeQMS_uv surf uv p m = Ok (highland (vr p) m ((ri / xi + ro / xo) / Rabs (cos_angle p n))))
  /\ (~ (0 < ri + ro /\ p <> v3zero /\ vdot p n <> 0) -> computeQMS_uv surf uv p m = NonFin).
Proof.
  intros surf uv p m n ri ro xi xo H1 H2 H3 H4. split.
  - intros (A & B & C). apply qms_value; auto.
  - intros N. apply qms_nonfinite; fold n ri ro xi xo; try lra.
    destruct (Req_dec (ri + ro) 0); auto. destruct (v3_dec p); auto. destruct (Req_dec (vdot p n) 0); auto.
    exfalso. apply N. repeat split; auto. lra.
Qed.
Print Assumptions C40_scattering_angle.

(** The formula turns negative for very thin layers and vanishes at one thickness. *)
Theorem C40_angle_sign : forall p m t, 0 < p -> 0 < t ->
  (0 < highland p m t <-> exp (- (1000 / 38)) < t) /\ (highland p m t = 0 <-> t = exp (- (1000 / 38))).
Proof. exact highland_sign. Qed.
Print Assumptions C40_angle_sign.

(** C40: energy, velocity and loss *)
Theorem C40_energy_loss : forall surf uv p m bi bo,
  let n := sf_normal surf (sf_localToGlobal surf uv) in
  let mi := sf_innerMaterial surf in
  let mo := sf_outerMaterial surf in
  p <> v3zero -> 0 < m -> vdot p n <> 0 ->
  computeBetheBloch mi (vr p) m = Ok bi -> computeBetheBloch mo (vr p) m = Ok bo ->
  exists e, computeEnergyLoss_uv surf uv p m = Ok e
  /\ el_energy e * el_energy e = vr p * vr p + m * m /\ m < el_energy e
  /\ el_beta e = velocity (vr p) m /\ 0 < el_beta e < 1
  /\ el_deltaE e = (bi * mat_density mi * sf_innerThickness surf + bo * mat_density mo * sf_outerThickness surf)
                   / Rabs (cos_angle p n).
Proof. intros. apply eloss_value; auto. Qed.
Print Assumptions C40_energy_loss.

(** C40 for a track that meets the surface: the momentum is the one belonging to
    the curvature and the field at the crossing point, the angle is the one
    between tangent and normal; the sign of the field does not matter. *)
Theorem C40_scattering_of_track : forall bf surf hp rp f m s xx,
  let t := sf_innerThickness surf / mat_radiationLength (sf_innerMaterial surf)
         + sf_outerThickness surf / mat_radiationLength (sf_outerMaterial surf) in
  let n := sf_normal surf (sf_localToGlobal surf (sf_globalToLocal surf xx)) in
  let bz := vz (bf xx) in
  0 <= sf_innerThickness surf -> 0 <= sf_outerThickness surf ->
  0 < mat_radiationLength (sf_innerMaterial surf) -> 0 < mat_radiationLength (sf_outerMaterial surf) ->
  hp OMEGA <> 0 -> Rabs (hp PHI0) <= 2 * PI -> bz <> 0 -> is_helix hp rp f -> wf_surface surf ->
  intersectWithSurface surf hp rp (OVal 0 v3zero) 0 true = Ok (true, OVal s xx) ->
  xx = f s
  /\ computeQMS_hp bf surf hp rp m =
     if Req_EM_T (sf_innerThickness surf + sf_outerThickness surf) 0 then NonFin
     else if Req_EM_T (vdot (calculateTangent s hp) n) 0 then NonFin
     else Ok (highland (Rabs (1 / calculateQoverP hp bz)) m (t / Rabs (vdot (calculateTangent s hp) n))).
Proof.
  intros bf surf hp rp f m s xx t n bz H1 H2 H3 H4 Ho Hp Hb Hf W HI.
  assert (E : xx = f s) by (apply (dispatch_sound surf hp rp _ _ _ f s xx Ho Hp Hf W HI)).
  split; auto. exact (qms_track bf surf hp rp f m s xx H1 H2 H3 H4 Ho Hb Hf HI s E).
Qed.
Print Assumptions C40_scattering_of_track.

(** no crossing: the angle is 0, and the energy loss is 0 without setting the
    energy and the velocity *)
Theorem C40_no_crossing : forall bf surf tp m o,
  intersectWithSurface surf (tp_par tp) (tp_ref tp) (OVal 0 v3zero) 0 true = Ok (false, o) ->
  computeQMS_hp bf surf (tp_par tp) (tp_ref tp) m = Ok 0
  /\ computeEnergyLoss_tp bf surf tp m = Ok (inl 0).
Proof. intros bf surf tp m o H. unfold computeQMS_hp, computeEnergyLoss_tp. rewrite H. split; reflexivity. Qed.
Print Assumptions C40_no_crossing.

Theorem C40_energy_loss_of_track : forall bf surf tp f m s xx,
  let hp := tp_par tp in
  let mi := sf_innerMaterial surf in
  let mo := sf_outerMaterial surf in
  let n := sf_normal surf (sf_localToGlobal surf (sf_globalToLocal surf xx)) in
  let bz := vz (bf xx) in
  let p := Rabs (1 / calculateQoverP hp bz) in
  0 < m ->
  0 < mat_density mi -> 0 < mat_Z mi -> 0 < mat_A mi -> 0 < mat_density mo -> 0 < mat_Z mo -> 0 < mat_A mo ->
  hp OMEGA <> 0 -> Rabs (hp PHI0) <= 2 * PI -> bz <> 0 -> is_helix hp (tp_ref tp) f -> wf_surface surf ->
  intersectWithSurface surf hp (tp_ref tp) (OVal 0 v3zero) 0 true = Ok (true, OVal s xx) ->
  (vdot (calculateTangent s hp) n = 0 -> computeEnergyLoss_tp bf surf tp m = NonFin)
  /\ (vdot (calculateTangent s hp) n <> 0 ->
   exists e bi bo, computeEnergyLoss_tp bf surf tp m = Ok (inr e)
   /\ computeBetheBloch mi p m = Ok bi /\ computeBetheBloch mo p m = Ok bo
   /\ el_energy e * el_energy e = p * p + m * m /\ m < el_energy e
   /\ el_beta e = velocity p m /\ 0 < el_beta e < 1
   /\ el_deltaE e = (bi * mat_density mi * sf_innerThickness surf + bo * mat_density mo * sf_outerThickness surf)
                    / Rabs (vdot (calculateTangent s hp) n)).
Proof.
  intros bf surf tp f m s xx hp mi mo n bz p M A1 A2 A3 A4 A5 A6 Ho Hp Hb Hf W HI.
  assert (E : xx = f s) by (apply (dispatch_sound surf hp (tp_ref tp) _ _ _ f s xx Ho Hp Hf W HI)).
  exact (eloss_track bf surf tp f m s xx M A1 A2 A3 A4 A5 A6 Ho Hb Hf HI s E).
Qed.
Print Assumptions C40_energy_loss_of_track.

(** a disk of 0.03 cm with materials, crossed by the track of [ex_hp] *)
Definition ex_si : material := Mat 14 28 (233 / 100) (936 / 100).
Definition ex_layer : surface :=
  Surf 1 disk_type None (fun _ => true) (fun _ => V3 1 0 0) (fun _ => V3 0 1 0) (fun _ => V3 0 0 1)
    (fun x => (vx x, vy x)) (fun uv => V3 (fst uv) (snd uv) 2) (V3 0 0 2) ex_si ex_si (1 / 100) (2 / 100)
    (fun x => vz x - 2).

Example C40_case :
  exists s xx, intersectWithSurface ex_layer ex_hp v3zero (OVal 0 v3zero) 0 true = Ok (true, OVal s xx)
  /\ wf_surface ex_layer /\ ex_hp OMEGA <> 0
  /\ vdot (calculateTangent s ex_hp) (sf_normal ex_layer xx) <> 0.
Proof.
  destruct (C19_zdisk ex_layer ex_hp v3zero (OVal 0 v3zero) 0 true _ ex_helix) as [_ A].
  destruct A as (s & U & x & b & E & _ & _ & X & _ & B); [simpl; lra|].
  exists s. rewrite (X ex_om) in E. exists (V3 (sin s) (cos s - 1) s). split; [|split; [|split]].
  - change (intersectWithZDisk ex_layer ex_hp v3zero (OVal 0 v3zero) 0 true = Ok (true, OVal s (V3 (sin s) (cos s - 1) s))).
    rewrite E. f_equal. f_equal. apply B. split; auto. unfold sign_ok. split; intros; lia.
  - unfold wf_surface; simpl. split; intros; discriminate.
  - apply ex_om.
  - unfold vdot, calculateTangent, calculateLambda, ex_hp. cbn [vx vy vz ex_layer sf_normal mk5].
    rewrite sin_atan_cos. generalize (cos_atan_pos 1). simpl. lra.
Qed.

(** C54: Bethe-Bloch with a density correction; the momentum dependence has no
    jumps although it is computed by cases. *)
Theorem C54_stopping_power : forall mat m, 0 < mat_density mat -> 0 < mat_Z mat -> 0 < mat_A mat -> 0 < m ->
  let d p := bethe_bloch loss_constant electron_mass (mat_Z mat) (mat_A mat) (excitation (mat_Z mat)) m
               (velocity p m) (lorentz p m)
               (density_effect (ln (p / m) / ln 10) (sternheimer (mat_density mat) (mat_Z mat) (mat_A mat))) in
  forall p, 0 < p -> computeBetheBloch mat p m = Ok (d p) /\ continuous d p.
Proof.
  intros mat m H1 H2 H3 M d p P. split; [apply bb_value; auto|]. exact (bb_continuous mat m p H1 H2 H3 M P).
Qed.
Print Assumptions C54_stopping_power.

(** The published formula subtracts half of the density effect; the code
    subtracts all of it.  As a consequence every material accelerates particles of
    sufficiently high momentum, which the published formula does not do. *)
Theorem C54_loss_is_positive_refuted : forall mat m,
  0 < mat_density mat -> 0 < mat_Z mat -> 0 < mat_A mat -> 0 < m ->
  (exists P, 0 < P /\ forall p, P < p -> exists d, computeBetheBloch mat p m = Ok d /\ d < 0)
  /\ exists P, 0 < P /\ forall p, P < p ->
       0 < bethe_bloch loss_constant electron_mass (mat_Z mat) (mat_A mat) (excitation (mat_Z mat)) m
             (velocity p m) (lorentz p m)
             (density_effect (ln (p / m) / ln 10) (sternheimer (mat_density mat) (mat_Z mat) (mat_A mat)) / 2).
Proof.
  intros mat m H1 H2 H3 M. split; [apply bb_eventually_negative; auto|].
  apply (bb_half_eventually_positive mat m); auto.
Qed.
Print Assumptions C54_loss_is_positive_refuted.

Example C54_case : 0 < mat_density ex_si /\ 0 < mat_Z ex_si /\ 0 < mat_A ex_si /\ 0 < pionMass.
Proof. unfold ex_si, pionMass. simpl. lra. Qed.

(** C55: the azimuth computed from the coordinates of a point of the track is the
    direction of the track there (up to whole turns). *)
Theorem C55_azimuth_is_the_direction : forall hp rp f, is_helix hp rp f -> forall s,
  cos (calculatePhifromXY (vx (f s)) (vy (f s)) hp rp) = cos (hp PHI0 - hp OMEGA * s)
  /\ sin (calculatePhifromXY (vx (f s)) (vy (f s)) hp rp) = sin (hp PHI0 - hp OMEGA * s)
  /\ - PI < calculatePhifromXY (vx (f s)) (vy (f s)) hp rp <= PI.
Proof.
  intros hp rp f H s. destruct (phi_direction hp rp f H s) as [A B]. split; auto. split; auto. apply atan2_range.
Qed.
Print Assumptions C55_azimuth_is_the_direction.
