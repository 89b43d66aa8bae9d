(** C97: the crossing of a track with a surface of any kind in double precision. *)
From Coq Require Import Reals ZArith Lra Lia Bool List.
From Flocq Require Import Core.
From Verif Require Import Num Vec Helix Isect FloatWrap SpecHelix SpecIsect HelixFacts PointFloat SpecRound SpecPath PlaneFloat DiskFloat CylFloat NewtonFloat DispatchFloat
  SpecDiskFloat SpecDispatchFloat.
From Verif Require Import RoundFacts PointFloatFacts PropRound PropSurf PropPath PathLibFacts PropMoveFloat PropDiskFloat PropCylFloat PropPlaneFloat PropNewtonFloat.
Import ListNotations.
Open Scope R_scope.

Lemma kinds t : {as_cylinder t} + {as_plane t} + {as_disk t} + {as_cone t} + {~ as_cylinder t /\ ~ as_plane t /\ ~ as_disk t /\ ~ as_cone t}.
Proof.
  assert (D : forall (a b : bool), {a = b} + {a <> b}) by (intros [] []; auto; right; discriminate).
  unfold as_cone, as_cylinder, as_plane, as_disk.
  destruct t as [[] [] [] [] []]; cbn;
  first [left; left; left; left; intuition congruence | left; left; left; right; intuition congruence | left; left; right; intuition congruence
    | left; right; intuition congruence | right; intuition congruence].
Qed.

Section Kind.
Variables (L : libm) (at2 : R -> R -> R) (as_ : R -> R) (S : surface_d) (surf : surface) (hp : vec5) (rp : vec3) (o : outp) (mode : Z) (cb : bool).
Let go := intersectWithSurface_d L at2 as_ S surf hp rp o mode cb.

Lemma go_cylinder : as_cylinder (sf_type surf) -> go = (r <- intersectWithZCylinder_d L at2 as_ surf hp rp mode cb ;;
  Ok (fst r, written o (option_map (fun p => (fst p, Some (snd p))) (snd r)))).
Proof. intros (A & B). unfold go, intersectWithSurface_d, isZCylinder. rewrite A, B. reflexivity. Qed.

Lemma go_plane : as_plane (sf_type surf) -> go = intersectWithZPlane_d L at2 surf hp rp o mode cb.
Proof. intros (A & B & D). unfold go, intersectWithSurface_d, isZCylinder, isZPlane. rewrite A, B, D. reflexivity. Qed.

Lemma go_disk : as_disk (sf_type surf) -> go = (r <- intersectWithZDisk_d L surf hp rp mode cb ;; Ok (fst r, OVal (fst (snd r)) (snd (snd r)))).
Proof. intros (A & B & D). unfold go, intersectWithSurface_d, isZCylinder, isZPlane, isZDisk. rewrite A, B, D. destruct (st_cylinder _); reflexivity. Qed.

Lemma go_cone : as_cone (sf_type surf) -> go = (r <- intersectWithZCone_d L at2 as_ S surf hp rp mode cb ;; Ok (fst r, written o (snd r))).
Proof.
  unfold as_cone, as_cylinder, as_plane, as_disk. intros (A & B & D & E). unfold go, intersectWithSurface_d, isZCylinder, isZPlane, isZDisk, isCone. rewrite A.
  destruct (st_cylinder _), (st_plane _), (st_parallelToZ _), (st_orthogonalToZ _); cbn; try reflexivity; exfalso; tauto.
Qed.

Lemma go_other : ~ as_cylinder (sf_type surf) -> ~ as_plane (sf_type surf) -> ~ as_disk (sf_type surf) -> ~ as_cone (sf_type surf) -> go = Ok (false, o).
Proof.
  unfold as_cone, as_cylinder, as_plane, as_disk. intros B D E G. unfold go, intersectWithSurface_d, isZCylinder, isZPlane, isZDisk, isCone.
  destruct (st_cylinder _), (st_plane _), (st_cone _), (st_parallelToZ _), (st_orthogonalToZ _); cbn; try reflexivity; exfalso; intuition congruence.
Qed.

Lemma is_climbing : fine_track hp rp -> fine_surface surf hp rp -> as_disk (sf_type surf) ->
  climbing (vz (sf_origin surf)) hp rp /\ bpow radix2 (-200) <= Rabs (hp OMEGA).
Proof.
  intros [T C Z1 Z2 Z3 M1 M2 M3] F K. destruct (fs_disk _ _ _ F K) as (A & B). split; [constructor; auto|].
  destruct (ot_om0 _ _ T); [contradiction|auto].
Qed.

Lemma gets_there f h : is_helix hp rp f -> hp TANL <> 0 -> exists t, vz (f t) = h.
Proof.
  intros Hf N. exists ((h - (vz rp + hp Z0)) / hp TANL). destruct (XYZfromS_helix _ _ _ Hf ((h - (vz rp + hp Z0)) / hp TANL)) as (_ & <- & _).
  unfold calculateZfromS, calculateZ0, calculateTanLambda. field. exact N.
Qed.

(** The cases of a disk. *)
Lemma disk_case f b out' : accurate L -> fine_track hp rp -> fine_surface surf hp rp -> is_helix hp rp f -> as_disk (sf_type surf) ->
  go = Ok (b, out') -> exists s x, out' = OVal s x /\ reached f (vz (sf_origin surf)) hp rp s x
  /\ (b = true <-> sign_ok mode s /\ (cb = true -> sf_insideBounds surf x = true)).
Proof.
  intros HL HT HF Hf K E. destruct (is_climbing HT HF K) as (C & HO).
  destruct (gets_there f (vz (sf_origin surf)) Hf) as (t & Ht).
  { intros Q. assert (B := cl_tanl _ _ _ C). rewrite Q, Rabs_R0 in B. generalize (bpow_gt_0 radix2 (-90)). lra. }
  destruct (C90_accuracy L surf hp rp mode cb f t HL C HO Hf Ht) as (b' & s & x & Q & A1 & A2 & _ & _ & A3 & A4 & A5).
  rewrite (go_disk K), Q in E. cbn [bind fst snd] in E. injection E as <- <-. exists s, x. split; [reflexivity|]. split; [|exact A5].
  constructor; [exact A2|]. exists t. auto.
Qed.
End Kind.

Lemma rd_quiet x : rd x <> Throw.
Proof. unfold rd. destruct (Rlt_dec _ _); discriminate. Qed.
Lemma div_quiet x y : rd_div x y <> Throw.
Proof. unfold rd_div. destruct (Req_EM_T _ _); [discriminate|apply rd_quiet]. Qed.
Lemma bind_quiet {A B} (r : res A) (k : A -> res B) : r <> Throw -> (forall a, k a <> Throw) -> bind r k <> Throw.
Proof. intros H K. destruct r; cbn [bind]; auto; discriminate. Qed.

Lemma disk_quiet L surf hp rp mode cb : intersectWithZDisk_d L surf hp rp mode cb <> Throw.
Proof.
  unfold intersectWithZDisk_d, calculateXfromS_d, calculateYfromS_d, calculateX0_d, calculateY0_d.
  repeat first [apply rd_quiet | apply div_quiet | apply bind_quiet; [|intros ?] | destruct (Req_EM_T _ _) | discriminate].
Qed.

Lemma sign_dec mode s : sign_ok mode s \/ ~ sign_ok mode s.
Proof.
  unfold sign_ok. destruct (Z_lt_le_dec 0 mode), (Z_lt_le_dec mode 0), (Rlt_dec 0 s), (Rlt_dec s 0);
  first [left; split; intros; first [lra|lia] | right; intros (A & B); first [specialize (A ltac:(assumption))|specialize (B ltac:(assumption))]; lra].
Qed.

Lemma on_sign mode s : sign_ok mode s -> on_side mode s.
Proof. intros (A & B). split; [intros P; left; auto|exact B]. Qed.

Lemma on_picked tol mode P s : picked tol mode P s -> on_side mode s.
Proof. intros [_ A B _]. split; [apply A|apply B]. Qed.

(** A yes means: the point written is on the surface and on the track, up to rounding; it is
    on the side asked for and, if asked for, inside the bounds.  The exception is a plane
    that the track touches, where the coordinates may be not numbers. *)
Theorem C97_yes : forall L at2 as_ S surf hp rp o mode cb f out',
  good_library L at2 -> SpecCylFloat.good_asin as_ -> fine_track hp rp -> fine_surface surf hp rp -> is_helix hp rp f ->
  intersectWithSurface_d L at2 as_ S surf hp rp o mode cb = Ok (true, out') ->
  (exists s x, out' = OVal s x /\ meets L S surf hp rp f s x /\ on_side mode s /\ (cb = true -> sf_insideBounds surf x = true))
  \/ (out' = OBad /\ as_plane (sf_type surf) /\ mode = 0%Z /\ cb = false /\ touches surf hp rp f).
Proof.
  intros L at2 as_ S surf hp rp o mode cb f out' HL HA HT HF Hf E. assert (T := ft_track _ _ HT).
  destruct (kinds (sf_type surf)) as [[[[K|K]|K]|K]|(K1 & K2 & K3 & K4)].
  - left. rewrite (go_cylinder _ _ _ _ _ _ _ _ _ _ K) in E. destruct (fs_cylinder _ _ _ HF (or_introl K)) as (_ & rho & c & Q & HC).
    destruct (intersectWithZCylinder_d L at2 as_ surf hp rp mode cb) as [[b w]| | | |] eqn:EC; try discriminate.
    cbn [bind fst snd] in E. injection E as -> <-.
    destruct (C91_outcome _ _ _ _ _ _ _ _ _ _ _ _ _ HL HA T HC Hf Q EC) as [(A & _)|(s0 & x0 & s1 & x1 & A0 & A1 & _ & A)]; [discriminate|].
    destruct w as [[s x]|]; [|destruct A; discriminate]. destruct A as (A2 & A3 & A4). exists s, x. split; [reflexivity|].
    split; [apply (meets_cylinder _ _ _ _ _ _ _ _ rho c K Q); destruct A2 as [(-> & ->)|(-> & ->)]; assumption|].
    split; [exact (on_picked _ _ _ _ A3)|apply A4; reflexivity].
  - rewrite (go_plane _ _ _ _ _ _ _ _ _ _ K) in E. destruct (fs_plane _ _ _ HF K) as (HP & HS).
    destruct (C92_outcome _ _ _ _ _ _ _ _ _ _ _ HL T (ft_curved _ _ HT) HP HS Hf E) as [(A & _)|[(A & B & D & G & H)|[(s & x & A & _ & B & D)|(s0 & x0 & s1 & x1 & A0 & A1 & _ & [(A & _)|(s & x & A2 & A3 & A4 & A5)])]]];
      try discriminate.
    + right. assert (M : mode = 0%Z) by (apply B; reflexivity). split; [exact A|]. split; [exact K|]. split; [exact M|]. split; [exact (D M)|]. split; assumption.
    + left. exists s, x. split; [exact B|]. split; [exact (meets_plane _ _ _ _ _ _ _ _ K A)|]. destruct (proj1 D eq_refl) as (D1 & D2). split; [exact (on_sign _ _ D1)|exact D2].
    + left. exists s, x. split; [exact A2|]. split; [apply (meets_plane _ _ _ _ _ _ _ _ K); destruct A3 as [(-> & ->)|(-> & ->)]; assumption|].
      split; [exact (on_picked _ _ _ _ A4)|apply A5; reflexivity].
  - left. destruct (disk_case _ _ _ _ _ _ _ _ _ _ f true out' (gl_accurate _ _ HL) HT HF Hf K E) as (s & x & A & B & D).
    exists s, x. split; [exact A|]. split; [exact (meets_disk _ _ _ _ _ _ _ _ K B)|]. destruct (proj1 D eq_refl) as (D1 & D2). split; [exact (on_sign _ _ D1)|exact D2].
  - left. rewrite (go_cone _ _ _ _ _ _ _ _ _ _ K) in E.
    destruct (intersectWithZCone_d L at2 as_ S surf hp rp mode cb) as [[b w]| | | |] eqn:EC; try discriminate.
    cbn [bind fst snd] in E. injection E as -> <-.
    destruct (C94_cone _ _ _ _ _ _ _ _ _ _ _ EC) as (b1 & o1 & _ & [(_ & A & _)|(_ & s & x & s' & x' & _ & B & D)]); [discriminate|]. subst w.
    destruct (C94_result _ _ _ _ _ _ _ _ _ _ _ D) as (l & _ & [(_ & _ & x2 & d & -> & M & G & H)|(_ & _ & A & _)]); [|discriminate].
    exists s', x2. split; [reflexivity|]. split; [exact (meets_cone _ _ _ _ _ _ _ _ d K M G)|]. destruct (proj1 H eq_refl) as (D1 & D2). split; [exact (on_sign _ _ D1)|exact D2].
  - rewrite (go_other _ _ _ _ _ _ _ _ _ _ K1 K2 K3 K4) in E. discriminate.
Qed.
Print Assumptions C97_yes.

(** A no means: the track does not meet the surface, or not on the side asked for, or the
    point is outside of the bounds. *)
Theorem C97_no : forall L at2 as_ S surf hp rp o mode cb f out',
  good_library L at2 -> SpecCylFloat.good_asin as_ -> fine_track hp rp -> fine_surface surf hp rp -> is_helix hp rp f ->
  intersectWithSurface_d L at2 as_ S surf hp rp o mode cb = Ok (false, out') ->
  avoids L S surf hp rp f \/ elsewhere L S surf hp rp f mode
  \/ (cb = true /\ exists s x, out' = OVal s x /\ meets L S surf hp rp f s x /\ on_side mode s /\ sf_insideBounds surf x = false).
Proof.
  intros L at2 as_ S surf hp rp o mode cb f out' HL HA HT HF Hf E. assert (T := ft_track _ _ HT).
  assert (IB : forall x, (false = true <-> (cb = true -> sf_insideBounds surf x = true)) -> cb = true /\ sf_insideBounds surf x = false).
  { intros x (_ & Q). destruct cb; [|discriminate (Q ltac:(discriminate))]. destruct (sf_insideBounds surf x); [discriminate (Q (fun _ => eq_refl))|auto]. }
  destruct (kinds (sf_type surf)) as [[[[K|K]|K]|K]|(K1 & K2 & K3 & K4)].
  - rewrite (go_cylinder _ _ _ _ _ _ _ _ _ _ K) in E. destruct (fs_cylinder _ _ _ HF (or_introl K)) as (_ & rho & c & Q & HC).
    destruct (intersectWithZCylinder_d L at2 as_ surf hp rp mode cb) as [[b w]| | | |] eqn:EC; try discriminate.
    cbn [bind fst snd] in E. injection E as -> <-.
    destruct (C91_outcome _ _ _ _ _ _ _ _ _ _ _ _ _ HL HA T HC Hf Q EC) as [(_ & _ & A)|(s0 & x0 & s1 & x1 & A0 & A1 & AX & A)].
    { left. exact (avoids_cylinder _ _ _ _ _ _ rho c K Q A). }
    destruct w as [[s x]|].
    + right. right. destruct A as (A2 & A3 & A4). destruct (IB _ A4) as (I1 & I2). split; [exact I1|]. exists s, x. split; [reflexivity|].
      split; [apply (meets_cylinder _ _ _ _ _ _ _ _ rho c K Q); destruct A2 as [(-> & ->)|(-> & ->)]; assumption|].
      split; [exact (on_picked _ _ _ _ A3)|exact I2].
    + right. left. exact (elsewhere_cylinder _ _ _ _ _ _ _ rho c s0 x0 s1 x1 (or_introl K) Q A0 A1 AX (proj2 A)).
  - rewrite (go_plane _ _ _ _ _ _ _ _ _ _ K) in E. destruct (fs_plane _ _ _ HF K) as (HP & HS).
    destruct (C92_outcome _ _ _ _ _ _ _ _ _ _ _ HL T (ft_curved _ _ HT) HP HS Hf E) as [(_ & _ & A)|[(_ & _ & _ & A & _)|[(s & x & A & AO & B & D)|(s0 & x0 & s1 & x1 & A0 & A1 & AB & [(_ & _ & A)|(s & x & A2 & A3 & A4 & A5)])]]].
    + left. exact (avoids_plane _ _ _ _ _ _ K A).
    + left. exact (avoids_plane _ _ _ _ _ _ K A).
    + right. destruct (sign_dec mode s) as [N|N]; [right|left; exact (elsewhere_single _ _ _ _ _ _ _ s x K A AO N)].
      destruct (IB x) as (I1 & I2); [destruct D as (_ & D); split; [discriminate|auto]|]. split; [exact I1|]. exists s, x. split; [exact B|].
      split; [exact (meets_plane _ _ _ _ _ _ _ _ K A)|]. split; [exact (on_sign _ _ N)|exact I2].
    + right. left. exact (elsewhere_plane _ _ _ _ _ _ _ s0 x0 s1 x1 K A0 A1 AB A).
    + right. right. destruct (IB _ A5) as (I1 & I2). split; [exact I1|]. exists s, x. split; [exact A2|].
      split; [apply (meets_plane _ _ _ _ _ _ _ _ K); destruct A3 as [(-> & ->)|(-> & ->)]; assumption|].
      split; [exact (on_picked _ _ _ _ A4)|exact I2].
  - destruct (disk_case _ _ _ _ _ _ _ _ _ _ f false out' (gl_accurate _ _ HL) HT HF Hf K E) as (s & x & A & B & D). right.
    destruct (sign_dec mode s) as [N|N]; [right|left; exact (elsewhere_disk _ _ _ _ _ _ _ s x K B N)].
    destruct (IB x) as (I1 & I2); [destruct D as (_ & D); split; [discriminate|auto]|]. split; [exact I1|]. exists s, x. split; [exact A|].
    split; [exact (meets_disk _ _ _ _ _ _ _ _ K B)|]. split; [exact (on_sign _ _ N)|exact I2].
  - rewrite (go_cone _ _ _ _ _ _ _ _ _ _ K) in E. destruct (fs_cylinder _ _ _ HF (or_intror K)) as (_ & rho & c & Q & HC).
    destruct (intersectWithZCone_d L at2 as_ S surf hp rp mode cb) as [[b w]| | | |] eqn:EC; try discriminate.
    cbn [bind fst snd] in E. injection E as -> <-.
    destruct (C94_cone _ _ _ _ _ _ _ _ _ _ _ EC) as (b1 & o1 & EY & R).
    destruct (C91_outcome _ _ _ _ _ _ _ _ _ _ _ _ _ HL HA T HC Hf Q EY) as [(_ & _ & A)|(s0 & x0 & s1 & x1 & A0 & A1 & AX & A)].
    { left. exact (avoids_middle _ _ _ _ _ _ rho c K Q A). }
    destruct R as [(-> & _ & _)|(-> & s & x & s' & x' & -> & -> & D)].
    + destruct o1 as [[s x]|]; [destruct A as (_ & _ & (_ & A)); discriminate (A ltac:(discriminate))|].
      right. left. exact (elsewhere_cylinder _ _ _ _ _ _ _ rho c s0 x0 s1 x1 (or_intror K) Q A0 A1 AX (proj2 A)).
    + destruct A as (A2 & _ & _).
      destruct (C94_result _ _ _ _ _ _ _ _ _ _ _ D) as (l & LM & [(_ & _ & x2 & d & -> & M & G & H)|(LL & LJ & _ & _)]).
      * assert (MT := meets_cone L S surf hp rp f s' x2 d K M G). right.
        destruct (sign_dec mode s') as [N|N]; [right|left; exact (elsewhere_cone _ _ _ _ _ _ _ s' x2 K MT N)].
        destruct (IB x2) as (I1 & I2); [destruct H as (_ & H); split; [discriminate|auto]|]. split; [exact I1|]. exists s', x2. split; [reflexivity|].
        split; [exact MT|]. split; [exact (on_sign _ _ N)|exact I2].
      * left. apply (avoids_cone _ _ _ _ _ _ rho c s x l K Q); [destruct A2 as [(-> & ->)|(-> & ->)]; assumption|exact LL|exact LJ|exact LM].
  - left. apply avoids_other; assumption.
Qed.
Print Assumptions C97_no.

(** With mode 0 no side is wrong. *)
Theorem C97_any : forall L S surf hp rp f, ~ elsewhere L S surf hp rp f 0.
Proof.
  assert (N : forall (P : R -> Prop) s, P s -> ~ none_for 0 P) by (intros P s H N; destruct (N s H) as [(A & _)|(A & _)]; lia).
  assert (O : forall s, sign_ok 0 s) by (intros s; split; intros; lia).
  intros L S surf hp rp f [rho c s0 x0 s1 x1 _ _ _ _ _ A|s x _ _ _ A|s0 x0 s1 x1 _ _ _ _ A|s x _ _ A|s x _ _ A]; try (apply A, O);
  apply (N _ s0 (or_introl eq_refl) A).
Qed.
Print Assumptions C97_any.

(** Surfaces of other kinds: always no, and nothing is written. *)
Theorem C97_other : forall L at2 as_ S surf hp rp o mode cb,
  ~ as_cylinder (sf_type surf) -> ~ as_plane (sf_type surf) -> ~ as_disk (sf_type surf) -> ~ as_cone (sf_type surf) ->
  intersectWithSurface_d L at2 as_ S surf hp rp o mode cb = Ok (false, o).
Proof. exact go_other. Qed.
Print Assumptions C97_other.

(** A cylinder that is not crossed, or only on the wrong side: s and x keep their values.  They
    are written together, and the answer is then that of the bounds. *)
Theorem C97_kept : forall L at2 as_ S surf hp rp o mode cb b out', as_cylinder (sf_type surf) ->
  intersectWithSurface_d L at2 as_ S surf hp rp o mode cb = Ok (b, out') ->
  (b = false /\ out' = o) \/ (exists s x, out' = OVal s x /\ (b = true <-> (cb = true -> sf_insideBounds surf x = true))).
Proof.
  intros L at2 as_ S surf hp rp o mode cb b out' K. rewrite (go_cylinder _ _ _ _ _ _ _ _ _ _ K).
  destruct (intersectWithZCylinder_d L at2 as_ surf hp rp mode cb) as [[b' w]| | | |] eqn:E; cbn [bind]; try discriminate. cbn [fst snd]. intros Q. injection Q as -> <-.
  assert (B : forall x, bounds surf cb x = true <-> (cb = true -> sf_insideBounds surf x = true)) by (intros x; unfold bounds; destruct cb; intuition discriminate).
  revert E. unfold intersectWithZCylinder_d. destruct (st_parallelToZ (sf_type surf)); [|discriminate]. destruct (sf_cyl surf) as [(rho & c)|]; [|discriminate].
  repeat match goal with |- bind ?e _ = _ -> _ => destruct e; cbn [bind]; try discriminate end.
  destruct (Req_EM_T _ 0); [destruct (Req_EM_T _ 0); [discriminate|intros Q; injection Q as <- <-; left; auto]|].
  destruct (Rlt_dec 1 _); [intros Q; injection Q as <- <-; left; auto|].
  repeat match goal with |- bind ?e _ = _ -> _ => destruct e; cbn [bind]; try discriminate end.
  destruct (select_d _ _ _ _ _) as [(s & x)|]; intros Q; injection Q as <- <-; [right|left; auto]. exists s, x. auto.
Qed.
Print Assumptions C97_kept.

(** There is always an answer if the radius of the track is large, as far as cylinders and
    cones are concerned; except for a plane that the track touches, where a point
    that is not a number may have to be tested. *)
Theorem C97_answer : forall L at2 as_ S surf hp rp o mode cb f,
  SpecPlaneFloat.sound_library L at2 -> SpecCylFloat.good_asin as_ -> fine_track hp rp -> fine_surface surf hp rp -> is_helix hp rp f ->
  (forall rho c, sf_cyl surf = Some (rho, c) -> SpecCylFloat.bend rho c hp rp <= 4 / 10) ->
  (exists b out', intersectWithSurface_d L at2 as_ S surf hp rp o mode cb = Ok (b, out'))
  \/ (intersectWithSurface_d L at2 as_ S surf hp rp o mode cb = NonFin /\ as_plane (sf_type surf) /\ mode = 0%Z /\ cb = true /\ touches surf hp rp f).
Proof.
  intros L at2 as_ S surf hp rp o mode cb f HS HA HT HF Hf HB. assert (HL := SpecPlaneFloat.sl_good _ _ HS).
  assert (T := ft_track _ _ HT). destruct HT as [_ HO Z1 Z2 Z3 M1 M2 M3]. assert (HT : fine_track hp rp) by (constructor; assumption).
  destruct (kinds (sf_type surf)) as [[[[K|K]|K]|K]|(K1 & K2 & K3 & K4)].
  - left. rewrite (go_cylinder _ _ _ _ _ _ _ _ _ _ K). destruct (fs_cylinder _ _ _ HF (or_introl K)) as (P & rho & c & Q & HC).
    destruct (C91_finite L at2 as_ surf rho c hp rp mode cb HL HA T HC Z1 Z2 Z3 P Q (HB _ _ Q)) as (b & w & ->). cbn [bind fst snd]. eauto.
  - rewrite (go_plane _ _ _ _ _ _ _ _ _ _ K). destruct (fs_plane _ _ _ HF K) as (HP & HR).
    destruct (C92_finite L at2 surf hp rp o mode cb f HS T HO HP HR Hf Z1 Z2 Z3) as [A|(A & B & D & G)]; [left; exact A|right].
    split; [exact A|]. split; [exact K|]. split; [exact B|]. split; [exact D|exact G].
  - left. rewrite (go_disk _ _ _ _ _ _ _ _ _ _ K). destruct (is_climbing surf hp rp HT HF K) as (C & HO2).
    destruct (gets_there hp rp f (vz (sf_origin surf)) Hf) as (t & Ht).
    { intros Q. assert (B := cl_tanl _ _ _ C). rewrite Q, Rabs_R0 in B. generalize (bpow_gt_0 radix2 (-90)). lra. }
    destruct (C90_accuracy L surf hp rp mode cb f t (gl_accurate _ _ HL) C HO2 Hf Ht) as (b & s & x & -> & _). cbn [bind fst snd]. eauto.
  - left. rewrite (go_cone _ _ _ _ _ _ _ _ _ _ K). destruct (fs_cylinder _ _ _ HF (or_intror K)) as (P & rho & c & Q & HC).
    unfold intersectWithZCone_d.
    destruct (C91_finite L at2 as_ surf rho c hp rp mode false HL HA T HC Z1 Z2 Z3 P Q (HB _ _ Q)) as (b & w & ->). cbn [bind fst snd].
    destruct b, w as [[s x]|]; cbn [bind fst snd]; eauto.
  - left. exists false, o. apply go_other; assumption.
Qed.
Print Assumptions C97_answer.

(** Exceptions: a cylinder or cone that is not parallel to z or not a cylinder for DD4hep, and a
    plane whose normal is along z. *)
Theorem C97_throws : forall L at2 as_ S surf hp rp o mode cb,
  intersectWithSurface_d L at2 as_ S surf hp rp o mode cb = Throw ->
  ((as_cylinder (sf_type surf) \/ as_cone (sf_type surf)) /\ (st_parallelToZ (sf_type surf) = false \/ sf_cyl surf = None))
  \/ (as_plane (sf_type surf) /\ Rabs (vx (sf_normal surf v3zero)) < rnd (/ 1000000000000) /\ Rabs (vy (sf_normal surf v3zero)) < rnd (/ 1000000000000)).
Proof.
  intros L at2 as_ S surf hp rp o mode cb E.
  destruct (kinds (sf_type surf)) as [[[[K|K]|K]|K]|(K1 & K2 & K3 & K4)].
  - left. split; [auto|]. rewrite (go_cylinder _ _ _ _ _ _ _ _ _ _ K) in E. apply (C91_throws L at2 as_ surf hp rp mode cb).
    destruct (intersectWithZCylinder_d L at2 as_ surf hp rp mode cb); cbn [bind] in E; congruence.
  - right. split; [exact K|]. rewrite (go_plane _ _ _ _ _ _ _ _ _ _ K) in E. exact (proj1 (C92_throws L at2 surf hp rp o mode cb) E).
  - exfalso. rewrite (go_disk _ _ _ _ _ _ _ _ _ _ K) in E. destruct (intersectWithZDisk_d L surf hp rp mode cb) eqn:ED; cbn [bind] in E; try congruence.
    exact (disk_quiet _ _ _ _ _ _ ED).
  - left. split; [auto|]. rewrite (go_cone _ _ _ _ _ _ _ _ _ _ K) in E. apply (C91_throws L at2 as_ surf hp rp mode false).
    unfold intersectWithZCone_d in E. destruct (intersectWithZCylinder_d L at2 as_ surf hp rp mode false) as [[[] [[s x]|]]| | | |]; cbn [bind fst snd] in E; congruence.
  - rewrite (go_other _ _ _ _ _ _ _ _ _ _ K1 K2 K3 K4) in E. discriminate.
Qed.
Print Assumptions C97_throws.

(** ** Examples *)
Lemma curved_fine : fine_track curved_hp (V3 1 1 1).
Proof.
  destruct (proj2 curved_instance) as [_ F2 F3 F4 F5 F6]. assert (O1 : ordinary 1) by exact (ord_bpow 0 ltac:(lia)).
  assert (OO : ordinary (bpow radix2 (-10))) by exact (ord_bpow (-10) ltac:(lia)).
  constructor; cbn [vx vy vz]; auto; try apply moderate_1; try exact O1.
  - constructor; cbn [vx vy vz]; auto; try exact OO; try exact O1.
    + exact (proj1 O1).
    + change (curved_hp PHI0) with 1. rewrite Rabs_R1. generalize PI2_1. lra.
    + right. change (curved_hp PHI0) with 1. rewrite Rabs_R1. change 1 with (bpow radix2 0). apply bpow_le. lia.
  - change (curved_hp OMEGA) with (bpow radix2 (-10)). apply Rgt_not_eq, bpow_gt_0.
Qed.

Definition nameless : surface := ex_surface (ST false true false false false) None (V3 5 0 0) (V3 1 0 0) (fun x => vx x - 5).

(** A disk, and a surface of no kind, for the same track. *)
Example C97_disk_ex : let out := OVal 0 v3zero in fine_track curved_hp (V3 1 1 1) /\ fine_surface (ex_disk 1026) curved_hp (V3 1 1 1)
  /\ (exists s x, intersectWithSurface_d best at2_best best_asin gate_d (ex_disk 1026) curved_hp (V3 1 1 1) out 1 false = Ok (true, OVal s x)
      /\ Rabs (s - 1024) <= / 100000000000 /\ vz x = 1026)
  /\ intersectWithSurface_d best at2_best best_asin gate_d nameless curved_hp (V3 1 1 1) out 1 false = Ok (false, out).
Proof.
  intros out. assert (K : as_disk (sf_type (ex_disk 1026))) by (repeat split).
  assert (HF : fine_surface (ex_disk 1026) curved_hp (V3 1 1 1)).
  { constructor.
    - intros [(A & _)|(A & _)]; discriminate A.
    - intros (_ & _ & A). discriminate A.
    - intros _. split; [exact (cl_h _ _ _ curved_climbs)|exact (cl_tanl _ _ _ curved_climbs)]. }
  split; [exact curved_fine|]. split; [exact HF|]. split.
  - destruct C90_ex as (f & s & x & Hf & _ & E & Es & _). exists s, x.
    assert (Q : intersectWithSurface_d best at2_best best_asin gate_d (ex_disk 1026) curved_hp (V3 1 1 1) out 1 false = Ok (true, OVal s x)).
    { rewrite (go_disk _ _ _ _ _ _ _ _ _ _ K), E. reflexivity. }
    split; [exact Q|]. split; [exact Es|].
    destruct (disk_case _ _ _ _ _ _ _ _ _ _ f true _ best_accurate curved_fine HF Hf K Q) as (s' & x' & A & B & _).
    injection A as <- <-. exact (re_height _ _ _ _ _ _ B).
  - apply C97_other; intros A; destruct A as (A & A2); try discriminate A; destruct A2 as (A3 & A4); discriminate.
Qed.
Print Assumptions C97_disk_ex.

Definition funnel : surface := ex_surface cone_type (Some (100, V3 0 0 0)) (V3 0 0 0) (V3 1 0 0) (fun x => vx x - 5).

(** A cylinder that is found, and a cone around it that satisfies the hypotheses of C97_answer. *)
Example C97_cylinder_ex : let hp := slanted (/ 4096) in let out := OVal 0 v3zero in fine_track hp v3zero
  /\ fine_surface (ex_cyl 0 0 100) hp v3zero /\ fine_surface funnel hp v3zero
  /\ (exists s x, intersectWithSurface_d best at2_best best_asin gate_d (ex_cyl 0 0 100) hp v3zero out 0 false = Ok (true, OVal s x)
      /\ Rabs (SpecHelix.dist_xy x v3zero - 100) <= / 1000000000000)
  /\ exists b out', intersectWithSurface_d best at2_best best_asin gate_d funnel hp v3zero out 0 false = Ok (b, out').
Proof.
  intros hp out. destruct C91_ex as (f & s & x & Hf & HT & E & Ex & _). assert (O0 := ordinary_0).
  assert (O12 : ordinary (/ 4096)) by exact (ord_bpow (-12) ltac:(lia)).
  assert (FT : fine_track hp v3zero).
  { constructor; auto; try exact moderate_0.
    - change (hp OMEGA) with (/ 4096). lra.
    - assert (M12 : moderate (/ 4096)) by exact (moderate_bpow (-12) ltac:(lia)). assert (M32 : moderate (3 / 2)).
      { split; [exact d_3_2|]. rewrite Rabs_pos_eq by lra. apply Rle_trans with (bpow radix2 1); [change (bpow radix2 1) with 2; lra|apply bpow_le; lia]. }
      assert (M0 := moderate_0). intros i. unfold hp, slanted, mk5.
      repeat match goal with |- moderate (match ?a with _ => _ end) => destruct a end; auto. }
  assert (HC : SpecCylFloat.ordinary_cylinder 100 v3zero).
  { destruct unit_cylinder. constructor; auto.
    - replace 100 with (IZR 100 * bpow radix2 0) by (change (bpow radix2 0) with 1; ring). apply dyadic; lia.
    - lra.
    - apply Rle_trans with (bpow radix2 10); [change (bpow radix2 10) with 1024; lra|apply bpow_le; lia]. }
  assert (F1 : fine_surface (ex_cyl 0 0 100) hp v3zero).
  { constructor; [intros _; split; [reflexivity|]; exists 100, v3zero; auto|intros (A & _); discriminate A|intros (A & _); discriminate A]. }
  assert (F2 : fine_surface funnel hp v3zero).
  { constructor; [intros _; split; [reflexivity|]; exists 100, v3zero; auto|intros (_ & A & _); discriminate A|intros (A & _); discriminate A]. }
  split; [exact FT|]. split; [exact F1|]. split; [exact F2|]. split.
  - exists s, x. split; [|exact Ex]. assert (K : as_cylinder (sf_type (ex_cyl 0 0 100))) by (split; reflexivity).
    rewrite (go_cylinder _ _ _ _ _ _ _ _ _ _ K). unfold hp. rewrite E. reflexivity.
  - destruct (C97_answer best at2_best best_asin gate_d funnel hp v3zero out 0 false f best_sound best_asin_good FT F2 Hf) as [A|(_ & (_ & A & _) & _)];
      [|exact A|discriminate A].
    intros rho c Q. injection Q as <- <-. unfold SpecCylFloat.bend, SpecCylFloat.reach. change (hp OMEGA) with (/ 4096). change (hp D0) with 0.
    cbn [v3zero vx vy]. rewrite !Rabs_R0, Rabs_pos_eq by lra. lra.
Qed.
Print Assumptions C97_cylinder_ex.
