(** Proofs about the propagation Jacobian (C28, C29). *)
From Coq Require Import Reals Lra List Psatz.
From Coquelicot Require Import Coquelicot.
From Verif Require Import SpecConst Num NumFacts Vec Helix Propag SpecMat SpecTrans SpecPropag TransFacts JacFacts.
Import ListNotations.
Open Scope R_scope.

Lemma v3eq a b : vx a = vx b -> vy a = vy b -> vz a = vz b -> a = b.
Proof. destruct a, b; simpl; intros; subst; reflexivity. Qed.

(** rotation about the unit vector [h], and its integral *)
Definition rot (th : R) (h a : vec3) : vec3 :=
  vadd (vscale (cos th) a) (vadd (vscale (sin th) (vcross h a)) (vscale ((1 - cos th) * vdot h a) h)).
Definition irot (th : R) (h a : vec3) : vec3 :=
  vadd (vscale (sin th) a) (vadd (vscale (1 - cos th) (vcross h a)) (vscale ((th - sin th) * vdot h a) h)).

Ltac vx3 := unfold rot, irot, vadd, vsub, vscale, vcross, vdot; cbn [vx vy vz].

Lemma dot_add_r a b c : vdot a (vadd b c) = vdot a b + vdot a c. Proof. vx3; ring. Qed.
Lemma dot_scale_r a k c : vdot a (vscale k c) = k * vdot a c. Proof. vx3; ring. Qed.
Lemma dot_sub_r a b c : vdot a (vsub b c) = vdot a b - vdot a c. Proof. vx3; ring. Qed.
Lemma dot_comm a b : vdot a b = vdot b a. Proof. vx3; ring. Qed.

Lemma rot_0 h a : rot 0 h a = a.
Proof. vx3. rewrite sin_0, cos_0. apply v3eq; cbn; ring. Qed.
Lemma irot_0 h a : irot 0 h a = v3zero.
Proof. vx3. rewrite sin_0, cos_0. apply v3eq; cbn; ring. Qed.
Lemma rot_dot_h th h a : vdot h h = 1 -> vdot h (rot th h a) = vdot h a.
Proof.
  intros H. unfold rot. rewrite !dot_add_r, !dot_scale_r, H.
  replace (vdot h (vcross h a)) with 0 by (vx3; ring). ring.
Qed.

Lemma cross_rot th h a : vdot h h = 1 ->
  vcross h (rot th h a) =
  vadd (vscale (- sin th) a) (vadd (vscale (cos th) (vcross h a)) (vscale (sin th * vdot h a) h)).
Proof.
  intros H. 
  transitivity (vadd (vscale (- sin th * vdot h h) a) (vadd (vscale (cos th) (vcross h a)) (vscale (sin th * vdot h a) h))).
  - vx3. apply v3eq; cbn; ring.
  - rewrite H. f_equal. f_equal. ring.
Qed.

(** derivatives of curves *)
Lemma vderive_rot th h (a : R -> vec3) x th' a' : vdot h h = 1 ->
  is_derive th x th' -> vderive a x a' ->
  vderive (fun e => rot (th e) h (a e)) x (vadd (rot (th x) h a') (vscale th' (vcross h (rot (th x) h (a x))))).
Proof.
  intros H Dt (D1 & D2 & D3). rewrite cross_rot by auto.
  assert (E1 := is_derive_unique _ _ _ D1). assert (E2 := is_derive_unique _ _ _ D2). assert (E3 := is_derive_unique _ _ _ D3).
  assert (Et := is_derive_unique _ _ _ Dt).
  assert (X1 : ex_derive (fun t => vx (a t)) x) by (eexists; eauto).
  assert (X2 : ex_derive (fun t => vy (a t)) x) by (eexists; eauto).
  assert (X3 : ex_derive (fun t => vz (a t)) x) by (eexists; eauto).
  assert (Xt : ex_derive th x) by (eexists; eauto).
  unfold vderive. vx3.
  set (ax := fun t => vx (a t)) in *. set (ay := fun t => vy (a t)) in *. set (az := fun t => vz (a t)) in *.
  change (vx (a x)) with (ax x). change (vy (a x)) with (ay x). change (vz (a x)) with (az x).
  change (ex_derive ax x) in X1. change (ex_derive ay x) in X2. change (ex_derive az x) in X3.
  change (Derive ax x = vx a') in E1. change (Derive ay x = vy a') in E2. change (Derive az x = vz a') in E3.
  rewrite <- E1, <- E2, <- E3, <- Et. clear E1 E2 E3 Et D1 D2 D3 Dt.
  split; [|split].
  - apply (is_derive_ext (fun t => cos (th t) * ax t + (sin (th t) * (vy h * az t - vz h * ay t)
       + (1 - cos (th t)) * (vx h * ax t + vy h * ay t + vz h * az t) * vx h))); [intros; reflexivity|].
    clearbody ax ay az. auto_derive; [repeat split; assumption|].
    change (fun t => ax t) with ax. change (fun t => ay t) with ay. change (fun t => az t) with az. change (fun t => th t) with th. ring.
  - apply (is_derive_ext (fun t => cos (th t) * ay t + (sin (th t) * (vz h * ax t - vx h * az t)
       + (1 - cos (th t)) * (vx h * ax t + vy h * ay t + vz h * az t) * vy h))); [intros; reflexivity|].
    clearbody ax ay az. auto_derive; [repeat split; assumption|].
    change (fun t => ax t) with ax. change (fun t => ay t) with ay. change (fun t => az t) with az. change (fun t => th t) with th. ring.
  - apply (is_derive_ext (fun t => cos (th t) * az t + (sin (th t) * (vx h * ay t - vy h * ax t)
       + (1 - cos (th t)) * (vx h * ax t + vy h * ay t + vz h * az t) * vz h))); [intros; reflexivity|].
    clearbody ax ay az. auto_derive; [repeat split; assumption|].
    change (fun t => ax t) with ax. change (fun t => ay t) with ay. change (fun t => az t) with az. change (fun t => th t) with th. ring.
Qed.

Lemma vderive_irot th h (a : R -> vec3) x th' a' :
  is_derive th x th' -> vderive a x a' ->
  vderive (fun e => irot (th e) h (a e)) x (vadd (irot (th x) h a') (vscale th' (rot (th x) h (a x)))).
Proof.
  intros Dt (D1 & D2 & D3).
  assert (E1 := is_derive_unique _ _ _ D1). assert (E2 := is_derive_unique _ _ _ D2). assert (E3 := is_derive_unique _ _ _ D3).
  assert (Et := is_derive_unique _ _ _ Dt).
  assert (X1 : ex_derive (fun t => vx (a t)) x) by (eexists; eauto).
  assert (X2 : ex_derive (fun t => vy (a t)) x) by (eexists; eauto).
  assert (X3 : ex_derive (fun t => vz (a t)) x) by (eexists; eauto).
  assert (Xt : ex_derive th x) by (eexists; eauto).
  unfold vderive. vx3.
  set (ax := fun t => vx (a t)) in *. set (ay := fun t => vy (a t)) in *. set (az := fun t => vz (a t)) in *.
  change (vx (a x)) with (ax x). change (vy (a x)) with (ay x). change (vz (a x)) with (az x).
  change (ex_derive ax x) in X1. change (ex_derive ay x) in X2. change (ex_derive az x) in X3.
  change (Derive ax x = vx a') in E1. change (Derive ay x = vy a') in E2. change (Derive az x = vz a') in E3.
  rewrite <- E1, <- E2, <- E3, <- Et. clear E1 E2 E3 Et D1 D2 D3 Dt.
  split; [|split].
  - apply (is_derive_ext (fun t => sin (th t) * ax t + ((1 - cos (th t)) * (vy h * az t - vz h * ay t)
       + (th t - sin (th t)) * (vx h * ax t + vy h * ay t + vz h * az t) * vx h))); [intros; reflexivity|].
    clearbody ax ay az. auto_derive; [repeat split; assumption|].
    change (fun t => ax t) with ax. change (fun t => ay t) with ay. change (fun t => az t) with az. change (fun t => th t) with th. ring.
  - apply (is_derive_ext (fun t => sin (th t) * ay t + ((1 - cos (th t)) * (vz h * ax t - vx h * az t)
       + (th t - sin (th t)) * (vx h * ax t + vy h * ay t + vz h * az t) * vy h))); [intros; reflexivity|].
    clearbody ax ay az. auto_derive; [repeat split; assumption|].
    change (fun t => ax t) with ax. change (fun t => ay t) with ay. change (fun t => az t) with az. change (fun t => th t) with th. ring.
  - apply (is_derive_ext (fun t => sin (th t) * az t + ((1 - cos (th t)) * (vx h * ay t - vy h * ax t)
       + (th t - sin (th t)) * (vx h * ax t + vy h * ay t + vz h * az t) * vz h))); [intros; reflexivity|].
    clearbody ax ay az. auto_derive; [repeat split; assumption|].
    change (fun t => ax t) with ax. change (fun t => ay t) with ay. change (fun t => az t) with az. change (fun t => th t) with th. ring.
Qed.

Lemma vderive_scale (k : R -> R) (a : R -> vec3) x k' a' :
  is_derive k x k' -> vderive a x a' ->
  vderive (fun e => vscale (k e) (a e)) x (vadd (vscale k' (a x)) (vscale (k x) a')).
Proof.
  intros Dt (D1 & D2 & D3). unfold vderive. vx3.
  assert (M : forall (g : R -> R) g', is_derive g x g' -> is_derive (fun t => k t * g t) x (k' * g x + k x * g')).
  { intros g g' G. apply (is_derive_mult k g x k' g' Dt G). intros; apply Rmult_comm. }
  split; [|split]; apply M; assumption.
Qed.

Lemma vderive_add (a b : R -> vec3) x a' b' :
  vderive a x a' -> vderive b x b' -> vderive (fun e => vadd (a e) (b e)) x (vadd a' b').
Proof.
  intros (D1 & D2 & D3) (G1 & G2 & G3). unfold vderive. vx3.
  split; [|split]; apply (is_derive_plus (V := R_NormedModule)); assumption.
Qed.

Lemma vderive_const (c : vec3) x : vderive (fun _ => c) x v3zero.
Proof. split; [|split]; cbn; apply (is_derive_const (V := R_NormedModule)). Qed.

Lemma vderive_dot (a : R -> vec3) c x a' : vderive a x a' -> is_derive (fun e => vdot (a e) c) x (vdot a' c).
Proof.
  intros (D1 & D2 & D3). unfold vdot.
  assert (M : forall (g : R -> R) g' (k : R), is_derive g x g' -> is_derive (fun t => g t * k) x (g' * k)).
  { intros g g' k G.
    apply (is_derive_ext (fun t => k * g t)); [intros; apply Rmult_comm|].
    apply (derive_val _ _ (k * g')); [|ring]. apply is_derive_scal. exact G. }
  apply (is_derive_plus (V := R_NormedModule)); [apply (is_derive_plus (V := R_NormedModule))|]; apply M; assumption.
Qed.

Lemma vderive_ext_loc (a b : R -> vec3) x a' : locally x (fun e => a e = b e) -> vderive a x a' -> vderive b x a'.
Proof.
  intros L (D1 & D2 & D3). split; [|split].
  - apply (is_derive_ext_loc (fun t => vx (a t))); auto. revert L. apply filter_imp. intros t ->; auto.
  - apply (is_derive_ext_loc (fun t => vy (a t))); auto. revert L. apply filter_imp. intros t ->; auto.
  - apply (is_derive_ext_loc (fun t => vz (a t))); auto. revert L. apply filter_imp. intros t ->; auto.
Qed.

Lemma vderive_unique a x d1 d2 : vderive a x d1 -> vderive a x d2 -> d1 = d2.
Proof.
  intros (A1 & A2 & A3) (B1 & B2 & B3). apply v3eq.
  - rewrite <- (is_derive_unique _ _ _ A1). apply is_derive_unique. auto.
  - rewrite <- (is_derive_unique _ _ _ A2). apply is_derive_unique. auto.
  - rewrite <- (is_derive_unique _ _ _ A3). apply is_derive_unique. auto.
Qed.

(** * Solution of the equations of motion *)
Lemma const_of_zero_derive (f : R -> R) : (forall s, is_derive f s 0) -> forall s, f s = f 0.
Proof.
  intros H s. apply (HelixFacts.eq_of_derive f (fun _ => f 0) (fun _ => 0)); auto.
  intros t. apply (is_derive_const (V := R_NormedModule)).
Qed.

Lemma unit_field b : b <> v3zero -> exists h, vunit b = Ok h /\ vdot h h = 1 /\ 0 < vr b /\ b = vscale (vr b) h.
Proof.
  intros Hm. unfold vunit.
  assert (P : 0 < vr b).
  { unfold vr. apply sqrt_lt_R0. destruct b as [x y z]. cbn [vx vy vz].
    assert (x <> 0 \/ y <> 0 \/ z <> 0).
    { destruct (Req_dec x 0), (Req_dec y 0), (Req_dec z 0); auto. exfalso. apply Hm. subst. reflexivity. }
    destruct H as [|[|]]; nra. }
  assert (N : vx b * vx b + vy b * vy b + vz b * vz b = vr b * vr b).
  { unfold vr. rewrite sqrt_sqrt; auto. nra. }
  rewrite !rdiv_ok by lra. eexists. split; [reflexivity|]. split; [|split; auto].
  - vx3. transitivity ((vx b * vx b + vy b * vy b + vz b * vz b) / (vr b * vr b)); [field; lra|].
    rewrite N. field. lra.
  - apply v3eq; cbn; field; lra.
Qed.

Lemma motion_unique b qop x0 t0 X T h : b = vscale (vr b) h -> vdot h h = 1 ->
  let Q := - vr b * convertBr2P_cm * qop in
  Q <> 0 -> motion b qop x0 t0 X T ->
  forall s, T s = rot (Q * s) h t0 /\ X s = vadd x0 (vscale (1 / Q) (irot (Q * s) h t0)).
Proof.
  intros Eb Hh Q HQ M.
  assert (Dq : forall s, is_derive (fun t => Q * t) s Q) by (intros; auto_derive; auto; ring).
  assert (Ef : forall t, vscale (convertBr2P_cm * qop) (vcross t b) = vscale Q (vcross h t)).
  { intros t. rewrite Eb. unfold Q. vx3. apply v3eq; cbn [vx vy vz]; ring. }
  assert (HT : forall s, T s = rot (Q * s) h t0).
  { set (D := fun s => vadd (T s) (vscale (-1) (rot (Q * s) h t0))).
    assert (DD : forall s, vderive D s (vscale Q (vcross h (D s)))).
    { intros s. unfold D.
      assert (R1 := vderive_rot (fun s => Q * s) h (fun _ => t0) s Q v3zero Hh (Dq s) (vderive_const t0 s)).
      assert (R2 := vderive_scale (fun _ => -1) _ s 0 _ (is_derive_const (V := R_NormedModule) (-1) s) R1).
      assert (T1 := mo_dt _ _ _ _ _ _ M s). change field_unit with convertBr2P_cm in T1. rewrite Ef in T1.
      assert (R3 := vderive_add _ _ _ _ _ T1 R2). cbv beta in R3.
      match type of R3 with vderive _ _ ?d => match goal with |- vderive _ _ ?d' => replace d' with d end end; [exact R3|].
      set (r := rot (Q * s) h t0).
      replace (rot (Q * s) h v3zero) with v3zero by (unfold v3zero; vx3; apply v3eq; cbn; ring).
      unfold v3zero. vx3. apply v3eq; cbn [vx vy vz]; ring. }
    assert (N : forall s, vdot (D s) (D s) = 0).
    { intros s. transitivity (vdot (D 0) (D 0)).
      - apply (const_of_zero_derive (fun s => vdot (D s) (D s))). intros t.
        destruct (DD t) as (D1 & D2 & D3). unfold vdot.
        assert (M2 : forall (g : R -> R) g', is_derive g t g' -> is_derive (fun t => g t * g t) t (2 * g t * g')).
        { intros g g' G. apply (derive_val _ _ (g' * g t + g t * g')); [|ring].
          apply (is_derive_mult g g t g' g' G G). intros; apply Rmult_comm. }
        apply M2 in D1. apply M2 in D2. apply M2 in D3.
        eapply derive_val.
        + apply (is_derive_plus (V := R_NormedModule)); [apply (is_derive_plus (V := R_NormedModule))|].
          exact D1. exact D2. exact D3.
        + change plus with Rplus. vx3. ring.
      - unfold D. rewrite (mo_t0 _ _ _ _ _ _ M), Rmult_0_r, rot_0. vx3. ring. }
    intros s. specialize (N s). unfold vdot in N.
    assert (vx (D s) = 0 /\ vy (D s) = 0 /\ vz (D s) = 0) as (A & B & C).
    { set (p := vx (D s)) in *. set (q := vy (D s)) in *. set (r := vz (D s)) in *. clearbody p q r. repeat split; nra. }
    unfold D, vadd, vscale in A, B, C. cbn [vx vy vz] in A, B, C. apply v3eq; lra. }
  intros s. split; [apply HT|].
  assert (HX : forall s, vderive (fun s => vadd x0 (vscale (1 / Q) (irot (Q * s) h t0))) s (T s)).
  { intros t.
    assert (R1 := vderive_irot (fun s => Q * s) h (fun _ => t0) t Q v3zero (Dq t) (vderive_const t0 t)).
    assert (R2 := vderive_scale (fun _ => 1 / Q) _ t 0 _ (is_derive_const (V := R_NormedModule) (1 / Q) t) R1).
    assert (R3 := vderive_add _ _ _ _ _ (vderive_const x0 t) R2). cbv beta in R3.
    match type of R3 with vderive _ _ ?d => replace (T t) with d end; [exact R3|].
    rewrite (HT t). set (r := rot (Q * t) h t0). set (i := irot (Q * t) h t0).
    replace (irot (Q * t) h v3zero) with v3zero by (unfold v3zero; vx3; apply v3eq; cbn; ring).
    unfold v3zero. vx3. apply v3eq; cbn [vx vy vz]; field; auto. }
  assert (X0 : vadd x0 (vscale (1 / Q) (irot (Q * 0) h t0)) = X 0).
  { rewrite (mo_x0 _ _ _ _ _ _ M), Rmult_0_r, irot_0. unfold v3zero; vx3. apply v3eq; cbn; ring. }
  apply v3eq.
  - apply (HelixFacts.eq_of_derive (fun s => vx (X s)) (fun s => vx (vadd x0 (vscale (1 / Q) (irot (Q * s) h t0)))) (fun s => vx (T s))).
    + intros t. apply (mo_dx _ _ _ _ _ _ M t).
    + intros t. apply (HX t).
    + rewrite X0. reflexivity.
  - apply (HelixFacts.eq_of_derive (fun s => vy (X s)) (fun s => vy (vadd x0 (vscale (1 / Q) (irot (Q * s) h t0)))) (fun s => vy (T s))).
    + intros t. apply (mo_dx _ _ _ _ _ _ M t).
    + intros t. apply (HX t).
    + rewrite X0. reflexivity.
  - apply (HelixFacts.eq_of_derive (fun s => vz (X s)) (fun s => vz (vadd x0 (vscale (1 / Q) (irot (Q * s) h t0)))) (fun s => vz (T s))).
    + intros t. apply (mo_dx _ _ _ _ _ _ M t).
    + intros t. apply (HX t).
    + rewrite X0. reflexivity.
Qed.

Lemma motion_exists b qop x0 t0 h : b = vscale (vr b) h -> vdot h h = 1 ->
  let Q := - vr b * convertBr2P_cm * qop in
  Q <> 0 -> motion b qop x0 t0 (fun s => vadd x0 (vscale (1 / Q) (irot (Q * s) h t0))) (fun s => rot (Q * s) h t0).
Proof.
  intros Eb Hh Q HQ.
  assert (Dq : forall s, is_derive (fun t => Q * t) s Q) by (intros; auto_derive; auto; ring).
  assert (Ef : forall t, vscale (convertBr2P_cm * qop) (vcross t b) = vscale Q (vcross h t)).
  { intros t. rewrite Eb. unfold Q. vx3. apply v3eq; cbn [vx vy vz]; ring. }
  split.
  - rewrite Rmult_0_r, irot_0. unfold v3zero; vx3. apply v3eq; cbn; ring.
  - rewrite Rmult_0_r. apply rot_0.
  - intros t.
    assert (R1 := vderive_irot (fun s => Q * s) h (fun _ => t0) t Q v3zero (Dq t) (vderive_const t0 t)).
    assert (R2 := vderive_scale (fun _ => 1 / Q) _ t 0 _ (is_derive_const (V := R_NormedModule) (1 / Q) t) R1).
    assert (R3 := vderive_add _ _ _ _ _ (vderive_const x0 t) R2). cbv beta in R3.
    match type of R3 with vderive _ _ ?d => replace (rot (Q * t) h t0) with d end; [exact R3|].
    set (r := rot (Q * t) h t0). set (i := irot (Q * t) h t0).
    replace (irot (Q * t) h v3zero) with v3zero by (unfold v3zero; vx3; apply v3eq; cbn; ring).
    unfold v3zero. vx3. apply v3eq; cbn [vx vy vz]; field; auto.
  - intros s. rewrite Ef.
    assert (R1 := vderive_rot (fun s => Q * s) h (fun _ => t0) s Q v3zero Hh (Dq s) (vderive_const t0 s)). cbv beta in R1.
    match type of R1 with vderive _ _ ?d => match goal with |- vderive _ _ ?d' => replace d' with d end end; [exact R1|].
    set (r := rot (Q * s) h t0).
    replace (rot (Q * s) h v3zero) with v3zero by (unfold v3zero; vx3; apply v3eq; cbn; ring).
    unfold v3zero. vx3. apply v3eq; cbn [vx vy vz]; ring.
Qed.

(** * The Jacobian of the code in terms of the axes *)
Lemma trans_dirvec l f : 0 < cos l -> sqrt (vx (dirvec l f) * vx (dirvec l f) + vy (dirvec l f) * vy (dirvec l f)) = cos l.
Proof.
  intros H. unfold dirvec; cbn [vx vy].
  replace (cos l * cos f * (cos l * cos f) + cos l * sin f * (cos l * sin f)) with (cos l * cos l * (sin f * sin f + cos f * cos f)) by ring.
  rewrite sc1, Rmult_1_r. apply sqrt_square. lra.
Qed.

Lemma frame_dirvec l f : is_frame (axis_u l f) (axis_v l f) (dirvec l f).
Proof.
  assert (L := sc1 l). assert (F := sc1 f). unfold is_frame, axis_u, axis_v, dirvec. vx3.
  set (sl := sin l) in *. set (cl := cos l) in *. set (sf := sin f) in *. set (cf := cos f) in *. clearbody sl cl sf cf.
  split; [lra|].
  split; [transitivity (sl * sl * (sf * sf + cf * cf) + cl * cl); [ring|]; rewrite F; lra|].
  split; [transitivity (cl * cl * (sf * sf + cf * cf) + sl * sl); [ring|]; rewrite F; lra|].
  split; [ring|]. split; [ring|].
  split; [transitivity (sl * cl - sl * cl * (sf * sf + cf * cf)); [ring|]; rewrite F; lra|].
  f_equal; try ring. transitivity (sl * (sf * sf + cf * cf)); [ring|]. rewrite F. ring.
Qed.

Lemma code_u l f : 0 < cos l ->
  V3 (- (1 / cos l) * vy (dirvec l f)) (1 / cos l * vx (dirvec l f)) 0 = axis_u l f.
Proof. intros H. unfold dirvec, axis_u; cbn [vx vy]. f_equal; field; lra. Qed.

Lemma code_v l f : 
  V3 (- vz (dirvec l f) * vy (axis_u l f)) (vz (dirvec l f) * vx (axis_u l f))
     (vx (dirvec l f) * vy (axis_u l f) - vy (dirvec l f) * vx (axis_u l f)) = axis_v l f.
Proof.
  assert (F := sc1 f). unfold dirvec, axis_u, axis_v; cbn [vx vy vz]. f_equal; try ring.
  transitivity (cos l * (sin f * sin f + cos f * cos f)); [ring|]. rewrite F. ring.
Qed.

Section Transport.
Variables (b : vec3) (qop dw : R) (x0 : vec3) (l f : R) (w : vec5).
Variables (X T : R -> R -> vec3) (sg la ph : R -> R).
Variables (h : vec3).
Hypothesis Eb : b = vscale (vr b) h.
Hypothesis Hh : vdot h h = 1.
Hypothesis Pb : 0 < vr b.
Hypothesis Hq : qop <> 0.
Hypothesis Cl : 0 < cos l.
Hypothesis F : transport_family b qop dw x0 l f w X T sg la ph.

Let qp := - vr b * convertBr2P_cm.
Let Q := qp * qop.
Let u1 := axis_u l f.
Let v1 := axis_v l f.
Let t1 := dirvec l f.
Let l2 := la 0.
Let f2 := ph 0.
Let u2 := axis_u l2 f2.
Let v2 := axis_v l2 f2.
Let t2 := dirvec l2 f2.
Let th := Q * dw.
Let dt0 := vadd (vscale (w I1) v1) (vscale (w I2 * cos l) u1).
Let dx0 := vadd (vscale (w I3) u1) (vscale (w I4) v1).
Let dX := vscale (1 / Q) (irot th h t1).

Lemma qp_nz : qp <> 0.
Proof.
  unfold qp. assert (0 < convertBr2P_cm) by (unfold convertBr2P_cm; lra).
  assert (0 < vr b * convertBr2P_cm) by (apply Rmult_lt_0_compat; auto).
  intros E. assert (vr b * convertBr2P_cm = 0) by (rewrite Ropp_mult_distr_l_reverse in E; lra). lra.
Qed.
Lemma Q_nz : Q <> 0.
Proof. apply Rmult_integral_contrapositive_currified; [exact qp_nz | exact Hq]. Qed.

Lemma q_near : locally 0 (fun e => qp * (qop + e * w I0) <> 0).
Proof.
  apply (near_nonzero (fun e => qp * (qop + e * w I0))).
  - auto_derive. auto.
  - rewrite Rmult_0_l, Rplus_0_r. exact Q_nz.
Qed.

Lemma dir_start : vderive (fun e => dirvec (l + e * w I1) (f + e * w I2)) 0 dt0.
Proof.
  unfold dt0, v1, u1, vderive, dirvec, axis_u, axis_v, vadd, vscale. cbn [vx vy vz].
  split; [|split].
  - auto_derive; auto. rewrite !Rmult_0_l, !Rplus_0_r. ring.
  - auto_derive; auto. rewrite !Rmult_0_l, !Rplus_0_r. ring.
  - auto_derive; auto. rewrite !Rmult_0_l, !Rplus_0_r. ring.
Qed.

Lemma sol e s : qp * (qop + e * w I0) <> 0 ->
  T e s = rot (qp * (qop + e * w I0) * s) h (dirvec (l + e * w I1) (f + e * w I2))
  /\ X e s = vadd (vadd x0 (vscale e dx0))
       (vscale (1 / (qp * (qop + e * w I0))) (irot (qp * (qop + e * w I0) * s) h (dirvec (l + e * w I1) (f + e * w I2)))).
Proof.
  intros N. exact (motion_unique _ _ _ _ _ _ h Eb Hh N (tf_motion _ _ _ _ _ _ _ _ _ _ _ _ F e) s).
Qed.

Lemma q_zero : qp * (qop + 0 * w I0) <> 0.
Proof. rewrite Rmult_0_l, Rplus_0_r. exact Q_nz. Qed.

Lemma t2_eq : T 0 dw = t2 /\ t2 = rot th h t1.
Proof.
  assert (S := tf_sg0 _ _ _ _ _ _ _ _ _ _ _ _ F).
  assert (D := tf_dir _ _ _ _ _ _ _ _ _ _ _ _ F). apply locally_singleton in D. rewrite S in D.
  split; [exact D|]. 
  destruct (sol 0 dw q_zero) as [E _].
  unfold t2, l2, f2. rewrite <- D, E. rewrite !Rmult_0_l, !Rplus_0_r. reflexivity.
Qed.

Lemma X0_eq : X 0 dw = vadd x0 dX.
Proof.
  destruct (sol 0 dw q_zero) as [_ E].
  rewrite E. rewrite !Rmult_0_l, !Rplus_0_r.
  replace (vadd x0 (vscale 0 dx0)) with x0 by (vx3; apply v3eq; cbn [vx vy vz]; ring). reflexivity.
Qed.

Lemma end_derivatives : exists s' th',
  is_derive sg 0 s' /\ th' = qp * w I0 * dw + Q * s'
  /\ vderive (fun e => T e (sg e)) 0 (vadd (rot th h dt0) (vscale th' (vcross h t2)))
  /\ vderive (fun e => X e (sg e)) 0
       (vadd dx0 (vadd (vscale (- (qp * w I0) / Q) dX) (vscale (1 / Q) (vadd (irot th h dt0) (vscale th' t2))))).
Proof.
  destruct (tf_dsg _ _ _ _ _ _ _ _ _ _ _ _ F) as [s' Ds].
  exists s', (qp * w I0 * dw + Q * s'). split; auto. split; auto.
  assert (S := tf_sg0 _ _ _ _ _ _ _ _ _ _ _ _ F).
  set (q := fun e => qp * (qop + e * w I0)).
  assert (q0 : q 0 = Q) by (unfold q, Q; ring).
  assert (Dq : is_derive q 0 (qp * w I0)) by (unfold q; auto_derive; auto; ring).
  set (te := fun e => q e * sg e).
  assert (t0 : te 0 = th) by (unfold te, th; rewrite q0, S; ring).
  assert (Dt : is_derive te 0 (qp * w I0 * dw + Q * s')).
  { apply (derive_val _ _ (qp * w I0 * sg 0 + q 0 * s')); [|rewrite S, q0; ring].
    apply (is_derive_mult q sg 0 _ _ Dq Ds). intros; apply Rmult_comm. }
  set (d := fun e => dirvec (l + e * w I1) (f + e * w I2)).
  assert (d0 : d 0 = t1) by (unfold d, t1; rewrite !Rmult_0_l, !Rplus_0_r; reflexivity).
  assert (Sol : locally 0 (fun e => T e (sg e) = rot (te e) h (d e)
     /\ X e (sg e) = vadd (vadd x0 (vscale e dx0)) (vscale (1 / q e) (irot (te e) h (d e))))).
  { generalize q_near. apply filter_imp. intros e N.
    exact (sol e (sg e) N). }
  destruct t2_eq as [_ E2]. split.
  - apply (vderive_ext_loc (fun e => rot (te e) h (d e))).
    { revert Sol. apply filter_imp. intros e [A _]. auto. }
    assert (R := vderive_rot te h d 0 _ dt0 Hh Dt dir_start). rewrite t0, d0, <- E2 in R. exact R.
  - apply (vderive_ext_loc (fun e => vadd (vadd x0 (vscale e dx0)) (vscale (1 / q e) (irot (te e) h (d e))))).
    { revert Sol. apply filter_imp. intros e [_ A]. auto. }
    assert (R1 := vderive_irot te h d 0 _ dt0 Dt dir_start). rewrite t0, d0, <- E2 in R1.
    assert (Di : is_derive (fun e => 1 / q e) 0 (- (qp * w I0) / (Q * Q))).
    { unfold q. auto_derive; [rewrite Rmult_0_l, Rplus_0_r; exact Q_nz|]. rewrite Rmult_0_l, Rplus_0_r. fold Q.
      field. exact Q_nz. }
    assert (R2 := vderive_scale (fun e => 1 / q e) _ 0 _ _ Di R1). cbv beta in R2. rewrite q0, t0, d0 in R2.
    assert (R3 := vderive_scale (fun e => e) (fun _ => dx0) 0 1 v3zero (is_derive_id 0) (vderive_const dx0 0)).
    assert (R4 := vderive_add _ _ _ _ _ (vderive_add _ _ _ _ _ (vderive_const x0 0) R3) R2). cbv beta in R4.
    match type of R4 with vderive _ _ ?d => match goal with |- vderive _ _ ?d' => replace d' with d end end; [exact R4|].
    unfold dX. set (i1 := irot th h t1). set (i2 := irot th h dt0). set (T2 := t2). set (D := dx0).
    assert (NQ := Q_nz). clearbody i1 i2 T2 D. unfold v3zero. vx3. apply v3eq; cbn [vx vy vz]; field; auto.
Qed.

Lemma direction_derivative a' p' : is_derive la 0 a' -> is_derive ph 0 p' ->
  vderive (fun e => dirvec (la e) (ph e)) 0 (vadd (vscale a' v2) (vscale (p' * cos l2) u2)).
Proof.
  intros Da Dp. 
  assert (Ea := is_derive_unique _ _ _ Da). assert (Ep := is_derive_unique _ _ _ Dp).
  assert (Xa : ex_derive la 0) by (eexists; eauto). assert (Xp : ex_derive ph 0) by (eexists; eauto).
  rewrite <- Ea, <- Ep. unfold v2, u2, l2, f2, vderive, dirvec, axis_u, axis_v, vadd, vscale. cbn [vx vy vz].
  clear - Xa Xp.
  split; [|split]; (auto_derive; [repeat split; assumption|]);
    change (fun x : R => la x) with la; change (fun x : R => ph x) with ph; ring.
Qed.

(** derivative of the end coordinates, as scalar products *)
Lemma end_coords_derivative : exists th' a' p',
  th' = - Q * vdot dx0 t2 + qp * w I0 * vdot dX t2 - vdot (irot th h dt0) t2
  /\ is_derive la 0 a' /\ is_derive ph 0 p'
  /\ a' = vdot (rot th h dt0) v2 + th' * vdot (vcross h t2) v2
  /\ p' * cos l2 = vdot (rot th h dt0) u2 + th' * vdot (vcross h t2) u2
  /\ (forall c, vdot t2 c = 0 ->
       is_derive (fun e => vdot (vsub (X e (sg e)) (X 0 dw)) c) 0
         (vdot dx0 c - qp * w I0 / Q * vdot dX c + 1 / Q * vdot (irot th h dt0) c)).
Proof.
  destruct end_derivatives as (s' & th' & Ds & Et & DT & DX).
  assert (NQ := Q_nz).
  assert (Sub : forall c d, vderive (fun e => X e (sg e)) 0 d ->
     is_derive (fun e => vdot (vsub (X e (sg e)) (X 0 dw)) c) 0 (vdot d c)).
  { intros c d D. apply (is_derive_ext (fun e => vdot (vadd (X e (sg e)) (vscale (-1) (X 0 dw))) c)).
    - intros t. change (@eq R (vdot (vadd (X t (sg t)) (vscale (-1) (X 0 dw))) c) (vdot (vsub (X t (sg t)) (X 0 dw)) c)). vx3. ring.
    - apply (derive_val _ _ (vdot (vadd d v3zero) c)); [|unfold v3zero; vx3; ring].
      apply (vderive_dot (fun e => vadd (X e (sg e)) (vscale (-1) (X 0 dw)))).
      apply (vderive_add (fun e => X e (sg e)) (fun _ => vscale (-1) (X 0 dw))); auto. apply vderive_const. }
  destruct (frame_dirvec l2 f2) as (Fu & Fv & Ft & Fuv & Fut & Fvt & _).
  fold u2 v2 t2 in Fu, Fv, Ft, Fuv, Fut, Fvt.
  destruct (tf_dla _ _ _ _ _ _ _ _ _ _ _ _ F) as [a' Da]. destruct (tf_dph _ _ _ _ _ _ _ _ _ _ _ _ F) as [p' Dp].
  exists th', a', p'.
  assert (Lin : forall c, vdot (vadd dx0 (vadd (vscale (- (qp * w I0) / Q) dX) (vscale (1 / Q) (vadd (irot th h dt0) (vscale th' t2))))) c
     = vdot dx0 c - qp * w I0 / Q * vdot dX c + 1 / Q * vdot (irot th h dt0) c + th' / Q * vdot t2 c).
  { intros c. set (i := irot th h dt0). set (D := dX). set (E := dx0). set (G := t2). clearbody i D E G. vx3. field. auto. }
  assert (K : th' = - Q * vdot dx0 t2 + qp * w I0 * vdot dX t2 - vdot (irot th h dt0) t2).
  { assert (Pl := tf_plane _ _ _ _ _ _ _ _ _ _ _ _ F). destruct t2_eq as [E2 _]. rewrite E2 in Pl.
    assert (Z := Sub t2 _ DX).
    assert (Z0 : is_derive (fun e => vdot (vsub (X e (sg e)) (X 0 dw)) t2) 0 0).
    { apply (is_derive_ext_loc (fun _ => 0)).
      - revert Pl. apply filter_imp. intros e E. auto.
      - apply (is_derive_const (V := R_NormedModule)). }
    assert (E := is_derive_unique _ _ _ Z). rewrite (is_derive_unique _ _ _ Z0) in E. rewrite Lin in E.
    rewrite Ft, Rmult_1_r in E.
    apply (Rmult_eq_compat_l Q) in E. rewrite Rmult_0_r in E.
    assert (E' : 0 = Q * vdot dx0 t2 - qp * w I0 * vdot dX t2 + vdot (irot th h dt0) t2 + th').
    { rewrite E. field. auto. }
    lra. }
  split; [exact K|]. split; [exact Da|]. split; [exact Dp|].
  assert (Dd := direction_derivative _ _ Da Dp).
  assert (Dd' : vderive (fun e => T e (sg e)) 0 (vadd (vscale a' v2) (vscale (p' * cos l2) u2))).
  { apply (vderive_ext_loc (fun e => dirvec (la e) (ph e))); auto.
    generalize (tf_dir _ _ _ _ _ _ _ _ _ _ _ _ F). apply filter_imp. intros e E; auto. }
  assert (E := vderive_unique _ _ _ _ Dd' DT).
  split; [|split].
  - assert (G := f_equal (fun x => vdot x v2) E). cbv beta in G.
    rewrite (dot_comm _ v2), (dot_comm (vadd (rot th h dt0) _)) in G. rewrite !dot_add_r, !dot_scale_r in G.
    rewrite (dot_comm v2 u2), Fuv, Fv in G. rewrite (dot_comm (rot th h dt0)), (dot_comm (vcross h t2)). lra.
  - assert (G := f_equal (fun x => vdot x u2) E). cbv beta in G.
    rewrite (dot_comm _ u2), (dot_comm (vadd (rot th h dt0) _)) in G. rewrite !dot_add_r, !dot_scale_r in G.
    rewrite Fuv, Fu in G. rewrite (dot_comm (rot th h dt0)), (dot_comm (vcross h t2)). lra.
  - intros c Hc. apply (derive_val _ _ _ _ (Sub c _ DX)). rewrite Lin, Hc. ring.
Qed.
End Transport.

(** the matrix applied to a correction, for arbitrary vectors *)
Section Code.
Variables (dw qop qp c1 c2 : R) (t1 t2 h u1 v1 u2 v2 : vec3) (a1 a2 : R) (w : vec5) (jac : mat5) (nl : R).
Hypothesis Hq : qop <> 0.
Hypothesis Hqp : qp <> 0.
Hypothesis Hc2 : c2 <> 0.
Hypothesis EU1 : V3 (- a1 * vy t1) (a1 * vx t1) 0 = u1.
Hypothesis EV1 : V3 (- vz t1 * vy u1) (vz t1 * vx u1) (vx t1 * vy u1 - vy t1 * vx u1) = v1.
Hypothesis EU2 : V3 (- a2 * vy t2) (a2 * vx t2) 0 = u2.
Hypothesis EV2 : V3 (- vz t2 * vy u2) (vz t2 * vx u2) (vx t2 * vy u2 - vy t2 * vx u2) = v2.
Hypothesis Eg : vdot h t2 = vdot h t1.
Hypothesis EN : vdot (vcross h t2) v2 = - vdot h u2.
Hypothesis EM : vdot (vcross h t2) u2 = vdot h v2.
Let Q := qp * qop.
Let th := Q * dw.
Let dt0 := vadd (vscale (w I1) v1) (vscale (w I2 * c1) u1).
Let dx0 := vadd (vscale (w I3) u1) (vscale (w I4) v1).
Let dX := vscale (1 / Q) (irot th h t1).
Let th' := - Q * vdot dx0 t2 + qp * w I0 * vdot dX t2 - vdot (irot th h dt0) t2.
Let J := helixJacobian jac dw qop qp Q c1 c2 a1 a2 t1 t2 h nl.

Lemma code_dx :
  V3 (- (vdot h t2 * (th - sin th) * vx h + sin th * vx t1 + (1 - cos th) * vx (vcross h t1)) / Q)
     (- (vdot h t2 * (th - sin th) * vy h + sin th * vy t1 + (1 - cos th) * vy (vcross h t1)) / Q)
     (- (vdot h t2 * (th - sin th) * vz h + sin th * vz t1 + (1 - cos th) * vz (vcross h t1)) / Q)
  = vscale (-1) dX.
Proof.
  rewrite Eg. unfold dX, irot, vadd, vscale. cbn [vx vy vz].
  set (g := vdot h t1). set (k := vcross h t1). assert (N : Q <> 0) by (apply Rmult_integral_contrapositive_currified; auto).
  clearbody g k. apply v3eq; cbn [vx vy vz]; field; auto.
Qed.

Lemma code_rows :
  sum5 (fun j => J I1 j * w j) = vdot (rot th h dt0) v2 + th' * vdot (vcross h t2) v2
  /\ c2 * sum5 (fun j => J I2 j * w j) = vdot (rot th h dt0) u2 + th' * vdot (vcross h t2) u2
  /\ sum5 (fun j => J I3 j * w j) = vdot dx0 u2 - qp * w I0 / Q * vdot dX u2 + 1 / Q * vdot (irot th h dt0) u2
  /\ sum5 (fun j => J I4 j * w j) = vdot dx0 v2 - qp * w I0 / Q * vdot dX v2 + 1 / Q * vdot (irot th h dt0) v2.
Proof.
  assert (D := code_dx). unfold J, helixJacobian, sum5. cbv zeta. cbn [vx vy vz] in D.
  fold th. rewrite EU1, EV1, EU2, EV2, D.
  rewrite EN, EM. unfold th'. 
  assert (N : Q <> 0) by (apply Rmult_integral_contrapositive_currified; auto).
  assert (EQ : Q = qp * qop) by reflexivity.
  assert (Eg' : vdot h t2 * vdot h u1 = vdot h t2 * vdot h u1) by reflexivity.
  clear D EU1 EV1 EU2 EV2 Eg EN EM Eg'.
  unfold dt0, dx0. set (D := dX). clearbody D.
  set (s := sin th). set (c := cos th). 
  assert (LR : forall z a k p r, vdot (rot th h (vadd (vscale a p) (vscale k r))) z
     = a * (c * vdot p z + s * vdot (vcross h p) z + (1 - c) * vdot h p * vdot h z)
       + k * (c * vdot r z + s * vdot (vcross h r) z + (1 - c) * vdot h r * vdot h z)).
  { intros. unfold s, c. vx3. ring. }
  assert (LI : forall z a k p r, vdot (irot th h (vadd (vscale a p) (vscale k r))) z
     = a * (s * vdot p z + (1 - c) * vdot (vcross h p) z + (th - s) * vdot h p * vdot h z)
       + k * (s * vdot r z + (1 - c) * vdot (vcross h r) z + (th - s) * vdot h r * vdot h z)).
  { intros. unfold s, c. vx3. ring. }
  assert (LX : forall z a k p r, vdot (vadd (vscale a p) (vscale k r)) z = a * vdot p z + k * vdot r z).
  { intros. vx3. ring. }
  assert (LD : forall z, vdot z (vscale (-1) D) = - vdot D z) by (intros; vx3; ring).
  assert (LC : forall p, vdot (vcross h p) t2 = - vdot (vcross h t2) p) by (intros; vx3; ring).
  rewrite !LR, !LI, !LX, !LD, !LC.
  rewrite (dot_comm t2 u1), (dot_comm t2 v1).
  clearbody th s c. clear LR LI LX LD LC. 
  repeat match goal with |- context [vdot ?x ?y] => let d := fresh "d" in set (d := vdot x y) in *; clearbody d end.
  split; [|split; [|split]].
  - ring.
  - field. auto.
  - rewrite EQ. field. auto.
  - rewrite EQ. field. auto.
Qed.
End Code.

(** C29 *)
Lemma jacobian_is_derivative b qop dw x0 l f w X T sg la ph :
  b <> v3zero -> qop <> 0 -> 0 < cos l ->
  transport_family b qop dw x0 l f w X T sg la ph ->
  exists J, analyticalJacobian m5zero dw qop (dirvec l f) (T 0 dw) b 0 = Ok J
  /\ forall i, is_derive (fun e => end_coords qop dw w X sg la ph e i) 0 (m5mulv J w i).
Proof.
  intros Hb Hq Cl F.
  destruct (unit_field b Hb) as [h (Eu & Hh & Pb & Eb)].
  destruct (t2_eq b qop dw x0 l f w X T sg la ph h Eb Hh Pb Hq F) as [E2 ER].
  assert (C2 := tf_cos _ _ _ _ _ _ _ _ _ _ _ _ F).
  assert (Nqp := qp_nz b Pb). assert (NQ := Q_nz b qop Pb Hq). cbv zeta in NQ, Nqp.
  rewrite E2. unfold analyticalJacobian. cbv zeta.
  destruct Req_EM_T as [Z|_]; [contradiction|].
  unfold vtrans. rewrite !trans_dirvec by auto.
  rewrite (rdiv_ok 1 (cos (la 0))) by lra. cbn [bind]. rewrite Eu. cbn [bind].
  rewrite (rdiv_ok 1 qop) by auto. cbn [bind]. rewrite (rdiv_ok 1 (cos l)) by lra. cbn [bind].
  eexists. split; [reflexivity|].
  set (qp := - vr b * convertBr2P_cm) in *.
  assert (Eg : vdot h (dirvec (la 0) (ph 0)) = vdot h (dirvec l f)) by (rewrite ER; apply rot_dot_h; auto).
  assert (EN : vdot (vcross h (dirvec (la 0) (ph 0))) (axis_v (la 0) (ph 0)) = - vdot h (axis_u (la 0) (ph 0))).
  { destruct (frame_dirvec (la 0) (ph 0)) as (_ & Fv & _ & Fuv & _ & Fvt & E). rewrite <- E.
    set (u := axis_u (la 0) (ph 0)) in *. set (v := axis_v (la 0) (ph 0)) in *. clearbody u v.
    transitivity (- (vdot h u * vdot v v - vdot h v * vdot u v)); [vx3; ring|]. rewrite Fv, Fuv. ring. }
  assert (EM : vdot (vcross h (dirvec (la 0) (ph 0))) (axis_u (la 0) (ph 0)) = vdot h (axis_v (la 0) (ph 0))).
  { destruct (frame_dirvec (la 0) (ph 0)) as (Fu & _ & _ & Fuv & _ & Fvt & E). rewrite <- E.
    set (u := axis_u (la 0) (ph 0)) in *. set (v := axis_v (la 0) (ph 0)) in *. clearbody u v.
    transitivity (vdot h v * vdot u u - vdot h u * vdot u v); [vx3; ring|]. rewrite Fu, Fuv. ring. }
  assert (C2n : cos (la 0) <> 0) by lra.
  destruct (code_rows dw qop qp (cos l) (cos (la 0)) (dirvec l f) (dirvec (la 0) (ph 0)) h
     (axis_u l f) (axis_v l f) (axis_u (la 0) (ph 0)) (axis_v (la 0) (ph 0)) (1 / cos l) (1 / cos (la 0)) w m5zero 0
     Hq Nqp C2n (code_u l f Cl) (code_v l f) (code_u (la 0) (ph 0) C2) (code_v (la 0) (ph 0)) Eg EN EM)
    as (R1 & R2 & R3 & R4).
  destruct (end_coords_derivative b qop dw x0 l f w X T sg la ph h Eb Hh Pb Hq F)
    as (th' & a' & p' & K & Da & Dp & Ea & Ep & Dx).
  cbv zeta in *. fold qp in K, Ea, Ep, Dx.
  rewrite <- K in R1, R2. rewrite <- Ea in R1. rewrite <- Ep in R2.
  destruct (frame_dirvec (la 0) (ph 0)) as (_ & _ & _ & _ & Fut & Fvt & _).
  intros i. destruct i; unfold end_coords, mk5.
  - apply (derive_val _ _ (w I0)); [auto_derive; auto; ring|]. unfold m5mulv, sum5. cbn. unfold m5zero. ring.
  - eapply derive_val; [exact Da|]. rewrite <- R1. reflexivity.
  - eapply derive_val; [exact Dp|]. apply Rmult_eq_reg_l with (cos (la 0)); auto. 
    rewrite (Rmult_comm _ p'), <- R2. reflexivity.
  - eapply derive_val; [apply Dx|].
    + rewrite dot_comm. exact Fut.
    + rewrite <- R3. reflexivity.
  - eapply derive_val; [apply Dx|].
    + rewrite dot_comm. exact Fvt.
    + rewrite <- R4. reflexivity.
Qed.
