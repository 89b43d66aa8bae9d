(** C64: Vector3D. *)
From Coq Require Import Reals ZArith List Bool Lra Lia.
From Verif Require Import Num Vec VecObj SpecVec NumFacts.
Import ListNotations.
Open Scope R_scope.

Lemma sum_sq0 a b : a * a + b * b = 0 -> a = 0 /\ b = 0.
Proof. intros H. assert (A := Rle_0_sqr a). assert (B := Rle_0_sqr b). unfold Rsqr in *.
  split; apply Rsqr_0_uniq; unfold Rsqr; lra. Qed.

Lemma vtrans_pos v : 0 <= vtrans v.
Proof. apply sqrt_pos. Qed.

Lemma vtrans_sq v : vtrans v * vtrans v = vx v * vx v + vy v * vy v.
Proof. apply sqrt_sqrt. assert (A := Rle_0_sqr (vx v)). assert (B := Rle_0_sqr (vy v)). unfold Rsqr in *. lra. Qed.

Lemma vphi_atan2 v : vtrans v <> 0 -> vphi v = atan2 (vy v) (vx v).
Proof.
  intros H. unfold vphi. destruct (Req_EM_T (vx v) 0) as [X|X]; auto. destruct (Req_EM_T (vy v) 0) as [Y|Y]; auto.
  exfalso. apply H. unfold vtrans. rewrite X, Y. replace (0 * 0 + 0 * 0) with 0 by ring. apply sqrt_0.
Qed.

Lemma vr_trans v : vr v = sqrt (vz v * vz v + vtrans v * vtrans v).
Proof. unfold vr. rewrite vtrans_sq. f_equal. ring. Qed.

Lemma vtheta_eq v : v <> v3zero -> vtheta v = atan2 (vtrans v) (vz v).
Proof.
  intros H. unfold vtheta. destruct (Req_EM_T (vx v) 0) as [X|X]; auto. destruct (Req_EM_T (vy v) 0) as [Y|Y]; auto.
  destruct (Req_EM_T (vz v) 0) as [Z|Z]; auto. exfalso. apply H. destruct v as [x y z]; cbn in *. subst. reflexivity.
Qed.

(** The cylindrical and spherical coordinates of a vector give it back, and lie in
    the usual ranges. *)
Theorem C64_coordinates : forall v,
  v3cyl (vtrans v) (vphi v) (vz v) = v /\ v3sph (vr v) (vphi v) (vtheta v) = v
  /\ - PI < vphi v <= PI /\ 0 <= vtheta v <= PI /\ 0 <= vtrans v <= vr v.
Proof.
  intros v. assert (P := PI_RGT_0).
  assert (Rg : - PI < vphi v <= PI).
  { unfold vphi. destruct (Req_EM_T (vx v) 0); [destruct (Req_EM_T (vy v) 0)|]; try apply atan2_range. lra. }
  assert (Cx : vtrans v * cos (vphi v) = vx v /\ vtrans v * sin (vphi v) = vy v).
  { destruct (Req_dec (vtrans v) 0) as [Z|Z].
    - assert (S := vtrans_sq v). rewrite Z in S. destruct (sum_sq0 (vx v) (vy v)) as [X Y]; [lra|]. rewrite Z, X, Y. split; ring.
    - rewrite vphi_atan2 by auto. split; [apply atan2_cos|apply atan2_sin]. }
  assert (Tr : v <> v3zero -> vr v * cos (vtheta v) = vz v /\ vr v * sin (vtheta v) = vtrans v).
  { intros N. rewrite vtheta_eq, vr_trans by auto. split; [apply atan2_cos|apply atan2_sin]. }
  assert (Th : 0 <= vtheta v <= PI).
  { destruct (Classical_Prop.classic (v = v3zero)) as [->|N].
    - unfold vtheta, v3zero. cbn. destruct (Req_EM_T 0 0); [|lra]. lra.
    - destruct (Tr N) as [_ S]. rewrite vtheta_eq in * by auto. assert (A := atan2_range (vtrans v) (vz v)).
      split; [|lra]. destruct (Rle_lt_dec 0 (atan2 (vtrans v) (vz v))) as [B|B]; auto. exfalso.
      assert (C : sin (atan2 (vtrans v) (vz v)) < 0) by (apply sin_lt_0_var; lra).
      assert (D := vtrans_pos v). assert (E : 0 < vr v).
      { assert (E := sqrt_pos (vx v * vx v + vy v * vy v + vz v * vz v)). fold (vr v) in E. destruct E as [E|E]; auto. exfalso. apply N.
        assert (F : vx v * vx v + vy v * vy v + vz v * vz v = 0).
        { apply sqrt_eq_0; auto. assert (X := Rle_0_sqr (vx v)). assert (Y := Rle_0_sqr (vy v)). assert (Z := Rle_0_sqr (vz v)). unfold Rsqr in *. lra. }
        assert (X := Rle_0_sqr (vx v)). assert (Y := Rle_0_sqr (vy v)). assert (Z := Rle_0_sqr (vz v)). unfold Rsqr in *.
        destruct (sum_sq0 (vx v) (vy v)) as [X1 Y1]; [lra|]. destruct (sum_sq0 (vz v) 0) as [Z1 _]; [lra|].
        destruct v as [x y z]; cbn in *. subst. reflexivity. }
      nra. }
  split; [|split; [|split; [|split]]]; auto.
  - unfold v3cyl. destruct Cx as [-> ->]. destruct v; reflexivity.
  - unfold v3sph. destruct (Classical_Prop.classic (v = v3zero)) as [->|N].
    + assert (Z : vr v3zero = 0) by (unfold vr, v3zero; cbn; replace (0 * 0 + 0 * 0 + 0 * 0) with 0 by ring; apply sqrt_0).
      rewrite Z. unfold v3zero. f_equal; ring.
    + destruct (Tr N) as [-> ->]. destruct Cx as [-> ->]. destruct v; reflexivity.
  - split; [apply vtrans_pos|]. apply sqrt_le_1_alt. assert (Z := Rle_0_sqr (vz v)). unfold Rsqr in *. lra.
Qed.
Print Assumptions C64_coordinates.

(** Coordinates given to the constructors are those read back exactly if they lie in
    the ranges. *)
Theorem C64_constructors :
  (forall rho phi z, rho <> 0 ->
     (vtrans (v3cyl rho phi z) = rho /\ vphi (v3cyl rho phi z) = phi <-> 0 < rho /\ - PI < phi <= PI))
  /\ (forall r phi theta, r <> 0 -> sin theta <> 0 ->
     (vr (v3sph r phi theta) = r /\ vphi (v3sph r phi theta) = phi /\ vtheta (v3sph r phi theta) = theta
      <-> 0 < r /\ - PI < phi <= PI /\ 0 <= theta <= PI)).
Proof.
  assert (Tc : forall rho phi z, 0 <= rho -> vtrans (v3cyl rho phi z) = rho).
  { intros rho phi z H. unfold vtrans, v3cyl. cbn [vx vy].
    replace (rho * cos phi * (rho * cos phi) + rho * sin phi * (rho * sin phi)) with (rho * rho * (Rsqr (sin phi) + Rsqr (cos phi)))
      by (unfold Rsqr; ring). rewrite sin2_cos2, Rmult_1_r. apply sqrt_square. auto. }
  assert (Pc : forall rho phi z, 0 < rho -> - PI < phi <= PI -> vphi (v3cyl rho phi z) = phi).
  { intros rho phi z H Rg. rewrite vphi_atan2 by (rewrite Tc; lra). apply atan2_unique; auto. }
  split.
  - intros rho phi z N. split.
    + intros [A B]. destruct (C64_coordinates (v3cyl rho phi z)) as (_ & _ & C & _). rewrite B in C. split; auto.
      assert (D := vtrans_pos (v3cyl rho phi z)). rewrite A in D. lra.
    + intros [A B]. split; [apply Tc; lra|apply Pc; auto].
  - intros r phi theta N Ns.
    assert (Sc : v3sph r phi theta = v3cyl (r * sin theta) phi (r * cos theta)) by reflexivity. split.
    + intros (A & B & C). destruct (C64_coordinates (v3sph r phi theta)) as (_ & _ & D & E & F). rewrite A in F. rewrite B in D. rewrite C in E.
      split; [lra|]. auto.
    + intros (A & B & C). assert (Sp : 0 < sin theta) by (assert (S := sin_ge_0 theta (proj1 C) (proj2 C)); lra).
      assert (Rs : 0 < r * sin theta) by (apply Rmult_lt_0_compat; auto).
      assert (Tr : vtrans (v3sph r phi theta) = r * sin theta) by (rewrite Sc; apply Tc; lra).
      assert (Vr : vr (v3sph r phi theta) = r).
      { rewrite vr_trans, Tr. unfold v3sph. cbn [vz].
        replace (r * cos theta * (r * cos theta) + r * sin theta * (r * sin theta)) with (r * r * (Rsqr (sin theta) + Rsqr (cos theta)))
          by (unfold Rsqr; ring). rewrite sin2_cos2, Rmult_1_r. apply sqrt_square. lra. }
      split; auto. split; [rewrite Sc; apply Pc; auto|].
      rewrite vtheta_eq; [|intros Z; rewrite Z in Tr; unfold vtrans, v3zero in Tr; cbn in Tr; replace (0 * 0 + 0 * 0) with 0 in Tr by ring; rewrite sqrt_0 in Tr; lra].
      rewrite Tr. unfold v3sph. cbn [vz]. apply atan2_unique; auto. assert (P := PI_RGT_0). lra.
Qed.
Print Assumptions C64_constructors.

(** unit() is the parallel vector of length one; the zero vector has none. *)
Theorem C64_unit : forall v,
  (v <> v3zero -> exists u, vunit v = Ok u /\ vdot u u = 1 /\ v = vscale (vr v) u /\ 0 < vr v)
  /\ (v = v3zero -> vunit v = NonFin).
Proof.
  intros v. split.
  - intros N. assert (Q : 0 <= vx v * vx v + vy v * vy v + vz v * vz v).
    { assert (X := Rle_0_sqr (vx v)). assert (Y := Rle_0_sqr (vy v)). assert (Z := Rle_0_sqr (vz v)). unfold Rsqr in *. lra. }
    assert (S : vr v * vr v = vx v * vx v + vy v * vy v + vz v * vz v) by (apply sqrt_sqrt; auto).
    assert (P : 0 < vr v).
    { assert (E : 0 <= vr v) by apply sqrt_pos. destruct E as [E|E]; auto. exfalso. apply N.
      rewrite <- E in S. assert (X := Rle_0_sqr (vx v)). assert (Y := Rle_0_sqr (vy v)). assert (Z := Rle_0_sqr (vz v)). unfold Rsqr in *.
      destruct (sum_sq0 (vx v) (vy v)) as [X1 Y1]; [lra|]. destruct (sum_sq0 (vz v) 0) as [Z1 _]; [lra|].
      destruct v as [x y z]; cbn in *. subst. reflexivity. }
    unfold vunit. unfold rdiv. destruct (Req_EM_T (vr v) 0) as [Z|Z]; [lra|]. cbn [bind].
    eexists. split; [reflexivity|]. split; [|split; auto].
    + unfold vdot. cbn [vx vy vz]. 
      replace (vx v / vr v * (vx v / vr v) + vy v / vr v * (vy v / vr v) + vz v / vr v * (vz v / vr v))
        with ((vx v * vx v + vy v * vy v + vz v * vz v) / (vr v * vr v)) by (field; auto).
      rewrite S. field. rewrite <- S. apply Rmult_integral_contrapositive; auto.
    + unfold vscale. cbn [vx vy vz]. destruct v as [x y z]. cbn [vx vy vz] in *. f_equal; field; auto.
  - intros ->. unfold vunit, rdiv. 
    assert (Z : vr v3zero = 0) by (unfold vr, v3zero; cbn; replace (0 * 0 + 0 * 0 + 0 * 0) with 0 by ring; apply sqrt_0).
    rewrite Z. destruct (Req_EM_T 0 0); [reflexivity|contradiction].
Qed.
Print Assumptions C64_unit.

(** ** operator[] *)

Lemma vrun_app st l1 : forall l2, vrun st (l1 ++ l2) = vrun (vrun st l1) l2.
Proof. revert st. induction l1; cbn; auto. Qed.

Lemma get_outside v i : ~ component i -> vget v i = 0.
Proof. unfold component, vget. intros H. destruct i as [|[p|p|]|]; auto; try destruct p; auto; exfalso; apply H; lia. Qed.

Lemma ref_get st a i : vref_get st a i = if (0 <=? i)%Z && (i <=? 2)%Z then vget (vs_vec st a) i else vs_dummy st.
Proof.
  destruct ((0 <=? i)%Z && (i <=? 2)%Z) eqn:B.
  - apply andb_prop in B. destruct B as [A B]. apply Z.leb_le in A, B.
    assert (C : (i = 0 \/ i = 1 \/ i = 2)%Z) by lia. destruct C as [->|[->| ->]]; reflexivity.
  - unfold vref_get. destruct i as [|[p|p|]|]; try destruct p; auto; discriminate.
Qed.

Lemma component_cases i : component i -> (i = 0 \/ i = 1 \/ i = 2)%Z.
Proof. unfold component. lia. Qed.

Lemma set_outside st a i x : ~ component i -> vstep st (VSet a i x) = VS (vs_vec st) x.
Proof.
  intros H. unfold vstep. destruct i as [|[p|p|]|]; auto; try destruct p; auto; exfalso; apply H; unfold component; lia.
Qed.

Lemma set_inside st a i x b j : component i -> component j ->
  vget (vs_vec (vstep st (VSet a i x)) b) j = (if Nat.eqb b a && Z.eqb j i then x else vget (vs_vec st b) j)
  /\ vs_dummy (vstep st (VSet a i x)) = vs_dummy st.
Proof.
  intros H K. apply component_cases in H. apply component_cases in K.
  destruct H as [->|[->| ->]]; destruct K as [->|[->| ->]]; cbn; destruct (Nat.eqb b a) eqn:B; cbn; auto; apply Nat.eqb_eq in B; subst; auto.
Qed.

Lemma eta v i : component i -> vget (V3 (vget v 0) (vget v 1) (vget v 2)) i = vget v i.
Proof. intros H. apply component_cases in H. destruct H as [->|[->| ->]]; reflexivity. Qed.

Lemma nth_get x y z i : component i -> nth (Z.to_nat i) [x; y; z] 0 = vget (V3 x y z) i.
Proof. intros H. apply component_cases in H. destruct H as [->|[->| ->]]; reflexivity. Qed.

(** After any sequence of writes, assignments and fills: a coordinate reads, by both
    operators, as the value last written to it, through copies.  Outside of the
    coordinates the const operator reads zero; the other reads what was last
    written outside of the coordinates of any vector.  [ops] has the newest first. *)
Theorem C64_brackets : forall init ops a i x,
  let st := vrun (vs_start init) (rev ops) in
  (component i -> written init ops a i x -> vget (vs_vec st a) i = x /\ vref_get st a i = x)
  /\ (component i -> exists x, written init ops a i x)
  /\ (~ component i -> vget (vs_vec st a) i = 0)
  /\ (~ component i -> (vref_get st a i = x <-> last_outside ops x)).
Proof.
  intros init ops.
  assert (W : forall a i x, component i -> written init ops a i x -> vget (vs_vec (vrun (vs_start init) (rev ops)) a) i = x).
  { intros a i x C H. induction H as [a i v x y z E ->|l a i x|l a i x b j y N H IH|l a b i y H IH|l a b c i y N H IH
      |l a x y z i|l a x y z c i w N H IH|l a b i y H IH|l a b c i y N H IH]; cbn [rev]; try rewrite vrun_app; cbn [vrun].
    - unfold vs_start. cbn [vs_vec]. rewrite E, nth_get; auto.
    - destruct (set_inside (vrun (vs_start init) (rev l)) a i x a i C C) as [-> _]. rewrite Nat.eqb_refl, Z.eqb_refl. reflexivity.
    - specialize (IH C). destruct (Z.leb_spec 0 i) as [L1|L1]; [destruct (Z.leb_spec i 2) as [L2|L2]|].
      + destruct (set_inside (vrun (vs_start init) (rev l)) a i x b j) as [-> _]; [split; lia|auto|].
        destruct (Nat.eqb b a) eqn:B; auto. destruct (Z.eqb j i) eqn:B2; auto. exfalso. apply N.
        apply Nat.eqb_eq in B. apply Z.eqb_eq in B2. subst. reflexivity.
      + rewrite set_outside by (unfold component; lia). exact IH.
      + rewrite set_outside by (unfold component; lia). exact IH.
    - specialize (IH C). cbn [vstep vput vs_vec]. rewrite Nat.eqb_refl. rewrite eta; auto.
    - specialize (IH C). cbn [vstep vput vs_vec]. apply Nat.eqb_neq in N. rewrite N. auto.
    - cbn [vstep vput vs_vec]. rewrite Nat.eqb_refl. rewrite nth_get; auto.
    - specialize (IH C). cbn [vstep vput vs_vec]. apply Nat.eqb_neq in N. rewrite N. auto.
    - specialize (IH C). cbn [vstep vput vs_vec]. rewrite Nat.eqb_refl. rewrite eta; auto.
    - specialize (IH C). cbn [vstep vput vs_vec]. apply Nat.eqb_neq in N. rewrite N. auto. }
  assert (D : forall x, vs_dummy (vrun (vs_start init) (rev ops)) = x <-> last_outside ops x).
  { clear W. induction ops as [|o l IH]; intros x; cbn [rev].
    - cbn. split; [intros <-; constructor|]. intros H. inversion H. auto.
    - rewrite vrun_app. cbn [vrun]. set (st := vrun (vs_start init) (rev l)) in *.
      assert (Same : (forall a i y, o = VSet a i y -> component i) -> vs_dummy (vstep st o) = vs_dummy st).
      { intros H. destruct o as [a i y|a b|a p q r|a b]; try reflexivity.
        specialize (H _ _ _ eq_refl). exact (proj2 (set_inside st a i y a i H H)). }
      destruct (Classical_Prop.classic (forall a i y, o = VSet a i y -> component i)) as [A|A].
      + rewrite (Same A). split.
        * intros Q. apply lo_other; auto. apply IH; auto.
        * intros Q. inversion Q as [|l' a i y N E|l' o' y N Q']; subst; [exfalso; eapply N, A; reflexivity|]. apply IH. auto.
      + assert (X : exists a i y, o = VSet a i y /\ ~ component i).
        { destruct o as [a i y|a b|a p q r|a b].
          2-4: exfalso; apply A; intros; discriminate.
          exists a, i, y. split; auto. intros C. apply A. intros a' i' y' Q. injection Q as <- <- <-. auto. }
        destruct X as (a & i & y & -> & N). rewrite set_outside by auto. cbn [vs_dummy]. split.
        * intros <-. constructor; auto.
        * intros Q. inversion Q as [|l' a' i' y' N' E|l' o' y' N' Q']; subst; auto. exfalso. eapply N, N'. reflexivity. }
  intros a i x st. split; [|split; [|split]].
  - intros C H. assert (Q := W a i x C H). split; auto. rewrite ref_get.
    destruct C as [C1 C2]. apply Z.leb_le in C1, C2. rewrite C1, C2. exact Q.
  - intros C. clear W D st. revert a. induction ops as [|o l IH]; intros a.
    + destruct (init a) as [p q r] eqn:E. eexists. eapply wr_init; eauto.
    + destruct o as [b j y|b c|b p q r|b c].
      * destruct (Nat.eq_dec a b) as [->|N]; [destruct (Z.eq_dec i j) as [->|N]|].
        -- eexists. constructor.
        -- destruct (IH b) as [w Hw]. exists w. apply wr_set_other; auto. congruence.
        -- destruct (IH a) as [w Hw]. exists w. apply wr_set_other; auto. congruence.
      * destruct (Nat.eq_dec a b) as [->|N]; [destruct (IH c) as [w Hw]|destruct (IH a) as [w Hw]]; exists w; constructor; auto.
      * destruct (Nat.eq_dec a b) as [->|N]; [eexists; constructor|destruct (IH a) as [w Hw]]; exists w; constructor; auto.
      * destruct (Nat.eq_dec a b) as [->|N]; [destruct (IH c) as [w Hw]|destruct (IH a) as [w Hw]]; exists w; constructor; auto.
  - apply get_outside.
  - intros C. rewrite ref_get.
    assert (B : (0 <=? i)%Z && (i <=? 2)%Z = false).
    { destruct (Z.leb_spec 0 i); destruct (Z.leb_spec i 2); auto. exfalso. apply C. split; auto. }
    rewrite B. apply D.
Qed.
Print Assumptions C64_brackets.

(** v[0] = 5; w[7] = 3; u = v: then u[0] is 5, v[9] reads 3 or 0. *)
Example C64_brackets_instance :
  let ops := [VAssign 2 0; VSet 1 7 3; VSet 0 0 5] in
  written (fun _ => v3zero) ops 2 0 5 /\ last_outside ops 3
  /\ vref_get (vrun (vs_start (fun _ => v3zero)) (rev ops)) 0 9 = 3
  /\ vget (vs_vec (vrun (vs_start (fun _ => v3zero)) (rev ops)) 0) 9 = 0.
Proof.
  cbv zeta. split; [|split; [|split]]; try reflexivity.
  - apply wr_assign. apply wr_set_other; [discriminate|]. constructor.
  - apply lo_other; [intros; discriminate|]. constructor. unfold component. lia.
Qed.

Example C64_constructors_instance : exists rho phi, rho <> 0 /\ ~ (0 < rho /\ - PI < phi <= PI)
  /\ exists rho' phi', 0 < rho' /\ - PI < phi' <= PI /\ v3cyl rho phi 0 = v3cyl rho' phi' 0.
Proof.
  exists (-1), 0. split; [lra|]. split; [lra|]. exists 1, PI. assert (P := PI_RGT_0). split; [lra|]. split; [lra|].
  unfold v3cyl. rewrite cos_0, sin_0, cos_PI, sin_PI. f_equal; ring.
Qed.
