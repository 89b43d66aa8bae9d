(** The hypotheses of the convergence theorems near a crossing. *)
From Coq Require Import Reals Lra Lia Psatz ZArith List Bool.
From Coquelicot Require Import Coquelicot.
From Verif Require Import SpecConst Num NumFacts Vec Helix Isect SpecHelix SpecIsect HelixFacts SpecNewton NewtonFacts.
Open Scope R_scope.

Lemma mvt (F dF : R -> R) a b : (forall x, Rmin a b <= x <= Rmax a b -> is_derive F x (dF x)) ->
  exists c, Rmin a b <= c <= Rmax a b /\ F b - F a = dF c * (b - a).
Proof.
  intros H. apply MVT_gen.
  - intros x Hx. apply H. lra.
  - intros x Hx. apply derivable_continuous_pt. exists (dF x). apply is_derive_Reals. apply H. auto.
Qed.

Lemma between_dist a b c z r : Rmin a b <= c <= Rmax a b -> Rabs (a - z) <= r -> Rabs (b - z) <= r -> Rabs (c - z) <= r.
Proof.
  intros H A B. apply Rabs_le_between in A. apply Rabs_le_between in B. apply Rabs_le_between.
  unfold Rmin, Rmax in H. destruct (Rle_dec a b); lra.
Qed.

Lemma between_abs a b c : Rmin a b <= c <= Rmax a b -> Rabs (c - a) <= Rabs (b - a).
Proof.
  intros H. unfold Rmin, Rmax in H. destruct (Rle_dec a b).
  - rewrite !Rabs_pos_eq; lra.
  - rewrite !Rabs_left1; lra.
Qed.

Lemma crossing_tame surf hp f sc r d0 g L :
  (forall s, Rabs (s - sc) <= r -> is_derive (fun t => sf_distance surf (f t)) s (rate surf hp f s)) ->
  (forall s s', Rabs (s - sc) <= r -> Rabs (s' - sc) <= r ->
     Rabs (rate surf hp f s' - rate surf hp f s) <= L * Rabs (s' - s)) ->
  sf_distance surf (f sc) = 0 -> 0 < g -> 0 <= L -> 2 * g <= Rabs (rate surf hp f sc) -> L * r <= g ->
  0 <= r -> (1 + stretch hp) * d0 / g <= r ->
  tame surf hp f (fun s => Rabs (s - sc) <= r) d0 g L.
Proof.
  intros HD HL Z Hg HL0 H2 Hr R0 Hd.
  assert (Isc : Rabs (sc - sc) <= r) by (rewrite Rminus_diag_eq, Rabs_R0 by auto; lra).
  assert (HR : forall s, Rabs (s - sc) <= r -> g <= Rabs (rate surf hp f s)).
  { intros s Hs. assert (A := HL sc s Isc Hs).
    assert (B : Rabs (rate surf hp f sc) <= Rabs (rate surf hp f s) + Rabs (rate surf hp f s - rate surf hp f sc)).
    { rewrite <- (Rabs_Ropp (rate surf hp f s - _)). eapply Rle_trans; [|apply Rabs_triang]. right. f_equal. ring. }
    assert (L * Rabs (s - sc) <= L * r) by (apply Rmult_le_compat_l; auto). lra. }
  constructor; auto.
  - intros s s' Is Ds St.
    destruct (mvt (fun t => sf_distance surf (f t)) (rate surf hp f) sc s) as (c & Hc & E).
    { intros x Hx. apply HD. eapply between_dist; eauto. }
    assert (Hg' := HR c (between_dist _ _ _ _ _ Hc Isc Is)).
    cbv beta in E. rewrite Z, Rminus_0_r in E. rewrite E, Rabs_mult in Ds.
    assert (P := Rabs_pos (s - sc)).
    assert (A : Rabs (s - sc) <= d0 / g).
    { apply Rmult_le_reg_r with g; auto. replace (d0 / g * g) with d0 by (field; lra). nra. }
    replace (s' - sc) with ((s' - s) + (s - sc)) by ring. eapply Rle_trans; [apply Rabs_triang|].
    eapply Rle_trans; [|exact Hd]. replace ((1 + stretch hp) * d0 / g) with (stretch hp * d0 / g + d0 / g) by (field; lra). lra.
  - intros s s' Is Is'.
    destruct (mvt (fun t => sf_distance surf (f t)) (rate surf hp f) s s') as (c & Hc & E).
    { intros x Hx. apply HD. eapply between_dist; eauto. }
    cbv beta in E. rewrite E. rewrite <- Rmult_minus_distr_r, Rabs_mult.
    assert (A := HL s c Is (between_dist _ _ _ _ _ Hc Is Is')).
    assert (B := between_abs _ _ _ Hc).
    replace ((s' - s) * (s' - s)) with (Rabs (s' - s) * Rabs (s' - s)) by (rewrite <- Rabs_mult; apply Rabs_pos_eq, Rle_0_sqr).
    rewrite <- Rmult_assoc. apply Rmult_le_compat_r; [apply Rabs_pos|].
    eapply Rle_trans; [exact A|]. apply Rmult_le_compat_l; auto.
Qed.

Lemma lin3_derive (F G H : R -> R) a b c x y z s dF dG dH :
  is_derive F s dF -> is_derive G s dG -> is_derive H s dH ->
  is_derive (fun t => (F t - a) * x + (G t - b) * y + (H t - c) * z) s (dF * x + dG * y + dH * z).
Proof.
  intros A B C. auto_derive.
  - repeat split; eexists; eauto.
  - replace (Derive (fun x0 => F x0) s) with dF by (symmetry; apply is_derive_unique; exact A).
    replace (Derive (fun x0 => G x0) s) with dG by (symmetry; apply is_derive_unique; exact B).
    replace (Derive (fun x0 => H x0) s) with dH by (symmetry; apply is_derive_unique; exact C). ring.
Qed.

(** planes *)
Lemma plane_derive surf hp rp f n o s : is_helix hp rp f ->
  (forall x, sf_normal surf x = n) -> (forall x, sf_distance surf x = vdot (vsub x o) n) ->
  is_derive (fun t => sf_distance surf (f t)) s (rate surf hp f s).
Proof.
  intros [_ Dx Dy Dz] Hn Hd. unfold rate. rewrite Hn.
  apply is_derive_ext with (fun t => (vx (f t) - vx o) * vx n + (vy (f t) - vy o) * vy n + (vz (f t) - vz o) * vz n).
  { intros t. rewrite Hd. unfold vdot, vsub. cbn [vx vy vz]. reflexivity. }
  replace (vdot n (velocity hp s)) with (cos (hp PHI0 - hp OMEGA * s) * vx n + sin (hp PHI0 - hp OMEGA * s) * vy n + hp TANL * vz n)
    by (unfold vdot, velocity; cbn [vx vy vz]; ring).
  apply (lin3_derive (fun t => vx (f t)) (fun t => vy (f t)) (fun t => vz (f t))); auto.
Qed.

Lemma plane_rate_lipschitz surf hp f n s s' : (forall x, sf_normal surf x = n) -> vx n * vx n + vy n * vy n <= 1 ->
  Rabs (rate surf hp f s' - rate surf hp f s) <= Rabs (hp OMEGA) * Rabs (s' - s).
Proof.
  intros Hn N.
  set (w := hp OMEGA). set (ph := hp PHI0).
  destruct (mvt (rate surf hp f) (fun t => w * (vx n * sin (ph - w * t) - vy n * cos (ph - w * t))) s s') as (c & Hc & E).
  - intros t _. apply is_derive_ext with (fun t => vx n * cos (ph - w * t) + vy n * sin (ph - w * t) + vz n * hp TANL).
    { intros u. unfold rate. rewrite Hn. unfold vdot, velocity. cbn [vx vy vz]. reflexivity. }
    clearbody w ph. auto_derive; auto. unfold Rminus. ring.
  - rewrite E, Rabs_mult. apply Rmult_le_compat_r; [apply Rabs_pos|]. rewrite Rabs_mult.
    rewrite <- (Rmult_1_r (Rabs w)) at 2. apply Rmult_le_compat_l; [apply Rabs_pos|].
    set (a := ph - w * c). assert (S := sin2_cos2 a). unfold Rsqr in S.
    apply Rabs_le.
    assert (Q : (vx n * sin a - vy n * cos a) * (vx n * sin a - vy n * cos a) <= 1).
    { assert (0 <= (vx n * cos a + vy n * sin a) * (vx n * cos a + vy n * sin a)) by apply Rle_0_sqr.
      assert ((vx n * sin a - vy n * cos a) * (vx n * sin a - vy n * cos a)
        + (vx n * cos a + vy n * sin a) * (vx n * cos a + vy n * sin a) = (vx n * vx n + vy n * vy n) * (sin a * sin a + cos a * cos a)) by ring.
      rewrite S in *. lra. }
    split; nra.
Qed.
