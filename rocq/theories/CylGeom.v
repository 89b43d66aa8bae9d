(** Distances in the transverse plane. *)
From Coq Require Import Reals Lra Psatz Rgeom.
From Flocq Require Import Core.
From Verif Require Import Num NumFacts Vec SpecHelix HelixFacts Isect SpecIsect SurfFacts.
Open Scope R_scope.

Lemma dist_tri a b m : dist_xy a b <= dist_xy a m + dist_xy m b.
Proof. exact (triangle (vx a) (vy a) (vx b) (vy b) (vx m) (vy m)). Qed.
Lemma dist_sym a b : dist_xy a b = dist_xy b a.
Proof. unfold dist_xy. f_equal. ring. Qed.
Lemma dist_pos a b : 0 <= dist_xy a b.
Proof. apply sqrt_pos. Qed.
Lemma dist_sq a b : dist_xy a b * dist_xy a b = (vx a - vx b) * (vx a - vx b) + (vy a - vy b) * (vy a - vy b).
Proof. apply sqrt_sqrt. apply ss_nonneg. Qed.
Lemma dist_le a b e : Rabs (vx a - vx b) <= e -> Rabs (vy a - vy b) <= e -> dist_xy a b <= 142 / 100 * e.
Proof.
  intros X Y. assert (E0 : 0 <= e) by (eapply Rle_trans; [apply Rabs_pos|exact X]).
  unfold dist_xy. rewrite <- (sqrt_square (142 / 100 * e)) by lra. apply sqrt_le_1_alt.
  assert (forall z, Rabs z <= e -> z * z <= e * e).
  { intros z Hz. rewrite <- (Rabs_pos_eq (z * z)) by nra. rewrite Rabs_mult. apply Rmult_le_compat; auto using Rabs_pos. }
  assert (A := H _ X). assert (B := H _ Y). nra.
Qed.
Lemma dist_x a b : Rabs (vx a - vx b) <= dist_xy a b /\ Rabs (vy a - vy b) <= dist_xy a b.
Proof.
  unfold dist_xy. generalize (vx a - vx b) (vy a - vy b). intros z w.
  split; (rewrite <- (sqrt_square (Rabs _)) by apply Rabs_pos); apply sqrt_le_1_alt; rewrite <- Rabs_mult, Rabs_pos_eq; nra.
Qed.

(** the point of a circle closest to a given point *)
Lemma circle_near cx cy r x y : 0 < r -> exists X Y, (X - cx) * (X - cx) + (Y - cy) * (Y - cy) = r * r
  /\ sqrt ((X - x) * (X - x) + (Y - y) * (Y - y)) = Rabs (sqrt ((x - cx) * (x - cx) + (y - cy) * (y - cy)) - r).
Proof.
  intros R0. set (d2 := (x - cx) * (x - cx) + (y - cy) * (y - cy)). assert (D2 : 0 <= d2) by apply ss_nonneg.
  set (d := sqrt d2). assert (DD : d * d = d2) by (apply sqrt_sqrt; auto). assert (D0 : 0 <= d) by apply sqrt_pos. clearbody d.
  destruct (Req_dec d 0) as [Z|N].
  - assert (x = cx /\ y = cy).
    { rewrite Z in DD. unfold d2 in DD. generalize (Rle_0_sqr (x - cx)) (Rle_0_sqr (y - cy)). unfold Rsqr. intros.
      assert ((x - cx) * (x - cx) = 0) by lra. assert ((y - cy) * (y - cy) = 0) by lra.
      apply Rmult_integral in H1. apply Rmult_integral in H2. lra. }
    destruct H as [-> ->]. exists (cx + r), cy. split; [ring|]. rewrite Z.
    replace ((cx + r - cx) * (cx + r - cx) + (cy - cy) * (cy - cy)) with (r * r) by ring. rewrite sqrt_square by lra. rewrite Rabs_minus_sym, Rminus_0_r, Rabs_pos_eq; lra.
  - exists (cx + r / d * (x - cx)), (cy + r / d * (y - cy)). split.
    + transitivity (r / d * (r / d) * d2); [unfold d2; ring|]. rewrite <- DD. field. auto.
    + replace ((cx + r / d * (x - cx) - x) * (cx + r / d * (x - cx) - x) + (cy + r / d * (y - cy) - y) * (cy + r / d * (y - cy) - y))
        with ((d - r) * (d - r)).
      * apply sqrt_Rsqr_abs.
      * transitivity ((r / d - 1) * (r / d - 1) * d2); [rewrite <- DD; field; auto|unfold d2; ring].
Qed.
