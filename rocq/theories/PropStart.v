(** Property C22: the start helix through three points. *)
From Coq Require Import Reals Lra.
From Coquelicot Require Import Coquelicot.
From Verif Require Import Num NumFacts Vec Helix SpecHelix HelixFacts StartFacts.
Open Scope R_scope.

(** C22.  For any three points with non-collinear projections the helix starts
    at the first one, bends to the proper side, passes within one turn over the
    second and then the third projection (backwards if asked to), and climbs from
    the second to the third by their difference in height. *)
Theorem C22_start_helix : forall x1 x2 x3 tp backward, turn x1 x2 x3 <> 0 ->
  exists hp, calculateStartHelix x1 x2 x3 tp backward = Ok (TP (tp_cov tp) hp x1)
  /\ hp OMEGA <> 0 /\ hp D0 = 0 /\ hp Z0 = 0
  /\ - (PI / 2) < hp PHI0 <= 3 * (PI / 2)
  /\ (if backward then 0 < hp OMEGA * turn x1 x2 x3 else hp OMEGA * turn x1 x2 x3 < 0)
  /\ forall f, is_helix hp x1 f ->
     f 0 = x1
     /\ exists s2 s3,
          (if backward then - (2 * PI / Rabs (hp OMEGA)) < s3 /\ s3 < s2 < 0
           else 0 < s2 < s3 /\ s3 < 2 * PI / Rabs (hp OMEGA))
          /\ vx (f s2) = vx x2 /\ vy (f s2) = vy x2
          /\ vx (f s3) = vx x3 /\ vy (f s3) = vy x3
          /\ vz (f s3) - vz (f s2) = vz x3 - vz x2.
Proof. exact start_through_points. Qed.
Print Assumptions C22_start_helix.

(** Finite parameters exactly for non-collinear projections. *)
Theorem C22_collinear : forall x1 x2 x3 tp backward,
  calculateStartHelix x1 x2 x3 tp backward = NonFin <-> turn x1 x2 x3 = 0.
Proof.
  intros. split; [|apply start_degenerate].
  intros E. destruct (Req_dec (turn x1 x2 x3) 0) as [|N]; auto.
  destruct (start_through_points x1 x2 x3 tp backward N) as [hp [E' _]]. congruence.
Qed.
Print Assumptions C22_collinear.

(** The name suggests a helix through the three points; in space it need not
    meet the second and third point at all. *)
Theorem C22_through_all_points_refuted : exists x1 x2 x3 tp hp f,
  calculateStartHelix x1 x2 x3 tp false = Ok (TP (tp_cov tp) hp x1)
  /\ is_helix hp x1 f /\ forall s, f s <> x2 /\ f s <> x3.
Proof.
  set (x1 := V3 0 0 0). set (x2 := V3 1 0 1). set (x3 := V3 1 1 1).
  set (tp := TP m5zero (mk5 0 0 0 0 0) v3zero).
  assert (N : turn x1 x2 x3 <> 0) by (unfold turn, x1, x2, x3; cbn [vx vy]; lra).
  destruct (start_through_points x1 x2 x3 tp false N) as [hp (E & HO & _ & Hz & _ & _ & P)].
  assert (Hf := hcurve_helix hp x1 HO).
  exists x1, x2, x3, tp, hp, (hcurve hp x1). split; [exact E|]. split; [exact Hf|].
  destruct (P _ Hf) as [_ (s2 & s3 & Q & _ & _ & _ & _ & Z)].
  unfold hcurve in Z. cbn [vz] in Z. cbn in Q, Z.
  assert (T : hp TANL = 0) by (apply Rmult_eq_reg_r with (s3 - s2); lra).
  intros s. split; intros F; apply (f_equal vz) in F; unfold hcurve in F; cbn [vz] in F;
    rewrite T, Hz in F; cbn in F; lra.
Qed.
Print Assumptions C22_through_all_points_refuted.

(** A case of [C22_start_helix]. *)
Example C22_case : turn (V3 0 0 0) (V3 1 0 1) (V3 1 1 3) <> 0.
Proof. unfold turn; cbn [vx vy]. lra. Qed.
