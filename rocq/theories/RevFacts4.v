(** Proofs about tracks followed backwards (C72): where the two directions are
    treated differently. *)
From Coq Require Import Reals Lra Lia ZArith Psatz List Bool FunctionalExtensionality.
From Verif Require Import SpecConst Num NumFacts Vec Helix Isect SpecHelix SpecIsect SpecSym SpecRev
  HelixFacts PathFacts IsectFacts SurfFacts SymFacts SymFacts2 RevFacts RevFacts2.
Import ListNotations.
Open Scope R_scope.

(** crossings ahead and behind at the same distance: the one ahead is taken *)
Lemma tie_ahead S p rp rho c o a : p OMEGA <> 0 -> azimuth_ok p -> 0 < rho ->
  st_parallelToZ (sf_type S) = true -> sf_cyl S = Some (rho, c) -> 0 < a ->
  crossing (hcurve p rp) (p OMEGA) (on_cylinder rho c) a ->
  crossing (hcurve p rp) (p OMEGA) (on_cylinder rho c) (- a) ->
  (forall s, Rabs (p OMEGA * s) = PI -> ~ on_cylinder rho c (hcurve p rp s)) ->
  intersectWithZCylinder S p rp o 0 false = Ok (true, OVal a (hcurve p rp a)).
Proof.
  intros N A Hr EP EC Ha [La Ca] [Lb Cb] NH.
  assert (OC := hcurve_on_circle p rp a N).
  destruct (zcyl_summary S p rp rho c N Hr EP EC)
    as [(P0 & P1 & D1 & E1 & F1)|[(E1 & F1)|((D1 & D2) & E1 & F1)]].
  - rewrite F1.
    destruct (two_candidates p rp (on_circle (cyl_circ rho c)) P0 P1 N A E1)
      as [((s & Hs & Hc) & _)|(s0 & s1 & Q0 & Q1 & V0 & V1 & HS & _)].
    { exfalso. apply (NH s Hs Hc). }
    cbv zeta in HS.
    unfold two. rewrite Q0, Q1. cbn [bind]. rewrite V0, V1.
    assert (Ia : a = s0 \/ a = s1) by (apply HS; split; auto).
    assert (Ib : - a = s0 \/ - a = s1) by (apply HS; split; auto).
    unfold select. change (Z.ltb 0 1) with true. change (Z.ltb 0 0) with false. change (Z.ltb (-1) 0) with true.
    assert (T : 0 < eps4) by (unfold eps4; lra).
    destruct Ia as [<-|<-], Ib as [E|E]; try lra; rewrite <- E.
    + destruct (Rlt_dec a 0); [lra|]. destruct (Rlt_dec (- a) 0); [|lra]. rewrite Rabs_Ropp.
      destruct (Rlt_dec (Rabs a) (Rabs a + eps4)); [reflexivity|lra].
    + destruct (Rlt_dec (- a) 0); [|lra]. destruct (Rlt_dec a 0); [lra|]. rewrite Rabs_Ropp.
      destruct (Rlt_dec (Rabs a + eps4) (Rabs a)); [lra|reflexivity].
  - exfalso. exact (E1 _ OC Ca).
  - exfalso. apply (NH (PI / p OMEGA)).
    + replace (p OMEGA * (PI / p OMEGA)) with PI by (field; auto). apply Rabs_pos_eq. generalize PI_pos; lra.
    + apply (E1 _ (hcurve_on_circle p rp (PI / p OMEGA) N)).
Qed.
