(** Properties C12-C14: plane geometry. *)
From Coq Require Import Reals Lra Psatz ZArith List.
From Verif Require Import SpecConst Num NumFacts Vec Helix Isect SpecIsect IsectFacts.
Import ListNotations.
Open Scope R_scope.

(** C12.  For every line the constructor accepts: two different points, exactly
    the common ones, above the tolerance; one common point inside [0, 1e-9],
    which is the only common point exactly at tangency; a non-finite point or
    nothing below 0, where no common point exists. *)
Theorem C12_circle_line : forall c n0 n1 d l, mkStraightLine n0 n1 d = Ok l ->
  let D := overlap c l in
  (tol9 < D -> exists p q, p <> q
      /\ intersectCircleStraightLine c l = Ok [Some p; Some q]
      /\ forall x, on_circle c x /\ on_line l x <-> x = p \/ x = q)
  /\ (0 <= D <= tol9 -> exists p,
      intersectCircleStraightLine c l = Ok [Some p]
      /\ (on_circle c p /\ on_line l p)
      /\ ((forall x, on_circle c x /\ on_line l x -> x = p) <-> D = 0))
  /\ (- tol9 <= D < 0 -> intersectCircleStraightLine c l = Ok [None])
  /\ (D < - tol9 -> intersectCircleStraightLine c l = Ok [])
  /\ (D < 0 -> forall x, ~ (on_circle c x /\ on_line l x)).
Proof. intros c n0 n1 d l E. apply circle_line_spec. apply ctor_proper in E. apply E. Qed.
Print Assumptions C12_circle_line.

(** the constructors reject exactly negative radii, negative distances and
    vanishing normals, and otherwise keep what they are given *)
Theorem C12_constructors : forall n0 n1 d r,
  (mkStraightLine n0 n1 d = Throw <-> d < 0 \/ (Rabs n0 < tol12 /\ Rabs n1 < tol12))
  /\ (forall l, mkStraightLine n0 n1 d = Ok l ->
        l = Line n0 n1 d /\ 0 <= d /\ exists x, on_line l x)
  /\ (mkCircle n0 n1 r = Throw <-> r < 0)
  /\ (forall c, mkCircle n0 n1 r = Ok c -> c = Circ n0 n1 r /\ 0 <= r).
Proof.
  intros n0 n1 d r. split; [|split; [|split]].
  - unfold mkStraightLine. destruct (Rlt_dec d 0); [tauto|].
    destruct (Rlt_dec (Rabs n0) eps12); [destruct (Rlt_dec (Rabs n1) eps12); [tauto|]|];
      (split; [discriminate|tauto]).
  - intros l E. apply ctor_proper in E. destruct E as (-> & D & P). split; auto. split; auto.
    exists (line_point (Circ 0 0 0) (Line n0 n1 d) 0). apply line_point_on; auto.
  - unfold mkCircle. destruct (Rlt_dec r 0); split; auto; try discriminate; lra.
  - intros c. unfold mkCircle. destruct (Rlt_dec r 0); [discriminate|].
    intros E. injection E as <-. split; auto. lra.
Qed.
Print Assumptions C12_constructors.

(** A finite list of candidates does not mean that there is a common point. *)
Theorem C12_no_common_point_refuted : exists c l p,
  mkStraightLine 1 0 1 = Ok l /\ 0 <= c_r c
  /\ intersectCircleStraightLine c l = Ok [p] /\ forall x, ~ (on_circle c x /\ on_line l x).
Proof.
  set (r := 1 - / 10000000000).
  exists (Circ 0 0 r), (Line 1 0 1), None.
  assert (E : mkStraightLine 1 0 1 = Ok (Line 1 0 1)).
  { unfold mkStraightLine, eps12, tol12. destruct (Rlt_dec 1 0); [lra|].
    destruct (Rlt_dec (Rabs 1) _) as [A|A]; auto. rewrite Rabs_R1 in A. lra. }
  split; auto. split; [unfold r; simpl; lra|].
  destruct (C12_circle_line (Circ 0 0 r) _ _ _ _ E) as (_ & _ & A & _ & B). cbv zeta in A, B.
  assert (D : - eps9 <= overlap (Circ 0 0 r) (Line 1 0 1) < 0)
    by (unfold overlap, eps9, tol9, r; simpl; lra).
  split; [apply A; auto | apply B; lra].
Qed.
Print Assumptions C12_no_common_point_refuted.

(** unit circle and the line x = 1/2 *)
Example C12_example : exists p q, p <> q
  /\ intersectCircleStraightLine (Circ 0 0 1) (Line 1 0 (1/2)) = Ok [Some p; Some q]
  /\ fst p = 1/2 /\ fst q = 1/2 /\ snd p * snd p = 3/4.
Proof.
  assert (E : mkStraightLine 1 0 (1/2) = Ok (Line 1 0 (1/2))).
  { unfold mkStraightLine, eps12, tol12. destruct (Rlt_dec (1/2) 0); [lra|].
    destruct (Rlt_dec (Rabs 1) _) as [A|A]; auto. rewrite Rabs_R1 in A. lra. }
  destruct (C12_circle_line (Circ 0 0 1) _ _ _ _ E) as (A & _). cbv zeta in A.
  destruct A as (p & q & N & R & U); [unfold overlap, eps9, tol9; simpl; lra|].
  exists p, q. split; auto. split; auto.
  destruct (proj2 (U p) (or_introl eq_refl)) as [P1 P2].
  destruct (proj2 (U q) (or_intror eq_refl)) as [Q1 Q2].
  unfold on_circle, on_line in *; simpl in *. repeat split; nra.
Qed.

(** C13.  Every outcome: an exception, or the common points as in C12 with the
    radical axis in place of the line. *)
Theorem C13_circle_circle : forall c1 c2,
  let common x := on_circle c1 x /\ on_circle c2 x in
  let D := overlap c1 (axis c1 c2) in
  (* soundness of every finite point *)
  (forall l p, intersectCircleCircle c1 c2 = Ok l -> In (Some p) l -> common p)
  (* exceptions *)
  /\ (intersectCircleCircle c1 c2 = Throw <-> radical c1 c2 < 0 \/ ~ far_apart c1 c2)
  /\ (0 <= radical c1 c2 -> far_apart c1 c2 ->
      (tol9 < D -> exists p q, p <> q
         /\ intersectCircleCircle c1 c2 = Ok [Some p; Some q]
         /\ forall x, common x <-> x = p \/ x = q)
      /\ (0 <= D <= tol9 -> exists p,
         intersectCircleCircle c1 c2 = Ok [Some p] /\ common p
         /\ ((forall x, common x -> x = p) <-> D = 0))
      /\ (- tol9 <= D < 0 -> intersectCircleCircle c1 c2 = Ok [None])
      /\ (D < - tol9 -> intersectCircleCircle c1 c2 = Ok [])
      /\ (D < 0 -> forall x, ~ common x)).
Proof.
  intros c1 c2. cbv zeta. split; [|split].
  - intros l p. apply circle_circle_sound.
  - apply circle_circle_throw.
  - intros Rd F. destruct (circle_circle_form c1 c2) as [_ B]. destruct (B Rd F) as [-> P].
    assert (C : forall x, on_circle c1 x /\ on_circle c2 x <-> on_circle c1 x /\ on_line (axis c1 c2) x).
    { intros x. split; intros [X Y]; (split; [auto|]); apply (on_axis_iff c1 c2 x X); auto. }
    destruct (circle_line_spec c1 _ P) as (S1 & S2 & S3 & S4 & S5). cbv zeta in *.
    split; [|split; [|split; [|split]]]; auto.
    + intros HD. destruct (S1 HD) as (p & q & N & E & U). exists p, q. split; auto. split; auto.
      intros x. rewrite C. auto.
    + intros HD. destruct (S2 HD) as (p & E & Q & U). exists p. split; auto. split; [apply C; auto|].
      rewrite <- U. split; intros K x Kx; apply K; apply C; auto.
    + intros HD x Kx. apply (S5 HD x), C. auto.
Qed.
Print Assumptions C13_circle_circle.

Theorem C13_order_of_arguments : forall c1 c2,
  (c_x c1 = c_x c2 -> c_y c1 = c_y c2 ->
     intersectCircleCircle c1 c2 = Throw /\ intersectCircleCircle c2 c1 = Throw)
  /\ (far_apart c1 c2 -> radical c1 c2 <> 0 ->
      (intersectCircleCircle c1 c2 = Throw <-> ~ (intersectCircleCircle c2 c1 = Throw)))
  /\ (far_apart c1 c2 -> radical c1 c2 = 0 ->
      intersectCircleCircle c1 c2 <> Throw /\ intersectCircleCircle c2 c1 <> Throw).
Proof.
  intros c1 c2. rewrite !circle_circle_throw, (radical_anti c1 c2). rewrite (far_apart_sym c2 c1).
  split; [|split].
  - intros E1 E2. assert (~ far_apart c1 c2); [|auto].
    unfold far_apart, eps12, tol12. rewrite E1, E2. replace (c_x c2 - c_x c2) with 0 by ring. replace (c_y c2 - c_y c2) with 0 by ring. rewrite Rabs_R0. lra.
  - intros F N. split.
    + intros [A|A]; [|contradiction]. intros [B|B]; [lra|contradiction].
    + intros A. left. destruct (Rtotal_order (radical c1 c2) 0) as [L|[L|L]]; auto; [contradiction|].
      exfalso. apply A. left. lra.
  - intros F E. rewrite E. split; intros [A|A]; try contradiction; lra.
Qed.
Print Assumptions C13_order_of_arguments.

(** two crossing circles for which one order of arguments throws *)
Example C13_example :
  intersectCircleCircle (Circ 2 0 2) (Circ 0 0 1) = Throw
  /\ exists p q, p <> q /\ intersectCircleCircle (Circ 0 0 1) (Circ 2 0 2) = Ok [Some p; Some q].
Proof.
  split.
  - apply C13_circle_circle. left. unfold radical; simpl. lra.
  - destruct (C13_circle_circle (Circ 0 0 1) (Circ 2 0 2)) as (_ & _ & A).
    destruct A as (A & _).
    + unfold radical; simpl. lra.
    + left. simpl. rewrite Rabs_pos_eq by lra. unfold eps12, tol12. lra.
    + destruct A as (p & q & N & E & _); [|exists p, q; auto]. unfold overlap, axis, radical, eps9, tol9; simpl. lra.
Qed.

(** C14 *)
Theorem C14_line_line : forall l1 l2,
  (tol9 <= det l1 l2 ->
     exists p, intersectStraightLineStraightLine l1 l2 = [p]
       /\ forall x, on_line l1 x /\ on_line l2 x <-> x = p)
  /\ (det l1 l2 < tol9 -> intersectStraightLineStraightLine l1 l2 = []).
Proof. exact line_line_spec. Qed.
Print Assumptions C14_line_line.

Theorem C14_order_of_arguments : forall l1 l2, tol9 <= Rabs (det l1 l2) ->
  (exists x, forall y, on_line l1 y /\ on_line l2 y <-> y = x)
  /\ (intersectStraightLineStraightLine l1 l2 = []
      <-> intersectStraightLineStraightLine l2 l1 <> []).
Proof.
  intros l1 l2 H. destruct (line_line_spec l1 l2) as [A B]. destruct (line_line_spec l2 l1) as [A' B'].
  assert (E : det l2 l1 = - det l1 l2) by (unfold det; ring). rewrite E in *.
  assert (P : 0 < eps9) by (unfold eps9, tol9; lra).
  destruct (Rlt_dec (det l1 l2) 0) as [L|L].
  - rewrite Rabs_left in H by auto. destruct (A' H) as (p & -> & U).
    split; [exists p; intros y; rewrite <- U; tauto|]. rewrite B by lra.
    split; auto. intros _. discriminate.
  - rewrite Rabs_pos_eq in H by lra. destruct (A H) as (p & -> & U).
    split; [exists p; auto|]. rewrite B' by lra. split; [discriminate|intros F; exfalso; auto].
Qed.
Print Assumptions C14_order_of_arguments.

(** perpendicular lines through (3,4), reported in one order only *)
Example C14_example :
  intersectStraightLineStraightLine (Line 1 0 3) (Line 0 1 4) = [(3, 4)]
  /\ intersectStraightLineStraightLine (Line 0 1 4) (Line 1 0 3) = [].
Proof.
  unfold intersectStraightLineStraightLine, eps9, tol9; simpl. split.
  - destruct (Rlt_dec _ _); [lra|]. f_equal. f_equal; field.
  - destruct (Rlt_dec _ _); [reflexivity|lra].
Qed.
