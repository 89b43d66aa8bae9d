(** Proofs about circles and lines (C12-C14). *)
From Coq Require Import Reals Lra Lia ZArith Psatz List.
From Verif Require Import SpecConst Num NumFacts Vec Helix Isect SpecIsect.
Import ListNotations.
Open Scope R_scope.

Lemma proper_pos l : proper_line l -> 0 < l_n0 l * l_n0 l + l_n1 l * l_n1 l.
Proof. intros [H|H]; nra. Qed.

Lemma ctor_proper n0 n1 d l : mkStraightLine n0 n1 d = Ok l ->
  l = Line n0 n1 d /\ 0 <= d /\ proper_line l.
Proof.
  unfold mkStraightLine, proper_line, eps12.
  destruct (Rlt_dec d 0); [discriminate|].
  destruct (Rlt_dec (Rabs n0) _) as [A|A].
  - destruct (Rlt_dec (Rabs n1) _) as [B|B]; [discriminate|].
    intros E; injection E as <-. simpl. split; auto. split; [lra|]. right. intros ->.
    rewrite Rabs_R0 in B. lra.
  - intros E; injection E as <-. simpl. split; auto. split; [lra|]. left. intros ->.
    rewrite Rabs_R0 in A. lra.
Qed.

(** coordinates along and across the line *)
Lemma common_iff c l p : proper_line l ->
  (on_circle c p /\ on_line l p <->
   on_line l p /\
   let u := l_n1 l * (fst p - c_x c) - l_n0 l * (snd p - c_y c) in u * u = overlap c l).
Proof.
  intros H. apply proper_pos in H. unfold on_circle, on_line, overlap. cbv zeta.
  set (nx := l_n0 l) in *. set (ny := l_n1 l) in *.
  set (X := fst p - c_x c). set (Y := snd p - c_y c).
  assert (Ed : forall d, nx * fst p + ny * snd p = d -> d - (nx * c_x c + ny * c_y c) = nx * X + ny * Y)
    by (intros d <-; unfold X, Y; ring).
  assert (Id : (ny * X - nx * Y) * (ny * X - nx * Y) + (nx * X + ny * Y) * (nx * X + ny * Y)
               = (X * X + Y * Y) * (nx * nx + ny * ny)) by ring.
  split; intros [A B].
  - split; auto. rewrite (Ed _ B). rewrite A in Id. lra.
  - split; auto. rewrite (Ed _ A) in B.
    apply Rmult_eq_reg_r with (nx * nx + ny * ny); lra.
Qed.

(** the point with a given transverse coordinate *)
Definition line_point (c : circle) (l : straightLine) (u : R) : R * R :=
  let d := l_d l - (l_n0 l * c_x c + l_n1 l * c_y c) in
  let ns := l_n0 l * l_n0 l + l_n1 l * l_n1 l in
  (c_x c + (l_n0 l * d + l_n1 l * u) * (1 / ns), c_y c + (l_n1 l * d - l_n0 l * u) * (1 / ns)).

Lemma line_point_on c l u : proper_line l ->
  on_line l (line_point c l u)
  /\ l_n1 l * (fst (line_point c l u) - c_x c) - l_n0 l * (snd (line_point c l u) - c_y c) = u.
Proof.
  intros H. apply proper_pos in H. unfold on_line, line_point; simpl.
  split; field; lra.
Qed.

Lemma line_point_unique c l p : proper_line l -> on_line l p ->
  p = line_point c l (l_n1 l * (fst p - c_x c) - l_n0 l * (snd p - c_y c)).
Proof.
  intros H E. apply proper_pos in H. unfold on_line in E. unfold line_point. rewrite <- E.
  destruct p as [x y]; simpl. f_equal; field; lra.
Qed.

Lemma line_point_inj c l u v : proper_line l -> line_point c l u = line_point c l v -> u = v.
Proof.
  intros H E. destruct (line_point_on c l u H) as [_ A]. destruct (line_point_on c l v H) as [_ B].
  rewrite E in A. lra.
Qed.

Lemma overlap_model c l :
  let sL := line_move l (c_x c) (c_y c) in
  c_r c * c_r c * normalSquare sL - l_d sL * l_d sL = overlap c l.
Proof. reflexivity. Qed.

Lemma common_points c l p : proper_line l ->
  (on_circle c p /\ on_line l p <->
   exists u, u * u = overlap c l /\ p = line_point c l u).
Proof.
  intros H. rewrite (common_iff c l p H). cbv zeta. split.
  - intros [A B]. eexists. split; [exact B|]. apply line_point_unique; auto.
  - intros (u & A & ->). destruct (line_point_on c l u H) as [B C]. split; auto. rewrite C. auto.
Qed.

Lemma sq_sqrt_cases u D : 0 <= D -> (u * u = D <-> u = sqrt D \/ u = - sqrt D).
Proof.
  intros H. assert (S := sqrt_sqrt D H). split.
  - intros E. assert (P : (u - sqrt D) * (u + sqrt D) = 0) by nra.
    apply Rmult_integral in P. destruct P; [left|right]; lra.
  - intros [-> | ->]; lra.
Qed.

Lemma circle_line_result c l : proper_line l ->
  let D := overlap c l in
  (D < - eps9 -> intersectCircleStraightLine c l = Ok [])
  /\ (- eps9 <= D < 0 -> intersectCircleStraightLine c l = Ok [None])
  /\ (0 <= D <= eps9 ->
       intersectCircleStraightLine c l = Ok [Some (line_point c l (sqrt D))])
  /\ (eps9 < D ->
       intersectCircleStraightLine c l
       = Ok [Some (line_point c l (sqrt D)); Some (line_point c l (- sqrt D))]).
Proof.
  intros H D. assert (P := proper_pos l H). unfold intersectCircleStraightLine. cbv zeta.
  rewrite (overlap_model c l). fold D.
  change (normalSquare (line_move l (c_x c) (c_y c))) with (l_n0 l * l_n0 l + l_n1 l * l_n1 l).
  rewrite rdiv_ok by lra. simpl bind.
  assert (E9 : 0 < eps9) by (unfold eps9; lra).
  destruct (Rlt_dec D (- eps9)) as [A|A].
  { split; [|split; [|split]]; intros; try lra. reflexivity. }
  split; [lra|]. split; [|split]; intros B.
  - destruct (Rlt_dec D 0); [|lra].
    destruct (Rle_dec (Rabs D) eps9) as [C|C]; [reflexivity|].
    exfalso. apply C. rewrite Rabs_left; lra.
  - destruct (Rlt_dec D 0); [lra|].
    destruct (Rle_dec (Rabs D) eps9) as [C|C]; [reflexivity|].
    exfalso. apply C. rewrite Rabs_pos_eq; lra.
  - destruct (Rlt_dec D 0); [lra|].
    destruct (Rle_dec (Rabs D) eps9) as [C|C].
    { rewrite Rabs_pos_eq in C; lra. }
    unfold line_point. simpl. do 3 f_equal. f_equal. f_equal; ring.
Qed.

Lemma circle_line_total c l : proper_line l -> exists r, intersectCircleStraightLine c l = Ok r.
Proof.
  intros H. destruct (circle_line_result c l H) as (A & B & C & D). cbv zeta in *.
  destruct (Rlt_dec (overlap c l) (- eps9)); [eauto|].
  destruct (Rlt_dec (overlap c l) 0); [rewrite B by lra; eauto|].
  destruct (Rle_dec (overlap c l) eps9); [rewrite C by lra; eauto| rewrite D by lra; eauto].
Qed.

Lemma circle_line_spec c l : proper_line l ->
  let D := overlap c l in
  (eps9 < D -> exists p q, p <> q
      /\ intersectCircleStraightLine c l = Ok [Some p; Some q]
      /\ forall x, on_circle c x /\ on_line l x <-> x = p \/ x = q)
  /\ (0 <= D <= eps9 -> exists p,
      intersectCircleStraightLine c l = Ok [Some p]
      /\ (on_circle c p /\ on_line l p)
      /\ ((forall x, on_circle c x /\ on_line l x -> x = p) <-> D = 0))
  /\ (- eps9 <= D < 0 -> intersectCircleStraightLine c l = Ok [None])
  /\ (D < - eps9 -> intersectCircleStraightLine c l = Ok [])
  /\ (D < 0 -> forall x, ~ (on_circle c x /\ on_line l x)).
Proof.
  intros H D. destruct (circle_line_result c l H) as (R1 & R2 & R3 & R4). fold D in R1, R2, R3, R4.
  assert (E9 : 0 < eps9) by (unfold eps9; lra).
  split; [|split; [|split; [|split]]]; auto.
  - intros HD. exists (line_point c l (sqrt D)), (line_point c l (- sqrt D)).
    assert (Sp : 0 < sqrt D) by (apply sqrt_lt_R0; lra).
    split; [|split; [auto|]].
    + intros E. apply line_point_inj in E; auto. lra.
    + intros x. rewrite (common_points c l x H). fold D. split.
      * intros (u & A & ->). apply sq_sqrt_cases in A; [|lra]. destruct A as [-> | ->]; auto.
      * intros [-> | ->]; [exists (sqrt D) | exists (- sqrt D)]; (split; [|reflexivity]);
          (apply sq_sqrt_cases; [lra | auto]).
  - intros HD. exists (line_point c l (sqrt D)). split; [auto|]. split.
    + apply (common_points c l _ H). exists (sqrt D). split; auto.
      apply sqrt_sqrt; fold D; lra.
    + split.
      * intros U. destruct (Req_dec D 0) as [Z|Z]; auto. exfalso.
        assert (Sp : 0 < sqrt D) by (apply sqrt_lt_R0; lra).
        assert (E : line_point c l (- sqrt D) = line_point c l (sqrt D)).
        { apply U. apply (common_points c l _ H). exists (- sqrt D). split; auto.
          rewrite Rmult_opp_opp; apply sqrt_sqrt; fold D; lra. }
        apply line_point_inj in E; auto. lra.
      * intros Z x Hx. apply (common_points c l _ H) in Hx. destruct Hx as (u & A & ->).
        fold D in A. f_equal. rewrite Z in *. rewrite sqrt_0. nra.
  - intros HD x Hx. apply (common_points c l _ H) in Hx. destruct Hx as (u & A & _).
    fold D in A. nra.
Qed.

(** ** C13 *)
Lemma on_axis_iff c1 c2 p : on_circle c1 p -> (on_circle c2 p <-> on_line (axis c1 c2) p).
Proof.
  unfold on_circle, on_line, axis, radical; simpl. intros A. split; intros B; lra.
Qed.

Lemma circle_circle_form c1 c2 :
  (radical c1 c2 < 0 \/ ~ far_apart c1 c2 -> intersectCircleCircle c1 c2 = Throw)
  /\ (0 <= radical c1 c2 -> far_apart c1 c2 ->
      intersectCircleCircle c1 c2 = intersectCircleStraightLine c1 (axis c1 c2)
      /\ proper_line (axis c1 c2)).
Proof.
  unfold intersectCircleCircle, far_apart. change tol12 with eps12. cbv zeta.
  replace (c_r c1 * c_r c1 - c_r c2 * c_r c2 - c_x c1 * c_x c1 + c_x c2 * c_x c2
           - c_y c1 * c_y c1 + c_y c2 * c_y c2) with (radical c1 c2) by (unfold radical; ring).
  assert (Ea : forall t, Rabs (2 * t) = 2 * Rabs t)
    by (intros; rewrite Rabs_mult, (Rabs_pos_eq 2) by lra; ring).
  unfold mkStraightLine. rewrite !Ea.
  destruct (Rlt_dec (radical c1 c2) 0) as [A|A].
  { split; auto. lra. }
  destruct (Rlt_dec (2 * Rabs (c_x c2 - c_x c1)) eps12) as [B|B].
  - destruct (Rlt_dec (2 * Rabs (c_y c2 - c_y c1)) eps12) as [C|C].
    + split; auto. intros _ [F|F]; lra.
    + split.
      * intros [F|F]; [lra|]. exfalso. apply F. right. lra.
      * intros _ _. split; [reflexivity|]. right. unfold axis; simpl. intros Z.
        assert (c_y c2 - c_y c1 = 0) by lra. rewrite H, Rabs_R0 in C. unfold eps12 in C. lra.
  - split.
    + intros [F|F]; [lra|]. exfalso. apply F. left. lra.
    + intros _ _. split; [reflexivity|]. left. unfold axis; simpl. intros Z.
      assert (c_x c2 - c_x c1 = 0) by lra. rewrite H, Rabs_R0 in B. unfold eps12 in B. lra.
Qed.

Lemma far_apart_sym c1 c2 : far_apart c1 c2 <-> far_apart c2 c1.
Proof. unfold far_apart. rewrite (Rabs_minus_sym (c_x c2)), (Rabs_minus_sym (c_y c2)). tauto. Qed.

Lemma radical_anti c1 c2 : radical c2 c1 = - radical c1 c2.
Proof. unfold radical. ring. Qed.

Lemma circle_circle_throw c1 c2 :
  intersectCircleCircle c1 c2 = Throw <-> (radical c1 c2 < 0 \/ ~ far_apart c1 c2).
Proof.
  destruct (circle_circle_form c1 c2) as [A B]. split; auto.
  intros E. destruct (Rlt_dec (radical c1 c2) 0) as [C|C]; auto.
  right. intros F. destruct B as [B1 B2]; auto; [lra|].
  destruct (circle_line_total c1 _ B2) as [r Er]. rewrite B1, Er in E. discriminate.
Qed.

Lemma circle_circle_sound c1 c2 l p : intersectCircleCircle c1 c2 = Ok l -> In (Some p) l ->
  on_circle c1 p /\ on_circle c2 p.
Proof.
  intros E I. destruct (circle_circle_form c1 c2) as [A B].
  destruct (Rlt_dec (radical c1 c2) 0) as [C|C]; [rewrite A in E by auto; discriminate|].
  assert (F : far_apart c1 c2).
  { destruct (Rle_dec eps12 (2 * Rabs (c_x c2 - c_x c1))) as [G|G]; [left; auto|].
    destruct (Rle_dec eps12 (2 * Rabs (c_y c2 - c_y c1))) as [G'|G']; [right; auto|].
    rewrite A in E; [discriminate|]. right. intros [K|K]; auto. }
  destruct B as [B1 B2]; auto; [lra|]. rewrite B1 in E.
  destruct (circle_line_result c1 _ B2) as (R1 & R2 & R3 & R4). cbv zeta in *.
  set (D := overlap c1 (axis c1 c2)) in *.
  assert (K : forall u, 0 <= D -> u = sqrt D \/ u = - sqrt D ->
     on_circle c1 (line_point c1 (axis c1 c2) u) /\ on_circle c2 (line_point c1 (axis c1 c2) u)).
  { intros u HD Hu.
    assert (G : on_circle c1 (line_point c1 (axis c1 c2) u)
                /\ on_line (axis c1 c2) (line_point c1 (axis c1 c2) u)).
    { apply (common_points c1 _ _ B2). exists u. split; auto. apply sq_sqrt_cases; auto. }
    destruct G as [G1 G2]. split; auto. apply on_axis_iff with c1; auto. }
  assert (E9 : 0 < eps9) by (unfold eps9; lra).
  destruct (Rlt_dec D (- eps9)); [rewrite R1 in E by auto; injection E as <-; destruct I|].
  destruct (Rlt_dec D 0); [rewrite R2 in E by lra; injection E as <-; simpl in I; destruct I as [I|[]]; discriminate|].
  destruct (Rle_dec D eps9).
  - rewrite R3 in E by lra. injection E as <-. simpl in I. destruct I as [I|[]]. injection I as <-.
    apply K; auto; lra.
  - rewrite R4 in E by lra. injection E as <-. simpl in I. destruct I as [I|[I|[]]]; injection I as <-; apply K; auto; lra.
Qed.

(** ** C14 *)
Lemma line_line_spec l1 l2 :
  (eps9 <= det l1 l2 ->
     exists p, intersectStraightLineStraightLine l1 l2 = [p]
       /\ forall x, on_line l1 x /\ on_line l2 x <-> x = p)
  /\ (det l1 l2 < eps9 -> intersectStraightLineStraightLine l1 l2 = []).
Proof.
  unfold intersectStraightLineStraightLine, det. cbv zeta.
  set (D := l_n0 l1 * l_n1 l2 - l_n0 l2 * l_n1 l1).
  assert (E9 : 0 < eps9) by (unfold eps9; lra).
  destruct (Rlt_dec D eps9) as [A|A]; split; intros B; try lra; auto.
  eexists. split; [reflexivity|]. intros [x y]. unfold on_line; simpl.
  assert (DD : D = l_n0 l1 * l_n1 l2 - l_n0 l2 * l_n1 l1) by reflexivity.
  clearbody D. split.
  - intros [<- <-]. f_equal.
    + apply Rmult_eq_reg_r with D; [|lra]. unfold Rdiv. rewrite Rmult_assoc, Rinv_l by lra.
      rewrite DD. ring.
    + apply Rmult_eq_reg_r with D; [|lra]. unfold Rdiv. rewrite Rmult_assoc, Rinv_l by lra.
      rewrite DD. ring.
  - intros E. injection E as -> ->. subst D. split; field; lra.
Qed.
