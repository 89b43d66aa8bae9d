(** Proofs about helix / surface intersections (C15-C21). *)
From Coq Require Import Reals Lra Lia ZArith Psatz List Bool.
From Verif Require Import SpecConst Num NumFacts Vec Helix Isect SpecHelix SpecIsect HelixFacts PathFacts
  IsectFacts.
Import ListNotations.
Open Scope R_scope.

(** ** Points of the helix circle *)
Lemma hcircle_centre hp rp : hcircle hp rp =
  Circ (vx (centre hp rp)) (vy (centre hp rp)) (Rabs (1 / hp OMEGA)).
Proof. reflexivity. Qed.

Lemma hcurve_on_circle hp rp s : hp OMEGA <> 0 ->
  on_circle (hcircle hp rp) (vx (hcurve hp rp s), vy (hcurve hp rp s)).
Proof.
  intros H. rewrite hcircle_centre. unfold on_circle. cbv [c_x c_y c_r fst snd].
  destruct (hcurve_centre hp rp s H) as [-> ->]. rewrite Rabs_sq.
  generalize (sc1 (hp PHI0 - s * hp OMEGA)); intros E.
  transitivity (1 / hp OMEGA * (1 / hp OMEGA)
    * (sin (hp PHI0 - s * hp OMEGA) * sin (hp PHI0 - s * hp OMEGA)
       + cos (hp PHI0 - s * hp OMEGA) * cos (hp PHI0 - s * hp OMEGA))); [ring|].
  rewrite E. ring.
Qed.

Lemma circle_param hp rp X Y : hp OMEGA <> 0 -> on_circle (hcircle hp rp) (X, Y) ->
  exists s, Rabs (hp OMEGA * s) <= PI
    /\ vx (hcurve hp rp s) = X /\ vy (hcurve hp rp s) = Y.
Proof.
  intros H E. rewrite hcircle_centre in E. unfold on_circle in E. cbv [c_x c_y c_r fst snd] in E.
  rewrite Rabs_sq in E.
  set (om := hp OMEGA) in *. set (p := hp PHI0).
  set (cx := vx (centre hp rp)) in *. set (cy := vy (centre hp rp)) in *.
  set (u := - om * (X - cx)). set (v := om * (Y - cy)).
  assert (Euv : u * u + v * v = 1).
  { transitivity (om * om * ((X - cx) * (X - cx) + (Y - cy) * (Y - cy))); [unfold u, v; ring|].
    rewrite E. field. auto. }
  set (S := sin p * v - cos p * u). set (C := cos p * v + sin p * u).
  assert (ESC : C * C + S * S = 1).
  { transitivity ((sin p * sin p + cos p * cos p) * (u * u + v * v)); [unfold S, C; ring|].
    rewrite sc1, Euv. ring. }
  assert (Hc := atan2_cos S C). assert (Hs := atan2_sin S C).
  rewrite ESC, sqrt_1, Rmult_1_l in Hc, Hs.
  set (d := atan2 S C) in *.
  exists (d / om).
  replace (om * (d / om)) with d by (field; auto).
  split.
  { generalize (atan2_range S C). fold d. intros. apply Rabs_le. lra. }
  destruct (hcurve_centre hp rp (d / om) H) as [A B]. fold om p cx cy in A, B.
  replace (p - d / om * om) with (p - d) in A, B by (field; auto).
  assert (As : sin (p - d) = u).
  { rewrite sin_minus, Hc, Hs. unfold S, C.
    transitivity (u * (sin p * sin p + cos p * cos p)); [ring|]. rewrite sc1. ring. }
  assert (Ac : cos (p - d) = v).
  { rewrite cos_minus, Hc, Hs. unfold S, C.
    transitivity (v * (sin p * sin p + cos p * cos p)); [ring|]. rewrite sc1. ring. }
  rewrite As in A. rewrite Ac in B. split.
  - assert (vx (hcurve hp rp (d / om)) - cx = X - cx); [|lra].
    rewrite A. unfold u. field. auto.
  - assert (vy (hcurve hp rp (d / om)) - cy = Y - cy); [|lra].
    rewrite B. unfold v. field. auto.
Qed.

Lemma zfroms_hcurve hp rp s : calculateZfromS s hp rp = vz (hcurve hp rp s).
Proof.
  unfold calculateZfromS, calculateZ0, calculateTanLambda, hcurve; simpl. ring.
Qed.

(** value of calculateSfromXY on the helix circle *)
Lemma SfromXY_circle hp rp X Y : hp OMEGA <> 0 -> Rabs (hp PHI0) <= 2 * PI ->
  on_circle (hcircle hp rp) (X, Y) ->
  (exists s, Rabs (hp OMEGA * s) < PI /\ calculateSfromXY X Y hp rp = Ok s
             /\ V3 X Y (calculateZfromS s hp rp) = hcurve hp rp s)
  \/ (exists s, Rabs (hp OMEGA * s) = PI /\ calculateSfromXY X Y hp rp = NonFin
             /\ vx (hcurve hp rp s) = X /\ vy (hcurve hp rp s) = Y).
Proof.
  intros H Hp E. destruct (circle_param hp rp X Y H E) as (s & Hs & <- & <-).
  destruct Hs as [Hs|Hs]; [left|right]; exists s; split; auto.
  - split; [apply SfromXY_inverse; auto|]. rewrite zfroms_hcurve.
    destruct (hcurve hp rp s); reflexivity.
  - split; [apply SfromXY_half_turn; auto|]. auto.
Qed.

(** ** Choice between two candidates *)
Lemma select_some tol mode s0 x0 s1 x1 s x : 0 <= tol ->
  select tol mode s0 x0 s1 x1 = Some (s, x) ->
  ((s = s0 /\ x = x0) \/ (s = s1 /\ x = x1))
  /\ ((0 < mode)%Z -> 0 <= s /\ (0 <= s0 -> s <= s0) /\ (0 <= s1 -> s <= s1))
  /\ ((mode < 0)%Z -> s < 0 /\ (s0 < 0 -> s0 <= s) /\ (s1 < 0 -> s1 <= s))
  /\ (mode = 0%Z -> Rabs s <= Rabs s0 + tol /\ Rabs s <= Rabs s1 + tol).
Proof.
  intros Ht. unfold select.
  assert (A0 := Rabs_pos s0). assert (A1 := Rabs_pos s1).
  assert (N : forall t, t < 0 -> Rabs t = - t) by (intros; apply Rabs_left; auto).
  assert (P : forall t, 0 <= t -> Rabs t = t) by (intros; apply Rabs_pos_eq; auto).
  destruct (Rlt_dec s0 0) as [L0|L0]; destruct (Rlt_dec s1 0) as [L1|L1].
  - destruct (Z.ltb mode 1) eqn:M; [|discriminate]. apply Z.ltb_lt in M.
    destruct (Rlt_dec s1 s0) as [C|C]; intros E; injection E as <- <-;
      (split; [auto|]; split; [lia|]; split; [lra|]; intros _; rewrite !N by lra; lra).
  - destruct (Z.ltb mode 0) eqn:M; [apply Z.ltb_lt in M | apply Z.ltb_ge in M].
    { intros E; injection E as <- <-. split; [auto|]. split; [lia|]. split; [lra|lia]. }
    destruct (Z.ltb 0 mode) eqn:M'; [apply Z.ltb_lt in M' | apply Z.ltb_ge in M'].
    { intros E; injection E as <- <-. split; [auto|]. split; [lra|]. split; lia. }
    destruct (Rlt_dec (Rabs s0 + tol) (Rabs s1)) as [C|C]; intros E; injection E as <- <-;
      (split; [auto|]; split; [lia|]; split; [lia|]; lra).
  - destruct (Z.ltb 0 mode) eqn:M'; [apply Z.ltb_lt in M' | apply Z.ltb_ge in M'].
    { intros E; injection E as <- <-. split; [auto|]. split; [lra|]. split; lia. }
    destruct (Z.ltb mode 0) eqn:M; [apply Z.ltb_lt in M | apply Z.ltb_ge in M].
    { intros E; injection E as <- <-. split; [auto|]. split; [lia|]. split; [lra|lia]. }
    destruct (Rlt_dec (Rabs s0) (Rabs s1 + tol)) as [C|C]; intros E; injection E as <- <-;
      (split; [auto|]; split; [lia|]; split; [lia|]; lra).
  - destruct (Z.ltb (-1) mode) eqn:M; [|discriminate]. apply Z.ltb_lt in M.
    destruct (Rlt_dec s0 s1) as [C|C]; intros E; injection E as <- <-;
      (split; [auto|]; split; [lra|]; split; [lia|]; intros _; rewrite !P by lra; lra).
Qed.

Lemma select_none tol mode s0 x0 s1 x1 :
  select tol mode s0 x0 s1 x1 = None <->
  ((0 < mode)%Z /\ s0 < 0 /\ s1 < 0) \/ ((mode < 0)%Z /\ 0 <= s0 /\ 0 <= s1).
Proof.
  unfold select.
  destruct (Rlt_dec s0 0) as [L0|L0]; destruct (Rlt_dec s1 0) as [L1|L1].
  - destruct (Z.ltb mode 1) eqn:M; [apply Z.ltb_lt in M | apply Z.ltb_ge in M].
    + split; [destruct (Rlt_dec s1 s0); discriminate|]. intros [(A & _)|(_ & A & _)]; [lia|lra].
    + split; [|auto]. intros _. left. repeat split; auto; lia.
  - destruct (Z.ltb mode 0); [|destruct (Z.ltb 0 mode)]; split; try discriminate;
      try (intros [(_ & A & B)|(_ & A & B)]; lra).
    destruct (Rlt_dec _ _); discriminate.
  - destruct (Z.ltb 0 mode); [|destruct (Z.ltb mode 0)]; split; try discriminate;
      try (intros [(_ & A & B)|(_ & A & B)]; lra).
    destruct (Rlt_dec _ _); discriminate.
  - destruct (Z.ltb (-1) mode) eqn:M; [apply Z.ltb_lt in M | apply Z.ltb_ge in M].
    + split; [destruct (Rlt_dec s0 s1); discriminate|]. intros [(_ & A & _)|(A & _)]; [lra|lia].
    + split; [|auto]. intros _. right. repeat split; try lra; lia.
Qed.

Lemma select_picked tol mode s0 x0 s1 x1 s x (S : R -> Prop) : 0 <= tol ->
  (forall t, S t <-> t = s0 \/ t = s1) ->
  select tol mode s0 x0 s1 x1 = Some (s, x) -> picked tol mode S s.
Proof.
  intros Ht HS E. destruct (select_some _ _ _ _ _ _ _ _ Ht E) as (A & B & C & D).
  constructor.
  - apply HS. tauto.
  - intros M. destruct (B M) as (B1 & B2 & B3). split; auto.
    intros t Ht' Hp. apply HS in Ht'. destruct Ht' as [-> | ->]; auto.
  - intros M. destruct (C M) as (B1 & B2 & B3). split; auto.
    intros t Ht' Hp. apply HS in Ht'. destruct Ht' as [-> | ->]; auto.
  - intros M. destruct (D M) as (B1 & B2).
    intros t Ht'. apply HS in Ht'. destruct Ht' as [-> | ->]; auto.
Qed.

Lemma select_none_for tol mode s0 x0 s1 x1 (S : R -> Prop) :
  (forall t, S t <-> t = s0 \/ t = s1) ->
  (select tol mode s0 x0 s1 x1 = None <-> none_for mode S).
Proof.
  intros HS. rewrite select_none. unfold none_for. split.
  - intros [(A & B & C)|(A & B & C)] t Ht; apply HS in Ht; destruct Ht as [-> | ->]; auto.
  - intros K. destruct (K s0) as [[A B]|[A B]]; [apply HS; auto| |];
    (destruct (K s1) as [[A' B']|[A' B']]; [apply HS; auto| |]); try lia; auto.
Qed.

(** the pair of path lengths of two candidate points *)
Lemma two_candidates hp rp (on : R * R -> Prop) P0 P1 :
  hp OMEGA <> 0 -> Rabs (hp PHI0) <= 2 * PI ->
  (forall p, on_circle (hcircle hp rp) p /\ on p <-> p = P0 \/ p = P1) ->
  let S := fun s => Rabs (hp OMEGA * s) < PI
                    /\ on (vx (hcurve hp rp s), vy (hcurve hp rp s)) in
  ((exists s, Rabs (hp OMEGA * s) = PI /\ on (vx (hcurve hp rp s), vy (hcurve hp rp s)))
   /\ (calculateSfromXY (fst P0) (snd P0) hp rp = NonFin
       \/ calculateSfromXY (fst P1) (snd P1) hp rp = NonFin))
  \/ (exists s0 s1,
       calculateSfromXY (fst P0) (snd P0) hp rp = Ok s0
       /\ calculateSfromXY (fst P1) (snd P1) hp rp = Ok s1
       /\ V3 (fst P0) (snd P0) (calculateZfromS s0 hp rp) = hcurve hp rp s0
       /\ V3 (fst P1) (snd P1) (calculateZfromS s1 hp rp) = hcurve hp rp s1
       /\ (forall t, S t <-> t = s0 \/ t = s1)
       /\ (forall s, Rabs (hp OMEGA * s) = PI ->
             ~ on (vx (hcurve hp rp s), vy (hcurve hp rp s)))).
Proof.
  intros H Hp HS S.
  assert (C0 : on_circle (hcircle hp rp) P0 /\ on P0) by (apply HS; auto).
  assert (C1 : on_circle (hcircle hp rp) P1 /\ on P1) by (apply HS; auto).
  destruct P0 as [X0 Y0], P1 as [X1 Y1]. cbn [fst snd].
  destruct (SfromXY_circle hp rp X0 Y0 H Hp (proj1 C0)) as [(s0 & L0 & E0 & V0)|(s0 & L0 & E0 & V0 & W0)].
  2:{ left. split; [|auto]. exists s0. split; auto. rewrite V0, W0. apply C0. }
  destruct (SfromXY_circle hp rp X1 Y1 H Hp (proj1 C1)) as [(s1 & L1 & E1 & V1)|(s1 & L1 & E1 & V1 & W1)].
  2:{ left. split; [|auto]. exists s1. split; auto. rewrite V1, W1. apply C1. }
  right. exists s0, s1. split; auto. split; auto. split; auto. split; auto.
  assert (K : forall t, on (vx (hcurve hp rp t), vy (hcurve hp rp t)) ->
     calculateSfromXY (vx (hcurve hp rp t)) (vy (hcurve hp rp t)) hp rp = Ok s0
     \/ calculateSfromXY (vx (hcurve hp rp t)) (vy (hcurve hp rp t)) hp rp = Ok s1).
  { intros t Ht.
    assert (G : (vx (hcurve hp rp t), vy (hcurve hp rp t)) = (X0, Y0)
             \/ (vx (hcurve hp rp t), vy (hcurve hp rp t)) = (X1, Y1)).
    { apply HS. split; auto. apply hcurve_on_circle; auto. }
    destruct G as [G|G]; apply pair_equal_spec in G; destruct G as [-> ->]; auto. }
  split.
  - intros t. unfold S. split.
    + intros [Lt Ht]. destruct (K t Ht) as [G|G];
        rewrite SfromXY_inverse in G by auto; injection G as ->; auto.
    + intros [-> | ->].
      * split; auto. rewrite <- V0. apply C0.
      * split; auto. rewrite <- V1. apply C1.
  - intros t Lt Ht. destruct (K t Ht) as [G|G]; rewrite SfromXY_half_turn in G by auto; discriminate.
Qed.

(** ** C15: planes *)
Lemma pline_made surf : zplane_ok surf ->
  (let n := sf_normal surf v3zero in
   mkStraightLine (vx n) (vy n) (Rabs (vdot (sf_origin surf) n)) = Ok (pline surf))
  /\ proper_line (pline surf).
Proof.
  intros [_ H]. unfold pline. change tol12 with eps12 in H. cbv zeta in *.
  set (n := sf_normal surf v3zero) in *. set (d := vdot (sf_origin surf) n).
  assert (E : mkStraightLine (vx n) (vy n) (Rabs d) = Ok (Line (vx n) (vy n) (Rabs d))).
  { unfold mkStraightLine. destruct (Rlt_dec (Rabs d) 0) as [L|L].
    { generalize (Rabs_pos d); lra. }
    destruct (Rlt_dec (Rabs (vx n)) eps12); [|reflexivity].
    destruct (Rlt_dec (Rabs (vy n)) eps12); [|reflexivity]. destruct H; lra. }
  split; auto. apply ctor_proper in E. apply E.
Qed.

Lemma pline_throw surf o hp rp mode cb :
  let n := sf_normal surf v3zero in
  Rabs (vx n) < eps12 -> Rabs (vy n) < eps12 ->
  intersectWithZPlane surf hp rp o mode cb = Throw.
Proof.
  intros n A B. unfold intersectWithZPlane. cbv zeta. fold n.
  unfold mkStraightLine. destruct (Rlt_dec (Rabs (vdot (sf_origin surf) n)) 0); auto.
  destruct (Rlt_dec (Rabs (vx n)) eps12); [|contradiction].
  destruct (Rlt_dec (Rabs (vy n)) eps12); [reflexivity|contradiction].
Qed.

Lemma on_pline surf x : zplane_ok surf ->
  on_line (pline surf) (vx x, vy x) ->
  let d := vdot (sf_origin surf) (sf_normal surf v3zero) in
  vdot (vsub x (sf_origin surf)) (sf_normal surf v3zero) = Rabs d - d.
Proof.
  intros [H _] E. unfold on_line, pline in E. cbn [l_n0 l_n1 l_d fst snd] in E.
  set (n := sf_normal surf v3zero) in *. set (o := sf_origin surf) in *.
  cbv zeta. rewrite <- E. unfold vdot, vsub; cbn [vx vy vz]. cbv zeta in H. rewrite H. ring.
Qed.

Lemma on_pline_iff surf x : zplane_ok surf ->
  0 <= vdot (sf_origin surf) (sf_normal surf v3zero) ->
  (on_line (pline surf) (vx x, vy x) <-> on_plane (sf_origin surf) (sf_normal surf v3zero) x).
Proof.
  intros H Hd. split.
  - intros E. unfold on_plane. rewrite (on_pline surf x H E). rewrite Rabs_pos_eq; lra.
  - unfold on_plane, on_line, pline. cbn [l_n0 l_n1 l_d fst snd]. destruct H as [H _].
    set (n := sf_normal surf v3zero) in *. set (o := sf_origin surf) in *. rewrite Rabs_pos_eq by auto.
    cbv zeta in H. unfold vdot, vsub; cbn [vx vy vz]. rewrite H. intros E. lra.
Qed.

Lemma circle_made hp rp : hp OMEGA <> 0 ->
  mkCircle (calculateXCenter hp rp) (calculateYCenter hp rp) (calculateRadius hp)
  = Ok (hcircle hp rp).
Proof.
  intros H. destruct (center_eq hp rp H) as [-> ->]. rewrite radius_eq by auto.
  unfold mkCircle. destruct (Rlt_dec _ 0) as [L|L]; [|reflexivity].
  generalize (Rabs_pos (1 / hp OMEGA)); lra.
Qed.

(** the candidates of the plane intersection as two points (equal or not) *)
Lemma zplane_true surf hp rp o mode cb s xx :
  hp OMEGA <> 0 -> Rabs (hp PHI0) <= 2 * PI -> zplane_ok surf ->
  intersectWithZPlane surf hp rp o mode cb = Ok (true, OVal s xx) ->
  Rabs (hp OMEGA * s) < PI /\ xx = hcurve hp rp s
  /\ on_line (pline surf) (vx xx, vy xx)
  /\ (cb = true -> sf_insideBounds surf xx = true)
  /\ ((0 < mode)%Z -> 0 <= s) /\ ((mode < 0)%Z -> s < 0).
Proof.
  intros H Hp Hz E. unfold intersectWithZPlane in E. cbv zeta in E.
  destruct (pline_made surf Hz) as [M PL]. cbv zeta in M. rewrite M in E. clear M. simpl bind in E.
  rewrite (circle_made hp rp H) in E. simpl bind in E.
  destruct (circle_line_result (hcircle hp rp) (pline surf) PL) as (R1 & R2 & R3 & R4). cbv zeta in *.
  set (D := overlap (hcircle hp rp) (pline surf)) in *.
  assert (K : forall u, u * u = D ->
     on_circle (hcircle hp rp) (line_point (hcircle hp rp) (pline surf) u)
     /\ on_line (pline surf) (line_point (hcircle hp rp) (pline surf) u)).
  { intros u Hu. apply (common_points _ _ _ PL). eauto. }
  assert (E9 : 0 < eps9) by (unfold eps9; lra).
  destruct (Rlt_dec D (- eps9)) as [A|A].
  { rewrite R1 in E by auto. simpl in E. discriminate. }
  destruct (Rlt_dec D 0) as [B|B].
  { rewrite R2 in E by lra. simpl in E. destruct (Z.eqb mode 0); [destruct cb|]; discriminate. }
  assert (SD : sqrt D * sqrt D = D) by (apply sqrt_sqrt; lra).
  destruct (Rle_dec D eps9) as [C|C].
  - rewrite R3 in E by lra. cbn [bind] in E. destruct (K _ SD) as [K1 K2].
    destruct (line_point (hcircle hp rp) (pline surf) (sqrt D)) as [X Y].
    destruct (SfromXY_circle hp rp X Y H Hp K1) as [(s0 & L0 & E0 & V0)|(s0 & L0 & E0 & V0 & W0)];
      rewrite E0 in E; cbn [bind] in E; [|discriminate].
    rewrite V0 in E. injection E as Em <- <-.
    apply andb_prop in Em. destruct Em as [Em Eb].
    split; auto. split; auto. split; [rewrite <- V0; exact K2|].
    split; [intros ->; exact Eb|].
    unfold mode_ok in Em. destruct (Rlt_dec 0 (IZR mode * s0)) as [Q|Q].
    + split; intros Hm; apply IZR_lt in Hm; nra.
    + apply Z.eqb_eq in Em. split; lia.
  - rewrite R4 in E by lra. cbn [bind] in E. destruct (K _ SD) as [K1 K2].
    destruct (K (- sqrt D)) as [K3 K4]; [rewrite Rmult_opp_opp; auto|].
    destruct (line_point (hcircle hp rp) (pline surf) (sqrt D)) as [X Y].
    destruct (line_point (hcircle hp rp) (pline surf) (- sqrt D)) as [X' Y'].
    destruct (SfromXY_circle hp rp X Y H Hp K1) as [(s0 & L0 & E0 & V0)|(s0 & L0 & E0 & V0 & W0)];
      rewrite E0 in E; cbn [bind] in E; [|discriminate].
    destruct (SfromXY_circle hp rp X' Y' H Hp K3) as [(s1 & L1 & E1 & V1)|(s1 & L1 & E1 & V1 & W1)];
      rewrite E1 in E; cbn [bind] in E; [|discriminate].
    rewrite V0, V1 in E.
    destruct (select 0 mode s0 (hcurve hp rp s0) s1 (hcurve hp rp s1)) as [[s' x']|] eqn:Es;
      [|discriminate].
    injection E as Eb -> ->.
    apply select_some in Es; [|lra]. destruct Es as (Q1 & Q2 & Q3 & _).
    assert (G : Rabs (hp OMEGA * s) < PI /\ xx = hcurve hp rp s
                /\ on_line (pline surf) (vx xx, vy xx)).
    { destruct Q1 as [[-> ->]|[-> ->]].
      - split; auto. split; auto. rewrite <- V0. exact K2.
      - split; auto. split; auto. rewrite <- V1. exact K4. }
    destruct G as (G1 & G2 & G3). split; auto. split; auto. split; auto.
    split; [intros ->; exact Eb|]. split; intros Hm; [apply Q2 | apply Q3]; auto.
Qed.

(** when does the plane intersection report success without a point *)
Lemma zplane_nan surf hp rp o mode cb :
  hp OMEGA <> 0 -> Rabs (hp PHI0) <= 2 * PI -> zplane_ok surf ->
  (intersectWithZPlane surf hp rp o mode cb = Ok (true, OBad) <->
   mode = 0%Z /\ cb = false /\ - eps9 <= overlap (hcircle hp rp) (pline surf) < 0).
Proof.
  intros H Hp Hz. unfold intersectWithZPlane. cbv zeta.
  destruct (pline_made surf Hz) as [M PL]. cbv zeta in M. rewrite M. clear M. simpl bind.
  rewrite (circle_made hp rp H). simpl bind.
  destruct (circle_line_result (hcircle hp rp) (pline surf) PL) as (R1 & R2 & R3 & R4). cbv zeta in *.
  set (D := overlap (hcircle hp rp) (pline surf)) in *.
  assert (E9 : 0 < eps9) by (unfold eps9; lra).
  destruct (Rlt_dec D (- eps9)) as [A|A].
  { rewrite R1 by auto. simpl. split; [discriminate|lra]. }
  destruct (Rlt_dec D 0) as [B|B].
  { rewrite R2 by lra. simpl. destruct (Z.eqb mode 0) eqn:Em; [apply Z.eqb_eq in Em|apply Z.eqb_neq in Em].
    - destruct cb; split; try discriminate; auto.
      + intros (_ & F & _); discriminate.
      + intros _. repeat split; auto; lra.
    - split; [discriminate|]. intros (F & _); contradiction. }
  split; [|lra].
  destruct (Rle_dec D eps9) as [C|C].
  - rewrite R3 by lra. cbn [bind]. destruct (line_point _ _ _) as [X Y].
    destruct (calculateSfromXY X Y hp rp); discriminate.
  - rewrite R4 by lra. cbn [bind]. 
    destruct (line_point _ _ (sqrt D)) as [X Y]. destruct (line_point _ _ (- sqrt D)) as [X' Y'].
    destruct (calculateSfromXY X Y hp rp); try discriminate. cbn [bind].
    destruct (calculateSfromXY X' Y' hp rp); try discriminate. cbn [bind].
    destruct (select _ _ _ _ _ _) as [[s' x']|]; discriminate.
Qed.

(** completeness away from tangency *)
Lemma zplane_complete surf hp rp o mode cb :
  hp OMEGA <> 0 -> Rabs (hp PHI0) <= 2 * PI -> zplane_ok surf ->
  eps9 < overlap (hcircle hp rp) (pline surf) ->
  (forall s, Rabs (hp OMEGA * s) = PI ->
     ~ on_line (pline surf) (vx (hcurve hp rp s), vy (hcurve hp rp s))) ->
  let S := fun s => Rabs (hp OMEGA * s) < PI
             /\ on_line (pline surf) (vx (hcurve hp rp s), vy (hcurve hp rp s)) in
  (exists s, picked 0 mode S s
     /\ intersectWithZPlane surf hp rp o mode cb
        = Ok (if cb then sf_insideBounds surf (hcurve hp rp s) else true, OVal s (hcurve hp rp s)))
  \/ (none_for mode S /\ intersectWithZPlane surf hp rp o mode cb = Ok (false, o)).
Proof.
  intros H Hp Hz HD NH S. unfold intersectWithZPlane. cbv zeta.
  destruct (pline_made surf Hz) as [M PL]. cbv zeta in M. rewrite M. clear M. simpl bind.
  rewrite (circle_made hp rp H). simpl bind.
  destruct (circle_line_result (hcircle hp rp) (pline surf) PL) as (_ & _ & _ & R4). cbv zeta in R4.
  rewrite R4 by auto. clear R4. cbn [bind].
  set (D := overlap (hcircle hp rp) (pline surf)) in *.
  set (P := line_point (hcircle hp rp) (pline surf) (sqrt D)).
  set (Q := line_point (hcircle hp rp) (pline surf) (- sqrt D)).
  assert (E9 : 0 < eps9) by (unfold eps9; lra).
  assert (U : forall x, on_circle (hcircle hp rp) x /\ on_line (pline surf) x <-> x = P \/ x = Q).
  { intros x. rewrite (common_points _ _ _ PL). fold D. split.
    - intros (u & A & ->). apply sq_sqrt_cases in A; [|lra]. destruct A as [-> | ->]; auto.
    - intros [-> | ->]; [exists (sqrt D) | exists (- sqrt D)]; (split; [|reflexivity]);
        (apply sq_sqrt_cases; [lra | auto]). }
  destruct (two_candidates hp rp (on_line (pline surf)) P Q H Hp U)
    as [[(s & A & B) _]|(s0 & s1 & E0 & E1 & V0 & V1 & HS & _)].
  { exfalso. apply (NH s A B). }
  fold S in HS.
  destruct P as [X0 Y0], Q as [X1 Y1]. cbn [fst snd] in *.
  rewrite E0. cbn [bind]. rewrite E1. cbn [bind]. rewrite V0, V1.
  destruct (select 0 mode s0 (hcurve hp rp s0) s1 (hcurve hp rp s1)) as [[s x]|] eqn:Es.
  - left. exists s. split; [eapply select_picked; eauto; lra|].
    apply select_some in Es; [|lra]. destruct Es as (Q1 & _).
    assert (Ex : x = hcurve hp rp s) by (destruct Q1 as [[-> ->]|[-> ->]]; reflexivity).
    rewrite Ex. reflexivity.
  - right. split; [|reflexivity]. apply (select_none_for 0 mode s0 (hcurve hp rp s0) s1 (hcurve hp rp s1)); auto.
Qed.

(** ** C16, C17: cylinders *)
Lemma Rabs_le_inv x y : Rabs x <= y -> - y <= x <= y.
Proof. unfold Rabs. destruct (Rcase_abs x); lra. Qed.

Lemma sin_eq_cases t g : Rabs g <= 1 -> sin t = g ->
  (cos t = cos (asin g) /\ sin t = sin (asin g)) \/ (cos t = - cos (asin g) /\ sin t = sin (asin g)).
Proof.
  intros Hg E. assert (Hs : sin (asin g) = g) by (apply sin_asin; apply Rabs_le_inv in Hg; lra).
  assert (A := sc1 t). assert (B := sc1 (asin g)). rewrite Hs in B. rewrite E in A.
  assert (P : (cos t - cos (asin g)) * (cos t + cos (asin g)) = 0) by nra.
  apply Rmult_integral in P. destruct P; [left|right]; split; lra.
Qed.

Section Cyl.
Variables (hp : vec5) (rp : vec3) (rho : R) (c : vec3).
Hypothesis Hom : hp OMEGA <> 0.
Hypothesis Hrho : 0 < rho.
Let om := hp OMEGA.
Let sp := sin (hp PHI0).
Let cp := cos (hp PHI0).
Let x0 := vx rp - hp D0 * sp.
Let y0 := vy rp + hp D0 * cp.
Let dx := vx c - x0.
Let dy := vy c - y0.
Let sox := sp - om * dx.
Let coy := cp + om * dy.
Let num := 2 * dx * sp - 2 * dy * cp - om * rho * rho - om * (dx * dx + dy * dy).
Let A := sqrt (sox * sox + coy * coy).
Let phirho := atan2 sox coy.

Definition cyl_circle : circle := Circ (vx c) (vy c) rho.

Lemma sox_eq : sox = om * (vx (centre hp rp) - vx c).
Proof. unfold sox, dx, x0, sp, om, centre; cbn [vx]. field. auto. Qed.
Lemma coy_eq : coy = - om * (vy (centre hp rp) - vy c).
Proof. unfold coy, dy, y0, cp, om, centre; cbn [vy]. field. auto. Qed.

Lemma A_sq : A * A = sox * sox + coy * coy.
Proof. unfold A. apply sqrt_sqrt. nra. Qed.

Lemma A_pos_iff : 0 < A <-> (vx c <> vx (centre hp rp) \/ vy c <> vy (centre hp rp)).
Proof.
  split.
  - intros H. destruct (Req_dec (vx c) (vx (centre hp rp))) as [E|E]; [|auto].
    destruct (Req_dec (vy c) (vy (centre hp rp))) as [E'|E']; [|auto].
    exfalso. assert (Z : A * A = 0).
    { rewrite A_sq, sox_eq, coy_eq, E, E'. ring. }
    apply Rmult_integral in Z. destruct Z; lra.
  - intros H. unfold A. apply sqrt_lt_R0. rewrite sox_eq, coy_eq.
    assert (O : om * om > 0) by (apply Rsqr_pos_lt; exact Hom).
    assert (Y1 := Rle_0_sqr (vx (centre hp rp) - vx c)).
    assert (Y2 := Rle_0_sqr (vy (centre hp rp) - vy c)). unfold Rsqr in Y1, Y2.
    assert (Q : 0 < (vx (centre hp rp) - vx c) * (vx (centre hp rp) - vx c)
                  + (vy (centre hp rp) - vy c) * (vy (centre hp rp) - vy c)).
    { destruct H as [H|H].
      - assert (Y3 := Rsqr_pos_lt (vx (centre hp rp) - vx c)). unfold Rsqr in Y3. lra.
      - assert (Y3 := Rsqr_pos_lt (vy (centre hp rp) - vy c)). unfold Rsqr in Y3. lra. }
    apply Rlt_le_trans with (om * om * ((vx (centre hp rp) - vx c) * (vx (centre hp rp) - vx c)
                  + (vy (centre hp rp) - vy c) * (vy (centre hp rp) - vy c))).
    + apply Rmult_lt_0_compat; lra.
    + right. ring.
Qed.

Lemma num_eq : om * num = 1 - A * A - om * om * rho * rho.
Proof.
  rewrite A_sq. unfold num, sox, coy.
  assert (E := sc1 (hp PHI0)). fold sp cp in E.
  transitivity (1 - (sp * sp + cp * cp) + om * (2 * dx * sp - 2 * dy * cp - om * rho * rho
     - om * (dx * dx + dy * dy))); [rewrite E; ring | ring].
Qed.

(** a point of the cylinder circle lies on the helix circle iff ... *)
Lemma cyl_angle_iff al :
  on_circle (hcircle hp rp) (vx c + rho * cos al, vy c + rho * sin al)
  <-> 2 * rho * A * sin (al - phirho) = num.
Proof.
  rewrite hcircle_centre. unfold on_circle. cbn [c_x c_y c_r fst snd]. rewrite Rabs_sq.
  assert (S1 := atan2_cos sox coy). assert (S2 := atan2_sin sox coy).
  replace (coy * coy + sox * sox) with (sox * sox + coy * coy) in S1, S2 by ring.
  fold A phirho in S1, S2.
  assert (O : om <> 0) by exact Hom.
  assert (E : 2 * rho * A * sin (al - phirho) = 2 * rho * (sin al * coy - cos al * sox)).
  { rewrite sin_minus. rewrite <- S1, <- S2. ring. }
  rewrite E.
  set (cx := vx (centre hp rp)) in *. set (cy := vy (centre hp rp)) in *.
  assert (F : om * om * ((vx c + rho * cos al - cx) * (vx c + rho * cos al - cx)
      + (vy c + rho * sin al - cy) * (vy c + rho * sin al - cy))
    = om * om * rho * rho + A * A + om * (2 * rho * (sin al * coy - cos al * sox))).
  { rewrite A_sq, sox_eq, coy_eq. fold cx cy.
    transitivity (om * om * (rho * rho * (sin al * sin al + cos al * cos al)
       + (cx - vx c) * (cx - vx c) + (cy - vy c) * (cy - vy c)
       - 2 * rho * (cos al * (cx - vx c) + sin al * (cy - vy c)))); [ring|].
    rewrite sc1. ring. }
  assert (N := num_eq). fold om.
  split; intros G.
  - rewrite G in F. apply Rmult_eq_reg_l with om; auto. rewrite N.
    transitivity (om * om * (1 / om * (1 / om)) - om * om * rho * rho - A * A); [lra|].
    replace (om * om * (1 / om * (1 / om))) with 1 by (field; auto). ring.
  - apply Rmult_eq_reg_l with (om * om); [|nra]. rewrite F, G, N. field. auto.
Qed.

Lemma cyl_polar p : on_circle cyl_circle p ->
  exists al, p = (vx c + rho * cos al, vy c + rho * sin al).
Proof.
  destruct p as [X Y]. unfold on_circle, cyl_circle. cbn [c_x c_y c_r fst snd]. intros E.
  exists (atan2 (Y - vy c) (X - vx c)).
  assert (S1 := atan2_cos (Y - vy c) (X - vx c)). assert (S2 := atan2_sin (Y - vy c) (X - vx c)).
  rewrite E, sqrt_square in S1, S2 by lra. f_equal; lra.
Qed.

Lemma cyl_on al : on_circle cyl_circle (vx c + rho * cos al, vy c + rho * sin al).
Proof.
  unfold on_circle, cyl_circle. cbn [c_x c_y c_r fst snd].
  transitivity (rho * rho * (sin al * sin al + cos al * cos al)); [ring|]. rewrite sc1. ring.
Qed.

(** concentric circles *)
Lemma cyl_concentric p : A = 0 -> on_circle (hcircle hp rp) p -> on_circle cyl_circle p -> num = 0.
Proof.
  intros HA H1 H2. destruct (cyl_polar p H2) as [al ->]. apply cyl_angle_iff in H1.
  rewrite HA in H1. lra.
Qed.

Let gamma := num / (2 * rho * A).
Let asing := asin gamma.
Let phic0 := asing + phirho.
Let phic1 := (if Rlt_dec 0 asing then PI - asing else - PI - asing) + phirho.
Let P0 := (vx c + rho * cos phic0, vy c + rho * sin phic0).
Let P1 := (vx c + rho * cos phic1, vy c + rho * sin phic1).

Lemma phic1_cs : cos (phic1 - phirho) = - cos asing /\ sin (phic1 - phirho) = sin asing.
Proof.
  unfold phic1. match goal with |- context [if ?b then _ else _] => destruct b end.
  - replace (PI - asing + phirho - phirho) with (PI - asing) by ring.
    rewrite cos_minus, sin_minus, cos_PI, sin_PI. split; ring.
  - replace (- PI - asing + phirho - phirho) with (- (PI + asing)) by ring.
    rewrite cos_neg, sin_neg, cos_plus, sin_plus, cos_PI, sin_PI. split; ring.
Qed.

Lemma cyl_points : 0 < A -> Rabs gamma <= 1 ->
  forall p, on_circle (hcircle hp rp) p /\ on_circle cyl_circle p <-> p = P0 \/ p = P1.
Proof.
  intros HA Hg p.
  assert (Sg : sin asing = gamma) by (apply sin_asin; apply Rabs_le_inv in Hg; lra).
  assert (Q : forall al, sin (al - phirho) = gamma <-> 2 * rho * A * sin (al - phirho) = num).
  { intros al. unfold gamma. split.
    - intros ->. field. lra.
    - intros <-. field. lra. }
  destruct phic1_cs as [B1 B2].
  assert (B0 : phic0 - phirho = asing) by (unfold phic0; ring).
  split.
  - intros [H1 H2]. destruct (cyl_polar p H2) as [al ->].
    apply cyl_angle_iff in H1. apply Q in H1.
    destruct (sin_eq_cases _ _ Hg H1) as [[E1 E2]|[E1 E2]]; fold asing in E1, E2.
    + left. unfold P0.
      destruct (angle_eq_2pi (al - phirho) asing E1 E2) as [k Hk].
      replace al with (phic0 + 2 * IZR k * PI) by (unfold phic0; lra).
      rewrite cos_2kpi, sin_2kpi. reflexivity.
    + right. unfold P1.
      destruct (angle_eq_2pi (al - phirho) (phic1 - phirho)) as [k Hk]; [lra|lra|].
      replace al with (phic1 + 2 * IZR k * PI) by lra.
      rewrite cos_2kpi, sin_2kpi. reflexivity.
  - intros [-> | ->]; split; try apply cyl_on; apply cyl_angle_iff; apply Q.
    + rewrite B0. exact Sg.
    + rewrite B2. exact Sg.
Qed.

Lemma cyl_no_points : 0 < A -> 1 < Rabs gamma ->
  forall p, on_circle (hcircle hp rp) p -> ~ on_circle cyl_circle p.
Proof.
  intros HA Hg p H1 H2. destruct (cyl_polar p H2) as [al ->]. apply cyl_angle_iff in H1.
  assert (E : gamma = sin (al - phirho)) by (unfold gamma; rewrite <- H1; field; lra).
  rewrite E in Hg. generalize (SIN_bound (al - phirho)). intros [L U].
  assert (Rabs (sin (al - phirho)) <= 1) by (apply Rabs_le; lra). lra.
Qed.

(** the model in terms of the above *)
Lemma zcyl_form surf o mode cb :
  st_parallelToZ (sf_type surf) = true -> sf_cyl surf = Some (rho, c) ->
  (0 < A -> Rabs gamma <= 1 ->
     intersectWithZCylinder surf hp rp o mode cb =
     (s0 <- calculateSfromXY (fst P0) (snd P0) hp rp ;;
      s1 <- calculateSfromXY (fst P1) (snd P1) hp rp ;;
      match select eps4 mode s0 (V3 (fst P0) (snd P0) (calculateZfromS s0 hp rp))
              s1 (V3 (fst P1) (snd P1) (calculateZfromS s1 hp rp)) with
      | None => Ok (false, o)
      | Some (s, xx) => Ok (bounds surf cb xx, OVal s xx)
      end))
  /\ (0 < A -> 1 < Rabs gamma -> intersectWithZCylinder surf hp rp o mode cb = Ok (false, o))
  /\ (A = 0 -> num <> 0 -> intersectWithZCylinder surf hp rp o mode cb = Ok (false, o))
  /\ (A = 0 -> num = 0 -> intersectWithZCylinder surf hp rp o mode cb = NonFin).
Proof.
  intros Hpar Hcyl. unfold intersectWithZCylinder. rewrite Hpar, Hcyl. cbv zeta.
  unfold calculateOmega, calculatePhi0, calculateD0.
  fold om sp cp x0 y0 dx dy sox coy. fold num A phirho.
  unfold xdiv. split; [|split; [|split]]; intros HA Hg.
  - destruct (Req_EM_T (2 * rho * A) 0); [nra|]. fold gamma.
    destruct (Rlt_dec 1 (Rabs gamma)); [lra|]. reflexivity.
  - destruct (Req_EM_T (2 * rho * A) 0); [nra|]. fold gamma.
    destruct (Rlt_dec 1 (Rabs gamma)); [reflexivity|lra].
  - destruct (Req_EM_T (2 * rho * A) 0) as [_|F]; [|rewrite HA in F; lra].
    destruct (Req_EM_T num 0); [contradiction|reflexivity].
  - destruct (Req_EM_T (2 * rho * A) 0) as [_|F]; [|rewrite HA in F; lra].
    destruct (Req_EM_T num 0); [reflexivity|contradiction].
Qed.

Lemma zcyl_cases surf o mode cb :
  Rabs (hp PHI0) <= 2 * PI ->
  st_parallelToZ (sf_type surf) = true -> sf_cyl surf = Some (rho, c) ->
  let S := fun s => Rabs (hp OMEGA * s) < PI /\ on_cylinder rho c (hcurve hp rp s) in
  (* crossed at half a turn, or the two circles coincide *)
  (intersectWithZCylinder surf hp rp o mode cb = NonFin
   /\ exists s, Rabs (hp OMEGA * s) = PI /\ on_cylinder rho c (hcurve hp rp s))
  \/ (* a solution *)
  ((forall s, Rabs (hp OMEGA * s) = PI -> ~ on_cylinder rho c (hcurve hp rp s))
   /\ exists s, picked eps4 mode S s
      /\ intersectWithZCylinder surf hp rp o mode cb
         = Ok (bounds surf cb (hcurve hp rp s), OVal s (hcurve hp rp s)))
  \/ (* no solution *)
  ((forall s, Rabs (hp OMEGA * s) = PI -> ~ on_cylinder rho c (hcurve hp rp s))
   /\ none_for mode S
   /\ intersectWithZCylinder surf hp rp o mode cb = Ok (false, o)).
Proof.
  intros Hp Hpar Hcyl S.
  destruct (zcyl_form surf o mode cb Hpar Hcyl) as (F1 & F2 & F3 & F4).
  assert (Conv : forall s, on_cylinder rho c (hcurve hp rp s)
            <-> on_circle cyl_circle (vx (hcurve hp rp s), vy (hcurve hp rp s))) by (intros; reflexivity).
  assert (OC := fun s => hcurve_on_circle hp rp s Hom).
  destruct (Rle_lt_dec A 0) as [HA|HA].
  - assert (A0 : A = 0) by (unfold A in *; generalize (sqrt_pos (sox * sox + coy * coy)); lra).
    destruct (Req_dec num 0) as [N|N].
    + left. split; [auto|]. exists (PI / om). split.
      * replace (hp OMEGA * (PI / om)) with PI by (unfold om; field; auto).
        apply Rabs_pos_eq. generalize PI_pos; lra.
      * assert (G : forall q, on_circle (hcircle hp rp) q -> on_circle cyl_circle q).
        { (* both circles have the same centre and radius *)
          intros q Hq. rewrite hcircle_centre in Hq. unfold on_circle, cyl_circle in *. cbn [c_x c_y c_r] in *.
          rewrite Rabs_sq in Hq.
          assert (Q := num_eq). rewrite N, A0 in Q.
          assert (Z : ~ (0 < A)) by lra. rewrite A_pos_iff in Z.
          assert (Z1 : vx c = vx (centre hp rp)) by (destruct (Req_dec (vx c) (vx (centre hp rp))); tauto).
          assert (Z2 : vy c = vy (centre hp rp)) by (destruct (Req_dec (vy c) (vy (centre hp rp))); tauto).
          rewrite Z1, Z2, Hq. fold om. apply Rmult_eq_reg_l with (om * om).
          - transitivity 1; [field; exact Hom|]. lra.
          - unfold om. nra. }
        apply Conv. apply G. apply OC.
    + right. right.
      assert (G : forall s, ~ on_cylinder rho c (hcurve hp rp s)).
      { intros s Hs. apply N. apply (cyl_concentric (vx (hcurve hp rp s), vy (hcurve hp rp s)) A0); auto. }
      split; [intros s _; apply G|]. split; [|auto]. intros s [_ Hs]. exfalso. apply (G s Hs).
  - destruct (Rlt_dec 1 (Rabs gamma)) as [Hg|Hg].
    + right. right.
      assert (G : forall s, ~ on_cylinder rho c (hcurve hp rp s)).
      { intros s Hs. apply (cyl_no_points HA Hg _ (OC s)). apply Conv. auto. }
      split; [intros s _; apply G|]. split; [|auto]. intros s [_ Hs]. exfalso. apply (G s Hs).
    + assert (Hg' : Rabs gamma <= 1) by lra. clear Hg. rewrite (F1 HA Hg'). clear F1 F2 F3 F4.
      destruct (two_candidates hp rp (on_circle cyl_circle) P0 P1 Hom Hp (cyl_points HA Hg'))
        as [[(s & L & G) [E|E]]|(s0 & s1 & E0 & E1 & V0 & V1 & HS & NH)].
      * left. rewrite E. split; [reflexivity|]. exists s. auto.
      * left. rewrite E. split; [|exists s; auto].
        assert (I0 : on_circle (hcircle hp rp) P0) by (apply (cyl_points HA Hg'); auto).
        destruct (SfromXY_circle hp rp (fst P0) (snd P0) Hom Hp)
          as [(s0 & _ & -> & _)|(s0 & _ & -> & _)]; [rewrite <- surjective_pairing; auto | reflexivity..].
      * right. rewrite E0. cbn [bind]. rewrite E1. cbn [bind]. rewrite V0, V1.
        assert (Te : 0 <= eps4) by (unfold eps4; lra).
        change (forall t : R, S t <-> t = s0 \/ t = s1) in HS.
        destruct (select eps4 mode s0 (hcurve hp rp s0) s1 (hcurve hp rp s1)) as [[s x]|] eqn:Es.
        -- left. split; [exact NH|]. exists s. split; [eapply select_picked; eauto|].
           apply select_some in Es; auto. destruct Es as (Q1 & _).
           assert (Ex : x = hcurve hp rp s) by (destruct Q1 as [[-> ->]|[-> ->]]; reflexivity).
           rewrite Ex. reflexivity.
        -- right. split; [exact NH|]. split; [|reflexivity].
           apply (select_none_for eps4 mode s0 (hcurve hp rp s0) s1 (hcurve hp rp s1)); auto.
Qed.
End Cyl.
