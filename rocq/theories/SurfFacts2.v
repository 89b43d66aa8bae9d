(** Straight tracks on cylinders, disks, Newton iteration, dispatch (C16, C19-C21). *)
From Coq Require Import Reals Lra Lia ZArith Psatz List Bool.
From Verif Require Import SpecConst Num NumFacts Vec Helix Isect SpecHelix SpecIsect HelixFacts PathFacts
  IsectFacts SurfFacts.
Import ListNotations.
Open Scope R_scope.

Lemma bounds_iff surf cb x : bounds surf cb x = true <-> (cb = true -> sf_insideBounds surf x = true).
Proof. unfold bounds. destruct cb; split; auto; discriminate. Qed.

Lemma mode_ok_iff mode s : mode_ok mode s = true <-> sign_ok mode s.
Proof.
  unfold mode_ok, sign_ok. destruct (Rlt_dec 0 (IZR mode * s)) as [A|A].
  - split; auto. intros _. split; intros H; apply IZR_lt in H; nra.
  - rewrite Z.eqb_eq. split.
    + intros ->. split; lia.
    + intros [B C]. destruct (Z.lt_trichotomy mode 0) as [H|[H|H]]; auto; exfalso; apply A.
      * specialize (C H). apply IZR_lt in H. nra.
      * specialize (B H). apply IZR_lt in H. nra.
Qed.

(** cylinder: throws exactly if it is no cylinder parallel to z *)
Lemma zcyl_throw surf hp rp o mode cb :
  intersectWithZCylinder surf hp rp o mode cb = Throw <->
  (st_parallelToZ (sf_type surf) = false \/ sf_cyl surf = None).
Proof.
  unfold intersectWithZCylinder.
  destruct (st_parallelToZ (sf_type surf)); [|split; auto].
  destruct (sf_cyl surf) as [[rho c]|]; [|split; auto].
  cbv zeta. split; [|intros [F|F]; discriminate].
  assert (NT : forall x y, calculateSfromXY x y hp rp <> Throw).
  { intros x y. unfold calculateSfromXY. cbv zeta.
    match goal with |- (if ?b then _ else _) <> _ => destruct b end; [discriminate|].
    unfold rdiv. match goal with |- (if ?b then _ else _) <> _ => destruct b end; discriminate. }
  match goal with |- context [xdiv ?a ?b] => destruct (xdiv a b) end; try discriminate.
  match goal with |- context [if ?b then _ else _] => destruct b end; try discriminate.
  match goal with |- context [calculateSfromXY ?x ?y hp rp] =>
    generalize (NT x y); destruct (calculateSfromXY x y hp rp) end; intros N; try discriminate; try congruence; cbn [bind].
  match goal with |- context [calculateSfromXY ?x ?y hp rp] =>
    generalize (NT x y); destruct (calculateSfromXY x y hp rp) end; intros N1; try discriminate; try congruence; cbn [bind].
  match goal with |- context [select ?a ?b ?c ?d ?e ?f] => destruct (select a b c d e f) as [[? ?]|] end; discriminate.
Qed.

(** ** C19 *)
Lemma zdisk_spec surf hp rp o mode cb f : is_helix hp rp f ->
  (hp TANL = 0 -> intersectWithZDisk surf hp rp o mode cb = NonFin)
  /\ (hp TANL <> 0 -> exists s,
        (forall t, vz (f t) = vz (sf_origin surf) <-> t = s)
        /\ exists x b, intersectWithZDisk surf hp rp o mode cb = Ok (b, OVal s x)
        /\ vx x = vx (f s) /\ vz x = vz (f s)
        /\ (hp OMEGA <> 0 -> x = f s)
        /\ (hp OMEGA = 0 -> vy x = vy (f s) + s * (cos (hp PHI0) - sin (hp PHI0))
              /\ (x = f s <-> s = 0 \/ cos (hp PHI0) = sin (hp PHI0)))
        /\ (b = true <-> sign_ok mode s /\ (cb = true -> sf_insideBounds surf x = true))).
Proof.
  intros Hf. unfold intersectWithZDisk. cbv zeta. unfold calculateTanLambda, calculateZ0.
  split; intros H.
  - rewrite H, rdiv_zero. reflexivity.
  - rewrite rdiv_ok by auto. cbn [bind].
    set (s := (vz (sf_origin surf) - (vz rp + hp Z0)) / hp TANL).
    assert (Hz : forall t, vz (f t) = vz rp + hp Z0 + t * hp TANL).
    { intros t. destruct (XYZfromS_helix hp rp f Hf t) as (_ & <- & _).
      unfold calculateZfromS, calculateZ0, calculateTanLambda. ring. }
    assert (Hs : vz (f s) = vz (sf_origin surf)).
    { rewrite Hz. unfold s. field. auto. }
    exists s. split.
    { intros t. split; [|intros ->; auto]. intros E. rewrite <- Hs, !Hz in E.
      assert (Q : (t - s) * hp TANL = 0) by lra. apply Rmult_integral in Q. destruct Q; [lra|contradiction]. }
    destruct (XYZfromS_helix hp rp f Hf s) as (Ex & _ & Ey & _ & Ey0).
    do 2 eexists. split; [reflexivity|]. cbn [vx vz]. split; [auto|]. split; [auto|].
    split; [|split].
    + intros Ho. specialize (Ey Ho). rewrite Ex, Ey, <- Hs. destruct (f s); reflexivity.
    + intros Ho. split.
      { cbn [vy]. destruct (XYZ_line s hp rp Ho) as (_ & _ & Y). rewrite Y, (helix_is_hline hp rp f Ho Hf). unfold hline. cbn [vy]. ring. }
      rewrite <- (Ey0 Ho). rewrite Ex, <- Hs. destruct (f s) as [a b d]; cbn [vx vy vz].
      split; [intros E; injection E; auto | intros ->; auto].
    + rewrite andb_true_iff, mode_ok_iff, bounds_iff. tauto.
Qed.

(** ** C20 *)
Section Newton.
Variables (surf : surface) (hp : vec5) (rp : vec3).

(** the states whose distance has been evaluated and found too large, in order *)
Inductive nsteps : nstate -> list nstate -> nstate -> Prop :=
| ns_nil st : nsteps st [] st
| ns_cons st st' l st'' : newton_step surf hp rp st = Ok (inr st') -> nsteps st' l st'' ->
    nsteps st (st :: l) st''.

Definition dist_of (st : nstate) : R := sf_distance surf (n_xx st).

Definition start_state (s : R) (x : vec3) : nstate := NS s x x s 10000000000 (/ 10000000000).

Lemma step_inl st s x : newton_step surf hp rp st = Ok (inl (s, x)) ->
  s = n_s st /\ x = n_xx st /\ Rabs (dist_of st) < newton_eps.
Proof.
  unfold newton_step, dist_of. cbv zeta. destruct (Rlt_dec (Rabs (sf_distance surf (n_xx st))) newton_eps).
  - intros E. injection E as <- <-. auto.
  - match goal with |- context [rdiv ?a ?b] => destruct (rdiv a b) end; try discriminate.
    cbn [bind]. match goal with |- context [pointAt ?a hp rp] => destruct (pointAt a hp rp) end; discriminate.
Qed.

Lemma step_inr st st' : newton_step surf hp rp st = Ok (inr st') ->
  newton_eps <= Rabs (dist_of st)
  /\ pointAt (n_s st') hp rp = Ok (n_xx st')
  /\ ((Rabs (dist_of st) < Rabs (n_prevDist st)
       /\ n_prevS st' = n_s st /\ n_prevXX st' = n_xx st /\ n_prevDist st' = dist_of st
       /\ n_alpha st' = n_alpha st / 10)
      \/ (Rabs (n_prevDist st) <= Rabs (dist_of st)
       /\ n_prevS st' = n_prevS st /\ n_prevXX st' = n_prevXX st /\ n_prevDist st' = n_prevDist st
       /\ n_alpha st' = n_alpha st * 10))
  /\ n_s st' = n_prevS st'
       - n_prevDist st' / ((1 + n_alpha st')
           * vdot (sf_normal surf (n_prevXX st')) (calculateTangent (n_prevS st') hp))
  /\ (1 + n_alpha st') * vdot (sf_normal surf (n_prevXX st')) (calculateTangent (n_prevS st') hp) <> 0.
Proof.
  unfold newton_step, dist_of, alphaIncr, alphaDecr. cbv zeta. intros E.
  destruct (Rlt_dec (Rabs (sf_distance surf (n_xx st))) newton_eps) as [L|L]; [discriminate|].
  split; [lra|].
  destruct (Rlt_dec (Rabs (sf_distance surf (n_xx st))) (Rabs (n_prevDist st))) as [L'|L'];
    cbn [fst snd n_s n_xx n_prevXX n_prevS n_prevDist n_alpha] in E;
    match type of E with context [rdiv ?a ?b] => destruct (rdiv a b) eqn:N end;
    cbn [bind] in E; try discriminate; apply rdiv_inv in N; destruct N as [N ->];
    match type of E with context [pointAt ?a hp rp] => destruct (pointAt a hp rp) eqn:P end;
    cbn [bind] in E; try discriminate; injection E as <-;
    cbn [n_s n_xx n_prevXX n_prevS n_prevDist n_alpha].
  - split; [auto|]. split; [left; repeat split; auto; unfold alphaIncr; field|]. split; auto.
  - split; [auto|]. split; [right; repeat split; auto; unfold alphaIncr; lra|]. split; auto.
Qed.

(** shape of every result *)
Lemma loop_result budget st r : newton_loop surf hp rp budget st = Ok r ->
  exists l st', nsteps st l st' /\
    ((r = NDone (n_s st') (n_xx st') /\ (length l < budget)%nat /\ Rabs (dist_of st') < newton_eps)
     \/ (r = NGiveUp (n_prevS st') (n_prevXX st') /\ length l = budget)).
Proof.
  revert st. induction budget as [|n IH]; intros st E; cbn [newton_loop] in E.
  - injection E as <-. exists [], st. split; [constructor|]. right. auto.
  - destruct (newton_step surf hp rp st) as [[[s x]|st1]| | | |] eqn:Es; cbn [bind] in E; try discriminate.
    + injection E as <-. apply step_inl in Es. destruct Es as (-> & -> & D).
      exists [], st. split; [constructor|]. left. repeat split; auto. simpl. lia.
    + destruct (IH _ E) as (l & st' & T & C). exists (st :: l), st'.
      split; [econstructor; eauto|]. simpl length.
      destruct C as [(-> & C1 & C2)|(-> & C1)]; [left|right]; repeat split; auto; lia.
Qed.

Lemma loop_no_throw budget st : 
  match newton_loop surf hp rp budget st with Ok _ => True | NonFin => True | _ => False end.
Proof.
  revert st. induction budget as [|n IH]; intros st; cbn [newton_loop]; auto.
  assert (G : match newton_step surf hp rp st with Ok _ => True | NonFin => True | _ => False end).
  { unfold newton_step. cbv zeta.
    destruct (Rlt_dec (Rabs (sf_distance surf (n_xx st))) newton_eps); auto.
    unfold rdiv. match goal with |- context [Req_EM_T ?a ?b] => destruct (Req_EM_T a b) end; cbn [bind]; auto.
    unfold pointAt, rdiv. destruct (Req_EM_T (calculateOmega hp) 0); cbn [bind]; auto. }
  destruct (newton_step surf hp rp st) as [[[s x]|st1]| | | |]; cbn [bind]; auto. apply IH.
Qed.

Lemma nsteps_app st l st' l' st'' : nsteps st l st' -> nsteps st' l' st'' -> nsteps st (l ++ l') st''.
Proof. induction 1; simpl; auto. intros. econstructor; eauto. Qed.

(** all visited points lie on the helix *)
Lemma nsteps_points st l st' : nsteps st l st' -> pointAt (n_s st) hp rp = Ok (n_xx st) ->
  (forall t, In t l -> pointAt (n_s t) hp rp = Ok (n_xx t) /\ newton_eps <= Rabs (dist_of t))
  /\ pointAt (n_s st') hp rp = Ok (n_xx st').
Proof.
  induction 1 as [|st st' l st'' E T IH]; intros P.
  - split; auto. intros t [].
  - apply step_inr in E. destruct E as (E1 & E2 & _). destruct (IH E2) as (A & B).
    split; auto. intros t [<-|I]; auto.
Qed.

(** the remembered point is the best one *)
Definition best_inv (vs : list nstate) (st : nstate) : Prop :=
  exists b, In b vs /\ n_prevS st = n_s b /\ n_prevXX st = n_xx b /\ n_prevDist st = dist_of b
    /\ forall v, In v vs -> Rabs (dist_of b) <= Rabs (dist_of v).

Lemma best_step vs st st' : best_inv vs st -> newton_step surf hp rp st = Ok (inr st') ->
  best_inv (vs ++ [st]) st'.
Proof.
  intros (b & I & B1 & B2 & B3 & B4) E. apply step_inr in E. destruct E as (_ & _ & C & _).
  destruct C as [(C0 & C1 & C2 & C3 & _)|(C0 & C1 & C2 & C3 & _)].
  - exists st. split; [apply in_or_app; right; left; auto|]. repeat split; auto.
    intros v Hv. apply in_app_or in Hv. destruct Hv as [Hv|[<-|[]]]; [|lra].
    specialize (B4 v Hv). rewrite B3 in C0. lra.
  - exists b. split; [apply in_or_app; auto|]. rewrite C1, C2, C3. repeat split; auto.
    intros v Hv. apply in_app_or in Hv. destruct Hv as [Hv|[<-|[]]]; [auto|]. rewrite B3 in C0. lra.
Qed.

Lemma best_steps st l st' : nsteps st l st' -> forall vs, best_inv vs st -> best_inv (vs ++ l) st'.
Proof.
  induction 1 as [|st st' l st'' E T IH]; intros vs B.
  - rewrite app_nil_r. auto.
  - replace (vs ++ st :: l) with ((vs ++ [st]) ++ l) by (rewrite <- app_assoc; reflexivity).
    apply IH. eapply best_step; eauto.
Qed.

Lemma best_from_start s x l st' : Rabs (sf_distance surf x) < 10000000000 ->
  nsteps (start_state s x) l st' -> l <> [] -> best_inv l st'.
Proof.
  intros D T N. inversion T as [|? st1 l1 ? E T1]; subst; [congruence|].
  change (start_state s x :: l1) with ([start_state s x] ++ l1).
  apply (best_steps _ _ _ T1). apply step_inr in E. destruct E as (_ & _ & C & _).
  destruct C as [(C0 & C1 & C2 & C3 & _)|(C0 & _)].
  - exists (start_state s x). split; [left; auto|]. repeat split; auto.
    intros v [<-|[]]. lra.
  - exfalso. unfold start_state in C0. cbn [n_prevDist] in C0. unfold dist_of in C0; cbn [n_xx] in C0.
    rewrite (Rabs_pos_eq 10000000000) in C0; lra.
Qed.

Lemma newton_result s mode cb b o :
  intersectWithSurfaceNewton surf hp rp s mode cb = Ok (b, o) ->
  exists x l st', pointAt s hp rp = Ok x /\ nsteps (start_state s x) l st'
    /\ (forall t, In t l -> pointAt (n_s t) hp rp = Ok (n_xx t) /\ newton_eps <= Rabs (dist_of t))
    /\ (((length l <= 100)%nat /\ Rabs (dist_of st') < newton_eps
         /\ pointAt (n_s st') hp rp = Ok (n_xx st') /\ o = OVal (n_s st') (n_xx st')
         /\ (b = true <-> sign_ok mode (n_s st') /\ (cb = true -> sf_insideBounds surf (n_xx st') = true)))
        \/ (length l = 101%nat /\ b = false
            /\ (exists s' x', o = OVal s' x' /\ pointAt s' hp rp = Ok x')
            /\ (Rabs (sf_distance surf x) < 10000000000 ->
                exists t, In t l /\ o = OVal (n_s t) (n_xx t)
                /\ forall v, In v l -> Rabs (dist_of t) <= Rabs (dist_of v)))).
Proof.
  unfold intersectWithSurfaceNewton. intros E.
  destruct (pointAt s hp rp) as [x| | | |] eqn:P; cbn [bind] in E; try discriminate.
  fold (start_state s x) in E.
  destruct (newton_loop surf hp rp newton_budget (start_state s x)) as [r| | | |] eqn:L;
    cbn [bind] in E; try discriminate.
  destruct (loop_result _ _ _ L) as (l & st' & T & C).
  exists x, l, st'. split; auto. split; auto.
  destruct (nsteps_points _ _ _ T P) as (Q1 & Q2). split; auto.
  unfold newton_budget in C. destruct C as [(-> & C1 & C2)|(-> & C1)].
  - left. injection E as <- <-. split; [lia|]. split; [auto|]. split; [auto|]. split; [auto|].
    rewrite andb_true_iff, mode_ok_iff, bounds_iff. tauto.
  - right. injection E as <- <-. split; auto. split; auto.
    assert (N : l <> []) by (intros ->; discriminate).
    split.
    + (* the remembered state is a visited or the start *)
      assert (G : forall st l st', nsteps st l st' -> pointAt (n_s st) hp rp = Ok (n_xx st) ->
                 pointAt (n_prevS st) hp rp = Ok (n_prevXX st) ->
                 pointAt (n_prevS st') hp rp = Ok (n_prevXX st')).
      { clear. intros st l st' T. induction T as [|st st' l st'' E T IH]; auto. intros P1 P2.
        apply step_inr in E. destruct E as (_ & E2 & C & _). apply IH; auto.
        destruct C as [(_ & -> & -> & _)|(_ & -> & -> & _)]; auto. }
      do 2 eexists. split; [reflexivity|]. eapply G; eauto.
    + intros D. destruct (best_from_start _ _ _ _ D T N) as (b & I & B1 & B2 & _ & B4).
      exists b. rewrite B1, B2. auto.
Qed.

Lemma newton_outcomes s mode cb :
  match intersectWithSurfaceNewton surf hp rp s mode cb with
  | Ok _ => True | NonFin => True | _ => False end.
Proof.
  unfold intersectWithSurfaceNewton.
  assert (P : match pointAt s hp rp with Ok _ => True | NonFin => True | _ => False end).
  { unfold pointAt, rdiv. destruct (Req_EM_T (calculateOmega hp) 0); cbn [bind]; auto. }
  destruct (pointAt s hp rp) as [x| | | |]; cbn [bind]; auto.
  fold (start_state s x). generalize (loop_no_throw newton_budget (start_state s x)).
  destruct (newton_loop surf hp rp newton_budget (start_state s x)) as [[]| | | |]; cbn [bind]; auto.
Qed.
End Newton.

(** for a surface whose distance is the height above z = h, one step multiplies
    the distance by 1 - 1/((1 + alpha) cos lambda) *)
Lemma newton_height surf hp rp h st st' : hp OMEGA <> 0 ->
  (forall x, sf_distance surf x = vz x - h) -> (forall x, sf_normal surf x = V3 0 0 1) ->
  pointAt (n_s st) hp rp = Ok (n_xx st) ->
  newton_step surf hp rp st = Ok (inr st') ->
  Rabs (dist_of surf st) < Rabs (n_prevDist st) ->
  dist_of surf st' = dist_of surf st * (1 - 1 / ((1 + n_alpha st') * cos (atan (hp TANL)))).
Proof.
  intros Ho Hd Hn P E Hb. apply step_inr in E. destruct E as (_ & P' & C & E & N).
  destruct C as [(_ & C1 & C2 & C3 & _)|(C0 & _)]; [|lra].
  rewrite C1, C2, C3 in *. rewrite Hn in E, N.
  rewrite pointAt_hcurve in P, P' by auto. injection P as P. injection P' as P'.
  unfold dist_of in *. rewrite !Hd, <- P, <- P'. rewrite !Hd, <- P in E.
  unfold vdot, calculateTangent, calculateLambda in E, N. cbn [vx vy vz] in E, N.
  unfold hcurve. cbn [vz]. unfold hcurve in E; cbn [vz] in E.
  set (lam := atan (hp TANL)) in *.
  assert (Hc : cos lam <> 0).
  { assert (0 < cos lam); [|lra]. apply cos_gt_0; generalize (atan_bound (hp TANL)); fold lam; lra. }
  assert (Ht : hp TANL = sin lam / cos lam) by (unfold lam; rewrite <- (atan_right_inv (hp TANL)) at 1; reflexivity).
  assert (N1 : 1 + n_alpha st' <> 0) by (intros Z; apply N; rewrite Z; ring).
  assert (N2 : sin lam <> 0) by (intros Z; apply N; unfold calculateTanLambda; fold lam; rewrite Z; ring).
  rewrite E. unfold calculateTanLambda. fold lam. rewrite Ht. field. auto.
Qed.

(** ** Statements for an arbitrary description [f] of the helix *)
Lemma picked_ext tol mode (S S' : R -> Prop) s : (forall t, S t <-> S' t) ->
  picked tol mode S s -> picked tol mode S' s.
Proof.
  intros H [A B C D]. constructor.
  - apply H; auto.
  - intros M. destruct (B M) as [B1 B2]. split; auto. intros t Ht. apply B2. apply H; auto.
  - intros M. destruct (C M) as [B1 B2]. split; auto. intros t Ht. apply B2. apply H; auto.
  - intros M t Ht. apply D; auto. apply H; auto.
Qed.

Lemma none_ext mode (S S' : R -> Prop) : (forall t, S t <-> S' t) -> none_for mode S -> none_for mode S'.
Proof. intros H N s Hs. apply N. apply H; auto. Qed.

Lemma zcyl_complete surf hp rp rho c o mode cb f :
  hp OMEGA <> 0 -> Rabs (hp PHI0) <= 2 * PI -> is_helix hp rp f -> 0 < rho ->
  st_parallelToZ (sf_type surf) = true -> sf_cyl surf = Some (rho, c) ->
  (intersectWithZCylinder surf hp rp o mode cb = NonFin
   /\ exists s, Rabs (hp OMEGA * s) = PI /\ on_cylinder rho c (f s))
  \/ ((forall s, Rabs (hp OMEGA * s) = PI -> ~ on_cylinder rho c (f s))
      /\ exists s b, picked eps4 mode (crossing f (hp OMEGA) (on_cylinder rho c)) s
         /\ (b = true <-> (cb = true -> sf_insideBounds surf (f s) = true))
         /\ pointAt s hp rp = Ok (f s)
         /\ intersectWithZCylinder surf hp rp o mode cb = Ok (b, OVal s (f s)))
  \/ ((forall s, Rabs (hp OMEGA * s) = PI -> ~ on_cylinder rho c (f s))
      /\ none_for mode (crossing f (hp OMEGA) (on_cylinder rho c))
      /\ intersectWithZCylinder surf hp rp o mode cb = Ok (false, o)).
Proof.
  intros H Hp Hf Hr Hpar Hcyl. assert (F := helix_is_hcurve hp rp f H Hf).
  assert (X : forall t, (Rabs (hp OMEGA * t) < PI /\ on_cylinder rho c (hcurve hp rp t))
              <-> crossing f (hp OMEGA) (on_cylinder rho c) t)
    by (intros t; unfold crossing; rewrite F; tauto).
  destruct (zcyl_cases hp rp rho c H Hr surf o mode cb Hp Hpar Hcyl)
    as [(A & s & B & C)|[(N & s & A & B)|(N & A & B)]].
  - left. split; auto. exists s. rewrite F. auto.
  - right. left. split; [intros t Ht; rewrite F; auto|].
    exists s, (bounds surf cb (f s)). split; [exact (picked_ext _ _ _ _ _ X A)|].
    split; [apply bounds_iff|]. split; [rewrite F; apply pointAt_hcurve; auto|].
    rewrite F. exact B.
  - right. right. split; [intros t Ht; rewrite F; auto|]. split; auto. exact (none_ext _ _ _ X A).
Qed.

Lemma zcyl_sound surf hp rp rho c o mode cb f s xx :
  hp OMEGA <> 0 -> Rabs (hp PHI0) <= 2 * PI -> is_helix hp rp f -> 0 < rho ->
  sf_cyl surf = Some (rho, c) ->
  intersectWithZCylinder surf hp rp o mode cb = Ok (true, OVal s xx) ->
  xx = f s /\ pointAt s hp rp = Ok xx /\ on_cylinder rho c xx /\ Rabs (hp OMEGA * s) < PI
  /\ ((0 < mode)%Z -> 0 <= s) /\ ((mode < 0)%Z -> s < 0)
  /\ (cb = true -> sf_insideBounds surf xx = true).
Proof.
  intros H Hp Hf Hr Hcyl E.
  destruct (st_parallelToZ (sf_type surf)) eqn:Hpar.
  2:{ assert (T : intersectWithZCylinder surf hp rp o mode cb = Throw) by (apply zcyl_throw; auto).
      rewrite T in E. discriminate. }
  destruct (zcyl_complete surf hp rp rho c o mode cb f H Hp Hf Hr Hpar Hcyl)
    as [(A & _)|[(_ & s' & b & P & B & Q & A)|(_ & _ & A)]]; rewrite A in E; try discriminate.
  injection E as Eb Es Ex. subst b s' xx. destruct P as [[P1 P2] P3 P4 _].
  split; auto. split; auto. split; auto. split; auto.
  split; [intros M; apply (P3 M)|]. split; [intros M; apply (P4 M)|]. apply B; auto.
Qed.

Lemma zcyl_not_bad surf hp rp o mode cb b : 
  intersectWithZCylinder surf hp rp o mode cb = Ok (b, OBad) -> b = false /\ o = OBad.
Proof.
  unfold intersectWithZCylinder.
  destruct (st_parallelToZ (sf_type surf)); [|discriminate].
  destruct (sf_cyl surf) as [[rho c]|]; [|discriminate]. cbv zeta.
  match goal with |- context [xdiv ?a ?b] => destruct (xdiv a b) end; try discriminate;
    [|intros E; injection E; auto].
  match goal with |- context [if ?b then _ else _] => destruct b end; [intros E; injection E; auto|].
  match goal with |- context [calculateSfromXY ?x ?y hp rp] => destruct (calculateSfromXY x y hp rp) end;
    try discriminate; cbn [bind].
  match goal with |- context [calculateSfromXY ?x ?y hp rp] => destruct (calculateSfromXY x y hp rp) end;
    try discriminate; cbn [bind].
  match goal with |- context [select ?a ?b ?c ?d ?e ?f] => destruct (select a b c d e f) as [[? ?]|] end;
    [discriminate|intros E; injection E; auto].
Qed.

Lemma zplane_sound surf hp rp o mode cb f s xx :
  hp OMEGA <> 0 -> Rabs (hp PHI0) <= 2 * PI -> is_helix hp rp f -> zplane_ok surf ->
  intersectWithZPlane surf hp rp o mode cb = Ok (true, OVal s xx) ->
  let d := vdot (sf_origin surf) (sf_normal surf v3zero) in
  xx = f s /\ pointAt s hp rp = Ok xx /\ Rabs (hp OMEGA * s) < PI
  /\ ((0 < mode)%Z -> 0 <= s) /\ ((mode < 0)%Z -> s < 0)
  /\ (cb = true -> sf_insideBounds surf xx = true)
  /\ (0 <= d -> on_plane (sf_origin surf) (sf_normal surf v3zero) xx)
  /\ (d < 0 -> vdot xx (sf_normal surf v3zero) = - d
               /\ ~ on_plane (sf_origin surf) (sf_normal surf v3zero) xx).
Proof.
  intros H Hp Hf Hz E d. assert (F := helix_is_hcurve hp rp f H Hf).
  destruct (zplane_true _ _ _ _ _ _ _ _ H Hp Hz E) as (A & B & C & D & G1 & G2).
  split; [rewrite F; auto|]. split; [rewrite B; apply pointAt_hcurve; auto|].
  split; auto. split; auto. split; auto. split; auto.
  assert (Q := on_pline surf xx Hz C). cbv zeta in Q. fold d in Q.
  split.
  - intros Hd. unfold on_plane. rewrite Q, Rabs_pos_eq; lra.
  - intros Hd. rewrite Rabs_left in Q by auto.
    split; [|unfold on_plane; lra].
    unfold d in *. unfold vdot, vsub in *. cbn [vx vy vz] in *. lra.
Qed.

Lemma zplane_complete_f surf hp rp o mode cb f :
  hp OMEGA <> 0 -> Rabs (hp PHI0) <= 2 * PI -> is_helix hp rp f -> zplane_ok surf ->
  0 <= vdot (sf_origin surf) (sf_normal surf v3zero) ->
  eps9 < plane_margin surf hp rp ->
  let P := on_plane (sf_origin surf) (sf_normal surf v3zero) in
  (forall s, Rabs (hp OMEGA * s) = PI -> ~ P (f s)) ->
  (exists s b, picked 0 mode (crossing f (hp OMEGA) P) s
     /\ (b = true <-> (cb = true -> sf_insideBounds surf (f s) = true))
     /\ intersectWithZPlane surf hp rp o mode cb = Ok (b, OVal s (f s)))
  \/ (none_for mode (crossing f (hp OMEGA) P)
      /\ intersectWithZPlane surf hp rp o mode cb = Ok (false, o)).
Proof.
  intros H Hp Hf Hz Hd Hm P NH. assert (F := helix_is_hcurve hp rp f H Hf).
  assert (I : forall x, on_line (pline surf) (vx x, vy x) <-> P x)
    by (intros x; apply on_pline_iff; auto).
  assert (X : forall t, (Rabs (hp OMEGA * t) < PI
                /\ on_line (pline surf) (vx (hcurve hp rp t), vy (hcurve hp rp t)))
              <-> crossing f (hp OMEGA) P t)
    by (intros t; unfold crossing; rewrite F, I; tauto).
  destruct (zplane_complete surf hp rp o mode cb H Hp Hz Hm) as [(s & A & B)|(A & B)].
  - intros s Hs G. apply (NH s Hs). rewrite F. apply I. auto.
  - left. exists s, (bounds surf cb (f s)). split; [exact (picked_ext _ _ _ _ _ X A)|].
    split; [apply bounds_iff|]. rewrite F. exact B.
  - right. split; auto. exact (none_ext _ _ _ X A).
Qed.

(** ** C21 *)
Lemma isZCylinder_iff t : isZCylinder t = true <-> z_cylinder t.
Proof. unfold isZCylinder, z_cylinder. apply andb_true_iff. Qed.
Lemma isZPlane_iff t : isZPlane t = true <-> z_plane t.
Proof. unfold isZPlane, z_plane. apply andb_true_iff. Qed.
Lemma isZDisk_iff t : isZDisk t = true <-> z_disk t.
Proof. unfold isZDisk, z_disk. apply andb_true_iff. Qed.
Lemma isZCylinder_false t : isZCylinder t = false <-> ~ z_cylinder t.
Proof. rewrite <- isZCylinder_iff. destruct (isZCylinder t); split; intros; auto; try discriminate; try (exfalso; auto). Qed.
Lemma isZPlane_false t : isZPlane t = false <-> ~ z_plane t.
Proof. rewrite <- isZPlane_iff. destruct (isZPlane t); split; intros; auto; try discriminate; try (exfalso; auto). Qed.
Lemma isZDisk_false t : isZDisk t = false <-> ~ z_disk t.
Proof. rewrite <- isZDisk_iff. destruct (isZDisk t); split; intros; auto; try discriminate; try (exfalso; auto). Qed.

Lemma zcone_sound surf hp rp o mode cb s xx :
  hp OMEGA <> 0 ->
  intersectWithZCone surf hp rp o mode cb = Ok (true, OVal s xx) ->
  (exists s0 x0, intersectWithZCylinder surf hp rp o mode false = Ok (true, OVal s0 x0))
  /\ Rabs (sf_distance surf xx) < newton_eps
  /\ pointAt s hp rp = Ok xx /\ sign_ok mode s /\ (cb = true -> sf_insideBounds surf xx = true).
Proof.
  intros H E. unfold intersectWithZCone in E.
  destruct (intersectWithZCylinder surf hp rp o mode false) as [[[] [s0 x0|]]| | | |] eqn:C;
    cbn [bind] in E; try discriminate.
  split; [eauto|].
  destruct (newton_result _ _ _ _ _ _ _ _ E) as (x & l & st' & _ & _ & _ & [(_ & A & B & C1 & D)|(_ & A & _)]).
  - injection C1 as -> ->. unfold dist_of in A. split; auto. split; auto. apply D; auto.
  - discriminate.
Qed.

Lemma zcone_fail surf hp rp o mode cb o' :
  intersectWithZCylinder surf hp rp o mode false = Ok (false, o') ->
  intersectWithZCone surf hp rp o mode cb = Ok (false, o').
Proof. intros E. unfold intersectWithZCone. rewrite E. reflexivity. Qed.

Lemma dispatch_sound surf hp rp o mode cb f s xx :
  hp OMEGA <> 0 -> Rabs (hp PHI0) <= 2 * PI -> is_helix hp rp f -> wf_surface surf ->
  intersectWithSurface surf hp rp o mode cb = Ok (true, OVal s xx) ->
  let t := sf_type surf in
  let d := vdot (sf_origin surf) (sf_normal surf v3zero) in
  xx = f s /\ pointAt s hp rp = Ok xx
  /\ ((0 < mode)%Z -> 0 <= s) /\ ((mode < 0)%Z -> s < 0)
  /\ (cb = true -> sf_insideBounds surf xx = true)
  /\ ((exists rho c, st_cylinder t = true /\ sf_cyl surf = Some (rho, c) /\ on_cylinder rho c xx)
      \/ (st_plane t = true /\ st_parallelToZ t = true /\ vdot xx (sf_normal surf v3zero) = Rabs d)
      \/ (st_plane t = true /\ st_orthogonalToZ t = true /\ vz xx = vz (sf_origin surf))
      \/ (st_cone t = true /\ Rabs (sf_distance surf xx) < newton_eps)).
Proof.
  intros H Hp Hf [W1 W2] E t d. assert (F := helix_is_hcurve hp rp f H Hf).
  unfold intersectWithSurface, isZCylinder, isZPlane, isZDisk, isCone in E. cbv zeta in E. fold t in E, W2.
  destruct (st_cylinder t) eqn:Tc, (st_parallelToZ t) eqn:Tp; cbn [andb] in E;
  destruct (st_plane t) eqn:Tl; cbn [andb] in E;
  try (destruct (st_orthogonalToZ t) eqn:To; cbn [andb] in E);
  try (destruct (st_cone t) eqn:Tk; cbn [andb] in E);
  try discriminate;
  try (destruct (sf_cyl surf) as [[rho c]|] eqn:Cy;
       [| assert (T : intersectWithZCylinder surf hp rp o mode cb = Throw) by (apply zcyl_throw; auto);
          rewrite T in E; discriminate ];
       destruct (zcyl_sound surf hp rp rho c o mode cb f s xx H Hp Hf (W1 _ _ eq_refl) Cy E)
         as (A1 & A2 & A3 & A4 & A5 & A6 & A7);
       repeat (split; [solve [auto]|]); left; exists rho, c; auto; fail);
  try (destruct (zplane_sound surf hp rp o mode cb f s xx H Hp Hf (W2 eq_refl eq_refl) E)
         as (A1 & A2 & A3 & A4 & A5 & A6 & A7 & A8);
       fold d in A7, A8;
       repeat (split; [solve [auto]|]); right; left; split; auto; split; auto;
       destruct (Rlt_dec d 0) as [L|L];
       [ rewrite Rabs_left by auto; apply A8; auto
       | rewrite Rabs_pos_eq by lra; assert (Q : on_plane (sf_origin surf) (sf_normal surf v3zero) xx) by (apply A7; lra);
         unfold on_plane in Q; unfold d; unfold vdot, vsub in *; cbn [vx vy vz] in *; lra ]; fail);
  try (destruct (zdisk_spec surf hp rp o mode cb f Hf) as [Z1 Z2];
       destruct (Req_dec (hp TANL) 0) as [T0|T0];
       [ rewrite (Z1 T0) in E; discriminate |];
       destruct (Z2 T0) as (s' & U & x & b & E' & _ & _ & X & _ & B);
       rewrite E' in E; injection E as -> -> ->; specialize (X H); subst xx;
       destruct B as [B _]; specialize (B eq_refl); destruct B as [[B1 B2] B3];
       split; auto; split; [rewrite F; apply pointAt_hcurve; auto|];
       split; [intros M; left; auto|]; split; auto; split; auto;
       right; right; left; repeat split; auto; apply U; auto; fail);
  try (destruct (zcone_sound surf hp rp o mode cb s xx H E) as (_ & A1 & A2 & [A3 A4] & A5);
       assert (X : xx = f s) by (rewrite F; rewrite pointAt_hcurve in A2 by auto; injection A2; auto);
       split; auto; split; auto; split; [intros M; left; auto|]; split; auto; split; auto;
       right; right; right; auto; fail).
Qed.

(** no other outcome reports success except with a non-finite result *)
Lemma dispatch_bad surf hp rp o mode cb :
  hp OMEGA <> 0 -> Rabs (hp PHI0) <= 2 * PI -> wf_surface surf ->
  intersectWithSurface surf hp rp o mode cb = Ok (true, OBad) ->
  st_plane (sf_type surf) = true /\ st_parallelToZ (sf_type surf) = true
  /\ mode = 0%Z /\ cb = false /\ - eps9 <= plane_margin surf hp rp < 0.
Proof.
  intros H Hp [W1 W2] E. unfold intersectWithSurface in E. cbv zeta in E.
  destruct (isZCylinder (sf_type surf)) eqn:T1.
  { apply zcyl_not_bad in E. destruct E; discriminate. }
  destruct (isZPlane (sf_type surf)) eqn:T2.
  { unfold isZPlane in T2. apply andb_prop in T2. destruct T2 as [T2 T3].
    apply (zplane_nan surf hp rp o mode cb H Hp (W2 T2 T3)) in E. unfold plane_margin. tauto. }
  destruct (isZDisk (sf_type surf)) eqn:T3.
  { unfold intersectWithZDisk in E. cbv zeta in E.
    match type of E with context [rdiv ?a ?b] => destruct (rdiv a b) end; discriminate. }
  destruct (isCone (sf_type surf)) eqn:T4; [|discriminate].
  unfold intersectWithZCone in E.
  destruct (intersectWithZCylinder surf hp rp o mode false) as [[[] [s0 x0|]]| | | |] eqn:C;
    cbn [bind] in E; try discriminate.
  destruct (newton_result _ _ _ _ _ _ _ _ E) as (x & l & st' & _ & _ & _ & [(_ & A & B & C1 & D)|(_ & A & _)]);
    discriminate.
Qed.
