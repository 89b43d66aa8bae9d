(** Which functions throw. *)
From Coq Require Import Reals List Bool ZArith Lra.
From Verif Require Import Num Vec Helix Isect Trans Material Traj SpecThrow SurfFacts SurfFacts2.
Import ListNotations.
Open Scope R_scope.

Lemma nt_bind {A B} (x : res A) (f : A -> res B) :
  x <> Throw -> (forall a, x = Ok a -> f a <> Throw) -> bind x f <> Throw.
Proof. destruct x; cbn; auto; discriminate. Qed.
Lemma nt_rdiv a b : rdiv a b <> Throw.
Proof. unfold rdiv. destruct Req_EM_T; discriminate. Qed.
Lemma nt_rsqrt a : rsqrt a <> Throw.
Proof. unfold rsqrt. destruct Rlt_dec; discriminate. Qed.
Lemma nt_rln a : rln a <> Throw.
Proof. unfold rln. destruct Rlt_dec; discriminate. Qed.
Lemma nt_rpow a b : rpow a b <> Throw.
Proof. unfold rpow. destruct Rlt_dec; discriminate. Qed.
Lemma nt_ok {A} (a : A) : Ok a <> Throw. Proof. discriminate. Qed.

Create HintDb nt.
#[export] Hint Resolve nt_rdiv nt_rsqrt nt_rln nt_rpow : nt.

Ltac nt :=
  repeat first
    [ discriminate
    | solve [auto with nt]
    | lazymatch goal with |- (let x := ?a in @?b x) <> ?c =>
        let Q := fresh in cut (forall x, b x <> c); [intros Q; exact (Q a)|cbv beta; intros ?] end
    | apply nt_bind; [|intros ? _]
    | lazymatch goal with |- (if ?b then _ else _) <> _ => destruct b end
    | lazymatch goal with |- (match ?b with (_, _) => _ end) <> _ => destruct b end
    ].

Lemma nt_vunit v : vunit v <> Throw.
Proof. unfold vunit. nt. Qed.
#[export] Hint Resolve nt_vunit : nt.

Lemma nt_S x y hp rp : calculateSfromXY x y hp rp <> Throw.
Proof. unfold calculateSfromXY. nt. Qed.
Lemma nt_pointAt s hp rp : pointAt s hp rp <> Throw.
Proof. unfold pointAt. nt. Qed.
Lemma nt_while_less b x : while_less b x <> Throw.
Proof. unfold while_less. generalize (wrap_fuel (b - x)). intros n. revert x. induction n; intros x; cbn; nt. Qed.
Lemma nt_while_greater b x : while_greater b x <> Throw.
Proof. unfold while_greater. generalize (wrap_fuel (x - b)). intros n. revert x. induction n; intros x; cbn; nt. Qed.
#[export] Hint Resolve nt_S nt_pointAt nt_while_less nt_while_greater : nt.

Lemma nt_move tp x cov : moveHelixTo tp x cov <> Throw.
Proof. unfold moveHelixTo. nt. Qed.
Lemma nt_mom f hp rp : momentumAtPCA f hp rp <> Throw.
Proof. unfold momentumAtPCA. nt. Qed.
Lemma nt_bethe m p mass : computeBetheBloch m p mass <> Throw.
Proof. unfold computeBetheBloch. nt. Qed.
#[export] Hint Resolve nt_move nt_mom nt_bethe : nt.
Lemma nt_loss s uv m mass : computeEnergyLoss_uv s uv m mass <> Throw.
Proof. unfold computeEnergyLoss_uv. nt. Qed.
Lemma nt_qms s uv m mass : computeQMS_uv s uv m mass <> Throw.
Proof. unfold computeQMS_uv. nt. Qed.
Lemma nt_apply tp el : applyLoss tp el <> Throw.
Proof. unfold applyLoss. nt. Qed.
#[export] Hint Resolve nt_loss nt_qms nt_apply : nt.
Lemma nt_qms2 s uv m mass : qms2 (computeQMS_uv s uv m mass) <> Throw.
Proof. generalize (nt_qms s uv m mass). unfold qms2. destruct computeQMS_uv; auto; discriminate. Qed.
#[export] Hint Resolve nt_qms2 : nt.

Lemma nt_newton surf hp rp n st : newton_loop surf hp rp n st <> Throw.
Proof.
  revert st. induction n; intros st; cbn [newton_loop]; [discriminate|].
  apply nt_bind; [unfold newton_step; nt|]. intros [[s xx]|st'] _; [discriminate|apply IHn].
Qed.
Lemma nt_line c l : intersectCircleStraightLine c l <> Throw.
Proof. unfold intersectCircleStraightLine. nt. Qed.

(** an intersection throws for an unusable surface, whatever the helix, and only
    then *)
Lemma unusable_eq surf : unusable surf <->
  let t := sf_type surf in
  let n := sf_normal surf v3zero in
  if isZCylinder t then sf_cyl surf = None
  else if isZPlane t then Rabs (vx n) < / 1000000000000 /\ Rabs (vy n) < / 1000000000000
  else if isZDisk t then False
  else if isCone t then st_parallelToZ t = false \/ sf_cyl surf = None
  else False.
Proof.
  unfold unusable. cbv zeta. rewrite <- isZCylinder_iff, <- isZPlane_iff, <- isZDisk_iff.
  change (st_cone (sf_type surf)) with (isCone (sf_type surf)).
  destruct (isZCylinder _), (isZPlane _), (isZDisk _), (isCone _); intuition discriminate.
Qed.
Lemma isect_throw surf hp rp o mode cb :
  intersectWithSurface surf hp rp o mode cb = Throw <-> unusable surf.
Proof.
  rewrite unusable_eq. unfold intersectWithSurface. cbv zeta.
  destruct (isZCylinder (sf_type surf)) eqn:Ec.
  { rewrite zcyl_throw. unfold isZCylinder in Ec. apply andb_prop in Ec. destruct Ec as [_ Ec]. rewrite Ec.
    intuition discriminate. }
  destruct (isZPlane (sf_type surf)) eqn:Ep.
  { split.
    - intros H. unfold intersectWithZPlane in H. cbv zeta in H.
      destruct (mkStraightLine _ _ _) eqn:El; cbn [bind] in H; try discriminate.
      + exfalso. destruct (mkCircle _ _ _) eqn:Eci; cbn [bind] in H; try discriminate.
        * revert H. apply nt_bind; [apply nt_line|]. intros l _.
          destruct l as [|[[x y]|] [|[[x' y']|] l]]; nt.
          destruct select as [[? ?]|]; discriminate.
        * revert Eci. unfold mkCircle. destruct Rlt_dec as [L|]; [intros _|discriminate].
          unfold calculateRadius in L. cbv zeta in L. destruct Req_EM_T in L; [lra|].
          match type of L with Rabs ?z < 0 => generalize (Rabs_pos z); lra end.
      + revert El. unfold mkStraightLine. destruct Rlt_dec as [L|]; [generalize (Rabs_pos (vdot (sf_origin surf) (sf_normal surf v3zero))); lra|].
        destruct Rlt_dec; [|discriminate]. destruct Rlt_dec; [|discriminate]. auto.
    - intros [A B]. apply pline_throw; auto. }
  destruct (isZDisk (sf_type surf)).
  { split; [|intros []]. intros H. exfalso. revert H. unfold intersectWithZDisk. nt. }
  destruct (isCone (sf_type surf)); [|split; [intros H; discriminate H|intros []]].
  unfold intersectWithZCone. rewrite <- (zcyl_throw surf hp rp o mode false).
  destruct (intersectWithZCylinder surf hp rp o mode false) as [[[|] [s xx|]]| | | |]; cbn [bind];
    try (split; [discriminate|discriminate]); try (split; auto; discriminate).
  split; [|discriminate]. intros H. exfalso. revert H. unfold intersectWithSurfaceNewton.
  apply nt_bind; [apply nt_pointAt|]. intros xx' _. apply nt_bind; [apply nt_newton|].
  intros [s' x'|s' x'] _; discriminate.
Qed.
