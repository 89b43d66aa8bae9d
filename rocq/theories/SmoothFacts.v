(** The curve made of the states of a trajectory. *)
From Coq Require Import Reals List Bool ZArith Lra Lia Permutation Sorted.
From Coquelicot Require Import Coquelicot.
From Verif Require Import Num Vec Helix Isect Trans Material Traj.
From Verif Require Import NumFacts SpecHelix HelixFacts PathFacts MoveFacts SpecIsect SurfFacts SurfFacts2 SpecTraj SpecSmooth TrajFacts TrajFacts2 TrajFacts3 TrajFacts5.
Import ListNotations.
Open Scope R_scope.

(** ** gluing functions at a point *)
Definition glue {A : Type} (a : R) (f g : R -> A) (s : R) : A := if Rlt_dec s a then f s else g s.

Lemma glue_locally_l {A : Type} a (f g : R -> A) s : s < a -> locally s (fun u => f u = glue a f g u).
Proof.
  intros L. apply locally_interval with m_infty a; cbn; auto. intros y _ Hy. unfold glue.
  destruct (Rlt_dec y a); auto. contradiction.
Qed.
Lemma glue_locally_r {A : Type} a (f g : R -> A) s : a < s -> locally s (fun u => g u = glue a f g u).
Proof.
  intros L. apply locally_interval with a p_infty; cbn; auto. intros y Hy _. unfold glue.
  destruct (Rlt_dec y a); auto. lra.
Qed.

Lemma glue_derive a (f g f' g' : R -> R) : f a = g a -> f' a = g' a ->
  (forall s, is_derive f s (f' s)) -> (forall s, is_derive g s (g' s)) ->
  forall s, is_derive (glue a f g) s (glue a f' g' s).
Proof.
  intros E E' F G s. unfold glue at 2. destruct (Rlt_dec s a) as [L|L].
  { eapply is_derive_ext_loc; [apply glue_locally_l; eauto|]. apply F. }
  destruct (Rlt_dec a s) as [L'|L'].
  { eapply is_derive_ext_loc; [apply glue_locally_r; eauto|]. apply G. }
  assert (s = a) by lra. subst s. specialize (F a). specialize (G a). rewrite E' in F.
  apply is_derive_Reals in F. apply is_derive_Reals in G. apply is_derive_Reals.
  intros eps He. destruct (F eps He) as [d1 H1]. destruct (G eps He) as [d2 H2].
  assert (Hd : 0 < Rmin d1 d2) by (apply Rmin_case; apply cond_pos).
  exists (mkposreal _ Hd). cbn [pos]. intros h Hh Hl.
  assert (Rabs h < d1) by (eapply Rlt_le_trans; [exact Hl|apply Rmin_l]).
  assert (Rabs h < d2) by (eapply Rlt_le_trans; [exact Hl|apply Rmin_r]).
  unfold glue. destruct (Rlt_dec a a); [lra|]. destruct (Rlt_dec (a + h) a); [rewrite <- E; auto|auto].
Qed.

Lemma glue_continuous a (f g : R -> R) : f a = g a ->
  (forall s, continuous f s) -> (forall s, continuous g s) -> forall s, continuous (glue a f g) s.
Proof.
  intros E F G s. destruct (Rlt_dec s a) as [L|L].
  { eapply continuous_ext_loc; [|apply F]. apply glue_locally_l; auto. }
  destruct (Rlt_dec a s) as [L'|L'].
  { eapply continuous_ext_loc; [|apply G]. apply glue_locally_r; auto. }
  assert (s = a) by lra. subst s. specialize (F a). specialize (G a).
  apply continuity_pt_filterlim. apply continuity_pt_filterlim in F. apply continuity_pt_filterlim in G.
  apply continuity_pt_locally. intros eps.
  rewrite continuity_pt_locally in F. rewrite continuity_pt_locally in G.
  generalize (filter_and _ _ (F eps) (G eps)). apply filter_imp. intros u [A B].
  unfold glue. destruct (Rlt_dec a a); [lra|]. destruct (Rlt_dec u a); [rewrite <- E; auto|auto].
Qed.

(** ** the curve of a list of elements *)
Definition curve_of (e : telem) (s : R) : vec3 := hcurve (tp_par (te_tp e)) (tp_ref (te_tp e)) (s - te_s e).
Definition angle_of (e : telem) (s : R) : R := tp_par (te_tp e) PHI0 - tp_par (te_tp e) OMEGA * (s - te_s e).
Definition tangent_of (e : telem) (s : R) : vec3 := calculateTangent (s - te_s e) (tp_par (te_tp e)).

Fixpoint track {A : Type} (f : telem -> R -> A) (e : telem) (l : list telem) (s : R) : A :=
  match l with
  | [] => f e s
  | a :: l' => glue (te_s a) (f e) (track f a l') s
  end.

(** two consecutive elements: the helix of the first leads to the point and the
    direction of the second *)
Definition joined (a b : telem) : Prop :=
  te_s a <= te_s b /\ curve_of a (te_s b) = curve_of b (te_s b)
  /\ tp_par (te_tp a) TANL = tp_par (te_tp b) TANL
  /\ exists k : Z, tp_par (te_tp b) PHI0 = angle_of a (te_s b) + 2 * IZR k * PI.

Fixpoint chain (e : telem) (l : list telem) : Prop :=
  match l with [] => True | a :: l' => joined e a /\ chain a l' end.

Lemma elementAt_track {A : Type} (f : telem -> R -> A) s : forall l prevS e, prevS <= s ->
  f (elementAt_loop s prevS e l) s = track f e l s.
Proof.
  induction l as [|a l IH]; intros prevS e H; auto. cbn [elementAt_loop track]. unfold glue.
  destruct (Rle_dec prevS s); [|contradiction]. destruct (Rlt_dec s (te_s a)); auto. apply IH. lra.
Qed.

Lemma track_map {A B : Type} (f : telem -> R -> A) (p : A -> B) : forall l e s,
  track (fun e s => p (f e s)) e l s = p (track f e l s).
Proof.
  induction l as [|a l IH]; intros e s; auto. cbn [track]. unfold glue.
  destruct (Rlt_dec s (te_s a)); auto.
Qed.

(** a quantity that agrees at the joints: value at the start of a list *)
Lemma track_start {A : Type} (f : telem -> R -> A) : (forall a b, joined a b -> f a (te_s b) = f b (te_s b)) ->
  forall l e, chain e l -> track f e l (te_s e) = f e (te_s e).
Proof.
  intros J. induction l as [|a l IH]; intros e C; auto. destruct C as [C1 C2]. cbn [track]. unfold glue.
  destruct (Rlt_dec (te_s e) (te_s a)); auto. destruct C1 as [L C1].
  assert (Q : te_s e = te_s a) by lra. rewrite Q. rewrite IH by auto. symmetry. apply J. split; auto.
Qed.

Lemma track_derive (f f' : telem -> R -> R) : (forall a b, joined a b -> f a (te_s b) = f b (te_s b)) ->
  (forall a b, joined a b -> f' a (te_s b) = f' b (te_s b)) ->
  forall l e, (forall x, In x (e :: l) -> forall s, is_derive (f x) s (f' x s)) -> chain e l ->
  forall s, is_derive (track f e l) s (track f' e l s).
Proof.
  intros J J'. induction l as [|a l IH]; intros e D C s; cbn [track].
  - apply D. left; auto.
  - destruct C as [C1 C2]. apply glue_derive.
    + rewrite track_start; auto.
    + rewrite track_start; auto.
    + apply D. left; auto.
    + apply IH; auto. intros x I. apply D. right; auto.
Qed.

Lemma track_continuous (f : telem -> R -> R) : (forall a b, joined a b -> f a (te_s b) = f b (te_s b)) ->
  forall l e, (forall x, In x (e :: l) -> forall s, continuous (f x) s) -> chain e l ->
  forall s, continuous (track f e l) s.
Proof.
  intros J. induction l as [|a l IH]; intros e D C s; cbn [track].
  - apply D. left; auto.
  - destruct C as [C1 C2]. apply glue_continuous.
    + rewrite track_start; auto.
    + apply D. left; auto.
    + apply IH; auto. intros x I. apply D. right; auto.
Qed.

(** ** the invariant *)
Lemma chain_snoc : forall l e x, chain e l -> joined (last l e) x -> chain e (l ++ [x]).
Proof.
  induction l as [|a l IH]; intros e x C J; cbn; auto. destruct C as [C1 C2]. split; auto.
  apply IH; auto. rewrite last_cons in J. auto.
Qed.

Lemma joined_same a b a' b' : same_but_jacobian a a' -> same_but_jacobian b b' -> joined a b -> joined a' b'.
Proof.
  intros (A1 & A2 & _) (B1 & B2 & _). unfold joined, curve_of, angle_of. rewrite A1, A2, B1, B2. auto.
Qed.

Lemma chain_same : forall l l' e e', same_but_jacobian e e' -> Forall2 same_but_jacobian l l' -> chain e l -> chain e' l'.
Proof.
  intros l l' e e' S F. revert e e' S. induction F as [|a b l l' A F IH]; intros e e' S C; auto.
  destruct C as [C1 C2]. split; [eapply joined_same; eauto|]. eapply IH; eauto.
Qed.

Lemma built_joined E mass las surf cb sc meas elUV e s0 xx moved fid mom el :
  built E mass las surf cb sc meas elUV e s0 xx moved fid mom el ->
  tp_par (te_tp las) OMEGA <> 0 -> Rabs (tp_par (te_tp las) PHI0) <= 2 * PI -> wf_surface surf ->
  Rabs (tp_par (te_tp las) OMEGA * s0) < PI -> joined las e.
Proof.
  intros B H Hp W Hs. destruct (built_facts _ _ _ _ _ _ _ _ _ _ _ _ _ _ _ B H Hp W)
    as (S0 & X & _ & _ & _ & _ & _ & _ & T & _ & _ & D & _ & _ & Z & R & _).
  assert (Es := bu_s _ _ _ _ _ _ _ _ _ _ _ _ _ _ _ B). specialize (Z Hs).
  split; [lra|]. split.
  - unfold curve_of. rewrite Es. replace (s0 + te_s las - te_s las) with s0 by ring.
    replace (s0 + te_s las - (s0 + te_s las)) with 0 by ring. rewrite <- X, <- R. symmetry.
    apply (here_own e); auto.
  - split; auto. destruct (built_direction _ _ _ _ _ _ _ _ _ _ _ _ _ _ _ B H Hp W) as [k K].
    exists k. rewrite K. unfold angle_of. rewrite Es. ring.
Qed.

Definition linked (t : traj) : Prop := match tr_elems t with [] => True | e :: l => chain e l end.

Lemma push_linked E t new t' r (ok : surface -> bool -> Prop) :
  tp_par (tr_ref t) OMEGA <> 0 -> Rabs (tp_par (tr_ref t) PHI0) <= 2 * PI ->
  placed t -> pushElement t new = (t', r) -> (exists b, r = Ok b) \/ r = Throw ->
  (forall las e, new las = Ok (Some e) -> exists mass surf cb sc meas elUV s0 xx moved fid mom el,
     built E mass las surf cb sc meas elUV e s0 xx moved fid mom el /\ wf_surface surf /\ ok surf cb) ->
  (forall surf cb, ok surf cb -> forall s xx,
         intersectWithSurface surf (tp_par (from_state t)) (tp_ref (from_state t))
           (OVal 0 v3zero) 1 cb = Ok (true, OVal s xx) ->
         Rabs (tp_par (from_state t) OMEGA * s) < PI) -> linked t -> linked t'.
Proof.
  intros H Hp P A W N Sh Lk.
  destruct (push_spec _ _ _ _ A W) as [(_ & -> & _)|(t1 & e0 & l & En & El & C)]; auto.
  assert (P1 : linked t1 /\ (forall e, In e (tr_elems t1) -> tp_par (te_tp e) OMEGA <> 0 /\ Rabs (tp_par (te_tp e) PHI0) <= 2 * PI)).
  { destruct (ensure_spec _ _ En) as [(_ & ->)|(_ & s & _ & ->)]; auto.
    - split; auto. intros e I. split; [apply (pl_om _ P); auto|apply (pl_phi _ P); auto].
    - split; [exact Logic.I|]. cbn [set_elems tr_elems]. intros e [<-|[]]; auto. }
  destruct P1 as [Q1 P1].
  destruct C as [(-> & -> & _)|[(-> & -> & _)|(e & -> & C & ->)]]; auto.
  destruct (N _ _ C) as (mass & surf & cb & sc & meas & elUV & s0 & xx & moved & fid & mom & el & B & Wf & Ok1).
  assert (Il : In (last l e0) (tr_elems t1)) by (rewrite El; apply last_in).
  destruct (P1 _ Il) as [O1 O2].
  destruct (ensure_last _ _ En) as (e0' & l' & L1 & L2 & _). rewrite El in L1. injection L1 as <- <-.
  unfold linked in *. cbn [set_elems tr_elems]. rewrite El in *. cbn [app]. apply chain_snoc; auto.
  eapply built_joined; eauto. rewrite L2. apply (Sh surf cb Ok1 s0 xx). rewrite <- L2.
  apply (bu_isect _ _ _ _ _ _ _ _ _ _ _ _ _ _ _ B).
Qed.

Lemma history_linked E (ok : traj -> call -> Prop) ref prop cs t : sorts te_s (en_sortE E) ->
  tp_par ref OMEGA <> 0 -> Rabs (tp_par ref PHI0) <= 2 * PI ->
  (forall t c, ok t c -> surfaces_ok t c /\ within_half_turn t c
     /\ (c = CPrep -> en_sortE E (tr_elems t) = tr_elems t)) ->
  history E ok (mkTraj ref prop) cs t -> linked t.
Proof.
  intros S H Hp Hok Hi. induction Hi as [|cs t c t' Hi IH O Sp]; [exact Logic.I|].
  destruct (history_good _ _ _ _ _ _ S Hi) as (G & R & _).
  destruct (history_placed E ok ref prop cs t S H Hp (fun t c H => proj1 (Hok t c H)) Hi) as [P _].
  rewrite <- R in H, Hp. destruct (Hok _ _ O) as (Sk & Hw & St). clear Hok O.
  destruct Sp as [position precision surf id sc t' r A W|surf t' r A W|t' A|l t' A|m].
  - apply (push_linked E t _ t' r (fun sf cb => sf = surf /\ cb = false) H Hp P A W); auto.
    + intros las e N.
      destruct (newMeasurement_spec _ _ _ _ _ _ _ _ _ N) as (s0 & xx & moved & fid & mom & el & B & _).
      do 12 eexists. split; [exact B|]. auto.
    + intros sf cb [-> ->]. exact Hw.
  - apply (push_linked E t _ t' r (fun sf cb => sf = surf /\ cb = true) H Hp P A W); auto.
    + intros las e N.
      destruct (newScatterer_spec _ _ _ _ _ N) as (s0 & xx & moved & fid & mom & el & B & _).
      do 12 eexists. split; [exact B|]. auto.
    + intros sf cb [-> ->]. exact Hw.
  - destruct (prepare_spec _ _ _ A) as (e0 & l & e0' & l' & Q & -> & S0 & _ & Pr).
    rewrite St in Q by auto. unfold linked in *. rewrite Q in IH. cbn [set_elems tr_elems].
    eapply chain_same; [exact S0| |exact IH]. eapply prepared_forall2; eauto.
  - unfold getIntersectionsWithSurfaces in A. cbv zeta in A. dres A. injection A as <-. exact IH.
  - exact IH.
Qed.

(** all elements of a chain have the dip of the first *)
Lemma chain_tanl : forall l e, chain e l -> forall x, In x (e :: l) -> tp_par (te_tp x) TANL = tp_par (te_tp e) TANL.
Proof.
  induction l as [|a l IH]; intros e C x [<-|I]; auto; [destruct I|].
  destruct C as [(_ & _ & T & _) C2]. rewrite T. apply IH; auto.
Qed.

Lemma joined_angle a b : joined a b ->
  cos (angle_of a (te_s b)) = cos (angle_of b (te_s b)) /\ sin (angle_of a (te_s b)) = sin (angle_of b (te_s b)).
Proof.
  intros (L & _ & T & k & K). assert (Q : angle_of b (te_s b) = tp_par (te_tp b) PHI0) by (unfold angle_of; ring).
  rewrite Q, K, cos_2kpi, sin_2kpi. auto.
Qed.

Lemma tangent_angle e s : tangent_of e s =
  V3 (cos (angle_of e s) * cos (atan (tp_par (te_tp e) TANL)))
     (sin (angle_of e s) * cos (atan (tp_par (te_tp e) TANL))) (sin (atan (tp_par (te_tp e) TANL))).
Proof. reflexivity. Qed.

Lemma joined_tangent a b : joined a b -> tangent_of a (te_s b) = tangent_of b (te_s b).
Proof.
  intros J. destruct (joined_angle _ _ J) as [A B]. rewrite !tangent_angle, A, B.
  destruct J as (_ & _ & -> & _). reflexivity.
Qed.

Lemma curve_derive e : tp_par (te_tp e) OMEGA <> 0 -> forall s,
  is_derive (fun u => vx (curve_of e u)) s (cos (angle_of e s))
  /\ is_derive (fun u => vy (curve_of e u)) s (sin (angle_of e s))
  /\ is_derive (fun u => vz (curve_of e u)) s (tp_par (te_tp e) TANL).
Proof.
  intros H s. unfold curve_of, hcurve, angle_of. cbn [vx vy vz]. split; [|split].
  - auto_derive; auto. replace ((s + - te_s e) * tp_par (te_tp e) OMEGA) with (tp_par (te_tp e) OMEGA * (s - te_s e)) by ring.
    unfold Rminus. field. auto.
  - auto_derive; auto. replace ((s + - te_s e) * tp_par (te_tp e) OMEGA) with (tp_par (te_tp e) OMEGA * (s - te_s e)) by ring.
    unfold Rminus. field. auto.
  - auto_derive; auto. ring.
Qed.

Lemma sec_atan x : sqrt (1 + x * x) * cos (atan x) = 1 /\ sqrt (1 + x * x) * sin (atan x) = x.
Proof.
  assert (P : 0 < sqrt (1 + x * x)) by (apply sqrt_lt_R0; nra).
  rewrite cos_atan, sin_atan. unfold Rsqr. split; field; lra.
Qed.

(** the curve and its direction *)
Lemma smooth e l : (forall x, In x (e :: l) -> tp_par (te_tp x) OMEGA <> 0) -> chain e l ->
  let k := sqrt (1 + tp_par (te_tp e) TANL * tp_par (te_tp e) TANL) in
  forall s,
  (is_derive (fun u => vx (track curve_of e l u)) s (k * vx (track tangent_of e l s))
   /\ is_derive (fun u => vy (track curve_of e l u)) s (k * vy (track tangent_of e l s))
   /\ is_derive (fun u => vz (track curve_of e l u)) s (k * vz (track tangent_of e l s)))
  /\ continuous (fun u => vx (track tangent_of e l u)) s
  /\ continuous (fun u => vy (track tangent_of e l u)) s
  /\ continuous (fun u => vz (track tangent_of e l u)) s.
Proof.
  intros O C k s.
  assert (T := chain_tanl l e C).
  destruct (sec_atan (tp_par (te_tp e) TANL)) as [K1 K2]. fold k in K1, K2.
  assert (D : forall (p : vec3 -> R),
     (forall x, In x (e :: l) -> forall s, is_derive (fun u => p (curve_of x u)) s (k * p (tangent_of x s))) ->
     forall s, is_derive (fun u => p (track curve_of e l u)) s (k * p (track tangent_of e l s))).
  { clear s. intros p Dx s.
    apply (is_derive_ext (track (fun e s => p (curve_of e s)) e l)); [intros u; apply track_map|].
    rewrite <- (track_map tangent_of (fun v => k * p v)).
    apply (track_derive (fun e s => p (curve_of e s)) (fun e s => k * p (tangent_of e s))); auto.
    - intros a b (_ & -> & _). auto.
    - intros a b J. rewrite (joined_tangent _ _ J). auto. }
  assert (W : forall (p : vec3 -> R),
     (forall x, In x (e :: l) -> forall s, continuous (fun u => p (tangent_of x u)) s) ->
     forall s, continuous (fun u => p (track tangent_of e l u)) s).
  { clear s. intros p Dx s.
    apply (continuous_ext (track (fun e s => p (tangent_of e s)) e l)); [intros u; apply track_map|].
    apply (track_continuous (fun e s => p (tangent_of e s))); auto.
    intros a b J. rewrite (joined_tangent _ _ J). auto. }
  split; [split; [|split]|split; [|split]].
  - apply (D vx). intros x I u. destruct (curve_derive x (O x I) u) as (A & _). rewrite tangent_angle, (T x I). cbn [vx].
    replace (k * _) with (cos (angle_of x u)); auto. replace (k * (_ * _)) with (cos (angle_of x u) * (k * cos (atan (tp_par (te_tp e) TANL)))) by ring.
    rewrite K1. ring.
  - apply (D vy). intros x I u. destruct (curve_derive x (O x I) u) as (_ & A & _). rewrite tangent_angle, (T x I). cbn [vy].
    replace (k * _) with (sin (angle_of x u)); auto. replace (k * (_ * _)) with (sin (angle_of x u) * (k * cos (atan (tp_par (te_tp e) TANL)))) by ring.
    rewrite K1. ring.
  - apply (D vz). intros x I u. destruct (curve_derive x (O x I) u) as (_ & _ & A). rewrite tangent_angle. rewrite (T x I) in *. cbn [vz].
    rewrite K2. auto.
  - apply (W vx). intros x I u. cbn [tangent_of calculateTangent vx]. apply (ex_derive_continuous (V:=R_NormedModule)). unfold tangent_of, calculateTangent. cbn [vx].
    auto_derive. auto.
  - apply (W vy). intros x I u. apply (ex_derive_continuous (V:=R_NormedModule)). unfold tangent_of, calculateTangent. cbn [vy].
    auto_derive. auto.
  - apply (W vz). intros x I u. apply (ex_derive_continuous (V:=R_NormedModule)). unfold tangent_of, calculateTangent. cbn [vz].
    auto_derive. auto.
Qed.

(** what the trajectory returns *)
Lemma traj_track t e l : tr_elems t = e :: l -> (forall x, In x (e :: l) -> tp_par (te_tp x) OMEGA <> 0) ->
  forall s, bigNegative <= s ->
  tr_pointAt t s = Ok (track curve_of e l s) /\ tr_tangentAt t s = Ok (track tangent_of e l s).
Proof.
  intros El O s H. unfold tr_pointAt, tr_tangentAt, trajectoryElementAt. rewrite El. cbn [bind].
  rewrite <- (elementAt_track curve_of s l bigNegative e H), <- (elementAt_track tangent_of s l bigNegative e H).
  split; auto. rewrite pointAt_hcurve; [reflexivity|]. apply O.
  clear. generalize bigNegative. revert e. induction l as [|a l IH]; intros e p; cbn [elementAt_loop]; [left; auto|].
  destruct (Rle_dec p s); [destruct (Rlt_dec s (te_s a)); [left; auto|]|]; right; apply IH.
Qed.

(** ** no change of curvature *)
Lemma joined_all a b : joined a b -> tp_par (te_tp a) OMEGA = tp_par (te_tp b) OMEGA -> tp_par (te_tp a) OMEGA <> 0 ->
  forall s, curve_of a s = curve_of b s.
Proof.
  intros (L & Q & T & k & K) O N s.
  set (d := te_s b - te_s a) in *.
  unfold curve_of in *. replace (te_s b - te_s b) with 0 in Q by ring. fold d in Q.
  unfold angle_of in K. fold d in K.
  replace (s - te_s a) with (s - te_s b + d) by (unfold d; ring). set (u := s - te_s b). clearbody u d.
  unfold hcurve in *. injection Q as Q1 Q2 Q3. rewrite <- O, <- T in *.
  set (om := tp_par (te_tp a) OMEGA) in *. set (p := tp_par (te_tp a) PHI0) in *.
  rewrite K in *. clear K.
  replace (p - om * d + 2 * IZR k * PI - 0 * om) with (p - om * d + 2 * IZR k * PI) in * by ring.
  replace (p - om * d + 2 * IZR k * PI - u * om) with (p - (u + d) * om + 2 * IZR k * PI) by ring.
  rewrite !cos_2kpi, !sin_2kpi in *. replace (p - d * om) with (p - om * d) in * by ring.
  f_equal; lra.
Qed.

Lemma chain_all : forall l e, chain e l -> (forall x, In x (e :: l) -> tp_par (te_tp x) OMEGA = tp_par (te_tp e) OMEGA) ->
  tp_par (te_tp e) OMEGA <> 0 -> forall x, In x (e :: l) -> forall s, curve_of x s = curve_of e s.
Proof.
  induction l as [|a l IH]; intros e C O N x [<-|I] s; auto; [destruct I|].
  destruct C as [J C]. assert (Oa := O a (or_intror (or_introl eq_refl))).
  rewrite (joined_all _ _ J) by auto. apply IH; auto; [|congruence].
  intros y Hy. rewrite Oa. apply O. right; auto.
Qed.

Lemma track_all {A : Type} (f : telem -> R -> A) s v : forall l e, (forall x, In x (e :: l) -> f x s = v) -> track f e l s = v.
Proof.
  induction l as [|a l IH]; intros e H; cbn [track]; [apply H; left; auto|]. unfold glue.
  destruct (Rlt_dec s (te_s a)); [apply H; left; auto|]. apply IH. intros x I. apply H. right; auto.
Qed.

Lemma thin_loss surf uv mom mass el : sf_innerThickness surf = 0 -> sf_outerThickness surf = 0 ->
  computeEnergyLoss_uv surf uv mom mass = Ok el -> el_deltaE el = 0.
Proof.
  intros A B. unfold computeEnergyLoss_uv. cbv zeta. rewrite A, B. intros H.
  dres H. unfold rdiv in H at 1 2. destruct (Req_EM_T (Rabs (vdot a (sf_normal surf (sf_localToGlobal surf uv)))) 0) as [Z|Z]; [discriminate|].
  cbn [bind] in H. dres H. dres H. dres H. injection H as <-. cbn [el_deltaE]. field. auto.
Qed.

Definition uniform (c : R -> vec3) (om : R) (t : traj) : Prop :=
  forall e, In e (tr_elems t) -> tp_par (te_tp e) OMEGA = om /\ forall s, curve_of e s = c s.

Lemma push_uniform E t new t' r c (ok : surface -> bool -> Prop) :
  tp_par (tr_ref t) OMEGA <> 0 -> Rabs (tp_par (tr_ref t) PHI0) <= 2 * PI ->
  (forall s0, calculateSfromXY 0 0 (tp_par (tr_ref t)) (tp_ref (tr_ref t)) = Ok s0 ->
     forall s, c s = hcurve (tp_par (tr_ref t)) (tp_ref (tr_ref t)) (s - s0)) ->
  placed t -> pushElement t new = (t', r) -> (exists b, r = Ok b) \/ r = Throw ->
  (forall las e, new las = Ok (Some e) -> exists mass surf cb sc meas elUV s0 xx moved fid mom el,
     built E mass las surf cb sc meas elUV e s0 xx moved fid mom el /\ wf_surface surf /\ thin surf /\ ok surf cb) ->
  (forall surf cb, ok surf cb -> forall s xx,
         intersectWithSurface surf (tp_par (from_state t)) (tp_ref (from_state t))
           (OVal 0 v3zero) 1 cb = Ok (true, OVal s xx) ->
         Rabs (tp_par (from_state t) OMEGA * s) < PI) ->
  uniform c (tp_par (tr_ref t) OMEGA) t -> uniform c (tp_par (tr_ref t) OMEGA) t'.
Proof.
  intros H Hp Hc P A W N Sh U.
  destruct (push_spec _ _ _ _ A W) as [(_ & -> & _)|(t1 & e0 & l & En & El & C)]; auto.
  assert (P1 : uniform c (tp_par (tr_ref t) OMEGA) t1 /\ (forall e, In e (tr_elems t1) -> tp_par (te_tp e) OMEGA <> 0 /\ Rabs (tp_par (te_tp e) PHI0) <= 2 * PI)).
  { destruct (ensure_spec _ _ En) as [(_ & ->)|(_ & s & S & ->)]; auto.
    - split; auto. intros e I. split; [apply (pl_om _ P); auto|apply (pl_phi _ P); auto].
    - split.
      + intros e [<-|[]]. split; auto. intros u. rewrite (Hc s S). reflexivity.
      + cbn [set_elems tr_elems]. intros e [<-|[]]; auto. }
  destruct P1 as [Q1 P1].
  destruct C as [(-> & -> & _)|[(-> & -> & _)|(e & -> & C & ->)]]; auto.
  destruct (N _ _ C) as (mass & surf & cb & sc & meas & elUV & s0 & xx & moved & fid & mom & el & B & Wf & [T1 T2] & Ok1).
  assert (Il : In (last l e0) (tr_elems t1)) by (rewrite El; apply last_in).
  destruct (P1 _ Il) as [O1 O2]. destruct (Q1 _ Il) as [U1 U2].
  destruct (ensure_last _ _ En) as (e0' & l' & L1 & L2 & _). rewrite El in L1. injection L1 as <- <-.
  assert (J : joined (last l e0) e).
  { eapply built_joined; eauto. rewrite L2. apply (Sh surf cb Ok1 s0 xx). rewrite <- L2.
    apply (bu_isect _ _ _ _ _ _ _ _ _ _ _ _ _ _ _ B). }
  assert (Oe : tp_par (te_tp e) OMEGA = tp_par (te_tp (last l e0)) OMEGA).
  { destruct (built_facts _ _ _ _ _ _ _ _ _ _ _ _ _ _ _ B O1 O2 Wf) as (_ & _ & _ & _ & _ & _ & Q & _).
    rewrite Q, (thin_loss _ _ _ _ _ T1 T2 (bu_loss _ _ _ _ _ _ _ _ _ _ _ _ _ _ _ B)).
    unfold Rdiv at 2. rewrite Rmult_0_l, Rminus_0_r. field. }
  intros x. cbn [set_elems tr_elems]. rewrite in_app_iff. intros [I|[<-|[]]]; [apply Q1; auto|].
  split; [congruence|]. intros s. rewrite <- U2. symmetry. apply joined_all; auto.
Qed.

Lemma history_uniform E (ok : traj -> call -> Prop) ref prop cs t c : sorts te_s (en_sortE E) ->
  tp_par ref OMEGA <> 0 -> Rabs (tp_par ref PHI0) <= 2 * PI ->
  (forall s0, calculateSfromXY 0 0 (tp_par ref) (tp_ref ref) = Ok s0 ->
     forall s, c s = hcurve (tp_par ref) (tp_ref ref) (s - s0)) ->
  (forall t c, ok t c -> surfaces_ok t c /\ within_half_turn t c
     /\ match c with CMeas _ _ surf _ _ | CScat surf => thin surf | _ => True end) ->
  history E ok (mkTraj ref prop) cs t -> uniform c (tp_par ref OMEGA) t.
Proof.
  intros S H Hp Hc Hok Hi. induction Hi as [|cs t k t' Hi IH O Sp]; [intros e []|].
  destruct (history_good _ _ _ _ _ _ S Hi) as (G & R & _).
  destruct (history_placed E ok ref prop cs t S H Hp (fun t c H => proj1 (Hok t c H)) Hi) as [P _].
  rewrite <- R in H, Hp, Hc, IH |- *. destruct (Hok _ _ O) as (Sk & Hw & Th). clear Hok O.
  destruct Sp as [position precision surf id sc t' r A W|surf t' r A W|t' A|l t' A|m].
  - apply (push_uniform E t _ t' r c (fun sf cb => sf = surf /\ cb = false) H Hp Hc P A W); auto.
    + intros las e N.
      destruct (newMeasurement_spec _ _ _ _ _ _ _ _ _ N) as (s0 & xx & moved & fid & mom & el & B & _).
      do 12 eexists. split; [exact B|]. auto.
    + intros sf cb [-> ->]. exact Hw.
  - apply (push_uniform E t _ t' r c (fun sf cb => sf = surf /\ cb = true) H Hp Hc P A W); auto.
    + intros las e N.
      destruct (newScatterer_spec _ _ _ _ _ N) as (s0 & xx & moved & fid & mom & el & B & _).
      do 12 eexists. split; [exact B|]. auto.
    + intros sf cb [-> ->]. exact Hw.
  - destruct (prepare_elems _ _ _ S A) as (l & Pm & _ & F & _). intros e I.
    destruct (forall2_in_r _ _ _ _ F I) as (x & X1 & (Es & Et & _)).
    destruct (IH x) as [A1 A2]; [eapply Permutation_in; [apply Permutation_sym; eauto|auto]|].
    unfold curve_of in *. rewrite <- Es, <- Et. auto.
  - unfold getIntersectionsWithSurfaces in A. cbv zeta in A. dres A. injection A as <-. exact IH.
  - exact IH.
Qed.
