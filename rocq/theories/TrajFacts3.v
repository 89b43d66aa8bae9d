(** Lemmas about the states stored in a trajectory. *)
From Coq Require Import Reals List Bool ZArith Lra Lia Permutation Sorted.
From Coquelicot Require Import Coquelicot.
From Verif Require Import Num Vec Helix Isect Trans Material Traj.
From Verif Require Import NumFacts SpecHelix HelixFacts PathFacts MoveFacts SpecIsect SurfFacts SurfFacts2 SpecTraj TrajFacts TrajFacts2.
Import ListNotations.
Open Scope R_scope.

Lemma applyLoss_spec tp el tp' : applyLoss tp el = Ok tp' <->
  el_energy el <> 0 /\ 1 - el_deltaE el / el_energy el <> 0
  /\ tp' = TP (tp_cov tp) (v5set (tp_par tp) OMEGA
              (tp_par tp OMEGA / (1 - el_deltaE el / el_energy el))) (tp_ref tp).
Proof.
  unfold applyLoss, rdiv. destruct (Req_EM_T (el_energy el) 0) as [A|A]; cbn [bind].
  { split; [discriminate|]. intros (B & _). contradiction. }
  destruct (Req_EM_T (1 - el_deltaE el / el_energy el) 0) as [B|B]; cbn [bind].
  { split; [discriminate|]. intros (_ & C & _). contradiction. }
  split; [intros Q; injection Q as <-; auto|]. intros (_ & _ & ->). auto.
Qed.

Lemma built_facts E mass las surf cb sc meas elUV e s0 xx moved fid mom el :
  built E mass las surf cb sc meas elUV e s0 xx moved fid mom el ->
  tp_par (te_tp las) OMEGA <> 0 -> Rabs (tp_par (te_tp las) PHI0) <= 2 * PI -> wf_surface surf ->
  let om := tp_par (te_tp las) OMEGA in
  0 <= s0 /\ xx = hcurve (tp_par (te_tp las)) (tp_ref (te_tp las)) s0
  /\ on_surface surf xx
  /\ moved_spec (te_tp las) xx (tp_par moved) fid /\ tp_ref moved = xx
  /\ tp_cov moved = tp_cov (te_tp las)
  /\ tp_par (te_tp e) OMEGA = om / (1 - el_deltaE el / el_energy el)
  /\ tp_par (te_tp e) OMEGA <> 0
  /\ tp_par (te_tp e) TANL = tp_par (te_tp las) TANL
  /\ tp_par (te_tp e) PHI0 = tp_par moved PHI0
  /\ - PI <= tp_par (te_tp e) PHI0 <= PI
  /\ tp_par (te_tp e) D0 = 0
  /\ tp_par (te_tp e) Z0 = tp_par moved Z0
  /\ (exists k : Z, tp_par (te_tp e) Z0 = - (2 * IZR k * PI / om * tp_par (te_tp las) TANL)
        /\ Rabs (- (s0 * om) + 2 * IZR k * PI) <= PI)
  /\ (Rabs (om * s0) < PI -> tp_par (te_tp e) Z0 = 0)
  /\ tp_ref (te_tp e) = xx
  /\ tp_cov (te_tp e) = tp_cov (te_tp las)
  /\ el_energy el <> 0 /\ 1 - el_deltaE el / el_energy el <> 0.
Proof.
  intros B H Hp W om.
  assert (Hf := hcurve_helix (tp_par (te_tp las)) (tp_ref (te_tp las)) H).
  destruct (dispatch_sound surf _ _ _ _ _ _ _ _ H Hp Hf W (bu_isect _ _ _ _ _ _ _ _ _ _ _ _ _ _ _ B))
    as (X & _ & S0 & _ & _ & On).
  assert (S0' : 0 <= s0) by (apply S0; reflexivity).
  destruct (move_ok (te_tp las) xx H) as (p' & fid' & M & Sp & _).
  rewrite (bu_move _ _ _ _ _ _ _ _ _ _ _ _ _ _ _ B) in M. injection M as -> ->.
  assert (A := bu_tp _ _ _ _ _ _ _ _ _ _ _ _ _ _ _ B). apply applyLoss_spec in A.
  destruct A as (A1 & A2 & A3). cbn [tp_par tp_ref tp_cov] in *.
  rewrite A3. cbn [tp_par tp_ref tp_cov].
  assert (Vs : forall i, i <> OMEGA -> v5set p' OMEGA (p' OMEGA / (1 - el_deltaE el / el_energy el)) i = p' i).
  { intros i Hi. unfold v5set. destruct (idx_eq_dec i OMEGA); [contradiction|auto]. }
  assert (Vo : v5set p' OMEGA (p' OMEGA / (1 - el_deltaE el / el_energy el)) OMEGA
     = om / (1 - el_deltaE el / el_energy el)).
  { unfold v5set. destruct (idx_eq_dec OMEGA OMEGA); [|contradiction].
    rewrite (ms_om _ _ _ _ Sp). auto. }
  assert (No : om / (1 - el_deltaE el / el_energy el) <> 0).
  { unfold Rdiv. apply Rmult_integral_contrapositive. split; auto. apply Rinv_neq_0_compat; auto. }
  rewrite Vo, !Vs by discriminate.
  assert (Sp' := Sp). rewrite X in Sp'.
  destruct (moved_on_track _ _ _ _ H Sp') as (D & (k & K) & Z).
  split; auto. split; auto. split; auto. split; auto. split; auto. split; auto.
  split; auto. split; auto. split; [apply (ms_tl _ _ _ _ Sp)|]. split; auto.
  split; [apply (ms_phi_range _ _ _ _ Sp)|]. split; auto. split; auto. split.
  { exists k. split.
    - rewrite (ms_z0 _ _ _ _ Sp), X, K. unfold hcurve. cbn [vz]. fold om. field. auto.
    - fold om in K. rewrite <- K. assert (F := ms_fid_range _ _ _ _ Sp). apply Rabs_le. lra. }
  split; [intros L; apply Z; auto|]. auto.
Qed.

(** ** invariant of histories with steps of less than half a turn *)
Definition here (e : telem) : vec3 := hcurve (tp_par (te_tp e)) (tp_ref (te_tp e)) 0.

Record placed (t : traj) : Prop := {
  pl_om : forall e, In e (tr_elems t) -> tp_par (te_tp e) OMEGA <> 0;
  pl_phi : forall e, In e (tr_elems t) -> Rabs (tp_par (te_tp e) PHI0) <= 2 * PI;
  pl_surf : forall e surf, In e (tr_elems t) -> te_surf e = Some surf ->
    tp_par (te_tp e) D0 = 0 /\ on_surface surf (tp_ref (te_tp e))
}.

Record consistent (t : traj) : Prop := {
  co_z0 : forall e surf, In e (tr_elems t) -> te_surf e = Some surf -> tp_par (te_tp e) Z0 = 0;
  co_tie : forall e e', In e (tr_elems t) -> In e' (tr_elems t) -> te_s e = te_s e' -> here e = here e'
}.

Lemma here_own e : tp_par (te_tp e) D0 = 0 -> tp_par (te_tp e) Z0 = 0 -> here e = tp_ref (te_tp e).
Proof.
  intros A B. unfold here, hcurve. rewrite A, B. destruct (tp_ref (te_tp e)) as [x y z]. cbn [vx vy vz].
  replace (tp_par (te_tp e) PHI0 - 0 * tp_par (te_tp e) OMEGA) with (tp_par (te_tp e) PHI0) by ring.
  f_equal; ring.
Qed.

Lemma push_placed E t new t' r (ok : surface -> bool -> Prop) :
  tp_par (tr_ref t) OMEGA <> 0 -> Rabs (tp_par (tr_ref t) PHI0) <= 2 * PI -> good t ->
  placed t -> pushElement t new = (t', r) -> (exists b, r = Ok b) \/ r = Throw ->
  (forall las e, new las = Ok (Some e) -> exists mass surf cb sc meas elUV s0 xx moved fid mom el,
     built E mass las surf cb sc meas elUV e s0 xx moved fid mom el /\ wf_surface surf /\ ok surf cb) ->
  placed t'
  /\ ((forall surf cb, ok surf cb -> forall s xx,
         intersectWithSurface surf (tp_par (from_state t)) (tp_ref (from_state t))
           (OVal 0 v3zero) 1 cb = Ok (true, OVal s xx) ->
         Rabs (tp_par (from_state t) OMEGA * s) < PI) -> consistent t -> consistent t').
Proof.
  intros H Hp G P A W N.
  destruct (push_spec _ _ _ _ A W) as [(_ & -> & _)|(t1 & e0 & l & En & El & C)]; auto.
  assert (P1 : placed t1 /\ (consistent t -> consistent t1)).
  { destruct (ensure_spec _ _ En) as [(_ & ->)|(_ & s & _ & ->)]; auto.
    split; [|intros _]; constructor; cbn [set_elems tr_elems].
    - intros e [<-|[]]; auto.
    - intros e [<-|[]]; auto.
    - intros e surf [<-|[]]; discriminate.
    - intros e surf [<-|[]]; discriminate.
    - intros e e' [<-|[]] [<-|[]] _; auto. }
  destruct P1 as [P1 Q1].
  destruct C as [(-> & -> & _)|[(-> & -> & _)|(e & -> & C & ->)]]; auto.
  destruct (N _ _ C) as (mass & surf & cb & sc & meas & elUV & s0 & xx & moved & fid & mom & el & B & Wf & Ok1).
  assert (Il : In (last l e0) (tr_elems t1)) by (rewrite El; apply last_in).
  destruct (built_facts _ _ _ _ _ _ _ _ _ _ _ _ _ _ _ B (pl_om _ P1 _ Il) (pl_phi _ P1 _ Il) Wf)
    as (S0 & X & On & _ & _ & _ & _ & F1 & _ & _ & F2 & F3 & _ & _ & F4 & F5 & _ & _ & _).
  assert (Es := bu_s _ _ _ _ _ _ _ _ _ _ _ _ _ _ _ B).
  assert (Pi := PI_pos).
  split.
  - constructor; cbn [set_elems tr_elems].
    + intros x. rewrite in_app_iff. intros [I|[<-|[]]]; [apply (pl_om _ P1); auto|auto].
    + intros x. rewrite in_app_iff. intros [I|[<-|[]]]; [apply (pl_phi _ P1); auto|apply Rabs_le; lra].
    + intros x sf. rewrite in_app_iff. intros [I|[<-|[]]]; [apply (pl_surf _ P1); auto|].
      rewrite (bu_surf _ _ _ _ _ _ _ _ _ _ _ _ _ _ _ B). intros Q; injection Q as <-.
      rewrite F5. auto.
  - intros Sh Ct. specialize (Q1 Ct).
    destruct (ensure_last _ _ En) as (e0' & l' & L1 & L2 & _). rewrite El in L1. injection L1 as <- <-.
    assert (Hs : Rabs (tp_par (te_tp (last l e0)) OMEGA * s0) < PI).
    { rewrite L2. apply (Sh surf cb Ok1 s0 xx). rewrite <- L2.
      apply (bu_isect _ _ _ _ _ _ _ _ _ _ _ _ _ _ _ B). }
    specialize (F4 Hs).
    assert (G1 := ensure_good _ _ G En).
    assert (Tie : forall x, In x (tr_elems t1) -> te_s x = te_s e -> here x = here e).
    { intros x Hx Ex. assert (O := g_ord _ G1). rewrite El in O.
      assert (L := ordered_last _ _ O x). rewrite <- El in L. specialize (L Hx).
      assert (s0 = 0) by lra. subst s0.
      rewrite (co_tie _ Q1 x (last l e0)) by (auto; lra).
      rewrite (here_own e) by auto. rewrite F5, X. reflexivity. }
    constructor; cbn [set_elems tr_elems].
    + intros x sf. rewrite in_app_iff. intros [I|[<-|[]]]; [apply (co_z0 _ Q1); auto|auto].
    + intros x y. rewrite !in_app_iff. intros [I|[<-|[]]] [J|[<-|[]]] Q; auto.
      * apply (co_tie _ Q1); auto.
      * symmetry. apply Tie; auto.
Qed.

Lemma same_here a b : same_but_jacobian a b -> here a = here b.
Proof. intros (_ & H & _). unfold here. rewrite H. auto. Qed.

Lemma prepare_placed E t t' : sorts te_s (en_sortE E) -> prepareForFitting E t = Ok t' ->
  placed t -> placed t' /\ (consistent t -> consistent t').
Proof.
  intros S A P. destruct (prepare_elems _ _ _ S A) as (l & Pm & O & F & _).
  assert (Bk : forall e', In e' (tr_elems t') -> exists e, In e (tr_elems t) /\ same_but_jacobian e e').
  { intros e' I. destruct (forall2_in_r _ _ _ _ F I) as (x & X1 & X2). exists x. split; auto.
    eapply Permutation_in; [apply Permutation_sym; eauto|auto]. }
  split; [|intros C]; constructor.
  - intros e' I. destruct (Bk e' I) as (e & J & Q). destruct Q as (_ & <- & _). apply (pl_om _ P); auto.
  - intros e' I. destruct (Bk e' I) as (e & J & Q). destruct Q as (_ & <- & _). apply (pl_phi _ P); auto.
  - intros e' surf I. destruct (Bk e' I) as (e & J & Q). destruct Q as (_ & <- & <- & _). apply (pl_surf _ P); auto.
  - intros e' surf I. destruct (Bk e' I) as (e & J & Q). destruct Q as (_ & <- & <- & _). apply (co_z0 _ C); auto.
  - intros e1 e2 I1 I2 Q. destruct (Bk e1 I1) as (x1 & J1 & Q1). destruct (Bk e2 I2) as (x2 & J2 & Q2).
    rewrite <- (same_here _ _ Q1), <- (same_here _ _ Q2). apply (co_tie _ C); auto.
    destruct Q1 as (-> & _). destruct Q2 as (-> & _). auto.
Qed.

Lemma step_placed E t c t' : sorts te_s (en_sortE E) ->
  tp_par (tr_ref t) OMEGA <> 0 -> Rabs (tp_par (tr_ref t) PHI0) <= 2 * PI -> good t ->
  surfaces_ok t c -> step E t c t' -> placed t ->
  placed t' /\ (within_half_turn t c -> consistent t -> consistent t').
Proof.
  intros Se H Hp G Sk St P.
  destruct St as [position precision surf id sc t' r A W|surf t' r A W|t' A|l t' A|m].
  - destruct (push_placed E t _ t' r (fun sf cb => sf = surf /\ cb = false) H Hp G P A W) as [Q1 Q2].
    + intros las e N.
      destruct (newMeasurement_spec _ _ _ _ _ _ _ _ _ N) as (s0 & xx & moved & fid & mom & el & B & _).
      do 12 eexists. split; [exact B|]. auto.
    + split; auto. intros Hw. apply Q2. intros sf cb [-> ->]. exact Hw.
  - destruct (push_placed E t _ t' r (fun sf cb => sf = surf /\ cb = true) H Hp G P A W) as [Q1 Q2].
    + intros las e N.
      destruct (newScatterer_spec _ _ _ _ _ N) as (s0 & xx & moved & fid & mom & el & B & _).
      do 12 eexists. split; [exact B|]. auto.
    + split; auto. intros Hw. apply Q2. intros sf cb [-> ->]. exact Hw.
  - destruct (prepare_placed _ _ _ Se A P) as [Q1 Q2]. auto.
  - unfold getIntersectionsWithSurfaces in A. cbv zeta in A. dres A. injection A as <-.
    destruct P as [P1 P2 P3]. split; [constructor; auto|]. intros _ [C1 C2]. constructor; auto.
  - destruct P as [P1 P2 P3]. split; [constructor; auto|]. intros _ [C1 C2]. constructor; auto.
Qed.

Lemma history_placed E (ok : traj -> call -> Prop) ref prop cs t : sorts te_s (en_sortE E) ->
  tp_par ref OMEGA <> 0 -> Rabs (tp_par ref PHI0) <= 2 * PI ->
  (forall t c, ok t c -> surfaces_ok t c) ->
  history E ok (mkTraj ref prop) cs t ->
  placed t /\ ((forall t c, ok t c -> within_half_turn t c) -> consistent t).
Proof.
  intros S H Hp Hok Hi. induction Hi as [|cs t c t' Hi IH O St].
  - split; [|intros _]; constructor; cbn; intros; contradiction.
  - destruct IH as [P C]. destruct (history_good _ _ _ _ _ _ S Hi) as (G & R & _).
    rewrite <- R in H, Hp.
    destruct (step_placed _ _ _ _ S H Hp G (Hok _ _ O) St P) as [Q1 Q2]. split; auto.
Qed.

Lemma point_at_element t e : ordered (tr_elems t) -> placed t -> consistent t ->
  In e (tr_elems t) -> bigNegative <= te_s e -> tr_pointAt t (te_s e) = Ok (here e).
Proof.
  intros O P C I N. destruct (elementAt_own t e O I N) as (e1 & A & B & D).
  unfold tr_pointAt. rewrite A. cbn [bind]. rewrite D.
  replace (te_s e - te_s e) with 0 by ring.
  rewrite pointAt_hcurve by (apply (pl_om _ P); auto).
  rewrite <- (co_tie _ C e1 e) by auto. reflexivity.
Qed.

(** barrel surfaces are always reached within half a turn *)
Definition barrel (surf : surface) : Prop :=
  isZCylinder (sf_type surf) = true \/ isZPlane (sf_type surf) = true.

Lemma barrel_half_turn surf hp rp o mode cb s xx :
  hp OMEGA <> 0 -> Rabs (hp PHI0) <= 2 * PI -> wf_surface surf -> barrel surf ->
  intersectWithSurface surf hp rp o mode cb = Ok (true, OVal s xx) ->
  Rabs (hp OMEGA * s) < PI.
Proof.
  intros H Hp [W1 W2] Bt E.
  assert (Hf := hcurve_helix hp rp H).
  unfold intersectWithSurface in E. cbv zeta in E.
  destruct (isZCylinder (sf_type surf)) eqn:T1.
  - destruct (sf_cyl surf) as [[rho c]|] eqn:Cy.
    + destruct (zcyl_sound surf hp rp rho c o mode cb _ s xx H Hp Hf (W1 _ _ eq_refl) Cy E)
        as (_ & _ & _ & A & _). auto.
    + assert (T : intersectWithZCylinder surf hp rp o mode cb = Throw) by (apply zcyl_throw; auto).
      rewrite T in E. discriminate.
  - destruct Bt as [Bt|Bt]; [congruence|]. rewrite Bt in E.
    unfold isZPlane in Bt. apply andb_prop in Bt. destruct Bt as [B1 B2].
    destruct (zplane_sound surf hp rp o mode cb _ s xx H Hp Hf (W2 B1 B2) E) as (_ & _ & A & _). auto.
Qed.
