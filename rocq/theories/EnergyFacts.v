(** Proofs about momentum and energy along a trajectory. *)
From Coq Require Import Reals List Bool ZArith Lra Lia Permutation Sorted.
From Verif Require Import SpecConst Num Vec Helix Isect Trans Material Traj.
From Verif Require Import NumFacts SpecHelix HelixFacts MoveFacts MaterialFacts SpecTraj TrajFacts TrajFacts2 TrajFacts3 TrajFacts4 TrajFacts5.
From Verif Require Import SpecElem ElemFacts SpecEnergy.
Import ListNotations.
Open Scope R_scope.

Lemma pca_size bf hp rp mom : momentumAtPCA bf hp rp = Ok mom ->
  hp OMEGA <> 0 /\ vr mom = momentum_size (vz (bf rp)) hp.
Proof.
  unfold momentumAtPCA, calculateOmega, calculatePhi0, calculateTanLambda. cbv zeta. intros H.
  assert (N : hp OMEGA <> 0).
  { intros Z. rewrite Z in H. rewrite rdiv_zero in H. discriminate. }
  split; auto. rewrite rdiv_ok in H by auto. cbn [bind] in H. injection H as <-.
  assert (0 < Rabs (hp OMEGA)) by (apply Rabs_pos_lt; auto).
  set (bz := vz (bf rp)). unfold momentum_size, vr. cbn [vx vy vz].
  set (pt := Rabs (1 / hp OMEGA) * bz * convertBr2P_cm).
  assert (Pt : field_unit * Rabs bz / Rabs (hp OMEGA) = Rabs pt).
  { unfold pt. change convertBr2P_cm with field_unit. rewrite !Rabs_mult, (Rabs_pos_eq field_unit) by (unfold field_unit; lra).
    unfold Rdiv. rewrite Rabs_Rabsolu, Rabs_mult, Rabs_R1, Rabs_inv. ring. }
  rewrite Pt.
  match goal with |- sqrt ?x = _ => replace x with (Rsqr pt * (1 + hp TANL * hp TANL)) end.
  - rewrite sqrt_mult_alt by apply Rle_0_sqr. rewrite sqrt_Rsqr_abs. reflexivity.
  - unfold Rsqr. assert (C := sin2_cos2 (hp PHI0)). unfold Rsqr in C.
    replace (pt * cos (hp PHI0) * (pt * cos (hp PHI0)) + pt * sin (hp PHI0) * (pt * sin (hp PHI0)))
      with (pt * pt * (sin (hp PHI0) * sin (hp PHI0) + cos (hp PHI0) * cos (hp PHI0))) by ring.
    rewrite C. ring.
Qed.

Lemma eloss_energy surf uv mom m el : computeEnergyLoss_uv surf uv mom m = Ok el ->
  el_energy el = energy_of (vr mom) m /\ mom <> v3zero.
Proof.
  unfold computeEnergyLoss_uv. cbv zeta. intros H.
  assert (N : mom <> v3zero).
  { intros ->. unfold vunit in H. replace (vr v3zero) with 0 in H; [rewrite rdiv_zero in H; discriminate|].
    unfold vr, v3zero. cbn [vx vy vz]. replace (0 * 0 + 0 * 0 + 0 * 0) with 0 by ring. rewrite sqrt_0. auto. }
  dres H. dres H. dres H. dres H. dres H. dres H. injection H as <-. split; auto.
Qed.

Lemma made_loss E t c e : made_by E t c e -> exists dE En,
  loss_of E t c dE En /\ En <> 0 /\ dE <> En
  /\ tp_par (from_state t) OMEGA <> 0
  /\ En = energy_of (momentum_size (vz (en_gfield E (tp_ref (te_tp e)))) (tp_par (from_state t))) (tr_mass t)
  /\ 0 < momentum_size (vz (en_gfield E (tp_ref (te_tp e)))) (tp_par (from_state t))
  /\ tp_par (te_tp e) TANL = tp_par (from_state t) TANL
  /\ tp_par (te_tp e) OMEGA = tp_par (from_state t) OMEGA * En / (En - dE).
Proof.
  intros (s0 & s & xx & mom & m & n & p & _ & _ & _ & _ & _ & _ & _ & C).
  assert (A : exists surf cb lossAt, arrival E t surf cb lossAt s xx mom (te_tp e)
     /\ (forall mv fid dE En beta,
           intersectWithSurface surf (tp_par (from_state t)) (tp_ref (from_state t)) (OVal 0 v3zero) 1 cb = Ok (true, OVal s xx) ->
           moveHelixTo (from_state t) xx false = Ok (mv, fid) ->
           momentumAtPCA (en_gfield E) (tp_par mv) (tp_ref mv) = Ok mom ->
           computeEnergyLoss_uv surf (lossAt xx) mom (tr_mass t) = Ok (EL dE En beta) -> loss_of E t c dE En)).
  { destruct c as [position precision surf id sc|surf| | |]; try contradiction; destruct C as (A & _);
      do 3 eexists; (split; [exact A|]); intros; cbn [loss_of]; do 6 eexists; eauto. }
  destruct A as (surf & cb & lossAt & (mv & fid & dE & En & be & A1 & A2 & A3 & A4 & A5 & A6 & A7 & _ & A9 & A10) & L).
  destruct (move_values _ _ _ _ A2) as (V1 & _ & V3).
  destruct (pca_size _ _ _ _ A3) as (Om & Sz). destruct (eloss_energy _ _ _ _ _ A4) as (En' & Nm).
  cbn [el_energy] in En'. rewrite V3 in Om.
  assert (Tl : tp_par mv TANL = tp_par (from_state t) TANL).
  { destruct (move_ok (from_state t) xx Om) as (p' & fid' & M & Sp & _). rewrite A2 in M. injection M as -> ->.
    apply (ms_tl _ _ _ _ Sp). }
  assert (Sz' : vr mom = momentum_size (vz (en_gfield E (tp_ref (te_tp e)))) (tp_par (from_state t))).
  { rewrite Sz, V1, A7. unfold momentum_size. rewrite V3, Tl. auto. }
  exists dE, En. split; [eapply L; eauto|]. split; auto. split; auto. split; auto.
  split; [rewrite <- Sz'; auto|]. split; [rewrite <- Sz'; apply vr_pos; auto|].
  split; [rewrite A9 by discriminate; auto|auto].
Qed.

Lemma loss_unique E t c dE En dE' En' : loss_of E t c dE En -> loss_of E t c dE' En' -> dE' = dE /\ En' = En.
Proof.
  destruct c as [position precision surf id sc|surf| | |]; cbn [loss_of]; try contradiction;
  intros (s & xx & mv & fid & mom & be & A1 & A2 & A3 & A4) (s' & xx' & mv' & fid' & mom' & be' & B1 & B2 & B3 & B4);
  rewrite A1 in B1; injection B1 as <- <-; rewrite A2 in B2; injection B2 as <- <-; rewrite A3 in B3; injection B3 as <-;
  rewrite A4 in B4; injection B4 as <- <- _; auto.
Qed.

Lemma fraction_app a b : fraction (a ++ b) = fraction a * fraction b.
Proof. induction a as [|[x y] a IH]; cbn [fraction app]; [ring|rewrite IH; ring]. Qed.

(** one addition *)
Lemma made_slower E t c e : braking E t c -> made_by E t c e ->
  let a := tp_par (from_state t) in
  0 < a OMEGA * tp_par (te_tp e) OMEGA /\ Rabs (a OMEGA) <= Rabs (tp_par (te_tp e) OMEGA) /\ tp_par (te_tp e) TANL = a TANL.
Proof.
  intros B M a. destruct (made_loss _ _ _ _ M) as (dE & En & L & N1 & N2 & Om & _ & _ & Tl & Oe). fold a in Om, Oe, Tl.
  destruct (B _ _ L) as [B1 B2]. assert (K : 1 <= En / (En - dE)).
  { apply Rmult_le_reg_r with (En - dE); [lra|]. unfold Rdiv. rewrite Rmult_assoc, Rinv_l by lra. lra. }
  replace (a OMEGA * En / (En - dE)) with (a OMEGA * (En / (En - dE))) in Oe by (field; lra).
  set (k := En / (En - dE)) in *. rewrite Oe. split; [|split; auto].
  - assert (0 < a OMEGA * a OMEGA) by (apply Rsqr_pos_lt; auto). nra.
  - rewrite Rabs_mult, (Rabs_pos_eq k) by lra. assert (0 <= Rabs (a OMEGA)) by apply Rabs_pos. nra.
Qed.

Definition mono (l : list telem) : Prop := StronglySorted slower l.

Lemma slower_trans a b c : slower a b -> slower b c -> slower a c.
Proof.
  intros (A1 & A2 & A3) (B1 & B2 & B3). split; [|split; [lra|congruence]].
  destruct (Rlt_dec 0 (tp_par (te_tp b) OMEGA)) as [P|P].
  - assert (0 < tp_par (te_tp a) OMEGA) by nra. assert (0 < tp_par (te_tp c) OMEGA) by nra. nra.
  - assert (tp_par (te_tp b) OMEGA <> 0) by nra. assert (tp_par (te_tp a) OMEGA < 0) by nra. assert (tp_par (te_tp c) OMEGA < 0) by nra. nra.
Qed.
Lemma mono_app l e : mono l -> (forall a l1, rev l = a :: l1 -> slower a e) -> mono (l ++ [e]).
Proof.
  unfold mono. induction l as [|x l IH]; intros M L; cbn [app]; [repeat constructor|].
  inversion M as [|? ? M1 M2]; subst.
  destruct (rev l) as [|z l1] eqn:Z.
  - assert (l = []) as -> by (rewrite <- (rev_involutive l), Z; auto). cbn [app].
    constructor; [repeat constructor|]. constructor; [|constructor]. apply (L x []). auto.
  - assert (Sz : slower z e) by (apply (L z (l1 ++ [x])); cbn [rev]; rewrite Z; auto).
    constructor.
    + apply IH; auto. intros a l2 Q. injection Q as -> _. auto.
    + apply Forall_app. split; auto. constructor; [|constructor]. apply slower_trans with z; auto.
      rewrite Forall_forall in M2. apply M2. apply in_rev. rewrite Z. left. auto.
Qed.
Lemma mono_same l l' : Forall2 same_but_jacobian l l' -> mono l -> mono l'.
Proof.
  unfold mono. induction 1 as [|a b l l' (_ & T & _) F IH]; intros M; [constructor|].
  inversion M as [|? ? M1 M2]; subst. constructor; auto.
  rewrite Forall_forall in *. intros y Hy. destruct (forall2_in_r _ _ _ _ F Hy) as (x & Hx & (_ & Tx & _)).
  specialize (M2 x Hx). unfold slower in *. rewrite <- T, <- Tx. auto.
Qed.

Lemma nodup_eq (l : list telem) : NoDup (map te_s l) -> forall a b, In a l -> In b l -> te_s a = te_s b -> a = b.
Proof.
  induction l as [|x l IH]; intros N a b Ha Hb Q; [destruct Ha|]. cbn [map] in N. inversion N as [|? ? N1 N2]; subst.
  destruct Ha as [<-|Ha], Hb as [<-|Hb]; auto.
  - exfalso. apply N1. rewrite Q. apply in_map. auto.
  - exfalso. apply N1. rewrite <- Q. apply in_map. auto.
Qed.
Lemma same_keys l l' : Forall2 same_but_jacobian l l' -> map te_s l' = map te_s l.
Proof. induction 1 as [|a b l l' (K & _) F IH]; cbn; [auto|congruence]. Qed.

Lemma history_mono E ref prop cs t : env_ok E -> history E (braking E) (mkTraj ref prop) cs t ->
  ~ In CPrep cs \/ NoDup (map te_s (tr_elems t)) -> mono (tr_elems t).
Proof.
  intros [So _] H. induction H as [|cs t c t' H IH O St]; intros D; [constructor|].
  assert (D1 : ~ In CPrep cs \/ NoDup (map te_s (tr_elems t'))).
  { destruct D as [D|D]; [left; intros I; apply D; apply in_or_app; auto|auto]. }
  assert (G := proj1 (history_good _ _ _ _ _ _ So H)).
  destruct (step_elems _ _ _ _ So St) as [(t1 & e & M & W & X)|(N & K)].
  - assert (El : exists l0, tr_elems t1 = l0 /\ tr_elems t' = l0 ++ [e]) by (rewrite X; eauto).
    destruct El as (l0 & El & El'). 
    assert (M1 : mono (tr_elems t1)).
    { destruct W as [[_ ->]|(Z & i & -> & _)]; [|cbn; repeat constructor].
      apply IH. destruct D1 as [D1|D1]; auto. right. rewrite El' in D1. rewrite <- El in D1. rewrite map_app in D1. cbn [map] in D1.
      apply NoDup_remove_1 in D1. rewrite app_nil_r in D1. auto. }
    rewrite El', <- El. apply mono_app; auto. intros a l1 R.
    assert (Ta : te_tp a = from_state t).
    { destruct (with_last _ _ W) as (e0 & l & Q & T & _). rewrite Q in R. destruct (rev_last l e0) as (l' & Rl). rewrite Rl in R.
      injection R as <- _. auto. }
    destruct (made_slower _ _ _ _ O M) as (A1 & A2 & A3). cbv zeta in *. unfold slower. rewrite Ta. auto.
  - destruct K as [->|[W|[(l & Pm & F & Rf & Ne & Ec)|(El & Rf)]]].
    + apply IH. destruct D1; auto.
    + destruct W as [[_ ->]|(Z & i & -> & _)]; [|cbn; repeat constructor]. apply IH. destruct D1; auto.
    + subst c. destruct D as [D|D]; [exfalso; apply D; apply in_or_app; right; left; auto|].
      assert (Pr : prepareForFitting E t = Ok t') by (inversion St; auto).
      destruct (prepare_elems _ _ _ So Pr) as (l' & Pm' & Od & F' & _).
      assert (Nl : NoDup (map te_s (tr_elems t))).
      { rewrite (same_keys _ _ F') in D. eapply Permutation_NoDup; [|exact D]. apply Permutation_map, Permutation_sym. auto. }
      assert (Eq : tr_elems t = l').
      { apply (sorted_unique te_s); auto; [apply (g_ord _ G)|]. apply nodup_eq; auto. }
      subst l'. apply (mono_same _ _ F'). apply IH; auto.
    + rewrite El. apply IH. rewrite <- El. destruct D1; auto.
Qed.
