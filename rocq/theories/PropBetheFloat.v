(** C96: the energy loss in double precision. *)
From Coq Require Import Reals ZArith Lra Lia Psatz.
From Flocq Require Import Core.
From Verif Require Import Num Vec Isect Material FloatWrap PointFloat SpecRound RoundFacts PointFloatFacts NearFacts StartFloat StartFloatFacts
  SpecMaterial MaterialFacts TrajEx QmsFloat SpecQmsFloat RelFacts QmsFloatFacts PropQmsFloat BetheFloat SpecBetheFloat BetheFloatFacts ElossFloatFacts.
Open Scope R_scope.

(** The loss per mass thickness is finite and close to the formula of Bethe and Bloch with
    Sternheimer's density effect, also where rounding makes the code choose another case of
    the density effect. *)
Theorem C96_stopping : forall mlog m10 mpow mat p m, log_accurate mlog -> log10_accurate m10 -> pow_accurate mpow ->
  ordinary_material mat -> moderate p -> moderate m ->
  exists d, computeBetheBloch_d mlog m10 mpow mat p m = Ok d
  /\ Rabs (d - stopping_power mat p m) <= 210 * uround * stopping_scale mat p m.
Proof.
  intros mlog m10 mpow mat p m HL H10 HW HM HP Hm. assert (P0 : 0 <= p) by (left; apply (btw_pos (-30) 30); exact HP).
  destruct (bethe_ok mlog m10 mpow mat p p m HL H10 HW HM HP (r_weak 0 4 _ _ (r_same _ P0) ltac:(lra)) Hm) as (d & E & D & _). exists d. split; [exact E|]. lra.
Qed.
Print Assumptions C96_stopping.

(** The energy loss of a track in a surface, the energy and the velocity. *)
Theorem C96_loss : forall mlog m10 mpow surf uv p m, log_accurate mlog -> log10_accurate m10 -> pow_accurate mpow ->
  ordinary_crossing surf uv p m ->
  exists e, computeEnergyLoss_d mlog m10 mpow surf uv p m = Ok e
  /\ Rabs (el_deltaE e - energy_loss surf uv p m) <= uround * (235 + 122 / Rabs (cos_angle p (normal_there surf uv))) * loss_scale surf uv p m
  /\ Rabs (el_energy e - sqrt (vr p * vr p + m * m)) <= 6 * uround * sqrt (vr p * vr p + m * m)
  /\ Rabs (el_beta e - velocity (vr p) m) <= 11 * uround * velocity (vr p) m.
Proof.
  intros mlog m10 mpow surf uv p m HL H10 HW HO. destruct (loss_ok mlog m10 mpow surf uv p m HL H10 HW HO) as (e & E & D & [_ D2] & [_ D3]). exists e. split; [exact E|]. split; [exact D|].
  split; [eapply Rle_trans; [exact D2|]; lra|]. unfold velocity. eapply Rle_trans; [exact D3|]. lra.
Qed.
Print Assumptions C96_loss.

(** A surface without matter takes no energy: not even a rounding error is left. *)
Theorem C96_nothing : forall mlog m10 mpow surf uv p m, log_accurate mlog -> log10_accurate m10 -> pow_accurate mpow ->
  ordinary_crossing surf uv p m -> sf_innerThickness surf = 0 -> sf_outerThickness surf = 0 ->
  exists e, computeEnergyLoss_d mlog m10 mpow surf uv p m = Ok e /\ el_deltaE e = 0.
Proof.
  intros mlog m10 mpow surf uv p m HL H10 HW HO Z1 Z2. destruct (C96_loss mlog m10 mpow surf uv p m HL H10 HW HO) as (e & E & D & _). exists e. split; [exact E|].
  unfold energy_loss, loss_scale, both_layers in D. rewrite Z1, Z2, !Rmult_0_r, !Rplus_0_r in D. unfold Rdiv in D. rewrite !Rmult_0_l, Rmult_0_r, Rminus_0_r in D. apply Rabs_le_inv in D. lra.
Qed.
Print Assumptions C96_nothing.

(** ** where it is not finite *)
Lemma t_ok {T} (a : T) : tame (Ok a).
Proof. right. eauto. Qed.
Lemma t_bind {T S} (r : res T) (k : T -> res S) : tame r -> (forall a, tame (k a)) -> tame (bind r k).
Proof. intros [->|(a & ->)] H; [left; reflexivity|apply H]. Qed.
Lemma t_sqrt x : tame (sqrt_d x).
Proof. unfold sqrt_d. destruct Rlt_dec; [left; reflexivity|apply t_ok]. Qed.
Lemma t_pow f x y : tame (pow_d f x y).
Proof. unfold pow_d. destruct Rlt_dec; [apply tame_rd|left; reflexivity]. Qed.
Ltac tt := repeat (apply t_bind; [first [apply tame_rd|apply tame_div|apply t_sqrt|apply t_pow]|intros ?]); try first [apply tame_rd|apply t_ok].
Lemma t_vr v : tame (vr_d v).
Proof. unfold vr_d. tt. Qed.
Lemma t_vunit v : tame (vunit_d v).
Proof. unfold vunit_d. apply t_bind; [apply t_vr|intros ?]. tt. Qed.
Lemma t_vdot a b : tame (vdot_d a b).
Proof. unfold vdot_d. tt. Qed.
Lemma rd_zero : rd 0 = Ok 0.
Proof. unfold rd. rewrite rnd_0, Rabs_R0. destruct Rlt_dec as [|N]; [reflexivity|]. exfalso. apply N, bpow_gt_0. Qed.

Lemma massless_power mlog m10 mpow mat p : computeBetheBloch_d mlog m10 mpow mat p 0 = NonFin.
Proof.
  unfold computeBetheBloch_d. cbv zeta. do 11 (apply tame_bind; [first [apply tame_rd|apply tame_div|apply t_sqrt|apply t_pow]|intros ?]).
  rewrite Rmult_0_l, rd_zero. cbn [bind]. unfold rd_div at 1. destruct Req_EM_T; [reflexivity|lra].
Qed.
(** A particle without mass has no finite energy loss, whatever the surface is made of. *)
Theorem C96_massless : forall mlog m10 mpow surf uv p, computeEnergyLoss_d mlog m10 mpow surf uv p 0 = NonFin.
Proof.
  intros mlog m10 mpow surf uv p. unfold computeEnergyLoss_d. cbv zeta. apply tame_bind; [apply t_vunit|intros ?]. apply tame_bind; [apply t_vdot|intros ?].
  do 2 (apply tame_bind; [apply tame_div|intros ?]). apply tame_bind; [apply t_vr|intros ?]. do 3 (apply tame_bind; [apply tame_rd|intros ?]). apply tame_bind; [apply t_sqrt|intros ?]. apply tame_bind; [apply tame_div|intros ?].
  rewrite massless_power. reflexivity.
Qed.
Print Assumptions C96_massless.

(** ** a concrete case: a pion of 5 GeV through 0.3 mm of silicon at an angle *)
Definition best_log10 (x : R) : R := rnd (ln x / ln 10).
Lemma best_log10_accurate : log10_accurate best_log10.
Proof.
  intros x _ _. split; [apply rnd_double|]. eapply Rle_trans; [apply rnd_err|]. assert (U := u_small).
  assert (0 <= uround * Rabs (ln x / ln 10)) by (apply Rmult_le_pos; [lra|apply Rabs_pos]). unfold best_log10. lra.
Qed.
Definition best_pow (x y : R) : R := rnd (Rpower x y).
Lemma best_pow_accurate : pow_accurate best_pow.
Proof.
  intros x y _ _ _ _. split; [apply rnd_double|]. assert (P : 0 < Rpower x y) by apply exp_pos. eapply Rle_trans; [apply rnd_err|]. assert (U := u_small). rewrite Rabs_pos_eq by lra.
  assert (0 <= uround * Rpower x y) by (apply Rmult_le_pos; lra). lra.
Qed.
Lemma moderate_mid x : / 1024 <= x <= 1024 -> moderate x.
Proof.
  intros H. split; [apply Rle_trans with (bpow radix2 (-10)); [apply bpow_le; lia|change (bpow radix2 (-10)) with (/ 1024); lra]|apply Rle_trans with (bpow radix2 10); [change (bpow radix2 10) with 1024; lra|apply bpow_le; lia]].
Qed.
Lemma silicon_ordinary : ordinary_material ex_silicon.
Proof.
  constructor; cbn.
  - change (/ 1024 <= 14 <= 1024). lra.
  - apply (d_small 14). reflexivity.
  - apply moderate_mid. lra.
  - apply moderate_mid. lra.
Qed.
Example C96_ex : let surf := ex_station 1 (3 / 100) (fun _ => true) in let p := V3 0 3 4 in
  ordinary_crossing surf (0, 0) p pionMass
  /\ exists e, computeEnergyLoss_d best_log best_log10 best_pow surf (0, 0) p pionMass = Ok e
     /\ Rabs (el_deltaE e - energy_loss surf (0, 0) p pionMass) <= / 20000000000000 * loss_scale surf (0, 0) p pionMass
     /\ 0 < loss_scale surf (0, 0) p pionMass.
Proof.
  intros surf p. assert (V : vr p = 5) by (unfold vr, p; cbn [vx vy vz]; replace (0 * 0 + 3 * 3 + 4 * 4) with (5 * 5) by ring; apply sqrt_square; lra).
  assert (C : cos_angle p (normal_there surf (0, 0)) = 4 / 5) by (unfold cos_angle; rewrite V; unfold vdot; cbn; field).
  assert (O : ordinary_crossing surf (0, 0) p pionMass).
  { constructor; cbn.
    - right. apply moderate_mid. lra.
    - left. reflexivity.
    - apply silicon_ordinary.
    - apply silicon_ordinary.
    - fold p. rewrite V. apply moderate_mid. lra.
    - apply moderate_mid. unfold pionMass. lra.
    - rewrite Rabs_R0. lra.
    - rewrite Rabs_R0. lra.
    - rewrite Rabs_R1. lra.
    - change (bpow radix2 (-20) <= Rabs (cos_angle p (normal_there surf (0, 0)))). rewrite C, Rabs_pos_eq by lra. change (bpow radix2 (-20)) with (/ 1048576). lra. }
  split; [exact O|]. destruct (C96_loss best_log best_log10 best_pow surf (0, 0) p pionMass best_log_accurate best_log10_accurate best_pow_accurate O) as (e & E & D & _). exists e. split; [exact E|].
  assert (LP : 0 < loss_scale surf (0, 0) p pionMass).
  { unfold loss_scale, both_layers. rewrite C, V, (Rabs_pos_eq (4 / 5)) by lra.
    change (0 < (stopping_scale ex_silicon 5 pionMass * (233 / 100) * (3 / 100) + stopping_scale ex_silicon 5 pionMass * (233 / 100) * 0) / (4 / 5)).
    assert (S : 0 < stopping_scale ex_silicon 5 pionMass).
    { destruct (bethe_ok best_log best_log10 best_pow ex_silicon 5 5 pionMass best_log_accurate best_log10_accurate best_pow_accurate silicon_ordinary ltac:(apply moderate_mid; lra)
        (r_weak 0 4 _ _ (r_same 5 ltac:(lra)) ltac:(lra)) ltac:(apply moderate_mid; unfold pionMass; lra)) as (_ & _ & _ & _ & B). apply (btw_pos _ _ _ B). }
    lra. }
  split; [|exact LP]. rewrite C, (Rabs_pos_eq (4 / 5)) in D by lra. eapply Rle_trans; [exact D|]. apply Rmult_le_compat_r; [lra|]. unfold uround. lra.
Qed.
Print Assumptions C96_ex.
