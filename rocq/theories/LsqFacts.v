(** The minimum of the least-squares problem when a displaced track explains all
    residuals (C66). *)
From Coq Require Import Reals List ZArith Lra Psatz.
From Verif Require Import Num Vec Helix Trans SpecMat SpecTrans Fit SpecLsq.
Import ListNotations.
Open Scope R_scope.

Lemma forall2_length {A B : Type} (P : A -> B -> Prop) l1 l2 : Forall2 P l1 l2 -> length l1 = length l2.
Proof. intros F. induction F; cbn; congruence. Qed.

Lemma sq_nonneg x : 0 <= x * x. Proof. nra. Qed.

Lemma meas_cost_nonneg p x : regular p -> 0 <= meas_cost p x.
Proof.
  intros [R _]. unfold meas_cost. destruct (gp_meas p) as [[[P [r0 r1]] [w0 w1]]|]; [|lra].
  destruct (R _ _ _ _ eq_refl) as (a & b & -> & -> & A & B). cbn [weight].
  apply Rplus_le_le_0_compat; apply Rmult_le_pos; auto using sq_nonneg.
Qed.

Lemma scat_cost_nonneg p k : regular p -> 0 <= scat_cost p k.
Proof.
  intros [_ R]. unfold scat_cost. destruct (gp_scat p) as [[[r0 r1] M]|]; [|lra].
  destruct (R _ _ eq_refl) as (_ & a & b & c & d & -> & D). cbv zeta.
  destruct (Req_dec (r0 - fst k) 0) as [Z|Z]; [destruct (Req_dec (r1 - snd k) 0) as [Z'|Z']|].
  - rewrite Z, Z'. lra.
  - left. apply D. congruence.
  - left. apply D. congruence.
Qed.

Lemma scat_cost_zero p k : regular p -> scat_cost p k = 0 -> gp_scat p <> None -> k = (0, 0).
Proof.
  intros [_ R]. unfold scat_cost. destruct (gp_scat p) as [[[r0 r1] M]|]; [|congruence].
  destruct (R _ _ eq_refl) as (Q & a & b & c & d & -> & D). injection Q as -> ->. cbv zeta.
  destruct k as [k0 k1]. cbn [fst snd]. intros Z _.
  destruct (Req_dec k0 0) as [A|A]; [destruct (Req_dec k1 0) as [B|B]|].
  - congruence.
  - exfalso. assert (C := D (0 - k0) (0 - k1)). assert ((0 - k0, 0 - k1) <> (0, 0)) by (intros X; injection X; lra).
    specialize (C H). lra.
  - exfalso. assert (C := D (0 - k0) (0 - k1)). assert ((0 - k0, 0 - k1) <> (0, 0)) by (intros X; injection X; lra).
    specialize (C H). lra.
Qed.

Lemma cost_nonneg ps : List.Forall regular ps -> forall xs ks, 0 <= cost ps xs ks.
Proof.
  intros F. induction F as [|p ps R F IH]; intros [|x xs] [|k ks]; cbn; try lra.
  assert (A := meas_cost_nonneg p x R). assert (B := scat_cost_nonneg p k R). specialize (IH xs ks). lra.
Qed.

(** the residual of every weighted measurement is the prediction *)
Definition fits (p : gpoint) (x : vec5) : Prop := forall P r w0 w1,
  gp_meas p = Some (P, r, (Some w0, Some w1)) ->
  (0 < w0 -> fst r = fst (predicted P x)) /\ (0 < w1 -> snd r = snd (predicted P x)).

Lemma meas_cost_zero p x : regular p -> meas_cost p x = 0 -> fits p x.
Proof.
  intros [R _] Z P [r0 r1] w0 w1 Q. unfold meas_cost in Z. rewrite Q in Z. cbn [weight] in Z.
  destruct (R _ _ _ _ Q) as (a & b & A1 & B1 & A & B). injection A1 as <-. injection B1 as <-. cbn [fst snd].
  set (d0 := r0 - fst (predicted P x)) in *. set (d1 := r1 - snd (predicted P x)) in *.
  assert (N0 := Rmult_le_pos _ _ A (sq_nonneg d0)). assert (N1 := Rmult_le_pos _ _ B (sq_nonneg d1)).
  split; intros W.
  - assert (E : w0 * (d0 * d0) = 0) by lra. apply Rmult_integral in E. destruct E as [E|E]; [lra|].
    apply Rmult_integral in E. assert (d0 = 0) by tauto. unfold d0 in *. lra.
  - assert (E : w1 * (d1 * d1) = 0) by lra. apply Rmult_integral in E. destruct E as [E|E]; [lra|].
    apply Rmult_integral in E. assert (d1 = 0) by tauto. unfold d1 in *. lra.
Qed.

Lemma cost_zero ps : List.Forall regular ps -> forall xs ks, chain ps xs ks -> cost ps xs ks = 0 ->
  Forall2 fits ps xs /\ ks = no_kinks ps.
Proof.
  intros F. induction F as [|p ps R F IH]; intros [|x xs] [|k ks] C Z; try contradiction; [split; constructor|].
  cbn [chain] in C. destruct C as (C1 & _ & C3). cbn [cost] in Z.
  assert (A := meas_cost_nonneg p x R). assert (B := scat_cost_nonneg p k R). assert (D := cost_nonneg ps F xs ks).
  destruct (IH xs ks C3 ltac:(lra)) as [F2 ->]. split.
  - constructor; auto. apply meas_cost_zero; auto. lra.
  - cbn. f_equal. destruct (gp_scat p) eqn:S; [|auto]. apply (scat_cost_zero p); auto; [lra|congruence].
Qed.

Lemma explained_cost ps : List.Forall regular ps -> forall xs, Forall2 explains ps xs -> cost ps xs (no_kinks ps) = 0.
Proof.
  intros F. induction F as [|p ps R F IH]; intros xs E; inversion E as [|? x ? xs' E1 E2]; subst; auto.
  cbn [cost no_kinks map]. fold (no_kinks ps). rewrite (IH _ E2).
  assert (M : meas_cost p x = 0).
  { unfold meas_cost. destruct (gp_meas p) as [[[P [r0 r1]] [w0 w1]]|] eqn:Q; auto.
    assert (X := E1 _ _ _ Q). rewrite <- X. cbn [fst snd]. unfold weight. destruct w0, w1; ring. }
  assert (S : scat_cost p (0, 0) = 0).
  { unfold scat_cost. destruct R as [_ R]. destruct (gp_scat p) as [[[r0 r1] N]|]; auto.
    destruct (R _ _ eq_refl) as (X & a & b & c & d & -> & _). injection X as -> ->. cbn. ring. }
  lra.
Qed.

Lemma predicted_sub P x y : predicted P (fun i => y i - x i)
  = (fst (predicted P y) - fst (predicted P x), snd (predicted P y) - snd (predicted P x)).
Proof. destruct P as [[[a b] c] d]. cbn. f_equal; ring. Qed.

Fixpoint subs (ys xs : list vec5) : list vec5 :=
  match ys, xs with y :: ys', x :: xs' => (fun i => y i - x i) :: subs ys' xs' | _, _ => [] end.

Lemma chain_sub ps : forall ys xs, chain ps ys (no_kinks ps) -> chain ps xs (no_kinks ps) ->
  chain ps (subs ys xs) (no_kinks ps).
Proof.
  induction ps as [|p ps IH]; intros [|y ys] [|x xs] A B; try contradiction; auto.
  cbn [chain no_kinks map subs] in *. fold (no_kinks ps) in *.
  destruct A as (A1 & A2 & A3), B as (B1 & B2 & B3). split; auto. split; [|apply IH; auto].
  destruct ps as [|p' ps]; auto. destruct ys as [|y' ys]; [auto|]. destruct xs as [|x' xs]; [auto|]. cbn [subs].
  intros i. rewrite A2, B2. unfold m5mulv, sum5, kicked. cbn. ring.
Qed.

Lemma unseen_sub ps : forall ys xs, Forall2 fits ps ys -> Forall2 fits ps xs -> Forall2 unseen ps (subs ys xs).
Proof.
  induction ps as [|p ps IH]; intros ys xs A B.
  { inversion A; inversion B; subst. constructor. }
  destruct ys as [|y ys]; [inversion A|]. destruct xs as [|x xs]; [inversion B|].
  assert (A1 : fits p y) by (inversion A; auto). assert (A2 : Forall2 fits ps ys) by (inversion A; auto).
  assert (B1 : fits p x) by (inversion B; auto). assert (B2 : Forall2 fits ps xs) by (inversion B; auto).
  constructor; [|apply IH; auto].
  intros P r w0 w1 Q. destruct (A1 _ _ _ _ Q) as [C D]. destruct (B1 _ _ _ _ Q) as [C' D'].
  rewrite predicted_sub. cbn [fst snd]. split; intros W.
  - rewrite <- (C W), <- (C' W). ring.
  - rewrite <- (D W), <- (D' W). ring.
Qed.

Lemma subs_zero : forall ys xs, length ys = length xs ->
  List.Forall (fun z : vec5 => forall i, z i = 0) (subs ys xs) -> Forall2 v5eq xs ys.
Proof.
  induction ys as [|y ys IH]; intros [|x xs] L F; try discriminate; constructor.
  - inversion F; subst. intros i. specialize (H1 i). cbn in H1. lra.
  - inversion F; subst. apply IH; auto.
Qed.

Lemma explained_minimal ps xs : List.Forall regular ps -> chain ps xs (no_kinks ps) -> Forall2 explains ps xs ->
  minimal ps xs (no_kinks ps) /\ cost ps xs (no_kinks ps) = 0.
Proof.
  intros F C E. assert (Z := explained_cost _ F _ E). split; auto. split; auto.
  intros xs' ks' _. rewrite Z. apply cost_nonneg. auto.
Qed.

Lemma explained_unique ps xs : List.Forall regular ps -> observable ps -> chain ps xs (no_kinks ps) ->
  Forall2 explains ps xs -> forall xs' ks', minimal ps xs' ks' -> Forall2 v5eq xs xs'.
Proof.
  intros F O C E xs' ks' [C' M']. destruct (explained_minimal _ _ F C E) as [_ Z].
  assert (Z' : cost ps xs' ks' = 0).
  { assert (A := M' _ _ C). assert (B := cost_nonneg _ F xs' ks'). lra. }
  destruct (cost_zero _ F _ _ C' Z') as [X' ->]. destruct (cost_zero _ F _ _ C Z) as [X _].
  apply subs_zero; [rewrite <- (forall2_length _ _ _ X'), <- (forall2_length _ _ _ X); auto|].
  apply O; [apply chain_sub; auto|apply unseen_sub; auto].
Qed.

Lemma least_squares_explained G ps xs : List.Forall regular ps -> observable ps -> least_squares_at G ps ->
  chain ps xs (no_kinks ps) -> Forall2 explains ps xs ->
  (forall k x, nth_error xs k = Some x ->
     exists c cov, gbl_results G ps (Z.of_nat (S k)) = (0%Z, c, cov) /\ v5eq c x)
  /\ fst (fst (snd (gbl_fit G ps))) = 0.
Proof.
  intros F O L C E. destruct (explained_minimal _ _ F C E) as [M Z].
  destruct (L _ _ M (explained_unique _ _ F O C E)) as [A B]. split; auto. congruence.
Qed.
