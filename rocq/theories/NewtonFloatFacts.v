(** The search for a general surface in double precision: what it visits. *)
From Coq Require Import Reals ZArith List Bool Lra Lia Psatz.
From Flocq Require Import Core.
From Verif Require Import SpecConst Num Vec Isect SpecIsect FloatWrap PointFloat PlaneFloat NewtonFloat SpecRound SpecNewtonFloat RoundFacts.
Import ListNotations.
Open Scope R_scope.

Lemma least_u400 A : bpow radix2 (-400) <= A -> least <= uround * A.
Proof.
  intros H. unfold least. assert (U := u_small). apply Rle_trans with (uround * bpow radix2 (-400)).
  - replace uround with (bpow radix2 (-53)) by (unfold uround; simpl; lra). rewrite <- bpow_plus. apply bpow_le. lia.
  - apply Rmult_le_compat_l; lra.
Qed.

Lemma damp_up a A k : bpow radix2 (-400) <= A -> 0 <= k <= 600 -> Rabs (a - A) <= k * uround * A ->
  Rabs (rnd (a * 10) - A * 10) <= (k + 5) * uround * (A * 10).
Proof.
  intros HA Hk H. assert (U := u_small). assert (LU := least_u400 A HA). assert (B := bpow_gt_0 radix2 (-400)).
  assert (E : Rabs (a * 10 - A * 10) <= 10 * (k * uround * A)).
  { replace (a * 10 - A * 10) with (10 * (a - A)) by ring. rewrite Rabs_mult, (Rabs_pos_eq 10) by lra. lra. }
  assert (P := rnd_step _ _ _ E). rewrite (Rabs_pos_eq (A * 10)) in P by lra.
  eapply Rle_trans; [exact P|].
  assert (0 <= uround * A) by (apply Rmult_le_pos; lra).
  assert (k * (uround * A) <= 600 * (uround * A)) by (apply Rmult_le_compat_r; lra).
  nra.
Qed.

Lemma decr_err : Rabs (alphaDecr_d - / 10) <= 2 * uround * / 10.
Proof.
  unfold alphaDecr_d, alphaIncr_d. replace (1 / 10) with (/ 10) by lra. assert (E := rnd_err (/ 10)).
  assert (LU := least_u400 (/ 10)). assert (bpow radix2 (-400) <= / 10).
  { apply Rle_trans with (bpow radix2 (-4)); [apply bpow_le; lia|simpl; lra]. }
  specialize (LU H). rewrite (Rabs_pos_eq (/ 10)) in E by lra. lra.
Qed.

Lemma damp_down a A k : bpow radix2 (-400) <= A / 10 -> 0 <= k <= 600 -> Rabs (a - A) <= k * uround * A ->
  Rabs (rnd (a * alphaDecr_d) - A / 10) <= (k + 5) * uround * (A / 10).
Proof.
  intros HA Hk H. assert (U := u_small). assert (LU := least_u400 (A / 10) HA). assert (B := bpow_gt_0 radix2 (-400)).
  assert (DE := decr_err).
  assert (P : Rabs (a * alphaDecr_d - A * (/ 10)) <= k * uround * A * (10001 / 100000) + A * (2 * uround * / 10)).
  { apply mul_err; auto; try (rewrite Rabs_pos_eq; lra). apply near_size in DE. rewrite (Rabs_pos_eq (/ 10)) in DE by lra. lra. }
  change (A * / 10) with (A / 10) in P. assert (Q := rnd_step _ _ _ P). rewrite (Rabs_pos_eq (A / 10)) in Q by lra.
  eapply Rle_trans; [exact Q|].
  assert (0 <= uround * A) by (apply Rmult_le_pos; lra).
  assert (k * (uround * A) <= 600 * (uround * A)) by (apply Rmult_le_compat_r; lra).
  assert (0 <= k * (uround * A)) by (apply Rmult_le_pos; lra).
  replace (k * uround * A) with (k * (uround * A)) by ring. replace (A * (2 * uround * / 10)) with (2 / 10 * (uround * A)) by field.
  replace (uround * (A / 10)) with (/ 10 * (uround * A)) in * by field.
  replace ((k + 5) * uround * (A / 10)) with (/ 10 * (k * (uround * A)) + 5 / 10 * (uround * A)) by field. lra.
Qed.

Definition ideal (n g : nat) : R := / 10 ^ 10 * 10 ^ (n - g) / 10 ^ g.

Lemma pow10_pos n : 0 < 10 ^ n.
Proof. apply pow_lt. lra. Qed.

Lemma ideal_low n g : (g <= 101)%nat -> bpow radix2 (-400) <= ideal n g.
Proof.
  intros H. unfold ideal.
  assert (10 ^ g <= 10 ^ 101) by (apply Rle_pow; [lra|lia]).
  assert (1 <= 10 ^ (n - g)) by (apply pow_R1_Rle; lra).
  assert (P := pow10_pos g). assert (P0 := pow10_pos 10). assert (P1 := pow10_pos 101).
  apply Rle_trans with (/ 10 ^ 10 * 1 / 10 ^ 101).
  - replace (/ 10 ^ 10 * 1 / 10 ^ 101) with (/ (10 ^ 111)).
    2:{ replace 111%nat with (10 + 101)%nat by reflexivity. rewrite pow_add. rewrite Rmult_1_r, Rinv_mult. reflexivity. }
    change (-400)%Z with (- (400))%Z. rewrite bpow_opp. apply Rinv_le_contravar; [apply pow10_pos|].
    apply Rle_trans with (16 ^ 100).
    + replace 111%nat with (11 + 100)%nat by reflexivity. rewrite pow_add.
      replace (10 ^ 11) with 100000000000 by (simpl; ring).
      replace 16 with (1.6 * 10) by lra. rewrite Rpow_mult_distr. apply Rmult_le_compat_r; [left; apply pow10_pos|].
      replace 100%nat with (2 * (5 * 10))%nat by reflexivity. rewrite pow_mult. 
      apply Rle_trans with ((1.6 ^ 2) ^ 30); [|apply Rle_pow; [simpl; lra|lia]].
      replace 30%nat with (2 * 15)%nat by reflexivity. rewrite pow_mult. simpl. lra.
    + replace 16 with (2 ^ 4) by ring. rewrite <- pow_mult, bpow_powerRZ. apply Req_le. reflexivity.
  - assert (I0 : 0 < / 10 ^ 10) by (apply Rinv_0_lt_compat; exact P0).
    assert (I1 : 0 < / 10 ^ 101) by (apply Rinv_0_lt_compat; exact P1).
    assert (I2 : / 10 ^ 101 <= / 10 ^ g) by (apply Rinv_le_contravar; assumption).
    unfold Rdiv. apply Rmult_le_compat; [left; rewrite Rmult_1_r; exact I0|left; exact I1| |exact I2].
    apply Rmult_le_compat_l; [left; exact I0|exact H1].
Qed.

Lemma ideal_up n g : (g <= n)%nat -> ideal (S n) g = ideal n g * 10.
Proof. intros H. unfold ideal. replace (S n - g)%nat with (S (n - g)) by lia. simpl pow at 2. unfold Rdiv. ring. Qed.
Lemma ideal_down n g : ideal (S n) (S g) = ideal n g / 10.
Proof.
  unfold ideal. replace (S n - S g)%nat with (n - g)%nat by lia. change (10 ^ S g) with (10 * 10 ^ g).
  unfold Rdiv. rewrite Rinv_mult. ring.
Qed.

Section Search.
Variables (L : libm) (S : surface_d) (hp : vec5) (rp : vec3) (s0 : R).

Notation at_dist := (at_distance L S hp rp).

Lemma at_dist_eq t d e : at_dist t d -> at_dist t e -> d = e.
Proof.
  intros (s & x & -> & P & Q) (s' & x' & E & P' & Q'). injection E as <-. rewrite P in P'. injection P' as <-.
  rewrite Q in Q'. injection Q'; auto.
Qed.

(** the loop after visiting [l] *)
Record inv (l : list (option R)) (st : dstate) : Prop := {
  i_xx : d_xx st = point_o L (d_s st) hp rp;
  i_prev : d_prevXX st = finite (pointAt_d L (d_prevS st) hp rp);
  i_miss : forall t, In t l -> misses L S hp rp t;
  i_best : is_best L S hp rp s0 l (d_prevS st) (d_prevDist st);
  i_jour : journey L S hp rp s0 (l ++ [d_s st]);
  i_damp : exists g, records L S hp rp l g /\ (g <= length l)%nat
    /\ Rabs (d_alpha st - ideal (length l) g) <= (5 * INR (length l) + 5) * uround * ideal (length l) g
}.

Lemma damp_of l st : (length l <= 101)%nat -> inv l st -> damping_d L S hp rp l (d_alpha st).
Proof.
  intros HL [_ _ _ _ _ (g & R1 & R2 & R3)]. exists g. split; [exact R1|]. split; [exact R2|].
  eapply Rle_trans; [exact R3|]. fold (ideal (length l) g).
  assert (U := u_small). assert (B := bpow_gt_0 radix2 (-400)). assert (I := ideal_low (length l) g ltac:(lia)).
  assert (INR (length l) <= 101) by (replace 101 with (INR 101) by (simpl; lra); apply le_INR; exact HL).
  apply Rmult_le_compat_r; [lra|]. apply Rmult_le_compat_r; lra.
Qed.

Lemma next_iff s x d alpha t : finite (pointAt_d L s hp rp) = x -> t = newton_next_d L S hp s x d alpha ->
  forall s', t = Some s' <-> step_d L S hp rp s d alpha s'.
Proof.
  intros Hx -> s'. unfold newton_next_d, step_d. split.
  - intros H. destruct x as [x|]; [|discriminate].
    destruct (pointAt_d L s hp rp) as [x1| | | |] eqn:P; cbn in Hx; try discriminate. injection Hx as ->.
    destruct (sd_normal S x) as [n|] eqn:N; [|discriminate].
    destruct (calculateTangent_d L s hp) as [T| | | |] eqn:ET; try discriminate. cbn [bind] in H.
    destruct (vdot_d n T) as [g| | | |] eqn:EG; try discriminate. cbn [bind] in H.
    destruct (rd (1 + alpha)) as [a| | | |] eqn:EA; try discriminate. cbn [bind] in H.
    destruct (rd (a * g)) as [den| | | |] eqn:ED; try discriminate. cbn [bind] in H.
    destruct (rd_div d den) as [q| | | |] eqn:EQ; try discriminate. cbn [bind] in H.
    destruct (rd (s - q)) as [s1| | | |] eqn:ES; try discriminate. cbn in H. injection H as <-.
    exists x, n, T, g, a, den, q. repeat (split; [assumption || reflexivity|]). exact ES.
  - intros (x1 & n & T & g & a & den & q & P & N & ET & EG & EA & ED & EQ & ES). rewrite P in Hx. cbn in Hx. subst x.
    rewrite N, ET. cbn [bind]. rewrite EG. cbn [bind]. rewrite EA. cbn [bind]. rewrite ED. cbn [bind]. rewrite EQ. cbn [bind].
    rewrite ES. reflexivity.
Qed.

Lemma journey_snoc l t : l <> [] -> journey L S hp rp s0 l ->
  (exists s d alpha, is_best L S hp rp s0 l s d /\ damping_d L S hp rp l alpha /\ forall s', t = Some s' <-> step_d L S hp rp s d alpha s') ->
  journey L S hp rp s0 (l ++ [t]).
Proof.
  intros NE [(l' & E) J] H. split.
  - exists (l' ++ [t]). rewrite E. reflexivity.
  - intros l1 u l2 Q N1. destruct l2 as [|v l2].
    + apply app_inj_tail in Q. destruct Q as [<- <-]. exact H.
    + destruct (exists_last (l := v :: l2)) as (l3 & w & E3); [discriminate|].
      rewrite E3 in Q. rewrite app_comm_cons, app_assoc in Q. apply app_inj_tail in Q. destruct Q as [Q _].
      apply (J l1 u l3 Q N1).
Qed.

(** the two ways a pass continues *)
Lemma stay_inv l st t : (length l <= 100)%nat -> inv l st -> t = d_s st ->
  (forall d, at_dist t d -> tol_d <= Rabs d /\ Rabs (d_prevDist st) <= Rabs d) ->
  let alpha := rnd (d_alpha st * alphaIncr_d) in
  let s := newton_next_d L S hp (d_prevS st) (d_prevXX st) (d_prevDist st) alpha in
  inv (l ++ [t]) (DS s (point_o L s hp rp) (d_prevXX st) (d_prevS st) (d_prevDist st) alpha).
Proof.
  intros HL I -> Hd alpha s. assert (I0 := I). destruct I as [IX IP IM IB IJ (g & R1 & R2 & R3)].
  assert (B : is_best L S hp rp s0 (l ++ [d_s st]) (d_prevS st) (d_prevDist st)).
  { destruct IB as [B1 B2]. split.
    - intros t e Ht He. apply in_app_or in Ht. destruct Ht as [Ht|[<-|[]]]; [exact (B1 t e Ht He)|]. apply (Hd e He).
    - destruct B2 as [(B2 & B3)|B2]; [left|right; exact B2]. split; [apply in_or_app; left; exact B2|exact B3]. }
  assert (ND : exists g, records L S hp rp (l ++ [d_s st]) g /\ (g <= length (l ++ [d_s st]))%nat
    /\ Rabs (alpha - ideal (length (l ++ [d_s st])) g) <= (5 * INR (length (l ++ [d_s st])) + 5) * uround * ideal (length (l ++ [d_s st])) g).
  { exists g. rewrite app_length. cbn [length]. replace (length l + 1)%nat with (Datatypes.S (length l)) by lia.
    split; [|split; [lia|]].
    - apply rec_same; [exact R1|]. intros d Had. destruct (Hd d Had) as [_ Q]. destruct IB as [B1 [(B2 & B3 & _)|[_ B2]]].
      + right. exists (Some (d_prevS st)), (d_prevDist st). auto.
      + left. rewrite B2 in Q. rewrite Rabs_pos_eq in Q by lra. exact Q.
    - rewrite ideal_up by exact R2. assert (PI0 := pos_INR (length l)).
      assert (INR (length l) <= 100) by (replace 100 with (INR 100) by (simpl; lra); apply le_INR; exact HL).
      rewrite S_INR. replace (5 * (INR (length l) + 1) + 5) with (5 * INR (length l) + 5 + 5) by ring.
      apply damp_up; [apply ideal_low; lia|lra|exact R3]. }
  constructor; cbn [d_xx d_s d_prevXX d_prevS d_prevDist d_alpha]; auto.
  - intros t Ht. apply in_app_or in Ht. destruct Ht as [Ht|[<-|[]]]; [exact (IM t Ht)|]. intros d Had. apply (Hd d Had).
  - apply journey_snoc; [intros E; apply app_eq_nil in E; destruct E; discriminate|exact IJ|].
    exists (d_prevS st), (d_prevDist st), alpha. split; [exact B|]. split.
    + destruct ND as (g' & N1 & N2 & N3). exists g'. split; [exact N1|]. split; [exact N2|]. eapply Rle_trans; [exact N3|].
      fold (ideal (length (l ++ [d_s st])) g'). rewrite app_length in *. cbn [length] in *.
      assert (U := u_small). assert (BP := bpow_gt_0 radix2 (-400)).
      assert (I := ideal_low (length l + 1) g' ltac:(lia)).
      assert (INR (length l + 1) <= 101) by (replace 101 with (INR 101) by (simpl; lra); apply le_INR; lia).
      apply Rmult_le_compat_r; [lra|]. apply Rmult_le_compat_r; lra.
    + apply next_iff with (x := d_prevXX st); [symmetry; exact IP|reflexivity].
Qed.

Lemma gain_inv l st s x d : (length l <= 100)%nat -> inv l st -> d_s st = Some s -> d_xx st = Some x -> sd_distance S x = Some d ->
  tol_d <= Rabs d -> Rabs d < Rabs (d_prevDist st) ->
  let alpha := rnd (d_alpha st * alphaDecr_d) in
  let s' := newton_next_d L S hp s (Some x) d alpha in
  inv (l ++ [Some s]) (DS s' (point_o L s' hp rp) (Some x) s d alpha).
Proof.
  intros HL I Hs Hx Hd HT HG alpha s'. destruct I as [IX IP IM IB IJ (g & R1 & R2 & R3)].
  assert (P : pointAt_d L s hp rp = Ok x).
  { rewrite Hs, Hx in IX. cbn [point_o] in IX. destruct (pointAt_d L s hp rp); cbn in IX; try discriminate. injection IX as ->. reflexivity. }
  assert (A : at_dist (Some s) d) by (exists s, x; split; [reflexivity|split; [exact P|exact Hd]]).
  assert (D10 : Rabs d < 10000000000).
  { destruct IB as [_ [(_ & _ & B)|[_ B]]]; [lra|]. rewrite B in HG. rewrite (Rabs_pos_eq 10000000000) in HG by lra. exact HG. }
  assert (B : is_best L S hp rp s0 (l ++ [Some s]) s d).
  { destruct IB as [B1 _]. split.
    - intros t e Ht He. apply in_app_or in Ht. destruct Ht as [Ht|[<-|[]]].
      + specialize (B1 t e Ht He). lra.
      + rewrite (at_dist_eq _ _ _ A He). lra.
    - left. split; [apply in_or_app; right; left; reflexivity|]. split; [exact A|exact D10]. }
  assert (ND : exists g, records L S hp rp (l ++ [Some s]) g /\ (g <= length (l ++ [Some s]))%nat
    /\ Rabs (alpha - ideal (length (l ++ [Some s])) g) <= (5 * INR (length (l ++ [Some s])) + 5) * uround * ideal (length (l ++ [Some s])) g).
  { exists (1 + g)%nat. rewrite app_length. cbn [length]. replace (length l + 1)%nat with (Datatypes.S (length l)) by lia.
    split; [|split; [lia|]].
    - apply rec_more with d; auto. intros u e Hu He. destruct IB as [B1 _]. specialize (B1 u e Hu He). lra.
    - assert (Q := ideal_low (Datatypes.S (length l)) (1 + g) ltac:(lia)). rewrite ideal_down in Q |- *. assert (PI0 := pos_INR (length l)).
      assert (INR (length l) <= 100) by (replace 100 with (INR 100) by (simpl; lra); apply le_INR; exact HL).
      rewrite S_INR. replace (5 * (INR (length l) + 1) + 5) with (5 * INR (length l) + 5 + 5) by ring.
      apply damp_down; [exact Q|lra|exact R3]. }
  constructor; cbn [d_xx d_s d_prevXX d_prevS d_prevDist d_alpha]; auto.
  - rewrite P. reflexivity.
  - intros t Ht. apply in_app_or in Ht. destruct Ht as [Ht|[<-|[]]]; [exact (IM t Ht)|]. intros e Had. rewrite (at_dist_eq _ _ _ Had A). exact HT.
  - rewrite Hs in IJ. apply journey_snoc; [intros E; apply app_eq_nil in E; destruct E; discriminate|exact IJ|].
    exists s, d, alpha. split; [exact B|]. split.
    + destruct ND as (g' & N1 & N2 & N3). exists g'. split; [exact N1|]. split; [exact N2|]. eapply Rle_trans; [exact N3|].
      fold (ideal (length (l ++ [Some s])) g'). rewrite app_length in *. cbn [length] in *.
      assert (U := u_small). assert (BP := bpow_gt_0 radix2 (-400)).
      assert (I := ideal_low (length l + 1) g' ltac:(lia)).
      assert (INR (length l + 1) <= 101) by (replace 101 with (INR 101) by (simpl; lra); apply le_INR; lia).
      apply Rmult_le_compat_r; [lra|]. apply Rmult_le_compat_r; lra.
    + apply next_iff with (x := Some x); [rewrite P; reflexivity|reflexivity].
Qed.

Lemma step_inv l st : (length l <= 100)%nat -> inv l st ->
  match newton_step_d L S hp rp st with
  | inl (s, x) => d_s st = Some s /\ exists d, measured L S hp rp s x d /\ Rabs d < tol_d
  | inr st' => inv (l ++ [d_s st]) st'
  end.
Proof.
  intros HL I. assert (I0 := I). destruct I as [IX IP IM IB IJ ID]. unfold newton_step_d.
  destruct (d_s st) as [s|] eqn:Es.
  2:{ rewrite <- Es. apply stay_inv; auto. intros d (s' & x' & E & _). congruence. }
  cbn [point_o] in IX. destruct (pointAt_d L s hp rp) as [x| | | |] eqn:P; cbn [finite] in IX; rewrite IX.
  1: destruct (sd_distance S x) as [d|] eqn:Ed.
  1: destruct (Rlt_dec (Rabs d) newton_eps_d) as [LT|GE].
  1: { split; [reflexivity|]. exists d. split; [split; assumption|exact LT]. }
  1: destruct (Rlt_dec (Rabs d) (Rabs (d_prevDist st))) as [LT2|GE2].
  1: { change newton_eps_d with tol_d in GE. apply gain_inv; auto. lra. }
  all: rewrite <- Es; apply stay_inv; auto; intros e (s' & x' & E & P' & Q'); rewrite Es in E; injection E as <-;
    rewrite P in P'; try discriminate P'; injection P' as <-; rewrite Ed in Q'; try discriminate Q'.
  injection Q' as <-. change newton_eps_d with tol_d in GE. lra.
Qed.

Lemma loop_inv n : forall l st, (length l + n = 101)%nat -> inv l st ->
  match newton_loop_d L S hp rp n st with
  | inl (s, x) => exists l', (length l' <= 100)%nat /\ (forall t, In t l' -> misses L S hp rp t)
      /\ journey L S hp rp s0 (l' ++ [Some s]) /\ exists d, measured L S hp rp s x d /\ Rabs d < tol_d
  | inr (s, o) => exists l' t d, length l' = 101%nat /\ (forall t, In t l' -> misses L S hp rp t)
      /\ journey L S hp rp s0 (l' ++ [t]) /\ o = finite (pointAt_d L s hp rp) /\ is_best L S hp rp s0 l' s d
  end.
Proof.
  induction n as [|n IH]; intros l st HL I.
  - cbn [newton_loop_d]. destruct I as [IX IP IM IB IJ ID]. exists l, (d_s st), (d_prevDist st). split; [lia|]. auto.
  - cbn [newton_loop_d]. assert (H := step_inv l st ltac:(lia) I). destruct (newton_step_d L S hp rp st) as [[s x]|st'].
    + destruct H as (Es & d & M & LT). destruct I as [IX IP IM IB IJ ID]. exists l. rewrite Es in IJ.
      split; [lia|]. split; [exact IM|]. split; [exact IJ|]. exists d. split; assumption.
    + apply (IH (l ++ [d_s st]) st'); [rewrite app_length; cbn [length]; lia|exact H].
Qed.

Lemma journey_init l t : l <> [] -> journey L S hp rp s0 (l ++ [t]) -> journey L S hp rp s0 l.
Proof.
  intros NE [(l' & E) J]. split.
  - destruct l as [|u l]; [congruence|]. injection E as -> _. exists l. reflexivity.
  - intros l1 u l2 Q N1. apply (J l1 u (l2 ++ [t])); [|exact N1]. rewrite Q, <- app_assoc. reflexivity.
Qed.

Lemma start_inv : inv [] (DS (Some s0) (finite (pointAt_d L s0 hp rp)) (finite (pointAt_d L s0 hp rp)) s0 10000000000 (rnd (/ 10000000000))).
Proof.
  constructor; cbn [d_xx d_s d_prevXX d_prevS d_prevDist d_alpha]; auto.
  - intros t [].
  - split; [intros t e []|]. right. split; reflexivity.
  - split; [exists []; reflexivity|]. intros l1 t l2 E N. destruct l1 as [|u l1]; [congruence|]. cbn in E. injection E as _ E.
    destruct l1; discriminate.
  - exists 0%nat. split; [constructor|]. split; [cbn; lia|]. assert (U := u_small). assert (LU := least_u400 _ (ideal_low 0 0 ltac:(lia))).
    cbn [length]. assert (Q : ideal 0 0 = / 10000000000) by (unfold ideal; simpl; field). rewrite Q in *.
    assert (E := rnd_err (/ 10000000000)). rewrite (Rabs_pos_eq (/ 10000000000)) in E by lra. cbn [INR]. lra.
Qed.

End Search.
