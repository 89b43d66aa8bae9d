(** Error propagation for double precision. *)
From Coq Require Import Reals ZArith Lra Lia Psatz.
From Flocq Require Import Core Relative.
From Verif Require Import Num Vec FloatWrap PointFloat SpecRound.
Open Scope R_scope.

Notation fexp64 := (FLT_exp (-1074) 53).
Global Instance vfe64 : Valid_exp fexp64.
Proof. apply FLT_exp_valid. reflexivity. Qed.

Lemma u_small : 0 < uround <= / 1000000.
Proof. unfold uround. lra. Qed.
Lemma least_pos : 0 < least.
Proof. apply bpow_gt_0. Qed.

Lemma rnd_err x : Rabs (rnd x - x) <= uround * Rabs x + least.
Proof.
  destruct (error_N_FLT radix2 (-1074) 53 eq_refl (fun x => negb (Z.even x)) x) as (e & n & He & Hn & _ & Q).
  unfold rnd. rewrite Q. replace (x * (1 + e) + n - x) with (x * e + n) by ring.
  eapply Rle_trans; [apply Rabs_triang|]. rewrite Rabs_mult.
  assert (B : Rabs e <= uround) by (unfold uround; simpl in He; unfold Z.pow_pos in He; simpl in He; lra).
  assert (Rabs n <= least) by (unfold least; generalize (bpow_gt_0 radix2 (-1074)); lra).
  assert (Rabs x * Rabs e <= Rabs x * uround) by (apply Rmult_le_compat_l; [apply Rabs_pos|auto]). lra.
Qed.

Lemma rnd_double x : is_double (rnd x).
Proof. apply generic_format_round; auto with typeclass_instances. Qed.
Lemma rnd_id x : is_double x -> rnd x = x.
Proof. intros H. apply round_generic; auto with typeclass_instances. Qed.
Lemma rnd_0 : rnd 0 = 0.
Proof. apply round_0. auto with typeclass_instances. Qed.

(** rounding what is close to x *)
Lemma rnd_step x' x e : Rabs (x' - x) <= e -> Rabs (rnd x' - x) <= 1001 / 1000 * e + uround * Rabs x + least.
Proof.
  intros H. assert (E := rnd_err x'). assert (U := u_small).
  assert (T : Rabs x' <= Rabs x + e).
  { replace x' with (x + (x' - x)) by ring. eapply Rle_trans; [apply Rabs_triang|]. lra. }
  assert (Rabs (rnd x' - x) <= Rabs (rnd x' - x') + Rabs (x' - x)).
  { replace (rnd x' - x) with ((rnd x' - x') + (x' - x)) by ring. apply Rabs_triang. }
  assert (0 <= e) by (eapply Rle_trans; [apply Rabs_pos|exact H]).
  assert (uround * Rabs x' <= uround * (Rabs x + e)) by (apply Rmult_le_compat_l; lra).
  assert (uround * e <= / 1000 * e) by (apply Rmult_le_compat_r; lra).
  lra.
Qed.

Lemma near_size x' x e : Rabs (x' - x) <= e -> Rabs x' <= Rabs x + e.
Proof. intros H. replace x' with (x + (x' - x)) by ring. eapply Rle_trans; [apply Rabs_triang|]. lra. Qed.

Lemma add_err a' a b' b ea eb : Rabs (a' - a) <= ea -> Rabs (b' - b) <= eb -> Rabs (a' + b' - (a + b)) <= ea + eb.
Proof. intros A B. replace (a' + b' - (a + b)) with ((a' - a) + (b' - b)) by ring. eapply Rle_trans; [apply Rabs_triang|]. lra. Qed.
Lemma sub_err a' a b' b ea eb : Rabs (a' - a) <= ea -> Rabs (b' - b) <= eb -> Rabs (a' - b' - (a - b)) <= ea + eb.
Proof. intros A B. replace (a' - b' - (a - b)) with ((a' - a) - (b' - b)) by ring. eapply Rle_trans; [apply Rabs_triang|]. rewrite Rabs_Ropp. lra. Qed.

(** |a'b' - ab| with the size of [a] and of [b'] *)
Lemma mul_err a' a b' b ea eb A B : Rabs (a' - a) <= ea -> Rabs (b' - b) <= eb -> Rabs a <= A -> Rabs b' <= B ->
  Rabs (a' * b' - a * b) <= ea * B + A * eb.
Proof.
  intros Ha Hb HA HB. replace (a' * b' - a * b) with ((a' - a) * b' + a * (b' - b)) by ring.
  eapply Rle_trans; [apply Rabs_triang|]. rewrite !Rabs_mult.
  apply Rplus_le_compat; apply Rmult_le_compat; auto using Rabs_pos.
Qed.

(** trigonometric functions do not amplify errors *)
Lemma sin_le a : Rabs (sin a) <= Rabs a.
Proof.
  destruct (Rle_dec 0 a) as [P|N].
  - rewrite (Rabs_pos_eq a) by auto. destruct (Req_dec a 0) as [->|Q]; [rewrite sin_0, Rabs_R0; lra|].
    assert (sin a < a) by (apply sin_lt_x; lra).
    assert (- a < sin a).
    { destruct (Rlt_dec a 1).
      - assert (0 < sin a) by (apply sin_gt_0; generalize PI2_3_2; lra). lra.
      - generalize (SIN_bound a). intros [B _]. destruct (Req_dec a 1) as [->|]; [|lra].
        assert (0 < sin 1) by (apply sin_gt_0; generalize PI2_3_2; lra). lra. }
    apply Rabs_le. lra.
  - rewrite <- Rabs_Ropp, <- sin_neg, <- (Rabs_Ropp a). set (b := - a) in *. assert (0 < b) by (unfold b; lra). clearbody b. clear N a.
    rewrite (Rabs_pos_eq b) by lra.
    assert (sin b < b) by (apply sin_lt_x; lra).
    assert (- b < sin b).
    { destruct (Rlt_dec b 1).
      - assert (0 < sin b) by (apply sin_gt_0; generalize PI2_3_2; lra). lra.
      - generalize (SIN_bound b). intros [B _]. destruct (Req_dec b 1) as [->|]; [|lra].
        assert (0 < sin 1) by (apply sin_gt_0; generalize PI2_3_2; lra). lra. }
    apply Rabs_le. lra.
Qed.
Lemma sin_1 a : Rabs (sin a) <= 1.
Proof. apply Rabs_le. generalize (SIN_bound a). lra. Qed.
Lemma cos_1 a : Rabs (cos a) <= 1.
Proof. apply Rabs_le. generalize (COS_bound a). lra. Qed.

Lemma sin_lip a b : Rabs (sin a - sin b) <= Rabs (a - b).
Proof.
  rewrite form4. assert (H := sin_le ((a - b) / 2)). assert (C := cos_1 ((a + b) / 2)).
  rewrite !Rabs_mult, (Rabs_pos_eq 2) by lra.
  assert (Q : Rabs ((a - b) / 2) = Rabs (a - b) / 2).
  { unfold Rdiv. rewrite Rabs_mult, (Rabs_pos_eq (/ 2)) by lra. reflexivity. }
  rewrite Q in H. assert (P1 := Rabs_pos (cos ((a + b) / 2))). assert (P2 := Rabs_pos (sin ((a - b) / 2))). nra.
Qed.
Lemma cos_lip a b : Rabs (cos a - cos b) <= Rabs (a - b).
Proof.
  rewrite <- !sin_shift. eapply Rle_trans; [apply sin_lip|]. rewrite Rabs_minus_sym. right. f_equal. ring.
Qed.

(** values of the library functions at an argument close to x *)
Lemma fn_err f g x' x e : off_by_one f g -> is_double x' -> (forall a, Rabs (g a) <= 1) ->
  (forall a b, Rabs (g a - g b) <= Rabs (a - b)) -> Rabs (x' - x) <= e ->
  Rabs (f x' - g x) <= 2 * uround + least + e.
Proof.
  intros F D B Lp H. destruct (F x' D) as [_ E]. assert (U := u_small).
  replace (f x' - g x) with ((f x' - g x') + (g x' - g x)) by ring. eapply Rle_trans; [apply Rabs_triang|].
  assert (2 * uround * Rabs (g x') <= 2 * uround * 1) by (apply Rmult_le_compat_l; [lra|auto]).
  specialize (Lp x' x). lra.
Qed.
Lemma fn_size f g x : off_by_one f g -> is_double x -> (forall a, Rabs (g a) <= 1) -> Rabs (f x) <= 1001 / 1000.
Proof.
  intros F D B. destruct (F x D) as [_ E]. assert (U := u_small). assert (S := near_size _ _ _ E). specialize (B x).
  assert (least <= / 1000000).
  { unfold least. apply Rle_trans with (bpow radix2 (-20)); [apply bpow_le; lia|]. change (bpow radix2 (-20)) with (/ 1048576). lra. }
  assert (2 * uround * Rabs (g x) <= 2 * uround * 1) by (apply Rmult_le_compat_l; lra). lra.
Qed.

Lemma sin_err L x' x e : accurate L -> is_double x' -> Rabs (x' - x) <= e -> Rabs (m_sin L x' - sin x) <= 2 * uround + least + e.
Proof. intros [A _] D H. apply (fn_err _ sin x' x e A D sin_1 sin_lip H). Qed.
Lemma cos_err L x' x e : accurate L -> is_double x' -> Rabs (x' - x) <= e -> Rabs (m_cos L x' - cos x) <= 2 * uround + least + e.
Proof. intros [_ [A _]] D H. apply (fn_err _ cos x' x e A D cos_1 cos_lip H). Qed.
Lemma sin_size L x : accurate L -> is_double x -> Rabs (m_sin L x) <= 1001 / 1000.
Proof. intros [A _] D. apply (fn_size _ sin x A D sin_1). Qed.
Lemma cos_size L x : accurate L -> is_double x -> Rabs (m_cos L x) <= 1001 / 1000.
Proof. intros [_ [A _]] D. apply (fn_size _ cos x A D cos_1). Qed.

(** the sine of a small angle has a small error *)
Lemma sin_err_small L x' x e : accurate L -> is_double x' -> Rabs (x' - x) <= e ->
  Rabs (m_sin L x' - sin x) <= 2 * uround * (Rabs x + e) + least + e.
Proof.
  intros [A _] D H. destruct (A x' D) as [_ E]. assert (U := u_small).
  replace (m_sin L x' - sin x) with ((m_sin L x' - sin x') + (sin x' - sin x)) by ring. eapply Rle_trans; [apply Rabs_triang|].
  assert (S := near_size _ _ _ H). assert (Q := sin_le x').
  assert (2 * uround * Rabs (sin x') <= 2 * uround * (Rabs x + e)) by (apply Rmult_le_compat_l; lra).
  assert (Lp := sin_lip x' x). lra.
Qed.

(** results in the range of double *)
Lemma rd_ok x : Rabs x <= bpow radix2 1000 -> rd x = Ok (rnd x).
Proof.
  intros H. unfold rd. destruct (Rlt_dec (Rabs (rnd x)) (bpow radix2 1024)) as [|N]; auto. exfalso. apply N.
  apply Rle_lt_trans with (bpow radix2 1000); [|apply bpow_lt; lia].
  unfold rnd. apply abs_round_le_generic; auto with typeclass_instances.
  apply generic_format_bpow. unfold FLT_exp. lia.
Qed.

Lemma rd_spec x y : rd x = Ok y -> y = rnd x.
Proof. unfold rd. destruct (Rlt_dec _ _); [|discriminate]. intros Q. injection Q as <-. reflexivity. Qed.
