(** Memory: lemmas. *)
From Coq Require Import Reals List Bool ZArith Lia Permutation.
From Verif Require Import Num Vec Helix Isect Trans Material Traj SpecTraj SpecThrow ThrowFacts TrajFacts Heap SpecHeap.
Import ListNotations.
Open Scope R_scope.

(** * Memory *)
Lemma nth_error_ext {A} (l l' : list A) : (forall n, nth_error l n = nth_error l' n) -> l = l'.
Proof.
  revert l'. induction l as [|a l IH]; intros [|b l'] H; auto.
  - specialize (H O). discriminate.
  - specialize (H O). discriminate.
  - f_equal; [specialize (H O); cbn in H; congruence|]. apply IH. intros n. apply (H (S n)).
Qed.

Lemma clear_length h a : length (clear h a) = length h.
Proof. revert a. induction h; intros [|n]; cbn; auto. Qed.

Lemma clear_same h a : (a < length h)%nat -> nth_error (clear h a) a = Some None.
Proof. revert a. induction h; intros [|n] L; cbn in *; try lia; auto. apply IHh. lia. Qed.

Lemma clear_other h a b : a <> b -> nth_error (clear h a) b = nth_error h b.
Proof. revert a b. induction h; intros [|n] [|m] N; cbn; auto; try lia. Qed.

Definition clearAll (h : heap) (l : list nat) : heap := fold_left clear l h.

Lemma clearAll_length l h : length (clearAll h l) = length h.
Proof. revert h. induction l as [|a l IH]; intros h; auto. cbn. unfold clearAll in IH. rewrite IH. apply clear_length. Qed.

Lemma clearAll_out l : forall h b, ~ In b l -> nth_error (clearAll h l) b = nth_error h b.
Proof.
  induction l as [|a l IH]; intros h b N; auto. cbn. fold (clearAll (clear h a) l).
  rewrite IH by (cbn in N; tauto). apply clear_other. cbn in N; tauto.
Qed.

Lemma clearAll_in l : forall h b, In b l -> (b < length h)%nat -> nth_error (clearAll h l) b = Some None.
Proof.
  induction l as [|a l IH]; intros h b N L; [destruct N|]. cbn. fold (clearAll (clear h a) l).
  destruct (in_dec Nat.eq_dec b l) as [I|I]; [apply IH; auto; rewrite clear_length; auto|].
  destruct N as [->|N]; [|contradiction]. rewrite clearAll_out by auto. apply clear_same; auto.
Qed.

Lemma live_app h1 h2 : live (h1 ++ h2) = live h1 ++ live h2.
Proof. induction h1 as [|[k|] h IH]; cbn; auto. f_equal; auto. Qed.

Lemma live_clear h a k : nth_error h a = Some (Some k) -> Permutation (live h) (k :: live (clear h a)).
Proof.
  revert a. induction h as [|x h IH]; intros [|n] E; cbn in *; try discriminate.
  - injection E as ->. cbn. auto.
  - destruct x; cbn; [|auto]. rewrite (IH n E). apply perm_swap.
Qed.

Lemma live_clearAll l : forall h, NoDup (map fst l) ->
  (forall a k, In (a, k) l -> nth_error h a = Some (Some k)) ->
  Permutation (live h) (map snd l ++ live (clearAll h (map fst l))).
Proof.
  induction l as [|[a k] l IH]; intros h N H; cbn; auto.
  inversion N as [|? ? N1 N2]; subst. fold (clearAll (clear h a) (map fst l)).
  rewrite (live_clear h a k) by (apply H; cbn; auto). constructor. apply IH; auto.
  intros b k' I. rewrite clear_other. { apply H; cbn; auto. }
  intros ->. apply N1. cbn. apply in_map_iff. exists (b, k'). auto.
Qed.

Lemma kind_eqb_refl k : kind_eqb k k = true.
Proof. destruct k; auto. Qed.

Lemma mfree_ok k a h : nth_error h a = Some (Some k) -> mfree k a h = (clear h a, Ok tt).
Proof. intros E. unfold mfree. rewrite E, kind_eqb_refl. auto. Qed.

(** * Invariant *)
Record inv (h0 h : heap) (es : list helem) (lost : list kind) : Prop := {
  inv_old : exists tail, h = h0 ++ tail;
  inv_nodup : NoDup (map fst (flat_map owned1 es));
  inv_live : forall a k, In (a, k) (flat_map owned1 es) ->
      (length h0 <= a)%nat /\ nth_error h a = Some (Some k);
  inv_lost : live (skipn (length h0) (clearAll h (map fst (flat_map owned1 es)))) = lost;
  inv_usable : forall e surf, In e es -> te_surf (he_val e) = Some surf -> ~ unusable surf;
  inv_agree : forall e, In e es -> pointers_agree e
}.

Lemma skipn_ge_app {A} (l1 l2 : list A) : skipn (length l1) (l1 ++ l2) = l2.
Proof. rewrite skipn_app, skipn_all, Nat.sub_diag. auto. Qed.

Lemma nth_error_skipn {A} n (l : list A) m : nth_error (skipn n l) m = nth_error l (n + m).
Proof. revert l. induction n; intros [|a l]; cbn; auto. destruct m; auto. Qed.

(** owned objects are the same set of addresses: the rest of memory too *)
Lemma clearAll_perm h l l' : Permutation l l' -> clearAll h l = clearAll h l'.
Proof.
  intros P. apply nth_error_ext. intros n.
  destruct (le_lt_dec (length h) n) as [G|G].
  { transitivity (@None (option kind)); [|symmetry]; apply nth_error_None; rewrite clearAll_length; auto. }
  destruct (in_dec Nat.eq_dec n l) as [I|I].
  - rewrite !clearAll_in; auto. eapply Permutation_in; eauto.
  - rewrite !clearAll_out; auto. intros J. apply I. eapply Permutation_in; [symmetry|]; eauto.
Qed.

Lemma inv_perm h0 h es es' lost : Permutation es es' -> inv h0 h es lost -> inv h0 h es' lost.
Proof.
  intros P [A B C D F G]. assert (Q : Permutation (flat_map owned1 es) (flat_map owned1 es')).
  { clear - P. induction P; cbn [flat_map]; auto.
    - apply Permutation_app_head; auto.
    - rewrite !app_assoc. apply Permutation_app_tail. apply Permutation_app_comm.
    - etransitivity; eauto. }
  split; auto.
  - eapply Permutation_NoDup; [|exact B]. apply Permutation_map; auto.
  - intros a k I. apply C. eapply Permutation_in; [symmetry; exact Q|auto].
  - rewrite <- D. f_equal. f_equal. apply clearAll_perm. apply Permutation_map. symmetry; auto.
  - intros e surf I. apply F. eapply Permutation_in; [symmetry; exact P|auto].
  - intros e I. apply G. eapply Permutation_in; [symmetry; exact P|auto].
Qed.

Lemma inv_lt h0 h es lost a k : inv h0 h es lost -> In (a, k) (flat_map owned1 es) -> (a < length h)%nat.
Proof. intros I J. destruct (inv_live _ _ _ _ I a k J) as [_ E]. apply nth_error_Some. congruence. Qed.

(** a piece of memory appended, some of it owned by a new element *)
Lemma inv_append h0 h es lost cells es' lost' :
  inv h0 h es lost ->
  NoDup (map fst (flat_map owned1 es')) ->
  (forall a k, In (a, k) (flat_map owned1 es') ->
     exists i, a = (length h + i)%nat /\ nth_error cells i = Some (Some k)) ->
  live (skipn (length h) (clearAll (h ++ cells) (map fst (flat_map owned1 es')))) = lost' ->
  (forall e surf, In e es' -> te_surf (he_val e) = Some surf -> ~ unusable surf) ->
  (forall e, In e es' -> pointers_agree e) ->
  inv h0 (h ++ cells) (es ++ es') (lost ++ lost').
Proof.
  intros I N O L U V. assert (Ilt := fun a k => inv_lt h0 h es lost a k I).
  destruct I as [[tail ->] B C D F G0]. set (h := h0 ++ tail) in *.
  assert (Low : forall a, In a (map fst (flat_map owned1 es)) -> (a < length h)%nat).
  { intros a J. apply in_map_iff in J. destruct J as [[b k] [<- J]]. eapply Ilt; eauto. }
  assert (High : forall a, In a (map fst (flat_map owned1 es')) -> (length h <= a < length h + length cells)%nat).
  { intros a J. apply in_map_iff in J. destruct J as [[b k] [<- J]]. destruct (O _ _ J) as (i & E & Q).
    cbn [fst]. rewrite E. assert (i < length cells)%nat by (apply nth_error_Some; congruence). lia. }
  split.
  - exists (tail ++ cells). unfold h. rewrite app_assoc. auto.
  - rewrite flat_map_app, map_app.
    assert (X : forall l1 l2 : list nat, NoDup l1 -> NoDup l2 -> (forall a, In a l1 -> ~ In a l2) -> NoDup (l1 ++ l2)).
    { clear. induction l1; cbn; intros l2 A B H; auto. inversion A; subst. constructor.
      - rewrite in_app_iff. intros [Q|Q]; [auto|]. apply (H a); auto.
      - apply IHl1; auto. }
    apply X; auto. intros a I J. specialize (Low _ I). specialize (High _ J). lia.
  - intros a k. rewrite flat_map_app, in_app_iff. intros [I|I].
    + destruct (C _ _ I) as [G E]. split; auto. rewrite nth_error_app1; auto. eapply Ilt; eauto.
    + destruct (O _ _ I) as (i & E & Q). subst a. split; [unfold h; rewrite app_length; lia|].
      rewrite nth_error_app2 by lia. replace (length h + i - length h)%nat with i by lia. auto.
  - rewrite flat_map_app, map_app.
    set (l1 := map fst (flat_map owned1 es)) in *. set (l2 := map fst (flat_map owned1 es')) in *.
    assert (Eq : clearAll (h ++ cells) (l1 ++ l2) = clearAll h l1 ++ skipn (length h) (clearAll (h ++ cells) l2)).
    { apply nth_error_ext. intros n. destruct (le_lt_dec (length h) n) as [G|G].
      - rewrite nth_error_app2 by (rewrite clearAll_length; auto). rewrite clearAll_length, nth_error_skipn.
        replace (length h + (n - length h))%nat with n by lia.
        destruct (in_dec Nat.eq_dec n l2) as [J|J].
        + rewrite !clearAll_in; auto; try (rewrite in_app_iff; auto); rewrite app_length; specialize (High _ J); lia.
        + rewrite !clearAll_out; auto. rewrite in_app_iff. intros [K|K]; auto. specialize (Low _ K). lia.
      - rewrite nth_error_app1 by (rewrite clearAll_length; auto).
        destruct (in_dec Nat.eq_dec n l1) as [J|J].
        + rewrite !clearAll_in; auto; [rewrite in_app_iff; auto|rewrite app_length; lia].
        + rewrite !clearAll_out; auto; [rewrite nth_error_app1; auto|].
          rewrite in_app_iff. intros [K|K]; auto. specialize (High _ K). lia. }
    rewrite Eq, skipn_app, clearAll_length.
    replace (length h0 - length h)%nat with 0%nat by (unfold h; rewrite app_length; lia).
    rewrite live_app, D. cbn [skipn]. f_equal. auto.
  - intros e surf. rewrite in_app_iff. intros [J|J]; eauto.
  - intros e. rewrite in_app_iff. intros [J|J]; eauto.
Qed.

(** * Destructor *)
Definition opt_own (k : kind) (o : option nat) : list (nat * kind) :=
  match o with Some a => [(a, k)] | None => [] end.

Lemma opt_free k o h rest :
  (forall a k', In (a, k') (opt_own k o ++ rest) -> nth_error h a = Some (Some k')) ->
  NoDup (map fst (opt_own k o ++ rest)) ->
  exists lo, mfreeOpt k o h = (lo, Ok tt)
  /\ (forall a k', In (a, k') rest -> nth_error lo a = Some (Some k'))
  /\ NoDup (map fst rest)
  /\ clearAll h (map fst (opt_own k o ++ rest)) = clearAll lo (map fst rest).
Proof.
  intros H N. destruct o as [a|]; cbn [opt_own app map fst] in *.
  - exists (clear h a). split; [apply mfree_ok; apply H; cbn; auto|]. inversion N as [|? ? N1 N2]; subst. split; [|split; auto].
    intros b k' I. rewrite clear_other; [apply H; cbn; auto|]. intros ->. apply N1. apply in_map_iff. exists (b, k'). auto.
  - exists h. repeat split; auto.
Qed.

Lemma owned1_opt e : owned1 e = opt_own KFrame (he_frame e) ++ opt_own KDirs (he_dirs e) ++ opt_own KJac (he_jac e)
  ++ opt_own KProj (he_proj e) ++ opt_own KParams (Some (he_params e)) ++ opt_own KElem (Some (he_self e)).
Proof. reflexivity. Qed.

Lemma delete_ok es : forall h,
  (forall a k, In (a, k) (flat_map owned1 es) -> nth_error h a = Some (Some k)) ->
  NoDup (map fst (flat_map owned1 es)) ->
  hDeleteAll es h = (clearAll h (map fst (flat_map owned1 es)), Ok tt).
Proof.
  induction es as [|e es IH]; intros h H N; [reflexivity|].
  cbn [flat_map] in *. rewrite owned1_opt in H, N |- *. rewrite <- !app_assoc in H, N |- *.
  destruct (opt_free _ _ _ _ H N) as (h1 & A1 & A2 & A3 & A4). rewrite A4. clear H N A4.
  destruct (opt_free _ _ _ _ A2 A3) as (h2 & B1 & B2 & B3 & B4). rewrite B4. clear A2 A3 B4.
  destruct (opt_free _ _ _ _ B2 B3) as (h3 & C1 & C2 & C3 & C4). rewrite C4. clear B2 B3 C4.
  destruct (opt_free _ _ _ _ C2 C3) as (h4 & D1 & D2 & D3 & D4). rewrite D4. clear C2 C3 D4.
  destruct (opt_free _ _ _ _ D2 D3) as (h5 & E1 & E2 & E3 & E4). rewrite E4. clear D2 D3 E4.
  destruct (opt_free _ _ _ _ E2 E3) as (h6 & F1 & F2 & F3 & F4). rewrite F4. clear E2 E3 F4.
  cbn [hDeleteAll]. unfold hDeleteElement, mbind. rewrite A1, B1, C1, D1. cbn [mfreeOpt] in E1, F1.
  rewrite E1, F1. apply IH; auto.
Qed.
