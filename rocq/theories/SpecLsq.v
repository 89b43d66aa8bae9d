(** The least-squares problem that the points handed to the fitter stand for. *)
From Coq Require Import Reals List ZArith.
From Verif Require Import Num Vec Helix Trans SpecMat SpecTrans Fit.
Import ListNotations.
Open Scope R_scope.

(** Local track parameters of GBL: (q/p, two slopes, two offsets).  A thin
    scatterer changes the slopes. *)
Definition kicked (x : vec5) (k : R * R) : vec5 := fun i =>
  match i with I1 => x I1 + fst k | I2 => x I2 + snd k | _ => x i end.

(** [xs] are the local parameters at the points, [ks] the kinks: each is the one
    before, after its kink, carried on by the Jacobian of the point.  The Jacobian
    of the first point is not used. *)
Fixpoint chain (ps : list gpoint) (xs : list vec5) (ks : list (R * R)) : Prop :=
  match ps, xs, ks with
  | [], [], [] => True
  | p :: ps', x :: xs', k :: ks' =>
      (gp_scat p = None -> k = (0, 0))
      /\ match ps', xs' with
         | p' :: _, x' :: _ => forall i, x' i = m5mulv (gp_jac p') (kicked x k) i
         | _, _ => True
         end
      /\ chain ps' xs' ks'
  | _, _, _ => False
  end.

(** what a point predicts for its measurement *)
Definition predicted (P : R * R * R * R) (x : vec5) : R * R :=
  let '(p11, p12, p21, p22) := P in (p11 * x I3 + p12 * x I4, p21 * x I3 + p22 * x I4).

Definition weight (w : option R) (d : R) : R := match w with Some w => w * (d * d) | None => 0 end.

Definition meas_cost (p : gpoint) (x : vec5) : R :=
  match gp_meas p with
  | Some (P, (r0, r1), (w0, w1)) => weight w0 (r0 - fst (predicted P x)) + weight w1 (r1 - snd (predicted P x))
  | None => 0
  end.

Definition scat_cost (p : gpoint) (k : R * R) : R :=
  match gp_scat p with
  | Some ((r0, r1), Some (a, b, c, d)) =>
      let k0 := r0 - fst k in let k1 := r1 - snd k in a * (k0 * k0) + (b + c) * (k0 * k1) + d * (k1 * k1)
  | _ => 0
  end.

(** chi2 *)
Fixpoint cost (ps : list gpoint) (xs : list vec5) (ks : list (R * R)) : R :=
  match ps, xs, ks with
  | p :: ps', x :: xs', k :: ks' => meas_cost p x + scat_cost p k + cost ps' xs' ks'
  | _, _, _ => 0
  end.

Definition minimal (ps : list gpoint) (xs : list vec5) (ks : list (R * R)) : Prop :=
  chain ps xs ks /\ forall xs' ks', chain ps xs' ks' -> cost ps xs ks <= cost ps xs' ks'.

(** The contract of the fitter for one list of points: if there is one minimum
    only, its local parameters are the corrections, counted from one, and its
    chi2 is reported. *)
Definition least_squares_at (G : gbl) (ps : list gpoint) : Prop := forall xs ks, minimal ps xs ks ->
  (forall xs' ks', minimal ps xs' ks' -> Forall2 v5eq xs xs') ->
  (forall k x, nth_error xs k = Some x ->
     exists c cov, gbl_results G ps (Z.of_nat (S k)) = (0%Z, c, cov) /\ v5eq c x)
  /\ fst (fst (snd (gbl_fit G ps))) = cost ps xs ks.

(** finite numbers, weights that are not negative, positive definite scattering
    without expected kink *)
Definition regular (p : gpoint) : Prop :=
  (forall P r w0 w1, gp_meas p = Some (P, r, (w0, w1)) ->
     exists a b, w0 = Some a /\ w1 = Some b /\ 0 <= a /\ 0 <= b)
  /\ (forall r M, gp_scat p = Some (r, M) -> r = (0, 0) /\ exists a b c d, M = Some (a, b, c, d)
        /\ forall x y, (x, y) <> (0, 0) -> 0 < a * (x * x) + (b + c) * (x * y) + d * (y * y)).

(** a displacement no measurement with a positive weight takes notice of *)
Definition unseen (p : gpoint) (x : vec5) : Prop := forall P r w0 w1,
  gp_meas p = Some (P, r, (Some w0, Some w1)) ->
  (0 < w0 -> fst (predicted P x) = 0) /\ (0 < w1 -> snd (predicted P x) = 0).

Definition no_kinks (ps : list gpoint) : list (R * R) := map (fun _ => (0, 0)) ps.

(** only the absence of a displacement is unseen by all points *)
Definition observable (ps : list gpoint) : Prop := forall xs,
  chain ps xs (no_kinks ps) -> Forall2 unseen ps xs -> List.Forall (fun x => forall i, x i = 0) xs.

(** the residuals are those of a track displaced by [x] at the point *)
Definition explains (p : gpoint) (x : vec5) : Prop := forall P r w,
  gp_meas p = Some (P, r, w) -> r = predicted P x.
