(** The search for the crossing of a track with a general surface in double precision
    (util/src/helixUtils.cc 686-699, 701-810).  Same conventions as in PointFloat.v.
    Here a number that is not finite does not end the computation: the comparisons of
    the loop fail for it and the search goes on from the best point known.  So numbers
    and points are [option]s, [None] standing for every infinity and every NaN. *)
From Coq Require Import Reals ZArith Bool.
From Flocq Require Import Core.
From Verif Require Import Num Vec Isect FloatWrap PointFloat PathFloat CylFloat PlaneFloat.
Open Scope R_scope.

(** What the surface (DD4hep) answers for a point with finite coordinates, in double
    precision.  For a point that is not finite the answers are not finite. *)
Record surface_d := SurfD { sd_distance : vec3 -> option R; sd_normal : vec3 -> option vec3 }.

Definition finite {A} (r : res A) : option A := match r with Ok a => Some a | _ => None end.

(** helixUtils.cc 708-712; aidaTT::mm is 0.1 (DD4hep: cm = 1) *)
Definition newton_eps_d : R := rnd (rnd (/ 1000) * rnd (/ 10)).
Definition alphaIncr_d : R := 10.
Definition alphaDecr_d : R := rnd (1 / alphaIncr_d).

(** State at the head of the loop.  [d_prevXX] is always the point computed for
    [d_prevS]; [d_prevS] is finite because only points with a finite distance become
    the previous point.  [alpha] stays far from overflow in 101 passes. *)
Record dstate := DS {
  d_s : option R; d_xx : option vec3; d_prevXX : option vec3; d_prevS : R; d_prevDist : R; d_alpha : R
}.

(** pointAt for a path length that need not be finite *)
Definition point_o (L : libm) (s : option R) (hp : vec5) (rp : vec3) : option vec3 :=
  match s with Some s => finite (pointAt_d L s hp rp) | None => None end.

(** helixUtils.cc 786-799: from the previous point [s], [xx] at distance [dist], the
    next path length *)
Definition newton_next_d (L : libm) (S : surface_d) (hp : vec5) (s : R) (xx : option vec3) (dist alpha : R) : option R :=
  match xx with
  | None => None
  | Some x =>
    match sd_normal S x with
    | None => None
    | Some n =>
      finite (dxxds <- calculateTangent_d L s hp ;;
              dDds <- vdot_d n dxxds ;;
              a <- rd (1 + alpha) ;;
              denom <- rd (a * dDds) ;;
              q <- rd_div dist denom ;;
              rd (s - q))
    end
  end.

(** One pass of the loop, helixUtils.cc 748-803, after the test of the counter: left by
    [break] (left) or continued (right). *)
Definition newton_step_d (L : libm) (S : surface_d) (hp : vec5) (rp : vec3) (st : dstate) : (R * vec3) + dstate :=
  let next prevS prevXX prevDist alpha :=
    let s := newton_next_d L S hp prevS prevXX prevDist alpha in
    inr (DS s (point_o L s hp rp) prevXX prevS prevDist alpha) in
  let stay := next (d_prevS st) (d_prevXX st) (d_prevDist st) (rnd (d_alpha st * alphaIncr_d)) in
  match d_s st, d_xx st with
  | Some s, Some x =>
    match sd_distance S x with
    | Some dist =>
      if Rlt_dec (Rabs dist) newton_eps_d then inl (s, x)
      else if Rlt_dec (Rabs dist) (Rabs (d_prevDist st)) then next s (Some x) dist (rnd (d_alpha st * alphaDecr_d))
      else stay
    | None => stay
    end
  | _, _ => stay
  end.

(** helixUtils.cc 729-804; [budget] as in Isect.v.  Left: [break]; right: [return 0]. *)
Fixpoint newton_loop_d (L : libm) (S : surface_d) (hp : vec5) (rp : vec3) (budget : nat) (st : dstate)
  : (R * vec3) + (R * option vec3) :=
  match budget with
  | O => inr (d_prevS st, d_prevXX st)
  | Datatypes.S budget' =>
    match newton_step_d L S hp rp st with
    | inl r => inl r
    | inr st' => newton_loop_d L S hp rp budget' st'
    end
  end.

(** helixUtils.cc 701-810.  Result: the answer and the values of [s] and [xx] at the
    end.  The product [mode * s] has the sign of the exact one (no underflow, as [mode]
    is an integer; an infinite product is positive or negative as well). *)
Definition intersectWithSurfaceNewton_d (L : libm) (S : surface_d) (surf : surface) (hp : vec5) (rp : vec3)
  (s : R) (mode : Z) (checkBounds : bool) : bool * (R * option vec3) :=
  let xx := finite (pointAt_d L s hp rp) in
  match newton_loop_d L S hp rp newton_budget (DS (Some s) xx xx s 10000000000 (rnd (/ 10000000000))) with
  | inr (s, xx) => (false, (s, xx))
  | inl (s, x) => (mode_ok mode s && bounds surf checkBounds x, (s, Some x))
  end.

(** helixUtils.cc 686-699.  [None]: the output parameters keep their values. *)
Definition intersectWithZCone_d (L : libm) (at2 : R -> R -> R) (as_ : R -> R) (S : surface_d) (surf : surface)
  (hp : vec5) (rp : vec3) (mode : Z) (checkBounds : bool) : res (bool * option (R * option vec3)) :=
  r <- intersectWithZCylinder_d L at2 as_ surf hp rp mode false ;;
  match r with
  | (true, Some (s, xx)) =>
    let r := intersectWithSurfaceNewton_d L S surf hp rp s mode checkBounds in Ok (fst r, Some (snd r))
  | (_, o) => Ok (false, match o with Some (s, xx) => Some (s, Some xx) | None => None end)
  end.
