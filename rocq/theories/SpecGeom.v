(** Notions used in the statements about surface types and the geometry. *)
From Coq Require Import Reals List Bool ZArith NArith Permutation Sorted.
From Verif Require Import Num Vec Isect Geom.
Import ListNotations.
Open Scope R_scope.

(** the set of properties of a surface type *)
Definition has (b : sbits) (p : N) : Prop := N.testbit b p = true.

(** the documented sorting value, before its conversion to float: the radius of
    a cylinder around the z axis, half the longer side of a disk, the larger
    radius of a cone around the z axis, otherwise the distance of the origin from
    the z axis *)
Definition sort_value (s : dsurface) (x : R) : Prop :=
  let t := sf_type (ds_surf s) in
  (if (st_cylinder t && st_parallelToZ t)%bool then exists c, sf_cyl (ds_surf s) = Some (x, c)
   else if (st_plane t && st_parallelToZ t)%bool then x = vtrans (sf_origin (ds_surf s))
   else if (st_plane t && st_orthogonalToZ t)%bool then x = Rmax (ds_length_u s) (ds_length_v s) / 2
   else if (st_cone t && st_parallelToZ t)%bool then exists r0 r1, ds_cone s = Some (r0, r1) /\ x = Rmax r0 r1
   else x = vtrans (sf_origin (ds_surf s))).

(** contract of std::sort with the comparison [sortSurfaces], a strict weak
    order on surfaces whose key is defined *)
Definition dsort_ok (srt : dsort) : Prop :=
  forall l, List.Forall (fun s => policy_defined s = true) l ->
    Permutation l (srt l)
    /\ StronglySorted (fun a b => sortSurfaces b a = Ok false) (srt l).

(** calls of the two accessors, with what they returned, oldest first *)
Inductive gcall := CFile (file : nat) | CInst.

Definition gstep (srt : dsort) (ld : loader) (w : gworld) (c : gcall) : gworld * res nat :=
  match c with CFile f => instanceFile srt ld w f | CInst => instance srt w end.

Inductive ghist (srt : dsort) (ld : loader) (d : detector) : list (gcall * res nat) -> gworld -> Prop :=
| gh_nil : ghist srt ld d [] (gw_start d)
| gh_snoc log w c w' r : ghist srt ld d log w -> gstep srt ld w c = (w', r) ->
    (exists a, r = Ok a) \/ r = Throw -> ghist srt ld d (log ++ [(c, r)]) w'.
