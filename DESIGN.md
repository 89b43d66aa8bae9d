# Formal model of aidaTT in Rocq: design

Subject: the C++ tracking toolkit aidaTT (`/repo`, read as text only).
Deliverable: a Rocq (Coq 8.16.1) model of the library functions in
`rocq/theories/` and theorems about it, one group per property of
`properties.jsonl`.  `MANIFEST.json` maps properties to theorem names.

## 1. Modelling conventions

* **Numbers.** C++ `double` is idealised as the real number type `R` of the
  standard library.  Rounding, overflow and signed zeros are *not* modelled,
  except in the files that say so (`FloatWrap*.v`, `LCIOFloat*.v`, `PointFloat.v`, `PathFloat.v`, `MoveFloat.v`,
  `DiskFloat.v`, `CylFloat.v`, `PlaneFloat.v`, `StartFloat.v`,
  `NewtonFloat.v`, `QmsFloat.v`, `BetheFloat.v`, `DispatchFloat.v`, `ProjFloat.v`,
  `FrameFloat.v`, `UCmp.v`), which use
  Flocq's IEEE formats.  `M_PI` is `PI`.
* **Leaving the real line.** Where the code performs an unguarded division by
  zero, square root of a negative number or `asin` outside [-1,1], the IEEE
  result is an infinity or a NaN.  The model makes that visible: such an
  operation yields the outcome `NonFin` instead of silently using Coq's total
  `/` and `sqrt`.  Where the code subsequently *tests* such a value, the model
  distinguishes infinity from NaN (type `xreal`).
* **Outcomes.** `res A := Ok a | Throw | UB | NonFin | Diverge`.  `Throw` is a C++
  exception, `UB` undefined behaviour (null dereference, out-of-range vector
  access, read of an uninitialised variable), `NonFin` as above.
* **Loops.** `while` loops are fuelled functions; running out of fuel is a
  distinct value and is excluded by theorem (or shown to be inevitable).
* **External components** (DD4hep surfaces and materials, magnetic field
  map, the GBL fitter, the propagator when used by the trajectory) are
  records of arbitrary functions; theorems quantify over them.  Where a
  theorem needs a contract of an external component it is an explicit
  hypothesis.
* **atan2** is defined from `atan` by the usual case split; `atan2 0 0 = 0`
  as in C.
* Every definition cites file and lines.  Logging output is not modelled.

## 2. Files

Model (one definition per C++ function, each citing file and lines):

| file | code | properties |
|---|---|---|
| `Num.v` | outcomes, guarded division/sqrt/log/power, `atan2`, fuelled wrapping loops | |
| `Vec.v` | `Vector3D.hh`, `Vector5.hh`, `fiveByFiveMatrix.hh`, `trackParameters.*`, `trackParameterizationLCIO.hh` | C25 |
| `VecObj.v` | `Vector3D` objects changed through `operator[]` | C64 |
| `Helix.v` | `helixUtils.*`: points, path length, start helix, `moveHelixTo`, momentum | C01-C11, C22, C30, C69, C72 |
| `FloatWrap.v` | the wrapping loops of `moveHelixTo` on IEEE doubles (Flocq) | C11 |
| `Isect.v` | `intersections.*`, surface intersections of `helixUtils.cc` | C12-C21, C51, C68, C69, C72 |
| `Trans.v` | `utilities.cc`: Jacobians, frame, projection, q/p | C23-C27, C52, C62 |
| `Propag.v` | `analyticalPropagation.cc`, `simplifiedPropagation.cc` | C28, C29, C53, C70 |
| `Material.v` | `materialUtils.cc` | C40, C54, C55 |
| `Traj.v` | `trajectory.cc`, `trajectoryElement.*` | C31-C39, C41, C56, C59-C61, C63, C65, C70, C71, C77, C79 |
| `Heap.v` | the same functions with the objects they allocate and delete | C42 |
| `Fit.v` | `GBLInterface.*`, `fitResults.hh` | C43-C45, C57, C58, C63, C66, C70, C77 |
| `FitHeap.v` | `GBLInterface.*`: objects made with `new` and freed with `delete`, any number of interfaces | C67 |
| `Geom.v` | `DD4hepGeometry.cc`, `AidaTTGeometry.hh` (`SurfaceType`) | C46, C47, C50 |
| `LCIO.v`, `LCIOFloat.v` | `LCIOPersistency.cc`, on the reals and on floats | C48, C49 |
| `PointFloat.v` | `helixUtils.cc`: points and directions along a track, in double precision | C78 |
| `PathFloat.v` | `helixUtils.cc`: path length to a point, in double precision | C88 |
| `MoveFloat.v` | `helixUtils.cc`: moveHelixTo without the covariance matrix, in double precision | C89 |
| `DiskFloat.v` | `helixUtils.cc`: intersectWithZDisk in double precision | C90 |
| `CylFloat.v` | `helixUtils.cc`: intersectWithZCylinder in double precision | C91 |
| `PlaneFloat.v` | `helixUtils.cc`: intersectWithZPlane and the circle of the track, `intersections.cc`: intersectCircleStraightLine in double precision | C92 |
| `StartFloat.v` | `helixUtils.cc`: calculateStartHelix in double precision, with `Vector3D.hh`: r, unit, cross | C93 |
| `NewtonFloat.v` | `helixUtils.cc`: intersectWithSurfaceNewton, intersectWithZCone in double precision | C94 |
| `QmsFloat.v` | `materialUtils.cc`: computeQMS for a crossing point in double precision, with `Vector3D.hh`: dot; the squared angle of `trajectory.cc` | C95 |
| `BetheFloat.v` | `materialUtils.cc`: computeBetheBloch, and computeEnergyLoss for a crossing point, in double precision | C96 |
| `DispatchFloat.v` | `helixUtils.cc`: intersectWithSurface in double precision | C97 |
| `ProjFloat.v` | `utilities.cc`: calculateLocalToMeasurementProjectionMatrix in double precision | C98 |
| `FrameFloat.v` | `utilities.cc`: calculateLocalCurvilinearSystem in double precision | C99 |
| `MomFloat.v` | `helixUtils.cc`: momentumAt, momentumAtPCA, `utilities.cc`: calculateQoverP in double precision | C100 |
| `JacFloat.v` | `utilities.cc`: perigeeToL3Jacobian, L3ToPerigeeJacobian, `simplifiedPropagation.cc`: getJacobian in double precision | C101 |
| `LineFloat.v` | `intersections.cc`: intersectStraightLineStraightLine in double precision | C102 |
| `CircFloat.v` | `intersections.cc`: intersectCircleCircle in double precision (up to the call for circle and line, see `PlaneFloat.v`) | C103 |
| `Refit.v` | `examples/lcio_tracks/lcio_tracks.cpp`: event loop, seed, preliminary fit, refit, output | C73-C77 |
| `RefitMain.v` | `lcio_tracks.cpp`: arguments, geometry, files | C86 |
| `MatScan.v` | `examples/material_effects/check_materials.cpp`, `material_ntuples.cpp`: material along a track from the origin | C80 |
| `MatEff.v` | `examples/material_effects/material_effects.cpp`: refit of single tracks | C81 |
| `DebugTracks.v` | `examples/lcio_tracks/lcio_debug_tracks.cpp`; LCIO's `BitField64` and the tracker encoding (5, 2, 9, 8, 8 bits) as in LCIO | C82 |
| `UTest.v` | `test/unitTests/UnitTest.*`, `UnitTestSuite.*`, `test/aidaTT-unitTests.cpp`: the test framework | C83 |
| `UCmp.v` | `test/unitTests/UnitTest.cc`: comparison of numbers, in single precision | C84 |
| `Small.v` | `examples/intersection_calculator`, `lcio_read_example`, `geometry_test` | C85 |

`Spec*.v`: notions used in statements, independent of the model's helpers
(`SpecConst.v` repeats every numeric threshold and physical constant).
`*Facts*.v`, `OffTrack.v`: proofs.  `TrajEx.v`: concrete trajectories.
`Prop*.v`: the theorems named in `MANIFEST.json`, each followed by
`Print Assumptions`, and examples that meet their hypotheses.

## 3. How each property is proved

* C01 spec: a curve given by start point and derivative (`is_derive`),
  uniqueness by the mean value theorem; omega=0 gives `NonFin`.
* C02 trigonometric identities; omega=0 branch characterised by iff.
* C03 algebra with sin/cos; minimality by squares, iff.
* C04 algebra plus `is_derive` of C01.
* C05/C06/C56 `atan2` lemmas: `atan2 (sin x) (cos x) = x` on (-pi,pi]; exact wrap.
* C07/C08/C09 closed form of the wrapped angles from the loop theorems, polar
  form of `atan2`; curve equality from trigonometric addition formulas.
* C10 algebra of F C F^T; partial derivatives of the closed form of the map
  with Coquelicot; sign mismatch per entry.
* C11 termination by Archimedean measure; divergence with Flocq rounding.
* C12-C14 real algebra (discriminant, Vieta).
* C15-C19 combine C05 with C12 / the closed form of the circle pair;
  completeness by uniqueness of common points of two circles.
* C20, C51 loop invariant over an arbitrary surface record; C21 case analysis.
* C22 inscribed-angle algebra with `atan2`.
* C23-C28 algebra on frames and 5x5 matrices.
* C29, C53 the Lorentz equation with a field in any direction; the Jacobian is the
  derivative along every differentiable family of motions, and such families exist
  (implicit function by an explicit crossing time).
* C30 algebra.  C52 derivative along families of helices.
* C31-C39, C41 state machine over a list of elements; induction over histories.
* C40, C54, C55 real analysis of the formulas.
* C42 heap of allocated cells; invariant over histories, and a refinement theorem
  relating it to the value model.
* C43-C45, C57, C58 state machine of the interface with an arbitrary fitter.
* C46, C47 state machine / sorted permutation.  C50 bit vectors as `N`.
* C48 exact arithmetic; C49 Flocq error analysis.
* C59 outcome analysis of every call.
* C60, C61 induction over histories with joint conditions between neighbours.
* C62 linear algebra of the crossing of a displaced line with a plane.
* C63 invariant over histories, composed with C43 and C60.
* C64 `atan2` lemmas; induction over operation sequences.
* C65 iff between accepted calls and a relation giving every field; provenance over histories.
* C66 chi2 of the points as a sum of squares along the chain of Jacobians; uniqueness of the
  zero; composed with C43, C62 and C63.
* C67 ownership invariant of the heap over histories; simulation of each interface by the
  single interface of `Fit.v`.
* C68 contraction bounds per pass of the damped search, induction over the passes; mean value
  theorem for the hypotheses.
* C69 both runs side by side, function by function; angles through addition formulas and the
  exact wrap of C06.
* C70 the same, for histories: an invariant between two trajectories, kept by every call; then
  the fitter is asked about equal points.
* C71 from the contents of elements (C65); induction over histories.
* C72 as C69; the cylinder through the two common points of the circles, taken in either order.
* C73 each step on the shared fit interfaces gives a value that does not depend on them;
  induction over tracks and events.
* C74 C22 and C08 for the three hits; arithmetic of the positions.
* C75 the loops of the program as histories of calls, so that C31-C65 apply; C43 for the result.
* C76 C31 for the first element, C48 for the state read back.
* C77 as C70: two runs side by side that may differ in covariances; the stall from C27 and
  induction over the passes.
* C78 forward error analysis with Flocq: each operation adds half a unit in the last place, sine
  and cosine pass errors on with factor one.
* C79 completeness of the closed-form searches (C15, C17, C19) at both points of one helix;
  induction over the entries, with the states on one helix (C60).
* C80 induction over the rows; crossings of a cylinder around the z axis are symmetric about the
  origin, so the search in both directions keeps the forward one; the tangent turns by at most
  the angle omega s.
* C81 as C73-C75, with the map of hits part of the state and empty after every event written.
* C82 bit by bit for the ids; the completeness lemmas of C15, C17, C19 for the nearest crossing.
* C83 a store of test objects and suites; induction over the tests of a suite, with the number of
  runs each test has had.
* C84 floats from 2^k on are multiples of 2^(k-23) (Flocq); error of one rounding.
* C85 completeness lemmas of C15, C17, C19 for the first crossing ahead; induction over events and
  hits.
* C86 C73 with the files around it; case analysis over the arguments.
* C87 derivatives of the change of q/p by an energy loss (Coquelicot), by q/p and by the thickness.
* C88 as C78, with atan2: a vector close to the unit circle has almost the right angle; x / sin x is
  1-Lipschitz up to half pi; distinct doubles differ by a relative 2^-54, so the last quotient does
  not underflow.
* C89 error propagation as in C78 through loops, square root and normalisation; the error of the
  computed sine times the sine is bounded, and the direction is used only in that combination or
  magnified by 1/|cos phi0|.
* C90 three roundings give the path length; rounding is monotonic, so the sign of the difference of
  heights is kept or becomes zero; the points are those of C78 and a helix moves at unit speed.
* C91 every intermediate result is compared with the exact one (`near`: bound on the size and on the error
  in units of it).  The power of a computed point with respect to the circle of the track (one half of the
  squared distance to the centre less the squared radius, times the curvature; linear for a line) is
  bounded, and with it the distance to the track.  Path lengths are those of C88.
* C92 the discriminant is compared with the exact one, which says on which side the extreme points of the
  circle are; the points found are put back into the equations of the line and of the circle.  Two points of a
  line that are both on the circle and a third one: the product of the distances is the difference of the powers.
* C93 unit vectors, sine, cosine and radius are compared with those of the exact triangle; the azimuth is the
  angle of the vector from the first hit to the centre over the squared radius.  The slope needs the half angle
  over its sine, which is a Lipschitz function.  The exact parameters are those of C22.
* C94 induction over the passes of the loop, with the list of the path lengths visited: the previous point is the best
  of the list, the damping a power of ten up to rounding.  Numbers that are not finite do not stop the program, so
  numbers are options there.  Convergence: as C68, each step shrinks the computed distance by a factor that includes
  the rounding errors.
* C95 relative errors of positive numbers (`RelFacts.v`), operation by operation; the cosine between track and normal can
  cancel, its error is absolute, and relative only over the cosine.
* C96 relative errors for the positive factors, absolute ones for the logarithms and the density effect.  The density
  effect is continuous and Lipschitz in the decimal logarithm of momentum over mass, so a rounded logarithm that falls
  into another case of it does no harm.
* C97 case distinction over the flags of the surface, then C90, C91, C92 and C94.
* C98 error bounds step by step; the determinant is the product of the two normals (Binet-Cauchy).
  Finding: a track exactly along the plane of the directions need not be reported; the matrix then has entries of 10^15 and more.
* C99 as C78 for the frame; then C98 and the change of an inverse under a small change of the frame.
* C100 signed relative errors of products and quotients; the azimuth as in C78; cos(atan t) = 1/sqrt(1+t^2) makes the error of the cosine relative.
* C101 as C100; a change in z that underflows or cancels does no harm, since one is added to its square.
* C102 Cramer's rule with error bounds; the discriminant changes its sign exactly when the lines are exchanged.
* C103 error bound of the offset of the common line, then the comparisons of the line's constructor. Finding: two circles that cross in
  two points throw in one of the two orders (C103_order), also in double precision.

## 4. Trusted base

* Coq 8.16.1 kernel.
* `coqchk -o -norec` over all modules of `_CoqProject` reports no axioms but those of Coq's standard library, and no
  switched-off checks (the libraries themselves were not rechecked).
* Axioms reported by `Print Assumptions` (printed in the build log under each
  theorem): only axioms of the standard library:
  `ClassicalDedekindReals.sig_forall_dec`, `ClassicalDedekindReals.sig_not_dec`,
  `FunctionalExtensionality.functional_extensionality_dep` (all three come with the
  real numbers) and, where Coquelicot's or the library's classical lemmas
  are used, `Classical_Prop.classic`.  Theorems without real numbers (C46, C47 on
  lists, C50) list none or fewer.
* The reading of the C++ source documented at each definition.

Modelled: all functions of `util/src` (except `simpleFits.cc_IGNORE`, which is not
compiled), `core/src/trajectory.cc`, `core/src/trajectoryElement.cc`,
`core/src/trackParameters.cc`, `propagations/src`, `fittingAlgorithms/src/GBLInterface.cc`,
`geometry/src/DD4hepGeometry.cc`, `persistency/src/LCIOPersistency.cc`, the inline
functions of their headers; of the programs, `examples/lcio_tracks/lcio_tracks.cpp` from the
event loop on, `lcio_debug_tracks.cpp`, `intersection_calculator`, `lcio_read_example`,
`geometry_test`, `examples/material_effects/*.cpp` (without ROOT output)
and `test/aidaTT-unitTests.cpp`; the test framework of `test/unitTests` (not the tests
themselves, which are arbitrary lists of steps in C83).

Not modelled: rounding, overflow and signed zeros (except C11, C47, C49, C78, C84, C88, C89, C90, C91, C92, C93, C94, C95, C96, C97, C98, C99, C100, C101, C102, C103); stream output
and logging (except C83); the stub `AidaTT.hh/.cc`; `IBField`/`ConstantSolenoidBField` (the
field is an arbitrary function); the private, unused copy constructor and assignment of
`trajectory`; GBL's Millepede output; the internals of GBL, DD4hep, LCIO, Eigen
and ROOT, which appear as arbitrary functions or records with the contracts
stated as hypotheses (`env_ok`: the sorts sort; `wf_surface`: a surface typed as cylinder has
cylinder data; `labels_from_one`, `unbiased`, `least_squares_at`: the fitter), except LCIO's
`BitField64` and tracker encoding (C82), which are written down from LCIO and trusted; the unit
tests themselves; the program `gbl_example` (not compiled); the file access of LCIO (C86 trusts its
interface: which calls throw, which replace a file), and printing and ROOT output of the material scans.

## 5. Findings

Behaviour of the code that differs from what its interface suggests, each proved:

* C06 `calculateSfromXY` is wrong by whole turns once the azimuth leaves (-3 pi, 3 pi];
  for straight tracks it is 0 for every point (or not finite).
* C09 moving in several steps may differ from the direct move in z0 by whole pitches.
* C10 in the covariance transport of `moveHelixTo` the entries linking d0 with the other
  parameters have the opposite sign of the true derivatives.
* C11 the wrapping loops do not terminate on large doubles.
* C12/C15 a near miss gives a success with a point that is not finite.
* C13/C14 exactly one of the two argument orders throws (circles) or reports (lines).
* C15 planes whose normal points to the origin are replaced by their mirror image.
* C15/C16/C19 straight tracks get no correct path length from plane, cylinder and disk
  intersections; tracks with tan lambda = 0 get no finite path length from a disk.
* C22 the start helix need not meet the second and third point in space; collinear
  projections give no finite parameters.
* C24 a single measurement direction is rejected for some regular configurations.
* C25 `Unit()` does nothing; hence C35 the first Jacobian is the zero matrix and
  C28 straight-line and simplified Jacobians start from what was there before.
* C26 `L3ToPerigeeJacobian` is transposed with respect to `perigeeToL3Jacobian`.
* C27/C44 the fitted azimuth correction is lost: C52 exactly three entries of
  `curvilinearToL3Jacobian` are wrong, (phi0,phi) being 0 instead of 1; for d0 other than 0 also its terms in d0 are missing.
* C28 at q/p = 0 in a field the straight-line matrix misses the change of azimuth with q/p.
* C28 the simplified propagation ignores the dip and a unit factor.
* C30 in a negative field momenta point backwards.
* C31 ties; C34/C56 path lengths of points off the track.
* C33 for disks and cones crossed beyond half a turn the stored z0 is -k pitches and the
  trajectory misses the recorded point.
* C35 the Jacobian of the second element starts from path length zero.
* C36 energy and beta are read uninitialised when the surface is missed.
* C38 repeated intersection queries accumulate; second crossings are missed.
* C40 scattering of a surface without thickness is not finite; the Highland formula is
  negative below exp(-1000/38) radiation lengths.
* C41 one-dimensional scattering measurements get the scattering angle as the
  weight of a second measurement.
* C42 four objects leak when a projection throws, one when the propagator throws.
* C43 results are always flagged valid, computed at query time from the current
  trajectory; queries before a fit are undefined.
* C46 `instance(file)` after `instance()` replaces the object; the old one is never freed.
* C48 the location of a track state is lost.
* C51 the Newton step overshoots by 1/cos(lambda); hence C68 for dip angles around 60 degrees
  (58.3-59.9 and 60.4-62.9 for disks) the search gives up a few cm from the surface, and cones
  that are crossed are reported as missed.
* C54 the density effect is subtracted in full instead of half, so that
  fast particles gain energy.
* C57 results are those of the previous point; the last element's are out of range.
* C58 fitting without preparation, or with a measurement without precision, is
  undefined.
* C61 with energy loss the step Jacobian uses q/p after the loss.
* C62 the projection matrix handed to the fitter is transposed; C66 the fit of hits of a
  displaced track finds the displacement where the projection is symmetric, and it is
  reported for the following element.
* C64 out-of-range writes to a `Vector3D` share one variable.
* C69 plane crossings depend on where the coordinate origin is (a plane shifted across it is
  lost) and, at equal distance in mode 0, on the handedness; the points of a straight track do
  not turn along.
* C70 path lengths are counted from the coordinate origin, and the first Jacobian of a
  prepared trajectory uses that count, so it changes if the setup is shifted across z.
* C71 a state loses less energy than the material takes: the momentum is scaled by 1 - dE/E,
  so it drops by beta dE instead of dE/beta.
* C72 a crossing at path length 0 counts as ahead, never as behind, and of two equally far
  crossings the nearest-crossing search takes the one ahead.
* C73 tracks of fewer than three hits are written as empty tracks although announced as dropped.
* C74 a track of exactly three hits uses its last hit twice for the start helix and ends in
  numbers that are not finite.
* C75 hits are matched to surfaces modulo 2^32, and of several hits with the same cell number the
  last wins; the output lists and counts hits that were not used; failed fits are written with the
  parameters of the seed; a seed that crosses nothing is undefined.
* C76 the state written has the origin as reference point even if its parameters refer to another.
* C77 the covariance of the start parameters, "large errors" included, is copied to all elements
  and used nowhere; a fit that corrects the azimuth only never moves, however often repeated.
* C78 `pointAt` subtracts nearly equal sines and multiplies by the radius: for tracks so straight
  that the turning angle is lost next to the azimuth it returns the point of closest approach for
  every path length.  `calculateXfromS` and `calculateYfromS` do not have this problem.
* C79 a listed disk at the height of the last element is refused, a listed cylinder or vertical
  plane through it is accepted: the searches differ on whether path length 0 counts as forward.
* C80 a surface of thickness zero makes the summed material undefined from there on (0/0); the
  second search of the scans may take a crossing behind the origin for planes; without a crossed
  surface the detailed table has no finite end points; one missing angle is not noticed.
* C81 a strip hit (second error zero) gets the squared scattering angle as precision of the other
  direction; events with several tracks are missing in the output; tracks are written although the
  fit failed; started as its usage says, with two arguments, the program reads beyond `argv`; all
  elements have the address of a variable that no longer exists as id.
* C82 outside the vertex detector the surface of a hit whose cell number has bit 31 set is not
  found (sign extension); layer 511 of the vertex detector throws; a missing state at the last hit
  is dereferenced.
* C83 the test program returns 0 whatever fails, so a build script never notices; `addSuite`
  asserts on the wrong suite: undefined for an empty one, and it never ends for the suite itself;
  adding a test or a suite clears results; a test in a suite twice is counted twice in every
  report and deleted twice by `free`.
* C84 the comparison with tolerance 1e-9 is made in single precision: from 1/64 on it is equality
  of the rounded numbers.  The tests cannot see an error in the ninth digit, and may fail for
  doubles that differ in the twelfth.
* C85 `intersection_calculator` never reads the file it is given and works with the detector that
  is in memory (none); `lcio_read_example` dereferences a null pointer for every hit without
  surface, among them all hits whose cell number has bit 31 set if the ids of surfaces are not
  negative, and builds a string from a null pointer if there is only one argument.
* C86 with two or more than three arguments `lcio_tracks` replaces `aidaTT_tracks.slcio`, even if it
  is the input; it cannot be run on its own output.
* C87 the energy-loss entry of the Jacobians, 1 + 2 dE/(beta^2 E), is to first order the derivative of
  neither the update of q/p that the trajectory applies (1 + (1 + beta^2) dE/E) nor of the change in
  nature (1 + (3/beta^2 - 1) dE/E) unless the particle is massless; hits not marked as scattering
  lose energy too but their Jacobian has a 1 there.
* C88 `calculateSfromXY` compares an angle with zero: for straight tracks the result is 0 or the right
  path length, depending on the last bit of `atan2(sin phi0, cos phi0)`.  In exact arithmetic it is
  always 0 (C06), so the path lengths seen on real machines come from rounding.
* C89 `moveHelixTo` takes the sine as sqrt((1-cos)(1+cos)).  For tracks along y (phi0 near +-pi/2) half
  of the digits are lost: azimuth pi/2 + 2^-27 becomes pi/2 on a move to the same reference point and
  the track is displaced by radius * 2^-27 in y (a tenth of a micrometer for 10 m).  `std::sin` would
  not have that loss.  Everywhere else the move is right to some hundred units in the last place.
* C90 `intersectWithZDisk` adds the reference height and z0 before the difference to the disk is taken.  The
  rounding of that sum, divided by tan lambda, is the error of the path length; a disk closer than that is
  found neither with mode 1 nor with mode -1.  It is never found on the wrong side.
* C91 `intersectWithZCylinder` decides by gamma > 1 whether there is a crossing.  A track that touches the
  cylinder is lost if gamma is rounded up (a track that starts on the cylinder, tangentially, with curvature
  3*2^-55, is not found in any mode), and a straight track that passes outside by 2^-60 of the radius is given
  a crossing.  Crossings that are deeper than the rounding error are all found.
* C92 `intersectWithZPlane` works with the circle of the track: positions are good to some hundred times 2^-53 of
  the *radius*, however short the distances are.  An almost straight track (radius 2^60) from
  (0,60,0) along x is found at the plane x = 1 at y = 0.  Exactly straight tracks are a circle of radius zero at
  the origin and never found.  Touching planes give coordinates that are not numbers, with the answer true.
* C93 `calculateStartHelix` has no case for straight tracks: three hits that are not on a line, but nearly, can give a
  computed sine of zero and with it parameters that are not numbers; (0,0), (3,4), (45,60+2^-47) do.  For collinear
  hits that survive, the curvature is noise of 84*2^-53 over the distance of the last two hits.
* C94 `intersectWithSurfaceNewton` moves along the track with `pointAt`, which does not move for a track that is
  straight up to rounding (C78): a track of radius 2^70 cm that crosses a plane 512 cm away at an angle is not found.
  Exactly straight tracks are never found, as the points are not numbers.  A division by zero (track parallel to the
  surface at the start) is survived; the answer is no, with the start, after 101 passes.
* C95 `computeQMS` divides by the cosine between track and normal without a guard: for a track that grazes the surface the
  computed cosine can be zero although the exact one is not (momentum (3,-4,0), normal the doubles nearest to
  (0.8,0.6,0)); the angle is then not finite.  A surface without material has no finite angle (0/0).
* C96 `computeEnergyLoss` for a particle without mass is never finite (division by the mass).  `computeQMS` and
  `computeEnergyLoss` differ for surfaces without material: the angle is not a number (C95), the loss is exactly zero.
