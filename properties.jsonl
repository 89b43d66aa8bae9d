{"id": "C01", "title": "pointAt traces the helix defined by the five track parameters", "statement": "For every track with non-zero curvature, pointAt(s) is, for all real s, the unique space curve that starts at the point of closest approach (reference point + d0*(-sin phi0, cos phi0), height ref.z+z0) and whose derivative with respect to s is (cos(phi0-omega s), sin(phi0-omega s), tan lambda). For zero curvature the function never yields a finite point although the curve (a straight line) exists.", "quantifier": "all five-parameter vectors, all reference points, all real arc lengths s", "why_tests_cant": "The claim identifies a whole curve over a continuum of arc lengths and parameters; sampling points cannot show that the derivative is right everywhere nor that the zero-curvature branch has no good input.", "anchors": ["util/src/helixUtils.cc:pointAt", "core/include/trackParameterizationLCIO.hh"]}
{"id": "C02", "title": "calculateX/Y/ZfromS agree with pointAt and with the straight-line limit", "statement": "For every track with non-zero curvature the three coordinate functions calculateXfromS, calculateYfromS, calculateZfromS return exactly the coordinates of pointAt(s). For zero curvature x and z describe the straight line through the PCA with direction phi0, whereas y is off by s (cos phi0 - sin phi0), so that it is right only if s=0 or cos phi0 = sin phi0.", "quantifier": "all parameter vectors, reference points and arc lengths", "why_tests_cant": "An identity between two different trigonometric expressions for all arguments; a test that only uses phi0=pi/4 or omega<>0 cannot see the wrong branch.", "anchors": ["util/src/helixUtils.cc:calculateXfromS", "util/src/helixUtils.cc:calculateYfromS", "util/src/helixUtils.cc:calculateZfromS", "util/src/helixUtils.cc:pointAt"]}
{"id": "C03", "title": "Circle centre, radius and PCA are geometrically consistent", "statement": "For every track with non-zero curvature calculateRadius is 1/|omega| and all points of the helix are at this transverse distance from (calculateXCenter, calculateYCenter); for zero curvature all three are 0. The PCA (calculateX0, calculateY0) is the start of the track, at transverse distance |d0| from the reference point, and no point of the track is closer to the reference point in the transverse plane if and only if omega*d0 <= 1.", "quantifier": "all parameter vectors, all reference points, all points of the track", "why_tests_cant": "Minimality of a distance over all points of a curve, and the exact boundary omega*d0 = 1, quantify over infinitely many points.", "anchors": ["util/src/helixUtils.cc:calculateRadius", "util/src/helixUtils.cc:calculateXCenter", "util/src/helixUtils.cc:calculateYCenter", "util/include/helixUtils.hh:calculateX0", "util/include/helixUtils.hh:calculateY0"]}
{"id": "C04", "title": "calculateTangent is the unit direction of motion", "statement": "For every track and every s calculateTangent returns a vector of length one, with transverse part along (cos(phi0-omega s), sin(phi0-omega s)); it equals cos(lambda) times the derivative of pointAt with respect to s, i.e. the derivative with respect to three-dimensional path length.", "quantifier": "all parameter vectors and arc lengths", "why_tests_cant": "Unit length and derivative claims hold for a continuum of inputs.", "anchors": ["util/src/helixUtils.cc:calculateTangent", "util/src/helixUtils.cc:pointAt"]}
{"id": "C05", "title": "calculateSfromXY inverts pointAt within half a turn", "statement": "For every track with omega<>0 and |phi0| <= 2 pi, calculateSfromXY applied to the transverse coordinates of pointAt(s) returns s, for every s with |omega s| < pi. At exactly half a turn the result is not finite. For a point that is not on the track no such guarantee is made.", "quantifier": "all parameter vectors with omega<>0 and |phi0|<=2pi, all reference points, all s within half a turn", "why_tests_cant": "A round trip through atan2, branch corrections and a removable 0/0 singularity for every input.", "anchors": ["util/src/helixUtils.cc:calculateSfromXY", "util/src/helixUtils.cc:calculatePhifromXY", "util/src/helixUtils.cc:pointAt"]}
{"id": "C06", "title": "calculateSfromXY has a bounded validity region in phi0 and fails for straight tracks", "statement": "For a point of the track within half a turn, calculateSfromXY returns its path length if and only if the azimuth phi0 - omega s of the direction lies in (-3 pi, 3 pi]; otherwise it is wrong by a non-zero number of whole turns, and not finite at s = 0. At exactly half a turn it is not finite. For zero-curvature tracks it is 0 for every point if phi0 is in (-3 pi, 3 pi] and not finite otherwise, so arc lengths of straight tracks are lost.", "quantifier": "all parameter vectors, all points of the track within half a turn", "why_tests_cant": "It is a statement about the complement of the valid domain, for all points of the track.", "anchors": ["util/src/helixUtils.cc:calculateSfromXY"]}
{"id": "C07", "title": "moveHelixTo does not change the track", "statement": "For every track with omega<>0 and every new reference point, moveHelixTo keeps omega and tan lambda, stores the new reference point, and the moved parameters describe the same space curve: pointAt(moved,s) = pointAt(original, s - fid/omega) for all s, where fid is the returned turning angle and |fid| <= pi; the new phi0 lies in [-pi,pi].", "quantifier": "all parameter vectors with omega<>0, old and new reference points, all s", "why_tests_cant": "Equality of two infinite curves after a chain of atan2, sqrt, sign choices and 2-pi wrapping loops, including corner angles.", "anchors": ["util/src/helixUtils.cc:moveHelixTo", "util/src/helixUtils.cc:pointAt"]}
{"id": "C08", "title": "After moveHelixTo, d0 is the true signed distance of closest approach", "statement": "For every track with omega<>0 and every new reference point, after moveHelixTo the transverse distance from the new reference point to every point of the track is at least |d0|, it is reached at s=0, and |d0| = | |centre - reference| - radius |. Its sign is that of omega exactly if the new reference point lies inside the circle, omega*d0 being 1 - |omega| |centre - reference|, with or without covariance. If the new reference point lies on the track then d0 = 0, and z0 = 0 if it is less than half a turn from the old point of closest approach.", "quantifier": "all parameter vectors with omega<>0, all old/new reference points, all points of the track", "why_tests_cant": "Minimality over a continuum and over every relative position (inside, outside, on the circle, at the centre).", "anchors": ["util/src/helixUtils.cc:moveHelixTo"]}
{"id": "C09", "title": "moveHelixTo round trip and path (in)dependence", "statement": "Moving a helix with omega*d0<1 to another reference point and back restores omega, tan lambda, d0, the azimuth direction (cos phi0, sin phi0), and, if less than half a turn lies between the two PCAs, z0. Moving in several steps agrees with moving directly in all parameters except z0, which may differ by a whole number of pitches 2 pi tan(lambda)/omega.", "quantifier": "all parameter vectors, all chains of reference points", "why_tests_cant": "Quantifies over arbitrary chains of moves; individual chains never show the whole-pitch ambiguity systematically.", "anchors": ["util/src/helixUtils.cc:moveHelixTo"]}
{"id": "C10", "title": "Covariance transport of moveHelixTo versus the derivative of the parameter map", "statement": "When covariance update is requested, the new covariance is F C F^T; it is symmetric / positive semidefinite whenever the old one is, and the parameter part of the result does not depend on the covariance or the flag. F is not the Jacobian of the parameter map: its entries linking d0 with the other parameters carry the opposite sign of the true partial derivatives (the formulas are for -d0), so the transported correlations of d0 with other parameters have the wrong sign.", "quantifier": "all parameter vectors with omega<>0, reference points and covariance matrices", "why_tests_cant": "Comparison with partial derivatives of a composed map at every point; a numeric test at one point cannot show the sign error is systematic.", "anchors": ["util/src/helixUtils.cc:moveHelixTo", "core/include/fiveByFiveMatrix.hh"]}
{"id": "C11", "title": "Angle-wrapping loops of moveHelixTo terminate on the reals but not on doubles", "statement": "Over the reals every wrapping loop of moveHelixTo ends after finitely many iterations with the angle in the stated interval. With IEEE double arithmetic the loop 'while(fi0 > 2 pi) fi0 -= 2 pi' never ends for any finite input phi0 above 2^56, because the subtraction rounds back to the same value.", "quantifier": "all real angles; all finite double-precision angles above 2^56", "why_tests_cant": "Non-termination cannot be observed by a finite test, and termination must hold for every starting angle.", "anchors": ["util/src/helixUtils.cc:moveHelixTo"]}
{"id": "C12", "title": "Circle / straight line intersection is sound and complete", "statement": "For every circle and line, every point returned by intersectCircleStraightLine lies on both when the discriminant is not negative; when the discriminant exceeds 1e-9 exactly the two distinct common points are returned; when it is below -1e-9 there is no common point and nothing is returned; when it is in [-1e-9,0) a non-finite point is returned although no common point exists.", "quantifier": "all circles with non-negative radius and all lines accepted by the constructors", "why_tests_cant": "Completeness ('no other common point') and the behaviour in a 1e-9 wide band quantify over all inputs.", "anchors": ["util/src/intersections.cc:intersectCircleStraightLine", "util/include/intersections.hh:circle", "util/include/intersections.hh:straightLine"]}
{"id": "C13", "title": "Circle / circle intersection: soundness and dependence on argument order", "statement": "Whenever intersectCircleCircle returns finite points, each lies on both circles, and for discriminant above 1e-9 all common points are returned. The call throws for concentric circles, and for every pair of circles whose centres differ by at least 5e-13 in x or y and whose radical-axis offset is non-zero exactly one of the two argument orders throws, so the operation is not symmetric. The outcomes are exhaustive when no exception is thrown: discriminant D > 1e-9 gives both common points; 0 <= D <= 1e-9 gives one common point, the only one exactly if D = 0; -1e-9 <= D < 0 gives one point that is not finite; D < -1e-9 gives none.", "quantifier": "all pairs of circles", "why_tests_cant": "An argument-order asymmetry for every pair of circles; a unit test picks one order.", "anchors": ["util/src/intersections.cc:intersectCircleCircle", "util/src/intersections.cc:straightLine::straightLine"]}
{"id": "C14", "title": "Line / line intersection: soundness and missed intersections", "statement": "A point returned by intersectStraightLineStraightLine lies on both lines and is their only common point. For every pair of non-parallel lines with |determinant| >= 1e-9 exactly one of the two argument orders reports the intersection, the other reports none.", "quantifier": "all pairs of lines", "why_tests_cant": "For-all soundness plus an order asymmetry that holds for every pair.", "anchors": ["util/src/intersections.cc:intersectStraightLineStraightLine"]}
{"id": "C15", "title": "intersectWithZPlane returns a point on the helix and on the plane", "statement": "For a plane parallel to z whose signed offset origin*normal is non-negative, a true result of intersectWithZPlane (|phi0|<=2pi, omega<>0, not exactly at half a turn) gives xx = pointAt(s) lying on the plane. If origin*normal is negative the returned point lies on the mirror plane -d instead, i.e. never on the given surface. The call throws if and only if the normal has no transverse part (both components below 1e-12). All other outcomes for a curved track are classified by the margin to tangency and the half-turn case, including success or failure with a point that is not finite. A straight track misses every plane with (origin*normal)^2 > 1e-9; for a plane through the origin it gets the point on the beam line with path length 0.", "quantifier": "all tracks, all z-parallel planes, all modes", "why_tests_cant": "The sign convention of the normal is a property of every surface; tests with outward normals never see the mirrored case.", "anchors": ["util/src/helixUtils.cc:intersectWithZPlane", "util/src/intersections.cc:intersectCircleStraightLine"]}
{"id": "C16", "title": "intersectWithZCylinder returns a point on the helix and on the cylinder", "statement": "For a z-parallel cylinder with positive radius, if intersectWithZCylinder returns true then xx is at transverse distance radius from the cylinder axis and xx = pointAt(s) for the returned s (|phi0|<=2pi, |omega s|<pi, omega<>0). It throws if and only if the surface is not a z-parallel cylinder. A straight track (phi0 in (-3pi,3pi]) that meets the cylinder is missed in backward mode; otherwise it gets the transverse position of the first crossing of the line, at the height of its start and with path length 0.", "quantifier": "all tracks, all z-parallel cylinders, all modes and bound flags", "why_tests_cant": "Soundness of a closed-form trigonometric solution for every input.", "anchors": ["util/src/helixUtils.cc:intersectWithZCylinder"]}
{"id": "C17", "title": "Cylinder intersection is complete and picks the first crossing", "statement": "For every track with omega<>0 and |phi0|<=2pi and every z-parallel cylinder not centred on the helix axis and not crossed exactly at half a turn: with mode +1 and no bounds check the call returns true exactly when the helix crosses the cylinder at some s in [0, pi/|omega|), and the returned s is the smallest such s; with mode -1 the same for the largest negative s.", "quantifier": "all tracks, all cylinders, all crossing points within half a turn", "why_tests_cant": "'No earlier crossing exists' quantifies over all points of the track.", "anchors": ["util/src/helixUtils.cc:intersectWithZCylinder", "util/src/helixUtils.cc:calculateSfromXY"]}
{"id": "C18", "title": "Mode semantics of the intersection functions", "statement": "If an intersection function returns true with mode +1 the path length is not negative, with mode -1 it is not positive, and with mode 0 its absolute value is minimal among the candidate solutions (up to 1e-4 cm for cylinders). If it returns true with the bounds check enabled, the surface reports the returned point as inside its bounds.", "quantifier": "all surfaces, tracks, modes and candidate pairs", "why_tests_cant": "Selection logic over all combinations of signs and values of two path lengths.", "anchors": ["util/src/helixUtils.cc:intersectWithZCylinder", "util/src/helixUtils.cc:intersectWithZPlane", "util/src/helixUtils.cc:intersectWithZDisk", "util/src/helixUtils.cc:intersectWithSurfaceNewton"]}
{"id": "C19", "title": "intersectWithZDisk", "statement": "For a disk at height z and a track with tan lambda <> 0 and omega<>0, a true result gives xx = pointAt(s) with xx.z equal to the disk height, and that s is the only arc length at which the helix reaches this height. With tan lambda = 0 no finite path length is produced. For omega = 0 the x and z of the point are those of the track at s, and its y is off by s (cos phi0 - sin phi0).", "quantifier": "all tracks, disks and modes", "why_tests_cant": "Uniqueness over all arc lengths; division by zero on a whole class of tracks.", "anchors": ["util/src/helixUtils.cc:intersectWithZDisk"]}
{"id": "C20", "title": "Newton intersection: termination, soundness, best-effort on failure", "statement": "intersectWithSurfaceNewton stops after at most 101 distance evaluations for every surface; a true result has |distance(xx)| < 1e-3 mm, xx = pointAt(s) and a path length compatible with mode; when the iteration limit is reached it returns false and the reported (s,xx) satisfies xx = pointAt(s) and, unless the first distance is 1e10 or more, is the visited point of smallest absolute distance.", "quantifier": "all distance/normal functions (arbitrary surfaces), all tracks, start values and modes", "why_tests_cant": "The surface is an arbitrary function; loop invariants and termination hold for all of them.", "anchors": ["util/src/helixUtils.cc:intersectWithSurfaceNewton"]}
{"id": "C21", "title": "Surface dispatch of intersectWithSurface", "statement": "intersectWithSurface uses the cylinder, plane, disk or cone algorithm according to the first matching type bit combination in that order, returns false without modifying s and xx for any other type, and for cones never reports success unless the cylinder step succeeded and the final point is within tolerance of the surface. For cones Newton's iteration starts from the path length of the cylinder step, and a failure of the cylinder step is returned unchanged.", "quantifier": "all surface type bit patterns, tracks and modes", "why_tests_cant": "All bit patterns and all surfaces; 'outputs untouched' is a frame property.", "anchors": ["util/src/helixUtils.cc:intersectWithSurface", "util/src/helixUtils.cc:intersectWithZCone"]}
{"id": "C22", "title": "calculateStartHelix passes through the three points", "statement": "For any three points whose transverse projections are pairwise distinct and not collinear, the helix from calculateStartHelix starts (s=0) at the first point with d0=z0=0, its transverse circle contains all three projections, its tangent turns in the direction 1 -> 2 -> 3 (reversed if backward), and its slope reproduces the height difference of points 2 and 3 over the arc between them. Collinear projections give no finite parameters.", "quantifier": "all non-collinear point triples, both directions", "why_tests_cant": "A geometric theorem about all triples (inscribed angle), including which arc is chosen.", "anchors": ["util/src/helixUtils.cc:calculateStartHelix", "util/src/helixUtils.cc:calculateXCenter", "util/src/helixUtils.cc:calculateYCenter"]}
{"id": "C23", "title": "Local curvilinear frame is orthonormal and right handed", "statement": "For every track and s the two vectors of calculateLocalCurvilinearSystem together with calculateTangent form an orthonormal right-handed basis; the first vector is horizontal.", "quantifier": "all parameter vectors and arc lengths", "why_tests_cant": "An identity over a continuum of inputs.", "anchors": ["util/src/utilities.cc:calculateLocalCurvilinearSystem", "util/src/helixUtils.cc:calculateTangent"]}
{"id": "C24", "title": "Local-to-measurement projection is the exact inverse, or an exception", "statement": "For one or two measurement directions calculateLocalToMeasurementProjectionMatrix either throws invalid_argument, exactly when the 2x2 matrix of scalar products (using for one direction a substitute second direction orthogonal to the measurement direction) is singular, or returns its exact inverse; for any other number of directions it throws. The substitute second direction is fixed by the measurement direction alone.", "quantifier": "all direction lists (any length) and all frames", "why_tests_cant": "Covers every list length and all degenerate direction configurations.", "anchors": ["util/src/utilities.cc:calculateLocalToMeasurementProjectionMatrix"]}
{"id": "C25", "title": "fiveByFiveMatrix algebra and Unit()", "statement": "Matrix product is associative, transposition is an involution and reverses products, matrix-vector product is compatible with the matrix product, and the vector constructor is row-wise. Unit() leaves every matrix unchanged; it produces the identity only for matrices that already are the identity. Products, transposes and matrix-vector products are the sums of entries one expects.", "quantifier": "all 5x5 matrices and 5-vectors", "why_tests_cant": "Algebraic laws for all entries; the no-op Unit() is only visible when the matrix is not already the identity.", "anchors": ["core/include/fiveByFiveMatrix.hh", "core/include/Vector5.hh"]}
{"id": "C26", "title": "perigeeToL3 and L3ToPerigee Jacobians", "statement": "perigeeToL3Jacobian is the derivative of the documented coordinate change (omega=-kappa, tanLambda=tan(pi/2-theta), phi0=phi, d0=-epsilon, z0=z_p) at the track's theta. L3ToPerigeeJacobian is not its inverse for any track: the product of the two is never the identity; it is the transpose of the derivative of the inverse change, with its inputs in the order omega, phi0, d0, z0, tanLambda.", "quantifier": "all tracks", "why_tests_cant": "Derivative claim at every point; the inverse relation fails for every input, not just for a sample.", "anchors": ["util/src/utilities.cc:perigeeToL3Jacobian", "util/src/utilities.cc:L3ToPerigeeJacobian"]}
{"id": "C27", "title": "curvilinear-to-L3 transformation ignores the fitted azimuth correction", "statement": "For every track and magnetic field with finite Jacobian, the azimuth column of curvilinearToL3Jacobian is zero: changing only the azimuth component of the curvilinear correction never changes the fitted track parameters, and the matrix is singular.", "quantifier": "all tracks, fields and correction vectors", "why_tests_cant": "States that an output is independent of an input for all inputs.", "anchors": ["util/src/utilities.cc:curvilinearToPerigeeJacobian", "util/src/utilities.cc:curvilinearToL3Jacobian", "core/include/fiveByFiveMatrix.hh:Unit"]}
{"id": "C28", "title": "Analytical propagation Jacobian: identity, energy-loss term, composition", "statement": "In a field with q/p<>0 the analytical Jacobian over a zero step with equal directions and no energy loss is the identity; its first row is (1+energyLoss,0,0,0,0) for a fresh matrix and the energy loss changes nothing else; and for steps along one motion in a constant field of any direction the Jacobian of the combined step is the product of the Jacobians of the two steps. In the straight-line case (q/p=0 or no field) the matrix computed from a freshly created one is never invertible and is zero, not the identity, for a zero step; the simplified propagation always gives a singular matrix. Filled into a unit matrix the straight-line result is the derivative of the transport without field; the simplified one writes exactly four entries and without field is that derivative only for steps of length zero or horizontal tracks. In a field the straight-line matrix at q/p=0 is not the derivative: it has no change of azimuth with q/p.", "quantifier": "all step lengths, directions with non-vanishing transverse part, momenta and fields", "why_tests_cant": "A semigroup law over all pairs of steps.", "anchors": ["propagations/src/analyticalPropagation.cc", "propagations/src/simplifiedPropagation.cc"]}
{"id": "C29", "title": "Analytical propagation Jacobian is the derivative of helical transport", "statement": "In a constant field of any direction the 5x5 matrix of analyticalPropagation is the derivative of the map from curvilinear coordinates (q/p, lambda, phi, x_t, y_t) at the start to those at the plane orthogonal to the end direction, along exact solutions of the Lorentz equation.", "quantifier": "all start directions with non-zero transverse component, all q/p<>0, all steps", "why_tests_cant": "Derivative of a flow for every parameter value.", "anchors": ["propagations/src/analyticalPropagation.cc"]}
{"id": "C30", "title": "Momentum and q/p are consistent", "statement": "For Bz>0 and omega<>0: momentumAt(s) is parallel to calculateTangent(s), has the same length |1/(q/p)| for all s with q/p = calculateQoverP, and momentumAt(0) = momentumAtPCA. For Bz<0 the returned momentum points opposite to the direction of motion. For Bz=0 it is the zero vector while q/p is 0. The components are pt cos(phi), pt sin(phi), pt tanLambda with pt = c Bz/|omega| and phi = phi0 - omega s.", "quantifier": "all tracks, arc lengths and field values", "why_tests_cant": "Relation between several functions over all inputs, including the field sign never used in tests.", "anchors": ["util/src/helixUtils.cc:momentumAt", "util/src/helixUtils.cc:momentumAtPCA", "util/src/utilities.cc:calculateQoverP", "core/include/aidaTT-Units.hh"]}
{"id": "C31", "title": "Trajectory elements stay ordered in arc length", "statement": "After any sequence of addMeasurement / addScatterer / prepareForFitting / getIntersectionsWithSurfaces / setMass calls on a new trajectory, the element list is ordered by non-decreasing arc length; it is empty or contains exactly one element without surface (neither measurement nor scatterer, with the reference parameters), in front of all others, except that prepareForFitting may put elements of the same arc length before it. A call adds at most one element besides the initial one.", "quantifier": "all histories of calls, all surfaces, hits and parameters", "why_tests_cant": "Invariant over call histories of any length.", "anchors": ["core/src/trajectory.cc:addMeasurement", "core/src/trajectory.cc:addScatterer", "core/src/trajectory.cc:prepareForFitting", "core/src/trajectory.cc:addElement"]}
{"id": "C32", "title": "trajectoryElementAt returns the valid element", "statement": "For a non-empty trajectory with ordered elements and s >= -1e99, trajectoryElementAt(s) is the last element whose arc length is <= s, or the first element if there is none. For s < -1e99 it returns the last element instead of the first. On an empty trajectory the call has undefined behaviour.", "quantifier": "all ordered element lists of any length, all s", "why_tests_cant": "List length and arc lengths are unbounded.", "anchors": ["core/src/trajectory.cc:trajectoryElementAt", "core/src/trajectory.cc:pointAt", "core/src/trajectory.cc:tangentAt"]}
{"id": "C33", "title": "Recorded intersection points lie on the trajectory", "statement": "For every element added by addMeasurement or addScatterer at a crossing within half a turn of the previous element, evaluating the trajectory at the element's arc length gives the intersection point with the surface that was computed when it was added, and the state stored with the element has d0=0 and z0=0 there. Crossings of cylinders and planes parallel to z are always within half a turn. For disks and cones reached after k turns the stored z0 is -k pitches and the trajectory misses the recorded point.", "quantifier": "all histories of calls, all surfaces, non-zero curvature, |phi0| <= 2 pi", "why_tests_cant": "Invariant over histories relating several functions.", "anchors": ["core/src/trajectory.cc:addMeasurement", "core/src/trajectory.cc:addScatterer", "core/src/trajectory.cc:pointAt", "util/src/helixUtils.cc:moveHelixTo"]}
{"id": "C34", "title": "The initial element is inconsistent unless the reference track's PCA belongs to the origin", "statement": "The first element of every trajectory stores the unmoved initial parameters together with the arc length calculateSfromXY(0,0), so trajectory::pointAt(s) on the first segment is the initial helix evaluated at s - s_first; for a track with dip it equals the initial helix at s only if s_first = 0 (for example when the reference point is on the z axis and omega*d0 < 1). s_first is the path length of the track point nearest to the z axis times the distance of the axis from the circle centre in units of the radius.", "quantifier": "all initial parameters with omega<>0", "why_tests_cant": "Exact condition under which two curves coincide.", "anchors": ["core/src/trajectory.cc:addElement", "core/src/trajectory.cc:pointAt"]}
{"id": "C35", "title": "prepareForFitting sorts and sets every Jacobian exactly once, and is undefined on an empty trajectory", "statement": "On a non-empty trajectory prepareForFitting permutes the elements into non-decreasing arc-length order, leaves all other element data unchanged, and gives each element a Jacobian: the zero matrix for the first, the propagator's result for the others, with the step from the previous element (for the second element: from arc length 0, whatever the arc length of the first). Repeating the call gives the same trajectory unless elements of equal arc length are exchanged by the sort. On an empty trajectory it has undefined behaviour.", "quantifier": "all element lists and propagators", "why_tests_cant": "Permutation and frame properties for all lists.", "anchors": ["core/src/trajectory.cc:prepareForFitting", "core/include/trajectoryElement.hh:setJacobian"]}
{"id": "C36", "title": "prepareForFitting can read uninitialised energy/beta", "statement": "If a scattering element's stored state has no in-bounds intersection with its own surface, prepareForFitting computes the energy-loss term from uninitialised variables. This state is reachable: a scattering measurement added outside the surface bounds, for which addMeasurement deliberately skips the bounds check.", "quantifier": "all histories that add an out-of-bounds scattering measurement", "why_tests_cant": "Undefined behaviour does not show up reliably in any test run.", "anchors": ["core/src/trajectory.cc:prepareForFitting", "util/src/materialUtils.cc:computeEnergyLoss", "core/src/trajectory.cc:addMeasurement"]}
{"id": "C37", "title": "A rejected hit leaves the trajectory unchanged", "statement": "If addMeasurement returns false (or addScatterer finds no crossing), the element list is exactly the previous one, except that on an empty trajectory the initial element has been added; the reference parameters never change.", "quantifier": "all trajectories, surfaces and hits", "why_tests_cant": "Frame property over all states.", "anchors": ["core/src/trajectory.cc:addMeasurement", "core/src/trajectory.cc:addScatterer"]}
{"id": "C38", "title": "getIntersectionsWithSurfaces: sorted, bounded, but accumulating", "statement": "The returned list is ordered by s, every new entry has 0 <= s < pi*radius and belongs to a surface that was passed in, and every surface searched in closed form (cylinder along z, vertical plane not nearly touched by the track, disk) occurs in a fresh trajectory's list exactly if the first crossing ahead within half a turn is in bounds, at that crossing; a surface whose first crossing is out of bounds is left out even if the second crossing in the range is in bounds. A second call on the same trajectory returns the union with all earlier results (duplicates included) rather than the intersections of the surfaces passed in. For zero curvature nothing is ever found.", "quantifier": "all surface lists and call histories", "why_tests_cant": "List lengths and histories are unbounded.", "anchors": ["core/src/trajectory.cc:getIntersectionsWithSurfaces"]}
{"id": "C39", "title": "Energy-loss update of the curvature", "statement": "Adding a surface to a trajectory multiplies omega by 1/(1-dE/E): the sign of omega is kept exactly if dE < E, |omega| does not decrease if 0 <= dE < E, and with dE = 0 omega is unchanged; tan lambda, phi0, d0, z0 are those of the moved helix.", "quantifier": "all energy losses and tracks", "why_tests_cant": "For-all claim including the sign flip beyond the physical range.", "anchors": ["core/src/trajectory.cc:addMeasurement", "core/src/trajectory.cc:addScatterer", "util/src/materialUtils.cc:computeEnergyLoss"]}
{"id": "C40", "title": "Scattering and energy-loss formulas", "statement": "For non-negative thicknesses and positive radiation lengths computeQMS is Highland's width for the momentum and the path in radiation lengths (sum of both layers over |cos| of the crossing angle), and it is finite exactly if there is material, momentum, and the track does not graze the surface; the width is positive exactly above exp(-1000/38) radiation lengths. The energy returned by computeEnergyLoss satisfies energy > mass and 0 < beta < 1 with energy^2 = p^2 + m^2; the loss is the sum of both material contributions and scales with 1/|cos| of the crossing angle. For a track that meets the surface, momentum and angle are those of the helix at the crossing point for either sign of the field; without a crossing angle and loss are 0.", "quantifier": "all materials, thicknesses, momenta and angles", "why_tests_cant": "Scaling and bound laws over all inputs.", "anchors": ["util/src/materialUtils.cc:computeQMS", "util/src/materialUtils.cc:computeEnergyLoss", "util/src/materialUtils.cc:computeBetheBloch"]}
{"id": "C41", "title": "Precision vector seen by the fit for one-dimensional scattering measurements", "statement": "For a measurement with two precisions the fit receives exactly these; for a one-dimensional non-scattering measurement the second direction receives precision 0; but for a one-dimensional measurement that is also a scatterer the second direction receives the squared scattering angle as precision, i.e. a spurious measurement with non-zero weight whenever the angle is non-zero.", "quantifier": "all precision values and surfaces", "why_tests_cant": "Holds for all values; shows only in combination of two flags.", "anchors": ["core/src/trajectory.cc:addMeasurement", "core/src/trajectoryElement.cc:trajectoryElement", "fittingAlgorithms/src/GBLInterface.cc:fit"]}
{"id": "C42", "title": "Memory ownership of trajectory elements", "statement": "After every history of additions and prepareForFitting calls, including calls that throw, destroying the trajectory frees every object the elements own exactly once, touches nothing that was there before, and frees no bad pointer. If no call threw, nothing is left (Jacobians replaced by repeated prepareForFitting included). An addition that throws because the track runs in the plane of the measurement directions leaves the parameters, the direction list, the frame and the projection vector of the element under construction behind for ever; an addition that throws because its surface is unusable leaves nothing; a preparation whose propagator throws leaves one Jacobian. At every moment the pointers of the elements are distinct, live, of the right type, and null exactly where the element has nothing.", "quantifier": "all environments, all call histories with any outcome of each call, all contents of the memory before", "why_tests_cant": "Leak and double-free freedom over histories of any length.", "anchors": ["core/src/trajectory.cc", "core/src/trajectoryElement.cc", "core/include/trajectoryElement.hh", "util/src/utilities.cc:calculateLocalToMeasurementProjectionMatrix"]}
{"id": "C43", "title": "Fit results are cached per fit and never stale", "statement": "After fit, getResults(label) returns a result computed from what the fitter reports for the latest fit, and from the trajectory as it is at the first query of that label since that fit; repeated queries with the same label return the same, unchanged object; a new fit, also one that throws, discards all earlier results for good; no result is leaked. Calling getResults before any fit, after a fit that threw, after the trajectory was destroyed, or with a label that is not an element index, is undefined behaviour (unless cached). Results carry the flag 'valid' even if the fit failed, and their number of degrees of freedom is the fitter's modulo 2^32.", "quantifier": "all histories of fit and getResults calls, all labels", "why_tests_cant": "Staleness is a property of histories.", "anchors": ["fittingAlgorithms/src/GBLInterface.cc", "fittingAlgorithms/include/GBLInterface.hh"]}
{"id": "C44", "title": "Fit result parameters and covariance", "statement": "The result at a label has the reference point of the element's state, parameters equal to the element's parameters plus the transformed correction (unchanged parameters if the fitter reports an error for the label), and a covariance J C J^T that is symmetric and positive semidefinite whenever the fitter's covariance is. The third entry of the correction (azimuth) never enters the result.", "quantifier": "all corrections, covariances and tracks", "why_tests_cant": "Positive semidefiniteness quantifies over all directions.", "anchors": ["fittingAlgorithms/src/GBLInterface.cc:_fillResults"]}
{"id": "C45", "title": "Scatterer precision handed to the fitter", "statement": "For every scattering element of a trajectory built through the public interface the fitter receives the 2x2 matrix I/theta^2 (theta the multiple-scattering angle), independent of the other entries of the precision vector; it is positive definite when theta<>0 and not finite when theta=0 or theta is not finite. For general direction cosines the formula is the inverse of the covariance of the two slopes. The variance and the two direction cosines are the last three entries of the precision vector, in this order.", "quantifier": "all scattering angles and precision vectors", "why_tests_cant": "Index arithmetic from the end of a vector of unbounded length.", "anchors": ["fittingAlgorithms/src/GBLInterface.cc:fit", "core/src/trajectory.cc:addScatterer", "core/src/trajectory.cc:addMeasurement"]}
{"id": "C46", "title": "Geometry singleton", "statement": "Once a geometry instance exists, instance() returns the same object until the first instance(file), and one and the same object after it. At most one file is ever loaded. If instance() was called before the first instance(file), the latter replaces the global object, so references obtained earlier denote a different geometry, which is never freed. The field is that of the detector description in force (the loaded file's once a file is loaded, for every reference), in units of tesla.", "quantifier": "all call histories of the two accessors", "why_tests_cant": "History property.", "anchors": ["geometry/src/DD4hepGeometry.cc:IGeometry::instance", "geometry/src/DD4hepGeometry.cc:getBField"]}
{"id": "C47", "title": "Surface list of the geometry is a sorted permutation", "statement": "getSurfaces returns each surface of the detector exactly as often as the detector lists it, ordered by the documented sorting value (cylinder radius, plane origin radius, half the larger disk side, larger cone radius) after conversion of that value to float. Two surfaces can be out of the exact order only if their values convert to the same float, and such detectors exist.", "quantifier": "all detector surface lists", "why_tests_cant": "Unbounded lists.", "anchors": ["geometry/src/DD4hepGeometry.cc:getSortingPolicy", "geometry/src/DD4hepGeometry.cc:DD4hepGeometry"]}
{"id": "C48", "title": "LCIO conversion round trip", "statement": "Converting a track state to track parameters and back is the identity on all five parameters, the reference point and all fifteen covariance entries (exact arithmetic); converting parameters to a track state and back is the identity exactly for symmetric covariance matrices, otherwise the upper/lower entries that are not read are lost.", "quantifier": "all track states and track parameters", "why_tests_cant": "A permutation of 15 indices with unit factors for all values.", "anchors": ["persistency/src/LCIOPersistency.cc"]}
{"id": "C49", "title": "LCIO round trip in floating point", "statement": "With float32 storage and double arithmetic, reading a track state and writing it back reproduces every float32 parameter, reference-point coordinate and covariance entry bit for bit, for all finite float32 values.", "quantifier": "all finite float32 values, subnormal ones included, and all unit constants in [1/16,16]", "why_tests_cant": "2^32 values per entry with two roundings each; needs an error-analysis argument.", "anchors": ["persistency/src/LCIOPersistency.cc"]}
{"id": "C50", "title": "SurfaceType bit semantics", "statement": "isSimilar is reflexive and transitive and holds exactly if every property set in the other type is set in this one; setting properties in any order gives the same type; isZCylinder/isZPlane/isZDisk are exactly the conjunctions of the named properties; for a unit normal and epsilon <= 1/2, checkParallelToZ and checkOrthogonalToZ are never both true. Setting a property number of 32 or more throws. The seven properties are different bits below 32: setting or clearing one changes the query of that property only.", "quantifier": "all bit patterns and property numbers, all unit normals", "why_tests_cant": "2^32 bit patterns and a continuum of normals.", "anchors": ["core/include/AidaTTGeometry.hh:SurfaceType"]}
{"id": "C51", "title": "The Newton step overshoots by 1/cos(lambda)", "statement": "intersectWithSurfaceNewton divides the distance by normal*tangent with the unit tangent in space although s is the transverse path length. For every surface z = h each pass that improved the distance multiplies it by 1 - 1/((1+alpha) cos lambda), instead of nearly 0; for steep tracks with (1+alpha) cos lambda <= 1/2 the pass increases the distance.", "quantifier": "all tracks with curvature, all surfaces of constant height, all visited states", "why_tests_cant": "The damping hides the error: the search still converges for most tracks, only slower; the exact factor holds for every state and every dip angle.", "anchors": ["util/src/helixUtils.cc:intersectWithSurface (Newton)", "util/src/helixUtils.cc:calculateTangent"]}
{"id": "C52", "title": "Curvilinear-to-L3 Jacobian against the true derivative", "statement": "For a field along z, curvilinearToL3Jacobian should be the derivative of the track parameters (omega, tan lambda, phi0, d0, z0) with respect to the curvilinear coordinates (q/p, lambda, phi, x_t, y_t) at the reference point. For a track with d0=0 the computed matrix agrees with it except in three entries: (omega,lambda) has the opposite sign, (phi0,phi) is 0 instead of 1, and (phi0,y_t) has the opposite sign if the field is positive. For a track with another d0 the computed matrix is that of d0=0, so that in addition (phi0,y_t) lacks the factor 1/(1-omega*d0), (z0,phi) is 0 and (z0,y_t) is 1/cos lambda: a change of the azimuth of a curved, not horizontal track with d0 not 0 moves z0, but not in the computed matrix.", "quantifier": "all track parameters with 1-omega*d0 not 0 (for the derivative also omega not 0), all non-zero field strengths along z", "why_tests_cant": "A derivative identity over a continuous family of tracks; a numeric test only samples it.", "anchors": ["util/src/utilities.cc:curvilinearToPerigeeJacobian", "util/src/utilities.cc:curvilinearToL3Jacobian"]}
{"id": "C53", "title": "The helix is the motion of a charged particle", "statement": "The curve described by the track parameters, parametrised by the length in space, solves the Lorentz equation in a field along z for a particle with the charge over momentum of calculateQoverP, with the direction of calculateTangent.", "quantifier": "all track parameters, reference points and non-zero field strengths along z (either sign)", "why_tests_cant": "A differential equation at every point of every track.", "anchors": ["util/src/utilities.cc:calculateQoverP", "util/src/helixUtils.cc:calculateTangent"]}
{"id": "C54", "title": "Energy loss per length (Bethe-Bloch)", "statement": "For positive density, Z, A, mass and momentum computeBetheBloch is the Bethe-Bloch formula with a density correction and a continuous function of momentum although it is computed by cases. The code subtracts the full density effect where the published formula subtracts half of it; therefore for every material there is a momentum above which the 'loss' is negative, while the published formula stays positive.", "quantifier": "all materials with positive constants, all masses and momenta", "why_tests_cant": "Continuity and the asymptotic sign concern infinitely many momenta; tests sample a few.", "anchors": ["util/src/materialUtils.cc:computeBetheBloch"]}
{"id": "C55", "title": "Azimuth from coordinates is the direction of the track", "statement": "For a point of the helix at path length s, calculatePhifromXY returns an angle in (-pi, pi] whose sine and cosine are those of phi0 - omega s, for straight tracks too.", "quantifier": "all track parameters, reference points and path lengths", "why_tests_cant": "An identity over a continuum, including the branch cut of atan2.", "anchors": ["util/src/helixUtils.cc:calculatePhifromXY"]}
{"id": "C56", "title": "Path length of a point off the track", "statement": "For a point (x,y) other than the centre of the track circle, and |phi0| <= 2 pi, calculateSfromXY returns lam*sigma, where f(sigma) is the track point nearest to (x,y) (if it is less than half a turn away, |omega sigma| < pi) and lam is the distance of (x,y) from the centre in units of the radius. It is the path length of the nearest point only for points on the circle or on the ray through the point of closest approach.", "quantifier": "all helices with omega<>0 and |phi0| <= 2 pi, all points of the plane", "why_tests_cant": "Tests evaluate the function on points of the track, where the factor is 1; the error for other points is a statement over the whole plane.", "anchors": ["util/src/helixUtils.cc:calculateSfromXY", "core/src/trajectory.cc:addElement"]}
{"id": "C57", "title": "Labels of fit results are off by one", "statement": "GBL numbers its points from one, aidaTT indexes its elements from zero with the same label: the result for label k+1 adds the correction that the fitter found at element k to the parameters of element k+1, and the label of the last point has no result (undefined behaviour).", "quantifier": "all trajectories, fits and labels, given that the fitter numbers its points from one", "why_tests_cant": "Holds for every trajectory length and all corrections; a test with vanishing corrections passes.", "anchors": ["fittingAlgorithms/src/GBLInterface.cc:_fillResults", "core/include/trajectory.hh:getFitResults"]}
{"id": "C58", "title": "When a fit is defined, and what it hands over", "statement": "For a trajectory built through the public interface the fit hands over one point per element, in order, with the element's Jacobian, first two residuals and first two precisions. It never throws. It is defined exactly if every element has a Jacobian and every measurement at least two stored precisions: in particular after prepareForFitting if every measurement was added with a precision; not after a further addition, and never again after a measurement without precisions on a surface that does not scatter. trajectory::fit and getFitResults are the calls of the fitter, and undefined if the trajectory was given none.", "quantifier": "all call histories", "why_tests_cant": "Undefined behaviour over histories of any length.", "anchors": ["fittingAlgorithms/src/GBLInterface.cc:fit", "core/src/trajectory.cc:prepareForFitting", "core/src/trajectory.cc:addMeasurement", "core/src/trajectoryElement.cc"]}
{"id": "C59", "title": "Which calls throw", "statement": "intersectWithSurface throws exactly for a surface typed z-cylinder that is no cylinder, for a plane parallel to z whose normal has both transverse components below 1e-12, and for a cone that is not parallel to z or is no cylinder, whatever the helix, the mode and the bounds. addMeasurement and addScatterer throw exactly if the surface is unusable or the track arrives at the surface (after energy loss) with its direction in the plane of the two measurement directions; in either case the trajectory is as before, except that the initial element now exists. prepareForFitting throws, after any history of calls, only if the propagator throws.", "quantifier": "all environments, helices, surfaces, trajectories and call histories", "why_tests_cant": "Absence of exceptions, and presence exactly under a geometric condition, over all surfaces, tracks and histories.", "anchors": ["util/src/helixUtils.cc:intersectWithSurface", "core/src/trajectory.cc", "core/src/trajectoryElement.cc", "util/src/utilities.cc:calculateLocalToMeasurementProjectionMatrix"]}
{"id": "C60", "title": "The trajectory is a smooth curve", "statement": "Although made of many helices, of different curvature after energy loss, the trajectory pointAt is one continuously differentiable curve, and tangentAt is its unit direction, also at the joints. Through surfaces without material it is the initial helix, counted from the path length of the initial element, whatever is added and however ties are sorted.", "quantifier": "all curved reference tracks with |phi0| <= 2 pi, all histories of calls that stay within half a turn (with material: where preparations keep the order of the elements, as they do if the path lengths differ or the sort is stable), all path lengths from -1e99 on", "why_tests_cant": "Continuity and differentiability at every path length, after every history; tests sample points.", "anchors": ["core/src/trajectory.cc:pointAt", "core/src/trajectory.cc:tangentAt", "core/src/trajectory.cc:addMeasurement", "core/src/trajectory.cc:addScatterer", "core/src/trajectoryElement.cc", "util/src/helixUtils.cc:moveHelixTo"]}
{"id": "C61", "title": "Jacobians along the trajectory are the derivative of the transport", "statement": "In a constant field along z, through surfaces without material and with the analytical propagator, prepareForFitting gives every element after the first the exact derivative of the Lorentz transport of curvilinear coordinates along the trajectory from the element before it (for the second element: from path length zero). The product of consecutive Jacobians is the derivative of the transport between any two elements. The preparation fails only where the energy-loss term of a scattering element is undefined.", "quantifier": "all curved reference tracks with |phi0| <= 2 pi, all histories of calls that stay within half a turn, all pairs of elements", "why_tests_cant": "Derivative of a flow between all pairs of elements after every history.", "anchors": ["core/src/trajectory.cc:prepareForFitting", "propagations/src/analyticalPropagation.cc", "core/src/trajectory.cc:tangentAt"]}
{"id": "C62", "title": "What a displaced track does to the measurement", "statement": "A track displaced by (x, y) in the curvilinear frame of an element meets the plane of a measurement at one point, whose coordinates are obtained with the transpose of the matrix that calculateLocalToMeasurementProjectionMatrix returns; the matrix itself, which the fitter applies to (x, y), gives them exactly if m.V = n.U, so for a vertical plane only for horizontal tracks or tracks that cross it orthogonally in the transverse plane, and for a disk measuring x and y only for tracks in the y-z plane. For a measurement on a flat surface, measured minus crossed position of every displaced track is the stored residual minus the transposed stored projection applied to the displacement.", "quantifier": "all frames, measurement directions and displacements; all additions of measurements on flat surfaces to any trajectory", "why_tests_cant": "The matrix is right for tracks at normal incidence, the usual test; the claim is about all directions and displacements.", "anchors": ["util/src/utilities.cc:calculateLocalToMeasurementProjectionMatrix", "core/src/trajectory.cc:addMeasurement", "fittingAlgorithms/src/GBLInterface.cc:fit"]}
{"id": "C63", "title": "Hits on the track give back the track", "statement": "If every hit has the local coordinates of the point where the track, as continued from the last element, crosses its surface, the fitter receives zero residuals only, with or without material and for every history of calls; with a fitter that makes no correction when there is nothing to correct, every result is the reference state of its element, whatever the fitter's error code. Through surfaces without material the fitted state at every element describes the reference helix itself, counted from the element's path length.", "quantifier": "all reference tracks, all histories of additions and preparations, all histories of fits and queries, all labels", "why_tests_cant": "A closure property over all tracks, geometries and call histories, from addMeasurement through the fit to the results.", "anchors": ["core/src/trajectory.cc:addMeasurement", "core/src/trajectory.cc:prepareForFitting", "fittingAlgorithms/src/GBLInterface.cc:fit", "fittingAlgorithms/src/GBLInterface.cc:_fillResults"]}
{"id": "C64", "title": "Vector3D coordinates and element access", "statement": "The cylindrical and the spherical coordinates of every vector give the vector back and lie in the usual ranges; coordinates handed to the constructors are read back exactly if they lie in these ranges. unit() is the parallel vector of length one, not finite for the zero vector. After any sequence of element writes, assignments and fills on any number of vectors, a coordinate reads as the value last written to it (through copies); an index other than 0, 1, 2 reads zero on const vectors, whereas on others it refers to one variable shared by all vectors: such writes never change a vector, and such reads give the value last written out of range to any vector.", "quantifier": "all vectors, coordinates and indices; all sequences of operations on any number of vectors", "why_tests_cant": "Quantifies over all real coordinates with their branch cuts and over operation sequences of any length.", "anchors": ["core/include/Vector3D.hh:Vector3D"]}
{"id": "C65", "title": "What an element of a trajectory contains", "statement": "addMeasurement (addScatterer) accepts a call exactly if all the quantities that define the new element exist, and appends exactly this element: path length of the intersection with the surface, track parameters moved to the crossing with q/p after the energy loss (taken with the mass and momentum at the time of the call), measurement directions, residual, precisions (with the scattering variance where the surface scatters), projection, id and surface. The contents are determined by the call and the trajectory. After any history the trajectory holds the initial element and the elements made by the accepted calls, each once and unchanged up to order and Jacobians; reference parameters and propagator are those of the constructor, the mass is the one last set or that of the pion.", "quantifier": "all trajectories, all calls, all call histories of any length", "why_tests_cant": "Every field of every element over unbounded call histories, with the state at the time of each call.", "anchors": ["core/src/trajectory.cc:addMeasurement", "core/src/trajectory.cc:addScatterer", "core/src/trajectory.cc:addElement", "core/src/trajectoryElement.cc", "core/src/trajectory.cc:setMass"]}
{"id": "C66", "title": "What the fit makes of a displaced track", "statement": "Let the points handed to GBL have finite weights that are not negative and finite scattering matrices, let the residuals of all points be those that one displaced track (local parameters carried from point to point by the stored Jacobians, seen through the stored projections) predicts, and let no other displacement predict the same in the components with a positive weight. Then a fitter that returns the minimum of the chi2 of these points where it is unique finds the displacement at every point, with chi2 zero and whatever the weights; the interface reports chi2 zero and, for label k+1, the reference state of element k+1 plus the displacement at element k transformed to track parameters. With hits exactly on the track the reported state is the reference state. A hit where a displaced track crosses a flat surface gives residuals that are predicted by the displacement through the transposed of the stored projection; they agree with those GBL predicts only if the displacement does not feel the antisymmetric part of the projection.", "quantifier": "all lists of points, all displacements, all weights; all histories of fits and queries; all trajectories and measurement calls", "why_tests_cant": "Quantifies over all minimisers and displacements and over all call histories; a test compares single fits.", "anchors": ["fittingAlgorithms/src/GBLInterface.cc:fit", "fittingAlgorithms/src/GBLInterface.cc:_fillResults", "core/src/trajectory.cc:addMeasurement", "util/src/utilities.cc:calculateLocalToMeasurementProjectionMatrix"]}
{"id": "C67", "title": "Memory of fit interfaces", "statement": "In a program with any number of GBLInterface objects, constructed, used and destroyed in any order, where each call returned or left by an exception: (1) each interface behaves as if it were alone: its calls have the outcomes they would have for a single interface with the same calls, and its results are there as long as they would be there, and are freed when it is destroyed; (2) destroying an interface that exists is always defined, and a fit is undefined only if the interface or the trajectory does not exist or the conversion of the trajectory to points is undefined, so that nothing is freed twice; (3) the objects that are allocated are exactly one Mille record per existing interface, one GBL trajectory with the points of the latest fit per existing interface whose latest fit returned, and the results handed out by existing interfaces since their latest fit; (4) once all interfaces are destroyed nothing is left; (5) no call on one interface changes a result obtained from another; the next fit, successful or not, and the destruction of an interface free all results obtained from it before.", "quantifier": "all histories of construction, fits, queries and destruction of any number of interfaces, all trajectories and fitters", "why_tests_cant": "A test follows single call sequences; leaks and double deletion depend on the order of calls, exceptions included.", "anchors": ["fittingAlgorithms/src/GBLInterface.cc:GBLInterface", "fittingAlgorithms/src/GBLInterface.cc:~GBLInterface", "fittingAlgorithms/src/GBLInterface.cc:fit", "fittingAlgorithms/src/GBLInterface.cc:_fillResults", "fittingAlgorithms/src/GBLInterface.cc:_clear", "fittingAlgorithms/include/GBLInterface.hh:getResults"]}
{"id": "C68", "title": "When the Newton search reaches the surface", "statement": "intersectWithSurfaceNewton divides by the change of the distance per length in space where the change per transverse path length is meant, so with k = 1/cos(lambda) its steps are too long by the factor k. (1) Where the track f stays on a set of path lengths on which the distance changes at least with a rate g > 0 and is linear up to M times the square of the path, and with e = M d0 k^2 / g^2 for the start distance d0 < 10^10 cm: if k - 1 + e <= q, 10^-11 + e <= q < 1 and d0 q^100 < 10^-4 cm, the search returns a point of the track closer than 10^-4 cm to the surface, reports it as an intersection exactly if its sign fits the mode and it is within the bounds (if asked for), and any crossing s' nearby (2 M |s' - s| <= g) is closer than 2*10^-4 / g; if k + e < 2, p <= k/(1 + 10^-11) - 1 - e and d0 p^100 >= 10^-4 cm, it reports no intersection. (2) If steps with the damping 10^(j-12) are rejected and those with 10^(j-11) are accepted (1 <= j <= 99), the same holds with the factor |1 - k/(1 + 10^(j-11))| plus or minus e, and 1 + (99 - j)/2 steps in place of 100. (3) These hypotheses hold near every crossing at which the rate is not zero, for a plane of any direction in particular. A plane is reached if k <= 1.7, the start is no more than 10^5 cm away and the track bends little on the way. A disk is reached from anywhere closer than 10^10 cm for k <= 1.7, from closer than 10^9 cm for 2.2 <= k <= 3; for 1.901 <= k <= 1.999 the search gives up from every start more than 4 cm away, for 2.02 <= k <= 2.199 from every start more than 1 cm away. (4) Claimed by a user: a cone that the track crosses within a tenth of a radian is found. This is false: there is a cone and a track from the origin that crosses it, with k = 17/8 and a start less than 6 cm away, that intersectWithSurface reports as missed.", "quantifier": "all surfaces and tracks satisfying the stated geometric conditions, all start values, modes and bounds checks; (3) all planes and all disks; (4) a witness", "why_tests_cant": "Whether an iteration with adaptive damping converges depends on the dip angle and the start distance in bands; sampled tracks do not show that a whole band of polar angles fails, nor that the others always succeed.", "anchors": ["util/src/helixUtils.cc: intersectWithSurfaceNewton, intersectWithZCone, intersectWithSurface, calculateTangent"]}
{"id": "C69", "title": "Results do not depend on the frame or on the handedness of the setup", "statement": "Take a motion of space that keeps the field direction: an optional mirror at the x-z plane, then any turn about the z axis, then any shift. Move the track (curvature, azimuth and d0 change sign in a mirror, the azimuth turns along), the reference point and the surfaces together. (1) The moved curve is the helix of the moved parameters, and pointAt, momentumAt, momentumAtPCA, calculateTangent, calculateRadius, calculateX0/Y0 and, for tracks with curvature, calculateXfromS/YfromS/ZfromS and calculateXCenter/YCenter give the moved answer; calculateSfromXY gives the same path length for every point off the axis of the helix as long as the azimuth stays within one turn of zero. (2) intersectWithSurface gives the same verdict, path length and moved point for cylinders, disks, cones and other surfaces, for every mode and with or without bounds; for vertical planes with a unit normal the same holds for every turn and for every shift that is along the plane or leaves the coordinate origin behind the plane. (3) moveHelixTo to any point off the axis gives the same turning angle (opposite in a mirror), the moved parameters up to whole turns of the azimuth and the moved covariance; in a mirror the turning angle must not be exactly half a turn. calculateStartHelix gives the moved helix up to whole turns, or fails alike. (4) Three exceptions, each with a witness: a plane shifted across the coordinate origin together with the track is missed; with mode 0 a track that crosses a plane equally far ahead and behind gets the crossing ahead, its mirror image the one behind; for a track without curvature calculateXfromS/YfromS do not turn along.", "quantifier": "all motions, tracks, reference points, covariances, path lengths, modes, bounds checks and surfaces; (4) witnesses", "why_tests_cant": "A relation between two runs for a continuous group of motions; tests compare a few angles and cannot exclude that wrapping of angles, tie breaking or absolute values single out a frame.", "anchors": ["util/src/helixUtils.cc: pointAt, calculateSfromXY, calculateTangent, calculateXfromS, calculateYfromS, calculateXCenter, calculateYCenter, momentumAt, momentumAtPCA, moveHelixTo, calculateStartHelix, intersectWithZCylinder, intersectWithZPlane, intersectWithZDisk, intersectWithZCone, intersectWithSurfaceNewton, intersectWithSurface", "util/src/intersections.cc: intersectCircleStraightLine"]}
{"id": "C70", "title": "A setup turned about the field axis gives the turned fit", "statement": "Turn the whole setup (start parameters, detector surfaces with their directions and materials, hits, field) by any angle about the z axis and shift it along z. Take a start state with curvature, azimuth within one turn of zero in both frames and the coordinate origin off the axis of its helix; cylinders with a positive radius and vertical planes with a horizontal unit normal; sorting that looks at the keys only. (1) Any sequence of addMeasurement, addScatterer, prepareForFitting, getIntersectionsWithSurfaces and setMass has the same outcome call by call in both setups (accepted, rejected, throws, undefined), and ends with the turned trajectory: same path lengths, residuals, precisions, projections and Jacobians, turned points, directions and surfaces, track parameters equal up to whole turns of the azimuth, same covariance. (2) pointAt and tangentAt of the trajectory give the turned answer, and both propagators of the library are indifferent to the turn. (3) The fit has the same outcome and leaves the same interface; the results have the same chi2, degrees of freedom and weight loss, the turned reference point, the turned parameters up to whole turns and the same covariance. (4) For a shift across z, as long as planes stay on their side of the coordinate origin and nothing is prepared, the same holds with all path lengths changed by one constant. Claimed by a user: preparation then gives the same Jacobians. This is false: there is a disk and a track for which the Jacobian of the first hit changes with the position of the coordinate origin.", "quantifier": "all turns and shifts, sequences of calls of any length, fields, surfaces, start states, propagators indifferent to the turn, and fitter implementations; (4) a witness", "why_tests_cant": "A relation between two runs over histories of any length and a continuous group of motions; a test turns one setup by a few angles.", "anchors": ["core/src/trajectory.cc: addMeasurement, addScatterer, prepareForFitting, getIntersectionsWithSurfaces, pointAt, tangentAt, setMass", "core/src/trajectoryElement.cc: trajectoryElement", "fittingAlgorithms/src/GBLInterface.cc: fit, getResults", "propagations/src/analyticalPropagation.cc", "propagations/src/simplifiedPropagation.cc"]}
{"id": "C71", "title": "Momentum and energy along a trajectory", "statement": "An accepted addition computes one energy loss dE and one energy E = sqrt(p^2+m^2) from the momentum p of the state moved to the crossing, and stores a state with momentum p|1 - dE/E| in the field at the crossing. Claimed by a user: the new state has the energy E - dE. This is false: its squared energy is (E-dE)^2 + m^2 (1 - (1-dE/E)^2), so for a massive particle and 0 < dE < E it lies between E - dE and E, and it is E - dE only for m = 0 or dE = 0 (given 0 <= dE < E). For a small loss the momentum should drop by dE/beta but drops by beta dE. After any history without preparation the curvature of the last state times the product of all factors 1 - dE/E of the accepted additions is the curvature of the reference track, and tan lambda is that of the reference track. If no addition gains energy or loses all of it, then along the list of elements the sign of the curvature and tan lambda stay the same and |curvature| does not decrease (histories without preparation, or with different path lengths of all elements); so for one and the same field neither momentum nor energy increases.", "quantifier": "all trajectories, surfaces, fields and masses; histories of any length; all momenta and masses for the rates; a witness with a pion in silicon", "why_tests_cant": "The product law and monotonicity speak about every history; the wrong energy is hidden for fast particles (beta near 1) and needs the relation between three computed quantities for all momenta.", "anchors": ["core/src/trajectory.cc: addMeasurement, addScatterer", "util/src/materialUtils.cc: computeEnergyLoss", "util/src/helixUtils.cc: momentumAtPCA, moveHelixTo"]}
{"id": "C72", "title": "The same track followed in the opposite sense", "statement": "Reverse a track: curvature, tan lambda and d0 change sign, the azimuth is opposite up to whole turns, z0 and the reference point stay, the covariance changes sign accordingly. (1) At opposite path lengths pointAt, calculateX/Y/ZfromS give the same point, calculateTangent and momentumAt the opposite vector. (2) calculateSfromXY gives the opposite path length for every point off the axis (azimuths within one turn of zero). (3) intersectWithSurface on the reversed track with the opposite mode gives the same verdict, the same point and the opposite path length (omega<>0, azimuths within one turn, cylinders with positive radius), provided that with a direction asked for the track does not start on the cylinder, cone cylinder or plane line, and that with mode 0 no two crossings ahead and behind are equally far (within 1e-4 for cylinders). Disks and the Newton search need no such condition. (4) moveHelixTo to any point off the axis gives the reversed parameters, the reversed covariance and the same angle. (5) The backward flag of calculateStartHelix gives the reversed track. Claimed by a user: (3) without the conditions. This is false: a track starting on a cylinder reports its start when searching ahead, but the reversed track searching behind does not; with equally far crossings both directions report the one ahead of them.", "quantifier": "all tracks, path lengths, surfaces, modes, fields, reference points, triples of points; witnesses on a unit circle for the two exceptions", "why_tests_cant": "A symmetry of all inputs; the exceptions are two cases of measure zero of the comparison with zero and of the tie break, and the azimuth of the two directions is wrapped independently.", "anchors": ["util/src/helixUtils.cc: pointAt, calculateTangent, momentumAt, calculateSfromXY, calculateXfromS, calculateYfromS, moveHelixTo, calculateStartHelix, intersectWithZCylinder, intersectWithZPlane, intersectWithZDisk, intersectWithZCone, intersectWithSurfaceNewton, intersectWithSurface"]}
{"id": "C73", "title": "The refitting program treats events and tracks one by one", "statement": "lcio_tracks writes the events in order, the first 1000 at most, up to the first event that ends the program: one without track collection, or one with a track that cannot be refitted (an exception, undefined behaviour, a number that is not finite). Every event written has exactly one output track per input track, in the same order, and each is what a freshly started program makes of that track alone: the fit interfaces, which are shared by all tracks, carry nothing over. A track with fewer than three hits is not left out, as the printed message says, but written as a track without hits and states. A track without a state at the interaction point dereferences a null pointer, whatever its hits are.", "quantifier": "all lists of events and tracks of any length, all steering parameters, geometries, fields, propagations and fitters", "why_tests_cant": "Independence of a track from all tracks before it is a statement about every sequence of tracks; the shared fit interface keeps pointers to the points and results of earlier tracks.", "anchors": ["examples/lcio_tracks/lcio_tracks.cpp: main (event and track loops), lines 224-474", "fittingAlgorithms/src/GBLInterface.cc"]}
{"id": "C74", "title": "Seed of the refit", "statement": "If the start helix is computed, it is made from the hits number 0, (n+1)/2 and n-1 of the n hits, in the order of the track. For n >= 3 there are no finite parameters exactly if the projections of these three points are in line; otherwise the seed is referred to the origin, has the covariance diag(0.01,100,100,1e5,1e5) in the order omega, tan lambda, phi0, d0, z0, its d0 is the smallest distance to the axis, phi0 lies in [-pi, pi], and its helix passes, within one turn, through the first hit (by a path length of at most half a turn from the reference) and over the projections of the other two, climbing from the second to the third as the hits do. Claimed by a user: any track of three hits or more, the limit of the program, gets a seed. This is false: the three numbers are different only for n >= 4; a track of exactly three hits uses its last hit twice and never gets finite parameters.", "quantifier": "all tracks with any number of hits at any positions", "why_tests_cant": "For all hit positions; the three-hit failure needs the shortest tracks the program accepts, and shows up only as numbers that are not finite.", "anchors": ["examples/lcio_tracks/lcio_tracks.cpp: main, lines 274-325", "util/src/helixUtils.cc: calculateStartHelix, moveHelixTo"]}
{"id": "C75", "title": "What the refit of a track consists of", "statement": "For a track of three or more hits that is refitted: the seed is the state of the input track, or the start helix, or the outcome of a preliminary fit (hits on the last surface with their cell number, every (n/25)-th hit beyond 25, its result if the fit succeeds and the moved start helix otherwise), as steered. The surfaces crossed by the seed in its first half turn are taken in the order of their path lengths; each gets a measurement of the last single hit (raw hits in place of spacepoints) whose cell number agrees with that of the surface up to multiples of 2^32, with the position in cm and the inverse squares of its errors, second precision 0 if the surface measures one direction only; without such a hit it gets a scatterer if multiple scattering is asked for and one of its materials has a density of 1e-6 or more, and nothing otherwise. The track written has the result for label 0 of the fit of this trajectory: parameters and covariance in mm, chi2, number of degrees of freedom, and lists and counts all hits of the input track, used or not. Conversely, if a seed exists (first, middle and last hit not in line; the preliminary fit possible), the trajectory, its points and its result exist for every possible seed, no raw hit is anything but a tracker hit and no two surfaces are crossed at the same path length, then the track is written. A raw hit that is not a tracker hit prevents any output; if the seed crosses no surface the behaviour is undefined. Claimed by a user: a track whose fit failed is not written. This is false: it is written with the parameters of the seed.", "quantifier": "all tracks, hits, surfaces, geometries, fields, propagations, fitters and steering parameters (cell numbers of hits are 32-bit integers)", "why_tests_cant": "The assignment of hits to surfaces depends on integer conversion and on the order of insertions into a map over all hits; failed fits look like good ones in the output.", "anchors": ["examples/lcio_tracks/lcio_tracks.cpp: getHitInfo, createPreFit, main lines 330-471", "core/src/trajectory.cc", "fittingAlgorithms/src/GBLInterface.cc", "persistency/src/LCIOPersistency.cc: createLCIO, readLCIO"]}
{"id": "C76", "title": "Reference point of the refitted track", "statement": "The state written by lcio_tracks has the reference point (0,0,0). If the seed is referred to the origin and no element belongs to a surface met at the path length of the initial element, then reading the state back gives the parameters and the reference point of the fit result. Claimed by a user: the state written describes the fitted helix. This is false if the start helix is not computed and the state of the input track is referred to a point that is not the origin: the parameters refer to that point, and the curve described by the state is displaced by it.", "quantifier": "all tracks and trajectories under the conditions named; a witness with the reference point half a cm up the axis", "why_tests_cant": "The files tests use have their states referred to the origin, so that the missing shift is invisible.", "anchors": ["examples/lcio_tracks/lcio_tracks.cpp: main, lines 447-469", "persistency/src/LCIOPersistency.cc: createLCIO, readLCIO"]}
{"id": "C77", "title": "The covariance of the start parameters has no influence on a fit", "statement": "Take two trajectories started from the same parameters at the same reference point, with any covariance matrices, and make the same calls on both (additions, intersections, preparation, mass, in any order): all calls end in the same way, and the trajectories agree in everything but the covariances of their states; points and directions along them, the outcome of the fit, and the results at every label, covariance included, are equal. The covariance stored with an element is that of the start parameters: it is never transported to the element. Hence lcio_tracks makes the same of tracks that differ only in the covariance (of at least 15 numbers) and location of their state, and the large errors given to a start helix mean nothing. If a fit is repeated from the parameters the one before has estimated, and the fitter reports for label 0 an error, or a correction in azimuth only, with the first element being the start of the trajectory, then the parameters never change, however often the fit is repeated.", "quantifier": "all start parameters, covariances, sequences of calls of any length, fields, propagations and fitters; std::sort is assumed to exchange entries by comparing their path lengths only", "why_tests_cant": "Independence of an input is a relation between all pairs of runs; a repeated fit that does not move looks like one that has converged.", "anchors": ["core/src/trajectory.cc: addMeasurement, addScatterer, prepareForFitting", "util/src/helixUtils.cc: moveHelixTo (covariance argument)", "fittingAlgorithms/src/GBLInterface.cc: fit, _fillResults", "examples/lcio_tracks/lcio_tracks.cpp: lines 310-316"]}
{"id": "C78", "title": "Rounding does not spoil points and directions along a track", "statement": "In double precision, for parameters, reference points and path lengths below 2^200 and curvatures above 2^-200 in size (or zero where said), and a mathematical library that is off by less than a unit in the last place: calculateXfromS and calculateYfromS return the coordinate of the track up to 16*2^-53 times (|reference point| + |d0| + |s| (1 + |phi0| + |omega s|)), however large the radius; calculateZfromS up to 4*2^-53 times the sum of its terms; pointAt up to 16*2^-53 times (|reference point| + |d0| + (1 + |phi0| + |omega s|) / |omega|), an error that grows with the radius. For omega = 0 calculateXfromS is right up to 8*2^-53 times (|reference point| + |d0| + |s|), and calculateYfromS returns the coordinate of the track plus s (cos phi0 - sin phi0), up to as much. The direction returned by calculateTangent has squared length 1 up to 32*2^-53 for all doubles for which it is finite, and each entry is right up to 16*2^-53 (1 + |phi0| + |omega s|). The claim that pointAt is as good as calculateXfromS is false: if |omega s| is at most 2^-57 |phi0|, pointAt returns the transverse position of the point of closest approach whatever s is; for a track of radius 2^70 that leaves the origin with azimuth 1 the point at path length 1024 is returned with x = 0, more than 512 away from the track, while calculateXfromS is right to 10^-11.", "quantifier": "all parameters, reference points and path lengths that are doubles in the given range, and all mathematical libraries within the given accuracy; errors of position are understood up to a further 2^-600 (underflow)", "why_tests_cant": "A test compares one rounded result with another rounded result; the loss of the turning angle appears only for tracks straighter than those tested.", "anchors": ["util/src/helixUtils.cc: calculateXfromS, calculateYfromS, calculateZfromS, calculateTangent, pointAt", "util/include/helixUtils.hh: calculateX0, calculateY0"]}
{"id": "C79", "title": "Surfaces listed as crossed are accepted, in the order and at the places listed", "statement": "Take a curved track, list the surfaces it crosses (cylinders along z, vertical planes away from tangency, disks; all without material) with getIntersectionsWithSurfaces, and call addMeasurement or addScatterer once for each entry in the order of the list. As long as no surface also contains a point exactly half a turn away from the start or from an earlier entry, no call is refused: each one that returns adds an element, at the listed path length plus that of the initial element, with the listed point of the track as reference point. More generally, after any history of calls on surfaces without material, a listed surface not behind the last element (ahead of it, for a disk) is not refused and lands where it was listed, whether or not it has material itself; and the search for a surface from a later state of the same track returns the crossing found from the start, with the path length reduced by what was covered. The claim is false for other orders: of two listed disks added farthest first the nearer one is refused. It is false in the order of the list too for two disks at the same height: the second one is refused.", "quantifier": "all curved tracks with |phi0| <= 2 pi, all sorting and field environments, all lists of such surfaces, all choices of call, position, precision and identifier for each entry, all numbers of entries", "why_tests_cant": "The listing searches once from the reference point, the additions search again from every new state with other rules about bounds; a test follows one track through one geometry and cannot exclude that some later search stops at another crossing or refuses.", "anchors": ["core/src/trajectory.cc: getIntersectionsWithSurfaces, addMeasurement, addScatterer", "util/src/helixUtils.cc: intersectWithSurface, intersectWithZPlane, intersectWithZCylinder, intersectWithZDisk"]}
{"id": "C80", "title": "What the material scans print and sum up", "statement": "check_materials and material_ntuples shoot an almost straight track from the origin and add up material. Whenever a scan gets through, it prints one row per surface listed by getIntersectionsWithSurfaces, in that order. The amount of a row is inner thickness over inner radiation length plus outer thickness over outer radiation length, divided by the cosine between the start direction and the normal at the printed point; it is finite exactly if both radiation lengths, the total thickness and that cosine are not zero. A total is finite exactly if all amounts so far are, and is then their sum. The start direction is the tangent of the track at the origin for polar angles strictly between 0 and 180 degrees, and using it at path length s changes the cosine by at most |omega s|. The printed point is the listed crossing for disks and for cylinders around the z axis; for other surfaces searched in closed form (planes away from tangency) it is a crossing no farther than the listed one (plus 1e-4). For such surfaces the scan gets through whenever the listing does. The second table of material_ntuples holds the sums of length over radiation length and over interaction length, and end points on the straight line from the origin to the last printed point, at the length covered; without a crossed surface all these end points are not finite. check_materials with only one angle builds a string from a null pointer; with none, or without a file, it prints its usage. Two further claims are false: a surface of thickness zero does not add nothing but makes its total and all later ones undefined, and the point printed for a plane can lie behind the origin although the listed crossing lies in front.", "quantifier": "all curvatures and angles (for the points: non-zero curvature, |azimuth| <= 2 pi), all lists of surfaces, all environments, all answers of the material lookup", "why_tests_cant": "A run prints one table for one direction and geometry; that every row is the listed surface, that the second search never moves the point for disks and barrel cylinders, and when a total silently becomes not-a-number depend on all geometries and directions.", "anchors": ["examples/material_effects/check_materials.cpp: main", "examples/material_effects/material_ntuples.cpp: main", "core/src/trajectory.cc: getIntersectionsWithSurfaces", "util/src/helixUtils.cc: intersectWithSurface"]}
{"id": "C81", "title": "What material_effects writes", "statement": "material_effects refits, started with at least three arguments, the events of its input in order. Every event with exactly one track is written, with the track a freshly started program makes of it: neither the hit map nor the fitter carries anything from one event to the next. Events with no track or several are left out and do not end the program; it ends at the first event without the collection, with an exception, or at the first lone track that cannot be refitted. Whenever a track is written, its seed is the input state at the interaction point; the surfaces crossed by the seed are visited in order, each with the last usable hit (planar raw hits in place of spacepoints) of its cell number as a measurement with scattering, or as a scatterer if it has material and no hit; and the output track has the first element's fit result, chi2 and ndf, one state at the interaction point with reference point zero, and the hits used in the order of their surfaces. Conversely a track is written whenever seed, trajectory, fit points and result exist and no two surfaces are crossed at the same path length. A missing input state or a seed that crosses no surface is undefined behaviour; so is a start with the two arguments that the printed usage asks for. A hit whose second error is zero measures one direction only, but the element made for it gets the squared scattering angle of its surface as the precision of the other direction.", "quantifier": "all event sequences, tracks, hits, lists of surfaces, fitters, units (non-zero for the converse), and all addresses the compiler gives to the local variable used as id", "why_tests_cant": "A run shows one file. That nothing is carried over between events, that each crossing uses the last hit of its cell, and that every condition for an output track is also sufficient, are statements about all event sequences and geometries; the undefined cases cannot be observed by a test at all.", "anchors": ["examples/material_effects/material_effects.cpp: main", "core/src/trajectory.cc: addMeasurement, addScatterer, prepareForFitting, getIntersectionsWithSurfaces", "fittingAlgorithms/src/GBLInterface.cc: fit, getResults", "persistency/src/LCIOPersistency.cc: createLCIO, readLCIO"]}
{"id": "C82", "title": "What lcio_debug_tracks writes", "statement": "lcio_debug_tracks, started with at least two arguments, writes every event with exactly one track, in order; events with no track or several are left out, and the program ends with an exception at an event without the collection, or as the first lone track that cannot be done ends. The output track has the input state at the last hit and, for the hits of the input track in order, at most one new hit each. The surface of a hit is the last one in the geometry's list whose id is the cell number; for the vertex detector (subdetector 1) the id has the side +1 or -1 by the sign of z and the next layer, with the same module and sensor, as unsigned 32-bit number. That id is unique, and exists for every hit except one of the vertex detector in layer 511, at which the program throws. A new hit, taken to internal units, is a point of the helix of the state, on the surface and inside its bounds. For cylinders around axes parallel to z, vertical planes not nearly touched by the track, and disks, it is the nearest crossing (to 1e-4) of all within half a turn, forwards or backwards; and if there is a surface but no new hit, the track does not cross it within half a turn or the nearest crossing is out of bounds. Conversely these conditions determine the output completely. A track without a state at the last hit is undefined behaviour. The claim that a surface with the same 32 bits as the cell number is found is false outside the vertex detector: if the highest bit is set the number looked for is negative.", "quantifier": "all event sequences, tracks, states, hits and cell numbers, all lists of surfaces and ids, all non-zero units; the geometric part: non-zero curvature, |azimuth| <= 2 pi", "why_tests_cant": "A run shows one file and one detector. Which id is looked for depends on every bit of the cell number, and that the point written is the nearest crossing is a statement about the whole helix.", "anchors": ["examples/lcio_tracks/lcio_debug_tracks.cpp: main", "util/src/helixUtils.cc: intersectWithSurface, intersectWithZPlane, intersectWithZCylinder, intersectWithZDisk"]}
{"id": "C83", "title": "What the unit test suites and the test program report", "statement": "Running a suite works exactly if all pointers in it are to existing tests and no test throws; a test that throws ends the run. After a run the counters of each test of the suite are the numbers of successful and failed steps of this run only (of all its runs, if it is in the suite several times), whatever they were before; other tests and all suites are unchanged; each test with a stream prints its introduction and one line per failed check, in order. A report is the sum over the tests, the same whether it is printed or not, with one line per test. For different tests the number reported after a run is the number of failed checks, and zero exactly if every step was a success. Adding a null pointer throws; an added test comes last, takes the stream of the suite if it has none and loses its counts. Adding suite o to another suite s appends the tests; in a build with asserts it is undefined behaviour if s is empty and o is not, and aborts if there is a null pointer among the first tests of s; adding a non-empty suite to itself never ends. Deleting the tests works exactly if no test is in the suite twice, and can be repeated; with null pointers in a suite, run, report, getNumPassed and getNumFailed abort (with asserts) or are undefined. The test program prints the result of every class and the sums. The claims that its exit status tells whether a check failed, and that the results of a suite survive its being added to another one, are false: the program returns 0 whatever fails, and added tests are reset.", "quantifier": "all stores of tests and suites, all behaviours of the tests (lists of steps that may differ from run to run), builds with and without asserts; the program for any list of test classes", "why_tests_cant": "The test framework is what would have to be trusted to test itself, and its behaviour for all suites, orders and earlier results cannot be enumerated.", "anchors": ["test/unitTests/UnitTest.hh, UnitTest.cc: do_test, do_fail, name, report, intro", "test/unitTests/UnitTestSuite.hh, UnitTestSuite.cc: addTest, addSuite, free, run, report, getNumPassed, getNumFailed, reset", "test/aidaTT-unitTests.cpp: addSimpleTests, main"]}
{"id": "C84", "title": "Which numbers the unit tests take as equal", "statement": "floatCompare converts its arguments to single precision. From 1/64 on (128 for roughFloatCompare) in magnitude, it accepts two numbers exactly if they are the same in single precision. In general accepted numbers are at most 1.001e-9 (1.001e-5) plus 2^-24 times the sum of their magnitudes apart, and numbers for which this sum, with the difference, is at most 0.999e-9 (0.999e-5) are accepted. Equal numbers are accepted, the order of the arguments does not matter, what floatCompare accepts roughFloatCompare accepts, and arguments from 2^128 on are undefined behaviour. The claim that the number 1e-9 in the code is the tolerance is false both ways: doubles that differ by 1 are accepted, and doubles that differ by less than 1e-11 are rejected.", "quantifier": "all real arguments up to 2^127 in magnitude (all arguments for symmetry, implication and undefined behaviour)", "why_tests_cant": "The comparison is what the unit tests use to decide; whether it decides as intended for all pairs of doubles is beyond them.", "anchors": ["test/unitTests/UnitTest.cc: floatCompare, roughFloatCompare"]}
{"id": "C85", "title": "What the small example programs print", "statement": "Without arguments each of intersection_calculator, lcio_read_example and geometry_test prints its usage, touches nothing and returns 1. A run of intersection_calculator that ends returns 0 and has loaded no file: it lists, ordered by path length below pi/0.23, surfaces of the detector as it was at the start, each (if it is well-formed) at a point of the track with parameters (0.23, 0.01, 1.57, 0, 0) on the surface and in its bounds; a surface searched in closed form (cylinder along z, vertical plane not nearly touched, disk) is listed exactly if the first crossing ahead within half a turn is in bounds, and there. So the claim that it lists crossings with the surfaces of the file it is given is false. lcio_read_example, with both files readable, prints one line per hit of VXDCollection, in the order of the file, with the last surface of the geometry (a rearrangement of the file's surfaces) that has the hit's id, which is the low word of the cell id as a signed number; it ends well exactly if all events have the collection and all hits have a surface, with an exception at the first event without the collection, with undefined behaviour at the first hit without surface, the earlier lines being printed. With a geometry file only it has undefined behaviour; a file that cannot be loaded or opened ends it with an exception. The claim that the surface of a hit is found whenever the unsigned 32-bit cell number is its id is false. geometry_test prints the ids of the surfaces of the file in DD4hep's order, and the geometry of the same file has the same ones, up to order.", "quantifier": "all detectors (any number of surfaces, in any order, any ids), loaders, files, events and hits, all argument lists starting with a file; sort functions satisfying the contract of std::sort", "why_tests_cant": "The programs are the documentation of how to use the library; what they print for all geometries and event files, and that one of them ignores its argument, is not covered by any test.", "anchors": ["examples/intersection_calculator/intersection_calculator.cpp: main", "examples/lcio_read_example/lcio_read_example.cpp: main", "examples/geometry_test/geometry_test.cpp: main", "core/src/trajectory.cc: getIntersectionsWithSurfaces"]}
{"id": "C86", "title": "lcio_tracks reads, refits and writes files as promised, and what it overwrites", "statement": "With fewer than two arguments lcio_tracks prints its usage, changes nothing and returns 1, and only then. With two or more, a geometry that loads, a readable input that is not the output, and (if there are exactly three arguments) an output that does not exist: the geometry file is loaded once and the surfaces used are those of the detector afterwards; the output holds the events of the input in order, each with its track collection kept and one collection added in which the tracks are refitted one by one, up to the first event that ends the program, at most 1000; the program returns 0 exactly if no event ended it; an event without track collection, or with a refitted collection already in it, ends it with an exception; no other file changes. A geometry that throws, an input that cannot be opened or a named output that exists end the program with an exception and no file changes; with exactly three arguments no existing file is ever changed. With two or with more than three arguments the file aidaTT_tracks.slcio is replaced, also if it is the input (then what is read is undetermined). The output of a run that wrote an event cannot be used as input: the program ends with an exception at its first event.", "quantifier": "all argument lists, file contents, detectors, loaders, settings and fit libraries; sort functions satisfying the contract of std::sort", "why_tests_cant": "No test runs the program; which files survive depends on all argument lists and on what files exist.", "anchors": ["examples/lcio_tracks/lcio_tracks.cpp: main"]}
{"id": "C87", "title": "The energy-loss entry of a Jacobian against the energy loss applied", "statement": "With the analytical propagator, in a field with a z component and with curved states, the first row of the Jacobian of every element after the first is (1+x,0,0,0,0) after a successful prepareForFitting; x is 0 for an element not marked as scattering, else 2 dE/(beta^2 E) for the stored state, that is after the loss at this element. An accepted addition changes q/p by the factor 1/(1-dE/E). Claimed by a user: 1+x is the derivative of this change, or of the change in nature (energy lower by dE). This is false. For a loss that is any differentiable function L of q/p the two derivatives are given exactly. To first order in the thickness of the layer the update has slope 1 + ((1+beta^2) L + q L')/E, nature 1 + ((3/beta^2-1) L + q L'/beta^2)/E, and the entry is 1 + 2 L/(beta^2 E): for constant L > 0 and a massive particle the entry lies strictly between the two, and without mass all three agree. Without mass and for a constant loss the update is exactly that of nature, and the entry is its derivative times 1 - (dE/E)^2. A hit that is not marked as scattering loses energy as well, but its entry is 1 while the slope of the update is above 1 (witness).", "quantifier": "all trajectories, environments, surfaces and states; all masses >= 0, q/p <> 0 and differentiable loss functions; sort functions satisfying the contract of std::sort", "why_tests_cant": "No test compares the Jacobian with the energy loss; the derivative and its limit for thin layers are statements about a continuum of momenta, masses and thicknesses.", "anchors": ["core/src/trajectory.cc: trajectory::prepareForFitting, trajectory::addMeasurement, trajectory::addScatterer", "propagations/src/analyticalPropagation.cc: analyticalPropagation::getJacobian", "util/src/materialUtils.cc: computeEnergyLoss"]}
{"id": "C88", "title": "Rounding of the path length to a point", "statement": "In double precision, calculateSfromXY of a point within eps (in x and in y) of the track point at path length s, at most one radian away (|omega s| <= 1), returns a finite number r, and one of two things holds. Either |r - s| <= 6 eps + 50*2^-53 (extent + |s|), extent being |x|+|y|+|reference point x|+|reference point y|+|d0|; or r = 0 and |omega s| <= 3 |omega| eps + 2^-53 (27 + 16 |omega| extent), that is, the track turns by less than can be resolved. Going from s to the point with calculateXfromS and calculateYfromS and back gives s up to 1100*2^-53 (|reference point x|+|reference point y|+|d0|+|s|), or 0 with |omega s| <= 2^-53 (27 + 500 |omega| (the same sum)). For omega = 0 and |phi0| <= 3 the answer is 0 for every point of the line if atan2(sin phi0, cos phi0) as computed is phi0 to the last bit, and right within the first bound otherwise. The claim that the answer is determined by the inputs is therefore false: for azimuth 3/2 and a point 1024 along a straight track the answer is 0 with one mathematical library and 1024 within 10^-6 with another, both off by less than a unit in the last place.", "quantifier": "all helix parameters, reference points and points that are doubles of size up to 2^100, with |phi0| <= 2 pi, omega zero or at least 2^-200, phi0 zero or at least 2^-300, |omega| extent <= 10^9 (there and back: 10^8, and sum up to 2^98), |omega| eps <= 1/1000; all mathematical libraries with sin, cos and atan2 off by less than a unit in the last place, no underflow of the sine and atan2(0,x) = 0 for x > 0; errors understood up to a further 2^-300 (2^-299 there and back)", "why_tests_cant": "Whether the result is zero or right depends on the last bit of atan2 for each azimuth; a test shows one azimuth and one library, and the error bound is a statement about all doubles.", "anchors": ["util/src/helixUtils.cc: calculateSfromXY, calculateXfromS, calculateYfromS"]}
{"id": "C89", "title": "Rounding of moving the reference point", "statement": "In double precision, moveHelixTo (covariance matrix not requested) of a curved track returns finite parameters and a finite angle fid in [-pi, pi]; curvature and dip are unchanged and the new phi0 is in [-pi, pi]. The helix g described by the result with respect to the new reference point is the helix f that was given, started at path length -fid/omega: for every path length s the points g(s) and f(s - fid/omega) differ by at most 600*2^-53 S in x, by at most (600*2^-53 + 12 lost) S in y and by at most 4*2^-53 H in z, where S = |1/omega| + |d0| + sum of the |x| and |y| of both reference points, H = |z| of both reference points + |z0| + 4 |tanl/omega|, and lost = 2^-53 / max(2^-26, |cos phi0|). If |cos phi0| >= h > 0, the y bound is (600 + 12/h)*2^-53 S. The claim that the y bound holds without lost is false: with correctly rounded sin and cos a track of radius 1024 and azimuth M_PI/2 + 2^-27, moved to its own reference point, gets the azimuth M_PI/2, and every point is off by more than 30000000*2^-53 S in y. With omega zero, or so small that 1/omega is beyond the range of double, there is no finite result.", "quantifier": "all helix parameters and reference points that are doubles of size up to 2^100 with |phi0| <= 2 pi, phi0 zero or at least 2^-300, |omega| at least 2^-200 (no finite result: omega zero or at most 2^-1025, any other parameters); all path lengths; any bound of at least three on the iterations of each loop; all mathematical libraries with sin, cos and atan2 off by less than a unit in the last place and atan2(0,0) a double between -pi and pi; the z error understood up to a further 2^-300", "why_tests_cant": "A test compares a few tracks with a tolerance; the bound is for all doubles, and the loss of digits is confined to azimuths within 2^-26 of +-pi/2, which sampled azimuths do not hit.", "anchors": ["util/src/helixUtils.cc: moveHelixTo"]}
{"id": "C90", "title": "Rounding at disks", "statement": "In double precision, intersectWithZDisk of a curved track returns a finite path length s and a point x. If the track reaches the height of the disk at path length t, |s - t| is at most 2 q + 3*2^-53 |t|, where q = 2^-53 |z of the reference point + z0| / |tan lambda|. The z of x is the height of the disk; the x and y of x are those of the track at s up to 16*2^-53 (|reference point| + |d0| + |s| (1 + |phi0| + |omega s|)), and those of the track at t up to that and 2 q + 3*2^-53 |t|. The boolean is true exactly if s has the sign asked for by mode and, if asked for, x is inside the bounds. A true answer implies that t has the sign asked for; conversely, if |t| exceeds 4 q, a crossing with the right sign of t (and inside the bounds) is reported. For omega = 0 the same holds for s, z, the boolean and the sign; x is right at s up to 8*2^-53 (|reference point| + |d0| + |s|), and y is off by s (cos phi0 - sin phi0), up to as much. With tan lambda = 0 there is no finite result. The claim that every crossing ahead is found with mode 1 is false: a track with slope -2^-60 that starts at height 1 + 2^-60 (reference point at 1, z0 = 2^-60) crosses the disk at height 1 at path length 1, but the path length returned is 0, and the answer is false for mode 1 and for mode -1.", "quantifier": "all tracks with parameters and transverse reference point that are doubles up to 2^200, heights up to 2^100, |tan lambda| at least 2^-90 (or zero), |omega| at least 2^-200 or zero; all modes, all disks and bounds; all mathematical libraries that are off by less than a unit in the last place; errors understood up to a further 2^-599 (underflow)", "why_tests_cant": "The bound and the statement about signs are for all doubles; the lost crossings are in an interval of path length that sampled tracks do not hit.", "anchors": ["util/src/helixUtils.cc: intersectWithZDisk"]}
{"id": "C91", "title": "Rounding at cylinders", "statement": "In double precision, whenever intersectWithZCylinder returns, one of two things holds. Let S be the sum of the absolute values of the coordinates of the axis, of the transverse coordinates of the reference point, of d0 and of the radius rho of the cylinder; K = |omega| S; e = 2^-53 S (1 + K). Either the answer is false, nothing is written, and the track does not cross the cylinder by more than 113 e (it stays outside, or inside, up to that). Or there are two computed crossings (s0,x0) and (s1,x1) such that: each x is on the cylinder to 9*2^-53 S; its height is that of the track at s, to 3*2^-53 of the terms added; the track passes within 220 e of x (in the transverse plane), at some path length t within half a turn; if |omega t| <= 1 and K <= 100000, then |s - t| is at most 1450 e + 50*2^-53 |t|, or else s is exactly zero and the change of direction |omega t| is at most 2^-53 (27 + 700 K (1 + K)); if K <= 0.4, then |omega t| <= 1 and |t| <= 3 S. No other point is missed: for every point of the track on the cylinder, the product of its distances to x0 and x1, times the distance of the axes in units of the radius of the track (times one for a straight track), is at most 350 e (rho + 4*2^-53 S). The mode picks one of the two: with mode > 0 the smallest nonnegative path length, with mode < 0 the largest negative one, with mode 0 the one of smaller absolute value, up to 0.0002 and rounding; if no path length has the sign asked for, the answer is false and nothing is written. If one is picked, exactly its s and x are written, and the answer is true exactly if x is inside the bounds or bounds are not asked for. If K <= 0.4 the function always returns with finite values. It throws exactly for a surface that is not a cylinder parallel to z. That every point of contact is found is false: a track with omega = 3*2^-55, phi0 = d0 = 0, reference point (0,1,0) starts on the cylinder of radius 1 around the origin, and nothing is found in any mode. That nothing is reported if the track does not meet the cylinder is false too: with omega = phi0 = 0, d0 = 2^-60 and the same reference point the track is a line outside this cylinder, and a crossing is reported.", "quantifier": "all tracks with |phi0| up to 2 pi and other parameters and coordinates that are doubles up to 2^100, omega and phi0 not below 2^-200 and 2^-300 in absolute value unless zero; all cylinders with radius from 2^-200 to 2^98 and axis within 2^98; all modes, bounds; all mathematical libraries that are off by less than a unit in the last place; errors understood up to a further 2^-300 (underflow)", "why_tests_cant": "The bounds are for all doubles, and the points of contact that are lost or invented are a set that sampling does not hit. That both crossings are found is a statement about the points that are not returned.", "anchors": ["util/src/helixUtils.cc: intersectWithZCylinder"]}
{"id": "C92", "title": "Rounding at planes parallel to z", "statement": "In double precision, whenever intersectWithZPlane returns for a curved track and a plane through o with normal n that is parallel to z, where n has unit length to half a per cent and points away from the z axis, one of four things holds. Let S be the sum of the absolute values of the x and y of o, of the transverse coordinates of the reference point, of d0 and of the radius of the track; K = |omega| S; e = 2^-53 S K. (1) The answer is false, nothing is written, and the track does not cross the plane by more than 225 e. (2) The coordinates written are not numbers; the answer is true exactly for mode 0, which is possible only if bounds are not asked for; the track does not cross the plane by more than 225 e, and it comes as close to it as 1.2e-9 |omega| + 230 e. (3) One s and x are written that are a crossing; every point of the track on the plane is within sqrt(1e-8 + 1000*2^-53 S^2) of x; and the answer is true exactly if s has the sign the mode asks for (any, for mode 0), and x is inside the bounds or bounds are not asked for. (4) There are two crossings (s0,x0) and (s1,x1); for every point of the track on the plane, the product of its distances to x0 and x1 is at most 430*2^-53 S^2; with mode > 0 the smallest nonnegative path length is picked, with mode < 0 the largest negative one, with mode 0 the one of smaller absolute value; exactly the picked s and x are written and the answer is true exactly if x is inside the bounds or bounds are not asked for; if none has the sign asked for, the answer is false and nothing is written. A crossing means: the scalar product of x - o with n is at most 76*2^-53 S in absolute value; the height of x is that of the track at s, to 3*2^-53 of the terms added; the track passes within 600 e of x (in the transverse plane) at some path length t within half a turn; if |omega t| <= 1 and K <= 100000, then |s - t| is at most 4000 e + 50*2^-53 |t|, or else s is exactly zero and the change of direction |omega t| is at most 2^-53 (27 + 2000 K^2). The path length to any point is finite. The function does not overflow and does not throw; the only exception is a track that touches, with mode 0 and bounds asked for, where insideBounds is called with coordinates that are not numbers. A track with points more than 225 e on either side of the plane is found in mode 0. The only exception thrown is that for a normal with |nx| and |ny| below 1e-12. For a straight track (omega = 0) nothing is ever found, in any mode, at a plane with o*n >= 1e-4 and the x and y of o up to 10^6, wherever the track goes. That the point is right to the size of the coordinates is false: with omega = 2^-60, phi0 = d0 = 0 and reference point (0,60,0) the track crosses the plane x = 1 at y > 58, and the point found has y <= 0. That nothing is reported if the track does not meet the plane is false: for omega = 1, phi0 = d0 = 0 and the reference point at the origin the track stays above y = -2; the plane y = -2 - 2^-40 with normal (0,-1,0) is reported as met in mode 0, with coordinates that are not numbers.", "quantifier": "all tracks with |phi0| up to 2 pi and other parameters and coordinates that are doubles up to 2^100, phi0 not below 2^-300 in absolute value unless zero; all planes with S up to 2^98 (so the radius of the track too); all modes, bounds, surfaces; all mathematical libraries that are off by less than a unit in the last place (for finiteness also: the sine of a double other than zero up to 4 is not zero, atan2(0,0) is an angle); errors understood up to a further 2^-300 (underflow)", "why_tests_cant": "The bounds are for all doubles, and the tracks that just touch the plane are a set that sampling does not hit. That both crossings are found is a statement about the points that are not returned. The loss for almost straight tracks shows only at curvatures a test would not choose.", "anchors": ["util/src/helixUtils.cc: intersectWithZPlane, calculateRadius, calculateXCenter, calculateYCenter, calculateSfromXY", "util/src/intersections.cc: intersectCircleStraightLine, straightLine"]}
{"id": "C93", "title": "Rounding in the start helix", "statement": "In double precision, whenever calculateStartHelix returns finite parameters for three hits: d0 and z0 are zero, and the curvature omega differs from minus (plus, with backward) the curvature k of the circle through the hits in the transverse plane (k positive if they are passed counterclockwise, zero if they are on a line) by at most 84*2^-53 / D23, where Dij is the transverse distance of hits i and j. If the hits are not on a line, there is a helix that starts at hit 1, passes the transverse positions of hits 2 and 3 in this order within one turn, forwards or backwards as asked for, and climbs between them as much as the hits do, with d0 = z0 = 0, such that the parameters returned differ from its parameters as follows: omega by at most 84*2^-53 / D23; phi0, up to full turns, by at most e = 2^-53 (18 S |omega| + 97 Q), provided e <= 1/50; tan lambda, relatively, by at most e' = 160*2^-53 Q (and a further 2^-300), provided that e' <= 1/100, |omega| >= 2^-500, and the angle between the directions from hit 1 to hits 2 and 3 has a cosine of at least 1/10. Here S is the sum of the absolute values of the x and y of the hits, and Q = (D12+D23)^2/(D12 D13) + (D12+D13)/D23 says how unevenly they are spaced (5 for equal distances along a line). If |k| D23 >= 100*2^-53, the parameters are finite and the sign of omega is right. That hits that are not on a line give finite parameters is false: (0,0), (3,4), (45, 60 + 2^-47) do not.", "quantifier": "all hits with coordinates that are doubles up to 2^100, with transverse distances from each other of at least 2^-100; both directions; all mathematical libraries that are off by less than a unit in the last place (for finiteness also: atan2(0,0) is an angle; for the curvature: any library)", "why_tests_cant": "The bounds are for all doubles. The errors depend on the spacing of the hits and on their distance from the origin, and hits nearly on a line, where the sine is lost, are a set that sampling does not hit.", "anchors": ["util/src/helixUtils.cc: calculateStartHelix", "core/include/Vector3D.hh: r, unit, cross"]}
{"id": "C94", "title": "The search for a general surface, rounding included", "statement": "In double precision intersectWithSurfaceNewton always ends, whatever the surface answers, also if numbers become infinite or NaN on the way. It tries at most 101 path lengths: the first is the one given; each further one is the damped step from the best one before (the least computed distance; the first, with distance 10^10, if none is below 10^10), and the damping is 10^-10, divided by ten for each new best and multiplied by ten for each other try, up to rounding (1000*2^-53). If a computed distance is below the tolerance (10^-4 cm up to 5*2^-53), the search ends there: s and the point are those tried, the point is the one pointAt computes for s, and the answer is true exactly if s has the sign asked for and the point is inside the bounds (if that is to be checked). Otherwise, after 101 tries, the answer is false and s and the point are the best. If the start is close to the surface it is returned at once. If the answer is true, the point is within the error of pointAt (C78) of the track at s, and the exact distance of the track at s is below the tolerance plus the error of the surface's distance plus that of the point. If on an interval of path lengths the surface computes the distance and its change along the tangent up to given errors (at most 10^-6 cm and one per cent), with a normal no longer than one, and the distance is linear along the track up to a given curvature, and 1/cos(lambda) - 1 plus the curvature term plus the errors is at most k < 1, the search from a point of the interval with distance d (at most 5*10^9, and half the distance for which steps stay in the interval), d k^100 below the tolerance, is successful, and the track passes the surface there within the tolerance and the error of the distance. If the computed product of normal and tangent is zero at the start, away from the surface by less than 10^10, the answer is false, with the start. A straight track (omega = 0) is never found. That a track that crosses the surface at an angle is found is false: a track of radius 2^70 is not found at a plane 512 away. intersectWithZCone is the crossing with the middle cylinder followed by this search.", "quantifier": "all surfaces (any functions for distance, normal and bounds of finite points; for points that are not finite their answers are not finite), all tracks, reference points, starts, modes; for the errors: mathematical libraries that are off by less than a unit in the last place, moderate parameters and a curvature of at least 2^-200", "why_tests_cant": "The search is a loop over doubles with comparisons that behave differently for NaN; which path lengths it visits depends on all roundings. The claims are for all surfaces and all starts.", "anchors": ["util/src/helixUtils.cc: intersectWithSurfaceNewton, intersectWithZCone, pointAt, calculateTangent"]}
{"id": "C95", "title": "The multiple-scattering angle, rounding included", "statement": "In double precision computeQMS (for a crossing point and a momentum) of an ordinary layer gives a finite angle that differs from Highland's width, for the exact amount of matter t (in radiation lengths) along the inclined path, by at most 2^-53 (33 + 14/c) times 0.0136/(p beta) sqrt(t) (1 + 0.038 |ln t|), where c is the absolute cosine between momentum and normal. If t is at least exp(-20), the angle is positive and the relative error is at most 2^-53 (243 + 103/c). The same holds with 2^-53 (488 + 207/c) for the square of the angle, which trajectory uses as the precision of a scatterer. A surface with both thicknesses zero never gives a finite angle. That the angle is finite whenever the exact one is, is false: for a track that grazes a surface with material the computed cosine can be zero although the exact one is not.", "quantifier": "all surfaces (any normal at the point, with components at most one; each thickness zero or between 2^-100 and 2^100, not both zero; radiation lengths between 2^-100 and 2^100), all crossing points, momenta of size between 2^-100 and 2^100 with c at least 2^-20, masses zero or between 2^-100 and 2^100; logarithms that are off by less than a unit in the last place", "why_tests_cant": "The error of about twenty-five rounded operations, one of which can cancel, is bounded for all layers and momenta; a test compares a few values.", "anchors": ["util/src/materialUtils.cc: computeQMS (surface, crossing point, momentum, mass)", "core/src/trajectory.cc: addMeasurement, addScatterer (qms*qms)", "core/include/Vector3D.hh: r, unit, dot"]}
{"id": "C96", "title": "The energy loss, rounding included", "statement": "In double precision computeBetheBloch of an ordinary material is finite and differs from the formula of Bethe and Bloch with Sternheimer's density effect (as written in the code, C54) by at most 210 * 2^-53 * S, where S is K Z/(A beta^2) (1 + |L| + |x| + |C|), with L the logarithm of the formula, x the decimal logarithm of momentum over mass and C Sternheimer's constant; this includes the momenta for which rounding of x makes the code take another case of the density effect. computeEnergyLoss (for a crossing point and a momentum) of an ordinary crossing is finite and differs from the exact sum over both layers of loss per mass thickness times density times inclined path by at most 2^-53 (235 + 122/c) times the same sum with S in place of the loss, c being the absolute cosine between momentum and normal; the energy is off by at most 6 and the velocity by at most 11 units of 2^-53, relatively. If both thicknesses are zero the loss is exactly zero. For a particle without mass the loss is never finite, whatever the surface.", "quantifier": "all surfaces with materials of density and mass number between 2^-30 and 2^30 and charge number between 2^-10 and 2^10, any normal at the point with components at most one, each thickness zero or between 2^-30 and 2^30; all crossing points, momenta of size and masses between 2^-30 and 2^30, c at least 2^-20; functions log, log10 and pow of the mathematical library that are off by less than a unit in the last place or so (2 * 2^-53 relative). Massless: all surfaces, momenta, points and libraries", "why_tests_cant": "The errors of about fifty rounded operations, among them four library calls and a choice between cases that rounding can change, are bounded for all materials and momenta; a test compares a few values.", "anchors": ["util/src/materialUtils.cc: computeBetheBloch, computeEnergyLoss (surface, crossing point, momentum, energy, beta, mass)", "core/include/Vector3D.hh: r, unit, dot"]}
{"id": "C97", "title": "Rounding at surfaces of any kind", "statement": "In double precision, take a curved track and a surface of everyday size (for a cylinder or cone: parallel to z with an ordinary radius and axis; for a plane parallel to z: a normal of unit length to half a per cent that points away from the z axis; for a disk: |tan lambda| >= 2^-90). If intersectWithSurface answers yes, then s and x are written and x is where the track meets the surface, up to the rounding errors of C91 (cylinder), C92 (plane parallel to z) or C90 (disk); for a cone the computed distance of the computed point at s is below 10^-3 mm. Further s is not negative for mode > 0 and negative for mode < 0, and x is inside the bounds if that is asked for. The only exception is a plane parallel to z with mode 0 and bounds not asked for: if the track comes close to the plane without crossing it, the answer may be yes with coordinates that are not numbers. If the answer is no, one of three things holds. (1) The track does not cross the surface by more than the rounding error (for a cone: it does not cross the cylinder in its middle by more than that, or 101 path lengths were tried without coming within 10^-3 mm, the first of them at a crossing with that cylinder); or the surface is of none of the four kinds. A disk is never missed in this way. (2) What was found is not on the side asked for, and no other point of the track is on the surface (up to rounding; a cone: the crossings with the cylinder in its middle, or the point found, are not on that side); this is impossible for mode 0. (3) Bounds are asked for, and the point written is where the track meets the surface on the side asked for but outside the bounds. For a surface of another kind the answer is always no and nothing is written. For a cylinder, s and x either keep their values, with the answer no, or both are written, and then the answer is yes unless bounds are asked for and x is outside. There is always an answer if the track bends little (the product of |omega| with the size of the coordinates is at most 0.4) in case of a cylinder or cone; for disks always; for planes always but for a track that touches, with mode 0 and bounds asked for. An exception is thrown only for a cylinder or cone that is not parallel to z or not a cylinder for DD4hep, or for a plane whose normal has |nx| and |ny| below 1e-12. A surface with several flags is treated as the first that fits of: cylinder parallel to z, plane parallel to z, plane orthogonal to z, cone.", "quantifier": "for all mathematical libraries that are off by less than a unit in the last place, all surfaces, curved tracks, reference points, modes, initial output values and both settings of the bounds check", "why_tests_cant": "The claim covers all kinds of surfaces, tracks and doubles; near tangents, near the start and at the bounds single tests say nothing about neighbouring inputs, and the absence of further crossings cannot be tested.", "anchors": ["util/src/helixUtils.cc: intersectWithSurface", "util/src/helixUtils.cc: intersectWithZCylinder", "util/src/helixUtils.cc: intersectWithZPlane", "util/src/helixUtils.cc: intersectWithZDisk", "util/src/helixUtils.cc: intersectWithZCone", "util/src/helixUtils.cc: intersectWithSurfaceNewton"]}
{"id": "C98", "title": "Rounding of the projection to the measurement system", "statement": "In double precision, let the two vectors of the local frame and the first measurement direction be of unit length to one per cent (in the square: 0.98 to 1.02), and let the second direction be likewise, or be the one that is made up for a measurement in one direction. Let c be the product of the normal of the two measurement directions with the normal of the frame, which is the direction of the track. If |c| >= 1000u with u = 2^-53, calculateLocalToMeasurementProjectionMatrix returns a matrix, and each entry differs by at most 80u/c^2 from that of the inverse of the four scalar products, which is unique. The exception 'can't be inverted' is only thrown if |c| <= 42u. It is always thrown if the second direction is the first or its opposite. A measurement in one direction is treated exactly as one in two, the second of which depends on the first alone: it is orthogonal to the first up to 25u, its length is between 9*10^-7 and sqrt(2.1). Any other number of directions is rejected. It is not true that a track exactly along the plane of the directions (c = 0) is always reported: there are such directions for which a matrix is returned whose first entry is at least 10^15.", "quantifier": "for all frames and all lists of measurement directions of unit length to one per cent", "why_tests_cant": "The bound covers all doubles, and it is the tracks almost along a sensor where the result is sensitive to rounding; a test of some angles says nothing about those between.", "anchors": ["util/src/utilities.cc: calculateLocalToMeasurementProjectionMatrix"]}
{"id": "C99", "title": "Rounding of the local frame and of the projection with it", "statement": "In double precision, with a mathematical library that is off by less than a unit in the last place and track parameters and arc length s of at most 2^200: calculateLocalCurvilinearSystem returns two vectors each component of which is off by at most w = 2^-53 (2|phi0| + 3|omega s| + 12) from the exact frame, which is right-handed and orthonormal with the direction of the track at s. Without a bound on the parameters, whenever a frame is returned its two vectors are of unit length up to 10u and 32u in the square and orthogonal up to 3u (u = 2^-53), even if the azimuth has no correct digit. The projection matrix computed with this frame for two measurement directions of unit length to one per cent is the inverse for the exact frame, up to 40 w/t^2 in each entry, where t is the product of the direction of the track with the normal of the two directions, if |t| >= 200 w; no exception is thrown then. The same holds for one measurement direction with the second that is made up for it.", "quantifier": "for all accurate mathematical libraries, all track parameters and arc lengths, all measurement directions of unit length to one per cent", "why_tests_cant": "The bounds cover all doubles and all libraries within the contract; tests use one library and some angles.", "anchors": ["util/src/utilities.cc: calculateLocalCurvilinearSystem", "util/src/utilities.cc: calculateLocalToMeasurementProjectionMatrix"]}
{"id": "C100", "title": "Rounding of the momentum and of charge over momentum", "statement": "In double precision, with a mathematical library that is off by less than a unit in the last place, curvature omega and field component bz each between 2^-100 and 2^100 in absolute value, write u = 2^-53 and pt = 0.00299792458 bz/|omega|. For track parameters and an arc length s of at most 2^200 in absolute value momentumAt returns a vector; its x and y differ from pt times the cosine and the sine of the azimuth phi0 - omega s by at most |pt| u (2|phi0| + 3|omega s| + 12). Its z differs from pt tanLambda by at most 9u |pt tanLambda| plus the smallest positive double. momentumAtPCA returns a vector with x and y right to 12u |pt| at the azimuth phi0, whatever that is, and the same z (tanLambda at most 2^200 in absolute value). calculateQoverP returns, for |tanLambda| <= 10^8, the sign of omega bz divided by the momentum P = |pt| sqrt(1 + tanLambda^2), up to a relative error of (16 + 8|tanLambda|)u. The two agree: the result of calculateQoverP times the length of the vector that momentumAtPCA returns is the sign of omega bz up to (42 + 19|tanLambda|)u. calculateQoverP returns zero for a zero field.", "quantifier": "for all accurate mathematical libraries, all curvatures, fields, track parameters and arc lengths in the given ranges", "why_tests_cant": "The bounds cover all doubles in the ranges and all libraries within the contract; tests compare a few momenta with a tolerance.", "anchors": ["util/src/helixUtils.cc: momentumAt, momentumAtPCA", "util/src/utilities.cc: calculateQoverP", "core/include/aidaTT-Units.hh: convertBr2P_cm"]}
{"id": "C101", "title": "Rounding of the Jacobian matrices between parametrisations and of the simplified propagation", "statement": "In double precision, write u = 2^-53. For |tanLambda| <= 2^200, perigeeToL3Jacobian returns the matrix of the derivatives of the track parameters by the perigee parameters; the entry -(1 + tanLambda^2) has a relative error of at most 5u, all others are exact. L3ToPerigeeJacobian returns the derivatives of the perigee parameters by the track parameters in its own arrangement (rows omega, phi0, d0, z0, tanLambda; columns kappa, theta, phi, epsilon, z_p); the entry -1/(1 + tanLambda^2) has a relative error of at most 6u, all others are exact. The product of the two rounded entries is one up to 12u. The simplified propagation, for a step dw and a field component bz between 2^-100 and 2^100 in absolute value and directions with z components of at most 2^200, writes four entries: (2,0) = -bz dw up to 2u, (3,0) = -bz dw^2 C/2 up to 9u, (3,2) = dw C up to 6u, each relative, and (4,1) = dw exactly, where C = 1/sqrt(1 + dz^2) with dz the exact difference of the two z components. All other entries keep their values. No call fails.", "quantifier": "for all track parameters, matrices, steps, directions and fields in the given ranges", "why_tests_cant": "The bounds cover all doubles in the ranges, including differences that cancel and squares that underflow.", "anchors": ["util/src/utilities.cc: perigeeToL3Jacobian, L3ToPerigeeJacobian", "propagations/src/simplifiedPropagation.cc: getJacobian"]}
{"id": "C102", "title": "Rounding of the crossing of two straight lines", "statement": "In double precision, take two lines whose normals have components of at most one and whose distances are at most 2^200 in absolute value. Let t = n1x n2y - n2x n1y (the sine of the angle between unit normals), u = 2^-53 and S = |d1| + |d2| + 2^-900. intersectStraightLineStraightLine always returns without overflow, and gives either no point or one. If t <= 10^-9 - 5u it gives none, if t >= 10^-9 + 5u it gives one. Each coordinate of the point differs by at most 13 u S/t^2 from that of any point that is exactly on both lines. For all lines whatever: if the lines in one order give a point, in the other order they give none.", "quantifier": "for all pairs of lines (in the given ranges for the first claims, without bounds for the last)", "why_tests_cant": "The bounds cover all doubles and all angles, in particular almost parallel lines, where rounding is magnified.", "anchors": ["util/src/intersections.cc: intersectStraightLineStraightLine"]}
{"id": "C103", "title": "When the crossing of two circles throws, with rounding", "statement": "In double precision, take two circles with centres and radii of at most 2^100 in absolute value. Let u = 2^-53, p = (r1^2 - x1^2 - y1^2) - (r2^2 - x2^2 - y2^2) and S = r1^2 + x1^2 + y1^2 + r2^2 + x2^2 + y2^2 + 2^-900. intersectCircleCircle throws if p < -7uS, even if the circles cross. It throws if the centres differ by at most 0.495 10^-12 in x and in y. It does not throw if p >= 7uS and the centres differ by at least 0.505 10^-12 in x or in y. So, if |p| > 7uS and the centres differ by that much, exactly one of the two orders of the arguments throws. The circles of radius 2 around (3,0) and around the origin, which cross in two points, throw in this order and not in the other.", "quantifier": "for all pairs of circles with numbers in the given range", "why_tests_cant": "The decision depends on a sum of six rounded squares with cancellation; tests cannot show how close to the boundary it is still right for all doubles.", "anchors": ["util/src/intersections.cc: intersectCircleCircle, straightLine::straightLine"]}
