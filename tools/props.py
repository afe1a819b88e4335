#!/usr/bin/env python3
"""Source of properties.jsonl (run: python3 tools/props.py).

Each entry: id, title, statement, quantifier, why_tests_cant, anchors.
"""
import json, os
G = "planegeometry/geometry.py"
I = "planegeometry/internal.py"
P = []
def p(id, title, statement, quantifier, why, *anchors):
    P.append(dict(id=id, title=title, statement=statement, quantifier=quantifier,
                  why_tests_cant=why, anchors=list(anchors)))

# ---------------------------------------------------------------- lines
p("C01", "Line.direction_offset gives the line's normal equation",
  "For every Line, direction_offset() returns d in [0, 2*pi) and o >= 0 such that a point (x, y) lies on the line through A and B if and only if cos(d)*x + sin(d)*y = o.",
  "all lines (A != B), all points of the plane",
  "An equivalence over a continuum of lines and points; vertical, origin-crossing and sign-flipped cases are measure zero and never sampled.",
  G + ":Line.direction_offset")
p("C02", "Line.is_equal recognises equal lines but also identifies mirror-image parallels",
  "Line.is_equal(l2) returns True whenever the two Line objects denote the same infinite line, whatever pairs of points represent them. The converse fails: for every line l, is_equal also returns True for l reflected through the origin (a distinct parallel line as soon as l misses the origin). The answer True does mean that the sine of the angle of the lines is at most 1e-4 and that their distances h1, h2 from the origin differ by at most 1e-8 + 1e-5 max(h1, h2).",
  "all lines and all pairs of representing points",
  "Every representation of every line; the false positive needs two lines symmetric about the origin, which no sampled test hits.",
  G + ":Line.is_equal", G + ":Line.direction_offset", I + ":approx_equal_")
p("C03", "Line.is_parallel / is_perpendicular are complete but depend on the representing points",
  "is_parallel returns True for every pair of parallel lines and is_perpendicular for every pair of perpendicular lines. Neither is sound: the answer depends on the distance between the points representing the lines, and for every pair of directions there are representing points (accepted by the constructor) for which is_parallel, respectively is_perpendicular, answers True.",
  "all pairs of lines, all representing points",
  "The absolute thresholds only bite for particular scales; only a quantified statement separates the sound from the unsound direction.",
  G + ":Line.is_parallel", G + ":Line.is_perpendicular")
p("C04", "Line.includes decides membership, segment and half-line",
  "For a point M that is not within numpy-allclose distance of A or B: includes(M) is True iff M lies on the line (AB). For M on the line (AB) and strict=True: a segment includes exactly the points between A and B (ends included); a half-line includes exactly the points strictly on the right side of its origin, so the origin of a half-line is never included.",
  "all lines with all four extend flags, all points",
  "The half-line origin is a single point; the equivalence ranges over all points and all flag combinations.",
  G + ":Line.includes", I + ":collinear_")
p("C05", "Line.projection / distance / perpendicular are the orthogonal ones",
  "projection(M) is a point of the line whose difference with M is orthogonal to the line, it is the unique nearest point of the line, distance(M) is the minimum distance from M to the points of the line, and perpendicular(M) is a line through M orthogonal to the reference line whose first point is the foot when M is off the line.",
  "all lines, all points",
  "Optimality over a continuum of points of the line cannot be sampled.",
  G + ":Line.projection", G + ":Line.distance", G + ":Line.perpendicular", I + ":line_line_intersection_")
p("C06", "Reflection is an involutive isometry fixing the line, and equals its affine matrix",
  "Reflection.transform(P) is exactly: P unchanged when P is on the line or within np.allclose tolerance of one of its two defining points; ValueError when P is elsewhere off the line but np.allclose to its projection on the line (e.g. the line y = 1000 and the point (0.5, 1000.005)); otherwise the mirror image of P (midpoint on the line, difference orthogonal to it). Outside the tolerance of the two points it is an isometry and involutive; reflect_circle and reflect_line are the images of the circle and of the line (flags kept); as_affine().transform(P) is the mirror image for every P.",
  "all lines, all points",
  "Equality of two different computations (geometric and matrix) over all lines and points.",
  G + ":Reflection", G + ":Line.reflection")
p("C07", "Line.rotate and Line.translate move every point of the line",
  "rotate(alpha, O) returns the line of the rotated points and translate(v) the line of the translated points, both keep the extend flags, in degrees or radians; the result is the image of the whole line, not just of A and B.",
  "all lines, angles, centres, vectors, flags",
  "Universally quantified over angles and points; unit tests fix one angle.",
  G + ":Line.rotate", G + ":Line.translate")
p("C08", "intersection_line_line returns the unique common point",
  "When intersection_line_line returns a point, that point lies on both lines and is their only common point. Distinct parallel lines always give None. When two lines meet at one point and the cross product of their direction vectors is at least 2**-26 (and is_equal does not misfire, which it cannot when the sine of the angle between the lines exceeds 1e-4), the point is returned. With strict=True None is returned even for two crossing segments.",
  "all pairs of lines",
  "Soundness and completeness over all pairs.",
  G + ":intersection_line_line", I + ":line_line_intersection_")

# ---------------------------------------------------------------- circles
p("C09", "Circle.contains / power / includes agree with the distance to the centre",
  "contains(P) is True iff the distance from P to the centre is at most the radius; power(M) is |MO|^2 - r^2, hence negative/zero/positive iff M is inside/on/outside; includes(P) is True for every point on the circle. includes is not sound: for a circle of radius at most 10**-5 it accepts the centre.",
  "all circles, all points",
  "Quantifies over all points, including boundary points; the tolerance failure only shows at small radii.",
  G + ":Circle.contains", G + ":Circle.power", G + ":Circle.includes", I + ":approx_equal_")
p("C10", "Circle.point_from_angle parametrises the circle",
  "point_from_angle(alpha) is on the circle for every alpha, in degrees or radians, and every point of the circle is point_from_angle of some angle.",
  "all circles, all angles, all points of the circle",
  "Surjectivity onto a continuum.",
  G + ":Circle.point_from_angle", I + ":unit_vector_")
p("C11", "circleAB and circleOA",
  "circleAB(A, B), when A and B are not allclose, returns the circle having [AB] as a diameter (A and B are on it, the centre is their midpoint, and a point M is on it iff MA is orthogonal to MB); circleOA(O, A) returns the circle with centre O through A. Both raise ValueError iff the two points are allclose.",
  "all pairs of points",
  "Thales characterisation over all M.",
  G + ":circleAB", G + ":circleOA")
p("C12", "radical axis and radical centres are the equal-power loci",
  "circ1.radical_axis(circ2) contains exactly the points having equal power with respect to both circles; circ1.radical_center(circ2) is the point of the axis on the line of centres; radical_center(c1, c2, c3) is the unique point of equal power w.r.t. the three circles when the centres are not collinear.",
  "all pairs and triples of circles with distinct (non-collinear) centres, all points",
  "A locus equality over all points.",
  G + ":Circle.radical_axis", G + ":Circle.radical_center", G + ":radical_center")
p("C13", "mid_circles: inversion (or reflection) on each result swaps the two circles",
  "For every pair of circles and every circle returned by mid_circles, the inversion on it maps each of the two circles onto the other; for every line returned, the reflection in it does (circles of equal radii with distinct centres closer than the allclose tolerance, and circles with 4*r1*r2 below 2**-26, excepted). Every exchanging inversion circle is returned except within 2**-26 of tangency. For two non-concentric circles strictly inside one another with (r1+r2)^2 < 2**-26 the circle returned does not exchange them.",
  "all pairs of circles in each of the documented configurations (equal/unequal radii, outside, inside, secant, tangent)",
  "A configuration-wide swap law for all radii and centres; tests check one instance of each.",
  G + ":mid_circles", G + ":Inversion.on_circle", G + ":Inversion.invert_circle", G + ":Reflection.reflect_circle")
p("C14", "intersection_circle_line: sound and complete above the threshold, unsound below it",
  "Two returned points are distinct, lie on both the circle and the line and are the only common points; None is returned only if circle and line are disjoint; a single returned point is the orthogonal projection of the centre on the line, which is on the circle iff the line is tangent. The single point is returned for secant lines too when the defining points are close together: for every circle of radius at most 10 centred at the origin and every line through the origin there are representing points such that the 'intersection' returned is the centre itself.",
  "all circles, all lines and all representing points",
  "Completeness of the intersection and the representation-dependent failure are both universally quantified.",
  G + ":intersection_circle_line", I + ":circle_line_intersection_")
p("C15", "intersection_circle_circle",
  "Two returned points lie on both circles and every common point is one of them; None is returned only for circles without common point; a single returned point lies on the first circle and within 2**-13 of the second. For circles that are not is_equal, with d the distance of the centres: None is returned iff d^2 > (r1+r2)^2 + 2**-26 or d^2 < (r1-r2)^2 - 2**-26, two points iff (r1-r2)^2 + 2**-26 <= d^2 <= (r1+r2)^2 - 2**-26, one point otherwise. Concentric circles whose radii differ by less than 2**-13 but are not equal within is_equal's tolerance have no common point and yet a point is reported.",
  "all pairs of circles",
  "Soundness/completeness over all pairs; near-concentric pairs are never sampled.",
  G + ":intersection_circle_circle")
p("C16", "intersection_ellipse_line returns exactly the common points",
  "With l written in the frame of the ellipse (axes scaled to 1) and Delta = |AB|^2 - (A x B)^2: two returned points lie on the ellipse and on the line and are the only common points (returned iff Delta >= 2**-26); None is returned iff the line misses the ellipse; one point is returned iff 0 <= Delta < 2**-26, and it is on the ellipse only if the line is tangent, so a secant given by two close points may yield a single point inside the ellipse; ValueError is raised iff the scaled endpoints are np.allclose, even for lines meeting the ellipse.",
  "all ellipses (any angle, degrees or radians), all lines",
  "Soundness and completeness over all inputs.",
  G + ":intersection_ellipse_line", G + ":Affine.inverse", G + ":Affine.transform_line")
p("C17", "Circle.angle and is_orthogonal",
  "For two circles that intersect, angle() returns theta in [0, pi] with cos(theta) = (d^2 - r1^2 - r2^2)/(2 r1 r2); it is pi/2 iff d^2 = r1^2 + r2^2, in which case is_orthogonal is True; disjoint circles beyond the tolerance give None; circles disjoint by less than the tolerance make angle() raise ValueError.",
  "all pairs of circles",
  "Exact characterisation over all pairs including the tolerance band.",
  G + ":Circle.angle", G + ":Circle.is_orthogonal")
p("C18", "orthogonal_through_two_points_on_circle",
  "For angles not differing by a multiple of pi the returned circle is orthogonal to the reference circle and passes through the two points of the reference circle at these angles; with arc=True the arc's two end points are these two points, its span is less than pi and all its points are in the closed reference disk; for angles differing by a multiple of pi the diameter through the first point is returned.",
  "all circles, all pairs of angles (any real numbers)",
  "Angle bookkeeping modulo 2*pi for all real angles.",
  G + ":Circle.orthogonal_through_two_points_on_circle", G + ":Arc")
p("C19", "orthogonal_through_two_points_in_circle",
  "When a circle is returned it passes through P1 and P2 and is orthogonal to the reference circle; when a line is returned it passes through P1, P2 and the centre (up to the closeness tolerance). The interior check compares the distance to the centre with r^2 instead of r: for every r < 1 some interior points are rejected with ValueError, and for every r > 1 some exterior points are accepted. With arc=True the two end points of the arc are P1 and P2 and its circle is orthogonal to the reference circle, but the arc is not always the one inside the reference circle: its span can exceed pi.",
  "all circles, all pairs of points",
  "The guard is right for r = 1 only; a test on one radius cannot settle it.",
  G + ":Circle.orthogonal_through_two_points_in_circle")
p("C20", "random points are where they are documented to be, for every draw",
  "For every outcome of the random generator (non-zero normal pair, uniforms in [0,1)): Circle.random_points(.., 'on') are on the circle and 'in' are in the disk; Triangle.random_points 'on' are on the boundary and 'in' in the closed triangle; Ellipse.random_points 'on'/'in' are on/in the ellipse, for every Cholesky factor.",
  "all shapes and all outcomes of the random source",
  "Tests sample three draws of one shape.",
  G + ":Circle.random_points", G + ":Ellipse.random_points", G + ":Triangle.random_points",
  I + ":runif_on_circle_", I + ":runif_in_circle_", I + ":runif_on_triangle_", I + ":runif_in_triangle_", I + ":runif_on_ellipse_", I + ":runif_in_ellipse_")
p("C21", "Arc.path stays on the circle and joins the end points",
  "path(n) has n points, all on the circle; the first is starting_point(); for n >= 2 the last is ending_point(); the total angle swept is in [0, 2*pi) counterclockwise, in degrees or radians and whatever the angles are modulo a turn.",
  "all arcs, all n >= 1",
  "All n and all angles.",
  G + ":Arc.path", G + ":Arc.starting_point", G + ":Arc.ending_point", I + ":circle_points_")

# ---------------------------------------------------------------- ellipses
p("C22", "Ellipse.equation is the equation of the ellipse",
  "A point satisfies A x^2 + B xy + C y^2 + D x + E y + F = 0 with the coefficients of equation() iff it is on the ellipse (in the frame of centre and axes, X^2/a^2 + Y^2/b^2 = 1); the left side is negative exactly inside, so contains(P) is True iff P is in the closed elliptical disk. includes accepts all points of the ellipse but also, for ellipses with (ab)^2 <= 10**-9, the centre.",
  "all ellipses (degrees or radians), all points",
  "Equivalence over all points.",
  G + ":Ellipse.equation", G + ":Ellipse.contains", G + ":Ellipse.includes")
p("C23", "Ellipse.path, diameter and normal",
  "All n points of path(n) are on the ellipse; diameter(t) joins two points of the ellipse symmetric about the centre, and with conjugate=True the second diameter is parallel to the tangent at the ends of the first; normal(t) is the outward unit vector orthogonal to the tangent at eccentric angle t.",
  "all ellipses, all n, all t",
  "All parameters.",
  G + ":Ellipse.path", G + ":Ellipse.diameter", G + ":Ellipse.normal", I + ":ellipse_points_")
p("C24", "Ellipse.shape_matrix",
  "shape_matrix() is a symmetric matrix S with (M-O)' S (M-O) = 1 iff M is on the ellipse; the intermediate determinants never vanish.",
  "all ellipses, all points M",
  "Equivalence over all points.",
  G + ":Ellipse.shape_matrix")
p("C25", "Ellipse.point_from_angle / theta2t convert a polar angle",
  "For a polar angle theta (from the major axis) which is not an odd multiple of pi, point_from_angle(theta) is on the ellipse on the half-line of polar angle theta from the centre, except that for theta within 2**-26 above an odd multiple of pi the opposite point is returned; if moreover theta is not a multiple of 2 pi, theta2t returns the eccentric angle of that point. theta2t raises ZeroDivisionError at 0 and at the multiples of a full turn.",
  "all ellipses, all angles",
  "The failing band has width 2**-26.",
  G + ":Ellipse.point_from_angle", G + ":Ellipse.theta2t")
p("C26", "Ellipse.from_equation on an ellipse's own equation",
  "Ellipse.from_equation(*ell.equation().values()) succeeds iff the squared distance from the centre to the origin is less than rmajor^2 + rminor^2; otherwise it raises ValueError although the equation is that of an ellipse. When it succeeds the result denotes the same set of points and has rmajor >= rminor, except for the non-circular ellipses with A = C (axes at 45 degrees), for which the returned angle is 0 and the result is a different ellipse.",
  "all ellipses (any centre, radii, angle)",
  "The round-trip test uses one ellipse that happens to satisfy the guard (25 < 26).",
  G + ":Ellipse.from_equation", G + ":Ellipse.equation")
p("C27", "Ellipse.from_equation on arbitrary coefficients",
  "Whenever from_equation returns an ellipse and A != C or B = 0, the returned ellipse is exactly the zero set of the polynomial; the guard always implies that the square roots are defined, and negating or rescaling all six coefficients does not change the result.",
  "all six-tuples of real coefficients",
  "Zero-set equality for all coefficients.",
  G + ":Ellipse.from_equation")
p("C28", "equation_from_five_points passes through the five points",
  "The coefficients returned by equation_from_five_points vanish at each of the five points, and every conic through these points is a multiple of the returned one; for five distinct points of an ellipse the call succeeds and the zero set is that ellipse; otherwise ValueError. from_five_points, when it returns an ellipse with A != C or B = 0, returns an ellipse passing through the five points; for five distinct points of an ellipse it succeeds iff the squared distance of the centre to the origin is less than rmajor^2 + rminor^2.",
  "all five-tuples of points",
  "Polynomial identity in ten variables.",
  G + ":Ellipse.equation_from_five_points", G + ":Ellipse.from_five_points")
p("C29", "Ellipse.from_center_and_matrix",
  "For every symmetric matrix S and every correct eigen-decomposition, the call succeeds iff S is positive definite, the returned ellipse is {M : (M-O)' S (M-O) = 1} and rmajor >= rminor; otherwise ValueError. Composed with shape_matrix it gives back the same set of points.",
  "all centres, all symmetric matrices, all valid eigh outputs (sign of eigenvectors free)",
  "LAPACK's sign choice is free; all must work.",
  G + ":Ellipse.from_center_and_matrix", I + ":ellipse_from_center_and_eigen_")
p("C30", "Ellipse.from_boundary3 passes through the three points",
  "For three non-collinear points from_boundary3 returns an ellipse centred at the centroid passing through the three points (the Steiner circumellipse), and no ellipse containing the three points has a smaller area; for collinear points it raises LinAlgError.",
  "all triples of points",
  "All triples.",
  G + ":Ellipse.from_boundary3")
p("C31", "LownerJohnEllipse contains every input point, for every random choice",
  "With the declared numpy (>= 1.24, where np.float no longer exists) a call LownerJohnEllipse(points) terminates for every sequence of random choices and either raises or returns an ellipse that contains all the points and has the smallest area among the ellipses containing them; it returns None iff fewer than three points are given; as soon as the search reaches four boundary points it raises, so the call raises for the four corners of every rectangle.",
  "all point lists, all random choice sequences",
  "All random schedules.",
  G + ":Ellipse.LownerJohnEllipse", G + ":Ellipse.from_boundary4")

# ---------------------------------------------------------------- inversions
p("C32", "Inversion.invert is involutive away from the tolerance",
  "For non-zero power, invert(invert(M)) = M whenever neither M nor its image is allclose to the pole; also for the point at infinity and the pole itself. It is not involutive without this condition: points far away are sent so near the pole that the second inversion returns infinity. M and its image are collinear with the pole and the (signed) product of distances is the power.",
  "all inversions (positive or negative power), all points including infinity",
  "The failure only appears for extreme points.",
  G + ":Inversion.invert")
p("C33", "Inversion.invert_circle is the image of the circle",
  "When invert_circle returns a circle, a point (not the pole) is on the original circle iff its inverse is on the returned circle; when the pole is on the circle, a line is returned that contains the inverse of every other point of the circle. Inverting twice gives back the circle. When the pole is off the circle by less than the tolerance the returned line is not the image. Power 0 raises ValueError. A circle of radius at most 2**-13 centred at the pole cannot be inverted: ValueError.",
  "all inversions, all circles, all points",
  "Set equality of images.",
  G + ":Inversion.invert_circle")
p("C34", "Inversion.invert_line is the image of the line",
  "For a line not through the pole the result is a circle through the pole such that a point is on the line iff its inverse is on the circle; a line through the pole is returned unchanged (and so is a line that misses the pole by less than the closeness tolerance of its defining points, although it is not its image).",
  "all inversions, all lines, all points",
  "Set equality of images.",
  G + ":Inversion.invert_line", G + ":Triangle.circumcircle")
p("C35", "Inversion.compose is the composition",
  "iota1.compose(iota2).transform(M) = iota2.invert(iota1.invert(M)) (left) and iota1.invert(iota2.invert(M)) (right) for every M away from the tolerances, for positive and negative powers.",
  "all pairs of inversions, all points",
  "Functional equality.",
  G + ":Inversion.compose", I + ":inversion_to_conjugate_mobius_", G + ":Mobius.transform")
p("C36", "Inversion.from_swapping_two_circles swaps the circles",
  "For every two circles that are not congruent-and-tangent the returned inversion maps circ1 onto circ2 and circ2 onto circ1 whichever sign is asked, the sign of the power is the requested one except in the cases announced on stdout, and for congruent tangent circles the call returns None (not the documented Reflection). For two different circles an announced switch of sign is unavoidable; for one and the same circle it is not: the announcement is wrong.",
  "all pairs of circles, both values of positive",
  "All configurations and radii.",
  G + ":Inversion.from_swapping_two_circles")
p("C37", "Inversion.from_fixing_two_circles / from_fixing_three_circles",
  "The returned inversion maps each of the two (three) circles onto itself, provided its power is not in the tolerance band around 0 (then invert_circle never returns a circle). For concentric circles from_fixing_two_circles yields non-finite attributes.",
  "all pairs (triples) of circles with distinct (non-collinear) centres",
  "All configurations.",
  G + ":Inversion.from_fixing_two_circles", G + ":Inversion.from_fixing_three_circles")
p("C38", "Inversion preserves tangency, to any depth",
  "If two circles are tangent then so are their images by any finite sequence of inversions (as long as the images are circles), so every generation of an inversion gasket keeps the tangencies of the first one; conversely tangent images come from tangent circles; orthogonality and the absolute inversive distance are preserved as well.",
  "all tangent pairs, all finite sequences of inversions",
  "Unbounded depth.",
  G + ":Inversion.invert_circle")
p("C39", "Inversion.invert_gcircle never works",
  "invert_gcircle raises TypeError for every argument (isinstance is called with a string).",
  "all arguments",
  "The method is not tested; the claim is for every argument.",
  G + ":Inversion.invert_gcircle")
p("C40", "SteinerChain: a closed chain of tangent circles",
  "For n >= 3 and phi = 0, and for 0 < |phi| < 1 as long as no inverted circle falls in the tolerance band, SteinerChain returns n+1 circles such that consecutive chain circles (cyclically) are externally tangent, each is internally tangent to c0 and externally tangent to the last (inner) circle. No two circles of the chain overlap, the inner circle has the closed form given by n and phi and is inside c0, and shift + 1 gives the same chain rotated by one place. For n <= 0, n = 2, and |phi| = 1 it always raises ValueError.",
  "all outer circles, all n, all phi, all shifts",
  "All n and parameters.",
  G + ":SteinerChain", G + ":SteinerChain_phi0_")
p("C41", "SteinerChain: the centres are on the returned ellipse",
  "The centres of all n chain circles lie on the ellipse returned by SteinerChain.",
  "all outer circles, all n >= 3, |phi| < 1, all shifts",
  "All parameters.",
  G + ":SteinerChain")

# ---------------------------------------------------------------- triangles
p("C42", "Triangle.orientation has the opposite sign of its documentation",
  "orientation is 0 iff the vertices are collinear; it is -1 for every counterclockwise triangle and 1 for every clockwise one, the opposite of the documented convention.",
  "all triangles",
  "Universally quantified sign claim; the property has no test.",
  G + ":Triangle.orientation")
p("C43", "Triangle.contains is strict interior",
  "For a non-flat triangle contains(M) is True iff M is a convex combination of the vertices with three positive weights; it is False for every M when the triangle is flat.",
  "all triangles, all points",
  "Equivalence over all points.",
  G + ":Triangle.contains")
p("C44", "Triangle angles, flatness and is_acute",
  "The three angles of a non-flat triangle are in (0, pi) and add up to pi; flatness is in [0,1] and equals 1 iff the triangle is flat (A, B, C collinear with A distinct from B and C), and raises ZeroDivisionError when A = B or A = C; is_acute is True iff no angle exceeds pi/2 (right triangles included).",
  "all triangles",
  "Angle sum for all triangles.",
  G + ":Triangle.angleA", G + ":Triangle.angleB", G + ":Triangle.angleC", G + ":Triangle.flatness", G + ":Triangle.is_acute")
p("C45", "Triangle.circumcircle passes through the vertices",
  "For a non-flat triangle circumcircle() returns the unique circle through the three vertices; for a flat one (A distinct from B and C) None; ZeroDivisionError iff A = B or A = C.",
  "all triangles",
  "Existence and uniqueness for all.",
  G + ":Triangle.circumcircle")
p("C46", "Triangle.incircle is tangent to the three sides",
  "For a non-flat triangle incircle() returns a circle whose centre is strictly inside the triangle and at distance radius from each side line; the tangency points are on the sides. For a flat triangle it raises ValueError.",
  "all non-flat triangles",
  "All triangles; involves Heron's formula.",
  G + ":Triangle.incircle")
p("C47", "Triangle.excircles are tangent to the three side lines",
  "For a non-flat triangle each excircle is tangent to the three side lines and its centre is on the other side of the corresponding edge. For a flat triangle it raises ValueError.",
  "all non-flat triangles",
  "All triangles.",
  G + ":Triangle.excircles")
p("C48", "Triangle.orthic_triangle has the feet of the altitudes as vertices",
  "For all pairwise distinct vertices, including right triangles (where the code divides by zero) and flat ones, the vertices returned are the feet of the three altitudes.",
  "all non-flat triangles",
  "Right triangles are a measure zero set where an IEEE infinity is relied upon.",
  G + ":Triangle.orthic_triangle")
p("C49", "Triangle.malfatti_circles are tangent to the sides and to each other",
  "For every non-flat triangle the three circles returned are pairwise externally tangent and each is tangent to two sides, with its disc inside the triangle; the tangency points returned are common points of the pairs of circles. A flat triangle (A distinct from B and C) gives None; A = B or A = C a ZeroDivisionError.",
  "all non-flat triangles",
  "All triangles.",
  G + ":Triangle.malfatti_circles")
p("C50", "Triangle.equal_detour_point has equal detours",
  "For every non-flat triangle the point P and the number d returned are such that P is inside the triangle and PA + PB - AB = PB + PC - BC = PC + PA - CA = d.",
  "all non-flat triangles",
  "All triangles.",
  G + ":Triangle.equal_detour_point")
p("C51", "Steiner ellipse and inellipse",
  "For every non-flat triangle (not in the tolerance band of the collinearity test) steiner_ellipse() passes through the three vertices, is centred at the centroid and has the smallest area among all ellipses containing the vertices; steiner_inellipse() is centred at the centroid, passes through the midpoints of the sides and is tangent to them there. A non-flat triangle with two vertices within the np.allclose tolerance raises AttributeError.",
  "all non-flat triangles",
  "All triangles.",
  G + ":Triangle.steiner_ellipse", G + ":Triangle.steiner_inellipse", G + ":Affine.transform_ellipse")

# ---------------------------------------------------------------- affine
p("C52", "Affine.compose and inverse are composition and inverse",
  "f.compose(g).transform(P) = g.transform(f.transform(P)) (left) or f.transform(g.transform(P)) (right); inverse() returns None iff the linear part is singular and otherwise a two-sided inverse; composing any finite list of maps acts as the composition of the list.",
  "all affine maps, all points, all finite lists of maps",
  "Functional laws.",
  G + ":Affine.compose", G + ":Affine.inverse", G + ":Affine.transform")
p("C53", "Affine.from_mapping_three_points maps Pi to Qi and is the only affine map doing so",
  "For non-collinear P1,P2,P3 and non-collinear Q1,Q2,Q3 the returned map sends Pi to Qi, and any affine map with this property takes the same values everywhere; if a triple is collinear the call returns None.",
  "all six-tuples of points",
  "Uniqueness quantifies over maps.",
  G + ":Affine.from_mapping_three_points")
p("C54", "Affine.transform_ellipse is the image of the ellipse",
  "For an invertible map f and an ellipse or circle e, transform_ellipse returns an ellipse e' with rmajor >= rminor > 0 such that M is on e iff f(M) is on e'; for a singular map it returns None.",
  "all affine maps, all ellipses and circles, all points",
  "Set equality of images.",
  G + ":Affine.transform_ellipse")
p("C55", "Affine.from_ellipse_to_ellipse and transform_line",
  "The map returned by from_ellipse_to_ellipse(e1, e2) sends M to a point of e2 iff M is on e1 (circles or ellipses, degrees or radians); transform_line returns None for a singular map, otherwise the image line with its flags, or raises ValueError exactly when the images of the two defining points are np.allclose.",
  "all pairs of ellipses/circles, all lines, all points",
  "Set equality.",
  G + ":Affine.from_ellipse_to_ellipse", G + ":Affine.transform_line")

# ---------------------------------------------------------------- Mobius
p("C56", "Mobius transform is a group action on the extended plane",
  "For matrices with non-zero determinant, compose (left/right) acts as composition on all points including infinity, inverse() as the inverse bijection, and the composition of any finite list acts as the composition of the list.",
  "all invertible matrices, all points including infinity, all finite lists",
  "Action laws including the point at infinity and the poles.",
  G + ":Mobius.transform", G + ":Mobius.compose", G + ":Mobius.inverse")
p("C57", "Mobius.power is iteration",
  "power(k) acts as the k-fold iterate of transform for k >= 0 and as the |k|-fold iterate of the inverse for k < 0, for every integer k; a non-integer k raises ValueError.",
  "all invertible matrices, all integers k, all points including infinity",
  "Induction on k.",
  G + ":Mobius.power")
p("C58", "Mobius.gpower is a one-parameter group",
  "For an invertible matrix that is either exactly parabolic or outside the tolerance band of the discriminant test, gpower(s) followed by gpower(t) is gpower(s+t), gpower(1) is the transformation itself and gpower(0) the identity, for every valid eigendecomposition. The discriminant test is not invariant under scaling of the matrix: there are matrices for which gpower(1) is a different transformation, and matrices for which gpower raises LinAlgError for every exponent.",
  "all matrices, all real exponents",
  "All exponents.",
  G + ":Mobius.gpower")
p("C59", "Mobius.fixed_points",
  "When c = 0 or the discriminant (a-d)^2+4bc is a non-negative real number the returned points are without repetition exactly the finite fixed points (inf is returned only if it is fixed, but is missing for z -> az+b with a different from 1). When c is not 0, the real part of the discriminant is non-negative and its imaginary part is not zero, no returned point is fixed, and when its real part is negative the call raises ValueError, although two fixed points exist.",
  "all non-identity invertible matrices",
  "All matrices; the untested method silently drops an imaginary part.",
  G + ":Mobius.fixed_points")
p("C60", "Mobius.transform_circle is the image of the circle",
  "When the pole is not on the circle the result is a circle and a finite non-pole point is on the original circle iff its image is on the result; when the pole is on the circle the result is a line containing the image of all other points. When the disc of the circle does not contain the pole, the open (closed) disc of the result is the set of the images of the points of the open (closed) disc.",
  "all invertible matrices, all circles, all points",
  "Set equality of images.",
  G + ":Mobius.transform_circle")
p("C61", "Mobius.transform_circle may not terminate",
  "For every circle of radius at most 5e-9 through the pole of a transformation the search loop of transform_circle never ends (every point of the circle is allclose to the pole); if the square of the radius exceeds twice the squared tolerances at the pole, each of the two searches ends after at most 21 tests and they yield two different points.",
  "all circles through the pole",
  "Non-termination cannot be observed by a finite test.",
  G + ":Mobius.transform_circle")
p("C62", "Mobius.transform_line is the image of the line",
  "When transform_line returns a circle, a non-pole point is on the line iff its image is on the circle; when the line passes through the pole (and neither defining point is the pole) the result is a line containing the image of every other point of the line; if a defining point is the pole it raises ValueError. Rescaling the matrix, which does not change the transformation, can change the result from a circle to a line.",
  "all invertible matrices, all lines, all points",
  "Set equality of images; scale dependence.",
  G + ":Mobius.transform_line")
p("C63", "Mobius.from_mapping_three_points",
  "For finite distinct P1,P2,P3 and finite distinct Q1,Q2,Q3 the returned transformation sends Pi to Qi and is unique as a transformation; repeated points give None. The documented case of an infinite point never works: the branches for inf are unreachable and the resulting matrix is not finite.",
  "all six-tuples of points",
  "Uniqueness and the unreachable branches.",
  G + ":Mobius.from_mapping_three_points", I + ":mobius_from_three_points_to_zero_one_inf_", I + ":is_inf_")
p("C64", "Mobius.from_mapping_one_circle",
  "The returned transformation maps a finite non-pole point of the plane to circ2 iff the point is on circ1; it maps the centre of circ1 to infinity, infinity to the centre of circ2 and the interior of circ1 to the exterior of circ2.",
  "all pairs of circles, all points",
  "Set equality.",
  G + ":Mobius.from_mapping_one_circle")
p("C65", "cross_ratio",
  "For four distinct points the cross ratio is a real number iff the four points lie on one circle or one line, and it is invariant under every Moebius transformation with no pole among them; repeated points raise ValueError.",
  "all four-tuples of points, all invertible matrices",
  "Equivalence and invariance over all inputs.",
  G + ":cross_ratio")

# ---------------------------------------------------------------- number theory
p("C66", "unimodular_matrices enumerates exactly the Farey-neighbour matrices",
  "For n >= 2 unimodular_matrices(n) is the identity followed by a duplicate-free list consisting of exactly the integer matrices [[p, r], [q, s]] with p s - r q = 1, 1 <= p, r <= n, 0 <= q <= p, 0 <= s <= r; n = 1 gives the identity only and n < 1 raises ValueError.",
  "all integers n",
  "Unbounded n; needs the Farey neighbour theorem.",
  G + ":unimodular_matrices", I + ":farey_stack_", I + ":farey_")

# ---------------------------------------------------------------- other transformations
p("C67", "Projection",
  "For D and Delta not parallel and M not both off D and within np.allclose tolerance of a defining point of D, project(M) is the unique point of D such that project(M) - M is parallel to Delta (orthogonal to D when Delta is None), and project is idempotent; as_affine() is the projection for every point provided (0,0), (1,0), (0,1) are such points M, and may be wrong everywhere otherwise (orthogonal projection on y = 1e-9). For D and Delta parallel, projecting a point off D gives a non-finite point.",
  "all pairs of non-parallel lines, all points",
  "All inputs.",
  G + ":Projection")
p("C68", "Rotation",
  "rotate is an isometry fixing the centre, turning every vector by theta; rotations with the same centre compose additively; rotate_circle / rotate_line / rotate_ellipse are the images; as_affine() has the same action; degrees and radians agree.",
  "all rotations, all points, circles, lines and ellipses",
  "All angles.",
  G + ":Rotation")
p("C69", "Shear does not fix its vertex",
  "Shear.transform agrees with as_affine().transform and preserves areas; but the matrix is used untransposed: the shear vector w is sent to w + (tan(angle)/ratio) w_perp instead of being fixed, and the vertex is fixed iff tan(angle) = 0 or the vertex is the origin. A zero vector gives LinAlgError.",
  "all shears, all points",
  "The tests only compare batch with single-point evaluation.",
  G + ":Shear")
p("C70", "ScalingXY and Homothety",
  "transform fixes the centre and multiplies the coordinates (vector) from the centre by sx, sy (scale); as_affine() has the same action; Homothety.transform_circle is the image circle, and scale 0 raises ValueError.",
  "all scalings, all points, all circles",
  "All inputs.",
  G + ":ScalingXY", G + ":Homothety")
p("C71", "Scaling and scale_circle",
  "Scaling.transform fixes the centre, multiplies by the scale along the direction and fixes the orthogonal component; as_affine() agrees (LinAlgError for a zero direction, although transform then acts as if the direction were (1,0)); scale_circle returns the image of the circle for every non-zero scale and raises ValueError for scale 0; the returned rmajor is >= rminor iff scale >= -1.",
  "all scalings with non-zero direction, all points, all circles",
  "All inputs; negative scales untested.",
  G + ":Scaling")
p("C72", "Batch transforms are pointwise",
  "For Rotation, Shear, ScalingXY, Homothety, Scaling and Affine, transforming an n x 2 matrix gives the matrix of the transformed rows, for every n including 0; a 0-d array, a 1-d array of length other than 2 or a matrix whose number of columns is not 2 raises ValueError (so do arrays of higher dimension, Affine excepted).",
  "all transformations, all n, all matrices",
  "All n and shapes.",
  G + ":Rotation.rotate", G + ":Shear.transform", G + ":ScalingXY.transform", G + ":Homothety.transform", G + ":Scaling.transform", G + ":Affine.transform")
p("C73", "Constructors accept exactly the documented arguments",
  "Circle(center, radius) succeeds iff center is a 1-d sequence of exactly two real numbers and radius is a real number that is not <= 0 (NaN is accepted); every other argument raises ValueError, except that a valid point with an integer coordinate too large for a float raises OverflowError; similarly for Line (whose extendA and extendB are not checked), Ellipse, Arc, Inversion, Triangle, Rotation, Shear, ScalingXY, Homothety and Scaling. Methods taking a point or infinity accept both float infinities; numbers of points must be positive ints (True counts as 1).",
  "all Python values of the modelled universe",
  "All argument shapes.",
  I + ":is_point_", I + ":is_number_", I + ":error_if_not_positive_", G + ":Circle.__init__")
p("C74", "approx_equal_ and allclose-based equality of circles and ellipses",
  "approx_equal_ is reflexive and symmetric; Circle.is_equal is reflexive and is not transitive nor symmetric in general; Ellipse.is_equal is reflexive, but is False for two representations of the same round ellipse with different angles and for the same ellipse described with angles just below 180 and 0.",
  "all circles and ellipses",
  "Relational laws.",
  I + ":approx_equal_", G + ":Circle.is_equal", G + ":Ellipse.is_equal")

# ---------------------------------------------------------------- sharing and effects
p("C75", "Objects share the float arrays they are given, and copy everything else",
  "An object made from a float64 array keeps a reference to it: after circ = Circle(center, r), assigning to center moves the circle, and a Line made from two arrays can become degenerate although the constructor refuses equal points; tuples, lists and integer arrays are copied, and no later assignment to the caller's arrays changes the object. Inversion.on_circle(circ) and Reflection(line) share the arrays of their argument; reflecting an array on the line returns that very array (so a circle centred on the line and its mirror image share their centre) and reflecting any other point returns a new one; Inversion.invert(inf) returns the pole itself, so that assigning to the result moves the pole.",
  "all heaps, all arrays and sequences, all later assignments",
  "Quantifies over all later writes.",
  G + ":Circle.__init__", G + ":Line.__init__", G + ":Inversion.__init__", G + ":Inversion.on_circle", G + ":Reflection.__init__", G + ":Inversion.invert")
p("C76", "Ellipse.point_from_angle overwrites its array of angles",
  "point_from_angle on a vector of angles returns the point of each angle, one row per angle (a vector of length one gives a point). With degrees=True a float64 array argument is overwritten by its values times pi/180 and no other array is written, so k calls multiply it by (pi/180)^k and the second of two identical calls returns another point; with degrees=False, and for numbers, lists, tuples and integer arrays, nothing is modified.",
  "all heaps, all ellipses, all arrays of angles, all numbers of calls",
  "Side effects for all inputs; the tests pass scalars.",
  G + ":Ellipse.point_from_angle")
p("C77", "show describes the object, except for projections",
  "The last line printed by Line.show names the set of points accepted by includes(M, strict=True) among the points of the line (half-lines without their origin); Triangle.show says flat iff the vertices are collinear (with A distinct from B and C), almost flat iff the squared sine of the angle at A is below 0.01, nothing otherwise, and raises ZeroDivisionError after printing the vertices if A = B or A = C; Shear.show prints a second vector orthogonal to the first and ratio times as long; the unit printed for an angle is the right one, in the singular iff the angle is 1 (for shears also 0); Projection.show always raises AttributeError. Two objects of the same class for which show prints the same thing are equal (for reflections: their lines are given by the same points), and no label is printed twice.",
  "all lines, triangles, ellipses, rotations, shears and projections",
  "All objects; the tests never call show.",
  G + ":Line.show", G + ":Triangle.show", G + ":Projection.show", G + ":Shear.show", G + ":Ellipse.show", G + ":Rotation.show")

# ---------------------------------------------------------------- binary64
p("C78", "In binary64, constructed circles include their defining points",
  "With real double arithmetic and coordinates up to 2^500: includes(P) is True if the exact |d^2 - r^2| is at most 0.9999e-9 (1 + max(d^2, r^2)) and False if it exceeds 1.0001e-9 times that; circleOA(O, A) raises ValueError if the points are allclose and otherwise has a radius accurate to 4 units roundoff and includes A; circleAB(A, B) includes both ends if the coordinates are at most 262144 times the distance, and need not otherwise (there are points with |AB|^2 = 5 which are not accepted); for integer coordinates up to 10000, includes is exact; is_orthogonal has the same tolerance. A circle is rejected with ValueError exactly when its radius is not positive; a point counts as equal to the origin exactly when its coordinates are at most the double 1e-8.",
  "all binary64 circles and points (|coordinates| <= 2^500), all orders of evaluation of the scalar product (with or without fused multiply-add)",
  "Rounding errors over all doubles; the tests try a few points.",
  G + ":Circle.includes", G + ":Circle.is_orthogonal", G + ":circleOA", G + ":circleAB")
p("C79", "In binary64, contains and power are accurate, but a circle need not contain its own point",
  "power(P) is d^2 - r^2 with an error of at most 6 units roundoff times (d^2 + r^2); contains(P) decides d^2 <= r^2 correctly outside a relative band of 6 units roundoff; both are exact if the coordinates and the radius are multiples of a power of two with 25 bits (radius 26 bits), e.g. integers; there are integer points for which circleOA(O, A).contains(A) is False.",
  "all binary64 circles and points (|coordinates| <= 2^500), all orders of evaluation",
  "Rounding errors over all doubles.",
  G + ":Circle.contains", G + ":Circle.power", G + ":circleOA")
p("C80", "In binary64, Line.includes accepts the exact points of the line",
  "Line(A, B).includes(M) never raises for |coordinates| <= 2^240, accepts M whenever the tangent of the angle BAM is at most 2^-28 (in particular exact points of the line), and rejects M if it exceeds 2^-26 and no two of A, B, M are allclose; it is exact for integer coordinates up to 2800; it accepts (100, y) on the line through (0,0), (1,0) for some y > 1e-7.",
  "all binary64 points with |coordinates| <= 2^240",
  "Rounding errors over all doubles.",
  G + ":Line.includes", I + ":collinear_")
p("C81", "In binary64, the orientation of a triangle is exact for integers and can be wrong in general",
  "orientation() is the sign of the exact determinant whenever its absolute value exceeds 4 units roundoff times the sum of the absolute values of its two products (plus an underflow term); it is exact, including 0, if the coordinates are multiples of a power of two with 25 bits; there are triangles for which it has the wrong sign, flat ones reported as oriented and non-flat ones as flat.",
  "all binary64 triangles with |coordinates| <= 2^500",
  "Rounding errors over all doubles.",
  G + ":Triangle.orientation")
p("C82", "In binary64, Inversion.invert is accurate",
  "invert(M) is infinity iff the pole and M are allclose; otherwise it is finite, and each coordinate differs from the exact p + t, t = k (m - p) / d^2, by at most one unit roundoff times |p + t| plus 10 units roundoff times |t| plus an underflow term.",
  "all binary64 inversions with |power| <= 2^400, all points with |coordinates| <= 2^500, all orders of evaluation",
  "Rounding errors over all doubles.",
  G + ":Inversion.invert")
p("C83", "In binary64, a circle includes its own points",
  "includes(point_from_angle(alpha)) is True for every angle, in degrees or radians, if the coordinates of the centre are at most 2^20 times the radius, for every C library whose cosine and sine are accurate to one unit in the last place of 1; its coordinates differ from those of the exact point by at most u|centre| + (5 + 3|angle in radians|) u r plus an underflow term, u = 2^-53; for the circle of radius 1 with centre (1e17, 0) it is False.",
  "all binary64 circles with |centre| <= 2^20 r, r <= 2^498, all angles up to 2^1020, all sufficiently accurate libm",
  "Rounding errors over all doubles and all angles.",
  G + ":Circle.point_from_angle", G + ":Circle.includes")
p("C84", "In binary64, the angles of a triangle can raise ValueError",
  "The argument of acos in angleA is the cosine of the angle with an error of at most 15 units roundoff when the two sides are at least 1e-10; no exception is raised when the cosine is at most 1 - 15 units roundoff in absolute value; but the triangle (0,0), (3,3), (6,6) and some non-flat triangle raise ValueError (math domain error).",
  "all binary64 triangles with |coordinates| <= 2^500 and sides at least 1e-10, all orders of evaluation",
  "Rounding errors over all doubles.",
  G + ":Triangle.angleA")
p("C85", "In binary64, is_acute is correct except near right angles",
  "is_acute is True only if each squared side is at most (1 + 21 units roundoff) times the sum of the other two, and is True if each is at most (1 - 21 units roundoff) times that sum; of right-angled triangles with integer vertices some are acute and some are not.",
  "all binary64 triangles with |coordinates| <= 2^500 and sides at least 1e-10, all orders of evaluation",
  "Rounding errors over all doubles.",
  G + ":Triangle.is_acute")
p("C86", "In binary64, lines through integer points",
  "For integer coordinates below 2^25, is_parallel and is_perpendicular are exact; for dyadic coordinates of 25 bits is_parallel is exactly |det| < 2^-26; in general is_perpendicular is the test |u.v| <= 1e-9 up to 5 units roundoff of the two products; for coordinates that are multiples of a power of two with 16 bits, the intersection of two lines is None iff they are parallel and otherwise the correctly rounded exact intersection; for larger integers the intersection of two secant lines can be None.",
  "all lines through binary64 points with integer (resp. dyadic) coordinates",
  "Rounding errors over all doubles.",
  G + ":Line.is_parallel", G + ":Line.is_perpendicular", I + ":line_line_intersection_")

p("C87", "Triangle constructions commute with similarities",
  "For every map of the plane that multiplies all distances by the same factor (rotation, translation, reflection, scaling), incircle, circumcircle, excircles, orthic_triangle, equal_detour_point and malfatti_circles of the image triangle are the images of those of the triangle, with the same exceptions and the same None; contains, the angles, is_acute and flatness are unchanged, the sides are scaled and the orientation is kept for all triangles or negated for all. The two Steiner ellipses are mapped to each other when both calls succeed, but for the image of a triangle under a small scaling the call can raise AttributeError.",
  "all triangles, all similarities of the plane",
  "A property of pairs of calls over a continuum of maps.",
  G + ":Triangle.incircle", G + ":Triangle.circumcircle", G + ":Triangle.excircles", G + ":Triangle.orthic_triangle", G + ":Triangle.equal_detour_point", G + ":Triangle.malfatti_circles", G + ":Triangle.contains", G + ":Triangle.orientation", G + ":Triangle.steiner_ellipse", G + ":Triangle.steiner_inellipse")
p("C88", "Triangle constructions do not depend on the order of the vertices",
  "For every reordering of the vertices of a non-degenerate triangle, incircle, circumcircle and equal_detour_point are equal; the excircle, the foot of the altitude, the Malfatti circle with its tangency point, the angle and the opposite side that belong to a vertex stay with it; contains and is_acute are equal; orientation is kept by cyclic reorderings and negated by exchanges. flatness depends on the first vertex, and for a triangle with two equal vertices circumcircle is None or raises ZeroDivisionError according to the order.",
  "all triangles, all six orders",
  "A property of pairs of calls over all triangles.",
  G + ":Triangle.incircle", G + ":Triangle.circumcircle", G + ":Triangle.excircles", G + ":Triangle.orthic_triangle", G + ":Triangle.equal_detour_point", G + ":Triangle.malfatti_circles", G + ":Triangle.flatness", G + ":Triangle.angleA", G + ":Triangle.a")
p("C89", "Exchanging the two arguments of a symmetric operation",
  "is_parallel, is_perpendicular, is_orthogonal, the angle of two circles, the radical centre of two circles and mid_circles (unequal radii) do not depend on the order of the two objects, nor do, when the calls for both orders give one, the radical axis as a set of points and the radical centre of three circles, nor the two intersection points of two circles as a set. The following do: is_equal for lines and for circles, circleAB (accepting the two points), whether two lines have an intersection point, and the single point returned for two almost tangent circles.",
  "all pairs of lines and circles",
  "A property of pairs of calls; the asymmetric cases are a few units wide in the tenth digit.",
  G + ":Line.is_parallel", G + ":Line.is_equal", G + ":Circle.is_orthogonal", G + ":Circle.angle", G + ":Circle.radical_axis", G + ":mid_circles", G + ":intersection_circle_circle", G + ":intersection_line_line", G + ":circleAB", G + ":radical_center")
p("C90", "Results for a line do not depend on the points that define it",
  "If two Line objects are the same line given by different points, they have the same projection of every point and the same distance, the same intersection point with another line and the same image under an inversion when both calls give one, the same reflection and the same answer of includes for points away from the defining points, and as intersection with a circle both give None, or the same point, or the same two points, or one of them gives a single point where the other gives two. is_parallel, includes near a defining point and the number of intersection points with a circle do depend on the points.",
  "all pairs of Line objects that are equal as sets",
  "A property of pairs of calls over a continuum of representations.",
  G + ":Line.projection", G + ":Line.distance", G + ":Line.includes", G + ":Line.is_parallel", G + ":intersection_line_line", G + ":intersection_circle_line", G + ":Reflection.transform", G + ":Inversion.invert_line")

EX = "examples/"
p("C91", "The elliptical billiard of the examples obeys the law of reflection",
  "For every centred ellipse with horizontal and vertical axes, every number of segments, starting point and direction, when trajectory returns: the segments are chords of the ellipse, each starting where the previous one ends, the first one on the given line; at every bounce the incoming and outgoing unit directions have the same component along the tangent and opposite components across it. Hence, when the horizontal axis is the larger one, the product of the signed distances from the two foci is the same for all segments: if one segment passes through a focus all do, and if one leaves both foci on the same side all are tangent to one smaller ellipse with the same foci. A trajectory of two or more segments started upwards from a point of the ellipse into its inside is not computed: the call raises.",
  "all ellipses, numbers of segments, starting points and directions",
  "The law holds at every bounce of every trajectory, of unbounded length; the invariants of the whole trajectory are not visible in any single segment.",
  EX + "EllipticalBilliard.py:reflect", EX + "EllipticalBilliard.py:trajectory", G + ":Ellipse.normal", G + ":Ellipse.theta2t", G + ":intersection_ellipse_line")

p("C92", "The circles of Circles_simultaneously_tangent are tangent to the three given circles",
  "For every three circles, each circle that the script finds has exactly one point in common with each of the three given circles, and the two circles found are different. For the circles of the script both are found.",
  "all triples of circles of positive radius for which the script returns",
  "Tangency is an equality that floating-point tests can only check approximately, for a continuum of triples of circles.",
  EX + "Circles_simultaneously_tangent.py", G + ":Inversion.from_swapping_two_circles", G + ":Triangle.circumcircle", G + ":Circle.radical_axis", G + ":circleAB", G + ":intersection_circle_circle")

p("C93", "The shortcut methods return the same geometric objects as the functions",
  "Line.reflection mirrors a point in the whole line, also for segments and half-lines, for points not within tolerance of the defining points. Line.invert, when it gives a circle, gives the image of the line. The points returned by intersection_with_circle, intersection_with_ellipse and intersection_with_line of Line, Circle and Ellipse are, when there are two (for two lines: one), exactly the common points, whichever object is asked; None between a line and a circle or ellipse, or between two circles, means that there is no common point. Triangle.edges gives the lengths of BC, CA, AB as a, b, c. Rotation.transform and its variants for circles, lines and ellipses are the rotation by the angle, in the declared unit, about the centre.",
  "all objects accepted by the constructors",
  "The claim is about all objects, and about pairs of methods that must agree.",
  G + ":Line.reflection", G + ":Line.invert", G + ":Line.intersection_with_circle", G + ":Line.intersection_with_ellipse", G + ":Line.intersection_with_line", G + ":Circle.intersection_with_line", G + ":Circle.intersection_with_circle", G + ":Ellipse.intersection_with_line", G + ":Triangle.edges", G + ":Rotation.transform", G + ":Rotation.transform_circle", G + ":Rotation.transform_ellipse", G + ":Rotation.transform_line")

p("C94", "In binary64, transformed points are accurate; which identities are exact",
  "With u = 2^-53, each coordinate returned by Rotation.rotate is within one rounding of the exact coordinate plus (6 + 4 |angle in radians|) u times the 1-norm of M - center (6 u for an angle given in radians), Homothety.transform within u|e| + 3u|(1-s)c| + 2u|s m|, ScalingXY.transform within u|e| + 3u|s (m - o)|, Affine.transform within u|e| + 3u(|a x| + |b y|), each plus a few units of underflow; translations are correctly rounded. The centre is fixed exactly by rotations and axis scalings, the homothety of scale 1 is exactly the identity and that of scale 0 exactly the centre. On the other hand the rotation of angle 0 and the axis scaling of factors 1, 1 are not always the identity, and a homothety does not always fix its centre. With integer factors and points on a common grid of step a power of two, within 53 bits, all but the rotations are exact.",
  "all binary64 points with |coordinates| <= 2^500, all angles up to 2^1020, all scale factors and matrices up to 2^500, all sufficiently accurate libm, all orders of evaluation of the matrix product",
  "Rounding errors over all doubles.",
  G + ":Rotation.rotate", G + ":Homothety.transform", G + ":ScalingXY.transform", G + ":Affine.transform", G + ":Line.translate")

p("C95", "The triangle filled with circles by the gasket example is a packing",
  "For a non-degenerate triangle, when the drawing succeeds: every circle drawn has a positive radius, no two of the discs overlap, every disc lies in the triangle, every circle after the three Malfatti circles is tangent to three different things among the circles drawn before it and the sides of the triangle (three circles, two circles and a side, or one circle and two sides), and there are (7*3^(depth+1) - 1)/2 circles. The only possible failure is ValueError, in a corner: for every triangle it occurs from some depth on (the radii in the corners decrease geometrically, and the drawing fails before they get below 1e-8), and it does not occur while the corner radii are well above the tolerances of the library, as stated in the theorem. The three ways of filling a hole are also correct by themselves, for all circles in the right position.",
  "all non-collinear A, B, C and all depths; all circles of the right position for the three fillings",
  "All triangles and all depths; the number of circles grows exponentially, and tangency is not decidable by samples.",
  EX + "triangularApollonianGasket.py:drawTriangularGasket", EX + "triangularApollonianGasket.py:innerSoddyCircle", EX + "triangularApollonianGasket.py:side_circle_circle", EX + "triangularApollonianGasket.py:side_side_circle", EX + "triangularApollonianGasket.py:new_holes", G + ":Triangle.malfatti_circles", G + ":Triangle.equal_detour_point")

p("C96", "The Apollonian gasket example packs the outer circle",
  "For a circle c0 of positive radius, n >= 3, |phi| < 1 and any number depth >= 2 of generations, when the program of the example succeeds: generation 0 is the Steiner chain with its inner circle (n + 1 circles) and generation i >= 1 has n^i (n - 1) circles; every circle drawn has a positive radius and its disc lies in the disc of c0; no two discs drawn overlap, so no circle is drawn twice; every circle of a generation is tangent to three different circles among those of its generation and of the generations before, or to two of them and, from inside, to c0. The program succeeds for every depth as soon as the inversions exist and the radii of the chain are not too small against the tolerance of the library; in particular with the values of the example. For 3 <= n <= 6, |phi| <= 2/5 and an outer circle of radius 2 to 10 centred at the origin it succeeds if and only if, for every i < n, 2 phi cos((2(i + shift) + 1) pi/n) differs from (1 + phi^2) cos(pi/n). Every picture of the animation exists, for every shift, and the picture for shift + n is that for shift; for another phi a picture can be missing.",
  "all outer circles, n, phi, shift and depths",
  "All chains and all depths: the number of circles grows exponentially with the depth, and tangency or overlap of two circles cannot be decided by samples in binary64.",
  EX + "ApollonianGasket.py:children", EX + "ApollonianGasketMobius.py:children", EX + "ApollonianGasket_animation.py:children", G + ":SteinerChain", G + ":Inversion.from_fixing_three_circles", G + ":Inversion.from_swapping_two_circles", G + ":Inversion.invert_circle")

p("C97", "The Malfatti gasket example packs its outer circle",
  "For a non-degenerate triangle and any depth, when the drawing succeeds: the outer circle has a positive radius and the three Malfatti circles of the triangle touch it from inside; generation i of spheres has 4*3^i members; every circle drawn has a positive radius and its disc lies in the disc of the outer circle; no two of the discs (Malfatti circles and spheres) overlap; every circle is tangent to three different circles among those of its generation and of the generations before, or to two of them and, from inside, to the outer circle. The program moves the triangle so that the outer circle is the unit circle. If the three radii are at least 1/20 of the outer radius, it succeeds, for every depth, if and only if no two Malfatti radii add up to the outer radius; it succeeds with the triangle of the example. There is a triangle for which it fails with ValueError. Outer Soddy circle of three mutually tangent circles (the triangle of their centres): it touches the three from inside when the curvature given by Descartes' formula is negative, from outside when it is positive, and a division by zero occurs when it is zero.",
  "all non-collinear A, B, C and all depths; all triples of mutually tangent circles",
  "All triangles and all depths: the number of circles grows exponentially, tangency is not decidable by samples, and the triangles for which the drawing fails form a set that random samples miss.",
  EX + "MalfattiApollonian.py:drawGasket", EX + "MalfattiApollonian.py:soddyOuterCircle", EX + "MalfattiApollonian_animation.py:drawGasket", G + ":Triangle.malfatti_circles", G + ":Inversion.from_fixing_three_circles", G + ":Inversion.invert_circle")

p("C98", "The modular tessellation fills the unit disc with circles that do not overlap",
  "For every n >= 1 and every u the program ends and draws circles with a positive radius, each the boundary of the image of the disc of centre (0, 3/2) and radius 1/2 by a matrix of the modular group (integer entries, determinant one) with entries at most n in absolute value, followed by the u-th generalised power of R = [[0,-1],[1,1]] and the Cayley transformation. For n >= 2 all such matrices are used. Two circles drawn are equal or their discs do not overlap; the closed discs lie in the open unit disc; every circle touches another one. The list of circles for u + 3 is that for u (the animation loops). In the animation, where every picture changes the matrices in place, each picture contains exactly the circles of the single picture with the same u. For n < 1 the program fails with ValueError.",
  "all n, all real u, all lists of values of u; all argument functions and eigendecompositions of R that numpy may use",
  "All values of n and u: that no two discs overlap rests on the fundamental domain of the modular group, completeness on a statement on all integer matrices; the pictures share mutable state.",
  EX + "ModularTessellation.py:draw_pair", EX + "ModularTessellation_animation.py:draw_pair", G + ":unimodular_matrices", G + ":Mobius.gpower", G + ":Mobius.transform_circle", G + ":Mobius.compose", G + ":Mobius.inverse")

p("C99", "Powers of a Möbius transformation that preserves the unit disc; the moved Apollonian gasket",
  "mobius(gamma, t) for |gamma| < 1: the matrices form a group in t (the product of those for s and t is that for s + t, the identity for t = 0, [[i, gamma], [conj gamma, -i]] for t = 1), with period 2 on the points; each maps the open unit disc into itself and the unit circle into itself. It fails with ZeroDivisionError when |gamma| = 1 and with ValueError when |gamma| > 1. Each picture of the gasket of the unit circle moved by mobius(gamma, t), for every t, is computed without failure; its circles bound the images of the discs of the gasket; it is again a packing: positive radii, discs inside the unit disc, no two overlapping, each circle tangent to three others or to two others and the unit circle. The picture for t = 0 is the gasket, the picture for t + 2 is the picture for t. The program succeeds for every depth and all values of t.",
  "all complex gamma, all real t, all chains (n >= 3, |phi| < 1, any shift) for which the gasket exists, all depths",
  "All real parameters and exponentially many circles; tangency and group laws are equations between real numbers.",
  EX + "ApollonianGasketMobius.py:mobius", EX + "ApollonianGasketMobius.py:children", G + ":Mobius.transform_circle", G + ":SteinerChain")

p("C100", "Hyperbolic tessellations: arcs orthogonal to the circle that never cross",
  "When the script draws its picture, for a circle of any radius r centred at the origin, three angles and a depth at least 2: the picture of generation d has 3*2^d arcs, the i-th one joining the i-th and the next point of a list of 3*2^d points of the circle; the first list is that of the three vertices, each list contains the previous one, and its points are exactly the vertices and the points seen from the centre in the direction of the images of the starting points by at most d inversions in the sides (no side twice in a row). Every arc lies inside the circle, on a circle orthogonal to it; two arcs of the whole picture never cross inside the circle: they meet there only if they are the same. The images are strictly inside the circle if r > 1, and are themselves the ends of the arcs if r = 1. With the radius 3 of the scripts the picture is not a tessellation by inversions: the image of a vertex in a side can be the end of no arc. No picture if a side is a diameter. The second script draws the arcs of the first one without the last generation, 3*(2^(depth-1)-1) of them.",
  "all positive radii, all triples of angles, all depths >= 2 for which the script does not fail",
  "Exponentially many arcs for all real angles; non-crossing and orthogonality are relations between real numbers.",
  EX + "HyperbolicTesselation.py", EX + "HyperbolicTesselation2.py:tessellation2", G + ":Circle.orthogonal_through_two_points_on_circle", G + ":Inversion.invert")

p("C101", "Augmented matrices and Affine.compose with any transformation",
  "For an object of any of the eight classes of affine transformations (Affine, Reflection, Projection, Rotation, Shear, ScalingXY, Homothety, Scaling), get3x3matrix() has last row (0, 0, 1) and applied to (x, y, 1) gives the transformed point, the transformation being described independently (mirror image, projection along the direction, rotation, closed forms). The product of two such matrices is the matrix of the composition. Affine.compose, which only needs get3x3matrix, accepts any of these objects: the result maps P to T(f(P)) for left=True and to f(T(P)) for left=False. For a reflection with equal points, or a shear or scaling with the zero vector, it raises LinAlgError.",
  "all affine maps, all transformations of the eight classes, all points",
  "All real parameters of eight classes and their pairs.",
  G + ":Affine.compose", G + ":Affine.get3x3matrix", G + ":Reflection.get3x3matrix", G + ":Projection.get3x3matrix", G + ":Rotation.get3x3matrix", G + ":Shear.get3x3matrix", G + ":ScalingXY.get3x3matrix", G + ":Homothety.get3x3matrix", G + ":Scaling.get3x3matrix")

p("C102", "The circular gaskets drawn in the Malfatti circles of a triangle",
  "For a circle c0 of positive radius, n >= 3 and depth >= 1, when drawCircularGasket of the example succeeds: generation 0 has n + 1 circles (a chain and its inner circle) and generation i >= 1 has n^i (n - 1) circles; every circle has a positive radius and its disc lies in that of c0; no two discs overlap; every circle is tangent to three different circles among those of its generation and of the generations before, or to two of them and, from inside, to c0. The walls are built from contact points and circumcircles; for depth >= 2 and radii well above the tolerances of the library the program succeeds if and only if, for every i < n, 2 phi cos((2(i + n shift) + 1) pi/n) differs from (1 + phi^2) cos(pi/n) (no wall is a line). When 2|phi| < (1 + phi^2) cos(pi/n), as for the values of the program and of its animation, it succeeds for every depth and every shift (3 <= n <= 6, |phi| <= 2/5, radius at least 1/4); with phi = 2 - sqrt 3, n = 3 and shift = -1/6 it fails for every depth >= 2. The whole picture, for a non-degenerate triangle: all radii are positive, all discs lie in the triangle, no two overlap, and their number is (7*3^(depth+1) - 1)/2 + n1^depth2 + n2^depth2 + n3^depth2; every circle touches three things among the circles drawn, the Malfatti circles and the sides.",
  "all circles, n, phi, shift and depths; all non-degenerate triangles",
  "All chains and depths: the number of circles grows exponentially, tangency and overlap cannot be decided by samples, and the parameters for which a wall is a line form a set that samples miss.",
  EX + "triangularCircularGasket.py:startingCircles", EX + "triangularCircularGasket.py:Circles1", EX + "triangularCircularGasket.py:drawCircularGasket", EX + "triangularCircularGasket.py:drawTriangularGasket", EX + "triangularCircularGasket_animation.py:drawCircularGasket", G + ":Triangle.malfatti_circles", G + ":Triangle.circumcircle", G + ":Inversion.on_circle", G + ":Inversion.invert_circle", G + ":Inversion.invert")

p("C103", "The circles of a Schottky group with two generators",
  "Gn(n) of the example lists every word of n letters a, b, A, B without cancellation exactly once (4*3^(n-1) words). For the angles theta with sin theta <> 0, sin theta <= 1/25 and 3 - sin theta <= 4 cos theta (in particular -1/2 <= theta < 0): the circles of b and B touch the line Ca and the circle CA and do not overlap, and the transformation of each letter sends the outside of the disc of the inverse letter to the disc of the letter. Every word of two letters or more without cancellation has exactly one circle, bounding the image of the disc of its last letter by the transformations of the others; it is inside the circles of the words that begin the word and does not overlap those of the words that neither begin it nor continue it; two words that differ by their last letter only have circles that touch each other when the letters are neither equal nor inverse. For n >= 2 the program succeeds and draws three starting circles, the twelve circles of the words of two letters, and 4*3^(n-1) different circles; any two circles of the picture are equal, nested or do not overlap. The circle computed for the word s1 ... sn is that of the word s(n-1) ... s1 sn, or of s(n-1) ... s1 when sn is the inverse of s1: a circle of n letters is drawn exactly when the last letter is not the inverse of the first, and circles with n - 1 letters are drawn for the words whose first and last letters differ; so not all the circles of the words of Gn(6) are drawn. With n <= 1 the program raises TypeError and with sin theta = 0 ZeroDivisionError.",
  "all n, all words, all angles that meet the condition",
  "The number of words grows exponentially, the regions are infinite sets, and a wrong order of composition still gives a plausible picture of disjoint circles.",
  EX + "Schottky.py:unique_with", EX + "Schottky.py:Gn", EX + "Schottky.py:transfo2seq", EX + "Schottky.py:Mobs", EX + "Schottky.py:Circles", EX + "Schottky.py:circle", G + ":Mobius.compose", G + ":Mobius.inverse", G + ":Mobius.transform_circle", G + ":Mobius.transform_line")

p("C104", "Three generations of circles and lines by inversion",
  "The program inverts the circles of radius 1 about (1,0), (0,1), (-1,0), (0,-1) and the circle of radius 2 about the origin on each other. With up to four generations after the first one (the program has three) it succeeds; a generation is, in order, the list of the images of the objects of the previous one by the inversions on the circles other than the last one used, so that it has four times as many objects. Twice the curvature of every circle and the coordinates of its centre times its curvature are integers, and the lines are x = e or y = e with integer e. Two of these circles or lines are the same, or have at most one common point, or are orthogonal. The picture has every circle of the generations exactly once; but of two lines that are opposite (x = e and x = -e) only one is kept, because Line.is_equal says that they are equal. With three generations the picture has 149 circles and 6 lines x = 2, y = 2, x = -6, y = -6, x = 10, y = 10 out of 12: the line x = -2 is not drawn.",
  "every number of generations up to four after the first one (the tolerances do not matter there); all pairs of objects",
  "The 425 objects of the program cannot be listed by hand, nor the pairs; a missing line in a dense picture is not an error that a test reports.",
  EX + "Inversions.py:unique_with", EX + "Inversions.py:gen0", EX + "Inversions.py:gen1", EX + "Inversions.py:gen2", EX + "Inversions.py:gen3", EX + "Inversions.py:gcircles", G + ":Inversion.invert_circle", G + ":Inversion.invert_line", G + ":Line.is_equal", G + ":Circle.is_equal")

p("C105", "Nested, elliptical and 3D Steiner chains of the examples",
  "Whatever the examples on Steiner chains draw is what they show: n circles touching the circle c0 from inside, the circle in the middle and their neighbours, none overlapping, and in each of them such a chain of n' circles; all the small circles are inside c0 and none overlaps another one or the circle in the middle. When f = Affine.from_ellipse_to_ellipse(c0, ell0), the ellipses f.transform_ellipse(c) are copies of ell0 scaled by the ratio of the radii, and they form the same closed chains in ell0 (touching means exactly one common point). In 3D, the spheres transformed by the matrix made of f and of the height factor h are the ellipsoids over these ellipses with vertical half axis h times the radius, and they form the same closed chains in the ellipsoid over ell0; the point the camera looks at is the centre of the ellipsoid in the middle, and is the same for every shift. The programs succeed for every shift as soon as the tolerance of the inversion is met by c0 and by the smallest radius of the chain, which is r0 s (1-|phi|)/(1+|phi|+s(1-|phi|)) with s = sin(pi/n) (attained, as is the largest one); the values of all the programs satisfy it. Adding n to the shift and subtracting n' from the other one gives the same frame, so that the animations are closed, and adding integers gives the same circles in another order. The 100 points of the ellipse drawn over a chain are distinct and on the ellipse of the centres: the sum of their distances to the centres of c0 and of the circle in the middle is the sum of the radii.",
  "all circles c0 with positive radius, all ellipses with positive half axes, all n, n' at least 3, all phi, phi' with absolute value less than 1, all shifts and all positive heights",
  "The chains depend on four real numbers and two integers, tangency is an equality of real numbers, and the disjointness of ellipses or of ellipsoids is a statement about all points.",
  EX + "NestedSteinerChains.py:circles", EX + "NestedSteinerChains.py:chains", EX + "NestedSteinerChains_animation.py:chains", EX + "EllipticalSteinerChain.py:chain", EX + "EllipticalSteinerChain_animation.py:chain", EX + "EllipticalNestedSteinerChains.py:chains", EX + "EllipticalNestedSteinerChains_animation.py:chains", EX + "EllipticalSteinerChain3D.py:Tr", EX + "EllipticalSteinerChain3D_animation.py:chain", EX + "EllipticalNestedSteinerChains3D_animation.py:Tr", EX + "EllipticalNestedSteinerChains3D_animation2.py:chains", EX + "EllipticalNestedSteinerChains3D_animation3.py:chains", EX + "SteinerChainWithEllipse.py:ellipse_path", G + ":SteinerChain", G + ":Affine.from_ellipse_to_ellipse", G + ":Affine.transform_ellipse", G + ":Ellipse.path")

p("C106", "The icosahedron filled with flattened spheres",
  "transfoMatrix(A, B, C) of three points of the space that are not on a line gives the 4 x 4 matrix, with last row (0, 0, 0, 1), of a motion of the space (it keeps distances and orientation) and a plane triangle (0,0), P, Q with P on the positive first axis and Q above it, such that the motion sends (0,0), P, Q to A, B, C and the horizontal plane onto the plane ABC. Whatever drawFace(A, B, C, depth) draws is, for every flattening factor k, a set of (7*3^(depth+1)-1)/2 flattened balls whose great circles are in the triangle ABC; no two of them have a common interior point and every one after the first three touches three different things among the previous ones and the sides of ABC. It fails (ValueError) from some depth on. The tables of the program are a closed surface of 20 triangles, five at each of 12 points of a sphere, all of them faces of the convex hull turning in the same direction seen from outside, with edges whose squared lengths differ by less than 1e-14; the program draws all of them with every depth up to 6.",
  "all points A, B, C of the space, every depth, every positive flattening factor; the twenty faces with every depth up to 6",
  "The motion depends on nine real numbers, the discs are obtained by iteration, and disjointness is a statement about all points of all pairs of solids.",
  EX + "ApollonianIcosahedralGasket.py:transfoMatrix", EX + "ApollonianIcosahedralGasket.py:drawFace", EX + "ApollonianIcosahedralGasket.py:pretty_sphere", EX + "ApollonianIcosahedralGasket.py:vertices", EX + "ApollonianIcosahedralGasket.py:faces", G + ":Triangle.malfatti_circles", G + ":Triangle.incircle", G + ":Triangle.equal_detour_point")

p("C107", "The ellipse through four boundary points",
  "Where numpy still has np.float, Ellipse.from_boundary4 of four points in convex position, given in any order, returns an ellipse that passes through the four points and whose area is less than the area of every other ellipse passing through them. For four points no three of which are on a line it either raises LinAlgError, which happens only when a line through two of the points is parallel to the line through the two others, or returns an ellipse passing through three of them at least; when one of the points is inside the triangle of the three others no ellipse passes through the four and the program can return one that does not (the claim of the documentation is refuted there). Where numpy has no np.float (version 1.24 and later, which the package requires) no call returns: it raises LinAlgError or AttributeError, and always AttributeError for points in convex position.",
  "all quadruples of points; every order; every way of sorting equal angles; every order of the roots of the cubic",
  "Least area is a statement about all ellipses through the points, and the result depends on eight real numbers through a sort, a cubic equation and an eigenvalue problem.",
  G + ":Ellipse.from_boundary4", G + ":Ellipse.from_center_and_matrix")

p("C108", "The smallest ellipse containing points, where np.float exists",
  "Where numpy still has np.float, LownerJohnEllipse of any list of points, with any random draws, returns the ellipse of least area among all ellipses that contain the points, and no other ellipse containing them has this area (so the result does not depend on the draws), provided no ellipse through five of the points has its axes along the diagonals (there from_five_points is wrong, C28). With points required on the boundary it returns the ellipse of least area among those that contain the first points and pass through the others, when there is one. It returns None exactly for fewer than three points. The only exceptions are LinAlgError, when three of the points are on a line, and ValueError, when the centre of an ellipse through five of the points is too far from the origin; three points on a line always raise LinAlgError, and five given points of a circle of radius 1 raise ValueError exactly when the centre of the circle is at distance sqrt 2 or more from the origin (refuted: the function is not usable everywhere in the plane). Corners of a rectangle give the ellipse of area pi times half the area of the rectangle. Where numpy has no np.float the function is the one of C31.",
  "all lists of points of any length, with repetitions; all random draws",
  "Least area is a statement about all ellipses; the recursion draws points at random, and its result depends on every branch taken.",
  G + ":LownerJohnEllipse", G + ":Ellipse.from_boundary3", G + ":Ellipse.from_boundary4", G + ":Ellipse.from_five_points")

p("C109", "Random points are evenly distributed, except on an ellipse",
  "Triangle.random_points(.., 'in'): for all s and t in (0,1] the pairs of uniform draws below t and s are exactly those whose point is in a sub-triangle at the first vertex, whose area is s t times the area of the triangle (these sub-triangles determine the distribution, so it is uniform). 'on': the point is on the boundary at the length u times the perimeter from the first vertex, where u is the uniform draw. Circle.random_points: the direction of the point from the centre is the direction of the pair of normal draws, and with 'in' the uniform draws below s are exactly those whose point is in the concentric disk of area s times the area. Ellipse.random_points: the points are the images of the points of the unit disk (circle) for the same draws by one affine map that sends the unit disk to the ellipse and multiplies areas by a b, so they are uniform in the ellipse; but with 'on' they are not uniform along the ellipse (refuted): for an ellipse with horizontal axes and a >= 2 b, the directions of normal pairs in [0, pi/4] and in [pi/4, pi/2], equally likely, give two arcs of which the first has length at most 0.7 a and the second more.",
  "all triangles, circles and ellipses; all draws; all s and t; all polygonal lines inscribed in the arc",
  "A distribution is a statement about all draws; a statistical test samples finitely many.",
  G + ":Triangle.random_points", G + ":Circle.random_points", G + ":Ellipse.random_points", I + ":runif_in_triangle_", I + ":runif_on_triangle_", I + ":runif_in_circle_", I + ":runif_on_ellipse_")

p("C110", "Fitting an ellipse to points commutes with affine maps",
  "Let f be an invertible Affine. The ellipse fitted to the images by f of some points is the image by f.transform_ellipse of the ellipse fitted to the points: the two have the same points. This holds for Ellipse.from_boundary3 (and the second call returns whenever the first does, the area being multiplied by the absolute value of the determinant), for Ellipse.from_boundary4 on four points in convex position where np.float exists, for Ellipse.LownerJohnEllipse where np.float exists, whatever the random draws of the two calls, whenever both return an ellipse and no ellipse through five of the points (or of their images) has its axes at 45 degrees, and for Triangle.steiner_ellipse and Triangle.steiner_inellipse when no two vertices of either triangle are np.allclose.",
  "all invertible affine maps and all points; all draws; all oracles of eigh, roots, eigvals and argsort meeting their specifications",
  "A metamorphic relation between two fits related by an arbitrary map; a test tries particular maps and points.",
  G + ":Ellipse.from_boundary3", G + ":Ellipse.from_boundary4", G + ":Ellipse.LownerJohnEllipse", G + ":Triangle.steiner_ellipse", G + ":Triangle.steiner_inellipse", G + ":Affine.transform_ellipse", G + ":Affine.transform")

p("C111", "The circles of a triangle: Euler, Feuerbach, excentral triangle",
  "For every triangle that is not flat, the results of circumcircle, incircle, excircles and orthic_triangle are related as follows. 1/r = 1/rA + 1/rB + 1/rC, rA + rB + rC = 4R + r, r rA rB rC is the square of the area, r times half the perimeter is the area, 4 R times the area is the product of the sides. The squared distance from the circumcentre to the incentre is R(R - 2r) (so 2r <= R) and to an excentre R(R + 2 rX). If no angle is right, Triangle(*orthic vertices).circumcircle() has radius R/2, passes through the feet of the altitudes and the middles of the sides, and is tangent internally to the incircle and externally to the three excircles. If the angle at A is right that call returns None; if the angle at B or C is right it raises ZeroDivisionError. The orthic triangle of the triangle of the three excentres is the triangle itself, and the circumcircle of the excentres has radius 2R.",
  "all triangles that are not flat",
  "Relations between the results of several calls for all triangles; a test checks a few triangles.",
  G + ":Triangle.circumcircle", G + ":Triangle.incircle", G + ":Triangle.excircles", G + ":Triangle.orthic_triangle")

p("C112", "Möbius images of circles: composition, inverse, tangency, orthogonality, angle",
  "When M.transform_circle(c) and N.transform_circle of the result are circles, the composed transformation (compose, left or right) gives the same circle in one step, and the inverse of M gives back c. For any finite sequence of Möbius transformations under which two circles have circles as images: the images are tangent iff the circles are, orthogonal iff the circles are, and |d^2 - r1^2 - r2^2| / (r1 r2) is unchanged. Externally tangent circles stay externally tangent if the pole is outside both and become internally tangent if the pole is inside one. For circles that meet, Circle.angle of the images is the angle of the circles if the pole is outside both or inside both (or there is no pole), and pi minus this angle if the pole is inside exactly one.",
  "all invertible Möbius transformations and finite sequences of them; all circles whose images are circles",
  "Relations between the images of arbitrary circles by arbitrary transformations, to any depth.",
  G + ":Mobius.transform_circle", G + ":Mobius.compose", G + ":Mobius.inverse", G + ":Circle.angle")

p("C113", "What composing reflections, rotations, homotheties and inversions gives",
  "Through as_affine and Affine.compose: two reflections in lines meeting at O, the second line being the first turned by theta, give the rotation about O by 2 theta; two reflections in parallel lines give the translation by twice the vector from the first line to the second; a reflection followed by a rotation about a point of its line is the reflection in the line turned by half the angle; two rotations give the rotation by the sum of the angles about one point, the only fixed point, or a translation when the sum is a multiple of the full turn; two homotheties give the homothety of ratio s1 s2 whose center is on the line of centers, or, when s1 s2 = 1, the translation by (1 - s2)(O2 - O1). Two inversions of the same pole map a point as the homothety of ratio k2 / k1 does, when the three points are finite.",
  "all lines, centers, angles in degrees or radians, ratios, powers, points",
  "The kind of the composed transformation is a statement about all points of the plane and all pairs of transformations.",
  G + ":Affine.compose", G + ":Reflection.as_affine", G + ":Rotation.as_affine", G + ":Homothety.as_affine", G + ":Inversion.invert")

p("C114", "An ellipse is determined by its points; images of ellipses by composed maps",
  "Two ellipses with the major radius first, one having all its points on the other, have the same center, the same radii and, unless they are circles, the same direction modulo the half turn. So Affine.transform_ellipse returns the only ellipse object in normal form (rmajor >= rminor, angle in the half turn, 0 for a circle) through the images of the points; its center is the image of the center and rmajor*rminor is multiplied by |det|. Transforming by f and then by g gives the same object as transforming by the composed map (left or right); transforming by f and then by its inverse gives an ellipse with the points of the original one, the same object if the original one is in normal form. Rotation.rotate_ellipse and transform_ellipse of the rotation as an affine map give the same center, radii and points.",
  "all ellipses and circles with positive radii, all invertible affine maps",
  "Equality of results over all ellipses and maps; uniqueness over all ellipses.",
  G + ":Affine.transform_ellipse", G + ":Affine.compose", G + ":Affine.inverse", G + ":Rotation.rotate_ellipse", G + ":Rotation.as_affine")

p("C115", "Elliptical billiard: hyperbolic caustic, alternate foci, pictures of the animation",
  "In the example EllipticalBilliard.py: if a segment of the trajectory, other than one on the minor axis, passes between the foci, all the segments touch one hyperbola with the same foci. If the starting line passes through a focus, the segments pass alternately through the two foci, and the bounce points tend geometrically to the ends of the major axis, with the ratio ((a+c)/(a-c))**2 for the tangent of the half eccentric angle every two bounces. A trajectory with fewer segments is the beginning of one with more; the pictures of EllipticalBilliard_animation.py are the trajectories with 1, 2, ... segments, and the last segment that has been computed is drawn in none of them.",
  "all ellipses in the position of the script, all starting points and directions, all numbers of segments",
  "Invariants over trajectories of any length from any start.",
  EX + "EllipticalBilliard.py:trajectory", EX + "EllipticalBilliard_animation.py")

p("C116", "The tests of the library accept what the library constructs",
  "The checks printed by examples/example1.py, for data other than those of the script, in exact arithmetic. The circumcircle of a triangle which is not flat includes its vertex. A circle (ellipse) includes the two points of its intersection with a line whenever two points are returned; for a circle this is so exactly when the squared distance of the two points defining the line, times the radius squared minus the squared distance of the center to the line, is at least 2^-26, and otherwise the check of the script raises. The image of an ellipse by from_ellipse_to_ellipse has the points of the second ellipse, and is the same object if this one is in normal form with the same unit of angle. The image of a circle by an invertible Moebius transformation without pole on it includes the image of its points. These checks never print False. A line includes the projections on it. power(n) and gpower(n) return the same matrix for n = 0, 1, 2, ... if the discriminant is zero or not within the tolerance of gpower. If no point defining the line is allclose to the point or its reflection, reflecting twice gives the point back. Also accepted: the two points of intersection_circle_circle, intersection_line_line, the point and the line of perpendicular (includes, is_perpendicular), the circle of orthogonal_through_two_points_on_circle (is_orthogonal, includes), the incenter (Triangle.contains), the vertices on circumcircle, on steiner_ellipse (no two vertices allclose) and the points of from_boundary3.",
  "all circles and ellipses with positive radii, lines, triangles, invertible Moebius transformations, exponents",
  "A test checks chosen data; that the constructors and the tests, with their different tolerances, agree concerns all inputs.",
  EX + "example1.py", G + ":Circle.includes", G + ":Ellipse.includes", G + ":Line.includes", G + ":intersection_circle_line", G + ":intersection_ellipse_line", G + ":Mobius.transform_circle", G + ":Affine.from_ellipse_to_ellipse")

p("C117", "What the transformations do to areas, orientations, insides and intersections",
  "An Affine map multiplies the signed area of every triangle by the determinant of its matrix, and by no other number; compose multiplies these factors and inverse inverts them. Rotation.rotate keeps signed areas, Homothety multiplies them by the square of the scale, ScalingXY by sx*sy, Scaling by its scale, Shear keeps them, Reflection changes their sign, Projection sends every triangle to a flat one (for the last two: points not allclose to the points defining the line). Triangle.orientation of the image of a triangle is the same, the opposite or 0 according to the sign of the determinant. With a nonzero determinant, Triangle.contains, Ellipse.contains and Circle.contains answer the same for a point and for its image in the image figure; with determinant 0 the image triangle contains no point. Affine maps keep barycentres. If intersection_line_line finds a point for two lines and for their images by transform_line, the second point is the image of the first.",
  "all affine maps and transformations of the library, triangles, points, circles and ellipses with positive radii, lines",
  "Relations between the results on a figure and on its image, for all maps and all figures.",
  G + ":Affine.transform", G + ":Affine.compose", G + ":Affine.inverse", G + ":Affine.transform_ellipse", G + ":Affine.transform_line", G + ":Triangle.orientation", G + ":Triangle.contains", G + ":Ellipse.contains", G + ":Circle.contains", G + ":Rotation.rotate", G + ":Shear.transform", G + ":Scaling.transform", G + ":ScalingXY.transform", G + ":Homothety.transform", G + ":Reflection.transform", G + ":Projection.project", G + ":intersection_line_line")

p("C118", "Triangle.contains and Triangle.flatness in binary64",
  "In binary64 arithmetic, with coordinates that are integers up to 2^23 in absolute value times a common power of two, Triangle.contains answers True exactly for the points strictly inside a triangle that is not flat, for every point except those of the open side BC; there rounding decides: of the triangle (0,0), (3,0), (0,3) the point (1,2) of the side BC is accepted, and rejected when the vertices are named in another order. Triangle.flatness of three vertices with no two allclose (coordinates up to 2^240) is a number between 0 and 1; it is 1 (the test with which circumcircle, malfatti_circles, steiner_ellipse and steiner_inellipse return None) when the tangent of the angle at A is at most 2^-28 and not when it is greater than 2^-26. It raises ZeroDivisionError if B or C has the coordinates of A. For three different vertices with integer coordinates up to 2800 the test is exact. Refuted in general: the triangle (0,0), (1,0), (1e9,1) of area 1/2 has flatness 1.",
  "all finite binary64 coordinates in the stated ranges, with or without fused multiply-add in the complex product",
  "Rounding errors for all binary64 inputs; unit tests cannot tell which boundary points or thin triangles are misjudged.",
  G + ":Triangle.contains", G + ":Triangle.flatness", G + ":Triangle.circumcircle", G + ":Triangle.malfatti_circles", G + ":Triangle.steiner_ellipse", G + ":Triangle.steiner_inellipse")

p("C119", "The unit tests of the repository hold for all data, not only for theirs",
  "Take a test of /repo/tests and let its points, circles, ellipses, transformations and random draws vary. With exact arithmetic the assertions of the tests of Affine.from_mapping_three_points, Circle.orthogonal_through_two_points_on_circle, cross_ratio, the image of an ellipse by an affine map, Ellipse.random_points, the shape matrix, the diameters, Homothety, Inversion (image of a circle, swapping two circles, fixing two or three circles, composition), mid_circles, Mobius (images of circles and lines, three points, one circle), Rotation and the excircles do not fail for any data: no completed run has a false assertion (an exception may interrupt it), and conditions are given under which the run completes (for mid_circles an instance); the hypotheses ask that the tolerances do not confuse different points or radii. The others fail for some data: the equation round trip of an ellipse that is not a circle (and the one through five of its points) raises an exception when the centre is too far from the origin, passes otherwise unless an axis is at 45 degrees, and fails for the ellipse with centre 0, radii 2 and 1 and axis at 45 degrees; the scaling of a circle fails for scales smaller than -1; the test of the generalized power fails when the first entry of the inverse power is 0, as for the square of [[1,-1],[1,1]]; a random point of a triangle is not contained when the drawn number is 0; the Malfatti test fails exactly when two of the circles are equal in the sense of is_equal; the test of two circumcircles exactly when the circles are too near to tangent or equal.",
  "all data of the tests: points, circles, ellipses, lines, transformations, angles, draws, within the stated hypotheses",
  "The tests check one choice of the data each; that the same assertions hold for every other choice is a statement about infinitely many inputs.",
  "tests/test_Affine.py:test_affine_from_mapping_three_points", "tests/test_Ellipse.py", "tests/test_Inversion.py", "tests/test_MidCircles.py", "tests/test_Mobius.py", "tests/test_Scaling.py", "tests/test_Triangle.py", "tests/test_intersections.py", G + ":Inversion.invert_circle", G + ":Mobius.transform_circle", G + ":Triangle.malfatti_circles")

p("C120", "In binary64, the intersection of a line and a circle, projections and distances to a line",
  "In binary64 arithmetic, when the coordinates of the centre and of the two points of the line are integers up to 2048, and the radius one up to 4096, times a common power of two between 2^-6 and 2^100, intersection_circle_line returns the exact number of common points (none, one or two), and each coordinate of a returned point is within 6u(r + |coordinate of the centre|) of that of a common point, u = 2^-53, different points for different common points. Refuted in general: the vertical line at abscissa 0.1 is said not to meet the circle of centre (0,0) and radius 0.1, to which it is tangent; a line through points with integer coordinates near 1.3e8, outside a circle, is said to touch it. Line.projection of a point returns the coordinates of the foot of the perpendicular correctly rounded, when all coordinates are integers up to 20000 times a common power of two between 2^-300 and 2^200. With integers up to 20000 the error of Line.distance is at most u times (5 distances plus twice the sum of the absolute coordinates of the foot), and the distance of a point of the line is 0.",
  "all lines through two different points, circles of positive radius and points with coordinates in the stated ranges, with or without fused multiply-add",
  "Rounding errors for all binary64 inputs of a range; whether a tangent line is recognised depends on the low bits.",
  G + ":intersection_circle_line", I + ":circle_line_intersection_", G + ":Line.projection", G + ":Line.distance", I + ":line_line_intersection_")

p("C121", "Inversions: distances, angles, fixed and coaxial circles, cross ratios",
  "In exact arithmetic, whenever the calls return points and circles. For an inversion of pole P and power k, dist(M', N') = |k| dist(M, N) / (PM PN). The powers of P with respect to a circle and to its image multiply to k^2, and the radii are in the ratio |k| / |power|. The centre of the image circle is not the image of the centre but that of the inverse of P in the circle; for a line, the image circle has as diameter the segment from P to the image of the foot of the perpendicular from P. A circle is its own image exactly if the power of P with respect to it is k or it is the circle of inversion; for the inversion on c0 exactly if it is orthogonal to c0 or c0 itself. A circle through a point M passes through its inverse M' different from M exactly if it is orthogonal to c0. A circle, its image and c0 have the same radical axis. Circle.angle of the images of two circles that meet is the same, or the supplement if the pole is inside one of them only. Inversions on orthogonal circles commute. cross_ratio of the images is the complex conjugate. |cross_ratio(A, B, C, D)| = AD BC / (AB CD), AC BD <= AB CD + AD BC, and there is equality exactly when the cross ratio is real and negative.",
  "all inversions of nonzero power, circles of positive radius, lines and points for which the calls return a finite result",
  "Identities between results of several calls for all real inputs.",
  G + ":Inversion.invert", G + ":Inversion.invert_circle", G + ":Inversion.invert_line", G + ":Inversion.on_circle", G + ":Circle.radical_axis", G + ":Circle.angle", G + ":cross_ratio")

p("C122", "Iterating a Moebius transformation: attraction, periods, invariant circles",
  "In exact arithmetic, for an invertible M with entries a, b, c, d and two distinct finite fixed points z and w, put lz = c z + d and lw = c w + d. If M.power(n), n >= 0, sends p to p' then (p' - z)(p - w) lz^n = lw^n (p - z)(p' - w), and the same with distances and moduli. If |lw| < |lz| then for all delta, eps > 0 there is N such that M.power(n), n >= N, sends the point at infinity and every point at distance at least delta from w to a finite point at distance less than eps from z, and M.power(-n) does the same with z and w exchanged. |lz| = |lw| holds exactly when the square of the trace is s times the determinant with s real in [0, 4]; then p'z pw = pz p'w for every integer power, so that the circles of Apollonius of z and w are kept. M.power(n) is the identity exactly when lz^n = lw^n. If z is the only fixed point, infinity included, then 1/(p' - z) = 1/(p - z) + n c / lz, and the powers of large absolute value, positive or negative, send infinity and all points at distance at least delta from z within eps of z. If c = 0 then M.power(n) is the similarity p' - z = (a/d)^n (p - z) about a fixed point z, and the translation of vector n b/d if a = d.",
  "all invertible complex matrices, all their finite fixed points, all exponents, all points and infinity",
  "Statements about all powers at once (limits), which no finite number of calls can settle.",
  G + ":Mobius.power", G + ":Mobius.transform", G + ":Mobius.inverse")

p("C123", "The Steiner ellipses are extremal, and Marden's theorem",
  "In exact arithmetic, for a triangle that is not flat and of which no two vertices are np.allclose: the solid ellipse of steiner_inellipse() is contained in the triangle, every ellipse contained in the triangle has at most its area, and one of the same area has the same points. Every ellipse that contains the three vertices has at least the area of steiner_ellipse(), and one of the same area has the same points. The area of the inellipse is pi/(3 sqrt 3) times that of the triangle; the circumellipse is the inellipse scaled by 2 about their common centre, with twice the radii and four times the area. The tangent of the circumellipse at a vertex is parallel to the opposite side. The foci of the inellipse (the points F1, F2 such that the sum of the distances to them is 2 rmajor exactly on the ellipse) are, as complex numbers, the zeros of the derivative of the polynomial whose zeros are the vertices.",
  "all triangles that are not flat with no two vertices allclose; all competing ellipses; all complex numbers z",
  "The comparison is with every ellipse of the plane, an infinite family; samples of it cannot show that none is better.",
  G + ":Triangle.steiner_inellipse", G + ":Triangle.steiner_ellipse")

p("C124", "Largest disc in a triangle, smallest disc around it, Fagnano's triangle, Malfatti's problem",
  "In exact arithmetic, for every triangle that is not flat: incircle() bounds the largest disc contained in the triangle, and no other disc of the triangle has that radius. If is_acute() answers True, circumcircle() bounds the smallest disc containing the vertices, and no other disc of that radius contains them; with an obtuse angle at A it does not, the smallest disc being that of circleAB(B, C) (for B and C not np.allclose), which is smaller than the circumcircle. With three acute angles the vertices of orthic_triangle() are on the sides, and every other triangle with a vertex on the line of each side has a larger perimeter; the perimeter of the orthic triangle is twice the area of the triangle divided by the circumradius. malfatti_circles() bound three discs of the triangle that do not overlap. Refuted: that their total area is the largest possible, already for the triangle of sides 3, 4, 5.",
  "all triangles that are not flat, all competing discs and inscribed triangles",
  "The comparison is with every disc, or every inscribed triangle, an infinite family.",
  G + ":Triangle.incircle", G + ":Triangle.circumcircle", G + ":Triangle.is_acute", G + ":circleAB", G + ":Triangle.orthic_triangle", G + ":Triangle.malfatti_circles")

p("C125", "Two circles in binary64: common points, angle, orthogonality, radical center",
  "In binary64, with integer data. intersection_circle_circle (centres up to 65536, radii up to 2^20): it returns a circle exactly when the two circles are the same one, and otherwise None, a point or two points according to the exact number of common points, whatever the accuracy of acos, atan2, cos and sin. If the errors of acos and atan2 are at most 8u and those of cos and sin at most 2u (u the unit roundoff), each point returned is within 5u(r1 + |coordinate of the centre|) in each coordinate of a point Q of the first circle with |O2Q^2 - r2^2| <= 54u r1 O1O2; the first point is to the left of the ray from the second centre through the first one and the second point to its right, up to 23u. Refuted for larger integers: two circles of radius 5 whose centres are (200000, 0) and (200001, 0) cross and are taken for the same circle. Circle.angle (integers up to 2^20) returns None exactly when there is no common point; for circles that cross it returns an angle, and for accurate acos its cosine is that of the angle between the vectors from the first centre to a common point and from this point to the second centre, up to 8 units of roundoff plus 40 units of roundoff relative to (|O1|^2 + |O2|^2 + r1^2 + r2^2) / (r1 r2), a bound that depends on the position of the circles in the plane; refuted: that it returns an angle for tangent circles, since it raises a ValueError for the circles of centres (0, 0) and (6, 0) and radii 1 and 5. Circle.is_orthogonal is exact for coordinates up to 10000 and radii up to 20000; refuted up to 50000. Circle.radical_center (coordinates up to 65536, radii up to 2^17) returns infinities for a common centre, and otherwise finite coordinates that differ from those of the point of the line of centres having equal powers by a few units of roundoff relative to the coordinates of that point and of the midpoint of the centres.",
  "all pairs of circles with integer data in the given ranges, all C library functions, all orders of evaluation of a dot product with or without fused multiply-add",
  "The comparisons contain a tolerance; that it never changes the answer for any integers concerns about 2^100 pairs of circles.",
  G + ":intersection_circle_circle", G + ":Circle.is_equal", G + ":Circle.angle", G + ":Circle.is_orthogonal", G + ":Circle.radical_center", I + ":approx_equal_")

p("C126", "Image of a circle by an inversion in binary64",
  "Inversion.invert_circle in binary64, for a circle and a pole with integer data and a power that is any number other than 0 in a wide range (at most 2^400 in absolute value, and at least 2^-400 for the first claim). Coordinates up to 65536, pole not on the circle: a Circle is returned, whose radius has a relative error of at most 3 units of roundoff with respect to the exact image, and whose centre has coordinates with an error of at most 4 units of roundoff relative to the sum of the absolute values of the coordinates of the exact centre and of the pole. Coordinates up to 20000, pole on the circle: a Circle is never returned; if the power is at least the radius in absolute value a Line is returned, and its two points are within 11 such units (and 2^-1000) of two distinct points of the exact image line; otherwise either this holds or a ValueError is raised because the two computed points are close. Refuted: that every circle has an image, since a ValueError is raised for the pole (20000, 20000), the power 1 and the circle of centre (20010, 20000) and radius 10, and for every power for the pole (200000, 0) and the circle of centre (200001, 0) and radius 1.",
  "all poles and circles with integer data in the given ranges, all powers in the given range, all orders of evaluation of a dot product with or without fused multiply-add",
  "The choice between a circle and a line depends on a tolerance, and the accuracy concerns all rounded computations.",
  G + ":Inversion.invert_circle", G + ":Inversion.invert", G + ":Line.__init__", G + ":Circle.__init__")

p("C127", "Incircle of a triangle in binary64",
  "Triangle.incircle in binary64, for a triangle with integer coordinates up to 1048576 whose vertices are not aligned and which is not too slender (the sum of the three ratios of the perimeter to the sum of two sides minus the third one, times the unit of roundoff, is at most 1/100000): a Circle is returned. It is the largest disc contained in the triangle (which is unique) up to roundings: each coordinate of the centre has an error of at most 9 units of roundoff relative to the largest coordinate of the vertices (at least 1), and the radius has a relative error of at most 20 units of roundoff times the slenderness. Every triangle with integer coordinates up to 140 satisfies the condition. The condition cannot be dropped: a slender triangle with integer coordinates below 10000 whose vertices are not aligned makes incircle raise a ValueError, because the computed area is 0.",
  "all triangles with integer coordinates in the given range, all orders of evaluation of a dot product with or without fused multiply-add",
  "The loss of accuracy depends on the shape of the triangle and concerns all rounded computations.",
  G + ":Triangle.incircle", I + ":distance_", G + ":Circle.__init__")

p("C128", "Radical axis of two circles in binary64",
  "Circle.radical_axis in binary64, for circles with integer centres up to 65536 and integer radii up to 131072: None is returned exactly if the two centres are the same. Otherwise there are two distinct points such that the set of the points having equal powers with respect to the two circles is exactly the line through them, the first one being on the line of the centres, and the coordinates of the two points of the returned Line are those of these two points with an error of at most 5 units of roundoff relative to the sum of the absolute values of the coordinate of the first point, of the middle of the centres, and of the difference of the centres. If the exact first point has coordinates up to 65536, a Line is always returned; otherwise a ValueError may be raised because the two computed points are close. This happens for the circles of centres (0,0) and (1,1) and radii 1000 and 1. For larger integers, None can be returned for distinct centres.",
  "all pairs of circles with integer data in the given ranges, all orders of evaluation of a dot product with or without fused multiply-add",
  "Whether a line is returned depends on tolerances relative to coordinates that are themselves computed, and the accuracy concerns all rounded computations.",
  G + ":Circle.radical_axis", G + ":Circle.radical_center", G + ":Line.__init__")

p("C129", "Reflections and perpendiculars in binary64",
  "Reflection.transform (and Line.reflection) and Line.perpendicular in binary64, for a line through two distinct points and a point with integer coordinates up to 2800. A point of the line is its own image, exactly, and the perpendicular through it passes through it and through a second point that is exact (at the distance AB). For a point M not on the line, the perpendicular joins M to a point whose coordinates are those of the exact foot of the perpendicular rounded once, and the image of M is the exact mirror image up to an error of at most 10 units of roundoff (and 2^-1070) relative to the coordinates of M and of its image - unless a ValueError is raised because the foot and M are close with respect to the tolerance of numpy.allclose. The error is never raised if the coordinates are at most 150; it is raised for the point (2001,2001) and the line through (2000,2000) and (2100,2099).",
  "all lines through two distinct points and all points with integer coordinates in the given ranges, all ways of computing the two parts of a complex product with or without fused multiply-add",
  "Whether a point is considered to be on the line, or too close to it, depends on two different tolerances, and the accuracy concerns all rounded computations.",
  G + ":Reflection.transform", G + ":Reflection.__init__", G + ":Line.reflection", G + ":Line.perpendicular", G + ":Line.includes", I + ":line_line_intersection_")

p("C130", "Scalings in a direction, in binary64",
  "Scaling.transform in binary64, with an atan2, a cosine and a sine of the C library of known accuracy, for a direction other than (0,0) of any magnitude. The image of a point is finite and is the exact image (the component along the direction multiplied by the factor, the orthogonal component kept) with an error of at most 250 units of roundoff times K S, where S bounds the coordinates of the point and of the centre (2^-60 to 2^60) and K bounds the factor (1 to 2^60). The centre is its own image, exactly.",
  "all centres, directions, factors and points in the given ranges, all accurate libraries",
  "The transformation is made of two rotations by a rounded angle and of a multiplication, whose rounding errors add up; tests compare a few images with a tolerance.",
  G + ":Scaling.transform", G + ":Scaling.__init__")

p("C131", "Images of circles under homotheties, in binary64",
  "Homothety.transform_circle in binary64, for data up to 2^500. If the product of the absolute value of the factor and the radius is more than 2^-1075, the image is a circle with a positive radius, which is this product rounded once, and the coordinates of its centre have an error of a few units of roundoff relative to the two terms of the sum. If the product is less than 2^-1075, a ValueError is raised - so it can be raised although the factor is not 0. For a non-zero integer factor and data on a grid of step 2^g, with sizes K and N such that (2 K + 1) N < 2^25, the image is exact, and Circle.contains answers for the image of a point and the image of the circle as for the point and the circle.",
  "all centres, factors, circles and points in the given ranges, all ways of computing a sum of two products with or without fused multiply-add",
  "The roundings and the underflow concern all numbers, and the preservation of Circle.contains all circles and points.",
  G + ":Homothety.transform_circle", G + ":Homothety.transform", G + ":Circle.contains", G + ":Circle.__init__")

p("C132", "Homotheties and axis scalings as affine maps, in binary64",
  "In binary64, the affine map returned by Homothety.as_affine sends every point with finite coordinates to the same point as Homothety.transform, to the last bit (up to the sign of a zero), whatever the centre and the factor, overflows included. The affine map returned by ScalingXY.as_affine agrees with ScalingXY.transform for integer factors up to K and data on a grid of step 2^g with (2 K + 1)(K + 1) N < 2^53, but not in general: for the centre (0.1, 0) and the factors 4 and 1, the centre is a fixed point of the scaling and not of the affine map. Affine.transform is exact for an integer matrix and data on a grid.",
  "all homotheties and all finite points; all axis scalings and points in the given ranges; all ways of computing the products of the matrix with or without fused multiply-add",
  "Whether two different sequences of rounded operations always give the same number is a statement about all of them; tests compare with a tolerance.",
  G + ":Homothety.as_affine", G + ":Homothety.get3x3matrix", G + ":Homothety.transform", G + ":ScalingXY.as_affine", G + ":ScalingXY.get3x3matrix", G + ":ScalingXY.transform", G + ":Affine.transform")

p("C133", "Composition of affine maps, in binary64",
  "In binary64, the affine map returned by Affine.compose sends a point to the result of applying the two maps one after the other, in the order given by the argument left, exactly, for matrices of integers up to K and vectors and points on a grid of step 2^g (coordinates up to N steps) with 5 K^2 (2 K + 1) N < 2^53. Not in general, even for two translations: the composition of the translations by (0.2, 0) and (0.3, 0) does not send (0.1, 0) to the point obtained in two steps.",
  "all pairs of affine maps and all points in the given ranges, all ways of computing the entries of the products with or without fused multiply-add",
  "The statement is an exact equality for all integer maps and all points; tests check a few compositions with a tolerance.",
  G + ":Affine.compose", G + ":Affine.get3x3matrix", G + ":Affine.transform")

if __name__ == "__main__":
    root = os.path.join(os.path.dirname(os.path.abspath(__file__)), "..")
    with open(os.path.join(root, "properties.jsonl"), "w") as f:
        for e in P:
            f.write(json.dumps(e, ensure_ascii=False) + "\n")
    print(len(P), "properties")
