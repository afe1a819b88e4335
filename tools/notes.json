{
 "C01": "All lines with A != B, all points.",
 "C02": "Completeness for all lines; the false positives (mirror image through the origin) for all lines, plus a concrete refutation of soundness.",
 "C03": "Completeness, exact characterisation of is_parallel, and refutation of soundness for every pair of directions.",
 "C04": "All four extend flags; tolerance band stated separately.",
 "C05": "All lines and points.",
 "C07": "Whole image of the line, parameter by parameter.",
 "C08": "Soundness, uniqueness, None for parallels, completeness above the threshold.",
 "C09": "contains and power exact; includes complete, sound outside its tolerance; false positive at the centre of small circles proved.",
 "C10": "Soundness and surjectivity, radians and degrees.",
 "C11": "Thales characterisation; exactly when ValueError is raised.",
 "C12": "Locus equality in both directions; None and exceptions characterised.",
 "C13": "Sound in every configuration; complete; the tiny-circle defect stated and refuted.",
 "C14": "Sound and complete; exact case distinction; representation-dependent defect for every radius <= 10 and direction.",
 "C15": "Sound and complete; near-concentric defect.",
 "C17": "Exact angle, also as angle between radii at any common point; None / ValueError bands exact.",
 "C18": "Circle, arc and diameter cases for all real angles.",
 "C20": "Circles, ellipses and triangles: membership, totality, surjectivity.",
 "C21": "Number of points, position of each point, end points, sweep.",
 "C06": "Exact trichotomy for every line and point, then isometry, involution, images of circles and lines, as_affine for every point; the ValueError near the line is stated and exhibited.",
 "C52": "All affine maps, finite lists by induction.",
 "C53": "Mapping, uniqueness over all affine maps, None for collinear triples, totality.",
 "C67": "Existence, uniqueness, idempotence; parallel case; as_affine under the exact regularity condition and refuted without it.",
 "C68": "Rotation law, composition, images of circles, lines and ellipses.",
 "C69": "Closed form, area, vector action, exact fixed-vertex condition; refutation of the documented behaviour.",
 "C70": "All inputs.",
 "C71": "All inputs, image of circles as point sets.",
 "C72": "Arrays of dimension 0, 1, 2 (and more, except for Affine), all numbers of rows.",
 "C16": "Returned points characterised in every branch, exact branch conditions; the ValueError and the one-point answer for a diameter are exhibited.",
 "C22": "Exact value of the polynomial at every point; contains exact; includes complete, sound up to its tolerance, false positive at the centre of small ellipses.",
 "C23": "Position of every point of the path; conjugacy as tangency at all four ends; normal outward and orthogonal to every tangent direction.",
 "C24": "Quadratic form equal to the ellipse form at every point.",
 "C25": "Every angle but the odd multiples of pi; wrong half-line just above them; ZeroDivisionError.",
 "C26": "Exact acceptance condition, same point set when accepted, and the two defects (far centre, axes at 45 degrees).",
 "C27": "Exact acceptance condition; zero set; invariance under scaling for any two eigenvalue oracles. A = C with B <> 0 is the defect described in C26.",
 "C28": "Interpolation, uniqueness of the conic, completeness on the points of any ellipse; refutation for from_five_points.",
 "C29": "For every eigen-decomposition meeting the defining equations; existence of one is proved.",
 "C30": "Steiner circumellipse, smallest area among all ellipses containing the points, totality.",
 "C31": "For all choice functions and eigen-decompositions; induction on the number of interior points. from_boundary4 is modelled by the exception it raises with numpy >= 1.24.",
 "C54": "Equivalence for every point (boundary, inside and centre), ellipses and circles, singular maps.",
 "C55": "transform_line (PropertiesTransfo) and from_ellipse_to_ellipse (PropertiesEllipse).",
 "C74": "All circles and ellipses; refutations of symmetry, transitivity, and of completeness for round ellipses and near the wrap-around.",
 "C42": "All triangles; the documented sign is refuted.",
 "C43": "All triangles, flat ones included, all points.",
 "C44": "All triangles with distinct vertices (angle sum also for flat ones); exact exception condition.",
 "C45": "All triangles: value, uniqueness, None and exception characterised.",
 "C46": "All triangles; flat ones raise ValueError unless the three vertices coincide (then the circle has nan attributes).",
 "C47": "All triangles; flat ones raise ValueError unless the three vertices coincide (then the circles have nan attributes).",
 "C48": "All triangles with distinct vertices; the infinities of right triangles are modelled.",
 "C49": "All triangles; each centre strictly inside, tangency points on the sides.",
 "C50": "All non-flat triangles.",
 "C51": "All triangles; minimal area against every ellipse containing the vertices; tangency as single intersection of the side line.",
 "C19": "All circles and points; both defects of the guard; the long arc refuted.",
 "C32": "All inversions; failure of involutivity exhibited for every inversion.",
 "C33": "All inversions and circles; tolerance band characterised and refuted.",
 "C34": "All inversions and lines; tolerance case refuted.",
 "C36": "All pairs of circles; messages characterised exactly and justified for distinct circles.",
 "C37": "All circles; concentric case and tolerance band stated.",
 "C38": "Induction on the sequence of inversions.",
 "C39": "invert_gcircle raises for every argument (isinstance with a string).",
 "C40": "All n >= 3, |phi| < 1, all shifts. n = 1 and |phi| > 1 are not claimed (DESIGN.md).",
 "C41": "All n >= 3, |phi| < 1, all shifts.",
 "C35": "All pairs of inversions of non-zero power, all points of the extended plane that are not within the closeness tolerance of a pole without being the pole; refutation without that hypothesis.",
 "C56": "All invertible matrices, all points including infinity, lists of any length.",
 "C57": "All integers k, all points including infinity; ValueError characterised.",
 "C58": "Quantified over every argument function and eigendecomposition, whose existence is proved; the domain of the tolerance tests is explicit; scale dependence refuted by two matrices.",
 "C59": "All invertible matrices: complete case analysis on the discriminant.",
 "C60": "All invertible matrices and circles, all points including infinity and the pole; the loop has fuel (see C61).",
 "C61": "All circles of radius at most 5e-9 through the pole loop for every fuel; 21 tests suffice when the radius exceeds sqrt(2) times the tolerance at the pole.",
 "C62": "All invertible matrices and lines, all points including infinity; the threshold is characterised by the distance of the pole.",
 "C63": "All six-tuples of points of the extended plane. That an infinite point makes the matrix non-finite is part of the model (NonFinite).",
 "C64": "All pairs of circles, all points; the interior is exchanged with the exterior.",
 "C65": "All four-tuples of points, all invertible matrices.",
 "C66": "All integers n (a non-integer n is not in the model's argument type).",
 "C73": "All values of the universe of ModelPy.v: None, bool, int, float, numpy real scalars, np.bool_, complex, strings, tuples, lists, one-dimensional arrays (of arbitrary content), other arrays, other objects.",
 "C75": "All heaps, arrays and later writes. The heap is modelled for Circle, Line, Inversion, Inversion.on_circle, Reflection and invert(inf); the other constructors also call np.asarray(., dtype=float) but are not in the heap model.",
 "C76": "All heaps, ellipses and vectors of angles; the value of each point is the one of C25.",
 "C77": "All objects. The conversion of numbers to characters is not modelled: a printed line is the list of the arguments of print.",
 "C78": "Binary64 model (ModelFloat.v). All finite circles and points up to 2^500; refutation of the unconditional claim for circleAB.",
 "C79": "Binary64 model. All circles and points up to 2^500; refutation by an integer point.",
 "C80": "Binary64 model, strict=False. All points up to 2^240.",
 "C81": "Binary64 model. All triangles up to 2^500.",
 "C82": "Binary64 model. All inversions and finite points; inputs up to 2^500, power up to 2^400.",
 "C83": "Binary64 model; cos and sin are arbitrary functions of the stated accuracy (such functions exist: C83_example).",
 "C84": "Binary64 model, angleA only (angleB and angleC are the same code with the names permuted). The value of acos itself is not modelled.",
 "C85": "Binary64 model.",
 "C86": "Binary64 model; intersection of the supporting lines only (strict=False).",
 "C87": "Exact real arithmetic. The Steiner ellipses are compared as sets of points when both calls return one.",
 "C88": "Exact real arithmetic; the Steiner ellipses for reordered vertices are in C87_steiner_ellipse and C87_steiner_inellipse.",
 "C89": "Exact real arithmetic; mid_circles for equal radii is not claimed.",
 "C90": "Exact real arithmetic.",
 "C91": "Exact real arithmetic; centred ellipses with axes parallel to the coordinate axes, as in the script. C91_upward_refuted: trajectories that cannot be computed.",
 "C92": "Exact real arithmetic; the three circles are arguments. When one call of the script returns None or raises, nothing is claimed.",
 "C93": "Exact real arithmetic; the type checks of the arguments are in C73.",
 "C94": "Binary64 arithmetic on one point; cosine and sine of the C library only assumed accurate to one unit in the last place of 1. The refuted statements are about exactness only.",
 "C95": "Exact real arithmetic; a sphere added to the plotter is modelled by its circle. Whether a given depth beyond the reach of C95_depth_reached and before C95_corner_radii succeeds is not settled.",
 "C96": "Exact real arithmetic; the constants of the program (outer circle, n, phi, shift, depth) are parameters. A drawn disc is modelled by its circle. Failures are excluded only under the stated bounds on the radii.",
 "C97": "Exact real arithmetic; the triangle and the depth of the program are parameters. A drawn sphere is modelled by its circle. C97_script_refuted: the claim 'the program succeeds for every non-degenerate triangle' is false.",
 "C98": "Exact real arithmetic; n and u (1 and 8 in the program) are parameters. numpy's eigendecomposition and argument are any that satisfy their specification. The in-place changes of the matrices are modelled.",
 "C99": "Exact real arithmetic; the pictures are the lists of circles drawn. The gasket is that of C96 for the unit circle.",
 "C100": "Exact real arithmetic; the arcs drawn, not the polygons of their paths. Depths below 2 (IndexError) are not modelled. That the picture is a tessellation by inversions is refuted for the radius 3 of the scripts.",
 "C101": "Exact real arithmetic. Projection: for lines such that each of the points (0,0), (1,0), (0,1) is on the line or recognised as outside (see C67_as_affine_refuted).",
 "C102": "Exact real arithmetic; meshes and colours are not modelled (a sphere is its circle).",
 "C103": "Exact real arithmetic; the free group of sympy is modelled by the array form of its elements; the figure is the list of its circles. That all circles of n letters are drawn is refuted (C103_all_drawn_refuted).",
 "C104": "Exact real arithmetic; colours are not modelled. That every object of the generations is drawn is refuted (C104_all_drawn_refuted).",
 "C105": "Exact real arithmetic; colours, windows, cameras other than the point they look at, and image files are not modelled; the sphere of pyvista is the exact sphere, not its mesh.",
 "C106": "Exact real arithmetic; colours and the window are not modelled; the sphere of pyvista is the exact sphere, not its mesh. Whether the flattening (0.3) takes place depends on the version of pyvista; the theorems hold for every factor. Nothing is claimed about solids of two different faces.",
 "C107": "Exact real arithmetic. np.argsort, np.roots and np.linalg.eigh are any functions meeting their specification (all three are shown to exist); np.roots is used only where the cubic has three real roots, which is proved. Arguments that are not four points are not modelled.",
 "C108": "Exact real arithmetic. np.argsort, np.roots, np.linalg.eigh and np.linalg.eigvals are any functions meeting their specification (shown to exist); np.random.randint is an arbitrary index at each call. The proof is the pencil argument behind the recursion (an ellipse of least area through the boundary points that does not contain a point can be moved towards one that does, through the point), for all lists.",
 "C109": "Exact real arithmetic; the generator is modelled by its draws (C20). That uniform numbers fill rectangles with probability equal to the area, and that the direction of a pair of independent normal numbers is uniform, is the specification of numpy's generator and is not proved; measure theory is not used, the theorems give the regions and their areas. Draws equal to 0 are excluded where the point is then the vertex or the centre.",
 "C110": "Exact real arithmetic. LownerJohnEllipse and from_boundary4 need np.float (numpy < 1.24), see C107 and C108; the five-point case is subject to the 45 degrees exception of C108.",
 "C111": "Exact real arithmetic. In floating point a right angle is rarely exact, so the two exceptional answers may be replaced by a very large or meaningless circle.",
 "C112": "Exact real arithmetic. The number of iterations of the search in transform_circle (C61) is a parameter, it plays no role when the image is a circle.",
 "C113": "Exact real arithmetic. Lines with two different defining points.",
 "C114": "Exact real arithmetic: the equality of the two results is exact in the real numbers, not in floating-point numbers.",
 "C115": "Exact real arithmetic. The trajectory of the script is modelled as in C91; the drawing is not modelled, only the list of the segments given to each picture.",
 "C116": "Exact real arithmetic; what happens in binary64 to the tests of constructed circles is in C78, C79, C80 and C83. The plots of the script, and its lines 41 and 46 (C108, C107), are not part of this model.",
 "C117": "Exact real arithmetic. Where Reflection and Projection return a point within the tolerance of the line unchanged, the areas need not be as stated (C06, C67).",
 "C118": "Of circumcircle, malfatti_circles and the Steiner ellipses only the flatness test is modelled in binary64. The triangle wrongly called flat has integer coordinates beyond 2800.",
 "C119": "The tests that transform a matrix of points (test_Affine, test_AxisScaling, test_Shear, test_Rotation) are covered by C72; the one-point and no-point cases of test_intersections by C15; test_version is not modelled. random draws are arguments.",
 "C120": "The tolerance on Delta is the machine epsilon of the code. Outside the ranges only the two refutations are proved. numpy warnings are not modelled.",
 "C121": "The tolerances of invert, invert_circle and invert_line appear through the hypotheses that the calls return points or circles.",
 "C122": "Fixed points are taken as points kept by transform, not as results of fixed_points (see C59 for those).",
 "C123": "Extends C51, which has the centre, the points of contact and the minimality without uniqueness. Areas are written pi times the product of the radii.",
 "C124": "Areas of discs are written pi r^2. That the Malfatti circles are never optimal (Zalgaller and Los) is not proved; one triangle refutes the claim.",
 "C125": "The squares written **2 are modelled as products; those of the theorems are exact in binary64.",
 "C126": "The squares written **2 are modelled as products; those of the theorems are exact in binary64.",
 "C127": "The numpy combination (a*A + b*B + c*C) / p is modelled coordinatewise; the comparison of the error is with the largest inscribed disc, not with the formula.",
 "C128": "That the arguments of Line are points (error_if_not_point_) is not modelled: the numbers of the theorems are finite.",
 "C129": "The booleans extendH and extendM of Line.perpendicular are not modelled, nor the infinite point, which transform returns unchanged.",
 "C130": "The accuracy of the C library is an hypothesis (libm_cos_sin, libm_acos_atan2). A matrix of points is treated row by row.",
 "C131": "The check that the argument is a Circle is not modelled.",
 "C132": "One point at a time. The matrix product is a sum of two products for each coordinate, computed in any of three ways.",
 "C133": "The three products of an entry are added from the left; the second argument is an Affine object (or has the same 3x3 matrix)."
}