{
 "claims": [
  {
   "property": "C01",
   "status": "proved",
   "theorems": [
    "C01_direction_offset_is_normal_equation"
   ],
   "note": "All lines with A != B, all points."
  },
  {
   "property": "C02",
   "status": "proved",
   "theorems": [
    "C02_is_equal_near",
    "C02_is_equal_complete",
    "C02_is_equal_identifies_mirror_images",
    "C02_is_equal_sound_refuted"
   ],
   "note": "Completeness for all lines; the false positives (mirror image through the origin) for all lines, plus a concrete refutation of soundness."
  },
  {
   "property": "C03",
   "status": "proved",
   "theorems": [
    "C03_is_parallel_complete",
    "C03_is_perpendicular_complete",
    "C03_is_parallel_tests_cross_product",
    "C03_is_perpendicular_sound_when_large",
    "C03_tolerance_refuted"
   ],
   "note": "Completeness, exact characterisation of is_parallel, and refutation of soundness for every pair of directions."
  },
  {
   "property": "C04",
   "status": "proved",
   "theorems": [
    "C04_includes_decides_line",
    "C04_includes_strict",
    "C04_half_line_excludes_origin",
    "C04_includes_strict_off_line",
    "C04_includes_tolerance"
   ],
   "note": "All four extend flags; tolerance band stated separately."
  },
  {
   "property": "C05",
   "status": "proved",
   "theorems": [
    "C05_projection_and_distance",
    "C05_perpendicular",
    "C05_perpendicular_total"
   ],
   "note": "All lines and points."
  },
  {
   "property": "C06",
   "status": "proved",
   "theorems": [
    "C06_reflection_exact",
    "C06_reflection_is_mirror",
    "C06_constructor",
    "C06_extended",
    "C06_reflection_isometry",
    "C06_reflection_involutive",
    "C06_as_affine_is_mirror",
    "C06_reflect_circle",
    "C06_reflect_line",
    "C06_reflection_total_refuted"
   ],
   "note": "Exact trichotomy for every line and point, then isometry, involution, images of circles and lines, as_affine for every point; the ValueError near the line is stated and exhibited."
  },
  {
   "property": "C07",
   "status": "proved",
   "theorems": [
    "C07_rotate",
    "C07_translate",
    "C07_rotate_translate_total"
   ],
   "note": "Whole image of the line, parameter by parameter."
  },
  {
   "property": "C08",
   "status": "proved",
   "theorems": [
    "C08_intersection_sound",
    "C08_parallel_none",
    "C08_intersection_complete",
    "C08_intersection_complete_angle",
    "C08_strict_refuted"
   ],
   "note": "Soundness, uniqueness, None for parallels, completeness above the threshold."
  },
  {
   "property": "C09",
   "status": "proved",
   "theorems": [
    "C09_contains",
    "C09_power",
    "C09_includes_complete",
    "C09_includes_sound_outside_tolerance",
    "C09_includes_accepts_centre_of_small_circle",
    "C09_includes_sound_refuted"
   ],
   "note": "contains and power exact; includes complete, sound outside its tolerance; false positive at the centre of small circles proved."
  },
  {
   "property": "C10",
   "status": "proved",
   "theorems": [
    "C10_point_from_angle",
    "C10_point_from_angle_coordinates"
   ],
   "note": "Soundness and surjectivity, radians and degrees."
  },
  {
   "property": "C11",
   "status": "proved",
   "theorems": [
    "C11_circleAB",
    "C11_circleOA"
   ],
   "note": "Thales characterisation; exactly when ValueError is raised."
  },
  {
   "property": "C12",
   "status": "proved",
   "theorems": [
    "C12_radical_axis",
    "C12_radical_axis_total",
    "C12_radical_center_of_two_circles",
    "C12_radical_center_of_concentric_circles_not_finite",
    "C12_radical_center_of_three_circles",
    "C12_radical_center_exists"
   ],
   "note": "Locus equality in both directions; None and exceptions characterised."
  },
  {
   "property": "C13",
   "status": "proved",
   "theorems": [
    "C13_mid_circles_swap",
    "C13_mid_circles_total",
    "C13_mid_circles_complete",
    "C13_mid_circles_tiny_nested_wrong",
    "C13_mid_circles_swap_refuted"
   ],
   "note": "Sound in every configuration; complete; the tiny-circle defect stated and refuted."
  },
  {
   "property": "C14",
   "status": "proved",
   "theorems": [
    "C14_intersection_circle_line",
    "C14_intersection_circle_line_which",
    "C14_secant_line_reported_tangent_refuted"
   ],
   "note": "Sound and complete; exact case distinction; representation-dependent defect for every radius <= 10 and direction."
  },
  {
   "property": "C15",
   "status": "proved",
   "theorems": [
    "C15_intersection_circle_circle",
    "C15_concentric_circles_report_a_point",
    "C15_single_point_common_refuted",
    "C15_which",
    "C15_single_point_near"
   ],
   "note": "Sound and complete; near-concentric defect."
  },
  {
   "property": "C16",
   "status": "proved",
   "theorems": [
    "C16_intersection_points",
    "C16_which",
    "C16_total_refuted",
    "C16_one_point_refuted"
   ],
   "note": "Returned points characterised in every branch, exact branch conditions; the ValueError and the one-point answer for a diameter are exhibited."
  },
  {
   "property": "C17",
   "status": "proved",
   "theorems": [
    "C17_angle",
    "C17_intersecting_circles",
    "C17_intersecting_circles_bound",
    "C17_is_orthogonal_complete",
    "C17_angle_none",
    "C17_angle_raises"
   ],
   "note": "Exact angle, also as angle between radii at any common point; None / ValueError bands exact."
  },
  {
   "property": "C18",
   "status": "proved",
   "theorems": [
    "C18_orthogonal_circle_on",
    "C18_orthogonal_arc_on",
    "C18_diameter"
   ],
   "note": "Circle, arc and diameter cases for all real angles."
  },
  {
   "property": "C19",
   "status": "proved",
   "theorems": [
    "C19_circle",
    "C19_line",
    "C19_arc",
    "C19_total",
    "C19_raise",
    "C19_interior_rejected",
    "C19_exterior_accepted",
    "C19_arc_inside_refuted"
   ],
   "note": "All circles and points; both defects of the guard; the long arc refuted."
  },
  {
   "property": "C20",
   "status": "proved",
   "theorems": [
    "C20_circle_random_points",
    "C20_circle_random_points_total",
    "C20_circle_random_points_raise",
    "C20_circle_random_points_onto",
    "C20_ellipse_random_points",
    "C20_ellipse_random_total",
    "C20_ellipse_random_raises",
    "C20_ellipse_random_onto",
    "C20_triangle_random_points",
    "C20_triangle_random_points_total",
    "C20_triangle_random_points_raise",
    "C20_triangle_random_points_onto"
   ],
   "note": "Circles, ellipses and triangles: membership, totality, surjectivity."
  },
  {
   "property": "C21",
   "status": "proved",
   "theorems": [
    "C21_arc_path",
    "C21_arc_end_points",
    "C21_arc_path_raises"
   ],
   "note": "Number of points, position of each point, end points, sweep."
  },
  {
   "property": "C22",
   "status": "proved",
   "theorems": [
    "C22_equation",
    "C22_equation_on",
    "C22_contains",
    "C22_includes",
    "C22_includes_centre_refuted"
   ],
   "note": "Exact value of the polynomial at every point; contains exact; includes complete, sound up to its tolerance, false positive at the centre of small ellipses."
  },
  {
   "property": "C23",
   "status": "proved",
   "theorems": [
    "C23_path",
    "C23_path_raises",
    "C23_diameter",
    "C23_diameter_cases",
    "C23_diameter_total_refuted",
    "C23_normal"
   ],
   "note": "Position of every point of the path; conjugacy as tangency at all four ends; normal outward and orthogonal to every tangent direction."
  },
  {
   "property": "C24",
   "status": "proved",
   "theorems": [
    "C24_shape_matrix"
   ],
   "note": "Quadratic form equal to the ellipse form at every point."
  },
  {
   "property": "C25",
   "status": "proved",
   "theorems": [
    "C25_point_from_angle",
    "C25_theta2t",
    "C25_theta2t_zero_refuted",
    "C25_opposite_point_refuted"
   ],
   "note": "Every angle but the odd multiples of pi; wrong half-line just above them; ZeroDivisionError."
  },
  {
   "property": "C26",
   "status": "proved",
   "theorems": [
    "C26_own_equation_accepted",
    "C26_own_equation_same",
    "C26_own_equation_diagonal",
    "C26_accepts_own_equation_refuted",
    "C26_roundtrip_refuted"
   ],
   "note": "Exact acceptance condition, same point set when accepted, and the two defects (far centre, axes at 45 degrees)."
  },
  {
   "property": "C27",
   "status": "proved",
   "theorems": [
    "C27_from_equation",
    "C27_accepted_iff",
    "C27_scale_invariant"
   ],
   "note": "Exact acceptance condition; zero set; invariance under scaling for any two eigenvalue oracles. A = C with B <> 0 is the defect described in C26."
  },
  {
   "property": "C28",
   "status": "proved",
   "theorems": [
    "C28_equation",
    "C28_equation_cases",
    "C28_equation_complete",
    "C28_from_five_points",
    "C28_from_five_points_complete",
    "C28_five_points_of_circle_refuted"
   ],
   "note": "Interpolation, uniqueness of the conic, completeness on the points of any ellipse; refutation for from_five_points."
  },
  {
   "property": "C29",
   "status": "proved",
   "theorems": [
    "C29_from_center_and_matrix",
    "C29_positive_definite",
    "C29_shape_matrix_roundtrip"
   ],
   "note": "For every eigen-decomposition meeting the defining equations; existence of one is proved."
  },
  {
   "property": "C30",
   "status": "proved",
   "theorems": [
    "C30_through_the_points",
    "C30_total",
    "C30_minimal_area"
   ],
   "note": "Steiner circumellipse, smallest area among all ellipses containing the points, totality."
  },
  {
   "property": "C31",
   "status": "proved",
   "theorems": [
    "C31_contains_all_minimal",
    "C31_none_iff",
    "C31_four_boundary_points",
    "C31_rectangle_refuted"
   ],
   "note": "For all choice functions and eigen-decompositions; induction on the number of interior points. from_boundary4 is modelled by the exception it raises with numpy >= 1.24."
  },
  {
   "property": "C32",
   "status": "proved",
   "theorems": [
    "C32_invert_spec",
    "C32_invert_infinite",
    "C32_invert_pole",
    "C32_invert_involutive",
    "C32_invert_involutive_refuted",
    "C32_on_circle_fixes"
   ],
   "note": "All inversions; failure of involutivity exhibited for every inversion."
  },
  {
   "property": "C33",
   "status": "proved",
   "theorems": [
    "C33_invert_circle_circle",
    "C33_invert_circle_points",
    "C33_invert_circle_total",
    "C33_invert_circle_band",
    "C33_invert_circle_line",
    "C33_invert_circle_line_position",
    "C33_invert_circle_twice",
    "C33_invert_circle_line_circle",
    "C33_invert_circle_raise",
    "C33_invert_circle_band_refuted"
   ],
   "note": "All inversions and circles; tolerance band characterised and refuted."
  },
  {
   "property": "C34",
   "status": "proved",
   "theorems": [
    "C34_invert_line_circle",
    "C34_invert_line_points",
    "C34_invert_line_total",
    "C34_invert_line_through",
    "C34_invert_line_line",
    "C34_invert_line_not_None",
    "C34_invert_line_twice",
    "C34_invert_line_close_refuted"
   ],
   "note": "All inversions and lines; tolerance case refuted."
  },
  {
   "property": "C35",
   "status": "proved",
   "theorems": [
    "C35_compose",
    "C35_compose_near_pole_refuted"
   ],
   "note": "All pairs of inversions of non-zero power, all points of the extended plane that are not within the closeness tolerance of a pole without being the pole; refutation without that hypothesis."
  },
  {
   "property": "C36",
   "status": "proved",
   "theorems": [
    "C36_swapping",
    "C36_swapping_invert_circle",
    "C36_swapping_total",
    "C36_swapping_messages",
    "C36_swapping_switch_justified",
    "C36_swapping_same_circle_refuted"
   ],
   "note": "All pairs of circles; messages characterised exactly and justified for distinct circles."
  },
  {
   "property": "C37",
   "status": "proved",
   "theorems": [
    "C37_fixing_two",
    "C37_fixing_two_total",
    "C37_fixing_three",
    "C37_fixing_three_total"
   ],
   "note": "All circles; concentric case and tolerance band stated."
  },
  {
   "property": "C38",
   "status": "proved",
   "theorems": [
    "C38_tangency_preserved",
    "C38_common_point_preserved",
    "C38_orthogonality_preserved",
    "C38_inversive_distance"
   ],
   "note": "Induction on the sequence of inversions."
  },
  {
   "property": "C39",
   "status": "proved",
   "theorems": [
    "C39_invert_gcircle_raise"
   ],
   "note": "invert_gcircle raises for every argument (isinstance with a string)."
  },
  {
   "property": "C40",
   "status": "proved",
   "theorems": [
    "C40_steiner_chain",
    "C40_steiner_total",
    "C40_steiner_inner",
    "C40_steiner_shift",
    "C40_steiner_raise"
   ],
   "note": "All n >= 3, |phi| < 1, all shifts. n = 1 and |phi| > 1 are not claimed (DESIGN.md)."
  },
  {
   "property": "C41",
   "status": "proved",
   "theorems": [
    "C41_steiner_ellipse"
   ],
   "note": "All n >= 3, |phi| < 1, all shifts."
  },
  {
   "property": "C42",
   "status": "proved",
   "theorems": [
    "C42_orientation",
    "C42_documented_orientation_refuted"
   ],
   "note": "All triangles; the documented sign is refuted."
  },
  {
   "property": "C43",
   "status": "proved",
   "theorems": [
    "C43_contains"
   ],
   "note": "All triangles, flat ones included, all points."
  },
  {
   "property": "C44",
   "status": "proved",
   "theorems": [
    "C44_angles",
    "C44_angle_open",
    "C44_is_acute",
    "C44_flatness",
    "C44_flatness_raise"
   ],
   "note": "All triangles with distinct vertices (angle sum also for flat ones); exact exception condition."
  },
  {
   "property": "C45",
   "status": "proved",
   "theorems": [
    "C45_circumcircle",
    "C45_circumcircle_none",
    "C45_circumcircle_raise"
   ],
   "note": "All triangles: value, uniqueness, None and exception characterised."
  },
  {
   "property": "C46",
   "status": "proved",
   "theorems": [
    "C46_incircle",
    "C46_incircle_flat"
   ],
   "note": "All triangles; flat ones raise ValueError unless the three vertices coincide (then the circle has nan attributes)."
  },
  {
   "property": "C47",
   "status": "proved",
   "theorems": [
    "C47_excircles",
    "C47_excircles_flat"
   ],
   "note": "All triangles; flat ones raise ValueError unless the three vertices coincide (then the circles have nan attributes)."
  },
  {
   "property": "C48",
   "status": "proved",
   "theorems": [
    "C48_orthic_triangle"
   ],
   "note": "All triangles with distinct vertices; the infinities of right triangles are modelled."
  },
  {
   "property": "C49",
   "status": "proved",
   "theorems": [
    "C49_malfatti_inside",
    "C49_malfatti_circles",
    "C49_malfatti_flat",
    "C49_malfatti_raise"
   ],
   "note": "All triangles; each centre strictly inside, tangency points on the sides."
  },
  {
   "property": "C50",
   "status": "proved",
   "theorems": [
    "C50_equal_detour_point"
   ],
   "note": "All non-flat triangles."
  },
  {
   "property": "C51",
   "status": "proved",
   "theorems": [
    "C51_steiner_ellipse",
    "C51_steiner_inellipse",
    "C51_steiner_flat",
    "C51_steiner_raise",
    "C51_steiner_close"
   ],
   "note": "All triangles; minimal area against every ellipse containing the vertices; tangency as single intersection of the side line."
  },
  {
   "property": "C52",
   "status": "proved",
   "theorems": [
    "C52_compose_left",
    "C52_compose_right",
    "C52_compose_list",
    "C52_inverse"
   ],
   "note": "All affine maps, finite lists by induction."
  },
  {
   "property": "C53",
   "status": "proved",
   "theorems": [
    "C53_maps_and_unique",
    "C53_total",
    "C53_not_collinear_test"
   ],
   "note": "Mapping, uniqueness over all affine maps, None for collinear triples, totality."
  },
  {
   "property": "C54",
   "status": "proved",
   "theorems": [
    "C54_transform_ellipse",
    "C54_transform_circle",
    "C54_singular",
    "C54_transform_ellipse_inside",
    "C54_transform_circle_inside"
   ],
   "note": "Equivalence for every point (boundary, inside and centre), ellipses and circles, singular maps."
  },
  {
   "property": "C55",
   "status": "proved",
   "theorems": [
    "C55_ellipse_to_ellipse",
    "C55_transform_line",
    "C55_transform_line_total_refuted"
   ],
   "note": "transform_line (PropertiesTransfo) and from_ellipse_to_ellipse (PropertiesEllipse)."
  },
  {
   "property": "C56",
   "status": "proved",
   "theorems": [
    "C56_transform",
    "C56_transform_total",
    "C56_compose",
    "C56_compose_list",
    "C56_inverse",
    "C56_inverse_round"
   ],
   "note": "All invertible matrices, all points including infinity, lists of any length."
  },
  {
   "property": "C57",
   "status": "proved",
   "theorems": [
    "C57_power",
    "C57_power_raise",
    "C57_power_add"
   ],
   "note": "All integers k, all points including infinity; ValueError characterised."
  },
  {
   "property": "C58",
   "status": "proved",
   "theorems": [
    "C58_gpower",
    "C58_gpower_power",
    "C58_oracles_exist",
    "C58_small_matrix_refuted",
    "C58_small_matrix_raise"
   ],
   "note": "Quantified over every argument function and eigendecomposition, whose existence is proved; the domain of the tolerance tests is explicit; scale dependence refuted by two matrices."
  },
  {
   "property": "C59",
   "status": "proved",
   "theorems": [
    "C59_identity",
    "C59_fixed_points",
    "C59_infinity_missing",
    "C59_raise",
    "C59_not_fixed",
    "C59_two_exist"
   ],
   "note": "All invertible matrices: complete case analysis on the discriminant."
  },
  {
   "property": "C60",
   "status": "proved",
   "theorems": [
    "C60_circle",
    "C60_circle_only",
    "C60_line",
    "C60_disc"
   ],
   "note": "All invertible matrices and circles, all points including infinity and the pole; the loop has fuel (see C61)."
  },
  {
   "property": "C61",
   "status": "proved",
   "theorems": [
    "C61_loops",
    "C61_ends"
   ],
   "note": "All circles of radius at most 5e-9 through the pole loop for every fuel; 21 tests suffice when the radius exceeds sqrt(2) times the tolerance at the pole."
  },
  {
   "property": "C62",
   "status": "proved",
   "theorems": [
    "C62_circle",
    "C62_when_circle",
    "C62_line",
    "C62_line_exact",
    "C62_pole_raise",
    "C62_errors",
    "C62_scale_refuted"
   ],
   "note": "All invertible matrices and lines, all points including infinity; the threshold is characterised by the distance of the pole."
  },
  {
   "property": "C63",
   "status": "proved",
   "theorems": [
    "C63_maps",
    "C63_unique",
    "C63_total",
    "C63_none",
    "C63_infinite",
    "C63_infinite_refuted"
   ],
   "note": "All six-tuples of points of the extended plane. That an infinite point makes the matrix non-finite is part of the model (NonFinite)."
  },
  {
   "property": "C64",
   "status": "proved",
   "theorems": [
    "C64_on_circle",
    "C64_invertible",
    "C64_centres",
    "C64_distances"
   ],
   "note": "All pairs of circles, all points; the interior is exchanged with the exterior."
  },
  {
   "property": "C65",
   "status": "proved",
   "theorems": [
    "C65_real",
    "C65_invariant",
    "C65_value",
    "C65_raise"
   ],
   "note": "All four-tuples of points, all invertible matrices."
  },
  {
   "property": "C66",
   "status": "proved",
   "theorems": [
    "C66_unimodular_matrices",
    "C66_unimodular_one",
    "C66_unimodular_raise",
    "C66_unimodular_sound",
    "C66_unimodular_monotone",
    "C66_all_unimodular_matrices_refuted",
    "C66_farey_sequence",
    "C66_farey_neighbours"
   ],
   "note": "All integers n (a non-integer n is not in the model's argument type)."
  },
  {
   "property": "C67",
   "status": "proved",
   "theorems": [
    "C67_constructor",
    "C67_project",
    "C67_hypothesis_meaning",
    "C67_parallel",
    "C67_as_affine",
    "C67_as_affine_refuted"
   ],
   "note": "Existence, uniqueness, idempotence; parallel case; as_affine under the exact regularity condition and refuted without it."
  },
  {
   "property": "C68",
   "status": "proved",
   "theorems": [
    "C68_rotate",
    "C68_compose",
    "C68_rotate_circle",
    "C68_rotate_line",
    "C68_rotate_ellipse",
    "C68_rotate_total"
   ],
   "note": "Rotation law, composition, images of circles, lines and ellipses."
  },
  {
   "property": "C69",
   "status": "proved",
   "theorems": [
    "C69_constructor",
    "C69_transform",
    "C69_zero_vector",
    "C69_area_preserving",
    "C69_shear_vector",
    "C69_vertex_fixed_iff",
    "C69_vertex_fixed_refuted"
   ],
   "note": "Closed form, area, vector action, exact fixed-vertex condition; refutation of the documented behaviour."
  },
  {
   "property": "C70",
   "status": "proved",
   "theorems": [
    "C70_scalingxy",
    "C70_homothety",
    "C70_homothety_circle"
   ],
   "note": "All inputs."
  },
  {
   "property": "C71",
   "status": "proved",
   "theorems": [
    "C71_scaling",
    "C71_zero_direction",
    "C71_scale_circle"
   ],
   "note": "All inputs, image of circles as point sets."
  },
  {
   "property": "C72",
   "status": "proved",
   "theorems": [
    "C72_rotation",
    "C72_scalingxy",
    "C72_homothety",
    "C72_scaling",
    "C72_shear",
    "C72_shear_raise",
    "C72_affine",
    "C72_matrix_product"
   ],
   "note": "Arrays of dimension 0, 1, 2 (and more, except for Affine), all numbers of rows."
  },
  {
   "property": "C73",
   "status": "proved",
   "theorems": [
    "C73_circle",
    "C73_line",
    "C73_arc",
    "C73_ellipse",
    "C73_inversion",
    "C73_homothety",
    "C73_triangle",
    "C73_rotation",
    "C73_shear",
    "C73_scalingxy",
    "C73_scaling",
    "C73_accepted_radius_positive_refuted",
    "C73_circle_agrees",
    "C73_line_agrees",
    "C73_ellipse_agrees",
    "C73_arc_agrees",
    "C73_shear_agrees",
    "C73_point_or_infinity",
    "C73_point_or_infinity_raise",
    "C73_number_of_points",
    "C73_number_of_points_raise"
   ],
   "note": "All values of the universe of ModelPy.v: None, bool, int, float, numpy real scalars, np.bool_, complex, strings, tuples, lists, one-dimensional arrays (of arbitrary content), other arrays, other objects."
  },
  {
   "property": "C74",
   "status": "proved",
   "theorems": [
    "C74_approx_equal",
    "C74_circle_reflexive",
    "C74_circle_symmetric_refuted",
    "C74_circle_transitive_refuted",
    "C74_ellipse_complete",
    "C74_ellipse_sound",
    "C74_round_ellipse_refuted",
    "C74_wrap_around_refuted"
   ],
   "note": "All circles and ellipses; refutations of symmetry, transitivity, and of completeness for round ellipses and near the wrap-around."
  },
  {
   "property": "C75",
   "status": "proved",
   "theorems": [
    "C75_circle_value",
    "C75_line_value",
    "C75_circle_shares_array",
    "C75_line_shares_arrays",
    "C75_circle_copies_sequence",
    "C75_line_copies_sequences",
    "C75_on_circle_shares",
    "C75_reflection_shares",
    "C75_invert_inf_is_the_pole",
    "C75_reflect_value",
    "C75_reflect_point_of_the_line",
    "C75_reflect_shares_or_allocates",
    "C75_reflect_circle_shares",
    "C75_distinct_points_refuted"
   ],
   "note": "All heaps, arrays and later writes. The heap is modelled for Circle, Line, Inversion, Inversion.on_circle, Reflection and invert(inf); the other constructors also call np.asarray(., dtype=float) but are not in the heap model."
  },
  {
   "property": "C76",
   "status": "proved",
   "theorems": [
    "C76_points",
    "C76_one_point",
    "C76_overwrites_float_array",
    "C76_other_arguments_unchanged",
    "C76_repeated_calls",
    "C76_same_call_same_point_refuted"
   ],
   "note": "All heaps, ellipses and vectors of angles; the value of each point is the one of C25."
  },
  {
   "property": "C77",
   "status": "proved",
   "theorems": [
    "C77_line_show",
    "C77_triangle_show",
    "C77_projection_show_refuted",
    "C77_shear_show",
    "C77_units",
    "C77_show_identifies",
    "C77_show_labels"
   ],
   "note": "All objects. The conversion of numbers to characters is not modelled: a printed line is the list of the arguments of print."
  },
  {
   "property": "C78",
   "status": "proved",
   "theorems": [
    "C78_includes",
    "C78_circleOA",
    "C78_circleAB",
    "C78_circleAB_refuted",
    "C78_integers",
    "C78_orthogonal",
    "C78_init",
    "C78_coincident"
   ],
   "note": "Binary64 model (ModelFloat.v). All finite circles and points up to 2^500; refutation of the unconditional claim for circleAB."
  },
  {
   "property": "C79",
   "status": "proved",
   "theorems": [
    "C79_contains",
    "C79_power",
    "C79_integers",
    "C79_contains_refuted"
   ],
   "note": "Binary64 model. All circles and points up to 2^500; refutation by an integer point."
  },
  {
   "property": "C80",
   "status": "proved",
   "theorems": [
    "C80_line_includes",
    "C80_integers",
    "C80_exact_refuted"
   ],
   "note": "Binary64 model, strict=False. All points up to 2^240."
  },
  {
   "property": "C81",
   "status": "proved",
   "theorems": [
    "C81_sign",
    "C81_integers",
    "C81_sign_refuted"
   ],
   "note": "Binary64 model. All triangles up to 2^500."
  },
  {
   "property": "C82",
   "status": "proved",
   "theorems": [
    "C82_invert"
   ],
   "note": "Binary64 model. All inversions and finite points; inputs up to 2^500, power up to 2^400."
  },
  {
   "property": "C83",
   "status": "proved",
   "theorems": [
    "C83_point_from_angle",
    "C83_far_refuted",
    "C83_position"
   ],
   "note": "Binary64 model; cos and sin are arbitrary functions of the stated accuracy (such functions exist: C83_example)."
  },
  {
   "property": "C84",
   "status": "proved",
   "theorems": [
    "C84_cosine",
    "C84_no_error",
    "C84_error_refuted",
    "C84_flat_refuted"
   ],
   "note": "Binary64 model, angleA only (angleB and angleC are the same code with the names permuted). The value of acos itself is not modelled."
  },
  {
   "property": "C85",
   "status": "proved",
   "theorems": [
    "C85_is_acute",
    "C85_right_refuted"
   ],
   "note": "Binary64 model."
  },
  {
   "property": "C86",
   "status": "proved",
   "theorems": [
    "C86_parallel",
    "C86_parallel_threshold",
    "C86_perpendicular",
    "C86_perpendicular_general",
    "C86_intersection",
    "C86_intersection_refuted"
   ],
   "note": "Binary64 model; intersection of the supporting lines only (strict=False)."
  },
  {
   "property": "C87",
   "status": "proved",
   "theorems": [
    "C87_similarities",
    "C87_incircle",
    "C87_circumcircle",
    "C87_excircles",
    "C87_orthic_triangle",
    "C87_equal_detour_point",
    "C87_malfatti_circles",
    "C87_contains",
    "C87_orientation",
    "C87_measures",
    "C87_steiner_ellipse",
    "C87_steiner_inellipse",
    "C87_steiner_scale_refuted"
   ],
   "note": "Exact real arithmetic. The Steiner ellipses are compared as sets of points when both calls return one."
  },
  {
   "property": "C88",
   "status": "proved",
   "theorems": [
    "C88_centers",
    "C88_excircles",
    "C88_orthic_triangle",
    "C88_malfatti_circles",
    "C88_angles",
    "C88_sides",
    "C88_contains_acute",
    "C88_orientation",
    "C88_flatness_refuted",
    "C88_degenerate_refuted"
   ],
   "note": "Exact real arithmetic; the Steiner ellipses for reordered vertices are in C87_steiner_ellipse and C87_steiner_inellipse."
  },
  {
   "property": "C89",
   "status": "proved",
   "theorems": [
    "C89_tests",
    "C89_radical",
    "C89_radical_center",
    "C89_mid_circles",
    "C89_intersection_circle_circle",
    "C89_single_point_refuted",
    "C89_lines_refuted",
    "C89_circles_refuted"
   ],
   "note": "Exact real arithmetic; mid_circles for equal radii is not claimed."
  },
  {
   "property": "C90",
   "status": "proved",
   "theorems": [
    "C90_projection_distance",
    "C90_includes",
    "C90_intersection_line_line",
    "C90_intersection_circle_line",
    "C90_reflection",
    "C90_invert_line",
    "C90_is_parallel_refuted",
    "C90_includes_refuted",
    "C90_secant_refuted"
   ],
   "note": "Exact real arithmetic."
  },
  {
   "property": "C91",
   "status": "proved",
   "theorems": [
    "C91_chords_and_reflections",
    "C91_foci",
    "C91_through_focus",
    "C91_caustic",
    "C91_upward_refuted"
   ],
   "note": "Exact real arithmetic; centred ellipses with axes parallel to the coordinate axes, as in the script. C91_upward_refuted: trajectories that cannot be computed."
  },
  {
   "property": "C92",
   "status": "proved",
   "theorems": [
    "C92_tangent_to_three",
    "C92_two_circles"
   ],
   "note": "Exact real arithmetic; the three circles are arguments. When one call of the script returns None or raises, nothing is claimed."
  },
  {
   "property": "C93",
   "status": "proved",
   "theorems": [
    "C93_line_reflection",
    "C93_line_reflection_total",
    "C93_line_invert",
    "C93_line_and_circle",
    "C93_line_and_circle_none",
    "C93_line_and_ellipse",
    "C93_line_and_ellipse_none",
    "C93_two_lines",
    "C93_two_circles",
    "C93_two_circles_none",
    "C93_edges",
    "C93_rotation_transform"
   ],
   "note": "Exact real arithmetic; the type checks of the arguments are in C73."
  },
  {
   "property": "C94",
   "status": "proved",
   "theorems": [
    "C94_rotation",
    "C94_rotation_radians",
    "C94_rotation_centre",
    "C94_rotation_zero_refuted",
    "C94_homothety",
    "C94_homothety_one",
    "C94_homothety_zero",
    "C94_homothety_centre_refuted",
    "C94_scaling",
    "C94_scaling_centre",
    "C94_scaling_one_refuted",
    "C94_affine",
    "C94_translation",
    "C94_homothety_grid",
    "C94_scaling_grid",
    "C94_affine_grid",
    "C94_translation_grid"
   ],
   "note": "Binary64 arithmetic on one point; cosine and sine of the C library only assumed accurate to one unit in the last place of 1. The refuted statements are about exactness only."
  },
  {
   "property": "C95",
   "status": "proved",
   "theorems": [
    "C95_gasket",
    "C95_corner_radii",
    "C95_depth_limited",
    "C95_depth_reached",
    "C95_inner_soddy_circle",
    "C95_side_circle_circle",
    "C95_side_side_circle"
   ],
   "note": "Exact real arithmetic; a sphere added to the plotter is modelled by its circle. Whether a given depth beyond the reach of C95_depth_reached and before C95_corner_radii succeeds is not settled."
  },
  {
   "property": "C96",
   "status": "proved",
   "theorems": [
    "C96_apollonian_gasket",
    "C96_apollonian_total",
    "C96_apollonian_script",
    "C96_apollonian_positions",
    "C96_animation",
    "C96_animation_loops",
    "C96_every_position_refuted"
   ],
   "note": "Exact real arithmetic; the constants of the program (outer circle, n, phi, shift, depth) are parameters. A drawn disc is modelled by its circle. Failures are excluded only under the stated bounds on the radii."
  },
  {
   "property": "C97",
   "status": "proved",
   "theorems": [
    "C97_soddy_outer",
    "C97_malfatti_gasket",
    "C97_script_normalised",
    "C97_script_success",
    "C97_script",
    "C97_script_refuted"
   ],
   "note": "Exact real arithmetic; the triangle and the depth of the program are parameters. A drawn sphere is modelled by its circle. C97_script_refuted: the claim 'the program succeeds for every non-degenerate triangle' is false."
  },
  {
   "property": "C98",
   "status": "proved",
   "theorems": [
    "C98_tessellation",
    "C98_period",
    "C98_animation",
    "C98_raise"
   ],
   "note": "Exact real arithmetic; n and u (1 and 8 in the program) are parameters. numpy's eigendecomposition and argument are any that satisfy their specification. The in-place changes of the matrices are modelled."
  },
  {
   "property": "C99",
   "status": "proved",
   "theorems": [
    "C99_powers",
    "C99_powers_domain",
    "C99_powers_disc",
    "C99_picture",
    "C99_loop",
    "C99_script"
   ],
   "note": "Exact real arithmetic; the pictures are the lists of circles drawn. The gasket is that of C96 for the unit circle."
  },
  {
   "property": "C100",
   "status": "proved",
   "theorems": [
    "C100_arcs",
    "C100_images",
    "C100_reflection_refuted",
    "C100_diameter",
    "C100_second",
    "C100_second_first"
   ],
   "note": "Exact real arithmetic; the arcs drawn, not the polygons of their paths. Depths below 2 (IndexError) are not modelled. That the picture is a tessellation by inversions is refuted for the radius 3 of the scripts."
  },
  {
   "property": "C101",
   "status": "proved",
   "theorems": [
    "C101_matrix",
    "C101_product",
    "C101_compose",
    "C101_singular"
   ],
   "note": "Exact real arithmetic. Projection: for lines such that each of the points (0,0), (1,0), (0,1) is on the line or recognised as outside (see C67_as_affine_refuted)."
  },
  {
   "property": "C102",
   "status": "proved",
   "theorems": [
    "C102_circular_gasket",
    "C102_circular_success",
    "C102_circular_every_shift",
    "C102_circular_total_refuted",
    "C102_circular_picture"
   ],
   "note": "Exact real arithmetic; meshes and colours are not modelled (a sphere is its circle)."
  },
  {
   "property": "C103",
   "status": "proved",
   "theorems": [
    "C103_words",
    "C103_starting",
    "C103_starting_touch",
    "C103_pairing",
    "C103_level",
    "C103_nested",
    "C103_apart",
    "C103_neighbours",
    "C103_picture",
    "C103_which",
    "C103_all_drawn_refuted",
    "C103_pairs",
    "C103_small",
    "C103_zero",
    "C103_angles"
   ],
   "note": "Exact real arithmetic; the free group of sympy is modelled by the array form of its elements; the figure is the list of its circles. That all circles of n letters are drawn is refuted (C103_all_drawn_refuted)."
  },
  {
   "property": "C104",
   "status": "proved",
   "theorems": [
    "C104_generations",
    "C104_integers",
    "C104_pairs",
    "C104_picture",
    "C104_three",
    "C104_all_drawn_refuted"
   ],
   "note": "Exact real arithmetic; colours are not modelled. That every object of the generations is drawn is refuted (C104_all_drawn_refuted)."
  },
  {
   "property": "C105",
   "status": "proved",
   "theorems": [
    "C105_nested",
    "C105_total",
    "C105_radii",
    "C105_period",
    "C105_same_picture",
    "C105_elliptical",
    "C105_elliptical_total",
    "C105_elliptical_nested",
    "C105_elliptical_nested_total",
    "C105_solids",
    "C105_homogeneous",
    "C105_nested_solids",
    "C105_center",
    "C105_with_ellipse",
    "C105_scripts"
   ],
   "note": "Exact real arithmetic; colours, windows, cameras other than the point they look at, and image files are not modelled; the sphere of pyvista is the exact sphere, not its mesh."
  },
  {
   "property": "C106",
   "status": "proved",
   "theorems": [
    "C106_transfo",
    "C106_homogeneous",
    "C106_flat",
    "C106_face",
    "C106_depth_limited",
    "C106_icosahedron",
    "C106_drawn"
   ],
   "note": "Exact real arithmetic; colours and the window are not modelled; the sphere of pyvista is the exact sphere, not its mesh. Whether the flattening (0.3) takes place depends on the version of pyvista; the theorems hold for every factor. Nothing is claimed about solids of two different faces."
  },
  {
   "property": "C107",
   "status": "proved",
   "theorems": [
    "C107_smallest_through_four",
    "C107_numpy_without_float",
    "C107_general_position",
    "C107_inside_no_ellipse",
    "C107_passes_through_refuted"
   ],
   "note": "Exact real arithmetic. np.argsort, np.roots and np.linalg.eigh are any functions meeting their specification (all three are shown to exist); np.roots is used only where the cubic has three real roots, which is proved. Arguments that are not four points are not modelled."
  },
  {
   "property": "C108",
   "status": "proved",
   "theorems": [
    "C108_smallest",
    "C108_none_and_exceptions",
    "C108_returns",
    "C108_boundary_points",
    "C108_three_aligned",
    "C108_rectangle",
    "C108_five_points_refuted",
    "C108_without_np_float"
   ],
   "note": "Exact real arithmetic. np.argsort, np.roots, np.linalg.eigh and np.linalg.eigvals are any functions meeting their specification (shown to exist); np.random.randint is an arbitrary index at each call. The proof is the pencil argument behind the recursion (an ellipse of least area through the boundary points that does not contain a point can be moved towards one that does, through the point), for all lists."
  },
  {
   "property": "C109",
   "status": "proved",
   "theorems": [
    "C109_triangle_in",
    "C109_triangle_on",
    "C109_circle",
    "C109_ellipse",
    "C109_ellipse_on_refuted"
   ],
   "note": "Exact real arithmetic; the generator is modelled by its draws (C20). That uniform numbers fill rectangles with probability equal to the area, and that the direction of a pair of independent normal numbers is uniform, is the specification of numpy's generator and is not proved; measure theory is not used, the theorems give the regions and their areas. Draws equal to 0 are excluded where the point is then the vertex or the centre."
  },
  {
   "property": "C110",
   "status": "proved",
   "theorems": [
    "C110_from_boundary3",
    "C110_from_boundary4",
    "C110_LownerJohnEllipse",
    "C110_steiner",
    "C110_area"
   ],
   "note": "Exact real arithmetic. LownerJohnEllipse and from_boundary4 need np.float (numpy < 1.24), see C107 and C108; the five-point case is subject to the 45 degrees exception of C108."
  },
  {
   "property": "C111",
   "status": "proved",
   "theorems": [
    "C111_radii",
    "C111_euler",
    "C111_nine_point_circle",
    "C111_right_angle",
    "C111_excentral"
   ],
   "note": "Exact real arithmetic. In floating point a right angle is rarely exact, so the two exceptional answers may be replaced by a very large or meaningless circle."
  },
  {
   "property": "C112",
   "status": "proved",
   "theorems": [
    "C112_compose",
    "C112_inverse",
    "C112_tangent_orthogonal",
    "C112_external_tangency",
    "C112_angle"
   ],
   "note": "Exact real arithmetic. The number of iterations of the search in transform_circle (C61) is a parameter, it plays no role when the image is a circle."
  },
  {
   "property": "C113",
   "status": "proved",
   "theorems": [
    "C113_reflections_meet",
    "C113_reflections_parallel",
    "C113_reflection_rotation",
    "C113_rotations",
    "C113_homotheties",
    "C113_inversions"
   ],
   "note": "Exact real arithmetic. Lines with two different defining points."
  },
  {
   "property": "C114",
   "status": "proved",
   "theorems": [
    "C114_unique",
    "C114_normal",
    "C114_compose",
    "C114_inverse",
    "C114_rotation",
    "C114_identity"
   ],
   "note": "Exact real arithmetic: the equality of the two results is exact in the real numbers, not in floating-point numbers."
  },
  {
   "property": "C115",
   "status": "proved",
   "theorems": [
    "C115_hyperbola",
    "C115_foci",
    "C115_prefix",
    "C115_frames"
   ],
   "note": "Exact real arithmetic. The trajectory of the script is modelled as in C91; the drawing is not modelled, only the list of the segments given to each picture."
  },
  {
   "property": "C116",
   "status": "proved",
   "theorems": [
    "C116_circumcircle",
    "C116_circle_line",
    "C116_ellipse_line",
    "C116_ellipses",
    "C116_mobius",
    "C116_powers",
    "C116_projection",
    "C116_reflection",
    "C116_circle_circle",
    "C116_lines",
    "C116_perpendicular",
    "C116_orthogonal",
    "C116_triangle",
    "C116_boundary"
   ],
   "note": "Exact real arithmetic; what happens in binary64 to the tests of constructed circles is in C78, C79, C80 and C83. The plots of the script, and its lines 41 and 46 (C108, C107), are not part of this model."
  },
  {
   "property": "C117",
   "status": "proved",
   "theorems": [
    "C117_area",
    "C117_compose",
    "C117_inverse",
    "C117_classes",
    "C117_shear",
    "C117_reflection",
    "C117_reflection_affine",
    "C117_projection",
    "C117_orientation",
    "C117_contains",
    "C117_ellipse_contains",
    "C117_circle_contains",
    "C117_barycentre",
    "C117_intersection"
   ],
   "note": "Exact real arithmetic. Where Reflection and Projection return a point within the tolerance of the line unchanged, the areas need not be as stated (C06, C67)."
  },
  {
   "property": "C118",
   "status": "proved",
   "theorems": [
    "C118_contains",
    "C118_contains_refuted",
    "C118_flatness",
    "C118_flat_degenerate",
    "C118_flat_integers",
    "C118_flat_refuted"
   ],
   "note": "Of circumcircle, malfatti_circles and the Steiner ellipses only the flatness test is modelled in binary64. The triangle wrongly called flat has integer coordinates beyond 2800."
  },
  {
   "property": "C119",
   "status": "proved",
   "theorems": [
    "C119_affine_three_points",
    "C119_orthogonal",
    "C119_cross_ratio_real",
    "C119_cross_ratio_invariant",
    "C119_ellipse_equation",
    "C119_ellipse_equation_refuted",
    "C119_affine_ellipse",
    "C119_ellipse_random",
    "C119_ellipse_five_points",
    "C119_ellipse_matrix",
    "C119_ellipse_diameter",
    "C119_homothety",
    "C119_invert_circle",
    "C119_invert_circle_passes",
    "C119_swapping",
    "C119_fixing_two",
    "C119_fixing_three",
    "C119_compose_inversions",
    "C119_mid_circles",
    "C119_image_circle",
    "C119_image_circle_line",
    "C119_image_line",
    "C119_mapping_three_points",
    "C119_mapping_one_circle",
    "C119_gpower",
    "C119_gpower_refuted",
    "C119_rotate_ellipse",
    "C119_scale_circle",
    "C119_contains",
    "C119_contains_refuted",
    "C119_malfatti",
    "C119_excircles",
    "C119_circumcircles"
   ],
   "note": "The tests that transform a matrix of points (test_Affine, test_AxisScaling, test_Shear, test_Rotation) are covered by C72; the one-point and no-point cases of test_intersections by C15; test_version is not modelled. random draws are arguments."
  },
  {
   "property": "C120",
   "status": "proved",
   "theorems": [
    "C120_circle_line",
    "C120_tangent_refuted",
    "C120_disjoint_refuted",
    "C120_projection",
    "C120_distance"
   ],
   "note": "The tolerance on Delta is the machine epsilon of the code. Outside the ranges only the two refutations are proved. numpy warnings are not modelled."
  },
  {
   "property": "C121",
   "status": "proved",
   "theorems": [
    "C121_distance",
    "C121_power",
    "C121_centre",
    "C121_line_centre",
    "C121_fixed",
    "C121_fixed_on_circle",
    "C121_through_inverse",
    "C121_coaxial",
    "C121_angle",
    "C121_commute",
    "C121_cross_ratio",
    "C121_ptolemy"
   ],
   "note": "The tolerances of invert, invert_circle and invert_line appear through the hypotheses that the calls return points or circles."
  },
  {
   "property": "C122",
   "status": "proved",
   "theorems": [
    "C122_ratio",
    "C122_attracting",
    "C122_repelling",
    "C122_neutral",
    "C122_period",
    "C122_parabolic",
    "C122_affine"
   ],
   "note": "Fixed points are taken as points kept by transform, not as results of fixed_points (see C59 for those)."
  },
  {
   "property": "C123",
   "status": "proved",
   "theorems": [
    "C123_inellipse_largest",
    "C123_circumellipse_smallest",
    "C123_areas",
    "C123_tangents",
    "C123_marden",
    "C123_foci"
   ],
   "note": "Extends C51, which has the centre, the points of contact and the minimality without uniqueness. Areas are written pi times the product of the radii."
  },
  {
   "property": "C124",
   "status": "proved",
   "theorems": [
    "C124_incircle_largest",
    "C124_circumcircle_smallest",
    "C124_obtuse",
    "C124_fagnano",
    "C124_malfatti_packed",
    "C124_malfatti_largest_refuted"
   ],
   "note": "Areas of discs are written pi r^2. That the Malfatti circles are never optimal (Zalgaller and Los) is not proved; one triangle refutes the claim."
  },
  {
   "property": "C125",
   "status": "proved",
   "theorems": [
    "C125_intersection",
    "C125_points",
    "C125_same_refuted",
    "C125_angle_none",
    "C125_angle",
    "C125_angle_tangent_refuted",
    "C125_is_orthogonal",
    "C125_is_orthogonal_refuted",
    "C125_radical_center"
   ],
   "note": "The squares written **2 are modelled as products; those of the theorems are exact in binary64."
  },
  {
   "property": "C126",
   "status": "proved",
   "theorems": [
    "C126_circle",
    "C126_line",
    "C126_line_refuted",
    "C126_any_power_refuted"
   ],
   "note": "The squares written **2 are modelled as products; those of the theorems are exact in binary64."
  },
  {
   "property": "C127",
   "status": "proved",
   "theorems": [
    "C127_value",
    "C127_small",
    "C127_any_refuted"
   ],
   "note": "The numpy combination (a*A + b*B + c*C) / p is modelled coordinatewise; the comparison of the error is with the largest inscribed disc, not with the formula."
  },
  {
   "property": "C128",
   "status": "proved",
   "theorems": [
    "C128_axis",
    "C128_axis_refuted",
    "C128_none_refuted"
   ],
   "note": "That the arguments of Line are points (error_if_not_point_) is not modelled: the numbers of the theorems are finite."
  },
  {
   "property": "C129",
   "status": "proved",
   "theorems": [
    "C129_reflection",
    "C129_perpendicular",
    "C129_reflection_refuted"
   ],
   "note": "The booleans extendH and extendM of Line.perpendicular are not modelled, nor the infinite point, which transform returns unchanged."
  },
  {
   "property": "C130",
   "status": "proved",
   "theorems": [
    "C130_scaling",
    "C130_unique",
    "C130_centre"
   ],
   "note": "The accuracy of the C library is an hypothesis (libm_cos_sin, libm_acos_atan2). A matrix of points is treated row by row."
  },
  {
   "property": "C131",
   "status": "proved",
   "theorems": [
    "C131_circle",
    "C131_disk",
    "C131_nonzero_refuted"
   ],
   "note": "The check that the argument is a Circle is not modelled."
  },
  {
   "property": "C132",
   "status": "proved",
   "theorems": [
    "C132_homothety",
    "C132_scaling",
    "C132_affine",
    "C132_scaling_refuted"
   ],
   "note": "One point at a time. The matrix product is a sum of two products for each coordinate, computed in any of three ways."
  },
  {
   "property": "C133",
   "status": "proved",
   "theorems": [
    "C133_compose",
    "C133_compose_refuted"
   ],
   "note": "The three products of an entry are added from the left; the second argument is an Affine object (or has the same 3x3 matrix)."
  }
 ]
}