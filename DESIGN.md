# Formal model of PyPlaneGeometry in Rocq (Coq 8.16.1)

## 1. What is modelled, and how

The package is `planegeometry/internal.py` (helpers) and `planegeometry/geometry.py`
(classes). No method assigns to an attribute or to an array of its receiver or of its
arguments, with one exception (`Ellipse.point_from_angle`, property C76), so the model is a
shallow, function-by-function translation with values instead of references:

* a Python object becomes a record (`line`, `circle`, `arc`, `ellipse`, `inversion`,
  `triangle`, `affine`, `mobius`, ...), a method a Gallina function on it;
* a function that may raise returns `res A := Ok a | Raise e` (exceptions as values:
  `ValueError`, `TypeError`, `ZeroDivisionError`, `AttributeError`, `LinAlgError`,
  `OverflowError`);
  a Python `None` result is `None` of an `option`;
* a *numpy* scalar division by zero does not raise, it produces inf/nan: this is the
  pseudo-exception `NonFinite`, unless the code goes on to give the non-finite value a
  meaning (then it is modelled explicitly, e.g. `Triangle.contains`,
  `Triangle.orthic_triangle`);
* `inf` as a point is a constructor of `ept := Pt p | Inf`;
* random numbers are universally quantified arguments;
* LAPACK eigen-solvers and Cholesky are universally quantified oracles constrained only
  by their defining equations, so the results hold for every correct implementation
  (sign and order of eigenvectors free). Existence of such an oracle is proved;
* `while True` loops become fuelled loops whose out-of-fuel outcome is a separate value;
* references are modelled separately (`ModelHeap.v`, C75 and C76): a heap of float64
  arrays, in which `np.asarray(x, dtype=float)` returns the array x itself and copies
  anything else. This is done for the classes named in C75; the other constructors treat
  their arguments in the same way but are modelled with values only;
* the validation of arguments is modelled separately (`ModelPy.v`, C73) on a universe of
  Python values; the other files take arguments already of the right type. Not in that
  universe: `np.complex64`, `Fraction`, `Decimal`, arrays of more than one dimension
  (a single opaque constructor); the arguments of `Affine` and `Mobius` are matrices of
  numbers in the model, their validation is not modelled.

### Arithmetic

Except in C78-C86, C94, C118 and C120, numbers are the real numbers of Coq's standard library (`R`). **Rounding is not
modelled there**: `float` is idealised as an exact real number. All tolerances are modelled
with their exact values: `sepsilon_ = sqrt(2^-52) = 2^-26`, `math.isclose` (rel 1e-9),
`numpy.allclose` (rtol 1e-5, atol 1e-8, asymmetric). So every theorem states what the
algorithm computes in exact arithmetic *including its tolerance logic*. NaN, infinities
and signed zeros appear only where a modelled function produces or inspects them
(validation model, `ept`, `NonFinite`).

In C78-C86, C94, C118 and C120 (`ModelFloat*.v`) the arithmetic is IEEE 754 binary64, round to nearest even, as
defined in `Coq.Floats.SpecFloat` (an executable definition of the standard library, without
axioms; not the primitive floats). The operations are proved correctly rounded in `PFloat*.v`;
Flocq is not used. A fused multiply-add is defined there too, because BLAS may compute
`np.vdot` with it: the parameters of type `how` range over the possible evaluations. `cos`
and `sin` are arbitrary functions accurate to one unit in the last place of 1.

Python's `x % m` on floats is `x - m*floor(x/m)`; `math.atan2` is defined by cases;
`math.sqrt`/`math.acos` raise `ValueError` outside their domain.

## 2. Trusted base

* Coq 8.16.1's kernel (and `vm_compute` where used).
* `Print Assumptions` beneath each property theorem. The real-number theorems rest on the
  axioms of Coq's standard library for `R` and nothing else:
  `ClassicalDedekindReals.sig_forall_dec`, `ClassicalDedekindReals.sig_not_dec`,
  `FunctionalExtensionality.functional_extensionality_dep` (and `Classical_Prop.classic`
  where a standard-library lemma uses it). No axiom of our own, no other library.
* The reading of the Python source: each model definition cites file and lines, and says
  what is simplified.

Not modelled: `__str__`, the messages printed by methods other than `show`, the conversion
of numbers to characters,
floating-point rounding outside C78-C86, C94, C118 and C120, numpy warnings, the drawing commands of the examples.

## 3. Files (`rocq/theories`)

| file | content |
|---|---|
| `Base.v` | exceptions, real comparisons, `%`, `atan2`, tolerances, points, complex numbers |
| `Spec.v`, `SpecTriangle.v`, `SpecMobius.v`, `SpecPy.v`, `SpecSym.v` | independent specification: lines, circles, ellipses as point sets, tangency, the extended plane, the documented arguments, similarities |
| `ModelInternal.v` | `internal.py`: intersections, `collinear_`, `approx_equal_`, sampling, ... |
| `ModelLine.v`, `ModelCircle.v`, `ModelEllipse.v`, `ModelInversion.v`, `ModelTriangle.v`, `ModelAffine.v`, `ModelMobius.v` | the class of that name and the functions around it (`Arc` and the radical objects in `ModelCircle.v`, `SteinerChain` in `ModelInversion.v`) |
| `ModelTransfo.v` | `Reflection`, `Projection`, `Rotation`, `Shear`, `ScalingXY`, `Homothety`, `Scaling` |
| `ModelBatch.v` | the same on matrices of points, with the shape checks |
| `ModelFarey.v` | `unimodular_matrices`, `farey_`, `farey_stack_` over Z |
| `ModelPy.v` | guards and constructors on a universe of Python values |
| `ModelHeap.v` | sharing of arrays, in-place modification |
| `ModelShow.v`, `SpecShow.v` | the `show` methods |
| `ModelAlias.v` | the methods that only call another function |
| `ModelFloatTransfo.v` | binary64: rotation, homothety, axis scaling, affine map and translation of a point |
| `ModelBilliard.v`, `ModelTangentCircles.v` | the computations of `examples/EllipticalBilliard.py` and `examples/Circles_simultaneously_tangent.py`, as functions of their data |
| `ModelGasket.v`, `SpecGasket.v` | the circles of `examples/triangularApollonianGasket.py`; packing of a triangle |
| `ModelApollonian.v`, `SpecApollonian.v` | the circles of `examples/ApollonianGasket.py` (the same program is in `ApollonianGasketMobius.py`; `ApollonianGasket_animation.py` draws it for a list of shifts) and `examples/MalfattiApollonian.py`; packing of a disc |
| `ModelModular.v`, `SpecModular.v` | the circles of `examples/ModularTessellation.py` and `ModularTessellation_animation.py`, with the in-place changes of the matrices; images of a disc by the modular group |
| `ModelMobiusGasket.v`, `SpecMobiusGasket.v` | `examples/ApollonianGasketMobius.py`: the powers of a Möbius transformation and the moved gasket |
| `ModelHyperbolic.v`, `SpecHyperbolic.v` | `examples/HyperbolicTesselation.py`, `HyperbolicTesselation2.py`: the points and the arcs of each generation (not the polygons of the paths; depth >= 2) |
| `ModelCircular.v` | examples/triangularCircularGasket.py 105-134 startingCircles, 163-176 Circles1, 196-215 drawCircularGasket, 229-255 drawTriangularGasket, 259-282 the picture, and the animation (the rest is in `ModelGasket.v` and `ModelApollonian.v`) |
| `ModelSchottky.v` | examples/Schottky.py 14-49 free group, unique_with, Gn; 52-87 starting circles and transformations; 89-106 transfo2seq, circle; 109-163 the circles drawn |
| `ModelInversions.v` | examples/Inversions.py 7-17 unique_with, 38-90 generations, 92-93 the objects drawn |
| `ModelSteinerEx.v` | examples/NestedSteinerChains*.py, EllipticalSteinerChain*.py, EllipticalNestedSteinerChains*.py, SteinerChainWithEllipse.py: circles, ellipses, spheres, matrix of their transformation |
| `ModelIcosa.v` | examples/ApollonianIcosahedralGasket.py 10-35 vlength, transfoMatrix, 52-58 pretty_sphere, 182-228 drawFace, 232-283 tables and loop (the functions of lines 51-171 are in `ModelGasket.v`) |
| `ModelBoundary4.v` | geometry.py 1323-1406 Ellipse.from_boundary4 |
| `ModelLowner.v` | geometry.py 1429-1480 LownerJohnEllipse with the code of from_boundary4 |
| `SpecRandom.v` | (specification) areas, length along the boundary, polygonal lines |
| `PAffEq*.v` | (proofs) fitting an ellipse and affine maps |
| `PFeuerbach*.v` | (proofs) the circles of a triangle |
| `ModelMobWord.v` | `transform_circle` applied in turn |
| `PKinds.v` | products of two reflections, rotations, homotheties, inversions |
| `SpecEllForm.v` | normal form of an ellipse |
| `SpecBilliard.v` | hyperbola, line tangent to a hyperbola, half eccentric angle |
| `ModelBilliardAnim.v` | the lists of segments of the pictures of `examples/EllipticalBilliard_animation.py` |
| `ModelExample1.v` | the checks printed by `examples/example1.py`, as functions of their data |
| `SpecArea.v` | signed area; the maps that multiply areas by a number |
| `ModelFloatTri.v` | `Triangle.contains`, `Triangle.flatness` and the test flatness == 1 in binary64 |
| `ModelTests.v` | the unit tests of /repo/tests as functions of their data |
| `ModelFloatInter.v` | `circle_line_intersection_`, `intersection_circle_line`, `Line.projection`, `Line.distance` in binary64 |
| `ModelFloatCC.v` | `Circle.is_equal`, `Circle.radical_center`, `Circle.angle`, `intersection_circle_circle` in binary64 |
| `ModelFloatInv.v`, `SpecFloatInv.v` | `Inversion.invert_circle` and `Line.__init__` in binary64; closeness to an image point |
| `ModelFloatIncircle.v`, `SpecFloatIncircle.v` | `Triangle.incircle` in binary64; slenderness of a triangle |
| `ModelFloatAxis.v`, `SpecFloatAxis.v` | `Circle.radical_axis` and `Line.__init__` in binary64; points with equal powers |
| `ModelFloatRefl.v` | `Line.perpendicular` and `Reflection.transform` in binary64 |
| `ModelFloatScaling.v` | `Scaling.transform` in binary64 |
| `ModelFloatHomCircle.v` | `Homothety.transform_circle` in binary64 |
| `ModelFloatAsAffine.v` | `Homothety.as_affine` and `ScalingXY.as_affine` in binary64 |
| `ModelFloatCompose.v` | `Affine.compose` in binary64 |
| `SpecF64.v` | the reals represented by binary64 numbers, "nearest", grids |
| `SpecIter.v` | modulus and natural powers of complex numbers |
| `SpecLibm.v` | What is assumed of acos and atan2 of the C library, an accurate common point of two circles |
| `SpecExtremal.v` | perimeter of a triangle, discs packed in a triangle |
| `ModelFloat.v` | part of `Circle`, `Line`, `Inversion`, `Triangle` in binary64 |
| `BaseLemmas.v`, `SpecLemmas.v`, `P*.v` | proofs (lemmas) |
| `P*Ex.v` | proofs of the examples and refutations |
| `Properties*.v` | only the property theorems, each closed by `exact`, with `Print Assumptions` and examples of non-vacuity |

## 4. Properties

One line per property: what is modelled / how it is proved. (Statements: `properties.jsonl`;
theorem names: `MANIFEST.json`.)

| id | plan |
|---|---|
| C01-C08 | `Line` methods and `line_line_intersection_`; algebra (`nra`, `field`) plus `cos/sin (atan2 y x)` lemmas; refutations by explicit lines with rational coordinates |
| C09-C12 | `Circle` basic methods; algebra |
| C13, C36 | homothety-centre algebra, all branches; the image circle is computed through the model's `invert_circle` |
| C14-C16 | `circle_line_intersection_`, `intersection_*`; soundness by algebra, completeness by solving the quadratic |
| C17-C19 | trigonometry; quantified over all angles; guard refutations |
| C20 | random draws universally quantified; Cholesky as oracle |
| C21, C23 | `linspace` modelled by `map`; trigonometric identities |
| C22-C30 | conic algebra in an abstract rotated frame; `eigh` oracle; 5x5 determinants by `ring` |
| C31 | Welzl recursion with a stream of random choices; induction on the number of points |
| C32-C35, C37-C39 | inversion algebra; case analysis on tolerances |
| C38 | induction on the list of inversions |
| C40, C41 | trigonometric chain + inversion tangency lemma. Claimed for n >= 3 and \|phi\| < 1. For n = 1 the exact model raises ValueError whereas the rounded sin(pi) is not 0, and for \|phi\| > 1 the circles are outside c0: neither is claimed |
| C42-C51 | triangle algebra with side lengths as square roots; Heron; `acos` addition |
| C52-C55 | 3x3 matrix algebra; conic reduction lemma shared with C27 |
| C56-C65 | complex field structure on R*R, `field`; induction on lists / on k; loops with fuel |
| C66 | executable integer model; Farey neighbour theorem by Bezout; `vm_compute` examples |
| C67-C72 | affine algebra |
| C73 | universe of Python values, decision procedure equivalence |
| C74 | tolerance arithmetic, explicit counterexamples |
| C75, C76 | heap model; case analysis on locations, induction on the number of calls |
| C77 | `show` as a list of printed lines and an outcome; uses C04 and C44 |
| C78-C86 | binary64; correctness of rounding, then error analysis in R; exactness on dyadic grids; refutations by computation |
| C87-C90 | pairs of calls: every step of a construction is related under a similarity; uniqueness theorems of the earlier properties for reordered arguments and other defining points; refutations at the edge of a tolerance |
| C91 | induction on the number of segments; reflection law at each bounce from `normal` and `theta2t`; invariant product of the distances from the foci |
| C92 | powers of points: the circle found is fixed by both inversions and touches the third circle at the computed point |
| C93 | the statements about the points, deduced from those of the functions called |
| C94 | `SpecF64.v`; the exact coordinates are written out in the statement; the number math.pi is compared with PI by Machin's series |
| C95 | `SpecGasket.v`; invariant of the list of holes: each hole owns a disc orthogonal to its circles and sides, in which all its later circles stay; circles as vectors of the Lorentz form; the Malfatti configuration gives the first holes |
| C96 | `SpecApollonian.v`; circles as vectors of the Lorentz form, inversions as reflections in walls; the walls are pairwise disjoint or tangent and a table-tennis argument separates the images of the seeds under reduced words; for which shifts the animation has a picture: `PApoAnim.v` |
| C97 | `SpecApollonian.v`; the outer Soddy circle as the second solution of Descartes' theorem (a vector of the Lorentz form); the curvature of the circle around the Malfatti circles is negative; the reflections in the four walls; a triangle with coordinates in Q(sqrt 6) for the failure |
| C98 | `SpecModular.v`; images of discs by Möbius transformations (`PDisc.v`); the disc lies in the fundamental domain, so images that meet come from opposite matrices; R^u is a real matrix of positive determinant up to a factor; every matrix with entries at most n is, up to sign and multiplication by T on either side, one of the matrices of the Farey list with the signs of its diagonal changed |
| C99 | `SpecMobiusGasket.v`; the matrix is h^t (cos + sin N) with N*N = -1; a Möbius transformation that preserves the disc sends a packing to a packing (images of discs, `PDisc.v`) |
| C100 | `SpecHyperbolic.v`; two orthogonal circles meet inside the disc only if their ends separate each other on the circle; the ends of an arc are consecutive in its sorted list, so no point of a smaller list separates them |
| C101 | `SpecCompose.v` (what each class does to a point); the model of compose takes any of the eight classes (`ModelTransfo.v`) |
| C102 | `SpecApollonian.v` and `SpecGasket.v` (packing in a circle, in a triangle); `ModelCircular.v` |
| C103 | `SpecSchottky.v` (words without cancellation, regions of words, angles); `ModelSchottky.v` |
| C104 | `SpecInversions.v` (point sets of circles and lines, images, right angles); `ModelInversions.v` |
| C105 | `SpecSteinerEx.v` (closed chains, nested chains, for circles, ellipses and ellipsoids; extreme radii); `ModelSteinerEx.v` |
| C106 | `SpecIcosa.v` (vectors, motions, discs in a plane of the space, flattened balls, closed surfaces and outward faces); `ModelIcosa.v` |
| C107 | `SpecBoundary4.v` (convex position, a point inside a triangle, no three on a line); `ModelBoundary4.v` |
| C108 | `SpecLowner.v` (the smallest ellipse, ellipses through five points); `ModelLowner.v` |
| C109 | `SpecRandom.v`, `SpecTriangle.v`, `Spec.v`; `ModelTriangle.v`, `ModelCircle.v`, `ModelEllipse.v` |
| C110 | `SpecBoundary4.v`, `SpecLowner.v`, `Spec.v`; `ModelBoundary4.v`, `ModelLowner.v`, `ModelTriangle.v`, `ModelTransfo.v` |
| C111 | `SpecTriangle.v`, `Spec.v`; `ModelTriangle.v` |
| C112 | `Spec.v`, `SpecMobius.v`; `ModelMobius.v`, `ModelMobWord.v`, `ModelCircle.v` |
| C113 | `Spec.v`, `SpecCompose.v`; `ModelTransfo.v`, `ModelInversion.v` |
| C114 | `Spec.v`, `SpecEllForm.v`; `ModelTransfo.v`, `ModelAffine.v`, `ModelEllipse.v` |
| C115 | `Spec.v`, `SpecBilliard.v`; `ModelBilliard.v`, `ModelBilliardAnim.v` |
| C116 | `Spec.v`, `SpecMobius.v`, `SpecEllForm.v`; `ModelExample1.v`, and the modules of the classes it uses |
| C117 | `Spec.v`, `SpecTriangle.v`, `SpecArea.v`; `ModelAffine.v`, `ModelTransfo.v`, `ModelTriangle.v`, `ModelEllipse.v`, `ModelCircle.v`, `ModelLine.v` |
| C118 | `SpecF64.v`, `Spec.v`, `SpecTriangle.v`; `ModelFloat.v`, `ModelFloatTri.v` |
| C119 | `Spec.v`, `SpecTriangle.v`, `SpecMobius.v`; `ModelTests.v` |
| C120 | `SpecF64.v`, `Spec.v`; `ModelFloat.v`, `ModelFloatInter.v` |
| C121 | `Spec.v`; `ModelInversion.v`, `ModelMobius.v` |
| C122 | `SpecMobius.v`, `SpecIter.v`; `ModelMobius.v` |
| C123 | `Spec.v`, `SpecTriangle.v`, `SpecRandom.v`; `ModelTriangle.v`, `ModelEllipse.v` |
| C124 | `SpecTriangle.v`, `SpecExtremal.v`, `SpecRandom.v`; `ModelTriangle.v`, `ModelCircle.v` |
| C125 | `SpecF64.v`, `SpecLibm.v`, `Spec.v`; `ModelFloat.v`, `ModelFloatInter.v`, `ModelFloatCC.v` |
| C126 | `SpecF64.v`, `SpecFloatInv.v`, `Spec.v`; `ModelFloat.v`, `ModelFloatInv.v` |
| C127 | `SpecF64.v`, `SpecExtremal.v`, `SpecFloatIncircle.v`, `Spec.v`; `ModelFloat.v`, `ModelFloatIncircle.v` |
| C128 | `SpecF64.v`, `SpecFloatAxis.v`, `Spec.v`; `ModelFloatCC.v`, `ModelFloatAxis.v` |
| C129 | `SpecF64.v`, `SpecFloatInv.v`, `Spec.v`; `ModelFloat.v`, `ModelFloatAxis.v`, `ModelFloatRefl.v` |
| C130 | `SpecF64.v`, `SpecLibm.v`, `SpecFloatScaling.v`, `Spec.v`; `ModelFloat.v`, `ModelFloatScaling.v` |
| C131 | `SpecF64.v`, `Spec.v`; `ModelFloat.v`, `ModelFloatTransfo.v`, `ModelFloatHomCircle.v` |
| C132 | `SpecF64.v`, `SpecFloatSame.v`; `ModelFloat.v`, `ModelFloatTransfo.v`, `ModelFloatAsAffine.v` |
| C133 | `SpecF64.v`; `ModelFloat.v`, `ModelFloatTransfo.v`, `ModelFloatAsAffine.v`, `ModelFloatCompose.v` |

No property is judged inexpressible in a model. What no theorem here can exhibit: the
effect of rounding on the functions outside C78-C86 and C94, and the behaviour of LAPACK.
