# Formal model of sage-flatsurf in Rocq (Coq 8.16.1)

## Approach

The code under `/repo/flatsurf/geometry` is read as text and modelled function by function as pure, computable Gallina
code. Python exceptions are values (type `res` of `MBase.v`: a value or the kind of exception), mutable objects are
states that are passed around, and Python loops are structural recursions (with explicit fuel where a loop is not
structurally decreasing; the theorems then say that the fuel suffices).

| Files | Contents |
|-------|----------|
| `OField.v`, `FMicromega.v`, `PField.v` | ordered fields, linear and nonlinear arithmetic over them (reflexive tactics `flra`, `fnra`) |
| `M*.v` | models; no theorems; every definition cites the file and lines in `/repo` that it models |
| `S*.v` | specifications: vocabulary that is independent of the helpers of the models |
| `P*.v` | proofs |
| `T*.v` | the final theorems, named `Cnn_...`, each followed by `Print Assumptions`, with `Example`s that meet the hypotheses |
| `ExTab.v` | finite surfaces given by tables, for the examples |

Theorems with the suffix `_refuted` show that a claim is false of the code, with a witness; `_partial` marks theorems that
prove a part of the claim only (the comment says what is missing).

### Numbers

sage-flatsurf computes with exact elements of a subfield of the reals (QQ, embedded number fields, AA). The model is
parametric in an arbitrary ordered field with Leibniz equality and decidable order (record `OField`), so the theorems
hold for all of them. Canonical rationals (`cqF`) are the executable instance that is used in examples and
counterexamples. Floating point variants (RDF, `numerical=True`) are not modelled.

### Surfaces

A polygon is its list of vertices; a surface maps labels to polygons and edges `(label, index)` to edges. Mutable surfaces
(`MMut.v`) are states with polygons, gluings, roots and flags, whose labels are integers; elsewhere the type of labels is a parameter.
Infinite surfaces are functions.

### Not modelled

Category machinery and refinement of categories, printing, plotting, warnings, deprecated aliases, pickling, conversion of
base rings, floating point, number fields (beyond what `MJinv.v` needs), caches other than `flatsurf/cache.py`;
cylinders, polygons in the hyperbolic plane beyond what `MHyp*.v` model, Delaunay algorithms that loop
until nothing changes (termination is not proved; single steps are, C20, C21, C36), Veech groups, `pyflatsurf` and
other external packages.

## Models

| File | Models |
|------|--------|
| `MBase.v` | Outcomes of Python calls: a value or a raised exception. |
| `MCache.v` | Model of flatsurf/cache.py: a method of a surface that is decorated with [cached_surface_method]. [f] is the undecorated method (it does not modify the surface), [key] maps its arguments to the key of the cache. The base classes CachedMethod and CachedMethodCaller belong to SageMath; they are modelled by their documented behaviour: a dictionary that belongs to the instance, in which results (not exceptions) are stored under the key of the arguments. For methods without arguments the key is always the same. |
| `MChain.v` | Model of the action of flips on chains: LazyDelaunayTriangulatedSurface._certify_flip of flatsurf/geometry/lazy.py and DelaunayTriangulationMorphism._image_homology_edge of flatsurf/geometry/morphism.py. |
| `MCircle.v` | Model of flatsurf/geometry/circle.py, of circumscribed_circle in flatsurf/geometry/categories/euclidean_polygons.py and of the Delaunay tests in flatsurf/geometry/categories/similarity_surfaces.py. Not modelled: base rings, hashing and printing of circles, the deprecated parameter [limit]. |
| `MCmp.v` | Model of the comparison of polygons and surfaces: polygon.py 383-416, surface.py 2078-2162 and categories/euclidean_polygons.py 2375-2550. |
| `MCohom.v` | Model of cohomology classes (flatsurf/geometry/cohomology.py). Homology classes are equal, and have the same hash, when their coefficients are the same (homology.py 268-314), so that a homology class is modelled by the tuple of its coefficients, which are integers (cohomology.py 366-383). [inj] is the coercion of integers to the ring of values. |
| `MComb.v` | Finite glued surfaces as seen by the purely combinatorial algorithms: a list of labels, the number of edges of each polygon and the gluing of the edges. Also the Euler characteristic and the genus of flatsurf/geometry/categories/polygonal_surfaces.py. |
| `MCos.v` | Model of Chebyshev polynomials and of minimal polynomials of 2 cos(pi/n): flatsurf/geometry/subfield.py 284-423. Polynomials over the integers are lists of coefficients (constant coefficient first, zeros at the end are allowed). |
| `MCover.v` | Model of [ramified_cover]: flatsurf/geometry/categories/similarity_surfaces.py 3277-3342. The surface and its cover are mutable surfaces in the sense of MMut; sheets are numbered from 0 rather than from 1. |
| `MCut.v` | Model of cutting polygons along diagonals and of joining adjacent polygons: MutableOrientedSimilaritySurface.subdivide_polygon and join_polygons of flatsurf/geometry/surface.py. Vertices and edges are numbered from 0 (natural numbers); the deprecated keyword [test] is left out. |
| `MDict.v` | Python containers: dictionaries (insertion ordered), list indexing, and computations with a mutable state that can raise. Nothing here models a line of flatsurf; the semantics is the one of Python. |
| `MDouble.v` | Model of the double of a polygon and of the unfolding of a convex billiard table: flatsurf/geometry/similarity_surface_generators.py 719-877 and 923-943. |
| `MEar.v` | Model of the triangulation of polygons by ear clipping: [triangulate] of flatsurf/geometry/categories/euclidean_polygons.py 1391-1591. The vertices of the polygon are numbered by natural numbers. |
| `MEq.v` | Model of comparison and hashing of surfaces: flatsurf/geometry/surface.py 492-573 and 2172-2231. The test [isinstance] and the comparison of base rings are left out: both surfaces are of the same class and over the same field. Polygons are compared with an equality [eqb] (polygon.py [__eq__] compares the vertices). |
| `MEuclid.v` | Model of flatsurf/geometry/euclidean.py (the exact, non floating point part). Not modelled: is_cosine_sine_of_rational (lines 31-152), acos and angle (lines 155-294; floating point), projectivization (612-660). Coercion to a common base ring (lines 459-477) is the identity here. |
| `MFam.v` | Model of infinite families of surfaces: origami.py, chamanara.py, mega_wollmilchsau.py and similarity_surface_generators.py 96-652 and 2192-2214. |
| `MFlip.v` | Model of the surgery on mutable surfaces: MutableOrientedSimilaritySurface_base.triangle_flip of flatsurf/geometry/surface.py and what it uses from categories/similarity_surfaces.py. Edges are numbered from 0 (no negative indices). |
| `MGen.v` | Model of the generators of finite surfaces that depend on parameters: flatsurf/geometry/similarity_surface_generators.py 981-1084, 1230-1261, 1331-1781 and 1833-1942. |
| `MGroup.v` | Model of the fundamental group: flatsurf/geometry/fundamental_group.py. The surface is given by its number of vertices of polygons and by [opposite_edge]; edges are numbered from 0. Python's conversion [int(i)] and hashing are left out; [intersection] (31-68, 216-247) is not modelled. |
| `MHom.v` | Model of simplicial homology: flatsurf/geometry/homology.py. The surface is a finite surface without boundary in the combinatorial form of MComb (the class refuses all others, homology.py 563-572). The module of chains is Sage's free module on the simplices: a chain is the dictionary of its non-zero coefficients. Kernels, images and quotients of matrices ([_chain_complex], [_homology], 800-922) are Sage's; here cycles are the chains with boundary zero and two of them are equal in homology if they differ by a boundary. |
| `MHomMor.v` | Model of the action of linear maps on homology: flatsurf/geometry/morphism.py 1377-1420 and 3911-3926. |
| `MHomSpace.v` | Model of homomorphisms of homology groups (flatsurf/geometry/homology.py 1203-2035). A homology group is given by its rank, the map from chains to coefficients with respect to the generators (homology.py 249-266; it raises ValueError for chains that are not cycles) and the map from coefficients to chains ([from_homology], 899-902). Matrices are Sage's: the numbers of rows and columns and the rows. |
| `MHyp.v` | Model of flatsurf/geometry/hyperbolic.py: points, geodesics, half spaces, segments and isometries. Modelled over an arbitrary ordered field with exact comparisons ([HyperbolicExactGeometry], lines 3898-3994). Not modelled: the inexact geometry (3995-4215), conversions between parents and base rings, [change], printing, plotting, hashing, random sets, angles, areas and the search for isometries with Groebner bases. |
| `MHypSet.v` | Model of flatsurf/geometry/hyperbolic.py: ordered sets of half spaces, and the intersection of half spaces. Half spaces are modelled by their boundaries (which have them on the left), see [MHyp]. Marked vertices of polygons are not modelled. |
| `MIET.v` | Model of flatsurf/geometry/interval_exchange_transformation.py: the class FlowPolygonMap. Lengths are elements of an ordered field (the conversion to [ring] is left out), labels have a decidable equality. |
| `MJinv.v` | Model of the Kenyon-Smillie J-invariant: flatsurf/geometry/categories/euclidean_polygons.py (j_invariant, _wedge_product, _tensor_product) and flatsurf/geometry/categories/translation_surfaces.py (j_invariant). The number field and the isomorphism [to_V] to its vector space over QQ are parameters. Of [to_V] only the number of coordinates and that they are additive functions is used. The rational coordinates are numbers of the field itself: the code collects the results in a module and matrix over K (2286-2288). The exceptions raised when the base ring is QQ or not a number field (2274-2283) are not modelled, nor is that the method only exists on convex polygons. |
| `MLInf.v` | Model of flatsurf/geometry/l_infinity_delaunay_cells.py: cells of the L-infinity Delaunay triangulation. Faces and edges are natural numbers. A linear form is a list of [dim + 1] numbers, the constant first; it is modelled by the function that returns the entry at an index. A polyhedron is given by its equations and inequalities. |
| `MLazy.v` | Model of lazily triangulated surfaces, flatsurf/geometry/lazy.py 53-471 and flatsurf/geometry/surface.py 2033-2062, and of the triangulation morphism, flatsurf/geometry/morphism.py 2874-3111. The labels of the triangulated (reference) surface are integers. Not modelled: caching, base rings and categories. |
| `MMap.v` | Model of the mappings of surfaces by linear maps: flatsurf/geometry/mappings.py 902-945 ([GL2RMapping]) and of the composition of mappings, 60-92. Base rings and categories are not modelled. |
| `MMatGroup.v` | Model of flatsurf/geometry/finitely_generated_matrix_group.py. |
| `MMor.v` | Model of the composition of morphisms of surfaces: flatsurf/geometry/morphism.py 1044-1114, 1521-1559, 1626-1769, 1875-2126, 2176-2228. Surfaces are objects that are compared by identity ([is]); only immutable surfaces are considered (a mutable domain is replaced by an unknown surface, 938-943). Sage's [Map.__mul__] tests equality of the surfaces before it calls [_composition]; this test follows from identity and is left out. |
| `MMut.v` | Model of mutable surfaces: flatsurf/geometry/surface.py, classes MutablePolygonalSurface (138-906) and MutableOrientedSimilaritySurface (1160-1720), and of the views on labels (2438-3127). Labels are integers (in Python: any hashable objects; [LabeledView.min] uses [repr] for labels that cannot be ordered). A polygon is an element of a type [P] of which only the number of vertices is used here. Base rings, printing and deprecated aliases are not modelled; [connected] is the flag ["Connected" in category().axioms()] that [set_immutable] may set. |
| `MNorm.v` | Model of normalized coordinates and of the holonomy field: flatsurf/geometry/categories/half_translation_surfaces.py 239-265 ([holonomy_field]) and 324-459 ([normalized_coordinates]) for finite surfaces. The fields returned by [subfield_from_elements] and [number_field_elements_from_algebraics] (subfield.py 45-231) are not constructed: a subfield is given by a list of elements that generate it. The elements of the subfield are identified with elements of the base ring (in the code there is an embedding). |
| `MPoint.v` | Model of flatsurf/geometry/surface_objects.py, class SurfacePoint, and of the methods of points in flatsurf/geometry/categories/similarity_surfaces.py. Not modelled: base rings, caching, warnings, printing. A frozenset of representatives is the list of its elements; [limit] is the deprecated bound on the number of steps around a vertex. |
| `MPoly.v` | Model of polygons: flatsurf/geometry/polygon.py and flatsurf/geometry/categories/euclidean_polygons.py. A polygon is the list of its vertices (polygon.py 280-284, attribute _v). Categories, base rings, plotting, angles (floating point) are not modelled. The checks of the constructor [Polygon(...)] are modelled by separate predicates ([is_simple], [area]). |
| `MRelabel.v` | Model of relabelling and copying: flatsurf/geometry/surface.py 1205-1275 ([from_surface]) and 1717-1765 ([relabel] with [in_place=True]), flatsurf/geometry/lazy.py 1888-2059 ([LazyRelabeledSurface] of a finite surface). |
| `MSaddle.v` | Model of saddle connections: [SaddleConnection] of flatsurf/geometry/surface_objects.py (without plotting, [length], intersections, hashing and [_homology_]) and [saddle_connections] of flatsurf/geometry/categories/similarity_surfaces.py. Conversions between base rings are not modelled. The categories that the constructor asks for are parameters. |
| `MSim.v` | Model of flatsurf/geometry/similarity.py and of 2x2 matrices. Parents, base rings and coercions (lines 55-66, 439-571) are not modelled: everything lives over one field. |
| `MStep.v` | Model of step billiards: flatsurf/geometry/similarity_surface_generators.py 1094-1187. |
| `MSubdiv.v` | Model of the subdivision of the edges of a surface: flatsurf/geometry/categories/similarity_surfaces.py (subdivide_edges), flatsurf/geometry/categories/euclidean_polygons.py (subdivide_edges), flatsurf/geometry/morphism.py (SubdivideEdgesMorphism). Not modelled: the method of polygons only exists for convex polygons (here for all); negative [parts]. |
| `MSurf.v` | Model of (possibly infinite) oriented similarity surfaces: the two methods every surface provides, and what flatsurf/geometry/categories/similarity_surfaces.py, cone_surfaces.py, dilation_surfaces.py, translation_surfaces.py, flatsurf/geometry/lazy.py and flatsurf/geometry/minimal_cover.py derive from them. Categories (and answers that are only read off a category), caching, base rings and the checks of the constructors are not modelled. |
| `MTV.v` | Model of flatsurf/geometry/thurston_veech.py: surfaces from the multiplicities of multitwists. Squares are numbered from 0. The classes and functions from surface_dynamics and SageMath are parameters: [perm_dense_cycles] (the labels of the cycles of a permutation, and their lengths), the largest root of the characteristic polynomial of a matrix, and the echelon basis of the right kernel. Number fields (131-137) are not modelled: all numbers are elements of one field. Matrices are functions of their indices. |
| `MTangent.v` | Model of the straight line flow: [flow_to_exit] of flatsurf/geometry/categories/euclidean_polygons.py, flatsurf/geometry/tangent_bundle.py and flatsurf/geometry/straight_line_trajectory.py (without plotting, [coding], [cylinder], [intersections] and [StraightLineTrajectoryTranslation]). Conversions between base rings and the warnings about them are not modelled: all coordinates are in the same ordered field. Hashing and [__repr__] are not modelled. |
| `MUnfold.v` | Model of the angles of polygons with prescribed angles and of their unfoldings: flatsurf/geometry/categories/euclidean_polygons_with_angles.py 141-176, 304-335, 384-416, 608-913. Rational numbers are [Q]; numerator and denominator are those of the reduced fraction. Dictionaries are association lists in the order of insertion, keys are compared as rational numbers. |

## Properties

| Id | Title | Model | Theorems in | How proved |
|----|-------|-------|-------------|------------|
| C01 | Gluings stay an involution | MMut, MDict | `TMut.v` | invariant of the state machine over all histories of calls (PMut, PMut3) |
| C02 | glue and unglue change exactly what they should | MMut | `TMut.v` | exact description of the gluings after each call (PMut) |
| C03 | add_polygon/remove_polygon labelling | MMut | `TMut.v` | exact description of polygons and gluings after each call (PMut3) |
| C04 | component() is exactly the set of connected labels | MMut | `TMut.v` | loop invariant of the breadth first search; the result is the reflexive transitive closure of adjacency (PMut2) |
| C05 | roots() picks one root per component | MMut | `TMut.v` | the roots are a system of representatives of the components (PMut2) |
| C06 | Gluing keeps explicit roots valid | MMut | `TMut.v` | invariant; counterexamples by computation |
| C07 | Immutability is final | MMut | `TMut.v` | case analysis and induction over histories; counterexamples |
| C08 | in-tests of edges() and gluings() agree with iteration | MMut | `TMut.v` | characterisation of what the code computes; counterexamples for all surfaces |
| C09 | Number of vertices and Euler characteristic | MComb | `TComb.v` | number of classes of the generated equivalence relation, loop invariant of the merging of classes (PClos, PComb) |
| C10 | Genus is an integer | MComb | `TComb.v` | parity of permutations of half edges (PParity, PGenus) |
| C11 | Similarities form a group acting on the plane | MSim | `TSim.v` | field identities; uniqueness of similarities |
| C12 | edge_transformation carries an edge onto its partner | MSurf, MMut | `TSurf.v` | edge_transformation is the unique similarity that maps one edge to the other (PSurf) |
| C13 | Surface type tests are exact | MSurf | `TSurf.v` | loop invariant of the traversal; comparison with the gluing maps (PSurf2, PSurf3) |
| C14 | Parallelism and ordering predicates on vectors | MEuclid | `TEuclid.v` | ordered field reasoning with certificates (FMicromega) |
| C15 | Segment intersection is classified correctly | MEuclid | `TEuclid.v` | case analysis over the intersection of segments |
| C16 | Line and ray intersections | MEuclid | `TEuclid.v` | ordered field reasoning |
| C17 | Area is a well behaved invariant | MPoly | `TPoly.v` | induction over lists, cyclic sums (PPoly) |
| C18 | Linear maps act on polygons | MPoly | `TPoly.v` | list and field reasoning |
| C19 | apply_matrix yields a valid surface of the same kind | MSurf | `TSurf.v` | index arithmetic; counterexamples |
| C20 | triangle_flip replaces the diagonal | MFlip, MMut | `TFlip.v` | symbolic execution of the updates; geometry of a quadrangle (PFlip–PFlip5) |
| C21 | Delaunay flip test is the in-circle test | MCircle | `TCircle.v` | polynomial identities and sign reasoning (PDelaunay) |
| C22 | Points of a surface are identified correctly | MPoint | `TPoint.v` | the orbit of an injective partial map, walked in both directions (PPoint–PPoint5) |
| C23 | Circles | MCircle | `TCircle.v` | ordered field reasoning; counterexample |
| C24 | The fundamental group is a group of closed paths | MGroup | `TGroup.v` | free reduction of lists; counterexamples |
| C25 | Boundary of a boundary is zero | MHom | `THom.v` | sums over finite lists |
| C26 | Algebraic intersection is an alternating form on homology | MHom | `THom.v` | intersection numbers as sums over the corners at a vertex (PHom2) |
| C27 | Truth value and equality of homology objects | MHom | `THom.v` | counterexamples; characterisation of what is computed |
| C28 | The polygon flow map is a piecewise translation | MIET | `TIET.v` | loop invariant of merging two partitions; counterexamples |
| C29 | Minimal translation cover | MSurf | `TSurf.v` | matrix identities; transport of gluings (PSurf4) |
| C30 | Minimal half-translation cover | MSurf | `TSurf.v` | matrix identities; counterexample for dilations |
| C31 | Minimal planar cover | MSurf | `TSurf.v` | words in the fundamental group of the planar cover |
| C32 | Infinite families are validly glued | MFam | `TFam.v` | case analysis, recurrences, quaternion identities; counterexamples |
| C33 | Ear clipping triangulates | MEar | `TEar.v` | crossing parities of simple polygons (Jordan curve theorem for polygons, PJordan–PJordan5), existence of ears, loop invariant of ear clipping (PEar–PEar5) |
| C34 | The triangulation morphism maps every point | MLazy | `TLazy.v` | loop invariants over the edges; uses C33; counterexamples by computation |
| C35 | Linear morphisms act on homology | MHomMor | `THomMor.v` | list reasoning; counterexample |
| C36 | Flip morphism on chains | MChain, MFlip | `TChain.v` | induction over the sequence of flips; each flip is a chain map (PChain–PChain3) |
| C37 | Composition of morphisms | MMor | `TMor.v` | induction over lists of morphisms |
| C38 | Cached methods never return stale answers | MCache | `TCache.v` | state machine of a cached method; invariant over histories |
| C39 | Enumerating a matrix group | MMatGroup | `TMatGroup.v` | loop invariant of the enumeration; linear algebra of invariant quadratic forms |
| C40 | cmp is an order compatible with equality of labelled surfaces | MCmp | `TCmp.v` | order laws of lexicographic comparison; counterexamples |
| C41 | subdivide_polygon and join_polygons are inverse to each other | MCut | `TCut.v` | symbolic execution of the updates (PCut–PCut7) |
| C42 | relabel is an isomorphism or raises | MRelabel | `TRelabel.v` | dictionaries (PBuild, PRelabel) |
| C43 | Subdividing edges | MSubdiv | `TSubdiv.v` | index arithmetic; counterexamples |
| C44 | Ramified covers | MCover | `TCover.v` | list reasoning on permutations; counterexamples |
| C45 | Isometry certificates | MCmp | `TCmp.v` | rotation of lists; a congruence is determined by the lengths and turns |
| C46 | J-invariant | MJinv | `TJinv.v` | bilinear sums over lists |
| C47 | Double of a polygon / billiard | MDouble | `TDouble.v` | index arithmetic |
| C48 | Equality of surfaces | MEq | `TEq.v` | equivalence laws |
| C49 | Turns around a vertex | MPoint | `TPoint.v` | counting of crossings of a ray by turning vectors (PTurn, PTurn2) |
| C50 | Edges around a vertex are listed counter-clockwise and completely | MPoint | `TPoint.v` | orbit of the walk around a vertex |
| C51 | Polygon() accepts exactly simple polygons | MPoly | `TPoly2.v` | case analysis over pairs of sides; crossing tests (PSimple) |
| C52 | Slopes | MEuclid | `TPoly2.v` | field reasoning |
| C53 | Copies of surfaces | MRelabel, MMut | `TRelabel.v` | dictionaries |
| C54 | Opposite edges are opposite homology classes | MHom | `THom.v` | finite sums; counterexample |
| C55 | Iterating a matrix group reaches every element | MMatGroup | `TMatGroup.v` | counterexample: invariant of the enumeration |
| C56 | Triangulations of surfaces are surfaces | MLazy | `TLazy.v` | transport of C33 along the lazily computed labels and gluings (PLazy–PLazy3) |
| C57 | Positions of points in polygons | MPoly | `TPos.v` | Crossing parities of PJordan extended to segments that cross edges (PPos); separation through the triangles of C33; polygons without right turns have all vertices on the left of each edge (PConvex, PPos), corners with a right turn have outside points between points of the boundary (PPos2). |
| C58 | Flowing to the boundary of a polygon | MTangent | `TTangent.v` | Local structure of a simple polygon near a point (PLocal, PLocal2), candidates and their minimum (PExit), inward directions by position (PInward). |
| C59 | Tangent vectors are normalised | MTangent | `TTangent.v` | Normal forms: vectors that leave a polygon through an edge enter the next one (PTangent, PTangent3); equivalence closure has unique normal forms (equiv_result, equiv_unique). |
| C60 | Segments in polygons | MTangent | `TTangent.v` | Segments either cross the interior or follow an edge (PTangent2); both forms are fixed by recomputing from either end (PTangent3, PTangent4). |
| C61 | Straight line trajectories | MTangent | `TTangent.v` | Invariant traj, preserved by each step; reversal symmetry (PTangent4). |
| C62 | Rotating tangent vectors at vertices | MTangent | `TRotate.v` | Induction over the corners (PRotate); a closed chain of clockwise turns meets every direction since a half plane is ordered by the signed area (turn_meets). |
| C63 | Enumeration of saddle connections | MSaddle | `TSaddle.v` | Invariant of the beams of the search (PSaddle2: the wedge is what is seen through the edge), soundness and uniqueness by induction over the search tree (PSaddle3), completeness by induction over the unfolded ray (PSaddle4). |
| C64 | Saddle connections | MSaddle | `TSaddle.v` | Two unfoldings of the same ray are compared polygon by polygon (PSaddle5); unfolding from the end reverses the path (PSaddle6). The segments of the flowed trajectory are the pieces of the unfolded ray (PSaddle7). |
| C65 | Half plane model and Klein model agree | MHyp | `THyp.v` | Field identities between the two models (PHyp3). |
| C66 | Geodesics and points | MHyp | `THyp.v` | Lines up to scaling (PHyp), parametrization by the foot point and the tangent vector, ideal points as solutions of a quadratic equation (PHyp2, PHyp3). |
| C67 | Intersections, configurations, segments, half spaces | MHyp | `THyp.v` | Reduction of segments to intervals of parameters (PHyp4), turns (PHyp7). |
| C68 | Isometries | MHyp | `THyp.v` | Isometries by their factor and explicit inverse; cofactor identity for the orientation (PHyp5, PHyp6); recovery of matrices from products of entries (PHyp7). |
| C69 | Ordered sets of half spaces | MHypSet | `THypSet.v` | Order, merge of ordered sets and rotation, the pass that drops parallel half spaces. Proof: the order is lexicographic (side, sign of the determinant of normals, offset). |
| C70 | Polygons and intersections of convex sets | MHypSet | `THypSeg.v`, `THypSet.v` | All four passes of HyperbolicConvexPolygon._normalize: parallel half spaces, randomized search for a vertex of the Euclidean intersection (random order and choice of elements as parameters), Graham-like removal of redundant half spaces, removal of what is redundant in the disk. Proof: invariants of each pass; the required half spaces are those whose boundary carries two points of the intersection; canonical form by sorting. Marked vertices, degenerate polygons that are requested with assume flags (check=False) and inexact base rings are not modelled. |
| C71 | The Thurston-Veech construction | MTV | `TTV.v` | ThurstonVeech.__init__ (labels of cycles from a parameter perm_dense_cycles), cylinder_intersection_matrix and __call__ with the largest root of the characteristic polynomial and the echelon basis of the right kernel as parameters (specified by largest_eigenvalue and line_kernel), rectangles and gluings with the mutable surface of MMut. Proof: Perron-Frobenius for non-negative irreducible matrices over ordered fields (bound and uniqueness, by the smallest quotient of coordinates), irreducibility from transitivity, circumference of a cylinder = row of the intersection matrix times widths. Number fields, stratum() and the string methods are not modelled. |
| C72 | Homomorphisms of homology groups are linear maps | MHomSpace | `THomSpace.v` | linear maps are determined by the images of the basis (induction on truncated vectors); the operations are then computed entrywise from the matrices |
| C73 | Cohomology classes are the additive functionals on homology | MCohom | `TCohom.v` | additive maps on integer vectors are determined on generators; dictionaries with unique keys under insertion; the loop over generators in sums |
| C74 | The polytope of a marked triangulation is the cell of its L-infinity Delaunay surfaces | MLInf | `TLInf.v` | The linear forms are evaluated for arbitrary points; the signs assigned by the loop over triangles are characterised by the markings of the two ends of an edge; the Delaunay conditions are compared with the existence of an empty square. Edges between vertices that do not face each other are shown to be Delaunay automatically. Polyhedron itself and barycenter are not modelled. |
| C75 | Normalized coordinates are defined over the holonomy field, the smallest field over which the edges span a plane | MNorm | `TNorm.v` | The loop is shown to stop at the first vertex where the polygon turns (a polygon without such a vertex has area zero); the matrix sends the edges at this vertex to the standard basis. Adding and gluing the polygons is reduced to the lemmas about mutable surfaces. Coordinates with respect to two edges are quotients of determinants of coordinates with respect to any other basis, hence in every field over which the edges span a plane. Not modelled: the construction of the number field and its embedding (subfield.py); subfields are predicates on the base ring, the generated subfield is the intersection of all subfields. |
| C76 | cos_minpoly computes a monic polynomial whose roots are 2 cos(pi a / n) for a coprime to 2n | MCos | `TCos.v` | Values of polynomials in z + w with z w = 1 are computed in arbitrary rings. The exactness of the divisions is proved by induction over the prime factors: the current polynomial and a complementary factor of (z^N + 1)/(z + 1) divide their compositions with all Chebyshev polynomials of odd order coprime to N. This rests on explicit Bezout relations between the polynomials of coprime odd numbers (a Euclidean algorithm with T_j). Polynomials over the integers are compared by their values at large integers. Not modelled: integer factorization, polynomial arithmetic of SageMath, variables that are not generators of polynomial rings in cos_minpoly. |
| C77 | Angles, strata and dimensions of unfoldings of polygons with rational angles are those of the minimal covers | MUnfold | `TUnfold.v` | Dictionaries are association lists; sums over a dictionary with arbitrary weights are computed from sums over the angles. The specification counts orbits of sheets around vertices of a cyclic cover, and does not mention numerators or denominators: a vertex of angle x moves by k = c m x sheets out of m. Orbits are described by gcds (Bezout), multiplicities are orbit counts, and the parity of the Euler characteristic is proved from the sum of the angles. Not modelled: coercion of arguments to rational numbers, Stratum of surface_dynamics, the cover as a surface (only its cone points, edges and faces). |
| C78 | The generators of finite surfaces with parameters succeed exactly for admissible parameters and return closed surfaces of the documented kind, genus and area | MGen | `TGen.v` | What depends on the gluings alone (labels, partners, vertices, genus) is computed for polygons with variable vertices, so it holds for all parameters. Polygons are simple because any two edges are separated by a horizontal or vertical line or by one of the edges; these inequalities are proved by linear arithmetic from products of positive parameters. That the root is smaller than w is proved from its equation. Not modelled: rings and coercions, the choice of an embedding of the number field (the positive root is a hypothesis); genus_two_square builds a surface over the rational numbers with polygons over another field, which is not visible in the model. |
| C79 | step_billiard succeeds exactly for widths and heights of one sign and returns the unfolding of the staircase | MStep | `TStep.v` | Adding polygons one after the other and gluing a list of disjoint pairs of edges is described for arbitrarily many polygons (PStep.v). The loop is described by induction on the lists. The gluings of all n are eleven families of pairs (PStep3.v), for which involutivity, range and completeness are proved by linear integer arithmetic. A step with a marked point that is not on its side is not a simple polygon, hence success forces the signs. Not modelled: the base ring computed by Sequence, names of surfaces. |
| C80 | GL2RMapping pushes tangent vectors forward and pulls them back as inverse bijections | MMap | `TMap.v` | Linear images of simple polygons, of their points and of the positions of points are described for both orientations (PMap.v). The constructor of tangent vectors normalizes at vertices and edges (C59); the proofs show that normalization commutes with the linear map, or is undone when pulling back (PMap2.v). Not modelled: base rings and categories, the comparison of codomain and domain when composing. |

### What is proved and what is not


* **C01** (partial). Involution after every history of calls (including calls that raise) with edge numbers that are not negative. With negative numbers Python indexing makes glue() store them and the claim is refuted by a witness.
* **C02** (proved). Exact effect of successful calls; without explicit roots the calls succeed on all existing edges (for explicit roots see C06).
* **C03** (proved). The statement is proved as given.
* **C04** (proved). The statement is proved as given.
* **C05** (proved). The statement is proved as given.
* **C06** (partial). The claim is false: three refutations with concrete histories. It holds when every component has an explicit root or no root is explicit.
* **C07** (partial). The claim is false for remove_polygon (destroys gluings before it raises) and replace_polygon (no check); it is proved for all other mutators.
* **C08** (partial). The in-test is wrong for every edge and gluing (inverted comparison in surface.py 3082); iteration is proved exact.
* **C09** (proved). The statement is proved as given.
* **C10** (proved). The statement is proved as given.
* **C11** (proved). The statement is proved as given.
* **C12** (proved). The statement is proved as given.
* **C13** (proved). The statement is proved as given.
* **C14** (proved). The statement is proved as given.
* **C15** (proved). The statement is proved as given.
* **C16** (proved). The statement is proved as given.
* **C17** (proved). The statement is proved as given.
* **C18** (proved). The statement is proved as given.
* **C19** (partial). Proved for surfaces without boundary: validity, translation / half-translation / dilation kinds, adjacency. On surfaces with boundary opposite_edge of the image raises TypeError (refuted); images of cone surfaces inherit the cone category although they need not be cone surfaces (refuted).
* **C20** (proved). Proved for two different triangles (any gluing by a similarity) whose four outer sides are glued, for all edge numbers and all gluings among the outer sides; when the flip is impossible nothing changes. Two refuted theorems show what happens outside of the statement: next to the boundary and for a triangle glued to itself along two edges the function raises after it has modified the surface.
* **C21** (proved). Everything in the statement is proved for all valid surfaces over every ordered field. The two refuted theorems are findings outside of the statement: is_delaunay_triangulated answers True for a square without gluings, is_delaunay_decomposed raises TypeError on surfaces with boundary.
* **C22** (proved). The statement is proved as given.
* **C23** (partial). All parts are proved except that the image of a circle under a similarity is right only for orientation preserving similarities; C23_reflection_refuted shows that it is wrong for all others (the determinant is negative, so the squared radius becomes negative).
* **C24** (partial). Inverses, neutral element and generators hold for all surfaces. Products, associativity and equality are proved when an edge is determined by its number and the polygon behind it (e.g. origamis), and for reduced words. The general claim is false: the product of closed paths need not be a path (C24_product_refuted), and products of words that are not reduced are not associative (C24_associative_refuted).
* **C25** (proved). For all finite surfaces without boundary, all commutative rings with decidable equality, all sets of relative points.
* **C26** (proved). Defined exactly on cycles, antisymmetric, bilinear, invariant under adding boundaries; all finite surfaces without boundary and all commutative rings.
* **C27** (partial). Both halves of the claim are false: the truth value looks at the chain and not at its class, comparison of groups ignores the degree. Proved: what the two tests do guarantee.
* **C28** (partial). Proved: the constructor accepts exactly pairs of partitions; images are at the same position; points that are not end points are mapped back by the inverse; exact description of the images of singularities. Refuted: singularities are not always reported as (j, 0), and the right end point raises IndexError exactly when the last interval of the other side does not start later.
* **C29** (proved). The statement is proved as given.
* **C30** (partial). Involutive gluing for all surfaces; half-translation gluings for cone surfaces; refuted for dilations (the code multiplies by the transpose instead of the inverse).
* **C31** (proved). The statement is proved as given.
* **C32** (partial). Proved for origamis (if and only if the maps are inverse permutations), the infinite staircase, the Chamanara surface (0 < alpha < 1), the T-fractal (positive parameters), E-infinity (lambda^2 at least the largest root of x^3-5x^2+4x-1, which includes the default). Refuted: E-infinity accepts parameters such as 4 for which polygons do not exist; the mega Wollmilchsau has no polygons as its constructor does not call the base class (its gluings are proved involutive and its group a group).
* **C33** (proved). triangulate() is modelled with the search for ears and the construction of the surface. For every polygon accepted by the constructor (nondegenerate, simple, positive area) an ear always exists, no assertion fails, and the result is a triangulation: n-2 positively oriented triangles on the vertices of the polygon, areas add up, the closed triangles cover exactly the points that are not outside and their interiors are disjoint, the unglued edges are the edges of the polygon (each once), inner edges are glued in opposite directions. Shorter lists raise ValueError.
* **C34** (partial). TriangulationMorphism_base: _image_edge, _image_point, _section_edge, _section_point over LazyTriangulatedSurface. Images of edges are the same edges, injectively. The image of a point of a triangulated polygon, if there is one, has the same coordinates in a triangle that contains it; it exists exactly if such a triangle shares an edge with the polygon (always for polygons with at most five vertices). Refuted in general: a hexagon with an inner triangle (AssertionError); _section_point fails for such triangles and for all non-convex polygons (AttributeError, contains_point only exists for convex polygons). Polygons that are not triangulated: points are kept if the polygon is convex.
* **C35** (partial). Proved for positive determinant: the image is a chain (cycle) with holonomy M times the holonomy, and the holonomy depends only on the class. For negative determinant the claim is false (the edges of the image are numbered backwards but the morphism keeps the number), shown on the square torus.
* **C36** (proved). For every sequence of flips (recorded as _certify_flip does) on every closed triangulated translation surface: every edge is mapped by the product of the flip matrices to a chain of edges of the flipped surface with the same holonomy (C36_holonomy), with the corresponding end points under a bijection of the vertices (C36_boundary), and the map is defined on homology (C36_homology). The surface is a finite mutable surface instead of the lazy one; which edges are flipped is arbitrary.
* **C37** (proved). Morphisms are modelled by their domain, codomain and their actions on points, homology; surfaces are compared by identity, homology groups are the default ones.
* **C38** (partial). For every method that is determined by the polygons, gluings and roots, every history of mutations and calls gives the answers of the undecorated method and nothing is stored while the surface is mutable; refuted for histories that call remove_polygon or replace_polygon on an immutable surface (C07), then stale answers are returned.
* **C39** (partial). Iteration: sound, without repetition, complete when it stops, stops exactly for finite groups. is_finite: True for all finite groups, and True implies an invariant definite form; but it is True for some infinite groups (refuted, e.g. [[1,1],[1,0]]). Sage's linear algebra is a parameter that computes a basis of solutions; an implementation is proved to be one.
* **C40** (partial). The claim is false of the code: both polygons are taken from the first surface (surface.py 2113), and the comparison of polygons ignores vertex 0. Proved: the comparison of polygons is a total preorder and which polygons are equal for it; the exact meaning of the result 0 for surfaces; the claim when both surfaces have the same polygons at the same labels. Refuted: tori of different shape compare as 0; both comparisons of two surfaces give -1. The deprecated limit for infinite surfaces is not modelled.
* **C41** (proved). subdivide_polygon and join_polygons (in place) on the mutable surface: the result is the cut or joined surface with all other gluings and gluing maps intact; joining after cutting renumbers the polygon only. The refuted theorems are findings: join_polygons(in_place=False) raises AttributeError, chosen roots are lost or cause an AssertionError, polygons with boundary edges cause a TypeError after the polygon has been replaced.
* **C42** (proved). Proved for mutable surfaces, dictionaries, functions and the default enumeration, and for LazyRelabeledSurface of finite surfaces. C42_failed_call_refuted is a finding outside of the statement: a call that raises has already destroyed polygons.
* **C43** (partial). For all surfaces with polygons the constructor accepts and all k>=1: polygons, gluings, boundary, gluing similarities, areas and the image of edges of subdivide_edges; no error for connected surfaces; ValueError for k=0. Findings: roots are set before gluing, so the root of the surface is lost (C43_root_refuted) and surfaces with several components raise AssertionError (C43_roots_refuted); SubdivideEdgesMorphism maps points to the same coordinates although the polygons are moved to the origin (C43_point_refuted).
* **C44** (partial). Proved for surfaces in which each edge is glued to a different edge of the same polygon: the computed surface is the covering with the given permutations, inconsistent data raise ValueError; gluings of a covering are of the same kind. Refuted in general: line 3339 uses the label lab instead of llab so polygons are only ever glued to polygons over the same polygon; edges glued to themselves raise KeyError.
* **C45** (partial). Truth values are proved exact for all polygons, and the exact meaning of the certificates. Refuted: the documented meaning of the index of is_isometric, the common meaning of the certificates of is_half_translate, and a pair being returned when the numbers of vertices differ.
* **C46** (proved). The number field is a parameter with additive coordinates. Invariance of the value of a surface is proved for flips of triangles; for the polygons translations, renumbering, cutting and linear maps.
* **C47** (proved). polygon_double for all polygons, billiard for convex tables (the statement); tables that are not convex are triangulated first by the code, which is not modelled
* **C48** (proved). The statement is proved as given.
* **C49** (proved). The statement is proved as given.
* **C50** (proved). The statement is proved as given.
* **C51** (proved). The statement is proved as given.
* **C52** (proved). The statement is proved as given.
* **C53** (proved). The statement is proved as given.
* **C54** (partial). Proved for edges that are not glued to themselves; refuted for edges glued to themselves (the sphere made of one square gets non-trivial homology).
* **C55** (partial). False: the identity is never expanded, so with one generator of infinite order its inverse is never yielded. When the iteration stops everything has been yielded (C39_iter_complete).
* **C56** (proved). Proved for all closed surfaces of simple polygons and all sets of labels. Findings: C56_boundary_refuted (a surface with boundary: opposite_edge raises TypeError), C56_roots_refuted (the root of a component whose root polygon is not triangulated is 0).
* **C57** (proved). Complete for polygons that the constructor accepts: boundary positions, inside and outside by crossing parity and separating lines, convex polygons and is_convex().
* **C58** (partial). Proved for all walks that start into the polygon, and first hit and errors in general. The last sentence is false: C58_outward_refuted (outward directions are accepted when the ray meets a non-convex polygon again).
* **C59** (proved). Complete. Base ring conversions are not modelled.
* **C60** (partial). Complete except previous(): C60_previous_partial needs that the end is not a vertex; C60_previous_refuted shows that it raises ValueError otherwise, as the code tests the end instead of the start.
* **C61** (proved). Complete for the deque-based StraightLineTrajectory. Coding, cylinder, intersections and plotting are not modelled.
* **C62** (partial). Proved for translation surfaces at vertices with at most 99 corners (100 counterclockwise) of less than 180 degrees each. False in general: C62_reflex_refuted (corners of more than 180 degrees: the wrong vector is returned), C62_pillow_refuted (half-translation surfaces: the direction is not transformed, ValueError). The assertion about rotate_limit in the code never fails.
* **C63** (partial). Soundness and uniqueness for all closed surfaces of convex polygons; completeness if the angle at the start is less than 180 degrees. False otherwise: C63_flat_refuted (angle of 180 degrees: saddle connections are missed), C63_reflex_refuted (larger angles), C63_nonconvex_refuted (holonomies are listed twice). Termination is not proved (fuel), the search may not end on dilation surfaces; it never fails otherwise (C63_error).
* **C64** (partial). Equality, inversion; the constructor computes the saddle connection in the given direction (C64_flow) and finds every saddle connection if the limit is large enough (C64_find), for all simple polygons and all directions except that of the edge that ends at the start, for which the holonomies are wrong (C64_clockwise_refuted). The inferred end holonomy is wrong on half-translation surfaces if the direction is not normalised (C64_half_translation_refuted).
* **C65** (proved). Over arbitrary ordered fields; square roots through an oracle for a subfield (the base ring).
* **C66** (proved). Points given as starts of geodesics may have coordinates outside of the base ring.
* **C67** (proved). ccw with and without the euclidean flag.
* **C68** (partial). Sides of geodesics are preserved for matrices that do not swap the sheets of the hyperboloid (all matrices from the half plane model); false for the others, which are accepted (C68_sheet_refuted). Segments that are oriented or bounded; unoriented segments with an ideal end point are refused even by the identity (C68_half_segment_refuted).
* **C69** (proved). Proved for all lists over all ordered fields; ordered_set also for any strict weak order.
* **C70** (partial). Proved for polygons without marked vertices, every random permutation and every choice of elements of intervals. The one exception, proved to be the only one, is refuted with a witness: when the intersection is a ray whose ideal end point has no coordinates in the base ring a ValueError is raised (C70_ray_refuted).
* **C71** (partial). For every field, all permutations, all positive multiplicities. The classes of surface_dynamics and the functions of SageMath are parameters with the stated specifications. The statement of the module documentation that the vertical permutation goes up is refuted (C71_up_refuted).
* **C72** (partial). Homomorphisms are linear maps and all operations agree, except: multiples (x*f) do not pass on the codomain, so that they have the domain as codomain or raise NotImplementedError (C72_scale_refuted; C72_scale_partial for endomorphisms), and matrix() of a homomorphism from a trivial group to a nontrivial group has no rows, so that -f and f+g raise ValueError (C72_trivial_domain_refuted; the theorems assume that the domain has generators or the codomain is trivial).
* **C73** (partial). Proved with values in any commutative ring. Equality needs the keys to be generators (C73_eq_partial): the constructor accepts other keys and ignores their values, so that a class that is zero as a functional is not equal to zero and x + 0 != x (C73_eq_refuted).
* **C74** (partial). Proved for all triangulations and all points without vanishing coordinates: the equations, the sign conditions and the conditions of bottom-top pairs hold iff the surface has the given markings and all its edges are Delaunay except possibly the ones between a right and a left vertex; without such edges the polytope is the cell (C74_polytope_partial). The conditions for right-left pairs use wrong indices (3 * (p + e) instead of 2 * (3 * p + e)): C74_right_left_refuted gives a Delaunay surface outside of the polytope and a surface in the polytope with an edge that is not Delaunay. C74_types_refuted: the markings of the class documentation are accepted but only degenerate surfaces have them.
* **C75** (partial). Proved for all surfaces whose first polygon has a convex first corner: the returned surface is the image under M with the same gluings, its coordinates are in the field, the field is the smallest one over which the edges span a plane, it is invariant under relabelling and invertible matrices. If the first corner is a reflex angle there is an AssertionError (C75_reflex), so the methods are not total: C75_total_refuted, witnessed by an L shape that is a translation surface. The construction of subfields in SageMath is represented by the elements that generate the subfield.
* **C76** (partial). Proved for all n: no failure, exact divisions, monic, degree phi(2n)/2, value at z + 1/z is zero if and only if z has order 2n. Missing: irreducibility over the rationals (that of cyclotomic polynomials). The factorization n.factor() is an argument of the model, characterised by the specification [factorization]; polynomials of SageMath are represented by lists of coefficients.
* **C77** (partial). Proved for all lists of rational angles. Finding: billiard_unfolding_stratum documents the cover type rational but raises TypeError for it (witness: the triangle (1, 2, 5) of its own examples). The constructor Stratum of surface_dynamics is not modelled, its arguments are.
* **C78** (partial). Proved for all parameters. Findings: lanneau_nguyen_genus4_prototype accepts and documents lambda < w but fails for w/2 < lambda < w (witness w = 6, h = 2, t = 0, e = 1); mcmullen_genus2_prototype with a base ring and irrational lambda always fails (the assertion roots[0] < 0 and roots[0] > 0); its check of rel admits w - lambda, which gives a degenerate polygon. Rings and number fields are not modelled: lambda and the root of the discriminant are arguments.
* **C79** (proved). Proved for all lists of widths and heights. Entries that are all negative also succeed (the staircase rotated by a half turn). The number of vertices and the genus of the unfolding are not computed.
* **C80** (partial). Proved for all closed surfaces and all invertible matrices. Independence of the description holds on dilation surfaces and is refuted for a square with rotations as gluings. Equality of a composition with the mapping of the product, and images of straight segments, are proved for positive determinants only; on dilation surfaces compositions of both orientations are described by the product of the matrices.

## Tests of the theorems

`seeded/LOG.jsonl` lists edits of the models as realistic bugs would make them, together with the theorems whose proofs
failed for the edited model and the theorems that were tightened because they did not notice.

## Trusted base

* the Coq 8.16.1 kernel, including `vm_compute`;
* the standard library as far as it is used: `Print Assumptions` reports "Closed under the global context" for every
  theorem in `T*.v`, i.e. no axioms are used at all;
* the faithfulness of the models: each definition cites the file and lines it models and states its simplifications. What
  belongs to Python (dictionaries, lists, negative indices) or to Sage (free modules, matrices, `bidict`) is modelled by its documented behaviour.
