{"id": "C01", "title": "Gluings stay an involution", "statement": "On a mutable surface, after any history of successful add_polygon/remove_polygon/glue/unglue/set_root/set_roots calls, opposite_edge is a partial involution on existing edges: if opposite_edge(l,e) returns (l2,e2) then (l2,e2) is an edge of a polygon of the surface and opposite_edge(l2,e2) returns (l,e).", "quantifier": "every finite sequence of mutator calls with arbitrary arguments (including calls that raise), starting from the empty surface", "why_tests_cant": "the set of call histories is infinite; tests only exercise a few build scripts", "anchors": ["flatsurf/geometry/surface.py:MutableOrientedSimilaritySurface.glue", "flatsurf/geometry/surface.py:MutableOrientedSimilaritySurface.unglue", "flatsurf/geometry/surface.py:MutableOrientedSimilaritySurface.remove_polygon", "flatsurf/geometry/surface.py:MutableOrientedSimilaritySurface.opposite_edge"]}
{"id": "C02", "title": "glue and unglue change exactly what they should", "statement": "After glue(x,y) succeeds, opposite_edge(x)=y and opposite_edge(y)=x, the former partners of x and y (other than x,y) are unglued, and every other edge keeps its partner; unglue(x) leaves exactly x and its former partner without partner; no polygon changes.", "quantifier": "every reachable surface and every pair of existing edges, including x=y and re-gluing of already glued edges", "why_tests_cant": "frame conditions range over all other edges of all surfaces", "anchors": ["flatsurf/geometry/surface.py:MutableOrientedSimilaritySurface.glue", "flatsurf/geometry/surface.py:MutableOrientedSimilaritySurface.unglue"]}
{"id": "C03", "title": "add_polygon/remove_polygon labelling", "statement": "add_polygon without label returns a label that was not in use, add_polygon with a label in use raises and changes nothing, and in every case all other polygons keep their label; remove_polygon removes exactly that label and leaves no edge glued to it.", "quantifier": "every reachable surface, every user supplied or automatic label, every history of removals", "why_tests_cant": "collisions of automatic with user supplied labels depend on the history", "anchors": ["flatsurf/geometry/surface.py:MutablePolygonalSurface.add_polygon", "flatsurf/geometry/surface.py:MutablePolygonalSurface.remove_polygon", "flatsurf/geometry/surface.py:MutableOrientedSimilaritySurface._unglue_polygon"]}
{"id": "C04", "title": "component() is exactly the set of connected labels", "statement": "component(l) enumerates, without repetition, exactly the labels that can be reached from l by crossing glued edges; the enumeration terminates on finite surfaces.", "quantifier": "every finite surface with arbitrary gluings (also partially glued), every label", "why_tests_cant": "graph search correctness is about all graphs", "anchors": ["flatsurf/geometry/surface.py:ComponentLabels", "flatsurf/geometry/surface.py:Labels", "flatsurf/geometry/categories/polygonal_surfaces.py:component"]}
{"id": "C05", "title": "roots() picks one root per component", "statement": "If no explicit roots were set, roots() returns exactly one label of each connected component, components() is a partition of labels(), and is_connected() holds iff any two labels are connected by gluings; an explicit choice of roots that is made after all gluings is returned unchanged for its components.", "quantifier": "every finite surface and every explicit root selection with at most one root per component", "why_tests_cant": "quantifies over all gluing graphs", "anchors": ["flatsurf/geometry/surface.py:RootedComponents", "flatsurf/geometry/surface.py:MutablePolygonalSurface.roots", "flatsurf/geometry/categories/polygonal_surfaces.py:is_connected"]}
{"id": "C06", "title": "Gluing keeps explicit roots valid", "statement": "Gluing any two existing edges of a mutable surface succeeds and afterwards every connected component that contained an explicit root before still contains an explicit root (at most one).", "quantifier": "every reachable surface (any history of add/remove/glue/unglue/set_root/set_roots) and every pair of edges", "why_tests_cant": "depends on the order of set_roots, remove_polygon and glue calls", "anchors": ["flatsurf/geometry/surface.py:MutableOrientedSimilaritySurface.glue", "flatsurf/geometry/surface.py:MutablePolygonalSurface.set_roots", "flatsurf/geometry/surface.py:MutableOrientedSimilaritySurface.remove_polygon"]}
{"id": "C07", "title": "Immutability is final", "statement": "After set_immutable() every mutator raises and leaves the surface unchanged, whatever calls follow; polygon(), opposite_edge(), roots() keep returning the same values for ever.", "quantifier": "every surface and every later call sequence", "why_tests_cant": "future histories are unbounded", "anchors": ["flatsurf/geometry/surface.py:MutablePolygonalSurface.set_immutable", "flatsurf/geometry/surface.py:MutableOrientedSimilaritySurface"]}
{"id": "C08", "title": "in-tests of edges() and gluings() agree with iteration", "statement": "x in surface.edges() holds iff x is yielded when iterating surface.edges(), and (x,y) in surface.gluings() holds iff opposite_edge(x)=y.", "quantifier": "every surface and every candidate edge or pair of edges", "why_tests_cant": "ranges over all surfaces; iteration and containment are two separate implementations", "anchors": ["flatsurf/geometry/surface.py:Edges", "flatsurf/geometry/surface.py:Gluings"]}
{"id": "C09", "title": "Number of vertices and Euler characteristic", "statement": "euler_characteristic() of a finite surface without boundary equals F - E + V with V the number of classes of polygon corners under the equivalence generated by the gluings (corner at start of an edge ~ corner at the end of its partner), E the number of glued pairs and F the number of polygons (self-glued edges contributing an extra midpoint vertex).", "quantifier": "every finite glued surface", "why_tests_cant": "union-find over arbitrary gluing patterns", "anchors": ["flatsurf/geometry/categories/polygonal_surfaces.py:euler_characteristic"]}
{"id": "C10", "title": "Genus is an integer", "statement": "For every finite closed surface without self-glued edges the Euler characteristic is even, so genus() is an integer.", "quantifier": "every finite closed oriented gluing pattern", "why_tests_cant": "a global parity statement over all gluings", "anchors": ["flatsurf/geometry/categories/polygonal_surfaces.py:genus", "flatsurf/geometry/categories/polygonal_surfaces.py:euler_characteristic"]}
{"id": "C11", "title": "Similarities form a group acting on the plane", "statement": "Composition, inversion and division of similarities satisfy the group laws, (f*g)(p)=f(g(p)), (~f)(f(p))=p, derivative(f*g)=derivative(f)*derivative(g), det is multiplicative and equals the determinant of the derivative, and is_translation/is_half_translation/is_isometry/is_orientation_preserving are closed under the group operations.", "quantifier": "all similarities (both orientations) over every ordered field and all points", "why_tests_cant": "identities over infinite fields", "anchors": ["flatsurf/geometry/similarity.py:Similarity", "flatsurf/geometry/similarity.py:SimilarityGroup"]}
{"id": "C12", "title": "edge_transformation carries an edge onto its partner", "statement": "For every glued edge (l,e) with partner (l2,e2), edge_transformation(l,e) maps the endpoints of edge e of polygon l to the endpoints of edge e2 of polygon l2 in reversed order, it is an orientation preserving similarity, the polygons end up on opposite sides of the common edge, and edge_transformation(l2,e2) is its inverse; edge_matrix is its derivative.", "quantifier": "every surface over every ordered field, every glued edge including self-glued ones", "why_tests_cant": "ranges over all polygons and coordinates", "anchors": ["flatsurf/geometry/categories/similarity_surfaces.py:edge_transformation", "flatsurf/geometry/categories/similarity_surfaces.py:edge_matrix", "flatsurf/geometry/similarity.py:similarity_from_vectors"]}
{"id": "C13", "title": "Surface type tests are exact", "statement": "is_translation_surface(positive=True/False), is_dilation_surface(positive=True/False) and is_cone_surface return True iff every glued pair is glued by a translation / half-translation / (positive) dilation / isometry, although only one edge of each pair is inspected.", "quantifier": "every finite surface", "why_tests_cant": "the early-continue on already checked pairs must be sound for all orders of enumeration", "anchors": ["flatsurf/geometry/categories/translation_surfaces.py:_is_translation_surface", "flatsurf/geometry/categories/dilation_surfaces.py:_is_dilation_surface", "flatsurf/geometry/categories/cone_surfaces.py:_is_cone_surface"]}
{"id": "C14", "title": "Parallelism and ordering predicates on vectors", "statement": "is_parallel(v,w) holds iff w is a positive multiple of v, is_anti_parallel iff it is a negative multiple (nonzero vectors); is_between(e0,e1,f) holds iff f lies strictly inside the sector swept counter-clockwise from e0 to e1.", "quantifier": "all nonzero vectors over every ordered field", "why_tests_cant": "the input space is infinite and the boundary cases are measure zero", "anchors": ["flatsurf/geometry/euclidean.py:is_parallel", "flatsurf/geometry/euclidean.py:is_anti_parallel", "flatsurf/geometry/euclidean.py:is_between"]}
{"id": "C15", "title": "Segment intersection is classified correctly", "statement": "is_segment_intersecting(s,t) returns 0 iff the closed segments are disjoint, 1 iff their only common point is an end point of both, and 2 otherwise; it is symmetric in s and t and in the end points of each segment; it raises iff one of the segments is degenerate.", "quantifier": "all pairs of non-degenerate segments over every ordered field", "why_tests_cant": "infinitely many configurations with degenerate collinear cases", "anchors": ["flatsurf/geometry/euclidean.py:is_segment_intersecting"]}
{"id": "C16", "title": "Line and ray intersections", "statement": "line_intersection returns None iff the direction vectors are parallel and otherwise the unique common point; solve(x,u,y,v) returns the unique a,b with x+a*u=y+b*v or raises when parallel; ray_segment_intersection returns exactly the intersection of ray and segment (nothing, a point, or a sub-segment).", "quantifier": "all points and directions over every ordered field", "why_tests_cant": "infinite input space", "anchors": ["flatsurf/geometry/euclidean.py:line_intersection", "flatsurf/geometry/euclidean.py:solve", "flatsurf/geometry/euclidean.py:ray_segment_intersection", "flatsurf/geometry/euclidean.py:time_on_ray"]}
{"id": "C17", "title": "Area is a well behaved invariant", "statement": "area() does not depend on the choice of vertex 0, is invariant under translation, scales with |det| under matrix multiplication, changes sign under orientation reversal, and is additive when a polygon is cut along a diagonal or two polygons are joined along an edge.", "quantifier": "all polygons with any number of vertices", "why_tests_cant": "polygons with arbitrarily many vertices", "anchors": ["flatsurf/geometry/categories/euclidean_polygons.py:area", "flatsurf/geometry/categories/euclidean_polygons.py:_mul_", "flatsurf/geometry/surface.py:MutableOrientedSimilaritySurface.join_polygons", "flatsurf/geometry/surface.py:MutableOrientedSimilaritySurface.subdivide_polygon"]}
{"id": "C18", "title": "Linear maps act on polygons", "statement": "M*(N*P)=(M*N)*P, identity*P=P, and for det<0 edge i of M*P is M times the reversed edge n-1-i of P; a counter-clockwise polygon stays counter-clockwise.", "quantifier": "all polygons and invertible 2x2 matrices (both signs of the determinant)", "why_tests_cant": "infinite input space, index reversal for any number of vertices", "anchors": ["flatsurf/geometry/categories/euclidean_polygons.py:_mul_"]}
{"id": "C19", "title": "apply_matrix yields a valid surface of the same kind", "statement": "For every surface S and invertible M the surface M*S is validly glued (opposite_edge is an involution on edges); if S is a translation (half-translation) surface so is M*S, for both signs of det M; labels and components are unchanged.", "quantifier": "all surfaces and all invertible matrices", "why_tests_cant": "the index reversal has to be consistent for any polygon sizes", "anchors": ["flatsurf/geometry/lazy.py:GL2RImageSurface", "flatsurf/geometry/categories/similarity_surfaces.py:apply_matrix"]}
{"id": "C20", "title": "triangle_flip replaces the diagonal", "statement": "If two triangles are glued along an edge by a translation and form a strictly convex quadrilateral, triangle_flip yields two counter-clockwise triangles with the same total area that are glued along the other diagonal, the outer four edges keep their partners, and the remaining surface is unchanged; flipping again gives back the original diagonal.", "quantifier": "all surfaces and all flippable edges", "why_tests_cant": "edge renumbering must be right for all nine combinations of edge indices and all gluings of the outer edges (also among themselves)", "anchors": ["flatsurf/geometry/surface.py:MutableOrientedSimilaritySurface_base.triangle_flip"]}
{"id": "C21", "title": "Delaunay flip test is the in-circle test", "statement": "_delaunay_edge_needs_flip (and is_delaunay_triangulated) reports an edge between two triangles exactly if the apex of one lies strictly inside the circumcircle of the other; an edge is to be joined iff the apex lies on the circle; an edge that needs a flip always bounds a strictly convex quadrilateral, and after the flip the new edge needs no flip.", "quantifier": "all pairs of counter-clockwise triangles sharing an edge, over every ordered field", "why_tests_cant": "algebraic equivalence over infinite fields", "anchors": ["flatsurf/geometry/categories/similarity_surfaces.py:_delaunay_edge_needs_flip", "flatsurf/geometry/categories/similarity_surfaces.py:_delaunay_edge_needs_join", "flatsurf/geometry/categories/similarity_surfaces.py:is_delaunay_triangulated"]}
{"id": "C22", "title": "Points of a surface are identified correctly", "statement": "Two SurfacePoints created from (label, coordinates) are equal iff the two positions are identified by the gluings (same interior point, partner points on glued edges, or corners of the same vertex class); hash agrees with equality.", "quantifier": "all finite surfaces (with or without boundary), all positions", "why_tests_cant": "vertex orbits can be arbitrarily long", "anchors": ["flatsurf/geometry/surface_objects.py:SurfacePoint"]}
{"id": "C23", "title": "Circles", "statement": "circle_from_three_points returns the unique circle through three non-collinear points and raises on collinear ones; point_position is the sign of r^2-|p-c|^2; line_segment_position(p,q) is 1 iff the open segment meets the open disc, 0 iff it only touches tangentially; a similarity maps the circle to the image circle.", "quantifier": "all points, segments and similarities over every ordered field", "why_tests_cant": "infinite input space", "anchors": ["flatsurf/geometry/circle.py:circle_from_three_points", "flatsurf/geometry/circle.py:Circle"]}
{"id": "C24", "title": "The fundamental group is a group of closed paths", "statement": "Products and inverses of elements of the fundamental group are again closed paths on the surface that start and end at the base polygon (each step crosses a glued edge), x*~x and ~x*x are the identity, multiplication by one is neutral and associative, elements are equal exactly if the paths are homotopic, and gens() returns closed paths that generate the group.", "quantifier": "all finite surfaces and all closed paths", "why_tests_cant": "paths are of unbounded length", "anchors": ["flatsurf/geometry/fundamental_group.py:Path._mul_", "flatsurf/geometry/fundamental_group.py:Path.__invert__", "flatsurf/geometry/fundamental_group.py:FundamentalGroup", "flatsurf/geometry/fundamental_group.py:FundamentalGroup.gens"]}
{"id": "C25", "title": "Boundary of a boundary is zero", "statement": "For every chain c of degree two boundary(boundary(c))=0 in absolute and relative homology, hence homology groups are well defined.", "quantifier": "all finite closed surfaces, all chains over every coefficient ring, all sets of relative points", "why_tests_cant": "infinitely many chains and surfaces", "anchors": ["flatsurf/geometry/homology.py:SimplicialHomologyGroup.boundary", "flatsurf/geometry/homology.py:SimplicialHomologyGroup.simplices"]}
{"id": "C26", "title": "Algebraic intersection is an alternating form on homology", "statement": "algebraic_intersection is bilinear, antisymmetric on closed chains and does not change when a boundary is added to one of the arguments.", "quantifier": "all finite closed surfaces and all pairs of cycles", "why_tests_cant": "a global cancellation over all vertices", "anchors": ["flatsurf/geometry/homology.py:SimplicialHomologyClass.algebraic_intersection"]}
{"id": "C27", "title": "Truth value and equality of homology objects", "statement": "bool(h) is False iff h equals the zero class; two homology groups compare equal only if they are groups of the same surface, degree, coefficients and relative points.", "quantifier": "all homology classes and groups", "why_tests_cant": "every class has infinitely many representing chains", "anchors": ["flatsurf/geometry/homology.py:SimplicialHomologyClass.__bool__", "flatsurf/geometry/homology.py:SimplicialHomologyGroup.__eq__"]}
{"id": "C28", "title": "The polygon flow map is a piecewise translation", "statement": "forward_image(i,x) for 0<=x<=length_bot(i) returns (j,y) with 0<=y<=length_top(j) at the same absolute position, backward_image inverts it, and singularities are always reported as (j,0).", "quantifier": "all pairs of interval partitions of equal total length, all points", "why_tests_cant": "arbitrarily many intervals; end points are measure zero", "anchors": ["flatsurf/geometry/interval_exchange_transformation.py:FlowPolygonMap"]}
{"id": "C29", "title": "Minimal translation cover", "statement": "The minimal translation cover of any surface without boundary is glued involutively and all its gluings are translations; crossing an edge of the cover projects to crossing the corresponding edge of the base.", "quantifier": "all similarity surfaces and all labels of the cover", "why_tests_cant": "the cover may be infinite", "anchors": ["flatsurf/geometry/minimal_cover.py:MinimalTranslationCover"]}
{"id": "C30", "title": "Minimal half-translation cover", "statement": "The minimal half-translation cover of any surface without boundary is glued involutively and all its gluings are translations or half-translations.", "quantifier": "all similarity surfaces and all labels of the cover", "why_tests_cant": "the cover may be infinite", "anchors": ["flatsurf/geometry/minimal_cover.py:MinimalHalfTranslationCover"]}
{"id": "C31", "title": "Minimal planar cover", "statement": "The planar cover is glued involutively and every gluing is by the identity of the plane: glued edges coincide as segments of the plane.", "quantifier": "all connected surfaces and all labels of the cover", "why_tests_cant": "the cover is infinite", "anchors": ["flatsurf/geometry/minimal_cover.py:MinimalPlanarCover"]}
{"id": "C32", "title": "Infinite families are validly glued", "statement": "Origamis (given by permutations), the infinite staircase, the Chamanara surface, the T-fractal, E-infinity and the mega Wollmilchsau have an involutive opposite_edge defined on all edges of all labels, and glued edges have matching holonomy (opposite vectors, or parallel for the Chamanara half-dilation surface).", "quantifier": "all integer/word/group labels, all edges, all parameters", "why_tests_cant": "label sets are infinite", "anchors": ["flatsurf/geometry/origami.py", "flatsurf/geometry/chamanara.py:ChamanaraSurface", "flatsurf/geometry/similarity_surface_generators.py:EInfinitySurface", "flatsurf/geometry/similarity_surface_generators.py:TFractalSurface", "flatsurf/geometry/mega_wollmilchsau.py"]}
{"id": "C33", "title": "Ear clipping triangulates", "statement": "triangulate() of a polygon with n vertices returns n-2 triangles whose oriented areas sum to the area of the polygon, each polygon edge is an edge of exactly one triangle and each inner edge is shared by exactly two triangles in opposite directions.", "quantifier": "all simple polygons with any number of vertices", "why_tests_cant": "unbounded number of vertices", "anchors": ["flatsurf/geometry/categories/euclidean_polygons.py:triangulate"]}
{"id": "C34", "title": "The triangulation morphism maps every point", "statement": "For every point of a surface, the image under the morphism S -> S.triangulate().codomain() exists and lies at the same position of the polygon.", "quantifier": "all surfaces and points", "why_tests_cant": "depends on the shape of the triangulation", "anchors": ["flatsurf/geometry/morphism.py:TriangulationMorphism_base"]}
{"id": "C35", "title": "Linear morphisms act on homology", "statement": "For a translation surface, the image of a homology class under the morphism S.apply_matrix(M) has holonomy M times the holonomy of the class.", "quantifier": "all matrices of either determinant sign and all classes", "why_tests_cant": "infinite input space", "anchors": ["flatsurf/geometry/morphism.py:GL2RMorphism._image_homology_edge"]}
{"id": "C36", "title": "Flip morphism on chains", "statement": "The chain map recorded for a sequence of triangle flips maps every edge to a chain with the same end points and the same holonomy, i.e. it commutes with boundary and with holonomy.", "quantifier": "all sequences of flips on all triangulated translation surfaces", "why_tests_cant": "flip sequences are unbounded", "anchors": ["flatsurf/geometry/morphism.py:DelaunayTriangulationMorphism"]}
{"id": "C37", "title": "Composition of morphisms", "statement": "Composition of surface morphisms is associative, respects identities, maps points by successive application, and section() of a composition is the composition of the sections in reverse order.", "quantifier": "all composable chains of morphisms", "why_tests_cant": "chains are of arbitrary length and nesting", "anchors": ["flatsurf/geometry/morphism.py:CompositionMorphism", "flatsurf/geometry/morphism.py:IdentityMorphism"]}
{"id": "C38", "title": "Cached methods never return stale answers", "statement": "A method decorated with cached_surface_method returns, at every call, the value that the undecorated method would return for the current state of the surface, whatever mutations happened before and after previous calls.", "quantifier": "all histories of mutations, set_immutable and method calls", "why_tests_cant": "interleavings are unbounded", "anchors": ["flatsurf/cache.py:cached_surface_method"]}
{"id": "C39", "title": "Enumerating a matrix group", "statement": "Iterating a FinitelyGenerated2x2MatrixGroup yields only elements of the generated group, never the same element twice, and if the iteration stops it has yielded all of them; is_finite() is True iff the group is finite.", "quantifier": "all finite lists of invertible matrices", "why_tests_cant": "groups are infinite in number and possibly infinite", "anchors": ["flatsurf/geometry/finitely_generated_matrix_group.py:FinitelyGenerated2x2MatrixGroup"]}
{"id": "C40", "title": "cmp is an order compatible with equality of labelled surfaces", "statement": "s.cmp(t)==0 iff the surfaces are translation equivalent label by label in walking order; cmp(s,t) and cmp(t,s) have opposite signs.", "quantifier": "all pairs of finite surfaces", "why_tests_cant": "infinitely many pairs", "anchors": ["flatsurf/geometry/surface.py:MutableOrientedSimilaritySurface_base.cmp", "flatsurf/geometry/polygon.py:EuclideanPolygon.cmp"]}
{"id": "C41", "title": "subdivide_polygon and join_polygons are inverse to each other", "statement": "Cutting a polygon along a diagonal with subdivide_polygon and joining along the new edge gives back the polygon up to renumbering of its edges with all outer gluings intact; the total area is unchanged.", "quantifier": "all surfaces, polygons, diagonals, gluings (also of the polygon with itself)", "why_tests_cant": "index arithmetic for arbitrary numbers of edges", "anchors": ["flatsurf/geometry/surface.py:MutableOrientedSimilaritySurface.subdivide_polygon", "flatsurf/geometry/surface.py:MutableOrientedSimilaritySurface.join_polygons"]}
{"id": "C42", "title": "relabel is an isomorphism or raises", "statement": "relabel with an injective relabelling yields the surface with labels renamed and all gluings transported; a non-injective relabelling raises.", "quantifier": "all surfaces and all relabellings", "why_tests_cant": "all label maps", "anchors": ["flatsurf/geometry/surface.py:MutableOrientedSimilaritySurface.relabel", "flatsurf/geometry/lazy.py:LazyRelabeledSurface"]}
{"id": "C43", "title": "Subdividing edges", "statement": "subdivide_edges(k) cuts every edge into k equal parts such that the new surface is validly glued, each old edge is the sum of its parts, areas and gluing similarities are preserved.", "quantifier": "all surfaces, all k>=1", "why_tests_cant": "index arithmetic for all k and all polygons", "anchors": ["flatsurf/geometry/categories/similarity_surfaces.py:subdivide_edges", "flatsurf/geometry/categories/euclidean_polygons.py:subdivide_edges", "flatsurf/geometry/morphism.py:SubdivideEdgesMorphism"]}
{"id": "C44", "title": "Ramified covers", "statement": "ramified_cover(d, data) is a degree d cover: it is validly glued and crossing edge e from sheet i projects to crossing e on the base and moves the sheet by the permutation given for e.", "quantifier": "all surfaces and all permutation data", "why_tests_cant": "all d and permutations", "anchors": ["flatsurf/geometry/categories/similarity_surfaces.py:ramified_cover"]}
{"id": "C45", "title": "Isometry certificates", "statement": "is_isometric(other, certificate=True) is True iff there is an orientation preserving isometry of the plane mapping one polygon onto the other, and then the certificate (index, rotation) has the documented meaning: the rotation identifies the polygons and edge 0 of this polygon is mapped to edge index of the other; is_translate and is_half_translate likewise.", "quantifier": "all pairs of convex polygons", "why_tests_cant": "unbounded number of vertices", "anchors": ["flatsurf/geometry/categories/euclidean_polygons.py:is_isometric", "flatsurf/geometry/categories/euclidean_polygons.py:is_translate", "flatsurf/geometry/categories/euclidean_polygons.py:is_half_translate"]}
{"id": "C46", "title": "J-invariant", "statement": "j_invariant() is invariant under translation and cyclic renumbering, additive under cutting along diagonals, and transforms by the second exterior power under linear maps; hence the J-invariant of a translation surface is invariant under flips and cut and paste.", "quantifier": "all polygons and surfaces", "why_tests_cant": "unbounded number of vertices", "anchors": ["flatsurf/geometry/categories/euclidean_polygons.py:j_invariant", "flatsurf/geometry/categories/translation_surfaces.py:j_invariant"]}
{"id": "C47", "title": "Double of a polygon / billiard", "statement": "polygon_double(P) and the unfolding billiard(P) of a convex polygon are closed surfaces whose gluings are orientation preserving isometries; edge i of P is glued to its mirror image.", "quantifier": "all polygons with any number of edges", "why_tests_cant": "unbounded number of vertices", "anchors": ["flatsurf/geometry/similarity_surface_generators.py:polygon_double", "flatsurf/geometry/similarity_surface_generators.py:billiard"]}
{"id": "C48", "title": "Equality of surfaces", "statement": "== on immutable finite surfaces is an equivalence relation and equal surfaces have the same polygons, gluings and roots; equal surfaces have equal hashes.", "quantifier": "all pairs and triples of surfaces", "why_tests_cant": "relation laws quantify over all triples", "anchors": ["flatsurf/geometry/surface.py:MutablePolygonalSurface.__eq__", "flatsurf/geometry/surface.py:MutableOrientedSimilaritySurface.__eq__"]}
{"id": "C49", "title": "Turns around a vertex", "statement": "The total turning of consecutive vectors computed by turns()/angle counts exactly the number of full turns of the sector sequence: each polygon corner contributes an angle strictly between 0 and 2*pi and the integer result is additive under subdivision of a corner.", "quantifier": "all finite cyclic sequences of vectors", "why_tests_cant": "cone angles are unbounded", "anchors": ["flatsurf/geometry/categories/similarity_surfaces.py:angle", "flatsurf/geometry/categories/similarity_surfaces.py:turns"]}
{"id": "C50", "title": "Edges around a vertex are listed counter-clockwise and completely", "statement": "edges_ccw() of a vertex lists each outgoing and incoming edge of the vertex class exactly once in counter-clockwise order for closed surfaces.", "quantifier": "all finite surfaces and vertices", "why_tests_cant": "vertex orbits can be arbitrarily long", "anchors": ["flatsurf/geometry/categories/similarity_surfaces.py:edges_ccw"]}
{"id": "C51", "title": "Polygon() accepts exactly simple polygons", "statement": "Polygon(vertices=...) succeeds exactly for at least three vertices with nonzero edges that bound a simple polygon (different edges only meet in the common vertex of consecutive edges) of positive area, and returns these vertices; Polygon(edges=...) succeeds exactly for the edges of such a polygon, which starts at the origin; is_simple() decides simplicity for polygons without anti-parallel consecutive edges.", "quantifier": "all lists of vertices and edges over all ordered fields", "why_tests_cant": "the number of vertices is unbounded and degenerate configurations have measure zero", "anchors": ["flatsurf/geometry/polygon.py:Polygon", "flatsurf/geometry/polygon.py:_Polygon_check", "flatsurf/geometry/categories/euclidean_polygons.py:is_simple"]}
{"id": "C52", "title": "Slopes", "statement": "slope(a, rotate) is the sign of the slope of a after turning it by all sufficiently small angles in the direction of rotate (not at all for rotate=0); it raises ValueError for the zero vector.", "quantifier": "all vectors over all ordered fields", "why_tests_cant": "infinitesimal statement over uncountably many vectors", "anchors": ["flatsurf/geometry/euclidean.py:slope"]}
{"id": "C53", "title": "Copies of surfaces", "statement": "MutableOrientedSimilaritySurface.from_surface(S) of a finite surface S is a mutable surface with the same polygons, gluings and roots as S; it equals S if S is mutable, and equals S after set_immutable() if S is immutable. from_surface(S, labels=L) is the part of S with the labels L: its polygons are those of S, two edges are glued iff they are glued in S and both labels are in L.", "quantifier": "all finite surfaces reachable by calls, all sets of labels", "why_tests_cant": "All surfaces, all orders in which they were built and all subsets of labels; explicit roots and disconnected surfaces are rare in tests.", "anchors": ["flatsurf/geometry/surface.py:MutableOrientedSimilaritySurface.from_surface"]}
{"id": "C54", "title": "Opposite edges are opposite homology classes", "statement": "H((l,e)) = -H(opposite_edge(l,e)) for every edge, so that an edge may be named from either side and an edge glued to itself contributes nothing.", "quantifier": "all finite closed surfaces, all edges, all coefficient rings", "why_tests_cant": "the choice of simplices depends on iteration order of the surface; infinitely many surfaces", "anchors": ["flatsurf/geometry/homology.py:SimplicialHomologyGroup.simplices", "flatsurf/geometry/homology.py:SimplicialHomologyGroup._element_constructor_"]}
{"id": "C55", "title": "Iterating a matrix group reaches every element", "statement": "Every element of the group generated by the matrices is eventually yielded when iterating a FinitelyGenerated2x2MatrixGroup, also when the group is infinite.", "quantifier": "all finite lists of invertible matrices, all elements", "why_tests_cant": "infinite groups, unbounded number of steps", "anchors": ["flatsurf/geometry/finitely_generated_matrix_group.py:FinitelyGenerated2x2MatrixGroup.__iter__"]}
{"id": "C56", "title": "Triangulations of surfaces are surfaces", "statement": "S.triangulate().codomain() is again a surface without boundary: its polygons are triangles that tile the polygons of S, an edge of S is an edge of exactly one of them, edges inside of a polygon are glued to the same edge with the other orientation and the others are glued like the edges of S; polygons that are not to be triangulated are kept.", "quantifier": "all surfaces (finite and infinite) made of simple polygons, all sets of labels to be triangulated", "why_tests_cant": "surfaces are infinite or of unbounded size; the labels and gluings are computed lazily, so only the queried part is ever tested", "anchors": ["flatsurf/geometry/lazy.py:LazyTriangulatedSurface", "flatsurf/geometry/surface.py:MutableOrientedSimilaritySurface._triangulate"]}
{"id": "C57", "title": "Positions of points in polygons", "statement": "For a simple polygon, convex or not, get_point_position reports a vertex or the interior of an edge exactly for the points there, with the right index; two points off the boundary have the same position iff a segment between them that avoids the vertices meets an even number of edges, and a point that a line separates from all vertices is outside. For convex polygons (straight angles allowed) the interior is the set of points strictly on the left of all edges. is_convex() holds iff the set of points that are not outside is convex.", "quantifier": "all simple polygons with positive area over every ordered field, all points", "why_tests_cant": "the crossing rules of the winding number matter for points at the height of a vertex, a set of measure zero", "anchors": ["flatsurf/geometry/categories/euclidean_polygons.py:EuclideanPolygons.ParentMethods.get_point_position", "flatsurf/geometry/categories/euclidean_polygons.py:EuclideanPolygons.ParentMethods.is_convex"]}
{"id": "C58", "title": "Flowing to the boundary of a polygon", "statement": "For a point of the closed polygon and a direction that points into the polygon, flow_to_exit returns the first point of the boundary on the ray together with its position (the walk before is in the interior, or it follows one edge to its end). In general it returns the first boundary point on the ray and raises ValueError iff the direction is zero or there is none. For points of the closure the walk never leaves the polygon.", "quantifier": "all simple polygons with positive area (convex or not) over every ordered field, all points and directions", "why_tests_cant": "rays through vertices, along edges and tangent to reflex corners are a set of measure zero; all positions of ray and polygon matter", "anchors": ["flatsurf/geometry/categories/euclidean_polygons.py:EuclideanPolygons.Simple.ParentMethods.flow_to_exit"]}
{"id": "C59", "title": "Tangent vectors are normalised", "statement": "surface.tangent_vector(label, p, v) is accepted iff v is not zero, p is in the polygon and, at a vertex, v points into the polygon; otherwise NotImplementedError (v = 0) or ValueError is raised. The result describes the same tangent vector in the polygon that contains the start of the walk; two descriptions give equal tangent vectors iff they describe the same tangent vector of the surface. invert() is an involution away from the vertices, and differs_by_scaling() decides whether two vectors are positive multiples of each other.", "quantifier": "all closed similarity surfaces of simple polygons, all labels, points and vectors", "why_tests_cant": "infinitely many vectors; the cases at edges and vertices have measure zero", "anchors": ["flatsurf/geometry/tangent_bundle.py:SimilaritySurfaceTangentVector"]}
{"id": "C60", "title": "Segments in polygons", "statement": "Every tangent vector lies on exactly one segment: SegmentInPolygon(t) extends t in both directions to the boundary, passing through the interior or along one edge, and is computed again from its start and (reversed) from its end. next() is the only segment that continues a segment and is defined iff the end is not a vertex; previous() is its inverse and defined iff the start is not a vertex. is_edge() holds iff the segment is an edge.", "quantifier": "all closed similarity surfaces of simple polygons, all tangent vectors", "why_tests_cant": "infinitely many segments; directions that meet vertices have measure zero", "anchors": ["flatsurf/geometry/straight_line_trajectory.py:SegmentInPolygon"]}
{"id": "C61", "title": "Straight line trajectories", "statement": "StraightLineTrajectory(t).flow(n) never fails and keeps a trajectory: a chain of segments where each continues the one before. Flowing forward appends at most n segments, fewer only if the trajectory hits a vertex or is closed; flowing backward is flowing forward on the reversed trajectory, and flow(m) followed by flow(n) is flow(m + n). is_closed() holds iff the next segment is the first one up to scaling, and is_saddle_connection() holds iff both ends are vertices.", "quantifier": "all closed similarity surfaces of simple polygons, all tangent vectors, all numbers of steps", "why_tests_cant": "trajectories of arbitrary length on infinitely many surfaces", "anchors": ["flatsurf/geometry/straight_line_trajectory.py:StraightLineTrajectory"]}
{"id": "C62", "title": "Rotating tangent vectors at vertices", "statement": "For a tangent vector t at a vertex and a non-zero direction w, t.clockwise_to(w) (counterclockwise_to(w)) is the first tangent vector with direction w that is met when turning t clockwise (counterclockwise) around the vertex by a positive angle; with code=True the edges that are crossed are listed. ValueError is raised for w = 0 and NotImplementedError away from the vertices.", "quantifier": "all closed surfaces, all tangent vectors at vertices, all directions", "why_tests_cant": "all directions, all corners and all cone angles; the tests only use regular polygons", "anchors": ["flatsurf/geometry/tangent_bundle.py:SimilaritySurfaceTangentVector.clockwise_to", "flatsurf/geometry/tangent_bundle.py:SimilaritySurfaceTangentVector.counterclockwise_to"]}
{"id": "C63", "title": "Enumeration of saddle connections", "statement": "saddle_connections(r) on a closed surface of convex polygons with all angles less than 180 degrees lists every saddle connection of squared length at most r (from every corner, with its holonomy, its end, the end holonomy and both directions) exactly once and nothing else. A bound that is not positive is refused; more steps never change a result.", "quantifier": "all closed surfaces of convex polygons, all bounds, all start vertices", "why_tests_cant": "infinitely many surfaces and bounds; missing or repeated saddle connections are not visible in the output", "anchors": ["flatsurf/geometry/categories/similarity_surfaces.py:saddle_connections"]}
{"id": "C64", "title": "Saddle connections", "statement": "A saddle connection is determined by its start and its direction, so that == holds iff all attributes agree; invert() is the same saddle connection in the opposite direction and inverting twice gives it back. The constructor computes end, directions and holonomies of the saddle connection that starts in the given direction.", "quantifier": "all closed similarity surfaces of simple polygons, all saddle connections", "why_tests_cant": "saddle connections of arbitrary length on infinitely many surfaces", "anchors": ["flatsurf/geometry/surface_objects.py:SaddleConnection"]}
{"id": "C65", "title": "Half plane model and Klein model agree", "statement": "H.point(x, y, model='half_plane') is the corresponding point of the Klein model (refused iff y < 0, ideal iff y = 0), different coordinates give different points, coordinates() gives them back whenever they are in the base ring. The half plane equation of a geodesic describes the same points and the same half space as its Klein equation; half_circle, vertical and projective are the sets they are documented to be.", "quantifier": "all ordered fields, all coordinates", "why_tests_cant": "algebraic identities over all fields; the tests use a few points over QQ and AA", "anchors": ["flatsurf/geometry/hyperbolic.py:HyperbolicPlane.point", "flatsurf/geometry/hyperbolic.py:HyperbolicPlane.half_circle", "flatsurf/geometry/hyperbolic.py:HyperbolicPlane.vertical", "flatsurf/geometry/hyperbolic.py:HyperbolicPlane.projective", "flatsurf/geometry/hyperbolic.py:HyperbolicPoint.coordinates", "flatsurf/geometry/hyperbolic.py:HyperbolicGeodesic.equation"]}
{"id": "C66", "title": "Geodesics and points", "statement": "geodesic(p, q) is the unique oriented geodesic through p and then q. == of geodesics holds iff they are the same (oriented) line; the constructor accepts the equations of lines that meet the plane. Equality of points and containment in geodesics and half spaces are right, also for points that are only given as the start of a geodesic and whose coordinates are in a bigger field. parametrize and unparametrize are inverse to each other and monotonous along the geodesic.", "quantifier": "all geodesics and all points, over all ordered fields and all subfields", "why_tests_cant": "case analysis over ideal points in field extensions", "anchors": ["flatsurf/geometry/hyperbolic.py:HyperbolicPlane.geodesic", "flatsurf/geometry/hyperbolic.py:HyperbolicGeodesic", "flatsurf/geometry/hyperbolic.py:HyperbolicPointFromGeodesic", "flatsurf/geometry/hyperbolic.py:HyperbolicHalfSpace.__contains__"]}
{"id": "C67", "title": "Intersections, configurations, segments, half spaces", "statement": "_intersection is the only common point of two lines or there is none; _configuration returns the unique relative position of two geodesics and its assertions never fail; ccw is the direction of the turn. Normalizing a segment does not change the set of points, refuses exactly segments that end before they start, and produces no degenerate segments. The half spaces of points, geodesics and segments intersect in exactly these sets.", "quantifier": "all pairs of geodesics, all segments, all points", "why_tests_cant": "degenerate cases at infinity and outside of the disk", "anchors": ["flatsurf/geometry/hyperbolic.py:HyperbolicGeodesic._intersection", "flatsurf/geometry/hyperbolic.py:HyperbolicGeodesic._configuration", "flatsurf/geometry/hyperbolic.py:HyperbolicGeodesic.ccw", "flatsurf/geometry/hyperbolic.py:HyperbolicSegment._normalize", "flatsurf/geometry/hyperbolic.py:HyperbolicSegment.half_spaces", "flatsurf/geometry/hyperbolic.py:HyperbolicPoint.half_spaces"]}
{"id": "C68", "title": "Isometries", "statement": "apply_isometry accepts exactly the matrices that preserve the quadratic form up to a positive factor. It maps points of the plane to points of the plane, preserves distances, and the image of a geodesic, a half space, an ideal point or a segment consists of the images of its points; from the right it acts by the inverse. Matrices of the half plane model act by Moebius transformations, compatible with products, and are recovered up to sign.", "quantifier": "all matrices, all sets, all ordered fields", "why_tests_cant": "nine matrix entries, two orientations, both sides, ideal points", "anchors": ["flatsurf/geometry/hyperbolic.py:HyperbolicConvexSet.apply_isometry", "flatsurf/geometry/hyperbolic.py:HyperbolicConvexSet._apply_isometry_klein", "flatsurf/geometry/hyperbolic.py:gl2_to_sim12", "flatsurf/geometry/hyperbolic.py:sim12_to_gl2"]}
{"id": "C69", "title": "Ordered sets of half spaces", "statement": "HyperbolicHalfSpaces (an OrderedSet) sorts its entries by a strict weak order in which two half spaces are incomparable exactly when they are equal, and in which a half space comes before the half spaces that properly contain it. The set of a list of half spaces is strictly sorted, contains only entries of the list and every entry up to equality; the same holds for unions of sets; entries that are sorted up to a rotation are rotated back; sets are equal iff they have the same half spaces. Dropping trivially redundant half spaces keeps the intersection, and leaves no half space that contains another one.", "quantifier": "all lists of half spaces over all ordered fields; for OrderedSet all strict weak orders", "why_tests_cant": "The doctests sort a few half spaces; the comparison has cases for vertical and horizontal normals that only interact in a transitivity statement over all triples.", "anchors": ["flatsurf/geometry/hyperbolic.py:13641-14024", "flatsurf/geometry/hyperbolic.py:14305-14440", "flatsurf/geometry/hyperbolic.py:10502-10569"]}
{"id": "C70", "title": "Polygons and intersections of convex sets", "statement": "HyperbolicPlane.polygon(half_spaces) and intersection(*sets) return the empty set, a point, a geodesic, segment, half space or polygon that consists of exactly the points (including ideal points) of all the arguments; polygons have no redundant half spaces and have interior; the result does not depend on the random choices; two polygons are equal iff they have the same points. (Refuted when the intersection is a ray whose ideal end point has no coordinates in the base ring: a ValueError is raised.)", "quantifier": "all non-empty lists of half spaces and all lists of at least two sets over subfields of ordered fields; all permutations and choices of elements of intervals", "why_tests_cant": "The algorithm is a randomized linear program followed by three passes with case distinctions on the configurations of consecutive half spaces; tests see a few random orders of a few configurations.", "anchors": ["flatsurf/geometry/hyperbolic.py:1723-1946", "flatsurf/geometry/hyperbolic.py:2102-2167", "flatsurf/geometry/hyperbolic.py:10400-11388", "flatsurf/geometry/hyperbolic.py:11975-12002"]}
{"id": "C71", "title": "The Thurston-Veech construction", "statement": "ThurstonVeech(hp, vp)(hmult, vmult) returns a closed translation surface made of one rectangle of positive size for each square, in which the rectangle hp(k) is to the right of the rectangle k, and whose horizontal and vertical directions have multitwists with the given multiplicities: there are s, d > 0 such that s * height = multiplicity * circumference in each horizontal cylinder and d * width = multiplicity * circumference in each vertical one. If such sizes exist for a connected surface then they are unique up to stretching, and the call finds them (no assertion fails); a wrong number of multiplicities raises ValueError. vp(k) is on top of k. (The last sentence is refuted: it is below k.)", "quantifier": "all pairs of permutations of non-empty sets, all lists of positive multiplicities in all ordered fields", "why_tests_cant": "The doctests only build two surfaces with four rectangles, and their vertical permutation is an involution; the sizes are eigenvectors of matrices of any size.", "anchors": ["flatsurf/geometry/thurston_veech.py:51-89", "flatsurf/geometry/thurston_veech.py:103-182"]}
{"id": "C72", "title": "Homomorphisms of homology groups are linear maps", "statement": "A matrix defines a homomorphism of homology groups exactly when it has a column for each generator of the domain and a row for each generator of the codomain, and the homomorphism multiplies coefficients by the matrix. For every homomorphism that acts linearly on coefficients (given by a matrix or induced by a morphism of surfaces), matrix() has the images of the generators as columns and defines the same map; sums, negatives, multiples and compositions are those of the linear maps, with the right domain and codomain; it is false exactly if it is the zero map; matrix homomorphisms are equal exactly if they have the same domain and codomain and are the same map.", "quantifier": "for all coefficient rings, homology groups, homomorphisms and classes", "why_tests_cant": "The doctests multiply endomorphisms of the homology of one surface; multiples of homomorphisms between different groups and homomorphisms from a trivial group never appear there.", "anchors": ["flatsurf/geometry/homology.py:1203-1276", "flatsurf/geometry/homology.py:1430-1482", "flatsurf/geometry/homology.py:1567-1728", "flatsurf/geometry/homology.py:1771-1835", "flatsurf/geometry/homology.py:1906-2012"]}
{"id": "C73", "title": "Cohomology classes are the additive functionals on homology", "statement": "A cohomology class is the unique additive functional on homology that has the values of its dictionary at the generators; every additive functional is such a class; sums are pointwise; the generators are the dual basis; classes compare equal exactly if they are the same functional.", "quantifier": "for all surfaces (any rank of homology), value rings, dictionaries and homology classes", "why_tests_cant": "The doctests only evaluate classes of the torus at generators; that the dictionaries determine a functional on all of homology, and that equality of dictionaries is equality of functionals, quantifies over all classes.", "anchors": ["flatsurf/geometry/cohomology.py:84-185", "flatsurf/geometry/cohomology.py:340-398", "flatsurf/geometry/homology.py:361-392"]}
{"id": "C74", "title": "The polytope of a marked triangulation is the cell of its L-infinity Delaunay surfaces", "statement": "For a triangulation with gluings and markings accepted by LInfinityMarkedTriangulation(n, edge_identifications, edge_types) (edges glued in pairs of edges of different triangles, consecutive markings compatible), a vector x without vanishing coordinates satisfies the equations and inequalities of polytope() if and only if its coordinates are the edges of triangles that close up, are opposite along the gluings, have coordinates in [-1,1], have the given markings (at a bottom vertex the vertical separatrix enters the triangle, etc.) and every edge is Delaunay, i.e., its end points are in a square parallel to the axes whose interior contains no vertex of the two adjacent triangles. Markings that are accepted can be realized by some surface.", "quantifier": "all even numbers of triangles, all gluings and markings accepted by the constructor, all vectors of coordinates in an ordered field", "why_tests_cant": "The tests evaluate the polytope of a couple of triangulations; the polytope has infinitely many points and the conditions depend on every index of every triangle, so an index that is wrong only for other numbers of triangles or other pairs is not noticed.", "anchors": ["flatsurf/geometry/l_infinity_delaunay_cells.py:40-138", "flatsurf/geometry/l_infinity_delaunay_cells.py:154-206", "flatsurf/geometry/l_infinity_delaunay_cells.py:220-272", "flatsurf/geometry/l_infinity_delaunay_cells.py:274-358"]}
{"id": "C75", "title": "Normalized coordinates are defined over the holonomy field, the smallest field over which the edges span a plane", "statement": "For a finite surface over a field, normalized_coordinates() returns a matrix M of positive determinant and a surface whose polygons are the images under M of the polygons of the surface (moved to the origin), glued in the same way. All coordinates of this surface are in the field holonomy_field(), and a subfield F contains the holonomy field if and only if all edges of the surface are F-linear combinations of two vectors. In particular the holonomy field does not depend on the labels and is invariant under invertible matrices. The methods do not fail for any surface with at least one polygon.", "quantifier": "all finite surfaces built from polygons that the constructor accepts, all ordered fields, all subfields, all invertible matrices", "why_tests_cant": "Minimality is a statement about all subfields and all choices of two vectors; the tests compute the field of a few surfaces, all of whose first polygons are convex at the first corner.", "anchors": ["flatsurf/geometry/categories/half_translation_surfaces.py:239-265", "flatsurf/geometry/categories/half_translation_surfaces.py:324-459"]}
{"id": "C76", "title": "cos_minpoly computes a monic polynomial whose roots are 2 cos(pi a / n) for a coprime to 2n", "statement": "chebyshev_T(n, z + 1/z) is z^n + 1/z^n in every commutative ring, in particular chebyshev_T(n, 2 cos(x)) is 2 cos(n x). cos_minpoly_odd_prime(p, z + 1/z) times (z + 1) z^((p - 1)/2) is z^p + 1 for every odd p > 1. For every n >= 1, cos_minpoly(n) does not fail (all divisions are exact) and returns a monic polynomial with integer coefficients of degree phi(2n)/2 which is the minimal polynomial of 2 cos(pi/n): its roots are the sums z + 1/z for roots of unity z of order 2n, and it is irreducible.", "quantifier": "all positive integers n, all commutative rings (without zero divisors and without torsion by primes dividing 2n for the roots)", "why_tests_cant": "The exactness of the divisions and the set of roots are statements about all n with arbitrarily many prime factors; the tests compare n <= 10, 90 and 148.", "anchors": ["flatsurf/geometry/subfield.py:284-323", "flatsurf/geometry/subfield.py:325-353", "flatsurf/geometry/subfield.py:356-423", "flatsurf/geometry/euclidean_polygons_with_angles.py:1122-1153"]}
{"id": "C77", "title": "Angles, strata and dimensions of unfoldings of polygons with rational angles are those of the minimal covers", "statement": "For all lists of rational angles, billiard_unfolding_angles never fails for the cover types rational, half-translation and translation, and maps each angle y to the number of cone points of angle 2 pi y of the double of the polygon, respectively of its minimal half-translation or translation cover (the cyclic cover with one sheet for each element of the group generated by the rotations of the cone angles, going round a vertex moves by its rotation). billiard_unfolding_stratum returns one zero of the correct order for each (marked or singular) cone point, of Abelian differentials if and only if all angles are multiples of 2 pi. For angles with sum (n - 2) pi, billiard_unfolding_stratum_dimension never fails and returns 2g + s - 1 or 2g + s - 2 where g is the genus computed from the vertices, edges and faces of the cover. _normalize_angles returns the only multiple with the sum of an n-gon, or fails exactly if there is none with angles in (0, 2 pi). angles(integral=True) returns coprime integers proportional to the angles; is_convex compares with pi.", "quantifier": "all lists of rational numbers (of any length), all cover types, with and without marked points", "why_tests_cant": "The tests contain about twenty families of angles; the claims depend on the parities of all denominators and on common divisors of arbitrarily many angles.", "anchors": ["flatsurf/geometry/categories/euclidean_polygons_with_angles.py:141-176", "flatsurf/geometry/categories/euclidean_polygons_with_angles.py:304-335", "flatsurf/geometry/categories/euclidean_polygons_with_angles.py:384-416", "flatsurf/geometry/categories/euclidean_polygons_with_angles.py:608-703", "flatsurf/geometry/categories/euclidean_polygons_with_angles.py:705-819", "flatsurf/geometry/categories/euclidean_polygons_with_angles.py:821-913"]}
{"id": "C78", "title": "The generators of finite surfaces with parameters succeed exactly for admissible parameters and return closed surfaces of the documented kind, genus and area", "statement": "torus(u, v) succeeds exactly if (u, v) is positively oriented; mcmullen_L exactly if its lengths have the same sign; basic_dilation_torus(a) exactly if a > 0; mcmullen_genus2_prototype exactly if (w, h, t, e) is a prototype (positive, t < gcd(w, h), coprime, e + h < w) and 0 <= rel < w - lambda (and, with a base ring, the discriminant is a square); lanneau_nguyen_genus3_prototype exactly if it is a prototype with e + 2h < w; lanneau_nguyen_genus4_prototype exactly if it is a prototype with lambda < w/2; genus_two_square and cathedral succeed for all documented parameters. The result is always an immutable connected surface without boundary, of simple polygons with positive area, glued by translations (positive dilations for basic_dilation_torus and genus_two_square), with the documented genus and number of vertices, and its area is the expected polynomial in the parameters.", "quantifier": "all parameters in an arbitrary ordered field, all integers w, h, t, e, and all roots of the discriminant", "why_tests_cant": "The tests construct a handful of surfaces; whether polygons close up, stay simple and match along every gluing depends on inequalities between all parameters.", "anchors": ["flatsurf/geometry/similarity_surface_generators.py:981-1084", "flatsurf/geometry/similarity_surface_generators.py:1230-1261", "flatsurf/geometry/similarity_surface_generators.py:1331-1490", "flatsurf/geometry/similarity_surface_generators.py:1493-1593", "flatsurf/geometry/similarity_surface_generators.py:1596-1721", "flatsurf/geometry/similarity_surface_generators.py:1724-1781", "flatsurf/geometry/similarity_surface_generators.py:1833-1942"]}
{"id": "C79", "title": "step_billiard succeeds exactly for widths and heights of one sign and returns the unfolding of the staircase", "statement": "step_billiard(w, h) succeeds exactly if w and h have the same length, at least two, and all their entries are positive or all are negative. The result is an immutable connected surface without boundary whose 2n polygons are simple, of positive area and glued by translations and half turns: the polygons 0, ..., n-1 are the steps of the staircase with widths w_i and heights h_i + h_(i+1) + ..., the polygons n, ..., 2n-1 are their mirror images, and every edge is glued either to the same segment of the plane in the same half or to its own mirror image in the other half. The area is twice the area of the staircase.", "quantifier": "all lists w and h of any lengths over an arbitrary ordered field", "why_tests_cant": "The number of polygons and gluings grows with the input; the test constructs one surface with four steps.", "anchors": ["flatsurf/geometry/similarity_surface_generators.py:1090-1187"]}
{"id": "C80", "title": "GL2RMapping pushes tangent vectors forward and pulls them back as inverse bijections", "statement": "GL2RMapping(s, m) exists exactly if m is invertible. Then push_vector_forward and pull_vector_back are inverse bijections between the tangent vectors of s and those of m*s, also if m reverses the orientation, and the image of a tangent vector has the coordinates multiplied by m, up to crossing edges of m*s. If the determinant is positive then the polygon is kept and the coordinates are exactly those multiplied by m; the composition of the mappings of m and n pushes forward like the mapping of n*m. Compositions are inverse bijections for all invertible matrices. If s is a dilation surface then the image, also under a composition, does not depend on the description of the tangent vector, and if the determinant is positive then straight segments are mapped to straight segments. This independence fails for surfaces with rotations among their gluings.", "quantifier": "all closed surfaces (finite or infinite) of simple polygons with positive area over an arbitrary ordered field, all matrices, all tangent vectors", "why_tests_cant": "The tests construct the mapping for one matrix and push one vector through a composition with it; tangent vectors at vertices and along edges are normalized differently before and after the map, and surfaces whose gluings are rotations are not tested.", "anchors": ["flatsurf/geometry/mappings.py:60-92", "flatsurf/geometry/mappings.py:902-945"]}
