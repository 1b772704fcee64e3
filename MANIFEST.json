{
 "claims": [
  {
   "property": "C01",
   "status": "partial",
   "theorems": [
    "C01_involution",
    "C01_well_defined",
    "C01_negative_index_refuted"
   ],
   "note": "Involution after every history of calls (including calls that raise) with edge numbers that are not negative. With negative numbers Python indexing makes glue() store them and the claim is refuted by a witness."
  },
  {
   "property": "C02",
   "status": "proved",
   "theorems": [
    "C02_glue",
    "C02_unglue",
    "C02_success"
   ],
   "note": "Exact effect of successful calls; without explicit roots the calls succeed on all existing edges (for explicit roots see C06)."
  },
  {
   "property": "C03",
   "status": "proved",
   "theorems": [
    "C03_add_polygon",
    "C03_remove_polygon"
   ],
   "note": ""
  },
  {
   "property": "C04",
   "status": "proved",
   "theorems": [
    "C04_component"
   ],
   "note": ""
  },
  {
   "property": "C05",
   "status": "proved",
   "theorems": [
    "C05_roots",
    "C05_explicit_roots",
    "C05_set_roots",
    "C05_set_root"
   ],
   "note": ""
  },
  {
   "property": "C06",
   "status": "partial",
   "theorems": [
    "C06_glue_roots_partial",
    "C06_roots_separated",
    "C06_glue_fails_refuted",
    "C06_glue_after_remove_refuted",
    "C06_root_lost_refuted"
   ],
   "note": "The claim is false: three refutations with concrete histories. It holds when every component has an explicit root or no root is explicit."
  },
  {
   "property": "C07",
   "status": "partial",
   "theorems": [
    "C07_immutable_raises",
    "C07_immutable_partial",
    "C07_never_mutable",
    "C07_set_immutable",
    "C07_remove_refuted",
    "C07_replace_refuted"
   ],
   "note": "The claim is false for remove_polygon (destroys gluings before it raises) and replace_polygon (no check); it is proved for all other mutators."
  },
  {
   "property": "C08",
   "status": "partial",
   "theorems": [
    "C08_iteration",
    "C08_contains_refuted",
    "C08_contains_edge_partial"
   ],
   "note": "The in-test is wrong for every edge and gluing (inverted comparison in surface.py 3082); iteration is proved exact."
  },
  {
   "property": "C09",
   "status": "proved",
   "theorems": [
    "C09_combinatorial",
    "C09_euler_characteristic",
    "C09_unique"
   ],
   "note": ""
  },
  {
   "property": "C10",
   "status": "proved",
   "theorems": [
    "C10_even",
    "C10_genus"
   ],
   "note": ""
  },
  {
   "property": "C11",
   "status": "proved",
   "theorems": [
    "C11_group",
    "C11_action",
    "C11_equality",
    "C11_derivative",
    "C11_predicates",
    "C11_closure",
    "C11_from_matrix",
    "C11_from_vectors"
   ],
   "note": ""
  },
  {
   "property": "C12",
   "status": "proved",
   "theorems": [
    "C12_mutable_valid",
    "C12_edge_transformation"
   ],
   "note": ""
  },
  {
   "property": "C13",
   "status": "proved",
   "theorems": [
    "C13_is_translation_surface",
    "C13_is_dilation_surface",
    "C13_is_cone_surface"
   ],
   "note": ""
  },
  {
   "property": "C14",
   "status": "proved",
   "theorems": [
    "C14_is_parallel",
    "C14_is_anti_parallel",
    "C14_is_between"
   ],
   "note": ""
  },
  {
   "property": "C15",
   "status": "proved",
   "theorems": [
    "C15_segments",
    "C15_symmetric",
    "C15_degenerate"
   ],
   "note": ""
  },
  {
   "property": "C16",
   "status": "proved",
   "theorems": [
    "C16_line_intersection",
    "C16_solve",
    "C16_ray_segment"
   ],
   "note": ""
  },
  {
   "property": "C17",
   "status": "proved",
   "theorems": [
    "C17_vertex_zero",
    "C17_translate",
    "C17_linear",
    "C17_similarity",
    "C17_reverse",
    "C17_cut",
    "C17_join",
    "C17_triangle"
   ],
   "note": ""
  },
  {
   "property": "C18",
   "status": "proved",
   "theorems": [
    "C18_action",
    "C18_singular",
    "C18_edges",
    "C18_orientation"
   ],
   "note": ""
  },
  {
   "property": "C19",
   "status": "partial",
   "theorems": [
    "C19_valid",
    "C19_kind",
    "C19_adjacent",
    "C19_cone_refuted",
    "C19_boundary_refuted"
   ],
   "note": "Proved for surfaces without boundary: validity, translation / half-translation / dilation kinds, adjacency. On surfaces with boundary opposite_edge of the image raises TypeError (refuted); images of cone surfaces inherit the cone category although they need not be cone surfaces (refuted)."
  },
  {
   "property": "C20",
   "status": "proved",
   "theorems": [
    "C20_flip",
    "C20_twice",
    "C20_translation",
    "C20_not_convex",
    "C20_not_triangles",
    "C20_boundary",
    "C20_boundary_refuted",
    "C20_self_refuted"
   ],
   "note": "Proved for two different triangles (any gluing by a similarity) whose four outer sides are glued, for all edge numbers and all gluings among the outer sides; when the flip is impossible nothing changes. Two refuted theorems show what happens outside of the statement: next to the boundary and for a triangle glued to itself along two edges the function raises after it has modified the surface."
  },
  {
   "property": "C21",
   "status": "proved",
   "theorems": [
    "C21_needs_flip",
    "C21_needs_flip_raises",
    "C21_needs_join",
    "C21_after_flip",
    "C21_is_delaunay_triangulated",
    "C21_triangulated_refuted",
    "C21_is_delaunay_decomposed",
    "C21_decomposed_boundary_refuted"
   ],
   "note": "Everything in the statement is proved for all valid surfaces over every ordered field. The two refuted theorems are findings outside of the statement: is_delaunay_triangulated answers True for a square without gluings, is_delaunay_decomposed raises TypeError on surfaces with boundary."
  },
  {
   "property": "C22",
   "status": "proved",
   "theorems": [
    "C22_representatives",
    "C22_equality",
    "C22_total"
   ],
   "note": ""
  },
  {
   "property": "C23",
   "status": "partial",
   "theorems": [
    "C23_three_points",
    "C23_point_position",
    "C23_line",
    "C23_line_degenerate",
    "C23_line_segment",
    "C23_other_intersection",
    "C23_tangent",
    "C23_similarity_partial",
    "C23_reflection_refuted",
    "C23_circumscribed"
   ],
   "note": "All parts are proved except that the image of a circle under a similarity is right only for orientation preserving similarities; C23_reflection_refuted shows that it is wrong for all others (the determinant is negative, so the squared radius becomes negative)."
  },
  {
   "property": "C24",
   "status": "partial",
   "theorems": [
    "C24_inverse",
    "C24_one",
    "C24_constructor",
    "C24_product_partial",
    "C24_associative_partial",
    "C24_equality_partial",
    "C24_gens",
    "C24_product_refuted",
    "C24_associative_refuted"
   ],
   "note": "Inverses, neutral element and generators hold for all surfaces. Products, associativity and equality are proved when an edge is determined by its number and the polygon behind it (e.g. origamis), and for reduced words. The general claim is false: the product of closed paths need not be a path (C24_product_refuted), and products of words that are not reduced are not associative (C24_associative_refuted)."
  },
  {
   "property": "C25",
   "status": "proved",
   "theorems": [
    "C25_simplices",
    "C25_vertices",
    "C25_edges",
    "C25_faces",
    "C25_boundary"
   ],
   "note": "For all finite surfaces without boundary, all commutative rings with decidable equality, all sets of relative points."
  },
  {
   "property": "C26",
   "status": "proved",
   "theorems": [
    "C26_defined",
    "C26_antisymmetric",
    "C26_bilinear",
    "C26_homology"
   ],
   "note": "Defined exactly on cycles, antisymmetric, bilinear, invariant under adding boundaries; all finite surfaces without boundary and all commutative rings."
  },
  {
   "property": "C27",
   "status": "partial",
   "theorems": [
    "C27_bool_partial",
    "C27_groups_partial",
    "C27_bool_refuted",
    "C27_groups_refuted"
   ],
   "note": "Both halves of the claim are false: the truth value looks at the chain and not at its class, comparison of groups ignores the degree. Proved: what the two tests do guarantee."
  },
  {
   "property": "C28",
   "status": "partial",
   "theorems": [
    "C28_constructor",
    "C28_forward_partial",
    "C28_backward_partial",
    "C28_right_end_refuted",
    "C28_singularity_partial",
    "C28_inverse",
    "C28_inverse_backward",
    "C28_out_of_range",
    "C28_singularities_refuted"
   ],
   "note": "Proved: the constructor accepts exactly pairs of partitions; images are at the same position; points that are not end points are mapped back by the inverse; exact description of the images of singularities. Refuted: singularities are not always reported as (j, 0), and the right end point raises IndexError exactly when the last interval of the other side does not start later."
  },
  {
   "property": "C29",
   "status": "proved",
   "theorems": [
    "C29_translation_cover",
    "C29_projection"
   ],
   "note": ""
  },
  {
   "property": "C30",
   "status": "partial",
   "theorems": [
    "C30_half_translation_cover_partial",
    "C30_half_translation_cover_refuted"
   ],
   "note": "Involutive gluing for all surfaces; half-translation gluings for cone surfaces; refuted for dilations (the code multiplies by the transpose instead of the inverse)."
  },
  {
   "property": "C31",
   "status": "proved",
   "theorems": [
    "C31_planar_cover"
   ],
   "note": ""
  },
  {
   "property": "C32",
   "status": "partial",
   "theorems": [
    "C32_origami",
    "C32_staircase",
    "C32_chamanara",
    "C32_e_infinity",
    "C32_e_infinity_refuted",
    "C32_tfractal",
    "C32_mega_group",
    "C32_mega_partial",
    "C32_mega_refuted",
    "C32_mega_with_polygons"
   ],
   "note": "Proved for origamis (if and only if the maps are inverse permutations), the infinite staircase, the Chamanara surface (0 < alpha < 1), the T-fractal (positive parameters), E-infinity (lambda^2 at least the largest root of x^3-5x^2+4x-1, which includes the default). Refuted: E-infinity accepts parameters such as 4 for which polygons do not exist; the mega Wollmilchsau has no polygons as its constructor does not call the base class (its gluings are proved involutive and its group a group)."
  },
  {
   "property": "C33",
   "status": "proved",
   "theorems": [
    "C33_triangulate",
    "C33_degenerate"
   ],
   "note": "triangulate() is modelled with the search for ears and the construction of the surface. For every polygon accepted by the constructor (nondegenerate, simple, positive area) an ear always exists, no assertion fails, and the result is a triangulation: n-2 positively oriented triangles on the vertices of the polygon, areas add up, the closed triangles cover exactly the points that are not outside and their interiors are disjoint, the unglued edges are the edges of the polygon (each once), inner edges are glued in opposite directions. Shorter lists raise ValueError."
  },
  {
   "property": "C34",
   "status": "partial",
   "theorems": [
    "C34_edge",
    "C34_image_partial",
    "C34_small_partial",
    "C34_kept",
    "C34_section_partial",
    "C34_image_refuted",
    "C34_section_refuted"
   ],
   "note": "TriangulationMorphism_base: _image_edge, _image_point, _section_edge, _section_point over LazyTriangulatedSurface. Images of edges are the same edges, injectively. The image of a point of a triangulated polygon, if there is one, has the same coordinates in a triangle that contains it; it exists exactly if such a triangle shares an edge with the polygon (always for polygons with at most five vertices). Refuted in general: a hexagon with an inner triangle (AssertionError); _section_point fails for such triangles and for all non-convex polygons (AttributeError, contains_point only exists for convex polygons). Polygons that are not triangulated: points are kept if the polygon is convex."
  },
  {
   "property": "C35",
   "status": "partial",
   "theorems": [
    "C35_holonomy_class",
    "C35_image_partial",
    "C35_cycle_partial",
    "C35_reflection_refuted"
   ],
   "note": "Proved for positive determinant: the image is a chain (cycle) with holonomy M times the holonomy, and the holonomy depends only on the class. For negative determinant the claim is false (the edges of the image are numbered backwards but the morphism keeps the number), shown on the square torus."
  },
  {
   "property": "C36",
   "status": "proved",
   "theorems": [
    "C36_surface",
    "C36_holonomy",
    "C36_boundary",
    "C36_homology",
    "C36_rejects"
   ],
   "note": "For every sequence of flips (recorded as _certify_flip does) on every closed triangulated translation surface: every edge is mapped by the product of the flip matrices to a chain of edges of the flipped surface with the same holonomy (C36_holonomy), with the corresponding end points under a bijection of the vertices (C36_boundary), and the map is defined on homology (C36_homology). The surface is a finite mutable surface instead of the lazy one; which edges are flipped is arbitrary."
  },
  {
   "property": "C37",
   "status": "proved",
   "theorems": [
    "C37_defined",
    "C37_associative",
    "C37_identity",
    "C37_points",
    "C37_section",
    "C37_section_section",
    "C37_homology"
   ],
   "note": "Morphisms are modelled by their domain, codomain and their actions on points, homology; surfaces are compared by identity, homology groups are the default ones."
  },
  {
   "property": "C38",
   "status": "partial",
   "theorems": [
    "C38_cache_partial",
    "C38_mutable_not_cached",
    "C38_stale_replace_refuted",
    "C38_stale_remove_refuted"
   ],
   "note": "For every method that is determined by the polygons, gluings and roots, every history of mutations and calls gives the answers of the undecorated method and nothing is stored while the surface is mutable; refuted for histories that call remove_polygon or replace_polygon on an immutable surface (C07), then stale answers are returned."
  },
  {
   "property": "C39",
   "status": "partial",
   "theorems": [
    "C39_iter_elements",
    "C39_iter_complete",
    "C39_iter_stops",
    "C39_is_abelian",
    "C39_is_finite_partial",
    "C39_is_finite_form",
    "C39_invariant_forms",
    "C39_contains_definite",
    "C39_is_finite_refuted"
   ],
   "note": "Iteration: sound, without repetition, complete when it stops, stops exactly for finite groups. is_finite: True for all finite groups, and True implies an invariant definite form; but it is True for some infinite groups (refuted, e.g. [[1,1],[1,0]]). Sage's linear algebra is a parameter that computes a basis of solutions; an implementation is proved to be one."
  },
  {
   "property": "C40",
   "status": "partial",
   "theorems": [
    "C40_polygons_order",
    "C40_polygons_zero",
    "C40_polygons_partial",
    "C40_polygons_refuted",
    "C40_surfaces_zero",
    "C40_surfaces_partial",
    "C40_refuted",
    "C40_sign_refuted"
   ],
   "note": "The claim is false of the code: both polygons are taken from the first surface (surface.py 2113), and the comparison of polygons ignores vertex 0. Proved: the comparison of polygons is a total preorder and which polygons are equal for it; the exact meaning of the result 0 for surfaces; the claim when both surfaces have the same polygons at the same labels. Refuted: tori of different shape compare as 0; both comparisons of two surfaces give -1. The deprecated limit for infinite surfaces is not modelled."
  },
  {
   "property": "C41",
   "status": "proved",
   "theorems": [
    "C41_subdivide",
    "C41_join",
    "C41_roundtrip",
    "C41_subdivide_rejects",
    "C41_join_rejects",
    "C41_join_copy_refuted",
    "C41_root_refuted",
    "C41_subdivide_roots_refuted",
    "C41_subdivide_boundary_refuted"
   ],
   "note": "subdivide_polygon and join_polygons (in place) on the mutable surface: the result is the cut or joined surface with all other gluings and gluing maps intact; joining after cutting renumbers the polygon only. The refuted theorems are findings: join_polygons(in_place=False) raises AttributeError, chosen roots are lost or cause an AssertionError, polygons with boundary edges cause a TypeError after the polygon has been replaced."
  },
  {
   "property": "C42",
   "status": "proved",
   "theorems": [
    "C42_relabel",
    "C42_clash",
    "C42_function",
    "C42_enumerate",
    "C42_lazy",
    "C42_failed_call_refuted"
   ],
   "note": "Proved for mutable surfaces, dictionaries, functions and the default enumeration, and for LazyRelabeledSurface of finite surfaces. C42_failed_call_refuted is a finding outside of the statement: a call that raises has already destroyed polygons."
  },
  {
   "property": "C43",
   "status": "partial",
   "theorems": [
    "C43_subdivide_edges",
    "C43_connected",
    "C43_edge_image",
    "C43_zero",
    "C43_root_refuted",
    "C43_roots_refuted",
    "C43_point_refuted"
   ],
   "note": "For all surfaces with polygons the constructor accepts and all k>=1: polygons, gluings, boundary, gluing similarities, areas and the image of edges of subdivide_edges; no error for connected surfaces; ValueError for k=0. Findings: roots are set before gluing, so the root of the surface is lost (C43_root_refuted) and surfaces with several components raise AssertionError (C43_roots_refuted); SubdivideEdgesMorphism maps points to the same coordinates although the polygons are moved to the origin (C43_point_refuted)."
  },
  {
   "property": "C44",
   "status": "partial",
   "theorems": [
    "C44_cover_partial",
    "C44_inconsistent_partial",
    "C44_projection_partial",
    "C44_gluings",
    "C44_refuted",
    "C44_self_refuted"
   ],
   "note": "Proved for surfaces in which each edge is glued to a different edge of the same polygon: the computed surface is the covering with the given permutations, inconsistent data raise ValueError; gluings of a covering are of the same kind. Refuted in general: line 3339 uses the label lab instead of llab so polygons are only ever glued to polygons over the same polygon; edges glued to themselves raise KeyError."
  },
  {
   "property": "C45",
   "status": "partial",
   "theorems": [
    "C45_is_isometric",
    "C45_certificate",
    "C45_is_translate",
    "C45_is_half_translate",
    "C45_lengths",
    "C45_index_refuted",
    "C45_half_refuted",
    "C45_pair_refuted"
   ],
   "note": "Truth values are proved exact for all polygons, and the exact meaning of the certificates. Refuted: the documented meaning of the index of is_isometric, the common meaning of the certificates of is_half_translate, and a pair being returned when the numbers of vertices differ."
  },
  {
   "property": "C46",
   "status": "proved",
   "theorems": [
    "C46_entries",
    "C46_translate",
    "C46_rotate",
    "C46_reverse",
    "C46_cut",
    "C46_linear",
    "C46_flip"
   ],
   "note": "The number field is a parameter with additive coordinates. Invariance of the value of a surface is proved for flips of triangles; for the polygons translations, renumbering, cutting and linear maps."
  },
  {
   "property": "C47",
   "status": "proved",
   "theorems": [
    "C47_polygon_double",
    "C47_billiard_convex"
   ],
   "note": "polygon_double for all polygons, billiard for convex tables (the statement); tables that are not convex are triangulated first by the code, which is not modelled"
  },
  {
   "property": "C48",
   "status": "proved",
   "theorems": [
    "C48_equivalence",
    "C48_equal_view",
    "C48_view_equal",
    "C48_hash"
   ],
   "note": ""
  },
  {
   "property": "C49",
   "status": "proved",
   "theorems": [
    "C49_turns",
    "C49_subdivision",
    "C49_point_turns"
   ],
   "note": ""
  },
  {
   "property": "C50",
   "status": "proved",
   "theorems": [
    "C50_edges_ccw",
    "C50_edges_ccw_from",
    "C50_total"
   ],
   "note": ""
  },
  {
   "property": "C51",
   "status": "proved",
   "theorems": [
    "C51_vertices",
    "C51_edges",
    "C51_is_simple",
    "C51_spike_needed"
   ],
   "note": ""
  },
  {
   "property": "C52",
   "status": "proved",
   "theorems": [
    "C52_slope",
    "C52_zero"
   ],
   "note": ""
  },
  {
   "property": "C53",
   "status": "proved",
   "theorems": [
    "C53_restriction",
    "C53_copy"
   ],
   "note": ""
  },
  {
   "property": "C54",
   "status": "partial",
   "theorems": [
    "C54_opposite_partial",
    "C54_sum",
    "C54_refuted"
   ],
   "note": "Proved for edges that are not glued to themselves; refuted for edges glued to themselves (the sphere made of one square gets non-trivial homology)."
  },
  {
   "property": "C55",
   "status": "partial",
   "theorems": [
    "C55_refuted"
   ],
   "note": "False: the identity is never expanded, so with one generator of infinite order its inverse is never yielded. When the iteration stops everything has been yielded (C39_iter_complete)."
  },
  {
   "property": "C56",
   "status": "proved",
   "theorems": [
    "C56_triangulation",
    "C56_boundary_refuted",
    "C56_roots_refuted"
   ],
   "note": "Proved for all closed surfaces of simple polygons and all sets of labels. Findings: C56_boundary_refuted (a surface with boundary: opposite_edge raises TypeError), C56_roots_refuted (the root of a component whose root polygon is not triangulated is 0)."
  },
  {
   "property": "C57",
   "status": "proved",
   "theorems": [
    "C57_vertex",
    "C57_edge",
    "C57_parity",
    "C57_outside",
    "C57_convex",
    "C57_is_convex"
   ],
   "note": "Complete for polygons that the constructor accepts: boundary positions, inside and outside by crossing parity and separating lines, convex polygons and is_convex()."
  },
  {
   "property": "C58",
   "status": "partial",
   "theorems": [
    "C58_exit",
    "C58_points_into",
    "C58_first",
    "C58_error",
    "C58_outward_refuted"
   ],
   "note": "Proved for all walks that start into the polygon, and first hit and errors in general. The last sentence is false: C58_outward_refuted (outward directions are accepted when the ray meets a non-convex polygon again)."
  },
  {
   "property": "C59",
   "status": "proved",
   "theorems": [
    "C59_accepted",
    "C59_result",
    "C59_equal",
    "C59_invert",
    "C59_scaling"
   ],
   "note": "Complete. Base ring conversions are not modelled."
  },
  {
   "property": "C60",
   "status": "partial",
   "theorems": [
    "C60_segment",
    "C60_ends",
    "C60_reverse",
    "C60_next",
    "C60_previous_partial",
    "C60_is_edge",
    "C60_previous_refuted"
   ],
   "note": "Complete except previous(): C60_previous_partial needs that the end is not a vertex; C60_previous_refuted shows that it raises ValueError otherwise, as the code tests the end instead of the start."
  },
  {
   "property": "C61",
   "status": "proved",
   "theorems": [
    "C61_start",
    "C61_forward",
    "C61_stop",
    "C61_backward",
    "C61_add",
    "C61_closed",
    "C61_saddle"
   ],
   "note": "Complete for the deque-based StraightLineTrajectory. Coding, cylinder, intersections and plotting are not modelled."
  },
  {
   "property": "C62",
   "status": "partial",
   "theorems": [
    "C62_clockwise_partial",
    "C62_counterclockwise_partial",
    "C62_errors",
    "C62_reflex_refuted",
    "C62_pillow_refuted"
   ],
   "note": "Proved for translation surfaces at vertices with at most 99 corners (100 counterclockwise) of less than 180 degrees each. False in general: C62_reflex_refuted (corners of more than 180 degrees: the wrong vector is returned), C62_pillow_refuted (half-translation surfaces: the direction is not transformed, ValueError). The assertion about rotate_limit in the code never fails."
  },
  {
   "property": "C63",
   "status": "partial",
   "theorems": [
    "C63_vertex",
    "C63_vertex_complete_partial",
    "C63_error",
    "C63_surface",
    "C63_complete_partial",
    "C63_flat_refuted",
    "C63_nonconvex_refuted",
    "C63_reflex_refuted"
   ],
   "note": "Soundness and uniqueness for all closed surfaces of convex polygons; completeness if the angle at the start is less than 180 degrees. False otherwise: C63_flat_refuted (angle of 180 degrees: saddle connections are missed), C63_reflex_refuted (larger angles), C63_nonconvex_refuted (holonomies are listed twice). Termination is not proved (fuel), the search may not end on dilation surfaces; it never fails otherwise (C63_error)."
  },
  {
   "property": "C64",
   "status": "partial",
   "theorems": [
    "C64_equal",
    "C64_invert",
    "C64_edge",
    "C64_flow",
    "C64_find",
    "C64_reject",
    "C64_clockwise_refuted",
    "C64_half_translation_refuted"
   ],
   "note": "Equality, inversion; the constructor computes the saddle connection in the given direction (C64_flow) and finds every saddle connection if the limit is large enough (C64_find), for all simple polygons and all directions except that of the edge that ends at the start, for which the holonomies are wrong (C64_clockwise_refuted). The inferred end holonomy is wrong on half-translation surfaces if the direction is not normalised (C64_half_translation_refuted)."
  },
  {
   "property": "C65",
   "status": "proved",
   "theorems": [
    "C65_point",
    "C65_injective",
    "C65_coordinates",
    "C65_equation",
    "C65_half_circle",
    "C65_vertical",
    "C65_projective"
   ],
   "note": "Over arbitrary ordered fields; square roots through an oracle for a subfield (the base ring)."
  },
  {
   "property": "C66",
   "status": "proved",
   "theorems": [
    "C66_check",
    "C66_through",
    "C66_equal",
    "C66_point_equal",
    "C66_contains",
    "C66_half_space",
    "C66_start",
    "C66_parametrize"
   ],
   "note": "Points given as starts of geodesics may have coordinates outside of the base ring."
  },
  {
   "property": "C67",
   "status": "proved",
   "theorems": [
    "C67_intersection",
    "C67_configuration",
    "C67_ccw",
    "C67_segment",
    "C67_half_spaces_point",
    "C67_half_spaces_geodesic",
    "C67_half_spaces_segment"
   ],
   "note": "ccw with and without the euclidean flag."
  },
  {
   "property": "C68",
   "status": "partial",
   "theorems": [
    "C68_check",
    "C68_point",
    "C68_distance",
    "C68_geodesic",
    "C68_start",
    "C68_segment",
    "C68_half_plane",
    "C68_moebius",
    "C68_moebius_infinity",
    "C68_sim12",
    "C68_sheet_refuted",
    "C68_half_segment_refuted"
   ],
   "note": "Sides of geodesics are preserved for matrices that do not swap the sheets of the hyperboloid (all matrices from the half plane model); false for the others, which are accepted (C68_sheet_refuted). Segments that are oriented or bounded; unoriented segments with an ideal end point are refused even by the identity (C68_half_segment_refuted)."
  },
  {
   "property": "C69",
   "status": "proved",
   "theorems": [
    "C69_generic",
    "C69_order",
    "C69_nested",
    "C69_set",
    "C69_merge",
    "C69_equal",
    "C69_rotated",
    "C69_trivial"
   ],
   "note": "Proved for all lists over all ordered fields; ordered_set also for any strict weak order."
  },
  {
   "property": "C70",
   "status": "partial",
   "theorems": [
    "C70_segment_equal",
    "C70_segment_vertices",
    "C70_polygon",
    "C70_intersection",
    "C70_equal",
    "C70_kinds",
    "C70_deterministic",
    "C70_ray_refuted"
   ],
   "note": "Proved for polygons without marked vertices, every random permutation and every choice of elements of intervals. The one exception, proved to be the only one, is refuted with a witness: when the intersection is a ray whose ideal end point has no coordinates in the base ring a ValueError is raised (C70_ray_refuted)."
  },
  {
   "property": "C71",
   "status": "partial",
   "theorems": [
    "C71_surface",
    "C71_exists",
    "C71_unique",
    "C71_lengths",
    "C71_up_refuted"
   ],
   "note": "For every field, all permutations, all positive multiplicities. The classes of surface_dynamics and the functions of SageMath are parameters with the stated specifications. The statement of the module documentation that the vertical permutation goes up is refuted (C71_up_refuted)."
  },
  {
   "property": "C72",
   "status": "partial",
   "theorems": [
    "C72_hom",
    "C72_matrix",
    "C72_neg",
    "C72_bool",
    "C72_scale_partial",
    "C72_add",
    "C72_compose",
    "C72_eq",
    "C72_identity_zero",
    "C72_scale_refuted",
    "C72_trivial_domain_refuted"
   ],
   "note": "Homomorphisms are linear maps and all operations agree, except: multiples (x*f) do not pass on the codomain, so that they have the domain as codomain or raise NotImplementedError (C72_scale_refuted; C72_scale_partial for endomorphisms), and matrix() of a homomorphism from a trivial group to a nontrivial group has no rows, so that -f and f+g raise ValueError (C72_trivial_domain_refuted; the theorems assume that the domain has generators or the codomain is trivial)."
  },
  {
   "property": "C73",
   "status": "partial",
   "theorems": [
    "C73_call",
    "C73_dual",
    "C73_add",
    "C73_eq_partial",
    "C73_gens",
    "C73_eq_refuted"
   ],
   "note": "Proved with values in any commutative ring. Equality needs the keys to be generators (C73_eq_partial): the constructor accepts other keys and ignores their values, so that a class that is zero as a functional is not equal to zero and x + 0 != x (C73_eq_refuted)."
  },
  {
   "property": "C74",
   "status": "partial",
   "theorems": [
    "C74_polytope_partial",
    "C74_types_refuted",
    "C74_right_left_refuted"
   ],
   "note": "Proved for all triangulations and all points without vanishing coordinates: the equations, the sign conditions and the conditions of bottom-top pairs hold iff the surface has the given markings and all its edges are Delaunay except possibly the ones between a right and a left vertex; without such edges the polytope is the cell (C74_polytope_partial). The conditions for right-left pairs use wrong indices (3 * (p + e) instead of 2 * (3 * p + e)): C74_right_left_refuted gives a Delaunay surface outside of the polytope and a surface in the polytope with an edge that is not Delaunay. C74_types_refuted: the markings of the class documentation are accepted but only degenerate surfaces have them."
  },
  {
   "property": "C75",
   "status": "partial",
   "theorems": [
    "C75_corner",
    "C75_normalized",
    "C75_reflex",
    "C75_convex",
    "C75_invariant",
    "C75_rational",
    "C75_total_refuted"
   ],
   "note": "Proved for all surfaces whose first polygon has a convex first corner: the returned surface is the image under M with the same gluings, its coordinates are in the field, the field is the smallest one over which the edges span a plane, it is invariant under relabelling and invertible matrices. If the first corner is a reflex angle there is an AssertionError (C75_reflex), so the methods are not total: C75_total_refuted, witnessed by an L shape that is a translation surface. The construction of subfields in SageMath is represented by the elements that generate the subfield."
  },
  {
   "property": "C76",
   "status": "partial",
   "theorems": [
    "C76_chebyshev",
    "C76_rotation",
    "C76_odd_prime",
    "C76_minpoly_partial"
   ],
   "note": "Proved for all n: no failure, exact divisions, monic, degree phi(2n)/2, value at z + 1/z is zero if and only if z has order 2n. Missing: irreducibility over the rationals (that of cyclotomic polynomials). The factorization n.factor() is an argument of the model, characterised by the specification [factorization]; polynomials of SageMath are represented by lists of coefficients."
  },
  {
   "property": "C77",
   "status": "partial",
   "theorems": [
    "C77_cone_points",
    "C77_double",
    "C77_dimension",
    "C77_stratum",
    "C77_rational_stratum_refuted",
    "C77_normalize",
    "C77_integral",
    "C77_convex"
   ],
   "note": "Proved for all lists of rational angles. Finding: billiard_unfolding_stratum documents the cover type rational but raises TypeError for it (witness: the triangle (1, 2, 5) of its own examples). The constructor Stratum of surface_dynamics is not modelled, its arguments are."
  },
  {
   "property": "C78",
   "status": "partial",
   "theorems": [
    "C78_torus",
    "C78_mcmullen_L",
    "C78_dilation_torus",
    "C78_genus_two_square",
    "C78_cathedral",
    "C78_genus2",
    "C78_genus3",
    "C78_genus4",
    "C78_genus4_refuted",
    "C78_base_ring_refuted",
    "C78_rel_refuted"
   ],
   "note": "Proved for all parameters. Findings: lanneau_nguyen_genus4_prototype accepts and documents lambda < w but fails for w/2 < lambda < w (witness w = 6, h = 2, t = 0, e = 1); mcmullen_genus2_prototype with a base ring and irrational lambda always fails (the assertion roots[0] < 0 and roots[0] > 0); its check of rel admits w - lambda, which gives a degenerate polygon. Rings and number fields are not modelled: lambda and the root of the discriminant are arguments."
  },
  {
   "property": "C79",
   "status": "proved",
   "theorems": [
    "C79_exists",
    "C79_unfolding"
   ],
   "note": "Proved for all lists of widths and heights. Entries that are all negative also succeed (the staircase rotated by a half turn). The number of vertices and the genus of the unfolding are not computed."
  },
  {
   "property": "C80",
   "status": "partial",
   "theorems": [
    "C80_inverse",
    "C80_positive",
    "C80_composition",
    "C80_natural",
    "C80_straight",
    "C80_composition_inverse",
    "C80_composition_natural",
    "C80_natural_refuted"
   ],
   "note": "Proved for all closed surfaces and all invertible matrices. Independence of the description holds on dilation surfaces and is refuted for a square with rotations as gluings. Equality of a composition with the mapping of the product, and images of straight segments, are proved for positive determinants only; on dilation surfaces compositions of both orientations are described by the product of the matrices."
  }
 ]
}