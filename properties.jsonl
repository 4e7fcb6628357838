{"id": "C01", "title": "Every Boolean operator keeps exactly the right boundary pieces, with the right orientation", "statement": "For each of the 16 Boolean_operator values (and the aliases UNION/INTERSECTION/DIFFERENCE/SYMMETRIC_DIFFERENCE), a face of operand X with classification tag t is output by the operator iff the set expression printed in the README for that operator takes different truth values on the two sides of the face; it is output with its own orientation iff the negative side is the one inside the result, otherwise reversed. For coplanar/opposite faces exactly one of the two copies is output, the first operand's copy when prefer_first is true.", "quantifier": "all operators, all tags, both operands, both values of prefer_first, both sides of the face", "why_tests_cant": "the tests only exercise a handful of (operator, tag) combinations through whole meshes; the 16x4x2x2 table times orientation is the contract every mesh relies on", "anchors": ["include/kigumi/Boolean_operator.h:union_mask,intersection_mask,coplanar_mask,opposite_mask", "include/kigumi/Extract.h:Extract::operator()", "README.md:Table of Boolean operators"]}
{"id": "C02", "title": "Extracting a result never corrupts geometry or indices", "statement": "The boundary returned for an operator lists, in order, exactly the selected faces of the mixed mesh; each output face has the same three points as its source face (second and third swapped iff it is reversed) and the same face data; every output vertex index is in range, every output vertex is used by some face, and no source vertex is duplicated.", "quantifier": "all mixed meshes of any size whose faces have in-range vertices, all operators, both preferences", "why_tests_cant": "vertex renumbering bugs depend on the order in which vertices are first met; only finitely many meshes can be sampled", "anchors": ["include/kigumi/Extract.h:Extract::operator()", "include/kigumi/Triangle_soup.h:add_vertex,add_face"]}
{"id": "C03", "title": "The Boolean result is the set the operator denotes", "statement": "If the mixed mesh is a correctly classified arrangement of two regions A and B (each face separates two cells of space, crossing it changes membership as its orientation and tag say, and any two cells are connected by crossings), then the region returned for operator op is op(A,B): when it has a boundary, its faces are exactly the crossings where op(A,B) changes, oriented outwards; when it is empty()/full(), op(A,B) is constantly false/true; and no exception is thrown.", "quantifier": "all correctly classified arrangements (any number of cells and faces), all operators, both preferences, operands both boundary-defined", "why_tests_cant": "the empty/full fall-back branches are reached only by special configurations (nested, complementary, identical operands) of arbitrary meshes", "anchors": ["include/kigumi/Boolean_region_builder.h:operator()", "include/kigumi/Extract.h", "include/kigumi/Boolean_operator.h"]}
{"id": "C04", "title": "Empty and full operands behave as the empty set and the universe", "statement": "If at least one operand is empty() or full(), the builder returns for every operator: the other operand's boundary, the other operand's boundary with all faces reversed, empty() or full(), whichever the set expression of the operator denotes; it never throws and never emits warnings.", "quantifier": "all regions, all operators, both operand positions, both preferences", "why_tests_cant": "tests use a single-triangle mesh for these cases", "anchors": ["include/kigumi/Boolean_region_builder.h:Boolean_region_builder,operator(),apply", "include/kigumi/Region.h"]}
{"id": "C05", "title": "Algebraic laws between results of one builder", "statement": "For one builder, the result of an operator and of its complement have the same faces with reversed orientation (empty() and full() exchanged); exchanging the operands and mirroring the operator and the preference gives the same faces; changing prefer_first does not change which of the results are empty()/full().", "quantifier": "all mixed meshes, all operators, both preferences", "why_tests_cant": "laws relate two runs on arbitrary meshes", "anchors": ["include/kigumi/Boolean_region_builder.h", "include/kigumi/Extract.h"]}
{"id": "C06", "title": "Face data follow the faces", "statement": "Every face of a Boolean result carries the face data of the input face (of the operand it comes from) that it is a piece of; a face that was not cut is output with its own three points.", "quantifier": "all pairs of input regions, all outcomes of triangulation, all operators", "why_tests_cant": "needs to hold for every subdivision of every face", "anchors": ["include/kigumi/Mix.h", "include/kigumi/Corefine.h:get_left_faces,get_right_faces", "include/kigumi/Extract.h", "include/kigumi/Boolean_region_builder.h"]}
{"id": "C07", "title": "Edge adjacency queries are exact", "statement": "After finalize(), faces_around_edge({u,v}) enumerates, in increasing order and without repetition, exactly the faces that have both u and v as vertices, for every non-degenerate mesh.", "quantifier": "all meshes, all vertex pairs up to the largest used vertex", "why_tests_cant": "the index is built by a sort and counting pass whose corner cases are gaps in the used vertices", "anchors": ["include/kigumi/Triangle_mesh.h:finalize,faces_around_edge", "include/kigumi/Mesh_iterators.h:Face_around_edge_iterator"]}
{"id": "C08", "title": "Adjacency queries accept every vertex of the mesh", "statement": "faces_around_edge on two vertices of the mesh never throws and yields the empty range when no face contains both.", "quantifier": "all meshes and all pairs of valid vertices, including isolated ones", "why_tests_cant": "only fails for meshes whose last vertices are isolated", "anchors": ["include/kigumi/Triangle_mesh.h:finalize,faces_around_edge"]}
{"id": "C09", "title": "Face neighbourhood queries are exact", "statement": "faces_around_face(f, border) enumerates, apart from f itself, exactly the faces sharing with f an edge that is not in the border set.", "quantifier": "all meshes, faces and border edge sets", "why_tests_cant": "depends on iterator end conditions for all combinations of empty/non-empty/border edges", "anchors": ["include/kigumi/Triangle_mesh.h:faces_around_face", "include/kigumi/Mesh_iterators.h:Face_around_face_iterator"]}
{"id": "C10", "title": "Tag propagation floods exactly one component", "statement": "Propagating a seed's tag gives that tag to exactly the UNKNOWN faces reachable from the seed through UNKNOWN faces across non-border edges, changes no other face, terminates, and reports the partial-intersection warning of the seed's operand iff a differently tagged face is met.", "quantifier": "all meshes, border sets, tag assignments and seeds", "why_tests_cant": "graph reachability for arbitrary meshes", "anchors": ["include/kigumi/Propagate_face_tags.h:operator()"]}
{"id": "C11", "title": "After classification no face is left unclassified", "statement": "After global classification every face of the mixed mesh has a tag other than UNKNOWN, and each previously UNKNOWN face gets EXTERIOR/INTERIOR according to the side of the other operand on which its component's representative lies.", "quantifier": "all mixed meshes, border sets and previous tag assignments", "why_tests_cant": "depends on the face order and on which faces are already tagged; silent loss of faces in the result otherwise", "anchors": ["include/kigumi/Classify_faces_globally.h:operator(),find_unclassified_connected_components", "include/kigumi/Extract.h"]}
{"id": "C12", "title": "The radial order around an edge is a strict weak order by angle", "statement": "The comparison used to sort faces around an intersecting edge is irreflexive, transitive, has transitive incomparability, and orders non-degenerate faces by counter-clockwise angle from a fixed direction; two faces are incomparable only when they point in the same direction.", "quantifier": "all non-zero 2D vectors", "why_tests_cant": "std::sort has undefined behaviour otherwise; it must hold for all exact coordinates", "anchors": ["include/kigumi/Classify_faces_locally.h:Face_around_edge::classify_radial_bin,Radial_ordering"]}
{"id": "C13", "title": "Local classification is correct around every edge", "statement": "Around an edge where the faces of both operands bound solid wedges consistently, every tag assigned by local classification is the true one: COPLANAR/OPPOSITE for coinciding faces with equal/opposite orientation, EXTERIOR/INTERIOR according to whether the face lies outside/inside the other operand; and if some pair of adjacent non-overlapping faces has equal orientation, all faces around the edge get tagged.", "quantifier": "any number of faces around the edge, any interleaving of the two operands, any order among coinciding faces, any previously assigned correct tags", "why_tests_cant": "arbitrary numbers of wedges", "anchors": ["include/kigumi/Classify_faces_locally.h:operator()"]}
{"id": "C14", "title": "Local classification does not guess on inconsistent edges", "statement": "If going around the edge contradicts some assigned EXTERIOR/INTERIOR tag, no tag is assigned beyond those of the adjacent equally oriented pairs and the overlapping pairs; tags assigned before are otherwise preserved.", "quantifier": "any arrangement around an edge, consistent or not", "why_tests_cant": "depends on where the inconsistency is met in the round trip", "anchors": ["include/kigumi/Classify_faces_locally.h:operator()"]}
{"id": "C15", "title": "parallel_do handles each element exactly once under every schedule", "statement": "If no body throws, parallel_do calls body exactly once for each element, calls post exactly once for each worker with the state accumulated by that worker, post calls do not overlap, and a reduction by an associative-commutative operation gives the sequential result, whatever the number of threads and the interleaving.", "quantifier": "all ranges, thread counts and interleavings", "why_tests_cant": "schedules", "anchors": ["include/kigumi/parallel_do.h:parallel_do"]}
{"id": "C16", "title": "parallel_do reports exceptions faithfully", "statement": "parallel_do throws iff some executed body or post threw, the exception thrown is the first one recorded, it throws only after all workers have finished, and no worker starts another element once it has seen the recorded exception.", "quantifier": "all ranges, thread counts, interleavings and sets of throwing elements", "why_tests_cant": "schedules", "anchors": ["include/kigumi/parallel_do.h:parallel_do"]}
{"id": "C17", "title": "parallel_sort sorts under every schedule", "statement": "parallel_sort leaves the range sorted and a permutation of the input, for every length, comparison, number of threads and interleaving, and threads never touch the same element in the same phase.", "quantifier": "all sequences, total preorders, thread counts and interleavings", "why_tests_cant": "schedules and sizes around multiples of the partition size", "anchors": ["include/kigumi/parallel_sort.h:parallel_sort"]}
{"id": "C18", "title": "Scoped options nest", "statement": "Constructing a Context makes its options current on that thread and destroying it restores the previous ones, for any well-nested use; contexts on one thread do not affect other threads; set_num_threads always results in a value between 1 and max(1, hardware concurrency); the requested number of threads bounds the number of workers of every parallel algorithm.", "quantifier": "all nestings and thread counts", "why_tests_cant": "histories", "anchors": ["include/kigumi/Context.h:Context", "include/kigumi/threading.h:Threading_options", "include/kigumi/parallel_do.h", "include/kigumi/io/obj.h:Write_obj_context"]}
{"id": "C19", "title": "Point identifiers are canonical", "statement": "While uniqueness checking is on (from an empty list), two inserted points get the same id iff they are equal, ids are dense, at(id) returns the inserted point, and ids stay valid after any later insertions.", "quantifier": "all operation histories", "why_tests_cant": "histories", "anchors": ["include/kigumi/Point_list.h:Point_list"]}
{"id": "C20", "title": "Intersection points are shared, not duplicated", "statement": "Asking for the intersection point of two features (edge/edge or edge/face, or a vertex) returns the same id whatever the order of the operands' vertices, each distinct feature pair is constructed exactly once, and the id refers to that construction, for every history of requests.", "quantifier": "all request histories and vertex orders", "why_tests_cant": "histories and permutations", "anchors": ["include/kigumi/Intersection_point_inserter.h:insert"]}
{"id": "C21", "title": "Coinciding faces are detected exactly", "statement": "A face is pre-tagged COPLANAR iff the other mesh has a face with the same three points in the same cyclic order, OPPOSITE iff it has one in the opposite cyclic order and none in the same, independent of which mesh is larger and of the schedule, for meshes without duplicate faces.", "quantifier": "all pairs of meshes, all rotations, schedules", "why_tests_cant": "rotations/orientation/schedules over arbitrary meshes", "anchors": ["include/kigumi/Find_coplanar_faces.h"]}
{"id": "C22", "title": "No candidate face pair is missed", "statement": "The candidate pairs are exactly the pairs (left face, right face) both not pre-tagged whose bounding boxes intersect, each exactly once, for every schedule.", "quantifier": "all pairs of meshes, schedules", "why_tests_cant": "a missing pair silently loses an intersection", "anchors": ["include/kigumi/Find_possibly_intersecting_faces.h", "include/kigumi/AABB_tree/AABB_tree.h"]}
{"id": "C23", "title": "Box tree queries are exact", "statement": "get_intersecting_leaves returns each leaf whose box intersects the query exactly once and no other leaf; building uses exactly n-1 nodes and concurrent subtree builds touch disjoint memory.", "quantifier": "any number of leaves, any boxes, any query monotone in the box", "why_tests_cant": "node layout arithmetic for every size", "anchors": ["include/kigumi/AABB_tree/AABB_tree.h:build,traverse,get_intersecting_leaves"]}
{"id": "C24", "title": "Point-side queries return the side of the nearest face", "statement": "Region::bounded_side answers from the nearest unambiguous face hit by a probing ray: a point on the boundary that is hit is reported ON_BOUNDARY, an unambiguous nearest face decides the side, ambiguous rays are skipped, and the answer agrees with the region's membership for consistently oriented regions; empty()/full() regions answer UNBOUNDED/BOUNDED for every point.", "quantifier": "all regions and points, all results of ray/triangle intersection", "why_tests_cant": "arbitrary geometry", "anchors": ["include/kigumi/Side_of_triangle_soup.h", "include/kigumi/Region.h:bounded_side"]}
{"id": "C25", "title": "Saving and loading a region in the binary format is lossless", "statement": "Reading back what write_kigumi_region wrote into a fresh region gives the same kind, the same points exactly (doubles bit for bit, rationals as exact fractions), the same faces and the same face data, and consumes exactly the bytes written.", "quantifier": "all regions with fewer than 2^31 vertices/faces and coordinate lengths, all face data codecs that round-trip", "why_tests_cant": "arbitrary-precision values and sizes", "anchors": ["include/kigumi/io.h", "include/kigumi/Triangle_soup.h:Write,Read", "include/kigumi/Region.h:Write,Read", "include/kigumi/Region_io.h"]}
{"id": "C26", "title": "A truncated binary file is never accepted", "statement": "read_kigumi_region on any proper prefix of a valid file does not report success, and reports failure by returning false.", "quantifier": "all regions, all cut points", "why_tests_cant": "every cut point of every file", "anchors": ["include/kigumi/io.h:Read", "include/kigumi/Region_io.h:read_kigumi_region"]}
{"id": "C27", "title": "Loading replaces the target region and only accepts valid regions", "statement": "read_kigumi_region into any region object yields exactly the stored region, and on success all face vertices are in range and the kind is one of the three declared kinds.", "quantifier": "all previous contents of the target, all byte strings", "why_tests_cant": "arbitrary bytes and histories", "anchors": ["include/kigumi/Region.h:Read", "include/kigumi/Triangle_soup.h:Read"]}
{"id": "C28", "title": "OBJ files round-trip", "statement": "Reading what write_obj wrote (with positive or negative indices) yields the same faces and the same double coordinates in the same order.", "quantifier": "all soups with in-range faces, both index modes", "why_tests_cant": "arbitrary sizes and indices", "anchors": ["include/kigumi/io/obj.h:read_obj,write_obj", "include/kigumi/io/ascii.h"]}
{"id": "C29", "title": "OFF files round-trip", "statement": "Reading what write_off wrote yields the same faces and the same double coordinates in the same order; reading a file whose declared counts do not match its lines fails.", "quantifier": "all non-empty soups", "why_tests_cant": "arbitrary sizes", "anchors": ["include/kigumi/io/off.h:read_off,write_off", "include/kigumi/io/ascii.h"]}
{"id": "C30", "title": "PLY files round-trip", "statement": "Reading what write_ply wrote yields the same faces and the same double coordinates in the same order.", "quantifier": "all soups", "why_tests_cant": "arbitrary sizes", "anchors": ["include/kigumi/io/ply.h:read_ply,write_ply", "include/kigumi/io/ascii.h"]}
{"id": "C31", "title": "Polygons become triangle fans; failed reads leave the soup untouched", "statement": "A text-format face with n>=3 vertices v0..vn-1 yields exactly the n-2 triangles (v0,vi+1,vi+2); with fewer vertices none; a reader that returns false leaves the caller's soup unchanged.", "quantifier": "all polygon sizes, all inputs", "why_tests_cant": "arbitrary sizes/inputs", "anchors": ["include/kigumi/io/obj.h", "include/kigumi/io/off.h", "include/kigumi/io/ply.h", "README.md:Additional notes"]}
{"id": "C32", "title": "Edge defects are reported exactly", "statement": "Ignoring faces with repeated vertices, an edge is reported as boundary iff exactly one face uses it, as inconsistent iff exactly two faces use it in the same direction, as non-manifold iff three or more faces use it; each edge is reported at most once.", "quantifier": "all meshes", "why_tests_cant": "arbitrary incidence multiplicities and directions", "anchors": ["include/kigumi/Find_defects.h:collect_halfedges,boundary_edges,inconsistent_edges,non_manifold_edges"]}
{"id": "C33", "title": "Isolated vertices and degenerate faces are reported exactly", "statement": "A vertex of the merged mesh is reported isolated iff no face uses it; a face is reported trivially degenerate iff two of its (merged) vertices coincide; non-trivially degenerate iff its three distinct points are collinear; for every schedule.", "quantifier": "all meshes, schedules", "why_tests_cant": "arbitrary meshes", "anchors": ["include/kigumi/Find_defects.h:isolated_vertices,trivial_degenerate_faces,non_trivial_degenerate_faces"]}
{"id": "C34", "title": "Non-manifold vertices are reported exactly", "statement": "A vertex is reported non-manifold iff the link formed by the opposite edges of its non-degenerate faces is not a single simple path or cycle.", "quantifier": "all meshes", "why_tests_cant": "arbitrary vertex stars", "anchors": ["include/kigumi/Find_defects.h:non_manifold_vertices", "include/kigumi/Dense_undirected_graph.h"]}
{"id": "C35", "title": "The dense graph answers graph questions correctly", "statement": "The packed storage is a faithful symmetric multigraph (distinct pairs use distinct in-range cells); degree, is_simple, max_degree and is_connected agree with their graph-theoretic meaning; is_connected terminates.", "quantifier": "all orders and edge sequences", "why_tests_cant": "arbitrary graphs", "anchors": ["include/kigumi/Dense_undirected_graph.h"]}
{"id": "C36", "title": "Triangle/triangle intersection is exact", "statement": "For two non-degenerate triangles the symbolic intersection lists exactly the vertices of the intersection polygon, each once, each identified by the open feature (vertex, edge interior, face interior) of either triangle that contains it; it is empty iff the triangles are disjoint.", "quantifier": "all exact coordinates, all vertex orders", "why_tests_cant": "degenerate contact configurations over all coordinates", "anchors": ["include/kigumi/Face_face_intersection.h", "include/kigumi/Triangle_region.h"]}
{"id": "C37", "title": "Cached orientation tests are the true orientation", "statement": "The memoised orientation test returns, for any order of its four arguments (repeats included) and any history of previous tests in the same call, the orientation of the four points in the order given.", "quantifier": "all argument orders and histories", "why_tests_cant": "histories and permutations", "anchors": ["include/kigumi/Face_face_intersection.h:orientation,sort"]}
{"id": "C38", "title": "Border edges are exactly the edges cut into both meshes", "statement": "The edges that stop propagation are exactly the segments inserted as constraints into the triangulations of the two faces of some intersecting pair, and each cut face's triangulation receives every intersection of that face, for any order of intersection records.", "quantifier": "all sets of intersection records", "why_tests_cant": "arbitrary many faces/pairs", "anchors": ["include/kigumi/Corefine.h:get_intersecting_edges,insert_intersection,Corefine", "include/kigumi/Triangulation.h:insert"]}
{"id": "C39", "title": "CLI writes what was asked and reports failure by exit status", "statement": "kigumi boolean writes to each requested file the result of the operator named by its option and to no other file; kigumi convert of a region to .kigumi and back preserves it; the exit status is 0 iff all requested outputs were written.", "quantifier": "all argument lists, file contents and write failures", "why_tests_cant": "arbitrary combinations of failures", "anchors": ["cli/main.cc", "cli/boolean_command.cc", "cli/convert_command.cc", "cli/utility.h"]}
{"id": "C40", "title": "Queries see the current boundary", "statement": "A point-side or box query on a triangle soup always reflects its current faces, for every history of additions, copies, moves and queries.", "quantifier": "all operation histories", "why_tests_cant": "histories", "anchors": ["include/kigumi/Triangle_soup.h:aabb_tree,add_face,add_vertex,operator="]}
{"id": "C41", "title": "Successive Boolean computations are independent", "statement": "Each Boolean computation evaluates intersections on its own operands' points, for every history of computations on one thread and every thread-count setting.", "quantifier": "all histories of computations, all thread counts", "why_tests_cant": "histories across object lifetimes", "anchors": ["include/kigumi/Corefine.h:Corefine", "include/kigumi/Find_defects.h:overlapping_faces", "include/kigumi/Face_face_intersection.h:points_"]}
{"id": "C42", "title": "Merging duplicate vertices preserves geometry", "statement": "The mesh analysed by Find_defects has pairwise distinct points, the same number of faces, and face i has the same three points as face i of the input.", "quantifier": "all soups with in-range faces", "why_tests_cant": "arbitrary meshes", "anchors": ["include/kigumi/Find_defects.h:merge_duplicate_vertices"]}
{"id": "C43", "title": "Overlap detection flags a mesh iff two faces overlap", "statement": "overlapping_faces() is non-empty iff some two non-degenerate faces intersect beyond their shared vertex/edge; each reported face overlaps a later face.", "quantifier": "all meshes, schedules", "why_tests_cant": "arbitrary meshes", "anchors": ["include/kigumi/Find_defects.h:overlapping_faces"]}
{"id": "C44", "title": "Adding vertices and faces is append-only", "statement": "add_vertex/add_face return consecutive indices, earlier points, faces and data never change, a new face starts with default data, and a region constructed from a soup without faces is rejected.", "quantifier": "all operation histories", "why_tests_cant": "histories", "anchors": ["include/kigumi/Triangle_soup.h", "include/kigumi/Triangle_mesh.h", "include/kigumi/Region.h"]}
{"id": "C45", "title": "parallel_do's threads do not race on the recorded exception", "statement": "No two workers of parallel_do ever access exception_ptr concurrently unless both only read it or both hold the mutex.", "quantifier": "all ranges, thread counts, interleavings and sets of throwing elements", "why_tests_cant": "a data race shows only under particular schedules", "anchors": ["include/kigumi/parallel_do.h:parallel_do"]}
{"id": "C46", "title": "Text readers only produce faces with existing vertices", "statement": "When read_obj, read_off or read_ply returns true, every vertex index of every face is smaller than the number of vertices. (Refuted: no reader checks the upper bound; it holds exactly for files whose polygons use declared vertices.)", "quantifier": "all files the readers accept", "why_tests_cant": "all byte strings", "anchors": ["include/kigumi/io/obj.h:read_obj", "include/kigumi/io/off.h:read_off", "include/kigumi/io/ply.h:read_ply"]}
{"id": "C47", "title": "The result of a Boolean operation on two solids is the set the operator denotes", "statement": "Let L and R be the boundaries of two solids A and B (meshes whose triangles meet at their sides only, with the solid behind every face), and let the mixed mesh consist of correctly tagged pieces of their faces. Then the Boolean operator never fails: it returns the empty region when no point off the boundaries is in the set of the README's operator table, the full region when every such point is, and otherwise a mesh which is again the boundary of a solid, and that solid agrees with the set at every point off the boundaries of A and B.", "quantifier": "all pairs of solids over exact rational coordinates, all correctly tagged arrangements of their faces, all 16 operators, both choices of the preferred operand", "why_tests_cant": "all solids and all points of space", "anchors": ["include/kigumi/Boolean_region_builder.h:operator()", "include/kigumi/Extract.h:Extract::operator()", "README.md:Table of Boolean operators"]}
{"id": "C48", "title": "Classification finds the right tag of every face of a conforming mesh", "statement": "Let L and R be the boundaries of two solids A and B, and let the mixed mesh consist of pieces of their faces that meet at their sides only (or coincide), with the edges along which the two boundaries meet as border edges (the sides of coinciding pieces need not be), and with no tags yet except for whole components of coinciding faces. Then local and global classification succeed without warnings, in every order of their parallel bodies, and give every face the tag that says where it lies: outside or inside of the other solid, or on its boundary with the same or the opposite orientation. Consequently the Boolean operators return the set they denote.", "quantifier": "all pairs of solids over exact rational coordinates, all conforming meshes, all orders of the border edges and of the faces", "why_tests_cant": "all solids, all meshes, all schedules", "anchors": ["include/kigumi/Classify_faces_locally.h:Classify_faces_locally", "include/kigumi/Classify_faces_globally.h:Classify_faces_globally", "include/kigumi/Mix.h:Mix::operator()"]}
{"id": "C49", "title": "The Boolean operations compute the sets of points that they denote", "statement": "Let two regions represent the sets A and B (empty, full, or the closed boundary mesh of a solid). Then building the Boolean operation (finding coincident and possibly intersecting faces, computing intersection points, cutting and triangulating the faces, mixing, local and global classification) and evaluating any of the 16 operators gives no warnings and returns a region that represents the set of the README's operator table at every point off the two boundaries; its boundary consists of points of the boundaries of the operands. The only failure is an exception when, for some point off the boundaries, all the rays that the side test shoots are ambiguous.", "quantifier": "all pairs of regions over exact coordinates whose boundary meshes are simplicial, whose shared edges are fair (an edge of both at which one operand has a face that is not shared also has such a face of the other; true if all edges have two faces), and whose coplanar overlaps are triangles (or are triangulated alike), all numbers of threads, all schedules and all orders of hash sets, all 16 operators, both choices of the preferred operand", "why_tests_cant": "all solids, all points of space, all schedules; composes every stage of the pipeline", "anchors": ["include/kigumi/Boolean_region_builder.h:Boolean_region_builder", "include/kigumi/Mix.h:Mix::operator()", "include/kigumi/Corefine.h:Corefine", "include/kigumi/Extract.h:Extract::operator()", "README.md:Table of Boolean operators"]}
{"id": "C50", "title": "The result of mixing does not depend on how the threads of the classification overlap", "statement": "The threads of local and global classification read and write the tags of shared faces without synchronisation. Nevertheless, on a mesh that conforms to two solids, every interleaving of their single accesses to tags ends, gives every face its right tag without warnings and gives the same mesh, so that the Boolean operations compute the sets that they denote under every schedule; the only failure is the exception of C49.", "quantifier": "all pairs of solids over exact coordinates, all conforming meshes, all numbers of threads, all interleavings of single reads and writes of tags (sequentially consistent memory)", "why_tests_cant": "a test sees the few schedules that the machine happens to take", "anchors": ["include/kigumi/Mix.h:Mix::operator()", "include/kigumi/Classify_faces_locally.h:Classify_faces_locally", "include/kigumi/Propagate_face_tags.h:Propagate_face_tags", "include/kigumi/Classify_faces_globally.h:Classify_faces_globally", "include/kigumi/parallel_do.h:parallel_do"]}
{"id": "C51", "title": "The threads of the classification do not race on the tags of the faces", "statement": "In no schedule is one thread of local or of global classification about to assign the tag of a face while another one is about to read or assign the tag of the same face.", "quantifier": "all pairs of solids, all conforming meshes, all schedules; for global classification all meshes", "why_tests_cant": "a data race shows only under particular schedules", "anchors": ["include/kigumi/Mix.h:Mix::operator()", "include/kigumi/Classify_faces_locally.h:Classify_faces_locally", "include/kigumi/Propagate_face_tags.h:Propagate_face_tags", "include/kigumi/Classify_faces_globally.h:Classify_faces_globally"]}
{"id": "C52", "title": "The result of a Boolean operation can be an operand again, and expressions compute the sets that they denote", "statement": "If the boundaries of two regions meet the conditions of README.md (no degenerate faces, no self-intersections), then so does the boundary of the result of every Boolean operation on them. Hence every expression made of Boolean operations, evaluated bottom up, gives a region without warnings that represents the set that the expression denotes off the boundaries of the given regions and meets the conditions too; the only failure is the exception of C49.", "quantifier": "all expressions of any depth over all 16 operators, all given regions (empty, full or with a boundary) over exact coordinates, all numbers of threads, all schedules of the threads of each operation", "why_tests_cant": "a self-intersection in a result is found only if the next operation happens to hit it; depths and schedules are unbounded", "anchors": ["include/kigumi/Boolean_region_builder.h:Boolean_region_builder", "include/kigumi/Extract.h:Extract", "include/kigumi/Mix.h:Mix::operator()", "README.md:Technical details"]}
{"id": "C53", "title": "The conditions of README.md suffice for Boolean operations on closed meshes", "statement": "If the boundaries of two regions are closed and meet the conditions that README.md lists (no degenerate faces, no self-intersections), whether they are manifold or not, then every Boolean operation on them gives a region that represents the set that the operation denotes.", "quantifier": "all pairs of regions with closed boundaries, manifold or not, that meet the listed conditions; all operators", "why_tests_cant": "the counterexample needs two meshes that have faces in common at an edge with four faces; tests with non-manifold meshes do not meet it by chance, and the wrong result comes without a warning", "anchors": ["README.md:Features", "README.md:Technical details", "include/kigumi/Propagate_face_tags.h:Propagate_face_tags::operator()", "include/kigumi/Find_possibly_intersecting_faces.h:Find_possibly_intersecting_faces::operator()", "include/kigumi/Corefine.h:Corefine::get_intersecting_edges", "include/kigumi/Mix.h:Mix::operator()"]}
{"id": "C54", "title": "Boolean operations work on open meshes that are clipped with a common convex region", "statement": "Let two regions be open (or closed) meshes that a convex region K cuts off, so that inside K they are the boundaries of the sets A and B, and let faces that have more than a point in common have it inside K. Then building the Boolean operation and evaluating any of the 16 operators gives no warnings and a region whose boundary consists of points of the two boundaries and which, inside K and off these, stands for the set of the operator. The only failure is an exception when, for some point of K off the boundaries, all the rays of the side test are ambiguous; whenever the side test answers for a point of K, the answer is right.", "quantifier": "all open convex regions K, all pairs of regions over exact coordinates clipped with K under the conditions of C49, all 16 operators, all numbers of threads, all schedules of the threads", "why_tests_cant": "all meshes, regions and points of space; whether a point is inside of an open mesh has no reference outside of the library", "anchors": ["README.md:Features", "README.md:Technical details", "include/kigumi/Boolean_region_builder.h:Boolean_region_builder", "include/kigumi/Mix.h:Mix::operator()", "include/kigumi/Side_of_triangle_soup.h:Side_of_triangle_soup"]}
{"id": "C55", "title": "Clipping open meshes with a common convex region suffices for Boolean operations", "statement": "If two open meshes are clipped with a common convex region and otherwise meet the conditions of README.md, then every Boolean operation on them gives a region that stands for the set of the operation inside the convex region.", "quantifier": "all open convex regions, all pairs of open meshes clipped with one and meeting the listed conditions, all operators", "why_tests_cant": "the counterexample needs two open meshes whose rims share an edge on the boundary of the convex region, and whether the tags come out right then depends on where the radial order around the edge starts; the wrong result comes without a warning", "anchors": ["README.md:Technical details", "include/kigumi/Classify_faces_locally.h:Classify_faces_locally::operator()"]}
{"id": "C56", "title": "Delaunay triangulations of overlapping coplanar faces fit together", "statement": "Two coplanar faces that overlap, one of each mesh, are triangulated independently of each other, and yet the triangles of one in the overlap are the triangles of the other, because both triangulations are constrained Delaunay triangulations that have the edges of the overlap among their constraints. So Boolean operations on meshes with coplanar overlapping faces come out right whatever the shapes of the overlaps.", "quantifier": "all pairs of meshes meeting the conditions, all schedules of corefinement, all constrained Delaunay triangulations of the faces (and all lowest triangulations for any heights)", "why_tests_cant": "a Delaunay triangulation is unique only if no four vertices are on a circle; tests with a few coplanar overlaps cannot tell whether both sides always choose the same diagonals, in particular with ties and with further constraints outside the overlap", "anchors": ["include/kigumi/Triangulation.h:Triangulation", "include/kigumi/Corefine.h:Corefine", "include/kigumi/Mix.h:Mix", "include/kigumi/Classify_faces_locally.h:Classify_faces_locally::operator()"]}
{"id": "C57", "title": "A mesh in which Find_defects finds nothing can be an operand", "statement": "Find_defects decides the conditions on operands of README.md: it reports no face iff the mesh has no degenerate faces and no self-intersections, and then it reports no edge iff the mesh is closed and consistently oriented. Two regions whose boundaries pass the check can be the operands of every Boolean operation. The check does not see whether the faces of all components point the right way (a component nested in another one may be inside out), so it does not imply that the mesh bounds a set of points (it does for connected meshes, see C58).", "quantifier": "all meshes, numbers of threads and schedules of Find_defects; all pairs of regions that pass, all schedules of the Boolean operation", "why_tests_cant": "that several independent reports together are equivalent to the conditions is a statement about all meshes, and a test can only show that meshes with particular defects are reported", "anchors": ["include/kigumi/Find_defects.h:Find_defects", "README.md:Technical details", "cli/defects_command.cc"]}
{"id": "C58", "title": "A connected mesh without defects is the boundary of exactly one set; others are iff one goes in and out by turns", "statement": "The faces of a closed, connected mesh without self-intersections separate space into two sides, one behind all faces and one in front of all faces, so there is a set of points with this boundary; and a region, connected or not, represents one set only (off its boundary). In general, a closed mesh without self-intersections bounds a set if and only if on straight ways through it one goes in and out by turns (never two more times in than out, or out than in). Hence a connected mesh in which Find_defects finds nothing stands for a definite set, and two such meshes (or unconnected ones that meet the criterion) can be operands of every Boolean operation with no further assumption on what they represent.", "quantifier": "all meshes of any genus and any number of faces; all regions and all sets they represent; all pairs of such regions and all schedules of the Boolean operation", "why_tests_cant": "it is a separation theorem (of Jordan-Brouwer type) about all closed polyhedral surfaces; testing points of some meshes cannot show that a set with the boundary exists", "anchors": ["include/kigumi/Region.h:Region", "include/kigumi/Boolean_region_builder.h:Boolean_region_builder", "include/kigumi/Find_defects.h:Find_defects", "README.md:Technical details"]}
{"id": "C59", "title": "Boolean operations on convex meshes do not fail", "statement": "The side of a point off a mesh is found whenever the point sees the centroid of at least one face (nothing of the mesh is in between), and off a convex mesh every point does, inside or outside. So with two convex operands that Find_defects accepts, the search for the side of a point never gives up, and every Boolean operation returns a region that represents the set that it denotes, without an exception or a warning, whatever the threads do.", "quantifier": "all meshes that bound a set and all points off them; all convex meshes (with faces pointing outwards or inwards) and all points off them; all pairs of checked convex regions, all sixteen operations, all numbers of threads and schedules", "why_tests_cant": "that no point anywhere off any convex mesh makes all rays ambiguous is a statement about infinitely many points and meshes, and the unlucky ones have measure zero", "anchors": ["include/kigumi/Side_of_triangle_soup.h:Side_of_triangle_soup", "include/kigumi/Classify_faces_globally.h:Classify_faces_globally", "include/kigumi/Boolean_region_builder.h:Boolean_region_builder"]}
{"id": "C60", "title": "When the side of a point is not found", "statement": "The side of a point off a closed mesh is found unless the point lies in one of finitely many planes: those through a side of a face and the centroid of a face, the planes of the faces among them. For a point in no plane of a face, Side_of_triangle_soup throws exactly if every ray towards a centroid is ambiguous. A Boolean operation on checked operands therefore gives the right result, or else throws because of a point in one of these planes. Claimed by the interface and false: that the side is found for every point off a mesh without defects, and that Boolean operations on two meshes in which Find_defects finds nothing never throw.", "quantifier": "all meshes that bound a set, all points off them, all pairs of checked regions, all numbers of threads and schedules, all results of CGAL that meet its documentation", "why_tests_cant": "the points at which the search fails have measure zero, so random tests do not meet them, and that there are no others is a statement about all points", "anchors": ["include/kigumi/Side_of_triangle_soup.h:Side_of_triangle_soup", "include/kigumi/Classify_faces_globally.h:Classify_faces_globally", "include/kigumi/Boolean_region_builder.h:Boolean_region_builder"]}
{"id": "C61", "title": "Intersections of convex bodies are convex, and chains of them do not fail", "statement": "The intersection of two regions whose boundaries are convex with faces pointing outwards is empty, full or again such a region; so is what a convex hole leaves of a convex body, and so on for the eight operations that amount to an intersection of the operands or of what they leave out. An expression of any depth made of convex bodies and holes and such operations, and whose given regions meet the conditions of README.md, therefore never throws and gives no warnings: whatever the threads do, its evaluation ends with a convex body or hole that meets the conditions and represents the set that the expression denotes. The result is a closed mesh, and Find_defects finds nothing in it that stands in the way of another operation.", "quantifier": "all pairs of regions with convex boundaries and all results of such operations on them; all expressions of any size made of such operations, all numbers of threads and schedules, all results of CGAL that meet its documentation", "why_tests_cant": "that no intermediate result of any chain makes all rays ambiguous is a statement about all chains and all points, and the unlucky points have measure zero", "anchors": ["include/kigumi/Boolean_region_builder.h:Boolean_region_builder", "include/kigumi/Side_of_triangle_soup.h:Side_of_triangle_soup", "include/kigumi/Extract.h:Extract"]}
{"id": "C62", "title": "Equal expressions give equal regions", "statement": "If two expressions made of Boolean operations denote the same set, and their evaluations end without an exception, then they give the same region: of the same kind, with the same points on its boundary and the same points inside, though its boundary may be cut into triangles differently. So the laws of the algebra of sets hold between computed regions (commutativity, associativity, distributivity, De Morgan's laws for differences, absorption, idempotence), whatever the numbers of threads and schedules were.", "quantifier": "all pairs of expressions of any size over regions that represent sets and meet the conditions of README.md, all evaluations of them with any numbers of threads and schedules, all results of CGAL that meet its documentation, all points", "why_tests_cant": "meshes that bound the same set can differ in every triangle, so equality can only be sampled at points, and the law is about all points, all operands and all schedules", "anchors": ["include/kigumi/Boolean_region_builder.h:Boolean_region_builder", "include/kigumi/Mix.h:Mix", "include/kigumi/Extract.h:Extract", "include/kigumi/Boolean_operator.h:Boolean_operator"]}
{"id": "C63", "title": "Results are watertight", "statement": "The boundary of every region that represents a set and meets the conditions of README.md is watertight: along every edge as many faces run in the one direction as in the other. So the result of every expression made of Boolean operations that ends without an exception is watertight, and Find_defects reports no boundary edges, no edges with inconsistent orientation, no degenerate and no overlapping faces on it; the edges it does report are ones where an even number of faces, at least four, meet. If no two faces of it run along an edge in the same direction, it is a closed mesh.", "quantifier": "all regions that represent a set and meet the conditions, all expressions of any size over them, all evaluations with any numbers of threads and schedules, all results of CGAL that meet its documentation, all pairs of points", "why_tests_cant": "a hole in a result appears only for particular arrangements of the operands; the property is about the edges of all results of all chains of operations", "anchors": ["include/kigumi/Boolean_region_builder.h:Boolean_region_builder", "include/kigumi/Extract.h:Extract", "include/kigumi/Find_defects.h:Find_defects", "include/kigumi/Mix.h:Mix"]}
{"id": "C64", "title": "Volumes of results add up", "statement": "For the results of one Boolean_region_builder, whatever the operator, the volume of the result (the sum of the signed volumes of the tetrahedra between its faces and the origin) is the combination of the volumes of the operands and of their intersection that counting points gives: volume of the union plus volume of the intersection is the sum of the volumes of the operands, the volume of the difference is that of the first operand minus that of the intersection, and so on for all sixteen operators; complements have the opposite volume. The same holds for every sum over the faces of a function that changes its sign when a face is turned around. For operands that are solids and meet the conditions of README.md, the volumes of the operands are those of the operands as given, and the choice of the preferred operand does not matter: cutting the faces into pieces and choosing among faces that lie on each other keeps the volumes. So regions that represent sets without common points have volumes that add up to that of their union, and regions that represent the same set have the same volume, however differently their boundaries are divided into faces. The volume of a region does not depend on the choice of the origin, and is positive if a point lies behind all faces. The volume of a convex body is positive, so the union of two convex bodies has at most the sum of their volumes, and exactly that if and only if they do not overlap. The volume of an expression that puts disjoint parts together and takes parts away from what contains them is what the volumes of the given regions add up to.", "quantifier": "all mixed meshes with any classification of their faces, all sixteen operators, both preferences, all functions of triangles that change their sign when the triangle is turned around; for the last part all pairs of regions that meet the conditions and all executions of Mix on them", "why_tests_cant": "it is an equation between the results of several operations for all meshes and all classifications; a test compares a few volumes up to rounding", "anchors": ["include/kigumi/Boolean_operator.h:union_mask", "include/kigumi/Extract.h:Extract", "include/kigumi/Boolean_region_builder.h:Boolean_region_builder", "include/kigumi/Mix.h:Mix"]}
