# Formal model of kigumi in Rocq (Coq 8.16.1)

## Layout

* `rocq/theories/Model_*.v` – the model: total Gallina functions, each with a
  comment citing the file and lines of `/repo` it models and the
  simplifications made. No proofs.
* `rocq/theories/Spec_*.v` – small specifications, independent of the model.
* `rocq/theories/Proof_*.v` – lemmas.
* `rocq/theories/Prop_*.v` – the property theorems, each closed by
  `exact lemma`, followed by `Print Assumptions`, with an `Example` giving a
  concrete case that meets the hypotheses.

Naming: theorem `Cnn_...` states property Cnn of `properties.jsonl`.
`..._refuted` proves that the property as stated is false of the code (with a
witness); `..._partial` proves a part and says in a comment what is missing.

## General modelling decisions

* `std::vector` = `list`; `.at(i)` = checked access returning
  `Throw OutOfRange`; reading through a dangling reference, signed overflow,
  division by zero in GMP and data races are the outcome `UB`, distinct from
  all others.
* In-memory indices are `nat` (the sentinel `Index{}` = SIZE_MAX is `None`);
  in the readers/writers they are `N`/`Z` with explicit wrap-around modulo 2^64
  and checked 32-bit narrowing.
* Concurrency: small-step interleaving semantics with an arbitrary scheduler
  (every list of thread choices); mutex sections and atomic operations are
  single steps; data races are discussed separately.
* CGAL, Boost, the C++ standard library and fast_float are not modelled
  beyond the contracts stated in the comments. They enter as explicit function
  arguments (oracles), quantified universally in the theorems, with only the
  contract stated as a hypothesis.

## Per-property plan

| id | model | proof |
|----|-------|-------|
| C01 | `Boolean_operator.h` tables, per-face selection of `Extract.h` (Model_boolean) | finite case analysis against truth tables of the set expressions and a two-sided jump specification |
| C02 | `Extract::operator()` as a fold with vertex map (Model_boolean) | invariant over the fold |
| C03 | builder fall-back + C01/C02 over an abstract cell arrangement (Spec_boolean.`arrangement`) | connectivity induction |
| C04 | `Boolean_region_builder` constructor/operator for special regions | case analysis + C02 |
| C05 | same | case analysis lifted to lists |
| C06 | `Mix.h`, `Corefine::get_*_faces` (Model_mix), any interleaving of the tag writes; faces of a triangulation as oracle with the contract `cdt_correct` | induction on faces, composition with C38 and C02; the contract is met by the triangulation of Proof_fan.v |
| C07,C08,C09 | `Triangle_mesh::finalize`, CSR arrays, the two iterators as state machines (Model_mesh) | CSR invariant, sorted merge lemma, iterator unrolling |
| C10,C11 | BFS loops with fuel, fuel exhaustion a distinct outcome (Model_classify) | reachability invariants; C11 refuted in general, proved under the closure precondition |
| C12 | radial bin and orientation on exact coordinates (Model_local, Model_geometry) | order theory of the cross product; angle form over the reals |
| C13,C14 | `Classify_faces_locally::operator()` after sorting (Model_local) | sector-parity invariant |
| C15,C16,C45 | `parallel_do` interleavings (Model_parallel_do) | inductive invariants over all schedules; C45 by a schedule with a race |
| C17 | `parallel_sort` phases with barrier (Model_parallel_sort, Model_forkjoin) | merge invariant over rounds, all schedules |
| C18 | `Context`, `Threading_options` (Model_context) | structural induction over well-nested programs |
| C19,C20 | `Point_list`, `Intersection_point_inserter` state machines (Model_points) | invariants over histories |
| C21,C22 | hash join and box join (Model_candidates) | exactness; permutation under schedules |
| C23 | node array, build, traverse (Model_aabb) | layout induction |
| C24 | `Side_of_triangle_soup` over exact rationals, tree queries through C23 (Model_side) | loop analysis, nearest-hit specification |
| C25-C27 | byte-level codec (Model_binary) | round-trip lemmas; prefix lemma; refutations |
| C28-C31,C46 | character-level readers/writers, number text conversion of doubles as oracle (Model_text) | round-trip on strings; refutations for C46 |
| C47 | the result of `run` (Model_boolean) placed in space; solids, pieces and true tags as a geometric specification (Spec_solid) | a walk that avoids the faces of the result never changes membership: perturbation of the walk to general position, one crossing at a time |
| C48 | `classified` (Model_mix: both phases of classification, one body after another); conforming meshes as a geometric specification (Spec_conform) | the sectors around a border edge alternate between the solids (fan of faces in a plane), propagation keeps tags right, the centroid decides for the remaining components; composed with C47 |
| C49 | `mixes` (Model_mix), `build`, `run` (Model_boolean) with `corefine`, the constrained triangulation as an oracle; `represents`, `is_result` (Spec_whole) as sets of points | corefinement never fails (C38), the cut pieces form a `conforming` mesh (Proof_cut_*, Proof_whole), C48 classifies it, C47 reads off the sets; the side test may give up, which is a disjunct of the conclusion; instantiated with two crossing tetrahedra (Proof_whole_ex, Prop_whole_ex) |
| C50 | the bodies of the two classification phases as programs of single reads and writes of tags (Model_schedule); every interleaving of them | rely-guarantee: whatever is written is the right tag, so a thread may assume that tags only change from unknown to right (Proof_schedule*); termination because programs are finite trees; the sequential executions of C49 are among the schedules (Proof_schedule_seq) |
| C51 | as C50; a race is a state where one thread's next access is a write and another's next access is to the same face (Spec_race) | refuted for local classification by the two tetrahedra of C48; proved that racing writes write the same tag; proved for global classification, whose threads stay in different components (Proof_schedule_race) |
| C52 | as C50, plus expressions of Boolean operations and all their evaluations (Spec_again, `evaluates` in Prop_again); the side conditions of C49 (fair edges, triangulation, overlaps) are asked of every pair of regions that an evaluation combines | the mixed mesh conforms (C49), so two of its faces that meet share a feature (Proof_again); extraction keeps and turns faces; induction over the expression; that a boundary determines its solid (C47_boundary_determines_the_set) follows from the symmetric difference of a mesh with itself (Proof_unique) |
| C53 | as C49 without the condition `fair_edges`; one execution with a single thread as a function (Proof_one_run), shown to be an execution of the model | refuted: two tetrahedra that share an edge and a polyhedron that has two faces in common with one of them (Proof_touch); the execution is computed, the tag COPLANAR is propagated across the shared edge and the difference comes out empty; the meshes bound solids because convex polyhedra do and disjoint solids can be united (Proof_convex), and do not self-intersect because planes separate their faces (Proof_planes) |
| C54 | as C49 and C50, with sets that a convex region cuts off (`solid_in`, `represents_in`, `is_result_in` in Spec_open; C24, C47-C50 are proved for these and follow for all of space) | the theory of solids only walks and perturbs inside the convex region: segments stay in it by convexity, small perturbations by openness; an edge of the mixed mesh with two faces lies on the common part of two faces of the operands, or between two pieces of one, so its middle is inside (Proof_inner_edge, Proof_open_shared); rays toward a face stay inside up to the first face (Proof_side, Proof_probe) |
| C55 | as C54 without the condition `meet_inside`; one execution as a function (Proof_one_run) | refuted: two triangles in a prism that share an edge on its boundary (Proof_sheet); the two faces around that edge are neighbours twice, and the pair on the wrong side is assigned last |
| C56 | constrained Delaunay triangulations (Spec_delaunay); regular triangulations as the lowest faces over lifted vertices | the pieces of an overlap of two coplanar faces are the same in both triangulations: at an interior point in common the piece of either is below that of the other (Proof_delaunay), so the lifted corners agree, and without ties so do the corners; Boolean operations as C49 without its assumption on overlaps; with ties refuted: one concrete execution (Proof_delaunay_ex) where two Delaunay triangulations take different diagonals of a cyclic quadrilateral |
| C57 | the constructor of Find_defects (Model_find): all its reports in one run | the reports of C32, C33, C42 and C43 together are equivalent to the conditions of README.md (Proof_find: two faces that do not overlap conform, and the other way round) and to closedness (Spec_find); so C56 needs no assumption on edges and self-intersections for meshes that pass; that the check does not imply that a set is bounded is shown by nested tetrahedra |
| C58 | no more code: closed meshes (Spec_find), connectedness over edges, and the sets that regions represent (Spec_solid, Spec_whole) | a linking identity for two triangles (Proof_link: the sides of one pass through the other as often as the other way round) makes the number of signed crossings of a closed mesh along a path independent of the path (Proof_winding); it is constant over open faces and over edges (Proof_hinge, Proof_twosides), so for a connected mesh the points that one crossing reaches are the set (Proof_separate); uniqueness by walking from any point to a face (Proof_oneset); the criterion for meshes of several components compares the numbers of times one goes in and out (Spec_balance) with the signed crossings (Proof_balance, Prop_balance); examples: a torus, two tetrahedra apart from each other, and a nested component that is inside out, which does not meet the criterion |
| C59 | no more code: which centroids a point sees and what a convex mesh is (Spec_visible), on top of Side_of_triangle_soup (Model_side) and everything that C58_end_to_end covers | a ray towards a centroid that is seen first meets one face only, so it is not ambiguous (Proof_visible); a point in front of a face sees its centroid, a point behind all planes sees the centroid of a face whose plane does not contain it, and no point is in all planes because one could then walk around the mesh from behind a face to its front; the search therefore succeeds; on a straight way one goes into a convex mesh at most once, so it meets the criterion of C58 (Proof_convexturns); and with C58_end_to_end (Prop_end) so do all operations (Prop_visible); example: two tetrahedra with a face in common, with an actual ray test, AABB trees and all schedules |
| C60 | no more code: the planes in which a point can be unlucky (Spec_lucky), on top of Side_of_triangle_soup (Model_side) and everything that C58_end_to_end covers | an ambiguous ray meets two faces in one point, so it passes through a side of a face, and the point is in the plane of that side and the centroid aimed at (Proof_lucky, at most 3 n^2 planes for n faces); a point in no face plane whose rays are all ambiguous makes every probe give nothing (Proof_giveup); counterexample for one point: three thin tetrahedra around the origin that hide each other's centroids (Proof_sticks); counterexample for all Boolean operations: these and a tetrahedron with a face whose centroid is the origin, for every schedule and all CGAL functions that meet the specifications (Prop_lucky_ex), with an actual run |
| C61 | no more code: convex bodies and expressions made of intersections (Spec_meet), on top of everything that C52_expressions_with_rays covers | off the planes of its faces a convex body is the set of the points behind all planes (Proof_meet, body_below, behind_in); right behind a face of the result one is in both bodies, so the surface of the result is behind all their planes, and a surface point in front of a face of the result would allow a way from that face into both bodies but out of the result (meet_convex); holes by turning all faces around (turned_soup); chains by induction with C52_result_meets_the_conditions for one step and convex_sees for the side of a point; the result is closed since two faces of a convex body with the same directed side are in one plane, and either overlap or hide each other (Proof_closed, sides_overlap) |
| C62 | no more code: when two regions are the same (Spec_same), on top of everything that C52 covers | a boundary point of one region that is not one of the other could be left in a general direction to both sides of a face, staying off the other boundary and off all given triangles, and the two sets would differ (Proof_same, surface_within); a point off the boundary is moved off the given triangles (sides_same); the laws by deciding membership in each operand |
| C63 | no more code: when a mesh is watertight (Spec_watertight), on top of what C52 and C57 cover | along an edge the set does not change when one walks once around the edge on a small polygon, and every face at the edge that the polygon crosses adds or takes away one according to its direction, so the two numbers are equal (Proof_watertight, around_edge); that Find_defects reports nothing else follows from C22 and C57 |
| C64 | no more code: sums over the faces of a mesh and volumes (Spec_volume) | by C02 every result is a selection of the faces of the mixed mesh, kept or turned around; per face and operator the number of times it is used is a combination of those for the operands and the intersection (case analysis over operators, tags and preferences), and sums are linear; for the operands as given: areas of the triangles of a tiling add up (Proof_area: by cutting the plane into strips in which all sections change linearly; no measure theory), so do the volumes of cones over them (Proof_tiling_area); in an arranged mesh (C50) the pieces tile the faces, and the pieces that lie on each other are paired (Proof_arranged_volume); for sets: by C62 an operation that denotes no points gives a region without boundary, so of volume 0; the origin does not matter because regions are watertight (C63), so that what moving it changes cancels along every edge; for convex bodies: seen from a point of the boundary no cone has a negative volume, and seen from a point right behind a face, all are positive; for expressions: by induction, with C52 for the operands and C62 for the intersection that the same builder would give |
| C32-C34,C42,C43 | `Find_defects.h` (Model_defects, Model_overlap) | counting lemmas, geometry of overlaps over the rationals |
| C35 | `Dense_undirected_graph.h` (Model_graph) | DFS invariant |
| C36,C37 | `Face_face_intersection.h`, `Triangle_region.h` over exact rationals (Model_ffi, Model_region) | determinant identities, extreme points of the intersection |
| C38 | `Corefine.h`, `Triangulation.h` (Model_corefine), acceptance of constraints as oracle | composition of C15, C19-C22, C36; one id per point of the intersection |
| C39 | CLI drivers over an abstract file system (Model_cli) | case analysis/induction on outputs (Prop_cli); that outputs can be read again, from the round trips C25 and C28 to C30 (Prop_cli_mesh) |
| C40,C44 | soup histories with the cached box tree (Model_cache) | induction over histories; C40 refuted for the stale cache, proved for histories without it |
| C41 | thread_local objects across computations (Model_reuse) | refutation + invariants for the safe histories |

Every property can be expressed in the model; properties (or parts) that are
false of the code are stated as `_refuted` theorems, with the part that does
hold as `_partial`.

## What is assumed of code that is not modelled

These enter the theorems as hypotheses on function arguments, never as axioms.

* Numbers: CGAL's `Epeck` points are values of a type with decidable equality and
  exact rational coordinates; predicates and intersection points are exact
  (`exact_kernel` in Prop_corefine.v; instantiated by canonical fractions in
  Proof_exact.v). Lazy evaluation and the non-thread-safety of its caches are not
  modelled.
* `boost::sort`/`std::sort`/`std::nth_element` rearrange and (where used) sort.
* CGAL's constrained triangulation: rejects a constraint by an exception or accepts
  it (`cdt_accepts`); its faces tile the triangle of the first three vertices
  (`cdt_correct` in Spec_mix.v; instantiated in Proof_fan.v). For C38_never_fails it
  accepts constraints that do not cross (`accepts_compatible` in Spec_cut.v), and for
  C49 the constraints are edges of the triangulation (`cdt_constrained` in Spec_cut.v;
  instantiated in Proof_fan4.v and Prop_whole_ex.v).
* C49 also assumes that two coplanar overlapping faces are triangulated alike
  (`triangular_overlaps` implies it: there is then nothing to choose; so does
  `cdt_delaunay` when no four vertices of an overlap are on a circle, C56) and that shared
  edges are fair (`fair_edges` in Spec_cut.v).
* Hash containers: a set/map with some iteration order; theorems hold for each order
  where the order can be observed.
* Text of numbers: `fast_float` and `operator<<` as a pair of functions with the
  round-trip contract stated in Spec_text.v.
* The file system of the CLI: a map from names to contents or failures.

## What is modelled, by file

| file | model |
|------|-------|
| `Boolean_operator.h`, `Extract.h`, `Boolean_region_builder.h`, `Region.h` | all of it (Model_boolean, Model_soup); data types of faces are abstract |
| `Mix.h` | all of it (Model_mix); in C06 races between the threads of the local classification are any sequence of tag writes, in C48 and C49 the threads run one after another in any order, in C50 they interleave (Model_schedule), with sequentially consistent memory: C++ itself leaves executions with a data race (C51) undefined |
| `Corefine.h`, `Triangulation.h`, `Intersection_point_inserter.h`, `Point_list.h`, `Find_coplanar_faces.h`, `Find_possibly_intersecting_faces.h` | all of it (Model_corefine, Model_points, Model_candidates) |
| `Face_face_intersection.h`, `Triangle_region.h` | all of it (Model_ffi, Model_region) |
| `Propagate_face_tags.h`, `Classify_faces_globally.h`, `Classify_faces_locally.h`, `Warnings.h` | all of it (Model_classify, Model_local) |
| `Triangle_mesh.h`, `Mesh_iterators.h`, `Mesh_indices.h`, `Triangle_soup.h`, `mesh_utility.h` | all of it (Model_mesh, Model_soup, Model_cache) |
| `AABB_tree/*`, `Side_of_triangle_soup.h` | all of it (Model_aabb, Model_side) |
| `parallel_do.h`, `parallel_sort.h`, `Context.h`, `threading.h` | all of it (Model_parallel_do, Model_parallel_sort, Model_context), sequentially consistent memory |
| `Find_defects.h`, `Dense_undirected_graph.h` | all of it (Model_defects, Model_overlap, Model_graph, Model_find) |
| `io.h`, `Region_io.h`, `Triangle_soup_io.h` | all of it (Model_binary), numbers as text by an oracle |
| `io/ascii.h`, `io/obj.h`, `io/off.h`, `io/ply.h` | all of it (Model_text), numbers by an oracle |
| `cli/` | the commands (Model_cli); option parsing by Boost is not modelled |
| `tests/`, `benches/`, `meshes/`, `cmake/`, `docs/`, `tools/` | not modelled |

## Trusted base

* Coq's kernel (8.16.1, including its `vm_compute` reduction machine).
* The correspondence between the model and the C++ source, stated in the
  comments of the `Model_*.v` files.
* `Print Assumptions`, printed in the build log for every property theorem, says
  "Closed under the global context" for all of them except
  * `C12_ordered_by_angle`: `ClassicalDedekindReals.sig_not_dec`,
    `ClassicalDedekindReals.sig_forall_dec`,
    `FunctionalExtensionality.functional_extensionality_dep`;
  * `C12_angle_exists`: the same and `Classical_Prop.classic`.

  These are the axioms of the standard library's real numbers; they are used to
  speak of angles only. No other library's axioms are used and none is added.
