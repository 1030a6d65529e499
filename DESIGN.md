# RAINBOW formal model: design

## What is modelled and how

Shallow, function-by-function Gallina models of the Python functions in
/repo/rainbow.  One model file per source module (`theories/*Model.v`); every
definition cites file and lines.  Proofs live in `*Proofs.v`; the property
theorems live in `Prop_*.v`, which contain only statements, `exact lemma`,
`Print Assumptions`, and non-vacuity examples.  Mathematical vocabulary the
statements need (rotation matrix, closest point, proper colouring, ...) lives in
`*Spec.v`, written without reference to the model.

Modelling conventions
* float64 -> Coq's real numbers `R` (exact arithmetic).  Rounding, overflow and
  NaN are outside the model (except `inf`, which is modelled explicitly where
  the code stores it: k-DOP slabs, initial merit values).  Python `int` -> `Z`/`nat`.
* numpy arrays -> lists / records; in-place mutation -> returned new value;
  aliasing is modelled where it is observable (spatial hash `insert`).
* exceptions/asserts -> `option`/`result` values.
* external solvers (np.linalg.solve, lstsq, eig, igl, networkx, random) ->
  arguments or oracles with their contract as a hypothesis of the theorem.
* loops -> structural recursion or folds; `while` -> fuel returning `None` when
  exhausted, with theorems that enough fuel exists.

## Trusted base

* Coq 8.16.1 kernel (and `vm_compute` where used).
* Axioms: only those of the standard library's reals and logic
  (`ClassicalDedekindReals.sig_forall_dec`, `ClassicalDedekindReals.sig_not_dec`,
  `FunctionalExtensionality.functional_extensionality_dep`, and `Classical_Prop.classic`
  where trigonometry/analysis lemmas pull it in).  `Print Assumptions` is printed under
  each property theorem.  No theorem lists anything else.
* Faithfulness of the hand translation from Python; exact-real abstraction of floats.
* Coquelicot (lemmas on integrals, derivatives and limits; axiom-free over the standard
  reals) is used in ExpDeriv, TetIntegral, IkDeriv, FdLimits, IkCont.

### Outside the model

* Rounding, overflow, NaN.  Where Python would produce inf/NaN from a division by zero
  the model returns `None` ("raises or produces a non-number"); theorems that say a call
  succeeds therefore also say that no such division happens.
* External code: `np.linalg.eig`, `np.linalg.solve`, `igl.signed_distance`,
  `scipy` convex hulls, `networkx`, `numpy.random`, hash functions, are parameters of the
  model; what a theorem assumes of them is among its hypotheses.
* Not modelled at all: USD export, the scene builders other than ground, box stack, hinge chain, lattice, tower, arch, colosseum, pillar, sandbox (not the hulls of its grains), poles, jack lattice (not the contents of the mesh files; of glasses, funnel and rock slide only the fitting of the meshes) and read_urdf, the text of URDF files (the document is a tree of tags) and writing of the file to disk (the text of scene files is modelled, see XmlModel), plotting,
  GUI and command-line apps, `util/viewer`, timers and logging (they do not change the
  modelled state), numba/parallel execution order except where a property is about it (C42,
  C45, C47).

### Map of model files

| model file | source |
|---|---|
| VecModel, QuatModel, RotModel | math/{vector3,matrix3,quaternion,coordsys,euler,expmap,angle}.py |
| PolyModel, UtilModel | math/polynomial.py, math/functions.py, util/* data structures |
| BvhModel | geometry/{aabb,kdop,kdop_bvh}.py |
| GridModel, BaryModel, HashModel | geometry/{grid3,barycentric,tetrahedron,spatial_hashing}.py |
| SurfModel, VolModel | geometry/{surface_mesh,volume_mesh}.py |
| ProxModel, SolverModel, ColorModel | simulators/proximal_contact/*.py and the rigid solver |
| RigidTypes, CollModel, StepModel, MassModel, ApiModel | simulators/prox_rigid_bodies/*.py |
| IkModel | simulators/inverse_kinematics/*.py |
| MechModel | simulators/prox_soft_bodies/mechanics.py, polar decomposition of math/matrix3.py |
| FemModel | simulators/prox_soft_bodies/solver.py 13-458 and the energies |
| SoftModel | the rest of simulators/prox_soft_bodies/{types,api,solver}.py |
| SoftCollModel | simulators/prox_soft_bodies/collision_detection.py |
| CurvModel | geometry/mean_curvature.py |
| SceneModel, PillarModel, SandboxModel, PolesModel, FitModel, JackModel | math/functions.py (PCA), prox_rigid_bodies/api.py (create_mesh), prox_rigid_bodies/scenes/ |
| UrdfModel | prox_rigid_bodies/scenes/read_urdf.py |
| XmlModel | prox_rigid_bodies/scenes/write_xml.py |
| StringModel | util/parse_string.py, from_string and check_string of math/{vector3,quaternion}.py |

## Plan per property

(The first column is the plan as made before the proofs; the present status of every
property is in MANIFEST.json.)

| id | modelled as | proof idea |
|---|---|---|
| C01-C05 | quaternion record over R, branch-by-branch `from_matrix` | `ring`/`nsatz`/`field` identities plus case analysis on the trace branches |
| C06 | CoordSys record | corollaries of C02/C04 |
| C07 | vector record, tie branches in code order | bound of the smallest component, cross product identities |
| C08 | booleans on R comparisons | case analysis |
| C09-C13 | sin/cos/atan from Coq.Reals, atan2 defined from atan | trigonometric identities, derivable_pt_lim |
| C14,C15 | list of power pairs, fold for evaluate | list induction, derivative of monomials |
| C16,C17 | state machines | refinement / invariant over all histories |
| C18,C19 | lists of vectors, extended reals for slabs | induction over lists |
| C20-C22 | node array model of `_make_sub_tree`, BFS queue with fuel | induction over ranges, invariant on queue |
| C23-C27 | grid record, Z indices | arithmetic, convexity, derivative; C26 expected false (division by min_coord) |
| C28-C32 | records over R, linear solve as oracle | Cramer identities; C32 interior part expected false (count_nonzero == 3) |
| C33-C38 | index arithmetic over nat/Z lists | injectivity of index maps, permutations |
| C39 | heap of mutable cells with aliasing | invariant; expected findings (stale list, self in list) |
| C40-C44 | solver as state machine over arbitrary sweep operators | invariants; Jacobi variant expected to violate the cone |
| C45-C47 | graphs as adjacency relation; random choices as oracle | invariants over rounds; C47 expected false |
| C48-C64 | engine record with association lists | refinement/invariants, algebra |
| C65-C68 | as C09-C15 | derivative of the exponential map, Gram-Schmidt, atan2 identities; C68 refuted (dropped sign) |
| C69 | igl.signed_distance as a parameter | bounding-box induction, grid index arithmetic |
| C70-C72 | generators as index maps over nat | trigonometric identities, face orientation by determinant signs |
| C73, C74 | soft-body narrow phase over the mutable hash grid of C39 | invariant over insertions, cell covering lemma; C74 refuted |
| C75-C79 | whole step as one function on engines, signed distances and stopping test as in the code | totality along every history, invariants of the stored contacts; C78, C79 refuted |
| C80-C82, C61, C62 | signed tetrahedra / point masses; eig as a parameter | algebra of second moments, iterated integrals (Coquelicot) |
| C83-C86 | API calls as engine transformers returning Done/Raised with the engine left behind | induction over call histories; C83, C85, C86 partly refuted |
| C87-C90 | skeleton = list of bones with parent index and children; recursion with fuel = number of bones | tree invariant over histories, fuel sufficiency |
| C91-C95 | Jacobian/Hessian assembled entry by entry as in the code | derivative of rotations about a moving axis, composition along the chain; mean value theorem for the difference quotients; C93, C95 refuted |
| C96-C100 | constitutive functions on 3x3 matrices, None = raises; np.linalg.eigh as parameter | directional derivatives (Coquelicot in proofs), uniqueness of the polar factors; C98, C99 refuted |
| C101-C105 | element arrays as lists of 4x4 blocks, nodal vectors as functions of the node | bilinear forms per element summed over the mesh |
| C106-C110 | whole-mesh force and energy functions | chain rule through F = D D0^-1, work of nodal forces; C106 (neo-Hookean), C108, C109 refuted |
| C111-C118 | the soft-body engine as a record, the stepper and the API calls as functions returning SDone/SRaised with the engine left behind; collision detection, contact solver and sparse inverse are parameters | invariant over histories; virtual-work form of a step (test vector field constant / rotation) for momentum; C116, C117 partly refuted |
| C119, C120, C124, C125 | as above | rest configuration has no elastic force (C107) + injectivity of the mass matrix (C102); commutation of a step with the flag; refuted parts with a one-tetrahedron world reached through the API |
| C126 | SolverModel (all four sweeps), LawSpec | fixed points blockwise: projection on the half line and on the disc (prox) characterised by variational inequalities; perturbation bound for the stopped iterate; refuted with Delassus matrix diag(1,1,4,1) |
| C127, C128 | StepModel + SolverModel | the residual of the posed problem is the relative velocity after the step (row by row, from the Jacobian rows of C52); energy balance p.v' - p.W.p/2 with W positive semidefinite |
| C129 | StepModel | as C127 for the joint rows; refuted with a concrete three-body engine in which both problems are solved exactly |
| C130 | CollModel, BvhModel, GridModel | converse of C77: refit gives a hierarchy of the world triangles (C21), traversal reports every pair with a common point (C22), both orders of the pair, reduction keeps a duplicate (C53) |
| C131 | StepModel | decomposition of a step with post-stabilisation; rows of the projection problem (contact Jacobian of C51); fixed points of the sweep of the projection problem |
| C132, C135 | SoftCollModel | reading the pipeline backwards: every reported contact comes from one pair of triangles; barycentric round trips (C29); reduction as an invariant of the fold |
| C133 | SoftCollModel | unturned tetrahedron: edge matrices are equal; refuted with two tetrahedra turned by 90 degrees, reached through the API |
| C134 | SoftCollModel, BvhModel, HashModel | as C130 with refit (C21) and traversal (C22), or with the hash grid (C73); refuted part: two bodies 1/20 apart in both modes |
| C136 | CurvModel, GridModel | the loop stores at distinct places (C23); difference quotients are exact on quadratics; divergence of the unit normal by Coquelicot derivatives |
| C137 | SceneModel, SurfModel | axis_sort (C38) gives permutations; the variance is the quadratic form of the covariance, bounded by the largest eigenvalue in an orthonormal basis; refuted by two points |
| C138 | SceneModel, ApiModel | the builder as a sequence of API calls: each call's effect on the end of the body list, induction on the loop; mass properties of a box and eigenbasis of diagonal matrices; convex hulls as intersections of half spaces |
| C139 | SceneModel, ApiModel | as C138 |
| C140 | SceneModel, ApiModel, StepModel | as C138, then induction on the hinge loop with C59 |
| C141 | SceneModel, ApiModel | induction on the list of cells (lay_all_ok); a body lies in the ball of radius rho around its cell centre, two centres differ by a cell edge in some coordinate of the lattice frame |
| C142 | SceneModel, ApiModel | the wedge is a good stone (SceneTrap: volume, moments, star-shape); place_finish_ok and builder_result; two points with angles less than alpha from directions that differ by at least 2 alpha are different (sector_apart) |
| C143 | StringModel | numerals and their values as a separate record (StringSpec); the ordered-choice parsers on the text of a numeral by what may follow it, induction on the list; inversion of every parser for the converse |
| C144 | StringModel, RotModel | as C143 |
| C145 | StringModel | refuted: the parser stops after the zero, in front of a digit that no continuation accepts |
| C146 | SceneModel, ApiModel | the wedge of the ring is a good stone although its centre of mass is off the z- and x-axis: the products of inertia cancel when moved to the centre (SceneWedge); place_all_ok twice, finish_all_ok; polar coordinates of the points of a wedge, equal points have equal angles |
| C147 | SceneModel, ApiModel | a general lemma about builders called one after another (each_named_ok: what is said about the bodies of one call stays true because later calls do not change them), with C146 and C142 for the calls; sector argument of C142 between the arches of a level |
| C148 | UrdfModel, SceneModel, ApiModel | the parsers are functions of the tags, inverted into the relations of UrdfSpec; induction over the links (load_links_done) and joints; the traversal only changes poses and sockets of what was read (moved, untouched); refutation: the result is equal for the document without the attributes |
| C149 | UrdfModel, SceneModel, ApiModel | invariant of the stack traversal (UrdfWalk.inv): the links placed so far are the root and the children of a set of joints closed under the visited links; frames as an inductive relation, unique because every child has one parent; counting argument for termination; completeness from make_shape-like totality lemmas |
| C150 | UrdfModel, ApiModel | as C149, with C59 for the sockets that set_hinge computes |
| C151 | XmlModel, ApiModel | the writer as tree building followed by serialisation; an XML reader given as a relation (XmlSpec.file_reads); escaping is inverted character by character; the tree that is read is compared with the engine element by element; written iff complete by the well-formedness invariant of reachable engines; refutation by computing the text of the attribute and the fact that no attribute that is read contains < |
| C152 | XmlModel, ApiModel | the reader is deterministic and the printed attributes are injective under the hypothesis on the printer, so equal files give equal trees and equal scenes; the converse by congruence; refutation by two scenes that differ in one position |
| C153 | XmlModel, ApiModel | C151 for the element of the hinge, C59 for the sockets |
| C154 | SurfModel, MassSpec | ring lookup in the vertex array, mesh sum as sum over slices of bands, rotation covariance of tetrahedron moments, vanishing polygon sums (telescoping trigonometric sums), telescoping along the profile |
| C155 | PillarModel, SceneModel | truncated cones are good stones (SceneConical: injectivity of angles, covariance by vanishing polygon sums), induction over parts that are made and placed alternately, levels ordered by height; the second moments of C154 make the drums counted stones, so the scene is ready to simulate |
| C156 | SandboxModel, SceneModel | lattice theorem C141 for the grains, induction over the walls; a fixed box occupies exactly its cuboid (hull of the eight corners), set algebra of five cuboids by linear arithmetic; C84 for the simulation |
| C157 | PolesModel, SceneModel | cylinders are good stones (SceneCylinder, as C155), lattice theorem C141, induction over the poles that are made one after another; support function of the regular polygon in every direction gives the distance from the axis |
| C158 | FitModel, SurfModel | C71 (box of scale_to_unit), the box of a scaled mesh is the scaled box, uniqueness of the box; a cube turned by 45 degrees refutes the claim about rotated objects |
| C159 | JackModel, FitModel, SceneModel | create_shape followed by create_lattice: C158 for the size of the mesh, C141 for the lattice in the engine with the new shape; a unit cube fitted to itself is the concrete case |
| C121-C123 | as above; solver = the prox_solvers model of C42 | list reasoning; invariant "all coefficients >= 0" over histories + C42 |
