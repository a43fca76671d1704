# Design of the wavemap verification

The repository under study is ethz-asl/wavemap (C++), read as text from `/repo`.
The model and the proofs are Coq 8.16.1 sources in `rocq/theories` (logical name `Verif`).
Properties are listed in `properties.jsonl`, their status in `MANIFEST.json`,
mutation experiments in `seeded/LOG.jsonl`.

## 1. Modelling decisions

**Values.** wavemap stores log-odds as C++ `float`. There are two kinds of theorems.

* *Structural* theorems do not depend on arithmetic laws: a cached query executes the same
  floating point operations as a direct query, a file round trip copies bits. The functions they
  talk about are parametrised by a record of value operations (an ordinary argument, never an axiom),
  so the theorem holds for every choice of operations, including IEEE binary32.
* *Algebraic* theorems ("the other cells do not change", "coarse value is the mean") are false for
  floats to the last bit. They are stated for exact rationals: `Qc` (canonical rationals of the
  standard library, Leibniz equality, computable, no axioms). Rounding error is NOT covered by them, except in C76.
  Poses (C58-C60), the approximate arc tangent (C65) and the projection models of C66 need square roots and trigonometric functions and are modelled over Coq's real numbers;
  the arc tangent (C65), the point/index conversions (C75, C83), the map values of C76 and the probabilities of C80 also in IEEE binary32 with Flocq's formalisation (rounding, signed zeros, NaN and infinities included).

**Integers.** `int32`/`int64` indices are unbounded `Z`, Morton codes are `N`, with the 64 bit
truncation written explicitly where a theorem is about it. Signed overflow of indices is outside the
model unless a definition says otherwise. Undefined behaviour (negative shifts, out-of-bounds array
accesses, dereferencing null) is a distinct outcome (`None`) where a theorem is about it.

**Pointers.** A node owning its children through `unique_ptr` becomes an inductive tree;
an operation that mutates through a pointer becomes a function returning the new tree.
`std::unordered_map` becomes a finite association with lookup/insert/erase; its iteration
order is left arbitrary (theorems quantify over it or do not depend on it).

**Dimension.** Maps are three-dimensional (`dim = 3`) as in the code base; helper templates that are
generic in the dimension are modelled generically where stated in their comment.

**Concurrency.** The thread pool is a small-step transition system; theorems quantify over all
interleavings. The memory model is sequentially consistent; condition variables may wake spuriously.

**Arithmetic.** Map values, points and images are exact numbers (rationals or reals), except where a property is about rounding or
special values: C65, C75, C76, C80 and C83 use IEEE single precision (Flocq), C74 NaN and infinities.

**Not modelled.** The internals of Eigen, glog, ROS and RViz; profiling (tracy); message transport by ROS (only
loss, delay and order of messages: C48, C57, C73); the file system beyond named byte strings with failures and crashes (C70);
the Python bindings beyond batch queries (C72), parameter conversion (C77) and width conversion (C83); RViz beyond the voxel and slice displays (C68, C79: not
menus, dialogs and camera handling); the YAML and XML parsers (C47 and C77 start from parsed parameter trees); memory consumption (beyond reading the system report, C85) and
execution time. Rounding elsewhere than in C65, C75, C76, C80 and C83. The examples and the tests of the repository.

**Checking the model.** The code is not run here. `T_RepoTests.v` evaluates the model on the literal inputs of some of the repository's unit tests
(integer and tree arithmetic, adjacency, neighbourhoods, occupancy classes, subtree iterators, interpolation; bit operations in `P_BitOps.v`) and checks the outputs those
tests expect. These are tests of the model, not theorems of the manifest.

## 2. Files

`Model` definitions carry comments citing the modelled source lines. Specifications live in `Spec`
files or next to the theorem; `P_*.v` files hold only the property theorems (`exact lemma`), the
examples showing the hypotheses are satisfiable, and `Print Assumptions`.

## 3. Plan per property

| id | what is modelled | how it is proved |
|----|------------------|------------------|
| C01 | lifted forward/backward transform, any dimension, arrays as functions on indices | per-axis lifting step is inverted by the backward step; induction over axes |
| C02 | lifted/parallel/single-child variants on 8 values | ring normalisation; incremental update by linearity |
| C03 | pdep/pext specification loops, LUT loops | bit-level induction (`N.testbit`) |
| C04 | NdtreeIndex functions, Morton variants | `Z.testbit`/div-mod arithmetic |
| C05 | computeLastCommonAncestorHeight | bit length of xor vs. equality of shifted codes |
| C06 | int_math.h, tree_math.h | div/mod arithmetic, induction |
| C07 | linear index conversion | mixed radix div/mod, induction over dimension |
| C08 | block/cell split | div/mod by powers of two |
| C09 | point/index conversion over Q | floor/rounding arithmetic |
| C10-C14, C16, C20 | octree node, wavelet octree, hashed wavelet octree, set/get/add/threshold | refinement to an abstract field `index -> Qc`; induction over tree height and over operation lists |
| C15, C49 | prune / pruneSmart | bounded error by induction over the tree; lossless variant refuted by witness |
| C17, C18 | forEachLeaf, bounds | induction over the tree |
| C19 | M_Accel: QueryAccelerator for hashed (chunked) wavelet octrees, block caches, getNode of the tree accelerator; M_AccelAlloc: the tree accelerator with getOrAllocateNode, node pointers as addresses into the changing map | invariant on the cached stacks, induction over the query sequence, arbitrary value operations |
| C21, C52 | SpatialHash, DenseBlockHash, HashedBlocks | refinement to a finite map |
| C22 | VolumetricOctree | refinement for leaf writes; refutation for mixed writes; an octree that calls itself empty is zero everywhere (C22_empty, P_Details) |
| C23-C27 | M_Stream: every header, block and node as bytes, an input stream with a failure flag, save/load of all four serialisable maps and the type dispatch. Floats are values with an abstract 32-bit code; theorems assume the stored values survive it (no rounding) | serialised form of a tree (`ser`) and what the reader rebuilds from it, by induction; locality and totality of the reader over all bytes; the saturation cut of the hashed writer is followed along each cell's path (F_Stream4). C25's 'never turns occupied into free' is refuted, with the exact rule and an error bound proved instead |
| C28 | classifier and masks | case analysis |
| C29, C30 | ClassifiedMap: both `update`s, `has`/`isFully`/`getNode`/`getValue`/`hasBlock` with their cache, leaf visits (M_Classified) | tree summary = classes of the cells, by induction; cache invariant relative to any property of nodes closed under the walk; stale children refuted by witness |
| C31 | ThreadPool small-step system: one step per shared access of add_task, worker_loop, wait_all, constructor and destructor, tasks that submit tasks, notify_one choice, spurious wake-ups (sequential consistency; the destructor is not raced by other clients) | inductive invariant over all interleavings (16 counting clauses), trace invariant, progress from the invariant, termination by a potential |
| C32-C34 | iterators | induction; for C32 also with the range of int (M_Grid32, P_Grid32): defined exactly for boxes below the last int; for C33 also a geometric spec (P_Ray2): times along the segment for the visited cells, monotone, every cell whose interior the segment meets is visited |
| C35 | adjacency | case analysis, generic induction over dimension |
| C36 | interpolation over Qc | ring/convexity |
| C37, C38 | bucket queue, sparse vector | refinement to lists/arrays |
| C39 | HierarchicalRangeBounds: pyramids for lower bound, upper bound and unobserved mask, rectangle and node queries, scale factor (M_RangeBounds) | a value in a pyramid stands for the pixels below it, by induction over levels, for any pooling operation; arithmetic on shifted corners incl. wrap-around; refutation for wrapping images whose width is not a power of two |
| C40 | RangeImageIntersector::determineUpdateType, the range check of computeUpdate, sensor boxes of the pinhole, the spherical and the Ouster projector incl. approximate atan2 (M_Intersector, M_Ouster) | from C39 by arithmetic on floor/ceil indices, for every sensor box that encloses the point, also across the seam of a periodic image; consequence for the updates of both measurement models from C45; the pinhole box by convexity (affine functions attain their maximum at corners); the spherical box's arc covers exactly the corners' angles (C40_corner_arc; for the boxes of both projectors C40_corners_on_arcs, which needs that the approximate atan2 stays within [-pi, pi], C65_direction_only); valid configurations meet the theorems' requirements (C40_valid_config); the azimuth arc is right for every cell off the sensor's vertical axis (C40_azimuth: the approximate atan2 is increasing in the angle, C65_increasing, and the directions to a convex set that avoids the axis form a cone); the elevation interval is right for a level sensor and cells that stay in one quadrant around it (C40_elevation: the closest and the farthest point at each height are on vertical edges), so there the decision is sound at every point (C40_level_sensor); refutations for the spherical and the Ouster box in general, cells above or below the sensor (C40_azimuth_axis_refuted), cells reaching behind a camera, ranges below the minimum |
| C41 | HashedWaveletIntegrator::updateMap: block selection, one task per block with the explicit-stack loop as a step function, arbitrary interleavings; WaveletIntegrator. Update type, sample and error test of a node are arbitrary functions of its index (`oracle`) | the loop computes a recursion; its effect on a cell follows the path to the cell; spec over fields in S_Integrate.v; schedule independence since finished tasks are unique; plain integrator: its recursion with a loop over the eight children, per cell (F_IntegratorP), against the field in which every octant is shifted to the octree's mean; refutation of clamping. HashedChunkedWaveletIntegrator: its recursion on chunks simulates the same kind of recursion on pointer trees; tasks run in any order |
| C42 | the same plus the needs_thresholding flag; histories of edits and scans | invariant "flag unset => cells in the padded range" for careful histories; refutation otherwise. Chunked: the same invariant for all full-resolution histories |
| C43 | importPointcloud | fold invariant, permutation invariance |
| C44 | both SDF generators over hashed wavelet maps: seeding, bucket queue, propagation (M_Sdf.v; square root abstract, with the real root rounded to single precision as an instance: P_Rounded.v) | invariants over the propagation loop, termination by counting cells near the seeds (F_Sdf*.v); sign, bound, support, surface and exact-distance theorems (P_Sdf.v); quasi-Euclidean values are at least the length of some walk to the surface (P_Sdf2.v); "negative everywhere inside" and "no more than the straight distance" refuted |
| C45 | approximate Gaussian, ContinuousRay, ContinuousBeam (all branches, image look-ups), ConstantRay, worst-case error bounds (M_Measure); `sqrt` and `log` are arbitrary monotone functions, with the real functions rounded to single precision as an instance (P_Rounded.v) | slope bounds per polynomial piece of the approximate Gaussian, chained over pieces; the probability stays in (0,1) for scalings below 1 and 16/13; refutations for the accepted scalings >= 1 and for the error bounds |
| C46 | AABB | min/max lemmas, induction over dimension |
| C47 | TypeSelector, ConfigBase, units | finite map lemmas |
| C48 | `M_Publish`: ROS messages, publication (time stamps, splitting into messages), reception; hashed wavelet octree, plain wavelet octree, hashed blocks | for hashed wavelet octrees, by an invariant over all histories of calls, direct block writes and publications: after a publication the subscriber has every block of the publisher with its thresholded content (as after saving and loading), exactly if nothing was pruned or the whole map was sent, and otherwise within one prune's bound; the subscriber has no other blocks if a message was sent (`C48_no_other_blocks_partial`); refuted for erase-only changes, cleared maps and same-tick updates. Dense block maps: equal for any previous subscriber map. Plain wavelet octrees: equal for the first message, refuted for later ones. Hashed chunked wavelet octrees (`M_PublishChunked`, with its own serializer): the same statements, by simulating the publisher of a hashed wavelet octree (`C48_chunked_*`) (partial) |
| C50 | Pipeline | induction over lists |
| C51 | projector_base | rounding arithmetic |
| C53, C16 | ChunkedNdtree, hashed chunked wavelet octree: M_Chunked (chunk arrays, node references, existence bits), M_ChunkedHist | simulation: the chunked subtree at each path holds the same data as the pointer tree, extra in-chunk nodes hold zero; lifted to blocks and to all call histories, so C11-C15, C17, C18, C20, C49 carry over (`*_chunked_*` theorems). Recursion of threshold/prune is bounded by a fuel argument of at least tree_height |
| C54 | Ndtree, NdtreeBlockHash: M_Octree | spec: data per index + ancestor relation; induction on paths; eraseNode's return flag and root case refuted; the flag is false if the parent is missing or has no children (C54_erase_no_parent, P_Details) |
| C55 | Ray tracing integrator: M_RayTrace (validity checks, truncation at max_range, ConstantRay updates, any map with an add operation) | spec of the contribution of one point to one cell in terms of the line segment; C33 path and geometry, then induction over the points; instantiated for all five maps (hashed wavelet, hashed chunked, dense; plain wavelet octree and volumetric octree for rays inside the octree, the latter for maps written cell by cell) |
| C56 | Motion undistortion: M_Undistort (stamped clouds, sampling of the transforms, pose interpolation loop) over arbitrary pose and point types | spec: every point moved by the pose at its own time; invariant on the index of the left pose along the sorted cloud, arithmetic of the sampling grid; refutations for the inputs on which the program aborts. P_Undistort2.v instantiates the poses with the quaternions of C58 and their interpolation of C59 (real numbers): C56_rigid_partial |
| C57 | Input queues of the ROS node: M_Input (PointCloud2 and Livox callbacks, both processQueue loops, frame names, stamps and offsets) over histories of messages, timer calls and arbitrary transform buffers | spec of the received clouds of a history and of the transform at a time; invariant over the history: log of the outcomes plus queue = received clouds, each outcome justified by the call that produced it; refutations for late processing, out-of-order stamps, missing transforms with undistortion, message fields, Livox offset |
| C58 | Poses: M_Pose (minkindr transformations and quaternions, the Eigen formulas they use, PosedObject) over the real numbers | spec: rigid motions and rotations by axis and angle (Rodrigues) on vectors; quaternion algebra by `ring`; for quaternions that pass the unit length check without being exact, a bound on the inverse and a refutation of exactness |
| C59 | Pose interpolation: M_Pose (interpolateComponentwise, Eigen's slerp) over the real numbers | spec: axis and angle of the relative rotation; trigonometric identities for the slerp weights, norm bounds for the linear branch |
| C60 | Rotation matrices: M_Pose (validity check, Eigen's conversion of a matrix to a quaternion with its four branches, and back) over the real numbers | spec: orthonormal rows and determinant 1; the rows are cross products of each other, hence the ten products of quaternion components are linear in the entries |
| C61 | Coarse-to-fine integration: M_CoarseToFine (the stack loop over a VolumetricOctree, scan as an oracle per node), with M_VolOctree | spec: the node at which the descent towards a cell ends (unique, C61_end_unique); the loop equals a recursive walk, its list of updates is added to the field of the map (C22) |
| C62 | Fixed resolution integration: M_FixedRes (both imports with the bounding box, padding, the grid loop), with the five map models, M_Grid, M_Image, M_Intersector | spec: nearness to the hull per axis without minima and maxima; the box is tight, floor and ceiling indices are the layer next to the box; convexity for segments and the pinhole frustum |
| C63 | Obstacle point clouds: M_PublishCloud (leaf functor, block filter, run), with the five map models, M_Grid | spec: the message is a list of the cell centres without repetition; histories of calls and runs with an invariant: each block is newer than the last run or its obstacles were sent; the chunked map by simulation (mrel) |
| C64 | Map cropping: M_Crop (indicator, eraseBlockIf, run), with M_Point, M_Wavelet, M_Chunked | spec: distance to points of cells, squared; C46_closest_point gives the distance to a block's box, which is the union of its cells; cropping equals a sequence of eraseBlock calls |
| C65 | Approximate arc tangent: M_ApproxTrig (approximate::atan, atan2 with sign bits, over the reals; the rational version is in M_Intersector), M_ApproxFloat (the same in IEEE binary32 with Flocq: every operation rounded, signed zeros, NaN) | spec: `angle_of`, the angle theta in (-pi, pi] with the sign of y and x = r cos theta, y = r sin theta; 1/(1+t) is approximated by a polynomial with a proved remainder, integrated to a polynomial for atan, and the difference to the code's polynomial is bounded on [0, 1] by a verified bisection computed in the kernel; quadrants by case analysis; the rounding errors of the single precision version are bounded operation by operation; over the rationals the result strictly increases with the angle (C65_increasing) |
| C66 | Projection models: M_Projection (pinhole, spherical and Ouster cartesianToSensor, sensorToCartesian, error norms, the Ouster depth interval) over the reals, for any arc tangent of given accuracy | spec: Euclidean distance, `accurate`; squared distances of points in polar coordinates by trigonometric identities and 1 - cos x <= x^2/2, uniqueness of angles (C65) for the reverse direction; over the rationals the points along an Ouster beam get the beam's angles and their distance (C66_ouster_beam, P_Details) |
| C67 | Field of view of the hashed integrators: M_Fov (getFovMinMaxIndices and the Grid loop, with M_Point, M_NdtreeIndex, M_Grid), M_Integrator | spec: cells near to and far from a position; per axis bounds of floor, ceiling and ceil(log2), lifted by C32 to the loop; composed with C41_scan_effect and C41_chunked_effect |
| C68 | State machine of the voxel display (drawn layers per block, update queue, last update time, forced LOD update, settings) driven by arbitrary events, on hashed wavelet maps (M_Viz.v); the camera enters as an arbitrary recommended height per block, the sort as an arbitrary permutation, the time budget as an arbitrary count. Not modelled: colours, the rendering, the other map types' branches. | Invariant over histories (F_Viz2.v): every block of the map is queued, newer than the last update, or drawn as the function `expected` says; F_Viz3.v shows that `expected` means `displayed` (S_Viz.v); F_Viz4.v that frames at a fixed camera empty the queue. C68_lod_request (P_Details): the display recomputes its resolutions exactly when a block is newer. Six deviations refuted with witnesses. |
| C69 | The sampler (M_Sampler.v) over the classified map of C29/C30 with an arbitrary generator: any state type and two functions bound only by the contract of the standard distributions (the upper bound of a real may be returned). Exact arithmetic. | Induction on the attempts (P_Sampler.v) with the step lemma of C30 for isFully, C09 for the cell of a point; the result is located in the list of drawn points. |
| C70 | M_FileIO: ofstream with a buffer, an adversary that chooses when bytes reach the disk, which call fails and when the program is killed; mapToFile, fileToMap; histories of calls | the file plus the buffer hold what was written (induction over the write calls); a crash leaves a prefix, and C27 shows that no proper prefix loads. Refuted: atomic replacement, refusal of every damaged file |
| C71 | M_Server: heap of maps; the pointers of the server and of the pipeline; measurements as arbitrary functions; the services on top of M_FileIO | simulation of the one-map behaviour by the server up to the first load that replaces or drops the map; after it, simulation by two separate maps. The full claim is refuted |
| C72 | M_Python: the batch loops with the accelerator's state carried through rows and corners | the invariant of C19 through the loops, bounds on the indices of the interpolated corners |
| C73 | M_Rosbag: registration of callbacks and republishers, the processing loop with its side tasks; the queue of M_Input for the last message | projections of the event trace by induction on the recording; invariant on the last service time; witnesses for the false variants |
| C74 | M_NaN: the measurement models, the range bounds and the intersector over rationals with NaN and the infinities (IEEE comparisons, std::min and std::max in the order of the code; P_NaN2.v shows that comparisons, negation and operations with special values are those of Flocq's single precision numbers) | update by case analysis, as if the image had finite readings in front of or behind the cell; relational lemma for pyramids and queries, used to replace infinities by large numbers so that C40 applies; three refutations with concrete images of a camera |
| C75 | M_FloatIndex: the conversions between points and indices with Flocq's binary32 arithmetic (overflow, NaN and signed zeros included) | error analysis of each operation (relative error 2^-24, no overflow in the stated range), exactness of casts, powers of two and half-integers, monotone rounding; refutations by computation; P_FloatNode.v: `C75_children_tile` (children share the corners and the centre of their parent), refuted from 2^23 cells on (`C75_far_children_refuted`) |
| C76 | M_FloatNum: IEEE binary32 (Flocq) as a number type for the existing map models (M_Wavelet, M_HashedBlocks); nothing of the map code is modelled a second time. Left out: setCellValue and pruneSmart of the wavelet map, the other map types | error bounds for each Haar operation (F_FloatHaar), for descents, recursive thresholding and pruning (F_FloatTree), induction over the history with the invariant `finite, and within the accumulated cost of the ideal field` (P_FloatMap); absorption of 3*2^26 small updates by an invariant for all n |
| C77 | M_Factory.v: parameter trees of ROS and Python and their conversion; the members, defaults and validity checks of all 23 component configs and the server config; all factories; the constructor of the ROS server as a function from the parameter server to its components (or the end of the program). | `C77_map`, `C77_operation`, `C77_input`: outcome by type name, against a table of readable conditions (`sound`); `C77_integrator`: built iff described (`describes_integrator`); `C77_defaults`: which types can be used without settings, and with which values; `C77_params`: both conversions are the identity; `C77_server`, `C77_server_starts`; witnesses `C77_skip_refuted`, `C77_unit_refuted`, `C77_constant_ray_refuted`, `C77_map_type_refuted`, `C77_limits_refuted`. The example is the shipped wavemap_livox_mid360.yaml. |
| C78 | M_Schema.v: the JSON schemas as data, and validation as an inductive relation; compared with the member tables and the readers of M_Factory.v and M_Config.v. | `C78_effect`, `C78_effect_axis`: an admitted setting has its value in the built component; `C78_listed`: every member is offered; `C78_type`; the exceptions are the explicit predicates `ignored` and `unlisted`, with `C78_ignored_refuted`, `C78_unlisted_refuted`, `C78_usable_refuted`, `C78_constant_ray_refuted`; the server's own settings: `C78_general`, `C78_empty_frame_refuted`. |
| C79 | M_Slice.v: SliceVisual as a state machine (settings, layers, shared map given by its list of leaves), with the colour functions. Exact arithmetic; `None` for undefined conversions and failed CHECKs. | Invariant over histories: every layer has the width of its level and the current opacity; after an update layer h holds the selected leaves of height h. floor(z / (w 2^h)) = floor(z / w) / 2^h ties the levels together. `C79_no_abort`, `C79_faithful`, `C79_hidden`, `C79_maps` (hashed wavelet octrees are such maps, by C17), `C79_height_colour`, `C79_height_period`, `C79_height_distinct`; `C79_width_change_refuted`, `C79_levels_change_refuted`, `C79_not_told_refuted`, `C79_height_refuted`, `C79_raw_refuted`. |
| C80 | M_Prob.v: the conversions over the reals, and logOddsToProbability in IEEE single precision (Flocq) with std::exp as a parameter. | Algebra of exp and ln: `C80_inverse`, `C80_monotone`, `C80_bayes`, `C80_grey`. `C80_float_range`, `C80_float_accuracy`: 1 + odds never overflows and is at least odds, errors are bounded step by step. `C80_overflow_refuted`: inf / inf. |
| C81 | `computeChildIndices`, `computeLevelTraversalDistance`, `computeTreeTraversalDistance` (M_NdtreeIndex.v) on Morton codes; the breadth-first listing is the specification | child codes are the parent's code shifted by dim bits plus the relative index; induction on the depth; P_TreeOrder.v |
| C82 | `IndexHash`, `NdtreeIndexHash` with the 32 bit accumulator and 64 bit products of the C++ (M_IndexHash.v) | reduction modulo 2^32, uniqueness of the digits to base 17191; P_IndexHash.v |
| C83 | M_CellWidth.v: both functions in IEEE single precision (Flocq), std::log2 as a parameter with a contract that the correctly rounded logarithm meets (`C83_log2_exists`). | The product with the rounded reciprocal never rounds above a power of two (sharp error bound of the division); sandwich of the logarithm between powers of two. Exact minimality and non-negative heights are refuted. |
| C84 | M_CameraScan.v: what the coarse-to-fine integrators compute for a node (update type, update at the centre, error test) from a posed depth image; M_ProjectorScan.v: the same for any projection model and both measurement models; M_CoarseToFine.v, M_Integrator.v, M_Intersector.v, M_Measure.v, M_FixedRes.v. | Composes C61/C41 (effect of a scan), C40 (update types are conservative), C43-C45 (measurement model) and C62 (per-cell updates): centre and cell lie in the same box, so update types decide both; Lipschitz bound over half the diagonal. Error bound: pinhole camera with ContinuousRay. Any projection with ContinuousRay or ContinuousBeam (P_ProjectorScan.v): exact for single cells, and by update type otherwise, given that the sensor box encloses the two centres; it does for a level LiDAR and nodes beside it (P_LidarScan.v, from C40_level_box). Error bound of the beam model in free nodes: C84_beam_accept (P_BeamScan.v, from C45_beam_error_free). The bound on log-odds and the bound across depth edges are refuted. |
| C85 | M_Stopwatch.v: the stopwatch and the resource monitor as state machines over clock readings in integer nanoseconds; the loop and the stream operators that read /proc/self/status, on characters. | Episodes are pairs of positions in the history; induction on the history with an invariant about the members. The monitor is two stopwatches (simulation). The parser is proved equivalent to a grammar of the entry. An entry in a last line without newline is not found (refuted). |
| C86 | one block of M_Wavelet and of M_Chunked with calls at every node height | field specification of each call; the chunked block simulates the other one, including the whole-block update which the map itself never makes |
| C87 | sequences of scans of M_Integrator (hashed and hashed chunked) and threshold() calls | the effect of one scan (C41) iterated; clearing needs that no surrounding node is saturated in the mean, the witness for the failure is a default-size block with one occupied cell; octrees (P_OctreeHistory.v: scans of the CoarseToFineIntegrator, threshold() and prune() calls): by induction from C61 and C22_prune, without such a condition |
| C88 | Index range of WaveletOctree and VolumetricOctree: M_Wavelet, M_VolOctree, the Morton code of any integer index; M_IndexInt.v: the addition of the root offset in 32-bit ints | spec: `wrapped` (coordinates modulo the edge length); the descents use only the bits below the root, for any number type; histories by induction; refutation for calls outside the range; C88_int_*: calls are defined exactly for coordinates below 2^31 minus half the octree's edge (`below_end`), all nodes inside are, the last cell of the int range is not (refuted) |
| C89 | Declared accuracy of the distance fields: M_SdfAccuracy (the constants, as the exact single precision values), M_Sdf | spec: `clear_of` (all cells of a class at least D from the cell's centre), `root_at_least` (error of the square root). C89_quasi_under (via the walks of C44 and the triangle inequality) and C89_full_under (via the distances to cells of C44), C89_declared_under, C89_rounded_under (the correctly rounded root). Refuted: C89_quasi_over_refuted, C89_over_unobserved_refuted. In free space, P_SdfReach.v: `free_steps` (steps between touching free cells up to one that touches an obstacle); C89_quasi_reached (n steps: at most half a diagonal plus n times a diagonal and the queue's bucket width, by an invariant of the wavefront along the path), C89_quasi_observed and C89_quasi_over_factor (observed surroundings: at most (sqrt 3 + max/(max - w)) times the straight distance). P_SdfReach2.v: C89_full_reached and C89_full_observed, the same for the full Euclidean generator and every root with relative errors in given bounds (`root_at_most`); C89_rounded_reached for the correctly rounded root. Missing: the declared factors 1.135 and 1.01 in fully observed free space (a search found no violation) |
| C90 | Bit operations: M_BitOps.v (single bits, rotations, squeeze_in and repeat_block on words of any width, with integral promotion and undefined shifts), M_IntMath, M_Haar, M_Morton | spec: `word`, `set_positions` (positions of the set bits) and `Z.testbit`. C90_is_bit_set, C90_set_bit, C90_popcount, C90_parity, C90_clz, C90_rotate_left, C90_rotate_right, C90_rotate_inverse, C90_squeeze_in, C90_repeat_block, C90_repeat_block64, C90_expand, C90_compress, C90_round_trips, all bit by bit. The Examples are the literal expectations of the repository's own test (test_bit_operations.cc). Refuted: C90_rotate_nothing_refuted, C90_rotate_narrow_refuted, C90_squeeze_in_high_refuted. |
| C91 | M_Logging.v: both level enumerations, the conversion between them and the values given to the loggers; the server of M_Factory.v. How the loggers filter is outside: glog drops severities below its threshold, the ROS console is given its level | spec: `rank`, `glog_prints_from`, `selects`; `C91_server` from the loaded settings (C77), `C91_python`; `C91_conversion_refuted`: the conversion of "info" is invalid |
| C92 | M_ConfigReport.v: printing of lists and the log statements of the config reader (M_Config), with undefined behaviour as a result; how numbers print is outside | spec: `mistyped_list` (inductive, through nested configs), `config_type`, `distinct_keys`. C92_text, C92_undefined (iff, by induction on the config type), C92_defined (otherwise the result of C47); C92_components (of the components made from parameters only the two inputs are affected, only by `measurement_integrator_names`); C92_keeps_default_refuted (a number for measurement_integrator_names) |
| C93 | M_HashedInt.v: the sums and products of indices in the hashed maps, with the range of int (undefined behaviour as a result) | spec: `has_int_cell` (a node contains a cell with int coordinates), `reaches_end`. C93_histories by induction for the three maps; C93_node_queries and C93_max_index are equivalences; a power-of-two block that contains an int cell lies inside the int range. C93_max_index_refuted: one update of the last cell, for every block size |
| C94 | M_IntMath32.v: the helpers for T = int, every intermediate result checked against the range of int, in the order of the code | spec: `zfact`, `choose` (Pascal's rule), powers of Z. Induction on the loops; n! = choose * m! * (n-m)! by induction. C94_div_exp2_ceil_refuted, C94_div_round_up_negative_refuted |

### Findings about the code (theorems ending in `_refuted`)

* `setCellValue` of the wavelet maps adds the difference to the *parent's* value, so setting a cell
  does not read back in general (C10, C11). The proofs model what the code does.
* `prune()` is documented as lossless but drops details up to 1e-3 (C15).
* The plain octree's bounds ignore cells whose magnitude is below 1e-3 (C18).
* A value range without 0 is accepted, but unallocated cells still read 0 (C14).
* `pointToNearestIndex` rounds half away from zero, so cells are not half-open boxes: a point on a face
  belongs to the cell further from the origin. With round-half-even the height-h index of a point would not
  even be an ancestor of its cell (C09).
* `AABB<int>::furthestPointFrom` compares with a truncated centre and can return the nearer end (C46).
* `Grid(min,max)` with an empty box still visits cells, and with an inverted first axis never ends (C32). A box that reaches the last int along any axis makes the iterator overflow, also where no visited index is out of range (C32_int32).
* The point constructor of `Ray` can step past the end cell if the end point lies on a cell face (C33).
* The post-order iterator misses nodes when a node's child array exists but is all null, which `eraseChild`
  leaves behind (C34).
* `BucketQueue::front()` on an empty queue reads out of bounds (C37).
* `importPointcloud`: a return closer than min_range makes the pixel depend on the order of the points, and a
  later, farther return can replace the closest one (C43).
* `HashedBlocks::threshold()` does nothing: values written with `setCellValue` stay out of range (C21).
* `Ndtree::eraseNode` reports success for a node that does not exist, and at the root it erases a child of the
  root (C54).
* `VolumetricOctree`: queries return the data of the deepest node only, while leaf iteration and prune sum the data
  along the path. After a coarse write or a prune that merged cells, an increment of a cell is lost for queries,
  a cell write disturbs its neighbours, and queries disagree with iteration. If everything is merged into the root,
  iteration reports the wrong part of space (C22).
* `OccupancyClassifier::has` does not trim stray mask bits, unlike `isFully` (C28).
* The query accelerators (and the integrators' caches) have stacks of 20 entries and access entry
  `tree_height`, but configurations with `tree_height` 20 and more are accepted (C19).
* The tree accelerator's `getNode` returns the closest existing ancestor if the node does not exist, where
  the map's own `getNode` returns null (C19).
* The tree accelerator's `getOrAllocateNode(index)` without further arguments gives new nodes below the root a
  default-constructed value, whereas the map's own `getOrAllocateNode(index)` gives them the map's default value (C19).
* A `ThreadPool` with 0 threads is accepted; `wait_all` after `add_task` then never returns (C31).
* `ThreadPool::add_task` in a task that runs while the destructor drains the queue aborts the program (C31).
* Saving a hashed (chunked) wavelet octree drops everything below a node whose average is within 1e-3 of a bound. A
  fully occupied cell in an otherwise fully free 32x32x32 node (default settings) reads as free after saving and
  loading (C25).
* `HashedBlocks` files do not contain `default_value`: unobserved cells of a map with another default (as in the
  distance field generators) read 0 after loading (C23).
* A file that ends inside the header makes the loader abort the program (a failed CHECK on the zero-initialised
  configuration) instead of returning false (C27).
* `ClassifiedMap::update` keeps classified children that the occupancy map no longer has. `getValue`, `getNode` and
  `forEachLeaf` then return outdated classes, and so do `has` and `isFully` once `getNode` has put the outdated nodes
  into the query cache (C30).
* `ClassifiedMap::has`/`isFully` return false for every class in unallocated blocks, also for `kUnobserved` (C29).
* `ClassifiedMap::getValue` of a node of height `tree_height` shifts by -1 (its parent is above the block); excluded
  from C29.
* `ClassifiedMap` and the accelerators keep a stack of 20 nodes: configurations with `tree_height` >= 20, accepted by the
  map, write out of bounds (C19, C29 assume less).
* `HierarchicalRangeBounds` checks `popcount(columns)` where a power-of-two test was meant, so every wrapping image is
  accepted; with 5 columns a wrapping rectangle gets a lower bound of 10 although a pixel in it measured 1 (C39).
* `ContinuousRayConfig`/`ContinuousBeamConfig::isValid` accept scalings >= 1 (free) and >= 16/13 (occupied); the update is then
  the logarithm of a non-positive number (C45).
* `ContinuousRay::computeWorstCaseApproximationError` uses `scaling_occupied` only and is too small when `scaling_free` is
  larger; `ContinuousBeam` takes the larger of the angular and the range error where they can add up (C45).
* `SphericalProjector::cartesianToSensorAABB` (and the Ouster one) takes the elevation interval from the cell's corners; the
  largest elevation of a cell above the sensor is on the edge closest to it, so cells can be declared fully free or
  unobserved although a pixel measured a surface in them (C40).
* `OusterProjector::cartesianToSensorAABB` measures depths from the sensor's origin, the rest of the projector from the beams'
  origin. With the default offsets a cell right below the sensor is declared fully free although it lies behind the measured surface,
  if the range noise is below about a centimetre (C40).
* `PinholeCameraProjector::cartesianToSensorAABB` misses columns for cells that reach behind the image plane (C40).
* `importRangeImage` does not filter ranges below `min_range`; `computeUpdate` uses them although the intersector treats them
  as unobserved and the configuration says that they are ignored (C40).
* `WaveletIntegrator::updateMap` hands the root's scale coefficient to the recursion as the value of each first child, so
  clamping and the saturation test use wrong values and cells can leave the padded range (C41, `C41_plain_clamped_refuted`).
* Free-space measurements are dropped where no block is allocated: a scan that sees only free space leaves an empty map
  empty (C41, `C41_free_space_recorded_refuted`).
* `HashedWaveletIntegrator::updateBlock` clamps only the mean of a coarse node without stored children and does not call
  `setNeedsThresholding`. Nodes of height 1 never have stored children, so their cells can leave the range and
  `threshold()` does not bring them back (C42, `C42_hashed_refuted`).
* With a tree height of 1 `HashedChunkedWaveletIntegrator` updates the children of height-0 cells: it samples nodes of
  height -1 (C41, `C41_chunked_height_one_refuted`).
* `HashedChunkedWaveletIntegrator` with a termination height above 0 clamps only node means and does not set the
  thresholding flag, so single cells can leave the range for good (C42, `C42_chunked_coarse_refuted`).
* Both distance field generators leave occupied cells that the propagation does not reach (no free cell within
  the maximum distance) at the positive maximum distance, although they are inside an obstacle
  (C44, `C44_inside_negative_refuted`; quasi_euclidean_sdf_generator.cc:95-177, full_euclidean_sdf_generator.cc:105-185).
* The quasi-Euclidean distance field overestimates clearance: a free cell can be more than 5 % closer to an occupied cell
  than its value says (C44, `C44_quasi_straight_refuted`; quasi_euclidean_sdf_generator.cc:119-175).
* Publishing (C48) does not transmit removals by themselves. If blocks are erased or the map is cleared, and nothing else
  changes, no message is sent, so subscribers keep the old blocks (`C48_erased_block_refuted`). An empty map is never
  announced, even if the whole map is requested (`C48_cleared_map_refuted`).
* A block that is changed in the same clock tick as a publication, but after it, is not sent by the next publication
  (`C48_same_time_refuted`).
* The receiver of plain wavelet octree messages does not remove nodes that are no longer in the map: after an obstacle
  has been removed and pruned, the subscriber still has it (`C48_plain_stale_nodes_refuted`). The receivers for hashed
  octrees start from new trees and do not have this problem.
* The receivers of wavelet octree messages copy eight values into an array of seven (map_msg_conversions.cc:241-242,
  437-438), which is undefined behaviour; on 64-bit machines the eighth value goes to padding. The model assumes that.
* Pruning keeps the time stamps of the blocks, so its effect is not transmitted until the next change of the block
  (C48's bound).

* The ray tracing integrator never uses its parameter min_range (C55_min_range_refuted).
* An empty point cloud with a valid pose aborts the process: getPointsGlobal ends in CHECK_GT(rhs.cols(), 0) of transformVectorized (C55_empty_cloud_refuted).
* A measured point that lies exactly on a cell face may mark no cell as occupied: the ray then ends in a neighbouring cell and every cell visited gets the free update (C55_end_on_face_refuted).
* The ray tracing integrator tests the cells against the end point before truncation at max_range: if the ray is cut inside the cell of the measured point, that cell still gets the occupied update (allowed by the statement of C55).
* `num_undistortion_interpolation_intervals_per_cloud = 1` is a valid configuration but makes the undistorter divide by zero (C56_one_interval_refuted).
* With undistortion switched on, a cloud without time stamps (topic type without support: the warning says that it will not be undistorted) has zero duration; the sampling period is 0, the interpolation parameter 0/0, and a CHECK in interpolateComponentwise aborts the program (C56_no_times_refuted).
* For clouds shorter than (n-1)(n-2) ns the integer sampling period is rounded down so far that the last sample can be before the last point: CHECK_LE aborts the program (C56_short_cloud_refuted; about 10 microseconds for the default n = 100).
* compensate_motion initialises the previous time with `-1u` (2^32-1, not the largest TimeAbsolute): a cloud that starts at time 2^32-1 ns uses the identity pose (C56_first_time_refuted; only possible with simulated time).
* A point cloud whose pose is available is dropped if the newest cloud in the queue ends more than max_wait_for_pose after its start: the test is done before the lookup (C57_available_pose_refuted). A cloud that itself lasts longer than max_wait_for_pose is always dropped. Depth images do not have this problem (C57_images_dropped).
* The waiting time of point clouds is an unsigned difference: if the next cloud is 1 ns older than the one that waits, the latter is dropped at once (C57_out_of_order_refuted).
* With undistortion, a cloud that is newer than all transforms is reported as kStartTimeNotInTfBuffer and dropped at once; only if the start is available and the end is not, the input waits (C57_undistort_wait_refuted).
* PointcloudTopicInput::callback reads behind the end of the field list if x is the last field or x, y are the last two (C57_fields_refuted).
* For Livox clouds the time offset is converted to int32_t nanoseconds: undefined for offsets beyond 2.147 s (C57_livox_offset_refuted).
* * The unit length check accepts squared norms within 1e-4 of 1 and the quaternion is not normalised. The inverse of such a pose cancels it only up to 5e-4 of the distances involved (C58_inverse_accuracy); 3 cm at 100 m is reached (C58_inverse_exact_refuted).
* Coarse-to-fine integrator with the VolumetricOctree: if a scan updates a coarse node, queries of cells that are already stored at a finer resolution below it do not see the update until the map is thresholded or pruned (C61_query_refuted): getCellValue returns the value of the deepest node and ignores values on its ancestors.
* Fixed resolution integrator, range images: the bounding box is spanned by the four image corners. For a spherical projection model covering the full circle all corners point to the same direction, and cells in other directions are not updated at all (C62_full_circle_refuted).
* Fixed resolution integrator, range images: the corners have pixel indices 0 and width (height), while pixel 0 covers indices from -0.5; the outer half of the first rows and columns of pixels is not updated beyond the padding (C62_image_border_refuted).
* Fixed resolution integrator, point clouds with the ContinuousRay model: the padding angle is 0 although the model updates all cells in the pixel of a point; cells of the pixel outside the bounding box of the points are missed (C62_pixel_cone_refuted).
* Obstacle point clouds (C63_freed_cells_refuted): a message contains only occupied cells, so two histories, one in which an obstacle was removed and one in which it stayed, lead to the same messages. With only_publish_changed_blocks a subscriber cannot tell which obstacles vanished, nor to which region a message refers.
* Obstacle point clouds (C63_same_time_refuted): a block changed at the time stamp of the start of a publication, after the block was visited, counts as unchanged at the next publication, and the obstacle is never announced. (Times have the resolution of the clock.)
* Obstacle point clouds: if the map is empty nothing is published at all, so after clearing the map the subscribers keep the last message.
* Map cropping (C64_failed_lookup_refuted): last_run_timestamp_ is set before the position is looked up, so a failed lookup postpones cropping by a whole period.
* `approximate::atan2(y, -0.f)` is off by pi: the sign of +-pi/2 is taken from the quotient x / y, which is negative for x = -0, while the test `x < 0` that would correct it is false (C65_negative_zero_refuted).
* `approximate::atan2::kWorstCaseError` (1.908e-6) is not a bound in single precision: for y = 0.82053471, x = -0.93431371 the result is 1.975e-6 away from the angle (C65_float_constant_refuted). 2.6e-6 is a bound (C65_float_error).
* The depth interval of OusterProjector::cartesianToSensorAABB uses distances to the sensor's origin, while depths are measured from the beams' origins: with the default offsets a point of a cell can be nearer (or further) than the interval says, by up to 4.6 cm (C66_ouster_depths_refuted, C66_ouster_depths). The range image intersector may therefore skip cells that still intersect the measured region.
* The azimuth interval of a cell above or below a spherical or Ouster sensor is taken from its corners, which gives the arc through the seam even if the cell lies on both sides of it. A sensor with a narrow field of view declares such a cell fully unobserved, although some of its points are observed (C40_azimuth_axis_refuted).
* Points on the z axis of a lidar (directly above or below the sensor) have no azimuth: approximate::atan2(0, 0) is NaN (C65_float_origin), which is then rounded to an integer pixel index.
* PinholeCameraProjector::cartesianToSensor clamps the divisor but returns the unclamped depth: for points behind the camera (or nearer than 1e-6 m) sensorToCartesian does not return the point (C66_pinhole_behind_refuted).
* C68: in surface mode, the default, a block is only redrawn when it changes itself, so a cell at its border that comes to lie on the surface because a neighbouring block changes stays hidden (and one that no longer does stays drawn) (C68_surface_stale_refuted). Only switching visibility or a setting redraws it.
* C68: in surface mode a leaf above the finest level is compared with neighbouring nodes of its own size. If such a neighbour is occupied on average, an occupied cell right next to a free one is not drawn (C68_surface_hidden_refuted).
* C68: voxel_visual.cc:122 lets the user choose a termination height up to the tree height. At the tree height, the leaves of height tree_height - 1 have no level to go to and CHECK_LT (or vector::at) ends RViz (C68_termination_height_refuted); std::clamp is also called with lo > hi, which is undefined.
* C68: when a map with another cell width arrives, the layers of blocks that have been drawn keep the old cell dimensions (drawMultiResolutionVoxels only sets them for new layers), even when everything is redrawn (C68_width_change_refuted).
* C68: WavemapMapDisplay::reset clears the visuals but keeps the map and the time of the last update: blocks that do not change are not shown again, whatever frames follow (C68_reset_refuted).
* C68: the comparator that sorts the update queue treats height differences below 2 as ties broken by distance, which is not transitive: three blocks can form a cycle, undefined behaviour for std::sort (C68_sort_order_refuted).
* C68: if the transform lookup fails, the map is replaced without the cell selector being told, whose query accelerator keeps pointers into erased blocks (surface mode).
* C69: PointSampler uses isFully, which is false in unallocated blocks (C29): asked for unobserved points in a box, it never returns one from unallocated space, although all of it is unobserved, and returns nothing at all for an empty map (C69_unobserved_refuted). A box with min > max is undefined behaviour in std::uniform_real_distribution.
* Saving is not atomic (C70): mapToFile truncates the existing file before anything is written, so a failed or interrupted save loses the previous map as well; saving a map of an unsupported type (VolumetricOctree) returns false but also empties the file.
* If a crash leaves a part of the header in the file, the next fileToMap aborts the program instead of returning false (C70, same cause as in C27).
* After load_map the server is split (C71): RosServer::occupancy_map_ points to the loaded map, but the pipeline, its integrators and its operations keep their pointer to the old map. Measurements are never integrated into the loaded map, the published map stays the old one, save_map saves the loaded map without any new measurement, and reset_map does not affect what is published.
* A load_map that fails because the file's type is unknown (for instance an empty file) sets the server's map pointer to null (C71): save_map fails from then on, and reset_map answers true without doing anything.
* Python: the binding of set_cell_value lacks a comma after "new_value"_a (maps.cc:67-68), so the docstring becomes part of the argument's name; set_cell_value(index=..., new_value=...) is rejected (C72, not modelled).
* Offline processing: callbacks are kept in a map by topic and inserted with try_emplace, so the second input configured for a topic is silently given nothing (C73_second_input_refuted).
* Offline processing: an input's topic name is compared with recorded names without resolving it; with a relative name, like the default "scan", the input gets nothing (C73_relative_name_refuted).
* Offline processing: after the last message the inputs' queues are not processed again, so messages recorded less than 0.01 s after the last timer service are never integrated (unless keep_alive is set, and then only after the final prune) (C73_last_message_refuted).
* **NaN readings of depth images are not handled by the coarse-to-fine integrators (C74).** `importRangeImage` copies NaN pixels (the usual encoding of missing depth in 32FC1 images); `isUnobserved` is `value < min_range`, so a NaN counts as observed; and `std::min(9, std::min(NaN, 1))` is 9, `std::max(2, std::max(NaN, 7))` is 2, so valid readings next to a missing one are lost in the pyramids. Cells with a measured obstacle can be declared fully free (`C74_obstacle_erased_refuted`), cells with a measured surface can be skipped (`C74_surface_skipped_refuted`), and cells without measurement can be made free (`C74_missing_is_free_refuted`). The measurement models themselves are fine: a NaN ends up as a zero update (`C74_updates`).
* In single precision the round trip from a cell index to its centre and back is off by one from about 4.2 million cells on (126 km with cells of 3 cm); a point just inside a cell face can be given to the neighbour, and to different nodes at different heights (C75).
* With single precision, many small updates to one cell can be lost: a cell that holds 1.0 still holds 1.0 after 200 million additions of 2^-26, where the exact sum is 4 (C76). Rounding errors of a wavelet map add up over calls, at most 9T+2 units per addition.
* **Configuration (C77).** Unknown entries are skipped with a log message, but entries with unusable values end the program (`checkValid` is a CHECK): one operation with `once_every: {seconds: 0}`, or `range_sigma: 0.08` without unit, which falls back to the default 0, stops the server. `constant_ray` is listed as a measurement model but falls through the factory's switch, so that the integrator is silently missing; a misspelt map type gives hashed blocks, on which no wavelet integrator works. `tree_height: 40` and `min_log_odds: 1` pass the validity checks. The shipped wavemap_livox_mid360.yaml sets `reprojected_pointcloud_topic_name`, which no class reads.
* **Schemas (C78).** The JSON schemas offer `reprojected_pointcloud_topic_name` for both inputs and `projected_range_image_topic_name` for depth images, which the code does not read, and reject `only_publish_changed_blocks`, `undistorted_pointcloud_topic_name` and `projected_pointcloud_topic_name`, which it does. They accept non-positive cell widths and components without their necessary settings, which end the program.
* **Slice display (C79).** The layers of SliceVisual keep the cell width they were created with, and layers above the height of a new map are neither cleared nor removed, so loading a map with another resolution or fewer levels shows wrong squares until the display is switched off and on. The slice height is converted to an int without a check; equal limits in raw mode give the colour 0/0.
* **Probabilities (C80).** `logOddsToProbability` returns NaN instead of 1 for log-odds of 89 and more (inf / inf). The same formula colours cells in the displays. It can only be reached with a `max_log_odds` that high.
* `computeTreeTraversalDistance` gives the same number to two different nodes below an ancestor of height 22 (3D), because the Morton code of the lower node does not fit 64 bits. No caller uses it at such heights (C81_tall_refuted).
* The index hashes are accumulated in 32 bits (the initial value `0u` fixes the type) although the coefficients are `size_t`: the third coordinate wraps after 14 steps times 17191^2 (C82_region, C82_period). Harmless, but it makes collisions much more frequent than the 64 bit type suggests.
* `cell_width_to_height` (Python) and `convert::cellWidthToHeight` do not return "the minimum node height required to reach a given node width" exactly: a width of 1048576.125 m with cells of 1 m gives height 20, whose nodes are narrower (C83_minimal_refuted). The logarithm of widths just above a node width rounds to an integer. For widths below the cell width the result is negative instead of 0 (C83_negative_refuted).
* `termination_update_error` bounds the error of the probability that the measurement model computes, not of the log-odds update that is added to the map: with the same pixel and an accepted node the log-odds updates of node and cell differ by more (C84_update_error_refuted).
* Nodes at the edge between a near and a far pixel are accepted by the same test although the error bound only considers the distance along the ray: a cell that the measurement model assigns to free space is updated as occupied, with an error above termination_update_error (C84_edge_refuted).
* With a spherical (LiDAR) projection, a node above the sensor can be declared fully free from the elevations of its corners although a cell in it is seen at a higher elevation, in a pixel that hit it: the scan lowers the value of a cell that the measurement model assigns an occupied update to (C84_spherical_refuted).
* `ResourceMonitor::getCurrentRamUsageInKB` tests `eof()` after the search instead of whether a line was found: an entry in a last line without newline is reported as missing (C85_last_line_refuted). Linux ends the report with a newline and lists more fields after VmRSS, so this does not show there.
* C87: The integrators skip free nodes whose mean is below `min_log_odds + kNoiseThreshold` (chunked, 1e-3) or `min_log_odds + kNoiseThreshold / 10` (hashed, 1e-5). In a block of the default size (64^3 cells) that is saturated free space, one cell at the upper limit raises the mean by only 6/262144 = 2.3e-5, so the chunked integrator skips the block in every scan that sees it as free: the cell stays at the upper limit forever, also when threshold() is called in between (C87_chunked_cleared_refuted, C87_hidden). Up to 43 such cells can be hidden in one block.
* Indices outside the range of a WaveletOctree or VolumetricOctree are not rejected; they silently read and modify the cell with the coordinates wrapped around modulo 2^tree_height (C88_no_disturbance_refuted). Only in debug builds does a DCHECK stop very large coordinates.
* C89: the quasi-Euclidean generator's declared maximum over-estimate (kMaxRelativeOverEstimate, 13.5 %) does not hold inside obstacles. In a block of occupied cells with one free corner cell the centre cell gets -1.232 cell widths although the free cell is 0.866 away (42 % more): across the surface a cell's candidate is the step minus the other cell's distance, and a free corner whose face neighbours are occupied has distance 1/2, so the diagonal step counts sqrt 3 - 1/2 instead of sqrt 3 / 2. Both generators also report max_distance for a free cell that is separated from a close obstacle by unobserved cells.
* C90: `bit_ops::rotate_left(x, 0)` and `rotate_right(x, 0)` at the full width of the type shift by the width of the type, which is undefined (C90_rotate_nothing_refuted). For types narrower than int the mask is computed in int and has no effect, so `rotate_left<uint8_t, 4>` lets the bits above the fourth into the result (C90_rotate_narrow_refuted). `squeeze_in` builds its mask in int: positions from 31 on are undefined even for 64-bit words (C90_squeeze_in_high_refuted). wavemap itself calls none of the rotations and uses squeeze_in at positions below 4.
* **Logging levels (C91).** The conversion from the ROS server's levels to the library's tests `kInfo < id` where `kInfo <= id` is meant: the default level "info" becomes the invalid level -1. It is written to glog's threshold, where it happens to mean "print everything", so nothing is lost (`C91_conversion_refuted`, `C91_server`).
* C92: if `measurement_integrator_names` of a ROS input is neither a string nor a list, the warning that announces the kept default calls `StringList::toStr()` on the empty default, and `print::sequence` then reads `sequence[0]` of an empty vector (C92_keeps_default_refuted). The log message itself says that the default is kept.
* C93: `getMaxIndex` of the three hashed maps computes `cells_per_block_side * (max_block_index + 1) - 1`; if a block reaches coordinate 2^31 - 1 the product overflows although the result is representable (C93_max_index_refuted). C18 is stated over unbounded integers and holds up to this case.
* C94: `int_math::div_exp2_ceil` adds `exp2(exp)` before subtracting 1 and overflows for values within 2^exp of 2^31; `int_math::div_round_up(-1, 2)` is 1. `int_math::binomial` is undefined from n = 13 on (for m < n). No caller in the project uses such arguments.
## 4. Trusted base

* Coq's kernel (8.16.1) and `vm_compute` where used.
* `Print Assumptions` output of every property theorem (in the `P_*.v` files); section 5 lists the axioms.
* The reading of the C++ sources: the model is hand-written and not extracted from the code.

## 5. Axioms

The theorems of C01-C57 (except C44_rounded_sqrt, C44_rounded, C45_rounded and C56_rigid_partial), C61-C64, C67-C74 (except C74_ieee_*), C77-C79, C81, C82, C84-C94 (except C89_rounded_under and C89_rounded_reached) print `Closed under the global context`: they depend on no axiom. So do C65_direction_only, C65_increasing and C66_ouster_beam, which are about rationals.

The theorems of C58-C60, C65, C66, C75, C76, C80 and C83 and C44_rounded_sqrt, C44_rounded, C45_rounded, C89_rounded_under, C89_rounded_reached, C56_rigid_partial and C74_ieee_* are about real numbers and depend on axioms of Coq's standard library, of these four at most:
`ClassicalDedekindReals.sig_forall_dec`, `ClassicalDedekindReals.sig_not_dec` and
`FunctionalExtensionality.functional_extensionality_dep` (the construction of the real numbers), and
`Classical_Prop.classic` (trigonometric functions, Flocq).

`coqchk` lists the seven parameters of `Coq.ssr.ssrunder.Under_rel` (`Over_rel`, `Under_rel`, `Under_relE`,
`Under_rel_from_rel`, `over_rel`, `over_rel_done`, `under_rel_done`). They belong to Coq's own standard
library, are loaded indirectly, and no theorem uses them.

## 6. Mutation log

`seeded/LOG.jsonl` has one line per edit of the model that was rebuilt in a scratch copy.

* `first_failing_lemma` and `theorems_failed` are what the rebuild reported: the statements whose own proof script broke. This can be a helper lemma instead of a property theorem.
* `theorems_not_reached` are property theorems of the affected claims that no longer build because a file they import, or an earlier statement of their file, broke. Their own proofs were not tried, so the entry does not say that each of them is false of the edited program.
* `files_not_building` was observed for hand-written edits (`make -k`). About 490 lines come from random operator edits; those rebuilds stopped at the first broken file, and the list follows the imports.
* For the random edits `claim` is the title of the affected properties, not a hand-written analysis. Edits that gave ill-typed definitions (101) are not logged.
* A broken proof script shows that the proof depends on the edited text. It does not by itself show that the theorem is false of the edited program: a script can also break on a harmless edit.
* Lines with `outcome` are edits that no theorem noticed, or where the rebuild ran into its time limit; `note` says whether a theorem was tightened or why no claim is broken.
