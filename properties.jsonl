{"id": "C01", "title": "Haar transform is lossless in both directions", "statement": "Compressing the 2^dim child values of a node into one scale and 2^dim-1 detail coefficients and decompressing again returns exactly the original values, and decompressing then compressing returns exactly the original coefficients (exact arithmetic).", "quantifier": "all dimensions, all child value arrays, all coefficient arrays", "why_tests_cant": "The value space is continuous and the dimension is a template parameter; tests sample random arrays for dim 1-3 only.", "anchors": ["library/cpp/include/wavemap/core/map/cell_types/haar_transform.h: ForwardLifted, BackwardLifted", "library/cpp/include/wavemap/core/map/cell_types/impl/haar_transform_inl.h"]}
{"id": "C02", "title": "All Haar transform variants compute the same function", "statement": "The lifted, parallel and single-child implementations agree: the parallel forward/backward transforms equal the lifted ones, extracting one child with the single-child backward transform equals the corresponding entry of the full backward transform, and the single-child forward transform of an increment equals the change that recompressing the whole node would cause.", "quantifier": "all child indices and all value arrays (3D), every increment", "why_tests_cant": "Equality of two formulas over all real-valued inputs; random tests only show approximate equality on samples.", "anchors": ["library/cpp/include/wavemap/core/map/cell_types/impl/haar_transform_inl.h: ForwardParallel, BackwardParallel, ForwardSingleChild, BackwardSingleChild"]}
{"id": "C03", "title": "Morton codes round-trip and both implementations agree", "statement": "Decoding the Morton code of an index returns that index for every index that fits the code; the BMI2 (pdep/pext) and lookup-table implementations produce identical codes and identical decoded indices.", "quantifier": "all dimensions supported and all coordinates within the encodable range", "why_tests_cant": "2^60 codes; which implementation runs depends on the CPU the binary was built for, so a test run exercises only one of them.", "anchors": ["library/cpp/include/wavemap/core/utils/bits/morton_encoding.h: encode, decode", "library/cpp/include/wavemap/core/utils/bits/bit_operations.h: expand, compress"]}
{"id": "C04", "title": "Tree addressing by Morton code equals addressing by coordinates", "statement": "For every node and every ancestor height, the relative child index read from the Morton code equals the one obtained from the coordinates, parent(child(i)) is the identity, and a node's cell is the disjoint union of its children's cells.", "quantifier": "all node indices (including negative coordinates), all heights, all children", "why_tests_cant": "The statement ranges over all integers and heights; octree lookups are only correct if it holds for every one of them.", "anchors": ["library/cpp/include/wavemap/core/indexing/ndtree_index.h: NdtreeIndex::computeParentIndex, computeChildIndex, computeRelativeChildIndex", "library/cpp/include/wavemap/core/indexing/index_conversions.h: nodeIndexToMorton, morton_code_to_index"]}
{"id": "C05", "title": "Last common ancestor height is exact", "statement": "computeLastCommonAncestorHeight returns the smallest height, at or above both nodes, at which the two nodes have the same ancestor.", "quantifier": "all pairs of Morton codes and heights", "why_tests_cant": "Pairs of 60-bit codes; cached queries rely on both minimality and correctness.", "anchors": ["library/cpp/include/wavemap/core/indexing/ndtree_index.h / utils: computeLastCommonAncestorHeight"]}
{"id": "C06", "title": "Integer helpers match their mathematical meaning", "statement": "div_exp2_floor/ceil/remainder are floor, ceiling and Euclidean remainder of division by 2^e for negative inputs too; log2_floor/ceil are the floor/ceiling of the binary logarithm; num_total_nodes_fast equals the geometric series of nodes in a perfect tree for every supported height. A perfect tree has as many nodes as inner nodes and leaves together.", "quantifier": "all integers and exponents in the documented domain", "why_tests_cant": "The functions use shifts and masks whose behaviour on negatives and boundary widths must hold for every value.", "anchors": ["library/cpp/include/wavemap/core/utils/math/int_math.h", "library/cpp/include/wavemap/core/utils/math/tree_math.h"]}
{"id": "C07", "title": "Linear index is a bijection on the grid", "statement": "Converting a 3D index inside a block to a linear index and back is the identity, the linear index is in range, and the reverse round trip also is the identity.", "quantifier": "all cells_per_side, all in-range indices and linear indices", "why_tests_cant": "Holds for every template value of cells_per_side, not only 16.", "anchors": ["library/cpp/include/wavemap/core/indexing/index_conversions.h: indexToLinearIndex, linearIndexToIndex", "library/cpp/include/wavemap/core/data_structure/dense_grid.h"]}
{"id": "C08", "title": "Every cell belongs to exactly one block, negatives included", "statement": "Splitting an index into a block index and a cell index inside the block, and recombining, is the identity; the cell index is within [0,2^height); two different (block, cell) pairs never name the same cell.", "quantifier": "all integer indices, all block heights, all node heights up to the block height", "why_tests_cant": "Off-by-one errors around negative coordinates only appear for particular residues.", "anchors": ["library/cpp/include/wavemap/core/map/hashed_wavelet_octree.h: indexToBlockIndex, indexToCellIndex, cellAndBlockIndexToIndex", "library/cpp/include/wavemap/core/data_structure/spatial_hash.h", "library/cpp/include/wavemap/core/data_structure/impl/dense_block_hash_inl.h"]}
{"id": "C09", "title": "Point/index conversions are consistent", "statement": "The cell selected for a point contains that point, the index of a cell's centre is that cell, cell corners and centres are placed at the documented offsets, and a node at height h spans exactly the cells of its subtree.", "quantifier": "all points, cell widths and indices", "why_tests_cant": "Continuous domain; boundary points are measure-zero and not sampled by tests.", "anchors": ["library/cpp/include/wavemap/core/indexing/index_conversions.h: pointToNearestIndex, indexToCenterPoint, indexToMinCorner, nodeIndexToMinCornerIndex"]}
{"id": "C10", "title": "Wavelet octree: a written cell reads back, other cells do not change", "statement": "After setCellValue(index,v), getCellValue(index) returns v and every other smallest-resolution cell keeps its previous value; addToCellValue(index,d) changes that cell by exactly d and no other cell.", "quantifier": "all map contents reachable by any operation history, all indices in range, all values", "why_tests_cant": "The octree stores differences along the path; one wrong coefficient perturbs up to 8^h other cells. Histories are unbounded.", "anchors": ["library/cpp/src/core/map/wavelet_octree.cc: setCellValue, addToCellValue", "library/cpp/include/wavemap/core/map/impl/wavelet_octree_inl.h: getCellValue"]}
{"id": "C11", "title": "Hashed wavelet octree: a written cell reads back, other cells do not change", "statement": "As C10 for the hashed wavelet octree, across block boundaries and negative coordinates, with lazily allocated blocks.", "quantifier": "all reachable maps, all integer indices, all values, all tree heights", "why_tests_cant": "Block hashing plus octree recursion; interference may occur only between particular blocks.", "anchors": ["library/cpp/include/wavemap/core/map/hashed_wavelet_octree.h", "library/cpp/src/core/map/hashed_wavelet_octree_block.cc"]}
{"id": "C12", "title": "Log-odds accumulate", "statement": "Starting from an empty map, after any sequence of addToCellValue updates the value of a cell is the sum of the increments addressed to it.", "quantifier": "all finite sequences of updates, any interleaving over cells and blocks", "why_tests_cant": "Unbounded histories.", "anchors": ["library/cpp/src/core/map/hashed_wavelet_octree_block.cc: addToCellValue", "library/cpp/src/core/map/wavelet_octree.cc"]}
{"id": "C13", "title": "Coarse queries return averages", "statement": "Querying a node at height h returns the mean of the values of the smallest cells it contains; setting or adding at height h shifts all contained cells by the same amount.", "quantifier": "all reachable maps, all node indices with height up to the tree height", "why_tests_cant": "Relates one coarse read to 8^h fine reads.", "anchors": ["library/cpp/include/wavemap/core/map/hashed_wavelet_octree.h: getCellValue(OctreeIndex)", "library/cpp/src/core/map/hashed_wavelet_octree_block.cc: setCellValue, addToCellValue"]}
{"id": "C14", "title": "Thresholding clamps every cell and nothing else", "statement": "After threshold() each cell's value is its previous value clamped to [min_log_odds, max_log_odds]; hence all values are in range and a second threshold() changes nothing.", "quantifier": "all reachable maps and all cells", "why_tests_cant": "The recursion rewrites all coefficients; its effect on each cell must hold for every tree shape.", "anchors": ["library/cpp/src/core/map/wavelet_octree.cc: recursiveThreshold", "library/cpp/src/core/map/hashed_wavelet_octree_block.cc: threshold"]}
{"id": "C15", "title": "Pruning does not change what the map says (within noise)", "statement": "prune() changes no cell by more than a stated small bound on an already thresholded map, removes only subtrees or blocks that carry no information beyond that bound, and a second prune of the same map keeps within the same bound.", "quantifier": "all reachable maps and cells", "why_tests_cant": "Data loss occurs only for particular coefficient patterns; documented as lossless.", "anchors": ["library/cpp/src/core/map/wavelet_octree.cc: recursivePrune", "library/cpp/src/core/map/hashed_wavelet_octree_block.cc: prune", "library/cpp/src/core/map/hashed_wavelet_octree.cc: prune, pruneSmart"]}
{"id": "C16", "title": "The three wavelet maps are interchangeable", "statement": "For any sequence of set/add/threshold operations and any query, the plain, hashed and hashed-chunked wavelet octrees return the same value (for indices inside the plain octree's range).", "quantifier": "all operation sequences, all query indices and heights", "why_tests_cant": "Observational equivalence over unbounded histories.", "anchors": ["library/cpp/include/wavemap/core/map/wavelet_octree.h", "library/cpp/include/wavemap/core/map/hashed_wavelet_octree.h", "library/cpp/include/wavemap/core/map/hashed_chunked_wavelet_octree.h"]}
{"id": "C17", "title": "Leaf iteration covers space once and agrees with queries", "statement": "forEachLeaf visits pairwise disjoint cells that together cover each allocated block exactly once, and reports for each the value that getCellValue returns for every cell inside it.", "quantifier": "all reachable maps", "why_tests_cant": "Coverage and disjointness over all tree shapes.", "anchors": ["library/cpp/src/core/map/wavelet_octree.cc: forEachLeaf", "library/cpp/src/core/map/hashed_wavelet_octree_block.cc: forEachLeaf"]}
{"id": "C18", "title": "Map bounds contain all data", "statement": "Every cell with a non-default value lies between getMinIndex() and getMaxIndex().", "quantifier": "all reachable maps", "why_tests_cant": "Quantifies over all cells of all reachable maps, including negative blocks and maps that lost blocks by pruning.", "anchors": ["library/cpp/src/core/map/hashed_wavelet_octree.cc: getMinIndex, getMaxIndex", "library/cpp/include/wavemap/core/data_structure/spatial_hash.h: getMinBlockIndex, getMaxBlockIndex"]}
{"id": "C19", "title": "Accelerated queries equal direct queries", "statement": "A query accelerator returns, for each query in any sequence of queries on an unchanged map, exactly (bit for bit) the value a direct getCellValue returns. Accelerators that also allocate (block hashes, generic octree block hashes) give, for any mix of reads and getOrAllocate updates, the same reads and the same final map as the calls made directly on the map.", "quantifier": "all maps, all query sequences of positions and heights", "why_tests_cant": "The cached stack depends on the whole query history.", "anchors": ["library/cpp/include/wavemap/core/utils/query/query_accelerator.h", "library/cpp/src/core/utils/query/query_accelerator.cc"]}
{"id": "C20", "title": "Fresh, cleared and empty maps read as unobserved", "statement": "A new or cleared map returns 0 for every cell; a map that reports empty() has all values within the unobserved band.", "quantifier": "all indices; all histories ending in clear()", "why_tests_cant": "All indices, all histories.", "anchors": ["library/cpp/include/wavemap/core/map/map_base.h", "library/cpp/src/core/map/wavelet_octree.cc: empty, clear", "library/cpp/src/core/map/hashed_wavelet_octree_block.cc: empty"]}
{"id": "C21", "title": "Hashed blocks map: write, read, accumulate, threshold, prune", "statement": "setCellValue/getCellValue/addToCellValue on the dense-block map behave as a map from indices to values (adds are clamped), prune() never changes any returned value; threshold() brings all values into range.", "quantifier": "all histories, all indices", "why_tests_cant": "Unbounded histories, negative coordinates.", "anchors": ["library/cpp/include/wavemap/core/map/hashed_blocks.h", "library/cpp/src/core/map/hashed_blocks.cc", "library/cpp/include/wavemap/core/data_structure/impl/dense_block_hash_inl.h"]}
{"id": "C22", "title": "Volumetric octree: write, read, iterate", "statement": "Leaf-level writes read back and do not disturb other cells; the value reported by leaf iteration and by a query agree; pruning does not change returned values.", "quantifier": "all histories of leaf and coarse writes", "why_tests_cant": "Interplay of coarse and fine writes over unbounded histories.", "anchors": ["library/cpp/src/core/map/volumetric_octree.cc", "library/cpp/include/wavemap/core/map/impl/volumetric_octree_inl.h"]}
{"id": "C23", "title": "Saved hashed-blocks maps load back identically", "statement": "Writing a hashed-blocks map to a stream and reading it returns a map with the same configuration and the same value for every cell.", "quantifier": "all maps", "why_tests_cant": "All contents, sizes and block sets; byte-level format.", "anchors": ["library/cpp/src/io/stream_conversions.cc: mapToStream(HashedBlocks), streamToMap(HashedBlocks)", "library/cpp/include/wavemap/io/impl/streamable_types_impl.h"]}
{"id": "C24", "title": "Saved wavelet octrees load back identically", "statement": "Writing a wavelet octree to a stream and reading it returns the same configuration, tree and values bit for bit.", "quantifier": "all maps", "why_tests_cant": "All tree shapes and coefficient values.", "anchors": ["library/cpp/src/io/stream_conversions.cc: mapToStream(WaveletOctree), streamToMap(WaveletOctree)"]}
{"id": "C25", "title": "Saved hashed wavelet octrees load back with the same occupancy", "statement": "Writing a hashed wavelet octree and reading it back yields the same value for every cell whose enclosing nodes are not saturated, and never turns an occupied cell into a free one.", "quantifier": "all maps", "why_tests_cant": "The writer discards subtrees based on averages; only rare patterns expose the loss.", "anchors": ["library/cpp/src/io/stream_conversions.cc: mapToStream(HashedWaveletOctree), streamToMap(HashedWaveletOctree)"]}
{"id": "C26", "title": "Chunked maps and hashed maps share one file format", "statement": "A hashed-chunked wavelet octree written to a stream and loaded (as a hashed wavelet octree) returns the same values the original would after its own save/load.", "quantifier": "all chunked maps", "why_tests_cant": "All tree shapes across chunk boundaries.", "anchors": ["library/cpp/src/io/stream_conversions.cc: mapToStream(HashedChunkedWaveletOctree)"]}
{"id": "C27", "title": "Loading never runs away and reports truncation", "statement": "Reading any byte string terminates; if the stream is a strict prefix of a valid file, or of unknown type, loading reports failure and the caller's map is left unset as documented.", "quantifier": "all byte strings", "why_tests_cant": "Arbitrary corrupt inputs.", "anchors": ["library/cpp/src/io/stream_conversions.cc: streamToMap(MapBase)", "library/cpp/src/io/file_conversions.cc"]}
{"id": "C28", "title": "Occupancy classification is a partition", "statement": "Each value is exactly one of unobserved, free, occupied; is/has/isFully on bitmasks mean membership, intersection and inclusion.", "quantifier": "all values, thresholds and masks", "why_tests_cant": "All float values and all masks.", "anchors": ["library/cpp/include/wavemap/core/utils/query/occupancy_classifier.h", "library/cpp/include/wavemap/core/utils/query/occupancy.h"]}
{"id": "C29", "title": "A classified map answers like the occupancy map", "statement": "After building a classified map, has(node, o) is true iff some smallest cell of the node has class o, and isFully(node, o) iff all have, for every node inside an allocated block. The minimum and maximum index of the map span exactly the cells of the allocated blocks.", "quantifier": "all occupancy maps, nodes and classes", "why_tests_cant": "Relates tree summaries to all contained cells.", "anchors": ["library/cpp/src/core/utils/query/classified_map.cc: update, recursiveClassifier, has, isFully"]}
{"id": "C30", "title": "Incremental classified-map updates equal a rebuild; cached queries equal uncached", "statement": "After any sequence of occupancy map changes and update() calls the classified map answers as one freshly built; the query cache answers any sequence of queries like uncached queries.", "quantifier": "all histories of map changes, updates and queries", "why_tests_cant": "History-dependent state.", "anchors": ["library/cpp/src/core/utils/query/classified_map.cc", "library/cpp/include/wavemap/core/utils/query/classified_map.h: QueryCache"]}
{"id": "C31", "title": "Thread pool runs each task once and wait_all waits for all", "statement": "Under every interleaving each submitted task runs exactly once; wait_all returns only when all tasks submitted before it are finished; no wake-up is lost; destruction runs all queued tasks and joins.", "quantifier": "all schedules, numbers of workers and tasks", "why_tests_cant": "Interleavings cannot be enumerated by tests.", "anchors": ["library/cpp/include/wavemap/core/utils/thread_pool.h", "library/cpp/src/core/utils/thread_pool.cc"]}
{"id": "C32", "title": "Grid iteration visits every index of the box exactly once", "statement": "Iterating a Grid(min,max) with min <= max on every axis visits exactly the indices i with min <= i <= max, each once, in order, and terminates. In 32-bit ints this holds of the boxes that do not reach the last int (2^31-1) along any axis; iterating over any other box runs into signed overflow.", "quantifier": "all dimensions, all boxes", "why_tests_cant": "Box sizes and dimension unbounded.", "anchors": ["library/cpp/include/wavemap/core/utils/iterate/grid_iterator.h"]}
{"id": "C33", "title": "Ray iteration is a connected path between the endpoints", "statement": "Iterating a ray visits the start cell first, the end cell last, each step moves to a face neighbour toward the end, visits 1 + L1 distance cells, without repetition. The visited cells all meet the segment, in the order in which the segment passes them, and every cell whose interior the segment meets is visited.", "quantifier": "all start/end points and cell widths", "why_tests_cant": "Continuous end points; ties and boundary-aligned points are not sampled.", "anchors": ["library/cpp/include/wavemap/core/utils/iterate/ray_iterator.h"]}
{"id": "C34", "title": "Subtree iterators visit each allocated node exactly once in the promised order", "statement": "Pre-order, post-order and breadth-first iteration visit each node of the subtree exactly once, parents before children, children before parents, and by non-increasing height respectively.", "quantifier": "all trees", "why_tests_cant": "All tree shapes.", "anchors": ["library/cpp/include/wavemap/core/utils/iterate/subtree_iterator.h", "library/cpp/include/wavemap/core/utils/iterate/impl/subtree_iterator_inl.h"]}
{"id": "C35", "title": "Neighbourhood offsets are complete and exact", "statement": "The index offsets generated for an adjacency mask are exactly the offsets in {-1,0,1}^dim with a matching adjacency type, each once; the number equals the advertised count; the node adjacency test holds iff the closed cells touch.", "quantifier": "all masks, dimensions, node pairs", "why_tests_cant": "All nodes at all heights.", "anchors": ["library/cpp/include/wavemap/core/utils/neighbors/adjacency.h", "library/cpp/include/wavemap/core/utils/neighbors/grid_neighborhood.h", "library/cpp/include/wavemap/core/utils/neighbors/ndtree_adjacency.h"]}
{"id": "C36", "title": "Interpolation interpolates", "statement": "Trilinear interpolation returns the stored value at a cell centre, stays between the minimum and maximum of the eight surrounding cells, reproduces affine fields exactly and is independent of which side approaches a cell-centre plane; nearest-neighbour returns the value of the containing cell.", "quantifier": "all maps, points and cell widths", "why_tests_cant": "Continuous domain.", "anchors": ["library/cpp/include/wavemap/core/utils/query/map_interpolator.h", "library/cpp/include/wavemap/core/utils/query/impl/map_interpolator_inl.h"]}
{"id": "C37", "title": "Bucket queue returns elements in bucket order and loses none", "statement": "Every pushed element is popped exactly once; front() returns an element of the lowest non-empty bucket, FIFO within a bucket; size/empty are exact.", "quantifier": "all push/pop histories", "why_tests_cant": "Unbounded histories with a cached first-bucket hint.", "anchors": ["library/cpp/include/wavemap/core/data_structure/bucket_queue.h", "library/cpp/include/wavemap/core/data_structure/impl/bucket_queue_inl.h"]}
{"id": "C38", "title": "Sparse vector behaves as an array of optionals", "statement": "Presence tests, reads, writes and the size of the bit-mask compressed vector agree with an array of optional values; elements never written read as the default.", "quantifier": "all operation histories and capacities up to the bitset size", "why_tests_cant": "Unbounded histories.", "anchors": ["library/cpp/include/wavemap/core/data_structure/sparse_vector.h"]}
{"id": "C39", "title": "Hierarchical range bounds are conservative", "statement": "The lower/upper range bound returned for an image rectangle is never above/below the range of any pixel in it, and 'has unobserved' is true whenever some pixel in it is unobserved.", "quantifier": "all images, sizes, rectangles, including wrapping azimuth", "why_tests_cant": "All images and rectangles; a single miss causes dropped obstacles.", "anchors": ["library/cpp/include/wavemap/core/integrator/projective/coarse_to_fine/hierarchical_range_bounds.h", "library/cpp/include/wavemap/core/integrator/projective/coarse_to_fine/impl/hierarchical_range_bounds_inl.h"]}
{"id": "C40", "title": "Update-type decisions are sound", "statement": "If a node is declared fully unobserved then no measured ray can affect it; if declared fully free then every pixel it may project to measured a range beyond it.", "quantifier": "all images, rectangles and range intervals", "why_tests_cant": "All images and boxes.", "anchors": ["library/cpp/include/wavemap/core/integrator/projective/coarse_to_fine/range_image_intersector.h", "library/cpp/include/wavemap/core/integrator/projective/coarse_to_fine/impl/range_image_intersector_inl.h"]}
{"id": "C41", "title": "Coarse-to-fine integration adds the chosen sample to each cell", "statement": "Integrating a measurement changes each cell of the map by the sample computed for the node chosen to represent it (clamped to the value range), leaves skipped nodes unchanged, and the effect on a cell does not depend on unrelated cells or on the order in which blocks are processed.", "quantifier": "all maps, all update-type/sample oracles, all block orders", "why_tests_cant": "Map contents, measurement and parallel schedule.", "anchors": ["library/cpp/src/core/integrator/projective/coarse_to_fine/wavelet_integrator.cc", "library/cpp/src/core/integrator/projective/coarse_to_fine/hashed_wavelet_integrator.cc", "library/cpp/src/core/integrator/projective/coarse_to_fine/hashed_chunked_wavelet_integrator.cc"]}
{"id": "C42", "title": "Lazy thresholding is sound", "statement": "After any sequence of edits and integrations, threshold() brings every value of every hashed wavelet block into range, although blocks are skipped when their needs-thresholding flag is not set.", "quantifier": "all histories", "why_tests_cant": "The flag must be right after every history.", "anchors": ["library/cpp/include/wavemap/core/map/hashed_wavelet_octree_block.h", "library/cpp/src/core/map/hashed_wavelet_octree_block.cc", "library/cpp/src/core/integrator/projective/coarse_to_fine/hashed_wavelet_integrator.cc"]}
{"id": "C43", "title": "Importing a point cloud keeps the closest return per pixel", "statement": "After importing a point cloud, each pixel of the range image holds the smallest valid range of the points projected into it (or 0 if none), irrespective of the order of the points.", "quantifier": "all point clouds and orders", "why_tests_cant": "All permutations and collisions.", "anchors": ["library/cpp/src/core/integrator/projective/projective_integrator.cc: importPointcloud"]}
{"id": "C44", "title": "Distance fields have the right sign, bound and support", "statement": "Generated (quasi-)Euclidean distance fields are negative exactly inside occupied space, never set unobserved cells, never exceed the maximum distance in magnitude, and generation terminates.", "quantifier": "all occupancy maps", "why_tests_cant": "All maps; propagation order.", "anchors": ["library/cpp/src/core/utils/sdf/quasi_euclidean_sdf_generator.cc", "library/cpp/src/core/utils/sdf/full_euclidean_sdf_generator.cc"]}
{"id": "C45", "title": "Measurement models are bounded and monotone", "statement": "The inverse sensor models give probabilities in their scaled range, non-decreasing in the cell-to-beam distance along the ray up to the surface, zero beyond the truncation region; the piecewise cubic approximation is a continuous cumulative distribution.", "quantifier": "all distances, ranges and parameter values", "why_tests_cant": "Continuous domain.", "anchors": ["library/cpp/include/wavemap/core/integrator/measurement_model/approximate_gaussian_distribution.h", "library/cpp/include/wavemap/core/integrator/measurement_model/impl/continuous_ray_inl.h", "library/cpp/include/wavemap/core/integrator/measurement_model/impl/continuous_beam_inl.h"]}
{"id": "C46", "title": "Axis-aligned boxes", "statement": "A box built by including points contains all of them and is the smallest such box; closest/furthest points and min/max offsets and distances are the true extremes over the box.", "quantifier": "all point sets, query points and boxes in any dimension", "why_tests_cant": "Continuous domain.", "anchors": ["library/cpp/include/wavemap/core/data_structure/aabb.h"]}
{"id": "C47", "title": "Configuration parsing keeps defaults on error and converts units", "statement": "A type name maps to its id and back, unknown names are invalid; loading a config never fails on unknown or mistyped entries but keeps the default value of that member and sets every well-typed one; units convert to SI and mismatching units are rejected.", "quantifier": "all parameter maps and names", "why_tests_cant": "All parameter trees.", "anchors": ["library/cpp/include/wavemap/core/config/impl/type_selector_inl.h", "library/cpp/include/wavemap/core/config/impl/config_base_inl.h", "library/cpp/include/wavemap/core/config/impl/value_with_unit_inl.h", "library/cpp/src/core/config/value_with_unit.cc"]}
{"id": "C48", "title": "Incremental map transmission keeps subscribers in sync", "statement": "After each publication a subscriber that received all messages holds, for every block of the publisher's map, the block's current (thresholded) content and no other blocks.", "quantifier": "all histories of updates, prunes and publications", "why_tests_cant": "History and timing dependent.", "anchors": ["interfaces/ros1/wavemap_ros/include/wavemap_ros/map_operations/impl/publish_map_operation_inl.h", "interfaces/ros1/wavemap_ros_conversions/src/map_msg_conversions.cc"]}
{"id": "C49", "title": "Smart pruning only touches stale blocks", "statement": "pruneSmart() leaves blocks updated within the configured period untouched and acts as prune() on the others.", "quantifier": "all maps and clocks", "why_tests_cant": "All histories and clocks.", "anchors": ["library/cpp/src/core/map/hashed_wavelet_octree.cc: pruneSmart"]}
{"id": "C50", "title": "Pipelines run integrators in order and operations when due", "statement": "Integrators are looked up by unique name and run in the requested order, stopping at the first unknown name; operations run in registration order exactly when forced or when more than the configured period has elapsed since their last run.", "quantifier": "all pipelines, request lists, and clocks", "why_tests_cant": "All histories.", "anchors": ["library/cpp/src/pipeline/pipeline.cc", "library/cpp/include/wavemap/pipeline/impl/pipeline_inl.h", "library/cpp/src/pipeline/map_operations/prune_map_operation.cc"]}
{"id": "C51", "title": "Image index conversions", "statement": "Pixel index to image coordinates and back to the nearest index is the identity; the four nearest indices surround the coordinate; reported offsets are the differences between the pixel centres and the coordinate.", "quantifier": "all image coordinates, scales and offsets", "why_tests_cant": "Continuous domain.", "anchors": ["library/cpp/include/wavemap/core/integrator/projection_model/impl/projector_base_inl.h", "library/cpp/include/wavemap/core/integrator/projection_model/circular_projector.h"]}
{"id": "C52", "title": "Spatial hash behaves as a finite map", "statement": "Blocks are found iff inserted and not erased; erasing by predicate removes exactly the matching blocks; the block bounds are the componentwise minimum and maximum.", "quantifier": "all histories", "why_tests_cant": "All histories.", "anchors": ["library/cpp/include/wavemap/core/data_structure/spatial_hash.h", "library/cpp/include/wavemap/core/data_structure/impl/spatial_hash_inl.h"]}
{"id": "C53", "title": "Chunked octree behaves like the plain octree", "statement": "Node lookup, allocation, child tests and erasure on the chunked tree agree with a pointer-per-node octree holding the same data, for nodes inside and across chunks. The height of the tree is the requested one rounded up to whole chunks.", "quantifier": "all histories of allocations, writes and erasures; all heights", "why_tests_cant": "Chunk offsets and masks differ per depth; all shapes.", "anchors": ["library/cpp/include/wavemap/core/data_structure/chunked_ndtree/impl/chunked_ndtree_inl.h", "library/cpp/include/wavemap/core/data_structure/chunked_ndtree/impl/chunked_ndtree_chunk_inl.h", "library/cpp/include/wavemap/core/data_structure/chunked_ndtree/impl/chunked_ndtree_node_address_inl.h"]}
{"id": "C54", "title": "Octree containers are ancestor-closed finite maps", "statement": "A generic octree, plain or in hashed blocks, stores data per node index: writing to a node creates its missing ancestors with the default value and changes no other node; every ancestor of an existing node exists; erasing a node removes exactly it and its descendants; pruning removes exactly the nodes without non-zero data at or below them; ancestor lookup returns the deepest existing node; leaf iteration covers each cell of the allocated blocks exactly once with the value of that node. The membership tests answer whether a node is stored, and size is the number of stored nodes.", "quantifier": "all trees, node indices (signed for the hashed version), heights and histories of writes, erasures and prunes", "why_tests_cant": "All shapes of trees and all histories.", "anchors": ["library/cpp/include/wavemap/core/data_structure/ndtree/ndtree.h Ndtree", "library/cpp/include/wavemap/core/data_structure/ndtree_block_hash.h NdtreeBlockHash"]}
{"id": "C55", "title": "Ray tracing integration updates exactly the cells along the ray", "statement": "Integrating a posed point cloud by ray tracing changes each cell by the updates of the usable points, in their order: a point gives a cell at most one update, it gives one if the part of the segment from the sensor to the point that is within max_range passes through the interior of the cell, and none if that part does not meet the cell; the update is the occupied log-odds in the cell of the measured point and the free log-odds elsewhere. NaN, infinite, too close or too distant points and poses with a NaN position change nothing.", "quantifier": "all clouds, poses, cell widths, ranges and map states reachable by any history", "why_tests_cant": "Continuous geometry: every segment direction, cut at max_range and overlap of rays.", "anchors": ["library/cpp/src/core/integrator/ray_tracing/ray_tracing_integrator.cc", "library/cpp/include/wavemap/core/integrator/impl/integrator_base_inl.h", "library/cpp/include/wavemap/core/integrator/measurement_model/constant_ray.h"]}
{"id": "C56", "title": "Motion undistortion moves each point by the pose at its own time", "statement": "Undistorting a stamped point cloud keeps its points: the result lists them in the order of their times, and the world position of each is the measured position moved by the sensor pose at the time of that point, interpolated between the two neighbouring sampled transforms; the pose of the result is the one at the time of the median point. For a sensor that does not move the points are unchanged. The call fails exactly if the transform one sampling period before the first or after the last point is not available, and says which one. The start, median and end times of a cloud are those of its earliest point, of a point with at most half of the points before and at most half after it, and of its latest point.", "quantifier": "all clouds in any point order, times, numbers of intervals and transform histories without gaps", "why_tests_cant": "Every cloud, duplicate times, unsigned time arithmetic and sampling grid; the interpolation index is carried from point to point.", "anchors": ["library/cpp/src/core/utils/undistortion/pointcloud_undistortion.cc:compensate_motion", "library/cpp/src/core/utils/undistortion/stamped_pointcloud.cc", "interfaces/ros1/wavemap_ros/src/utils/pointcloud_undistorter.cc:undistortPointcloud"]}
{"id": "C57", "title": "Queued sensor messages are integrated in order, once, with the pose at their own time", "statement": "For each input topic and any interleaving of received messages, timer calls and arriving transforms: the accepted messages leave the queue in the order of arrival, each at most once, and none is lost. An integrated point cloud has exactly the points of its message and the transform from the sensor frame to the world frame at the message's stamp plus the configured offset (with undistortion: the undistorted cloud of C56); the same for depth images. A point cloud is dropped only if a cloud received since ends more than max_wait_for_pose after its start (with undistortion also if the transform before its start is not available); a depth image only if its pose is not available and a newer image is at least max_wait_for_pose ahead. After a timer call a message is left in the queue only if a transform that it needs was not available.", "quantifier": "all configurations, message contents, histories of messages, timer calls and transform buffer states", "why_tests_cant": "All interleavings of messages and transforms, with time differences in unsigned arithmetic.", "anchors": ["interfaces/ros1/wavemap_ros/src/inputs/pointcloud_topic_input.cc", "interfaces/ros1/wavemap_ros/src/inputs/depth_image_topic_input.cc", "interfaces/ros1/wavemap_ros/src/inputs/ros_input_base.cc", "interfaces/ros1/wavemap_ros/src/utils/tf_transformer.cc"]}
{"id": "C58", "title": "Poses compose, invert and move points rigidly", "statement": "The product of two poses moves every point as applying the right one and then the left one; the inverse undoes the motion; the identity moves nothing. A pose preserves distances and orientation and rotates about an axis by an angle (the angle and axis of the quaternion). Moving a set of points moves each of them. Products, inverses and the unique representation of accepted poses never abort. Two unit quaternions have the same unique representation exactly if they are the same rotation. A posed object offers the pose, its inverse and both rotation matrices consistently.", "quantifier": "all poses, points and point sets (real coordinates)", "why_tests_cant": "Continuous space of poses and points; the accepted quaternions include non-unit ones.", "anchors": ["library/cpp/include/wavemap/3rd_party/minkindr/quat-transformation.h", "library/cpp/include/wavemap/3rd_party/minkindr/rotation-quaternion.h", "library/cpp/include/wavemap/3rd_party/minkindr/impl/rotation-quaternion-inl.h", "library/cpp/include/wavemap/core/data_structure/posed_object.h"]}
{"id": "C59", "title": "Interpolated poses move along the straight line and turn at constant speed", "statement": "For two accepted poses a, b and a factor in [0, 1], interpolation yields an accepted pose whose position is on the segment between the two positions; factor 0 yields a, factor 1 moves all points as b; swapping a and b and taking 1 minus the factor yields the same motion. The rotation is that of a, followed by the factor times the turn of at most half a revolution about a fixed axis that leads to b. If the two orientations almost coincide, it differs from both by at most 1/1000 of the distance. Factors outside [0, 1] abort.", "quantifier": "all pairs of poses and all factors (real numbers)", "why_tests_cant": "Continuous space of pairs of poses, with quaternion sign and small angle special cases.", "anchors": ["library/cpp/include/wavemap/3rd_party/minkindr/impl/quat-transformation-inl.h", "library/cpp/include/wavemap/3rd_party/minkindr/quat-transformation.h"]}
{"id": "C60", "title": "Rotation matrices and poses convert into each other without changing the rotation", "statement": "The matrix of a pose has orthonormal rows and determinant 1 and maps each vector as the pose does; the matrix of the inverse is the transpose. Conversely each rotation matrix is accepted and yields a unit quaternion with exactly this matrix. Converting to a matrix and back yields the same unique representation. Matrices with negative determinant, and those whose rows are not orthonormal up to 1.0001e-5, abort.", "quantifier": "all unit quaternions and all 3x3 matrices (real numbers)", "why_tests_cant": "The conversion has four branches chosen by the trace and the largest diagonal entry; the matrices where they meet are easily missed.", "anchors": ["library/cpp/include/wavemap/3rd_party/minkindr/impl/rotation-quaternion-inl.h", "library/cpp/include/wavemap/3rd_party/minkindr/rotation-quaternion.h"]}
{"id": "C61", "title": "A scan integrated coarse-to-fine changes each cell of the octree by the update of exactly one node", "statement": "Integrating a scan with the coarse-to-fine integrator terminates, and adds to each cell of the map the update of the one node at which the descent towards this cell ends: the first node on the way from the top that is fully unobserved (update 0) or accurate enough, or else the cell itself; updates of at most 1e-6 are dropped. No cell is updated twice or left out. After thresholding, queries return the clamped sum up to (tree height + 1) * 1e-6.", "quantifier": "all maps reachable by map operations, all scans (classification, update and error bound as arbitrary functions of the node), all cells of the octree", "why_tests_cant": "The traversal depends on the scan at each of the nodes of the octree; tests cover few scans and never check all cells.", "anchors": ["library/cpp/src/core/integrator/projective/coarse_to_fine/coarse_to_fine_integrator.cc", "library/cpp/include/wavemap/core/map/impl/volumetric_octree_inl.h"]}
{"id": "C62", "title": "Fixed resolution integration updates each cell near the scan's bounding box exactly once", "statement": "Integrating a cloud or a range image with the fixed resolution integrator terminates. Each cell whose centre is less than the padding plus one cell beyond the bounding box (of the sensor and the used points clipped to max_range; for images of the sensor and the four image corners at max_range) receives the update that the measurement model assigns to its centre exactly once, unless it is at most 1e-6; no other cell changes. For all five map types. Cells within the padding of a segment from the sensor to a used point, and cells inside the frustum of a pinhole camera, are always among them.", "quantifier": "all projection and measurement models, poses, clouds and range images, all cells, all map states reached by histories of calls", "why_tests_cant": "The box depends on pose, scan and cell width; a missing layer of cells at one side of the box shows only for particular scans.", "anchors": ["library/cpp/src/core/integrator/projective/fixed_resolution/fixed_resolution_integrator.cc", "library/cpp/include/wavemap/core/utils/iterate/grid_iterator.h", "library/cpp/include/wavemap/core/integrator/projective/impl/projective_integrator_inl.h"]}
{"id": "C63", "title": "Obstacle point clouds list exactly the cells above the threshold, and together announce every obstacle", "statement": "A published obstacle point cloud contains the centre of each cell of the finest resolution whose log-odds exceed the configured threshold (with only_publish_changed_blocks: in blocks changed since the last publication), each exactly once, and nothing else, for all five map types. For the hashed wavelet maps a subscriber that collects all messages has every obstacle of the current map, in spite of the restriction to changed blocks; if the map was pruned, this holds for cells above the threshold by more than the pruning error. Not true: that messages tell which obstacles vanished, and that a change with the time stamp of a publication is announced later.", "quantifier": "all histories of map calls and publication attempts (forced or periodic, at any times in order), all thresholds, cell widths, cells", "why_tests_cant": "Which blocks are sent depends on time stamps of all earlier calls and publications; an obstacle that is lost once is never sent again.", "anchors": ["interfaces/ros1/wavemap_ros/src/map_operations/publish_pointcloud_operation.cc", "library/cpp/include/wavemap/core/map/hashed_wavelet_octree_block.h: getLastUpdatedStamp, forEachLeaf", "library/cpp/include/wavemap/core/utils/iterate/grid_iterator.h"]}
{"id": "C64", "title": "Cropping removes exactly the blocks beyond the distance and changes nothing else", "statement": "A run of the map cropper that is due (or forced) and finds the robot's position keeps exactly those blocks of a hashed wavelet map of which some cell is within remove_blocks_beyond_distance of the robot, with unchanged contents; every cell within that distance keeps its value, and cells of blocks entirely beyond it read as unknown. A run that is not due or does not find the position changes nothing. Maps produced by arbitrary mixtures of calls and cropping runs are maps that calls alone can produce. Not true: that the map is cropped once more than the period has passed since it was last cropped; a failed lookup also starts a new period.", "quantifier": "all positions, distances, cell widths and tree heights, all map states reached by calls, all cells, all times; both hashed wavelet maps", "why_tests_cant": "The decision depends on the position relative to each block's faces, edges and corners; losing a block that is within the distance destroys map data silently.", "anchors": ["interfaces/ros1/wavemap_ros/src/map_operations/crop_map_operation.cc", "library/cpp/include/wavemap/core/data_structure/aabb.h: minDistanceTo", "library/cpp/include/wavemap/core/indexing/index_conversions.h: nodeIndexToAABB", "library/cpp/include/wavemap/core/data_structure/impl/spatial_hash_inl.h: eraseBlockIf"]}
{"id": "C65", "title": "The approximate arc tangent is as accurate as documented", "statement": "For every point except the origin, in every quadrant and on the axes, the approximate atan2 that the lidar projection models use returns the angle of the direction towards that point, in (-pi, pi] with the sign of y: up to at most the documented worst case error of 1.908e-6 rad in exact arithmetic with the single precision coefficients, and up to 2.6e-6 rad, without overflow or NaN, when every operation is rounded to single precision. (The documented constant itself is exceeded in single precision.) A zero x has to be a positive zero: for x = -0 the result points to the opposite side. At the origin the result is NaN.", "quantifier": "all pairs of coordinates y, x other than (0, 0), with all sign bits their zeros can have; real numbers and all finite IEEE binary32 floats, including subnormal ones", "why_tests_cant": "A continuum of directions; the error of a polynomial approximation has many local extrema that samples miss, and the quadrant corrections and signed zeros are case distinctions that random samples never hit.", "anchors": ["library/cpp/include/wavemap/core/utils/math/approximate_trigonometry.h: approximate::atan, approximate::atan2, kWorstCaseError", "library/cpp/include/wavemap/core/utils/data/constants.h: kPi, kHalfPi"]}
{"id": "C66", "title": "Projecting a point to sensor coordinates and back returns the point", "statement": "For the pinhole camera, spherical and Ouster projection models: sensorToCartesian(cartesianToSensor(p)) is p, exactly for the pinhole camera and points in front of it, up to 2.7e-6 times the distance for the spherical model and 1.909e-6 times (range + horizontal distance) for the Ouster model (points on the z axis excepted); and cartesianToSensor(sensorToCartesian(s)) is s, with exact depth and angles up to the error of the arc tangent. The error norm of an image offset is, up to higher order terms, the distance of the unit vectors along the two beams. The depth interval that the Ouster model gives for a cell contains the depths of the cell's points up to the distance between the sensor's and the beams' origins, but not without that margin.", "quantifier": "all points, all sensor coordinates in the model's range, all intrinsics and beam offsets, all angles and offsets up to a quarter turn, all cells and poses", "why_tests_cant": "Continuous inputs; the unit tests sample random points with a tolerance of 1e-5 and never hit the axes, the quadrant borders or points behind the camera.", "anchors": ["library/cpp/include/wavemap/core/integrator/projection_model/impl/pinhole_camera_projector_inl.h: cartesianToSensor, sensorToCartesian", "library/cpp/include/wavemap/core/integrator/projection_model/impl/spherical_projector_inl.h: cartesianToSensor, sensorToCartesian, imageOffsetToErrorSquaredNorm", "library/cpp/include/wavemap/core/integrator/projection_model/impl/ouster_projector_inl.h: cartesianToSensor, sensorToCartesian", "library/cpp/src/core/integrator/projection_model/ouster_projector.cc: cartesianToSensorAABB"]}
{"id": "C67", "title": "A scan reaches every cell within the sensor's range and no cell far beyond it", "statement": "Integrating a scan into a hashed or hashed chunked wavelet map considers every cell of which some point is within max_range plus one block width of the sensor, whatever the sensor's position, the resolution and the block size: such a cell is updated as the measurement says, unless the scan declares its surroundings unobserved or its block is saturated free space. At most 64 top-level nodes are examined, each once. No cell further than 5 max_range + 3 block widths + 1 cell from the sensor changes.", "quantifier": "all sensor positions, ranges, cell widths, tree heights, map states, scans and task schedules", "why_tests_cant": "The set of examined nodes depends on the alignment of the sensor with the node grid and on the logarithm of range over resolution; a missed node at an unlucky alignment loses a part of the scan silently.", "anchors": ["library/cpp/src/core/integrator/projective/coarse_to_fine/hashed_wavelet_integrator.cc: updateMap, getFovMinMaxIndices", "library/cpp/src/core/integrator/projective/coarse_to_fine/hashed_chunked_wavelet_integrator.cc: updateMap, getFovMinMaxIndices"]}
{"id": "C68", "title": "The voxel display in RViz shows the map", "statement": "Whatever sequence of map messages, rendered frames, visibility switches and changes of settings an RViz voxel display goes through, it does not abort; and while it is visible every block of the current map is either waiting to be redrawn or shown exactly: each cell of the block lies in one displayed cube of the right size, position and value if the cell's node is to be drawn (in the log-odds band, or on the surface) and in none otherwise, and nothing is shown for blocks that the map does not have. Once map, settings and camera stop changing, at most as many frames as the map has blocks complete the display, at the resolution the camera asks for or one step finer, and never finer than the user's termination height.", "quantifier": "all tree heights 1..21, cell widths, maps, selections, and all finite histories of maps, frames (with any camera, any number of blocks drawn per frame and any order of the queue), visibility switches, resets and settings", "why_tests_cant": "the display is updated incrementally, under a time budget, from time stamps, a queue and two caches; whether a block is stale depends on the whole history", "anchors": ["interfaces/ros1/wavemap_rviz_plugin/src/visuals/voxel_visual.cc:VoxelVisual::updateMap, updateLOD, processBlockUpdateQueue, drawMultiResolutionVoxels, appendLeafCenterAndColor", "interfaces/ros1/wavemap_rviz_plugin/src/visuals/cell_selector.cc:CellSelector::shouldBeDrawn, hasFreeNeighbor", "interfaces/ros1/wavemap_rviz_plugin/src/wavemap_map_display.cc:WavemapMapDisplay::processMessage, reset"]}
{"id": "C69", "title": "Random points have the requested occupancy", "statement": "Whatever the random number generator returns within its contract and whatever happened to the classified map before, getRandomPoint returns a point that lies in the given box (or, without a box, in one of the map's blocks) and in a cell of an allocated block whose class is one of those asked for; it is the first such point drawn. It returns nothing only if the map has no blocks or after exactly max_attempts points none of which lies in such a cell. It leaves the map as a sequence of occupancy tests would, so later answers do not change.", "quantifier": "all generators, seeds, maps, histories of updates and queries, masks, boxes, numbers of attempts, tree heights below 20, cell widths", "why_tests_cant": "the points are random, and the test goes through a cache whose content depends on the history", "anchors": ["library/cpp/src/core/utils/query/point_sampler.cc:PointSampler::getRandomBlock, getRandomPointImpl", "library/cpp/include/wavemap/core/utils/query/impl/point_sampler_inl.h:getRandomPoint, getRandomPointInAABB, getRandomPointInBlock", "library/cpp/include/wavemap/core/utils/random_number_generator.h:RandomNumberGenerator"]}
{"id": "C70", "title": "Map files survive write errors and crashes, or are recognised as damaged", "statement": "mapToFile returns true only if the file then holds the complete map, so that a later fileToMap that is not disturbed returns true with the saved map; whenever a file was last opened by a save that returned true or was interrupted at any moment (without a write error), fileToMap never returns a map other than the one being saved. Saving never changes other files and loading changes none. (Not claimed, and false: the previous contents of the file survive a failed save; a damaged file always makes fileToMap return false.)", "quantifier": "every sequence of saves and loads to any paths, every division of the output into write calls, every buffering, every failing call and every crash point", "why_tests_cant": "crash points, buffer flushes and failing writes are chosen by the environment; a test sees a handful of them", "anchors": ["library/cpp/src/io/file_conversions.cc: mapToFile, fileToMap", "library/cpp/src/io/stream_conversions.cc: mapToStream, streamToMap"]}
{"id": "C71", "title": "The ROS server maps, saves, resets and publishes one map", "statement": "Measurements change the server's map and the result is published, reset_map clears it, save_map saves it, load_map replaces it if it returns true and leaves it unchanged if it returns false; later measurements are integrated into the loaded map.", "quantifier": "every sequence of measurements (with arbitrary effects on the map) and service calls, with any file contents and file errors", "why_tests_cant": "the claim is about all interleavings of services and measurements and about which of several shared pointers each part of the server holds", "anchors": ["interfaces/ros1/wavemap_ros/src/ros_server.cc: RosServer::RosServer, saveMap, loadMap, advertiseServices", "library/cpp/include/wavemap/pipeline/pipeline.h: Pipeline::occupancy_map_", "library/cpp/include/wavemap/pipeline/map_operations/map_operation_base.h"]}
{"id": "C72", "title": "Python batch queries equal single queries", "statement": "For hashed and hashed chunked wavelet octrees, get_cell_values on an array of indices or node indices, and interpolate on an array of positions with either interpolation mode, return for each row exactly what get_cell_value or interpolate returns for that row alone.", "quantifier": "all maps, all arrays of 32 bit indices, of node indices within the octree height and of positions at most 2^31 - 2 cells from the origin, in any order, tree heights up to 19", "why_tests_cant": "All rows (and all corners within a row) share one accelerator, whose cached state depends on everything queried before.", "anchors": ["library/python/src/maps.cc: get_cell_values, interpolate", "library/cpp/include/wavemap/core/utils/query/query_accelerator.h", "library/cpp/include/wavemap/core/utils/query/impl/map_interpolator_inl.h"]}
{"id": "C73", "title": "Offline processing delivers recorded messages", "statement": "Processing recorded data gives each input the messages of its topic, each once and in recorded order (up to the point of interruption); republishes all transforms and the recorded clock in order, or, without a recorded clock, publishes a clock whenever timers are served; serves timers at least once per 0.01 s of recorded time in which there are messages and not more often; and reports success exactly if it was not interrupted. FALSE of the code for the second of two inputs on one topic (it gets nothing), for topics configured by a relative name such as the default \"scan\" (recorded names are absolute and are compared without resolving), and the last messages may never be integrated (the queues are not processed after the last message).", "quantifier": "all lists of inputs, all recordings, all points of interruption", "why_tests_cant": "It ranges over all recordings and interruption points, and over how the recorded times interact with the timers.", "anchors": ["interfaces/ros1/wavemap_ros/app/rosbag_processor.cc", "interfaces/ros1/wavemap_ros/src/utils/rosbag_processor.cc: processAll, bagsContainTopic", "interfaces/ros1/wavemap_ros/include/wavemap_ros/utils/impl/rosbag_processor_inl.h: addCallback, addRepublisher"]}
{"id": "C74", "title": "Missing and infinite range readings are harmless", "statement": "A depth image may contain missing (NaN) and infinite readings. The measurement models never produce a NaN or an infinity from them; a missing reading leaves the cells it would have observed unchanged, and plus infinity counts as free space. Without NaN readings the coarse-to-fine integrators classify cells correctly also if some readings are infinite. Points of point clouds with NaN or infinite coordinates are ignored. FALSE of the code for the coarse-to-fine integrators and NaN readings: a missing reading can hide the one next to it, so that a cell containing a measured obstacle is declared fully free and made free, or a cell containing a measured surface is skipped as unobserved; and missing readings do not count as unobserved, so that space nothing was measured in is made free.", "quantifier": "all images with finite, infinite and NaN pixels, all cells, both measurement models and beam selectors, all points", "why_tests_cant": "Whether a NaN wins or loses in std::min and std::max depends on its position in the reduction tree, which differs between images, cells and pixels.", "anchors": ["library/cpp/src/core/integrator/projective/projective_integrator.cc: importRangeImage, importPointcloud", "library/cpp/include/wavemap/core/integrator/projective/coarse_to_fine/hierarchical_range_bounds.h: valueOrInit, isUnobserved", "library/cpp/include/wavemap/core/integrator/projective/coarse_to_fine/impl/hierarchical_range_bounds_inl.h: computeReducedPyramid, getBounds, getUpdateType", "library/cpp/include/wavemap/core/integrator/measurement_model/impl/continuous_ray_inl.h: computeBeamUpdate", "library/cpp/include/wavemap/core/integrator/measurement_model/impl/continuous_beam_inl.h: computeBeamUpdate", "library/cpp/include/wavemap/core/integrator/impl/integrator_base_inl.h: isMeasurementValid"]}
{"id": "C75", "title": "Points and cells correspond in single precision", "statement": "With single precision floating point arithmetic and up to two million cells from the origin: converting the index of a cell or octree node to its centre point and back gives the same index; the index of a point belongs to a cell that contains the point, up to 2.4e-7 of its coordinate; points farther than that from the faces get exactly their cell; floor and ceiling indices bracket the point in the same sense. The width of an octree node is exactly 2^height cells, neighbouring cells share their faces bit for bit, the boxes of a node's children tile the node's box bit for bit (up to 2^23 cells from the origin, not beyond), and a cell's centre lies between its corners.", "quantifier": "all finite coordinates, all cell widths (normal range), all indices up to 2 million, any rounding of halves, with or without fused multiply-add", "why_tests_cant": "There are 2^32 coordinates and 2^32 widths; rounding errors show at few of them.", "anchors": ["library/cpp/include/wavemap/core/indexing/index_conversions.h: pointToNearestIndex, pointToFloorIndex, pointToCeilIndex, indexToCenterPoint, indexToMinCorner, indexToMaxCorner, pointToNodeIndex, nodeIndexToCenterPoint, heightToCellWidth"]}
{"id": "C76", "title": "Map values in single precision stay close to the ideal ones", "statement": "After any sequence of additions to cells, threshold, prune and clear calls on a hashed wavelet octree with single precision values, every cell reads as a finite number that differs from the value obtained with exact arithmetic (sums, limited to the configured range at each threshold) by at most a stated amount per call: (9T+2) units for an addition, 50T units for a threshold, and 0.0024 per level plus 0.0011 on top for a prune, where T is the tree height and a unit is (K+1)/16000000 for values within K. In the blocks map every cell differs from the exact limited sum by at most 2 units per addition made to that very cell. The error does grow with the number of calls: small updates to a larger value can be lost entirely.", "quantifier": "all call sequences of any length, all cells, all finite single precision updates, all tree heights 1 to 21, all value ranges up to 10000", "why_tests_cant": "Rounding errors depend on the full history of all cells that share wavelet coefficients; no test can try all histories.", "anchors": ["library/cpp/include/wavemap/core/map/hashed_wavelet_octree.h: addToCellValue, threshold, prune, clear, getCellValue", "library/cpp/include/wavemap/core/map/hashed_blocks.h: addToCellValue, setCellValue, getCellValue", "library/cpp/include/wavemap/core/map/cell_types/haar_transform.h: BackwardSingleChild, ForwardParallel, BackwardParallel, ForwardSingleChild"]}
{"id": "C77", "title": "A configuration builds exactly the components it describes, or the program stops", "statement": "Parameters written in the ROS parameter server or in Python reach the factories unchanged. Parameters that name a known type of map, operation, input, projector, measurement model or integrator build that class with the configured values (a missing or wrongly typed value is replaced by its default) if these values are usable, and end the program otherwise; unknown types build nothing, or the default map. An integrator is built iff its method, projector and measurement model are all described and it works on the given kind of map, and its images have the size of its projector. If the ROS server starts, its settings, map, operations, integrators and inputs are the described ones, in order; if every entry describes a component the server starts with all of them. The converse expectations are false: an operation with unusable values ends the program instead of being skipped, a number without unit ends the program (its default is unusable), constant_ray is an accepted name that builds nothing, a misspelt map type starts a server with hashed blocks and without its wavelet integrators, and tree heights beyond the index range and log-odds ranges without 0 are accepted.", "quantifier": "all parameter trees with distinct keys, all component classes, all maps and all server configurations", "why_tests_cant": "the combinations of component types, present, missing and wrongly typed values are unbounded, and no unit test covers the factories or the server's start-up", "anchors": ["library/cpp/src/core/map/map_factory.cc: MapFactory::create", "library/cpp/src/core/integrator/integrator_factory.cc: IntegratorFactory::create", "library/cpp/src/core/integrator/projection_model/projector_factory.cc", "library/cpp/src/core/integrator/measurement_model/measurement_model_factory.cc", "library/cpp/src/pipeline/map_operations/map_operation_factory.cc", "interfaces/ros1/wavemap_ros/src/ros_server.cc: RosServer::RosServer, addOperation", "interfaces/ros1/wavemap_ros/src/inputs/ros_input_factory.cc", "interfaces/ros1/wavemap_ros_conversions/src/config_conversions.cc", "library/python/src/param.cc: toParamValue", "library/cpp/include/wavemap/core/config/config_base.h: checkValid"]}
{"id": "C78", "title": "The published configuration schemas and the code agree on the settings", "statement": "Every setting that the project's JSON schemas admit for a component, with an admitted value, takes effect: the built component has the given value; and every setting of a component is offered by its schema with a matching type. Accepted entries name a known class. Exceptions, each refuted by a witness: reprojected_pointcloud_topic_name (both inputs) and projected_range_image_topic_name (depth images) are admitted but ignored; only_publish_changed_blocks, undistorted_pointcloud_topic_name and projected_pointcloud_topic_name work but are rejected; the schemas accept values that end the program, and the measurement model constant_ray, which is never built. The general settings of the server take effect and are accepted by it, too, except for an empty world frame, which the schema admits and which ends the server.", "quantifier": "all 23 component classes and all parameter trees accepted by their schemas", "why_tests_cant": "the schemas and the code are separate descriptions of the same unbounded set of configurations and nothing compares them", "anchors": ["tooling/schemas/wavemap/*.json", "library/cpp/include/wavemap/core/config/config_base.h", "interfaces/ros1/wavemap_ros/src/inputs/pointcloud_topic_input.cc: DECLARE_CONFIG_MEMBERS", "interfaces/ros1/wavemap_ros/src/inputs/depth_image_topic_input.cc: DECLARE_CONFIG_MEMBERS", "interfaces/ros1/wavemap_ros/src/map_operations/publish_pointcloud_operation.cc: DECLARE_CONFIG_MEMBERS"]}
{"id": "C79", "title": "The slice display in RViz shows exactly the cells that the slice cuts", "statement": "After any sequence of received maps, setting changes and resets, while the slice display is enabled: at every place of the slice plane, the leaf of the map that the plane cuts there is shown as exactly one square of the leaf's size, at the slice height, with the chosen opacity and with a colour that stands for its value, if the value lies within the user's limits, and nothing is shown otherwise. A plane on the border of two cells cuts the upper one, consistently over all resolutions. Nothing is shown while the display is disabled. Colours by height are fully saturated, repeat every 5 m and differ within such a span. Exceptions, each refuted by a witness: a map with another cell width is drawn with the old width, squares of levels that a new map does not have stay on screen, messages whose frame cannot be looked up and resets leave a picture that is not that of the map, slice heights beyond 2^31 cells are undefined, and in raw mode equal limits divide by zero.", "quantifier": "all histories of events, all maps whose leaves do not overlap (in particular all reachable hashed wavelet octrees), all slice heights, limits and places", "why_tests_cant": "the plugin has no tests; the picture depends on the whole history of maps and settings, and the plane is continuous", "anchors": ["interfaces/ros1/wavemap_rviz_plugin/src/visuals/slice_visual.cc: update, setAlpha, colorModeUpdateCallback", "interfaces/ros1/wavemap_rviz_plugin/include/wavemap_rviz_plugin/visuals/slice_visual.h", "interfaces/ros1/wavemap_rviz_plugin/src/utils/color_conversions.cc: positionToColor", "interfaces/ros1/wavemap_rviz_plugin/include/wavemap_rviz_plugin/utils/color_conversions.h: scalarToColor"]}
{"id": "C80", "title": "Log-odds and probabilities convert into each other, and adding log-odds is Bayes' rule", "statement": "Converting log-odds to a probability gives a value strictly between 0 and 1, is strictly increasing, maps 0 to 1/2 and -x to the probability of the contrary; converting a probability strictly between 0 and 1 to log-odds is its inverse. Adding log-odds is Bayes' rule for independent observations. The grey level of the displays is the probability of being free. In single precision, as long as the exponential does not overflow, the result is a finite number between 0 and 1, within 2^-21 of the exact probability if the exponential is accurate to 2^-22. Beyond that (log-odds of 89 and more) the result is NaN.", "quantifier": "all log-odds, all probabilities, all float inputs, all implementations of the exponential with the stated accuracy", "why_tests_cant": "continuous inputs; the unit test samples probabilities between 0 and 1 and the largest value for which the exponential does not overflow", "anchors": ["library/cpp/include/wavemap/core/utils/query/probability_conversions.h: logOddsToProbability, probabilityToLogOdds", "interfaces/ros1/wavemap_rviz_plugin/include/wavemap_rviz_plugin/utils/color_conversions.h: logOddsToColor"]}
{"id": "C81", "title": "Node numbers below a node count the nodes breadth-first, without gaps", "statement": "The list of children of a node holds each node one level further down inside it exactly once. The numbers that the library computes for a node relative to an ancestor (within its level, and over all levels) are exactly 0, 1, 2, ... along the breadth-first listing of the ancestor's descendants: no number is skipped or used twice, a node is numbered before everything below it, and the number tells the node. This holds for ancestors up to height 64/dim - 1 (20 in 3D); for taller trees two nodes can share a number (refuted by a witness).", "quantifier": "all dimensions 1..64, all ancestors (negative coordinates included) up to the stated height and all depths below them", "why_tests_cant": "the test compares a few random indices; the claim is about all descendants of all nodes, and about the absence of collisions", "anchors": ["library/cpp/include/wavemap/core/indexing/impl/ndtree_index_inl.h: computeChildIndices, computeLevelTraversalDistance, computeTreeTraversalDistance", "library/cpp/include/wavemap/core/utils/math/tree_math.h: num_total_nodes_fast"]}
{"id": "C82", "title": "Index hashes do not collide within a region or between heights", "statement": "The hash of a block index is x + 17191 y + 17191^2 z modulo 2^32, whatever the signs. Two different blocks whose coordinates differ by less than 17191, 17191 and 14 have different hashes. Two tree nodes with the same hash have the same height and positions with the same hash, so nodes of different height never collide. Collisions do exist beyond that region (refuted by a witness), so the maps must and do compare indices as well.", "quantifier": "all block indices and all node indices with heights below 2^20", "why_tests_cant": "the test tries random indices; absence of collisions in a region is a statement about about 10^19 pairs", "anchors": ["library/cpp/include/wavemap/core/indexing/index_hashes.h: IndexHash, NdtreeIndexHash"]}
{"id": "C83", "title": "Cell widths and node heights convert into each other", "statement": "Converting a node height to a width is exact, and converting that width back gives the same height, in single precision and for every cell width of the map. For any other width the height is the smallest one whose nodes are at least that wide, up to a relative tolerance of about one millionth of the height; outside that tolerance it is exact. Wider cells never get a smaller height.", "quantifier": "every pair of widths from 2^-60 to 2^60 m, every height from 0 to 30, every implementation of log2 that is accurate to 2^-22, exact at powers of two and monotone", "why_tests_cant": "The product of a width and the rounded reciprocal of another is inexact; a height that is one too large for a single cell width among 2^32 would go unnoticed. The existing test draws a few random widths.", "anchors": ["library/cpp/include/wavemap/core/indexing/index_conversions.h: heightToCellWidth, cellWidthToHeight", "library/python/src/convert.cc: cell_width_to_height, height_to_cell_width"]}
{"id": "C84", "title": "Coarse-to-fine integration of a camera scan agrees with per-cell updates", "statement": "Integrating a depth image coarse-to-fine changes every cell in front of the camera as if each had been updated separately with the measurement model: exactly for cells that are reached individually, for cells in fully free space and for unobserved cells (which do not change). For all other cells the inverse measurement model's probability is less than termination_update_error away from the one of the cell, as long as node and cell are seen in the same pixel. The bound holds for the probability; it does not hold for the log-odds update, nor across depth edges between pixels. For every projection model and for the beam model as well: cells that are reached individually get exactly their own update, cells in fully unobserved nodes do not change, and cells in free (or free or unobserved) nodes are not made more occupied, as long as the node's box in sensor coordinates encloses the centres of node and cell. It does for a camera; for a LiDAR it need not, and then an occupied cell can be marked as free.", "quantifier": "every depth or LiDAR range image, camera pose, camera intrinsics, sensor and measurement configuration, cell width, map content, cell; the octree, the hashed wavelet octree and the hashed chunked wavelet octree integrators; every schedule of the thread pool", "why_tests_cant": "The existing tests compare the coarse-to-fine and the fixed-resolution integrators on random scans with a tolerance; whether a hidden disagreement exists depends on the geometry of every node, pixel and pose.", "anchors": ["library/cpp/src/core/integrator/projective/coarse_to_fine/coarse_to_fine_integrator.cc: CoarseToFineIntegrator::updateMap", "library/cpp/src/core/integrator/projective/coarse_to_fine/hashed_wavelet_integrator.cc: HashedWaveletIntegrator::updateMap, updateBlock", "library/cpp/src/core/integrator/projective/coarse_to_fine/hashed_chunked_wavelet_integrator.cc: HashedChunkedWaveletIntegrator::updateMap, updateNodeRecursive, updateLeavesBatch", "library/cpp/include/wavemap/core/integrator/measurement_model/continuous_ray.h: ContinuousRay::computeUpdate, computeWorstCaseApproximationError", "library/cpp/include/wavemap/core/integrator/projective/coarse_to_fine/range_image_intersector.h: determineUpdateType", "library/cpp/include/wavemap/core/integrator/measurement_model/continuous_beam.h: ContinuousBeam::computeUpdate, computeWorstCaseApproximationError, getPaddingAngle", "library/cpp/src/core/integrator/projection_model/spherical_projector.cc: SphericalProjector::cartesianToSensorAABB"]}
{"id": "C85", "title": "Stopwatch, resource monitor and memory usage report what happened", "statement": "The total time of a stopwatch is the sum of the durations of all episodes (from a start to the next stop) since the last reset, its last duration is that of the latest completed episode (0 if there is none), and it runs exactly if the latest call was a start. Repeated starts and stops have no effect. With a steady clock 0 <= last <= total <= time from the first to the last call. The resource monitor behaves like two stopwatches, for CPU and wall time, also when the nanosecond part of a reading is smaller than at the start. The memory usage is the number in the first VmRSS line of the system's report if it is given in kB, and unknown otherwise.", "quantifier": "every history of start, stop and reset calls with any clock readings; every content of /proc/self/status, or no such file", "why_tests_cant": "Histories are unbounded and clock readings arbitrary; the existing tests sleep for a moment once. Reports of other kernels cannot be provided in a test.", "anchors": ["library/cpp/src/core/utils/time/stopwatch.cc: Stopwatch::start, Stopwatch::stop", "library/cpp/include/wavemap/core/utils/time/stopwatch.h: Stopwatch::reset, getTotalDuration, getLastEpisodeDuration, isRunning", "library/cpp/src/core/utils/profile/resource_monitor.cc: ResourceMonitor::start, stop, getCurrentRamUsageInKB, computeDuration"]}
{"id": "C86", "title": "A map block used on its own", "statement": "A block of a hashed or hashed chunked wavelet map that is used through its own interface reads, at a node of any size up to the whole block, the mean of the node's cells. Adding to a node adds to exactly its cells; setting a node adds the difference to the mean of its parent (of the block itself if the node is the whole block, which therefore reads back); threshold moves the cells into the limits if something was written since the last time; prune also does that and changes values by a small bounded amount only; clear gives zeros. Flags and time stamp say what happened. Both kinds of block behave identically.", "quantifier": "all sequences of calls on a block, all nodes of the block, all tree heights from 1 to 21", "why_tests_cant": "Unbounded sequences of calls and all combinations of node sizes.", "anchors": ["library/cpp/src/core/map/hashed_wavelet_octree_block.cc: setCellValue, addToCellValue, threshold, prune, clear", "library/cpp/src/core/map/hashed_chunked_wavelet_octree_block.cc: setCellValue, addToCellValue, threshold, prune, clear", "library/cpp/include/wavemap/core/map/impl/hashed_wavelet_octree_block_inl.h: getCellValue"]}
{"id": "C87", "title": "Repeated observations converge", "statement": "When scan after scan observes a cell as free with updates of at most -d, the cell's log-odds value falls by at least d per scan until it is at the free end of the range, so that an obstacle that has gone is cleared after finitely many scans; when scan after scan observes it as occupied with updates of at least d it rises by at least d per scan until it is at the occupied end. threshold() calls in between do not change this.", "quantifier": "all histories of scans (any number of them, any sensor data, any schedule of the block tasks) and threshold() calls on all reachable maps", "why_tests_cant": "The effect of a scan on a cell depends on the whole history of the surrounding block: a node counts as saturated free space by its mean, so whether a cell is cleared depends on all cells around it.", "anchors": ["library/cpp/src/core/integrator/projective/coarse_to_fine/hashed_wavelet_integrator.cc: updateMap, updateBlock", "library/cpp/src/core/integrator/projective/coarse_to_fine/hashed_chunked_wavelet_integrator.cc: updateMap, updateNodeRecursive", "library/cpp/include/wavemap/core/integrator/projective/coarse_to_fine/impl/hashed_chunked_wavelet_integrator_inl.h: recursiveTester", "library/cpp/include/wavemap/core/integrator/projective/coarse_to_fine/hashed_chunked_wavelet_integrator.h: min_log_odds_shrunk_"]}
{"id": "C88", "title": "Cells beyond the index range of a bounded octree", "statement": "WaveletOctree and VolumetricOctree cover a bounded cube of cells and report it by getMinPossibleIndex and getMaxPossibleIndex. Inside this range every cell is distinct. Reading or writing an index outside the range is not rejected in a release build: it acts on the cell (or node) whose coordinates are congruent modulo 2^tree_height (divided by the node size), so any history of calls with arbitrary indices leaves the same map as the history with the wrapped indices. In 32-bit ints the calls are defined exactly for coordinates below 2^31 minus half the octree's edge (at the node's height), which includes all nodes of the octree; for larger ones the addition of the root offset overflows. The claim that calls outside the range leave all cells inside the range alone is false.", "quantifier": "all maps, all tree heights from 1 to 21, all node indices (those whose sum with the root offset does not fit in an int are shown to be undefined), all histories of setCellValue, addToCellValue, threshold, prune and clear, any arithmetic", "why_tests_cant": "The tests only draw indices from the possible range; what an index outside it hits depends on all bits of the coordinates.", "anchors": ["library/cpp/include/wavemap/core/map/impl/wavelet_octree_inl.h: getMinPossibleIndex, getMaxPossibleIndex, getCellValue, setCellValue, addToCellValue", "library/cpp/include/wavemap/core/map/impl/volumetric_octree_inl.h", "library/cpp/include/wavemap/core/utils/bits/morton_encoding.h: encode"]}
{"id": "C89", "title": "Declared accuracy of the signed distance fields", "statement": "The distance field generators declare kMaxRelativeUnderEstimate (1 % for both) and kMaxRelativeOverEstimate (13.5 % for the quasi-Euclidean, 1 % for the full Euclidean one), relative to the Euclidean distance from the cell's centre to the closest cell of the other class. No observed cell under-estimates by more than the declared limit: if all cells of the other class are at least D away (D up to max_distance), the magnitude of the cell's value is at least 0.99 D. The declared over-estimates are false: inside obstacles the quasi-Euclidean generator can be 42 % too large although every neighbour is observed, and both generators report max_distance where unobserved cells separate a free cell from an obstacle. In free space the distances are still bounded. For the quasi-Euclidean generator: a cell that is connected to an obstacle by n steps between touching free cells gets at most half a cell diagonal plus, per step, a diagonal and a bit more than a cell width (if that is below max_distance), so in observed surroundings a cell never misses an obstacle and the straight distance is over-estimated by a factor of at most sqrt 3 + max/(max - width). For the full Euclidean generator the bound per step is the same up to the errors of the square root.", "quantifier": "all maps (reachable through the API), thresholds, maximum distances above the surface layer, cell widths, cells, and every square root that errs by at most half a percent, including the correctly rounded one", "why_tests_cant": "The repository's accuracy test draws obstacles at random in free space and compares with brute force; the interior of an obstacle seen from a diagonal neighbour and unobserved gaps do not occur there, and the bound must hold for every map.", "anchors": ["library/cpp/include/wavemap/core/utils/sdf/quasi_euclidean_sdf_generator.h: kMaxRelativeUnderEstimate, kMaxRelativeOverEstimate", "library/cpp/include/wavemap/core/utils/sdf/full_euclidean_sdf_generator.h: kMaxRelativeUnderEstimate, kMaxRelativeOverEstimate", "library/cpp/src/core/utils/sdf/quasi_euclidean_sdf_generator.cc", "library/cpp/src/core/utils/sdf/full_euclidean_sdf_generator.cc"]}
{"id": "C90", "title": "Bit operations act on the bits their names say", "statement": "For every word: is_bit_set, set_bit and unset_bit read and write exactly one bit; popcount, parity and clz count the set bits and the leading zeros; rotate_left and rotate_right move bit i of the lowest `width` bits by `shift` places modulo `width`, ignore the bits above and undo each other; squeeze_in inserts one bit at the position and moves the bits above it up by one; repeat_block fills the word with copies of the block; expand puts bit k of the source at the k-th set bit of the selector, compress is its inverse on the selected bits. Undefined or wrong: a rotation of all bits of the type by 0 (or by the width), a rotation of part of a type narrower than int, and squeeze_in at position 31 or above.", "quantifier": "all words, selectors, block widths, positions, shifts, and all widths of the type", "why_tests_cant": "The tests evaluate literals and random words; a word has 2^64 values, and shift 0 and types narrower than int are not tested at full width.", "anchors": ["library/cpp/include/wavemap/core/utils/bits/bit_operations.h: is_bit_set, set_bit, unset_bit, rotate_left, rotate_right, squeeze_in, popcount, parity, clz, repeat_block, expand, compress"]}
{"id": "C91", "title": "The configured logging level takes effect", "statement": "A started ROS server passes on, through glog and through the ROS console, exactly the messages whose severity is at least the level named in its configuration, or at least \"info\" if the configuration names no known level. In Python, setting one of glog's four levels makes glog print exactly the messages of that severity and above; any other name changes nothing.", "quantifier": "all configurations with which a server starts, all level names, all severities", "why_tests_cant": "the level passes through two numberings and a conversion between them; the conversion is wrong for the default level, and only reasoning about every level and severity shows that this is harmless", "anchors": ["interfaces/ros1/wavemap_ros/src/utils/ros_logging_level.cc: operator LoggingLevel, applyToGlog, applyToRosConsole", "library/cpp/src/core/utils/logging_level.cc: applyToGlog", "interfaces/ros1/wavemap_ros/src/ros_server.cc: RosServer", "library/python/src/logging.cc: set_level"]}
{"id": "C92", "title": "A setting of the wrong type is reported and keeps its default", "statement": "Reading a config never runs into undefined behaviour, whatever the parameters contain: a setting that cannot be read is reported together with the default that is kept, and all other settings are read. This holds except in one case, which is exactly characterised: a list of strings that is empty by default (measurement_integrator_names of the ROS inputs), here or in a nested config, that is given something which is neither a string nor a list. Its default is printed by accessing the first element of an empty vector. Lists with elements print as these elements, separated by commas and in brackets.", "quantifier": "all config types (nested to any depth), all parameter trees with distinct keys, all lists of strings", "why_tests_cant": "The set of config types and of ill-typed parameter trees is unbounded, and the failing combination of a default value and a wrong type is not one that a user or a test writes on purpose.", "anchors": ["library/cpp/include/wavemap/core/config/impl/config_base_inl.h: loadParam, ConfigBase::from", "library/cpp/src/core/config/string_list.cc: StringList::from, StringList::toStr", "library/cpp/include/wavemap/core/utils/print/container.h: print::sequence", "interfaces/ros1/wavemap_ros/include/wavemap_ros/inputs/pointcloud_topic_input.h: PointcloudTopicInputConfig"]}
{"id": "C93", "title": "Hashed maps cover the whole range of int indices", "statement": "HashedBlocks, HashedWaveletOctree and HashedChunkedWaveletOctree have no bounds: every cell whose coordinates are ints can be read and written without overflow of the index arithmetic, whatever was done before. Blocks that are allocated this way contain only cells with int coordinates, so leaf visits and getMinIndex are defined too, and getCellValue of a node (HashedWaveletOctree) is defined exactly for the nodes that contain such a cell. getMaxIndex is defined exactly if no block reaches the coordinate 2^31 - 1: although the result would be an int, the code computes the index behind the last cell first. The claim that every map has defined bounds is therefore false.", "quantifier": "all block sizes (tree heights 1 to 21; any number of cells per side that is a power of two), all histories of calls with int cell indices, all node indices and heights, any arithmetic of the values", "why_tests_cant": "Overflow depends on the extreme values of all coordinates and on the history of allocated blocks; tests draw small indices.", "anchors": ["library/cpp/src/core/map/hashed_blocks.cc: getMinIndex, getMaxIndex", "library/cpp/src/core/map/hashed_wavelet_octree.cc: getMinIndex, getMaxIndex", "library/cpp/src/core/map/hashed_chunked_wavelet_octree.cc: getMinIndex, getMaxIndex", "library/cpp/include/wavemap/core/map/impl/hashed_wavelet_octree_inl.h: getCellValue, indexToBlockIndex", "library/cpp/include/wavemap/core/indexing/index_conversions.h: nodeIndexToMinCornerIndex"]}
{"id": "C94", "title": "Integer helpers in 32-bit ints", "statement": "For int arguments factorial is the product of the numbers up to x, binomial the number of choices of m out of n (Pascal's rule), pow the power, mult_exp2 the product with a power of two, and div_exp2_ceil and div_round_up the quotient rounded up, and none of them overflows when the result is an int. The exact limits: factorial is defined up to 12, binomial for n up to 12 or m >= n (although its results fit up to n = 33), pow and mult_exp2 exactly if the result is an int. Not true of the code: div_exp2_ceil overflows for values within 2^e of 2^31 although the quotient fits, and div_round_up rounds negative numerators the wrong way.", "quantifier": "all int arguments: x, n, m, exponents >= 0; shifts from 0 to 30; div_exp2_ceil for all ints; div_round_up for all non-negative numerators and positive denominators", "why_tests_cant": "The tests evaluate small literals and random small numbers; the limits of definedness concern every intermediate product.", "anchors": ["library/cpp/include/wavemap/core/utils/math/int_math.h: pow, factorial, binomial, mult_exp2, div_exp2_ceil, div_round_up"]}
