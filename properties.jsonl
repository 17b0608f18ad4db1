{"id": "C01", "title": "Bounding boxes behave as half-open point sets", "statement": "For integer boxes of any dimension: a point is in the crop of two boxes exactly when it is in both; growing a box by a box gives the least box containing both; shifting, expanding and contracting move exactly the points they should; two non-empty boxes 'intersect' exactly when some integer point lies in both; width/height/area count the points contained.", "quantifier": "all dimensions, all boxes, all points", "why_tests_cant": "Tests try a handful of boxes; the degenerate and empty boxes are where half-open conventions go wrong.", "anchors": ["src/vw/Math/BBox.tcc: BBox::crop, grow, contains, intersects, expand, contract, width, height, area, operator+=, operator-="]}
{"id": "C02", "title": "The default box is neutral for grow, and integer hulls enclose", "statement": "Growing a freshly constructed box by the points of any non-empty list gives the tightest box around these points (for coordinates in the supported range), and rounding a real box out to integers encloses every real point of it.", "quantifier": "all point lists, all dimensions, all real (rational) boxes", "why_tests_cant": "Depends on sentinel values and on the element type of the box; tests use small signed ints.", "anchors": ["src/vw/Math/BBox.tcc: BBox::BBox, grow, grow_bbox_to_int"]}
{"id": "C03", "title": "Subdividing a region yields a partition", "statement": "Splitting a region into tiles (partial tiles included) returns tiles that are non-empty, no larger than requested, pairwise disjoint, inside the region, and cover every pixel of the region; with partial tiles excluded every returned tile is full size, disjoint and inside; with full-size tiles requested every tile has exactly the requested size.", "quantifier": "all regions and all tile sizes", "why_tests_cant": "Coverage and disjointness must hold at every pixel for every size; boundary remainders are endless.", "anchors": ["src/vw/Image/AlgorithmFunctions.cc: subdivide_bbox"]}
{"id": "C04", "title": "Block processing visits each pixel exactly once under any schedule", "statement": "For any region, any positive block size, any number of worker threads and any interleaving, when all workers have returned, the boxes handed to the callback are inside the region, pairwise disjoint, aligned to the block grid and together cover the region exactly; every worker eventually returns.", "quantifier": "all regions (also negative origins), block sizes, thread counts and schedules", "why_tests_cant": "Schedules cannot be enumerated by tests.", "anchors": ["src/vw/Image/BlockProcessor.h: BlockProcessor::operator(), BlockThread, Info::bbox, Info::advance, Info::complete, Info::round_down"]}
{"id": "C05", "title": "A block cache lookup addresses the block that holds the pixel", "statement": "For any image and block size, the block looked up for a grid-aligned request exists in the table, contains the whole request, and the block-relative request addresses the same source pixels.", "quantifier": "all image sizes, block sizes and pixels", "why_tests_cant": "Index arithmetic at ragged right and bottom borders has too many cases.", "anchors": ["src/vw/Image/BlockProcessor.h: BlockGeneratorManager::initialize, get_block_index, get_block_start_pixel, check_block_index", "src/vw/Image/BlockRasterize.h: BlockRasterizeView"]}
{"id": "C06", "title": "Edge extension reads only valid pixels and returns the documented one", "statement": "For every extension mode and every requested location, the value returned is that of the documented source pixel (zero/value outside, nearest pixel, periodic image, mirrored image, cylinder), and the pixel read is inside the image.", "quantifier": "all images, all integer coordinates, all modes", "why_tests_cant": "Locations far outside the image, negative remainders and 1-pixel images are rarely tested.", "anchors": ["src/vw/Image/EdgeExtension.tcc: ZeroEdgeExtension, ValueEdgeExtension, ConstantEdgeExtension, PeriodicEdgeExtension, CylindricalEdgeExtension, ReflectEdgeExtension, LinearEdgeExtension"]}
{"id": "C07", "title": "Edge extension prerasterizes everything it reads", "statement": "For every mode and every requested rectangle, each source pixel needed for a location of the rectangle lies in the source rectangle that the view announces to its child, and the announced rectangle lies inside the image.", "quantifier": "all images, all rectangles, all modes", "why_tests_cant": "A missing row in the announced rectangle only shows up as garbage on particular tile positions.", "anchors": ["src/vw/Image/EdgeExtension.tcc: source_bbox of each mode", "src/vw/Image/EdgeExtension.h: EdgeExtensionView::prerasterize"]}
{"id": "C08", "title": "Geometric view algebra", "statement": "Transposing twice, rotating by 90 degrees clockwise then counter-clockwise, rotating twice by 180, flipping twice all give back the original image; crop of crop is one crop; subsampling twice is subsampling by the product.", "quantifier": "all images and all coordinates", "why_tests_cant": "An off-by-one in one view cancels in symmetric test images.", "anchors": ["src/vw/Image/ImageTransform.h: TransposeView, Rotate180View, Rotate90CWView, Rotate90CCWView, FlipVerticalView", "src/vw/Image/Manipulation.h: CropView, SubsampleView"]}
{"id": "C09", "title": "Sequential pixel access equals random access", "statement": "Walking any view with its pixel accessor (next/previous column, row, plane, advance) from its origin reads at each step the pixel that random access at the accumulated position gives; hence rasterising any rectangle copies exactly the pixels of that rectangle.", "quantifier": "all views in the list, all accessor paths, all rectangles", "why_tests_cant": "Accessor paths are sequences of moves of unbounded length.", "anchors": ["src/vw/Image/PixelAccessors.h", "src/vw/Image/ImageViewBase.h: rasterize", "src/vw/Image/Manipulation.h"]}
{"id": "C10", "title": "Views announce to their child every pixel they read when rasterised", "statement": "For crop, transpose, rotations, flips, and subsampling, prerasterising a rectangle and then reading any pixel of the rectangle gives the same value as the plain view and reads only child pixels in the prerasterised rectangle.", "quantifier": "all images, rectangles and sampling factors", "why_tests_cant": "Needs every rectangle and every combination of factors.", "anchors": ["src/vw/Image/Manipulation.h: CropView::prerasterize, SubsampleView::prerasterize", "src/vw/Image/ImageTransform.h: prerasterize of TransposeView, Rotate180View, Rotate90CWView, Rotate90CCWView, FlipVerticalView"]}
{"id": "C11", "title": "Pixels of an in-memory image do not alias and stay in the buffer", "statement": "For every image size accepted by the size check, distinct (column,row,plane) triples address distinct elements inside the allocated buffer.", "quantifier": "all accepted sizes, all coordinates", "why_tests_cant": "Large images that exceed 2^31 pixels are never allocated by tests.", "anchors": ["src/vw/Image/ImageView.h: set_size, operator()"]}
{"id": "C12", "title": "Pixel iterators enumerate every pixel once", "statement": "Iterating from begin to end visits each pixel of each plane exactly once in raster order, reports its coordinates correctly, and comparing and subtracting iterators is consistent with the order.", "quantifier": "all accepted image sizes", "why_tests_cant": "Width errors only show beyond 2^31 pixels.", "anchors": ["src/vw/Image/PixelIterator.h: PixelIterator"]}
{"id": "C13", "title": "Cache: structural consistency, size accounting and order", "statement": "After any sequence of cache operations by one client (insert, access, release, deprioritize, resize, drop), each line is in exactly one of the two lists, forward and backward links agree, the loaded lines are exactly those of the valid list and hold what their generators produce, the accounted size is the sum of their sizes, and each operation changes the order in the stated way. The order is the order of generation: that it is the order of last use is refuted.", "quantifier": "all operation sequences", "why_tests_cant": "Histories are unbounded.", "anchors": ["src/vw/Core/Cache.h", "src/vw/Core/Cache.cc"]}
{"id": "C14", "title": "Cache: bound and correct values", "statement": "An access to an existing line returns what its generator produces and pins it; afterwards the accounted size is at most the maximum or every other loaded line is in use; lines in use are never evicted and an evicted line is older than every unused line that stays; resize returns within the new bound when nothing is in use. Waiting resizes and throwing generators are refuted.", "quantifier": "all reachable cache states, line sizes, maxima and pin patterns", "why_tests_cant": "Depends on history and pin pattern.", "anchors": ["src/vw/Core/Cache.h: CacheLine::value, Handle", "src/vw/Core/Cache.cc: allocate, resize, deallocate"]}
{"id": "C15", "title": "Cache used by several threads", "statement": "Under any interleaving of threads that access, release and invalidate lines: a value obtained and not released stays loaded and correct, nobody modifies a line another thread holds, the accounted size is exactly the sizes of loaded lines plus lines being generated plus repeated generations, so never below what is loaded, and the cache does not deadlock. That a line is generated once, and that the size equals the sum over loaded lines when all threads are done, is refuted.", "quantifier": "all schedules, all numbers of threads and lines", "why_tests_cant": "The failing schedule is a narrow race.", "anchors": ["src/vw/Core/Cache.h: CacheLine::value, try_invalidate, invalidate, release", "src/vw/Core/Cache.cc: allocate"]}
{"id": "C16", "title": "Work queue runs every submitted task exactly once", "statement": "For a FIFO work queue with at least one thread and any interleaving of submissions and workers: each submitted task is started at most once, in submission order, and when no worker is active every submitted task has been run and signalled; at most the configured number run at once; the active-worker counter and free-id list stay consistent.", "quantifier": "all schedules, all task lists, all thread counts", "why_tests_cant": "Schedules cannot be enumerated.", "anchors": ["src/vw/Core/ThreadPool.h: WorkQueue, FifoWorkQueue", "src/vw/Core/ThreadPool.cc"]}
{"id": "C17", "title": "Ordered work queue starts tasks in index order", "statement": "For any interleaving and any order of submission of distinct indices, tasks start in strictly increasing consecutive index order from 0, and at rest exactly the tasks whose index and all smaller indices were submitted have run. Re-using an index blocks the queue for good.", "quantifier": "all schedules and submission orders", "why_tests_cant": "Schedules and permutations.", "anchors": ["src/vw/Core/ThreadPool.h: OrderedWorkQueue"]}
{"id": "C18", "title": "Outcome of kill_and_join", "statement": "After kill_and_join is called the workers take finitely many more steps; once they rest, the active count equals the number of tasks that were dequeued but dropped, and join_all returns exactly when no task was dropped. It is not true that kill_and_join always returns: with a queued task a worker can dequeue it, see the kill flag, and exit without releasing its slot.", "quantifier": "all schedules", "why_tests_cant": "Requires a schedule where a worker dequeues after the kill flag is set.", "anchors": ["src/vw/Core/ThreadPool.h: WorkQueue::kill_and_join, WorkerThread"]}
{"id": "C19", "title": "Thread queue is a linearizable FIFO", "statement": "For any interleaving of producers and consumers, the popped elements, in order of popping, followed by the content of the queue are exactly the pushed elements in order of pushing; every call takes effect at one moment inside it; and no consumer stays asleep while there are more elements than threads about to look or to notify.", "quantifier": "all schedules", "why_tests_cant": "Schedules.", "anchors": ["src/vw/Core/ThreadQueue.h"]}
{"id": "C20", "title": "Disjoint sets represent exactly the generated equivalence", "statement": "After any sequence of insertions and unions, two elements have the same representative exactly when they are connected by the unions made; finding never loops and takes at most 1 + log2(n) steps; calls with stale representatives are refused. (The stored rank itself does not bound the depth.)", "quantifier": "all operation sequences", "why_tests_cant": "Needs all union orders and path compressions.", "anchors": ["src/vw/Math/DisjointSet.h"]}
{"id": "C21", "title": "Kruskal result is a minimum spanning forest", "statement": "For any weighted graph the edges selected are acyclic, connect exactly what the input edges connect, and have least total weight among all such edge sets; the traversal reports every selected edge exactly once, walking outwards from the start node.", "quantifier": "all finite graphs and weights", "why_tests_cant": "Minimality is over exponentially many trees.", "anchors": ["src/vw/Math/MinimumSpanningTree.cc"]}
{"id": "C22", "title": "Rasterised lines are connected and within half a pixel", "statement": "For any two integer end points, the line iterator visits one pixel per step of the dominant axis, consecutive pixels are 8-neighbours, each pixel is within half a pixel of the ideal line, and the walk starts at the start point and stops before the stop point, unless the dominant coordinate decreases, in which case it is the walk from stop to start.", "quantifier": "all pairs of end points", "why_tests_cant": "All octants and slopes.", "anchors": ["src/vw/Math/BresenhamLine.h"]}
{"id": "C23", "title": "Grassfire computes the Manhattan distance", "statement": "For images at least two pixels wide and high, each output pixel is the Manhattan distance to the nearest zero pixel (locations outside the image count as zero unless borders are ignored). An image one pixel wide or high comes out all zero instead.", "quantifier": "all images of any size", "why_tests_cant": "Two-pass propagation correctness is global.", "anchors": ["src/vw/Image/Grassfire.h: grassfire"]}
{"id": "C24", "title": "Bounded distance transform", "statement": "Each valid interior pixel gets the smaller of the cap and the Euclidean distance to the nearest invalid or border pixel; invalid and border pixels get zero; a negative cap is rejected. The signed variant gives each pixel the capped distance to the nearest boundary pixel (an invalid pixel next to a valid one), positive on valid and negative on invalid pixels.", "quantifier": "all images, caps", "why_tests_cant": "Relies on the claim that only boundary pixels matter.", "anchors": ["src/vw/Image/DistanceFunction.cc: bounded_dist", "src/vw/Image/DistanceFunction.h: bounded_signed_dist"]}
{"id": "C25", "title": "Sparse composite: reads see absorbed data, writes never overlap", "statement": "After any sequence of disjoint absorbed patches a pixel covered by a patch reads the patch value and other pixels read the underlying image. A patch that overlaps stored data is rejected when the row holds data ending at or right of the patch's last column; an overlap elsewhere is accepted and loses pixels.", "quantifier": "all sequences of patches", "why_tests_cant": "History dependent interval map.", "anchors": ["src/vw/Image/SparseView.h: SparseCompositeView"]}
{"id": "C26", "title": "Erode mask is the union of the absorbed blobs", "statement": "After any sequence of absorbed blobs, in any order and overlapping or not, exactly the pixels of the blobs are masked and all other pixels read the underlying image; stored segments stay disjoint and non-adjacent; a blob reaching outside the image is refused.", "quantifier": "all sequences of blobs", "why_tests_cant": "Interval merging has many overlap cases.", "anchors": ["src/vw/Image/ErodeView.h: absorb, operator()"]}
{"id": "C27", "title": "Blob detection finds the 8-connected components", "statement": "The blobs found in an image partition the valid pixels and two valid pixels are in the same blob exactly when they are joined by a path of touching valid pixels; the label image is zero exactly off the valid pixels and pixels with equal labels are in one blob; the pass never throws its internal error.", "quantifier": "all images", "why_tests_cant": "Component merging is global.", "anchors": ["src/vw/Image/BlobIndex.h: BlobIndex, blob_index"]}
{"id": "C28", "title": "Compressed blobs keep their pixel set", "statement": "Feeding a compressed blob rows in reading order and merging it with pixel-disjoint blobs whose rows touch yields exactly the union of the pixels; size, bounding box, decompression and the adjacency tests agree with the pixel set; rows out of order and overlapping merges are refused.", "quantifier": "all blobs", "why_tests_cant": "Run-length merging with offsets.", "anchors": ["src/vw/Image/BlobIndex.cc: BlobCompressed"]}
{"id": "C29", "title": "Census codes are a faithful encoding", "statement": "Each bit (pair) of a census code is set exactly by the comparison of its neighbour with the centre, binary codes are unchanged by strictly increasing brightness changes and ternary codes by brightness offsets, and the Hamming distance between two codes counts the neighbours that compare differently (for ternary codes, by how many classes).", "quantifier": "all images and positions", "why_tests_cant": "2^200 patches.", "anchors": ["src/vw/Image/CensusTransform.h", "src/vw/Math/Functions.h: hamming_distance"]}
{"id": "C30", "title": "Integral image gives exact block sums", "statement": "For every rectangle the four-corner combination equals the sum of the pixels of the rectangle, and the Haar and second derivative filters equal their direct definitions, in single precision as long as the sums stay within its exact range; on a uniform image they respond with zero.", "quantifier": "all integer images whose weighted sum is at most 2^24, all rectangles and filter sizes with odd lobes", "why_tests_cant": "All rectangles.", "anchors": ["src/vw/InterestPoint/IntegralImage.h", "src/vw/InterestPoint/IntegralImage.cc"]}
{"id": "C31", "title": "Match files round trip and truncation is detected", "statement": "Reading back a written interest point or match file returns exactly the points written; a file cut short after its header and before its last record is rejected.", "quantifier": "all point lists, all truncation offsets", "why_tests_cant": "Every crash point of a write.", "anchors": ["src/vw/InterestPoint/MatcherIO.cc: write_binary_match_file, read_binary_match_file, write_ip_record, read_ip_record"]}
{"id": "C32", "title": "Match file names fit the file system and identify the pair", "statement": "Every generated file name component fits the name budget, short names are used unchanged, and pairs of different short image names get different match files unless the first name contains or ends in the separator; long names only collide with their hashes.", "quantifier": "all prefixes and names", "why_tests_cant": "Length arithmetic with hashes and caps; collisions need special names.", "anchors": ["src/vw/InterestPoint/MatcherIO.cc: match_filename, shortenName, capPrefixBase"]}
{"id": "C33", "title": "Tree reparenting keeps the forest consistent; common ancestor is the deepest", "statement": "After any sequence of creations, moves and destructions of existing nodes, each child is in exactly its parent's list once and each call changes only the links it names; as long as no node is moved below itself, ancestry, root, ancestor test, offspring count and traversals describe the tree below the node, the last common ancestor is above both nodes and below every other common ancestor, a clone is a disjoint copy with the children of every node reversed, and a recursive deletion destroys exactly the nodes below.", "quantifier": "all histories, all trees", "why_tests_cant": "Histories.", "anchors": ["src/vw/Geometry/TreeNode.h"]}
{"id": "C34", "title": "Spatial tree queries are exact", "statement": "However the tree was built (any sequence of add calls, any level limits, growing of the root included), contains, contains_one, intersects and overlap_pairs return exactly the stored primitives or pairs that satisfy the query, each once per insertion; split nodes have exactly the quadrants of their box as children; without level limits every primitive is in the deepest node that can hold it and add always returns if the primitive has an interior and is not too far away. With level limits add may never return, and may leave primitives above a child that holds them; primitives without interior or very far away lead to undefined behaviour.", "quantifier": "all dimensions, primitives, insertion sequences, level limits and queries", "why_tests_cant": "Depends on which node each primitive lands in, over all insertion histories.", "anchors": ["src/vw/Geometry/SpatialTree.cc", "src/vw/Geometry/SpatialTree.h"]}
{"id": "C35", "title": "Histogram percentile and median are order statistics", "statement": "A value inside the range is counted in the bin of the nearest of n equally spaced points of the range, a saturated value in the first or last bin, so that after any sequence of additions every bin holds exactly the number of values nearest to it; the percentile query returns the first bin where the cumulative fraction exceeds the request (in exact arithmetic); the median is the middle order statistic (mean of the two middle ones for even length) whatever the input order; the outlier brackets are the documented percentiles widened by the factor. Refuted: the bin is the one whose centre is nearest, unsaturated additions ignore all values outside the range, percentile(1) is always defined in floating point, the brackets are ordered.", "quantifier": "all value lists", "why_tests_cant": "All orders and ties.", "anchors": ["src/vw/Math/Statistics.h: median", "src/vw/Math/Statistics.cc: Histogram"]}
{"id": "C36", "title": "Log rules: most recent matching rule decides", "statement": "A rule is accepted exactly if its namespace pattern has at most one '*', first or last; otherwise ArgumentErr is thrown and the rules stay as they were. After any sequence of rule additions and clears, a message passes iff the most recent accepted rule since the last clear that matches its namespace (ignoring case) grants its level, and if none matches iff the documented defaults grant it. A log stream feeds exactly the logs whose rules pass, and is_enabled tells whether there is one. Refuted: the default for the console namespace ignores case like the rules do.", "quantifier": "all histories of rule additions and clears, all levels and namespaces, any number of logs", "why_tests_cant": "Histories and patterns are unbounded; tests use a handful of rules.", "anchors": ["src/vw/Core/Log.cc: LogRuleSet::add_rule, LogRuleSet::clear, wildcard_match, LogRuleSet::operator(), Log::operator(), Log::is_enabled"]}
{"id": "C37", "title": "Log lines of different threads are never interleaved mid-line", "statement": "For any interleaving of threads writing to a log, the output is a sequence of non-empty chunks, each the text of one thread; what a thread wrote, in order, is what was sent for it followed by what is buffered for it; a chunk ends in a newline or carriage return unless its thread asked for a flush; once a stream is set a write that ends a line leaves nothing buffered for the writing thread. Refuted: destroying the buffer sends the pending text of every thread; pending text goes to the log file when the log is destroyed.", "quantifier": "all schedules and write sequences of any number of threads", "why_tests_cant": "Schedules are unbounded.", "anchors": ["src/vw/Core/Log.cc: PerThreadBufferedStreamBuf, LogInstance::~LogInstance"]}
{"id": "C38", "title": "String replacement replaces every occurrence", "statement": "If the replacement is not empty and the first character of the searched text occurs in it at most at its start, string_replace returns, replaces every non-overlapping occurrence from the left and returns their number. Erasing passes over the character after each erased occurrence and so erases all occurrences when no two are adjacent. The call returns exactly unless the searched text occurs both in the string and in the replacement after its first character. The separators given to str_to_vec and str_to_std_vec all become spaces and nothing else changes. Refuted: it always returns; it erases every occurrence; none is left afterwards.", "quantifier": "all strings, search and replacement texts", "why_tests_cant": "Termination and rescanning depend on the replacement text and on unbounded strings.", "anchors": ["src/vw/Core/StringUtils.cc: string_replace, str_to_std_vec", "src/vw/Core/StringUtils.h: str_to_vec"]}
{"id": "C39", "title": "Stopwatch accumulates outermost intervals", "statement": "For any history of starts and stops without a stop too many, when nothing is running the elapsed time is the total time during which something was; while something runs it stays what it was before; an outermost interval adds its length whatever is nested in it, and one stop; is_running tells whether a start is pending; a set of watches keeps exactly one watch per name used, the one of the calls made with that name. Refuted: a start and a stop add their interval also after a stray stop.", "quantifier": "all histories, clocks and names", "why_tests_cant": "Histories are unbounded.", "anchors": ["src/vw/Core/Stopwatch.h: Stopwatch, StopwatchSet, stopwatch_start, stopwatch_stop"]}
{"id": "C40", "title": "Modulo, rounding, power-of-two and bit-count helpers meet their definitions", "statement": "mod is congruent to its argument and lies in [0,b) or (b,0]; _round is nearest with ties away from zero and _floor the floor whenever that is an int, undefined otherwise; nextpow2 is the least power of two not below its argument up to 2^30; hamming_distance counts the differing bits and is a metric; round_and_clamp saturates into types of up to 32 bits. Refuted: mod is total; _round is nearest in double and keeps integers in float; round_and_clamp saturates into 64 bits.", "quantifier": "all arguments of all integer types, all rationals", "why_tests_cant": "Extremes of the integer range and rounding.", "anchors": ["src/vw/Math/Functions.h: mod, _round, _floor, nextpow2, hamming_distance", "src/vw/Image/RoundAndClamp.h: round_and_clamp"]}
{"id": "C41", "title": "Channel casts clamp, round and rescale", "statement": "Clamping an integer channel to another type gives the nearest value of the type unless a signed type meets an unsigned one of at least 32 bits that is not narrower; clamping a double truncates inside the range and saturates outside; rounding and clamping equals clamping the nearest integer for up to 16 bits and int32; rescaling from 8 bits to 8 or 16 is the exact scaled value rounded down, keeps order and ends, and 8 bits survive 16 bits and float. Refuted: clamping between int32 and uint32 (-1 becomes 4294967295; from uint32 every value that fits becomes the minimum), rounding and clamping to uint32 is defined, 8 bits survive double, 16 bits survive float, white stays white in 64 bits.", "quantifier": "all values of all pairs of integer types, all rationals", "why_tests_cant": "The 64 pairs of types with their conversions are not enumerated by tests.", "anchors": ["src/vw/Image/PixelTypeInfo.h: ChannelCastClampFunctor, ChannelCastRoundClampFunctor, ChannelCastRescaleFunctor, ChannelRange"]}
{"id": "C42", "title": "Running box sums are window sums", "statement": "fast_box_sum of an image with an odd kernel no larger than the image returns an image of size (cols-kx+1) x (rows-ky+1) whose entry (x,y) is the sum of the kx x ky pixels starting at (x,y); an even kernel is refused. Refuted: an image smaller than the kernel is rejected (in release builds the sums are read out of bounds).", "quantifier": "all image sizes, kernels and pixel values", "why_tests_cant": "Two nested running sums whose errors show only at certain sizes.", "anchors": ["src/vw/Stereo/Algorithms.h: fast_box_sum"]}
{"id": "C43", "title": "Block matching returns the first best candidate", "statement": "calc_disparity with the absolute or squared cost returns for every pixel of the region a disparity of the search volume whose window cost is least, the first one in row order among equals, and the pixel is valid exactly if two candidates differ in cost; if the right image is the left one shifted by a candidate, the result has cost zero and is that candidate or an earlier one. Refuted: a matching pixel is valid (with a single candidate every pixel is masked).", "quantifier": "all images, regions, search volumes and odd kernels within the images", "why_tests_cant": "Ties, borders and the first/last candidate are combinations tests do not enumerate.", "anchors": ["src/vw/Stereo/Correlation.cc: best_of_search_convolution, calc_disparity", "src/vw/Stereo/CostFunctions.h: AbsoluteCost, SquaredCost"]}
{"id": "C44", "title": "Subdividing the search loses no pixel and no disparity", "statement": "subdivide_regions on a box inside the disparity image ends; the regions it returns lie in the box, do not overlap, contain every pixel that has a disparity together with a search range containing that disparity, and no range goes beyond the disparities of the region and its one pixel border, whatever the comparison of the work estimates answers (so also when they overflow). A call that reports failure has added nothing.", "quantifier": "all disparity images, boxes and all outcomes of the work comparison, any recursion depth", "why_tests_cant": "Recursive with merging of quadrants; the cases depend on the data.", "anchors": ["src/vw/Stereo/Correlation.cc: subdivide_regions", "src/vw/Image/Statistics.h: EWMinMaxAccumulator"]}
{"id": "C45", "title": "Sparse symmetric systems are solved exactly", "statement": "A MatrixSparseSkyline reads back the last value assigned to an entry or its mirror image, and everything left of the skyline of a row is zero. If every leading block is regular, sparse_ldl_decomposition leaves L and D with A = L D L^T, sparse_solve and multi_sparse_solve return the one solution, and for positive definite matrices the pivots are positive and solving a reordered matrix with the skyline found for it gives the same solution, for every permutation. Refuted: semi-definite matrices can be decomposed (as the comment says), and every regular system can be solved; looking at an entry leaves the skyline alone.", "quantifier": "all sizes, all histories of assignments, all right hand sides and permutations, over exact rationals", "why_tests_cant": "An algebraic identity over matrices of every size and sparsity pattern.", "anchors": ["src/vw/Math/MatrixSparseSkyline.h: MatrixSparseSkyline, sparse_ldl_decomposition, sparse_solve, sparse_solve_ldl, multi_sparse_solve, MatrixReorganize, VectorReorganize, solve_for_skyline"]}
{"id": "C46", "title": "Convolution views compute the textbook sum", "statement": "convolution_filter and separable_convolution_filter give at every pixel, on the border and inside, the sum over the kernel of kernel(i,j) * image(x+ci-i, y+cj-j) of the edge extended image, converted to the pixel type; rasterizing a rectangle gives the same pixels for the 2D view, and for the separable view with floating point pixels (for integer pixels it is the two one dimensional passes, each rounded to the pixel type). On an image in memory with a proper edge mode this never fails. Refuted: a separable view over integer pixels reads the same through operator() and through rasterize.", "quantifier": "all images, kernels, origins, edge modes, rectangles and positions, over exact rationals", "why_tests_cant": "Kernel size, origin, edge mode and rectangle position interact; tests fix a few.", "anchors": ["src/vw/Image/Convolution.h: ConvolutionView, SeparableConvolutionView, correlate_1d_at_point, correlate_2d_at_point", "src/vw/Image/Filter.h: convolution_filter, separable_convolution_filter"]}
{"id": "C47", "title": "Inverting a matrix", "statement": "inverse of a square matrix M returns X with MX = XM = 1 if only zero is mapped to zero, and otherwise throws; the overload for 2x2 finds the same inverses and rejects the same matrices. Refuted: matrices that are not square are rejected (tall ones are inverted as if cut off, wide ones are read outside their storage).", "quantifier": "all sizes and entries, over exact rationals", "why_tests_cant": "Pivoting depends on the data; an identity over all sizes.", "anchors": ["src/vw/Math/Matrix.h: inverse, MatrixStaticInverse"]}
{"id": "C48", "title": "Determinants", "statement": "det ends on every matrix and throws for those that are not square; det is 1 on the identity, linear in every row, changes sign when two rows are exchanged, is multiplicative, and is zero exactly for the matrices inverse rejects; the 2x2 overload agrees. Refuted: the determinant of the empty matrix is one.", "quantifier": "all sizes and entries, over exact rationals", "why_tests_cant": "An explicit work list of minors of every size.", "anchors": ["src/vw/Math/Matrix.h: det, submatrix"]}
{"id": "C49", "title": "Filter kernels", "statement": "generate_gaussian_kernel gives the integrals of the Gaussian over unit intervals, normalized: the kernel sums to one, is symmetric and positive and leaves constant images alone; the size chosen is odd, at least three and about seven sigma. generate_derivative_kernel gives a kernel that yields the exact derivative of every polynomial of degree less than its size, and rejects sizes that are too small or even. laplacian_filter gives the sum of the four neighbours minus four times the pixel. Refuted: laplacian_filter is defined on unsigned pixels; sobel_filter gives the derivative (it has the opposite sign); a negative order of derivative is rejected.", "quantifier": "all sizes, orders, sigmas, polynomials and images, over exact rationals, for any odd increasing error function", "why_tests_cant": "The derivative kernel solves a linear system of every size.", "anchors": ["src/vw/Image/Filter.tcc: generate_gaussian_kernel, generate_derivative_kernel", "src/vw/Image/Filter.cc: compute_kernel_size", "src/vw/Image/Filter.h: laplacian_filter, sobel_filter"]}
{"id": "C50", "title": "Quad tree tiles", "statement": "QuadTreeGenerator::generate writes one tile for each address of the tree whose region, and the regions above it, meet the part of the image to be cut and pass the sparse image check (unless all its pixels are cut off); no name is written twice and every tile is written after those below it. The pixels of a tile j levels above full resolution are those of the j-th level of the pyramid in which each pixel is the mean of four (for floating point: the means of the 2^j by 2^j blocks of the image, black outside of it), and its boxes say what it shows. At full resolution every pixel of the part to be cut is found unchanged in exactly one tile, even if tiles are cropped. The tree has the least number of levels for which the root covers the image. Refuted: any tile size works (odd sizes throw or divide by zero); cropping and culling keep all tiles that have data.", "quantifier": "all images, even tile sizes, crop boxes, crop/cull settings, sound sparse checks and channel types", "why_tests_cant": "The recursion is as deep as the image is large; the tests use one or two small trees.", "anchors": ["src/vw/Mosaic/QuadTreeGenerator.h: generate_branch, box_subsample, get_tree_levels", "src/vw/Mosaic/QuadTreeGenerator.cc: generate, default_branch_func"]}
{"id": "C51", "title": "Quad tree file paths", "statement": "The simple and the tiered path functions give different files to tiles of different names, for any tree name and number of levels per directory. With the named tiered function only the root can share its file with another tile. Refuted: it never does (in a tree called 0.kml the root and the tile 0 have the same path).", "quantifier": "all tree names, tile names without a slash, and numbers of levels per directory", "why_tests_cant": "Names of any length.", "anchors": ["src/vw/Mosaic/QuadTreeGenerator.cc: simple_image_path, tiered_image_path, named_tiered_image_path"]}
{"id": "C52", "title": "Exif tags of TIFF files", "statement": "ExifData reads a file that starts with a TIFF header, in either byte order: afterwards each tag has the value of its last entry in the directory, the directories it links to and those that follow, at most five deep, and other tags have none. Every list of readable tags is read back from a file with one directory: get_tag_value gives the first integer or quotient, or the text up to the first zero, and false for tags that are not there. Put16u/Put32u and Get16u/Get32u are inverse. Refuted: damaged files are never read out of bounds (data offsets near 2^32, a next directory at the very end, any first offset); unsigned 32 bit numbers and floating point numbers in Motorola order are read correctly.", "quantifier": "all files, byte orders, directories, nestings, numbers of entries, formats and values", "why_tests_cant": "Directories link to each other at any offset; tests read one picture.", "anchors": ["src/vw/Camera/ExifData.cc: process_exif_dir, process_tiff_header, read_tiff_ifd, convert_any_format, get_tag_value, Get16u, Get32s, Get32u, Put16u, Put32u"]}
{"id": "C53", "title": "Exif tags of JPEG files", "statement": "The Exif section of a JPEG file is found behind any sections with other markers, with up to six bytes of padding each; its tags are exactly those of a TIFF file with the same contents and the reported location is where these contents are in the file. If the image data or the end marker with a length comes first, there are no tags and nothing fails. Refuted: other APP1 sections (XMP) before the Exif section are passed over; a file without tags that ends with a bare end marker is accepted; short APP1 sections are not read out of bounds.", "quantifier": "all sequences of sections, paddings, contents and trailing data", "why_tests_cant": "Any number of sections of any length.", "anchors": ["src/vw/Camera/ExifData.cc: read_jpeg_sections, process_exif"]}
{"id": "C54", "title": "Cutting point clouds into chips", "statement": "Chipper cuts a cloud into ceil(total/blockSize^2) chips: each point is in exactly one, the sizes differ by at most one and fit a block, any two chips are separated by a line parallel to an axis, and the points of each chip are stored in the order of an axis. Block k of the image (counting down the columns) holds chip k, so the pixels of the image are exactly the points of the cloud and zeros. Clouds that are too large and image sizes that are not multiples of the block size are rejected. Refuted: a block size of zero is rejected.", "quantifier": "all clouds, block sizes, image sizes, ties between coordinates and roundings of the coordinate differences", "why_tests_cant": "Three arrays with mutual indices are permuted in place at every level of the recursion.", "anchors": ["src/vw/Cartography/Chipper.cc: Chipper, load, partition, decideSplit, split, finalSplit, emit"]}
{"id": "C55", "title": "Converting between image buffers", "statement": "convert writes to every pixel of the destination the conversion of the source pixel at the same place and touches no other byte, for any strides: channels are copied, expanded from gray, averaged to gray, made opaque or (un)premultiplied. Integer channels keep their value modulo the new size, or scale by 257 between uint8 and uint16. Same formats are copied bit by bit, wider types and premultiplied 8- and 16-bit pixels come back unchanged, planes become channels and channels planes. can_convert accepts exactly the stated pairs of formats and convert throws exactly when it does. Reading or writing a box concerns exactly its pixels. Refuted: the alpha channel tested is the source's; rescaling reaches planes; numbers of planes are compared; unknown formats are refused by can_convert; means of uint64 are means.", "quantifier": "all formats, strides, memories, boxes and floating-point operations", "why_tests_cant": "Thousands of pairs of formats are handled by one function through tables and flags; tests sample a few of them.", "anchors": ["src/vw/Image/ImageResource.cc: convert, can_convert, channel_* functions and tables", "src/vw/Image/ImageResource.h: ImageFormat, ImageBuffer", "src/vw/Image/PixelTypeInfo.cc: num_channels, channel_size"]}
{"id": "C56", "title": "Netpbm files", "statement": "Opening a Netpbm file accepts every well-formed header: white space, comments of up to 1024 characters and leading zeros in any place the format allows; otherwise it throws, and what it does never depends on uninitialised variables. Reading converts the samples, scaled from 0..max to 0..255 and clamped, to the format asked for. An image written to a new file, in binary or as text, and read back is the image converted to 8 bits and then to the buffer asked for; an 8-bit image of the format of the file comes back exactly. Several planes, bitmaps, unsuitable formats and partial reads and writes are refused. Refuted: a second write replaces the first; bitmaps can be read; short files are refused; large text samples are clamped; comments may be longer; a negative width is refused.", "quantifier": "all headers, comments, numerals, samples, formats, buffers and contents of uninitialised memory", "why_tests_cant": "Headers allow unbounded white space and comments, and behaviour that depends on stream states and uninitialised memory does not show in tests.", "anchors": ["src/vw/FileIO/DiskImageResourcePBM.cc: open, read, create, write, skip_any_comments, normalize"]}
{"id": "C57", "title": "Accumulated costs of semi-global matching", "statement": "For every image, search boxes and local costs, the accumulated cost of each pixel and disparity is the sum over the eight directions of the costs of the path arriving there, whatever the interleaving of the worker threads, with the plain and with the vectorised step alike; the threads never collide, never stop and never leave or exhaust a buffer. Every pixel is on exactly one line of each direction; disparities and their numbers convert into each other; entries of different pixels do not overlap; the table of adjacent disparities is clamped to the range. The path cost of a disparity is, up to a constant of the pixel, the least energy (local costs and penalties for changes of disparity) of all choices along the path, when search boxes do not shrink and p1 <= p2. Default penalties satisfy the limits. Refuted: the same for arbitrary boxes; any penalty of 16 bits works.", "quantifier": "all image sizes, search boxes, costs, gray values, penalties up to 7936 and thread schedules", "why_tests_cant": "Optimality over exponentially many choices and independence of the schedule cannot be sampled; tests compare a few disparities with ground truth.", "anchors": ["src/vw/Stereo/SGM.cc: evaluate_path, evaluate_path_sse, accum_sgm_multithread, populate_adjacent_disp_lookup_table, calc_main_buf_size, set_parameters", "src/vw/Stereo/SGM.h: SemiGlobalMatcher", "src/vw/Stereo/SGMAssist.h: PixelPassTask, OneLineBuffer, IterationMask"]}
{"id": "C58", "title": "Search boxes of semi-global matching", "statement": "The output region is exactly the set of pixels whose window is inside the left image and, for every disparity of a range starting at or below zero, inside the right image. Choosing the search boxes throws for masks of the wrong size and succeeds otherwise; the boxes are those of the first of four levels that fits in memory, and the result tells whether one does. If every trusted prior has a disparity of the range within the search buffer, every box is the empty one or a non-empty part of the range, as the accumulation of costs requires. Nothing is searched where the left mask is off; at a pixel with a trusted prior exactly the disparities of the range within the search buffer of twice the prior, limited to the valid columns and rows of the right mask; without priors the whole range; at a pixel between pixels with priors the smallest box around theirs, grown by two.", "quantifier": "all image sizes, ranges, search buffers, masks, prior disparities and memory limits", "why_tests_cant": "Boxes depend on priors, two masks and neighbours up to 25 pixels away; tests only look at the final disparities of a few scenes.", "anchors": ["src/vw/Stereo/SGM.cc: semi_global_matching_func, populate_constant_disp_bound_image, populate_disp_bound_image, constrain_disp_bound_image"]}
{"id": "C59", "title": "Semi-global matching from images to disparities", "statement": "The cost of a disparity at a pixel is the number of neighbours which compare differently with the centre in the two windows (census), or the sum of the class differences (ternary census); other windows and cost types throw. The choice among the accumulated costs of a pixel smooths them as long as there are several minima, at most six times, and takes the first minimum; a unique minimum is taken as it is and equal costs give the first disparity. For every schedule of the threads the matcher delivers an image of the size of the matchable region, in which a pixel is invalid exactly if it has no search box (or the boxes do not fit in memory) and otherwise holds a disparity of its box; a disparity with a smaller sum of the eight path costs than all others of the box is the result.", "quantifier": "all images, windows 3 to 9, ranges starting at or below zero, masks, priors, penalties up to 7936, schedules and roundings of ties", "why_tests_cant": "The outcome is a composition of box selection, census codes, sixteen-bit dynamic programming in threads and smoothing; tests compare a few disparity images.", "anchors": ["src/vw/Stereo/SGM.cc: get_hamming_distance_costs, fill_costs_census3x3, fill_costs_census5x5, fill_costs_census7x7, fill_costs_census9x9, compute_disparity_costs, select_best_disparity, create_disparity_view, semi_global_matching_func"]}
{"id": "C60", "title": "Frame store: a consistent forest", "statement": "Whatever calls are made, the frames of the store form a forest: the roots are listed once and have no parent, and no frame is its own ancestor. add() by name or of a tree, set_parent(), del() with and without the children, clone_tree() and the destructor change exactly what they say: which frames exist and belong to the store afterwards, their parents and their data; every call that is refused throws LogicErr under exactly the documented conditions and changes nothing in the store. As long as trees coming in have unique names and del without children makes no namesakes, no two frames with the same parent have the same name. is_member() is exact.", "quantifier": "all histories of calls on existing frames that do not move a frame below itself; all stores and trees of any size", "why_tests_cant": "The store is a pointer forest with deletion; tests exercise one fixed tree of five frames.", "anchors": ["src/vw/Geometry/FrameStore.cc: FrameStore::add, FrameStore::del, FrameStore::set_parent, FrameStore::clone_tree, FrameStore::is_member, FrameStore::~FrameStore, FrameStore::assert_unique"]}
{"id": "C61", "title": "Frame store: names and lookup", "statement": "full_name() is the names from the root to the frame, each after a slash; frame_names() lists the full names of exactly the frames of the store, each once. A path is cut at slashes, and empty elements and \".\" are ignored. lookup() follows an absolute path from the roots, and searches a relative one in breadth-first order below the scope, or below every root; \"..\" leads to the parent and \"...\" to any frame below. What is found is in the store; the full name of a frame leads back to it under every scope if names are proper and unique; a single name finds a frame of that name below the scope, and nothing only if there is none.", "quantifier": "all stores, paths as any character strings, all scopes", "why_tests_cant": "The lookup combines path splitting, two kinds of search and special cases of the first element; tests look up a dozen paths in one tree.", "anchors": ["src/vw/Geometry/FrameStore.cc: FrameStore::full_name, FrameStore::frame_names, FrameStore::lookup", "src/vw/Geometry/FrameTreeNode.cc: lookup, splitPath, matchNode, get_path"]}
{"id": "C62", "title": "Frame store: merging trees", "statement": "merge_frame_trees() unites two trees with the same root name: a frame of the source whose path of names leads nowhere from the target comes to the target at that path, with all below it, and the other frames stay with the source. merge_tree() without a start frame adds the frames of the tree at paths not yet in the store, deletes the others, leaves the frames of the store where they are, and tells whether a root of the same name existed; members of the store are refused. With a start frame, the arguments are exchanged: nothing is added, and frames of the store are deleted.", "quantifier": "all stores and all trees with unique names", "why_tests_cant": "The merge moves nodes while it iterates over sorted child lists; tests merge two trees of three frames.", "anchors": ["src/vw/Geometry/FrameTreeNode.cc: merge_frame_trees", "src/vw/Geometry/FrameStore.cc: FrameStore::merge_tree"]}
{"id": "C63", "title": "Frame store: transforms between frames", "statement": "get_transform(target, source) turns positions given in the source frame into the same positions given in the target frame, where a frame's position in the world is found by applying the transforms from the frame up to its root; it fails exactly if a transform that has to be inverted is singular. Conversions compose and are inverse to each other; get_transform_of() and get_position_of() agree with them. set_transform(frame, wrt, update) changes the transform of this frame only, and puts it where the update was in wrt; afterwards get_transform(wrt, frame) returns the update. get_frame_transforms() returns what set_frame_transforms() set. Products and inverses of affine transforms act on positions as composition and inverse.", "quantifier": "all stores, frames of one tree at any depth, and all affine transforms with rational elements", "why_tests_cant": "The result depends on the last common ancestor, the order of products and one inversion; tests use axis-aligned transforms.", "anchors": ["src/vw/Geometry/FrameTreeNode.cc: get_transform", "src/vw/Geometry/FrameTreeNode.h: get_transform_of, set_transform", "src/vw/Geometry/FrameStore.cc: FrameStore::get_transform, FrameStore::set_transform, FrameStore::get_position_of, FrameStore::set_frame_transforms, FrameStore::get_frame_transforms", "src/vw/Geometry/ATrans.h: ATrans, inverse"]}
{"id": "C64", "title": "Random sample consensus", "statement": "A sample of get_n_unique_integers() has as many integers as asked for, all different and in the range. inliers() and inlier_indices() return exactly the pairs with an error below the threshold, in order. Whatever the order in which the parallel iterations of attempt_ransac() end, the result has the smallest mean error among all models the samples lead to, and the attempt fails exactly if no sample leads to a model with enough inliers; inputs of different sizes or with fewer points than a model needs are refused. operator() makes at most ten attempts, asks for two thirds of the inliers (not below two) after each failure if this was wished, and returns the result of the last attempt.", "quantifier": "all data, fitting and error functors, generators, thread orders, thresholds and numbers of iterations", "why_tests_cant": "The result depends on random samples and on the order in which OpenMP threads enter a critical section; a test sees one seed and a few orders.", "anchors": ["src/vw/Math/RANSAC.h: RandomSampleConsensus::attempt_ransac, RandomSampleConsensus::operator(), RandomSampleConsensus::inliers, RandomSampleConsensus::inlier_indices, get_n_unique_integers"]}
{"id": "C65", "title": "Control networks and files of ground control points", "statement": "find() and find_measure() return the first match and the size without one; delete_measure() and delete_control_point() take out exactly the element at the index and refuse others; in a network built by adding and deleting points, num_ground_control_points() and num_tie_points() count the points of their types, and a network with ground control points is of type ImageToGround; add_image_name() returns an index that leads to the name. write_in_gcp_format() writes one line per point with measures, and add_ground_control_points() reads such a file back: the same positions and measures as ground control points, with 1 for standard deviations that are not positive, if image names are unambiguous.", "quantifier": "all networks, points and measures, and all lists of image names", "why_tests_cant": "The file format drops and replaces fields conditionally and looks images up under two names; a test writes one file.", "anchors": ["src/vw/BundleAdjustment/ControlNetwork.h: ControlPoint, ControlNetwork", "src/vw/BundleAdjustment/ControlNetwork.cc: ControlPoint::find, ControlPoint::delete_measure, ControlNetwork::find_measure, ControlNetwork::delete_control_point, ControlNetwork::add_control_point, ControlNetwork::write_in_gcp_format", "src/vw/BundleAdjustment/ControlNetworkLoader.cc: add_ground_control_points"]}
{"id": "C66", "title": "Camera relation network", "statement": "from_cnet() of a control network whose points have measures makes one feature per measure with its image, position, standard deviations and point, connects exactly the features of the same point, makes a node for each image of the list or of a measure with the features of that image in order, and builds maps: for a feature and an image the last connected feature in it, for a node and an image exactly the node's features connected with that image, each once. list_connections() ends on any graph of connections and lists exactly the features that can be reached, each once. A point without measures is undefined behaviour.", "quantifier": "all control networks, and for the listing all graphs of connections, cycles included", "why_tests_cant": "Nodes grow while points are added, links are made pairwise and the recursion of the listing runs on cyclic graphs; tests use a handful of points.", "anchors": ["src/vw/BundleAdjustment/CameraRelation.h: FeatureBase::connection, FeatureBase::list_connections, FeatureBase::build_map, JFeature, CameraNode", "src/vw/BundleAdjustment/CameraRelation.cc: CameraRelationNetwork::from_cnet, CameraRelationNetwork::build_map, JFeature::control_measure"]}
{"id": "C67", "title": "Tracks made of pairwise matches, and the control network made of them, hold matched features only, one per image, each in one track", "statement": "Building a control network from match files for different pairs of images gives tie points with measures in two or more images, in the order of the images and at most one per image; each measure is an interest point of a match that was taken, with its scale (10 if not positive) as both standard deviations; the measures of a point are joined to each other by chains of matches; no interest point is a measure of two points; the images of the network are those of the list; the result is false exactly if no match is taken, and then there are no points; and if no two interest points of an image are joined by matches, every matched interest point is a measure of some point.  From each file nothing is taken below the least number of matches, everything up to the limit, and otherwise exactly as many pairs as the limit, pairs of the file in their order.  Tracks are numbered from zero.  (Refuted: every matched feature is in a track; features joined by consistent matches are in one track.)", "quantifier": "all match files, limits and permuting shuffles; all lists of pairwise matches between different images, of any length", "why_tests_cant": "Tracks depend on the order in which matches of many images arrive and on maps that are updated while they grow; a test sees a few images with consistent matches.", "anchors": ["src/vw/BundleAdjustment/ControlNetworkLoader.cc: build_control_network, matchesToMvg, buildTracks, matchMapToCnet, safe_measurement", "src/vw/Math/RandomSet.cc: pick_random_subset, pick_random_indices_in_range", "src/vw/InterestPoint/InterestPointUtils.h: pick_pair_subset"]}
{"id": "C68", "title": "Cutting polygons to a window keeps the winding number of every point inside it and leaves nothing outside", "statement": "Cutting any polygons (concave, crossing themselves, with vertices or edges on the border, without vertices) to any window ends, accesses nothing out of bounds and gives polygons with vertices whose counts add up to the number of vertices.  All vertices are in the window; each is a vertex of the input or on the border; no input vertex strictly inside is lost.  The result winds around every point strictly inside the window as often as the input does, and around no point outside it.", "quantifier": "all numbers of polygons, vertices and windows (exact rational coordinates), and all orders the sort may give to points that tie", "why_tests_cant": "The components are found by following pairs of outward and inward crossings on four lines in turn; wrong pairs show only for polygons that cross a line many times, touch it or run along it.", "anchors": ["src/vw/Geometry/cutPoly.cc: cutPoly, cutToHalfSpace, processPointsOnCutline", "src/vw/Geometry/edgeUtils.cc: cutEdge"]}
{"id": "C69", "title": "The tests of edges against boxes and horizontal edges are exact", "statement": "edgeIntersectsBox is true exactly if some point of the edge is in the box, border included; edgeIntersectsHorizontalEdge exactly if the two edges have a point in common; cutEdge, for ends on different sides of a vertical or horizontal line, gives the one point that is on both.  (Refuted: for a box with xl > xh the answer is still that of a set of points; the assertion compares xl to itself.)", "quantifier": "all edges and boxes with exact rational coordinates, degenerate ones included", "why_tests_cant": "Edges that touch a corner, run along a border or have no length are measure-zero cases that random tests miss.", "anchors": ["src/vw/Geometry/edgeUtils.cc: edgeIntersectsBox, edgeIntersectsHorizontalEdge, cutEdge"]}
{"id": "C70", "title": "Interpolated positions come from the right samples and reproduce polynomial motion", "statement": "For samples at equal intervals LinearPiecewisePositionInterpolation follows every curve of degree one through two consecutive samples, gives each sample at its time, the last sample within the tolerance after the end, and throws elsewhere. LagrangianInterpolationVarTime and LagrangianInterpolation give, for 2*radius samples or more, the value of the only curve of degree below 2*radius through the samples of a window that lies within the table and is balanced around the time unless the table ends (for equal intervals: no sample outside is closer than one inside), and throw for fewer samples. PiecewiseAPositionInterpolation reproduces motion of constant acceleration and every sample; HermitePositionInterpolation is, between two samples, the only cubic with the positions and velocities of both. SmoothPiecewisePositionInterpolation gives a mean of the samples of largest weight, weights positive and of sum one.  (Refuted: the equal-interval Lagrange and the Hermite interpolation serve the time of the last sample; piecewise acceleration is continuous; the number of velocities is checked; no weights at all are refused.)", "quantifier": "all tables of samples, steps, radii, numbers of weights, times and curves; exact rationals", "why_tests_cant": "Windows that reach the ends of the table and times that equal a sample's are few among random times, and tests compare with a tolerance to one particular curve.", "anchors": ["src/vw/Math/PositionInterp.cc: get_wts_and_indices, LinearPiecewisePositionInterpolation, SmoothPiecewisePositionInterpolation, LagrangianInterpolationVarTime, LagrangianInterpolation, PiecewiseAPositionInterpolation, HermitePositionInterpolation"]}
{"id": "C71", "title": "Times of lines and directions of pixels are interpolated between the right entries", "statement": "TLCTimeInterpolation of two or more entries with ascending lines gives, for each line, the value on the segment between the entries around it, the outer segments being continued, hence an entry's own time plus the offset at its line. SlerpGridPointingInterpolation gives, for a pixel in the table, the interpolation along rows and then columns of the four entries around it, and at an entry that entry.  (Refuted: a table of one entry is refused or used; columns to the right of the table of directions are served; a table that is linear in the column is continued linearly to the left.)", "quantifier": "all tables with ascending lines and all lines; all rectangular tables of directions, positive steps and pixels in range", "why_tests_cant": "A wrong choice of the segment matters only at lines equal to an entry's or beyond the table; the extrapolation works in the tests whose columns are numbered from zero in steps of one.", "anchors": ["src/vw/Camera/TimeInterp.cc: TLCTimeInterpolation", "src/vw/Math/QuatInterp.cc: SlerpGridPointingInterpolation"]}
{"id": "C72", "title": "Disparity maps are masked, bounded and transformed pixel by pixel, also region by region", "statement": "disparity_mask shows a disparity exactly where the left mask is on, the disparity is valid and it points to a pixel of the right mask that is on; computing any region gives the same pixels, without a search range and with one that holds the disparities. get_disparity_range is the smallest box of the valid disparities. disparity_range_mask keeps the valid disparities that point into the box. transform_disparities maps each valid disparity through the transform (rounded if asked for), keeps the others not valid and refuses other sizes.  (Refuted: region masking with any search range stays in memory; disparity_range_mask respects the smallest row.)", "quantifier": "all images, masks, regions, search ranges, rational disparities and transforms", "why_tests_cant": "A region, a range and a disparity at its end have to be combined to see a pixel looked up outside the copied part; tests rasterize whole images.", "anchors": ["src/vw/Stereo/DisparityMap.h: DisparityMaskView, get_disparity_range, DisparityRangeMaskFunc, TransformDisparitiesFunc, transform_disparities"]}
{"id": "C73", "title": "Filters of outliers and resampling of disparity maps follow the window around each pixel", "statement": "rm_outliers_using_thresh keeps a valid pixel exactly if the share of valid and close pixels of the window (extended at the edges) reaches the threshold; disparity_cleanup_using_thresh keeps of these, away from the border, only those with a kept neighbour within three pixels; rm_outliers_using_mean keeps those near the mean of the pixels read, which is that of the window if none is gross; rm_outliers_using_stddev those within the multiple of the deviation; std_dev_image with odd sizes is the unbiased variance; disparity_subsample is half the weighted mean of the valid neighbours and within half their bounds; disparity_upsample is twice the pixel at half the coordinates.  (Refuted: isolated border pixels go; the mean is that of all pixels that are not gross; wide kernels stay within their arrays; std_dev_image is a deviation, works for even kernels and for one pixel; regions of an upsampled view that is computed on demand.)", "quantifier": "all images, positions, kernels, thresholds and rational disparities", "why_tests_cant": "The defects show for kernels that are not square, even, at the border or with a gross disparity to the left of the others; tests use one image with a square kernel.", "anchors": ["src/vw/Stereo/DisparityMap.h: RmOutliersUsingThreshFunc, disparity_cleanup_using_thresh, RmOutliersUsingMeanFunc, RmOutliersUsingStdDev, StdDevImageFunc, DisparitySubsampleView, DisparityUpsampleView"]}
{"id": "C74", "title": "Interpolation of images agrees with the pixels, reproduces polynomials and stays in range", "statement": "For nearest, bilinear and bicubic interpolation: at a pixel the result is the pixel; nearest takes the pixel within half a unit (ties away from zero); bilinear reproduces bilinear functions and lies between the four pixels; bicubic reproduces polynomials of degree two in each coordinate and clamps to integer types; off the grid the result is valid exactly if all pixels of the window are; a region copied with the interpolator's margin gives the same results as the whole image.  (Refuted: bicubic stays between the pixels; a neighbour of weight zero does not make the result invalid.)", "quantifier": "all images, positions, interpolators, channel ranges and regions", "why_tests_cant": "Tests interpolate a handful of positions in one small image; margins of regions and invalid neighbours appear only at particular positions.", "anchors": ["src/vw/Image/Interpolation.h: NearestPixelInterpolation, BilinearInterpolation, BicubicInterpolation, InterpolationView::prerasterize"]}
{"id": "C75", "title": "Transforms are inverted by their reverse and the boxes of regions hold what they must", "statement": "reverse undoes forward for identity, scaling, translation, linear, affine, rotation, homography (where the denominators are not zero), compositions and inverses; singular matrices are refused; a rotation keeps distances and its centre; affine2mat and mat2affine are inverse; forward_bbox and reverse_bbox are the smallest integer boxes around the images of all pixels (discontinuous), of the border (continuous), and of all pixels if the map keeps them between the corners (convex), which affine maps do and homographies whose denominator keeps its sign.  (Refuted: the box of any homography or any map declared continuous holds all pixels.)", "quantifier": "all rational matrices, offsets, boxes, compositions and points", "why_tests_cant": "Boxes are computed from corners or borders only, so errors show for maps and boxes that no test uses; homographies with a pole inside the box are not tested.", "anchors": ["src/vw/Math/Transform.h: Transform, ResampleTransform, TranslateTransform, LinearTransform, AffineTransform, RotateTransform, HomographyTransform, CompositionTransform, InverseTransform, affine2mat, mat2affine", "src/vw/Image/Transform.h: compute_transformed_bbox, compute_transformed_bbox_fast"]}
{"id": "C76", "title": "The table that approximates a transform is the coarsest accurate one; transformed images do not depend on the region", "statement": "The refinement of the table ends; the result is the coarsest table of size 2^k+1 whose refinement met the tolerance, or none if that needs more entries than the region has pixels; it is never read outside, agrees with the transform at its nodes and everywhere for affine maps; regions of a transformed image equal the whole image; moved and enlarged images show the original pixels; resized images read within the source; transformed images with a value for missing data have it exactly outside the inner part.  (Refuted: the error is within the tolerance everywhere; the identity keeps an image with a value for missing data.)", "quantifier": "all transforms that respect equality of rationals, tolerances, regions, images and interpolators", "why_tests_cant": "The table depends on the region rasterized, so tests of one region say nothing about others; the tolerance is checked only at the midpoints.", "anchors": ["src/vw/Image/Transform.h: ApproximateTransform, TransformView::prerasterize, transform, resample, resize, translate, transform_nodata"]}
{"id": "C77", "title": "Editing a set of polygons does what it does to a list of polygons", "statement": "Any sequence of appending, inserting, erasing, moving vertices, shifting, reversing, replacing, erasing marked, transforming, extracting and duplicating polygons, applied to the flat arrays of coordinates and counts, gives the arrays of the list of polygons edited the same way; nothing outside the arrays is accessed; annotations follow transforms of all polygons and labels of vertices are dropped when a vertex changes; a transform around the centre of the box keeps the centre.", "quantifier": "all sets of polygons, all sequences of edits naming existing polygons and vertices, all shifts, matrices and sets of marks", "why_tests_cant": "Every edit recomputes offsets into shared arrays; an error shows only for particular histories with empty polygons or several marked ones.", "anchors": ["src/vw/Geometry/dPoly.cc: dPoly::appendPolygon, appendPolygons, insertVertex, eraseVertex, changeVertexValue, shiftEdge, shiftOnePoly, shiftMarkedPolys, reverse, reverseOnePoly, reverseMarkedPolys, extractMarkedPolys, replaceOnePoly, eraseMarkedPolys, appendAndShiftMarkedPolys, applyTransform, applyTransformAroundBdBoxCenter, transformMarkedPolys, transformMarkedAnnos", "src/vw/Geometry/geomUtils.cc: composeTransforms, transAroundPt"]}
{"id": "C78", "title": "Boxes, areas, containment, nearest vertex and edge, order by size, cutting of lines and grids are exact", "statement": "Bounding boxes are the smallest; the signed area is the sum over the edges, changes sign when reversed and scales by the determinant; the test of a point is true exactly on the edges or where the polygon winds an odd number of times; the nearest vertex, edge point and annotation are the last of the nearest; sorting only reorders, by width, height and area; the outermost polygon turns left after the addition of a rectangle, which is strictly around everything; pieces of a line cut to a window lie in it; grid lines are at the multiples of the step.", "quantifier": "all polygons (also empty, degenerate, self-crossing), points, windows, steps and every behaviour std::sort may have with equal elements", "why_tests_cant": "Exactness at vertices, on edges and for ties needs all configurations; sort may order equal elements differently on each platform.", "anchors": ["src/vw/Geometry/dPoly.cc: dPoly::bdBox, bdBoxes, bdBoxCenter, findClosestPolyVertex, findClosestPolyEdge, findClosestAnnotation, sortFromLargestToSmallest, sortBySizeAndMaybeAddBigContainingRect, buildGrid", "src/vw/Geometry/geomUtils.cc: signedPolyArea, isPointInPolyOrOnEdges, minDistFromPtToSeg", "src/vw/Geometry/cutPoly.cc: cutPolyLine"]}
{"id": "C79", "title": "Polygons written to a file are read back", "statement": "For polygons that have vertices and do not repeat the first vertex at the end, writing and reading gives the same vertices, colours and layers in the same order and all annotations; polygons are read as open and each label gets a blank in front (both refuted as exact round trips), and polygons are confused when separated by empty lines or after one became empty.", "quantifier": "all sets of polygons, annotations, colours and layers that the parser of colours and layers leaves as they are", "why_tests_cant": "Annotations are interleaved with vertices and colours are written only when they change, so the result depends on the whole sequence.", "anchors": ["src/vw/Geometry/dPoly.cc: dPoly::writePoly, dPoly::readPoly", "src/vw/Geometry/geomUtils.h: anno::appendTo"]}
{"id": "C80", "title": "A georeference converts pixels, points and longitudes to and fro", "statement": "After set_transform with a regular matrix, pixel_to_point and point_to_pixel undo each other, perspective matrices included; a singular matrix is refused by an exception. A longitude is moved by at most one turn to the place nearest the middle of the image, so that every pixel of an unprojected image at most one turn wide survives the way to longitude and latitude and back once the image's extent is known (refuted for a global map after set_transform, crop or resample alone). The boxes computed from four corners hold the images of all points of the box, turned images included; boxes through projections are the least around the sampled perimeter and diagonals. Cropping shifts pixels and resampling scales them, for images that are not turned (refuted for turned ones).", "quantifier": "all matrices, pixels, longitudes, boxes, crops, scales and all projections given by partial functions", "why_tests_cant": "Errors show only for particular longitudes near the seam, particular conventions of pixels or turned images, of which tests have few.", "anchors": ["src/vw/Cartography/GeoReference.cc: GeoReference::set_transform, pixel_to_point, point_to_pixel, point_to_lonlat, lonlat_to_point, sample_int_box, sample_float_box, point_to_pixel_bbox, pixel_to_point_bbox, pixel_to_lonlat_bbox, lonlat_to_pixel_bbox, lonlat_to_point_bbox, point_to_lonlat_bbox, ll_box_from_pix_box", "src/vw/Cartography/GeoReferenceUtils.cc: crop, resample"]}
{"id": "C81", "title": "Transforms between two georeferences undo each other and bound their images", "statement": "GeoTransform refuses images with different datums. reverse undoes forward when both images share a projection, and between unprojected images whose longitudes are any turn apart; an image paired with itself is mapped to itself. forward_bbox and reverse_bbox give integer boxes that hold the image of each convertible pixel of the perimeter and are less than a pixel too large on each side. Refuted: that the shortcut is taken only when the longitudes of the two images agree, and that reproject_point_image ignores the affine transforms.", "quantifier": "all pairs of georeferences with affine transforms, all pixels and integer boxes, all projections given by partial functions", "why_tests_cant": "The shortcut and the turns of longitudes interact for particular pairs of extents only.", "anchors": ["src/vw/Cartography/GeoTransform.cc: GeoTransform::GeoTransform, forward, reverse, forward_bbox, reverse_bbox, point_to_point, pixel_to_point, point_to_pixel, point_to_point_bbox, pixel_to_point_bbox, point_to_pixel_bbox, reproject_point_image"]}
{"id": "C82", "title": "Triangulation gives the point nearest to the rays", "statement": "For two rays that are not parallel, triangulate_pair gives the point half-way between the nearest points of the two lines, and as error the vector between them, which is the shortest between any points of the lines and perpendicular to both; it depends on the lines only, and swaps sign with the cameras. For more rays of unit direction, of which two are not parallel, the point is the only one with the least sum of squared distances, and for two rays both computations agree. Rays that meet in front of the cameras give the meeting point with no error. Pixels that are invalid are skipped; fewer than two rays, nearly parallel rays and a camera without a ray give the origin; a number of pixels other than that of the cameras is refused. A map of disparities gives the point of each pixel and its match. Refuted: that the point is never behind a camera, and that opposite rays are handled.", "quantifier": "all rational directions, centres, pixels and tolerances, all lists of cameras given by partial functions, all maps of disparities", "why_tests_cant": "The least squares property concerns all points of space; errors in signs or in one term of the sums change results slightly for most rays.", "anchors": ["src/vw/Stereo/StereoModel.cc: triangulate_pair, StereoModel::are_nearly_parallel, StereoModel::operator(), StereoModel::triangulate_point"]}
{"id": "C83", "title": "A pinhole camera converts points to pixels and rays back", "statement": "A camera can be built exactly if its frame is orthogonal and nearly of unit length, its rotation regular and its focal lengths not zero. Its pixel is the perspective image through focal lengths, offset, lens and pitch; the ray of a pixel leads back to the pixel at any distance, and the ray of the pixel of a point through the point, where the lens is undone by its inverse; the check of point_to_pixel then lets the point through, and whatever it lets through is within its angle. After any sequence of changes a camera is the one made afresh from its parameters. scale_camera scales pixels, strip_lens_distortion removes the lens only, apply_transform moves the picture with the camera, and epipolar puts every point on one row in both images with a column difference of focal length times base over depth. Refuted: that points behind the camera are refused, and that a focal length set without a rebuild takes effect.", "quantifier": "all rational parameters, points and pixels, all lenses given by two functions, all sequences of changes", "why_tests_cant": "Conventions of axes, transposes and orders of products cancel in symmetric test cameras and show only in general ones.", "anchors": ["src/vw/Camera/PinholeModel.cc: PinholeModel::PinholeModel, point_to_pixel, point_to_pixel_no_check, point_to_pixel_no_distortion, projection_valid, pixel_to_vector, rebuild_camera_matrix, set_camera_center, set_camera_pose, set_coordinate_frame, set_lens_distortion, set_intrinsic_parameters, set_focal_length, set_point_offset, set_pixel_pitch, apply_transform, scale_camera, strip_lens_distortion, epipolar"]}
{"id": "C84", "title": "Quaternions are rotations", "statement": "The matrix of a product of quaternions is the product of their matrices, and rotating a vector by a product is rotating by one factor after the other. The matrix of a unit quaternion is a rotation, with determinant one; two unit quaternions give the same matrix just when they are equal or opposite. Rotating keeps lengths and angles for every quaternion but zero, the inverse undoes it, and normalising does not change it. A rotation matrix made into a quaternion and back is unchanged, whichever of its four branches is taken, and the quaternion is a unit one; a unit quaternion made into a matrix and back is itself or its opposite; mirrors are not kept. A rotation vector gives the same rotation as a matrix and as a quaternion: the axis is kept and vectors at right angles to it turn by the angle. Euler angles are turns about the named axes in the order of the letters, other letters and lengths are refused, and the shortcut for xyz is the same rotation. Spherical interpolation starts at the first quaternion and ends at the second or its opposite, whichever is nearer, and does not depend on the sign of the second; interpolation of many refuses sizes that do not fit, keeps equal quaternions, and does not fail on weights that are not negative, add up to one and do not start with two zeros. Two findings: a quaternion of another length has a matrix that disagrees with its rotation, and weights that start with two zeros are refused.", "quantifier": "all rational quaternions, matrices, vectors and angles, all functions for sine, cosine and arc cosine with the stated identities, square roots exact where taken, all lists of quaternions and weights", "why_tests_cant": "Signs, transposes and the four branches of the conversion cancel in symmetric test rotations and show only in general ones.", "anchors": ["src/vw/Math/Quaternion.h: Quaternion, rotation_matrix, rotate, inverse, normalize, axis_angle_to_quaternion, axis_angle_to_matrix", "src/vw/Math/Quaternion.cc: slerp, slerp_n", "src/vw/Math/EulerAngles.h: rotation_x_axis, rotation_y_axis, rotation_z_axis, euler_to_rotation_matrix, euler_xyz_to_quaternion"]}
{"id": "C85", "title": "Cameras of four vectors show what pinhole cameras show", "statement": "A CAHV camera shows a point at the ratios of its components along H and V to that along A, and nowhere just when the latter is zero. Every point but the centre on the ray of a pixel is shown at that pixel, the positive part of the ray is in front whatever the handedness of the vectors, and a point that is shown lies on the ray of its pixel. The camera made from a pinhole camera shows every point where the pinhole camera does before its lens, and zero pitch is refused. Turned into a pinhole camera, one with a unit vector A and directions at right angles shows every point at the same pixel and is left as it was. The constructors from focal lengths, sizes of pixels and directions show a point at the pixel of similar triangles. A rectified pair keeps its places, shares its vectors, has unit axes at right angles along the mean of the vectors A with the mean scales and centres, and shows a point on the same row if the base is at right angles to the mean direction of view. Findings: otherwise the rows differ; a camera with a vector A of another length than one is changed by being turned into a pinhole camera, which does not show the same; the constructor from a view matrix reads the centre from the last row and not from the last column, as documented.", "quantifier": "all rational vectors, points and pixels, all pinhole cameras that can be built, all lengths of vectors given from outside with the stated equations", "why_tests_cant": "Errors in signs and normalisation vanish for cameras along the coordinate axes at the origin.", "anchors": ["src/vw/Camera/CAHVModel.cc: CAHVModel::CAHVModel, operator=, toPinhole, point_to_pixel, pixel_to_vector, epipolar"]}
{"id": "C86", "title": "UTM zones are strips of six degrees", "statement": "getLongitudeZone gives, for every finite longitude, the strip of six degrees it lies in up to full turns, exactly that strip between -180 and 180 degrees; the zone is one of sixty, except 61 at 180 degrees and full turns further. What is not a number or not finite is refused. getLatitudeBand gives between 80 degrees south and north the letter of the band of eight degrees, from C to X without I and O, A further south and Z north of 84 degrees. getUTMZone gives the zone of the longitude except off Norway, from 56 to 64 degrees north, where zone 32 begins at 3 degrees east, and at Svalbard, from 72 to 80 degrees north, where zones 32, 34 and 36 are left out. Findings: 180 degrees gives zone 61; from 80 to 84 degrees north the band is the zero that ends the table of letters, so the exceptions of Svalbard stop at 80 degrees; the exceptions look at the longitude before full turns are taken off, so that a full turn can change the zone.", "quantifier": "all rational longitudes and latitudes, any number of full turns", "why_tests_cant": "The errors sit on single meridians, in the last four degrees of the grid and beyond one turn.", "anchors": ["src/vw/Cartography/Utm.cc: getLongitudeZone, getLatitudeBand, getUTMZone"]}
{"id": "C87", "title": "Interest peaks are strict local extrema", "statement": "find_peaks keeps the points already in its list and adds, row by row and once each, exactly the pixels off the border that are strictly above (or below, or either) all eight pixels around them, with their interest and scale one. No two maxima found are next to each other, and no two minima. For the planes of an octave the points come plane by plane, the first and the last plane left out, and are exactly the pixels that are such extrema in their plane and strictly above or below the same pixel in the planes next to it; an empty list of planes, or planes of different sizes, is refused. Findings: the diagonal places in the neighbouring planes are not looked at; a plateau gives no point.", "quantifier": "all images of any size, all lists of planes, all three kinds of extrema", "why_tests_cant": "A test image does not reach every neighbour of every pixel, nor equal values at all of them.", "anchors": ["src/vw/InterestPoint/Extrema.h: is_local_max, is_local_min, is_local_minmax, find_peaks"]}
{"id": "C88", "title": "Bases from one vector and tangents of planes", "statement": "formBasis gives, for a vector that is not along a coordinate axis, three unit vectors at right angles that form a right-handed system, the last one along the vector; the zero vector is refused. X is at right angles to the axis of the greatest coordinate. computePlaneTangents gives two vectors in the plane, of the length asked for, that are not parallel, and always gives them for a unit normal. Findings: a vector along a coordinate axis gives what is not a number, because the two coordinates that are swapped are both zero; the tangents are not at right angles to each other, although the comment says so.", "quantifier": "all rational vectors, all lengths given from outside with the stated equations", "why_tests_cant": "The special directions are the ones for which the swap degenerates, and general ones hide it.", "anchors": ["src/vw/Math/VectorUtils.cc: formBasis, computePlaneTangents"]}
{"id": "C89", "title": "Progress of parts adds up to the whole", "statement": "What is reported to a part of a task, or to a part of a part, is what that part then shows; an increment raises what the part shows by itself and the whole by the share of the part, so that increments add up however they are cut. Progress between zero and one of parts within zero and one stays there. A finished part shows one; a fraction shows n of the total, and nothing of no total. An abort asked for in any part is seen in every other. A NullProgressCallback keeps nothing. A line printed for progress between zero and one has the length of the bar and the stars of the progress rounded down, nothing is printed for changes within the step, and bar, text and digits fill eighty columns. Findings: report_finished of the terminal callback does not set the progress to one; progress beyond one prints a longer bar; the deprecated constructor accepts a text that is too long and wraps the length.", "quantifier": "all chains of parts, all rational progress, all sequences of increments, all texts and precisions", "why_tests_cant": "Nested parts multiply, and a sum of many increments is not run in a test.", "anchors": ["src/vw/Core/ProgressCallback.h: ProgressCallback, SubProgressCallback, TerminalProgressCallback, NullProgressCallback", "src/vw/Core/ProgressCallback.cc: print_progress, report_finished"]}
