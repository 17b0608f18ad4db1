# Formal model of Vision Workbench in Rocq

Target: `/repo` (Vision Workbench), C++ read as text. Prover: Coq 8.16.1.

## Method

* Each modelled module is a directory `rocq/theories/<Mod>/` with
  `Model.v` (transcription of the C++, each definition cites file and lines),
  `Spec.v` (a small independent specification), `Proofs.v` (lemmas) and
  `Props.v` (the theorems that are claimed, each followed by `Print
  Assumptions`, and `Example`s that exhibit concrete states meeting the
  hypotheses). Small modules may fold Spec into Props.
* C++ partiality is explicit: the outcome type `res A` has `Ok`, `Throw`
  (an exception the code raises) and `UB` (out-of-bounds access, division by
  zero, missing return ...). "The code never does X" is a theorem that the
  outcome is `Ok`.
* `int32` arithmetic is modelled in `Z`; where wrap-around matters the wrap is
  modelled explicitly. C++ `/` is `Z.quot`, `%` is `Z.rem`.
* Floating point is modelled by exact rationals or reals, or left abstract;
  rounding error is outside the model. Each use is noted.
* Threads are modelled as step relations over shared state; a theorem about
  all schedules is about every trace of the relation.
* Where the property as stated is false of the code, the model yields a
  `..._refuted` theorem with a witness, and the claim is proved under the guard
  that makes it true. These are listed under Findings.

## Plan per property

| Id | Model | Proof |
|----|-------|-------|
| C01 | `BBox<int,n>` as pairs of `list Z` of one length, all member functions | pointwise set equations, by induction on dimension |
| C02 | same, with the sentinel per element type; rational boxes for the hull | induction on the list of points; counterexample for unsigned |
| C03 | `subdivide_bbox` nested loops, with flags | loop invariant over rows and columns of the tile grid |
| C04 | `BlockProcessor::Info` + worker threads as a step relation | invariant over all schedules; termination measure |
| C05 | `BlockGeneratorManager` index arithmetic | integer division reasoning |
| C06 | the seven extension functors over a bounds-checked image | residue arithmetic per axis |
| C07 | the seven `source_bbox` functions | residue arithmetic per axis |
| C08 | views as `cols/rows/planes` + read function | pointwise extensional equality |
| C09 | accessors as state machines over the memory stride accessor | simulation with position, induction on the path |
| C10 | `prerasterize` as an announced child rectangle | rectangle inclusion |
| C11 | `ImageView::set_size` with int32/int64 widths | mixed-radix injectivity; refutation of the width used |
| C12 | `PixelIterator` with its casts | mixed-radix; refutation above 2^31 |
| C13,C14 | both linked lists of the cache as heap maps, all operations | refinement to an LRU list, induction on histories |
| C15 | `value()` as an atomic-step program of threads | invariant / refutation schedule |
| C16,C17,C18 | work queue, workers and clients as a step relation | invariants over all schedules; refutation schedules |
| C19 | queue operations as atomic steps | trace invariant |
| C20 | parent/rank arrays, path compression | refinement to equivalence closure |
| C21 | sort + union-find loop | exchange argument |
| C22 | the iterator state machine | error-term invariant |
| C23 | the two passes over arrays | both passes invariant, path metric |
| C24 | boundary collection and windowed minimum | geometric argument on segments |
| C25,C26 | the per-row interval maps | interval-set refinement |
| C27,C28 | label passes + graph components + run-length rows | refinement to reachability |
| C29 | the bit-building code, Kernighan loop | bit extensionality |
| C30 | the fill loop and corner formula | double induction |
| C31 | byte-level writer/reader | round-trip, truncation cases |
| C32 | string functions with lengths | length arithmetic; refutation of injectivity |
| C33 | node heap with three pointers | invariant over histories |
| C34 | tree build/query | induction on tree |
| C35 | counting loop, percentile loop, selection | induction on lists |
| C36 | rule list and wildcard match | induction on rule list |
| C37 | per-thread buffers and shared stream | trace invariant |
| C38 | fuelled find/replace loop | divergence witness; single-char case |
| C39 | depth counter | induction on histories |
| C40 | integer functions with widths | arithmetic |
| C41 | the channel cast functions with C++ integer conversions and exact doubles | case analysis on widths; refutation witnesses |
| C42 | column sums, sliding row sums, flat output memory | loop invariants |
| C43 | the search loops over flat quality and disparity maps | invariant per pixel over the candidates tried so far |
| C44 | the recursive function with its merging, an arbitrary work comparison | induction on the size of the box, cover invariants |
| C45 | symmetric storage with skyline, the decomposition, forward and back substitution over exact rationals | column invariant giving A = L D L^T; a vector exposing each pivot shows it is not zero |
| C46 | both views with their fast paths and rasterization over the edge extended source | loop invariants giving iterated sums; exchange of sums |
| C47 | LU decomposition with partial pivoting and the two triangular divisions, over exact rationals | invariant: every stage keeps the solution set of the system |
| C48 | the work list of minors with signs | equal to Laplace expansion, which is the one alternating form |
| C49 | the two generators and the fixed kernels, erf as a parameter | telescoping sums; Taylor expansion and the inverse of the matrix of powers |
| C50 | the recursion over regions with the list of tiles written; box_subsample through the model of separable convolution | induction on the level: each tile holds its part of the pyramid; the written addresses as an explicit list |
| C51 | the three path functions on strings | the file name is the part after the last slash |
| C52 | the Exif directory reader on lists of bytes, reads outside as undefined behaviour | a relation says what a directory in memory is; mutual induction over it; a writer for one directory |
| C53 | the loop over JPEG sections on the list of bytes | induction over the sections; reading at an offset is reading the shifted data |
| C54 | Chipper on functional arrays, the three arrays passed in the order of the C++ references | invariant: two arrays sorted along the axes and linked to each other on the range; the recursion leaves everything outside of its range alone |
| C55 | buffers over lists of bytes with arbitrary strides; convert with its plan and loops; floating-point operations as parameters | each pixel step is a splice of the converted pixel; loop invariant over disjoint pixels; aliasing of planes as channels; number theory for the round trips |
| C56 | the input stream with its state bits; open, read, create and write on lists of bytes | grammar of headers as inductive predicates; induction over gaps, numerals and samples; composition with C55 |
| C57 | disparity numbering, adjacency table, both variants of evaluate_path, the pass over a line, the additions of all threads of a direction as interleaved loads and stores, the eight directions | loop invariants over boxes; lines of a direction partition the image; updates of different lines have distinct indices so any schedule gives the same sums; dynamic programming optimality by induction along the path |
| C58 | the output region, the scan of the right mask, the box of each pixel from prior and masks, the in-place shrinking by neighbours at four levels | loop invariants showing that pixels read as neighbours are never changed; first and last element lemmas for the mask scans; hull of a list of boxes |
| C59 | filling of the cost buffer from census images, smoothing and choice of the minimum, the disparity view, the whole matcher as a relation over schedules | raster loop invariants with prefix sums of box sizes as buffer positions; refinement of the smoothing to a blur of tables; composition with C29, C57 and C58 |
| C60 | the frame store over the tree heap of C33: roots as a list of nodes, all public calls with their checks | invariant over histories of calls; each call characterised by which frames are live, members, and whose parent or data changed |
| C61 | path splitting, the recursive matcher with breadth-first search, both lookups, full names by ancestry | relational meaning of paths (walks, leads); matcher refines it by induction on the elements; full name and lookup are inverse by determinism of unique names |
| C62 | sorting of children by name, the merge loop with its moving of nodes, merge_tree | path-indexed description of a tree (at_path); invariant `united` for the part of the children merged so far; induction on the fuel bounded by the tree size |
| C63 | affine transforms over rationals with the LU inverse of MInv, the product along the two branches below the last common ancestor, setters | products along a branch carry positions up the branch; inverse from MInv; carrying a position to the root is injective |
| C64 | sampling without repetition over an arbitrary random stream, inlier selection, the attempt with any order of the critical sections, the loop of attempts | the critical section keeps the least error seen: invariant over the order; samples fixed beforehand; fuel for the rejection loop with a fairness hypothesis on the stream |
| C65 | control points and networks as records of lists; the file of ground control points as tokens with line ends | list lemmas; invariant over histories of adding and deleting; induction over the points for the round trip |
| C66 | features in a heap, nodes with lists and (multi)maps, pairwise links, recursive listing | closed form of nodes and connections after each point; maps through the values under a key; depth-first search invariant with fuel bounded by the number of features |
| C67 | std::map as ordered lists (Lib/OMap.v), numbering of features, tracks with their two maps, measures of tracks | invariant of the two maps over the matches (ten clauses, with chains of matches as the reflexive symmetric transitive closure); bijection between numbers and interest points; sorted distinct indices give a subsequence |
| C68 | polygons over rationals, points on the cutting line, pairs of outward and inward points, components as cycles | the points kept form a permutation of cycles; any additive function of edges has the same sum before and after a cut; ray crossings are additive for the four half-planes |
| C69 | the tests, over rationals | parameter of the point in common solved from one coordinate; a segment that leaves a box crosses its border |
| C70 | each interpolation with its window or cell, over rationals; curves are coefficient lists in a separate spec | Lagrange sums are polynomials, agree at the nodes and are unique by counting roots; window bounds by linear arithmetic; Hermite by field identities |
| C71 | the table as an ordered list, lower_bound and step back; the table of directions with any slerp | induction over the table with the segment before as invariant; floor and ceiling of the pixel |
| C72 | the masking view on images in memory and its prerasterize with copies of regions, the accumulator of ranges, the functors on pixels and the loop over a subregion | the pixel pointed to is in the copied region, by floor and ceiling of the bounds; loop invariants |
| C73 | the functors reading a window through the edge extension, with the column accessor that stays behind in the mean filter | the kernel loops equal folds over the list of the window; order of sorted lists against counts; sums |
| C74 | the three interpolators over a view that can fail, with validity, rounding and clamping to a channel type | closed forms of the weights; ring identities for polynomials; convexity of the weights |
| C75 | each transform as its pair of functions and the two boxes by its declared type | field identities with non-zero determinants; smallest boxes by induction over the visited points; corner bounds for affine and projective maps |
| C76 | the refinement loop of the table with its error estimate, lookup by cells, rasterization through the box of the region | loop invariant: table of size 2^k+1 holds the transform at its nodes, coarser ones failed; measure on the size |
| C77 | the flat arrays of dPoly with checked access, each edit as its loop over offsets | refinement to a list of polygons, lifted to all sequences of edits |
| C78 | boxes, areas, point test, searches, sort through indices, rectangle, grid, lines cut with the polygon cutter | edge sums and winding parity; invariant of the searches; permutation and order from the promise of std::sort |
| C79 | the loops over lines of writePoly and readPoly | invariant: what was written so far is read as the polygons so far |
| C80 | matrices with their inverses (by the model in MInv/), the box of longitudes, conversions, sampled boxes, crop and resample | algebra of 3x3 matrices, case analysis of turns, linear functions on boxes, least boxes by induction over the samples |
| C81 | the constructor's choice of a shortcut, conversions between two georeferences and their boxes | composition of the laws of C80, turns as integers |
| C82 | triangulation of two rays and of several, tests of directions, selection of rays, reflection, maps of disparities | vectors over Q; the nearest points by perpendicularity, the matrix of several rays is regular since its kernel is trivial |
| C83 | parameters and matrices of a pinhole camera, projection, rays, changes, scaling, moving, epipolar pairs | matrices over Q, inverses from C80; invariant that matrices agree with parameters |
| C84 | quaternions, matrices, rotation vectors, Euler angles, interpolation | polynomial identities over Q; cofactors of a rotation for the conversion from a matrix |
| C85 | CAHV cameras: projection, rays, conversion to and from pinhole cameras, epipolar pairs | Cramer's rule for rays; the images from C83 |
| C86 | Zones of longitude, bands of latitude, the exceptions | induction over the rounds of the two loops; floors |
| C87 | Extrema in an image and in the planes of an octave, the lists of points | induction over the loops; case analysis of the neighbours |
| C88 | formBasis, computePlaneTangents | identities of cross products |
| C89 | Callbacks, parts of parts, the bar on the terminal | induction over the chain of parts and over the increments |

## Findings

Each item is a theorem: the code as modelled does what is said here, with the witness
given in the theorem.
* `bbox_grow_empty_refuted` (BBox): Growing a degenerate (empty but not fully empty) box does not give the least box: the corner of a box without points still counts.
* `bbox_intersects_empty_refuted` (BBox): intersects() answers true for a box without points lying strictly inside another.
* `bbox_grow_point_contains_refuted` (BBox): A point of a box need not be inside the box it grew.
* `bbox_default_range_refuted` (BBox): Outside the sentinel range the box of a single point does not reach the point's coordinate.
* `bbox_default_unsigned_refuted` (BBox): With an unsigned element type the default box is not even empty.
* `bbox_int_hull_smallest_refuted` (BBox): The hull is not the smallest enclosing integer box (as its comment says) when the box has integer corners already.
* `bbox_unscale_contains_refuted` (BBox): Scaling an integer box down can lose points: the box shrinks to an empty one although it holds a point whose scaled position is inside no box of the result.
* `blob_index_labels_refuted` (BIndex): The label image keeps the provisional labels: the two arms of a U stay apart in it although they are one blob.
* `blob_index_empty_refuted` (BIndex): An image without pixels is read at its corner.
* `form_basis_always_refuted` (Basis): Every vector but zero gives a basis, as the comment says. False: for a vector along an axis both coordinates that are swapped are zero, and X and Y are not numbers.
* `tangents_perpendicular_refuted` (Basis): The tangents are at right angles to each other, as the comment says. False: they are the axes projected along a third one, and their angle depends on the plane.
* `blob_absorb_gap_refuted` (Blob): Two pieces of a C-shaped blob separated by a blank row: absorb reads the front of an empty list.
* `blob_add_row_overlap_refuted` (Blob): add_row checks a segment against the start of the last one only: an overlapping segment is taken and its pixels are counted twice.
* `blob_intersects_gap_refuted` (Blob): intersects() looks at the hull of a row: a box inside a gap is reported.
* `blob_sentinel_refuted` (Blob): m_min.x = -1 marks an empty blob: a blob moved so that its left column is -1 loses its rows at the next add_row.
* `subdivide_same_size_inside_refuted` (Blocks): Same-size tiles leave the region when the region is smaller than a tile.
* `block_cache_single_block_refuted` (Blocks): A request outside the image is rejected by the table check, unless there is one block only, where it reads outside the block's buffer.
* `default_block_size_empty_refuted` (Blocks): The default block size of an image without pixels divides by zero.
* `changed_points_counted_refuted` (CNet): A point that becomes a ground control point when it is already in the network is not counted: the type of the network is only changed when points are added.
* `gcp_file_line_per_point_refuted` (CNet): A point without measures leaves its line open, and the next point is written on the same line: in general there are fewer lines than points.
* `gcp_file_readable_refuted` (CNet): What is written cannot always be read: standard deviations of measures that are not positive are written, but make reading fail.
* `gcp_file_right_image_refuted` (CNet): The images are also looked up by the last part of the name: with a file of the same name in another directory the measures go to the wrong image.
* `relation_total_refuted` (CNet): Without measures of a point the loop ends before the first feature.
* `recency_of_use_refuted` (Cache): A hit does not move a line to the front: the line used most recently is evicted before one that was generated later.
* `resize_waits_refuted` (Cache): With the oldest line in use resize waits for it forever.
* `generator_failure_refuted` (Cache): If generate() throws, the line stays locked, counts as loaded and every later access to it waits forever.
* `double_generation_refuted` (Cache): Two threads that miss at the same time both generate the line and its size is counted twice.
* `of_view_center_refuted` (Cahv): A view matrix laid out as documented, with the translation in the last column and zeros in the last row, puts the camera at the origin: the translation is not read.
* `to_pinhole_keeps_refuted` (Cahv): Turning a camera whose vector A has another length than one into a pinhole camera changes the camera: it shows other pixels afterwards.
* `to_pinhole_not_unit_refuted` (Cahv): The pinhole camera does not show what such a camera showed.
* `cahv_epipolar_rows_refuted` (Cahv): Rectified cameras do not show a point on the same row unless the base is at right angles to the mean direction of view.
* `clamp_mixed_refuted` (Chan): "channel_cast_clamp saturates": -1 becomes 4294967295, 5 becomes -128.
* `round_clamp_u32_refuted` (Chan): "Rounding and clamping to uint32 is defined": not above 2^31, where _round overflows.
* `rescale_lossy_refuted` (Chan): "So does it a double image, and a 16 bit channel a float image": 33 comes back as 32, 1 as 0.
* `rescale_64_refuted` (Chan): "White stays white": not in 64 bits, where the conversion is undefined.
* `chipper_zero_block_refuted` (Chip): A block size of zero is not rejected, it is divided by.
* `separable_integer_refuted` (Conv): 
* `laplacian_unsigned_refuted` (Conv): 
* `sobel_sign_refuted` (Conv): The kernel is written down for correlation (the comment quotes imfilter) but the view convolves: the derivative has the wrong sign.
* `derivative_negative_refuted` (Conv): A negative order is not rejected when a size is given: the selector is written out of bounds.
* `box_sum_small_image_refuted` (Corr): In release builds nothing rejects an image one pixel smaller than the kernel: the sums are read beyond their end.
* `single_candidate_valid_refuted` (Corr): "A pixel that matches is valid": not if there is only one candidate to try; then every pixel is masked, also where the match is perfect.
* `edge_meets_box_any_sides_refuted` (Cut): For a box with its sides exchanged, xl > xh, the test can hold though no point is in the box. (The assertion that should catch this compares xl to itself.)
* `ds_rank_bounds_depth_refuted` (DSet): The rank does not bound the depth: an element inserted into a one-element set is one step below a root of rank 0.
* `masked_regions_any_range_refuted` (Disp): disparity_mask with a search range: a disparity outside the range, which a filter that moves the disparities can make, is looked up outside the part of the right mask that was copied to memory.
* `range_mask_rows_refuted` (Disp): disparity_range_mask compares the rows to the smallest column: with other corners a disparity that points above the box is kept.
* `isolated_border_pixel_removed_refuted` (Disp): disparity_cleanup_using_thresh asks for a neighbour within three pixels, but a pixel of the border is repeated outside the image and counts as its own neighbour: a single valid pixel in a corner stays.
* `outliers_by_mean_of_kept_refuted` (Disp): rm_outliers_using_mean leaves the gross pixels out of the mean, but in the code the step to the next column is skipped with them: the other pixels of the row are left out too, and a pixel near the mean of all that are not gross is rejected.
* `outliers_by_deviation_wide_refuted` (Disp): rm_outliers_using_stddev keeps the values of the window in arrays that are made for a square with the vertical size: a window that is wider than high, of valid pixels, is written past their end.
* `deviation_image_is_deviation_refuted` (Disp): std_dev_image, whose name and comment promise a standard deviation, returns the variance: the square of the result is not the unbiased variance.
* `deviation_image_even_refuted` (Disp): std_dev_image with a kernel of even size reads one column and one row more than it divides by: the deviation of a constant image is not zero.
* `deviation_image_one_refuted` (Disp): std_dev_image with a kernel of one pixel, which is accepted, divides by zero.
* `doubled_regions_refuted` (Disp): disparity_upsample of an image that is computed when it is asked for: the region given to it is not halved, so that the pixels needed are not in the copy.
* `edge_reflect_one_column_refuted` (Edge): Sizes the modes do not support, although nothing rejects them.
* `edge_linear_one_column_refuted` (Edge): Linear extension of a one-column image reads outside of it.
* `edge_periodic_empty_refuted` (Edge): Periodic extension of an empty image divides by zero.
* `erode_rejected_partially_refuted` (Erode): ... but the rows before the one at fault stay masked
* `exif_offset_refuted` (Exif): An entry whose data would lie beyond the end of the file is not always refused: the end of the data is computed in 32 bits, and with an offset near 2^32 it wraps around. The data is then read outside of the buffer.
* `exif_next_refuted` (Exif): The offset of the next directory may be equal to the length of the data; the directory is then read outside of the buffer.
* `exif_first_refuted` (Exif): The offset of the first directory is not checked at all.
* `exif_unsigned_refuted` (Exif): Unsigned integers of 32 bits are not read correctly: the conversion of a large one to int is undefined, and a large unsigned quotient is read as a negative one.
* `exif_float_refuted` (Exif): Floating point numbers in files with the most significant byte first have their bytes reversed: 1.0 (3F800000 in hexadecimal) is read as 4.6E-41.
* `exif_second_section_refuted` (Exif): Exif tags are not found if another application section with the same marker (as used for XMP) comes before them: the search stops.
* `exif_eoi_refuted` (Exif): A file without Exif tags that ends in an end-of-image marker, which has no length, is an error, not a file without tags.
* `exif_short_section_refuted` (Exif): A section with the marker of Exif data that is shorter than four bytes is compared with "Exif" beyond its end; one of four or five bytes likewise with the rest of the header.
* `children_of_null_refuted` (Frames): children() of the NULL handle does not throw, as the header says, but lists the roots.
* `names_stay_unique_refuted` (Frames): Without moving any frame or adding a tree, del(frame, false) makes two roots of the same name.
* `add_failure_leaks_refuted` (Frames): add(name, parent, transform) leaves a frame behind that nobody can reach when it throws.
* `set_parent_takes_strangers_refuted` (Frames): set_parent() does not ask whether the frame is in the store: a frame that is not comes into it, without a name if it has none.
* `set_parent_loses_frames_refuted` (Frames): set_parent() accepts a frame below itself as its parent. Then a question about any of these frames, which have left the store, never returns.
* `lookup_stays_below_scope_refuted` (Frames): A scope does not restrict the search to what is below it: an absolute path, and a path with "..", lead elsewhere.
* `merge_tree_at_start_refuted` (Frames): merge_tree(tree, start) with a start frame does the opposite: nothing of the tree comes to the store, and the frames below the start frame whose paths are not in the tree are deleted.
* `matrix_conversion_refuted` (Frames): The conversion of a transform to a matrix gives the zero matrix: the way there and back does not return the transform.
* `get_transform_across_trees_refuted` (Frames): Between frames of different trees the identity is returned, whatever the transforms of the frames are, and no error.
* `set_transform_rel_replaces_refuted` (Frames): set_transform_rel() does the same: the new transform is not relative to the current one.
* `set_transform_of_root_refuted` (Frames): set_transform() of a root is wrong: of the frames above wrt, only wrt itself is taken into account.
* `area_shift_rotated_refuted` (GeoRef): In an image that is turned, the point of the centre of a pixel that is an area is not the transform of the pixel and a half: the shift uses only the diagonal of the transform.
* `global_round_trip_refuted` (GeoRef): After set_transform alone, and so after crop and resample, the image's longitudes are guessed from its first pixel: on a global map the pixel at longitude 10 comes back a full turn away.
* `sample_int_box_fraction_refuted` (GeoRef): The points sampled for a box whose corners are not integers may lie outside it.
* `point_to_lonlat_bbox_corner_refuted` (GeoRef): The corner with the largest coordinates is not among them, so its image may lie outside the box.
* `crop_rotated_refuted` (GeoRef): 
* `resample_rotated_refuted` (GeoRef): In a turned image only the diagonal of the transform is scaled.
* `shortcut_one_corner_refuted` (GeoRef): 
* `reproject_ignores_transform_refuted` (GeoRef): Its documentation says the affine transforms are ignored and the points are not pixels: two sources that differ only in the transform give different results.
* `grassfire_thin_refuted` (Grass): The property fails for images one pixel wide or high: the result is zero everywhere, also on nonzero pixels.
* `rgb_blue_is_alpha_refuted` (IBuf): C55, refuted. An alpha channel is looked for in the destination format when the source is not gray+alpha (src_alpha, ImageResource.cc:476-477): premultiplied RGB pixels converted to unpremultiplied RGBA are divided by their blue channel, which is undefined when blue is 0.
* `rgba_alpha_ignored_refuted` (IBuf): C55, refuted. For the same reason the alpha channel of an RGBA source is ignored when the destination has no alpha channel: a transparent pixel keeps its colour, where one of a gray+alpha source becomes black.
* `planes_drop_rescale_refuted` (IBuf): C55, refuted. The rescale argument is not passed on when planes are converted to channels (ImageResource.cc:426,434): a uint16 value is cut to its low byte although rescaling was asked for.
* `more_planes_overrun_refuted` (IBuf): C55, refuted. can_convert and convert do not compare the number of planes of buffers of the same pixel format: a source with more planes than the destination is accepted and written past its end.
* `can_convert_unknown_refuted` (IBuf): C55, refuted. Two buffers of unknown pixel format: can_convert has no objection, convert throws.
* `mean_u64_refuted` (IBuf): C55, refuted. The mean of uint64 channels is summed in a signed 64-bit accumulator: three channels 2^63 average to a smaller value.
* `accepted_sizes_safe_refuted` (ImgMem): A 50000 x 50000 one-plane image passes every check but its plane stride and clearing length overflow int.
* `iterator_large_refuted` (ImgMem): On an image of more than 2^31 pixels per plane a reachable position reports a negative column.
* `integral_large_refuted` (Integral): Single precision loses pixels once the running sum passes 2^24: a block holding one pixel of value 1 sums to 0.
* `integral_even_lobe_refuted` (Integral): With an even lobe the middle is one column wider than the lobes: a uniform image has a second derivative.
* `lagrange_const_serves_last_sample_refuted` (Interp): The expected claim, that each time up to the end of the range the object reports is served, does not hold: the time of the last sample is refused (PositionInterp.cc:291, the check asks for a sample after it), though the variant with irregular times serves it.
* `piecewise_acceleration_continuous_refuted` (Interp): The expected claim, that the interpolated position is continuous at the samples, does not hold: the position reached from one sample is not the next sample unless the velocities agree with the positions (PositionInterp.cc:366-371).
* `hermite_serves_last_sample_refuted` (Interp): The expected claim, that every time up to and including that of the last sample is served, does not hold: the last one is refused (PositionInterp.cc:437), while the interpolation with piecewise acceleration serves it.
* `velocities_counted_refuted` (Interp): The expected claim, that fewer velocities than positions are noticed, does not hold: neither constructor compares the two, and the velocity is then read past its end (PositionInterp.cc:366, 448).
* `smooth_position_any_number_refuted` (Interp): The expected claim, that the answer is within the bounds of the samples whatever number of weights was asked for, does not hold: with no weights, which the constructor accepts, the answer is the origin (PositionInterp.cc:136-158).
* `line_times_any_table_refuted` (Interp): The expected claim, that a table of one entry is refused or used, does not hold: the maps stay empty and the end iterator is used (TimeInterp.cc:60-66).
* `direction_table_right_of_table_refuted` (Interp): The expected claim, that columns out of the table, which are not refused but extrapolated, are served, does not hold: on the right the coordinate of the last column is taken for its index (QuatInterp.cc:299-300), and the row is read past its end unless columns are one apart from zero.
* `direction_table_linear_left_refuted` (Interp): The expected claim, that a table linear in the column is continued linearly to the left, does not hold: the parameter is taken relative to the whole width of the table but applied to the first two columns (QuatInterp.cc:334-338).
* `line_stop_excluded_refuted` (Line): "The stop point is the point after the last pixel on the line" is false for lines that run backwards.
* `default_case_refuted` (Log): "Namespaces ignore case": not for the console default.
* `destroy_flushes_all_refuted` (Log): "Nothing is lost when the buffer is destroyed": only the text of the thread that destroys it is sent.
* `destroy_log_stream_refuted` (Log): "A log's text goes to its own stream": destroying a log sends what is pending to std::cout.
* `mod_total_refuted` (MFun): mod(INT_MIN, -1) overflows.
* `round_double_refuted` (MFun): "_round is to the nearest": not the double just below one half.
* `round_float_refuted` (MFun): "_round keeps integers": not the odd floats above 2^23.
* `round_clamp_64_refuted` (MFun): "round_and_clamp saturates": not into 64 bits, where the bound itself rounds up to a number that does not fit.
* `inverse_tall_refuted` (MInv): A matrix with more rows than columns is not rejected: the rows below the square are ignored.
* `inverse_wide_refuted` (MInv): One with fewer rows than columns is read outside its storage.
* `det_empty_refuted` (MInv): The determinant of the empty matrix is one, but the function answers zero: the empty identity is an identity with determinant zero, and it has an inverse.
* `ip_file_cut_refuted` (MatchIO): The claim that every truncation is noticed is false in general. For every list of points, a file cut anywhere in its last record is accepted: the caller gets all the points but with the last one made up from the bytes that are there and from defaults. When the last record is missing entirely, the caller gets a default point instead of it.
* `match_file_cut_refuted` (MatchIO): The same for match files.
* `ip_file_cut_header_refuted` (MatchIO): A file cut within its eight byte header reads as an empty list.
* `match_name_separator_refuted` (MatchName): The claim in general is false. Two different pairs of short image names share a match file because the separator may occur in a name ...
* `match_name_prefix_refuted` (MatchName): ... because the prefix is also removed from the middle of a name, although it should only be when the name starts with it ...
* `match_name_directory_refuted` (MatchName): ... and for every prefix-free pair of files that only differ in directory.
* `mst_constructor_refuted` (Mst): The uninitialised member: the same call may also throw.
* `pbm_second_write_refuted` (Pbm): C56, false as one might state it: an image written twice to the same resource reads back as the second image. The file is opened for appending and the position set before writing has no effect, so that the second image lands behind the first one, which is the one read.
* `pbm_bitmap_refuted` (Pbm): 
* `pbm_short_file_refuted` (Pbm): C56, false as one might state it: a file with too few samples is refused. In a text file the last sample is repeated; in a binary file the missing samples are whatever the new array held.
* `pbm_sample_wraps_refuted` (Pbm): C56, false as one might state it: a sample above the maximal value is read as the maximal value. In a text file the sample is first reduced to eight bits, so that 256 is read as 0 and not as 255.
* `pbm_long_comment_refuted` (Pbm): C56, false as one might state it: comments may have any length. Only 1024 characters of a comment are skipped; what follows is read as numbers.
* `pbm_negative_width_refuted` (Pbm): C56, false as one might state it: the size of an opened image is the size in its header. A negative width is accepted and read as a huge one.
* `scale_peak_cube_refuted` (Peaks): A point found in space and scale is a strict maximum among all 26 places around it. False: in the planes above and below only the same pixel is looked at.
* `plateau_peak_refuted` (Peaks): A plateau higher than everything around it gives a point. False: a peak must be strictly above each neighbour.
* `behind_refused_refuted` (Pinhole): A point behind the camera is not refused: it has the pixel of its mirror image.
* `no_rebuild_stale_refuted` (Pinhole): A focal length set without building leaves pixels as they were: the camera no longer shows what its parameters say.
* `erase_marked_drops_polygon_labels_refuted` (Poly): Erasing marked polygons drops the labels of vertices and of layers but keeps the labels of polygons: they then number polygons that are gone.
* `closest_edge_of_open_line_refuted` (Poly): The edge that would close a line is found although the line is open: its nearest point is at distance 0 of a point far from the line drawn.
* `sort_add_other_orientation_refuted` (Poly): With areas positive for polygons turning right the rectangle added still turns left, so the first polygon is still a hole.
* `cut_line_keeps_border_refuted` (Poly): A line on the border of the window lies in the window but nothing is left.
* `file_keeps_closed_refuted` (Poly): A closed polygon is read back as open.
* `file_keeps_labels_refuted` (Poly): A label has one more blank at its front each time.
* `file_with_empty_lines_refuted` (Poly): With empty lines between the polygons two are read as one.
* `file_after_emptied_polygon_refuted` (Poly): After the only vertex of a polygon is erased, the next polygon but one is written with the vertices of the one before: the first vertex is not advanced when a polygon without vertices is skipped.
* `zero_threads_refuted` (Pool): A pool of zero threads accepts tasks and never runs them.
* `ordered_reuse_refuted` (Pool): An index that was already used blocks the queue for good.
* `kill_and_join_refuted` (Pool): With a second task queued, kill_and_join loses it and never returns.
* `finished_shows_one_refuted` (Progress): After report_finished the progress is one. False: the callback that prints on the terminal prints the full bar but keeps the progress it had.
* `bar_never_longer_refuted` (Progress): The bar printed never exceeds its length. False: progress beyond one, as increments can add up to, prints more stars.
* `bar_length_old_refuted` (Progress): The length of the bar is at most eighty. False for the deprecated constructor: a text that is too long is not refused, and the unsigned length wraps to billions of dots.
* `qtree_any_tile_size_refuted` (QTree): An odd tile size is accepted, but a tile whose children have to be reduced by a factor other than two is then not made: with tiles of 3 pixels the third to be copied does not fit (ArgumentErr), with tiles of one pixel the size of the reduced child is zero and is divided by (undefined).
* `qtree_crop_keeps_data_refuted` (QTree): If tiles are cropped or culled, a tile with data is dropped if the data covers less than one of its pixels in width or height, and a row or column of pixels partly covered is cut off. For an image of 3 by 1 pixels, not even the tile at the root is written.
* `qtree_named_paths_distinct_refuted` (QTree): And it does: in a tree called "0" or "0.kml", the root and the tile "0" are written to the same file, the tile first.
* `quat_any_length_refuted` (Quat): The matrix of a quaternion that is not a unit one is not a rotation, although the quaternion rotates: the two disagree.
* `slerp_n_weights_refuted` (Quat): Weights that are not negative and add up to one are refused when the first two are zero: their sum is replaced with one and kept.
* `unique_integers_end_refuted` (Ransac): The search for a new integer need not end: with a generator that repeats itself two different integers are never found.
* `inliers_safe_refuted` (Ransac): The lists are not compared: a second list that is too short is read beyond its end.
* `attempt_deterministic_refuted` (Ransac): The result does depend on the order of the threads: of two models with the same error the one that is ready first is taken, although the samples are drawn beforehand "to ensure a deterministic outcome".
* `result_has_inliers_refuted` (Ransac): The number of inliers is counted before the model is fitted to them: the model returned can have fewer inliers than were asked for.
* `ransac_keeps_minimum_refuted` (Ransac): The lower number of inliers stays with the object: the next call starts with it, not with the number given to the constructor.
* `spatial_add_with_limits_returns_refuted` (STree): Level limits: one primitive added with limit 0 and one with limit 1, both in the first half of the tree. The second call does not return: it moves the two past each other for ever.
* `spatial_limits_keep_deepest_refuted` (STree): Two primitives kept at the root by a limit, then one without limit that splits the root: only one of the two is moved down; the other stays at the root although a child holds it.
* `spatial_add_point_outside_refuted` (STree): A primitive without an interior outside the box of the tree: the null node is used.
* `spatial_tree_of_points_refuted` (STree): A tree made from such primitives only.
* `spatial_add_far_refuted` (STree): A primitive far away: the shift count passes the width of an int.
* `jump_penalty_always_paid_refuted` (Sgm): 
* `large_penalties_refuted` (Sgm): Finding: penalties beyond what 16 bits can hold. p2 is taken from the caller unchecked; with p2 = 65400 the value standing for infinity wraps to 119, and a pixel which keeps the disparity of the previous one is charged for it.
* `positive_range_refuted` (SgmBox): For a range of positive disparities only, the region has pixels whose window leaves the left image: the margin is reduced by the smallest disparity on the left image too.
* `prior_outside_range_refuted` (SgmBox): A prior outside a search range of fewer than ten columns is trusted and gives a box whose first column is after its last; its size (bx1-bx0+1)*(by1-by0+1), which is used to lay out the buffers, is negative.
* `row_search_uses_neighbours_refuted` (SgmBox): In a search along rows only, the box around the boxes of the neighbours counts as empty: a pixel without a prior next to one with a prior keeps the whole range, and is dropped as soon as memory is short.
* `valid_targets_searched_refuted` (SgmBox): Matches allowed by both masks are not always searched. Here only row r of the right mask has no valid pixel, so the pixel is dropped although its target in another row is valid.
* `single_row_limits_refuted` (SgmBox): With a single valid row the limits are not moved to the pixel: they are taken as disparities. A pixel whose targets are valid is dropped, another one is given targets beyond the valid columns.
* `shrunk_boxes_respect_mask_refuted` (SgmBox): A pixel without a prior gets a box around those of its neighbours without regard to the right mask.
* `ternary_5x5_uses_all_neighbours_refuted` (SgmSel): 
* `chosen_is_cheapest_refuted` (SgmSel): With several minima the chosen disparity need not be one of them: of the costs 0, 9, 0 the one of cost 9 is taken.
* `skyline_look_refuted` (Sky): Looking at an entry of a matrix that is not const counts as using it.
* `ldl_semi_definite_refuted` (Sky): 
* `sparse_solve_regular_refuted` (Sky): "Solve A x = b": not every regular symmetric matrix will do.
* `sparse_overlap_accepted_refuted` (Sparse): The property fails when nothing lies to the right: an overlapping patch is accepted, and the overlap keeps its old value.
* `sparse_lost_patch_refuted` (Sparse): It may also lose pixels of the new patch that no earlier patch covers.
* `sparse_rejected_partially_refuted` (Sparse): A rejected patch is absorbed in part.
* `histogram_bin_center_refuted` (Stats): The bin that counts a value is not the one whose centre is nearest.
* `histogram_ignores_outside_refuted` (Stats): Without saturation a value outside the range is counted all the same if it is close.
* `histogram_no_check_refuted` (Stats): Without the check a value outside writes outside the array.
* `histogram_flat_range_refuted` (Stats): A range of width zero: the bin is computed from 0/0.
* `percentile_one_double_refuted` (Stats): In double precision the fractions need not add up to one: with one value in each of ten bins the percentile 1 is refused with an exception.
* `outlier_brackets_order_refuted` (Stats): A fraction below one half can give brackets in the wrong order, outside of which every value lies.
* `triangulate_in_front_refuted` (Stereo): A point that passes is not always in front of the cameras: the reflection is in the centre of the first camera alone, and can fall behind the other. Here the rays leave (0,0,0) along x and (1,1,0) along (3/5,4/5,0); the lines meet at (1/4,0,0), in front of the first camera and behind the second. The result is (-1/4,0,0), behind the first.
* `opposite_rays_refuted` (Stereo): Opposite directions pass the test of parallel directions: the result of two such rays is not a number.
* `replace_terminates_refuted` (StrRep): "Replacing terminates": not for "a" by "ba".
* `erase_all_refuted` (StrRep): "Every occurrence is erased": not if two are next to each other.
* `replace_leaves_none_refuted` (StrRep): "After replacing double spaces by single ones none is left" (the comments at GeoReference.cc 665 and 681): not if there were three.
* `tracks_every_feature_refuted` (Tracks): It is not so that every matched feature is in a track: when a second feature of an image joins a track, it takes the place of the first one (ControlNetworkLoader.cc 352 and 364), which then is in no track. The comment at line 41 says that a track has one feature of each image.
* `tracks_joined_refuted` (Tracks): Nor is it so that features joined by matches are in one track: a match between two tracks does not join them (ControlNetworkLoader.cc 338-343), not even when they have no image in common. One point on the ground then becomes two points of the network.
* `tree_stays_acyclic_refuted` (Tree): Moving a node below itself is accepted; from then on ancestry() of every node on the cycle never returns.
* `clone_into_itself_refuted` (Tree): Cloning a node below itself never returns.
* `pre_order_stays_below_refuted` (Tree): The pre-order traversal from a node that is not a root goes on with its later siblings, which are not below it.
* `post_order_refuted` (Tree): The post-order traversal visits a node before one of its descendants.
* `longitude_zone_sixty_refuted` (Utm): The zone of a longitude is always one of the sixty of the grid. False: 180 degrees, and as many full turns further as one likes, gives 61.
* `latitude_band_x_refuted` (Utm): The last band, X, reaches to 84 degrees north, as in the grid. False: it ends at 80 degrees, and what is north of it gets the zero at the end of the table of letters.
* `utm_svalbard_north_refuted` (Utm): The exceptions of Svalbard hold to the end of the grid at 84 degrees north. False: from 80 degrees on the ordinary zones are given, also at its northern coast.
* `utm_zone_turn_refuted` (Utm): A full turn of longitude does not change the zone. False: the exceptions look at the longitude as it was given.
* `subsample_empty_refuted` (Views): An empty image subsampled by 2 claims to have a column and a row.
* `subsample_prerasterize_refuted` (Views): With a larger vertical than horizontal factor the child is asked for too few rows and the subsampling reads outside what was prerasterised.
* `subsample_prerasterize_wide_refuted` (Views): With a larger horizontal factor it is asked for rows it does not have.
* `subsample_planes_refuted` (Views): Subsampling an image of several planes cannot be rasterised at all.
* `bicubic_between_refuted` (Warp): Bicubic interpolation can leave the range of the pixels it is made from.
* `weightless_neighbour_refuted` (Warp): A pixel of weight zero still decides on the validity: on a column between two rows all the pixels used are valid, but an invalid neighbour in the next column makes the result invalid.
* `homography_box_refuted` (Warp): A homography declares itself convex, but where its denominator changes sign within the box, the box of the corners misses transformed pixels.
* `continuous_box_refuted` (Warp): A function that is continuous can leave the box of its values on the border inside.
* `approximation_tolerance_refuted` (Warp): The comment promises results to within the tolerance for all arguments in the box; only the nodes are looked at, and between them the error is unbounded.
* `nodata_identity_refuted` (Warp): The last row and column are lost even where the point is exactly on a pixel: transformed by the identity, an image does not stay as it is.
* `stray_stop_refuted` (Watch): "A start and a stop add the time between them": not after a stop too many, and the watch is then running while it is not started.

Seen while reading, without a theorem:

* `Log::operator()` walks the list of logs without the mutex that guards additions to it
  (Log.cc), so adding a log while another thread logs is a race.
* `Condition::timed_wait` can pass a nanosecond field of 10^9 or more to the system.
* `DisjointSet::num_elems` and the counter tested by the minimum spanning tree constructor
  are never initialised.
* `FrameStore::lookup` and `FrameStore::merge_tree` use the list of roots without the mutex that
  the other calls take.
* `splitPath` (FrameTreeNode.cc) increments an iterator past the end of a path that ends in a name.
* `inverse` of an affine transform is declared `throw()` although the inversion of a singular
  matrix throws, which ends the program.
* `FrameStore::merge_tree` dereferences a NULL tree, and puts a tree that still has a parent
  among the roots.
* `RadialTransformAdaptor::forward` (Image/Transform.h:127-128) leaves out the half width in y that
  `reverse` uses, so the two are not inverse.
* `PointLookupTransform` and `PointOffsetTransform` read their tables unchecked in a release build.
* `Cache::CacheLine::try_invalidate` logs at debug level while it holds the cache mutex.
* The copy constructor of `TerminalProgressCallback` leaves the step, the precision, the length of
  the bar and the progress last printed uninitialised.
* `dPoly::appendPolygons` called with the object itself reads through pointers taken before its own
  vectors grow; the model takes two different objects.

## What is modelled

One line per module. The definitions named are transcriptions of the C++ functions of the
same or a similar name; the comment at each definition gives file, lines and
simplifications.
* **BBox/Box2**: BBox2i (BBox<int32,2>) in coordinate form, used by the image modules, with its relation to the n-dimensional model of src/vw/Math/BBox.tcc. Definitions: `to_nd`, `box_of`, `box_default`, `bempty`, `bw`, `bh`, `bcrop`, `bshift`, `bexpand`, `inb`.
* **BBox/Model**: Model of vw::math::BBox (src/vw/Math/BBox.h, src/vw/Math/BBox.tcc). Simplifications: coordinates are unbounded integers (RealT an integer type whose arithmetic does not overflow) except in the default constructor, whose sentinel depends on the conversion to RealT; the rational version of grow_bbox_to_int has exact floor. Definitions: `dim`, `default_box`, `default_int`, `default_u32`, `box_xywh`, `dim_check`, `grow_max`, `grow_min`, `grow_point`, `any_ge`, `empty`, `any_gt`, `fully_empty`, `grow_bbox`, `crop`, `all_le`, `all_lt`, `all_ge`, `contains_point`, `contains_bbox`, `overlap_loop`, `intersects`, `extent`, `width`, `height`, `depth`, `area`, `volume`, `expand`, `expand_vec`, `contract`, `scale`, `unscale`, `shift`, `unshift`, `to_int_loop`, `grow_bbox_to_int`, `grow_points`.
* **BIndex/Model**: Model of src/vw/Image/BlobIndex.h: blob::BlobIndex, the single tile labelling of 8-connected blobs of valid pixels. boost::connected_components is a parameter; BIndex/Spec.v says what is assumed of it. Pixel accessors are modelled by coordinates. Definitions: `visit`, `label_corner`, `label_top`, `label_pixel`, `label_image`, `add_to`, `rle_pixel`, `rle_row`, `blob_index`.
* **Basis/Model**: Bases and tangents of planes (src/vw/Math/VectorUtils.cc). Coordinates are exact rationals. Lengths of vectors, which are square roots, are a function given from outside; [None] stands for what is not a number. Definitions: `over`, `max_idx`, `coord`, `set_coord`, `across`, `form_basis`, `slopes`, `plane_tangents`.
* **Blob/Model**: Model of src/vw/Image/BlobIndex.h and BlobIndex.cc: BlobCompressed. The code keeps the segment starts and ends of a row in two lists of equal length; here they are zipped: a row is a list of pairs (start, end), relative to m_min.x, the end being one past the last column. The state left behind by an exception is not modelled. Definitions: `nrows`, `empty_blob`, `shift_row`, `shift_x`, `join`, `refactor_row`, `refactor_rows`, `refactor`, `size`, `bounding_box`, `intersects`, `back_end`, `front_start`, `right_test`, `right_loop`, `is_on_right`, `is_on_bottom`, `push_last`, `add_row`, `put_after`, `put_seg`, `put_segs`, `merge_rows`, `extra_rows`, `lowest`, `first_lowest`, `absorb`, `decompress`.
* **Blocks/Model**: Model of region subdivision and block processing: src/vw/Image/AlgorithmFunctions.cc, src/vw/Image/BlockProcessor.h, src/vw/Image/BlockRasterize.h. Simplification: int32 arithmetic does not overflow. Definitions: `sub_cols`, `sub_rows`, `subdivide_bbox`, `round_down`, `info_init`, `info_bbox`, `info_complete`, `info_advance`, `upd`, `binit`, `table_width`, `table_height`, `block_bbox`, `get_block_index`, `get_block_start_pixel`, `check_block_index`, `generate`, `img_read`, `block`, `view_read`, `dest`, `copy_px`, `functor_cached`, `functor_direct`, `run_calls`, `get_default_block_size`.
* **CNet/Model**: Control networks: src/vw/BundleAdjustment/ControlNetwork.{h,cc}, and the files of ground control points (ControlNetworkLoader.cc). Simplification: coordinates and standard deviations are integers; they are only copied and compared. Definitions: `new_measure`, `new_point`, `measure_eqb`, `get_image_name`, `with_measures`, `add_measure`, `add_measures`, `erase_at`, `delete_measure`, `find_from`, `find`, `add_image_name`, `is_gcp`, `is_tie`, `to_ground`, `add_control_point`, `add_control_points`, `delete_control_point`, `find_measure_from`, `find_measure`, `count_points`, `num_ground_control_points`, `num_tie_points`, `write_measures`, `positive`, `write_points`, `write_gcp`, `lines`, `as_name`, `read_measures`, `file_name`, `image_lookup`, `last_entry`, `known_measures`, `read_line`, `read_lines`, `read_gcp`.
* **Cache/Conc**: Part 2 of the cache model: several threads. src/vw/Core/Cache.h:314-397, Cache.cc:40-144, locks of src/vw/Core/Thread.h (boost shared mutex). One transition is one lock operation or what happens under one lock. Simplifications: the order of the valid list is left out, so eviction may pick any line nobody has locked (the real choice is one of these); taking an upgrade lock and turning it into an exclusive one is one transition; sizes are unbounded; the set of lines is fixed. No fairness is assumed. Definitions: `idle_state`, `is_some`, `with_thr`, `lines_of`.
* **Cache/Model**: Model of the resource cache: src/vw/Core/Cache.h, Cache.cc. Part 1 is the cache as one thread sees it, at the level of the linked-list pointers. Part 2 (Conc.v) interleaves threads. Simplifications: sizes are unbounded integers (no size_t wrap-around); generators are functions of the line; statistics, log output and the size warning are left out; a lock that the only thread would wait for forever is the outcome UB NoTerm. Definitions: `line`, `ptr`, `peq`, `upd`, `set_nx`, `set_pv`, `set_fv`, `set_lv`, `set_fi`, `extract`, `c_validate`, `c_invalidate`, `c_remove`, `c_deprioritize`, `cache0`, `free`, `unload`, `l_invalidate`, `try_invalidate`, `evict`, `c_allocate`, `do_insert`, `do_value`, `do_value_throw`, `do_release`, `do_deprioritize`, `shrink`, `do_resize`, `do_drop`, `fuel_of`, `with_line`, `step`, `steps`.
* **Cahv/Model**: Cameras given by the vectors C, A, H, V (src/vw/Camera/CAHVModel.cc). Coordinates are exact rationals; [None] stands for what is not a number. Lengths of vectors, which are square roots, are a function given from outside. Files are left out. Definitions: `of_pinhole`, `vover`, `to_pinhole`, `of_params`, `of_view`, `cahv_pixel`, `cahv_vector`, `cahv_epipolar`.
* **Census/Model**: Model of src/vw/Image/CensusTransform.h and of hamming_distance in src/vw/Math/Functions.h. Codes are integers reduced modulo 2^w, w being the width of the C++ type. Pixel values are integers; threshold +- centre is taken not to overflow int. Definitions: `wr`, `census_3x3`, `bin_step`, `ter_step`, `window`, `census_5x5`, `census_7x7`, `cols9`, `rows9`, `cols7`, `rows7`, `table`, `census_9x9`, `census_ternary_3x3`, `census_ternary_5x5`, `census_ternary_7x7`, `census_ternary_9x9`, `clear_bits`, `ones`, `hamming`.
* **Chan/Model**: Channel casts (src/vw/Image/PixelTypeInfo.h 240-380). Definitions: `convert`, `promote`, `common`, `less`, `ity_eqb`, `cast_int`, `clamp_int`, `clamp_double`, `round_clamp_double`, `dz`, `rescale_int`, `to_prec`, `rescale_to_double`, `rescale_to_float`, `clamp01`, `rescale_from_double`, `rescale_from_float`.
* **Chip/Model**: Model of src/vw/Cartography/Chipper.{h,cc}: a cloud of points is cut into chips of about the same number of points, which are stored as blocks of an image. Simplifications: coordinates are exact rationals, and only their differences, which decide the direction of a cut, are rounded, by any function [sub]. The running total in partition is exact. Indices do not wrap (fewer than 2^31 points). m_dir is left out, it is never used, and so are the bounds left1, left2, right1, right2 found in finalSplit, which emit ignores. Definitions: `point`, `px`, `py`, `origin`, `qlt`, `vget`, `vset`, `blank`, `of_list`, `set_oi`, `insert`, `stable_sort`, `sort`, `load`, `lround`, `partition`, `state`, `part`, `emit`, `final_split`, `distribute`, `split`, `decide_split`, `chipper`.
* **Conv/Model**: Model of src/vw/Image/Convolution.h and of the kernels of src/vw/Image/Filter.h and Filter.tcc. Simplifications: one plane, scalar pixels. A channel is an integer type or a floating point type; products and sums are exact rationals, so what is lost by rounding of float and double is not modelled, what is lost by conversion to an integer channel is. int32 arithmetic does not overflow. Definitions: `of_int`, `cast_clamp_if_int`, `c_convert`, `corr1`, `corr2`, `rot180`, `conv_op`, `rasterize`, `extended_copy`, `conv_support`, `conv_rasterize`, `center`, `vread`, `size`, `generate_2d`, `sep_op`, `rdT`, `wrT`, `convolve_1d`, `sep_rasterize`, `kernel3`, `laplacian_kernel`, `laplacian_op`, `sobel_kernel`, `sobel_op`, `compute_kernel_size`, `upd`, `vwrite`, `gaussian_kernel`, `power_matrix`, `mat_vec`, `derivative_kernel`.
* **Corr/Model**: Model of block matching: fast_box_sum (src/vw/Stereo/Algorithms.h), best_of_search_convolution, calc_disparity and subdivide_regions (src/vw/Stereo/Correlation.cc) with the costs AbsoluteCost and SquaredCost of src/vw/Stereo/CostFunctions.h. Pixels are integers and the float64 accumulators do not round. NCCCost, with its square root, is not modelled. int32 arithmetic does not overflow. Definitions: `at_`, `col_pass`, `first_sums`, `seed`, `write`, `sum_row`, `slide`, `fast_box_sum`, `read_list`, `raster`, `of_list`, `rasterize`, `pixel_cost`, `update`, `costs_of`, `best_of_search`, `calc_disparity`.
* **Corr/Subdiv**: Model of the subdivision of the search: subdivide_regions, src/vw/Stereo/Correlation.cc 139-328, and EWMinMaxAccumulator, src/vw/Image/Statistics.h 193-224. A disparity is None where the pixel is masked. The number of calls is bounded by [fuel]. Definitions: `ew1`, `ew_add`, `min_max`, `search_box`, `quad_search`, `beq`, `bgrow`, `hull_step`, `search_hull`, `area2`, `work`, `can_merge`, `merge`, `add_failed`, `quads`, `subdivide`.
* **Cut/Model**: Cutting polygons to a window, and tests whether edges meet a box: src/vw/Geometry/cutPoly.cc and src/vw/Geometry/edgeUtils.cc. Simplifications: coordinates are rationals and the arithmetic is exact; the arrays of x and y are one list of points. cutPolyLine is left out. Definitions: `pt`, `ltq`, `maxq`, `minq`, `cut_edge`, `edge_meets_horizontal`, `edge_meets_box`, `dot`, `along`, `half_step`, `half_loop`, `set_next`, `process_points`, `next_point`, `component`, `first_unvisited`, `components`, `cut_to_half_space`, `cut_all`, `cut_poly`.
* **DSet/Model**: Model of src/vw/Math/DisjointSet.h. The nodes are kept in insertion order in one list, which is both the heap and the list "elems"; a pointer is a position, the null pointer is None. A pointer that was never handed out is undefined behaviour. Simplifications: ranks are unbounded (ds_log_depth shows that they cannot exceed log2 of the number of elements); the member num_elems is never read and is left out; the destructor is left out. Definitions: `heap`, `deref`, `insert`, `assert_set`, `insert_in`, `set_par`, `inc_rank`, `combine`, `climb`, `compress`, `find`, `first_with`, `find_val`.
* **Disp/Model**: Filters of disparity maps: src/vw/Stereo/DisparityMap.h and the part of src/vw/Stereo/DisparityMap.cc used by them. Simplifications: disparities and thresholds are rationals and the arithmetic is exact; a standard deviation is compared by its square; images have one plane; the counters of rejected points, the plane fit, the quantile filter and the colouring of missing pixels are left out. Definitions: `ltq`, `px`, `valid`, `dx`, `dy`, `no_px`, `trunc`, `read`, `whole`, `raster`, `placed`, `nothing`, `minmax`, `pixels`, `ranges`, `disparity_range`, `mask_at`, `has_valid_mask`, `same_box`, `mask_prerasterize`, `mask_rasterized`, `range_mask`, `clamp`, `extended`, `over_kernel`, `kernel_ok`, `thresh_at`, `rm_outliers`, `cleanup`, `magnitude`, `cutoff`, `mean_at`, `dev_bound`, `stddev_at`, `divq`, `std_dev_at`, `transform_px`, `roundq`, `transform_region`, `subsample_size`, `sub_add`, `subsample_at`, `upsample_at`, `upsample_rasterized`.
* **Dist/Model**: Model of src/vw/Image/DistanceFunction.cc (bounded_dist) and DistanceFunction.h (bounded_signed_dist). max_dist is the rational p/q with q > 0 (every finite double is one). Distances are stored squared with their sign kept, and scaled by q^2: a value v of the code is represented by sign(v) * v^2 * q^2, which is an integer here, and min, max and the comparisons with 0 commute with this change of scale. So max_dist is represented by p^2 and sqrt(dsq) by dsq * q^2. The rounding of sqrt and of the products is not modelled. Definitions: `out_of`, `is_bd_pix`, `ceil_div`, `sq_dist`, `window`, `bounded_dist`, `bounded_signed_dist`.
* **Edge/Model**: Model of edge extension: src/vw/Image/EdgeExtension.h, EdgeExtension.tcc. Simplification: int32 arithmetic does not overflow; one plane (the plane index is passed through unchanged by every mode). Definitions: `vmod`, `in_view`, `clamp_axis`, `periodic_axis`, `reflect_axis`, `ext_read`, `const_src`, `periodic_src`, `reflect_src`, `source_bbox`, `linear_read`, `linear_src`, `linear_source_bbox`, `view_ext_read`, `view_source`, `restrict`.
* **Erode/Model**: Model of src/vw/Image/ErodeView.h: a sparse mask over an image, one std::map from segment end to segment start (both inclusive) per row. Definitions: `emap`, `upto`, `scan`, `add_seg`, `add_segs`, `add_rows`, `absorb_blob`, `absorb_blobs`, `new_mask`, `read`.
* **Exif/Model**: Model of src/vw/Camera/ExifData.cc: reading the Exif tags of JPEG and TIFF files. A file, or a section of one that was read into memory, is the list of its bytes; a read outside of it is undefined behaviour. Pointers are positions in that list and do not wrap (64 bits). Simplifications: values of type double are kept as the integer, the quotient or the bytes they are made from; the map of tags is a list, newest first; warnings are not printed. Which reader is used depends on the ending of the file name (ExifData.cc:487-497), that choice is left out. Allocation succeeds. Definitions: `byte`, `copy`, `put16u`, `put32u`, `get16u`, `schar`, `get32s`, `get32u`, `UBYTE`, `SBYTE`, `SINGLE`, `bytes_per`, `convert_any_format`, `int_of`, `tagdict`, `find_tag`, `is_link`, `store`, `entry`, `process_exif_dir`, `list_eqb`, `memeq`, `process_tiff_header`, `exif_header`, `process_exif`, `read_tiff_ifd`, `fgetc`, `read_marker`, `read_sections`, `read_jpeg_sections`, `get_tag_int`, `get_tag_double`, `c_str`, `get_tag_string`.
* **Frames/Model**: Frame trees and the frame store (src/vw/Geometry/FrameTreeNode.cc, FrameTreeNode.h, FrameStore.cc, Frame.h), on top of the tree nodes of Tree/Model.v. The heap holds every frame tree node that exists, whether or not it belongs to the store. A FrameHandle (FrameHandle.h 36-49) is a pointer, NULL is [None]. The extras of a frame and the mutex are not modelled: one call at a time. All calls check before they change anything, so a call that throws leaves the store as it was, with the one exception of add(name). Definitions: `slash`, `node_name`, `scan`, `split_loop`, `split_path`, `named`, `search`, `match_node`, `absolute`, `relative`, `node_lookup`, `str_ltb`, `insert_by_name`, `sort_by_name`, `with_names`, `skip_less`, `merge_loop`, `merge_fuel`, `merge_frame_trees`, `not_null`, `fs_name`, `joined`, `path_name`, `fs_full_name`, `first_root`, `fs_lookup`, `append_names`, `names_below`, `fs_frame_names`, `fs_parent`, `fs_root`, `fs_children`, `fs_is_root`, `fs_is_leaf`, `fs_is_ancestor_of`, `member_loop`, `fs_is_member`, `assert_unique`, `check_parent`, `fs_add_node`, `fs_add`, `erase`, `fs_del`, `fs_set_parent`, `merge_root`, `fs_merge_tree`, `delete_roots`, `fs_destroy`, `fs_clone_tree`, `multiplied`, `after`, `node_transform`, `node_transform_of`, `write_transform`, `node_set_transform`, `fs_get_transform`, `fs_get_transform_of`, `fs_set_transform`, `fs_set_transform_rel`, `fs_get_frame_transforms`, `set_transforms`, `fs_set_frame_transforms`.
* **GeoRef/Model**: Pixels, points and longitudes of a georeferenced image (src/vw/Cartography/GeoReference.cc, GeoReferenceUtils.cc, GeoTransform.cc). Coordinates are exact rationals. The map projection (OGR, PROJ) is a pair of functions of the georeference that may fail; its description and the datum are texts. A default box, with the largest number as its minimum and the least as its maximum, is [None]. Reading of files, the making of projections from text and distances on the sphere are left out. Definitions: `pt`, `ltq`, `mat_get`, `inverse3`, `empty`, `grow`, `grow_to_int`, `grow_by`, `trunc`, `round_away`, `bresenham`, `sample_int_box`, `sample_float_box`, `native`, `native_inv`, `denom`, `project`, `pixel_to_point`, `point_to_pixel`, `point_to_lonlat`, `qabs`, `near_middle`, `lonlat_to_point`, `geodetic_to_point`, `point_to_geodetic`, `pixel_to_lonlat`, `lonlat_to_pixel`, `corners`, `point_to_pixel_bbox`, `pixel_to_point_bbox`, `pixel_to_lonlat_bbox`, `sample_sides`, `lonlat_to_point_bbox`, `point_to_lonlat_bbox`, `lonlat_to_pixel_bbox`, `set_ll_box`, `ll_box_from_pix_box`, `shifted`, `set_transform`, `with_origin`, `crop`, `resample`, `make_geotrans`, `wrap_lon`, `wrapped`, `reverse`, `forward`, `forward_bbox`, `reverse_bbox`, `point_to_point`, `gt_pixel_to_point`, `gt_point_to_pixel`, `point_to_point_bbox`, `gt_pixel_to_point_bbox`, `gt_point_to_pixel_bbox`, `reproject_pixel`, `reproject_points`, `reproject_point_image`.
* **Grass/Model**: Model of src/vw/Image/Grassfire.h: grassfire. The pixel accessors are replaced by their coordinates; output values are unbounded integers (the default output type is int32 and the values never exceed cols + rows). Definitions: `mark`, `fwd`, `bwd`, `border_mode`, `fwd_i`, `bwd_i`, `ignore_mode`, `grassfire`.
* **IBuf/Model**: Run-time typed image buffers and their conversion: ImageBuffer, vw::convert and vw::can_convert (src/vw/Image/ImageResource.h, src/vw/Image/ImageResource.cc, src/vw/Image/PixelTypeInfo.cc). Memory is a list of bytes (0..255), one for the source and another for the destination: the two buffers do not overlap. Integer channels are stored in little-endian order. A floating-point channel is its bit pattern, and floating-point arithmetic is left to the operations of [fops], which are arbitrary functions in every theorem. Definitions: `ctype_eq_dec`, `pformat_eq_dec`, `cteqb`, `pfeqb`, `csize0`, `csize`, `nchan0`, `nchan`, `buffer_of`, `cropped`, `int_type`, `is_signed`, `in_table`, `norm`, `int_max`, `int_min`, `conv`, `set_max`, `i64_ok`, `wrap_i64`, `average`, `round_quot`, `to_int`, `narrow`, `mul1`, `div1`, `mapM`, `premultiply`, `unpremultiply`, `to_bytes`, `of_bytes`, `slice`, `splice`, `in_mem`, `load`, `store`, `load_all`, `store_all`, `copy_length`, `pixel`, `src_alpha`, `dst_alpha`, `make_plan`, `convert_pixels`, `core_format`, `generic_pair`, `accepted`, `as_planes`, `convert`, `can_convert`, `read`, `write`.
* **ImgMem/Model**: Model of memory layout and iteration of in-memory images: src/vw/Image/ImageView.h, PixelIterator.h, ImageViewBase.h. Simplifications: the pixel buffer is a list; an allocation either succeeds or fails as given by a flag; sharing of buffers between copies is not modelled. Definitions: `mul32`, `img0`, `MAX_SIDE`, `MAX_PLANES`, `MAX_TOTAL`, `set_size`, `reset`, `offset`, `buffer_strides`, `run`, `mk_iter`, `it_begin`, `it_end`, `it_equal`, `it_dist`, `it_inc`, `it_dec`, `it_adv`, `it_col`, `it_row`, `it_plane`, `walk`, `dcol`, `drow`, `mk_line`, `l_good`, `l_equal`, `l_dist`, `l_inc`, `l_dec`, `l_adv`, `l_walk`.
* **Integral/Model**: Model of src/vw/InterestPoint/IntegralImage.h and IntegralImage.cc. Pixels are integers. Every float operation is the exact integer operation followed by [rnd], the rounding of the float type. The final division of the derivative filters by filter_size^2 is left out: the functions here return the dividend. pixel_cast<PixelGray<float>> is the identity on gray pixels. Definitions: `zero_edges`, `fill_pixel`, `integral_image`, `integral_block`, `vec`, `x_second`, `y_second`, `xy_derivative`, `x_first`, `y_first`, `round_q`, `h_haar`, `v_haar`.
* **Interp/Model**: Interpolation of positions, times and directions: src/vw/Math/PositionInterp.cc, src/vw/Camera/TimeInterp.cc and the table of directions in src/vw/Math/QuatInterp.cc. Simplifications: numbers are rationals and the arithmetic is exact; a division by zero (infinite or not a number in the code) is the outcome DivByZero; integers do not overflow. Curve3DPositionInterpolation and the interpolation of quaternions are left out. Definitions: `ltq`, `v3`, `vzero`, `vadd`, `vscale`, `vsub`, `get`, `divq`, `size`, `linear_position`, `tend`, `eps`, `linear_piecewise`, `wts_and_indices`, `smooth_piecewise`, `first_after`, `next_sample`, `var_window`, `product`, `lagrange_var`, `roundq`, `lagrange_checks`, `denom`, `const_window`, `times_temp`, `lagrange_const`, `piecewise_a`, `hermite`, `linear_time`, `put`, `tlc_table`, `before_lower_bound`, `tlc_time`, `trunc`, `cell`, `grid`.
* **Lib**: outcomes, integer widths, loops, lists, images, ordered maps and strings used by the models.
* **Line/Model**: Model of src/vw/Math/BresenhamLine.h. Coordinates are unbounded integers: the differences of 32-bit coordinates are assumed not to overflow. Definitions: `setup`, `at_`, `next`, `is_good`, `trace`.
* **Log/Model**: The system log: rule sets, per-thread buffers and the fan-out to several logs (src/vw/Core/Log.h, Log.cc). Mutexes make every member function below one atomic step. Time stamps are a string given by the caller; the reload of the configuration file in Log::operator() (Log.cc 346) is not modelled. Definitions: `star`, `dot`, `lower_char`, `to_lower`, `WarningMessage`, `InfoMessage`, `EveryMessage`, `add_rule`, `ends`, `wildcard_match`, `default_rule`, `passes`, `rule_step`, `rules_after`, `enabled_logs`, `is_enabled`, `newline`, `return_`, `ends_line`, `set_buffer`, `locked_sync`, `step`, `start`, `run`, `destroy`, `destroy_log`, `prefix`.
* **MFun/Model**: Small numeric functions (src/vw/Math/Functions.h, src/vw/Image/RoundAndClamp.h). A double is an exact rational, an infinity or not a number; the additions of _round are exact here, and in IEEE arithmetic in [round_f]. Definitions: `signed`, `width`, `tmin`, `tmax`, `fits`, `fitsb`, `vw_mod`, `qtrunc`, `to_ity`, `qlt`, `vw_round`, `vw_floor`, `nextpow2_loop`, `nextpow2`, `clear_bits`, `hamming_small`, `popcount_pos`, `popcount`, `hamming_large`, `sf_neg`, `sf_trunc`, `sf_of_Z`, `round_f`, `sf_Q`, `dmin`, `dmax`, `round_and_clamp`.
* **MInv/Model**: Model of matrix inversion and determinants: src/vw/Math/Matrix.h, with index_norm_inf of src/vw/Math/Vector.h. Simplification: the elements are rationals and the arithmetic exact. Access out of range is undefined behaviour (the assertions of operator() are compiled in only with VW_ENABLE_BOUNDS_CHECK). MathErr is OtherErr. Definitions: `mrows`, `mcols`, `mget`, `mset`, `zeros`, `is_zero`, `qless`, `index_norm_inf`, `swap_rows`, `swap_perm`, `scale_column`, `eliminate`, `lu_step`, `lu`, `permuted_identity`, `divide_lower`, `divide_upper`, `inverse`, `inverse22`, `submatrix`, `copy_block`, `push_minors`, `det_loop`, `det`, `det22`.
* **MatchIO/Model**: Binary interest point and match files (src/vw/InterestPoint/MatcherIO.cc, src/vw/InterestPoint/InterestPoint.h). A file is the list of its bytes. Every number is represented by the bit pattern it has in memory, so floats are 32-bit patterns and copying a float is copying its pattern. The machine is little endian (x86/ARM), which is what the code assumes by writing objects from memory. Running out of disk or memory is not modelled. Definitions: `default_ip`, `enc`, `dec`, `sread`, `write_ip_record`, `read_desc`, `read_ip_record`, `read_records`, `write_binary_ip_file`, `read_binary_ip_file`, `write_binary_match_file`, `read_binary_match_file`.
* **MatchName/Model**: Names of match and interest point files (src/vw/InterestPoint/MatcherIO.cc 36-220). Names are lists of characters. Paths follow boost::filesystem on POSIX; names that start with two slashes (network names) are not modelled. Definitions: `slash`, `dot`, `path_filename`, `strip_slashes`, `path_parent`, `path_join`, `g_name_budget`, `fnv_step`, `fnv1a64`, `hex_digit`, `hex`, `fnv1a64Hex`, `shortenName`, `shorten_vwip_name`, `erase`, `before_dot`, `strip_path`, `capPrefixBase`, `match_ext`, `match_filename`, `drop_extension`, `clean_match_filename`, `ip_filename`.
* **Mst/Model**: Model of src/vw/Math/MinimumSpanningTree.{h,cc}: Kruskal's algorithm on top of the disjoint set structure, and the traversal of the tree. An edge primitive is its two node numbers and its cost; costs are integers (finitely many doubles are integers up to a common factor; only their order and sum matter). qsort is not modelled: the functions take the already sorted array, and the theorems hold for every sorted permutation. Node numbers are unbounded, so max_node - min_node + 1 does not overflow. The edge tables are lists that grow; the code counts first and then fills. Definitions: `get`, `set`, `min_of`, `max_of`, `mark`, `elems`, `kruskal`, `tables`, `construct`, `walk`, `starts`, `seek`, `apply`.
* **Pbm/Model**: Netpbm files: DiskImageResourcePBM (src/vw/FileIO/DiskImageResourcePBM.h, src/vw/FileIO/DiskImageResourcePBM.cc). A file is the list of its bytes. An input stream is what is left of it with the flags eofbit and failbit; the operations of std::istream are those of the C++ standard in the "C" locale. Failure to allocate memory and errors of the file system other than a missing file are not modelled. Definitions: `isspace`, `isdigit`, `good`, `set_fail`, `skip_sp`, `sentry`, `span`, `at_end`, `get_word`, `decimal`, `get_sign`, `get_i32`, `get_u32`, `peek`, `get`, `drop_line`, `ignore1`, `ignore_line`, `skip_spaces`, `skip_lines`, `skip_any_comments`, `normalize1`, `magic_of`, `open`, `byte_size`, `read_ascii`, `read_binary`, `read_pbm`, `dec_aux`, `dec`, `create`, `ascii_text`, `write_pbm`.
* **Peaks/Model**: Local extrema of interest images (src/vw/InterestPoint/Extrema.h). An interest image is a function on columns and rows with a size; values are exact rationals. A point found is its column, row, scale and interest; the other fields of an interest point are left out. Definitions: `is_local_max`, `is_local_min`, `is_extremum`, `is_scale_max`, `is_scale_min`, `is_scale_extremum`, `between`, `scan`, `find_peaks`, `find_scale_peaks`.
* **Pinhole/Model**: Pinhole cameras (src/vw/Camera/PinholeModel.cc). Coordinates are exact rationals. [None] stands for a pixel that is not a number: the code divides by zero. Poses are rotation matrices; their passage through quaternions, which keeps a rotation, is left out, as are files, [set_camera_matrix] and the partial state after a failed [rebuild_camera_matrix]. Definitions: `null_lens`, `transpose`, `mneg`, `mmul`, `rows`, `nearly_unit`, `intrinsics`, `rebuild`, `no_mat`, `make`, `make_plain`, `make_default`, `prod34`, `point_to_pixel_no_check`, `point_to_pixel_no_distortion`, `projection_valid`, `pixel_to_vector`, `nearly_aligned`, `point_to_pixel`, `with_`, `set_camera_center`, `set_camera_pose`, `set_coordinate_frame`, `set_lens_distortion`, `set_intrinsic_parameters`, `set_focal_length`, `set_point_offset`, `set_pixel_pitch`, `apply_transform`, `scale_camera`, `strip_lens_distortion`, `half`, `epipolar`.
* **Poly/Model**: Sets of polygons (src/vw/Geometry/dPoly.cc, dPoly.h) and the geometry they use (src/vw/Geometry/geomUtils.cc, geomUtils.h, baseUtils.h). Coordinates are exact rationals. Distances are kept as their squares, which compare in the same way. An access outside a vector is undefined behaviour; the assertions, which a release build drops, are left out. The labels of vertices and polygons made by comp*Anno, the files of type pol and cnt, and enforce45 are left out. Definitions: `ltq`, `pt`, `vget`, `vput`, `in_vec`, `vslice`, `verase`, `vinsert`, `vreverse`, `min_element`, `max_element`, `erase_marked`, `min_dist_seg`, `dist2`, `signed_poly_area`, `point_edge`, `point_in_poly`, `lt_apply`, `compose_transforms`, `trans_around`, `set_pts`, `set_counts`, `reset`, `anno_types`, `get_anno`, `set_anno`, `move_anno`, `move_annos`, `start_of`, `each_start`, `each_poly`, `append_polygon`, `set_polygon`, `append_rectangle`, `set_rectangle`, `append_polygons`, `set_point_cloud`, `big`, `no_box`, `box_of_range`, `bd_box`, `bd_boxes`, `bd_box_center`, `map_pts`, `move_all`, `shift_by`, `shift`, `rotate`, `scale`, `apply_transform`, `apply_around_center`, `marked`, `transform_marked_polys`, `transform_marked_annos`, `insert_vertex`, `erase_vertex`, `change_vertex`, `shift_edge`, `shift_one_poly`, `shift_marked_polys`, `reverse`, `reverse_one_poly`, `reverse_marked_polys`, `extract_one_poly`, `starting_indices`, `extract_marked_polys`, `replace_one_poly`, `erase_marked_polys`, `erase_one_poly`, `append_and_shift_marked`, `find_closest_vertex`, `find_closest_edge`, `find_closest_anno`, `greater_pt`, `greater_entry`, `qabs`, `sort_by_size`, `minq`, `maxq`, `sort_add_rect`, `cut_poly_line`, `blank`, `anno_line`, `write_poly`, `yellow`, `finish`, `read_line`, `read_lines`, `read_poly`, `build_grid`.
* **Pool/Model**: Model of the thread pool: src/vw/Core/ThreadPool.h, ThreadPool.cc. Any number of client threads submit tasks and the pool's own workers run them; one transition is what a thread does under one mutex, or one call of a task. Simplifications: log output is left out, a task's body is one transition, condition variables are represented by their predicates (join_all returns in a state where active = 0 and the queue mutex is free), indices of the ordered queue are unbounded integers. Definitions: `pool0`, `joined`, `stuck`, `fifo_push`, `fifo_pop`, `map_put`, `ord_push`, `ord_pop`.
* **Progress/Model**: Progress of tasks and their parts (src/vw/Core/ProgressCallback.h, ProgressCallback.cc). Progress is an exact rational. Calls are single steps: each takes the mutex of the object that keeps the progress. What is printed is modelled as the number of stars and dots of each line; the message of an abort is left out. Definitions: `part`, `print_progress`, `root_report`, `root_increment`, `root_finished`, `root_abort`, `report_progress`, `report_increment`, `report_finished`, `report_fractional`, `request_abort`, `abort_if_requested`, `progress`, `bar_length`, `bar_length_old`.
* **QTree/Model**: Model of src/vw/Mosaic/QuadTreeGenerator.h and QuadTreeGenerator.cc: cutting an image into a tree of tiles. Simplifications: pixels are scalars without an alpha channel; see Conv.Model for arithmetic. The progress callback never aborts. Writing a tile always succeeds; what is written is collected in a list. The file type is not "auto" and is left out, as is the metadata function, which is called with the same information. int32 arithmetic does not overflow. Definitions: `view_of`, `box_subsample`, `bquot`, `bprod`, `bdiv`, `default_branch`, `each`, `assign_crop`, `crop_copy`, `subsample_copy`, `no_image`, `black`, `is_valid`, `beq`, `whole`, `leaf`, `cropped`, `add_child`, `generate_branch`, `get_tree_levels`, `generate`, `pappend`, `simple_path`, `tiers`, `tiered_path`, `after_slash`, `drop_extension`, `stem`, `named_tiered_path`.
* **Quat/Model**: Quaternions as rotations, Euler angles, and interpolation of quaternions (src/vw/Math/Quaternion.h, src/vw/Math/Quaternion.cc, src/vw/Math/EulerAngles.h). Numbers are exact rationals. Sines, cosines, arc cosines and square roots are functions given from outside. Definitions: `qconj`, `qnorm`, `qscale`, `qover`, `qadd`, `qmul`, `qinverse`, `qdiv`, `qnormalize`, `from_matrix`, `rotation_matrix`, `rotate`, `from_axis`, `axis_angle_to_quaternion`, `identity3`, `madd`, `mscale`, `outer`, `axis_angle_to_matrix`, `rotation_x_axis`, `rotation_y_axis`, `rotation_z_axis`, `euler_rotation_helper`, `euler_to_rotation_matrix`, `euler_xyz_to_quaternion`, `slerp`, `slerp_more`, `slerp_n`.
* **Ransac/Model**: Random sample consensus: src/vw/Math/RANSAC.h. Simplifications: errors are rationals and the mean is exact (no rounding, no NaN); the fitting functor and the error functor are total functions, they do not throw; the messages are left out. std::rand() is a function from the number of calls so far to the value of the next call. RANSACErr is [OtherErr]. Definitions: `qltb`, `pick`, `draw`, `draws`, `get_n_unique_integers`, `all_samples`, `elem`, `sample`, `inliers`, `indices_from`, `inlier_indices`, `sum_errors`, `iteration`, `save`, `run_iterations`, `attempt_ransac`, `reduced`, `attempts`, `ransac`.
* **STree/Model**: Spatial trees (src/vw/Geometry/SpatialTree.h, SpatialTree.cc). Coordinates are exact rationals: the rounding of doubles is not modelled. Points and query boxes have the dimension of the tree; where the code would throw on a mismatch, the tests below are false. A primitive is a number; its bounding box and its two virtual functions are given by the context. The explicit stack of apply() (SEARCH_DFS, the only search type used here) is the call stack of the recursive functions below: the children pushed last are processed first. closest(), the printing functions, check() and the destructor are not modelled. Definitions: `forall2b`, `Qlt_b`, `contains_pt`, `contains`, `intersects`, `empty`, `Qmin`, `Qmax`, `grow`, `size`, `middle`, `lower`, `upper`, `quadrants`, `split_bbox`, `extra_needed`, `extra`, `grid_loop`, `grow_bbox_on_grid`, `tbox`, `tlist`, `tkids`, `leaf`, `hit`, `contains_one`, `contains_all`, `intersects_all`, `overlaps`, `all_overlaps`, `list_overlaps`, `overlap_pairs`, `nothing`, `is_nil`, `visit_kids`, `visit`, `at_path`, `replace`, `volume`, `first_index`, `grow_root`, `push`, `drop_nth`, `remove_at`, `relocate`, `add`, `new_tree`, `add_all`, `of_prims`.
* **Sgm/Model**: Semi-global matching: disparity indices, the accumulated costs along one path, the pass over one line of pixels and the sum over the eight directions. src/vw/Stereo/SGM.h, SGM.cc, SGMAssist.h. Buffers are lists; reading or writing outside of one is undefined behaviour. Costs are unsigned 8 bit, accumulated costs unsigned 16 bit (SGM.h:81-82, CostType and AccumCostType); [int] and [size_t] arithmetic is unbounded here. Definitions: `u16`, `rd`, `wr`, `choose_p1`, `choose_p2`, `ndx`, `ndy`, `nd`, `bad`, `box_size`, `xy_to_disp`, `disp_to_xy`, `disp_index_to_xy`, `clamp_less`, `clamp_more`, `table_row`, `lookup_table`, `box_loop`, `p2_mod`, `load_prior`, `reset_prior`, `neighbour`, `lowest_adjacent`, `evaluate_path`, `adds16`, `subs16`, `lane_result`, `flush`, `neighbours`, `evaluate_path_sse`, `starts0`, `calc_main_buf_size`, `one_buf_size`, `eval_fn`, `pass_step`, `pass_loop`, `line_pass`, `accum_updates`, `task_updates`, `dir_starts`, `dir_order`, `finished`, `dir_run`, `dirs_run`, `accum_sgm`.
* **SgmBox/Model**: Semi-global matching: the part of the image that can be matched and the search box of every pixel. src/vw/Stereo/SGM.cc. [int] arithmetic is unbounded here; the statistics kept in doubles and all messages are left out. Definitions: `output_region`, `zero_area`, `whole_range`, `scan_down`, `scan_up`, `valid_rows`, `valid_columns`, `prior`, `around`, `restrict`, `pixel_bounds`, `look_range`, `boxeqb`, `shrink_pixel`, `shrink`, `try_levels`, `constant_bounds`, `populate`.
* **SgmSel/Model**: Semi-global matching: the local costs, the choice of a disparity and the whole matcher. src/vw/Stereo/SGM.cc. [int] arithmetic is unbounded here; messages are left out. The variant called MGM is not modelled. Definitions: `fill_image`, `hamming_costs`, `census_costs`, `compute_costs`, `track`, `track0`, `copy_scan`, `under`, `smooth`, `rounds`, `select_best`, `slice`, `splice`, `create_view`, `frame`, `matching`.
* **Sky/Model**: Model of sparse symmetric matrices and the linear systems solved with them: src/vw/Math/MatrixSparseSkyline.h. Numbers are exact rationals; dividing by zero, which gives an infinity or no number in the code, is [UB DivByZero] here. Bounds checks are off, as in release builds. Vectors are arrays with one row. Definitions: `vnew`, `vget`, `vset`, `qdiv`, `new_mat`, `access`, `at_const`, `vaccess`, `vconst`, `deref`, `store`, `read`, `write`, `read_const`, `skyline`, `dim`, `ldl_v`, `ldl_entry`, `sparse_ldl_decomposition`, `count_back`, `inverse_sky`, `forward`, `by_diagonal`, `backward`, `sparse_solve_ldl`, `sparse_solve`, `multi_sparse_solve`, `skip_zeros`, `solve_for_skyline`, `reorganize`, `inverse`, `solve_reordered`, `apply_event`, `apply_all`.
* **Sparse/Model**: Model of src/vw/Image/SparseView.h: SparseCompositeView. A patch pixel is None when is_valid() is false. m_data is a vector with one map per row; the keys of a map are one past the last column of a segment. Definitions: `rowmap`, `create`, `zlen`, `at_`, `read`, `run_step`, `runs`, `absorb_seg`, `set_row`, `absorb_row`, `absorb_rows`, `absorb`, `absorb_all`.
* **Stats/Model**: Histogram, median and outlier brackets (src/vw/Math/Statistics.h, Statistics.cc). Values are exact rationals. The percentile loop is written over an arithmetic given by its operations, and used both with exact numbers and with IEEE doubles (Coq.Floats.SpecFloat), where its rounding matters. Definitions: `c_round`, `to_int`, `initialize`, `bin_center`, `bin_of`, `bump`, `add_value`, `add_value_no_check`, `add_values`, `percentile_loop`, `lt`, `get_percentile`, `ex_of`, `ex_plus`, `ex_div`, `ex_le`, `exact_percentile`, `dbl_of`, `double_percentile`, `insert`, `sort_up`, `at_index`, `median`, `find_outlier_brackets`.
* **Stereo/Model**: Points in space from pixels of several cameras (src/vw/Stereo/StereoModel.cc). Coordinates are exact rationals. [None] stands for a point that is not a number: the code divides by zero. The error of three rays or more is a sum of square roots; the model keeps the list of the squares. Messages are left out. Definitions: `vzero`, `vadd`, `vsub`, `vscale`, `dot`, `cross`, `mulv`, `triangulate_pair`, `tolerance`, `all_close`, `are_nearly_parallel`, `add_ray`, `ray_sums`, `ray_square`, `triangulate_many`, `triangulate_point`, `invalid_pixel`, `pixel`, `usable`, `valid_rays`, `behind`, `reflected`, `triangulate`, `disparity_point`, `disparity_cloud`.
* **StrRep/Model**: Find and replace on strings (src/vw/Core/StringUtils.cc). Definitions: `find_from`, `replace_at`, `replace_loop`, `string_replace`, `space`, `separate`.
* **TQueue/Model**: Model of the message queue between threads: src/vw/Core/ThreadQueue.h and the condition variable wrapper src/vw/Core/Condition.h. Any number of threads call the methods in any order. One transition is what a thread does while it holds m_mutex once, or one notification. Waking up without a notification and running out of time may happen at any moment. Simplification: the length of a time-out is not represented. Definitions: `st0`.
* **Tracks/Model**: From matches of interest points to a control network: src/vw/BundleAdjustment/ControlNetworkLoader.cc, with the selection of random subsets (src/vw/Math/RandomSet.cc, src/vw/InterestPoint/InterestPointUtils.h). Simplifications: coordinates and scales are integers (they are only copied and compared); the match files have been read; messages are left out, and the points are not triangulated. Definitions: `pick_random_subset`, `pick_random_indices_in_range`, `insert_int`, `sort_ints`, `elem`, `elems`, `pick_pair_subset`, `kp`, `kp_ltb`, `zz_ltb`, `safe`, `matches`, `kmaps`, `modify_elem`, `note_keypoints`, `load_file`, `load_files`, `number`, `pairwise`, `to_numbers`, `to_mvg`, `trackmap`, `pid_of`, `set_pid`, `set_track`, `add_match`, `build_tracks`, `at_`, `track_point`, `add_tracks`, `to_cnet`, `build_control_network`.
* **Tree/Model**: Tree nodes (src/vw/Geometry/TreeNode.h). Nodes live in a heap; a pointer is an index into it, NULL is [None], and a destroyed node is an empty cell. Using a destroyed node is undefined behaviour. Every loop that follows pointers is given one step more than there are cells: a walk that long has come back to a node it already visited and, as nothing changes meanwhile, never ends ([UB NoTerm]). Calls that recurse are bounded in the same way. The cached vector of ancestry() is returned rather than stored. Definitions: `heap`, `get`, `modify`, `with_parent`, `with_first`, `with_data`, `with_next`, `is`, `register_child`, `write`, `deregister_loop`, `deregister_child`, `new_node`, `set_parent`, `orphan_children`, `destroy`, `delete_children`, `recursive_delete_fuel`, `recursive_delete`, `clone_children`, `clone_fuel`, `clone`, `data`, `set_data`, `parent`, `siblings`, `children`, `up_chain`, `ancestry`, `root_loop`, `root`, `is_ancestor_loop`, `is_ancestor_of`, `mismatch_loop`, `last_common_ancestor_index`, `last_common_ancestor`, `count_children`, `num_offsprings_fuel`, `num_offsprings`, `pre_order_fuel`, `pre_order_traverse`, `post_order_fuel`, `post_order_traverse`, `bfs_loop`, `breadth_first_traverse`, `live`, `live_opt`, `legal`, `step`.
* **Utm/Model**: UTM zones (src/vw/Cartography/Utm.cc). Longitudes and latitudes are exact rationals, [None] what is not a number or not finite. Letters are ASCII codes. Definitions: `raise`, `lower`, `rounds`, `longitude_zone`, `bands`, `latitude_band`, `utm_zone`.
* **Views/Model**: Model of geometric image views, their pixel accessors, the rasterisation loop and prerasterisation: src/vw/Image/Manipulation.h, ImageTransform.h, PixelAccessors.h, ImageViewBase.h, ImageView.h, ImageResourceView.h. Simplifications: int32 and pointer arithmetic do not overflow; pixel types are not converted; views over floating-point indices are not modelled; the build has VW_ENABLE_BOUNDS_CHECK off. Definitions: `mget`, `lset`, `mset`, `subsample`, `vcols`, `vplanes`, `res_read`, `vread`, `step_ptr`, `step_pos`, `sub_op`, `trans_op`, `r180_op`, `cw_op`, `ccw_op`, `flipv_op`, `astep`, `aorigin`, `aderef`, `awrite`, `rast_cols`, `rast_rows`, `rast_planes`, `rasterize`, `new_img`, `leaf`, `res_rect`, `prerasterize`, `view_rasterize`.
* **Warp/Model**: Interpolation, coordinate transforms and transformed images (src/vw/Image/Interpolation.h, src/vw/Image/Transform.h, src/vw/Math/Transform.h). Coordinates and channel values are exact rationals, pixel indices unbounded integers: rounding of doubles and the range of int32 are left out. A pixel has one channel and a flag of validity; a pixel type without a mask is the case where every flag is true. Images have one plane. Definitions: `ltq`, `px`, `padd`, `pscale`, `round_away`, `cast_round`, `cast_clamp`, `view`, `bilinear`, `weight0`, `weight1`, `weight2`, `weight3`, `cubic_row`, `bicubic`, `nearest`, `pixel_buffer`, `interpolate`, `copied`, `interpolation_prerasterize`, `pt`, `qdefault`, `qgrow`, `qgrow_all`, `qgrow_to_int`, `at_pix`, `visited`, `mapped_bbox`, `compute_transformed_bbox`, `compute_transformed_bbox_fast`, `forward_bbox`, `reverse_bbox`, `set_tolerance`, `identity_tx`, `resample_tx`, `translate_tx`, `inverse2`, `mulv`, `linear_tx`, `affine_forward`, `affine_reverse`, `affine_tx`, `rotate_tx`, `det3`, `inverse3`, `homography`, `homography_tx`, `inverse_tx`, `compose_type`, `compose_tx`, `affine2mat`, `mat2affine`, `vadd`, `sqr_dist`, `node`, `refine_entry`, `refine`, `refine_loop`, `approximate`, `table_pos`, `table_cell`, `table_reverse`, `approximate_tx`, `transformed`, `transformed_rasterize`, `transformed_nodata`, `resampled_size`, `resize_tx`.
* **Watch/Model**: Stopwatches (src/vw/Core/Stopwatch.h). Each member function runs under the mutex of the watch and is one step, with the clock it reads. Copies of a watch share their data, so a history of calls on any of them is a history of one. Definitions: `u32`, `u64`, `new_watch`, `start`, `stop`, `is_running`, `elapsed_microseconds`, `num_stops`, `apply_event`, `after`, `get`, `set_watch`, `named_call`, `set_after`.

## What is not modelled

* Floating-point rounding, except where a module says so (Stats percentiles, MFun, Chan,
  Integral).
* The pixel type system, expression templates and compile-time dispatch: views are modelled
  by what they read and write.
* Everything that talks to GDAL, OpenEXR, LAPACK, Ceres, boost::filesystem, the network or
  the operating system, including the image file drivers.
* Camera models other than the pinhole and CAHV cameras, lens distortions as formulas, cartographic projections, bundle adjustment beyond control networks, stereo correlation beyond the
  pieces listed above, mosaicking other than quad trees, plate files and the GUI.
* Memory ownership: allocation failure (except a flag in ImgMem), reference counting and
  destructors unless named above.
* In the concurrent models, the C++ memory model: steps between lock operations are atomic.

## Trusted base

* The kernel of Coq 8.16.1 and its `vm_compute` (used for closed computations in `Example`s
  and in refutation witnesses).
* The correspondence between the Gallina definitions and the C++ text: read by hand, cited
  definition by definition. Nothing was compiled or run from `/repo`.
* The C++ semantics assumed by the models: two's complement integers, IEEE formats where a
  model says so, little endian memory in MatchIO, sequentially consistent steps under a
  mutex in the concurrent models.
* No axioms are added. `Print Assumptions` of every theorem listed in `MANIFEST.json`
  answers "Closed under the global context"; the table below is generated from the build.

| Property | Theorem | Print Assumptions |
|----------|---------|-------------------|
| C01 | `bbox_contains_exact` | Closed under the global context |
| C01 | `bbox_empty_exact` | Closed under the global context |
| C01 | `bbox_crop_is_intersection` | Closed under the global context |
| C01 | `bbox_grow_is_least_box` | Closed under the global context |
| C01 | `bbox_grow_empty_refuted` | Closed under the global context |
| C01 | `bbox_shift_moves_points` | Closed under the global context |
| C01 | `bbox_expand_is_dilation` | Closed under the global context |
| C01 | `bbox_contract_is_erosion` | Closed under the global context |
| C01 | `bbox_intersects_exact` | Closed under the global context |
| C01 | `bbox_intersects_empty_refuted` | Closed under the global context |
| C01 | `bbox_contains_bbox_exact` | Closed under the global context |
| C01 | `bbox_scale_points` | Closed under the global context |
| C01 | `bbox_area_counts_points` | Closed under the global context |
| C01 | `bbox_grow_point_contains_refuted` | Closed under the global context |
| C01 | `bbox_expand_vec_is_dilation` | Closed under the global context |
| C01 | `bbox_expand_vec_dimension` | Closed under the global context |
| C01 | `bbox_volume_counts_points` | Closed under the global context |
| C01 | `bbox_scale_roundtrip` | Closed under the global context |
| C01 | `bbox_unscale_points` | Closed under the global context |
| C01 | `bbox_unscale_contains_refuted` | Closed under the global context |
| C01 | `bbox_fully_empty_exact` | Closed under the global context |
| C02 | `bbox_default_grow_tight` | Closed under the global context |
| C02 | `bbox_default_neutral` | Closed under the global context |
| C02 | `bbox_default_range_refuted` | Closed under the global context |
| C02 | `bbox_default_unsigned_refuted` | Closed under the global context |
| C02 | `bbox_int_hull_encloses` | Closed under the global context |
| C02 | `bbox_int_hull_smallest_refuted` | Closed under the global context |
| C03 | `subdivide_is_partition` | Closed under the global context |
| C03 | `subdivide_full_tiles_only` | Closed under the global context |
| C03 | `subdivide_same_size_covers` | Closed under the global context |
| C03 | `subdivide_same_size_inside_refuted` | Closed under the global context |
| C03 | `subdivide_zero_block_diverges` | Closed under the global context |
| C04 | `block_processor_partition` | Closed under the global context |
| C04 | `block_processor_at_most_once` | Closed under the global context |
| C04 | `block_processor_terminates` | Closed under the global context |
| C04 | `block_processor_empty_region_calls` | Closed under the global context |
| C05 | `block_cache_read` | Closed under the global context |
| C05 | `block_cache_rasterize` | Closed under the global context |
| C05 | `block_cache_single_block_refuted` | Closed under the global context |
| C05 | `default_block_size_ok` | Closed under the global context |
| C05 | `default_block_size_empty_refuted` | Closed under the global context |
| C06 | `edge_extension_reads` | Closed under the global context |
| C06 | `edge_index_unique` | Closed under the global context |
| C06 | `edge_linear_reads` | Closed under the global context |
| C06 | `edge_linear_affine` | Closed under the global context |
| C06 | `edge_reflect_one_column_refuted` | Closed under the global context |
| C06 | `edge_linear_one_column_refuted` | Closed under the global context |
| C06 | `edge_periodic_empty_refuted` | Closed under the global context |
| C07 | `edge_source_covers` | Closed under the global context |
| C07 | `edge_linear_source_covers` | Closed under the global context |
| C07 | `edge_prerasterized_reads` | Closed under the global context |
| C08 | `orientation_of_views` | Closed under the global context |
| C08 | `transpose_transpose` | Closed under the global context |
| C08 | `turns_compose` | Closed under the global context |
| C08 | `turns_determined_by_matrix` | Closed under the global context |
| C08 | `rotation_laws` | Closed under the global context |
| C08 | `crop_of_crop` | Closed under the global context |
| C08 | `subsample_twice` | Closed under the global context |
| C08 | `subsample_pixels` | Closed under the global context |
| C08 | `subsample_empty_refuted` | Closed under the global context |
| C09 | `accessor_path_reads` | Closed under the global context |
| C09 | `rasterize_copies` | Closed under the global context |
| C09 | `rasterize_into_view` | Closed under the global context |
| C09 | `rasterize_size_mismatch` | Closed under the global context |
| C10 | `prerasterize_agrees` | Closed under the global context |
| C10 | `view_rasterize_copies` | Closed under the global context |
| C10 | `subsample_prerasterize_refuted` | Closed under the global context |
| C10 | `subsample_prerasterize_wide_refuted` | Closed under the global context |
| C10 | `subsample_planes_refuted` | Closed under the global context |
| C11 | `pixels_disjoint_and_inside` | Closed under the global context |
| C11 | `set_size_accepts` | Closed under the global context |
| C11 | `set_size_refuses` | Closed under the global context |
| C11 | `accepted_sizes_safe_refuted` | Closed under the global context |
| C12 | `iteration_is_raster_scan` | Closed under the global context |
| C12 | `iterator_roundtrip` | Closed under the global context |
| C12 | `iterator_arithmetic` | Closed under the global context |
| C12 | `iterator_large_refuted` | Closed under the global context |
| C12 | `line_iterator_walk` | Closed under the global context |
| C12 | `line_iterator_distance` | Closed under the global context |
| C13 | `cache_wellformed` | Closed under the global context |
| C13 | `cache_order` | Closed under the global context |
| C13 | `cache_total` | Closed under the global context |
| C13 | `recency_of_use_refuted` | Closed under the global context |
| C14 | `value_result` | Closed under the global context |
| C14 | `value_evicts` | Closed under the global context |
| C14 | `value_hit_keeps` | Closed under the global context |
| C14 | `resize_bound` | Closed under the global context |
| C14 | `resize_returns` | Closed under the global context |
| C14 | `resize_waits_refuted` | Closed under the global context |
| C14 | `generator_failure_refuted` | Closed under the global context |
| C15 | `held_value_stays` | Closed under the global context |
| C15 | `line_exclusive` | Closed under the global context |
| C15 | `one_allocator` | Closed under the global context |
| C15 | `size_accounting` | Closed under the global context |
| C15 | `size_covers` | Closed under the global context |
| C15 | `cache_progress` | Closed under the global context |
| C15 | `double_generation_refuted` | Closed under the global context |
| C16 | `fifo_accounting` | Closed under the global context |
| C16 | `fifo_completes` | Closed under the global context |
| C16 | `join_means_done` | Closed under the global context |
| C16 | `zero_threads_refuted` | Closed under the global context |
| C17 | `ordered_starts_in_order` | Closed under the global context |
| C17 | `ordered_completes` | Closed under the global context |
| C17 | `ordered_reuse_refuted` | Closed under the global context |
| C18 | `kill_outcome` | Closed under the global context |
| C18 | `kill_and_join_refuted` | Closed under the global context |
| C19 | `queue_linearizable` | Closed under the global context |
| C19 | `queue_order` | Closed under the global context |
| C19 | `queue_no_lost_wakeup` | Closed under the global context |
| C20 | `ds_partition` | Closed under the global context |
| C20 | `ds_calls` | Closed under the global context |
| C20 | `ds_log_depth` | Closed under the global context |
| C20 | `ds_find_value` | Closed under the global context |
| C20 | `ds_rank_bounds_depth_refuted` | Closed under the global context |
| C21 | `mst_minimal` | Closed under the global context |
| C21 | `mst_apply` | Closed under the global context |
| C21 | `mst_constructor_refuted` | Closed under the global context |
| C22 | `line_walk` | Closed under the global context |
| C22 | `line_backwards` | Closed under the global context |
| C22 | `line_stop_excluded_refuted` | Closed under the global context |
| C23 | `grassfire_distance` | Closed under the global context |
| C23 | `grassfire_ignore_borders` | Closed under the global context |
| C23 | `grassfire_thin_refuted` | Closed under the global context |
| C24 | `bounded_dist_correct` | Closed under the global context |
| C24 | `bounded_dist_rejects` | Closed under the global context |
| C24 | `bounded_signed_dist_correct` | Closed under the global context |
| C25 | `sparse_reads` | Closed under the global context |
| C25 | `sparse_rejects_overlap` | Closed under the global context |
| C25 | `sparse_overlap_accepted_refuted` | Closed under the global context |
| C25 | `sparse_lost_patch_refuted` | Closed under the global context |
| C25 | `sparse_rejected_partially_refuted` | Closed under the global context |
| C26 | `erode_reads` | Closed under the global context |
| C26 | `erode_segments_apart` | Closed under the global context |
| C26 | `erode_rejects` | Closed under the global context |
| C26 | `erode_rejected_partially_refuted` | Closed under the global context |
| C27 | `blob_index_components` | Closed under the global context |
| C27 | `blob_index_planes` | Closed under the global context |
| C27 | `blob_index_labels_refuted` | Closed under the global context |
| C27 | `blob_index_empty_refuted` | Closed under the global context |
| C28 | `blob_contents` | Closed under the global context |
| C28 | `blob_takes_rows` | Closed under the global context |
| C28 | `blob_refuses_rows` | Closed under the global context |
| C28 | `blob_absorbs` | Closed under the global context |
| C28 | `blob_on_right` | Closed under the global context |
| C28 | `blob_on_bottom` | Closed under the global context |
| C28 | `blob_intersects` | Closed under the global context |
| C28 | `blob_absorb_gap_refuted` | Closed under the global context |
| C28 | `blob_add_row_overlap_refuted` | Closed under the global context |
| C28 | `blob_intersects_gap_refuted` | Closed under the global context |
| C28 | `blob_sentinel_refuted` | Closed under the global context |
| C29 | `census_binary_bits` | Closed under the global context |
| C29 | `census_ternary_bits` | Closed under the global context |
| C29 | `hamming_counts` | Closed under the global context |
| C29 | `census_binary_distance` | Closed under the global context |
| C29 | `census_ternary_distance` | Closed under the global context |
| C29 | `census_binary_faithful` | Closed under the global context |
| C29 | `census_binary_monotone` | Closed under the global context |
| C29 | `census_ternary_offset` | Closed under the global context |
| C30 | `integral_block_sums` | Closed under the global context |
| C30 | `integral_second_derivatives` | Closed under the global context |
| C30 | `integral_xy_derivative` | Closed under the global context |
| C30 | `integral_haar` | Closed under the global context |
| C30 | `integral_flat` | Closed under the global context |
| C30 | `integral_large_refuted` | Closed under the global context |
| C30 | `integral_even_lobe_refuted` | Closed under the global context |
| C31 | `ip_file_round_trip` | Closed under the global context |
| C31 | `match_file_round_trip` | Closed under the global context |
| C31 | `match_file_unequal` | Closed under the global context |
| C31 | `ip_file_injective` | Closed under the global context |
| C31 | `ip_file_cut_detected` | Closed under the global context |
| C31 | `match_file_cut_detected` | Closed under the global context |
| C31 | `match_file_cut_header` | Closed under the global context |
| C31 | `ip_file_cut_refuted` | Closed under the global context |
| C31 | `match_file_cut_refuted` | Closed under the global context |
| C31 | `ip_file_cut_header_refuted` | Closed under the global context |
| C32 | `match_name_fits` | Closed under the global context |
| C32 | `clean_match_name_fits` | Closed under the global context |
| C32 | `ip_name_fits` | Closed under the global context |
| C32 | `vwip_name_fits` | Closed under the global context |
| C32 | `match_name_short` | Closed under the global context |
| C32 | `image_name_prefixed` | Closed under the global context |
| C32 | `match_name_distinct` | Closed under the global context |
| C32 | `match_name_long_distinct` | Closed under the global context |
| C32 | `match_name_separator_refuted` | Closed under the global context |
| C32 | `match_name_prefix_refuted` | Closed under the global context |
| C32 | `match_name_directory_refuted` | Closed under the global context |
| C33 | `tree_calls_defined` | Closed under the global context |
| C33 | `set_data_writes` | Closed under the global context |
| C33 | `tree_links_agree` | Closed under the global context |
| C33 | `tree_parent_live` | Closed under the global context |
| C33 | `set_parent_moves` | Closed under the global context |
| C33 | `new_node_adds` | Closed under the global context |
| C33 | `destroy_removes` | Closed under the global context |
| C33 | `ancestry_lists_ancestors` | Closed under the global context |
| C33 | `root_is_top` | Closed under the global context |
| C33 | `is_ancestor_of_correct` | Closed under the global context |
| C33 | `last_common_ancestor_correct` | Closed under the global context |
| C33 | `tree_below` | Closed under the global context |
| C33 | `num_offsprings_counts` | Closed under the global context |
| C33 | `pre_order_from_root` | Closed under the global context |
| C33 | `breadth_first_by_level` | Closed under the global context |
| C33 | `clone_copies` | Closed under the global context |
| C33 | `recursive_delete_exact` | Closed under the global context |
| C33 | `tree_stays_acyclic_refuted` | Closed under the global context |
| C33 | `clone_into_itself_refuted` | Closed under the global context |
| C33 | `pre_order_stays_below_refuted` | Closed under the global context |
| C33 | `post_order_refuted` | Closed under the global context |
| C34 | `spatial_contains_all_exact` | Closed under the global context |
| C34 | `spatial_contains_one_exact` | Closed under the global context |
| C34 | `spatial_intersects_all_exact` | Closed under the global context |
| C34 | `spatial_overlap_pairs_exact` | Closed under the global context |
| C34 | `spatial_tree_shape` | Closed under the global context |
| C34 | `spatial_tree_deepest` | Closed under the global context |
| C34 | `spatial_add_ends` | Closed under the global context |
| C34 | `spatial_add_with_limits_returns_refuted` | Closed under the global context |
| C34 | `spatial_limits_keep_deepest_refuted` | Closed under the global context |
| C34 | `spatial_add_point_outside_refuted` | Closed under the global context |
| C34 | `spatial_tree_of_points_refuted` | Closed under the global context |
| C34 | `spatial_add_far_refuted` | Closed under the global context |
| C35 | `histogram_nearest_point` | Closed under the global context |
| C35 | `histogram_counts` | Closed under the global context |
| C35 | `histogram_counts_inside` | Closed under the global context |
| C35 | `histogram_adds_in_range` | Closed under the global context |
| C35 | `percentile_first_bin` | Closed under the global context |
| C35 | `percentile_empty_throws` | Closed under the global context |
| C35 | `median_order_statistic` | Closed under the global context |
| C35 | `median_permutation` | Closed under the global context |
| C35 | `median_empty` | Closed under the global context |
| C35 | `outlier_brackets` | Closed under the global context |
| C35 | `outlier_brackets_few` | Closed under the global context |
| C35 | `histogram_bin_center_refuted` | Closed under the global context |
| C35 | `histogram_ignores_outside_refuted` | Closed under the global context |
| C35 | `histogram_no_check_refuted` | Closed under the global context |
| C35 | `histogram_flat_range_refuted` | Closed under the global context |
| C35 | `percentile_one_double_refuted` | Closed under the global context |
| C35 | `outlier_brackets_order_refuted` | Closed under the global context |
| C36 | `rule_pattern_matches` | Closed under the global context |
| C36 | `rule_accepted_iff` | Closed under the global context |
| C36 | `rule_rejected_unchanged` | Closed under the global context |
| C36 | `latest_rule_decides` | Closed under the global context |
| C36 | `no_rule_defaults` | Closed under the global context |
| C36 | `clear_forgets` | Closed under the global context |
| C36 | `log_fan_out` | Closed under the global context |
| C36 | `log_enabled_iff` | Closed under the global context |
| C36 | `default_case_refuted` | Closed under the global context |
| C37 | `log_text_in_order` | Closed under the global context |
| C37 | `log_chunks` | Closed under the global context |
| C37 | `log_line_flushed` | Closed under the global context |
| C37 | `log_write_sent` | Closed under the global context |
| C37 | `log_other_threads_untouched` | Closed under the global context |
| C37 | `destroy_flushes_all_refuted` | Closed under the global context |
| C37 | `destroy_log_stream_refuted` | Closed under the global context |
| C38 | `replace_every_occurrence` | Closed under the global context |
| C38 | `replace_by_character` | Closed under the global context |
| C38 | `replaced_unique` | Closed under the global context |
| C38 | `erase_every_other` | Closed under the global context |
| C38 | `erase_apart` | Closed under the global context |
| C38 | `replace_terminates_iff` | Closed under the global context |
| C38 | `separators_become_spaces` | Closed under the global context |
| C38 | `replace_terminates_refuted` | Closed under the global context |
| C38 | `erase_all_refuted` | Closed under the global context |
| C38 | `replace_leaves_none_refuted` | Closed under the global context |
| C39 | `watch_total` | Closed under the global context |
| C39 | `watch_running_constant` | Closed under the global context |
| C39 | `watch_running` | Closed under the global context |
| C39 | `watch_stops` | Closed under the global context |
| C39 | `watch_interval` | Closed under the global context |
| C39 | `watch_set_by_name` | Closed under the global context |
| C39 | `stray_stop_refuted` | Closed under the global context |
| C40 | `mod_range` | Closed under the global context |
| C40 | `round_nearest` | Closed under the global context |
| C40 | `floor_exact` | Closed under the global context |
| C40 | `nextpow2_least` | Closed under the global context |
| C40 | `hamming_counts` | Closed under the global context |
| C40 | `hamming_metric` | Closed under the global context |
| C40 | `round_clamp_saturates` | Closed under the global context |
| C40 | `mod_total_refuted` | Closed under the global context |
| C40 | `round_double_refuted` | Closed under the global context |
| C40 | `round_float_refuted` | Closed under the global context |
| C40 | `round_clamp_64_refuted` | Closed under the global context |
| C41 | `clamp_int_saturates` | Closed under the global context |
| C41 | `clamp_negative_wraps` | Closed under the global context |
| C41 | `clamp_unsigned_to_min` | Closed under the global context |
| C41 | `clamp_double_saturates` | Closed under the global context |
| C41 | `round_clamp_double_saturates` | Closed under the global context |
| C41 | `rescale_exact` | Closed under the global context |
| C41 | `rescale_order` | Closed under the global context |
| C41 | `rescale_round_trip` | Closed under the global context |
| C41 | `rescale_float_round_trip` | Closed under the global context |
| C41 | `clamp_mixed_refuted` | Closed under the global context |
| C41 | `round_clamp_u32_refuted` | Closed under the global context |
| C41 | `rescale_lossy_refuted` | Closed under the global context |
| C41 | `rescale_64_refuted` | Closed under the global context |
| C41 | `rescale_from_real_saturates` | Closed under the global context |
| C42 | `box_sum_exact` | Closed under the global context |
| C42 | `box_sum_even_kernel` | Closed under the global context |
| C42 | `box_sum_small_image_refuted` | Closed under the global context |
| C43 | `disparity_is_best_match` | Closed under the global context |
| C43 | `disparity_finds_shift` | Closed under the global context |
| C43 | `single_candidate_valid_refuted` | Closed under the global context |
| C44 | `subdivision_covers` | Closed under the global context |
| C44 | `subdivision_failure_adds_nothing` | Closed under the global context |
| C45 | `skyline_reads_back` | Closed under the global context |
| C45 | `skyline_look_refuted` | Closed under the global context |
| C45 | `ldl_factors` | Closed under the global context |
| C45 | `ldl_positive_pivots` | Closed under the global context |
| C45 | `sparse_solve_exact` | Closed under the global context |
| C45 | `multi_sparse_solve_exact` | Closed under the global context |
| C45 | `reordered_solve_exact` | Closed under the global context |
| C45 | `found_skyline` | Closed under the global context |
| C45 | `ldl_semi_definite_refuted` | Closed under the global context |
| C45 | `sparse_solve_regular_refuted` | Closed under the global context |
| C46 | `convolution_value` | Closed under the global context |
| C46 | `convolution_rasterize` | Closed under the global context |
| C46 | `convolution_total` | Closed under the global context |
| C46 | `separable_value` | Closed under the global context |
| C46 | `separable_rasterize` | Closed under the global context |
| C46 | `separable_agrees` | Closed under the global context |
| C46 | `separable_integer_refuted` | Closed under the global context |
| C47 | `inverse_regular` | Closed under the global context |
| C47 | `inverse_singular` | Closed under the global context |
| C47 | `inverse22_agrees` | Closed under the global context |
| C47 | `inverse_tall_refuted` | Closed under the global context |
| C47 | `inverse_wide_refuted` | Closed under the global context |
| C48 | `det_defined` | Closed under the global context |
| C48 | `det_identity` | Closed under the global context |
| C48 | `det_row_linear` | Closed under the global context |
| C48 | `det_row_swap` | Closed under the global context |
| C48 | `det_product` | Closed under the global context |
| C48 | `det_zero_iff_singular` | Closed under the global context |
| C48 | `det22_agrees` | Closed under the global context |
| C48 | `det_empty_refuted` | Closed under the global context |
| C49 | `laplacian_value` | Closed under the global context |
| C49 | `laplacian_unsigned_refuted` | Closed under the global context |
| C49 | `sobel_value` | Closed under the global context |
| C49 | `sobel_sign_refuted` | Closed under the global context |
| C49 | `gaussian_taps` | Closed under the global context |
| C49 | `gaussian_normalized` | Closed under the global context |
| C49 | `gaussian_default_size` | Closed under the global context |
| C49 | `derivative_exact` | Closed under the global context |
| C49 | `derivative_rejects` | Closed under the global context |
| C49 | `derivative_negative_refuted` | Closed under the global context |
| C50 | `qtree_levels` | Closed under the global context |
| C50 | `qtree_tiles` | Closed under the global context |
| C50 | `qtree_order` | Closed under the global context |
| C50 | `qtree_leaves` | Closed under the global context |
| C50 | `qtree_pyramid_exists` | Closed under the global context |
| C50 | `qtree_levels_are_means` | Closed under the global context |
| C50 | `qtree_any_tile_size_refuted` | Closed under the global context |
| C50 | `qtree_crop_keeps_data_refuted` | Closed under the global context |
| C51 | `qtree_paths_distinct` | Closed under the global context |
| C51 | `qtree_named_paths` | Closed under the global context |
| C51 | `qtree_named_paths_distinct_refuted` | Closed under the global context |
| C52 | `exif_put_get` | Closed under the global context |
| C52 | `exif_tiff_read` | Closed under the global context |
| C52 | `exif_tiff_roundtrip` | Closed under the global context |
| C52 | `exif_tag_values` | Closed under the global context |
| C52 | `exif_offset_refuted` | Closed under the global context |
| C52 | `exif_next_refuted` | Closed under the global context |
| C52 | `exif_first_refuted` | Closed under the global context |
| C52 | `exif_unsigned_refuted` | Closed under the global context |
| C52 | `exif_float_refuted` | Closed under the global context |
| C53 | `exif_jpeg_read` | Closed under the global context |
| C53 | `exif_jpeg_roundtrip` | Closed under the global context |
| C53 | `exif_jpeg_none` | Closed under the global context |
| C53 | `exif_second_section_refuted` | Closed under the global context |
| C53 | `exif_eoi_refuted` | Closed under the global context |
| C53 | `exif_short_section_refuted` | Closed under the global context |
| C54 | `chipper_cuts` | Closed under the global context |
| C54 | `chipper_keeps_points` | Closed under the global context |
| C54 | `chipper_rejects` | Closed under the global context |
| C54 | `chipper_zero_block_refuted` | Closed under the global context |
| C55 | `format_channels` | Closed under the global context |
| C55 | `convert_pixelwise` | Closed under the global context |
| C55 | `channel_conversion` | Closed under the global context |
| C55 | `channel_mean` | Closed under the global context |
| C55 | `channel_alpha` | Closed under the global context |
| C55 | `channel_opaque` | Closed under the global context |
| C55 | `pixel_alpha` | Closed under the global context |
| C55 | `convert_exact` | Closed under the global context |
| C55 | `convert_planes_channels` | Closed under the global context |
| C55 | `can_convert_exact` | Closed under the global context |
| C55 | `can_convert_agrees` | Closed under the global context |
| C55 | `convert_back` | Closed under the global context |
| C55 | `premultiply_back` | Closed under the global context |
| C55 | `buffer_write_box` | Closed under the global context |
| C55 | `buffer_read_box` | Closed under the global context |
| C55 | `buffer_contiguous` | Closed under the global context |
| C55 | `rgb_blue_is_alpha_refuted` | Closed under the global context |
| C55 | `rgba_alpha_ignored_refuted` | Closed under the global context |
| C55 | `planes_drop_rescale_refuted` | Closed under the global context |
| C55 | `more_planes_overrun_refuted` | Closed under the global context |
| C55 | `can_convert_unknown_refuted` | Closed under the global context |
| C55 | `mean_u64_refuted` | Closed under the global context |
| C56 | `pbm_open_header` | Closed under the global context |
| C56 | `pbm_open_outcomes` | Closed under the global context |
| C56 | `pbm_scaling` | Closed under the global context |
| C56 | `pbm_read` | Closed under the global context |
| C56 | `pbm_roundtrip` | Closed under the global context |
| C56 | `pbm_roundtrip_exact` | Closed under the global context |
| C56 | `pbm_rejects` | Closed under the global context |
| C56 | `pbm_second_write_refuted` | Closed under the global context |
| C56 | `pbm_bitmap_refuted` | Closed under the global context |
| C56 | `pbm_short_file_refuted` | Closed under the global context |
| C56 | `pbm_sample_wraps_refuted` | Closed under the global context |
| C56 | `pbm_long_comment_refuted` | Closed under the global context |
| C56 | `pbm_negative_width_refuted` | Closed under the global context |
| C57 | `disparity_numbers` | Closed under the global context |
| C57 | `disparity_of_entry` | Closed under the global context |
| C57 | `adjacent_table` | Closed under the global context |
| C57 | `default_penalties` | Closed under the global context |
| C57 | `path_step` | Closed under the global context |
| C57 | `cost_buffer_layout` | Closed under the global context |
| C57 | `lines_partition` | Closed under the global context |
| C57 | `threads_never_stuck` | Closed under the global context |
| C57 | `accumulation_completes` | Closed under the global context |
| C57 | `accumulated_costs` | Closed under the global context |
| C57 | `path_costs_optimal` | Closed under the global context |
| C57 | `growing_boxes_optimal` | Closed under the global context |
| C57 | `accumulated_energy` | Closed under the global context |
| C57 | `jump_penalty_always_paid_refuted` | Closed under the global context |
| C57 | `large_penalties_refuted` | Closed under the global context |
| C58 | `matchable_region` | Closed under the global context |
| C58 | `wrong_masks_rejected` | Closed under the global context |
| C58 | `search_boxes` | Closed under the global context |
| C58 | `search_boxes_sound` | Closed under the global context |
| C58 | `searched_without_right_mask` | Closed under the global context |
| C58 | `searched_with_right_mask` | Closed under the global context |
| C58 | `searched_near_priors` | Closed under the global context |
| C58 | `positive_range_refuted` | Closed under the global context |
| C58 | `prior_outside_range_refuted` | Closed under the global context |
| C58 | `row_search_uses_neighbours_refuted` | Closed under the global context |
| C58 | `valid_targets_searched_refuted` | Closed under the global context |
| C58 | `single_row_limits_refuted` | Closed under the global context |
| C58 | `shrunk_boxes_respect_mask_refuted` | Closed under the global context |
| C59 | `local_costs` | Closed under the global context |
| C59 | `other_windows_refused` | Closed under the global context |
| C59 | `five_by_five_neighbours` | Closed under the global context |
| C59 | `best_disparity` | Closed under the global context |
| C59 | `unique_minimum_kept` | Closed under the global context |
| C59 | `smoothing_in_range` | Closed under the global context |
| C59 | `equal_costs_first` | Closed under the global context |
| C59 | `disparity_view` | Closed under the global context |
| C59 | `matching_completes` | Closed under the global context |
| C59 | `matching_result` | Closed under the global context |
| C59 | `cheapest_disparity_found` | Closed under the global context |
| C59 | `ternary_5x5_uses_all_neighbours_refuted` | Closed under the global context |
| C59 | `chosen_is_cheapest_refuted` | Closed under the global context |
| C60 | `store_stays_sound` | Closed under the global context |
| C60 | `store_names_unique` | Closed under the global context |
| C60 | `is_member_exact` | Closed under the global context |
| C60 | `add_adds_frame` | Closed under the global context |
| C60 | `add_adds_tree` | Closed under the global context |
| C60 | `set_parent_moves_frame` | Closed under the global context |
| C60 | `del_deletes_tree` | Closed under the global context |
| C60 | `del_deletes_one` | Closed under the global context |
| C60 | `destructor_deletes_all` | Closed under the global context |
| C60 | `clone_tree_detached` | Closed under the global context |
| C60 | `queries_exact` | Closed under the global context |
| C60 | `null_handles_refused` | Closed under the global context |
| C60 | `children_of_null_refuted` | Closed under the global context |
| C60 | `names_stay_unique_refuted` | Closed under the global context |
| C60 | `add_failure_leaks_refuted` | Closed under the global context |
| C60 | `set_parent_takes_strangers_refuted` | Closed under the global context |
| C60 | `set_parent_loses_frames_refuted` | Closed under the global context |
| C61 | `full_name_from_root` | Closed under the global context |
| C61 | `frame_names_complete` | Closed under the global context |
| C61 | `split_path_elements` | Closed under the global context |
| C61 | `every_path_splits` | Closed under the global context |
| C61 | `lookup_full_name` | Closed under the global context |
| C61 | `lookup_follows_path` | Closed under the global context |
| C61 | `lookup_finds_member` | Closed under the global context |
| C61 | `lookup_finds_name` | Closed under the global context |
| C61 | `lookup_stays_below_scope_refuted` | Closed under the global context |
| C62 | `merge_frame_trees_unites` | Closed under the global context |
| C62 | `merge_tree_unites` | Closed under the global context |
| C62 | `merge_tree_refuses_members` | Closed under the global context |
| C62 | `merge_tree_at_start_refuted` | Closed under the global context |
| C63 | `product_applies_both` | Closed under the global context |
| C63 | `inverse_transform_undoes` | Closed under the global context |
| C63 | `transform_determined` | Closed under the global context |
| C63 | `transform_of_matrix` | Closed under the global context |
| C63 | `get_transform_converts` | Closed under the global context |
| C63 | `carried_somewhere` | Closed under the global context |
| C63 | `get_transform_of_converts` | Closed under the global context |
| C63 | `get_position_of_converts` | Closed under the global context |
| C63 | `get_transform_null` | Closed under the global context |
| C63 | `transforms_compose` | Closed under the global context |
| C63 | `transforms_there_and_back` | Closed under the global context |
| C63 | `set_transform_places` | Closed under the global context |
| C63 | `set_transform_get` | Closed under the global context |
| C63 | `set_transform_null` | Closed under the global context |
| C63 | `frame_transforms_set_get` | Closed under the global context |
| C63 | `frame_transforms_get_set` | Closed under the global context |
| C63 | `frame_transforms_lengths` | Closed under the global context |
| C63 | `matrix_conversion_refuted` | Closed under the global context |
| C63 | `get_transform_across_trees_refuted` | Closed under the global context |
| C63 | `set_transform_rel_replaces_refuted` | Closed under the global context |
| C63 | `set_transform_of_root_refuted` | Closed under the global context |
| C64 | `unique_integers_distinct` | Closed under the global context |
| C64 | `unique_integers_found` | Closed under the global context |
| C64 | `unique_integers_end_refuted` | Closed under the global context |
| C64 | `inliers_exact` | Closed under the global context |
| C64 | `inlier_indices_exact` | Closed under the global context |
| C64 | `inliers_safe_refuted` | Closed under the global context |
| C64 | `attempt_best` | Closed under the global context |
| C64 | `attempt_order_irrelevant` | Closed under the global context |
| C64 | `attempt_deterministic_refuted` | Closed under the global context |
| C64 | `result_has_inliers_refuted` | Closed under the global context |
| C64 | `ransac_attempts` | Closed under the global context |
| C64 | `ransac_keeps_minimum_refuted` | Closed under the global context |
| C65 | `find_first` | Closed under the global context |
| C65 | `find_measure_first` | Closed under the global context |
| C65 | `delete_measure_exact` | Closed under the global context |
| C65 | `delete_control_point_exact` | Closed under the global context |
| C65 | `points_counted` | Closed under the global context |
| C65 | `add_points_one_by_one` | Closed under the global context |
| C65 | `changed_points_counted_refuted` | Closed under the global context |
| C65 | `image_names_found` | Closed under the global context |
| C65 | `gcp_file_lines` | Closed under the global context |
| C65 | `gcp_file_bad_image` | Closed under the global context |
| C65 | `gcp_file_round_trip` | Closed under the global context |
| C65 | `gcp_file_other_images` | Closed under the global context |
| C65 | `gcp_file_line_per_point_refuted` | Closed under the global context |
| C65 | `gcp_file_readable_refuted` | Closed under the global context |
| C65 | `gcp_file_right_image_refuted` | Closed under the global context |
| C66 | `relation_features` | Closed under the global context |
| C66 | `relation_nodes` | Closed under the global context |
| C66 | `feature_map_exact` | Closed under the global context |
| C66 | `node_map_exact` | Closed under the global context |
| C66 | `relation_total_refuted` | Closed under the global context |
| C66 | `relation_empty_point` | Closed under the global context |
| C66 | `listing_exact` | Closed under the global context |
| C66 | `relation_listing` | Closed under the global context |
| C67 | `random_indices_exact` | Closed under the global context |
| C67 | `pair_subset_exact` | Closed under the global context |
| C67 | `tracks_sound` | Closed under the global context |
| C67 | `tracks_complete` | Closed under the global context |
| C67 | `tracks_every_feature_refuted` | Closed under the global context |
| C67 | `tracks_joined_refuted` | Closed under the global context |
| C67 | `network_of_matches` | Closed under the global context |
| C67 | `same_image_refused` | Closed under the global context |
| C68 | `cut_poly_exact` | Closed under the global context |
| C69 | `edge_meets_box_exact` | Closed under the global context |
| C69 | `edge_meets_horizontal_exact` | Closed under the global context |
| C69 | `cut_edge_exact` | Closed under the global context |
| C69 | `edge_meets_box_any_sides_refuted` | Closed under the global context |
| C70 | `linear_positions_exact` | Closed under the global context |
| C70 | `lagrange_var_follows_window` | Closed under the global context |
| C70 | `lagrange_var_exact` | Closed under the global context |
| C70 | `lagrange_const_follows_window` | Closed under the global context |
| C70 | `lagrange_checks_spec` | Closed under the global context |
| C70 | `lagrange_const_serves_last_sample_refuted` | Closed under the global context |
| C70 | `piecewise_acceleration_exact` | Closed under the global context |
| C70 | `piecewise_acceleration_continuous_refuted` | Closed under the global context |
| C70 | `hermite_matches_both_ends` | Closed under the global context |
| C70 | `hermite_serves_last_sample_refuted` | Closed under the global context |
| C70 | `velocities_counted_refuted` | Closed under the global context |
| C70 | `weights_normalised` | Closed under the global context |
| C70 | `smooth_position_within_samples` | Closed under the global context |
| C70 | `smooth_position_any_number_refuted` | Closed under the global context |
| C71 | `line_times_on_segments` | Closed under the global context |
| C71 | `line_times_at_entries` | Closed under the global context |
| C71 | `line_times_any_table_refuted` | Closed under the global context |
| C71 | `direction_table_surrounds` | Closed under the global context |
| C71 | `direction_table_at_entries` | Closed under the global context |
| C71 | `direction_table_right_of_table_refuted` | Closed under the global context |
| C71 | `direction_table_linear_left_refuted` | Closed under the global context |
| C72 | `masked_disparities` | Closed under the global context |
| C72 | `masked_regions` | Closed under the global context |
| C72 | `masked_regions_any_range_refuted` | Closed under the global context |
| C72 | `disparity_range_exact` | Closed under the global context |
| C72 | `range_mask_keeps` | Closed under the global context |
| C72 | `range_mask_rows_refuted` | Closed under the global context |
| C72 | `transformed_disparities` | Closed under the global context |
| C72 | `transforms_compose` | Closed under the global context |
| C73 | `outliers_by_share` | Closed under the global context |
| C73 | `kernels_refused` | Closed under the global context |
| C73 | `cleanup_keeps` | Closed under the global context |
| C73 | `isolated_border_pixel_removed_refuted` | Closed under the global context |
| C73 | `outliers_by_mean` | Closed under the global context |
| C73 | `outliers_by_mean_of_window` | Closed under the global context |
| C73 | `outliers_by_mean_of_kept_refuted` | Closed under the global context |
| C73 | `outliers_by_deviation` | Closed under the global context |
| C73 | `outliers_by_deviation_wide_refuted` | Closed under the global context |
| C73 | `deviation_image` | Closed under the global context |
| C73 | `deviation_image_is_deviation_refuted` | Closed under the global context |
| C73 | `deviation_image_even_refuted` | Closed under the global context |
| C73 | `deviation_image_one_refuted` | Closed under the global context |
| C73 | `halved_disparities` | Closed under the global context |
| C73 | `halved_size` | Closed under the global context |
| C73 | `halved_within` | Closed under the global context |
| C73 | `doubled_disparities` | Closed under the global context |
| C73 | `doubled_then_halved` | Closed under the global context |
| C73 | `doubled_regions_refuted` | Closed under the global context |
| C74 | `interpolation_at_pixels` | Closed under the global context |
| C74 | `nearest_pixel` | Closed under the global context |
| C74 | `bilinear_reproduces` | Closed under the global context |
| C74 | `bicubic_reproduces` | Closed under the global context |
| C74 | `bilinear_between` | Closed under the global context |
| C74 | `bilinear_fits` | Closed under the global context |
| C74 | `bicubic_clamps` | Closed under the global context |
| C74 | `interpolation_valid` | Closed under the global context |
| C74 | `interpolation_regions` | Closed under the global context |
| C74 | `bicubic_between_refuted` | Closed under the global context |
| C74 | `weightless_neighbour_refuted` | Closed under the global context |
| C75 | `transforms_invert` | Closed under the global context |
| C75 | `rotation_is_rigid` | Closed under the global context |
| C75 | `homography_inverts` | Closed under the global context |
| C75 | `composed_transforms` | Closed under the global context |
| C75 | `affine_matrix_round_trip` | Closed under the global context |
| C75 | `transformed_boxes` | Closed under the global context |
| C75 | `transformed_empty_box` | Closed under the global context |
| C75 | `corners_suffice` | Closed under the global context |
| C75 | `transformed_image_box` | Closed under the global context |
| C75 | `homography_box_refuted` | Closed under the global context |
| C75 | `continuous_box_refuted` | Closed under the global context |
| C76 | `approximation_table` | Closed under the global context |
| C76 | `approximation_in_table` | Closed under the global context |
| C76 | `approximation_exact` | Closed under the global context |
| C76 | `approximation_tolerance_refuted` | Closed under the global context |
| C76 | `transformed_image_regions` | Closed under the global context |
| C76 | `approximated_image_regions` | Closed under the global context |
| C76 | `moved_and_enlarged_images` | Closed under the global context |
| C76 | `resized_from_within` | Closed under the global context |
| C76 | `resampled_image_size` | Closed under the global context |
| C76 | `nodata_outside` | Closed under the global context |
| C76 | `nodata_identity_refuted` | Closed under the global context |
| C77 | `edits_refine_list` | Closed under the global context |
| C77 | `append_polygons_adds` | Closed under the global context |
| C77 | `shift_edge_moves_ends` | Closed under the global context |
| C77 | `shift_marked_moves_marked` | Closed under the global context |
| C77 | `reverse_marked_turns_marked` | Closed under the global context |
| C77 | `append_and_shift_marks_copies` | Closed under the global context |
| C77 | `transform_moves_annotations` | Closed under the global context |
| C77 | `transform_marked_annotations` | Closed under the global context |
| C77 | `vertex_edits_drop_vertex_labels` | Closed under the global context |
| C77 | `around_center_keeps_center` | Closed under the global context |
| C77 | `compose_applies_second_first` | Closed under the global context |
| C77 | `shift_rotate_scale` | Closed under the global context |
| C77 | `set_rectangle_shows` | Closed under the global context |
| C77 | `point_cloud_shows` | Closed under the global context |
| C77 | `erase_marked_drops_polygon_labels_refuted` | Closed under the global context |
| C78 | `signed_area_exact` | Closed under the global context |
| C78 | `area_turned` | Closed under the global context |
| C78 | `area_transformed` | Closed under the global context |
| C78 | `point_in_polygon_exact` | Closed under the global context |
| C78 | `nearest_point_of_segment` | Closed under the global context |
| C78 | `bounding_box_exact` | Closed under the global context |
| C78 | `bounding_boxes_exact` | Closed under the global context |
| C78 | `closest_vertex_exact` | Closed under the global context |
| C78 | `closest_edge_exact` | Closed under the global context |
| C78 | `closest_annotation_exact` | Closed under the global context |
| C78 | `closest_edge_of_open_line_refuted` | Closed under the global context |
| C78 | `sort_orders_polygons` | Closed under the global context |
| C78 | `sort_add_outermost_turns_left` | Closed under the global context |
| C78 | `sort_add_other_orientation_refuted` | Closed under the global context |
| C78 | `cut_line_inside` | Closed under the global context |
| C78 | `cut_line_keeps_border_refuted` | Closed under the global context |
| C78 | `grid_covers_window` | Closed under the global context |
| C79 | `file_round_trip` | Closed under the global context |
| C79 | `file_keeps_closed_refuted` | Closed under the global context |
| C79 | `file_keeps_labels_refuted` | Closed under the global context |
| C79 | `file_with_empty_lines_refuted` | Closed under the global context |
| C79 | `file_after_emptied_polygon_refuted` | Closed under the global context |
| C80 | `transform_accepted` | Closed under the global context |
| C80 | `pixel_point_round_trip` | Closed under the global context |
| C80 | `pixel_point_round_trip_affine` | Closed under the global context |
| C80 | `pixel_to_point_meaning` | Closed under the global context |
| C80 | `area_shift_rotated_refuted` | Closed under the global context |
| C80 | `lonlat_to_point_nearest` | Closed under the global context |
| C80 | `pixel_to_point_bbox_holds` | Closed under the global context |
| C80 | `point_to_pixel_bbox_holds` | Closed under the global context |
| C80 | `unprojected_round_trip` | Closed under the global context |
| C80 | `projected_round_trip` | Closed under the global context |
| C80 | `global_round_trip_refuted` | Closed under the global context |
| C80 | `guessed_box` | Closed under the global context |
| C80 | `pixel_to_lonlat_bbox_perimeter` | Closed under the global context |
| C80 | `sample_int_box_fraction_refuted` | Closed under the global context |
| C80 | `lonlat_point_bbox_sides` | Closed under the global context |
| C80 | `point_to_lonlat_bbox_corner_refuted` | Closed under the global context |
| C80 | `lonlat_to_pixel_bbox_holds` | Closed under the global context |
| C80 | `geodetic_conversions` | Closed under the global context |
| C80 | `crop_law` | Closed under the global context |
| C80 | `crop_rotated_refuted` | Closed under the global context |
| C80 | `resample_law` | Closed under the global context |
| C80 | `resample_rotated_refuted` | Closed under the global context |
| C81 | `different_datums` | Closed under the global context |
| C81 | `wrap_lon_range` | Closed under the global context |
| C81 | `shortcut_inverse` | Closed under the global context |
| C81 | `unprojected_inverse` | Closed under the global context |
| C81 | `same_georef_identity` | Closed under the global context |
| C81 | `shortcut_one_corner_refuted` | Closed under the global context |
| C81 | `transformed_bbox_perimeter` | Closed under the global context |
| C81 | `forward_bbox_holds` | Closed under the global context |
| C81 | `point_bbox_samples` | Closed under the global context |
| C81 | `pixel_to_point_bbox_perimeter` | Closed under the global context |
| C81 | `conversions_agree` | Closed under the global context |
| C81 | `reproject_points_each` | Closed under the global context |
| C81 | `reproject_ignores_transform_refuted` | Closed under the global context |
| C82 | `pair_nearest` | Closed under the global context |
| C82 | `pair_meets` | Closed under the global context |
| C82 | `pair_lines` | Closed under the global context |
| C82 | `pair_swap` | Closed under the global context |
| C82 | `pair_not_a_number` | Closed under the global context |
| C82 | `many_least` | Closed under the global context |
| C82 | `many_meets` | Closed under the global context |
| C82 | `many_two` | Closed under the global context |
| C82 | `many_parallel` | Closed under the global context |
| C82 | `nearly_parallel_iff` | Closed under the global context |
| C82 | `usable_iff` | Closed under the global context |
| C82 | `triangulate_sizes` | Closed under the global context |
| C82 | `triangulate_no_point` | Closed under the global context |
| C82 | `triangulate_no_ray` | Closed under the global context |
| C82 | `triangulate_meets` | Closed under the global context |
| C82 | `triangulate_reflects` | Closed under the global context |
| C82 | `triangulate_gives` | Closed under the global context |
| C82 | `triangulate_in_front_refuted` | Closed under the global context |
| C82 | `opposite_rays_refuted` | Closed under the global context |
| C82 | `disparity_point_shows` | Closed under the global context |
| C82 | `disparity_cloud_shows` | Closed under the global context |
| C83 | `build_iff` | Closed under the global context |
| C83 | `build_frame` | Closed under the global context |
| C83 | `build_params` | Closed under the global context |
| C83 | `no_distortion_image` | Closed under the global context |
| C83 | `distortion_image` | Closed under the global context |
| C83 | `projection_valid_iff` | Closed under the global context |
| C83 | `ray_points` | Closed under the global context |
| C83 | `pixel_round_trip` | Closed under the global context |
| C83 | `point_round_trip` | Closed under the global context |
| C83 | `same_pixel_same_line` | Closed under the global context |
| C83 | `check_passes` | Closed under the global context |
| C83 | `check_sound` | Closed under the global context |
| C83 | `check_plane` | Closed under the global context |
| C83 | `behind_refused_refuted` | Closed under the global context |
| C83 | `changes_as_made` | Closed under the global context |
| C83 | `step_params` | Closed under the global context |
| C83 | `no_rebuild_stale_refuted` | Closed under the global context |
| C83 | `scale_pixels` | Closed under the global context |
| C83 | `strip_pixels` | Closed under the global context |
| C83 | `transform_pixels` | Closed under the global context |
| C83 | `epipolar_rows` | Closed under the global context |
| C84 | `quat_product_matrix` | Closed under the global context |
| C84 | `quat_rotate_matrix` | Closed under the global context |
| C84 | `quat_matrix_rotation` | Closed under the global context |
| C84 | `quat_rotate_keeps` | Closed under the global context |
| C84 | `quat_rotate_product` | Closed under the global context |
| C84 | `quat_inverse` | Closed under the global context |
| C84 | `quat_rotate_inverse` | Closed under the global context |
| C84 | `quat_normalize` | Closed under the global context |
| C84 | `quat_matrix_round_trip` | Closed under the global context |
| C84 | `quat_round_trip` | Closed under the global context |
| C84 | `quat_same_rotation_iff` | Closed under the global context |
| C84 | `quat_mirror_lost` | Closed under the global context |
| C84 | `quat_any_length_refuted` | Closed under the global context |
| C84 | `axis_angle_same` | Closed under the global context |
| C84 | `axis_angle_turns` | Closed under the global context |
| C84 | `euler_refuses` | Closed under the global context |
| C84 | `euler_turns` | Closed under the global context |
| C84 | `euler_xyz_same` | Closed under the global context |
| C84 | `slerp_ends` | Closed under the global context |
| C84 | `slerp_sign` | Closed under the global context |
| C84 | `slerp_n_ok` | Closed under the global context |
| C84 | `slerp_n_sizes` | Closed under the global context |
| C84 | `slerp_n_constant` | Closed under the global context |
| C84 | `slerp_n_weights_refuted` | Closed under the global context |
| C85 | `cahv_pixel_shows` | Closed under the global context |
| C85 | `of_pinhole_image` | Closed under the global context |
| C85 | `cahv_ray` | Closed under the global context |
| C85 | `cahv_point_on_ray` | Closed under the global context |
| C85 | `of_params_shows` | Closed under the global context |
| C85 | `of_view_shows` | Closed under the global context |
| C85 | `of_view_center_refuted` | Closed under the global context |
| C85 | `to_pinhole_image` | Closed under the global context |
| C85 | `cahv_epipolar_rows` | Closed under the global context |
| C85 | `cahv_epipolar_axes` | Closed under the global context |
| C85 | `to_pinhole_keeps_refuted` | Closed under the global context |
| C85 | `to_pinhole_not_unit_refuted` | Closed under the global context |
| C85 | `cahv_epipolar_rows_refuted` | Closed under the global context |
| C86 | `longitude_zone_strip` | Closed under the global context |
| C86 | `longitude_zone_range` | Closed under the global context |
| C86 | `longitude_zone_sixty_refuted` | Closed under the global context |
| C86 | `utm_not_a_number` | Closed under the global context |
| C86 | `latitude_band_letter` | Closed under the global context |
| C86 | `latitude_band_poles` | Closed under the global context |
| C86 | `latitude_band_north` | Closed under the global context |
| C86 | `latitude_band_x_refuted` | Closed under the global context |
| C86 | `longitude_zone_iff` | Closed under the global context |
| C86 | `utm_zone_plain` | Closed under the global context |
| C86 | `utm_zone_norway` | Closed under the global context |
| C86 | `utm_zone_svalbard` | Closed under the global context |
| C86 | `utm_svalbard_north_refuted` | Closed under the global context |
| C86 | `utm_zone_turn_refuted` | Closed under the global context |
| C87 | `is_extremum_iff` | Closed under the global context |
| C87 | `is_scale_extremum_iff` | Closed under the global context |
| C87 | `find_peaks_found` | Closed under the global context |
| C87 | `peaks_apart` | Closed under the global context |
| C87 | `scale_peaks_refused` | Closed under the global context |
| C87 | `scale_peaks_found` | Closed under the global context |
| C87 | `scale_peak_cube_refuted` | Closed under the global context |
| C87 | `plateau_peak_refuted` | Closed under the global context |
| C88 | `form_basis_right` | Closed under the global context |
| C88 | `form_basis_zero` | Closed under the global context |
| C88 | `form_basis_axis` | Closed under the global context |
| C88 | `form_basis_always_refuted` | Closed under the global context |
| C88 | `across_greatest` | Closed under the global context |
| C88 | `tangents_in_plane` | Closed under the global context |
| C88 | `tangents_differ` | Closed under the global context |
| C88 | `tangents_of_unit` | Closed under the global context |
| C88 | `tangents_perpendicular_refuted` | Closed under the global context |
| C89 | `progress_reported` | Closed under the global context |
| C89 | `increment_shares` | Closed under the global context |
| C89 | `increment_shown` | Closed under the global context |
| C89 | `increments_add` | Closed under the global context |
| C89 | `reported_range` | Closed under the global context |
| C89 | `finished_part` | Closed under the global context |
| C89 | `fractional_shown` | Closed under the global context |
| C89 | `abort_seen` | Closed under the global context |
| C89 | `abort_not_seen` | Closed under the global context |
| C89 | `null_keeps_nothing` | Closed under the global context |
| C89 | `bar_printed` | Closed under the global context |
| C89 | `bar_quiet` | Closed under the global context |
| C89 | `bar_once` | Closed under the global context |
| C89 | `finished_plain` | Closed under the global context |
| C89 | `bar_fits` | Closed under the global context |
| C89 | `finished_shows_one_refuted` | Closed under the global context |
| C89 | `bar_never_longer_refuted` | Closed under the global context |
| C89 | `bar_length_old_refuted` | Closed under the global context |
