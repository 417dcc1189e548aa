{
 "C01": {
  "note": "All byte lists."
 },
 "C03": {
  "note": "Both layouts; the bound on ids is shown to be exact and the first overflow is exhibited."
 },
 "C04": {
  "note": "GetNextType started from NONE never returns; walking starts at a type or at LastElementType()."
 },
 "C05": {
  "note": "Shared and private families (one thread each)."
 },
 "C06": {
  "note": "Elements are fixed during the history; markers on the mesh itself are the allocation table."
 },
 "C46": {
  "note": "Real arithmetic; both targets (row and merger). pow(x,1) at 0 refuted."
 },
 "C52": {
  "note": "Exact on the fragment denotes2; six families refuted, eight operations throw."
 },
 "C56": {
  "note": "All six assignments, both targets; aliasing products refuted."
 },
 "C35": {
  "note": "Little-endian reader; big- and middle-endian readers with equal or wider integers refuted (unsigned loop counter never negative)."
 },
 "C36": {
  "note": "Equal widths proved; widening refuted."
 },
 "C57": {
  "note": "Specification is Flocq's IEEE bit layout; double with bit 31 of the low word set and subnormal double refuted."
 },
 "C38": {
  "note": "Any std::sort; little-endian memory. Position of invalid handles depends on length, ENUMUNDEF is lost, big-endian order wrong (refuted)."
 },
 "C39": {
  "note": "Long arrays sorted stably; negative ids last in long and first in short arrays (refuted)."
 },
 "C40": {
  "note": "Strict weak order exactly when closeness is transitive on the points used (always for epsilon 0); cycle for positive epsilon and search by value over trailing invalid handles refuted."
 },
 "C41": {
  "note": "Hypotheses: the table of the mesh itself holds one entry (made by the constructor); counters of free and hidden elements right for NumberOf."
 },
 "C42": {
  "note": "Holds inside one type; six defects refuted with witnesses (first element, type change, empty type, End, nodes, sets)."
 },
 "C21": {
  "note": "Operands are contents with holes; membership of hidden elements in the set operand is ignored by the code and in the statement."
 },
 "C22": {
  "note": "PutElement of a member and invalid handles excluded; s.Subtract(s) leaves a marker (characterised and refuted)."
 },
 "C23": {
  "note": "Positive for distinct inputs in every mode but centroid; six defects refuted."
 },
 "C24": {
  "note": "Positive without holes for any strict total order; four defects after removal or in the unsorted part refuted."
 },
 "C25": {
  "note": "The wished claim is refuted; exact effect proved for both kinds of sets."
 },
 "C27": {
  "note": "Unite on an empty array refuted; invalid handles shown to be undefined behaviour."
 },
 "C58": {
  "note": "std::sort and qsort are any function that sorts; four defects shown."
 },
 "C26": {
  "note": "Positive half for every history in which a set removed from in front of a sibling is not attached again before it is re-created; acyclicity under the caller's obligation not to put a set below itself, both with counterexamples when the obligation is dropped."
 },
 "C48": {
  "note": "Holds when CreateSetUnique is not called with a name in use; the defects (two sets of one name, copied and assigned meshes) are proved for every state or by witness."
 },
 "C50": {
  "note": "The property is false of the code; proved: every sparse record of the copy is empty."
 },
 "C51": {
  "note": "Equivalence of copy and original for all further calls but ReorderEmpty; for ReorderEmpty an exact split: harmless if the source needs no compaction, overlapping elements otherwise."
 },
 "C47": {
  "note": "Proved for entries all of whose components take part (complete): C47_serial, C47_parallel, C47_order, C47_repeatable, C47_registry, C47_inactive. Without completeness the places are still disjoint (C47_places) but the answers collide: C47_missing_data_refuted, C47_no_data_refuted (exact: C47_no_data), C47_status_refuted (StatusBlockEntry), C47_multi (MultiEntry::Index always throws), C47_copy/C47_copy_refuted (copying compacts registration indices). ExchangeData to ghosts is not modelled."
 },
 "C49": {
  "note": "All eight overloads share the code. CopyVector2Tag and the write loop are shown right when the vector is long enough."
 },
 "C43": {
  "note": "All histories of creation, Destroy, Delete, Hide, Show and modifications. Destroy removes exactly what is built on the element. During a modification Destroy fails an assertion."
 },
 "C44": {
  "note": "FindSharedAdjacency exact in both modes (undefined when all arguments are hidden). No duplicates for histories without Hide, Show and SwapModification; refuted with Show. A new element may have a superset of an existing one's lower elements, never a subset."
 },
 "C45": {
  "note": "Exact set hidden by Delete; 'everything built on it' holds when hidden elements are closed upwards and is refuted otherwise. NumberOf is refuted after SwapModification (exact value given)."
 },
 "C59": {
  "note": "Exact arithmetic over any ordered field (rationals, reals); the thresholds 1e-54 and 1e-12 are part of the model. Holds for every rank provided the pivots are zero or at least 1e-54; without it refuted (1e-28 x = 1e-28)."
 },
 "C60": {
  "note": "Exact arithmetic; the square root is any function with sq x * sq x = x, sq x >= 0 for x >= 0. Only the upper triangle of the matrix matters."
 },
 "C61": {
  "note": "Exact arithmetic; reference is the Laplace expansion, shown multilinear, alternating and normalised. Refuted for entries below 1e-13 (diag(1e-14, 1e14))."
 },
 "C62": {
  "note": "Entries from an ordered field (no rounding). Views: SubMatrix, BlockOfMatrix, MatrixTranspose, MatrixConcatRows/Cols, MatrixRepack, sums, differences, negation, scaling by value or entry, Kronecker product, matrices by formula; const access."
 },
 "C63": {
  "note": "Non-const access. Outside of its argument a block hands out one shared static entry (C63_block_outside_shared)."
 },
 "C64": {
  "note": "General theorem with a semantic no-overtaking condition, corollaries for separate matrices, entrywise expressions, products and overlapping parts; theorems named _refuted say exactly what A = A^T, A += A^T, A = A*A(r,c), A = A/A(r,c), moving rows down, shrinking in place and named sub-matrices compute instead."
 },
 "C65": {
  "note": "RemoveRow(s), RemoveColumns, RemoveSubset of Matrix; packed storage of SymmetricMatrix."
 },
 "C66": {
  "note": "Over the reals, no rounding. Opposite vectors divide by zero (C66_opposite_divides_by_zero)."
 },
 "C67": {
  "note": "Messages up to INT_MAX bytes are proved right for every arrival order; longer buffers are proved never to be unpacked (or cause an out-of-range write), for every arrival order. Tags overflow int from 1466 processors."
 },
 "C68": {
  "note": "The one-sided variant is proved equal under one buffer per destination; it loses a buffer otherwise (witness)."
 },
 "C69": {
  "note": "MPI_Pack is modelled as copying bytes; the element width must not exceed the message limit."
 },
 "C70": {
  "note": "Proved for an arbitrary operation and receiver state; the format is little endian, message length must fit size_t."
 },
 "C71": {
  "note": "Full description proved. 'A ghost holds what its owner holds' is refuted with its exact condition: absent or empty owner data is not propagated. Remote reference tags desynchronise the message (proved for all messages); sparse/dense disagreement misplaces data (witness)."
 },
 "C72": {
  "note": "For tags of a fixed size holding reals, integers or bytes; the other kinds ask the sender for the size (C68)."
 },
 "C73": {
  "note": "Messages are modelled as lists of per-element data; the byte level is C69-C72. One element type, no selection marker, no reference tags."
 },
 "C74": {
  "note": "The user operation is any function of the old and the received data of one element."
 },
 "C75": {
  "note": "SYNC_BIT_AND refuted with a witness; exact characterisation proved."
 },
 "C76": {
  "note": "Numbers are unbounded integers (32-bit overflow not modelled)."
 },
 "C77": {
  "note": "Parallel branch; numbers unbounded."
 },
 "C79": {
  "note": "Exact arithmetic in place of floating point for Integrate."
 },
 "C80": {
  "note": "The tree is modelled exactly for every permutation produced by the sort; Cell::Inside is a parameter. For coordinates above about 16000 the float copies of the boxes can be off by more than the margin and a cell is missed (C80_far_refuted)."
 },
 "C81": {
  "note": "Element test is a parameter (see C84). Faces of a mixed set are reported twice (C81_faces_mixed_refuted)."
 },
 "C82": {
  "note": "The box test has no margin, so rounding of boxes to float loses elements (C82_sphere_float_refuted); exact for representable coordinates."
 },
 "C83": {
  "note": "Over the reals. Degenerate triangles: exact unless the point lies on their line, where 0 is returned (refuted). Balls inside a cell do not count (refuted)."
 },
 "C84": {
  "note": "Over the reals. Exact characterisation with tolerances; tiny triangles, coplanar segments and segments inside a cell are missed (refuted)."
 },
 "C85": {
  "note": "Exact on bit patterns, with wrap-around of unsigned counters."
 },
 "C86": {
  "note": "Masked request during modification: exact when the first edge is visible (and the last one for a private mask), otherwise wrong nodes (C86_mask_hidden_refuted)."
 },
 "C87": {
  "note": "Face: full. Cell::FixEdgeOrder does not end on some inputs (C87_cell_refuted). During modification the model covers calls that need no swap; a hidden last edge makes an ordered loop be refused (C87_visible_refuted)."
 },
 "C88": {
  "note": "The closing edge is not checked and a hidden first edge breaks the check (C88_check_refuted); C88_exact says exactly what is checked."
 },
 "C89": {
  "note": "getEnd reads outside of the array if all nodes of the edge are hidden (C89_ends_refuted)."
 },
 "C90": {
  "note": "An element made from a repeated element returns it twice (C90_repeated_refuted); otherwise full."
 },
 "C92": {
  "note": "Masked nodes of a cell of dimension two test the mask on vertex edges, not on nodes (C92_cell2_mask_refuted); edges of such a cell are wrong if its first face is hidden (C92_cell2_edges_refuted)."
 },
 "C94": {
  "note": "Over real numbers, without rounding."
 },
 "C95": {
  "note": "Over real numbers; planar faces with nonzero area (a triangle without area included)."
 },
 "C96": {
  "note": "Over real numbers; exactness for planar faces, translation invariance for any faces. The orientation of the faces is a hypothesis (closed)."
 },
 "C97": {
  "note": "Over real numbers; planar faces. The orientation of the faces is a hypothesis (closed)."
 },
 "C98": {
  "note": "Over real numbers. In meshes of dimension two the test accepts every point (C98_dimension_two_refuted)."
 },
 "C99": {
  "note": "The search without precomputed orientation; over real numbers for the volume."
 },
 "C100": {
  "note": "Over real numbers; the test for convexity of the centroids of the faces, as the code has it."
 },
 "C101": {
  "note": "The branch for cells that are not convex; over real numbers, planar faces. SwapCells is not modelled."
 },
 "C102": {
  "note": "The orientation found by Cell::Inside is wrong for faces that do not touch the first one (C102_inside_refuted)."
 },
 "C103": {
  "note": "One process, over real numbers. For zero iterations the column weights are zero (C103_no_iterations_refuted)."
 },
 "C104": {
  "note": "One process, over real numbers; LFILL and DIAGONAL_PERTURBATION not defined."
 },
 "C105": {
  "note": "One process, over real numbers."
 },
 "C106": {
  "note": "One process, over real numbers, arbitrary preconditioner and random numbers. An exact initial vector with zero absolute tolerance is answered with false (C106_exact_start_refuted)."
 },
 "C107": {
  "note": "One process, over real numbers. The limit of iterations is exceeded by one (C107_limit_refuted); with zero tolerances the loop does not end after the solution was found (C107_zero_tolerance_refuted)."
 },
 "C108": {
  "note": "C108_value_refuted: precision(15) in scientific notation prints 16 digits, one less than a double needs. C108_offset_refuted: the header holds Size() as number of rows, so without explicit interval the last rows of a matrix that does not start at zero are lost. C108_not_finite_refuted: inf and nan are loaded as zero."
 },
 "C109": {
  "note": "Three refutations: the text after the last line end is ignored; an annotation of more than 16381 characters makes Load loop forever; an annotation with a line end may become an element."
 },
 "C110": {
  "note": "C110_gather_refuted: with MPI but without MPI files process 0 receives into the wrong string, past its end, unless all other processes have nothing to write."
 },
 "C111": {
  "note": "Vector::Save and Vector::Load."
 },
 "C112": {
  "note": "Exact real arithmetic. C112_transversal_found includes that no assertion fails and no undefined index is used."
 },
 "C113": {
  "note": "Three refutations of what one might expect. The third one: columns reached by a failed search stay marked and are ignored by later searches, the code only prints a message."
 },
 "C114": {
  "note": "Exact real arithmetic, one thread. C114_transposed_into_empty_refuted: an empty result of the transposed product gets the wrong interval; C114_transposed_into_empty says exactly when it succeeds and what it is then."
 },
 "C115": {
  "note": "Exact real arithmetic; pow(x,1.0/p) is the real root. C115_rescale_p0_refuted: p = 0 turns an equation in two unknowns into 0 = 0. C115_hessian_interval_refuted: the intervals have to agree."
 },
 "C116": {
  "note": "C116_direction_refuted and C116_overlap_refuted: the function copies from [to] into [from], and smears rows if the ranges meet and [from] precedes [to]."
 },
 "C117": {
  "note": "C117_hessian_product_exact covers all sizes; it is the product only if the row, the result and the hessian hold equally many entries, and the refutations show what happens otherwise."
 },
 "C118": {
  "note": "Over any number type. C118_value is for texts of expression trees by the usual rules except a subtraction directly after a closing parenthesis, which C118_minus_after_parenthesis_refuted shows to fail; further refutations: a minus after an operation, spaces before parentheses, signed exponents, malformed text that is accepted, a value returned with an error."
 },
 "C119": {
  "note": "The multiplier with SetSize; the conversion of a number to int is a parameter."
 },
 "C120": {
  "note": "Refuted for: a value directly before the end mark, a third bracket, parentheses inside of a number of repetitions, quoted text ending with a backslash."
 },
 "C121": {
  "note": "Generic in the kind of data. Refuted: values of larger records without braces, too many values, a star in quoted text, open braces."
 },
 "C122": {
  "note": "Generic theorems plus integers, bytes and references; for real numbers see C125, for variables and remote references C124. Overflow of int is not modelled. An empty sparse record is not kept (part of the statement)."
 },
 "C123": {
  "note": "C123_invalid_refuted: an invalid reference becomes a reference to the first node."
 },
 "C124": {
  "note": "The positive part says exactly which derivatives end up where; the refutations say that derivatives and types of remote references are lost for all inputs."
 },
 "C125": {
  "note": "The text of a real number is not modelled, only its value (six digits). C125_coordinates_refuted: points four meters apart become one."
 },
 "C126": {
  "note": "Refuted for: contents with the end mark of data blocks, names that start with an underscore, values that are not printable ASCII. A root without contents gives the right tree but a failed reader."
 },
 "C127": {
  "note": "Refuted: text after a comment, a space in an end tag, a value without double quotes before the end of the tag, document types."
 },
 "C128": {
  "note": "Termination for files that include no others. Refuted: exception for truncated data blocks, endless reading of a file that includes itself."
 },
 "C129": {
  "note": "Truncation is always noticed. Refuted: wrong end tags and some bad attributes leave no trace in the state of the reader."
 },
 "C132": {
  "note": "Claim that every process gets a cell is refuted for INNER_KMEANS; the condition for idleness is proved. INNER_SKMEANS is C134."
 },
 "C133": {
  "note": "Exact arithmetic."
 },
 "C135": {
  "note": "Exact arithmetic. Claim that the value is held beyond the last argument refuted."
 },
 "C138": {
  "note": "Self-assignment and tables with one entry are refutations."
 },
 "C139": {
  "note": "Ranges that are not whole multiples of the step, and 0 to 1 by 0.1 in doubles, are refutations."
 },
 "C141": {
  "note": "Capacity zero and the bound on the number of unique entries are refutations."
 },
 "C142": {
  "note": "Annealing: for suggestions that exist (the drawing loop ends)."
 },
 "C143": {
  "note": "Small buffers and restarts with results reported as bad are refutations."
 },
 "C144": {
  "note": "Progress after bad results and for two-valued parameters refuted."
 },
 "C145": {
  "note": "Without restarts; with restarts refuted."
 },
 "C146": {
  "note": "Random numbers, temperature and acceptance are arbitrary functions. Stuck at the ends with strict bounds and single values are refutations."
 },
 "C147": {
  "note": "Unknown types replacing the saved optimizer by null is a refutation."
 },
 "C175": {
  "note": "Extends C115: rescaling twice, every row with p = 0, value of second order equations."
 },
 "C176": {
  "note": "Extends C115: independence of the partition to processes and bounds."
 }
}