{"id": "C01", "title": "Base64 round trip", "statement": "For every byte string b, base64_decode(base64_encode(b)) returns exactly b (same length, same bytes).", "quantifier": "for all finite byte strings of any length", "why_tests_cant": "The domain is infinite; a test fixes finitely many inputs and cannot exclude a failing one elsewhere. The three tail cases (length mod 3) interact with the padding code and with decoder tail filling.", "anchors": ["Source/Misc/base64.cpp:base64_encode", "Source/Misc/base64.cpp:base64_decode"]}
{"id": "C02", "title": "Base64 output is well formed", "statement": "base64_encode(b) has length 4*ceil(|b|/3), uses only the 64-letter alphabet followed by at most two '=' characters, and two different inputs never have the same encoding.", "quantifier": "for all finite byte strings", "why_tests_cant": "The domain is infinite; a test fixes finitely many inputs and cannot exclude a failing one elsewhere.", "anchors": ["Source/Misc/base64.cpp:base64_encode"]}
{"id": "C03", "title": "Handles are a faithful encoding of (element type, local id)", "statement": "ComposeHandle followed by GetHandleElementType/GetHandleElementNum/GetHandleID returns the type and the id; two different (type,id) pairs give different handles; no composed handle of a representable id equals InvalidHandle(); and ids whose id+1 does not fit in the low bits are exactly where this fails.", "quantifier": "for all element types and all local ids representable in the handle's low bits, in both 32- and 64-bit handle layouts", "why_tests_cant": "2^29 ids per type cannot be enumerated by a test, and the failing boundary is at ids no test mesh reaches.", "anchors": ["Source/Headers/inmost_data.h:ComposeHandle", "Source/Headers/inmost_data.h:GetHandleID", "Source/Headers/inmost_data.h:GetHandleElementNum"]}
{"id": "C04", "title": "Element type masks enumerate exactly", "statement": "ElementNum and ElementTypeFromDim are mutually inverse on the six types; OneType accepts exactly single-bit masks; from any type, repeated GetNextType lists exactly the types of the mask above it in increasing order and then NONE; repeated GetPrevType lists those below in decreasing order (all of them when started from LastElementType()). GetNextType started from NONE does not return.", "quantifier": "for all 8-bit masks (GetNextType, OneType), all 6-bit masks (GetPrevType), all starting types", "why_tests_cant": "The 32-bit statement of OneType ranges over 2^32 masks; walking properties are about all masks and all starting types.", "anchors": ["Source/Headers/inmost_data.h:OneType", "Source/Headers/inmost_data.h:ElementNum", "Source/Mesh/iterator.cpp:GetNextType", "Source/Mesh/iterator.cpp:GetPrevType"]}
{"id": "C05", "title": "Markers handed out are pairwise distinct", "statement": "After any history of marker creations and releases, the markers currently held by callers are pairwise distinct; creation succeeds as long as fewer than 8*MarkerFields are held and reports exhaustion exactly when all are held; a released marker can be handed out again.", "quantifier": "for all sequences of CreateMarker / ReleaseMarker (releasing only held markers)", "why_tests_cant": "The claim ranges over every sequence of calls; a unit test runs a few chosen histories and the state space is unbounded.", "anchors": ["Source/Mesh/mesh.cpp:Mesh::CreateMarker", "Source/Mesh/mesh.cpp:Mesh::ReleaseMarker", "Source/Headers/inmost_data.h:MarkerFields"]}
{"id": "C06", "title": "Markers on elements are independent bits", "statement": "SetMarker / RemMarker of marker m on element e makes GetMarker(e,m) true / false and changes no other (element, held marker) pair; ReleaseMarker with a cleanup mask leaves no element of those types marked, so the next owner of the same marker starts clean on those types.", "quantifier": "for all elements, all pairs of distinct markers, all histories of set/remove/release", "why_tests_cant": "The claim ranges over every sequence of calls; a unit test runs a few chosen histories and the state space is unbounded.", "anchors": ["Source/Mesh/mesh.cpp:Mesh::SetMarker", "Source/Mesh/mesh.cpp:Mesh::RemMarker", "Source/Mesh/mesh.cpp:Mesh::GetMarker", "Source/Mesh/mesh.cpp:Mesh::ReleaseMarker"]}
{"id": "C07", "title": "array<T> behaves as a sequence", "statement": "For every history of push_back, pop_back, resize, insert (one, n copies, range), single erase, clear and copy on array<T>, the visible content equals that of an ideal sequence under the same calls, size() is its length, and every access stays inside the allocated power-of-two buffer (for sizes up to 2^31).", "quantifier": "for all histories and all element values, sizes up to 2^31", "why_tests_cant": "The claim ranges over every sequence of calls; a unit test runs a few chosen histories and the state space is unbounded. Reallocation happens only at power-of-two boundaries, so failures are history dependent.", "anchors": ["Source/Headers/container.hpp:array"]}
{"id": "C08", "title": "array<T>::erase(first,last) removes the range only for ranges of length one", "statement": "erase(first,last) yields the sequence without the range when the range has length 1 (and for an empty tail); for other lengths a concrete call is exhibited after which wrong elements remain. ", "quantifier": "for all arrays and all ranges of length one; existence of a failing call otherwise", "why_tests_cant": "A test of one range cannot tell for which lengths the result is right.", "anchors": ["Source/Headers/container.hpp:array::erase"]}
{"id": "C09", "title": "array<T>::replace / assign", "statement": "replace(first,last,rfirst,rlast) substitutes the range by the given elements when the array does not shrink (in particular assign, which replaces everything, is always right); when it shrinks across a power of two with a non-empty tail the tail is lost (witness).", "quantifier": "for all arrays, ranges and replacement sequences; existential for the defect", "why_tests_cant": "Depends on the relation between sizes and powers of two.", "anchors": ["Source/Headers/container.hpp:array::replace", "Source/Headers/container.hpp:array::assign"]}
{"id": "C10", "title": "chunk_array<T> behaves as a sequence and never moves elements", "statement": "For every history of push_back, pop_back, resize, clear and indexed writes, chunk_array shows the content of an ideal growable sequence, and an element that stays in range keeps its chunk and position across growth (references stay valid).", "quantifier": "for all histories and block-bit parameters", "why_tests_cant": "The claim ranges over every sequence of calls; a unit test runs a few chosen histories and the state space is unbounded.", "anchors": ["Source/Headers/container.hpp:chunk_array"]}
{"id": "C11", "title": "interval<Ind,Val> addressing", "statement": "After any sequence of set_interval_beg, set_interval_end, shift_interval, clear and writes, every index in [beg,end) addresses its own cell and no memory outside the block is touched or wrongly released; shift_interval and set_interval_beg translate the whole content, set_interval_end keeps the values of the indices below both ends and gives new cells the fill value (a value taken from the interval itself is read after its memory was released).", "quantifier": "for all histories and all interval bounds", "why_tests_cant": "The claim ranges over every sequence of calls; a unit test runs a few chosen histories and the state space is unbounded.", "anchors": ["Source/Headers/container.hpp:interval"]}
{"id": "C12", "title": "BinaryHeap is a priority queue", "statement": "After any history of PushHeap, PopHeap, DecreaseKey and Clear on BinaryHeap: Contains reports exactly the pushed, not yet popped indices; PeekHeap/PopHeap return an index whose key is minimal among the contained ones; Size is their number.", "quantifier": "for all histories and keys (a total order)", "why_tests_cant": "The claim ranges over every sequence of calls; a unit test runs a few chosen histories and the state space is unbounded.", "anchors": ["Source/Misc/utils.h:BinaryHeap"]}
{"id": "C13", "title": "BinaryHeapCustom::ChangeKey", "statement": "ChangeKey restores the heap order when the key is lowered; when the key is raised the heap order is not restored and a later PopHeap can return a non-minimal element (witness).", "quantifier": "for all heaps for the positive half; existential for the defect", "why_tests_cant": "A test sees the defect only if the raised key has a smaller child.", "anchors": ["Source/Misc/utils.h:BinaryHeapCustom::ChangeKey"]}
{"id": "C14", "title": "Element storage: live elements never share a slot", "statement": "After any history of element creation and destruction (TieElement/UntieElement), live local ids map injectively to storage addresses within the allocated capacity, an id is valid iff its element was created and not destroyed since, the reverse map agrees, and the number of live elements equals creations minus destructions.", "quantifier": "for all histories of creations and destructions, inside and outside mesh modification", "why_tests_cant": "The claim ranges over every sequence of calls; a unit test runs a few chosen histories and the state space is unbounded.", "anchors": ["Source/Mesh/mesh.cpp:Mesh::TieElement", "Source/Mesh/mesh.cpp:Mesh::UntieElement", "Source/Mesh/mesh.cpp:Mesh::GetArrayCapacity"]}
{"id": "C15", "title": "ReorderEmpty compacts storage without losing data", "statement": "ReorderEmpty leaves every live id valid with the same data it had, and afterwards the live elements occupy exactly the addresses 0..n-1.", "quantifier": "for all reachable storage states and all data contents", "why_tests_cant": "The claim ranges over every sequence of calls; a unit test runs a few chosen histories and the state space is unbounded.", "anchors": ["Source/Mesh/mesh.cpp:Mesh::ReorderEmpty", "Source/Mesh/mesh.cpp:Mesh::MoveStorage"]}
{"id": "C16", "title": "Tags own disjoint storage", "statement": "After any history of CreateTag and DeleteTag (with arbitrary element masks), two different (tag, element type) pairs never designate the same dense array, every defined dense pair designates an allocated array, and tag names are unique.", "quantifier": "for all histories of CreateTag/DeleteTag with arbitrary masks", "why_tests_cant": "The claim ranges over every sequence of calls; a unit test runs a few chosen histories and the state space is unbounded.", "anchors": ["Source/Data/tag.cpp:TagManager::CreateTag", "Source/Data/tag.cpp:TagManager::DeleteTag"]}
{"id": "C17", "title": "CreateTag is idempotent and GetTag finds it", "statement": "CreateTag with the name of an existing tag returns that tag extended to the requested types; HaveTag(name)/GetTag(name) succeed exactly for names created and not fully deleted.", "quantifier": "for all histories", "why_tests_cant": "The claim ranges over every sequence of calls; a unit test runs a few chosen histories and the state space is unbounded.", "anchors": ["Source/Data/tag.cpp:TagManager::CreateTag", "Source/Data/tag.cpp:TagManager::GetTag", "Source/Data/tag.cpp:TagManager::HaveTag", "Source/Data/tag.cpp:TagManager::RenameTag"]}
{"id": "C18", "title": "Tag data read-over-write", "statement": "Writing dense data of tag t on element e is read back, and does not change data of any other tag or any other element, across later tag and element creation.", "quantifier": "for all tags, elements and histories", "why_tests_cant": "The claim ranges over every sequence of calls; a unit test runs a few chosen histories and the state space is unbounded.", "anchors": ["Source/Mesh/mesh.cpp:Mesh::SetData", "Source/Mesh/mesh.cpp:Mesh::GetData", "Source/Headers/inmost_mesh.h:MGetDenseLink"]}
{"id": "C19", "title": "Sparseness is forgotten when a tag is deleted from a type", "statement": "Deleting a sparse tag from a type and creating it again as dense on that type should make isSparse false there; the code keeps the stale flag (witness), while for types on which the tag was never sparse the flag is right after any history.", "quantifier": "for all histories for the positive half; existential for the defect", "why_tests_cant": "Only a delete/re-create history with other types still defined shows it.", "anchors": ["Source/Data/tag.cpp:TagManager::DeleteTag", "Source/Data/tag.cpp:TagManager::CreateTag", "Source/Headers/inmost_data.h:Tag::isSparse"]}
{"id": "C20", "title": "Mesh assignment and tag storage", "statement": "After assigning one mesh to another, creating a new tag must not alias data of an existing one; the free-position list survives assignment, so aliasing occurs (witness); starting from an empty free list the operation is safe.", "quantifier": "existential for the defect; all states with empty free list for the positive half", "why_tests_cant": "Aliasing requires a particular history before the assignment.", "anchors": ["Source/Data/tag.cpp:TagManager::operator=", "Source/Mesh/mesh.cpp:Mesh::operator="]}
{"id": "C21", "title": "Set algebra results", "statement": "ElementSet::Union / Difference / Intersection return arrays without repetitions whose members are exactly the set-theoretic union / difference / intersection of the operands' members, and leave all private markers as before.", "quantifier": "for all set contents including holes left by removals", "why_tests_cant": "The domain is infinite; a test fixes finitely many inputs and cannot exclude a failing one elsewhere.", "anchors": ["Source/Mesh/eset.cpp:ElementSet::Union", "Source/Mesh/eset.cpp:ElementSet::Difference", "Source/Mesh/eset.cpp:ElementSet::Intersection"]}
{"id": "C22", "title": "Unsorted sets behave as finite sets", "statement": "For an unsorted ElementSet under any history of AddElement, AddElements, PutElement, RemoveElement, RemoveElements, Erase, Subtract, Intersect and Clear, the members are those of the ideal finite set, Size() is its cardinality, Empty() and FindHandle agree, iteration lists each visible member once and all private markers are as before. Subtracting a set from itself empties it but leaves a private marker set on its former members (witness).", "quantifier": "for all histories; universal characterisation of the defect", "why_tests_cant": "The claim ranges over every sequence of calls; a unit test runs a few chosen histories and the state space is unbounded.", "anchors": ["Source/Mesh/eset.cpp:ElementSet::AddElement", "Source/Mesh/eset.cpp:ElementSet::RemoveElement", "Source/Mesh/eset.cpp:ElementSet::Subtract", "Source/Mesh/eset.cpp:ElementSet::Intersect", "Source/Mesh/eset.cpp:ElementSet::FindHandle"]}
{"id": "C23", "title": "Bulk addition to sets", "statement": "AddElements on an unsorted set adds exactly the given elements when they are pairwise distinct; with repetitions it stores duplicates (witness); PutElements works exactly when there are at least as many elements as holes, otherwise it reads past the input. On a sorted set AddElements and Unite give the sorted union when nothing repeats; an element present on both sides or repeated in the input loses elements, and by centroid even disjoint inputs do (witnesses).", "quantifier": "for all sets and duplicate-free inputs; existential for the defects", "why_tests_cant": "Loss occurs only for particular interleavings of old and new handles.", "anchors": ["Source/Mesh/eset.cpp:ElementSet::AddElements"]}
{"id": "C24", "title": "Sorted sets: binary search after removal", "statement": "In a set sorted by a comparator and without holes, any history of AddElement keeps it sorted and FindHandle decides membership; RemoveElement removes exactly its argument, but afterwards members are reported missing and can be stored twice, an element of the unsorted part may not be found, and the recorded holes no longer match the positions (witnesses).", "quantifier": "for all hole-free sorted sets; existential for the defect", "why_tests_cant": "Depends on position of the hole relative to probed positions.", "anchors": ["Source/Mesh/eset.cpp:ElementSet::FindHandle", "Source/Mesh/eset.cpp:ElementSet::RemoveElement"]}
{"id": "C25", "title": "Compaction of sets", "statement": "ElementSet::ReorderEmpty must keep the members; for an unsorted set the code always loses a member (without holes exactly the last one) or resizes to a negative size when empty; for a sorted set it erases the members in front of the first hole and keeps the rest.", "quantifier": "for all sets", "why_tests_cant": "A test on one set does not tell what is lost in general.", "anchors": ["Source/Mesh/eset.cpp:ElementSet::ReorderEmpty"]}
{"id": "C26", "title": "Set hierarchy is a forest", "statement": "Under any sequence of CreateSet, AddChild, AddSibling, RemChild, RemSibling and deletion in which a set that was removed from in front of a sibling is not attached again, no assertion fails, the loop over GetChild/GetSibling of P lists exactly the sets whose GetParent is P, once each, in the order of attachment, and CountChildren counts them; a set with a parent is refused. Following GetParent ends if no set is put under itself or a descendant (the code accepts P.AddChild(P)). DeleteSetTree deletes exactly the tree, children first. Re-attaching a removed set that had a sibling drags the former siblings along, and re-attaching it to the same parent makes the loop over children endless (proved for every such state).", "quantifier": "for all histories and sets; for all states for the two defects", "why_tests_cant": "The claim ranges over every sequence of calls; a unit test runs a few chosen histories and the state space is unbounded.", "anchors": ["Source/Mesh/eset.cpp:ElementSet::AddChild", "Source/Mesh/eset.cpp:ElementSet::AddSibling", "Source/Mesh/eset.cpp:ElementSet::RemChild", "Source/Mesh/eset.cpp:ElementSet::RemSibling", "Source/Mesh/eset.cpp:ElementSet::CountChildren", "Source/Mesh/eset.cpp:ElementSet::DeleteSetTree", "Source/Mesh/modify.cpp:Mesh::Destroy"]}
{"id": "C27", "title": "ElementArray set operations", "statement": "ElementArray::Unite (on a non-empty duplicate-free array), Subtract and Intersect return exactly the union / difference / intersection in order without touching other markers; Unite on an empty array does not remove repetitions of its argument (witness).", "quantifier": "for all arrays", "why_tests_cant": "The domain is infinite; a test fixes finitely many inputs and cannot exclude a failing one elsewhere.", "anchors": ["Source/Mesh/earray.cpp:ElementArray::Unite", "Source/Mesh/earray.cpp:ElementArray::Subtract", "Source/Mesh/earray.cpp:ElementArray::Intersect"]}
{"id": "C28", "title": "Merging sorted sparse rows", "statement": "Row::MergeSortedRows(alpha,l,beta,r) returns a sorted row whose value at every column is alpha*l + beta*r there, with strictly increasing columns when both inputs have them.", "quantifier": "for all sorted rows and coefficients over any commutative ring", "why_tests_cant": "The domain is infinite; a test fixes finitely many inputs and cannot exclude a failing one elsewhere.", "anchors": ["Source/Solver/sparse.cpp:Row::MergeSortedRows"]}
{"id": "C29", "title": "RowMerger accumulates linear combinations", "statement": "After any sequence of PushRow, AddRow, Multiply and indexed additions (sorted or unsorted mode, local and non-local columns), RetrieveRow returns a row whose value at every column is the accumulated linear combination, with no repeated column and no stored zero; in sorted mode local columns are increasing; Clear restores the initial state.", "quantifier": "for all sequences of rows, coefficients and intervals", "why_tests_cant": "The claim ranges over every sequence of calls; a unit test runs a few chosen histories and the state space is unbounded.", "anchors": ["Source/Solver/sparse.cpp:RowMerger::PushRow", "Source/Solver/sparse.cpp:RowMerger::AddRow", "Source/Solver/sparse.cpp:RowMerger::Multiply", "Source/Solver/sparse.cpp:RowMerger::RetrieveRow", "Source/Solver/sparse.cpp:RowMerger::Clear"]}
{"id": "C30", "title": "Product-rule merge of Hessian rows", "statement": "HessianRow::MergeJacobianHessian computes a*(JL x JR symmetrised) + b*HL + c*HR as a sorted row for non-empty sorted jacobians; when exactly one jacobian is empty it reads outside of a row (witness).", "quantifier": "for all sorted rows with non-empty jacobians", "why_tests_cant": "The domain is infinite; a test fixes finitely many inputs and cannot exclude a failing one elsewhere.", "anchors": ["Source/Solver/sparse.cpp:HessianRow::MergeJacobianHessian"]}
{"id": "C31", "title": "Global index to processor", "statement": "For local index intervals that are all non-empty, GetProcessor(g) is the unique processor whose interval contains g; with an empty interval at a boundary the wrong processor is returned (witness).", "quantifier": "for all numbers of processors and all partitions", "why_tests_cant": "Requires particular distributions (empty processors).", "anchors": ["Source/Solver/OrderInfo.cpp:OrderInfo::GetProcessor"]}
{"id": "C32", "title": "PrepareMatrix / RestoreMatrix round trip", "statement": "Renumbering of off-processor columns by PrepareMatrix (overlap 0) maps external global indices injectively onto [local_end, vector_end), keeps local indices, and RestoreMatrix gives back the original matrix.", "quantifier": "for all local matrices and non-overlapping intervals", "why_tests_cant": "The domain is infinite; a test fixes finitely many inputs and cannot exclude a failing one elsewhere.", "anchors": ["Source/Solver/OrderInfo.cpp:OrderInfo::PrepareMatrix", "Source/Solver/OrderInfo.cpp:OrderInfo::RestoreMatrix"]}
{"id": "C33", "title": "Overlapping row intervals are repaired to a partition", "statement": "The boundary-moving loop of PrepareMatrix terminates and turns intervals that are sorted by both ends, leave no gaps and cover every index at most twice into consecutive non-overlapping intervals with the same union, each inside the interval it came from. Intervals that are only sorted by their first index are not repaired: a nested interval ends up with its end before its beginning and three intervals over one index stay overlapping (witnesses).", "quantifier": "for all numbers of processors and all overlaps", "why_tests_cant": "The domain is infinite; a test fixes finitely many inputs and cannot exclude a failing one elsewhere.", "anchors": ["Source/Solver/OrderInfo.cpp:OrderInfo::PrepareMatrix"]}
{"id": "C34", "title": "Vector Update delivers owners' values", "statement": "After OrderInfo::Update every off-processor position of the extended vector holds the owner's value of the corresponding global index and local positions are unchanged, for every message arrival order, provided no referenced column lies directly behind an empty interval; with an empty interval the value is never requested and the position keeps its old content (witness).", "quantifier": "for all matrices, all numbers of processors and all message delivery orders", "why_tests_cant": "Message interleavings and processor counts are unbounded.", "anchors": ["Source/Solver/OrderInfo.cpp:OrderInfo::Update", "Source/Solver/OrderInfo.cpp:OrderInfo::PrepareMatrix"]}
{"id": "C35", "title": "Portable integers survive byte-order conversion", "statement": "write_iValue on one machine followed by read_iValue on a little-endian machine returns the same non-negative integer for every byte order of the writer and for equal or wider local integers, and the low bytes when the writer's integers are wider; the header written by write_iByteOrder/write_iByteSize determines the reader's settings. On a big-endian or middle-endian reader whose integers are not narrower than the writer's the read runs out of bounds (witness).", "quantifier": "for all integers in range and all byte orders", "why_tests_cant": "The domain is infinite; a test fixes finitely many inputs and cannot exclude a failing one elsewhere.", "anchors": ["Source/IO/io.hpp:io_converter"]}
{"id": "C36", "title": "Negative integers and widening", "statement": "A negative integer written by a program with 4-byte integers and read by one with 8-byte integers must stay negative; zero filling makes it positive (witness).", "quantifier": "existential for the defect; universal for equal widths", "why_tests_cant": "Needs two builds with different integer sizes.", "anchors": ["Source/IO/io.hpp:io_converter::read_iValue"]}
{"id": "C37", "title": "split_string returns the maximal delimiter-free pieces", "statement": "split_string(str,delims) returns, in order, exactly the maximal non-empty substrings without delimiter characters.", "quantifier": "for all strings and delimiter sets", "why_tests_cant": "The domain is infinite; a test fixes finitely many inputs and cannot exclude a failing one elsewhere.", "anchors": ["Source/Misc/utils.cpp:split_string"]}
{"id": "C38", "title": "Radix sorting of handles", "statement": "SortHandles returns a permutation of its input which is sorted when no invalid handle is present; invalid handles go last on the radix path but first on the std::sort path (witness).", "quantifier": "for all arrays of handles of any length", "why_tests_cant": "The domain is infinite; a test fixes finitely many inputs and cannot exclude a failing one elsewhere.", "anchors": ["Source/Mesh/comparator.cpp:Mesh::SortHandles"]}
{"id": "C39", "title": "Sorting by global id", "statement": "SortByGlobalID returns a permutation sorted by global id when all ids are non-negative; with negative ids the radix path gives an order different from the numeric one (witness).", "quantifier": "for all arrays and id assignments", "why_tests_cant": "The domain is infinite; a test fixes finitely many inputs and cannot exclude a failing one elsewhere.", "anchors": ["Source/Mesh/comparator.cpp:Mesh::SortByGlobalID"]}
{"id": "C40", "title": "Coordinate comparators", "statement": "With zero tolerance CentroidComparator is a strict weak order, with a positive tolerance it is not transitive (witness), so sorting with it has no guaranteed meaning.", "quantifier": "for all points; existential for the defect", "why_tests_cant": "The domain is infinite; a test fixes finitely many inputs and cannot exclude a failing one elsewhere.", "anchors": ["Source/Mesh/comparator.cpp:Mesh::CentroidComparator::Compare", "Source/Mesh/comparator.cpp:Mesh::HierarchyComparator"]}
{"id": "C41", "title": "Forward iteration over the mesh", "statement": "Iterating from Begin(types) with ++ ends and visits exactly the valid, non-hidden elements of the requested types, each once, ordered by type and local id; NumberOf(types) is the number of elements visited; NextHandle is the next handle in use.", "quantifier": "for all mesh states and type masks", "why_tests_cant": "The domain is infinite; a test fixes finitely many inputs and cannot exclude a failing one elsewhere.", "anchors": ["Source/Mesh/iterator.cpp:Mesh::base_iterator::operator++", "Source/Mesh/iterator.cpp:Mesh::NextLocalIDIter", "Source/Mesh/iterator.cpp:Mesh::NextHandle", "Source/Mesh/iterator.cpp:Mesh::NumberOf"]}
{"id": "C42", "title": "Backward iteration over the mesh", "statement": "Iterating backwards must visit the same elements reversed. Inside one type it steps to the nearest smaller valid visible element, and over one type whose element with local id 0 is valid and visible it is the reverse walk. Otherwise a deleted or hidden element is visited, the last element of the previous type is skipped, an empty previous type gives local id -2, and --End() stays at End() (witnesses). PrevHandle(h,types) is the previous handle in use; PrevHandle(h) never reaches nodes from other types nor sets from the mesh (witnesses).", "quantifier": "for all mesh states; existential for the defects", "why_tests_cant": "The domain is infinite; a test fixes finitely many inputs and cannot exclude a failing one elsewhere.", "anchors": ["Source/Mesh/iterator.cpp:Mesh::base_iterator::operator--", "Source/Mesh/iterator.cpp:Mesh::PrevLocalIDIter", "Source/Mesh/iterator.cpp:Mesh::PrevHandle"]}
{"id": "C43", "title": "Adjacency links are symmetric", "statement": "After any history of CreateNode/CreateEdge/CreateFace/CreateCell, Destroy, Delete, Hide, Show, BeginModification, SwapModification and EndModification, x appears in the lower connections of y exactly as often as y appears in the upper connections of x, and all linked elements exist and have consecutive types (or are a cell and its node). Destroy outside of a modification removes exactly the element and all elements built on it; the others keep complete lower connections and the order of the upper ones.", "quantifier": "for all histories", "why_tests_cant": "The claim ranges over every sequence of calls; a unit test runs a few chosen histories and the state space is unbounded.", "anchors": ["Source/Mesh/mesh.cpp:Mesh::CreateEdge", "Source/Mesh/mesh.cpp:Mesh::CreateFace", "Source/Mesh/mesh.cpp:Mesh::CreateCell", "Source/Mesh/modify.cpp:Mesh::Destroy", "Source/Mesh/modify.cpp:Element::Disconnect"]}
{"id": "C44", "title": "Creation does not duplicate elements", "statement": "FindSharedAdjacency returns an element iff a visible element lies above all given visible ones, the first in the upper connections of the first one. CreateEdge/CreateFace/CreateCell over elements already joined returns that element and false and changes nothing; otherwise a new one with exactly those lower connections and true. With the checks on and no Hide/Show/SwapModification no two visible elements of one type ever have the same set of lower elements (false with Show).", "quantifier": "for all mesh states and sub-element lists", "why_tests_cant": "The domain is infinite; a test fixes finitely many inputs and cannot exclude a failing one elsewhere.", "anchors": ["Source/Mesh/mesh.cpp:Mesh::FindSharedAdjacency", "Source/Mesh/mesh.cpp:Mesh::CreateEdge"]}
{"id": "C45", "title": "Hide/Delete/EndModification", "statement": "Within a modification, Delete hides the element and everything reachable above it without passing hidden elements (all that is built on it if hidden elements are closed upwards), and keeps the visible order of connections; Hide and Show keep NumberOf equal to the number of visible elements (false after SwapModification); EndModification destroys exactly the hidden elements, the others keep their connections in order, and both markers and counts are reset; BeginModification, Delete, EndModification has the effect of Destroy.", "quantifier": "for all histories of hide/show/delete", "why_tests_cant": "The claim ranges over every sequence of calls; a unit test runs a few chosen histories and the state space is unbounded.", "anchors": ["Source/Mesh/modify.cpp:Mesh::Hide", "Source/Mesh/modify.cpp:Mesh::Show", "Source/Mesh/modify.cpp:Mesh::Delete", "Source/Mesh/modify.cpp:Mesh::EndModification", "Source/Mesh/modify.cpp:Mesh::SwapModification", "Source/Mesh/modify.cpp:Cell::SwapBackCell"]}
{"id": "C46", "title": "Automatic differentiation is exact", "statement": "A variable made from an expression holds the value of the function the expression stands for and its exact gradient (distinct columns, partial derivative at every unknown), with and without a current Automatizator, for every expression built from the library's operations at points where each is differentiable; GetJacobian(mult,row) adds mult times the gradient. Exception shown by a witness: pow with exponent one at a zero base loses its variation.", "quantifier": "for all expression trees and all points of differentiability", "why_tests_cant": "The domain is infinite; a test fixes finitely many inputs and cannot exclude a failing one elsewhere.", "anchors": ["Source/Headers/inmost_expression.h", "Source/Autodiff/autodiff.cpp:FromBasicExpression"]}
{"id": "C47", "title": "Unknown enumeration is a bijection", "statement": "After EnumerateEntries the indices GetIndex gives to all (entry, element, component) triples of active entries on owned elements are pairwise distinct and fill [first_num,last_num) without gaps, in registration order, and across processors the ranges are consecutive, provided every component of each block has data and is active. If components are missing or inactive, or entries are stacked, the claim fails and the failures are characterised. Registration returns free indices and entries keep them until unregistered.", "quantifier": "for all registered entries, meshes and processor counts", "why_tests_cant": "The claim ranges over all sets of entries, masks, meshes, histories of registration and processor counts; collisions need particular combinations of missing data.", "anchors": ["Source/Autodiff/autodiff.cpp:Automatizator::EnumerateEntries"]}
{"id": "C48", "title": "Set names", "statement": "With CreateSet, DeleteSet and CreateSetUnique on unused names: names are unique, GetSet finds exactly the set of that name, CreateSet creates only if there is none and says so, GetSetsByPrefix returns exactly the sets whose name starts with the prefix in order of names. With arbitrary CreateSetUnique what is found still exists and has the name, but deleting one of two sets of a name makes the other unfindable. A copied mesh finds none of its sets by name.", "quantifier": "for all histories and names", "why_tests_cant": "The claim ranges over every sequence of calls; a unit test runs a few chosen histories and the state space is unbounded.", "anchors": ["Source/Mesh/mesh.cpp:Mesh::CreateSet", "Source/Mesh/mesh.cpp:Mesh::CreateSetUnique", "Source/Mesh/mesh.cpp:Mesh::GetSet", "Source/Mesh/mesh.cpp:Mesh::GetSetsByPrefix", "Source/Mesh/modify.cpp:Mesh::Destroy", "Source/Mesh/mesh.cpp:Mesh::Mesh"]}
{"id": "C49", "title": "Tag to vector copy stays in bounds", "statement": "CopyTag2Vector must size its output to hold the largest index it writes; the code sizes it one short, so a non-empty mesh always writes out of bounds (proved for every non-empty mesh). CopyVector2Tag succeeds exactly when every index is inside the vector and then each visited element receives the value at its index; the write loop of CopyTag2Vector, given a long enough vector, stores each value at its index.", "quantifier": "for all non-empty element lists", "why_tests_cant": "Out-of-bounds writes by one often go unnoticed.", "anchors": ["Source/Mesh/mesh.cpp:Mesh::CopyTag2Vector"]}
{"id": "C50", "title": "Copying a mesh keeps sparse data", "statement": "A copied mesh must have the sparse data of the original; the lookup compares tag identities of different meshes and never succeeds, so all sparse data is dropped (proved for every mesh).", "quantifier": "for all meshes and sparse tags", "why_tests_cant": "The domain is infinite; a test fixes finitely many inputs and cannot exclude a failing one elsewhere.", "anchors": ["Source/Mesh/mesh.cpp:Mesh::Mesh(const Mesh&)", "Source/Headers/inmost_mesh.h:MGetSparseLink"]}
{"id": "C51", "title": "A copied mesh can be compacted", "statement": "A copied mesh has the same elements and dense data, and answers every further sequence of creations, removals, reads and writes as the original would. Under ReorderEmpty it does not: the reverse links are not copied, so ReorderEmpty on the copy moves nothing, drops the free list and shrinks the data; whenever an element lies beyond the compacted size, later creations produce an element sharing its storage (proved for every such mesh); if no element does, compaction of the copy is harmless.", "quantifier": "for all histories of creation and removal before the copy and all further histories", "why_tests_cant": "Needs a copy made after removals followed by compaction and creation; each step alone works.", "anchors": ["Source/Mesh/mesh.cpp:Mesh::Mesh(const Mesh&)", "Source/Mesh/mesh.cpp:Mesh::ReorderEmpty"]}
{"id": "C52", "title": "Second derivatives are exact", "statement": "A hessian_variable made from an expression holds value, gradient and Hessian of the function it stands for, when built from constants, unknowns, variables, + - and products of factors that both depend on unknowns (or both do not), scaling, sin, cos, sqrt, abs, conditions, and exp/log/reciprocal in the positions where their multipliers fit. Witnesses show wrong results for -exp(x), exp(exp(x)), log(x*x), 1/x, pow(x,2) and a failure for c*x with a variable c without variations; division, pow, atan2, soft_* throw.", "quantifier": "for all expressions and all points", "why_tests_cant": "The set of expressions is infinite; wrong second derivatives only slow down or break convergence.", "anchors": ["Source/Headers/inmost_expression.h:GetHessian"]}
{"id": "C53", "title": "Accumulate adds every external contribution once", "statement": "After OrderInfo::Accumulate the owner of every index holds its own value plus the values all other processors keep for that index at their external positions, each counted once; external positions are unchanged; the result does not depend on message arrival order.", "quantifier": "for all matrices, processor counts, vectors and delivery orders", "why_tests_cant": "Message interleavings and processor counts are unbounded.", "anchors": ["Source/Solver/OrderInfo.cpp:OrderInfo::Accumulate"]}
{"id": "C54", "title": "Distributed product equals the serial product", "statement": "PrepareMatrix, Update of the argument and MatVec give on every processor beta*y + alpha*A*x with the global matrix and the global vector, summed in the order of the row entries.", "quantifier": "for all distributed matrices, vectors, coefficients and delivery orders", "why_tests_cant": "The result depends on the interplay of numbering, exchange and product for unbounded distributions.", "anchors": ["Source/Solver/sparse.cpp:Matrix::MatVec", "Source/Solver/OrderInfo.cpp:OrderInfo::Update"]}
{"id": "C55", "title": "Distributed transposed product", "statement": "PrepareMatrix, MatVecTranspose with beta zero and Accumulate give at the owner of every column the sum over all rows of all processors of alpha*x_i*a_ic.", "quantifier": "for all distributed matrices, vectors and delivery orders", "why_tests_cant": "The result depends on the interplay of numbering, exchange and product for unbounded distributions.", "anchors": ["Source/Solver/sparse.cpp:Matrix::MatVecTranspose", "Source/Solver/OrderInfo.cpp:OrderInfo::Accumulate"]}
{"id": "C56", "title": "Compound assignment of variables", "statement": "x = e, x += e, x -= e, x *= e and x /= e leave in x the value and the gradient of the combined function, also when e refers to x, provided no product in e has x itself as a factor (always for *= and for construction of a new variable). Without this provision =, through a reference, +=, -= and /= give wrong derivatives (witness x = x*x): the product reads the overwritten value.", "quantifier": "for all expressions, points, previous values and variations", "why_tests_cant": "Aliasing of the target inside the expression is a matter of expression shape; only derivative values are wrong, and only for products.", "anchors": ["Source/Headers/inmost_expression.h:multivar_expression::operator +=", "Source/Headers/inmost_expression.h:multivar_expression_reference", "Source/Headers/inmost_expression.h:multiplication_expression", "Source/Autodiff/autodiff.cpp:AddBasicExpression"]}
{"id": "C57", "title": "Floating point numbers in portable files", "statement": "A number written by write_fValue in IEEE single or double format and read by read_fValue has the value the IEEE standard assigns to its bytes (normal and subnormal single precision; normal double precision whose 32-bit low word has a clear top bit). A double whose low mantissa word has its top bit set, and a subnormal double, are read as another number (witnesses). An unknown source format gives the documented fallback.", "quantifier": "for all byte strings of the format and all byte orders", "why_tests_cant": "There are 2^32 singles and 2^64 doubles, and the conversion path is only taken between machines with different number formats.", "anchors": ["Source/IO/io.hpp:io_converter::read_fValue", "Source/IO/io.hpp:io_converter::write_fValue", "Source/IO/io.hpp:io_converter::convert_bytes_to_float", "Source/IO/io.hpp:io_converter::extract_double"]}
{"id": "C58", "title": "Sorting a set", "statement": "ElementSet::SortSet on a set without holes keeps the members and puts all of them in the order of the comparator, merging a part sorted before; with holes members can be cut off, sorting a sorted set by another comparator changes nothing, and sorting after Clear of a sorted set is out of bounds (defects shown).", "quantifier": "for all sets, comparators that order the members strictly and totally, and sorting functions", "why_tests_cant": "Ranges over all contents, orders and positions of holes; tests of a few sets do not meet holes in the array.", "anchors": ["Source/Mesh/eset.cpp:ElementSet::SortSet", "Source/Mesh/eset.cpp:ElementSet::Clear"]}
{"id": "C59", "title": "Solve and Invert of a dense matrix", "statement": "For every matrix A (any shape and rank) and right hand side B, A.Solve(B) returns without an error a matrix X whose columns minimise |A x - b|, so A X = B whenever the system has a solution, and A.Invert() is a right (left) inverse whenever one exists - provided no elimination pivot is nonzero and below 1e-54. An error code e says that the e-th pivot is below 1e-54. Without the provision X can be wrong with no error reported (1e-28 x = 1e-28 gives x = 1e-44).", "quantifier": "for all sizes (at least one row), matrices and right hand sides over any ordered field; no rounding", "why_tests_cant": "Correctness must hold for all matrices of all sizes and ranks and for every pivot order the data induces.", "anchors": ["Source/Headers/inmost_dense.h:AbstractMatrixReadOnly::Solve", "Source/Headers/inmost_dense.h:AbstractMatrixReadOnly::Invert"]}
{"id": "C60", "title": "CholeskySolve of a dense matrix", "statement": "If A.CholeskySolve(B) succeeds, its result solves the system with the symmetric matrix given by the upper triangle of A, and that matrix is positive definite: every matrix that is not is reported. A reported code e means that some vector with entry 1 at position e-1 and zeros after it has x^T S x < 1e-48.", "quantifier": "for all sizes, matrices and right hand sides over any ordered field with square roots; no rounding", "why_tests_cant": "Indefinite matrices can fail at any step; the equivalence with definiteness ranges over all matrices and all vectors.", "anchors": ["Source/Headers/inmost_dense.h:AbstractMatrixReadOnly::CholeskySolve", "Source/Headers/inmost_dense.h:AbstractMatrixReadOnly::CholeskyInvert"]}
{"id": "C61", "title": "Determinant of a dense matrix", "statement": "A.Det() is the determinant of A (multilinear and alternating in the rows, 1 for the identity) whenever every number the elimination compares with 1e-13 is zero or larger. Without this provision it is false: Det of diag(1e-14, 1e14) is 0.", "quantifier": "for all square matrices over any ordered field; no rounding", "why_tests_cant": "The sign bookkeeping over visited rows depends on the pattern of zero pivots, of which there are exponentially many.", "anchors": ["Source/Headers/inmost_dense.h:AbstractMatrixReadOnly::Det"]}
{"id": "C62", "title": "Matrix views show what their names say", "statement": "Every entry of a properly formed view can be read; parts of concatenations are the arguments and concatenations of parts give the whole; a block shows its argument at the offset and zero elsewhere; Repack keeps the entries row by row and can be undone; transposing twice is nothing; sums and scalings act entry by entry; a product has the entries of the matrix product, its transpose is the product of the transposes, and the Kronecker product of products is the product of the Kronecker products.", "quantifier": "for all matrices, sizes, views nested to any depth, and entries", "why_tests_cant": "Views nest in infinitely many ways and tests look at a few sizes.", "anchors": ["Source/Headers/inmost_dense.h: SubMatrix, BlockOfMatrix, MatrixTranspose, MatrixConcatRows, MatrixConcatCols, MatrixRepack, MatrixSum, MatrixDifference, MatrixUnaryMinus, MatrixMulCoef, MatrixDivCoef, MatrixMul, KroneckerProduct"]}
{"id": "C63", "title": "Writing through a view changes one entry", "statement": "Writing to an entry of a view built from parts, transposes, concatenations of separate matrices and repacking changes that entry of the view and no other, and exactly one entry of one matrix under the view. The exception: entries of a block outside of its argument are one shared variable, so that what is written to one of them is found by non-const access in all of them.", "quantifier": "for all such views nested to any depth, all states and entries", "why_tests_cant": "Aliasing errors show only for particular nestings and positions.", "anchors": ["Source/Headers/inmost_dense.h: operator()(i,j) of SubMatrix, BlockOfMatrix, MatrixTranspose, MatrixConcatRows, MatrixConcatCols, MatrixRepack"]}
{"id": "C64", "title": "Assignment from an expression that mentions the target", "statement": "Assignment gives the target the size and values that the right hand side had before, and leaves alone every entry not written, provided the target is not on the right hand side or no entry read is overwritten earlier in row order; this holds for entrywise expressions, for products, and for overlapping parts when the target starts first. Otherwise the result is different from the right hand side: A = A.Transpose() copies the lower triangle to the upper one, A += A.Transpose() adds an entry twice below the diagonal, A = A/A(r,c) leaves the entries after (r,c) as they are, A = A*A(r,c) multiplies them twice, moving rows down copies the first row everywhere, and assignment between two named sub-matrices redirects the first.", "quantifier": "for all matrices, sizes, targets and right hand sides", "why_tests_cant": "Whether evaluation order matters depends on the expression; no finite set of expressions settles it.", "anchors": ["Source/Headers/inmost_dense.h: Matrix::operator=, AbstractMatrix::operator=, SubMatrix::operator=, operator+=, operator-=, MatrixMulCoef, MatrixDivCoef, MatrixMul"]}
{"id": "C65", "title": "Removal of rows and columns, packed symmetric storage", "statement": "RemoveRow, RemoveRows, RemoveColumns and RemoveSubset delete exactly the named rows and columns and keep the others in order. The n(n+1)/2 stored entries of a symmetric matrix correspond one-to-one to the unordered pairs of indices; writing (i,j) changes (i,j) and (j,i) only; construction from another matrix takes its upper triangle.", "quantifier": "for all matrices and ranges, for all n and index pairs", "why_tests_cant": "Index arithmetic must be right for every size and position.", "anchors": ["Source/Headers/inmost_dense.h: Matrix::RemoveRow, RemoveRows, RemoveColumns, RemoveSubset, SymmetricMatrix::operator(), SymmetricMatrix(other)"]}
{"id": "C66", "title": "CrossProduct and Transform", "statement": "The cross product is orthogonal to both vectors and antisymmetric, its square is |A|^2|B|^2-(A.B)^2. Transform(A,B) maps A to B, is a rotation times |B|/|A| (rows orthogonal, positive determinant) and keeps the direction perpendicular to both, unless A and B are opposite; for opposite vectors the code divides by zero.", "quantifier": "for all real vectors", "why_tests_cant": "Identities over all real vectors.", "anchors": ["Source/Headers/inmost_dense.h: CrossProduct, Transform, DotProduct, FrobeniusNorm"]}
{"id": "C67", "title": "Every received buffer is unpacked once, when complete", "statement": "Sending a buffer to another processor delivers each of its bytes once and in order, cut into messages the transport can carry. Whatever the order and grouping in which messages arrive, each receive buffer is unpacked exactly once, and only after all its messages have arrived. Holds for buffers of at most INT_MAX bytes. For a longer buffer it is false: the completion lookup attributes its second message to the next buffer, so for every arrival order either the counters are written out of range or the long buffer is never unpacked. Messages of one buffer carry different tags; tag arithmetic overflows int from 1466 processors on when tags may be as large as an int.", "quantifier": "all numbers and sizes of buffers, all message limits, all orders and groupings of message arrival, all ranks and processor counts in the stated ranges", "why_tests_cant": "Arrival order is nondeterministic, and the failing sizes (over 2 GB per neighbour, over a thousand processors) are out of reach of unit tests.", "anchors": ["Source/Mesh/parallel.cpp: Mesh::ExchangeBuffersInner, Mesh::FinishRequests", "Source/Headers/inmost_mesh.h: exch_recv_reqs_t"]}
{"id": "C68", "title": "Receivers learn exactly who sends how much", "statement": "When sources are unknown, after the preparation step every processor has exactly one receive buffer for each buffer addressed to it, of the sent size, ordered by sender; the one-sided variant gives the same answer when nobody sends two buffers to one processor, and reports the sent size for known sources.", "quantifier": "all processor counts, all lists of (destination, size) on every processor", "why_tests_cant": "Every communication pattern on any number of processors is covered.", "anchors": ["Source/Mesh/parallel.cpp: Mesh::PrepareReceiveInner"]}
{"id": "C69", "title": "Arrays written to a message buffer are read back exactly", "statement": "An array or vector of integers of any width appended to a message buffer is read back unchanged from that position, whatever comes before and after it, and the reading position ends exactly behind it. The bytes do not depend on how the array is cut into calls of MPI_Pack, no call handles more than INT_MAX bytes, and the size predicted for a given length is exactly the size written.", "quantifier": "all array contents and lengths, all element widths, all call limits not below the width, all surrounding bytes", "why_tests_cant": "Cutting only happens above 2 GB; the round trip has to hold for every content.", "anchors": ["Source/Mesh/parallel.cpp: pack_data_array, pack_data_vector, unpack_data_array, unpack_data_vector, pack_data_array_size, pack_data_vector_size"]}
{"id": "C70", "title": "A message delivers the tag data of the selected elements, element by element", "statement": "When one processor packs any list of tags for any lists of elements and another unpacks the message for its own lists, the unpacking operation is applied exactly once for each selected element that has a non-empty value, in order, to the receiver's element at the same place, with the sender's entries; references arrive as the receiver's element at the packed position or as invalid; a tag not yet defined on a type becomes defined with the sender's sparsity; reading ends exactly at the end of the message.", "quantifier": "all lists of tags (any sizes, dense or sparse, plain, reference or variable data), all element lists, selections, data and operations, both handle widths", "why_tests_cant": "Message content depends on arbitrary mesh state on two processors; tests fix one tag layout.", "anchors": ["Source/Mesh/parallel.cpp: Mesh::PackTagData, Mesh::UnpackTagData", "Source/Mesh/mesh.cpp: Mesh::GetDataCapacity, Mesh::GetData", "Source/Headers/inmost_expression.h: multivar_expression::Record"]}
{"id": "C71", "title": "After an exchange each element holds its counterpart's data", "statement": "With the default operation, after unpacking each selected element holds for every exchanged tag exactly the entries of its counterpart if these are non-empty, and everything else keeps its value. So a ghost holds what its owner holds if and only if the owner's value is non-empty or they agreed before: removing data or emptying an array on the owner is not propagated. A tag of remote references makes every following tag of the message unreadable, and a tag that is sparse on one side and dense on the other puts data on wrong elements.", "quantifier": "all tags, data, element lists without repetition, previous receiver data", "why_tests_cant": "Needs all combinations of previous ghost data and owner data; the failure leaves plausible stale values.", "anchors": ["Source/Mesh/parallel.cpp: DefaultUnpack, Mesh::UnpackTagData, Mesh::PackTagData, Mesh::ExchangeData", "Source/Mesh/mesh.cpp: Mesh::SetData"]}
{"id": "C72", "title": "The receive buffer is large enough", "statement": "For tags of fixed size the receiver, counting only its own selected elements, reserves at least as many bytes as the sender's message has, and the two sides agree on whether a message is sent at all.", "quantifier": "all lists of fixed-size tags, data, element lists and selections, both handle widths", "why_tests_cant": "An underestimate corrupts memory only for particular mixes of sparse and dense types.", "anchors": ["Source/Mesh/parallel.cpp: Mesh::ExchangeDataInnerBegin"]}
{"id": "C73", "title": "ExchangeData copies the owner's data to every ghost", "statement": "After Mesh::ExchangeData every ghost element holds the data of the element of its owner with the same global id (or centroid) if the owner has data, keeps its own data otherwise, and no other element changes; the two processes list the elements of a channel in the same order; repeating the exchange changes nothing.", "quantifier": "for every number of processes, every distribution of elements with consistent owner/processors records, every data, every order of arrival of messages", "why_tests_cant": "needs several MPI processes and all arrival orders; tests run a few fixed partitions", "anchors": ["Source/Mesh/parallel.cpp: Mesh::ExchangeData, GatherParallelStorage, SortParallelStorage, ExchangeDataInnerBegin, ExchangeDataInnerEnd"]}
{"id": "C74", "title": "ReduceData combines the data of all copies on the owner", "statement": "After Mesh::ReduceData every shared element holds the result of applying the user operation to its own data and to the data of each ghost copy exactly once; for an operation insensitive to the order the result does not depend on the arrival order; ReduceData followed by ExchangeData leaves all copies equal.", "quantifier": "for every consistent distribution, operation, data and order of arrival", "why_tests_cant": "arrival order is nondeterministic, tests see one order", "anchors": ["Source/Mesh/parallel.cpp: Mesh::ReduceData, ExchangeDataInnerEnd"]}
{"id": "C75", "title": "SynchronizeMarker makes the marker agree on all copies", "statement": "SYNC_BIT_SET gives all copies the owner's marker, SYNC_BIT_OR the disjunction, SYNC_BIT_XOR the parity of the markers of all copies; elements known to one process keep theirs. SYNC_BIT_AND does not compute the conjunction: copies without the marker do not take part and the result is the owner's marker.", "quantifier": "for every consistent distribution, all markers, all arrival orders", "why_tests_cant": "all combinations of markers on all copies and arrival orders", "anchors": ["Source/Mesh/parallel.cpp: Mesh::SynchronizeMarker, UnpackSyncMarkerOR, UnpackSyncMarkerXOR, UnpackSyncMarkerAND"]}
{"id": "C76", "title": "Enumerate numbers the elements without gaps or repetitions", "statement": "Mesh::Enumerate gives the selected elements that are not ghosts the numbers start, start+1, ... each exactly once over all processes, returns start plus their count on every process, gives ghosts the number of their owner, numbers lower ranks first and unshared before shared elements, and changes nothing else.", "quantifier": "for every consistent distribution, every list of elements (mask, array or set variant), sparse or dense tag, every start", "why_tests_cant": "global bijection over all partitions", "anchors": ["Source/Mesh/parallel.cpp: Mesh::Enumerate, Mesh::EnumerateSet"]}
{"id": "C77", "title": "AssignGlobalID numbers every mesh element uniquely", "statement": "After Mesh::AssignGlobalID all copies of an element have the same global id, different elements have different ids, and the ids are exactly 0..TotalNumberOf-1; the exchange lists re-sorted by the ids match those that would be gathered anew, so later exchanges are correct.", "quantifier": "for every consistent distribution and every order of arrival", "why_tests_cant": "global bijection over all partitions, invisible misordering of the lists", "anchors": ["Source/Mesh/parallel.cpp: Mesh::AssignGlobalID, SortParallelStorage"]}
{"id": "C78", "title": "FindSharedGhost finds exactly the requested copy", "statement": "With global ids assigned, Mesh::FindSharedGhost returns an element iff it has the requested global id and is shared with the source process (on the owner) or is a ghost of the given owner (elsewhere); so a reference sent to a process holding a copy is resolved to that copy.", "quantifier": "for every consistent distribution, global id, source and owner", "why_tests_cant": "binary search over lists depending on the whole distribution", "anchors": ["Source/Mesh/parallel.cpp: Mesh::FindSharedGhost"]}
{"id": "C79", "title": "TotalNumberOf and Integrate count every element once", "statement": "Mesh::TotalNumberOf is the number of distinct elements of the distributed mesh and Mesh::Integrate(tag,entry,mask) the sum of the entry over distinct elements, whatever the number of ghost copies and whatever data the ghosts hold.", "quantifier": "for every consistent distribution and data", "why_tests_cant": "independence of the partition", "anchors": ["Source/Mesh/parallel.cpp: Mesh::TotalNumberOf, Mesh::Integrate"]}
{"id": "C80", "title": "Point search in the tree finds a containing cell", "statement": "SearchKDTree::SearchCell returns a cell of the set that contains the point, and it returns one whenever the point lies in some cell of the set whose nodes have float copies accurate to the margin of the box test (all coordinates up to 16000 do). Building the tree succeeds exactly for nonempty sets.", "quantifier": "all sets of cells, all coordinates, all points, all orders produced by the sorting of entries", "why_tests_cant": "Tests use meshes in the unit cube; a lost cell depends on how float boxes and the margin interact for particular coordinates.", "anchors": ["Source/Mesh/kdtree.cpp: kdtree_build, SubSearchCell, bbox_point, SearchCell"]}
{"id": "C81", "title": "Segment search reports exactly the intersected elements, once", "statement": "The tree traversal of IntersectSegment visits every element that the segment meets: the hits are exactly the elements for which the element test succeeds, without repetition; asked for cells or faces the result holds each adjacent cell or face once when the set is homogeneous.", "quantifier": "all sets of elements, segments (also axis-parallel or degenerate), coordinates up to 16000", "why_tests_cant": "Completeness over all segments requires an argument about the slab test and its margins.", "anchors": ["Source/Mesh/kdtree.cpp: segment_bbox, sub_intersect_segment, IntersectSegment"]}
{"id": "C82", "title": "Sphere search reports exactly the touched elements, once", "statement": "The hits of IntersectSphere are exactly the elements for which the element test succeeds, without repetition, when float copies of coordinates are exact; with rounding an element touched by the sphere can be lost.", "quantifier": "all sets, centres and radii", "why_tests_cant": "The loss appears only for coordinates that are not representable in single precision and radii at the limit.", "anchors": ["Source/Mesh/kdtree.cpp: bbox_sphere, bbox_closest_point, sub_intersect_sphere, IntersectSphere"]}
{"id": "C83", "title": "Distances to segments and triangles are minimal distances", "statement": "The distance used by IntersectSphere from a point to a segment or triangle is attained at a point of it and is not larger than the distance to any other point; the tests for faces and cells succeed exactly if some point of the boundary is in the ball.", "quantifier": "all points, segments, triangles (degenerate ones unless the point is on their line), polygons", "why_tests_cant": "Minimality over a continuum of points; the case analysis has regions that samples rarely hit.", "anchors": ["Source/Mesh/kdtree.cpp: segment_distance, triangle_distance, sphere_tri, sphere_face, sphere_cell"]}
{"id": "C84", "title": "Segment and triangle intersection test", "statement": "The test succeeds exactly if the segment extended by 1e-10 meets the triangle enlarged by 1e-7 and neither cut-off applies; in particular no crossing of a triangle that is neither tiny nor parallel to the segment is missed.", "quantifier": "all triangles and segments in space", "why_tests_cant": "An equivalence over continuous data; the cut-offs concern values that tests avoid.", "anchors": ["Source/Mesh/kdtree.cpp: segment_tri, segment_face, segment_cell"]}
{"id": "C85", "title": "Radix sort of tree entries", "statement": "radix_sort stays within its arrays and yields a stable permutation of the entries in ascending order of the float coordinate, for negative numbers and zeros of both signs too.", "quantifier": "all arrays of at most 2^32 entries and all bit patterns", "why_tests_cant": "Depends on the reuse of the last table slot as a temporary and on unsigned wrap-around; errors would only unbalance the tree or lose entries for rare values.", "anchors": ["Source/Mesh/kdtree.cpp: flip, radix_sort"]}
{"id": "C86", "title": "Nodes of a face come in the order of its loop", "statement": "If the visible edges of a face, in stored order, go round a polygon, getNodes returns the nodes of the polygon in that order starting with the free end of the first edge, each once, during modification as well; consecutive nodes are the ends of consecutive edges; getNodes with a mask returns the selected ones in the same order (during modification if the first edge is visible and, for private masks, the last one).", "quantifier": "all polygons with at least three edges, all directions in which the ends of edges are stored, all sets of hidden edges and nodes, all masks", "why_tests_cant": "There are 2^n directions of edges and 2^n hidden sets per polygon; tests use quadrilaterals with no hidden edge.", "anchors": ["Source/Mesh/face.cpp: Face::getNodes", "Source/Mesh/cell.cpp: Cell::getNodes"]}
{"id": "C87", "title": "FixEdgeOrder repairs every loop and only says yes to loops", "statement": "Face::FixEdgeOrder ends, only permutes the edges, returns true for every order of the edges of a polygon and leaves them in loop order, and returns true only if the edges lead round, in which case getNodes follows them. Cell::FixEdgeOrder can run forever.", "quantifier": "all lists of edges, all permutations of polygons of any size", "why_tests_cant": "n! orders; the endless loop in the version for cells needs an order where the edge sought is two places ahead.", "anchors": ["Source/Mesh/face.cpp: Face::FixEdgeOrder", "Source/Mesh/cell.cpp: Cell::FixEdgeOrder"]}
{"id": "C88", "title": "CheckEdgeOrder accepts loops", "statement": "CheckEdgeOrder returns true for every polygon in loop order (during modification if the first edge is visible). For edges with two different ends and no double second edge it returns true exactly if the edges except the last one lead from node to node; an open chain is accepted.", "quantifier": "all lists of edges with two ends, all hidden sets", "why_tests_cant": "The exact condition is an equivalence over all edge lists; tests feed correct loops only.", "anchors": ["Source/Mesh/face.cpp: Face::CheckEdgeOrder", "Source/Mesh/cell.cpp: Cell::CheckEdgeOrder"]}
{"id": "C89", "title": "Orientation of faces and edges", "statement": "ReorderEdges reverses the loop keeping the first node and undoes itself; BackCell and FrontCell are the first and second visible cell, SwapCells exchanges them, moves no hidden cell, and undoes itself; the same for the ends of an edge (SwapEnds, getBeg, getEnd).", "quantifier": "all polygons, all arrays of cells and nodes, all hidden sets", "why_tests_cant": "Hidden entries can stand at any place of the arrays.", "anchors": ["Source/Mesh/face.cpp: Face::ReorderEdges, Face::SwapCells, Face::BackCell, Face::FrontCell", "Source/Mesh/edge.cpp: Edge::SwapEnds, Edge::getBeg, Edge::getEnd"]}
{"id": "C90", "title": "getAdjElements returns exactly the adjacent elements", "statement": "For every element of a mesh reached by any sequence of creations, deletions and modifications, getAdjElements returns exactly the visible elements of the requested types that are reached through visible elements of the dimensions in between (or by the stored links of cells and nodes) and that pass the mask; each once unless the element was built from repeated elements; the mask only selects and keeps the order; nbAdjElements is the length of the answer; no element keeps a temporary marker.", "quantifier": "all histories of mesh operations, all elements, all sets of types, all masks, with and without stored cell nodes and hidden elements", "why_tests_cant": "The claim is an equivalence over all meshes and hidden sets; tests look at a few elements of a few fixed meshes.", "anchors": ["Source/Mesh/element.cpp: Element::getAdjElements, Element::nbAdjElements", "Source/Mesh/node.cpp", "Source/Mesh/edge.cpp", "Source/Mesh/face.cpp", "Source/Mesh/cell.cpp"]}
{"id": "C91", "title": "Adjacency is symmetric", "statement": "For two visible elements, one is in the answer for the other exactly if the converse holds, whatever dimensions they have and whatever was created, deleted or hidden before.", "quantifier": "all histories of mesh operations, all pairs of visible elements", "why_tests_cant": "Depends on the two directions of links being consistent after every history.", "anchors": ["Source/Mesh/element.cpp: Element::getAdjElements"]}
{"id": "C92", "title": "Requests along a loop agree with getAdjElements", "statement": "The nodes of a face and of a cell of dimension two, found by walking round the loop, are exactly those of getAdjElements, also during modification; edges of a cell of dimension two come in loop order if its first and last face are visible; with a mask the nodes of such a cell are those whose vertex edge passes the mask.", "quantifier": "all histories, all polygons, all hidden sets, all masks", "why_tests_cant": "Two algorithms have to agree on every mesh; the disagreements need a hidden first face or a mask on nodes of a planar cell.", "anchors": ["Source/Mesh/face.cpp: Face::getNodes", "Source/Mesh/cell.cpp: Cell::getNodes, Cell::getEdges"]}
{"id": "C93", "title": "BridgeAdjacencies returns the neighbours through bridges", "statement": "BridgeAdjacencies returns, each once, exactly the elements of the requested types that pass the target mask and are adjacent to a bridge element that passes the bridge mask, except those adjacent to the element itself if the bridge types do not hold its own type; neighbours through bridges of another type are mutual; markers are left clean.", "quantifier": "all histories, all elements, all bridge and target types, all masks", "why_tests_cant": "Needs all combinations of types, masks and hidden elements.", "anchors": ["Source/Mesh/element.cpp: Element::BridgeAdjacencies, Element::BridgeAdjacencies2Node, Element::BridgeAdjacencies2Edge, Element::BridgeAdjacencies2Face, Element::BridgeAdjacencies2Cell"]}
{"id": "C94", "title": "Areas and normals of faces do not depend on the order of nodes", "statement": "The normal of a face is half the sum of the cross products over its loop of edges; it does not change if the loop starts at another node or the mesh is translated, and is negated if the loop is reversed; the area is its length; the area of a triangle agrees with the formula of Heron; the oriented normals of the faces of a cell with a closed boundary sum to zero, also for curved faces; edge lengths are euclidean.", "quantifier": "all polygons, planar or not, all translations, all closed consistently oriented surfaces, over real numbers", "why_tests_cant": "Identities over all real coordinates and all numbers of nodes.", "anchors": ["Source/Mesh/geometry.cpp: Mesh::GetGeometricData (MEASURE, NORMAL), vec_cross_product, triarea3d"]}
{"id": "C95", "title": "The barycenter of a planar face is its centre of mass", "statement": "For a planar face with nonzero area, convex or not, the barycenter is the centre of mass of the region with sign, computed from any apex in the plane; it does not depend on the first node or the direction, moves with a translation, lies in the plane of the face, and is the mean of the nodes for a triangle (also one without area).", "quantifier": "all planar polygons, all apexes in the plane, all translations, over real numbers", "why_tests_cant": "Nonconvex polygons with negative triangles in the fan have to be covered in general.", "anchors": ["Source/Mesh/geometry.cpp: Mesh::GetGeometricData (BARYCENTER, two dimensions)"]}
{"id": "C96", "title": "The volume of a cell", "statement": "For a cell with a closed consistently oriented boundary the volume does not depend on the position of the cell, also with curved faces; with planar faces it is the exact volume from any apex, whatever the global direction of the faces; it is additive over cells with a common face, and is |det|/6 for a tetrahedron.", "quantifier": "all closed oriented polyhedra, all apexes, all translations, over real numbers", "why_tests_cant": "Exactness for all polyhedra is an identity over unboundedly many coordinates.", "anchors": ["Source/Mesh/geometry.cpp: Mesh::GetGeometricData (MEASURE, three dimensions)"]}
{"id": "C97", "title": "The barycenter of a cell is its centre of mass", "statement": "For a cell with planar faces, a closed consistently oriented boundary and nonzero volume the barycenter is the first moment divided by the volume, whatever apex is used for both and whatever point the code shifts the coordinates by; it moves with a translation and is the mean of the nodes for a tetrahedron.", "quantifier": "all closed oriented polyhedra with planar faces, over real numbers", "why_tests_cant": "The code integrates squares of coordinates over the faces; that this is the moment of the body is the divergence theorem for every polyhedron.", "anchors": ["Source/Mesh/geometry.cpp: Mesh::GetGeometricData (BARYCENTER, three dimensions)"]}
{"id": "C98", "title": "The test whether a point is inside of a cell", "statement": "The sum computed for a face is exactly twice the scalar product of its normal with the vector from the point to its centre, so that a point is accepted exactly if no two faces disagree beyond the tolerance; for a cell with planar faces and enough volume these are exactly the points on the inner side of all faces; for a polygon in a mesh of dimension three exactly the points of the triangles over its edges. In a mesh of dimension two every point is accepted by every cell.", "quantifier": "all points, all tolerances, all closed oriented polyhedra, all polygons, over real numbers", "why_tests_cant": "An equivalence over all points and cells; the defect needs a mesh of dimension two.", "anchors": ["Source/Mesh/geometry.cpp: Cell::Inside"]}
{"id": "C99", "title": "The faces of a cell are oriented consistently", "statement": "If the faces of a cell can be directed so that two faces run through every common edge in opposite directions, FacesOrientation ends without reading out of bounds and marks exactly the faces whose direction differs from that of the first face, among those connected to it; there is no other answer. For the whole boundary of a cell the marked surface is closed, and the volume computed with the marks is the exact volume, whatever the directions of the faces were.", "quantifier": "all sets of faces with loops of edges, all directions of the faces, all orders of faces around edges", "why_tests_cant": "A search over an arbitrary surface; a wrong branch needs a particular numbering of nodes, edges and faces.", "anchors": ["Source/Mesh/geometry.cpp: Mesh::FacesOrientation, Mesh::GetGeometricData"]}
{"id": "C100", "title": "The convexity test and the short way to orient the faces of a convex cell", "statement": "With exact numbers the test answers true exactly if for every face the centroids of all faces lie on one side of it; a tolerance never rejects such a cell. For such a cell a face whose normal points away from the other faces is not reversed and a face whose normal points towards them is reversed.", "quantifier": "all lists of centroids and normals, all tolerances, over real numbers", "why_tests_cant": "An equivalence over all cells; comparison of sums of absolute values.", "anchors": ["Source/Mesh/geometry.cpp: Mesh::CheckConvexity, Mesh::FacesOrientation"]}
{"id": "C101", "title": "Check and repair of the direction of a face", "statement": "For a cell with planar faces CheckNormalOrientation answers true exactly if the volume of the cell is not negative when all faces are directed consistently with the given face. FixNormalOrientation makes the check true, negates the normal of the face if the check was false and leaves all other faces as they are.", "quantifier": "all cells with planar faces, all faces of the cell, all directions of the faces, over real numbers", "why_tests_cant": "All polyhedra, convex or not, and all directions of all faces.", "anchors": ["Source/Mesh/geometry.cpp: Face::CheckNormalOrientation, Face::FixNormalOrientation"]}
{"id": "C102", "title": "The orientation used by the test whether a point is in a cell", "statement": "Without stored orientation Cell::Inside finds the right direction exactly for the faces that share an edge with the first face and takes the others as they are; if all faces touch the first one the marks are those of FacesOrientation. Otherwise the answer may be wrong: the centre of a cube is rejected if the face opposite to the first one is directed the other way.", "quantifier": "all sets of faces with loops of edges, all directions of the faces", "why_tests_cant": "Tests with tetrahedra or with consistently directed faces pass.", "anchors": ["Source/Mesh/geometry.cpp: Cell::Inside"]}
{"id": "C103", "title": "Building the inner_ilu2 preconditioner leaves the matrix of the user unchanged", "statement": "With at least one iteration of rescaling the weights of rows and columns are positive for every matrix and every earlier content of the working vectors, the rows of the rescaled matrix have unit length (if not tiny), and after the preconditioner was built the matrix is the one given. With \"rescale_iterations\" equal to zero the weights of the columns are zero: every entry is multiplied by zero and divided by zero afterwards.", "quantifier": "all sparse matrices, all numbers of iterations, all earlier contents of the working vectors; over real numbers", "why_tests_cant": "Depends on stale content of vectors of a reused object and on all matrices; zero iterations are not used in the tests.", "anchors": ["Source/Solver/solver_inner/solver_ilu2/solver_ilu2.hpp: ILU2_preconditioner::Initialize", "Source/Solver/solver_inner/solver_ilu2/SolverILU2.cpp: SolverILU2::SetMatrix"]}
{"id": "C104", "title": "The incomplete factorization with two thresholds is the one described", "statement": "For every square matrix with distinct columns in a row the factorization ends without failed assertion or access out of bounds. Its rows are sorted and triangular with invertible diagonals. Every row of the matrix equals the combination of the earlier rows of U with multipliers c plus a rest: a multiplier above the second threshold uses the large entries of U, one above the first threshold also the small ones; multipliers and scaled rests are stored if above the thresholds, rows are divided by their largest value, and a pivot of size at most 1e-12 is replaced by one of that size and the same sign.", "quantifier": "all matrices, all thresholds (the second positive), all earlier contents of the working row; over real numbers", "why_tests_cant": "An algebraic identity for every matrix and every pattern of fill-in kept in a linked list.", "anchors": ["Source/Solver/solver_inner/solver_ilu2/solver_ilu2.hpp: ILU2_preconditioner::Initialize"]}
{"id": "C105", "title": "Solve with the factors inverts LU, and solves the system if nothing was dropped", "statement": "For triangular factors with invertible diagonals Solve returns the vector z with LUz = b; it is a linear map; the factors built with a positive second threshold have that form. With zero thresholds, no replaced pivot and no tiny nonzero entry after rescaling the preconditioner is the inverse of the matrix: Az = b.", "quantifier": "all factors, all right-hand sides, all matrices; over real numbers", "why_tests_cant": "All matrices and right-hand sides; tests only see the number of iterations of the outer method.", "anchors": ["Source/Solver/solver_inner/solver_ilu2/solver_ilu2.hpp: ILU2_preconditioner::Solve, ILU2_preconditioner::Initialize"]}
{"id": "C106", "title": "The residual reported by the inner solvers is the residual of the returned vector", "statement": "Whenever Solve of an inner solver returns, GetResidual is the length of b - Ax for the returned vector x, also if it stopped early because a multiplier was too large or undefined; Solve answers true exactly if that residual is below the absolute tolerance or below the relative tolerance times the initial residual; GetIterations is at most the limit plus one. If the initial vector is the exact solution and the absolute tolerance is zero, the answer is false.", "quantifier": "all matrices, right-hand sides, initial vectors, all preconditioners (also nonlinear or wrong ones), all random numbers, all parameters; over real numbers", "why_tests_cant": "The residual is updated by a recursion and never recomputed; that it stays the true one is an invariant over all iterations and all ways out of the loop.", "anchors": ["Source/Solver/solver_inner/solver_bcgsl.hpp: BCGS_solver::Solve", "Source/Solver/solver_inner/SolverInner.cpp: SolverInner::Solve, SolverInner::Residual, SolverInner::Iterations"]}
{"id": "C107", "title": "With an exact preconditioner the inner solver needs one iteration; limit of iterations and zero tolerances", "statement": "Every iteration is one of the stabilized biconjugate gradient method: alpha makes the half-step residual orthogonal to the shadow residual, omega minimizes the residual of the second half. If the preconditioner is an inverse of the matrix (inner_ilu2 with zero thresholds and no replaced pivot), one iteration from any initial vector gives the exact solution and Solve answers true. The limit of iterations N admits N+1 iterations. With both tolerances zero Solve never returns after the exact solution was reached.", "quantifier": "all matrices, right-hand sides, initial vectors with initial residual between 1e-50 and 1e100; over real numbers", "why_tests_cant": "A statement about all systems; the endless loop needs zero tolerances and an exactly zero residual.", "anchors": ["Source/Solver/solver_inner/solver_bcgsl.hpp: BCGS_solver::Solve", "Source/Solver/solver_inner/solver_ilu2/SolverILU2.cpp: SolverILU2::SetMatrix"]}
{"id": "C108", "title": "A matrix written with Matrix::Save is read back by Matrix::Load", "statement": "Load on an empty matrix of the file written by Save gives the same rows, the same columns in the same order, and values that differ by at most 1e-15 of their size; values of at most 16 decimal digits are the same. A matrix that starts at a row other than zero is restored if Load is given the interval. Not so: all doubles are restored (1+2^-52 becomes 1); infinite and undefined values (become zero); a matrix that starts at a row other than zero without an interval (its last rows are lost).", "quantifier": "all matrices with row and column numbers below 2^32-1 and distinct columns in each row, all finite double values, all names and annotations without line ends and of bounded length", "why_tests_cant": "Depends on correct rounding of all doubles to decimal and back and on the layout of all matrices; tests load a few well-behaved files.", "anchors": ["Source/Solver/sparse.cpp: Matrix::Save, Matrix::Load"]}
{"id": "C109", "title": "Load into a matrix that has rows already; malformed text", "statement": "Load over an interval [b,e) gives the rows b..e-1; an element of the file replaces the element at its place, the last one wins, other elements of the old matrix at the same offset stay. Comments and empty lines do not matter. The text after the last line end is ignored without error; a line of more than 16383 characters makes Load loop forever, so annotations that Save writes happily can not be read; an annotation with a line end is read as an element.", "quantifier": "all old and new matrices, intervals, annotations, file tails", "why_tests_cant": "The defects need unusual files (no final newline, long comments) or annotations; the overlay rule concerns all pairs of matrices.", "anchors": ["Source/Solver/sparse.cpp: Matrix::Save, Matrix::Load", "Source/Headers/inmost_sparse.h: Row::operator[], Matrix::SetInterval"]}
{"id": "C110", "title": "Matrix files and several processes, order files", "statement": "When a file is loaded by several processes without explicit interval, the rows of the processes in the order of ranks are the rows of the file, each once. The file written by several processes with MPI files loads like the file one process would write for the whole matrix. With an order file the element (r,c) is found at (o(r),o(c)). Without MPI files the parallel Save writes received text outside of its buffer.", "quantifier": "all numbers of processes, all matrices, all permutations, all distributions of rows", "why_tests_cant": "All numbers of processes and all sizes, including those not divisible; the build without MPI files is not tested.", "anchors": ["Source/Solver/sparse.cpp: Matrix::Save, Matrix::Load"]}
{"id": "C111", "title": "A vector written with Vector::Save is read back by Vector::Load", "statement": "Load of the file written by Save gives the same number of values, each rounded to 16 decimal digits and back. With an interval and an order file, the k-th value goes to place o(k) if it is in the interval and nothing else changes.", "quantifier": "all vectors shorter than 2^32, all intervals, all permutations", "why_tests_cant": "All lengths and permutations.", "anchors": ["Source/Solver/sparse.cpp: Vector::Save, Vector::Load"]}
{"id": "C112", "title": "The maximum product transversal of the inner preconditioner is one", "statement": "If one nonzero element per row with different columns can be chosen at all, the function chooses such elements; no other choice of columns in a square matrix has a larger product of absolute values (with more columns than rows, of absolute values relative to the largest of their columns). The returned row and column scalings make every element of the matrix at most one in absolute value and the chosen elements exactly one.", "quantifier": "all sparse matrices, with at least as many columns as rows, that have a transversal and no stored column of zeros; all choices compared with", "why_tests_cant": "Optimality is a statement about all n! choices for all matrices; tests only see that the solver converges.", "anchors": ["Source/Solver/solver_inner/solver_mlmptiluc/solver_mlmtiluc2.cpp: MLMTILUC_preconditioner::MaximalTransversal", "Source/Misc/utils.h: BinaryHeap"]}
{"id": "C113", "title": "Limits of the maximum product transversal", "statement": "With more columns than rows the product of the chosen elements itself need not be maximal. If a column holds stored zeros only, the function may choose one of these zeros although a choice of nonzero elements exists. If nonzero elements can not be chosen in all rows, the scaled matrix may have elements larger than one.", "quantifier": "existence of matrices", "why_tests_cant": "Needs matrices with special structure (wide, stored zeros, structurally singular).", "anchors": ["Source/Solver/solver_inner/solver_mlmptiluc/solver_mlmtiluc2.cpp: MLMTILUC_preconditioner::MaximalTransversal", "Source/Misc/utils.h: BinaryHeap"]}
{"id": "C114", "title": "Products with a sparse matrix and with its transpose", "statement": "MatVec(alpha,x,beta,out) leaves beta*out + alpha*A*x in out for the rows of A and does not touch other elements; MatVecTranspose leaves beta*out + alpha*A^T*x; columns stored more than once in a row add up; no element outside of the vectors is accessed when columns and rows lie in their intervals. The two products are adjoint. An empty out is given the interval of the rows; for the transposed product this is wrong unless the columns lie among the rows.", "quantifier": "all matrices, vectors, intervals and factors with columns and rows inside the intervals", "why_tests_cant": "Intervals that start at different numbers, repeated columns and beta = 0 all interact; tests fix one matrix.", "anchors": ["Source/Solver/sparse.cpp: Row::RowVec, Matrix::MatVec, Matrix::MatVecTranspose"]}
{"id": "C115", "title": "Rescaling, clearing and norm of a system of equations", "statement": "Residual::Rescale(p) multiplies each equation (row of the jacobian, right hand side, second derivatives) by one positive number such that its row gets unit norm; rows of zeros are left as they are; every equation keeps its solutions. Clear leaves empty rows and zeros. Norm is the Euclidean norm, zero only if every residual is zero.", "quantifier": "all systems, all p >= 1 and the maximum norm", "why_tests_cant": "Equal scaling of all three parts for every row and norm can not be seen from single examples.", "anchors": ["Source/Autodiff/residual.cpp: Residual::Rescale, Residual::Clear, Residual::Norm"]}
{"id": "C116", "title": "Moving rows of a sparse matrix", "statement": "MoveRows(from,to,size) copies the rows to..to+size-1 into from..from+size-1 (not the other way round) and leaves other rows alone, if to < from or the ranges do not meet; otherwise one row may be repeated.", "quantifier": "all matrices, ranges inside of the interval", "why_tests_cant": "Overlap in both directions has to be considered for all sizes.", "anchors": ["Source/Solver/sparse.cpp: Matrix::MoveRows, HessianMatrix::MoveRows"]}
{"id": "C117", "title": "Product of second derivatives with a row", "statement": "HessianRow::RowVec(alpha,rU,beta,rJ) leaves beta*rJ + alpha*H*rU in rJ, where H is the symmetric matrix of the stored elements, if rU, rJ and H store equally many elements. Otherwise elements of H may be dropped, elements of rJ not scaled, or elements outside of the rows read.", "quantifier": "all rows without repeated columns in rU and hessian rows of equal sizes", "why_tests_cant": "Which sizes occur depends on the expressions that produced the rows.", "anchors": ["Source/Solver/sparse.cpp: HessianRow::RowVec, HessianMatrix::MatVec"]}
{"id": "C118", "title": "Value of an arithmetic expression in an XML file", "statement": "The text of an expression made of numbers, + - * /, parentheses and a leading minus sign evaluates to its value by the usual rules of precedence and left to right order, without an error, as long as no subtraction directly follows a closing parenthesis. For every text an error is reported exactly if a closing parenthesis has no opening one or no value is found. Not covered by the usual rules and shown by witnesses: \"(3)-2\", \"2*-3\" have no value, \"(3\" and \"3(4)+\" have one, \"1e-5\" is 1-5.", "quantifier": "all expression trees over any type of numbers; all texts for the error", "why_tests_cant": "Precedence, associativity and signs interact in unboundedly nested expressions.", "anchors": ["Source/Misc/xml.cpp: Interpreter::Evaluate, Interpreter::Expand, Interpreter::MakePolish, Interpreter::Run, get_priority"]}
{"id": "C119", "title": "Repetition of a value in an XML file", "statement": "The expression after * gives the number of repetitions: SetSize stands for the size of the set and the result is converted to an integer; without an expression the value is used once.", "quantifier": "all expressions whose numbers are SetSize or do not contain the letter S, all sizes", "why_tests_cant": "Replacement in the text and evaluation of the new text have to agree with evaluation of the expression for all positions of SetSize.", "anchors": ["Source/Misc/xml.cpp: XMLReader::ConvertMultiplier, XMLReader::EvaluateExpression"]}
{"id": "C120", "title": "Splitting of the contents of an XML data set into words", "statement": "Words, lists in braces (spaces inside are dropped) and quoted text (guarded quotes inside, end marks inside are fine), each with an optional * and a number or an expression in parentheses, separated by any spaces, are read one by one, and reading stops at the end mark. Contents without end mark never finish.", "quantifier": "all lists of such values with all spacings", "why_tests_cant": "Six states with lookback on the last character and a counter of brackets; the mixtures of values and spacings are unbounded.", "anchors": ["Source/Misc/xml.cpp: XMLReader::GetContentsWord, XMLReader::isContentsEnded"]}
{"id": "C121", "title": "Values and repetitions in XML data sets", "statement": "A word {a,b,...}*e has the values of its parts and the repetitions of e. Dense data of fixed size: words of whole records fill the elements one after another, what is not reached keeps its values; variable size: one word per element.", "quantifier": "all words, repetitions, record sizes, element counts", "why_tests_cant": "Records may span words in any proportion; the position is kept by two counters and a modulus.", "anchors": ["Source/Misc/xml.cpp: XMLReader::ParseReal, XMLReader::ParseInteger, XMLReader::ParseBulk, XMLReader::SplitValueMultiplier", "Source/IO/mesh_xml_file.cpp: Mesh::LoadXML"]}
{"id": "C122", "title": "Data sets saved to XML are loaded unchanged", "statement": "Dense data (fixed and variable size, also empty records) and sparse data written by SaveXML are read back by LoadXML to the same elements, for integers, all bytes and references, and for any kind of value whose text is read back and has no special characters. Sparse records without values are not kept.", "quantifier": "all data of all elements", "why_tests_cant": "Writer and reader are separate programs over text; line breaks depend on counts of values.", "anchors": ["Source/IO/mesh_xml_file.cpp: Mesh::SaveXML, Mesh::LoadXML", "Source/Misc/xml.cpp: CharToHex, ReferenceToString, XMLReader::atoh"]}
{"id": "C123", "title": "References in XML data sets", "statement": "A saved reference to the k-th element of a type is loaded as the k-th element of that type; data of a set can be addressed by its name in apostrophes. Invalid references are loaded as the first node, names in double quotes address set zero.", "quantifier": "all types, numbers, tables of elements, set names", "why_tests_cant": "Needs all element types and numbers, and invalid handles.", "anchors": ["Source/Misc/xml.cpp: XMLReader::atoh, XMLReader::atoe, ReferenceToString", "Source/IO/mesh_xml_file.cpp: Mesh::LoadXML"]}
{"id": "C124", "title": "Variables and remote references in XML data sets", "statement": "A saved variable is loaded with its value and number of derivatives, but the derivatives are not restored: only every second place from the third on is set, from the wrong derivative. A saved remote reference is loaded without the type of its element.", "quantifier": "all variables with any number of derivatives, all remote references", "why_tests_cant": "Tests without derivatives pass; the exact result for every number of derivatives shows that none is right.", "anchors": ["Source/Misc/xml.cpp: VariableToString, XMLReader::atov, XMLReader::atorh"]}
{"id": "C125", "title": "Precision of real numbers and coordinates in XML files", "statement": "Real numbers are saved with six digits: numbers of at most six digits are kept, others are off by at most 5e-6 of their size; distinct coordinates may become equal.", "quantifier": "all double precision numbers", "why_tests_cant": "Round numbers used in tests are kept.", "anchors": ["Source/IO/mesh_xml_file.cpp: Mesh::SaveXML"]}
{"id": "C126", "title": "XML trees are read back as written", "statement": "WriteXML followed by ReadXML gives the same tree (names, attributes in order, children in order, contents), for every tree whose names, values and contents can be expressed in the format, at every depth and indentation, and leaves what follows in the stream.", "quantifier": "all trees of any depth, attributes, contents, indentation, text after the tree", "why_tests_cant": "Trees and texts are unbounded; the reader is a recursive automaton with a pushed back character.", "anchors": ["Source/Misc/xml.cpp: WriteXML, XMLReader::ReadXML, XMLReader::OpenTag, XMLReader::CloseTag"]}
{"id": "C127", "title": "Reading of XML documents with any layout", "statement": "Documents with any spaces, comments, processing instructions, text, data blocks and included files (which may include further files) are read as the tree they describe: elements in order and all text joined. Writing the tree and reading it again gives the same tree.", "quantifier": "all documents of the described grammar, all file contents", "why_tests_cant": "Layouts are unbounded; comments and text interact with one character of lookahead.", "anchors": ["Source/Misc/xml.cpp: XMLReader::ReadXML, XMLReader::SkipComments, XMLReader::ReadOpenTag, XMLReader::AttributeName, XMLReader::AttributeValue, XMLReader::PushStream, XMLReader::ReadUntil"]}
{"id": "C128", "title": "Reading of XML ends for every input", "statement": "ReadXML ends for every text, well formed or not, when no other file is included. It ends with an exception for some truncated files, and does not end for a file that includes itself.", "quantifier": "all texts", "why_tests_cant": "Arbitrary malformed input.", "anchors": ["Source/Misc/xml.cpp: XMLReader::ReadXML, XMLReader::ReadUntil, XMLReader::GetChar"]}
{"id": "C129", "title": "Failed reading of XML is visible to the caller", "statement": "If a document is cut off anywhere, reading throws or leaves the reader failed. If the reader is not failed, the text after the document has no influence on the tree. Wrong end tags are not visible in the state.", "quantifier": "all documents, all places to cut, all names", "why_tests_cant": "All prefixes of all documents.", "anchors": ["Source/Misc/xml.cpp: XMLReader::ReadXML, XMLReader::isFailure, XMLReader::ReadFinishTag, XMLReader::ReadCloseTag"]}
{"id": "C130", "title": "The k-means partitioner gives every cell an existing process", "statement": "Partitioner::Evaluate with INNER_KMEANS gives every owned cell of every process exactly one destination; it is between 0 and the number of processes minus one, and the centre of that process is nearest to the cell among one list of centres common to all processes. No vector is accessed outside its bounds, also when processes have no cells.", "quantifier": "all numbers of processes, all distributions of cells, all positions, all random numbers", "why_tests_cant": "Positions and distributions are unbounded; empty clusters produce NaN centres that must not spread.", "anchors": ["Source/Partitioner/partitioner.cpp: Partitioner::Evaluate (package 3, INNER_KMEANS)"]}
{"id": "C131", "title": "The k-means partition does not depend on how work is handed around", "statement": "The destinations computed by all processes together (including gathering all points on process 0, handing them out evenly and handing the destinations back) are those of one damped Lloyd iteration on the list of all cells, with given starting centres; this run is determined by cells, order and starting centres.", "quantifier": "all numbers of processes, all distributions, all positions", "why_tests_cant": "A wrong offset shows only for certain numbers of cells per process; the equivalence ranges over all of them.", "anchors": ["Source/Partitioner/partitioner.cpp: Partitioner::Evaluate (package 3: MPI_Gatherv, MPI_Scatterv, MPI_Allreduce)"]}
{"id": "C132", "title": "When the k-means partitioner leaves a process idle", "statement": "If no cell is nearest to the starting centre of a process, the process receives no cell. This happens with more cells than processes and all processes having cells at the start.", "quantifier": "all distributions and positions; witness with four cells on three processes", "why_tests_cant": "Needs all later rounds.", "anchors": ["Source/Partitioner/partitioner.cpp: Partitioner::Evaluate (package 3)"]}
{"id": "C133", "title": "k-means rounds do not make the clusters wider", "statement": "The sum of squared distances of the cells to the centres of their clusters never grows from round to round, in spite of the damping of the centres.", "quantifier": "all positions, all rounds", "why_tests_cant": "Numerical property for all inputs.", "anchors": ["Source/Partitioner/partitioner.cpp: Partitioner::Evaluate (package 3)"]}
{"id": "C134", "title": "The stable k-means partitioner leaves no process idle", "statement": "INNER_SKMEANS gives every owned cell the number of a process, and with at least as many cells as processes every process receives a cell. Every cell goes to its nearest final centre, except as many cells as this leaves processes idle; these go to the idle processes.", "quantifier": "all numbers of processes, all distributions, all positions (also coinciding), all random numbers", "why_tests_cant": "Repair has to work from every state the iteration may end in.", "anchors": ["Source/Partitioner/partitioner.cpp: Partitioner::Evaluate (package 8, INNER_SKMEANS)"]}
{"id": "C135", "title": "Tables interpolate linearly", "statement": "For a table with at least two strictly increasing arguments every query keyval_table::GetValue is answered without reading outside the table. Arguments of the table give their values back; between two neighbouring arguments the value lies on the straight line through the two entries; below the first argument it is the first value; above the last argument it continues the line through the last two entries (it is not held constant).", "quantifier": "all tables, all arguments", "why_tests_cant": "Search and clamping have to pick the right segment for every table length and every argument.", "anchors": ["Source/Headers/inmost_expression.h: keyval_table::binary_search, GetValue"]}
{"id": "C136", "title": "Table derivatives belong to the table values", "statement": "GetDerivative is zero below the first argument and otherwise the slope of the segment that starts at or before the argument (the last one at and beyond the end); GetBoth returns exactly the value and the derivative of the two other functions; within a segment the value grows by the derivative times the step.", "quantifier": "all tables, all arguments", "why_tests_cant": "Consistency of three functions at all arguments, including the nodes where the slope jumps.", "anchors": ["Source/Headers/inmost_expression.h: keyval_table::GetDerivative, GetBoth"]}
{"id": "C137", "title": "Tables keep monotonicity and bounds", "statement": "If the values of the table do not decrease then GetValue does not decrease with the argument, also outside the table. Up to the last argument the value stays within any bounds that hold for all values of the table.", "quantifier": "all tables, all pairs of arguments", "why_tests_cant": "Relation between queries in different segments.", "anchors": ["Source/Headers/inmost_expression.h: keyval_table::GetValue"]}
{"id": "C138", "title": "Copying tables, and tables too short to evaluate", "statement": "Assigning one table to a different one makes them equal and changes no other table; assigning a table to itself empties it. A table with a single entry reads outside its arrays for every argument at or above the entry; an empty table always does.", "quantifier": "all tables", "why_tests_cant": "Reads outside arrays need not show in tests.", "anchors": ["Source/Headers/inmost_expression.h: keyval_table::operator=, Clear, binary_search"]}
{"id": "C139", "title": "Values of a parameter given by a range", "statement": "An optimization parameter created from a range and a step whose length is a whole number n of steps has the n values first, first+step, ... without the end of the range. For any other range (and, because of rounding, for 0 to 1 in steps of 0.1 in doubles) the constructor writes past the end of the array of values.", "quantifier": "all ranges and positive steps, exact arithmetic; one case in double arithmetic", "why_tests_cant": "An overrun by one element need not crash; whether it happens depends on rounding of every range.", "anchors": ["Source/Optimizer/optimizers.cpp: OptimizationParameter::OptimizationParameter"]}
{"id": "C140", "title": "Closest value of a parameter", "statement": "GetClosestIndexTo and GetClosestTo return the first of the values with the smallest distance to the argument; a value of the parameter is returned for itself.", "quantifier": "all parameters with values, all arguments", "why_tests_cant": "Ties and unsorted values for all lists.", "anchors": ["Source/Optimizer/optimizers.cpp: OptimizationParameter::GetClosestTo, GetClosestIndexTo"]}
{"id": "C141", "title": "The buffer of results keeps the latest", "statement": "After any number of pushes a buffer of capacity c >= 1 lists the latest c results, the latest first. The last successful result is the first good one of this list; IsLastResultSuccessful and IsSuccessfulResultExist agree with the list. GetLastUniqueEntries returns stored results that differ pairwise, every stored result being close to one of them unless the limit was reached; it may return one more than the limit. A buffer of capacity zero removes from an empty container on the first push.", "quantifier": "all capacities, sequences of results and limits", "why_tests_cant": "Sequences of any length against any capacity.", "anchors": ["Source/Optimizer/optimizers.cpp: OptimizationParameterResultsBuffer"]}
{"id": "C142", "title": "Suggestions and accepted results", "statement": "For the noop, alternating and annealing optimizers without restarts: a suggestion reports the current point and metrics and changes one parameter. After its result is saved the current point is the suggested one with the reported metrics, which happens only for a good result, or nothing has changed. Changing one parameter changes only that coordinate. For a list with two changes of one parameter the announced point and the point after the update differ.", "quantifier": "all reachable states, all reported metrics and outcomes", "why_tests_cant": "Agreement of two functions over all states.", "anchors": ["Source/Optimizer/optimizers.cpp: OptimizerInterface::Suggest, SaveResult, OptimizationParameters::GetPointsWithChangedParameters, Update"]}
{"id": "C143", "title": "Restarting with the best result", "statement": "With the strategy \"restart with best\" and a buffer larger than the number of allowed failures, a trial accepts a good result, or counts one more failure, or, with more failures than allowed, moves to a result with the smallest metrics among the latest ones. For the noop optimizer that result is always one reported as bad. With a smaller buffer the restart reads past its end, and with an equally large full one it uses a removed result if the oldest is best.", "quantifier": "all reachable states, all reported metrics and outcomes", "why_tests_cant": "Counters, buffer contents and parameters have to agree in long sequences.", "anchors": ["Source/Optimizer/optimizers.cpp: OptimizerInterface::RestartWithBestStrategy, SaveResult"]}
{"id": "C144", "title": "The alternating optimizer never fails and takes turns", "statement": "For parameters that have values, the alternating optimizer runs through any sequence of trials without reading outside its arrays and always suggests a listed value of one parameter. After a good result it goes on to the next parameter in a circle. After a bad one it repeats the same suggestion. A parameter with at most two values is never changed.", "quantifier": "all parameter lists, capacities and sequences of results", "why_tests_cant": "All sequences of results; directions and indices change at the ends of the values.", "anchors": ["Source/Optimizer/optimizers/alternating/alternating.cpp: AlternatingParameterHandler::NextIndex, AlternatingOptimizer"]}
{"id": "C145", "title": "The alternating optimizer moves only to better points", "statement": "Without restarts and with defaults among the listed values, the current point changes only on a good result with metrics smaller than the current ones, or when the current metrics are not known (negative). With restarts it may move to a worse point.", "quantifier": "all parameter lists and sequences of results", "why_tests_cant": "All sequences; the suggested value is computed twice from state that may have changed.", "anchors": ["Source/Optimizer/optimizers/alternating/alternating.cpp: UpdateSpaceWithLatestResults"]}
{"id": "C146", "title": "The annealing optimizer stays in range", "statement": "Whatever the random numbers, temperature and results, every value suggested by the annealing optimizer lies between the smallest and largest value of the parameter; it differs from the current one by at most the oscillation barrier times the length of the range; with use_closest it is a listed value. With strict bounds a value at an end of the range is suggested forever; a parameter with a single value leads to a division by zero.", "quantifier": "all parameters with ordered ends, random numbers and sequences of results", "why_tests_cant": "Random behaviour.", "anchors": ["Source/Optimizer/optimizers/annealing/annealing.cpp: AnnealingParameterHandler::GetNextValue, AnnealingOptimizer"]}
{"id": "C147", "title": "Saved optimizers", "statement": "After SaveOptimizerOrReplace with parameters, GetSavedOptimizer returns the new optimizer for that name and what it returned before for all others; without parameters nothing changes. With an unknown type the optimizer saved before under the name is lost and null is returned.", "quantifier": "all names, types and sets of saved optimizers", "why_tests_cant": "Effect on all other names.", "anchors": ["Source/Optimizer/optimizers.cpp: Optimizers::SaveOptimizerOrReplace, GetSavedOptimizer"]}
{"id": "C148", "title": "Adjacency stays symmetric through Connect and Disconnect", "statement": "After any sequence of creations, deletions, modifications, Connect and Disconnect calls, an element is listed below another exactly as many times as the other is listed above it, both exist and their types fit.", "quantifier": "all sequences of calls on a mesh without element sets", "why_tests_cant": "All histories; lists are edited from both sides in different places.", "anchors": ["Source/Mesh/modify.cpp: Element::Connect, Element::Disconnect"]}
{"id": "C149", "title": "What Connect and Disconnect change", "statement": "When the lists of nodes of cells need no update, Disconnect with a list never fails for valid elements and removes exactly the connections between the element and the listed ones, on both sides, keeping all other lists; the order changes only for a cell leaving a face, where the other visible cell comes first. Connect appends the listed elements to the lower list (before the edges of a face are put in order) and the element to their upper lists, and changes nothing else.", "quantifier": "all reachable meshes, elements and lists", "why_tests_cant": "Arbitrary lists with repetitions and unrelated elements.", "anchors": ["Source/Mesh/modify.cpp: Element::Connect, Element::Disconnect"]}
{"id": "C150", "title": "Geometry is computed again where needed", "statement": "Disconnect computes again the geometric data of exactly the elements built on an element whose lower list changed; Connect, of exactly the elements built on the element or on a connected one. Each is computed once, lower types first.", "quantifier": "all reachable meshes, elements and lists", "why_tests_cant": "Propagation through any mesh.", "anchors": ["Source/Mesh/modify.cpp: Element::Connect, Element::Disconnect"]}
{"id": "C151", "title": "Node lists of cells after Connect and Disconnect", "statement": "The expected update of the node lists of cells is refuted: no call ever adds a node to such a list. In the default configuration a call that affects a cell with nodes uses a marker as if it were an element: it fails when there is no element set with the number derived from the marker, and otherwise that set is listed among the nodes of the cell. An edge with two nodes accepts a third one.", "quantifier": "all reachable meshes with node lists, elements and lists", "why_tests_cant": "The outcome depends on which markers and sets happen to exist.", "anchors": ["Source/Mesh/modify.cpp: Element::Connect, Element::Disconnect"]}
{"id": "C152", "title": "Objects of a Model are found under the names they were added with", "statement": "With assertions compiled, after any history of additions an entry, mesh, submodel, function or operator is found under a name exactly if it was added under this name; names are unique and listed in the order of addition; an entry goes to the end, to the front, or right after the named entry (to the end if there is none). An addition is refused exactly if the name is taken or the model is initialized. That GetScalarFunctionNames lists scalar functions is refuted: it lists the matrix functions.", "quantifier": "all histories of calls, names and objects", "why_tests_cant": "All histories and interleavings of kinds.", "anchors": ["Source/Autodiff/model.cpp: AddEntry, AddFirstEntry, AddAfterEntry, AddMesh, AddSubModel, AddScalarFunction, AddMatrixFunction, AddOperator, GetScalarFunctionNames"]}
{"id": "C153", "title": "Coupling terms of a Model", "statement": "With assertions compiled no coupling term can be added to any model: the check for an existing name reads a list that does not exist. Without assertions a term is found under its submodel and name unless the name was taken, other terms are found as before; the search is meaningless exactly if nothing was added for the submodel. Names of unknown submodels share their terms, and a term added before its submodel is lost once the submodel is added.", "quantifier": "all histories of calls, submodels and names", "why_tests_cant": "A statement about every history; the failure is undefined behaviour that may pass unnoticed.", "anchors": ["Source/Autodiff/model.cpp: AddCouplingTerm, GetCouplingTerm, GetCouplingTermNames"]}
{"id": "C154", "title": "Phases of a Model call every object and succeed together", "statement": "Initialize, PrepareEntries, PrepareIterations, FillResidual, UpdateSolution and the time step functions call each of their objects once in a fixed order, also after a failure, and succeed exactly if all calls do. A submodel takes part in FillResidual and UpdateSolution unless the last switch of its name was to inactive. After successful initialization nothing can be added. Refuted: coupling terms of inactive submodels are not evaluated (header), terms are called in the order of addition, a repeated Initialize after a failure registers each entry once.", "quantifier": "all models, all behaviours of the objects, all states", "why_tests_cant": "Quantifies over arbitrary user objects.", "anchors": ["Source/Autodiff/model.cpp: PrepareEntries, Initialize, PrepareIterations, FillResidual, UpdateSolution, UpdateTimeStep, SetTimeStep, RestoreTimeStep", "Source/Headers/inmost_model.h: AddCouplingTerm"]}
{"id": "C155", "title": "Multiplier, time step and entry switches of a Model", "statement": "UpdateMultiplier is the least of 1 and the answers of active submodels, all terms and functions; AdjustTimeStep the least of the given step and the answers of all submodels, terms and functions; answers that are not numbers are passed over. ToggleEntryState switches each named entry to its last requested state, and is undefined exactly if a switched name belongs to no entry.", "quantifier": "all models, answers and histories of switches, any total order with incomparable values", "why_tests_cant": "All answers including not-a-number, all histories.", "anchors": ["Source/Autodiff/model.cpp: UpdateMultiplier, AdjustTimeStep, ToggleEntryState"]}
{"id": "C156", "title": "References to deleted elements become invalid, everything else stays", "statement": "When the links to the elements of a marker are removed (ApplyModification), every array of references other than the adjacency keeps its length; entries that point at a marked element become invalid handles, all other entries keep their value, and data of other types is not touched. No reference to a marked element is left.", "quantifier": "for all lists of tags, all arrays of references and all marker values", "why_tests_cant": "A test deletes some elements and looks at a few arrays; the claim covers every tag, every array and every subset of deleted elements.", "anchors": ["Source/Mesh/modify.cpp: Mesh::RemoveLinksToDeletedElements, ApplyModification, Hide, Delete", "Source/Mesh/eset.cpp: ElementSet::RemChild, RemSibling, Erase, DeleteSet"]}
{"id": "C157", "title": "The hierarchy of sets after sets were deleted consists of the sets that remain", "statement": "After any history of building the hierarchy and any deletions with DeleteSet, removing the links passes without a failed assertion: each remaining set keeps exactly its remaining children in their order, and deleted sets have neither a parent nor children. When sets are marked directly it holds if no marked set has a marked child and no set that left its parent still has a marked sibling; otherwise the call may fail, depending on the numbers of the sets. The children of a deleted set keep their siblings, so one of them put under another set brings the others along.", "quantifier": "for all histories of operations on the hierarchy, all sets of deleted or marked sets and all orders in which sets are visited", "why_tests_cant": "The pointers are changed while the loop goes over all sets; whether it passes depends on the order of numbers and on what was marked together, far too many combinations to try.", "anchors": ["Source/Mesh/modify.cpp: Mesh::RemoveLinksToDeletedElements, ApplyModification, Hide, Delete", "Source/Mesh/eset.cpp: ElementSet::RemChild, RemSibling, Erase, DeleteSet"]}
{"id": "C158", "title": "Exactly the deleted elements leave a set", "statement": "When the links to the elements of a marker are removed, each set loses exactly its marked elements; the others stay at their positions in their order, each freed position is recorded once for reuse, and Size stays equal to the number of elements.", "quantifier": "for all sets including free positions and all marker values", "why_tests_cant": "The loop erases from the container it iterates over; all arrangements of free positions and marked elements matter.", "anchors": ["Source/Mesh/modify.cpp: Mesh::RemoveLinksToDeletedElements, ApplyModification, Hide, Delete", "Source/Mesh/eset.cpp: ElementSet::RemChild, RemSibling, Erase, DeleteSet"]}
{"id": "C159", "title": "Loops found when a face or cell is split close and use no element too often", "statement": "Splitting a face by edges (a cell by faces) always ends. Each loop that becomes a new face (cell) consists of different elements, is one connected piece, and every node (edge) of it belongs to exactly two of its elements. A given inner element is part of at most two new faces (cells), an element of the old boundary of at most one. The visits that remain are the allowed ones less the loops found, or one less where the element was given up. If the same edge is given twice, part of the face may be lost.", "quantifier": "for all sets of elements, all incidence between them and their lower elements, and all measures below 10^20", "why_tests_cant": "The search backtracks over exponentially many sets of elements and keeps counters that have to be restored exactly; tests see a few meshes.", "anchors": ["Source/Mesh/incident_matrix.hpp: incident_matrix, find_shortest_loop, recursive_find, do_show_row, do_hide_row", "Source/Mesh/modify.cpp: Face::SplitFace, Cell::SplitCell"]}
{"id": "C160", "title": "A face is given up only if its remaining edges contain no loop", "statement": "When a face is split, the search returns no loop exactly if no loop of edges that may still be used contains an edge that may be used once; it then leaves all such edges given up and its own state as before. When the splitting has ended, every loop among edges that are not used up consists of inner edges that were not used at all. For cells this is refuted: there are faces that form a closed surface with others and are given up.", "quantifier": "for all sets of edges, all numbers of remaining uses and all measures below 10^20, after any number of earlier searches", "why_tests_cant": "Completeness of a pruned search over all graphs; the failing case for cells needs a particular arrangement and numbering.", "anchors": ["Source/Mesh/incident_matrix.hpp: incident_matrix, find_shortest_loop, recursive_find, do_show_row, do_hide_row", "Source/Mesh/modify.cpp: Face::SplitFace, Cell::SplitCell"]}
{"id": "C161", "title": "The loop found for a face is the shortest among loops with no more edges", "statement": "When a face is split, the loop returned has the least perimeter among all loops of usable edges through its starting edge that do not have more edges than it (if different perimeters differ by more than the tolerance 1e-11). That it is the shortest of all loops is refuted: a triangle of perimeter 21 is returned although there is a quadrilateral of perimeter 4, and the outcome changes with the order of the edges.", "quantifier": "for all sets of edges, all nonnegative lengths that are separated by the tolerance, and all numbers of remaining uses", "why_tests_cant": "Optimality over all loops of all graphs with pruning that depends on the order of discovery.", "anchors": ["Source/Mesh/incident_matrix.hpp: incident_matrix, find_shortest_loop, recursive_find, do_show_row, do_hide_row", "Source/Mesh/modify.cpp: Face::SplitFace, Cell::SplitCell"]}
{"id": "C162", "title": "The Cuthill-McKee partitioner gives every cell an existing process and parts of known size", "statement": "Partitioner::Evaluate with INNER_RCM always ends, numbers the cells 1..N without gaps or repetitions and gives every cell the number of an existing process. With p processes, process 0 gets N/p cells (rounded down), the next ones N/p+1 cells each until the cells are used up; no process gets more than N/p+1 cells. A process k > 0 is idle exactly if N < k(N/p+1), process 0 exactly if N < p. That no process is idle when there are enough cells is refuted: with four cells and four processes one process gets nothing.", "quantifier": "for all meshes, all numbers of processes and all ways in which std::sort orders equal cells", "why_tests_cant": "Termination and exact counts for every mesh and number of processes; which processes are idle follows from divisions that tests with a few sizes do not separate.", "anchors": ["Source/Partitioner/partitioner.cpp: Partitioner::Evaluate (INNER_RCM)"]}
{"id": "C163", "title": "Pieces of the parts of the Cuthill-McKee partitioner", "statement": "Every cell is connected by faces inside its part to a cell that starts a piece of the part: when it was numbered, all neighbours of the earlier cells of the part had numbers already, and no cell left had fewer faces to other cells. The only exception are cells reached from the last cell of the part before, if that cell started a piece. Connected parts are refuted because of this exception: with a single cell and a ring of five cells on three processes, the second part consists of two separate pieces of the ring.", "quantifier": "for all meshes, all numbers of processes and all ways in which std::sort orders equal cells", "why_tests_cant": "A statement about all cells of all meshes; the failing case needs a piece that ends one cell before the end of a part.", "anchors": ["Source/Partitioner/partitioner.cpp: Partitioner::Evaluate (INNER_RCM)"]}
{"id": "C164", "title": "Levels of the Cuthill-McKee numbering", "statement": "Inside a part, if a cell d has a neighbour e that was numbered before a cell c and c was numbered before d, then c has a neighbour numbered before e, or e is a neighbour of c and c does not have more faces to other cells than d. With one process this holds for all cells, so the numbering is a Cuthill-McKee numbering.", "quantifier": "for all meshes, all numbers of processes and all triples of cells", "why_tests_cant": "The order of a breadth-first traversal over all graphs, with the queue cleared at the ends of parts.", "anchors": ["Source/Partitioner/partitioner.cpp: Partitioner::Evaluate (INNER_RCM)"]}
{"id": "C165", "title": "Parameters of a solver take effect at a known time", "statement": "After any calls GetParameter of maximum_iterations and of the three tolerances shows the last text given for it, by the database or by SetParameter, or the default. At Solve the method works with the values that the other parameters had at the last SetMatrix and with the values that these four have at Solve, and with nothing else. A parameter that is not passed to the method never changes the outcome of Solve, whenever it is set. Refuted: GetParameter of any other parameter returns an empty text whatever was set; fill_level of inner_mptiluc, inner_mlmptiluc and inner_mptilu2, gmres_substeps and (except in inner_ddpqiluc2) reorder_nonzeros are accepted without any effect.", "quantifier": "for all inner solvers, all databases, all sequences of calls of SetParameter, SetMatrix, Solve, Clear and operator =, all matrices and vectors, all iterative methods", "why_tests_cant": "Independence of a result of a parameter, and the time at which it is read, concern all orders of calls; a solution that converges does not show which value was used.", "anchors": ["Source/Solver/solver.cpp: Solver", "Source/Solver/SolverMaster.cpp: SolverMaster", "Source/Solver/solver_inner/SolverInner.cpp: SolverInner", "Source/Solver/solver_inner: SolverILU2, SolverDDPQILUC2, SolverMPTILUC, SolverMLMPTILUC, SolverMPTILU2"]}
{"id": "C166", "title": "The database of solver parameters and the names of solvers", "statement": "A solver created with a name and a prefix takes the values of the last entry of the database for them, whatever the case of letters of the prefix and of the names in the database; a file named in the entry replaces its values. The entries are exactly those of the XML tree, and a value counts only if it is the single attribute. A solver can be created exactly with the names reported as available, and tells this name. Refuted: the case of letters of the solver's name matters for creation although not in the database; inner_mlmptiluc tells the name inner_mptiluc.", "quantifier": "for all XML trees, databases, names, prefixes and files", "why_tests_cant": "A claim about all databases with repeated entries and all names.", "anchors": ["Source/Solver/solver.cpp: Solver", "Source/Solver/SolverMaster.cpp: SolverMaster", "Source/Solver/solver_inner/SolverInner.cpp: SolverInner", "Source/Solver/solver_inner: SolverILU2, SolverDDPQILUC2, SolverMPTILUC, SolverMLMPTILUC, SolverMPTILU2", "Source/Solver/solver.cpp: Solver::parseXMLDatabase", "Source/Solver/SolverParameters.cpp: SetInnerParametersFromFile"]}
{"id": "C167", "title": "Life cycle of a solver", "statement": "Whatever calls were made before, Solve never crashes: it throws MatrixNotSet exactly if no matrix was given or the object was cleared since, and otherwise DifferentCommunicator or InconsistentSizes for vectors that do not fit; an empty solution is resized to the range of the right hand side and filled with zeros. Calls crash exactly if SetMatrix is called some time after Clear. Refuted: a cleared solver can be given a new matrix or asked for its iterations; vectors over different index ranges of the same size are refused.", "quantifier": "for all inner solvers and all sequences of calls of SetParameter, SetMatrix, Solve, Clear and operator =", "why_tests_cant": "Absence of crashes for all orders of calls.", "anchors": ["Source/Solver/solver.cpp: Solver", "Source/Solver/SolverMaster.cpp: SolverMaster", "Source/Solver/solver_inner/SolverInner.cpp: SolverInner", "Source/Solver/solver_inner: SolverILU2, SolverDDPQILUC2, SolverMPTILUC, SolverMLMPTILUC, SolverMPTILU2"]}
{"id": "C168", "title": "Inner solvers are not copied", "statement": "The copy constructor and assignment of another solver always throw; assignment to itself does nothing. A failed assignment keeps the parameters, the matrix and the method. Refuted: it keeps the solver usable: the communicator is taken from the other solver before the exception, so that a system that could be solved before is refused after. Without assignments the communicator is always the one given at creation.", "quantifier": "for all solvers in any state and all vectors", "why_tests_cant": "State after an exception for all states.", "anchors": ["Source/Solver/solver.cpp: Solver", "Source/Solver/SolverMaster.cpp: SolverMaster", "Source/Solver/solver_inner/SolverInner.cpp: SolverInner", "Source/Solver/solver_inner: SolverILU2, SolverDDPQILUC2, SolverMPTILUC, SolverMLMPTILUC, SolverMPTILU2"]}
{"id": "C169", "title": "Distances of shared cells to the own cells of a process", "statement": "On every process the search of EquilibrateGhost ends without failed assertions and gives every cell that is also on other processes the exact smallest number of steps between neighbouring cells from a cell that is on this process only, passing through cells that are on several processes; cells that cannot be reached this way get no distance.", "quantifier": "for all distributed meshes with consistent ownership, all neighbour relations, all processes and cells", "why_tests_cant": "Exactness and termination of a breadth-first search over all graphs; the assertion on the order of the queue concerns all states.", "anchors": ["Source/Mesh/parallel.cpp: Mesh::EquilibrateGhost, OperationMinDistance, OperationMinOwner"]}
{"id": "C170", "title": "EquilibrateGhost gives shared cells to the nearest process", "statement": "After EquilibrateGhost all processes with a cell agree on its owner, which is one of them, and have the right status (exactly one Shared, the others Ghost). The owner is the process with the smallest distance, of several the one with the smallest rank; if no process can reach the cell the owner stays, and cells on one process only stay. The order of messages does not matter. Refuted: a process that owned cells before still owns one after.", "quantifier": "for all distributed meshes with consistent ownership, all numbers of processes, all orders of arrival of messages", "why_tests_cant": "Agreement between processes for every order of messages and every partition.", "anchors": ["Source/Mesh/parallel.cpp: Mesh::EquilibrateGhost, OperationMinDistance, OperationMinOwner"]}
{"id": "C171", "title": "EquilibrateGhost gives faces, edges and nodes to owners of elements above them", "statement": "After EquilibrateGhost all processes with a face, edge or node agree on its owner, which is one of them, and have the right status. The owner is the smallest of the owners of the adjacent elements of the next dimension on all processes with the element; if there are none the owner stays. If all elements have adjacent elements above them, the owner of a node owns a cell with this node.", "quantifier": "for all distributed meshes with consistent ownership in which a process with an element has all elements of its closure, all orders of arrival of messages", "why_tests_cant": "A global invariant of distributed state over all meshes and partitions.", "anchors": ["Source/Mesh/parallel.cpp: Mesh::EquilibrateGhost, OperationMinDistance, OperationMinOwner"]}
{"id": "C172", "title": "Options for files return the value set last", "statement": "After any sequence of SetFileOption, GetFileOption returns the value set last for the key and an empty text for other keys. TagOptions(rule) returns exactly the names t such that the value set last for the key Tag:t has the rule among its comma separated words; the name of the tag may contain colons.", "quantifier": "for all sequences of options, all keys, values and names of tags", "why_tests_cant": "Every call adds a record even for a known key, so correctness depends on all records of the key having the same value for any history.", "anchors": ["Source/IO/mesh_file.cpp: Mesh::SetFileOption, Mesh::GetFileOption, Mesh::TagOptions, Mesh::CheckLoadSkip, Mesh::CheckSaveSkip"]}
{"id": "C173", "title": "Tags left out of files follow the rules set last", "statement": "Data of a tag are left out when loading exactly if the tag has the rule noload, or some tags have the rule loadonly and this one has not; likewise for saving with nosave and saveonly. Setting the option of one tag does not change the rules of others.", "quantifier": "for all sequences of options and all names of tags", "why_tests_cant": "Concerns all combinations of rules and histories of options.", "anchors": ["Source/IO/mesh_file.cpp: Mesh::SetFileOption, Mesh::GetFileOption, Mesh::TagOptions, Mesh::CheckLoadSkip, Mesh::CheckSaveSkip"]}
{"id": "C174", "title": "Format of a mesh file follows from its name", "statement": "If one known extension occurs in the name, Load, Save and isParallelFileFormat agree on its format, in any case of letters (eclipse, gmsh and Karimi-Fard formats are only read, GMV only written); names without known extension are refused by all three. An exact condition is given for a saved mesh to be loaded by the same format. Refuted: this holds for all names (pressure.vtk.xml is written as XML and read as VTK; the extension in the name of a folder counts); files .gmv can be read, as the documentation says.", "quantifier": "for all names of files", "why_tests_cant": "The order of comparisons differs between three functions; agreement must be checked for all names.", "anchors": ["Source/IO/mesh_file.cpp: Mesh::Load, Mesh::Save, Mesh::isParallelFileFormat", "Source/Headers/inmost_mesh.h: Mesh::Load"]}
{"id": "C175", "title": "Rescale gives rows of the jacobian the norm one and keeps solutions", "statement": "Rescale multiplies every equation (value, row of the jacobian, hessian) by one positive number so that its row gets the norm one in the chosen norm; equations with zero rows are left alone, entries keep their places, the solutions of the system stay the same and a second call changes nothing. Refuted for p = 0: every equation with two or more entries becomes 0 = 0 and the system is lost.", "quantifier": "for all systems of real equations, the infinite norm and all norms with p at least 1", "why_tests_cant": "Equivalence of systems for every displacement and every p over the real numbers.", "anchors": ["Source/Autodiff/residual.cpp: Residual::Rescale, Residual::Norm, Residual::Clear", "Source/Headers/inmost_residual.h: class Residual"]}
{"id": "C176", "title": "Norm of the residual does not depend on the partition", "statement": "Norm returns the nonnegative number whose square is the sum of squares of the values of all equations on all processes; it does not depend on which process has which equation, bounds the absolute value of each equation, and is zero exactly if all values are zero. After Clear the norm is zero, all rows are empty and the number of equations is the same.", "quantifier": "for all numbers of processes and all distributions of equations, in real arithmetic", "why_tests_cant": "Independence of the partition ranges over all distributions.", "anchors": ["Source/Autodiff/residual.cpp: Residual::Rescale, Residual::Norm, Residual::Clear", "Source/Headers/inmost_residual.h: class Residual"]}
{"id": "C177", "title": "Nodes of cells are restored in the order of VTK", "statement": "For tetrahedra, hexahedra and pyramids with faces in any order, each with any first node and stored in either direction, RestoreCellNodes returns every node once, in an order in which the faces prescribed by VTK are exactly the outward faces of the cell, and no assertion fails. For prisms the order gives the faces of the cell all reversed; refuted: it is the order of VTK, for every prism the cell written to a file is inside out.", "quantifier": "for all tetrahedra, hexahedra, pyramids and prisms with any nodes, orders, first nodes and directions of faces", "why_tests_cant": "A hexahedron alone has 720 orders of faces with 8 variants each; all have to be covered for any numbering of nodes.", "anchors": ["Source/Mesh/mesh.cpp: Mesh::RestoreCellNodes", "Source/IO/mesh_vtk_file.cpp: Mesh::SaveVTK"]}
{"id": "C178", "title": "Cells of VTK files get the faces of their type", "statement": "For every linear type of cells with three dimensions in VTK (tetrahedron, hexahedron, voxel, wedge, pyramid, pentagonal and hexagonal prism) and any nodes LoadVTK creates exactly the faces prescribed for the type, seen from outside. These faces close up: every edge is passed once in each direction.", "quantifier": "for all types and all nodes", "why_tests_cant": "Tables of indices are easily wrong in one entry that a given test mesh does not exercise; orientation has no effect on most tests.", "anchors": ["Source/IO/mesh_vtk_file.cpp: Mesh::LoadVTK", "Source/Mesh/mesh.cpp: Mesh::CreateCell"]}
{"id": "C179", "title": "Cells of VTK files survive saving and loading", "statement": "For any list of tetrahedra, hexahedra, pyramids, prisms and polyhedra the section of cells can be written; reading it ends exactly at the end of every cell and gives for every cell its own faces (for polyhedra literally, for others up to order and first node; for prisms reversed). The first number of every record is the number of values that follow.", "quantifier": "for all lists of cells of these shapes", "why_tests_cant": "Round trip over all mixtures of shapes; a wrong length of one record corrupts all later cells.", "anchors": ["Source/Mesh/mesh.cpp: Mesh::RestoreCellNodes", "Source/IO/mesh_vtk_file.cpp: Mesh::SaveVTK", "Source/IO/mesh_vtk_file.cpp: Mesh::LoadVTK", "Source/Mesh/mesh.cpp: Mesh::CreateCell"]}
{"id": "C180", "title": "Geometric types of cells mean their shapes", "statement": "For a closed oriented surface of faces (each edge passed once in each direction, any order of faces and nodes, any handles of edges) the type computed by ComputeGeometricType is Tet, Pyramid or Prism exactly if the nodes can be numbered so that the faces are those of a tetrahedron, pyramid or prism; it is Hex for every hexahedron, and a cell of type Hex with eight nodes is a hexahedron. Refuted: every cell of type Hex is a hexahedron, there is a closed surface of six quadrilaterals with six nodes, for which the nodes can not be restored. Prisms with bases of five and six nodes are polyhedra. The type does not depend on NEED_TEST_CLOSURE for closed surfaces; with this check a cell that lacks one face is a MultiPolygon. Faces with three, four and other numbers of nodes are Tri, Quad and Polygon. For closed cells of type Tet, Pyramid and Prism, and of type Hex with eight nodes, RestoreCellNodes returns every node of the cell once.", "quantifier": "for all closed surfaces, all numbers of nodes, all handles of edges, with and without the check of closure", "why_tests_cant": "The code only counts triangles, quadrilaterals and common edges of pairs; that these counts determine the shape is a statement about all surfaces with these counts, not about the cells of test meshes.", "anchors": ["Source/Mesh/geometry.cpp: Mesh::ComputeGeometricType", "Source/Mesh/geometry.cpp: Mesh::TestClosure"]}
{"id": "C181", "title": "SetDimensions keeps coordinates and other data", "statement": "If no tag of the user has the name COORD or PROTECTED_COORD, SetDimensions(2) and SetDimensions(3) succeed for every mesh; every node keeps the coordinates that fit and gets zero for a new one, the set of nodes and all other tags are unchanged. Going to three dimensions and back changes nothing, going to two dimensions and back clears the third coordinate. Other numbers of dimensions are refused with an exception. Refuted: coordinates stay in a reserved tag, after a change in a mesh with nodes they are in a tag COORD that is listed among the data of the user. Refuted: data of the user are safe, a tag COORD of the user with the same type and size is overwritten with coordinates, with another type or size the function fails.", "quantifier": "for all meshes with any number of nodes and holes in the numbering, all coordinates and all other tags", "why_tests_cant": "The copy goes through a flat buffer with two different strides; all numberings with holes and both directions have to be covered, together with all names of tags.", "anchors": ["Source/Mesh/mesh.cpp: Mesh::SetDimensions", "Source/Data/tag.cpp: TagManager::CreateTag"]}
{"id": "C182", "title": "A saved hessian matrix is loaded back by any number of processes", "statement": "If the rows of processes follow each other from row zero and no pair of columns appears twice in a row, a HessianMatrix saved by any number of processes and loaded by any number of processes has all rows, each on one process, in consecutive intervals; every row has its entries in the same order with the smaller column first. A given interval of rows is loaded with exactly these rows. Saving and loading for the second time changes nothing if printed values are stable. Whatever a file has, no line is stored outside of the allocated rows. The header has the number of rows and of lines. Refuted: every row is restored, entries for both orders of two columns become one entry with the last value. Refuted: a matrix with a first index other than zero is restored, with a first index not less than the number of rows nothing is loaded.", "quantifier": "for all rows and values, all distributions over saving processes, all numbers of loading processes and all intervals", "why_tests_cant": "The result depends on two independent distributions of rows and on the order of entries; a test takes a few sizes.", "anchors": ["Source/Solver/sparse.cpp: HessianMatrix::Save, HessianMatrix::Load", "Source/Headers/inmost_sparse.h: HessianRow::operator [], HessianRow::make_index"]}
