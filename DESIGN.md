# Formal model of INMOST in Rocq: design

## What this is

`/verif/rocq/theories` contains a model of parts of INMOST (C++ library for
distributed meshes and sparse linear systems) written as total Gallina
functions, and proofs of the properties listed in `properties.jsonl`.
The C++ source is only read as text; every model definition cites the file and
the lines it transcribes (paths are relative to the repository root,
`Source/...`).

Layout, per topic `X`:

* `X_Model.v`  – the model (definitions only);
* `X_Spec.v`   – (some topics) a specification written without the model;
* `X_Proofs.v` – specification predicates written independently of the model,
  lemmas and proofs;
* `X_Props.v`  – the property theorems (`CNN_...`), one `Example` per theorem
  showing that its hypotheses are met by a non-trivial case, and
  `Print Assumptions`.

## Trusted base

* Coq 8.16.1 kernel (no native compilation, no plugin, no disabled check).
* Axioms: exactly those printed by `Print Assumptions` at the end of each
  `X_Props.v`. Almost all theorems are closed under the global context. The
  theorems on real derivatives use the axioms of the standard library's `Reals`.
* The fidelity of the transcription C++ -> Gallina, made by hand and checked by
  reading; every simplification is named at the definition and summarised below.

## General modelling decisions

* Undefined behaviour, a failed `assert` and an uncaught exception are distinct
  outcomes (`None` or an error constructor); positive theorems show they do not
  occur under the stated precondition.
* Unsigned wrap-around is written explicitly (`mod 2^k`) where it can matter;
  elsewhere the precondition bounding sizes is stated.
* Floating point values are elements of an arbitrary commutative ring (or the
  reals), i.e. rounding, NaN and infinities are not modelled.
* Memory is modelled by lists (vectors, arrays) with explicit capacity when the
  code manages capacity itself.
* `std::vector`, `std::map`, `std::sort`, `std::lower_bound` are modelled by
  their standard semantics (for `lower_bound`: the actual halving algorithm of
  libstdc++ where the input can be unsorted).
* MPI messages: reliable, per-pair ordered; delivery order across senders is an
  arbitrary choice of the environment.

When the property a user would expect is false of the faithful model we prove
a theorem with suffix `_refuted` that exhibits a witness, together with the
positive theorem under the extra hypothesis that makes it true.

## Wrong-program tests

`seeded/LOG.jsonl` records edits of the model that imitate realistic bugs. The
build is run with `make -k`; `failed` names the statement at which each file
stopped. This is often a lemma about the edited function: the property theorem
in `X_Props.v` that depends on it is then not reached, so an entry shows that
the development no longer builds, not by itself that the theorem is false.
Edits whose claim stays true (for example a change that only costs speed) are
not logged.

## Per property plan

| id | model | how |
|----|-------|-----|
| C01, C02 | `Base64_Model.v` | chunked encoder/decoder; arithmetic on 24-bit groups, induction by chunks of three bytes |
| C03, C04 | `Handle_Model.v` | bit arithmetic over `N`; finite case analysis for types, `N` lemmas for ids |
| C05, C06 | `Marker_Model.v` | state machine on the marker byte table and per-element bytes; invariant by induction over histories |
| C07-C09 | `Array_Model.v` | buffer with power-of-two capacity; refinement to lists |
| C10 | `Chunk_Model.v` | list of chunks; refinement to lists, address stability |
| C11 | `Interval_Model.v` | offset + vector; refinement to a partial map |
| C12, C13 | `Heap_Model.v` | 1-based heap array, index table; heap-order invariant, refinement to a finite set with keys |
| C14, C15, C18 | `Storage_Model.v` | links/back_links/empty lists; invariant by induction over operations |
| C16, C17, C19, C20 | `Tag_Model.v` | tag table, position allocator; invariant over histories |
| C21-C25, C58 | `ESet_Model.v` | low_conn array with holes + hole list, comparator modes |
| C26 | `SetTree_Model.v` | parent/child/sibling maps |
| C27 | `ESet_Model.v` | arrays + private marker bits |
| C28-C30 | `Row_Model.v` (rows and Hessian rows), `Merger_Model.v` | rows over a ring; linked list in an index array |
| C31-C34, C53-C55 | `Order_Model.v` | interval tables; renumbering map; message exchange; products |
| C35, C36, C57 | `IoConv_Model.v` | byte lists; `IoConv_Spec.v` gives memory images of integers and, through Flocq, of IEEE numbers |
| C37 | `Split_Model.v` | character lists |
| C38-C40 | `Sort_Model.v` | counting passes of the radix sort |
| C41, C42 | `Iter_Model.v` | link tables, marker predicate |
| C43-C45 | `Adj_Model.v` | adjacency lists, markers, link tables |
| C49 | `TagVec_Model.v` | visited elements and a vector |
| C50, C51 | `Copy_Model.v` | copy of the storage tables |
| C46, C52, C56 | `Autodiff_Model.v` | expression trees over reals; `Autodiff_Spec.v` says which function a tree stands for |
| C47 | `Enum_Model.v` | offsets as running sums |
| C48 | `SetName_Model.v` | ordered name map |
| C59-C61 | `OField.v`, `Gauss_Model.v`, `Gauss_Spec.v` | dense matrices as functions over an ordered field; loops in place |
| C62 | `Dense_Model.v`, `Dense_Spec.v` | induction over views; sums over grids for the Kronecker product |
| C63 | `Dense_Model.v`, `Dense_Spec.v` | places of entries, injectivity by induction over views |
| C64 | `Dense_Model.v`, `Dense_Spec.v` | loop invariant over the row order with a semantic independence condition; exact results of the self-assignments |
| C65 | `Dense_Model.v` | loop invariants, triangular numbers |
| C66 | `Rot_Model.v` | algebra over the reals |
| C67 | `Req_Model.v` | messages of a buffer, request counters, completion loop, tags; invariant over schedules |
| C68 | `Req_Model.v` | flat arrays and displacements refined to a filter per sender; window contents |
| C69 | `Pack_Model.v` | byte lists, chunk loops with a limit; round trip by induction over chunks |
| C70 | `Pack_Model.v`, `Pack_Spec.v` | packing/unpacking of tags refined to a list of events |
| C71 | `Pack_Model.v`, `Pack_Spec.v` | default operation folded over events; refutations |
| C72 | `Pack_Model.v` | length of a message against the estimate |
| C73 | `Par_Model.v` ExchangeData | sorted lists with equal members, fold over arrivals |
| C74 | `Par_Model.v` ReduceData | fold over arrivals, permutation invariance |
| C75 | `Par_Model.v` SynchronizeMarker | from C73/C74; AND refuted |
| C76 | `Par_Model.v` Enumerate | prefix sums, block numbering |
| C77 | `Par_Model.v` AssignGlobalID | block numbering, re-keyed consistency |
| C78 | `Par_Model.v` FindSharedGhost | lower_bound on strictly sorted list |
| C79 | `Par_Model.v` TotalNumberOf, Integrate | non-ghost keys permute the distinct keys |
| C80 | `KD_Model.v` | invariant of boxes by induction over the build; soundness and completeness of search; rounding bound for binary32 |
| C81 | `KD_Model.v` | slab test completeness, traversal exactness by induction |
| C82 | `KD_Model.v` | closest point of a box; traversal exactness; refutation with rounding |
| C83 | `Tri_Model.v` | minimality by projection and convexity, over R |
| C84 | `Tri_Model.v` | exact characterisation, completeness, refutations, over R |
| C85 | `Radix_Model.v` | loop invariants of the passes; stable sort |
| C86 | `Loop_Model.v` | walk along the path; reduction of the hidden branch to the visible sublists |
| C87 | `Loop_Model.v` | loop invariant, termination measure, uniqueness of the continuing edge; divergence for cells |
| C88 | `Loop_Model.v` | equivalence with path existence; refutation |
| C89 | `Loop_Model.v` | swap loop = reversal; reduction to visible sublists |
| C90 | `Query_Model.v` | composition law for collecting loops; simulation of the masked by the unmasked run |
| C91 | `Query_Model.v` | reversal of chains, link symmetry of all histories |
| C92 | `Query_Model.v`, `Loop_Model.v` | polygon nodes = chains of length 2; refutations |
| C93 | `Query_Model.v` | composition law, symmetry |
| C94 | `Geom_Model.v` | fan to loop sums, permutations of edges, Heron by squares |
| C95 | `Geom_Model.v` | weight = signed area in the plane; change of apex telescopes over the loop |
| C96 | `Geom_Model.v` | antisymmetric edge sums over closed surfaces |
| C97 | `Geom_Model.v` | divergence identity per tetrahedron with antisymmetric rest |
| C98 | `Geom_Model.v` | exact value of the sum; sum over faces = 6 volume; refutation |
| C99 | `Orient_Model.v` | invariant of the search; uniqueness; closed surface of C96 |
| C100 | `Orient_Model.v` | sign of all terms from equality in the triangle inequality |
| C101 | `Orient_Model.v` | C99, measure = 3 volumes, reversal of one face |
| C102 | `Orient_Model.v` | invariant of the search that stays on the first face; cube as counterexample |
| C103 | `Ilu_Model.v` | rescaling restores the matrix; refuted for zero iterations |
| C104 | `Ilu_Model.v` | linked-list invariant and elimination invariant by induction |
| C105 | `Ilu_Model.v` | forward and backward substitution; exact for zero thresholds |
| C106 | `Bcgs_Model.v` | invariant r = b - Ax over all iterations |
| C107 | `Bcgs_Model.v` | orthogonality and minimality of a step; exact preconditioner; refutations |
| C108 | `Mtx_Model.v` | round trip of texts, error of decimal conversion, refutations |
| C109 | `Mtx_Model.v` | overlay by induction over elements; refutations |
| C110 | `Mtx_Model.v` | partition of rows, concatenation of texts, renumbering |
| C111 | `Mtx_Model.v` | round trip of vectors |
| C112 | `Mpt_Model.v` | primal-dual invariant over searches, counting, product of scaled elements |
| C113 | `Mpt_Model.v` | witnesses |
| C114 | `Lin_Model.v` | induction over rows and entries, comparison with finite sums |
| C115 | `Lin_Model.v` | loop invariant over the equations; norms of scaled rows |
| C116 | `Lin_Model.v` | induction over the number of rows; witnesses |
| C117 | `Lin_Model.v` | induction over entries; witnesses |
| C118 | `Expr_Model.v` | invariant of the operator stack by induction over the tree; witnesses |
| C119 | `Expr_Model.v` | replacement in the text equals replacement in the tree |
| C120 | `Word_Model.v` | induction over text per state, then over the values; witnesses |
| C121 | `Word_Model.v` | invariant of the position while records are filled |
| C122 | `Word_Model.v` | written text is shown to be a list of values, then C120 and C121 |
| C123 | `Word_Model.v` | case analysis over types; witnesses |
| C124 | `Word_Model.v` | invariant of the loop over entries |
| C125 | `Word_Model.v` | rounding in radix 10 by Flocq |
| C126 | `Xml_Model.v` | written text is the text of a document, then C127; witnesses |
| C127 | `Xml_Model.v` | mutual induction over documents and their parts, with the rest of the text as continuation |
| C128 | `Xml_Model.v` | length of the rest decreases; witnesses |
| C129 | `Xml_Model.v` | every function either ignores added text or has met the end of the file |
| C130 | `Cluster_Model.v` | invariant of the centre search; C131 |
| C131 | `Cluster_Model.v` | refinement: gather/scatter algebra, sums over processes, rounds as a relation; determinism by induction on runs |
| C132 | `Cluster_Model.v` | an absent centre stays absent; computed witness |
| C133 | `Cluster_Model.v` | decomposition of the sum at the mean, grouped by cluster |
| C134 | `Cluster_Model.v` | invariant of the refill loop, pigeonhole for the donor |
| C135 | `Table_Model.v` | loop invariant of the search, comparison of chosen and given segment |
| C136 | `Table_Model.v` | same; field identities |
| C137 | `Table_Model.v` | ordering of segments, convex combinations |
| C138 | `Table_Model.v` | computation with symbolic entries |
| C139 | `Opt_Model.v` | induction over the filling loop; computation with `SpecFloat` |
| C140 | `Opt_Model.v` | invariant of the search for the smallest |
| C141 | `Opt_Model.v` | induction over pushes and over the stored results |
| C142 | `Opt_Model.v` | one trial in all cases, for any lawful algorithm |
| C143 | `Opt_Model.v` | invariant relating failures to stored results |
| C144 | `Opt_Model.v` | invariant of the handlers over all sequences of trials |
| C145 | `Opt_Model.v` | invariant: handlers point to the values in use |
| C146 | `Opt_Model.v` | invariant: values within the range; convexity |
| C147 | `Opt_Model.v` | map lookup |
| C148 | `Link_Model.v` | invariant over all sequences of calls |
| C149 | `Link_Model.v` | induction over the erased positions, multiset counting |
| C150 | `Link_Model.v` | levels of the upward closure |
| C151 | `Link_Model.v` | induction over the affected cells; witness |
| C152 | `Sim_Model.v` | invariant over all histories |
| C153 | `Sim_Model.v` | invariant over all histories; witnesses |
| C154 | `Sim_Model.v` | loops refined to one sequence of calls |
| C155 | `Sim_Model.v` | folds refined to the least element |
| C156 | `Purge_Model.v` | `C156_references`, `C156_none_left`: direct, over all tags and arrays |
| C157 | `Purge_Model.v` over `SetTree_Model.v` | `C157_hierarchy`, `C157_after_delete_set`: invariant with a rank along siblings, induction over the sets visited; four counterexamples |
| C158 | `Purge_Model.v` over `ESet_Model.v` | `C158_elements`, `C158_members`: induction over the positions of the iterator |
| C159 | `Incid_Model.v` | `C159_loops`: induction over the recursion with restored counters, decreasing sum of visits; counterexample for repeated edges |
| C160 | `Incid_Model.v` | `C160_complete`, `C160_maximal`: paths have two open ends, so the stub marks never hide the continuing row; counterexample for faces |
| C161 | `Incid_Model.v` | `C161_shortest`: loops with no more edges are never pruned; counterexample for all loops |
| C162 | `Rcm_Model.v` | `C162_numbers`, `C162_parts`, `C162_idle`: invariant of the list of numbered cells, counting of quotients; counterexample for idle processes |
| C163 | `Rcm_Model.v` | `C163_pieces`, `C163_joined`: invariant of exhausted cells; counterexample for connected parts |
| C164 | `Rcm_Model.v` | `C164_levels`, `C164_one`: invariant of the queue, order of the sorted neighbours |
| C165 | `Front_Model.v` | `C165_get`, `C165_solve`, `C165_ignored`: invariant of values over calls, noninterference relation; accepted parameters without effect listed |
| C166 | `Front_Model.v` | `C166_last`, `C166_parse`, `C166_values`, `C166_available`, `C166_prefix`, `C166_name`, `C166_file` |
| C167 | `Front_Model.v` | `C167_solve`, `C167_crash`: invariant of matrix and method over calls |
| C168 | `Front_Model.v` | `C168_copy`, `C168_kept`, `C168_communicator`; counterexample for failed assignment |
| C169 | `Equil_Model.v` | `C169_distances`: invariant of the levels of the queue, minimality by induction over walks |
| C170 | `Equil_Model.v` | `C170_owners`: folds with the lexicographic minimum over any order of arrival; counterexample for processes left idle |
| C171 | `Equil_Model.v` | `C171_lower`, `C171_all`: folds with the minimum, composition over dimensions |
| C172 | `Fopt_Model.v` | `C172_get`, `C172_tags`: invariant that all records of a key hold the value set last |
| C173 | `Fopt_Model.v` | `C173_load`, `C173_save` from C172 |
| C174 | `Fopt_Model.v` | `C174_single`, `C174_same`: substring search characterised, then finite cases; counterexamples |
| C175 | `Resid_Model.v` | `C175_rescale`, `C175_solutions`, `C175_twice`: norms of rows over the reals; counterexample for p = 0 |
| C176 | `Resid_Model.v` | `C176_norm`, `C176_partition`, `C176_zero`: sums over processes |
| C177 | `Vtk_Model.v` | `C177_restore`, `C177_wedge`: renaming, finite check, invariant over orders of faces; refutation for prisms |
| C178 | `Vtk_Model.v` | `C178_load`, `C178_voxel`, `C178_closed`: tables compared up to rotation |
| C179 | `Vtk_Model.v` | `C179_cells`, `C179_sizes`: induction over cells from C177 and C178 |
| C180 | `Gtype_Model.v` | `C180_shape`, `C180_hex`, `C180_known`, `C180_restored`, `C180_missing`, `C180_face`: complete search up to renaming, invariance of counts; refutation for six quadrilaterals |
| C181 | `Dims_Model.v` | `C181_coords`, `C181_refused`, `C181_there_and_back`: buffer as concatenation of segments; refutations for the name of the tag |
| C182 | `Hess_Model.v` | `C182_interval`, `C182_all_processes`, `C182_second_time`, `C182_header`, `C182_bounds`: lines of concatenated rows; refutations for both orders of columns and first index |

## Per module notes

What each model covers, what it leaves out, and which expected properties are
false of the code (theorems `..._refuted`).

* **Base64** (`Source/Misc/base64.cpp`): encoder and decoder, all bytes.
* **Handle** (`Source/Headers/inmost_common.h`, `inmost_mesh.h` handle layout):
  32-bit and 64-bit layouts. Refuted: one id past the bound collides with a
  handle of the next type; `GetNextType(NONE)` never returns.
* **Marker**: shared and private marker families of one thread. Refuted: a
  released marker that was not removed from elements is seen by the next owner.
* **Array** (`Source/Headers/container.hpp` `array`): size, capacity and the
  growth rule. Refuted: `push_back` of an own element, range erase, erase of an
  empty range, shrinking replace.
* **Chunk** (`chunk_array`): positions and addresses.
* **Interval** (`interval`): offset container. Refuted: filling with an own element.
* **Heap** (`binary_heap` of `utils.h`/solver): heap array and index table.
  Refuted: raising a key with ChangeKey.
* **Storage** (`TieElement`/`UntieElement`/`ReorderEmpty`): links, back links and
  empty lists; payloads are one value per element per tag.
* **Tag** (`TagManager`): tag table, positions, sparse masks, copy. Refuted: see
  `C19_sparse_flag_refuted`, `C20_assignment_refuted`.
* **Row** (`Sparse::Row`, `Sparse::HessianRow`): rows as lists of index/value
  pairs over a commutative ring. Refuted: product rule when one of the two
  gradients is empty.
* **Merger** (`Sparse::RowMerger`): linked list in an index array, non-local map.
  Refuted: PushRow of a row with a repeated index, PushRow of non-local columns.
* **Order** (`Source/Solver/OrderInfo.cpp`, products of `sparse.cpp`): overlap 0;
  all processors at once, requests served in any arrival order; values are an
  arbitrary type (C34, C54) or a commutative monoid (C53, C55). Unsigned 32-bit
  subtraction is modelled in the repair loop. MPI data types, the master file
  output and overlap > 0 are not modelled. Refuted: owner of an index behind an
  empty interval, the index after the last row, RestoreMatrix after a repair,
  repair of nested and triple overlaps, Update across an empty interval.
* **Autodiff** (`Source/Headers/inmost_expression.h`, `autodiff.cpp` 43-68): the
  template classes are one tree type, values are real numbers. `Autodiff_Spec.v`
  relates a tree to the function it stands for (with the side conditions of
  calculus) and defines gradient and Hessian by derivatives along lines.
  GetJacobian is a list of events applied to a row or to a merger.
  Not modelled: copy constructors of expression nodes (those of unary minus/plus
  and pow_const forget a member), `stencil_expression` (of `inmost_variable.h`),
  `function_expression`, `get_table`. Refuted: pow(x,1) at 0, products of the assigned
  variable with itself in `= += -= /=`, second derivatives of negated and nested
  exp, log, reciprocal and pow, products with exactly one constant factor.
  Axioms (all from the standard library, used by `Reals`): `sig_forall_dec`,
  `sig_not_dec`, `functional_extensionality_dep`, `Classical_Prop.classic`.
* **IoConv** (`Source/IO/io.hpp`): integers and floating point numbers as byte
  lists, the four byte orders, headers. Pointer loops are index loops; running
  off the buffer is `None`. Values of floating numbers are reals, so the
  rounding of `ldexp`-like products (exact here) is not visible. IBM and VAX formats are
  transcribed but only the IEEE formats have a specification (Flocq
  `Bits.b32_of_bits`, `b64_of_bits`). Refuted: big- and middle-endian
  readers, widening of negative integers, doubles with bit 31 of the low word,
  subnormal doubles. Axioms: those of `Reals` as above (C57 only).
* **Split** (`Source/Misc/utils.cpp` `split_string`): complete.
* **Sort** (`Source/Mesh/comparator.cpp`, comparators of `inmost_mesh.h`): radix
  sort pass by pass with 32-bit counters and a scratch buffer of arbitrary
  contents; `std::sort` is any function that permutes and sorts. Coordinates are
  rationals, subtraction is exact; elements are trees of their lower
  adjacencies. Arrays of 2^32 elements are excluded. Refuted: place of invalid
  handles, ENUMUNDEF as a handle, big-endian memory, negative ids, cyclic order
  for positive epsilon, search by value over invalid handles.
* **Iter** (`Source/Mesh/iterator.cpp`): iterators, NextHandle, PrevHandle,
  NumberOf over tables of used/hidden flags. GetNextType and GetPrevType come from
  `Handle_Model.v`. Not modelled: iterators over several meshes, iterators with
  a marker. Refuted: walking back (see C42).
* **ESet** (`Source/Mesh/eset.cpp` without the hierarchy, set operations of
  `earray.cpp`): LowConn as a list of handles, HighConn as the list of holes plus
  hSorted, private markers as functions. Elements of sorted input arrays are given
  already sorted. `std::sort` and `qsort` are any function that sorts
  distinct elements. Comparators are any strict total order (the real ones are
  studied in Sort). Not modelled: SetMarkerElements, SetElementsFrom..., parallel
  synchronisation of sets, file names. Refuted: see C22-C25, C27, C58.

- **SetTree** (C26). Three link maps parent/child/sibling over set handles with 0
  for InvalidHandle; every recursive call carries a depth bound, `None` means a
  failed assertion or that the recursion does not end. Specification: lists of
  children (`forest`), with one bit per set saying that it was removed from in
  front of a sibling (its sibling link is stale). Not modelled: the element
  contents of a set, names (C48), parallel exchange, marker-hidden sets.
- **SetName** (C48). Existing sets with their names and the `std::map` set_search
  as a sorted list of entries; names are byte lists compared as std::string does.
  The handle of a new set is an argument required to be unused (C14).
- **Copy** (C50, C51). Copy constructor and assignment on top of the storage
  model (one element type): tables copied, arrays reallocated, dense columns copied
  per existing element, back_links only resized. Sparse records are lists of (tag
  identity, value); identities of the two meshes are assumed disjoint (they are
  addresses of different live TagMemory objects).
- **Enum** (C47). Models the entry classes (Single, Vector, Block, StatusBlock, Multi), the
  registry of Automatizator (register with reuse, unregister, activate, deactivate, copy) and
  EnumerateEntries with the MPI shift. The specification says that the answers fill an interval
  injectively (`fills`). Not modelled: ExchangeData of ghost offsets, the tag storage behind the
  offsets (an arbitrary function, sparse ones read 0 after deletion), overflow. The status
  table is taken to be false outside its length. Side effects of reading absent sparse data
  are not modelled.
- **TagVec** (C49). CopyTag2Vector and CopyVector2Tag over the list of visited elements and an
  arbitrary index function (DataLocalID or an index tag). Out of range access is `None`.
- **Adj** (C43-C45). Elements of the four geometric types with their lower and upper lists,
  the two markers of a modification, ids and counts. Create, FindSharedAdjacency, Destroy with
  Disconnect, SwapBackCell, Delete, Hide, Show, Begin/Swap/EndModification and NumberOf are
  modelled function by function. The upper list looped over in Disconnect and Delete is read once
  (it is not changed by the recursion); the fuel of Delete is the number of types and never runs out on
  reachable states. The specification uses `built_on` (chains of lower lists only) and counts of
  occurrences. Not modelled: geometry, tag data, topology checks other than duplicates, RestoreCellNodes
  (the nodes of a cell are an argument), sets, parallel data, ResolveModification/ApplyModification.
- **Gauss** (C59-C61). `Solve`, `Invert`, `CholeskySolve`, `CholeskyInvert` and `Det` of
  inmost_dense.h, loop by loop with in-place updates, over an arbitrary ordered field
  (`OField.v`: rationals for the computed examples, reals for the square root). Rounding is not
  modelled; comparisons with thresholds are. The lists of pivots met are bookkeeping added to
  the model to state the provisions. Not modelled: automatic differentiation through these
  functions, memory pools, printing of errors, PseudoSolve/SVD/Root and the other iterations.
- **Dense, Rot** (C62-C66). Matrix storage, the view classes and assignment through them (`inmost_dense.h` 676-1790, 1792-3331), CrossProduct and Transform. Entries are from an ordered field (views) or the reals (Transform); derivatives carried by entries, rounding, the `shell`-backed matrices and the multiplication short cuts chosen by TrivialArguments are not modelled. A failed assertion or an access outside of the array is `None`. The static zero of `BlockOfMatrix::operator()` is part of the state. Coefficients of `A*c`, `A/c` are pointers as in the code, so that `A = A/A(0,0)` is modelled with the entry changing under the loop.
- **Req** (C67, C68). Model of ExchangeBuffersInner, FinishRequests, the callers' receive loop and PrepareReceiveInner. The order in which MPI completes requests is an arbitrary schedule: a list of batches, a permutation of all requests. `C67_each_buffer_unpacked_once` holds for all schedules; `C67_long_buffer_never_unpacked_refuted` shows that with one buffer above the message limit no schedule is handled right (std::lower_bound in the prefix sums finds the next buffer). MPI itself is trusted: Waitsome returns each completed request once, Allgather concatenates, Put writes. Message contents are the subject of the pack model.
- **Pack** (C69-C72). Model of the pack_data/unpack_data family, PackTagData, UnpackTagData, DefaultUnpack and the size estimate in ExchangeDataInnerBegin; a buffer is a list of bytes. `Pack_Spec.v` describes an exchange without any message format: a list of events (tag becomes defined, entries delivered to an element). `C70_message_roundtrip` proves unpacking equal to running these events for an arbitrary operation on an arbitrary state, for any list of tags and any position in the buffer. The code skips the operation for empty values, so the branches of DefaultUnpack for size zero are never reached: `C71_agrees_iff` and `C71_ghost_equals_owner_refuted` state what follows. `C71_remote_reference_refuted` holds for every message. Not modelled: padding bytes other than zero, MPI representations other than plain copies, the message with the referenced elements themselves (PackElementsData).
- **Par** (C73-C79). `Par_Model.v` models a distributed mesh as a list of processes, each a list of
  elements (sort key, status, owner, processors), and GatherParallelStorage, SortParallelStorage,
  ExchangeData, ReduceData, SynchronizeMarker, Enumerate, AssignGlobalID, FindSharedGhost,
  TotalNumberOf and Integrate on it. Messages are lists of per-element data (the byte level is Pack,
  C69-C72); the order of arrival is an arbitrary permutation. `Par_Spec.v` states what a consistent
  mesh is without mentioning the lists. Proved: both ends of a channel hold the same keys in the same
  order (two strictly sorted lists with the same members are equal), hence the effect of exchange and
  reduction per element, hence the higher-level algorithms. MPI_Scan, MPI_Bcast, MPI_Allreduce are
  modelled by their meaning. Not modelled: selection marker, reference tags, several element types at
  once, 32-bit overflow of numbers. Defect found: SYNC_BIT_AND yields the owner's marker
  (`C75_and_refuted`, `C75_and_is_owner`).
- **KD** (C80-C82). `KD_Model.v`: boxes over rationals, tree construction for an arbitrary sorting function, point search, segment and sphere traversal, collection of cells and faces, conversion to binary32 (round to nearest even). Proof: every box contains the boxes of elements below (induction over the construction), slab test keeps the parameter of a common point, error bound of rounding. Not modelled: hidden elements during modification, rounding of double arithmetic in box tests.
- **Tri** (C83, C84). `Tri_Model.v`: distances and intersection tests over the reals. Proof: plane coordinates, Pythagoras, first exit from the triangle; exact characterisation of segment_tri. Not modelled: rounding of double arithmetic.
- **Radix** (C85). `Radix_Model.v`: histogram, offsets with the last slot as a temporary, scatter passes, all with bounds checks and 32-bit wrap-around. Proof: each pass writes the buckets in order; three passes sort lexicographically.
- **Loop** (C86-C89). `Loop_Model.v`: getNodes with and without mask, CheckEdgeOrder, FixEdgeOrder (with fuel; None = has not ended), ReorderEdges, SwapCells, BackCell, FrontCell, getBeg, getEnd, each with the branch for the hide marker. `Loop_Spec.v`: paths and polygons of edges. Proof: walk along a path, selection-sort invariant of FixEdgeOrder (prefix is a path, the rest a permutation), uniqueness of the edge that continues a polygon, rotation and reversal of polygons. Not modelled: swaps of FixEdgeOrder during modification.
- **Query** (C90-C93). `Query_Model.v`: getAdjElements and nbAdjElements with and without masks (the regular nested loops with a temporary marker), BridgeAdjacencies, nodes and edges of cells of dimension two; over the mesh of `Adj_Model.v` and the loops of `Loop_Model.v`. The branches with and without hide marker, and with shared and private masks, are one definition with a visibility and a mask predicate. `Query_Spec.v`: adjacency as chains of visible elements. Proof: every collecting loop adds exactly the unmarked elements of a set and marks them; composition of such steps; link symmetry of C43. Not modelled: the typed requests of node.cpp, edge.cpp, face.cpp, cell.cpp that repeat the same loops.
- **Geom** (C94-C98). `Geom_Model.v`: MEASURE, NORMAL, BARYCENTER and CENTROID of GetGeometricData and Cell::Inside of geometry.cpp over the real numbers of the standard library (its axioms are listed by Print Assumptions; rounding is not modelled). The orientation of the faces of a cell, which FacesOrientation computes, is given as a mark per face. `Geom_Spec.v` states closed surfaces (every directed edge as often as its opposite), planar polygons, moments by tetrahedra from an apex and centre of mass of a polygon. The key lemma (`closed_fan`): a quantity that is antisymmetric on edges sums to zero over the boundary triangles of the fans of a closed surface; the dependence of volume, moment and flux on the apex is such a quantity, which gives independence of the apex and the divergence theorem in one step. Not modelled: dimension checks, stored geometric data, faces of dimension one and cells of dimension less than three except Cell::Inside. Found: Cell::Inside in a mesh of dimension two takes scalar products of two components of vectors along the third, so it always answers true (`C98_dimension_two_refuted`).
- **Orient** (C99-C102). `Orient_Model.v`: the search for a common orientation of the faces of a cell as it stands in Mesh::FacesOrientation, Cell::Inside and Face::CheckNormalOrientation of geometry.cpp (queue of bridge edges, marks removed when a face is queued), CheckConvexity with the short way for convex cells, and FixNormalOrientation. Faces are loops of edges; a read out of bounds or too many rounds is None. `Orient_Spec.v` states loops, the directed edges of a face, consistent orientations, connectedness and absence of boundary. The proof is an invariant of the search: every entry of the queue holds the node from which an oriented face leaves the bridge. The marks are then combined with C96 (`closed_of`). Not modelled: stored orientation, the mesh under modification, SwapCells, the short branch of CheckNormalOrientation. Found: in Cell::Inside the list of edges is bound by reference to the first face and never updated, so only neighbours of the first face are oriented (`C102_inside_refuted`).
- **Ilu** (C103-C105). ILU2_preconditioner of solver_ilu2.hpp for one process: Initialize (rescaling,
  uncompressing of a row into the linked list RowIndeces/RowValues, elimination with the two parts of
  U, compression, rescaling of the factors, restoring of the matrix) and Solve. Modelled over real
  numbers; a failed assertion and running out of fuel are None. The invariant is that the links from
  the head are a strictly increasing list containing the diagonal and all other links are UNDEF, so the
  working row is a vector; elimination keeps b = (combination of rows of U) + rest. Division by zero:
  with tau2 = 0 a zero row divides by zero in the code (1/0); C104 asks for tau2 > 0 and C105_exact for
  pivots that were not replaced, which excludes it. Not modelled: several processes, LFILL,
  DIAGONAL_PERTURBATION, the copy constructor (it leaves init, tau, tau2, sciters unset).
- **Bcgs** (C106, C107). BCGS_solver::Solve (the default KSOLVER) for one process over real numbers.
  The preconditioner is an arbitrary function of the number of the call and its argument, rand() an
  arbitrary sequence; the result of a division by zero is None and stops the iterations as the tests
  for large and undefined multipliers do. A run that needs more than [fuel] rounds is None;
  C107_zero_tolerance_refuted shows that no fuel is enough for zero tolerances. Not modelled: several
  processes (there the norm of the perturbed shadow residual is summed after the square root), OpenMP,
  rounding, prec == NULL (then y and z are never set), the class BCGSL_solver.
- **Mtx** (C108-C111). The text of the files is modelled character by character: output of unsigned
  numbers, of doubles in scientific notation with precision 15 (correct rounding, Flocq), getline with
  the buffer of 16384 characters, comments, extraction of numbers, distribution of rows to processes,
  the order file, the three ways Save gathers the text. A write outside of the stored rows is a
  distinct outcome. Simplified: a number with a sign where an unsigned number is expected counts as
  unreadable; the order file is given by its numbers; errors on opening, the sign of zero and overflow
  to infinity on reading are not modelled; HessianMatrix uses the same scheme and is not modelled.
- **Mpt** (C112-C113). The function is modelled statement by statement: column maxima and costs,
  initial duals, greedy matching, one-step augmentation, the search of shortest augmenting paths with the
  binary heap of the Heap module, the update of duals, the change along the path, the scaling with the
  sign. The proof keeps the duals feasible and the matched elements tight over all searches, shows by
  counting that a search can not fail, and derives optimality from the scaled matrix. Reals are exact
  (check_zero(x) is x = 0; numeric_limits::max() is a distinct value); blocks start at 0.
  Matrices without transversal are run by the model but not covered by the positive theorems.
- **Lin** (C114-C117). Products of sparse matrices with vectors, MoveRows, HessianRow::RowVec and the
  Residual class over exact reals. Vectors and matrices carry their interval, an access outside is None.
  The result is compared with plain finite sums. Threads, the communicator, and the sum over processes in
  Norm are not modelled.
- **Expr** (C118-C119). The interpreter of expressions of the XML reader: splitting of the text, conversion
  to reverse notation, evaluation on a stack, and the replacement of SetSize. Numbers are an arbitrary
  type with operations. The specification is an expression tree with its text and value. Messages are not
  modelled.
- **Word** (C120-C125). The contents of data sets in XML mesh files: the reader of words as a function over
  characters with the states of the code, the parsers of values, the loops that place values in elements,
  and the writer. None stands for exceptions, accesses outside of arrays and loops that do not end.
  Generic in the kind of data. The specification describes contents as lists of values with spaces. Not
  modelled: tags and attributes around the contents, included files, reports, the text of real numbers
  (only its value, by Flocq), overflow of int.
- **Xml** (C126-C129). The XML tag reader and writer: each function of the reader that looks at characters is
  a function over text with the states of the code (comment skipping is a part of the function that calls
  it), ReadXMLSub recurses on fuel. Included files are texts put in front of the rest. The specification is a
  grammar of documents with all their spacing, and the tree of each document. Not modelled: line counts and
  reports, folders of included files, characters above 126 other than being not printable, ReadOpenContents
  (used by LoadXML only).
- **Cluster** (C130-C134). The two built-in k-means partitioners, as functions of the lists of cell centroids
  of all processes: redistribution through collective calls with counts and offsets as computed by the code,
  seeding, rounds, refilling of empty clusters, final repair. Arithmetic in any ordered field; a centre that
  is 0.0/0 is an absent centre; `rand()` is an arbitrary function. The specification is a relation (runs of a
  damped Lloyd iteration on one list of points) with its own nearest centre and mean. Not modelled: rounding,
  threads, the serial build, the factor 3 in buffer sizes, weights (computed but unused by the code).
- **Table** (C135-C138). `keyval_table`: binary search with signed indices and truncating division, value,
  derivative, both, assignment. Numbers are elements of any ordered field; reads outside the arrays are `None`.
  The specification says only which line the value lies on. Not modelled: names, rounding, NaN.
- **Opt** (C139-C147). Parameters, buffer of results, suggest/save protocol with restarts, noop, alternating and
  annealing optimizers, saved optimizers. Values are elements of any ordered field; 10^x, the temperature schedule,
  the acceptance function and the random numbers are arbitrary functions; the drawing loop has fuel. `None` is an
  access outside a container, an exception or an endless loop. An optimizer is given by two functions, as the
  virtual functions of the class, and the protocol is proved once for all that change one parameter at a time.
  Not modelled: names, printing, MPI, parsing of configurations, the Bayesian optimizer, iterator invalidation other
  than by removal.
- **Link** (C148-C151). `Element::Disconnect` and `Element::Connect` with lists over the mesh of Adj. The marks are
  tests of membership. A private marker used as a handle (lines 2494 and 2646) denotes the element set with a number
  that depends on the marker; it is a parameter of the model, absent (`None`) when no such set exists. Left out:
  the order of edges and the orientation of normals (FixEdgeOrder, FixNormalOrientation), the computation of
  geometric data itself (the list of elements it is done for is returned), markers left behind on nodes.
- **Sim** (C152-C155). The class `Model`: registry, phases, multiplier and time step, entry switches. Numbers stand
  for names and addresses; user objects are arbitrary functions on an arbitrary state. A flag tells whether assertions
  are compiled. `None` is a failed assertion or a dereferenced end iterator. Left out: timers, ReportErrors, reductions
  over processes, objects that add to the model while a phase runs, the effect of switches inside the automatizator
 , exceptions.
- **Purge** (C156-C158). `Purge_Model.v` models `Mesh::RemoveLinksToDeletedElements` (modify.cpp 1790-1902): the pass over
  reference tags (an array per element; dense, sparse and variable storage only differ in how the array is found), the pass over
  the sets with the three link removals on top of `SetTree_Model.v` (loops and recursion with fuel, a failed assertion is `None`),
  and the erasing loop on top of `ESet_Model.v`. `ApplyModification` sets the hide marker aside, so no element is skipped by the
  iterator (`hid` is constantly false in the theorems). The invariant for the hierarchy is that of C26 together with a rank that
  decreases along sibling links, also along those left over by earlier removals; the rank makes the loop over siblings finite.
  Refuted: a marked set with a marked later child fails an assertion or passes depending on the numbers of the sets
  (`C157_marked_child_refuted`, `C157_marked_child_order`); a set that left its parent keeps its sibling, marking the latter makes
  the call fail (`C157_former_sibling_refuted`); children of a deleted set keep their siblings (`C157_orphans_refuted`). Tags of
  remote references are not visited by the code and count as other data. Not modelled: the callers in parallel.cpp, and the destruction that follows in EndModification.
- **Incid** (C159-C161). `Incid_Model.v` models the class `incident_matrix` (incident_matrix.hpp 92-702, the variant that is
  compiled) function by function: constructor, `do_show_row`, `do_hide_row`, `test_success`, `compute_measure`,
  `recursive_find`, `find_shortest_loop`, and the loop of `SplitFace`/`SplitCell` that takes loops until there is none.
  Measures are rational numbers, rounding is not modelled. The proofs bring every state into the form determined by the
  elements shown; one induction over the depth of the recursion gives termination, restoration of the state, soundness of the
  best loop and, for elements with two lower elements, that every loop through the start is either reached or pruned by a
  loop with fewer elements. Specification in `Incid_Spec.v` (lower elements counted directly). Refuted:
  `C159_twice_refuted`, `C160_faces_refuted` (rows marked as stubs stay marked while the situation changes),
  `C161_shortest_refuted`. Not modelled: creation of the new faces and cells and their geometry, NEW_ALGORITHM.
- **Rcm** (C162-C164). `Rcm_Model.v` models `Partitioner::Evaluate` with `INNER_RCM` (partitioner.cpp 298-408) on the process
  that has the cells: the order of cells, selection of the starting cell, the queue with its clearing at the ends of parts and
  the destinations. The mesh is the list of faces of each cell; neighbours and boundary faces are computed from it as in
  `BridgeAdjacencies` and `Face::Boundary`. `std::sort` is any function that returns a sorted permutation. The proofs
  replace the tag with the numbers by the list of numbered cells, which only grows; the invariant says which cells of the
  current part are exhausted and from where each cell of the queue was reached. Refuted: `C162_idle_refuted`,
  `C163_connected_refuted` (the end of a part is not tested for a starting cell, as a comment in the code suspects).
  Not modelled: `ResolveShared`, the check that only one process has cells, the clash of the tag name `ORDER` with a tag of
  the user.
- **Front** (C165-C168). `Front_Model.v` models the class `Solver` (solver.cpp 16-327), `SolverMaster` and the wrappers of the five
  inner solvers: names, which parameters each accepts, which it hands to the method at `SetMatrix` and at `Solve`, the database of
  parameters and its parsing from an XML tree, the life cycle with its null pointer after `Clear`, copy and assignment. Texts
  to values (atoi, atof), defaults, the iterative method, matrices, communicators and parameter files are parameters of the
  model, so the theorems hold for all of them. Refuted: `C165_get_refuted`, `C165_accepted_refuted`, `C166_case_refuted`,
  `C166_name_refuted`, `C167_clear_refuted`, `C167_interval_refuted`, `C168_assign_refuted`. Not modelled: external packages,
  timers, verbosity level, MPI, the flags ModifiedPattern and OldPreconditioner of `SetMatrix`, XML text.
- **Equil** (C169-C171). `Equil_Model.v` models `Mesh::EquilibrateGhost` (parallel.cpp 422-650): the breadth-first search on
  each process with its queue and assertion, the two reductions with their operations, the new owners and statuses of cells,
  then of faces, edges and nodes. `ReduceData` and `ExchangeData` enter by their effect per element, which the module Par
  proves for their own model (C73, C74); the order of arrival is any permutation of the other processes. `Equil_Spec.v` defines
  consistent ownership and distances without the algorithm. Hypotheses: consistent ownership before the call, local
  neighbours are local, a process with a cell has its faces, edges and nodes. Refuted: `C170_idle_refuted` (a process
  may lose all its cells). Not modelled: hidden elements, `RecomputeParallelStorage`, integer overflow of distances.
- **Fopt** (C172-C174). `Fopt_Model.v` models options for files and the selection of formats (mesh_file.cpp 48-231) with
  `split_string` of module Split; texts are lists of characters, `std::set` is the list of members. `Fopt_Spec.v` defines the
  value set last as an inductive relation over the history. Refuted: `C174_same_refuted`, `C174_gmv_refuted`. Not modelled:
  the readers and writers themselves; options that are not about tags (`VTK_GRID_DIMS`, `VERBOSITY` and others) only as texts.
- **Resid** (C175, C176). These extend C115 (rescaling twice, p = 0 for every row, partitions to processes). `Resid_Model.v` models `Residual::Rescale`, `Norm` and `Clear` (residual.cpp 30-93) over the real
  numbers, without rounding and overflow; the infinite exponent that arises for p = 0 is modelled by a separate number `Inf`
  with `pow(n,inf)` of the C library. `Resid_Spec.v` defines the value of an equation for a displacement and rows of norm one.
  `MPI_Allreduce` is the sum over processes. Refuted: `C175_zero_refuted`. Not modelled: locks, a hessian whose interval differs
  from that of the residual.
- **Vtk** (C177-C179). `Vtk_Model.v` models `Mesh::RestoreCellNodes` for cells with three dimensions (mesh.cpp 1437-1626), the tables
  of faces in `LoadVTK` and the section CELLS as written by `SaveVTK` and read by `LoadVTK` (mesh_vtk_file.cpp). `Vtk_Spec.v` has the faces
  of the types of cells from the documentation of VTK and equality of surfaces up to order and first node. Proof: the functions commute
  with injective renaming of nodes; for the nodes 0, 1, ... a finite check by computation shows that each side face adds the same
  nodes above the base whatever the order of faces. Refuted: `C177_wedge_refuted` (prisms are written inside out). Simplified: the
  result of `FaceOrientedOutside` is a flag of the face and assumed right; `CreateFace` may return an existing face with the
  same nodes; cells whose number of nodes does not fit their type are not modelled, neither is the text of the file.
- **Gtype** (C180). `Gtype_Model.v` models `Mesh::ComputeGeometricType` for edges, faces and cells and `Mesh::TestClosure` (geometry.cpp
  863-1016). `Gtype_Spec.v` has closed oriented surfaces and handles of edges (two nodes have one edge). That counts determine the shape is
  proved with a search of all closed surfaces with given numbers of triangles and quadrilaterals: faces are added along an open
  edge, new nodes get the next number. The search is proved complete for all surfaces up to renaming (`search_sound`), then
  run inside Coq. Refuted: `C180_hex_refuted`. Simplified: no hidden elements; faces of the cell are closed loops with at least three nodes;
  faces of the cell that consist of edges only (cells of two dimensions) are modelled but nothing is proved about them.
- **Dims** (C181). `Dims_Model.v` models `Mesh::SetDimensions` (mesh.cpp 1892-1921) with the flat buffer for coordinates, and the deletion and
  creation of tags it uses. `Dims_Spec.v` has resized coordinates and reserved names. Proof: the buffer is the concatenation of one
  segment for every local id, copying changes one segment. Refuted: `C181_name_refuted` (the new tag is named COORD
  instead of PROTECTED_COORD), `C181_user_refuted`. Simplified: values are integers; data of tags on nodes only; the order of tags in the list
  and threads are not modelled.
- **Hess** (C182). `Hess_Model.v` models `HessianMatrix::Save` and `Load` (sparse.cpp 1374-1425, 1455-1562) on the level of lines, with
  `HessianRow::operator []` and `make_index`. `Hess_Spec.v` has rows of symmetric data. Proof: lines of all processes are the lines of the
  concatenated rows; reading lines of a row changes one row. Refuted: `C182_both_orders_refuted`, `C182_offset_refuted`. Simplified: printing
  and reading of numbers is a function `rnd` of the value; comments, annotations and the length limit of lines are not modelled; the matrix has
  no rows before loading; column number zero in a file that was not written by `Save` is not modelled (the code wraps around).
