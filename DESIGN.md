# Formal model of boostorg/multi_array in Rocq (Coq 8.16.1)

Sections 1-2 are the plan written before the proofs; section 3 is the trusted base;
section 4 says, per property, what the theorems say and how they are proved.

## 1. Shape of the model

One executable Gallina model, machine-arithmetic faithful (64-bit `size_t` wraps,
64-bit `ptrdiff_t` overflow is undefined behaviour and is a *distinct outcome*):

| layer | file | models |
|---|---|---|
| outcomes, 64-bit integers, lists | `Base.v` | `BOOST_ASSERT` => `Abort`; signed overflow, out-of-range reads => `UB` |
| storage orders | `StorageOrder.v` | storage_order.hpp |
| extents / ranges / generators | `Ranges.v` | extent_range.hpp, extent_gen.hpp, index_range.hpp, index_gen.hpp, range_list.hpp |
| strides & offsets, element access, iterators | `Layout.v`, `Access.v` | base.hpp, iterator.hpp |
| array_ref, subarray, view objects | `Objects.v` | multi_array_ref.hpp, subarray.hpp, view.hpp |
| memory, exceptions, copy, compare | `Memory.v`, `Ops.v` | std::copy / std::equal / lexicographical_compare over the array iterators, copy_array.hpp, algorithm.hpp |
| owning arrays | `MultiArray.v` | multi_array.hpp (constructors, allocate_space, resize, destructor) |
| stored subarrays/iterators | `Handles.v`, `Stored.v` | subarray.hpp / iterator.hpp objects that outlive a change of their parent; programs keeping any number of them |
| programs | `History.v` | arbitrary operation sequences over any number of arrays, named views and refs, with aliasing lvalues |
| threads | `Threads.v` | the same operations split into single element loads and stores, run by any number of threads under any scheduler |
| threads sharing objects | `Shared.v` | threads over the programs of `Stored.v` that also reindex, reshape and move iterators |
| threads with arrays of their own | `Concur.v` | all commands of `History.v` as trees of single memory steps, run by any number of threads under any scheduler |
| programs that fork and join | `Fork.v` | serial and parallel phases over `Concur.v`; user code, nothing in /repo |
| threads with a mutex or reader/writer lock | `Lock.v` | sections with and without the lock over `Concur.v`; user code, nothing in /repo |
| constness | `Const.v` | the overload sets, conversions and copy constructors of the seven array classes and the iterators; programs over const and mutable handles |
| algorithms | `Algorithms.v` | arbitrary user programs over iterators, reverse iterators, rows and local value_type copies |
| programs outside the headers | `UserCode.v` | std::swap, assign from live iterators, assignment with element conversion, example/print_array.cpp, example/resize_from_other.cpp |

Specifications (`Spec.v`, `HistorySpec.v`) never mention strides, origin offsets or pointers.

## 2. Plan per property

C01, C02, C40: induction over the ordering list; mixed-radix encode/decode bijection; sums over permutations.
C03, C04: induction over dimensions under an explicit "layout fits in 64 bits" predicate.
C05, C06, C07, C36: induction over dimensions of `generate_array_view`; truncating division (`Z.quot`) analysis.
C08, C12, C20, C34, C37, C38: `operator=` is proved equal to a sequential cell-by-cell copy over the lexicographic list of index tuples; frame lemmas on that list.
C09, C10, C32, C33, C35: algebra on the constructors' results.
C11, C13, C14, C21, C24, C25: the heap model with a fuse that makes the k-th throwing operation throw.
C15, C16, C17: comparison is proved equal to comparison of nested lists; order laws by induction on depth.
C18, C19: iterator algebra.
C22, C23, C30: invariant / refinement over operation lists.
C26, C28, C29, C39, parts of C07, C12, C17, C25, C30, C32, C33: false of the code as written in full generality; a `_refuted` theorem with a concrete witness plus the strongest true statement.
C27: equations on index_range.
C31: each function with assertions on that returns normally returns the same with assertions off.
C41, C42, C43: extensions of the C22/C23 refinement to exceptions, to named handles, and to misuse in checked builds.
C44: a free monad of loads and stores refines each operation; footprints; commutation of independent steps.
C45: the classes' overload sets as a table; invariant over chains of expressions; a frame invariant over programs.
C46: algorithms as interaction trees over the iterator operations; simulation against their meaning on lists of rows.
C47: the list-reading loops of each member on lists of any length; access_element with unsigned arithmetic.
C48: cost relation on the abstract machine (CostSpec.v); counting predicate closed under sequencing and loops; combined with the simulation of C22/C23.
C49: std::swap from the modelled copy constructor, copy assignment and destructor; exact fuse counts of each step.
C50: assign's loop over real input iterators refines assign from a list of the old values (C21).
C51: the assignment recursion with an arbitrary conversion function; flattened to the list of element pairs.
C52: print and resize_from_MultiArray over the modelled iterators and resize; rendering of nested lists is prefix-free.
C53: order of reads and writes in the copy sequence; safety condition exact by a distinguishing heap; blocks via injectivity of addressing and lexicographic order.
C54: final values of destination and source cells in the copy sequence; positional equality (C15).
C55: a simulation relation between heaps (placement of live blocks), proved for every operation; interleaved parts by induction over schedules.
C56: a client machine with kept subarrays and iterators (pointers into the parent's lists) and a longhand machine storing expressions; a simulation through every command, composed with the one of C23.
C57: the comparison code rewritten over a dialogue with an arbitrary user operator; loops reduced to list recursion as for C15/C16; bounds by induction on the number of dimensions.
C58: combine the simulations of C23, C41 and C43 with the counts of C48: which calls throw is decided by comparing the throw point with the count; interrupted calls are shown deterministic, and lost blocks are counted exactly.
C59: model the [expr.add] rule: repeat every definition that computes a pointer with a check that the result is within its block or one past the end; prove by induction that the checks never fire for objects in whose index ranges 0 lies, lift to programs with the abstract machine of C23/C41, and characterise exactly the valid element accesses for which they fire.
C60: model the shallow copy constructors member by member, add `multi_array_ref r(x)`, `ref s(r)`, `view w(v)` and `v.reindex(base)` to the command language of C23 and to its abstract machine, and derive from the simulation that writes through one copy are read through the other.
C61: relate two instances of the model over element types T and U by an arbitrary relation on elements; show by induction over every operation, command and program that related programs end the same way with related results, for every point of failure; instantiate the relation.
C62: a machine whose threads share the environment of C56 and whose calls begin (evaluating operands, changing members), access elements one by one, and end; locality and framing of the beginning, and the commutation of C44 for the accesses, give equality with every sequential order.
C63: refs at offsets are part of the history language; sharing and independence follow from the element positions of refs and the footprint of each command.
C64: element assignment that leaves a value behind when it throws; simulation of the torn functions by the plain ones plus one write, then as C58.
C65: allocators with a capacity; guarded equality with the unlimited functions, block-size invariant, counting of outstanding blocks, then induction over programs as C58.
C66: trees of single memory steps for all commands; footprints of commands in terms of owned blocks; an ownership invariant for the pool, preserved by every step.
C67: element-wise footprints of all commands; the memory each thread knows versus the one there is; an invariant preserved by every step of every thread.
C68: serial and parallel phases on top of C67; at each join recover the abstract state from the concrete memory; compose by induction over the phases, termination by a lexicographic measure.
C69: threads with sections under one mutex or reader/writer lock on top of C66; ownership of blocks passes with the lock; simulation of the interleaved run by a serial execution of whole sections; termination by a lexicographic measure.

## 3. Trusted base

**Kernel.** Coq 8.16.1's kernel (`coqc`, and `vm_compute` in some concrete
examples only).  No flags that weaken it are used; `_CoqProject` is as given.

**Assumptions.** `Properties.v` restates every property theorem and ends each with
`Print Assumptions`; every one prints *Closed under the global context*: no
axiom, no section variable, no admitted obligation.  No axiom of any library
is used by any theorem.  (The files import the standard library only -
`ZArith`, `List`, `Bool`, `Permutation`, `Sorted`, `Lia`.  The
standard library's `Coq.ssr.ssrunder` declares seven opaque `Under_rel*` module
fields that a whole-environment scan lists; no theorem depends on them.)

**What the statements are made of.** To judge whether a theorem says what the
property says, one has to read
- the *specification files*, which define the vocabulary without strides,
  offsets or loops: `Spec.v` (index tuples, positions, representable layouts,
  strided ranges), `ViewSpec.v`, `ReachSpec.v` (which objects a program can hold),
  `IterSpec.v`, `MemSpec.v`, `CompareSpec.v`, `OwnSpec.v`, `CheckSpec.v`,
  `HistorySpec.v` (the abstract machine for whole programs), `FaultSpec.v`,
  `ThreadSpec.v` (footprints, independence, data races), `ConstSpec.v` (read-only types, loopholes),
  `SeqSpec.v` (algorithms on plain sequences), `CostSpec.v` (operation counts),
  `UseSpec.v` (swap, input ranges, printed text), `OverlapSpec.v` (order of reads and writes, blocks, mirrored views), `RelocSpec.v` (the same state lying elsewhere, parts side by side),
  `StoredSpec.v` (kept objects written out as expressions), `CallSpec.v` (the questions comparisons ask of the element type),
  `ExactSpec.v` (what failing programs do), `OpaqueSpec.v` (programs over two element types that correspond),
  `AliasSpec.v` (objects giving the same element), `SharedSpec.v` (races on elements and on objects),
  `StrictSpec.v` (which programs form only valid pointers), `TornSpec.v` (half-done element operations),
  `QuotaSpec.v` (memory in use), `ConcurSpec.v` (threads with arrays of their own, clashes),
  `ParSpec.v` (elements read and written, their division among threads), `ForkSpec.v` (programs with parallel phases), `LockSpec.v` (sections executed whole, in some order);
- the *model files*, which transcribe the C++: `Base.v`, `StorageOrder.v`,
  `Ranges.v`, `Layout.v`, `Access.v`, `Objects.v`, `Memory.v`, `Ops.v`,
  `MultiArray.v`, `Handles.v`, `History.v`, `Calls.v`, `Stored.v`, `Threads.v`, `Shared.v`, `Strict.v`, `Const.v`, `Algorithms.v`, `UserCode.v`, `Torn.v`, `Quota.v`, `Concur.v`, `Fork.v`, `Lock.v`.  Each definition cites file and lines.
All other files contain only lemmas and theorems.

**The model is hand-written.**  That it transcribes the headers correctly is
trusted, not proved; the citations are there so that it can be compared line by
line, and the seeded-bug log (`seeded/LOG.jsonl`) shows that the theorems are
sensitive to transcription errors.

### 3.1 Modelled

| header | modelled |
|---|---|
| storage_order.hpp | general_storage_order (constructors, ==), c_storage_order, fortran_storage_order and their conversions |
| extent_range.hpp, extent_gen.hpp, range_list.hpp | all (including the dummy entry of the zero-range list) |
| index_range.hpp, index_gen.hpp | all members and operators |
| base.hpp | value_accessor_n/_one::access with their assertions, access_element, compute_strides, compute_first_index / calculate_origin_offset / calculate_descending_dimension_offset / calculate_indexing_offset, generate_array_view (all assertions, the boost::array stores) |
| iterator.hpp | all members of array_iterator; boost::iterator_facade's derived operators and boost::reverse_iterator as far as listed in Access.v |
| algorithm.hpp | copy_n |
| multi_array_ref.hpp | all constructors, reindex, reshape, size queries, origin/data, operator[] / () / [indices], begin/end/rbegin/rend, assign, operator=, comparisons |
| subarray.hpp, view.hpp | the same for subarrays and views |
| multi_array.hpp | all constructors, operator=, resize (both), destructor, allocate_space/deallocate_space |
| copy_array.hpp | copy_array |
| example/for_each.hpp | for_each |
| example/print_array.cpp, resize_from_other.cpp | print, resize_from_MultiArray (`UserCode.v`, with std::swap) |

The C++ machine underneath: `size_t` arithmetic wraps modulo 2^64; `ptrdiff_t`
overflow, reads outside of a block, of raw memory or of freed memory, division by
zero, reads of uninitialised list entries and writes past a list's end are
undefined behaviour, a separate outcome that every safety theorem excludes;
`BOOST_ASSERT` either aborts (assertions on) or is absent (off); allocation,
element construction and element assignment may throw, at any chosen occurrence;
destructors do not throw.

### 3.2 Not modelled, or simplified

- Template machinery resolved at compile time: NumDims is a `nat`, `concept_checks.hpp`,
  `collection_concept.hpp`, SFINAE, `array_view_gen`/`subarray_gen`, MSVC work-arounds.
  A program the compiler rejects (wrong number of subscripts) is outside the model or `UB`.
- const and non-const versions of a member have one model (the code is the same); which
  of them a program gets, and what compiles, is modelled in `Const.v` only.  There the
  type checker covers member access, slicing, iterators, upcasts, handle copies,
  conversions and the modifying members; `const_cast`, user-defined derived classes and
  explicit constructor calls that need an iterator's private data are outside.
- `Threads.v` and `Shared.v` interleave element accesses and assume sequential consistency
  for race-free programs (the C++ memory model's guarantee).  `Shared.v` adds reindex, reshape
  and moving iterators to the threads' calls; C66 adds
  constructing, resizing and destroying arrays, for threads that share arrays read-only and
  change only arrays of their own; constructing, resizing or destroying an array while other
  threads use *that* array without a lock is not covered (c66_destroying_shared_refuted shows it races).
  C67 lets the threads also write disjoint elements of the shared arrays; C69 lets them do anything to
  shared arrays in sections that hold a lock (one lock for all shared arrays; no fairness: a thread may
  wait for as long as others keep taking the lock).
  In C66 to C69 views and references are held by value, one copy per thread, and the allocator is
  thread-safe.
- A 64-bit platform (types.hpp: size_type = std::size_t, index = std::ptrdiff_t).
- Pointer arithmetic is flat everywhere except in `Strict.v`: forming a pointer outside of a
  block is not UB, only using it is.  `Strict.v` repeats the code under the stricter C++ rule,
  and C59 says when the two agree and when the strict rule makes valid calls undefined.
  Integer arithmetic inside `base[offset]` and the element pointers used by allocation are
  not checked there.
- Freed blocks are never reused by the model's allocator; that a program without UB cannot tell
  is theorem C55 (block identities may be permuted, reused or interleaved with foreign blocks at will).
- `Stored.v`: moving or comparing a kept iterator whose parent is gone counts as undefined (the C++ reads the
  parent's lists only on comparison and dereference). `operator->` of one-dimensional iterators does not compile
  (it would form a pointer to a reference) and is not modelled.
- An allocator is represented by an identity; fancy pointers, stateful
  `construct`/`destroy` and allocator propagation traits are not modelled.
- Element types: any Coq type `T` with arbitrary Boolean `==` and `<`, and a default value.
  Element assignment either happens or throws without effect, except in Torn.v
  (C64), where an assignment that throws leaves an arbitrary value in its target;
  a failed swap or user-written transform that damages its own state is not modelled.
- std::copy, std::equal, std::lexicographical_compare, std::accumulate, boost::array,
  boost::alloc_construct_n / alloc_destroy_n are modelled by their standard loops.
- Iterators' `operator->` and the `operator_brackets_proxy` of iterator_facade, stream
  output and serialization (not part of the library) are not modelled.
- `Algorithms.v` covers algorithms whose arrays keep their geometry meanwhile; copies of rows are
  only taken of rows with dimensions (for 1-d arrays an element value is read instead), and the
  three algorithms at its end are user code, not part of the library.
- In `History.v` subarrays are temporaries; `Stored.v` (C56) and `Handles.v` (C30) add stored subarrays and
  iterators. Buffers that refs wrap are the storage of multi_arrays (from any offset); a plain C array is
  represented by a one-dimensional multi_array.

### 3.3 Validation of the model

`RepoTests.v` transcribes the repository's own tests into programs of the model and lets the kernel
compute them: every `run` test of test/Jamfile.v2 (access, slice, iterators, assign and assign_to_array
in all 84 configurations of generative_tests.hpp: 7 kinds of object, 3 storage orders, 4 modifiers;
constructors, allocators, compare, index_bases, storage_order, storage_order_convert, reshape, resize,
range1, idxgen1, stl_interaction, assert, reverse_view), vc_death.cpp and the programs in example/.
All give the results the tests expect, with assertions and without.  The `compile-fail` tests are in
`ThmConst.v`.  These are tests of the model's fidelity, not proofs; no property rests on them.

## 4. Per property

The statements are in `rocq/theories/Properties.v` under these names.  A name ending in
`_refuted` is a proved counterexample to (the unrestricted form of) the property; the other
theorems of the row are the strongest true statements found.

| property | theorems (prefix Cnn_) | proof |
|---|---|---|
| C01 Element addressing is a bijection onto the storage | addressing_bijection, derived_injective | mixed-radix encoding; induction over the storage order's permutation shows the offset map is a bijection onto [0, num_elements) |
| C02 Storage orders place elements where the documentation says | storage_order_layout, constructors_keep_order, order_equality, named_orders_valid, c_order_is_row_major, fortran_order_is_column_major, conversions_agree | closed formula for strides (product of the extents that precede in the ordering), origin offset for descending dimensions; induction over the ordering list |
| C03 Accessor equivalence | accessors_agree_checked, accessors_agree | both accessors compute origin + sum of index*stride; induction over dimensions under 'layout fits in 64 bits' |
| C04 Range checking is exact and accepted accesses stay inside the array | range_check_exact, accepted_is_inside, extreme_index_refuted | case analysis of the two assertions with wrapping subtraction; witness for indices near the ends of ptrdiff_t |
| C05 Views alias the elements selected by their ranges | views_alias | induction over `generate_array_view`'s loop: offsets and strides of the view encode the selected positions |
| C06 View extents count exactly the selected indices | extent_counts_selected, extent_defined, extent_unique, zero_stride_rejected | ceiling division versus counting the selected indices |
| C07 Accepted views stay inside the parent exactly when no range starts past the end | accepted_view_contained_iff, contained_view_is_safe, forward_ranges_safe, view_escapes_parent_refuted | exact characterisation of the accepted ranges; reverse ranges starting one past the end are the witness |
| C08 Writes through views and subarrays hit exactly the aliased element | write_hits_the_aliased_element, throwing_write_changes_nothing | C05 plus injectivity of addressing, heap update lemmas |
| C09 reindex moves the index bases and nothing else | reindex_array, reindex_scalar, reindex_view, reindex_view_scalar | recomputation of the offset for arbitrary bases |
| C10 reshape keeps the element sequence | reshape, reshape_rejected, reshape_wraps_refuted | same data pointer, strides recomputed; product equality modulo 2^64 gives the witness |
| C11 resize preserves the common block and value-initialises the rest | resize_preserves_common_block, resize_list | `ma_resize` reduced to allocate + copy over the common index box + destroy |
| C12 Assignment is an element-wise deep copy | assignment_is_elementwise, shape_mismatch_aborts, deep_copy, throwing_assignment, only_the_destination_changes, overlap_refuted | operator= shown equal to a sequential copy over the lexicographic list of index tuples; disjointness or equality of cells |
| C13 Copy construction clones layout and contents into fresh storage | copy_construction, copies_are_independent | allocation + linear copy |
| C14 Converting construction copies by position into the requested storage order | converting_construction, default_order_is_row_major | allocation + positional copy, independent of both storage orders |
| C15 Equality compares shape and elements by position | equality_is_positional, equality_is_an_equivalence | comparison equals comparison of nested lists |
| C16 Ordering is the nested lexicographic order | less_is_nested_lexicographic, contents_unique, order_laws | the same for lexicographic_compare, laws by induction on depth |
| C17 Ordering and equality agree when no leading extent is zero | trichotomy, equal_not_less, trichotomy_refuted | induction on shape; zero leading extent is the witness |
| C18 Iterators form a valid random-access range | distance_is_size, dereference, dereference_checked, increment_is_advance, advance_add, distance_advance, comparisons, distance_defined, subscript | algebra on idx_ with overflow side conditions derived from reachability |
| C19 Reverse iteration is the exact reverse of forward iteration | reverse_rows, reverse_elements, reverse_random_access | rbegin/rend as shifted forward iterators, induction on the distance |
| C20 Nested iteration visits every element exactly once in index order | nested_iteration, for_each | induction on dimensions; traversal list equals `tuples` |
| C21 assign(first,last) fills storage order and never overruns | assign_fills_storage_order, assign_throws | loop invariant on copy_count |
| C22 Storage lifetime discipline over any history | no_leak_no_sharing, all_memory_returned | invariant over all programs: live variables own exactly the outstanding blocks |
| C23 Arrays behave like independent value-semantic maps | programs_behave_as_specified, legal_commands_proceed, results_are_determined | forward simulation of every command of `History.v` by the abstract machine of `HistorySpec.v`, plus progress and determinism |
| C24 resize gives the strong exception guarantee | resize_strong_guarantee, resize_leftover | every throw point of resize leaves the old array untouched; exact leftover |
| C25 What a constructor that throws leaves behind | constructor_outcomes, release_refuted, copy_leaks_elements | exact outcome of every constructor for every fuse; leak witnesses |
| C26 num_elements() is the product of the extents modulo 2^64 | num_elements_is_product_mod_2_64, fits_64_bits, overflow_refuted | wrap-around arithmetic |
| C27 Range notations are interchangeable | setters_commute, setters_make_slices, notations_equal, set_index_range, open_ends_mean_bounds, shift_selects_shifted, shift_roundtrip, shift_open_range_refuted, nth_selected | equations on index_range |
| C28 index_range::size() agrees with the view extent exactly when the stride divides the range or the range is empty in place | size_vs_view_extent, size_disagrees_refuted, reverse_range_size_refuted | truncating versus ceiling division, exact iff |
| C29 Dimension bookkeeping of index_gen matches the generated view | generator_records_arguments, view_dimensions, degenerate_range_argument_refuted | counting of ranges/degenerate ranges by induction over the generator |
| C30 Which stored handles survive a change of their parent's geometry | fresh_handle, reindex_of_leading_dimensions, reindex_denotes_old_index, reindex_refuted, reshape_refuted, fresh_iterator, iterator_after_reindex, iterator_refuted, views_survive, dangling_after_destroy, dangling_after_resize | stored handles re-read the parent's lists: `Handles.v`; witnesses for reindex/reshape |
| C31 Disabling assertions does not change programs that pass them | assertions_are_transparent, converse_refuted | relational lemma per function ('checked result implies same unchecked result'), composed over all operations |
| C32 origin() is the address of the all-zero index | origin_addresses_elements, derived_origin_addresses_elements, data_from_origin, origin_outside_storage_refuted | algebra on the offsets; witness with positive index bases |
| C33 Size queries are consistent | array_sizes, subarray_and_view_sizes, empty_iff_no_elements_refuted | products; witness with a zero extent in a trailing dimension |
| C34 Subarrays partition their parent | subarray_is_a_slice, subarrays_partition, row_assignment_is_local | tuples of the parent = concatenation over the leading index |
| C35 Extent specifications are equivalent | generator_records_arguments, collection_equivalent, ranges_give_bases_and_extents | constructors computed on both specifications |
| C36 Composition of views | full_view_is_identity, views_compose | composition of strided selections |
| C37 multi_array_ref touches only the wrapped buffer | operations_stay_in_the_buffer, operations_are_safe, geometry_keeps_the_buffer | footprint of every operation of a multi_array_ref |
| C38 Self assignment and identity assignment are no-ops | identity_assignment, identity_assignment_interrupted, self_assignment, programs_identity, programs_self | cell-wise copy of a cell to itself, also when the k-th element assignment throws; in every program, through any expressions that denote the same elements |
| C39 What reshape does with lists of the wrong length | longer_list_writes_past_end, shorter_list_refuted | exact behaviour of std::copy on lists of the wrong length |
| C40 Only permutations are usable storage orders | invalid_order_unusable, invalid_order_outcome, storage_order_lengths, valid_order_usable | both directions, with assertions off as well |
| C41 Basic exception guarantee over any history | exceptions_keep_the_basic_guarantee | simulation with interruption points: `attempts` |
| C42 Named views and refs stay valid exactly until their array is resized or destroyed | names_stay_valid, ended_names_dangle | names as handles in the simulation; dangling use is undefined |
| C43 A checked build stops at the first misuse, before it does any damage | misuse_is_caught, misuse_is_illegal | for each kind of misuse the checked run aborts with the heap unchanged |
| C44 Threads on disjoint elements behave as if run one after the other | steps_refine_calls, independent_threads, every_schedule_ends, readers, one_subarray_per_thread, shared_element_refuted | each call refines to loads/stores; independent steps commute; induction over schedules |
| C45 const access is read-only access | const_access_is_read_only, only_loopholes, read_only_exact, loopholes_refuted, const_offers_same_access, const_object_fixed, modifiers_exact, members_exact, steps_exact, element_access, arrow, const_arguments_unchanged, copied_handle_refuted | invariant 'read-only' over chains; frame invariant over programs; exactness by exhibiting the modifying chain |
| C46 Generic algorithms see every array as a plain sequence of rows | algorithms_see_sequences, every_array_is_a_sequence, layout_is_invisible, reverse, sort, find | simulation of every algorithm (a tree of iterator operations) by its run on lists of rows; loop invariants for the three programs |
| C47 Only the first N entries of a list argument count | longer_lists, shorter_lists, unsigned_index_list | unfolding copy_n and the two loops of access_element; wrap-around arithmetic |
| C48 Which calls can throw, and exactly how much work each does | exact_counts, calls_that_never_throw, counts_are_complete, program_counts | a compositional counting predicate on stateful programs (CostProofs.v); CostSpec.v gives the counts on the abstract machine.  Element reads and comparison operators of the element type are taken not to throw |
| C49 std::swap | swap, swap_interrupted, self_swap, swap_shape_mismatch | std::swap as copy construction and two copy assignments (UserCode.v; the classes declare no moves and no swap); exact outcome of each step for every fuse |
| C50 assign() from live data | assign_from_live_data, elements_after_assign, assign_own_storage, reverse_in_place_refuted | the loop of assign with real input iterators (each value read just before it is stored); invariant: unread cells still have their old values |
| C51 Assignment from another element type | converting_assignment, conversion_throws, shape_mismatch_aborts, no_conversion | the assignment recursion with a conversion at the elements; one value type stands for all element types |
| C52 Example programs | print, print_is_faithful, resize_from | print as a recursion over iterators returning tokens (brackets, commas, elements); rendering is prefix-free, hence injective.  (print_array.cpp declares the element overload after the template, so the call for elements relies on a compiler without two-phase lookup; the model takes the intended overload) |
| C53 Overlapping assignment | overlapping_assignment_exact (iff), interrupted, blocks, one_direction_is_right, unit_views_are_blocks, reversed_views_are_mirrored | copy sequence over positions; converse by a heap that holds one value everywhere except in the cell overwritten too early |
| C54 Copies compare equal | assignment_postcondition (iff), equal_after_assignment, postcondition_refuted, copies_compare_equal, converted_arrays_compare_equal | C53's copy sequence plus C15; converse again by a distinguishing heap |
| C55 Where storage lies is unobservable | place_does_not_matter, moving_storage_is_unobservable, moving_storage_never_stuck, independent_parts_do_not_interfere, foreign_storage_is_untouched | simulation between two heaps related by a placement of blocks, through every operation and loop of the model; frame and ownership clauses give non-interference |
| C56 Kept subarrays and iterators | kept_objects_are_abbreviations, programs_behave_as_specified, unnamed_view_refuted, reindexed_parent_refuted | machine whose kept objects hold a pointer, a parent and a depth into the parent's lists (Stored.v) simulated by a longhand machine that stores expressions only (StoredSpec.v), and that by the abstract machine of HistorySpec.v |
| C57 What comparisons ask of the element type | equality_calls, order_calls, calls_determined, order_call_count, layout_makes_no_difference, lawful_operators | the comparison code over a dialogue with a user operator that sees all earlier questions and may answer or throw (Calls.v); reduced to nested lists, then to the question lists of CallSpec.v; erased to the comparisons of Ops.v |
| C58 Exactly where exceptions and failed assertions leave a program | where_failures_leave_a_program, without_mistakes, outcome_is_determined, outcome_exists | the simulation of C23/C41/C43 with the exact counts of C48 deciding which calls throw; determinism of interrupted calls; specification in ExactSpec.v |
| C59 No pointer outside the storage is computed while index 0 is valid | element_access_exact, brackets_exact, element_access_inside, rows_inside, views_inside, whole_array_operations_inside, programs_inside, positive_bases_refuted, empty_objects_refuted | a second copy of the code with a check at every place that computes a pointer (Strict.v), shown equal to the unchecked code by induction on dimensions, loops and programs; condition in StrictSpec.v; the negative part is exact for element access |
| C60 Copies of multi_array_refs and views are shallow, copies of multi_arrays are deep | writes_are_seen, copies_are_shallow, refs_of_arrays_are_shallow, copies_have_their_own_geometry, reindexed_copies_share, array_copies_are_deep, copies_do_not_own | copy constructors (Objects.v) and two new commands (History.v) in the abstract machine of C23; sharing stated by the place of C23 (`same_element`, AliasSpec.v); from the simulation by induction on the program between copy and use |
| C61 Elements are opaque | related_elements, related_catching, relabel, values_do_not_matter, no_value_invented | relational parametricity in the element type of the whole model (Memory, Ops, MultiArray, History), proved operation by operation (OpaqueProofs.v); the correspondence of commands, memories and answers is in OpaqueSpec.v; the three consequences are instances of the relation |
| C62 Threads that change geometry of shared objects | steps_are_calls, independent_threads, every_schedule_ends, views_own_their_geometry, reindex_while_in_use_refuted, iterators_share_geometry_refuted | each thread is shown to behave as if it had the objects it uses to itself (a call depends only on the objects it looks at and changes only its own); what remains is a pool of element accesses as in C44; the final geometry is determined object by object |
| C63 Refs to parts of a buffer | refs_share_by_position, part_exact, disjoint_parts_are_independent, overlong_ref_refuted | the programs of C23/C56 may make refs at any offset of an array's storage; positions of the ref's elements are shown to be off + position, footprints of all commands through a ref are within its part, by induction over the commands |
| C64 Torn element assignments | where_torn_assignments_leave_a_program, outcome_is_determined, outcome_exists, only_one_element, assignment, resize_is_unaffected | Torn.v restates every function that assigns elements with an assignment that leaves a given value behind when it throws; each is shown equal to the function of Ops.v/MultiArray.v/History.v followed by a write to the element whose number is the throw point; the run is then related to the specification as in C58 |
| C65 Memory needed | exactly_enough, outcome_is_determined, outcome_exists, smallest_memory, resize_needs_both, no_memory_needed | Quota.v restates allocate, allocate_space, the constructors, resize, one command and the catching program with an allocator of limited capacity; each constructor and resize is shown to be the unlimited one guarded by one test on the allocator's outstanding elements, and to add at most one block of the requested size; outstanding elements are counted as those of the live variables' blocks plus the lost ones (a permutation argument over block numbers) |
| C66 Threads with arrays of their own | steps_are_calls, threads_are_programs, threads_do_not_interfere, same_as_alone, outcome_exists, every_schedule_ends, destroying_shared_refuted, reader_left_with_nothing | Concur.v restates every operation of the programs of C23 as a tree of single memory steps (read, write, allocate, construct, destroy, deallocate, possible throw), shown equal to the originals when run uninterrupted; every command is shown to write only to blocks its thread owns or has just obtained and to read only these and the shared ones; a weakest-precondition invariant over (owner of each block, what each thread sees) is preserved by every step of every thread |
| C67 Threads sharing arrays element by element | threads_share_elements, same_as_alone, outcome_exists, covers_private_programs, overlapping_lots_refuted | the step trees of C66; ParSpec.v says which elements a command may read or write, in terms of the abstract state, and which commands a thread may use given its lot; every command is shown to touch only those elements of shared arrays, element by element; each thread is given the memory it knows, which equals the real one except in elements given to others; a weakest-precondition invariant over these is preserved by every step of every thread; C66's programs are the instance with no element given away |
| C68 Fork-join programs | fork_join, every_run_ends, one_outcome, outcome_exists | Fork.v adds phases to the step trees of C66; the invariant of C67 is extended by an observer to which nothing is given, whose knowledge is the memory after the threads; at a join the abstract state is recovered from it and the threads' final states, so that phases compose by induction |
| C69 Sections under a common lock | sections_are_atomic, every_run_ends, names_end_with_the_section_refuted | Lock.v adds a reader/writer lock and sections to the step trees of C66; blocks are tagged with the thread that may use them or with the lock, taking and giving back the lock changes the tags of the shared arrays' blocks (a reader sees the lock's blocks without owning them), and a weakest-precondition invariant per thread is preserved by every step; the abstract sections are executed when the concrete ones begin |
