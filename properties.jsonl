{"id": "C01", "title": "Element addressing is a bijection onto the storage", "statement": "For an array of any shape, index bases and storage order (any permutation of dimensions, any mix of ascending/descending dimensions), the elements a(i) for in-range index tuples i occupy pairwise distinct cells, all of them in [data(), data()+num_elements()), and every one of those cells is the element of some in-range tuple.", "quantifier": "every number of dimensions, every shape, every index bases, every permutation and direction vector, every in-range index tuple (sizes for which the element count and index products are representable)", "why_tests_cant": "the set of shapes, orders and tuples is infinite; a test checks a handful of 2-D/3-D arrays", "anchors": ["include/boost/multi_array/base.hpp:compute_strides", "include/boost/multi_array/base.hpp:calculate_origin_offset", "include/boost/multi_array/base.hpp:access_element", "include/boost/multi_array/multi_array_ref.hpp:init_multi_array_ref"]}
{"id": "C02", "title": "Storage orders place elements where the documentation says", "statement": "The element with index tuple i is stored at data()[r] where r is the mixed-radix number whose least significant digit is dimension ordering[0], next ordering[1], ...; a descending dimension counts its digit from the far end. In particular c_storage_order is row-major, fortran_storage_order is column-major, and both can be obtained through either conversion with the same result.", "quantifier": "every dimension count, shape, bases, permutation and direction vector, every in-range tuple", "why_tests_cant": "tests compare a few fixed layouts", "anchors": ["include/boost/multi_array/storage_order.hpp:general_storage_order", "include/boost/multi_array/storage_order.hpp:c_storage_order", "include/boost/multi_array/storage_order.hpp:fortran_storage_order", "include/boost/multi_array/base.hpp:compute_strides"]}
{"id": "C03", "title": "Accessor equivalence", "statement": "a[i1][i2]...[iN] and a(list(i1..iN)) denote the same element, for arrays, subarrays and views, and both abort on exactly the same index tuples when range checking is on.", "quantifier": "every array-like object with representable layout, every index tuple in or out of range", "why_tests_cant": "equivalence over all tuples and layouts cannot be enumerated", "anchors": ["include/boost/multi_array/base.hpp:access", "include/boost/multi_array/base.hpp:access_element"]}
{"id": "C04", "title": "Range checking is exact and accepted accesses stay inside the array", "statement": "With assertions on, for any array, subarray or view a and any index tuple for which index - base is representable in a 64-bit signed integer in each dimension, a(i) and a[i1]..[iN] abort if and only if some index lies outside [index_base, index_base+extent) of its dimension; whatever the tuple, an accepted access is in range and refers to a cell of the array's own storage. The representability condition is needed: there is an array and an out-of-range index for which the check itself overflows (undefined behaviour) instead of aborting.", "quantifier": "every array, every integer tuple representable as index", "why_tests_cant": "needs all indices including extreme ones", "anchors": ["include/boost/multi_array/base.hpp:value_accessor_n::access", "include/boost/multi_array/base.hpp:value_accessor_one::access", "include/boost/multi_array/base.hpp:access_element"]}
{"id": "C05", "title": "Views alias the elements selected by their ranges", "statement": "For an accepted a[indices[r1]..[rN]], view element v(j) is the very element a(i) where i takes start+j*stride in each ranged dimension and the given index in each degenerate dimension; the view has one dimension per non-degenerate range, zero index bases, and is valid for views of arrays, subarrays and views of views.", "quantifier": "every parent geometry, every list of ranges accepted by the checks, every in-range view tuple, every nesting of views", "why_tests_cant": "infinitely many range combinations and nestings", "anchors": ["include/boost/multi_array/base.hpp:generate_array_view", "include/boost/multi_array/view.hpp:const_multi_array_view", "include/boost/multi_array/index_gen.hpp:index_gen"]}
{"id": "C06", "title": "View extents count exactly the selected indices", "statement": "The extent of a ranged view dimension equals the number of indices start, start+stride, start+2*stride, ... that lie strictly before finish in the direction of the stride (0 if none).", "quantifier": "every start, finish and non-zero stride of either sign for which the subtraction is representable", "why_tests_cant": "the truncating-division trick has sign/rounding corner cases at every residue", "anchors": ["include/boost/multi_array/base.hpp:generate_array_view"]}
{"id": "C07", "title": "Accepted views stay inside the parent exactly when no range starts past the end", "statement": "If a[indices] is accepted by the range checks, then all indices it selects are indices of a if and only if no reverse range starts at index_base+extent; then every element reachable through the view is an element of a, in the parent's storage. Ranges with positive stride and plain indices never violate this. The condition is needed: the checks accept range(4,-1,-1) on an extent of 4, and the resulting view has an element one past the end of the storage.", "quantifier": "every parent, every accepted range list, every in-range view tuple", "why_tests_cant": "a test would have to pick the single bad boundary; proof shows it is the only one", "anchors": ["include/boost/multi_array/base.hpp:generate_array_view"]}
{"id": "C08", "title": "Writes through views and subarrays hit exactly the aliased element", "statement": "Writing a value through an element reference obtained from a view, subarray or array makes exactly the aliased element of the parent read back that value, and every other element of every array in the program keeps its value.", "quantifier": "every geometry, tuple, value, and every other cell", "why_tests_cant": "frame conditions quantify over all other cells", "anchors": ["include/boost/multi_array/base.hpp:access", "include/boost/multi_array/base.hpp:generate_array_view", "include/boost/multi_array/subarray.hpp:sub_array", "include/boost/multi_array/view.hpp:multi_array_view"]}
{"id": "C09", "title": "reindex moves the index bases and nothing else", "statement": "After reindex(b) the element formerly at index base+k is at b+k for every position k; shape, strides, storage, element values and data() are unchanged; reindex(value) sets all bases to value; reindexing back restores the original array. Holds for arrays and views.", "quantifier": "every array or view, every representable new base list, every position", "why_tests_cant": "all base values, positive and negative, in all dimensions and orders", "anchors": ["include/boost/multi_array/multi_array_ref.hpp:reindex", "include/boost/multi_array/view.hpp:reindex"]}
{"id": "C10", "title": "reshape keeps the element sequence", "statement": "reshape(e), e a list of NumDims extents whose product equals num_elements(), changes the shape to e and leaves data(), index bases, storage order and num_elements() unchanged; the k-th element in storage order stays the k-th element in storage order, and reshaping back restores the array. If the product of e, not reduced modulo 2^64, is below 2^64 and differs from num_elements(), reshape aborts with assertions on; products of 2^64 and more may wrap to num_elements() and are then accepted.", "quantifier": "every array, every extent list of the right length, every element", "why_tests_cant": "all factorizations of all sizes in all storage orders", "anchors": ["include/boost/multi_array/multi_array_ref.hpp:reshape", "include/boost/multi_array/base.hpp:compute_strides"]}
{"id": "C11", "title": "resize preserves the common block and value-initialises the rest", "statement": "After resize(ranges) the shape and bases are those requested, the storage order is kept, every position k inside both old and new shape keeps its value, every other position holds the default value, and the call neither aborts nor touches memory outside the two arrays - for all old and new shapes including zero extents.", "quantifier": "every old array, every requested ranges (allocation succeeding), every position", "why_tests_cant": "all pairs of shapes, bases and storage orders", "anchors": ["include/boost/multi_array.hpp:resize", "include/boost/multi_array.hpp:populate_index_ranges", "include/boost/multi_array/base.hpp:generate_array_view"]}
{"id": "C12", "title": "Assignment is an element-wise deep copy", "statement": "dst = src (any mix of arrays, refs, subarrays and views with the same number of dimensions) aborts without modifying anything if the shapes differ and assertions are on; if the shapes are equal it is the sequence of single-element copies, in increasing index order, of src's element at each position to dst's element at the same position; so for non-overlapping operands dst afterwards holds at each position the value src held there and src is unchanged; no cell outside dst changes in any case. When the k-th element assignment throws, exactly the first k-1 copies have been done. For overlapping operands the destination need not end up with the source's old values (a witness is given).", "quantifier": "every pair of geometries, storage orders and index bases, every memory content", "why_tests_cant": "infinitely many layout pairs; aliasing patterns", "anchors": ["include/boost/multi_array/multi_array_ref.hpp:operator=", "include/boost/multi_array/subarray.hpp:operator=", "include/boost/multi_array/view.hpp:operator="]}
{"id": "C13", "title": "Copy construction clones layout and contents into fresh storage", "statement": "multi_array b(a) has a's shape, strides, index bases, storage order and allocator and equal elements at equal indices, in storage disjoint from every existing array; later writes to either do not affect the other.", "quantifier": "every source array, every later write", "why_tests_cant": "independence quantifies over all later histories", "anchors": ["include/boost/multi_array.hpp:multi_array(const multi_array&)", "include/boost/multi_array/algorithm.hpp:copy_n"]}
{"id": "C14", "title": "Converting construction copies by position into the requested storage order", "statement": "multi_array b(x, so) from any array_ref, subarray or view x has x's shape and index bases, storage order so (C order if omitted), and equal elements at equal indices.", "quantifier": "every source geometry, every target storage order", "why_tests_cant": "all order pairs and geometries", "anchors": ["include/boost/multi_array.hpp:multi_array(const const_multi_array_ref&...)", "include/boost/multi_array.hpp:allocate_space"]}
{"id": "C15", "title": "Equality compares shape and elements by position", "statement": "a == b is true iff the shapes are equal and elements at equal positions are equal; index bases, storage order and kind of array do not matter. != is its negation. It is an equivalence when element equality is.", "quantifier": "every pair of arrays/views/subarrays and contents", "why_tests_cant": "all layouts and contents", "anchors": ["include/boost/multi_array/multi_array_ref.hpp:operator==", "include/boost/multi_array/subarray.hpp:operator==", "include/boost/multi_array/view.hpp:operator=="]}
{"id": "C16", "title": "Ordering is the nested lexicographic order", "statement": "a < b is the lexicographic comparison of the rows (recursively), >, <=, >= are derived from it; if element < is a strict weak (total) order so is <; <= is total.", "quantifier": "every pair/triple of arrays of any shapes and contents", "why_tests_cant": "algebraic laws quantify over all triples", "anchors": ["include/boost/multi_array/multi_array_ref.hpp:operator<", "include/boost/multi_array/subarray.hpp:operator<", "include/boost/multi_array/view.hpp:operator<"]}
{"id": "C17", "title": "Ordering and equality agree when no leading extent is zero", "statement": "If element < is a strict total order compatible with element ==, and no extent of a except possibly the last is zero, then a == b if and only if neither a < b nor b < a. Without that condition a == b still implies that neither is less; the converse fails (two arrays of shapes with zero extents that are neither less nor equal exist).", "quantifier": "every pair of arrays", "why_tests_cant": "needs the degenerate shapes nobody tests", "anchors": ["include/boost/multi_array/multi_array_ref.hpp:operator==", "include/boost/multi_array/multi_array_ref.hpp:operator<"]}
{"id": "C18", "title": "Iterators form a valid random-access range", "statement": "distance(begin,end)==size(); *(begin()+k) and begin()[k] are a[index_bases[0]+k]; ++/--/+=/-/comparison/equality obey the random access laws; dereferencing end() aborts.", "quantifier": "every array, every offset", "why_tests_cant": "laws over all offsets", "anchors": ["include/boost/multi_array/iterator.hpp:array_iterator", "include/boost/multi_array/multi_array_ref.hpp:begin", "include/boost/multi_array/multi_array_ref.hpp:end"]}
{"id": "C19", "title": "Reverse iteration is the exact reverse of forward iteration", "statement": "rbegin()..rend() yields the same values as begin()..end() in the opposite order; rbegin()..rend() is a random-access range itself: rbegin()+k, reached by += or k increments, is at distance k and denotes a[index_base+size-1-k] (index_base greater than the least index value).", "quantifier": "every array", "why_tests_cant": "all shapes", "anchors": ["include/boost/multi_array/multi_array_ref.hpp:rbegin", "include/boost/multi_array/multi_array_ref.hpp:rend"]}
{"id": "C20", "title": "Nested iteration visits every element exactly once in index order", "statement": "Nested begin()/end() traversal touches each element of the array exactly once, in increasing lexicographic index order, whatever the storage order, and nothing else.", "quantifier": "every array, view or subarray", "why_tests_cant": "all shapes and orders", "anchors": ["include/boost/multi_array/iterator.hpp:array_iterator", "example/for_each.hpp:for_each", "include/boost/multi_array/copy_array.hpp:copy_array"]}
{"id": "C21", "title": "assign(first,last) fills storage order and never overruns", "statement": "assign copies min(distance(first,last), num_elements()) values to the first cells in storage order and changes nothing else.", "quantifier": "every array, every input length", "why_tests_cant": "lengths around every size", "anchors": ["include/boost/multi_array/multi_array_ref.hpp:assign"]}
{"id": "C22", "title": "Storage lifetime discipline over any history", "statement": "In any sequence of constructions, copies, assignments, element writes, reshape/reindex/resize and destructions that does not throw, no storage is freed twice, used after free, or leaked; each element slot is constructed once and destroyed once; storage is returned to the allocator it came from with the size it was requested with; no two arrays share storage.", "quantifier": "every finite history of operations", "why_tests_cant": "histories are unbounded", "anchors": ["include/boost/multi_array.hpp:allocate_space", "include/boost/multi_array.hpp:deallocate_space", "include/boost/multi_array.hpp:resize", "include/boost/multi_array.hpp:~multi_array"]}
{"id": "C23", "title": "Arrays behave like independent value-semantic maps", "statement": "Any program of operations on any number of multi_arrays (construction, copy, assignment between whole arrays/subarrays/views, element get/set, reindex, reshape, resize, compare, destroy) produces the same outputs as an abstract machine in which each array is a plain shape, bases, storage order and element sequence.", "quantifier": "every finite operation sequence", "why_tests_cant": "unbounded histories with aliasing views", "anchors": ["include/boost/multi_array.hpp", "include/boost/multi_array/multi_array_ref.hpp", "include/boost/multi_array/subarray.hpp", "include/boost/multi_array/view.hpp"]}
{"id": "C24", "title": "resize gives the strong exception guarantee", "statement": "If allocation, element construction or element copy throws at any point during resize, the array is exactly as before the call (shape, bases, values, storage) and every other array too; the memory left behind is nothing when the allocation or an element copy throws and one raw block when an element construction throws.", "quantifier": "every array, every requested shape, every throw point", "why_tests_cant": "every crash point", "anchors": ["include/boost/multi_array.hpp:resize"]}
{"id": "C25", "title": "What a constructor that throws leaves behind", "statement": "If a constructor of multi_array exits by exception, no existing array or block changes; if the exception came from the allocation itself nothing is left behind, and if it came later (an element constructor or assignment) the block the constructor obtained is never returned to the allocator: it leaks. In the copy constructor a throwing element assignment also leaves all elements of that block constructed and never destroyed; a throwing element constructor leaves raw memory only.", "quantifier": "every constructor argument, every throw point", "why_tests_cant": "every crash point", "anchors": ["include/boost/multi_array.hpp:allocate_space", "include/boost/multi_array.hpp:multi_array(const multi_array&)"]}
{"id": "C26", "title": "num_elements() is the product of the extents modulo 2^64", "statement": "num_elements() of any array or ref that can be constructed is the product of its extents modulo 2^64; it equals the product whenever the layout fits 64 bits. It can differ: the extents 2^32 x 2^32 are accepted, num_elements() is 0, and an in-range access is outside the allocation.", "quantifier": "every extent list of 64-bit sizes", "why_tests_cant": "needs extents whose product exceeds 2^64", "anchors": ["include/boost/multi_array/multi_array_ref.hpp:init_multi_array_ref", "include/boost/multi_array/base.hpp:compute_strides"]}
{"id": "C27", "title": "Range notations are interchangeable", "statement": "An index_range built by the constructor, by chained start/finish/stride calls in any order, or by the comparison operators is the same range; start() and finish() turn any range into a slice, whereas set_index_range() on a single index leaves it a single index; unspecified ends mean the bounds of the array the view is made of; adding to or subtracting from a range with both ends given shifts every selected index, and subtracting undoes adding; shifting a range with an open end overflows (undefined behaviour) instead.", "quantifier": "every start/finish/stride/shift representable", "why_tests_cant": "all values", "anchors": ["include/boost/multi_array/index_range.hpp:index_range", "include/boost/multi_array/index_range.hpp:operator<", "include/boost/multi_array/index_range.hpp:operator<=", "include/boost/multi_array/index_range.hpp:set_index_range"]}
{"id": "C28", "title": "index_range::size() agrees with the view extent exactly when the stride divides the range or the range is empty in place", "statement": "For a range with explicit ends, r.size(idx) is (finish-start)/stride, truncated and reduced modulo 2^64, whereas the view generated from r rounds up and is 0 for a range in the wrong direction. They agree if and only if the quotient is not negative and the stride divides finish-start or the range selects nothing. Witnesses of disagreement in both directions are given.", "quantifier": "every fully specified range", "why_tests_cant": "all residues", "anchors": ["include/boost/multi_array/index_range.hpp:size", "include/boost/multi_array/base.hpp:generate_array_view"]}
{"id": "C29", "title": "Dimension bookkeeping of index_gen matches the generated view", "statement": "indices[x1]..[xN] records its arguments in order and counts the ranges among them. An accepted view made from it has exactly as many dimensions as there were range arguments, and none of those was a degenerate index_range object; there is a degenerate range object for which making the view aborts (undefined behaviour with assertions off).", "quantifier": "every chain of index_gen::operator[] calls", "why_tests_cant": "all chains", "anchors": ["include/boost/multi_array/index_gen.hpp:operator[]", "include/boost/multi_array/index_range.hpp:is_degenerate", "include/boost/multi_array/base.hpp:generate_array_view"]}
{"id": "C30", "title": "Which stored handles survive a change of their parent's geometry", "statement": "A stored subarray, used while its parent's geometry is unchanged, denotes what it denoted when made. After the parent is reindexed it is unchanged if the index bases of its own dimensions stay the same; otherwise its index range moves with the new bases while its base pointer does not, so index j denotes what was a(i1..ik,j) before, and an access accepted by the range checks can leave the storage (witness); after a reshape of the parent likewise (witness). A stored end() iterator may never be reached from begin() after a reindex (witness). Views own their geometry: after reindexing or reshaping the parent they denote the same cells, which are elements of the array in its new geometry too. After resize or destruction of the parent every element access through an old subarray, view or ref is undefined behaviour.", "quantifier": "every array, handle and later history", "why_tests_cant": "histories", "anchors": ["include/boost/multi_array/subarray.hpp:const_sub_array", "include/boost/multi_array/view.hpp:const_multi_array_view", "include/boost/multi_array/base.hpp:access"]}
{"id": "C31", "title": "Disabling assertions does not change programs that pass them", "statement": "Any operation that completes (normally or by exception) with assertions on gives the same result, memory and exception behaviour with assertions off. The converse is false: an operation that aborts with assertions on may return a value with assertions off (witness).", "quantifier": "every operation and state", "why_tests_cant": "all executions", "anchors": ["include/boost/multi_array/base.hpp", "include/boost/multi_array/multi_array_ref.hpp", "include/boost/multi_array/subarray.hpp", "include/boost/multi_array/view.hpp"]}
{"id": "C32", "title": "origin() is the address of the all-zero index", "statement": "For any array, subarray or view and any in-range index tuple, the element's address is origin() + sum(index*stride); data() == origin() + sum(base*stride) when all dimensions ascend. origin() itself need not point into or just past the storage (witness).", "quantifier": "every array", "why_tests_cant": "all bases", "anchors": ["include/boost/multi_array/multi_array_ref.hpp:origin", "include/boost/multi_array/base.hpp:calculate_origin_offset"]}
{"id": "C33", "title": "Size queries are consistent", "statement": "num_elements() of arrays, subarrays and views is the product of their shape(), size() is shape()[0], max_size() is num_elements(), num_dimensions() is the length of shape(), empty() is true iff size()==0. empty() is not the same as having no elements: an array of shape 3x0 has none and is not empty().", "quantifier": "every array/subarray/view", "why_tests_cant": "all shapes", "anchors": ["include/boost/multi_array/multi_array_ref.hpp:size", "include/boost/multi_array/multi_array_ref.hpp:empty", "include/boost/multi_array/subarray.hpp:num_elements", "include/boost/multi_array/view.hpp:num_elements"]}
{"id": "C34", "title": "Subarrays partition their parent", "statement": "a[i] is an (N-1)-dimensional array of a's remaining shape and bases; subarrays at different indices occupy disjoint cells and together cover a; assigning to a[i] changes only elements whose first index is i.", "quantifier": "every array, every pair of indices", "why_tests_cant": "all shapes/orders", "anchors": ["include/boost/multi_array/base.hpp:value_accessor_n::access", "include/boost/multi_array/subarray.hpp:sub_array"]}
{"id": "C35", "title": "Extent specifications are equivalent", "statement": "extents[n1][n2].. and a Collection {n1,n2,..} construct identical arrays; extents[range(b,f)] gives extent f-b and base b; generators record ranges in call order and do not modify the generator they extend.", "quantifier": "every list of extents/ranges", "why_tests_cant": "all lists", "anchors": ["include/boost/multi_array/extent_gen.hpp:operator[]", "include/boost/multi_array/extent_range.hpp:extent_range", "include/boost/multi_array/multi_array_ref.hpp:init_from_extent_gen"]}
{"id": "C36", "title": "Composition of views", "statement": "A view of a view selects the same elements as the single view with composed ranges, and the full-range view [range()]... is the array itself with zero bases.", "quantifier": "every parent, every pair of accepted range lists", "why_tests_cant": "all pairs of ranges and signs", "anchors": ["include/boost/multi_array/base.hpp:generate_array_view", "include/boost/multi_array/view.hpp:operator[]"]}
{"id": "C37", "title": "multi_array_ref touches only the wrapped buffer", "statement": "Every operation on a multi_array_ref (assign, =, element writes, reshape, reindex) reads and writes only the num_elements() cells starting at the wrapped pointer.", "quantifier": "every buffer, geometry, operation", "why_tests_cant": "frame over all cells", "anchors": ["include/boost/multi_array/multi_array_ref.hpp:multi_array_ref"]}
{"id": "C38", "title": "Self assignment and identity assignment are no-ops", "statement": "a = a, and assigning a view/subarray (or copy_array-ing it) to an identically positioned view of the same elements, leaves all memory unchanged, whether it completes or an element assignment throws. a = a for a multi_array does not assign any element, so it cannot throw.", "quantifier": "every geometry, memory and program state, and every place where an element assignment throws", "why_tests_cant": "all layouts", "anchors": ["include/boost/multi_array/multi_array_ref.hpp:operator=", "include/boost/multi_array/view.hpp:operator=", "include/boost/multi_array/subarray.hpp:operator="]}
{"id": "C39", "title": "What reshape does with lists of the wrong length", "statement": "A list longer than NumDims whose product (modulo 2^64) is num_elements() makes reshape write past its extent list (undefined behaviour), with assertions on or off. A shorter list with the right product is accepted and leaves the old extents in the remaining dimensions: there is an array for which an access accepted afterwards is outside the storage.", "quantifier": "every list length", "why_tests_cant": "needs malformed arguments", "anchors": ["include/boost/multi_array/multi_array_ref.hpp:reshape"]}
{"id": "C40", "title": "Only permutations are usable storage orders", "statement": "If an array or ref can be constructed from a storage order with NumDims entries, its ordering is a permutation of 0..NumDims-1. For any other ordering the constructor has undefined behaviour, except that a checked build stops at a failed assertion when some entry is no dimension number (all dimensions ascending). Every permutation whose layout fits 64 bits is accepted, and general_storage_order always stores exactly NumDims entries.", "quantifier": "every ordering list", "why_tests_cant": "all lists", "anchors": ["include/boost/multi_array/storage_order.hpp:general_storage_order", "include/boost/multi_array/base.hpp:compute_strides"]}
{"id": "C41", "title": "Basic exception guarantee over any history", "statement": "In any program in which any allocation, element construction or element assignment may throw, every exception is caught and every call keeps to the contract however the earlier calls ended, there is no undefined behaviour; a call that throws leaves all variables as they were (constructors, resize, single writes) or, if k allocations, constructions and assignments were done before the throw, changed on exactly the first k elements it was to write, in traversal order; every live variable still owns its block and can be used and destroyed; the memory lost is exactly one block for every constructor call that threw after its allocation and for every resize call in which the construction of an element threw (a resize that throws while copying loses nothing).", "quantifier": "every finite program, every combination of throw points in its calls", "why_tests_cant": "crash points times unbounded histories", "anchors": ["include/boost/multi_array.hpp:allocate_space", "include/boost/multi_array.hpp:resize", "include/boost/multi_array/multi_array_ref.hpp:assign", "include/boost/multi_array/subarray.hpp:operator="]}
{"id": "C42", "title": "Named views and refs stay valid exactly until their array is resized or destroyed", "statement": "In any program, a view given a name or a multi_array_ref made over an array's storage goes on denoting the same elements, whatever other calls are made (creating, filling, assigning, reindexing and reshaping any array, resizing or destroying other arrays, reshaping or reindexing other names), until its own array is resized or destroyed; from then on every element access through it is undefined behaviour, however much later.", "quantifier": "every program prefix, every later sequence of calls, every name and every index", "why_tests_cant": "unbounded histories", "anchors": ["include/boost/multi_array/view.hpp:multi_array_view", "include/boost/multi_array/multi_array_ref.hpp:multi_array_ref", "include/boost/multi_array.hpp:resize"]}
{"id": "C43", "title": "A checked build stops at the first misuse, before it does any damage", "statement": "With assertions on, in any program whose calls so far kept to the contract: if the next call has an index or dereferenced iterator position out of range anywhere in its operands, a slice out of bounds or with stride zero, operands of an assignment whose shapes differ, or a reshape to another number of elements (values for which the checks' own 64-bit arithmetic overflows excepted), the program aborts at that call, and memory is exactly as the calls before it left it. None of these calls is a legal call of the contract used in C23 and C41.", "quantifier": "every program prefix, every following call of those kinds, every nesting of subscripts, slices and iterators in its operands", "why_tests_cant": "unbounded histories and operand expressions", "anchors": ["include/boost/multi_array/base.hpp:access,access_element,generate_array_view", "include/boost/multi_array/multi_array_ref.hpp:operator=,reshape", "include/boost/multi_array/subarray.hpp:operator=", "include/boost/multi_array/view.hpp:operator=", "include/boost/multi_array/copy_array.hpp:copy_array"]}
{"id": "C44", "title": "Threads on disjoint elements behave as if run one after the other", "statement": "Threads may use the same arrays at the same time. If no element that one thread assigns to (element writes, =, copy_array, for_each, assign, through arrays, subarrays and views) is read or assigned by another, then under every interleaving of their element accesses there is no data race, no thread aborts or has undefined behaviour, every schedule ends, and the results of all calls and the final memory are those of running the threads one after another, in any order. Threads that only read (element reads, comparisons) and threads each confined to its own subarray a[i] satisfy the condition. Without it the outcome can depend on the schedule (witness).", "quantifier": "every number of threads, every sequence of calls in each, every shape, and every schedule (switching between any two element accesses)", "why_tests_cant": "unboundedly many schedules and programs; races do not show up reliably in tests", "anchors": ["include/boost/multi_array/multi_array_ref.hpp:operator=,assign,operator==,operator<", "include/boost/multi_array/subarray.hpp:operator=,operator==,operator<", "include/boost/multi_array/view.hpp:operator=", "include/boost/multi_array/copy_array.hpp:copy_array", "include/boost/multi_array/base.hpp:access"]}
{"id": "C45", "title": "const access is read-only access", "statement": "From a const array, reference, subarray or view, from any const_* handle, const iterator, or pointer/reference to const element, no chain of member calls, slices, iterator steps, dereferences, upcasts, conversions and handle copies that compiles ever reaches an expression on which an element assignment, array assignment, assign() or resize() compiles - except through an explicitly listed set of loopholes: copying a const multi_array(_ref), sub_array or view into a new (non-const) handle of a mutable class, and viewing a const sub_array through its base class const_sub_array<T,N,T*>, whose origin() returns T*. Hence a function that receives arrays as const cannot, however it ends, change their elements if it avoids the loopholes and no mutable argument shares their storage. const never takes away read access: every access chain that compiles on a non-const object compiles on the const one. operator-> of iterators over one-dimensional arrays does not compile. Every member, iterator step, conversion and handle copy compiles exactly where documented and yields the read-only or mutable type documented. On non-const objects exactly the documented changes compile: array assignment on the four mutable classes, assign() on arrays and references over mutable elements, resize() on multi_array, reindex() on arrays, references and views, reshape() on arrays and references.", "quantifier": "every chain of expressions of any length, every array class, every number of dimensions; every program over const and non-const arguments, every input and every exception point", "why_tests_cant": "compile-fail tests (test/fail_*.cpp) check single expressions; the claim is about all compositions of members and all programs", "anchors": ["include/boost/multi_array/multi_array_ref.hpp:const_multi_array_ref,multi_array_ref,assign", "include/boost/multi_array/subarray.hpp:const_sub_array,sub_array,origin", "include/boost/multi_array/view.hpp:const_multi_array_view,multi_array_view", "include/boost/multi_array/iterator.hpp:array_iterator,operator_arrow_proxy", "include/boost/multi_array/base.hpp:reference,const_reference"]}
{"id": "C46", "title": "Generic algorithms see every array as a plain sequence of rows", "statement": "A program that works on arrays only through iterators - copying, moving, comparing and reversing them, reading, writing, assigning and comparing the elements or rows they refer to, keeping copies of rows in local value_type variables, and branching on everything it sees - does exactly what the same program does on plain sequences of rows: same result, same final rows, same iterator positions, the same effect of an exception at the same operation. Nothing outside the arrays changes and all local copies are released. This holds for any arrays, subarrays and views without common elements, so storage order, strides and the first index base cannot be observed. In particular std::reverse's loop reverses the rows, insertion sort sorts them (a permutation, ordered by operator<), and a linear search returns the first match.", "quantifier": "every algorithm (any program over iterator operations, of any length and branching), any number of arrays, subarrays and views of any shape, layout and contents, every exception point, assertions on or off", "why_tests_cant": "quantifies over all algorithms and all layouts; tests run a few std algorithms on a few arrays", "anchors": ["include/boost/multi_array/iterator.hpp:array_iterator,dereference,increment,decrement,advance,distance_to,equal", "include/boost/multi_array/subarray.hpp:operator=,operator==,operator<", "include/boost/multi_array/multi_array_ref.hpp:begin,end", "include/boost/multi_array.hpp:multi_array(const sub_array&)"]}
{"id": "C47", "title": "Only the first N entries of a list argument count", "statement": "For an N-dimensional array the list arguments of operator(), reindex, the extent-list constructors of all array classes, resize and general_storage_order are used through their first N entries only: further entries are never looked at, and a list with fewer than N entries is read past its end (undefined behaviour; an index list may run into a range assertion first, but is never accepted). (reshape is different: C39.) The index list of operator() may hold unsigned values: index i passed as size_t(i) - also a negative one - denotes the same element, and with assertions enabled exactly the lists outside the bounds abort.", "quantifier": "every array, subarray, view, every list of every length and values", "why_tests_cant": "universal over list lengths and values; out-of-range reads of a short list usually go unnoticed in a test", "anchors": ["include/boost/multi_array/base.hpp:access_element", "include/boost/multi_array/algorithm.hpp:copy_n", "include/boost/multi_array/multi_array_ref.hpp:init_multi_array_ref,reindex", "include/boost/multi_array/view.hpp:reindex", "include/boost/multi_array.hpp:resize", "include/boost/multi_array/storage_order.hpp:general_storage_order"]}
{"id": "C48", "title": "Which calls can throw, and exactly how much work each does", "statement": "Every legal call performs an exact number of operations that are able to throw (allocations, element constructions, element assignments), given by the shapes alone: constructors 1 + N, copies and conversions 1 + 2N, resize 1 + N' + (size of the common part), assignment, copy_array and for_each N, assign(first,last) min(length, N), one element write 1; all other calls - creating views, refs and subarrays, indexing, reading, reindex, reshape, comparisons, queries, destruction, self-assignment - perform none and hence never throw. Constructors and resize allocate exactly one block, everything else none. If the k-th such operation throws, the call throws exactly if k is within its count; otherwise it is unaffected. The counts of a program's calls add up.", "quantifier": "every legal program, every legal call after it, every choice of the throwing operation, both settings of the assertions", "why_tests_cant": "the count must be exact for all shapes and states and every position of the failing operation", "anchors": ["include/boost/multi_array.hpp:allocate_space,resize,multi_array", "include/boost/multi_array/multi_array_ref.hpp:operator=,assign,reindex,reshape", "include/boost/multi_array/copy_array.hpp:copy_array", "include/boost/multi_array/view.hpp:operator=", "include/boost/multi_array/subarray.hpp:operator="]}
{"id": "C49", "title": "std::swap exchanges the elements of two arrays of equal shape", "statement": "std::swap(a, b) on two multi_arrays of equal shape (any storage orders, index bases and allocators) exchanges their elements position by position; each object keeps its own index bases, storage order, storage and allocator; no other storage changes and the temporary is released. swap(a, a) changes nothing. It is a deep exchange: one allocation and 4N element operations, any of which may throw. An exception at operation k leaves both arrays alive with a known mixture: a holds the first k-(1+2N) elements of b followed by its own, b the first k-(1+3N) elements of a followed by its own, and only the temporary's own block can leak, and only while it is being copied. Arrays of different shape are stopped by the shape assertion before any element has changed.", "quantifier": "every two live multi_arrays with equal number of dimensions, all contents, layouts and allocators, every position of an exception, assertions on or off", "why_tests_cant": "the exact state after an exception at every operation, for all shapes and layouts", "anchors": ["include/boost/multi_array.hpp:multi_array(const multi_array&),operator=,~multi_array", "include/boost/multi_array/multi_array_ref.hpp:operator="]}
{"id": "C50", "title": "assign() from live data, also the array's own", "statement": "a.assign(first, last), where [first, last) is a range of pointers, of iterators or of reverse iterators of a one-dimensional array, subarray or view - possibly of a itself - stores the values the range had before the call, provided no position of the range refers to a storage cell that was overwritten earlier, i.e. to one of the storage positions 0 .. k-1 for the k-th value. (So disjoint sources, a's own data() and shifts towards the front are fine.) Only the first min(length, num_elements()) cells are read. a.assign(a.data(), a.data() + a.num_elements()) changes nothing. Without the proviso the claim is false: a.assign(a.rbegin(), a.rend()) does not reverse a.", "quantifier": "every array object, every pointer or iterator range of any length, every overlap satisfying the proviso, every exception point", "why_tests_cant": "universal over the overlaps of source and destination", "anchors": ["include/boost/multi_array/multi_array_ref.hpp:assign", "include/boost/multi_array/iterator.hpp:array_iterator"]}
{"id": "C51", "title": "Assignment from an array with another element type", "statement": "Assigning an array, subarray or view from one with a different (convertible) element type and equal shape, without common elements, gives every element the converted value of the element at the same position, leaves the source and everything else unchanged; if a conversion or assignment throws, exactly the first k elements in index order are converted and the rest is unchanged; different shapes are stopped by the assertion before any change; without conversion it is ordinary assignment.", "quantifier": "every conversion, every destination and source of any kind, shape and layout, every exception point", "why_tests_cant": "universal over conversions, layouts and exception points", "anchors": ["include/boost/multi_array/multi_array_ref.hpp:operator=", "include/boost/multi_array/subarray.hpp:operator=", "include/boost/multi_array/view.hpp:operator=", "include/boost/multi_array.hpp:operator="]}
{"id": "C52", "title": "The example programs print and resize_from_MultiArray", "statement": "The recursive print of example/print_array.cpp writes the nested-bracket text of the array's contents for any array, subarray or view of any dimension, bases and layout and changes nothing; the text determines shape and elements: two arrays print the same text exactly if their contents are equal. resize_from_MultiArray of example/resize_from_other.cpp gives the array the other's shape with index bases 0, keeps the elements at the positions both shapes have, value-initialises the others and touches no other storage.", "quantifier": "every array, subarray and view of any dimension, shape, layout and contents", "why_tests_cant": "generic recursion over all dimensions, layouts and contents", "anchors": ["example/print_array.cpp:print", "example/resize_from_other.cpp:resize_from_MultiArray", "include/boost/multi_array/iterator.hpp:array_iterator", "include/boost/multi_array.hpp:resize"]}
{"id": "C53", "title": "Assignment between overlapping arrays and views", "statement": "dst = src (and copy_array) between arrays, subarrays or views of equal shape that may share cells gives dst the values src had before, for all contents, exactly if no shared cell has an earlier position in dst than in src; then an exception from the (k+1)-th element assignment leaves the first k positions with src's old values and the rest of dst unchanged. For two rectangular blocks of one array this means: disjoint, or the source block's first index tuple is not lexicographically before the destination's, and in the other case the assignment through views with all dimensions reversed is right, so one of the two directions always is.", "quantifier": "every pair of arrays, subarrays and views of any dimension, shape, layout, strides and overlap, and all contents", "why_tests_cant": "the condition is an equivalence over all layouts and overlaps and over all element values", "anchors": ["include/boost/multi_array/subarray.hpp:operator=", "include/boost/multi_array/view.hpp:operator=", "include/boost/multi_array/multi_array_ref.hpp:operator=", "include/boost/multi_array/algorithm.hpp:copy_n", "include/boost/multi_array/copy_array.hpp:copy_array"]}
{"id": "C54", "title": "Copies compare equal to what they were copied from", "statement": "A copy-constructed array, and an array constructed from any array, subarray or view, compares equal to its source (and not less in either direction). After dst = src between arrays, subarrays or views of equal shape, dst holds src's old values and dst == src, for all contents, exactly if every cell they share has the same position in both; the documented postcondition *this == x alone holds whenever no shared cell is overwritten after being read, and fails for other overlapping operands.", "quantifier": "every pair of arrays, subarrays and views of any dimension, layout and overlap, all contents, every reflexive element ==", "why_tests_cant": "an equivalence over all overlaps, layouts and contents", "anchors": ["include/boost/multi_array.hpp:multi_array(const multi_array&)", "include/boost/multi_array.hpp:operator=", "include/boost/multi_array/multi_array_ref.hpp:operator==", "include/boost/multi_array/subarray.hpp:operator=", "doc/reference.html:Postconditions"]}
{"id": "C55", "title": "No program can observe where its storage lies, and independent parts of a program do not interfere", "statement": "Every call gives the same value, exception or failed assertion wherever the storage of the arrays it works on lies: at other addresses, compacted, at addresses used before by returned blocks, or among blocks of others. A program whose storage is moved at will between its calls yields the same outputs. Parts of a program that each use only arrays, views and refs of their own, interleaved in any order and with any exceptions, each see exactly what they see alone; the shared heap ends as the disjoint union of the storage each would have alone, and storage of others is left untouched.", "quantifier": "every program of library calls (construction, views, refs, assignment, resize, reshape, comparison, destruction), every relocation between calls, every number of parts, every interleaving at call granularity, every thrown exception", "why_tests_cant": "quantifies over all programs, all heap placements and all interleavings; a test runs one placement and one schedule", "anchors": ["include/boost/multi_array.hpp:allocate_space", "include/boost/multi_array.hpp:deallocate_space", "include/boost/multi_array.hpp:resize", "include/boost/multi_array/iterator.hpp:equal", "include/boost/multi_array/base.hpp:generate_array_view"]}
{"id": "C56", "title": "Kept subarrays and iterators are abbreviations", "statement": "A program may keep subarrays, iterators and reverse iterators in variables, copy, move and compare them, and use them later as arrays (read, write, assign, copy, index, view, compare, construct from). It then does exactly what the same program does when every use of a kept object is replaced by the expression it was made from (an iterator: by the index it stands at), with the same outputs, exceptions and final arrays, however many calls lie between making and using it, as long as the variable, named view or ref it came from is not destroyed, resized, reshaped or reindexed in between. Contract-keeping programs of this kind behave as the abstract machine says. A subarray or iterator kept from an unnamed view cannot be used at all; one used after its array was reindexed means other elements.", "quantifier": "every program (sequence of calls with any exceptions), every number of kept objects, every nesting of subscripts, rows, reverse rows and views, every element type", "why_tests_cant": "ranges over all histories between making and using a kept object, and all expressions it may have been made from; the pointers it holds into its parent's lists make the effect depend on everything done to the parent", "anchors": ["include/boost/multi_array/subarray.hpp:const_sub_array", "include/boost/multi_array/iterator.hpp:array_iterator", "include/boost/multi_array/base.hpp:access", "include/boost/multi_array/view.hpp:multi_array_view"]}
{"id": "C57", "title": "What comparisons ask of the element type", "statement": "Comparing two arrays, views or subarrays calls the element type's operator in a fixed way that depends only on their shapes and contents, never on layout. == and != ask whether the elements at equal positions are equal, in lexicographic order of position, stopping at the first answer other than yes; they ask nothing if the shapes differ; so at most num_elements() calls. <, >, <= and >= compare nested lists, asking x<y and then y<x at each place; each question is about two elements at the same position; at most 2^NumDims calls per position common to both arrays, and exactly 2^NumDims*num_elements() if the shapes agree and every answer is no. This holds for operators that count, that answer inconsistently (NaN), or that throw: an exception from the k-th call comes out after exactly k calls. With an operator that is a function the result is that of C15-C17.", "quantifier": "all pairs of arrays/views/subarrays of any shapes, all six comparisons, all element operators, including stateful, inconsistent and throwing ones, at every call", "why_tests_cant": "ranges over all behaviours of user code at every one of an unbounded number of calls, and over all shapes and layouts", "anchors": ["include/boost/multi_array/multi_array_ref.hpp:operator==", "include/boost/multi_array/multi_array_ref.hpp:operator<", "include/boost/multi_array/subarray.hpp:operator==", "include/boost/multi_array/view.hpp:operator<"]}
{"id": "C58", "title": "Exactly where exceptions and failed assertions leave a program", "statement": "Take any program whose calls keep to the contract or make a mistake that assertions catch, in which an arbitrary allocation, element construction or element assignment inside each call may throw, and which catches everything (exceptions, and failed assertions when the assertion handler throws, as test/assert.cpp does). Then nothing is undefined, and the outputs, every variable's geometry and elements, every named view and the number of lost memory blocks are determined by the program and its throw points: a call throws exactly if its throw point is below the number of such operations it performs; constructors, resize and single writes that throw change nothing; element-wise calls that throw at operation k have written exactly their first k elements; calls stopped by an assertion change nothing and lose nothing.", "quantifier": "every finite program, every mixture of legal calls and caught mistakes, every combination of throw points", "why_tests_cant": "crash points times unbounded histories", "anchors": ["test/assert.cpp:assertion_failed", "include/boost/multi_array.hpp:resize", "include/boost/multi_array.hpp:allocate_space", "include/boost/multi_array/multi_array_ref.hpp:operator=", "include/boost/multi_array/base.hpp:access"]}
{"id": "C59", "title": "No pointer outside the storage is even computed while index 0 is valid; exactly when one is otherwise", "statement": "Under the strict C++ rule that pointer arithmetic must stay within the array pointed into or one past its end: if index 0 is valid in every dimension of the object (bases <= 0 < bases + extents), then element access, a[i]...[k], rows, views, iteration, assignment, copying, comparison, for_each and resize never compute a pointer outside of the storage; whole programs that use only such objects (or C-order, zero-based empty ones) run to their end with the same results. Valid access a(i) is undefined under that rule exactly if the address index (0,...,0) would have lies outside of the storage, and a[i1]...[iN] exactly if an address of (i1..im,0,...,0) does. Consequently every valid access to an ascending array with non-negative bases, one of them positive, is undefined, as are rows of empty Fortran-order arrays, begin() of empty descending arrays and empty views made past the end.", "quantifier": "every array, view and subarray, every index, every storage order and base; every finite program and throw point", "why_tests_cant": "compilers do not diagnose out-of-range pointer formation, and it depends on every base, extent and storage order", "anchors": ["include/boost/multi_array/multi_array_ref.hpp:origin", "include/boost/multi_array/view.hpp:origin", "include/boost/multi_array/base.hpp:access", "include/boost/multi_array/base.hpp:access_element", "include/boost/multi_array/base.hpp:generate_array_view", "include/boost/multi_array/iterator.hpp:dereference", "include/boost/multi_array/algorithm.hpp:copy_n", "include/boost/multi_array.hpp:resize"]}
{"id": "C60", "title": "Copies of multi_array_refs and views are shallow, copies of multi_arrays are deep", "statement": "Copy-constructing a multi_array_ref (from another ref or from a multi_array) or a view yields a second object standing for the very same elements: at any later time, until their array is resized or destroyed, a write through one is read through the other at the corresponding index, and otherwise a write through one expression is seen through another exactly if the two indices stand for the same element. Only the geometry is the copy's own: reindexing or reshaping the copy leaves the original's bases, shape and strides as they were, and the other way round, and the elements stay shared (element j of a copy reindexed to bases b is element j - b + old bases of the original). A ref made from a multi_array keeps the array's elements by storage position also when the array is reindexed or reshaped later. A copy owns nothing: once the array is resized or destroyed, using the copy is undefined behaviour. A copied multi_array in contrast shares nothing: writing to one of the two never shows in the other.", "quantifier": "every finite program before and after the copy, every named ref or view, index, value, storage order and element type", "why_tests_cant": "sharing has to survive every later command; a test sees one program and a few indices", "anchors": ["include/boost/multi_array/multi_array_ref.hpp:const_multi_array_ref", "include/boost/multi_array/multi_array_ref.hpp:multi_array_ref", "include/boost/multi_array/view.hpp:const_multi_array_view", "include/boost/multi_array/view.hpp:multi_array_view", "include/boost/multi_array.hpp:multi_array", "doc/reference.html:This constructs a shallow copy of x"]}
{"id": "C61", "title": "Elements are opaque: the library never invents, inspects or mixes them", "statement": "Take two programs over two element types that make the same calls with the same sizes, indices and views, differing only in the elements they write. If the default elements correspond, the elements written correspond, the functions given to for_each take corresponding elements to corresponding elements, and the element == and < agree on corresponding elements, then the two runs behave alike to the last detail, whatever operation throws and whatever assertion fails: the same objects with the same geometry at the same addresses, the same answers except that elements read correspond, corresponding memories, and the same kind of end (completed, exception, failed assertion, undefined). In particular: (1) programs that never compare arrays behave the same whatever the elements are; (2) running a program on relabelled elements relabels its answers and changes nothing else; (3) every element read or found in memory has any property that the default element and the written elements have and the for_each functions preserve, so nothing is ever invented, torn or converted.", "quantifier": "all pairs of element types, every relation between them, every finite program, every point of failure in each call, with and without assertions", "why_tests_cant": "a test runs the library with one or two element types and a few values; the claim is about every element type and every value at once", "anchors": ["include/boost/multi_array.hpp:multi_array", "include/boost/multi_array/multi_array_ref.hpp:multi_array_ref", "include/boost/multi_array/subarray.hpp:sub_array", "include/boost/multi_array/view.hpp:multi_array_view", "include/boost/multi_array/copy_array.hpp:copy_array"]}
{"id": "C62", "title": "Threads may change the geometry of objects no other thread is using", "statement": "Any number of threads share multi_arrays, views, refs, kept subarrays and iterators. Besides using elements they may reindex and reshape arrays, views and refs and move iterators. If no thread uses an element that another writes, and no thread changes the geometry of an object that another uses (a subarray or iterator uses the lists of the array, view or ref it came from; a view or ref has lists of its own), then under every schedule: there is never a race on an element or on an object's members, no thread aborts or has undefined behaviour, every thread that has not finished can go on, every schedule ends, and the answers, the final geometry of all objects and the final memory are those of running the threads one after another, in any order. In particular an array may be reindexed or reshaped by one thread while others use views or refs of its elements, but not while others hold iterators or subarrays of it.", "quantifier": "all numbers of threads, all call sequences, all geometries, all schedules", "why_tests_cant": "the number of schedules is exponential, and a test observes a few of them", "anchors": ["include/boost/multi_array/multi_array_ref.hpp:reindex, reshape", "include/boost/multi_array/view.hpp:multi_array_view", "include/boost/multi_array/subarray.hpp:const_sub_array", "include/boost/multi_array/iterator.hpp:array_iterator"]}
{"id": "C63", "title": "A multi_array_ref wraps any part of a buffer, and disjoint parts are independent", "statement": "multi_array_ref r(x.data() + off, shape, order) of n elements stands for exactly the elements off .. off+n-1 of the buffer, each at exactly one index. Two such refs, of any shapes and orders, share element i of the one with element j of the other exactly if both lie equally far from the start of the buffer: a write through the one is read through the other then, and only then. If the parts do not overlap, nothing done through one ref (element writes, assign, =, copy_array and for_each through it, its rows, subarrays and views; reindex and reshape) changes anything seen through the other, its rows, subarrays and views. The ref trusts the length it is given: one that is longer than the rest of the buffer is constructed without complaint, also in checked builds, and reading an element beyond the buffer is undefined behaviour although its index is in range.", "quantifier": "every finite program, buffer, offset, shape, storage order, index, value; every sequence of later calls through the one ref", "why_tests_cant": "frame over all elements and all later programs; a test writes a few elements", "anchors": ["include/boost/multi_array/multi_array_ref.hpp:multi_array_ref(T*, ...)", "include/boost/multi_array/multi_array_ref.hpp:assign", "include/boost/multi_array/multi_array_ref.hpp:operator="]}
{"id": "C64", "title": "An element assignment that fails half way damages only the element it was assigning", "statement": "The element type's operator= may throw half way and leave any value in its target. Then a command in which that happens leaves exactly what it would leave had the assignment thrown without effect, except that the one element being assigned holds what the failed assignment left: after dst = src, copy_array, assign(first, last) and for_each the elements before it (in the order of assignment) are done and those after it are untouched, and nothing outside the target changes. Constructors and resize do not let even that element be seen: the damaged element is in the new block, which resize gives back (the array is as before the call) and a constructor loses. Programs that catch such exceptions, with any number of them, end with exactly the outputs, values, geometry, names and lost memory of the specification, which always exist and are determined by the program and its throw points.", "quantifier": "every finite program; every placement of throwing operations in it; every value left behind; every element type, shape, storage order, assertion setting", "why_tests_cant": "any operation of any command may be the one that fails, leaving any value; tests place a few exceptions by hand", "anchors": ["include/boost/multi_array/multi_array_ref.hpp:operator=", "include/boost/multi_array/subarray.hpp:operator=", "include/boost/multi_array/view.hpp:operator=", "include/boost/multi_array/copy_array.hpp:copy_array", "include/boost/multi_array.hpp:resize", "include/boost/multi_array.hpp:multi_array(const multi_array&)"]}
{"id": "C65", "title": "Exactly how much memory a program needs", "statement": "Give every allocator a capacity (in elements) beyond which allocate throws bad_alloc. A constructor asks its allocator (a copy: the allocator of its original) for exactly the elements of the new array; resize asks the array's own allocator for all elements of the new shape while it still holds the old ones, even when it shrinks the array; no other operation asks for memory. A program in which nothing else goes wrong runs to the end without bad_alloc if and only if at each of its constructors and resizes that much fits besides the elements of the arrays alive then. A request that does not fit has no effect at all. Programs that catch the exceptions, in which element operations may throw as well, end with exactly the outputs, values, geometry and names of the specification, and each allocator has then handed out exactly the elements of the live arrays made with it plus those of the blocks lost by interrupted constructors and resizes.", "quantifier": "every finite program; every capacity of every allocator; every placement of throwing operations; every element type, shape, storage order, assertion setting", "why_tests_cant": "where memory runs out depends on the whole history of allocations, and there are arbitrarily many histories and capacities; tests use allocators that never run out", "anchors": ["include/boost/multi_array.hpp:allocate_space", "include/boost/multi_array.hpp:deallocate_space", "include/boost/multi_array.hpp:resize", "include/boost/multi_array.hpp:multi_array(const multi_array&)"]}
{"id": "C66", "title": "Threads may build, use, resize and destroy arrays of their own while sharing others read-only", "statement": "Let a program have built arrays, and let any number of threads then run at the same time, switching between any two memory accesses. Each thread may construct arrays (also as copies of shared ones), name views and references, read, write, assign, fill, compare, reindex, reshape, resize and destroy its own arrays, read the shared ones, and catch exceptions, whichever of its operations throws; it changes no shared array. Then at no moment are two threads at the same block with one of them changing it (no data race, no use after free, no double free); no thread ever faces an undefined operation, a failed assertion or an endless loop, so every schedule ends with all threads finished; every thread produces exactly the outputs and ends with exactly the array contents, geometry and names it would have produced alone; arrays made by different threads lie in different blocks; and the shared arrays are untouched. Destroying a shared array while another thread reads it does race.", "quantifier": "every main program; every number of threads with every such program; every interleaving of their single memory steps; every placement of throwing operations in every thread; every element type, shape, storage order, assertion setting", "why_tests_cant": "the interleavings of allocations, constructions, element accesses and deallocations are exponentially many and a test run sees one of them", "anchors": ["include/boost/multi_array.hpp:allocate_space", "include/boost/multi_array.hpp:deallocate_space", "include/boost/multi_array.hpp:resize", "include/boost/multi_array.hpp:multi_array(const multi_array&)", "include/boost/multi_array/multi_array_ref.hpp:operator="]}
{"id": "C67", "title": "Threads may fill disjoint elements of shared arrays while building, resizing and destroying arrays of their own", "statement": "Let a program have built arrays, and divide their elements among any number of threads: every element is either given to one thread or readable by all. The threads then run at the same time, switching between any two memory accesses. Each thread may read, assign, fill, copy, compare and write (through the arrays, views, subarrays and references it likes) the shared elements given to it, read those readable by all, and do everything with arrays of its own (construct, also from shared elements, resize, reshape, reindex, destroy), catching exceptions whichever of its operations throws. Then at no moment are two threads about to access the same element with one of them changing it, nor is a block given back while another thread is about to use it; no thread ever faces an undefined operation or a failed assertion; every finished thread has exactly the outputs it would have had alone, and its variables hold exactly what it would have left there alone, except for shared elements given to others, which hold what their owners left; elements given to nobody keep their values; arrays made by different threads lie in different blocks. Neighbouring elements of one array, also of one row, are thus independent objects: operations touch no element outside the box they are asked to work on. Dividing the elements inconsistently does race.", "quantifier": "every main program; every division of the elements; every number of threads with every such program; every interleaving of their single memory steps; every placement of throwing operations; every element type, shape, storage order, assertion setting", "why_tests_cant": "the interleavings are exponentially many, and so are the divisions of elements; a spurious read or rewrite of a neighbouring element would show only under one unlucky schedule", "anchors": ["include/boost/multi_array/multi_array_ref.hpp:operator=", "include/boost/multi_array/subarray.hpp:operator=", "include/boost/multi_array/view.hpp:operator=", "include/boost/multi_array/base.hpp:access_element", "include/boost/multi_array.hpp:resize", "include/boost/multi_array/copy_array.hpp:copy_array"]}
{"id": "C68", "title": "Fork-join programs over shared arrays are deterministic", "statement": "A program may consist of any number of phases: serial ones, in which it does anything the library's contract allows, and parallel ones, in which it starts any number of threads and waits for them. If in every parallel phase the elements of its arrays can be divided among the threads, so that each thread writes only shared elements given to it and reads only those and the ones given to nobody (a different division in every phase, by rows in one and by columns in the next), then in every run, however the threads are interleaved and whichever operations throw: no data race ever happens; no thread and no serial phase gets stuck, and the run comes to its end; the outputs of all phases are the same in every run, namely those of each thread run alone; and after every parallel phase the program finds in each array element what the thread it was given to left there, unchanged geometry and names, and everything else as it was.", "quantifier": "every program of serial and parallel phases; every number of threads; every division of elements per phase; every interleaving; every placement of throwing operations; every element type, shape, storage order, assertion setting", "why_tests_cant": "a run shows one interleaving per phase, and nondeterminism would show only as a rare wrong result", "anchors": ["include/boost/multi_array/multi_array_ref.hpp:operator=", "include/boost/multi_array/base.hpp:access_element", "include/boost/multi_array.hpp:resize", "include/boost/multi_array.hpp:allocate_space"]}
{"id": "C69", "title": "Sections under a common mutex or reader/writer lock are atomic", "statement": "Any number of threads may share arrays that are guarded by one mutex or reader/writer lock: each thread's program is a sequence of sections. In sections that hold the lock alone it may do anything with the shared arrays that the library's contract allows (write, resize, reshape, destroy, copy to and from arrays of its own); in sections that hold it together with other readers it may read them; in sections without the lock it uses arrays of its own; in all of them it may build, change and destroy arrays of its own. If, whatever the order in which whole sections are executed, each keeps to the contract, then in every run, however the threads' single accesses to memory are interleaved and whichever operations throw: no data race ever happens; while a thread holds the lock alone, nobody else is in a section that holds it; no thread gets stuck except waiting for the lock while another holds it, there is no deadlock, and every run ends; and the outputs of all sections and the contents of all arrays, shared and own, are those of executing the sections one after the other, each whole, in some order. A view or array_ref of a shared array is not to be used after the section it was made in.", "quantifier": "every number of threads; every sequence of sections per thread; every interleaving of single memory accesses; every placement of throwing operations; every element type, shape, storage order, assertion setting", "why_tests_cant": "a run shows one order of the sections and one interleaving; a lost block or an access outside of the mutex would show only as a rare wrong result", "anchors": ["include/boost/multi_array.hpp:resize", "include/boost/multi_array.hpp:operator=", "include/boost/multi_array/multi_array_ref.hpp:operator=", "include/boost/multi_array/base.hpp:access_element"]}
