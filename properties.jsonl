{"id": "C01", "title": "MaskArray bitwise and comparison operators are elementwise", "statement": "For masks of the same length n, `m1 & m2`, `m1 | m2`, `~m1`, `m1 == m2` and `m1 != m2` return a mask of length n whose element i is the boolean and / or / not / equality / inequality of the elements i. `==` and `!=` raise ValueError whenever the lengths differ; `&` and `|` fail with ValueError exactly when the lengths differ and neither is 1 (numpy broadcasting).", "quantifier": "every pair of masks, of any lengths, and every position", "why_tests_cant": "the operands range over all boolean vectors of all lengths, including the length-mismatch cases", "anchors": ["graphicle/data.py:MaskArray.__and__", "graphicle/data.py:MaskArray.__or__", "graphicle/data.py:MaskArray.__invert__", "graphicle/data.py:_mask_eq", "graphicle/data.py:_mask_neq"]}
{"id": "C02", "title": "MaskGroup.data aggregates every nested level with that level's own operation", "statement": "For a nested MaskGroup whose leaves all have length n and whose groups are non-empty with agg_op AND or OR, `.data` has length n and its element i is True exactly when, recursively, all (AND) / at least one (OR) of the group's children are True at i. In every other case (a group with agg_op NONE or an unknown operation, an empty group, or masks of different length) `.data` raises and returns no mask.", "quantifier": "every nesting depth and width, every choice of agg_op at each level, every leaf content and length", "why_tests_cant": "unbounded recursive structure; random trees sample only a few shapes and one agg_op", "anchors": ["graphicle/data.py:MaskGroup.data", "graphicle/data.py:MaskGroup.bitwise_or", "graphicle/data.py:MaskGroup.bitwise_and"]}
{"id": "C03", "title": "Slicing a MaskGroup commutes with aggregation", "statement": "Whenever both are defined, subscripting a MaskGroup with an array-like key (boolean mask, integer, integer array, slice) and then reading `.data` gives the same mask as reading `.data` and then subscripting it; the keys, nesting and agg_op of the group are unchanged by the subscript.", "quantifier": "every nested MaskGroup and every boolean mask / integer / integer array / slice key", "why_tests_cant": "two unbounded inputs (tree and key) must agree at every position", "anchors": ["graphicle/data.py:MaskGroup.__getitem__", "graphicle/data.py:MaskGroup.data", "graphicle/data.py:MaskArray.__getitem__"]}
{"id": "C04", "title": "flatten('rise') raises every named mask to the top level", "statement": "If no name occurs twice anywhere in the tree, `flatten('rise')` returns a MaskGroup with the same agg_op, containing only MaskArrays, whose names are exactly the names in the tree in depth-first order with every branch named 'latent' removed; a leaf keeps its content and a nested group is replaced by its aggregated `.data`.", "quantifier": "every nested MaskGroup with pairwise distinct names", "why_tests_cant": "unbounded recursive structure", "anchors": ["graphicle/data.py:MaskGroup.flatten"]}
{"id": "C05", "title": "flatten('rise') loses no mask, whatever the names", "statement": "For every nested MaskGroup, each leaf mask not under 'latent' survives `flatten('rise')` (users expect nothing to be lost). This is false when the same name occurs twice in the tree: only the mask visited last is kept.", "quantifier": "every nested MaskGroup", "why_tests_cant": "name collisions between different branches are not exercised by the tests", "anchors": ["graphicle/data.py:MaskGroup.flatten"]}
{"id": "C06", "title": "flatten('agg') keeps the top-level names and replaces each child by its aggregate", "statement": "`flatten('agg')` returns a group with agg_op OR, the same top-level names in the same order, each mapped to a MaskArray equal to the child's `.data`; it raises exactly when some child's `.data` raises.", "quantifier": "every nested MaskGroup", "why_tests_cant": "unbounded recursive structure", "anchors": ["graphicle/data.py:MaskGroup.flatten"]}
{"id": "C07", "title": "leaf_masks / flatten('leaves') returns exactly the innermost masks", "statement": "For a tree with pairwise distinct names, `leaf_masks` (and `flatten('leaves')`) returns a flat group with the same agg_op holding exactly the leaf MaskArrays of the tree in depth-first order, unchanged, omitting those reached through a nested name 'latent'; no nested group and no aggregated mask appears in it.", "quantifier": "every nested MaskGroup with pairwise distinct names", "why_tests_cant": "unbounded recursive structure", "anchors": ["graphicle/select.py:leaf_masks", "graphicle/select.py:_leaf_mask_iter", "graphicle/data.py:MaskGroup.flatten"]}
{"id": "C08", "title": "recursive_drop removes the name at every level and nothing else", "statement": "After `recursive_drop(key)` the result contains no mask named `key` at any level of nesting, and every path of names not passing through `key` leads to the same mask (same agg_op for groups, same content for arrays, same order) as in the original.", "quantifier": "every nested MaskGroup, every key", "why_tests_cant": "all depths at once; also says what must not change", "anchors": ["graphicle/data.py:MaskGroup.recursive_drop"]}
{"id": "C09", "title": "Copies are isolated from the original under every later history", "statement": "After `c = g.copy()` (or `c = g.recursive_drop(key)` with inplace False) any sequence of element assignments, key assignments, key deletions and in-place recursive drops performed through `c`, at any nesting level, leaves the value observed through `g` unchanged, and vice versa. `recursive_drop(key, inplace=True)` changes the value seen through every reference to the group to the dropped tree.", "quantifier": "every nested MaskGroup, every finite history of mutations at arbitrary paths", "why_tests_cant": "histories and aliasing patterns are unbounded", "anchors": ["graphicle/data.py:MaskGroup.copy", "graphicle/data.py:MaskArray.copy", "graphicle/data.py:MaskGroup.recursive_drop", "graphicle/data.py:MaskArray.__setitem__", "graphicle/data.py:MaskGroup.__setitem__", "graphicle/data.py:MaskGroup.__delitem__"]}
{"id": "C10", "title": "Serialisation of MaskGroups round-trips under equal_to", "statement": "`MaskGroup(g.serialize())` succeeds and `g.equal_to(...)` it, with and without `check_order`; every leaf and every name is recovered exactly.", "quantifier": "every nested MaskGroup", "why_tests_cant": "the repository test samples ten random trees; the claim is over all", "anchors": ["graphicle/data.py:MaskGroup.serialize", "graphicle/data.py:_mask_dict_convert", "graphicle/data.py:MaskGroup.equal_to"]}
{"id": "C11", "title": "Serialisation of MaskGroups preserves the aggregated mask", "statement": "A user restoring a serialised MaskGroup expects `.data` to be the same as before. This is false: agg_op is not serialised and reverts to AND, so `.data` of the restored group can differ, while `equal_to` still reports equality. It does hold for groups that are AND at every level.", "quantifier": "every nested MaskGroup", "why_tests_cant": "tests only compare with equal_to, which ignores agg_op", "anchors": ["graphicle/data.py:MaskGroup.serialize", "graphicle/data.py:_mask_dict_convert", "graphicle/data.py:_maskgroup_equal"]}
{"id": "C12", "title": "equal_to decides structural equality", "statement": "`g.equal_to(h, check_order=True)` is True exactly when g and h have the same names in the same order at every level, arrays exactly where the other has arrays, and identical leaf contents; with check_order False, exactly when the same holds up to reordering names within each level. It is therefore reflexive, symmetric and transitive, and does not look at agg_op.", "quantifier": "every pair (triple) of nested MaskGroups with distinct names per level", "why_tests_cant": "unbounded recursive structures; iff needs all non-equal pairs too", "anchors": ["graphicle/data.py:MaskGroup.equal_to", "graphicle/data.py:_maskgroup_equal"]}
{"id": "C13", "title": "MaskGroup behaves as an insertion-ordered map", "statement": "Under any sequence of `g[k] = m`, `del g[k]`, `k in g`, `g[k]`, `len(g)`, `list(g)` the group behaves as an insertion-ordered dictionary: a lookup returns the last mask assigned to the name since its last deletion, re-assignment keeps the position, a new name goes last, deleting or reading an absent name raises KeyError and changes nothing. `g[[k1,...]]` returns the group restricted to those names, in the order given, with agg_op kept, and raises KeyError when one is absent.", "quantifier": "every finite sequence of operations from every starting group", "why_tests_cant": "histories are unbounded", "anchors": ["graphicle/data.py:MaskGroup.__setitem__", "graphicle/data.py:MaskGroup.__delitem__", "graphicle/data.py:MaskGroup.__getitem__", "graphicle/data.py:MaskGroup.__iter__", "graphicle/data.py:MaskGroup.__len__"]}
{"id": "C14", "title": "PdgArray.mask selects exactly the target codes", "statement": "`mask(target, blacklist, sign_sensitive=True)` has the length of the array; element i is (pdg[i] in target) xor blacklist. With sign_sensitive=False and non-negative target codes, element i is (|pdg[i]| in target) xor blacklist, for every int32 code other than -2^31.", "quantifier": "every PDG array, target list and flag combination", "why_tests_cant": "all integer codes and all target sets", "anchors": ["graphicle/data.py:PdgArray.mask"]}
{"id": "C15", "title": "Sign-insensitive PDG masking treats a code and its anti-particle alike", "statement": "With sign_sensitive=False, targeting c and targeting -c should give the same mask ('will check for positive and negative pdgs simultaneously'). This is false for negative targets: the data are made absolute but the target is not, so a negative target code matches no particle at all.", "quantifier": "every PDG array and target list", "why_tests_cant": "no test passes a negative target", "anchors": ["graphicle/data.py:PdgArray.mask"]}
{"id": "C16", "title": "StatusArray.in_range selects exactly the inclusive status interval", "statement": "`in_range(lo, hi, sign_sensitive)` is True at i exactly when lo <= s and (hi is None or s <= hi), with s = status[i] if sign_sensitive and |status[i]| otherwise, for every int16 status other than -32768. At -32768 the sign-insensitive form compares -32768 itself (int16 absolute value wraps).", "quantifier": "every int16 status array and every interval", "why_tests_cant": "boundary values of the interval and of int16", "anchors": ["graphicle/data.py:StatusArray.in_range"]}
{"id": "C17", "title": "hard_mask splits the hard process into four disjoint categories", "statement": "`hard_mask` is an OR group with names incoming, intermediate, outgoing, outgoing_nonperturbative_diffraction in this order, whose masks at i are |status[i]| == 21, 22, 23, 24; they are pairwise disjoint, and `.data` is True at i exactly when 21 <= |status[i]| <= 24.", "quantifier": "every int16 status array", "why_tests_cant": "all status codes, all lengths", "anchors": ["graphicle/data.py:StatusArray.hard_mask", "graphicle/data.py:Graphicle.hard_mask"]}
{"id": "C18", "title": "Structured momentum and edge inputs are read by field name, not by position", "statement": "Building a MomentumArray from a structured array whose field names are any permutation of one alias per component (x/px, y/py, z/pz, e/pe/E) stores, for every particle, exactly its x, y, z, e values; the same for AdjacencyList with src/in and dst/out. An unknown or missing field raises KeyError instead of storing wrong data (for edges: provided at least one field name is recognised; a structured array with no recognised name at all is read by position).", "quantifier": "every permutation and aliasing of field names, every number of rows", "why_tests_cant": "24 permutations times 24 aliasings times all data", "anchors": ["graphicle/data.py:_reorder_pmu", "graphicle/data.py:_reorder_edges", "graphicle/data.py:_array_field", "graphicle/data.py:_map_invert"]}
{"id": "C19", "title": "Structured color input is read by field name", "statement": "A ColorArray built from a structured array with fields color and anticolor in either order stores the color in `.color` and the anticolor in `.anticolor`. This is false: color fields are never reordered, so ('anticolor','color') input is stored swapped. It holds for the order ('color','anticolor').", "quantifier": "every structured color array", "why_tests_cant": "no test uses permuted color fields", "anchors": ["graphicle/data.py:_array_field", "graphicle/data.py:ColorArray"]}
{"id": "C20", "title": "Array constructors accept exactly the documented shapes", "statement": "The constructor of a one-column array accepts scalars, vectors and (n,1) arrays and stores a vector with the same elements in order; a c-column array accepts (n,c) arrays, empty arrays and flat arrays of exactly c elements ((c,) or (c,1)), raises IndexError for a scalar and ValueError for any other non-empty shape of at most two dimensions. The number of stored scalars always equals the number given.", "quantifier": "every input shape of at most two dimensions and each column count 1, 2, 4", "why_tests_cant": "all shapes", "anchors": ["graphicle/data.py:_array_field"]}
{"id": "C21", "title": "Indexing one particle gives a one-particle array", "statement": "`arr[i]` for an in-range integer i yields an array of length 1 holding exactly that record, for PdgArray, MomentumArray, StatusArray, HelicityArray, MaskArray and AdjacencyList (negative i counts from the end); an index out of range raises IndexError. (ColorArray: C188.)", "quantifier": "every array and every integer index", "why_tests_cant": "tests never index a ColorArray with an integer", "anchors": ["graphicle/data.py:ColorArray.__getitem__", "graphicle/data.py:ColorArray.__len__", "graphicle/data.py:AdjacencyList.__getitem__", "graphicle/data.py:MomentumArray.__attrs_post_init__"]}
{"id": "C22", "title": "Integer codes are stored without change when they fit the storage type", "statement": "PDG and color codes and edges in the int32 range, and helicities and statuses in the int16 range, are stored exactly; outside the range a numpy integer array is stored modulo 2^32 / 2^16 (so `ParticleSet.from_numpy` called with a documented int32 status can silently change it).", "quantifier": "every integer array", "why_tests_cant": "all integers, boundary wrap-around", "anchors": ["graphicle/data.py:_array_field", "graphicle/data.py:ParticleSet.from_numpy"]}
{"id": "C23", "title": "Slicing a ParticleSet or Graphicle keeps all records aligned", "statement": "If all non-empty components of a ParticleSet / Graphicle have length n, then subscripting with any valid key (mask, integer array, slice) produces components that are all restricted to the same positions in the same order: row j of every component of the result is row pos(j) of that component of the original, empty components stay empty, and the result again satisfies the alignment condition.", "quantifier": "every particle set / graph with aligned components and every key", "why_tests_cant": "all keys times all data; alignment must survive arbitrary chains of slices", "anchors": ["graphicle/data.py:_composite_getitem", "graphicle/data.py:_nonempty_dsets", "graphicle/data.py:ParticleSet.__getitem__", "graphicle/data.py:Graphicle.__getitem__"]}
{"id": "C24", "title": "Chained slices compose", "statement": "`graph[k1][k2]` equals slicing once with the composition of the two position lists; in particular for masks, g[m1][m2] equals g[m] where m marks the positions kept by both.", "quantifier": "every pair of keys and every aligned graph", "why_tests_cant": "pairs of unbounded inputs", "anchors": ["graphicle/data.py:_composite_getitem"]}
{"id": "C25", "title": "len and truthiness of composites are those of the aligned record", "statement": "For aligned components of length n (at least one non-empty) `len` is n and `bool` is True; with every component empty len is 0 and bool is False.", "quantifier": "every aligned composite", "why_tests_cant": "all combinations of present/absent components", "anchors": ["graphicle/data.py:_composite_len", "graphicle/data.py:_composite_bool"]}
{"id": "C26", "title": "copy preserves every component", "statement": "`copy()` of a ParticleSet or Graphicle yields equal components: all particle components and the edges. (Edge weights: C189.)", "quantifier": "every composite", "why_tests_cant": "no test uses weights", "anchors": ["graphicle/data.py:_composite_copy", "graphicle/data.py:AdjacencyList.copy", "graphicle/data.py:AdjacencyList.__getitem__"]}
{"id": "C27", "title": "from_lhe_event recodes statuses simultaneously and marks nothing final", "statement": "Each LHE status -1, 1, -2, 2, 3, -9 becomes -21, -23, -22, -22, -22, -12 respectively and any other code is unchanged, although the replacement is done code by code in place; `final` is all False and has one entry per particle; other components are the ones given.", "quantifier": "every LHE event", "why_tests_cant": "sequential in-place rewriting must not cascade for any input", "anchors": ["graphicle/data.py:ParticleSet.from_lhe_event"]}
{"id": "C28", "title": "from_lhe_event leaves the caller's event untouched", "statement": "Users expect construction not to modify its argument. This is false when the event's status is a contiguous int16 array (the documented interface): the recoding is written through to the caller's array.", "quantifier": "every LHE event", "why_tests_cant": "aliasing is invisible to value-level tests", "anchors": ["graphicle/data.py:ParticleSet.from_lhe_event", "graphicle/data.py:_array_field"]}
{"id": "C29", "title": "serialize of composites exposes every component element by element", "statement": "`serialize()` of a ParticleSet has exactly the keys pdg, pmu, color, helicity, status, final mapping to the tuples of that component's elements (and Graphicle adds adj); rebuilding the particle set from these tuples gives equal components.", "quantifier": "every particle set / graph", "why_tests_cant": "round trip over all data", "anchors": ["graphicle/data.py:ParticleSet.serialize", "graphicle/data.py:Graphicle.serialize", "graphicle/data.py:ParticleSet.from_numpy"]}
{"id": "C30", "title": "AdjacencyList.nodes lists each vertex once, by ascending magnitude", "statement": "`nodes` contains exactly the vertex ids occurring in some edge, each once, in non-decreasing order of absolute value (ids above -2^31, whose int32 absolute value overflows).", "quantifier": "every edge list", "why_tests_cant": "all edge lists, repeated and sign-paired ids", "anchors": ["graphicle/data.py:AdjacencyList.nodes"]}
{"id": "C31", "title": "roots and leaves mark exactly the source and sink edges", "statement": "`roots` is True for edge i exactly when no edge ends at its source vertex; `leaves` is True for edge i exactly when no edge starts at its destination vertex.", "quantifier": "every non-empty edge list (any multigraph, cycles and self loops included)", "why_tests_cant": "all graphs", "anchors": ["graphicle/data.py:AdjacencyList.roots", "graphicle/data.py:AdjacencyList.leaves"]}
{"id": "C32", "title": "The dense matrix counts (or sums the weights of) the edges between vertices", "statement": "With u the ascending list of vertex ids, `matrix` is square of size len(u) and entry (i, j) is the number of edges u[i] -> u[j] (unweighted) or the sum of the weights of these edges (weighted); the total over the matrix is the number of edges / the total weight.", "quantifier": "every non-empty edge list and weight vector of the same length", "why_tests_cant": "all multigraphs", "anchors": ["graphicle/data.py:AdjacencyList.matrix", "graphicle/data.py:AdjacencyList.to_sparse", "graphicle/data.py:AdjacencyList._edge_relabel"]}
{"id": "C33", "title": "from_matrix and matrix are inverse on graphs without isolated vertices", "statement": "For a square matrix in which every index has a non-zero in its row or column, `AdjacencyList.from_matrix(A, weighted=True).matrix` equals A and with weighted=False it is the 0/1 indicator of A's non-zeros. Without that condition the result is A with the isolated vertices' rows and columns deleted, so the round trip fails.", "quantifier": "every square matrix", "why_tests_cant": "all sizes and contents; isolated vertices", "anchors": ["graphicle/data.py:AdjacencyList.from_matrix", "graphicle/data.py:AdjacencyList.matrix"]}
{"id": "C34", "title": "Comparing an AdjacencyList with an edge marks exactly that edge", "statement": "`adj == (a, b)` is True at i exactly when edge i is (a, b), `!=` is its negation; a sequence of any other length raises ValueError.", "quantifier": "every edge list and pair", "why_tests_cant": "all edges", "anchors": ["graphicle/data.py:_array_eq_prep", "graphicle/data.py:_array_eq", "graphicle/data.py:_array_ne", "graphicle/data.py:AdjacencyList.__eq__"]}
{"id": "C35", "title": "Two AdjacencyLists can be compared elementwise", "statement": "`adj1 == adj2` for equal-length edge lists should give the elementwise comparison, as for the other arrays. This is false: it raises ValueError for every pair of equal length (and for every other pair except one edge against two, where it returns a two-element mask comparing the single edge with each).", "quantifier": "every pair of edge lists", "why_tests_cant": "tests never compare two AdjacencyLists; the failure must be shown for all lengths including 2", "anchors": ["graphicle/data.py:_array_eq_prep", "graphicle/data.py:AdjacencyList.__eq__"]}
{"id": "C36", "title": "vertex_descendants marks exactly the edges reachable from the vertex", "statement": "If some edge starts at v, `vertex_descendants(adj, v)` is True at i exactly when the source of edge i is v or can be reached from v along directed edges; if no edge starts at v it marks exactly the edges ending at v. Vertex labels may be any integers, the graph may contain cycles, parallel edges and self loops.", "quantifier": "every directed multigraph and vertex", "why_tests_cant": "reachability over all graphs; BFS termination and completeness", "anchors": ["graphicle/select.py:vertex_descendants", "graphicle/data.py:AdjacencyList.to_sparse"]}
{"id": "C37", "title": "edge_descendants adds the parent edge", "statement": "`edge_descendants(adj, (a,b))` marks exactly the edges equal to (a,b) together with the edges marked by vertex_descendants(adj, b).", "quantifier": "every directed multigraph and edge", "why_tests_cant": "all graphs", "anchors": ["graphicle/select.py:edge_descendants"]}
{"id": "C38", "title": "hadron_vertices returns exactly the hadronisation vertices", "statement": "The result lists, once each and in ascending order, exactly the source vertices of edges whose |status| lies in 80..90.", "quantifier": "every edge list with statuses", "why_tests_cant": "all inputs, boundaries 80 and 90", "anchors": ["graphicle/select.py:hadron_vertices"]}
{"id": "C39", "title": "find_vertex returns exactly the vertices with the required incoming and outgoing particles", "statement": "A vertex is returned exactly when every code in pdgs_in occurs on an edge ending there and every code in pdgs_out occurs on an edge starting there (a missing set imposes nothing); vertices are listed once, ascending; leaving both sets out raises ValueError.", "quantifier": "every graph with PDG codes and every pair of code sets", "why_tests_cant": "all graphs; vertices with no incoming or no outgoing edges", "anchors": ["graphicle/select.py:find_vertex"]}
{"id": "C40", "title": "hard_descendants without target masks each hard parton together with its descendants", "statement": "With target None the result is an OR group with one mask per non-incoming hard parton, in record order; the mask of parton p is True exactly at p itself and at the edges descending from p's end vertex (or ending at it when it has no outgoing edge).", "quantifier": "every event graph", "why_tests_cant": "all graphs", "anchors": ["graphicle/select.py:hard_descendants"]}
{"id": "C41", "title": "hard_descendants with target masks each selected parton with its own descendants", "statement": "With a target the mask of each selected parton should contain the parton and its descendants only. This is false: the row forced True for the j-th selected parton is the row of the j-th parton of the whole hard process, so an unrelated parton can appear in the mask.", "quantifier": "every event graph and target set", "why_tests_cant": "needs an event where the targets are not the first hard partons", "anchors": ["graphicle/select.py:hard_descendants"]}
{"id": "C42", "title": "hard_descendants rejects absent targets", "statement": "With a target, ValueError is raised exactly when no hard parton matches, or strict is True and some target code matches no hard parton (up to sign unless sign_sensitive).", "quantifier": "every event graph, target set and flags", "why_tests_cant": "all combinations", "anchors": ["graphicle/select.py:hard_descendants"]}
{"id": "C43", "title": "Names given to hard partons are unique and identify the particle", "statement": "The names assigned to the hard partons are pairwise distinct and one per parton in order; a parton whose particle name is unique keeps it, otherwise the j-th parton (from 0) with that name gets 'name:j'. (Particle names contain no colon.)", "quantifier": "every list of particle names", "why_tests_cant": "arbitrary multiplicities; injectivity over all lists", "anchors": ["graphicle/select.py:_pdgs_to_keys"]}
{"id": "C44", "title": "The hard-process tree gives every parton exactly one parent: its closest hard ancestor", "statement": "In the parent-to-children map computed from the hard ancestry, every parton with at least one hard ancestor is listed as a child of exactly one parton, namely the ancestor with the fewest hard descendants (the first such in record order), and no other links exist. When ancestry is a strict partial order, that parent has no hard parton strictly between it and the child.", "quantifier": "every boolean ancestry matrix", "why_tests_cant": "in-place row mutation in data-dependent order; all matrices", "anchors": ["graphicle/select.py:_hard_parent_matrix", "graphicle/select.py:_hard_ancestor_matrix", "graphicle/select.py:_hard_parent_dict", "graphicle/select.py:_flat_hierarchy"]}
{"id": "C45", "title": "hierarchy terminates and nests every linked parton exactly once", "statement": "Building the nested tree never recurses for ever, whatever the ancestry, and each parton reachable from a root appears at exactly one place, under its parent, with its own children below it; partons with children become groups with a trailing 'latent' mask and partons without become MaskArrays.", "quantifier": "every event", "why_tests_cant": "termination over all ancestries", "anchors": ["graphicle/select.py:hierarchy", "graphicle/select.py:_make_tree"]}
{"id": "C46", "title": "hierarchy loses no hard parton", "statement": "Every non-incoming hard parton appears in the hierarchy. This is false when some intermediate state exists: a parton with neither hard ancestor nor hard descendant is dropped.", "quantifier": "every event", "why_tests_cant": "needs an event with an extra outgoing parton not from a resonance", "anchors": ["graphicle/select.py:hierarchy", "graphicle/select.py:_flat_hierarchy"]}
{"id": "C47", "title": "'latent' completes a parton's children to the parton's own descendants", "statement": "For each nested group in the hierarchy, its aggregated `.data` is the union of the parent's descendant mask and its children's masks; if the children's masks are contained in the parent's, `.data` is exactly the parent's descendant mask and 'latent' is disjoint from every child and holds exactly the parent's descendants that are in no child.", "quantifier": "every event", "why_tests_cant": "all nested structures", "anchors": ["graphicle/select.py:_make_tree", "graphicle/select.py:hierarchy"]}
{"id": "C48", "title": "Leaves of the hierarchy hold exactly the parton and its descendants", "statement": "A parton without hard children should appear in the hierarchy with its own hard_descendants mask. This is false: when exactly one edge enters the parton's start vertex, that edge (the parton's parent) is added to the mask.", "quantifier": "every event with an intermediate state", "why_tests_cant": "needs comparison of two functions on events with resonance decays", "anchors": ["graphicle/select.py:_make_tree", "graphicle/select.py:hierarchy"]}
{"id": "C49", "title": "partition_descendants assigns each hadron by its nearest incoming parton", "statement": "For an event with hadronisation vertices having disjoint final descendants, after partitioning, a final particle descending from such a vertex v is in a leaf mask touching v exactly when the parton incident on v nearest to it (first on ties) is in that leaf mask; all entries that are not final descendants of such a vertex, and all leaf masks not touching v, keep their previous value; names, nesting, agg_op and latent masks are unchanged and the input group is not modified.", "quantifier": "every event, hierarchy and distance function", "why_tests_cant": "all events and all distance matrices", "anchors": ["graphicle/select.py:partition_descendants", "graphicle/select.py:_partition_vertex", "graphicle/select.py:_hadron_vtx_parton_iter"]}
{"id": "C50", "title": "After partitioning, leaves that share no incoming parton share no hadron", "statement": "If two leaf masks both contain partons incident on hadronisation vertex v but none in common, then no final descendant of v is in both after partitioning at v, and if every parton incident on v is in one of the leaf masks, every final descendant of v is in one of them.", "quantifier": "every event, hierarchy and distance function", "why_tests_cant": "all events", "anchors": ["graphicle/select.py:_partition_vertex"]}
{"id": "C51", "title": "color_singlets returns exactly the color-neutral pairs and triples", "statement": "When each leaf contains exactly one outgoing hard parton, the result lists exactly the pairs and then triples (in combination order) of distinct colored leaves whose set of colors equals their set of anticolors; with invert=True it returns, as 1-tuples, exactly the colored leaves belonging to no such combination.", "quantifier": "every set of leaves and colors", "why_tests_cant": "all combinations", "anchors": ["graphicle/select.py:color_singlets"]}
{"id": "C52", "title": "any_overlap reports whether two masks overlap", "statement": "`any_overlap(group)` returns True exactly when two masks of the group are True at the same position. This is false: it raises AttributeError for every MaskGroup.", "quantifier": "every MaskGroup", "why_tests_cant": "no test calls it; failure shown for all inputs", "anchors": ["graphicle/select.py:any_overlap"]}
{"id": "C53", "title": "centroid_prune keeps exactly the particles within the radius", "statement": "Without mask: True at i exactly when the distance of particle i to the centre is below radius. With mask: the result has the mask's length, is contained in the mask, and a masked particle is kept exactly when its distance is below radius.", "quantifier": "every momentum array, mask, centre and radius", "why_tests_cant": "all inputs; scatter of the sub-result to the right rows", "anchors": ["graphicle/select.py:centroid_prune"]}
{"id": "C54", "title": "fastjet_clusters returns the selected jets' constituents in descending pT", "statement": "Given the jets produced by FastJet above pt_cut, the result has one mask per retained jet, True exactly at the jet's constituents; jets are in non-increasing pT; with eta_cut exactly the jets with |eta| < eta_cut are retained; with top_k only the first top_k; invalid arguments (negative pt_cut, radius, eta_cut, top_k < 1) raise ValueError.", "quantifier": "every jet list and every argument", "why_tests_cant": "all orders and cuts", "anchors": ["graphicle/select.py:fastjet_clusters"]}
{"id": "C55", "title": "arg_closest returns an injective, cost-minimal assignment", "statement": "If there are at least as many candidates as focus momenta (and the variances it divides by are positive), the result has one index per focus element, all distinct and in range, and no other injective assignment has smaller total cost; every thread schedule gives the same costs; the candidates' rapidities read afterwards are correct.", "quantifier": "every pair of momentum arrays", "why_tests_cant": "all assignments; hidden reuse of a cached buffer", "anchors": ["graphicle/select.py:arg_closest", "graphicle/calculate.py:_assignment_cost"]}
{"id": "C56", "title": "monte_carlo_tag maps each selected hard parton to one distinct cluster", "statement": "When it returns, the group is OR, has one entry per selected hard parton named as in the hard process, each mapped to one of the given cluster masks, with different partons mapped to different clusters, and the assignment is a cheapest one; the documented ValueError / IndexError are raised in the order the arguments are checked (exceptions: C97-C99), and when no check fails and the jets differ it returns.", "quantifier": "every particle set, cluster list and filter", "why_tests_cant": "all filters and mismatches", "anchors": ["graphicle/select.py:monte_carlo_tag"]}
{"id": "C57", "title": "Mass-type quantities are the signed root of the difference of squares", "statement": "`mass` is sign(E^2-p^2) sqrt|E^2-p^2| and `mass_t` is sign(E^2-pz^2) sqrt|E^2-pz^2| (exact arithmetic).", "quantifier": "every momentum", "why_tests_cant": "all real inputs", "anchors": ["graphicle/calculate.py:_root_diff_two_squares", "graphicle/data.py:MomentumArray.mass", "graphicle/data.py:MomentumArray.mass_t"]}
{"id": "C58", "title": "rapidity is artanh(pz/E) with signed infinity at the light cone", "statement": "If E - |pz| > 1e-10, `rapidity` is (1/2) ln((E+pz)/(E-pz)); if |E-|pz|| <= 1e-10 it is +inf or -inf with the sign of pz; it is odd in pz.", "quantifier": "every momentum with E >= |pz|", "why_tests_cant": "all real inputs", "anchors": ["graphicle/calculate.py:_rapidity", "graphicle/data.py:MomentumArray.rapidity"]}
{"id": "C59", "title": "shift_rapidity is a longitudinal Lorentz boost", "statement": "`shift_rapidity(d)` leaves px and py unchanged, adds d to the rapidity of every particle with E > |pz|, preserves E^2-pz^2, the mass and all Minkowski products between particles, composes additively and is undone by shift_rapidity(-d); the original array is unchanged.", "quantifier": "every momentum array and shift", "why_tests_cant": "all reals; group law", "anchors": ["graphicle/data.py:MomentumArray.shift_rapidity"]}
{"id": "C60", "title": "shift_phi is an azimuthal rotation", "statement": "`shift_phi(a)` leaves pz and E unchanged, preserves pT, mass and all Minkowski products, moves the azimuth by a modulo 2 pi, composes additively and is undone by shift_phi(-a).", "quantifier": "every momentum array and angle", "why_tests_cant": "all reals; wrap-around", "anchors": ["graphicle/data.py:MomentumArray.shift_phi"]}
{"id": "C61", "title": "shift_eta(experimental=True) adds exactly the shift to the pseudorapidity", "statement": "For pT > 0 the result has pseudorapidity eta + shift, the same px, py (hence pT and azimuth), and an invalid (NaN) energy.", "quantifier": "every momentum array with non-zero pT and every shift", "why_tests_cant": "all reals", "anchors": ["graphicle/data.py:MomentumArray.shift_eta"]}
{"id": "C62", "title": "shift_eta (true boost) is always a pure longitudinal boost", "statement": "Whatever max_corrections, abs_tol and shift are, the result equals shift_rapidity by some total amount applied to the whole array, hence preserves masses, transverse momenta and Minkowski products; if it does not warn, the pseudorapidity of the total momentum is within abs_tol of its original value plus shift.", "quantifier": "every momentum array, shift, number of corrections and tolerance", "why_tests_cant": "iterative algorithm with unbounded iterations", "anchors": ["graphicle/data.py:MomentumArray.shift_eta"]}
{"id": "C63", "title": "shift_eta warns only when it failed to converge", "statement": "A NumericalStabilityWarning should mean the target was missed by more than abs_tol. This is false: convergence is not re-checked after the last permitted correction, so it warns although the result is within tolerance.", "quantifier": "every momentum array and max_corrections", "why_tests_cant": "needs convergence exactly at the last iteration", "anchors": ["graphicle/data.py:MomentumArray.shift_eta"]}
{"id": "C64", "title": "delta_R is a symmetric non-negative distance with zero diagonal, invariant under boosts and rotations", "statement": "`delta_R` entry (i,j) is sqrt(dy^2 + dphi^2) with dphi the azimuth difference wrapped to [-pi, pi]; it is non-negative, symmetric, zero on equal particles, satisfies the triangle inequality among particles with non-zero pT (a particle at rest breaks it), and is unchanged when all particles are rotated in azimuth or, for true rapidities that are finite before and after, boosted by one rapidity.", "quantifier": "every set of momenta", "why_tests_cant": "all reals; wrap-around of the azimuth", "anchors": ["graphicle/calculate.py:_delta_R", "graphicle/calculate.py:_delta_R_symmetric", "graphicle/data.py:MomentumArray.delta_R"]}
{"id": "C65", "title": "delta_R with itself equals delta_R with a copy", "statement": "The special-cased `pmu.delta_R(pmu)` returns the same matrix as `pmu.delta_R(pmu.copy())`, including for particles along the beam (infinite pseudorapidity).", "quantifier": "every momentum array", "why_tests_cant": "two code paths must agree on all inputs", "anchors": ["graphicle/calculate.py:_delta_R", "graphicle/calculate.py:_delta_R_symmetric", "graphicle/data.py:MomentumArray.delta_R"]}
{"id": "C66", "title": "Parallel loops give the same result under every schedule", "statement": "Each parallel loop (delta_R, symmetric delta_R, clustering coefficients, assignment cost) returns the same array whatever the order or interleaving in which the threads perform their writes, and every entry is written.", "quantifier": "every number of threads, every interleaving of iterations' writes, every size", "why_tests_cant": "schedules cannot be enumerated by tests", "anchors": ["graphicle/calculate.py:_delta_R", "graphicle/calculate.py:_delta_R_symmetric", "graphicle/calculate.py:_clust_coeffs", "graphicle/calculate.py:_assignment_cost"]}
{"id": "C67", "title": "The thread setting is always restored", "statement": "After any call taking a number of threads (delta_R, cluster_coeff_distbn, arg_closest), normal or raising, and for any nesting of such calls, the process-wide thread setting equals its value before the call.", "quantifier": "every nesting and every exception point", "why_tests_cant": "all exception points", "anchors": ["graphicle/calculate.py:_thread_scope"]}
{"id": "C68", "title": "combined_mass is the mass of the summed momentum, floored at zero", "statement": "`combined_mass(pmu, w)` equals sqrt(max(0, E^2 - p^2)) of the (weighted) sum; it is non-negative, independent of particle order, and unchanged by shifting all particles by one rapidity or azimuth; for unweighted input it equals the `mass` of the momentum sum when that is not negative.", "quantifier": "every momentum array and weights", "why_tests_cant": "all reals, all sizes, all permutations", "anchors": ["graphicle/calculate.py:combined_mass"]}
{"id": "C69", "title": "aggregate_momenta sums each cluster and conserves the total over a partition", "statement": "Element j is the componentwise sum of the momenta selected by cluster j (zero for an empty cluster), in the order given; if the clusters partition the particles, the sum of the aggregates is the sum of all momenta.", "quantifier": "every momentum array and cluster list", "why_tests_cant": "all partitions", "anchors": ["graphicle/calculate.py:aggregate_momenta"]}
{"id": "C70", "title": "c_parameter equals its textbook definition and lies in [0,1]", "statement": "For momenta with non-zero 3-momentum, `c_parameter` equals (3/2) sum_{i,j} |p_i||p_j| sin^2(theta_ij) / (sum |p|)^2, lies in [0, 1], is 0 for collinear momenta, and does not depend on particle order.", "quantifier": "every non-empty list of momenta with non-zero 3-momentum", "why_tests_cant": "all reals and sizes", "anchors": ["graphicle/calculate.py:_c_parameter", "graphicle/calculate.py:c_parameter"]}
{"id": "C71", "title": "The thrust objective is the thrust along the axis, in [0,1], and its gradient is exact", "statement": "For every axis the (negated) objective equals sum |p.n| / sum |p|, lies in [0,1], and the returned gradient is the true derivative with respect to azimuth and inclination wherever no particle is orthogonal to the axis.", "quantifier": "every axis and every non-empty list of momenta with non-zero 3-momentum", "why_tests_cant": "all reals; gradient correctness cannot be sampled", "anchors": ["graphicle/calculate.py:_thrust_with_grad", "graphicle/calculate.py:thrust"]}
{"id": "C72", "title": "The optimiser's search box covers every axis", "statement": "For each unit vector n there are angles in [-pi/2, pi/2]^2 whose axis is n or -n, and thrust and spherocity objectives take the same value for n and -n; so restricting to the box loses no axis.", "quantifier": "every unit vector and momentum list", "why_tests_cant": "all axes", "anchors": ["graphicle/calculate.py:thrust", "graphicle/calculate.py:spherocity", "graphicle/calculate.py:_angles_to_axis"]}
{"id": "C73", "title": "The spherocity objective is the spherocity along the axis, and its azimuth gradient is exact", "statement": "For every axis not parallel to a particle the objective equals ((4/pi) sum |p x n| / sum |p|)^2, is between 0 and (4/pi)^2, and the first component of the returned gradient is its true derivative with respect to azimuth.", "quantifier": "every axis and momenta", "why_tests_cant": "all reals", "anchors": ["graphicle/calculate.py:_spherocity_with_grad", "graphicle/calculate.py:spherocity"]}
{"id": "C74", "title": "The spherocity objective's inclination gradient is exact", "statement": "The second component of the returned gradient is the derivative with respect to inclination. This is false: a term uses x*y*cos(phi) where the derivative has x*z*cos(phi).", "quantifier": "every axis and momenta", "why_tests_cant": "tests only check the optimum on symmetric events", "anchors": ["graphicle/calculate.py:_spherocity_with_grad"]}
{"id": "C75", "title": "jaccard_distance is a bounded metric on masks", "statement": "For equal-length masks and non-negative weights the distance lies in [0,1], is symmetric, is 0 on equal masks, satisfies the triangle inequality, and equals weight(symmetric difference)/weight(union) (0 when the union has weight 0); with positive weights it is 0 only for equal masks and 1 exactly for disjoint masks with non-empty union.", "quantifier": "every pair / triple of masks and weights", "why_tests_cant": "all masks; triangle inequality", "anchors": ["graphicle/calculate.py:_jaccard_distance", "graphicle/calculate.py:jaccard_distance"]}
{"id": "C76", "title": "Clustering coefficients are neighbour link fractions in [0,1]", "statement": "For each particle the coefficient is the fraction of ordered pairs of distinct neighbours (within radius) that are themselves within radius, and 0 with fewer than two neighbours; it lies in [0,1].", "quantifier": "every point cloud and radius", "why_tests_cant": "all graphs", "anchors": ["graphicle/calculate.py:_clust_coeffs", "graphicle/calculate.py:cluster_coeff_distbn"]}
{"id": "C77", "title": "weighted_centroid is a convex combination", "statement": "For particles with positive total pT, the rapidity centroid lies between the smallest and largest rapidity, equals the common value when all agree, and the azimuth lies in [-pi, pi].", "quantifier": "every momentum array with positive total pT", "why_tests_cant": "all reals and sizes", "anchors": ["graphicle/calculate.py:weighted_centroid"]}
{"id": "C78", "title": "from_spherical_uniform returns physical momenta within the energy bound", "statement": "Every sampled momentum has 0 <= E <= max_energy, |p| <= E, and mass equal to the sampled mass (0 for massless ones); massless outside [0,1] raises ValueError.", "quantifier": "every outcome of the random generator and all arguments", "why_tests_cant": "all random outcomes", "anchors": ["graphicle/data.py:MomentumArray.from_spherical_uniform"]}
{"id": "C79", "title": "from_spherical_uniform covers the whole sphere", "statement": "Directions should be uniform over the sphere. This is false: the z component of every sample is non-negative, so the lower hemisphere is never produced.", "quantifier": "every outcome of the random generator", "why_tests_cant": "a statistical test might catch it; none exists", "anchors": ["graphicle/data.py:MomentumArray.from_spherical_uniform"]}
{"id": "C80", "title": "Derived coordinates always reflect the current momentum data", "statement": "Reading eta, rapidity, phi, theta, mass or mass_t after any history of reads and writes of the components should give the value computed from the current components. This is false: they are cached on first read and not invalidated by later writes. It does hold for every history in which no write follows a read.", "quantifier": "every history of reads and writes on one array", "why_tests_cant": "histories", "anchors": ["graphicle/data.py:MomentumArray.eta", "graphicle/data.py:MomentumArray.mass", "graphicle/data.py:MomentumArray.data"]}
{"id": "C81", "title": "cut_adj connects exactly the pairs on the right side of the cut", "statement": "Off the diagonal, unweighted entry (i,j) is True exactly when matrix[i,j] < cut ('max') / > cut ('min'), and the weighted entry is matrix[i,j] there and 0 elsewhere; the diagonal is all 0 without self_loop and all 1 with it; an unknown mode raises ValueError.", "quantifier": "every square matrix, cut and flags", "why_tests_cant": "all matrices", "anchors": ["graphicle/matrix.py:cut_adj"]}
{"id": "C82", "title": "fc_adj is the complete graph", "statement": "Entry (i,j) is 1 for i != j, and 1/0 on the diagonal with/without self_loop.", "quantifier": "every size", "why_tests_cant": "all sizes", "anchors": ["graphicle/matrix.py:fc_adj"]}
{"id": "C83", "title": "knn_adj links each particle to its k nearest", "statement": "Whatever valid partial sort numpy performs: with self_loop=True exactly k entries are set per particle, and none of the unset ones is strictly nearer than a set one; with self_loop=False and each particle strictly nearest to itself, exactly k other particles are set per particle, none nearer being omitted. With weighted=True set entries hold the affinity.", "quantifier": "every matrix, every k, every admissible result of the unstable partial sort", "why_tests_cant": "ties and unspecified order of argpartition", "anchors": ["graphicle/matrix.py:knn_adj"]}
{"id": "C84", "title": "knn_adj orientation and range of k follow the documentation", "statement": "`row=True` should give each particle's outward edges along its row and k up to n-1 neighbours should be allowed. Both are false: with row=True the k entries lie in each particle's column (row=False gives rows), and k = n-1 without self loops raises ValueError.", "quantifier": "every matrix and k", "why_tests_cant": "no test of knn_adj", "anchors": ["graphicle/matrix.py:knn_adj"]}
{"id": "C85", "title": "parton_hadron_distance scales each parton's row", "statement": "Entry (i,j) is pT_i^pt_exp times delta_R(i,j); for pt_exp=0 it is delta_R; for each hadron the nearest parton is unchanged by multiplying all parton momenta by one positive factor.", "quantifier": "every pair of momentum arrays and exponents", "why_tests_cant": "all reals", "anchors": ["graphicle/matrix.py:parton_hadron_distance"]}
{"id": "C86", "title": "rotation_matrix is the proper rotation about the given axis", "statement": "`rotation_matrix(a, axis)` is orthogonal with determinant 1, fixes the axis, rotates every vector orthogonal to the axis by the angle a (right-handed), is the identity for a=0, composes additively in a, and its inverse is the rotation by -a.", "quantifier": "every angle, axis and vector", "why_tests_cant": "all reals", "anchors": ["graphicle/transform.py:rotation_matrix"]}
{"id": "C87", "title": "split_momentum conserves four-momentum", "statement": "The two children sum exactly to the parent; the first child has energy z*E and 3-momentum of length z*|p| rotated by the given angle; more than one input particle raises ValueError.", "quantifier": "every momentum, fraction, angle and axis", "why_tests_cant": "all reals", "anchors": ["graphicle/transform.py:split_momentum"]}
{"id": "C88", "title": "split_hardest replaces only the hardest particle and conserves the total", "statement": "For 0 < z <= 1/2 the output has one more particle; all but the hardest (first with maximal pT) keep their value and order; the last two are the split of the hardest; the total four-momentum is unchanged; z outside (0, 1/2] raises ValueError, as does a missing axis with fewer than two particles.", "quantifier": "every momentum array and parameters", "why_tests_cant": "all arrays, all positions of the hardest", "anchors": ["graphicle/transform.py:split_hardest"]}
{"id": "C89", "title": "soft_hard_axis gives the normal of the soft-hard plane", "statement": "The returned angles, used as an axis, should be parallel to softest x hardest. This is false: the inclination is measured from the xy plane while rotation_matrix measures it from the z axis, so for example the z axis is turned into the x axis.", "quantifier": "every momentum array", "why_tests_cant": "tests of split_momentum always pass an axis", "anchors": ["graphicle/transform.py:soft_hard_axis", "graphicle/transform.py:_axis_to_angles", "graphicle/transform.py:_angles_to_axis"]}
{"id": "C90", "title": "shift_eta reaches the requested pseudorapidity", "statement": "`shift_eta(shift)` (default, true boost) should move the pseudorapidity of the total momentum by shift. This is false for every total momentum of positive mass (E > |pz|, pT > 0, target not 0): the correction is computed from the rapidity instead of the pseudorapidity, so after the first boost the rapidity of the total sits at the target, all later corrections are zero, and the pseudorapidity overshoots for every max_corrections. For massless totals one correction hits the target exactly.", "quantifier": "every momentum array, shift and number of corrections", "why_tests_cant": "the tests use massless momenta; the failure holds for every massive total and every number of corrections", "anchors": ["graphicle/data.py:MomentumArray.shift_eta"]}
{"id": "C91", "title": "arg_closest accepts a single candidate and candidates of equal pT", "statement": "`arg_closest(focus, candidate)` should return an assignment for every pair of non-empty arrays. This is false: it divides by the variance of the candidates' pT, so one candidate, or candidates that all have the same pT, raise ZeroDivisionError.", "quantifier": "every pair of momentum arrays", "why_tests_cant": "tests use candidates of different pT; the failure holds for every array of equal-pT candidates", "anchors": ["graphicle/select.py:arg_closest", "graphicle/calculate.py:_assignment_cost"]}
{"id": "C92", "title": "arg_closest leaves the candidates' rapidities readable", "statement": "After `arg_closest(focus, candidate)`, returning or raising, `candidate.rapidity` should still be the rapidity of the candidates. It is after a normal return; it is false after a raise: the cached rapidities have been overwritten by transverse momenta and are not discarded, so every later read returns pT.", "quantifier": "every pair of momentum arrays, every outcome", "why_tests_cant": "needs the history of a failing call followed by a read", "anchors": ["graphicle/select.py:arg_closest", "graphicle/calculate.py:_assignment_cost", "graphicle/data.py:MomentumArray.rapidity"]}
{"id": "C93", "title": "combined_mass accepts one weight per particle", "statement": "A flat vector with one weight per particle should weight each particle. This is false: numpy broadcasts it along the four components, so it raises ValueError unless there are one or four particles, and with four particles it silently weights the components x, y, z, E instead.", "quantifier": "every momentum array and flat weight vector", "why_tests_cant": "tests use tables of weights only", "anchors": ["graphicle/calculate.py:combined_mass"]}
{"id": "C94", "title": "weighted_centroid follows azimuthal rotations", "statement": "Rotating all particles by an angle should rotate the azimuth centroid by that angle. This is false: azimuths are averaged as plain numbers, so two particles either side of the +-pi cut average to the opposite side. It holds whenever no particle crosses the cut.", "quantifier": "every momentum array and angle", "why_tests_cant": "depends on the position of every particle relative to the branch cut", "anchors": ["graphicle/calculate.py:weighted_centroid"]}
{"id": "C95", "title": "arg_closest returns one candidate per focus momentum", "statement": "The result of `arg_closest(focus, candidate)` should hold one candidate index per focus momentum. This is false whenever there are fewer candidates than focus momenta: the result has one entry per candidate and the information which focus momentum each belongs to is discarded. What holds: the indices returned are the column part, in row order, of a cheapest maximal matching.", "quantifier": "every pair of momentum arrays", "why_tests_cant": "tests use at least as many candidates as focus momenta; the failure holds for every smaller candidate array", "anchors": ["graphicle/select.py:arg_closest"]}
{"id": "C96", "title": "arg_closest does not modify arrays the caller holds", "statement": "An array read from `candidate.rapidity` before `arg_closest(focus, candidate)` should be unchanged by the call. This is false for every input and outcome: it is overwritten in place with the candidates' transverse momenta. Every other array is left unchanged.", "quantifier": "every pair of momentum arrays, every outcome, every array read before", "why_tests_cant": "an effect on aliased memory, invisible in the return value", "anchors": ["graphicle/select.py:arg_closest", "graphicle/calculate.py:_assignment_cost"]}
{"id": "C97", "title": "monte_carlo_tag honours an empty whitelist", "statement": "An empty whitelist should either select nothing or be the same as none. This is false: on its own it is ignored (every parton is tagged), and together with a non-empty blacklist it turns the blacklist into a whitelist, so exactly the partons to be excluded are tagged.", "quantifier": "every event, cluster list and non-empty blacklist", "why_tests_cant": "two optional arguments interact through an identity test on one and a truth test on the other", "anchors": ["graphicle/select.py:monte_carlo_tag"]}
{"id": "C98", "title": "monte_carlo_tag on an event without matching partons fails as documented", "statement": "If no parton remains to be tagged, the documented IndexError (or an empty group) should result. This holds with a filter; without one it is false for every such event: an undocumented TypeError or ZeroDivisionError is raised.", "quantifier": "every event without partons in the chosen stages, every cluster list", "why_tests_cant": "needs all events of this kind", "anchors": ["graphicle/select.py:monte_carlo_tag", "graphicle/select.py:arg_closest"]}
{"id": "C99", "title": "monte_carlo_tag rejects clusters of the wrong length with ValueError", "statement": "A cluster mask whose length differs from the number of clustered momenta should raise the documented ValueError. This holds for the first mask only; a later mask of the wrong length raises IndexError.", "quantifier": "every event and cluster list", "why_tests_cant": "position of the offending mask is unbounded", "anchors": ["graphicle/select.py:monte_carlo_tag", "graphicle/calculate.py:aggregate_momenta"]}
{"id": "C100", "title": "Boolean flags of the adjacency builders accept any boolean", "statement": "A falsy flag such as numpy.bool_(False) or 0 should act as False. This is false: flags are compared by identity, so for fc_adj, cut_adj and knn_adj every object other than the singleton False adds self loops, cut_adj raises ValueError for such a `weighted`, and knn_adj ignores it.", "quantifier": "every matrix and every flag object", "why_tests_cant": "tests pass literals", "anchors": ["graphicle/matrix.py:cut_adj", "graphicle/matrix.py:knn_adj", "graphicle/matrix.py:fc_adj"]}
{"id": "C101", "title": "knn_adj gives every particle k neighbours even when particles coincide", "statement": "Without self loops each particle should be linked to exactly k others. This is false when others have the same affinity as the particle itself: the slot reserved for the particle may go to another one, giving k+1 (three coincident particles, k=1). In general the links are the k+1 nearest positions except the particle itself.", "quantifier": "every matrix and admissible partial sort", "why_tests_cant": "depends on the unspecified order of ties", "anchors": ["graphicle/matrix.py:knn_adj"]}
{"id": "C102", "title": "The children of a split are physical momenta", "statement": "Splitting a massless momentum with `split_momentum` should give two momenta with E^2 >= |p|^2. This is false: the first child keeps mass^2 z^2 M^2, but the second has (1-z)^2 M^2 - 2z(|p|^2 - p.Rp), so a massless parent split with any visible opening angle gives a spacelike second child; only the collinear split is physical.", "quantifier": "every momentum, fraction, angle and axis", "why_tests_cant": "all reals; tests only check conservation", "anchors": ["graphicle/transform.py:split_momentum"]}
{"id": "C103", "title": "Masks of any kind can be compared", "statement": "Two masks whose boolean data have the same length should be comparable with `==` and `!=` whichever of them is a MaskArray or a MaskGroup. This is false: a MaskGroup compared with a MaskArray (`==`, `!=`) and a MaskArray `!=` a MaskGroup raise TypeError. Every other combination is elementwise; different lengths are a ValueError.", "quantifier": "every pair of masks of any nesting and length", "why_tests_cant": "every nesting and length", "anchors": ["graphicle/data.py:_mask_eq", "graphicle/data.py:_mask_neq", "graphicle/data.py:MaskArray.__array_ufunc__"]}
{"id": "C104", "title": "A key selects exactly the elements Python's rules name", "statement": "Subscripting any array with a boolean mask, an integer array or a slice (any start, stop, step, negative or out of range) returns exactly the elements at the positions Python and numpy prescribe, in that order; a mask of the wrong length or an index out of range is an IndexError, a zero step a ValueError, and nothing else fails.", "quantifier": "every array, every mask, index list and slice", "why_tests_cant": "unbounded lengths and all integer bounds and steps", "anchors": ["graphicle/data.py:PdgArray.__getitem__", "graphicle/data.py:MomentumArray.__getitem__", "graphicle/data.py:ColorArray.__getitem__", "graphicle/data.py:AdjacencyList.__getitem__", "graphicle/data.py:MaskArray.__getitem__"]}
{"id": "C105", "title": "Arithmetic operators act element by element and keep the class", "statement": "An arithmetic operator between two arrays of one class, or an array and a number, returns an array of that class with the operator applied to each element (each component of each momentum), exactly whenever the result fits the storage type; lengths that differ (neither being one) raise ValueError.", "quantifier": "every binary and unary operation, array and number", "why_tests_cant": "all arrays and operations", "anchors": ["graphicle/data.py:_array_ufunc", "graphicle/data.py:PdgArray", "graphicle/data.py:MomentumArray"]}
{"id": "C106", "title": "Ordering comparisons of flat arrays give masks", "statement": "Comparing an array with a number or another array of its class (`<`, `>=`, ...) gives the mask of the elements satisfying it, for the flat classes PdgArray, StatusArray and HelicityArray. (Momentum and colour arrays: C190.)", "quantifier": "every comparison, array and number", "why_tests_cant": "all arrays", "anchors": ["graphicle/data.py:_array_ufunc"]}
{"id": "C107", "title": "Arrays of different classes combine as their data would", "statement": "An operator between, say, a PdgArray and a StatusArray of equal length should combine their numbers. This is false for every operator and every pair of arrays: no such call ever returns, flat arrays of equal length end in AttributeError.", "quantifier": "every operator and pair of arrays of different classes", "why_tests_cant": "all operators and arrays", "anchors": ["graphicle/data.py:_array_ufunc"]}
{"id": "C108", "title": "Multiplying momenta by one weight per particle scales the particles", "statement": "`pmu * w` with one weight per particle should scale particle i by w[i]. This is false: it is a ValueError unless there are one or four particles, and with four particles weight j silently scales component j of every particle instead.", "quantifier": "every momentum array and weight vector of its length, every operator", "why_tests_cant": "all lengths; silent only for one of them", "anchors": ["graphicle/data.py:_array_ufunc", "graphicle/data.py:MomentumArray"]}
{"id": "C109", "title": "Sums over arrays", "statement": "`np.sum(pmu, axis=0)` is one momentum holding the total of each component, `axis=1` one plain number per particle, no axis one plain number; `np.sum` of a flat array is its total and of a mask the number of True entries.", "quantifier": "every momentum array, flat array and mask", "why_tests_cant": "all lengths", "anchors": ["graphicle/data.py:_array_ufunc"]}
{"id": "C110", "title": "Summing over the last axis is the same as over axis 1", "statement": "`np.sum(pmu, axis=-1)` should equal `np.sum(pmu, axis=1)`. This is false: it is a ValueError, except that four per-particle sums are silently taken for the components of one momentum.", "quantifier": "every momentum array", "why_tests_cant": "the silent case occurs at one length only", "anchors": ["graphicle/data.py:_array_ufunc"]}
{"id": "C111", "title": "Dividing an integer array gives the quotients", "statement": "`helicity / 2` should hold the exact quotients. This is false: the result is cast back to the class and drops the fractional part toward zero; it does keep the class, the length and the sign.", "quantifier": "every flat integer array and non-zero divisor", "why_tests_cant": "all integers", "anchors": ["graphicle/data.py:_array_ufunc", "graphicle/data.py:_array_field"]}
{"id": "C112", "title": "Equality of arrays marks equal entries", "statement": "`==` / `!=` between flat arrays of any class, sequences of the same length or a number mark exactly the (un)equal entries; between two momentum or two colour arrays, or against one record given as a flat sequence, exactly the particles whose records are equal in every component; a record of the wrong size and lengths that do not match are ValueError.", "quantifier": "every pair of arrays, every record", "why_tests_cant": "all arrays and lengths", "anchors": ["graphicle/data.py:_array_eq", "graphicle/data.py:_array_ne", "graphicle/data.py:_array_eq_prep"]}
{"id": "C113", "title": "Momentum and colour arrays can be compared with plain rows", "statement": "Comparing a record array with its rows as nested sequences or as a numpy array should mark the equal rows. This is false: it is a ValueError, unless there are exactly as many rows as fields and exactly one particle, which is then compared with every row; numpy arrays, the array's own `.data` included, are always rejected.", "quantifier": "every record array and list of rows", "why_tests_cant": "all lengths", "anchors": ["graphicle/data.py:_array_eq_prep"]}
{"id": "C114", "title": "Particle names and codes translate into each other", "statement": "For a lookup table with distinct codes and names, `PdgArray.from_name(pdg.name)` equals `pdg`, in order and with repetitions, and any unknown name makes from_name raise ValueError.", "quantifier": "every table, code array and name list", "why_tests_cant": "every table and list", "anchors": ["graphicle/data.py:PdgArray.from_name", "graphicle/data.py:PdgArray.name"]}
{"id": "C115", "title": "Masks from a structured array", "statement": "`MaskGroup.from_numpy_structured(arr)` has exactly one mask per field, in field order, holding that column, aggregated with 'and'.", "quantifier": "every structured boolean array", "why_tests_cant": "any number of fields and rows", "anchors": ["graphicle/data.py:MaskGroup.from_numpy_structured"]}
{"id": "C116", "title": "Assignments change exactly what they name", "statement": "`m[k] = v` sets exactly the elements selected by k of the mask it is applied to, `m.data = d` replaces its data, `g[k] = m`, `del g[k]` and `g.agg_op = s` change exactly that entry of that group (deleting an absent name is KeyError); an assignment along a path that does not exist raises and changes nothing; every object not named is untouched.", "quantifier": "every heap of masks and groups, every path and assignment", "why_tests_cant": "every shape, sharing pattern and key", "anchors": ["graphicle/data.py:MaskArray.__setitem__", "graphicle/data.py:MaskGroup.__setitem__", "graphicle/data.py:MaskGroup.__delitem__", "graphicle/data.py:MaskGroup.agg_op"]}
{"id": "C117", "title": "Truth value of a mask", "statement": "`bool(mask)` is True exactly when the mask covers at least one particle (not when an entry is True); an empty group is False; a non-empty group whose data cannot be read raises.", "quantifier": "every mask and nested group", "why_tests_cant": "every nesting", "anchors": ["graphicle/data.py:MaskBase.__bool__", "graphicle/data.py:MaskGroup.__bool__"]}
{"id": "C118", "title": "How reading a group fails", "statement": "Reading `.data` of a group aggregated by 'none', or with an unknown aggregation, is ValueError; of an empty group TypeError; of readable children of differing lengths ValueError; otherwise the error of the first unreadable child is raised.", "quantifier": "every group", "why_tests_cant": "every nesting and order of children", "anchors": ["graphicle/data.py:MaskGroup.data", "graphicle/data.py:MaskGroup.agg_op"]}
{"id": "C119", "title": "clusters: one final-state mask per hard parton", "statement": "On a generated event whose hierarchy is not empty and whose leaves hold one outgoing parton each, clusters() returns, in hierarchy order, exactly one mask over the final state for every name of the hierarchy except 'latent'. A final particle is in a leaf's mask iff it is in that leaf after its hadrons were shared out among the partons ending at their vertex and, when the leaf is coloured and belongs to no colour singlet of two or three leaves, it lies within radius of the leaf's parton in the pseudorapidity-azimuth plane; a composite name's mask is the union of the leaves below it. With an empty hierarchy clusters() raises TypeError.", "quantifier": "every event record, colours, momenta, radius, set iteration order and distance", "why_tests_cant": "every graph, colour flow and hierarchy shape", "anchors": ["graphicle/select.py:clusters", "graphicle/select.py:partition_descendants", "graphicle/select.py:leaf_masks", "graphicle/select.py:color_singlets", "graphicle/select.py:centroid_prune", "graphicle/select.py:hierarchy"]}
{"id": "C120", "title": "Membership, counting and reversal see the stored elements", "statement": "`v in arr` and arr.count(v) on the particle data arrays are true of / count exactly the stored elements equal to v (records field by field), and reversed(arr) yields the one-particle arrays from last to first.", "quantifier": "every array content and value", "why_tests_cant": "every array and value", "anchors": ["graphicle/base.py:ArrayBase", "graphicle/data.py:PdgArray.__iter__", "graphicle/data.py:MomentumArray.__iter__", "graphicle/data.py:AdjacencyList.__iter__"]}
{"id": "C121", "title": "index finds the first position of a value", "statement": "arr.index(v, start, stop) returns the first position in the range that holds v and raises ValueError when there is none. This is false: the comparison behind it is truthy for every record, so it returns the start of the range whatever the value (the boolean mask always raises ValueError).", "quantifier": "every array, value, start and stop", "why_tests_cant": "every array and value; the Sequence mixin's comparison goes through the class's ==, whose truth value is a length", "anchors": ["graphicle/base.py:ArrayBase", "graphicle/data.py:_truthy", "graphicle/data.py:_array_eq", "graphicle/data.py:_mask_eq"]}
{"id": "C122", "title": "Tables show every record", "statement": "str() and the notebook table of a ParticleSet or Graphicle have one row per particle in order (above 60 particles: the first five, an ellipsis row, the last five), one labelled cell for each attribute present and for the edge, holding that record's value (the PDG code as its name), and end with the number of particles and of columns. A code without a name raises KeyError.", "quantifier": "every aligned particle set and graph, with any subset of the attributes, any number of records, any name table", "why_tests_cant": "any combination of present attributes and any length", "anchors": ["graphicle/data.py:_table_repr", "graphicle/data.py:ParticleSet._table_list", "graphicle/data.py:ParticleSet._table_str", "graphicle/data.py:Graphicle._table_str"]}
{"id": "C123", "title": "A graph without particle data shows its edges", "statement": "str() of a Graphicle holding only an adjacency list shows one row per edge. This is false: the table has its two columns and its count, but no rows.", "quantifier": "every edge list", "why_tests_cant": "every edge list", "anchors": ["graphicle/data.py:Graphicle._table_str", "graphicle/data.py:ParticleSet._table_list"]}
{"id": "C124", "title": "from_event builds the graph from the attributes the event has", "statement": "Graphicle.from_event succeeds exactly when every attribute present converts, and each component is then what its class makes of the event's attribute of that name; missing or None attributes give empty components; a missing `final` is taken from masks['final'] if the event has masks (KeyError if that entry is missing). Exporting a graph's arrays and importing them gives the graph back. from_numpy keeps weights only together with edges.", "quantifier": "every event object and every aligned graph", "why_tests_cant": "every combination of present, missing and None attributes", "anchors": ["graphicle/data.py:Graphicle.from_event", "graphicle/data.py:Graphicle.from_numpy", "graphicle/base.py:EventInterface", "graphicle/data.py:ParticleSet.from_numpy"]}
{"id": "C125", "title": "MaskGroup reads nested dictionaries faithfully", "statement": "MaskGroup(dict, agg_op) has the dictionary's names in order at every level, the given masks and arrays as its leaves, nested dictionaries as groups aggregating with 'and', and the given operation at the top; a malformed array raises ValueError.", "quantifier": "every nested dictionary of masks, groups, arrays and dictionaries", "why_tests_cant": "every depth and shape of nesting", "anchors": ["graphicle/data.py:_mask_dict_convert", "graphicle/data.py:MaskGroup"]}
{"id": "C126", "title": "An iterable of booleans becomes a mask of those booleans", "statement": "MaskGroup's dictionary accepts any Iterable[bool] as a mask, including iterators and generators. This is false: an iterator becomes the one-element mask [True] whatever it yields; sequences and arrays are read faithfully.", "quantifier": "every iterator of booleans", "why_tests_cant": "every iterator", "anchors": ["graphicle/data.py:_mask_dict_convert", "graphicle/data.py:_array_field"]}
{"id": "C127", "title": "Mask operators do not depend on operand order", "statement": "mask & x and x & mask (likewise |) agree for every x the operators accept. This is false: mask & True and mask & [..] raise ValueError, while the reversed forms are elementwise. It holds for masks and numpy vectors.", "quantifier": "every mask and every other operand (mask, numpy vector, bool, list)", "why_tests_cant": "every pair of operands", "anchors": ["graphicle/data.py:MaskArray.__and__", "graphicle/data.py:MaskArray.__or__", "graphicle/data.py:MaskGroup.__and__", "graphicle/data.py:_array_ufunc"]}
{"id": "C128", "title": "In-place operators update the shared buffer and nothing else", "statement": "x op= y on arrays of one class and shape gives the elementwise result of x op y, stored in x's own buffer: every array sharing that buffer shows the result, all other buffers are unchanged; x op y leaves every existing buffer unchanged.", "quantifier": "every heap of buffers, sharing pattern, operation and operands", "why_tests_cant": "every aliasing pattern", "anchors": ["graphicle/data.py:_array_ufunc", "graphicle/base.py:ArrayBase"]}
{"id": "C129", "title": "A failing in-place operator changes nothing", "statement": "When x op= y raises, x holds what it held before. This is false for an operand of another class: the buffer is updated before the error. It holds for every other operand.", "quantifier": "every array and operand", "why_tests_cant": "every operand class and shape", "anchors": ["graphicle/data.py:_array_ufunc"]}
{"id": "C130", "title": "Equality of composites compares their content", "statement": "s == t for two ParticleSets (or Graphicles) is true exactly when they hold the same records. This is false: for sets with the same layout the result says only whether no component is empty, whatever the records; graphs with complete particle data and equally many edges raise ValueError.", "quantifier": "every pair of particle sets or graphs", "why_tests_cant": "every pair of sets; the generated comparison uses the truth value of elementwise masks", "anchors": ["graphicle/data.py:ParticleSet", "graphicle/data.py:Graphicle", "graphicle/data.py:_array_eq", "graphicle/data.py:_mask_eq", "graphicle/data.py:_truthy"]}
{"id": "C131", "title": "Rapidity and pseudorapidity of every momentum, physical or not", "statement": "pmu.rapidity is the textbook value for E-|pz| above the tolerance 1e-10; +-inf by the sign of pz (+inf for pz=0) when E is within the tolerance of |pz|, or E is exactly -|pz|; NaN for a momentum with |E|<|pz|; and for E<-|pz| the rapidity of the momentum with the opposite energy. pmu.eta is the textbook value for pT>0, +-inf along the beam and NaN at rest.", "quantifier": "every four-momentum", "why_tests_cant": "every real momentum, including all boundary cases", "anchors": ["graphicle/calculate.py:_rapidity", "graphicle/data.py:MomentumArray.eta", "graphicle/data.py:MomentumArray.rapidity"]}
{"id": "C132", "title": "delta_R is defined for every pair of particles", "statement": "Every entry of delta_R is hypot of the (pseudo)rapidity difference and the wrapped azimuth difference, where a missing azimuth counts as difference 0, an undefined difference (a NaN, or two equal infinities) counts as 0, and any other infinite coordinate gives +inf; no entry is NaN.", "quantifier": "every two arrays of momenta, every pair of entries, every schedule", "why_tests_cant": "every pair of momenta including beam, light-cone and space-like ones", "anchors": ["graphicle/calculate.py:_delta_R", "graphicle/calculate.py:_delta_R_symmetric", "graphicle/data.py:MomentumArray.delta_R"]}
{"id": "C133", "title": "The shifting methods on degenerate input", "statement": "A number of shifts that is neither one nor the number of particles raises ValueError. shift_eta(experimental=True) makes z NaN for particles without transverse momentum. shift_eta with a total momentum along the beam returns the momenta unchanged without a warning; with no total three-momentum, or with a total whose rapidity is not finite, the result is not finite.", "quantifier": "every array, shift, tolerance and correction limit", "why_tests_cant": "every momentum set", "anchors": ["graphicle/data.py:MomentumArray.shift_eta", "graphicle/data.py:MomentumArray.shift_phi", "graphicle/data.py:MomentumArray.shift_rapidity"]}
{"id": "C134", "title": "A particle of zero weight does not affect the weighted centroid", "statement": "weighted_centroid of a set is unchanged by particles of zero transverse momentum, whose weight is zero, and is undefined (NaN) only when all weights are zero. This is false: one particle with pT=0 makes both pseudorapidity centroid and azimuth NaN.", "quantifier": "every set of momenta", "why_tests_cant": "every set", "anchors": ["graphicle/calculate.py:weighted_centroid"]}
{"id": "C135", "title": "parton_hadron_distance for a parton along the beam", "statement": "For a parton with pT=0 an entry is the plain distance for exponent 0; +inf for a negative exponent, but NaN at distance 0; 0 for a positive exponent, but NaN at infinite distance.", "quantifier": "every partons, hadrons, exponent", "why_tests_cant": "every input", "anchors": ["graphicle/matrix.py:parton_hadron_distance"]}
{"id": "C136", "title": "centroid_prune about a non-finite centre keeps nothing", "statement": "When one of the coordinates of the given centre is infinite or NaN, no particle is kept.", "quantifier": "every set of momenta, mask, radius and such centre", "why_tests_cant": "every input", "anchors": ["graphicle/select.py:centroid_prune"]}
{"id": "C137", "title": "arg_closest refuses infinite distances", "statement": "If the distance of some focus particle to some candidate is infinite and the candidates' transverse momenta are not all equal, arg_closest raises ValueError instead of returning indices.", "quantifier": "every focus and candidates, every cache state, every schedule", "why_tests_cant": "every pair of sets and schedule", "anchors": ["graphicle/select.py:arg_closest", "graphicle/calculate.py:_assignment_cost"]}
{"id": "C138", "title": "mass is accurate in double arithmetic and has the right sign", "statement": "For finite E, q with |E|+|q| at most 2^1023, the kernel behind pmu.mass and pmu.mass_t returns a finite double that is zero exactly when |E|=|q|, positive exactly when |E|>|q|, and within 5 relative rounding errors of sign*sqrt|E^2-q^2|: no cancellation.", "quantifier": "every pair of finite doubles in range", "why_tests_cant": "all pairs of 64-bit floats", "anchors": ["graphicle/calculate.py:_root_diff_two_squares", "graphicle/data.py:MomentumArray.mass", "graphicle/data.py:MomentumArray.mass_t"]}
{"id": "C139", "title": "Rapidity in double arithmetic", "statement": "pmu.rapidity is exactly odd in pz; for |pz|<=E<=2^900 it is never NaN, has the sign bit of pz, and is infinite exactly when the rounded difference E-|pz| does not exceed the tolerance; a NaN energy gives an infinite rapidity, not NaN.", "quantifier": "every pair of doubles in range, every libm log with the stated contract", "why_tests_cant": "all 64-bit floats", "anchors": ["graphicle/calculate.py:_rapidity", "graphicle/data.py:MomentumArray.rapidity"]}
{"id": "C140", "title": "delta_R is bitwise symmetric in double arithmetic", "statement": "Exchanging the two particles gives the same double, for all coordinates, including infinities and NaN.", "quantifier": "every pair of particles, every odd/even libm atan2 and hypot", "why_tests_cant": "all 64-bit floats", "anchors": ["graphicle/calculate.py:_delta_R", "graphicle/calculate.py:_delta_R_symmetric"]}
{"id": "C141", "title": "delta_R of a particle with itself is 0.0 in double arithmetic", "statement": "The distance of a particle from itself is exactly 0.0 whatever its rapidity (finite, infinite, NaN), when its transverse momentum components do not exceed 2^500.", "quantifier": "every particle", "why_tests_cant": "all 64-bit floats", "anchors": ["graphicle/calculate.py:_delta_R", "graphicle/calculate.py:_delta_R_symmetric"]}
{"id": "C142", "title": "The weighted Jaccard distance in double arithmetic", "statement": "For non-negative weights up to 2^900 and up to 2^53 elements the computed distance is finite, in [0,1], exactly 0 for equal masks, exactly 1 for disjoint masks of positive weight, exactly symmetric, and equals the exact distance up to 2n roundings and the final one.", "quantifier": "every pair of masks and weights", "why_tests_cant": "all masks, all 64-bit weights", "anchors": ["graphicle/calculate.py:_jaccard_distance", "graphicle/matrix.py:knn_adj", "graphicle/select.py:monte_carlo_tag"]}
{"id": "C143", "title": "The unweighted Jaccard distance is the nearest double", "statement": "Without weights, for up to 2^53 elements, the result is the double nearest to (elements in exactly one mask)/(elements in either), and 0 if both are empty.", "quantifier": "every pair of masks", "why_tests_cant": "all masks", "anchors": ["graphicle/calculate.py:_jaccard_distance"]}
{"id": "C144", "title": "The three-norm kernel neither overflows nor loses accuracy", "statement": "For every vector whose largest component is between 2^-1021 and 2^1021 the norm used by thrust, spherocity and c_parameter is finite and within 6 relative rounding errors, although the squares of the components would overflow or underflow.", "quantifier": "every triple of doubles in range", "why_tests_cant": "all 64-bit floats", "anchors": ["graphicle/calculate.py:_three_norm"]}
{"id": "C145", "title": "Summed momenta do not depend on the order of addition beyond rounding", "statement": "Whatever order numpy adds n+1 numbers in, the sum is within ((1+u)^n-1) times the sum of magnitudes of the exact sum (exponent: depth of the order, for pairwise sums), and any two orders of any permutation differ by at most twice that.", "quantifier": "every list of doubles, every order of addition", "why_tests_cant": "all orders and all lists", "anchors": ["graphicle/calculate.py:aggregate_momenta", "graphicle/calculate.py:combined_mass"]}
{"id": "C146", "title": "split_momentum conserves momentum up to one rounding", "statement": "The components of the two children add up to the parent's within u|parent-child|, exactly if the first child is between half and twice the parent; for 0<=z<=1 both energies are between 0 and the parent's.", "quantifier": "every parent, fraction and rotated first child", "why_tests_cant": "all 64-bit floats", "anchors": ["graphicle/transform.py:split_momentum"]}
{"id": "C147", "title": "Only particles along the beam have infinite pseudorapidity", "statement": "pmu.eta is finite for every momentum with non-zero transverse momentum. This is false in double arithmetic: below pT/|pz| = 2^-28 it is infinite. It is finite from 2^-25 on.", "quantifier": "every momentum", "why_tests_cant": "all 64-bit floats", "anchors": ["graphicle/data.py:MomentumArray.eta"]}
{"id": "C148", "title": "The C-parameter in doubles is not negative", "statement": "c_parameter of any event with moving particles, as returned in doubles, lies in [0, 1], as the textbook value does. This is false: a single particle can give a negative value. It holds up to (200 + 20 n^2) * 2**-53.", "quantifier": "every non-empty list of momenta of moderate size", "why_tests_cant": "all 64-bit floats, any number of particles", "anchors": ["graphicle/calculate.py:c_parameter", "graphicle/calculate.py:_c_parameter", "graphicle/calculate.py:_three_norm"]}
{"id": "C149", "title": "combined_mass of one particle is backward accurate", "statement": "combined_mass of a single momentum is a finite number, not negative, whose square is max(0, E^2-|p|^2) up to 7 rounding errors of E^2+|p|^2, whatever the order in which numpy adds the four squares.", "quantifier": "every time-like momentum", "why_tests_cant": "all 64-bit floats", "anchors": ["graphicle/calculate.py:combined_mass", "graphicle/data.py:MomentumArray.mass"]}
{"id": "C150", "title": "A light-like momentum has mass exactly 0.0", "statement": "If E^2 = x^2+y^2+z^2 holds exactly for four doubles, pmu.mass is exactly 0, although |p| is computed by two successive correctly rounded hypots.", "quantifier": "every light-like momentum with E up to 2^1000, every correctly rounded hypot", "why_tests_cant": "all 64-bit floats", "anchors": ["graphicle/data.py:MomentumArray.mass", "graphicle/data.py:MomentumArray._spatial_mag"]}
{"id": "C151", "title": "mass squared is backward accurate", "statement": "The signed square of pmu.mass differs from E^2-|p|^2 by at most 16 rounding errors of E^2+|p|^2.", "quantifier": "every momentum with |p| between 2^-900 and 2^500, |E| up to 2^500, every correctly rounded hypot", "why_tests_cant": "all 64-bit floats", "anchors": ["graphicle/data.py:MomentumArray.mass", "graphicle/data.py:MomentumArray._spatial_mag"]}
{"id": "C152", "title": "Copies are isolated", "statement": "`x.copy()` of an array, a ParticleSet or a Graphicle reads the same as `x` everywhere, and from then on no program that goes through `x`, or through any other object that existed before, can change what the copy reads, nor can one that goes through the copy change what they read. The same holds for anything selected with a mask or a list of positions.", "quantifier": "every object graph (with any amount of sharing), every copy or mask/list selection, every later program of selections, copies, constructions and writes", "why_tests_cant": "unbounded heaps and histories", "anchors": ["graphicle/data.py:MomentumArray.copy", "graphicle/data.py:ParticleSet.copy", "graphicle/data.py:Graphicle.copy", "graphicle/data.py:PdgArray.__getitem__"]}
{"id": "C153", "title": "Changing a selection does not change the array it came from", "statement": "Writing to `arr[key]` should not alter `arr`. This is false: a slice with step 1 (and an integer row of momenta, colours or edges) is a window on the same memory, and every write through one is seen through the other, at the corresponding records. It holds exactly for the other selections.", "quantifier": "every array class, every memory state, every integer, slice, mask or list key, every write", "why_tests_cant": "every key and history", "anchors": ["graphicle/data.py:PdgArray.__getitem__", "graphicle/data.py:MomentumArray.__getitem__", "graphicle/data.py:ColorArray.__getitem__"]}
{"id": "C154", "title": "All components of a selected ParticleSet behave alike", "statement": "After `p = particles[key]`, either all components of `p` share memory with those of `particles` or none does. This is false for integers: the momentum and colour of `particles[0]` are windows, the others are copies. Every component is tied to its original as if it had been subscripted on its own.", "quantifier": "every ParticleSet, memory state, key and write", "why_tests_cant": "every key and history", "anchors": ["graphicle/data.py:ParticleSet.__getitem__"]}
{"id": "C155", "title": "Building an object does not tie it to the caller's arrays", "statement": "`PdgArray(a)` (and the other classes) should own its records. This is false when `a` already has the dtype of the class and is row-contiguous: then each write through either is seen through the other. Otherwise the object is isolated from everything that existed before.", "quantifier": "every class, source array, memory state and write", "why_tests_cant": "every source and history", "anchors": ["graphicle/data.py:PdgArray", "graphicle/data.py:_array_field"]}
{"id": "C156", "title": "Graph quantities reflect the current edges", "statement": "`adj.roots`, `adj.leaves`, `adj.matrix` and the descendants of a vertex should describe the edges now in `adj`, like `adj.nodes` does. This is false after an edge is assigned: the connections are frozen at the first statement that needed them (weights are not), and the descendants of a vertex become those, in the frozen edges, of the vertex at which the first edge that now starts there started then. It holds for every history without an assignment after such a statement.", "quantifier": "every edge list and weights, every history of reads and assignments", "why_tests_cant": "every history", "anchors": ["graphicle/data.py:AdjacencyList.roots", "graphicle/data.py:AdjacencyList.leaves", "graphicle/data.py:AdjacencyList.matrix", "graphicle/data.py:AdjacencyList._sparse_signed", "graphicle/select.py:vertex_descendants"]}
{"id": "C157", "title": "Event shapes are collinear and infrared safe", "statement": "In exact arithmetic, replacing a particle by two particles sharing its three-momentum in any proportion changes no event shape (`c_parameter`, and the `thrust` and `spherocity` objective along every axis, gradients included), whatever their energies; inserting one particle of momentum k moves each of them by at most a constant times |k| over the event's total momentum.", "quantifier": "every event, every split fraction, every axis, every soft momentum", "why_tests_cant": "all real momenta and axes", "anchors": ["graphicle/calculate.py:c_parameter", "graphicle/calculate.py:thrust", "graphicle/calculate.py:spherocity", "graphicle/calculate.py:_thrust_with_grad", "graphicle/calculate.py:_spherocity_with_grad"]}
{"id": "C158", "title": "Event shapes depend only on angles and momentum fractions", "statement": "In exact arithmetic, turning or reflecting a whole event, or changing its units, leaves its `c_parameter`, its optimal thrust and its optimal spherocity unchanged; in particular `c_parameter` is unchanged by `shift_phi`.", "quantifier": "every event without null momenta, every similarity of space", "why_tests_cant": "all rotations, reflections and scales", "anchors": ["graphicle/calculate.py:c_parameter", "graphicle/calculate.py:thrust", "graphicle/calculate.py:spherocity", "graphicle/data.py:MomentumArray.shift_phi"]}
{"id": "C159", "title": "Combining particles never loses mass", "statement": "In exact arithmetic, for physical momenta (energy at least |p|) `combined_mass` of a set is at least the sum of the combined masses of the parts of any division of it, at least the sum of the particles' own `mass`, hence at least each of them, and equal to it for one particle; none is negative.", "quantifier": "every set of physical momenta, every division in two", "why_tests_cant": "all real momenta", "anchors": ["graphicle/calculate.py:combined_mass", "graphicle/data.py:MomentumArray.mass"]}
{"id": "C160", "title": "The coordinates rebuild the momentum", "statement": "In exact arithmetic, for a physical momentum away from the beam `(pt, phi, eta)` give back `(px, py, pz)` and `(mass_t, rapidity)` give back `(pz, energy)`; `theta` and `eta` determine each other; `mass_t**2 = mass**2 + pt**2`, `energy**2 = mass**2 + |p|**2`; rapidity has the sign of pseudorapidity, never exceeds it in size, and equals it exactly for massless or transverse particles.", "quantifier": "every physical momentum further than the zero tolerance from the beam", "why_tests_cant": "all real momenta", "anchors": ["graphicle/data.py:MomentumArray.pt", "graphicle/data.py:MomentumArray.eta", "graphicle/data.py:MomentumArray.phi", "graphicle/data.py:MomentumArray.theta", "graphicle/data.py:MomentumArray.mass", "graphicle/data.py:MomentumArray.mass_t", "graphicle/data.py:MomentumArray.rapidity"]}
{"id": "C161", "title": "Vertex labels carry no meaning", "statement": "Renaming the vertices of an event, keeping different vertices apart, changes no mask: `roots`, `leaves`, `vertex_descendants` (of the renamed vertex), the hard partons' descendants, the hierarchy (errors included), and, for generator-like events, the partition of hadrons and the clusters are identical; `hadron_vertices` and `find_vertex` list the renamed vertices.", "quantifier": "every event, every renaming that is injective on its vertices", "why_tests_cant": "all label choices and orders", "anchors": ["graphicle/data.py:AdjacencyList.roots", "graphicle/data.py:AdjacencyList.leaves", "graphicle/select.py:vertex_descendants", "graphicle/select.py:hard_descendants", "graphicle/select.py:hierarchy", "graphicle/select.py:partition_descendants", "graphicle/select.py:clusters", "graphicle/select.py:find_vertex", "graphicle/select.py:hadron_vertices"]}
{"id": "C162", "title": "The order of records carries no meaning", "statement": "Reordering the records of a graph (edges, and with them status and pdg codes) reorders the masks `roots`, `leaves`, `vertex_descendants` and `edge_descendants` in the same way, and leaves the lists returned by `hadron_vertices` and `find_vertex` unchanged.", "quantifier": "every edge list and every permutation of its records", "why_tests_cant": "all permutations", "anchors": ["graphicle/data.py:AdjacencyList.roots", "graphicle/data.py:AdjacencyList.leaves", "graphicle/select.py:vertex_descendants", "graphicle/select.py:edge_descendants", "graphicle/select.py:hadron_vertices", "graphicle/select.py:find_vertex"]}
{"id": "C163", "title": "Descendants of a descendant are descendants", "statement": "If record j is among the descendants of vertex v, then every descendant of the vertex where j ends is among those of v. This is false when nothing starts where j ends: then every record ending there is reported, whatever its origin. It holds when something starts there.", "quantifier": "every graph (cycles and parallel edges included), vertex and record", "why_tests_cant": "all graphs", "anchors": ["graphicle/select.py:vertex_descendants"]}
{"id": "C164", "title": "A subscript with two keys selects records", "statement": "Every record of `x[rows, columns]` should be a record of `x`. This is false: `pmu[:, 0]` on four particles is one momentum made of the four px, `adj[:, i]` pairs values of unrelated edges into edges, `pmu[:, ::-1]` permutes components, and two masks or lists are paired. It holds for `x[rows, :]`; one-column arrays raise IndexError. The outcome is described exactly for every kind of key pair.", "quantifier": "every momentum, edge, colour and one-column array, every pair of integer, slice, list or mask keys", "why_tests_cant": "all arrays and key pairs", "anchors": ["graphicle/data.py:MomentumArray.__getitem__", "graphicle/data.py:AdjacencyList.__getitem__", "graphicle/data.py:ColorArray.__getitem__", "graphicle/data.py:_array_field"]}
{"id": "C165", "title": "The printed tree of a mask group shows every mask once", "statement": "`str(group)` prints a line with the class and the agg_op, then one line per mask of the nested group: each key once, in depth-first insertion order, indented by its depth, with guides that say whether each ancestor has later siblings. Nested agg_ops are not shown.", "quantifier": "every well-formed mask group of any depth and width", "why_tests_cant": "all trees", "anchors": ["graphicle/data.py:MaskGroup.__rich__", "graphicle/data.py:MaskGroup.__str__"]}
{"id": "C166", "title": "to_dict aggregates the top level", "statement": "`group.to_dict()` has exactly the group's keys in order; each value is, record by record, the aggregation of the mask or group under that key. It does not depend on the group's own agg_op, and raises what the first failing entry's aggregation raises.", "quantifier": "every mask group whose entries can be aggregated", "why_tests_cant": "all trees and mask contents", "anchors": ["graphicle/data.py:MaskGroup.to_dict", "graphicle/data.py:MaskGroup.data"]}
{"id": "C167", "title": "A boost keeps energy above |pz| in doubles", "statement": "A particle with energy >= |pz| should still satisfy this after `shift_rapidity`, in double precision. This is false even when cosh and sinh are correctly rounded: a boost by 0.5 of pz = 63.60937499999999, E = 63.609375 gives |pz| > E, hence a negative mass. It holds when the boost opposes pz, and exactly when E = |pz|; otherwise |pz| exceeds E by a few roundings at most.", "quantifier": "every particle and shift with components up to 2**500", "why_tests_cant": "all doubles", "anchors": ["graphicle/data.py:MomentumArray.shift_rapidity", "graphicle/data.py:MomentumArray.mass"]}
{"id": "C168", "title": "Shifting by zero changes nothing", "statement": "`shift_rapidity(0.0)` and `shift_phi(0.0)` return the same momenta, as values, for all finite momenta. (Infinite ones: C191.)", "quantifier": "every finite double-precision momentum", "why_tests_cant": "all doubles", "anchors": ["graphicle/data.py:MomentumArray.shift_rapidity", "graphicle/data.py:MomentumArray.shift_phi"]}
{"id": "C169", "title": "Boosts and rotations are accurate in doubles", "statement": "In double precision `shift_rapidity` gives the energy and pz of the Lorentz boost, and `shift_phi` the px and py of the rotation, with an absolute error of at most k+3 units of rounding of the two terms added (k: the accuracy of the library's cosh, sinh, exp); the other two components are unchanged bit for bit.", "quantifier": "every momentum, shift and library accuracy with values up to 2**500", "why_tests_cant": "all doubles", "anchors": ["graphicle/data.py:MomentumArray.shift_rapidity", "graphicle/data.py:MomentumArray.shift_phi"]}
{"id": "C170", "title": "The order of the particles carries no meaning", "statement": "Listing the same particles in another order leaves `combined_mass` (weighted or not), `c_parameter`, `thrust`, `spherocity` and the weighted centroid unchanged, in exact arithmetic, and permutes the rows and columns of `delta_R` matrices, nearest-neighbour graphs (when no distances tie), distance-cut graphs and the entries of clustering coefficients accordingly.", "quantifier": "every set of particles, every weight and every reordering", "why_tests_cant": "all permutations of all inputs", "anchors": ["graphicle/calculate.py:combined_mass", "graphicle/calculate.py:c_parameter", "graphicle/calculate.py:thrust", "graphicle/calculate.py:spherocity", "graphicle/matrix.py:knn_adj", "graphicle/matrix.py:delta_R_aff", "graphicle/matrix.py:cluster_coeff"]}
{"id": "C171", "title": "Particle table properties line up with the codes", "statement": "`PdgArray.charge`, `isospin`, `g_parity`, `space_parity`, `charge_parity`, `mass` and `width` hold one entry per particle, in order, repeated codes included, each from that code's record in the particle table; if any code is absent from the table the property raises KeyError.", "quantifier": "every table and every sequence of codes", "why_tests_cant": "all tables and arrays", "anchors": ["graphicle/data.py:PdgArray.charge", "graphicle/data.py:PdgArray.mass", "graphicle/data.py:PdgArray.width", "graphicle/data.py:PdgArray.isospin"]}
{"id": "C172", "title": "Masses, widths and their bounds are the table's in GeV", "statement": "`PdgArray.mass`, `width`, `mass_bounds` and `width_bounds` are the table's MeV values divided by 1000, within three roundings (the nearest double: C192); missing values stay NaN, the order of two masses is preserved, and each bound is scaled exactly once so lower ends stay below upper ends.", "quantifier": "every table value, including subnormal numbers and NaN", "why_tests_cant": "all doubles", "anchors": ["graphicle/data.py:PdgArray.mass", "graphicle/data.py:PdgArray.mass_bounds", "graphicle/data.py:PdgArray.width_bounds"]}
{"id": "C173", "title": "Clustering coefficients in single precision are the link fractions", "statement": "`cluster_coeff_distbn` returns float32 numbers that are the fraction of linked pairs among each particle's neighbours to 2**-23, with exactly 1.0 and 0.0 just when all or none of the pairs are linked, as long as no particle has more than 2**24 linked ordered pairs of neighbours. (Denser: C187.)", "quantifier": "every graph of up to 2**26 particles without self links and at most 2**24 linked ordered pairs of neighbours per particle", "why_tests_cant": "all graphs", "anchors": ["graphicle/calculate.py:cluster_coeff_distbn", "graphicle/calculate.py:_clust_coeffs"]}
{"id": "C174", "title": "delta_R in double precision has an error of a few units, whatever the momenta", "statement": "The distance computed in double precision from two rapidities and two transverse momenta is the exact distance sqrt(dy^2 + dphi^2) of those same numbers up to (2k + 2) relative units of 2**-53 plus 4 absolute units, where k is the accuracy in units of the C library's hypot and atan2, for all rapidities up to 2**1000 and all transverse momenta with components up to 2**500 and magnitude at least 2**-500. Hence comparing it with a radius decides as the exact distance would, unless the exact distance is that close to the radius.", "quantifier": "all finite rapidities and transverse momenta in those ranges, all libraries accurate to k <= 1000 units, all radii", "why_tests_cant": "tests sample a few momenta; the bound is over all pairs of scales, cancellations and both sides of the cut at +-pi", "anchors": ["graphicle/calculate.py:delta_R", "graphicle/calculate.py:_delta_R", "graphicle/calculate.py:_delta_R_symmetric", "graphicle/calculate.py:cluster_coeff_distbn"]}
{"id": "C175", "title": "Distinct directions have a distance above zero", "statement": "Two particles whose transverse momenta point in different directions, or whose rapidities differ, have a computed delta_R above zero. True when the exact distance is at least 5 units (5 * 2**-53); FALSE below: at equal rapidity, the transverse momenta (1 + e, 1 + 2e) and (1 + 2e, 1 + 3e), e = 2**-52, are at distance exactly 0.0.", "quantifier": "all finite rapidities and transverse momenta in range", "why_tests_cant": "needs momenta whose cross product cancels below one unit in the last place", "anchors": ["graphicle/calculate.py:delta_R", "graphicle/calculate.py:_delta_R", "graphicle/calculate.py:_delta_R_symmetric"]}
{"id": "C176", "title": "The thrust objective is accurate in doubles", "statement": "The number computed by `thrust` at given angles is the textbook thrust along that axis up to (6 k + 5 n + 30) * 2**-53 for n particles and sin/cos accurate to k units, and is never negative; its gradient is that of minus the textbook thrust up to (6 k + 11 n + 45) * 2**-53 unless some particle is within rounding of orthogonal to the axis; with no particle, or one at rest, the call raises instead of returning NaN.", "quantifier": "all finite momenta of length between 2**-240 and 2**240, up to 524288 of them, all angles", "why_tests_cant": "a bound on accumulated rounding over all events and axes", "anchors": ["graphicle/calculate.py:_thrust_with_grad", "graphicle/calculate.py:thrust", "graphicle/calculate.py:_three_norm"]}
{"id": "C177", "title": "Reversing momenta changes no event shape, bit for bit", "statement": "Thrust and spherocity do not depend on the sense of any momentum: replacing any subset of the particles by the same ones with opposite three-momentum gives exactly the same computed thrust, and exactly the same computed spherocity and spherocity gradient, at every pair of angles (or the same ZeroDivisionError).", "quantifier": "all doubles including infinities, NaN and signed zeros; every subset of particles; every sin and cos", "why_tests_cant": "rounding is symmetric only if no operation treats signs differently; signed zeros make it fail for individual steps", "anchors": ["graphicle/calculate.py:_thrust_with_grad", "graphicle/calculate.py:_spherocity_with_grad", "graphicle/calculate.py:_three_norm"]}
{"id": "C178", "title": "divmod of particle codes and statuses", "statement": "divmod(x, y) on PdgArray or StatusArray gives, element by element, Python's floor quotient and remainder (nonzero divisor, no overflow), as two arrays of the class of x, for y an array of the same class, a plain array or a number. (Arrays of another class: C183.)", "quantifier": "all arrays of equal length, all integer values", "why_tests_cant": "signs of quotient and remainder for every combination of operands, and overflow", "anchors": ["graphicle/data.py:_array_ufunc", "graphicle/data.py:PdgArray", "graphicle/data.py:StatusArray"]}
{"id": "C179", "title": "Running results", "statement": "ufunc.accumulate on the array classes gives the running results (entry i combines the first i + 1 elements in order, component by component for MomentumArray), in the same class and of the same length.", "quantifier": "all arrays, all binary operations", "why_tests_cant": "holds for all operations and lengths", "anchors": ["graphicle/data.py:_array_ufunc", "graphicle/data.py:PdgArray", "graphicle/data.py:MomentumArray", "graphicle/data.py:MaskArray"]}
{"id": "C180", "title": "ufunc.at updates in place, once per occurrence", "statement": "np.ufunc.at(x, idx, v) combines each element of x with all the values aimed at it, in the order of idx, repeated and negative indices included, and changes nothing else; np.add.at on PdgArray gives the exact sums whenever they fit. One index out of range gives IndexError with nothing written.", "quantifier": "all arrays, all index sequences (with repetitions and negative values), all value sequences and scalars", "why_tests_cant": "quantifies over all index patterns; intermediate wrap-around must cancel for every order", "anchors": ["graphicle/data.py:_array_ufunc", "graphicle/data.py:PdgArray"]}
{"id": "C181", "title": "The spherocity objective is accurate in doubles", "statement": "The number computed by `spherocity` at given angles is the textbook spherocity along that axis up to (23 k + 13 n + 100) * 2**-53 for n particles and sin/cos accurate to k units, provided no particle is within rounding of the axis.", "quantifier": "all finite momenta of length between 2**-240 and 2**240, up to 524288 of them, all angles", "why_tests_cant": "a bound on accumulated rounding over all events and axes", "anchors": ["graphicle/calculate.py:_spherocity_with_grad", "graphicle/calculate.py:spherocity", "graphicle/calculate.py:_three_norm"]}
{"id": "C182", "title": "A computed thrust is at most 1", "statement": "The textbook thrust along any axis is at most 1, so users expect the computed one to be. This is false in doubles: one particle (0, 0, 49) and the axis along z give 1.0000000000000002. It exceeds 1 by at most (6 k + 5 n + 30) * 2**-53.", "quantifier": "all finite momenta of length between 2**-240 and 2**240, up to 524288 of them, all angles", "why_tests_cant": "the excess over 1 is one unit in the last place, for particular momenta", "anchors": ["graphicle/calculate.py:_thrust_with_grad", "graphicle/calculate.py:thrust", "graphicle/calculate.py:_three_norm"]}
{"id": "C183", "title": "divmod of codes by statuses", "statement": "divmod(x, y) with x a PdgArray and y a StatusArray (or the reverse) gives the quotients and remainders of their numbers. This is false: the results are passed through the class of y first and silently cut to its 16 bits: divmod(PdgArray([100000]), StatusArray([1])) gives -31072. It holds while quotient and remainder fit the smaller class.", "quantifier": "all arrays of equal length, all integer values", "why_tests_cant": "the wrong answers need a quotient above 32767 and a particular combination of classes", "anchors": ["graphicle/data.py:_array_ufunc", "graphicle/data.py:PdgArray", "graphicle/data.py:StatusArray"]}
{"id": "C184", "title": "Tables of pairs", "statement": "ufunc.outer(x, y) gives the table of f(x[i], y[j]). This is false: for two or more columns the call raises ValueError, because the table is forced into the one-dimensional class; for one column the result is flat.", "quantifier": "all arrays, all binary operations and comparisons", "why_tests_cant": "outer fails for every pair of arrays with more than one column", "anchors": ["graphicle/data.py:_array_ufunc", "graphicle/data.py:PdgArray"]}
{"id": "C185", "title": "The spherocity objective is defined along every axis", "statement": "The spherocity along an axis is defined whatever the axis. This is false of the computation: on an axis exactly along any one of the particles it raises ZeroDivisionError (it divides by |p x n| for the gradient). It is defined, and finite, when no particle is within rounding of the axis.", "quantifier": "all events, all axes", "why_tests_cant": "needs an axis exactly along a particle", "anchors": ["graphicle/calculate.py:_spherocity_with_grad", "graphicle/calculate.py:spherocity"]}
{"id": "C186", "title": "The C-parameter is accurate in doubles", "statement": "c_parameter of n moving particles agrees with the textbook value up to (200 + 20 n^2) * 2**-53; without particles, or with a particle at rest anywhere among them, the call raises instead of returning NaN.", "quantifier": "all finite momenta of length between 2**-240 and 2**240, up to 524288 of them", "why_tests_cant": "a bound on accumulated rounding over all events", "anchors": ["graphicle/calculate.py:c_parameter", "graphicle/calculate.py:_c_parameter", "graphicle/calculate.py:_three_norm"]}
{"id": "C187", "title": "Clustering coefficients of dense neighbourhoods", "statement": "The clustering coefficient of a particle whose neighbours have more than 2**24 linked ordered pairs is the link fraction up to rounding. This is false: the links are counted in float32 and the count stops at 16777216, so the coefficient is 2**24 / pairs: 10000 particles all within the radius of one another get 0.168 instead of 1.", "quantifier": "every graph of up to 2**26 particles without self links", "why_tests_cant": "all graphs; the failure needs thousands of particles", "anchors": ["graphicle/calculate.py:cluster_coeff_distbn", "graphicle/calculate.py:_clust_coeffs"]}
{"id": "C188", "title": "Indexing one colour gives a one-particle ColorArray", "statement": "`color[i]` for an in-range integer i is a ColorArray of length 1. This is false: it is flat, and its length is 2.", "quantifier": "every ColorArray and every integer index", "why_tests_cant": "tests never index a ColorArray with an integer", "anchors": ["graphicle/data.py:ColorArray.__getitem__", "graphicle/data.py:ColorArray.__len__"]}
{"id": "C189", "title": "copy and subscripts keep edge weights", "statement": "`copy()` and subscripts of a Graphicle keep the weights of the edges. This is false: AdjacencyList.copy and AdjacencyList.__getitem__ always drop them.", "quantifier": "every graph", "why_tests_cant": "no test uses weights", "anchors": ["graphicle/data.py:_composite_copy", "graphicle/data.py:AdjacencyList.copy", "graphicle/data.py:AdjacencyList.__getitem__"]}
{"id": "C190", "title": "Ordering comparisons of momentum and colour arrays give masks", "statement": "`pmu > 0.0` gives a mask. This is false: every ordering comparison of a non-empty momentum or colour array with a number raises ValueError.", "quantifier": "every comparison, array and number", "why_tests_cant": "all arrays", "anchors": ["graphicle/data.py:_array_ufunc"]}
{"id": "C191", "title": "Shifting by zero keeps infinite momenta", "statement": "`shift_rapidity(0.0)` and `shift_phi(0.0)` return the same momenta also when components are infinite. This is false: an infinite energy turns pz into NaN and vice versa, and likewise px and py.", "quantifier": "every double-precision momentum with an infinite component", "why_tests_cant": "all doubles", "anchors": ["graphicle/data.py:MomentumArray.shift_rapidity", "graphicle/data.py:MomentumArray.shift_phi"]}
{"id": "C192", "title": "Masses in GeV are the nearest doubles", "statement": "`PdgArray.mass` is the nearest double to the table's MeV value divided by 1000. This is false (9 MeV reads as 0.009000000000000001), because the code multiplies by the double nearest to 0.001.", "quantifier": "every table value", "why_tests_cant": "all doubles", "anchors": ["graphicle/data.py:PdgArray.mass"]}
{"id": "C193", "title": "combined_mass of one particle is its mass", "statement": "combined_mass of a single momentum agrees with pmu.mass up to a few rounding errors. This is false near the light cone, where combined_mass loses a quarter of the mass.", "quantifier": "every time-like momentum", "why_tests_cant": "all 64-bit floats", "anchors": ["graphicle/calculate.py:combined_mass", "graphicle/data.py:MomentumArray.mass"]}
{"id": "C194", "title": "partitioning the hierarchy of an event by nearest parton", "statement": "For a well-formed event, partition_descendants(graph, hierarchy(graph)) succeeds for every weighting; the result has the same names and nesting as the hierarchy; a final hadron of a vertex fed by a childless parton is in that parton's latent leaf exactly when the nearest particle entering the vertex stems from it, and every other final hadron keeps the place the hierarchy gave it.", "quantifier": "every well-formed event, every weighting, every final hadron", "why_tests_cant": "all event graphs", "anchors": ["graphicle/select.py:partition_descendants", "graphicle/select.py:hierarchy"]}
{"id": "C195", "title": "combined_mass of many particles in floating point", "statement": "combined_mass of n+1 momenta held in doubles returns a finite non-negative number whose square differs from the exact invariant mass squared by at most (3n+8) rounding units of the sum of the squared absolute sums, in whatever order the sums are taken; for physical particles (E at least |p|) by at most (6n+16) rounding units of the squared total energy.", "quantifier": "every finite list of finite doubles, every summation order", "why_tests_cant": "all 64-bit floats and all summation trees", "anchors": ["graphicle/calculate.py:combined_mass", "graphicle/data.py:MomentumArray.mass"]}
{"id": "C196", "title": "azimuth gradient of the spherocity objective in floating point", "statement": "If sin and cos are accurate to k units (k at most 10) and no particle's direction is closer to the axis than an angle of sine delta, the azimuthal gradient component that the spherocity objective hands to the optimiser is finite and within (230k + 85n + 900) u / delta^2 of the true derivative of the objective with respect to the azimuth, for n particles of moderate size.", "quantifier": "every list of up to 524288 moderate momenta in doubles, every pair of angles, every accurate sin and cos", "why_tests_cant": "all 64-bit floats", "anchors": ["graphicle/calculate.py:_spherocity_with_grad", "graphicle/calculate.py:spherocity"]}
{"id": "C197", "title": "inclination gradient of the spherocity objective in floating point", "statement": "Under the same hypotheses the inclination component is finite and within the same distance of the true derivative less the defect of the code's formula (2 f^2 S cos(2 theta) cos(phi) sum of x(y-z)/|p x n|): rounding adds nothing else.", "quantifier": "every list of up to 524288 moderate momenta in doubles, every pair of angles, every accurate sin and cos", "why_tests_cant": "all 64-bit floats", "anchors": ["graphicle/calculate.py:_spherocity_with_grad", "graphicle/calculate.py:spherocity"]}
{"id": "C198", "title": "combined_mass never fails on finite momenta", "statement": "combined_mass of any collection of finite momenta returns a finite, non-negative number, never NaN or infinity, whatever the size of the momenta and whatever the order of the additions; overflow warnings and negative squares included.", "quantifier": "every list of finite doubles, every summation order", "why_tests_cant": "all 64-bit floats and all summation trees", "anchors": ["graphicle/calculate.py:combined_mass"]}
{"id": "C199", "title": "combined_mass is right at every magnitude", "statement": "combined_mass approximates the invariant mass of the summed momentum however large the momenta are. This is false: as soon as one component of the sum reaches 2^512 its square overflows, the warning is caught as if the squared mass were negative, and 0.0 is returned.", "quantifier": "every list of finite doubles", "why_tests_cant": "all 64-bit floats", "anchors": ["graphicle/calculate.py:combined_mass"]}
{"id": "C200", "title": "rotation matrices in floating point", "statement": "If sin and cos are accurate to k rounding units (k at most 10), the matrix returned by rotation_matrix consists of finite numbers, maps each basis vector to within (28k+64) rounding units of its image under the exact rotation by the given angle about the given axis, and changes the length of any vector by at most a relative 6(28k+64) rounding units.", "quantifier": "every angle and axis in doubles, every accurate sin and cos, every order of the additions of the matrix product, with or without fused multiply-add", "why_tests_cant": "all 64-bit floats, all BLAS kernels", "anchors": ["graphicle/transform.py:rotation_matrix"]}
{"id": "C201", "title": "splitting a momentum in floating point", "statement": "For a finite parent of moderate size and a fraction z of size at most one, the first child returned by split_momentum is finite, its energy is the rounded product of z and the parent's, and its momentum is within (84k+208) rounding units of the exactly rotated fraction of the parent. The two children add up to the parent, component by component, to within one rounding unit of the second child.", "quantifier": "every moderate parent, every z, every angle and axis in doubles, every accurate sin and cos", "why_tests_cant": "all 64-bit floats, all BLAS kernels", "anchors": ["graphicle/transform.py:split_momentum", "graphicle/transform.py:rotation_matrix"]}
{"id": "C202", "title": "a split by the angle zero is exactly collinear", "statement": "When the sine of the angle is zero and its cosine one, rotation_matrix returns exactly the identity whatever the axis, and split_momentum's first child is exactly the correctly rounded fraction z of each component of the parent, and the second the correctly rounded rest.", "quantifier": "every parent, every z, every axis in doubles", "why_tests_cant": "all 64-bit floats, all BLAS kernels", "anchors": ["graphicle/transform.py:split_momentum", "graphicle/transform.py:rotation_matrix"]}
{"id": "C203", "title": "the weighted centroid in floating point", "statement": "The centroid returned for n coordinates of size at most B with non-negative weights of moderate sum is finite and within 3 n rounding units of B of the exact weighted mean, in whatever order the sums are taken.", "quantifier": "every list of up to 1048576 coordinates and weights in doubles, every summation order", "why_tests_cant": "all 64-bit floats and all summation trees", "anchors": ["graphicle/calculate.py:weighted_centroid"]}
{"id": "C204", "title": "the centroid of one particle is that particle", "statement": "weighted_centroid of a single particle returns its own coordinate, so a centroid never lies outside the range of the coordinates. This is false: multiplying by the weight and dividing again may move the last bit, so a single particle of pT 3 may have a centroid larger than its rapidity.", "quantifier": "every coordinate and weight in doubles", "why_tests_cant": "all 64-bit floats", "anchors": ["graphicle/calculate.py:weighted_centroid"]}
{"id": "C205", "title": "partitioning again forgets the earlier partition", "statement": "Calling partition_descendants on a hierarchy that was already partitioned, with whatever other exponent, returns the same as calling it on the original hierarchy; with the same exponent it changes nothing.", "quantifier": "every event record, every hierarchy, every pair of exponents", "why_tests_cant": "all graphs, nestings and momenta", "anchors": ["graphicle/select.py:partition_descendants", "graphicle/select.py:_partition_vertex"]}
{"id": "C206", "title": "each hadron goes to the parton at the least weighted distance", "statement": "After partition_descendants(graph, hier, pt_exp), a final hadron of a vertex is in a leaf that had a parton ending there exactly if the leaf had the parton that minimises pT^pt_exp times the distance in pseudorapidity and azimuth to the hadron, the first of them on ties; that distance is the entry of parton_hadron_distance, is the plain distance for exponent 0, and may be infinite.", "quantifier": "every event record, hierarchy, exponent and list of momenta, including hadrons along the beam", "why_tests_cant": "all graphs and real momenta", "anchors": ["graphicle/select.py:partition_descendants", "graphicle/matrix.py:parton_hadron_distance"]}
{"id": "C207", "title": "a negative exponent makes the partition infrared safe", "statement": "For pt_exp < 0 there is, for every hadron and every parton at a finite distance, a pT below which no parton further than r from the hadron's axis claims the hadron; the exception is a parton exactly on the axis, which claims it at any pT if it comes first.", "quantifier": "every event, every negative exponent, every r > 0", "why_tests_cant": "a limit over all real momenta", "anchors": ["graphicle/select.py:partition_descendants", "graphicle/matrix.py:parton_hadron_distance"]}
{"id": "C208", "title": "Partitioning does not depend on the order of the records", "statement": "Write the same event with its particle records in another order (edges, status codes, final flags, momenta and the hierarchy's masks permuted alike). If no two partons at a hadronisation vertex are equally far from a hadron, `partition_descendants` gives the same hierarchy with its masks permuted in that way.", "quantifier": "every event, hierarchy, distance and permutation of the records", "why_tests_cant": "all events and all permutations", "anchors": ["graphicle/select.py:partition_descendants"]}
{"id": "C209", "title": "Which hadrons a hard parton owns does not depend on the order of the records", "statement": "If the hard partons of an event have different names, `hard_descendants` on the event with its records in another order returns the same names, and under each name the same particles.", "quantifier": "every event with distinct hard-parton names, every permutation of the records", "why_tests_cant": "all events and all permutations", "anchors": ["graphicle/select.py:hard_descendants"]}
{"id": "C210", "title": "The nesting of the hierarchy does not depend on the order of the records", "statement": "If the hard partons have different names and no two hard ancestors of a parton have equally many hard descendants, `hierarchy` on the event with its records in another order has the same names at the same places, and (when every final particle has an end vertex of its own) every group below the root covers the same particles.", "quantifier": "every such event, every permutation of the records, every path in the hierarchy", "why_tests_cant": "all events and all permutations", "anchors": ["graphicle/select.py:hierarchy"]}
{"id": "C211", "title": "The partition depends on distances only through their order", "statement": "Two distance strategies (of any kind, on any representation of the particles) that compare the partons at each hadronisation vertex alike as seen from each of its hadrons give the same result of `partition_descendants`, whatever their values.", "quantifier": "every event, hierarchy and pair of strategies", "why_tests_cant": "all events and strategies", "anchors": ["graphicle/select.py:partition_descendants"]}
{"id": "C212", "title": "Turning or rescaling the event does not change the partition", "statement": "`partition_descendants` with the default strategy and any exponent gives the same hierarchy after `shift_phi` of all momenta by any angle, after multiplying all momenta by a common positive factor, and after multiplying each hadron's momentum by a positive factor of its own.", "quantifier": "every event, exponent, angle and factor", "why_tests_cant": "all real momenta", "anchors": ["graphicle/select.py:partition_descendants", "graphicle/matrix.py:parton_hadron_distance", "graphicle/data.py:MomentumArray.shift_phi"]}
{"id": "C213", "title": "Boosting the event along the beam does not change the partition", "statement": "`partition_descendants` with the default strategy should give the same hierarchy after `shift_rapidity` of all momenta. This is false: the strategy uses the pseudorapidity, which massive hadrons and massless partons shift differently, and a hadron can change to another parton. It holds when all particles are massless.", "quantifier": "every event of physical momenta, exponent and boost", "why_tests_cant": "all real momenta", "anchors": ["graphicle/select.py:partition_descendants", "graphicle/matrix.py:parton_hadron_distance", "graphicle/data.py:MomentumArray.shift_rapidity"]}
{"id": "C214", "title": "Rounding moves a hadron to another parton only in near ties", "statement": "With power, hypot and atan2 accurate to k units in the last place, every entry of `parton_hadron_distance` computed in doubles from stored pt, eta and transverse momentum is within w((3k+4)d+5)2^-53 of the true w*d (weight times distance), and `partition_descendants` gives a hadron to the truly nearest parton whenever the true distances of the others exceed its own by more than the two bounds.", "quantifier": "every event with coordinates in range, every exponent, every such library", "why_tests_cant": "all doubles", "anchors": ["graphicle/select.py:partition_descendants", "graphicle/matrix.py:parton_hadron_distance"]}
{"id": "C215", "title": "Pseudorapidities in doubles are the true ones to a few units", "statement": "`MomentumArray.eta` of a particle with momentum components up to 2^500, at least 2^-500 away from the beam axis and not so close to it that (3k+2) u p^2/pT^2 exceeds 1/8, is finite, and differs from the exact pseudorapidity by at most (3k+2) u (|pz|/|p| + 2^-1022) p^2/pT^2 + k u (|eta| + 2^-1022), where the C library's hypot and arctanh are accurate to k units (u = 2^-53).", "quantifier": "every momentum in that range, every hypot and arctanh accurate to k units, 1 <= k <= 1000", "why_tests_cant": "The error depends on the direction; tests see a few directions on one C library.", "anchors": ["graphicle/data.py: MomentumArray.eta"]}
{"id": "C216", "title": "delta_R from momenta in doubles", "statement": "`MomentumArray.delta_R` with pseudo=True, computed in doubles from the momenta of two particles (each as in C215), is finite and differs from the exact distance of their pseudorapidities and azimuths by at most (2k+2) units of it plus 4 units absolute plus 1.01 times the errors of the two pseudorapidities.", "quantifier": "every pair of momenta in that range, every hypot, atan2 and arctanh accurate to k units, 1 <= k <= 1000", "why_tests_cant": "Two chains of rounding errors meet; tests compare a few pairs with a tolerance.", "anchors": ["graphicle/data.py: MomentumArray.delta_R, MomentumArray.eta", "graphicle/calculate.py: _delta_R"]}
{"id": "C217", "title": "The text of an array is numpy's text, aligned", "statement": "repr() of every array class and of AdjacencyList is the class name, an opening parenthesis, numpy's text of the data, the dtype and a closing parenthesis. One line of data stays one line; several lines keep their order and all start in the column after the parenthesis, with the dtype on a last line in that column. Nothing is lost: for one class and dtype, equal reprs mean equal numpy texts.", "quantifier": "every class name, every numpy text of the data (any number of lines) and every dtype text on one line", "why_tests_cant": "Tests see a few short arrays; the layout must hold for every text numpy prints.", "anchors": ["graphicle/data.py: _array_repr, __repr__ of the array classes"]}
{"id": "C218", "title": "Candidates of equal pT raise ZeroDivisionError in doubles too", "statement": "arg_closest of candidates that all have the same transverse momentum raises ZeroDivisionError (C91), however many there are. This is false in doubles: for three candidates with pT 0.1 the rounded mean is not 0.1, whatever the order of the additions, so the variance is not zero and nothing is raised. One candidate, or two of equal pT, raise.", "quantifier": "every kernel of library functions, every momenta of the other objects, every order of the sums", "why_tests_cant": "The outcome depends on rounding in a mean whose additions may be reordered by threads.", "anchors": ["graphicle/calculate.py: _assignment_cost", "graphicle/select.py: arg_closest"]}
{"id": "C219", "title": "Assignment costs in doubles are numbers between 0 and 2, in the right order", "statement": "When distances and pT differences are finite and the variances are at least 2^-1022, every entry of the cost matrix of arg_closest is a finite number between 0 and 2 (overflowing exponents included); in one row, a candidate that is no further in the plane and no further in pT never costs more; a candidate at distance 0 with equal pT costs 0.", "quantifier": "every list of rapidities and transverse momenta, every order of the sums, every hypot and atan2, every expm1 that is monotone with values in [-1, 0]", "why_tests_cant": "Products may overflow or underflow at intermediate steps; tests use moderate numbers.", "anchors": ["graphicle/calculate.py: _assignment_cost"]}
{"id": "C220", "title": "Any non-zero spread of the candidates is enough for arg_closest", "statement": "With finite momenta and non-zero variances of the distances and of the pTs, the cost matrix holds numbers only. This is false in doubles: a variance below 2^-1024 has an infinite reciprocal, and a candidate at distance zero then gets NaN, which scipy rejects. Variances of at least 2^-1022 are enough.", "quantifier": "every list of rapidities and transverse momenta (partial); a witness with distances 0 and 2^-512 (refutation)", "why_tests_cant": "Needs the extremes of the floating point range.", "anchors": ["graphicle/calculate.py: _assignment_cost", "graphicle/select.py: arg_closest"]}
{"id": "C221", "title": "The computed rapidity is accurate to a few units for every time-like particle", "statement": "Given a log accurate to k units in the last place, the rapidity computed in doubles is finite and differs from the exact rapidity y of the stored energy and longitudinal momentum by at most ((k + 2)|y| + 2) units of 2^-53, whatever the particle's speed, as long as E - |pz| exceeds the tolerance.", "quantifier": "every finite energy up to 2^500 and longitudinal momentum with the rounded E - |pz| above a tolerance of at least 2^-100; every log accurate to 1 <= k <= 1000 units", "why_tests_cant": "Rounding error over all inputs, including particles at nearly the speed of light where E - |pz| cancels.", "anchors": ["graphicle/calculate.py: rapidity", "graphicle/data.py: MomentumArray.rapidity"]}
{"id": "C222", "title": "delta_R with pseudo=False is accurate from the momenta", "statement": "Computed in doubles from the stored momenta, the rapidity-azimuth distance differs from the exact one by at most ((2k+2) exact + 4) units plus 1.01 times the two rapidity errors.", "quantifier": "every pair of finite momenta with usable transverse parts and time-like (E,pz); every hypot, atan2 and log accurate to k units", "why_tests_cant": "Rounding error of a chain of six library calls over all inputs.", "anchors": ["graphicle/data.py: MomentumArray.delta_R", "graphicle/calculate.py: rapidity", "graphicle/calculate.py: azimuth"]}
{"id": "C223", "title": "from_spherical_uniform keeps energy and momentum consistent in doubles", "statement": "In doubles every generated row has finite components, exactly the drawn energy, and a squared momentum equal to E^2 - m^2 to within 11k + 60 units of it, where m is the drawn mass or, for a massless row, zero; massless outside [0, 1], NaN or infinite is a ValueError and nothing else is.", "quantifier": "every list of draws with energy in [2^-400, 2^400], mass in [0, energy]; every massless; every exponential accurate to k <= 10 units", "why_tests_cant": "Random sampling only visits a few values; the bound is over all draws and all library exponentials.", "anchors": ["graphicle/data.py: MomentumArray.from_spherical_uniform", "graphicle/calculate.py: _root_diff_two_squares"]}
{"id": "C224", "title": "The mass reported for generated particles", "statement": "The signed square of the mass the library computes for a generated row is the square of the drawn mass to within 11k + 100 units of the squared energy; with massless=1 the reported mass is below a five-millionth of the energy.", "quantifier": "every list of draws; every massless in [0, 1]", "why_tests_cant": "The documentation only says 'small, but finite'; a bound needs all draws.", "anchors": ["graphicle/data.py: MomentumArray.from_spherical_uniform", "graphicle/data.py: MomentumArray.mass"]}
{"id": "C225", "title": "Pruning depends on the particles only, not on how the event is turned or listed", "statement": "centroid_prune keeps the same particles when the whole event is rotated about the beam (with the default centre, or with a given centre rotated along); listing the particles, and the mask, in another order lists the answer in that order; a larger radius keeps every particle a smaller one keeps.", "quantifier": "every list of momenta, rotation angle, radius, mask, centre and permutation", "why_tests_cant": "Invariance over all events, angles and permutations.", "anchors": ["graphicle/select.py: centroid_prune", "graphicle/data.py: MomentumArray.shift_phi"]}
{"id": "C226", "title": "Pruning massless particles is the same in every frame along the beam", "statement": "Boosting an event of massless particles along the beam keeps centroid_prune's answer. True for a centre given by hand and moved along; false for the default centre, which is the pseudorapidity of the summed (massive) momentum.", "quantifier": "every list of massless momenta and boost (partial); two particles (refutation)", "why_tests_cant": "Concerns all boosts.", "anchors": ["graphicle/select.py: centroid_prune", "graphicle/calculate.py: resultant_coords", "graphicle/data.py: MomentumArray.shift_rapidity"]}
{"id": "C227", "title": "Aggregated momenta move with the event", "statement": "aggregate_momenta of a boosted (rotated) event is the boosted (rotated) aggregate, and it raises exactly when it did on the original event.", "quantifier": "every list of momenta, boost or angle, and list of masks", "why_tests_cant": "Over all events and frames.", "anchors": ["graphicle/calculate.py: aggregate_momenta", "graphicle/data.py: MomentumArray.shift_rapidity", "graphicle/data.py: MomentumArray.shift_phi"]}
{"id": "C228", "title": "Rounding changes who is pruned only for near ties of the radius", "statement": "centroid_prune with a given centre, run on doubles, returns a mask of the event's length, False off the given mask; on it, every particle whose exact distance is below the radius by more than the stated error is True and every one above by more than it is False, whether or not numpy fuses multiplications and additions. The error is a few units of the distance, a few units absolute, and the unavoidable error of the pseudorapidity.", "quantifier": "every list of momenta (finite components up to 2^500, not too close to the beam), centre, radius, mask, and library routines accurate to k units", "why_tests_cant": "Error bound over all doubles, library routines and instruction choices.", "anchors": ["graphicle/select.py: centroid_prune", "graphicle/data.py: MomentumArray.eta"]}
{"id": "C229", "title": "From momenta to the graph of near particles", "statement": "cut_adj(delta_R_aff(pmu), r) turned into an AdjacencyList has an edge between two different particles exactly when their (eta, phi) distance is below r; edges are listed row by row, each once, every edge comes with its reverse, nothing is linked to itself; the graph does not change when the event is turned about the beam, nor when an event of massless particles is boosted along it.", "quantifier": "every list of momenta off the beam axis, every radius", "why_tests_cant": "The edge set must be right for every event and radius.", "anchors": ["graphicle/matrix.py: delta_R_aff, cut_adj", "graphicle/data.py: AdjacencyList.from_matrix, MomentumArray.shift_phi, MomentumArray.shift_rapidity"]}
{"id": "C230", "title": "From momenta to the graph of nearest neighbours", "statement": "knn_adj(delta_R_aff(pmu), k) turned into an AdjacencyList gives every particle exactly k incoming edges, from k other particles such that none left out is nearer; nothing is linked to itself.", "quantifier": "every list of momenta with distinct directions off the beam axis, every k with more than k + 1 particles, every admissible partial sort", "why_tests_cant": "Must hold for every event and every choice the partial sort makes.", "anchors": ["graphicle/matrix.py: delta_R_aff, knn_adj", "graphicle/data.py: AdjacencyList.from_matrix"]}
{"id": "C231", "title": "Cutting and choosing neighbours in doubles is exact", "statement": "cut_adj and knn_adj run on a matrix of doubles return exactly what they would return on the numbers the doubles stand for, with infinities and NaN included; knn_adj always returns a result or an exception.", "quantifier": "every matrix of doubles, cut, mode, flags, k", "why_tests_cant": "All doubles, including signed zeros, infinities and NaN.", "anchors": ["graphicle/matrix.py: cut_adj, knn_adj"]}
{"id": "C232", "title": "The graph of near particles in doubles", "statement": "Run on doubles, the steps of C229 succeed and give a graph without self loops, each edge listed once and with its reverse; two particles are linked exactly when their exact distance is below the radius, unless it is within the stated rounding error of it; if no pair is that near a tie, the graph is the exact one.", "quantifier": "every list of momenta (finite components up to 2^500, not too close to the beam), every radius, library routines accurate to k units", "why_tests_cant": "Error bound over all doubles and library routines.", "anchors": ["graphicle/matrix.py: delta_R_aff, cut_adj", "graphicle/data.py: MomentumArray.delta_R, AdjacencyList.from_matrix"]}
{"id": "C233", "title": "The graph of nearest neighbours in doubles", "statement": "Run on doubles, the steps of C230 give every particle exactly k incoming edges from other particles, none further than a particle left out by more than the stated rounding errors.", "quantifier": "every list of momenta as in C232 whose distances exceed the rounding error, every k with more than k + 1 particles, every admissible partial sort", "why_tests_cant": "Error bound over all doubles, library routines and partial sorts.", "anchors": ["graphicle/matrix.py: delta_R_aff, knn_adj", "graphicle/data.py: MomentumArray.delta_R, AdjacencyList.from_matrix"]}
{"id": "C234", "title": "Clustering coefficients from momenta, in the arithmetic the code uses", "statement": "cluster_coeff_distbn run on doubles returns one number per particle, a finite single-precision number between 0 and 1, within 2^-23 of the exact clustering coefficient of the exact graph of near particles, and equal to 1 or to 0 exactly when the exact coefficient is.", "quantifier": "every list of at most 4096 momenta (finite components up to 2^500, not too close to the beam), every radius from which no exact distance is within the stated rounding error, library routines accurate to k units", "why_tests_cant": "Error bound over all doubles and library routines.", "anchors": ["graphicle/calculate.py: cluster_coeff_distbn", "graphicle/data.py: MomentumArray.delta_R"]}
{"id": "C235", "title": "The variance of doubles", "statement": "The variance the assignment cost computes from n doubles is a finite number, off from the exact variance by at most 6 n u M s, with M the largest magnitude and s the exact standard deviation, whatever order the additions are made in.", "quantifier": "every non-empty list of finite doubles with largest magnitude between 2^-400 and 2^400 and 1000 n u M <= s, every order of additions", "why_tests_cant": "Error bound over all doubles and every summation order the threads may choose.", "anchors": ["graphicle/calculate.py: _assignment_cost"]}
{"id": "C236", "title": "The assignment costs in doubles are near the exact ones", "statement": "When distances and transverse momenta are spread out (standard deviations at least the rho-th part of their bounds), the cost computation succeeds and every entry is a finite double within (38 n + 16 k + 27) rho u of the exact cost 2 - exp(-d^2/2 var_d) - exp(-dpt^2/2 var_pt).", "quantifier": "all lists of n candidates and any number of focal objects in doubles, every order of additions, library routines accurate to k units, 100000 (n + k + 1) rho u <= 1", "why_tests_cant": "Error bound over all doubles, library routines and summation orders.", "anchors": ["graphicle/calculate.py: _assignment_cost, arg_closest", "graphicle/data.py: _delta_R"]}
{"id": "C237", "title": "The computed assignment is nearly the best one", "statement": "A cheapest matching of the computed costs has an exact total cost within 2 min(n1, n2) (38 n + 16 k + 27) rho u of the exact minimum; if every other matching costs more than the exact best by that margin, it is the exact best matching.", "quantifier": "all inputs of C236, every cheapest matching of the computed costs", "why_tests_cant": "A statement about every matching, over all doubles.", "anchors": ["graphicle/calculate.py: arg_closest, _assignment_cost"]}
{"id": "C238", "title": "arg_closest from momenta, in the arithmetic the code uses", "statement": "arg_closest run on doubles returns one index per focus object, all different and in range, and the exact total cost of that assignment (exact rapidities, azimuths and transverse momenta) exceeds the least possible over all assignments by at most 2 n1 (38 n2 + 16 k + 42) rho u.", "quantifier": "all lists of n1 focus and n2 >= n1 candidate momenta in range (E above |pz| by more than the tolerance, transverse part not too small), distances and transverse momenta spread out (standard deviations at least the rho-th part of their bounds), 100000 (n2 + k + 1) rho u <= 1, library routines accurate to k units, every order of additions, every cheapest matching of the computed costs", "why_tests_cant": "A statement about every assignment, over all doubles, library routines and summation orders.", "anchors": ["graphicle/select.py: arg_closest", "graphicle/calculate.py: _assignment_cost, _rapidity, _delta_R", "graphicle/data.py: MomentumArray.rapidity"]}
{"id": "C239", "title": "The partition from momenta, in the arithmetic the code uses", "statement": "Every entry of parton_hadron_distance computed in doubles from the momenta is finite and within w ((((4 k + 2 k |e| + 5) d + 6) 2^-53) + 1.02 (eta errors)) of the exact weight pt^e times the exact distance d, and partition_descendants run on doubles gives a hadron to the parton that is truly nearest whenever the exact weighted distances of the others exceed its own by more than the two bounds; hadrons of no selected vertex keep their flags.", "quantifier": "every event, hierarchy and exponent (4000 k |e| 2^-53 <= 1), momenta in range and not so close to the beam that rounding hides pt, weights between 2^-499 and 2^499, library routines accurate to k units", "why_tests_cant": "A statement about all doubles, event graphs and library routines.", "anchors": ["graphicle/select.py: partition_descendants", "graphicle/matrix.py: parton_hadron_distance", "graphicle/data.py: MomentumArray.pt, eta, delta_R"]}
{"id": "C240", "title": "What soft_hard_axis returns, in the arithmetic the code uses", "statement": "soft_hard_axis of a non-empty event returns two finite doubles, which are to k units of rounding the elevation above the transverse plane and the azimuth of a vector within (3k+4) 2^-53 |s||h| (per component) of the exact cross product s x h, where s and h are the softest and hardest particles up to a relative 3k 2^-53. When |s||h| <= rho |s x h| the axis they point along is orthogonal to s and to h within (40k+30) rho 2^-53.", "quantifier": "every non-empty event with components below 2^500 and transverse momenta above 2^-500, and all library routines accurate to k <= 1000 units", "why_tests_cant": "A statement about all lists of doubles and all hypot and atan2.", "anchors": ["graphicle/transform.py: soft_hard_axis, _axis_to_angles", "graphicle/data.py: MomentumArray.pt"]}
{"id": "C241", "title": "Splitting the hardest particle, in the arithmetic the code uses", "statement": "split_hardest raises ValueError for a fraction outside (0, 1/2] (NaN and infinities included), for fewer than two particles without an axis, and for no particles. Otherwise it removes one particle that is hardest up to a relative 3k 2^-53, leaves every other one bit for bit and in order, and appends two children: the first is z times the hardest, rotated about the given axis (or the one of soft_hard_axis) within (84k+208) 2^-53 z|h|, its energy correctly rounded; the two add up to the hardest within 2^-53 times the second child's components.", "quantifier": "every non-empty event in range, every fraction from 2^-400, angle and axis of finite doubles, every order of summation in BLAS, routines accurate to k <= 10 units", "why_tests_cant": "A statement about all lists of doubles, angles and summation orders.", "anchors": ["graphicle/transform.py: split_hardest, split_momentum, soft_hard_axis"]}
{"id": "C242", "title": "Subscripts with an Ellipsis, or tuples of other lengths", "statement": "x[...] and x[()] are x[:]; x[k,] and x[k, ...] are x[k]; x[..., k] is x[k] on one-column arrays and x[:, k] on momenta, colours and edges (C164); an Ellipsis beside two keys adds nothing. Every other subscript without None, with two Ellipses or more keys than axes, is IndexError.", "quantifier": "every array, every key, and every tuple of keys and Ellipses of any length", "why_tests_cant": "All tuples of any length and all arrays.", "anchors": ["graphicle/data.py: MaskArray.__getitem__", "graphicle/data.py: PdgArray.__getitem__", "graphicle/data.py: MomentumArray.__getitem__", "graphicle/data.py: ColorArray.__getitem__", "graphicle/data.py: HelicityArray.__getitem__", "graphicle/data.py: StatusArray.__getitem__", "graphicle/data.py: AdjacencyList.__getitem__"]}
{"id": "C243", "title": "Subscripts with None", "statement": "AdjacencyList ignores every None: the result is that of the subscript without them. On one-column arrays one integer gives its element whatever the Nones; with any other key, Nones behind the key never matter, two or more in front do not either, and exactly one in front is ValueError unless one record is selected. For momenta, [None (p times), k, None (q times)]: with one integer, at most one None in all, otherwise ValueError; with any other key, the plain result if there are none in front and either none behind or four or no records selected, or one in front and four records, otherwise ValueError; after an Ellipsis behind the key, any number of Nones is harmless. With two keys, arrays or an array and an integer, with a None between them, the Nones are harmless to momenta, wherever they stand. Colours with such a key pass in the same cases, two records in place of four, with the shape numpy gives them.", "quantifier": "every array, key and number of Nones; for edges every tuple of keys, Ellipses and Nones", "why_tests_cant": "All arrays, keys, and tuples of any length.", "anchors": ["graphicle/data.py: MaskArray.__getitem__", "graphicle/data.py: PdgArray.__getitem__", "graphicle/data.py: MomentumArray.__getitem__", "graphicle/data.py: ColorArray.__getitem__", "graphicle/data.py: HelicityArray.__getitem__", "graphicle/data.py: StatusArray.__getitem__", "graphicle/data.py: AdjacencyList.__getitem__", "graphicle/data.py: _array_field"]}
{"id": "C244", "title": "Coordinates of the sum of an event, in the arithmetic the code uses", "statement": "For every event of n+1 particles whose sums are in range, resultant_coords returns the coordinates of a vector S, each of whose components is that of the exact sum up to (1+2^-53)^n - 1 of the sum of magnitudes: a pseudorapidity within the error C215 allows for S (or a rapidity within C221's), and the azimuth of S to k units of rounding, except NaN where its transverse momentum is below ZERO_TOL.", "quantifier": "every non-empty event of finite doubles in range, every order of summation, every hypot, atan2, atanh and log accurate to k <= 1000 units", "why_tests_cant": "A statement about all lists of doubles, summation orders and libraries.", "anchors": ["graphicle/calculate.py: resultant_coords", "graphicle/data.py: MomentumArray.eta", "graphicle/data.py: MomentumArray.rapidity", "graphicle/data.py: MomentumArray.phi"]}
{"id": "C245", "title": "centroid_prune about its default centre, in the arithmetic the code uses", "statement": "Without a centre, centroid_prune uses the coordinates of the sum of the particles under the mask, as accurate as C244 says. Whatever the summation order and the fused products, it returns a mask of the event's length in which every particle clearly within the radius of that centre is True, every one clearly beyond it False, and every one off the mask False.", "quantifier": "every event, mask and radius whose masked sum is in range and away from the beam, every order of summation and every library as in C244", "why_tests_cant": "A statement about all lists of doubles, summation orders and libraries.", "anchors": ["graphicle/select.py: centroid_prune", "graphicle/calculate.py: resultant_coords"]}
{"id": "C246", "title": "combined_mass with weights, in the arithmetic the code uses", "statement": "With a row of four finite weights for each of n+1 finite particles, n 2^-53 <= 1/1000, and in each component a sum of weighted magnitudes of at most 2^498, combined_mass gives a finite number, never negative, whose square differs from the squared mass of the exactly weighted sum (0 if that is negative) by at most (3n+11) 2^-53 times the sum, over the components, of the squared sum of weighted magnitudes (each with the smallest normal number added), and 8 2^-53 of the smallest normal number.", "quantifier": "every number of particles, finite momenta and weights in that range, every order of summation of the five sums", "why_tests_cant": "A statement about all lists of doubles and all summation orders.", "anchors": ["graphicle/calculate.py: combined_mass"]}
{"id": "C247", "title": "A mirrored event measures the same, bit for bit", "statement": "In the arithmetic the code uses, reversing every pz, every px or every py, or exchanging px and py, leaves the distance matrix delta_R_aff(pmu) the same array of doubles, and (the first three) every possible result of combined_mass, weighted or not; eta changes to its exact opposite for pz and is the same double otherwise, rapidity to its exact opposite for pz, phi to its exact opposite for py, and the mass of each particle not at all.", "quantifier": "every event, zeros, infinities and NaN included (a NaN pz excluded for rapidity), every order of summation, every hypot that is even and symmetric and every odd atan2 and atanh", "why_tests_cant": "A statement about all lists of doubles, summation orders and libraries.", "anchors": ["graphicle/matrix.py: delta_R_aff", "graphicle/calculate.py: combined_mass", "graphicle/data.py: MomentumArray.eta", "graphicle/data.py: MomentumArray.phi", "graphicle/data.py: MomentumArray.mass"]}
{"id": "C248", "title": "Selecting particles before or after measuring distances is the same, bit for bit", "statement": "In the arithmetic the code uses, delta_R_aff(pmu[mask]) is delta_R_aff(pmu) with the mask applied to its rows and its columns, the same doubles; and for any other subscript k, reordering the particles included, each entry of delta_R_aff(pmu[k]) between two different particles is the entry of delta_R_aff(pmu) between the same two.", "quantifier": "every event, zeros, infinities and NaN included, every mask of its length and every subscript that succeeds, every hypot that is even and symmetric and every odd atan2, every atanh", "why_tests_cant": "A statement about all lists of doubles, masks and permutations.", "anchors": ["graphicle/matrix.py: delta_R_aff", "graphicle/calculate.py: _delta_R_symmetric", "graphicle/data.py: MomentumArray.__getitem__"]}
