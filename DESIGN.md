# Formal model of graphicle in Rocq (Coq 8.16.1)

Source modelled: `/repo/graphicle/{base,data,select,calculate,matrix,transform}.py` at the pinned commit.
The code is read as text, never run. `properties.jsonl` states the properties in English, `MANIFEST.json`
maps each to theorem names. This file says how each is modelled, what is trusted, and what was found.

## 1. Conventions of the model

* **Exceptions are values.** `res A := Ok a | Err exn`, `exn` = the Python exception class. A function that can
  raise returns `res`; the error branches are part of the theorems' statements.
* **Arrays are lists**, numpy keys (`mask`, `int`, `int array`, `slice`) are an inductive type resolved to a list
  of positions; out-of-range and wrong-length keys are `Err IndexError`.
* **Mutation.** Where aliasing matters there is an explicit heap or history model: C09, C116 (masks), C28 (LHE
  status buffer), C80 (cached coordinates), C92/C96 (rapidity arrays), C128/C129 (in-place operators). Elsewhere
  functions return new values, because the Python code builds new arrays.
* **Integers** are `Z`; wrap-around to int16/int32 is written explicitly (`Arrays.wrap`).
* **Floats**, two levels. (a) Coq's real numbers ("exact arithmetic"), with an explicit `+inf / -inf / nan` wrapper (`ext`)
  wherever the code distinguishes them (rapidity, eta, phi, delta_R, costs, matrices): what the formulas mean; rounding,
  overflow and the sign of zero are absent there. (b) IEEE 754 binary64 with round-to-nearest-even, formalised by Flocq
  (`Floats.v`, `Floats2.v`, properties C138-C151): the same compiled kernels operation by operation, with NaN, infinities,
  signed zeros, underflow and overflow; log, atan2, hypot, arctanh are whatever the C library returns (arguments), with a
  correctly rounded hypot as an explicit hypothesis where needed; sums are proved for every order of addition. Where the
  computation on floats does not matter (composites, adjacency weights, cut and sort of jets) the float type is an
  arbitrary type parameter, so those theorems hold for IEEE doubles too.
* **External code** (FastJet, scipy's `linear_sum_assignment`, numpy's unstable `argsort`/`argpartition`, the random
  generator, the particle-name table, the minimiser, the iteration order of Python sets) appears as a universally
  quantified argument, with its documented contract as an explicit hypothesis or relation, never as an axiom.
* **Threads**: `prange` loops are sets of per-iteration action lists executed in an arbitrary interleaving
  (`Par.runs`); results are proved for every schedule. Iterations are atomic at the level of one cell access.
* **Recursion limits** are a fuel parameter; theorems say which fuel suffices, or hold for every fuel.
* **Specification vs. model**: theorems are stated with plain Coq notions (`nth_error`, `In`, `exists`, `NoDup`, ...) or
  definitions in `Spec*.v`, which import no model file (except data types such as `mask`, `nd`, `pset`).
* Properties the unchanged code violates stay in the list with the user's expectation; see section 4.

## 2. Trusted base

* Coq 8.16.1's kernel (and `vm_compute` in a few examples).
* Axioms: only those of Coq's standard library real numbers and classical logic that section 6 lists per theorem
  (`ClassicalDedekindReals.sig_forall_dec`, `ClassicalDedekindReals.sig_not_dec`,
  `FunctionalExtensionality.functional_extensionality_dep`, `Classical_Prop.classic`). No axiom, parameter or
  admitted statement is added. Coquelicot (used for `is_derive` in C71, C73, C74) and Flocq
  (binary64 in C138-C151) are built on the same axioms and add none.
* The reading of the Python source and of the semantics of numpy, scipy, attrs, pandas, numba and CPython that the
  comment of each definition states. numpy >= 1.25 is assumed where versions differ (ragged lists and
  non-broadcastable `==` raise ValueError).

## 3. What is modelled and what is not

| source | modelled | not modelled |
|---|---|---|
| `base.py` | the Sequence/Mapping mixins the abstract classes inherit (`in`, `count`, `index`, `reversed`), the event protocols as read by `from_event` / `from_lhe_event` | the abstract declarations themselves, `NumericalStabilityWarning` class |
| `data.py` arrays | field converter, constructors, subscripts (tuples, Ellipsis and None included), `len`, `bool`, iteration, operators (`__array_ufunc__` call, reduce of `add`, accumulate, outer, at, divmod, `out=`), `==`/`!=`, serialize, `PdgArray.mask/from_name/name` and all table columns (the table is an argument), `StatusArray.in_range/hard_mask`, `ColorArray.color/anticolor`, all of `MomentumArray`'s coordinates, shifts, `delta_R`, `from_spherical_uniform`, caches | `repr` text, `__array_interface__`/`__array_wrap__` plumbing, `reduceat`, arrays stored with more than two dimensions |
| `data.py` masks | `MaskArray`, `MaskGroup`: every method, text output as an outline (MaskText.v) | the characters rich draws |
| `data.py` composites | `ParticleSet`, `Graphicle`: subscripts, copy, bool, len, `from_numpy`, `from_event`, `from_lhe_event`, serialize, tables up to layout, generated `==` | HTML layout (`tabulate`) |
| `data.py` `AdjacencyList` | all but `repr` | sparse formats beyond their entries |
| memory | buffers, windows and references of the array classes, ParticleSet and Graphicle (Memory.v); cached properties of MomentumArray (Assign.v/Coords.v) and AdjacencyList (AdjCache.v) | in-place ufuncs on windows beyond element writes |
| `select.py` | every function; `centroid_prune` in doubles too | FastJet's own clustering |
| `calculate.py` | every function; the minimiser of `thrust`/`spherocity` is an oracle; in doubles: `_root_diff_two_squares`, `_rapidity`, pseudorapidity, delta_R and the affinity matrices, Jaccard, `_three_norm`, `_c_parameter`, sums, `combined_mass`, `_clust_coeffs` in float32 and `cluster_coeff_distbn` end to end, `thrust`/`spherocity` objectives and gradients, `_assignment_cost` and the assignment, `combined_mass` with weights, mirrored events, `aggregate_momenta`, `resultant_coords`, `arg_closest` and the partition of hadrons from momenta; boosts and rotations of data.py | numba compilation; scipy's and fastjet's own arithmetic; the minimiser |
| `matrix.py` | every function; `cut_adj`, `knn_adj`, `delta_R_aff` in doubles too | dtypes other than bool and float64 |
| `transform.py` | every function; `split_momentum`, `soft_hard_axis`, `split_hardest` in doubles too | plain-sequence inputs other than one momentum |


## 4. Per property: what is modelled and how it is proved

Status `partial` with a `_refuted` theorem means: the expectation, as a user would state it, is FALSE of the code; the
`_refuted` theorem proves that for a concrete input and the `_partial` theorem proves the largest correct part found.
The English statements are in `properties.jsonl`, the limits of each claim in the `note` of `MANIFEST.json`.

* **C01** MaskArray bitwise and comparison operators are elementwise — proved. Mask.v `mask_and/or/invert/eq/ne`, lists of booleans with numpy broadcasting written out. Position-wise extensionality. Theorems: `C01_operators_elementwise`, `C01_comparison_needs_equal_length`, `C01_bitwise_broadcast`.
* **C02** MaskGroup.data aggregates every nested level with that level's own operation — proved. Mask.v `data`; SpecMask's relational "tree is True at i". Induction on mask trees (custom principle for the nested list). Theorems: `C02_data_aggregates`, `C02_data_raises_otherwise`.
* **C03** Slicing a MaskGroup commutes with aggregation — proved. Mask.v `slice`, Keys.v `resolve`. Tree induction; both sides reduced to the list of positions the key names. Theorems: `C03_slice_commutes_with_data`, `C03_slice_keeps_structure`.
* **C04** flatten('rise') raises every named mask to the top level — proved. Mask.v `visit`, `flatten_rise`. Generator order as list concatenation, dict construction as ordered insertion; tree induction. Theorems: `C04_flatten_rise`, `C04_entries_are_all_paths`, `C04_flatten_rise_raises`.
* **C05** flatten('rise') loses no mask, whatever the names — partial **refuted as stated**. Same definitions; a witness tree with a repeated name, and the exact survivor rule for every tree. Theorems: `C05_rise_loses_masks_refuted`, `C05_rise_keeps_last_partial`.
* **C06** flatten('agg') keeps the top-level names and replaces each child by its aggregate — proved. Mask.v `flatten_agg`; direct from C02's `data` facts, error cases by `mapM` inversion. Theorems: `C06_flatten_agg`, `C06_flatten_agg_raises`.
* **C07** leaf_masks / flatten('leaves') returns exactly the innermost masks — proved. Mask.v `leaf_masks`; SpecMask paths; tree induction. Theorems: `C07_leaf_masks`.
* **C08** recursive_drop removes the name at every level and nothing else — proved. Mask.v `recursive_drop`; lookup along every path (SpecMask) before and after; tree induction. Theorems: `C08_recursive_drop`.
* **C09** Copies are isolated from the original under every later history — proved. MaskHeap.v: objects in a heap. Separation-style invariant (each root owns a disjoint footprint), preserved by every mutation; induction over interleaved histories. Theorems: `C09_copy_isolated`, `C09_copy_histories`, `C09_recursive_drop_copies`, `C09_recursive_drop_inplace`.
* **C10** Serialisation of MaskGroups round-trips under equal_to — proved. Mask.v `serialize`, `of_ser`; tree induction against SpecMask's structural equality. Theorems: `C10_serialize_roundtrip`.
* **C11** Serialisation of MaskGroups preserves the aggregated mask — partial **refuted as stated**. Witness ("or" group becomes "and"); tree induction for all-"and" trees. Theorems: `C11_serialize_changes_data_refuted`, `C11_serialize_keeps_data_and_only_partial`.
* **C12** equal_to decides structural equality — proved. Mask.v `maskgroup_equal` against an inductive equality of trees; mutual induction on both trees. Theorems: `C12_equal_to_decides_same`, `C12_equal_to_equivalence`, `C12_equal_to_ignores_agg_op`.
* **C13** MaskGroup behaves as an insertion-ordered map — proved. Mask.v `model_step`; simulation between the ordered dictionary and an abstract map with an insertion-order list, induction on the operation history. Theorems: `C13_refines_ordered_map`, `C13_select_names`.
* **C14** PdgArray.mask selects exactly the target codes — proved. Arrays.v `pdg_mask` with int32 wrap of abs; position-wise. Theorems: `C14_mask_sign_sensitive`, `C14_mask_sign_insensitive`.
* **C15** Sign-insensitive PDG masking treats a code and its anti-particle alike — partial **refuted as stated**. Same definition; witness for negative targets, theorem on signs of the data. Theorems: `C15_negative_target_refuted`, `C15_negative_target_selects_nothing`, `C15_data_sign_irrelevant_partial`.
* **C16** StatusArray.in_range selects exactly the inclusive status interval — proved. Arrays.v `in_range` with int16 wrap; position-wise. Theorems: `C16_in_range`.
* **C17** hard_mask splits the hard process into four disjoint categories — proved. Arrays.v `hard_mask`; position-wise, disjointness of the four codes. Theorems: `C17_hard_mask`, `C17_disjoint`.
* **C18** Structured momentum and edge inputs are read by field name, not by position — proved. Arrays.v `reorder`, `to_plain`; permutation of field names, induction over rows. Theorems: `C18_momentum_by_name`, `C18_momentum_rejects`, `C18_edges_by_name`, `C18_edges_reject`.
* **C19** Structured color input is read by field name — partial **refuted as stated**. Same path for two colour columns; witness of the swap. Theorems: `C19_color_swapped_refuted`, `C19_color_in_order_partial`.
* **C20** Array constructors accept exactly the documented shapes — proved. Arrays.v `check_shape`, `converter`: complete case analysis over shapes. Theorems: `C20_one_column`, `C20_columns`, `C20_elements_kept`, `C20_momentum_rows`.
* **C21** Indexing one particle gives a one-particle array — proved. Arrays.v `*_get` with an integer key; ColorArray witness. Theorems: `C21_single_codes`, `C21_single_mask`, `C21_single_momentum`, `C21_single_edge`, `C21_out_of_range`.
* **C22** Integer codes are stored without change when they fit the storage type — proved. Arrays.v `wrap`: modular arithmetic, identity on the range, congruence outside. Theorems: `C22_stored_exactly_when_fits`, `C22_pairs_stored_exactly`, `C22_stored_modulo`.
* **C23** Slicing a ParticleSet or Graphicle keeps all records aligned — proved. Composite.v `pset_get`, `graph_get`; `aligned` spec in SpecComposite; each component reduced to the positions of the key. Theorems: `C23_particle_set`, `C23_graph`, `C23_invalid_key`.
* **C24** Chained slices compose — proved. Same; composition of position lists (Keys.v). Theorems: `C24_chained_particle_set`, `C24_chained_graph`, `C24_masks`, `C24_both_marks`.
* **C25** len and truthiness of composites are those of the aligned record — proved. Composite.v `pset_len`, `pset_bool`, `graph_*`. Theorems: `C25_particle_set`, `C25_graph`.
* **C26** copy preserves every component — proved. Composite.v `pset_copy`, `graph_copy`; weights witness. Theorems: `C26_copy_records`.
* **C27** from_lhe_event recodes statuses simultaneously and marks nothing final — proved. Composite.v `recode_loop`: the sequential in-place loop equals the simultaneous table, by cases on the code. Theorems: `C27_lhe_event`, `C27_any_input`.
* **C28** from_lhe_event leaves the caller's event untouched — partial **refuted as stated**. Composite.v `lhe_status_effect`: heap of buffers, aliasing decided by dtype and contiguity; witness and positive case. Theorems: `C28_event_untouched_refuted`, `C28_event_untouched_partial`.
* **C29** serialize of composites exposes every component element by element — proved. Composite.v `*_serialize`, `rebuild`; round trip. Theorems: `C29_particle_set`, `C29_graph`, `C29_rebuild`.
* **C30** AdjacencyList.nodes lists each vertex once, by ascending magnitude — proved. Adjacency.v `nodes`, `np_unique`; sortedness, NoDup and membership; any argsort meeting numpy's contract. Theorems: `C30_nodes`.
* **C31** roots and leaves mark exactly the source and sink edges — proved. Adjacency.v `roots`, `leaves`; degree zero iff no edge ends/starts there. Theorems: `C31_roots`, `C31_leaves`, `C31_empty`.
* **C32** The dense matrix counts (or sums the weights of) the edges between vertices — proved. Adjacency.v `matrix_int`, `matrix_weighted`; entry = fold over the edges between the two ranks. Theorems: `C32_weighted`, `C32_counts`, `C32_totals`, `C32_instance`.
* **C33** from_matrix and matrix are inverse on graphs without isolated vertices — proved. Adjacency.v `from_matrix`; row-major enumeration lemmas, ranks of a full vertex range are the identity. Theorems: `C33_round_trip`, `C33_isolated_removed`, `C33_self_loops`.
* **C34** Comparing an AdjacencyList with an edge marks exactly that edge — proved. Adjacency.v `adj_compare` with a pair. Theorems: `C34_compare_edge`, `C34_other_lengths`, `C34_edges_are_rows`.
* **C35** Two AdjacencyLists can be compared elementwise — partial **refuted as stated**. Same with another list: case analysis on lengths. Theorems: `C35_compare_lists_refuted`, `C35_always_raises`, `C35_one_against_two_partial`.
* **C36** vertex_descendants marks exactly the edges reachable from the vertex — proved. Descend.v `bfs_loop`; invariant of the queue algorithm; equivalence with SpecAdj's inductive reachability, termination by counting marked vertices. Theorems: `C36_vertex_descendants`, `C36_closed`.
* **C37** edge_descendants adds the parent edge — proved. Descend.v `edge_descendants`; from C36. Theorems: `C37_edge_descendants`, `C37_reach`.
* **C38** hadron_vertices returns exactly the hadronisation vertices — proved. Descend.v `hadron_vertices`; `np_unique` and `in_range` facts. Theorems: `C38_hadron_vertices`, `C38_lengths`.
* **C39** find_vertex returns exactly the vertices with the required incoming and outgoing particles — proved. Descend.v `find_vertex` with the pandas pipeline written out; set-level characterisation of pivot/join/explode. Theorems: `C39_find_vertex`, `C39_errors`.
* **C40** hard_descendants without target masks each hard parton together with its descendants — proved. Hard.v `hard_descendants`, no target; SpecHard states events and masks; from C36 and C43. Theorems: `C40_hard_descendants`, `C40_count`.
* **C41** hard_descendants with target masks each selected parton with its own descendants — partial **refuted as stated**. Same with target; witness of the misplaced record, prefix case. Theorems: `C41_target_refuted`, `C41_target_partial`, `C41_prefix_partial`.
* **C42** hard_descendants rejects absent targets — proved. Same; error branch characterised. Theorems: `C42_target_errors`, `C42_selected`.
* **C43** Names given to hard partons are unique and identify the particle — proved. Hard.v `pdgs_to_keys`; induction over names with the counter invariant, injectivity of the decimal suffix. Theorems: `C43_names`.
* **C44** The hard-process tree gives every parton exactly one parent: its closest hard ancestor — proved. Hierarchy.v `parent_matrix`; loop invariant over the double loop of row differences; SpecHier's closest ancestor. Theorems: `C44_parent_map`, `C44_one_parent`, `C44_nothing_between`.
* **C45** hierarchy terminates and nests every linked parton exactly once — proved. Hierarchy.v `make_nest`; well-founded depth argument, each linked parton on exactly one path. Theorems: `C45_terminates`, `C45_no_intermediate`, `C45_precomputed`, `C45_tree`.
* **C46** hierarchy loses no hard parton — partial **refuted as stated**. Witness event; exact condition for a parton to appear. Theorems: `C46_kept_partial`, `C46_kept_lines_partial`, `C46_refuted`.
* **C47** 'latent' completes a parton's children to the parton's own descendants — proved. Hierarchy.v `with_latent`; xor is set difference when children are contained in the parent (proved from reachability). Theorems: `C47_latent`, `C47_exact`.
* **C48** Leaves of the hierarchy hold exactly the parton and its descendants — partial **refuted as stated**. Hierarchy.v `leaf_branch`; witness, exact leaf contents. Theorems: `C48_leaf_exact_partial`, `C48_refuted`.
* **C49** partition_descendants assigns each hadron by its nearest incoming parton — proved. Partition.v; invariant over the fold on vertices and over tree paths; argmin spec for any strict weak order. Theorems: `C49_partition_descendants`, `C49_nearest_exists`.
* **C50** After partitioning, leaves that share no incoming parton share no hadron — proved. From C49's description; disjointness and coverage. Theorems: `C50_disjoint_leaves`, `C50_coverage`.
* **C51** color_singlets returns exactly the color-neutral pairs and triples — proved. SelectMisc.v `color_singlets`; combinations enumerated, set equality of colour indices. Theorems: `C51_color_singlets`, `C51_color_singlets_invert`.
* **C52** any_overlap reports whether two masks overlap — partial **refuted as stated**. SelectMisc.v `any_overlap`; attribute lookup fails for every group; the remaining body proved. Theorems: `C52_any_overlap_refuted`, `C52_too_few_partial`, `C52_overlap_pairs_partial`.
* **C53** centroid_prune keeps exactly the particles within the radius — proved. Coords.v `centroid_prune`; position-wise with scatter. Theorems: `C53_centroid_prune_centre`, `C53_centroid_prune_mask`, `C53_centroid_prune_default`.
* **C54** fastjet_clusters returns the selected jets' constituents in descending pT — proved. SelectMisc.v `fastjet_clusters`; jets as an oracle; sortedness and filters. Theorems: `C54_fastjet_clusters`, `C54_invalid_args`.
* **C55** arg_closest returns an injective, cost-minimal assignment — proved. Assign.v `arg_closest`; cost matrix entries, best matching from scipy's contract. Theorems: `C55_runs`, `C55_assignment`.
* **C56** monte_carlo_tag maps each selected hard parton to one distinct cluster — proved. Tag.v `monte_carlo_tag`; composition of C55, filters and naming. Theorems: `C56_checks`, `C56_tagged`, `C56_returns`, `C56_both_lists`.
* **C57** Mass-type quantities are the signed root of the difference of squares — proved. Kinem.v `root_diff_two_squares`; algebra over R. Theorems: `C57_mass`.
* **C58** rapidity is artanh(pz/E) with signed infinity at the light cone — proved. Kinem.v `rapidity`; logarithm identities. Theorems: `C58_rapidity`, `C58_light_cone`, `C58_odd`.
* **C59** shift_rapidity is a longitudinal Lorentz boost — proved. Kinem.v `boost`; hyperbolic identities. Theorems: `C59_shift_rapidity`, `C59_shift_rapidity_each`, `C59_compose_inverse`.
* **C60** shift_phi is an azimuthal rotation — proved. Kinem.v `rotate`; trigonometric identities, own atan2 (RealBase.v). Theorems: `C60_shift_phi`, `C60_shift_phi_each`, `C60_compose_inverse`.
* **C61** shift_eta(experimental=True) adds exactly the shift to the pseudorapidity — proved. Kinem.v `shift_eta_one`; arsinh/artanh identities. Theorems: `C61_shift_eta_experimental`.
* **C62** shift_eta (true boost) is always a pure longitudinal boost — proved. Kinem.v `eta_loop`; induction on fuel, composition of boosts. Theorems: `C62_shift_eta_is_boost`, `C62_exact_outcome`.
* **C63** shift_eta warns only when it failed to converge — partial **refuted as stated**. Same loop; warning iff fuel exhausted. Theorems: `C63_shift_eta_warns_refuted`, `C63_warning_exact_partial`.
* **C64** delta_R is a symmetric non-negative distance with zero diagonal, invariant under boosts and rotations — proved. Kinem.v `delta_entry`, DeltaR.v; metric-like facts and invariances from C59/C60. Theorems: `C64_distance`, `C64_metric`, `C64_triangle`, `C64_rotation`, `C64_boost`.
* **C65** delta_R with itself equals delta_R with a copy — proved. DeltaR.v symmetric and general loops; equal except on the diagonal's NaN cases. Theorems: `C65_same_as_copy`, `C65_delta_R_aff`.
* **C66** Parallel loops give the same result under every schedule — proved. Par.v: interleavings of per-iteration actions; disjoint footprints imply schedule independence. Theorems: `C66_assignment_cost`, `C66_assignment_cost_exists`, `C66_delta_R`, `C66_delta_R_symmetric`, `C66_clust_coeffs`, `C66_schedules_exist`.
* **C67** The thread setting is always restored — proved. DeltaR.v `thread_scope`; state-and-exception monad, nested scopes by composition. Theorems: `C67_arg_closest`, `C67_thread_scope`, `C67_restored`, `C67_calls`.
* **C68** combined_mass is the mass of the summed momentum, floored at zero — proved. Kinem.v `combined_mass`, `weigh`. Theorems: `C68_combined_mass`, `C68_weighted`, `C68_table_rows`.
* **C69** aggregate_momenta sums each cluster and conserves the total over a partition — proved. Kinem.v `aggregate_momenta`; sums over positions, partition lemma. Theorems: `C69_aggregate`, `C69_wrong_length`.
* **C70** c_parameter equals its textbook definition and lies in [0,1] — proved. Shapes.v `c_parameter`; Cauchy-Schwarz bounds and the symmetric double sum. Theorems: `C70_c_parameter`, `C70_errors`.
* **C71** The thrust objective is the thrust along the axis, in [0,1], and its gradient is exact — proved. Shapes.v `thrust_with_grad`; derivative with Coquelicot `is_derive` away from zeros of the dot products. Theorems: `C71_thrust_objective`, `C71_thrust_result`.
* **C72** The optimiser's search box covers every axis — proved. Shapes.v `in_box`; every direction, up to sign, has angles in the box. Theorems: `C72_box_covers`, `C72_box_once`, `C72_axis_sign`, `C72_global_optimum`.
* **C73** The spherocity objective is the spherocity along the axis, and its azimuth gradient is exact — proved. Shapes.v `spherocity_with_grad`; as C71. Theorems: `C73_spherocity_objective`, `C73_parallel_axis_raises`.
* **C74** The spherocity objective's inclination gradient is exact — partial **refuted as stated**. Same; witness that the theta gradient differs from the derivative. Theorems: `C74_inclination_gradient_partial`, `C74_inclination_gradient_refuted`.
* **C75** jaccard_distance is a bounded metric on masks — proved. Shapes.v `jaccard_distance`; weighted Steinhaus inequality. Theorems: `C75_jaccard`, `C75_jaccard_positive`.
* **C76** Clustering coefficients are neighbour link fractions in [0,1] — proved. DeltaR.v `cluster_coeff_distbn`; counting neighbour pairs. Theorems: `C76_cluster_coeff`.
* **C77** weighted_centroid is a convex combination — proved. Kinem.v `weighted_centroid`; convexity. Theorems: `C77_rapidity_centroid`, `C77_azimuth_centroid`.
* **C78** from_spherical_uniform returns physical momenta within the energy bound — proved. Kinem.v `from_spherical_uniform`; sin/cos identities. Theorems: `C78_spherical`, `C78_range`.
* **C79** from_spherical_uniform covers the whole sphere — partial **refuted as stated**. Same; sin(acos) is non-negative, hence only pz >= 0 is reached. Theorems: `C79_lower_hemisphere_refuted`, `C79_upper_hemisphere_partial`.
* **C80** Derived coordinates always reflect the current momentum data — partial **refuted as stated**. Coords.v cache machine; induction over histories of reads, assignments and copies. Theorems: `C80_fresh_reads_partial`, `C80_stale_refuted`, `C80_resized_refuted`.
* **C81** cut_adj connects exactly the pairs on the right side of the cut — proved. Matrix.v `cut_adj`; entry-wise. Theorems: `C81_unweighted`, `C81_weighted`, `C81_errors`.
* **C82** fc_adj is the complete graph — proved. Matrix.v `fc_adj`. Theorems: `C82_complete`, `C82_negative`.
* **C83** knn_adj links each particle to its k nearest — proved. Matrix.v `knn_adj` for every admissible partial sort. Theorems: `C83_self_loops`, `C83_self_loops_weighted`, `C83_others`, `C83_others_weighted`, `C83_runs`, `C83_dtype_error`.
* **C84** knn_adj orientation and range of k follow the documentation — partial **refuted as stated**. Same; orientation and range of k. Theorems: `C84_range_refuted`, `C84_range_partial`, `C84_row_orientation_refuted`, `C84_rows_partial`, `C84_negative_count_refuted`.
* **C85** parton_hadron_distance scales each parton's row — proved. Matrix.v `parton_hadron_distance`; entry-wise over DeltaR. Theorems: `C85_entries`, `C85_exponent_zero`, `C85_scaling`.
* **C86** rotation_matrix is the proper rotation about the given axis — proved. Transform.v `rotation_matrix`; ring identities (orthogonality, determinant, axis fixed, Rodrigues). Theorems: `C86_rotation`, `C86_proper`, `C86_group`.
* **C87** split_momentum conserves four-momentum — proved. Transform.v `split_momentum`. Theorems: `C87_split`, `C87_angle`, `C87_errors`, `C87_collinear`.
* **C88** split_hardest replaces only the hardest particle and conserves the total — proved. Transform.v `split_hardest`; argmax position. Theorems: `C88_split_hardest`, `C88_default_axis`, `C88_errors`.
* **C89** soft_hard_axis gives the normal of the soft-hard plane — partial **refuted as stated**. Transform.v `soft_hard_axis`; witness of inclination vs elevation, positive azimuth part. Theorems: `C89_normal_refuted`, `C89_elevation_partial`, `C89_only_pi4_partial`.
* **C90** shift_eta reaches the requested pseudorapidity — partial **refuted as stated**. Kinem.v `shift_eta`; witness of the stalled loop; massless totals converge in one step. Theorems: `C90_shift_eta_misses_refuted`, `C90_massless_partial`.
* **C91** arg_closest accepts a single candidate and candidates of equal pT — partial **refuted as stated**. Assign.v; zero variance raises. Theorems: `C91_equal_pt_refuted`, `C91_different_pt_partial`.
* **C92** arg_closest leaves the candidates' rapidities readable — partial **refuted as stated**. Assign.v heap of rapidity arrays. Theorems: `C92_after_raise_refuted`, `C92_otherwise_partial`.
* **C93** combined_mass accepts one weight per particle — partial **refuted as stated**. Kinem.v `weigh` with a flat vector. Theorems: `C93_flat_weights_refuted`, `C93_flat_weights_partial`.
* **C94** weighted_centroid follows azimuthal rotations — partial **refuted as stated**. Kinem.v `weighted_centroid` across the branch cut. Theorems: `C94_centroid_rotation_refuted`, `C94_centroid_rotation_partial`.
* **C95** arg_closest returns one candidate per focus momentum — partial **refuted as stated**. Assign.v with fewer candidates than focus momenta. Theorems: `C95_fewer_candidates_refuted`, `C95_matching_partial`.
* **C96** arg_closest does not modify arrays the caller holds — partial **refuted as stated**. Assign.v heap, array held by the caller. Theorems: `C96_held_array_refuted`, `C96_other_arrays_partial`.
* **C97** monte_carlo_tag honours an empty whitelist — partial **refuted as stated**. Tag.v `tag_filter`. Theorems: `C97_blacklist_inverted_refuted`, `C97_empty_whitelist_ignored_refuted`, `C97_empty_blacklist_partial`.
* **C98** monte_carlo_tag on an event without matching partons fails as documented — partial **refuted as stated**. Tag.v with no parton. Theorems: `C98_no_partons_refuted`, `C98_filtered_partial`.
* **C99** monte_carlo_tag rejects clusters of the wrong length with ValueError — partial **refuted as stated**. Tag.v, later masks of another length. Theorems: `C99_later_mismatch_refuted`, `C99_first_mismatch_partial`.
* **C100** Boolean flags of the adjacency builders accept any boolean — partial **refuted as stated**. Matrix.v `pyflag` tested by identity. Theorems: `C100_flags_refuted`, `C100_singletons_partial`.
* **C101** knn_adj gives every particle k neighbours even when particles coincide — partial **refuted as stated**. Matrix.v `knn_adj` with equal distances; witness and positive case. Theorems: `C101_coincident_refuted`, `C101_others_partial`.
* **C102** The children of a split are physical momenta — partial **refuted as stated**. Transform.v; invariant mass of the children. Theorems: `C102_physical_refuted`, `C102_masses_partial`, `C102_always_partial`.
* **C103** Masks of any kind can be compared — partial **refuted as stated**. Mask.v `mask_cmp` on mixed kinds. Theorems: `C103_mixed_masks_comparable_refuted`, `C103_mask_comparison_partial`, `C103_comparison_length_mismatch`.
* **C104** A key selects exactly the elements Python's rules name — proved. Keys.v against SpecKeys' independent reading of Python's slice and index rules. Theorems: `C104_key_positions`, `C104_selection_unique`, `C104_subscript_elements`, `C104_subscript_rows`.
* **C105** Arithmetic operators act element by element and keep the class — proved. ArrayOps.v `ufunc_arith`; broadcast cases. Theorems: `C105_flat_arrays`, `C105_flat_scalar`, `C105_momentum`, `C105_lengths_must_agree`, `C105_unary`.
* **C106** Ordering comparisons of flat arrays give masks — proved. ArrayOps.v `ufunc_cmp`; record classes refuted. Theorems: `C106_flat_comparison`.
* **C107** Arrays of different classes combine as their data would — partial **refuted as stated**. ArrayOps.v `OOther`; mixed classes refuted. Theorems: `C107_mixing_classes_refuted`, `C107_mixing_never_works`, `C107_mixing_flat_partial`.
* **C108** Multiplying momenta by one weight per particle scales the particles — partial **refuted as stated**. ArrayOps.v `pmu_arith` with a vector; broadcast axis. Theorems: `C108_weights_refuted`, `C108_weights_partial`.
* **C109** Sums over arrays — proved. ArrayOps.v `ufunc_sum`. Theorems: `C109_momentum_sum`, `C109_flat_sum`, `C109_axes`.
* **C110** Summing over the last axis is the same as over axis 1 — partial **refuted as stated**. Same with axis -1. Theorems: `C110_last_axis_refuted`, `C110_last_axis_partial`.
* **C111** Dividing an integer array gives the quotients — partial **refuted as stated**. ArrayOps.v integer division. Theorems: `C111_division_refuted`, `C111_division_partial`.
* **C112** Equality of arrays marks equal entries — proved. ArrayOps.v `flat_eq`, `rec_eq`. Theorems: `C112_flat_equality`, `C112_record_equality`.
* **C113** Momentum and colour arrays can be compared with plain rows — partial **refuted as stated**. ArrayOps.v `eq_prep` on rows and ndarrays. Theorems: `C113_rows_refuted`, `C113_rows_partial`, `C113_ragged_width_partial`.
* **C114** Particle names and codes translate into each other — proved. ArrayOps.v `from_name`, `pdg_names` over an arbitrary table. Theorems: `C114_names_roundtrip`, `C114_unknown_name`, `C114_all_codes`.
* **C115** Masks from a structured array — proved. ArrayOps.v `from_numpy_structured`. Theorems: `C115_structured_masks`.
* **C116** Assignments change exactly what they name — proved. MaskHeap.v `apply`: effect of every assignment on every observable mask, with errors. Theorems: `C116_assignment`, `C116_rebind`, `C116_group`, `C116_bad_path`, `C116_wrong_kind`.
* **C117** Truth value of a mask — proved. Mask.v `mask_bool`. Theorems: `C117_truth`.
* **C118** How reading a group fails — proved. Mask.v `data`, `agg_op`, `np_reduce`: exact exception of every failing read. Theorems: `C118_data_failures`.
* **C119** clusters: one final-state mask per hard parton — proved. Clusters.v: composition of hierarchy, partition, colour singlets, pruning and flattening; contents of each cluster stated independently (SpecClusters). Theorems: `C119_clusters`, `C119_leaf`, `C119_empty`.
* **C120** Membership, counting and reversal see the stored elements — proved. Records.v `contains`, `count`, `reversed`. Theorems: `C120_codes`, `C120_momenta`, `C120_edges`.
* **C121** index finds the first position of a value — partial **refuted as stated**. Records.v `seq_index`: the loop stops at the first readable position. Theorems: `C121_index_refuted`, `C121_absent_value_refuted`, `C121_index_partial`, `C121_index_rows_partial`, `C121_mask_index_partial`.
* **C122** Tables show every record — proved. Records.v `table_list`, `table_repr`. Theorems: `C122_particle_table`, `C122_graph_table`, `C122_unknown_code`.
* **C123** A graph without particle data shows its edges — partial **refuted as stated**. Records.v `graph_table` without particle data. Theorems: `C123_edges_only_refuted`, `C123_edges_only_partial`.
* **C124** from_event builds the graph from the attributes the event has — proved. Records.v `from_event`, `graph_from_numpy`. Theorems: `C124_from_event`, `C124_no_final_mask`, `C124_roundtrip`, `C124_weights`.
* **C125** MaskGroup reads nested dictionaries faithfully — proved. Records.v `convert`, `group_new`; induction on nested dictionaries. Theorems: `C125_nested_dict`, `C125_lookup`, `C125_malformed`.
* **C126** An iterable of booleans becomes a mask of those booleans — partial **refuted as stated**. Records.v `SIter`. Theorems: `C126_iterator_refuted`, `C126_iterator_partial`.
* **C127** Mask operators do not depend on operand order — partial **refuted as stated**. Records.v `mask_op`, `mask_rop`. Theorems: `C127_order_refuted`, `C127_order_partial`, `C127_group_partial`, `C127_is_C01_partial`.
* **C128** In-place operators update the shared buffer and nothing else — proved. Records.v `iop`, `iop_heap`. Theorems: `C128_inplace_codes`, `C128_inplace_momenta`, `C128_inplace_masks`.
* **C129** A failing in-place operator changes nothing — partial **refuted as stated**. Records.v `iop` with another class. Theorems: `C129_failed_inplace_refuted`, `C129_failed_inplace_partial`.
* **C130** Equality of composites compares their content — partial **refuted as stated**. Records.v `pset_eq`, `graph_eq`. Theorems: `C130_different_sets_equal_refuted`, `C130_same_sets_unequal_refuted`, `C130_equality_partial`, `C130_graphs_partial`, `C130_graph_cases_partial`, `C130_final_lengths_partial`.
* **C131** Rapidity and pseudorapidity of every momentum, physical or not — proved. Kinem.v `rapidity`, `eta`; SpecEdge's total relations, existence and uniqueness. Theorems: `C131_rapidity`, `C131_rapidity_unique`, `C131_pseudorapidity`, `C131_pseudorapidity_unique`.
* **C132** delta_R is defined for every pair of particles — proved. Kinem.v `delta_entry`; SpecEdge `dist_is`. Theorems: `C132_any_pair`, `C132_total`, `C132_beam`.
* **C133** The shifting methods on degenerate input — proved. Kinem.v shift methods on degenerate totals. Theorems: `C133_experimental_beam`, `C133_wrong_length`, `C133_one_shift`, `C133_beam_total`, `C133_rest_total`, `C133_offshell_total`.
* **C134** A particle of zero weight does not affect the weighted centroid — partial **refuted as stated**. Kinem.v `weighted_centroid` with zero weights. Theorems: `C134_beam_particle_refuted`, `C134_soft_particle_refuted`, `C134_massive_beam_partial`, `C134_no_weight`, `C134_infinite`.
* **C135** parton_hadron_distance for a parton along the beam — proved. Matrix.v `np_power`, `emul2` for pT = 0. Theorems: `C135_beam_parton`.
* **C136** centroid_prune about a non-finite centre keeps nothing — proved. Coords.v `prune_dist` with a non-finite centre. Theorems: `C136_infinite_centre`.
* **C137** arg_closest refuses infinite distances — proved. Assign.v `evar`, `cost_entry`, `linear_sum_assignment` on infinite distances. Theorems: `C137_infinite_distance`.
* **C138** mass is accurate in double arithmetic and has the right sign — proved. Floats.v `root_diff` on Flocq's binary64; relative errors of each operation composed. Theorems: `C138_root_diff`.
* **C139** Rapidity in double arithmetic — proved. Floats.v `f_rapidity`; oddness by cases on the sign bits, finiteness by monotonicity of rounding. Theorems: `C139_odd`, `C139_finite`, `C139_nan_energy`.
* **C140** delta_R is bitwise symmetric in double arithmetic — proved. Floats.v `f_delta`; fsub/fmul/fadd symmetries proved on the representation (FloatOps.v). Theorems: `C140_symmetric`.
* **C141** delta_R of a particle with itself is 0.0 in double arithmetic — proved. Floats.v `f_delta` at equal arguments. Theorems: `C141_self_distance`.
* **C142** The weighted Jaccard distance in double arithmetic — proved. Floats.v `f_jaccard`; loop invariant on both sums, monotone rounding. Theorems: `C142_range`, `C142_equal`, `C142_disjoint`, `C142_symmetric`.
* **C143** The unweighted Jaccard distance is the nearest double — proved. Floats.v `f_jaccard` with unit weights; integer sums are exact. Theorems: `C143_unweighted`.
* **C144** The three-norm kernel neither overflows nor loses accuracy — proved. Floats.v `f_three_norm`; error analysis with underflow terms. Theorems: `C144_three_norm`.
* **C145** Summed momenta do not depend on the order of addition beyond rounding — proved. Floats.v `f_sum` over binary trees; induction on the tree. Theorems: `C145_sum`, `C145_depth`, `C145_orders`.
* **C146** split_momentum conserves momentum up to one rounding — proved. Floats.v `f_children`, `f_energies`; Sterbenz. Theorems: `C146_split`, `C146_energy`.
* **C147** Only particles along the beam have infinite pseudorapidity — partial **refuted as stated**. Floats.v `f_cos`, `f_eta`; midpoint argument for the refutation. Theorems: `C147_eta_partial`, `C147_eta_refuted`.
* **C148** The C-parameter in doubles is not negative — partial **refuted as stated**. Floats2.v `f_c_parameter`; forward error analysis through both loops, computed witness. Theorems: `C148_c_parameter_refuted`, `C148_range_partial`.
* **C149** combined_mass of one particle is backward accurate — proved. Floats.v `f_combined`; computed witness, error analysis. Theorems: `C149_combined`.
* **C150** A light-like momentum has mass exactly 0.0 — proved. Floats.v `f_mass`; double rounding argument with ulps. Theorems: `C150_massless`.
* **C151** mass squared is backward accurate — proved. Floats.v `f_mass`; Lipschitz bound of hypot, C138. Theorems: `C151_mass`.
* **C152** Copies are isolated — proved. Memory.v `copy`, `getitem`; separation invariant (owned buffers disjoint), induction over programs. Theorems: `C152_copies_isolated`, `C152_selections_isolated`.
* **C153** Changing a selection does not change the array it came from — partial **refuted as stated**. Memory.v `getitem`, `write`; window arithmetic, record-by-record. Theorems: `C153_selection_refuted`, `C153_selection_partial`, `C153_steps`.
* **C154** All components of a selected ParticleSet behave alike — partial **refuted as stated**. Memory.v `getitem` on sets; components reduced to C153. Theorems: `C154_components_refuted`, `C154_components_partial`, `C154_integer`.
* **C155** Building an object does not tie it to the caller's arrays — partial **refuted as stated**. Memory.v `construct`; window or fresh buffer. Theorems: `C155_construct_refuted`, `C155_construct_partial`.
* **C156** Graph quantities reflect the current edges — partial **refuted as stated**. AdjCache.v: instance with its four cached properties; invariant "caches hold what belongs to the frozen edges", induction over histories. Theorems: `C156_frozen_partial`, `C156_settled_partial`, `C156_stale_refuted`.
* **C157** Event shapes are collinear and infrared safe — proved. Shapes.v kernels; a split pair adds to every accumulator what the parent added (fold induction); soft bound by |a/b - a'/b'| estimates on the closed forms of C70-C72. Theorems: `C157_collinear`, `C157_soft`.
* **C158** Event shapes depend only on angles and momentum fractions — proved. Shapes.v; closed forms in terms of inner products, which a similarity scales; optima compared both ways through the inverse map. Theorems: `C158_turned`, `C158_shift_phi`, `C158_units`.
* **C159** Combining particles never loses mass — proved. Kinem.v `combined_mass`, `mass`; reversed Cauchy-Schwarz, induction on the set. Theorems: `C159_parts`, `C159_particles`.
* **C160** The coordinates rebuild the momentum — proved. Kinem.v coordinate properties; sinh/cosh identities from KinemProofs, half-angle formula. Theorems: `C160_rebuild`.
* **C161** Vertex labels carry no meaning — proved. Adjacency.v, Descend.v, Hard.v, Hierarchy.v, Partition.v, Clusters.v; reachability transported along the renaming; the partition is determined by its specification. Theorems: `C161_edges`, `C161_hard`, `C161_partition`, `C161_vertices`, `C161_clusters`.
* **C162** The order of records carries no meaning — proved. Adjacency.v, Descend.v; from the specifications C31, C36-C39, which only speak of membership. Theorems: `C162_masks`, `C162_vertices`.
* **C163** Descendants of a descendant are descendants — partial **refuted as stated**. Descend.v `vertex_descendants`; transitivity of reachability; counterexample at a sink. Theorems: `C163_transitive_partial`, `C163_sink_partial`, `C163_refuted`.
* **C164** A subscript with two keys selects records — partial **refuted as stated**. TupleKeys.v `nd_get2` and the class getters; positions resolved per key, then the constructor's converter. Theorems: `C164_momentum_column_partial`, `C164_edges_column_partial`, `C164_color_column_partial`, `C164_momentum_block_partial`, `C164_momentum_paired_partial`, `C164_momentum_repeated_partial`, `C164_one_record_partial`, `C164_one_number_partial`, `C164_one_column`, `C164_refuted`.
* **C165** The printed tree of a mask group shows every mask once — proved. MaskText.v `make_tree`, `lines`; induction over the tree against the depth-first list of entries. Theorems: `C165_text`, `C165_repr`.
* **C166** to_dict aggregates the top level — proved. MaskText.v `to_dict`; from the specification of `data` (C05-C08). Theorems: `C166_to_dict`, `C166_errors`.
* **C167** A boost keeps energy above |pz| in doubles — partial **refuted as stated**. Floats3.v `f_shift_rapidity`; monotonicity of rounding; counterexample by computation, cosh(1/2) and sinh(1/2) by Taylor-Lagrange. Theorems: `C167_slowing_partial`, `C167_light_partial`, `C167_bound_partial`, `C167_refuted`.
* **C168** Shifting by zero changes nothing — proved. Floats3.v; rounding is the identity on doubles; NaN from 0 * inf. Theorems: `C168_finite`.
* **C169** Boosts and rotations are accurate in doubles — proved. Floats3.v; composed rounding errors of two products and a sum. Theorems: `C169_boost`, `C169_rotation`.
* **C170** The order of the particles carries no meaning — proved. Kinem.v, Shapes.v, DeltaR.v, Matrix.v; sums are invariant under Permutation; matrices by reindexing. Theorems: `C170_sums`, `C170_weighted_mass`, `C170_distances`, `C170_coefficients`, `C170_cut_adj`, `C170_knn_adj`.
* **C171** Particle table properties line up with the codes — proved. PdgTable.v; induction over the codes. Theorems: `C171_columns`, `C171_unknown`.
* **C172** Masses, widths and their bounds are the table's in GeV — proved. PdgTable.v in Flocq binary64; error of the literal 1e-3 composed with one rounding; counterexample by computation. Theorems: `C172_units`, `C172_monotone`, `C172_bounds`.
* **C173** Clustering coefficients in single precision are the link fractions — proved. Floats4.v in Flocq binary32/binary64; invariant of the counting loop (min(count, 2^24)); one division and two roundings. Theorems: `C173_coefficient`.
* **C174** delta_R in double precision has an error of a few units, whatever the momenta — proved. Floats.v f_delta; error of the rounded complex product (Cauchy-Schwarz), perturbation of an angle by atan, Lipschitz hypot. Theorems: `C174_accuracy`, `C174_threshold`.
* **C175** Distinct directions have a distance above zero — partial **refuted as stated**. corollary of C174 above 5 units; counterexample evaluated in the kernel. Theorems: `C175_apart_partial`, `C175_refuted`.
* **C176** The thrust objective is accurate in doubles — proved. Floats5.v in Flocq binary64; running error analysis of the dot products and of both sums (as C148); counterexample by computation. Theorems: `C176_accuracy`, `C176_fails`, `C176_gradient`.
* **C177** Reversing momenta changes no event shape, bit for bit — proved. sign symmetry of the rounded operations up to the sign of zero, carried through the loops. Theorems: `C177_thrust`, `C177_spherocity`.
* **C178** divmod of particle codes and statuses — proved. UfuncMethods.v ufunc_divmod; Z.div/Z.mod characterised by sign and size of the remainder; counterexample by computation. Theorems: `C178_same_class`, `C178_scalar`, `C178_zero_divisor`.
* **C179** Running results — proved. induction on the list for the running fold; shape check for outer. Theorems: `C179_accumulate`, `C179_momentum`, `C179_axes`.
* **C180** ufunc.at updates in place, once per occurrence — proved. induction on the index list; each position sees the sublist of values aimed at it; additions mod 2^32. Theorems: `C180_at`, `C180_add_at`, `C180_bad_index`, `C180_bad_values`.
* **C181** The spherocity objective is accurate in doubles — proved. Floats5.v in Flocq binary64; triangle inequality for the cross product, running error analysis of both sums, quotient and square; on-axis failure by case analysis. Theorems: `C181_accuracy`.
* **C182** A computed thrust is at most 1 — partial **refuted as stated**. as C176; counterexample evaluated in the kernel. Theorems: `C182_bound_partial`, `C182_thrust_above_one_refuted`.
* **C183** divmod of codes by statuses — partial **refuted as stated**. as C178; counterexample by computation. Theorems: `C183_other_class_partial`, `C183_refuted`.
* **C184** Tables of pairs — partial **refuted as stated**. shape check of the class constructor. Theorems: `C184_outer_refuted`, `C184_outer_partial`.
* **C185** The spherocity objective is defined along every axis — partial **refuted as stated**. as C181; on-axis failure by case analysis on the sign of the momentum. Theorems: `C185_defined_partial`, `C185_on_axis_refuted`.
* **C186** The C-parameter is accurate in doubles — proved. Floats2.v `f_c_parameter`; forward error analysis through both loops. Theorems: `C186_accuracy`, `C186_errors`.
* **C187** Clustering coefficients of dense neighbourhoods — partial **refuted as stated**. as C173; the counting loop saturates; complete graph by a closed form. Theorems: `C187_saturation_partial`, `C187_refuted`.
* **C188** Indexing one colour gives a one-particle ColorArray — partial **refuted as stated**. Arrays.v `color_get` with an integer key; witness. Theorems: `C188_single_color_refuted`, `C188_single_color_flat_partial`.
* **C189** copy and subscripts keep edge weights — partial **refuted as stated**. Composite.v `graph_copy`, `graph_get`; witness. Theorems: `C189_copy_weights_refuted`, `C189_weights_dropped_partial`.
* **C190** Ordering comparisons of momentum and colour arrays give masks — partial **refuted as stated**. ArrayOps.v `ufunc_cmp` on record classes. Theorems: `C190_momentum_comparison_refuted`, `C190_record_comparison_fails`.
* **C191** Shifting by zero keeps infinite momenta — partial **refuted as stated**. Floats3.v; NaN from 0 * inf. Theorems: `C191_infinite_partial`, `C191_refuted`.
* **C192** Masses in GeV are the nearest doubles — partial **refuted as stated**. PdgTable.v; counterexample evaluated in the kernel. Theorems: `C192_refuted`.
* **C193** combined_mass of one particle is its mass — partial **refuted as stated**. Floats.v `f_combined`; computed witness. Theorems: `C193_combined_refuted`.
* **C194** partitioning the hierarchy of an event by nearest parton — proved. Hierarchy.v `hierarchy` composed with Partition.v `partition_descendants`; tree lemmas of HierMain.v and PartProofs.v. Theorems: `C194_partitioned_hierarchy`.
* **C195** combined_mass of many particles in floating point — proved. Floats.v `f_sum`, `f_minkowski`, `f_combined`; forward error of any summation tree followed by C149. Theorems: `C195_combined`, `C195_physical`.
* **C196** azimuth gradient of the spherocity objective in floating point — proved. Floats5.v `f_spherocity_with_grad`; forward error calculus (`ap`) through every operation of the loop body, against the exact derivative of C73. Theorems: `C196_azimuth_gradient`.
* **C197** inclination gradient of the spherocity objective in floating point — proved. as C196, against the exact formula of C74. Theorems: `C197_inclination_gradient`.
* **C198** combined_mass never fails on finite momenta — proved. Floats6.v `f_combined_mass`; induction on the addition tree: one non-negative leaf, the others non-positive. Theorems: `C198_total`.
* **C199** combined_mass is right at every magnitude — partial **refuted as stated**. as C198; overflow of the square; accuracy from C195. Theorems: `C199_small_partial`, `C199_overflow_refuted`.
* **C200** rotation matrices in floating point — proved. Floats7.v `f_rotation_value`; matrix products as every order of additions with or without fma; forward error calculus against the exact rotation of C86. Theorems: `C200_rotation_matrix`, `C200_value_exists`, `C200_keeps_lengths`.
* **C201** splitting a momentum in floating point — proved. Floats7.v `f_split_value`; error calculus for the first child, C146 (subtraction) for the second. Theorems: `C201_first_child`, `C201_conservation`.
* **C202** a split by the angle zero is exactly collinear — proved. as C200: products with an exact zero and the identity are exact. Theorems: `C202_identity`, `C202_collinear`.
* **C203** the weighted centroid in floating point — proved. Floats7.v `f_centroid_value`; error of numerator and denominator sums (C145), then of the quotient. Theorems: `C203_accuracy`.
* **C204** the centroid of one particle is that particle — partial **refuted as stated**. as C203; explicit witness. Theorems: `C204_single_partial`, `C204_single_refuted`.
* **C205** partitioning again forgets the earlier partition — proved. Partition.v; leafwise composition of two partitions: neither the touched vertices nor the partons at them change (P_Part2.v). Theorems: `C205_repartition`, `C205_idempotent`.
* **C206** each hadron goes to the parton at the least weighted distance — proved. PartDist.v instantiates Partition.v with the entries of parton_hadron_distance and argmin's order; SpecPartDist.v defines the claim. Theorems: `C206_matrix`, `C206_claimed`, `C206_unique`, `C206_exponent_zero`.
* **C207** a negative exponent makes the partition infrared safe — proved. monotonicity of the real power and C206. Theorems: `C207_soft_parton_claims_nothing`, `C207_collinear`.
* **C208** Partitioning does not depend on the order of the records — proved. SpecReorder.v; the leafwise invariant of PartProofs.v transported along the permutation (P_Equiv2.v). Theorems: `C208_partition`.
* **C209** Which hadrons a hard parton owns does not depend on the order of the records — proved. C40 for both events and the permutation of reach (P_Equiv3.v). Theorems: `C209_hard_descendants`.
* **C210** The nesting of the hierarchy does not depend on the order of the records — proved. ancestry and closest ancestors are preserved by the permutation; C45 describes both trees by chains of closest ancestors (P_Equiv3.v). Theorems: `C210_nesting`.
* **C211** The partition depends on distances only through their order — proved. SpecPartOrder.v; the nearest parton is the same under both strategies, so both runs meet one deterministic description (P_Part4.v). Theorems: `C211_order_only`.
* **C212** Turning or rescaling the event does not change the partition — proved. C211 with phd_entry of the transformed momenta: equal (rotation) or multiplied by c^e (units). Theorems: `C212_turned`, `C212_units`, `C212_hadron_magnitudes`.
* **C213** Boosting the event along the beam does not change the partition — partial **refuted as stated**. witness on P_Part's event with pseudorapidities ln 3, -ln 4 and 0; C211 for massless particles. Theorems: `C213_massless_partial`, `C213_boosted_refuted`.
* **C214** Rounding moves a hadron to another parton only in near ties — proved. Floats8.v; error of a product of two perturbed factors and C174; C49 with the order of doubles (P_Float18.v). Theorems: `C214_accuracy`, `C214_partition`.
* **C215** Pseudorapidities in doubles are the true ones to a few units — proved. error of the cosine through two hypots and a division; arctanh perturbed through ln y <= y - 1, with 1 - cos^2 = pT^2/p^2 (P_Float19.v). Theorems: `C215_accuracy`.
* **C216** delta_R from momenta in doubles — proved. C215 for both particles, C174 for the distance of the rounded pseudorapidities, hypot is Lipschitz (P_Float19.v). Theorems: `C216_accuracy`.
* **C217** The text of an array is numpy's text, aligned — proved. ArrayText.v; splitting inverts joining, induction over the lines (P_ArrayText.v). Theorems: `C217_one_line`, `C217_lines`, `C217_faithful`.
* **C218** Candidates of equal pT raise ZeroDivisionError in doubles too — partial **refuted as stated**. Floats9.v; every tree over three equal leaves gives one sum, evaluated; one or two leaves are exact (P_Float20.v). Theorems: `C218_equal_pt_refuted`, `C218_two_partial`, `C218_result_exists`.
* **C219** Assignment costs in doubles are numbers between 0 and 2, in the right order — proved. the two-step product a*d*d is minus a monotone function of |d| or minus infinity; rounding is monotone (P_Float20.v). Theorems: `C219_range`, `C219_order`, `C219_zero`.
* **C220** Any non-zero spread of the candidates is enough for arg_closest — partial **refuted as stated**. evaluated witness; C219 for the positive part (P_Float20.v). Theorems: `C220_tiny_spread_refuted`, `C220_usable_partial`.
* **C221** The computed rapidity is accurate to a few units for every time-like particle — proved. relative error of (E+|pz|)/(E-|pz|) is at most 3.2 units because each of sum, difference and quotient is one rounding; ln is Lipschitz there (P_Float21.v). Theorems: `C221_accuracy`.
* **C222** delta_R with pseudo=False is accurate from the momenta — proved. C221 for both particles composed with C174 and the 1-Lipschitz Euclidean norm (P_Float21.v). Theorems: `C222_accuracy`.
* **C223** from_spherical_uniform keeps energy and momentum consistent in doubles — proved. Floats10.v; error calculus of P_Float14 relative to sqrt(E^2-m^2), whose smallest non-zero value is bounded by the spacing of doubles (P_Float22.v). Theorems: `C223_momenta`, `C223_range`.
* **C224** The mass reported for generated particles — proved. C223 composed with C151 (or C138 for a particle at rest) (P_Float22.v). Theorems: `C224_mass`, `C224_massless`.
* **C225** Pruning depends on the particles only, not on how the event is turned or listed — proved. the distance to the centre is unchanged by a common rotation, term by term; reorderings are permutations of the selected momenta (P_Equiv4.v). Theorems: `C225_turned_centre`, `C225_turned`, `C225_reordered`, `C225_radius`.
* **C226** Pruning massless particles is the same in every frame along the beam — partial **refuted as stated**. positive part from additivity of the massless pseudorapidity; witness computed exactly (P_Equiv4.v). Theorems: `C226_boost_partial`, `C226_boost_refuted`.
* **C227** Aggregated momenta move with the event — proved. boosts and rotations are linear, so they commute with sums; induction over the masks (P_Equiv4.v). Theorems: `C227_boost`, `C227_rotation`.
* **C228** Rounding changes who is pruned only for near ties of the radius — proved. the product with the conjugate phase is within (3k+3) units of the exact rotation in norm, with each product fused or not; perturbing an angle; then as C174 and C215 (Floats11.v, P_Float23.v). Theorems: `C228_distance`, `C228_prune`.
* **C229** From momenta to the graph of near particles — proved. composition: entries of the matrix are the distances, cutting gives the boolean matrix, its True entries are the sorted edge list (P_Graph.v). Theorems: `C229_edges`, `C229_rotation`, `C229_boost`.
* **C230** From momenta to the graph of nearest neighbours — proved. composition with the nearest-neighbour theorem C83 (P_Graph.v). Theorems: `C230_knn_graph`.
* **C231** Cutting and choosing neighbours in doubles is exact — proved. embedding of doubles into reals with infinities and NaN commutes with every step (Floats12.v, P_Float24.v). Theorems: `C231_cut`, `C231_knn`.
* **C232** The graph of near particles in doubles — proved. C231, C216 per entry, symmetry of the computed matrix bit for bit (P_Float24.v). Theorems: `C232_edges`, `C232_same`.
* **C233** The graph of nearest neighbours in doubles — proved. C231, C83 on the embedded matrix, C216 per entry (P_Float24.v). Theorems: `C233_knn`.
* **C234** Clustering coefficients from momenta, in the arithmetic the code uses — proved. C232's edges, counting in single precision exact below 2^24, one rounding of the quotient (Floats13.v, P_Float25.v). Theorems: `C234_distribution`.
* **C235** The variance of doubles — proved. error of a sum in any order twice (C145), the squares, the shift of the mean (P_Float26.v). Theorems: `C235_variance`.
* **C236** The assignment costs in doubles are near the exact ones — proved. C174 for distances, deviation of perturbed samples, C235, the exponent by four roundings, Lipschitz bounds of the Gaussian (P_Float26.v). Theorems: `C236_costs`.
* **C237** The computed assignment is nearly the best one — proved. perturbation of a minimum over matchings (P_Float26.v). Theorems: `C237_near_best`, `C237_same`.
* **C238** arg_closest from momenta, in the arithmetic the code uses — proved. C222 for every distance, the two halves of C236 with the larger distance error, C237's perturbation, matchings of all rows as injections (Floats14.v, P_Float27.v). Theorems: `C238_assignment`, `C238_same`, `C238_failure`.
* **C239** The partition from momenta, in the arithmetic the code uses — proved. C216 for the distance, the power of a perturbed base, one product; then C49 with the computed comparison (Floats15.v, P_Float28.v). Theorems: `C239_accuracy`, `C239_partition`.
* **C240** What soft_hard_axis returns, in the arithmetic the code uses — proved. Selection by argmin over any weak order of doubles, the error of one cross product, Lipschitz bounds of unit vectors (Floats16.v, P_Float29.v). Theorems: `C240_axis`, `C240_orthogonal`.
* **C241** Splitting the hardest particle, in the arithmetic the code uses — proved. The choice of C240 and the accuracy of C201 (Floats16.v, P_Float29.v). Theorems: `C241_rejects`, `C241_result`, `C241_outcome`.
* **C242** Subscripts with an Ellipsis, or tuples of other lengths — proved. Expansion of the Ellipsis to [:], the result's shape from the items, and the converter on shapes of any length agree with C47's and C164's subscripts (ExtKeys.v, P_ExtKeys.v). Theorems: `C242_one_axis`, `C242_two_axes`, `C242_rejects`, `C242_all_cases`.
* **C243** Subscripts with None — proved. The shape of the indexed array for p Nones in front and q behind, then the converter's test of its second axis; for edges the shape is dropped by reshape (ExtKeys.v, P_ExtKeys.v). Theorems: `C243_edges`, `C243_one_column`, `C243_momentum`, `C243_moved`, `C243_color`.
* **C244** Coordinates of the sum of an event, in the arithmetic the code uses — proved. The sums by C145, then C215's and C221's accuracy at the summed vector (Floats17.v, P_Float30.v). Theorems: `C244_coords`.
* **C245** centroid_prune about its default centre, in the arithmetic the code uses — proved. C244 for the particles under the mask, then C228 about that centre (Floats17.v, P_Float30.v). Theorems: `C245_prune`.
* **C246** combined_mass with weights, in the arithmetic the code uses — proved. Each product rounds once (Flocq), so each component's sum moves by one unit of its magnitudes; then C199's bound for the products (Floats18.v, P_Float31.v). Theorems: `C246_weighted`.
* **C247** A mirrored event measures the same, bit for bit — proved. Rounding to nearest is odd (Flocq): quotients, products and sums of opposites are opposite, up to the sign of a zero that the even hypot and the squares remove (P_Float32.v). Theorems: `C247_coordinates`, `C247_distances`, `C247_mass`, `C247_event_mass`.
* **C248** Selecting particles before or after measuring distances is the same, bit for bit — proved. Each entry depends only on its two particles, and not on their order (C140); the positions of a mask are distinct (P_Float33.v). Theorems: `C248_selection`, `C248_mask`.

## 5. Files (`rocq/theories`)

* `Prelude.v` — Shared vocabulary of the model: Python exceptions as values, lists as numpy vectors. No graphicle code is modelled in this file.
* `Keys.v` — Subscript keys accepted by the graphicle arrays and their numpy resolution to positions.
* `Dict.v` — Python's insertion-ordered dictionary (dict / OrderedDict) with string keys, as an association list in insertion order. Backs MaskGroup._mask_arrays (data.py 716-718).
* `MaskTypes.v` — Values of the mask composite:
* `SpecMask.v` — What the mask properties mean, independently of the code. Only the type of mask values is imported.
* `Mask.v` — Model of MaskArray / MaskGroup operations (data.py 460-1026) and leaf_masks (select.py 877-919) on mask values.
* `MaskProofs.v` — Lemmas about the mask model. Property theorems are in P_Mask.v.
* `P_Mask.v` — Property theorems about mask values: C01-C08, C10-C13.
* `MaskHeap.v` — Reference-level model of masks: Python objects in a heap, so that aliasing and in-place mutation can be observed. data.py 460-1026.
* `SpecHeap.v` — What a reference shows: the mask value a reader sees through it, and the objects it can reach. Depends only on the heap representation.
* `MaskHeapProofs.v` — A set of references closed under following pointers.
* `P_MaskHeap.v` — Property C09: copies of masks are isolated from their originals, over every history of mutations.
* `SpecArray.v` — Vocabulary for the properties of the particle data arrays. Imports no model file.
* `Arrays.v` — Model of the particle data arrays:
* `ArraysProofs.v` — * Wrap-around
* `P_Arrays.v` — Properties C14-C22: particle data arrays.
* `Composite.v` — Model of the composites ParticleSet (data.py 2210-2400) and Graphicle (2680-2889), with their shared helpers (2150-2192).
* `SpecComposite.v` — Vocabulary for the composite properties: rows, alignment, selection.
* `CompositeProofs.v` — * Storage of each class
* `P_Composite.v` — Properties C23-C29: ParticleSet and Graphicle.
* `SpecAdj.v` — Vocabulary for the edge-list properties. Imports no model file.
* `Adjacency.v` — Model of AdjacencyList, data.py 2403-2660 (edges, nodes, roots, leaves, matrix, from_matrix, comparison).
* `AdjacencyProofs.v` — * np.unique
* `P_Adjacency.v` — Properties C30-C35: AdjacencyList.
* `Descend.v` — Model of the graph searches of select.py: vertex_descendants (254-288), edge_descendants (291-316), hadron_vertices (319-343), find_vertex (168-251).
* `DescendProofs.v` — * Breadth first search
* `P_Descend.v` — Properties C36-C39: graph searches.
* `SpecHard.v` — Vocabulary for the hard-process properties. Imports no model file.
* `Hard.v` — Model of the hard-process functions of select.py:
* `HardProofs.v` — * Names
* `P_Hard.v` — Properties C40-C43: names and descendants of the hard partons.
* `Hierarchy.v` — Model of the hierarchy of the hard process, select.py 479-609 and 716-874.
* `SpecHier.v` — Vocabulary for the hierarchy properties. Imports no model file.
* `HierProofs.v` — * Stable sort
* `TreeProofs.v` — * Chains
* `HierEvent.v` — The hierarchy of an event, from the tree built on its ancestry matrix.
* `HierMain.v` — What the hierarchy of an event contains.
* `HierOrder.v` — Order-theoretic facts about the ancestry of hard partons.
* `P_Hier.v` — Properties C44-C48: the hierarchy of the hard process.
* `SpecPart.v` — Vocabulary for the partition properties. Imports no model file.
* `Partition.v` — Model of partition_descendants and its helpers, select.py 346-476.
* `PartProofs.v` — Lemmas about the partition model.
* `P_Part.v` — C49, C50: partitioning of hadrons among the partons ending at their vertex.
* `SpecSelect.v` — Vocabulary for color_singlets, any_overlap and fastjet_clusters. Imports no model file.
* `SelectMisc.v` — Model of color_singlets (select.py 1001-1064), any_overlap (922-944) and the post-processing in fastjet_clusters (58-165).
* `P_Select.v` — C51, C52, C54: color singlets, overlap test, jets.
* `SpecReal.v` — Real-number vocabulary for the kinematics properties. Imports no model file. Exact arithmetic: rounding is not modelled.
* `RealBase.v` — Real functions of the Python math library used by the code: copysign, sqrt, atan2, arctanh. Floating point rounding and the sign of zero are not modelled.
* `Kinem.v` — Model of MomentumArray's derived quantities and transforms (data.py 1308-1803) and of the kinematic helpers in calculate.py, in exact real arithmetic.
* `KinemProofs.v` — Lemmas about the kinematics model.
* `P_Kinem.v` — C57 - C63, C90: masses, rapidities, boosts and rotations.
* `Par.v` — Parallel loops ([numba.prange]) as interleaved iteration bodies on a shared memory.
* `SpecDist.v` — Specification vocabulary for distances and clustering coefficients. Imports no model file.
* `DeltaR.v` — The parallel loops of calculate.py as schedules (see Par.v), and the thread setting.
* `DeltaRProofs.v` — Lemmas about distances and the parallel loops.
* `P_DeltaR.v` — C64 - C67, C76: distances, parallel schedules, thread setting, clustering coefficients.
* `Coords.v` — Model of resultant_coords, centroid_prune and the cached coordinates of MomentumArray.
* `P_Coords.v` — C53, C68, C69, C77 - C80, C93, C94.
* `SpecShapes.v` — Textbook event shapes. Imports no model file.
* `Shapes.v` — Model of the event-shape functions and jaccard_distance of calculate.py.
* `ShapesProofs.v` — Lemmas about the event-shape kernels.
* `P_Shapes.v` — C70 - C75.
* `SpecAssign.v` — Vocabulary for the assignment properties. Imports no model file.
* `Assign.v` — Model of _assignment_cost (calculate.py 915-941) and arg_closest (select.py 1165-1234).
* `AssignProofs.v` — Lemmas about the assignment cost and the assignment itself.
* `P_Assign.v` — C55, C66 (assignment cost), C67 (arg_closest), C91, C92, C95, C96.
* `SpecTag.v` — Vocabulary for the tagging properties. Imports no model file.
* `Tag.v` — Model of monte_carlo_tag, select.py 1237-1396.
* `P_Tag.v` — Properties C56, C97, C98, C99: monte_carlo_tag.
* `SpecMatrix.v` — Vocabulary for the adjacency-matrix properties. Imports no model file.
* `Matrix.v` — Model of matrix.py. Rounding to narrower dtypes is not modelled.
* `P_Matrix.v` — Properties C81 - C85, C100, C101: matrix.py.
* `SpecTransform.v` — Vocabulary for rotations and splittings. Imports no model file.
* `Transform.v` — Model of transform.py.
* `P_Transform.v` — C86 - C89, C102: rotations and splittings (transform.py).
* `SpecKeys.v` — What a subscript key selects, in Python's terms, independently of how the positions are computed. Only the type of keys is imported.
* `P_Keys.v` — Property theorems about subscript keys: C104.
* `ArrayOps.v` — Model of numpy operators and reductions on the particle data arrays (_array_ufunc, data.py 166-234), of their == / != (_array_eq_prep, _array_eq, _array_ne, 237-274), of PdgArray.from_name (1091-1135)
* `P_ArrayOps.v` — Property theorems about operators on the particle data arrays: C105-C115.
* `SpecClusters.v` — Vocabulary for the clusters property. Imports no model file.
* `Clusters.v` — Model of clusters, select.py 1067-1159.
* `ClustersProofs.v` — Lemmas about clusters.
* `P_Clusters.v` — C119: clusters.
* `Records.v` — Model of the record-level protocols of the data classes:
* `SpecRecords.v` — Vocabulary for the record-level properties (C120-C130).
* `P_Records.v` — Property theorems about the record-level protocols: C120-C130.
* `SpecEdge.v` — Vocabulary for degenerate kinematics: momenta along the beam, at rest, on or outside the light cone. Imports no model file.
* `P_Edge.v` — C131 - C137: degenerate kinematics.
* `P_Edge2.v` — C133 - C137: degenerate kinematics in shift_eta, weighted_centroid, parton_hadron_distance, centroid_prune and arg_closest.
* `SpecIEEE.v` — Vocabulary for the floating-point properties (C138 onwards):
* `Floats.v` — Models in IEEE 754 binary64 arithmetic (round to nearest, ties to even) of the compiled numeric kernels of calculate.py and of the float steps of transform.py and data.py:
* `FloatBase.v` — Facts about the double-precision operations used by the floating-point proofs.
* `FloatOps.v` — Symmetries of the double-precision operations: they hold for every pair of doubles, infinities and NaN included.
* `P_Float.v` — Properties of the compiled kernels in IEEE double arithmetic.
* `P_Float2.v` — Properties of the compiled kernels in IEEE double arithmetic, continued: the Jaccard distance.
* `P_Float3.v` — Properties of the float steps of transform.py, data.py and np.sum in IEEE double arithmetic.
* `P_Float4.v` — Pseudorapidity, three-norm and mass in IEEE double arithmetic.
* `P_Float5.v` — The two masses (pmu.mass and combined_mass) in IEEE double arithmetic.
* `P_Tight.v` — Further theorems for C109, C113, C114 and C130, written after edited models survived the first versions (seeded/LOG.jsonl).
* `Floats2.v` — More of calculate.py in IEEE doubles (continues Floats.v): the C-parameter.
* `P_Float6.v` — The C-parameter in IEEE double arithmetic.
* `SpecMemory.v` — Specification of memory sharing: who can observe a write. Independent of the model in Memory.v.
* `Memory.v` — Reference-level model of the array classes and of ParticleSet / Graphicle:
* `MemoryProofs.v` — Ownership argument for Memory.v: every object and buffer belongs to one of two sides.
* `P_Memory.v` — C152 - C155: which objects share memory, for every program.
* `SpecCache.v` — Specification for AdjCache.v: what the programs on one AdjacencyList should return, and what they do return.
* `AdjCache.v` — The cached properties of AdjacencyList (data.py:2486-2508) under writes to the edges: reference-level model of one instance.
* `P_AdjCache.v` — C156: the cached quantities of an AdjacencyList, for every history of reads and writes.
* `P_IRC.v` — C157, C158: event shapes under collinear splitting, soft emission, rotation and rescaling. Exact arithmetic.
* `P_Coords2.v` — C159: invariant masses of sums; C160: the coordinates determine the momentum. Exact arithmetic.
* `P_Equiv.v` — C161 - C163: vertex labels and record order carry no meaning; descendants of descendants.
* `TupleKeys.v` — Model of subscripts that are tuples, [x[k1, k2]]:
* `P_TupleKeys.v` — C164: subscripts with two keys, [x[rows, columns]].
* `MaskText.v` — Model of the text output of mask groups:
* `P_MaskText.v` — C165, C166: text output and to_dict of mask groups.
* `Floats3.v` — Boosts and rotations of momenta in IEEE doubles:
* `P_Float7.v` — Boosts and rotations in IEEE double arithmetic.
* `P_Order.v` — C170: the order of the particles carries no meaning.
* `PdgTable.v` — Model of the properties PdgArray reads from the lookup table of the mcpid package:
* `P_PdgTable.v` — C171, C172: properties read from the particle table.
* `Floats4.v` — Clustering coefficients in the arithmetic the code uses:
* `P_Float8.v` — C173: clustering coefficients in the single-precision arithmetic of the code.
* `P_Float9.v` — Accuracy of the distances of delta_R in IEEE double arithmetic (C174, C175).
* `Floats5.v` — The objectives of thrust and spherocity in IEEE doubles (continues Floats2.v; the exact-arithmetic models are in Shapes.v).
* `P_Float10.v` — The objectives of thrust and spherocity in IEEE doubles (C176, C177).
* `SpecUfunc.v` — Specification vocabulary for the numpy ufunc methods on arrays. Independent of the model in UfuncMethods.v.
* `UfuncMethods.v` — Model of the remaining courses of _array_ufunc (data.py 166-234): ufuncs with two results (divmod), and the methods "accumulate", "outer" and "at" (continues ArrayOps.v).
* `P_UfuncMethods.v` — Property theorems about divmod and the ufunc methods accumulate, outer and at: C178-C180.
* `PiBits.v` — The double nearest to pi: Machin's series bounds PI closely enough.
* `P_Float11.v` — The gradient of the thrust objective in IEEE doubles (C176, continued).
* `P_Float12.v` — The spherocity objective in IEEE doubles (C181).
* `P_Pipeline.v` — C194: the two-step analysis partition_descendants(graph, hierarchy(graph)).
* `P_Float13.v` — C195: combined_mass of any number of particles in IEEE doubles.
* `P_Float14.v` — The gradient of the spherocity objective in IEEE doubles (C196, C197).
* `Floats6.v` — combined_mass with its floating-point warnings (continues Floats.v).
* `P_Float15.v` — combined_mass at every magnitude: C198, C199.
* `Floats7.v` — Model of rotation_matrix and split_momentum (transform.py) in IEEE doubles.
* `P_Float16.v` — rotation_matrix and split_momentum in IEEE doubles (C200-C202).
* `P_Float17.v` — weighted_centroid in IEEE doubles (C203, C204).
* `SpecPartDist.v` — Vocabulary for the distance by which hadrons are shared out. Imports no model file.
* `PartDist.v` — The distances partition_descendants uses (continues Partition.v and Matrix.v).
* `P_Part2.v` — C205, C206: partitioning twice, and partitioning by the distances of parton_hadron_distance.
* `P_Part3.v` — C206, C207: hadrons go to the parton at the least pT-weighted distance.
* `SpecReorder.v` — Vocabulary for C208-C210:
* `P_Equiv2.v` — C208-C210: the order of the particle records carries no meaning for the partition, the hard partons' descendants and the nesting of the hierarchy.
* `P_Equiv3.v` — C209, C210: the order of the particle records carries no meaning for the hard partons' descendants and the nesting of the hierarchy.
* `SpecPartOrder.v` — Vocabulary for C211: two ways of measuring that order the partons alike. Imports no model file.
* `P_Part4.v` — C211-C213: the partition depends on the distances only through the order in which they put the partons; turning and rescaling the event; boosting it.
* `Floats8.v` — parton_hadron_distance and the choice of the nearest parton in doubles (continues Floats.v).
* `P_Float18.v` — C214: the weighted distances and the partition in IEEE doubles.
* `P_Float19.v` — Accuracy of the pseudorapidity (MomentumArray.eta) and of delta_R with pseudo=True, from the momenta, in IEEE doubles (C215, C216).
* `ArrayText.v` — Model of _array_repr (data.py 277-292), the text of every array class and of AdjacencyList (data.py 521-522, 1150-1151, 1432-1433, 1854-1855, 1956-1957, 2050-2051, 2451-2452).
* `P_ArrayText.v` — C217: the text of an array.
* `Floats9.v` — The cost matrix of arg_closest in doubles: _assignment_cost, calculate.py 915-941 (continues Floats.v).
* `P_Float20.v` — The cost matrix of arg_closest in doubles (C218, C219).
* `P_Float21.v` — Accuracy of the rapidity and of delta_R with pseudo=False, from the momenta, in IEEE doubles (C221, C222).
* `Floats10.v` — MomentumArray.from_spherical_uniform in IEEE doubles. The random numbers, the library's arccos and complex exponential are parameters.
* `P_Float22.v` — from_spherical_uniform in IEEE doubles (C223, C224).
* `P_Equiv4.v` — Pruning and aggregation in a turned, boosted or reordered event (C225 - C227).
* `Floats11.v` — centroid_prune in IEEE doubles, select.py 940-998, with a given centre (continues Coords.v and Floats.v).
* `P_Float23.v` — Accuracy of centroid_prune in IEEE doubles (C228).
* `P_Graph.v` — From momenta to a graph: matrix.delta_R_aff, matrix.cut_adj / knn_adj, AdjacencyList.from_matrix (C229, C230).
* `Floats12.v` — matrix.py in IEEE doubles: delta_R_aff, cut_adj, knn_adj (continues Matrix.v and Floats.v).
* `P_Float24.v` — matrix.py in IEEE doubles (C231, C232, C233).
* `Floats13.v` — cluster_coeff_distbn in the arithmetic the code uses: double precision distances, single precision coefficients (continues Floats4.v and Floats12.v).
* `P_Float25.v` — Clustering coefficients from momenta, in doubles and floats (C234).
* `P_Float26.v` — Accuracy of the cost matrix of arg_closest, and of the assignment, in doubles (C235, C236).
* `Floats14.v` — arg_closest in doubles, select.py 1165-1234 (continues Floats9.v).
* `P_Float27.v` — arg_closest in doubles, from the four-momenta to the indices (C238).
* `Floats15.v` — The partition in doubles from the momenta of the event (continues Floats8.v).
* `P_Float28.v` — The weighted distances and the partition in doubles, from the momenta (C239).
* `Floats16.v` — soft_hard_axis and split_hardest in doubles (continues Floats7.v).
* `P_Float29.v` — The axis of the softest and the hardest particle, and splitting the hardest one, in doubles (C240, C241).
* `ExtKeys.v` — Model of subscripts with Ellipsis, None (numpy.newaxis) and tuples of any length (continues TupleKeys.v).
* `P_ExtKeys.v` — C242, C243: subscripts with Ellipsis, None (numpy.newaxis) and tuples of any length.
* `Floats17.v` — resultant_coords, calculate.py 90-133, and centroid_prune about its default centre, select.py 977-998, in IEEE doubles (continues Floats11.v).
* `P_Float30.v` — resultant_coords and the default centre of centroid_prune in IEEE doubles (C244, C245).
* `Floats18.v` — combined_mass with weights in IEEE doubles (continues Floats6.v).
* `P_Float31.v` — C246: combined_mass with weights in IEEE doubles.
* `P_Float32.v` — C247: mirrored events in IEEE doubles.
* `P_Float33.v` — C248: distances of selected particles, in IEEE doubles.

## 6. `Print Assumptions` of every property theorem

**Closed under the global context (no axiom)** (282 theorems): C01_bitwise_broadcast, C01_comparison_needs_equal_length, C01_operators_elementwise, C02_data_aggregates, C02_data_raises_otherwise, C03_slice_commutes_with_data, C03_slice_keeps_structure, C04_entries_are_all_paths, C04_flatten_rise, C04_flatten_rise_raises, C05_rise_keeps_last_partial, C05_rise_loses_masks_refuted, C06_flatten_agg, C06_flatten_agg_raises, C07_leaf_masks, C08_recursive_drop, C09_copy_histories, C09_copy_isolated, C09_recursive_drop_copies, C09_recursive_drop_inplace, C10_serialize_roundtrip, C11_serialize_changes_data_refuted, C11_serialize_keeps_data_and_only_partial, C12_equal_to_decides_same, C12_equal_to_equivalence, C12_equal_to_ignores_agg_op, C13_refines_ordered_map, C13_select_names, C14_mask_sign_insensitive, C14_mask_sign_sensitive, C15_data_sign_irrelevant_partial, C15_negative_target_refuted, C15_negative_target_selects_nothing, C16_in_range, C17_disjoint, C17_hard_mask, C18_edges_by_name, C18_edges_reject, C18_momentum_by_name, C18_momentum_rejects, C19_color_in_order_partial, C19_color_swapped_refuted, C20_columns, C20_elements_kept, C20_momentum_rows, C20_one_column, C21_out_of_range, C21_single_codes, C21_single_edge, C21_single_mask, C21_single_momentum, C22_pairs_stored_exactly, C22_stored_exactly_when_fits, C22_stored_modulo, C23_graph, C23_invalid_key, C23_particle_set, C24_both_marks, C24_chained_graph, C24_chained_particle_set, C24_masks, C25_graph, C25_particle_set, C26_copy_records, C27_any_input, C27_lhe_event, C28_event_untouched_partial, C28_event_untouched_refuted, C29_graph, C29_particle_set, C29_rebuild, C30_nodes, C31_empty, C31_leaves, C31_roots, C32_counts, C32_instance, C32_totals, C32_weighted, C33_isolated_removed, C33_round_trip, C33_self_loops, C34_compare_edge, C34_edges_are_rows, C34_other_lengths, C35_always_raises, C35_compare_lists_refuted, C35_one_against_two_partial, C36_closed, C36_vertex_descendants, C37_edge_descendants, C37_reach, C38_hadron_vertices, C38_lengths, C39_errors, C39_find_vertex, C40_count, C40_hard_descendants, C41_prefix_partial, C41_target_partial, C41_target_refuted, C42_selected, C42_target_errors, C43_names, C44_nothing_between, C44_one_parent, C44_parent_map, C45_no_intermediate, C45_precomputed, C45_terminates, C45_tree, C46_kept_lines_partial, C46_kept_partial, C46_refuted, C47_exact, C47_latent, C48_leaf_exact_partial, C48_refuted, C49_nearest_exists, C49_partition_descendants, C50_coverage, C50_disjoint_leaves, C51_color_singlets, C51_color_singlets_invert, C52_any_overlap_refuted, C52_overlap_pairs_partial, C52_too_few_partial, C54_fastjet_clusters, C54_invalid_args, C67_arg_closest, C67_calls, C67_restored, C67_thread_scope, C82_complete, C82_negative, C103_comparison_length_mismatch, C103_mask_comparison_partial, C103_mixed_masks_comparable_refuted, C104_key_positions, C104_selection_unique, C104_subscript_elements, C104_subscript_rows, C105_flat_arrays, C105_flat_scalar, C105_lengths_must_agree, C105_momentum, C105_unary, C106_flat_comparison, C107_mixing_classes_refuted, C107_mixing_flat_partial, C107_mixing_never_works, C108_weights_partial, C108_weights_refuted, C109_axes, C109_flat_sum, C109_momentum_sum, C110_last_axis_partial, C110_last_axis_refuted, C111_division_partial, C111_division_refuted, C112_flat_equality, C112_record_equality, C113_ragged_width_partial, C113_rows_partial, C113_rows_refuted, C114_all_codes, C114_names_roundtrip, C114_unknown_name, C115_structured_masks, C116_assignment, C116_bad_path, C116_group, C116_rebind, C116_wrong_kind, C117_truth, C118_data_failures, C120_codes, C120_edges, C120_momenta, C121_absent_value_refuted, C121_index_partial, C121_index_refuted, C121_index_rows_partial, C121_mask_index_partial, C122_graph_table, C122_particle_table, C122_unknown_code, C123_edges_only_partial, C123_edges_only_refuted, C124_from_event, C124_no_final_mask, C124_roundtrip, C124_weights, C125_lookup, C125_malformed, C125_nested_dict, C126_iterator_partial, C126_iterator_refuted, C127_group_partial, C127_is_C01_partial, C127_order_partial, C127_order_refuted, C128_inplace_codes, C128_inplace_masks, C128_inplace_momenta, C129_failed_inplace_partial, C129_failed_inplace_refuted, C130_different_sets_equal_refuted, C130_equality_partial, C130_final_lengths_partial, C130_graph_cases_partial, C130_graphs_partial, C130_same_sets_unequal_refuted, C152_copies_isolated, C152_selections_isolated, C153_selection_partial, C153_selection_refuted, C153_steps, C154_components_partial, C154_components_refuted, C154_integer, C155_construct_partial, C155_construct_refuted, C156_frozen_partial, C156_settled_partial, C156_stale_refuted, C161_edges, C161_hard, C161_vertices, C162_masks, C162_vertices, C163_refuted, C163_sink_partial, C163_transitive_partial, C164_color_column_partial, C164_edges_column_partial, C164_momentum_block_partial, C164_momentum_column_partial, C164_momentum_paired_partial, C164_momentum_repeated_partial, C164_one_column, C164_one_number_partial, C164_one_record_partial, C164_refuted, C165_repr, C165_text, C166_errors, C166_to_dict, C178_same_class, C178_scalar, C178_zero_divisor, C179_accumulate, C179_axes, C179_momentum, C180_add_at, C180_at, C180_bad_index, C180_bad_values, C183_other_class_partial, C183_refuted, C184_outer_partial, C184_outer_refuted, C188_single_color_flat_partial, C188_single_color_refuted, C189_copy_weights_refuted, C189_weights_dropped_partial, C190_momentum_comparison_refuted, C190_record_comparison_fails, C194_partitioned_hierarchy, C209_hard_descendants, C217_faithful, C217_lines, C217_one_line, C242_all_cases, C242_one_axis, C242_rejects, C242_two_axes, C243_color, C243_edges, C243_momentum, C243_moved, C243_one_column.

**`ClassicalDedekindReals.sig_forall_dec`** (4 theorems): C69_wrong_length, C83_dtype_error, C84_negative_count_refuted, C84_range_refuted.

**`Classical_Prop.classic`** (6 theorems): C161_partition, C205_idempotent, C205_repartition, C208_partition, C210_nesting, C211_order_only.

**`ClassicalDedekindReals.sig_forall_dec`, `FunctionalExtensionality.functional_extensionality_dep`** (19 theorems): C66_clust_coeffs, C69_aggregate, C75_jaccard, C75_jaccard_positive, C81_errors, C81_unweighted, C81_weighted, C83_others, C83_others_weighted, C83_runs, C83_self_loops, C83_self_loops_weighted, C84_range_partial, C84_row_orientation_refuted, C84_rows_partial, C100_flags_refuted, C100_singletons_partial, C101_coincident_refuted, C101_others_partial.

**`ClassicalDedekindReals.sig_not_dec`, `ClassicalDedekindReals.sig_forall_dec`, `FunctionalExtensionality.functional_extensionality_dep`** (40 theorems): C57_mass, C59_compose_inverse, C59_shift_rapidity_each, C60_compose_inverse, C60_shift_phi_each, C68_combined_mass, C68_table_rows, C68_weighted, C70_c_parameter, C70_errors, C71_thrust_objective, C71_thrust_result, C72_axis_sign, C72_box_once, C73_parallel_axis_raises, C73_spherocity_objective, C74_inclination_gradient_partial, C74_inclination_gradient_refuted, C86_group, C86_proper, C86_rotation, C87_angle, C87_collinear, C87_errors, C87_split, C93_flat_weights_partial, C93_flat_weights_refuted, C102_always_partial, C102_masses_partial, C102_physical_refuted, C157_collinear, C157_soft, C158_shift_phi, C158_turned, C158_units, C159_particles, C159_parts, C170_weighted_mass, C227_boost, C227_rotation.

**`ClassicalDedekindReals.sig_forall_dec`, `FunctionalExtensionality.functional_extensionality_dep`, `Classical_Prop.classic`** (2 theorems): C170_cut_adj, C170_knn_adj.

**`ClassicalDedekindReals.sig_not_dec`, `ClassicalDedekindReals.sig_forall_dec`, `FunctionalExtensionality.functional_extensionality_dep`, `Classical_Prop.classic`** (246 theorems): C53_centroid_prune_centre, C53_centroid_prune_default, C53_centroid_prune_mask, C55_assignment, C55_runs, C56_both_lists, C56_checks, C56_returns, C56_tagged, C58_light_cone, C58_odd, C58_rapidity, C59_shift_rapidity, C60_shift_phi, C61_shift_eta_experimental, C62_exact_outcome, C62_shift_eta_is_boost, C63_shift_eta_warns_refuted, C63_warning_exact_partial, C64_boost, C64_distance, C64_metric, C64_rotation, C64_triangle, C65_delta_R_aff, C65_same_as_copy, C66_assignment_cost, C66_assignment_cost_exists, C66_delta_R, C66_delta_R_symmetric, C66_schedules_exist, C72_box_covers, C72_global_optimum, C76_cluster_coeff, C77_azimuth_centroid, C77_rapidity_centroid, C78_range, C78_spherical, C79_lower_hemisphere_refuted, C79_upper_hemisphere_partial, C80_fresh_reads_partial, C80_resized_refuted, C80_stale_refuted, C85_entries, C85_exponent_zero, C85_scaling, C88_default_axis, C88_errors, C88_split_hardest, C89_elevation_partial, C89_normal_refuted, C89_only_pi4_partial, C90_massless_partial, C90_shift_eta_misses_refuted, C91_different_pt_partial, C91_equal_pt_refuted, C92_after_raise_refuted, C92_otherwise_partial, C94_centroid_rotation_partial, C94_centroid_rotation_refuted, C95_fewer_candidates_refuted, C95_matching_partial, C96_held_array_refuted, C96_other_arrays_partial, C97_blacklist_inverted_refuted, C97_empty_blacklist_partial, C97_empty_whitelist_ignored_refuted, C98_filtered_partial, C98_no_partons_refuted, C99_first_mismatch_partial, C99_later_mismatch_refuted, C119_clusters, C119_empty, C119_leaf, C131_pseudorapidity, C131_pseudorapidity_unique, C131_rapidity, C131_rapidity_unique, C132_any_pair, C132_beam, C132_total, C133_beam_total, C133_experimental_beam, C133_offshell_total, C133_one_shift, C133_rest_total, C133_wrong_length, C134_beam_particle_refuted, C134_infinite, C134_massive_beam_partial, C134_no_weight, C134_soft_particle_refuted, C135_beam_parton, C136_infinite_centre, C137_infinite_distance, C138_root_diff, C139_finite, C139_nan_energy, C139_odd, C140_symmetric, C141_self_distance, C142_disjoint, C142_equal, C142_range, C142_symmetric, C143_unweighted, C144_three_norm, C145_depth, C145_orders, C145_sum, C146_energy, C146_split, C147_eta_partial, C147_eta_refuted, C148_c_parameter_refuted, C148_range_partial, C149_combined, C150_massless, C151_mass, C160_rebuild, C161_clusters, C167_bound_partial, C167_light_partial, C167_refuted, C167_slowing_partial, C168_finite, C169_boost, C169_rotation, C170_coefficients, C170_distances, C170_sums, C171_columns, C171_unknown, C172_bounds, C172_monotone, C172_units, C173_coefficient, C174_accuracy, C174_threshold, C175_apart_partial, C175_refuted, C176_accuracy, C176_fails, C176_gradient, C177_spherocity, C177_thrust, C181_accuracy, C182_bound_partial, C182_thrust_above_one_refuted, C185_defined_partial, C185_on_axis_refuted, C186_accuracy, C186_errors, C187_refuted, C187_saturation_partial, C191_infinite_partial, C191_refuted, C192_refuted, C193_combined_refuted, C195_combined, C195_physical, C196_azimuth_gradient, C197_inclination_gradient, C198_total, C199_overflow_refuted, C199_small_partial, C200_keeps_lengths, C200_rotation_matrix, C200_value_exists, C201_conservation, C201_first_child, C202_collinear, C202_identity, C203_accuracy, C204_single_partial, C204_single_refuted, C206_claimed, C206_exponent_zero, C206_matrix, C206_unique, C207_collinear, C207_soft_parton_claims_nothing, C212_hadron_magnitudes, C212_turned, C212_units, C213_boosted_refuted, C213_massless_partial, C214_accuracy, C214_partition, C215_accuracy, C216_accuracy, C218_equal_pt_refuted, C218_result_exists, C218_two_partial, C219_order, C219_range, C219_zero, C220_tiny_spread_refuted, C220_usable_partial, C221_accuracy, C222_accuracy, C223_momenta, C223_range, C224_mass, C224_massless, C225_radius, C225_reordered, C225_turned, C225_turned_centre, C226_boost_partial, C226_boost_refuted, C228_distance, C228_prune, C229_boost, C229_edges, C229_rotation, C230_knn_graph, C231_cut, C231_knn, C232_edges, C232_same, C233_knn, C234_distribution, C235_variance, C236_costs, C237_near_best, C237_same, C238_assignment, C238_failure, C238_same, C239_accuracy, C239_partition, C240_axis, C240_orthogonal, C241_outcome, C241_rejects, C241_result, C244_coords, C245_prune, C246_weighted, C247_coordinates, C247_distances, C247_event_mass, C247_mass, C248_mask, C248_selection.

## 7. Findings about the code (each proved, or an Example beside the theorem)

* Masks: `flatten('rise')` loses masks with repeated names (C05); serialisation loses agg_op (C11); comparing a
  MaskGroup with a MaskArray raises TypeError in several orders (C103); `mask & True` raises but `True & mask` works
  (C127); an iterator given as mask becomes `[True]` (C126); a top-level 'latent' is kept by `leaf_masks` but dropped by
  `flatten('rise')`.
* Arrays: negative targets of a sign-insensitive PDG mask select nothing (C15); structured (anticolor, color) input is
  swapped (C19); one record of a ColorArray has length two (C188); ordering comparisons of momenta/colours raise
  ValueError (C190); mixed-class operators raise AttributeError (C107), after writing when in place (C129); per-particle
  weights broadcast along the components (C108); `np.sum(axis=-1)` differs from `axis=1` (C110); dividing integer arrays
  truncates (C111); rows or ndarrays cannot be compared (C113); `index()` returns the start position whatever the value
  (C121); the `data` setter of MomentumArray does not reshape a flat 4-vector; 0-d input to a multi-column array is an
  IndexError; duplicate aliases in a structured momentum keep the last; structured edges with unknown names are read by
  position.
* `x[rows, columns]` builds records from unrelated values (C164).
* Composites: copy and subscript drop edge weights (C189); `from_lhe_event` overwrites the caller's int16 status array
  (C28); `str()` of an edges-only Graphicle shows no rows (C123); `==` compares only presence and lengths, and raises for
  copies of a Graphicle (C130); an integer key on a set with colours misaligns it.
* memory: slices and integer rows are windows on the original's records (C153), integers on a ParticleSet share some
  components only (C154), constructors adopt a matching caller array (C155); graph quantities are frozen at their first
  use whatever is assigned to the edges later (C156).
* AdjacencyList: two lists cannot be compared (C35), except one edge against two, which gives a two-element mask.
* select: the forced record of `hard_descendants` with target is wrong (C41); `hierarchy` can lose a parton (C46) and put a
  parent into a leaf (C48); `any_overlap` always raises (C52); `color_singlets` names shift when a leaf holds several
  outgoing partons; `clusters` raises TypeError when the hierarchy is empty (C119); `arg_closest` raises ZeroDivisionError
  for one candidate or equal pT (C91), leaves a corrupted cache then (C92), overwrites an array the caller holds (C96),
  loses the correspondence with fewer candidates (C95), raises ValueError on infinite distances (C137);
  `monte_carlo_tag` ignores an empty whitelist or inverts the blacklist (C97), fails with TypeError/ZeroDivisionError
  without partons (C98), with IndexError for later masks of another length (C99).
* calculate: spherocity's theta-gradient uses xy where the derivative has xz (C74); `combined_mass` rejects or misreads
  one weight per particle (C93); `weighted_centroid` breaks at the branch cut (C94) and for beam particles of zero
  weight (C134); thread setting: an interrupt between `set_num_threads` and `try` is not modelled.
* rounding: a NaN energy gives an infinite rapidity instead of NaN (C139); weights whose sum overflows make the Jaccard
  distance NaN (C142); pseudorapidity is infinite for every pt <= 2^-28 |pz| (C147); the C-parameter can be negative
  (C148); `combined_mass` of one particle can differ from its `mass` by more than a quarter (C193), and an overflowing
  square is reported as mass 0.0 (the warning is turned into an exception and caught, C199).
* clustering coefficients count links in float32: the count stops at 2^24, so dense neighbourhoods of more than 4097 particles get
  too small coefficients (C187); masses from the particle table are multiplied by 1e-3 instead of divided by 1000 (C192); different
  directions less than 5 units of 2^-53 apart may be at distance exactly 0.0 (C175); a thrust can be 1.0000000000000002 (C182);
  the spherocity objective raises ZeroDivisionError on an axis exactly along a particle (C185).
* array operators: divmod with an array of another class is silently cut to that class's 16 bits (C183); `ufunc.outer` raises
  ValueError for two or more columns (C184).
* a boost can push |pz| above the energy in doubles (C167), and a zero shift makes NaN of infinite components (C191).
* momenta: `shift_eta` stalls for massive totals (C90), raises TypeError for an ndarray shift, silently returns the input for a
  total along the beam and non-finite momenta for a zero or off-shell total (C133); `from_spherical_uniform` covers only
  the upper hemisphere (C79); cached coordinates go stale after assignment and raise after a resize (C80).
* matrix: flags are compared by identity, so `numpy.bool_(False)` adds self loops (C100); `knn_adj` with coincident
  particles gives k+1 (C101), its rows and range of k differ from the documentation (C84).
* transform: the second child of a split may be spacelike (C102); `split_momentum` does not check z; `soft_hard_axis`
  returns the elevation as inclination (C89).
* `partition_descendants` is not invariant under longitudinal boosts of events with massive hadrons (C213).
* `centroid_prune` with its default centre is not invariant under boosts along the beam even for massless particles (C226).
* `arg_closest` of candidates of equal pT raises ZeroDivisionError for one or two of them, but for three the rounded mean may hide the zero variance (C218); a variance below 2^-1024 gives NaN costs (C220).
* the centroid of a single particle may differ from its own coordinate in the last bit (C204).

## 8. Testing the theorems against wrong programs

`seeded/LOG.jsonl` has one line per edited model: the definition, the edit, the claim it breaks, the first statements that
failed in a rebuild, the property theorems that (transitively) rest on them, and the theorems tightened when an edit
survived. Edits were generated mechanically (operators, boundaries, constants, constructors, error classes, swapped
arguments) and by hand (missed case, dropped update, wrong source array, race).

