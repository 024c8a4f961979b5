{
 "claims": [
  {
   "property": "C01",
   "status": "proved",
   "theorems": [
    "C01_operators_elementwise",
    "C01_comparison_needs_equal_length",
    "C01_bitwise_broadcast"
   ],
   "note": "Element-wise operators, comparison length check and length-1 broadcasting of MaskArray; all lists."
  },
  {
   "property": "C02",
   "status": "proved",
   "theorems": [
    "C02_data_aggregates",
    "C02_data_raises_otherwise"
   ],
   "note": "Value of MaskGroup.data for every nested tree and agg_op, and the exceptions it raises."
  },
  {
   "property": "C03",
   "status": "proved",
   "theorems": [
    "C03_slice_commutes_with_data",
    "C03_slice_keeps_structure"
   ],
   "note": "Slicing commutes with data and keeps names/agg_op, every key kind."
  },
  {
   "property": "C04",
   "status": "proved",
   "theorems": [
    "C04_flatten_rise",
    "C04_entries_are_all_paths",
    "C04_flatten_rise_raises"
   ],
   "note": "flatten(\"rise\"): every leaf and every level; raising cases covered."
  },
  {
   "property": "C05",
   "status": "partial",
   "theorems": [
    "C05_rise_loses_masks_refuted",
    "C05_rise_keeps_last_partial"
   ],
   "note": "REFUTED: two entries with the same last name collide and the earlier one is lost; the partial theorem says exactly which survive."
  },
  {
   "property": "C06",
   "status": "proved",
   "theorems": [
    "C06_flatten_agg",
    "C06_flatten_agg_raises"
   ],
   "note": "flatten(\"agg\") and its exceptions."
  },
  {
   "property": "C07",
   "status": "proved",
   "theorems": [
    "C07_leaf_masks"
   ],
   "note": "leaf_masks characterised by paths."
  },
  {
   "property": "C08",
   "status": "proved",
   "theorems": [
    "C08_recursive_drop"
   ],
   "note": "recursive_drop by path lookup at every depth."
  },
  {
   "property": "C09",
   "status": "proved",
   "theorems": [
    "C09_copy_isolated",
    "C09_copy_histories",
    "C09_recursive_drop_copies",
    "C09_recursive_drop_inplace"
   ],
   "note": "Heap model with aliasing; isolation over every interleaved history of the modelled mutations (element write, data rebinding, put, del, agg_op, in-place drop). Recursion limit is a fuel parameter."
  },
  {
   "property": "C10",
   "status": "proved",
   "theorems": [
    "C10_serialize_roundtrip"
   ],
   "note": "serialize / constructor round trip up to agg_op."
  },
  {
   "property": "C11",
   "status": "partial",
   "theorems": [
    "C11_serialize_changes_data_refuted",
    "C11_serialize_keeps_data_and_only_partial"
   ],
   "note": "REFUTED: agg_op is not serialised, so data can change; holds for all-\"and\" trees (partial theorem)."
  },
  {
   "property": "C12",
   "status": "proved",
   "theorems": [
    "C12_equal_to_decides_same",
    "C12_equal_to_equivalence",
    "C12_equal_to_ignores_agg_op"
   ],
   "note": "equal_to decides structural equality; equivalence relation."
  },
  {
   "property": "C13",
   "status": "proved",
   "theorems": [
    "C13_refines_ordered_map",
    "C13_select_names"
   ],
   "note": "Refinement to an abstract insertion-ordered map over every operation history."
  },
  {
   "property": "C14",
   "status": "proved",
   "theorems": [
    "C14_mask_sign_sensitive",
    "C14_mask_sign_insensitive"
   ],
   "note": "int32 wrap-around of abs written out; every array, target and flag. Targets outside int32 (as numpy arrays) would wrap: hypothesis."
  },
  {
   "property": "C15",
   "status": "partial",
   "theorems": [
    "C15_negative_target_refuted",
    "C15_negative_target_selects_nothing",
    "C15_data_sign_irrelevant_partial"
   ],
   "note": "REFUTED: the data are made absolute, the target is not, so negative targets select nothing. Partial: signs of the data are irrelevant for every target."
  },
  {
   "property": "C16",
   "status": "proved",
   "theorems": [
    "C16_in_range"
   ],
   "note": "int16 wrap of abs at -32768 included in the statement."
  },
  {
   "property": "C17",
   "status": "proved",
   "theorems": [
    "C17_hard_mask",
    "C17_disjoint"
   ],
   "note": "Names, order, masks, disjointness and data of hard_mask."
  },
  {
   "property": "C18",
   "status": "proved",
   "theorems": [
    "C18_momentum_by_name",
    "C18_momentum_rejects",
    "C18_edges_by_name",
    "C18_edges_reject"
   ],
   "note": "Every permutation/aliasing; KeyError cases. Structured edge arrays with no recognised field name are read by position (stated in the property)."
  },
  {
   "property": "C19",
   "status": "partial",
   "theorems": [
    "C19_color_swapped_refuted",
    "C19_color_in_order_partial"
   ],
   "note": "REFUTED: (anticolor, color) input is stored swapped. Partial: the order (color, anticolor) is read correctly."
  },
  {
   "property": "C20",
   "status": "proved",
   "theorems": [
    "C20_one_column",
    "C20_columns",
    "C20_elements_kept",
    "C20_momentum_rows"
   ],
   "note": "Shapes of at most two dimensions, any cast; 0-d input to a multi-column array is an IndexError."
  },
  {
   "property": "C21",
   "status": "proved",
   "theorems": [
    "C21_single_codes",
    "C21_single_mask",
    "C21_single_momentum",
    "C21_single_edge",
    "C21_out_of_range"
   ],
   "note": "Every class but ColorArray, which is C188."
  },
  {
   "property": "C22",
   "status": "proved",
   "theorems": [
    "C22_stored_exactly_when_fits",
    "C22_pairs_stored_exactly",
    "C22_stored_modulo"
   ],
   "note": "Two-s complement storage of numpy integer arrays (out-of-range Python ints raise OverflowError in recent numpy: not modelled)."
  },
  {
   "property": "C23",
   "status": "proved",
   "theorems": [
    "C23_particle_set",
    "C23_graph",
    "C23_invalid_key"
   ],
   "note": "Every aligned ParticleSet / Graphicle (components stored as the constructors store them), every mask / integer array / slice key, plus the error for invalid keys. A single integer key is outside the statement: it misaligns sets with colours (Example)."
  },
  {
   "property": "C24",
   "status": "proved",
   "theorems": [
    "C24_chained_particle_set",
    "C24_chained_graph",
    "C24_masks",
    "C24_both_marks"
   ],
   "note": "Composition of position lists for all keys; masks give the composed mask, up to which class default an emptied component takes."
  },
  {
   "property": "C25",
   "status": "proved",
   "theorems": [
    "C25_particle_set",
    "C25_graph"
   ],
   "note": "All aligned composites."
  },
  {
   "property": "C26",
   "status": "proved",
   "theorems": [
    "C26_copy_records"
   ],
   "note": "The event weights never survive a copy: that false expectation is C189."
  },
  {
   "property": "C27",
   "status": "proved",
   "theorems": [
    "C27_lhe_event",
    "C27_any_input"
   ],
   "note": "Exact result for every well-formed event; the sequential in-place recoding is proved equal to the simultaneous table."
  },
  {
   "property": "C28",
   "status": "partial",
   "theorems": [
    "C28_event_untouched_refuted",
    "C28_event_untouched_partial"
   ],
   "note": "REFUTED: a contiguous int16 status array is overwritten through the view. Partial: any other dtype/stride leaves the caller untouched."
  },
  {
   "property": "C29",
   "status": "proved",
   "theorems": [
    "C29_particle_set",
    "C29_graph",
    "C29_rebuild"
   ],
   "note": "Keys and element tuples, Graphicle adds adj, from_numpy of the tuples rebuilds the same records."
  },
  {
   "property": "C30",
   "status": "proved",
   "theorems": [
    "C30_nodes"
   ],
   "note": "Every argsort meeting numpy contract (the default sort is unstable, so ties v/-v are unordered); ids of -2^31 excluded because int32 abs wraps."
  },
  {
   "property": "C31",
   "status": "proved",
   "theorems": [
    "C31_roots",
    "C31_leaves",
    "C31_empty"
   ],
   "note": "Every non-empty multigraph; the empty list raises ValueError (proved)."
  },
  {
   "property": "C32",
   "status": "proved",
   "theorems": [
    "C32_weighted",
    "C32_counts",
    "C32_totals",
    "C32_instance"
   ],
   "note": "Exact arithmetic (any addition); weight vector as long as the edge list. Counts below 2^31 (the int32 cast)."
  },
  {
   "property": "C33",
   "status": "proved",
   "theorems": [
    "C33_round_trip",
    "C33_isolated_removed",
    "C33_self_loops"
   ],
   "note": "Any number type with decidable zero; matrix size at most 2^31 (vertex ids are int32). Isolated and all-zero cases and self_loop=True proved too."
  },
  {
   "property": "C34",
   "status": "proved",
   "theorems": [
    "C34_compare_edge",
    "C34_other_lengths",
    "C34_edges_are_rows"
   ],
   "note": "Elements within int32; other sequences and numpy arrays raise ValueError."
  },
  {
   "property": "C35",
   "status": "partial",
   "theorems": [
    "C35_compare_lists_refuted",
    "C35_always_raises",
    "C35_one_against_two_partial"
   ],
   "note": "REFUTED: every equal-length comparison raises ValueError. Partial: the only pair of lengths that does not raise is 1 against 2."
  },
  {
   "property": "C36",
   "status": "proved",
   "theorems": [
    "C36_vertex_descendants",
    "C36_closed"
   ],
   "note": "Every multigraph (cycles, parallel edges, self loops). scipy breadth_first_tree is modelled as the queue algorithm it implements and proved to terminate."
  },
  {
   "property": "C37",
   "status": "proved",
   "theorems": [
    "C37_edge_descendants",
    "C37_reach"
   ],
   "note": "Endpoints within int32 (adj == edge casts the pair)."
  },
  {
   "property": "C38",
   "status": "proved",
   "theorems": [
    "C38_hadron_vertices",
    "C38_lengths"
   ],
   "note": "Every edge list and int16 statuses; other lengths raise IndexError (proved)."
  },
  {
   "property": "C39",
   "status": "proved",
   "theorems": [
    "C39_find_vertex",
    "C39_errors"
   ],
   "note": "pandas pivot_table/join/explode written out in the model."
  },
  {
   "property": "C40",
   "status": "proved",
   "theorems": [
    "C40_hard_descendants",
    "C40_count"
   ],
   "note": "Every aligned event with int16 statuses; the particle-name table is an arbitrary function (names without colon)."
  },
  {
   "property": "C41",
   "status": "partial",
   "theorems": [
    "C41_target_refuted",
    "C41_target_partial",
    "C41_prefix_partial"
   ],
   "note": "REFUTED: the forced record is that of the j-th parton of the whole hard process, not of the j-th selected one. Partial: exact description of every mask; the promise holds when the target selects a prefix of the hard partons."
  },
  {
   "property": "C42",
   "status": "proved",
   "theorems": [
    "C42_target_errors",
    "C42_selected"
   ],
   "note": "Target codes within int32 other than -2^31."
  },
  {
   "property": "C43",
   "status": "proved",
   "theorems": [
    "C43_names"
   ],
   "note": "Every list of colon-free names; with colons distinctness can fail (example)."
  },
  {
   "property": "C44",
   "status": "proved",
   "theorems": [
    "C44_parent_map",
    "C44_one_parent",
    "C44_nothing_between"
   ],
   "note": "Every square boolean matrix and distinct names."
  },
  {
   "property": "C45",
   "status": "proved",
   "theorems": [
    "C45_terminates",
    "C45_no_intermediate",
    "C45_precomputed",
    "C45_tree"
   ],
   "note": "Every event; recursion depth bounded by the number of hard partons for every ancestry, including cyclic ones. Names colon-free and never \"latent\"."
  },
  {
   "property": "C46",
   "status": "partial",
   "theorems": [
    "C46_kept_partial",
    "C46_kept_lines_partial",
    "C46_refuted"
   ],
   "note": "REFUTED: in the demo event (t b, t -> W b) the b made next to the top is in no mask. Partial: exact condition for a parton to appear."
  },
  {
   "property": "C47",
   "status": "proved",
   "theorems": [
    "C47_latent",
    "C47_exact"
   ],
   "note": "Every event; containment of children is proved (not assumed) when no two particles share a dead-end vertex."
  },
  {
   "property": "C48",
   "status": "partial",
   "theorems": [
    "C48_leaf_exact_partial",
    "C48_refuted"
   ],
   "note": "REFUTED: in the demo event leaf b:1 also holds the top (record 2). Partial: exact contents of every leaf."
  },
  {
   "property": "C49",
   "status": "proved",
   "theorems": [
    "C49_partition_descendants",
    "C49_nearest_exists"
   ],
   "note": "Whole-run theorem over every path of the tree, any momenta, any distance with a strict weak order (no NaN). Hypotheses: generator record with disjoint final descendants, final particles not ending at a hadronisation vertex. 'Input not modified' is the deep copy of C10 (heap model) plus the functional model here."
  },
  {
   "property": "C50",
   "status": "proved",
   "theorems": [
    "C50_disjoint_leaves",
    "C50_coverage"
   ],
   "note": "Disjointness and coverage after the whole run, for any two leaf paths."
  },
  {
   "property": "C51",
   "status": "proved",
   "theorems": [
    "C51_color_singlets",
    "C51_color_singlets_invert"
   ],
   "note": "Every leaf set whose leaves each hold one outgoing parton; set iteration order is arbitrary in the inverted result. An example shows the names shift when a leaf holds two."
  },
  {
   "property": "C52",
   "status": "partial",
   "theorems": [
    "C52_any_overlap_refuted",
    "C52_too_few_partial",
    "C52_overlap_pairs_partial"
   ],
   "note": "REFUTED: raises AttributeError for every MaskGroup (the attribute 'dict' does not exist). Partial: the rest of the body gives the documented answer for at least two masks."
  },
  {
   "property": "C53",
   "status": "proved",
   "theorems": [
    "C53_centroid_prune_centre",
    "C53_centroid_prune_mask",
    "C53_centroid_prune_default"
   ],
   "note": "Every array, radius, centre, mask; default centre is the summed momentum; particles on the beam line are never kept; a total with pT <= 1e-10 keeps nothing. Exact real arithmetic; rounding not modelled."
  },
  {
   "property": "C54",
   "status": "proved",
   "theorems": [
    "C54_fastjet_clusters",
    "C54_invalid_args"
   ],
   "note": "FastJet's clustering is an oracle (the list of jets with constituents); argsort any unstable sort; NaN and awkward-array behaviour on zero jets not modelled."
  },
  {
   "property": "C55",
   "status": "proved",
   "theorems": [
    "C55_runs",
    "C55_assignment"
   ],
   "note": "linear_sum_assignment is a relation (any cheapest maximal matching); costs proved equal to an independent formula on delta_R. Every reachable cache state, every schedule, focus and candidate one object or two. Exact real arithmetic; rounding not modelled."
  },
  {
   "property": "C56",
   "status": "proved",
   "theorems": [
    "C56_checks",
    "C56_tagged",
    "C56_returns",
    "C56_both_lists"
   ],
   "note": "All events with equally long columns, all documented filters; PDG names are a parameter (no colon in a name). C56_returns: optimal assignment under the same conditions as C55. Exact real arithmetic; rounding not modelled."
  },
  {
   "property": "C57",
   "status": "proved",
   "theorems": [
    "C57_mass"
   ],
   "note": "Every momentum. Exact real arithmetic; rounding not modelled."
  },
  {
   "property": "C58",
   "status": "proved",
   "theorems": [
    "C58_rapidity",
    "C58_light_cone",
    "C58_odd"
   ],
   "note": "Every momentum with E - |pz| > 1e-10, and the light-cone band; the sign of a zero pz (-0.0) is not modelled. Exact real arithmetic; rounding not modelled."
  },
  {
   "property": "C59",
   "status": "proved",
   "theorems": [
    "C59_shift_rapidity",
    "C59_shift_rapidity_each",
    "C59_compose_inverse"
   ],
   "note": "Scalar and per-element shifts; original unchanged because the model is functional (the code builds a new array). Exact real arithmetic; rounding not modelled."
  },
  {
   "property": "C60",
   "status": "proved",
   "theorems": [
    "C60_shift_phi",
    "C60_shift_phi_each",
    "C60_compose_inverse"
   ],
   "note": "Scalar and per-element angles. Exact real arithmetic; rounding not modelled."
  },
  {
   "property": "C61",
   "status": "proved",
   "theorems": [
    "C61_shift_eta_experimental"
   ],
   "note": "Every momentum with pT > 0. Exact real arithmetic; rounding not modelled."
  },
  {
   "property": "C62",
   "status": "proved",
   "theorems": [
    "C62_shift_eta_is_boost",
    "C62_exact_outcome"
   ],
   "note": "Every finite run; exact closed form of the outcome for totals with pT > 0 and E > |pz|. Runs in which a correction is infinite are outside (NonFinite). Exact real arithmetic; rounding not modelled."
  },
  {
   "property": "C63",
   "status": "partial",
   "theorems": [
    "C63_shift_eta_warns_refuted",
    "C63_warning_exact_partial"
   ],
   "note": "REFUTED: with max_corrections=1 it warns although the target is met exactly. Partial: with two or more corrections the warning is exact. Exact real arithmetic; rounding not modelled."
  },
  {
   "property": "C64",
   "status": "proved",
   "theorems": [
    "C64_distance",
    "C64_metric",
    "C64_triangle",
    "C64_rotation",
    "C64_boost"
   ],
   "note": "Stated on the matrix returned under any schedule; infinite rapidities included in the triangle inequality; an example shows pT > 0 is needed. Exact real arithmetic; rounding not modelled."
  },
  {
   "property": "C65",
   "status": "proved",
   "theorems": [
    "C65_same_as_copy",
    "C65_delta_R_aff"
   ],
   "note": "Every array, including beam particles (infinite pseudorapidity). Exact real arithmetic; rounding not modelled."
  },
  {
   "property": "C66",
   "status": "proved",
   "theorems": [
    "C66_assignment_cost",
    "C66_assignment_cost_exists",
    "C66_delta_R",
    "C66_delta_R_symmetric",
    "C66_clust_coeffs",
    "C66_schedules_exist"
   ],
   "note": "Loops as interleaved atomic actions on shared memory with arbitrary initial contents; every interleaving of iterations, hence every thread count. Example: overlapping footprints would race. C66_assignment_cost covers the two consecutive loops of the assignment cost."
  },
  {
   "property": "C67",
   "status": "proved",
   "theorems": [
    "C67_arg_closest",
    "C67_thread_scope",
    "C67_restored",
    "C67_calls"
   ],
   "note": "Every nesting, every synchronous exception (raised by a step). An asynchronous interrupt between set_num_threads and the try block is not modelled."
  },
  {
   "property": "C68",
   "status": "proved",
   "theorems": [
    "C68_combined_mass",
    "C68_weighted",
    "C68_table_rows"
   ],
   "note": "Every array; weights as a table of rows. Overflow not modelled. Exact real arithmetic; rounding not modelled."
  },
  {
   "property": "C69",
   "status": "proved",
   "theorems": [
    "C69_aggregate",
    "C69_wrong_length"
   ],
   "note": "Every array and mask list; the partition is any family with exactly one mask per particle. Exact real arithmetic; rounding not modelled."
  },
  {
   "property": "C70",
   "status": "proved",
   "theorems": [
    "C70_c_parameter",
    "C70_errors"
   ],
   "note": "Every non-empty list with non-zero 3-momenta; zero exactly for collinear momenta; empty input or a particle at rest raises (C70_errors). Exact real arithmetic; rounding not modelled."
  },
  {
   "property": "C71",
   "status": "proved",
   "theorems": [
    "C71_thrust_objective",
    "C71_thrust_result"
   ],
   "note": "Value, bounds, and both gradient components as limits; the axis and value returned belong together wherever the optimiser stops. Exact real arithmetic; rounding not modelled."
  },
  {
   "property": "C72",
   "status": "proved",
   "theorems": [
    "C72_box_covers",
    "C72_box_once",
    "C72_axis_sign",
    "C72_global_optimum"
   ],
   "note": "Every unit vector; an optimiser that minimises over the box is shown to be globally optimal. That L-BFGS-B does so is not claimed. Exact real arithmetic; rounding not modelled."
  },
  {
   "property": "C73",
   "status": "proved",
   "theorems": [
    "C73_spherocity_objective",
    "C73_parallel_axis_raises"
   ],
   "note": "Value, bounds, azimuth gradient; an axis along a particle raises ZeroDivisionError (C73_parallel_axis_raises). Exact real arithmetic; rounding not modelled."
  },
  {
   "property": "C74",
   "status": "partial",
   "theorems": [
    "C74_inclination_gradient_partial",
    "C74_inclination_gradient_refuted"
   ],
   "note": "REFUTED: one particle (1,1,0) seen from the z axis has a non-zero returned slope at a stationary point. Partial: the returned component differs from the derivative by an explicit sum that vanishes exactly when the x*(y-z) terms cancel. Exact real arithmetic; rounding not modelled."
  },
  {
   "property": "C75",
   "status": "proved",
   "theorems": [
    "C75_jaccard",
    "C75_jaccard_positive"
   ],
   "note": "Every pair and triple of masks; optional weights. The triangle inequality is proved by the Steinhaus transform. Exact real arithmetic; rounding not modelled."
  },
  {
   "property": "C76",
   "status": "proved",
   "theorems": [
    "C76_cluster_coeff"
   ],
   "note": "Every point cloud, radius and schedule. float32 rounding not modelled."
  },
  {
   "property": "C77",
   "status": "proved",
   "theorems": [
    "C77_rapidity_centroid",
    "C77_azimuth_centroid"
   ],
   "note": "Every array with finite rapidities and positive total pT; azimuth part needs every pT > 1e-10. Exact real arithmetic; rounding not modelled."
  },
  {
   "property": "C78",
   "status": "proved",
   "theorems": [
    "C78_spherical",
    "C78_range"
   ],
   "note": "Every outcome of the generator within the documented ranges. Exact real arithmetic; rounding not modelled."
  },
  {
   "property": "C79",
   "status": "partial",
   "theorems": [
    "C79_lower_hemisphere_refuted",
    "C79_upper_hemisphere_partial"
   ],
   "note": "REFUTED: pz >= 0 for every draw. Partial: every direction of the upper hemisphere is reachable. Exact real arithmetic; rounding not modelled."
  },
  {
   "property": "C80",
   "status": "partial",
   "theorems": [
    "C80_fresh_reads_partial",
    "C80_stale_refuted",
    "C80_resized_refuted"
   ],
   "note": "REFUTED: a read, a write, a read returns the old value (mass_t, pt). Partial: exact for every history in which, since the last copy, no write follows a read. Exact real arithmetic; rounding not modelled."
  },
  {
   "property": "C81",
   "status": "proved",
   "theorems": [
    "C81_unweighted",
    "C81_weighted",
    "C81_errors"
   ],
   "note": "Every rectangular input of extended reals (infinities and NaN included) and every cut."
  },
  {
   "property": "C82",
   "status": "proved",
   "theorems": [
    "C82_complete",
    "C82_negative"
   ],
   "note": "Every size; any element type."
  },
  {
   "property": "C83",
   "status": "proved",
   "theorems": [
    "C83_self_loops",
    "C83_self_loops_weighted",
    "C83_others",
    "C83_others_weighted",
    "C83_runs",
    "C83_dtype_error"
   ],
   "note": "argpartition is a relation (any admissible partial sort, shown to exist); both orientations, weighted and not. Values are extended reals, NaN last."
  },
  {
   "property": "C84",
   "status": "partial",
   "theorems": [
    "C84_range_refuted",
    "C84_range_partial",
    "C84_row_orientation_refuted",
    "C84_rows_partial",
    "C84_negative_count_refuted"
   ],
   "note": "REFUTED: three particles on a line (row 2 empty, column 2 filled), and k = n-1 always raises. Partial: exact range of k; rows hold the neighbours with row=False."
  },
  {
   "property": "C85",
   "status": "proved",
   "theorems": [
    "C85_entries",
    "C85_exponent_zero",
    "C85_scaling"
   ],
   "note": "Every exponent, every schedule of the distance loop. Exact real arithmetic; rounding not modelled."
  },
  {
   "property": "C86",
   "status": "proved",
   "theorems": [
    "C86_rotation",
    "C86_proper",
    "C86_group"
   ],
   "note": "orthogonal, determinant one, right-handed rotation about the axis, additive in the angle Exact real arithmetic; rounding not modelled."
  },
  {
   "property": "C87",
   "status": "proved",
   "theorems": [
    "C87_split",
    "C87_angle",
    "C87_errors",
    "C87_collinear"
   ],
   "note": "conservation, energy fraction, rotated direction, length and opening angle, errors Exact real arithmetic; rounding not modelled."
  },
  {
   "property": "C88",
   "status": "proved",
   "theorems": [
    "C88_split_hardest",
    "C88_default_axis",
    "C88_errors"
   ],
   "note": "position of the hardest, untouched particles in order, children last, conserved total, all errors Exact real arithmetic; rounding not modelled."
  },
  {
   "property": "C89",
   "status": "partial",
   "theorems": [
    "C89_normal_refuted",
    "C89_elevation_partial",
    "C89_only_pi4_partial"
   ],
   "note": "REFUTED: the returned inclination is an elevation; the axis is the z axis turned into x for transverse particles. Proved: exact meaning of the returned angles, and that they give the normal only for pi/4 and -pi/4. Exact real arithmetic; rounding not modelled."
  },
  {
   "property": "C90",
   "status": "partial",
   "theorems": [
    "C90_shift_eta_misses_refuted",
    "C90_massless_partial"
   ],
   "note": "REFUTED for every massive total (all numbers of corrections). Partial: massless totals hit the target after one correction. Exact real arithmetic; rounding not modelled."
  },
  {
   "property": "C91",
   "status": "partial",
   "theorems": [
    "C91_equal_pt_refuted",
    "C91_different_pt_partial"
   ],
   "note": "REFUTED for every non-empty array of equal-pT candidates (one candidate included). Partial: never raised when two candidates differ in pT. Exact real arithmetic; rounding not modelled."
  },
  {
   "property": "C92",
   "status": "partial",
   "theorems": [
    "C92_after_raise_refuted",
    "C92_otherwise_partial"
   ],
   "note": "REFUTED: after the ZeroDivisionError the cached rapidities are the transverse momenta. Partial: after every other outcome both caches are correct. Exact real arithmetic; rounding not modelled."
  },
  {
   "property": "C93",
   "status": "partial",
   "theorems": [
    "C93_flat_weights_refuted",
    "C93_flat_weights_partial"
   ],
   "note": "REFUTED for every array not of length 1 or 4; length 4 weights the components. Partial: what flat vectors of length 1 and 4 mean. Exact real arithmetic; rounding not modelled."
  },
  {
   "property": "C94",
   "status": "partial",
   "theorems": [
    "C94_centroid_rotation_refuted",
    "C94_centroid_rotation_partial"
   ],
   "note": "REFUTED: azimuths 3pi/4 and -3pi/4 average to 0 before and after a half turn. Partial: holds when no particle crosses the cut. Exact real arithmetic; rounding not modelled."
  },
  {
   "property": "C95",
   "status": "partial",
   "theorems": [
    "C95_fewer_candidates_refuted",
    "C95_matching_partial"
   ],
   "note": "REFUTED whenever there are fewer candidates. Partial: the result is the column part of a cheapest maximal matching. Exact real arithmetic; rounding not modelled."
  },
  {
   "property": "C96",
   "status": "partial",
   "theorems": [
    "C96_held_array_refuted",
    "C96_other_arrays_partial"
   ],
   "note": "REFUTED for every input and outcome. Partial: every other array keeps its contents. Exact real arithmetic; rounding not modelled."
  },
  {
   "property": "C97",
   "status": "partial",
   "theorems": [
    "C97_blacklist_inverted_refuted",
    "C97_empty_whitelist_ignored_refuted",
    "C97_empty_blacklist_partial"
   ],
   "note": "REFUTED by equivalences for every input. Partial: an empty blacklist is no filter."
  },
  {
   "property": "C98",
   "status": "partial",
   "theorems": [
    "C98_no_partons_refuted",
    "C98_filtered_partial"
   ],
   "note": "REFUTED for every event without partons. Partial: with a filter the documented IndexError. Exact real arithmetic; rounding not modelled."
  },
  {
   "property": "C99",
   "status": "partial",
   "theorems": [
    "C99_later_mismatch_refuted",
    "C99_first_mismatch_partial"
   ],
   "note": "REFUTED for every later mask of the wrong length. Partial: the first mask. Exact real arithmetic; rounding not modelled."
  },
  {
   "property": "C100",
   "status": "partial",
   "theorems": [
    "C100_flags_refuted",
    "C100_singletons_partial"
   ],
   "note": "REFUTED by equalities for every input. Partial: the singletons behave as documented."
  },
  {
   "property": "C101",
   "status": "partial",
   "theorems": [
    "C101_coincident_refuted",
    "C101_others_partial"
   ],
   "note": "REFUTED: three coincident particles, k=1. Partial: the links are the k+1 nearest positions minus the particle itself."
  },
  {
   "property": "C102",
   "status": "partial",
   "theorems": [
    "C102_physical_refuted",
    "C102_masses_partial",
    "C102_always_partial"
   ],
   "note": "REFUTED: the second child of a massless parent is spacelike for every visible opening angle. Proved: exact invariant masses of both children. Exact real arithmetic; rounding not modelled."
  },
  {
   "property": "C103",
   "status": "partial",
   "theorems": [
    "C103_mixed_masks_comparable_refuted",
    "C103_mask_comparison_partial",
    "C103_comparison_length_mismatch"
   ],
   "note": "REFUTED: group against array. Partial: exact outcome for every pair of masks."
  },
  {
   "property": "C104",
   "status": "proved",
   "theorems": [
    "C104_key_positions",
    "C104_selection_unique",
    "C104_subscript_elements",
    "C104_subscript_rows"
   ],
   "note": "Spec of keys (SpecKeys.v) is independent of the position computation and shown to determine it; masks, integer arrays and slices. Not modelled: tuples, None, Ellipsis."
  },
  {
   "property": "C105",
   "status": "proved",
   "theorems": [
    "C105_flat_arrays",
    "C105_flat_scalar",
    "C105_momentum",
    "C105_lengths_must_agree",
    "C105_unary"
   ],
   "note": "Any operation f; integer classes with two's complement storage, momentum over any element type. Broadcasting against length one is modelled, stated only through C108."
  },
  {
   "property": "C106",
   "status": "proved",
   "theorems": [
    "C106_flat_comparison"
   ],
   "note": "Record classes: C190."
  },
  {
   "property": "C107",
   "status": "partial",
   "theorems": [
    "C107_mixing_classes_refuted",
    "C107_mixing_never_works",
    "C107_mixing_flat_partial"
   ],
   "note": "REFUTED, and no mixed call ever succeeds. Partial: flat arrays of equal length raise AttributeError."
  },
  {
   "property": "C108",
   "status": "partial",
   "theorems": [
    "C108_weights_refuted",
    "C108_weights_partial"
   ],
   "note": "REFUTED. Partial: exact outcome for every number of particles."
  },
  {
   "property": "C109",
   "status": "proved",
   "theorems": [
    "C109_momentum_sum",
    "C109_flat_sum",
    "C109_axes"
   ],
   "note": "Any addition (folded from the right: floating-point association is not modelled)."
  },
  {
   "property": "C110",
   "status": "partial",
   "theorems": [
    "C110_last_axis_refuted",
    "C110_last_axis_partial"
   ],
   "note": "REFUTED. Partial: exact outcome for every number of particles."
  },
  {
   "property": "C111",
   "status": "partial",
   "theorems": [
    "C111_division_refuted",
    "C111_division_partial"
   ],
   "note": "REFUTED: [1] / 2 is [0]. Partial: truncated quotient."
  },
  {
   "property": "C112",
   "status": "proved",
   "theorems": [
    "C112_flat_equality",
    "C112_record_equality"
   ],
   "note": "numpy >= 1.25 behaviour for lengths that do not broadcast. Element equality is an arbitrary decidable equality (so no NaN)."
  },
  {
   "property": "C113",
   "status": "partial",
   "theorems": [
    "C113_rows_refuted",
    "C113_rows_partial",
    "C113_ragged_width_partial"
   ],
   "note": "REFUTED. Partial: exact outcome; rows all of the class's width."
  },
  {
   "property": "C114",
   "status": "proved",
   "theorems": [
    "C114_names_roundtrip",
    "C114_unknown_name",
    "C114_all_codes"
   ],
   "note": "The mcpid table is a parameter."
  },
  {
   "property": "C115",
   "status": "proved",
   "theorems": [
    "C115_structured_masks"
   ],
   "note": "Field names distinct, as numpy requires."
  },
  {
   "property": "C116",
   "status": "proved",
   "theorems": [
    "C116_assignment",
    "C116_rebind",
    "C116_group",
    "C116_bad_path",
    "C116_wrong_kind"
   ],
   "note": "Element assignment through the key models of C104 (index, slice, mask)."
  },
  {
   "property": "C117",
   "status": "proved",
   "theorems": [
    "C117_truth"
   ],
   "note": "The group's data is read with the same model as C01; groups containing unreadable children are covered."
  },
  {
   "property": "C118",
   "status": "proved",
   "theorems": [
    "C118_data_failures"
   ],
   "note": "Error types only; messages are not modelled."
  },
  {
   "property": "C119",
   "status": "proved",
   "theorems": [
    "C119_clusters",
    "C119_leaf",
    "C119_empty"
   ],
   "note": "C119_clusters states the whole result of clusters() (names, order, lengths, membership of every final record); C119_leaf says a leaf's mask is its own cluster; C119_empty the TypeError. Hypotheses: distinct hadronisation vertices share no final descendant (as C49), outgoing partons are no hadrons, one outgoing parton per leaf; all met by the top-decay event in Demo."
  },
  {
   "property": "C120",
   "status": "proved",
   "theorems": [
    "C120_codes",
    "C120_momenta",
    "C120_edges"
   ],
   "note": "Via collections.abc.Sequence on the natives that iteration yields."
  },
  {
   "property": "C121",
   "status": "partial",
   "theorems": [
    "C121_index_refuted",
    "C121_absent_value_refuted",
    "C121_index_partial",
    "C121_index_rows_partial",
    "C121_mask_index_partial"
   ],
   "note": "REFUTED: pdg.index(5) on [21, 21, 5] is 0, and absent values are 'found' too: the mixin tests bool(self[i] == value), the truth value of a one-element MaskArray. The _partial theorems say exactly what is returned: the start position, for every value; MaskArray.index always raises."
  },
  {
   "property": "C122",
   "status": "proved",
   "theorems": [
    "C122_particle_table",
    "C122_graph_table",
    "C122_unknown_code"
   ],
   "note": "tabulate's text layout is not modelled; the theorem is about the header, the cells and the count line."
  },
  {
   "property": "C123",
   "status": "partial",
   "theorems": [
    "C123_edges_only_refuted",
    "C123_edges_only_partial"
   ],
   "note": "REFUTED: the rows are zipped with the (absent) particle rows, so no edge is shown although the count line says n."
  },
  {
   "property": "C124",
   "status": "proved",
   "theorems": [
    "C124_from_event",
    "C124_no_final_mask",
    "C124_roundtrip",
    "C124_weights"
   ],
   "note": "C124_from_event is an iff."
  },
  {
   "property": "C125",
   "status": "proved",
   "theorems": [
    "C125_nested_dict",
    "C125_lookup",
    "C125_malformed"
   ],
   "note": "Dictionaries are nested association lists with distinct names, as Python's are."
  },
  {
   "property": "C126",
   "status": "partial",
   "theorems": [
    "C126_iterator_refuted",
    "C126_iterator_partial"
   ],
   "note": "REFUTED: np.asarray reads an iterator as one object, so the mask is [True]. Sequences and arrays are read correctly (_partial)."
  },
  {
   "property": "C127",
   "status": "partial",
   "theorems": [
    "C127_order_refuted",
    "C127_order_partial",
    "C127_group_partial",
    "C127_is_C01_partial"
   ],
   "note": "REFUTED: mask & True raises ValueError while True & mask works (reflected ufunc). _partial: masks and numpy vectors commute; bools and lists on the left act elementwise."
  },
  {
   "property": "C128",
   "status": "proved",
   "theorems": [
    "C128_inplace_codes",
    "C128_inplace_momenta",
    "C128_inplace_masks"
   ],
   "note": "Buffers are heap cells; objects hold references."
  },
  {
   "property": "C129",
   "status": "partial",
   "theorems": [
    "C129_failed_inplace_refuted",
    "C129_failed_inplace_partial"
   ],
   "note": "REFUTED: pdg += status writes into pdg's buffer and then raises AttributeError. _partial: same-class, number and sequence operands of the wrong length raise before writing."
  },
  {
   "property": "C130",
   "status": "partial",
   "theorems": [
    "C130_different_sets_equal_refuted",
    "C130_same_sets_unequal_refuted",
    "C130_equality_partial",
    "C130_graphs_partial",
    "C130_graph_cases_partial",
    "C130_final_lengths_partial"
   ],
   "note": "REFUTED both ways: two complete sets of different particles compare equal, a set with an empty component differs from its own copy. _partial: for equal layouts, == says whether all six components are present; comparing complete graphs with equally many edges raises."
  },
  {
   "property": "C131",
   "status": "proved",
   "theorems": [
    "C131_rapidity",
    "C131_rapidity_unique",
    "C131_pseudorapidity",
    "C131_pseudorapidity_unique"
   ],
   "note": "Total functional specification of both coordinates; uniqueness proved, so it determines the value."
  },
  {
   "property": "C132",
   "status": "proved",
   "theorems": [
    "C132_any_pair",
    "C132_total",
    "C132_beam"
   ],
   "note": "Exact entry for every pair, consequence for beam particles."
  },
  {
   "property": "C133",
   "status": "proved",
   "theorems": [
    "C133_experimental_beam",
    "C133_wrong_length",
    "C133_one_shift",
    "C133_beam_total",
    "C133_rest_total",
    "C133_offshell_total"
   ],
   "note": "NonFinite in the model means: a NaN or infinite boost was applied; the further course of the loop is not modelled."
  },
  {
   "property": "C134",
   "status": "partial",
   "theorems": [
    "C134_beam_particle_refuted",
    "C134_soft_particle_refuted",
    "C134_massive_beam_partial",
    "C134_no_weight",
    "C134_infinite"
   ],
   "note": "REFUTED: with pseudorapidity (the default) one particle along the beam makes both coordinates NaN; any particle below 1e-10 GeV makes the azimuth NaN. _partial: the true-rapidity coordinate is indeed unaffected by a massive particle along the beam."
  },
  {
   "property": "C135",
   "status": "proved",
   "theorems": [
    "C135_beam_parton"
   ],
   "note": "Complete case table for pT=0 partons; C85 covers pT>0."
  },
  {
   "property": "C136",
   "status": "proved",
   "theorems": [
    "C136_infinite_centre"
   ],
   "note": "Any mask."
  },
  {
   "property": "C137",
   "status": "proved",
   "theorems": [
    "C137_infinite_distance"
   ],
   "note": "The variance of a row with an infinite entry is NaN, hence the whole cost row."
  },
  {
   "property": "C138",
   "status": "proved",
   "theorems": [
    "C138_root_diff"
   ],
   "note": "IEEE binary64 through Flocq: bound 5u relative for normal results, plus half the least subnormal below."
  },
  {
   "property": "C139",
   "status": "proved",
   "theorems": [
    "C139_odd",
    "C139_finite",
    "C139_nan_energy"
   ],
   "note": "log is a parameter with the contract finite and >= 0 on [1, inf)."
  },
  {
   "property": "C140",
   "status": "proved",
   "theorems": [
    "C140_symmetric"
   ],
   "note": "hypot even in both arguments, atan2 odd in the first: contracts of the C library, which hold in glibc."
  },
  {
   "property": "C141",
   "status": "proved",
   "theorems": [
    "C141_self_distance"
   ],
   "note": "hypot(0,0)=0 and atan2(0,+x)=0 are the only assumptions."
  },
  {
   "property": "C142",
   "status": "proved",
   "theorems": [
    "C142_range",
    "C142_equal",
    "C142_disjoint",
    "C142_symmetric"
   ],
   "note": "Range, exact values, symmetry and an error bound; the example shows NaN for weights above the cap (overflow)."
  },
  {
   "property": "C143",
   "status": "proved",
   "theorems": [
    "C143_unweighted"
   ],
   "note": "Counts are exact in doubles up to 2^53."
  },
  {
   "property": "C144",
   "status": "proved",
   "theorems": [
    "C144_three_norm"
   ],
   "note": "All roundings including underflow of the small components."
  },
  {
   "property": "C145",
   "status": "proved",
   "theorems": [
    "C145_sum",
    "C145_depth",
    "C145_orders"
   ],
   "note": "Orders are binary trees over the leaves: this covers pairwise blocks and vector lanes."
  },
  {
   "property": "C146",
   "status": "proved",
   "theorems": [
    "C146_split",
    "C146_energy"
   ],
   "note": "The rotated first child is arbitrary, so the rounding of the rotation does not matter."
  },
  {
   "property": "C147",
   "status": "partial",
   "theorems": [
    "C147_eta_partial",
    "C147_eta_refuted"
   ],
   "note": "REFUTED: with correctly rounded hypot pt <= 2^-28 |pz| gives cos(theta) = 1.0 exactly and an infinite pseudorapidity. _partial: |cos| <= 1 always (never NaN for a non-zero momentum) and finite once pt >= 2^-25 |pz|."
  },
  {
   "property": "C148",
   "status": "partial",
   "theorems": [
    "C148_c_parameter_refuted",
    "C148_range_partial"
   ],
   "note": "REFUTED (C148_c_parameter_refuted); C148_range_partial bounds the violation. Accuracy: C186."
  },
  {
   "property": "C149",
   "status": "proved",
   "theorems": [
    "C149_combined"
   ],
   "note": "Agreement with pmu.mass: C193."
  },
  {
   "property": "C150",
   "status": "proved",
   "theorems": [
    "C150_massless"
   ],
   "note": "Proved for every correctly rounded hypot; existence of such a function is proved (correct_hypot_exists)."
  },
  {
   "property": "C151",
   "status": "proved",
   "theorems": [
    "C151_mass"
   ],
   "note": "Includes underflow inside hypot."
  },
  {
   "property": "C152",
   "status": "proved",
   "theorems": [
    "C152_copies_isolated",
    "C152_selections_isolated"
   ],
   "note": "Heap of buffers and objects; windows (offset, length) on buffers; isolation is over every later program on the two sets of roots. Includes the aliases created by the copied parts themselves."
  },
  {
   "property": "C153",
   "status": "partial",
   "theorems": [
    "C153_selection_refuted",
    "C153_selection_partial",
    "C153_steps"
   ],
   "note": "REFUTED: arr[1:3] is a window. _partial: exactly the selections described by `shares` are tied, in both directions, record by record; C153_steps says which slices."
  },
  {
   "property": "C154",
   "status": "partial",
   "theorems": [
    "C154_components_refuted",
    "C154_components_partial",
    "C154_integer"
   ],
   "note": "REFUTED: particles[0] shares momentum and colour, copies the rest. _partial: each non-empty component is tied as if subscripted alone; C154_integer lists the classes."
  },
  {
   "property": "C155",
   "status": "partial",
   "theorems": [
    "C155_construct_refuted",
    "C155_construct_partial"
   ],
   "note": "REFUTED: an int32 array passed to PdgArray is shared. _partial: exact characterisation for arrays needing / not needing conversion."
  },
  {
   "property": "C156",
   "status": "partial",
   "theorems": [
    "C156_frozen_partial",
    "C156_settled_partial",
    "C156_stale_refuted"
   ],
   "note": "REFUTED: roots after an assignment are those of the old edges. _partial: exact description of every history (C156_frozen_partial) and correctness for settled histories."
  },
  {
   "property": "C157",
   "status": "proved",
   "theorems": [
    "C157_collinear",
    "C157_soft"
   ],
   "note": "Exact arithmetic (reals). Collinear: exact equality of outcomes (errors included). Soft: bounds 3, 1 and 2(4/pi)^2 times |k|/total, for events without null momenta (spherocity: and none along the axis)."
  },
  {
   "property": "C158",
   "status": "proved",
   "theorems": [
    "C158_turned",
    "C158_shift_phi",
    "C158_units"
   ],
   "note": "Exact arithmetic. The optima are compared under the hypothesis that the optimizer found the true optimum on both events (the optimizer is an oracle)."
  },
  {
   "property": "C159",
   "status": "proved",
   "theorems": [
    "C159_parts",
    "C159_particles"
   ],
   "note": "Exact arithmetic, unweighted combined_mass."
  },
  {
   "property": "C160",
   "status": "proved",
   "theorems": [
    "C160_rebuild"
   ],
   "note": "Exact arithmetic; hypotheses pt > ZERO_TOL, energy >= |p|, energy - |pz| > ZERO_TOL."
  },
  {
   "property": "C161",
   "status": "proved",
   "theorems": [
    "C161_edges",
    "C161_hard",
    "C161_partition",
    "C161_vertices",
    "C161_clusters"
   ],
   "note": "hard_descendants/hierarchy: exact equality for all events, errors included. Partition and clusters: under the C49/C119 hypotheses on generator records (classic is used)."
  },
  {
   "property": "C162",
   "status": "proved",
   "theorems": [
    "C162_masks",
    "C162_vertices"
   ],
   "note": "Masks as reorderings; vertex lists exactly equal. Non-empty edge list for roots/leaves."
  },
  {
   "property": "C163",
   "status": "partial",
   "theorems": [
    "C163_transitive_partial",
    "C163_sink_partial",
    "C163_refuted"
   ],
   "note": "REFUTED at vertices where nothing starts (C163_refuted); C163_transitive_partial proves it elsewhere, C163_sink_partial describes the sinks."
  },
  {
   "property": "C164",
   "status": "partial",
   "theorems": [
    "C164_momentum_column_partial",
    "C164_edges_column_partial",
    "C164_color_column_partial",
    "C164_momentum_block_partial",
    "C164_momentum_paired_partial",
    "C164_momentum_repeated_partial",
    "C164_one_record_partial",
    "C164_one_number_partial",
    "C164_one_column",
    "C164_refuted"
   ],
   "note": "REFUTED (C164_refuted). _partial theorems: exact outcome for a column, a block, paired keys; C164_one_column for the other arrays."
  },
  {
   "property": "C165",
   "status": "proved",
   "theorems": [
    "C165_text",
    "C165_repr"
   ],
   "note": "Outline of the rich tree: guides symbolic, plain-text labels."
  },
  {
   "property": "C166",
   "status": "proved",
   "theorems": [
    "C166_to_dict",
    "C166_errors"
   ],
   "note": "Values described by the independent specification true_at; errors by the first failing entry."
  },
  {
   "property": "C167",
   "status": "partial",
   "theorems": [
    "C167_slowing_partial",
    "C167_light_partial",
    "C167_bound_partial",
    "C167_refuted"
   ],
   "note": "REFUTED for every library whose cosh and sinh are correctly rounded at -0.5 (bounds on exp(1/2) proved by Taylor-Lagrange). _partial: slowing boosts, E = |pz|, and a rounding bound in general."
  },
  {
   "property": "C168",
   "status": "proved",
   "theorems": [
    "C168_finite"
   ],
   "note": "Assumes cosh(-0)=1, sinh(-0)=-0, exp(0)=1."
  },
  {
   "property": "C169",
   "status": "proved",
   "theorems": [
    "C169_boost",
    "C169_rotation"
   ],
   "note": "Library functions are parameters with accuracy k <= 1000 units."
  },
  {
   "property": "C170",
   "status": "proved",
   "theorems": [
    "C170_sums",
    "C170_weighted_mass",
    "C170_distances",
    "C170_coefficients",
    "C170_cut_adj",
    "C170_knn_adj"
   ],
   "note": "Exact arithmetic (floating sums do depend on order). C170_knn_adj needs distinct distances: with ties numpy's choice depends on order."
  },
  {
   "property": "C171",
   "status": "proved",
   "theorems": [
    "C171_columns",
    "C171_unknown"
   ],
   "note": "Table is an argument; missing code gives KeyError."
  },
  {
   "property": "C172",
   "status": "proved",
   "theorems": [
    "C172_units",
    "C172_monotone",
    "C172_bounds"
   ],
   "note": "3-rounding bound, NaN, monotonicity and bounds."
  },
  {
   "property": "C173",
   "status": "proved",
   "theorems": [
    "C173_coefficient"
   ],
   "note": "numba's sum is modelled as sequential float32 addition."
  },
  {
   "property": "C174",
   "status": "proved",
   "theorems": [
    "C174_accuracy",
    "C174_threshold"
   ],
   "note": "Relative to the doubles given as rapidities and transverse momenta. hypot and atan2 are any routines accurate to k units (an instance is constructed: C174_case)."
  },
  {
   "property": "C175",
   "status": "partial",
   "theorems": [
    "C175_apart_partial",
    "C175_refuted"
   ],
   "note": "REFUTED below 5 units of separation; C175_apart_partial above."
  },
  {
   "property": "C176",
   "status": "proved",
   "theorems": [
    "C176_accuracy",
    "C176_fails",
    "C176_gradient"
   ],
   "note": "Accuracy, non-negativity, failures and gradient; the sign of each p.n must be beyond rounding for the gradient."
  },
  {
   "property": "C177",
   "status": "proved",
   "theorems": [
    "C177_thrust",
    "C177_spherocity"
   ],
   "note": "Exact equality of doubles, no hypothesis on the momenta or on the library's sin and cos."
  },
  {
   "property": "C178",
   "status": "proved",
   "theorems": [
    "C178_same_class",
    "C178_scalar",
    "C178_zero_divisor"
   ],
   "note": "Other classes: C183."
  },
  {
   "property": "C179",
   "status": "proved",
   "theorems": [
    "C179_accumulate",
    "C179_momentum",
    "C179_axes"
   ],
   "note": "For every operation; integer results must fit."
  },
  {
   "property": "C180",
   "status": "proved",
   "theorems": [
    "C180_at",
    "C180_add_at",
    "C180_bad_index",
    "C180_bad_values"
   ],
   "note": "The contents after the call are modelled; the call itself returns None."
  },
  {
   "property": "C181",
   "status": "proved",
   "theorems": [
    "C181_accuracy"
   ],
   "note": "The double used for pi is proved within 1.2 units of PI (PiBits.v, Machin's series)."
  },
  {
   "property": "C182",
   "status": "partial",
   "theorems": [
    "C182_bound_partial",
    "C182_thrust_above_one_refuted"
   ],
   "note": "REFUTED by one unit in the last place; C182_bound_partial bounds the excess."
  },
  {
   "property": "C183",
   "status": "partial",
   "theorems": [
    "C183_other_class_partial",
    "C183_refuted"
   ],
   "note": "REFUTED (silent 16-bit cut); C183_other_class_partial while results fit."
  },
  {
   "property": "C184",
   "status": "partial",
   "theorems": [
    "C184_outer_refuted",
    "C184_outer_partial"
   ],
   "note": "REFUTED for every pair of arrays with 2 or more columns; one column: flat."
  },
  {
   "property": "C185",
   "status": "partial",
   "theorems": [
    "C185_defined_partial",
    "C185_on_axis_refuted"
   ],
   "note": "REFUTED for every event containing a particle along the axis; C185_defined_partial elsewhere."
  },
  {
   "property": "C186",
   "status": "proved",
   "theorems": [
    "C186_accuracy",
    "C186_errors"
   ],
   "note": "Same model as C148."
  },
  {
   "property": "C187",
   "status": "partial",
   "theorems": [
    "C187_saturation_partial",
    "C187_refuted"
   ],
   "note": "REFUTED (complete graph of 10000 nodes); C187_saturation_partial gives the value returned instead."
  },
  {
   "property": "C188",
   "status": "partial",
   "theorems": [
    "C188_single_color_refuted",
    "C188_single_color_flat_partial"
   ],
   "note": "REFUTED; _partial: the flat pair returned."
  },
  {
   "property": "C189",
   "status": "partial",
   "theorems": [
    "C189_copy_weights_refuted",
    "C189_weights_dropped_partial"
   ],
   "note": "REFUTED; C189_weights_dropped_partial: they never survive."
  },
  {
   "property": "C190",
   "status": "partial",
   "theorems": [
    "C190_momentum_comparison_refuted",
    "C190_record_comparison_fails"
   ],
   "note": "REFUTED; C190_record_comparison_fails: every such comparison raises."
  },
  {
   "property": "C191",
   "status": "partial",
   "theorems": [
    "C191_infinite_partial",
    "C191_refuted"
   ],
   "note": "REFUTED; C191_infinite_partial says what becomes NaN."
  },
  {
   "property": "C192",
   "status": "partial",
   "theorems": [
    "C192_refuted"
   ],
   "note": "REFUTED: 9 MeV gives 0.009000000000000001 GeV. C172 gives the 3-rounding bound."
  },
  {
   "property": "C193",
   "status": "partial",
   "theorems": [
    "C193_combined_refuted"
   ],
   "note": "REFUTED: a single particle with E one ulp above pz has a combined mass below 3/4 of its mass."
  },
  {
   "property": "C194",
   "status": "proved",
   "theorems": [
    "C194_partitioned_hierarchy"
   ],
   "note": "Composition of C09-C12-style theorems about hierarchy with the partition theorems; no oracle."
  },
  {
   "property": "C195",
   "status": "proved",
   "theorems": [
    "C195_combined",
    "C195_physical"
   ],
   "note": "Combines the any-order sum bound (C145) with C149; sizes below 2^499 so that nothing overflows."
  },
  {
   "property": "C196",
   "status": "proved",
   "theorems": [
    "C196_azimuth_gradient"
   ],
   "note": "delta at least 1/8192; closer to the axis the gradient blows up (C185 on it)."
  },
  {
   "property": "C197",
   "status": "proved",
   "theorems": [
    "C197_inclination_gradient"
   ],
   "note": "That the exact formula itself is not the derivative is C74; this bounds the rounding on top of it."
  },
  {
   "property": "C198",
   "status": "proved",
   "theorems": [
    "C198_total"
   ],
   "note": "The four sums, the squares and the final product in any order of addition, with the overflow checks of numpy."
  },
  {
   "property": "C199",
   "status": "partial",
   "theorems": [
    "C199_small_partial",
    "C199_overflow_refuted"
   ],
   "note": "REFUTED for every total with a component of 2^512 or more; C199_small_partial: right below 2^499."
  },
  {
   "property": "C200",
   "status": "proved",
   "theorems": [
    "C200_rotation_matrix",
    "C200_value_exists",
    "C200_keeps_lengths"
   ],
   "note": "Accuracy, existence of a value and preservation of lengths; products summed in any order, with or without fma."
  },
  {
   "property": "C201",
   "status": "proved",
   "theorems": [
    "C201_first_child",
    "C201_conservation"
   ],
   "note": "First child within the stated distance; children sum to the parent within one rounding per component."
  },
  {
   "property": "C202",
   "status": "proved",
   "theorems": [
    "C202_identity",
    "C202_collinear"
   ],
   "note": "Identity matrix and correctly rounded children."
  },
  {
   "property": "C203",
   "status": "proved",
   "theorems": [
    "C203_accuracy"
   ],
   "note": "Any summation order; up to 1048576 particles."
  },
  {
   "property": "C204",
   "status": "partial",
   "theorems": [
    "C204_single_partial",
    "C204_single_refuted"
   ],
   "note": "REFUTED (pT 3, rapidity 2-6/2^52: the centroid is larger); C204_single_partial: within three rounding units."
  },
  {
   "property": "C205",
   "status": "proved",
   "theorems": [
    "C205_repartition",
    "C205_idempotent"
   ],
   "note": "Any two weightings; the second partition decides alone."
  },
  {
   "property": "C206",
   "status": "proved",
   "theorems": [
    "C206_matrix",
    "C206_claimed",
    "C206_unique",
    "C206_exponent_zero"
   ],
   "note": "Partons at the vertex need a non-zero pT; hadrons may be anything. NaN distances come first, as in argmin."
  },
  {
   "property": "C207",
   "status": "proved",
   "theorems": [
    "C207_soft_parton_claims_nothing",
    "C207_collinear"
   ],
   "note": "Quantitative: an explicit pT below which the claim fails; C207_collinear is the exception."
  },
  {
   "property": "C208",
   "status": "proved",
   "theorems": [
    "C208_partition"
   ],
   "note": "Needs the absence of ties: with a tie the first record wins (argmin), so the order matters."
  },
  {
   "property": "C209",
   "status": "proved",
   "theorems": [
    "C209_hard_descendants"
   ],
   "note": "Needs distinct names: equal names are numbered in record order."
  },
  {
   "property": "C210",
   "status": "proved",
   "theorems": [
    "C210_nesting"
   ],
   "note": "Leaf masks are not covered: a leaf's extra entry is its first True record (C47), which depends on the order."
  },
  {
   "property": "C211",
   "status": "proved",
   "theorems": [
    "C211_order_only"
   ],
   "note": "Ties included: the first of equally near partons is taken under both."
  },
  {
   "property": "C212",
   "status": "proved",
   "theorems": [
    "C212_turned",
    "C212_units",
    "C212_hadron_magnitudes"
   ],
   "note": "Real arithmetic; partons of any pT, zero included."
  },
  {
   "property": "C213",
   "status": "partial",
   "theorems": [
    "C213_massless_partial",
    "C213_boosted_refuted"
   ],
   "note": "REFUTED: witness with one massive hadron, two massless partons of pT 1 and a boost by -ln 2; massless events are fine (C213_massless_partial)."
  },
  {
   "property": "C214",
   "status": "proved",
   "theorems": [
    "C214_accuracy",
    "C214_partition"
   ],
   "note": "Starts from the stored coordinates (their own rounding is C139, C144, C147); weights between 2^-500 and 2^500, |eta| up to 2^400."
  },
  {
   "property": "C215",
   "status": "proved",
   "theorems": [
    "C215_accuracy"
   ],
   "note": "The exact pseudorapidity is that of the stored doubles; hypot and arctanh are parameters with a relative accuracy. Closer to the beam: C147."
  },
  {
   "property": "C216",
   "status": "proved",
   "theorems": [
    "C216_accuracy"
   ],
   "note": "Starts from the stored components; the azimuth gap is C174's."
  },
  {
   "property": "C217",
   "status": "proved",
   "theorems": [
    "C217_one_line",
    "C217_lines",
    "C217_faithful"
   ],
   "note": "numpy's str of the data and of the dtype are parameters; characters are 8-bit (split and join look only at newlines)."
  },
  {
   "property": "C218",
   "status": "partial",
   "theorems": [
    "C218_equal_pt_refuted",
    "C218_two_partial",
    "C218_result_exists"
   ],
   "note": "REFUTED: three candidates of pT 0.1. Not modelled: no candidates at all."
  },
  {
   "property": "C219",
   "status": "proved",
   "theorems": [
    "C219_range",
    "C219_order",
    "C219_zero"
   ],
   "note": "hypot, atan2 and expm1 are parameters; a row whose variance is zero is left unspecified (division by zero in a parallel loop)."
  },
  {
   "property": "C220",
   "status": "partial",
   "theorems": [
    "C220_tiny_spread_refuted",
    "C220_usable_partial"
   ],
   "note": "REFUTED: distances 0 and 2^-512 in one row give a NaN entry. The witness uses a simple hypot (|a|+|b|) and atan2 = 0, exact on its inputs (one operand is 0, both particles on the x axis)."
  },
  {
   "property": "C221",
   "status": "proved",
   "theorems": [
    "C221_accuracy"
   ],
   "note": "The bound is on the error relative to the exact rapidity of the stored doubles (not of the quantities they were rounded from). The library log is a parameter assumed accurate to k units; ref_log shows a correctly rounded one exists."
  },
  {
   "property": "C222",
   "status": "proved",
   "theorems": [
    "C222_accuracy"
   ],
   "note": "hypot, atan2 and log are parameters assumed accurate to k units; the angle between the particles is supplied as in C174 (gap)."
  },
  {
   "property": "C223",
   "status": "proved",
   "theorems": [
    "C223_momenta",
    "C223_range"
   ],
   "note": "The random numbers, arccos and the complex exponential are parameters (exponential accurate to k units absolutely, arccos only finite). The uniformity of the distribution is not modelled (see C79 for the sign of pz)."
  },
  {
   "property": "C224",
   "status": "proved",
   "theorems": [
    "C224_mass",
    "C224_massless"
   ],
   "note": "Uses a correctly rounded hypot as C151."
  },
  {
   "property": "C225",
   "status": "proved",
   "theorems": [
    "C225_turned_centre",
    "C225_turned",
    "C225_reordered",
    "C225_radius"
   ],
   "note": "In exact arithmetic."
  },
  {
   "property": "C226",
   "status": "partial",
   "theorems": [
    "C226_boost_partial",
    "C226_boost_refuted"
   ],
   "note": "REFUTED for the default centre: (7,0,0,7) and (-2,0,0,2), boosted by ln 3, radius 1/10."
  },
  {
   "property": "C227",
   "status": "proved",
   "theorems": [
    "C227_boost",
    "C227_rotation"
   ],
   "note": "In exact arithmetic. The invariance of combined_mass is in C68."
  },
  {
   "property": "C228",
   "status": "proved",
   "theorems": [
    "C228_distance",
    "C228_prune"
   ],
   "note": "Centre given; hypot, arctan2, arctanh and the complex exponential are parameters accurate to k units (1 <= k <= 1000). The default centre's own rounding is not part of it."
  },
  {
   "property": "C229",
   "status": "proved",
   "theorems": [
    "C229_edges",
    "C229_rotation",
    "C229_boost"
   ],
   "note": "Composition of C64, C65, C81 and the from_matrix theorems over the real numbers."
  },
  {
   "property": "C230",
   "status": "proved",
   "theorems": [
    "C230_knn_graph"
   ],
   "note": "Distinct directions: with two particles in one direction the diagonal need not be among the k + 1 smallest of its column."
  },
  {
   "property": "C231",
   "status": "proved",
   "theorems": [
    "C231_cut",
    "C231_knn"
   ],
   "note": "The dtype argument of knn_adj is not given or float64."
  },
  {
   "property": "C232",
   "status": "proved",
   "theorems": [
    "C232_edges",
    "C232_same"
   ],
   "note": "hypot, arctan2 and arctanh are parameters accurate to k units (1 <= k <= 1000); the error is C216's."
  },
  {
   "property": "C233",
   "status": "proved",
   "theorems": [
    "C233_knn"
   ],
   "note": "As C232."
  },
  {
   "property": "C234",
   "status": "proved",
   "theorems": [
    "C234_distribution"
   ],
   "note": "eta by the stable formula (pseudo=True, the default); the single-precision arithmetic of C173."
  },
  {
   "property": "C235",
   "status": "proved",
   "theorems": [
    "C235_variance"
   ],
   "note": "n u <= 1/1000 is required; u = 2^-53."
  },
  {
   "property": "C236",
   "status": "proved",
   "theorems": [
    "C236_costs"
   ],
   "note": "hypot, atan2 and expm1 are parameters accurate to k units (0 <= k <= 1000). The rapidities are taken as given doubles; their own error is C221."
  },
  {
   "property": "C237",
   "status": "proved",
   "theorems": [
    "C237_near_best",
    "C237_same"
   ],
   "note": "scipy's linear_sum_assignment is taken to return a matching of least total, its own rounded additions aside."
  },
  {
   "property": "C238",
   "status": "proved",
   "theorems": [
    "C238_assignment",
    "C238_same",
    "C238_failure"
   ],
   "note": "scipy's linear_sum_assignment is taken to return a matching of least total, its own rounded additions aside; hypot, atan2, log and expm1 are accurate to k units, 1 <= k <= 1000."
  },
  {
   "property": "C239",
   "status": "proved",
   "theorems": [
    "C239_accuracy",
    "C239_partition"
   ],
   "note": "power, hypot, atan2 and atanh are parameters accurate to k units, 1 <= k <= 1000; the eta error is that of C215."
  },
  {
   "property": "C240",
   "status": "proved",
   "theorems": [
    "C240_axis",
    "C240_orthogonal"
   ],
   "note": "hypot and atan2 are parameters; cmath.polar's OverflowError is out of range here. That the returned theta is the elevation, not the inclination, is C89's finding."
  },
  {
   "property": "C241",
   "status": "proved",
   "theorems": [
    "C241_rejects",
    "C241_result",
    "C241_outcome"
   ],
   "note": "The rotation is C201's, the axis C240's."
  },
  {
   "property": "C242",
   "status": "proved",
   "theorems": [
    "C242_one_axis",
    "C242_two_axes",
    "C242_rejects",
    "C242_all_cases"
   ],
   "note": "C242_all_cases shows that the cases listed are all subscripts without None."
  },
  {
   "property": "C243",
   "status": "proved",
   "theorems": [
    "C243_edges",
    "C243_one_column",
    "C243_momentum",
    "C243_moved",
    "C243_color"
   ],
   "note": "x[None] of a PdgArray of two is ValueError while x[None, None] is x: the converter only looks at the second axis."
  },
  {
   "property": "C244",
   "status": "proved",
   "theorems": [
    "C244_coords"
   ],
   "note": "The empty event (the sum is zero, its coordinates NaN) is left to the exact model."
  },
  {
   "property": "C245",
   "status": "proved",
   "theorems": [
    "C245_prune"
   ],
   "note": "'Clearly' is C228's: by more than the error of the distance."
  },
  {
   "property": "C246",
   "status": "proved",
   "theorems": [
    "C246_weighted"
   ],
   "note": "A single weight per particle and the other shapes that broadcast to rows of four are C68's and C93's; products that overflow are outside the range."
  },
  {
   "property": "C247",
   "status": "proved",
   "theorems": [
    "C247_coordinates",
    "C247_distances",
    "C247_mass",
    "C247_event_mass"
   ],
   "note": "combined_mass is stated for the same order of summation of the five sums (C247_mass) and as a set of possible results, with row weights, for the event (C247_event_mass). phi under px -> -px goes to pi - phi up to rounding, which is not stated here."
  },
  {
   "property": "C248",
   "status": "proved",
   "theorems": [
    "C248_selection",
    "C248_mask"
   ],
   "note": "Two copies of one particle (a subscript that repeats a position) have the distance C141 gives, not a diagonal entry."
  }
 ]
}