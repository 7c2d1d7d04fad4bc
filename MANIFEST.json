{
 "claims": [
  {
   "property": "C01",
   "status": "proved",
   "theorems": [
    "fold_unfold_roundtrip",
    "fold_idempotent",
    "folder_history_preserves_sites"
   ],
   "note": ""
  },
  {
   "property": "C02",
   "status": "proved",
   "theorems": [
    "vector_layout_bijective",
    "fold_places_sites"
   ],
   "note": ""
  },
  {
   "property": "C03",
   "status": "partial",
   "theorems": [
    "slice_xy_correct",
    "slice_yz_correct",
    "slice_m2_correct",
    "slice_bound_refuted",
    "slice_yz_deep_refuted"
   ],
   "note": "Correct for in-range slices whose yz image fits the ghost zone; the accepted argument z = depth and the yz slice with Lz > Ng*n1 are refuted."
  },
  {
   "property": "C04",
   "status": "proved",
   "theorems": [
    "index_roundtrip",
    "padded_index_roundtrip"
   ],
   "note": ""
  },
  {
   "property": "C05",
   "status": "partial",
   "theorems": [
    "neighbours_periodic_partial",
    "neighbours_inverse",
    "neighbours_length1_refuted"
   ],
   "note": "Needs at least two points per direction where the code compares with length-1; the length-1 case is refuted."
  },
  {
   "property": "C06",
   "status": "partial",
   "theorems": [
    "stencil_neighbours_partial",
    "stencil_short_rows_refuted"
   ],
   "note": "Needs Ng rows of vectors; the short-row case is refuted."
  },
  {
   "property": "C07",
   "status": "proved",
   "theorems": [
    "block_size_independent",
    "kernel_updates_sites_partial",
    "drift_updates_sites"
   ],
   "note": "block_size_independent is unconditional; kernel_updates_sites_partial also says what value each site gets, for 2 Ng rows of vectors."
  },
  {
   "property": "C08",
   "status": "partial",
   "theorems": [
    "regions_tile_partial",
    "regions_overlap_refuted",
    "regions_overrun_refuted"
   ],
   "note": "Holds for Lz >= 2 Ng or Lz = Ng; refuted for Ng < Lz < 2 Ng and for Lz < Ng."
  },
  {
   "property": "C09",
   "status": "partial",
   "theorems": [
    "ghost_exchange_partial",
    "ghost_exchange2_partial",
    "ghost_exchange_idempotent_partial",
    "ghost_thin_slab_refuted",
    "ghost_exchange_v_refuted",
    "ghost_exchange_v_paxion"
   ],
   "note": "Needs Ng <= Lz and the chunk limits of the code; thin slabs and exchanging v of a non-PAXION field are refuted."
  },
  {
   "property": "C10",
   "status": "partial",
   "theorems": [
    "step_refines_box_partial",
    "rank_count_independent_partial"
   ],
   "note": "For the palindromic and RKN CPU steps (sRunCpu); needs Lz >= 2 Ng or Lz = Ng on each rank."
  },
  {
   "property": "C11",
   "status": "partial",
   "theorems": [
    "step_advances_dz_partial",
    "run_advances_partial",
    "step_advances_dz_refuted"
   ],
   "note": "Holds for the runners and schemes listed in the theorem; refuted for the ones whose stages do not add up to dz."
  },
  {
   "property": "C12",
   "status": "partial",
   "theorems": [
    "background_current_partial",
    "time_tracks_drift_partial",
    "axion_background_refuted",
    "lowmem_background_refuted",
    "lowmem_time_refuted"
   ],
   "note": "Every kernel call of the saxion step sees the background of its own time; refuted for the axion and low-memory steps."
  },
  {
   "property": "C13",
   "status": "partial",
   "theorems": [
    "coefficients_exist_partial",
    "coefficients_exist_refuted"
   ],
   "note": "Every coefficient read exists for the supported schemes; refuted for the remaining scheme and runner pairs."
  },
  {
   "property": "C14",
   "status": "partial",
   "theorems": [
    "saxion_step_reversible",
    "axion_step_reversible",
    "rkn4_reversible_refuted",
    "axion_step_reversible_refuted"
   ],
   "note": "Palindromic schemes: the saxion step is reversible for every background, the axion step for a constant one; refuted for RKN4 and for the axion step with a time-dependent background."
  },
  {
   "property": "C15",
   "status": "partial",
   "theorems": [
    "laplacian_order",
    "laplacian_order_sharp",
    "laplacian_row_sum",
    "laplacian_many_neighbours_refuted"
   ],
   "note": "Exact order for one to five neighbours; six or more are accepted but have no coefficients."
  },
  {
   "property": "C16",
   "status": "partial",
   "theorems": [
    "type_changes_partial",
    "refused_request_refuted",
    "angle_created_refuted"
   ],
   "note": "Proved for all histories of legal requests, on the CPU. Refuted for NAXION requested of a field that is not an angle field, for an angle type requested of a Paxion field, and for fields created as angle fields and made complex, Naxion, or Paxion with several ghost slices."
  },
  {
   "property": "C17",
   "status": "proved",
   "theorems": [
    "accounting_matches",
    "free_untracked",
    "double_free"
   ],
   "note": "Over every history of allocations and releases with defined behaviour."
  },
  {
   "property": "C18",
   "status": "partial",
   "theorems": [
    "counting_loop",
    "cpu_tuning_blocks_partial",
    "cpu_tuning_small_refuted",
    "gpu_tuning_blocks_partial",
    "gpu_tuning_small_refuted"
   ],
   "note": "Proved for at least four rows per lane on the CPU and side at least 3 on the GPU; refuted below that, where the tuner divides by zero."
  },
  {
   "property": "C19",
   "status": "partial",
   "theorems": [
    "tuned_block_fastest",
    "tuning_result_partial",
    "tuning_again",
    "cache_unknown_field_refuted",
    "cache_zero_block_refuted",
    "tuned_other_field_refuted"
   ],
   "note": "Proved for the four field types the cache knows; refuted for angle fields with modulus, for unlisted types and for cache lines with zero sizes."
  },
  {
   "property": "C20",
   "status": "partial",
   "theorems": [
    "message_survives",
    "long_text_refuted",
    "edge_text_refuted"
   ],
   "note": "Proved for texts up to 2006 characters (time to the microsecond); longer texts are read from outside the buffer or altered."
  },
  {
   "property": "C21",
   "status": "partial",
   "theorems": [
    "histogram_partial",
    "histogram_division",
    "histogram_again_refuted",
    "histogram_ragged_refuted",
    "histogram_constant_refuted"
   ],
   "note": "fresh histogram over whole rows and data that spread by at least 1e-10: minimum, maximum, bin of each sample, density and normalisation, independence of division; running twice, ragged rows and constant data are refuted; exact arithmetic"
  },
  {
   "property": "C22",
   "status": "partial",
   "theorems": [
    "plaquette_winding_partial",
    "scalar_winding",
    "string_map_partial",
    "plaquette_range_refuted",
    "avx512_strings_refuted",
    "ghost_shift_refuted"
   ],
   "note": "CPU finder, maps of full size, exact arithmetic. Fails for opposite neighbours (count -4), for the AVX-512 double precision build (constant field gives strings) and, in position, with more than one ghost slice."
  },
  {
   "property": "C23",
   "status": "partial",
   "theorems": [
    "cube_flux",
    "cube_flux_refuted"
   ],
   "note": "Read off the map of one rank, cubes between two slices of the rank; generic values. Refuted for opposite neighbours."
  },
  {
   "property": "C24",
   "status": "partial",
   "theorems": [
    "plane_chirality_partial",
    "plane_chirality_refuted"
   ],
   "note": "All planes, all ranks, generic periodic field. Refuted for opposite neighbours."
  },
  {
   "property": "C25",
   "status": "partial",
   "theorems": [
    "finder_agreement_partial",
    "finder_agreement_refuted",
    "string_map_partial"
   ],
   "note": "Scalar and vector counts agree off the real axis, disagree on it. The GPU version is not modelled."
  },
  {
   "property": "C26",
   "status": "partial",
   "theorems": [
    "string_positions_partial",
    "string_positions_refuted"
   ],
   "note": "Boxes up to 32768 sites a side; beyond, 16 bit coordinates wrap. Writing to file is not modelled."
  },
  {
   "property": "C27",
   "status": "proved",
   "theorems": [
    "mend_line"
   ],
   "note": "All values, all ranks, termination, frame and count. Exact arithmetic instead of floating point; the ring of messages is modelled as the sequence of ranks it forces."
  },
  {
   "property": "C28",
   "status": "partial",
   "theorems": [
    "mend_slices",
    "mend_volume_partial",
    "mended_row_smooth",
    "mended_row_untouched",
    "mend_theta_smooth_partial",
    "avx512_mend_refuted"
   ],
   "note": "Proved for all builds but AVX-512 in double precision, for which the loop is refuted: the masks are shadowed inside the loop, so two lanes needing different numbers of shifts never settle. Exact arithmetic; STRING_WALL marks of the map are not modelled."
  },
  {
   "property": "C29",
   "status": "partial",
   "theorems": [
    "mask_ball_partial",
    "one_thread_calm",
    "mask_thin_refuted",
    "mask_one_slice_refuted"
   ],
   "note": "Exact for every defect set, number of ranks and sharing among threads when the radius is at most the depth of a rank and the ranks have more than one slice; refuted beyond: radii above the depth of a rank and ranks of one slice. The radius is also taken to be at most the side of the box."
  },
  {
   "property": "C30",
   "status": "partial",
   "theorems": [
    "mask_any_timing_partial",
    "mask_race_refuted"
   ],
   "note": "Refuted as stated: the counters for neighbouring ranks are read and written in two atomic steps, so a larger one can be overwritten by a smaller one. For every timing it is proved that only sites near a defect are marked and that all sites near a defect of their own rank are."
  },
  {
   "property": "C31",
   "status": "partial",
   "theorems": [
    "pad_lossless_partial",
    "unpad_lossless_partial",
    "pad_unpad_partial",
    "pad_pairs",
    "pad_m2_inside",
    "pad_backward_refuted",
    "pad_halves_refuted",
    "pad_warning_refuted"
   ],
   "note": "Every row is kept and nothing else is touched for in-place, forward and separate buffers, in any order of the parallel rows; backward padding over the ghosts is refuted for all usual sizes, padding from the half of m2 is refuted when Lz > Ng*Ly, and the overrun warning is refuted."
  },
  {
   "property": "C32",
   "status": "partial",
   "theorems": [
    "mode_count_partial",
    "mode_squares_partial",
    "mode_count_odd_refuted"
   ],
   "note": "For even lengths divided evenly among ranks: bin j counts the modes of the full grid in its shell, every mode is in an existing bin, the total is the number of points; odd lengths are refuted. Exact arithmetic."
  },
  {
   "property": "C33",
   "status": "partial",
   "theorems": [
    "spectrum_fill_partial",
    "spectrum_kinetic_partial",
    "spectrum_gv_partial",
    "spectrum_gradient_partial",
    "spectrum_division_partial",
    "mode_count_again",
    "spectrum_again_refuted",
    "spectrum_other_refuted",
    "reset0_refuted"
   ],
   "note": "Any division among threads and ranks gives the sum over the full grid; evaluating again is right where the vector is cleared first, (R+1) times too large otherwise (general theorem), a potential spectrum multiplies the gradient vector by the number of ranks, and reset0 misses one vector. Exact arithmetic; the transform is an input."
  },
  {
   "property": "C34",
   "status": "partial",
   "theorems": [
    "reduce_interpolates_partial",
    "reduce_weights",
    "reduce_bounds_partial",
    "reduce_constant_partial",
    "reduce_subset_partial",
    "reduce_ranks_partial",
    "reduce_in_place_partial",
    "reduce_new_partial",
    "reduce_new_axion_refuted",
    "reduce_enlarge_refuted"
   ],
   "note": "In exact arithmetic and for no more sites than before: in-place reduction gives the linear interpolation of the original values, whatever the division among ranks. Into a new field the claim holds for the complex field and is refuted for the axion (m of the new field is never written, the source is). The filter in Fourier space is an arbitrary function."
  },
  {
   "property": "C35",
   "status": "partial",
   "theorems": [
    "projection_mean_partial"
   ],
   "note": "Proved in exact arithmetic for every number of ranks, with what does not change; rounding is not modelled."
  },
  {
   "property": "C36",
   "status": "proved",
   "theorems": [
    "tracked_list",
    "tracked_kept",
    "search_finds"
   ],
   "note": "For every history of searches (in any thread order), readings, changes of layout and of values, and every limit from 0 up. A negative limit other than -1 and -2 would act as no limit."
  },
  {
   "property": "C37",
   "status": "partial",
   "theorems": [
    "read_where_found_partial",
    "printed_coordinates",
    "index_translation",
    "read_plain_refuted"
   ],
   "note": "Holds when the field is in the vector layout at the reading, for every history before; the printed coordinates are right. Refuted for a reading in the plain layout: the stored index is folded again instead of unfolded."
  },
  {
   "property": "C38",
   "status": "partial",
   "theorems": [
    "groups_clusters_partial",
    "groups_two_threads_refuted",
    "groups_folded_refuted",
    "groups_order_refuted"
   ],
   "note": "With one thread and the plain layout the groups are the clusters of the box of the rank, and the loops end. Refuted when two threads tag (each starts its labels at 0), in the vector layout (the wrong tag is tested), and for other orders of the candidates (the site below number L*L is skipped)."
  },
  {
   "property": "C39",
   "status": "proved",
   "theorems": [
    "mass_law",
    "mass_nonneg",
    "mass_monotone",
    "mass_constant",
    "mass_continuous"
   ],
   "note": "For positive times and thresholds; real arithmetic; the tabulated cosmology is not modelled."
  },
  {
   "property": "C40",
   "status": "partial",
   "theorems": [
    "axiton_list_partial",
    "axiton_candidates",
    "axiton_positions",
    "axiton_other_mode",
    "axiton_maxima_refuted",
    "axiton_misses_peak_refuted"
   ],
   "note": "For every field the list holds the largest candidates in descending order, nothing left out exceeds anything kept, unused entries are zero, and the candidates are characterised exactly; that the candidates are local maxima is refuted: the tests in the plane have the opposite sense, so no listed site is ever a strict local maximum and peaks are missed."
  },
  {
   "property": "C41",
   "status": "partial",
   "theorems": [
    "lut_in_table_partial",
    "lut_in_table_refuted",
    "lut_range",
    "lut_bounds_partial",
    "lut_signs",
    "lut_value",
    "lut_interpolates_partial",
    "lut_interpolates_refuted"
   ],
   "note": "Every read is inside the table unless both components are at the end of the range, where reads beyond it are proved for every excentricity from 4/5 up; uncovered arguments use no table; the factors are bounded by the largest entry; interpolation between the surrounding entries is proved where both components lie on the grid and refuted in general (strides of the wrong directions)."
  },
  {
   "property": "C42",
   "status": "partial",
   "theorems": [
    "string_word_decodes",
    "string_word_injective",
    "string_masks",
    "potential_word_decodes",
    "potential_word_injective",
    "mask_ignores_rest",
    "saturated_potential_refuted",
    "propagator_word_decodes",
    "propagator_word_injective",
    "analyses_decode",
    "analyses_energy",
    "analyses_spectra",
    "field_selector_refuted",
    "field_selectors"
   ],
   "note": "Proved for all sets of site flags, all potential choices, all propagators and all sets of analyses; refuted for the flag of the saturated potential, which no mask covers, and for the field selector M2H, which is the union of two others. Other enumerations are not modelled."
  },
  {
   "property": "C43",
   "status": "partial",
   "theorems": [
    "lane_rotation_real_pd",
    "lane_rotation_real_ps",
    "lane_rotation_cplx_pd",
    "lane_rotation_cplx_ps",
    "kernel_rotation",
    "rotations_inverse",
    "string_rotation_partial",
    "string_rotation_refuted",
    "energyTheta_rotation_refuted",
    "energyPaxion_rotation_refuted"
   ],
   "note": "All propagator kernels on all four instruction sets; refuted for the AVX512 double string finder, the AVX512 double axion energy and the single precision Paxion energy (AVX512, AVX)."
  },
  {
   "property": "C44",
   "status": "partial",
   "theorems": [
    "lowmem_same_result_refuted"
   ],
   "note": "Refuted: the low-memory step gives another result than the normal step."
  },
  {
   "property": "C45",
   "status": "partial",
   "theorems": [
    "component_sum",
    "shuffle_badc_swaps",
    "damping_sum_partial",
    "damping_sum_refuted"
   ],
   "note": "Refuted for the damping terms in double precision."
  },
  {
   "property": "C46",
   "status": "partial",
   "theorems": [
    "destroy_releases_partial",
    "converted_field_leaks_refuted",
    "angle_to_complex_destroy_refuted",
    "paxion_faxion_leak_refuted"
   ],
   "note": "Proved for fields that end as they were created; refuted for converted complex fields and for Paxion and Faxion fields."
  },
  {
   "property": "C47",
   "status": "partial",
   "theorems": [
    "complex_transforms_fit_partial",
    "angle_transforms_fit_partial",
    "constructor_plans_fit_partial",
    "spectral_angle_plan_refuted",
    "lowmem_plan_refuted",
    "tall_slab_plan_refuted"
   ],
   "note": "Proved when slices do not exceed ghosts times rows; refuted otherwise, for the spectral option on angle fields and in low-memory mode."
  },
  {
   "property": "C48",
   "status": "proved",
   "theorems": [
    "complex_to_angle_in_place",
    "angle_to_complex_in_place",
    "angle_to_paxion_in_place",
    "angle_to_naxion_in_place",
    "complex_to_angle_no_ghosts_refuted"
   ],
   "note": "The last theorem shows that the ghost slice is needed. Distinct buffers m, v, m2 are assumed, as C16 provides."
  },
  {
   "property": "C49",
   "status": "partial",
   "theorems": [
    "slices_aligned_partial",
    "slices_aligned_refuted"
   ],
   "note": "Proved for sides that are multiples of 4; refuted for side 6."
  },
  {
   "property": "C50",
   "status": "partial",
   "theorems": [
    "angle_round_trip",
    "complex_to_angle_velocity",
    "angle_to_complex_velocity_partial",
    "angle_to_complex_velocity_refuted"
   ],
   "note": "Real arithmetic. The velocity of angle-to-complex is right only when the scale factor grows at unit rate: the code uses 1/R where R'/R is needed."
  },
  {
   "property": "C51",
   "status": "partial",
   "theorems": [
    "error_flushes_partial",
    "message_sent_twice_refuted",
    "message_lost_refuted"
   ],
   "note": "Proved for errors logged when no send is pending; refuted otherwise: erasing or growing the stack separates messages from their requests."
  },
  {
   "property": "C52",
   "status": "partial",
   "theorems": [
    "string_map_partial",
    "avx512_strings_refuted",
    "ghost_shift_refuted"
   ],
   "note": "All builds but AVX-512 double precision; map slice z belongs to storage slice z+1."
  },
  {
   "property": "C53",
   "status": "partial",
   "theorems": [
    "print_each_once_partial",
    "print_empty_rank_refuted",
    "print_empty_rank_general"
   ],
   "note": "Holds if no rank after the first is empty; refuted otherwise."
  },
  {
   "property": "C54",
   "status": "partial",
   "theorems": [
    "save_restore_partial",
    "saved_file_unique",
    "restore_uneven"
   ],
   "note": "Exact numbers, equal size and kind; no failing calls. Field kinds with both m and v."
  },
  {
   "property": "C55",
   "status": "partial",
   "theorems": [
    "kind_restored",
    "kind_restored_refuted",
    "width_restored",
    "size_restored",
    "size_restored_refuted"
   ],
   "note": "Proved exactly which kinds and sizes come back; refuted: Naxion fields cannot be read back, WKB fields come back as Axion, a size that grows in one direction and not in the other is silently not honoured."
  },
  {
   "property": "C56",
   "status": "partial",
   "theorems": [
    "continue_accepts",
    "parameters_continue_partial",
    "thresholds_continue_partial",
    "thresholds_continue_refuted",
    "expansion_continue_refuted",
    "dectime_continue_refuted"
   ],
   "note": "Proved for size, coupling, mass prefactor, exponents, damping and (in the right order) thresholds; refuted for the expansion exponent (neither the saved one nor the one asked for), for the decay time (not saved) and for a restore threshold below the default of the other."
  },
  {
   "property": "C57",
   "status": "partial",
   "theorems": [
    "fresh_potential",
    "potential_continue",
    "potential_history",
    "potential_history_refuted",
    "potential_option_refuted",
    "potential_asked"
   ],
   "note": "Proved exactly which potentials survive a continuation; refuted for the second and third Peccei-Quinn potentials, for evolution of theta alone, and when an option about another part is given."
  },
  {
   "property": "C58",
   "status": "partial",
   "theorems": [
    "conf_type_restored",
    "sub_type_restored",
    "sub_text_fits_refuted"
   ],
   "note": "Proved exactly which kinds and variants come back; refuted for the others and for the name of the parametric resonance, which overruns its buffer."
  },
  {
   "property": "C59",
   "status": "partial",
   "theorems": [
    "mass_derivative_partial",
    "mass_derivative_refuted",
    "expansion_rate_partial",
    "expansion_rate_refuted",
    "hubble_partial",
    "hubble_refuted",
    "conformal_mass_rate_partial",
    "conformal_mass_rate_refuted"
   ],
   "note": "Proved for a power-law scale factor away from the thresholds; refuted with the matter term, for the conformal Hubble rate in the radiation era, and for the tabulated logarithmic rate."
  },
  {
   "property": "C60",
   "status": "partial",
   "theorems": [
    "mass_integrals_partial",
    "mass_integrals_refuted",
    "mass_integrals_expansion_refuted",
    "second_integral_refuted",
    "second_integral_value_refuted"
   ],
   "note": "Proved in the radiation era before the threshold; refuted after it, across it, in other expansions, and at the threshold coming from later times, where no value is returned."
  },
  {
   "property": "C61",
   "status": "partial",
   "theorems": [
    "step_stable_partial",
    "step_stable_refuted"
   ],
   "note": "Proved for a power-law scale factor; refuted with the matter term, where the step that should end after the threshold exceeds the stable one. The mass is taken at the beginning of the step."
  },
  {
   "property": "C62",
   "status": "partial",
   "theorems": [
    "vacuum_shift",
    "field_shift_partial",
    "shift_at_time_refuted",
    "second_shift_refuted"
   ],
   "note": "Proved for the first potential at the time of the field; refuted for another time, which is ignored, and for the second potential under a strong tilt."
  },
  {
   "property": "C63",
   "status": "proved",
   "theorems": [
    "string_width",
    "saxion_mass_fixed"
   ],
   "note": "Real arithmetic; positive times."
  },
  {
   "property": "C64",
   "status": "partial",
   "theorems": [
    "string_point_partial",
    "string_point_exact_partial",
    "string_point_refuted",
    "string_point_exact_refuted"
   ],
   "note": "Proved when no two neighbouring corners are opposite, and exact for linear fields off the axes; refuted for opposite neighbours (no number) and corners on an axis (the centre is returned). Real arithmetic."
  },
  {
   "property": "C65",
   "status": "partial",
   "theorems": [
    "cube_ends_partial",
    "cube_ends_exact_partial",
    "cube_length_partial",
    "cube_length_refuted",
    "straight_strings_refuted",
    "length_by_ranks_refuted"
   ],
   "note": "Proved for cubes that are not in the last slice of a rank and have two or four ends; refuted for six ends (too short) and for the total, which misses the last slice of every rank."
  },
  {
   "property": "C66",
   "status": "partial",
   "theorems": [
    "string_speeds_partial",
    "speed_bounds_partial",
    "string_speeds_refuted"
   ],
   "note": "Proved when there is a string and the plaquettes have numbers; refuted without strings."
  },
  {
   "property": "C67",
   "status": "partial",
   "theorems": [
    "axion_mass_felt_partial",
    "axion_mass_felt_iff",
    "axion_mass_variant",
    "axion_mass_felt_refuted",
    "cosine_vacuum_at_rest_refuted"
   ],
   "note": "Exactly which variants have the right pull is proved; the others are refuted: the linear, the variant-with-both-components (one power of R too much), one of the two signs of the two-well potential and the cosine in double precision."
  },
  {
   "property": "C68",
   "status": "partial",
   "theorems": [
    "force_is_gradient_partial",
    "force_is_gradient_refuted",
    "force_is_gradient_iff"
   ],
   "note": "Exactly when it holds is proved: with an axion mass only the cosine in single precision (also under the name linear, with the first saxion potential); without, all but the linear potential with another saxion potential. Refuted for every other combination."
  },
  {
   "property": "C69",
   "status": "partial",
   "theorems": [
    "kernels_agree_partial",
    "single_agree_partial",
    "double_agree_partial",
    "two_well_kernels_agree_refuted",
    "linear_precisions_agree_refuted",
    "cosine_precisions_agree_refuted",
    "lowmem_damping_agree_refuted"
   ],
   "note": "Proved for potentials without, first or with both components and no damping of the modulus, for all single-precision instruction sets and for double precision where the shuffles are right; refuted for the two-well, linear and cosine potentials across precisions and for low-memory damping, which reads an unset parameter."
  },
  {
   "property": "C70",
   "status": "partial",
   "theorems": [
    "modulus_damped_partial",
    "modulus_damped_iff",
    "modulus_damped_refuted",
    "all_damped",
    "damping_contracts"
   ],
   "note": "Damping of everything is proved in full. Damping of the modulus holds exactly in single precision, with SSE and at the first number of a register; refuted elsewhere."
  },
  {
   "property": "C71",
   "status": "partial",
   "theorems": [
    "phase_kept_partial",
    "phase_kept_iff",
    "phase_kept_refuted",
    "only_angle_partial",
    "only_angle_modulus",
    "only_angle_keeps_modulus_refuted",
    "lowmem_only_angle_refuted"
   ],
   "note": "Only the modulus: proved except in the upper half of AVX-512 double registers, where it is refuted. Only the angle: proved for the normal layout except the double-precision cosine; refuted for low memory, and the modulus itself still grows at second order."
  },
  {
   "property": "C72",
   "status": "partial",
   "theorems": [
    "energies_right_partial",
    "kinetic_double_exact_partial",
    "kinetic_energy_refuted",
    "modulus_mean_refuted",
    "energies_zero_refuted",
    "tilted_reported",
    "two_well_reported",
    "no_axion_reported",
    "axion_energy_refuted",
    "linear_saxion_refuted"
   ],
   "note": "Proved: gradients in both precisions; kinetic energies and mean modulus in single precision; saxion potential except with the linear axion potential; axion potential for the cosine and the variant with both components. Refuted: kinetic energy in double precision (the factor 1/R^2 is an integer, so zero for R > 1), mean modulus in double precision (never set), axion energy of the other potentials, everything where the field vanishes."
  },
  {
   "property": "C73",
   "status": "partial",
   "theorems": [
    "map_is_density_partial",
    "map_mean_refuted",
    "mask_leaves_map",
    "masked_map_zero",
    "averages_leave_map_refuted",
    "lowmem_energies_refuted",
    "masked_energies_partial",
    "masked_none_refuted",
    "masked_count_bounds",
    "masked_count_refuted"
   ],
   "note": "Proved: the map is the density and, in single precision, its mean is the reported energy; masked averages in single precision; bounds on the count in double precision for every schedule. Refuted: the count under racing threads, averages with an empty mask, leaving the map alone when only averages are asked for."
  },
  {
   "property": "C74",
   "status": "partial",
   "theorems": [
    "energy_conserved_partial",
    "energy_conserved_refuted",
    "energy_conserved_iff"
   ],
   "note": "Proved for nearest neighbours in single precision and the potentials of C68; refuted for wider stencils (the reported gradient is the nearest-neighbour one), for double precision (kinetic energy truncated) and for the other potentials."
  },
  {
   "property": "C75",
   "status": "partial",
   "theorems": [
    "axion_law_partial",
    "axion_law_refuted",
    "axion_law_iff",
    "two_wells_frozen_refuted"
   ],
   "note": "Exactly when it holds is proved: every potential but the one with two wells (for which nothing is evolved) and, in single precision, the linear one with a nonzero beta."
  },
  {
   "property": "C76",
   "status": "partial",
   "theorems": [
    "axion_energies_partial",
    "axion_map",
    "axion_map_sites_partial",
    "axion_requests",
    "uniform_gradient_refuted",
    "axion_potential_refuted"
   ],
   "note": "Proved for neighbours less than a turn and a half apart and no exact half turns, outside double precision with AVX-512. Refuted: there a uniform field has gradient energy; the potential energy is that of the cosine whatever the potential."
  },
  {
   "property": "C77",
   "status": "partial",
   "theorems": [
    "axion_conserves_partial",
    "axion_conserves_refuted",
    "axion_conserves_iff"
   ],
   "note": "Exactly when it holds is proved, for stencils of up to five neighbours: nearest neighbours, not double precision with AVX-512, and the cosine (or no mass and any potential but that with two wells)."
  },
  {
   "property": "C78",
   "status": "partial",
   "theorems": [
    "same_angles_partial",
    "same_energies_partial",
    "half_turn_refuted",
    "long_difference_refuted",
    "expansion_refuted",
    "expansion_energy_refuted",
    "linear_potential_refuted"
   ],
   "note": "Proved without expansion for periodic potentials, differences of less than a turn and a half and no exact half turns. Refuted: half turns (become zero), larger differences, expansion (velocity and kinetic energy are not brought back), the linear potential."
  },
  {
   "property": "C79",
   "status": "proved",
   "theorems": [
    "table_accepted",
    "through_points",
    "piecewise_cubic",
    "band_solution"
   ],
   "note": ""
  },
  {
   "property": "C80",
   "status": "partial",
   "theorems": [
    "slope_is_derivative",
    "curvature_is_derivative_partial",
    "curvature_continuous",
    "third_is_derivative_partial",
    "left_curvature_iff",
    "left_curvature_refuted",
    "ends_met",
    "linear_extrapolation"
   ],
   "note": "First derivative, end conditions and linear extrapolation hold in full. The second derivative returned to the left of the table is wrong by a factor h unless the curvature there is zero."
  },
  {
   "property": "C81",
   "status": "partial",
   "theorems": [
    "cubics_reproduced",
    "lines_reproduced",
    "superposition",
    "stretched_table",
    "parabola_refuted",
    "between_neighbours_refuted"
   ],
   "note": "A rising positive table can give a negative curve; a parabola is not reproduced with the default ends."
  },
  {
   "property": "C82",
   "status": "partial",
   "theorems": [
    "chords",
    "between_neighbours",
    "chords_beyond_partial",
    "chords_beyond_refuted"
   ],
   "note": "Beyond the right end an object used before for a cubic keeps a quadratic term."
  },
  {
   "property": "C83",
   "status": "partial",
   "theorems": [
    "table_units_partial",
    "today_is_one_partial",
    "start_zero",
    "today_is_one_refuted",
    "not_in_units",
    "unit_found_partial",
    "unit_search_refuted",
    "lines_kept_iff",
    "lines_kept_refuted"
   ],
   "note": "Holds when the two loop variables that are not initialised happen to be zero. Otherwise the program stops or nothing is rescaled. Termination of the search is proved for straight columns and refuted for a decay constant of 1."
  },
  {
   "property": "C84",
   "status": "partial",
   "theorems": [
    "expansion_table_partial",
    "mass_table_partial",
    "log_rate_excess",
    "log_rate_refuted"
   ],
   "note": "Inside an interval of the table; the logarithmic rate has an extra term because time multiplies only one of the two products."
  },
  {
   "property": "C85",
   "status": "partial",
   "theorems": [
    "smoothing_averages",
    "smoothing_any_split",
    "smoothing_keeps_mean",
    "smoothing_stays_inside",
    "smoothing_smooths",
    "smoothing_damps_waves",
    "smoothing_low_memory_refuted"
   ],
   "note": "Exact arithmetic. With the low memory option the buffer is missing and the first iteration fails."
  },
  {
   "property": "C86",
   "status": "partial",
   "theorems": [
    "normalised_field_has_modulus_one",
    "normalised_velocity_has_modulus_one",
    "normalising_twice",
    "normalise_zero_refuted",
    "normalise_unknown_field_refuted",
    "core_profile",
    "twist_of_angles",
    "core_profile_uniform",
    "core_profile_low_memory",
    "core_profile_keeps_velocity_refuted",
    "scaling_the_field",
    "scaling_the_velocity",
    "scaling_the_velocity_refuted",
    "mean_modulus",
    "mean_modulus_refuted"
   ],
   "note": "Holds for fields without zeros. A zero gives a number that is not one; the core profile uses the velocity as its buffer with low memory; scaling the velocity writes outside its memory with two or more ghost slices; the mean starts from memory that was never set and divides by the number of elements including ghosts."
  },
  {
   "property": "C87",
   "status": "partial",
   "theorems": [
    "start_smoothed",
    "start_smoothed_flat",
    "start_kick_refuted",
    "start_lola",
    "start_lola_at_rest_refuted"
   ],
   "note": "With a kick and two or more ghost slices the velocity is written outside its memory. The string configuration takes phi itself as velocity, which is a field at rest only when the scale factor grows at rate one."
  },
  {
   "property": "C88",
   "status": "partial",
   "theorems": [
    "minicluster0_is_gaussian",
    "minicluster_is_gaussian",
    "axiton_single",
    "axiton_double_refuted",
    "amplitude_only_sign",
    "amplitude_refuted",
    "same_for_any_split",
    "long_box_refuted",
    "noise_bounds",
    "string_wave_stays_zero",
    "string_wave_refuted",
    "loop_angle",
    "loop_xy",
    "loop_yz",
    "one_mode",
    "resonance_mode",
    "loop_through_point_refuted"
   ],
   "note": "Cubic boxes. The amplitude is ignored except for its sign, the axiton differs between precisions, and long boxes depend on the split."
  },
  {
   "property": "C89",
   "status": "partial",
   "theorems": [
    "merge_in_safe_order",
    "merge_one_thread",
    "merge_two_threads_refuted",
    "waves_replaced_by_smoothing",
    "waves_kept_by_smoothing_refuted"
   ],
   "note": "Right with one thread and in every order that reads before it writes. Two threads can overwrite velocities before they are read, and strings made by smoothing destroy the waves saved in the buffer."
  },
  {
   "property": "C90",
   "status": "partial",
   "theorems": [
    "phase_weight_partial",
    "phase_weight_refuted",
    "drift_weight_partial",
    "drift_weight_refuted",
    "potential_keeps_density",
    "step_follows_equation_partial",
    "rkn4_follows_equation_partial",
    "uniform_flat",
    "uniform_expanding_refuted"
   ],
   "note": "The rate of a step is right away from the times where the mass law changes and unless R grows as the root of time, where the phase divides by zero. The weight of a finite step is wrong when the conformal mass grows nearly as the time. Each half of the potential is given the background of the start of its interval for half a step, so a uniform field in an expanding box turns by less than it should."
  },
  {
   "property": "C91",
   "status": "partial",
   "theorems": [
    "change_of_variables_partial",
    "change_of_variables_refuted",
    "conversion_sites",
    "room_from_saxion_partial",
    "room_from_saxion_refuted",
    "room_from_axion_partial",
    "room_from_axion_refuted"
   ],
   "note": "The velocity is right when the scale factor is 1. Fields made as axions have no room for two or more slices of ghosts."
  },
  {
   "property": "C92",
   "status": "partial",
   "theorems": [
    "number_conserved",
    "total_kept",
    "number_refuted",
    "modes_bounded_partial",
    "own_step_bounded_partial",
    "own_step_bounded_refuted"
   ],
   "note": "Conservation by the equation is proved in full. The update changes the number of a mode, but keeps it bounded when the mode turns by less than root 8 in a step. The chosen step satisfies that when 12/delta^2 is at most 35 mA^2; at 131.25 mA^2 the fastest mode grows without bound."
  },
  {
   "property": "C93",
   "status": "partial",
   "theorems": [
    "pax_number_and_self",
    "pax_gradients_partial",
    "pax_gradients_refuted",
    "uniform_double_refuted",
    "unset_register_refuted",
    "wrong_lanes_refuted",
    "pax_energy_refused",
    "pax_map_partial",
    "pax_map_refuted",
    "pax_map_room_partial",
    "pax_map_room_refuted",
    "pax_energy_conserved_partial",
    "pax_energy_conserved_refuted"
   ],
   "note": "Gradients are divided by R^2 once too often. The neighbours in y are read wrongly with AVX-512 and with AVX in single precision. The map is right with one slice of ghosts only. The energy ignores the coupling, so it is conserved only for a coupling of 1."
  },
  {
   "property": "C94",
   "status": "partial",
   "theorems": [
    "void_one_per_site_partial",
    "void_mass_partial",
    "void_mass_refuted",
    "void_fewer_refuted",
    "void_large_refuted",
    "void_wrapped_refuted",
    "ids_in_order",
    "ids_missing_refuted"
   ],
   "note": "Proved for one particle per site and grids whose cube fits in 32 bits. With k particles per site the file weighs k times the box, with fewer particles than sites nothing is written, sides that are multiples of 2048 divide by zero and other large sides get wrong masses; a number of particles that is not a multiple of the slab leaves entries unwritten."
  },
  {
   "property": "C95",
   "status": "partial",
   "theorems": [
    "gradient_is_phase",
    "gradient_aliased",
    "velocity_units_refuted",
    "velocity_buffer_refuted",
    "smoothed_x_refuted",
    "displacement_option_refuted",
    "corners_partial",
    "last_column_partial",
    "corners_refuted",
    "corner_slice_refuted",
    "interpolation_mean",
    "scatter_in_box_partial",
    "scatter_in_box_refuted"
   ],
   "note": "The gradient is the phase difference per site, but it is never divided by the distance of sites. The buffer of velocities lies behind its array, smoothed velocities along x are overwritten, the option that displaces smooths instead, and the interpolation uses wrong sites in the last column of x and reads behind the masses in the last slice. A scatter of more than a box is folded only once."
  },
  {
   "property": "C96",
   "status": "partial",
   "theorems": [
    "share_is_sum",
    "shares_add_up",
    "targets_add_up",
    "target_near_share",
    "balanced_partial",
    "balanced_refuted",
    "balancing_can_end",
    "balancing_can_end_refuted"
   ],
   "note": "Exact when the drawn site is one of the sites; the draw includes one place behind them. A rank that aims at its own share can always finish; the first rank may be given another target and then loops for ever."
  },
  {
   "property": "C97",
   "status": "partial",
   "theorems": [
    "halo_file_partial",
    "halo_file_refuted",
    "halo_overrun_refuted",
    "transfer_keeps_particles",
    "sender_answers_partial",
    "sender_answers_refuted"
   ],
   "note": "Proved for one rank whose sites hold at most a slab and one of particles each; a site with more than two slabs overruns the buffer. Transfers keep particles; a sender whose last site has enough left never answers. The loop over the slabs of several ranks is not modelled."
  },
  {
   "property": "C98",
   "status": "partial",
   "theorems": [
    "mode_still_partial",
    "mode_still_refuted",
    "mode_real",
    "mode_real_two",
    "mode_linear",
    "wronskian_kept",
    "wronskian_kept_two",
    "mode_composes_partial",
    "velocity_is_rate",
    "wkb_equation",
    "extra_bound",
    "velocity_is_rate_two_partial"
   ],
   "note": "Over no time at the very time the mass freezes, a mode is turned (refuted): the two laws of the mass are compared with <= on one side and < on the other. The rate and the equation are for any phase that grows as the frequency (C99 says when it does). Real arithmetic."
  },
  {
   "property": "C99",
   "status": "partial",
   "theorems": [
    "no_turn_at_once",
    "turn_growing_partial",
    "turn_frozen_partial",
    "turn_frozen_refuted",
    "turns_add",
    "turn_two_partial",
    "turn_two_crossing_refuted",
    "turn_two_massless_refuted",
    "turn_massless"
   ],
   "note": "Proved while the mass grows, for any hypergeometric function that sums Gauss series. Once the mass is frozen the part of the phase beyond that of the mass is divided by the momentum (0.5*k instead of 0.5*k2), so for k other than 1 it does not grow as the frequency (refuted). In the version with two fields it is right within one law of the mass, wrong by 4/(4+n) for the still mode if the mass freezes on the way, and by 2/(4+n) for a massless field (refuted)."
  },
  {
   "property": "C100",
   "status": "partial",
   "theorems": [
    "momenta_partial",
    "momenta_all",
    "momenta_refuted",
    "table_covers",
    "table_made",
    "table_at_knots",
    "steps_compose_partial"
   ],
   "note": "Cubic boxes, or one rank. In a long box shared by ranks the offset of the planes counts slices of z although the modes are cut in y (refuted). Between tabulated momenta the phase is a cubic spline in k^2 and its error is not bounded here."
  },
  {
   "property": "C101",
   "status": "partial",
   "theorems": [
    "no_time_partial",
    "transport_defined",
    "transport_end",
    "transport_forgets_partial",
    "second_transport_partial",
    "saxion_refused",
    "massless_refuted",
    "last_slices_refuted",
    "room_iff",
    "low_memory_refuted",
    "velocity_overread_iff"
   ],
   "note": "A massless field becomes NaN (refuted). With two fields and more than one ghost slice the field is read and written one slice from the start of its array, so the last slices of a rank are never moved (refuted), and the velocity is copied past its end. A rank longer than wide overruns v; the low-memory mode has no second half of m2. The transforms are arguments."
  },
  {
   "property": "C102",
   "status": "proved",
   "theorems": [
    "momentum_of_mode",
    "potential_defined",
    "poisson"
   ],
   "note": "Transforms are any pair whose composition on modes weighted by functions of the momentum multiplies by the number of sites. Exact numbers."
  },
  {
   "property": "C103",
   "status": "partial",
   "theorems": [
    "contrast_zero_partial",
    "contrast_zero_refuted",
    "normalised",
    "normalise_defined"
   ],
   "note": "The contrast adds up to zero on one rank only: each rank takes away its own share of the mean. Normalisation is proved for every field that is not zero."
  },
  {
   "property": "C104",
   "status": "partial",
   "theorems": [
    "reduced_grid",
    "expanded_grid",
    "reduced_and_back",
    "factor_divides",
    "reduced_momenta_partial",
    "reduced_momenta_refuted",
    "reduced_momenta_other_refuted",
    "shift_half_cell",
    "shift_centre_refuted"
   ],
   "note": "Reduction and expansion are proved for every order of the threads. Momenta of the reduced grid are right on one rank; on more they use the planes of the full grid, and one mode may be divided by zero. The shift is half a cell, not to the centre of its sites."
  },
  {
   "property": "C105",
   "status": "partial",
   "theorems": [
    "relax_fixed_point",
    "relax_bounds_partial",
    "relax_bounds_refuted",
    "relax_sum_refuted",
    "relax_double_refuted",
    "relax_tuning_best",
    "tuning_runs",
    "tuning_runs_refuted"
   ],
   "note": "Fixed points are characterised in full. Bounds hold for the stencil of one neighbour; with two a bump becomes a hole. The sum is not kept, double precision reads foreign memory, and tuning ends the program unless 16 divides the side and the slices of a rank."
  },
  {
   "property": "C106",
   "status": "partial",
   "theorems": [
    "map_xy_partial",
    "map_xy_naxion_partial",
    "map_xy_naxion_refuted",
    "map_xy_beyond_refuted",
    "map_xy_closed",
    "map_yz_partial",
    "map_yz_naxion_refuted",
    "map_yz_edge_refuted",
    "map_energy_partial",
    "map_energy_far_refuted",
    "map_energy_refused",
    "map_projection_partial",
    "map_projection_lowmem_refuted",
    "maps_together_partial",
    "maps_both_projections_refuted"
   ],
   "note": "Proved for the fields the writers were made for and slices inside the box. Refuted: the nonrelativistic fields in part, a plane at the edge of the box, an energy map of a slice of another rank, projections of a low-memory field, and asking for both projections at once."
  },
  {
   "property": "C107",
   "status": "partial",
   "theorems": [
    "saxion_spectra_partial",
    "saxion_masks",
    "saxion_nothing_else",
    "smooth_spectra_partial",
    "smooth_spectra_refuted",
    "ball_pure_refuted",
    "nonlinear_potential_refuted",
    "axion_spectra_partial",
    "axion_energy_spectra",
    "axiton_spectra_refuted",
    "axiton2_spectra_refuted",
    "axiton_mask_refuted",
    "no_radius_refuted",
    "same_label_refuted"
   ],
   "note": "Proved for the complex field with five of its seven masks, its mask spectra, and the axion without mask and its energy spectra, for all combinations. Refuted: gradients and radial spectra of smooth masks, uncorrected spectra with balls, the nonlinear potential alone, number spectra outside axitons, an empty list of radii, and radii with equal labels. Provenance is modelled, not the numbers."
  },
  {
   "property": "C108",
   "status": "partial",
   "theorems": [
    "there_and_back_partial",
    "not_twice",
    "half_way_refuted",
    "ghost_slices_refuted",
    "axion_overrun_refuted",
    "axion_ghosts_refuted",
    "axion_alone_partial"
   ],
   "note": "There and back is proved for the complex field with one ghost slice and, for the axion alone, with one ghost slice and ranks no deeper than the length. Refuted for all grids: with two ghost slices or more the velocity is scaled beyond its room; the axion with its velocity always writes outside; the axion alone leaves its velocity divided by the number of sites; with m alone in momentum space a request for both leaves the velocity."
  },
  {
   "property": "C109",
   "status": "partial",
   "theorems": [
    "mode_momentum_partial",
    "stage_partial",
    "free_stage",
    "free_evolution_partial",
    "drift_moves",
    "drift_keeps_rest",
    "drifts_add",
    "slope_is_force",
    "slope2_is_force",
    "axion_mode_partial",
    "wide_vector_refuted",
    "double_still_refuted",
    "unset_force_refuted",
    "second_potential_refuted"
   ],
   "note": "Proved in single precision, for the first potential, one ghost slice, and vectors that divide half a row; the kernel of the axion is proved alone, as its step always writes outside (C108). Refuted: in double precision nothing moves while time goes on; with the temperature-dependent potential the velocities come from a register never set; the force of the second potential misses a factor; a row of a single vector gets wrong momenta. The axion force enters only through the mode without momentum and the term of the expansion is missing; neither is stated here."
  },
  {
   "property": "C110",
   "status": "partial",
   "theorems": [
    "list_schedule_partial",
    "list_complete_partial",
    "restart_schedule_partial",
    "list_empty_refuted",
    "list_single_refuted",
    "restart_line_refuted",
    "switch_list_refuted"
   ],
   "note": "The loop of the main program, on any library that keeps time. Refuted: an empty list, a single line at the start (reads outside the list); a restart just at a line with a long first step loses the next line; in the turn of the change to the axion a line is measured with the maps and masks of the density options. Missing: lists out of order, rounding of times."
  },
  {
   "property": "C111",
   "status": "partial",
   "theorems": [
    "numbers",
    "numbers_restart",
    "every_schedule_partial",
    "fixed_steps_partial",
    "every_end_refuted",
    "every_zero_refuted",
    "every_twice_refuted"
   ],
   "note": "Numbers hold without conditions. Refuted: with adaptive steps the end is gone past; each 0 steps divides by 0; the last field may be measured twice. Missing: the phase of every n steps after a restart, rounding."
  },
  {
   "property": "C112",
   "status": "partial",
   "theorems": [
    "switch_once_partial",
    "damping_once_partial",
    "switch_consecutive_refuted",
    "stale_strings_refuted"
   ],
   "note": "Refuted: the steps without strings need not be in a row (the counter is never reset); with a thousand strings at the last measurement they are not counted again before the next."
  },
  {
   "property": "C113",
   "status": "partial",
   "theorems": [
    "ranks_agree",
    "stop_honoured_partial",
    "stop_last",
    "save_transparent",
    "save_hides_refuted"
   ],
   "note": "What a rank sees is an argument. Refuted: a save file that cannot be removed hides stop, abort and the wall time for ever. Missing: writing the restart file."
  },
  {
   "property": "C114",
   "status": "partial",
   "theorems": [
    "merge_kinds_partial",
    "merge_maps_refuted",
    "merge_order_refuted"
   ],
   "note": "Refuted: maps, masks and the rest asked by the second of two lines of one time are lost; a list out of order stays so, and equal times that are not neighbours stay. Missing: the text of the file."
  },
  {
   "property": "C115",
   "status": "partial",
   "theorems": [
    "prep_ends_partial",
    "prep_restores",
    "prep_background",
    "prep_coupling",
    "prep_steps",
    "prep_start_coupling",
    "prep_field_at_rest",
    "prep_damping_refuted",
    "prep_rest_refuted"
   ],
   "note": "Proved: it ends, at the start; the steps taken, with which coupling, damping and first field; coupling, kind and exponent restored; the coupling joins; the number of strings is taken for the coupling it begins with; at rest if the scale grows as time. Refuted: the damping asked for the evolution stays for the run; with another growth (Minkowski included) the field is not at rest. Partial: the propagator is an argument; step sizes bounded below."
  },
  {
   "property": "C116",
   "status": "partial",
   "theorems": [
    "findct2_ends",
    "older_ends_partial",
    "back_keeps",
    "back_rate_refuted",
    "relax_partial",
    "relax_refuted"
   ],
   "note": "Proved: the search ends, on the first; the evolution ends past its time or one step after few enough strings were counted; going back keeps field and, if the scale grows as time, rate; where the relaxation ends if it does. Refuted: with another growth the rate changes; the relaxation never ends if the strings stay. Partial: the propagator and the count of strings are arguments."
  },
  {
   "property": "C117",
   "status": "partial",
   "theorems": [
    "mom_places",
    "mom_plain",
    "mom_modes",
    "mom_ends",
    "mom_frame",
    "cut_size",
    "mode0_set",
    "tkachev_rate",
    "tkachev_size",
    "thermal_shares",
    "thermal_mass",
    "spax_table",
    "table_read",
    "cut_refuted",
    "cut_velocity_refuted",
    "mode0_velocity_refuted",
    "mode0_large_refuted",
    "conjugate_refuted",
    "kcole_refuted",
    "spax_short_refuted"
   ],
   "note": "Proved: places, amplitudes and what is left alone, for any order; the zero mode of the plain kinds; Tkachev velocities are the rates, and the mean square; thermal occupation; the table. Refuted: modes sqrt 3 times longer than the cut are made; velocities beyond the cut are whatever the memory held; the angle goes to the velocity for Tkachev and thermal; an angle above pi is ignored, and ranks then disagree; modes are not conjugate; the kind KCole gets another amplitude; a table up to half the box is read past its end. Partial: the random numbers are arguments (they are seeded by the machine)."
  },
  {
   "property": "C118",
   "status": "partial",
   "theorems": [
    "piece_right",
    "string_mode_partial",
    "piece_perpendicular_refuted",
    "string_past_refuted"
   ],
   "note": "Proved for momenta with a first component when no piece is at right angles to it. Refuted: a piece at right angles adds nothing; without first component a point past the last is read. Partial: circular loops and the transform are not modelled."
  },
  {
   "property": "C119",
   "status": "partial",
   "theorems": [
    "spec_laplacian",
    "spec_momenta",
    "spec_stage_partial",
    "spec_modes",
    "spec_step",
    "spec_mass_partial",
    "spec_as_stencil_partial",
    "spec_damping_partial",
    "spec_ghosts",
    "spec_momenta_refuted",
    "spec_mass_refuted",
    "spec_third_refuted",
    "spec_angle_refuted",
    "spec_damping_refuted",
    "spec_no_ghosts_refuted"
   ],
   "note": "Proved for the first two Peccei-Quinn potentials in boxes as deep as long, with the axion potentials and damping where they are right. Refuted: boxes of another depth, the third potential, --onlytheta, radial damping unless R prime is 1, no ghosts (--lap 0), and axion potentials that give a wrong mass. Partial: low memory and GPU left out; the transforms are any pair that undo each other."
  },
  {
   "property": "C120",
   "status": "partial",
   "theorems": [
    "tspec_laplacian",
    "tspec_stage_partial",
    "tspec_as_stencil_partial",
    "tspec_modes",
    "tspec_step",
    "tspec_background_refuted",
    "tspec_potential_refuted",
    "tspec_no_ghosts_refuted"
   ],
   "note": "Proved with the cosine potential when R double prime is 0. Refuted otherwise, for no potential, and without ghosts. Partial: GPU left out; the real transforms are any that are linear, faithful and undo each other."
  },
  {
   "property": "C121",
   "status": "partial",
   "theorems": [
    "titled_file",
    "says_one",
    "untitled_file",
    "blank_line_harmless",
    "blank_first_refuted",
    "unknown_title_refuted",
    "many_titles_refuted",
    "short_row_refuted",
    "all_unknown_refuted"
   ],
   "note": "Proved for files with known titles given once and full rows, and for files without titles. Refuted: an unknown title shifts the columns, a sixth column is written past the end, short rows take the time of the row before, a blank first row an unset one. Partial: what std::stof and std::stoi read is an argument, negative maps are left out."
  },
  {
   "property": "C122",
   "status": "partial",
   "theorems": [
    "link_integral_partial",
    "near_integral_partial",
    "reversed_partial",
    "reversed_refuted",
    "through_refuted",
    "pieces_sum_partial",
    "open_end_refuted",
    "copies_partial",
    "below_refuted",
    "any_phase_partial",
    "any_vacuum",
    "any_ranks_partial",
    "any_ranks_refuted",
    "any_deep_refuted",
    "heights_partial",
    "heights_refuted"
   ],
   "note": "Proved: a piece at least one spacing away gives the integral of the element at its middle, one nearer the mean of ten (its end and nine tenths back, not its start); a far piece reversed gives the opposite; the gradient is half the sum over pieces not at an end; on one rank, v zero at the first site and at most twice as deep as wide, the field is the phase summed along the path; always modulus one and at rest; the copy above is one box above; heights right if as deep as wide. Refuted: a near piece reversed does not give the opposite; a piece with its middle on a link gives no number; without an end mark on the last point memory behind the list is read; the copy below is 2^64 minus the box above; on more ranks all slices but the first start from zero, as the value of the rank before comes too late; boxes deeper than twice the width overwrite gradients; heights wrong in other boxes. Not covered: the text of the file, smoothing afterwards."
  },
  {
   "property": "C123",
   "status": "partial",
   "theorems": [
    "coords_file_partial",
    "coords_length_partial",
    "coords_nothing",
    "coords_alone_partial",
    "coords_lost_refuted",
    "coords_again_refuted",
    "coords_many_refuted"
   ],
   "note": "Proved: the file is what the ranks found, in order, three numbers a point, if the messages of the ranks after the first are below 2^31 bytes; other ranks keep their memory; one rank alone keeps it too; nothing without coordinates or file. Refuted: rank 0 ends with the coordinates of the last rank, so that a second file differs; a rank after the first with 2^31 bytes or more stops it. Not covered: attributes, and ranks that disagree about an open file."
  },
  {
   "property": "C124",
   "status": "partial",
   "theorems": [
    "expand_partial",
    "expand_kept",
    "expand_rest_partial",
    "expand_order_refuted",
    "expand_uneven_refuted",
    "expand_ratio_refuted"
   ],
   "note": "Proved for the same whole factor in width and height: linear between sites over ranks and around the box, in any order of the cells, whatever m2 held; sites of the file kept; nothing behind the field written. Refuted: if the factor is not whole, a site is written by two cells with different values, so that the result depends on the order of threads and in the order of the loop is continued from the wrong cell; if height and width have different factors, heights are scaled by that of the width."
  },
  {
   "property": "C125",
   "status": "partial",
   "theorems": [
    "to_saxion",
    "from_moore"
   ],
   "note": "Proved at a site in exact arithmetic. The velocity of the Moore format is stated as what the code makes of it, R v less R theta; that this is the velocity meant there is not known. Copies through m2 and the mending of jumps after it are not covered here."
  },
  {
   "property": "C126",
   "status": "partial",
   "theorems": [
    "velocity_partial",
    "velocity_near_partial",
    "velocity_map_partial",
    "velocity_rest",
    "gradient_x_partial",
    "gradient_yz_partial",
    "gradient_yz_rest",
    "smooth_z_refuted",
    "saxi_refuted",
    "long_refuted"
   ],
   "note": "Exact arithmetic; the correction near strings is an arbitrary function (its table: C41). Refuted: with the masks Gaus and Diff the z gradient is written without padding but transformed as padded; the saxion mask falls through to no mask; in a slab longer than Ng times its width the two halves overlap."
  },
  {
   "property": "C127",
   "status": "partial",
   "theorems": [
    "potential_partial",
    "linear_partial",
    "angle_reversed_refuted"
   ],
   "note": "Exact arithmetic. Refuted for the second half: atan2 is called with its arguments exchanged, so the angle is measured backwards from the imaginary axis (R pi/2 where the angle is 0); with Gaus and Diff nothing is written there."
  },
  {
   "property": "C128",
   "status": "partial",
   "theorems": [
    "nrun_z_partial",
    "nrun_z_refuted",
    "old_gradient_x_partial",
    "old_gradient_yz_partial",
    "old_cases_refuted",
    "old_potential_partial",
    "old_potential_refuted"
   ],
   "note": "Exact arithmetic; old gradients for sites of equal modulus; the bins are not in this part."
  },
  {
   "property": "C129",
   "status": "partial",
   "theorems": [
    "axion_input_partial",
    "axion_rest",
    "axion_nonlinear_partial",
    "axit_velocity_refuted",
    "axit_weight_refuted"
   ],
   "note": "Exact arithmetic; every mask but Axit, which is refuted."
  },
  {
   "property": "C130",
   "status": "partial",
   "theorems": [
    "devices_partial",
    "long_names_refuted",
    "missing_device_refuted",
    "start_partial",
    "no_device_refuted"
   ],
   "note": "Threads, the logger and the properties of the device are not modelled."
  },
  {
   "property": "C131",
   "status": "partial",
   "theorems": [
    "times_partial",
    "times_defined",
    "nested_refuted",
    "no_start_refuted",
    "no_stop_refuted",
    "unaccounted_refuted"
   ],
   "note": "Rounding of doubles and the text printed are not modelled; a clock that goes back is taken as a time of 0."
  },
  {
   "property": "C132",
   "status": "partial",
   "theorems": [
    "doom_right",
    "doom_none",
    "doom_power",
    "doom_constant_refuted",
    "doom_hangs_refuted",
    "doom_never_refuted"
   ],
   "note": "Exact arithmetic. No bound on the number of passes is proved but for power laws; refuted for jumps."
  },
  {
   "property": "C133",
   "status": "partial",
   "theorems": [
    "sample_partial",
    "sample_any_history",
    "sample_outside_refuted",
    "sample_device_refuted"
   ],
   "note": "The other numbers of the line are not modelled."
  },
  {
   "property": "C134",
   "status": "partial",
   "theorems": [
    "measlist_partial",
    "measlist_keeps",
    "measlist_zero_dump",
    "measlist_unset_refuted",
    "measlist_decade_refuted"
   ],
   "note": "Proved in real arithmetic for all options with a first logarithm below the last; what --dump 0 writes is proved too. Refuted: a run that ends before the first logarithm makes the generator read a variable never set; --dump counts measurements in a factor e, not in a factor of ten as the program prints. Not modelled: rounding of the printed times."
  },
  {
   "property": "C135",
   "status": "partial",
   "theorems": [
    "dims_partial",
    "dims_ranks_positive",
    "dims_stops",
    "level_refuted",
    "level_last_refuted",
    "dims_unset_refuted"
   ],
   "note": "Proved for all valid command lines: ranks, device, log, count of the options; all the ways to stop. Refuted: --verbose 0 and 2 leave the level normal and 3 gives that of 2; a later --verbose 1 does not undo an earlier level; a level that is not a number, and any line without all of --zgrid, --device and --nologmpi, make the program read a variable never set."
  }
 ]
}