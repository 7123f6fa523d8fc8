{
 "claims": [
  {
   "property": "C01",
   "status": "proved",
   "theorems": [
    "C01_sort3d_permutes_whole_particles",
    "C01_sort_permutes_whole_particles"
   ],
   "note": "2D and 3D kernels, any attributes, any scratch contents."
  },
  {
   "property": "C02",
   "status": "proved",
   "theorems": [
    "C02_shared_numbering",
    "C02_slices_are_the_buckets",
    "C02_slices_are_the_buckets_3d",
    "C02_slices_tile_the_arrays",
    "C02_slices_tile_the_arrays_3d"
   ],
   "note": "2D and 3D; species with more than one bucket across always share one numbering."
  },
  {
   "property": "C03",
   "status": "proved",
   "theorems": [
    "C03_order_by_drift",
    "C03_order_of_stream",
    "C03_placed_particles_stay",
    "C03_placed_particles_stay_3d",
    "C03_returned_count",
    "C03_returned_count_3d",
    "C03_sort_idempotent",
    "C03_sort_idempotent_3d",
    "C03_sorted_input_untouched",
    "C03_sorted_input_untouched_3d"
   ],
   "note": "2D and 3D; the numbering is mirrored iff the live particles drift towards -x (exact arithmetic)."
  },
  {
   "property": "C04",
   "status": "proved",
   "theorems": [
    "C04_arrive_once",
    "C04_completes",
    "C04_exchange",
    "C04_rectangular",
    "C04_sides",
    "C04_stayed_left_or_lost"
   ],
   "note": "Any symmetric neighbour relation, any order of index writes, any interleaving of copying threads; generic over rows and sides with the 2D and 3D classification trees as instances; rectangular layouts shown symmetric."
  },
  {
   "property": "C05",
   "status": "proved",
   "theorems": [
    "C05_room",
    "C05_room_between_processes"
   ],
   "note": "Local (25 % reserve) and inter-process extension, all distributions."
  },
  {
   "property": "C06",
   "status": "proved",
   "theorems": [
    "C06_arrivals_2d",
    "C06_arrivals_3d",
    "C06_nothing_outside"
   ],
   "note": "After the exchange nothing is outside; arrivals that moved at most one patch land in the cells of the destination patch after the periodic shift and are removed only inside absorbing layers; 2D and 3D, exact rationals."
  },
  {
   "property": "C07",
   "status": "proved",
   "theorems": [
    "C07_completes",
    "C07_grid_2d",
    "C07_grid_3d",
    "C07_guard_2d",
    "C07_guard_3d"
   ],
   "note": "2D and 3D index tables, every schedule, any neighbour relation; also as the view of the whole grid on rectangular layouts; completion."
  },
  {
   "property": "C08",
   "status": "proved",
   "theorems": [
    "C08_completes",
    "C08_current_2d",
    "C08_current_3d",
    "C08_grid_2d",
    "C08_grid_3d"
   ],
   "note": "2D and 3D; new value of every cell, conservation of the domain sum, idempotence, sum over all copies on rectangular grids; any commutative addition."
  },
  {
   "property": "C09",
   "status": "proved",
   "theorems": [
    "C09_callback_sees_2d",
    "C09_callback_sees_3d",
    "C09_is_exchange_2d",
    "C09_is_exchange_3d",
    "C09_same_as_once_2d",
    "C09_same_as_once_3d",
    "C09_step_2d",
    "C09_step_3d"
   ],
   "note": "2D and 3D, any neighbour relation and process assignment; the exchange is shown to be the one of C11. All processes act alike (C44)."
  },
  {
   "property": "C10",
   "status": "proved",
   "theorems": [
    "C10_current_messages",
    "C10_guard_messages",
    "C10_particle_messages"
   ],
   "note": "Currents, guard fields, particles; any number of sides and items; unbounded tags."
  },
  {
   "property": "C11",
   "status": "proved",
   "theorems": [
    "C11_current_2d",
    "C11_current_3d",
    "C11_current_completes_2d",
    "C11_current_completes_3d",
    "C11_guard_2d",
    "C11_guard_3d",
    "C11_guard_completes_2d",
    "C11_guard_completes_3d"
   ],
   "note": "Guard and current exchange, 2D and 3D, every rank assignment and interleaving; the accumulation of received currents is one step per element (see C52)."
  },
  {
   "property": "C12",
   "status": "partial",
   "theorems": [
    "C12_layouts",
    "C12_masked_missing",
    "C12_missing_iff_open",
    "C12_mixed_conditions_refuted",
    "C12_opposite_tables",
    "C12_symmetric"
   ],
   "note": "Proved for every layout (rectangular 2D/3D, masked) whose axes have equal conditions at both ends; missing side iff open boundary for all conditions. Mixed conditions on one axis, which the configuration accepts, make the table one-sided: refuted with a witness."
  },
  {
   "property": "C13",
   "status": "partial",
   "theorems": [
    "C13_identifier_encoding_partial",
    "C13_objects_follow_the_model_partial",
    "C13_qed_reuse_refuted",
    "C13_unique_without_migration_partial",
    "C13_unique_without_qed_creation_partial"
   ],
   "note": "Alive identifiers are distinct for every history without QED creation, and all slot identifiers for every history without migration. With both, QED creation reuses the identifier left in the slot of a migrated particle: refuted with a witness."
  },
  {
   "property": "C14",
   "status": "proved",
   "theorems": [
    "C14_extend_fails_only_when_ids_run_out",
    "C14_extend_keeps_particles",
    "C14_extend_new_slots",
    "C14_prune_keeps_particles"
   ],
   "note": "extend(n), n>=1: existing slots unchanged (all attributes, events, dead flags), new slots dead with NaN/0 weight/fresh ids; fails only when ids run out. prune with extra>=0 keeps exactly the alive rows for any (unstable) argsort."
  },
  {
   "property": "C15",
   "status": "proved",
   "theorems": [
    "C15_lookup_2d",
    "C15_lookup_3d",
    "C15_tables_2d",
    "C15_unbroken_2d",
    "C15_unbroken_3d",
    "C15_visits_2d",
    "C15_visits_3d"
   ],
   "note": "2D and 3D, every positive size; unbroken for even sizes (2D: longer side even); the lookup tables exist for even sizes and are inverse to each other."
  },
  {
   "property": "C16",
   "status": "proved",
   "theorems": [
    "C16_overlap",
    "C16_partition",
    "C16_unchanged"
   ],
   "note": "For any column order and any uninitialised memory. Besides: greedy overlap, and nothing moves if the partition is unchanged."
  },
  {
   "property": "C17",
   "status": "proved",
   "theorems": [
    "C17_completes",
    "C17_exchange",
    "C17_loads",
    "C17_rebalance"
   ],
   "note": "Any old distribution, new assignment and interleaving of the processes; the loads used as weights and the relabelling are included. The partitioner is an oracle."
  },
  {
   "property": "C18",
   "status": "proved",
   "theorems": [
    "C18_index_is_position",
    "C18_kept_or_numbered",
    "C18_names_distinct"
   ],
   "note": "Any sequence of calls, any names (ASCII digits); distinct objects."
  },
  {
   "property": "C19",
   "status": "proved",
   "theorems": [
    "C19_defined_2d",
    "C19_defined_3d",
    "C19_patches_2d",
    "C19_patches_3d"
   ],
   "note": "2D and 3D: exact split, request met whenever possible, Pareto optimality, coarsest fallback, definedness iff each axis has a non-trivial divisor."
  },
  {
   "property": "C20",
   "status": "proved",
   "theorems": [
    "C20_callable_interval",
    "C20_integer_interval",
    "C20_only_own_stage_and_due_steps",
    "C20_registration",
    "C20_short_time_interval",
    "C20_species_stages",
    "C20_time_interval"
   ],
   "note": "Whole runs: integer and time intervals on once-per-step stages, once per enabled species on species stages, only due steps and own stage for every recorded call; callable intervals per call; time is an exact rational."
  },
  {
   "property": "C21",
   "status": "proved",
   "theorems": [
    "C21_bad_arguments",
    "C21_run_in_pieces",
    "C21_step_numbers",
    "C21_time_already_reached"
   ],
   "note": "Runs in pieces for callbacks outside init/final, any stop condition and signals; absolute step totals; sim_time already reached."
  },
  {
   "property": "C22",
   "status": "partial",
   "theorems": [
    "C22_callback_after_dump_refuted",
    "C22_collision_statistics_refuted",
    "C22_continuing_same_object_refuted",
    "C22_resume_after_interval_partial",
    "C22_resume_after_signal_partial"
   ],
   "note": "Proved for signal-driven and interval-driven dumps below step 10^6 when unpickling restores the state and no later \"end\" callback changes the simulation. Refuted for state-changing \"end\" callbacks registered after RestartDump, for collision statistics (cleared on load), and for continuing the same object after a signal dump. That unpickling restores the state is a hypothesis; C148 shows where it fails."
  },
  {
   "property": "C23",
   "status": "partial",
   "theorems": [
    "C23_dump_keeps_most_recent_partial",
    "C23_history_keeps_last_N_partial",
    "C23_new_checkpoint_survives_partial",
    "C23_resume_from_older_refuted",
    "C23_seven_digit_steps_refuted"
   ],
   "note": "Proved for steps below 10^6 (six digits) with dumps in increasing order, single dumps and whole histories, failing removals allowed. Refuted with witnesses for steps >= 10^6 (string order of names) and after resuming from an older checkpoint while newer directories exist."
  },
  {
   "property": "C24",
   "status": "proved",
   "theorems": [
    "C24_fused_only_without_inner_callbacks",
    "C24_run_with_and_without_fused",
    "C24_same_deposit_2d",
    "C24_same_step_2d"
   ],
   "note": "2D: pushed particles (whole records), interpolation, and deposited charge and current of the fused step equal those of the staged step, exact rational arithmetic, any 1/sqrt function; selection rule; equality of whole runs given equality of the kernels."
  },
  {
   "property": "C25",
   "status": "proved",
   "theorems": [
    "C25_charge_density_2d",
    "C25_charge_density_3d",
    "C25_continuity_2d",
    "C25_continuity_3d",
    "C25_totals_2d",
    "C25_totals_3d",
    "C25_weights_sum_to_one"
   ],
   "note": "2D and 3D, both kernels (fused and staged), whole particle arrays, exact rational arithmetic. The 3D staged kernel needs the five-cell window inside the array."
  },
  {
   "property": "C26",
   "status": "proved",
   "theorems": [
    "C26_constant_2d",
    "C26_constant_3d",
    "C26_fast_inside_2d",
    "C26_fast_inside_3d",
    "C26_fused_is_staged_2d",
    "C26_fused_is_staged_3d",
    "C26_spline_mean_2d",
    "C26_spline_mean_3d",
    "C26_weights_sum"
   ],
   "note": "2D and 3D; each component is the spline-weighted mean at its Yee position; fused path equal to staged path on every input; exact rational arithmetic."
  },
  {
   "property": "C27",
   "status": "proved",
   "theorems": [
    "C27_lorentz_equation",
    "C27_reversible",
    "C27_rotation",
    "C27_stored_gamma"
   ],
   "note": "Over the reals (standard library axioms of Reals); includes the discretised Lorentz equation."
  },
  {
   "property": "C28",
   "status": "proved",
   "theorems": [
    "C28_divB_2d",
    "C28_divB_3d",
    "C28_divE_2d",
    "C28_divE_3d",
    "C28_gauss_2d",
    "C28_gauss_3d",
    "C28_histories_exist_2d"
   ],
   "note": "Exact field arithmetic (any field); over arbitrary histories of updates, each followed by the guard exchange established by C07/C11. PML cells are not part of this statement."
  },
  {
   "property": "C29",
   "status": "proved",
   "theorems": [
    "C29_dataset_shape",
    "C29_sliced_write_places_every_cell"
   ],
   "note": "Any number of axes, any order of patch writes; values at Python slice positions, dataset shape exact."
  },
  {
   "property": "C30",
   "status": "proved",
   "theorems": [
    "C30_accepted_selection_is_python_indexing",
    "C30_rejected_exactly_when_invalid_or_empty"
   ],
   "note": "Accepted selections equal Python indexing with positive step; rejection characterised."
  },
  {
   "property": "C31",
   "status": "proved",
   "theorems": [
    "C31_particle_file_rows",
    "C31_rows_are_the_alive_particles"
   ],
   "note": "Any interleaving of the processes' assignments; rows enumerate exactly the alive particles."
  },
  {
   "property": "C32",
   "status": "partial",
   "theorems": [
    "C32_gather_2d",
    "C32_gather_2d_masked",
    "C32_gather_3d_depends_on_rank_refuted",
    "C32_gather_3d_gap_refuted",
    "C32_gather_3d_partial"
   ],
   "note": "2D (rectangular and masked) proved in full. 3D proved for patches held by the root; remote patches return a plane shifted by the guard width and positions between patches return zeros, both refuted with witnesses."
  },
  {
   "property": "C33",
   "status": "proved",
   "theorems": [
    "C33_even_cell_pairs_everyone_once",
    "C33_odd_cell_reuses_one_particle",
    "C33_single_particle_no_pair"
   ],
   "note": "Every shuffle and dead pattern; even and odd cells."
  },
  {
   "property": "C34",
   "status": "proved",
   "theorems": [
    "C34_first_species_larger",
    "C34_no_pair_when_one_side_empty",
    "C34_second_species_larger"
   ],
   "note": "Both orientations, weights per smaller-side particle sum to one over Q."
  },
  {
   "property": "C35",
   "status": "proved",
   "theorems": [
    "C35_enable_disable",
    "C35_species_pairs",
    "C35_step_treats_enabled_pairs"
   ],
   "note": "Pair list characterised; enable/disable modelled."
  },
  {
   "property": "C36",
   "status": "proved",
   "theorems": [
    "C36_angle_well_defined",
    "C36_cell_between_species",
    "C36_cell_within_species",
    "C36_collision_conserves",
    "C36_turned_by_the_angle",
    "C36_unequal_weights"
   ],
   "note": "Over the reals; uses the standard axioms of Reals (and classic, through PI and sin/cos). Random numbers, shuffles and the corrections of the pairing are inputs; the pairs are those of the iterators of M_Pairing."
  },
  {
   "property": "C37",
   "status": "proved",
   "theorems": [
    "C37_one_pair_per_event",
    "C37_one_photon_per_event",
    "C37_step"
   ],
   "note": "Exact rational arithmetic; inverse Lorentz factors and emission decisions are arbitrary functions; one patch (patches are independent)."
  },
  {
   "property": "C38",
   "status": "proved",
   "theorems": [
    "C38_arrangement",
    "C38_follows_velocity",
    "C38_one_call"
   ],
   "note": "Coordinates, velocity and time are exact rationals; any number of calls, any velocity function, any initial arrangement."
  },
  {
   "property": "C39",
   "status": "proved",
   "theorems": [
    "C39_every_particle_once"
   ],
   "note": "Exact rational coordinates (neighbouring bounds computed in floating point may differ by rounding); any batch size; 2D and 3D; any number of processes."
  },
  {
   "property": "C40",
   "status": "proved",
   "theorems": [
    "C40_filling",
    "C40_weights"
   ],
   "note": "2D and 3D in one model (list of axes); exact rationals; random numbers are an arbitrary stream in [0,1)."
  },
  {
   "property": "C41",
   "status": "partial",
   "theorems": [
    "C41_3d_window_refuted",
    "C41_absent_side",
    "C41_tables_2d",
    "C41_tables_3d"
   ],
   "note": "2D proved at start-up, rebalancing and window moves; 3D proved at start-up and rebalancing. 3D window moves on several processes: refuted with a witness."
  },
  {
   "property": "C42",
   "status": "partial",
   "theorems": [
    "C42_density_grows_linearly_refuted",
    "C42_density_history_refuted",
    "C42_unconstrained_cells_partial"
   ],
   "note": "Refuted: the density accumulator is never cleared, so the screening limit depends on the number of steps. Proved for cells where the density limit is inactive."
  },
  {
   "property": "C43",
   "status": "proved",
   "theorems": [
    "C43_absorbed_2d",
    "C43_absorbed_3d",
    "C43_layers_2d",
    "C43_layers_3d",
    "C43_layers_masked",
    "C43_setup_2d",
    "C43_setup_3d"
   ],
   "note": "Layer iff no neighbour, 2D, 3D and masked; set-up succeeds under stated sizes; particles kept by a patch are never inside a layer (rectangular domains)."
  },
  {
   "property": "C44",
   "status": "proved",
   "theorems": [
    "C44_finish_or_block",
    "C44_same_calls"
   ],
   "note": "Each process is a program of collective calls on mpi.comm (init, steps, callbacks with their barrier, current exchange, load check with allgather, rebalancing, dump on signal, stop callback, final). If the processes agree on callbacks, species, signals and stop callback and each holds a patch at every check, all make the same calls and finish, for all loads, sizes, steps. Point-to-point messages and exceptions are not part of this model. Cases outside these hypotheses: C62."
  },
  {
   "property": "C45",
   "status": "proved",
   "theorems": [
    "C45_axis_is_global",
    "C45_cell_in_one_patch",
    "C45_index_bijection_2d",
    "C45_index_bijection_3d",
    "C45_patches_touch"
   ],
   "note": "Any grid with divisible patch counts (the configuration rejects others); positions over Q."
  },
  {
   "property": "C46",
   "status": "proved",
   "theorems": [
    "C46_density_2d",
    "C46_density_3d",
    "C46_disabled_2d"
   ],
   "note": "Whole-domain output; the file layout and slicing are C29-C32. Exact arithmetic."
  },
  {
   "property": "C47",
   "status": "partial",
   "theorems": [
    "C47_crash_leaves_a_checkpoint_partial",
    "C47_incomplete_newer_directory_refuted",
    "C47_rewriting_same_step_refuted"
   ],
   "note": "Proved for a dump of a new newest step: every crash state keeps the old checkpoints or has the complete new one. Refuted when a step is dumped twice (signal at an interval step) and when an incomplete newer directory is left over."
  },
  {
   "property": "C48",
   "status": "proved",
   "theorems": [
    "C48_kernels_use_live_arrays",
    "C48_moving_window_without_injection",
    "C48_rechecking_modules"
   ],
   "note": "Identities (object and address) of the arrays are modelled, not their contents; every kernel call of every step is recorded with the array it reached. Proved for every run without a moving window; with windows that inject nothing for all particle arrays; with any callbacks for sorting, fused push, interpolation and deposition."
  },
  {
   "property": "C49",
   "status": "partial",
   "theorems": [
    "C49_extend_by_nothing_partial",
    "C49_negative_buffer_refuted",
    "C49_qed_extend_zero_refuted"
   ],
   "note": "n<=0 is a no-op for plain particles; QED extend(0) clears pending event flags and prune with a negative fraction drops alive particles: refuted with witnesses."
  },
  {
   "property": "C50",
   "status": "proved",
   "theorems": [
    "C50_distribution",
    "C50_messages",
    "C50_rectangular_2d",
    "C50_rectangular_3d"
   ],
   "note": "Message exchange then in-process exchange equals the one-process result for every rank assignment; message delivery by (neighbour, side) is assumed here and is the subject of C10."
  },
  {
   "property": "C51",
   "status": "partial",
   "theorems": [
    "C51_mixed_conditions_refuted",
    "C51_safe_2d_partial"
   ],
   "note": "Proved for axes with equal conditions at both ends. Refuted with a witness for an axis that is periodic at one end and open at the other (accepted by the configuration): a null index buffer is written."
  },
  {
   "property": "C52",
   "status": "partial",
   "theorems": [
    "C52_threads_lose_current_refuted"
   ],
   "note": "Refuted with a witness: += on received currents from several OpenMP threads (collapse(2) over patches and sides) loses an update in a corner cell. With one thread C11 applies."
  },
  {
   "property": "C53",
   "status": "partial",
   "theorems": [
    "C53_narrow_patches_refuted"
   ],
   "note": "Refuted with a witness for a patch narrower than the guard width; for all wider patches the property is C07."
  },
  {
   "property": "C54",
   "status": "partial",
   "theorems": [
    "C54_free_name_not_kept_refuted",
    "C54_same_object_twice_refuted"
   ],
   "note": "Refuted with witnesses: \"e\" becomes \"e.2\" when only \"e.1\" exists; the same object added twice."
  },
  {
   "property": "C55",
   "status": "partial",
   "theorems": [
    "C55_prime_size_refuted",
    "C55_thin_patches_refuted"
   ],
   "note": "Refuted with witnesses: the width test combines the axes with \"or\", so thin patches are chosen; prime sizes raise an index error. The weaker statement that holds is C19."
  },
  {
   "property": "C56",
   "status": "partial",
   "theorems": [
    "C56_bare_start_refuted"
   ],
   "note": "Refuted with a witness on two processes: a bare sync_currents_start in a callback makes the final start a no-op and later deposits in guard cells are not exchanged. Holds otherwise (C09)."
  },
  {
   "property": "C57",
   "status": "partial",
   "theorems": [
    "C57_previous_disabled_refuted"
   ],
   "note": "Refuted: error when the preceding species is disabled, stale charge density in a further history. Holds otherwise (C46)."
  },
  {
   "property": "C58",
   "status": "partial",
   "theorems": [
    "C58_most_stay_refuted"
   ],
   "note": "Refuted with a witness: the greedy relabelling can keep fewer patches in place than another relabelling would."
  },
  {
   "property": "C59",
   "status": "proved",
   "theorems": [
    "C59_same_fields_2d",
    "C59_same_fields_3d"
   ],
   "note": "For arbitrary operations on numbers (no algebraic law used), so also for floating point; patches without PML."
  },
  {
   "property": "C60",
   "status": "partial",
   "theorems": [
    "C60_fused_3d_differs_refuted",
    "C60_fused_3d_moves_partial",
    "C60_same_deposit_3d_partial",
    "C60_staged_3d_never_moves_refuted"
   ],
   "note": "Refuted: the staged push of a 3D simulation never changes positions, so it differs from the fused push. The deposition parts agree for motion below one cell inside the array."
  },
  {
   "property": "C61",
   "status": "partial",
   "theorems": [
    "C61_neutral_particles_bounce_refuted",
    "C61_neutral_particles_pass_partial",
    "C61_turned_by_the_angle_along_plus_z_partial",
    "C61_turned_the_other_way_along_minus_z_refuted"
   ],
   "note": "Proved for momenta not along z (C36_turned_by_the_angle) and along +z; refuted along -z: the code treats the direction as +z, so that the particle is reversed, even without charge."
  },
  {
   "property": "C62",
   "status": "partial",
   "theorems": [
    "C62_process_without_patches_refuted",
    "C62_signal_on_some_processes_refuted"
   ],
   "note": "Refuted: should_rebalance returns False without allgather on a process with no patches, so a run with one blocks at that check; a dump signal seen by only some processes before the last step blocks the run. Both shown for every size, step and every set of callbacks whose own collectives are barriers."
  },
  {
   "property": "C63",
   "status": "partial",
   "theorems": [
    "C63_window_bucket_bounds_refuted",
    "C63_window_injection_refuted"
   ],
   "note": "Refuted: MovingWindow injects by replacing arrays without setting the extended flag, so the staged pusher, collisions and QED modules keep the replaced arrays; and it regenerates the bucket bounds of the sorters without telling the collisions. Witnesses for each module. The parts that do hold are under C48."
  },
  {
   "property": "C64",
   "status": "partial",
   "theorems": [
    "C64_one_species_for_both_refuted"
   ],
   "note": "Refuted with a witness: room is computed for electrons and positrons separately, so a shared target species can have too few free slots and the slot search leaves the array."
  },
  {
   "property": "C65",
   "status": "partial",
   "theorems": [
    "C65_leftover_particles_refuted"
   ],
   "note": "Refuted for every call: particles of a species that is not injected stay in the patch when it is recycled."
  },
  {
   "property": "C66",
   "status": "partial",
   "theorems": [
    "C66_fast_refuted",
    "C66_leftward_refuted"
   ],
   "note": "Refuted with witnesses: a leftward window first moves after two patch lengths, and at most one shift is made per call."
  },
  {
   "property": "C67",
   "status": "partial",
   "theorems": [
    "C67_inverse_gamma_refuted",
    "C67_missing_momentum_refuted"
   ],
   "note": "Refuted with witnesses: the square root is stored without inverting it (inv_gamma = gamma), and momenta missing in the file are NaN."
  },
  {
   "property": "C68",
   "status": "partial",
   "theorems": [
    "C68_empty_process_refuted",
    "C68_first_species_refuted"
   ],
   "note": "Refuted: a process without patches raises IndexError (for every file); attributes are taken from the first species, so values are dropped or loading raises AttributeError (witnesses)."
  },
  {
   "property": "C69",
   "status": "proved",
   "theorems": [
    "C69_set_both",
    "C69_set_momentum",
    "C69_set_temperature"
   ],
   "note": "Samples and square root are arbitrary functions; exact rationals."
  },
  {
   "property": "C70",
   "status": "partial",
   "theorems": [
    "C70_anisotropic_temperature_refuted"
   ],
   "note": "Refuted for all samples: the stretch multiplies momenta by the temperature ratio, so mean squares scale with its square."
  },
  {
   "property": "C71",
   "status": "partial",
   "theorems": [
    "C71_momentum_profile_refuted",
    "C71_zero_particles_refuted"
   ],
   "note": "Refuted: a dense cell with ppc = 0 (the default) divides by zero (Python error model; what the parallel loop does with it is not modelled); the momentum profile is never read."
  },
  {
   "property": "C72",
   "status": "proved",
   "theorems": [
    "C72_histories_exist_2d",
    "C72_histories_exist_3d",
    "C72_same_fields_2d",
    "C72_same_fields_3d"
   ],
   "note": "2D and 3D, any two accepted decompositions and any history of updates, in exact arithmetic (field theory as hypothesis on the number type; exponential and layer parameters arbitrary). In 3D at least two patches along each open axis are assumed; C75 shows the single-patch case is different."
  },
  {
   "property": "C73",
   "status": "proved",
   "theorems": [
    "C73_coefficients",
    "C73_memory_bounded_2d",
    "C73_memory_bounded_3d"
   ],
   "note": "Over the reals with the real exponential (Reals axioms, Classical_Prop.classic); arbitrary field values at every update."
  },
  {
   "property": "C74",
   "status": "proved",
   "theorems": [
    "C74_outside_the_layers_2d",
    "C74_outside_the_layers_3d"
   ],
   "note": "2D and 3D, both fields, any list of distinct layers per patch, exact arithmetic."
  },
  {
   "property": "C75",
   "status": "partial",
   "theorems": [
    "C75_layers_2d_partial",
    "C75_layers_3d_partial",
    "C75_near_layer_coefficient_lost_refuted",
    "C75_own_coefficient_partial",
    "C75_single_patch_forgets_near_layer"
   ],
   "note": "Holds for every patch with at most one layer per axis (all accepted 2D layouts; 3D with two or more patches along open axes). Refuted in general: a 3D patch between both layers of an axis is accepted and loses the near layer's coefficient (C75_near_layer_coefficient_lost_refuted)."
  },
  {
   "property": "C76",
   "status": "proved",
   "theorems": [
    "C76_decomposition",
    "C76_deterministic",
    "C76_runs_exist",
    "C76_same_particles",
    "C76_same_values",
    "C76_steps_exist"
   ],
   "note": "2D, periodic boundaries, exact rational arithmetic; any number of steps. Hypotheses: patches at least as wide as the guard layer, three or more guard cells, c dt at most one cell, and an inverse square root that keeps velocities below c. Absorbing layers, collisions, QED, lasers, callbacks and the moving window are not part of the modelled step; their own decomposition properties are C72 and others."
  },
  {
   "property": "C77",
   "status": "proved",
   "theorems": [
    "C77_layers_2d",
    "C77_layers_3d",
    "C77_mirror",
    "C77_stretched_2d",
    "C77_stretched_3d"
   ],
   "note": "2D and 3D, both fields, exact arithmetic (field theory on the number type; the exponential is an arbitrary function). Patches with two layers across one axis (only possible in 3D, see C75) are excluded."
  },
  {
   "property": "C78",
   "status": "proved",
   "theorems": [
    "C78_div_b",
    "C78_field_felt",
    "C78_gauss",
    "C78_neutral_start",
    "C78_stored_charge",
    "C78_total_charge"
   ],
   "note": "2D periodic whole steps as in C76 (no absorbing layers, lasers, collisions, QED, window); exact arithmetic."
  },
  {
   "property": "C79",
   "status": "proved",
   "theorems": [
    "C79_exchange_exists_2d",
    "C79_exchange_exists_3d",
    "C79_footprint_2d",
    "C79_footprint_3d",
    "C79_injected_2d",
    "C79_injected_3d"
   ],
   "note": "2D and 3D; exact arithmetic over any field. The averaged wave and the footprint are stated on the arrays of the patches. Profiles are arbitrary functions."
  },
  {
   "property": "C80",
   "status": "proved",
   "theorems": [
    "C80_same_injection_2d",
    "C80_same_injection_3d"
   ],
   "note": "2D and 3D; exact arithmetic; guard cells current before the laser acts (in a run they are not, see C85)."
  },
  {
   "property": "C81",
   "status": "proved",
   "theorems": [
    "C81_injected_sum_2d",
    "C81_injected_sum_3d",
    "C81_sum",
    "C81_sum_runs"
   ],
   "note": "2D and 3D; any nesting of sums; exact arithmetic."
  },
  {
   "property": "C82",
   "status": "partial",
   "theorems": [
    "C82_edge_centre_refuted",
    "C82_zero_is_middle_2d"
   ],
   "note": "Given centres other than zero and the default are honoured (C79 with the hypothesis centred). Refuted for the coordinate zero, which is taken as not given (C82_edge_centre_refuted)."
  },
  {
   "property": "C83",
   "status": "proved",
   "theorems": [
    "C83_no_layer_2d",
    "C83_no_layer_3d",
    "C83_stays_off_2d",
    "C83_stays_off_3d",
    "C83_stays_on_2d",
    "C83_stays_on_3d",
    "C83_stops_2d",
    "C83_stops_3d"
   ],
   "note": "2D and 3D. Rebalancing between calls is covered in that the ownership map is arbitrary at each call."
  },
  {
   "property": "C84",
   "status": "partial",
   "theorems": [
    "C84_narrow_patch_loses_pulse",
    "C84_narrow_patch_refuted"
   ],
   "note": "Holds from thickness+3 cells on (C79). Refuted for thickness+1 cells: the pulse is overwritten by the next exchange (C84_narrow_patch_refuted)."
  },
  {
   "property": "C85",
   "status": "partial",
   "theorems": [
    "C85_loop_order_refuted"
   ],
   "note": "Holds for Ey/Bz everywhere and for Ez/By except in the lowest row of a patch (C79). Refuted for that row (C85_loop_order_refuted)."
  },
  {
   "property": "C86",
   "status": "partial",
   "theorems": [
    "C86_second_replaces_first",
    "C86_separate_lasers_refuted"
   ],
   "note": "Refuted: the second laser replaces the first in every row outside the layers (C86_second_replaces_first, C86_separate_lasers_refuted). Sums made with + are C81."
  },
  {
   "property": "C87",
   "status": "proved",
   "theorems": [
    "C87_circular",
    "C87_gauss_bounded",
    "C87_gauss_energy",
    "C87_gauss_turned",
    "C87_linear",
    "C87_simple_bounded",
    "C87_simple_ends",
    "C87_simple_energy",
    "C87_simple_peak",
    "C87_simple_turned"
   ],
   "note": "Real arithmetic. The bound for GaussianLaser is for l = p = 0; turning and energy hold for arbitrary mode functions."
  },
  {
   "property": "C88",
   "status": "partial",
   "theorems": [
    "C88_before_arrival_refuted",
    "C88_cut_off_refuted"
   ],
   "note": "Normal incidence is C87_simple_ends. Refuted at oblique incidence: the envelope is not masked before arrival (C88_before_arrival_refuted), and the default switch-off time cuts the pulse at its maximum on one side (C88_cut_off_refuted)."
  },
  {
   "property": "C89",
   "status": "proved",
   "theorems": [
    "C89_at_grid_points",
    "C89_below",
    "C89_interpolated",
    "C89_monotone"
   ],
   "note": "Exact rational arithmetic on log10 chi; for arbitrary tables."
  },
  {
   "property": "C90",
   "status": "partial",
   "theorems": [
    "C90_fraction_refuted",
    "C90_rate_refuted"
   ],
   "note": "Refuted for every table: at and above the last tabulated chi both lookups read one row past the end (C90_rate_refuted, C90_fraction_refuted). Inside the range C89 and C91 show the reads to be in bounds."
  },
  {
   "property": "C91",
   "status": "proved",
   "theorems": [
    "C91_defined",
    "C91_inverse",
    "C91_monotone",
    "C91_sigmoid"
   ],
   "note": "For the default method on log10 of the fraction; the logistic grid and powers of ten of the second method are arbitrary increasing functions."
  },
  {
   "property": "C92",
   "status": "partial",
   "theorems": [
    "C92_hit_refuted",
    "C92_otherwise_ends",
    "C92_zero_refuted"
   ],
   "note": "Refuted: a random number whose target equals a table entry (0 for every table) leaves the bisection in an endless loop (C92_hit_refuted, C92_zero_refuted). In all other cases the call returns (C92_otherwise_ends)."
  },
  {
   "property": "C93",
   "status": "proved",
   "theorems": [
    "C93_countdown",
    "C93_total"
   ],
   "note": "For one particle and the draws it receives; positive draws; for electrons without exact hits (C94)."
  },
  {
   "property": "C94",
   "status": "partial",
   "theorems": [
    "C94_exact_refuted",
    "C94_inherited_refuted"
   ],
   "note": "Refuted: an electron that uses up its depth exactly is treated as not set and draws again (C94_exact_refuted); new particles inherit the optical depth left in their slot (C94_inherited_refuted)."
  },
  {
   "property": "C95",
   "status": "proved",
   "theorems": [
    "C95_chi_defined"
   ],
   "note": "Exact rational arithmetic; the constant factor and the square root are left out."
  },
  {
   "property": "C96",
   "status": "proved",
   "theorems": [
    "C96_each_species_once"
   ],
   "note": "Two dimensions; a step as the list of kernels it runs (what they compute: C24-C27). In three dimensions the staged half moves do nothing (C60)."
  },
  {
   "property": "C97",
   "status": "partial",
   "theorems": [
    "C97_disabled_refuted",
    "C97_tbmt_moves_next_refuted",
    "C97_tbmt_raises_refuted"
   ],
   "note": "Refuted: \"boris+tbmt\" creates no pusher, so later species use the pushers of their successors and the last enabled one raises IndexError (C97_tbmt_raises_refuted, C97_tbmt_moves_next_refuted); a disabled pusher deposits nothing without and everything with stage callbacks (C97_disabled_refuted)."
  },
  {
   "property": "C98",
   "status": "proved",
   "theorems": [
    "C98_decomposition",
    "C98_deterministic",
    "C98_runs_exist",
    "C98_same_particles",
    "C98_same_values",
    "C98_steps_exist"
   ],
   "note": "3D, periodic boundaries, exact rational arithmetic; any number of steps; species pushed by the fused kernel (the staged 3D pusher does not move particles, C60). Hypotheses as in C76. Absorbing layers, collisions, QED, lasers, callbacks and the moving window are not part of the modelled step."
  },
  {
   "property": "C99",
   "status": "proved",
   "theorems": [
    "C99_div_b",
    "C99_field_felt",
    "C99_gauss",
    "C99_neutral_start",
    "C99_stored_charge",
    "C99_total_charge"
   ],
   "note": "3D periodic whole steps as in C98, species pushed by the fused kernel (the staged 3D pusher deposits a current without moving particles, C60); exact arithmetic."
  },
  {
   "property": "C100",
   "status": "proved",
   "theorems": [
    "C100_every_run",
    "C100_reacts",
    "C100_settled",
    "C100_settles",
    "C100_survives"
   ],
   "note": "Scripts are lists of the assignments that matter (species, simulations, add_species, callbacks, raise); the byte code cache is left out. All interleavings of saves with the atomic actions of the runner."
  },
  {
   "property": "C101",
   "status": "partial",
   "theorems": [
    "C101_broken_script_refuted",
    "C101_deleted_callbacks_refuted",
    "C101_error_with_processes_refuted",
    "C101_implicit_species_refuted",
    "C101_older_file_refuted",
    "C101_renamed_simulation_refuted"
   ],
   "note": "Proved for scripts that spell everything out (C100). Refuted otherwise: a renamed simulation variable leaves the old simulation in the module and runs that (C101_renamed_simulation_refuted); species not added explicitly accumulate over reloads (C101_implicit_species_refuted); deleted callbacks stay (C101_deleted_callbacks_refuted); a file restored with an older time stamp is not noticed (C101_older_file_refuted); after saving a script that does not load the old run is repeated with its step counter not reset (C101_broken_script_refuted); with several processes an error aborts the job although exit_on_error is off (C101_error_with_processes_refuted)."
  },
  {
   "property": "C102",
   "status": "proved",
   "theorems": [
    "C102_decomposition",
    "C102_deterministic",
    "C102_none_in_layers",
    "C102_others_stay",
    "C102_runs_exist",
    "C102_same_particles",
    "C102_same_values",
    "C102_steps_exist",
    "C102_survivors"
   ],
   "note": "Whole 2D steps (solver with CPML, push, deposition, exchange, particle exchange, sort) with any mixture of periodic and open axes; both directions about disappearing particles. Exact arithmetic (Q/Qc); patches wider than the layer, as PML.__init__ demands."
  },
  {
   "property": "C103",
   "status": "proved",
   "theorems": [
    "C103_decomposition",
    "C103_every_cell"
   ],
   "note": "n-dimensional model (2D and 3D alike); the per-patch density itself is C46."
  },
  {
   "property": "C104",
   "status": "partial",
   "theorems": [
    "C104_masked_refuted",
    "C104_one_process_partial",
    "C104_plane_refuted",
    "C104_step_refuted",
    "C104_unbroken_partial"
   ],
   "note": "Proved on one process and, for any number of processes, when the selected part of a patch is one piece of memory. Refuted otherwise: the message of a sliced remote patch is received into a buffer of the shape of the whole patch, so cells are permuted or taken from the old buffer (C104_plane_refuted with the documented np.s_[:, :, k], C104_step_refuted); with a domain mask every slice smaller than the domain raises (C104_masked_refuted)."
  },
  {
   "property": "C105",
   "status": "proved",
   "theorems": [
    "C105_any_order",
    "C105_appended",
    "C105_events",
    "C105_shares",
    "C105_times"
   ],
   "note": ""
  },
  {
   "property": "C106",
   "status": "partial",
   "theorems": [
    "C106_bar_refuted",
    "C106_old_file_refuted",
    "C106_second_simulation_refuted",
    "C106_short_refuted",
    "C106_switched_off_refuted",
    "C106_took_refuted",
    "C106_total_events_refuted",
    "C106_units_refuted",
    "C106_unnamed_refuted"
   ],
   "note": "refuted: other units, timers without a name, names with a bar or the time of something else, many short events, the printed total, old timer files and several simulations in one process; ordinary timers are covered by C105"
  },
  {
   "property": "C107",
   "status": "proved",
   "theorems": [
    "C107_comments",
    "C107_lag",
    "C107_reports",
    "C107_silent"
   ],
   "note": ""
  },
  {
   "property": "C108",
   "status": "partial",
   "theorems": [
    "C108_exception_refuted",
    "C108_over_100_refuted",
    "C108_zero_steps_refuted"
   ],
   "note": "refuted: zero steps in a SLURM job, an end before the current step, exceptions; runs with a positive end after the current step are covered by C107"
  },
  {
   "property": "C109",
   "status": "proved",
   "theorems": [
    "C109_decomposition",
    "C109_deterministic",
    "C109_none_in_layers",
    "C109_others_stay",
    "C109_runs_exist",
    "C109_same_particles",
    "C109_same_values",
    "C109_steps_exist",
    "C109_survivors"
   ],
   "note": "Whole 3D steps (solver with CPML, fused push and deposition, exchange of guard cells and currents, particle exchange, sort) with any mixture of periodic and open axes. Exact arithmetic (Q/Qc); patches wider than the layer, as PML.__init__ demands; two patches along open axes (with one patch see C75)."
  },
  {
   "property": "C110",
   "status": "proved",
   "theorems": [
    "C110_absorbed_charge",
    "C110_div_b",
    "C110_field_felt",
    "C110_gauss",
    "C110_neutral_start",
    "C110_stored_charge"
   ],
   "note": "Whole 2D steps as in C102; exact arithmetic (Qc). The cells within two cells of a layer are C110_absorbed_charge (exact change) and C111."
  },
  {
   "property": "C111",
   "status": "partial",
   "theorems": [
    "C111_next_to_layers_refuted"
   ],
   "note": "Holds two or more cells away from the layers (C110). Refuted next to them: a particle is taken out at the edge of the layer while its charge still reaches the cells outside, so the law is violated there from then on (C111_next_to_layers_refuted)."
  },
  {
   "property": "C112",
   "status": "proved",
   "theorems": [
    "C112_absorbed_charge",
    "C112_div_b",
    "C112_field_felt",
    "C112_gauss",
    "C112_neutral_start",
    "C112_stored_charge"
   ],
   "note": "Whole 3D steps as in C109; exact arithmetic (Qc); species pushed by the fused kernel. The cells within two cells of a layer are C112_absorbed_charge (exact change; C111 shows in 2D that it need not be zero)."
  },
  {
   "property": "C113",
   "status": "proved",
   "theorems": [
    "C113_balance",
    "C113_bounded",
    "C113_conserved"
   ],
   "note": "Over the whole-step model M_Step (push, deposition, exchanges, sort and field updates); in every step with particles the energy changes by exactly the work of the current; conserved and bounded without particles."
  },
  {
   "property": "C114",
   "status": "partial",
   "theorems": [
    "C114_at_limit_refuted",
    "C114_below_limit_partial"
   ],
   "note": "Holds for every dt_cfl below 1 (C114_below_limit_partial). At dt_cfl = 1, which the configuration accepts, refuted with a witness: dx = 3, dy = 4, dt = 12/(5 c), an alternating field grows linearly in the number of steps. dt is taken without rounding."
  },
  {
   "property": "C115",
   "status": "proved",
   "theorems": [
    "C115_balance",
    "C115_bounded",
    "C115_conserved",
    "C115_stable"
   ],
   "note": "Over the whole-step model M_Step3D; species pushed by the fused kernel."
  },
  {
   "property": "C116",
   "status": "partial",
   "theorems": [
    "C116_charge_kept",
    "C116_collision_refuted",
    "C116_div_b",
    "C116_exact",
    "C116_gauss_partial",
    "C116_no_net_charge",
    "C116_pair_refuted",
    "C116_recoil_refuted",
    "C116_total_violation"
   ],
   "note": "Exact change of the Gauss defect per cell, no net charge, total charge and div B kept, for all runs; Gauss law itself refuted for an elastic collision, a recoil and a pair creation."
  },
  {
   "property": "C117",
   "status": "partial",
   "theorems": [
    "C117_as_asked_partial",
    "C117_foreign_photon_refuted",
    "C117_indices",
    "C117_ll_refuted",
    "C117_shared_photon_refuted",
    "C117_step_partial",
    "C117_two_positrons_refuted"
   ],
   "note": "Proved for setups in which every species object is added once, targets are in the same simulation and electrons of pairs are plain Electron objects. Each condition is needed and none is checked: refuted with witnesses (two Positron species accepted for a pair; a photon species shared with or belonging to another simulation sends the photons into another species). radiation=\"ll\" is declared but never initialises."
  },
  {
   "property": "C118",
   "status": "proved",
   "theorems": [
    "C118_absorbed_charge",
    "C118_afterwards",
    "C118_div_b",
    "C118_field_felt",
    "C118_gauss",
    "C118_over",
    "C118_runs_exist"
   ],
   "note": "Over the whole-step model M_StepL (2D, open sides, fused kernel, any list of lasers called in the laser stage)."
  },
  {
   "property": "C119",
   "status": "partial",
   "theorems": [
    "C119_plane_refuted"
   ],
   "note": "Refuted: one step of an empty simulation with a laser whose field grows across the beam gives div B <> 0 in the column of the injection (C119_plane_refuted). What holds beside that column is C118_div_b."
  },
  {
   "property": "C120",
   "status": "proved",
   "theorems": [
    "C120_div_b",
    "C120_frozen",
    "C120_gauss",
    "C120_ready",
    "C120_runs_exist",
    "C120_stored_charge"
   ],
   "note": "Over the whole-step model M_StepW (2D, periodic; fused and staged species mixed at will; one setting of the switches per step)."
  },
  {
   "property": "C121",
   "status": "partial",
   "theorems": [
    "C121_depositor_off_refuted",
    "C121_invisible_refuted",
    "C121_pusher_off_refuted"
   ],
   "note": "Refuted with witnesses on a one-patch domain: pusher off with depositor on, depositor off with pusher on (both break Gauss' law in one step from a neutral start), and a disabled species that is missing from the stored charge density. What holds is C120."
  },
  {
   "property": "C122",
   "status": "proved",
   "theorems": [
    "C122_carried",
    "C122_merged_species",
    "C122_rescaled",
    "C122_same_run",
    "C122_same_values",
    "C122_species_order",
    "C122_split_particle",
    "C122_test_particles"
   ],
   "note": "Over the whole-step model M_Step (2D, periodic), exact arithmetic: with rounding the two runs agree up to rounding errors."
  },
  {
   "property": "C123",
   "status": "proved",
   "theorems": [
    "C123_image_run",
    "C123_image_values",
    "C123_one_dimensional",
    "C123_pair_plasma",
    "C123_planar",
    "C123_planar_start",
    "C123_symmetric_start"
   ],
   "note": "Over the whole-step model M_Step (2D, periodic), exact arithmetic: with rounding the image agrees up to rounding errors."
  },
  {
   "property": "C124",
   "status": "proved",
   "theorems": [
    "C124_contents",
    "C124_fraction",
    "C124_rate",
    "C124_sigmoid",
    "C124_usable",
    "C124_within_rate"
   ],
   "note": "The Airy formulas, the quadrature, powers of ten and the logistic function are given functions with the stated properties."
  },
  {
   "property": "C125",
   "status": "partial",
   "theorems": [
    "C125_two_fractions_refuted"
   ],
   "note": "Refuted for two tabulated fractions: the table is written, and no lookup in it ever returns. With three or more, C124_usable gives what the lookups need (C91, C92)."
  },
  {
   "property": "C126",
   "status": "partial",
   "theorems": [
    "C126_enough",
    "C126_one_refuted",
    "C126_two_refuted"
   ],
   "note": "Refuted for n_guard = 1 and n_guard = 2, which the constructor accepts (simulation.py:60, gt=0): a particle that leaves a patch at the speed of light reaches the third cell outside, and its charge is then stored in a wrong cell. With three or more the number does not matter (C126_enough)."
  },
  {
   "property": "C127",
   "status": "proved",
   "theorems": [
    "C127_local",
    "C127_one_cell",
    "C127_quiet"
   ],
   "note": "For the periodic 2D step of M_Step (all decompositions, processes and schedules). Eight cells is an upper bound, not the exact reach."
  },
  {
   "property": "C128",
   "status": "proved",
   "theorems": [
    "C128_deposit_2d",
    "C128_deposit_3d",
    "C128_deposit_3d_fused",
    "C128_five_are_enough",
    "C128_reads_2d",
    "C128_reads_3d"
   ],
   "note": "Exact arithmetic; the conversion of far away positions to int is not modelled. The staged 3D deposition is safe because the staged 3D push leaves particles in their cells (C60)."
  },
  {
   "property": "C129",
   "status": "proved",
   "theorems": [
    "C129_kept",
    "C129_names"
   ],
   "note": "One directory; the contents of a file are one value. Slashes in species names are not interpreted."
  },
  {
   "property": "C130",
   "status": "partial",
   "theorems": [
    "C130_lost_refuted",
    "C130_same_kind_refuted"
   ],
   "note": "Refuted: the density of a species \"e_particles\" and the particles of \"e\" go to the same file (hdf5.py:460, 672), and a second callback of the same kind in the same directory replaces the files of the first. C129 has the cases in which everything is kept."
  },
  {
   "property": "C131",
   "status": "partial",
   "theorems": [
    "C131_all_species",
    "C131_exact_refuted",
    "C131_load",
    "C131_never_less",
    "C131_recorded_partial",
    "C131_twice"
   ],
   "note": "Refuted: the count recorded by the exchange equals the particles held afterwards plus those that left the patch (and arrivals that miss it), for every schedule; it is never too small, exact exactly when nobody leaves and every arrival lands inside, and over a run every crossing particle counts twice. Witness with 5, 2, 3 recorded for 3, 1, 2. Not covered: floats in the load, user-defined load functions."
  },
  {
   "property": "C132",
   "status": "proved",
   "theorems": [
    "C132_accepted",
    "C132_call",
    "C132_session"
   ],
   "note": "For every sequence of calls with drawable configurations. Not covered: rendering (norm, colours, colour bars, resolution), images with colour channels."
  },
  {
   "property": "C133",
   "status": "partial",
   "theorems": [
    "C133_stuck_refuted",
    "C133_typo_refuted",
    "C133_volume_refuted"
   ],
   "note": "Refuted for every failing call: the colour maps stay registered, and each later plot on process 0 raises (C133_stuck_refuted, with a mistyped colour map as witness in C133_typo_refuted); a 3D simulation is accepted and never plotted (C133_volume_refuted). Sequences without exceptions are C132."
  },
  {
   "property": "C134",
   "status": "proved",
   "theorems": [
    "C134_local",
    "C134_one_cell",
    "C134_quiet"
   ],
   "note": "For the periodic 3D step of M_Step3D with fused species (all decompositions, processes and schedules). Eight cells is an upper bound, not the exact reach."
  },
  {
   "property": "C135",
   "status": "proved",
   "theorems": [
    "C135_carried",
    "C135_merged_species",
    "C135_rescaled",
    "C135_same_run",
    "C135_same_values",
    "C135_species_order",
    "C135_split_particle",
    "C135_test_particles"
   ],
   "note": "For the periodic 3D step of M_Step3D with fused species (all decompositions, processes and schedules)."
  },
  {
   "property": "C136",
   "status": "proved",
   "theorems": [
    "C136_image_run",
    "C136_image_values",
    "C136_pair_plasma",
    "C136_planar",
    "C136_symmetric_start",
    "C136_two_dimensional"
   ],
   "note": "For the periodic 3D step of M_Step3D with fused species (all decompositions, processes and schedules). Exchanges of two axes are not covered in 3D (C123 has x and y in 2D). Exact arithmetic: with rounding the image agrees up to rounding errors."
  },
  {
   "property": "C137",
   "status": "proved",
   "theorems": [
    "C137_once",
    "C137_reproducible"
   ],
   "note": "Over M_Random: a generator is a seed sequence with spawn key, children and position (numpy), pickling keeps it; different requests for entropy to the operating system give different streams. That values of different streams are statistically independent is numpy's business."
  },
  {
   "property": "C138",
   "status": "partial",
   "theorems": [
    "C138_processes_refuted",
    "C138_qed_refuted",
    "C138_resumed_refuted"
   ],
   "note": "Same seed, processes and history without QED: C137_reproducible. Refuted otherwise: another number of processes gives a patch another stream (C138_processes_refuted); the QED kernels use the generators of numba, which no seed reaches (C138_qed_refuted); after loading a checkpoint the collisions take new streams, so the resumed run is not the uninterrupted one (C138_resumed_refuted, for all histories)."
  },
  {
   "property": "C139",
   "status": "proved",
   "theorems": [
    "C139_ends",
    "C139_energy",
    "C139_law_high",
    "C139_law_low",
    "C139_law_medium",
    "C139_number"
   ],
   "note": "Over M_Thermal (real numbers, exact functions). What the generator supplies is arbitrary within the ranges numpy promises. That the condition of acceptance gives the distribution is the textbook argument, which needs probability theory and is not part of the model (C139_law_high, C139_law_medium, C139_law_low give its hypotheses, for any positive number k2 in place of the Bessel function); the bound M of the middle range comes from a numerical search and is not modelled. Termination needs accepted proposals, which the generator gives only with probability one (C139_ends)."
  },
  {
   "property": "C140",
   "status": "partial",
   "theorems": [
    "C140_elsewhere_partial",
    "C140_tail_refuted"
   ],
   "note": "Refuted in the middle range of temperatures for all supplies of random numbers (C140_tail_refuted); possible elsewhere (C140_elsewhere_partial), where possible means that some supply of random numbers gives the energy."
  },
  {
   "property": "C141",
   "status": "proved",
   "theorems": [
    "C141_all",
    "C141_datasets",
    "C141_shared"
   ],
   "note": "Over M_Columns: names of datasets only (their contents are C31). h5py refuses to create a dataset that exists."
  },
  {
   "property": "C142",
   "status": "partial",
   "theorems": [
    "C142_argument_refuted",
    "C142_repeated_refuted"
   ],
   "note": "True for lists without repetitions (C141). Refuted for all lists with a repeated name (C142_repeated_refuted) and for all lists with \"id\" (C142_argument_refuted)."
  },
  {
   "property": "C143",
   "status": "proved",
   "theorems": [
    "C143_same_species",
    "C143_two_species"
   ],
   "note": "M_PairGen (generators) against M_Pairing (iterators), equality of the lists of pairs. The shuffle is any permutation of the slots of the bucket."
  },
  {
   "property": "C144",
   "status": "proved",
   "theorems": [
    "C144_first",
    "C144_kept",
    "C144_untouched"
   ],
   "note": "Over M_Insert. Starts are not negative: the value -1 returned by a failed insertion must not be used as the next start. The functions are not called by the step itself at this commit."
  },
  {
   "property": "C145",
   "status": "proved",
   "theorems": [
    "C145_decided",
    "C145_registered"
   ],
   "note": "Over M_Order with the decision of M_Sort3D.decide_reverse (2D is nz = 1). Exact arithmetic in the mean momentum."
  },
  {
   "property": "C146",
   "status": "partial",
   "theorems": [
    "C146_early_refuted"
   ],
   "note": "Holds for sorters that have sorted before (C145_decided). Refuted for a check before the first sort, for all species with opposite drift and one bucket across (C146_early_refuted)."
  },
  {
   "property": "C147",
   "status": "proved",
   "theorems": [
    "C147_answer",
    "C147_empty"
   ],
   "note": "Over the callbacks of M_RunLoop, whenever the stage runs without error. Intervals given as functions are pure (one that counts its calls is asked once more)."
  },
  {
   "property": "C148",
   "status": "partial",
   "theorems": [
    "C148_all_fused",
    "C148_collisions",
    "C148_fused_collisions",
    "C148_rechecking_modules",
    "C148_regenerated",
    "C148_staged_refuted"
   ],
   "note": "Over M_Resume with the references of M_Lists (particle arrays; field arrays are not modelled). True of sorting, fused push, interpolation and deposition (C148_rechecking_modules) and of the first collisions after loading (C148_collisions), hence of runs without QED where all pushers are fused, with collisions if no moving window is used (C148_all_fused, C148_fused_collisions). Refuted for the staged pusher, radiation and pair production in every patch, after every run without a moving window (C148_staged_refuted). Calling update_patches after loading would repair it (C148_regenerated)."
  }
 ]
}