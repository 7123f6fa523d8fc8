{"id": "C01", "title": "Sorting particles loses, duplicates and mixes nothing", "statement": "After the per-step particle sort of a patch, the collection of particle records (all attributes plus the alive/dead flag of each particle) is a permutation of the collection before the sort: no record is lost or duplicated and the attributes of one particle are never combined with those of another.", "quantifier": "every particle count, every position/flag assignment, every bucket grid, both scan orders", "why_tests_cant": "A test can only check a few particle clouds; the in-place cycle through a scratch buffer must be right for every pattern of misplaced slots, dead slots and empty buckets.", "anchors": ["src/lambdapic/core/sort/cpu2d.c: bucket_sort, sort_particles_patches_2d", "src/lambdapic/core/sort/particle_sort.py: ParticleSort2D.__call__"]}
{"id": "C02", "title": "After sorting, each bucket's slice holds exactly that bucket's particles", "statement": "After the sort, the published [min,max) slice of every bucket contains exactly the particles whose bucket key is that bucket, the slices are disjoint, in order, and cover the whole array; consumers (collisions) that iterate a bucket slice therefore see every particle exactly once.", "quantifier": "every particle count, bucket grid, positions inside or outside of the patch, dead particles anywhere", "why_tests_cant": "Off-by-one errors in prefix sums only appear for particular empty-bucket patterns.", "anchors": ["src/lambdapic/core/sort/cpu2d.c: calculate_bucket_index, calculate_bucket_bound, bucket_sort", "src/lambdapic/core/collision/collision.py: Collision"]}
{"id": "C03", "title": "Sorting is stable work: only misplaced particles move and an ordered array is untouched", "statement": "The sort reports exactly the number of slots whose occupant's bucket differs from the bucket owning the slot, leaves all other slots untouched, and does nothing (reports 0) when the array is already in bucket order. With one bucket across and no user choice, the x-mirrored order is used iff the live particles drift towards -x.", "quantifier": "every particle array", "why_tests_cant": "Requires reasoning about all permutations of bucket keys.", "anchors": ["src/lambdapic/core/sort/cpu2d.c: bucket_sort", "src/lambdapic/core/sort/cpu3d.c: bucket_sort_3d", "src/lambdapic/core/sort/particle_sort.py: _decide_reverse_x"]}
{"id": "C04", "title": "Patch-to-patch particle exchange conserves particles", "statement": "Exchanging particles between the patches of one process moves every alive particle that left its patch to the neighbouring patch on that side exactly once (with all its attributes), keeps the particles that stayed, and removes only the particles that left through a side with no neighbour; nothing is lost, duplicated or overwritten.", "quantifier": "every patch layout with a symmetric neighbour relation, every particle position, every arrangement of dead slots, every per-phase thread schedule", "why_tests_cant": "Depends on matching counters computed by sender and receiver over all combinations of eight directions and free-slot patterns.", "anchors": ["src/lambdapic/core/patch/sync_particles_2d.c: get_npart_to_extend_2d, fill_particles_from_boundary_2d", "src/lambdapic/core/patch/patch.py: Patches.sync_particles"]}
{"id": "C05", "title": "Exchange always has room", "statement": "The number of slots by which each patch is extended before the exchange is always enough for all the particles arriving, so no arriving particle is dropped for lack of space, both for the in-process exchange and for the inter-process exchange.", "quantifier": "every particle distribution and dead-slot pattern", "why_tests_cant": "The overflow would be silent memory corruption at one specific fill level.", "anchors": ["src/lambdapic/core/patch/sync_particles_2d.c: get_npart_to_extend_2d", "src/lambdapic/core/mpi/sync_particles_2d.c: get_npart_to_extend_2d, fill_particles_from_boundary_2d_wait"]}
{"id": "C06", "title": "After the exchange every alive particle is inside its patch", "statement": "After the particle exchange each alive particle held by a patch lies within that patch's bounds (coordinates that crossed a periodic domain boundary are shifted by the domain length), provided no particle moved farther than one patch in the step.", "quantifier": "every position, every patch, every combination of boundary conditions with equal conditions at both ends of an axis, every thread schedule (mixed conditions: C51)", "why_tests_cant": "Corner and wrap-around cases (one patch per axis, both neighbours identical) are easy to miss.", "anchors": ["src/lambdapic/core/patch/sync_particles_2d.c: handle_periodic, mark_out_of_bound_as_dead", "src/lambdapic/simulation/simulation.py: Simulation._set_global_domain_bounds"]}
{"id": "C07", "title": "Guard-cell exchange copies exactly the neighbour's edge cells", "statement": "After the guard exchange every guard cell facing a neighbour equals the neighbour's corresponding interior cell, every other cell (all interior cells, and guard cells without neighbour) is unchanged, and the result does not depend on the order in which patches, attributes and boundaries are processed.", "quantifier": "every patch layout, grid size not smaller than the guard width, field content, every schedule (narrower patches: C53)", "why_tests_cant": "Eight directions times index-wrapping conventions times arbitrary thread schedules.", "anchors": ["src/lambdapic/core/patch/sync_fields2d.c: sync_guard_fields_2d", "src/lambdapic/core/mpi/sync_fields2d.c: init_boundary_types", "src/lambdapic/core/fields.py: Fields2D"]}
{"id": "C08", "title": "Current exchange conserves every deposited contribution", "statement": "The current/charge exchange adds every guard-cell value exactly once to the interior cell it overlaps and clears that guard cell, so the domain sum of each component is unchanged, interior cells away from borders are untouched and a second exchange without new deposits changes nothing.", "quantifier": "every patch layout with symmetric neighbours, patches not narrower than the guard width, every field content, every schedule", "why_tests_cant": "Double counting appears only for particular corner/wrap layouts (one or two patches per axis) or schedules.", "anchors": ["src/lambdapic/core/patch/sync_fields2d.c: sync_currents_2d", "src/lambdapic/core/mpi/sync_fields2d.c: sync_currents_2d_start, sync_currents_2d_wait"]}
{"id": "C09", "title": "Synchronising currents from a callback never changes the result of the step", "statement": "Calling sync_currents() any number of times from callbacks, at any point between depositions of different species, leaves the same total current at the end of the step as one synchronisation after all depositions, and the exchange is always complete before the fields consume the currents.", "quantifier": "every sequence of depositions and callbacks in a step, each callback making any sync_currents / sync_currents_start / sync_currents_wait calls that leave no exchange in flight, 2D and 3D, any neighbour relation, any assignment of patches to processes", "why_tests_cant": "The flag/handle state machine has histories that a unit test does not enumerate.", "anchors": ["src/lambdapic/simulation/simulation.py: sync_currents, sync_currents_start, sync_currents_wait, run"]}
{"id": "C10", "title": "Inter-process messages match uniquely", "statement": "For every field, current and particle exchange each posted receive matches exactly one send of the intended neighbour, boundary, species and attribute, and each send is received: distinct simultaneous messages between two processes never carry the same tag.", "quantifier": "every patch-to-process assignment, every symmetric neighbour relation, including patches that are their own neighbour on several sides", "why_tests_cant": "Cross-matching depends on the partition and cannot be sampled exhaustively.", "anchors": ["src/lambdapic/core/mpi/sync_fields2d.c", "src/lambdapic/core/mpi/sync_particles_2d.c", "src/lambdapic/core/mpi/mpi_manager.py"]}
{"id": "C11", "title": "Results of an exchange do not depend on how patches are distributed over processes", "statement": "Guard and current exchange give every patch the same field content whether a neighbour is held by the same process or by another one, for every assignment of patches to processes and every order in which messages complete.", "quantifier": "every rank assignment, every interleaving of local threads, messages and processes, received currents being added one at a time (one worker thread per process; several: C52)", "why_tests_cant": "The number of assignments and interleavings is exponential.", "anchors": ["src/lambdapic/core/mpi/sync_fields2d.c: sync_currents_2d_wait", "src/lambdapic/core/patch/sync_fields2d.c", "src/lambdapic/simulation/simulation.py: sync_currents_start"]}
{"id": "C12", "title": "Neighbour tables are symmetric", "statement": "If patch a lists b as its neighbour in some direction then b lists a in the opposite direction, for rectangular and masked layouts; a patch has no neighbour on a side exactly when that side is an open boundary (or a masked-out patch).", "quantifier": "every patch grid size, every boundary-condition choice accepted by the configuration, every mask", "why_tests_cant": "Small or anisotropic grids (1 or 2 patches per axis) and mixed boundary conditions are combinatorial.", "anchors": ["src/lambdapic/core/patch/patch.py: init_rect_neighbor_index_2d, init_rect_neighbor_index_3d", "src/lambdapic/simulation/_mask_simulation.py: create_patches"]}
{"id": "C13", "title": "Particle identifiers stay unique", "statement": "Within one species all alive particles of the whole simulation carry distinct identifiers, throughout creation, array growth, migration between patches and QED particle creation.", "quantifier": "every history of creation / growth / migration / death / QED-creation events over any number of patches and ranks", "why_tests_cant": "A collision needs a specific history of slot reuse.", "anchors": ["src/lambdapic/core/particles.py: ParticlesBase._generate_ids, initialize, extend", "src/lambdapic/core/patch/sync_particles_2d.c", "src/lambdapic/core/qed/inline.py: create_photon_inline_2d"]}
{"id": "C14", "title": "Growing and pruning particle storage keeps all alive particles", "statement": "extend(n) keeps all existing particles in place and appends n dead slots; prune() keeps exactly the alive particles with all their attributes.", "quantifier": "every particle array (plain and QED), every n >= 1, every non-negative buffer fraction, every order a non-stable argsort may return", "why_tests_cant": "Argsort order is unspecified; must hold for any sort the library may return.", "anchors": ["src/lambdapic/core/particles.py: ParticlesBase.extend, ParticlesBase.prune, QEDParticles.extend"]}
{"id": "C15", "title": "The space-filling-curve ordering visits every patch exactly once", "statement": "The generalized Hilbert curve visits every cell of a rectangle or box exactly once and stays inside of it, so ranking patches along it assigns every patch. For even sizes (in 2D: an even longer side) consecutive cells share a side. The two lookup tables (cell to position, position to cell) are defined for positive even sizes and are inverse to each other.", "quantifier": "every positive width, height and depth", "why_tests_cant": "A recursion over arbitrary aspect ratios.", "anchors": ["src/lambdapic/core/patch/hilbert.py: gilbert2d, generate2d, gilbert3d, generate3d, Hilbert"]}
{"id": "C16", "title": "Relabelling partition parts preserves the partition", "statement": "When the new partition is relabelled to maximise the overlap with the previous one, parts are permuted only: two patches share a process after the relabelling iff they shared a part before it, and all labels stay within the process range.", "quantifier": "every partition, every previous assignment, every number of processes", "why_tests_cant": "A repeated label would silently merge two processes' patches for specific overlap matrices.", "anchors": ["src/lambdapic/core/patch/metis.py: compute_rank, arg_sort_rows_by_diagonal_max"]}
{"id": "C17", "title": "Rebalancing neither loses nor duplicates patches", "statement": "After a load-balancing step every patch is held by exactly one process, namely the one it was assigned to, with its fields and particles, every posted patch message is received, and the exchange never blocks for good. The weight given to the partitioner for a patch is that patch's load.", "quantifier": "every old and new assignment and every interleaving of the processes", "why_tests_cant": "Exponentially many migrations.", "anchors": ["src/lambdapic/core/mpi/load_balancer.py: _gather_loads, _compute_distribution, _exchange"]}
{"id": "C18", "title": "Species names are made unique", "statement": "After any sequence of add_species calls on distinct species objects all species have pairwise distinct names; a name is kept exactly when no earlier species has it with or without a numeric suffix; each species' index is its position.", "quantifier": "every sequence of calls, every list of distinct species objects and every names, including names that already look like a generated suffix", "why_tests_cant": "Generated names can clash with user names such as 'electron.1'.", "anchors": ["src/lambdapic/simulation/utils.py: uniquify_species_names", "src/lambdapic/simulation/simulation.py: add_species"]}
{"id": "C19", "title": "Automatic patch counts divide the grid", "statement": "Automatically chosen patch counts divide the grid in every axis into at least two patches of at least two cells; if some counts give at least the requested number with one axis no thinner than the absorbing layer and twice the guard width, the chosen ones do too and no such counts are better in both the number of patches and the difference of patch edges; otherwise the coarsest split is chosen. Counts are returned exactly when every axis has a non-trivial divisor.", "quantifier": "every grid size, positive guard width, positive absorber thickness and requested minimum, 2D and 3D", "why_tests_cant": "Arithmetic over all sizes (primes, squares, small grids).", "anchors": ["src/lambdapic/simulation/utils.py: find_divisors, auto_patch_2d, auto_patch_3d"]}
{"id": "C20", "title": "Callbacks fire at exactly the steps their interval asks for", "statement": "With an integer interval n a callback fires exactly at the steps divisible by n; with a time interval T (at least one step long) it fires exactly once per period of length T; a callable interval fires iff it returns true; each callback fires only at its own stage.", "quantifier": "every interval, step count, time step and number of steps", "why_tests_cant": "Ranges over all histories of steps.", "anchors": ["src/lambdapic/callback/callback.py: _interval_triggered, callback, Callback", "src/lambdapic/simulation/simulation.py: SimulationCallbacks"]}
{"id": "C21", "title": "Running in pieces equals running at once", "statement": "run(nsteps=a) followed by run(nsteps=b) performs the same sequence of steps with the same step numbers, and ends in the same state, as run(nsteps=a+b); run(sim_time=T) continues to the absolute time T and does nothing when it is already reached.", "quantifier": "every a, b, initial step, step function and stop condition", "why_tests_cant": "Ranges over all step counts and all step functions.", "anchors": ["src/lambdapic/simulation/simulation.py: run, _handle_nsteps"]}
{"id": "C22", "title": "Resuming from a checkpoint continues the interrupted run", "statement": "Loading a checkpoint written at any step and running the remaining steps yields the same state, step numbering and callback schedule as the run that was not interrupted, for interval-driven and for signal-driven dumps.", "quantifier": "every crash/dump step, every total, every step function", "why_tests_cant": "Every crash point of every run.", "anchors": ["src/lambdapic/callback/restart.py: RestartDump._call, RestartDump.load", "src/lambdapic/simulation/simulation.py: run"]}
{"id": "C23", "title": "Checkpoint retention keeps the most recent checkpoints", "statement": "With keep=N the N checkpoints with the largest step numbers survive every dump; the checkpoint just written is never deleted.", "quantifier": "every history of dumped steps, every N >= 1", "why_tests_cant": "Only fails beyond a million steps.", "anchors": ["src/lambdapic/callback/restart.py: RestartDump._gc_old_checkpoints, _ckpt_dir"]}
{"id": "C24", "title": "The fused pusher is a pure optimisation (2D)", "statement": "Selecting the fused push never skips a callback that is registered on an inner push stage, and in two dimensions one fused step gives the same particles and the same deposited charge and current as the staged push (exact arithmetic).", "quantifier": "every species set, callback set, field content, particle array whose live particles have defined coordinates", "why_tests_cant": "Equivalence over all particle and field states; the selection rule over all callback registrations.", "anchors": ["src/lambdapic/simulation/simulation.py: run (use_unified_pusher)", "src/lambdapic/core/pusher/unified/unified_pusher_2d.c", "src/lambdapic/core/pusher/pusher.py: PusherBase.push_position, BorisPusher.__call__"]}
{"id": "C25", "title": "Deposited current and charge satisfy the discrete continuity equation", "statement": "For a particle that moves less than one cell per step, the change of the deposited charge density plus the discrete divergence of the deposited current vanishes in every cell, and the deposited charge sums to the particle's charge (exact arithmetic).", "quantifier": "every particle array, position, motion of at most one cell per step, weight, charge, cell size, previous array content; for the staged 3D kernel: the five-cell window inside the array (guards included)", "why_tests_cant": "An algebraic identity over all real inputs and all crossing cases.", "anchors": ["src/lambdapic/core/current/current_deposit.h: calculate_S, calculate_S0, current_deposit_2d, current_deposit_2d_fast_cells, current_deposit_3d_fast_cells"]}
{"id": "C26", "title": "Interpolation is the spline mean at the Yee positions and its fast path is exact", "statement": "The field a particle feels is the mean of the grid values around it with the deposition weights, at the staggered position of each component; a constant field gives that constant; the bounds-check-free fast path of the fused pusher returns the same value as the wrapped path on every input, and reads only cells inside the array.", "quantifier": "every position whose stencil exists, grid size and field content, 2D and 3D", "why_tests_cant": "Range over all reals and all array sizes.", "anchors": ["src/lambdapic/core/interpolation/cpu2d.c: get_gx, interp_field", "src/lambdapic/core/interpolation/cpu3d.c", "src/lambdapic/core/pusher/unified/unified_pusher_2d.c: interpolation_2d, interp_field_fast", "src/lambdapic/core/pusher/unified/unified_pusher_3d.c"]}
{"id": "C27", "title": "The momentum push solves the discretised Lorentz equation and is reversible", "statement": "The push solves the time-centred Lorentz equation; without electric field it preserves the momentum magnitude and the component along the magnetic field exactly; after every push the stored inverse Lorentz factor is the one of the stored momentum; running the push with -dt undoes it.", "quantifier": "every momentum, field, charge, mass and time step (real arithmetic)", "why_tests_cant": "Algebraic identity over the reals.", "anchors": ["src/lambdapic/core/pusher/boris.py: boris_inline", "src/lambdapic/core/pusher/unified/unified_pusher_2d.c: boris"]}
{"id": "C28", "title": "Field update keeps div B and transports div E by the charge", "statement": "Through any sequence of field updates, each followed by the guard-cell exchange, the discrete divergence of B of every cell keeps its value, and the discrete divergence of E changes exactly by minus dt/eps0 times the discrete divergence of the current used by each electric update; hence eps0 div E - rho keeps its value when rho obeys the continuity equation (Gauss' law is inherited).", "quantifier": "every field content, current, cell size, time step, number of updates, patch grid with periodic or open axes, 2D and 3D; every cell whose forward (B) or backward (E) neighbours lie in the domain", "why_tests_cant": "Algebraic identity over all field contents and histories.", "anchors": ["src/lambdapic/core/maxwell/cpu.py: update_efield_2d, update_bfield_2d, update_efield_3d, update_bfield_3d", "src/lambdapic/core/maxwell/solver/solver.py"]}
{"id": "C29", "title": "Sliced file output places every selected cell exactly once", "statement": "Writing a slice of a global field patch by patch puts every selected global cell exactly once at the output position Python slicing would give it, for every division of the axis in patches.", "quantifier": "every axis length, patch size, start/stop/step", "why_tests_cant": "Strided selections straddling patch boundaries are combinatorial.", "anchors": ["src/lambdapic/callback/hdf5.py: _compute_patch_slice, _HDF5SliceWriter"]}
{"id": "C30", "title": "User slices are interpreted as Python slices", "statement": "A user-supplied slice/int/ellipsis selection of the output selects the same indices as the corresponding Python indexing with positive step.", "quantifier": "every axis length and every slice with missing, negative or out-of-range bounds", "why_tests_cant": "Clamping of negative and out-of-range bounds has many branches.", "anchors": ["src/lambdapic/callback/hdf5.py: _normalize_slice"]}
{"id": "C31", "title": "Particle output contains every alive particle exactly once", "statement": "The particle output file holds exactly the alive particles of all patches of all processes, each at its own row, with the attributes of one particle on one row.", "quantifier": "every distribution of alive particles over processes and patches", "why_tests_cant": "Offsets depend on the full distribution.", "anchors": ["src/lambdapic/callback/hdf5.py: SaveParticlesToHDF5"]}
{"id": "C32", "title": "Gathered fields do not depend on which process holds a patch", "statement": "Collecting a global field (2D array, or a plane of a 3D simulation) on the root process returns for every cell the value stored by the patch owning that cell, whatever process holds the patch and for every slice position in the domain.", "quantifier": "every patch layout, rank assignment and slice position", "why_tests_cant": "Rank assignments and slice positions are unbounded.", "anchors": ["src/lambdapic/callback/utils.py: get_fields"]}
{"id": "C33", "title": "Collision pairing inside one species covers every particle", "statement": "Within a cell, every alive particle takes part in a collision, dead particles never, pairs consist of two different particles, and with an even count each particle is paired exactly once (with an odd count only the first one twice, with halved weights).", "quantifier": "every slot arrangement of alive and dead particles, every shuffle", "why_tests_cant": "All cell occupancies and shuffles.", "anchors": ["src/lambdapic/core/collision/utils.py: IntraPairingIterator", "src/lambdapic/core/collision/cpu.py: self_pairing"]}
{"id": "C34", "title": "Collision pairing between two species covers both sides with total weight one", "statement": "Between two species every alive particle of the larger population collides exactly once; each of the smaller population is reused evenly and its weight corrections add up to one.", "quantifier": "every occupancy of both species, every shuffle", "why_tests_cant": "All cell occupancies and shuffles.", "anchors": ["src/lambdapic/core/collision/utils.py: InterPairingIterator", "src/lambdapic/core/collision/cpu.py: pairing"]}
{"id": "C35", "title": "Each requested species pair collides once per step", "statement": "From the user's collision groups every unordered pair of species occurring in some group is treated exactly once per step, a species listed twice in a group additionally collides with itself, and no other pair collides.", "quantifier": "every list of groups", "why_tests_cant": "Overlapping groups are combinatorial.", "anchors": ["src/lambdapic/core/collision/collision.py: Collision.__init__"]}
{"id": "C36", "title": "A binary collision conserves momentum and energy", "statement": "A collision between particles of equal weight conserves total momentum and total energy, keeps the weights and leaves the stored inverse gamma consistent with the stored momentum; so do all collisions of a cell, within a species and between two species, for every shuffle, and no dead or foreign slot is touched. With different weights the pair scatters elastically and each particle takes its new momentum with a probability proportional to the other one's weight. The scattering angle is always well defined and is the angle between the old and the new centre-of-mass momentum when this is not along the z axis (real arithmetic; see C61 for the z axis).", "quantifier": "every momentum, mass, charge, weight, Coulomb logarithm, cell volume, step, pairing and random number", "why_tests_cant": "Algebraic identity over the reals.", "anchors": ["src/lambdapic/core/collision/utils.py: coulomb_scattering, rotate_momentum, boost_to_lab, collision_data", "src/lambdapic/core/collision/cpu.py: collision_kernel"]}
{"id": "C37", "title": "QED emission creates one particle per event and conserves momentum", "statement": "Every emission event of an alive emitter creates exactly one photon (pair creation: one electron and one positron, and removes the photon), the created and the recoiled momentum sum to the momentum before, existing particles of the target species are not overwritten, there is always room, and a particle created in a step does not itself emit in that step.", "quantifier": "every event pattern, energy fraction and storage state, any number of species with any emitter and target relations in which targets differ from the emitter and a pair goes into two species (one species for both: C64)", "why_tests_cant": "Slot reuse over all storage states and species orders.", "anchors": ["src/lambdapic/core/qed/inline.py", "src/lambdapic/core/qed/cpu.py", "src/lambdapic/core/qed/optical_depth.py: update_tau_e, update_tau_gamma", "src/lambdapic/core/qed/radiation.py: create_particles, reaction", "src/lambdapic/core/qed/pair_production.py: create_particles, reaction", "src/lambdapic/simulation/simulation.py: run"]}
{"id": "C38", "title": "Moving the window recycles patches consistently", "statement": "After any number of calls every place of the patch grid holds exactly one patch, displaced by a whole number of patch lengths; a call moves the window by at most one patch; patches that stay keep position, fields and particles; a recycled patch starts at the other end with zero fields and boundary memory and with freshly created particles of the species being injected; a forward window slower than one patch per step stays ahead of the distance travelled by at most one patch.", "quantifier": "every number of patches, every history of calls, every velocity function, with and without injection (other species: C65; leftward and fast windows: C66)", "why_tests_cant": "Histories of shifts of any length.", "anchors": ["src/lambdapic/callback/utils.py: MovingWindow.__call__, _calculate_shift, _shift_right, _shift_left, _fill_particles"]}
{"id": "C39", "title": "Loaded particles are all placed once", "statement": "Loading an external particle list puts each particle inside the domain (outside of the absorbing layers) into exactly one patch of exactly one process, drops only the others, gives it the values of the file, and leaves all other particles of all species as they were.", "quantifier": "every particle list, batch size, domain decomposition over any number of processes with patches, 2D and 3D, first species and target species with the same attributes (other cases: C67, C68)", "why_tests_cant": "Half-open patch bounds over all positions and all decompositions.", "anchors": ["src/lambdapic/callback/utils.py: LoadParticles", "src/lambdapic/core/patch/patch.py: Patch.xmin, xmax, ymin, ymax, zmin, zmax", "src/lambdapic/core/particles.py: ParticlesBase.extend"]}
{"id": "C40", "title": "Initial filling matches its count", "statement": "The number of macro-particles allocated for a patch equals the number of particles the filling writes, each lies in the cell it was created for, and the weights of a cell sum to density times cell volume.", "quantifier": "every density profile and threshold, every particles-per-cell function that is at least one where the density is above the threshold, every grid, 2D and 3D, every random stream (zero particles per cell: C71)", "why_tests_cant": "Count and fill are separate loops over user functions; a mismatch is an out-of-bounds write.", "anchors": ["src/lambdapic/core/patch/cpu.py", "src/lambdapic/core/patch/patch.py: calculate_npart, add_species, fill_particles", "src/lambdapic/callback/utils.py: MovingWindow._fill_particles_2d, _fill_particles_3d"]}
{"id": "C41", "title": "Every patch side is handled once", "statement": "For each patch side exactly one of the following holds: the neighbour is in the same process (in-process exchange), in another process (message exchange) or absent; and the tables used by the two exchanges agree, at start-up and after rebalancing or window moves, in 2D and 3D.", "quantifier": "every rank assignment and history of rebalancing", "why_tests_cant": "Rank assignments are unbounded.", "anchors": ["src/lambdapic/core/patch/patch.py: init_neighbor_rank_2d, init_neighbor_rank_3d, init_neighbor_ipatch_2d", "src/lambdapic/core/mpi/load_balancer.py: _finalize"]}
{"id": "C42", "title": "Collision density statistics describe the current step only", "statement": "The screening length and densities used by the collision step are functions of the particles at that step, not of how many steps were computed before.", "quantifier": "every number of previous steps", "why_tests_cant": "State carried over across steps.", "anchors": ["src/lambdapic/core/collision/collision.py: calculate_debye_length", "src/lambdapic/core/collision/cpu.py: debye_length_patches, debye_length_cell"]}
{"id": "C43", "title": "Absorbing layers sit exactly on the open sides", "statement": "A patch gets an absorbing layer on a side exactly when that side is an open domain boundary (rectangular domains) or has no neighbour (masked domains), and particles are absorbed before entering it.", "quantifier": "every patch grid, boundary-condition choice, mask", "why_tests_cant": "All layouts.", "anchors": ["src/lambdapic/simulation/simulation.py: _init_pml", "src/lambdapic/simulation/_mask_simulation.py: _init_pml", "src/lambdapic/core/patch/patch.py: add_pml_boundary"]}
{"id": "C44", "title": "All processes take part in the same collective calls", "statement": "In every step all processes issue the same sequence of collective operations, whatever their local patch count, local loads or the delivery of signals, so that a run cannot dead-lock.", "quantifier": "every number of processes, every load pattern (hence every pattern of rebalancing), every set of callbacks and flags, as long as every process holds a patch and callbacks, signals and the stop callback agree on all processes", "why_tests_cant": "Depends on per-process state at a specific moment.", "anchors": ["src/lambdapic/core/mpi/load_balancer.py: should_rebalance", "src/lambdapic/simulation/simulation.py: run", "src/lambdapic/callback/restart.py"]}
{"id": "C45", "title": "Patches tile the domain", "statement": "Every global cell belongs to exactly one patch and the patch origins and axes agree with the global cell positions; the global index of a patch is in bijection with its grid position.", "quantifier": "every grid and patch count", "why_tests_cant": "All sizes.", "anchors": ["src/lambdapic/simulation/simulation.py: create_patches", "src/lambdapic/core/patch/patch.py: Patch2D"]}
{"id": "C46", "title": "The per-species density output equals that species' own charge density", "statement": "The density written for an enabled species equals the charge that species alone deposited in this step divided by its charge, independent of other species and of synchronisation by other callbacks, whenever it is the first species or the species before it is enabled; nothing is written for a disabled species.", "quantifier": "every species list, enabled set with the preceding species enabled, deposits, callbacks that leave no exchange in flight; 2D and 3D", "why_tests_cant": "Depends on the history of deposits within a step.", "anchors": ["src/lambdapic/callback/hdf5.py: SaveSpeciesDensityToHDF5", "src/lambdapic/callback/utils.py: ExtractSpeciesDensity"]}
{"id": "C47", "title": "A crash during a dump leaves a usable checkpoint", "statement": "If at least one complete checkpoint exists, then whatever the point at which the processes are killed during a later checkpoint dump (including its clean-up of old checkpoints), some checkpoint directory can still be loaded completely by all processes.", "quantifier": "every directory content, every step, number of processes, keep setting and crash point", "why_tests_cant": "crash points fall between arbitrary file operations of several processes; tests dump and load without interruption", "anchors": ["src/lambdapic/callback/restart.py:RestartDump._call", "src/lambdapic/callback/restart.py:RestartDump._gc_old_checkpoints", "src/lambdapic/callback/restart.py:RestartDump.load"]}
{"id": "C48", "title": "Every stage works on the live particle arrays", "statement": "After any operation that replaces or moves a patch's particle arrays (growth in QED or exchange, loading, rebalancing), the next sort, push, interpolation, deposition, collision and QED stage read and write the arrays now held by the particle object, not the replaced ones.", "quantifier": "every set of species and modules, every number of patches, every history of steps, growth, loading callbacks at any stage and rebalancing; with moving windows that inject nothing for the particle arrays, and with any window for sorting, fused push, interpolation and deposition (other window cases: C63)", "why_tests_cant": "Stale references appear only for particular orders of growth, loading and list refresh; a test follows one order.", "anchors": ["src/lambdapic/simulation/simulation.py: Simulation.update_lists, update_patches, run", "src/lambdapic/core/particles.py: initialize, extend, prune", "src/lambdapic/core/qed/radiation.py: _update_particle_lists, create_particles", "src/lambdapic/core/sort/particle_sort.py: _update_particle_lists", "src/lambdapic/callback/utils.py: LoadParticles"]}
{"id": "C49", "title": "Growing by nothing and pruning with any fraction lose nothing", "statement": "extend(n) with n <= 0 leaves the particles unchanged, and prune(extra) keeps all alive particles for any buffer fraction, for plain and QED particles.", "quantifier": "every particle array, every n <= 0, every buffer fraction including negative ones", "why_tests_cant": "The edge cases are reached only for particular counts of events and dead slots.", "anchors": ["src/lambdapic/core/particles.py: ParticlesBase.extend, QEDParticles.extend, prune"]}
{"id": "C50", "title": "The particle exchange does not depend on how patches are distributed over processes", "statement": "Exchanging particles by messages with the patches of other processes and then inside each process gives every patch the same particles as if all patches were in one process; the message exchange never fails, hands over every particle that left towards another process exactly once and leaves all others in place.", "quantifier": "every rank assignment, every particle distribution with moves of at most one patch, every thread schedule of the in-process part, 2D and 3D rectangular domains", "why_tests_cant": "All assignments of patches to processes and corner crossings that are remote on one side and local on another.", "anchors": ["src/lambdapic/core/mpi/sync_particles_2d.c: get_npart_to_extend_2d, fill_particles_from_boundary_2d_start/wait", "src/lambdapic/core/mpi/mpi_manager.py: sync_particles_start/wait", "src/lambdapic/simulation/simulation.py: update_patches"]}
{"id": "C51", "title": "The particle exchange only touches valid memory", "statement": "For every configuration the simulation accepts, the particle exchange writes and reads index buffers and particle arrays only inside their bounds and always completes.", "quantifier": "every accepted boundary-condition choice, every particle distribution, every thread schedule", "why_tests_cant": "An invalid write only happens for particular boundary conditions and particle positions.", "anchors": ["src/lambdapic/core/patch/sync_particles_2d.c: get_incoming_index, fill_particles_from_boundary_2d", "src/lambdapic/simulation/simulation.py: SimulationConfig"]}
{"id": "C52", "title": "Received currents are accumulated correctly by several threads", "statement": "When the current exchange between processes finishes, every received contribution has been added, whatever the number of worker threads and their scheduling.", "quantifier": "every number of threads, every division of the loop among them, every interleaving of their memory accesses", "why_tests_cant": "A lost update needs one particular interleaving on a cell shared by two sides of a patch.", "anchors": ["src/lambdapic/core/mpi/sync_fields2d.c: sync_currents_2d_wait, sync_currents_buf", "src/lambdapic/core/mpi/sync_fields3d.c: sync_currents_3d_wait"]}
{"id": "C53", "title": "Every accepted patch size gives a well-defined guard exchange", "statement": "For every configuration that is accepted, the guard exchange gives one result that does not depend on the thread schedule.", "quantifier": "every grid size, patch count and guard width accepted by the configuration", "why_tests_cant": "Only patches narrower than the guard width are affected, and only under particular schedules.", "anchors": ["src/lambdapic/simulation/simulation.py: SimulationConfig", "src/lambdapic/core/patch/sync_fields2d.c: sync_guard_fields_2d"]}
{"id": "C54", "title": "A free species name is kept and repeated objects stay distinguishable", "statement": "A species name that no other species has is kept, and any two entries of the species list have different names.", "quantifier": "every species list, including the same object added twice and names that end in a numeric suffix", "why_tests_cant": "Depends on the history of calls and on the shape of the names.", "anchors": ["src/lambdapic/simulation/utils.py: uniquify_species_names"]}
{"id": "C55", "title": "Automatic patches are wide enough in every axis and exist for every grid", "statement": "Automatically chosen patches are in every axis at least as wide as the absorbing layer and twice the guard width, and the choice succeeds for every grid size.", "quantifier": "every grid size, guard width, absorber thickness and requested minimum", "why_tests_cant": "Arithmetic over all sizes (primes, small grids).", "anchors": ["src/lambdapic/simulation/utils.py: auto_patch_2d, auto_patch_3d, find_divisors"]}
{"id": "C56", "title": "Starting a current exchange from a callback is harmless", "statement": "A callback may call sync_currents_start() alone; the currents consumed by the field update still contain everything deposited in the step.", "quantifier": "every sequence of deposit / sync_currents / sync_currents_start / sync_currents_wait calls, single or multi process", "why_tests_cant": "Needs several processes, a callback between depositions and a deposit in a guard cell.", "anchors": ["src/lambdapic/simulation/simulation.py: sync_currents_start, sync_currents_wait, run"]}
{"id": "C57", "title": "Species density output works for every enabled set", "statement": "The density written for an enabled species equals its own charge density whichever other species are enabled.", "quantifier": "every species list and enabled set", "why_tests_cant": "Depends on which species are disabled and on the history of earlier steps.", "anchors": ["src/lambdapic/callback/hdf5.py: SaveSpeciesDensityToHDF5"]}
{"id": "C58", "title": "Relabelling moves as few patches as possible", "statement": "Among all relabellings of the new partition, the one chosen keeps the largest possible number of patches on their process.", "quantifier": "every partition, previous assignment and number of processes", "why_tests_cant": "Depends on the whole overlap matrix; a greedy choice is optimal on most small examples.", "anchors": ["src/lambdapic/core/patch/metis.py: arg_sort_rows_by_diagonal_max"]}
{"id": "C59", "title": "The fields do not depend on the division into patches", "statement": "Dividing the same grid into patches in two different ways and performing the same field updates with the same currents gives the same electric and magnetic fields at every grid cell, bit for bit, guard cells included.", "quantifier": "every two divisions of a 2D or 3D grid into patches at least as wide as the guard width, periodic or open axes, every initial field, current, number and order of updates, whatever the arithmetic", "why_tests_cant": "Ranges over all divisions, all fields and all histories; a test compares a few.", "anchors": ["src/lambdapic/core/maxwell/cpu.py", "src/lambdapic/core/maxwell/solver/solver.py", "src/lambdapic/simulation/simulation.py: maxwell_stage"]}
{"id": "C60", "title": "The fused pusher is a pure optimisation (3D)", "statement": "In three dimensions, too, a step moves every live particle by its velocity whichever pusher is selected, and the fused step gives the same particles, charge and current as the staged one.", "quantifier": "every field content and particle array", "why_tests_cant": "Whether the staged pusher is used depends on callbacks, species and physics modules; the equality ranges over all states.", "anchors": ["src/lambdapic/core/pusher/pusher.py: PusherBase.push_position", "src/lambdapic/core/pusher/unified/unified_pusher_3d.c", "src/lambdapic/simulation/simulation.py: run"]}
{"id": "C61", "title": "Colliding particles are turned by the scattering angle", "statement": "A collision turns the centre-of-mass momentum by exactly the scattering angle, whatever the direction of motion; in particular particles that do not interact (no charge) keep their momenta.", "quantifier": "every centre-of-mass momentum, including those along a coordinate axis, and every angle", "why_tests_cant": "The special case is a set of directions of measure zero that a randomly drawn test does not meet, while plasmas streaming along an axis do.", "anchors": ["src/lambdapic/core/collision/utils.py: rotate_momentum, coulomb_scattering"]}
{"id": "C62", "title": "Neither an empty process nor a signal stops the other processes", "statement": "A process that holds no patch at a load check, or a dump signal that has reached only some processes by the end of a step, does not make a run with several processes block: all processes still make the same collective calls.", "quantifier": "every number of processes and steps, every moment at which a process is empty or is signalled", "why_tests_cant": "Needs a particular moment of signal delivery or a particular distribution of patches on a parallel machine.", "anchors": ["src/lambdapic/core/mpi/load_balancer.py: should_rebalance", "src/lambdapic/simulation/simulation.py: run", "src/lambdapic/callback/restart.py: RestartDump"]}
{"id": "C63", "title": "Every stage works on live arrays also after a window shift", "statement": "After a window shift, with or without injection of new particles, every later stage works on the arrays now held by the particle objects and on the bucket bounds now written by the sorters.", "quantifier": "every run with a moving window", "why_tests_cant": "Depends on which modules are active and on which pusher path is taken when the window moves.", "anchors": ["src/lambdapic/callback/utils.py: MovingWindow.__call__, _fill_particles", "src/lambdapic/core/particles.py: initialize", "src/lambdapic/core/collision/collision.py: generate_field_lists, update_particle_lists", "src/lambdapic/simulation/simulation.py: update_lists"]}
{"id": "C64", "title": "A photon species may put electrons and positrons into one species", "statement": "set_bw_pair accepts the same species for electron and positron; pair creation then has room for both particles of every pair.", "quantifier": "every storage state of the shared target species", "why_tests_cant": "Fails only when the number of free slots lies between one and two times the number of events.", "anchors": ["src/lambdapic/core/species.py: Photon.set_bw_pair", "src/lambdapic/core/qed/pair_production.py: create_particles"]}
{"id": "C65", "title": "A recycled patch starts without its old particles", "statement": "When a patch is moved to the other end of the window, none of the particles that left the window with it reappear there, also for species without a density and when injection is off or has stopped.", "quantifier": "every call that moves the window, every species", "why_tests_cant": "Depends on the injection options and on the species.", "anchors": ["src/lambdapic/callback/utils.py: MovingWindow.__call__, _calculate_shift, _shift_right, _shift_left, _fill_particles"]}
{"id": "C66", "title": "Windows of any velocity follow it", "statement": "The window stays within one patch length of the distance travelled, also for negative velocities and for velocities above one patch per step.", "quantifier": "every velocity function", "why_tests_cant": "Lag accumulates over calls.", "anchors": ["src/lambdapic/callback/utils.py: MovingWindow.__call__, _calculate_shift, _shift_right, _shift_left, _fill_particles"]}
{"id": "C67", "title": "Loaded particles are physically consistent", "statement": "Every loaded particle has a defined momentum and the inverse Lorentz factor of its momentum, also when the file holds only positions and weights, which the documentation allows.", "quantifier": "every file accepted by the loader", "why_tests_cant": "Depends on which columns a file has.", "anchors": ["src/lambdapic/callback/utils.py: LoadParticles", "src/lambdapic/core/patch/patch.py: Patch.xmin, xmax, ymin, ymax, zmin, zmax", "src/lambdapic/core/particles.py: ParticlesBase.extend"]}
{"id": "C68", "title": "Loading depends only on the file and the target species", "statement": "Loading works on every process, and which columns are loaded does not depend on the other species of the simulation.", "quantifier": "every distribution of patches over processes and every order of species", "why_tests_cant": "Depends on the distribution of patches and on species order.", "anchors": ["src/lambdapic/callback/utils.py: LoadParticles", "src/lambdapic/core/patch/patch.py: Patch.xmin, xmax, ymin, ymax, zmin, zmax", "src/lambdapic/core/particles.py: ParticlesBase.extend"]}
{"id": "C69", "title": "Setting momenta or temperatures keeps particles consistent", "statement": "Setting or adding a momentum, a temperature or both changes momentum and inverse Lorentz factor of every alive particle of the species, each once, keeps the factor consistent with the resulting momentum, and changes nothing else.", "quantifier": "every particle array with any pattern of dead slots, every momentum, temperatures and samples", "why_tests_cant": "All patterns of dead slots and all values.", "anchors": ["src/lambdapic/callback/utils.py: SetMomentum, SetTemperature, SetMomentumAndTemperature"]}
{"id": "C70", "title": "Anisotropic temperatures are the ones asked for", "statement": "With different temperatures along the axes the mean square momenta along the axes have the ratio of the temperatures (in the non-relativistic limit).", "quantifier": "every set of isotropic samples", "why_tests_cant": "A statement about all samples.", "anchors": ["src/lambdapic/callback/utils.py: SetTemperature._call"]}
{"id": "C71", "title": "Initial particles follow every setting of the species", "statement": "A cell with zero particles per cell stays empty, also where the density is above the threshold, and the initial momenta follow the momentum profile of the species.", "quantifier": "every accepted species", "why_tests_cant": "Depends on the values of user functions.", "anchors": ["src/lambdapic/core/patch/cpu.py", "src/lambdapic/core/patch/patch.py: calculate_npart, add_species, fill_particles", "src/lambdapic/callback/utils.py: MovingWindow._fill_particles_2d, _fill_particles_3d", "src/lambdapic/core/species.py: Species.ppc, Species.momentum"]}
{"id": "C72", "title": "Fields with absorbing boundaries do not depend on how the domain is cut into patches", "statement": "Take one domain with open (absorbing) or periodic boundaries along each axis and cut it into patches in two ways. Start both simulations from the same fields and freshly built absorbing layers and perform the same sequence of field updates, each followed by the guard-cell exchange, with the same currents. In exact arithmetic both show the same electric and magnetic field everywhere on the grid after every such sequence.", "quantifier": "all grids in two and three dimensions, all pairs of decompositions the initialisation accepts with the layers thinner than a patch (in 3D: at least two patches along each open axis), all layer parameters and coefficient functions, all fields, currents and histories of updates; exact field arithmetic (the kernels of patches with and without layers order their operations differently)", "why_tests_cant": "A test compares a few decompositions for a few steps with a tolerance; a slip in one coefficient table, one slice bound or one mirrored index of one of twelve kernels shows only on the side, component and depth concerned and is hidden by the absorption it perturbs.", "anchors": ["src/lambdapic/core/boundary/cpml.py: PML, PMLX, PMLY, PMLZ, update_efield_cpml_patches_*, update_psi_*", "src/lambdapic/core/maxwell/solver/solver.py: MaxwellSolver2D, MaxwellSolver3D, generate_kappa_lists", "src/lambdapic/core/patch/patch.py: Patch2D.add_pml_boundary, Patch3D.add_pml_boundary", "src/lambdapic/simulation/simulation.py: Simulation._init_pml"]}
{"id": "C73", "title": "What absorbing layers remember stays bounded", "statement": "With kappa_max >= 1, a_max >= 0 and positive sigma_max, every cell of an absorbing layer has scaling at least one, positive conductivity and a memory decay factor strictly between 0 and 1. Through any number of updates with any positive time steps, if the field values read stay within M, the auxiliary field of a layer stays within 2*M divided by the cell size across the layer: the layers never blow up by themselves.", "quantifier": "all layer thicknesses and parameters in that range, all patches and sets of layers, all sequences of field values and time steps, 2D and 3D, electric and magnetic; over the real numbers with the real exponential", "why_tests_cant": "Instability of a recursive convolution shows after an unbounded number of steps and for particular parameters; a test runs finitely many steps of few configurations.", "anchors": ["src/lambdapic/core/boundary/cpml.py: PML, PMLX, PMLY, PMLZ, update_efield_cpml_patches_*, update_psi_*", "src/lambdapic/core/maxwell/solver/solver.py: MaxwellSolver2D, MaxwellSolver3D, generate_kappa_lists"]}
{"id": "C74", "title": "Absorbing layers act only inside themselves", "statement": "In one field update, a cell outside the absorbing layers of its patch receives exactly the value the solver without absorbing layers would give it from the same arrays, whatever layers the patch has and whatever they remember (exact arithmetic).", "quantifier": "all patch sizes, sets of layers, layer contents, fields, currents, time steps, cells and components, 2D and 3D", "why_tests_cant": "An off-by-one at the inner edge of one of the six layers for one of six components alters one row of cells slightly; a test compares smooth waves within a tolerance.", "anchors": ["src/lambdapic/core/boundary/cpml.py: PML, PMLX, PMLY, PMLZ, update_efield_cpml_patches_*, update_psi_*", "src/lambdapic/core/maxwell/solver/solver.py: MaxwellSolver2D, MaxwellSolver3D, generate_kappa_lists", "src/lambdapic/core/patch/patch.py: Patch2D.add_pml_boundary, Patch3D.add_pml_boundary", "src/lambdapic/simulation/simulation.py: Simulation._init_pml"]}
{"id": "C75", "title": "Each absorbing layer is updated with its own coefficients", "statement": "In every patch that initialisation accepts, the differences across a layer are divided by the coefficient (kappa) of that layer at that depth, and by one outside the layers.", "quantifier": "all accepted 2D and 3D decompositions and sets of layers of a patch, all depths", "why_tests_cant": "It fails only for a 3D patch that spans the whole domain between two open boundaries, a layout no test uses; the wrong coefficient only increases reflection.", "anchors": ["src/lambdapic/core/maxwell/solver/solver.py: MaxwellSolver2D, MaxwellSolver3D, generate_kappa_lists", "src/lambdapic/core/patch/patch.py: Patch2D.add_pml_boundary, Patch3D.add_pml_boundary", "src/lambdapic/simulation/simulation.py: Simulation._init_pml"]}
{"id": "C76", "title": "A whole simulation gives the same result however the domain is cut into patches and distributed", "statement": "Start two simulations of one periodic 2D domain from the same fields and particles, with different numbers of patches and guard cells, different distributions of patches over processes, different thread and message orders, different sorting orders, and each species pushed by the fused kernel or in stages. After any number of steps both hold the same E, B, current and charge densities at every place of the domain and the same particles with the same attributes; every particle lies in its patch; and every step can be carried out.", "quantifier": "all domains, patch sizes not below the guard width, guard widths of at least three cells, time steps within the Courant limit, initial fields, species lists, particle sets, numbers of steps, distributions of patches (changing every step), sorts, thread interleavings and message orders; exact arithmetic", "why_tests_cant": "Tests run a few steps of a few decompositions and compare with tolerances; an error that shows only for a particle crossing a corner between two processes at a certain step order is not met.", "anchors": ["src/lambdapic/simulation/simulation.py: Simulation.run", "src/lambdapic/core/patch/patch.py: Patches.sync_guard_fields, Patches.sync_currents, Patches.sync_particles", "src/lambdapic/core/mpi/mpi_manager.py: MPIManager", "src/lambdapic/core/current/cpu2d.c: current_deposition_cpu_2d", "src/lambdapic/core/pusher/unified/unified_pusher_2d.c: unified_boris_pusher_cpu_2d", "src/lambdapic/core/maxwell/solver/solver.py: MaxwellSolver2D"]}
{"id": "C77", "title": "Absorbing layers stretch exactly the derivatives across them", "statement": "Inside an absorbing layer every field component is updated as without layer, except that each derivative across the layer is divided by kappa and gets the layer's memory added, which follows the recursion psi' = b psi + c D with kappa, b and c given by the graded profile at the sample's depth; derivatives along the layer are untouched. Opposite layers are mirror images of each other, for the electric and for the magnetic field, whose samples sit half a cell apart.", "quantifier": "all patch sizes, layer thicknesses and parameters, sets of layers with at most one layer per axis, field values, remembered values, time steps, cells and components, 2D and 3D; exact arithmetic", "why_tests_cant": "A wrong sign, component or a layer displaced by one cell only raises the reflection by some decibels for some angles and polarisations; tests check that a pulse is damped.", "anchors": ["src/lambdapic/core/boundary/cpml.py: PML, PMLXmin, PMLXmax, PMLYmin, PMLYmax, PMLZmin, PMLZmax, update_psi_*", "src/lambdapic/core/maxwell/solver/solver.py: MaxwellSolver2D, MaxwellSolver3D"]}
{"id": "C78", "title": "Gauss' law, div B = 0 and the total charge hold over whole runs", "statement": "Through any number of complete time steps of a periodic 2D simulation (push, deposition, exchange of currents, particles and guard cells, field updates) the violation div E - rho/eps0 at every cell of the domain is exactly what it was at the start, where E is the field the particles feel next and rho the stored charge density; div B never changes; the stored charge density is the one of the particles and always adds up to the charge the run started with. A run that starts without charges, currents and electric field therefore obeys Gauss' law for ever.", "quantifier": "all decompositions into patches with at least 3 guard cells, distributions over processes that may change every step, thread and message schedules, sort orders, numbers of species pushed fused or staged, particles, initial fields and numbers of steps, time steps with c dt at most one cell; exact arithmetic", "why_tests_cant": "Gauss' law is never solved for; it only holds if deposition, push, wrapping at the periodic ends, exchange and field update fit together at every cell and for every particle crossing; tests compare one run with a tolerance.", "anchors": ["src/lambdapic/simulation/simulation.py: Simulation.run", "src/lambdapic/core/current/cpu2d.c: current_deposit_2d", "src/lambdapic/core/maxwell/solver/solver.py: MaxwellSolver2D", "src/lambdapic/core/pusher/unified/unified_pusher_2d.c: unified_boris_pusher_cpu_2d"]}
{"id": "C79", "title": "A laser injects exactly the requested wave", "statement": "With an open left boundary, after the laser acted, the guard cells of B were exchanged and E was advanced by half a step, the wave travelling to the right through the plane of the laser (Ey + c Bz and Ez - c By, B averaged to the plane) is twice the requested field plus the wave that was at the left boundary; and the laser changes no other field value than the three magnetic components half a cell left of its plane, outside the layers across y and z.", "quantifier": "All 2D and 3D decompositions with an open left boundary whose patches hold at least thickness+3 cells along x, all distributions of patches over processes, all profiles, times, field and current values, all rows outside absorbing layers (for the lowest row/column of a patch one component needs a current guard value, see C85).", "why_tests_cant": "Tests look at a picture of the pulse or at the peak amplitude with a tolerance; a wrong sign or a missing term in one of the coefficients of the boundary formula is of order dt and shows only for particular fields and currents at the boundary.", "anchors": ["src/lambdapic/callback/laser.py: Laser.__call__", "src/lambdapic/callback/laser.py: _update_laser_bfields_2d", "src/lambdapic/callback/laser.py: _update_laser_bfields_3d", "src/lambdapic/callback/laser.py: Laser2D._update_bfields", "src/lambdapic/callback/laser.py: Laser3D._update_bfields"]}
{"id": "C80", "title": "Laser injection does not depend on the decomposition or on the processes", "statement": "Starting from the same fields on the whole grid with current guard cells, the laser followed by the exchange of guard cells gives the same magnetic field on the whole grid, however the grid is cut into patches and whoever owns them.", "quantifier": "All pairs of decompositions of one grid with open left boundary (2D and 3D), all process counts and ownership maps, all fields, currents, profiles and times.", "why_tests_cant": "A test compares one or two layouts; rows at patch borders next to layers and the global coordinate of a patch differ between layouts only for particular sizes.", "anchors": ["src/lambdapic/callback/laser.py: Laser.__call__", "src/lambdapic/callback/laser.py: Laser2D._update_bfields", "src/lambdapic/callback/laser.py: Laser3D._update_bfields", "src/lambdapic/callback/laser.py: Laser2D._calculate_bound_fields"]}
{"id": "C81", "title": "Adding lasers injects the sum of their fields", "statement": "A laser made with + injects the sum of the fields of its parts, each part as long as its own pulse lasts, also when one part is over and the other is not.", "quantifier": "All (nested) sums of lasers, all times, 2D and 3D, under the conditions of C79.", "why_tests_cant": "Tests check sums while both pulses are on; pulses of different length, nesting depth and the time after one ended are an unbounded set of histories.", "anchors": ["src/lambdapic/callback/laser.py: _CombinedLaser", "src/lambdapic/callback/laser.py: Laser.__add__"]}
{"id": "C82", "title": "A beam is centred at the coordinate given", "statement": "A beam asked to be centred at y0 (z0) is centred there, and in the middle of the domain when none is given.", "quantifier": "All numbers y0 and z0 including zero, all profiles.", "why_tests_cant": "Only the value zero, the lower edge of the domain, is treated as if it was not given.", "anchors": ["src/lambdapic/callback/laser.py: Laser2D._get_r", "src/lambdapic/callback/laser.py: Laser3D._get_r", "src/lambdapic/callback/laser.py: Laser2D.__init__"]}
{"id": "C83", "title": "A laser acts exactly until its pulse is over", "statement": "While some pulse is running no process is switched off; once all pulses are over nothing is written any more and every process is switched off; a process that is switched off stays off and writes nothing; without an open left boundary nothing is written.", "quantifier": "All times, sums of lasers, process counts and ownership maps, 2D and 3D.", "why_tests_cant": "The flag is kept per process and decided from the patches a process owns; a process without patches at the boundary, or one that gains them by rebalancing, is not exercised in single-process tests.", "anchors": ["src/lambdapic/callback/laser.py: Laser.__call__", "src/lambdapic/callback/laser.py: _CombinedLaser.__init__"]}
{"id": "C84", "title": "Every accepted patch size carries the laser", "statement": "With patches of any width that initialisation accepts together with the absorbing layer, a running laser injects its pulse.", "quantifier": "All patch widths greater than the thickness of the layer.", "why_tests_cant": "Tests use wide patches; only patches of thickness+1 (and thickness+2) cells put the plane of the laser into guard cells.", "anchors": ["src/lambdapic/callback/laser.py: Laser.__call__", "src/lambdapic/core/boundary/cpml.py: PML.__init__"]}
{"id": "C85", "title": "In a run, laser injection does not depend on the decomposition", "statement": "In the order of the main loop (half step of B, laser, exchange of B), two decompositions of one grid with the same fields get the same magnetic field.", "quantifier": "All pairs of decompositions and all fields.", "why_tests_cant": "The laser reads one row of Bx below each patch before the exchange; the difference appears only with a gradient of Ez across a patch border in the plane of the laser.", "anchors": ["src/lambdapic/callback/laser.py: _update_laser_bfields_2d", "src/lambdapic/simulation/simulation.py: Simulation.run"]}
{"id": "C86", "title": "Lasers registered separately add up", "statement": "Two lasers passed as two callbacks inject the sum of their fields, as with +.", "quantifier": "All pairs of lasers that run at the same time.", "why_tests_cant": "The two give a plausible picture, that of the second laser; the loss shows only against the exact sum.", "anchors": ["src/lambdapic/callback/laser.py: Laser.__call__", "src/lambdapic/simulation/simulation.py: Simulation.run"]}
{"id": "C87", "title": "Laser profiles have the requested amplitude and polarisation", "statement": "The field of a laser pulse never exceeds the requested amplitude; the polarisation angle turns the field by that angle; the energy over a cycle is the same for every polarisation angle and ellipticity; circular light has constant strength and linear light stays in its plane; a simple pulse at normal incidence is zero at the start and when it is switched off and reaches the requested amplitude half way.", "quantifier": "All accepted parameters, all times and points of the boundary; SimpleLaser and GaussianLaser (Laguerre modes: turning and energy).", "why_tests_cant": "Tests sample a few polarisations at a few times with tolerances; the bounds are over continuous parameters.", "anchors": ["src/lambdapic/callback/laser.py: SimpleLaser._calculate_bound_fields", "src/lambdapic/callback/laser.py: GaussianLaser._calculate_bound_fields", "src/lambdapic/callback/laser.py: GaussianLaser._gaussian_beam_params"]}
{"id": "C88", "title": "An oblique pulse is delayed along the boundary", "statement": "At oblique incidence every point of the boundary sees the same pulse, delayed by y sin(angle): zero before it arrives and complete until it has passed.", "quantifier": "All accepted angles, all points of the boundary and times.", "why_tests_cant": "The envelope is masked only at its end; the wrong part appears at points far from the axis, before the pulse arrives.", "anchors": ["src/lambdapic/callback/laser.py: SimpleLaser._calculate_bound_fields", "src/lambdapic/callback/laser.py: SimpleLaser.__init__"]}
{"id": "C89", "title": "Emission rates are interpolated from the table", "statement": "Inside the tabulated range the emission rate at any chi is the linear interpolation (in log chi) of the two neighbouring table entries, exact at the tabulated values; below the range it is zero; for an increasing table a larger chi never has a smaller rate.", "quantifier": "All tables and grids, all chi below the upper end of the table.", "why_tests_cant": "Tests compare a handful of chi values; an index that is off by one appears only next to particular entries.", "anchors": ["src/lambdapic/core/qed/optical_depth_tables.py: _get_chi_idx", "src/lambdapic/core/qed/optical_depth_tables.py: _linear_interp1d", "src/lambdapic/core/qed/optical_depth_tables_sigmoid.py: _linear_interp1d"]}
{"id": "C90", "title": "Table lookups stay inside their tables", "statement": "Rates and fractions are looked up inside the tables for every value of chi, also at and above the upper end.", "quantifier": "All tables, all chi.", "why_tests_cant": "The compiled code checks no bounds: a read past the end returns whatever lies in memory and usually looks plausible; it needs chi at or above the last tabulated value.", "anchors": ["src/lambdapic/core/qed/optical_depth_tables.py: _get_chi_idx", "src/lambdapic/core/qed/optical_depth_tables.py: _linear_interp1d", "src/lambdapic/core/qed/optical_depth_tables.py: _bisect_interp"]}
{"id": "C91", "title": "Emitted fractions follow the tabulated distribution", "statement": "The fraction of the energy taken by the new particle is the inverse of the tabulated distribution (interpolated to the chi of the emitter) at the drawn random number: it lies strictly between the smallest tabulated fraction and 1, lies below a tabulated fraction exactly for the random numbers below the distribution there, and increases with the random number.", "quantifier": "All tables of non-decreasing rows, all chi inside the range, all random numbers that meet no tabulated value; both sampling methods.", "why_tests_cant": "A distribution can only be sampled by tests; the statement is about every random number and every table row.", "anchors": ["src/lambdapic/core/qed/optical_depth_tables.py: _bisect_interp", "src/lambdapic/core/qed/optical_depth_tables_sigmoid.py: _bisect_interp"]}
{"id": "C92", "title": "Sampling a fraction always returns", "statement": "Drawing the fraction of an emission ends for every random number in [0, 1).", "quantifier": "All tables, all chi inside the range, all random numbers including 0.", "why_tests_cant": "It needs a random number for which the wanted value equals a table entry, e.g. exactly 0; random tests practically never draw it.", "anchors": ["src/lambdapic/core/qed/optical_depth_tables.py: _bisect_interp", "src/lambdapic/core/qed/optical_depth_tables_sigmoid.py: _bisect_interp"]}
{"id": "C93", "title": "A particle emits when its optical depth is used up", "statement": "Over any history, a particle emits in exactly those steps in which the depth (rate times proper time) passed since its last emission reaches the threshold drawn for it; steps in which it is dead or chi is below the table count nothing; the thresholds of all its emissions together never exceed the depth it has passed.", "quantifier": "All histories of rates and time steps, all positive draws; electrons: no threshold met exactly.", "why_tests_cant": "Tests check mean rates; the statement is about every history, including interruptions.", "anchors": ["src/lambdapic/core/qed/optical_depth.py: update_tau_e", "src/lambdapic/core/qed/optical_depth.py: update_tau_gamma"]}
{"id": "C94", "title": "Every emission threshold is met once and drawn for the particle", "statement": "An electron that passes exactly its threshold emits, and a newly created particle has a threshold drawn for it rather than the remainder of the particle that was stored in its place before.", "quantifier": "All histories.", "why_tests_cant": "Both need exact coincidences or reuse of slots and leave averages nearly unchanged.", "anchors": ["src/lambdapic/core/qed/optical_depth.py: update_tau_e", "src/lambdapic/core/qed/optical_depth.py: update_tau_gamma", "src/lambdapic/core/qed/inline.py: create_photon_inline_2d"]}
{"id": "C95", "title": "Chi is defined for every particle", "statement": "The quantity under the square root of chi is never negative, for any fields, for electrons and photons.", "quantifier": "All fields and momenta; gamma at least the size of the momentum.", "why_tests_cant": "It is an inequality over ten real numbers with equality cases.", "anchors": ["src/lambdapic/core/qed/inline.py: calculate_chi_inline"]}
{"id": "C96", "title": "Every enabled species is advanced by its own kernels once per step", "statement": "In a step every enabled species is moved by two half steps, gets its fields interpolated, its QED events decided, its momentum pushed and its current deposited, each once, in this order, on its own particles; disabled species are left alone; whether callbacks are registered does not matter.", "quantifier": "All lists of species with the boris or photon pusher, enabled or disabled, with and without QED modules and stage callbacks (two dimensions).", "why_tests_cant": "Kernels are found by position in several parallel lists; tests use one or two species.", "anchors": ["src/lambdapic/simulation/simulation.py: Simulation._init_pushers", "src/lambdapic/simulation/simulation.py: Simulation._init_qed", "src/lambdapic/simulation/simulation.py: Simulation.run"]}
{"id": "C97", "title": "Every documented pusher and every pusher state gives a consistent step", "statement": "A species with any of the documented pushers can be simulated without disturbing other species, and disabling a pusher object has the same effect with and without stage callbacks.", "quantifier": "All lists of species, all documented pusher settings, pushers enabled or disabled.", "why_tests_cant": "It needs an unusual setting in combination with the position of the species in the list.", "anchors": ["src/lambdapic/simulation/simulation.py: Simulation._init_pushers", "src/lambdapic/core/species.py: SpeciesConfig.pusher", "src/lambdapic/core/utils/enable_mixin.py: if_enabled"]}
{"id": "C98", "title": "A whole 3D simulation gives the same result however the domain is cut into patches and distributed", "statement": "Start two simulations of one periodic 3D domain from the same fields and particles, with different numbers of patches and guard cells, different distributions of patches over processes, different thread and message orders and different sorting orders, all species pushed by the fused kernel. After any number of steps both hold the same E, B, current and charge densities at every place of the domain and the same particles with the same attributes; every particle lies in its patch; and every step can be carried out.", "quantifier": "all 3D domains, patch sizes not below the guard width, guard widths of at least three cells, time steps within the Courant limit, initial fields, species lists, particle sets, numbers of steps, distributions of patches (changing every step), sorts, thread interleavings and message orders; exact arithmetic", "why_tests_cant": "There are 26 neighbours and four kinds of data exchanged with each; a particle crossing a corner between two processes is not met by a test, and comparisons use tolerances.", "anchors": ["src/lambdapic/simulation/simulation.py: Simulation.run", "src/lambdapic/core/patch/patch.py: Patches.sync_guard_fields, Patches.sync_currents, Patches.sync_particles", "src/lambdapic/core/mpi/mpi_manager.py: MPIManager", "src/lambdapic/core/current/cpu3d.c: current_deposition_cpu_3d", "src/lambdapic/core/pusher/unified/unified_pusher_3d.c: unified_boris_pusher_cpu_3d", "src/lambdapic/core/maxwell/solver/solver.py: MaxwellSolver3D"]}
{"id": "C99", "title": "Gauss' law, div B = 0 and the total charge hold over whole 3D runs", "statement": "Through any number of complete time steps of a periodic 3D simulation whose species are pushed by the fused kernel, the violation div E - rho/eps0 at every cell of the domain is exactly what it was at the start, where E is the field the particles feel next and rho the stored charge density; div B never changes; the stored charge density is the one of the particles and always adds up to the charge the run started with. A run that starts without charges, currents and electric field therefore obeys Gauss' law for ever.", "quantifier": "all decompositions into patches with at least 3 guard cells, distributions over processes that may change every step, thread and message schedules, sort orders, numbers of species, particles, initial fields and numbers of steps, time steps with c dt at most one cell; exact arithmetic", "why_tests_cant": "Gauss' law is never solved for; it only holds if deposition, push, wrapping at the periodic ends, exchange and field update fit together at every cell and for every particle crossing; tests compare one run with a tolerance.", "anchors": ["src/lambdapic/simulation/simulation.py: Simulation.run", "src/lambdapic/core/current/cpu3d.c: current_deposit_3d", "src/lambdapic/core/maxwell/solver/solver.py: MaxwellSolver3D", "src/lambdapic/core/pusher/unified/unified_pusher_3d.c: unified_boris_pusher_cpu_3d"]}
{"id": "C100", "title": "With automatic reloading the script as last saved is what runs", "statement": "Under `lambdapic autoreload`, whatever is saved and whenever: every run that is started executes the complete plan (steps, species, callbacks) of a saved script from step 0; a save during a run is noticed after the current step and the new script is then started from its beginning; when the runner has finished and sees no modification, the last thing it did was the whole run of the file on disk, and if the user stops saving it always gets there; errors of the script do not end it (unless asked to, in a single process).", "quantifier": "all interleavings of the runner with saves, all scripts that load and spell out their simulation (one variable), species and callbacks, all step counts; later saves having later modification times", "why_tests_cant": "a save can fall between any two actions of the runner, including between reading the time stamp and loading the file; tests try one edit at one moment.", "anchors": ["src/lambdapic/cli/auto_reload.py: AutoReload.run, check_modification, reload, sim, callbacks", "src/lambdapic/simulation/simulation.py: Simulation.run", "src/lambdapic/core/mpi/utils.py: abort_on_mpi_error"]}
{"id": "C101", "title": "Automatic reloading runs every script as a new interpreter would", "statement": "Under `lambdapic autoreload`, every script that runs by itself is run after a save exactly as a new interpreter would run it: the simulation it defines, the species it defines, its callbacks, from step 0; every save is noticed; errors are survived with any number of processes.", "quantifier": "all scripts, saves and numbers of processes", "why_tests_cant": "what survives a reload (old names, the species registry, step counters) depends on the whole history of saved versions.", "anchors": ["src/lambdapic/cli/auto_reload.py: AutoReload", "src/lambdapic/core/species.py: _ALL_SPECIES", "src/lambdapic/simulation/simulation.py: Simulation._add_default_species_if_empty, Simulation.run"]}
{"id": "C102", "title": "2D runs with open sides and absorbing layers do not depend on the decomposition", "statement": "A complete 2D simulation whose axes are periodic or open, with absorbing (CPML) layers inside the open sides, gives after any number of steps the same electric and magnetic field, the same current and charge density, the same memory of the layers and the same particles however the domain is cut into patches, distributed over processes and scheduled. After every step no particle is inside a layer; a particle that was further than one cell from the layers is still there after the step; none is ever doubled or new, and identity and weight never change. Every step can be carried out from every such state.", "quantifier": "all pairs of decompositions of one 2D domain whose patches are wider than the layer, with at least 3 guard cells; every combination of periodic and open axes; layer coefficients, distributions over processes that may change every step, thread and message schedules, sort orders, species, particles inside the layers-free part, initial fields and numbers of steps; time steps with c dt at most one cell; exact arithmetic", "why_tests_cant": "the layer is evaluated per patch with per-patch auxiliary arrays, the exchange skips open sides, and leaving particles are dropped by whichever patch holds them; that this is invisible for every cut, particle and step cannot be sampled.", "anchors": ["src/lambdapic/simulation/simulation.py: Simulation.run", "src/lambdapic/core/boundary/cpml.py: PML, PMLXmin, PMLXmax, PMLYmin, PMLYmax", "src/lambdapic/core/maxwell/solver/solver.py: MaxwellSolver2D", "src/lambdapic/core/patch/sync_particles_2d.c: mark_out_of_bound_as_dead", "src/lambdapic/core/patch/patch.py: Patch2D"]}
{"id": "C103", "title": "The extracted species density is complete and independent of the decomposition", "statement": "After every call of ExtractSpeciesDensity without a slice, the array on process 0 holds at every cell of the domain the density of the patch that owns the cell, whichever process has it and whatever the array held before; in a masked simulation the cells outside are NaN. Two decompositions of one domain with the same density give the same array; the call neither fails nor waits for a message that is never sent.", "quantifier": "all 2D and 3D patch grids, patch sizes, distributions over processes (also empty ones), patch indices, domain masks, densities and previous contents", "why_tests_cant": "messages are matched by patch index from any source into one reused buffer; correctness for every distribution needs a proof.", "anchors": ["src/lambdapic/callback/utils.py: ExtractSpeciesDensity._write_2d, ExtractSpeciesDensity._write_3d"]}
{"id": "C104", "title": "The extracted species density follows the requested slice", "statement": "With slice=np.s_[...] the array of ExtractSpeciesDensity holds exactly the selected cells of the density, for every slice that is accepted, every number of processes and also in masked simulations.", "quantifier": "all accepted slices, decompositions, distributions over processes, masks", "why_tests_cant": "the outcome depends on where the patches are and on the memory layout of the selected part; tests run on one process.", "anchors": ["src/lambdapic/callback/utils.py: ExtractSpeciesDensity._write_2d, ExtractSpeciesDensity._write_3d", "src/lambdapic/callback/hdf5.py: _compute_patch_slice"]}
{"id": "C105", "title": "The timer statistics of a run are complete", "statement": "For a simulation with a log file and enabled timers, lambdapic timer-stat reports for every timer name exactly as many events as there were timers of that name above 0.1 ms, and a time that differs from the measured one by at most 0.1 ms per event, whatever the log directory held before, over any number of runs and in whatever order the processes write. Averages times counts are the times, percentages are the shares of the total and sum up to 100.", "quantifier": "all sequences of timers in ms with ordinary names (not empty, no bar or line end, not containing ' took '), ranks, durations, time stamps, earlier files, orders of the log lines; the shares for every file", "why_tests_cant": "a regular expression reads back formatted text; that it inverts the formatting for every name, rank and duration is a statement about all texts.", "anchors": ["src/lambdapic/core/utils/timer.py: Timer", "src/lambdapic/core/utils/logger.py: configure_logger", "src/lambdapic/cli/stat.py: parse_log_file, calculate_percentages", "src/lambdapic/cli/main.py: timer_stat"]}
{"id": "C106", "title": "Every timer of a run shows up in its own statistics", "statement": "Every named or unnamed timer, in any unit and with any name, is counted once under its name in the statistics of the log file of its own simulation and in no other; the printed number of events is the number of events.", "quantifier": "all timers, names, units, sequences of simulations in one process and log files", "why_tests_cant": "the failures need unusual names, other units, several simulations in one process or old files.", "anchors": ["src/lambdapic/core/utils/timer.py: Timer, set_timer_enabled", "src/lambdapic/core/utils/logger.py: configure_logger", "src/lambdapic/cli/stat.py: parse_log_file", "src/lambdapic/cli/main.py: timer_stat"]}
{"id": "C107", "title": "Progress reports are regular and end with the last step", "statement": "Away from a terminal, process 0 reports strictly increasing step counts at most min(100, total//10) steps (at least one) apart, and the last report of a run that ends or is stopped is the number of steps done; percentages given to SLURM lie between 0 and 100 and the last one is exact; other processes report nothing; after an exception the last report is less than one interval behind.", "quantifier": "all positive totals, start steps, numbers of steps and clock readings", "why_tests_cant": "reports depend on the clock and on the step at which the run was resumed or stopped.", "anchors": ["src/lambdapic/core/utils/progress_bar.py: ProgressBar", "src/lambdapic/simulation/simulation.py: Simulation.run"]}
{"id": "C108", "title": "Progress reports work for every run", "statement": "Creating and closing the progress report never fails and never shows more than 100 percent, for every number of steps and every current step; all steps done are reported even if a step fails.", "quantifier": "all totals including zero, all start steps, with and without SLURM, runs that end with an exception", "why_tests_cant": "tests do not run in SLURM jobs and use positive numbers of steps.", "anchors": ["src/lambdapic/core/utils/progress_bar.py: ProgressBar.close, ProgressBar._log_progress", "src/lambdapic/simulation/simulation.py: Simulation.run, Simulation._handle_nsteps"]}
{"id": "C109", "title": "3D runs with open sides and absorbing layers do not depend on the decomposition", "statement": "A complete 3D simulation whose axes are periodic or open, with absorbing (CPML) layers inside the open sides, gives after any number of steps the same electric and magnetic field, the same current and charge density, the same memory of the layers and the same particles however the domain is cut into patches, distributed over processes and scheduled. After every step no particle is inside a layer; a particle that was further than one cell from the layers is still there after the step; none is ever doubled or new, and identity and weight never change. Every step can be carried out from every such state.", "quantifier": "all pairs of decompositions of one 3D domain whose patches are wider than the layer, with at least two patches along every open axis and at least 3 guard cells; every combination of periodic and open axes; layer coefficients, distributions over processes that may change every step, thread and message schedules, sort orders, species pushed by the fused kernel, initial fields, particles and numbers of steps; time steps with c dt at most one cell; exact arithmetic", "why_tests_cant": "six layers with per-patch memory, 26 neighbours and leaving particles interact; that no cut shows for any field, particle and number of steps cannot be sampled.", "anchors": ["src/lambdapic/simulation/simulation.py: Simulation3D, Simulation.run", "src/lambdapic/core/boundary/cpml.py: PML, PMLXmin, PMLXmax, PMLYmin, PMLYmax, PMLZmin, PMLZmax", "src/lambdapic/core/maxwell/solver/solver.py: MaxwellSolver3D", "src/lambdapic/core/patch/sync_particles_3d.c: mark_out_of_bound_as_dead", "src/lambdapic/core/patch/patch.py: Patch3D"]}
{"id": "C110", "title": "Gauss' law with open sides: the violation never changes away from the absorbing layers", "statement": "In a complete 2D simulation with periodic or open sides and absorbing layers, at every cell two or more cells away from the layers div E - rho/eps0 (with the electric field the particles feel and the charge density the step leaves in the arrays) is after any number of steps what it was at the start, even though particles keep leaving through the layers; a start without charge density, current and electric field obeys Gauss' law for ever there. The stored charge density is the one of the particles half a step ahead. div B never changes outside the layers. Beside the layers a step adds to the violation exactly the charge density of the particles it absorbs, each of which is inside a layer when it is taken out.", "quantifier": "all 2D domains with any mixture of periodic and open axes and patches wider than the layer, at least 3 guard cells; all layer coefficients, distributions over processes that may change every step, schedules, sort orders, species and pushers, initial fields, particles and numbers of steps; c dt at most one cell; exact arithmetic", "why_tests_cant": "a violation may only show for a particular particle path across a patch corner or an open side after many steps; tests sample a few.", "anchors": ["src/lambdapic/simulation/simulation.py: Simulation.run", "src/lambdapic/core/boundary/cpml.py: PML", "src/lambdapic/core/maxwell/solver/solver.py: MaxwellSolver2D", "src/lambdapic/core/current/cpu2d.c", "src/lambdapic/core/patch/sync_particles_2d.c: mark_out_of_bound_as_dead"]}
{"id": "C111", "title": "Gauss' law right next to an absorbing layer", "statement": "In a 2D simulation with open sides, div E - rho/eps0 never changes in any cell outside the absorbing layers.", "quantifier": "all cells outside the layers, whose neighbours that enter div E are outside as well; otherwise as C110", "why_tests_cant": "it depends on particles that vanish at the edge of a layer; tests with empty layers do not see it.", "anchors": ["src/lambdapic/core/patch/sync_particles_2d.c: mark_out_of_bound_as_dead", "src/lambdapic/core/boundary/cpml.py: PML"]}
{"id": "C112", "title": "Gauss' law and div B over whole 3D runs with open sides", "statement": "In a 3D simulation whose axes are periodic or open with absorbing layers, at every cell at least two cells away from the layers, div E - rho/eps0 keeps its initial value for ever, whichever particles leave the domain; rho is the charge density stored by the step and E the field that acts on the particles in the next one. A start without charge, current and electric field obeys Gauss' law there exactly at every later step. Outside the layers div B keeps its initial value. Nearer to the layers each step changes the violation by exactly the charge density of the particles it absorbs.", "quantifier": "all 3D domains with periodic or open axes (patches wider than the layer, at least two along every open axis, at least 3 guard cells), layer coefficients, distributions over processes, schedules, species pushed by the fused kernel, particles, fields and numbers of steps; time steps with c dt at most one cell; exact arithmetic", "why_tests_cant": "the identity couples the deposition kernel, the exchange of currents, the stretched field update and the removal of particles in three dimensions over arbitrarily many steps.", "anchors": ["src/lambdapic/simulation/simulation.py: Simulation3D, Simulation.run", "src/lambdapic/core/current/cpu3d.c: current_deposit_3d", "src/lambdapic/core/pusher/unified/unified_pusher_3d.c: unified_boris_pusher_cpu_3d", "src/lambdapic/core/boundary/cpml.py: PML", "src/lambdapic/core/patch/sync_particles_3d.c: mark_out_of_bound_as_dead"]}
{"id": "C113", "title": "The energy of the fields changes only by the work of the current", "statement": "In every complete time step of a periodic 2D simulation the energy of the electric and magnetic field (with the correction of second order in dt that belongs to the leap-frog scheme) changes by exactly minus dt times the sum over all cells of the stored current density times the stored electric field; without particles it never changes, and the sum of E^2 + c^2 (1 - dt_cfl^2) B^2 over the cells never exceeds the sum of E^2 + c^2 B^2 at the start, however many steps are made.", "quantifier": "all decompositions into patches with at least 3 guard cells, distributions over processes that may change every step, thread and message schedules, sort orders, species, particles, initial fields and numbers of steps, time steps with c dt at most one cell; exact arithmetic", "why_tests_cant": "energy is never computed by the code; that nothing but the current changes it needs the two half updates, the two magnetic half steps and the guard cells of every patch to fit together for every field; tests watch one wave for some periods with a tolerance.", "anchors": ["src/lambdapic/simulation/simulation.py: Simulation.run", "src/lambdapic/core/maxwell/solver/solver.py: MaxwellSolver2D", "src/lambdapic/core/maxwell/cpu.py: update_efield_2d, update_bfield_2d"]}
{"id": "C114", "title": "Every accepted dt_cfl keeps the fields of an empty box bounded", "statement": "For every dt_cfl the configuration accepts (0 < dt_cfl <= 1) the fields of a periodic 2D simulation without particles stay below a bound fixed by the initial fields, for any number of steps. Holds below 1; at dt_cfl = 1 a field that alternates from cell to cell drives a magnetic field that grows without end.", "quantifier": "all accepted values of dt_cfl, decompositions, initial fields and numbers of steps; exact arithmetic", "why_tests_cant": "stability is a statement about every field and an unbounded number of steps; tests run smooth waves with the default dt_cfl = 0.95.", "anchors": ["src/lambdapic/simulation/simulation.py: SimulationConfig.dt_cfl, Simulation (dt)", "src/lambdapic/core/maxwell/solver/solver.py: MaxwellSolver2D"]}
{"id": "C115", "title": "Energy and stability of the fields in 3D runs", "statement": "In every complete time step of a periodic 3D simulation the energy of the fields changes by exactly minus dt times the sum of current density times electric field; without particles it never changes; for time steps below the Courant limit every component of the fields stays below a bound fixed by the start in every cell, however many steps are made.", "quantifier": "all decompositions into patches with at least 3 guard cells, distributions over processes that may change every step, thread and message schedules, sort orders, species pushed by the fused kernel, particles, initial fields and numbers of steps; exact arithmetic", "why_tests_cant": "the statement is about every field and an unbounded number of steps of all patches together; tests watch single waves with a tolerance.", "anchors": ["src/lambdapic/simulation/simulation.py: Simulation3D, Simulation.run", "src/lambdapic/core/maxwell/solver/solver.py: MaxwellSolver3D", "src/lambdapic/core/maxwell/cpu.py: update_efield_3d, update_bfield_3d"]}
{"id": "C116", "title": "Gauss' law in runs with collisions and QED events", "statement": "In a periodic 2D simulation with binary collisions, photon emission with recoil and pair creation the electric field keeps agreeing with the charges. Only partly true: per step, the difference between div E and rho/eps0 changes in every cell by exactly the charge (half a step ahead) that changing momenta in place and creating pairs shift there; these shifts add up to zero over the domain, the total charge and div B never change; but single cells do drift: two electrons scattering elastically, one electron emitting a photon, and one photon turning into a pair of unequal energies each break Gauss' law.", "quantifier": "all decompositions into patches with at least 3 guard cells, distributions over processes that may change every step, schedules, sort orders, species, particles, fields, numbers of steps, outcomes of collisions, sequences of emissions and pair creations with any energy fractions; exact arithmetic", "why_tests_cant": "the law must hold for every random outcome; tests of collisions and of the QED modules run without the field solver or compare spectra, and never evaluate div E.", "anchors": ["src/lambdapic/simulation/simulation.py: Simulation.run", "src/lambdapic/core/collision/cpu.py: collision_kernel", "src/lambdapic/core/qed/cpu.py: photon_recoil_patches", "src/lambdapic/core/qed/inline.py: create_pair_inline_2d", "src/lambdapic/core/qed/pair_production.py: NonlinearPairProductionLCFA.create_particles"]}
{"id": "C117", "title": "An accepted QED setup does what was asked for", "statement": "After any sequence of creating species, set_photon, set_bw_pair and add_species on any number of simulations, a simulation that initialises emits photons into the photon species given for each radiating species, and turns photons into the electron and positron species given, which carry charges -1 and +1; nothing asked for is left out. Proved when every species object is added once, the targets belong to the same simulation and electrons of pairs are plain Electron objects; none of the three is checked: two Positron species are accepted for a pair (net charge), a photon species also added to another simulation makes electrons emit into themselves, a photon species of another simulation makes them emit into protons. radiation=\"ll\", which the type declares, can never be initialised.", "quantifier": "all sequences of calls, classes of species, numbers of species and simulations in a process", "why_tests_cant": "tests build one simulation with the usual species; which index a target has depends on the whole history of add_species calls of the process.", "anchors": ["src/lambdapic/core/species.py: Electron.set_photon, Photon.set_bw_pair, Positron", "src/lambdapic/simulation/simulation.py: Simulation.add_species, Simulation._init_qed", "src/lambdapic/core/qed/radiation.py: NonlinearComptonLCFA.__init__", "src/lambdapic/core/qed/pair_production.py: NonlinearPairProductionLCFA.__init__"]}
{"id": "C118", "title": "Lasers leave Gauss' law and the divergence of B in the domain alone", "statement": "In a 2D run with absorbing layers and any number of lasers, whatever their pulses, the violation of Gauss' law two or more cells away from the layers is after any number of steps what it was at the start, also for the electric field the particles feel and the stored charge density; to the right of the plane in which the lasers inject, div B keeps its value; next to the layers a step adds exactly the charge of the particles it absorbs.", "quantifier": "all decompositions, numbers of processes, schedules of the exchanges, lasers and times, fields, particles and numbers of steps", "why_tests_cant": "tests inject one pulse into an empty box and look at its shape; Gauss' law has to survive the injection at every step, in every cell, next to every patch boundary and with every plasma.", "anchors": ["src/lambdapic/simulation/simulation.py: Simulation.run", "src/lambdapic/callback/laser.py: Laser.__call__, _update_laser_bfields_2d", "src/lambdapic/core/maxwell/solver/solver.py: MaxwellSolver2D", "src/lambdapic/core/current/cpu2d.c"]}
{"id": "C119", "title": "A laser injects a divergence-free magnetic field", "statement": "In the plane in which a laser injects, div B is zero in every cell if it was zero before the laser was switched on. Refuted: the injected By follows the requested field of each row while Bx in the same column is copied from the left edge of the patch, so a beam whose field varies across the beam leaves div B different from zero in the column of the injection (C118 says that it stays there).", "quantifier": "all lasers, fields and cells of the column in which the laser injects", "why_tests_cant": "the violation depends on how the requested field varies along the column; a test of the transmitted pulse does not see it.", "anchors": ["src/lambdapic/callback/laser.py: _update_laser_bfields_2d"]}
{"id": "C120", "title": "Switching species, pushers, interpolator and depositor on and off keeps Gauss' law", "statement": "In a 2D periodic run species, their pushers, the field interpolator and the current depositor may be enabled and disabled from step to step in any way. As long as, for a species that is enabled and pushed in stages, pusher and depositor are on or off together, the violation of Gauss' law over all particles (also those of disabled species) is in every cell what it was at the start. div B is kept under all switches, a disabled species keeps its particles with all their attributes, the stored charge density is that of the species that deposited in the last step, and no setting of the switches makes a step fail.", "quantifier": "all decompositions, numbers of processes, schedules of the exchanges, lists of species, sequences of switch settings, fields and particles", "why_tests_cant": "the switches have exponentially many sequences, and a test looks at one species that is off in one short run; that its charge goes on balancing the field in every cell cannot be read off a few steps.", "anchors": ["src/lambdapic/core/utils/enable_mixin.py: EnableMixin, if_enabled", "src/lambdapic/simulation/simulation.py: Simulation.run", "src/lambdapic/core/pusher/pusher.py: PusherBase", "src/lambdapic/core/interpolation/field_interpolation.py: FieldInterpolation", "src/lambdapic/core/current/deposition.py: CurrentDeposition"]}
{"id": "C121", "title": "Each switch can be used alone", "statement": "Gauss' law is also kept when only the pusher or only the depositor of a species is disabled, and the stored charge density is that of all particles in the domain whatever is disabled. Refuted: with the pusher off and the depositor on the particles stand still but their currents are deposited; with the depositor off and the pusher on they move without a current; and the particles of a disabled species are missing from the stored charge density.", "quantifier": "all switch settings, fields and particles", "why_tests_cant": "the field error is a static charge left behind in a few cells, which a test of particle positions or field energies does not see.", "anchors": ["src/lambdapic/core/utils/enable_mixin.py: EnableMixin, if_enabled", "src/lambdapic/simulation/simulation.py: Simulation.run", "src/lambdapic/core/pusher/pusher.py: PusherBase", "src/lambdapic/core/current/deposition.py: CurrentDeposition"]}
{"id": "C122", "title": "A run depends on its particles only through the charge they put at each point of phase space", "statement": "Two 2D periodic simulations of the same domain that start with the same fields and the same charge at every point of phase space (place, momentum, 1/gamma and charge-to-mass ratio) have the same E, B, J and rho in every cell and the same charge at every point of phase space after any number of steps. It does not matter how the charge is divided over macro-particles (a particle may be split into several whose weights add up), over species (order, several species of the same charge and mass, or c times the charge and mass with 1/c of the weight), over patches and over processes. A species without charge or weight (test particles) changes neither the fields nor the other species.", "quantifier": "all pairs of decompositions, numbers of processes, schedules of the exchanges, pusher kinds, species lists of any lengths, numbers of steps, fields and particles", "why_tests_cant": "the statement compares all pairs of representations of one plasma; a test compares one pair, and with random initial positions two representations can only be compared statistically.", "anchors": ["src/lambdapic/simulation/simulation.py: Simulation.run", "src/lambdapic/core/current/cpu2d.c: current_deposition_cpu_2d", "src/lambdapic/core/pusher/unified/unified_pusher_2d.c", "src/lambdapic/core/pusher/cpu.py: boris_push_patches", "src/lambdapic/core/species.py: Species"]}
{"id": "C123", "title": "The image of a run under a shift, a reflection, an exchange of axes or a reversal of charges is the run of the image", "statement": "In 2D periodic simulations no place, direction, axis or sign of charge is preferred: if one simulation starts from the image of the other's fields, currents and particles under a shift by whole cells, a reversal of x, y or z, an exchange of x and y, a reversal of all charges, or any combination of these, then after any number of steps it holds the image of the other's fields (each component taken from its staggered place, E and J turned as vectors, B as an axial vector), currents, charge density and particles, however either domain is cut into patches. Hence a start that is its own image stays so: what does not vary along y never does; if nothing moves along z and Ez, Bx and By vanish, then Ez, Bx, By and jz stay zero; two species of opposite charge, equal mass and the same particles never produce fields.", "quantifier": "all combinations of the symmetries, all decompositions of either domain, numbers of processes, schedules, pusher kinds, species, numbers of steps, fields and particles", "why_tests_cant": "a wrong sign or index in one branch of one component (a shape factor, a staggered index, a wrap) breaks a symmetry only for particles at particular places; a test runs a few particles through one symmetry.", "anchors": ["src/lambdapic/simulation/simulation.py: Simulation.run", "src/lambdapic/core/current/cpu2d.c: current_deposition_cpu_2d", "src/lambdapic/core/interpolation/cpu2d.c", "src/lambdapic/core/pusher/unified/unified_pusher_2d.c", "src/lambdapic/core/pusher/cpu.py: boris_push_patches", "src/lambdapic/core/maxwell/cpu.py"]}
{"id": "C124", "title": "Generated QED tables describe the given spectra at the places the lookups assume", "statement": "The tables written by the generator are the ones the lookups expect: the stored grid numbers describe the chi and the fractions at which the spectra were taken; row i belongs to the i-th chi, its total rate is the integral of that spectrum, and its distribution starts with the integral below the smallest fraction and grows, without ever falling, by one rectangle per fraction. The rate looked up at a tabulated chi is the integral itself. A fraction drawn from a generated table always lies above the smallest tabulated one and below the last but one, so an emitted photon never takes all of the electron's energy. For a spectrum that falls with the fraction no entry exceeds the total rate. The same holds for the second (sigmoid) tables, on their own grid.", "quantifier": "all spectra that are positive between 0 and 1, all numbers of chi (two or more) and of fractions (three or more where fractions are drawn), all ranges, random numbers and chi within the table", "why_tests_cant": "the generator and the lookups are two programs that only share a file; tests use the one shipped table and check a few chi, while an offset of one row or column changes rates by fractions of a percent.", "anchors": ["src/lambdapic/core/qed/optical_depth_tables.py: table_gen, integral_photon_prob_along_delta, integral_pair_prob_along_delta, _bisect_interp", "src/lambdapic/core/qed/optical_depth_tables_sigmoid.py: table_gen", "setup.py: _generate_qed_tables"]}
{"id": "C125", "title": "Every table the generator writes can be sampled", "statement": "Whatever numbers of chi and fractions the generator accepts, a lookup of a fraction in the table it writes returns for every chi within the table.", "quantifier": "all accepted sizes and ranges of the tables, all chi and random numbers", "why_tests_cant": "tests use the default sizes only.", "anchors": ["src/lambdapic/core/qed/optical_depth_tables.py: table_gen, _bisect_interp"]}
{"id": "C126", "title": "The number of guard cells does not influence the results", "statement": "Every number of guard cells that the constructor accepts gives the same fields, currents, charge density and particles: guard cells are a matter of storage only.", "quantifier": "all accepted numbers of guard cells not larger than a patch, all decompositions, states and numbers of steps", "why_tests_cant": "tests run with the default of three; with fewer only particles that cross the edge of a patch nearly at the speed of light go wrong.", "anchors": ["src/lambdapic/simulation/simulation.py: SimulationConfig.n_guard", "src/lambdapic/core/current/cpu2d.c: current_deposit_2d", "src/lambdapic/core/patch/sync_fields2d.c: sync_currents_2d"]}
{"id": "C127", "title": "Information travels at most eight cells per time step", "statement": "What a cell and the particles around it hold after k time steps depends only on what was within 8 k cells, counted along x and y and periodically, at the start: two runs that agree in a region agree after k steps on everything deeper than 8 k cells inside it, whatever differs outside, and where nothing was within that distance no field, current or particle appears.", "quantifier": "all periodic 2D domains, all pairs of decompositions of it, all regions, all consistent starting states and all numbers of steps", "why_tests_cant": "a disturbance leaking across a patch border by a wrong index is seen only when it is compared with a run without the disturbance, for every place and every layout.", "anchors": ["src/lambdapic/simulation/simulation.py: Simulation.run", "src/lambdapic/core/maxwell/cpu.py: update_efield_2d", "src/lambdapic/core/current/cpu2d.c: current_deposit_2d", "src/lambdapic/core/patch/sync_fields2d.c: sync_guard_fields_2d"]}
{"id": "C128", "title": "Deposition and interpolation only touch valid memory", "statement": "Every write of the current and charge deposition and every read of the field interpolation stays inside the arrays of the patch, for every accepted number of guard cells: the 2D kernels and the fused 3D kernel wherever the particles are, the staged 3D kernel and the interpolations for particles in their patch or within half a step of it. The local buffers of five entries are never exceeded by particles that move at most a cell per step.", "quantifier": "all grids, guard widths, particle lists, positions, velocities, charges and time steps", "why_tests_cant": "an index one past the end of a C array usually changes nothing visible; only particles at particular places next to the edge of a patch produce it.", "anchors": ["src/lambdapic/core/current/current_deposit.h: current_deposit_2d, current_deposit_2d_fast, current_deposit_3d_fast", "src/lambdapic/core/current/cpu3d.c: current_deposit_3d", "src/lambdapic/core/utils/cutils.h: INDEX2, INDEX3", "src/lambdapic/core/interpolation/cpu2d.c: interp_field", "src/lambdapic/core/interpolation/cpu3d.c: interp_field"]}
{"id": "C129", "title": "Outputs of different steps, kinds and species never overwrite each other", "statement": "Fields, species densities, particles, plots and checkpoints of any steps written to one directory go to different files, unless a species is called like another one followed by _particles, so every output can be read back after the run.", "quantifier": "all sequences of outputs, all step numbers of any number of digits, all species names without that suffix relation, all previous contents of the directory", "why_tests_cant": "tests write a few files with small step numbers and one species name; a clash needs particular names or a step number with more digits than the padding.", "anchors": ["src/lambdapic/callback/hdf5.py: SaveFieldsToHDF5._call, SaveSpeciesDensityToHDF5._call, SaveParticlesToHDF5._call", "src/lambdapic/callback/plot.py: PlotFields._call", "src/lambdapic/callback/restart.py: RestartDump"]}
{"id": "C130", "title": "No output is lost for any species names and any set of callbacks", "statement": "Whatever the species are called and however many callbacks write into one directory, each output can be read back after the run.", "quantifier": "all sequences of outputs with all species names accepted by Species", "why_tests_cant": "the clash needs a pair of names that no test uses, or two callbacks of one kind with the same prefix; the file is then valid but holds other data.", "anchors": ["src/lambdapic/callback/hdf5.py: SaveFieldsToHDF5._call, SaveSpeciesDensityToHDF5._call, SaveParticlesToHDF5._call", "src/lambdapic/callback/plot.py: PlotFields._call", "src/lambdapic/callback/restart.py: RestartDump"]}
{"id": "C131", "title": "The load of a patch counts its particles", "statement": "The load the balancer distributes is, for every patch, the number of particles the patch holds after the exchange plus half its number of cells.", "quantifier": "all particles, geometries and layouts in 2D and 3D, every order of index writes and every interleaving of the copying threads", "why_tests_cant": "The count is taken before the particles move, so it is right in every test in which nobody crosses a side, and wrong by the number of particles that leave; the error depends on the motion and is largest where particles stream.", "anchors": ["src/lambdapic/core/patch/sync_particles_2d.c:get_npart_to_extend_2d", "src/lambdapic/core/patch/sync_particles_3d.c:get_npart_to_extend_3d", "src/lambdapic/core/patch/patch.py:Patches.sync_particles", "src/lambdapic/core/mpi/load_balancer.py:LoadBalancer._default_load_function"]}
{"id": "C132", "title": "Plots show the fields asked for and leave the plotting library as it was", "statement": "Each plot of drawable fields succeeds and shows, over every cell of the domain, the scaled value of that cell, one overlay per configuration; only process 0 writes; the colour maps known to the plotting library are the same before and after.", "quantifier": "all sequences of plot calls on all processes, all field values, sizes, scales and configurations with two-dimensional data and known colour maps", "why_tests_cant": "image comparison tests look at a few symmetric fields; a transposed, mirrored or shifted image and colour maps left behind show only for particular fields and for the next call.", "anchors": ["src/lambdapic/callback/plot.py: PlotFields._call, register_cmaps, unregister_cmaps", "src/lambdapic/cli/auto_reload.py: AutoReload.run"]}
{"id": "C133", "title": "A failed plot does not affect later plots", "statement": "If a plot raises an exception, later correct plots in the same interpreter (after automatic reloading, or in an interactive session) succeed, and plots of every simulation the callback accepts succeed.", "quantifier": "all plot calls that fail while drawing, all later calls with any configurations", "why_tests_cant": "each test starts with a fresh interpreter or a fresh registry; the failure needs an exception in one run and a second run in the same process.", "anchors": ["src/lambdapic/callback/plot.py: PlotFields._call, register_cmaps, unregister_cmaps", "src/lambdapic/cli/auto_reload.py: AutoReload.run"]}
{"id": "C134", "title": "Information travels at most eight cells per time step in 3D", "statement": "In a periodic 3D run with the fused pusher, what a cell and the particles around it hold after k time steps depends only on what was within 8 k cells, counted along x, y and z and periodically, at the start: two runs that agree in a region agree after k steps on everything deeper than 8 k cells inside it, whatever differs outside, and where nothing was within that distance no field, current or particle appears.", "quantifier": "all periodic 3D domains, all pairs of decompositions of it, all regions, all consistent starting states and all numbers of steps", "why_tests_cant": "a disturbance leaking across one of the faces, edges or corners of a patch by a wrong index is seen only when it is compared with a run without the disturbance, for every place and every layout.", "anchors": ["src/lambdapic/simulation/simulation.py: Simulation3D", "src/lambdapic/core/maxwell/cpu.py: update_efield_3d", "src/lambdapic/core/pusher/unified/unified_pusher_3d.c", "src/lambdapic/core/patch/sync_fields3d.c"]}
{"id": "C135", "title": "A 3D run depends on its particles only through the charge they put at each point of phase space", "statement": "Two 3D periodic simulations of the same domain with fused pushers that start with the same fields and the same charge at every point of phase space (place, momentum, 1/gamma and charge-to-mass ratio) have the same E, B, J and rho in every cell and the same charge at every point of phase space after any number of steps, however the charge is divided over macro-particles, species, patches and processes. A species without charge or weight changes nothing else.", "quantifier": "all pairs of decompositions, numbers of processes, schedules of the exchanges, species lists of any lengths, numbers of steps, fields and particles", "why_tests_cant": "the statement compares all pairs of representations of one plasma; a test compares one pair, and with random initial positions two representations can only be compared statistically.", "anchors": ["src/lambdapic/simulation/simulation.py: Simulation3D", "src/lambdapic/core/pusher/unified/unified_pusher_3d.c", "src/lambdapic/core/species.py: Species"]}
{"id": "C136", "title": "In 3D the image of a run under a shift, a reflection or a reversal of charges is the run of the image", "statement": "In 3D periodic simulations with fused pushers: if one simulation starts from the image of the other's fields, currents and particles under a shift by whole cells along x, y and z, a reversal of x, y or z, a reversal of all charges, or any combination of these, then after any number of steps it holds the image of the other's fields (each component taken from its staggered place, E and J turned as vectors, B as an axial vector), currents, charge density and particles, however either domain is cut into patches. Hence a start that is its own image stays so: what does not vary along z never does, and if it also equals its mirror image in z then Ez, Bx, By and jz stay zero; two species of opposite charge, equal mass and the same particles never produce fields.", "quantifier": "all combinations of these symmetries, all decompositions of either domain, numbers of processes, schedules of the exchanges, species, numbers of steps, fields and particles", "why_tests_cant": "a wrong sign or index in one branch of one of the 3D kernels breaks a symmetry only for particles at particular places; a test runs a few particles through one symmetry.", "anchors": ["src/lambdapic/simulation/simulation.py: Simulation3D", "src/lambdapic/core/pusher/unified/unified_pusher_3d.c", "src/lambdapic/core/current/cpu3d.c: current_deposition_cpu_3d", "src/lambdapic/core/interpolation/cpu3d.c", "src/lambdapic/core/maxwell/cpu.py"]}
{"id": "C137", "title": "No random number is used twice, and a seeded run without QED draws the same numbers each time", "statement": "Whatever is done with random numbers in a run (initial particles, particles of new patches of a moving window, thermal momenta, collisions, QED events), in whatever order, with whatever numbers of processes, patches, threads and values, and across load balancing and resumption from checkpoints, no value of any random stream is drawn by two different patches, species, threads, processes or steps. With random_seed given and no QED module, starting the same run again draws exactly the same numbers.", "quantifier": "all histories of all processes, all seeds including none, all numbers of processes, threads and patches, all numbers of values drawn, all later resumptions", "why_tests_cant": "correlated random numbers do not show in any single result; a test would have to compare all pairs of streams of all histories.", "anchors": ["src/lambdapic/simulation/simulation.py: Simulation._init_random_generator, _init_collision, update_patches", "src/lambdapic/core/patch/patch.py: Patches.fill_particles", "src/lambdapic/core/collision/collision.py: Collision.generate_field_lists, Collision.__setstate__", "src/lambdapic/callback/utils.py: SetTemperature, MovingWindow", "src/lambdapic/core/qed/optical_depth.py"]}
{"id": "C138", "title": "The random seed determines the random numbers of a run", "statement": "With random_seed given, the numbers a patch draws do not depend on the number of processes, on when the program is started, or on whether the run was interrupted and resumed from a checkpoint.", "quantifier": "all seeds, numbers of processes, modules and checkpoints", "why_tests_cant": "test runs use one number of processes and compare resumed runs without collisions and QED.", "anchors": ["src/lambdapic/simulation/simulation.py: Simulation._init_random_generator, SimulationConfig.random_seed", "src/lambdapic/core/collision/collision.py: Collision.__setstate__", "src/lambdapic/core/qed/optical_depth.py", "src/lambdapic/callback/restart.py: RestartDump.load"]}
{"id": "C139", "title": "Thermal momenta carry the energies that were drawn", "statement": "Setting an isotropic temperature gives every particle one Lorentz factor, never below 1, and a momentum whose Lorentz factor is exactly the drawn one, so that the stored inverse Lorentz factor is its inverse. The rejection loop ends once enough proposals have been accepted, and above kT = 0.01 mc^2 its condition of acceptance is the one that yields the Maxwell-Juettner distribution (below its upper end, see C140); at lower temperatures what is drawn has a density that differs from it by the factor (1+x) sqrt(1+x/2) for the kinetic energy x mc^2.", "quantifier": "all temperatures, numbers of particles, random numbers, numbers of rounds of the rejection loop and directions", "why_tests_cant": "tests draw a few thousand values at a few temperatures; how many rounds the loop takes and where accepted values land depends on the random numbers.", "anchors": ["src/lambdapic/callback/utils.py: SetTemperature.sample_maxwell_juttner, SetTemperature.maxwell_juttner_pdf, SetTemperature._call"]}
{"id": "C140", "title": "A thermal particle can have any energy", "statement": "At every temperature every kinetic energy above zero can be drawn. Refuted for 0.01 < kT/mc^2 <= 0.5, where no particle ever gets a kinetic energy of 10 kT or more; true at lower and higher temperatures.", "quantifier": "all temperatures, energies, numbers of particles and random numbers", "why_tests_cant": "the missing tail has a weight of about 1e-3 or less: it is invisible in a histogram and never drawn.", "anchors": ["src/lambdapic/callback/utils.py: SetTemperature.sample_maxwell_juttner"]}
{"id": "C141", "title": "A particle output holds the columns that were asked for", "statement": "A particle output given a list of different attributes of the particles writes exactly one dataset for each of them and one with the identifiers, whether the identifiers are in the list or not, at every output; callbacks that share a list object write the same datasets. Without a list all attributes are written, and the particles keep theirs.", "quantifier": "all lists of attributes, attributes of the particles, numbers of outputs and callbacks sharing a list", "why_tests_cant": "the callback changes the list it was given, so the result depends on what else uses the list; tests use one fixed list each.", "anchors": ["src/lambdapic/callback/hdf5.py: SaveParticlesToHDF5.__init__, SaveParticlesToHDF5._call"]}
{"id": "C142", "title": "A particle output accepts any list of attributes and leaves it alone", "statement": "Any list of attributes of the particles, also with repetitions, can be given, and the list of the caller is not changed. Refuted: with any repeated name every output raises an error, and the list of the caller loses its entry for the identifiers.", "quantifier": "all lists of attributes", "why_tests_cant": "tests use a list literal without repetitions that nobody looks at afterwards.", "anchors": ["src/lambdapic/callback/hdf5.py: SaveParticlesToHDF5.__init__, SaveParticlesToHDF5._call"]}
{"id": "C143", "title": "The pairing iterators give the pairs of the generators they replace", "statement": "For every bucket of particles, every pattern of dead particles and every shuffle, the iterators used in the collision kernels give the same pairs, in the same order, with the same corrections of weight and time step, as the generators self_pairing and pairing they were written to reproduce.", "quantifier": "all bucket sizes, dead flags and shuffles, pairs of one species and of two", "why_tests_cant": "the two versions treat a search without result differently, so they agree only because every search succeeds, which depends on how dead particles are distributed over the shuffled slots.", "anchors": ["src/lambdapic/core/collision/cpu.py: self_pairing, pairing", "src/lambdapic/core/collision/utils.py: IntraPairingIterator, InterPairingIterator"]}
{"id": "C144", "title": "Inserting particles into dead slots loses no particle", "statement": "Inserting particles one after another into the dead slots of an array, each search starting where the last one ended, uses the first dead slots at or after the start; afterwards the live particles are those of before and the inserted ones, as many as there were dead slots; no live slot and no slot before the start is touched, and the array keeps its length.", "quantifier": "all arrays, patterns of dead slots, starts and lists of particles", "why_tests_cant": "the search looks at eight flags at a time and treats the end of the array separately; every alignment of dead slots with the blocks is another case.", "anchors": ["src/lambdapic/core/collision/utils.py: search_dead, insert_at"]}
{"id": "C145", "title": "Colliding species number their buckets alike", "statement": "In a simulation whose collision groups are registered before the initialisation, with more than one cell across each patch, the sorters of all species use the same numbering of buckets at every step, whatever the particles do, and the check of the collision module never fails. For sorters that have sorted before, the check passes exactly if their numbering is the same, and it stays the same.", "quantifier": "all patch sizes, species, particles and numbers of sorts", "why_tests_cant": "the numbering of a sorter is decided by the mean momentum at its first sort; with different numberings the collisions of two species silently do nothing.", "anchors": ["src/lambdapic/core/collision/collision.py: Collision._check_shared_bucket_ordering", "src/lambdapic/core/sort/particle_sort.py: ParticleSort2D._decide_reverse_x, ParticleSort2D.__call__", "src/lambdapic/simulation/simulation.py: Simulation._init_sorter, Simulation3D._init_sorter"]}
{"id": "C146", "title": "The collision module refuses species with different bucket numbering", "statement": "Whenever two colliding species number their buckets differently, an error is raised. Refuted: the check is made when the collision module is built; before the first sort it passes for all sorters, and with one bucket across (groups not registered before the initialisation, or patches of one cell across) two species drifting in opposite directions then number their buckets differently.", "quantifier": "all sorters, particles and times of the check", "why_tests_cant": "it depends on when the module is built relative to the first sort and on the drift of the species; nothing is reported.", "anchors": ["src/lambdapic/core/collision/collision.py: Collision._check_shared_bucket_ordering, Collision.generate_field_lists", "src/lambdapic/core/sort/particle_sort.py: ParticleSort2D._decide_reverse_x"]}
{"id": "C147", "title": "Asking whether a stage will run a callback gives the right answer", "statement": "has_triggered_callbacks answers yes for a stage exactly if running the stage now executes at least one callback; if it answers no, running the stage changes nothing. A stage that non_empty_stages does not list never does anything.", "quantifier": "all callbacks, intervals, states of the simulation and stages", "why_tests_cant": "the question is asked before the stage runs, and callbacks change the state on which the intervals of later callbacks of the stage depend.", "anchors": ["src/lambdapic/simulation/simulation.py: SimulationCallbacks.has_triggered_callbacks, SimulationCallbacks.non_empty_stages, SimulationCallbacks.run", "src/lambdapic/callback/callback.py: _interval_triggered, Callback.__call__, callback"]}
{"id": "C148", "title": "A simulation loaded from a checkpoint works on its own particles", "statement": "After RestartDump.load, every operation of the following steps (sorting, pushing, interpolation, deposition, collisions, radiation, pair production) reads and writes the arrays that the particle objects of the loaded simulation hold.", "quantifier": "all species, modules, patches, runs before the checkpoint and steps after it", "why_tests_cant": "the arrays in the lists have the same contents as the live ones when the checkpoint is loaded, so comparing the loaded state with the saved one shows nothing; which lists are refreshed depends on flags left by the run before.", "anchors": ["src/lambdapic/callback/restart.py: RestartDump.load", "src/lambdapic/core/utils/pickle_list.py: PickleableTypedList", "src/lambdapic/core/particles.py: ParticlesBase.__setstate__", "src/lambdapic/core/collision/collision.py: Collision.__setstate__", "src/lambdapic/simulation/simulation.py: Simulation.update_lists, Simulation.update_patches"]}
