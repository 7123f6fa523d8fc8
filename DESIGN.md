# Formal model of lambdapic in Rocq (Coq 8.16.1)

## 1. Approach

The code (Python, numba, C/OpenMP, MPI) is modelled by small, total, computable Gallina
functions that mirror the source functions branch by branch.  Loops become structural
recursion or folds, in-place mutation becomes returning the new value, exceptions become
`None` / error constructors.  Every definition carries a comment with the source file and
lines under `/repo` and names each simplification.

| files | contents |
|-------|----------|
| `M_*.v` | the model, no proofs |
| `S_*.v` | the small vocabulary used by theorem statements, independent of the model's helpers where possible |
| `P_*.v` | lemmas and proofs |
| `Properties_*.v` | only the final theorems, each closed by `exact`, with a concrete case (`Example ex_...`) beside it and `Print Assumptions` |

Theorem names start with the property id.  Where the faithful model violates a property the violation is
a theorem `..._refuted` with an explicit witness, together with the part of the property that does hold (`..._partial`).
When a property holds on its natural domain and fails only in corner cases, the corner cases are a property of their own
(for example C14 and C49, C38 and C65/C66), whose status is then "partial".

### Arithmetic

* Integers: `Z`/`nat`, unbounded.  Machine wrap-around is modelled only where the property is about it (particle identifiers).
* Floating-point rounding is *not* modelled: positions, weights, times and deposited quantities are exact rationals (`Q`,
  `Qc`); kernels with square roots, sines and exponentials are over the standard library's reals `R` (C27, C36, C61, C73, C87, C88, C139, C140) or
  take the function as an arbitrary parameter.
* The field solver and the exchange of guard cells and currents are over an arbitrary type of values with arbitrary
  operations; laws (commutative addition, field) are hypotheses only of the theorems that need them.  C07, C11 (guards) and C59
  need none, so they hold for IEEE numbers as well.
* NaN is modelled where the code branches on it (dead particles) or where it can leak out (C67).

### Concurrency

OpenMP loops are small-step interleavings of per-iteration threads whose steps are single loads and stores (exchange of
fields, currents and particles), or folds over an arbitrary permutation of the iterations where the iterations touch disjoint
memory.  MPI point-to-point messages are in-flight multisets matched by (source, tag), with arbitrary interleavings of the
processes; collective calls are per-process programs that advance together (C44, C62).

## 2. Trusted base

* Coq's kernel (8.16.1), the parser and printer, and `vm_compute`, used for witnesses.
* `Print Assumptions` is run on every final theorem during the build.  Result:
  * C27, C139, C140: `ClassicalDedekindReals.sig_not_dec`, `ClassicalDedekindReals.sig_forall_dec`,
    `FunctionalExtensionality.functional_extensionality_dep`;
  * C36, C61, C73, C87, C88: the same three and `Classical_Prop.classic` (through the sine, cosine and exponential of the library);
  * every other theorem: "Closed under the global context".
  All of these are axioms of Coq's standard library.  A scan of the loaded modules also shows the sealed constants
  `Rdefinitions.RbaseSymbolsImpl.*`, `Rdefinitions.RinvImpl.*` and `Coq.ssr.ssrunder.Under_rel.*`; they are module-sealed
  definitions of the standard library, not axioms added here.
* No axioms, parameters, functors, module types or plugins of our own; no kernel check is switched off.
* The reading of the source: the model is tied to the code by citation only, it is not extracted from it.
* Oracles (arbitrary functions or relations in the statements): the partition computed by METIS, random number streams,
  `argsort` ties, contents of uninitialised memory, density and particles-per-cell profiles, callbacks, signals, stop
  conditions, emission decisions of the QED modules, square roots where noted.

## 3. Properties, status and where they are proved

| id | title | status | theorems in |
|----|-------|--------|-------------|
| C01 | Sorting particles loses, duplicates and mixes nothing | proved | `Properties_Sort`, `Properties_Sort3D` |
| C02 | After sorting, each bucket's slice holds exactly that bucket's particles | proved | `Properties_Sort`, `Properties_Sort3D` |
| C03 | Sorting is stable work: only misplaced particles move and an ordered array is untouched | proved | `Properties_Sort`, `Properties_Sort3D` |
| C04 | Patch-to-patch particle exchange conserves particles | proved | `Properties_PartSync` |
| C05 | Exchange always has room | proved | `Properties_PartSync` |
| C06 | After the exchange every alive particle is inside its patch | proved | `Properties_PartSync` |
| C07 | Guard-cell exchange copies exactly the neighbour's edge cells | proved | `Properties_FieldSync` |
| C08 | Current exchange conserves every deposited contribution | proved | `Properties_FieldSync` |
| C09 | Synchronising currents from a callback never changes the result of the step | proved | `Properties_CurrentSync` |
| C10 | Inter-process messages match uniquely | proved | `Properties_FieldSync` |
| C11 | Results of an exchange do not depend on how patches are distributed over processes | proved | `Properties_FieldSync` |
| C12 | Neighbour tables are symmetric | partial | `Properties_Layout` |
| C13 | Particle identifiers stay unique | partial | `Properties_Store` |
| C14 | Growing and pruning particle storage keeps all alive particles | proved | `Properties_Store` |
| C15 | The space-filling-curve ordering visits every patch exactly once | proved | `Properties_Hilbert` |
| C16 | Relabelling partition parts preserves the partition | proved | `Properties_Balance` |
| C17 | Rebalancing neither loses nor duplicates patches | proved | `Properties_Balance` |
| C18 | Species names are made unique | proved | `Properties_Names` |
| C19 | Automatic patch counts divide the grid | proved | `Properties_AutoPatch` |
| C20 | Callbacks fire at exactly the steps their interval asks for | proved | `Properties_RunLoop` |
| C21 | Running in pieces equals running at once | proved | `Properties_RunLoop` |
| C22 | Resuming from a checkpoint continues the interrupted run | partial | `Properties_RunLoop` |
| C23 | Checkpoint retention keeps the most recent checkpoints | partial | `Properties_Checkpoint` |
| C24 | The fused pusher is a pure optimisation (2D) | proved | `Properties_Deposit`, `Properties_Push`, `Properties_RunLoop` |
| C25 | Deposited current and charge satisfy the discrete continuity equation | proved | `Properties_Deposit` |
| C26 | Interpolation is the spline mean at the Yee positions and its fast path is exact | proved | `Properties_Push` |
| C27 | The momentum push solves the discretised Lorentz equation and is reversible | proved | `Properties_Push` |
| C28 | Field update keeps div B and transports div E by the charge | proved | `Properties_Maxwell` |
| C29 | Sliced file output places every selected cell exactly once | proved | `Properties_Output` |
| C30 | User slices are interpreted as Python slices | proved | `Properties_Output` |
| C31 | Particle output contains every alive particle exactly once | proved | `Properties_Output` |
| C32 | Gathered fields do not depend on which process holds a patch | partial | `Properties_Output` |
| C33 | Collision pairing inside one species covers every particle | proved | `Properties_Collide` |
| C34 | Collision pairing between two species covers both sides with total weight one | proved | `Properties_Collide` |
| C35 | Each requested species pair collides once per step | proved | `Properties_Collide` |
| C36 | A binary collision conserves momentum and energy | proved | `Properties_Collision` |
| C37 | QED emission creates one particle per event and conserves momentum | proved | `Properties_Qed` |
| C38 | Moving the window recycles patches consistently | proved | `Properties_Window` |
| C39 | Loaded particles are all placed once | proved | `Properties_Load` |
| C40 | Initial filling matches its count | proved | `Properties_Fill` |
| C41 | Every patch side is handled once | partial | `Properties_Layout` |
| C42 | Collision density statistics describe the current step only | partial | `Properties_Collide` |
| C43 | Absorbing layers sit exactly on the open sides | proved | `Properties_Layout`, `Properties_PartSync` |
| C44 | All processes take part in the same collective calls | proved | `Properties_Collective` |
| C45 | Patches tile the domain | proved | `Properties_Layout` |
| C46 | The per-species density output equals that species' own charge density | proved | `Properties_CurrentSync` |
| C47 | A crash during a dump leaves a usable checkpoint | partial | `Properties_Checkpoint` |
| C48 | Every stage works on the live particle arrays | proved | `Properties_Lists` |
| C49 | Growing by nothing and pruning with any fraction lose nothing | partial | `Properties_Store` |
| C50 | The particle exchange does not depend on how patches are distributed over processes | proved | `Properties_PartSync` |
| C51 | The particle exchange only touches valid memory | partial | `Properties_PartSync` |
| C52 | Received currents are accumulated correctly by several threads | partial | `Properties_FieldSync` |
| C53 | Every accepted patch size gives a well-defined guard exchange | partial | `Properties_FieldSync` |
| C54 | A free species name is kept and repeated objects stay distinguishable | partial | `Properties_Names` |
| C55 | Automatic patches are wide enough in every axis and exist for every grid | partial | `Properties_AutoPatch` |
| C56 | Starting a current exchange from a callback is harmless | partial | `Properties_CurrentSync` |
| C57 | Species density output works for every enabled set | partial | `Properties_CurrentSync` |
| C58 | Relabelling moves as few patches as possible | partial | `Properties_Balance` |
| C59 | The fields do not depend on the division into patches | proved | `Properties_Maxwell` |
| C60 | The fused pusher is a pure optimisation (3D) | partial | `Properties_Deposit`, `Properties_Push` |
| C61 | Colliding particles are turned by the scattering angle | partial | `Properties_Collision` |
| C62 | Neither an empty process nor a signal stops the other processes | partial | `Properties_Collective` |
| C63 | Every stage works on live arrays also after a window shift | partial | `Properties_Lists` |
| C64 | A photon species may put electrons and positrons into one species | partial | `Properties_Qed` |
| C65 | A recycled patch starts without its old particles | partial | `Properties_Window` |
| C66 | Windows of any velocity follow it | partial | `Properties_Window` |
| C67 | Loaded particles are physically consistent | partial | `Properties_Load` |
| C68 | Loading depends only on the file and the target species | partial | `Properties_Load` |
| C69 | Setting momenta or temperatures keeps particles consistent | proved | `Properties_Load` |
| C70 | Anisotropic temperatures are the ones asked for | partial | `Properties_Load` |
| C71 | Initial particles follow every setting of the species | partial | `Properties_Fill` |
| C72 | Fields with absorbing boundaries do not depend on how the domain is cut into patches | proved | `Properties_Cpml` |
| C73 | What absorbing layers remember stays bounded | proved | `Properties_CpmlR` |
| C74 | Absorbing layers act only inside themselves | proved | `Properties_Cpml` |
| C75 | Each absorbing layer is updated with its own coefficients | partial | `Properties_Cpml` |
| C76 | A whole simulation gives the same result however the domain is cut into patches and distributed | proved | `Properties_Step` |
| C77 | Absorbing layers stretch exactly the derivatives across them | proved | `Properties_Cpml2` |
| C78 | Gauss' law, div B = 0 and the total charge hold over whole runs | proved | `Properties_Gauss` |
| C79 | A laser injects exactly the requested wave | proved | `Properties_Laser` |
| C80 | Laser injection does not depend on the decomposition or on the processes | proved | `Properties_Laser` |
| C81 | Adding lasers injects the sum of their fields | proved | `Properties_Laser` |
| C82 | A beam is centred at the coordinate given | partial | `Properties_Laser` |
| C83 | A laser acts exactly until its pulse is over | proved | `Properties_Laser` |
| C84 | Every accepted patch size carries the laser | partial | `Properties_Laser` |
| C85 | In a run, laser injection does not depend on the decomposition | partial | `Properties_Laser` |
| C86 | Lasers registered separately add up | partial | `Properties_Laser` |
| C87 | Laser profiles have the requested amplitude and polarisation | proved | `Properties_Profile` |
| C88 | An oblique pulse is delayed along the boundary | partial | `Properties_Profile` |
| C89 | Emission rates are interpolated from the table | proved | `Properties_QedTable` |
| C90 | Table lookups stay inside their tables | partial | `Properties_QedTable` |
| C91 | Emitted fractions follow the tabulated distribution | proved | `Properties_QedTable` |
| C92 | Sampling a fraction always returns | partial | `Properties_QedTable` |
| C93 | A particle emits when its optical depth is used up | proved | `Properties_QedTable` |
| C94 | Every emission threshold is met once and drawn for the particle | partial | `Properties_QedTable` |
| C95 | Chi is defined for every particle | proved | `Properties_QedTable` |
| C96 | Every enabled species is advanced by its own kernels once per step | proved | `Properties_Pushers` |
| C97 | Every documented pusher and every pusher state gives a consistent step | partial | `Properties_Pushers` |
| C98 | A whole 3D simulation gives the same result however the domain is cut into patches and distributed | proved | `Properties_Step3D` |
| C99 | Gauss' law, div B = 0 and the total charge hold over whole 3D runs | proved | `Properties_Gauss3D` |
| C100 | With automatic reloading the script as last saved is what runs | proved | `Properties_Reload` |
| C101 | Automatic reloading runs every script as a new interpreter would | partial | `Properties_Reload` |
| C102 | 2D runs with open sides and absorbing layers do not depend on the decomposition | proved | `Properties_StepO` |
| C103 | The extracted species density is complete and independent of the decomposition | proved | `Properties_Extract` |
| C104 | The extracted species density follows the requested slice | partial | `Properties_Extract` |
| C105 | The timer statistics of a run are complete | proved | `Properties_Timer` |
| C106 | Every timer of a run shows up in its own statistics | partial | `Properties_Timer` |
| C107 | Progress reports are regular and end with the last step | proved | `Properties_Progress` |
| C108 | Progress reports work for every run | partial | `Properties_Progress` |
| C109 | 3D runs with open sides and absorbing layers do not depend on the decomposition | proved | `Properties_StepO3D` |
| C110 | Gauss' law with open sides: the violation never changes away from the absorbing layers | proved | `Properties_GaussO` |
| C111 | Gauss' law right next to an absorbing layer | partial | `Properties_GaussO` |
| C112 | Gauss' law and div B over whole 3D runs with open sides | proved | `Properties_GaussO3D` |
| C113 | The energy of the fields changes only by the work of the current | proved | `Properties_Energy` |
| C114 | Every accepted dt_cfl keeps the fields of an empty box bounded | partial | `Properties_Energy` |
| C115 | Energy and stability of the fields in 3D runs | proved | `Properties_Energy3D` |
| C116 | Gauss' law in runs with collisions and QED events | partial | `Properties_StepR` |
| C117 | An accepted QED setup does what was asked for | partial | `Properties_QedSetup` |
| C118 | Lasers leave Gauss' law and the divergence of B in the domain alone | proved | `Properties_StepL` |
| C119 | A laser injects a divergence-free magnetic field | partial | `Properties_StepL` |
| C120 | Switching species, pushers, interpolator and depositor on and off keeps Gauss' law | proved | `Properties_StepW` |
| C121 | Each switch can be used alone | partial | `Properties_StepW` |
| C122 | A run depends on its particles only through the charge they put at each point of phase space | proved | `Properties_Cloud` |
| C123 | The image of a run under a shift, a reflection, an exchange of axes or a reversal of charges is the run of the image | proved | `Properties_Sym` |
| C124 | Generated QED tables describe the given spectra at the places the lookups assume | proved | `Properties_QedGen` |
| C125 | Every table the generator writes can be sampled | partial | `Properties_QedGen` |
| C126 | The number of guard cells does not influence the results | partial | `Properties_NGuard` |
| C127 | Information travels at most eight cells per time step | proved | `Properties_Causal` |
| C128 | Deposition and interpolation only touch valid memory | proved | `Properties_Bounds` |
| C129 | Outputs of different steps, kinds and species never overwrite each other | proved | `Properties_Files` |
| C130 | No output is lost for any species names and any set of callbacks | partial | `Properties_Files` |
| C131 | The load of a patch counts its particles | partial | `Properties_Weight` |
| C132 | Plots show the fields asked for and leave the plotting library as it was | proved | `Properties_Plot` |
| C133 | A failed plot does not affect later plots | partial | `Properties_Plot` |
| C134 | Information travels at most eight cells per time step in 3D | proved | `Properties_Causal3D` |
| C135 | A 3D run depends on its particles only through the charge they put at each point of phase space | proved | `Properties_Cloud3D` |
| C136 | In 3D the image of a run under a shift, a reflection or a reversal of charges is the run of the image | proved | `Properties_Sym3D` |
| C137 | No random number is used twice, and a seeded run without QED draws the same numbers each time | proved | `Properties_Random` |
| C138 | The random seed determines the random numbers of a run | partial | `Properties_Random` |
| C139 | Thermal momenta carry the energies that were drawn | proved | `Properties_Thermal` |
| C140 | A thermal particle can have any energy | partial | `Properties_Thermal` |
| C141 | A particle output holds the columns that were asked for | proved | `Properties_Columns` |
| C142 | A particle output accepts any list of attributes and leaves it alone | partial | `Properties_Columns` |
| C143 | The pairing iterators give the pairs of the generators they replace | proved | `Properties_PairGen` |
| C144 | Inserting particles into dead slots loses no particle | proved | `Properties_Insert` |
| C145 | Colliding species number their buckets alike | proved | `Properties_Order` |
| C146 | The collision module refuses species with different bucket numbering | partial | `Properties_Order` |
| C147 | Asking whether a stage will run a callback gives the right answer | proved | `Properties_Triggered` |
| C148 | A simulation loaded from a checkpoint works on its own particles | partial | `Properties_Resume` |

The notes in `MANIFEST.json` say what each status covers.

## 4. Findings

Behaviour of the pinned commit that violates a property one would expect.  Each is a theorem about the model; the witness is in
the theorem or in the proof file.

* **C12** Neighbour tables are symmetric.  Proved for every layout (rectangular 2D/3D, masked) whose axes have equal conditions at both ends; missing side iff open boundary for all conditions. Mixed conditions on one axis, which the configuration accepts, make the table one-sided: refuted with a witness. (`C12_mixed_conditions_refuted`)
* **C13** Particle identifiers stay unique.  Alive identifiers are distinct for every history without QED creation, and all slot identifiers for every history without migration. With both, QED creation reuses the identifier left in the slot of a migrated particle: refuted with a witness. (`C13_qed_reuse_refuted`)
* **C22** Resuming from a checkpoint continues the interrupted run.  Proved for signal-driven and interval-driven dumps below step 10^6 when unpickling restores the state and no later "end" callback changes the simulation. Refuted for state-changing "end" callbacks registered after RestartDump, for collision statistics (cleared on load), and for continuing the same object after a signal dump. That unpickling restores the state is a hypothesis; C148 shows where it fails. (`C22_callback_after_dump_refuted`, `C22_collision_statistics_refuted`, `C22_continuing_same_object_refuted`)
* **C23** Checkpoint retention keeps the most recent checkpoints.  Proved for steps below 10^6 (six digits) with dumps in increasing order, single dumps and whole histories, failing removals allowed. Refuted with witnesses for steps >= 10^6 (string order of names) and after resuming from an older checkpoint while newer directories exist. (`C23_resume_from_older_refuted`, `C23_seven_digit_steps_refuted`)
* **C32** Gathered fields do not depend on which process holds a patch.  2D (rectangular and masked) proved in full. 3D proved for patches held by the root; remote patches return a plane shifted by the guard width and positions between patches return zeros, both refuted with witnesses. (`C32_gather_3d_depends_on_rank_refuted`, `C32_gather_3d_gap_refuted`)
* **C41** Every patch side is handled once.  2D proved at start-up, rebalancing and window moves; 3D proved at start-up and rebalancing. 3D window moves on several processes: refuted with a witness. (`C41_3d_window_refuted`)
* **C42** Collision density statistics describe the current step only.  Refuted: the density accumulator is never cleared, so the screening limit depends on the number of steps. Proved for cells where the density limit is inactive. (`C42_density_grows_linearly_refuted`, `C42_density_history_refuted`)
* **C47** A crash during a dump leaves a usable checkpoint.  Proved for a dump of a new newest step: every crash state keeps the old checkpoints or has the complete new one. Refuted when a step is dumped twice (signal at an interval step) and when an incomplete newer directory is left over. (`C47_incomplete_newer_directory_refuted`, `C47_rewriting_same_step_refuted`)
* **C49** Growing by nothing and pruning with any fraction lose nothing.  n<=0 is a no-op for plain particles; QED extend(0) clears pending event flags and prune with a negative fraction drops alive particles: refuted with witnesses. (`C49_negative_buffer_refuted`, `C49_qed_extend_zero_refuted`)
* **C51** The particle exchange only touches valid memory.  Proved for axes with equal conditions at both ends. Refuted with a witness for an axis that is periodic at one end and open at the other (accepted by the configuration): a null index buffer is written. (`C51_mixed_conditions_refuted`)
* **C52** Received currents are accumulated correctly by several threads.  Refuted with a witness: += on received currents from several OpenMP threads (collapse(2) over patches and sides) loses an update in a corner cell. With one thread C11 applies. (`C52_threads_lose_current_refuted`)
* **C53** Every accepted patch size gives a well-defined guard exchange.  Refuted with a witness for a patch narrower than the guard width; for all wider patches the property is C07. (`C53_narrow_patches_refuted`)
* **C54** A free species name is kept and repeated objects stay distinguishable.  Refuted with witnesses: "e" becomes "e.2" when only "e.1" exists; the same object added twice. (`C54_free_name_not_kept_refuted`, `C54_same_object_twice_refuted`)
* **C55** Automatic patches are wide enough in every axis and exist for every grid.  Refuted with witnesses: the width test combines the axes with "or", so thin patches are chosen; prime sizes raise an index error. The weaker statement that holds is C19. (`C55_prime_size_refuted`, `C55_thin_patches_refuted`)
* **C56** Starting a current exchange from a callback is harmless.  Refuted with a witness on two processes: a bare sync_currents_start in a callback makes the final start a no-op and later deposits in guard cells are not exchanged. Holds otherwise (C09). (`C56_bare_start_refuted`)
* **C57** Species density output works for every enabled set.  Refuted: error when the preceding species is disabled, stale charge density in a further history. Holds otherwise (C46). (`C57_previous_disabled_refuted`)
* **C58** Relabelling moves as few patches as possible.  Refuted with a witness: the greedy relabelling can keep fewer patches in place than another relabelling would. (`C58_most_stay_refuted`)
* **C60** The fused pusher is a pure optimisation (3D).  Refuted: the staged push of a 3D simulation never changes positions, so it differs from the fused push. The deposition parts agree for motion below one cell inside the array. (`C60_fused_3d_differs_refuted`, `C60_staged_3d_never_moves_refuted`)
* **C61** Colliding particles are turned by the scattering angle.  Proved for momenta not along z (C36_turned_by_the_angle) and along +z; refuted along -z: the code treats the direction as +z, so that the particle is reversed, even without charge. (`C61_neutral_particles_bounce_refuted`, `C61_turned_the_other_way_along_minus_z_refuted`)
* **C62** Neither an empty process nor a signal stops the other processes.  Refuted: should_rebalance returns False without allgather on a process with no patches, so a run with one blocks at that check; a dump signal seen by only some processes before the last step blocks the run. Both shown for every size, step and every set of callbacks whose own collectives are barriers. (`C62_process_without_patches_refuted`, `C62_signal_on_some_processes_refuted`)
* **C63** Every stage works on live arrays also after a window shift.  Refuted: MovingWindow injects by replacing arrays without setting the extended flag, so the staged pusher, collisions and QED modules keep the replaced arrays; and it regenerates the bucket bounds of the sorters without telling the collisions. Witnesses for each module. The parts that do hold are under C48. (`C63_window_bucket_bounds_refuted`, `C63_window_injection_refuted`)
* **C64** A photon species may put electrons and positrons into one species.  Refuted with a witness: room is computed for electrons and positrons separately, so a shared target species can have too few free slots and the slot search leaves the array. (`C64_one_species_for_both_refuted`)
* **C65** A recycled patch starts without its old particles.  Refuted for every call: particles of a species that is not injected stay in the patch when it is recycled. (`C65_leftover_particles_refuted`)
* **C66** Windows of any velocity follow it.  Refuted with witnesses: a leftward window first moves after two patch lengths, and at most one shift is made per call. (`C66_fast_refuted`, `C66_leftward_refuted`)
* **C67** Loaded particles are physically consistent.  Refuted with witnesses: the square root is stored without inverting it (inv_gamma = gamma), and momenta missing in the file are NaN. (`C67_inverse_gamma_refuted`, `C67_missing_momentum_refuted`)
* **C68** Loading depends only on the file and the target species.  Refuted: a process without patches raises IndexError (for every file); attributes are taken from the first species, so values are dropped or loading raises AttributeError (witnesses). (`C68_empty_process_refuted`, `C68_first_species_refuted`)
* **C70** Anisotropic temperatures are the ones asked for.  Refuted for all samples: the stretch multiplies momenta by the temperature ratio, so mean squares scale with its square. (`C70_anisotropic_temperature_refuted`)
* **C71** Initial particles follow every setting of the species.  Refuted: a dense cell with ppc = 0 (the default) divides by zero (Python error model; what the parallel loop does with it is not modelled); the momentum profile is never read. (`C71_momentum_profile_refuted`, `C71_zero_particles_refuted`)
* **C75** Each absorbing layer is updated with its own coefficients.  Holds for every patch with at most one layer per axis (all accepted 2D layouts; 3D with two or more patches along open axes). Refuted in general: a 3D patch between both layers of an axis is accepted and loses the near layer's coefficient (C75_near_layer_coefficient_lost_refuted). (`C75_near_layer_coefficient_lost_refuted`)
* **C82** A beam is centred at the coordinate given.  Given centres other than zero and the default are honoured (C79 with the hypothesis centred). Refuted for the coordinate zero, which is taken as not given (C82_edge_centre_refuted). (`C82_edge_centre_refuted`)
* **C84** Every accepted patch size carries the laser.  Holds from thickness+3 cells on (C79). Refuted for thickness+1 cells: the pulse is overwritten by the next exchange (C84_narrow_patch_refuted). (`C84_narrow_patch_refuted`)
* **C85** In a run, laser injection does not depend on the decomposition.  Holds for Ey/Bz everywhere and for Ez/By except in the lowest row of a patch (C79). Refuted for that row (C85_loop_order_refuted). (`C85_loop_order_refuted`)
* **C86** Lasers registered separately add up.  Refuted: the second laser replaces the first in every row outside the layers (C86_second_replaces_first, C86_separate_lasers_refuted). Sums made with + are C81. (`C86_separate_lasers_refuted`)
* **C88** An oblique pulse is delayed along the boundary.  Normal incidence is C87_simple_ends. Refuted at oblique incidence: the envelope is not masked before arrival (C88_before_arrival_refuted), and the default switch-off time cuts the pulse at its maximum on one side (C88_cut_off_refuted). (`C88_before_arrival_refuted`, `C88_cut_off_refuted`)
* **C90** Table lookups stay inside their tables.  Refuted for every table: at and above the last tabulated chi both lookups read one row past the end (C90_rate_refuted, C90_fraction_refuted). Inside the range C89 and C91 show the reads to be in bounds. (`C90_fraction_refuted`, `C90_rate_refuted`)
* **C92** Sampling a fraction always returns.  Refuted: a random number whose target equals a table entry (0 for every table) leaves the bisection in an endless loop (C92_hit_refuted, C92_zero_refuted). In all other cases the call returns (C92_otherwise_ends). (`C92_hit_refuted`, `C92_zero_refuted`)
* **C94** Every emission threshold is met once and drawn for the particle.  Refuted: an electron that uses up its depth exactly is treated as not set and draws again (C94_exact_refuted); new particles inherit the optical depth left in their slot (C94_inherited_refuted). (`C94_exact_refuted`, `C94_inherited_refuted`)
* **C97** Every documented pusher and every pusher state gives a consistent step.  Refuted: "boris+tbmt" creates no pusher, so later species use the pushers of their successors and the last enabled one raises IndexError (C97_tbmt_raises_refuted, C97_tbmt_moves_next_refuted); a disabled pusher deposits nothing without and everything with stage callbacks (C97_disabled_refuted). (`C97_disabled_refuted`, `C97_tbmt_moves_next_refuted`, `C97_tbmt_raises_refuted`)
* **C101** Automatic reloading runs every script as a new interpreter would.  Proved for scripts that spell everything out (C100). Refuted otherwise: a renamed simulation variable leaves the old simulation in the module and runs that (C101_renamed_simulation_refuted); species not added explicitly accumulate over reloads (C101_implicit_species_refuted); deleted callbacks stay (C101_deleted_callbacks_refuted); a file restored with an older time stamp is not noticed (C101_older_file_refuted); after saving a script that does not load the old run is repeated with its step counter not reset (C101_broken_script_refuted); with several processes an error aborts the job although exit_on_error is off (C101_error_with_processes_refuted). (`C101_broken_script_refuted`, `C101_deleted_callbacks_refuted`, `C101_error_with_processes_refuted`, `C101_implicit_species_refuted`, `C101_older_file_refuted`, `C101_renamed_simulation_refuted`)
* **C104** The extracted species density follows the requested slice.  Proved on one process and, for any number of processes, when the selected part of a patch is one piece of memory. Refuted otherwise: the message of a sliced remote patch is received into a buffer of the shape of the whole patch, so cells are permuted or taken from the old buffer (C104_plane_refuted with the documented np.s_[:, :, k], C104_step_refuted); with a domain mask every slice smaller than the domain raises (C104_masked_refuted). (`C104_masked_refuted`, `C104_plane_refuted`, `C104_step_refuted`)
* **C106** Every timer of a run shows up in its own statistics.  refuted: other units, timers without a name, names with a bar or the time of something else, many short events, the printed total, old timer files and several simulations in one process; ordinary timers are covered by C105 (`C106_bar_refuted`, `C106_old_file_refuted`, `C106_second_simulation_refuted`, `C106_short_refuted`, `C106_switched_off_refuted`, `C106_took_refuted`, `C106_total_events_refuted`, `C106_units_refuted`, `C106_unnamed_refuted`)
* **C108** Progress reports work for every run.  refuted: zero steps in a SLURM job, an end before the current step, exceptions; runs with a positive end after the current step are covered by C107 (`C108_exception_refuted`, `C108_over_100_refuted`, `C108_zero_steps_refuted`)
* **C111** Gauss' law right next to an absorbing layer.  Holds two or more cells away from the layers (C110). Refuted next to them: a particle is taken out at the edge of the layer while its charge still reaches the cells outside, so the law is violated there from then on (C111_next_to_layers_refuted). (`C111_next_to_layers_refuted`)
* **C114** Every accepted dt_cfl keeps the fields of an empty box bounded.  Holds for every dt_cfl below 1 (C114_below_limit_partial). At dt_cfl = 1, which the configuration accepts, refuted with a witness: dx = 3, dy = 4, dt = 12/(5 c), an alternating field grows linearly in the number of steps. dt is taken without rounding. (`C114_at_limit_refuted`)
* **C116** Gauss' law in runs with collisions and QED events.  Exact change of the Gauss defect per cell, no net charge, total charge and div B kept, for all runs; Gauss law itself refuted for an elastic collision, a recoil and a pair creation. (`C116_collision_refuted`, `C116_pair_refuted`, `C116_recoil_refuted`)
* **C117** An accepted QED setup does what was asked for.  Proved for setups in which every species object is added once, targets are in the same simulation and electrons of pairs are plain Electron objects. Each condition is needed and none is checked: refuted with witnesses (two Positron species accepted for a pair; a photon species shared with or belonging to another simulation sends the photons into another species). radiation="ll" is declared but never initialises. (`C117_foreign_photon_refuted`, `C117_ll_refuted`, `C117_shared_photon_refuted`, `C117_two_positrons_refuted`)
* **C119** A laser injects a divergence-free magnetic field.  Refuted: one step of an empty simulation with a laser whose field grows across the beam gives div B <> 0 in the column of the injection (C119_plane_refuted). What holds beside that column is C118_div_b. (`C119_plane_refuted`)
* **C121** Each switch can be used alone.  Refuted with witnesses on a one-patch domain: pusher off with depositor on, depositor off with pusher on (both break Gauss' law in one step from a neutral start), and a disabled species that is missing from the stored charge density. What holds is C120. (`C121_depositor_off_refuted`, `C121_invisible_refuted`, `C121_pusher_off_refuted`)
* **C125** Every table the generator writes can be sampled.  Refuted for two tabulated fractions: the table is written, and no lookup in it ever returns. With three or more, C124_usable gives what the lookups need (C91, C92). (`C125_two_fractions_refuted`)
* **C126** The number of guard cells does not influence the results.  Refuted for n_guard = 1 and n_guard = 2, which the constructor accepts (simulation.py:60, gt=0): a particle that leaves a patch at the speed of light reaches the third cell outside, and its charge is then stored in a wrong cell. With three or more the number does not matter (C126_enough). (`C126_one_refuted`, `C126_two_refuted`)
* **C130** No output is lost for any species names and any set of callbacks.  Refuted: the density of a species "e_particles" and the particles of "e" go to the same file (hdf5.py:460, 672), and a second callback of the same kind in the same directory replaces the files of the first. C129 has the cases in which everything is kept. (`C130_lost_refuted`, `C130_same_kind_refuted`)
* **C131** The load of a patch counts its particles.  Refuted: the count recorded by the exchange equals the particles held afterwards plus those that left the patch (and arrivals that miss it), for every schedule; it is never too small, exact exactly when nobody leaves and every arrival lands inside, and over a run every crossing particle counts twice. Witness with 5, 2, 3 recorded for 3, 1, 2. Not covered: floats in the load, user-defined load functions. (`C131_exact_refuted`)
* **C133** A failed plot does not affect later plots.  Refuted for every failing call: the colour maps stay registered, and each later plot on process 0 raises (C133_stuck_refuted, with a mistyped colour map as witness in C133_typo_refuted); a 3D simulation is accepted and never plotted (C133_volume_refuted). Sequences without exceptions are C132. (`C133_stuck_refuted`, `C133_typo_refuted`, `C133_volume_refuted`)
* **C138** The random seed determines the random numbers of a run.  Same seed, processes and history without QED: C137_reproducible. Refuted otherwise: another number of processes gives a patch another stream (C138_processes_refuted); the QED kernels use the generators of numba, which no seed reaches (C138_qed_refuted); after loading a checkpoint the collisions take new streams, so the resumed run is not the uninterrupted one (C138_resumed_refuted, for all histories). (`C138_processes_refuted`, `C138_qed_refuted`, `C138_resumed_refuted`)
* **C140** A thermal particle can have any energy.  Refuted in the middle range of temperatures for all supplies of random numbers (C140_tail_refuted); possible elsewhere (C140_elsewhere_partial), where possible means that some supply of random numbers gives the energy. (`C140_tail_refuted`)
* **C142** A particle output accepts any list of attributes and leaves it alone.  True for lists without repetitions (C141). Refuted for all lists with a repeated name (C142_repeated_refuted) and for all lists with "id" (C142_argument_refuted). (`C142_argument_refuted`, `C142_repeated_refuted`)
* **C146** The collision module refuses species with different bucket numbering.  Holds for sorters that have sorted before (C145_decided). Refuted for a check before the first sort, for all species with opposite drift and one bucket across (C146_early_refuted). (`C146_early_refuted`)
* **C148** A simulation loaded from a checkpoint works on its own particles.  Over M_Resume with the references of M_Lists (particle arrays; field arrays are not modelled). True of sorting, fused push, interpolation and deposition (C148_rechecking_modules) and of the first collisions after loading (C148_collisions), hence of runs without QED where all pushers are fused, with collisions if no moving window is used (C148_all_fused, C148_fused_collisions). Refuted for the staged pusher, radiation and pair production in every patch, after every run without a moving window (C148_staged_refuted). Calling update_patches after loading would repair it (C148_regenerated). (`C148_staged_refuted`)

## 5. What is modelled and what is not

Modelled (each file names lines and simplifications):

* `M_AutoPatch.v`: Automatic patch counts: simulation/utils.py:69-78 (find_divisors), 80-107 (auto_patch_2d), 109-140 (auto_patch_3d).
* `M_Balance.v`: Redistribution of patches: relabelling of the parts of a new partition (core/patch/metis.py:7-61) and the exchange of the patches themselves (core/mpi/load_balancer.py:101-237).
* `M_Checkpoint.v`: Model of checkpoint writing, retention and the checkpoint directory (src/lambdapic/callback/restart.py:81-126).
* `M_Collective.v`: Model of the collective calls of a run, process by process (src/lambdapic/simulation/simulation.py:858-1183, core/mpi/load_balancer.py:54-269, callback/callback.py:80-141, callback/restart.py:88-107).
* `M_Collision.v`: Model of one binary Coulomb collision and of the collisions of a cell.
* `M_Columns.v`: Model of the choice of the columns of a particle output (src/lambdapic/callback/hdf5.py:642-692, SaveParticlesToHDF5).
* `M_Cpml.v`: Model of the field solver with absorbing layers (core/boundary/cpml.py, core/maxwell/solver/solver.py).
* `M_CurrentSync.v`: The synchronisation of currents within a step and the per-species density output: simulation/simulation.py:978-1043, 1080, 1143-1188 (reset, depositions, callbacks, sync_currents, sync_currents_start, sync_currents_wait), core/current/deposition.py:114-122 (reset), callback/hdf5.py:440-530 (SaveSpeciesDensityToHDF5).
* `M_Debye.v`: Model of the screening-length statistics of the collision step (src/lambdapic/core/collision/collision.py:153-166, cpu.py:136-158 and 231-254), for one cell; cells do not interact.
* `M_Deposit.v`: Model of charge and current deposition.
* `M_Extract.v`: Model of [ExtractSpeciesDensity] (src/lambdapic/callback/utils.py:240-464): process 0 assembles the density of a species from the patches of all processes in its array [density].
* `M_FieldSync.v`: Model of the field exchange: copying guard cells and adding guard-cell currents between neighbouring patches, inside one process (core/patch/sync_fields2d.c, sync_fields3d.c) and between processes (core/mpi/sync_fields2d.c, sync_fields3d.c), including the thread schedules and the message tags.
* `M_Files.v`: Model of the names of output files and of writing them: callback/hdf5.py:346, 460, 672, callback/plot.py:132 and callback/restart.py:82.
* `M_Fill.v`: Model of the initial particles: get_num_macro_particles_2d/3d and fill_particles_2d/3d (src/lambdapic/core/patch/cpu.py), Patches.calculate_npart, add_species, fill_particles (core/patch/patch.py:796-907), ParticlesBase.initialize (core/particles.py:117-141: all attributes 0, inv_gamma 1, none dead) and the refilling of a moving window (callback/utils.py:748-840).
* `M_Hilbert.v`: The space-filling curve of core/patch/hilbert.py: gilbert2d (40-52), generate2d (58-107), gilbert3d (109-138), generate3d (140-262), and the index tables of class Hilbert (4-22).
* `M_Insert.v`: Model of the insertion of particles into dead slots (src/lambdapic/core/collision/utils.py:422-467, search_dead and insert_at).
* `M_Laser.v`: Model of the injection of laser pulses at the left boundary (callback/laser.py).
* `M_Layout.v`: Model of the patch layout: neighbour tables, owner tables, absorbing layers and patch placement.
* `M_Lists.v`: Model of the references to particle arrays that the modules of a simulation keep between steps (src/lambdapic/simulation/simulation.py:750-855 and 937-1118, core/particles.py:121-192, core/pusher/pusher.py:36-140, core/sort/particle_sort.py:91-215, core/collision/collision.py:58-90, core/qed/radiation.py:46-236, core/qed/pair_production.py, callback/utils.py:520-840 and 1100-1150).
* `M_Load.v`: Model of callbacks that set up particles: LoadParticles, SetMomentum, SetTemperature, SetMomentumAndTemperature (src/lambdapic/callback/utils.py:842-1178) with ParticlesBase.extend (core/particles.py:143-170) and the bounds of a patch (core/patch/patch.py:103-148, core/boundary/utils.py get_pml).
* `M_Maxwell.v`: Model of the field solver: the electric and magnetic updates of every patch (core/maxwell/cpu.py, solver.py).
* `M_Names.v`: Species naming: simulation/utils.py:6-32 (uniquify_species_names) and simulation/simulation.py:528-561 (Simulation.add_species).
* `M_Order.v`: Model of the bucket numbering shared by colliding species: the sorters (src/lambdapic/core/sort/particle_sort.py:52-89, 197-199, the decision itself is M_Sort3D.decide_reverse), their construction (simulation/simulation.py:691-698, 1369-1376) and the check of the collision module (core/collision/collision.py:100-137).
* `M_Output.v`: Model of the particle output and of the field gathering helper (src/lambdapic/callback/hdf5.py:616-700, src/lambdapic/callback/utils.py:50-237).
* `M_PairGen.v`: Model of the generators the pairing iterators replace (src/lambdapic/core/collision/cpu.py:23-134, self_pairing and pairing).
* `M_Pairing.v`: Model of the collision pairing (src/lambdapic/core/collision/utils.py:207-419) and of the set of colliding species pairs (src/lambdapic/core/collision/collision.py:55-65, 168-214).
* `M_PartSync.v`: Model of the particle exchange between patches: core/patch/sync_particles_{2d,3d}.c and core/mpi/sync_particles_{2d,3d}.c, driven by Patches.sync_particles (patch.py:705-764) and MPIManager.sync_particles_start/wait (mpi_manager.py:105-148, 208-252).
* `M_Plot.v`: Model of the plotting callback (src/lambdapic/callback/plot.py).
* `M_Profile.v`: Model of the profiles of laser pulses (callback/laser.py:273-555) over the real numbers.
* `M_Progress.v`: Model of the progress reports of a run (src/lambdapic/core/utils/progress_bar.py:26-190 [ProgressBar] and its use in simulation/simulation.py:929-938, 1124-1137).
* `M_Push.v`: Model of field interpolation and of the particle push, staged and fused.
* `M_Pushers.v`: Model of which particle kernels a step runs on which species, two dimensions (src/lambdapic/simulation/simulation.py:638-655 [_init_pushers], 657-689 [_init_qed], 896-911 [run, choice of the fused pusher], 983-1040 [run, species loop], core/pusher/pusher.py:15-150, core/utils/enable_mixin.py:1-38).
* `M_Qed.v`: Model of particle creation by QED events within one patch (src/lambdapic/core/qed/optical_depth.py:38-130, core/qed/inline.py:18-190, core/qed/cpu.py:59-390, core/qed/radiation.py:188-238, core/qed/pair_production.py:220-290, core/particles.py:146-168 and 225-262, simulation/simulation.py:979-1062).
* `M_QedGen.v`: Model of the generation of the tables of the QED processes (src/lambdapic/core/qed/optical_depth_tables.py:111-222, core/qed/optical_depth_tables_sigmoid.py:127-243; setup.py:139 runs both once when the package is built).
* `M_QedSetup.v`: Model of setting up radiation and pair creation (core/species.py:51-258, simulation/simulation.py:528-557 and 657-688, core/qed/radiation.py:48-56 and 113-124, core/qed/pair_production.py:46-54 and 107-121): species objects with their classes, set_photon, set_bw_pair, add_species of several simulations of one process, and the modules made when a simulation is initialised.
* `M_QedTable.v`: Model of the tables of the QED processes and of the optical depth of one particle (src/lambdapic/core/qed/optical_depth_tables.py:32-87, core/qed/optical_depth_tables_sigmoid.py:31-103, core/qed/optical_depth.py:36-130, core/qed/inline.py:5-14, core/qed/inline.py:66-78).
* `M_Random.v`: Model of the random generators of a run (simulation/simulation.py:703-716, 393, 620-636; core/patch/patch.py:864-907; core/patch/cpu.py:21-60; core/collision/collision.py:80-98, 139-151, 185-206; callback/utils.py:769, 810, 950-961; core/qed/optical_depth.py:60-80; simulation/simulation.py:827-855, 1083-1087; callback/restart.py:129-161).
* `M_Reload.v`: Model of the auto-reloading runner (src/lambdapic/cli/auto_reload.py:11-92), of the Python module namespace it keeps reloading, of the global species registry (core/species.py:18,112, simulation/simulation.py:559-575) and of as much of [Simulation.run] as it depends on (simulation.py:858-1138, core/mpi/utils.py:13-45).
* `M_Resume.v`: Model of what loading a checkpoint does to the references of M_Lists (src/lambdapic/callback/restart.py:129-160, core/utils/pickle_list.py:3-19, core/particles.py:213-217, core/collision/collision.py:139-151).
* `M_RunLoop.v`: Model of the simulation loop, callback scheduling and restart (src/lambdapic/simulation/simulation.py:858-1210 and 1435-1491, callback/callback.py:11-141, callback/restart.py:57-160).
* `M_Slices.v`: Model of the slice handling of the HDF5 output (src/lambdapic/callback/hdf5.py:14-275).
* `M_Sort2D.v`: Model of the in-place bucket sort of particles (src/lambdapic/core/sort/cpu2d.c, src/lambdapic/core/sort/particle_sort.py).
* `M_Sort3D.v`: Model of the 3D bucket sort (src/lambdapic/core/sort/cpu3d.c) and of the choice of the bucket numbering (src/lambdapic/core/sort/particle_sort.py:64-89).
* `M_Step.v`: Model of one whole time step of a two-dimensional simulation with periodic boundaries (simulation/simulation.py:937-1118): the functions of the other model files called in the order of the main loop.
* `M_Step3D.v`: Model of one whole time step of a three-dimensional simulation with periodic boundaries (simulation/simulation.py:937-1118): the three-dimensional functions of the other model files called in the order of the main loop.
* `M_StepL.v`: Model of one whole time step of a two-dimensional simulation with open sides and lasers (simulation/simulation.py:937-1118): M_StepO with the callbacks of the stage "_laser" (simulation.py:1100-1101), which run after the second half update of B and before its guard cells are exchanged, as modelled in M_Laser (callback/laser.py).
* `M_StepO.v`: Model of one whole time step of a two-dimensional simulation whose sides may be open (simulation/simulation.py:937-1118), with absorbing layers (CPML) inside the open sides: M_Step with the solver of M_Cpml (core/boundary/cpml.py, core/maxwell/solver/solver.py) and with particles that are removed when they enter a layer (patch/sync_particles_2d.c:196, patch.py:105-148).
* `M_StepO3D.v`: Model of one whole time step of a three-dimensional simulation whose sides may be open (simulation/simulation.py:937-1118), with absorbing layers (CPML) inside the open sides: M_Step3D with the three-dimensional solver of M_Cpml (core/boundary/cpml.py, core/maxwell/solver/solver.py) and with particles that are removed when they enter a layer (patch/sync_particles_3d.c, patch.py:165-230).
* `M_StepR.v`: Model of a whole time step with binary collisions and QED events (two dimensions, periodic boundaries).
* `M_StepW.v`: Model of a whole time step in which species, pushers, the interpolator and the current depositor can be switched off (two dimensions, periodic boundaries).
* `M_Store.v`: Model of the particle storage (src/lambdapic/core/particles.py:57-270) and of the identifiers carried by particles through creation, growth, migration, death and QED creation.
* `M_Thermal.v`: Model of the sampling of thermal momenta (src/lambdapic/callback/utils.py:973-1049, SetTemperature.sample_maxwell_juttner), over the real numbers.
* `M_Timer.v`: Model of the performance timers (src/lambdapic/core/utils/timer.py:32-96), of the logger's files (core/utils/logger.py:14-122, simulation/simulation.py:249-254) and of [lambdapic timer-stat] (cli/stat.py:8-61, cli/main.py:50-103).
* `M_Triggered.v`: Model of the question whether a stage will do anything (src/lambdapic/simulation/simulation.py:1482-1509, SimulationCallbacks.non_empty_stages and has_triggered_callbacks), over the callbacks of M_RunLoop.
* `M_Weight.v`: Model of the load of a patch, which the load balancer distributes over the processes.
* `M_Window.v`: Model of the moving window (src/lambdapic/callback/utils.py:471-840, class MovingWindow).

Not modelled:

* IEEE rounding and overflow (except where stated), compiler and numba behaviour, memory allocation failure.
* The MPI, HDF5, pickle (`dill`) and METIS libraries themselves.
* The Airy functions and the quadrature behind the QED tables: given functions in `M_QedGen`; lookups are proved for arbitrary
  tables (`M_QedTable`); in the model of particle creation (`M_Qed`) which particles emit is arbitrary.
* How plots are rendered (colours, norm, labels of `callback/plot.py`), the rest of the command line (`cli/main.py`), log messages other than timers and progress, the update check.
* Probabilities: random numbers and shuffles are arbitrary values and permutations within the ranges numpy promises (streams are
  `M_Random`, the rejection loop for thermal momenta `M_Thermal`).

## 6. Mutation testing

`seeded/LOG.jsonl` has one line per wrong program: the definition edited, the edit, the claim it breaks, the theorems that no
longer prove and the theorems that were tightened because of it.  Each mutant is made in a scratch copy; failing proofs are
admitted one by one so that all theorems that fail are found.
