# Formal model of jaxions in Rocq: design

The code under study is in `/repo` (C++ with OpenMP, MPI and SIMD intrinsics).
The model lives in `rocq/theories`. Each topic has up to four files:

* `<Topic>Model.v`: computable Gallina functions that follow the C++ function by
  function. Every definition cites the file and lines it models and says what was
  simplified.
* `<Topic>Spec.v` (or a section marked *specification* in the properties file):
  the few definitions a reader needs in order to read the theorems, written
  without the helpers of the model.
* `<Topic>Proofs.v`: lemmas.
* `<Topic>Properties.v`: the theorems for the claims, followed by `Print Assumptions` and by `Example`s showing that concrete,
  non-trivial cases meet the hypotheses.

## Conventions

* Arrays are total functions `nat -> A` together with explicit sizes, or lists.
  Statements say what happens to every cell of the array, including the cells
  that must not change. Where out-of-bounds access is the point of a claim, the
  access is modelled by `option` and the claim is that it never fails.
* `for` loops are `for_loop n body s`, a left fold over `0 .. n-1`. Loops
  annotated `#pragma omp parallel for` are modelled in program order unless the
  claim is about schedules, in which case the order of iterations, or the
  interleaving of atomic actions, is universally quantified.
* Floating point numbers are modelled as exact numbers (`R`, `Q`, `Z`, or an
  abstract type with only the operations used). Rounding, overflow, NaN and
  infinities are outside the model. `size_t`/`int` are unbounded unless a claim
  is about their width.
* MPI is modelled by its message semantics: messages with equal (source, tag)
  are matched in order, delivery order is otherwise arbitrary. HDF5, FFTW, CUDA,
  timers and the file system are not modelled.
* When the faithful model violates the English property, the property is split
  in a theorem for the part that holds (with an honest hypothesis) and a theorem
  named `..._refuted` exhibiting the failing input, so that nothing is silently
  weakened. Such findings are listed in `MANIFEST.json`.

## Per property: what is modelled and how it is proved

The files named are prefixes: `Folder` stands for `FolderModel`, `FolderSpec`, `FolderProofs` and `FolderProperties`.

| id | files | modelled | proof |
|----|-------|----------|-------|
| C01, C02 | Folder | `foldField`, `unfoldField` as loops over slices with the ghost region as scratch, and the folded flag | loop invariants, index bijection, induction over histories |
| C03 | Folder | `unfoldField2D`, `unfoldField2DYZ` for both layouts, with the bound check as written | index algebra; refutation of the bound check |
| C04, C05 | Index | index conversions and neighbours | div/mod arithmetic; refutation of the z neighbours |
| C06, C07 | Kernel | loop nest over blocks, address of the neighbour vectors and their rotation | index algebra, `Permutation` with the full range, equality of the kernel with the site-wise formula |
| C08 | Kernel | the three kernel calls of a stage as lists of slices | case analysis; refutation for thin slabs |
| C09 | Ghost | chunks, tags, neighbours, buffers; messages in flight delivered in any order | induction over schedules |
| C10 | Evolve | ranks with ghosts, two buffers, stages, an abstract pointwise kernel | simulation of the global periodic box, induction over stages and steps |
| C11-C14, C44 | Scheme | coefficient tables, step programs for each kind of field, background as a function of time, reads with bounds | algebra of kick and drift in R; refutations by computation |
| C15 | Lapl | stencil coefficients and sums | polynomial identities in R |
| C16, C46, C47, C49 | Field, FieldFft | constructor, `setField`, destructor and the sizes of the buffers; plans of the transforms | invariant by induction over operations; refutations |
| C17 | Alloc | allocation table | invariant by induction over histories |
| C18, C19 | Tune | block advance, choice of the fastest, reading and writing the cache file | well-founded measure, induction over timings |
| C20, C51 | Log | packing and unpacking of messages; sending, receiving and flushing them | round trip; induction over schedules; refutations |
| C21 | Bin | bin index, counts, threads and ranks | induction over samples, permutations |
| C22-C25, C52 | Str, StrWind, StrFlux | edge hand, plaquette, cube, plane, walls; vector and scalar code | sign analysis over an ordered ring, winding over R, summation over the torus |
| C26 | Str | truncation of coordinates to 16 bits | round trip below 65536, refutation above |
| C27, C28 | Mend, MendVol, MendAll | line scan, planes, volume, both layouts | induction along the line; refutations |
| C29, C30 | Mask, MaskAll | ball loops, borders, ghost counters, interleavings of their reads and writes | set equality with the dilation; refutation of independence of the schedule |
| C31 | Pad | row moves in a flat memory, descending and ascending | loop invariants; refutation for overlapping threads |
| C32, C33 | Pow | enumeration of modes, weights, bins, partial sums of the threads, all-reduce | counting by induction; refutation for odd lengths and repeated calls |
| C34, C35 | Red | interpolation weights, in-place order, projection | algebra, in-place invariant |
| C36, C37, C53 | Track | list of tracked points, index maps, printing by ranks | invariants by induction; refutations |
| C38 | Tag | grouping of dense points | invariants, closure argument for components |
| C39, C59-C63 | Cosmo, CosmoStep | scale factor, masses, their derivatives and integrals, coupling, time step, shift of the vacuum | real analysis with the standard library |
| C64-C66 | Len | the point of a string in a plaquette, the ends of strings in a cube, the length joined from them, the speeds | reals with no-number outcomes; signs of edge crossings by cases; flux through a cube for the parity; averages by lists |
| C67, C69-C71 | Force | the update of the velocity at one register: potentials, damping, projections, shuffles of every instruction set | reals indexed by lane; each variant compared with its equation of motion; sequences of updates by induction |
| C72, C73 | Energy | sums of energy densities over sites, threads and ranks, the map, the masked sums, the shared counter | exact reals with no-number outcomes; permutation of sums by lists; the counter by an invariant over all schedules |
| C75, C76, C77, C78 | Axion | the update, the energies and the reduction to a period of the axion-only field | equation against the derivative of the potential; energies against sums of squared turns; derivative of the energy along motions of a box of any size; equivalences |
| C79, C80, C81, C82 | Spline | the band matrix solver, set_points, evaluation and derivatives of the interpolation | the solver is correct by loop invariants for every band matrix, and defined by diagonal dominance; pieces glued with epsilon-delta; uniqueness of the solution gives reproduction, linearity and change of unit; refutations |
| C83, C84 | Tab | Setup and the functions of a tabulated cosmology, with the values that uninitialised loop variables hold as arguments | from C81 (linearity, change of unit); central difference of a cubic; refutations |
| C85, C86, C87 | Init | smoothing, normalisation, core profile, scaling and the assembly of the smoothed and lola configurations; every rank has its arrays, and ghost bytes arrive in any order | refinement of the ranks to one periodic box, induction over iterations; convexity, summation by parts, eigenfunctions; refutations |
| C88 | Rand | the named configurations of `randXeon.cpp`, both precisions, with the random numbers as arguments | index algebra to nearest images, bounds of acos; refutations |
| C89 | Spax | the loop that puts waves on strings, in any order of its iterations, with the two views of the velocity array | induction over the order with a frame lemma; derivative of the curve; refutations by an interleaving |
| C90, C92 | Pax | the step of the nonrelativistic field: phase, drift, schemes, time and background per substep, over real numbers | derivatives of the weights; chain rule through the substeps; matrices of a mode and a quadratic form they keep |
| C91 | Pax | the change of variables, site by site and on the arrays with their ghosts | derivative of an oscillation with slowly varying frequency; list lemmas |
| C93 | PaxEnergy | the kernel by site, with what each instruction set reads as neighbour in y; driver; map | averages over any split; summation by parts; derivative of the energy along the equation; refutations by fields |
| C68, C74 | Conserve | nothing new: the force of ForceModel and the energy of EnergyModel together, on a periodic box of any size | derivatives of the reported energy along curves; summation by parts over cyclic shifts; equivalences giving exactly the variants that conserve energy |
| C40 | Axiton | insertion of candidates in a sorted array | insertion invariant; refutations |
| C41 | Lut | table indices, strides and the interpolation | range arithmetic; refutation of strides |
| C42 | Flag | the flag words of `enum-field.h` as `N` | bitwise reasoning on arbitrary words |
| C43, C45 | Lane | shuffles, permutations and horizontal additions of SSE4.1, AVX, AVX2 and AVX-512 code, as written at each use | equality of functions on lanes; refutation of the wrong ones |
| C48, C50 | Theta | conversions between complex, angle and paraxial fields, in place and with both layouts | loop invariants; trigonometry in R |
| C94, C95 | Gad | the void mapping: densities, masses, slabs, identifiers; gradients of the phase, interpolation, folding | lists of sites by induction on slabs; sums over the box; trigonometry; refutations |
| C96, C97 | Gad | the halo mapping: targets, random counts, balancing with arbitrary draws, slabs of one rank, transfers | invariants over all draws; list equalities; refutations |
| C98 | Wkb | one mode: amplitudes, phase, frequency and its rate | real arithmetic; derivatives of explicit functions; a bound on the extra term |
| C99 | Wkb | the phase: the hypergeometric function, the common part, the table entries | the series solves Gauss' equation; derivative of the phase; case analysis on the two laws of the mass; refutations |
| C100, C101 | Wkb | momenta of the modes, the table and its spline, the whole transport with arbitrary transforms, the sizes of the arrays | index arithmetic; spline theorems; functions of states; refutations |
| C102, C103 | Grav | density, mean, contrast and normalisation on ranks; the momentum of each mode, division by minus its square, transforms as arguments | index arithmetic; algebra of sums; refutation by the share of one rank |
| C104, C105 | Grav | rfuap and eguf as writes in one array in any order within a slice, the momenta and the shift of ilap, the relaxation sweep with late reads, tunehybrid | invariants by induction over the slices; induction over the order of sites; refutations by computation |
| C106 | Map | the five writers of maps, slabs in a file of named datasets, ranks and layouts, projection, refusals and stops as outcomes | refinement to the box by the folding theorems; induction over the order of rows; refutations by computation |
| C107 | Meas | the energy, string, mask and number-spectrum blocks of a measurement; status flags, mask buffers and bins by provenance; first write of a name wins | invariants over the loops of masks and radii; refutations by instance and in general |
| C108 | Four, Fsp | the forward and backward field transforms on the memory of every rank, the scaling, the padding of a real field and the modes kept in its place; the transforms are any linear pair undoing each other up to the number of sites | memory lemmas for every place touched; refutations from the sizes of the arrays, for all grids |
| C109 | Four, Fsp | a stage of the full spectral step: modes to m2, the force at every site, back, the kick and the drift of every mode with its momentum; the mode without momentum | the momentum of every place by division; the kick by linearity; any number of stages by induction; the drift shown to solve the wave equation |
| C110 | Run, RunList | the loop of the main program with a list of times | invariant: the list is at the first line later than the field, the lines before are measured; a potential for reaching the end; two runs by splitting the list |
| C111 | Run | numbers of all measurements of a run; a measurement each n steps; equal steps | invariants by induction on the turns |
| C112 | RunSwitch | the checks of a saxion in the loop | invariant: no change yet, or one good one and an axion; the count of steps is at most the steps made |
| C113 | Run | what the ranks see at the end of a turn | cases of the first nonzero; equal runs by induction; no later turn |
| C114 | RunList | merging of neighbours of the list read | induction on the list |
| C115 | Prep | the evolution of an initial condition from an earlier time: background set and restored, first field, loop; the propagator and the size of a step are arguments | induction on the turns; power laws of real numbers |
| C116 | Prep | the search for a time, the older evolution, the way back in time, the relaxation | a bound on the expected strings; induction; field algebra |
| C117 | Mom | the loop over modes in any order, writing two arrays; momenta, cut, amplitudes, zero mode; the random numbers are arguments | place and momentum by mixed radix; induction over the order; derivatives for Tkachev's velocities |
| C118 | MomString | the sum over pieces of a string in momentum space, reads past the end as an outcome | antiderivatives; induction on the points |
| C119 | Slap | the Laplacian in momentum space and the register kernel of the complex field, stage by stage; transforms are arguments with their laws | uniqueness of the Laplacian, agreement of registers with sites; refutations |
| C120 | SlapAx | the same for the axion, with rows padded in place | the same, with the laws of real transforms; a concrete transform meets them |
| C121 | Line | the text of measfile.dat as a list of characters: lines, words, titles, rows | induction on texts against an inductive description of a table |
| C122 | Any | one piece and one link in exact arithmetic, the list of pieces, lines of the phase rank after rank | derivatives and uniqueness of primitives; induction on lines and ranks |
| C123 | Coord | the loop over ranks: a message into the memory of rank 0, a slab of the file | invariant: the file so far and the memory after the last message, by induction on the turns |
| C124 | Expand | the copies through m2 and ghosts, then each cell writes its sites, in any order of cells | every write is the right value of its site, every site is written; mixed radix for ranks; refutations by two orders |
| C125 | Expand | conversion at a site | derivatives; integer part |
| C126 | Kgv | rows in any order write one or two places of m2; the correction is any function | writes to distinct places commute and do not touch the mask; periodic neighbours by remainders; polar form; refutations by small boxes |
| C127 | Kgv | as C126, with the angle | angle of a polar form; refutation by angle 0 |
| C128 | Nrun | the arrays of nRun for the complex field: move of the z gradient, old gradients and potential | as C126; tangent of half the turn; refutations by small boxes |
| C129 | Nrun | the arrays of nRun for the axion, rows copied or written in any order | writes to distinct places; refutations by a small box |
| C130 | Comm | names of hosts as lists of characters, gathered; counting; outcomes of the start | counting by filters, comparison of strings that end; refutations |
| C131 | Prof | profilers as states changed by starts, stops, additions and resets; histories over all of them | induction on the history, projection to one profiler; refutations |
| C132 | Doom | the loop of the search over any function of time, with a count of passes | induction on the passes; logarithms of powers; refutations by step functions |
| C133 | Samp | rank and place of a site, on the memory of C01 | division with remainder; the place of C01; refutations |
| C134 | Mlog | the generator of the list of measurements in exact arithmetic, with a count of passes and a value for a variable never set | induction on the passes due; monotony of the logarithm |
| C135 | Dims | the first pass over the command line as a list of words; exit and unset variables as outcomes | induction on the options; the fold of one step for each |
| C54, C55 | Conf | writing and reading slabs of a file by ranks, name of the kind, sizes | index algebra, uniqueness of the file; refutations |
| C56-C58 | Head | command-line options, the header of a file, and their combination on restart | case analysis on arbitrary option lists; refutations |

## Trusted base

* The Coq kernel (8.16.1) and `coqchk`.
* The axioms printed by `Print Assumptions` for each theorem, listed in *Assumptions* below. Theorems over `nat`, `N`, `Z`, `Q`
  and lists use none. Theorems over `R` use the axioms of the standard library's real numbers.
* The reading of the C++ recorded in the comments of the `*Model.v` files.
* No axiom, functor, module type or plugin is added, and no check of the kernel is switched off.

## Which code is modelled

| files | code of /repo |
|-------|---------------|
| Folder | `lib/scalar/folder.cpp` |
| Index | `include/utils/index.h` |
| Kernel, Lapl | loop structure and stencils of `include/propagator/propXeon.h`, `propThetaXeon.h`, `inLapla.h`; `setCO` |
| Ghost, Evolve | `exchangeGhosts` and friends in `lib/scalar/scalarField.cpp`; stages and steps of `include/propagator/propClass.h` |
| Scheme | `propClass.h` (all integrators), set-up of the coefficients in `lib/propagator/propagator.cpp` |
| Lane | the shuffles of every vector kernel in `lib/propagator`, `lib/energy`, `lib/strings`, `lib/gravity` |
| Alloc | `lib/utils/memAlloc.cpp` |
| Field, FieldFft | constructor, destructor, `setField`, `setSaxion...` of `scalarField.cpp`; plans in `lib/fft/fftCode.cpp` |
| Theta | `thetaXeon.cpp`, `theta2CmplxXeon.cpp`, `theta2PaxionXeon.cpp`, `theta2NaxionXeon.cpp` |
| Tune | `include/utils/tunable.h`, tuning in `propagator.cpp` |
| Log | `include/utils/logger.h` |
| Bin | `include/utils/binner.h` |
| Str | `lib/strings/stringXeon.cpp`, `stringCpu.cpp`, `strings.cpp` |
| Len | `lib/strings/length.cpp` |
| Mend | `lib/scalar/mendThetaXeon.cpp` |
| Mask, Pad, Pow | the masking, padding and power-spectrum code of `lib/spectrum/spectrum.cpp` and `spectrum.h` |
| Red | `lib/reducer/reducer.cpp`, `lib/projector/projector.cpp` |
| Track, Tag | `include/axiton/trackerClass.h` |
| Axiton, Cosmo | `axitonfinder`, masses, integrals, `dzSize`, shift in `scalarField.cpp`; `lib/cosmos/cosmos.cpp` |
| Lut | `include/spectrum/LLUTs.h`, `lib/utils/kgvops.cpp` (table look-up) |
| Flag | `include/enum-field.h` |
| Force | `include/propagator/propXeon.h` (propagateKernelXeon, updateVXeon), the shuffles of `include/utils/triSimd.h` |
| Energy | `lib/energy/energy.cpp`, `lib/energy/energyXeon.cpp` |
| Spline | `include/WKB/spline.h` |
| Tab | `Setup` and the functions of `lib/cosmos/cosmos.cpp` for a tabulated cosmology |
| Init | `lib/gen/smoothXeon.cpp`, `lib/scalar/normXeon.cpp`, `normCoreXeon.cpp`, `scaleXeon.cpp`; `axby`, `mulmul`, `anymean`, `confsmooth`, `conflola` of `lib/gen/genConf.cpp` |
| Rand | `lib/gen/randXeon.cpp` |
| Spax | the saxion branch of `confspax` in `lib/gen/genConf.cpp` |
| Pax | `include/propagator/propPaxXeon.h`; `pRunCpu` of `propClass.h`; `lib/scalar/theta2PaxionXeon.cpp` |
| Gad | `lib/gadget/gadget_output.cpp` (not the loop over slabs of several ranks, nor the smoothing filter); the options of `test/gadgetme.cpp`; `idx2VecNeigh` of `include/utils/index.h` |
| Wkb | `lib/WKB/WKB.cpp` and `include/WKB/WKB.h` (padding of rows, plans and log output left out; the tables written to files too) |
| Meas | `lib/meas/measa.cpp` (energy, string, mask and number-spectrum blocks), the guards and buffers of nRun, nSRun, masker and pRun in `lib/spectrum/spectrum.cpp`, `lib/utils/kgvops.cpp`, writeArray (cumulative masks, low memory and the values of the bins left out) |
| Map | `lib/io/readWrite.pHdf5.cpp` (writeMapHdf5s, writeMapHdf5s2, writeEMapHdf5s, writePMapHdf5s), their calls in `lib/meas/measa.cpp`, `lib/projector/projector.cpp` |
| Grav | `include/gravity/potentialClass.h`, `include/gravity/gravityPaxionXeon.h` (the density of the axion field, debug reports and the GPU left out) |
| PaxEnergy | `lib/energy/energyPaxionXeon.cpp`; `energy.cpp` |
| Axion | `include/propagator/propThetaXeon.h`, `lib/energy/energyThetaXeon.cpp`, `mod_pd` and `mod_ps` of `include/utils/triSimd.h` |
| Four, Fsp | `lib/scalar/fourier.cpp`; `lib/scalar/scaleXeon.cpp`; `include/propagator/fsPropXeon.h`, `fsPropThetaXeon.h` (single precision); `sFpecCpu` and the start of `tFpecCpu` of `propClass.h` |
| Slap, SlapAx | `lib/propagator/laplacian.cpp`; `include/propagator/sPropXeon.h`, `sPropThetaXeon.h`; `sSpecCpu`, `tSpecCpu` of `propClass.h` (low memory left out) |
| Prep | `lib/gen/prepropa.cpp`; its calls in `lib/gen/genConf.cpp`; `LambdaP` of `lib/cosmos/cosmos.cpp` (the propagator and the measurements are arguments) |
| Mom, MomString | `lib/gen/momConf.cpp` (not circular loops); parts of `confspax`, `conftkac`, `confthermal` of `lib/gen/genConf.cpp` |
| Any | `lib/gen/anystringXeon.cpp`; the copies made by `confstring2` of `lib/gen/genConf.cpp` (not the text of the file) |
| Coord | `writeStringCo` of `lib/io/readWrite.pHdf5.cpp` (not its attributes) |
| Expand | `expandField`, `ctheta2csaxion`, `unMoor` of `include/utils/simpleops.h`; their calls in `readConf` |
| Kgv | `buildc_k`, `buildc_gx`, `buildc_gyz`, `buildc_v`, `buildc_k_map` of `lib/utils/kgvops.cpp` |
| Nrun | the arrays that `nRun` of `lib/spectrum/spectrum.cpp` gives to the transform: z gradient, old gradients and potential, axion |
| Comm | `initComms` of `lib/comms/comms.cpp`, `initAxions` of `lib/utils/misc.cpp` |
| Prof | `Profiler`, `FlopCounter`, `printStats`, `printProfStats` of `include/utils/profiler.h`, `include/utils/flopCounter.h`, `lib/utils/profiler.cpp` |
| Doom | `findzdoom` in `test/vaxions.cpp` |
| Samp | `printsample`, `unfoldidx` in `test/vaxions.cpp` |
| Mlog | `createMeasLogList` in `lib/utils/parse.cpp` |
| Dims | `parseDims` in `lib/utils/parse.cpp` |
| Line | `mysplit`, `readheader`, `readmeasline2` and the loop of `readmeasfile` in `test/vaxions.cpp` |
| Run, RunList, RunSwitch | `test/vaxions.cpp`: the preparation, the loop, the end, `checkTime`, `readmeasfile` (from lines already read) |
| Conf, Head | `writeConf`, `readConf` and the header code of `lib/io/readWrite.pHdf5.cpp`; `lib/utils/parse.cpp` (options kept in the cosmology) |

## Which code is not modelled

* Rounding, overflow and NaN of floating point numbers; exact numbers stand for them.
* The GPU code, except where a claim names it.
* The internals of FFTW, HDF5 and MPI. MPI is represented by its message semantics and HDF5 by arrays addressed by offset and stride.
* Timers, the text of log messages.
* The generators of random numbers, the second nonrelativistic field (NAXION).
* The rest of the measurement driver (`measa.cpp`) and the Nyx writer.

## Wrong programs (`seeded/LOG.jsonl`)

Each line is one edit of a definition of the model, followed by a rebuild of what depends on it.

* `first_errors` names the lemmas or theorems at which the build stopped. This is
  what was observed.
* `theorems_failed` lists theorems whose own proof failed, or whose proof uses,
  directly or through others, a lemma that failed. The uses are read from the text
  of the sources of today. For the latter kind the build shows that the proof no
  longer goes through, not that the statement is false of the edited program.
* `theorems_not_reached` lists theorems of the claim that come after the place at
  which the build stopped and do not use what failed there. Nothing is known of
  them after that edit. Until the last day such theorems were listed under
  `theorems_failed`; all lines were corrected.
* In some lines none of the theorems of the claim used what failed. Of these, part
  was run again in the scratch copy past the broken proofs. There
  `theorems_failed` has what then broke, and `theorems_still_proved` what did not.
* An edit that broke nothing is logged with both lists empty, and
  `theorems_tightened` says whether the theorem was too weak or the edit changes
  nothing that can be observed.

## Assumptions

What `Print Assumptions` lists for each theorem of `MANIFEST.json`. All of these axioms are declared by the standard library; the development declares none.

* Closed under the global context (no axiom): the 318 theorems not named below.
* `ClassicalDedekindReals.sig_forall_dec` (10 theorems): C83 `lines_kept_refuted`; C86 `scaling_the_field`, `scaling_the_velocity`, `scaling_the_velocity_refuted`; C95 `smoothed_x_refuted`; C122 `heights_partial`; C131 `times_defined`, `nested_refuted`, `no_start_refuted`, `unaccounted_refuted`.
* `ClassicalDedekindReals.sig_forall_dec`, `FunctionalExtensionality.functional_extensionality_dep` (147 theorems): C11 `step_advances_dz_partial`, `run_advances_partial`, `step_advances_dz_refuted`; C12 `background_current_partial`, `time_tracks_drift_partial`, `axion_background_refuted`, `lowmem_background_refuted`, `lowmem_time_refuted`; C13 `coefficients_exist_partial`, `coefficients_exist_refuted`; C14 `saxion_step_reversible`, `axion_step_reversible`, `rkn4_reversible_refuted`, `axion_step_reversible_refuted`; C15 `laplacian_order`, `laplacian_order_sharp`, `laplacian_row_sum`, `laplacian_many_neighbours_refuted`; C44 `lowmem_same_result_refuted`; C64 `string_point_partial`, `string_point_exact_partial`, `string_point_refuted`, `string_point_exact_refuted`; C65 `cube_ends_partial`, `cube_ends_exact_partial`; C79 `table_accepted`, `through_points`, `piecewise_cubic`, `band_solution`; C80 `slope_is_derivative`, `curvature_is_derivative_partial`, `curvature_continuous`, `third_is_derivative_partial`, `left_curvature_iff`, `left_curvature_refuted`, `ends_met`, `linear_extrapolation`; C81 `cubics_reproduced`, `lines_reproduced`, `superposition`, `stretched_table`, `parabola_refuted`, `between_neighbours_refuted`; C82 `chords`, `between_neighbours`, `chords_beyond_partial`, `chords_beyond_refuted`; C85 `smoothing_averages`, `smoothing_any_split`, `smoothing_keeps_mean`, `smoothing_stays_inside`, `smoothing_smooths`, `smoothing_low_memory_refuted`; C89 `waves_replaced_by_smoothing`, `waves_kept_by_smoothing_refuted`; C93 `pax_number_and_self`, `pax_gradients_partial`, `pax_gradients_refuted`, `uniform_double_refuted`, `unset_register_refuted`, `wrong_lanes_refuted`, `pax_energy_refused`, `pax_map_partial`, `pax_map_refuted`, `pax_map_room_partial`, `pax_map_room_refuted`; C94 `void_one_per_site_partial`, `void_mass_partial`, `void_mass_refuted`, `void_fewer_refuted`, `void_large_refuted`, `void_wrapped_refuted`; C95 `interpolation_mean`, `scatter_in_box_partial`, `scatter_in_box_refuted`; C96 `share_is_sum`, `shares_add_up`, `targets_add_up`, `target_near_share`, `balanced_partial`, `balanced_refuted`, `balancing_can_end`, `balancing_can_end_refuted`; C102 `potential_defined`, `poisson`; C103 `contrast_zero_partial`, `contrast_zero_refuted`; C105 `relax_fixed_point`, `relax_bounds_partial`, `relax_bounds_refuted`, `relax_sum_refuted`, `relax_tuning_best`, `tuning_runs`; C108 `there_and_back_partial`, `not_twice`, `half_way_refuted`, `ghost_slices_refuted`, `axion_overrun_refuted`, `axion_ghosts_refuted`, `axion_alone_partial`; C109 `slope_is_force`, `slope2_is_force`, `second_potential_refuted`; C110 `list_schedule_partial`, `list_complete_partial`, `restart_schedule_partial`, `list_empty_refuted`, `list_single_refuted`, `restart_line_refuted`, `switch_list_refuted`; C111 `numbers`, `numbers_restart`, `every_schedule_partial`, `fixed_steps_partial`, `every_end_refuted`, `every_zero_refuted`, `every_twice_refuted`; C112 `switch_once_partial`, `damping_once_partial`, `switch_consecutive_refuted`, `stale_strings_refuted`; C113 `stop_honoured_partial`, `stop_last`, `save_transparent`, `save_hides_refuted`; C114 `merge_kinds_partial`, `merge_maps_refuted`, `merge_order_refuted`; C115 `prep_field_at_rest`, `prep_rest_refuted`; C116 `older_ends_partial`, `back_keeps`, `back_rate_refuted`, `relax_partial`, `relax_refuted`; C117 `thermal_mass`; C121 `blank_line_harmless`; C122 `copies_partial`, `below_refuted`, `heights_refuted`; C124 `expand_partial`, `expand_kept`, `expand_rest_partial`, `expand_order_refuted`, `expand_uneven_refuted`, `expand_ratio_refuted`; C131 `times_partial`.
* `ClassicalDedekindReals.sig_forall_dec`, `ClassicalDedekindReals.sig_not_dec`, `FunctionalExtensionality.functional_extensionality_dep` (181 theorems): C22 `scalar_winding`; C50 `angle_to_complex_velocity_partial`, `angle_to_complex_velocity_refuted`; C59 `conformal_mass_rate_refuted`; C65 `cube_length_partial`, `cube_length_refuted`, `straight_strings_refuted`, `length_by_ranks_refuted`; C66 `string_speeds_partial`, `speed_bounds_partial`, `string_speeds_refuted`; C67 `axion_mass_felt_partial`, `axion_mass_variant`, `cosine_vacuum_at_rest_refuted`; C68 `force_is_gradient_partial`, `force_is_gradient_refuted`, `force_is_gradient_iff`; C69 `kernels_agree_partial`, `single_agree_partial`, `double_agree_partial`, `two_well_kernels_agree_refuted`, `linear_precisions_agree_refuted`, `cosine_precisions_agree_refuted`, `lowmem_damping_agree_refuted`; C70 `modulus_damped_partial`, `modulus_damped_iff`, `modulus_damped_refuted`, `all_damped`, `damping_contracts`; C71 `phase_kept_partial`, `phase_kept_iff`, `phase_kept_refuted`, `only_angle_partial`, `only_angle_modulus`, `only_angle_keeps_modulus_refuted`, `lowmem_only_angle_refuted`; C72 `energies_right_partial`, `kinetic_double_exact_partial`, `kinetic_energy_refuted`, `modulus_mean_refuted`, `energies_zero_refuted`, `tilted_reported`, `two_well_reported`, `no_axion_reported`, `linear_saxion_refuted`; C73 `map_is_density_partial`, `map_mean_refuted`, `mask_leaves_map`, `masked_map_zero`, `averages_leave_map_refuted`, `lowmem_energies_refuted`, `masked_energies_partial`, `masked_none_refuted`, `masked_count_bounds`, `masked_count_refuted`; C74 `energy_conserved_partial`, `energy_conserved_refuted`, `energy_conserved_iff`; C75 `axion_law_partial`, `axion_law_refuted`, `axion_law_iff`; C76 `axion_energies_partial`, `axion_map`, `axion_map_sites_partial`, `axion_requests`, `uniform_gradient_refuted`; C77 `axion_conserves_partial`; C78 `same_angles_partial`, `same_energies_partial`, `half_turn_refuted`, `long_difference_refuted`, `expansion_refuted`, `expansion_energy_refuted`, `linear_potential_refuted`; C84 `log_rate_excess`; C85 `smoothing_damps_waves`; C86 `normalised_field_has_modulus_one`, `normalised_velocity_has_modulus_one`, `normalising_twice`, `normalise_zero_refuted`, `normalise_unknown_field_refuted`, `core_profile`, `twist_of_angles`, `core_profile_uniform`, `core_profile_low_memory`, `core_profile_keeps_velocity_refuted`, `mean_modulus`, `mean_modulus_refuted`; C87 `start_smoothed`, `start_smoothed_flat`, `start_kick_refuted`, `start_lola`, `start_lola_at_rest_refuted`; C88 `minicluster0_is_gaussian`, `minicluster_is_gaussian`, `axiton_single`, `axiton_double_refuted`, `amplitude_only_sign`, `same_for_any_split`, `noise_bounds`, `string_wave_stays_zero`, `string_wave_refuted`, `loop_angle`, `loop_xy`, `loop_yz`, `one_mode`, `resonance_mode`, `loop_through_point_refuted`; C89 `merge_in_safe_order`, `merge_one_thread`, `merge_two_threads_refuted`; C100 `table_covers`; C103 `normalised`, `normalise_defined`; C104 `shift_half_cell`, `shift_centre_refuted`; C109 `stage_partial`, `free_stage`, `free_evolution_partial`, `drift_moves`, `drift_keeps_rest`, `drifts_add`, `axion_mode_partial`, `double_still_refuted`, `unset_force_refuted`; C117 `tkachev_size`; C118 `piece_right`, `string_mode_partial`, `piece_perpendicular_refuted`, `string_past_refuted`; C119 `spec_laplacian`, `spec_momenta`, `spec_stage_partial`, `spec_modes`, `spec_step`, `spec_mass_partial`, `spec_as_stencil_partial`, `spec_damping_partial`, `spec_momenta_refuted`, `spec_third_refuted`, `spec_angle_refuted`, `spec_damping_refuted`, `spec_no_ghosts_refuted`; C120 `tspec_laplacian`, `tspec_stage_partial`, `tspec_as_stencil_partial`, `tspec_modes`, `tspec_step`, `tspec_background_refuted`, `tspec_potential_refuted`, `tspec_no_ghosts_refuted`; C122 `reversed_partial`, `reversed_refuted`, `through_refuted`, `pieces_sum_partial`, `open_end_refuted`, `any_phase_partial`, `any_vacuum`, `any_ranks_partial`, `any_ranks_refuted`, `any_deep_refuted`; C125 `to_saxion`, `from_moore`; C126 `velocity_partial`, `velocity_near_partial`, `velocity_map_partial`, `velocity_rest`, `gradient_x_partial`, `gradient_yz_partial`, `gradient_yz_rest`, `smooth_z_refuted`, `saxi_refuted`, `long_refuted`; C128 `nrun_z_partial`, `nrun_z_refuted`, `old_gradient_x_partial`, `old_gradient_yz_partial`; C129 `axion_input_partial`, `axion_rest`, `axion_nonlinear_partial`, `axit_velocity_refuted`.
* `ClassicalDedekindReals.sig_forall_dec`, `ClassicalDedekindReals.sig_not_dec`, `Classical_Prop.classic`, `FunctionalExtensionality.functional_extensionality_dep` (145 theorems): C22 `plaquette_winding_partial`; C39 `mass_law`, `mass_nonneg`, `mass_monotone`, `mass_constant`, `mass_continuous`; C50 `angle_round_trip`, `complex_to_angle_velocity`; C59 `mass_derivative_partial`, `mass_derivative_refuted`, `expansion_rate_partial`, `expansion_rate_refuted`, `hubble_partial`, `hubble_refuted`, `conformal_mass_rate_partial`; C60 `mass_integrals_partial`, `mass_integrals_refuted`, `mass_integrals_expansion_refuted`, `second_integral_refuted`, `second_integral_value_refuted`; C61 `step_stable_partial`, `step_stable_refuted`; C62 `vacuum_shift`, `field_shift_partial`, `shift_at_time_refuted`, `second_shift_refuted`; C63 `string_width`, `saxion_mass_fixed`; C67 `axion_mass_felt_iff`, `axion_mass_felt_refuted`; C72 `axion_energy_refuted`; C76 `axion_potential_refuted`; C77 `axion_conserves_refuted`, `axion_conserves_iff`; C83 `table_units_partial`, `today_is_one_partial`, `start_zero`, `today_is_one_refuted`, `not_in_units`, `unit_found_partial`, `unit_search_refuted`; C84 `expansion_table_partial`, `mass_table_partial`, `log_rate_refuted`; C88 `amplitude_refuted`, `long_box_refuted`; C90 `phase_weight_partial`, `phase_weight_refuted`, `drift_weight_partial`, `drift_weight_refuted`, `potential_keeps_density`, `step_follows_equation_partial`, `rkn4_follows_equation_partial`, `uniform_flat`, `uniform_expanding_refuted`; C91 `change_of_variables_partial`, `change_of_variables_refuted`, `conversion_sites`, `room_from_axion_refuted`; C92 `number_conserved`, `total_kept`, `number_refuted`, `modes_bounded_partial`, `own_step_bounded_partial`, `own_step_bounded_refuted`; C93 `pax_energy_conserved_partial`, `pax_energy_conserved_refuted`; C95 `gradient_is_phase`, `gradient_aliased`, `velocity_units_refuted`; C98 `mode_still_partial`, `mode_still_refuted`, `mode_real`, `mode_real_two`, `mode_linear`, `wronskian_kept`, `wronskian_kept_two`, `mode_composes_partial`, `velocity_is_rate`, `wkb_equation`, `extra_bound`, `velocity_is_rate_two_partial`; C99 `no_turn_at_once`, `turn_growing_partial`, `turn_frozen_partial`, `turn_frozen_refuted`, `turns_add`, `turn_two_partial`, `turn_two_crossing_refuted`, `turn_two_massless_refuted`, `turn_massless`; C100 `table_made`, `table_at_knots`, `steps_compose_partial`; C101 `no_time_partial`, `transport_defined`, `transport_end`, `transport_forgets_partial`, `second_transport_partial`, `saxion_refused`, `massless_refuted`, `last_slices_refuted`; C115 `prep_ends_partial`, `prep_restores`, `prep_background`, `prep_coupling`, `prep_steps`, `prep_start_coupling`, `prep_damping_refuted`; C116 `findct2_ends`; C117 `mom_plain`, `mom_modes`, `mom_ends`, `mom_frame`, `mode0_set`, `tkachev_rate`, `thermal_shares`, `spax_table`, `cut_refuted`, `cut_velocity_refuted`, `mode0_velocity_refuted`, `mode0_large_refuted`, `conjugate_refuted`, `kcole_refuted`, `spax_short_refuted`; C119 `spec_mass_refuted`; C122 `link_integral_partial`, `near_integral_partial`; C127 `potential_partial`, `linear_partial`, `angle_reversed_refuted`; C128 `old_cases_refuted`, `old_potential_partial`, `old_potential_refuted`; C129 `axit_weight_refuted`; C132 `doom_right`, `doom_none`, `doom_power`, `doom_constant_refuted`, `doom_hangs_refuted`, `doom_never_refuted`; C134 `measlist_partial`, `measlist_zero_dump`, `measlist_unset_refuted`, `measlist_decade_refuted`.
