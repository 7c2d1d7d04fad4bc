{"id": "C01", "title": "Folding is lossless", "statement": "Asking the library to fold a field into its vector layout and then to unfold it gives back exactly the values that were there, in every slice; unfolding and folding again does too. Folding a folded field or unfolding an unfolded one changes nothing.", "quantifier": "every grid length, depth, number of ghost slices, vector width dividing the length, and every field content", "why_tests_cant": "A test picks a few grid sizes and fields; the claim is about all lengths, widths and contents.", "anchors": ["lib/scalar/folder.cpp: foldField, unfoldField, Folder::operator()", "include/scalar/folder.h"]}
{"id": "C02", "title": "Where folding puts each site", "statement": "After folding, the value of site (x, y, z) is at the documented vector position: lane y / (L/w), row y mod (L/w), column x of slice z, for m and for v. No two sites share a position and no position is left out.", "quantifier": "every site of every grid, every vector width dividing the length", "why_tests_cant": "The layout must be a bijection for all sizes; examples only exhibit sizes that happen to work.", "anchors": ["lib/scalar/folder.cpp: foldField", "include/propagator/propXeon.h"]}
{"id": "C03", "title": "Slice extraction does not depend on the layout", "statement": "Extracting an xy slice (or a yz slice) gives the same two dimensional picture whether the field is folded or not, and a slice number outside the field is refused without touching memory outside it.", "quantifier": "every slice number, grid size, vector width and field content", "why_tests_cant": "The bound check must hold at the one slice number a test forgets.", "anchors": ["lib/scalar/folder.cpp: unfoldField2D, unfoldField2DYZ, unfoldM22D"]}
{"id": "C04", "title": "Linear index and coordinates are inverse", "statement": "Converting a site number to (x,y,z) and back gives the same number, converting coordinates inside the grid to a number and back gives the same coordinates, and the padded conversion used for real-to-complex transforms is one-to-one and skips exactly the padding cells.", "quantifier": "every site number and every coordinate triple of every grid length", "why_tests_cant": "All sizes and all indices.", "anchors": ["include/utils/index.h: idx2Vec, vec2Idx, idx2VecPad"]}
{"id": "C05", "title": "Neighbour lookup is periodic", "statement": "The four in-plane neighbour numbers returned for a site are the sites one step away in +x, -x, +y, -y with periodic wrap, in the same slice; stepping forth and back returns to the start.", "quantifier": "every site and every grid length of at least one", "why_tests_cant": "Wrap-around cases for all lengths and all sites.", "anchors": ["include/utils/index.h: idx2VecNeigh"]}
{"id": "C06", "title": "The vectorised stencil reads the true neighbours", "statement": "In the folded layout every lane of the vectors the evolution kernels load as x, y and z neighbours at distance d holds the value of the site d steps away, periodically in x and y, of the site held by the same lane of the centre vector.", "quantifier": "every site, distance up to the stencil radius, vector width and grid length", "why_tests_cant": "The lane rotation at the row boundary is right or wrong depending on the ratio length / width / radius; tests sample few ratios.", "anchors": ["include/propagator/propXeon.h: propagateKernelXeon", "include/propagator/propThetaXeon.h", "include/propagator/inLapla.h"]}
{"id": "C07", "title": "Tuning the block size cannot change the result", "statement": "Whatever block sizes the tuner chooses, the kernel loops update every site of the requested slice range exactly once and no other site.", "quantifier": "all block sizes, grid sizes and slice ranges", "why_tests_cant": "Tuned block sizes are picked at run time from timings; no test covers all of them.", "anchors": ["include/propagator/propXeon.h: propagateKernelXeon loop header", "include/utils/tunable.h"]}
{"id": "C08", "title": "Bulk and boundary regions tile the volume", "statement": "During a step the bulk range updated while ghosts travel and the two boundary ranges updated afterwards together cover every slice of the rank exactly once.", "quantifier": "every depth per rank and every stencil radius", "why_tests_cant": "Thin slabs are legal run-time configurations; the claim depends on depth against radius.", "anchors": ["include/propagator/propClass.h: sRunCpu, tRunCpu, lowCpu, nRunCpu, pRunCpu"]}
{"id": "C09", "title": "Ghost exchange delivers the neighbours' slices", "statement": "After a ghost exchange each rank's front ghost slices equal the last owned slices of the previous rank and its back ghost slices equal the first owned slices of the next rank, periodically, owned data is untouched, and splitting large messages in pieces transfers every byte exactly once.", "quantifier": "every number of ranks, slice size, number of ghosts and message size, and every order in which messages are delivered", "why_tests_cant": "Needs all schedules and all message sizes beyond what memory of a test box allows.", "anchors": ["lib/scalar/scalarField.cpp: sendGeneral, sendGhosts2, exchangeGhosts", "include/scalar/scalarField.h"]}
{"id": "C10", "title": "The result does not depend on how many ranks are used", "statement": "Evolving the field split over P ranks, with ghost exchange, split regions and the two alternating buffers, gives at every stage and after any number of steps exactly the values of the evolution of the whole periodic box on one rank.", "quantifier": "every number of ranks, depth, stencil radius, pointwise update rule, initial field and number of steps", "why_tests_cant": "Quantifies over all decompositions and all histories.", "anchors": ["include/propagator/propClass.h: sRunCpu", "lib/scalar/scalarField.cpp: exchangeGhosts", "include/propagator/propXeon.h"]}
{"id": "C11", "title": "A step advances conformal time by exactly dz", "statement": "After one propagation step of size dz the conformal time of the field is the old one plus dz, for every integrator scheme and every field type.", "quantifier": "every dz, scheme and field type (saxion, axion, low memory, naxion, paxion, spectral)", "why_tests_cant": "Floating tests cannot tell an exact identity from a small error and do not run all combinations.", "anchors": ["include/propagator/propClass.h: PropLeap, PropOmelyan2, PropOmelyan4, PropRKN4, sRunCpu, tRunCpu, lowCpu, nRunCpu, pRunCpu, sSpecCpu"]}
{"id": "C12", "title": "Every kick uses the background at its own time", "statement": "Whenever a step evaluates the force, the mass, coupling, scale factor and its second derivative it uses are those of the conformal time reached at that moment.", "quantifier": "every background evolution, step size, scheme and field type", "why_tests_cant": "A stale coefficient gives a slightly wrong number that no test threshold is tuned to see.", "anchors": ["include/propagator/propClass.h: sRunCpu, tRunCpu"]}
{"id": "C13", "title": "Steps read only coefficients that exist", "statement": "A propagation step never reads an integrator coefficient beyond the ones its scheme defines.", "quantifier": "every scheme and every field type", "why_tests_cant": "Reading one past an array usually returns something harmless in a test.", "anchors": ["include/propagator/propClass.h: lowCpu, nRunCpu, pRunCpu, sSpecCpu, tSpecCpu"]}
{"id": "C14", "title": "Palindromic schemes are time reversible", "statement": "For a force that does not depend on velocity and a constant background, one step of size dz followed by one step of size -dz restores m and v exactly (in exact arithmetic) for the leapfrog, multi-leapfrog and Omelyan schemes.", "quantifier": "every force law, field and step size", "why_tests_cant": "Reversibility is an algebraic identity for all forces; a float test only sees rounding.", "anchors": ["include/propagator/propClass.h: PropLeap, PropMLeap, PropOmelyan2, PropOmelyan4, sRunCpu"]}
{"id": "C15", "title": "The Laplacian stencil has the advertised order", "statement": "For each supported number of neighbours the stencil annihilates constants, gives exactly the second derivative of every polynomial of degree up to 2N+1, and its sum over a periodic row vanishes.", "quantifier": "every polynomial up to that degree, every grid point, every row", "why_tests_cant": "A test evaluates a few functions to a tolerance.", "anchors": ["lib/scalar/scalarField.cpp: setCO", "include/propagator/inLapla.h"]}
{"id": "C16", "title": "Changing the field type leaves a consistent field", "statement": "After any sequence of field type changes the recorded type, element size and buffers agree with one another: element size is that of the type and no buffer the type needs has been released.", "quantifier": "every sequence of field type changes from every constructed field", "why_tests_cant": "Histories: the defect may need several conversions in an order no test performs.", "anchors": ["lib/scalar/scalarField.cpp: setField", "include/scalar/scalarField.h"]}
{"id": "C17", "title": "Memory accounting matches live allocations", "statement": "After any sequence of tracked allocations and releases the reported total equals the sum of the sizes of the blocks currently alive, and releasing a null pointer or a block obtained elsewhere leaves the totals unchanged.", "quantifier": "every history of aligned and unaligned allocations and releases", "why_tests_cant": "All histories.", "anchors": ["lib/utils/memAlloc.cpp: trackAlloc, trackFree, alignAlloc"]}
{"id": "C18", "title": "Block tuning visits legal blocks and stops", "statement": "Starting from the initial block, repeatedly advancing the block size ends after finitely many steps, every block visited has positive sizes that do not exceed the grid and respect the thread limits.", "quantifier": "every grid shape, thread count and device", "why_tests_cant": "Termination for all shapes.", "anchors": ["include/utils/tunable.h: InitBlockSize, AdvanceBlockSize"]}
{"id": "C19", "title": "The tuner keeps the fastest block", "statement": "After tuning, the block in use is one of the blocks tried and none tried was faster; a cached block is used only if it was stored for the same grid, ranks, threads, device and field type.", "quantifier": "every sequence of measured times and every cache file", "why_tests_cant": "Timings are nondeterministic inputs.", "anchors": ["lib/propagator/propagator.cpp: tunePropagator"]}
{"id": "C20", "title": "Log messages survive packing", "statement": "A log message packed for transport and unpacked at the other end has the same time, rank, thread, level and text, for every text that fits, and a text that does not fit is handled without writing outside the message buffer.", "quantifier": "every message text and header", "why_tests_cant": "All texts and lengths.", "anchors": ["include/utils/logger.h: Msg::pack, Msg::unpack"]}
{"id": "C21", "title": "Histograms lose no sample", "statement": "Every sample between the minimum and maximum of a histogram falls in exactly one bin, the bin whose interval contains it; the bins hold the density (count over total over width), sum to one over the range, and depend only on the samples, not on their order, padding, or division among threads and ranks.", "quantifier": "all sample lists, layouts, rank and thread divisions", "why_tests_cant": "every division of the data and every sample value must be covered", "anchors": ["include/utils/binner.h: Binner::run, find"]}
{"id": "C22", "title": "A plaquette carries at most one string", "statement": "Around every plaquette whose corners are in general position (no real value, no opposite neighbours) the signed edge count is -2, 0 or 2 and is minus twice the winding number of the phase, so the plaquette is flagged as string, antistring or nothing exactly by its winding number; the map word of each site holds these flags for its three plaquettes and the counters are their totals.", "quantifier": "every four complex corner values; every field, grid, order of threads and supported instruction set", "why_tests_cant": "The count is a discrete function of continuous data; only a proof covers all phases and all orders.", "anchors": ["lib/strings/stringCpu.cpp: stringHand", "lib/strings/stringXeon.cpp: stringKernelXeon, stringHandD, stringHandS", "include/enum-field.h: StringType"]}
{"id": "C23", "title": "Strings have no ends inside a cell", "statement": "For generic corner values the signed fluxes out of the six faces of a lattice cube cancel, so every string entering a cube leaves it.", "quantifier": "every eight complex corner values without degenerate edges", "why_tests_cant": "All inputs; a counterexample has measure zero or not and tests cannot tell.", "anchors": ["lib/strings/stringCpu.cpp: stringHand, stringKernelCpu"]}
{"id": "C24", "title": "Total chirality of a periodic plane is zero", "statement": "On every periodic lattice plane the numbers of strings and antistrings crossing are equal when no edge is degenerate.", "quantifier": "every plane size and every field on it", "why_tests_cant": "All field configurations and all sizes.", "anchors": ["lib/strings/stringCpu.cpp: stringKernelCpu", "lib/strings/strings.cpp"]}
{"id": "C25", "title": "Vector, scalar and GPU string finders agree", "statement": "The vectorised and GPU string finders flag exactly the plaquettes the scalar one flags.", "quantifier": "every field", "why_tests_cant": "Agreement at sign boundaries is a statement about all values.", "anchors": ["lib/strings/stringXeon.cpp", "lib/strings/stringCpu.cpp", "lib/strings/stringGpu.cu"]}
{"id": "C26", "title": "String coordinates are recorded faithfully", "statement": "The coordinates recorded for a string point identify the plaquette it was found on.", "quantifier": "every grid size and every string point", "why_tests_cant": "The failure needs grids larger than any test.", "anchors": ["lib/strings/strings.cpp", "lib/io/writeStringCo.cpp"]}
{"id": "C27", "title": "Unwrapping along a line removes all jumps", "statement": "After mending along z, every two consecutive values along the line, also across ranks, differ by at most pi times the scale factor; each value has changed by an integer multiple of the period and the conjugate velocity by the same multiple; the number reported is the number of shifts made; the loop stops.", "quantifier": "every initial field, number of ranks and depth", "why_tests_cant": "All inputs; termination.", "anchors": ["lib/scalar/mendThetaXeon.cpp: mendThetaLine"]}
{"id": "C28", "title": "Mending planes and volume removes the jumps and leaves clean rows alone", "statement": "Scanning a row forwards and backwards and writing only sites on which both agree changes each value by whole periods (and the velocity by as many units) and leaves rows without jumps untouched; a field that is a smooth closed angle up to whole periods becomes that angle up to one common number of periods on all ranks, whatever the sharing of lines among threads and the contents of their buffers; the loops end.", "quantifier": "every field, number of ranks, grid, vector width, sharing of the lines among threads and contents of scratch buffers", "why_tests_cant": "a missing jump pattern, a stale mask or a buffer section read before it is written shows only for particular rows and lane combinations", "anchors": ["lib/scalar/mendThetaXeon.cpp: mendThetaKernelXeon, mendThetaSlice, mendThetaXeon"]}
{"id": "C29", "title": "Masking marks exactly the sites near a defect", "statement": "After masking with radius r, a site carries the mask flag if and only if it carried it before or a defect lies within distance r of it, periodically, also across rank boundaries; no other flag of any site changes.", "quantifier": "every defect set, radius, grid and number of ranks", "why_tests_cant": "All configurations and decompositions.", "anchors": ["lib/spectrum/spectrum.cpp: SpecBin::maskball, inflsq"]}
{"id": "C30", "title": "Masking does not depend on thread timing", "statement": "The result of masking is the same for every interleaving of the threads.", "quantifier": "every schedule of the worker threads", "why_tests_cant": "Schedules cannot be enumerated by tests.", "anchors": ["lib/spectrum/spectrum.cpp: SpecBin::maskball"]}
{"id": "C31", "title": "Padding and unpadding are lossless", "statement": "Padding rows for a real-to-complex transform and unpadding gives back every row, in place or between any two buffers the interface allows, although source and destination overlap.", "quantifier": "every grid size, number of ghosts, pair of buffers and content", "why_tests_cant": "Overlap hazards depend on sizes.", "anchors": ["lib/spectrum/spectrum.cpp: SpecBin::pad, SpecBin::unpad", "lib/reducer/reducer.cpp: transformField"]}
{"id": "C32", "title": "The spectrum counts every mode once", "statement": "Summed over bins and ranks, the number of modes equals the number of grid points, and every mode falls in an existing bin.", "quantifier": "every grid length, depth, number of ranks and number of bins", "why_tests_cant": "All sizes.", "anchors": ["lib/spectrum/spectrum.cpp: SpecBin::fillBins, nmodRun", "include/spectrum/spectrum.h: SpecBin"]}
{"id": "C33", "title": "Spectra do not depend on the division of the work", "statement": "The binned spectrum is the same for any number of threads and ranks, and recomputing it gives the same answer.", "quantifier": "every mode content, thread and rank count, and call history", "why_tests_cant": "Schedules and histories.", "anchors": ["lib/spectrum/spectrum.cpp: SpecBin::fillBins", "include/spectrum/spectrum.h: reset0"]}
{"id": "C34", "title": "Reduction interpolates with unit weights and in a safe order", "statement": "Reducing the grid assigns to each coarse site a weighted mean of fine sites with non-negative weights summing to one (a constant field stays constant), computed from original values even when done in place, and reducing into a new field leaves the source untouched.", "quantifier": "every size pair and field", "why_tests_cant": "All sizes; aliasing.", "anchors": ["lib/reducer/reducer.cpp: transformField, runCpu"]}
{"id": "C35", "title": "Projection is the mean along z", "statement": "The projected map at (x,y) is the mean over all z of the whole box, for any number of ranks.", "quantifier": "every field, depth and rank count", "why_tests_cant": "All decompositions.", "anchors": ["lib/projector/projector.cpp"]}
{"id": "C36", "title": "Axiton bookkeeping keeps distinct points within the limit", "statement": "The list of tracked axitons never contains the same point twice and never exceeds the configured maximum per rank; points already tracked are never dropped or moved by later searches.", "quantifier": "every history of searches", "why_tests_cant": "Histories.", "anchors": ["include/axiton/trackerClass.h: AddAxiton, SearchAxitons"]}
{"id": "C37", "title": "Tracked points are read back where they were found", "statement": "The site an axiton is read from is the site at which it was found, whether the field is folded or not at either moment, and the printed coordinates are those of that site.", "quantifier": "every site, grid and vector width, folded or not", "why_tests_cant": "All sites; history of layout changes.", "anchors": ["include/axiton/trackerClass.h: ReadAxitons, SearchAxitons, PrintAxitons, foldidx, unfoldidx"]}
{"id": "C38", "title": "Grouping finds connected clusters", "statement": "Grouping tagged points puts two points in the same group if and only if they are joined by a chain of tagged neighbours; each tagged point is in exactly one group.", "quantifier": "every tag configuration and every order of seeds", "why_tests_cant": "All configurations and schedules.", "anchors": ["include/axiton/trackerClass.h: GroupTags, AddTagPoint"]}
{"id": "C39", "title": "The axion mass law is continuous and monotone", "statement": "The axion mass squared as a function of conformal time is non-negative, non-decreasing for a positive index, constant after the saturation time and continuous there.", "quantifier": "every time and every admissible parameter set", "why_tests_cant": "A continuum of times and parameters.", "anchors": ["lib/cosmos/cosmos.cpp: AxionMass2, AxionMassSqn", "include/cosmos/cosmos.h"]}
{"id": "C40", "title": "The axiton finder keeps the largest candidates", "statement": "The finder returns local maxima, in order, and no omitted local maximum is larger than a kept one.", "quantifier": "every field", "why_tests_cant": "All inputs.", "anchors": ["lib/scalar/scalarField.cpp: axitonfinder"]}
{"id": "C41", "title": "String-core correction stays inside its table", "statement": "The lookup used to correct velocities near string cores reads only entries of its table and interpolates between the entries surrounding the arguments.", "quantifier": "every argument in the accepted range", "why_tests_cant": "Boundary arguments.", "anchors": ["lib/utils/kgvops.cpp: stringcorre", "include/spectrum/LLUTs.h"]}
{"id": "C42", "title": "Flag sets can be decoded", "statement": "Option and status words built by combining flags can be decoded without ambiguity: potential families, evolution flags, propagator kind and stencil bits occupy disjoint bits, and every string flag word decodes to the flags that were set.", "quantifier": "every combination of flags", "why_tests_cant": "All combinations.", "anchors": ["include/enum-field.h"]}
{"id": "C43", "title": "Vector lane shuffles implement the neighbour rotation", "statement": "For every instruction set the shuffle used at the first and last row of a folded slice moves each lane to its neighbour lane cyclically, for real and complex vectors, and the two shuffles are inverse to one another.", "quantifier": "every vector content and every supported vector width", "why_tests_cant": "All contents; each instruction set needs its own machine.", "anchors": ["include/propagator/inLapla.h: lap_pd, lap_ps", "include/propagator/propXeon.h", "include/propagator/propThetaXeon.h"]}
{"id": "C44", "title": "Low-memory mode computes the same evolution", "statement": "Running the same evolution in low-memory mode gives the same field as in normal mode.", "quantifier": "every field, background, scheme and number of steps", "why_tests_cant": "All histories.", "anchors": ["include/propagator/propClass.h: lowCpu, sRunCpu"]}
{"id": "C45", "title": "Vector code adds the two components of each number", "statement": "Wherever the vector kernels form a scalar product or squared modulus inside a register, both lanes of each complex number end up with the sum of the two components, on every instruction set.", "quantifier": "every register content and instruction set", "why_tests_cant": "All contents; each instruction set needs its own machine.", "anchors": ["include/propagator/propXeon.h: propagateKernelXeon", "include/utils/simd.h"]}
{"id": "C46", "title": "Destroying a field releases all its memory once", "statement": "Destroying a field, whatever changes of type and size it has gone through, releases every block its creation obtained, each once, releases nothing else, and leaves the memory totals as they were before its creation.", "quantifier": "every creation and every history of changes of type and size", "why_tests_cant": "All histories: a leak or a double release needs a particular sequence and a memory checker.", "anchors": ["lib/scalar/scalarField.cpp: Scalar::Scalar, Scalar::~Scalar, setField", "lib/utils/memAlloc.cpp"]}
{"id": "C47", "title": "Transforms stay inside the buffers of the field", "statement": "Every Fourier transform the program can plan for a field reads and writes only inside the field's own buffers, and its two sides are the same region or disjoint.", "quantifier": "every grid size, number of slices, ghost depth, precision and field type", "why_tests_cant": "All sizes; an overrun corrupts silently.", "anchors": ["lib/fft/fftCode.cpp: initPlan", "lib/scalar/scalarField.cpp: Scalar::Scalar"]}
{"id": "C49", "title": "Slices stay aligned", "statement": "Every slice of the field and velocity starts at a multiple of the register width, for every field the constructor accepts and after every change of type.", "quantifier": "every grid side, instruction set, precision and history of type changes", "why_tests_cant": "All sizes: aligned loads fault only on particular machines and sizes.", "anchors": ["lib/scalar/scalarField.cpp: Scalar::Scalar, setField", "include/scalar/scalarField.h: mStart, vStart"]}
{"id": "C48", "title": "Changing the representation of a field keeps every site's own value", "statement": "Turning a complex field with at least one ghost slice into an angle field, an angle field into a complex, Naxion or Paxion field, rewrites the buffers in place; whatever the order of the threads, each site of the result is computed from the old value and velocity of that same site, and no word outside the field (and the ghost slices used as scratch) changes.", "quantifier": "every field, slice size, number of slices and ghosts, and every thread order", "why_tests_cant": "Overlapping in-place conversion: hazards depend on sizes and schedules.", "anchors": ["lib/scalar/thetaXeon.cpp: toThetaKernelXeon", "lib/scalar/theta2CmplxXeon.cpp: th2cxXeon", "lib/scalar/theta2NaxionXeon.cpp: th2NaxionXeon", "lib/scalar/theta2PaxionXeon.cpp: th2PaxionXeon"]}
{"id": "C50", "title": "Conversions carry values and velocities correctly", "statement": "Turning a complex field into an angle field gives the scale factor times the phase and its conformal time derivative; turning an angle field into a complex field gives a complex field with that phase whose velocity is its conformal time derivative; there and back gives the angle one started with.", "quantifier": "every modulus, phase and velocity, scale factor and time", "why_tests_cant": "A continuum of values.", "anchors": ["lib/scalar/thetaXeon.cpp: toThetaKernelXeon", "lib/scalar/theta2CmplxXeon.cpp: th2cxXeon"]}
{"id": "C51", "title": "Every log message reaches the log exactly once", "statement": "Every message logged on any rank is delivered to the log file of rank 0 exactly once, in whatever order sends complete.", "quantifier": "every sequence of log calls and every behaviour of the message layer", "why_tests_cant": "Asynchronous completion: schedules cannot be enumerated.", "anchors": ["include/utils/logger.h: Logger::operator(), Msg::operator="]}
{"id": "C52", "title": "Domain walls are flagged where an edge crosses the negative real axis", "statement": "After a string search a site carries the wall flag if and only if one of its edges towards +x, +y or +z passes through the negative real axis from one half plane to the other; the wall counter is the number of such sites.", "quantifier": "every field, grid, order of threads and supported instruction set", "why_tests_cant": "The condition is evaluated through a product of differences in vector lanes; tests see a few fields.", "anchors": ["lib/strings/stringXeon.cpp: stringWallD, stringWallS, stringKernelXeon", "lib/strings/strings.cpp"]}
{"id": "C53", "title": "Every tracked point is written once", "statement": "Writing the tracked points to the file writes each point of each rank exactly once, in order, by the rank that owns it.", "quantifier": "every number of ranks and of points per rank", "why_tests_cant": "All distributions of points among ranks, including ranks without points.", "anchors": ["include/axiton/trackerClass.h: PrintAxitons"]}
{"id": "C54", "title": "A saved field is restored exactly", "statement": "A field written to a configuration file and read back is the same field at every site: whatever number of ranks wrote it, whatever number (dividing the depth) reads it, in whatever order the slices reach the file; ghost slices and the rest of the arrays are untouched and no place that was never written is read. The file does not depend on the number of writers. A depth the reading ranks do not divide is refused.", "quantifier": "all fields, box sizes, numbers of writing and reading ranks, orders of the writes, contents of unwritten places", "why_tests_cant": "needs all rank counts and write orders; tests run one", "anchors": ["lib/io/readWrite.pHdf5.cpp: writeConf", "lib/io/readWrite.pHdf5.cpp: readConf"]}
{"id": "C55", "title": "A restored field has the kind and the size asked for", "statement": "Every kind of field that can be saved comes back as the same kind, and a size asked for when reading is the size of the field that results.", "quantifier": "all kinds of field, all pairs of file size and requested size", "why_tests_cant": "all pairs of sizes", "anchors": ["lib/io/readWrite.pHdf5.cpp: readConf"]}
{"id": "C56", "title": "A continued run has the parameters asked for, else the saved ones", "statement": "When a run is continued from a file, each physical parameter (box size, coupling, axion mass prefactor and exponent, thresholds, damping, decay time, expansion) is the one on the command line if given, else the one of the saved run.", "quantifier": "all saved runs, all lists of options in any order", "why_tests_cant": "all combinations of options and saved values", "anchors": ["lib/utils/parse.cpp: parseArgs", "lib/utils/parse.cpp: createCosmos", "lib/io/readWrite.pHdf5.cpp: writeConf", "lib/io/readWrite.pHdf5.cpp: readConf", "include/cosmos/cosmos.h: Cosmos"]}
{"id": "C57", "title": "A continued run has the potential asked for, else the saved one", "statement": "When a run is continued from a file, each part of its potential (QCD part, Peccei-Quinn part, damping, restricted evolution) is the one on the command line if given, else that of the saved run; a fresh run has the last one asked for.", "quantifier": "all lists of options, all saved potentials, any number of continuations", "why_tests_cant": "all combinations of flags and histories of runs", "anchors": ["lib/utils/parse.cpp: parseArgs", "lib/utils/parse.cpp: createCosmos", "lib/io/readWrite.pHdf5.cpp: writeConf", "lib/io/readWrite.pHdf5.cpp: readConf"]}
{"id": "C58", "title": "A saved file remembers how its field was made", "statement": "The kind of initial condition and its variant stored in a file come back when it is read, and their names fit the buffers they are printed into.", "quantifier": "all kinds and variants, all contents of uninitialised buffers, all previous values", "why_tests_cant": "depends on uninitialised memory", "anchors": ["lib/io/readWrite.pHdf5.cpp: writeConf", "lib/io/readWrite.pHdf5.cpp: readConf", "include/enum-field.h: ConfType, ConfsubType"]}
{"id": "C59", "title": "The rates of the background are derivatives", "statement": "The quoted time derivative of the axion mass squared, the quoted rates R'/R and R''/R and the conformal Hubble rate are the derivatives of the mass and of the scale factor the same object returns.", "quantifier": "every time and every admissible parameter set, with and without the matter term", "why_tests_cant": "a derivative is a limit over a continuum of times", "anchors": ["lib/cosmos/cosmos.cpp: DAxionMass2Dct, Rp, Rpp, R, DlogMARDlogct", "lib/scalar/scalarField.cpp: HubbleConformal"]}
{"id": "C60", "title": "The integrals of the mass are integrals", "statement": "The quoted first and second time integrals of mass squared times a power of the scale factor are zero at the lower end and have the integrand, respectively the first integral, as derivative, for every pair of times.", "quantifier": "all pairs of times, all parameter sets and powers", "why_tests_cant": "a continuum of pairs of times on either side of the threshold", "anchors": ["lib/scalar/scalarField.cpp: IAxionMassSqn, IIAxionMassSqn"]}
{"id": "C61", "title": "The time step is positive, stable and does not skip the threshold", "statement": "The suggested time step is positive, its product with the frequency of the fastest mode the grid holds is at most the safety factor, and a step that would pass the saturation of the mass ends just after it.", "quantifier": "all times, parameter sets, grid spacings, kinds of field", "why_tests_cant": "a continuum of times and parameters", "anchors": ["lib/scalar/scalarField.cpp: dzSize"]}
{"id": "C62", "title": "The vacuum shift is the minimum of the tilted potential", "statement": "One plus the quoted shift is the only stationary point of the potential along the vacuum direction not below one, for the time asked for.", "quantifier": "all mass and coupling values, both time arguments, the first and second Peccei-Quinn potentials", "why_tests_cant": "a continuum of parameters; a closed formula with two branches", "anchors": ["lib/scalar/scalarField.cpp: SaxionShift, Saskia", "include/scalar/scalarField.h: rsvPQ2"]}
{"id": "C63", "title": "Fat strings keep their width, physical strings their mass", "statement": "With the coupling falling as the square of the scale factor the string width in sites is the same at all times; with a constant coupling the saxion mass is.", "quantifier": "all pairs of times and parameter sets", "why_tests_cant": "a continuum of times", "anchors": ["lib/scalar/scalarField.cpp: Msa", "lib/cosmos/cosmos.cpp: LambdaP, SaxionMass2"]}
{"id": "C64", "title": "The point of a string in a plaquette is where the field vanishes", "statement": "In every plaquette pierced by a string the search for the crossing point returns a point of that plaquette, and when the field varies linearly over the plaquette it vanishes at the returned point.", "quantifier": "all four corner values of a plaquette around which the phase winds", "why_tests_cant": "a continuum of corner values; the branches depend on signs of products", "anchors": ["lib/strings/length.cpp: setCross"]}
{"id": "C65", "title": "The length of strings is that of the segments between their points", "statement": "In every unit cube the number of string ends is even, there is one on each face pierced by a string, each where the field vanishes, and the length counted is the mean over the ways to join them; the total is the sum over all cubes of the box and does not depend on the number of ranks.", "quantifier": "all fields in general position, all cubes, all numbers of ranks", "why_tests_cant": "all fields and decompositions", "anchors": ["lib/strings/length.cpp: stringlength, stringlength2", "lib/strings/strings.cpp: strings2"]}
{"id": "C66", "title": "String speeds are averages of speeds below that of light", "statement": "The quoted mean speed, mean squared speed and mean Lorentz factor are the averages over pierced plaquettes, weighted with the Lorentz factor, of speeds below one, and are numbers whenever they are printed.", "quantifier": "all fields, velocities and numbers of strings", "why_tests_cant": "a continuum of field values", "anchors": ["lib/strings/length.cpp: stringlength"]}
{"id": "C67", "title": "The axion mass is the one that was asked for", "statement": "On the vacuum circle, an update of the velocity of the complex field pulls the angle with the slope of the chosen QCD potential times the mass squared and the square of the scale factor, whatever the precision, instruction set, memory layout and saxion potential.", "quantifier": "all angles, scale factors, masses, time steps, neighbours and register positions, each QCD potential, precision, instruction set and memory layout", "why_tests_cant": "a continuum of fields times dozens of compiled variants", "anchors": ["include/propagator/propXeon.h: propagateKernelXeon, updateVXeon", "include/utils/triSimd.h: vqcd0_pd, vqcd0_ps", "include/enum-field.h: VqcdType"]}
{"id": "C69", "title": "Memory layout, precision and processor do not change the equations of motion", "statement": "With the same field, velocity and neighbours, the velocity after an update is the same number whether or not low memory is asked for, in either precision (up to rounding) and on each instruction set.", "quantifier": "all pairs of configurations, all potentials and dampings, all fields, all positions in a register", "why_tests_cant": "pairs of builds on a continuum of inputs", "anchors": ["include/propagator/propXeon.h: propagateKernelXeon, updateVXeon", "include/propagator/propClass.h: sRunCpu, lowCpu"]}
{"id": "C70", "title": "Damping acts on what it names, with the rate given", "statement": "Damping of the modulus is a centred friction of rate gamma/R (times R^2 over the decoupling time if given) on the motion of the modulus relative to the vacuum and leaves the motion of the angle alone; damping of everything is the same friction on the whole velocity and never makes it grow.", "quantifier": "all fields, velocities, rates and time steps with 1 + G dz/2 nonzero, all positions in a register", "why_tests_cant": "a continuum of states and every lane of every instruction set", "anchors": ["include/propagator/propXeon.h: propagateKernelXeon, updateVXeon", "include/utils/triSimd.h"]}
{"id": "C71", "title": "Evolving only the modulus or only the angle does what it says", "statement": "With --onlyrho the angle of the field at each site never changes, over any number of updates; with --onlytheta the velocity along the field is that of the vacuum while the angle moves as without the option.", "quantifier": "all numbers of updates, fields, neighbours, potentials and dampings", "why_tests_cant": "unbounded number of updates on a continuum of states", "anchors": ["include/propagator/propXeon.h: propagateKernelXeon, updateVXeon", "lib/utils/parse.cpp: --onlyrho, --onlytheta"]}
{"id": "C72", "title": "The reported energies are the energies of the field", "statement": "The averages that the energy calculation reports for the complex field (gradient, kinetic and potential energies of the angle and of the modulus, mean modulus) are the averages over all sites of all ranks of the physical energy densities of the field phi = m/R, however the box is split among ranks and threads.", "quantifier": "all boxes, splittings among ranks and threads, fields and velocities, backgrounds, potentials, precisions", "why_tests_cant": "a continuum of fields, all sizes and all splittings", "anchors": ["lib/energy/energy.cpp: energy", "lib/energy/energyXeon.cpp: energyKernelXeon, energyCpu"]}
{"id": "C73", "title": "The energy map holds the density and the masked energies are averages over the mask", "statement": "A requested map holds at every site the energy density, split into the parts of the angle and of the modulus, and its mean is the reported energy; requests that do not ask for a map leave the buffer alone; masked energies are averages over exactly the masked sites and the number of masked sites is exact whatever the order in which threads run.", "quantifier": "all boxes, masks, thread schedules, requests and fields", "why_tests_cant": "all schedules of threads and all fields", "anchors": ["lib/energy/energy.cpp: energy", "lib/energy/energyXeon.cpp: energyKernelXeon, energyCpu", "include/enum-field.h: EnType, EnergyIdx"]}
{"id": "C68", "title": "The force is the gradient of the reported potential energy", "statement": "The acceleration that an update applies to the complex field, apart from the Laplacian and the expansion, is minus R^4 times the gradient of the potential energy that the energy calculation reports: along every curve of field values the reported potential energy changes at the rate of minus force times velocity.", "quantifier": "all fields, directions, backgrounds, potentials, precisions, instruction sets and both memory layouts", "why_tests_cant": "a continuum of fields and directions", "anchors": ["include/propagator/propXeon.h: propagateKernelXeon, updateVXeon", "lib/energy/energyXeon.cpp: energyKernelXeon", "lib/energy/energy.cpp: energy"]}
{"id": "C74", "title": "The reported total energy is conserved without expansion", "statement": "In a periodic box of any size that does not expand, if every site moves with its velocity and every velocity with the acceleration that the update applies, the sum of the reported energies does not change.", "quantifier": "all box sizes, fields, velocities, potentials, precisions, stencils and splittings among ranks and threads", "why_tests_cant": "all sizes and a continuum of states and motions", "anchors": ["include/propagator/propXeon.h", "lib/scalar/scalarField.cpp: setCO", "lib/energy/energyXeon.cpp: energyKernelXeon", "lib/energy/energy.cpp: energy"]}
{"id": "C75", "title": "The axion-only field is evolved by its equation of motion", "statement": "An update of the field that holds only the axion gives every site the acceleration of the axion equation: Laplacian, expansion, and minus the derivative of the announced axion potential.", "quantifier": "all field values, velocities, neighbours, backgrounds, potentials and precisions", "why_tests_cant": "a continuum of states for every potential", "anchors": ["include/propagator/propThetaXeon.h: propThetaKernelXeon, propagateKernelXeon", "include/enum-field.h: VqcdType"]}
{"id": "C76", "title": "The energies reported for the axion-only field are those of the field", "statement": "For a field that holds only the axion, the reported gradient, kinetic and potential energies are the averages over the box of the densities of the angle, with the shortest way between neighbours for fields kept within a period; the energy map holds the density at every site and its mean is the reported total.", "quantifier": "all fields, velocities, box sizes, backgrounds, precisions, instruction sets and splittings among ranks and threads", "why_tests_cant": "a continuum of fields and every way of splitting the box", "anchors": ["lib/energy/energyThetaXeon.cpp: energyThetaKernelXeon, energyThetaCpu", "lib/energy/energy.cpp: energy", "include/utils/triSimd.h: mod_pd, mod_ps"]}
{"id": "C77", "title": "The energy of the axion-only field is conserved without expansion", "statement": "In a periodic box of any size that does not expand, if every site of the axion-only field moves with its velocity and every velocity with the acceleration the update applies, the sum of the reported energies does not change, for fields kept within a period too.", "quantifier": "all box sizes, fields, velocities, potentials, precisions, instruction sets and stencils", "why_tests_cant": "all sizes and a continuum of states and motions", "anchors": ["include/propagator/propThetaXeon.h", "lib/energy/energyThetaXeon.cpp", "lib/energy/energy.cpp: energy", "lib/scalar/scalarField.cpp: setCO"]}
{"id": "C78", "title": "Fields that differ by whole turns are the same field", "statement": "For the axion-only field kept within a period, two fields that differ by whole turns at any sites have the same Laplacian and energies, receive the same acceleration, and an update leaves them at the same angles.", "quantifier": "all fields, sets of turns, velocities, boxes, stencils, backgrounds and potentials", "why_tests_cant": "a continuum of fields and unboundedly many turns", "anchors": ["include/propagator/propThetaXeon.h", "lib/energy/energyThetaXeon.cpp", "include/utils/triSimd.h: mod_pd, mod_ps"]}
{"id": "C79", "title": "Every rising table can be interpolated and the curve passes through its points", "statement": "A table is accepted exactly when it has as many values as abscissas, more than two, and the abscissas rise; then the curve takes the tabulated value at every tabulated abscissa, is one cubic between neighbours, and the system solved for it, of any size and band width, is really solved.", "quantifier": "all tables, end conditions, extrapolation options and modes; all band matrices", "why_tests_cant": "tables of any length and a continuum of values", "anchors": ["include/WKB/spline.h: band_matrix, spline::set_points, spline::operator()"]}
{"id": "C80", "title": "The interpolated curve is smooth and its reported derivatives are its derivatives", "statement": "The first, second and third derivatives returned for the curve are the derivatives of the curve at every point, the second is continuous inside the table, the conditions asked for at the ends are met, and extrapolation is linear when it is asked to be.", "quantifier": "all tables, end conditions, extrapolation options and points", "why_tests_cant": "a continuum of points and tables", "anchors": ["include/WKB/spline.h: spline::deriv, spline::operator(), spline::set_points"]}
{"id": "C81", "title": "Interpolation reproduces what it can represent and respects units", "statement": "A cubic whose end conditions are given is reproduced exactly; with the default ends straight lines are reproduced everywhere; the curve depends linearly on the values and does not depend on the unit of the abscissa. The curve of a rising positive table rises and stays positive.", "quantifier": "all tables, polynomials of degree three or less, factors and points", "why_tests_cant": "a continuum of tables and points", "anchors": ["include/WKB/spline.h: spline"]}
{"id": "C82", "title": "Linear interpolation joins the points by straight lines", "statement": "In linear mode the curve is the chord between neighbours, stays between their values, and is continued by the outermost chords beyond the ends, whatever the object was used for before.", "quantifier": "all tables, histories of the object and points", "why_tests_cant": "a continuum of tables and every history of reuse", "anchors": ["include/WKB/spline.h: spline::set_points"]}
{"id": "C83", "title": "A cosmology read from a table is used in units of the time that belongs to the decay constant", "statement": "With a tabulated cosmology, the unit of time is the one where the last column is the logarithm of the decay constant to one part in 10^5, and scale factor and squared axion mass are one at time one; temperature, scale factor, its second derivative and mass at any time are those of the smooth curve through the table.", "quantifier": "all tables, decay constants, times, and values of memory that the program does not set", "why_tests_cant": "a continuum of tables, and uninitialised memory", "anchors": ["lib/cosmos/cosmos.cpp: Cosmos::Setup, R, T, Rpp, TopSus, AxionMass2", "include/WKB/spline.h"]}
{"id": "C84", "title": "The rates of a tabulated cosmology are the derivatives of what they name", "statement": "With a tabulated cosmology, the expansion rate, the rate of the squared mass and the logarithmic rate of the mass times the scale factor are the derivatives of the interpolated curves, up to the error of a central difference.", "quantifier": "all tables and times", "why_tests_cant": "a continuum of tables and times", "anchors": ["lib/cosmos/cosmos.cpp: Cosmos::Rp, DAxionMass2Dct, DlogMARDlogct"]}
{"id": "C85", "title": "Smoothing is repeated averaging over the six neighbours of the periodic box", "statement": "Smoothing an initial field n times replaces it n times by alpha times itself plus 1-alpha times the mean of its six neighbours in the periodic box, whatever the number of ranks and the order in which messages arrive. It keeps the mean, stays inside the convex hull of the values, never raises the gradient energy, and multiplies every plane wave by one known factor between 2 alpha - 1 and 1.", "quantifier": "all fields, sizes, numbers of ranks, iterations, weights and message orders", "why_tests_cant": "unboundedly many sizes, splits and message orders", "anchors": ["lib/gen/smoothXeon.cpp: Smoother::smoothCore, iteraXeon, smoothXeon"]}
{"id": "C86", "title": "Normalising, scaling and the core profile do to each number what they say", "statement": "Normalising gives every number modulus one and keeps its phase; the core profile sets the modulus by the local winding and keeps the phase; scaling multiplies the field named; the mean modulus is the mean of the moduli. Nothing else is written.", "quantifier": "all fields, sizes, precisions and memory modes", "why_tests_cant": "continuum of fields; every choice of field and memory mode", "anchors": ["lib/scalar/normXeon.cpp: normaliseXeon", "lib/scalar/normCoreXeon.cpp: normCoreXeon", "lib/scalar/scaleXeon.cpp: scaleXeon", "lib/gen/genConf.cpp: anymean, axby, mulmul"]}
{"id": "C87", "title": "The smoothed start has the field and the velocity it is documented to have", "statement": "The configurations made by smoothing end with the smoothed, normalised field times the scale factor and with the velocity that belongs to it, on every rank.", "quantifier": "all fields, sizes, ranks, message orders and options", "why_tests_cant": "every option combined with every field", "anchors": ["lib/gen/genConf.cpp: ConfGenerator::confsmooth, conflola"]}
{"id": "C88", "title": "The named initial configurations are what their names say", "statement": "Lumps are Gaussians of the wanted height and width around their centre with nearest images, noise lies in its bounds, loops have the angle of a string loop, and the result is the same for every number of ranks.", "quantifier": "all sizes, parameters, precisions, numbers of ranks and random draws", "why_tests_cant": "all parameters and splits", "anchors": ["lib/gen/randXeon.cpp: randXeon, randConf"]}
{"id": "C89", "title": "Putting waves on strings gives the product field and its derivative", "statement": "When waves psi with velocity psi' are put on strings phi at rest, the result is R phi exp(i psi/R) and its velocity is the derivative of that, whatever the threads do; and the waves are those computed before the strings.", "quantifier": "all fields, sizes, backgrounds and interleavings of threads", "why_tests_cant": "every interleaving of threads", "anchors": ["lib/gen/genConf.cpp: ConfGenerator::confspax, putxi", "lib/gen/smoothXeon.cpp: smoothXeon"]}
{"id": "C90", "title": "A step of the nonrelativistic field follows the Schroedinger equation of its background", "statement": "One step of the field psi = m + i v advances the time by the step and, for small steps, the field by the rate of i psi' = - lap psi/(2 mA R) - (beta |psi|^2/(8 R^2) - mA g phi) psi, in any expansion and era of the mass; the weights of a finite step are the integrals of those rates, the potential part keeps |psi|^2 at each site, and a uniform field turns by the integral of its rate.", "quantifier": "all fields, boxes, numbers of neighbours, times, steps, expansions, mass laws, couplings and potentials", "why_tests_cant": "a limit in the step for every field and background", "anchors": ["include/propagator/propPaxXeon.h: propagatePaxKernelXeon", "include/propagator/propClass.h: pRunCpu"]}
{"id": "C91", "title": "Starting the nonrelativistic field from an axion field describes the same field", "statement": "The change of variables gives psi whose oscillation at the conformal mass has, at the start, the value and velocity of the axion field at every site; it writes all sites, no ghost of m, and nothing outside the arrays.", "quantifier": "all fields, sizes, ghost depths and backgrounds", "why_tests_cant": "every background and every size of ghosts", "anchors": ["lib/scalar/theta2PaxionXeon.cpp: thetaToPaxionXeon", "lib/scalar/scalarField.cpp: Scalar::setField, Scalar::Scalar"]}
{"id": "C92", "title": "Evolving the nonrelativistic field keeps its number and does not blow up", "statement": "The Schroedinger equation keeps the number of particles that is reported, in any expansion and with any interaction. The update keeps the sums of both parts of a free field; with the step the program picks, a free mode of the box stays bounded for any number of steps.", "quantifier": "all fields, boxes, modes, steps, numbers of steps", "why_tests_cant": "any number of steps and every mode of every box", "anchors": ["include/propagator/propClass.h: pRunCpu", "lib/scalar/scalarField.cpp: Scalar::dzSize", "lib/energy/energyPaxionXeon.cpp: energyPaxionKernelXeon"]}
{"id": "C93", "title": "The energies of the nonrelativistic field are those of its Hamiltonian", "statement": "The reported numbers are the averages over all sites, however these are split over ranks, threads and registers, of |grad psi|^2/(2 mA R^5), |psi|^2 and - |psi|^4/(16 R^6); the map has the number and energy of each site at its place inside its memory; the energy is conserved by the equation in a box that does not expand.", "quantifier": "all fields, boxes, splits, instruction sets, precisions and ghost depths", "why_tests_cant": "every field and every split over ranks, threads and registers", "anchors": ["lib/energy/energyPaxionXeon.cpp: energyPaxionKernelXeon, energyPaxionCpu", "lib/energy/energy.cpp: energy"]}
{"id": "C94", "title": "The void mapping of the Gadget file weighs what the box weighs", "statement": "For every density on a cubic grid and every split over ranks, the void mapping writes exactly the number of particles of its header, each at a grid site, with masses proportional to the density there and adding up to the mass of the box; identifiers are distinct.", "quantifier": "all densities, grid sizes, numbers of ranks and requested particles", "why_tests_cant": "The counts and masses depend on the grid size through 32-bit products, on the number of particles through integer divisions and on how sites fill slabs; a test sees one size with one particle per site.", "anchors": ["lib/gadget/gadget_output.cpp createGadget_Void", "test/gadgetme.cpp"]}
{"id": "C95", "title": "Velocities, displacements and interpolation of the Gadget file", "statement": "The velocity of a particle is the gradient of the phase of the field over the conformal mass, smoothed if asked; displaced particles get the trilinear interpolation of the surrounding sites; scattered particles stay in the box at the periodic image of their place.", "quantifier": "all fields, sites including the edges of the box, displacements and options", "why_tests_cant": "Edges, the branch of the angle and options that overwrite each other's buffers are rare cases; a test on a smooth field in the middle of the box sees none.", "anchors": ["lib/gadget/gadget_output.cpp grad_idx CIC_interp set_velo_fields gaussSmooth", "include/utils/index.h idx2VecNeigh", "test/gadgetme.cpp"]}
{"id": "C96", "title": "The halo mapping gives every site its particles", "statement": "For every density, split over ranks and all random draws, the numbers of particles of the sites add up to the requested number and each is within one of the density in particles per site; the balancing loop ends.", "quantifier": "all densities, splits and sequences of random draws", "why_tests_cant": "The draws are different in every run, and the loop that balances may take any number of turns.", "anchors": ["lib/gadget/gadget_output.cpp createGadget_Halo"]}
{"id": "C97", "title": "The halo mapping writes every particle once", "statement": "For all counts, the file holds each particle of each site once and nothing else; particles moved between ranks are neither lost nor doubled, and every request of a rank is answered.", "quantifier": "all counts of particles per site, slab sizes and excesses of the ranks", "why_tests_cant": "Which rank lacks particles, and where a slab ends inside a site, depends on the random counts; a deadlock needs a particular remainder.", "anchors": ["lib/gadget/gadget_output.cpp createGadget_Halo"]}
{"id": "C98", "title": "WKB transport moves each mode as a solution of the wave equation", "statement": "Moving a mode of an axion field from one time to another with the WKB transport is linear, keeps real fields real, keeps the Wronskian of any two solutions, gives a velocity that is the rate of the field it gives, and obeys the wave equation of the growing mass up to a term bounded by a constant over the square of the time; over no time it leaves the mode alone, and two moves in a row are one.", "quantifier": "every mode, momentum, initial and final time, amplitude, velocity and axion mass law in a radiation background", "why_tests_cant": "the transport is a formula in real variables: that its velocity is the derivative of its field and that the error term stays bounded are statements about all times and momenta", "anchors": ["lib/WKB/WKB.cpp: WKB::doWKBinplace, WKB::doWKB", "include/WKB/WKB.h"]}
{"id": "C99", "title": "The WKB phase of every mode grows as its frequency", "statement": "The phase by which the WKB transport turns a mode starts at 0 and grows, with the final time, as the frequency sqrt(k^2 + (m z)^2) of the mode; the phases of consecutive moves add up; a massless mode turns by k times the time elapsed.", "quantifier": "every tabulated momentum, initial and final time before or after the mass freezes, and every mass law", "why_tests_cant": "the phase is a hypergeometric function of momentum and time: that its derivative is the frequency for every index n of the mass law is an identity about an infinite series", "anchors": ["lib/WKB/WKB.cpp: calculatePhi, con2F1, v2h2F1, WKB::doWKBinplace, WKB::doWKB"]}
{"id": "C100", "title": "Each WKB mode gets the momentum of its place in the transposed transform, and a phase from the table", "statement": "The momentum used for each mode is that of its indices folded around the box; no mode is left out; the table of phases can always be made, reaches beyond the largest momentum, and at a tabulated momentum the phase used is the tabulated one, so such a mode may be moved in one step or in two.", "quantifier": "every box, number of ranks, rank and mode, and every momentum of the table", "why_tests_cant": "the index arithmetic depends on the number of ranks and on the box sides, which tests fix", "anchors": ["lib/WKB/WKB.cpp: WKB::doWKBinplace, WKB::doWKB", "include/utils/utils.h"]}
{"id": "C101", "title": "Moving a whole field with the WKB transport", "statement": "Moved over no time the field and its velocity come back as they were; a massive field is always moved; the result is at the time asked for, unfolded, and depends only on the modes the object was made with, so calls may be repeated in any order; the padded modes fit the arrays; a saxion field is refused and left alone.", "quantifier": "every field, grid, number of ranks and ghost slices, sequence of target times, and every pair of transforms inverse to each other", "why_tests_cant": "repeated calls, array sizes and the number of ghost slices vary beyond any set of test runs", "anchors": ["lib/WKB/WKB.cpp: WKB::WKB, WKB::operator(), WKB::doWKBinplace, WKB::doWKB"]}
{"id": "C102", "title": "The gravitational potential solves Poisson's equation", "statement": "For any density, on any number of ranks that share the grid evenly and in boxes of any shape, the potential found by transforms is defined; its Laplacian, mode by mode, is the density without its mean, and the mean of the potential is zero.", "quantifier": "every grid shape, rank count, density and box size, and every pair of transforms inverse to each other up to the number of sites", "why_tests_cant": "A test compares a few densities on one shape of box and one number of ranks", "anchors": ["include/gravity/potentialClass.h: GraVi::solveFullFFT, normilap"]}
{"id": "C103", "title": "Gravity is sourced by the density contrast of a normalised field", "statement": "Before solving, the mean over the whole box is taken away from the density, so that the contrast adds up to zero whatever the number of ranks; normalising the field makes the mean of |psi|^2 equal to 1, changes the field by one positive factor only, and leaves the self-interaction energy per particle unchanged.", "quantifier": "every field, self-coupling, grid and number of ranks", "why_tests_cant": "The mean is right on one rank, where tests run", "anchors": ["include/gravity/potentialClass.h: mean, normaliseFields", "include/gravity/gravityPaxionXeon.h: KIDI_ADD, KIDI_ENE"]}
{"id": "C104", "title": "The reduced grid of the hybrid solver", "statement": "Reducing by a factor keeps one site out of so many in each direction and expanding gives every site the value of its cell, although both are done in place by many threads; the transform on the reduced grid divides by the right momenta on any number of ranks, and the result is placed at the centres of the cells.", "quantifier": "every grid, vector width, factor, order of the threads and number of ranks", "why_tests_cant": "Overwriting before reading shows only for some shapes and schedules", "anchors": ["include/gravity/potentialClass.h: rfuap, eguf, ilap"]}
{"id": "C105", "title": "Relaxation and the choice of the gravity solver", "statement": "Relaxation leaves unchanged exactly the potentials that satisfy the discrete Poisson equation, whatever the order of the threads; it smooths: it does not create new extremes and keeps the sum; it works in both precisions; and tuning picks the fastest of the methods on every grid the program accepts.", "quantifier": "every potential, source, order of sites, late reads, stencil, precision and measured times", "why_tests_cant": "Orders of threads and stale reads cannot be enumerated by running", "anchors": ["include/gravity/gravityPaxionXeon.h: graviPaxKernelXeon (KIDI_SOR)", "include/gravity/potentialClass.h: solveHybrid, tunehybrid"]}
{"id": "C106", "title": "The two-dimensional maps show the slice they name, of the whole box", "statement": "The slice maps, the plane maps, the energy map and the projection a measurement writes hold, for every row and column of the whole box, the value of the field (or the sum along the depth) of exactly the sites they say, whichever ranks hold them; no other dataset of the file and no value of the field changes; a map that cannot be made is refused without stopping the run.", "quantifier": "every field, number of ranks, side, depth, chosen slice and content of the auxiliary buffer, and every order in which ranks write", "why_tests_cant": "the mapping goes through hyperslab offsets that depend on the number of ranks, the ghost slices and the kind of field; a test fixes one of each and usually one rank", "anchors": ["lib/io/readWrite.pHdf5.cpp: writeMapHdf5s, writeMapHdf5s2, writeEMapHdf5s, writePMapHdf5s", "lib/meas/measa.cpp", "lib/projector/projector.cpp"]}
{"id": "C107", "title": "Each spectrum of a measurement is under its own name", "statement": "Every spectrum asked of a measurement (of each quantity, outside each mask, for each radius) is in the file once, under the name of that quantity, mask and radius, and was computed from that quantity and with that mask at that radius; no spectrum that was not asked for is written.", "quantifier": "every set of masks, list of radii, choice of quantities, kind of field and combination with energy maps, energy spectra and mask measurements", "why_tests_cant": "the masks and spectra share three buffers and a set of status flags, so one request changes what another reads; there are thousands of combinations and the wrong numbers look plausible", "anchors": ["lib/meas/measa.cpp: Measureme", "lib/spectrum/spectrum.cpp: nRun, nSRun, masker, pRun", "lib/utils/kgvops.cpp", "lib/io/readWrite.pHdf5.cpp: writeArray"]}
{"id": "C108", "title": "A field goes to momentum space and back unchanged", "statement": "Calling the field transform forward on field and velocity and then backward, with nothing in between, ends without writing outside the field and leaves field, velocity and flags as they were (a folded field is left unfolded); in between the modes are the transform of the field divided by the number of sites. A field already in momentum space is not transformed again. The same holds for complex and real fields and for any number of ghost slices.", "quantifier": "every pair of linear transforms that undo each other up to the number of sites, every grid, number of ranks, ghost slices and field", "why_tests_cant": "A test sees some fields on some grid; the factors and the memory touched must be right for all of them.", "anchors": ["lib/scalar/fourier.cpp:FTfield", "lib/scalar/scaleXeon.cpp", "lib/scalar/scalarField.cpp:201-290", "lib/fft/fftCode.cpp"]}
{"id": "C109", "title": "A full spectral step kicks and then moves every mode exactly", "statement": "A stage of a full spectral step of the complex field adds to the velocity the transform of minus the slope of the potential at the field, and then moves every mode as a free wave of its momentum for the time of the stage; time goes on by that time. Without coupling the result of any stages is the free motion for the sum of their times, whatever the coefficients. The same in both precisions and for every potential.", "quantifier": "every pair of linear transforms that undo each other, every grid, number of ranks, field, coefficients of the stages, background and step", "why_tests_cant": "The claim is about every mode of every field; a test sees one field, some modes and a tolerance.", "anchors": ["include/propagator/fsPropXeon.h", "include/propagator/fsPropThetaXeon.h", "include/propagator/propClass.h:859-1006"]}
{"id": "C110", "title": "A run with a list of times measures every line of it, once, at its time", "statement": "A run given a list of measurements with increasing times, started before the first, ends without reading outside the list; the measurements of its loop are the lines due by the time it ended, each once, in order, at exactly the time and of the kinds of its line (and with its maps and masks when the field does not change to an axion); the last line is for the final measurement. With steps no shorter than some length and enough of them the end is reached and so every line measured. A run stopped between two lines and restarted makes with the first the measurements of one run.", "quantifier": "every list, every library that keeps time, every field, every step size, every count of strings, every signal at every turn, any number of steps", "why_tests_cant": "the lines hit depend on the sizes of all the steps, on when the strings go and on when the run is stopped: an endless number of histories", "anchors": ["test/vaxions.cpp: main", "test/vaxions.cpp: readmeasfile"]}
{"id": "C111", "title": "Measurement files are numbered without gap or repeat", "statement": "The measurement files of a run have consecutive numbers from the first, including those around the change to the axion, the final one and the one after the WKB transport, whenever and however the run ends; a restart goes on with the next number. A run asked for a measurement each n steps makes them at the steps n divides and no others; with steps of equal length it ends exactly at the final time.", "quantifier": "every library, options, signals, start and length of the run", "why_tests_cant": "every history of measurements and signals, across restarts", "anchors": ["test/vaxions.cpp: main"]}
{"id": "C112", "title": "The saxion is changed to the axion at most once, and only without strings", "statement": "In any run the change is made at most once, of a saxion field that has no strings at that moment, after at least the number of steps asked for without strings, measured just before and just after; never when switched off or with the noise initial conditions; the field ends an axion if it was made and of the first kind if not. The damping of walls is switched on at most once.", "quantifier": "every library, options, signals and history of strings", "why_tests_cant": "the strings seen at every step of every run", "anchors": ["test/vaxions.cpp: main"]}
{"id": "C113", "title": "A run can be stopped and saved at any turn", "statement": "All the ranks act on the first thing one of them sees. Told to stop, or out of time, a run makes no further turn and leaves its field and the next number for the restart. Asked to save, it goes on as if it had not been.", "quantifier": "every history of what every rank sees, any number of ranks", "why_tests_cant": "all schedules of files appearing on all ranks", "anchors": ["test/vaxions.cpp: checkTime", "test/vaxions.cpp: main"]}
{"id": "C114", "title": "The list of measurements read is in order and asks for all its lines ask", "statement": "From lines in order, the list used has increasing times, for every line an entry of its time that includes all kinds of measurement it asks, and nothing that no line of that time asks.", "quantifier": "every list of lines", "why_tests_cant": "unboundedly many lists with repeated times", "anchors": ["test/vaxions.cpp: readmeasfile"]}
{"id": "C115", "title": "An evolved initial condition ends at the start with the coupling of the run", "statement": "When the initial condition is made at an earlier time and evolved (preprop), the evolution ends exactly at the time of the start for any sizes of steps bounded below; during it the coupling is that of the run at the start times the asked power of the scale, so that it joins the run's there for both kinds of coupling; the field begins as the one made, at rest; afterwards coupling, kind, exponent and damping are those of the run.", "quantifier": "every history of the scale, coupling, exponent, factor, step size and propagator", "why_tests_cant": "Only a few settings can be run, and a damping left behind or a velocity off by a factor gives a plausible field", "anchors": ["lib/gen/prepropa.cpp prepropa2", "lib/gen/genConf.cpp", "lib/cosmos/cosmos.cpp LambdaP"]}
{"id": "C116", "title": "The older evolution of initial conditions ends, and going back in time keeps the physical field", "statement": "The search for the time with as many strings as asked for ends on the first time tried that has few enough; the evolution to that time ends; going back to the time asked for keeps the physical field and its rate; the relaxation ends.", "quantifier": "every mass, spacing, time, goal, field and propagator", "why_tests_cant": "The search is unbounded and the relaxation depends on the field; tests only see runs that end", "anchors": ["lib/gen/prepropa.cpp findct2 prepropa relaxrho", "lib/gen/genConf.cpp CONF_VILGORK"]}
{"id": "C117", "title": "Initial conditions in momentum space have the spectrum asked for", "statement": "Every momentum of the box is given its amplitude on exactly one rank and place, whatever the order of the threads; modes beyond the cut asked for are empty; amplitudes are those of the kind asked for (flat, sinc, exponential, Gaussian, Cole, table, Tkachev, thermal); velocities fit the field; the mode without momentum has the angle asked for; the modes of a real field are conjugate.", "quantifier": "every box, number of ranks, cut, kind, table, random numbers and order of the threads", "why_tests_cant": "Random fields look right whatever the cut, the corner modes or the memory beyond a table", "anchors": ["lib/gen/momConf.cpp momXeon momConf", "lib/gen/genConf.cpp confspax conftkac confthermal confcole"]}
{"id": "C118", "title": "A string given by points is a sum over its straight pieces", "statement": "Each mode of the field of a string given by points is the sum over its pieces of the integral of the plane wave times the factor of the piece, reading only the points given.", "quantifier": "every list of points and every momentum", "why_tests_cant": "A missing piece or a read past the last point shows only for some momenta and directions", "anchors": ["lib/gen/momConf.cpp MOM_STRING", "lib/gen/genConf.cpp confstring"]}
{"id": "C119", "title": "The complex field with a spectral Laplacian moves by the same equation", "statement": "With --spec every step changes the velocity by the exact Laplacian of the box, the slopes of the potentials and R''/R times the field, then the field by the velocity, as the stencils do but for the Laplacian, and leaves the ghosts alone; for every accepted choice of options.", "quantifier": "every field, potential, damping, precision, box and list of stages", "why_tests_cant": "A wrong momentum or a forgotten term only shifts numbers; some options are never run together", "anchors": ["include/propagator/propClass.h sSpecCpu", "include/propagator/sPropXeon.h", "lib/propagator/laplacian.cpp", "lib/utils/parse.cpp"]}
{"id": "C120", "title": "The axion with a spectral Laplacian moves by the axion equation", "statement": "With --spec every step of the axion changes the velocity by the exact Laplacian, the slope of the chosen potential and R''/R times the field, then the field by the velocity; each mode of a massless axion moves by itself.", "quantifier": "every field, background, box and list of stages", "why_tests_cant": "The forgotten term is zero in the background tests use", "anchors": ["include/propagator/propClass.h tSpecCpu", "include/propagator/sPropThetaXeon.h", "lib/propagator/laplacian.cpp"]}
{"id": "C121", "title": "The list of measurements is read as its titles say", "statement": "Each row of measfile.dat is read as a time, kind, maps, masks and spectra from the columns with those titles, in any order and with any blanks; missing columns ask for nothing; a file without titles has time and kind; nothing else is read.", "quantifier": "every file, column order and number of rows", "why_tests_cant": "The shipped files have one order of columns and no unknown title", "anchors": ["test/vaxions.cpp mysplit", "test/vaxions.cpp readheader", "test/vaxions.cpp readmeasline2", "test/vaxions.cpp readmeasfile"]}
{"id": "C122", "title": "The field of strings given by points is the phase that their pieces induce", "statement": "When initial conditions are made from a file of points of strings, each piece between two points gives each link the integral along it of the field of a current element (Biot and Savart), reversed pieces give the opposite, the box's copies above and below are counted, and the phase of a site is the sum of half these gradients along z, then y, then x, on any number of ranks and any box shape. The field has modulus one and is at rest.", "quantifier": "every list of points and ends, every site, every box and number of ranks, whatever memory held before", "why_tests_cant": "Pieces at any distance and direction from a link, any division over ranks and any box shape; a few configurations do not show a wrong order between ranks or a box copied 2^64 away", "anchors": ["lib/gen/anystringXeon.cpp:int0", "lib/gen/anystringXeon.cpp:mora", "lib/gen/anystringXeon.cpp:anystringXeon", "lib/gen/genConf.cpp:confstring2"]}
{"id": "C123", "title": "The file of string coordinates holds what every rank found", "statement": "Writing the coordinates of strings gives a data set with the coordinates found by every rank, in order of the ranks, three numbers for each point counted and nothing else, for any number of ranks and points, ranks without any included. Without coordinates in memory or without an open file nothing is written. What the ranks hold in memory is kept, so that writing again gives the same.", "quantifier": "every number of ranks, every count of points and content of memory", "why_tests_cant": "Counts of points differ from rank to rank and from run to run, messages are sent through the memory of rank 0, and a size overflows only for billions of bytes", "anchors": ["lib/io/readWrite.pHdf5.cpp:writeStringCo"]}
{"id": "C124", "title": "A file read into a finer grid is the same field, linear between its sites", "statement": "When a configuration is read for a grid finer than that of the file, the new field is that of the file taken linear in each direction between its sites, around the periodic box and over the boundaries of ranks. Sites of the file keep their values, the result does not depend on what memory held nor on the order in which threads work, and nothing behind the field is written.", "quantifier": "every pair of grids, every number of ranks, every field, every order of the cells", "why_tests_cant": "Grids of any two sizes, fields at the ends of ranks and of the box, and the order of threads that write the same site", "anchors": ["include/utils/simpleops.h:expandField", "lib/io/readWrite.pHdf5.cpp:readConf"]}
{"id": "C125", "title": "An axion-only file read for the complex field", "statement": "A file of the axion alone, read for the complex field, gives R exp(i theta) and its rate of change at every site; an angle in the format of Moore gives R times the same angle between -pi and pi.", "quantifier": "every angle, velocity and expansion", "why_tests_cant": "Holds for every real angle and every law of expansion", "anchors": ["include/utils/simpleops.h:ctheta2csaxion", "include/utils/simpleops.h:unMoor"]}
{"id": "C126", "title": "A spectrum of the complex field is taken of the axion's velocity and gradient", "statement": "For the number spectra of the complex field, every site of the padded transform array holds the weight of the chosen mask times R times the rate at which the angle of the shifted field changes (kinetic), or R times the change of the angle from the previous to the next site over twice the spacing along x, y and z (gradient), with neighbours taken around the periodic box across ranks. Near a string the tabulated correction replaces the rate. Nothing else in the array is written, so the mask survives, and the order in which threads take rows does not matter.", "quantifier": "all fields, velocities, grids, numbers of ranks and ghost slices, masks, correction functions, contents of the array and orders of rows", "why_tests_cant": "every mask, layout and schedule of threads must give the right value at every site; a test has one grid and one schedule", "anchors": ["lib/utils/kgvops.cpp:buildc_k", "lib/utils/kgvops.cpp:buildc_gx", "lib/utils/kgvops.cpp:buildc_gyz", "lib/utils/kgvops.cpp:buildc_k_map"]}
{"id": "C127", "title": "The potential spectra are taken of the axion potential and of the axion", "statement": "For the potential spectra of the complex field, every site of the padded array holds the weight of the mask times 2R sin of half the angle, and of the second half the weight times R times the angle.", "quantifier": "all fields, grids, ranks, masks, contents of the array and orders of rows", "why_tests_cant": "the angle ranges over a circle and each mask has its own branch", "anchors": ["lib/utils/kgvops.cpp:buildc_v", "lib/spectrum/spectrum.cpp:nRun"]}
{"id": "C128", "title": "The number spectrum transforms the z gradient, the old gradient and the old potential of the complex field", "statement": "When the number spectrum of the complex field is taken, each array given to the transform holds the quantity named, of the same site, weighted by the mask asked for: the z gradient after it is moved to the front, the old gradient as twice the tangent of half the turn to the next site over the spacing, and the old potential as the mass times R times the angle. The z gradient is spoilt with the smooth masks, the old potential is of the slice before, and some masks leave the array unwritten.", "quantifier": "every box, number of ranks, rank, field, mask, order of the rows and former contents of the array", "why_tests_cant": "it depends on every site's place on every grid and rank", "anchors": ["lib/spectrum/spectrum.cpp:nRun", "lib/utils/kgvops.cpp:buildc_gyz"]}
{"id": "C129", "title": "The number spectrum transforms the axion itself, its velocity and its nonlinear potential", "statement": "When the number spectrum of the axion is taken, the array given to the transform holds the field, its velocity or 2R sin of half the angle at every site in rows two numbers longer, nought where masked, and nothing else is written. With the smooth mask the velocity is not used and the weights are overwritten before they are read.", "quantifier": "every box, field, velocity, mask, order of the rows and former contents of the array", "why_tests_cant": "it depends on every site's place on every grid and on the order of threads", "anchors": ["lib/spectrum/spectrum.cpp:nRun"]}
{"id": "C130", "title": "Every rank gets a device of its own and the run starts only as asked", "statement": "Ranks on one host get the devices 0, 1, 2, ... in the order of the ranks, no two the same, and each rank knows how many ranks share its host. The run goes on only if as many ranks run as were asked for and, where the device is a GPU, one can be used. Hosts with long names are taken for one, a rank may take a device that is not there, and with no device the program goes on after it has ended the message passing.", "quantifier": "every number of ranks, every placing of ranks on hosts, every set of host names, every number of devices", "why_tests_cant": "it ranges over every placing of ranks on hosts", "anchors": ["lib/comms/comms.cpp:initComms", "lib/comms/comms.cpp:commAcc", "lib/comms/comms.cpp:commRanksPerNode", "lib/utils/misc.cpp:initAxions"]}
{"id": "C131", "title": "The profiler reports the time spent in each part of a run", "statement": "Where the parts that a profiler times do not overlap, the time and the rate reported for each name are those of its parts since it was last set back, whatever the other profilers do in between, and its total is no more than the time that went by. A part within a part of the same profiler is timed from the wrong moment and counted twice, the unaccounted time can be negative, a part without a beginning is timed from the epoch, and one without an end uses a number never set.", "quantifier": "every history of starts, stops, additions and resets of every profiler and every time", "why_tests_cant": "it ranges over every history and interleaving", "anchors": ["include/utils/profiler.h:Profiler", "include/utils/flopCounter.h:FlopCounter", "lib/utils/profiler.cpp:printProfStats"]}
{"id": "C132", "title": "The time at which the walls take over is found", "statement": "The search for the time at which domain walls destroy the strings gives a time only if there is a mass and an expansion, and then 40 times the axion mass squared over twice lambda is 1 there to a part in a thousand, whatever the background. If that ratio is a power of time the time is found in one pass. A ratio that jumps over 1 makes the search go on for ever, one that does not change gives neither a time nor the answer never, and one that rests and then grows again gives the answer never although 1 is reached.", "quantifier": "every background, start time and number of passes of the search", "why_tests_cant": "it ranges over every function of time and an unbounded loop", "anchors": ["test/vaxions.cpp:findzdoom"]}
{"id": "C133", "title": "The sample printed along a run is of the site asked for", "statement": "At every step exactly one rank prints the sample, the one that holds the site, and the field and velocity it prints are those of that site of the whole box, whether the field is folded or not and whatever was folded and unfolded before. A site outside the box is passed over in silence, and on a device all but the saxion in single precision print the copy on the host.", "quantifier": "every site, box, number of ranks, vector width, field and history of folding", "why_tests_cant": "it ranges over every site, grid and history", "anchors": ["test/vaxions.cpp:printsample", "test/vaxions.cpp:unfoldidx", "lib/scalar/folder.cpp"]}
{"id": "C134", "title": "A generated list of measurements covers the run in even steps of the string logarithm", "statement": "--measlistlog writes a list of times whose logarithm of saxion mass over expansion rate starts at --zi (0 if it is not given) and grows by one over --dump, for both kinds of lambda; the times are positive and strictly increasing, none below the end of the run is left out, and the last is the end of the run (--zf); a list that exists is not overwritten", "quantifier": "all masses, box lengths, numbers of points, final times, first logarithms, values of --dump and both kinds of lambda", "why_tests_cant": "the list depends on real numbers that no set of runs exhausts, and the end of the list on how the last step falls", "anchors": ["lib/utils/parse.cpp:createMeasLogList"]}
{"id": "C135", "title": "The options read before the start take effect wherever they are given", "statement": "--zgrid, --device, --nologmpi and --verbose set the number of ranks, the device, the log and the level that the help describes, in any order, among any other words, the last one given counting, and those not given keep their defaults; a missing or wrong value and a request for help end the program with the right code; only variables that were set are read", "quantifier": "all command lines made of these options and any other words, and all readings of numbers", "why_tests_cant": "there are infinitely many command lines, and a flag never set often happens to hold the value hoped for", "anchors": ["lib/utils/parse.cpp:parseDims", "include/enum-field.h:VerbosityLevel"]}
