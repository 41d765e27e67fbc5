{"id": "C01", "title": "Box index and box coordinates are inverse", "statement": "For any box with positive sides, lxOfCoord maps the coordinates inside the box one-to-one onto [0,volume) and coordOfLx is its inverse both ways; the last coordinate runs fastest.", "quantifier": "every list of positive box sides and every site of the box", "why_tests_cant": "unbounded box sizes; a test samples a few lattices", "anchors": ["src/geometry/geometry_lx.cpp: lxOfCoord, coordOfLx, volOfLx, loclxOfCoord, glblxOfCoord, rankOfCoords, coordOfRank"]}
{"id": "C02", "title": "Global index decodes to the coordinates it was built from", "statement": "glbCoordOfGlblx(glblxOfCoord(x))=x for every site of the global lattice and glblxOfCoord(glbCoordOfGlblx(g))=g for every global index, for every lattice of at most 2^31 sites; beyond that size the decode runs into signed overflow (witness).", "quantifier": "every global lattice size and every site", "why_tests_cant": "the failing lattices are far too large for a test and the passing ones are infinitely many", "anchors": ["src/geometry/geometry_lx.cpp: glbCoordOfGlblx, glblxOfCoord"]}
{"id": "C03", "title": "Every global site lives on exactly one rank at exactly one local index", "statement": "For every process grid dividing the lattice, getLoclxAndRankOfCoords sends each global site to a valid (rank, local index), no two sites share it, every (rank, local index) is hit, and rankHostingSiteOfCoords/rankHostingGlblx/getLoclxAndRankOfGlblx agree with it; the global coordinates are recovered as rank coordinate times local size plus local coordinate.", "quantifier": "every commensurate lattice and process grid, every site", "why_tests_cant": "ranges over all grids and all sites", "anchors": ["src/geometry/geometry_lx.hpp: getLoclxAndRankOfCoords, getLoclxAndRankOfGlblx", "src/geometry/geometry_lx.cpp: rankCoordsOfSiteOfCoord, rankHostingSiteOfCoords, rankHostingGlblx"]}
{"id": "C04", "title": "Global neighbours are periodic unit shifts", "statement": "glblxNeighup/glblxNeighdw move exactly one coordinate by one with periodic wrap, are inverse of each other, commute in different directions, and returning L_mu times in direction mu gives back the starting site.", "quantifier": "every lattice, site, direction", "why_tests_cant": "universal over lattices and sites", "anchors": ["src/geometry/geometry_lx.cpp: glblxNeighup, glblxNeighdw"]}
{"id": "C05", "title": "Sites form a group under glblxOfSum/glblxOfDiff/glblxOpp", "statement": "glblxOfSum and glblxOfDiff return the global index of the coordinate-wise sum and difference modulo the lattice sides, so that sum is commutative and diff undoes sum; glblxOpp returns the difference from the first site of the calling rank, hence the opposite site on the rank at the origin and, for every local site of every other rank, something else (that it is the opposite is refuted there).", "quantifier": "every lattice, every rank, every pair of its local sites, weights +1/-1", "why_tests_cant": "universal over lattices and pairs of sites", "anchors": ["src/geometry/geometry_lx.cpp: glblxOfComb, glblxOfDiff, glblxOfSum, glblxOpp"]}
{"id": "C06", "title": "Local, border and edge labels are one-to-one and onto", "statement": "fullLxOfCoords gives every site of the local box enlarged by one layer in each parallelised direction (at most two coordinates outside) a distinct index, the indices fill [0,locVol+bordVol+edgeVol) exactly, local sites come first, then borders (backward half, then forward half), then edges; sites with three or more coordinates outside get -1; the answer only depends on the coordinates modulo the global sizes.", "quantifier": "every valid grid (nRanks dividing sizes, local sides at least 2), every extended coordinate", "why_tests_cant": "universal over grids; index arithmetic bugs show only for particular parallelisation patterns", "anchors": ["src/geometry/geometry_lx.cpp: fullLxOfCoords, bordlxOfCoord, edgelxOfCoord", "src/base/init.cpp: initGrid"]}
{"id": "C07", "title": "Geometry tables hold the true global coordinates of every stored site", "statement": "After set_lx_geometry, on each rank, for every local, border and edge index the table glbCoordOfLoclx holds the global coordinates of the unique extended site carrying that index, and glblxOfLoclx/glblxOfBordlx/glblxOfEdgelx hold its global index; every entry has been written.", "quantifier": "every valid grid, every rank, every index", "why_tests_cant": "universal over grids and ranks", "anchors": ["src/geometry/geometry_lx.cpp: label_all_sites, set_lx_geometry"]}
{"id": "C08", "title": "Neighbour tables point to the adjacent site", "statement": "For every local or border site and direction, loclxNeighup/loclxNeighdw is either -1 (target not stored) or the index of a stored site whose global coordinates are the periodic shift by one; for local sites it is never -1, and up/down are mutually inverse on local sites. (For edge sites stepping outward the table entry is wrong, which is recorded as a refutation.)", "quantifier": "every valid grid, rank, stored site and direction", "why_tests_cant": "universal over grids; wrong entries only appear for some grid shapes", "anchors": ["src/geometry/geometry_lx.cpp: find_neighbouring_sites, fullLxOfCoords"]}
{"id": "C09", "title": "Bulk and surface lists partition the local volume", "statement": "find_bulk_sites never aborts on a valid grid: the numbers of bulk, surface, forward/backward surface and their complements equal the volumes computed in initGrid, and the lists are exactly the sites with/without a neighbour on another rank, in increasing order.", "quantifier": "every valid grid", "why_tests_cant": "the crash would appear only for some shapes", "anchors": ["src/geometry/geometry_lx.cpp: find_bulk_sites", "src/base/init.cpp: initGrid (bulkVol, nonBwSurfVol, ...)"]}
{"id": "C10", "title": "Halo update delivers the owner's value to every border site", "statement": "After updateHalo on all ranks, the value stored at each border index equals the value held, at its local index, by the rank owning the site with that border site's global coordinates; local values are unchanged.", "quantifier": "every valid grid, every field content, all ranks, every message arrival order", "why_tests_cant": "universal over process grids (also the wrap-around cases with two ranks per direction) and schedules", "anchors": ["src/base/field.hpp: updateHalo, fillSendingBufWithSurface, fillHaloWithReceivingBuf", "src/base/field.cpp: startBufHaloNeighExchange", "src/geometry/geometry_lx.cpp: bordlx_of_surflx, findSurfOfBord"]}
{"id": "C11", "title": "Edge update delivers the owner's value to every edge site", "statement": "After updateEdges on all ranks, the value at each edge index equals the value held by the rank owning the site with that edge site's global coordinates.", "quantifier": "every valid grid, every field content, all ranks", "why_tests_cant": "universal over process grids and field contents", "anchors": ["src/base/field.hpp: updateEdges, fillSendingBufWithEdgesSurface, fillEdgesWithReceivingBuf", "src/base/field.cpp: startBufEdgesNeighExchange", "src/geometry/geometry_lx.cpp: edgelx_of_surflx, findSurfOfEdges"]}
{"id": "C12", "title": "Even/odd relabelling is a bijection preserving parity", "statement": "On a lattice with even local sides, set_eo_geometry gives every stored site a parity equal to the parity of the sum of its global coordinates and an index such that (parity, index) is one-to-one onto {even,odd} x [0, half of the stored sites); the inverse table is its inverse; local sites keep indices below locVolh, borders follow, edges last.", "quantifier": "every valid grid with even local sides, every rank and stored site", "why_tests_cant": "universal over grids", "anchors": ["src/geometry/geometry_eo.cpp: set_eo_geometry, glb_coord_parity"]}
{"id": "C13", "title": "Splitting into even/odd parts and pasting back is the identity", "statement": "paste_eo_parts_into_lx_vector after split_lx_vector_into_eo_parts returns the original field on all local sites, and vice versa; get_evn_or_odd_part returns exactly the requested half.", "quantifier": "every even grid and field", "why_tests_cant": "universal over fields and grids", "anchors": ["src/geometry/geometry_mix.hpp: paste_eo_parts_into_lx_vector, split_lx_vector_into_eo_parts, get_evn_or_odd_part"]}
{"id": "C14", "title": "Even/odd neighbour tables flip parity and agree with the full-lattice ones", "statement": "For every local site, the even/odd neighbour index read with the opposite parity decodes to the full-lattice neighbour, whose parity is the opposite one.", "quantifier": "every even grid, local site, direction, orientation", "why_tests_cant": "universal over grids", "anchors": ["src/geometry/geometry_eo.cpp: set_eo_geometry (loceo_neighup, loceo_neighdw)"]}
{"id": "C15", "title": "Even/odd halo update delivers the owner's value", "statement": "After the halo update of one parity part of a field, the value stored at each border even/odd index equals the owner's value of that site.", "quantifier": "every even grid, parity, field content and rank", "why_tests_cant": "universal over grids", "anchors": ["src/geometry/geometry_eo.cpp: set_eo_geometry (surfeo_of_bordeo)", "src/base/field.hpp", "src/base/field.cpp"]}
{"id": "C16", "title": "The chosen process grid is valid and has minimal communication surface", "statement": "findMinimalSurfaceGrid returns a grid whose product is the number of ranks, dividing every side, respecting fixed directions and evenness, and no other such grid has a smaller surface measure, for more than one rank and more than one site per rank; if none exists no valid grid is returned. (With one rank, or one site per rank, the constraints are ignored: refuted there.)", "quantifier": "every lattice size, number of ranks, constraint", "why_tests_cant": "optimality ranges over all grids", "anchors": ["src/base/init.cpp: findMinimalSurfaceGrid"]}
{"id": "C17", "title": "factorize returns the prime factorisation", "statement": "factorize(N) returns primes in non-decreasing order whose product is N.", "quantifier": "every positive N", "why_tests_cant": "unbounded N", "anchors": ["src/routines/math_routines.cpp: factorize"]}
{"id": "C18", "title": "Boxes tile the local volume", "statement": "The 16 boxes set by init_boxes have sizes summing to the local volume and each local site falls in exactly one of them; every box is non-empty.", "quantifier": "every local size of at least 2 per direction (even or odd)", "why_tests_cant": "universal over sizes", "anchors": ["src/base/init.cpp: init_boxes"]}
{"id": "C19", "title": "Mirrored coordinates are an involution inside the lattice", "statement": "get_mirrorized_site_coords maps lattice sites to lattice sites, is its own inverse for each mirror mask, and mirror masks compose by exclusive or.", "quantifier": "every lattice size, site and mask", "why_tests_cant": "universal over sizes and sites", "anchors": ["src/geometry/geometry_lx.hpp: get_mirrorized_site_coord, get_mirrorized_site_coords"]}
{"id": "C20", "title": "Staggered phases", "statement": "Both versions of getStagphaseOfLx agree, only take values +1/-1, and satisfy the plaquette identity eta_mu(x)eta_nu(x+mu)=-eta_nu(x)eta_mu(x+nu) for mu different from nu (on lattices with even sides, including wrap-around).", "quantifier": "every even lattice, site, pair of directions", "why_tests_cant": "universal over lattices", "anchors": ["src/geometry/geometry_lx.cpp: getStagphaseOfLx"]}
{"id": "C21", "title": "ILDG site reordering is an exact permutation", "statement": "index_to_ILDG_remapping and index_from_ILDG_remapping are mutually inverse bijections of (rank, local site) pairs, and place each site at the file position with coordinate order t,z,y,x (x fastest).", "quantifier": "every valid grid", "why_tests_cant": "universal over grids", "anchors": ["src/io/ILDG_File.hpp: index_to_ILDG_remapping, index_from_ILDG_remapping"]}
{"id": "C22", "title": "All-to-all remapping delivers every element to its destination", "statement": "When the destination map is a bijection of (rank, element) pairs, after vector_remap_t::remap each destination cell holds the source element mapped there, on all ranks. provided the local part has the length the code looks up (true whenever each pair of ranks exchanges the same number of elements in both directions, as for ILDG files when the number of ranks divides the time extent). Otherwise the loops use wrong bounds and data are lost or memory is read out of bounds: refuted on valid grids.", "quantifier": "every number of ranks, sizes and destination bijection, every field content", "why_tests_cant": "universal over permutations and rank counts", "anchors": ["src/communicate/all_to_all.cpp: setup_knowing_where_to_send, communicate", "src/operations/remap_vector.hpp: vector_remap_t"]}
{"id": "C23", "title": "Direction-local remapping and its inverse", "statement": "The index maker used by remap_lx_vector_to_locd sends every (rank, local site) to a distinct (rank, index) with all sites of a line in the chosen direction consecutive on one rank, and the unmaker is its inverse on occupied cells; the data are delivered by both remappings for spatial directions when the number of ranks divides the time extent, and can be lost when it does not divide the number of lines (refuted on a valid grid).", "quantifier": "every valid grid, direction", "why_tests_cant": "universal over grids", "anchors": ["src/operations/remap_vector.hpp: getLocDirIndexMaker, getLocDirIndexUnmaker"]}
{"id": "C24", "title": "Requesting the links of a gauge path asks the owner of each link", "statement": "Whatever the sequence of requests made with add_conf_link_for_paths, each code is asked once, the links asked get consecutive positions after the local ones and keep them; the code should be that of the link on its owner (refuted: rank and local index are swapped, so a link of another rank is silently taken as a local one).", "quantifier": "every grid, coordinate, direction", "why_tests_cant": "needs multi-rank grids of every shape", "anchors": ["src/communicate/all_to_all.cpp: add_conf_link_for_paths"]}
{"id": "C25", "title": "Arbitrary path structure evaluates each path as the ordered product of its links", "statement": "Whatever the paths declared by each rank with start/forward/backward/sum/stop (each path made of one or more pieces, each of at least one step), within the declared numbers of paths and moves, compute_lx and compute_eo give on each rank, for each path, the sum over its pieces of the ordered product of the links of the periodic lattice met by the walk (daggered when walked backward), wherever the links are stored; each link not on the rank is asked once whatever the number of paths through it, and nothing else is asked. Refuted: recording stays inside the allocated buffer (the last move always writes one cell past its end); calling summ_to_previous_path twice is harmless (it corrupts the link); paths without steps are accepted.", "quantifier": "every list of paths on each rank, every gauge field, every valid grid whose indices fit an int, every sorting order of equal keys", "why_tests_cant": "universal over command histories, gauge fields and grids", "anchors": ["src/operations/su3_paths/arbitrary.cpp", "src/operations/su3_paths/arbitrary.hpp: paths_calculation_structure"]}
{"id": "C26", "title": "ILDG records written one after the other can be found and read back", "statement": "After writing any list of records with write_record, scanning the file with search_record returns the first record of the requested type with exactly the bytes written (up to padding to a multiple of 8 bytes), any other record being skipped, and all_messages written are recovered by the reader.", "quantifier": "every list of records, types, contents, lengths, host byte order", "why_tests_cant": "universal over record lists", "anchors": ["src/io/ILDG_File.cpp: ILDG_File_write_record, ILDG_File_search_record, ILDG_File_get_next_record_header, ILDG_File_skip_record, ILDG_File_build_record_header"]}
{"id": "C27", "title": "A lattice data record leaves the file aligned for the next record", "statement": "After ILDG_File_write_ildg_data_all the file position is the start of the next record: for data lengths multiple of 8 this holds; otherwise the writer pads twice and the next record is unreadable (refuted).", "quantifier": "every data length", "why_tests_cant": "depends on arithmetic of every length", "anchors": ["src/io/ILDG_File.hpp: ILDG_File_write_ildg_data_all"]}
{"id": "C28", "title": "The ILDG checksum does not depend on the process grid or site visiting order", "statement": "Computing the checksum on any process grid, with any reduction order, gives the same pair of words as the serial definition over the global lattice.", "quantifier": "every valid grid and field content", "why_tests_cant": "universal over grids and orders", "anchors": ["src/io/checksum.hpp: ildgChecksum"]}
{"id": "C29", "title": "Checksum record text reads back the same words", "statement": "The text written by ILDG_File_write_checksum parses back, with the tags used by ILDG_File_read_checksum, to the same two 32 bit words.", "quantifier": "every pair of 32 bit words", "why_tests_cant": "2^64 inputs", "anchors": ["src/io/ILDG_File.cpp: ILDG_File_write_checksum, ILDG_File_read_checksum"]}
{"id": "C30", "title": "Byte swapping is an involution reversing the bytes", "statement": "byteSwap reverses the byte order of each word and applying it twice is the identity; fixToNativeEndianness after fixFromNativeEndianness with the same order is the identity for either host order.", "quantifier": "every word length and content, both host orders", "why_tests_cant": "all byte strings", "anchors": ["src/io/endianness.hpp"]}
{"id": "C31", "title": "Binary buffer reads back what was written in order", "statement": "Values of any mixture of sizes pushed in a buffer_t with << are read back by >> in the same order.", "quantifier": "every sequence of values", "why_tests_cant": "unbounded histories", "anchors": ["src/io/buffer.hpp"]}
{"id": "C32", "title": "Comments in input files are skipped exactly", "statement": "Reading tokens through read_var skips exactly the text between /* and the first token ending in */ and returns all other tokens in order; a comment not closed aborts; integers written in decimal give their value, tagged lists are read in full, a wrong tag aborts. (Refuted: single character words inside a comment make the end-of-comment test read outside the token buffer; a value missing at the end of a file ending with a line break is silently left unset; 1.5 is accepted as the integer 1.)", "quantifier": "every input text", "why_tests_cant": "all texts", "anchors": ["src/io/input.cpp: read_next_token, check_tok_starts_comment, check_tok_ends_comment, read_up_to_end_of_comment, read_var_catcherr"]}
{"id": "C33", "title": "Configuration file assigns exactly the named parameters", "statement": "read_nissa_config_file sets each known parameter to its last value in the file and leaves the others at default, for any order of parameters; unknown ones abort unless ignored. A file whose last token is not followed by white space aborts (refuted).", "quantifier": "every configuration text", "why_tests_cant": "all texts", "anchors": ["src/io/input.cpp: read_nissa_config_file"]}
{"id": "C34", "title": "Random generator arithmetic never overflows and stays in range", "statement": "For any seed, after any number of draws, every ran2 state component stays within its modulus, every intermediate fits a 32 bit int, each component follows exactly x -> a x mod m, table indices stay in bounds and the returned number lies in [0,1), so a random position always lies in the lattice. (That it is never 0 is refuted: seed 1927279561, second draw; seed INT_MAX overflows; seed 2147483562 kills the first component.)", "quantifier": "every seed and number of draws", "why_tests_cant": "unbounded histories, 2^32 seeds", "anchors": ["src/base/random.cpp: start_rnd_gen, rnd_get_unif"]}
{"id": "C35", "title": "Saving and restoring the random generator continues the same sequence", "statement": "convert_text_to_rnd_gen(convert_rnd_gen_to_text(g)) gives back g for any buffer of at least 421 bytes, so the subsequent draws are identical. (The size argument is not respected: a smaller buffer is overrun, refuted.)", "quantifier": "every generator state", "why_tests_cant": "all states", "anchors": ["src/base/random.cpp: convert_rnd_gen_to_text, convert_text_to_rnd_gen"]}
{"id": "C36", "title": "Site generators do not depend on the process grid", "statement": "The generator attached to a global site by start_loc_rnd_gen is the same for every process grid, so site random numbers are reproducible when the number of ranks changes.", "quantifier": "every pair of grids, seed, site", "why_tests_cant": "universal over grids", "anchors": ["src/base/random.cpp: start_loc_rnd_gen"]}
{"id": "C37", "title": "Counter-based generator: encryption is a permutation", "statement": "For each key Sitmo encrypt is a bijection of 256 bit blocks, so different stream positions yield different blocks.", "quantifier": "every key and block", "why_tests_cant": "2^512 cases", "anchors": ["src/base/sitmo.hpp: encrypt, buildKey"]}
{"id": "C38", "title": "Advancing the counter adds the offset", "statement": "State+offset adds the 64 bit offset to the 256 bit counter with full carry, for non zero offsets. (Refuted for offset zero: it adds 2^64.)", "quantifier": "every state and offset", "why_tests_cant": "2^320 cases", "anchors": ["src/base/sitmo.hpp: State::operator+"]}
{"id": "C39", "title": "No random number is ever used twice and field draws do not depend on the layout", "statement": "Across any sequence of draws from a field stream, distinct (draw, site, component) use disjoint stream positions, and the number assigned to a global site does not depend on the process grid, provided the global volume fits an int (refuted above).", "quantifier": "every sequence of draws, lattice, grid", "why_tests_cant": "unbounded histories", "anchors": ["src/base/sitmo.hpp: FieldRngStream, FieldRngOf"]}
{"id": "C40", "title": "Memory manager never hands out memory in use and accounts exactly", "statement": "For any sequence of provide/release/enable/disable/clear calls, a block returned by provide is disjoint from all blocks in use, has the requested size and alignment, used size and its maximum, and cached size, are exact, no call is undefined, releasing a block not in hand aborts, a released block is reused by the next fitting request, and clearing or destroying gives back to the system everything not in hand (refuted for alignments below 16, for verbosity level 3, and sizes overflowing are not refused).", "quantifier": "every sequence of calls and allocator behaviour", "why_tests_cant": "unbounded histories", "anchors": ["src/base/memory_manager.hpp"]}
{"id": "C41", "title": "Named vector registry stays a well formed list with exact total", "statement": "For any sequence of nissa_malloc/nissa_free the doubly linked list contains exactly the live vectors in allocation order, the tracked required memory is the sum of their sizes and the maximum is its running maximum; copy, reset, duplicate and flags change only the vector they are given. (Freeing a null vector is undefined instead of aborting, refuted.)", "quantifier": "every sequence of calls", "why_tests_cant": "unbounded histories", "anchors": ["src/base/vectors.cpp: internal_nissa_malloc, internal_nissa_free, compute_vect_memory_usage"]}
{"id": "C42", "title": "Tree reduction equals the sequential sum", "statement": "The in-place halving reduction returns the combination of all the elements, each used exactly once, for any length (also not powers of two), any number of independent slices, and any associative commutative operation.", "quantifier": "every length, slices, data, operation", "why_tests_cant": "universal over lengths", "anchors": ["src/linalgs/reduce.hpp: locReduce", "src/base/field.hpp: reduceNoPreserve"]}
{"id": "C43", "title": "Parallel loops run each index exactly once", "statement": "The CUDA grid/block decomposition and the OpenMP loop run each index in [min,max) exactly once and no other, so a loop with independent bodies gives the same result as the serial loop in any order.", "quantifier": "every range, block size, schedule", "why_tests_cant": "universal over schedules", "anchors": ["src/threads/threads.hpp"]}
{"id": "C44", "title": "A field never serves stale halo values", "statement": "For every sequence of field operations through the API, a halo marked valid equals the owners' current values. (Refuted when a read-only reference outlives a writable one.)", "quantifier": "every sequence of operations", "why_tests_cant": "unbounded histories", "anchors": ["src/base/field.hpp: FieldRef, updateHalo, invalidateHalo"]}
{"id": "C45", "title": "Field storage index is a bijection for every layout", "statement": "Field::index maps (site, internal degree) one-to-one onto [0,size) for both array-of-structures and structure-of-arrays layouts.", "quantifier": "all sizes", "why_tests_cant": "universal over sizes", "anchors": ["src/base/field.hpp: index"]}
{"id": "C46", "title": "Field linear algebra", "statement": "Field sums, differences and scalings act site by site on all local sites; normalize makes the norm the requested one. (Two-argument normalize refuted: it divides by the square root of the norm.)", "quantifier": "all fields", "why_tests_cant": "universal over contents", "anchors": ["src/base/field.hpp: operator+=, normalize"]}
{"id": "C47", "title": "Bit reversal and powers of two", "statement": "bitrev reverses the low n bits and is an involution; find_max_pow2 returns the exponent of the largest power of two dividing its argument; log2N returns the ceiling of the base two logarithm (refuted).", "quantifier": "all inputs", "why_tests_cant": "unbounded", "anchors": ["src/routines/math_routines.cpp: bitrev, find_max_pow2, log2N"]}
{"id": "C48", "title": "Recursive determinant is the determinant", "statement": "determinant and matrix_determinant return the Leibniz determinant of the matrix for any dimension.", "quantifier": "every dimension and matrix", "why_tests_cant": "universal over dimensions", "anchors": ["src/routines/math_routines.cpp: determinant, matrix_determinant"]}
{"id": "C49", "title": "Complex arithmetic in memory", "statement": "Each complex routine leaves in its output the named combination of the inputs before the call and changes nothing else: the safe_ and accumulating ones for any coincidence of the arguments, the unsafe_ ones when the output is not an input (refuted otherwise); reciprocal and square root are such. (Refuted for the two conj1_prod_i, which forget the factor i.)", "quantifier": "every complex number and coincidence of the arguments", "why_tests_cant": "all values and aliasings", "anchors": ["src/new_types/complex.hpp"]}
{"id": "C50", "title": "Molecular dynamics is reversible", "statement": "For any gauge and quark force (functions of the links) and any step numbers, running the Omelyan integrator, changing sign to the momenta and running it again gives back the initial links and the initial momenta with opposite sign, in exact arithmetic, up to the final projection of the links, when every matrix exponentiated along the run is zero or in the region where the exponential does not truncate series.", "quantifier": "every force, number of steps and substeps, trajectory length, configuration and momenta", "why_tests_cant": "all forces and unbounded numbers of steps", "anchors": ["src/hmc/multipseudo/Omelyan_integrator.cpp:Omelyan_integrator", "src/hmc/multipseudo/Omelyan_integrator.cpp:Omelyan_pure_gauge_evolver_lx_conf", "src/hmc/momenta/momenta_evolve.cpp"]}
{"id": "C51", "title": "The integrator covers exactly the requested trajectory length", "statement": "With forces which do not depend on the configuration the momenta change by exactly the trajectory length times the sum of the gauge and quark force; without forces each link U becomes exp(i traj_length H) U. Same conditions as C50, at least one step and one gauge substep.", "quantifier": "every number of steps and substeps, trajectory length, constant force", "why_tests_cant": "unbounded numbers of steps", "anchors": ["src/hmc/multipseudo/Omelyan_integrator.cpp", "src/hmc/momenta/momenta_evolve.cpp"]}
{"id": "C52", "title": "Metadynamics potential", "statement": "update adds exactly the coefficient to the total of the grid when inside the barriers, at the grid point nearest below and above the charge; compute_pot is continuous and compute_pot_der is its derivative between grid points. (Refuted for an odd number of grid intervals, where the hill is put half a cell away from where the potential is read.)", "quantifier": "every history of updates", "why_tests_cant": "unbounded histories", "anchors": ["src/new_types/metadynamics.cpp"]}
{"id": "C53", "title": "Value with extreme tracks the maximum", "statement": "After any sequence of assignments, increments and decrements extreme() is the maximum (minimum) of all values held since reset. (Refuted when another object is assigned: the extreme is overwritten.)", "quantifier": "every sequence", "why_tests_cant": "unbounded histories", "anchors": ["src/new_types/value_with_extreme.hpp"]}
{"id": "C54", "title": "Symmetrisation of gathered vectors", "statement": "gathered_vector_mirrorize yields a vector invariant under reflecting any coordinate (refuted for the fourth coordinate); gathered_vector_cubic_symmetrize yields invariance under permutations of spatial coordinates.", "quantifier": "every lattice and vector", "why_tests_cant": "universal over lattices", "anchors": ["src/operations/vector_gather.cpp"]}
{"id": "C55", "title": "Shifting a field", "statement": "su3_vec_single_shift moves every site's value to the neighbour in the given direction, on all ranks, for parallelised and non parallelised directions.", "quantifier": "every grid, direction, field", "why_tests_cant": "universal over grids", "anchors": ["src/operations/shift.hpp"]}
{"id": "C56", "title": "Small text utilities", "statement": "take_last_characters copies the last characters including the terminator and never more than size bytes; friendly size printing selects a unit inside its table (refuted above 2^60); ceil_to_next_eight_multiple rounds up to a multiple of 8.", "quantifier": "every string and size", "why_tests_cant": "all inputs", "anchors": ["src/routines/ios.cpp"]}
{"id": "C57", "title": "Advisory lock result", "statement": "file_lock returns a usable descriptor exactly when the lock was obtained (refuted: the test on lockf's result is inverted).", "quantifier": "every outcome of the system call", "why_tests_cant": "environment dependent", "anchors": ["src/io/input.cpp: file_lock, file_unlock"]}
{"id": "C58", "title": "Topological correlator remapping is a permutation", "statement": "index_to_topo_corr_remapping maps (rank, local site) one-to-one into (rank, index) with the sites of coordinates up to half the extent stored first in lexicographic order, for even extents (refuted for odd ones, where sites collide).", "quantifier": "every valid grid", "why_tests_cant": "universal over grids", "anchors": ["src/operations/remap_vector.hpp: index_to_topo_corr_remapping"]}
{"id": "C59", "title": "Autotuning a kernel does not change its effect", "statement": "A GPU loop launched through the autotuner leaves the fields as one run of the loop would, also when it is first timed by running it hundreds of times for each block size, if it writes only fields captured for writing, each once (refuted when the same field is captured twice).", "quantifier": "every kernel, archive content, timing outcome, block size", "why_tests_cant": "depends on timings and history", "anchors": ["src/threads/benchmarks.hpp: getOptimalBlockSize", "src/threads/threads.hpp: cudaParallelFor", "src/base/field.hpp: getWritable"]}
{"id": "C60", "title": "A field written to disk is read back the same on any process grid", "statement": "write_real_vector on one process grid followed by read_real_vector on another one of the same lattice (number of ranks dividing the time extent in both) gives every site its value, with the messages and the checksum words, whatever the order of the writes of the ranks and of the parallel loops. (Refuted when a single precision file is read in a double precision field: it is accepted without conversion.)", "quantifier": "every field, pair of process grids, list of messages, order of the ranks' writes, loop schedules", "why_tests_cant": "quantifies over all lattices, grids, schedules", "anchors": ["src/io/writer.hpp: write_real_vector", "src/io/reader.hpp: read_real_vector", "src/io/ILDG_File.hpp: ILDG_File_write_ildg_data_all, ILDG_File_read_ildg_data_all"]}
{"id": "C61", "title": "The delta source is set on the requested site only", "statement": "generate_delta_source at global position x sets exactly one site of the whole lattice, on the rank owning x at the local index of x.", "quantifier": "every process grid, site and rank", "why_tests_cant": "all lattices and positions", "anchors": ["src/base/random.cpp: generate_delta_source, generate_delta_eo_source"]}
{"id": "C62", "title": "Nested input files", "statement": "Opening an input file while another is being read and closing it again brings back the previous file at the position where it was left, for any nesting.", "quantifier": "every history of open, read and close, well nested", "why_tests_cant": "unbounded histories", "anchors": ["src/io/input.cpp: open_input, close_input"]}
{"id": "C63", "title": "Lock file shared by several jobs", "statement": "After writing its random tag in the lock file, a job that reads back its own tag was the last to write: among the jobs that wrote before any of them checks, exactly one believes it owns the lock; if a job can write between the check of another and its own, both own it.", "quantifier": "every number of jobs and every interleaving of their writes and checks", "why_tests_cant": "schedules of independent jobs", "anchors": ["src/routines/ios.hpp:lock_file_t", "projects/ib/conf.cpp"]}
{"id": "C64", "title": "Matrix and colour routines store exactly what they name", "statement": "Each routine on 3x3 complex matrices and colour vectors (sum, product by numbers, products with or without dagger, trace, determinant, norm, scalar product) leaves in its output the named value of the inputs before the call and changes nothing else; the safe_ ones for any coincidence of the arguments, the others for the stated distinct ones. (Refuted for the product with dagger on the left limited to some rows: also its internal sum is cut.)", "quantifier": "every matrix, vector, number, and coincidence of the arguments", "why_tests_cant": "all values and aliasings", "anchors": ["src/new_types/su3_op.hpp: su3_summ, unsafe_su3_prod_su3, safe_su3_prod_su3, su3_trace, su3_det, color_scalar_prod, unsafe_su3_dag_prod_su3"]}
{"id": "C65", "title": "Projection on SU(3) by orthonormalisation", "statement": "su3_unitarize_orthonormalizing, also in place, gives a special unitary matrix whose first two rows are the orthonormalisation of the given ones, for every matrix with independent first two rows, and does not change a matrix of SU(3); su3_build_third_row recovers the third row of any SU(3) matrix.", "quantifier": "every matrix with independent first two rows", "why_tests_cant": "all matrices", "anchors": ["src/new_types/su3_op.hpp: su3_unitarize_orthonormalizing, su3_build_third_row"]}
{"id": "C66", "title": "Explicit inverse", "statement": "unsafe_su3_explicit_inverse gives the left and right inverse of every matrix with non zero determinant.", "quantifier": "every invertible matrix", "why_tests_cant": "all matrices", "anchors": ["src/new_types/su3_op.hpp: unsafe_su3_explicit_inverse"]}
{"id": "C67", "title": "Projection on the algebra", "statement": "The traceless (anti-)hermitian part routines give the (anti-)hermitian part minus its trace, also in place: the result is traceless and (anti-)hermitian, and matrices already such are not changed.", "quantifier": "every matrix", "why_tests_cant": "all matrices", "anchors": ["src/new_types/su3_op.hpp: unsafe_su3_traceless_anti_hermitian_part, unsafe_su3_traceless_hermitian_part, su3_anti_hermitian_part"]}
{"id": "C68", "title": "Cooling and overrelaxation keep SU(3) and the trace", "statement": "A cooling iteration never decreases Re Tr(U M^dag), overrelaxation hits keep it exactly, both leave U in SU(3), for every staple M, zero included; the maximal trace projection returns an SU(3) matrix or stops with an error within the allowed number of passes.", "quantifier": "every link, staple, number of hits, precision", "why_tests_cant": "all matrices; unbounded iterations", "anchors": ["src/new_types/su3_op.hpp: su3_unitarize_maximal_trace_projecting_iteration", "src/new_types/su3_op.cpp: su3_find_overrelaxed, su3_unitarize_maximal_trace_projecting"]}
{"id": "C69", "title": "Exact exponential of a hermitian matrix", "statement": "safe_hermitian_exact_i_exponentiate(out,Q) gives the sum of the exponential series of iQ and a matrix of SU(3), for every hermitian traceless Q outside the regions where the code switches to truncated series (also in place); for small matrices, where it uses a truncated series, every entry is within 1e-12 of the sum; the zero matrix gives the identity; the same for the anti-hermitian version.", "quantifier": "every hermitian traceless matrix but those with two nearly equal eigenvalues", "why_tests_cant": "real analysis; limits", "anchors": ["src/new_types/su3_op.hpp: hermitian_exp_ingredients::prepareIngredients, safe_hermitian_exact_i_exponentiate, safe_anti_hermitian_exact_exponentiate"]}
{"id": "C70", "title": "Order of the directions in gauge files", "statement": "quad_su3_nissa_to_ildg_reord puts the time direction last and shifts the others, also in place, and quad_su3_ildg_to_nissa_reord is its inverse.", "quantifier": "every four matrices", "why_tests_cant": "all values and aliasings", "anchors": ["src/new_types/su3_op.hpp: quad_su3_nissa_to_ildg_reord, quad_su3_ildg_to_nissa_reord"]}
{"id": "C71", "title": "Momenta stay in the algebra and links in the group", "statement": "Along a trajectory, whatever the forces computed from the links, momenta that start hermitian and traceless stay so, and links that start in SU(3) stay in SU(3) (the latter when the exponentials are taken where no series is truncated), before the final projection.", "quantifier": "every force, number of steps, configuration and momenta", "why_tests_cant": "all forces and unbounded numbers of steps", "anchors": ["src/hmc/multipseudo/Omelyan_integrator.cpp", "src/hmc/momenta/momenta_evolve.cpp", "src/hmc/gauge/gluonic_force.cpp:gluonic_force_finish_computation", "src/hmc/multipseudo/quark_force.cpp:compute_quark_force_finish_computation"]}
{"id": "C72", "title": "Dirac matrices", "statement": "The operations on Dirac matrices stored as one entry per row are those on 4x4 matrices (product, sums, scalings, hermitian conjugate; the ones that cannot be represented stop the program). The base gammas satisfy the Clifford algebra, gamma5 is their product, the others are the products that their names say; the sixteen are an orthogonal basis; rotators, sigma_munu and 1+-gamma_mu are what the names say.", "quantifier": "every Dirac matrix, every complex number; every 4x4 matrix for the completeness", "why_tests_cant": "all matrices", "anchors": ["src/new_types/dirac.hpp: dirac_prod, dirac_summ, dirac_subt, dirac_herm, dirac_prod_double", "src/new_types/dirac.cpp: init_base_gamma"]}
{"id": "C73", "title": "Spin matrices", "statement": "Each routine on spins and spin matrices puts in its output the value given by its formula (products, also with Dirac matrices on either side, transposed and hermitian conjugated, traces, sums) and changes nothing else, whatever the coincidences among the arguments that the routine allows; the rotation to the physical basis multiplies by (1+-i gamma5)/sqrt(2) on the two sides.", "quantifier": "every content of the memory, every aliasing allowed", "why_tests_cant": "all values and aliasings", "anchors": ["src/new_types/spin.hpp"]}
{"id": "C74", "title": "Staggered Dirac operator", "statement": "The routines applying the staggered operator write in the destination m times the source of the same parity plus one half (with the sign of the adjoint: minus one half) of the sum on the directions of U_mu(x) f(x+mu) - U_mu(x-mu)^dag f(x-mu), and nothing else, whatever the order in which the threads visit the sites; the squared even operator is m^2 minus a quarter of the double hopping, it is D^dag D restricted to the even sites, hermitian and not smaller than m^2, it is refused when source and destination coincide; D^dag is the adjoint of D; all is covariant under gauge transformations.", "quantifier": "every configuration (any complex links for the adjointness and positivity), every field, mass, lattice and order of visit", "why_tests_cant": "all real configurations and schedules", "anchors": ["src/dirac_operators/stD/dirac_operator_stD.hpp: apply_st2Doe, apply_stDoe, apply_stDeo_half, apply_stD2ee_m2, evn_apply_stD, odd_apply_stD, apply_stD", "src/new_types/su3_op.hpp: su3_summ_the_prod_color, su3_dag_subt_the_prod_color", "src/geometry/geometry_eo.cpp: loceo_neighup"]}
{"id": "C75", "title": "Conjugate gradient", "statement": "When cg_invert returns, the solution s has |source - f(s)|^2 < residue*|source|^2 for the operator f given; for f symmetric and positive definite, any residue>0 and any guess not already exact, it returns whenever niter exceeds the number of unknowns.", "quantifier": "every linear operator, source, guess, residue and niter>=1; every dimension", "why_tests_cant": "all operators and all numbers of iterations; exact termination is a statement on Krylov spaces of any dimension", "anchors": ["src/inverters/templates/cg_invert_template_threaded.hpp: cg_invert"]}
{"id": "C76", "title": "Multishift conjugate gradient", "statement": "When cgm_invert returns, for each shift sigma_i the solution s_i has |source - (A+sigma_i) s_i|^2 < residue_i*|source|^2; if A is symmetric and positive definite, all sigma_i>=0 and residue_i>0, it returns whenever niter_max exceeds the number of unknowns.", "quantifier": "every linear operator A, list of shifts and residues, source, niter_max>=1; every dimension", "why_tests_cant": "all operators, all lists of shifts", "anchors": ["src/inverters/templates/cgm_invert_template_threaded.hpp: cgm_invert"]}
{"id": "C77", "title": "Staggered solvers", "statement": "When inv_stD_cg returns, D sol=source exactly on the odd sites, and on the even ones |D sol-source|^2 < residue*|(D^dag source)_even|^2/m^2, and nothing but the solution and the temporary changes; for any links and m different from zero it returns when niter exceeds the unknowns. The rational function routine writes cons*source+sum_i weights_i s_i with |source-(D^2+pole_i)s_i|^2 < residue*|source|^2.", "quantifier": "every configuration, mass, source, guess, lattice, order of visit, residue, niter>=1", "why_tests_cant": "all configurations and schedules, any number of iterations", "anchors": ["src/inverters/staggered/cg_invert_stD.hpp: inv_stD_cg", "src/inverters/staggered/cg_invert_evn_stD.hpp: inv_evn_stD_cg", "src/inverters/staggered/cg_invert_stD2ee_m2.hpp: inv_stD2ee_m2_cg", "src/inverters/staggered/cgm_invert_stD2ee_m2_portable.hpp: summ_src_and_all_inv_stD2ee_m2_cgm_portable"]}
{"id": "C78", "title": "Twisted mass Wilson operator", "statement": "apply_tmQ writes on every site gamma5 D psi with D=1/(2kappa)+i mu gamma5-1/2 sum_mu a_mu[(1-gamma_mu)U_mu(x)psi(x+mu)+(1+gamma_mu)U_mu(x-mu)^dag psi(x-mu)], and nothing else. For any links the adjoint of Q(mu) is Q(-mu), |Q(mu)psi|^2=|Q(0)psi|^2+mu^2|psi|^2, so that there is no kernel for mu different from zero; it commutes with changes of gauge. The even-odd routines are the blocks of D, inv_tmDee is the inverse of tmDee, and the preconditioned kernel is the Schur complement of D on the odd sites.", "quantifier": "every configuration, kappa, twisted mass, anisotropy, field, lattice and order of the loops", "why_tests_cant": "all configurations and spinors, every lattice size and schedule", "anchors": ["src/dirac_operators/tmQ/dirac_operator_tmQ_portable.cpp: apply_tmQ", "src/dirac_operators/tmD_eoprec/dirac_operator_tmD_eoprec_portable.hpp: tmn2Deo_or_tmn2Doe_eos, tmDee_or_oo_eos, inv_tmDee_or_oo_eos", "src/dirac_operators/tmD_eoprec/dirac_operator_tmD_eoprec_portable.cpp: tmDkern_eoprec_eos, tmDkern_eoprec_square_eos"]}
{"id": "C79", "title": "Even-odd preconditioned twisted mass solver", "statement": "When inv_tmD_cg_eoprec_native returns, D psi=eta exactly on the even sites and |D psi-eta|^2 < residue*|eta_o-D_oe D_ee^-1 eta_e|^2 on the whole lattice, and nothing changes but the solution and the local fields. For mu different from zero and any links it returns whenever niter exceeds the number of real unknowns and the odd source is not zero.", "quantifier": "every configuration, kappa, twisted mass, anisotropy, source, guess, residue, niter>=1, lattice, order of the loops", "why_tests_cant": "all configurations and sources, any number of iterations", "anchors": ["src/inverters/twisted_mass/cg_invert_tmD_eoprec.cpp: inv_tmD_cg_eoprec_native, inv_tmDkern_eoprec_square_eos_cg, inv_tmD_cg_eoprec_prepare_source, inv_tmD_cg_eoprec_almost_reco_sol", "src/geometry/geometry_mix.hpp: split_lx_vector_into_eo_parts, paste_eo_parts_into_lx_vector"]}
{"id": "C80", "title": "Fourier transform of a distributed field", "statement": "fft4d leaves on every site of every rank the discrete Fourier transform of the field, in the directions chosen and with the sign given, divided by the number of points summed if normalization is asked, whatever the buffer held and the order of the loops; the transforms with opposite signs are inverse of each other, so forth and back (one of the two normalized) gives back the field.", "quantifier": "every valid grid whose number of ranks is one or divides the first of the other sides, field, set of directions, sign, order of the loops", "why_tests_cant": "all grids, fields and schedules", "anchors": ["src/operations/fft.hpp: fft4d", "src/operations/remap_vector.hpp: remapLxVectorToLocd, remapLocdVectorToLx"]}
{"id": "C81", "title": "Correlator of the topological charge", "statement": "compute_topo_corr replaces the charge q(x) by 1/V sum_y q(y) q(x-y); with the time-momentum representation by the transform back in the time only of the square of the normalized transform. The correlator 1/V sum_y q(y) q(y+x) its name and comments promise is not what it computes (refuted: the transform is multiplied by itself and not by its conjugate).", "quantifier": "every valid grid as in C80, charge, order of the loops", "why_tests_cant": "all grids and fields", "anchors": ["src/measures/gauge/topological_charge.cpp: compute_topo_corr", "src/operations/fft.hpp: fft4d"]}
{"id": "C82", "title": "Staples of the distributed configuration", "statement": "compute_squared_staples_lx_conf leaves on every link of every rank the three backward and three forward staples of that link on the global periodic lattice, and compute_summed_squared_staples_lx_conf their sum, whatever the split among the ranks, the order of the parallel loops and the content of the border of the configuration and of the buffers; the local links and the backward half of the border are unchanged.", "quantifier": "every valid grid, rank, configuration, product of matrices, order of the loops, initial content of border, buffers and result", "why_tests_cant": "all grids, configurations and schedules", "anchors": ["src/operations/su3_paths/squared_staples.cpp: compute_squared_staples_lx_conf, compute_summed_squared_staples_lx_conf", "src/base/field.cpp: startBufHaloNeighExchange", "src/base/init.cpp: perpDirs"]}
{"id": "C83", "title": "Plaquette of the distributed configuration", "statement": "global_plaquette_lx_conf returns the averages, over the sites of the global periodic lattice and the three planes with and without the time, of one third of the real part of the trace of the plaquette, whatever the split among the ranks, the order of the loops, the backend and the content of the border; it always returns, and a change of the bases in colour space (unitary, site by site) does not change what it returns.", "quantifier": "every valid grid, configuration, change of bases, order of the loops, backend, layout of the field", "why_tests_cant": "all grids, configurations and schedules", "anchors": ["src/operations/su3_paths/plaquette.hpp: point_plaquette_lx_conf, global_plaquette_lx_conf", "src/base/field.hpp: updateHalo, reduce"]}
{"id": "C84", "title": "Wilson action and its force", "statement": "Wilson_action is beta times the sum over sites and planes of one minus one third of the real part of the trace of the plaquette; the force that compute_gluonic_force_lx_conf leaves on every link of every rank is antihermitian and traceless and is the derivative of that action: when the links move as dU = iHU with hermitian traceless H the action changes by the sum over the links of Re tr(iHF); so, with the momenta moving as dH = -iF as the code does, the action plus half of the squared norm of the momenta is constant to the first order.", "quantifier": "every valid grid, configuration, beta, direction in which the links are moved, order of the loops, initial content of border, buffers and result", "why_tests_cant": "all grids, configurations, directions and schedules", "anchors": ["src/hmc/gauge/Wilson_action.hpp: Wilson_action", "src/hmc/gauge/Wilson_force.cpp: Wilson_force_lx_conf", "src/hmc/gauge/gluonic_force.cpp: compute_gluonic_force_lx_conf, gluonic_force_finish_computation", "src/hmc/momenta/momenta_evolve.cpp: evolve_lx_momenta_with_force"]}
{"id": "C85", "title": "Gauge transformation of the distributed configuration", "statement": "gauge_transform_conf, for full and for even/odd fields, into another field or in place, leaves on every rank the link Om(x) U_mu(x) Om(x+mu)^dag of the global periodic lattice, whatever the split among the ranks and the order of the loops; nothing outside the sites of the rank is written; with unitary matrices the plaquettes reported before and after are the same.", "quantifier": "every valid grid, field of links and of transformations, order of the loops, initial content of output and borders", "why_tests_cant": "all grids, fields and schedules", "anchors": ["src/operations/gauge_fixing.cpp: gauge_transform_conf (lx and eo)"]}
{"id": "C86", "title": "Functional, derivative and quality of Landau and Coulomb gauge fixing", "statement": "compute_Landau_or_Coulomb_functional returns minus the sum of Re tr U over the links of the directions to be fixed (minus the offset); the derivative used by the exponentiating method is minus the gradient of that functional under site dependent changes of bases (antihermitian, traceless, and the change along any path leaving from the identity along A is -sum Re tr(A D)); compute_Landau_or_Coulomb_gauge_fixing_quality is 4/3 of the average over the sites of |D|^2 and is zero if and only if the configuration is a stationary point of the functional along its gauge orbit; the step exp(-alpha D/2) of the method, as composed with the transformation done so far, makes the functional decrease at first order in alpha, by 3/8 of the volume times the quality.", "quantifier": "every valid grid, configuration (links need not be unitary), Landau or Coulomb, order of the loops, backend", "why_tests_cant": "all grids, configurations, paths on the gauge orbit and schedules", "anchors": ["src/operations/gauge_fixing.cpp: compute_Landau_or_Coulomb_functional, compute_Landau_or_Coulomb_functional_der, compute_Landau_or_Coulomb_gauge_fixing_quality, exp_der_alpha_half, add_current_transformation"]}
{"id": "C87", "title": "Projection of a matrix on SU(3) by averaging with its inverse", "statement": "su3_unitarize_explicitly_inverting returns for every invertible matrix and every positive tolerance, with a single result, after at most k+2 iterations when 5(|T|^2+|T^-1|^2-6) <= 16 4^k tol^2; the result has determinant exactly 1 and is unitary up to 13 tol^2 in every entry; it is the unitary factor W of the polar decomposition T=H W up to 10 tol^2 and to the phase that brings W to determinant 1 (which is 1 when W has determinant 1); a matrix of SU(3) is returned as it is by the first iteration; and the result for A T B, with A and B in SU(3), is A times the result for T times B, with the same number of iterations.", "quantifier": "every invertible 3x3 matrix, tolerance, pair of SU(3) rotations", "why_tests_cant": "all matrices; the convergence is a statement on unbounded loops", "anchors": ["src/new_types/su3_op.hpp: su3_unitarize_explicitly_inverting, unsafe_su3_explicit_inverse, safe_su3_prod_complex", "src/new_types/complex.hpp: complex_pow"]}
{"id": "C88", "title": "The procedure of gauge fixing", "statement": "Landau_or_Coulomb_gauge_fix returns, whatever directions, step lengths and rotations its methods choose as long as no step is singular; what it returns is the given configuration seen from other bases: a single transformation for the whole lattice, at each site of determinant exactly 1 and unitary within 13e-30, and exactly in SU(3) when the steps are so; then the mean plaquettes are those of the given configuration. The precision it reports is the quality of what is returned; it is within the target unless the maximal number of iterations has been used up; at least one iteration is done, and no more than the maximum. UnitarizeEach does not set how often the transformation is brought back on the group: from 2 on, at most two iterations pass. The sweep of the overrelaxing method is not a gauge transformation of the links it works on (refuted).", "quantifier": "every lattice, grid of ranks, configuration, schedule of the sites, choice of directions/step lengths/rotations, history of the loop", "why_tests_cant": "the loop is unbounded and depends on an arbitrary sequence of choices; the claim ranges on all of them and on all configurations", "anchors": ["src/operations/gauge_fixing.cpp: Landau_or_Coulomb_gauge_fix, Landau_or_Coulomb_gauge_fixing_exponentiate, Landau_or_Coulomb_gauge_fixing_overrelax, add_current_transformation, check_Landau_or_Coulomb_gauge_fixed", "src/operations/gauge_fixing.hpp: LC_gauge_fixing_pars_t"]}
{"id": "C89", "title": "The adaptative search of the step of the gauge fixing", "statement": "The search of the step length always returns, after 1 to 15 trials, and leaves the transformation as it was; either it gives up, returning the default length and counting one more failure, or it returns the place of the minimum of the parabola through the changes of the functional after none, one and two steps of a trial length which is within 5% of the result, with curvature above the threshold, and resets the failures; where the functional is a parabola the first trial, of whatever length, jumps to the minimum and the second accepts it.", "quantifier": "every lattice, grid, configuration, transformation reached, direction field and default length", "why_tests_cant": "the number of trials and the values depend on the whole configuration; all of them are covered", "anchors": ["src/operations/gauge_fixing.cpp: adapt_alpha, add_current_transformation, exp_der_alpha_half, compute_Landau_or_Coulomb_functional"]}
{"id": "C90", "title": "Boundary conditions of a configuration", "statement": "Putting boundary conditions multiplies each link in direction mu by e^{i pi theta_mu/L_mu}, on the borders and on the edges too if asked and nowhere else, so that the product of the links along a closed line around the lattice is multiplied by e^{i pi theta_mu} and the plaquettes do not change; removing the conditions undoes putting them; after any history of changes of the conditions the links are those one gets putting the last ones, and the record of the conditions is right.", "quantifier": "every lattice, grid, configuration, angles, schedule of the parallel loops and history of changes", "why_tests_cant": "the angles are reals and the histories unbounded", "anchors": ["src/operations/gaugeconf.cpp: put_boundaries_conditions, rem_boundaries_conditions, adapt_theta"]}
{"id": "C91", "title": "The background electromagnetic field", "statement": "init_backfield puts a phase on every link such that, for each of the six components F of the field in its plane (mu,nu), the plaquettes have the phase of the flux 2 pi q F/(L_mu L_nu): with the first quantization except for the one plaquette which compensates the total flux, so the field is uniform when q F is integer, with the second with opposite signs in the two halves of the lattice; without an electric field of the first kind the lines in time have phase pi (im_pot-1), that is chemical potential and antiperiodic conditions. The program stops exactly when the second quantization is asked for a component whose direction mu is not a multiple of 4.", "quantifier": "every lattice, grid, charge, field, chemical potential, flag and schedule", "why_tests_cant": "the fluxes are reals and the plaquettes are those of every lattice size", "anchors": ["src/hmc/backfield.cpp: init_backfield_to_id, add_im_pot_to_backfield, get_args_of_one_over_L2_quantization, get_args_of_half_half_quantization, add_em_field_to_backfield, add_antiperiodic_condition_to_backfield, theory_pars_t::init_backfield"]}
{"id": "C92", "title": "Coupling of a background field to a configuration", "statement": "Adding or removing a background field multiplies each link by the phase of the field or by its conjugate, and by the staggered sign if asked, in the same way on a configuration split by parity and on one which is not; the plaquettes are multiplied by those of the field, and by -1 if the signs are there; removing undoes adding; the staggered signs alone change the sign of all the plaquettes and applied twice do nothing.", "quantifier": "every lattice, grid, configuration, field and schedule", "why_tests_cant": "they must hold for all the links of all lattices", "anchors": ["src/hmc/backfield.cpp: add_or_rem_backfield_with_or_without_stagphases_to_conf (both), add_or_rem_stagphases_to_conf"]}
{"id": "C93", "title": "Schedule of the measurements on a smoothed configuration", "statement": "One call of the smoothing brings the configuration to the first multiple of the interval of measure strictly after the present number of steps, applying the step of the method as many times as needed; if that multiple is beyond the number of steps of the method it changes nothing and says that it has finished. The loop of measurement ends, and measures the configuration after 0, m, 2m, ... steps up to the number of steps of the method, each with its number of steps; the number of measures besides the first is the one declared.", "quantifier": "every method, number of steps, interval of measure and configuration", "why_tests_cant": "the numbers of steps and of measures have no bound", "anchors": ["src/operations/smearing/smooth.hpp: next_nsmooth_meas, nsmooth, nmeas_nonzero", "src/operations/smearing/smooth.cpp: smooth_lx_conf_one_step, smooth_lx_conf_until_next_meas", "src/measures/gauge/topological_charge.cpp: measure_topology_lx_conf"]}
{"id": "C94", "title": "Free twisted mass propagator in momentum space", "statement": "The operator of a momentum is the Wilson Dirac operator with twisted mass, M + i sum_mu gamma_mu sin p_mu + i tau m gamma5 in the Wilson base, m + i sum_mu gamma_mu sin p_mu - i tau M gamma5 at maximal twist, with M=1/(2 kappa)-sum_mu cos p_mu; the two differ by the rotation of the fields with (1 -+ i gamma5)/sqrt(2). The propagator is its inverse on both sides divided by the volume whenever the operator is not null, or the value given by the user times the identity in the zero mode of the massless periodic quark; the same for the field of all the momenta, in any order of the iterations, and for the squared one.", "quantifier": "every lattice, momentum, mass, kappa, phase at the boundary, r, base and schedule", "why_tests_cant": "momenta and masses are reals, and the identity has to hold for all of them", "anchors": ["src/free_theory/twisted_propagator.cpp: get_component_of_twisted_propagator_of_imom, mom_space_twisted_operator_of_imom, mom_space_twisted_propagator_of_imom, compute_mom_space_twisted_propagator, compute_x_space_twisted_squared_propagator_by_fft", "src/free_theory/twisted_propagator.hpp: m0_of_kappa"]}
{"id": "C95", "title": "Free quarks on shell", "statement": "The energy of a twisted mass quark is the only non negative solution of the dispersion relation sum_i sin^2 p_i - sinh^2 E + M^2 + m^2 = 0; the operator on shell is the Dirac operator continued to p_0 = +-iE and the tilded one is its complement: their product vanishes; a sign of the energy which is not +-1 stops the program. The wave functions of particle and antiparticle solve the Dirac equation with positive and negative energy and are orthogonal, with norm 2 sinh E at maximal twist (in the Wilson base the norm is 2 sinh E (M+sinh E)/(m+sinh E)). The same for the naive massless quark.", "quantifier": "every momentum, mass, kappa, phase, base, spin and sign", "why_tests_cant": "the dispersion relation is between real numbers", "anchors": ["src/free_theory/twisted_propagator.cpp: tm_quark_energy, naive_massless_quark_energy, twisted_on_shell_operator_of_imom, naive_massless_on_shell_operator_of_imom, ompg0_eig, twisted_wavefunction_of_imom, naive_massless_wavefunction_of_imom"]}
{"id": "C96", "title": "Tree level Symanzik gauge propagator", "statement": "The quadratic action of a plane wave, with weight 1-8c1 for each plaquette and c1 for each rectangle, is one symmetric kinetic operator, transverse and for c1<=0 not negative. On the momenta kept by the zero mode prescription and above the tolerance the propagator times the volume is its inverse with the gauge fixing term in the Feynman gauge, its inverse on the transverse modes in the Landau gauge, its spatially transverse inverse in the Coulomb gauge; it is real, symmetric and not negative; on the other momenta it is zero; what is exchanged between conserved currents is the same in all gauges. The Coulomb gauge with c1<>0 stops the program.", "quantifier": "every lattice, momentum, phase at the boundary, prescription, gauge and c1<=0", "why_tests_cant": "the closed formula has to be the inverse of the operator for every momentum and c1", "anchors": ["src/free_theory/tlSym_gauge_propagator.cpp: isNonZeroMode, cancel_if_zero_mode_spin1prop, mom_space_tlSym_gauge_propagator_of_imom", "src/free_theory/free_theory_types.hpp: gauge_info"]}
{"id": "C97", "title": "Photon fields in momentum space", "statement": "The field of the propagators is the propagator of each momentum in any order of the iterations; multiplying a field by it, also in place, is the product of matrix and vector at each momentum; with the volume factor between the two Fourier transforms the volume cancels; the stochastic photon without Eigen is available for the Feynman gauge and the Wilson action only and multiplies each momentum by a real s with s^2 equal to V times the propagator, provided that sqrtf(V)^2=V; the energy of a gluon is the one of the pole of the Wilson propagator plus the virtuality squared.", "quantifier": "every field, momentum, schedule, gauge and virtuality", "why_tests_cant": "fields and momenta are reals and the schedule is arbitrary", "anchors": ["src/free_theory/tlSym_gauge_propagator.cpp: compute_mom_space_tlSym_gauge_propagator, multiply_mom_space_tlSym_gauge_propagator, multiply_mom_space_sqrt_tlSym_gauge_propagator, multiply_by_sqrt_tlSym_gauge_propagator, multiply_by_tlSym_gauge_propagator, cancel_if_zero_mode_spin1field, gluon_energy"]}
{"id": "C98", "title": "Covariant translations and Laplace operators", "statement": "The backward and forward covariant shifts give U_mu(x)f(x+mu) and U_mu(x-mu)^dag f(x-mu), or add them to the output; they are the adjoint of each other and, with links in the group, inverse of each other, so they keep the norm. The Laplace operator is the sum on the directions asked of the two shifts minus 2: it is hermitian and its mean value is minus the sum of the squared covariant differences. The operator on two links is the sum of the squares of the symmetric derivatives, which are antihermitian. The derivative restricted to a time is zero elsewhere and may work in place. All are covariant under a change of gauge, and only the output and the field of service change.", "quantifier": "every lattice, configuration, field, set of directions, time and order of the sites", "why_tests_cant": "fields and configurations are continuous and the schedule is arbitrary", "anchors": ["src/operations/covariant_derivative.cpp: cshift_bw, cshift_fw, Laplace_operator, Laplace_operator_2_links, apply_nabla_i (spincolor)", "src/new_types/su3_op.hpp: su3_summ_the_prod_spincolor, su3_dag_summ_the_prod_spincolor, su3_dag_subt_the_prod_spincolor"]}
{"id": "C99", "title": "Gaussian smearing", "statement": "Smearing applies the number of steps asked of (1+sum_i kappa_i(T_i+T_i^dag))/(1+2 sum_i kappa_i) on the spatial directions, also in place, and copies if the number is not positive; two smearings add up; the smearing is linear, hermitian (smearing the source is smearing the sink), covariant under a change of gauge, does not mix the times, and with links in the group and kappa not negative never increases the norm; only the output and the two fields of service change.", "quantifier": "every lattice, configuration, field, kappa, number of steps and order of the sites", "why_tests_cant": "the number of steps is unbounded and fields are continuous", "anchors": ["src/operations/smearing/gaussian.hpp: gaussian_smearing_apply_kappa_H, gaussian_smearing"]}
{"id": "C100", "title": "Insertion of tadpoles, photons and conserved currents", "statement": "Inserting a vector vertex in a fermion field gives sum_mu [a(G-gamma_mu)A_mu(x)U_mu(x)f(x+mu)+b(G+gamma_mu)A_mu(x-mu)U_mu(x-mu)^dag f(x-mu)] on the time asked and zero on the others, with a=b=-1/4 for the tadpole, a=-b=-i/2 for a photon, a=-b=-1/2 for the conserved current, G=1 for Wilson quarks and -i tau3 gamma5 for twisted ones, and A restricted to the directions asked. The insertions at each time add up to the one on all the times. A photon which is the gradient of a function gives i times the commutator of the Dirac operator with the function (Ward identity), with the operator in the physical basis for twisted quarks. The vertex is covariant under a change of gauge; the tadpole and the photon are gamma5-hermitian, the conserved current gamma5-antihermitian. Nothing else than the output changes.", "quantifier": "every lattice, configuration, field, photon, function, set of directions, time and order of the sites", "why_tests_cant": "fields, photons and configurations are continuous and the schedule is arbitrary", "anchors": ["src/operations/covariant_derivative.cpp: insert_vector_vertex, insert_tadpole, insert_external_source, insert_conserved_current and their Wilson and tm forms (spincolor)", "src/dirac_operators/tmQ/dirac_operator_tmQ_portable.cpp: apply_tmQ"]}
