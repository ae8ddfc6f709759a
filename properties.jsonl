{"id": "C01", "title": "Electron hop conserves particle number and spin", "statement": "Whenever SingleLASRootspace.get_single returns a rootspace, its total electron count and total spin projection equal those of the source, exactly one electron of the requested spin has left fragment i and arrived in fragment a, every other fragment is untouched, and no fragment ends with a negative occupation.", "quantifier": "every rootspace with any number of fragments, every pair of distinct fragments, every spin label and every pair of multiplicity changes", "why_tests_cant": "The number of (charge, spin, multiplicity) strings is infinite; the test molecules only visit neutral and singly ionised two- to four-fragment cases.", "anchors": ["my_pyscf/lassi/spaces.py:SingleLASRootspace.get_single", "my_pyscf/lassi/spaces.py:SingleLASRootspace.neleca", "my_pyscf/lassi/spaces.py:SingleLASRootspace.nelecb"]}
{"id": "C02", "title": "is_single_excitation_of recognises exactly the electron hops", "statement": "A.is_single_excitation_of(B) answers True exactly when A differs from B by one electron of one spin moving between two distinct fragments with the multiplicity of both changed by one, and nothing else; describe_single_excitation then reports the source, destination, spin and multiplicity directions from which get_single rebuilds A from B.", "quantifier": "every pair of parity-consistent rootspaces over the same fragments", "why_tests_cant": "Recognition is an if-and-only-if over an unbounded set of pairs; tests only check positive instances produced by the same code.", "anchors": ["my_pyscf/lassi/spaces.py:SingleLASRootspace.is_single_excitation_of", "my_pyscf/lassi/spaces.py:SingleLASRootspace.describe_single_excitation"]}
{"id": "C03", "title": "Enumeration of single excitations is sound and complete", "statement": "get_singles returns a rootspace if and only if it is obtained by one allowed hop (an occupied spin orbital in i, a hole of the same spin in a, mask permitting, and a physically valid multiplicity change on each side); all_single_excitations keeps the reference spaces first and in order and never lists a space twice.", "quantifier": "every reference list, every mask, every orbital and electron count", "why_tests_cant": "Completeness quantifies over all target rootspaces; a test can only show that some expected ones are present.", "anchors": ["my_pyscf/lassi/spaces.py:SingleLASRootspace.get_singles", "my_pyscf/lassi/spaces.py:SingleLASRootspace.get_valid_smult_change", "my_pyscf/lassi/spaces.py:all_single_excitations"]}
{"id": "C04", "title": "Spin-projection table is exactly the set of microstates", "statement": "make_spin_shuffle_table lists every assignment of local spin projections that is compatible with the local multiplicities and sums to the total projection, and lists nothing else and nothing twice.", "quantifier": "every number of fragments and every multiplicity/projection string with consistent parity", "why_tests_cant": "The table is built by repeated flips with pruning; whether pruning can lose a microstate is a statement about all multiplicity strings.", "anchors": ["my_pyscf/lassi/spaces.py:SingleLASRootspace.make_spin_shuffle_table", "my_pyscf/lassi/spaces.py:SingleLASRootspace.gen_spin_shuffles"]}
{"id": "C05", "title": "Coupling-path table is exactly the set of genealogical couplings", "statement": "make_smult_shuffle_table(S) lists exactly once every sequence of spin increments whose partial sums obey the triangle rule at every fragment and end in total multiplicity S, and is empty when S is unreachable.", "quantifier": "every list of at least one local multiplicity and every target multiplicity of the right parity", "why_tests_cant": "Requires both soundness and completeness of an iterative pruned search for unbounded fragment counts.", "anchors": ["my_pyscf/lassi/spaces.py:SingleLASRootspace.make_smult_shuffle_table", "my_pyscf/lassi/basis.py:get_spincoup_bases"]}
{"id": "C06", "title": "Spin shuffling closes a list of rootspaces", "statement": "_spin_shuffle returns the input list as a prefix, followed by spaces that are spin shuffles of some input; the result contains every spin shuffle of every input and contains no equal pair that the input did not already contain; a second application adds nothing.", "quantifier": "every list of reference rootspaces without entanglement maps", "why_tests_cant": "Closure and idempotence quantify over all spaces; order-dependent set membership cannot be exhausted by examples.", "anchors": ["my_pyscf/lassi/spaces.py:_spin_shuffle", "my_pyscf/lassi/spaces.py:SingleLASRootspace.gen_spin_shuffles"]}
{"id": "C07", "title": "Equal rootspaces have equal hashes", "statement": "If two rootspaces compare equal then they have equal hashes, so that Python sets and dicts of rootspaces behave as sets.", "quantifier": "every pair of rootspaces, including ones carrying entanglement maps", "why_tests_cant": "Violations need a particular combination of history (one space went through get_single_any_m) and lookup.", "anchors": ["my_pyscf/lassi/spaces.py:SingleLASRootspace.__eq__", "my_pyscf/lassi/spaces.py:SingleLASRootspace.__hash__", "my_pyscf/lassi/spaces.py:SingleLASRootspace.set_entmap_"]}
{"id": "C08", "title": "filter_spaces keeps exactly the spaces that can couple to a requested multiplicity", "statement": "With target_any_smult, a rootspace survives filter_spaces exactly when its local spins can couple to at least one requested total multiplicity; with target_all_smult, exactly when they can couple to all of them; the charge and multiplicity limits are exact.", "quantifier": "every rootspace and every list of target multiplicities", "why_tests_cant": "The documented contract is an equivalence over all strings; tests use one target with an in-range value.", "anchors": ["my_pyscf/lassi/spaces.py:filter_spaces"]}
{"id": "C09", "title": "Combining disjoint excitations preserves both", "statement": "combine_orthogonal_excitations of two excitations acting on disjoint fragments carries, fragment by fragment, the quantum numbers of whichever excitation touched the fragment; total electron count changes add; with flexible_m the spin projections are shifted so the total equals that of the reference, every projection stays within its multiplicity, and no assertion fires whenever a solution exists.", "quantifier": "every reference and every pair of excitations on disjoint fragments", "why_tests_cant": "The greedy spin repair must succeed for every string of multiplicities.", "anchors": ["my_pyscf/lassi/spaces.py:combine_orthogonal_excitations", "my_pyscf/lassi/spaces.py:orthogonal_excitations", "my_pyscf/lassi/spaces.py:SingleLASRootspace.excited_fragments"]}
{"id": "C10", "title": "Sz rotation covers the whole multiplet", "statement": "get_ci_szrot and get_fcisolvers_szrot build one entry for each spin projection of the fragment's multiplet, each obtained by the right number of lowering or raising steps with electron counts that match its key, and look-ups made by get_spin_shuffle_civecs never miss.", "quantifier": "every fragment, multiplicity and starting projection", "why_tests_cant": "Off-by-one errors at either end of the ladder only show for particular projections.", "anchors": ["my_pyscf/lassi/spaces.py:SingleLASRootspace.get_ci_szrot", "my_pyscf/lassi/spaces.py:SingleLASRootspace.get_fcisolvers_szrot", "my_pyscf/lassi/spaces.py:SingleLASRootspace.get_spin_shuffle_civecs"]}
{"id": "C11", "title": "Spin-shuffle sign is the parity of the reordering", "statement": "fermion_spin_shuffle(na, nb) equals the sign of the permutation that takes fragment-by-fragment (alpha then beta) operator order to all-alpha-then-all-beta order.", "quantifier": "every number of fragments and every alpha/beta occupation list", "why_tests_cant": "A sign error appears only for particular occupation parities; the state space is infinite.", "anchors": ["my_pyscf/lassi/op_o1/utilities.py:fermion_spin_shuffle"]}
{"id": "C12", "title": "Fragment-shuffle sign is the parity of the reordering", "statement": "fermion_frag_shuffle(nelec_f, frag_list) equals the sign obtained by commuting the operators of the listed fragments until they stand together, in unchanged mutual order, just left of everything below the lowest listed fragment.", "quantifier": "every occupation list, every list of fragment indices, any number of fragments", "why_tests_cant": "The implementation relies on the iteration order of a Python set; small tests never see an order that differs from ascending.", "anchors": ["my_pyscf/lassi/op_o1/utilities.py:fermion_frag_shuffle"]}
{"id": "C13", "title": "Annihilation shuffle sign is the parity of the reordering", "statement": "fermion_des_shuffle(nelec_f, frag_list, i) equals the sign of moving an annihilation operator on fragment i past the creation operators of all listed fragments above i.", "quantifier": "every occupation list, fragment list and fragment in it", "why_tests_cant": "Same set-order dependence as for the fragment shuffle; invisible below nine fragments.", "anchors": ["my_pyscf/lassi/op_o1/utilities.py:fermion_des_shuffle"]}
{"id": "C14", "title": "State addresses are a bijection", "statement": "get_rootaddr_fragaddr assigns to the states of a LASSI basis (rootspace, local index in each fragment) pairs that are all different, within range, cover every combination, and are laid out with the first fragment fastest and rootspaces contiguous and in order.", "quantifier": "every table of local root counts", "why_tests_cant": "Bijectivity over arbitrary ragged tables.", "anchors": ["my_pyscf/lassi/citools.py:get_rootaddr_fragaddr", "my_pyscf/lassi/citools.py:get_lroots"]}
{"id": "C15", "title": "Blocked addresses round-trip", "statement": "split_addrs_by_blocks decomposes every valid state index into a block and an offset inside that block from which the index is recovered; blocks of zero size are never selected.", "quantifier": "every list of block sizes, including zeros, and every index below the total", "why_tests_cant": "Boundary indices and empty blocks for unbounded lists.", "anchors": ["my_pyscf/lassi/basis.py:NullOrthBasis.split_addrs_by_blocks", "my_pyscf/lassi/basis.py:OrthBasis.split_addrs_by_blocks"]}
{"id": "C16", "title": "Raw/orthogonal basis maps are adjoint", "statement": "For the orthogonal basis of LASSI model states, applying the map and then taking the inner product equals taking the inner product after applying the reverse map; with orthonormal columns and manifolds covering disjoint state sets, the round trip is the identity on the orthogonal side.", "quantifier": "every set of manifolds with disjoint state indices and every pair of vectors", "why_tests_cant": "Linear-algebra identity over all sizes and vectors.", "anchors": ["my_pyscf/lassi/basis.py:OrthBasis._matvec", "my_pyscf/lassi/basis.py:OrthBasis._rmatvec"]}
{"id": "C17", "title": "Multiplicity shift keeps manifold segments aligned", "statement": "SmultShifter applies to every manifold the segment of the intermediate vector that belongs to it and writes the segment of the final vector that belongs to it.", "quantifier": "every list of manifold sizes, including manifolds that vanish for one of the two multiplicities", "why_tests_cant": "Requires a manifold that vanishes on one side to occur before another; tests use spaces where all manifolds survive.", "anchors": ["my_pyscf/lassi/basis.py:SmultShifter._matvec"]}
{"id": "C18", "title": "Chunked transpose equals the N-dimensional transpose", "statement": "bigdim.transpose(arr, axes) returns, for every permutation of the axes, the same array as numpy's transpose would, without the 32-dimension limit.", "quantifier": "every shape without a zero extent, with any number of dimensions, and every permutation; shapes with a zero extent raise ValueError", "why_tests_cant": "numpy cannot represent the reference result for more than 32 dimensions, so there is nothing to compare with.", "anchors": ["util/bigdim.py:transpose"]}
{"id": "C19", "title": "Slow-fragment transposition round-trips", "statement": "transpose_sivec_with_slow_fragments undoes transpose_sivec_make_fragments_slow and both are permutations of the state-interaction vector.", "quantifier": "every list of local root counts, every set of slow fragments, every number of columns", "why_tests_cant": "Inverse law for all shapes.", "anchors": ["my_pyscf/lassi/op_o1/utilities.py:transpose_sivec_make_fragments_slow", "my_pyscf/lassi/op_o1/utilities.py:transpose_sivec_with_slow_fragments"]}
{"id": "C20", "title": "Interaction list does not depend on the thread schedule", "statement": "get_scallowed_interactions returns the same list whatever the number of OpenMP threads, the partition of the loop and the order in which threads append; the list contains each pair of rootspaces that differs by an allowed two-electron operator exactly once.", "quantifier": "every table of occupations with fewer than 2^31 coupled pairs, every number of threads, every loop partition and every interleaving of the append sections", "why_tests_cant": "Schedules cannot be enumerated by running the program.", "anchors": ["lib/lassi/slatercondon.c:SClistinter", "lib/lassi/slatercondon.c:SCcntinter", "my_pyscf/lassi/op_o1/utilities.py:get_scallowed_interactions"]}
{"id": "C21", "title": "Selection rule is symmetric and matches two-electron reachability", "statement": "The coupling test used to list interactions is symmetric in bra and ket and accepts a pair exactly when the ket occupations can be turned into the bra occupations by at most two electron moves that conserve each spin.", "quantifier": "every pair of occupation strings", "why_tests_cant": "Equivalence between an arithmetic test and existence of a sequence of moves, over all strings.", "anchors": ["lib/lassi/slatercondon.c:is_interaction_coupled"]}
{"id": "C22", "title": "Spectator orbital round trip", "statement": "read_orbital applied to the result of add_orbital with the same occupation returns the original CI vector, and reading with a different occupation returns zero.", "quantifier": "every orbital count, electron count, occupation case and CI vector", "why_tests_cant": "Needs the offset arithmetic and sign to be right for all sizes.", "anchors": ["my_pyscf/fci/dummy.py:add_orbital", "my_pyscf/fci/dummy.py:read_orbital"]}
{"id": "C23", "title": "Spinless representation round trip", "statement": "Mapping a CI vector into the spinless representation and back returns it unchanged, and vectors of different spin projection occupy disjoint determinants.", "quantifier": "every orbital count, every alpha/beta count and every vector", "why_tests_cant": "Injectivity of the address map for all sizes.", "anchors": ["my_pyscf/lassi/op_o0.py:civec_spinless_repr_generator"]}
{"id": "C24", "title": "Product-state addresses select exactly the fragment-resolved determinants", "statement": "addr_outer_product returns exactly the addresses of the determinant strings having the prescribed number of electrons in each fragment's orbitals, in increasing order, and this order enumerates the fragment strings with the last fragment slowest.", "quantifier": "every list of fragment sizes and electron counts in which no count exceeds its size", "why_tests_cant": "Set equality and order isomorphism for all sizes.", "anchors": ["my_pyscf/lassi/op_o0.py:addr_outer_product", "my_pyscf/lassi/op_o0.py:_ci_outer_product"]}
{"id": "C25", "title": "Asynchronous combination uses every fragment result exactly once", "statement": "In each macrocycle the pairwise combination of impurity results terminates with exactly one keyframe and every impurity result enters exactly once, for any number of impurities.", "quantifier": "every number of impurity keyframes", "why_tests_cant": "Tests use two or three fragments; the odd-leftover rule first matters at three and five.", "anchors": ["my_pyscf/mcscf/lasscf_async/lasscf_async.py:kernel"]}
{"id": "C26", "title": "No impurity result is forgotten in the combination", "statement": "After combining keyframes, every fragment that was updated by any of the combined keyframes is still marked as updated, so later combinations keep its orbitals and CI vectors.", "quantifier": "every tournament and every limit on the number of fragments relaxed together", "why_tests_cant": "Needs at least three fragments together with a limit below the number of fragments.", "anchors": ["my_pyscf/mcscf/lasscf_async/combine.py:combine_pair", "my_pyscf/mcscf/lasscf_async/combine.py:select_aa_block", "my_pyscf/mcscf/lasscf_async/crunch.py:ImpuritySolver._push_keyframe"]}
{"id": "C27", "title": "Orthogonalised keyframe averages all inputs", "statement": "orth_orb orthonormalises with respect to the average density of all the keyframes it is given.", "quantifier": "every list of keyframes", "why_tests_cant": "The defect is invisible when the keyframes' densities agree, as they do near convergence.", "anchors": ["my_pyscf/mcscf/lasscf_async/combine.py:orth_orb"]}
{"id": "C28", "title": "Order-insensitive dictionary", "statement": "A SortedIndexDict returns for every permutation of a tuple key the value last stored under any permutation of that key.", "quantifier": "every history of stores, reads and membership tests", "why_tests_cant": "A statement about all operation histories.", "anchors": ["my_pyscf/mcscf/lasscf_async/lasscf_async.py:SortedIndexDict"]}
{"id": "C29", "title": "Requested quantum numbers are honoured", "statement": "After state_average(_) with given charges, spins and multiplicities, get_space_info reports exactly those numbers.", "quantifier": "every table of charges, spins and multiplicities", "why_tests_cant": "Wrong-parity requests are silently altered; tests only request consistent numbers.", "anchors": ["my_pyscf/mcscf/lasci.py:state_average_", "my_pyscf/mcscf/lasci.py:get_space_info", "my_pyscf/mcscf/addons.py:StateAverageNMixFCISolver._get_nelec"]}
{"id": "C30", "title": "CI vectors follow their quantum numbers", "statement": "When the list of states is changed by state_average(_), every cached CI vector is either dropped or attached to the new state with identical quantum numbers, and a new state with the same quantum numbers as exactly one old state always receives its CI vectors.", "quantifier": "every old and new table of states", "why_tests_cant": "All pairs of tables.", "anchors": ["my_pyscf/mcscf/lasci.py:state_average_"]}
{"id": "C31", "title": "Fragment orbital slices partition the active space", "statement": "get_mo_slice returns for each fragment the block of consecutive columns that follows the blocks of all earlier fragments; the blocks are disjoint and together are exactly the active columns.", "quantifier": "every core size, every list of fragment sizes, every orbital matrix with enough columns", "why_tests_cant": "All lists of sizes.", "anchors": ["my_pyscf/mcscf/lasci.py:LASCINoSymm.get_mo_slice"]}
{"id": "C32", "title": "Convergence flag reports convergence", "statement": "After the state-averaged solver's kernel, its converged attribute is true exactly when every component solver converged.", "quantifier": "every list of component solvers", "why_tests_cant": "Only wrong when some solver fails to converge, which tests avoid.", "anchors": ["my_pyscf/mcscf/addons.py:get_h1e_zipped_fcisolver"]}
{"id": "C33", "title": "Per-state keyword arguments reach their state", "statement": "Iterating over component solvers hands solver i the i-th element of every per-state or per-solver argument, positional or keyword, and hands every other argument unchanged.", "quantifier": "every list of positional and keyword arguments", "why_tests_cant": "Depends on the combination of argument kinds.", "anchors": ["my_pyscf/mcscf/addons.py:get_h1e_zipped_fcisolver"]}
{"id": "C34", "title": "Fragment energies are consistent with the total energy", "statement": "For each fragment, the effective core energy, one-electron and two-electron Hamiltonians built by project_hfrag, evaluated on the fragment's own density matrices, give the total energy of the product state; evaluated on the density matrices of any other state of that fragment, they give the total energy of the product state with that fragment replaced, so solving the fragment problem lowers the total energy.", "quantifier": "every number of fragments, every density matrix (real symmetric one-body densities for the trial-state half), every two-electron tensor with pair-exchange symmetry", "why_tests_cant": "An algebraic identity over all tensors.", "anchors": ["my_pyscf/mcscf/productstate.py:ProductStateFCISolver.project_hfrag", "my_pyscf/mcscf/productstate.py:ProductStateFCISolver.energy_elec"]}
{"id": "C35", "title": "Product-state pair density is symmetric and traces correctly", "statement": "The two-body density matrix assembled by make_rdm2 equals the fragments' own two-body densities inside a fragment, the antisymmetrised product of one-body densities between two fragments, and zero elsewhere; from symmetric fragment densities it is symmetric under exchange of its electron pairs, its inter-fragment partial trace reproduces the product of the electron numbers, and its total trace is N(N-1) when the fragments' traces are.", "quantifier": "every number of fragments and every set of fragment densities", "why_tests_cant": "All tensors.", "anchors": ["my_pyscf/mcscf/productstate.py:ProductStateFCISolver.make_rdm2"]}
{"id": "C36", "title": "Checkpoint round trip", "statement": "Loading a LASSCF/LASSI checkpoint that was just written restores every stored attribute and every CI vector of every fragment and root, for ragged shapes.", "quantifier": "every set of attribute values and every ragged CI table", "why_tests_cant": "All tables.", "anchors": ["my_pyscf/mcscf/chkfile.py:dump_las", "my_pyscf/mcscf/chkfile.py:load_las_", "my_pyscf/lassi/lassis/chkfile.py:_load_lsis_ci_"]}
{"id": "C37", "title": "A failed checkpoint write does not destroy the previous one", "statement": "If writing a checkpoint fails or is interrupted at any point, the previous record for the same method can still be loaded.", "quantifier": "every crash point of the write sequence", "why_tests_cant": "Crash points cannot be exercised by unit tests.", "anchors": ["my_pyscf/mcscf/chkfile.py:dump_las", "my_pyscf/mcscf/chkfile.py:_dump_las_get_chkdata"]}
{"id": "C38", "title": "Nested value encoding round-trips", "statement": "The None/int encoding used for fragment intermediates decodes to the value that was stored.", "quantifier": "every nested list/tuple/dict of None, integers, booleans, strings and arrays", "why_tests_cant": "All nested values.", "anchors": ["my_pyscf/lassi/op_o1/chkfile.py:dump", "my_pyscf/lassi/op_o1/chkfile.py:load", "my_pyscf/lassi/op_o1/chkfile.py:iterate_down"]}
{"id": "C39", "title": "Fragment intermediates can be reloaded", "statement": "When the checkpoint holds intermediates written by an identically configured calculation, loading them succeeds; when the configuration differs, they are rejected.", "quantifier": "every configuration", "why_tests_cant": "The loading path is not exercised by tests.", "anchors": ["my_pyscf/lassi/op_o1/frag.py:FragTDMInt.load_chk_", "my_pyscf/lassi/op_o1/frag.py:FragTDMInt.dump_chk"]}
{"id": "C40", "title": "Unique-root maps compose", "statement": "Every rootspace is mapped to a unique rootspace, unique rootspaces map to themselves, and the compressed index of a rootspace leads back to its unique image.", "quantifier": "every number of rootspaces and every equivalence detected among CI vectors", "why_tests_cant": "Greedy pairwise merging over all patterns.", "anchors": ["my_pyscf/lassi/citools.py:get_unique_roots", "my_pyscf/lassi/op_o1/frag.py:FragTDMInt._init_crunch_"]}
{"id": "C41", "title": "Spin-manifold interaction map preserves the physics labels", "statement": "The representative pair used to look up a transition density has the same spin manifolds and the same change in spin projection as the requested pair, has been computed, and the map commutes with swapping bra and ket.", "quantifier": "every number of unique rootspaces, manifold labelling and spin projection", "why_tests_cant": "All labellings.", "anchors": ["my_pyscf/lassi/op_o1/frag.py:FragTDMInt._init_crunch_", "my_pyscf/lassi/op_o1/frag.py:FragTDMInt.get_dm1"]}
{"id": "C42", "title": "Neutral-only operator subset", "statement": "Restricting a group of charge-conserving operators with neutral_only keeps exactly the operators that change no fragment's electron count.", "quantifier": "every operator list over every set of fragments", "why_tests_cant": "All charge patterns.", "anchors": ["my_pyscf/lassi/op_o1/opterm.py:OpTermGroup.neutral_only"]}
{"id": "C43", "title": "Electron-index symmetrisation is a projection onto symmetric tensors", "statement": "symmetrize_tensor_elec returns a tensor invariant under every permutation of electron index pairs, leaves symmetric tensors unchanged, and preserves the sum of all elements.", "quantifier": "every number of electrons and every tensor", "why_tests_cant": "All ranks.", "anchors": ["util/tensors.py:symmetrize_tensor_elec"]}
{"id": "C44", "title": "Log parsing terminates", "statement": "Reading an OpenMolcas log terminates on every input, in particular on a log truncated by a crash.", "quantifier": "every file content and every truncation point", "why_tests_cant": "Non-termination cannot be observed by a passing test.", "anchors": ["util/molcas_io.py"]}
{"id": "C45", "title": "Exchange coupling uses the actual spin expectation values", "statement": "yamaguchi returns the energy difference divided by the difference of the <S^2> values of the two multiplicities it was asked about.", "quantifier": "every pair of multiplicities and energies", "why_tests_cant": "Only correct for one hard-coded pair of multiplicities.", "anchors": ["util/chemistry.py:yamaguchi"]}
{"id": "C46", "title": "Spin-ladder normalisation is consistent", "statement": "The squared norms used for lowering and raising agree with each other and with s(s+1)-m(m-1), are positive exactly inside the multiplet, and the number of ladder steps taken by mdown/mup is exactly the distance to the requested projection.", "quantifier": "every multiplicity and electron pair", "why_tests_cant": "All integers.", "anchors": ["my_pyscf/fci/spin_op.py:norm_sdown", "my_pyscf/fci/spin_op.py:norm_sup", "my_pyscf/fci/spin_op.py:mdown", "my_pyscf/fci/spin_op.py:mup"]}
{"id": "C47", "title": "Starting projections for spin coupling always exist", "statement": "get_spincoup_bases finds local projections with the requested total for every request within range and of the right parity; no internal assertion fires.", "quantifier": "every list of multiplicities and every requested total projection", "why_tests_cant": "Greedy search must succeed for all strings.", "anchors": ["my_pyscf/lassi/basis.py:get_spincoup_bases"]}
{"id": "C48", "title": "Orthogonality by multiplicity is exact", "statement": "is_orthogonal_by_smult answers True exactly when the two rootspaces have no total spin in common, i.e. no sequence of couplings of the local spins of one reaches a total spin that the other can reach.", "quantifier": "every pair of rootspaces whose total spins have the same integer/half-integer character", "why_tests_cant": "Coupling sequences over all numbers of fragments.", "anchors": ["my_pyscf/lassi/spaces.py:SingleLASRootspace.is_orthogonal_by_smult"]}
{"id": "C49", "title": "Counting excitations returns the whole reachable set", "statement": "When count_excitations returns, the spaces it ends with are exactly those reachable from the input by any number of single electron hops through valid spaces, each once, and the count is their number.", "quantifier": "every list of valid rootspaces over the same orbitals, every number of fragments", "why_tests_cant": "The number of rounds is unbounded; a fixpoint argument is needed.", "anchors": ["my_pyscf/lassi/spaces.py:count_excitations", "my_pyscf/lassi/spaces.py:all_single_excitations"]}
{"id": "C50", "title": "Interaction fingerprints are canonical", "statement": "The fingerprint of an interaction depends only on the statelets of the non-spectator fragments, not on the order in which fragments are listed; the lower-triangular fingerprint is unchanged when bra and ket are exchanged; and distinct statelet strings get distinct fingerprints.", "quantifier": "every table of statelet numbers, every pair of rootspaces and every list of at least one fragment", "why_tests_cant": "Canonical form over all tables; uniqueness fails only on rare collisions that no test will hit.", "anchors": ["lib/lassi/slatercondon.c:SCfprint", "lib/lassi/slatercondon.c:fnv_1a", "lib/lassi/slatercondon.c:bubblesort"]}
{"id": "C51", "title": "Work division covers every element once", "statement": "get_contig_blks returns exactly the maximal runs of True entries with consecutive source offsets; split_contig_array divides an array into nonempty, gap-free chunks whose lengths differ by at most one.", "quantifier": "every mask, every array length and thread count", "why_tests_cant": "Unbounded sizes and all masks, including empty ones.", "anchors": ["my_pyscf/lassi/op_o1/utilities.py:get_contig_blks", "my_pyscf/lassi/op_o1/utilities.py:split_contig_array"]}
{"id": "C52", "title": "Product-state iteration: what reported convergence means", "statement": "The product-state fixed-point iteration reports convergence exactly when, after at least one sweep over the fragments and before the last permitted cycle, the gradient and the spread of the fragment energies are below their thresholds, and it returns the first such state; it should also require every fragment CI solver to have converged.", "quantifier": "every number of fragments, every behaviour of the fragment solvers, every cycle limit, serial or simultaneous fragments", "why_tests_cant": "The number of cycles and the solvers' behaviour are unbounded; solvers that fail to converge while the gradient is small do not occur in the test suite.", "anchors": ["my_pyscf/mcscf/productstate.py:ProductStateFCISolver.kernel"]}
{"id": "C53", "title": "One sweep updates the fragments it should", "statement": "One sweep of the product-state iteration replaces the energy and CI vectors of every fragment by its solver's answer, or, in serial mode, those of fragment number (cycle mod number of fragments) only, leaving the others as they were.", "quantifier": "every number of fragments, every cycle number, every solver", "why_tests_cant": "Cycle numbers and fragment counts are unbounded.", "anchors": ["my_pyscf/mcscf/productstate.py:ProductStateFCISolver._1shot"]}
{"id": "C54", "title": "Interaction tables list every coupled pair of rootspaces once, with the right operators", "statement": "make_exc_tables puts every accepted pair of rootspaces in exactly one row of exactly one of the tables null, 1c, 1s, 1s1c and 2c; the fragments and spin label of the row name creation and annihilation operators (as documented for the corresponding _crunch_ function) that turn the electron numbers of the ket rootspace into those of the bra; the tables 1d, 2d and 1c1d list every choice of spectator fragments once. From the electron numbers of all rootspaces, every unordered pair at most two electron moves apart gets exactly one row, and no other pair gets one.", "quantifier": "every number of fragments and rootspaces, every assignment of electron numbers to them", "why_tests_cant": "The classification is by masks over counts, extrema and positions in a sort with ties; there are 18 shapes of interaction and any number of fragments, and a pair that falls in no mask or in two silently drops or doubles matrix elements.", "anchors": ["my_pyscf/lassi/op_o1/stdm.py:LSTDM.make_exc_tables", "lib/lassi/slatercondon.c:is_interaction_coupled"]}
{"id": "C55", "title": "Equivalent interactions share one entry, and every interaction is found again among the images", "statement": "find_unique_exc keeps one representative of every class of interactions that involve the same fragments in the same unique roots (up to exchange of bra and ket); the images of the representatives list every interaction of the table exactly once, up to that exchange, and an image agrees with its representative on the unique root of every involved fragment, in bra and in ket separately; no two representatives are equivalent. Hence every image undergoes the same change of electron numbers as its representative. All kinds of interaction store their images in one dictionary keyed by the row without spin label; looking up a representative gives its own images.", "quantifier": "every table produced by make_exc_tables, every restriction of it, every table of unique roots for which the 64-bit fingerprints of the words occurring are distinct", "why_tests_cant": "Needs many rootspaces with coinciding fragment states in both orders; a lost or doubled image changes only some matrix elements. Keys of five kinds of interaction meet in one dictionary.", "anchors": ["my_pyscf/lassi/op_o1/stdm.py:LSTDM.find_unique_exc", "my_pyscf/lassi/op_o1/stdm.py:LSTDM.mask_exc_table_", "lib/lassi/slatercondon.c:SCfprint"]}
{"id": "C56", "title": "Expanded images rebuild every transition density matrix element", "statement": "Crunching only the unique interactions and writing each result to all of its images - local states of the involved fragments, address offsets with each image's own strides, spectator overlaps with signs and screening, half weights on the diagonal of a rootspace and only its lower triangle, then adding the conjugate transpose - leaves at the address of every pair of model states exactly the sum over all interactions between their two rootspaces, each counted once (conjugated and transposed when the table lists the pair the other way round). The result is hermitian.", "quantifier": "for every number of fragments, rootspaces and local states, every choice of accepted pairs and restriction, every assignment of unique roots, overlaps, signs, screening and local matrix elements over any commutative ring with involution in which 2 is invertible, every pair of states and every matrix entry", "why_tests_cant": "A test compares a few small molecules; an error in one stride, a half weight, or a transposed image only shows for particular combinations of numbers of local states, spectators and repeated rootspaces.", "anchors": ["my_pyscf/lassi/op_o1/stdm.py:LSTDM._get_addr_range", "my_pyscf/lassi/op_o1/stdm.py:LSTDM._get_spec_addr_ovlp", "my_pyscf/lassi/op_o1/stdm.py:LSTDM._get_spec_addr_ovlp_1space", "my_pyscf/lassi/op_o1/stdm.py:LSTDM._loop_lroots_", "my_pyscf/lassi/op_o1/stdm.py:LSTDM._crunch_all_", "my_pyscf/lassi/op_o1/stdm.py:LSTDM._add_transpose_"]}
{"id": "C57", "title": "The Fock-space kernels apply exactly the fermionic operators they are called for", "statement": "With determinants of m < 31 spin orbitals as bit strings and creators/annihilators obeying the canonical anticommutation relations: FSUCCcontract1g adds g a0'a1'...i1 i0 psi to its output; FSUCCcontract1u, when the two index sets differ, turns psi into exp(t G) psi with G = a0'a1'...i1 i0 - h.c. (written 1 + sin t G + (1-cos t) G^2), hence preserves inner products, adds angles under repetition and is undone by -t; FSUCCprojai keeps exactly the determinants G can act on (it is -G^2); FSUCCfullhop adds the sum over all n-electron moves (p1 q1 s1 ...) of h(p1q1,...) p1'p2'...q2 q1 psi for an array packed over pairs; FSUCCcontractS2 computes Sz^2 + (S+S- + S-S+)/2. Each holds for every order in which the loop iterations are executed, and distinct iterations touch distinct determinants.", "quantifier": "all orbital counts below 31 (below 31 spin orbitals in all), all index lists in range (with or without repeats), all vectors, amplitudes, operator arrays of any electron number, all execution orders of the parallel loop, over any commutative ring with involution", "why_tests_cant": "The repository test compares a few random vectors of 2-4 orbitals with dense matrix exponentials; signs of operators passing other electrons, repeated indices, the in-place update under threads and many-electron terms have unboundedly many cases.", "anchors": ["lib/fsucc.c:FSUCCcontract1", "lib/fsucc.c:FSUCCcontract1u", "lib/fsucc.c:FSUCCcontract1g", "lib/fsucc.c:FSUCCprojai", "lib/fsucc.c:FSUCCfullhop", "lib/fsucc.c:FSUCCcontractS2", "lib/fsucc.c:FSUCCmixdetu"]}
{"id": "C58", "title": "The unitary coupled cluster operator is the product of the exponentials of its generators, and its derivatives and energy gradient are exact", "statement": "FSUCCOperator (norb, a_idxs, i_idxs) accepts exactly the lists of generators that index existing orbitals, repeat no orbital within a or within i, differ between a and i, and are pairwise different operators. On a float64 vector, calling the operator applies exp (t_k (a_k' ... i_k - h.c.)) for each generator in list order, i.e. the value at t_k of the solution of F' = G_k F that starts at the previous vector; with transpose=True it applies the inverse, which is the adjoint, and both keep scalar products. gen_deriv1 yields for every generator the derivative of the result with respect to that amplitude (with _full=False, of the product cut after that generator), and get_deriv1 (transpose=True) does so for the transposed operator. _op1h_spinsym applies h0 + sum_n H_n / n!, a linear and hermitian operator. The function returned by get_obj_fun gives the energy <Upsi|H|Upsi> and its exact gradient in the amplitudes, also when several generators share one amplitude. Findings: gen_deriv1 (transpose=True) always raises RuntimeError at the second generator; given an array that is not float64 the operator returns it unchanged.", "quantifier": "every number of spin orbitals below 31, every list of generators, every real amplitude, every real vector, every number and value of packed Hamiltonian arrays, every order in which the parallel loops of the kernels run their iterations, every differentiable path of amplitudes, every table of shared amplitudes whose rows do not overlap", "why_tests_cant": "Tests compare the gradient with finite differences for one four-orbital operator and one random vector. They cannot show that derivatives are exact for every generator list and every amplitude, that transposition is the inverse for all products, or that the error raised by transposed derivatives is not an accident of the case tried.", "anchors": ["exploratory/unitary_cc/uccsd_sym0.py:FSUCCOperator", "exploratory/unitary_cc/uccsd_sym0.py:_op1u_", "exploratory/unitary_cc/uccsd_sym0.py:_op1h_spinsym", "exploratory/unitary_cc/uccsd_sym0.py:_projai_", "exploratory/unitary_cc/uccsd_sym0.py:UCCS.get_obj_fun", "exploratory/unitary_cc/uccsd_sym1.py:FSUCCOperator.set_uniq_amps_", "exploratory/unitary_cc/uccsd_sym1.py:FSUCCOperator.product_rule_pack"]}
{"id": "C59", "title": "LASSCF variables: the mask of nonredundant rotations, pack, unpack and the names of variables", "statement": "all_nonredundant_idx(nmo,ncore,ncas_sub)[p,q] is True exactly if orbital q lies in an earlier space than p (inactive, fragment 1, ..., fragment n, virtual), so that each rotation between different spaces is one variable and there are sum of products of pairs of space sizes of them. For such a mask with orbitals frozen and symmetries separated, and any CSF transformers with vec_det2csf(vec_csf2det(c)) = c: unpack of every vector x of length nvar_tot gives a skew matrix without redundant elements and CI vectors of the right shapes, zeros for frozen fragments, and pack of those gives x back without raising; conversely unpack(pack(kappa,ci)) returns kappa and the CI vectors of the unfrozen fragments for every skew kappa without redundant elements and CI vectors in the span of the CSFs. addr2idstr(addr) names the variable x[addr] for every address below nvar_tot if no fragment follows a frozen one, and raises beyond. FINDING: with frozen_ci it looks up ncsf_sub, which omits the frozen fragments, by fragment number: an address can get the name of another variable, or raise IndexError or UnboundLocalError although valid.", "quantifier": "for all orbital numbers, fragment sizes, frozen orbitals and symmetries, all numbers of fragments and states, all CSF transformers obeying the stated law, all frozen fragments, all matrices and vectors", "why_tests_cant": "A test packs and unpacks a few molecules with two or three fragments; nothing calls addr2idstr with frozen_ci, and a mask wrong in one block still gives a converging calculation with fewer or redundant variables.", "anchors": ["my_pyscf/mcscf/lasscf_sync_o0.py:334-362", "my_pyscf/mcscf/lasscf_sync_o0.py:364-508", "my_pyscf/mcscf/lasscf_sync_o0.py:510-532"]}
{"id": "C60", "title": "LASSIS variables: the table of fragment states, pack, unpack, the number of variables and the step", "statement": "For a fragment of no orbitals in a state with na >= nb electrons and multiplicity na-nb+1, the six entries of the transformer tables are the states one spin flip down or up, and one electron less or more with multiplicity one less or more, and None exactly if that state does not exist. For a mask of rotations never containing both (p,q) and (q,p), CSF transformers with vec_det2csf(vec_csf2det(c)) = c, orthonormal CI vectors of every block and orthonormal si vectors: unpack accepts every vector of the length of the sum of the block sizes, pack of its result gives back every tangent vector, pack always returns a tangent vector of that length, and unpack(pack(kappa,ci,si)) returns arguments that are tangent. nvar_tot and the sector offsets agree with that length if both ends of every charge transfer have vectors of the same shape; then the offsets cut a packed vector into six pieces, whose concatenation is the vector, of which the first depends on the orbital rotation alone, the next three on the reference, spin-flip and charge-transfer vectors alone, and the last two on si alone. The step multiplies each CI vector by cos(phi) and adds the projected step times sin(phi)/phi: the squared norm of every vector stays in [1,1+1e-16], and is exactly 1 if phi is 0 or above 1e-8; the derivative of the step at 0 is the projected direction. FINDINGS: (1) ncsf_ch takes the shape of the first end for both: with different shapes nvar_tot is not the length of packed vectors and unpack raises ValueError on a vector of nvar_tot elements; (2) whether the variables of the second end are kept is decided by the first end, so tangent directions of the second end can be lost; (3) several vectors of one block do not stay orthogonal under the step; (4) the si vectors of all roots are updated as one vector of norm sqrt(nroots): the sum of their squared norms becomes nroots*cos(s)^2+sin(s)^2, and a root can vanish.", "quantifier": "for all numbers of fragments, orbitals, states and roots, all masks, CI vectors, si vectors and CSF transformers obeying the stated laws, all vectors of variables and, for the step, all real arrays", "why_tests_cant": "Existing tests use two fragments with equal shapes at both ends and one root, where the four findings cannot be seen; tangency and the inverse law need arbitrary vectors.", "anchors": ["my_pyscf/lassi/lassis/coords.py:13-270", "my_pyscf/lassi/lassis/coords.py:336-361"]}
{"id": "C61", "title": "Spin-adapted coupled cluster operators: the spin cases, the generators built and the amplitudes shared", "statement": "spincases(p_idxs, norb) lists every assignment of spins to the given spatial orbitals exactly once as sets of spin orbitals, with the number of beta spins of each; for orbitals in descending order in the documented column-major order. The generators of any operator the constructor accepts conserve the number of electrons of each spin, are pairwise different up to order, sign and direction, start from amplitude zero, and pass the constructor of the class inherited from; for pairwise different excitations the constructor succeeds and its generators are exactly the spin-conserving versions of those excitations, each once. symtab partitions the generators: a row is one generator, or with s2sym the two spins of one single excitation; set_uniq_amps_ gives all generators of row j amplitude x[j] and get_uniq_amps returns x. get_uccs_op gives every spin-conserving single excitation not masked, once, with the amplitude of t1 for both spins; get_uccsd_op gives every spin-conserving single and double excitation once, in ascending order of the spatial orbitals; the six spin cases of a double come in the order aa, and four mixed, bb of the documentation. FINDINGS: orbitals in ascending order do not come in column-major order; get_uccsd_op with t1 and s2sym=False puts the amplitudes of t1 on the first half of the spin-separated singles; for fewer than two orbitals it raises IndexError.", "quantifier": "for all numbers of orbitals, all lists of excitations of any rank, all masks and amplitudes, both values of s2sym", "why_tests_cant": "The module tests itself on two molecules by comparing energies; a missing or doubled spin case of one excitation, or an amplitude on the wrong spin, lowers or raises the energy a little and passes, and s2sym=False with t1 is never called.", "anchors": ["exploratory/unitary_cc/uccsd_sym1.py:15-56", "exploratory/unitary_cc/uccsd_sym1.py:spincases", "exploratory/unitary_cc/uccsd_sym1.py:FSUCCOperator.__init__", "exploratory/unitary_cc/uccsd_sym1.py:FSUCCOperator.get_uniq_amps", "exploratory/unitary_cc/uccsd_sym1.py:FSUCCOperator.set_uniq_amps_", "exploratory/unitary_cc/uccsd_sym1.py:get_uccs_op", "exploratory/unitary_cc/uccsd_sym1.py:get_uccsd_op"]}
{"id": "C62", "title": "Spin-adapted coupled cluster operators conserve the electrons of each spin, and with s2sym singles the total spin", "statement": "For every operator built by the spin-adapted constructor, every list of amplitudes and either direction (transpose or not), U commutes with the number of spin-up electrons and with the number of spin-down electrons: a wave function with k electrons of a spin is turned into one with k electrons of that spin. With s2sym=True and single excitations only, and any values of the shared amplitudes, U also commutes with S+, S-, Sz and S^2: an eigenfunction of one of them with any eigenvalue stays an eigenfunction with the same eigenvalue. Neither holds for total spin without s2sym or with double excitations (shown by examples; the second is documented in the code).", "quantifier": "for all operators accepted by the constructor with fewer than 31 spin orbitals, all real amplitudes, all real Fock-space vectors", "why_tests_cant": "A test looks at one final state of one molecule; a single excitation with an amplitude of the wrong sign on one spin contaminates only some states and only if the amplitude is large.", "anchors": ["exploratory/unitary_cc/uccsd_sym1.py:FSUCCOperator.__init__", "exploratory/unitary_cc/uccsd_sym1.py:FSUCCOperator.set_uniq_amps_", "exploratory/unitary_cc/uccsd_sym1.py:get_uccs_op", "exploratory/unitary_cc/uccsd_sym0.py:FSUCCOperator.__call__", "lib/fsucc.c:FSUCCcontract1u"]}
{"id": "C63", "title": "The spin-adapted singles operator is a rotation of the orbitals, and rotate_mo returns those orbitals when one amplitude is nonzero", "statement": "The operator of UCCS with any amplitudes turns the creator (and the annihilator) of orbital q of either spin into the sum over p of M[p,q] times that of orbital p, for one orthogonal matrix M: the product of the plane rotations by the amplitudes in the order of the generators.  Hence it turns every Slater determinant into the determinant of the rotated orbitals.  If at most one amplitude is nonzero, rotate_mo returns mo_coeff M, and to first order in the amplitudes its generator is that of M.  Findings: with three orbitals and several nonzero amplitudes the orbital that rotate_mo returns for one electron is not the one the electron is in (it takes the exponential of the sum instead of the product of the exponentials); and UCCSD inherits rotate_mo, which raises ValueError for every vector of its amplitudes.", "quantifier": "for all numbers of orbitals below 16, all real amplitudes, all determinants and all Fock-space vectors; for the UCCSD finding all numbers of orbitals from 2 on", "why_tests_cant": "The only check in the file compares energies after an optimisation started at small amplitudes, where the two matrices agree to first order; a sign or an order of rotations that differs is visible only for large amplitudes on more than two orbitals.", "anchors": ["exploratory/unitary_cc/uccsd_sym1.py:UCCS.rotate_mo", "exploratory/unitary_cc/uccsd_sym1.py:UCCS.get_uop", "exploratory/unitary_cc/uccsd_sym1.py:get_uccs_op", "exploratory/unitary_cc/uccsd_sym1.py:UCCSD.get_uop", "exploratory/unitary_cc/uccsd_sym0.py:FSUCCOperator.__call__"]}
{"id": "C64", "title": "Half-particle, spin-flip and pair densities of a fragment, and the tables made of them", "statement": "trans_rdm1ha/b_des/_cre, trans_rdm13ha/b_des/_cre, trans_sfudm1, trans_sfddm1, trans_ppdm and trans_hhdm, which attach dummy orbitals to the CI arrays and call number-conserving density-matrix kernels, return exactly <bra|r|ket>, <bra|r'|ket>, <bra|p'qr|ket>, <bra|r'p'q|ket>, <bra|p'q|ket> with a spin flip, <bra|p'q'|ket> and <bra|pq|ket>, with sign, for every spin case, and their checks on link arrays pass. FragTDMInt._make_dms_ fills every table entry that the electron numbers allow with these matrix elements, its antisymmetry assertions never fail, and its overlap tables hold the inner products. Together with C65 the transition density matrices of product states are exact functions of the CI arrays.", "quantifier": "for every number of orbitals and electrons, all real CI arrays (any commutative ring with trivial involution), every set of unique roots, all orbital indices; the end-to-end statement for up to 8 fragments", "why_tests_cant": "The sign depends on the parity of the electrons, on where the dummy orbital is inserted in the strings, on the order in which up and down operators pass each other and on three transpositions; a compensating pair of errors passes every test at one electron count, and the antisymmetry assertion in the code only sees same-spin blocks.", "anchors": ["my_pyscf/fci/rdm.py:_trans_rdm1hs", "my_pyscf/fci/rdm.py:_trans_rdm13hs", "my_pyscf/fci/rdm.py:trans_sfudm1", "my_pyscf/fci/rdm.py:trans_sfddm1", "my_pyscf/fci/rdm.py:trans_ppdm", "my_pyscf/fci/rdm.py:trans_hhdm", "my_pyscf/fci/dummy.py:dummy_orbital_params", "my_pyscf/lassi/op_o1/frag.py:FragTDMInt._make_dms_"]}
{"id": "C65", "title": "Transition density matrices of product states are the matrix elements of the density operators", "statement": "Given fragment matrices that hold the matrix elements of their operators (annihilators, pairs of annihilators, annihilator with a density, spin flips, one- and two-body densities) and overlap tables that hold inner products, the cruncher functions _crunch_1d_, _crunch_2d_, _crunch_1c_, _crunch_1c1d_, _crunch_1s_, _crunch_1s1c_, _crunch_2c_ together with the tables of interactions, the expansion of images, the signs and the spectator overlaps give, for every pair of product states and every spin block and orbitals, exactly <bra| p'q |ket> and <bra| p'r'uq |ket> in the Fock space of all fragments. None of the cruncher functions raises an exception.", "quantifier": "for up to 8 fragments (beyond, list(set()) is not sorted, C12), every number of orbitals, rootspaces, local states and electrons, every CI vectors over any commutative ring with involution containing 1/2, every coincidence of unique roots without colliding fingerprints, every pair of states and every entry", "why_tests_cant": "Sixteen sign and transposition conventions meet; a wrong sign shows only for particular parities of the electrons of fragments that lie between the active ones, for particular orders of three or four fragments, or only in one of four index permutations.", "anchors": ["my_pyscf/lassi/op_o1/stdm.py:LSTDM._crunch_1d_", "my_pyscf/lassi/op_o1/stdm.py:LSTDM._crunch_2d_", "my_pyscf/lassi/op_o1/stdm.py:LSTDM._crunch_1c_", "my_pyscf/lassi/op_o1/stdm.py:LSTDM._crunch_1c1d_", "my_pyscf/lassi/op_o1/stdm.py:LSTDM._crunch_1s_", "my_pyscf/lassi/op_o1/stdm.py:LSTDM._crunch_1s1c_", "my_pyscf/lassi/op_o1/stdm.py:LSTDM._crunch_2c_", "my_pyscf/lassi/op_o1/stdm.py:LSTDM._crunch_all_", "my_pyscf/lassi/op_o1/frag.py:FragTDMInt.try_get_1"]}
{"id": "C66", "title": "The arrays of make_stdm12s hold the transition density matrices of all orbitals and states", "statement": "With one (na,nb) for all rootspaces, make_stdm12s returns arrays with stdm1s[b,s,p,q,k] = <b| q'(s) p(s) |k> and stdm2s[b,s,p,q,t,r,u,k] = <b| p'(s) r'(t) u(t) q(s) |k> for all product states b, k in the order of the state numbers and all orbitals of the whole active space: the orbitals of the involved fragments of each interaction are packed into small buffers, and put_SD1/put_SD2 in C scatter these, block by block and in parallel, to the right places of the flat arrays, for any number of threads and any order of the iterations; no assertion or buffer size fails, and slices of the buffers by orbital ranges hold the orbitals of the fragment named. This holds as long as 4*N^4 < 2^31 for N orbitals. FINDING: npdest*npdest is an int product; with 216 orbitals or so it wraps and the scatter fails its assertion (or writes out of bounds with assertions off).", "quantifier": "for every set of CI arrays over any commutative ring with trivial conjugation and 1/2 (or fragment tables and overlaps over any ring with involution), up to 8 fragments of any numbers of orbitals with 4*N^4 < 2^31, all rootspaces, states, spins and orbitals, every number of threads and every iteration order", "why_tests_cant": "A block moved to a neighbouring pair of orbitals, an off-by-one range of a fragment without orbitals, or a race in the scatter shows only for particular shapes of fragments and interleavings of threads; tests run small molecules with one layout.", "anchors": ["my_pyscf/lassi/op_o1/stdm.py:make_stdm12s", "my_pyscf/lassi/op_o1/stdm.py:LSTDM._orbrange_env_kwargs", "my_pyscf/lassi/op_o1/stdm.py:LSTDM._put_SD1_", "my_pyscf/lassi/op_o1/stdm.py:LSTDM._put_SD2_", "lib/lassi/rdm.c:LASSIRDMdputSD1", "lib/lassi/rdm.c:LASSIRDMdputSD2", "my_pyscf/lassi/op_o1/utilities.py:get_contig_blks", "my_pyscf/lassi/op_o1/utilities.py:split_contig_array"]}
{"id": "C67", "title": "Density matrices between rootspaces of different spin projection are those of the original states", "statement": "When the rootspaces do not all have the same (na,nb), make_stdm12s maps every fragment to twice as many orbitals with electrons of one kind, runs the same machinery with the fermion signs of the original rootspaces, and permutes the orbital axes back. The returned arrays are stdm1[b,p,q,k] = <b| q' p |k> for all pairs of the 2N spin orbitals, the N with spin up first, including pairs of different spin, and stdm2s[b,s,p,q,t,r,u,k] = <b| p'(s) r'(t) u(t) q(s) |k>, for all original product states b, k: the reordering signs inside the fragments (odd numbers of both spins), the sign factors of the rootspaces and the index vector fit together. Every CI array is mapped with the orbitals and electrons of its own fragment and rootspace if arrays at one address are one array. With equal (na,nb) the arrays are those of C66 and nelec_frs is left alone. FINDINGS: (1) the mapped electron numbers are written into the caller's nelec_frs array; (2) an array and its transposed view share an address, so that a state and its spin-flipped twin given as c and c.T are both mapped as the first of them.", "quantifier": "for every set of CI arrays over any commutative ring with trivial conjugation and 1/2, up to 8 fragments with 64*N^4 < 2^31, rootspaces with any electron numbers, all states, all pairs and quadruples of spin orbitals, every number of threads and iteration order", "why_tests_cant": "The signs depend on the parities of both spins in every fragment before and after; spin-orbit tests use one or two molecules in which most parities never occur, and compare energies, which do not see a sign that is common to a rootspace.", "anchors": ["my_pyscf/lassi/op_o1/stdm.py:make_stdm12s", "my_pyscf/lassi/op_o1/utilities.py:ci_map2spinless", "my_pyscf/lassi/op_o1/utilities.py:spin_shuffle_idx", "my_pyscf/lassi/op_o0.py:civec_spinless_repr"]}
{"id": "C68", "title": "The Hamiltonian and squared-spin matrices in the product-state basis", "statement": "op_o1.hams2ovlp builds `ham` and `s2` from fragment tables, one unique interaction at a time, and copies every value to all pairs of states that share it. Every entry of `ham` must be the matrix element of H = sum h1[s,p,q] p's qs + 1/2 sum h2[p,q,r,u] p's r't ut qs between the two product states, and every entry of `s2` that of S-S+ + Sz Sz + Sz. This is proved for real integrals and real arithmetic and up to eight fragments. For a complex hermitian one-electron part the matrix belongs to the complex conjugate integrals; for complex CI vectors `s2` is wrong, because the transposition is not conjugated; with nine fragments entries go to the places of other states, because list(set(inv)) is not in ascending order.", "quantifier": "all fragments, orbitals, CI vectors, rootspaces, integrals with the stated symmetry, and all pairs of product states", "why_tests_cant": "The tests compare with a second implementation for a few molecules with few fragments and real CI vectors; the interaction types, spin cases and orders of fragments cannot be enumerated.", "anchors": ["my_pyscf/lassi/op_o1/hams2ovlp.py:22-492", "my_pyscf/lassi/op_o1/stdm.py:553-724", "my_pyscf/lassi/op_o1/frag.py:287-427"]}
{"id": "C69", "title": "get_ovlp returns the Gram matrix of the product states asked for", "statement": "For every set of rootspaces, fragment CI vectors with the stated electron numbers, and every selection `rootidx` without repetition (or none): LSTDM.get_ovlp does not fail; its size is the number of product states of the rootspaces asked for; and for real CI vectors the entry at the address of state e of rootidx[i] and state e' of rootidx[j] (rootspaces in the order asked for, first fragment fastest) is the inner product of the two antisymmetrised product states in Fock space, including the zeros between rootspaces with different electron distributions and the signs of moving alpha past beta operators. In general, entries with the rootspace of the higher number as bra are right and the others are their transpose.", "quantifier": "all numbers of fragments, orbitals, electrons, local roots and rootspaces; all fragment vectors over any commutative ring with conjugation; all duplicate-free rootidx", "why_tests_cant": "tests compare get_ovlp with a reference on a few small real wave functions without rootidx permutations; the number of layouts is unbounded", "anchors": ["my_pyscf/lassi/op_o1/stdm.py:502-551", "my_pyscf/lassi/op_o1/stdm.py:93-96", "my_pyscf/lassi/op_o1/stdm.py:301-310"]}
{"id": "C70", "title": "The density matrices of SI vectors are expectation values in the combined wave functions", "statement": "For every set of rootspaces with exact fragment tables and overlaps, and every list of pairs of SI vectors (bra, ket): the kernel of LRRDM does not fail and its one- and two-body arrays hold, for each pair, <bra|p'q|ket> and <bra|p'r'uq|ket>, where bra and ket are the combinations of the antisymmetrised product states in Fock space with the coefficients of the SI vectors.  This holds whether the kernel is told that bra and ket are equal (half of the contractions, then the conjugate transpose is added) or not (each contraction is done twice with bra and ket exchanged).  roots_trans_rdm12s returns from these dm1[p,q] = <q'p> and dm2[p,q,r,u] = the conjugate of <p'r'uq>, which for real numbers is the PySCF convention.", "quantifier": "all numbers of fragments up to eight, orbitals, electrons, local roots, rootspaces and SI vectors, all fragment vectors and SI coefficients over any commutative ring with conjugation", "why_tests_cant": "tests compare two implementations on a few small real wave functions; neither the sum over all orbits of equivalent interactions nor complex transition densities are covered", "anchors": ["my_pyscf/lassi/op_o1/rdm.py:43-102", "my_pyscf/lassi/op_o1/rdm.py:104-254", "my_pyscf/lassi/op_o1/rdm.py:256-526", "my_pyscf/lassi/op_o1/rdm.py:528-560", "my_pyscf/lassi/op_o1/rdm.py:662-732", "my_pyscf/lassi/op_o1/frag.py:206-430", "my_pyscf/lassi/op_o1/__init__.py:8-11"]}
{"id": "C71", "title": "Equivalent rootspaces are rotated back to the vectors given", "statement": "When several rootspaces of a fragment span the same space, the kernels keep the CI vectors of one of them and a matrix for each of the others. For real CI vectors, every result of the kernels is that of the vectors that were given: the transition density matrices of LSTDM, the matrices of the Hamiltonian and of the squared spin of HamS2Ovlp, the overlap of get_ovlp for any selection of rootspaces, and the density matrices of LRRDM are the matrix elements between the product states (or their combinations) of the original vectors. Each matrix acts on the axis of its fragment and rootspace only and is applied exactly once. For complex vectors this fails: the norm of a state can come out as -1 and a transition density as its conjugate.", "quantifier": "all numbers of fragments up to eight, orbitals, rootspaces, local states, CI vectors, rotation matrices, SI vectors, selections of rootspaces", "why_tests_cant": "A wrong axis, order or transposition shows only when rootspaces share a space with a rotation that is not symmetric; the tests use equal vectors or one-dimensional spaces with real phases.", "anchors": ["my_pyscf/lassi/citools.py:75-124", "my_pyscf/lassi/op_o1/stdm.py:517-551", "my_pyscf/lassi/op_o1/stdm.py:1085-1097", "my_pyscf/lassi/op_o1/hams2ovlp.py:98-102", "my_pyscf/lassi/op_o1/rdm.py:59-78"]}
{"id": "C72", "title": "Rootspaces taken for equivalent are equivalent", "statement": "get_unique_roots maps every rootspace of a fragment to an earlier one or to itself. For real orthonormal CI vectors whose arrays share memory only when they are the same array, the rootspace mapped to has the same electrons, shape, number of vectors and discriminator, and its vectors rotated by the stored matrix (or not rotated when none is stored) are the given vectors: the matrix is orthogonal and the squared distance is at most the larger of 2 n eps and n N eps^2 for n vectors of N coefficients and threshold eps. Two rootspaces that are kept apart are not rotations of each other. When one is exactly a rotation of the other, a matrix that is stored is exactly this rotation. Without orthonormality, or with overlapping views, different vectors are taken for the same.", "quantifier": "all numbers of rootspaces, vectors, CI vectors, thresholds above zero, and any singular value decomposition of the overlaps", "why_tests_cant": "The comparison ends early in one of five ways, and each needs its own inputs near the threshold; a transposed rotation or a wrong trace passes every test in which the spaces are equal or orthogonal.", "anchors": ["my_pyscf/lassi/citools.py:126-197"]}
{"id": "C73", "title": "Density matrices of all members of spin multiplets from those of one member", "statement": "Let |s,m> and |s',m'> be two spin multiplets, that is, vectors with S-|s,m> = sqrt((s+m)(s-m+1)) |s,m-1> and S+|s,m> = sqrt((s-m)(s+m+1)) |s,m+1>. Given the transition density matrices <c_p>, <c_p c_q>, <c'_p c_q c_r>, <b'_p a_q>, <c'_p c_q> and <c'_p c'_r c_s c_q> between the two members with the largest m for which both exist, mdown_h, mdown_hh, mdown_phh, mdown_sm, mdown_dm1 and mdown_dm2 return the matrices between the members of every other m that exist, for every s and s', every spin of the operators and all orbitals. No division by zero and no root of a negative number occurs.", "quantifier": "all numbers of orbitals, all spins s and s', all m, all real multiplets, all orbital indices and operator spins", "why_tests_cant": "The formulas were generated by a computer algebra system for each difference of s and each operator spin, with special cases at the ends of the range of m; tests with low spins never reach the general branches, and a wrong coefficient in one of them is invisible at the m that is tested.", "anchors": ["my_pyscf/fci/rdm_smult.py:12-28", "my_pyscf/fci/rdm_smult.py:70-106", "my_pyscf/fci/rdm_smult.py:148-185", "my_pyscf/fci/rdm_smult.py:225-254", "my_pyscf/fci/rdm_smult.py:294-325", "my_pyscf/fci/rdm_smult.py:327-722"]}
{"id": "C74", "title": "Spin ladder operators and walks through a multiplet", "statement": "contract_sladder applies S- (op=-1) or S+ (op=1) to the wave function stored in a CI array: the array returned holds exactly the coefficients of the result, and where it returns an empty array the operator gives zero. From a CI vector of spin s with m = s, mdown makes the member of every m = -s..s: no division by zero occurs, the norm and the spin are kept, the members fulfil S-|s,m> = sqrt((s+m)(s-m+1)) |s,m-1> and the corresponding relation for S+ (so they are a multiplet in the sense of C73), and mup leads back to the vector given. From any vector of spin s that is not zero and any m, mup reaches m = s, where S+ gives zero, keeps norm and spin, and mdown leads back. Several vectors are treated one by one. Called with m > s, for which there is no member, both return the vector they got.", "quantifier": "all numbers of orbitals and electrons, all spins and m, all real CI vectors of any norm", "why_tests_cant": "The signs depend on the occupation of every orbital above the one that flips and on the number of spin-up electrons; the tests use a few electron numbers, and a sign or norm wrong at one m only appears in multiplets that are large enough.", "anchors": ["my_pyscf/fci/spin_op.py:12-20", "my_pyscf/fci/spin_op.py:22-71", "my_pyscf/fci/spin_op.py:73-88", "my_pyscf/fci/spin_op.py:90-119", "my_pyscf/fci/spin_op.py:121-149"]}
{"id": "C75", "title": "Tables of a fragment shared by a spin manifold hold the right matrix elements", "statement": "When the spin multiplicities of a fragment's rootspaces are given, FragTDMInt raises all CI vectors to m = s to find those that are members of one multiplet, makes each table of matrix elements once per pair of manifolds, between other members of the multiplets than those asked for, and converts on reading. Whatever table is read (dm1, dm2, h, phh, sm, hh) for two rootspaces i and j whose electron numbers fit the operators, no exception occurs, no undefined element is met, and the element read for states a, b and orbitals p, q, ... equals the matrix element of those creation and annihilation operators between the wave functions of the CI vectors given; likewise the overlaps. This holds if vectors of the same spin and electron number that the overlap test takes for members of one multiplet are so. An exact test does that for normalised vectors. The test made, np.allclose(overlap, 1), does not: with normalised doublets whose overlap is 1 - 1e-5 an element of the one-body density matrix that is zero is returned as more than 0.004. Consequently make_stdm12s, given tables of this kind, returns the transition densities of all pairs of LAS product states, and root_make_rdm12s the density matrices of their combinations, exactly as for tables made without spin symmetry.", "quantifier": "all numbers of orbitals, rootspaces and states, all spins, m and electron numbers, all CI vectors that are members of spin multiplets, all tables, all orbitals", "why_tests_cant": "Tests compare energies of a few molecules with a slower code. A factor that is wrong for one pair of spins, one m, one component, or one pair of rootspaces served from another pair's entry goes unnoticed unless the molecule has that combination, and vectors equal to within 1e-5 only come up near convergence.", "anchors": ["my_pyscf/fci/rdm_smult.py:12-28", "my_pyscf/lassi/citools.py:280-321", "my_pyscf/lassi/op_o1/frag.py:169-262", "my_pyscf/lassi/op_o1/frag.py:272-420", "my_pyscf/lassi/op_o1/frag.py:487-517", "my_pyscf/lassi/op_o1/frag.py:759-925"]}
{"id": "C76", "title": "Terms of the Hamiltonian and squared spin made at high m and multiplied by spin factors are those of the members asked for", "statement": "With spin multiplicities given, each term of the Hamiltonian is made once per spin case, of tables of the fragments at the highest possible m, and OpTerm.reduce_spin multiplies its components by spin factors to obtain it for other m. For every operator of a fragment that occurs (one or two electrons annihilated or created, with or without a density, a spin lowered or raised, one- and two-body densities) the documented equation holds: <bra|O(comp)|ket> = spin_factor_constant * spin_factor_component(comp) * <highm(bra)|O(comp)|highm(ket)>, where comp 0 is the charge density, a symmetric pair or an operator with one component and comp 1 the spin density or an antisymmetric pair; spin_factor_constant has a value there and is the same with bra and ket exchanged. Any term that is a sum of products of such elements, with their comp, is returned by reduce_spin as made of the members' own elements. In particular this holds for the Hamiltonian and, where there is one, the squared spin of all seven functions: _crunch_1d_ (h1 the same for both spins), _crunch_2d_, _crunch_1c_, _crunch_1c1d_, _crunch_1s_, _crunch_1s1c_ and _crunch_2c_ (h2 with exchangeable pairs). When no multiplicities are given, the sum of the components of each of these terms is the element that the functions compute in C68. It fails for _crunch_1d_ with an h1 that depends on spin, which the class is documented to accept: the energy of a spin down in a field comes out as that of a spin up.", "quantifier": "all numbers of orbitals, all spins, m and electron numbers, all vectors that are members of spin multiplets, all integrals, all orbitals", "why_tests_cant": "A factor is wrong only for one combination of operator, two spins and m, and cancels in totals when all fragments are at high m or are singlets, as in most test molecules. No test combines an h1 that depends on spin with given multiplicities.", "anchors": ["my_pyscf/lassi/op_o1/frag.py:176-182", "my_pyscf/lassi/op_o1/frag.py:1181-1206", "my_pyscf/lassi/op_o1/opterm.py:75-102", "my_pyscf/lassi/op_o1/hams2ovlp.py:180-186", "my_pyscf/lassi/op_o1/hams2ovlp.py:219-493", "my_pyscf/fci/rdm_smult.py:70-325"]}
{"id": "C77", "title": "get_orth_basis sorts every rootspace into one manifold of m strings and spin multiplets", "statement": "get_orth_basis groups rootspaces by electron numbers and spin multiplicities of the fragments, and divides each group into manifolds whose rows (m_blocks) each have one string of fragment spins and whose columns are meant to be the same states but for m. Every rootspace is in exactly one row of exactly one manifold, once. A row has all rootspaces with its electron numbers, multiplicities and m string. All rows of a manifold have the same fingerprints (numbers of unique CI vectors) column by column, so that column k of every row is the same spin multiplets in the same order; conversely, when multiplicities are given, two m strings of a group with the same fingerprints, up to order, are rows of one manifold. The basis is left as it is just when no two rootspaces are in one group. Rows are ordered by m string, and the manifold with rootspace 0 comes first. If CI vectors with equal fingerprints are members of one spin multiplet, the overlaps of columns k and l are equal in all rows, so the orthogonalization made from the first row is right for all. It fails on no other input than multiplicities with m strings that have different numbers of rootspaces: there np.unique gets a ragged list and raises ValueError, though a comment says that having the same number is not required. The numbers by get_unique_roots_with_spin are right as fingerprints but are not, as documented, indices into the list: they count unique vectors only.", "quantifier": "all numbers of fragments and rootspaces, all electron numbers, multiplicities, spins and fingerprints, all orders of the rootspaces", "why_tests_cant": "A column in the wrong order or a rootspace in two rows leaves the number of states and often the energies right; it needs rootspaces listed in different orders for different m strings, and degenerate or incomplete multiplets, which the test tables made by the library's own generators do not have.", "anchors": ["my_pyscf/lassi/basis.py:48-105", "my_pyscf/lassi/basis.py:257-318", "my_pyscf/lassi/citools.py:246-278"]}
{"id": "C78", "title": "The Hamiltonian with spin-orbit coupling is right between rootspaces of different spins; its squared spin is not", "statement": "ham with soc=1, for rootspaces that differ in their numbers of electrons of each spin, maps every fragment to one with twice the orbitals and no spin, permutes the integrals to match (soc_context) and replaces the sign factors of the rootspaces. The Hamiltonian matrix it returns is nevertheless that of H between the original product states: <bra|H|ket> for every pair of product states of all rootspaces, with all one-electron integrals between spin orbitals, including those that flip a spin, and the spin-free two-electron integrals for all pairs of spins; with complex one-electron integrals it is the matrix for their complex conjugates, as without spin-orbit coupling (C68). The second matrix it returns, which is reported as the squared spin of the LASSI states, is that of the mapped system, in which all electrons have spin up: a closed shell of two electrons comes out as a triplet. When all rootspaces have the same numbers of electrons of each spin, only the blocks of h1 between orbitals of equal spin are used, and the matrix is the same <bra|H|ket> with all of h1, since the integrals that flip a spin have no elements there.", "quantifier": "all numbers of fragments (up to 8), orbitals and rootspaces, all CI vectors, all hermitian one-electron integrals over spin orbitals, all symmetric two-electron integrals, all product states", "why_tests_cant": "The permutation of the integrals and the sign factors must cancel the reordering of the orbitals in the CI vectors for every combination of electron numbers; a wrong sign shows only in elements between particular rootspaces with several open-shell fragments, while tests compare energies of a few small molecules.", "anchors": ["my_pyscf/lassi/op_o1/hams2ovlp.py:495-623", "my_pyscf/lassi/op_o1/utilities.py:189-227"]}
{"id": "C79", "title": "Density matrices of states that mix spins are those over all spin orbitals", "statement": "roots_trans_rdm12s (and roots_make_rdm12s), for rootspaces that differ in their numbers of electrons of each spin, maps every fragment to one with twice the orbitals and no spin, replaces the sign factors of the rootspaces and permutes the orbitals of the result. For every pair of SI vectors the returned rdm1s[root,p,q] is <bra|q'p|ket> for all spin orbitals p and q, of equal or different spins, where bra and ket are the combinations of the original product states of all rootspaces; rdm2s[root,s,p,q,t,r,u] is the complex conjugate of <bra|p's r't ut qs|ket>. In real arithmetic the two arrays contracted with the integrals give <bra|H|ket> of the Hamiltonian with spin-orbit coupling of C78. When all rootspaces have the same electrons of each spin, the arrays are those of C70 and nelec_frs is left alone; otherwise the array nelec_frs of the caller is overwritten, all its electrons become spin up, and a second call with it takes the rootspaces to have equal spins. When all rootspaces have the same number of electrons the trace of the one-body matrix is that number times <bra|ket>, and the one-body matrix of an SI vector with itself is hermitian.", "quantifier": "all numbers of fragments (up to 8), orbitals and rootspaces, all CI vectors, all numbers of SI vectors and all their coefficients, all spin orbitals", "why_tests_cant": "The elements between orbitals of different spins come only from pairs of rootspaces of different spins, each with its own pair of sign factors; a wrong factor is seen only for SI vectors that mix particular rootspaces. The check against the determinant code is switched off with spin-orbit coupling (lassi.py:589).", "anchors": ["my_pyscf/lassi/op_o1/rdm.py:623-751", "my_pyscf/lassi/op_o1/utilities.py:189-227"]}
{"id": "C80", "title": "H|CI> contracted with SI vectors is the sum over the states of the other fragments; the constant is counted twice with spin-orbit coupling", "statement": "hci_dot_sivecs_ij takes the products of the Hamiltonian with states in which the CI vector of fragment i in rootspace j is left open, one for every state of the other fragments. For every table of numbers of roots, fragment and rootspace, element [x] of the result is the sum, over the product states of the rootspace in which fragment i is in state x, of the conjugate of their amplitude in the bra times the Hamiltonian on the ket at the states of the other fragments. With several SI vectors bra n goes with ket n; different numbers of them are refused; without a ket its axis is left open. The Hamiltonian that contract_ham_ci of the determinant code applies is h0 + H without spin-orbit coupling. With spin-orbit coupling h0 is counted twice, so the result is wrong unless h0 is 0.", "quantifier": "all numbers of fragments, rootspaces and local roots, all SI vectors and numbers of them, all fragments and rootspaces, all Hamiltonians and constants", "why_tests_cant": "The numbering of the other fragments' states differs with the fragment left open and the number of roots of each fragment; with equal numbers of roots or real coefficients, exchanged axes and lost conjugation cannot be seen. The tests compare contract_ham_ci without spin-orbit coupling.", "anchors": ["my_pyscf/lassi/citools.py:223-245", "my_pyscf/lassi/op_o0.py:643-657"]}
