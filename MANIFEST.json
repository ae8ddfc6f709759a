{
 "claims": [
  {
   "property": "C01",
   "status": "proved",
   "theorems": [
    "C01_hop_conserves"
   ],
   "note": "Any number of fragments; CSF counter is an arbitrary parameter. Negative occupations are excluded on the two touched fragments (the others are unchanged)."
  },
  {
   "property": "C02",
   "status": "proved",
   "theorems": [
    "C02_single_excitation_iff",
    "C02_describe_correct",
    "C02_describe_rebuilds"
   ],
   "note": "Iff for all parity-consistent pairs; describe finds the hop; get_single rebuilds the space when it is physically valid and the external CSF counter is right on valid states."
  },
  {
   "property": "C03",
   "status": "proved",
   "theorems": [
    "C03_get_singles_exact",
    "C03_all_single_exact"
   ],
   "note": "Soundness and completeness of get_singles under every mask; all_single_excitations keeps references as prefix, adds exactly the hops, no duplicates. External CSF counter assumed right on physical states."
  },
  {
   "property": "C04",
   "status": "proved",
   "theorems": [
    "C04_spin_table_exact"
   ],
   "note": "Table = set of microstates, strictly sorted (so no duplicates)."
  },
  {
   "property": "C05",
   "status": "proved",
   "theorems": [
    "C05_smult_table_exact",
    "C05_reachable_targets"
   ],
   "note": "Table = set of coupling paths, strictly sorted; reachable targets characterised (polygon rule)."
  },
  {
   "property": "C06",
   "status": "proved",
   "theorems": [
    "C06_gen_spin_shuffles_exact",
    "C06_spin_shuffle_closes"
   ],
   "note": "For every list without entanglement maps over the same orbitals, any hash function; idempotent."
  },
  {
   "property": "C07",
   "status": "partial",
   "theorems": [
    "C07_eq_hash_partial",
    "C07_eq_hash_refuted"
   ],
   "note": "Holds between spaces with the same entanglement map. Refuted in general: get_single and get_single_any_m produce equal spaces with different hash keys (__hash__ includes entmap, __eq__ does not)."
  },
  {
   "property": "C08",
   "status": "partial",
   "theorems": [
    "C08_filter_limits",
    "C08_filter_target_all_partial",
    "C08_filter_target_any_partial",
    "C08_filter_target_any_single_partial",
    "C08_filter_target_any_refuted",
    "C08_filter_target_all_refuted"
   ],
   "note": "Limits exact. target_all exact for targets of right parity; target_any never drops a space that can couple, exact for one target of right parity. Full claim refuted twice: [1,9] is kept for a space reaching only 3 and 5; parity of the target is ignored."
  },
  {
   "property": "C09",
   "status": "proved",
   "theorems": [
    "C09_combine_flexible",
    "C09_combine_fixed_m_without_ci_refuted"
   ],
   "note": "flexible_m branch: succeeds iff local projections with the reference total exist; fragment quantum numbers and totals exact. The other branch raises TypeError when CI vectors are absent (refutation theorem included as a finding)."
  },
  {
   "property": "C10",
   "status": "proved",
   "theorems": [
    "C10_szrot_exact",
    "C10_fcisolvers_exact",
    "C10_lookups_never_miss"
   ],
   "note": "Keys are exactly the multiplet; each value is the right number of ladder steps with matching electron counts; look-ups by spin shuffles never miss. Ladder operators are abstract functions."
  },
  {
   "property": "C11",
   "status": "proved",
   "theorems": [
    "C11_sign_well_defined",
    "C11_spin_shuffle_sign"
   ],
   "note": "Sign = parity of the reordering for any number of fragments and any words; parity well defined."
  },
  {
   "property": "C12",
   "status": "partial",
   "theorems": [
    "C12_frag_shuffle_sign_partial",
    "C12_set_order_partial",
    "C12_frag_shuffle_sign_refuted"
   ],
   "note": "Proved when all listed indices are below 8. Refuted beyond: list(set(...)) of CPython (modelled) iterates {1,8} as 8,1, giving the wrong sign with nine fragments."
  },
  {
   "property": "C13",
   "status": "partial",
   "theorems": [
    "C13_des_shuffle_sign_partial",
    "C13_des_shuffle_sign_refuted"
   ],
   "note": "Proved when all listed indices are below 8; refuted for {1,8} (same cause as C12)."
  },
  {
   "property": "C14",
   "status": "proved",
   "theorems": [
    "C14_rootaddr_fragaddr_bijection",
    "C14_get_lroots"
   ],
   "note": "Layout, range, injectivity and coverage for every rectangular table, including empty rootspaces; get_lroots characterised."
  },
  {
   "property": "C15",
   "status": "proved",
   "theorems": [
    "C15_split_valid",
    "C15_split_recompose",
    "C15_split_negative",
    "C15_split_overflow",
    "C15_split_rblocks",
    "C15_lookup_missing"
   ],
   "note": "Every list of block sizes including zeros; raw-block look-up tables too. Indices beyond the end are not rejected (theorem C15_split_overflow)."
  },
  {
   "property": "C16",
   "status": "proved",
   "theorems": [
    "C16_adjoint",
    "C16_round_trip",
    "C16_spin_adjoint",
    "C16_spin_round_trip",
    "C16_spin_complex_umat_refuted"
   ],
   "note": "Adjointness and orthogonal-side round trip for both OrthBasis and SpinCoupledOrthBasis over any commutative ring with involution, so real and complex data alike. C16_spin_complex_umat_refuted shows the hypothesis that umat is real is needed: _rmatvec does not conjugate umat. get_spincoup_umat only builds real matrices, so this is a limit, not a failure. The raw-side scatter assumes m-blocks list disjoint raw states."
  },
  {
   "property": "C17",
   "status": "partial",
   "theorems": [
    "C17_segments_refuted",
    "C17_aligned_iff",
    "C17_applied"
   ],
   "note": "Refuted: i0/f0 only advance when a manifold is present on both sides, so a manifold absent on one side shifts all later segments. C17_aligned_iff gives the exact condition under which segments are right, C17_applied which manifolds are applied. Only the segment bookkeeping is modelled, not the spin-coupling overlap matrix."
  },
  {
   "property": "C18",
   "status": "proved",
   "theorems": [
    "C18_transpose_row_major",
    "C18_transpose_column_major",
    "C18_zero_extent_raises"
   ],
   "note": "Any number of dimensions, both orders, generic element type. Arrays with a zero extent raise ValueError (separate theorem)."
  },
  {
   "property": "C19",
   "status": "proved",
   "theorems": [
    "C19_make_slow_layout",
    "C19_round_trip",
    "C19_round_trip_back"
   ],
   "note": "Both round trips and the explicit layout, generic element type; local root counts positive and at least one column."
  },
  {
   "property": "C20",
   "status": "proved",
   "theorems": [
    "C20_list_result",
    "C20_list_total",
    "C20_each_once",
    "C20_count_overflow_refuted"
   ],
   "note": "Both C listing loops modelled as one small-step machine with per-thread buffers, a lock and out-of-bounds faults; any assignment of iterations to threads and any interleaving. The result theorem needs fewer than 2^31 pairs: C20_count_overflow_refuted shows that the count is read through ctypes' default 32-bit return type, so with 65536 coupled rootspaces the buffers get zero rows and the first write is out of bounds. Weak memory effects of C are not modelled; the memory limit check is left out."
  },
  {
   "property": "C21",
   "status": "proved",
   "theorems": [
    "C21_coupled_reachable",
    "C21_coupled_symmetric",
    "C21_coupled_spin",
    "C21_coupled_spin_symmetric"
   ],
   "note": "Exact characterisation by electron moves, with and without multiplicities; int arithmetic is exact integers. The spin version also shows that no C assertion fails when multiplicities have the right parity."
  },
  {
   "property": "C22",
   "status": "proved",
   "theorems": [
    "C22_amplitudes",
    "C22_sign",
    "C22_round_trip",
    "C22_other_occupation",
    "C22_container"
   ],
   "note": "Amplitude placement, sign (as operator reordering), round trip, zero for any other occupation; the container rule is explicit (one vector is unwrapped). Array size errors are not modelled."
  },
  {
   "property": "C23",
   "status": "proved",
   "theorems": [
    "C23_total",
    "C23_amplitudes",
    "C23_sign",
    "C23_round_trip",
    "C23_disjoint",
    "C23_cover"
   ],
   "note": "Amplitude placement, sign, round trip, disjointness and coverage. 64-bit overflow of strings (2*norb > 63) is not modelled."
  },
  {
   "property": "C24",
   "status": "proved",
   "theorems": [
    "C24_members",
    "C24_increasing",
    "C24_order",
    "C24_product_amplitude",
    "C24_elsewhere_zero",
    "C24_dotter"
   ],
   "note": "Members, order, product amplitudes, zeros elsewhere and dotter (skip=None). dotter with skip is not modelled. C24_infeasible records that infeasible counts give a spurious address 0."
  },
  {
   "property": "C25",
   "status": "proved",
   "theorems": [
    "C25_each_once",
    "C25_one_left",
    "C25_never_raises"
   ],
   "note": "Proved for every number of impurities >= 1 and any combination step; also that the real combination step never refuses inside the driver. Zero impurities is an OverflowError (Example)."
  },
  {
   "property": "C26",
   "status": "partial",
   "theorems": [
    "C26_all_marked_partial",
    "C26_all_kept_partial",
    "C26_marked_kept_partial",
    "C26_refuted"
   ],
   "note": "False for small values of combine_pair_max_frags: with five fragments and a limit of 2, a fragment reverts to the previous macrocycle (C26_refuted). Proved: all fragments stay marked if the limit is at least the number of fragments (the default), all data are kept if it is at least that number minus one."
  },
  {
   "property": "C27",
   "status": "partial",
   "theorems": [
    "C27_refuted",
    "C27_last_only",
    "C27_potential_partial",
    "C27_equal_densities_partial"
   ],
   "note": "False: the comprehension in orth_orb sums the density of the last keyframe only (C27_refuted, C27_last_only). Correct for the potential, and when all densities agree."
  },
  {
   "property": "C28",
   "status": "proved",
   "theorems": [
    "C28_read",
    "C28_get",
    "C28_membership_refuted"
   ],
   "note": "Reading with [] and get is proved for every history of stores, reads and membership tests. Separate finding: `in` is not overridden, so a key just stored in unsorted order is reported absent (C28_membership_refuted). pop, del, setdefault, update are not modelled."
  },
  {
   "property": "C29",
   "status": "partial",
   "theorems": [
    "C29_honoured_partial",
    "C29_defaults",
    "C29_unset",
    "C29_refuted"
   ],
   "note": "Proved: honoured exactly when the number of electrons and the projection have the same parity; always with default charges and spins. False otherwise: the request is accepted and one electron is dropped (C29_refuted). Local state averaging and string irreps are not modelled."
  },
  {
   "property": "C30",
   "status": "proved",
   "theorems": [
    "C30_core",
    "C30_only_matching",
    "C30_unique_kept",
    "C30_succeeds"
   ],
   "note": "Proved for every old and new table with well-shaped CI cache. 'Same quantum numbers' compares the numbers reported for the old state with those requested for the new one."
  },
  {
   "property": "C31",
   "status": "proved",
   "theorems": [
    "C31_block",
    "C31_partition",
    "C31_other_indices"
   ],
   "note": "Proved, including negative and out-of-range indices."
  },
  {
   "property": "C32",
   "status": "partial",
   "theorems": [
    "C32_always_true",
    "C32_refuted"
   ],
   "note": "False: np.all receives a generator object, whose truth value is True (C32_always_true, C32_refuted)."
  },
  {
   "property": "C33",
   "status": "partial",
   "theorems": [
    "C33_positional_partial",
    "C33_keyword_partial",
    "C33_refuted"
   ],
   "note": "Positional arguments: proved. Keyword arguments: false in general (C33_refuted), true when they are of the same kind as the last positional argument."
  },
  {
   "property": "C34",
   "status": "proved",
   "theorems": [
    "C34_own_energy",
    "C34_trial_energy"
   ],
   "note": "Numbers are elements of an arbitrary commutative ring (with 1/2 for the trial-state half). Own densities: no symmetry of the densities assumed. Examples over the rationals."
  },
  {
   "property": "C35",
   "status": "proved",
   "theorems": [
    "C35_elements",
    "C35_pair_exchange",
    "C35_other_fragment_trace",
    "C35_inter_trace",
    "C35_total_trace"
   ],
   "note": "Arbitrary commutative ring; any number and sizes of fragments, including empty ones."
  },
  {
   "property": "C36",
   "status": "proved",
   "theorems": [
    "C36_las_round_trip",
    "C36_lassis_round_trip"
   ],
   "note": "Every attribute, the state table, orbital lists, symmetry tag and CI table come back from a completed write, for the LASSCF and LASSI key lists and for the optional LASSIS tables. numpy conversion of lists and scalars is not modelled (values are opaque); the keyword overrides of dump_las and dump_lsi are not modelled. Hypotheses: every written value is not None and the CI table has nfrags x nroots entries."
  },
  {
   "property": "C37",
   "status": "partial",
   "theorems": [
    "C37_other_records_partial",
    "C37_own_record_partial",
    "C37_refuted",
    "C37_crash_refuted"
   ],
   "note": "False: the old record is deleted before the new data are written, so an exception (for example unset CI vectors) or a crash during the write loses it (C37_refuted, C37_crash_refuted). Proved: at every stopping point all other records are untouched, and the own record survives exactly until the deletion."
  },
  {
   "property": "C38",
   "status": "partial",
   "theorems": [
    "C38_round_trip_partial",
    "C38_exact_partial",
    "C38_refuted"
   ],
   "note": "Exact read-back value proved for nested None, integers, arrays, lists, tuples, dictionaries and harmless text: tuples come back as lists and text as bytes; booleans cannot be read back, text containing the markers is destroyed (C38_refuted). The HDF5 layer of pyscf.lib.chkfile is an assumption, stated in EncModel."
  },
  {
   "property": "C39",
   "status": "partial",
   "theorems": [
    "C39_refuted",
    "C39_never_loads"
   ],
   "note": "False: the stored dtype is read back as bytes and compared with text, so reloading always declines; with a text it would raise on the first field. Proved: load_chk_ never returns True, so stale data are never used either."
  },
  {
   "property": "C40",
   "status": "proved",
   "theorems": [
    "C40_unique_roots"
   ],
   "note": "For every outcome of the pairwise comparisons (an arbitrary boolean function), hence also for non-transitive ones."
  },
  {
   "property": "C41",
   "status": "partial",
   "theorems": [
    "C41_manifold",
    "C41_map",
    "C41_distinct",
    "C41_computed",
    "C41_masked_refuted",
    "C41_mask"
   ],
   "note": "C41_manifold, C41_map, C41_distinct, C41_computed and C41_mask hold for every labelling. Finding (C41_masked_refuted): if mask_ints tells members of one manifold apart, an unmasked pair can be looked up in an entry that was never computed, which raises RuntimeError; C41_computed therefore assumes that masks depend only on the discriminator. The screen argument of _make_dms_ is taken as None."
  },
  {
   "property": "C42",
   "status": "proved",
   "theorems": [
    "C42_neutral_only",
    "C42_get_neutral",
    "C42_subspace"
   ],
   "note": "Hypotheses: group operators are nonempty, every spin case of one operator has the same charge change (property C41), and the operators conserve charge; C42_losing_op_passes shows the last is needed because the code only looks for gains."
  },
  {
   "property": "C43",
   "status": "proved",
   "theorems": [
    "C43_symmetric",
    "C43_fixpoint",
    "C43_idempotent",
    "C43_sum",
    "C43_both",
    "C43_both_fixpoint"
   ],
   "note": "Exact rationals instead of floating point, real elements, equal dimensions, even rank. C43_both covers symmetrize_tensor."
  },
  {
   "property": "C44",
   "status": "partial",
   "theorems": [
    "C44_complete_log_partial",
    "C44_truncated_hangs",
    "C44_refuted"
   ],
   "note": "False: C44_refuted/C44_truncated_hangs: any log ending inside a module makes the reader loop forever at end of file (readline returns ''). C44_complete_log_partial: complete logs are read to the end with the expected data."
  },
  {
   "property": "C45",
   "status": "partial",
   "theorems": [
    "C45_gap",
    "C45_decet_partial",
    "C45_only_decet",
    "C45_refuted"
   ],
   "note": "False: the divisor 24 is hard-coded. C45_gap: what is returned; C45_decet_partial: agrees with the documented formula for multiplicity 10; C45_only_decet: and for no other multiplicity (C45_refuted: triplet example). Energies rational; <S^2> enters rounded to hundredths; unit conversion left out."
  },
  {
   "property": "C46",
   "status": "proved",
   "theorems": [
    "C46_norms",
    "C46_roundtrip",
    "C46_calls"
   ],
   "note": "Norms squared and multiplied by four, in integers. C46_roundtrip is over any vector space given the algebra of S+ and S- (grading, linearity, the Casimir relation); C46_calls gives the exact contractions."
  },
  {
   "property": "C47",
   "status": "proved",
   "theorems": [
    "C47_succeeds",
    "C47_rejects"
   ],
   "note": "C47_succeeds: nonempty lists; both tables are exact (microstates; genealogical couplings). C47_rejects: conversely an accepted request is within range and of the right parity."
  },
  {
   "property": "C48",
   "status": "proved",
   "theorems": [
    "C48_orthogonal_by_smult_exact"
   ],
   "note": "For two spaces of the same total-spin parity."
  },
  {
   "property": "C49",
   "status": "proved",
   "theorems": [
    "C49_count_excitations_exact"
   ],
   "note": "Whenever the loop returns (it raises RuntimeError after 500 rounds), the list is exactly the set of spaces reachable by hops."
  },
  {
   "property": "C50",
   "status": "partial",
   "theorems": [
    "C50_sort",
    "C50_bra_ket_swap",
    "C50_fragment_order",
    "C50_spectators",
    "C50_unique_refuted"
   ],
   "note": "Order and spectator independence and bra/ket symmetry proved; uniqueness refuted (C50_unique_refuted: a 64-bit hash of 63-bit words collides, one of the words in the witness is about 10^12). How likely a collision is with realistic statelet numbers is not established: one informal C search outside this model, over two-fragment rows on fragments 0 and 1 with statelet numbers below 1024, found none, and nothing larger was examined. bubblesort on zero fragments (size_t wrap) is outside the model."
  },
  {
   "property": "C51",
   "status": "partial",
   "theorems": [
    "C51_contig_blocks",
    "C51_contig_maximal",
    "C51_contig_empty_refuted",
    "C51_split_array",
    "C51_split_array_zero"
   ],
   "note": "C51_contig_empty_refuted: for a mask without True, one source offset is returned for zero blocks. split_contig_array of nothing, or with no threads, raises ZeroDivisionError."
  },
  {
   "property": "C52",
   "status": "partial",
   "theorems": [
    "C52_exact",
    "C52_refuted"
   ],
   "note": "Finding: the test all ([solvers_converged]) wraps the list in another list, so it is always true; convergence is reported although no fragment solver converged (C52_refuted). C52_exact states what the reported flag does mean. Solvers, gradients and thresholds are parameters of the model."
  },
  {
   "property": "C53",
   "status": "proved",
   "theorems": [
    "C53_one_shot"
   ],
   "note": "Solver results are parameters of the model."
  },
  {
   "property": "C54",
   "status": "proved",
   "theorems": [
    "C54_rows",
    "C54_each_once",
    "C54_spectators",
    "C54_lower"
   ],
   "note": "Exact integers; the memory check is left out. The list of pairs is any list accepted by the C test (C54_rows, C54_each_once, C54_spectators) or, in C54_lower, the full list of C20 restricted to the lower triangle."
  },
  {
   "property": "C55",
   "status": "proved",
   "theorems": [
    "C55_images",
    "C55_unique",
    "C55_lookup",
    "C55_same_change"
   ],
   "note": "Fingerprint collisions are excluded by hypothesis (collision_free); C50 shows that the hash alone does not exclude them. C55_unique and C55_lookup need no such hypothesis. The order within an image list is that of a stable sort."
  },
  {
   "property": "C56",
   "status": "proved",
   "theorems": [
    "C56_assembled",
    "C56_hermitian"
   ],
   "note": "The matrix elements of the involved fragments are an input assumed to depend only on the local states and to be hermitian (local_hermitian); list(set(...)) is a parameter assumed to keep the sorted order of the spectator list; exact arithmetic; fingerprint collisions are excluded by hypothesis; the linear-equivalence rotation (umat) after the loop is not included."
  },
  {
   "property": "C57",
   "status": "proved",
   "theorems": [
    "C57_general",
    "C57_unitary",
    "C57_generator",
    "C57_generator_cube",
    "C57_angles_add",
    "C57_inverse",
    "C57_isometry",
    "C57_project",
    "C57_project_gen",
    "C57_full",
    "C57_spin_square",
    "C57_anticommute",
    "C57_adjoint",
    "C57_vacuum",
    "C57_disjoint"
   ],
   "note": "Kernels as loops over bit-string determinants; the parallel loop runs its iterations in an arbitrary order, each taken to be atomic (C57_disjoint shows they touch different cells). Arithmetic is exact ring arithmetic with cos and sin of the amplitude as inputs (what they do as functions of the amplitude is in C58); orbital counts of 31 and more, where the C shifts overflow, are outside the claim. The rotation needs the two index sets to differ: C57_same_set_ex shows that it fails otherwise."
  },
  {
   "property": "C58",
   "status": "proved",
   "theorems": [
    "C58_init",
    "C58_call",
    "C58_call_unique",
    "C58_inverse",
    "C58_adjoint",
    "C58_isometry",
    "C58_deriv",
    "C58_deriv_prefix",
    "C58_deriv_transposed",
    "C58_transpose_raises",
    "C58_hamiltonian",
    "C58_linear",
    "C58_hermitian",
    "C58_energy",
    "C58_gradient",
    "C58_gradient_uniq",
    "C58_transpose_refuted",
    "C58_dtype_refuted"
   ],
   "note": "Exact real arithmetic over the standard library's reals (axioms listed in DESIGN.md), cos and sin those of the library. The exponential is specified as the unique solution of F' = G F (C58_call_unique). Orbital indices fit a byte; sorted index arrays of unequal length are taken to compare unequal. Two findings are separate theorems: C58_transpose_refuted (and C58_transpose_raises for every operator with two or more generators) and C58_dtype_refuted. Not covered: the order of generators built by get_uccsd_op and the spin cases of uccsd_sym1 (C61)."
  },
  {
   "property": "C59",
   "status": "proved",
   "theorems": [
    "C59_mask",
    "C59_mask_once",
    "C59_mask_count",
    "C59_allowed",
    "C59_allowed_once",
    "C59_pack_unpack",
    "C59_unpack_pack",
    "C59_addr",
    "C59_addr_beyond",
    "C59_addr_refuted",
    "C59_addr_raises_refuted"
   ],
   "note": "Mask, count, both round trips, names, and the two counterexamples. Not modelled: construction of the transformers (pyscf), the strings of CSFs, complex dtype; a one-element orbital part that numpy would broadcast."
  },
  {
   "property": "C60",
   "status": "proved",
   "theorems": [
    "C60_transformers",
    "C60_pack_unpack",
    "C60_unpack_total",
    "C60_pack_tangent",
    "C60_unpack_pack",
    "C60_nvar",
    "C60_sectors",
    "C60_nvar_refuted",
    "C60_second_end_refuted",
    "C60_update_norm",
    "C60_update_first_order",
    "C60_update_one_norm",
    "C60_update_si_norm",
    "C60_update_rows_refuted",
    "C60_update_si_refuted"
   ],
   "note": "Model: LsisModel.v, LsisUpdModel.v. CSF transformers are any pair of maps with det2csf(csf2det c) = c; exact star ring for pack/unpack, exact reals for the step. unpack_pack needs tangent arguments whose redundant parts are zero. The four findings are separate _refuted theorems. Not included: the orbital step expm(kappa/2), and the norm checks of update_wfn, which for charge transfers test a stale variable and never run."
  },
  {
   "property": "C61",
   "status": "proved",
   "theorems": [
    "C61_spincases",
    "C61_column_major",
    "C61_column_major_refuted",
    "C61_sound",
    "C61_inherits",
    "C61_complete",
    "C61_symtab",
    "C61_amplitudes",
    "C61_shared",
    "C61_uccs",
    "C61_uccsd",
    "C61_spin_order",
    "C61_spin_exchange",
    "C61_t1",
    "C61_t1_refuted",
    "C61_uccsd_small"
   ],
   "note": "Orbital indices fit a byte (the sums p+norb of uint8 arrays do not overflow); amplitudes are of any type. C61_complete needs the given excitations pairwise different up to order. Findings are separate theorems: C61_column_major_refuted, C61_t1_refuted, C61_uccsd_small."
  },
  {
   "property": "C62",
   "status": "proved",
   "theorems": [
    "C62_numbers",
    "C62_spin",
    "C62_electrons",
    "C62_multiplet"
   ],
   "note": "Exact real arithmetic over the standard library's reals (axioms listed in DESIGN.md); fewer than 31 spin orbitals. S+, S-, Sz and S^2 are specified from creation and annihilation operators of the Fock space (FockSpec.v). That s2sym=False or double excitations break S^2 is shown by examples (Module Ex2)."
  },
  {
   "property": "C63",
   "status": "proved",
   "theorems": [
    "C63_orbitals",
    "C63_determinant",
    "C63_rotate_mo",
    "C63_first_order",
    "C63_rotate_mo_refuted",
    "C63_uccsd"
   ],
   "note": "Exact real arithmetic over the standard library's reals (axioms in DESIGN.md); fewer than 31 spin orbitals for the operator. scipy's expm is a parameter specified by F' = A F, F(0) = 1, F(1) = E, which is shown to determine it for skew A. Findings: C63_rotate_mo_refuted, C63_uccsd."
  },
  {
   "property": "C64",
   "status": "proved",
   "theorems": [
    "C64_annihilation",
    "C64_creation",
    "C64_spin_flip",
    "C64_pairs",
    "C64_tables",
    "C64_overlap",
    "C64_densities_of_ci"
   ],
   "note": "pyscf's number-conserving kernels are assumed to return their documented densities; CI arrays are real."
  },
  {
   "property": "C65",
   "status": "proved",
   "theorems": [
    "C65_no_exception",
    "C65_transition_densities"
   ],
   "note": "Theorem for the assembled tdm1s and tdm2s in the Fock space of all fragments, and for the absence of exceptions. Assumes exact fragment matrices and overlaps (they exist: table_exact), screening that drops only zeros, no colliding fingerprints; smult, umat_root and the orbital scatter are not included."
  },
  {
   "property": "C66",
   "status": "partial",
   "theorems": [
    "C66_stdm12s",
    "C66_stdm12s_of_ci",
    "C66_no_race",
    "C66_slices",
    "C66_overflow_refuted"
   ],
   "note": "From fragment tables or from CI arrays to the two arrays that make_stdm12s returns, through the orbital ranges, block lists and the C scatter with 32-bit ints. Assumes what C65 and C64 assume, 4*N^4 < 2^31, and the spin-pure branch. Iterations of the parallel loops run in any order; C66_no_race shows they write different elements. C66_overflow_refuted: at 216 orbitals the int product wraps."
  },
  {
   "property": "C67",
   "status": "partial",
   "theorems": [
    "C67_spinless_mapping",
    "C67_spin_pure",
    "C67_own_arrays",
    "C67_views_refuted",
    "C67_argument_refuted"
   ],
   "note": "Proved for the spinless-mapped fragments of C66's tables without masks, exact arithmetic; views at equal addresses are a finding (refuted theorem)."
  },
  {
   "property": "C68",
   "status": "partial",
   "theorems": [
    "C68_hamiltonian",
    "C68_hamiltonian_real",
    "C68_spin_squared",
    "C68_complex_integrals_refuted",
    "C68_complex_spin_refuted",
    "C68_nine_fragments_refuted"
   ],
   "note": "Fragment tables hold exact matrix elements (smult=None, no masks), no hash collisions, at most eight fragments, real two-electron integrals with the symmetries of real orbitals; umat_root empty. Complex h1, complex CI vectors and nine fragments are findings (three refuted theorems)."
  },
  {
   "property": "C69",
   "status": "partial",
   "theorems": [
    "C69_overlap",
    "C69_overlap_real",
    "C69_complex_overlap_refuted"
   ],
   "note": "The rows of exc_null come from the modelled make_exc_tables. Finding: ovlp += ovlp.T does not conjugate, so for complex CI vectors the upper triangle is wrong (C69_complex_overlap_refuted). umat_root is assumed empty; a rootspace repeated in rootidx leaves empty rows (C69_repeated_example)."
  },
  {
   "property": "C70",
   "status": "proved",
   "theorems": [
    "C70_density_matrices",
    "C70_returned",
    "C70_pyscf_convention",
    "C70_complex_convention_refuted"
   ],
   "note": "Composed with C65: the same tables, signs and orbits of equivalent interactions. Finding: the convention documented in op_o1/__init__.py, dm2[p,q,r,s] = <p'r'sq>, is violated for complex SI vectors: rdm.py:730 conjugates the two-body array but not the one-body array (C70_complex_convention_refuted); with bra and ket different, dm1 then belongs to <bra|..|ket> and dm2 to <ket|..|bra>. self.hermi is an input of the model with the premise that it is true only for equal vectors; the code decides with a threshold of 1e-8."
  },
  {
   "property": "C71",
   "status": "proved",
   "theorems": [
    "C71_rotations",
    "C71_transition_densities",
    "C71_hamiltonian",
    "C71_overlap",
    "C71_density_matrices",
    "C71_complex_overlap_refuted",
    "C71_complex_density_refuted"
   ],
   "note": "Real CI vectors; a rotation is any square matrix of the right size. Complex: refuted for the overlap and for the transition densities."
  },
  {
   "property": "C72",
   "status": "proved",
   "theorems": [
    "C72_equivalent",
    "C72_complete",
    "C72_exact_rotation",
    "C72_views_refuted",
    "C72_not_normalised_refuted"
   ],
   "note": "Exact real arithmetic; linalg.svd is any function that returns a singular value decomposition of the overlaps. Two findings: vectors that are not normalised, and overlapping views of one buffer."
  },
  {
   "property": "C73",
   "status": "proved",
   "theorems": [
    "C73_h",
    "C73_hh",
    "C73_phh",
    "C73_sm",
    "C73_dm1",
    "C73_dm2"
   ],
   "note": "real CI vectors and exact arithmetic; the vectors of the members are given as a multiplet (that mup and mdown produce them is C74), smult given; the leading axis of states is left out"
  },
  {
   "property": "C74",
   "status": "proved",
   "theorems": [
    "C74_sdown",
    "C74_sup",
    "C74_mdown",
    "C74_mup",
    "C74_list",
    "C74_above"
   ],
   "note": "real CI vectors and exact arithmetic; the pyscf string tables and take_2d/takebak_2d are modelled by what they return; a division by zero is an exception of the model, so C74 shows that none occurs"
  },
  {
   "property": "C75",
   "status": "proved",
   "theorems": [
    "C75_tables",
    "C75_overlap",
    "C75_exact",
    "C75_close_refuted",
    "C75_stdm12s",
    "C75_rdm"
   ],
   "note": "real CI vectors and exact arithmetic; no masks and no rotations of states. C75_stdm12s and C75_rdm compose the tables with C66 and C70 (at most eight fragments, no hash collisions). Finding: np.allclose takes normalised vectors with overlap 1 - 1e-5 for members of one multiplet, and matrix elements come out wrong by 0.004."
  },
  {
   "property": "C76",
   "status": "proved",
   "theorems": [
    "C76_h",
    "C76_hh",
    "C76_sm",
    "C76_dm1",
    "C76_hh_mixed",
    "C76_phh",
    "C76_dm2",
    "C76_adjoint",
    "C76_term",
    "C76_same_1d",
    "C76_same_2d",
    "C76_same_1c",
    "C76_same_1s",
    "C76_same_1s1c",
    "C76_same_1c1d",
    "C76_same_2c",
    "C76_1s",
    "C76_1s1c",
    "C76_1c1d",
    "C76_2c_any",
    "C76_s2_1d",
    "C76_s2_2d",
    "C76_s2_1s",
    "C76_s2_same_1d",
    "C76_s2_same_2d",
    "C76_s2_same_1s",
    "C76_1d",
    "C76_2d",
    "C76_1c",
    "C76_2c",
    "C76_spin_h1_refuted"
   ],
   "note": "real CI vectors and exact arithmetic; one pair of states of each fragment. C76_term covers any sum of products of elements; C76_1d to C76_2c_any and C76_s2_* instantiate all seven crunchers; C76_same_* and C76_s2_same_* tie the terms to the functions of C68. Finding: _crunch_1d_ gives one component to a term with an h1 that depends on spin, so that reduce_spin cannot lower its spin part."
  },
  {
   "property": "C77",
   "status": "proved",
   "theorems": [
    "C77_submanifolds",
    "C77_orth",
    "C77_total",
    "C77_null",
    "C77_ragged_refuted",
    "C77_index_refuted",
    "C77_fingerprint",
    "C77_overlaps",
    "C77_split",
    "C77_paired",
    "C77_rows_sorted",
    "C77_first",
    "C77_raises"
   ],
   "note": "C77_split, C77_paired, C77_rows_sorted, C77_first, C77_raises: one group. C77_submanifolds, C77_orth, C77_total, C77_null: the whole function. C77_overlaps: rows have the same overlaps. C77_ragged_refuted and C77_index_refuted are findings; C77_fingerprint shows that the second one is harmless."
  },
  {
   "property": "C78",
   "status": "proved",
   "theorems": [
    "C78_soc_mixed",
    "C78_mixed_of_ci",
    "C78_s2_refuted",
    "C78_soc_pure",
    "C78_soc_of_ci"
   ],
   "note": "C78_soc_mixed (rootspaces of different spins, any arithmetic, given right fragment tables), C78_soc_pure (rootspaces of equal spins), C78_mixed_of_ci and C78_soc_of_ci (real arithmetic, from the CI vectors). C78_s2_refuted is a finding. Hypotheses are those of C67 and C68: no collisions of hashed keys, arrays at one address are one array."
  },
  {
   "property": "C79",
   "status": "proved",
   "theorems": [
    "C79_spin_orbitals",
    "C79_of_ci",
    "C79_spin_pure",
    "C79_argument_refuted",
    "C79_trace"
   ],
   "note": "C79_spin_orbitals (any arithmetic, given right fragment tables), C79_of_ci (real arithmetic, from the CI vectors, with the contraction with the integrals), C79_spin_pure. C79_argument_refuted is a finding. Hypotheses are those of C67 and C70. C79_trace: trace and hermiticity of rdm1s."
  },
  {
   "property": "C80",
   "status": "proved",
   "theorems": [
    "C80_contraction",
    "C80_constant",
    "C80_constant_refuted"
   ],
   "note": "C80_contraction (any arithmetic with conjugation), C80_constant; C80_constant_refuted is a finding: with spin-orbit coupling the constant is added once in contract_h_re and again in contract_h. PySCF's contractions with H are parameters."
  }
 ]
}