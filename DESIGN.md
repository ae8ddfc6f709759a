# Formal model of the discrete and algebraic core of mrh

Target: `/repo` (`MatthewRHermes/mrh`), Python plus a little C.  Prover: Rocq/Coq 8.16.1.

## 1. Approach

mrh is numerical quantum chemistry.  Floating-point quality (does an SCF converge, is an
eigenvalue accurate) is out of scope.  In scope is the discrete and algebraic core that the rest
relies on: enumeration of rootspaces, fermion signs, address arithmetic, selection rules, thread
schedules, bookkeeping of keyframes, checkpoints and quantum numbers, the linear and multilinear
identities between tensors (over an arbitrary commutative ring with involution, or over `Z`, `Qc`
or the reals, i.e. exact arithmetic), and the operators of Fock space that the C kernels apply.

Layers, in separate files:

* `*Model.v` - total computable Gallina functions that follow the Python/C code function by
  function.  Every definition cites file and lines.  Python exceptions and failed assertions are
  values (`res` = `Ok`/`Raise`, `exn` in `Base.v`).  Loops without a structural bound carry fuel
  whose exhaustion is a distinguishable result.  No proofs.
* `*Spec.v` and the definitions at the head of `Prop*.v` - the specification, written without the
  model's helpers (relations, `Permutation`, `NoDup`, sums, differential equations).
* `*Facts.v`, `*Proofs.v` - lemmas.
* `Prop*.v` - the property theorems (`C<nn>_...`), each with concrete `Example`s beside it and
  `Print Assumptions` at the end.

A claim that is false of the faithful model is stated as a `..._refuted` theorem (a witness, checked
by computation) and, where possible, as a positive theorem under the extra hypothesis that makes it
true (suffix `_partial` when it is weaker than the property).  The refutations are the findings.

## 2. Trusted base

* Coq's kernel (re-checked by `coqchk`), `vm_compute` for examples and witnesses.
* The axioms listed in section 3.  They come from Coq's standard library only (its construction of
  the real numbers); this development states none.
* The reading of Python, numpy and C embodied in the definitions; the comments say where it is
  simplified.  Nothing of pyscf, numpy, h5py or libc is verified: where a library result enters, it
  is a parameter or a hypothesis of the theorem, as listed per property in section 4.
* That real hardware and compilers execute the C loops as the sequential steps written here.  For
  C20 the steps are individual memory accesses under sequential consistency; for C57 one iteration of
  the parallel loop is one step.

## 3. Axioms, as printed by `Print Assumptions`

* `ClassicalDedekindReals.sig_forall_dec`: `C58_init`.
* `ClassicalDedekindReals.sig_forall_dec`, `ClassicalDedekindReals.sig_not_dec`, `FunctionalExtensionality.functional_extensionality_dep`: `C58_call`, `C58_inverse`, `C58_adjoint`, `C58_isometry`, `C58_deriv`, `C58_deriv_prefix`, `C58_deriv_transposed`, `C58_transpose_raises`, `C58_energy`, `C58_gradient`, `C58_gradient_uniq`, `C60_update_first_order`, `C60_update_si_norm`, `C60_update_si_refuted`, `C62_numbers`, `C62_spin`, `C62_electrons`, `C62_multiplet`, `C63_orbitals`, `C63_determinant`, `C63_first_order`, `C73_h`, `C73_hh`, `C73_phh`, `C73_sm`, `C73_dm1`, `C73_dm2`, `C74_mdown`, `C74_mup`, `C74_list`, `C74_above`, `C75_tables`, `C75_overlap`, `C75_exact`, `C75_close_refuted`, `C75_stdm12s`, `C75_rdm`, `C76_h`, `C76_hh`, `C76_sm`, `C76_dm1`, `C76_hh_mixed`, `C76_phh`, `C76_dm2`, `C76_adjoint`, `C76_term`, `C76_1s`, `C76_1s1c`, `C76_1c1d`, `C76_2c_any`, `C76_s2_1d`, `C76_s2_2d`, `C76_s2_1s`, `C76_1d`, `C76_2d`, `C76_1c`, `C76_2c`, `C76_spin_h1_refuted`, `C77_overlaps`.
* `ClassicalDedekindReals.sig_forall_dec`, `ClassicalDedekindReals.sig_not_dec`, `Classical_Prop.classic`, `FunctionalExtensionality.functional_extensionality_dep`: `C58_call_unique`, `C60_update_norm`, `C60_update_one_norm`, `C60_update_rows_refuted`, `C63_rotate_mo`, `C63_rotate_mo_refuted`.
* `ClassicalDedekindReals.sig_forall_dec`, `FunctionalExtensionality.functional_extensionality_dep`: `C58_hamiltonian`, `C58_linear`, `C58_hermitian`, `C63_uccsd`, `C72_equivalent`, `C72_complete`, `C72_exact_rotation`, `C72_views_refuted`, `C72_not_normalised_refuted`, `C74_sdown`, `C74_sup`, `C76_same_1d`, `C76_same_2d`, `C76_same_1c`, `C76_same_1s`, `C76_same_1s1c`, `C76_same_1c1d`, `C76_same_2c`, `C76_s2_same_1d`, `C76_s2_same_2d`, `C76_s2_same_1s`.
* All other 296 theorems of `MANIFEST.json`: closed under the global context.

(`vcheck` lists further library axioms: those of modules that the imported standard library files
declare, such as `Coq.ssr.ssrunder` and the sealed definitions of `Coq.Reals.Rdefinitions`.)

## 4. Properties

Status, the file with the theorems, and what each theorem assumes or leaves out.  Statements are in
`properties.jsonl`, theorem names in `MANIFEST.json`.

**C01** Electron hop conserves particle number and spin (proved; `PropSpaces.v`).  Any number of fragments; CSF counter is an arbitrary parameter. Negative occupations are excluded on the two touched fragments (the others are unchanged).

**C02** is_single_excitation_of recognises exactly the electron hops (proved; `PropSpaces.v`).  Iff for all parity-consistent pairs; describe finds the hop; get_single rebuilds the space when it is physically valid and the external CSF counter is right on valid states.

**C03** Enumeration of single excitations is sound and complete (proved; `PropSpaces.v`).  Soundness and completeness of get_singles under every mask; all_single_excitations keeps references as prefix, adds exactly the hops, no duplicates. External CSF counter assumed right on physical states.

**C04** Spin-projection table is exactly the set of microstates (proved; `PropSpaces.v`).  Table = set of microstates, strictly sorted (so no duplicates).

**C05** Coupling-path table is exactly the set of genealogical couplings (proved; `PropSpaces.v`).  Table = set of coupling paths, strictly sorted; reachable targets characterised (polygon rule).

**C06** Spin shuffling closes a list of rootspaces (proved; `PropSpaces.v`).  For every list without entanglement maps over the same orbitals, any hash function; idempotent.

**C07** Equal rootspaces have equal hashes (partial; `PropSpaces.v`).  Holds between spaces with the same entanglement map. Refuted in general: get_single and get_single_any_m produce equal spaces with different hash keys (__hash__ includes entmap, __eq__ does not).

**C08** filter_spaces keeps exactly the spaces that can couple to a requested multiplicity (partial; `PropSpaces.v`).  Limits exact. target_all exact for targets of right parity; target_any never drops a space that can couple, exact for one target of right parity. Full claim refuted twice: [1,9] is kept for a space reaching only 3 and 5; parity of the target is ignored.

**C09** Combining disjoint excitations preserves both (proved; `PropSpaces.v`).  flexible_m branch: succeeds iff local projections with the reference total exist; fragment quantum numbers and totals exact. The other branch raises TypeError when CI vectors are absent (refutation theorem included as a finding).

**C10** Sz rotation covers the whole multiplet (proved; `PropSpaces.v`).  Keys are exactly the multiplet; each value is the right number of ladder steps with matching electron counts; look-ups by spin shuffles never miss. Ladder operators are abstract functions.

**C11** Spin-shuffle sign is the parity of the reordering (proved; `PropSigns.v`).  Sign = parity of the reordering for any number of fragments and any words; parity well defined.

**C12** Fragment-shuffle sign is the parity of the reordering (partial; `PropSigns.v`).  Proved when all listed indices are below 8. Refuted beyond: list(set(...)) of CPython (modelled) iterates {1,8} as 8,1, giving the wrong sign with nine fragments.

**C13** Annihilation shuffle sign is the parity of the reordering (partial; `PropSigns.v`).  Proved when all listed indices are below 8; refuted for {1,8} (same cause as C12).

**C14** State addresses are a bijection (proved; `PropAddr.v`).  Layout, range, injectivity and coverage for every rectangular table, including empty rootspaces; get_lroots characterised.

**C15** Blocked addresses round-trip (proved; `PropAddr.v`).  Every list of block sizes including zeros; raw-block look-up tables too. Indices beyond the end are not rejected (theorem C15_split_overflow).

**C16** Raw/orthogonal basis maps are adjoint (proved; `PropBasis.v`).  Adjointness and orthogonal-side round trip for both OrthBasis and SpinCoupledOrthBasis over any commutative ring with involution, so real and complex data alike. C16_spin_complex_umat_refuted shows the hypothesis that umat is real is needed: _rmatvec does not conjugate umat. get_spincoup_umat only builds real matrices, so this is a limit, not a failure. The raw-side scatter assumes m-blocks list disjoint raw states.

**C17** Multiplicity shift keeps manifold segments aligned (partial; `PropBasis.v`).  Refuted: i0/f0 only advance when a manifold is present on both sides, so a manifold absent on one side shifts all later segments. C17_aligned_iff gives the exact condition under which segments are right, C17_applied which manifolds are applied. Only the segment bookkeeping is modelled, not the spin-coupling overlap matrix.

**C18** Chunked transpose equals the N-dimensional transpose (proved; `PropTrans.v`).  Any number of dimensions, both orders, generic element type. Arrays with a zero extent raise ValueError (separate theorem).

**C19** Slow-fragment transposition round-trips (proved; `PropTrans.v`).  Both round trips and the explicit layout, generic element type; local root counts positive and at least one column.

**C20** Interaction list does not depend on the thread schedule (proved; `PropSC.v`).  Both C listing loops modelled as one small-step machine with per-thread buffers, a lock and out-of-bounds faults; any assignment of iterations to threads and any interleaving. The result theorem needs fewer than 2^31 pairs: C20_count_overflow_refuted shows that the count is read through ctypes' default 32-bit return type, so with 65536 coupled rootspaces the buffers get zero rows and the first write is out of bounds. Weak memory effects of C are not modelled; the memory limit check is left out.

**C21** Selection rule is symmetric and matches two-electron reachability (proved; `PropSC.v`).  Exact characterisation by electron moves, with and without multiplicities; int arithmetic is exact integers. The spin version also shows that no C assertion fails when multiplicities have the right parity.

**C22** Spectator orbital round trip (proved; `PropDet.v`).  Amplitude placement, sign (as operator reordering), round trip, zero for any other occupation; the container rule is explicit (one vector is unwrapped). Array size errors are not modelled.

**C23** Spinless representation round trip (proved; `PropDet.v`).  Amplitude placement, sign, round trip, disjointness and coverage. 64-bit overflow of strings (2*norb > 63) is not modelled.

**C24** Product-state addresses select exactly the fragment-resolved determinants (proved; `PropDet.v`).  Members, order, product amplitudes, zeros elsewhere and dotter (skip=None). dotter with skip is not modelled. C24_infeasible records that infeasible counts give a spurious address 0.

**C25** Asynchronous combination uses every fragment result exactly once (proved; `PropAsync.v`).  Proved for every number of impurities >= 1 and any combination step; also that the real combination step never refuses inside the driver. Zero impurities is an OverflowError (Example).

**C26** No impurity result is forgotten in the combination (partial; `PropAsync.v`).  False for small values of combine_pair_max_frags: with five fragments and a limit of 2, a fragment reverts to the previous macrocycle (C26_refuted). Proved: all fragments stay marked if the limit is at least the number of fragments (the default), all data are kept if it is at least that number minus one.

**C27** Orthogonalised keyframe averages all inputs (partial; `PropAsync.v`).  False: the comprehension in orth_orb sums the density of the last keyframe only (C27_refuted, C27_last_only). Correct for the potential, and when all densities agree.

**C28** Order-insensitive dictionary (proved; `PropAsync.v`).  Reading with [] and get is proved for every history of stores, reads and membership tests. Separate finding: `in` is not overridden, so a key just stored in unsorted order is reported absent (C28_membership_refuted). pop, del, setdefault, update are not modelled.

**C29** Requested quantum numbers are honoured (partial; `PropLas.v`).  Proved: honoured exactly when the number of electrons and the projection have the same parity; always with default charges and spins. False otherwise: the request is accepted and one electron is dropped (C29_refuted). Local state averaging and string irreps are not modelled.

**C30** CI vectors follow their quantum numbers (proved; `PropLas.v`).  Proved for every old and new table with well-shaped CI cache. 'Same quantum numbers' compares the numbers reported for the old state with those requested for the new one.

**C31** Fragment orbital slices partition the active space (proved; `PropLas.v`).  Proved, including negative and out-of-range indices.

**C32** Convergence flag reports convergence (partial; `PropLas.v`).  False: np.all receives a generator object, whose truth value is True (C32_always_true, C32_refuted).

**C33** Per-state keyword arguments reach their state (partial; `PropLas.v`).  Positional arguments: proved. Keyword arguments: false in general (C33_refuted), true when they are of the same kind as the last positional argument.

**C34** Fragment energies are consistent with the total energy (proved; `PropProd.v`).  Numbers are elements of an arbitrary commutative ring (with 1/2 for the trial-state half). Own densities: no symmetry of the densities assumed. Examples over the rationals.

**C35** Product-state pair density is symmetric and traces correctly (proved; `PropProd.v`).  Arbitrary commutative ring; any number and sizes of fragments, including empty ones.

**C36** Checkpoint round trip (proved; `PropChk.v`).  Every attribute, the state table, orbital lists, symmetry tag and CI table come back from a completed write, for the LASSCF and LASSI key lists and for the optional LASSIS tables. numpy conversion of lists and scalars is not modelled (values are opaque); the keyword overrides of dump_las and dump_lsi are not modelled. Hypotheses: every written value is not None and the CI table has nfrags x nroots entries.

**C37** A failed checkpoint write does not destroy the previous one (partial; `PropChk.v`).  False: the old record is deleted before the new data are written, so an exception (for example unset CI vectors) or a crash during the write loses it (C37_refuted, C37_crash_refuted). Proved: at every stopping point all other records are untouched, and the own record survives exactly until the deletion.

**C38** Nested value encoding round-trips (partial; `PropEnc.v`).  Exact read-back value proved for nested None, integers, arrays, lists, tuples, dictionaries and harmless text: tuples come back as lists and text as bytes; booleans cannot be read back, text containing the markers is destroyed (C38_refuted). The HDF5 layer of pyscf.lib.chkfile is an assumption, stated in EncModel.

**C39** Fragment intermediates can be reloaded (partial; `PropEnc.v`).  False: the stored dtype is read back as bytes and compared with text, so reloading always declines; with a text it would raise on the first field. Proved: load_chk_ never returns True, so stale data are never used either.

**C40** Unique-root maps compose (proved; `PropUroot.v`).  For every outcome of the pairwise comparisons (an arbitrary boolean function), hence also for non-transitive ones.

**C41** Spin-manifold interaction map preserves the physics labels (partial; `PropUroot.v`).  C41_manifold, C41_map, C41_distinct, C41_computed and C41_mask hold for every labelling. Finding (C41_masked_refuted): if mask_ints tells members of one manifold apart, an unmasked pair can be looked up in an entry that was never computed, which raises RuntimeError; C41_computed therefore assumes that masks depend only on the discriminator. The screen argument of _make_dms_ is taken as None.

**C42** Neutral-only operator subset (proved; `PropOpt.v`).  Hypotheses: group operators are nonempty, every spin case of one operator has the same charge change (property C41), and the operators conserve charge; C42_losing_op_passes shows the last is needed because the code only looks for gains.

**C43** Electron-index symmetrisation is a projection onto symmetric tensors (proved; `PropTens.v`).  Exact rationals instead of floating point, real elements, equal dimensions, even rank. C43_both covers symmetrize_tensor.

**C44** Log parsing terminates (partial; `PropLog.v`).  False: C44_refuted/C44_truncated_hangs: any log ending inside a module makes the reader loop forever at end of file (readline returns ''). C44_complete_log_partial: complete logs are read to the end with the expected data.

**C45** Exchange coupling uses the actual spin expectation values (partial; `PropSpin.v`).  False: the divisor 24 is hard-coded. C45_gap: what is returned; C45_decet_partial: agrees with the documented formula for multiplicity 10; C45_only_decet: and for no other multiplicity (C45_refuted: triplet example). Energies rational; <S^2> enters rounded to hundredths; unit conversion left out.

**C46** Spin-ladder normalisation is consistent (proved; `PropSpin.v`).  Norms squared and multiplied by four, in integers. C46_roundtrip is over any vector space given the algebra of S+ and S- (grading, linearity, the Casimir relation); C46_calls gives the exact contractions.

**C47** Starting projections for spin coupling always exist (proved; `PropSpin.v`).  C47_succeeds: nonempty lists; both tables are exact (microstates; genealogical couplings). C47_rejects: conversely an accepted request is within range and of the right parity.

**C48** Orthogonality by multiplicity is exact (proved; `PropSpaces.v`).  For two spaces of the same total-spin parity.

**C49** Counting excitations returns the whole reachable set (proved; `PropSpaces.v`).  Whenever the loop returns (it raises RuntimeError after 500 rounds), the list is exactly the set of spaces reachable by hops.

**C50** Interaction fingerprints are canonical (partial; `PropSC.v`).  Order and spectator independence and bra/ket symmetry proved; uniqueness refuted (C50_unique_refuted: a 64-bit hash of 63-bit words collides, one of the words in the witness is about 10^12). How likely a collision is with realistic statelet numbers is not established: one informal C search outside this model, over two-fragment rows on fragments 0 and 1 with statelet numbers below 1024, found none, and nothing larger was examined. bubblesort on zero fragments (size_t wrap) is outside the model.

**C51** Work division covers every element once (partial; `PropSC.v`).  C51_contig_empty_refuted: for a mask without True, one source offset is returned for zero blocks. split_contig_array of nothing, or with no threads, raises ZeroDivisionError.

**C52** Product-state iteration: what reported convergence means (partial; `PropPsKern.v`).  Finding: the test all ([solvers_converged]) wraps the list in another list, so it is always true; convergence is reported although no fragment solver converged (C52_refuted). C52_exact states what the reported flag does mean. Solvers, gradients and thresholds are parameters of the model.

**C53** One sweep updates the fragments it should (proved; `PropPsKern.v`).  Solver results are parameters of the model.

**C54** Interaction tables list every coupled pair of rootspaces once, with the right operators (proved; `PropExc.v`).  Exact integers; the memory check is left out. The list of pairs is any list accepted by the C test (C54_rows, C54_each_once, C54_spectators) or, in C54_lower, the full list of C20 restricted to the lower triangle.

**C55** Equivalent interactions share one entry, and every interaction is found again among the images (proved; `PropUexc.v`).  Fingerprint collisions are excluded by hypothesis (collision_free); C50 shows that the hash alone does not exclude them. C55_unique and C55_lookup need no such hypothesis. The order within an image list is that of a stable sort.

**C56** Expanded images rebuild every transition density matrix element (proved; `PropStdm.v`).  The matrix elements of the involved fragments are an input assumed to depend only on the local states and to be hermitian (local_hermitian); list(set(...)) is a parameter assumed to keep the sorted order of the spectator list; exact arithmetic; fingerprint collisions are excluded by hypothesis; the linear-equivalence rotation (umat) after the loop is not included.

**C57** The Fock-space kernels apply exactly the fermionic operators they are called for (proved; `PropFsucc.v`).  Kernels as loops over bit-string determinants; the parallel loop runs its iterations in an arbitrary order, each taken to be atomic (C57_disjoint shows they touch different cells). Arithmetic is exact ring arithmetic with cos and sin of the amplitude as inputs (what they do as functions of the amplitude is in C58); orbital counts of 31 and more, where the C shifts overflow, are outside the claim. The rotation needs the two index sets to differ: C57_same_set_ex shows that it fails otherwise.

**C58** The unitary coupled cluster operator is the product of the exponentials of its generators, and its derivatives and energy gradient are exact (proved; `PropUcc.v`).  Exact real arithmetic over the standard library's reals (axioms listed in DESIGN.md), cos and sin those of the library. The exponential is specified as the unique solution of F' = G F (C58_call_unique). Orbital indices fit a byte; sorted index arrays of unequal length are taken to compare unequal. Two findings are separate theorems: C58_transpose_refuted (and C58_transpose_raises for every operator with two or more generators) and C58_dtype_refuted. Not covered: the order of generators built by get_uccsd_op and the spin cases of uccsd_sym1 (C61).

**C59** LASSCF variables: the mask of nonredundant rotations, pack, unpack and the names of variables (proved; `PropUgg.v`).  Mask, count, both round trips, names, and the two counterexamples. Not modelled: construction of the transformers (pyscf), the strings of CSFs, complex dtype; a one-element orbital part that numpy would broadcast.

**C60** LASSIS variables: the table of fragment states, pack, unpack, the number of variables and the step (proved; `PropLsis.v`).  Model: LsisModel.v, LsisUpdModel.v. CSF transformers are any pair of maps with det2csf(csf2det c) = c; exact star ring for pack/unpack, exact reals for the step. unpack_pack needs tangent arguments whose redundant parts are zero. The four findings are separate _refuted theorems. Not included: the orbital step expm(kappa/2), and the norm checks of update_wfn, which for charge transfers test a stale variable and never run.

**C61** Spin-adapted coupled cluster operators: the spin cases, the generators built and the amplitudes shared (proved; `PropUccSym.v`).  Orbital indices fit a byte (the sums p+norb of uint8 arrays do not overflow); amplitudes are of any type. C61_complete needs the given excitations pairwise different up to order. Findings are separate theorems: C61_column_major_refuted, C61_t1_refuted, C61_uccsd_small.

**C62** Spin-adapted coupled cluster operators conserve the electrons of each spin, and with s2sym singles the total spin (proved; `PropUccSpin.v`).  Exact real arithmetic over the standard library's reals (axioms listed in DESIGN.md); fewer than 31 spin orbitals. S+, S-, Sz and S^2 are specified from creation and annihilation operators of the Fock space (FockSpec.v). That s2sym=False or double excitations break S^2 is shown by examples (Module Ex2).

**C63** The spin-adapted singles operator is a rotation of the orbitals, and rotate_mo returns those orbitals when one amplitude is nonzero (proved; `PropUccOrb.v`).  Exact real arithmetic over the standard library's reals (axioms in DESIGN.md); fewer than 31 spin orbitals for the operator. scipy's expm is a parameter specified by F' = A F, F(0) = 1, F(1) = E, which is shown to determine it for skew A. Findings: C63_rotate_mo_refuted, C63_uccsd.

**C64** Half-particle, spin-flip and pair densities of a fragment, and the tables made of them (proved; `PropHalf.v`).  pyscf's number-conserving kernels are assumed to return their documented densities; CI arrays are real.

**C65** Transition density matrices of product states are the matrix elements of the density operators (proved; `PropCrunch.v`).  Theorem for the assembled tdm1s and tdm2s in the Fock space of all fragments, and for the absence of exceptions. Assumes exact fragment matrices and overlaps (they exist: table_exact), screening that drops only zeros, no colliding fingerprints; smult, umat_root and the orbital scatter are not included.

**C66** The arrays of make_stdm12s hold the transition density matrices of all orbitals and states (partial; `PropScatter.v`).  From fragment tables or from CI arrays to the two arrays that make_stdm12s returns, through the orbital ranges, block lists and the C scatter with 32-bit ints. Assumes what C65 and C64 assume, 4*N^4 < 2^31, and the spin-pure branch. Iterations of the parallel loops run in any order; C66_no_race shows they write different elements. C66_overflow_refuted: at 216 orbitals the int product wraps.

**C67** Density matrices between rootspaces of different spin projection are those of the original states (partial; `PropSpinless.v`).  Proved for the spinless-mapped fragments of C66's tables without masks, exact arithmetic; views at equal addresses are a finding (refuted theorem).

**C68** The Hamiltonian and squared-spin matrices in the product-state basis (partial; `PropHam.v`).  Fragment tables hold exact matrix elements (smult=None, no masks), no hash collisions, at most eight fragments, real two-electron integrals with the symmetries of real orbitals; umat_root empty. Complex h1, complex CI vectors and nine fragments are findings (three refuted theorems).

**C69** get_ovlp returns the Gram matrix of the product states asked for (partial; `PropOvlp.v`).  The rows of exc_null come from the modelled make_exc_tables. Finding: ovlp += ovlp.T does not conjugate, so for complex CI vectors the upper triangle is wrong (C69_complex_overlap_refuted). umat_root is assumed empty; a rootspace repeated in rootidx leaves empty rows (C69_repeated_example).

**C70** The density matrices of SI vectors are expectation values in the combined wave functions (proved; `PropRdm.v`).  Composed with C65: the same tables, signs and orbits of equivalent interactions. Finding: the convention documented in op_o1/__init__.py, dm2[p,q,r,s] = <p'r'sq>, is violated for complex SI vectors: rdm.py:730 conjugates the two-body array but not the one-body array (C70_complex_convention_refuted); with bra and ket different, dm1 then belongs to <bra|..|ket> and dm2 to <ket|..|bra>. self.hermi is an input of the model with the premise that it is true only for equal vectors; the code decides with a threshold of 1e-8.

**C71** Equivalent rootspaces are rotated back to the vectors given (proved; `PropUmat.v`).  Real CI vectors; a rotation is any square matrix of the right size. Complex: refuted for the overlap and for the transition densities.

**C72** Rootspaces taken for equivalent are equivalent (proved; `PropLinq.v`).  Exact real arithmetic; linalg.svd is any function that returns a singular value decomposition of the overlaps. Two findings: vectors that are not normalised, and overlapping views of one buffer.

**C73** Density matrices of all members of spin multiplets from those of one member (proved; `PropSmult.v`).  real CI vectors and exact arithmetic; the vectors of the members are given as a multiplet (that mup and mdown produce them is C74), smult given; the leading axis of states is left out

**C74** Spin ladder operators and walks through a multiplet (proved; `PropLadder.v`).  real CI vectors and exact arithmetic; the pyscf string tables and take_2d/takebak_2d are modelled by what they return; a division by zero is an exception of the model, so C74 shows that none occurs

**C75** Tables of a fragment shared by a spin manifold hold the right matrix elements (proved; `PropSpman.v`, `PropSpmanEnd.v`).  real CI vectors and exact arithmetic; no masks and no rotations of states. C75_stdm12s and C75_rdm compose the tables with C66 and C70 (at most eight fragments, no hash collisions). Finding: np.allclose takes normalised vectors with overlap 1 - 1e-5 for members of one multiplet, and matrix elements come out wrong by 0.004.

**C76** Terms of the Hamiltonian and squared spin made at high m and multiplied by spin factors are those of the members asked for (proved; `PropSpfac.v`, `PropSpfacHam.v`, `PropSpfacRest.v`, `PropSpfacS2.v`, `PropSpfacTerm.v`).  real CI vectors and exact arithmetic; one pair of states of each fragment. C76_term covers any sum of products of elements; C76_1d to C76_2c_any and C76_s2_* instantiate all seven crunchers; C76_same_* and C76_s2_same_* tie the terms to the functions of C68. Finding: _crunch_1d_ gives one component to a term with an h1 that depends on spin, so that reduce_spin cannot lower its spin part.

**C77** get_orth_basis sorts every rootspace into one manifold of m strings and spin multiplets (proved; `PropOrth.v`, `PropOrthOvlp.v`, `PropSplit.v`).  C77_split, C77_paired, C77_rows_sorted, C77_first, C77_raises: one group. C77_submanifolds, C77_orth, C77_total, C77_null: the whole function. C77_overlaps: rows have the same overlaps. C77_ragged_refuted and C77_index_refuted are findings; C77_fingerprint shows that the second one is harmless.

**C78** The Hamiltonian with spin-orbit coupling is right between rootspaces of different spins; its squared spin is not (proved; `PropSoc.v`, `PropSocPure.v`).  C78_soc_mixed (rootspaces of different spins, any arithmetic, given right fragment tables), C78_soc_pure (rootspaces of equal spins), C78_mixed_of_ci and C78_soc_of_ci (real arithmetic, from the CI vectors). C78_s2_refuted is a finding. Hypotheses are those of C67 and C68: no collisions of hashed keys, arrays at one address are one array.

**C79** Density matrices of states that mix spins are those over all spin orbitals (proved; `PropSocRdm.v`, `PropSocTrace.v`).  C79_spin_orbitals (any arithmetic, given right fragment tables), C79_of_ci (real arithmetic, from the CI vectors, with the contraction with the integrals), C79_spin_pure. C79_argument_refuted is a finding. Hypotheses are those of C67 and C70. C79_trace: trace and hermiticity of rdm1s.

**C80** H|CI> contracted with SI vectors is the sum over the states of the other fragments; the constant is counted twice with spin-orbit coupling (proved; `PropHci.v`).  C80_contraction (any arithmetic with conjugation), C80_constant; C80_constant_refuted is a finding: with spin-orbit coupling the constant is added once in contract_h_re and again in contract_h. PySCF's contractions with H are parameters.

## 5. Wording and statuses that need care

* *Proved with a narrowed quantifier.*  C20 needs fewer than 2^31 pairs and C24 feasible electron
  counts; the statements in `properties.jsonl` say so, and the excluded cases are theorems or examples
  of their own.  C16 needs a real `umat`.  C28 speaks about reading; membership is a refutation.
  C09 is proved for the branch that does not need CI vectors.
* C02: local root counts are outside the claim.
* C17: segments are lists of sizes; the overlap matrix between spin couplings is not modelled.
* C36-C38: the HDF5 library is an assumption (values come back as written, text as bytes).
* C41: the `screen` argument is `None`.  C42: the cached lists are taken as given.
* C43: exact rationals, real elements, even rank.  C45: rational energies.
* C46: an abstract vector space with the algebra of S+ and S-.
* C54: exact integers; the memory check is left out.
* C55, C56: no two fingerprints that matter collide (`collision_free`); C50 shows that the hash alone
  does not guarantee this.  C56: local matrix elements are given and hermitian, `list(set())` keeps
  the order of small integers, local root counts are positive, the scatter over orbitals (see C66) and the
  rotation by `_umat_linequiv_` are not included.
* C65: the tables of the fragments are assumed to hold exact matrix elements, screening to drop only
  zeros, fingerprints not to collide; spin multiplets (`smult`) and `_umat_linequiv_` are not included; the scatter over
  orbitals is that of C66.  The assertions of `_crunch_2c_` on pairs have a misplaced parenthesis and
  are modelled as written.
* C66: exact arithmetic; iterations of the parallel loops are atomic and run in any order (C66_no_race:
  they touch different elements); all rootspaces have the same (na,nb), so the branch with the
  spinless mapping is not entered; complex arrays use the same index arithmetic (`zputSD1`, `zputSD2`).
  Slices of buffers by orbital ranges are connected by C66_slices with the (fragment, orbital)
  addresses that the model of the cruncher functions uses.
* C67: as C66, over the mapped fragments (64 N^4 < 2^31, no equal fingerprints among the mapped interactions); the
  grouping of the rootspaces into unique roots is the same before and after the mapping (`get_unique_roots` on the
  mapped arrays is not modelled), `smult_fr` is not given, CI arrays are real.  Addresses of buffers are arbitrary
  numbers; equal addresses mean the same array, fragment size and electrons (C67_views_refuted: otherwise it fails).
* C68: fragment tables as in C65 (exact entries, smult = None so that OpTerm and reduce_spin are the identity, no masks;
  umat_root is C71); at most eight fragments; h2[p,q,r,u] = h2[r,u,p,q] = h2[q,p,u,r] real; h1 hermitian, then the result is the
  matrix for the conjugate of h1; s2 for a ring with trivial conjugation; builtin hash of a tuple is a parameter which has no
  collision within one table.  get_ovlp is C69; soc_context and the driver `ham` are not in this model.
* C69: exact fragment overlaps, no masks (umat_root: C71); numpy broadcasting in block assignment is not modelled.
* C70: as C65; the axis of the SI roots is left out of the arrays (a cruncher runs once per root), `hermi` is told truly, the
  branch of roots_trans_rdm12s for different spin projections (the spinless mapping of C67) is not in this model.
* C71: real numbers; the two arrays of LSTDM are any arrays with the transition densities stored at any distinct or equal places behind
  the two axes of states.  The rotations are arbitrary square matrices here (how get_unique_roots finds them is C72).
* C72: real CI vectors, exact arithmetic; np.shares_memory is a given relation and numpy.linalg.svd any function with orthogonal
  factors whose product with nonnegative values is the overlap.  "nelec_fr differ" and the discriminator are compared as numbers.
* C73: the multiplets are real vectors in the Fock space that satisfy the ladder relations exactly; sympy's rational functions are
  real functions in which a zero denominator or a negative radicand has no value.  The calls with an unknown multiplicity (None),
  which return their input, and the axis of states of the arrays are left out.  How mup and mdown move CI vectors is C74.
* C74: CI vectors are real (the buffer of contract_sladder is real, so imaginary parts would be dropped) and arithmetic is exact.
  The string tables of cistring, take_2d and takebak_2d are modelled by what they return.  A division by zero, which numpy turns
  into inf or nan, is an exception in the model.
* C75: real CI vectors, exact arithmetic, no mask (`mask_ints`, `screen`), no rotation (`umat`) of states; rootspaces are the
  unique ones (the reduction to them is C72).  `np.allclose` is a comparison with a tolerance [tol].  Undefined elements (nan) are None.
  The loops that fill an entry are those of C64 (HalfModel), the conversions those of C73, mup and mdown those of C74.
* C76: real CI vectors, exact arithmetic; a term is taken for one pair of states of each fragment, and its arrays are sums over
  orbitals.  Covered are reduce_spin, and the Hamiltonian and squared spin of all seven crunchers; `reduce_spin_sum` and the
  bookkeeping of spin cases are not.
* C77: the fingerprints come in as a function of the rootspace and the group (those by citools.get_unique_roots_with_spin are made by with_spin of
  two comparisons, which come in as functions), the numbers of products likewise. The matrix xmat made by canonical_orth_ and what is made of
  a manifold afterwards are C15, C16, C17 and C47. C77_overlaps takes the CI vectors as exact members of spin multiplets.
* C78: soc=1 and no masks of rootspaces; fragment rotations (umat_root) are left out. C78_mixed_of_ci is for real arithmetic; with complex
  integrals C78_soc_mixed takes the fragment tables as right. smult_fr is None after the mapping, so no tables are shared by spin manifolds.
* C79: no masks of rootspaces, no checkpoint file, no memory check; smult_fr is None, as lassi.py:613-614 passes it with spin-orbit coupling.
  C79_of_ci and C79_spin_pure are for real arithmetic; C79_spin_orbitals takes the fragment tables as right. The blocks of the two-body
  matrix that flip spins are dropped by the code (its TODO) and are not described.
* C80: of contract_ham_ci of the determinant code (op_o0.py:538-673) only the closure that applies the Hamiltonian is modelled, with PySCF's absorb_h1e,
  contract_2e and contract_1e_nosym as parameters; the loop over fragments and rootspaces and the terms with a separate bra are not. The two axes of CI
  coefficients in hci_dot_sivecs_ij are one index. op_o1/hci.py is not modelled.
* C64: the number-conserving kernels of pyscf (`make_rdm1_spin1`, `make_rdm12_spin1`, `reorder_rdm`,
  `trans_rdm12s`) are not code of this repository and enter by what they return; CI arrays are real;
  masks, `screen`, spin multiplets and GPU kernels are not included.
* C57: shifts by 31 or more are undefined in C and lie outside the claim.  C58: reals instead of
  doubles; arrays of orbital indices fit a byte.
* C59, C60: CSF transformers are any maps with `vec_det2csf (vec_csf2det c) = c`.  C60: exact reals in
  the step; the matrix exponential of the orbital step is not included.
* C61: orbital numbers fit a byte.  C62: exact reals; fewer than 31 spin orbitals.  C63: the same;
  `expm` is a parameter that solves its differential equation.

## 6. Not modelled

Floating-point arithmetic, pyscf (integrals, FCI kernels, CSF transformers), HDF5 storage itself,
iterative solvers and their convergence, point-group symmetry labels, spin-orbit branches, GPU code,
`dmet/`, `pbc/`, PDFT and gradients code, plotting and input generators.

## 7. Testing the theorems against wrong programs

For each topic the model was edited in a scratch copy outside `/verif` the way a real bug would look
(an off-by-one, a swapped index, a dropped sign, a missing case), and the proofs rebuilt.  Each
attempt is a line of `seeded/LOG.jsonl`: the definition edited, the edit, the claim it breaks, the
theorems that no longer went through, and the theorems that were tightened because of it.  "No longer
went through" means that the theorem, or a lemma it depends on, stopped compiling.  Edits that turned
out to be equivalent, or only changed a part no property speaks about, were dropped or led to new
statements.
