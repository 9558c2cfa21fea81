# Formal model of pyblock3-preview in Coq

Source: `/repo` (block-hczhai/pyblock3-preview, pinned). The code was read as text, never run.
Development: `rocq/theories`, Coq 8.16.1, logical prefix `Verif`.

## Layout

For each area there is

* a model file (`XxxModel.v`): total Gallina functions that follow the Python functions branch by branch;
  each definition cites file and lines; simplifications are stated there,
* one or more proof files (`XxxProofs.v`) with the lemmas,
* a property file (`XxxProps.v`) with the theorems named in MANIFEST.json, their specification
  (defined independently of the model's helpers), a concrete example meeting the hypotheses, and `Print Assumptions`.

Library files: `DictLib` (dicts), `OptLib` (exceptions), `IndexLib` (ranges, multi-indices), `RingLib` (commutative rings,
finite sums, arrays), `OrdLib` (ordered rings), `StrLib` (text).

## Conventions of the model

* Python integers are `Z` (or `nat` for sizes and positions). Floating point arithmetic is replaced by exact arithmetic
  over an arbitrary commutative ring (`RingLib.CRing`), an arbitrary ordered ring (`OrdLib.ORing`), `Z`, `Q` or `R`.
* Python dicts/Counters are association lists in insertion order with unique keys.
* numpy arrays are functions of the multi-index together with a shape, or row-major lists where storage is the subject.
* Exceptions (`assert`, KeyError, IndexError, NotImplementedError) are explicit error values (`None`).
* Linear algebra kernels (QR, SVD, sqrt, argsort) are Section variables or function arguments with their defining
  property as hypothesis of the theorem.
* 32-bit or window wrap-around is written explicitly where the property is about it.
* Aliasing of numpy views, dtype conversion, NaN and rounding are not modelled.

## Plan per property

"Result" says how the claim ended: proved, or proved with a restriction, with the refutation theorem that shows the
restriction is needed.

| id | modelled code | proof idea | result |
|----|---------------|------------|--------|
| C01 | SZ/U1/U11 to_flat, from_flat (symmetry.py, fermion_symmetry.py) | mixed-radix arithmetic | proved inside the window; window sharp |
| C02 | label arithmetic of all classes | componentwise, modular arithmetic, xor of irreps | proved |
| C03 | flip_flat, flat_to_parity | arithmetic on codes | proved except the edge label -8192 (refuted there) |
| C04 | `_compute`, object path and array path | induction over the pattern | proved |
| C05 | BondInfo.tensor_product | loop invariant: entry = weighted number of pairs | proved |
| C06 | Counter and/or/add, filter, neg | lookups | proved |
| C07 | MPSInfo.set_bond_dimension_fci | induction over the chain, spec by path counting | proved |
| C08 | MPSInfo.set_bond_dimension, truncate | reachability invariant | proved |
| C09 | truncate, truncate_no_keep with exact rationals | arithmetic | bound with slack; "never enlarges" refuted |
| C10 | BondFusingInfo.tensor_product | invariant of the running offset | proved below 2^32; refuted above |
| C11 | BondFusingInfo.kron_sum | sort/dedup normal form | proved |
| C12 | get_symmetry_fusing_info | as C10 | proved |
| C13 | SparseTensor._add/_subtract, ufuncs | dict merge invariant | proved |
| C14 | SparseTensor._tensordot, _hdot, _pdot | rearrangement of sums | proved |
| C15 | transpose | permutation action | proved |
| C16 | fuse, unfuse | layout of C10/C11 | proved |
| C17 | flat pack/unpack/add/transpose/tensordot kernels | round trip and simulation | proved |
| C18 | compute_phase for transpositions | bubble sort = inversion parity of odd legs | proved |
| C19 | phases of _tensordot_basic | same | proved |
| C20 | OpString.sort, OpSum.sort | any algebra given by hypotheses | mixed strings refuted |
| C21 | OpSum.simplify | Counter merge invariant | proved |
| C22 | CachedMPE._load_data/_save_data | state machine | refuted; proved without re-saves |
| C23 | MPE.build_envs/_embedded/get/set | invariant over all histories | proved; arbitrary public build_envs refuted |
| C24 | truncate_svd selection (sparse, fermion, flat) | selection by rank | max_dw refuted |
| C25 | _trim_singular_vals | selection by rank | proved |
| C26 | FCIDUMP.write/read, character level | round trip of printed numbers and records | five refutations outside the restriction |
| C27 | _parallelize_* | arithmetic on orbit representatives | one-electron symmetry refuted |
| C28 | term codes | arithmetic | proved to 8192 sites, refuted beyond |
| C29 | site operators, Jordan-Wigner sign of FermionTensor._tensordot | induction over the chain | proved |
| C30 | Heisenberg operators | matrix elements, commutators | proved |
| C31 | _fuse_data_map | connected components | proved; identity of exponentials refuted |
| C32 | MPS._add/_dot/_matmul, ufuncs | chains of functions, direct sums and Kronecker products of chains, Jordan-Wigner signs as parities, states as sums | proved for matching ends and non-empty sites (otherwise refuted); one-site _matmul and SparseTensor operators missing |
| C33 | MPS.canonicalize, left/right_canonicalize of SparseTensor and FermionTensor | np.linalg.qr is any exact orthogonal factorisation; one gauge step swaps two sites of a chain without changing sums over the bond; induction over the two sweeps | proved (isometry for tensors whose last/first label follows from the others); lossless compression in C59 |
| C34 | DMRG/Linear/GreensFunction/TDDMRG.solve | history of calls grouped by sweep | proved without init_site; init_site and a second solve refuted |
| C35 | conjugate_gradient | residual invariant, conjugacy of directions | proved; bound with a diagonal and last pass refuted |
| C36 | cast_assign, cast_assign_removed | dict lemma | proved for zero target; stale target refuted |
| C37 | QCSymbolicMPO.__init__ | the loops as programs with a pointer: closed forms of the vectors, bounds and coverage of the writes by induction over the loops | proved for two and more sites; one site refuted |
| C38 | _skeleton, zeros, ones | cartesian product | proved |
| C39 | _kron_add | layout | proved |
| C40 | fermion tensor _add/_subtract | dict merge | flat 0 - b refuted |
| C41 | particle number operators | evaluation on four states | refuted on the doubly occupied state |
| C42 | _contract_patterns, _flip_pattern, dq | charge bookkeeping | equal patterns refuted (raise) |
| C43 | MPE.get_mpe after build_envs | invariant of canonical sites | proved |
| C44 | to_sliceable, to_dense | placement | proved; missing label refuted |
| C45 | symmetry_fuse | placement | proved |
| C46 | infos | lookups | proved |
| C47 | _renorm_singular_vals | algebra with r-th root oracle | proved |
| C48 | reading integrals | invariant of the assignment loop | proved |
| C49 | get_site_ops named operators | product/sum of stored tensors | proved |
| C50 | FCIDUMP.read line loop | induction over lines | orbital-energy lines refuted |
| C51 | exchange phase of fermion_ops | parity of a set product | proved |
| C52 | fermion_ops Hubbard/hopping/creation | matrix elements | Z4 labels refuted |
| C53 | SparseFermionTensor._tensordot_basic/_transpose | signed sums | proved |
| C54 | trace | signed sums | proved with a block present; empty refuted |
| C55 | dagger | reversal of signs | proved |
| C56 | sequences of contractions | canonical signed sum of a network | proved |
| C57 | Heisenberg.build_mpo terms | derivation [S_total, .] on a chain | proved |
| C58 | davidson | Ritz invariant, norm and eigh as oracles | proved |
| C59 | MPS.compress, left_svd / right_svd, truncate_svd, diag | np.linalg.svd is any exact decomposition; one step changes one bond, and as the rest of the chain is isometric the squared distance is the discarded weight; the parts discarded in different steps are orthogonal, so the weights add up; induction over the sweep, mirrored for left=False | proved for tensors with definite quantum number |
| C60 | QCSymbolicMPO.__init__, SymbolicSparseTensor.deflate, get_site_ops | operators as linear functionals on words with anticommuting letters; the Hamiltonian splits at a bond into complementary operators; per site, the sum over the writes is the splitting of every name of the bond; induction over the sites with the words realised as matrices | proved for integrals with the usual real-orbital symmetries; contraction as sums over paths of site operators (block-sparse tensors: C65) |
| C61 | Hamiltonian.build_mpo (flat=False), build_complex_qc_mpo, OpString/OpSum, SymbolicSparseTensor.right_svd, get_site_ops on expressions | expressions as linear functionals on words; right_svd keeps row = sum of entries times new column (any exact factorisation); words left of the cut live on the site, right of it behind; induction over the sites; label invariant of the rows for existence; c61_labels on the tables | proved; one site with a constant refuted |
| C62 | SymbolicSparseTensor.to_sparse, BondInfo numbering (from_op_names), block placement | every bond state is the label of a row or column name together with its rank among the equal labels; the folds that allocate and add slices keep "element = sum of the entries placed there"; a block of the result has the labels charge + row label - column label | proved; a number 0 in a matrix refuted |
| C63 | build_mpo followed by MPS.to_sparse and mpo @ mps (composition of C61, C62 and C32) | the row labels of each table are the column labels of the previous one, every entry maps a state of label q to one of label q + charge, and the parity of the charge is the part the operator sits in; then the amplitude of the block-sparse operator with its crossing sign is the path sum of the tables with Jordan-Wigner signs | proved (two sites or more) |
| C64 | SymbolicSparseTensor.from_sparse for the three positions (names are their running numbers; np.linalg.norm(..) <= 1E-20 is a predicate true of zero arrays only), MPS.to_symbolic, MPS.to_sparse | the dictionary of slices has, for every pair of bond states, the blocks of the tensor cut at these states (invariant over the double loop), with no entry twice; the sum over the entries of the table is the element (bsum over the dict); the labels repeated per state give the numbering back (times_labels, starts_spec); for vectors the names kept are exactly the used states, and all-or-none makes thinning the name list harmless |
| C65 | Hamiltonian.build_qc_mpo (general branch): get_site_ops and deflate on dictionaries, vectors for the first and last site, quantum numbers of the names, MPS.to_sparse, mpo @ mps | each name of a bond has a parity (grading of the writes by row and column), the labels of the columns are opposite to those of the rows of the next site (from c37), the operators of a name sit in the part of its parity; so the tables are linked in the sense of C63 and c60_hamiltonian gives the path sum | proved (two sites or more) |
| C66 | MPE.solve_gf, FlatSparseFunctor.greens_function | the squared shifted operator is symmetric and positive definite, so C35 applies; residual of the complex system from the residual of the squared one; error from Cauchy-Schwarz and the lower bound eta^2 | proved over ordered fields |
| C67 | MPE.rk4, TDDMRG.solve (window part) | powers of the effective operator are linear; the four combinations are polynomials in it with the coefficients computed from 1/2 and 1/3; parts inside and outside the layout kept apart | proved when the constant is 0 or the state lies inside the layout; c67_outside_refuted otherwise |
| C68 | SweepAlgorithm.decomp_two_site (density matrix), add_dm_noise, truncate_svd with eigen_values=True | density matrix = Gram matrix of the columns of the states; left and right singular vectors agree where the value is not 0, so trace and expectation values are sums of the values; loss = trace minus kept values (C24); optimality from Bessel's inequality twice and the order of the kept values | proved; c68_random_refuted for random noise |
| C69 | einsum.einsum with SparseTensor._tensordot and _transpose | the running script, tensor and index counts form an invariant: the element of the running tensor is the sum over the indices contracted so far of the product of the operands so far; C14 per step, C15 at the end; counts give that the last script is a permutation of the result | proved; c69_comma_refuted, c69_blank_refuted |
| C70 | fermion.sparse_qr (block assembly, _maybe_transpose_tensor, _gen_null_qr_info), FermionTensor._tensordot | every label of the new leg has one matrix whose rows and columns are the states of the left and right legs laid side by side; the element of the tensor is read at the place of its row and column; q and r are read the same way, so their product over the new leg is the matrix product; charge of a block from the label of the new leg | proved when legs are left on both sides; c70_null_order_refuted |
| C71 | fermion.sparse_svd with _svd_preprocess, _trim_singular_vals, _trim_and_renorm_SVD, _absorb_svd | the matrix of a sector as in C70; the factor at an index is a sum of outer products over the kept values, so the difference to the sector matrix is a sum over the others; Parseval with both orthonormal families; what is kept from C25, the factor from C47; sectors without a kept value vanish from both sides | proved |
| C72 | GaussianTensorNetwork get_initial_indices, get_terminal_indices, get_layers; RHFTensorNetwork.make_rdm1 | a pass splits the remaining tensors by whether their down legs are in the current set; the current set is (initial + made) - used, so the tensor of least level is always ready; a pass that places nothing leaves the state as it is. make_rdm1: for every function on legs that follows the rotations, the bilinear form of the running matrix over the running positions is the sum of the occupations over the tensors done; evaluated at the unit vectors it is the matrix | proved |
| C73 | RHF/UHF/GHF make_rdm2 and energy_tot | renaming of the summed indices | proved for RHF and UHF, refuted for GHF |
| C74 | GaussianMPS.__init__ | the loop reads only the indices from position i on; induction on their number | proved |
| C75 | RHFTensorNetwork.fit_rdm1, make_rdm1 | invariant of the loop: the running matrix is D in the orbitals of the current legs; Parseval for the terminal orbitals (cut by cut completeness) | proved |
| C76 | GaussianMERA1D.__init__ | open legs before and after each tensor (trans), composed over the three loops; induction on the number of open legs | partial: refuted for periodic disentanglers that leave a small rest, proved otherwise |
| C77 | get_occupations, set_occ_half_filling, UHF set_occupations | one loop over the numbers of the tensors in the layers (a permutation); the layers depend on the legs only | proved |
| C78 | UHFTensorNetwork fit_rdm1, make_rdm1 | simulation: the loop on pairs is the pair of the loops | proved |
| C79 | my_logm in fit_rdm1 | u + u^T commutes with u, so u is made of 2 x 2 rotations in the eigenbasis; powers of the matrix of angles give the series of cosine and sine | partial: false for repeated angles (c79_refuted) |
| C80 | FCIDUMP.build, v | the loop assigns and counts: last factor and number of terms per index; the complete list has each index four times | partial: false with uhf (c80_uhf_refuted) and for repeated terms (c80_repeated_refuted) |
| C81 | LargeFermionTensor.from_flat, to_flat, to_sparse, _local_flip | running sums over sorted labels are disjoint intervals; mixed-radix decoding; distinct label tuples differ on a leg | proved |
| C82 | Constructor.vector_to_tensor, tensor_to_vector (flat) | filling zeros from left to right along the table; invariant of the cache | partial: false for long label arrays (c82_cache_refuted) |
| C83 | make_phase_dict, one block of the matrix of get_exponential | invariant of the dictionary over the combinations done; sorted letters = numbers of electrons | partial: false outside U11 for operators that do not conserve the electrons of each spin (c83_flip_refuted, c83_pair_refuted, c83_missing_refuted) |
| C84 | LargeFermionTensor: _add with a number, ufuncs of one argument, conj, norm | the array is the sum of the blocks put at their places; sums over slices leg by leg | proved for functions that are 0 at 0; false for adding a number (c84_norm_refuted) |

## What is not modelled

* C++ sources (`src/`), MPI, cupy/torch backends, pickling and disk format, timing and printing.
* fermion_large.py beyond the conversions of C81 (large_svd, large_qr, GPU kernels); the strides are exact integers.
* `_tensordot_fused` of fermion tensors (setting ENABLE_FUSED_IMPLS), flat fermion kernels beyond add/subtract,
  `flat_svd`/`flat_qr` (np.linalg.qr and np.linalg.svd enter as oracles).
* FCIDUMP: `float()` accepts plain decimals only and returns the exact decimal; all arrays of one dump have the same
  dtype; text is ASCII; process splitting uses exact integers.
* gaussian/core.py: the optimizer and gradients, set_occ_smearing, dm_idxs (fit_rdm1 is modelled with the rotation u it finds; that the stored my_logm(u) gives u back is C79), the two-dimensional constructors, tuple labels and fit_to_reference_2d;
  `torch.matrix_exp` is a given matrix per tensor.
* Total shape of fermion tensors (not read by the modelled functions).
* numpy.nditer raises on legs without labels in `tensor_product`/`_skeleton`; the theorems require non-empty legs.

## Findings

Statements that looked true of the code and are false of the model; each has a theorem with a concrete witness.

| theorem | finding |
|---------|---------|
| c01_sz_window_sharp_refuted | labels just outside the documented window are decoded to another label |
| c03_flip_edge_refuted | the flat negative of a U11 label with component -8192 decodes to another label than its negative |
| c09_truncate_never_enlarges_refuted, c09_truncate_respects_dimension_refuted | BondInfo.truncate can enlarge a sector and exceed the requested bond dimension |
| c10_without_32bit_bound_refuted | the uint32 product in the fusing info wraps for blocks of 2^32 states |
| c20_mixed_string_refuted | OpString.sort(fermion=True) negates strings that mix commuting and anticommuting operators |
| c22_transparent_refuted, c22_three_site_sweep_stale_refuted | CachedMPE: saving a name that is cached is a no-op, a later load returns the old environment; happens on an ordinary three-site sweep |
| c23_arbitrary_build_refuted | public build_envs at two windows without a write between leaves stale environments |
| c24_max_dw_refuted | truncate_svd with max_dw smaller than the smallest weight discards every singular value (`[:-0]`) |
| c24_fermion_max_dw_refuted | FermionTensor.truncate_svd accumulates the discarded weight from the largest value |
| c26_unrestricted_folded_refuted, c26_unrestricted_mu_refuted, c26_tgeneral_refuted, c26_imaginary_refuted, c26_wide_index_refuted | FCIDUMP files that cannot be written or read back |
| c27_one_electron_symmetry_refuted | h1e(i,j) and h1e(j,i) are kept by different processes |
| c28_many_sites_refuted | operator codes collide beyond 8192 sites |
| c31_exponential_refuted | the exponential of an operator lacks the identity on labels without a block |
| c32_sum_ends_refuted | a + b silently loses the part of b whose boundary label (e.g. target quantum number) does not occur in a |
| c32_overlap_empty_refuted | np.dot of two MPS returns 0 without the product of the constant terms if a site has no blocks |
| c32_apply_constant_refuted | (A + k) @ b returns the number 0 if A @ b has no blocks at some site; the term k b is lost (mps.py 518-523 returns before the constants are added) |
| c32_compose_constants_refuted | the same for (A + k) @ (B + l): the result is 0 instead of l A + k B + k l |
| c33_class_kept_refuted | canonicalize turns a FermionTensor next to a FermionTensor without blocks into a SparseTensor |
| c34_init_site_refuted | init_site leaves windows out of every forward sweep |
| c34_second_solve_refuted | thresholds derived in one solve call are reused by the next call with another tol |
| c35_scaled_refuted | with a diagonal the convergence test uses the scaled residual, so the true residual can exceed the threshold |
| c35_last_pass_refuted | convergence in the pass number max_iter raises the not-converged error |
| c36_stale_target_refuted | cast_assign leaves old data in blocks absent from the source |
| c37_one_site_refuted | QCSymbolicMPO for one site builds a row of 18 operators with a single column name (the m == 0 branch wins over m == n_sites - 1) |
| c40_empty_left_refuted | FlatFermionTensor: 0 - b returns b |
| c41_additive_refuted, c41_duplicate_blocks_refuted | number operators of one spin vanish on the doubly occupied state; duplicate block labels |
| c42_equal_patterns_refuted | contraction of legs with equal signs raises NotImplementedError |
| c44_missing_label_refuted | to_dense with infos lacking a label misplaces elements |
| c50_orbital_energy_refuted, c50_missing_isym_refuted | orbital-energy lines overwrite h1e[i-1, n-1]; missing ISYM gives irrep 8 |
| c52_labels_refuted, c52_charge_refuted | Z4: the doubly occupied state is labelled 0, creation tensors have blocks of different charge |
| c54_empty_refuted | the trace of a tensor without blocks raises |
| c59_max_dw_refuted | compressing with max_dw when no singular value is small enough to be discarded discards all of them: the result has no blocks |
| c61_one_site_refuted | build_mpo on one site with a constant term (an empty string) fails: reduce of an empty list in get_site_ops |
| c62_number_in_matrix_refuted | to_sparse skips an operator that is the number 0 in row and column vectors but reads `.even` of it in a matrix, which raises AttributeError |
| c64_unused_state_refuted | from_sparse for the first and last site uses the same list for mat and rop (lop), so setting unused entries of mat to 0 also removes their name from the bond: later states of the label are renumbered on this side only and the amplitudes of the chain change |
| c64_state_refuted | from_sparse for inner sites puts a block into the odd or even part by its physical charge: the blocks of a FermionTensor state with an odd physical label move from the even to the odd part |
| c64_right_label_refuted | from_sparse / to_sparse of the last site lose the label of the right end (always 0 afterwards) |
| c67_outside_refuted | MPE.rk4 applies the constant of the operator only inside the layout: the part of the state outside is carried along unchanged (not multiplied with the propagator of the constant), and the energy misses the constant times its weight |
| c68_random_refuted | decomp_two_site with NoiseTypes.Random: the random matrix added to the density matrix is not positive, the error returned can be smaller than the weight actually discarded |
| c69_comma_refuted | einsum ends an operand at ',' and at '->' alike: 'ij->jk,ik' and 'ij->jk->ik' are accepted as 'ij,jk->ik' instead of being rejected |
| c69_blank_refuted | einsum removes blanks inside operands but not inside the result: 'ij,jk->i k' raises AssertionError |
| c70_null_order_refuted | sparse_qr with all legs in left_idx ignores their order: the product is the tensor without the transposition (pattern and sign differ), and all legs are on the second factor, q has only the new leg |
| c72_cycle_refuted | get_layers on tensors that feed each other appends empty layers for ever (no error) |
| c73_ghf_refuted | GHFTensorNetwork inherits energy_tot with the exchange factor 0.25 of doubly occupied orbitals, while its make_rdm2 has no factor 1/2: energy_tot(h, g) differs from energy_tot(h, g, dm2=make_rdm2()) by a quarter of the exchange sum; one particle interacts with itself |
| c74_wide_refuted | GaussianMPS accepts n_core > n_tensor_sites and then skips sites: they are in no tensor and have no row in make_rdm1 |
| c72_reused_refuted | make_rdm1 overwrites the diagonal element of a core leg that another tensor uses: Tr dm is 3 where the occupations add up to 5 |
| c76_periodic_refuted | GaussianMERA1D(6) with default arguments: the periodic disentangler loop uses site 0 twice (cur_idx[:i + d - len(cur_idx)] starts at 0 although the tensor before has wrapped around already); get_layers then never ends. The same for every layer with a rest between 1 and n_tensor_sites // 2 - 1, e.g. GaussianMERA1D(12) in its third layer |
| c79_refuted | gaussian/core.py my_logm (472-484, 632-644): the eigenvectors of u + u^T of a repeated eigenvalue are any basis of the eigenspace, not one in pairs of planes of u; for u = [[0, 1], [-1, 0]] (2 x 2 blocks of size 2) u + u^T = 0 and my_logm(u) = 0, whose exponential is the identity. fit_rdm1 then stores a rotation different from the one it applied to the matrix. |
| c80_uhf_refuted | FCIDUMP.build with uhf=True writes terms with spin down first to g2e[-1], the down-down integrals, instead of the up-down integrals (fcidump.py 173-177, x is still -1): up-down is not doubled and down-down is overwritten |
| c80_repeated_refuted | FCIDUMP.build assigns one-body terms, so a term that occurs twice counts once; the ring of two sites of tests/kdmrg.py gets half of its hopping. (build also ignores mu, which the constructor and read subtract.) |
| c81_infos_refuted | LargeFermionTensor.from_flat (fermion_large.py 480-488) copies the list of infos but overwrites its entries by offsets; the same infos given again put two blocks at one place. _tensordot (689-697) gives one BondInfo object to the conversions of both tensors. (from_sparse reads spt.idxs, which sparse tensors do not have, and looks flat labels up in infos of unpacked labels.) |
| c82_cache_refuted | Constructor.tensor_to_vector (fermion.py 2210-2222): the cache key hash(str(T.q_labels)) is the same for arrays of more than 1000 elements that agree in the first and last three rows; the second tensor is written with the index table of the first. (The non-flat branch, 2223-2230, assigns arrays to single elements and concatenates numbers, which raises.) |
| c83_flip_refuted | get_exponential (fermion_ops.py 322-336, 466-473) with U1: blocks are multiplied by a phase array that is 0 between states with different numbers of up electrons, so a spin-flip operator, which U1 allows, is exponentiated as if it were absent. |
| c83_pair_refuted | The same with Z2 for an operator that creates or removes a pair of electrons. |
| c83_missing_refuted | The same with Z22: the block that creates a pair on each of two sites is not in phase_dict, so get_exponential raises KeyError. |
| c84_norm_refuted | LargeFermionTensor._add with a number (fermion_large.py 528-536) adds it to the whole dense array, also outside the blocks; norm() of the result is larger than that of the flat tensor with the same blocks. (_subtract, 554-561, calls the constructor without shape and use_cupy.) |

Seen while reading, not part of a theorem: the docstring of fermion._svd_preprocess exchanges the meaning of absorb=0 and absorb=None; with absorb given,
sparse_svd returns the leftover loop variable as s; a tensor without a singular value above the threshold makes sparse_svd raise (c71_ex); unfuse and trace with negative axes; FermionTensor.truncate_svd compares squared
values with the cutoff; SparseFermionTensor.__array_ufunc__ matmul and unary branches (lines 1401, 1422 use
`out.shape` of None and the builtin `input`); impl/flat.py flat_sparse_left_svd (line 221) returns the last block's r instead of rr
when indexed is False; DMRG.__repr__ with several roots formats a tuple as a float and raises; MPS.to_sparse (mps.py 657-664) ends with
`type(self)(tensors=.., const=.., opts=.., dq=..)`, which IdentityMPO.__init__(hamil, opts) and SiteMPO.__init__(hamil, op, k, opts)
(symbolic_mpo.py 29-76) do not accept, so Hamiltonian.build_identity_mpo and build_site_mpo (hamiltonian.py 111-123) raise TypeError.
SweepAlgorithm.decomp_two_site, SVD branch (algorithms/core.py 150-171): `wfn = self.add_wfn_noise(wfn[0], ..)` rebinds wfn to the tensor, so
`wfn[:] = [..]` assigns into a tensor, which has no `__setitem__`: the branch raises TypeError (the default is the density-matrix branch).

## Trusted base

* The Coq 8.16.1 kernel (including `vm_compute`).
* The axioms that `Print Assumptions` lists, all from the standard library (real numbers and functional extensionality),
  as follows. No axiom is declared in this development.
* The fidelity of the hand-written models to the Python text, with the simplifications stated above and in each file.

Closed under the global context (330 theorems): c01_sz_code_lossless, c01_sz_code_onto, c01_u1_code_lossless, c01_u11_code_lossless, c01_sz_window_sharp_refuted, c02_sz_group, c02_sz_order, c02_u1_group, c02_u11_group, c02_u_order, c03_u1_flat_shortcuts, c03_u11_flat_shortcuts, c03_flip_decodes, c03_flip_edge_refuted, c04_u1_compute, c04_u11_compute, c05_product_counts_pairs, c05_product_with_reference, c05_product_algebra, c06_pointwise, c06_negation_relabels, c07_fci_dimensions, c08_sectors_kept, c09_truncate_bound, c09_truncate_no_keep_bound, c09_truncate_never_enlarges_refuted, c09_truncate_respects_dimension_refuted, c10_combinations_stored_once, c10_ranges_tile, c10_state_bijection, c10_dimensions_multiply, c10_without_32bit_bound_refuted, c11_layout, c11_order_and_repetition_insensitive, c11_inconsistent_rejected, c12_lower_symmetry, c13_addition_elementwise, c13_subtraction_elementwise, c13_elementwise_function, c14_contraction_is_dense_contraction, c14_result_structure, c14_charge_conserved, c14_rejects_exactly_unequal_axes, c14_pdot, c14_last_legs_with_first, c15_transpose_moves_elements, c15_composition, c15_inverse, c15_default_reverses, c16_fuse_places_elements, c16_unfuse_restores, c16_fuse_preserves_squares, c16_default_layout_round_trip, c16_product_layout_round_trip, c17_round_trip, c17_layout, c17_unpack_elements, c17_addition, c17_subtraction, c17_transposition, c17_contraction, c18_sign_counts_odd_inversions, c18_composition, c18_inverse, c18_neighbours, c18_bosonic, c19_left_tensor, c19_right_tensor, c19_pair_order_irrelevant, c20_fermionic_sort_same_operator, c20_commuting_sort_same_operator, c20_sorted_and_stable, c20_sum_sort_same_operator, c20_mixed_string_refuted, c21_coefficients, c21_distinct_and_nonzero, c21_same_operator, c21_change_is_dropped_terms, c22_loads_see_uncached_saves, c22_transparent_without_resaves, c22_transparent_capacity_zero, c22_transparent_refuted, c22_three_site_sweep_stale_refuted, c23_environments_never_stale, c23_write_replaces_window, c23_arbitrary_build_refuted, c24_form, c24_largest_kept, c24_bond_limit, c24_cutoff, c24_cutoff_squared, c24_error, c24_minimal, c24_discarded_weight, c24_tensors, c24_slices, c24_fermion, c24_max_dw_refuted, c24_fermion_max_dw_refuted, c25_kept_largest, c25_threshold, c25_sum, c25_defined, c25_kept_values, c26_restricted, c26_unrestricted, c26_exact, c26_unrestricted_folded_never_written, c26_unrestricted_folded_refuted, c26_unrestricted_mu_refuted, c26_tgeneral_refuted, c26_imaginary_refuted, c26_wide_index_unreadable, c26_wide_index_refuted, c27_two_electron, c27_one_electron, c27_nothing_lost, c27_frame, c27_keeper, c27_one_electron_symmetry_refuted, c28_roundtrip, c28_injective, c28_terms, c28_many_sites_refuted, c29_anticommutation, c29_jordan_wigner, c30_basis, c30_exact, c31_components, c31_exponential_labels, c31_exponential_refuted, c32_bond_states, c32_sum, c32_sum_options, c32_scale, c32_neg, c32_difference, c32_add_number, c32_conjugate, c32_overlap, c32_apply, c32_apply_constant, c32_compose, c32_compose_constants, c32_sum_ends_refuted, c32_overlap_empty_refuted, c32_apply_constant_refuted, c32_compose_constants_refuted, c33_canonicalize, c33_bond_dims, c59_lossless, c33_class_kept_refuted, c34_dmrg, c34_linear, c34_green, c34_time, c34_defined, c34_init_site_refuted, c34_second_solve_refuted, c35_residual, c35_preconditioned, c35_terminates, c35_scaled_refuted, c35_last_pass_refuted, c36_cast_assign_elements, c36_split_exact, c36_stale_target_refuted, c37_layout, c37_labels, c37_one_site_refuted, c38_skeleton_complete, c38_default_pattern, c38_zeros_ones, c39_kron_add_direct_sum, c40_sparse_difference, c40_flat_difference, c40_empty_left_refuted, c41_total, c41_spin_projection, c41_repulsion, c41_spin_numbers_partial, c41_additive_partial, c41_additive_refuted, c41_duplicate_blocks_refuted, c42_dq, c42_refused, c42_pattern, c42_charge, c42_equal_patterns_refuted, c43_mixed_canonical_form, c44_to_dense, c44_to_dense_own_infos, c44_missing_label_refuted, c45_symmetry_fuse_moves_elements, c46_infos, c47_power_sum, c47_values, c48_symmetry, c49_site_operators, c50_comments, c50_orbital_energy, c50_orbital_energy_refuted, c50_missing_isym_refuted, c51_phase, c51_order_independent, c51_bosons, c51_diagonal, c52_creation, c52_hopping, c52_hubbard, c52_labels, c52_charge, c52_labels_refuted, c52_charge_refuted, c53_contraction_elements, c53_transpose_elements, c54_trace_defined, c54_trace_elements, c54_trace_structure, c54_empty_refuted, c55_dagger, c55_dagger_of_network, c55_dagger_of_contraction, c56_network_elements, c56_order_independent, c56_steps_succeed, c58_eigenpairs, c58_variational, c58_converges, c59_compress, c59_finite, c59_lossless, c59_defined, c59_max_dw_refuted, c60_hamiltonian, c61_value, c61_exists, c61_refused, c61_labels, c61_codes, c61_complex_qc, c61_one_site_refuted, c62_to_sparse, c62_graded, c62_number_in_matrix_refuted, c63_build_apply, c63_refused, c64_round_trip, c64_unused_state_refuted, c64_state_refuted, c64_right_label_refuted, c65_qc_apply, c66_solution, c66_accuracy, c66_defined, c67_step, c67_energy, c67_advance, c67_target, c67_outside_refuted, c68_loss, c68_noise, c68_best, c68_isometry, c68_bond_dim, c68_defined, c68_random_refuted, c69_value, c69_accepted, c69_comma_refuted, c69_blank_refuted, c70_qr, c70_qr_null, c70_null_order_refuted, c71_svd, c71_fails, c72_indices, c72_layers, c72_passes, c72_rdm1, c72_cycle_refuted, c72_reused_refuted, c73_rhf, c73_uhf, c73_spins, c73_trace, c73_ghf, c73_ghf_refuted, c74_mps, c74_count, c74_wide_refuted, c75_fit, c75_state, c75_exact, c76_mera, c76_narrow, c76_periodic_refuted, c77_get, c77_half, c77_uhf_set, c77_uhf_half, c78_rdm1, c78_fit, c78_fit_rdm1, c78_total, c80_rhf, c80_all, c80_uhf_opposite, c80_codes, c80_raises, c80_uhf_refuted, c80_repeated_refuted, c81_roundtrip, c81_position, c81_infos_refuted, c82_roundtrip, c82_tensor, c82_cache_kept, c82_cache_refuted, c83_phases, c83_undone, c83_u11, c83_flip_refuted, c83_pair_refuted, c83_missing_refuted, c84_blocks, c84_add, c84_padding, c84_norm, c84_norm_refuted.

Axioms `functional_extensionality_dep`, `sig_forall_dec` (2 theorems): c30_identity, c30_onsite.

Axioms `functional_extensionality_dep`, `sig_forall_dec`, `sig_not_dec` (4 theorems): c30_elements, c30_algebra, c57_hamiltonian, c57_total_spin.

Axioms `classic`, `functional_extensionality_dep`, `sig_forall_dec`, `sig_not_dec` (2 theorems): c79_logm, c79_refuted.
