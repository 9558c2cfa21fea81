{"id": "C01", "title": "Flat integer code of a quantum label is lossless", "statement": "For every label whose particle number and spin lie in [-8192, 8191] and whose point-group index lies in [0, 7], converting the label to its integer code and back gives the same label; distinct labels have distinct codes; the numeric order of the codes is the order of the labels; and the fermion test applied to the code agrees with the fermion test applied to the label.", "quantifier": "every SZ, U1, U11 label in the representable window, and every pair of such labels (Z2, Z4, Z22: every label)", "why_tests_cant": "The window holds about two billion labels (and pairs are quadratic in that); the unit test samples |n| < 10.", "anchors": ["pyblock3/algebra/symmetry.py:SZ.to_flat", "pyblock3/algebra/symmetry.py:SZ.from_flat", "pyblock3/algebra/symmetry.py:SZ.is_flat_fermion", "pyblock3/algebra/fermion_symmetry.py:U1.qpn_to_flat", "pyblock3/algebra/fermion_symmetry.py:U11.qpn_to_flat", "pyblock3/algebra/fermion_symmetry.py:Z2.qpn_to_flat", "pyblock3/algebra/fermion_symmetry.py:Z22.qpn_to_flat"]}
{"id": "C02", "title": "Quantum labels form an abelian group with parity", "statement": "For each symmetry class (SZ, U1, Z2, Z4, U11, Z22), addition is associative and commutative, the default label is neutral, negation is the inverse, a - b equals a + (-b), results of Z2/Z4/Z22 arithmetic are always reduced, < is a strict total order, and the fermion parity of a sum is the exclusive-or of the parities.", "quantifier": "every triple of labels of each class, over all integers", "why_tests_cant": "The labels range over unbounded Python integers; sampling cannot establish an algebraic law used by every block-sparse routine.", "anchors": ["pyblock3/algebra/symmetry.py:SZ", "pyblock3/algebra/fermion_symmetry.py:U1", "pyblock3/algebra/fermion_symmetry.py:Z2", "pyblock3/algebra/fermion_symmetry.py:Z4", "pyblock3/algebra/fermion_symmetry.py:U11", "pyblock3/algebra/fermion_symmetry.py:Z22"]}
{"id": "C03", "title": "Flat shortcuts agree with the label operations", "statement": "On integer codes, the fast negation returns the code of the negated label and the fast parity returns the parity of the label, for every label whose negation is representable.", "quantifier": "every label of U1, U11, Z2, Z4, Z22 inside the window", "why_tests_cant": "Depends on magic constants (2147483648, 2147614720) being right for all codes, not for a few.", "anchors": ["pyblock3/algebra/fermion_symmetry.py:flip_flat", "pyblock3/algebra/fermion_symmetry.py:flat_to_parity"]}
{"id": "C04", "title": "Symmetry calculus on label objects and on integer codes agree", "statement": "Combining any number of labels with any +/- pattern, optional offset label with its own sign and optional overall negation gives the same label whether the labels are given as objects or as rows of integer codes, as long as the result is representable.", "quantifier": "every number of legs, every pattern, every offset, every neg flag, every list of labels", "why_tests_cant": "Number of legs and patterns is unbounded; the unit test checks one random 10-leg pattern per run.", "anchors": ["pyblock3/algebra/fermion_symmetry.py:U1._compute", "pyblock3/algebra/fermion_symmetry.py:U11._compute"]}
{"id": "C05", "title": "Product of bond spaces counts states exactly", "statement": "The multiplicity of a label in the product of two bond spaces is the number of pairs of states whose labels add up to it (restricted to the reference labels when a reference is given); hence the total dimension of an unrestricted product is the product of the dimensions, and the product is commutative and associative as a multiset and maps negation to negation.", "quantifier": "every pair and triple of bond spaces with any number of labels and multiplicities", "why_tests_cant": "The number of sectors and multiplicities is unbounded and collisions between sums of labels are combinatorial.", "anchors": ["pyblock3/algebra/symmetry.py:BondInfo.tensor_product", "pyblock3/algebra/symmetry.py:BondInfo.n_bonds", "pyblock3/algebra/symmetry.py:BondInfo.__mul__"]}
{"id": "C06", "title": "Bond space union, intersection, sum, filter and negation are pointwise", "statement": "For positive multiplicities, union/intersection/sum/filter of bond spaces have, for each label, the max/min/sum/min of the two multiplicities, no label with zero multiplicity appears, and negation relabels states without merging or losing any.", "quantifier": "every pair of bond spaces, every label", "why_tests_cant": "Infinite family of dictionaries; the zero-dropping rule of Counter makes corner cases easy to miss.", "anchors": ["pyblock3/algebra/symmetry.py:BondInfo.__and__", "pyblock3/algebra/symmetry.py:BondInfo.__or__", "pyblock3/algebra/symmetry.py:BondInfo.__add__", "pyblock3/algebra/symmetry.py:BondInfo.filter", "pyblock3/algebra/symmetry.py:BondInfo.__neg__"]}
{"id": "C07", "title": "Full-CI bond dimensions contain exactly the reachable sectors", "statement": "After building the full-CI bond dimensions, a label occurs on bond d of the left (right) dimensions iff some choice of states on the sites left of d leads from the vacuum to it and some choice of states on the sites right of d leads from it to the target; its multiplicity is the minimum of the two numbers of such choices.", "quantifier": "every chain length, every list of site bases, every vacuum and target", "why_tests_cant": "Path counting over arbitrary chains is a universally quantified combinatorial statement.", "anchors": ["pyblock3/algebra/mps.py:MPSInfo.set_bond_dimension_fci", "pyblock3/algebra/symmetry.py:BondInfo.filter"]}
{"id": "C08", "title": "Reducing the bond dimension keeps at least one state per sector", "statement": "After requesting any bond dimension >= 0, every label present in the full-CI bond dimensions is still present with multiplicity >= 1 (as the docstring promises), for both directions.", "quantifier": "every chain, every bond dimension, every starting full-CI bond dimensions", "why_tests_cant": "The guarantee is about all sectors of all chains and about the interplay of rounding and the cap by the neighbouring bond.", "anchors": ["pyblock3/algebra/mps.py:MPSInfo.set_bond_dimension", "pyblock3/algebra/symmetry.py:BondInfo.truncate"]}
{"id": "C09", "title": "Bond dimension truncation respects the requested bound", "statement": "Truncating a bond space to a bond dimension m never enlarges a sector, and the resulting total exceeds m by at most 1.1 times the number of sectors.", "quantifier": "every bond space, every requested bond dimension, with and without reference", "why_tests_cant": "Rounding up a scaled multiplicity behaves differently for each ratio; only a proof covers all ratios.", "anchors": ["pyblock3/algebra/symmetry.py:BondInfo.truncate", "pyblock3/algebra/symmetry.py:BondInfo.truncate_no_keep"]}
{"id": "C10", "title": "Fusing legs is a bijection on states", "statement": "In the fused leg built from several legs with a +/- pattern, each combination of unfused labels is stored exactly once, under the fused label equal to its signed sum; for each fused label the stored index ranges are pairwise disjoint and exactly cover 0..multiplicity-1; hence fused states and tuples of unfused states are in one-to-one correspondence and dimensions multiply (as long as block sizes fit in 32 bits).", "quantifier": "every number of legs, every bond space on each leg, every pattern, optional reference", "why_tests_cant": "The layout is a running offset over an unbounded cartesian product; an off-by-one or collision shows up only for particular sector structures.", "anchors": ["pyblock3/algebra/symmetry.py:BondFusingInfo.tensor_product"]}
{"id": "C11", "title": "Direct-sum fusing layout is duplicate-insensitive and order-insensitive", "statement": "Building the fused leg from a list of (labels, shape) items gives each distinct label tuple exactly one index range, ranges of the same fused label are disjoint and cover it without gaps, and the layout depends neither on repetitions nor on the order of the list.", "quantifier": "every list of items with consistent shapes, every permutation, every repetition", "why_tests_cant": "Quantifies over all permutations and repetitions of an arbitrary list.", "anchors": ["pyblock3/algebra/symmetry.py:BondFusingInfo.kron_sum"]}
{"id": "C12", "title": "Lowering the symmetry of a leg loses no states", "statement": "Mapping labels to a lower symmetry places every original label in exactly one index range of its image, with disjoint gap-free ranges, and preserves the total dimension.", "quantifier": "every bond space and every label map", "why_tests_cant": "Arbitrary label map and arbitrary bond space.", "anchors": ["pyblock3/algebra/symmetry.py:BondFusingInfo.get_symmetry_fusing_info"]}
{"id": "C13", "title": "Block-sparse addition and subtraction are elementwise", "statement": "The sum (difference) of two block-sparse tensors has, at every label tuple and index, the sum (difference) of the elements of the operands, where missing blocks count as zeros.", "quantifier": "every pair of block-sparse tensors of equal rank without repeated blocks, and every position", "why_tests_cant": "Blocks may be present in either, both or neither operand in any order.", "anchors": ["pyblock3/algebra/core.py:SparseTensor._add", "pyblock3/algebra/core.py:SparseTensor._subtract", "pyblock3/algebra/impl/flat.py:flat_sparse_add", "pyblock3/algebra/flat.py:FlatSparseTensor._subtract"]}
{"id": "C14", "title": "Block-sparse contraction equals dense contraction", "statement": "Contracting two block-sparse tensors over any list of axes gives at every output position the sum over all contracted labels and indices of products of elements, i.e. the contraction of the corresponding dense tensors; charge conservation of the operands carries over to the result.", "quantifier": "every rank, every axes lists, every block structure, over any commutative ring of elements", "why_tests_cant": "All ranks, axes and sparsity patterns.", "anchors": ["pyblock3/algebra/core.py:SparseTensor._tensordot", "pyblock3/algebra/impl/flat.py:flat_sparse_tensordot"]}
{"id": "C15", "title": "Transposition permutes elements and composes", "statement": "Transposing moves element (i_0,...,i_k) to the permuted position for every permutation; transposing by p then q equals transposing by the composite; transposing by the inverse restores the tensor.", "quantifier": "every tensor, every pair of permutations", "why_tests_cant": "All ranks and permutations.", "anchors": ["pyblock3/algebra/core.py:SparseTensor.transpose", "pyblock3/algebra/impl/flat.py:flat_sparse_transpose"]}
{"id": "C16", "title": "Fusing then unfusing legs restores the tensor", "statement": "Fusing adjacent legs of a block-sparse tensor with a fusing layout that covers its blocks, then unfusing with the same layout, gives back a tensor with the same element at every position; fusing preserves the sum of squares.", "quantifier": "every tensor, every covered layout", "why_tests_cant": "Depends on every block being placed at a disjoint range.", "anchors": ["pyblock3/algebra/core.py:SparseTensor.fuse", "pyblock3/algebra/core.py:SparseTensor.unfuse"]}
{"id": "C17", "title": "Flat and block storage are interchangeable", "statement": "Packing a list of blocks into flat storage (labels, shapes, data, start offsets) and unpacking it restores the same blocks in the same order; offsets are the cumulative sizes; flat addition, transposition and contraction agree with the block versions after unpacking.", "quantifier": "every list of blocks", "why_tests_cant": "Any number, rank and size of blocks.", "anchors": ["pyblock3/algebra/flat.py:FlatSparseTensor.from_sparse", "pyblock3/algebra/flat.py:FlatSparseTensor.to_sparse", "pyblock3/algebra/impl/flat.py:flat_sparse_add", "pyblock3/algebra/impl/flat.py:flat_sparse_transpose"]}
{"id": "C18", "title": "Fermionic transposition sign is the permutation parity of odd legs", "statement": "The sign a fermionic tensor block gets on transposition equals (-1) to the number of pairs of odd legs whose relative order is exchanged; so transposing by p then q gives the same signs as transposing by the composite, and transposing back restores the block.", "quantifier": "every number of legs, every parity assignment, every permutation", "why_tests_cant": "Signs depend on all subsets of odd legs and all permutations.", "anchors": ["pyblock3/algebra/fermion.py:compute_phase", "pyblock3/algebra/fermion.py:SparseFermionTensor._transpose", "pyblock3/algebra/fermion.py:FlatFermionTensor._transpose"]}
{"id": "C19", "title": "Fermionic contraction sign equals bring-together-and-contract", "statement": "The sign applied to a pair of blocks in a fermionic contraction over arbitrary axes equals the sign obtained by first transposing the contracted legs of the left tensor to the end (in reversed order) and of the right tensor to the front and then contracting adjacent legs.", "quantifier": "every rank, axes lists, parity assignment", "why_tests_cant": "Exponentially many parity assignments for each rank and axis choice.", "anchors": ["pyblock3/algebra/fermion.py:SparseFermionTensor._tensordot_basic", "pyblock3/algebra/fermion.py:compute_phase"]}
{"id": "C20", "title": "Ordering an operator string does not change the operator", "statement": "Sorting a string of elementary operators by site gives a string representing the same operator, in every algebra in which fermionic operators on different sites anticommute and other operators on different sites commute; operators on the same site keep their relative order.", "quantifier": "every operator string, every such algebra", "why_tests_cant": "All string lengths and all permutations.", "anchors": ["pyblock3/symbolic/expr.py:OpString.sort"]}
{"id": "C21", "title": "Simplifying an operator sum does not change its value", "statement": "Merging equal strings in a sum of operator strings and dropping the negligible ones (absolute factor at most 1e-12) leaves the represented operator unchanged except for exactly the dropped terms; no two remaining strings are equal, and none has a negligible factor.", "quantifier": "every operator sum", "why_tests_cant": "All multisets of strings.", "anchors": ["pyblock3/symbolic/expr.py:OpSum.simplify"]}
{"id": "C22", "title": "The disk cache of environments is transparent", "statement": "A load of an environment through the disk-backed cache returns the value most recently saved under that name, for every interleaving of saves and loads and every cache size.", "quantifier": "every history of save/load operations, every capacity", "why_tests_cant": "Depends on the whole history (evictions, re-saves).", "anchors": ["pyblock3/algebra/mpe.py:CachedMPE._load_data", "pyblock3/algebra/mpe.py:CachedMPE._save_data"]}
{"id": "C23", "title": "Environments never go stale", "statement": "At every moment of any history of effective-problem reads and site-tensor writes through the matrix-product-expectation object, every stored left/right environment used for the next effective problem equals the one recomputed from scratch from the current tensors.", "quantifier": "every history of reads and writes at arbitrary windows, every chain length", "why_tests_cant": "Stale data arises only for particular sequences of windows.", "anchors": ["pyblock3/algebra/mpe.py:MPE.build_envs", "pyblock3/algebra/mpe.py:MPE._embedded", "pyblock3/algebra/mpe.py:MPE.__getitem__", "pyblock3/algebra/mpe.py:MPE.__setitem__"]}
{"id": "C24", "title": "Truncated SVD keeps the largest singular values within the bond limit", "statement": "Truncating a block-sparse SVD keeps at most the requested number of singular values, no discarded value exceeds a kept one, values below the cutoff are discarded, and the reported error is the norm of the discarded part.", "quantifier": "every collection of per-sector singular value lists, every max_bond_dim, cutoff and discarded-weight limit", "why_tests_cant": "Selection crosses sectors; boundary cases (nothing to discard, ties) need all inputs.", "anchors": ["pyblock3/algebra/core.py:SparseTensor.truncate_svd", "pyblock3/algebra/core.py:FermionTensor.truncate_svd", "pyblock3/algebra/impl/flat.py:flat_sparse_truncate_svd"]}
{"id": "C25", "title": "Fermion-tensor SVD truncation respects its limits", "statement": "In each of the six truncation modes, the number of kept singular values is at most the bond limit (when positive), the kept values of each sector are its largest ones, no discarded value exceeds a kept one, and values not exceeding the cutoff (absolute or relative) are discarded; in the sum modes the discarded weight does not exceed the target unless the bond limit forces it.", "quantifier": "every list of sorted per-sector singular values, every mode, cutoff, bond limit", "why_tests_cant": "Cross-sector selection with ties and empty sectors over all inputs.", "anchors": ["pyblock3/algebra/fermion.py:_trim_singular_vals"]}
{"id": "C26", "title": "FCIDUMP files round-trip", "statement": "Writing an integral set and reading the file back yields the same number of sites, electrons, spin, symmetry and the same one- and two-electron integrals under every index, for restricted and unrestricted integrals and every storage fold.", "quantifier": "every integral set of every size", "why_tests_cant": "All sizes and all index quadruples.", "anchors": ["pyblock3/fcidump.py:FCIDUMP.read", "pyblock3/fcidump.py:FCIDUMP.write"]}
{"id": "C27", "title": "Splitting integrals among processes loses nothing", "statement": "The integrals kept by the processes 0..p-1 after parallelisation add up to the full integrals; each independent integral is kept by exactly one process; symmetric images of an integral are kept by the same process.", "quantifier": "every number of orbitals and processes, every index tuple", "why_tests_cant": "All process counts and index tuples.", "anchors": ["pyblock3/fcidump.py:_parallelize_h1e", "pyblock3/fcidump.py:_parallelize_g2e", "pyblock3/fcidump.py:FCIDUMP.parallelize"]}
{"id": "C28", "title": "Integer codes of elementary operators decode to the same operator", "statement": "The integer generated for a creation/annihilation operator on a site with a spin decodes to that operator, site and spin for every chain of up to 8192 sites; different operators have different integers.", "quantifier": "every operator kind, site below 8192, spin", "why_tests_cant": "Range of sites up to the overflow boundary.", "anchors": ["pyblock3/hamiltonian.py:Hamiltonian.generate_qc_terms", "pyblock3/hamiltonian.py:Hamiltonian.build_mpo"]}
{"id": "C29", "title": "Site creation/annihilation matrices satisfy the canonical anticommutation relations", "statement": "The matrices of the creation and annihilation operators on a site, with the fermionic sign string between sites, satisfy {c_i, c_j^+} = delta_ij, {c_i, c_j} = 0 for all sites and spins of a chain of any length.", "quantifier": "every chain length, every pair of (site, spin)", "why_tests_cant": "Needs an argument for all chain lengths.", "anchors": ["pyblock3/hamiltonian.py:Hamiltonian.get_site_ops", "pyblock3/algebra/fermion_ops.py:creation"]}
{"id": "C30", "title": "Heisenberg spin operators satisfy the angular momentum algebra for every spin", "statement": "The squared ladder coefficients computed for spin S are exact (no rounding by the integer division) and the ladder and Sz operators satisfy [S+,S-] = 2 Sz, [Sz,S+-] = +-S+- and S^2 = S(S+1) for each spin.", "quantifier": "every twice-spin value and every projection", "why_tests_cant": "All spins.", "anchors": ["pyblock3/heisenberg.py:Heisenberg.get_site_ops"]}
{"id": "C31", "title": "Merging neighbourhood groups of blocks gives connected components", "statement": "When overlapping groups of block labels are merged, two labels end in the same merged group iff they are connected by a chain of overlapping input groups; every label appears in exactly one merged group.", "quantifier": "every list of groups", "why_tests_cant": "All graphs.", "anchors": ["pyblock3/algebra/fermion_ops.py:_fuse_data_map"]}
{"id": "C32", "title": "Matrix-product addition, scaling and products act as linear algebra on states", "statement": "The state represented by a sum of matrix product states (including constant terms) is the sum of the states; scaling scales; overlap and operator application agree with those of the represented vectors and matrices.", "quantifier": "every chain length, bond dimensions, tensors, over any commutative ring", "why_tests_cant": "All chains and tensors.", "anchors": ["pyblock3/algebra/mps.py:MPS._add", "pyblock3/algebra/mps.py:MPS._dot", "pyblock3/algebra/mps.py:MPS._matmul"]}
{"id": "C33", "title": "Canonicalisation and lossless compression preserve the state", "statement": "Moving the canonical centre anywhere leaves the represented state unchanged, makes all tensors left of the centre left-isometric and right of it right-isometric.", "quantifier": "every chain, every centre, every exact orthogonal factorisation", "why_tests_cant": "All chains and all results of the factorisation.", "anchors": ["pyblock3/algebra/mps.py:MPS.canonicalize"]}
{"id": "C34", "title": "Sweeps visit every window and follow the schedule", "statement": "Every sweep optimises each window of neighbouring sites exactly once in order of its direction; consecutive sweeps alternate direction; sweep k uses the k-th entry of each schedule or the last one when the schedule is shorter.", "quantifier": "every chain length, window size, number of sweeps, schedules", "why_tests_cant": "All lengths of schedules and chains.", "anchors": ["pyblock3/algorithms/dmrg.py:DMRG.solve"]}
{"id": "C35", "title": "Conjugate gradient returns a consistent residual", "statement": "At every iteration of the linear solver the residual vector it holds equals right-hand side minus operator times current solution, so on normal termination the true squared residual is below the threshold.", "quantifier": "every linear operator, right-hand side, initial guess, number of iterations (exact arithmetic)", "why_tests_cant": "All operators and iteration counts.", "anchors": ["pyblock3/algebra/linalg.py:conjugate_gradient"]}
{"id": "C36", "title": "Splitting a tensor into the part inside and outside a block structure is exact", "statement": "Copying a tensor into a given block structure and taking the remainder decomposes the tensor exactly: at every position the two parts add up to the original, and they have no common block.", "quantifier": "every tensor, every block structure", "why_tests_cant": "All block structures.", "anchors": ["pyblock3/algebra/flat.py:FlatSparseTensor.cast_assign", "pyblock3/algebra/flat.py:FlatSparseTensor.cast_assign_removed"]}
{"id": "C37", "title": "Quantum chemistry operator tables have consistent layout", "statement": "For every number of sites and every site the table of local operators fills exactly the declared number of rows and columns, never writes outside it, and its row labels are the labels that the column labels of the previous table pair with.", "quantifier": "every number of sites, every site, every spin combination", "why_tests_cant": "Pointer arithmetic in the number of sites and position; checked only by run-time asserts.", "anchors": ["pyblock3/symbolic/symbolic_mpo.py:QCSymbolicMPO.__init__"]}
{"id": "C38", "title": "Allocated tensors contain exactly the symmetry-allowed blocks", "statement": "Allocating a tensor from bond spaces creates one block for each combination of labels whose signed sum is the target charge, no other block and no duplicate, with the block shape given by the multiplicities.", "quantifier": "every list of bond spaces, pattern and target charge", "why_tests_cant": "Cartesian product of arbitrary bond spaces.", "anchors": ["pyblock3/algebra/core.py:SparseTensor._skeleton", "pyblock3/algebra/impl/flat.py:flat_sparse_skeleton", "pyblock3/algebra/fermion.py:SparseFermionTensor._skeleton"]}
{"id": "C39", "title": "Block-diagonal sum of tensors stacks the legs", "statement": "The direct sum of two block-sparse tensors along chosen bonds has the elements of the first at the leading indices, those of the second shifted by the dimensions of the first, and zeros elsewhere.", "quantifier": "every pair of tensors and bond spaces", "why_tests_cant": "All sector structures.", "anchors": ["pyblock3/algebra/core.py:SparseTensor._kron_add"]}
{"id": "C40", "title": "Fermion tensor subtraction is elementwise", "statement": "The difference a - b of two fermion tensors has at every position the difference of the elements, also when one operand has no blocks.", "quantifier": "every pair of tensors", "why_tests_cant": "Empty operands are a corner case of an unbounded family.", "anchors": ["pyblock3/algebra/fermion.py:FlatFermionTensor._subtract", "pyblock3/algebra/fermion.py:SparseFermionTensor._subtract", "pyblock3/algebra/fermion.py:FlatFermionTensor._add", "pyblock3/algebra/fermion.py:SparseFermionTensor._add"]}
{"id": "C41", "title": "Particle-number operators are additive in spin", "statement": "The total particle-number operator equals the sum of the alpha and beta particle-number operators on every site state.", "quantifier": "every basis state and symmetry class", "why_tests_cant": "Finite, but the claim is used for every state of every chain built from these operators.", "anchors": ["pyblock3/algebra/fermion_ops.py:ParticleNumber", "pyblock3/algebra/fermion_ops.py:ParticleNumberAlpha", "pyblock3/algebra/fermion_ops.py:ParticleNumberBeta"]}
{"id": "C42", "title": "Contraction patterns cancel", "statement": "The +/- pattern and charge of a contracted fermion tensor are those for which the result satisfies charge conservation, for every choice of axes whose patterns are opposite or equal.", "quantifier": "every pair of patterns, axes", "why_tests_cant": "All patterns and axes.", "anchors": ["pyblock3/algebra/fermion.py:_contract_patterns", "pyblock3/algebra/fermion.py:_flip_pattern"]}
{"id": "C43", "title": "Effective problems are in mixed canonical form", "statement": "After any history of window reads, window writes and build-read-write visits (with canonicalisation enabled), the effective problem for any window has every site to its left in left-canonical form and every site to its right in right-canonical form, for both bra and ket.", "quantifier": "every history, every window, every chain length", "why_tests_cant": "Depends on the whole history of windows.", "anchors": ["pyblock3/algebra/mpe.py:MPE.build_envs", "pyblock3/algebra/mpe.py:MPE._left_contract_rotate", "pyblock3/algebra/mpe.py:MPE._right_contract_rotate", "pyblock3/algebra/mpe.py:MPE._embedded"]}
{"id": "C44", "title": "to_dense places every block element at its own dense position", "statement": "For a block-sparse tensor whose blocks fit the given bond infos, to_dense(infos) returns an array whose axis lengths are the total bond dimensions; the element at position x of the block with labels q is found at index (sum of dimensions of smaller labels + x) on every axis, this index map is a bijection between block positions and dense positions, and positions of absent blocks hold zero. A label missing from infos is not covered: it is silently placed at the first label.", "quantifier": "all tensors, label groups, bond infos with positive dimensions", "why_tests_cant": "Position arithmetic must be right for any number of legs, labels and dimensions; tests only see a few shapes and never a label missing from infos", "anchors": ["pyblock3/algebra/core.py:407-427", "pyblock3/algebra/core.py:1379-1402"]}
{"id": "C45", "title": "Lowering the symmetry keeps every tensor element", "statement": "symmetry_fuse with the layouts produced by BondFusingInfo.from symmetry fusing of every leg moves each element of each block to one position of the block with the mapped labels, different elements go to different positions, and every other element of the result is zero.", "quantifier": "all tensors, label maps, bond infos with positive dimensions", "why_tests_cant": "Overlap of two source blocks in a target block would silently add elements; it depends on offsets for arbitrary label maps", "anchors": ["pyblock3/algebra/core.py:810-833", "pyblock3/algebra/symmetry.py:258-275"]}
{"id": "C46", "title": "Bond infos of a tensor list exactly the labels of its blocks", "statement": "infos of a non-empty tensor whose legs have consistent dimensions gives one BondInfo per leg; it contains a label with a dimension exactly when some block has that label and dimension on that leg, each label once.", "quantifier": "all tensors with consistent leg dimensions", "why_tests_cant": "Depends on arbitrary block lists and on first/last occurrence order of labels", "anchors": ["pyblock3/algebra/core.py:531-541"]}
{"id": "C47", "title": "Renormalising trimmed singular values preserves the chosen power sum", "statement": "When singular values were trimmed and renorm = r > 0, every kept singular value is multiplied by one common factor such that the sum of the r-th powers of the returned values equals the sum of the r-th powers of all values before trimming; when nothing was trimmed or renorm is 0 the kept values are returned unchanged.", "quantifier": "for all lists of sectors with singular values, all numbers of kept values and all exponents r", "why_tests_cant": "Tests check one tensor with the default renorm; the statement is about all exponents, sector structures and trim counts.", "anchors": ["pyblock3/algebra/fermion.py:305-356"]}
{"id": "C48", "title": "Integrals read from a file are symmetric", "statement": "Whatever lines a file contains and in whatever order, the two-electron integrals read from it satisfy v(s,s';ijkl) = v(s,s';jikl) = v(s,s';ijlk) = v(s',s;klij) for all spins, unless the file declares IGENERAL; the one-electron integrals satisfy t(s;ij) = t(s;ji), unless an unrestricted file declares ITGENERAL.", "quantifier": "every file text that is accepted, every spin and orbital index", "why_tests_cant": "All file contents, including repeated, unordered and contradictory lines.", "anchors": ["pyblock3/fcidump.py:FCIDUMP.read", "pyblock3/fcidump.py:FCIDUMP.v", "pyblock3/fcidump.py:FCIDUMP.t"]}
{"id": "C49", "title": "Named site operators are their second-quantised expressions", "statement": "For every operator name the Hamiltonian can ask for at a site (I, H, C, D, A, AD, B, R, RD, P, PD, Q), with any integrals and orbital symmetry, get_site_ops returns the tensor whose elements between the four site states are those of the second-quantised expression the name stands for, with the right odd/even part, and it returns the number 0 only if the orbital symmetries differ or all coefficients are below the cutoff.", "quantifier": "every operator name with spins 0/1, every site, orbital symmetry, one- and two-electron integral function, cutoff", "why_tests_cant": "Signs and factors of twelve operator families with arbitrary integrals; an error in one coefficient only shows up as a wrong energy.", "anchors": ["pyblock3/hamiltonian.py:Hamiltonian.get_site_ops", "pyblock3/algebra/core.py:FermionTensor"]}
{"id": "C50", "title": "Lines of an FCIDUMP file that carry no integral do not change the integrals", "statement": "A blank or comment line anywhere in the body of an FCIDUMP file does not change anything that is read; a line with an orbital energy (one non-zero index) leaves the integrals unchanged; a missing optional keyword leaves a valid default.", "quantifier": "every file text, every position of the line", "why_tests_cant": "Tests read a handful of files written by the code itself.", "anchors": ["pyblock3/fcidump.py:FCIDUMP.read"]}
{"id": "C51", "title": "The exchange phase is a fixed parity, whatever order Python sets iterate in", "statement": "The sign computed for a bra and a ket with any number of sites depends only on the occupations, equals an explicit parity of passed operators, does not depend on the iteration order of the sets of letters, is 1 for bosons, and for equal bra and ket is the sign of reversing the sites with odd occupation.", "quantifier": "every number of sites, every pair of states, every set iteration order", "why_tests_cant": "Infinitely many chains; hash order differs between runs.", "anchors": ["pyblock3/algebra/fermion_ops.py:_compute_swap_phase"]}
{"id": "C52", "title": "Two-site Hamiltonian and creation tensors are the second-quantised operators", "statement": "For every symmetry, coupling and set order the Hubbard and hopping tensors have, between every four states, the matrix element of the second-quantised Hamiltonian times the sign of exchanging the two kets, creation tensors have those of the creation operator; block labels are distinct, block shapes fit the labels, labels are the conserved charges and creation has a definite charge.", "quantifier": "every symmetry class, all couplings in any commutative ring, all states", "why_tests_cant": "All couplings and set orders; elements are spread over blocks by degenerate labels.", "anchors": ["pyblock3/algebra/fermion_ops.py:Hubbard", "pyblock3/algebra/fermion_ops.py:H1", "pyblock3/algebra/fermion_ops.py:creation", "pyblock3/algebra/fermion_encoding.py:get_state_map"]}
{"id": "C53", "title": "Signs of fermion contraction and transposition", "statement": "tensordot of two fermion tensors and transpose of one compute, in every block, the plain sums and reorderings times one sign: minus for every pair of odd legs that changes order when the legs are brought into place. With the bosonic setting there is no sign.", "quantifier": "all rings, symmetries, tensors, axes", "why_tests_cant": "Needs every tensor, every block structure and every set of legs; the signs only show on blocks with several odd legs and on networks of at least three tensors.", "anchors": ["pyblock3/algebra/fermion.py:SparseFermionTensor._tensordot_basic", "pyblock3/algebra/fermion.py:compute_phase", "pyblock3/algebra/fermion.py:SparseFermionTensor._transpose"]}
{"id": "C54", "title": "Trace of a fermion tensor", "statement": "trace over pairs of legs, given in either order, succeeds on a tensor with one charge and opposite signs on each pair, and gives the sum over the labels and indices of the pairs with the sign of bringing the pairs to the front; the pattern and the charge of the result are those of the remaining legs.", "quantifier": "all rings, symmetries, tensors, sets of pairs", "why_tests_cant": "Needs every tensor, every block structure and every set of legs; the signs only show on blocks with several odd legs and on networks of at least three tensors.", "anchors": ["pyblock3/algebra/fermion.py:SparseFermionTensor.trace", "pyblock3/algebra/fermion.py:_trace_preprocess"]}
{"id": "C55", "title": "Adjoint reverses products of fermion tensors", "statement": "dagger reverses the legs, flips the pattern, negates the charge and conjugates the elements; the dagger of a contracted network is the contracted network of the daggers in reversed order, without further signs.", "quantifier": "all rings with conjugation, symmetries, networks, contraction orders", "why_tests_cant": "Needs every tensor, every block structure and every set of legs; the signs only show on blocks with several odd legs and on networks of at least three tensors.", "anchors": ["pyblock3/algebra/fermion.py:SparseFermionTensor.dagger", "pyblock3/algebra/fermion.py:SparseFermionTensor._tensordot_basic"]}
{"id": "C56", "title": "Contraction order of fermion networks is irrelevant", "statement": "Any two sequences of tensordot and trace calls that join the same pairs of legs of the same ordered list of fermion tensors give the same tensor: same pattern, same elements including signs. The sign of each term is that of bringing the pairs together.", "quantifier": "all rings, symmetries, networks, contraction orders", "why_tests_cant": "Needs every tensor, every block structure and every set of legs; the signs only show on blocks with several odd legs and on networks of at least three tensors.", "anchors": ["pyblock3/algebra/fermion.py:SparseFermionTensor._tensordot_basic", "pyblock3/algebra/fermion.py:SparseFermionTensor.trace"]}
{"id": "C57", "title": "The Heisenberg Hamiltonian of any bond list is SU(2) invariant", "statement": "For every spin, chain length and list of bonds with couplings, the terms handed to the operator-sum machinery exist exactly when no bond joins a site to itself, denote the sum of v S_i.S_j over the bonds, and that operator commutes with the total S+, S- and Sz.", "quantifier": "every spin, chain length, topology and coupling", "why_tests_cant": "Infinitely many spins, lengths and bond lists.", "anchors": ["pyblock3/heisenberg.py:Heisenberg.build_mpo", "pyblock3/heisenberg.py:Heisenberg.get_site_ops"]}
{"id": "C58", "title": "Davidson returns Ritz pairs", "statement": "For a real symmetric operator the eigensolver returns k orthonormal vectors in which the operator is diagonal with the returned numbers on the diagonal in ascending order; if it reports convergence every residual norm is below the threshold; the lowest number is at most the Rayleigh quotient of the first initial vector; without a diagonal, from linearly independent initial vectors and with room for the subspace, it converges within (n-k)(k+1)+k passes.", "quantifier": "every symmetric operator, initial vectors, number of roots, iteration and deflation limits (exact arithmetic, norm and eigh as oracles)", "why_tests_cant": "Any dimension, number of roots and deflation schedule; tests run one operator with one schedule.", "anchors": ["pyblock3/algebra/linalg.py:davidson"]}
{"id": "C59", "title": "Compression loses what it reports", "statement": "Compressing a chain in either direction keeps its constant, length, physical legs and outer bonds, bounds every inner bond by max_bond_dim, leaves all sites but the last one visited isometric, and changes the state by a squared distance D (equal to the drop of the squared norm) between the returned error and (n-1) times it; without truncation options the error is zero and every amplitude is kept; it returns whenever the decompositions do.", "quantifier": "every chain of tensors with definite quantum number, both directions, all truncation options, every exact QR and SVD", "why_tests_cant": "All chains, all truncation options and all results of the decompositions; the tests compress a few ground states.", "anchors": ["pyblock3/algebra/mps.py:MPS.compress", "pyblock3/algebra/core.py:SparseTensor.truncate_svd", "pyblock3/algebra/core.py:FermionTensor.truncate_svd"]}
{"id": "C60", "title": "The quantum chemistry MPO is the Hamiltonian", "statement": "For every number of sites from two on, contracting the operator tables that QCSymbolicMPO builds from one- and two-electron integrals (restricted or spin dependent, with and without symmetrized_p) along all paths from the first row to the last column gives, between any two product states, the matrix element of sum t_ij c+_i c_j + 1/2 sum v_ijkl c+_i c+_k c_l c_j.", "quantifier": "every number of sites, all integrals with the permutation symmetries of real orbitals, every pair of product states, both values of symmetrized_p", "why_tests_cant": "The tests compare ground state energies of a few molecules; a wrong factor or sign in one of the complementary operators for some integral can cancel or vanish there.", "anchors": ["pyblock3/symbolic/symbolic_mpo.py:QCSymbolicMPO.__init__", "pyblock3/symbolic/symbolic.py:SymbolicSparseTensor.deflate", "pyblock3/hamiltonian.py:Hamiltonian.get_site_ops"]}
{"id": "C61", "title": "build_mpo makes the operator that is the sum of the given strings", "statement": "For a sum of strings of creation and annihilation operators on sites 0..n-1, Hamiltonian.build_mpo (non-flat) returns one table of operators per site whose matrix product has, between any two lists of site states, exactly the sum over the strings of factor times the product of the ladder operators with their fermionic signs. It returns whenever every string conserves particle number, spin and irrep; a string with a non-zero factor that does not is refused. Row and column labels: every entry changes the quantum numbers by the sum of the labels of its row and column, labels on a bond cancel, the outer ones are zero. Given as tuples of codes (or through build_complex_qc_mpo) the result is the same operator.", "quantifier": "all numbers of sites, all lists of strings and factors, all factorisations returned by the SVD", "why_tests_cant": "the number of strings, orders of operators and rank patterns is unbounded; tests compare energies of a few molecules where a wrong sign in a string that is rarely reached is not seen", "anchors": ["pyblock3/hamiltonian.py:195-258", "pyblock3/symbolic/symbolic.py:368-490", "pyblock3/symbolic/expr.py:202-355", "pyblock3/hamiltonian.py:138-177"]}
{"id": "C62", "title": "Converting an operator table to a block-sparse tensor places every entry", "statement": "SymbolicSparseTensor.to_sparse turns a table whose cells are factors times named site operators, with a charge label per row and column, into a FermionTensor. Rows (columns) with the same label are numbered in order and become the states of the left (right) bond, the left label being dq minus the row label. The element at a row, physical states and a column equals the sum over the entries of the table in this cell of the factor times that element of the operator, in the odd and even part separately; all elements at other bond states are 0. The block dimensions on the bonds are the numbers of rows and columns with the label. When the operators are graded the result is a graded operator site.", "quantifier": "all tables (row vectors, column vectors and matrices with repeated cells), all row and column labels, all operators with consistent block shapes, any number of physical legs", "why_tests_cant": "the positions of an entry depend on how often its label occurred before; a collision or an overwritten block shows only for particular label patterns and repeated cells", "anchors": ["pyblock3/symbolic/symbolic.py:205-221", "pyblock3/symbolic/symbolic.py:581-646"]}
{"id": "C63", "title": "The block-sparse operator made from a sum of strings acts as the sum of the strings", "statement": "For a sum of strings of creation and annihilation operators with factors, each conserving particle number, spin projection and point group irrep, Hamiltonian.build_mpo followed by MPS.to_sparse returns one block-sparse tensor per site, with shapes that fit together, graded, with the vacuum label at both ends and no more states per bond and label than the table has columns. Multiplying this operator (with a constant) and a matrix product state over determinants of the same sites, mpo @ mps, gives a state whose amplitude at every determinant b' is the sum over all determinants b and all strings of factor times matrix element <b'|string|b> times amplitude of b, plus the constant times the amplitude at b'. When the product collapses to the number 0, this sum is 0. A string with non-zero factor which is not conserving is refused.", "quantifier": "all sums of strings on at least two sites, all orbital irreps, all constants, all matrix product states with four states per site, all determinants", "why_tests_cant": "the fermion signs are split between the string ordering, the Jordan-Wigner reordering in the sweep, the odd/even parts of the site tensors and the swaps in the product; a test of one Hamiltonian cannot separate these and the number of determinants is exponential", "anchors": ["pyblock3/hamiltonian.py:195-258", "pyblock3/hamiltonian.py:260-401", "pyblock3/algebra/mps.py:657-664", "pyblock3/algebra/mps.py:491-560", "pyblock3/symbolic/symbolic.py:368-490", "pyblock3/symbolic/symbolic.py:581-646"]}
{"id": "C64", "title": "Turning a block-sparse operator into symbolic tables and back keeps its matrix elements", "statement": "For a matrix product operator of FermionTensors whose shapes fit together, which is graded (the blocks of the odd part have odd bond and odd physical charge), has the vacuum label with one state at both ends and at least one physical leg and one block per site, MPS.to_symbolic followed by MPS.to_sparse succeeds for every dq and returns one tensor per site with the same elements in the odd and the even part, with no block labels the original did not have, so that every amplitude is unchanged. On the right bond of the first and the left bond of the last site this requires that of the states of a label either all or none are used: otherwise the remaining states of that label are renumbered on one side of the bond only and amplitudes change. The FermionTensor of a state is not kept (blocks with odd physical label move to the odd part), nor is a label other than 0 at the right end.", "quantifier": "all operators with any number of sites, labels, bond dimensions and elements, all dq", "why_tests_cant": "the failing case needs an unused state before a used one of the same label on an end bond, which operators made by build_mpo do not have; the numbering of bond states is invisible in the block data of one site", "anchors": ["pyblock3/symbolic/symbolic.py:497-579", "pyblock3/symbolic/symbolic.py:581-646", "pyblock3/algebra/mps.py:685-713", "pyblock3/algebra/mps.py:657-664"]}
{"id": "C65", "title": "The block-sparse quantum chemistry operator acts as the Hamiltonian", "statement": "For one- and two-electron integrals with the permutation symmetries of real orbitals and zero between orbitals of different irreps, Hamiltonian.build_qc_mpo (QCSymbolicMPO for every site followed by MPS.to_sparse) returns one block-sparse tensor per site, with shapes that fit together, graded, with the vacuum label at both ends and no more states per bond and label than the tables have names (1 at the ends, 2 + 4n + 12k^2 inside). Multiplying this operator (with a constant, e.g. the core energy) and a matrix product state over determinants, mpo @ mps, gives a state whose amplitude at every determinant b' is the sum over all determinants b of the matrix element <b'|H|b> of the second-quantised Hamiltonian (one-electron strings plus half the two-electron strings, written out) times the amplitude of b, plus the constant times the amplitude at b'. When the product collapses to the number 0, this sum is 0. Both with and without symmetrized P operators.", "quantifier": "all numbers of sites from two on, all integrals of this symmetry, all orbital irreps, all constants, all matrix product states with four states per site, all determinants", "why_tests_cant": "the tables have O(n^2) names per bond whose prefactors, signs and labels must match between neighbouring sites, and signs are also introduced by the odd/even parts; reference energies for a few molecules test only one vector of an exponentially large space and cannot see entries which cancel or vanish there", "anchors": ["pyblock3/hamiltonian.py:179-193", "pyblock3/symbolic/symbolic_mpo.py:79-493", "pyblock3/symbolic/symbolic.py:368-490", "pyblock3/symbolic/symbolic.py:581-646", "pyblock3/algebra/mps.py:657-664", "pyblock3/algebra/mps.py:491-560"]}
{"id": "C66", "title": "The Green's function solver returns the resolvent within its tolerance", "statement": "MPE.solve_gf on a window (FlatSparseFunctor.greens_function: conjugate gradient on ((H-omega)^2+eta^2) x = -eta b with the diagonal preconditioner, then the real part from -(H-omega) x / eta) returns vectors r, x whose sum r + i x satisfies the imaginary part of (H - omega + i eta) psi = b exactly and the real part up to a residual bounded by the conjugate gradient tolerance; the two numbers it returns are <r|b> and <x|b>; both vectors are within tolerance/eta^2 of the exact solution of the linear system and both numbers within tolerance |b|/eta^2 of the exact Green's function; for a positive tolerance and an iteration limit larger than the dimension it always returns.", "quantifier": "all real symmetric operators H of any dimension, all omega, all eta <> 0, all right-hand sides and starting vectors, all preconditioner diagonals, any ordered field", "why_tests_cant": "a test compares one spectrum with one reference; the error bound in terms of eta and the tolerance, the exactness of the imaginary equation and termination are statements about all operators, frequencies and right-hand sides", "anchors": ["/repo/pyblock3/algebra/flat_functor.py:230-258", "/repo/pyblock3/algebra/mpe.py:402-426"]}
{"id": "C67", "title": "A time step multiplies the state of the window with the Taylor polynomial of the exponential", "statement": "MPE.rk4 for a time step dt on a window with effective operator E (matrix inside the layout plus constant): the first of the four states returned is the state itself; the second and third are the third-order Taylor polynomials of exp(E dt/3) and exp(2 E dt/3) plus an explicit term in dt^4 E^4; the fourth is exactly the fourth-order Taylor polynomial of exp(E dt); the number returned as norm is the norm of the fourth state, the energy is its expectation value. TDDMRG.solve takes, for the last window of a time step, ten such steps of dt/10 and normalises only afterwards, so energy and norm are those of the state before it is normalised; elsewhere it decomposes the four states with weights 1/3, 1/6, 1/6, 1/3 and keeps the first. This needs that the constant is zero or that the state has nothing outside the layout: otherwise the part outside is neither propagated by the constant nor counted in the energy.", "quantifier": "all operators, constants, time steps (real or complex), states and layouts, over any commutative ring with 1/2, 1/3 and the other quotients used", "why_tests_cant": "a test runs a few steps and looks at one energy; a wrong weight in the intermediate states changes results only at high order in dt, and the order of the method is a statement about all dt and all operators", "anchors": ["/repo/pyblock3/algebra/mpe.py:374-400", "/repo/pyblock3/algorithms/tddmrg.py:79-102", "/repo/pyblock3/algebra/flat_functor.py:191-223"]}
{"id": "C68", "title": "Splitting two-site states by their density matrix loses exactly what it reports and no other bond loses less", "statement": "SweepAlgorithm.decomp_two_site with decomp_type=DensityMatrix, for one two-site state or a list of states with weights, sweeping forward or backward: the tensor left behind is an isometry with at most bond_dim bond states; the product of the two new tensors of every state is the projection of the state on these bond states; without noise the error returned equals the weighted sum over the states of the squared distance between the state and this product; no other orthonormal set of bond states (in the symmetry sectors, of at most the same number) gives a smaller sum; with noise given by a sum of squares (the perturbative noise) the distance is at most the error returned. With random noise this last statement is false.", "quantifier": "all numbers and dimensions of sectors, all (complex) states, non-negative weights, bond dimensions and cutoffs; every exact singular value decomposition of the density matrix", "why_tests_cant": "the error equals the loss only because left and right singular vectors of a positive matrix agree wherever the singular value is not zero, and optimality is a statement about all other isometries", "anchors": ["/repo/pyblock3/algorithms/core.py:67-180", "/repo/pyblock3/algebra/core.py:1224-1302"]}
{"id": "C69", "title": "einsum sums over the states of the indices missing in the result", "statement": "numpy.einsum of block-sparse tensors with a script 'o1,o2,..,on->res' (blanks allowed inside operands and around the result): when it succeeds, the element of the result at given states (label and number) of the indices of res is the sum, over all states of all indices that occur in the operands but not in res, of the product of the elements of the operands; the result has legs named by res with the dimensions of these indices. It succeeds exactly when no index occurs twice in one operand or in res and every index occurs in exactly two of o1, .., on, res; nothing else (traces, sums over an index of one operand, indices shared by three tensors, ellipses) is accepted. A script with a comma after '->' should be rejected and blanks inside res should not matter; both are false.", "quantifier": "all numbers of operands, scripts, label groups, tensors with consistent leg dimensions", "why_tests_cant": "the contraction order, the index order of intermediate results and the sorting of the contracted axes depend on the script; tests check single scripts", "anchors": ["/repo/pyblock3/algebra/einsum.py:21-186", "/repo/pyblock3/algebra/ad/core.py:764-772"]}
{"id": "C70", "title": "QR of a fermion tensor: product, charges, isometry", "statement": "tensor_qr of a SparseFermionTensor with left legs l and right legs r (r = the remaining legs if not given; at least one leg on each side), mod 'qr' or 'lq': tensordot(q, r, axes=((-1,),(0,))) is the tensor with its legs in the order l ++ r, with the sign of the exchange of the odd legs when the symmetry is fermionic; the legs of q and r have the directions and dimensions of the legs of the tensor, the new leg is outgoing on q and incoming on r and has the same dimension on both. No block is listed twice. For mod 'qr' all blocks of q have the charge of the tensor and all blocks of r have charge 0, and the columns of q (over all states of the left legs) are orthonormal; for mod 'lq' the charges are exchanged and the rows of r are orthonormal. With all legs on one side the product of the two factors is the tensor. It should then have the requested leg order and the legs should be on the requested side; this is false.", "quantifier": "all tensors with consistent leg dimensions, all label groups, all leg splittings, any matrix QR with exact product and orthonormal columns", "why_tests_cant": "the matrix of a sector is put together from blocks by row and column dictionaries; tests use a few fixed splittings and compare norms", "anchors": ["/repo/pyblock3/algebra/fermion.py:760-861", "/repo/pyblock3/algebra/fermion.py:382-401", "/repo/pyblock3/algebra/fermion.py:752-758"]}
{"id": "C71", "title": "SVD of a fermion tensor: what is kept, what is lost", "statement": "tensor_svd of a SparseFermionTensor (at least one leg on each side) with cutoff >= 0, cutoff_mode 1-6, max_bond, renorm_mode and absorb: when it returns (u, s, v), the singular values of all sectors fall into kept, trimmed and screened ones. Screened are those at or below the fixed threshold 1e-15; of the rest the kept ones are the largest over all sectors together, at most max_bond, and as many as the cutoff in the given mode asks for; at least one is kept. The new leg has exactly one state per kept value. tensordot over the new leg, u.s.v for absorb=None and u.v otherwise (square roots on both sides, values on the left or on the right), differs from the tensor with legs in the order left ++ right (with the fermionic sign) by exactly the sum of squares of the trimmed and screened values plus that of the changes made by the renormalisation; its norm squared is the sum of the squared kept values after renormalisation. The renormalisation factor is 1 unless renorm_mode > 0 and something is trimmed, and is then computed from the power sums of kept and trimmed values. Factors that did not absorb values are orthonormal on the new leg, s is diagonal with the kept values. The blocks of u and v have the charges of qpn_partition, by default (0, dq), and (dq, 0) for absorb=-1. Legs keep directions and dimensions, no block is listed twice. With legs on both sides, a valid partition and mode, it raises only when no singular value is left.", "quantifier": "all tensors with consistent leg dimensions, all label groups, all leg splittings, all option values, any matrix SVD with exact product, orthonormal factors and descending values", "why_tests_cant": "the loss must equal the discarded weight over all sectors for every combination of cutoff, mode, bond limit, renormalisation and absorption; tests compare a few random tensors without truncation", "anchors": ["/repo/pyblock3/algebra/fermion.py:623-750", "/repo/pyblock3/algebra/fermion.py:224-356", "/repo/pyblock3/algebra/fermion.py:358-380", "/repo/pyblock3/algebra/fermion.py:403-441"]}
{"id": "C72", "title": "Layers and density matrix of a Gaussian tensor network", "statement": "For a network of GaussianTensor objects whose legs are each made once and used once and that does not feed back into itself: get_initial_indices and get_terminal_indices are, in increasing order, the down legs that no tensor makes and the up legs that no tensor uses; get_layers puts every tensor into exactly one layer, so that its down legs are initial or made in earlier layers, and no tensor is placed later than needed; RHFTensorNetwork.make_rdm1 returns the matrix sum over the core legs of occupation * orbital * orbital^T, where the orbitals start as unit vectors on the initial legs and are rotated by each tensor from its down legs to its up legs; if the tensors are orthogonal the terminal orbitals are orthonormal eigenvectors of the density matrix with the occupations (0 for legs that are not core) as eigenvalues, its trace is the sum of the occupations, and dm.dm = h dm when all occupations are 0 or h.", "quantifier": "all networks (any number of tensors, widths, labels, order of the list), all rotation matrices and occupations over any commutative ring", "why_tests_cant": "networks, widths and gate orders are unbounded; the backward update of rows and columns by moving positions is only checked by energies of a few molecules in the tests", "anchors": ["pyblock3/gaussian/core.py:166-251", "pyblock3/gaussian/core.py:549-576"]}
{"id": "C73", "title": "Two-particle density matrices and energies of Gaussian networks", "statement": "RHFTensorNetwork.energy_tot(h, g) equals energy_tot(h, g, dm2=make_rdm2()), and the same holds for UHFTensorNetwork; with equal spins the UHF energy is the RHF energy of the doubled density matrix; contracting one particle of make_rdm2 gives (number of particles - 1) times the density matrix of a determinant; the same consistency is expected of GHFTensorNetwork.", "quantifier": "all density matrices, one- and two-particle integrals (no symmetry of the integrals needed) and sizes, over any commutative ring with 1/2", "why_tests_cant": "the tests compare energies with pyscf for a few molecules with symmetric integrals and never pass dm2", "anchors": ["pyblock3/gaussian/core.py:578-595", "pyblock3/gaussian/core.py:718-754", "pyblock3/gaussian/core.py:810-822"]}
{"id": "C74", "title": "GaussianMPS makes a proper network", "statement": "GaussianMPS(n_sites, n_tensor_sites, n_core) ends and returns tensors whose legs are each made once and used once, that do not feed back, with as many up as down legs each; the initial legs are the sites 0..n_sites-1, there are n_sites terminal legs, and a leg is terminal exactly when it is a core leg of a tensor; so make_rdm1 gives an n_sites x n_sites matrix with one occupation for every orbital.", "quantifier": "all n_sites >= 0 and 1 <= n_core <= n_tensor_sites (false for n_core > n_tensor_sites)", "why_tests_cant": "the tests build a handful of sizes with n_core smaller than n_tensor_sites", "anchors": ["pyblock3/gaussian/core.py:1152-1178"]}
{"id": "C75", "title": "Fitting a Gaussian network to a density matrix", "statement": "RHFTensorNetwork.fit_rdm1(D) ends, leaves all legs as they were and gives every tensor an orthogonal rotation; writing x for the unrounded core occupations and o for their rounded values, make_rdm1 of the fitted network is a symmetric matrix with trace sum(o) and square distance |D|^2 - sum(x^2) + sum((x - o)^2) to D (Frobenius norm). If every terminal leg is a core leg then sum(x) = Tr D; if moreover D.D = h D, the square distance is sum(x (h - x) + (x - o)^2), so that make_rdm1(fit_rdm1(D)) = D when all x are 0 or h and rounding keeps them.", "quantifier": "all networks whose legs are made and used once, without feedback, square tensors, core legs not used again; all symmetric D; fit_ent True or False; any eigenvector order, any rounding; any commutative ring (ordered field for the last part)", "why_tests_cant": "the tests fit a few lattices and look at the energy; the running matrix in moved positions, the sign fix and the sorting are never compared with the orbitals of the network", "anchors": ["pyblock3/gaussian/core.py:462-547", "pyblock3/gaussian/core.py:549-576"]}
{"id": "C76", "title": "GaussianMERA1D makes a proper network", "statement": "GaussianMERA1D(n_sites, n_tensor_sites, n_core, dis_ent, periodic) ends and returns tensors whose legs are each made once and used once, that do not feed back, with as many up as down legs each; the initial legs are the sites 0..n_sites-1, there are n_sites terminal legs, and a leg is terminal exactly when it is a core leg of a tensor; so get_layers ends and make_rdm1 gives an n_sites x n_sites matrix with one occupation for every orbital.", "quantifier": "all n_sites >= 0, 1 <= n_core <= n_tensor_sites, dis_ent and periodic on or off (false for periodic disentanglers when the number of open legs of a layer is larger than n_tensor_sites and leaves a rest between 1 and n_tensor_sites // 2 - 1)", "why_tests_cant": "the tests use periodic=False and a few sizes; the sizes of the layers depend on all arguments and the failure is in the wrap-around of one of them", "anchors": ["pyblock3/gaussian/core.py:824-909"]}
{"id": "C77", "title": "Occupations of Gaussian networks", "statement": "get_occupations lists the occupations of all core legs, layer by layer, and with rotations their sum is the trace of make_rdm1 (the particle number). set_occ_half_filling keeps legs and rotations, occupies every second core leg beginning with an empty one, and gives n_core_total // 2 times the high occupation as particle number; for UHF networks the core legs are occupied by spin up and down in turn. UHF set_occupations followed by get_occupations returns what was set, whether or not there were occupations before; it raises exactly when one of the two lists does not have one entry per core leg.", "quantifier": "all networks (any number of tensors, any order in the list) whose legs are made and used once and do not feed back, with one occupation per core leg (or none yet, for UHF set_occupations)", "why_tests_cant": "the order of the occupations is that of the layers, not that of the tensors; the scripts in the repository only print sums for MPS and MERA networks", "anchors": ["pyblock3/gaussian/core.py:310-348", "pyblock3/gaussian/core.py:597-609", "pyblock3/gaussian/core.py:756-808"]}
{"id": "C78", "title": "A UHF network is one network for each spin", "statement": "UHFTensorNetwork.fit_rdm1 and make_rdm1 act on the two spins as RHFTensorNetwork.fit_rdm1 and make_rdm1 act on the network with the data and occupations of that spin, and raise exactly when one of these does; so a fit to two symmetric density matrices loses, for each spin, exactly the squared elements not on core legs plus the rounding of the occupations.", "quantifier": "all UHF networks with occupations (make_rdm1); all UHF networks and pairs of matrices (fit_rdm1); all eigensolvers, orders and roundings", "why_tests_cant": "needs the equality of two programs on all networks; the test scripts look at one energy", "anchors": ["pyblock3/gaussian/core.py:617-716"]}
{"id": "C79", "title": "The rotation stored by fit_rdm1 is the one that was found", "statement": "fit_rdm1 stores my_logm(u) for the rotation u it finds, and make_rdm1 uses the matrix exponential of what is stored. The series of the exponential of my_logm(u) converges to u for every rotation u without repeated angles (other than 0 and pi).", "quantifier": "all n, all orthogonal n x n matrices u such that the eigenvalues of u + u^T come in pairs (and a last 2 if n is odd; this is so for determinant 1 and ascending order), and no value other than 2 and -2 belongs to two pairs; all eigensolvers that diagonalise u + u^T", "why_tests_cant": "a logarithm of a matrix is right or wrong for reasons of linear algebra that depend on the spectrum; random tests never have repeated angles", "anchors": ["pyblock3/gaussian/core.py:472-484", "pyblock3/gaussian/core.py:632-644"]}
{"id": "C80", "title": "FCIDUMP.build recovers the integrals from the terms", "statement": "For the terms of sum_ijs h_ij c+_is d_js + 1/2 sum_ijklst v_ijkl c+_is c+_kt d_lt d_js, in any order, FCIDUMP.build returns h1e = h and g2e = v; each h may be given for one spin only, and each two-body term once with the full factor or two or four times with half of it. build raises exactly when a term is not normal ordered with one or two pairs (with uhf also when the spins of a pair differ). With uhf, spin-dependent one-body terms and opposite-spin interactions given once (spin up first) are recovered. The tuple of factors and integer codes gives the same terms, up to 8192 sites.", "quantifier": "all numbers of sites, all h and v in a commutative ring, all lists of terms as described; codes with any padding by -1", "why_tests_cant": "needs all orders and multiplicities of terms; no test of the repository calls build", "anchors": ["pyblock3/fcidump.py:99-197", "pyblock3/fcidump.py:199-211"]}
{"id": "C81", "title": "Large fermion tensors hold the blocks of the flat tensor", "statement": "LargeFermionTensor.from_flat followed by to_flat (or to_sparse) gives back the labels, shapes and contents of all blocks: blocks do not overlap in the dense array and the integer addresses are decoded to the position where the block was put. _local_flip changes the sign of exactly the odd blocks. On every leg a block is placed after the dimensions of all smaller labels, in whatever order the infos list the labels.", "quantifier": "all numbers of legs, all infos with distinct labels and positive dimensions that fit into the shape of each leg, all lists of blocks with distinct label tuples and dimensions from the infos, all contents, all parities", "why_tests_cant": "overlaps depend on the order of the labels and on the dimensions of all legs; no test of the repository uses large tensors without a GPU", "anchors": ["pyblock3/algebra/fermion_large.py:419-435", "pyblock3/algebra/fermion_large.py:442-498"]}
{"id": "C82", "title": "Vectors and flat tensors of a Constructor", "statement": "Constructor.vector_to_tensor followed by tensor_to_vector gives the vector back. tensor_to_vector of a flat tensor lists its blocks in the order of the constructor's labels, with zeros for blocks the tensor does not have, whatever tensors were converted before (the index tables are cached); vector_to_tensor of it gives the blocks of the tensor back.", "quantifier": "all infos, vectors and tensors with distinct labels and matching block sizes, all caches filled by earlier conversions; label arrays of at most 1000 elements for tensors that do not have exactly the constructor's labels", "why_tests_cant": "the error needs two tensors with more than 1000 label elements converted by one constructor; tests convert small tensors", "anchors": ["pyblock3/algebra/fermion.py:2183-2222"]}
{"id": "C83", "title": "Exchange phases of get_exponential", "statement": "make_phase_dict records the exchange phase of every combination of site states with equal numbers of electrons of each spin in the first and in the second half of the legs, and 0 for the other elements of the same blocks; it has exactly the blocks with such a combination. Multiplying such an element by its phase twice gives it back. With U11 every block allowed by the symmetry is recorded, with phases 1 and -1 only.", "quantifier": "all five symmetries, every number of legs, every combination of states; fermions and bosons", "why_tests_cant": "tests exponentiate Hubbard Hamiltonians, which conserve the electrons of each spin", "anchors": ["pyblock3/algebra/fermion_ops.py:322-336", "pyblock3/algebra/fermion_ops.py:466-489"]}
{"id": "C84", "title": "Elementwise operations and norm of large fermion tensors", "statement": "Adding a number to, scaling, conjugating or applying a function to a LargeFermionTensor acts on its blocks as on the blocks of the flat tensor. For functions that are 0 at 0 the dense array is 0 outside the blocks, so norm() of the result is that of the flat tensor.", "quantifier": "all shapes, infos and blocks with distinct labels, all functions on numbers; the parts on padding and norm for functions that are 0 at 0", "why_tests_cant": "the large class needs a GPU for contractions, so tests hardly use it; no test adds a number to a large tensor", "anchors": ["pyblock3/algebra/fermion_large.py:416-417", "pyblock3/algebra/fermion_large.py:528-536", "pyblock3/algebra/fermion_large.py:588-672", "pyblock3/algebra/flat.py:395-396"]}
