{"claims": [
 {"property": "C01", "status": "proved", "theorems": ["c01_sz_code_lossless", "c01_sz_code_onto", "c01_u1_code_lossless", "c01_u11_code_lossless", "c01_sz_window_sharp_refuted"], "note": "Labels inside the documented window; the last theorem shows the window is sharp."},
 {"property": "C02", "status": "proved", "theorems": ["c02_sz_group", "c02_sz_order", "c02_u1_group", "c02_u11_group", "c02_u_order"], "note": ""},
 {"property": "C03", "status": "proved", "theorems": ["c03_u1_flat_shortcuts", "c03_u11_flat_shortcuts", "c03_flip_decodes", "c03_flip_edge_refuted"], "note": "Labels whose negative is also inside the window; the edge label -8192 is the recorded exception."},
 {"property": "C04", "status": "proved", "theorems": ["c04_u1_compute", "c04_u11_compute"], "note": ""},
 {"property": "C05", "status": "proved", "theorems": ["c05_product_counts_pairs", "c05_product_with_reference", "c05_product_algebra"], "note": ""},
 {"property": "C06", "status": "proved", "theorems": ["c06_pointwise", "c06_negation_relabels"], "note": ""},
 {"property": "C07", "status": "proved", "theorems": ["c07_fci_dimensions"], "note": ""},
 {"property": "C08", "status": "proved", "theorems": ["c08_sectors_kept"], "note": "Also for any sequence of calls."},
 {"property": "C09", "status": "partial", "theorems": ["c09_truncate_bound", "c09_truncate_no_keep_bound", "c09_truncate_never_enlarges_refuted", "c09_truncate_respects_dimension_refuted"], "note": "The bound on the total is proved; 'never enlarges a sector' is false for truncate (refuted with a witness, proved with slack one) and true for truncate_no_keep."},
 {"property": "C10", "status": "proved", "theorems": ["c10_combinations_stored_once", "c10_ranges_tile", "c10_state_bijection", "c10_dimensions_multiply", "c10_without_32bit_bound_refuted"], "note": "Proved for block products below 2^32; c10_without_32bit_bound_refuted shows the uint32 product really wraps above that."},
 {"property": "C11", "status": "proved", "theorems": ["c11_layout", "c11_order_and_repetition_insensitive", "c11_inconsistent_rejected"], "note": ""},
 {"property": "C12", "status": "proved", "theorems": ["c12_lower_symmetry"], "note": ""},
 {"property": "C13", "status": "proved", "theorems": ["c13_addition_elementwise", "c13_subtraction_elementwise", "c13_elementwise_function"], "note": "SparseTensor._add/_subtract and scalar/unary ufuncs over any commutative ring; a is required to have no repeated block label and equal labels to have equal shapes."},
 {"property": "C14", "status": "proved", "theorems": ["c14_contraction_is_dense_contraction", "c14_result_structure", "c14_charge_conserved", "c14_rejects_exactly_unequal_axes", "c14_pdot", "c14_last_legs_with_first"], "note": "SparseTensor._tensordot, _hdot and _pdot; leg dimensions of contracted labels must agree (numpy raises otherwise)."},
 {"property": "C15", "status": "proved", "theorems": ["c15_transpose_moves_elements", "c15_composition", "c15_inverse", "c15_default_reverses"], "note": "SparseTensor.transpose; every block must have the rank of the permutation."},
 {"property": "C16", "status": "proved", "theorems": ["c16_fuse_places_elements", "c16_unfuse_restores", "c16_fuse_preserves_squares", "c16_default_layout_round_trip", "c16_product_layout_round_trip"], "note": "Elementwise placement of fuse for any leg selection, zeros elsewhere, unfuse after fuse restores every element (adjacent legs), sum of squares preserved; the layouts of kron_sum and tensor_product satisfy the hypotheses when block sizes are positive and below 2^32."},
 {"property": "C17", "status": "proved", "theorems": ["c17_round_trip", "c17_layout", "c17_unpack_elements", "c17_addition", "c17_subtraction", "c17_transposition", "c17_contraction"], "note": "Python kernels of impl/flat.py; equal labels have equal shapes across operands; label codes are exact integers"},
 {"property": "C18", "status": "proved", "theorems": ["c18_sign_counts_odd_inversions", "c18_composition", "c18_inverse", "c18_neighbours", "c18_bosonic"], "note": "compute_phase of every permutation of the legs, every rank and parity list."},
 {"property": "C19", "status": "proved", "theorems": ["c19_left_tensor", "c19_right_tensor", "c19_pair_order_irrelevant"], "note": "Both phase factors of a contraction, every rank, axes list without repetition and parity assignment."},
 {"property": "C20", "status": "partial", "theorems": ["c20_fermionic_sort_same_operator", "c20_commuting_sort_same_operator", "c20_sorted_and_stable", "c20_sum_sort_same_operator", "c20_mixed_string_refuted"], "note": "Proved for strings whose symbols all anticommute (fermion=True) or all commute (fermion=False) between sites; refuted for strings mixing both kinds, where sort(fermion=True) returns the negative."},
 {"property": "C21", "status": "proved", "theorems": ["c21_coefficients", "c21_distinct_and_nonzero", "c21_same_operator", "c21_change_is_dropped_terms"], "note": "Exact coefficients; symbols compared by name and site as the code does."},
 {"property": "C22", "status": "partial", "theorems": ["c22_loads_see_uncached_saves", "c22_transparent_without_resaves", "c22_transparent_capacity_zero", "c22_transparent_refuted", "c22_three_site_sweep_stale_refuted"], "note": "False as stated: saving a name that is still cached is a no-op (mpe.py line 495 assigns to a slice of a temporary list), so a later load returns the old value; refuted for every capacity >= 1 and on an ordinary three-site two-site sweep with the default capacity 3. Proved: what a load returns in general, and transparency when no cached name is saved again, in particular for capacity 0."},
 {"property": "C23", "status": "proved", "theorems": ["c23_environments_never_stale", "c23_write_replaces_window", "c23_arbitrary_build_refuted"], "note": "Histories of reads, writes and build-read-write visits of the same window (what the sweeps do). c23_arbitrary_build_refuted: calling the public build_envs at two different windows without a write in between does leave stale environments."},
 {"property": "C24", "status": "partial", "theorems": ["c24_form", "c24_largest_kept", "c24_bond_limit", "c24_cutoff", "c24_cutoff_squared", "c24_error", "c24_minimal", "c24_discarded_weight", "c24_tensors", "c24_slices", "c24_fermion", "c24_max_dw_refuted", "c24_fermion_max_dw_refuted"], "note": "Proved for SparseTensor.truncate_svd (and the same selection code of the flat kernel), and for FermionTensor.truncate_svd when max_dw = 0. Refuted for max_dw: if even the smallest value's weight exceeds max_dw, ss_trunc[:-0] discards everything (c24_max_dw_refuted); FermionTensor accumulates from the largest value (c24_fermion_max_dw_refuted). Otherwise the weight limit holds and is tight (c24_discarded_weight). Slicing of the pair of fermionic tensors and the flat data layout of the sliced blocks are not modelled; l and r must hold at least one block for every sector, in the order of s."},
 {"property": "C25", "status": "proved", "theorems": ["c25_kept_largest", "c25_threshold", "c25_sum", "c25_defined", "c25_kept_values"], "note": "For non-negative values in descending order per sector and any argsort (ties in any order). In the sum modes the statement is tight: discarding one more value would exceed the target."},
 {"property": "C26", "status": "partial", "theorems": ["c26_restricted", "c26_unrestricted", "c26_exact", "c26_unrestricted_folded_never_written", "c26_unrestricted_folded_refuted", "c26_unrestricted_mu_refuted", "c26_tgeneral_refuted", "c26_imaginary_refuted", "c26_wide_index_unreadable", "c26_wide_index_refuted"], "note": "Writing then reading gives back all attributes and every integral above the tolerance to 16 decimals (exactly for 16-digit decimals), for restricted integrals with symmetric matrices and for unrestricted general ones, below 1000 orbitals. False outside: unrestricted folded integrals cannot be written; unrestricted with mu cannot be read; restricted tgeneral matrices are symmetrised; imaginary parts <= -10 and orbital numbers >= 1000 merge columns."},
 {"property": "C27", "status": "partial", "theorems": ["c27_two_electron", "c27_one_electron", "c27_nothing_lost", "c27_frame", "c27_keeper", "c27_one_electron_symmetry_refuted"], "note": "Sum over processes, unique keeper and permutation invariance for two-electron integrals are proved; for the one-electron matrix the images (i,j) and (j,i) are kept by different processes (refuted)."},
 {"property": "C28", "status": "proved", "theorems": ["c28_roundtrip", "c28_injective", "c28_terms", "c28_many_sites_refuted"], "note": "As stated, for at most 8192 sites; beyond that the codes collide (c28_many_sites_refuted)."},
 {"property": "C29", "status": "proved", "theorems": ["c29_anticommutation", "c29_jordan_wigner"], "note": "Site matrices of hamiltonian.py with the sign rule of core.py FermionTensor._tensordot, any chain length; fermion_ops.creation is covered by C41."},
 {"property": "C30", "status": "proved", "theorems": ["c30_basis", "c30_exact", "c30_elements", "c30_identity", "c30_onsite", "c30_algebra"], "note": "Exact reals instead of doubles. Matrix elements of S+, S-, Sz and identity for every spin; commutators and Casimir on the model's own operator products."},
 {"property": "C31", "status": "proved", "theorems": ["c31_components", "c31_exponential_labels", "c31_exponential_refuted"], "note": "Groups are the connected components and hold exactly their blocks. Consequence for the exponential: labels without any block get no block, so the exponential of a hopping operator lacks the identity on empty sites (c31_exponential_refuted)."},
 {"property": "C32", "status": "partial", "theorems": ["c32_bond_states", "c32_sum", "c32_sum_options", "c32_scale", "c32_neg", "c32_difference", "c32_add_number", "c32_conjugate", "c32_overlap", "c32_apply", "c32_apply_constant", "c32_compose", "c32_compose_constants", "c32_sum_ends_refuted", "c32_overlap_empty_refuted", "c32_apply_constant_refuted", "c32_compose_constants_refuted"], "note": "Sums, differences, scalar multiples, negation, conjugation (SparseTensor and FermionTensor sites), overlaps (SparseTensor sites), operator @ state and operator @ operator (FermionTensor operators with Jordan-Wigner signs, two or more sites, operators graded by fermion parity, blocks below the 32-bit limit, constants for operators with vacuum ends), for every chain length and ring. False as stated: a boundary label of b absent from a is lost in a + b (c32_sum_ends_refuted), an overlap with an empty site drops the constant term (c32_overlap_empty_refuted), a product without blocks returns 0 and drops the constant terms (c32_apply_constant_refuted, c32_compose_constants_refuted). Missing: one-site products and SparseTensor operators."},
 {"property": "C33", "status": "proved", "theorems": ["c33_canonicalize", "c33_bond_dims", "c59_lossless", "c33_class_kept_refuted"], "note": "canonicalize: same amplitudes, isometric sites (for tensors whose last or first label follows from the others), bond dimensions do not grow with a thin factorisation; compress without truncation keeps every amplitude. Empty fermion tensors lose their class (refuted)."},
 {"property": "C34", "status": "partial", "theorems": ["c34_dmrg", "c34_linear", "c34_green", "c34_time", "c34_defined", "c34_init_site_refuted", "c34_second_solve_refuted"], "note": "Proved for all four drivers: order of windows, alternation, schedule entries, derived thresholds, best value per sweep, stopping rule. Refuted: with init_site forward sweeps leave windows out; a second solve on the same object keeps the first call's derived thresholds."},
 {"property": "C35", "status": "partial", "theorems": ["c35_residual", "c35_preconditioned", "c35_terminates", "c35_scaled_refuted", "c35_last_pass_refuted"], "note": "Proved: without a diagonal the returned vector has true squared residual below the squared threshold; with a positive diagonal bounded by c it is below c times it; positive definite systems of n equations are solved within n steps when max_iter > n. Refuted: with a diagonal the bound itself; convergence in pass max_iter raises."},
 {"property": "C36", "status": "proved", "theorems": ["c36_cast_assign_elements", "c36_split_exact", "c36_stale_target_refuted"], "note": "exact for a target block structure holding zeros; for a target with contents the split is false (c36_stale_target_refuted): blocks absent from the source keep old data"},
 {"property": "C37", "status": "proved", "theorems": ["c37_layout", "c37_labels", "c37_one_site_refuted"], "note": "For chains of two and more sites; c37_one_site_refuted: for one site the table has 18 columns and one column name."},
 {"property": "C38", "status": "proved", "theorems": ["c38_skeleton_complete", "c38_default_pattern", "c38_zeros_ones"], "note": "Legs without labels make numpy's nditer raise; the theorems require non-empty legs."},
 {"property": "C39", "status": "proved", "theorems": ["c39_kron_add_direct_sum"], "note": "Positive block dimensions, equal middle legs."},
 {"property": "C40", "status": "partial", "theorems": ["c40_sparse_difference", "c40_flat_difference", "c40_empty_left_refuted"], "note": "sparse storage: always; flat storage: unless the left operand has no blocks, where 0 - b returns b (c40_empty_left_refuted)"},
 {"property": "C41", "status": "partial", "theorems": ["c41_total", "c41_spin_projection", "c41_repulsion", "c41_spin_numbers_partial", "c41_additive_partial", "c41_additive_refuted", "c41_duplicate_blocks_refuted"], "note": "False as stated: the alpha and beta number operators give 0 on the doubly occupied state (c41_additive_refuted); true on the other states (c41_additive_partial). Operators built state by state have duplicate block labels for U1, Z2, Z4, so their dense form loses elements (c41_duplicate_blocks_refuted)."},
 {"property": "C42", "status": "partial", "theorems": ["c42_dq", "c42_refused", "c42_pattern", "c42_charge", "c42_equal_patterns_refuted"], "note": "Charge, pattern and success are proved for every contraction whose paired legs have opposite signs (exactly the contractions that succeed). With equal signs the code raises NotImplementedError: refuted by c42_equal_patterns_refuted."},
 {"property": "C43", "status": "proved", "theorems": ["c43_mixed_canonical_form"], "note": ""},
 {"property": "C44", "status": "proved", "theorems": ["c44_to_dense", "c44_to_dense_own_infos", "c44_missing_label_refuted"], "note": "c44_missing_label_refuted shows the restriction to infos containing all labels is needed."},
 {"property": "C45", "status": "proved", "theorems": ["c45_symmetry_fuse_moves_elements"], "note": ""},
 {"property": "C46", "status": "proved", "theorems": ["c46_infos"], "note": ""},
 {"property": "C47", "status": "proved", "theorems": ["c47_power_sum", "c47_values"], "note": "The r-th root is a parameter with its defining equation; NaN screening not modelled."},
 {"property": "C48", "status": "proved", "theorems": ["c48_symmetry"], "note": "For all texts."},
 {"property": "C49", "status": "proved", "theorems": ["c49_site_operators"], "note": "Exact coefficients; cutoffs as a predicate."},
 {"property": "C50", "status": "partial", "theorems": ["c50_comments", "c50_orbital_energy", "c50_orbital_energy_refuted", "c50_missing_isym_refuted"], "note": "Blank and comment lines: proved for all files. Orbital energy lines: false, they overwrite h1e[i-1, n-1] (c50_orbital_energy, _refuted). A missing ISYM gives the invalid irrep 8 (c50_missing_isym_refuted)."},
 {"property": "C51", "status": "proved", "theorems": ["c51_phase", "c51_order_independent", "c51_bosons", "c51_diagonal"], "note": "Closed form for every number of sites."},
 {"property": "C52", "status": "partial", "theorems": ["c52_creation", "c52_hopping", "c52_hubbard", "c52_labels", "c52_charge", "c52_labels_refuted", "c52_charge_refuted"], "note": "Matrix elements proved for all five symmetries and all couplings. The charge part is false for Z4: the doubly occupied state is labelled 0 instead of 2 (c52_labels_refuted) and the creation tensors have blocks of different charge (c52_charge_refuted); proved for the other four symmetries."},
 {"property": "C53", "status": "proved", "theorems": ["c53_contraction_elements", "c53_transpose_elements"], "note": "SparseFermionTensor without fused blocks."},
 {"property": "C54", "status": "proved", "theorems": ["c54_trace_defined", "c54_trace_elements", "c54_trace_structure", "c54_empty_refuted"], "note": "For tensors with at least one block; c54_empty_refuted shows that trace fails on a tensor without blocks."},
 {"property": "C55", "status": "proved", "theorems": ["c55_dagger", "c55_dagger_of_network", "c55_dagger_of_contraction"], "note": "Conjugation is any additive and multiplicative map fixing 0 and 1."},
 {"property": "C56", "status": "proved", "theorems": ["c56_network_elements", "c56_order_independent", "c56_steps_succeed"], "note": "For networks whose paired legs have opposite signs and equal dimensions."},
 {"property": "C57", "status": "proved", "theorems": ["c57_hamiltonian", "c57_total_spin"], "note": "The terms of build_mpo are interpreted as products of the stored one-site matrices on a tensor product of chains; the SVD/bipartite MPO construction from the terms is the subject of other claims."},
 {"property": "C58", "status": "proved", "theorems": ["c58_eigenpairs", "c58_variational", "c58_converges"], "note": "Exact real arithmetic; norm and eigh as oracles with their defining equations; c58_real shows the oracle hypotheses are met by 2 x 2 real matrices. Zero divisions and index errors are a separate outcome excluded by the termination theorem."},
 {"property": "C59", "status": "proved", "theorems": ["c59_compress", "c59_finite", "c59_lossless", "c59_defined", "c59_max_dw_refuted"], "note": "Exact arithmetic; np.linalg.qr / svd as oracles with their defining equations, deflate drops only zero blocks. For tensors whose first and last labels follow from the others. c59_max_dw_refuted: the discarded weight can exceed max_dw (nothing small enough to discard means everything is discarded)."},
 {"property": "C60", "status": "proved", "theorems": ["c60_hamiltonian"], "note": "Exact arithmetic with an element half, cutoffs drop only zeros, integrals with real-orbital permutation symmetry and zero between orbitals of different symmetry. The contraction is the sum over paths through the symbolic tables of products of the site tensors (with the Jordan-Wigner sign of FermionTensor._tensordot); for the block-sparse tensors after to_sparse see C65."},
 {"property": "C61", "status": "proved", "theorems": ["c61_value", "c61_exists", "c61_refused", "c61_labels", "c61_codes", "c61_complex_qc", "c61_one_site_refuted"], "note": "cutoffs drop only zeros, the SVD is any exact factorisation; c61_one_site_refuted: on one site an empty string (a constant) makes get_site_ops fail, so c61_exists asks for non-empty strings when n = 1; the C++ branch (flat) is not modelled"},
 {"property": "C62", "status": "proved", "theorems": ["c62_to_sparse", "c62_graded", "c62_number_in_matrix_refuted"], "note": "Row, column and matrix tables, idx_perm None. An operator that is the plain number 0 is skipped in row and column vectors but raises in a matrix (c62_number_in_matrix_refuted); the theorem excludes that case. A label that is the number 0 (entry 0 in lop/rop) and numpy broadcasting of mismatched shapes are treated as exceptions."},
 {"property": "C63", "status": "proved", "theorems": ["c63_build_apply", "c63_refused"], "note": "Composition of the models of C61, C62, C32 on the tables of build_mpo. At least two sites; singular value decomposition as an oracle that factorises exactly; cutoffs drop only zeros; the left end label of the state is even. When the product is the number 0 the constant is lost (c32_apply_constant_refuted), so only the sum is claimed to be 0 there."},
 {"property": "C64", "status": "proved", "theorems": ["c64_round_trip", "c64_unused_state_refuted", "c64_state_refuted", "c64_right_label_refuted"], "note": "proved with the stated restriction on unused states of the end bonds; the refutations show what happens without the restriction, for states and for other right labels"},
 {"property": "C65", "status": "proved", "theorems": ["c65_qc_apply"], "note": "General (not flat) branch of build_qc_mpo. Exact arithmetic with an element half (1 <> 0), cutoffs drop only zeros, real-orbital permutation symmetry of the integrals and zero between orbitals of different irreps (which get_op drops silently otherwise), at least two sites, even left end label of the state. The constant is lost when the product is the number 0 (c32_apply_constant_refuted), so only the sum is claimed to be 0 there."},
 {"property": "C66", "status": "proved", "theorems": ["c66_solution", "c66_accuracy", "c66_defined"], "note": "Exact arithmetic over an ordered field; operator given as a symmetric matrix; conjugate gradient as modelled for C35."},
 {"property": "C67", "status": "proved", "theorems": ["c67_step", "c67_energy", "c67_advance", "c67_target", "c67_outside_refuted"], "note": "Proved when the constant is 0 or the state vanishes outside the layout of the effective operator; c67_outside_refuted shows that this restriction is needed (the part outside the layout is not propagated by the constant). Equal layouts of ket and bra; exact arithmetic."},
 {"property": "C68", "status": "proved", "theorems": ["c68_loss", "c68_noise", "c68_best", "c68_isometry", "c68_bond_dim", "c68_defined", "c68_random_refuted"], "note": "Density-matrix branch on the matrices per sector, exact SVD as a hypothesis on the matrices that occur; perturbative noise enters as a sum of squares; c68_random_refuted: with random noise the loss can exceed the error returned. SVD branch and MPI not modelled."},
 {"property": "C69", "status": "proved", "theorems": ["c69_value", "c69_accepted", "c69_comma_refuted", "c69_blank_refuted"], "note": "Value and acceptance are proved for all scripts of the stated form. Refuted: '->' is treated like a comma, so 'ij->jk,ik' is accepted as 'ij,jk->ik' (c69_comma_refuted); a blank between the letters of the result raises (c69_blank_refuted)."},
 {"property": "C70", "status": "partial", "theorems": ["c70_qr", "c70_qr_null", "c70_null_order_refuted"], "note": "c70_qr: product, patterns, shapes, charges, isometry for legs on both sides. c70_qr_null: product with all legs on one side, without reordering. c70_null_order_refuted: in that case the order of left_idx is ignored and all legs are on the second factor."},
 {"property": "C71", "status": "proved", "theorems": ["c71_svd", "c71_fails"], "note": "c71_svd: options, factors, charges, orthonormality, product, loss and norms. c71_fails: the only reason to raise is that no value is left. For absorb=0 the product needs square roots that are exact on the kept values. Orthonormality of v needs blocks of one charge. max_bond as a tuple is not modelled."},
 {"property": "C72", "status": "proved", "theorems": ["c72_indices", "c72_layers", "c72_passes", "c72_rdm1", "c72_cycle_refuted", "c72_reused_refuted"], "note": "integer leg labels; matrix_exp(data) is a given matrix per tensor (any matrix; orthogonal where stated); core legs are not used by other tensors. c72_cycle_refuted: on tensors that feed each other get_layers never ends. c72_reused_refuted: when a core leg is used by another tensor its diagonal element is overwritten and the trace is not the sum of the occupations"},
 {"property": "C73", "status": "partial", "theorems": ["c73_rhf", "c73_uhf", "c73_spins", "c73_trace", "c73_ghf", "c73_ghf_refuted"], "note": "proved for RHF and UHF; false for GHF: c73_ghf_refuted (one orbital, one particle: energy_tot without dm2 gives 1/4 of the self-interaction instead of 0); c73_ghf: the difference is always a quarter of the exchange sum"},
 {"property": "C74", "status": "proved", "theorems": ["c74_mps", "c74_count", "c74_wide_refuted"], "note": "for 1 <= n_core <= n_tensor_sites. c74_wide_refuted: n_core > n_tensor_sites is accepted and leaves sites without a tensor (5 sites, 2 per tensor, 3 core: site 2 is missing)"},
 {"property": "C75", "status": "proved", "theorems": ["c75_fit", "c75_state", "c75_exact"], "note": "torch.linalg.eigh is any function that diagonalises the symmetric matrices of the sizes of the tensors (shown to exist for real 2 x 2 matrices in the example); argsort is any permutation; the sign of the determinant is arbitrary; matrix_exp(my_logm(ub)) is taken to be ub; dm_idxs=None"},
 {"property": "C76", "status": "partial", "theorems": ["c76_mera", "c76_narrow", "c76_periodic_refuted"], "note": "proved for dis_ent=False, for periodic=False, for n_tensor_sites <= 3 (c76_narrow), and for periodic=True whenever every layer size that occurs is at most n_tensor_sites or leaves a rest of 0 or of at least n_tensor_sites // 2 (ring_sizes). c76_periodic_refuted: with the default arguments and 6 sites the last, partial step of the periodic loop puts site 0, already used by a disentangler, back into the list; two tensors use it and get_layers never ends"},
 {"property": "C77", "status": "proved", "theorems": ["c77_get", "c77_half", "c77_uhf_set", "c77_uhf_half"], "note": "set_occ_smearing is not modelled"},
 {"property": "C78", "status": "proved", "theorems": ["c78_rdm1", "c78_fit", "c78_fit_rdm1", "c78_total"], "note": "dm[0, :, idx] is read with the rows first, as torch does (numpy would put the columns first); matrix_exp(my_logm(u)) is taken to be u, as in C75; the last statement uses an eigh that diagonalises symmetric matrices"},
 {"property": "C79", "status": "partial", "theorems": ["c79_logm", "c79_refuted"], "note": "real numbers. c79_refuted: with repeated angles (u + u^T has an eigenvalue of multiplicity four) the eigenvectors need not pair the planes, and the exponential of my_logm(u) is not u; the double quarter turn of four legs gives the identity. The pairing of the eigenvalues is a hypothesis, not derived from the determinant."},
 {"property": "C80", "status": "partial", "theorems": ["c80_rhf", "c80_all", "c80_uhf_opposite", "c80_codes", "c80_raises", "c80_uhf_refuted", "c80_repeated_refuted"], "note": "false with uhf for terms with spin down first (c80_uhf_refuted: they are written to the down-down integrals) and for a term that occurs twice (c80_repeated_refuted: assigned, not added)"},
 {"property": "C81", "status": "proved", "theorems": ["c81_roundtrip", "c81_position", "c81_infos_refuted"], "note": "infos must hold dimensions. c81_infos_refuted: from_flat overwrites the entries of the infos it is given by offsets, and a second call with them puts blocks on top of each other; _tensordot passes one BondInfo object to two calls"},
 {"property": "C82", "status": "partial", "theorems": ["c82_roundtrip", "c82_tensor", "c82_cache_kept", "c82_cache_refuted"], "note": "c82_cache_refuted: the cache key is hash(str(q_labels)), and numpy abridges the text of arrays of more than 1000 elements, so another tensor with the same first and last three rows gets the index table of an earlier one. Python hash collisions are not modelled; the non-flat branch (always raising, see DESIGN) is not modelled"},
 {"property": "C83", "status": "partial", "theorems": ["c83_phases", "c83_undone", "c83_u11", "c83_flip_refuted", "c83_pair_refuted", "c83_missing_refuted"], "note": "that get_exponential accepts every operator the symmetry allows is false outside U11: c83_flip_refuted (U1, the elements of a spin flip are multiplied by 0), c83_pair_refuted (Z2, the same for creating a pair), c83_missing_refuted (Z22, KeyError). The diagonalisation is not modelled"},
 {"property": "C84", "status": "proved", "theorems": ["c84_blocks", "c84_add", "c84_padding", "c84_norm", "c84_norm_refuted"], "note": "c84_norm_refuted: without f(0) = 0 (adding a number) the places outside the blocks are filled too, and norm() counts them. Numbers are elements of a commutative ring, norm is its square; out= and _subtract with a number are not modelled"}
]}
