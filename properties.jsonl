{"id": "C01", "title": "Cyclic groups are groups", "statement": "For every order N >= 1, the elements of CyclicGroup(N) handled through the public API (`@`, `~`, `identity`, `elements`) form a group: products and inverses of valid elements are valid elements again, `@` is associative, the identity is neutral on both sides, `~e` is a two-sided inverse; the list `elements` enumerates every valid element exactly once, has length `order()`, and every element is a power of the single generator.", "quantifier": "for all N >= 1 and all elements of C_N", "why_tests_cant": "Tests check a handful of N; the laws are quantified over every order and every triple of elements.", "anchors": ["escnn/group/groups/cyclicgroup.py: CyclicGroup.__init__, _inverse, _combine, _equal, _is_element"]}
{"id": "C02", "title": "Dihedral groups are groups", "statement": "For every N >= 1 the elements (flip, rotation) of DihedralGroup(N) form a group under `@` and `~` with the declared identity; `elements` lists each of the 2N elements exactly once; every element is a product of the declared generators; the flip conjugates every rotation to its inverse.", "quantifier": "for all N >= 1 and all elements of D_N", "why_tests_cant": "The laws involve all triples of elements for all N; the sign/modulo interplay is only sampled by tests.", "anchors": ["escnn/group/groups/dihedralgroup.py: DihedralGroup.__init__, _inverse, _combine, _is_element"]}
{"id": "C03", "title": "Cyclic subgroup inclusion and restriction are mutually consistent", "statement": "For every N and every divisor M of N, `CyclicGroup(N).subgroup(M)` returns an inclusion map that is an injective homomorphism from C_M into C_N, and a restriction map that returns the unique preimage of an element when one exists and None exactly when the element is not in the image.", "quantifier": "for all N >= 1, all M dividing N, all elements", "why_tests_cant": "All (N, M, element) combinations; a unit test can only enumerate small N.", "anchors": ["escnn/group/groups/cyclicgroup.py: _subgroup, cyclic inclusion/restriction closures", "escnn/group/group.py: Group.subgroup"]}
{"id": "C04", "title": "Dihedral subgroup inclusion and restriction are mutually consistent", "statement": "For every N, every M dividing N and every reflection axis in the documented range, `DihedralGroup(N).subgroup((axis, M))` and `subgroup((None, M))` return an inclusion that is an injective homomorphism into D_N and a restriction that inverts it on its image and is None exactly outside the image.", "quantifier": "for all N, M | N, axis with 0 <= axis < N/M (documented range), all elements", "why_tests_cant": "Quantifies over all orders, subgroup ids and elements.", "anchors": ["escnn/group/groups/dihedralgroup.py: _subgroup, _process_subgroup_id, dn_to_dm, dm_to_dn and the C_2/C_M closures"]}
{"id": "C05", "title": "Every accepted dihedral subgroup id yields a usable restriction", "statement": "Whenever `DihedralGroup(N).subgroup((axis, M))` accepts the id (it asserts 0 <= axis < N), the restriction map sends every element of the parent to a valid element of the subgroup or to None, never to an element that the subgroup rejects.", "quantifier": "for all N, M | N, 0 <= axis < N, all elements", "why_tests_cant": "The violating ids lie outside the documented range but inside the asserted one; tests follow the documentation.", "anchors": ["escnn/group/groups/dihedralgroup.py: _subgroup, dn_to_dm, dm_to_dn"]}
{"id": "C06", "title": "Composing subgroup ids agrees with composing inclusions", "statement": "For nested subgroups K < H < G of cyclic and dihedral groups, the id computed by combining the id of H in G with the id of K in H denotes a subgroup of G whose inclusion is the composition of the two inclusions.", "quantifier": "for all N, all nested ids, all elements", "why_tests_cant": "Nested ids for all orders cannot be enumerated.", "anchors": ["escnn/group/groups/cyclicgroup.py: _combine_subgroups", "escnn/group/groups/dihedralgroup.py: _combine_subgroups"]}
{"id": "C07", "title": "Direct products multiply componentwise and enumerate all pairs", "statement": "For any two finite groups G1, G2, the direct product built by the library is a group under its `@` and `~`, its `elements` list contains each pair exactly once and has length |G1||G2|, and the two coordinate inclusions and projections are homomorphisms.", "quantifier": "for all finite groups G1, G2 and all elements", "why_tests_cant": "Quantifies over all pairs of groups.", "anchors": ["escnn/group/directproduct.py: DirectProductGroup.__init__, _combine, _inverse, pair_elements, split_element"]}
{"id": "C08", "title": "Restriction to a product subgroup inverts the inclusion", "statement": "For every pair of subgroups H1 < G1, H2 < G2 whose inclusions and restrictions are mutually inverse, the restriction map of the direct product to H1 x H2 returns the preimage under the product inclusion, and None exactly when one of the two components lies outside its subgroup.", "quantifier": "for all groups, all subgroup pairs, all elements", "why_tests_cant": "A test with two isomorphic factors cannot distinguish the first restriction map from the second one.", "anchors": ["escnn/group/directproduct.py: DirectProductGroup._subgroup, restrict", "escnn/group/doublegroup.py: inclusion, restriction"]}
{"id": "C09", "title": "Group elements survive a change of parametrisation", "statement": "For every group element and every supported parametrisation, converting the element to that parametrisation and back yields the same element. In particular the rotation-matrix parametrisation of cyclic and dihedral groups decodes to the rotation it encodes.", "quantifier": "for all N, all elements, all parametrisations", "why_tests_cant": "Holds for every N and element; the wrong branch returns a plausible value for some elements.", "anchors": ["escnn/group/groups/cyclicgroup.py: _change_param, _inverse", "escnn/group/groups/dihedralgroup.py: _change_param"]}
{"id": "C10", "title": "SO(2) and O(2) are groups with consistent finite subgroups", "statement": "Elements of SO(2) and O(2) given by angles form groups under the library's product and inverse (angles compared modulo 2 pi); the inclusion of C_N, D_N and SO(2) are injective homomorphisms and the restriction maps invert them.", "quantifier": "for all real angles, all N >= 1, all axes", "why_tests_cant": "Angles range over the reals.", "anchors": ["escnn/group/groups/so2group.py", "escnn/group/groups/o2group.py"]}
{"id": "C11", "title": "Cyclic irreps are orthogonal representations with the declared character", "statement": "For every N and every frequency 0 <= k <= N//2, `CyclicGroup(N).irrep(k)` maps products to matrix products, the identity to the identity matrix, inverses to transposes, and its declared character is the trace.", "quantifier": "for all N, k, all pairs of elements", "why_tests_cant": "All orders, frequencies and pairs.", "anchors": ["escnn/group/groups/cyclicgroup.py: irrep, build_irrep_cn, build_character_cn", "escnn/group/utils.py: psi"]}
{"id": "C12", "title": "Dihedral irreps are orthogonal representations with the declared character", "statement": "For every N and every id (j, k) accepted by `DihedralGroup(N).irrep`, the returned map is a homomorphism into orthogonal matrices with the declared size and its declared character is the trace.", "quantifier": "for all N, (j,k), all pairs of elements", "why_tests_cant": "All orders, frequencies and pairs.", "anchors": ["escnn/group/groups/dihedralgroup.py: irrep, build_irrep_dn, build_character_dn", "escnn/group/utils.py: psichi, chi"]}
{"id": "C13", "title": "SO(2) and O(2) irreps are orthogonal representations", "statement": "For every frequency k, the irreps of SO(2) and O(2) are homomorphisms into orthogonal matrices on all real angles, are well defined modulo 2 pi, and their characters are the traces.", "quantifier": "for all k and all real angles", "why_tests_cant": "Angles are real, frequencies unbounded.", "anchors": ["escnn/group/groups/so2group.py: irrep", "escnn/group/groups/o2group.py: irrep"]}
{"id": "C14", "title": "Irreps of finite groups exhaust the regular representation", "statement": "For every N the irreps produced for C_N and D_N, each counted with the multiplicity the library assigns in the regular representation, have dimensions summing to the order of the group.", "quantifier": "for all N", "why_tests_cant": "Both parities of every N.", "anchors": ["escnn/group/groups/cyclicgroup.py: _build_representations, irrep", "escnn/group/groups/dihedralgroup.py: _build_representations, irrep"]}
{"id": "C15", "title": "Restricting a cyclic irrep to a subgroup preserves its values", "statement": "For every N, M | N and frequency k, the decomposition (change of basis, list of subgroup irreps) returned for restricting irrep k of C_N to C_M satisfies: for every h in C_M, irrep_k(inclusion(h)) equals change_of_basis @ directsum(irreps)(h) @ change_of_basis^-1, where every listed irrep is a valid irrep of C_M.", "quantifier": "for all N, M | N, k, h", "why_tests_cant": "All frequencies/orders with aliasing.", "anchors": ["escnn/group/groups/cyclicgroup.py: _restrict_irrep"]}
{"id": "C16", "title": "Restricting a dihedral irrep to a subgroup preserves its values", "statement": "For every N and every subgroup id of D_N in the documented range (rotations C_M, a reflection C_2, or D_M about an axis), the returned decomposition of each restricted irrep reproduces the parent irrep on every element of the subgroup.", "quantifier": "for all N, ids, (j,k), h", "why_tests_cant": "All orders/axes/frequencies.", "anchors": ["escnn/group/groups/dihedralgroup.py: _restrict_irrep"]}
{"id": "C17", "title": "Restricting SO(2)/O(2) irreps preserves their values", "statement": "For every subgroup id of SO(2) and O(2), the returned decomposition of each restricted irrep reproduces the parent irrep on every element of the subgroup.", "quantifier": "for all frequencies, axes, N, elements", "why_tests_cant": "Real axes, unbounded frequencies and orders.", "anchors": ["escnn/group/groups/so2group.py: _restrict_irrep", "escnn/group/groups/o2group.py: _restrict_irrep"]}
{"id": "C18", "title": "Clebsch-Gordan decomposition of cyclic and SO(2) irreps is an orthogonal intertwiner", "statement": "For all frequencies m, n the list of (irrep, multiplicity) returned for the tensor product has total dimension size(m)*size(n), and the Clebsch-Gordan coefficients intertwine irrep m (x) irrep n with each listed irrep and have orthonormal columns.", "quantifier": "for all N, m, n, j and all group elements", "why_tests_cant": "All frequency triples.", "anchors": ["escnn/group/groups/cyclicgroup.py: _clebsh_gordan_coeff, _tensor_product_irreps", "escnn/group/groups/so2group.py: _clebsh_gordan_coeff, _tensor_product_irreps"]}
{"id": "C19", "title": "Every Representation built from irreps is a group homomorphism", "statement": "For every group, every list of its irreps and every invertible change of basis, the resulting Representation maps products to products and the identity to the identity; its character is the sum of the irreps' characters and does not depend on the change of basis.", "quantifier": "for all groups, irreps lists, bases, elements", "why_tests_cant": "All representations.", "anchors": ["escnn/group/representation.py: Representation.__init__, __call__, character, directsum, change_basis"]}
{"id": "C20", "title": "Direct sums act blockwise", "statement": "directsum([r1..rk], change_of_basis=Q) evaluated at g is Q @ blockdiag(r1(g),...,rk(g)) @ Q^-1, for every list of representations, and its stored irreps list and change of basis reproduce these values.", "quantifier": "for all lists of representations, Q, g", "why_tests_cant": "Unbounded list lengths and sizes.", "anchors": ["escnn/group/representation.py: directsum"]}
{"id": "C21", "title": "Restricting a representation preserves its values", "statement": "For every representation rho of G and subgroup H, the representation returned by restrict_representation takes the value rho(inclusion(h)) at every h of H.", "quantifier": "for all reps, subgroups, h", "why_tests_cant": "All representations and elements.", "anchors": ["escnn/group/group.py: restrict_representation"]}
{"id": "C22", "title": "Regular and induced representations permute cosets correctly", "statement": "For every finite group and subgroup, the coset loop picks exactly one representative per left coset, the regular representation maps e_h to e_{gh}, and induced representations (from any representation of the subgroup) are homomorphisms of the whole group.", "quantifier": "for all finite groups/subgroups/representations/elements", "why_tests_cant": "All groups.", "anchors": ["escnn/group/representation.py: build_regular_representation, build_induced_representation"]}
{"id": "C23", "title": "Irreps generated from generators extend to the whole group", "statement": "If the matrices given for the generators satisfy the relations of the group (i.e. some homomorphism agrees with them), the breadth-first generation of irrep matrices returns, for every element, the value of that homomorphism.", "quantifier": "for all finite groups, generators, matrices", "why_tests_cant": "All groups and generating sets.", "anchors": ["escnn/group/irrep.py: generate_irrep_matrices_from_generators"]}
{"id": "C24", "title": "Disentangle returns an equivalent block-diagonal representation", "statement": "For every representation, disentangle returns a change of basis and a list of representations such that conjugating the original by the change of basis gives the block-diagonal direct sum of the list, for every group element.", "quantifier": "for all representations, elements", "why_tests_cant": "All sizes and block structures.", "anchors": ["escnn/group/representation.py: disentangle", "escnn/nn/modules/disentangle_module.py"]}
{"id": "C25", "title": "Name-keyed caches return what was asked for", "statement": "For every sequence of requests, the representation or kernel basis handed out by a cached constructor (Group representations by name, GSpace.build_kernel_basis, build_fiber_intertwiner_basis) is the one determined by the arguments of that request, not by the arguments of an earlier one.", "quantifier": "for all request histories", "why_tests_cant": "Depends on the history of earlier calls.", "anchors": ["escnn/group/group.py: spectral_regular_representation, quotient_representation", "escnn/gspaces/gspace.py: build_kernel_basis, build_fiber_intertwiner_basis"]}
{"id": "C26", "title": "Transforming a grid by grid symmetries is exact and functorial", "statement": "For every n-dimensional array and every signed permutation matrix, the exact branch of the array transformation moves the value at centred coordinate p to g p (in the library's axis convention); transforming by g then h equals transforming by h g, and by the identity is a no-op.", "quantifier": "for all arrays, all dimensions, all signed permutations", "why_tests_cant": "All sizes/dimensions/elements.", "anchors": ["escnn/gspaces/utils.py: linear_transform_array_nd"]}
{"id": "C27", "title": "Wigner-Eckart kernels satisfy the steerability constraint", "statement": "If the Clebsch-Gordan tensors intertwine, the endomorphism basis commutes and the filter basis is steerable, then every kernel basis element built from them satisfies k(g x) = rho_out(g) k(x) rho_in(g)^-1 for every group element and point.", "quantifier": "for all groups, irreps, steerable filter bases, points, elements", "why_tests_cant": "All kernels/points/elements.", "anchors": ["escnn/kernels/wignereckart_solver.py: WignerEckartBasis, RestrictedWignerEckartBasis"]}
{"id": "C28", "title": "Kernel bases for arbitrary representations stay steerable", "statement": "For input/output representations with arbitrary change of basis, SteerableKernelBasis assembled from irrep-pair bases satisfies the steerability constraint w.r.t. the full representations.", "quantifier": "for all representations with arbitrary irreps lists and bases", "why_tests_cant": "All block structures.", "anchors": ["escnn/kernels/steerable_basis.py: SteerableKernelBasis"]}
{"id": "C29", "title": "Indexing a basis agrees with iterating over it", "statement": "For every kernel/filter basis, `basis[i]` returns the attributes of the i-th element produced by iterating over the basis, for every 0 <= i < len(basis).", "quantifier": "for all basis configurations and all indices", "why_tests_cant": "All parameter combinations and indices.", "anchors": ["escnn/kernels/wignereckart_solver.py: __getitem__, attrs_j, attrs_j_iter, __iter__", "escnn/kernels/polar_basis.py: CircularShellsBasis.__getitem__, SphericalShellsBasis.__getitem__", "escnn/kernels/basis.py: UnionBasis.__getitem__", "escnn/kernels/sparse_basis.py: __getitem__"]}
{"id": "C30", "title": "Circular harmonics are steerable by O(2)", "statement": "For every maximum frequency and reflection axis, the sampled circular harmonics satisfy Y_k(g x) = irrep_k(g) Y_k(x) for every rotation or reflection g about that axis and every point x of the plane.", "quantifier": "for all frequencies, axes, points, group elements", "why_tests_cant": "Real quantifiers.", "anchors": ["escnn/kernels/polar_basis.py: circular_harmonics, CircularShellsBasis"]}
{"id": "C31", "title": "Equal bases produce equal samples", "statement": "Two kernel bases that compare equal (and hence share cached sampled filters) have the same samples at every point.", "quantifier": "for all pairs of bases, points; for all histories of cached constructions", "why_tests_cant": "Requires comparing behaviours of all pairs of bases that compare equal.", "anchors": ["escnn/kernels/polar_basis.py: CircularShellsBasis.__eq__, __hash__", "escnn/nn/modules/basismanager/basisexpansion_singleblock.py: block_basisexpansion"]}
{"id": "C32", "title": "Filtered bases report attributes of the elements they keep", "statement": "When a filter is given to a shells basis, iterating over the attributes of the steerable subspaces of irrep j yields exactly the kept subspaces of that irrep.", "quantifier": "for all filters, frequencies, numbers of radii", "why_tests_cant": "All filters.", "anchors": ["escnn/kernels/polar_basis.py: steerable_attrs_j_iter, steerable_attrs", "escnn/kernels/steerable_filters_basis.py"]}
{"id": "C33", "title": "Field offsets tile the channels", "statement": "For every FieldType, the half-open channel intervals [fields_start[i], fields_end[i]) are consecutive, disjoint, have the sizes of the representations and cover exactly [0, size).", "quantifier": "for all field types", "why_tests_cant": "Lists of arbitrary length and sizes.", "anchors": ["escnn/nn/field_type.py: fields_start, fields_end, size"]}
{"id": "C34", "title": "Indexing a GeometricTensor selects exactly the requested fields", "statement": "Whenever indexing a GeometricTensor along the channel dimension succeeds, the result's field type lists the representations of the selected fields in order and its channels are exactly those fields' channels, in order.", "quantifier": "for all field types, all index expressions", "why_tests_cant": "All types and all slices.", "anchors": ["escnn/nn/geometric_tensor.py: __getitem__", "escnn/nn/field_type.py: index_select"]}
{"id": "C35", "title": "Splitting then concatenating is the identity", "statement": "For every GeometricTensor and every documented argument of `split`, the pieces carry the documented fields and `tensor_directsum` of the pieces gives back the original tensor and type; the caller's arguments are not modified.", "quantifier": "for all types, tensors and break lists", "why_tests_cant": "All types/breaks and repeated calls.", "anchors": ["escnn/nn/geometric_tensor.py: split, tensor_directsum"]}
{"id": "C36", "title": "Branching by label then merging restores the fields", "statement": "For every field type and labelling, BranchingModule sends to each label exactly the channels of the fields with that label in order, and the contiguous-slice shortcut selects the same channels as the index list.", "quantifier": "for all types and labellings", "why_tests_cant": "All labellings.", "anchors": ["escnn/nn/modules/branching_module.py", "escnn/nn/modules/merge_module.py", "escnn/nn/modules/utils.py: indexes_from_labels, check_consecutive_numbers"]}
{"id": "C37", "title": "A SequentialModule runs the modules it was given, in order", "statement": "After any sequence of construction, slicing and append operations that succeed, forward applies exactly the modules supplied, in the order supplied, and adjacent input and output types match.", "quantifier": "for all histories of constructor/append/slice calls", "why_tests_cant": "History-dependent.", "anchors": ["escnn/nn/modules/sequential_module.py"]}
{"id": "C38", "title": "Shape prediction agrees with the computed output", "statement": "For every module with a documented `evaluate_output_shape`, the predicted spatial shape equals the shape the forward pass produces, for every input size and every accepted combination of kernel size, stride, padding, dilation and ceil mode.", "quantifier": "for all sizes and hyper-parameters", "why_tests_cant": "Unbounded integer parameters.", "anchors": ["escnn/nn/modules/conv/rd_convolution.py: evaluate_output_shape", "escnn/nn/modules/pooling/*.py: evaluate_output_shape", "escnn/nn/modules/conv/rd_transposed_convolution.py: evaluate_output_shape", "escnn/nn/modules/multiple_module.py: evaluate_output_shape"]}
{"id": "C39", "title": "Every weight drives exactly one block of the expanded filter", "statement": "In BlocksBasisExpansion, for every weight index, get_element_info describes the same (output field, input field, basis element) as the idx-th entry of get_basis_info, and this is the block of the expanded filter that the weight multiplies; all other blocks are unaffected.", "quantifier": "for all field types, block bases and weight indices", "why_tests_cant": "Unbounded numbers of fields/bases.", "anchors": ["escnn/nn/modules/basismanager/basisexpansion_blocks.py: get_element_info, get_basis_info, _expand_block, forward"]}
{"id": "C40", "title": "Biases of convolution and linear layers are invariant", "statement": "For every output type, the expanded bias is fixed by the output representation at every group element, for every value of the bias parameters.", "quantifier": "for all types, bias parameters, elements", "why_tests_cant": "All types.", "anchors": ["escnn/nn/modules/conv/rd_convolution.py: bias_expansion, expand_parameters", "escnn/nn/modules/linear.py"]}
{"id": "C41", "title": "Steerable convolution on a square grid is exactly equivariant to grid rotations and reflections", "statement": "If the continuous kernel satisfies the steerability constraint for a symmetry g of the square grid, the discrete convolution computed with the kernel sampled on the library's grid commutes with g for every image whose size is compatible with stride, padding, dilation and kernel size.", "quantifier": "for all images, kernels, hyper-parameters satisfying the divisibility condition, all 8 grid symmetries", "why_tests_cant": "All images, kernels and sizes.", "anchors": ["escnn/nn/modules/conv/rd_convolution.py: get_grid_coords", "escnn/nn/modules/conv/r2convolution.py: forward"]}
{"id": "C42", "title": "Evaluation mode uses the current weights", "statement": "For every sequence of train(), eval(), weight updates and forward calls, a forward call in evaluation mode uses the filter built from the weights at the time of the last eval() call, and in training mode the filter built from the current weights.", "quantifier": "for all call histories", "why_tests_cant": "History-dependent.", "anchors": ["escnn/nn/modules/conv/rd_convolution.py: train", "escnn/nn/modules/linear.py: train", "escnn/nn/modules/nonlinearities/tensor.py: train"]}
{"id": "C43", "title": "Norm nonlinearities are equivariant", "statement": "For every field type of orthogonal representations and every norm function and bias, the norm nonlinearity commutes with the action of every group element.", "quantifier": "for all types, tensors, biases, elements", "why_tests_cant": "Real-valued inputs.", "anchors": ["escnn/nn/modules/nonlinearities/norm.py", "escnn/nn/modules/nonlinearities/induced_norm.py"]}
{"id": "C44", "title": "Gated nonlinearities are equivariant and use one gate per field", "statement": "For every arrangement of gate and gated fields, the gated nonlinearity multiplies each gated field by the activation of exactly one gate, distinct fields use distinct gates, and it commutes with the group action.", "quantifier": "for all arrangements, tensors, elements", "why_tests_cant": "All interleavings of sizes.", "anchors": ["escnn/nn/modules/nonlinearities/gated1.py", "escnn/nn/modules/nonlinearities/gated2.py", "escnn/nn/modules/nonlinearities/gated3.py"]}
{"id": "C45", "title": "Concatenated nonlinearities are equivariant", "statement": "For every signed-permutation representation, the concatenated nonlinearity maps the action of the input representation to the action of the doubled representation it declares as output, for every pointwise function, and the doubled representation is again a representation.", "quantifier": "for all representations, functions, inputs, elements", "why_tests_cant": "All sizes and inputs.", "anchors": ["escnn/nn/modules/nonlinearities/concatenated.py"]}
{"id": "C46", "title": "The vector-field nonlinearity is equivariant", "statement": "For every N > 1 and every input whose maximum response is unique or non-positive, the vector field nonlinearity maps the regular action of C_N to the rotation action on the output.", "quantifier": "for all N, inputs, elements", "why_tests_cant": "All inputs.", "anchors": ["escnn/nn/modules/nonlinearities/vectorfield.py"]}
{"id": "C47", "title": "Pointwise nonlinearities and group pooling respect permutation representations", "statement": "For every permutation representation, applying any function pointwise commutes with the action, and the maximum over each field is invariant.", "quantifier": "for all permutation representations, functions, inputs, elements", "why_tests_cant": "All sizes/inputs.", "anchors": ["escnn/nn/modules/nonlinearities/pointwise.py", "escnn/nn/modules/invariantmaps/gpool.py"]}
{"id": "C48", "title": "Norm pooling is invariant", "statement": "For every orthogonal field type, NormPool outputs one channel per field, in field order, equal to that field's Euclidean norm, hence invariant under the action; InducedNormPool is invariant for induced representations.", "quantifier": "for all types, inputs, elements", "why_tests_cant": "All types.", "anchors": ["escnn/nn/modules/invariantmaps/norm.py", "escnn/nn/modules/invariantmaps/induced_norm.py"]}
{"id": "C49", "title": "Batch normalisation commutes with the group action over any training history", "statement": "For every sequence of training and evaluation batches, running NormBatchNorm or InnerBatchNorm on transformed batches leaves the same running statistics as on the original batches and yields the transformed outputs.", "quantifier": "for all histories of batches, all elements", "why_tests_cant": "History-dependent, real-valued.", "anchors": ["escnn/nn/modules/batchnormalization/norm.py", "escnn/nn/modules/batchnormalization/inner.py"]}
{"id": "C50", "title": "Fourier pointwise nonlinearities are exactly equivariant on invariant grids", "statement": "If the sampling grid is permuted by left multiplication with g, FourierPointwise with any pointwise function commutes exactly with the action of g.", "quantifier": "for all groups, orthogonal representations, functions, inputs, invariant grids", "why_tests_cant": "All inputs/functions.", "anchors": ["escnn/nn/modules/nonlinearities/fourier.py", "escnn/nn/modules/nonlinearities/fourier_quotient.py"]}
{"id": "C51", "title": "Both evaluation orders of point convolutions agree", "statement": "compute_messages with conv_first=True and conv_first=False return the same messages whenever both are accepted, for every field type, number of groups, weights, input and points.", "quantifier": "for all types, groups, weights, inputs", "why_tests_cant": "All combinations.", "anchors": ["escnn/nn/modules/basismanager/basissampler_blocks.py: compute_messages"]}
{"id": "C52", "title": "The mask used by MaskModule is invariant under grid symmetries", "statement": "For every size, margin, sigma and dimension the mask is invariant under all signed permutations of the axes, so masking commutes with the exact grid transformations.", "quantifier": "for all sizes, margins, sigmas, dims", "why_tests_cant": "All sizes.", "anchors": ["escnn/nn/modules/masking_module.py: build_mask"]}
{"id": "C53", "title": "Direct products can be nested on either side", "statement": "For library groups A, B, C both direct_product(direct_product(A, B), C) and direct_product(A, direct_product(B, C)) can construct every element given by valid component values with the group's default parametrisation.", "quantifier": "for all nestings of direct products, all component groups, all valid values", "why_tests_cant": "Nesting depth and shape are unbounded; the tests only build products of two groups.", "anchors": ["escnn/group/directproduct.py: param_split_regex, _split_param, PARAM, _is_element", "escnn/group/group.py: GroupElement.__init__"]}
{"id": "C54", "title": "Group operations agree in every parametrisation", "statement": "For C_N and D_N, combining or inverting elements given in the 'int' or 'radians' parametrisation gives the product or inverse of the elements they denote, expressed in that same parametrisation.", "quantifier": "for all N, all elements, both parametrisations", "why_tests_cant": "The library only ever calls these with the default parametrisation; every N and element is meant.", "anchors": ["escnn/group/groups/cyclicgroup.py: _inverse, _combine", "escnn/group/groups/dihedralgroup.py: _inverse, _combine"]}
{"id": "C55", "title": "Equality of group elements is an equivalence compatible with hashing", "statement": "For every group, equality of elements is reflexive, symmetric and transitive, and equal elements pass the same tuple to hash.", "quantifier": "for all groups and all elements", "why_tests_cant": "Violations sit at tolerance and rounding boundaries among real angles.", "anchors": ["escnn/group/groups/so2group.py: _equal, _hash_element", "escnn/group/groups/o2group.py: _equal, _hash_element", "escnn/group/utils.py: cycle_isclose"]}
{"id": "C56", "title": "The endomorphism basis of an irrep spans its commutant", "statement": "For every irrep of C_N, D_N, SO(2) and O(2), the matrices returned by `endomorphism_basis` commute with every value of the irrep, every commuting matrix is a unique linear combination of them, and the irrep has no proper invariant subspace.", "quantifier": "all groups C_N, D_N, SO(2), O(2), all accepted irrep ids, all square matrices", "why_tests_cant": "Tests check that basis matrices commute on sampled elements; they cannot show that no other matrix commutes.", "anchors": ["escnn/group/irrep.py:97-114", "escnn/group/groups/cyclicgroup.py:399-452", "escnn/group/groups/dihedralgroup.py:543-610"]}
{"id": "C57", "title": "bl_irreps lists exactly the irreps up to the band limit", "statement": "For C_N, D_N, SO(2) and O(2) and every L in the documented range, `bl_irreps(L)` lists without repetition exactly the accepted irrep ids whose frequency is at most L; outside the range it raises.", "quantifier": "all groups and all integers L", "why_tests_cant": "Tests use a few L and N; the Nyquist irrep of even N is the corner case.", "anchors": ["escnn/group/groups/cyclicgroup.py:454-461", "escnn/group/groups/dihedralgroup.py:518-541", "escnn/group/groups/so2group.py:404-411", "escnn/group/groups/o2group.py:605-615"]}
{"id": "C58", "title": "Transposed convolutions commute with grid symmetries when output_padding is 0", "statement": "If a kernel satisfies K(g x) = rho_out(g) K(x) rho_in(g)^-1 for a symmetry g of the grid and the bias is invariant, then R2ConvTransposed/R3ConvTransposed without output padding, applied to the transformed input, succeeds and gives the transformed output, for every stride, padding, dilation, groups and image size. With output_padding the claim is false.", "quantifier": "all dimensions, image sizes, strides, paddings, dilations, groups, kernels steered by g, inputs", "why_tests_cant": "Tests use a fixed kernel size, stride and padding on a few images and always leave output_padding at the value fitting the stride.", "anchors": ["escnn/nn/modules/conv/r2_transposed_convolution.py:119-139", "escnn/nn/modules/conv/r3_transposed_convolution.py:119-140"]}
{"id": "C59", "title": "Dropout acts on whole fields", "statement": "For every field type and p, FieldDropout in training mode multiplies all channels of a field by the same factor, 0 or 1/(1-p), as decided by one random number per field; it therefore commutes with the group action for equal random numbers, is the identity in evaluation mode, and working in place does not change the result.", "quantifier": "for all field types, drop probabilities, random draws, inputs", "why_tests_cant": "Random draws and all orders of field sizes; tests use one layout and look at statistics.", "anchors": ["escnn/nn/modules/dropout/field.py: dropout_field, FieldDropout", "escnn/nn/modules/dropout/pointwise.py"]}
{"id": "C60", "title": "Irreps of direct products", "statement": "For any two groups and any irreps of real or complex type of theirs in the form the library uses, DirectProductGroup.irrep builds for every admissible index an irreducible orthogonal representation of the product with the right character, type and commutant (and refuses every other index); the list built for two lists of pairwise inequivalent irreps is again pairwise inequivalent, and for C_N and D_N factors it contains all irreps of the product.", "quantifier": "for all pairs of groups, all irreps of real or complex type, all indices, all elements", "why_tests_cant": "Irreducibility, inequivalence and completeness quantify over all matrices and all group pairs; tests compare a few matrices at random elements.", "anchors": ["escnn/group/directproduct.py: irrep, _build_representations, tensor_product_irrep, tensor_product_irrep_complex"]}
{"id": "C61", "title": "Convolution layers are equivariant end to end", "statement": "R2Conv for C_N or SO(2), built from any field types of representations in any basis, with any frequencies, radial profile, filter size, padding mode, dilation, stride, number of groups and basis filter: the constructor returns exactly when both types are that many copies of one list and some pair of fields has a kernel that does not vanish on the grid; forward returns exactly for the sizes the convolution admits; and for all weights and biases the output of the transformed input is the transformed output for every element whose matrix permutes the pixel grid, which are all elements exactly for C_1, C_2 and C_4. The same holds for _RdConv in any dimension and for any group given samples of steerable kernels.", "quantifier": "for all field types, weights, biases, layer options, images and grid-preserving elements", "why_tests_cant": "The library's own check_equivariance samples a few random inputs with one random set of weights and tolerates an error; the composition of kernel basis, expansion, bias and convolution has unboundedly many configurations.", "anchors": ["escnn/nn/modules/conv/rd_convolution.py: _RdConv.__init__, expand_parameters", "escnn/nn/modules/conv/r2convolution.py: R2Conv.forward, _build_kernel_basis", "escnn/gspaces/r2.py: GSpace2D._basis_generator, basespace_action", "escnn/nn/field_type.py: transform"]}
{"id": "C62", "title": "SO(3) and O(3) are groups of matrices", "statement": "With elements stored as quaternions, multiplication, inversion and the identity of SO(3) and O(3) satisfy the group laws and correspond to those of the 3x3 matrices; the matrices are orthogonal with the right determinant and rotate by Rodrigues' formula; two quaternions have the same matrix exactly when they agree up to sign; equality of elements holds for equal matrices, and only for matrices that agree up to 1e-4; equal elements have equal hashes.", "quantifier": "for all quaternions of length one and all pairs of them", "why_tests_cant": "The elements form a continuum with two names each; tests draw a few random rotations and never hit a rounding boundary of the hash.", "anchors": ["escnn/group/groups/so3_utils.py: _combine, _invert, _equal, _hash, _to_scipy_rot", "escnn/group/groups/so3group.py: SO3", "escnn/group/groups/o3group.py: _combine, _inverse, _equal"]}
{"id": "C63", "title": "Planar subgroups of SO(3)", "statement": "For every documented subgroup id of SO(3) outside the polyhedral groups and every adjoint, SO3.subgroup returns the documented group with an inclusion that is multiplicative, injective and gives the documented rotations (flips about the axis of the id, seen from the frame of the adjoint), and a restriction that never raises, finds every element of the subgroup whichever quaternion it is written with, and returns only elements whose matrix is the given one up to 1e-6.", "quantifier": "for all ids (order, flip, axis), adjoints, and elements", "why_tests_cant": "Continuous adjoints and axes, all orders, both signs of each quaternion; tests sample a handful of ids.", "anchors": ["escnn/group/groups/so3group.py: _process_subgroup_id, _subgroup, so3_to_so2, so2_to_so3, so3_to_o2, o2_to_so3", "escnn/group/groups/utils.py: build_adjoint_map"]}
{"id": "C64", "title": "Subgroups of subgroups of SO(3)", "statement": "For every documented non-polyhedral subgroup of SO(3) and every documented subgroup of it, SO3._combine_subgroups returns an id and adjoint whose subgroup is of the same type and whose inclusion is the composition of the two inclusions.", "quantifier": "for all pairs of ids, axes and adjoints, and all elements", "why_tests_cant": "The pairs of ids with continuous axes and adjoints are unbounded; tests compare a few.", "anchors": ["escnn/group/groups/so3group.py: _combine_subgroups"]}
{"id": "C65", "title": "Subgroups of O(3)", "statement": "For every documented subgroup id of O(3) outside the polyhedral groups (SO(3), O(3), planar rotations with or without flips and inversions, cones and pyramids) and every adjoint, O3.subgroup returns the documented group with an inclusion that is multiplicative, injective and gives the documented matrices (mirrors and flips about the axis of the id, seen from the frame of the adjoint), and a restriction that never raises, finds every element of the subgroup whichever quaternion it is written with, and returns only elements whose matrix is the given one up to the tolerance.", "quantifier": "for all ids (inversion, order, flip, axis, cone), adjoints, and elements", "why_tests_cant": "Continuous adjoints and axes, all orders, both signs of each quaternion; tests sample a handful of ids and never compare the axis of a cone with its documentation.", "anchors": ["escnn/group/groups/o3group.py: _process_subgroup_id, _subgroup, o3_to_so3, so3_to_o3, o3_to_so2, so2_to_o3, o3_to_dih, dih_to_o3, o3_to_con, con_to_o3, o3_to_mir, mir_to_o3, o3_to_inv, inv_to_o3, o3_to_cyl, cyl_to_o3, o3_to_fullcyl, fullcyl_to_o3", "escnn/group/groups/utils.py: build_adjoint_map"]}
{"id": "C66", "title": "Subgroups of subgroups of O(3)", "statement": "For every documented non-polyhedral subgroup of O(3) and every documented subgroup of it, O3._combine_subgroups returns an id and adjoint whose subgroup is of the same type and whose inclusion is the composition of the two inclusions.", "quantifier": "for all pairs of ids, axes and adjoints, and all elements", "why_tests_cant": "The pairs of ids with continuous axes and adjoints are unbounded; the failing ones raise only when the combined id is used.", "anchors": ["escnn/group/groups/o3group.py: _combine_subgroups", "escnn/group/directproduct.py: _subgroup"]}
{"id": "C67", "title": "IID batch normalisation over histories", "statement": "After any history of training and evaluation calls, optimiser steps and resets, IIDBatchNorm1d/2d/3d subtracts the fixed part of the mean, divides every field by one standard deviation, and scales and shifts it along the trivial irreps; transforming the batches of a history by the group transforms the outputs alike and leaves the state unchanged; the exported torch module computes the same in evaluation mode; resets restore the initial state.", "quantifier": "for all feature types, changes of basis, numbers of points, histories, group elements and reorderings of the points", "why_tests_cant": "The state depends on the whole history and the layer on arbitrary direct sums and changes of basis; tests use one batch and the library's own representations, which never share a name.", "anchors": ["escnn/nn/modules/batchnormalization/iid.py: _IIDBatchNorm", "escnn/group/representation.py: directsum"]}
{"id": "C68", "title": "Batch normalisation by irreps over histories", "statement": "After any history of training and evaluation calls, optimiser steps and resets, GNormBatchNorm centres the trivial irreps, divides every irrep by its own standard deviation, and scales and shifts in the coordinates of the irreps; transforming every point of every batch by its own group element transforms the outputs alike and leaves the state unchanged; the exported torch module computes the same in evaluation mode; resets restore the initial state.", "quantifier": "for all feature types, changes of basis, numbers of points and of spatial axes, histories, group elements at every point and reorderings of the points", "why_tests_cant": "The state depends on the whole history; tests use one batch on planar images and representations without a change of basis, and never compare the exported module.", "anchors": ["escnn/nn/modules/batchnormalization/gnorm.py: GNormBatchNorm"]}
{"id": "C69", "title": "FieldNorm over histories", "statement": "After any history of calls, optimiser steps and resets, FieldNorm subtracts from every field at every point its part in the trivial irreps, divides by the root of the mean square of the rest plus eps, multiplies by the weight of the field and adds the bias along the trivial irreps, in both modes; transforming every point by its own group element transforms the output alike; a field of trivial irreps becomes its bias; reset_parameters restores the initial parameters.", "quantifier": "for all feature types and orders of fields, changes of basis, numbers of points, histories, group elements at every point and reorderings of the points", "why_tests_cant": "Tests use a few representations with orthonormal bases and one group element for the whole input, with initial parameters.", "anchors": ["escnn/nn/modules/normalization/fieldnorm.py: FieldNorm"]}
{"id": "C70", "title": "InducedNormBatchNorm over histories", "statement": "After any history of calls, optimiser steps and resets, InducedNormBatchNorm keeps for every field a running variance that each training step moves towards the mean squared norm of its sub-fields divided by their size (with Bessel's correction), and multiplies the field by its weight over the root of that variance plus eps; transforming the points of the inputs transforms the outputs alike and leaves the state unchanged; resets restore the initial state, and reset_parameters never raises.", "quantifier": "for all feature types with induced norms and orders of fields, numbers of points, momenta, histories, orthogonal matrices at every point and reorderings of the points", "why_tests_cant": "The state depends on the whole history and on the grouping of the fields by two sizes; tests run one batch on a single type with weights and never call the resets.", "anchors": ["escnn/nn/modules/batchnormalization/induced_norm.py: InducedNormBatchNorm"]}
{"id": "C71", "title": "Max and average pooling over windows", "statement": "Every output of PointwiseMaxPool and PointwiseAvgPool is the largest entry, or the sum divided by the number of taps on the padded input, of the documented window; both commute with the rotations and mirrors that keep the grid, max pooling for fields whose representation permutes the channels and average pooling for all fields; the exported max pooling computes the same function.", "quantifier": "for all kernels, strides, paddings, dilations, both rounding modes, numbers of axes and sizes, inputs, symmetries of the grid and representations", "why_tests_cant": "All sizes and strides at once; tests use sizes the windows fit and floor mode.", "anchors": ["escnn/nn/modules/pooling/pointwise_max.py: _PointwiseMaxPoolND.__init__, forward, evaluate_output_shape, export", "escnn/nn/modules/pooling/pointwise_avg.py: _PointwiseAvgPoolND"]}
{"id": "C72", "title": "Antialiased pooling", "statement": "PointwiseAvgPoolAntialiased and PointwiseMaxPoolAntialiased commute with the rotations and mirrors that keep the grid where the windows fit; without padding the antialiased average keeps constants; the shape evaluate_output_shape predicts is the shape forward computes.", "quantifier": "for all widths, strides, paddings, kernels, numbers of axes and sizes, inputs, symmetries of the grid and representations", "why_tests_cant": "All widths and paddings at once; tests use one width and never compare the predicted shape of the antialiased max pooling.", "anchors": ["escnn/nn/modules/pooling/pointwise_max.py: _PointwiseMaxPoolAntialiasedND", "escnn/nn/modules/pooling/pointwise_avg.py: _PointwiseAvgPoolAntialiasedND"]}
{"id": "C73", "title": "Adaptive pooling", "statement": "Every output of PointwiseAdaptiveMaxPool and PointwiseAdaptiveAvgPool is the largest entry, or the mean, of its cell, all cells being non-empty; for all sizes of the input and of the output both commute with the rotations and mirrors that keep the grid (the maximum for fields whose representation permutes the channels), and the predicted shape is the computed one.", "quantifier": "for all input sizes, output sizes, numbers of axes, inputs, symmetries of the grid and representations", "why_tests_cant": "Overlapping cells appear for sizes that do not divide; the claim covers all pairs of sizes.", "anchors": ["escnn/nn/modules/pooling/pointwise_adaptive_max.py: _PointwiseAdaptiveMaxPoolND", "escnn/nn/modules/pooling/pointwise_adaptive_avg.py: _PointwiseAdaptiveAvgPoolND"]}
{"id": "C74", "title": "Max pooling by norms", "statement": "Every field of the output of NormMaxPool is the field of the input at a point under the documented window where its norm is largest, the predicted shape is the computed one, and for fields with orthogonal matrices the layer commutes with the rotations and mirrors that keep the grid.", "quantifier": "for all feature types (sizes and orders of fields), kernels, strides, paddings, dilations, both rounding modes, sizes, inputs, symmetries of the grid and orthogonal matrices", "why_tests_cant": "The fields are gathered by size through slices or lists of indices and read at data dependent positions; check_equivariance of this module tests nothing.", "anchors": ["escnn/nn/modules/pooling/norm_max.py: NormMaxPool"]}
{"id": "C75", "title": "Exports of trainable layers", "statement": "The PyTorch modules to which R2Conv, R3Conv, their transposed versions, Linear and SequentialModule export compute on every tensor exactly what the layer computes, and raise when it raises, for every state of the layer; export leaves the parameters alone and the layer in evaluation mode.", "quantifier": "for all layers that can be built (types, groups, strides, dilations, paddings, padding modes, output paddings, biases), all histories of train/eval calls and parameter updates, and all inputs", "why_tests_cant": "The tests export freshly built layers with default arguments; the state of the buffers depends on the history of calls.", "anchors": ["escnn/nn/modules/conv/r2convolution.py: export", "escnn/nn/modules/conv/r3convolution.py: export", "escnn/nn/modules/conv/r2_transposed_convolution.py: export", "escnn/nn/modules/conv/r3_transposed_convolution.py: export", "escnn/nn/modules/linear.py: Linear.export", "escnn/nn/modules/sequential_module.py: SequentialModule.export"]}
{"id": "C76", "title": "Upsampling", "statement": "R2Upsampling and R3Upsampling compute the multilinear interpolation of the input at the centres of the output cells (with align_corners at the aligned places; with 'nearest' the value of the pixel that contains the left end of the cell), commute with the symmetries of the grid for every representation, and evaluate_output_shape predicts the shape of what forward returns.", "quantifier": "for all sizes, scale factors, modes, numbers of axes (2 or 3), inputs, representations and symmetries of the grid", "why_tests_cant": "The tests use one scale factor on images of one size with a tolerance for the borders; equivariance depends on how the sizes of input and output relate.", "anchors": ["escnn/nn/modules/rdupsampling.py: _RdUpsampling.__init__", "escnn/nn/modules/rdupsampling.py: _RdUpsampling.forward", "escnn/nn/modules/rdupsampling.py: _RdUpsampling.evaluate_output_shape"]}
{"id": "C77", "title": "Layers stay equivariant in every state", "statement": "After any sequence of changes of the parameters and switches between training and evaluation mode, convolutions, transposed convolutions without output padding and Linear layers commute with the group: whether forward expands the parameters or reads the buffers filled by train(False), transforming the input and running the layer gives the transformed output. The same holds for the layers the code builds for C_N and SO(2).", "quantifier": "for all groups, representations, dimensions, kernel sizes, strides, dilations, groups, weights, histories of the object, inputs, and elements that act on the grid (all elements for Linear)", "why_tests_cant": "The tests check equivariance right after initialisation; the state space of parameters, stale buffers and mode switches is unbounded.", "anchors": ["escnn/nn/modules/conv/rd_convolution.py: _RdConv.train", "escnn/nn/modules/conv/rd_convolution.py: _RdConv.forward", "escnn/nn/modules/conv/r2_transposed_convolution.py: R2ConvTransposed.forward", "escnn/nn/modules/linear.py: Linear.forward", "escnn/nn/modules/linear.py: Linear.train", "escnn/gspaces/gspace.py: GSpace.build_fiber_intertwiner_basis"]}
{"id": "C78", "title": "Linear layers reach every equivariant map", "statement": "For C_N and SO(2) the kernels on a point between two representations are a basis of the space of equivariant linear maps between them, and the code reports no basis only if the zero map is the only one. A Linear layer between fields of these representations can be set to every equivariant matrix between its types and to no other, and different weights give different matrices.", "quantifier": "for all N, all representations of C_N or SO(2), all lists of input and output fields, all equivariant matrices and all weights", "why_tests_cant": "The tests check that sampled layers are equivariant; that no equivariant map is missing, and that the parametrisation is not redundant, is a statement about all matrices and all pairs of representations.", "anchors": ["escnn/kernels/__init__.py: kernels_on_point", "escnn/kernels/steerable_basis.py: IrrepBasis", "escnn/kernels/steerable_basis.py: SteerableKernelBasis", "escnn/kernels/wignereckart_solver.py: WignerEckartBasis", "escnn/nn/modules/linear.py: Linear", "escnn/nn/modules/basismanager/basisexpansion_singleblock.py: SingleBlockBasisExpansion"]}
{"id": "C79", "title": "Tensor products of representations have the products as values", "statement": "The tensor product built from the Clebsch-Gordan coefficients of the irreps is a representation of the product size whose matrix at every group element is the Kronecker product of the two matrices, and the character given to it is the trace of that matrix. For C_N and SO(2) it can always be built from the coefficients in the code.", "quantifier": "for all groups with sound coefficients, in particular all C_N and SO(2), all pairs of representations and all group elements", "why_tests_cant": "The tests compare sampled elements of a few pairs of representations up to a tolerance; the order of the irreps, the blocks of the change of basis and the multiplicities have to agree for every pair.", "anchors": ["escnn/group/representation.py: Representation.tensor", "escnn/group/group.py: Group._tensor_product", "escnn/group/group.py: Group._clebsh_gordan_coeff"]}
{"id": "C80", "title": "TensorProductModule is equivariant and reaches every equivariant product", "statement": "In every state reachable by training, evaluation and setting parameters, TensorProductModule answers with the projected tensor squares of its fields and commutes with the action of the group on the grid and on the point. Its projections are exactly the ones that commute with the group, different weights give different projections, and the constructor raises exactly if zero is the only such projection.", "quantifier": "for all C_N and SO(2), all numbers of fields, all representations of the fields, all weights and histories, all inputs and all group elements that act on the grid", "why_tests_cant": "The tests check sampled modules at sampled inputs; completeness of the projections and equivariance after any sequence of mode switches and parameter changes are statements about all of them.", "anchors": ["escnn/nn/modules/nonlinearities/tensor.py: TensorProductModule", "escnn/nn/field_type.py: FieldType.uniform"]}
{"id": "C81", "title": "Spaces on the plane restrict to the subgroups of their groups", "statement": "The group of a GSpace2D acts on the plane by the matrices of the rotations and reflections of O(2) its elements stand for. For every documented id of a subgroup, restrict returns a space whose group is that subgroup, together with the inclusion, and every element acts on the plane as its image in the larger group does.", "quantifier": "for all ids of subgroups of O(2), all documented ids of their subgroups and all group elements", "why_tests_cant": "The tests restrict a few spaces, mostly to subgroups about the axis 0. Which ids are accepted depends on the sum of two angles, the axis of the space and that of the subgroup.", "anchors": ["escnn/gspaces/r2.py: GSpace2D.__init__", "escnn/gspaces/r2.py: GSpace2D.restrict", "escnn/gspaces/r2.py: flipRot2dOnR2", "escnn/group/groups/o2group.py: O2._combine_subgroups"]}
{"id": "C82", "title": "RestrictionModule and DisentangleModule are equivariant on images", "statement": "FieldType.restrict returns a type whose fields have the sizes of the original ones, and to transform an image by an element of the larger group and restrict it is to restrict it and transform it by the element of the subgroup. DisentangleModule can be built for every type, multiplies each field by the permutation matrix found by disentangle, has as output type the pieces of all fields in order, and commutes with every transform of images that permutes the pixels.", "quantifier": "for all planar groups, documented subgroups, field types, group elements, images of any size and orders of iteration", "why_tests_cant": "The tests use a few groups and representations and compare with tolerances. Fields of several representations interleaved in a type, and names that torch does not accept, are not tested.", "anchors": ["escnn/nn/field_type.py: FieldType.restrict", "escnn/nn/modules/restriction_module.py: RestrictionModule", "escnn/nn/modules/disentangle_module.py: DisentangleModule", "escnn/group/representation.py: disentangle"]}
{"id": "C83", "title": "Networks of equivariant modules are equivariant on images", "statement": "If modules commute with a group element, so do their composition in a SequentialModule, and sums, differences, multiples and direct sums of tensors, and ReshuffleModule. A MultipleModule can be built from modules and labels, runs each module on the fields with its labels and concatenates the results, commutes with the group if the modules do, and leaves its arguments as they were.", "quantifier": "for all sequences and collections of modules, labels, field types, representations, images of any size and group elements that permute the pixels", "why_tests_cant": "Tests check a few networks with a few inputs up to a tolerance. That equivariance composes for every network needs induction over the modules and shapes that agree after the transform.", "anchors": ["escnn/nn/modules/sequential_module.py: SequentialModule.forward", "escnn/nn/geometric_tensor.py: GeometricTensor.__add__, __sub__, __mul__, tensor_directsum", "escnn/nn/modules/reshuffle_module.py: ReshuffleModule", "escnn/nn/modules/branching_module.py: BranchingModule", "escnn/nn/modules/merge_module.py: MergeModule", "escnn/nn/modules/multiple_module.py: MultipleModule"]}
{"id": "C84", "title": "A steerable CNN on the plane commutes with the symmetries of the grid from its first layer to its last", "statement": "A SequentialModule of any length made of R2Conv, NormNonLinearity, PointwiseNonLinearity, GroupPooling, max and average pooling and MaskModule, whose layers were built for the inputs they get and fit their sides, commutes with every element of C_N or SO(2) that maps the grid to itself: with all of them for N = 1, 2, 4. If its output is one pixel of scalars, the output does not change at all when the input is turned.", "quantifier": "for all lists of layers, weights, biases, field types, kernel sizes, paddings, strides, dilations and groups, all images of any size, all group elements that act on the grid", "why_tests_cant": "The tests check a few fixed networks on random inputs up to a tolerance. A claim about every network needs induction over the layers, with shapes and types that each layer hands to the next, and layers that see equal entries must give equal entries.", "anchors": ["escnn/nn/modules/sequential_module.py: SequentialModule.forward", "escnn/nn/modules/conv/r2convolution.py: R2Conv.forward", "escnn/nn/modules/nonlinearities/norm.py: NormNonLinearity.forward", "escnn/nn/modules/nonlinearities/pointwise.py: PointwiseNonLinearity.forward", "escnn/nn/modules/invariantmaps/gpool.py: GroupPooling.forward", "escnn/nn/modules/pooling/pointwise_max.py: PointwiseMaxPool2D", "escnn/nn/modules/pooling/pointwise_avg.py: PointwiseAvgPool2D", "escnn/nn/modules/masking_module.py: MaskModule"]}
{"id": "C85", "title": "Convolutions on point clouds commute with every rotation, with translations and with renumbering of the points", "statement": "R2PointConv with C_N or SO(2), built from any field types, rings, widths, cutoff and groups, and applied to any graph on any points: rotating points and features by any element of the group (not only those that map a grid to itself) rotates the output; translating the points leaves it alone; the order of the edges does not matter; renumbering the nodes renumbers the output. The output at a node is the mean over the entering edges of the kernel at the displacement applied to the source features, plus an invariant bias. A call succeeds exactly when the edges join existing nodes, there is at least one, and the lengths fit. The default rings, widths and frequencies are those documented, and the cutoff at int(max) drops no frequency the filter would keep.", "quantifier": "for all field types, weights, biases, point sets, graphs, displacements given or computed, group elements, translations, permutations of edges and nodes, all ring parameters", "why_tests_cant": "The tests run one random graph per group up to a tolerance. They do not vary the number of groups, the order of edges, graphs with isolated nodes or without edges, nor the rings and cutoffs.", "anchors": ["escnn/nn/modules/pointconv/rd_point_convolution.py: _RdPointConv.__init__", "escnn/nn/modules/pointconv/rd_point_convolution.py: _RdPointConv.forward", "escnn/nn/modules/pointconv/rd_point_convolution.py: _RdPointConv.message", "escnn/nn/modules/pointconv/r2_point_convolution.py: R2PointConv", "escnn/nn/modules/pointconv/r2_point_convolution.py: compute_basis_params", "escnn/nn/modules/pointconv/r2_point_convolution.py: bandlimiting_filter", "escnn/nn/geometric_tensor.py: GeometricTensor.transform", "escnn/nn/field_type.py: FieldType.transform"]}
{"id": "C86", "title": "Bases of functions on homogeneous spaces", "statement": "HomSpace.basis(g, rho, psi) returns at every g the values of the same functions. Each slice transforms like rho under G from the left and obeys the constraint of psi under H from the right. Together with their images under the commutant of rho the slices are orthonormal at every g, and every field of that kind is a combination of them with constant coefficients; their number is dimension_basis. For all planar groups and subgroups the call returns. complete_basis at a g is the induced representation of a applied to complete_basis at g.", "quantifier": "all groups G and subgroups H with correctly described irreps, all irreps rho and psi, all elements; unconditionally all planar groups, their subgroups and irreps (any frequency)", "why_tests_cant": "Completeness is about all functions on a continuous space, and the selection of columns depends on rho, psi and the restriction.", "anchors": ["escnn/group/homspace.py:77-160", "escnn/group/homspace.py:161-243", "escnn/group/homspace.py:245-277", "escnn/group/homspace.py:394-452"]}
{"id": "C87", "title": "Grids on the sphere and the elements standing for them", "statement": "The HEALPix, longitude-latitude, Fibonacci and random grids consist of the announced number of different points on the unit sphere with the symmetries of their construction, and adj moves them by its matrix. sphere_grid of SO(3) and O(3) return one element per point of the grid which takes the north pole to that point, as representative of its coset; for O(3) this holds, for SO(3) each element takes the pole to the opposite point. find_rotation_pole2point takes the pole to the direction of its argument.", "quantifier": "all sizes of grids, all draws of the random generator, all elements adj; all points but the origin", "why_tests_cant": "The grids exist for every size and the frames of SO(3) are completed with random vectors; the tests only use grids with inversion symmetry, where opposite points are points of the grid.", "anchors": ["escnn/group/groups/so3_utils.py:249-331", "escnn/group/groups/so3_utils.py:378-465", "escnn/group/groups/so3group.py:202-267", "escnn/group/groups/o3group.py:325-387"]}
{"id": "C88", "title": "The octahedral group and its subgroups", "statement": "Octahedral is the group of the 24 rotations of the cube: its operations never raise, its list holds each rotation once, its membership check admits exactly those up to rounding. subgroup(id) returns, for the cyclic ids and every adjoint, the documented subgroup with an inclusion that is an injective homomorphism into the group and a restriction that inverts it and returns an element only for its own rotation. The quotients called cube_faces, cube_vertices and cube_edges are the actions on the faces, vertices and edges of the cube.", "quantifier": "all rotations of the cube in either quaternion, all adjoints, all orders of cyclic subgroups", "why_tests_cant": "Tests go through the listed quaternions only, not their opposites, and compare quotient representations with themselves rather than with the geometry of the cube.", "anchors": ["escnn/group/groups/octa.py:52-320", "escnn/group/groups/octa.py:380-400", "escnn/group/groups/octa.py:553-620", "escnn/group/groups/utils.py:11-37"]}
{"id": "C89", "title": "The irreps of the octahedral group", "statement": "Octahedral.irrep(l) returns for l = -1, 0, 1, 2, 3 the documented representation at every rotation of the cube, whichever quaternion it is written with and whatever the iteration order of sets: the generation from three generators reaches the whole group and is consistent. The five are orthogonal representations, irreducible of real type, pairwise non-isomorphic, and make up the regular representation; -1 is the product of 1 and 3, and the frequencies 1, 2 and 3 of SO(3) decompose into them as documented.", "quantifier": "all five irreps, all rotations of the cube in either quaternion, all set orders", "why_tests_cant": "Tests compare numbers at the listed elements for one order of the set; they do not show irreducibility or completeness.", "anchors": ["escnn/group/groups/octa.py:401-461", "escnn/group/groups/octa.py:633-764", "escnn/group/irrep.py:162-222"]}
{"id": "C90", "title": "Characters, tensor products and planar restrictions of the irreps of SO(3) and O(3)", "statement": "The character of SO3.irrep(l) at a rotation by t is 1 + 2 cos t + ... + 2 cos(lt) in either quaternion, with an error of at most l(l+1)(2l+1) 1e-16 close to the identity; it depends on the angle only and is the trace of the rotation for l = 1; O3.irrep(j, l) adds the sign of the inversion. The irreps listed by _tensor_product_irreps are distinct and their characters add up to the product. The characters are orthonormal for the uniform measure. The irreps listed by _restrict_irrep for SO(2), O(2), C_N and D_N, with any axis of the flip and any adjoint, have the character of the irrep on the included elements.", "quantifier": "all frequencies, all rotations, all planar subgroups with all adjoints", "why_tests_cant": "Tests compare characters with traces at sampled elements and low frequencies; the branch close to the identity is never reached by them.", "anchors": ["escnn/group/groups/so3_utils.py:204-219", "escnn/group/groups/so3group.py:538-655", "escnn/group/groups/so3group.py:880-886", "escnn/group/groups/so3group.py:933-938", "escnn/group/groups/o3group.py:1188-1194", "escnn/group/groups/o3group.py:1251-1262"]}
{"id": "C91", "title": "The gated nonlinearity on induced representations gates sub-fields and is equivariant", "statement": "Every InducedGatedNonLinearity1 that can be constructed multiplies the j-th sub-field of each gated field by the logistic function of entry j of one gate field minus its bias, each gate serving one gated field; the result has the output type; tensors of other types are refused; the map commutes with every element whose matrices permute the cosets of all gate and gated fields in the same way. With drop_gates=False the gates are stacked with the gated fields in the output.", "quantifier": "all lists of fields in all orders, all gate lists, all biases and inputs, all block-permuting matrices", "why_tests_cant": "Tests use a few small types with drop_gates=True; keeping the gates is never run, and the order of interleaved fields of different sizes is sampled.", "anchors": ["escnn/nn/modules/nonlinearities/induced_gated1.py:24-188", "escnn/nn/modules/nonlinearities/induced_gated1.py:190-260"]}
{"id": "C92", "title": "homomorphism_space and endomorphism_basis give bases of all intertwiners", "statement": "For any two representations of C_N, D_N, SO(2) or O(2) described by their irreps and a change of basis, homomorphism_space returns linearly independent matrices whose combinations are exactly the matrices intertwining the first with the second; Representation.endomorphism_basis returns a basis of the commutant; the number of matrices is the sum of sum_of_squares_constituents over the pairs of equal irreps, and it is zero, with no intertwiners but zero, for representations without a common irrep.", "quantifier": "all C_N, D_N, SO(2), O(2), all lists of irreps with any multiplicities and order, all invertible changes of basis, all matrices", "why_tests_cant": "Tests check that sampled basis matrices commute with sampled elements for small representations; that no intertwiner is missing and that the matrices are independent is not tested.", "anchors": ["escnn/group/representation.py:391-435", "escnn/group/representation.py:1068-1116"]}
{"id": "C93", "title": "A kernel basis with an adjoint is steerable for the conjugated action", "statement": "For an orthogonal matrix A, the kernels of kernels_O2_subgroup_act_R2 with adjoint=A are the kernels without it evaluated at A x; for C_N and SO(2) they are steerable under x -> A^T g(A x); iterating agrees with indexing; passing the rotation by minus the axis gives the kernels built with that axis; matrices that are not 2x2 or not orthogonal up to the tolerance are refused, and matrices close to the identity are ignored. Adjoint bases that compare equal have equal hashes.", "quantifier": "all orthogonal 2x2 matrices, all C_N and SO(2), all radii, frequencies, filters, representations, points and basis elements", "why_tests_cant": "No test passes an adjoint to a kernel basis of the plane; sampling could not tell A from its transpose for matrices of order two.", "anchors": ["escnn/kernels/basis.py:103-164", "escnn/kernels/r2.py:71-193"]}
{"id": "C94", "title": "Subgroup ids of direct products compose", "statement": "For a subgroup H = H1 x H2 of G1 x G2 and a subgroup K of H, _combine_subgroups returns the id of a subgroup of G1 x G2 that is the same group as K and whose inclusion is the inclusion of K in H followed by that of H in G1 x G2.", "quantifier": "all products of cyclic and dihedral groups, all documented subgroup ids of G and of H, all elements of K", "why_tests_cant": "The tests compose subgroup ids of planar and spatial groups only; a product has quadratically many pairs of nested ids, and products with a trivial factor are never nested.", "anchors": ["escnn/group/directproduct.py:440-502", "escnn/group/groups/cyclicgroup.py:313-319", "escnn/group/groups/dihedralgroup.py:368-382"]}
{"id": "C95", "title": "Subgroup ids survive their picklable encoding", "statement": "_encode_subgroup_id_pickleable replaces every group element in a subgroup id by plain data, gives different encodings to different ids, and _decode_subgroup_id_pickleable restores the id, for a group and for a direct product whose ids contain elements of the product or of its factors, including products of products.", "quantifier": "all nested tuples of ints, booleans, None, strings and valid group elements without empty tuples or tuples that begin with a tag string, all groups and products", "why_tests_cant": "The encoding is only exercised through the cache of restricted irreps, where a wrong key returns a stale but well-formed result; ids nest arbitrarily.", "anchors": ["escnn/group/group.py:866-887", "escnn/group/directproduct.py:616-648", "escnn/group/irrep.py:240-288"]}
{"id": "C96", "title": "Irreps of SO(3) and O(3) can be named in every supported way, and O(3) has all its coefficients", "statement": "get_irrep_id gives the id of an irrep passed as an object, as a name, as its id or as its only frequency, and refuses irreps of other groups, so that _tensor_product_irreps does not depend on how the irreps are named. For all irreps m, n, j of O(3), _clebsh_gordan_coeff returns the coefficients of SO(3) when the parities agree, in particular for every j listed by _tensor_product_irreps, and an array with multiplicity zero otherwise.", "quantifier": "all irreps of SO(3) and O(3), all dictionaries of representations, all ways to name the irreps", "why_tests_cant": "The tests pass ids and ask only for the irreps listed in the tensor product, so neither the name branch nor the branch for the other parity is ever run.", "anchors": ["escnn/group/group.py:853-864", "escnn/group/groups/so3group.py:880-886", "escnn/group/groups/o3group.py:1188-1205"]}
{"id": "C97", "title": "The generalized He initialization gives every output unit total variance", "statement": "For every output irrep of a layer, the variances that generalized_he_init gives to the weights into it add up to one and are shared equally between the different input irreps; every factor is positive and at most one; using the cache does not change the weights.", "quantifier": "all lists of basis elements with any input irreps and output positions, all samples, all states of the cache", "why_tests_cant": "The tests sample the variance of the outputs statistically for a few layers, with tolerances of several percent.", "anchors": ["escnn/nn/init.py:16-84"]}
{"id": "C98", "title": "The delta-orthogonal initialization is normalized and confined to the centre", "statement": "deltaorthonormal_init sets to zero every weight off the centre of the kernel or between different irreps. For every irrep with no more outputs than inputs the weights into each output position have norm one; with no more inputs than outputs the weights out of each input position have norm one.", "quantifier": "all lists of basis elements accepted by the asserts, all orthogonal matrices and all samples without vanishing rows", "why_tests_cant": "The tests run the initialization on a few layers and check the outputs statistically; they do not look at the weights per position.", "anchors": ["escnn/nn/init.py:87-163"]}
