{
 "claims": [
  {
   "property": "C01",
   "status": "proved",
   "theorems": [
    "C01_cyclic_group"
   ],
   "note": ""
  },
  {
   "property": "C02",
   "status": "proved",
   "theorems": [
    "C02_dihedral_group"
   ],
   "note": ""
  },
  {
   "property": "C03",
   "status": "proved",
   "theorems": [
    "C03_cyclic_subgroups"
   ],
   "note": ""
  },
  {
   "property": "C04",
   "status": "proved",
   "theorems": [
    "C04_dihedral_subgroups"
   ],
   "note": ""
  },
  {
   "property": "C05",
   "status": "proved",
   "theorems": [
    "C05_accepted_axis_refuted",
    "C05_usable_ids_are_the_documented_ones"
   ],
   "note": "REFUTED as stated: for every M > 1 the accepted axes N/M <= axis < N give inclusion and restriction maps that raise ValueError. The second theorem shows that the accepted ids with a total restriction map are exactly the documented ones."
  },
  {
   "property": "C06",
   "status": "proved",
   "theorems": [
    "C06_nested_subgroups"
   ],
   "note": ""
  },
  {
   "property": "C07",
   "status": "proved",
   "theorems": [
    "C07_product_group",
    "C07_product_elements",
    "C07_product_generators",
    "C07_product_pairing",
    "C07_instances"
   ],
   "note": ""
  },
  {
   "property": "C08",
   "status": "proved",
   "theorems": [
    "C08_restriction_refuted",
    "C08_wrong_element_refuted",
    "C08_inclusion_ok",
    "C08_one_trivial_ok",
    "C08_same_factor_ok",
    "C08_diagonal_ok",
    "C08_instances"
   ],
   "note": "REFUTED as stated: _subgroup passes the second restriction map for both coordinates. Proved: inclusion is always an embedding; restriction is right when one subgroup is trivial, when factor and id coincide, and for the diagonal."
  },
  {
   "property": "C09",
   "status": "proved",
   "theorems": [
    "C09_cyclic_round_trip",
    "C09_dihedral_round_trip",
    "C09_cyclic_matrix_refuted",
    "C09_dihedral_matrix_refuted",
    "C09_cyclic_matrix_collapses",
    "C09_so2_round_trip",
    "C09_o2_round_trip"
   ],
   "note": "REFUTED as stated: the rotation-matrix parametrisation of C_N and D_N survives exactly when N <= 2 (the sine is computed as element[1,0]-element[1,0]). int and radians round trips, and all of SO(2), O(2), are proved."
  },
  {
   "property": "C10",
   "status": "proved",
   "theorems": [
    "C10_so2_group",
    "C10_o2_group",
    "C10_inclusions_embed",
    "C10_inclusion_image",
    "C10_restriction_inverts",
    "C10_dihedral_restriction_refuted",
    "C10_dihedral_restriction_raises",
    "C10_restriction_complete",
    "C10_restriction_sound",
    "C10_so2_restriction_total_refuted"
   ],
   "note": "REFUTED as stated: the restriction to D_M about an axis inverts the inclusion exactly when axis < 2 pi / M and otherwise raises; the restriction of SO(2) to C_M raises on angles just below a full turn. Group laws, embeddings, images and all other restrictions are proved."
  },
  {
   "property": "C11",
   "status": "proved",
   "theorems": [
    "C11_cyclic_irreps"
   ],
   "note": ""
  },
  {
   "property": "C12",
   "status": "proved",
   "theorems": [
    "C12_dihedral_irreps",
    "C12_accepted_ids"
   ],
   "note": ""
  },
  {
   "property": "C13",
   "status": "proved",
   "theorems": [
    "C13_so2_irreps",
    "C13_o2_irreps",
    "C13_modulo_full_turns"
   ],
   "note": ""
  },
  {
   "property": "C14",
   "status": "proved",
   "theorems": [
    "C14_built_irreps",
    "C14_dimensions",
    "C14_regular_character"
   ],
   "note": ""
  },
  {
   "property": "C15",
   "status": "proved",
   "theorems": [
    "C15_cyclic_restriction"
   ],
   "note": ""
  },
  {
   "property": "C16",
   "status": "proved",
   "theorems": [
    "C16_dihedral_restriction"
   ],
   "note": ""
  },
  {
   "property": "C17",
   "status": "proved",
   "theorems": [
    "C17_planar_restriction"
   ],
   "note": ""
  },
  {
   "property": "C18",
   "status": "proved",
   "theorems": [
    "C18_cyclic",
    "C18_so2"
   ],
   "note": ""
  },
  {
   "property": "C19",
   "status": "proved",
   "theorems": [
    "C19_homomorphism",
    "C19_planar_irreps",
    "C19_change_basis",
    "C19_single_irrep_size_refuted"
   ],
   "note": "REFUTED: with a single irrep the constructor skips the size check, so a basis of another size is accepted. Proved for every list whose total size matches the basis"
  },
  {
   "property": "C20",
   "status": "proved",
   "theorems": [
    "C20_direct_sum",
    "C20_small_basis_refuted"
   ],
   "note": "REFUTED: a basis within the allclose tolerance of the identity is dropped from the values but stored. Proved for every basis that is the identity or outside that tolerance"
  },
  {
   "property": "C21",
   "status": "proved",
   "theorems": [
    "C21_restriction",
    "C21_finite",
    "C21_planar"
   ],
   "note": ""
  },
  {
   "property": "C22",
   "status": "proved",
   "theorems": [
    "C22_representatives",
    "C22_same_coset",
    "C22_regular",
    "C22_regular_planar",
    "C22_induced",
    "C22_induced_planar",
    "C22_sharp_restrictions",
    "C22_irreps_disjoint"
   ],
   "note": "the induced representation is the right one, with an exactly orthogonal change of basis, whenever the loop passes its checks and the basis is not within 1e-8 of the identity without being it (see C20)"
  },
  {
   "property": "C23",
   "status": "proved",
   "theorems": [
    "C23_generation",
    "C23_checked",
    "C23_planar"
   ],
   "note": ""
  },
  {
   "property": "C24",
   "status": "proved",
   "theorems": [
    "C24_disentangle",
    "C24_small_entries_refuted"
   ],
   "note": "REFUTED: an entry of the change of basis below the tolerance of np.isclose is dropped, and the returned list is then not equivalent to the input. Proved for every change of basis whose entries are not close to 0 or 1 without being equal"
  },
  {
   "property": "C25",
   "status": "proved",
   "theorems": [
    "C25_histories",
    "C25_default_names",
    "C25_first_wins_refuted",
    "C25_fiber_bases",
    "C25_kernel_bases",
    "C25_restricted_refuted"
   ],
   "note": "REFUTED: the first request for a name wins: explicit names, the `representatives` argument (not part of the default name), and restrictions of one irrep to different subgroups, which share a name, get the result of an earlier request. Proved for every history when the requests leave the optional arguments out, and for kernel bases when names identify representations."
  },
  {
   "property": "C26",
   "status": "proved",
   "theorems": [
    "C26_moves",
    "C26_composition",
    "C26_identity"
   ],
   "note": "exact branch, exact signed permutation matrices; scipy's affine_transform is not modelled"
  },
  {
   "property": "C27",
   "status": "proved",
   "theorems": [
    "C27_wigner_eckart",
    "C27_restricted",
    "C27_rotation_groups"
   ],
   "note": "For every group given with irreps, tensor products and Clebsch-Gordan coefficients that intertwine, and every steerable filter basis; C_N and SO(2) are shown to satisfy the assumptions."
  },
  {
   "property": "C28",
   "status": "proved",
   "theorems": [
    "C28_wigner_eckart",
    "C28_restricted",
    "C28_plane",
    "C28_restrictions_sharp",
    "C28_point"
   ],
   "note": "Changes of basis must not be merely close to the identity (np.allclose), in which case the library drops them. C28_plane and C28_point carry the result to the factory functions for C_N and SO(2)."
  },
  {
   "property": "C29",
   "status": "proved",
   "theorems": [
    "C27_wigner_eckart",
    "C27_restricted",
    "C28_wigner_eckart",
    "C28_restricted",
    "C29_union",
    "C29_union_samples",
    "C29_spherical",
    "C29_circular_refuted"
   ],
   "note": "REFUTED for CircularShellsBasis: its __getitem__ fails for every index. Holds for SphericalShellsBasis, UnionBasis, WignerEckartBasis, RestrictedWignerEckartBasis and SteerableKernelBasis (second halves of C27_* and C28_*)."
  },
  {
   "property": "C30",
   "status": "proved",
   "theorems": [
    "C30_circular",
    "C30_samples"
   ],
   "note": "Axes must not be so small that np.allclose takes their rotation for the identity."
  },
  {
   "property": "C31",
   "status": "proved",
   "theorems": [
    "C31_refuted",
    "C31_equal"
   ],
   "note": "REFUTED: CircularShellsBasis equality ignores the reflection axis; bases with different axes compare equal and sample differently."
  },
  {
   "property": "C32",
   "status": "proved",
   "theorems": [
    "C32_iter",
    "C32_single",
    "C32_per_irrep_unfiltered",
    "C32_per_irrep_zero",
    "C32_per_irrep_refuted",
    "C32_unfiltered_refuted",
    "C32_filtered"
   ],
   "note": "REFUTED for steerable_attrs_j_iter with a filter and frequency > 0 (reads the mask of frequency 0) and for steerable_attrs without a filter (always asserts). The remaining accessors are proved correct for all filters."
  },
  {
   "property": "C33",
   "status": "proved",
   "theorems": [
    "C33_tile",
    "C33_sorted"
   ],
   "note": "Also FieldType.sorted. A representation is an arbitrary type with a size."
  },
  {
   "property": "C34",
   "status": "proved",
   "theorems": [
    "C34_selects",
    "C34_lists_accepted",
    "C34_refuted"
   ],
   "note": "REFUTED for integers below the range: x[:, z] with -2n <= z <= -n-2 selects field z+2n instead of raising. For every other index expression (ints, slices with any step, masks, index lists, with or without Ellipsis) C34_selects holds."
  },
  {
   "property": "C35",
   "status": "proved",
   "theorems": [
    "C35_split",
    "C35_accepts",
    "C35_refuted_default",
    "C35_refuted_zero",
    "C35_refuted_caller"
   ],
   "note": "REFUTED: split(None) and break lists starting with 0 (both documented) always raise, and split appends to the caller's list. C35_split proves the rest for every accepted list, and C35_accepts says which lists those are."
  },
  {
   "property": "C36",
   "status": "proved",
   "theorems": [
    "C36_reshuffle",
    "C36_branch",
    "C36_merge",
    "C36_consecutive",
    "C36_indexes"
   ],
   "note": ""
  },
  {
   "property": "C37",
   "status": "proved",
   "theorems": [
    "C37_runs",
    "C37_get",
    "C37_append_after_drop",
    "C37_refuted"
   ],
   "note": "REFUTED: after a slice that drops the first k of n modules with 2k <= n, append overwrites a module. Holds for every history in which no module is appended to such a slice or to a sequence built from named modules."
  },
  {
   "property": "C38",
   "status": "proved",
   "theorems": [
    "C38_conv",
    "C38_transposed",
    "C38_tuple_refuted",
    "C38_pool_floor",
    "C38_pool_ceil",
    "C38_pool_ceil_refuted",
    "C38_norm_max",
    "C38_norm_max_refuted",
    "C38_multiple_refuted",
    "C38_point_refuted",
    "C38_sequential"
   ],
   "note": "REFUTED: holds for convolutions and transposed convolutions with integer padding, for pooling without ceil_mode and for sequences; with ceil_mode the prediction is one too large exactly when the last window would start outside, NormMaxPool ignores ceil_mode and raises, tuple paddings are accepted but the prediction raises, MultipleModule and point convolutions always raise. Adaptive pooling, upsampling and Linear, whose prediction repeats the constructor argument, are not modelled."
  },
  {
   "property": "C39",
   "status": "proved",
   "theorems": [
    "C39_weights",
    "C39_escaped_names_refuted",
    "C39_same_name_refuted",
    "C39_empty_basis_refuted"
   ],
   "note": "REFUTED in full generality, proved whenever the escaped names tell the representations apart. C39_escaped_names_refuted: names that differ only in '.' and '^' share modules and indices. C39_same_name_refuted: different representations with one name share one basis. C39_empty_basis_refuted: a single pair of representations with an empty basis can be constructed but not expanded. The cache of sampled blocks is not modelled."
  },
  {
   "property": "C40",
   "status": "proved",
   "theorems": [
    "C40_invariant",
    "C40_built",
    "C40_complete",
    "C40_planar"
   ],
   "note": ""
  },
  {
   "property": "C41",
   "status": "proved",
   "theorems": [
    "C41_equivariant",
    "C41_stride_needed"
   ],
   "note": "In any dimension, for every padding mode, groups, stride, dilation and invariant bias. torch's conv2d/conv3d and pad are modelled by their definitions; padding is an integer."
  },
  {
   "property": "C42",
   "status": "proved",
   "theorems": [
    "C42_linear",
    "C42_linear_defined",
    "C42_conv",
    "C42_refuted",
    "C42_conv_frozen",
    "C42_point",
    "C42_point_refuted",
    "C42_point_frozen"
   ],
   "note": "REFUTED: for convolutions eval(), update, eval() keeps the filter of the first eval(), and point convolutions in evaluation mode mix the current filter with the old bias. Holds for Linear and TensorProductModule, and for all layers if weights change only in training mode."
  },
  {
   "property": "C43",
   "status": "proved",
   "theorems": [
    "C43_action",
    "C43_norm_built",
    "C43_norm_value",
    "C43_norm_equivariant",
    "C43_induced_value",
    "C43_induced_equivariant"
   ],
   "note": ""
  },
  {
   "property": "C44",
   "status": "proved",
   "theorems": [
    "C44_gated1_value",
    "C44_gated1_equivariant",
    "C44_gated2_value",
    "C44_gated2_equivariant",
    "C44_gated3_value",
    "C44_gated3_equivariant"
   ],
   "note": ""
  },
  {
   "property": "C45",
   "status": "proved",
   "theorems": [
    "C45_value",
    "C45_doubled",
    "C45_represents",
    "C45_identity",
    "C45_accepts",
    "C45_equivariant"
   ],
   "note": ""
  },
  {
   "property": "C46",
   "status": "proved",
   "theorems": [
    "C46_value",
    "C46_equivariant",
    "C46_refuted",
    "C46_two_one_field"
   ],
   "note": "REFUTED: for N = 2 and two or more fields the forward pass always raises. Holds for N > 2 and for N = 2 with one field."
  },
  {
   "property": "C47",
   "status": "proved",
   "theorems": [
    "C47_pointwise",
    "C47_pointwise_functions",
    "C47_pointwise_equivariant",
    "C47_group_pooling_built",
    "C47_group_pooling",
    "C47_group_pooling_invariant"
   ],
   "note": ""
  },
  {
   "property": "C48",
   "status": "proved",
   "theorems": [
    "C48_norm_pool",
    "C48_norm_pool_invariant",
    "C48_norm_pool_built",
    "C48_induced_pool",
    "C48_induced_pool_invariant"
   ],
   "note": ""
  },
  {
   "property": "C49",
   "status": "proved",
   "theorems": [
    "C49_norm_value",
    "C49_norm_histories",
    "C49_norm_reset",
    "C49_norm_reset_refuted",
    "C49_inner_value",
    "C49_inner_histories",
    "C49_inner_reset",
    "C49_inner_export",
    "C49_inner_points_refuted"
   ],
   "note": "For any sequence of training/evaluation calls, optimiser steps and resets; the matrices may differ from point to point and the points may be reordered. C49_inner_points_refuted: InnerBatchNorm raises on every tensor without spatial axes (no_base_space and point clouds). C49_norm_reset_refuted: NormBatchNorm.reset_parameters raises when affine=False. torch's BatchNorm is modelled by its documentation; empty batches are not modelled."
  },
  {
   "property": "C50",
   "status": "proved",
   "theorems": [
    "C50_pointwise",
    "C50_quotient",
    "C50_value"
   ],
   "note": "FourierPointwise and QuotientFourierPointwise, with or without separate output irreps. numpy.linalg.inv is any function that returns an inverse when there is one."
  },
  {
   "property": "C51",
   "status": "proved",
   "theorems": [
    "C51_messages",
    "C51_same_messages",
    "C51_one_group",
    "C51_any_type_refuted",
    "C51_consecutive_raises",
    "C51_dotted_name_raises"
   ],
   "note": "REFUTED: with groups > 1 and output fields that are not `groups` copies of one list, both orders are accepted and differ (C51_any_type_refuted). Proved for every output type that consists of such copies (the types _RdPointConv builds) and, without groups, for every type, including raising together. The exact value of both orders and the exact acceptance condition of conv_first=True are C51_messages; conv_first=True raises for consecutive channels of a pair when groups > 1 (C51_consecutive_raises)."
  },
  {
   "property": "C52",
   "status": "proved",
   "theorems": [
    "C52_built",
    "C52_values",
    "C52_invariant",
    "C52_commutes"
   ],
   "note": ""
  },
  {
   "property": "C53",
   "status": "proved",
   "theorems": [
    "C53_right_nested_refuted",
    "C53_left_nested_ok",
    "C53_split_inverts_pairing"
   ],
   "note": "REFUTED as stated: a product whose second factor is a product cannot construct any element. Left-nested products are proved to work."
  },
  {
   "property": "C54",
   "status": "proved",
   "theorems": [
    "C54_cyclic_combine",
    "C54_dihedral_combine",
    "C54_dihedral_inverse",
    "C54_cyclic_inverse_refuted"
   ],
   "note": "REFUTED for the cyclic inverse in radians, which raises for every element; proved for the rest."
  },
  {
   "property": "C55",
   "status": "proved",
   "theorems": [
    "C55_finite_equality",
    "C55_finite_hash",
    "C55_reflexive",
    "C55_symmetry_refuted",
    "C55_hash_refuted"
   ],
   "note": "REFUTED for SO(2) and O(2): equality is not symmetric and equal elements may hash differently. Proved for C_N and D_N."
  },
  {
   "property": "C56",
   "status": "proved",
   "theorems": [
    "C56_endomorphism_basis"
   ],
   "note": ""
  },
  {
   "property": "C57",
   "status": "proved",
   "theorems": [
    "C57_band_limited"
   ],
   "note": ""
  },
  {
   "property": "C58",
   "status": "proved",
   "theorems": [
    "C58_equivariant",
    "C58_output_padding_needed"
   ],
   "note": "Without output padding; C58_output_padding_needed shows that it fails with output_padding=1. torch's conv_transpose2d/3d are modelled by their definition; padding is an integer."
  },
  {
   "property": "C59",
   "status": "proved",
   "theorems": [
    "C59_value",
    "C59_equivariant",
    "C59_eval",
    "C59_accepted",
    "C59_inplace_refuted",
    "C59_p_one_refuted",
    "C59_pointwise_p_one"
   ],
   "note": "REFUTED for inplace=True and for p=1, proved otherwise. C59_inplace_refuted: with inplace=True the fields of a size that is interrupted by another size are never dropped. C59_p_one_refuted: p=1 is accepted and every output is 0/0."
  },
  {
   "property": "C60",
   "status": "proved",
   "theorems": [
    "C60_irrep",
    "C60_rejects",
    "C60_character",
    "C60_list",
    "C60_planar",
    "C60_all"
   ],
   "note": "For factors of real or complex type; no base group of the library that is modelled has irreps of quaternionic type. C60_planar: C_N, D_N, SO(2), O(2) meet the hypotheses; C60_irrep gives the same form back, so products of products are covered."
  },
  {
   "property": "C61",
   "status": "proved",
   "theorems": [
    "C61_layer",
    "C61_built",
    "C61_runs",
    "C61_equivariant",
    "C61_quarter_turns"
   ],
   "note": "C61_layer is for any group and dimension with the kernel samples as a parameter; the others instantiate it with the circular harmonics kernels of R2Conv for groups of rotations. Changes of basis that np.allclose takes for the identity without being it are excluded (sharp). Strides that do not fit the padded image are excluded (C41 shows why)."
  },
  {
   "property": "C62",
   "status": "proved",
   "theorems": [
    "C62_groups",
    "C62_closed",
    "C62_matrix",
    "C62_matrix_o3",
    "C62_equal",
    "C62_equal_o3",
    "C62_hash_refuted"
   ],
   "note": "REFUTED for hashes: elements that compare equal may have different hashes, at a rounding boundary of the matrix entries (C62_hash_refuted); elements with exactly the same matrix have equal hashes (C62_equal). All else holds."
  },
  {
   "property": "C63",
   "status": "proved",
   "theorems": [
    "C63_subgroups"
   ],
   "note": "Ids (f, n) and (f, axis, n) as documented, 'so3' and all adjoints; the polyhedral groups 'ico', 'octa', 'tetra' are not modelled."
  },
  {
   "property": "C64",
   "status": "proved",
   "theorems": [
    "C64_combine"
   ],
   "note": "Ids as in C63; the case of subgroups of the icosahedral group is not modelled."
  },
  {
   "property": "C65",
   "status": "proved",
   "theorems": [
    "C65_subgroups",
    "C65_cone_axis_refuted",
    "C65_cone_axis"
   ],
   "note": "REFUTED for cones with an explicit axis: the mirrors come out with the axis turned the other way (C65_cone_axis_refuted; C65_cone_axis says what is returned). All other ids are correct (C65_subgroups). The polyhedral groups 'ico', 'octa', 'tetra' are not modelled."
  },
  {
   "property": "C66",
   "status": "proved",
   "theorems": [
    "C66_combine",
    "C66_combine_refuted",
    "C66_planar_raises"
   ],
   "note": "REFUTED in general. C66_combine is an iff: it holds for all subgroups of O(3) and SO(3), never for those of planar rotations or of cylinders, and for pyramids inside cones only when three times the angle of the axis is a full turn."
  },
  {
   "property": "C67",
   "status": "proved",
   "theorems": [
    "C67_value",
    "C67_histories",
    "C67_export",
    "C67_resets",
    "C67_independent_refuted",
    "C67_names_refuted"
   ],
   "note": "REFUTED in two respects, proved otherwise. C67_independent_refuted: in training the points of a batch must be transformed by one element, different elements change the running variances. C67_names_refuted: two representations that share a name but not the change of basis share buffers and the output is not equivariant. C67_value, C67_histories, C67_export and C67_resets hold for all types whose names are apart; in training one orthogonal element for the whole batch."
  },
  {
   "property": "C68",
   "status": "proved",
   "theorems": [
    "C68_value",
    "C68_histories",
    "C68_export",
    "C68_resets",
    "C68_axes_refuted",
    "C68_export_refuted"
   ],
   "note": "REFUTED for numbers of spatial axes and for the export with a change of basis. C68_axes_refuted: with a change of basis every input without exactly two spatial axes raises, and so does the exported BatchNorm3d on every input the module accepts. C68_export_refuted: the exported variances are also wrong in value. C68_value, C68_histories and C68_resets hold in general (two spatial axes, or no change of basis); C68_export without a change of basis and for a momentum between 0 and 1. Changes of basis that np.allclose takes for the identity without being it are excluded (sharp)."
  },
  {
   "property": "C69",
   "status": "proved",
   "theorems": [
    "C69_value",
    "C69_histories",
    "C69_trivial",
    "C69_resets",
    "C69_skew_refuted"
   ],
   "note": "REFUTED for representations whose matrices are not orthogonal, which the constructor accepts (C69_skew_refuted). C69_value and C69_trivial hold for all types whose names are apart, C69_histories for all of these with orthogonal matrices, also for different elements at different points."
  },
  {
   "property": "C70",
   "status": "proved",
   "theorems": [
    "C70_value",
    "C70_histories",
    "C70_resets",
    "C70_reset_refuted"
   ],
   "note": "REFUTED in the last clause: without weights reset_parameters raises (C70_reset_refuted). The other clauses hold for all types the constructor accepts."
  },
  {
   "property": "C71",
   "status": "proved",
   "theorems": [
    "C71_max_value",
    "C71_avg_value",
    "C71_max",
    "C71_avg",
    "C71_max_refuted",
    "C71_avg_refuted",
    "C71_export",
    "C71_export_refuted",
    "C71_shape"
   ],
   "note": "REFUTED in two respects, proved otherwise. C71_max_refuted, C71_avg_refuted: with sizes the windows do not fit the layers are not equivariant, in either rounding mode. C71_export_refuted: the export of max pooling drops ceil_mode and gives another shape. C71_max_value and C71_avg_value hold for all arguments, C71_max and C71_avg for all sizes that fit, C71_export in floor mode or for sizes that fit."
  },
  {
   "property": "C72",
   "status": "proved",
   "theorems": [
    "C72_avg",
    "C72_max",
    "C72_constant",
    "C72_avg_shape",
    "C72_default_padding",
    "C72_max_shape",
    "C72_max_shape_refuted"
   ],
   "note": "REFUTED for the predicted shape of the antialiased max pooling: the padding is applied twice, so that with a padding of at least half the stride the prediction is always wrong (C72_max_shape_refuted). The other clauses hold in general; C72_max_shape without padding and in floor mode."
  },
  {
   "property": "C73",
   "status": "proved",
   "theorems": [
    "C73_value",
    "C73_commutes",
    "C73_shape"
   ],
   "note": "All clauses, for all sizes."
  },
  {
   "property": "C74",
   "status": "proved",
   "theorems": [
    "C74_value",
    "C74_typed",
    "C74_commutes",
    "C74_ties_refuted"
   ],
   "note": "REFUTED where two different vectors of a field in one window have the same, largest norm: torch takes the first in scanning order (C74_ties_refuted). C74_value holds for all arguments with which the forward pass returns (C38_norm_max says which); C74_commutes for all sizes that fit and inputs without such ties, which is what the layer needs."
  },
  {
   "property": "C75",
   "status": "proved",
   "theorems": [
    "C75_conv",
    "C75_padding_mode_refuted",
    "C75_transposed",
    "C75_output_padding_refuted",
    "C75_linear",
    "C75_linear_eval_refuted",
    "C75_sequential",
    "C75_sequential_conv"
   ],
   "note": "REFUTED in three respects, proved otherwise. C75_padding_mode_refuted: the export of a convolution always pads with zeros. C75_output_padding_refuted: the export of a transposed convolution drops output_padding, so the shapes always differ. C75_linear_eval_refuted: a Linear layer in evaluation mode whose parameters were set since computes with the old ones, its export with the new ones. Zero padding, no output padding, and training mode: C75_conv, C75_transposed, C75_linear."
  },
  {
   "property": "C76",
   "status": "proved",
   "theorems": [
    "C76_returns",
    "C76_linear_value",
    "C76_aligned_value",
    "C76_nearest_value",
    "C76_shape",
    "C76_commutes",
    "C76_nearest_refuted",
    "C76_corner_refuted",
    "C76_scale_refuted"
   ],
   "note": "REFUTED where the places that are read are not symmetric, proved otherwise. C76_nearest_refuted: 'nearest' never commutes with half turns when the output size is not a multiple of the input size (the documentation warns of this mode). C76_corner_refuted: align_corners with one output pixel. C76_scale_refuted: a scale factor that does not take the size to an integer. C76_linear_value and C76_nearest_value are for scale factors that take the sizes to integers or for given sizes; C76_commutes also needs one size for all axes."
  },
  {
   "property": "C77",
   "status": "proved",
   "theorems": [
    "C77_conv",
    "C77_transposed",
    "C77_linear",
    "C77_r2conv",
    "C77_r2conv_transposed",
    "C77_rotations_linear"
   ],
   "note": "C77_conv, C77_transposed and C77_linear hold for any group under the hypothesis that the sampled kernels are steerable; C77_r2conv, C77_r2conv_transposed and C77_rotations_linear discharge it for C_N and SO(2) with the kernels the code builds. Parameters are set to vectors of the right length. Loading buffers directly (load_state_dict) is not modelled."
  },
  {
   "property": "C78",
   "status": "proved",
   "theorems": [
    "C78_point_basis",
    "C78_linear",
    "C78_small_basis_refuted"
   ],
   "note": "REFUTED for changes of basis that shrink the samples: SingleBlockBasisExpansion drops elements whose mean square falls under its thresholds, so after a change of basis by 10^-7 a layer has no weight for maps that are equivariant (C78_small_basis_refuted). C78_point_basis holds for all representations; C78_linear for orthogonal changes of basis, which is what the library builds. sharp excludes changes of basis that np.allclose takes for the identity although they are not."
  },
  {
   "property": "C79",
   "status": "proved",
   "theorems": [
    "C79_any",
    "C79_rotations",
    "C79_character"
   ],
   "note": "C79_any holds for any group under the hypothesis that the coefficients of each pair of irreps decompose their product; C79_rotations discharges it for C_N and SO(2). For D_N and O(2) the coefficients are numeric (Group._clebsh_gordan_coeff) and only C79_any applies. sharp excludes changes of basis that np.allclose takes for the identity although they are not."
  },
  {
   "property": "C80",
   "status": "proved",
   "theorems": [
    "C80_any",
    "C80_value",
    "C80_commutes",
    "C80_commutes_point",
    "C80_projections",
    "C80_plain"
   ],
   "note": "C80_any holds for any group under hypotheses on its products and intertwiners; the other theorems discharge them for C_N and SO(2). sharp excludes changes of basis that np.allclose takes for the identity although they are not; C80_plain shows that direct sums of irreps meet it. The initialisation of the weights, the coordinates of point clouds and the check of the gspace are left out."
  },
  {
   "property": "C81",
   "status": "proved",
   "theorems": [
    "C81_space",
    "C81_restrict",
    "C81_refused",
    "C81_mirror_refuted",
    "C81_axis_refuted"
   ],
   "note": "REFUTED in general: O2._combine_subgroups adds the angles of two axes without reducing the sum, and O2._subgroup refuses sums past a full turn (C81_refused). With the default axis flipRot2dOnR2(8) cannot be restricted to the documented subgroup (5, 1), nor flipRot2dOnR2() to those about axes past a half turn. C81_space and C81_restrict hold for all other subgroups. clear_axis excludes axes so close to zero that np.allclose takes them for zero."
  },
  {
   "property": "C82",
   "status": "proved",
   "theorems": [
    "C82_restriction",
    "C82_disentangled",
    "C82_disentangle",
    "C82_dotted",
    "C82_dotted_refuted",
    "C82_typed"
   ],
   "note": "REFUTED in that DisentangleModule cannot be built for every type: register_buffer refuses names with a dot, which the quotient representations of O(2) have (C82_dotted, C82_dotted_refuted). The other theorems hold for all types without such names. named_apart says that different representations have different names; clear_cut and sharp exclude changes of basis that np.isclose or np.allclose misjudge. C82_restriction covers the spaces and subgroups of C81, also where images are interpolated; C82_disentangle covers elements that permute the pixels."
  },
  {
   "property": "C83",
   "status": "proved",
   "theorems": [
    "C83_sequential",
    "C83_sequential_steady",
    "C83_sum",
    "C83_directsum",
    "C83_reshuffle",
    "C83_multiple",
    "C83_multiple_steady",
    "C83_multiple_value",
    "C83_labels",
    "C83_caller_refuted",
    "C83_one_label_refuted",
    "C83_dotted_label_refuted",
    "C83_self_label_refuted"
   ],
   "note": "REFUTED in that MultipleModule does not leave its arguments alone and does not take all labels: MergeModule rewrites the caller's list, from which no second module can be built (C83_caller_refuted); the list of one label and labels with dots are refused, and with a label `self` no tensor passes. The rest holds for arbitrary modules that commute with the element (commutes), depend only on types and entries (steady), and for MultipleModule report their output shape (reliable). The elements are those that permute the pixels."
  },
  {
   "property": "C84",
   "status": "proved",
   "theorems": [
    "C84_steady",
    "C84_outputs",
    "C84_layer",
    "C84_network",
    "C84_invariant",
    "C84_whole_group"
   ],
   "note": "All networks of the seven kinds of layers. ready (SpecCnn) says that a layer was built for the type of its input and that strides and windows fit the sides; throughout asks this of the input each layer gets. The group is C_N or SO(2) without reflections (kernel bases with reflections need numerical Clebsch-Gordan coefficients). Modules with running statistics and the modules of C76 to C82 are not among the layers."
  },
  {
   "property": "C85",
   "status": "proved",
   "theorems": [
    "C85_commutes",
    "C85_rotations",
    "C85_translations",
    "C85_edge_order",
    "C85_renumbering",
    "C85_value",
    "C85_runs",
    "C85_params",
    "C85_params_accepted",
    "C85_profile"
   ],
   "note": "C85_commutes holds in any dimension for any kernels that are steerable at the sampled displacements; C85_rotations discharges this for R2PointConv with C_N or SO(2), every element, all weights, all graphs (reflections need numerical Clebsch-Gordan coefficients; R3PointConv and its kernels are not instantiated). Node numbers are naturals and every call expands the filter, as in training mode; the propagation of torch_geometric (aggr='mean', default flow) is modelled, not proved. A graph without edges is refused, and with several groups so are types where a connected pair of representations lies in one run of channels on both sides (C85_runs)."
  },
  {
   "property": "C86",
   "status": "proved",
   "theorems": [
    "C86_basis",
    "C86_planar",
    "C86_sharp",
    "C86_complete",
    "C86_planar_complete"
   ],
   "note": "C86_basis and C86_complete hold for any group whose irreps and restrictions are described correctly (inducible, described) and where the irreps in the restriction are psi or disjoint from it; C86_planar and C86_planar_complete discharge all this for SO(2), O(2), C_N and D_N, up to sharp_at, which C86_sharp proves unless the reflections of the subgroup are tilted. Orthonormality and completeness are over the commutant of rho, so for an irrep of complex type over the complex numbers. H is the subgroup in its own coordinates, as G.subgroup returns it."
  },
  {
   "property": "C87",
   "status": "proved",
   "theorems": [
    "C87_healpix",
    "C87_longlat",
    "C87_fibonacci",
    "C87_random",
    "C87_moved",
    "C87_quaternion",
    "C87_o3",
    "C87_so3_opposite",
    "C87_so3_inversion",
    "C87_so3_refuted",
    "C87_pole2point"
   ],
   "note": "REFUTED for SO3.sphere_grid: the returned elements take the pole to the points opposite to those of the grid (C87_so3_opposite), which matters for every grid without inversion symmetry (C87_so3_refuted: all longitude-latitude grids with an odd number of meridians); the rest is proved. Grids from polyhedral groups and numerical optimisation ('ico', 'cube', 'tetra', 'thomson') are not modelled; fibonacci with N = 1 divides zero by zero, a raise in the model. The matrix of adj in O(3) is that of C62, standard_representation is not unfolded."
  },
  {
   "property": "C88",
   "status": "proved",
   "theorems": [
    "C88_group",
    "C88_elements",
    "C88_check",
    "C88_cyclic",
    "C88_self",
    "C88_restriction_refuted",
    "C88_restriction_listed_refuted",
    "C88_faces",
    "C88_vertices",
    "C88_edges_refuted",
    "C88_documented_refuted",
    "C88_trivial_refuted"
   ],
   "note": "REFUTED in four places: the restriction to a cyclic subgroup misses elements written with the other quaternion (C88_restriction_refuted), also listed ones; cube_edges is not the action on the edges (C88_edges_refuted); half of the documented ids raise (C88_documented_refuted); restricting to the trivial subgroup names an irrep that does not exist (C88_trivial_refuted). The rest is proved for exact rotations of the cube. scipy's create_group('O') is written out in the model, its code is not in the repository."
  },
  {
   "property": "C89",
   "status": "proved",
   "theorems": [
    "C89_built",
    "C89_representation",
    "C89_irreducible",
    "C89_complete",
    "C89_frequencies",
    "C89_product",
    "C89_generation"
   ],
   "note": "All five irreps. The matrices of frequency 1 come from lie_learn's Wigner matrices, a parameter of the model that is assumed to be the rotation in the order y, z, x of the axes (which standard_representation undoes, octa.py:365-369); joblib's cache is left out. Elements are exact rotations of the cube."
  },
  {
   "property": "C90",
   "status": "proved",
   "theorems": [
    "C90_value",
    "C90_class",
    "C90_standard",
    "C90_o3_value",
    "C90_tensor",
    "C90_o3_tensor",
    "C90_orthonormal",
    "C90_restriction"
   ],
   "note": "All frequencies and all unit quaternions; the bound close to the identity is 2/3 l(l+1)(2l+1) 1e-16. That the characters are the traces of lie_learn's Wigner matrices is not part of the model, except for l = 1 where the rotation itself stands for it. The restriction lists irreps; its change of basis needs Wigner matrices and is left out, as are polyhedral subgroups and the restrictions of O(3). Orthonormality is stated with a primitive of the integrand."
  },
  {
   "property": "C91",
   "status": "proved",
   "theorems": [
    "C91_value",
    "C91_equivariant",
    "C91_type_checked",
    "C91_keep_gates_refuted"
   ],
   "note": "REFUTED for drop_gates=False with two gates or two batch entries: the forward pass raises for every input, because the gates are assigned with one dimension too many (induced_gated1.py:216-221). Proved for drop_gates=True with any number of gates (and for one gate in a batch of one): value, equivariance and type check."
  },
  {
   "property": "C92",
   "status": "proved",
   "theorems": [
    "C92_intertwiners",
    "C92_endomorphisms",
    "C92_dimension",
    "C92_disjoint"
   ],
   "note": "All representations of C_N, D_N, SO(2), O(2) described by their irreps (planar_repr, which the constructor and direct sums establish, C19-C20). Equality of irreps is equality of their ids."
  },
  {
   "property": "C93",
   "status": "proved",
   "theorems": [
    "C93_value",
    "C93_steerable",
    "C93_axis",
    "C93_close_ignored",
    "C93_refused",
    "C93_hash_refuted"
   ],
   "note": "REFUTED for hashes: two adjoint bases built from the same basis and matrix compare equal, but hash(self.adj) is the identity of the tensor object (basis.py:163-164), so their hashes differ. Proved: values, steerability for C_N and SO(2) (the groups of C28_plane), replacing the axis by an adjoint, and which matrices are refused or ignored."
  },
  {
   "property": "C94",
   "status": "proved",
   "theorems": [
    "C94_nested",
    "C94_collapsed_refuted"
   ],
   "note": "REFUTED when a factor of the first subgroup is trivial: subgroup() then returns the other factor alone (directproduct.py:486-489), whose subgroup ids are no product ids, and _combine_subgroups raises for every one of them. Proved when neither factor is trivial, for products of C_N and D_N; restriction maps of products are C08."
  },
  {
   "property": "C95",
   "status": "proved",
   "theorems": [
    "C95_roundtrip",
    "C95_product_roundtrip",
    "C95_injective",
    "C95_product_injective",
    "C95_picklable",
    "C95_product_picklable",
    "C95_nested_refuted"
   ],
   "note": "REFUTED for products of products: an element of an inner factor (every subgroup id of SO(3) and O(3) has one) makes the encoding raise ValueError (directproduct.py:633-648). Proved for ids whose elements belong to the group, or to the product and its two factors, without empty tuples and without tuples that begin with a tag string. Element values are opaque; that element(value, param) accepts a stored value is part of being a valid element."
  },
  {
   "property": "C96",
   "status": "proved",
   "theorems": [
    "C96_forms",
    "C96_foreign",
    "C96_so3_product",
    "C96_o3_product",
    "C96_names_refuted",
    "C96_listed",
    "C96_forbidden_refuted"
   ],
   "note": "REFUTED for names: get_irrep_id returns the representation instead of its id (group.py:860), and every caller raises on it. REFUTED for the Clebsch-Gordan coefficients of O(3) at an irrep of the other parity: np.zeros is called with four positional ints (o3group.py:1205) and raises instead of returning an array with multiplicity zero. Proved for irreps, ids and bare frequencies, and for all irreps listed by _tensor_product_irreps. The coefficients of SO(3) are a parameter."
  },
  {
   "property": "C97",
   "status": "proved",
   "theorems": [
    "C97_total",
    "C97_share",
    "C97_range",
    "C97_cached"
   ],
   "note": "All lists of basis elements. The normal samples are a parameter, so the variance of a weight is the square of its factor. The cache is keyed by the identity of the basis manager (torch.nn.Module)."
  },
  {
   "property": "C98",
   "status": "proved",
   "theorems": [
    "C98_zero",
    "C98_rows",
    "C98_columns"
   ],
   "note": "All lists of basis elements that pass the asserts of the function. Assumes of the draws that ortho_group.rvs is orthogonal and that no row of the normal samples vanishes. For one input and one output the random sign is always -1, because torch.randint(0, 1) excludes 1 (init.py:150)."
  }
 ]
}