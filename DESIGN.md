# DESIGN

Formal model of QUVA-Lab/escnn (pinned commit, source in `/repo`, read as text) in Rocq/Coq 8.16.1.

## Layout

* `rocq/theories/Lib*.v` – generic mathematics (finite sums, matrices as functions over R, lists, trigonometry). No model of the code.
* `rocq/theories/Spec*.v` – specifications, written without the model's helpers (what a group, a homomorphism, a representation, an intertwiner is...).
* `rocq/theories/*Model.v` – the model: Gallina functions mirroring the Python functions, each citing file and lines in `/repo`.
* `rocq/theories/*Proofs.v`, `*Thms.v`, `*Cor.v` – lemmas; `*Ex.v` – concrete instances used to show that hypotheses can be met and in refutations.
* `rocq/theories/P*.v` – property theorems only: each one is closed by `exact lemma`, followed by `Print Assumptions`, with `Example`s that show its hypotheses can be met.

## Modelling conventions (apply everywhere)

* Python `int` = `Z` (or `nat` for lengths, indices, sizes). `%` and `//` with a positive modulus = `Z.modulo`, `Z.div`.
* Python exceptions (AssertionError, ValueError, IndexError...) = values: `res A` is `Raise | Ret a` (a few of the first group models use `option`). Which exception is raised is not modelled.
* numpy/torch floats = exact real numbers `R` of the standard library. Rounding and overflow are not modelled. Comparisons with a tolerance (`np.allclose`, `np.isclose`, `math.isclose`) are modelled with their default tolerances where the code makes them.
* numpy matrices = functions `nat -> nat -> R` with explicit sizes; equality is pointwise inside the sizes. Batches and spatial positions of tensors are an arbitrary index type when the code treats positions independently.
* Dictionaries = association lists in insertion order, with Python's overwrite-in-place semantics.
* torch/numpy primitives (convolution, max pooling, einsum, view/reshape) are modelled by their documented index formulas.

## Trusted base

* Coq's kernel (8.16.1), and the axioms that `Print Assumptions` lists under each theorem (see the list at the end). All of them are declared by the standard library.
* That the Gallina definitions mirror the cited Python lines (checked by reading only).
* The simplifications above.
* Iteration order of Python sets is an arbitrary permutation (parameter `order`); `while` loops carry fuel, and theorems show that the fuel given suffices.

## Plan per property

* **C01 Cyclic groups are groups** – `CyclicModel`: elements as `Z` in [0,N); `_combine`, `_inverse`, `_is_element`, element list. Group laws against `Spec.is_group`; `NoDup`/completeness of the list by arithmetic.
* **C02 Dihedral groups are groups** – `DihedralModel`: pairs (flip, rot) over `Z`. Same specification.
* **C03 Cyclic subgroup inclusion and restriction are mutually consistent** – Subgroup maps as `Z -> Z` / `Z -> option Z`; specification `Spec.subgroup_maps` (injective hom; restriction h = Some k <-> inclusion k = h).
* **C04 Dihedral subgroup inclusion and restriction are mutually consistent** – Same for the three kinds of dihedral subgroup ids.
* **C05 Every accepted dihedral subgroup id yields a usable restriction** – Expected refuted: axis accepted up to N-1 while maps are only correct below N/M. Witness + proved range.
* **C06 Composing subgroup ids agrees with composing inclusions** – `_combine_subgroups` modelled on ids; theorem: composed inclusion = inclusion of the combined id.
* **C07 Direct products multiply componentwise and enumerate all pairs** – Direct product over arbitrary groups (section variables closed into the theorem).
* **C08 Restriction to a product subgroup inverts the inclusion** – Model the `restrict(self, H, child2, child2)` call as written; refutation with two different factors, positive theorem for the case where both restriction maps coincide and for the diagonal subgroup.
* **C09 Group elements survive a change of parametrisation** – Model `_change_param` over R with matrices; radians/int round trips proved, MAT refuted with a witness.
* **C10 SO(2) and O(2) are groups with consistent finite subgroups** – Angles in R modulo 2 pi (specification: existence of an integer multiple).
* **C11 Cyclic irreps are orthogonal representations with the declared character** – `psi` over R with cos/sin; homomorphism from addition formulas and periodicity.
* **C12 Dihedral irreps are orthogonal representations with the declared character** – Same with `psichi`.
* **C13 SO(2) and O(2) irreps are orthogonal representations** – Same, all real angles.
* **C14 Irreps of finite groups exhaust the regular representation** – Multiplicity rule and sizes; sums by induction / parity.
* **C15 Restricting a cyclic irrep to a subgroup preserves its values** – `_restrict_irrep` modelled; equality of 1x1/2x2 matrices using periodicity and parity of cosine/sine.
* **C16 Restricting a dihedral irrep to a subgroup preserves its values** – As C15, three id kinds.
* **C17 Restricting SO(2)/O(2) irreps preserves their values** – As C15 with real angles.
* **C18 Clebsch-Gordan decomposition of cyclic and SO(2) irreps is an orthogonal intertwiner** – 4x4 coefficient tables as matrices, Kronecker product formula; intertwining by trigonometric identities.
* **C19 Every Representation built from irreps is a group homomorphism** – Generic matrices; blockdiag of a list of irreps conjugated by an invertible matrix.
* **C20 Direct sums act blockwise** – Generic matrices; fold over the list.
* **C21 Restricting a representation preserves its values** – Generic: given per-irrep restriction correctness, the assembled representation has the right values.
* **C22 Regular and induced representations permute cosets correctly** – Coset loop as a fold over the element list; cover/disjointness invariants; induced matrices as block monomial matrices.
* **C23 Irreps generated from generators extend to the whole group** – BFS with a work-list over an arbitrary finite group; invariant: every stored matrix equals the homomorphism's value; completeness from the final assertion on the number of elements.
* **C24 Disentangle returns an equivalent block-diagonal representation** – Block partition loop on the zero pattern; permutation conjugation.
* **C25 Name-keyed caches return what was asked for** – Cache as an association list with the literal keys used; refutation for key collisions, positive theorem when keys are injective.
* **C26 Transforming a grid by grid symmetries is exact and functorial** – Array = shape + function on index tuples; signed permutation as (permutation, signs); functoriality.
* **C27 Wigner-Eckart kernels satisfy the steerability constraint** – Sums over indices mirroring the einsum strings; algebraic proof from intertwining hypotheses.
* **C28 Kernel bases for arbitrary representations stay steerable** – Block matrices and conjugation.
* **C29 Indexing a basis agrees with iterating over it** – Index arithmetic (`Z`/`nat` div/mod, square root) against the enumeration order; CircularShells expected refuted (always raises).
* **C30 Circular harmonics are steerable by O(2)** – cos/sin of k(theta-phi) with polar coordinates; angle addition.
* **C31 Equal bases produce equal samples** – Basis descriptors with the equality as written; refutation for the axis; cache history model.
* **C32 Filtered bases report attributes of the elements they keep** – Filter as a boolean list; loop as written; refutation with witness; positive theorem for no filter / prefix case.
* **C33 Field offsets tile the channels** – Lists of sizes; prefix sums.
* **C34 Indexing a GeometricTensor selects exactly the requested fields** – Index expressions as an inductive type; channel selection by the code's arithmetic vs. specification by fields.
* **C35 Splitting then concatenating is the identity** – Loop over breaks; concatenation inverse; refutations for `None`, leading 0, and for calling twice with the same list.
* **C36 Branching by label then merging restores the fields** – Label dictionaries as association lists; contiguity flag computed by the sum test.
* **C37 A SequentialModule runs the modules it was given, in order** – Module dictionary with overwrite semantics; refutation by slice + append; positive theorem for constructor/append histories.
* **C38 Shape prediction agrees with the computed output** – Integer formulas vs. torch's documented formulas; refutation for ceil_mode; proved for the others.
* **C39 Every weight drives exactly one block of the expanded filter** – Nested loops as list comprehensions; `nth` of the enumeration vs. div/mod decoding.
* **C40 Biases of convolution and linear layers are invariant** – Block structure; columns of the change of basis at trivial irreps.
* **C41 Steerable convolution on a square grid is exactly equivariant to grid rotations and reflections** – Images as functions Z^2 -> vector with zero extension; convolution sum; reindexing by the grid symmetry.
* **C42 Evaluation mode uses the current weights** – State machine with a history of operations; invariant by induction; refutation for weight changes in eval mode followed by a second eval().
* **C43 Norm nonlinearities are equivariant** – Field list, indices by size; orthogonality preserves norms.
* **C44 Gated nonlinearities are equivariant and use one gate per field** – Index bookkeeping as in the code; bijection gate <-> field; equivariance since gates are trivial.
* **C45 Concatenated nonlinearities are equivariant** – Signed permutation matrices; doubled representation.
* **C46 The vector-field nonlinearity is equivariant** – argmax as first maximum; cyclic shift; rotation by cos/sin.
* **C47 Pointwise nonlinearities and group pooling respect permutation representations** – Permutation matrices acting on vectors; max over a field.
* **C48 Norm pooling is invariant** – As C43.
* **C49 Batch normalisation commutes with the group action over any training history** – Running statistics recursion over a list of batches.
* **C50 Fourier pointwise nonlinearities are exactly equivariant on invariant grids** – A, A_inv as matrices, regularised pseudo-inverse characterised by its defining equation (matrix inverse as hypothesis).
* **C51 Both evaluation orders of point convolutions agree** – einsum formulas; refutation of the grouped contiguous case.
* **C52 The mask used by MaskModule is invariant under grid symmetries** – Squared radius symmetric under reflections/permutations.
* **C53 Direct products can be nested on either side** – Regular expression of `_split_param` modelled on character lists (greedy, anchored at the start); products as trees. Expected refuted for right nesting, proved for left nesting.
* **C54 Group operations agree in every parametrisation** – ParamModel models _combine/_inverse per parametrisation; the cyclic inverse in radians is refuted (it always raises).
* **C55 Equality of group elements is an equivalence compatible with hashing** – PlanarModel models _equal with its tolerances and the hashed tuple; proved for C_N, D_N, refuted for SO(2), O(2).
* **C56 The endomorphism basis of an irrep spans its commutant** – proved for every id by the generic rotation and the pure flip
* **C57 bl_irreps lists exactly the irreps up to the band limit** – list membership
* **C58 Transposed convolutions commute with grid symmetries when output_padding is 0** – TransposedModel.v, PTransposed.v; proved from the adjoint form of the sum, refuted for output_padding = 1.
* **C59 Dropout acts on whole fields** – Grouped loop with the random numbers as an argument; values are `option R` so that a division by zero is visible; the in-place loop keeps the difference between a view and a copy.
* **C60 Irreps of direct products** – `good_irrep` (orthogonal, own character, realified form, commutant spanned by the endomorphism basis, irreducible) is preserved by the tensor constructions; disjointness by Schur-type block arguments; completeness by the dimension count.
* **C61 Convolution layers are equivariant end to end** – compose C27, C28 and C30 (steerable kernels), C39 (expansion), C40 (bias) and C41 (convolution) in `RdConvModel`, which is the constructor and forward as a whole.
* **C62 SO(3) and O(3) are groups of matrices** – quaternion algebra by ring; kernel of the matrix map; the hash by two turns on either side of a rounding boundary
* **C63 Planar subgroups of SO(3)** – matrices of planar elements; arctan2 of half angles; error bounds; change of frame for axes and for (True, 1)
* **C64 Subgroups of subgroups of SO(3)** – reduce every planar inclusion to an angle and a flip; conjugation by products
* **C65 Subgroups of O(3)** – SpaceO3Proofs/SpaceO3Cone treat one kind of subgroup each, SpaceO3Thms the ids.
* **C66 Subgroups of subgroups of O(3)** – SpaceO3Comb: an iff over all pairs of ids.
* **C67 IID batch normalisation over histories** – FNormModel.v models the module by groups of fields of one name; SpecFNorm.v states averages, fixed parts and variances over channels; NamedProofs.v carries an invariant along the histories.
* **C68 Batch normalisation by irreps over histories** – FNormModel.v models the module; SpecFNorm.v states the coordinates, the centre and the variance of an irrep; GNormThms.v follows one call, GNormCor.v histories, GNormExport.v export and resets.
* **C69 FieldNorm over histories** – FieldNormThms: value of one field from the averaging matrix, loop over the names, histories by run_pair_mode; FieldNormEx: a skewed basis
* **C70 InducedNormBatchNorm over histories** – Model constructor, forward and resets in IndBNModel on top of the grouping loop of C49; value by the loop lemma, equivariance since orthogonal matrices keep the energy; last clause expected false without weights.
* **C71 Max and average pooling over windows** – SPoolProofs: windows that fit are carried to windows; SPoolThms, SPoolBlur: the layers; SPoolEx: the sizes that do not fit.
* **C72 Antialiased pooling** – SPoolBlur: the filter is a function of the distance from the centre, invariant under signed permutations of the axes.
* **C73 Adaptive pooling** – SPoolCor: the cells i*w/o .. ceil((i+1)*w/o) are reversed by a mirror.
* **C74 Max pooling by norms** – NMaxProofs: the loop over sizes and the point that is read; NMaxThms: value and equivariance from the lemmas of C71; NMaxEx: ties.
* **C75 Exports of trainable layers** – an invariant says that in evaluation mode the buffers hold the expansion of some weights; the export reads them after `eval()`, so it is the expansion that forward uses. The arguments handed to the PyTorch module are compared with those of forward: `padding_mode` and `output_padding` are missing, which refutes the property for layers that set them.
* **C76 Upsampling** – torch's interpolate is written out per axis as a list of positions with weights; the weights are shown to be values of the hat function, and the sum over the corners becomes a sum over all pixels. The layer commutes when along each axis the weights are symmetric under reversing input and output, which is decided per mode; a ramp shows that the layer does not commute whenever the place that is read is not symmetric.
* **C77 Layers stay equivariant in every state** – Show by induction over the history that the filter a state uses was expanded from some parameters, then reuse the equivariance of single forward passes.
* **C78 Linear layers reach every equivariant map** – Schur's lemma for the planar irreps gives the intertwiners of two irreps; the Clebsch-Gordan and endomorphism bases of the code span them; carry this through the direct sum, the change of basis, the sampled blocks and the layer's filter.
* **C79 Tensor products of representations have the products as values** – The columns of the change of basis are intertwiners from the Kronecker product; the sum of the sizes of the irreps is the product of the sizes, so the change of basis is invertible and the block diagonal matrices are conjugate to the Kronecker product.
* **C80 TensorProductModule is equivariant and reaches every equivariant product** – The product of the input with itself transforms by the Kronecker square (C79); the projections are sampled kernels on a point (C78); a map that acts fiber by fiber and commutes with the matrices commutes with the transformation of the field.
* **C81 Spaces on the plane restrict to the subgroups of their groups** – Show for the four kinds of groups inside O(2) that the inclusion of the combined id is the composite of the two inclusions; the action on the plane is the restriction of an irrep (C21). Where the sum of the angles passes a full turn O2._subgroup refuses the combined id.
* **C82 RestrictionModule and DisentangleModule are equivariant on images** – Restriction: combine C81 with C22 and show that transforms depend only on the entries of their matrices. Disentangling: the loop over the representations multiplies each field by its matrix (C31); P X = B P for the permutation P of C24, and a map acting pixel by pixel that commutes with the fibers commutes with transforms of images.
* **C83 Networks of equivariant modules are equivariant on images** – A transform by a pixel permutation relocates pixels and multiplies fibers by a block diagonal matrix. Choosing fields and joining tensors commute with that; modules are abstract, commute with it and depend only on types and entries.
* **C84 A steerable CNN on the plane commutes with the symmetries of the grid from its first layer to its last** – Lift the nonlinearities from one fiber to images (pixel by pixel); prove that each layer depends on entries only, keeps shapes, and commutes with the transform (from C43, C47, C52, C61, C71); compose with C83.
* **C85 Convolutions on point clouds commute with every rotation, with translations and with renumbering of the points** – Model the layer on rows with coordinates on top of the sampler (C51), the bias (C43) and the planar kernels (C41); prove message by message that a turned displacement and turned features give a turned message; mean and bias commute with the representation.
* **C86 Bases of functions on homogeneous spaces** – HomModel.v; intertwiners are spanned by the unmasked slices (block by block), the kept slices moved by the commutant are another orthogonal family of the same size, and two such families span each other.
* **C87 Grids on the sphere and the elements standing for them** – SphereModel.v; points of a grid lie on circles of constant height with equally spaced longitudes; the frame built from a point has determinant -1 whatever the draw, so that its last column is negated; matrix to quaternion by the products of the entries of a rotation matrix.
* **C88 The octahedral group and its subgroups** – OctaModel.v; matrices of unit quaternions with entries -1, 0, 1; two rows decide the third, which gives completeness of the list and the tolerance of the check at once; four times the products of entries of such a quaternion are integers, so that a close axis is the axis.
* **C89 The irreps of the octahedral group** – OctaIrrepModel.v on the generation of C23, generalised to values that stand for elements; each irrep is described by the signed permutation of the axes; the 24 tables are computed once, Schur's lemma is solved from the equations of the generators.
* **C90 Characters, tensor products and planar restrictions of the irreps of SO(3) and O(3)** – CharModel.v; Dirichlet kernels for the value, a telescoping identity for products, an explicit primitive for the integral, and the restrictions of C17 to C_N and D_N by traces.
* **C91 The gated nonlinearity on induced representations gates sub-fields and is equivariant** – IGatedModel.v on the grouped loop of C43-C44; keeping the gates is refuted: the assignment of the gates to the output fails unless there is one gate and one batch entry.
* **C92 homomorphism_space and endomorphism_basis give bases of all intertwiners** – HomSpModel.v follows the two loops with their offsets; bases of blocks are put together by rows and columns from the commutants and the disjointness of irreps, then conjugated.
* **C93 A kernel basis with an adjoint is steerable for the conjugated action** – AdjModel.v on top of kernels_on_plane (C28, C30); the equality of hashes is refuted: the hash of the matrix is the identity of the tensor object.
* **C94 Subgroup ids of direct products compose** – PCombModel.v with ids as Python values; the factors reuse C06, the product maps C08. Refuted when a factor of H is trivial: H is then not a product and its ids are refused.
* **C95 Subgroup ids survive their picklable encoding** – PickModel.v with ids as trees; induction on the id. Refuted for products of products: the encoding compares the group of an element with the product and its two factors only.
* **C96 Irreps of SO(3) and O(3) can be named in every supported way, and O(3) has all its coefficients** – IrrIdModel.v on top of the tensor products of C90. Two branches are refuted: names give a representation instead of an id, and np.zeros is called with its shape spread over four arguments.
* **C97 The generalized He initialization gives every output unit total variance** – HeModel.v with the counting dictionaries as functions; the sum over the weights is grouped by input irrep.
* **C98 The delta-orthogonal initialization is normalized and confined to the centre** – DeltaModel.v; the asserts give a full grid of positions, no weight is assigned twice, and the squares are grouped by position.

## What is modelled

Model file → code (each definition cites the exact lines).

* `FinGroupModel` – `group/groups/cyclicgroup.py`, `dihedralgroup.py`: combine, inverse, element lists, subgroups, inclusion/restriction maps, `_combine_subgroups`; `group/group.py`: the generic element operations they use.
* `ProdModel`, `NestModel` – `group/directproduct.py` (elements, subgroup maps, `_split_param` as a regular expression on characters), `group/doublegroup.py` (`double_group`).
* `ParamModel`, `PlanarModel` – parametrisations of C_N, D_N, SO(2), O(2); the groups SO(2), O(2), their subgroups, `_equal` with its tolerances, hashing.
* `IrrepModel` – irreps, characters, restriction, Clebsch–Gordan tables, endomorphism bases, `bl_irreps` of C_N, D_N, SO(2), O(2) as far as the cited lines.
* `RepModel`, `DisModel`, `RegModel`, `IndModel`, `IndFinModel`, `GenModel`, `CacheModel` – `group/representation.py` (constructor, call, direct sum, restriction, disentangle, regular/quotient/induced construction), `group/homspace.py` (cosets), `group/irrep.py` and `group/group.py` (generation of irreps from generators, name-keyed caches), `gspaces/gspace.py` (kernel basis cache).
* `GridModel` – `gspaces/utils.py`: the exact branch of `linear_transform_array_nd`.
* `KernelModel`, `PolarModel` – `kernels/basis.py`, `steerable_basis.py`, `steerable_filters_basis.py`, `wignereckart_solver.py`, `polar_basis.py` (circular and spherical shells: indexing, attributes, equality; sampling for circular shells), `r2.py` and `__init__.py` as far as the cited lines.
* `FieldModel`, `SeqModel`, `ShapeModel` – `nn/field_type.py`, `nn/geometric_tensor.py` (indexing, split, cat), branching/merge/reshuffle modules, `sequential_module.py`, every `evaluate_output_shape` that predicts a size.
* `NonlinModel`, `GroupedModel`, `PoolModel` – norm, gated (1–3), induced norm, concatenated, vector field, pointwise nonlinearities; group pooling, norm pooling, induced norm pooling.
* `BatchNormModel` – norm batch normalisation and inner batch normalisation with all their state. 
* `FourierModel` – `fourier.py`, `fourier_quotient.py`, the spectral representations and the sampling matrices behind them.
* `BlocksModel`, `SamplerModel` – the four files of `nn/modules/basismanager`.
* `LayerModel`, `ImageModel`, `TransposedModel` – biases, train/eval buffers, convolution and transposed convolution layers, masks, `FieldType.transform` on images.
* `DropoutModel` – `nn/modules/dropout/*.py` (the random numbers are an argument).
* `ProdIrrepModel` – `directproduct.py` irreps of a product: `irrep`, `_build_representations`, `tensor_product_irrep`, `tensor_product_irrep_complex`, `irrep.py` endomorphism basis.
* `RdConvModel` – `_RdConv` (constructor, parameter expansion) and `R2Conv` with the kernel bases of `GSpace2D` for rotations, and `FieldType.transform`, composed from the models of the parts.
* `SpaceModel` – `so3_utils.py`, `so3group.py`, `o3group.py`: elements as quaternions, products, inverses, equality, hash key; `SO3._process_subgroup_id`, `_subgroup`, `_combine_subgroups` and the inclusion and restriction maps, without the polyhedral groups. scipy's `Rotation` is modelled by the quaternion formulas it documents.
* `SpaceO3Model` – `o3group.py`: `_process_subgroup_id`, `_subgroup`, `_combine_subgroups` and the inclusion and restriction maps, without the polyhedral groups; `DirectProductGroup._subgroup` for C_2 times a planar group.
* `FNormModel` – `_IIDBatchNorm` (constructor, forward, resets, `export`), `GNormBatchNorm` (constructor, forward, resets, `export`; the memory layouts on which `.view` after `einsum` depends are not modelled) and `FieldNorm` (constructor, forward, resets). Batches with a single value in training are excluded where torch divides by zero.
* `IndBNModel` – `InducedNormBatchNorm` (constructor, forward, resets). Training on an empty batch is excluded.
* `SPoolModel` – the pointwise max, average, antialiased and adaptive pooling layers in any number of axes (constructor, forward, `evaluate_output_shape`, `export` of max pooling), with `max_poolNd`, `avg_poolNd` and the adaptive pools of torch written out. Every argument is one integer for all axes; a window that misses the input raises where torch gives minus infinity; the check for pointwise representations and types is left out; `int(round(x))` is a parameter.
* `NMaxModel` – `NormMaxPool` (constructor, forward, `evaluate_output_shape`). Positions are not flattened; integer arguments for both axes.
* `ExportModel` – `export` of R2Conv, R3Conv, the transposed convolutions, Linear and SequentialModule, the constructors of the transposed convolutions and of Linear (with the kernel samples as a parameter), and the switching between training and evaluation mode with parameters that change. A PyTorch module is its arguments and parameters; that it shares memory with the layer is left out.
* `UpModel` – `R2Upsampling` and `R3Upsampling` (constructor, forward, `evaluate_output_shape`), with torch's `interpolate` written out for 'nearest', 'bilinear' and 'trilinear'. The scale factor is one real for all axes; the check of the mode's name, the type of the input and `export` (which passes the same arguments to `torch.nn.Upsample`) are left out.
* `LinearModel` – the basis `Linear` samples (`build_fiber_intertwiner_basis` without its dictionary) and the action of the group on fields over a point.
* `CompleteThms`, `CompleteCor`, `CompleteLinear`, `CompletePlanar` add no model; they prove completeness of the bases of `KernelModel` and of the layers of `ExportModel`/`LinearModel`.
* `TensorModel` – `Group._tensor_product` and `_tensor_product_character` (group.py:762-835, 896-910) with the inverse of the change of basis as a parameter. Caching by name and the dictionary of nonlinearities are left out.
* `TensorModModel` – `TensorProductModule` (constructor, forward, train/eval, `evaluate_output_shape`) and `FieldType.uniform`. The initialisation of the weights, the coordinates of point clouds and the comparison of the gspaces are left out.
* `GSpaceModel` – gspaces/r2.py (`GSpace2D.__init__`, `restrict`, the factory functions of
  the planar spaces), `O2._combine_subgroups` of o2group.py. Left out: the names of the
  spaces and `maximum_frequency`.
* `FieldMapModel` – field_type.py (`FieldType.restrict`), restriction_module.py,
  disentangle_module.py. Left out: coordinates of point clouds and the gspace check of
  types (only the groups are compared).
* `NetModel` – geometric_tensor.py (`__add__`, `__sub__`, `__mul__`, `tensor_directsum`),
  reshuffle_module.py, branching_module.py, merge_module.py and multiple_module.py on images.
  Modules are arbitrary functions with types and an output shape. Left out: coordinates of
  point clouds, the gspace checks, the number of axes, and broadcasting.
* `CnnModel` – networks on the plane: the layers R2Conv, NormNonLinearity, PointwiseNonLinearity,
  GroupPooling, PointwiseMaxPool2D, PointwiseAvgPool2D and MaskModule as functions of geometric
  tensors, on top of `RdConvModel`, `NonlinModel`, `PoolModel`, `SPoolModel`, `ImageModel` and
  `SeqModel`. The nonlinearities act pixel by pixel; whether they raise is read off zeros. Left out:
  devices, dtypes, other layers.
* `PointConvModel` – `_RdPointConv` (rd_point_convolution.py:20-352), `R2PointConv` with its
  `compute_basis_params` and `bandlimiting_filter` (r2_point_convolution.py:22-257), tensors with
  coordinates and their transform (geometric_tensor.py:228-250, 405-411, field_type.py:338-363).
  Messages, bias and kernels are those of `SamplerModel`, `LayerModel`, `KernelModel`, `PolarModel`.
  The propagation is the mean over the entering edges, zero where none enters. Left out:
  `R3PointConv`, caches of eval mode, devices.
* `HomModel` – `basis`, `dimension_basis` and `complete_basis` of `HomSpace` (group/homspace.py) on top of
  `_dirac_kernel_ft` (`IndModel`); `scalar_basis` is `basis` with the trivial irrep. Left out: the
  cache of induced representations by name, and irreps passed as objects, which stand for their ids.
* `SphereModel` – the random, HEALPix, Fibonacci and longitude-latitude grids of `so3_utils.py` with
  `_sphere_grid`, `find_rotation_pole2point`, `SO3.sphere_grid`, `O3.sphere_grid`, scipy's conversion of
  rotation matrices and 'zyz' angles to quaternions. Left out: the grids made from polyhedral groups
  and by numerical optimisation; random draws are parameters, divisions by zero are raises.
* `OctaModel` – octa.py: `_is_element`, `_combine`, `_inverse`, `_process_subgroup_id`, `_subgroup`,
  `octa_to_cn`, `cn_to_octa`, the ids behind the three cube representations, and the trivial case of
  `_restrict_irrep`; build_trivial_subgroup_maps and build_adjoint_map of utils.py. The list of the
  24 elements is scipy's `create_group('O')`, written out. Elements are in the parametrisation 'Q'.
* `OctaIrrepModel` – octa.py: `irrep`, `_build_octa_irrep`, `_build_octa_irrep_picklable` (without
  joblib's cache), the lookup and the checks of representation.py 198-202, 444-449; the generation is
  that of `GenModel`. lie_learn's Wigner matrix of frequency 1 is the parameter `D1`.
* `CharModel` – `_character` (so3_utils.py 204-219), `_build_character` of so3group.py and o3group.py,
  both `_tensor_product_irreps`, and the lists of irreps of `SO3._restrict_irrep` for 'so3' and planar
  subgroups. Wigner matrices, and with them the change of basis of a restriction, are left out.
* `IGatedModel` – `InducedGatedNonLinearity1` (induced_gated1.py 24-260). One batch entry and position at a
  time; the number of batch entries is kept for the assignment of the gates (216-221), whose failure is
  torch's rule for assigning a tensor with more dimensions than the target.
* `HomSpModel` – representation.py:391-435 and 1068-1116 (homomorphism_space, endomorphism_basis). Irreps
  are equal when their ids are; arrays of matrices are lists; broadcasting a single matrix over several
  slices is refused instead of performed (the lengths always agree, C92).
* `AdjModel` – kernels/basis.py:103-164 (AdjointBasis) and the argument `adjoint` in kernels/r2.py:123-127,
  156-160, 189-193. The buffer is exact instead of float32. The hash of a torch tensor is the identity of
  the object (torch.Tensor.__hash__), a number given as a parameter.
* `PCombModel` – directproduct.py:440-502 with cyclicgroup.py:313-319 and dihedralgroup.py:368-382
  (_combine_subgroups). Subgroup ids are Python values built of ints, None and pairs. Only products of two
  cyclic or dihedral groups.
* `PickModel` – group.py:866-887 and directproduct.py:616-648 (_encode/_decode_subgroup_id_pickleable). Ids
  are trees of ints, booleans, None, strings, elements and tuples; element values are opaque and the test
  whether a group accepts a value is a parameter; equality of groups is equality of names. The cache of
  joblib itself (irrep.py:225-288) is not modelled.
* `IrrIdModel` – group.py:853-864 (get_irrep_id), so3group.py:880-886, o3group.py:1188-1205. An irrep is its
  group and its id; the dictionary of representations and the Clebsch-Gordan coefficients of SO(3) are
  parameters. np.zeros with several positional ints raises TypeError.
* `HeModel` – nn/init.py:16-84 (generalized He initialization). Keys of dictionaries are lists of ints, the
  samples of torch.randn_like are a parameter, the cache is a list of pairs.
* `DeltaModel` – nn/init.py:87-163 (deltaorthonormal_init). A dictionary is its list of keys in the order of
  insertion and a function; the draws of ortho_group.rvs and torch.randn are parameters, about which the
  theorems assume orthogonality and rows that do not vanish. torch.randint(0, 1) is 0, the only int below 1.

## What is not modelled

* Floating point: rounding, overflow, NaN, dtypes, devices. Tolerances are modelled where the code compares with one (`np.allclose`, `np.isclose`, `math.isclose`).
* Autograd, optimisers (an update is an arbitrary change of the parameters), initialisation (`nn/init.py`), serialisation, random sampling.
* SO(3), O(3), the octahedral and icosahedral groups (`so3group.py`, `o3group.py`, `octa.py`, `ico.py`, `so3_utils.py`), the numerical solvers `_numerical.py`, `_clebsh_gordan.py`, `_numerical_thomson.py`, and everything built on tables they produce (spherical harmonics, `r3.py` samples, `polar_basis_poulenard.py`). Theorems about arbitrary groups (kernels, representations, layers) take such data as arguments with its defining properties as hypotheses.
* Interpolation: the scipy branch of `linear_transform_array_nd`, antialiasing filters, upsampling and adaptive pooling.
* Plotting, `__repr__`, docstrings, tests, examples.

## Findings

Behaviour of the code that contradicts what a property expects. Each is a theorem about the model (name in brackets), except those marked *(reading)*, which were only noticed while reading.

Groups and representations

* `DihedralGroup.subgroup` accepts axes N/M ≤ axis < N whose maps raise [`C05_accepted_axis_refuted`].
* Direct product subgroups pass the second restriction map for both coordinates [`C08_restriction_refuted`, `C08_wrong_element_refuted`].
* A product whose second factor is a product cannot construct any element [`C53_right_nested_refuted`].
* The matrix parametrisation of C_N and D_N loses the sine: it survives exactly when N ≤ 2 [`C09_cyclic_matrix_refuted`, `C09_dihedral_matrix_refuted`].
* The inverse of a cyclic element given in radians always raises [`C54_cyclic_inverse_refuted`].
* O(2) restricted to D_M about an axis ≥ 2π/M raises [`C10_dihedral_restriction_refuted`]; SO(2) restricted to C_M raises just below a full turn [`C10_so2_restriction_total_refuted`].
* Equality in SO(2) and O(2) is not symmetric and disagrees with hashing [`C55_symmetry_refuted`, `C55_hash_refuted`].
* A `Representation` with one irrep skips the size check of its change of basis [`C19_single_irrep_size_refuted`].
* A change of basis close to the identity is stored but not used [`C20_small_basis_refuted`].
* `disentangle` drops entries below the tolerance of `np.isclose` [`C24_small_entries_refuted`].
* Caches keyed by names: the first request wins [`C25_first_wins_refuted`]; restrictions of one irrep to different subgroups share a name, so a `GSpace` may hand out the kernel basis of another representation [`C25_restricted_refuted`].

Kernels

* `CircularShellsBasis.__getitem__` fails for every index [`C29_circular_refuted`]; its equality ignores the reflection axis [`C31_refuted`]; `steerable_attrs_j_iter` reads the wrong mask when filtered [`C32_per_irrep_refuted`]; `steerable_attrs` without filter always asserts [`C32_unfiltered_refuted`].
* Equality of radial profiles broadcasts, so `[1]` equals `[1, 1]` *(reading)*.
* The `max_offset` filter of `r2.py` reads a missing key *(reading)*.

Tensors and modules

* `x[:, z]` with -2n ≤ z ≤ -n-2 selects field z+2n instead of raising [`C34_refuted`].
* `split(None)` and break lists that start with 0 always raise; `split` appends to the caller's list [`C35_refuted_default`, `C35_refuted_zero`, `C35_refuted_caller`].
* Appending to a slice of a `SequentialModule` may overwrite a module [`C37_refuted`].
* Predicted shapes: ceil mode, `NormMaxPool`, tuple paddings, `MultipleModule`, point convolutions [`C38_pool_ceil_refuted`, `C38_norm_max_refuted`, `C38_tuple_refuted`, `C38_multiple_refuted`, `C38_point_refuted`].
* `BlocksBasisExpansion`: names that differ only in `.` and `^` share modules and indices; representations with the same name share a basis; a single pair with an empty basis can be built but not expanded [`C39_escaped_names_refuted`, `C39_same_name_refuted`, `C39_empty_basis_refuted`].
* `BlocksBasisSampler`: with groups, contiguous pairs in types that are not `groups` copies of one list raise with `conv_first=True` and the two orders of evaluation differ otherwise; names with a dot make the constructor raise [`C51_consecutive_raises`, `C51_any_type_refuted`, `C51_dotted_name_raises`].
* Convolutions: `eval()`, update, `eval()` keeps the old filter; point convolutions in evaluation mode mix the new filter with the old bias [`C42_refuted`, `C42_point_refuted`].
* Convolutions are not equivariant when the stride does not divide [`C41_stride_needed`]; transposed convolutions are not when there is an output padding [`C58_output_padding_needed`].
* `build_mask` with `sigma=0` raises as soon as a pixel lies outside the radius [`C52_built`].
* `VectorFieldNonLinearity` with N = 2 and two or more fields always raises [`C46_refuted`].
* `InnerBatchNorm` raises on every tensor without spatial axes [`C49_inner_points_refuted`]; `NormBatchNorm.reset_parameters` raises when `affine=False` [`C49_norm_reset_refuted`].
* `export` of convolutions drops `padding_mode`, of transposed convolutions `output_padding`, of max pooling `ceil_mode`; `GNormBatchNorm.export` ignores changes of basis *(reading)*.
* `FieldDropout(inplace=True)` drops nothing on fields of a size that is interrupted by another size [`C59_inplace_refuted`]; p = 1 is accepted and gives 0/0 everywhere [`C59_p_one_refuted`].
* Elements of SO(3) and O(3) that compare equal may have different hashes, as the hash rounds the matrix to four digits [`C62_hash_refuted`].
* `SO3.sphere_grid` returns rotations that take the pole to the antipode of each grid point *(reading)*; `ico_to_cn` misses elements given by the other quaternion of a pair *(reading)*.
* `O3.subgroup(('cone', axis, N))` turns the mirrors the wrong way [`C65_cone_axis_refuted`].
* `O3._combine_subgroups` raises for every subgroup of planar rotations [`C66_planar_raises`], never returns a right id inside a cylinder or for the trivial subgroup of a mirror, and turns the pyramids inside a cone by minus three times the angle of their axis [`C66_combine`, `C66_combine_refuted`].
* In training `IIDBatchNorm` is equivariant only if all points of the batch are transformed by the same element [`C67_independent_refuted`].
* `IIDBatchNorm` keeps one change of basis per name; representations that share a name but not the change of basis, as direct sums with the default name may, get a wrong mean and bias [`C67_names_refuted`].
* With a change of basis `GNormBatchNorm` raises unless the input has exactly two spatial axes, while its export is a `BatchNorm3d`, which wants three; the exported variances are multiplied by the change of basis and come out wrong, zero or negative [`C68_axes_refuted`, `C68_export_refuted`].
* `FieldNorm` accepts representations whose matrices are not orthogonal and is not equivariant for them [`C69_skew_refuted`].
* Without weights `InducedNormBatchNorm.reset_parameters` raises [`C70_reset_refuted`].
* `export` of the max pooling layers drops `ceil_mode`, so that the exported layer may give another shape [`C71_export_refuted`].
* The antialiased max pooling layers pad twice, once in the max pool and once in the blur; `evaluate_output_shape` counts the padding once and is wrong whenever the padding is at least half the stride [`C72_max_shape_refuted`].
* Pooling layers with sizes the windows do not fit are accepted and are not equivariant [`C71_max_refuted`, `C71_avg_refuted`].
* `NormMaxPool` is not equivariant on inputs where two vectors of one window tie for the largest norm, for instance the values 1 and -1 of a scalar field [`C74_ties_refuted`].
* `R2Conv.export` and `R3Conv.export` drop `padding_mode`; the exported layer pads with zeros [`C75_padding_mode_refuted`].
* `R2ConvTransposed.export` and `R3ConvTransposed.export` drop `output_padding`; the exported layer always gives another shape [`C75_output_padding_refuted`].
* `Linear` in evaluation mode keeps computing with the matrix of the last call of `train`; parameters set afterwards show up in its export only [`C75_linear_eval_refuted`].
* Upsampling with mode 'nearest' commutes with half turns only if the output size is a multiple of the input size [`C76_nearest_refuted`]; with `align_corners` and one output pixel it reads a corner [`C76_corner_refuted`]; with a scale factor that does not take the size to an integer the default mode is not equivariant either, against the documentation, which recommends `scale_factor` over `size` for equivariance [`C76_scale_refuted`].
* A representation whose change of basis shrinks vectors by 10^-7 loses kernels: `SingleBlockBasisExpansion` takes their samples for zero, and a `Linear` layer has no weights for maps that are equivariant [`C78_small_basis_refuted`].
* `O2._combine_subgroups` (o2group.py:411-425) adds the angle of the axis of the subgroup
  to that of the group and does not reduce the sum modulo 2 pi, and `O2._subgroup` asserts
  that the axis is at most 2 pi. So `GSpace2D.restrict` raises an AssertionError for
  documented ids: with the default axis `flipRot2dOnR2(8).restrict((5, 1))`, and
  `flipRot2dOnR2().restrict((t, n))` for every t between pi and 2 pi (C81_mirror_refuted, C81_axis_refuted).
* `DisentangleModule.__init__` registers buffers named after the representations, and torch
  refuses names with a dot. The quotient representations of O(2) are named after ids such as
  `(0.0, 4)`, so the module raises a KeyError for them (C82_dotted_refuted).
* `MergeModule.__init__` (merge_module.py:46) writes lists of labels into the list of modules
  it is given. A second MultipleModule built from the same list then indexes the `in_type` of
  a module of one type, and a FieldType has no `__getitem__` (C83_caller_refuted). The list of
  one label fails in the same way (C83_one_label_refuted). Labels with dots are refused by
  register_buffer (C83_dotted_label_refuted), and a label `self` clashes with the keyword
  arguments of `evaluate_output_shape` (C83_self_label_refuted).
* `SO3.sphere_grid` completes each point to a frame of determinant -1 and repairs it by negating the
  column holding the point itself, so that every returned element takes the pole to the point
  opposite to the one of the grid (so3group.py:254-263). The tests only use grids with inversion
  symmetry, where nobody notices; the polyhedral grid 'tetra' and longitude-latitude grids with an odd
  number of meridians have none (C87_so3_refuted).
* `octa_to_cn` (and `ico_to_cn`) compares the vector part of the quaternion with the axis, so that it
  returns None for an element of the subgroup whose quaternion has the other sign, although that
  quaternion is the same element for `==` and `hash`. Listed elements are affected: element 15 of the
  octahedral group, a quarter turn around Z, is not found in the subgroup of quarter turns around Z
  (octa.py:580-592; C88_restriction_refuted, C88_restriction_listed_refuted).
* `Octahedral.cube_edges_representation` is documented as the action on the 12 edges. It is the quotient by
  (True, 1), the half turn around the X axis, which leaves no edge in place; the stabiliser of an edge
  is the half turn around its own midpoint, which is in another conjugacy class
  (octa.py:394-400; C88_edges_refuted).
* The ids 'tetra' and (True, 2), (True, 3), (True, 4) documented for the octahedral group raise
  NotImplementedError (octa.py:246-279; C88_documented_refuted).
* `Octahedral._restrict_irrep` restricts to the trivial subgroup with copies of the irrep (1,), which the
  trivial group does not have; the restriction raises (octa.py:305-307; C88_trivial_refuted).
* `InducedGatedNonLinearity1.forward` with `drop_gates=False` assigns gates of shape (b, n, q, ...) to a slice
  of shape (b, n*q, ...); it raises for every input unless b = n = 1 (induced_gated1.py:216-221; C91_keep_gates_refuted).
* `AdjointBasis.__hash__` hashes the tensor object, not its entries, so bases that compare equal have
  different hashes (kernels/basis.py:155-164; C93_hash_refuted).
* `DirectProductGroup._combine_subgroups` raises for every subgroup of a subgroup with a trivial factor,
  because `_subgroup` returns the other factor alone and its ids are not pairs of ids
  (directproduct.py:486-502; C94_collapsed_refuted).
* Subgroup ids of a product of products cannot be pickled when they contain an element of an inner factor:
  `DirectProductGroup._encode_subgroup_id_pickleable` raises ValueError (directproduct.py:633-648;
  C95_nested_refuted).
* `Group.get_irrep_id` returns a representation, not an id, when it is given a name, and every caller then
  raises (group.py:857-860; C96_names_refuted).
* `O3._clebsh_gordan_coeff` raises TypeError for irreps of the other parity: `np.zeros` gets the shape as four
  arguments (o3group.py:1205; C96_forbidden_refuted).

## Axioms per theorem

What `Print Assumptions` lists. All axioms come from the standard library: **D** = `ClassicalDedekindReals.sig_forall_dec`, **N** = `ClassicalDedekindReals.sig_not_dec`, **E** = `FunctionalExtensionality.functional_extensionality_dep`, **C** = `Classical_Prop.classic`.

* **none** (closed under the global context): `C01_cyclic_group`, `C02_dihedral_group`, `C03_cyclic_subgroups`, `C04_dihedral_subgroups`, `C05_accepted_axis_refuted`, `C05_usable_ids_are_the_documented_ones`, `C06_nested_subgroups`, `C07_instances`, `C07_product_elements`, `C07_product_generators`, `C07_product_group`, `C07_product_pairing`, `C08_diagonal_ok`, `C08_inclusion_ok`, `C08_instances`, `C08_one_trivial_ok`, `C08_restriction_refuted`, `C08_same_factor_ok`, `C08_wrong_element_refuted`, `C14_built_irreps`, `C22_representatives`, `C22_same_coset`, `C25_default_names`, `C25_fiber_bases`, `C25_first_wins_refuted`, `C25_histories`, `C29_union`, `C29_union_samples`, `C33_sorted`, `C33_tile`, `C34_lists_accepted`, `C34_refuted`, `C34_selects`, `C35_accepts`, `C35_refuted_caller`, `C35_refuted_default`, `C35_refuted_zero`, `C35_split`, `C36_branch`, `C36_consecutive`, `C36_indexes`, `C36_merge`, `C36_reshuffle`, `C37_append_after_drop`, `C37_get`, `C37_refuted`, `C37_runs`, `C38_multiple_refuted`, `C38_point_refuted`, `C38_sequential`, `C42_conv`, `C42_conv_frozen`, `C42_linear`, `C42_linear_defined`, `C42_point`, `C42_point_frozen`, `C42_point_refuted`, `C42_refuted`, `C47_group_pooling_built`, `C48_norm_pool_built`, `C51_dotted_name_raises`, `C53_left_nested_ok`, `C53_right_nested_refuted`, `C53_split_inverts_pairing`, `C73_shape`, `C75_sequential`, `C83_caller_refuted`, `C83_dotted_label_refuted`, `C83_labels`, `C83_one_label_refuted`, `C83_sequential_steady`, `C94_collapsed_refuted`, `C94_nested`, `C95_injective`, `C95_nested_refuted`, `C95_picklable`, `C95_product_injective`, `C95_product_picklable`, `C95_product_roundtrip`, `C95_roundtrip`, `C96_forbidden_refuted`, `C96_foreign`, `C96_forms`, `C96_listed`, `C96_names_refuted`, `C96_o3_product`, `C96_so3_product`
* **D**: `C29_circular_refuted`, `C29_spherical`, `C32_filtered`, `C32_iter`, `C32_per_irrep_refuted`, `C32_per_irrep_unfiltered`, `C32_per_irrep_zero`, `C32_single`, `C32_unfiltered_refuted`, `C38_transposed`, `C49_norm_reset_refuted`, `C60_rejects`, `C70_reset_refuted`, `C75_linear`, `C82_typed`, `C83_multiple_steady`, `C83_multiple_value`, `C83_self_label_refuted`, `C92_dimension`
* **D, E**: `C19_change_basis`, `C19_homomorphism`, `C19_single_irrep_size_refuted`, `C20_direct_sum`, `C21_restriction`, `C23_checked`, `C23_generation`, `C24_disentangle`, `C24_small_entries_refuted`, `C25_kernel_bases`, `C26_composition`, `C26_identity`, `C26_moves`, `C27_restricted`, `C27_wigner_eckart`, `C28_restricted`, `C28_wigner_eckart`, `C38_conv`, `C38_norm_max`, `C38_norm_max_refuted`, `C38_pool_ceil`, `C38_pool_ceil_refuted`, `C38_pool_floor`, `C38_tuple_refuted`, `C40_built`, `C40_complete`, `C40_invariant`, `C41_equivariant`, `C41_stride_needed`, `C43_action`, `C44_gated3_equivariant`, `C44_gated3_value`, `C45_accepts`, `C45_doubled`, `C45_equivariant`, `C45_identity`, `C45_represents`, `C47_group_pooling`, `C47_group_pooling_invariant`, `C47_pointwise_equivariant`, `C51_any_type_refuted`, `C51_consecutive_raises`, `C51_messages`, `C51_one_group`, `C51_same_messages`, `C58_equivariant`, `C58_output_padding_needed`, `C59_accepted`, `C59_eval`, `C59_p_one_refuted`, `C59_pointwise_p_one`, `C60_character`, `C60_irrep`, `C60_list`, `C71_avg`, `C71_avg_refuted`, `C71_avg_value`, `C71_export`, `C71_export_refuted`, `C71_max`, `C71_max_refuted`, `C71_max_value`, `C71_shape`, `C73_commutes`, `C73_value`, `C76_aligned_value`, `C76_commutes`, `C76_corner_refuted`, `C76_linear_value`, `C76_nearest_refuted`, `C76_nearest_value`, `C76_returns`, `C76_scale_refuted`, `C76_shape`, `C79_any`, `C82_disentangle`, `C82_disentangled`, `C82_dotted`, `C82_dotted_refuted`, `C83_directsum`, `C83_multiple`, `C83_reshuffle`, `C83_sequential`, `C83_sum`, `C85_commutes`, `C85_edge_order`, `C85_params`, `C85_params_accepted`, `C85_profile`, `C85_renumbering`, `C85_translations`, `C85_value`, `C86_basis`, `C86_complete`, `C89_generation`, `C93_hash_refuted`
* **D, N, E**: `C22_induced`, `C22_regular`, `C39_empty_basis_refuted`, `C39_escaped_names_refuted`, `C39_same_name_refuted`, `C39_weights`, `C44_gated1_equivariant`, `C44_gated1_value`, `C44_gated2_equivariant`, `C44_gated2_value`, `C45_value`, `C46_equivariant`, `C46_refuted`, `C46_two_one_field`, `C46_value`, `C47_pointwise`, `C47_pointwise_functions`, `C48_induced_pool`, `C48_induced_pool_invariant`, `C48_norm_pool`, `C48_norm_pool_invariant`, `C49_inner_export`, `C49_inner_histories`, `C49_inner_points_refuted`, `C49_inner_reset`, `C49_inner_value`, `C49_norm_histories`, `C49_norm_reset`, `C49_norm_value`, `C50_pointwise`, `C50_quotient`, `C50_value`, `C52_built`, `C52_commutes`, `C52_invariant`, `C61_layer`, `C62_closed`, `C62_equal`, `C62_equal_o3`, `C62_groups`, `C62_hash_refuted`, `C62_matrix`, `C62_matrix_o3`, `C67_histories`, `C67_independent_refuted`, `C67_names_refuted`, `C67_resets`, `C67_value`, `C68_axes_refuted`, `C68_histories`, `C68_resets`, `C68_value`, `C69_histories`, `C69_resets`, `C69_skew_refuted`, `C69_trivial`, `C69_value`, `C70_histories`, `C70_resets`, `C70_value`, `C72_avg`, `C72_avg_shape`, `C72_constant`, `C72_default_padding`, `C72_max`, `C72_max_shape`, `C72_max_shape_refuted`, `C74_commutes`, `C74_ties_refuted`, `C74_typed`, `C74_value`, `C75_conv`, `C75_output_padding_refuted`, `C75_sequential_conv`, `C75_transposed`, `C77_conv`, `C77_linear`, `C77_transposed`, `C80_any`, `C84_steady`, `C87_fibonacci`, `C87_healpix`, `C87_longlat`, `C87_moved`, `C87_pole2point`, `C87_quaternion`, `C87_random`, `C87_so3_inversion`, `C87_so3_opposite`, `C87_so3_refuted`, `C88_check`, `C88_elements`, `C88_group`, `C89_built`, `C89_complete`, `C89_frequencies`, `C89_irreducible`, `C89_product`, `C89_representation`, `C90_o3_tensor`, `C90_orthonormal`, `C90_tensor`, `C91_equivariant`, `C91_keep_gates_refuted`, `C91_type_checked`, `C91_value`, `C97_cached`, `C97_range`, `C97_share`, `C97_total`, `C98_columns`, `C98_rows`, `C98_zero`
* **D, E, C**: `C59_equivariant`, `C59_inplace_refuted`, `C59_value`, `C85_runs`
* **D, N, E, C**: `C09_cyclic_matrix_collapses`, `C09_cyclic_matrix_refuted`, `C09_cyclic_round_trip`, `C09_dihedral_matrix_refuted`, `C09_dihedral_round_trip`, `C09_o2_round_trip`, `C09_so2_round_trip`, `C10_dihedral_restriction_raises`, `C10_dihedral_restriction_refuted`, `C10_inclusion_image`, `C10_inclusions_embed`, `C10_o2_group`, `C10_restriction_complete`, `C10_restriction_inverts`, `C10_restriction_sound`, `C10_so2_group`, `C10_so2_restriction_total_refuted`, `C11_cyclic_irreps`, `C12_accepted_ids`, `C12_dihedral_irreps`, `C13_modulo_full_turns`, `C13_o2_irreps`, `C13_so2_irreps`, `C14_dimensions`, `C14_regular_character`, `C15_cyclic_restriction`, `C16_dihedral_restriction`, `C17_planar_restriction`, `C18_cyclic`, `C18_so2`, `C19_planar_irreps`, `C20_small_basis_refuted`, `C21_finite`, `C21_planar`, `C22_induced_planar`, `C22_irreps_disjoint`, `C22_regular_planar`, `C22_sharp_restrictions`, `C23_planar`, `C25_restricted_refuted`, `C27_rotation_groups`, `C28_plane`, `C28_point`, `C28_restrictions_sharp`, `C30_circular`, `C30_samples`, `C31_equal`, `C31_refuted`, `C40_planar`, `C43_induced_equivariant`, `C43_induced_value`, `C43_norm_built`, `C43_norm_equivariant`, `C43_norm_value`, `C52_values`, `C54_cyclic_combine`, `C54_cyclic_inverse_refuted`, `C54_dihedral_combine`, `C54_dihedral_inverse`, `C55_finite_equality`, `C55_finite_hash`, `C55_hash_refuted`, `C55_reflexive`, `C55_symmetry_refuted`, `C56_endomorphism_basis`, `C57_band_limited`, `C60_all`, `C60_planar`, `C61_built`, `C61_equivariant`, `C61_quarter_turns`, `C61_runs`, `C63_subgroups`, `C64_combine`, `C65_cone_axis`, `C65_cone_axis_refuted`, `C65_subgroups`, `C66_combine`, `C66_combine_refuted`, `C66_planar_raises`, `C67_export`, `C68_export`, `C68_export_refuted`, `C75_linear_eval_refuted`, `C75_padding_mode_refuted`, `C77_r2conv`, `C77_r2conv_transposed`, `C77_rotations_linear`, `C78_linear`, `C78_point_basis`, `C78_small_basis_refuted`, `C79_character`, `C79_rotations`, `C80_commutes`, `C80_commutes_point`, `C80_plain`, `C80_projections`, `C80_value`, `C81_axis_refuted`, `C81_mirror_refuted`, `C81_refused`, `C81_restrict`, `C81_space`, `C82_restriction`, `C84_invariant`, `C84_layer`, `C84_network`, `C84_outputs`, `C84_whole_group`, `C85_rotations`, `C86_planar`, `C86_planar_complete`, `C86_sharp`, `C87_o3`, `C88_cyclic`, `C88_documented_refuted`, `C88_edges_refuted`, `C88_faces`, `C88_restriction_listed_refuted`, `C88_restriction_refuted`, `C88_self`, `C88_trivial_refuted`, `C88_vertices`, `C90_class`, `C90_o3_value`, `C90_restriction`, `C90_standard`, `C90_value`, `C92_disjoint`, `C92_endomorphisms`, `C92_intertwiners`, `C93_axis`, `C93_close_ignored`, `C93_refused`, `C93_steerable`, `C93_value`
