# Design

The subject is miniCFD: the C++ library (headers under `/repo/include/mini/`), its main programs, and parts of the
one-dimensional Python package (`/repo/python/`), read as text. Nothing of it is
built or run. `properties.jsonl` states what the code should do, in terms of its interface and its observable
effects; `rocq/theories/` holds a model of the code in Gallina and theorems about that model; `MANIFEST.json`
says which theorems stand for which property; `seeded/LOG.jsonl` records deliberate errors put into the model
and the theorems that caught them.

## Approach

* **One topic, four files.** `Model_X.v` transcribes functions of the code, each definition with the file and the
  lines it stands for. `Spec_X.v` states what is wanted, without using helpers of the model. `Proof_X.v` holds
  the lemmas. `Prop_X.v` holds the property theorems with `Print Assumptions`, and next to them an `Example` (or
  a second theorem) with a concrete non-trivial case, so that hypotheses are known to be satisfiable.
  Shared: `Arrays.v` (option monad, indexed access, loops), `Vec3.v`, `RSum.v`, `Poly.v`, `PolyQ.v`, and the
  sample meshes `Sample_*.v`.
* **Partiality.** A failed `assert`, a `throw`, an index out of range, a missing key and the use of an
  uninitialised value are all `None`; a theorem that says `... = Some x` therefore also says that none of these
  happens. Loops that end by reaching a count are structural recursion; loops with another end condition
  (Newton, breadth-first search) have fuel, and it is proved that the fuel is enough, or the theorem is about
  every number of steps.
* **Numbers.** `Scalar` (float or double) is the real numbers of the standard library. Rounding, overflow, NaN
  and infinities are outside the model; where the code relies on them (division by zero, sqrt of a negative
  number) the model has `None` or an explicit case. Integers are `nat` or `Z` without overflow.
* **Memory.** Objects shared by pointer are modelled as indices into a store (cells, faces, rotors), so that
  aliasing and stale pointers are visible (C22, C59, C60). Arrays filled in place are lists with `modify`.
  Solution columns are memories from (cell, row) to values.
* **Many processes.** For the code run under MPI, all ranks are modelled together: a program for one rank is a
  function of its rank and of the files, and matched sends and receives copy one rank's buffer to another. The
  theorems quantify over the number of ranks. Order of messages is not modelled (the code waits for all).
* **External code** is a parameter: METIS may return any part numbers of the right length, `std::sort` any
  sorted permutation, hash maps any order of their keys, CGAL any list of nearby cells, Riemann solvers and
  limiters (where the property is about the code around them) any function.
* **Python.** An exception (failed assertion, wrong number of arguments, singular matrix, division by zero) is `None`;
  Python's own `None` is a separate value. Arrays of numpy are pairs, triples or lists, with broadcasting written out.
* **Wrong code.** Where the faithful model falsifies a property the theorem `..._refuted` gives a concrete input,
  and a second theorem proves the property under the weakest hypothesis found. Such properties are `partial` in
  the manifest, with a note that begins with REFUTED.


## Properties: what is modelled and how it is proved

Files are in `rocq/theories/`; the theorems of each property are in the `Prop_*.v` file named last.

### C01 Base64 output is decodable and correctly padded

*Status:* proved. *Files:* Model_Base64 / Spec_Base64 / Proof_Base64 / Prop_Base64.  
*How:* `EncodeBase64` as the loop over triplets and the padding loop; `char` may be signed or unsigned; an index outside the table is `None`. The specification has its own decoder. Strong induction on the buffer in steps of three.  
*Note:* all byte buffers; independent decoder in the spec  
*Theorems:* `C01_base64_round_trip`.

### C02 The new order computed for a partition is a stable sort and a bijection

*Status:* proved. *Files:* Model_Shuffle / Spec_Shuffle / Proof_Shuffle / Prop_Shuffle.  
*How:* `std::sort` with the code's comparator (a strict total order, so its result is determined). Specification: permutation, sorted by part, stable; uniqueness is proved as well.  
*Theorems:* `C02_new_order`, `C02_new_order_unique`.

### C03 Shuffling renumbers the mesh without changing it

*Status:* proved. *Files:* Model_Shuffler, Model_Mapper / Spec_Mesh / Proof_Shuffler, Proof_Maps / Prop_Shuffler.  
*How:* `Shuffle` as a state change of mapper and CGNS arrays; the mesh before and after are compared through a view that forgets numbers (nodes by coordinates and owners, cells by their nodes).  
*Note:* one Shuffle call after Map; homogeneous sections of dim cell_dim or cell_dim-1; FillFaceParts succeeds (C63 shows that it does; C62 shows why other sections are excluded)  
*Theorems:* `C03_shuffle_same_mesh`.

### C04 The CGNS/METIS mapper is a bijection after Map and stays one after Shuffle

*Status:* proved. *Files:* Model_Mapper, Model_Shuffler / Spec_Mesh / Proof_Mapper, Proof_Maps / Prop_Mapper, Prop_Shuffler.  
*How:* `Map` as nested loops over zones and sections; the validity predicate is stated without `IsValid`. Induction over zones and sections.  
*Theorems:* `C04_mapper_valid_after_Map`, `C04_mapper_valid_after_Shuffle`.

### C05 The METIS mesh produced by Map describes the same cells

*Status:* proved. *Files:* Model_Mapper / Spec_Mesh / Proof_Mapper / Prop_Mapper.  
*How:* The CSR arrays written by `Map` against the rows of the sections.  
*Note:* well-formed homogeneous sections  
*Theorems:* `C05_metis_mesh_rows`.

### C06 Written id ranges describe the parts exactly

*Status:* proved. *Files:* Model_Partition / Spec_Partition / Proof_Ranges / Prop_Ranges.  
*How:* The slicing loop of `WritePartitionInfo` on sorted part numbers, with an invariant over the table of ranges.  
*Note:* slice_parts is the loop of WritePartitionInfo that turns sorted part numbers into ranges  
*Theorems:* `C06_ranges`, `C06_ranges_partition_ids`.

### C07 A node belongs to the smallest part among its cells

*Status:* proved. *Files:* Model_Metis / Spec_Metis / Proof_Metis / Prop_Metis.  
*How:* `GetNodeParts` as the double loop over the CSR arrays; minimum over the cells of a node by induction over cells.  
*Note:* GetNodeParts on every well-formed CSR mesh; C05 shows that Map produces such a mesh.  
*Theorems:* `C07_node_parts`, `C07_used_node`, `C07_unused_node`.

### C08 Partitioning never indexes a part that does not exist

*Status:* refuted in general, proved with a guard (claimed as partial). *Files:* Model_Metis, Model_Partition / Spec_Partition / Proof_Pipeline / Prop_Partition.  
*How:* Refuted by an orphan node; proved for meshes whose nodes all belong to cells.  
*Note:* REFUTED as stated: a node that belongs to no cell gets part n_parts and WritePartitionInfo writes outside its table. Proved for every valid input whose nodes all belong to a cell.  
*Theorems:* `C08_part_in_range_refuted`, `C08_part_in_range_all_nodes_used`.

### C09 Send lists and receive lists of neighbouring parts agree

*Status:* proved. *Files:* Model_Partition, Model_Part / Spec_Part / Proof_Adjacency, Proof_WriteParts, Proof_Exchange / Prop_Part.  
*How:* Adjacency tables as the nested loops over cells, nodes and graph; the written files are read back by the model of `Part`; agreement by membership and the order of ordered sets.  
*Note:* end to end from the input mesh; the cell half assumes that METIS returns a symmetric dual graph  
*Theorems:* `C09_node_lists_agree`, `C09_cell_lists_agree`.

### C10 Ghost cells carry the owner's coefficients after an exchange

*Status:* proved. *Files:* Model_Part / Spec_Part / Proof_Exchange, Proof_PartCells / Prop_Part.  
*How:* All ranks are modelled together; packing, matched messages, unpacking.  
*Note:* end to end; fixed number of fields per cell; MPI modelled as reliable matched messages  
*Theorems:* `C10_ghost_coefficients`.

### C11 Each part can find every node it needs

*Status:* proved. *Files:* Model_Part, Model_Partition / Spec_Part / Proof_Part, Proof_ReadBack / Prop_Part.  
*How:* Membership characterisation of the node tables, from the input mesh to `GetCoord`.  
*Note:* end to end from the input mesh  
*Theorems:* `C11_nodes_found`.

### C12 Fringe search returns exactly the outermost layers

*Status:* proved. *Files:* Model_Overset / Spec_Overset / Proof_Overset / Prop_Overset.  
*How:* Breadth-first search with layers; specification by graph distance.  
*Note:* for n_layer >= 1 on well-formed meshes with a valid mapper and cell graph: the k-th layer is exactly the cells at graph distance k from the cells with fewer neighbours than faces; no cell twice  
*Theorems:* `C12_fringe_layers`.

### C13 Donor search returns the connected in-ball cells

*Status:* proved. *Files:* Model_Overset / Spec_Overset / Proof_Overset / Prop_Overset.  
*How:* Breadth-first search with a predicate, fuel bounded by the number of cells; specification by inductive reachability. The CGAL tree is a parameter.  
*Note:* the nearest-cell search (CGAL tree) is a parameter assumed to return one cell; everything after it is modelled; coordinates are real numbers  
*Theorems:* `C13_donors`, `C13_merge`.

### C14 Sorting sections by dimension gives contiguous, disjoint id ranges

*Status:* proved. *Files:* Model_Sections / Spec_Sections / Proof_Sections / Prop_Sections.  
*How:* `std::sort` is any function meeting its contract; renumbering is a fold.  
*Note:* for every order that std::sort may return under its contract with the comparison of the code  
*Theorems:* `C14_sections_sorted`.

### C15 Merging sections and splitting them again loses nothing

*Status:* proved. *Files:* Model_Sections / Spec_Sections / Proof_MergeSplit / Prop_Sections.  
*How:* Rows tagged with type codes, split by filtering; sort and hash-map order are parameters.  
*Note:* std::sort and the iteration order of the hash map are parameters restricted only by their contracts  
*Theorems:* `C15_merge_then_split`.

### C16 A boundary condition refers to the section of its own name

*Status:* refuted in general, proved with a guard (claimed as partial). *Files:* Model_Sections / Spec_Sections / Proof_Sections / Prop_Sections.  
*How:* Refuted (look-up by suffix); proved when no other name ends with the name.  
*Note:* REFUTED: GetSection compares only the end of the name, so condition wall gets the range of an earlier section left_wall; proved when no other section name ends with the name of the condition  
*Theorems:* `C16_ranges_by_name_refuted`, `C16_first_suffix`, `C16_ranges_by_name`.

### C17 Solution vector packing is a round trip

*Status:* proved. *Files:* Model_Column / Spec_Column / Proof_Column / Prop_Column.  
*How:* Offsets by the history of `AddLocalCellId`; arrays as lists.  
*Theorems:* `C17_packing_round_trip`.

### C18 Local cell ids are a bijection with inner cells first

*Status:* proved. *Files:* Model_Column / Spec_Column / Proof_Column / Prop_Column.  
*How:* The two numbering passes.  
*Theorems:* `C18_local_cell_ids`.

### C19 Face nodes are always put in outward order

*Status:* proved. *Files:* Model_Shapes / Spec_Faces / Proof_Faces / Prop_Shapes.  
*How:* `SortNodesOnFace` for every cell type with arbitrary distinct labels; outward order is stated by convexity of right-handed reference cells.  
*Note:* All twelve cell types; the reference cells of the specification are right-handed and carry their own coordinates.  
*Theorems:* `C19_faces_in_outward_order`, `C19_reference_cells_convex`.

### C20 Discontinuous Galerkin residual conserves the state

*Status:* proved. *Files:* Model_DG / Spec_DG / Proof_DG / Prop_DG.  
*How:* The residual column as a memory; every update is shown to have an effect that is a sum, so the result is the weak form; conservation by exchanging sums.  
*Note:* The residual column of the modal scheme is the weak form (so every assertion about offsets holds), its integral over all cells of a part is minus the fluxes through boundary and inter-part faces, and over several parts minus the boundary fluxes alone when paired inter-part faces have opposite fluxes.  
*Theorems:* `C20_weak_form`, `C20_conservation`, `C20_conservation_parts`, `C20_fluxes`.

### C21 The limited solution does not depend on the partition

*Status:* refuted in general, proved with a guard (claimed as partial). *Files:* Model_Reconstruct / Spec_Reconstruct / Proof_Reconstruct / Prop_Reconstruct.  
*How:* Two-phase update of all ranks; refuted by three cells in a row; positive theorems where no interface cell has a troubled inner neighbour, and for limiters reading means only.  
*Note:* REFUTED: inner cells are limited before the cells at interfaces are, so those see limited values of local neighbours and unlimited values of ghost neighbours; a row of three cells gives different coefficients with and without a split. Proved: inner cells are always limited as by one pass over the mesh; the result is partition-independent when no interface cell has a troubled inner neighbour, and for limiters that read only a preserved quantity (such as the mean) of the neighbours.  
*Theorems:* `C21_partition_independence_refuted`, `C21_inner_partial`, `C21_partial`, `C21_means_partial`.

### C22 Within one reconstruction pass, order does not matter and only troubled cells change

*Status:* proved. *Files:* Model_Reconstruct / Spec_Reconstruct / Proof_Reconstruct / Prop_Reconstruct.  
*How:* One pass computes first, writes later.  
*Note:* One pass applies the limiter to the values held before it, to exactly the troubled cells, in any order.  
*Theorems:* `C22_one_pass`, `C22_order`.

### C23 Runge-Kutta steps match the exponential series on linear systems

*Status:* proved. *Files:* Model_Temporal / Spec_Temporal / Proof_Temporal / Prop_Temporal.  
*How:* Columns over an arbitrary index type, linear residual.  
*Theorems:* `C23_matches_exponential_series`.

### C24 Runge-Kutta steps preserve convex invariant sets and linear invariants (SSP)

*Status:* proved. *Files:* Model_Temporal / Spec_Temporal / Proof_Temporal / Prop_Temporal.  
*How:* Convex sets and linear functionals, induction over steps.  
*Theorems:* `C24_convex_sets_are_kept`, `C24_linear_invariants_are_kept`.

### C25 Runge-Kutta steps integrate time-polynomials to their order

*Status:* proved. *Files:* Model_Temporal / Spec_Temporal / Proof_Temporal / Prop_Temporal.  
*How:* Right-hand sides polynomial in time.  
*Note:* Euler exact to degree 0, SSP-RK2 to degree 1, SSP-RK3 to degree 3 for problems whose right-hand side is a polynomial in time only.  
*Theorems:* `C25_polynomials_in_time`.

### C26 Scalar fluxes are the exact Godunov fluxes

*Status:* proved. *Files:* Model_Simple / Spec_Simple / Proof_Simple / Prop_Simple.  
*How:* Minimum and maximum of the flux over the interval of the two states.  
*Theorems:* `C26_scalar_fluxes_are_godunov`, `C26_consistent_and_monotone`.

### C27 Linear-system upwind flux splits by characteristics

*Status:* proved. *Files:* Model_Simple / Spec_Simple / Proof_Simple / Prop_Simple.  
*How:* 2-by-2 algebra; for `Multiple` Eigen's decomposition is a parameter with its contract.  
*Note:* Eigen's decomposition in Multiple is a parameter with its contract as hypothesis.  
*Theorems:* `C27_double_is_upwind`, `C27_double_repeated_eigenvalue`, `C27_multiple_is_upwind`.

### C28 Rotated solver's flux matrix agrees with its upwind flux

*Status:* proved. *Files:* Model_Simple / Spec_Simple / Proof_Simple / Prop_Simple.  
*How:* `Rotate` and the rotated solvers against the matrix of the flux times the normal.  
*Note:* Systems need real eigenvalues (Double) or a diagonalisation (Multiple).  
*Theorems:* `C28_rotated_scalar_flux`, `C28_rotated_double_flux`, `C28_rotated_multiple_flux`.

### C29 Conversions between conservative and primitive variables are inverse

*Status:* proved. *Files:* Model_Euler / Spec_Euler / Proof_Euler / Prop_Euler.  
*How:* Any number of dimensions.  
*Note:* All dimensions; both round trips and the defining formula of the conservative variables.  
*Theorems:* `C29_primitive_conservative_inverse`.

### C30 Primitive states delivered to solvers are never negative

*Status:* proved. *Files:* Model_Euler / Spec_Euler / Proof_Euler / Prop_Euler.  
*How:* Clamping in the conversions.  
*Theorems:* `C30_primitive_never_negative`, `C30_speed_of_sound`.

### C31 Eigenvector matrices diagonalise the normal flux Jacobian

*Status:* proved. *Files:* Model_Euler / Spec_Euler / Proof_Eigen, Proof_EigenInverse / Prop_Euler.  
*How:* Matrices as lists of columns; `field` on each entry; the derivative of the normal flux along an arbitrary direction.  
*Note:* L R = I; the derivative of the normal flux along any direction W is R diag L W.  
*Theorems:* `C31_eigen_matrices_diagonalise`.

### C32 AUSM flux is consistent, upwind and mirror-symmetric

*Status:* proved. *Files:* Model_Euler / Spec_Euler / Proof_Euler / Prop_Euler.  
*How:* Case analysis on Mach numbers.  
*Note:* All dimensions.  
*Theorems:* `C32_ausm_consistent`, `C32_ausm_supersonic`, `C32_ausm_mirror`.

### C33 HLLC flux is consistent, upwind and keeps contacts

*Status:* proved. *Files:* Model_Euler / Spec_Euler / Proof_Euler / Prop_Euler.  
*How:* Rankine-Hugoniot relations over the three waves.  
*Theorems:* `C33_hllc_consistent`, `C33_hllc_upwind`, `C33_hllc_contact`, `C33_hllc_moving_contact`, `C33_hllc_jump`.

### C34 The exact Riemann solver is a function of its arguments

*Status:* refuted in general, proved with a guard (claimed as partial). *Files:* Model_Exact / Spec_Exact / Proof_Exact / Prop_Exact.  
*How:* The solver is a state (`star_u`); refuted with vacuum.  
*Note:* REFUTED: in the branches with vacuum the member star_u keeps the value of an earlier call and selects the transverse velocity. Proved when the transverse velocities are equal (1D) or no vacuum comes up; also consistency.  
*Theorems:* `C34_exact_solver_has_no_memory_refuted`, `C34_no_memory_without_vacuum_partial`, `C34_exact_consistent`.

### C35 Pressure iteration of the exact solver brackets the root

*Status:* proved. *Files:* Model_Exact / Spec_Exact / Proof_Exact / Prop_Exact.  
*How:* Newton's method on an increasing concave function; then the pressure function is shown to be one.  
*Note:* General statement, and termination and accuracy for the pressure function of any two states without vacuum between them. The final assertion fails if the residual is exactly the tolerance, which is part of the statement.  
*Theorems:* `C35_FindRoot_never_overshoots`, `C35_star_pressure_found`.

### C36 Rotated Euler flux is frame-invariant

*Status:* proved. *Files:* Model_Euler / Spec_Euler / Proof_Rotated / Prop_Euler.  
*How:* Orthonormal frames.  
*Note:* For AUSM and HLLC; states with positive density and pressure.  
*Theorems:* `C36_rotation_round_trip`, `C36_rotated_flux_is_normal_flux`, `C36_rotated_flux_is_matrix_times_normal`.

### C37 A solid wall transmits only pressure

*Status:* proved. *Files:* Model_Euler / Spec_Euler / Proof_Rotated / Prop_Euler.  
*How:* Direct.  
*Theorems:* `C37_wall_transmits_only_pressure`.

### C38 Characteristic boundary fluxes are consistent

*Status:* proved. *Files:* Model_Euler / Spec_Euler / Proof_Rotated / Prop_Euler.  
*How:* Direct, with the choice made by `GetFluxOnSmartBoundary`.  
*Theorems:* `C38_boundary_fluxes_consistent`, `C38_smart_boundary_choice`.

### C39 Subsonic boundary states satisfy the characteristic relations

*Status:* refuted in general, proved with a guard (claimed as partial). *Files:* Model_Euler / Spec_Euler / Proof_Rotated / Prop_Euler.  
*How:* Refuted at rest and for an inlet flowing out; proved otherwise.  
*Note:* REFUTED as stated: an outlet with zero normal velocity uses the wrong characteristic, and so does an inlet whose exterior state flows out. Proved for outlets with positive normal velocity and inlets whose exterior state does not flow out.  
*Theorems:* `C39_subsonic_outlet_partial`, `C39_subsonic_inlet_partial`, `C39_outlet_at_rest_refuted`, `C39_inlet_outflow_refuted`.

### C40 Direct-DG common gradient is single-valued on a face

*Status:* proved. *Files:* Model_Diffusive / Spec_Diffusive / Prop_Diffusive / Prop_Diffusive.  
*How:* Vector algebra, any number of components.  
*Note:* Both versions of GetCommonGradient, any number of components.  
*Theorems:* `C40_single_valued`, `C40_single_valued_hessian`, `C40_consistent`, `C40_jump_along_normal`, `C40_tangential`, `C40_hessian_jump`.

### C41 Normal viscous flux equals matrix viscous flux times normal

*Status:* proved. *Files:* Model_Diffusive / Spec_Diffusive / Prop_Diffusive / Prop_Diffusive.  
*How:* Vector algebra.  
*Note:* Both diffusion models; also the viscous flux of the interface gradient is opposite seen from the other side.  
*Theorems:* `C41_normal_flux`, `C41_consistent`, `C41_isotropic`, `C41_conservative`.

### C42 Frames stay orthonormal under any sequence of rotations

*Status:* proved. *Files:* Model_Aircraft / Spec_Aircraft / Proof_Aircraft / Prop_Aircraft.  
*How:* Induction over the list of rotations.  
*Theorems:* `C42_frames`, `C42_angle`.

### C43 Line-triangle intersection is correct

*Status:* proved. *Files:* Model_Aircraft / Spec_Aircraft / Proof_Aircraft / Prop_Aircraft.  
*How:* The specification is a point that is on the segment and a convex combination of the corners.  
*Note:* Real arithmetic; the segment lying in the plane of the triangle is excluded (the code has a TODO there).  
*Theorems:* `C43_intersect`.

### C44 Shape functions interpolate: partition of unity, nodal values, gradients

*Status:* proved. *Files:* Model_Shapes, Model_Geometry / Spec_Shapes / Proof_Shapes, Proof_Geometry / Prop_Shapes.  
*How:* Shape functions are written over any ring, so that they are evaluated as polynomials with rational coefficients (Poly, PolyQ) and compared by computation; gradients are derivatives of those polynomials.  
*Note:* All seventeen element types. Floating rounding is not modelled.  
*Theorems:* `C44_shapes_interpolate`, `C44_nodes_reproduced`, `C44_affine_maps_reproduced`, `C44_affine_pyramids_reproduced`, `C44_quadratics_reproduced`, `C44_quadratics_reproduced_on_faces`.

### C45 Hexahedron outward normals are normal to their faces

*Status:* refuted in general, proved with a guard (claimed as partial). *Files:* Model_Geometry / Spec_Shapes / Proof_Geometry / Prop_Shapes.  
*How:* Refuted on a sheared cell; what holds is proved.  
*Note:* REFUTED: on a sheared parallelepiped the vector is not normal to the face. Proved: it is a unit vector along the outgoing coordinate line, and normal to the face if that line is.  
*Theorems:* `C45_outward_normal_refuted`, `C45_outward_normal_partial`.

### C46 OrthoNormalize yields an orthonormal basis

*Status:* proved. *Files:* Model_Projection / Spec_Projection / Proof_Ortho / Prop_Projection.  
*How:* Induction over the number of basis functions, for a discrete inner product.  
*Note:* For a basis linearly independent at the quadrature points and positive weights; division by the square root is exact arithmetic.  
*Theorems:* `C46_orthonormalize`, `C46_orthonormal_basis`.

### C47 Gauss quadrature rules are exact to their degree

*Status:* proved. *Files:* Model_Gauss / Spec_Gauss / Proof_Gauss, Proof_Integral / Prop_Gauss.  
*How:* Moments and linearity; integrals are Riemann integrals of the standard library.  
*Note:* Legendre 1..5 points, Lobatto 2..6 points, any mix in products; exact over the reals.  
*Theorems:* `C47_segment_of_reference`, `C47_segments`, `C47_square`, `C47_cube`, `C47_positive_weights`.

### C48 Lagrange basis: nodal values, unity, reproduction, derivatives

*Status:* proved. *Files:* Model_Basis / Spec_Basis / Proof_Lagrange / Prop_Basis.  
*How:* The inverse of the Vandermonde matrix is a parameter with its defining equation.  
*Note:* Nodal values, partition of unity, reproduction of all polynomials of degree below the node count and derivatives of every order, for every list of distinct nodes; the inverse computed by Eigen is a parameter with its defining equation, and is shown to exist.  
*Theorems:* `C48_lagrange_values`, `C48_lagrange_derivatives`.

### C49 Hexahedron node numbering is a bijection

*Status:* proved. *Files:* Model_Basis / Spec_Basis / Proof_Lagrange / Prop_Basis.  
*How:* Index arithmetic.  
*Note:* Index maps are inverse bijections; values and derivatives are products; nodal property in 3D.  
*Theorems:* `C49_hexahedron_numbering`, `C49_hexahedron_products`.

### C50 Correction functions have the required end values

*Status:* proved. *Files:* Model_Basis / Spec_Basis / Proof_Vincent / Prop_Basis.  
*How:* Legendre recurrence.  
*Note:* std::legendre is modelled by its three-term recurrence.  
*Theorems:* `C50_correction_ends`, `C50_correction_derivatives`, `C50_lumping`.

### C51 Taylor basis derivatives are the derivatives

*Status:* refuted in general, proved with a guard (claimed as partial). *Files:* Model_Basis / Spec_Basis / Prop_Basis / Prop_Basis.  
*How:* Every column against the derivative of the monomial; degree three refuted.  
*Note:* REFUTED for Taylor<3,3>: line 383 adds column XX instead of YY. All other columns, degrees 1 and 2, values and gradients are proved.  
*Theorems:* `C51_taylor_values_and_gradient`, `C51_partial_derivatives_12`, `C51_partial_derivatives_3_partial`, `C51_partial_derivatives_3_refuted`.

### C52 Projection reproduces polynomials and averages

*Status:* proved. *Files:* Model_Projection / Spec_Projection / Proof_Projection / Prop_Projection.  
*How:* With the basis of C46.  
*Note:* For the basis built by the constructor of OrthoNormal (C46).  
*Theorems:* `C52_projection`, `C52_wrapper`, `C52_gradient`.

### C53 Nodal hexahedron gradients obey the chain rule

*Status:* refuted in general, proved with a guard (claimed as partial). *Files:* Model_Nodal / Spec_Nodal / Proof_Nodal, Proof_NodalBasis, Proof_NodalMain, Proof_Chain / Prop_Nodal.  
*How:* Chain rule for the interpolating polynomial composed with the inverse of the coordinate map, to second order.  
*Note:* REFUTED for second derivatives with two points in a direction (degree one): GetGlobalHessian then reads derivatives_[2] beyond the end of its array. Proved: the gradients for all rules with at least two points, on the four hexahedra and for any nodes with non-zero determinant; the Hessian (six entries, and its symmetry) with at least three points in each direction.  
*Theorems:* `C53_gradient`, `C53_gradient_anywhere`, `C53_gradient_unweighted`, `C53_hessian`, `C53_hessian_refuted`.

### C54 WENO limiting keeps the cell average

*Status:* proved. *Files:* Model_Projection, Model_WenoEuler / Spec_Projection / Proof_Weno / Prop_Projection.  
*How:* Weights sum to one; both limiters.  
*Note:* Needs w0 > 0, n w0 < 1, eps > 0; Eigen needs at least one neighbour (without one it divides by zero). Smoothness indicators are those of the code, including the wrong column found in C51; C54_smoothness gives their value, C54_marking the cells that are marked.  
*Theorems:* `C54_lazy_keeps_average`, `C54_eigen_keeps_average`, `C54_eigen_euler`, `C54_eigen_without_neighbours`, `C54_smooth_not_marked`, `C54_weights`, `C54_smoothness`, `C54_marking`.

### C55 Blade properties are interpolated linearly between sections

*Status:* refuted in general, proved with a guard (claimed as partial). *Files:* Model_Aircraft / Spec_Aircraft / Proof_Aircraft / Prop_Aircraft.  
*How:* Refuted: weights exchanged.  
*Note:* REFUTED: the weights of the two sections are exchanged. Partial theorem: installed values at installed positions; between them the line through the exchanged values.  
*Theorems:* `C55_interpolation_refuted`, `C55_interpolation_partial`.

### C56 Installed sections are always strictly ordered

*Status:* proved. *Files:* Model_Aircraft / Spec_Aircraft / Proof_Aircraft / Prop_Aircraft.  
*How:* Induction over calls.  
*Theorems:* `C56_sections_ordered`.

### C57 Angle of attack is the inflow angle plus twist, in range

*Status:* proved. *Files:* Model_Aircraft / Spec_Aircraft / Proof_Aircraft / Prop_Aircraft.  
*How:* Real arithmetic with the exact number pi.  
*Note:* u = 0 excluded (the code divides by it). The table index is modelled with real arithmetic.  
*Theorems:* `C57_angle_of_attack`.

### C58 Blade forces decompose into lift and drag

*Status:* proved. *Files:* Model_Aircraft / Spec_Aircraft / Proof_Aircraft / Prop_Aircraft.  
*How:* Direct.  
*Theorems:* `C58_force`, `C58_dissipation`.

### C59 Rotor azimuth is determined by time

*Status:* refuted in general, proved with a guard (claimed as partial). *Files:* Model_Aircraft / Spec_Aircraft / Proof_Aircraft / Prop_Aircraft.  
*How:* Refuted by a cached time.  
*Note:* REFUTED: UpdateAzimuth(t); SetRevolutionsPerSecond; UpdateAzimuth(t) keeps the old azimuth. Partial theorem: true for a time not asked for before.  
*Theorems:* `C59_azimuth_refuted`, `C59_azimuth_partial`, `C59_azimuth_again`.

### C60 Blades always refer to the rotor that owns them

*Status:* proved. *Files:* Model_Aircraft / Spec_Aircraft / Proof_Aircraft / Prop_Aircraft.  
*How:* A heap of rotors, invariant over all operations.  
*Theorems:* `C60_blades_refer_home`.

### C61 Blade-cell intersection is the part of the blade inside the cell

*Status:* refuted in general, proved with a guard (claimed as partial). *Files:* Model_Aircraft / Spec_Aircraft / Proof_Blade_cell / Prop_Aircraft.  
*How:* Refuted; positive theorem in general position.  
*Note:* REFUTED: a blade starting in the cell and leaving it after its middle gets the outside part; a blade inside a cell gets nothing. Partial theorem: right in general position with both ends outside, or with one end inside and the crossing in the half of that end.  
*Theorems:* `C61_blade_in_cell_refuted`, `C61_blade_in_cell_partial`.

### C62 A mesh with sections of edges or points can be shuffled

*Status:* refuted in general, proved with a guard (claimed as partial). *Files:* Model_Shuffler / Spec_Mesh / Prop_Shuffler / Prop_Partition.  
*How:* Refuted by a section of edges.  
*Note:* REFUTED: Shuffle reads face_parts_ for a section of edges, for which there is no entry. C03 covers the meshes without such sections.  
*Theorems:* `C62_shuffle_lower_dim_refuted`.

### C63 Every boundary face gets the part of the cell it belongs to

*Status:* proved. *Files:* Model_Shuffler / Spec_Mesh / Proof_FaceParts / Prop_Partition.  
*How:* The search for the cell that has all nodes of a face.  
*Theorems:* `C63_face_parts`.

### C64 Each process holds its own cells and the adjacent ones, once

*Status:* proved. *Files:* Model_Part / Spec_Part / Proof_PartCells / Prop_Part.  
*How:* Lists of local and ghost cells.  
*Note:* symmetric dual graph  
*Theorems:* `C64_cells_held`.

### C65 The partition files describe the shuffled mesh exactly

*Status:* proved. *Files:* Model_Partition / Spec_Partition / Proof_WriteParts, Proof_ReadBack / Prop_Partition.  
*How:* Files as lists of records, written and read back.  
*Theorems:* `C65_files_describe_the_mesh`.

### C66 L() and R() of a linear Riemann solver diagonalise its matrix

*Status:* refuted in general, proved with a guard (claimed as partial). *Files:* Model_Simple / Spec_Simple / Proof_Simple / Prop_Simple.  
*How:* Refuted for `Multiple`.  
*Note:* REFUTED for Multiple: the two accessors are exchanged; proved for Double, and for Multiple with the accessors exchanged back.  
*Theorems:* `C66_double_accessors`, `C66_multiple_accessors_refuted`, `C66_multiple_exchanged`.

### C67 The exact solver returns the solution of the Riemann problem

*Status:* proved. *Files:* Model_Exact / Spec_Exact / Proof_Exact / Prop_Exact.  
*How:* Rankine-Hugoniot relations, Riemann invariants and ordering of the waves.  
*Note:* For a root found exactly; the residual otherwise is bounded by C35.  
*Theorems:* `C67_exact_solution`, `C67_vacuum`.

### C68 Blades are equally spaced and point outwards

*Status:* proved. *Files:* Model_Aircraft / Spec_Aircraft / Proof_Aircraft / Prop_Aircraft.  
*How:* Direct.  
*Theorems:* `C68_blades_spaced`.

### C69 Transforming a linear basis

*Status:* refuted in general, proved with a guard (claimed as partial). *Files:* Model_Basis / Spec_Basis / Prop_Basis / Prop_Basis.  
*How:* Refuted for full matrices.  
*Note:* REFUTED for Transform with a full matrix; proved for lower-triangular views.  
*Theorems:* `C69_transform_lower`, `C69_transform_full_refuted`.

### C70 Tabulated second and third derivatives of hexahedral shape functions

*Status:* proved. *Files:* Model_Shapes / Spec_Shapes / Proof_Shapes / Prop_Geometry.  
*How:* As C44, second and third derivatives.  
*Note:* All four hexahedra.  
*Theorems:* `C70_second_and_third_derivatives`.

### C71 Derivatives of the Jacobian and of its determinant

*Status:* proved. *Files:* Model_Geometry / Spec_Shapes / Proof_Geometry, Proof_Chain / Prop_Geometry.  
*How:* As C44, then Jacobi's formula.  
*Note:* The determinant's derivatives need a regular Jacobian, because the code computes them through the inverse.  
*Theorems:* `C71_jacobian_derivatives`, `C71_determinant_derivatives`.

### C72 Frames on faces are orthonormal and normal to the face

*Status:* proved. *Files:* Model_Geometry / Spec_Shapes / Proof_Geometry / Prop_Geometry.  
*How:* Cross products.  
*Note:* Where the tangents are linearly independent.  
*Theorems:* `C72_face_frames`.

### C73 GlobalToLocal inverts affine cells

*Status:* proved. *Files:* Model_Geometry / Spec_Shapes / Proof_Geometry / Prop_Geometry.  
*How:* Newton's method reaches the point in one step on affine cells.  
*Note:* Affine cells; on curved cells Newton's method need not converge.  
*Theorems:* `C73_affine_maps_inverted`, `C73_tetrahedra_inverted`, `C73_exact_hint_returned`.

### C74 Tabulated quadrature rules are accurate to their degree

*Status:* proved. *Files:* Model_Gauss / Spec_Gauss / Proof_GaussTable, Proof_GaussMore / Prop_Gauss.  
*How:* Computation over the rationals with an error bound.  
*Note:* The decimal constants are the rationals they spell; the bound is on that rounding.  
*Theorems:* `C74_six_points`, `C74_triangle`, `C74_tetrahedron`, `C74_wedge`, `C74_pyramid`.

### C75 Volumes and moments of curved hexahedra are integrated exactly

*Status:* proved. *Files:* Model_Gauss / Spec_Gauss / Proof_GaussVolume / Prop_Gauss.  
*How:* Degrees of the determinant as a polynomial, then C47.  
*Note:* Hexahedra of 8, 20, 26, 27 nodes; hypothesis: the determinant is not negative at the quadrature points.  
*Theorems:* `C75_integrals_over_hexahedra`, `C75_volumes_of_hexahedra`.

### C76 GlobalFluxToLocalFlux measures the flux through the coordinate surfaces

*Status:* proved. *Files:* Model_Nodal / Spec_Nodal / Proof_Nodal / Prop_Nodal.  
*How:* Vector algebra.  
*Note:* Area vectors are cross products of the rows of the Jacobian.  
*Theorems:* `C76_local_flux`.

### C77 Approximate interpolates at the Gauss points

*Status:* proved. *Files:* Model_Nodal / Spec_Nodal / Proof_NodalMain / Prop_Nodal.  
*How:* Direct.  
*Note:* Both formulations.  
*Theorems:* `C77_approximate`.

### C78 Setting the same boundary condition twice has the effect of setting it once

*Status:* refuted in general, proved with a guard (claimed as partial). *Files:* Model_DG / Spec_DG / Proof_DG / Prop_DG.  
*How:* Refuted for names kept in vectors.  
*Note:* REFUTED: SetSolidWall and SetSupersonicOutlet append the name to a vector, so a second call doubles the flux (shown for a solid wall on a mesh of two cells). Proved for the four conditions that are kept in maps.  
*Theorems:* `C78_set_twice_refuted`, `C78_functions_partial`.

### C79 Readers, writers and updaters of a column agree on the address of every degree of freedom

*Status:* proved. *Files:* Model_Dofs / Spec_DG / Proof_Dofs / Prop_DG.  
*How:* Address arithmetic.  
*Note:* Any numbers of components, basis functions and cells.  
*Theorems:* `C79_round_trip`, `C79_round_trip_column`, `C79_updates`, `C79_value_updates`.

### C80 The nodal DG scheme computes the lumped weak form and is conservative

*Status:* proved. *Files:* Model_Schemes / Spec_Schemes / Proof_Schemes, Proof_DGLobatto / Prop_Schemes.  
*How:* Loops over faces written once, with parameters for what the three classes do; effects on the memory are sums.  
*Note:* Any part, any number of components, local and global form; conservation needs that the gradients of the basis sum to zero (shown for tensor product cells, tensor_unity).  
*Theorems:* `C80_lumped_weak_form`, `C80_conservation`, `C80_fluxes`.

### C81 Flux reconstruction computes the corrected divergence and is conservative

*Status:* proved. *Files:* Model_Schemes / Spec_Schemes, Spec_FR / Proof_FR, Proof_FRLine, Proof_FRMain / Prop_Schemes.  
*How:* The constructor is run (caches are built by search) and read back; conservation by summation by parts on each line.  
*Note:* Any part of hexahedra; the conservation for Lobatto rules of 2 to 6 points.  
*Theorems:* `C81_flux_reconstruction`, `C81_lobatto`, `C81_conservation`.

### C82 FR::General with lumping corrections, FR::Lobatto and DG::Lobatto give the same residual

*Status:* proved. *Files:* Model_Schemes / Spec_Schemes, Spec_FR / Proof_FRMain, Proof_FRCell / Prop_Schemes.  
*How:* Both residuals are brought to the form of C80.  
*Note:* Lobatto rules of 2 to 6 points.  
*Theorems:* `C82_three_schemes`, `C82_caches`.

### C83 A uniform flow is a steady state of flux reconstruction on curved cells

*Status:* refuted in general, proved with a guard (claimed as partial). *Files:* Model_Schemes / Spec_FR / Proof_FRStream, Proof_Box / Prop_Schemes.  
*How:* Metric identities as polynomial identities; refuted with too few points.  
*Note:* REFUTED: with two points per line a twisted cell gives residual 1/8 for a uniform flow. Proved when the rule has at least 2m+1 points per line, m the order of the hexahedron.  
*Theorems:* `C83_free_stream_refuted`, `C83_free_stream`.

### C84 FindFaceId and FindCollinearIndex identify sides and points of a hexahedron

*Status:* proved. *Files:* Model_Schemes / Spec_FR / Proof_FR, Proof_FRCell / Prop_Schemes.  
*How:* The searches compare distances with tolerances.  
*Note:* Exact over the reals, for cells separated by more than the tolerances.  
*Theorems:* `C84_search`.

### C85 Each process builds the faces of its cells

*Status:* proved. *Files:* Model_PartFaces / Spec_PartFaces / Proof_PartOnce, Proof_PartFaces, Proof_FacesEnd / Prop_PartFaces.  
*How:* Faces of one process from its cells, nodes and file; C08-C11 and C64 give these from the input mesh, C31's face sorting gives the order of the nodes.  
*Note:* end to end from the input mesh through PartitionAndShuffle, BuildNodes and BuildCells; the mesh is conforming (common nodes of adjacent cells are a side of each) and the dual graph symmetric. The assertion on the direction of the normal of boundary faces is not modelled.  
*Theorems:* `C85_faces`.

### C86 The two sides of a partition boundary see the same face; boundary faces have one owner

*Status:* proved. *Files:* Model_PartFaces / Spec_PartFaces / Proof_FacesUse / Prop_PartFaces.  
*How:* From C85 for two processes.  
*Theorems:* `C86_ghost_faces`, `C86_boundary_faces`.

### C87 Boundary faces are found by the name of their section

*Status:* refuted in general, proved with a guard (claimed as partial). *Files:* Model_PartFaces / Spec_PartFaces / Proof_FacesUse, Sample_Twin / Prop_PartFaces.  
*How:* The last section with a name is found; refuted on a two-zone mesh.  
*Note:* REFUTED: of two boundary sections with the same name in different zones only the last is found by GetBoundaryFaces; proved when names are distinct.  
*Theorems:* `C87_faces_by_name`, `C87_same_name_refuted`.

### C88 The neighbours recorded in a cell are those of the dual graph

*Status:* proved. *Files:* Model_PartFaces / Proof_FacesUse / Prop_PartFaces.  
*How:* From C85, for the lists adj_cells_ and adj_faces_, which correspond to each other one by one.  
*Theorems:* `C88_adjacent_cells`, `C88_adjacent_faces`.

### C89 The file for visualisation written by a process contains its cells and their solution

*Status:* refuted in general, proved with a guard (claimed as partial). *Files:* Model_Vtk, Spec_Vtk / Proof_Vtk, Proof_VtkPoints / Prop_Vtk / Prop_Vtk.  
*How:* The writer is a fold over the cells followed by the contents of the file as a record (XML tags, the text form of numbers and their rounding to text are left out; the points are bytes encoded by the model of base64). The specification is a reader of VTK's format that decodes the points and cuts connectivity and fields at the offsets; proved that reading what was written returns the cells.  
*Note:* REFUTED: a part without cells or with a pyramid gets no file, and numbers of 4 bytes are declared as Float64; proved for all other parts and numbers of 8 bytes.  
*Theorems:* `C89_grid_partial`, `C89_no_file_refuted`, `C89_single_precision_refuted`.

### C90 The points written for a cell are VTK's nodes of it

*Status:* proved. *Files:* Model_Vtk, Model_Shapes / Proof_VtkPoints / Prop_Vtk / Prop_Vtk.  
*How:* The tables of local coordinates are evaluated by the shape functions (C09 ff.): for linear cells at middles of corners, for quadratic cells the Kronecker property of the shape functions.  
*Theorems:* `C90_linear_cells`, `C90_quadratic_cells`.

### C91 The index file names exactly the files written by the processes

*Status:* refuted in general, proved with a guard (claimed as partial). *Files:* Model_Vtk / Proof_VtkPoints / Prop_Vtk / Prop_Vtk.  
*How:* Paths are strings, snprintf cuts after n-1 characters; the decimal form of a number is proved injective.  
*Note:* REFUTED: paths are cut after 1023 characters, so that processes may write the same file; proved for shorter paths.  
*Theorems:* `C91_index_partial`, `C91_long_names_refuted`.

### C92 The residual of flux reconstruction with diffusion uses one total flux through each face

*Status:* proved. *Files:* Model_Viscous, Spec_Viscous / Proof_Viscous, Proof_ViscousMain, Sample_Viscous / Prop_Viscous / Prop_Viscous.  
*How:* The convective and diffusive branches of FR are modelled with states that hold value, gradient and Hessian at a point. Proved equal, as programs, to the convective scheme (C81) run on the part whose solvers return the total fluxes; the form of the residual and conservation follow from C81.  
*Theorems:* `C92_total_fluxes`, `C92_lobatto`, `C92_conservation`.

### C93 Linear solutions of diffusion are steady

*Status:* refuted in general, proved with a guard (claimed as partial). *Files:* Model_Viscous, Spec_Viscous / Proof_ViscousMain, Sample_Viscous / Prop_Viscous / Prop_Viscous.  
*How:* For a linear solution the common gradient is the gradient, so the total flux is uniform and the jumps vanish (C83). The refutation evaluates the weak form of DG::Lobatto (C80) on two cubes.  
*Note:* REFUTED for DG::Lobatto, whose faces have no viscous fluxes; proved for FR::General.  
*Theorems:* `C93_linear_steady`, `C93_fine_cells`, `C93_dg_lobatto_refuted`.

### C94 The source term of rotors is the forces of their blades

*Status:* proved. *Files:* Model_Source, Spec_Source / Proof_Source / Prop_Source / Prop_Source.  
*How:* UpdateCoeff writes into an array by rows of the Eigen matrix, GetForces appends to three vectors; both are proved to follow the same list of loads. Corners of the triangles of a cell are a parameter; airfoils are arbitrary functions.  
*Theorems:* `C94_source_is_force`, `C94_appends`, `C94_defined`, `C94_install`.

### C95 Rotors change the total momentum and energy by their forces and powers

*Status:* proved. *Files:* Model_Source, Model_DG / Proof_SourceMain, Sample_Source / Prop_Source / Prop_Source.  
*How:* The loop over cells turns the rotors at the first cell and finds them turned at the others (UpdateAzimuth is idempotent); the balance follows from C20 and the orthonormal basis. The sample is a blade at rest in a wind, crossing a tetrahedron.  
*Theorems:* `C95_residual`, `C95_no_source`, `C95_balance`.

### C96 The forces in a cell act on the part of the blade in the cell

*Status:* refuted in general, proved with a guard (claimed as partial). *Files:* Model_Source / Proof_SourceMain / Prop_Source / Prop_Source.  
*How:* The ratios found by Intersect are proved valid for any faces; four Legendre points, exactness from C47. The refutation uses the positions of C61.  
*Note:* REFUTED: no force for a blade inside of a cell; proved for tetrahedra in general position when Intersect finds the right end.  
*Theorems:* `C96_points`, `C96_length_refuted`, `C96_length_partial`.

### C97 Damping matrices represent the diffusive residual

*Status:* proved. *Files:* Model_Damping, Spec_Damping / Proof_Damping, Proof_DampingMain / Prop_Damping / Prop_Damping.  
*How:* The gradient and the volume residual of every scheme are shown to be linear with explicit coefficients; then the loop over columns is followed with its coefficients (ones in the current column, zeros elsewhere). A matrix that represents the residual is unique, from which independence of everything else follows. The Riemann solver is one whose linear diffusion model shares the static coefficients of the class used in viscosity.hpp.  
*Theorems:* `C97_matrices`, `C97_only_geometry`.

### C98 Damping matrices dissipate energy and conserve means

*Status:* proved. *Files:* Model_Damping / Proof_DampingMain, Sample_Damping / Prop_Damping / Prop_Damping.  
*How:* Entries are minus the weighted products of gradients. Sums over points vanish because derivatives of the Lagrange polynomials, which sum to 1, vanish. Not claimed for flux reconstruction, whose matrix is not symmetric.  
*Theorems:* `C98_constants`, `C98_modal`, `C98_nodal`, `C98_nodal_sum`, `C98_energy_sign`.

### C99 Building damping matrices leaves the solution and the physics alone

*Status:* refuted in general, proved with a guard (claimed as partial). *Files:* Model_Damping / Proof_DampingMain, Sample_Damping / Prop_Damping / Prop_Damping.  
*How:* The state holds the coefficients of all cells by address and the static coefficients of diffusion. The positive theorem names the last cell of the loop that touches an address.  
*Note:* REFUTED: the call overwrites the coefficients of all local cells and of their neighbours and sets the diffusion coefficient to 1; proved instead: exactly what is left behind.  
*Theorems:* `C99_side_effects_refuted`, `C99_side_effects_partial`.

### C100 A solution can be restarted from its file

*Status:* proved. *Files:* Model_Restart / Spec_Restart, Proof_Restart, Proof_RestartFile, Proof_RestartMain, Sample_Restart / Prop_Restart / Prop_Restart.  
*How:* All processes together; a file is a list of zones with named fields whose unwritten entries are unspecified. Invariants of the loops over cells, fields, sections and processes. The only assumption on the partition is that processes agree on cells they share, and that sections are numbered from 1 in all processes (as SortSectionsByDim makes them).  
*Theorems:* `C100_restart`, `C100_round_trip`, `C100_content`.

### C101 The solution file is complete whatever a repeated declaration does

*Status:* refuted in general, proved with a guard (claimed as partial). *Files:* Model_Restart / Proof_RestartMain, Sample_Restart / Prop_Restart / Prop_Restart.  
*How:* The behaviour of the library is a parameter of the model.  
*Note:* REFUTED if cgp_field_write replaces a field of the same name: zones with two sections lose the cells of all sections but the last; proved for zones with at most one section (C100 covers any number if the library keeps the data).  
*Theorems:* `C101_redeclared_refuted`, `C101_one_section_partial`.

### C102 A simulation with a limiter on several processes conserves what does not leave the domain

*Status:* proved. *Files:* Model_Simulation, Model_Taylor_cell / Spec_Simulation, Proof_Simulation, Proof_Taylor_cell, Sample_Simulation / Prop_Simulation / Prop_Simulation.  
*How:* All ranks together: an entry of the solution is addressed by a rank and a position. The residual is that of Model_DG with values computed from the coefficients, limiting that of Model_Reconstruct, stepping that of rk.hpp with a SetSolutionColumn that limits. The content of the mesh is a linear functional; interface terms cancel by a permutation of the faces between parts.  
*Note:* The interface condition (copies of a face give opposite fluxes) is a hypothesis on the mesh.  
*Theorems:* `C102_residual`, `C102_step`, `C102_conserved`, `C102_limiting`, `C102_gradients`, `C102_weno`, `C102_weno_conserved`, `C102_convex`, `C102_without_limiter`.

### C103 MeasureL1Error is the quadrature of the absolute difference

*Status:* proved. *Files:* Model_Simulation / Spec_Simulation, Proof_L1 / Prop_Simulation / Prop_Simulation.  
*How:* The loop is a sum over cells and points; then inequalities of sums.  
*Theorems:* `C103_sum`, `C103_zero`, `C103_bounds`.

### C104 Both sides of a face compute opposite fluxes

*Status:* refuted in general, proved with a guard (claimed as partial). *Files:* Model_Euler, Model_Simple, Model_Exact / Spec_Mirror, Proof_Mirror, Proof_MirrorExact, Sample_Mirror, Sample_MirrorExact / Prop_Mirror, Prop_MirrorExact / Prop_Mirror, Prop_MirrorExact.  
*How:* Solvers commute with isometries of the tangential velocities; frames with equal or opposite normals differ by one. Mirror symmetry of the waves of HLLC, with the tie of a contact at rest. For systems two decompositions of A and -A are compared through the product of their eigenvector matrices.  
*Note:* REFUTED for HLLC: two streams at Mach 2 each. REFUTED for the exact solver: each side starts its iteration from its own pressure and stops within a tolerance, so the momentum fluxes differ. Proved for all other solvers, for HLLC if the normal velocities approach slower than the sum of the sound speeds, and for the exact solver if both iterations end with the same pressure, no vacuum appears, and the velocity of the contact is not zero or the pressure is the exact root.  
*Theorems:* `C104_scalar`, `C104_double`, `C104_multiple`, `C104_ausm`, `C104_hllc_partial`, `C104_hllc_refuted`, `C104_exact_partial`, `C104_exact_refuted`.

### C105 Fluxes on boundaries of the simple equations are those of the states

*Status:* refuted in general, proved with a guard (claimed as partial). *Files:* Model_SimpleBoundary / Spec_Simple / Prop_SimpleBoundary / Prop_SimpleBoundary.  
*How:* Uninitialised return values are None. Direct computation.  
*Note:* REFUTED for the subsonic and smart boundaries, which return uninitialised values; proved for supersonic boundaries and walls.  
*Theorems:* `C105_rotate`, `C105_scalar`, `C105_upwind`, `C105_systems`, `C105_subsonic_refuted`.

### C106 A mesh file survives reading and writing

*Status:* refuted in general, proved with a guard (claimed as partial). *Files:* Model_MeshFile / Spec_MeshFile, Proof_MeshFile, Proof_MeshFileZone / Prop_MeshFile / Prop_MeshFile.  
*How:* The file is a tree of records, and the calls of the CGNS library append and look up nodes. Reading after writing is shown node by node; sections are sorted by a function that is only known to sort.  
*Note:* REFUTED: without UpdateSectionRanges boundary conditions keep the old numbers of their faces; max_dim below 3, File<float> with fields and names of 32 characters fail. Proved: the round trip of everything else, and of the conditions after UpdateSectionRanges.  
*Theorems:* `C106_round_trip`, `C106_min_dim`, `C106_conditions`, `C106_conditions_refuted`, `C106_max_dim_refuted`, `C106_float_refuted`, `C106_long_name_refuted`.

### C107 Translate, Dilate and RotateZ move all nodes of a mesh rigidly

*Status:* proved. *Files:* Model_MeshMove / Spec_MeshMove, Proof_MeshMove / Prop_MeshMove / Prop_MeshMove.  
*How:* Each loop over nodes is a map of points; then identities of sines and cosines. Saving uses C106.  
*Note:* Exact over the reals.  
*Theorems:* `C107_translate`, `C107_dilate`, `C107_rotate`, `C107_compose`, `C107_saved`.

### C108 EnergyBasedViscosity shows what the wrapped scheme shows

*Status:* refuted in general, proved with a guard (claimed as partial). *Files:* Model_Decorator / Spec_Decorator / Prop_Decorator / Prop_Decorator.  
*How:* Two records of members and one part; induction on the list of calls. Uses the residual of C20.  
*Note:* REFUTED for boundary conditions set on the wrapper, which are ignored; proved when they are set on the wrapped scheme.  
*Theorems:* `C108_transparent`, `C108_same`, `C108_boundaries`, `C108_calls`, `C108_conditions_refuted`.

### C109 Gas and scalar simulations conserve mass and energy across processes

*Status:* proved. *Files:* Model_Solvers, Model_Simulation / Spec_Solvers, Proof_Solvers, Sample_Solvers / Prop_Solvers / Prop_Solvers.  
*How:* The solvers of C104 as objects that the scheme of C102 calls. The hypothesis of C102 on interfaces is replaced by geometry: the mirror theorems of C104 give opposite fluxes at the states of the stages.  
*Note:* Positivity of the states at the interfaces is a hypothesis, as the schemes do not guarantee it.  
*Theorems:* `C109_scalar`, `C109_multiple`, `C109_ausm`, `C109_hllc`, `C109_walls`, `C109_force`, `C109_scalar_walls`, `C109_flux`, `C109_scalar_flux`, `C109_multiple_flux`, `C109_upwind`, `C109_subsonic`.

### C110 The viscous flux of a gas is the Navier-Stokes one, in every frame

*Status:* refuted in general, proved with a guard (claimed as partial). *Files:* Model_NavierStokes / Spec_NavierStokes, Proof_NavierStokes / Prop_NavierStokes / Prop_NavierStokes.  
*How:* The header does not compile; the model lists the repairs it needs and keeps the column named in line 105 as an argument. Gradients are derivatives along every line, so the chain and quotient rules of the library give the primitive gradients. The stress is compared with mu (G + G^T) - 2/3 mu div I, dissipation is a sum of squares, and frame changes are linear algebra.  
*Note:* REFUTED for the flux matrix as written: line 105 subtracts the x part of the energy flux from the z column. C110_matrix_partial is the agreement of matrix and face when that line means the x column. Everything else is proved.  
*Theorems:* `C110_gradients`, `C110_flux`, `C110_opposite`, `C110_matrix_partial`, `C110_matrix_refuted`, `C110_stress`, `C110_dissipation`, `C110_turn`, `C110_boost`.

### C111 An interrupted and restarted simulation leaves the same frames as an uninterrupted one

*Status:* proved. *Files:* Model_Driver, Model_Restart / Spec_Driver, Proof_Driver, Proof_DriverStorage, Sample_Driver / Prop_Driver / Prop_Driver.  
*How:* The program is a fold over steps on a disk of named files; what writing, reading and a step do are parameters with laws, and C111_storage shows that the writing and reading of C100 obey them. Induction on steps, then on restarts.  
*Note:* A step is any function that depends on the solution only; C111_storage excludes zones with several sections that share field arrays (C101).  
*Theorems:* `C111_first`, `C111_restart`, `C111_interrupted`, `C111_times`, `C111_storage`.

### C112 A restart continues from the frame that the user names

*Status:* refuted in general, proved with a guard (claimed as partial). *Files:* Model_Driver / Spec_Driver, Proof_Driver, Sample_Driver / Prop_Driver / Prop_Driver.  
*How:* Same model. Two concrete runs contradict it; the guarded form follows the file given as first argument.  
*Note:* REFUTED: without the number of processes the frame is not read but the mesh file is partitioned again; and after a restart on another number of processes the frame it began with stays in the old order of cells, so a second restart from it exchanges values silently. Proved for the same number of processes (C111) and for the first restart on another number from the file given.  
*Theorems:* `C112_ignores_frames`, `C112_repartition_partial`, `C112_frame_only_refuted`, `C112_stale_frame_refuted`.

### C113 The forces written for a frame are those at the time of the frame

*Status:* refuted in general, proved with a guard (claimed as partial). *Files:* Model_Driver, Model_Aircraft / Spec_Driver, Proof_Driver, Sample_Driver / Prop_Driver / Prop_Driver.  
*How:* The loop with the inner counter loop is modelled with fuel; induction on frames gives the time of each file, which is that of the frame before.  
*Note:* REFUTED: the time is computed before the steps up to the frame are skipped, so the rotors stand as at the frame before. The solutions and the names of the files are right, and everything is right if the forces do not depend on time.  
*Theorems:* `C113_forces_partial`, `C113_steady_partial`, `C113_time_refuted`.

### C114 The search for collinear nodes finds exactly the nodes on the line through a flux point

*Status:* proved. *Files:* Model_Collinear, Model_Geometry, Model_Nodal / Spec_Collinear, Proof_Collinear / Prop_Collinear / Prop_Collinear.  
*How:* The three functions are modelled by their loops with the tolerance 1e-10; on a parallelepiped Newton's method gives back the local point exactly (C10), and a search in a list of points apart finds the one number.  
*Theorems:* `C114_points`, `C114_by_local`, `C114_by_global`.

### C115 A point that is no flux point is rejected by the search for collinear nodes

*Status:* refuted in general, proved with a guard (claimed as partial). *Files:* Model_Collinear / Spec_Collinear, Proof_Collinear / Prop_Collinear / Prop_Collinear.  
*How:* Same model; a point between the nodes of a cube contradicts it, because the search stops at the number of nodes without an assertion.  
*Note:* REFUTED: the search runs to the last index without asserting that a node was found, so a point of the face between the grid points gets the line of other nodes. Points off the face and numbers of no face are rejected.  
*Theorems:* `C115_other_points_refuted`, `C115_rejected_partial`.

### C116 The states of the double Mach reflection are those of a shock that moves as the boundary condition says

*Status:* proved. *Files:* Model_Demo, Model_Euler / Spec_Demo, Spec_Euler, Proof_Demo / Prop_Demo / Prop_Demo.  
*How:* The global variables are functions of the constants; the flux of a gas moving along the normal is computed from the flux of Spec_Euler, the jump conditions follow by field arithmetic and Lax's condition by comparing squares.  
*Theorems:* `C116_shock`, `C116_front`, `C116_numbers`.

### C117 The exact solutions against which the linear demonstrations measure errors solve the equations that are solved

*Status:* refuted in general, proved with a guard (claimed as partial). *Files:* Model_Demo, Model_Simple / Spec_Demo, Proof_Demo / Prop_Demo / Prop_Demo.  
*How:* Classical derivatives (stdlib limits) for the scalar equation, one-sided values and jumps for the system. Travelling profiles are shown to solve the equation exactly where nu f'' = 0; a decomposition with values (8, 4) contradicts the system.  
*Note:* REFUTED: the scalar solution leaves out the diffusion that the program sets, and the solution of the system takes the rows of the matrix whose columns are the eigenvectors. It holds without diffusion, and if the rows are left eigenvectors; both start right.  
*Theorems:* `C117_single_refuted`, `C117_single_partial`, `C117_multiple_refuted`, `C117_multiple_partial`, `C117_multiple_start_partial`.

### C118 The scalar Riemann solvers of the Python package give the entropy solution and Godunov's flux

*Status:* proved. *Files:* Model_PyRiemann / Spec_PyRiemann, Spec_Simple, Proof_PyRiemann / Prop_PyRiemann / Prop_PyRiemann.  
*How:* Equations are a sum type, solver objects records with their remembered data; Python's None is a value of its own, exceptions are `None`. The values along rays have a closed form that satisfies Osher's formula; Godunov's flux is its case s = 0.  
*Theorems:* `C118_linear`, `C118_burgers`, `C118_flux`.

### C119 Coupled equations of the Python package are solved by their characteristics

*Status:* proved. *Files:* Model_PyRiemann / Spec_PyRiemann, Proof_PyRiemann / Prop_PyRiemann / Prop_PyRiemann.  
*How:* 2x2 matrices and `numpy.linalg.inv` (exact inverse, failure on zero determinant); derivatives are limits of the standard library along every direction.  
*Theorems:* `C119_jacobian`, `C119_singular`, `C119_diffusive`, `C119_value`, `C119_flux`.

### C120 The viscous Burgers equation of the Python package can be used

*Status:* refuted in general, proved with a guard (claimed as partial). *Files:* Model_PyRiemann / Proof_PyRiemann / Prop_PyRiemann / Prop_PyRiemann.  
*How:* Constructors take the list of their positional arguments, so that a call with one too many fails as in Python.  
*Note:* REFUTED: equation.Burgers.__init__ passes two arguments to InviscidBurgers.__init__, which takes one, so every construction raises TypeError. The other equations can be built.  
*Theorems:* `C120_burgers_refuted`, `C120_others_partial`.

### C121 A Riemann solver of the Python package gives its data back at time zero

*Status:* refuted in general, proved with a guard (claimed as partial). *Files:* Model_PyRiemann / Proof_PyRiemann / Prop_PyRiemann / Prop_PyRiemann.  
*How:* Same model; the coupled solver inherits the fields for the data, which start as None.  
*Note:* REFUTED: riemann.Coupled.set_initial does not store its arguments, so get_value(x, 0) returns None. The scalar solvers are right (C118_linear, C118_burgers); the coupled one is right outside of the waves at positive times.  
*Theorems:* `C121_initial_refuted`, `C121_outside_partial`.

### C122 Interface fluxes of the Python package are those of the direct discontinuous Galerkin method

*Status:* refuted in general, proved with a guard (claimed as partial). *Files:* Model_PyRiemann / Spec_PyRiemann, Proof_PyRiemann / Prop_PyRiemann / Prop_PyRiemann.  
*How:* The element is modelled by what it shows at its end (degree, length, value, derivatives, extra viscosity); numpy's broadcasting of a matrix with a vector is modelled entry by entry.  
*Note:* REFUTED: for coupled equations with viscosity the half jump is a matrix, because a matrix of viscosities is multiplied entry by entry with the jump. Proved for scalar equations and for coupled equations without viscosity.  
*Theorems:* `C122_scalar_partial`, `C122_consistent_partial`, `C122_inviscid_partial`, `C122_coupled_refuted`.

### C123 The Euler equations of the Python package have the right conversions, fluxes and characteristics

*Status:* proved. *Files:* Model_PyEuler / Spec_PyEuler, Proof_PyEuler / Prop_PyEuler / Prop_PyEuler.  
*How:* Arrays of three numbers; divisions by zero and square roots of negative numbers fail. The Jacobian matrix is compared with limits of difference quotients along every direction; eigenvectors by matrix products.  
*Theorems:* `py_euler_conversions`, `py_euler_flux_and_characteristics`, `py_euler_viscous_fluxes`.

### C124 Roe's solver of the Python package linearises exactly

*Status:* proved. *Files:* Model_PyEuler / Spec_PyEuler, Proof_PyRoe / Prop_PyEuler / Prop_PyEuler.  
*How:* States are written with the square roots of their densities, so that Roe's condition becomes a rational identity; supersonic and stationary cases follow from the eigen-decomposition at the average.  
*Theorems:* `py_roe_flux`, `py_roe_exact_cases`.

### C125 The Lax-Friedrichs solver of the Python package preserves positivity

*Status:* proved. *Files:* Model_PyEuler / Spec_PyEuler, Proof_PyRoe / Prop_PyEuler / Prop_PyEuler.  
*How:* The physical states form a convex cone; the update is a sum of lambda u -+ F(u), which lie in it, and a non-negative multiple of the old state.  
*Theorems:* `py_lax_friedrichs_flux`, `py_lax_friedrichs_positivity`.

### C126 The exact Euler solver of the Python package gives the entropy solution when its root finder converges

*Status:* proved. *Files:* Model_PyExact / Spec_PyExact, Proof_PyExact, Proof_PyPrime / Prop_PyExact / Prop_PyExact.  
*How:* `scipy.optimize.fsolve` is a parameter. The functions are shown equal to those of the C++ solver (C35, C67), whose convexity is known; waves are compared with what an observer on a ray sees through the waves of the C++ specification.  
*Note:* the root finder of scipy is a parameter; its convergence is a hypothesis  
*Theorems:* `py_exact_iteration`, `py_exact_solution`.

### C127 The exact Euler solver of the Python package handles vacuum

*Status:* refuted in general, proved with a guard (claimed as partial). *Files:* Model_PyExact / Spec_PyExact, Proof_PyExact / Prop_PyExact / Prop_PyExact.  
*How:* REFUTED: between both expansions the values are not-a-number and the flux fails the assertions in the conversion, for every problem with vacuum over the time axis. Outside of the vacuum the values are right.  
*Note:* REFUTED: inside of the vacuum get_value gives not-a-number and get_upwind_flux fails, for every problem with vacuum over the time axis; outside of the vacuum the values are right.  
*Theorems:* `py_exact_vacuum_refuted`, `py_exact_vacuum_always`, `py_exact_vacuum_outside_partial`.

### C128 Correction functions meet their defining conditions

*Status:* proved. *Files:* Model_PyPoly / Spec_PyPoly, Proof_PyPoly, Proof_PyCorrect / Prop_PyPoly / Prop_PyPoly.  
*How:* `scipy.special.eval_legendre` is the Legendre polynomial defined by its recurrence; derivatives, parity, end values and orthogonality of Legendre polynomials are proved by induction. `numpy.linalg.solve` and `roots_legendre` are parameters with hypotheses (a solution of the system, exactness).  
*Note:* linalg.solve and roots_legendre are parameters with hypotheses  
*Theorems:* `py_radau`, `py_vincent`, `py_vincent_choices`, `py_huynh`.

### C129 Every constructible Vincent function vanishes at the far end

*Status:* refuted in general, proved with a guard (claimed as partial). *Files:* Model_PyPoly / Spec_PyPoly, Proof_PyCorrect / Prop_PyPoly / Prop_PyPoly.  
*How:* REFUTED: degree one with the default mu gives the constant 1, because mu(0) = 0 and P_{-1} = P_0 = 1. Exactly the objects of degree one with mu(0) other than 1 are wrong.  
*Note:* REFUTED: Vincent(1) with the default mu is the constant 1, with zero gradient, so it corrects nothing. Proved: right exactly for degree at least 2 or mu(0) = 1.  
*Theorems:* `py_vincent_far_end_refuted`, `py_vincent_far_end_partial`.

### C130 Lagrange's polynomials are cardinal, differentiated correctly and reproduce polynomials

*Status:* proved. *Files:* Model_PyPoly / Spec_PyPoly, Proof_PyLagrange / Prop_PyPoly / Prop_PyPoly.  
*How:* Loops are rewritten as products and sums over index lists; reproduction by counting roots.  
*Theorems:* `py_lagrange`, `py_lagrange_equal_points`.

### C131 Coordinates are affine bijections with consistent geometry

*Status:* proved. *Files:* Model_PyIntegrator / Spec_PyIntegrator, Proof_PyIntegrator / Prop_PyIntegrator / Prop_PyIntegrator, Prop_PyShifted.  
*How:* Structural induction over nested shifts.  
*Theorems:* `py_coordinates`, `py_shifted`.

### C132 Gauss-Lobatto integrators are exact for polynomials of degree 2 n - 3

*Status:* proved. *Files:* Model_PyIntegrator / Spec_PyIntegrator, Spec_Gauss, Proof_PyIntegrator / Prop_PyIntegrator / Prop_PyIntegrator.  
*How:* Moments are checked exactly for the tables with radicals and in integer arithmetic for the decimals, then extended to all polynomials and moved to elements by substitution. More than ten points are found by bisection (scipy) and not modelled.  
*Note:* more than ten points (bisection by scipy) are not modelled  
*Theorems:* `py_lobatto_tables`, `py_lobatto_integrates`, `py_lobatto_exact`, `py_lobatto_in_element`.

### C133 RungeKutta(order) has its order

*Status:* proved. *Files:* Model_PyTemporal / Spec_Temporal, Spec_PyTemporal, Proof_PyTemporal / Prop_PyTemporal / Prop_PyTemporal.  
*How:* The stages are rewritten into tableau form; the order conditions are rational identities.  
*Theorems:* `py_rk_orders`, `py_rk_other_orders`, `py_rk_linear`, `py_rk_polynomial`.

### C134 Runge-Kutta steps keep convex sets and linear invariants

*Status:* proved. *Files:* Model_PyTemporal / Spec_Temporal, Proof_PyTemporal / Prop_PyTemporal / Prop_PyTemporal.  
*How:* Each stage of orders 1 to 3 is a convex combination of Euler steps. A counterexample shows that order 4 is rightly left out.  
*Theorems:* `py_rk_convex`, `py_rk_invariant`, `py_rk4_leaves_convex_sets`.

### C135 The time loop writes frames at the right times with admissible steps

*Status:* proved. *Files:* Model_PyTemporal / Spec_PyTemporal, Proof_PyTemporal / Prop_PyTemporal / Prop_PyTemporal.  
*How:* Induction over the frames and the steps within a frame. The states, the update and the suggestions are parameters.  
*Theorems:* `py_frames`, `py_loop_ends`.

### C136 Legendre expansions represent what their coefficients say

*Status:* proved. *Files:* Model_PyExpansion / Spec_PyExpansion, Spec_PyPoly, Proof_PyExpansion / Prop_PyExpansion / Prop_PyExpansion.  
*How:* The in-place construction of the matrix is shown to give the coefficients of Legendre polynomials by Bonnet's recursion; orthogonality comes from C130's lemmas. An inductive predicate describes all objects that can be made by the constructor and the three setters. np.linalg.inv and roots_legendre are parameters with the stated assumptions (satisfied in the example).  
*Theorems:* `py_legendre_basis`, `py_legendre_values`, `py_legendre_setters`.

### C137 Derivatives of Taylor expansions of any order are returned

*Status:* refuted in general, proved with a guard (claimed as partial). *Files:* Model_PyExpansion / Spec_PyExpansion, Proof_PyExpansion / Prop_PyExpansion / Prop_PyExpansion.  
*How:* The loop starts with element k of arrays of n entries; the refutation is a constant.  
*Note:* REFUTED: for k above the degree the derivative is zero, but an IndexError is raised. Proved for k up to the degree, together with the gradient.  
*Theorems:* `py_taylor_derivatives`, `py_taylor_derivatives_refuted`.

### C138 Lagrange expansions represent the values at their nodes

*Status:* proved. *Files:* Model_PyNodal / Spec_PyExpansion, Spec_PyPoly, Proof_PyNodal / Prop_PyNodal / Prop_PyNodal.  
*How:* The rows of the inverse Vandermonde matrix are the Taylor coefficients of the Lagrange polynomials, because both are inverse to the matrix of powers; distinctness of the nodes follows from the existence of the inverse. An inductive predicate describes all objects that can be made by the constructors and the three setters. np.linalg.inv and roots_legendre are parameters with the stated assumptions (satisfied in the example, for all three kinds).  
*Theorems:* `py_nodal_basis`, `py_nodal_values`, `py_nodal_setters`, `py_uniform_roots`.

### C139 Approximations on Lobatto nodes reproduce polynomials

*Status:* refuted in general, proved with a guard (claimed as partial). *Files:* Model_PyNodal / Spec_PyExpansion, Proof_PyNodal / Prop_PyNodal / Prop_PyNodal.  
*How:* The shift by 1e-10 is modelled as written; counterexample: f(x) = x on [1, 5] with two nodes.  
*Note:* REFUTED: the ends are sampled 1e-10 inside of the element, so x is not reproduced. Proved: the result interpolates f at the inner nodes and has the shifted values at the ends; constants are reproduced.  
*Theorems:* `py_lobatto_approximate_refuted`, `py_lobatto_approximate`.

### C140 Discontinuous Galerkin elements conserve

*Status:* proved. *Files:* Model_PyElement / Spec_PyElement, Proof_PyElement, Proof_PyDG / Prop_PyElement / Prop_PyElement.  
*How:* The basis sums to one (Lagrange) or starts with one (Legendre), so that interior and correction terms cancel in the sum of the right-hand side, and the mass matrix maps the residual to its integral. np.linalg.inv, the linear solver and roots_legendre are parameters with the stated assumptions, satisfied in the example for all kinds of nodes. Fluxes and jumps at the faces are arbitrary inputs.  
*Theorems:* `py_dg_legendre_conserves`, `py_dg_nodal_conserves`.

### C141 Discontinuous Galerkin elements differentiate polynomial fluxes exactly

*Status:* proved. *Files:* Model_PyElement / Spec_PyElement, Proof_PyElement, Proof_PyDG / Prop_PyElement / Prop_PyElement.  
*How:* Integration by parts, exactness of the quadrature rules, and testing the difference of both sides against itself (exact rules are positive). On Lobatto nodes the mass matrix is diagonal by quadrature at the nodes, exact for the product of degree 2p-1 which arises.  
*Theorems:* `py_dg_legendre_exact`, `py_dg_nodal_exact`.

### C142 Reconstructed fluxes continue the fluxes of the faces

*Status:* proved. *Files:* Model_PyFR / Spec_PyFR, Proof_PyFR / Prop_PyFR / Prop_PyFR.  
*How:* Correction functions are a record of degree, values and slopes, instantiated with those of polynomial.py; the hypotheses on Huynh's are those on the linear solver and the quadrature rule.  
*Theorems:* `py_corrections_proper`, `py_fr_flux_ends`.

### C143 Radau's polynomials serve as correction functions of flux reconstruction

*Status:* refuted in general, proved with a guard (claimed as partial). *Files:* Model_PyFR / Spec_PyFR, Proof_PyFR / Prop_PyFR / Prop_PyFR.  
*How:* Counterexample: zero solution, one face flux 1, on [1, 5]. The general theorem gives the values at both ends.  
*Note:* REFUTED: Radau returns the pair in the order opposite to that expected by the elements, so that the corrections are applied at the wrong ends. Proved: the values which result at both ends.  
*Theorems:* `py_fr_radau_refuted`, `py_fr_radau`.

### C144 Flux reconstruction is exact for polynomial fluxes

*Status:* proved. *Files:* Model_PyFR / Spec_PyFR, Proof_PyFR / Prop_PyFR / Prop_PyFR.  
*How:* The interpolation of a polynomial flux is the flux; the residual at the nodes determines it everywhere, because both sides have the degree of the expansion.  
*Theorems:* `py_fr_exact`.

### C145 Flux reconstruction conserves for every flux

*Status:* refuted in general, proved with a guard (claimed as partial). *Files:* Model_PyFR / Spec_PyFR, Proof_PyFR / Prop_PyFR / Prop_PyFR.  
*How:* On Lobatto nodes the ends are nodes, so that interpolated and extrapolated fluxes agree there. Counterexample: a gas with linear conservative variables on [1, 5], the density and pressure are positive on the whole element.  
*Note:* REFUTED: on uniform and Legendre nodes the jumps are taken from the flux of the extrapolated solution, but the gradient from the interpolated flux; Euler's equations of degree 1 do not conserve. Proved: conservation on Lobatto nodes for all fluxes, and for polynomial fluxes on all nodes.  
*Theorems:* `py_fr_conserves_refuted`, `py_fr_lobatto_conserves`, `py_fr_exact`.

### C146 The gradient of the reconstructed flux is its gradient

*Status:* refuted in general, proved with a guard (claimed as partial). *Files:* Model_PyFR / Spec_PyFR, Proof_PyFR / Prop_PyFR / Prop_PyFR.  
*How:* Counterexample: Burgers' equation with a linear solution.  
*Note:* REFUTED: get_fr_flux uses the flux of the solution, get_fr_flux_gradient its interpolation; they differ for Burgers of degree 1. Proved: for polynomial fluxes of the degree of the expansion it is the derivative.  
*Theorems:* `py_fr_gradient_refuted`, `py_fr_exact`.

### C147 Dissipation matrices reproduce the residual of the heat equation

*Status:* proved. *Files:* Model_PyFR / Spec_PyDissipation, Proof_PyDissipation / Prop_PyDissipation / Prop_PyDissipation.  
*How:* Each matrix is identified with the sum it stands for (derivatives of the expansion at nodes and ends); the interface flux is that of the model of riemann.LinearAdvectionDiffusion with zero speed. The heat equation is the element equation with flux -du/dx.  
*Theorems:* `py_dissipation`.

### C148 Elements of a Python scheme are linked by common faces

*Status:* proved. *Files:* Model_PyGrid / Spec_PyGrid, Proof_PyGrid / Prop_PyGrid / Prop_PyGrid.  
*How:* Faces are objects with identity (indices into the list of all faces made so far); arrays are functions with Python's negative indices. The spec says which element has which face; the proof follows the loops by induction.  
*Theorems:* `py_grid_made`, `py_grid_linked`.

### C149 Boundary values may be omitted

*Status:* refuted in general, proved with a guard (claimed as partial). *Files:* Model_PyGrid / Spec_PyGrid, Proof_PyGrid / Prop_PyGrid / Prop_PyGrid.  
*How:* 0 * None raises TypeError in the constructor of Inlet.  
*Note:* REFUTED: the assertions admit None, but Inlet computes 0 * None and raises TypeError. Proved: None always fails, and given values always succeed.  
*Theorems:* `py_grid_no_value_refuted`, `py_grid_no_value`, `py_grid_made`.

### C150 Points are found in the element which contains them

*Status:* proved. *Files:* Model_PyGrid / Spec_PyGrid, Proof_PyGrid / Prop_PyGrid / Prop_PyGrid.  
*How:* bisect_right on the sorted left ends, then Python's index -1 for points to the left.  
*Theorems:* `py_grid_element`.

### C151 Columns hold the coefficients of all elements

*Status:* proved. *Files:* Model_PyColumn / Spec_PyColumn, Proof_PyColumn / Prop_PyScheme / Prop_PyScheme.  
*How:* Loop invariants over columns and rows; coefficients are functions of element, term and component.  
*Theorems:* `py_column_set`, `py_column_get`.

### C152 Schemes of the Python package conserve

*Status:* proved. *Files:* Model_PyScheme, Model_PyGrid, Model_PyColumn / Spec_PyElement, Spec_PyGrid, Spec_PyColumn, Proof_PyScheme / Prop_PyScheme / Prop_PyScheme.  
*How:* Each element conserves (C140, C145); neighbors read the same solved face, so the sum telescopes. The Riemann solver is any function of a face, the equation may differ from element to element. Existence of the column is proved when the solver succeeds on all faces.  
*Note:* Conservation of flux reconstruction on the other nodes is refuted (C145).  
*Theorems:* `py_scheme_legendre_conserves`, `py_scheme_nodal_conserves`, `py_scheme_fr_conserves`.

### C153 The flux at a point continues the fluxes of the faces

*Status:* refuted in general, proved with a guard (claimed as partial). *Files:* Model_PyScheme / Spec_PyGrid, Proof_PyScheme / Prop_PyScheme / Prop_PyScheme.  
*How:* Counterexample: advection of zero with the inlet value 5; the flux at the left end of the grid is 0, the flux through the left face is 5.  
*Note:* REFUTED: get_flux_value always solves the interfaces of wrapped neighbors; with boundary values the flux at the ends is that of the state of the opposite end of the grid. Proved: on periodic schemes, and in elements which do not touch the ends.  
*Theorems:* `py_flux_at_point_refuted`, `py_flux_at_point`.

### C154 The selective filter of the Python package acts on rings and lines

*Status:* proved. *Files:* Model_PyFilter / Spec_PyFilter, Proof_PyFilter / Prop_PyFilter / Prop_PyFilter.  
*How:* The loops write each index once; indices are Python indices (negative ones count from the end).  
*Theorems:* `py_filter_ring`, `py_filter_line`.

### C155 The selective filter removes short waves and amplifies none

*Status:* proved. *Files:* Model_PyFilter / Spec_PyFilter, Proof_PyFilter / Prop_PyFilter / Prop_PyFilter.  
*How:* Sums of cosines give a polynomial of degree five in (1 - cos)/2 with the decimals of the source; its sign is decided by exact rational bounds.  
*Theorems:* `py_filter_waves`, `py_filter_damping`.

### C156 The limiter of Zhong and Shu keeps averages and common polynomials

*Status:* proved. *Files:* Model_PyLimiter, Model_PyExpansion / Spec_PyLimiter, Spec_PyExpansion, Proof_PyLimiter / Prop_PyLimiter / Prop_PyLimiter.  
*How:* Smoothness values are non-negative since the rule integrates squares of derivatives exactly; borrowed averages by linearity of the rule; neighbors are arbitrary functions.  
*Note:* Scalar equations; the variant with eigen-matrices is not modelled.  
*Theorems:* `py_zxh_convex`, `py_zxh_unchanged`.

### C157 Limiting is simultaneous and conservative

*Status:* proved. *Files:* Model_PyLimiter, Model_PyGrid / Spec_PyLimiter, Proof_PyLimiter / Prop_PyLimiter / Prop_PyLimiter.  
*How:* Coefficients are computed in a first loop from the old expansions; setting one twice has the effect of setting it once.  
*Note:* For ZhongXingHui2013 on scalar equations.  
*Theorems:* `py_limiter_reconstruct`.

### C158 Li's limiter keeps averages and straight lines

*Status:* refuted in general, proved with a guard (claimed as partial). *Files:* Model_PyLimiter / Spec_PyLimiter, Proof_PyLimiter / Prop_PyLimiter / Prop_PyLimiter.  
*How:* Weights are positive as denominators are at least epsilon. Counterexample: u = x on [1, 5] and [5, 9]: the borrowed slope is multiplied by sqrt(52/3).  
*Note:* REFUTED: _borrow_expansion divides the inner product by norm_2, which is a square root, instead of by its square; a straight line through two elements is bent, for every choice of the parameters. Proved: averages are kept and the result is an average with positive weights.  
*Theorems:* `py_lwa_line_refuted`, `py_lwa_average`.

### C159 Krivodonova's detector reports exactly the cells whose inflow jumps exceed the scale of the cell

*Status:* proved. *Files:* Model_PyDetector Spec_PyDetector Proof_PyDetector Prop_PyDetector / Prop_PyDetector.  
*How:* jumps through the values of the expansions at the common ends (Legendre boundary values are values of the represented polynomial), comparison without division since the divisor is positive; the reported list characterised by membership and order  
*Note:* Legendre expansions, scalar equations; real numbers; the speed is an arbitrary function of the value  
*Theorems:* `py_kxrcf`, `py_kxrcf_continuous`.

### C160 Persson's detector compares the energy of the highest mode with the whole energy

*Status:* refuted in general, proved with a guard (claimed as partial). *Files:* Model_PyDetector Spec_PyDetector Proof_PyDetector Prop_PyDetector / Prop_PyDetector.  
*How:* energies are integrals by orthogonality of the modes; the division by the reference is turned into a product; failures by computation on one cell  
*Note:* REFUTED: elements of degree 0 raise ZeroDivisionError (0**(-3)), and every expansion other than Legendre raises TypeError, because inner_product is called with a third argument; with straight lines (degree 1) no cell is ever reported. Proved: for Legendre expansions of positive degree exactly the stated cells are reported.  
*Theorems:* `py_persson_refuted`, `py_persson`, `py_persson_lines`.

### C161 Klöckner's detector fits the rate of decay of modal energies

*Status:* refuted in general, proved with a guard (claimed as partial). *Files:* Model_PyDetector Spec_PyDetector Proof_PyDetector Prop_PyDetector / Prop_PyDetector.  
*How:* covariances as sums over pairs give positive denominators and nonnegative slopes; optimality of the regression by expanding the squares; skyline by induction on the loop; degree 2 by computation, with a concrete constant solution  
*Note:* REFUTED: with polynomials of degree 2 every cell of every solution is reported, even of a constant, because the skyline makes the only two energies equal, so that the slope is zero; with degree 1 no cell is ever reported. Proved: everything else, for all degrees from 2.  
*Theorems:* `py_kloeckner_refuted`, `py_kloeckner`, `py_kloeckner_rate`, `py_skyline`, `py_kloeckner_low`.

### C162 Li Yan-Hui's detector ignores constants and straight lines

*Status:* proved. *Files:* Model_PyDetector Spec_PyDetector Proof_PyDetector Prop_PyDetector / Prop_PyDetector.  
*How:* bounds of the quotient by the inequality of the means; one at points with equal differences on both sides; sample points are equidistant over the whole uniform grid  
*Note:* Legendre expansions, scalar equations; real numbers  
*Theorems:* `py_lyh`.

### C163 Li Wan-Ai's detector compares extended solutions of neighbors at the center with the least average

*Status:* proved. *Files:* Model_PyJumps Spec_PyDetector Prop_PyJumps / Prop_PyJumps.  
*How:* the loop over two optional neighbors unfolded; averages are means, hence unique; modular indices are previous and next cells  
*Note:* Legendre expansions, scalar equations; real numbers; neighbors are the previous and the next cell around the ends, as link_neighbors makes them  
*Theorems:* `py_lwa_detect`, `py_jumps_smooth`.

### C164 Zhu Jun's detector compares integrals of extended solutions with the least norm

*Status:* proved. *Files:* Model_PyJumps Spec_PyDetector Prop_PyJumps / Prop_PyJumps.  
*How:* differences of moved polynomials are polynomials of the same degree, for which the rule is exact; norms are not negative since weights are not  
*Note:* as C163; the weights of the Gauss rule are assumed not negative; the L1 norm is the one computed with the points of the rule  
*Theorems:* `py_zj_detect`, `py_jumps_smooth`.

### C165 Viscosity by smoothness grows from nothing to the full amount and never leaves that range

*Status:* proved. *Files:* Model_PyViscosity Prop_PyViscosity / Prop_PyViscosity.  
*How:* the three branches as one function of the logarithm of smoothness times degree to the fourth, sine is monotone between minus and plus a quarter turn  
*Note:* Positive degrees; the logarithm of zero is taken as minus infinity.  
*Theorems:* `py_persson_viscosity`.

### C166 Viscosity by energy stays between zero and its bound and vanishes where neighbors agree

*Status:* refuted in general, proved with a guard (claimed as partial). *Files:* Model_PyViscosity Prop_PyViscosity / Prop_PyViscosity.  
*How:* sums of squares with nonnegative weights; both halves of an odd number of points share the middle with weight one half  
*Note:* REFUTED: where the solution of the cell is zero, the assertion on the dissipation rate fails whatever the neighbors are. Whenever a value is returned, it lies between zero and the bound, and it is zero where the neighbors agree; points are counted once. The matrix of dissipation is an arbitrary parameter.  
*Theorems:* `py_energy_viscosity_refuted`, `py_energy_viscosity`, `py_half_energy`.

### C167 Quadratic viscosity is continuous between troubled cells and bounded by the values it interpolates

*Status:* refuted in general, proved with a guard (claimed as partial). *Files:* Model_PyViscosity Prop_PyViscosity / Prop_PyViscosity.  
*How:* the inverse solves the interpolation conditions; bounds of a parabola whose face values are at least half of its center value  
*Note:* REFUTED: with values 1, 1 and 0 in three cells the parabola of the middle cell reaches 17/16. Proved: face values, continuity, lower bounds and the upper bound 17/16 of the largest value. The inverse of the matrix is an external function that inverts.  
*Theorems:* `py_quadratic_viscosity_refuted`, `py_quadratic_viscosity`, `py_quadratic_continuous`.

### C168 Linear viscosity takes the upwind value at faces and is continuous between troubled cells

*Status:* proved. *Files:* Model_PyViscosity Prop_PyViscosity / Prop_PyViscosity.  
*How:* convex combinations of upwind values  
*Note:* Scalar equations; the speeds at the faces are arbitrary.  
*Theorems:* `py_linear_viscosity`, `py_linear_continuous`.

### C169 The exact solutions of linear problems solve their equation

*Status:* refuted in general, proved with a guard (claimed as partial). *Files:* Model_PySolver Prop_PySolver / Prop_PySolver.  
*How:* derivatives by Coquelicot's auto_derive; the residual is the mean times diffusivity  
*Note:* REFUTED: with diffusion and a mean other than zero the formula does not satisfy the equation, since the mean decays too. Proved: it satisfies the equation exactly if diffusivity times mean is zero; initial values, period and transport hold in general.  
*Theorems:* `py_linear_exact_refuted`, `py_linear_exact_iff`, `py_linear_exact`.

### C170 The exact solution of Burgers' equation satisfies the equation of characteristics

*Status:* proved. *Files:* Model_PySolver Prop_PySolver / Prop_PySolver.  
*How:* outside of [-1, 1] the function has known signs, which bounds the loop; sine is Lipschitz, which gives uniqueness  
*Note:* scipy's bisection is an external function that finds an exact zero of the function at hand between values of opposite sign; real numbers  
*Theorems:* `py_burgers_exact`, `py_burgers_history`.

### C171 Distances to polygons

*Status:* refuted in general, proved with a guard (claimed as partial). *Files:* Model_PyDistance Prop_PyDistance / Prop_PyDistance.  
*How:* roots of powers are monotone; projection of the point onto the line; the square by computation  
*Note:* REFUTED: beside a square the distance to its edges is zero at points two away from it. Proved: it is the least distance to the lines through the edges; everything about vertices.  
*Theorems:* `py_dist_to_edges_refuted`, `py_dist_to_edges`, `py_edge_distance`, `py_dist_to_vertices`, `py_vertex_distance`.

### C172 The physical mode of a wave number is found for all wave numbers

*Status:* proved. *Files:* Model_PyWaves Prop_PyWaves / Prop_PyWaves.  
*How:* invariants modulo twice the number of terms for both loops  
*Note:* the index of the mode; sorting and eigenvalues are numpy's  
*Theorems:* `py_physical_mode`, `py_physical_mode_unique`.

### C173 Discrete Fourier coefficients of waves

*Status:* proved. *Files:* Model_PyWaves Prop_PyWaves / Prop_PyWaves.  
*How:* telescoping sums of sines and cosines  
*Note:* complex numbers as pairs; powers of the root of unity by de Moivre's formula  
*Theorems:* `py_fourier`.

### C174 The limiter by compression keeps averages and creates no extrema

*Status:* refuted in general, proved with a guard (claimed as partial). *Files:* Model_PyCompress Prop_PyCompress / Prop_PyCompress.  
*How:* the hyperbolic tangent is bounded by one; quadrature is linear and exact for constants  
*Note:* REFUTED: two abstract methods are not defined, so no object can be made; and get_new_coeff would raise, by a surplus argument of average, exactly for the cells whose average lies strictly between those of neighbors. Proved: the compressed function stays within the averages; without the surplus argument the average is kept, and extreme cells become constant.  
*Theorems:* `py_compress_refuted`, `py_compress_init`, `py_compress_iff`, `py_compressed`, `py_compressed_shape`, `py_compress_average`.

### C175 Shifted expansions are expansions of shifted functions

*Status:* proved. *Files:* Model_PyShifted Prop_PyShifted / Prop_PyShifted.  
*How:* local coordinates agree; integration by translation  
*Note:* for Legendre expansions; np.linalg.inv and the Gauss points enter by their contracts  
*Theorems:* `py_shifted`, `py_shifted_consistent`, `py_shifted_banned`.

### C176 Suggested time steps respect the CFL number of the element

*Status:* refuted in general, proved with a guard (claimed as partial). *Files:* Model_PyMarch Prop_PyMarch / Prop_PyMarch.  
*How:* cases on the table of CFL numbers  
*Note:* REFUTED for second order and degrees 0 and 1: the CFL number of the third order is always used, which is larger. Proved: the exact step, its bounds, and the CFL numbers of orders 3 and 4, of order 2 from degree 2 and of order 1 from degree 1.  
*Theorems:* `py_step_order_refuted`, `py_step_order`, `py_step_size`, `py_step_degree`.

### C177 Frames are written at equidistant times and steps end exactly at them

*Status:* refuted in general, proved with a guard (claimed as partial). *Files:* Model_PyMarch Prop_PyMarch / Prop_PyMarch, Prop_PyTemporal.  
*How:* induction on the number of steps; every step but the last is at least the lower bound  
*Note:* REFUTED for animate: its loop never updates the artificial viscosity, so states differ. Proved: everything about solve_and_write, and the times of animations.  
*Theorems:* `py_march`, `py_march_ends`, `py_frames`, `py_frames_end`, `py_animation`, `py_animation_refuted`.

### C178 The overset status of cells is written to the cells it is given for

*Status:* refuted in general, proved with a guard (claimed as partial). *Files:* Model_Status Prop_Status / Prop_Status.  
*How:* induction over the cells; different cells of one zone have different numbers  
*Note:* REFUTED for two zones: the field of the first zone is always used, so that cells of other zones mark foreign cells; and for zones whose boundary sections come first: the entry is beyond the field. Proved for one zone with cells numbered first, for all lists of cells and previous fields.  
*Theorems:* `add_cell_status_refuted`, `add_cell_status_order_refuted`, `add_cell_status`.

## Trusted base

* The Coq 8.16.1 kernel, `coqc`, and the virtual machine for `vm_compute` (`coqchk` re-checks the result).
  `vm_cast_no_check` and `exact_no_check` occur in a few proofs (`Proof_Shapes`, `Proof_GaussVolume`): they skip
  the check of the tactic only; the kernel checks the term at `Qed`. No kernel check is switched off.
* Axioms: only those of the standard library listed below. No axiom of another library and none of our own.
* The reading of the C++ and Python text, that is, the claim that each definition follows the lines it cites.

### Code that is modelled

* `algebra/`: the parts of Eigen used, as functions on `Vec3`, lists and `nat -> R`; matrix products and inverses are
  written out.
* `aircraft/`: `section.hpp`, `blade.hpp`, `rotor.hpp`, `source.hpp`; the aerofoil as an
  arbitrary function of the angle.
* `basis/`: `lagrange.hpp`, `linear.hpp`, `taylor.hpp`, `vincent.hpp`.
* `constant/index.hpp`.
* `gauss/`: all rules (line, triangle, quadrangle, tetrahedron, hexahedron, wedge, pyramid; Legendre, Lobatto, Jacobi
  tables), as exact algebraic numbers where the tables round them; `function.hpp`.
* `geometry/`: shape functions and their gradients of all element types, `Jacobian`, `GlobalToLocal`, normals, frames,
  `intersect.hpp`, `pi.hpp`, `face.hpp`, `cell.hpp`.
* `limiter/weno.hpp`, and the limiting pass `Reconstruct` of `mesh/part.hpp`.
* `mesh/`: `mapper.hpp`, `metis.hpp` (`SparseMatrix`, `GetNodeParts` and the contract of the wrappers), `shuffler.hpp`,
  `cgns.hpp` (sections, merging, splitting, sorting, families, solution fields, reading, writing and moving whole files), `part.hpp` (construction from the written
  files, faces, cells, ghost exchange, numbering, solution columns, writing and reading of solution files), `overset.hpp`, `vtk.hpp` (base64 and the writer of .vtu and .pvtu files, without XML tags and the text form of numbers).
* `polynomial/`: `hexahedron.hpp` (values, gradients, Hessians, local and global forms, normal fluxes), `projection.hpp`.
* `riemann/`: `simple/*`, `rotated/*`, `euler/*`, `diffusive/linear.hpp`, `diffusive/direct_dg.hpp`, and
  `diffusive/navier_stokes.hpp` with the repairs listed in `Model_NavierStokes.v`, since it cannot be compiled as it stands.
* `spatial/`: `fem.hpp`, `dg/general.hpp`, `dg/lobatto.hpp`, `fr/general.hpp`, `fr/lobatto.hpp`, each with convective and with
  viscous fluxes (`diffusive/linear.hpp` with `direct_dg.hpp`), `dg/general.hpp` with a source, and `viscosity.hpp`.
* `temporal/`: `ode.hpp`, `rk.hpp`.
* Programs: the main programs, restarts and the data of demonstrations, as cited in `Model_Driver.v`, `Model_Demo.v` and the files of C111-C117.
* `/repo/python/`: as cited in the `Model_Py*.v` files (C118 and later).

### Code that is not modelled

* Programs under `/repo/demo` other than those cited in the models, everything under `/repo/test`, shell scripts, and the files of `/repo/python` that no `Model_Py*.v` cites.
* The CGNS library itself: its files are trees of records, and the functions of it that mesh and solution files use append to them and look up in them; file names, logging, command lines and timing.
* `mesh/cgal.hpp` (a wrapper of an external tree) and the METIS calls in `mesh/metis.hpp`.
* Tables of measured aerofoil data in `aircraft/airfoil.hpp`.
* `type/select.hpp`, `riemann/concept.hpp`: compile-time only.
* Accessors and constructors that only copy their arguments.

### Where the model is simpler than the code

* Exact arithmetic for floating point, as said above; printed digits of quadrature tables are taken as the algebraic
  numbers they round.
* Template parameters (dimension, components, degree) are arguments; the dimension is 3 unless the property is about
  another one.
* `std::map`, `std::unordered_map` and `std::set` are association lists; ordered ones are kept sorted.
* Virtual calls and `std::function` members are functions.
* One time step or one residual evaluation is a function from memory to memory; assertions on the progress of messages
  are left out.


### Assumptions of each theorem (`Print Assumptions`)

S = `ClassicalDedekindReals.sig_forall_dec`, N = `ClassicalDedekindReals.sig_not_dec`, F = `FunctionalExtensionality.functional_extensionality_dep`, C = `Classical_Prop.classic`; "closed" = no assumption at all. All are axioms of the standard library (the first two define the real numbers).

* `Prop_Aircraft`: **CFNS** `C57_angle_of_attack`, `C57_example`, `C58_force`, `C58_dissipation`; **FNS** `C42_frames`, `C42_example`, `C42_angle`, `C59_azimuth_refuted`, `C59_azimuth_partial`, `C59_azimuth_again`, `C59_example`, `C68_blades_spaced`, `C68_example`; **FS** `C43_intersect`, `C43_example`, `C55_interpolation_refuted`, `C55_interpolation_partial`, `C55_example`, `C56_sections_ordered`, `C56_example`, `C58_example`, `tet_line`, `tet_hits`, `C61_blade_in_cell_refuted`, `C61_blade_in_cell_partial`, `C61_example`; **closed** `C60_blades_refer_home`, `C60_example`
* `Prop_Base64`: **closed** `C01_base64_round_trip`, `C01_nonvacuous`
* `Prop_Basis`: **FS** `C48_lagrange_values`, `C48_lagrange_derivatives`, `C48_nonvacuous`, `C49_hexahedron_products`, `C49_nonvacuous`, `C50_correction_ends`, `C50_correction_derivatives`, `C50_lumping`, `C50_nonvacuous`, `C51_taylor_values_and_gradient`, `C51_partial_derivatives_12`, `C51_partial_derivatives_3_partial`, `C51_partial_derivatives_3_refuted`, `C51_nonvacuous`, `C69_transform_lower`, `C69_transform_full_refuted`, `C69_nonvacuous`; **closed** `C49_hexahedron_numbering`
* `Prop_Collinear`: **FNS** `C114_points`, `C114_by_local`, `C114_by_global`, `C114_example`, `C114_images`, `C115_other_points_refuted`, `C115_rejected_partial`, `C115_example`; **FS** `cube_affine`, `two_apart`, `one_apart`
* `Prop_Column`: **closed** `C17_packing_round_trip`, `C18_local_cell_ids`, `C18_nonvacuous`, `C17_nonvacuous`
* `Prop_DG`: **FS** `C20_weak_form`, `C20_conservation`, `C20_conservation_parts`, `two_cells_ok`, `C20_nonvacuous`, `C78_set_twice_refuted`, `C79_updates`, `C79_value_updates`; **S** `C79_nonvacuous`; **closed** `C20_fluxes`, `map_set_twice`, `C78_functions_partial`, `C78_nonvacuous`, `C79_round_trip`, `C79_round_trip_column`
* `Prop_Damping`: **FNS** `C97_C98_cube`; **FS** `C97_matrices`, `C97_only_geometry`, `C98_constants`, `C98_modal`, `C98_nodal`, `C98_nodal_sum`, `C98_energy_sign`, `C99_side_effects_refuted`, `C99_side_effects_partial`, `C97_C98_C99_example`
* `Prop_Decorator`: **FS** `first_coefficient`, `C108_conditions_refuted`, `C108_nonvacuous`; **S** `observations_base`, `run_base`, `C108_transparent`, `C108_same`, `C108_boundaries`, `C108_calls`; **closed** `run_cons`
* `Prop_Demo`: **CFNS** `C117_single_refuted`; **FNS** `C116_shock`, `C116_front`, `C116_example`, `C117_single_partial`, `C117_single_example`, `half`, `d_contract`, `C117_multiple_refuted`, `C117_multiple_example`; **FS** `C116_numbers`, `C117_multiple_partial`, `C117_multiple_start_partial`
* `Prop_Diffusive`: **FS** `C40_single_valued`, `C40_single_valued_hessian`, `C40_consistent`, `C40_jump_along_normal`, `C40_tangential`, `C40_hessian_jump`, `C40_nonvacuous`, `C41_normal_flux`, `C41_consistent`, `C41_isotropic`, `C41_conservative`, `C41_nonvacuous`
* `Prop_Driver`: **FNS** `C113_time_refuted`, `C113_example`; **FS** `C111_first`, `C111_restart`, `C111_interrupted`, `C111_times`, `C111_example`, `C111_frame1`, `C112_ignores_frames`, `C112_frame_only_refuted`, `C112_repartition_partial`, `C112_stale_frame_refuted`, `C112_example`, `C113_forces_partial`, `C113_steady_partial`; **closed** `C111_storage`
* `Prop_Euler`: **FNS** `air_sound`, `C30_speed_of_sound`, `C30_example`, `C31_eigen_matrices_diagonalise`, `C31_example`, `C32_ausm_consistent`, `C32_ausm_supersonic`, `C32_ausm_mirror`, `C32_example`, `C33_hllc_consistent`, `C33_hllc_upwind`, `C33_hllc_contact`, `C33_hllc_moving_contact`, `C33_hllc_jump`, `C33_example`, `C36_rotated_flux_is_normal_flux`, `C36_rotated_flux_is_matrix_times_normal`, `C38_boundary_fluxes_consistent`, `C38_smart_boundary_choice`, `C39_subsonic_outlet_partial`, `C39_subsonic_inlet_partial`, `C39_outlet_at_rest_refuted`, `C39_inlet_outflow_refuted`, `C39_example`; **FS** `air_physical`, `C29_primitive_conservative_inverse`, `C29_example`, `C30_primitive_never_negative`, `C36_rotation_round_trip`, `turned_orthonormal`, `C36_example`, `C37_wall_transmits_only_pressure`, `C37_example`, `C38_example`
* `Prop_Exact`: **CFNS** `C34_exact_solver_has_no_memory_refuted`, `C34_no_memory_without_vacuum_partial`, `C34_exact_consistent`, `C35_star_pressure_found`, `C67_exact_solution`, `C67_vacuum`, `C67_example`; **FNS** `C34_example`, `C35_example`; **FS** `C35_FindRoot_never_overshoots`
* `Prop_Gauss`: **CFNS** `C47_segment_of_reference`, `C47_segments`, `C47_square`, `C47_cube`, `C47_example`, `C74_six_points`, `C74_triangle`, `C74_tetrahedron`, `C74_wedge`, `C74_pyramid`, `C74_example`, `C75_integrals_over_hexahedra`, `C75_volumes_of_hexahedra`, `C75_example`; **FNS** `line_rule_moments`, `C47_positive_weights`; **FS** `eps20_is`, `eps17_is`, `widened_det`; **closed** `hexahedron_bricks`
* `Prop_Geometry`: **FNS** `C45_example`, `C72_face_frames`, `C72_example`, `C73_affine_maps_inverted`, `C73_tetrahedra_inverted`, `C73_exact_hint_returned`; **FS** `C70_second_and_third_derivatives`, `C70_example`, `C71_jacobian_derivatives`, `C71_determinant_derivatives`, `C71_example`, `C73_example`
* `Prop_Mapper`: **closed** `C04_mapper_valid_after_Map`, `C05_metis_mesh_rows`, `C04_C05_nonvacuous`
* `Prop_MeshFile`: **closed** `C106_round_trip`, `C106_min_dim`, `C106_conditions`, `one_named`, `zone1_standard`, `file1_ok`, `C106_nonvacuous`, `C106_conditions_nonvacuous`, `C106_conditions_refuted`, `C106_max_dim_refuted`, `C106_float_refuted`, `C106_long_name_refuted`
* `Prop_MeshMove`: **FNS** `C107_rotate`, `C107_compose`, `C107_saved`, `C107_nonvacuous`; **FS** `C107_translate`, `C107_dilate`; **S** `C107_saved_nonvacuous`
* `Prop_Metis`: **closed** `C07_node_parts`, `C07_used_node`, `C07_unused_node`, `C07_nonvacuous`
* `Prop_Mirror`: **FNS** `C104_double`, `C104_ausm`, `C104_hllc_partial`, `C104_hllc_refuted`, `C104_nonvacuous`; **FS** `C104_scalar`, `C104_multiple`, `C104_linear_nonvacuous`
* `Prop_MirrorExact`: **CFNS** `near_turn`, `private_turn`, `exact_turn`, `C104_exact_partial`, `C104_exact_refuted`, `C104_exact_nonvacuous`
* `Prop_NavierStokes`: **FS** `C110_gradients`, `C110_flux`, `C110_opposite`, `C110_matrix_partial`, `sample_flux`, `C110_matrix_refuted`, `C110_stress`, `C110_dissipation`, `C110_turn`, `C110_boost`, `affine_slope`, `C110_nonvacuous`
* `Prop_Nodal`: **FNS** `C53_gradient`, `C53_gradient_anywhere`, `C53_gradient_unweighted`, `C53_hessian`, `length3_component`, `linear_gradient`, `gradient_ext`, `product_gradient`, `product_hessian`, `C53_nonvacuous`, `C53_hessian_refuted`; **FS** `C76_local_flux`, `C77_approximate`, `ex_global`, `ex_jacobian`, `ex_det`, `ex_well3`, `ex_well2`, `ex_represented`, `C76_nonvacuous`, `C77_nonvacuous`
* `Prop_Overset`: **FNS** `C13_donors`, `row_ball`, `C13_nonvacuous`; **FS** `row_centers`; **closed** `C12_fringe_layers`, `C13_merge`, `star_nbr`, `C12_nonvacuous`
* `Prop_Part`: **closed** `C09_node_lists_agree`, `C09_cell_lists_agree`, `C10_ghost_coefficients`, `C11_nodes_found`, `C64_cells_held`, `C09_C11_C64_nonvacuous`, `sample_ghost`, `C10_nonvacuous`
* `Prop_PartFaces`: **closed** `good_process`, `C85_faces`, `C86_ghost_faces`, `C86_boundary_faces`, `C87_faces_by_name`, `C87_same_name_refuted`, `C88_adjacent_cells`, `C88_adjacent_faces`, `C85_C88_nonvacuous`
* `Prop_Partition`: **closed** `C08_part_in_range_refuted`, `C08_part_in_range_all_nodes_used`, `C65_files_describe_the_mesh`, `C08_C65_nonvacuous`, `C63_face_parts`, `C63_nonvacuous`, `C62_shuffle_lower_dim_refuted`
* `Prop_Projection`: **CFNS** `C54_lazy_keeps_average`, `C54_eigen_keeps_average`, `C54_eigen_euler`, `C54_eigen_without_neighbours`, `C54_nonvacuous`, `C54_smooth_not_marked`, `C54_marked`, `C54_smoothness`, `C54_marking`, `C54_marking_nonvacuous`, `C54_smoothness_nonvacuous`; **FNS** `C46_orthonormalize`, `C46_orthonormal_basis`, `C46_nonvacuous`, `built_ready`, `C52_projection`, `C52_wrapper`, `line_built`, `C52_nonvacuous`, `space_built`; **FS** `C52_gradient`, `C54_weights`, `C54_weights_nonvacuous`
* `Prop_PyCompress`: **CFNS** `tanh_increasing`, `py_compressed_shape`, `py_compress_average`, `py_compress_iff`, `py_compress_example`; **FNS** `tanh_bound`, `py_compressed`; **FS** `max_spec`, `py_compress_refuted`; **closed** `py_compress_init`
* `Prop_PyDetector`: **CFNS** `end_value`, `py_kxrcf`, `py_kxrcf_continuous`, `poly_ready`, `py_kxrcf_example`, `py_persson`, `py_persson_lines`, `py_persson_example`, `py_kloeckner`, `py_kloeckner_rate`, `py_kloeckner_low`, `py_kloeckner_refuted`, `py_kloeckner_example`, `py_lyh_example`; **FS** `py_persson_refuted`, `py_skyline`, `inv3_inverts`, `py_lyh`; **S** `two_linked`
* `Prop_PyDissipation`: **CFNS** `py_dissipation`, `py_dissipation_example`
* `Prop_PyDistance`: **CFNS** `root_nonneg`, `root_zero`, `root_pow`, `root_mono`, `py_vertex_distance`, `py_dist_to_vertices`, `py_distance_example`; **FNS** `py_edge_distance`, `edges_spec`, `py_dist_to_edges`, `py_dist_to_edges_refuted`; **FS** `min_spec`, `sum_zero`, `abs_zero`, `pow2_pos`
* `Prop_PyElement`: **CFNS** `py_dg_legendre_conserves`, `py_dg_nodal_conserves`, `py_dg_legendre_exact`, `py_dg_nodal_exact`, `uniform_solvable`, `py_dg_example`; **FS** `solve2_solves`
* `Prop_PyEuler`: **CFNS** `py_euler_flux_and_characteristics`, `py_euler_example`, `py_lax_friedrichs_flux`, `py_lax_friedrichs_positivity`, `py_contact_example`, `still_radius`, `py_positivity_example`; **FNS** `py_euler_viscous_fluxes`, `fast_gas_sound`, `py_roe_flux`, `py_roe_exact_cases`; **FS** `py_euler_conversions`, `fast_gas_physical`, `fast_gas_speed`, `light_physical`, `heavy_physical`, `contact_flux`, `still_gas_physical`
* `Prop_PyExact`: **CFNS** `py_exact_iteration`, `py_exact_solution`, `py_exact_example`, `py_exact_vacuum_refuted`, `py_exact_vacuum_always`, `py_exact_vacuum_outside_partial`; **FNS** `py_exact_vacuum_example`
* `Prop_PyExpansion`: **CFNS** `py_legendre_basis`, `py_legendre_values`, `py_legendre_setters`, `two_gauss`, `py_legendre_example`; **FNS** `py_taylor_derivatives`, `py_taylor_derivatives_refuted`; **FS** `made_frame`, `ready_represents`, `inv2_inverts`, `py_taylor_example`
* `Prop_PyFR`: **CFNS** `py_corrections_proper`, `added`, `py_fr_flux_ends`, `py_fr_radau`, `line_is`, `two_nodes`, `vincent2_proper`, `vincent2_added`, `py_fr_radau_refuted`, `py_fr_exact`, `py_fr_lobatto_conserves`, `gas_flux`, `py_fr_conserves_refuted`, `py_fr_gradient_refuted`, `py_fr_example`; **FS** `mirror_poly`
* `Prop_PyFilter`: **FNS** `py_filter_waves`, `py_filter_damping`, `py_filter_waves_example`; **FS** `py_filter_ring`, `py_filter_line`, `py_filter_example`
* `Prop_PyGrid`: **FS** `scheme_is`, `py_grid_made`, `py_grid_linked`, `py_grid_example`, `py_grid_no_value_refuted`, `bisect_is`, `py_grid_element`, `py_grid_element_example`; **S** `py_grid_no_value`
* `Prop_PyIntegrator`: **CFNS** `py_coordinates`, `py_lobatto_integrates`, `py_lobatto_exact`; **FNS** `py_lobatto_tables`, `py_lobatto_in_element`, `py_lobatto_example`; **FS** `py_coordinate_example`
* `Prop_PyJumps`: **CFNS** `py_lwa_detect`, `py_jumps_smooth`, `py_jumps_example`; **FNS** `py_zj_detect`, `two_weights`; **FS** `extended_is`, `smallest_nonneg`, `eps8`, `value_poly`, `integral_is`; **S** `two_chained`; **closed** `left_is`, `right_is`, `around_linked`
* `Prop_PyLimiter`: **CFNS** `py_zxh_convex`, `py_zxh_unchanged`, `line_ready`, `py_zxh_example`, `py_limiter_reconstruct`, `py_limiter_reconstruct_example`, `py_lwa_average`, `py_lwa_line_refuted`, `py_lwa_example`; **FS** `again`; **closed** `present_is`
* `Prop_PyMarch`: **FS** `cfl3`, `factor_pos`, `py_step_size`, `py_step_degree`, `py_step_order`, `py_step_order_refuted`, `py_step_example`, `py_march`, `py_march_ends`, `py_frames_end`, `py_animation`, `py_animation_refuted`, `py_march_example`
* `Prop_PyNodal`: **CFNS** `moments_integrate`, `init_object`, `made_object`, `py_nodal_basis`, `py_nodal_values`, `py_nodal_setters`, `py_lobatto_approximate`, `py_nodal_example`, `py_lobatto_approximate_refuted`; **FNS** `update_object`, `ready_update`, `two_init`; **FS** `integrates_less`, `py_uniform_roots`
* `Prop_PyPoly`: **CFNS** `py_radau`, `py_vincent`, `py_vincent_choices`, `py_huynh`, `py_huynh_example`, `py_vincent_far_end_partial`, `py_lagrange`; **FS** `py_radau_example`, `py_vincent_example`, `py_vincent_far_end_refuted`, `py_vincent_far_end_example`, `py_lagrange_equal_points`, `py_lagrange_example`
* `Prop_PyRiemann`: **FS** `C118_linear`, `C118_burgers`, `C118_flux`, `C118_sonic`, `C119_jacobian`, `C119_singular`, `C119_diffusive`, `C119_value`, `C119_flux`, `C119_solver`, `C120_burgers_refuted`, `C120_others_partial`, `C120_example`, `C121_initial_refuted`, `C121_outside_partial`, `C122_scalar_partial`, `C122_consistent_partial`, `C122_inviscid_partial`, `C122_coupled_refuted`, `C122_example`
* `Prop_PyScheme`: **CFNS** `py_scheme_legendre_conserves`, `py_scheme_nodal_conserves`, `py_scheme_fr_conserves`, `py_scheme_example`, `py_flux_at_point_refuted`; **FNS** `legendre_any`, `nodal_any`; **FS** `flux_is`, `py_flux_at_point`; **S** `py_column_set`, `py_column_get`, `py_column_example`
* `Prop_PyShifted`: **CFNS** `py_shifted`, `shift_derive`, `py_shifted_consistent`, `py_shifted_example`; **FS** `frame_points`; **closed** `py_shifted_banned`
* `Prop_PySolver`: **CFNS** `exact_dt`, `exact_dx`, `exact_dxx`, `py_linear_exact_iff`, `py_linear_exact_refuted`, `sin_lipschitz`, `func_continuous`, `py_burgers_exact`, `py_burgers_history`, `bisection_exists`, `py_burgers_exact_example`; **FNS** `period`, `py_linear_exact`, `py_linear_exact_example`; **FS** `enlarge_stops`
* `Prop_PyTemporal`: **FS** `py_frames`, `py_rk_orders`, `py_rk_other_orders`, `py_rk_linear`, `py_rk_polynomial`, `py_rk_convex`, `py_rk_invariant`, `py_rk4_leaves_convex_sets`, `py_loop_ends`, `py_rk_linear_example`, `py_rk_polynomial_example`, `py_rk_convex_example`, `py_rk_invariant_example`, `grow_step`, `grow_done`, `Rmin_l`, `Rmin_r`, `grow_frame`, `py_frames_example`
* `Prop_PyViscosity`: **CFNS** `ln10`, `gap_is`, `log10_power`, `py_persson_viscosity`, `py_persson_viscosity_example`; **FNS** `sine_range`, `half_nonneg`, `half_zero`, `odd_half`, `energy_split`, `py_energy_viscosity`, `py_half_energy`, `py_energy_viscosity_refuted`, `py_energy_viscosity_example`; **FS** `energy_sum`, `jumps_nonneg`, `jumps_zero`, `max_nonneg`, `parabola`, `py_quadratic_viscosity`, `py_quadratic_continuous`, `cramer_inverts`, `cramer_interfaces`, `py_quadratic_viscosity_refuted`, `py_quadratic_viscosity_example`, `py_linear_viscosity`, `py_linear_continuous`, `py_linear_viscosity_example`; **S** `nu_before`, `nu_after`; **closed** `half_bounds`
* `Prop_PyWaves`: **FNS** `py_physical_mode`, `floor_unique`, `py_physical_mode_unique`, `py_physical_mode_example`, `cos_telescope`, `sin_telescope`, `sines_vanish`, `py_fourier`, `py_fourier_example`; **FS** `sample_is`; **closed** `lower_spec`, `raise_spec`
* `Prop_Ranges`: **closed** `C06_ranges`, `C06_ranges_partition_ids`, `C06_nonvacuous`
* `Prop_Reconstruct`: **FS** `C21_partition_independence_refuted`; **closed** `C22_one_pass`, `C22_order`, `C22_nonvacuous`, `C21_inner_partial`, `C21_partial`, `C21_means_partial`, `C21_nonvacuous`
* `Prop_Restart`: **closed** `C100_restart`, `C100_round_trip`, `C100_content`, `C100_example`, `C100_hypotheses`, `C101_redeclared_refuted`, `C101_one_section_partial`, `C101_example`
* `Prop_Schemes`: **FNS** `C80_lumped_weak_form`, `C80_conservation`, `two_D`, `two_match`, `C80_two_cells`, `C81_flux_reconstruction`, `C81_lobatto`, `C81_conservation`, `C81_two_cells`, `C82_three_schemes`, `C82_caches`, `C82_two_cells`, `C83_free_stream_refuted`, `C83_free_stream`, `C83_three_points`, `C84_search`, `C84_cell`; **closed** `C80_fluxes`
* `Prop_Sections`: **closed** `C14_sections_sorted`, `C15_merge_then_split`, `C16_first_suffix`, `C16_ranges_by_name`, `C16_ranges_by_name_refuted`, `C14_nonvacuous`, `C15_nonvacuous`, `C16_nonvacuous`
* `Prop_Shapes`: **FNS** `C45_outward_normal_refuted`, `C45_outward_normal_partial`; **FS** `C44_shapes_interpolate`, `C44_nodes_reproduced`, `C44_affine_maps_reproduced`, `C44_affine_pyramids_reproduced`, `C44_quadratics_reproduced`, `C44_quadratics_reproduced_on_faces`, `C44_example`; **closed** `C19_faces_in_outward_order`, `C19_reference_cells_convex`, `C19_example`
* `Prop_Shuffle`: **closed** `C02_new_order`, `C02_new_order_unique`, `C02_nonvacuous`
* `Prop_Shuffler`: **closed** `C03_shuffle_same_mesh`, `C04_mapper_valid_after_Shuffle`, `C03_C04_nonvacuous`
* `Prop_Simple`: **FNS** `C27_double_is_upwind`, `C27_double_repeated_eigenvalue`, `C28_rotated_double_flux`, `C66_double_accessors`, `sqrt2_pos`, `shear_contract`, `shear_unit`, `C66_multiple_accessors_refuted`, `C27_nonvacuous`, `C27_multiple_nonvacuous`, `C66_nonvacuous`; **FS** `C26_scalar_fluxes_are_godunov`, `C26_consistent_and_monotone`, `C27_multiple_is_upwind`, `C28_rotated_scalar_flux`, `C28_rotated_multiple_flux`, `C66_multiple_exchanged`, `C26_nonvacuous`, `C28_nonvacuous`
* `Prop_SimpleBoundary`: **FNS** `C105_rotate`, `C105_scalar`, `C105_upwind`, `C105_systems`, `C105_subsonic_refuted`, `C105_nonvacuous`
* `Prop_Simulation`: **CFNS** `C102_weno`, `C102_weno_conserved`, `C102_weno_nonvacuous`; **FS** `C102_residual`, `C102_step`, `C102_conserved`, `C102_limiting`, `C102_gradients`, `C102_convex`, `C102_without_limiter`, `C102_nonvacuous`, `C103_sum`, `C103_zero`, `C103_bounds`, `C103_nonvacuous`
* `Prop_Solvers`: **FNS** `C109_ausm`, `C109_hllc`, `C109_walls`, `C109_force`, `C109_flux`, `C109_upwind`, `C109_subsonic`, `C109_nonvacuous`; **FS** `C109_scalar`, `C109_multiple`, `C109_scalar_walls`, `C109_scalar_flux`, `C109_multiple_flux`
* `Prop_Source`: **CFNS** `C94_source_is_force`, `C94_appends`, `C94_defined`, `C94_install`, `C95_residual`, `C95_no_source`, `C95_balance`, `C96_points`, `C96_length_refuted`, `C96_length_partial`, `C94_C95_C96_example`, `C96_length_example`; **FS** `inside_ok`, `inside_hits`; **closed** `collect_app`
* `Prop_Status`: **closed** `upd_at`, `upd_len`, `add_cell_status`, `add_cell_status_refuted`, `add_cell_status_order_refuted`, `add_cell_status_example`
* `Prop_Temporal`: **FS** `C23_matches_exponential_series`, `C24_convex_sets_are_kept`, `C24_linear_invariants_are_kept`, `C25_polynomials_in_time`, `C23_nonvacuous`, `C24_nonvacuous`, `C25_nonvacuous`
* `Prop_Viscous`: **FNS** `C92_total_fluxes`, `C92_lobatto`, `C92_conservation`, `two_box_D`, `C92_two_cells`, `C93_linear_steady`, `C93_fine_cells`, `C93_two_cells`, `C93_dg_lobatto_refuted`
* `Prop_Vtk`: **FS** `C90_linear_cells`, `C90_quadratic_cells`, `C90_nonvacuous`; **closed** `C89_grid_partial`, `C89_no_file_refuted`, `C89_single_precision_refuted`, `C89_nonvacuous`, `C91_index_partial`, `C91_long_names_refuted`, `C91_nonvacuous`
