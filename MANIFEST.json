{
 "claims": [
  {
   "property": "C01",
   "status": "proved",
   "theorems": [
    "C01_base64_round_trip"
   ],
   "note": "all byte buffers; independent decoder in the spec"
  },
  {
   "property": "C02",
   "status": "proved",
   "theorems": [
    "C02_new_order",
    "C02_new_order_unique"
   ],
   "note": ""
  },
  {
   "property": "C05",
   "status": "proved",
   "theorems": [
    "C05_metis_mesh_rows"
   ],
   "note": "well-formed homogeneous sections"
  },
  {
   "property": "C03",
   "status": "proved",
   "theorems": [
    "C03_shuffle_same_mesh"
   ],
   "note": "one Shuffle call after Map; homogeneous sections of dim cell_dim or cell_dim-1; FillFaceParts succeeds (C63 shows that it does; C62 shows why other sections are excluded)"
  },
  {
   "property": "C04",
   "status": "proved",
   "theorems": [
    "C04_mapper_valid_after_Map",
    "C04_mapper_valid_after_Shuffle"
   ],
   "note": ""
  },
  {
   "property": "C07",
   "status": "proved",
   "theorems": [
    "C07_node_parts",
    "C07_used_node",
    "C07_unused_node"
   ],
   "note": "GetNodeParts on every well-formed CSR mesh; C05 shows that Map produces such a mesh."
  },
  {
   "property": "C06",
   "status": "proved",
   "theorems": [
    "C06_ranges",
    "C06_ranges_partition_ids"
   ],
   "note": "slice_parts is the loop of WritePartitionInfo that turns sorted part numbers into ranges"
  },
  {
   "property": "C08",
   "status": "partial",
   "theorems": [
    "C08_part_in_range_refuted",
    "C08_part_in_range_all_nodes_used"
   ],
   "note": "REFUTED as stated: a node that belongs to no cell gets part n_parts and WritePartitionInfo writes outside its table. Proved for every valid input whose nodes all belong to a cell."
  },
  {
   "property": "C09",
   "status": "proved",
   "theorems": [
    "C09_node_lists_agree",
    "C09_cell_lists_agree"
   ],
   "note": "end to end from the input mesh; the cell half assumes that METIS returns a symmetric dual graph"
  },
  {
   "property": "C10",
   "status": "proved",
   "theorems": [
    "C10_ghost_coefficients"
   ],
   "note": "end to end; fixed number of fields per cell; MPI modelled as reliable matched messages"
  },
  {
   "property": "C11",
   "status": "proved",
   "theorems": [
    "C11_nodes_found"
   ],
   "note": "end to end from the input mesh"
  },
  {
   "property": "C62",
   "status": "partial",
   "theorems": [
    "C62_shuffle_lower_dim_refuted"
   ],
   "note": "REFUTED: Shuffle reads face_parts_ for a section of edges, for which there is no entry. C03 covers the meshes without such sections."
  },
  {
   "property": "C63",
   "status": "proved",
   "theorems": [
    "C63_face_parts"
   ],
   "note": ""
  },
  {
   "property": "C64",
   "status": "proved",
   "theorems": [
    "C64_cells_held"
   ],
   "note": "symmetric dual graph"
  },
  {
   "property": "C65",
   "status": "proved",
   "theorems": [
    "C65_files_describe_the_mesh"
   ],
   "note": ""
  },
  {
   "property": "C12",
   "status": "proved",
   "theorems": [
    "C12_fringe_layers"
   ],
   "note": "for n_layer >= 1 on well-formed meshes with a valid mapper and cell graph: the k-th layer is exactly the cells at graph distance k from the cells with fewer neighbours than faces; no cell twice"
  },
  {
   "property": "C13",
   "status": "proved",
   "theorems": [
    "C13_donors",
    "C13_merge"
   ],
   "note": "the nearest-cell search (CGAL tree) is a parameter assumed to return one cell; everything after it is modelled; coordinates are real numbers"
  },
  {
   "property": "C14",
   "status": "proved",
   "theorems": [
    "C14_sections_sorted"
   ],
   "note": "for every order that std::sort may return under its contract with the comparison of the code"
  },
  {
   "property": "C15",
   "status": "proved",
   "theorems": [
    "C15_merge_then_split"
   ],
   "note": "std::sort and the iteration order of the hash map are parameters restricted only by their contracts"
  },
  {
   "property": "C16",
   "status": "partial",
   "theorems": [
    "C16_ranges_by_name_refuted",
    "C16_first_suffix",
    "C16_ranges_by_name"
   ],
   "note": "REFUTED: GetSection compares only the end of the name, so condition wall gets the range of an earlier section left_wall; proved when no other section name ends with the name of the condition"
  },
  {
   "property": "C17",
   "status": "proved",
   "theorems": [
    "C17_packing_round_trip"
   ],
   "note": ""
  },
  {
   "property": "C18",
   "status": "proved",
   "theorems": [
    "C18_local_cell_ids"
   ],
   "note": ""
  },
  {
   "property": "C23",
   "status": "proved",
   "theorems": [
    "C23_matches_exponential_series"
   ],
   "note": ""
  },
  {
   "property": "C24",
   "status": "proved",
   "theorems": [
    "C24_convex_sets_are_kept",
    "C24_linear_invariants_are_kept"
   ],
   "note": ""
  },
  {
   "property": "C25",
   "status": "proved",
   "theorems": [
    "C25_polynomials_in_time"
   ],
   "note": "Euler exact to degree 0, SSP-RK2 to degree 1, SSP-RK3 to degree 3 for problems whose right-hand side is a polynomial in time only."
  },
  {
   "property": "C26",
   "status": "proved",
   "theorems": [
    "C26_scalar_fluxes_are_godunov",
    "C26_consistent_and_monotone"
   ],
   "note": ""
  },
  {
   "property": "C27",
   "status": "proved",
   "theorems": [
    "C27_double_is_upwind",
    "C27_double_repeated_eigenvalue",
    "C27_multiple_is_upwind"
   ],
   "note": "Eigen's decomposition in Multiple is a parameter with its contract as hypothesis."
  },
  {
   "property": "C28",
   "status": "proved",
   "theorems": [
    "C28_rotated_scalar_flux",
    "C28_rotated_double_flux",
    "C28_rotated_multiple_flux"
   ],
   "note": "Systems need real eigenvalues (Double) or a diagonalisation (Multiple)."
  },
  {
   "property": "C66",
   "status": "partial",
   "theorems": [
    "C66_double_accessors",
    "C66_multiple_accessors_refuted",
    "C66_multiple_exchanged"
   ],
   "note": "REFUTED for Multiple: the two accessors are exchanged; proved for Double, and for Multiple with the accessors exchanged back."
  },
  {
   "property": "C29",
   "status": "proved",
   "theorems": [
    "C29_primitive_conservative_inverse"
   ],
   "note": "All dimensions; both round trips and the defining formula of the conservative variables."
  },
  {
   "property": "C30",
   "status": "proved",
   "theorems": [
    "C30_primitive_never_negative",
    "C30_speed_of_sound"
   ],
   "note": ""
  },
  {
   "property": "C31",
   "status": "proved",
   "theorems": [
    "C31_eigen_matrices_diagonalise"
   ],
   "note": "L R = I; the derivative of the normal flux along any direction W is R diag L W."
  },
  {
   "property": "C32",
   "status": "proved",
   "theorems": [
    "C32_ausm_consistent",
    "C32_ausm_supersonic",
    "C32_ausm_mirror"
   ],
   "note": "All dimensions."
  },
  {
   "property": "C33",
   "status": "proved",
   "theorems": [
    "C33_hllc_consistent",
    "C33_hllc_upwind",
    "C33_hllc_contact",
    "C33_hllc_moving_contact",
    "C33_hllc_jump"
   ],
   "note": ""
  },
  {
   "property": "C36",
   "status": "proved",
   "theorems": [
    "C36_rotation_round_trip",
    "C36_rotated_flux_is_normal_flux",
    "C36_rotated_flux_is_matrix_times_normal"
   ],
   "note": "For AUSM and HLLC; states with positive density and pressure."
  },
  {
   "property": "C37",
   "status": "proved",
   "theorems": [
    "C37_wall_transmits_only_pressure"
   ],
   "note": ""
  },
  {
   "property": "C38",
   "status": "proved",
   "theorems": [
    "C38_boundary_fluxes_consistent",
    "C38_smart_boundary_choice"
   ],
   "note": ""
  },
  {
   "property": "C39",
   "status": "partial",
   "theorems": [
    "C39_subsonic_outlet_partial",
    "C39_subsonic_inlet_partial",
    "C39_outlet_at_rest_refuted",
    "C39_inlet_outflow_refuted"
   ],
   "note": "REFUTED as stated: an outlet with zero normal velocity uses the wrong characteristic, and so does an inlet whose exterior state flows out. Proved for outlets with positive normal velocity and inlets whose exterior state does not flow out."
  },
  {
   "property": "C34",
   "status": "partial",
   "theorems": [
    "C34_exact_solver_has_no_memory_refuted",
    "C34_no_memory_without_vacuum_partial",
    "C34_exact_consistent"
   ],
   "note": "REFUTED: in the branches with vacuum the member star_u keeps the value of an earlier call and selects the transverse velocity. Proved when the transverse velocities are equal (1D) or no vacuum comes up; also consistency."
  },
  {
   "property": "C35",
   "status": "proved",
   "theorems": [
    "C35_FindRoot_never_overshoots",
    "C35_star_pressure_found"
   ],
   "note": "General statement, and termination and accuracy for the pressure function of any two states without vacuum between them. The final assertion fails if the residual is exactly the tolerance, which is part of the statement."
  },
  {
   "property": "C67",
   "status": "proved",
   "theorems": [
    "C67_exact_solution",
    "C67_vacuum"
   ],
   "note": "For a root found exactly; the residual otherwise is bounded by C35."
  },
  {
   "property": "C42",
   "status": "proved",
   "theorems": [
    "C42_frames",
    "C42_angle"
   ],
   "note": ""
  },
  {
   "property": "C43",
   "status": "proved",
   "theorems": [
    "C43_intersect"
   ],
   "note": "Real arithmetic; the segment lying in the plane of the triangle is excluded (the code has a TODO there)."
  },
  {
   "property": "C55",
   "status": "partial",
   "theorems": [
    "C55_interpolation_refuted",
    "C55_interpolation_partial"
   ],
   "note": "REFUTED: the weights of the two sections are exchanged. Partial theorem: installed values at installed positions; between them the line through the exchanged values."
  },
  {
   "property": "C56",
   "status": "proved",
   "theorems": [
    "C56_sections_ordered"
   ],
   "note": ""
  },
  {
   "property": "C57",
   "status": "proved",
   "theorems": [
    "C57_angle_of_attack"
   ],
   "note": "u = 0 excluded (the code divides by it). The table index is modelled with real arithmetic."
  },
  {
   "property": "C58",
   "status": "proved",
   "theorems": [
    "C58_force",
    "C58_dissipation"
   ],
   "note": ""
  },
  {
   "property": "C59",
   "status": "partial",
   "theorems": [
    "C59_azimuth_refuted",
    "C59_azimuth_partial",
    "C59_azimuth_again"
   ],
   "note": "REFUTED: UpdateAzimuth(t); SetRevolutionsPerSecond; UpdateAzimuth(t) keeps the old azimuth. Partial theorem: true for a time not asked for before."
  },
  {
   "property": "C60",
   "status": "proved",
   "theorems": [
    "C60_blades_refer_home"
   ],
   "note": ""
  },
  {
   "property": "C61",
   "status": "partial",
   "theorems": [
    "C61_blade_in_cell_refuted",
    "C61_blade_in_cell_partial"
   ],
   "note": "REFUTED: a blade starting in the cell and leaving it after its middle gets the outside part; a blade inside a cell gets nothing. Partial theorem: right in general position with both ends outside, or with one end inside and the crossing in the half of that end."
  },
  {
   "property": "C68",
   "status": "proved",
   "theorems": [
    "C68_blades_spaced"
   ],
   "note": ""
  },
  {
   "property": "C48",
   "status": "proved",
   "theorems": [
    "C48_lagrange_values",
    "C48_lagrange_derivatives"
   ],
   "note": "Nodal values, partition of unity, reproduction of all polynomials of degree below the node count and derivatives of every order, for every list of distinct nodes; the inverse computed by Eigen is a parameter with its defining equation, and is shown to exist."
  },
  {
   "property": "C49",
   "status": "proved",
   "theorems": [
    "C49_hexahedron_numbering",
    "C49_hexahedron_products"
   ],
   "note": "Index maps are inverse bijections; values and derivatives are products; nodal property in 3D."
  },
  {
   "property": "C50",
   "status": "proved",
   "theorems": [
    "C50_correction_ends",
    "C50_correction_derivatives",
    "C50_lumping"
   ],
   "note": "std::legendre is modelled by its three-term recurrence."
  },
  {
   "property": "C51",
   "status": "partial",
   "theorems": [
    "C51_taylor_values_and_gradient",
    "C51_partial_derivatives_12",
    "C51_partial_derivatives_3_partial",
    "C51_partial_derivatives_3_refuted"
   ],
   "note": "REFUTED for Taylor<3,3>: line 383 adds column XX instead of YY. All other columns, degrees 1 and 2, values and gradients are proved."
  },
  {
   "property": "C69",
   "status": "partial",
   "theorems": [
    "C69_transform_lower",
    "C69_transform_full_refuted"
   ],
   "note": "REFUTED for Transform with a full matrix; proved for lower-triangular views."
  },
  {
   "property": "C19",
   "status": "proved",
   "theorems": [
    "C19_faces_in_outward_order",
    "C19_reference_cells_convex"
   ],
   "note": "All twelve cell types; the reference cells of the specification are right-handed and carry their own coordinates."
  },
  {
   "property": "C44",
   "status": "proved",
   "theorems": [
    "C44_shapes_interpolate",
    "C44_nodes_reproduced",
    "C44_affine_maps_reproduced",
    "C44_affine_pyramids_reproduced",
    "C44_quadratics_reproduced",
    "C44_quadratics_reproduced_on_faces"
   ],
   "note": "All seventeen element types. Floating rounding is not modelled."
  },
  {
   "property": "C45",
   "status": "partial",
   "theorems": [
    "C45_outward_normal_refuted",
    "C45_outward_normal_partial"
   ],
   "note": "REFUTED: on a sheared parallelepiped the vector is not normal to the face. Proved: it is a unit vector along the outgoing coordinate line, and normal to the face if that line is."
  },
  {
   "property": "C70",
   "status": "proved",
   "theorems": [
    "C70_second_and_third_derivatives"
   ],
   "note": "All four hexahedra."
  },
  {
   "property": "C71",
   "status": "proved",
   "theorems": [
    "C71_jacobian_derivatives",
    "C71_determinant_derivatives"
   ],
   "note": "The determinant's derivatives need a regular Jacobian, because the code computes them through the inverse."
  },
  {
   "property": "C72",
   "status": "proved",
   "theorems": [
    "C72_face_frames"
   ],
   "note": "Where the tangents are linearly independent."
  },
  {
   "property": "C73",
   "status": "proved",
   "theorems": [
    "C73_affine_maps_inverted",
    "C73_tetrahedra_inverted",
    "C73_exact_hint_returned"
   ],
   "note": "Affine cells; on curved cells Newton's method need not converge."
  },
  {
   "property": "C46",
   "status": "proved",
   "theorems": [
    "C46_orthonormalize",
    "C46_orthonormal_basis"
   ],
   "note": "For a basis linearly independent at the quadrature points and positive weights; division by the square root is exact arithmetic."
  },
  {
   "property": "C52",
   "status": "proved",
   "theorems": [
    "C52_projection",
    "C52_wrapper",
    "C52_gradient"
   ],
   "note": "For the basis built by the constructor of OrthoNormal (C46)."
  },
  {
   "property": "C54",
   "status": "proved",
   "theorems": [
    "C54_lazy_keeps_average",
    "C54_eigen_keeps_average",
    "C54_eigen_euler",
    "C54_eigen_without_neighbours",
    "C54_smooth_not_marked",
    "C54_weights",
    "C54_smoothness",
    "C54_marking"
   ],
   "note": "Needs w0 > 0, n w0 < 1, eps > 0; Eigen needs at least one neighbour (without one it divides by zero). Smoothness indicators are those of the code, including the wrong column found in C51; C54_smoothness gives their value, C54_marking the cells that are marked."
  },
  {
   "property": "C47",
   "status": "proved",
   "theorems": [
    "C47_segment_of_reference",
    "C47_segments",
    "C47_square",
    "C47_cube",
    "C47_positive_weights"
   ],
   "note": "Legendre 1..5 points, Lobatto 2..6 points, any mix in products; exact over the reals."
  },
  {
   "property": "C74",
   "status": "proved",
   "theorems": [
    "C74_six_points",
    "C74_triangle",
    "C74_tetrahedron",
    "C74_wedge",
    "C74_pyramid"
   ],
   "note": "The decimal constants are the rationals they spell; the bound is on that rounding."
  },
  {
   "property": "C75",
   "status": "proved",
   "theorems": [
    "C75_integrals_over_hexahedra",
    "C75_volumes_of_hexahedra"
   ],
   "note": "Hexahedra of 8, 20, 26, 27 nodes; hypothesis: the determinant is not negative at the quadrature points."
  },
  {
   "property": "C53",
   "status": "partial",
   "theorems": [
    "C53_gradient",
    "C53_gradient_anywhere",
    "C53_gradient_unweighted",
    "C53_hessian",
    "C53_hessian_refuted"
   ],
   "note": "REFUTED for second derivatives with two points in a direction (degree one): GetGlobalHessian then reads derivatives_[2] beyond the end of its array. Proved: the gradients for all rules with at least two points, on the four hexahedra and for any nodes with non-zero determinant; the Hessian (six entries, and its symmetry) with at least three points in each direction."
  },
  {
   "property": "C76",
   "status": "proved",
   "theorems": [
    "C76_local_flux"
   ],
   "note": "Area vectors are cross products of the rows of the Jacobian."
  },
  {
   "property": "C77",
   "status": "proved",
   "theorems": [
    "C77_approximate"
   ],
   "note": "Both formulations."
  },
  {
   "property": "C20",
   "status": "proved",
   "theorems": [
    "C20_weak_form",
    "C20_conservation",
    "C20_conservation_parts",
    "C20_fluxes"
   ],
   "note": "The residual column of the modal scheme is the weak form (so every assertion about offsets holds), its integral over all cells of a part is minus the fluxes through boundary and inter-part faces, and over several parts minus the boundary fluxes alone when paired inter-part faces have opposite fluxes."
  },
  {
   "property": "C21",
   "status": "partial",
   "theorems": [
    "C21_partition_independence_refuted",
    "C21_inner_partial",
    "C21_partial",
    "C21_means_partial"
   ],
   "note": "REFUTED: inner cells are limited before the cells at interfaces are, so those see limited values of local neighbours and unlimited values of ghost neighbours; a row of three cells gives different coefficients with and without a split. Proved: inner cells are always limited as by one pass over the mesh; the result is partition-independent when no interface cell has a troubled inner neighbour, and for limiters that read only a preserved quantity (such as the mean) of the neighbours."
  },
  {
   "property": "C22",
   "status": "proved",
   "theorems": [
    "C22_one_pass",
    "C22_order"
   ],
   "note": "One pass applies the limiter to the values held before it, to exactly the troubled cells, in any order."
  },
  {
   "property": "C40",
   "status": "proved",
   "theorems": [
    "C40_single_valued",
    "C40_single_valued_hessian",
    "C40_consistent",
    "C40_jump_along_normal",
    "C40_tangential",
    "C40_hessian_jump"
   ],
   "note": "Both versions of GetCommonGradient, any number of components."
  },
  {
   "property": "C41",
   "status": "proved",
   "theorems": [
    "C41_normal_flux",
    "C41_consistent",
    "C41_isotropic",
    "C41_conservative"
   ],
   "note": "Both diffusion models; also the viscous flux of the interface gradient is opposite seen from the other side."
  },
  {
   "property": "C78",
   "status": "partial",
   "theorems": [
    "C78_set_twice_refuted",
    "C78_functions_partial"
   ],
   "note": "REFUTED: SetSolidWall and SetSupersonicOutlet append the name to a vector, so a second call doubles the flux (shown for a solid wall on a mesh of two cells). Proved for the four conditions that are kept in maps."
  },
  {
   "property": "C79",
   "status": "proved",
   "theorems": [
    "C79_round_trip",
    "C79_round_trip_column",
    "C79_updates",
    "C79_value_updates"
   ],
   "note": "Any numbers of components, basis functions and cells."
  },
  {
   "property": "C80",
   "status": "proved",
   "theorems": [
    "C80_lumped_weak_form",
    "C80_conservation",
    "C80_fluxes"
   ],
   "note": "Any part, any number of components, local and global form; conservation needs that the gradients of the basis sum to zero (shown for tensor product cells, tensor_unity)."
  },
  {
   "property": "C81",
   "status": "proved",
   "theorems": [
    "C81_flux_reconstruction",
    "C81_lobatto",
    "C81_conservation"
   ],
   "note": "Any part of hexahedra; the conservation for Lobatto rules of 2 to 6 points."
  },
  {
   "property": "C82",
   "status": "proved",
   "theorems": [
    "C82_three_schemes",
    "C82_caches"
   ],
   "note": "Lobatto rules of 2 to 6 points."
  },
  {
   "property": "C83",
   "status": "partial",
   "theorems": [
    "C83_free_stream_refuted",
    "C83_free_stream"
   ],
   "note": "REFUTED: with two points per line a twisted cell gives residual 1/8 for a uniform flow. Proved when the rule has at least 2m+1 points per line, m the order of the hexahedron."
  },
  {
   "property": "C84",
   "status": "proved",
   "theorems": [
    "C84_search"
   ],
   "note": "Exact over the reals, for cells separated by more than the tolerances."
  },
  {
   "property": "C85",
   "status": "proved",
   "theorems": [
    "C85_faces"
   ],
   "note": "end to end from the input mesh through PartitionAndShuffle, BuildNodes and BuildCells; the mesh is conforming (common nodes of adjacent cells are a side of each) and the dual graph symmetric. The assertion on the direction of the normal of boundary faces is not modelled."
  },
  {
   "property": "C86",
   "status": "proved",
   "theorems": [
    "C86_ghost_faces",
    "C86_boundary_faces"
   ],
   "note": ""
  },
  {
   "property": "C87",
   "status": "partial",
   "theorems": [
    "C87_faces_by_name",
    "C87_same_name_refuted"
   ],
   "note": "REFUTED: of two boundary sections with the same name in different zones only the last is found by GetBoundaryFaces; proved when names are distinct."
  },
  {
   "property": "C88",
   "status": "proved",
   "theorems": [
    "C88_adjacent_cells",
    "C88_adjacent_faces"
   ],
   "note": ""
  },
  {
   "property": "C89",
   "status": "partial",
   "theorems": [
    "C89_grid_partial",
    "C89_no_file_refuted",
    "C89_single_precision_refuted"
   ],
   "note": "REFUTED: a part without cells or with a pyramid gets no file, and numbers of 4 bytes are declared as Float64; proved for all other parts and numbers of 8 bytes."
  },
  {
   "property": "C90",
   "status": "proved",
   "theorems": [
    "C90_linear_cells",
    "C90_quadratic_cells"
   ],
   "note": ""
  },
  {
   "property": "C91",
   "status": "partial",
   "theorems": [
    "C91_index_partial",
    "C91_long_names_refuted"
   ],
   "note": "REFUTED: paths are cut after 1023 characters, so that processes may write the same file; proved for shorter paths."
  },
  {
   "property": "C92",
   "status": "proved",
   "theorems": [
    "C92_total_fluxes",
    "C92_lobatto",
    "C92_conservation"
   ],
   "note": ""
  },
  {
   "property": "C93",
   "status": "partial",
   "theorems": [
    "C93_linear_steady",
    "C93_fine_cells",
    "C93_dg_lobatto_refuted"
   ],
   "note": "REFUTED for DG::Lobatto, whose faces have no viscous fluxes; proved for FR::General."
  },
  {
   "property": "C94",
   "status": "proved",
   "theorems": [
    "C94_source_is_force",
    "C94_appends",
    "C94_defined",
    "C94_install"
   ],
   "note": ""
  },
  {
   "property": "C95",
   "status": "proved",
   "theorems": [
    "C95_residual",
    "C95_no_source",
    "C95_balance"
   ],
   "note": ""
  },
  {
   "property": "C96",
   "status": "partial",
   "theorems": [
    "C96_points",
    "C96_length_refuted",
    "C96_length_partial"
   ],
   "note": "REFUTED: no force for a blade inside of a cell; proved for tetrahedra in general position when Intersect finds the right end."
  },
  {
   "property": "C97",
   "status": "proved",
   "theorems": [
    "C97_matrices",
    "C97_only_geometry"
   ],
   "note": ""
  },
  {
   "property": "C98",
   "status": "proved",
   "theorems": [
    "C98_constants",
    "C98_modal",
    "C98_nodal",
    "C98_nodal_sum",
    "C98_energy_sign"
   ],
   "note": ""
  },
  {
   "property": "C99",
   "status": "partial",
   "theorems": [
    "C99_side_effects_refuted",
    "C99_side_effects_partial"
   ],
   "note": "REFUTED: the call overwrites the coefficients of all local cells and of their neighbours and sets the diffusion coefficient to 1; proved instead: exactly what is left behind."
  },
  {
   "property": "C100",
   "status": "proved",
   "theorems": [
    "C100_restart",
    "C100_round_trip",
    "C100_content"
   ],
   "note": ""
  },
  {
   "property": "C101",
   "status": "partial",
   "theorems": [
    "C101_redeclared_refuted",
    "C101_one_section_partial"
   ],
   "note": "REFUTED if cgp_field_write replaces a field of the same name: zones with two sections lose the cells of all sections but the last; proved for zones with at most one section (C100 covers any number if the library keeps the data)."
  },
  {
   "property": "C102",
   "status": "proved",
   "theorems": [
    "C102_residual",
    "C102_step",
    "C102_conserved",
    "C102_limiting",
    "C102_gradients",
    "C102_weno",
    "C102_weno_conserved",
    "C102_convex",
    "C102_without_limiter"
   ],
   "note": "The interface condition (copies of a face give opposite fluxes) is a hypothesis on the mesh."
  },
  {
   "property": "C103",
   "status": "proved",
   "theorems": [
    "C103_sum",
    "C103_zero",
    "C103_bounds"
   ],
   "note": ""
  },
  {
   "property": "C104",
   "status": "partial",
   "theorems": [
    "C104_scalar",
    "C104_double",
    "C104_multiple",
    "C104_ausm",
    "C104_hllc_partial",
    "C104_hllc_refuted",
    "C104_exact_partial",
    "C104_exact_refuted"
   ],
   "note": "REFUTED for HLLC: two streams at Mach 2 each. REFUTED for the exact solver: each side starts its iteration from its own pressure and stops within a tolerance, so the momentum fluxes differ. Proved for all other solvers, for HLLC if the normal velocities approach slower than the sum of the sound speeds, and for the exact solver if both iterations end with the same pressure, no vacuum appears, and the velocity of the contact is not zero or the pressure is the exact root."
  },
  {
   "property": "C105",
   "status": "partial",
   "theorems": [
    "C105_rotate",
    "C105_scalar",
    "C105_upwind",
    "C105_systems",
    "C105_subsonic_refuted"
   ],
   "note": "REFUTED for the subsonic and smart boundaries, which return uninitialised values; proved for supersonic boundaries and walls."
  },
  {
   "property": "C106",
   "status": "partial",
   "theorems": [
    "C106_round_trip",
    "C106_min_dim",
    "C106_conditions",
    "C106_conditions_refuted",
    "C106_max_dim_refuted",
    "C106_float_refuted",
    "C106_long_name_refuted"
   ],
   "note": "REFUTED: without UpdateSectionRanges boundary conditions keep the old numbers of their faces; max_dim below 3, File<float> with fields and names of 32 characters fail. Proved: the round trip of everything else, and of the conditions after UpdateSectionRanges."
  },
  {
   "property": "C107",
   "status": "proved",
   "theorems": [
    "C107_translate",
    "C107_dilate",
    "C107_rotate",
    "C107_compose",
    "C107_saved"
   ],
   "note": "Exact over the reals."
  },
  {
   "property": "C108",
   "status": "partial",
   "theorems": [
    "C108_transparent",
    "C108_same",
    "C108_boundaries",
    "C108_calls",
    "C108_conditions_refuted"
   ],
   "note": "REFUTED for boundary conditions set on the wrapper, which are ignored; proved when they are set on the wrapped scheme."
  },
  {
   "property": "C109",
   "status": "proved",
   "theorems": [
    "C109_scalar",
    "C109_multiple",
    "C109_ausm",
    "C109_hllc",
    "C109_walls",
    "C109_force",
    "C109_scalar_walls",
    "C109_flux",
    "C109_scalar_flux",
    "C109_multiple_flux",
    "C109_upwind",
    "C109_subsonic"
   ],
   "note": "Positivity of the states at the interfaces is a hypothesis, as the schemes do not guarantee it."
  },
  {
   "property": "C110",
   "status": "partial",
   "theorems": [
    "C110_gradients",
    "C110_flux",
    "C110_opposite",
    "C110_matrix_partial",
    "C110_matrix_refuted",
    "C110_stress",
    "C110_dissipation",
    "C110_turn",
    "C110_boost"
   ],
   "note": "REFUTED for the flux matrix as written: line 105 subtracts the x part of the energy flux from the z column. C110_matrix_partial is the agreement of matrix and face when that line means the x column. Everything else is proved."
  },
  {
   "property": "C111",
   "status": "proved",
   "theorems": [
    "C111_first",
    "C111_restart",
    "C111_interrupted",
    "C111_times",
    "C111_storage"
   ],
   "note": "A step is any function that depends on the solution only; C111_storage excludes zones with several sections that share field arrays (C101)."
  },
  {
   "property": "C112",
   "status": "partial",
   "theorems": [
    "C112_ignores_frames",
    "C112_repartition_partial",
    "C112_frame_only_refuted",
    "C112_stale_frame_refuted"
   ],
   "note": "REFUTED: without the number of processes the frame is not read but the mesh file is partitioned again; and after a restart on another number of processes the frame it began with stays in the old order of cells, so a second restart from it exchanges values silently. Proved for the same number of processes (C111) and for the first restart on another number from the file given."
  },
  {
   "property": "C113",
   "status": "partial",
   "theorems": [
    "C113_forces_partial",
    "C113_steady_partial",
    "C113_time_refuted"
   ],
   "note": "REFUTED: the time is computed before the steps up to the frame are skipped, so the rotors stand as at the frame before. The solutions and the names of the files are right, and everything is right if the forces do not depend on time."
  },
  {
   "property": "C114",
   "status": "proved",
   "theorems": [
    "C114_points",
    "C114_by_local",
    "C114_by_global"
   ],
   "note": ""
  },
  {
   "property": "C115",
   "status": "partial",
   "theorems": [
    "C115_other_points_refuted",
    "C115_rejected_partial"
   ],
   "note": "REFUTED: the search runs to the last index without asserting that a node was found, so a point of the face between the grid points gets the line of other nodes. Points off the face and numbers of no face are rejected."
  },
  {
   "property": "C116",
   "status": "proved",
   "theorems": [
    "C116_shock",
    "C116_front",
    "C116_numbers"
   ],
   "note": ""
  },
  {
   "property": "C117",
   "status": "partial",
   "theorems": [
    "C117_single_refuted",
    "C117_single_partial",
    "C117_multiple_refuted",
    "C117_multiple_partial",
    "C117_multiple_start_partial"
   ],
   "note": "REFUTED: the scalar solution leaves out the diffusion that the program sets, and the solution of the system takes the rows of the matrix whose columns are the eigenvectors. It holds without diffusion, and if the rows are left eigenvectors; both start right."
  },
  {
   "property": "C118",
   "status": "proved",
   "theorems": [
    "C118_linear",
    "C118_burgers",
    "C118_flux"
   ],
   "note": ""
  },
  {
   "property": "C119",
   "status": "proved",
   "theorems": [
    "C119_jacobian",
    "C119_singular",
    "C119_diffusive",
    "C119_value",
    "C119_flux"
   ],
   "note": ""
  },
  {
   "property": "C120",
   "status": "partial",
   "theorems": [
    "C120_burgers_refuted",
    "C120_others_partial"
   ],
   "note": "REFUTED: equation.Burgers.__init__ passes two arguments to InviscidBurgers.__init__, which takes one, so every construction raises TypeError. The other equations can be built."
  },
  {
   "property": "C121",
   "status": "partial",
   "theorems": [
    "C121_initial_refuted",
    "C121_outside_partial"
   ],
   "note": "REFUTED: riemann.Coupled.set_initial does not store its arguments, so get_value(x, 0) returns None. The scalar solvers are right (C118_linear, C118_burgers); the coupled one is right outside of the waves at positive times."
  },
  {
   "property": "C122",
   "status": "partial",
   "theorems": [
    "C122_scalar_partial",
    "C122_consistent_partial",
    "C122_inviscid_partial",
    "C122_coupled_refuted"
   ],
   "note": "REFUTED: for coupled equations with viscosity the half jump is a matrix, because a matrix of viscosities is multiplied entry by entry with the jump. Proved for scalar equations and for coupled equations without viscosity."
  },
  {
   "property": "C123",
   "status": "proved",
   "theorems": [
    "py_euler_conversions",
    "py_euler_flux_and_characteristics",
    "py_euler_viscous_fluxes"
   ],
   "note": ""
  },
  {
   "property": "C124",
   "status": "proved",
   "theorems": [
    "py_roe_flux",
    "py_roe_exact_cases"
   ],
   "note": ""
  },
  {
   "property": "C125",
   "status": "proved",
   "theorems": [
    "py_lax_friedrichs_flux",
    "py_lax_friedrichs_positivity"
   ],
   "note": ""
  },
  {
   "property": "C126",
   "status": "proved",
   "theorems": [
    "py_exact_iteration",
    "py_exact_solution"
   ],
   "note": "the root finder of scipy is a parameter; its convergence is a hypothesis"
  },
  {
   "property": "C127",
   "status": "partial",
   "theorems": [
    "py_exact_vacuum_refuted",
    "py_exact_vacuum_always",
    "py_exact_vacuum_outside_partial"
   ],
   "note": "REFUTED: inside of the vacuum get_value gives not-a-number and get_upwind_flux fails, for every problem with vacuum over the time axis; outside of the vacuum the values are right."
  },
  {
   "property": "C128",
   "status": "proved",
   "theorems": [
    "py_radau",
    "py_vincent",
    "py_vincent_choices",
    "py_huynh"
   ],
   "note": "linalg.solve and roots_legendre are parameters with hypotheses"
  },
  {
   "property": "C129",
   "status": "partial",
   "theorems": [
    "py_vincent_far_end_refuted",
    "py_vincent_far_end_partial"
   ],
   "note": "REFUTED: Vincent(1) with the default mu is the constant 1, with zero gradient, so it corrects nothing. Proved: right exactly for degree at least 2 or mu(0) = 1."
  },
  {
   "property": "C130",
   "status": "proved",
   "theorems": [
    "py_lagrange",
    "py_lagrange_equal_points"
   ],
   "note": ""
  },
  {
   "property": "C131",
   "status": "proved",
   "theorems": [
    "py_coordinates",
    "py_shifted"
   ],
   "note": ""
  },
  {
   "property": "C132",
   "status": "proved",
   "theorems": [
    "py_lobatto_tables",
    "py_lobatto_integrates",
    "py_lobatto_exact",
    "py_lobatto_in_element"
   ],
   "note": "more than ten points (bisection by scipy) are not modelled"
  },
  {
   "property": "C133",
   "status": "proved",
   "theorems": [
    "py_rk_orders",
    "py_rk_other_orders",
    "py_rk_linear",
    "py_rk_polynomial"
   ],
   "note": ""
  },
  {
   "property": "C134",
   "status": "proved",
   "theorems": [
    "py_rk_convex",
    "py_rk_invariant",
    "py_rk4_leaves_convex_sets"
   ],
   "note": ""
  },
  {
   "property": "C135",
   "status": "proved",
   "theorems": [
    "py_frames",
    "py_loop_ends"
   ],
   "note": ""
  },
  {
   "property": "C136",
   "status": "proved",
   "theorems": [
    "py_legendre_basis",
    "py_legendre_values",
    "py_legendre_setters"
   ],
   "note": ""
  },
  {
   "property": "C137",
   "status": "partial",
   "theorems": [
    "py_taylor_derivatives",
    "py_taylor_derivatives_refuted"
   ],
   "note": "REFUTED: for k above the degree the derivative is zero, but an IndexError is raised. Proved for k up to the degree, together with the gradient."
  },
  {
   "property": "C138",
   "status": "proved",
   "theorems": [
    "py_nodal_basis",
    "py_nodal_values",
    "py_nodal_setters",
    "py_uniform_roots"
   ],
   "note": ""
  },
  {
   "property": "C139",
   "status": "partial",
   "theorems": [
    "py_lobatto_approximate_refuted",
    "py_lobatto_approximate"
   ],
   "note": "REFUTED: the ends are sampled 1e-10 inside of the element, so x is not reproduced. Proved: the result interpolates f at the inner nodes and has the shifted values at the ends; constants are reproduced."
  },
  {
   "property": "C140",
   "status": "proved",
   "theorems": [
    "py_dg_legendre_conserves",
    "py_dg_nodal_conserves"
   ],
   "note": ""
  },
  {
   "property": "C141",
   "status": "proved",
   "theorems": [
    "py_dg_legendre_exact",
    "py_dg_nodal_exact"
   ],
   "note": ""
  },
  {
   "property": "C142",
   "status": "proved",
   "theorems": [
    "py_corrections_proper",
    "py_fr_flux_ends"
   ],
   "note": ""
  },
  {
   "property": "C143",
   "status": "partial",
   "theorems": [
    "py_fr_radau_refuted",
    "py_fr_radau"
   ],
   "note": "REFUTED: Radau returns the pair in the order opposite to that expected by the elements, so that the corrections are applied at the wrong ends. Proved: the values which result at both ends."
  },
  {
   "property": "C144",
   "status": "proved",
   "theorems": [
    "py_fr_exact"
   ],
   "note": ""
  },
  {
   "property": "C145",
   "status": "partial",
   "theorems": [
    "py_fr_conserves_refuted",
    "py_fr_lobatto_conserves",
    "py_fr_exact"
   ],
   "note": "REFUTED: on uniform and Legendre nodes the jumps are taken from the flux of the extrapolated solution, but the gradient from the interpolated flux; Euler's equations of degree 1 do not conserve. Proved: conservation on Lobatto nodes for all fluxes, and for polynomial fluxes on all nodes."
  },
  {
   "property": "C146",
   "status": "partial",
   "theorems": [
    "py_fr_gradient_refuted",
    "py_fr_exact"
   ],
   "note": "REFUTED: get_fr_flux uses the flux of the solution, get_fr_flux_gradient its interpolation; they differ for Burgers of degree 1. Proved: for polynomial fluxes of the degree of the expansion it is the derivative."
  },
  {
   "property": "C147",
   "status": "proved",
   "theorems": [
    "py_dissipation"
   ],
   "note": ""
  },
  {
   "property": "C148",
   "status": "proved",
   "theorems": [
    "py_grid_made",
    "py_grid_linked"
   ],
   "note": ""
  },
  {
   "property": "C149",
   "status": "partial",
   "theorems": [
    "py_grid_no_value_refuted",
    "py_grid_no_value",
    "py_grid_made"
   ],
   "note": "REFUTED: the assertions admit None, but Inlet computes 0 * None and raises TypeError. Proved: None always fails, and given values always succeed."
  },
  {
   "property": "C150",
   "status": "proved",
   "theorems": [
    "py_grid_element"
   ],
   "note": ""
  },
  {
   "property": "C151",
   "status": "proved",
   "theorems": [
    "py_column_set",
    "py_column_get"
   ],
   "note": ""
  },
  {
   "property": "C152",
   "status": "proved",
   "theorems": [
    "py_scheme_legendre_conserves",
    "py_scheme_nodal_conserves",
    "py_scheme_fr_conserves"
   ],
   "note": "Conservation of flux reconstruction on the other nodes is refuted (C145)."
  },
  {
   "property": "C153",
   "status": "partial",
   "theorems": [
    "py_flux_at_point_refuted",
    "py_flux_at_point"
   ],
   "note": "REFUTED: get_flux_value always solves the interfaces of wrapped neighbors; with boundary values the flux at the ends is that of the state of the opposite end of the grid. Proved: on periodic schemes, and in elements which do not touch the ends."
  },
  {
   "property": "C154",
   "status": "proved",
   "theorems": [
    "py_filter_ring",
    "py_filter_line"
   ],
   "note": ""
  },
  {
   "property": "C155",
   "status": "proved",
   "theorems": [
    "py_filter_waves",
    "py_filter_damping"
   ],
   "note": ""
  },
  {
   "property": "C156",
   "status": "proved",
   "theorems": [
    "py_zxh_convex",
    "py_zxh_unchanged"
   ],
   "note": "Scalar equations; the variant with eigen-matrices is not modelled."
  },
  {
   "property": "C157",
   "status": "proved",
   "theorems": [
    "py_limiter_reconstruct"
   ],
   "note": "For ZhongXingHui2013 on scalar equations."
  },
  {
   "property": "C158",
   "status": "partial",
   "theorems": [
    "py_lwa_line_refuted",
    "py_lwa_average"
   ],
   "note": "REFUTED: _borrow_expansion divides the inner product by norm_2, which is a square root, instead of by its square; a straight line through two elements is bent, for every choice of the parameters. Proved: averages are kept and the result is an average with positive weights."
  },
  {
   "property": "C159",
   "status": "proved",
   "theorems": [
    "py_kxrcf",
    "py_kxrcf_continuous"
   ],
   "note": "Legendre expansions, scalar equations; real numbers; the speed is an arbitrary function of the value"
  },
  {
   "property": "C160",
   "status": "partial",
   "theorems": [
    "py_persson_refuted",
    "py_persson",
    "py_persson_lines"
   ],
   "note": "REFUTED: elements of degree 0 raise ZeroDivisionError (0**(-3)), and every expansion other than Legendre raises TypeError, because inner_product is called with a third argument; with straight lines (degree 1) no cell is ever reported. Proved: for Legendre expansions of positive degree exactly the stated cells are reported."
  },
  {
   "property": "C161",
   "status": "partial",
   "theorems": [
    "py_kloeckner_refuted",
    "py_kloeckner",
    "py_kloeckner_rate",
    "py_skyline",
    "py_kloeckner_low"
   ],
   "note": "REFUTED: with polynomials of degree 2 every cell of every solution is reported, even of a constant, because the skyline makes the only two energies equal, so that the slope is zero; with degree 1 no cell is ever reported. Proved: everything else, for all degrees from 2."
  },
  {
   "property": "C162",
   "status": "proved",
   "theorems": [
    "py_lyh"
   ],
   "note": "Legendre expansions, scalar equations; real numbers"
  },
  {
   "property": "C163",
   "status": "proved",
   "theorems": [
    "py_lwa_detect",
    "py_jumps_smooth"
   ],
   "note": "Legendre expansions, scalar equations; real numbers; neighbors are the previous and the next cell around the ends, as link_neighbors makes them"
  },
  {
   "property": "C164",
   "status": "proved",
   "theorems": [
    "py_zj_detect",
    "py_jumps_smooth"
   ],
   "note": "as C163; the weights of the Gauss rule are assumed not negative; the L1 norm is the one computed with the points of the rule"
  },
  {
   "property": "C165",
   "status": "proved",
   "theorems": [
    "py_persson_viscosity"
   ],
   "note": "Positive degrees; the logarithm of zero is taken as minus infinity."
  },
  {
   "property": "C166",
   "status": "partial",
   "theorems": [
    "py_energy_viscosity_refuted",
    "py_energy_viscosity",
    "py_half_energy"
   ],
   "note": "REFUTED: where the solution of the cell is zero, the assertion on the dissipation rate fails whatever the neighbors are. Whenever a value is returned, it lies between zero and the bound, and it is zero where the neighbors agree; points are counted once. The matrix of dissipation is an arbitrary parameter."
  },
  {
   "property": "C167",
   "status": "partial",
   "theorems": [
    "py_quadratic_viscosity_refuted",
    "py_quadratic_viscosity",
    "py_quadratic_continuous"
   ],
   "note": "REFUTED: with values 1, 1 and 0 in three cells the parabola of the middle cell reaches 17/16. Proved: face values, continuity, lower bounds and the upper bound 17/16 of the largest value. The inverse of the matrix is an external function that inverts."
  },
  {
   "property": "C168",
   "status": "proved",
   "theorems": [
    "py_linear_viscosity",
    "py_linear_continuous"
   ],
   "note": "Scalar equations; the speeds at the faces are arbitrary."
  },
  {
   "property": "C169",
   "status": "partial",
   "theorems": [
    "py_linear_exact_refuted",
    "py_linear_exact_iff",
    "py_linear_exact"
   ],
   "note": "REFUTED: with diffusion and a mean other than zero the formula does not satisfy the equation, since the mean decays too. Proved: it satisfies the equation exactly if diffusivity times mean is zero; initial values, period and transport hold in general."
  },
  {
   "property": "C170",
   "status": "proved",
   "theorems": [
    "py_burgers_exact",
    "py_burgers_history"
   ],
   "note": "scipy's bisection is an external function that finds an exact zero of the function at hand between values of opposite sign; real numbers"
  },
  {
   "property": "C171",
   "status": "partial",
   "theorems": [
    "py_dist_to_edges_refuted",
    "py_dist_to_edges",
    "py_edge_distance",
    "py_dist_to_vertices",
    "py_vertex_distance"
   ],
   "note": "REFUTED: beside a square the distance to its edges is zero at points two away from it. Proved: it is the least distance to the lines through the edges; everything about vertices."
  },
  {
   "property": "C172",
   "status": "proved",
   "theorems": [
    "py_physical_mode",
    "py_physical_mode_unique"
   ],
   "note": "the index of the mode; sorting and eigenvalues are numpy's"
  },
  {
   "property": "C173",
   "status": "proved",
   "theorems": [
    "py_fourier"
   ],
   "note": "complex numbers as pairs; powers of the root of unity by de Moivre's formula"
  },
  {
   "property": "C174",
   "status": "partial",
   "theorems": [
    "py_compress_refuted",
    "py_compress_init",
    "py_compress_iff",
    "py_compressed",
    "py_compressed_shape",
    "py_compress_average"
   ],
   "note": "REFUTED: two abstract methods are not defined, so no object can be made; and get_new_coeff would raise, by a surplus argument of average, exactly for the cells whose average lies strictly between those of neighbors. Proved: the compressed function stays within the averages; without the surplus argument the average is kept, and extreme cells become constant."
  },
  {
   "property": "C175",
   "status": "proved",
   "theorems": [
    "py_shifted",
    "py_shifted_consistent",
    "py_shifted_banned"
   ],
   "note": "for Legendre expansions; np.linalg.inv and the Gauss points enter by their contracts"
  },
  {
   "property": "C176",
   "status": "partial",
   "theorems": [
    "py_step_order_refuted",
    "py_step_order",
    "py_step_size",
    "py_step_degree"
   ],
   "note": "REFUTED for second order and degrees 0 and 1: the CFL number of the third order is always used, which is larger. Proved: the exact step, its bounds, and the CFL numbers of orders 3 and 4, of order 2 from degree 2 and of order 1 from degree 1."
  },
  {
   "property": "C177",
   "status": "partial",
   "theorems": [
    "py_march",
    "py_march_ends",
    "py_frames",
    "py_frames_end",
    "py_animation",
    "py_animation_refuted"
   ],
   "note": "REFUTED for animate: its loop never updates the artificial viscosity, so states differ. Proved: everything about solve_and_write, and the times of animations."
  },
  {
   "property": "C178",
   "status": "partial",
   "theorems": [
    "add_cell_status_refuted",
    "add_cell_status_order_refuted",
    "add_cell_status"
   ],
   "note": "REFUTED for two zones: the field of the first zone is always used, so that cells of other zones mark foreign cells; and for zones whose boundary sections come first: the entry is beyond the field. Proved for one zone with cells numbered first, for all lists of cells and previous fields."
  }
 ]
}