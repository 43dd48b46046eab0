{"id": "C01", "title": "Base64 output is decodable and correctly padded", "statement": "The string EncodeBase64 returns for a byte buffer is the RFC 4648 encoding: its length is 4*ceil(n/3), it uses only the 64-letter alphabet followed by exactly (3 - n mod 3) mod 3 '=' characters, and a standard decoder gives back exactly the original bytes.", "quantifier": "every byte buffer of every length, including the three residues of the length modulo 3 and bytes that are negative as a signed char", "why_tests_cant": "There are infinitely many buffers, and a wrong mask in one bit position only shows on particular bit patterns at particular residues.", "anchors": ["include/mini/mesh/vtk.hpp: EncodeBase64"]}
{"id": "C02", "title": "The new order computed for a partition is a stable sort and a bijection", "statement": "GetNewOrder(parts, n) returns two index lists that are mutually inverse permutations of 0..n-1; read through new_to_old the part numbers are non-decreasing and items of equal part keep their original relative order. These requirements determine the answer uniquely.", "quantifier": "every length n and every list of part numbers", "why_tests_cant": "A test fixes a handful of part lists; inverse-permutation and stability must hold for all of them because later steps index arrays with both lists.", "anchors": ["include/mini/mesh/shuffler.hpp: GetNewOrder"]}
{"id": "C03", "title": "Shuffling renumbers the mesh without changing it", "statement": "After shuffling, every node identified by its METIS index still has its original coordinates and nodal data, and every cell identified by its METIS index still consists of the same METIS nodes in the same local order and keeps its cell data; only the CGNS numbering changes.", "quantifier": "every zone size, connectivity, nodal/cell data and every assignment of parts to nodes and cells", "why_tests_cant": "A test checks particular meshes; the claim is an isomorphism for all meshes and all partitions, and a swapped use of old_to_new / new_to_old is invisible whenever the permutation is an involution.", "anchors": ["include/mini/mesh/shuffler.hpp: ShuffleData, ShuffleConnectivity, Shuffler::Shuffle"]}
{"id": "C04", "title": "The CGNS/METIS mapper is a bijection after Map and stays one after Shuffle", "statement": "After Map the METIS-to-CGNS and CGNS-to-METIS tables of nodes and cells are mutually inverse (IsValid() returns true), METIS numbers are exactly 0..n-1, and after Shuffle the tables are still mutually inverse.", "quantifier": "every list of zones, node counts, sections (in any order of dimension) and part assignments", "why_tests_cant": "Index bookkeeping over nested zones and sections must hold for any nesting; tests use one or two files.", "anchors": ["include/mini/mesh/mapper.hpp: CgnsToMetis::Map, CgnsToMetis::IsValid", "include/mini/mesh/shuffler.hpp: Shuffler::Shuffle"]}
{"id": "C05", "title": "The METIS mesh produced by Map describes the same cells", "statement": "In the CSR mesh returned by Map, row m lists exactly the METIS numbers of the CGNS nodes of the CGNS cell that the mapper associates with m, in the same order, and the row pointer array starts at 0, is non-decreasing and ends at the length of the index array.", "quantifier": "every base with any number of zones and homogeneous sections", "why_tests_cant": "Offsets accumulate over zones and sections; a wrong offset only shows for specific combinations.", "anchors": ["include/mini/mesh/mapper.hpp: CgnsToMetis::Map", "include/mini/mesh/metis.hpp: Mesh, SparseGraph"]}
{"id": "C06", "title": "Written id ranges describe the parts exactly", "statement": "For a zone or section whose part numbers have been sorted by Shuffle, the half-open range written for each part contains exactly the ids whose part number is that part; parts that own nothing get an empty range; ranges of different parts are disjoint and together cover all ids.", "quantifier": "every sorted list of part numbers (all lengths >= 1, all gaps)", "why_tests_cant": "The slicing loop has boundary cases (first, last, missing parts) over an unbounded family of lists.", "anchors": ["include/mini/mesh/shuffler.hpp: Shuffler::WritePartitionInfo"]}
{"id": "C07", "title": "A node belongs to the smallest part among its cells", "statement": "GetNodeParts gives each node the minimum part number over the cells that use it, and n_parts when no cell uses it; in particular every node used by some cell gets a part in 0..n_parts-1 that also owns one of those cells.", "quantifier": "every CSR mesh and every assignment of parts to cells", "why_tests_cant": "The result is a fold over all cells; only an invariant covers all meshes and visiting orders.", "anchors": ["include/mini/mesh/metis.hpp: GetNodeParts"]}
{"id": "C08", "title": "Partitioning never indexes a part that does not exist", "statement": "PartitionAndShuffle writes partition files for any mesh without reading or writing outside its per-part tables, i.e. each part number that is used as an index is smaller than the number of parts.", "quantifier": "every mesh, including meshes with nodes used by no volume cell", "why_tests_cant": "Whether orphan nodes exist depends on the input file; unit tests use clean meshes.", "anchors": ["include/mini/mesh/metis.hpp: GetNodeParts", "include/mini/mesh/shuffler.hpp: Shuffler::WritePartitionInfo"]}
{"id": "C09", "title": "Send lists and receive lists of neighbouring parts agree", "statement": "For any two parts p and q, the nodes p announces it will send to q are exactly the nodes q announces it will receive from p, in the same order; and the cells p sends to q, in the order it packs them, are exactly the cells q expects from p in the order it unpacks them.", "quantifier": "every mesh, every symmetric dual graph, every partition into any number of parts", "why_tests_cant": "A deadlock or a mix-up needs a special partition; the property is a two-party agreement for all partitions.", "anchors": ["include/mini/mesh/shuffler.hpp: Shuffler::WritePartitionInfo", "include/mini/mesh/part.hpp: ShareGhostNodes, BuildGhostNodes, BuildAdj"]}
{"id": "C10", "title": "Ghost cells carry the owner's coefficients after an exchange", "statement": "After every process has performed ShareGhostCellCoeffs followed by UpdateGhostCellCoeffs, each ghost cell of each process holds exactly the coefficients its owner held when it shared, for cells of every size, and nothing else changes.", "quantifier": "every symmetric dual graph, every partition, every coefficient assignment and every number of coefficients per cell", "why_tests_cant": "Packing offsets and orders on two processes must match for all partitions; tests run a few process counts on one mesh.", "anchors": ["include/mini/mesh/part.hpp: ShareGhostCellCoeffs, UpdateGhostCellCoeffs, BuildAdj, BuildGhostCells"]}
{"id": "C11", "title": "Each part can find every node it needs", "statement": "On every part, every node of each of its own cells and of each ghost cell (cell of another part adjacent to one of its cells) is either in the part's own node range or in the list of nodes it receives; so GetCoord never fails.", "quantifier": "every mesh, dual graph and partition", "why_tests_cant": "Missing ghost nodes appear only for particular corner-sharing configurations.", "anchors": ["include/mini/mesh/shuffler.hpp: Shuffler::WritePartitionInfo", "include/mini/mesh/part.hpp: Part::GetCoord, BuildGhostNodes"]}
{"id": "C12", "title": "Fringe search returns exactly the outermost layers", "statement": "FindForegroundFringeCells(n_layer) returns, without duplicates, exactly the cells whose graph distance to a cell with fewer neighbours than faces is smaller than n_layer (for n_layer >= 1), in order of non-decreasing distance.", "quantifier": "every dual graph, every face-count assignment, every n_layer >= 1", "why_tests_cant": "Breadth-first search correctness is a reachability statement over all graphs.", "anchors": ["include/mini/mesh/overset.hpp: Mapping::FindForegroundFringeCells"]}
{"id": "C13", "title": "Donor search returns the connected in-ball cells", "statement": "For each fringe cell the radius version of FindBackgroundDonorCells returns, without duplicates, the cell nearest to it together with exactly the cells reachable from that cell through adjacent cells whose centres lie within the radius; the search terminates.", "quantifier": "every background graph, every radius, every set of centres", "why_tests_cant": "Reachability and termination for all graphs cannot be sampled.", "anchors": ["include/mini/mesh/overset.hpp: Mapping::FindBackgroundDonorCells"]}
{"id": "C14", "title": "Sorting sections by dimension gives contiguous, disjoint id ranges", "statement": "After SortSectionsByDim the sections are ordered by decreasing dimension (old order kept within a dimension), their cell-id ranges are consecutive from 1 to the total number of cells, and no section loses a cell or changes its connectivity; so the cells of the highest dimension are numbered 1..n.", "quantifier": "every list of sections", "why_tests_cant": "Requires an invariant over arbitrary section lists; field arrays indexed by cell id rely on it.", "anchors": ["include/mini/mesh/cgns.hpp: Zone::SortSectionsByDim"]}
{"id": "C15", "title": "Merging sections and splitting them again loses nothing", "statement": "Merging any set of homogeneous sections into one mixed section and then splitting it by type gives, for each element type, exactly the concatenation of the original rows of that type, in merge order.", "quantifier": "every list of homogeneous sections with any types and sizes", "why_tests_cant": "Variable-length rows and offsets must round-trip for all lists; a test has one file.", "anchors": ["include/mini/mesh/cgns.hpp: Zone::MergeSections, Zone::SplitSections"]}
{"id": "C16", "title": "A boundary condition refers to the section of its own name", "statement": "ZoneBC::UpdateRanges gives each boundary condition the id range of the section with the same name.", "quantifier": "every list of section names and boundary names", "why_tests_cant": "The lookup is by suffix; it only goes wrong for name pairs where one is a suffix of another.", "anchors": ["include/mini/mesh/cgns.hpp: Zone::GetSection(name), ZoneBC::UpdateRanges"]}
{"id": "C17", "title": "Solution vector packing is a round trip", "statement": "SetSolutionColumn followed by GetSolutionColumn returns the same column, and GetSolutionColumn followed by SetSolutionColumn leaves every cell unchanged; the segments of different cells are disjoint and cover the column.", "quantifier": "every number and order of cells (inner/inter-part) and every degree-of-freedom count", "why_tests_cant": "Offsets are assigned by a history of insertions; only an invariant excludes overlap for all meshes.", "anchors": ["include/mini/spatial/fem.hpp: SetSolutionColumn, GetSolutionColumn", "include/mini/mesh/part.hpp: AddLocalCellId, GetCellDataOffset"]}
{"id": "C18", "title": "Local cell ids are a bijection with inner cells first", "statement": "BuildAdj gives every local cell exactly one id; ids are 0..n-1; cells with a neighbour on another part come after all cells without one.", "quantifier": "every list of local cells and every set of interpart adjacency pairs", "why_tests_cant": "Depends on set membership for arbitrary adjacency; needs a proof over all inputs.", "anchors": ["include/mini/mesh/part.hpp: BuildAdj, AddLocalCellId"]}
{"id": "C19", "title": "Face nodes are always put in outward order", "statement": "Given the nodes of one face of any tetrahedron (4, 10 nodes), hexahedron (8, 20, 26, 27), wedge (6, 15, 18) or pyramid (5, 13, 14) in any order, SortNodesOnFace returns the same nodes, without duplicates or omissions: first the corners, counterclockwise when seen from outside, then the middles of the edges in the same order, then the centre.", "quantifier": "every face, every permutation of its nodes and every global numbering of the cell's nodes", "why_tests_cant": "The global numbers are arbitrary; the table lookups by index sums must be right for all of them.", "anchors": ["include/mini/geometry/tetrahedron.hpp: Tetrahedron4::SortNodesOnFace", "include/mini/geometry/hexahedron.hpp: Hexahedron8::SortNodesOnFace", "include/mini/geometry/wedge.hpp: Wedge6::SortNodesOnFace", "include/mini/geometry/pyramid.hpp: Pyramid5::SortNodesOnFace"]}
{"id": "C20", "title": "Discontinuous Galerkin residual conserves the state", "statement": "For the modal scheme, the sum over all cells of (cell integral of the residual) equals minus the sum of the boundary-face fluxes: interior faces cancel exactly and the volume term does not contribute, whatever the numerical flux is.", "quantifier": "every mesh topology, every numerical flux, every solution, every basis whose first function is constant", "why_tests_cant": "Conservation is a global telescoping identity for all meshes and fluxes, not visible in a residual norm test.", "anchors": ["include/mini/spatial/dg/general.hpp: AddFluxOnLocalFaces, AddFluxDivergence"]}
{"id": "C21", "title": "The limited solution does not depend on the partition", "statement": "Reconstruct gives the same coefficients in every cell whatever the partition of the mesh into parts is.", "quantifier": "every limiter, every mesh and every two partitions of it", "why_tests_cant": "A schedule property: two partitions must be compared for all meshes; single-process tests never see it.", "anchors": ["include/mini/mesh/part.hpp: Part::Reconstruct"]}
{"id": "C22", "title": "Within one reconstruction pass, order does not matter and only troubled cells change", "statement": "One pass of Reconstruct evaluates the limiter of each troubled cell on the values held before the pass, so the result is independent of the order in which cells are visited and cells that are not troubled keep their coefficients.", "quantifier": "every list of cells, limiter and coefficient state", "why_tests_cant": "Order-independence ranges over all visiting orders.", "anchors": ["include/mini/mesh/part.hpp: Part::Reconstruct"]}
{"id": "C23", "title": "Runge-Kutta steps match the exponential series on linear systems", "statement": "For U' = A U, one step of the k-stage scheme (k=1,2,3) multiplies U by the Taylor polynomial of exp(dt A) of degree k, exactly.", "quantifier": "every linear operator A, every vector space, every dt and U", "why_tests_cant": "An identity over all matrices; a numeric convergence test sees only one slope.", "anchors": ["include/mini/temporal/rk.hpp: RungeKutta<1>, RungeKutta<2>, RungeKutta<3>", "include/mini/temporal/ode.hpp: Euler, Constant"]}
{"id": "C24", "title": "Runge-Kutta steps preserve convex invariant sets and linear invariants (SSP)", "statement": "If a forward Euler step of size dt keeps the solution in a convex set whatever the time, then so does each Runge-Kutta step of size dt; and any linear functional that the residual annihilates is unchanged by a step.", "quantifier": "every convex set, every residual, every dt, every number of consecutive steps", "why_tests_cant": "Quantifies over all residual functions and all convex sets.", "anchors": ["include/mini/temporal/rk.hpp: RungeKutta"]}
{"id": "C25", "title": "Runge-Kutta steps integrate time-polynomials to their order", "statement": "For U' = p(t) with p a polynomial of degree below k, a step of the k-stage scheme from t to t+dt is exact (k=1,2,3), i.e. the stages set the time at which the residual is evaluated correctly.", "quantifier": "every polynomial of degree < k, every t, dt, U", "why_tests_cant": "Wrong stage times are invisible for autonomous tests.", "anchors": ["include/mini/temporal/rk.hpp: RungeKutta"]}
{"id": "C26", "title": "Scalar fluxes are the exact Godunov fluxes", "statement": "For linear advection and for Burgers with coefficient k, GetFluxUpwind(u_L,u_R) equals the minimum of f over [u_L,u_R] when u_L <= u_R and the maximum of f over [u_R,u_L] otherwise; hence it is consistent and monotone.", "quantifier": "all real u_L, u_R and all coefficients (k of either sign and zero)", "why_tests_cant": "The case split on sign of speed, transonic rarefaction and shock needs all reals.", "anchors": ["include/mini/riemann/simple/single.hpp: Single::GetFluxUpwind", "include/mini/riemann/simple/burgers.hpp: Burgers::GetFluxUpwind"]}
{"id": "C27", "title": "Linear-system upwind flux splits by characteristics", "statement": "For a 2x2 system with real distinct eigenvalues (and for decoupled systems), GetFluxUpwind(U_L,U_R) equals A+ U_L + A- U_R, where A = A+ + A- is the split by the sign of the eigenvalues; so it is consistent (F(U,U)=A U) and takes only left data if all speeds are positive and only right data if all are negative.", "quantifier": "all matrices with real distinct eigenvalues, all states", "why_tests_cant": "Algebraic identity over all coefficients with a four-way sign split.", "anchors": ["include/mini/riemann/simple/double.hpp: Double", "include/mini/riemann/simple/multiple.hpp: Multiple"]}
{"id": "C28", "title": "Rotated solver's flux matrix agrees with its upwind flux", "statement": "For every rotated simple solver, GetFluxUpwind(u,u) along direction n equals GetFluxMatrix(u) times n.", "quantifier": "every convection coefficient, state and direction", "why_tests_cant": "The two functions are computed by different code; a mismatch shows only for non-linear fluxes.", "anchors": ["include/mini/riemann/rotated/simple.hpp: Simple::GetFluxMatrix, Simple::GetFluxUpwind", "include/mini/riemann/rotated/burgers.hpp"]}
{"id": "C29", "title": "Conversions between conservative and primitive variables are inverse", "statement": "For density > 0, pressure >= 0 and gamma > 1, ConservativeToPrimitive(PrimitiveToConservative(w)) = w, and conversely PrimitiveToConservative(ConservativeToPrimitive(U)) = U whenever the internal energy of U is non-negative.", "quantifier": "all states, all gamma > 1, dimensions 1, 2, 3", "why_tests_cant": "Identity over the reals with guards for vacuum.", "anchors": ["include/mini/riemann/euler/types.hpp: IdealGas::ConservativeToPrimitive, PrimitiveToConservative"]}
{"id": "C30", "title": "Primitive states delivered to solvers are never negative", "statement": "ConservativeToPrimitive returns density >= 0 and pressure >= 0 for every input vector, and the exact zero state whenever the input has negative density, energy or pressure; GetSpeedOfSound is never undefined and is non-negative.", "quantifier": "all real input vectors and gamma >= 1", "why_tests_cant": "Guards must cover all of the state space.", "anchors": ["include/mini/riemann/euler/types.hpp: IdealGas"]}
{"id": "C31", "title": "Eigenvector matrices diagonalise the normal flux Jacobian", "statement": "The left and right matrices built for a state and an orthonormal frame satisfy L R = I and R diag(u_n-a, u_n, u_n, u_n, u_n+a) L equals the Jacobian of the normal Euler flux with respect to conservative variables.", "quantifier": "all states with rho>0, p>0, gamma>1 and all orthonormal frames", "why_tests_cant": "Nine free parameters; only an algebraic proof covers them.", "anchors": ["include/mini/riemann/euler/eigen.hpp: EigenMatrices"]}
{"id": "C32", "title": "AUSM flux is consistent, upwind and mirror-symmetric", "statement": "GetFluxUpwind(W,W) is the physical flux; for flow with Mach >= 1 on both sides it is the physical flux of the upwind side; the split Mach numbers and pressures add up to the whole; exchanging the sides and mirroring the normal velocity mirrors the flux.", "quantifier": "all states with positive density and pressure, all Mach numbers (sub-, tran-, supersonic), dimensions 1, 2, 3", "why_tests_cant": "Piecewise polynomial splitting has branch boundaries at Mach +-1 and 0.", "anchors": ["include/mini/riemann/euler/ausm.hpp: AusmPlus / Ausm"]}
{"id": "C33", "title": "HLLC flux is consistent, upwind and keeps contacts", "statement": "GetFluxUpwind(W,W) is the physical flux; if both wave-speed estimates are positive (negative) it is the flux of the left (right) state; a stationary contact (equal pressure, zero normal velocity) gets exactly the pressure flux and no mass flux.", "quantifier": "all states with positive density and pressure, dimensions 1 and 2", "why_tests_cant": "Case analysis over the signs of three wave speeds.", "anchors": ["include/mini/riemann/euler/hllc.hpp: Hllc"]}
{"id": "C34", "title": "The exact Riemann solver is a function of its arguments", "statement": "GetFluxUpwind(left,right) of the exact solver depends only on left and right, not on the calls made before on the same solver object.", "quantifier": "every history of previous calls and every pair of states, including those that generate vacuum", "why_tests_cant": "History property: the solver object has mutable members; tests call it on fresh objects.", "anchors": ["include/mini/riemann/euler/exact.hpp: Exact, PassiveScalars"]}
{"id": "C35", "title": "Pressure iteration of the exact solver brackets the root", "statement": "For a concave increasing function with a root in the search interval the FindRoot iteration never overshoots to the right of the root, its iterates never decrease, and on exit the residual is within the tolerance.", "quantifier": "every concave, strictly increasing, differentiable function and every admissible start", "why_tests_cant": "Convergence of an iteration for all admissible functions and starts.", "anchors": ["include/mini/riemann/euler/exact.hpp: FindRoot"]}
{"id": "C36", "title": "Rotated Euler flux is frame-invariant", "statement": "GlobalToNormal followed by NormalToGlobal is the identity; the flux obtained by rotating, solving and rotating back for equal states equals the flux matrix times the normal; mass and energy are not changed by the rotation.", "quantifier": "all orthonormal frames and states, dimensions 2 and 3", "why_tests_cant": "All rotations must be covered.", "anchors": ["include/mini/riemann/rotated/euler.hpp: GlobalToNormal, NormalToGlobal, GetFluxUpwind, GetFluxMatrix"]}
{"id": "C37", "title": "A solid wall transmits only pressure", "statement": "GetFluxOnInviscidWall / SolidWall has zero mass and energy flux and momentum flux p*n, and equals the physical flux of any state with the same pressure and zero normal velocity.", "quantifier": "all states and all normals", "why_tests_cant": "Universal over states and normals.", "anchors": ["include/mini/riemann/rotated/euler.hpp: GetFluxOnInviscidWall"]}
{"id": "C38", "title": "Characteristic boundary fluxes are consistent", "statement": "When the exterior state equals the interior state, the inlet, outlet and smart boundary fluxes are the physical normal flux of that state; in general the smart boundary uses the exterior state exactly when the interior flows in faster than sound, the interior state exactly when it flows out faster than sound, and the subsonic inlet or outlet flux in between.", "quantifier": "all states with positive density and pressure and all frames, all Mach numbers and flow directions", "why_tests_cant": "Branch boundaries (Mach exactly 1, zero normal velocity) are measure-zero for sampled tests.", "anchors": ["include/mini/riemann/rotated/euler.hpp: GetFluxOnSubsonicInlet, GetFluxOnSubsonicOutlet, GetFluxOnSmartBoundary"]}
{"id": "C39", "title": "Subsonic boundary states satisfy the characteristic relations", "statement": "The boundary state used for a subsonic outlet has the prescribed pressure and satisfies the two incoming compatibility relations with the interior state; the one used for a subsonic inlet satisfies the relations with the prescribed state.", "quantifier": "all interior/exterior states with subsonic normal flow out of (into) the domain, including zero normal velocity", "why_tests_cant": "Signs flip with flow direction; the equality case is never sampled.", "anchors": ["include/mini/riemann/rotated/euler.hpp: GetFluxOnSubsonicInlet, GetFluxOnSubsonicOutlet"]}
{"id": "C40", "title": "Direct-DG common gradient is single-valued on a face", "statement": "The interface gradient computed from the two sides is the same when the sides are exchanged and the normal is reversed, equals the common gradient when both sides agree in value and gradient, and its value jump acts only along the normal.", "quantifier": "all values, gradients, unit normals and distances", "why_tests_cant": "Universal over states; needed for conservation of the viscous flux.", "anchors": ["include/mini/riemann/diffusive/direct_dg.hpp: DirectDG::GetCommonGradient"]}
{"id": "C41", "title": "Normal viscous flux equals matrix viscous flux times normal", "statement": "MinusViscousFlux with a normal subtracts exactly the product of the flux matrix (that the matrix version subtracts) with the normal.", "quantifier": "all diffusivities, gradients and normals", "why_tests_cant": "Two separate code paths must agree for all inputs.", "anchors": ["include/mini/riemann/diffusive/linear.hpp: Isotropic/Anisotropic MinusViscousFlux"]}
{"id": "C42", "title": "Frames stay orthonormal under any sequence of rotations", "statement": "Starting from the default frame, after any sequence of RotateX/RotateY/RotateZ calls the three axes are orthonormal and right-handed, and rotations about the same axis compose by adding angles.", "quantifier": "every sequence of rotations with arbitrary angles", "why_tests_cant": "A history property over unbounded sequences.", "anchors": ["include/mini/geometry/frame.hpp: Frame::RotateX, RotateY, RotateZ"]}
{"id": "C43", "title": "Line-triangle intersection is correct", "statement": "Intersect(p,q,a,b,c) returns ratio t such that p + t (q - p) lies in the plane of the triangle, and reports a hit exactly when the barycentric coordinates of that point are all non-negative, provided the line is not parallel to the plane.", "quantifier": "all points and triangles in general position", "why_tests_cant": "Universal over coordinates.", "anchors": ["include/mini/geometry/intersect.hpp: Intersect"]}
{"id": "C44", "title": "Shape functions interpolate: partition of unity, nodal values, gradients", "statement": "For every element type the shape functions sum to one everywhere, equal one at their own node and zero at the others, and the tabulated local gradients are the derivatives of the shape functions; hence LocalToGlobal reproduces the nodes and any affine map (for pyramids, whose local coordinates are collapsed, affine in x(1-z)/2, y(1-z)/2 and z). Elements with nodes on their edges reproduce quadratic polynomials.", "quantifier": "every local coordinate and every node of every element type", "why_tests_cant": "Polynomial identities over all local coordinates.", "anchors": ["include/mini/geometry/triangle.hpp, quadrangle.hpp, tetrahedron.hpp, hexahedron.hpp, wedge.hpp, pyramid.hpp: LocalToShapeFunctions, LocalToShapeGradients"]}
{"id": "C45", "title": "Hexahedron outward normals are normal to their faces", "statement": "The vector GetOutwardNormalVector returns at a point of a face is orthogonal to the face there.", "quantifier": "every non-degenerate hexahedron, including skewed ones, and every face", "why_tests_cant": "Holds for boxes, the usual test cells; fails only for skewed cells.", "anchors": ["include/mini/geometry/hexahedron.hpp: Hexahedron::GetOutwardNormalVector"]}
{"id": "C46", "title": "OrthoNormalize yields an orthonormal basis", "statement": "After OrthoNormalize, the discrete inner products (by the element's quadrature) of the basis functions form the identity matrix, the transformation is lower triangular with positive diagonal, and so the first function stays constant.", "quantifier": "every quadrature, every linearly independent basis of any size", "why_tests_cant": "An induction over the number of basis functions for all inner products.", "anchors": ["include/mini/gauss/function.hpp: OrthoNormalize"]}
{"id": "C47", "title": "Gauss quadrature rules are exact to their degree", "statement": "The Gauss-Legendre rule with Q points integrates every polynomial of degree <= 2Q-1 exactly and the Lobatto rule every polynomial of degree <= 2Q-3, and the tensor-product rules do so in each direction.", "quantifier": "every polynomial up to the degree; Q = 1..5 and 2..6", "why_tests_cant": "All polynomials: needs linearity and exact (irrational) nodes.", "anchors": ["include/mini/gauss/legendre.hpp", "include/mini/gauss/lobatto.hpp", "include/mini/gauss/quadrangle.hpp", "include/mini/gauss/hexahedron.hpp"]}
{"id": "C48", "title": "Lagrange basis: nodal values, unity, reproduction, derivatives", "statement": "The Lagrange basis on any list of distinct nodes is 1 at its own node and 0 at the others, sums to one, reproduces every polynomial of degree below the node count, and GetDerivatives returns its derivatives.", "quantifier": "every list of distinct nodes of every length, every point", "why_tests_cant": "Any number of nodes: proof by induction.", "anchors": ["include/mini/basis/lagrange.hpp: lagrange::Line"]}
{"id": "C49", "title": "Hexahedron node numbering is a bijection", "statement": "The map from (i,j,k) to the linear index of the tensor-product basis and back is a bijection onto 0..N-1, and the basis value at index n is the product of the three one-dimensional values.", "quantifier": "all node counts in each direction", "why_tests_cant": "Parametric in the sizes.", "anchors": ["include/mini/basis/lagrange.hpp: lagrange::Hexahedron"]}
{"id": "C50", "title": "Correction functions have the required end values", "statement": "For every degree and every value of the constant, the right correction function is 1 at +1 and 0 at -1, the left one mirrors it, and the derivative routine is the derivative.", "quantifier": "every polynomial degree and every admissible constant", "why_tests_cant": "Parametric in the degree.", "anchors": ["include/mini/basis/vincent.hpp: Vincent"]}
{"id": "C51", "title": "Taylor basis derivatives are the derivatives", "statement": "Taylor<3,k>::GetPdvValue returns, for each basis monomial and each multi-index, the partial derivative of the monomial evaluated at the point.", "quantifier": "all points and all polynomial coefficients for k=1,2,3", "why_tests_cant": "Existing tests compare a few columns only.", "anchors": ["include/mini/basis/taylor.hpp: Taylor<3,3>::GetPdvValue"]}
{"id": "C52", "title": "Projection reproduces polynomials and averages", "statement": "Projecting a function that lies in the span of the orthonormal basis gives back that function at every point; projecting twice is the same as once; the average of the projection is the quadrature mean of the function.", "quantifier": "every function, basis and quadrature for which the basis is orthonormal", "why_tests_cant": "All functions.", "anchors": ["include/mini/polynomial/projection.hpp: Projection::Approximate, GetAverage"]}
{"id": "C53", "title": "Nodal hexahedron gradients obey the chain rule", "statement": "For the local (Jacobian-weighted) representation, GetGlobalGradient returns the true global gradient of the represented function (value divided by the Jacobian determinant), and GetGlobalHessian its second derivatives.", "quantifier": "every smooth map with non-zero determinant and every coefficient set", "why_tests_cant": "Chain-rule identity with nine Jacobian entries and their derivatives.", "anchors": ["include/mini/polynomial/hexahedron.hpp: GetGlobalGradient, LocalToGlobalGradient, GetGlobalHessian"]}
{"id": "C54", "title": "WENO limiting keeps the cell average", "statement": "The limited projection is a convex combination of candidates whose averages are all the average of the limited cell; so the cell average is unchanged, and weights are positive and sum to one.", "quantifier": "every neighbour count, every coefficients and every admissible linear weight", "why_tests_cant": "Parametric in neighbour count and smoothness values.", "anchors": ["include/mini/limiter/weno.hpp: Lazy, Eigen"]}
{"id": "C55", "title": "Blade properties are interpolated linearly between sections", "statement": "Blade::GetSection(y) has the chord and twist obtained by linear interpolation between the two installed sections around y, equal to the installed ones at their positions, continuously in y.", "quantifier": "every list of installed sections and every position", "why_tests_cant": "The repository's test evaluates the midpoint, where swapped weights agree.", "anchors": ["include/mini/aircraft/blade.hpp: Blade::GetSection, Blade::InstallSection"]}
{"id": "C56", "title": "Installed sections are always strictly ordered", "statement": "After any sequence of InstallSection calls that did not throw, positions start at 0 and strictly increase; a call that violates this throws and leaves the blade unchanged.", "quantifier": "every sequence of calls", "why_tests_cant": "A history property.", "anchors": ["include/mini/aircraft/blade.hpp: Blade::InstallSection"]}
{"id": "C57", "title": "Angle of attack is the inflow angle plus twist, in range", "statement": "GetAngleOfAttack(u,w) is congruent modulo 360 degrees to the direction of (u,w) plus twist and lies in [-180,180] whenever |twist| <= 360; so an airfoil table lookup stays inside its table.", "quantifier": "all non-zero u, all w, all twists in range", "why_tests_cant": "Quadrants and wrap-around for all reals.", "anchors": ["include/mini/aircraft/section.hpp: Section::GetAngleOfAttack", "include/mini/aircraft/airfoil.hpp: SC1095"]}
{"id": "C58", "title": "Blade forces decompose into lift and drag", "statement": "The in-plane force returned for a section has component along the relative wind equal to -1/2 rho |v|^2 c C_d and transverse component of size 1/2 rho |v|^2 c |C_l|; with non-negative drag coefficient it never adds energy along the wind.", "quantifier": "all wind vectors, densities, chords and coefficients", "why_tests_cant": "Trigonometric identity over all angles.", "anchors": ["include/mini/aircraft/section.hpp: Section::GetForce"]}
{"id": "C59", "title": "Rotor azimuth is determined by time", "statement": "After UpdateAzimuth(t), the azimuth is the initial azimuth plus angular speed times t, whatever calls preceded it.", "quantifier": "every history of SetInitialAzimuth, SetRevolutionsPerSecond, SetAzimuth, UpdateAzimuth calls", "why_tests_cant": "History property with caching of the last time.", "anchors": ["include/mini/aircraft/rotor.hpp: Rotor::UpdateAzimuth"]}
{"id": "C60", "title": "Blades always refer to the rotor that owns them", "statement": "After any sequence of installing blades, copying, assigning and moving rotors, every blade of every live rotor refers to that rotor.", "quantifier": "every history of installs, copies and moves", "why_tests_cant": "Pointer-validity invariant over unbounded histories.", "anchors": ["include/mini/aircraft/rotor.hpp: Rotor copy/move, InstallBlade"]}
{"id": "C61", "title": "Blade-cell intersection is the part of the blade inside the cell", "statement": "Rotorcraft::Intersect returns the interval of blade ratios that lies inside the (convex) cell, or nothing when the blade misses it.", "quantifier": "every convex cell and every blade, including blades starting or ending inside the cell", "why_tests_cant": "Cases with one face crossed depend on which end is inside.", "anchors": ["include/mini/aircraft/source.hpp: Rotorcraft::Intersect"]}
{"id": "C62", "title": "A mesh with sections of edges or points can be shuffled", "statement": "Shuffle succeeds on every well-formed mesh after Map, also when some section has a dimension smaller than cell_dim - 1.", "quantifier": "every well-formed mesh and part assignment", "why_tests_cant": "Test meshes contain only cells and boundary faces.", "anchors": ["include/mini/mesh/shuffler.hpp: Shuffle, FillFaceParts"]}
{"id": "C63", "title": "Every boundary face gets the part of the cell it belongs to", "statement": "FillFaceParts gives, for every section of dimension cell_dim - 1, one part number per face, which is the part of the unique cell that contains all nodes of the face; other sections get no entry.", "quantifier": "every valid mesh and every part assignment of its cells", "why_tests_cant": "Needs the counting argument over all cells that share a node with the face.", "anchors": ["include/mini/mesh/shuffler.hpp: FillFaceParts"]}
{"id": "C64", "title": "Each process holds its own cells and the adjacent ones, once", "statement": "After all processes have read their files and exchanged ghost cells, each holds exactly the cells of its part and exactly the cells of other parts adjacent to one of them, each once, with the zone and the node ids that its owner reads from the CGNS file.", "quantifier": "every valid mesh, partition and symmetric dual graph", "why_tests_cant": "Involves all processes together; a test only sees one partition.", "anchors": ["include/mini/mesh/part.hpp: BuildLocalCells, ShareGhostCells, BuildGhostCells"]}
{"id": "C65", "title": "The partition files describe the shuffled mesh exactly", "statement": "For each part the node ranges, cell ranges and boundary-face ranges contain exactly the nodes, cells and faces of the part; the inner and inter-part adjacency lists contain exactly the dual-graph edges; the send and receive lists contain exactly the nodes needed by another part; and the MetisIndex fields of the written mesh hold the METIS numbers.", "quantifier": "every valid mesh whose nodes all belong to some cell, every partition and dual graph", "why_tests_cant": "Universally quantified over meshes; a test compares one mesh.", "anchors": ["include/mini/mesh/shuffler.hpp: WritePartitionInfo, PartitionAndShuffle", "include/mini/mesh/mapper.hpp: WriteParts"]}
{"id": "C66", "title": "L() and R() of a linear Riemann solver diagonalise its matrix", "statement": "For the linear system solvers, L() A() R() is the diagonal matrix of the eigenvalues, as the limiters that call them assume.", "quantifier": "every matrix with distinct real eigenvalues (Double), every real-diagonalisable matrix and every result Eigen may return for it (Multiple)", "why_tests_cant": "L() and R() are mutually inverse even if exchanged, and for symmetric 2x2 matrices with orthonormal eigenvectors even the product can be diagonal.", "anchors": ["include/mini/riemann/simple/double.hpp: L, R", "include/mini/riemann/simple/multiple.hpp: L, R"]}
{"id": "C67", "title": "The exact solver returns the solution of the Riemann problem", "statement": "When the pressure iteration ends at a root, the star region (p, u) is joined to the left state by a 1-wave and to the right state by a 3-wave (Rankine-Hugoniot conditions with compression for shocks; equal entropy and Riemann invariant for expansions) and the returned state is the one on the time axis; when the two expansions separate, it is the state on the time axis of the solution with vacuum.", "quantifier": "all pairs of states with positive density and pressure, all gamma > 1", "why_tests_cant": "Shock tubes test a handful of wave patterns; the branches at a fan or at vacuum are hardly ever taken.", "anchors": ["include/mini/riemann/euler/exact.hpp: GetPrimitiveUpwind, Shock, Expansion, PrimitiveNearShock, PrimitiveNearExpansion, PrimitiveNearVacuum"]}
{"id": "C68", "title": "Blades are equally spaced and point outwards", "statement": "After SetAzimuth(deg) on a rotor with n blades, blade i has azimuth deg + i*360/n, a frame that is the rotor's frame turned by it about z, ends P = origin + root*y and Q = P + span*y of its own y axis, and |PQ| = span.", "quantifier": "every rotor, number of blades, root, span and azimuth", "why_tests_cant": "Trigonometric and universal over the number of blades.", "anchors": ["include/mini/aircraft/rotor.hpp: Rotor::SetAzimuth", "include/mini/aircraft/blade.hpp: Blade::SetAzimuth, GetPoint"]}
{"id": "C69", "title": "Transforming a linear basis", "statement": "After Linear::Transform(a), operator() returns a times the values it returned before; after Transform with a lower-triangular view the stored matrix stays lower triangular and OrthoNormal::operator() (full product) agrees with Linear::operator() (lower view).", "quantifier": "every size, matrix and point", "why_tests_cant": "operator() multiplies by the lower-triangular view only, so the defect shows only for matrices with entries above the diagonal", "anchors": ["include/mini/basis/linear.hpp: Linear::Transform, Linear::operator(), OrthoNormal::operator()"]}
{"id": "C70", "title": "Tabulated second and third derivatives of hexahedral shape functions", "statement": "The tables LocalToShapeHessians and LocalToShape3rdOrderDerivatives of hexahedra with 8, 20, 26 and 27 nodes are the second and third partial derivatives of the shape functions.", "quantifier": "every node and local coordinate of the four hexahedra", "why_tests_cant": "Polynomial identities over all local coordinates, some 1300 table entries.", "anchors": ["include/mini/geometry/hexahedron.hpp: LocalToShapeHessians, LocalToShape3rdOrderDerivatives"]}
{"id": "C71", "title": "Derivatives of the Jacobian and of its determinant", "statement": "LocalToJacobianGradient, LocalToJacobianHessian, LocalToJacobianDeterminantGradient and LocalToJacobianDeterminantHessian are the first and second partial derivatives of the Jacobian matrix and of its determinant wherever the Jacobian is regular.", "quantifier": "every hexahedron, every position of its nodes and every local coordinate with non-zero determinant", "why_tests_cant": "Derivatives are limits; tests compare a few points with finite differences.", "anchors": ["include/mini/geometry/cell.hpp: LocalToJacobianGradient, LocalToJacobianHessian, LocalToJacobianDeterminantGradient, LocalToJacobianDeterminantHessian"]}
{"id": "C72", "title": "Frames on faces are orthonormal and normal to the face", "statement": "LocalToNormalVector is a unit vector orthogonal to the tangents of the face and on their right-hand side; LocalToNormalFrame is a right-handed orthonormal frame whose first vector is the normal and whose second points along the first tangent.", "quantifier": "every face element, every position of its nodes and every point with independent tangents", "why_tests_cant": "All shapes of curved faces.", "anchors": ["include/mini/geometry/face.hpp: LocalToNormalVector, LocalToNormalFrame"]}
{"id": "C73", "title": "GlobalToLocal inverts affine cells", "statement": "On a cell that is an affine image of its reference cell (in particular on every tetrahedron with four nodes) GlobalToLocal stops after at most two steps at a local coordinate that LocalToGlobal maps exactly to the given point, from any hint; on any cell an exact hint is returned.", "quantifier": "every regular affine cell, point and hint", "why_tests_cant": "Termination of Newton's method for all inputs.", "anchors": ["include/mini/geometry/cell.hpp: GlobalToLocal, root"]}
{"id": "C74", "title": "Tabulated quadrature rules are accurate to their degree", "statement": "The rules whose points and weights are tabulated as decimals (six Gauss-Legendre points, the Gauss-Jacobi points of pyramids, the rules on triangles, tetrahedra and wedges) integrate every polynomial up to their nominal degree with an error of at most a fixed tiny constant (1e-20 to 1e-15) times the sum of the absolute coefficients.", "quantifier": "every polynomial up to the degree; every tabulated size", "why_tests_cant": "All polynomials, and an error bound below what floating point can observe.", "anchors": ["include/mini/gauss/legendre.hpp", "include/mini/gauss/jacobi.hpp", "include/mini/gauss/triangle.hpp", "include/mini/gauss/tetrahedron.hpp", "include/mini/gauss/wedge.hpp", "include/mini/gauss/pyramid.hpp"]}
{"id": "C75", "title": "Volumes and moments of curved hexahedra are integrated exactly", "statement": "On a hexahedron with 8, 20, 26 or 27 nodes anywhere in space whose Jacobian determinant is not negative at the quadrature points, the sum of the global weights is the exact volume, and the integral of a polynomial in global coordinates is exact, as soon as each direction's rule has degree p m + 3m - 1 (p the degree of the polynomial, m the order of the cell).", "quantifier": "every node position, every polynomial, every mix of Gauss-Legendre and Lobatto rules", "why_tests_cant": "Holds for all real node positions; tests check a few cells to a tolerance.", "anchors": ["include/mini/gauss/element.hpp", "include/mini/gauss/hexahedron.hpp", "include/mini/gauss/function.hpp", "include/mini/coordinate/hexahedron.hpp"]}
{"id": "C76", "title": "GlobalFluxToLocalFlux measures the flux through the coordinate surfaces", "statement": "At every Gauss point of a nodal hexahedron whose Jacobian is regular, the three columns returned by GlobalFluxToLocalFlux are the global flux dotted with the area vectors (cross products of two rows of the Jacobian) of the three coordinate surfaces through that point.", "quantifier": "every hexahedral element type, every node positions with non-zero determinant, every flux", "why_tests_cant": "Tests compare a few matrices with the same formula.", "anchors": ["include/mini/polynomial/hexahedron.hpp: GlobalFluxToLocalFlux, GetJacobianAssociated"]}
{"id": "C77", "title": "Approximate interpolates at the Gauss points", "statement": "After Approximate(f) on a nodal hexahedron, both GetValue(ijk) and LocalToValue at the ijk-th Gauss point return f at its global coordinates, for the local (Jacobian-weighted) and for the global formulation.", "quantifier": "every function, every hexahedron with non-zero determinant at the point, every triple of rules with distinct points", "why_tests_cant": "Tests use one polynomial on one cell.", "anchors": ["include/mini/polynomial/hexahedron.hpp: Approximate, GetValue, LocalToValue"]}
{"id": "C78", "title": "Setting the same boundary condition twice has the effect of setting it once", "statement": "Calling SetSolidWall, SetSupersonicOutlet, SetSupersonicInlet, SetSubsonicInlet, SetSubsonicOutlet or SetSmartBoundary a second time with the same name leaves the residual as after the first call (with the last function given), so that the flux through each boundary face is counted once.", "quantifier": "every scheme, mesh, name and function", "why_tests_cant": "Whether a repeated call is harmless depends on the container that stores the names; tests set every boundary once.", "anchors": ["include/mini/spatial/fem.hpp: SetSolidWall, SetSupersonicOutlet, SetSupersonicInlet", "include/mini/spatial/dg/general.hpp: ApplySolidWall"]}
{"id": "C79", "title": "Readers, writers and updaters of a column agree on the address of every degree of freedom", "statement": "Component k of the coefficient of basis function j of cell i is kept at address K*N*i + K*j + k by GetSolutionColumn and SetSolutionColumn (which are inverse to each other and fail no assertion), and AddCoeffTo, MinusCoeff, AddValueTo, MinusValue and ScaleValueAt change exactly the entries of the given cell (and basis function).", "quantifier": "every number of components, basis functions and cells, every order of the cells, all values", "why_tests_cant": "Address arithmetic for all sizes; a test checks one size, and a transposed layout is invisible with one component.", "anchors": ["include/mini/spatial/fem.hpp: GetSolutionColumn, SetSolutionColumn, AddCellDataOffset", "include/mini/mesh/part.hpp: AddLocalCellId, GetCellDataOffset", "include/mini/polynomial/projection.hpp: AddCoeffTo, MinusCoeff, GetCoeffFrom, WriteCoeffTo", "include/mini/polynomial/hexahedron.hpp: AddValueTo, MinusValue, ScaleValueAt"]}
{"id": "C80", "title": "The nodal DG scheme computes the lumped weak form and is conservative", "statement": "On every part whose faces' Gauss points are Gauss points of the adjacent cells, GetResidualColumn of DG::Lobatto fails no assertion, returns at each node the weak form tested with the node's basis function divided by the node's weight, and the quadrature-weighted sum of the residual over all cells is minus the flux through the boundary and the interfaces with other parts.", "quantifier": "every part, number of components, Riemann solver, boundary condition and solution; both the local and the global formulation", "why_tests_cant": "Holds for every mesh and flux; tests run a few meshes and look at plots.", "anchors": ["include/mini/spatial/dg/lobatto.hpp", "include/mini/spatial/fem.hpp: GetResidualColumn", "include/mini/polynomial/hexahedron.hpp: GetBasisGradients, GetValue"]}
{"id": "C81", "title": "Flux reconstruction computes the corrected divergence and is conservative", "statement": "On every part of hexahedra with end-point rules, GetResidualColumn of FR::General fails no assertion and returns at each node minus the divergence of the interpolated local flux minus, for each of the six lines' ends, the jump between the common and the own normal flux times the derivative of the correction function; FR::Lobatto does so with corrections at the face points only; with Lobatto rules of 2 to 6 points the weighted sum of the residual is minus the flux through the boundary and the interfaces, for any correction parameter.", "quantifier": "every part of curved hexahedra, Riemann solver, boundary condition, solution and correction parameter", "why_tests_cant": "Conservation for every mesh and correction function; tests compare numbers on one mesh.", "anchors": ["include/mini/spatial/fr/general.hpp", "include/mini/spatial/fr/lobatto.hpp", "include/mini/basis/vincent.hpp", "include/mini/polynomial/hexahedron.hpp: FindFaceId, FindCollinearIndex"]}
{"id": "C82", "title": "FR::General with lumping corrections, FR::Lobatto and DG::Lobatto give the same residual", "statement": "With Gauss-Lobatto rules of 2 to 6 points per line, the residual columns of FR::General with HuynhLumpingLobatto correction functions, of FR::Lobatto and of DG::Lobatto in local form are equal at every node, and the assertions of FR::Lobatto::CheckCacheConsistency hold.", "quantifier": "every part of curved hexahedra covered by its faces, every Riemann solver, boundary condition and solution", "why_tests_cant": "An algebraic identity over all meshes and solutions; the project's tests compare two of the schemes on single meshes up to a tolerance.", "anchors": ["include/mini/spatial/fr/general.hpp", "include/mini/spatial/fr/lobatto.hpp: CheckCacheConsistency", "include/mini/spatial/dg/lobatto.hpp", "include/mini/basis/vincent.hpp: HuynhLumpingLobatto"]}
{"id": "C83", "title": "A uniform flow is a steady state of flux reconstruction on curved cells", "statement": "If the state and all the boundary data are uniform, the residual of FR::General is zero at every node of every hexahedral mesh.", "quantifier": "every hexahedron type, node positions, rule, flux", "why_tests_cant": "The failure depends on the combination of cell curvature and number of points; tests use cubes, on which it never shows.", "anchors": ["include/mini/spatial/fr/general.hpp", "include/mini/polynomial/hexahedron.hpp: GlobalFluxToLocalFlux, GetJacobianAssociated"]}
{"id": "C84", "title": "FindFaceId and FindCollinearIndex identify sides and points of a hexahedron", "statement": "For a hexahedron whose side centers and face Gauss points are farther apart than the tolerances, FindFaceId applied to the center of side i returns i, and FindCollinearIndex applied to the image of the face Gauss point (a, b) of side i returns (a, b).", "quantifier": "every cell map, every number of points, every side and pair of indices", "why_tests_cant": "Depends on the order of six nested searches with tolerances, for every geometry.", "anchors": ["include/mini/polynomial/hexahedron.hpp: FindFaceId, FindCollinearIndex"]}
{"id": "C85", "title": "Each process builds the faces of its cells", "statement": "When a mesh has been partitioned and its parts read, every process builds exactly one local face for each pair of adjacent cells of its part (held by the one with the smaller number), one ghost face for each of its cells and each adjacent cell of another part, and one boundary face for each face of a boundary section that is a side of one of its cells. The nodes of a face are those common to its two cells (or those listed in the section), in outward order seen from the holder, with their coordinates; ids are 0, 1, 2, ...", "quantifier": "all conforming meshes, dual graphs and partitions; all iteration orders of the hash maps", "why_tests_cant": "The number of meshes, partitions and iteration orders of std::unordered_map is unbounded; tests use two fixed meshes.", "anchors": ["include/mini/mesh/part.hpp:992-1079", "include/mini/mesh/part.hpp:1440-1533", "include/mini/mesh/part.hpp:709-760"]}
{"id": "C86", "title": "The two sides of a partition boundary see the same face; boundary faces have one owner", "statement": "For each ghost face of process p towards a cell of process q there is exactly one ghost face of q with holder and sharer exchanged, with the same set of nodes and coordinates; each face of a boundary section is built by exactly one process, the owner of its cell.", "quantifier": "all conforming meshes, dual graphs and partitions; all iteration orders, which may differ between processes", "why_tests_cant": "Mismatched ghost faces make the scheme non-conservative only for particular partitions; tests run few partitions.", "anchors": ["include/mini/mesh/part.hpp:1035-1079", "include/mini/mesh/part.hpp:1440-1533", "include/mini/mesh/mapper.hpp"]}
{"id": "C87", "title": "Boundary faces are found by the name of their section", "statement": "GetBoundaryFaces(name) of a process returns the faces that it built for the boundary section with that name. (False when boundary sections of two zones have the same name: only the last one is kept.)", "quantifier": "all conforming meshes and partitions, all boundary sections", "why_tests_cant": "Needs all combinations of zones and names; tests use meshes in which names are distinct.", "anchors": ["include/mini/mesh/part.hpp:1381-1387", "include/mini/mesh/part.hpp:1462-1479", "include/mini/mesh/part.hpp:1527-1532"]}
{"id": "C88", "title": "The neighbours recorded in a cell are those of the dual graph", "statement": "After the faces have been built, the list of adjacent cells of each local cell contains each of its neighbours in the dual graph exactly once, and nothing else.", "quantifier": "all conforming meshes, dual graphs, partitions and cells", "why_tests_cant": "Limiters iterate over this list; a missing or repeated neighbour shows only in particular partitions.", "anchors": ["include/mini/mesh/part.hpp:1022-1032", "include/mini/mesh/part.hpp:1067-1076"]}
{"id": "C89", "title": "The file for visualisation written by a process contains its cells and their solution", "statement": "WriteSolutions of a process with at least one cell, whose cells are tetrahedra, wedges or hexahedra and whose numbers have 8 bytes, writes a .vtu file which a reader of VTK's format (base64 blocks with a header of 8 bytes, connectivity, offsets, types, fields by point) reads as the same cells in the same order, each with VTK's type for it and with the global coordinates and the values of all fields at the nodes of that type. (Refuted without these restrictions: no file is written for a part without cells or with a pyramid, and single precision numbers are declared as Float64.)", "quantifier": "all lists of cells, all solutions, all numbers of fields, all processes", "why_tests_cant": "The files are only looked at by eye; offsets, padding of base64 and sizes depend on the number of cells modulo 3.", "anchors": ["include/mini/mesh/vtk.hpp:59-483", "include/mini/mesh/part.hpp:1549-1563"]}
{"id": "C90", "title": "The points written for a cell are VTK's nodes of it", "statement": "The points at which a linear tetrahedron, wedge or hexahedron is sampled are its corners in CGNS's order followed by the middles of its edges (for hexahedra also of its faces and of the cell) in the order of VTK's quadratic cells; for a quadratic cell they are its own nodes, renumbered from CGNS's to VTK's order.", "quantifier": "all coordinates of the nodes, all nine types of cells", "why_tests_cant": "A wrong row in the tables shows only as a slightly distorted picture for cells that are not symmetric.", "anchors": ["include/mini/mesh/vtk.hpp:79-237", "include/mini/coordinate/*.hpp"]}
{"id": "C91", "title": "The index file names exactly the files written by the processes", "statement": "Process 0 writes an index file whose pieces, resolved relative to its directory, are exactly the paths of the files written by the processes 0, ..., size-1, these paths are different, and the fields listed are those in the files, provided that each path has less than 1024 characters. (Refuted without: names are cut and two processes write the same file.)", "quantifier": "all directories, names, numbers of processes and fields", "why_tests_cant": "Needs all lengths of names and all numbers of processes.", "anchors": ["include/mini/mesh/vtk.hpp:330-483"]}
{"id": "C92", "title": "The residual of flux reconstruction with diffusion uses one total flux through each face", "statement": "For a Riemann solver that is convective and diffusive, FR::General and FR::Lobatto return (no assertion fails) the residual of flux reconstruction with total fluxes: in cells the convective flux minus the viscous flux of the gradient, through faces inside and towards other processes the upwind flux minus the viscous flux of the DirectDG common gradient (the mean of the two gradients, plus beta_0 times the jump over the distance, plus beta_1 times the distance times the jump of the second derivatives), and on all boundaries the flux of the condition minus the viscous flux of the state inside. Hence the integral of the residual over the cells is minus the total fluxes out through the boundary and the interfaces.", "quantifier": "all parts, cells, solutions, convective solvers, coefficients of diffusion, beta_0, beta_1, parameters of the correction functions", "why_tests_cant": "The signs of the viscous parts and which of them cancel can only be seen with all pairs of states; a missing part gives a plausible picture.", "anchors": ["include/mini/spatial/fr/general.hpp:265-525", "include/mini/spatial/fr/lobatto.hpp:215-391", "include/mini/spatial/fem.hpp:263-278", "include/mini/riemann/diffusive/direct_dg.hpp:1-80"]}
{"id": "C93", "title": "Linear solutions of diffusion are steady", "statement": "If the convective flux is uniform, a continuous solution with the same gradient in all cells has residual zero with FR::General on cells on which a uniform flux has no divergence. (Refuted for DG::Lobatto: its volume term has viscous fluxes but its faces have not, so that the scalar x in two cubes changes.)", "quantifier": "all meshes, all linear solutions, all coefficients", "why_tests_cant": "Tests compile the DG schemes with convective solvers only.", "anchors": ["include/mini/spatial/fr/general.hpp:265-348", "include/mini/spatial/dg/lobatto.hpp:127-298", "include/mini/spatial/fem.hpp:268-275"]}
{"id": "C94", "title": "The source term of rotors is the forces of their blades", "statement": "What Rotorcraft::UpdateCoeff adds to the coefficients of a cell is the sum over the forces which GetForces lists for the same cell and time, each times its weight and times the values of the basis functions in its point: nothing in the row of the mass, the components of the force in the rows of the momentum, the scalar product of force and velocity in the row of the energy. No other coefficient is written, both leave the rotors in the same state, both fail in the same cases, and with valid blades they do not fail. GetForces appends to the vectors it is given.", "quantifier": "all cells, solutions, basis sizes, rotors, blades, sections, airfoils, times", "why_tests_cant": "The forces are printed by one function and applied by another; tests would compare them for a few blades only.", "anchors": ["include/mini/aircraft/source.hpp:89-171", "include/mini/gauss/line.hpp:15-105", "include/mini/gauss/function.hpp:50-63"]}
{"id": "C95", "title": "Rotors change the total momentum and energy by their forces and powers", "statement": "With a Rotorcraft as source the residual of the DG scheme is the residual without source plus the source of each local cell at the current time; with DummySource it is the residual without source. The integral of the residual over a part is what enters through the boundary and the interfaces, plus nothing for the mass, the sum of all forces for the momentum and the sum of their powers for the energy.", "quantifier": "all parts, boundary conditions, orthonormal bases, rotors, times", "why_tests_cant": "Holds for all meshes and all positions of blades; tests look at pictures of the flow.", "anchors": ["include/mini/spatial/dg/general.hpp:215-269", "include/mini/aircraft/source.hpp:99-138", "include/mini/spatial/fem.hpp:27-36"]}
{"id": "C96", "title": "The forces in a cell act on the part of the blade in the cell", "statement": "The points in which GetForces lists forces of a blade in a cell are on the blade strictly between the two ends found by Intersect, polynomials of degree 7 along the blade are integrated exactly, and the weights add up to the length of the part of the blade in the cell. (The last is refuted: a blade inside of a cell has no forces, and a blade which starts in a cell and leaves it in its second half has only forces outside of the cell; proved for tetrahedra in general position in the other cases.)", "quantifier": "all cells, blades, sections", "why_tests_cant": "Needs all positions of a blade relative to a cell.", "anchors": ["include/mini/aircraft/source.hpp:45-88", "include/mini/aircraft/source.hpp:99-163", "include/mini/gauss/legendre.hpp:90-120"]}
{"id": "C97", "title": "Damping matrices represent the diffusive residual", "statement": "EnergyBasedViscosity::BuildDampingMatrices() completes without a failed assertion for DG::General, DG::Lobatto and FR schemes, and returns one matrix per local cell. For every cell and every component, the matrix times the row of coefficients of any solution is what AddFluxDivergence of the scheme adds for the flux of diffusion with coefficient 1. The matrices depend on the geometry alone: neither on the current solution, nor on the coefficient of diffusion, the neighbours or the order of cells.", "quantifier": "all numbers of components and basis functions, all meshes, solutions, coefficients and initial contents of the matrices, and the cells of all schemes", "why_tests_cant": "The only test calls the function once and looks at none of the entries; linearity in all coefficients cannot be sampled.", "anchors": ["include/mini/spatial/viscosity.hpp:49-113", "include/mini/spatial/dg/general.hpp:50-61", "include/mini/spatial/dg/lobatto.hpp:142-151", "include/mini/spatial/fr/general.hpp:232-248"]}
{"id": "C98", "title": "Damping matrices dissipate energy and conserve means", "statement": "A damping matrix annihilates solutions without gradient. In DG schemes the damping matrix is symmetric and its quadratic form is minus the quadrature of the squared gradient of the solution, hence never positive, and zero only for solutions without gradient; modal schemes keep the mean and nodal schemes keep the sum over the points. Nodal schemes in reference coordinates need a constant Jacobian determinant for symmetry.", "quantifier": "all cells, bases with at least two points per line, weights, and solutions", "why_tests_cant": "Definiteness is a statement about all solutions of a cell.", "anchors": ["include/mini/spatial/viscosity.hpp:84-113", "include/mini/polynomial/projection.hpp:153-157", "include/mini/polynomial/hexahedron.hpp:349-369"]}
{"id": "C99", "title": "Building damping matrices leaves the solution and the physics alone", "statement": "BuildDampingMatrices() is a constant member function and has no effect besides its result: the solution in all cells and the coefficient of diffusion of the Riemann solver are the same after the call as before it.", "quantifier": "all meshes, solutions and coefficients of diffusion", "why_tests_cant": "The test ends right after the call.", "anchors": ["include/mini/spatial/viscosity.hpp:84-113", "include/mini/riemann/diffusive/linear.hpp:83-85"]}
{"id": "C100", "title": "A solution can be restarted from its file", "statement": "After GatherSolutions and WriteSolutions in some processes, ReadSolutions and ScatterSolutions in other processes, whose partition of the cells into processes may be different, succeed and give every cell the coefficients it had; with the same partition all coefficients are restored. Field number n K + k + 1 of the file has component k of the coefficient of basis function n at the number of the cell.", "quantifier": "all numbers of components, basis functions, zones, sections, cells and processes, all coefficients", "why_tests_cant": "Tests write files and never read them back; the number of processes is that of the machine.", "anchors": ["include/mini/mesh/part.hpp:290-387", "include/mini/mesh/part.hpp:1101-1259", "include/mini/mesh/cgns.hpp:156-185"]}
{"id": "C101", "title": "The solution file is complete whatever a repeated declaration does", "statement": "WriteSolutions declares each field once per section; the file has the values of all cells both if the CGNS library keeps the data of a field that is declared again and if it replaces the field. (Refuted: in the second case only the last section of each zone is in the file; proved for zones with one section.)", "quantifier": "all zones and sections", "why_tests_cant": "The test meshes have one section of cells per zone.", "anchors": ["include/mini/mesh/part.hpp:1196-1216"]}
{"id": "C102", "title": "A simulation with a limiter on several processes conserves what does not leave the domain", "statement": "Take a DG::WithLimiterAndSource scheme without a source on a mesh distributed over any number of processes, with Part::Reconstruct and either WENO limiter, advanced by RungeKutta<1>, <2> or <3>. The integral of a component over the whole mesh changes in a step exactly by the time step times the boundary flux, averaged with the weights of the scheme over the limited stage states, provided the two copies of an interface give opposite fluxes for exchanged values. If nothing of the component leaves through the boundary, the integral is unchanged after any number of steps. Convex sets of states kept by the limiter and by forward Euler steps are kept by all three schemes.", "quantifier": "All meshes, partitions, numbers of processes, flux functions, boundary conditions, smoothness markings, initial coefficients, numbers and lengths of steps, and degrees up to three.", "why_tests_cant": "Runs of finite length on fixed partitions cannot show that the limiter, the ghost exchange and the stages never leak in any combination.", "anchors": ["include/mini/spatial/dg/general.hpp:215-269", "include/mini/spatial/fem.hpp:150-183", "include/mini/temporal/rk.hpp:16-76", "include/mini/mesh/part.hpp:1304-1345"]}
{"id": "C103", "title": "MeasureL1Error is the quadrature of the absolute difference", "statement": "Part::MeasureL1Error returns, component by component, the sum over local cells and quadrature points of the weight times the absolute difference between the solution and the given function. Sums over processes are the quadrature over the whole mesh. With positive weights it is zero exactly if the solution agrees with the function in all quadrature points, it bounds the difference of the integrals, and it satisfies the triangle inequality.", "quantifier": "All parts, solutions, functions and times.", "why_tests_cant": "Tests check the error of one solution on one mesh, not that it is a distance for every solution.", "anchors": ["include/mini/mesh/part.hpp:1081-1096"]}
{"id": "C104", "title": "Both sides of a face compute opposite fluxes", "statement": "GetFluxUpwind(right, left) of a solver rotated to the opposite normal is minus GetFluxUpwind(left, right), so that what one process adds to its cell another one subtracts; and the flux does not depend on the tangents of the frame, nor on the eigenvector matrices that Eigen returns. (Proved for Single, Double, Multiple, Burgers and Euler with AUSM. Refuted for Euler with HLLC: for streams that meet faster than the sum of their sound speeds each side may take its own flux; proved for HLLC otherwise. Refuted for the exact solver, whose iteration starts at the pressure of the first argument; proved for it if both iterations end with the same pressure.)", "quantifier": "All states, unit normals and frames in two and three dimensions, all coefficient matrices with real different eigenvalues or a decomposition.", "why_tests_cant": "Tests compare a few fluxes with numbers; both orders of the arguments are never compared.", "anchors": ["include/mini/riemann/euler/exact.hpp:84-174", "include/mini/riemann/euler/hllc.hpp:33-97", "include/mini/riemann/euler/ausm.hpp:33-81", "include/mini/riemann/rotated/euler.hpp:57-121", "include/mini/riemann/rotated/simple.hpp:44-60", "include/mini/riemann/simple/burgers.hpp:32-48"]}
{"id": "C105", "title": "Fluxes on boundaries of the simple equations are those of the states", "statement": "After Rotate, GetFluxOnSupersonicInlet and GetFluxOnSupersonicOutlet of rotated::Simple (Single, Double, Multiple, Burgers) return GetFluxMatrix(state) times the normal, which is also GetFluxUpwind(state, state), and GetFluxOnSolidWall returns zero; GetFluxOnSubsonicInlet, GetFluxOnSubsonicOutlet and GetFluxOnSmartBoundary return the same flux for equal states. (The last three are refuted: they return an Eigen matrix that is not initialised.)", "quantifier": "All coefficients, unit normals and states.", "why_tests_cant": "No test calls these functions.", "anchors": ["include/mini/riemann/rotated/simple.hpp:44-94", "include/mini/riemann/rotated/burgers.hpp:25-32"]}
{"id": "C106", "title": "A mesh file survives reading and writing", "statement": "Reading a CGNS file with ReadBases and writing it with Write(name) gives a file with the same bases, zones, coordinates, sections (type, name, connectivity), boundary conditions, solutions and fields, with sections renumbered from 1 in order of dimension, and reading that file again gives the same File object; Write(name, min_dim, 3) writes exactly the sections of at least that dimension. Boundary conditions still cover the faces of the section of their name. (The last is refuted unless UpdateSectionRanges is called: the ranges of boundary conditions are written with the old numbers. Also refuted: a max_dim below 3 fails an assertion for a mesh with cells of dimension 3; File<float> cannot write fields; names of boundary conditions of 32 characters overflow the buffer.)", "quantifier": "Files with any numbers of bases, zones, sections, conditions, solutions and fields whose sections have unique ranges and the element types of the library.", "why_tests_cant": "Tests read and write a few files and compare the coordinates and the numbers of sections.", "anchors": ["include/mini/mesh/cgns.hpp:191-313", "include/mini/mesh/cgns.hpp:316-480", "include/mini/mesh/cgns.hpp:483-700", "include/mini/mesh/cgns.hpp:703-912", "include/mini/mesh/cgns.hpp:1049-1147", "include/mini/mesh/cgns.hpp:1157-1257"]}
{"id": "C107", "title": "Translate, Dilate and RotateZ move all nodes of a mesh rigidly", "statement": "File::Translate moves each node of all zones by the given vector; File::Dilate multiplies distances from the given centre by the factor (and volumes by its cube); File::RotateZ turns by the given angle in degrees about the line parallel to the z axis; translations and rotations keep distances and volumes, rotations about one line add their angles and opposite ones cancel, nothing else of the mesh changes, and the moved mesh is what is read back after Write.", "quantifier": "All meshes and all real arguments.", "why_tests_cant": "Tests move one mesh by one vector and angle and print it.", "anchors": ["include/mini/mesh/cgns.hpp:264-286", "include/mini/mesh/cgns.hpp:1131-1147", "include/mini/mesh/cgns.hpp:1241-1257", "include/mini/geometry/pi.hpp:22-25"]}
{"id": "C108", "title": "EnergyBasedViscosity shows what the wrapped scheme shows", "statement": "A program that uses an EnergyBasedViscosity object wrapped around a scheme, instead of that scheme, gets the same GetResidualColumn, GetSolutionColumn and boundary fluxes, whichever of the two objects receives each SetTime, SetSolutionColumn and Set... call. (Refuted for the boundary conditions: those set on the wrapper are kept by the wrapper and ignored; proved when they are set on the wrapped scheme.)", "quantifier": "All sequences of calls on both objects, all parts, solutions and conditions.", "why_tests_cant": "Tests build damping matrices only; no test sets a boundary condition on the wrapper.", "anchors": ["include/mini/spatial/viscosity.hpp:59-157", "include/mini/spatial/fem.hpp:55-61", "include/mini/spatial/fem.hpp:125-226"]}
{"id": "C109", "title": "Gas and scalar simulations conserve mass and energy across processes", "statement": "A DG scheme with the solvers of the code on any number of processes, with any limiter that keeps cell means and RungeKutta<1>, <2> or <3>: if the two copies of every interface have the same quadrature points and opposite normals, the total of every component changes in a step only by what leaves through the boundary. This holds for Single, Burgers and Multiple in all states, for Euler with AUSM while density and pressure are positive at the interfaces, and for Euler with HLLC if also the streams do not collide faster than the sum of their sound speeds. With solid walls everywhere, mass and energy of the gas are constant for any number of steps; walls exchange only momentum, the pressure times the normal.", "quantifier": "All meshes and partitions, degrees, states, limiters, time steps and numbers of steps; all orthonormal frames with opposite normals, whatever the tangents are.", "why_tests_cant": "Tests run single meshes on a fixed number of ranks and do not compare totals; they cannot cover all partitions or states.", "anchors": ["include/mini/riemann/rotated/euler.hpp:98-135", "include/mini/riemann/rotated/simple.hpp:44-86", "include/mini/spatial/fem.hpp:173-226", "include/mini/spatial/dg/general.hpp:60-180", "include/mini/temporal/rk.hpp:15-80", "include/mini/riemann/euler/ausm.hpp:33-81"]}
{"id": "C110", "title": "The viscous flux of a gas is the Navier-Stokes one, in every frame", "statement": "For conservative fields that have gradients at a place, with positive density and non-negative pressure, the viscous flux subtracted through a face is: nothing for the mass, the stress of a Newtonian fluid with Stokes' hypothesis on that face for the momentum, and the work of that stress plus the Fourier heat flux for the energy, where velocity, pressure and temperature have their exact gradients. The flux changes sign with the normal, turns with the axes and transforms correctly for a moving observer; the stress has no trace, never gives mechanical energy back and vanishes only for rigid motions and uniform expansions. The flux subtracted from a flux matrix, times the normal, is the flux subtracted through the face.", "quantifier": "all gases, coefficients, smooth fields, places, normals, orthogonal matrices and observer velocities", "why_tests_cant": "Tests compare a few states; no test includes this header at all. The dissipation inequality and the frame properties quantify over every gradient.", "anchors": ["include/mini/riemann/diffusive/navier_stokes.hpp: NavierStokes::MinusViscousFlux, GetViscousStressTensor, ConservativeToPrimitive, SetProperty"]}
{"id": "C111", "title": "An interrupted and restarted simulation leaves the same frames as an uninterrupted one", "statement": "The main programs write the solution to `Frame0`, `Frame1`, \u2026 after every `n_steps_per_frame` steps. A first run that ends or is killed after any number of steps leaves exactly the frames up to that step, each readable as the solution after that number of steps, and changes no other file but `shuffled`. Starting the program again with the time and index of an existing frame and the same number of processes continues exactly from it. So any sequence of interruptions and restarts, each from any frame that exists, leaves the frames of the run without interruption; the restarted run uses the same time step and the last step ends at `t_stop`.", "quantifier": "for all solutions, meshes, numbers of processes, numbers of steps, interruptions and lists of restarts", "why_tests_cant": "A test runs one restart; the property is about every step at which the program may stop and every sequence of restarts.", "anchors": ["demo/euler/sourceless.cpp:16-165", "demo/euler/rotorcraft.cpp:34-188", "include/mini/mesh/part.hpp:1101-1259"]}
{"id": "C112", "title": "A restart continues from the frame that the user names", "statement": "A simulation restarted with the index of a frame that is on the disk, with or without the number of processes of the earlier run, and on any number of processes, continues from the solution of that frame.", "quantifier": "for all frames, numbers of processes and sequences of restarts", "why_tests_cant": "The defects need particular combinations of arguments and of interruptions, which no test starts.", "anchors": ["demo/euler/sourceless.cpp:41-65", "demo/euler/sourceless.cpp:107-112", "include/mini/mesh/shuffler.hpp:508-545"]}
{"id": "C113", "title": "The forces written for a frame are those at the time of the frame", "statement": "With `--write_forces`, the rotorcraft program reads every frame from the first to the last and writes a file of forces with the name of the frame, computed from the solution of that frame with the rotors in their positions at the time of that frame.", "quantifier": "for all numbers of frames and of steps per frame, solutions and rotors", "why_tests_cant": "The files look plausible; only a comparison of the rotor's position with the frame's time, for every frame, shows the shift.", "anchors": ["demo/euler/rotorcraft.cpp:14-32", "demo/euler/rotorcraft.cpp:119-157"]}
{"id": "C114", "title": "The search for collinear nodes finds exactly the nodes on the line through a flux point", "statement": "For a hexahedral nodal cell, `FindCollinearPoints(global, i_face)` called with the global coordinates of a point of the grid on the face gives exactly the numbers of the nodes whose local coordinates agree with the point along the face, in increasing order across it. `FindCollinearIndexByLocal` and `FindCollinearIndexByGlobal` give the two numbers of the point along the face and -1 across it, the latter on every cell whose flux points are apart.", "quantifier": "for all parallelepipeds of all element types, all rules whose points are apart, all faces and points; for by-global all cells", "why_tests_cant": "Tests use one rule on one cube; wrong axes show only for rules that differ by direction and on sheared cells.", "anchors": ["include/mini/polynomial/hexahedron.hpp:595-935"]}
{"id": "C115", "title": "A point that is no flux point is rejected by the search for collinear nodes", "statement": "`FindCollinearPoints` and `FindCollinearIndexByLocal` reject (by assertion) every point that is not a point of the grid on the given face.", "quantifier": "for all points and faces", "why_tests_cant": "The failing points are between the nodes, where no test looks.", "anchors": ["include/mini/polynomial/hexahedron.hpp:595-862"]}
{"id": "C116", "title": "The states of the double Mach reflection are those of a shock that moves as the boundary condition says", "statement": "The states `value_after` and `value_before` of the double Mach reflection satisfy the Rankine\u2013Hugoniot conditions and Lax's condition of the Euler equations for the speed `u_nu` along the unit normal (cos 30\u00b0, \u2212sin 30\u00b0, 0). `moving_shock(xyz, t)` is the state after the shock exactly where its plane front, at (x_gap, 0, 0) when t = 0, has passed; at t = 0 it is the initial condition. The constants in the program are consistent and give 8, 116.5 and 8.25 as its comments say.", "quantifier": "for all ratios of heats, Mach numbers above 1, states before the shock, points and times", "why_tests_cant": "A wrong state shows in a run only as additional weak waves, for which no test looks.", "anchors": ["demo/euler/double_mach.cpp:5-31"]}
{"id": "C117", "title": "The exact solutions against which the linear demonstrations measure errors solve the equations that are solved", "statement": "`exact_solution` of the scalar demonstration solves the convection\u2013diffusion equation with the coefficients set by the program wherever it is smooth, and `exact_solution` of the system demonstration is the weak solution of the linear system with the matrix set by the program, for whatever eigenvalues and eigenvectors Eigen returns; both start as the initial condition.", "quantifier": "for all points, times and decompositions", "why_tests_cant": "The printed error is compared with nothing; it cannot tell a wrong exact solution from a wrong scheme.", "anchors": ["demo/linear/single.cpp:77-84", "demo/linear/single.cpp:125-142", "demo/linear/multiple.cpp:66-75", "demo/linear/multiple.cpp:103-122"]}
{"id": "C118", "title": "The scalar Riemann solvers of the Python package give the entropy solution and Godunov's flux", "statement": "For `riemann.LinearAdvection(a)`, `riemann.LinearAdvectionDiffusion(a, b)` and `riemann.InviscidBurgers(k)`: after `set_initial(u_left, u_right)`, whatever was solved before, `get_value(x, t)` for t > 0 is the entropy solution of the Riemann problem (Osher's formula: along x/t = s it minimises or maximises f(u) - s u between the two states) and for t = 0 the given data; `get_upwind_flux` is Godunov's flux (minimum or maximum of f between the states), consistent and monotone; `get_convective_speed` is the derivative of `get_convective_flux`.", "quantifier": "for all coefficients (k > 0), states, points and times, and all earlier uses of the solver object", "why_tests_cant": "Tests try one state per wave pattern; the property is an extremal condition over all intermediate states and all rays.", "anchors": ["python/riemann.py:11-157", "python/equation.py:7-72"]}
{"id": "C119", "title": "Coupled equations of the Python package are solved by their characteristics", "statement": "`equation.Coupled(v_0, v_1, R)` rejects a singular R; otherwise `to_characteristics` and `from_characteristics` are inverse to each other, `get_convective_jacobian` is the derivative of `get_convective_flux` with the columns of R as eigenvectors for `get_convective_eigvals`, `get_diffusive_flux` without extra viscosity is `get_diffusive_coeff` times the gradient, and with extra viscosity it acts on each characteristic. For `riemann.Coupled`, `get_value(x, t)`, t > 0, is the entropy solution in each characteristic variable and `get_upwind_flux` is Godunov's flux in each.", "quantifier": "for all invertible matrices, pairs of scalar equations and states", "why_tests_cant": "Tests use a few matrices and compare with the same formulas; a derivative and an eigen-decomposition are statements about all states.", "anchors": ["python/equation.py:97-164", "python/riemann.py:169-197", "python/concept.py:410-441"]}
{"id": "C120", "title": "The viscous Burgers equation of the Python package can be used", "statement": "`equation.Burgers(k, nu)` (and with it `riemann.Burgers(k, nu)`) builds the equation for every k > 0 and nu >= 0; the other scalar equations can be built from all arguments that their assertions admit.", "quantifier": "for all k > 0 and nu >= 0", "why_tests_cant": "No test builds it.", "anchors": ["python/equation.py:75-94", "python/equation.py:51-58", "python/riemann.py:160-166"]}
{"id": "C121", "title": "A Riemann solver of the Python package gives its data back at time zero", "statement": "After `set_initial(u_left, u_right)`, `get_value(x, 0)` is `u_left` for x <= 0 and `u_right` for x > 0, for the scalar and the coupled solvers; at positive times the data are found outside of the waves.", "quantifier": "for all solvers, states and points", "why_tests_cant": "Tests of the coupled solver never ask at t = 0.", "anchors": ["python/riemann.py:21-39", "python/riemann.py:182-187"]}
{"id": "C122", "title": "Interface fluxes of the Python package are those of the direct discontinuous Galerkin method", "statement": "`get_interface_flux_and_bjump(left, right)` gives the upwind flux minus nu times the gradient 3[u]/d + {u'} + d[u'']/12, where d is the distance of the centres and nu the coefficient of the equation plus the smaller extra viscosity, and, with one value per component, half of nu times the jump. Where both sides agree it is the flux of the equation and a zero jump.", "quantifier": "for all equations, pairs of elements, degrees, lengths and extra viscosities", "why_tests_cant": "Tests only check orders of accuracy of whole schemes with one degree and viscosity; coupled equations with viscosity are never tried.", "anchors": ["python/riemann.py:54-98", "python/concept.py:403-404"]}
{"id": "C123", "title": "The Euler equations of the Python package have the right conversions, fluxes and characteristics", "statement": "For `equation.Euler(gamma)`: `primitive_to_conservative` and `conservative_to_primitive` are inverse to each other; `get_convective_flux` is the Euler flux, `get_convective_jacobian` its derivative in every direction, `get_convective_eigvals` are u-a, u, u+a, `get_convective_eigmats` gives inverse matrices L and R with J R = R diag(eigvals), and `get_convective_radius` is |u|+a. The viscous flux is (0, tau, tau u - q) with tau = 4/3 rho nu u' and q Fourier's law with the given Prandtl number; a vector of viscosities damps each characteristic variable by its own entry; a matrix of viscosities is applied as it is.", "quantifier": "for all gamma > 1, physical states, gradients and viscosities", "why_tests_cant": "Tests compare at a few states with finite differences and tolerances; a derivative in all directions and an exact eigen-decomposition are statements about all states.", "anchors": ["python/equation.py:167-301", "python/gas.py:1-50", "python/concept.py:426-428"]}
{"id": "C124", "title": "Roe's solver of the Python package linearises exactly", "statement": "`riemann.Roe.get_upwind_flux(l, r)` succeeds for all physical states. It is the mean of both fluxes minus half of |A|(r - l), where A is `get_convective_jacobian` at the average state which `get_upwind_value` returns; that state is physical and A(r - l) = F(r) - F(l). Hence the flux is consistent, it is one-sided where the average is supersonic, it is exact for stationary discontinuities (F(l) = F(r)), and it is mirror symmetric.", "quantifier": "for all gamma > 1 and all pairs of physical states", "why_tests_cant": "Tests try a few shock tubes with tolerances; Roe's condition and symmetry are exact identities over all pairs of states.", "anchors": ["python/riemann.py:389-443"]}
{"id": "C125", "title": "The Lax-Friedrichs solver of the Python package preserves positivity", "statement": "`riemann.LaxFriedrichs.get_upwind_flux(l, r)` is the mean of both fluxes minus half the larger spectral radius times the jump; it is consistent and mirror symmetric. A first-order update u - k (F(u, r) - F(l, u)) of physical states stays physical (positive density and pressure) if k times each of the three spectral radii is at most one.", "quantifier": "for all gamma > 1, all triples of physical states and all k >= 0 within the bound", "why_tests_cant": "Positivity is a statement over all triples of states, including arbitrarily near vacuum; tests only run smooth or moderate problems.", "anchors": ["python/riemann.py:446-462"]}
{"id": "C126", "title": "The exact Euler solver of the Python package gives the entropy solution when its root finder converges", "statement": "For `riemann.Euler(gamma)`: the function given to `fsolve` increases and lies below its tangents, `_f_prime` is its derivative for every positive pressure, it has exactly one root unless vacuum appears, and `_guess` ends at a positive pressure that is not above the root. If the pressure found is the root, and is equal to the pressure of each side or differs from it by more than the tolerance in the code, then both sides are joined by a shock, an expansion or nothing to the region between, `get_value(x, t)` is the state seen through these waves along x/t, and `get_value(x, 0)` is the data.", "quantifier": "for all gamma > 1, all pairs of physical states without vacuum, all x and t >= 0, any root finder that returns the root", "why_tests_cant": "Tests compare a few shock tubes of a textbook with rounded numbers; convergence of the search and correctness on every ray of every problem are statements over a continuum.", "anchors": ["python/riemann.py:200-385", "python/riemann.py:12-58"]}
{"id": "C127", "title": "The exact Euler solver of the Python package handles vacuum", "statement": "`riemann.Euler.get_upwind_flux` gives the flux zero of vacuum when vacuum appears over the time axis, and `get_value` is the data or the expansion into vacuum outside of it.", "quantifier": "for all gamma > 1 and all pairs of physical states between which vacuum appears", "why_tests_cant": "The test of vacuum only looks at the values as drawn; that the flux fails for every such pair is a statement over all data.", "anchors": ["python/riemann.py:209-250", "python/riemann.py:298-306", "python/riemann.py:355-385"]}
{"id": "C128", "title": "Correction functions meet their defining conditions", "statement": "Radau(k), Vincent(k, mu) and Huynh(k, m) of polynomial.py return a pair of mirrored polynomials of degree at most k, one of which is 1 at the left end of [-1, 1] and 0 at the right end and the other the converse (Radau returns them in the opposite order of the other two); local_to_gradient returns the derivatives of what local_to_value returns; Radau's functions are orthogonal to all polynomials of degree below k - 1, Vincent's below k - 2 and Huynh's below k - m, and Huynh's vanish with their first m - 1 derivatives at the far end, provided that numpy.linalg.solve returned a solution of its system; Vincent's three named choices of mu are Radau's functions, (1 + x) / 2 times a Legendre polynomial, and a function with zero slope at the far end.", "quantifier": "all degrees (Vincent and Huynh: the accepted ones), all mu with mu(0) = 1 or degree at least 2, all numbers of lumping conditions, all points", "why_tests_cant": "Tests compare single degrees at sample points up to a tolerance; the identities hold for all degrees and as polynomials.", "anchors": ["python/polynomial.py:20-51", "python/polynomial.py:63-117", "python/polynomial.py:132-186"]}
{"id": "C129", "title": "Every constructible Vincent function vanishes at the far end", "statement": "If Vincent(degree, mu) accepts its arguments, the right function is 0 at -1 and 1 at 1 and the left function the converse.", "quantifier": "all degrees from 1 to 10 and all mu, in particular the default", "why_tests_cant": "Tests start at higher degrees; the case of degree one relies on what scipy does for the Legendre polynomial of degree -1.", "anchors": ["python/polynomial.py:132-164"]}
{"id": "C130", "title": "Lagrange's polynomials are cardinal, differentiated correctly and reproduce polynomials", "statement": "For distinct points LagrangeBasis(points) and IthLagrange(i, points) give values and gradients everywhere; the i-th value is 1 at the i-th point and 0 at the others; gradients are derivatives; interpolation of any polynomial of degree less than the number of points gives it back. With two equal points the evaluation divides by zero.", "quantifier": "all lists of points and all arguments", "why_tests_cant": "Infinitely many lists of points; tests use a few of them.", "anchors": ["python/polynomial.py:189-264"]}
{"id": "C131", "title": "Coordinates are affine bijections with consistent geometry", "statement": "Linear(a, b), however often wrapped in Shifted, maps -1, 0, 1 to x_left, x_center, x_right; global_to_local and local_to_global are inverse to each other; the jacobians are the derivative of the map; length is the difference of the ends; Shifted moves everything by the shift.", "quantifier": "all elements with different ends, all shifts, all points", "why_tests_cant": "Tests use single elements.", "anchors": ["python/coordinate.py:6-80", "python/concept.py:33-81"]}
{"id": "C132", "title": "Gauss-Lobatto integrators are exact for polynomials of degree 2 n - 3", "statement": "GaussLobatto(coordinate, n) for n from 2 to 10 has points from x_left to x_right in increasing order, local points symmetric about 0, positive weights, and its integrate gives the integral over the element of every polynomial of degree at most 2 n - 3: exactly for n up to 6, and up to 2e-15 times half the length times the sum of the absolute local coefficients for n from 7 to 10; average times length is the integral; the integral is bounded by norm_1.", "quantifier": "all n from 2 to 10, all elements, all polynomials of the degree", "why_tests_cant": "Tests integrate a few functions; the claim is about all polynomials and covers the digits of the decimal constants.", "anchors": ["python/integrator.py:20-128", "python/concept.py:84-160"]}
{"id": "C133", "title": "RungeKutta(order) has its order", "statement": "For order 1 to 4 and without limiter, update is one step of an explicit Runge-Kutta method with as many stages as the order whose coefficients satisfy Butcher's conditions up to that order, and leaves the system at t_curr + delta_t; on linear systems it is the exponential series cut after the order; residuals that are polynomials in time of degree below the order (degree 3 for orders 3 and 4) are integrated exactly. Other orders are rejected.", "quantifier": "all residuals, columns of any size, times and steps", "why_tests_cant": "Tests look at convergence rates of single problems.", "anchors": ["python/temporal.py:6-109"]}
{"id": "C134", "title": "Runge-Kutta steps keep convex sets and linear invariants", "statement": "With a limiter that keeps a convex set of columns, and a delta_t for which Euler steps keep it, updates of order 1 to 3 stay in the set (order 4 need not). If a linear functional vanishes on residuals and the limiter does not change it, updates of order 1 to 4 do not change it.", "quantifier": "all convex sets, functionals, residuals, limiters, columns, times and steps", "why_tests_cant": "Quantifies over all sets and systems.", "anchors": ["python/temporal.py:18-20", "python/temporal.py:47-109", "python/spatial.py:87-96"]}
{"id": "C135", "title": "The time loop writes frames at the right times with admissible steps", "statement": "If solve_and_write returns, it has written n_frame + 1 frames at the times t_start + i (t_stop - t_start) / n_frame, the first with the initial state and the last at t_stop; consecutive frames are joined by updates whose lengths are at most (t_stop - t_start) / n_step and at most the step suggested by each element. If the suggestions are bounded from below by a positive number and updates succeed, the loop ends.", "quantifier": "all numbers of steps and frames, time ranges, suggestions and updates", "why_tests_cant": "The number of steps depends on the suggestions; a test follows one history.", "anchors": ["python/solver.py:213-249", "python/concept.py:1143-1147"]}
{"id": "C136", "title": "Legendre expansions represent what their coefficients say", "statement": "On an element whose ends differ, the basis of a Legendre expansion consists of the Legendre polynomials of the local coordinate; get_basis_derivatives returns their derivatives (gradients and hessians the first two), and they are orthogonal over the element with the mode weights as squared norms. After set_coeff, set_taylor_coeff or approximate the value is the sum of the modes times the basis; the derivatives up to the degree and the boundary values agree with it; average is the mean value, the mode energies add up to the integral of the square, and TruncatedLegendre drops the higher modes. set_coeff accepts exactly degree + 1 numbers; set_taylor_coeff gives the polynomial with these coefficients; approximate reproduces every polynomial of the degree.", "quantifier": "all degrees below 100, linear and shifted coordinates, coefficients and functions; given exact inverses and Gauss-Legendre rules", "why_tests_cant": "Tests compare at sample points, for a few degrees and elements, up to a tolerance.", "anchors": ["python/expansion.py:533-658", "python/concept.py:307-326"]}
{"id": "C137", "title": "Derivatives of Taylor expansions of any order are returned", "statement": "global_to_derivatives(x, k) returns the k-th derivative of global_to_value at x.", "quantifier": "all numbers of terms, centers, coefficients, points and orders", "why_tests_cant": "Tests stop at the degree.", "anchors": ["python/expansion.py:162-231"]}
{"id": "C138", "title": "Lagrange expansions represent the values at their nodes", "statement": "For the Lagrange expansions on uniform, Legendre and Lobatto nodes of an element whose ends differ: the j-th basis function is one at the j-th sample point and zero at the others; get_basis_derivatives, gradients and hessians are its derivatives, get_derivatives_at_node and get_boundary_derivatives their values at the sample points and at the ends of the element. After set_coeff, set_taylor_coeff or approximate the value is the sum of the sample values times the basis and equals the sample values at the sample points; derivatives, also at nodes and ends and of orders above the degree, agree with it; average is the mean value. set_coeff accepts exactly degree + 1 numbers; set_taylor_coeff gives the polynomial with these coefficients; on uniform and Legendre nodes, approximate samples the function at the points and reproduces polynomials of the degree. The n uniform nodes are the centers of n equal parts.", "quantifier": "all degrees, linear and shifted coordinates, values, functions, points and orders of derivatives, given exact inverses and Gauss-Legendre rules (the mean value on Lobatto nodes up to degree 5)", "why_tests_cant": "Tests compare at sample points, for a few degrees and elements, up to a tolerance.", "anchors": ["python/expansion.py:270-530", "python/concept.py:307-326"]}
{"id": "C139", "title": "Approximations on Lobatto nodes reproduce polynomials", "statement": "LagrangeOnLobattoRoots.approximate(f) of degree p represents f exactly if f is a polynomial of degree p.", "quantifier": "all degrees, elements and polynomials", "why_tests_cant": "The ends are sampled 1e-10 inside of the element, which is below the tolerance of tests but of the size of the element for very small elements.", "anchors": ["python/expansion.py:523-529"]}
{"id": "C140", "title": "Discontinuous Galerkin elements conserve", "statement": "For the DG elements with Legendre expansions and with Lagrange expansions on uniform, Legendre and Lobatto nodes: the residual (interior, interface and correction terms, after dividing by the mass matrix), taken as the coefficients of the expansion, is a polynomial whose integral over the element is the flux through its left end minus the flux through its right end, whatever the convective and diffusive fluxes, the solution and the jumps at the faces. On Legendre and Lobatto nodes and for Legendre expansions the residual exists always; on uniform nodes whenever the linear solver succeeds.", "quantifier": "all degrees (up to 5 on Lobatto nodes), elements, solutions, equations, components, face fluxes and jumps, given exact inverses, solvers and Gauss-Legendre rules", "why_tests_cant": "Tests compare residuals to a few smooth functions up to a tolerance; conservation is never checked and must hold for arbitrary fluxes.", "anchors": ["python/element.py:15-166", "python/concept.py:630-664", "python/concept.py:733-749"]}
{"id": "C141", "title": "Discontinuous Galerkin elements differentiate polynomial fluxes exactly", "statement": "For the same elements: if the flux along the element is a polynomial of the degree of the expansion, the faces have its values at the ends and there are no jumps, then the residual is minus the derivative of the flux at every point.", "quantifier": "all degrees (up to 5 on Lobatto nodes), elements, solutions and equations with such a flux", "why_tests_cant": "Tests use one flux and compare at sample points.", "anchors": ["python/element.py:15-166", "python/concept.py:630-664"]}
{"id": "C142", "title": "Reconstructed fluxes continue the fluxes of the faces", "statement": "For the elements for flux reconstruction with Lagrange expansions: Vincent's (degree at least 2, or discontinuous Galerkin) and Huynh's correction functions are polynomials of the stated degree, one at their own end and zero at the other, and the returned gradients are their derivatives. With every such pair, accepted by add_correction_function, get_fr_flux equals the given upwind flux at the left end and the given upwind flux at the right end, whatever the solution and the equation.", "quantifier": "all degrees, elements, node types, equations, components, solutions and face fluxes", "why_tests_cant": "Tests look at a handful of degrees and one solution; the faces are compared with a tolerance.", "anchors": ["python/element.py:169-240", "python/polynomial.py:100-260"]}
{"id": "C143", "title": "Radau's polynomials serve as correction functions of flux reconstruction", "statement": "With Radau's polynomials as correction functions the reconstructed flux equals the left upwind flux at the left end and the right upwind flux at the right end.", "quantifier": "all elements, degrees and face fluxes", "why_tests_cant": "No test uses Radau's polynomials inside of an element; alone they look right, only the order of the pair is swapped.", "anchors": ["python/polynomial.py:20-60", "python/element.py:169-240"]}
{"id": "C144", "title": "Flux reconstruction is exact for polynomial fluxes", "statement": "For the elements for flux reconstruction: if the flux along the element is a polynomial of the degree of the expansion, then the residual is, at every point, minus the derivative of the reconstructed flux, get_fr_flux_gradient is its derivative, the integral of the residual over the element is the flux through its left end minus the flux through its right end, and if the faces have the values of the flux itself then the residual is minus the derivative of the flux.", "quantifier": "all degrees (up to 5 on Lobatto nodes), elements, correction functions, node types, equations and solutions with such a flux", "why_tests_cant": "Tests compare one flux at sample points.", "anchors": ["python/element.py:169-297", "python/element.py:371-440"]}
{"id": "C145", "title": "Flux reconstruction conserves for every flux", "statement": "For the elements for flux reconstruction the integral of the residual over the element is the flux through its left end minus the flux through its right end, also for fluxes which are not polynomials.", "quantifier": "all equations and solutions, node types and correction functions", "why_tests_cant": "Linear equations and, on Lobatto nodes, all equations conserve; tests with these never show the defect.", "anchors": ["python/element.py:169-297", "python/element.py:371-440"]}
{"id": "C146", "title": "The gradient of the reconstructed flux is its gradient", "statement": "get_fr_flux_gradient returns the derivative of get_fr_flux at every point of the element.", "quantifier": "all equations, solutions and points", "why_tests_cant": "Tests use linear equations, for which it holds.", "anchors": ["python/element.py:240-280"]}
{"id": "C147", "title": "Dissipation matrices reproduce the residual of the heat equation", "statement": "get_dissipation_matrices of an element for flux reconstruction and its neighbors (each may be absent) returns matrices B, C, D, E, F such that (B - C + D) u + E u_left + F u_right, with the sample values of the element and of its neighbors, is the residual of the element for the heat equation of coefficient 1, with the interface fluxes of the Riemann solver (zero at a face without neighbor).", "quantifier": "all degrees, element sizes, node types, correction functions, sample values and sample points", "why_tests_cant": "Tests would have to compare two code paths for all solutions; none exists.", "anchors": ["python/element.py:299-371", "python/riemann.py:54-98"]}
{"id": "C148", "title": "Elements of a Python scheme are linked by common faces", "statement": "For a < b and at least two elements the scheme is constructed and periodic. On every scheme, also after set_boundary_values, the elements cover [a, b] one after the other, the right face of each element is the left face of the next one and is the interface of exactly these two, the neighbors' expansions are those of the adjacent elements; on periodic schemes the last element is linked to the first by a common face and by expansions shifted so that the ends fit; after set_boundary_values the outer faces are inlets with the given values and there is no neighbor beyond them.", "quantifier": "all numbers of elements, intervals, and sequences of calls of set_boundary_values", "why_tests_cant": "Links are stored in four places (faces of the scheme, faces and neighbor expansions of elements); a test sees the result of a few runs, not an inconsistent pair.", "anchors": ["python/spatial.py:22-86", "python/concept.py:836-956"]}
{"id": "C149", "title": "Boundary values may be omitted", "statement": "set_boundary_values accepts None for a boundary value, as its assertions say.", "quantifier": "all schemes and all combinations of values and None", "why_tests_cant": "No test passes None.", "anchors": ["python/concept.py:857-865", "python/concept.py:938-956"]}
{"id": "C150", "title": "Points are found in the element which contains them", "statement": "get_element returns, for a point of [a, b), the element whose half-open interval contains it; for points at or to the right of b, and also for points to the left of a, the last element.", "quantifier": "all schemes and all points", "why_tests_cant": "Tests use points inside of elements; ends of elements and points outside depend on the kind of bisection and on negative indices.", "anchors": ["python/spatial.py:48-51", "python/concept.py:889-894"]}
{"id": "C151", "title": "Columns hold the coefficients of all elements", "statement": "set_solution_column accepts exactly the columns whose length is elements times terms times components; then element e, term r, component c gets the entry e * components * terms + c * terms + r, and get_solution_column returns the same column. Conversely every choice of coefficients is written by get_solution_column at these places and read back unchanged. The same for scalar equations and for systems.", "quantifier": "all numbers of elements, terms and components and all values", "why_tests_cant": "The layout is written three times in the code (set, get, residual); a swap of loops is invisible for one component or one term.", "anchors": ["python/concept.py:679-720", "python/spatial.py:88-125"]}
{"id": "C152", "title": "Schemes of the Python package conserve", "statement": "The residual column, read as coefficients of the expansions of the elements, has for every component a total integral over the grid which is zero on periodic schemes, and the flux through the left inlet minus the flux through the right inlet after set_boundary_values. This holds for discontinuous Galerkin schemes with Legendre or Lagrange expansions, with interface corrections, and for flux reconstruction on Lobatto nodes, for all equations and all Riemann solvers.", "quantifier": "all numbers of elements, degrees, equations, solutions, and Riemann solvers", "why_tests_cant": "Conservation over the whole grid combines links, face fluxes, column layout, mass matrices and quadrature; tests watch one problem with a tolerance.", "anchors": ["python/spatial.py:135-162", "python/element.py:1-167", "python/element.py:371-440"]}
{"id": "C153", "title": "The flux at a point continues the fluxes of the faces", "statement": "get_flux_value of a flux reconstruction scheme is, at every point, the flux of the element which contains it, reconstructed from the fluxes of the two faces of this element.", "quantifier": "all schemes, points, equations and solutions", "why_tests_cant": "Tests run it on periodic schemes only.", "anchors": ["python/spatial.py:236-254"]}
{"id": "C154", "title": "The selective filter of the Python package acts on rings and lines", "statement": "On a periodic array of at least 10 values every value is replaced by itself minus sigma times the same symmetric combination of the eleven values around it, and the sum is kept; shorter periodic arrays raise IndexError. Without periodicity the five values at each end are kept and straight lines are not changed.", "quantifier": "all lengths, values and sigma", "why_tests_cant": "The first and the last five entries use negative and wrapped indices; tests look at smooth data where a wrong neighbor is hardly seen.", "anchors": ["python/filter.py:4-59"]}
{"id": "C155", "title": "The selective filter removes short waves and amplifies none", "statement": "A wave on a ring keeps its phase and is multiplied by 1 - sigma D, where D depends on the wave number only; D is 0 for the constant, 1 for the wave of alternating signs, positive unless the wave is extremely long, and for 0 <= sigma <= 1 no wave is amplified by more than 1 + 10^-32, the error of the decimal coefficients.", "quantifier": "all ring sizes, wave numbers, phases and sigma", "why_tests_cant": "A test sees some waves; stability depends on the sign of D for all wave numbers, which is a polynomial inequality in the decimals of the source.", "anchors": ["python/filter.py:52-57"]}
{"id": "C156", "title": "The limiter of Zhong and Shu keeps averages and common polynomials", "statement": "ZhongXingHui2013: the new polynomial of an element is an average, with positive weights of sum one, of the old one and of one polynomial borrowed from each neighbor; borrowed polynomials have the average of the element and equal the neighbor's polynomial up to a constant; the average of the element is kept. If the neighbors continue the element's polynomial up to constants, nothing changes.", "quantifier": "all degrees, elements, solutions, neighbors, epsilon > 0 and 0 < w_small < 1/2", "why_tests_cant": "Non-linear weights depend on integrals of squares of derivatives; tests plot results and cannot see a weight which is negative for some data or an average which drifts by one rounding-like error.", "anchors": ["python/limiter.py:83-151", "python/expansion.py:536-616"]}
{"id": "C157", "title": "Limiting is simultaneous and conservative", "statement": "reconstruct gives every troubled element the polynomial limited with the old polynomials of its neighbors, whatever the order of the troubled elements and even if one is listed twice; the other elements keep theirs; the averages of all elements are kept.", "quantifier": "all grids, solutions and lists of troubled elements", "why_tests_cant": "Setting a result too early changes the neighbors' results slightly; this depends on the order of the list and is not visible in plots.", "anchors": ["python/limiter.py:19-37"]}
{"id": "C158", "title": "Li's limiter keeps averages and straight lines", "statement": "LiWanAi2020: the new polynomial is an average, with positive weights, of polynomials with the average of the element, so the average is kept; a straight line which continues through the neighbors is kept.", "quantifier": "all degrees >= 1, elements, solutions, at least one neighbor, epsilon > 0, k_epsilon >= 0, all k_trunc", "why_tests_cant": "The wrong scale of the borrowed slope is hidden by small non-linear weights, and vanishes on elements where the norm happens to be one.", "anchors": ["python/limiter.py:154-275", "python/concept.py:155-160"]}
{"id": "C159", "title": "Krivodonova's detector reports exactly the cells whose inflow jumps exceed the scale of the cell", "statement": "For Legendre expansions whose coefficients have been set, on cells of positive length, Krivodonova2004.get_troubled_cell_indices returns, in increasing order, exactly the indices of the cells for which the sum of the jumps of the solution at inflow faces (left face if the speed there is not negative, right face if it is not positive, faces without neighbors omitted) exceeds length**((degree+1)/2) * (|average| + 1e-8). A solution that is continuous at all faces is never reported.", "quantifier": "for all degrees, grids, coefficients and speed functions", "why_tests_cant": "thresholds and directions of all cells, speeds and degrees; tests look at a few solutions with known jumps", "anchors": ["python/detector.py:51-107", "python/detector.py:30-48"]}
{"id": "C160", "title": "Persson's detector compares the energy of the highest mode with the whole energy", "statement": "For Legendre expansions of degree p > 0, Persson2006.get_troubled_cell_indices returns exactly the cells for which p**3 times the integral of the squared difference between the solution and its truncation to degree p-1 exceeds the integral of the squared solution plus 1e-8. The detector works for every degree and every kind of expansion that elements use.", "quantifier": "for all grids, degrees and coefficients", "why_tests_cant": "needs orthogonality of the modes for every degree; the branch for other expansions is never run by tests", "anchors": ["python/detector.py:293-337", "python/concept.py:179-182"]}
{"id": "C161", "title": "Kl\u00f6ckner's detector fits the rate of decay of modal energies", "statement": "Kloeckner2011: the quantities added to the energies are positive and form a distribution scaled by the whole energy; the skyline makes energies nonincreasing without lowering any; the slope is the one of the least-squares line through the logarithms, is not negative, and is exactly s for energies C * n**(-2s); a cell is reported iff the slope is below 1.5. Constants are not reported.", "quantifier": "for all degrees, energies and coefficients", "why_tests_cant": "least squares optimality and monotonicity are statements about all energies; tests check single arrays", "anchors": ["python/detector.py:341-427"]}
{"id": "C162", "title": "Li Yan-Hui's detector ignores constants and straight lines", "statement": "LiYanHui2022: every smoothness value is in (0, 1]; a cell is reported iff one of the values at its sample points or at their (cyclic) neighbors is below 0.4; a constant solution is never reported, and on uniform grids that are not periodic no straight line is reported.", "quantifier": "for all grids, degrees and coefficients", "why_tests_cant": "index arithmetic at cell borders and at the ends of the grid for every number of cells and sample points", "anchors": ["python/detector.py:210-291"]}
{"id": "C163", "title": "Li Wan-Ai's detector compares extended solutions of neighbors at the center with the least average", "statement": "LiWanAi2011.get_troubled_cell_indices returns, in increasing order, exactly the cells for which the sum over the neighbors of the differences at the center of the cell between its solution and the extended solution of the neighbor (moved by the period for neighbors across the ends) exceeds k * (number of neighbors) * length**((degree+1)/2) * (least modulus of the averages of the cell and its neighbors + 1e-8), where k is 1 up to degree two and 3 above. A polynomial over the whole grid is never reported; a cell without neighbors is never reported.", "quantifier": "for all grids, degrees and coefficients", "why_tests_cant": "index wrap-around, exponents and thresholds for every degree and grid size", "anchors": ["python/detector.py:109-160", "python/expansion.py:38-40"]}
{"id": "C164", "title": "Zhu Jun's detector compares integrals of extended solutions with the least norm", "statement": "ZhuJun2021.get_troubled_cell_indices returns, in increasing order, exactly the cells for which the largest modulus of the exact integrals over the cell of the differences between its solution and the extended solutions of its neighbors exceeds (least L1 norm of the cell and its neighbors, by Gauss points, + 1e-8) * length. A polynomial over the whole grid is never reported.", "quantifier": "for all grids, degrees and coefficients", "why_tests_cant": "exactness of the integrals for every degree; index wrap-around for every number of cells", "anchors": ["python/detector.py:162-207", "python/concept.py:127-153"]}
{"id": "C165", "title": "Viscosity by smoothness grows from nothing to the full amount and never leaves that range", "statement": "`viscosity.Persson2006(kappa)._get_constant_coeff` gives a viscosity between zero and length over degree. It does not decrease when the smoothness value grows. It is the full amount once the smoothness times the fourth power of the degree reaches 10^kappa, zero when that product is at most 10^-kappa (also for smoothness zero), and half of it when the product is one.", "quantifier": "all positive kappa, positive degrees, positive lengths and all smoothness values", "why_tests_cant": "The ramp depends on a sine of a logarithm; tests sample some values and cannot establish that it never decreases or that the three branches meet", "anchors": ["python/viscosity.py:31-66"]}
{"id": "C166", "title": "Viscosity by energy stays between zero and its bound and vanishes where neighbors agree", "statement": "Whenever `viscosity.Energy._get_constant_coeff` returns, its value lies between zero and length over degree times the largest convective radius of the samples; it is zero if the neighbors extended into the cell take the cell's values at its points. The energy measured against one common function from both sides counts every point exactly once, also when the number of points is odd. Returning is claimed for every cell; a cell whose solution is zero fails an assertion.", "quantifier": "all numbers of points, points, values, nonnegative weights, positive time scales and lengths, neighbors and matrices", "why_tests_cant": "The claim ranges over all solutions and numbers of points, and tests only use cells around a shock where the solution is nonzero", "anchors": ["python/viscosity.py:80-98", "python/viscosity.py:100-119", "python/viscosity.py:194-233", "python/viscosity.py:316-335"]}
{"id": "C167", "title": "Quadratic viscosity is continuous between troubled cells and bounded by the values it interpolates", "statement": "The function built by `viscosity.Quadratic._get_callable_coeff` takes the average of the values of both cells at a face with a neighbor and the value of the cell at a face without; two neighboring troubled cells agree at the common face. It is never negative and inside the cell never below the smaller face value. It should not exceed the largest of the interpolated values; it does, by at most one sixteenth.", "quantifier": "all cells, all nonnegative values of viscosity, all positions in the cell, also across the ends of periodic grids", "why_tests_cant": "Tests look at pictures of some solutions; the overshoot is small and located between center and face", "anchors": ["python/viscosity.py:337-346", "python/viscosity.py:391-398", "python/viscosity.py:437-453", "python/viscosity.py:468-487"]}
{"id": "C168", "title": "Linear viscosity takes the upwind value at faces and is continuous between troubled cells", "statement": "The function built by `viscosity.Linear._get_callable_coeff` for scalars is affine in the position. At each face it takes the value of the cell the wave comes from, or the average for standing waves; a missing neighbor counts as zero. Inside the cell it lies between zero and the largest of the three values, and two neighboring troubled cells agree at the common face.", "quantifier": "all cells, all nonnegative values of viscosity, all speeds, all positions in the cell, also across the ends of periodic grids", "why_tests_cant": "The claim ranges over all speeds and values; tests cover few combinations of signs", "anchors": ["python/viscosity.py:337-346", "python/viscosity.py:508-511", "python/viscosity.py:550-558", "python/viscosity.py:580-606"]}
{"id": "C169", "title": "The exact solutions of linear problems solve their equation", "statement": "`solver.LinearSmooth.u_exact` equals `u_init` at time zero, has the length of the domain as a period, moves with the speed of convection when there is no diffusion (so does `LinearJumps`), and satisfies the equation of convection and diffusion for every mean, wave number, speed and diffusivity. The last claim fails: the mean is damped together with the wave.", "quantifier": "all positions, times, means, wave numbers, speeds and diffusivities", "why_tests_cant": "Tests and demos use the mean zero; the error needs diffusion and a mean other than zero", "anchors": ["python/solver.py:295-325", "python/solver.py:327-339"]}
{"id": "C170", "title": "The exact solution of Burgers' equation satisfies the equation of characteristics", "statement": "`solver.InviscidBurgers.u_exact` with mean zero always leaves its loop and returns a value between -1 and 1 that equals the initial value at the foot of its characteristic. Until the waves break (|k t w| < 1) that value is unique, independent of what was asked before, and at time zero it is the initial value.", "quantifier": "all positions, times, wave numbers, factors and kept values", "why_tests_cant": "The loop and the kept values depend on the whole history; tests see a few times only", "anchors": ["python/solver.py:347-401"]}
{"id": "C171", "title": "Distances to polygons", "statement": "`distance.dist_to_vertices` with `np.min` is zero exactly at the vertices and never exceeds the distance to any vertex; for p = 1 and p = 2 it uses the sum of coordinates and the usual distance, and every p lies between the maximum and the sum. `dist_to_edges` with `np.min` is the least distance to an edge of the polygon. The last claim fails: it is the least distance to a line through an edge.", "quantifier": "all points, all polygons without edges of length zero, all exponents from one to infinity", "why_tests_cant": "The file has no tests, only pictures", "anchors": ["python/distance.py:5-30"]}
{"id": "C172", "title": "The physical mode of a wave number is found for all wave numbers", "statement": "In `WaveNumberDisplayer.get_physical_mode` both loops end and both assertions hold for every wave number; the mode is the unique one reached from the interval of the wave number by shifts of 2 n pi and by reflection.", "quantifier": "all real wave numbers and all positive numbers of terms", "why_tests_cant": "Wave numbers far outside of the plotted range are never sampled", "anchors": ["python/wave_number.py:86-98"]}
{"id": "C173", "title": "Discrete Fourier coefficients of waves", "statement": "`DiscreteFourierAnalysis.get_kth_fourier_coeff` applied to real and imaginary part of the wave with number m gives the value of the wave at the first sample for k = m, and zero for every other k that differs from m by less than the number of samples.", "quantifier": "all intervals, numbers of elements, samples per element and pairs of wave numbers", "why_tests_cant": "Orthogonality holds for all numbers of samples; the script only plots", "anchors": ["python/discrete_fourier.py:16-40", "python/discrete_fourier.py:51-72"]}
{"id": "C174", "title": "The limiter by compression keeps averages and creates no extrema", "statement": "`limiter.XuXiaoRui2023` can be constructed like the other limiters; its function lies between the least and the greatest average of the cell and its neighbors, its coefficients keep the average of the cell, and a cell whose average is extreme becomes constant.", "quantifier": "all parameters in [0, 1], Legendre expansions, numbers and averages of neighbors", "why_tests_cant": "Bounds hold at every point for all solutions; the class is not exercised by the test suite, which would raise", "anchors": ["python/limiter.py:265-308", "python/limiter.py:74-80", "python/concept.py:142-146", "python/solver.py:674"]}
{"id": "C175", "title": "Shifted expansions are expansions of shifted functions", "statement": "`expansion.Shifted(e, s)` has the values, derivatives, boundary derivatives, averages and integrals of the function of e moved by s; approximating first and shifting afterwards gives the same coefficients, values and basis as approximating the shifted function on the shifted element; `approximate` and `set_coeff` are refused.", "quantifier": "all elements, shifts, degrees, coefficients and approximated functions", "why_tests_cant": "Tests compare one sine on one element with one random shift up to rounding", "anchors": ["python/expansion.py:13-87", "python/spatial.py:53-55"]}
{"id": "C176", "title": "Suggested time steps respect the CFL number of the element", "statement": "For elements with positive length and non-negative viscosity, `suggest_delta_t` returns for every degree up to 8 a positive step whose product with the wave speed is at most the CFL number of the chosen Runge-Kutta order times the length; it raises for higher degrees.", "quantifier": "all lengths, degrees, convective and diffusive radii, and Runge-Kutta orders 1 to 4", "why_tests_cant": "A step above the bound shows only as slow instability, for the combinations of order and degree that no test runs", "anchors": ["python/concept.py:757-785", "python/concept.py:821-822", "python/element.py:20-29", "python/element.py:179-180"]}
{"id": "C177", "title": "Frames are written at equidistant times and steps end exactly at them", "statement": "`solve_and_write` writes n_frame + 1 frames at equidistant times from t_start to t_stop; between frames the steps are consecutive, positive and at most dt_max and every element's suggestion; the loop ends if suggestions are bounded from below; `animate` shows the same states.", "quantifier": "all time ranges, numbers of steps and frames, spatial schemes, updates and sequences of suggestions", "why_tests_cant": "Sequences of steps depend on suggestions of all elements in all states; the loops are only in scripts, which no test runs", "anchors": ["python/solver.py:213-249", "python/solver.py:251-293", "python/concept.py:1143-1147"]}
{"id": "C178", "title": "The overset status of cells is written to the cells it is given for", "statement": "`Mapping::AddCellStatus` gives exactly the cells with the given METIS indices the status, in the field OversetStatus of the zone of each cell; all other cells keep the status they had, or are unknown if the field is new.", "quantifier": "all meshes and mappers, lists of cells, statuses and previous fields", "why_tests_cant": "Tests write meshes of one zone, whose cells are numbered first, and look at the files by hand", "anchors": ["include/mini/mesh/overset.hpp:24-46", "include/mini/mesh/cgns.hpp:598-600", "include/mini/mesh/cgns.hpp:679-692", "include/mini/mesh/cgns.hpp:912-923"]}
