-Q theories Verif
theories/Arrays.v
theories/Model_Aircraft.v
theories/Model_Base64.v
theories/Model_Basis.v
theories/Model_Cgns.v
theories/Model_Collinear.v
theories/Model_Column.v
theories/Model_DG.v
theories/Model_Damping.v
theories/Model_Decorator.v
theories/Model_Demo.v
theories/Model_Diffusive.v
theories/Model_Dofs.v
theories/Model_Driver.v
theories/Model_Euler.v
theories/Model_Exact.v
theories/Model_Gauss.v
theories/Model_Geometry.v
theories/Model_Mapper.v
theories/Model_MeshFile.v
theories/Model_MeshMove.v
theories/Model_Metis.v
theories/Model_NavierStokes.v
theories/Model_Nodal.v
theories/Model_Overset.v
theories/Model_Part.v
theories/Model_PartFaces.v
theories/Model_Partition.v
theories/Model_Projection.v
theories/Model_PyColumn.v
theories/Model_PyCompress.v
theories/Model_PyDetector.v
theories/Model_PyDistance.v
theories/Model_PyElement.v
theories/Model_PyEuler.v
theories/Model_PyExact.v
theories/Model_PyExpansion.v
theories/Model_PyFR.v
theories/Model_PyFilter.v
theories/Model_PyGrid.v
theories/Model_PyIntegrator.v
theories/Model_PyJumps.v
theories/Model_PyLimiter.v
theories/Model_PyMarch.v
theories/Model_PyNodal.v
theories/Model_PyPoly.v
theories/Model_PyRiemann.v
theories/Model_PyScheme.v
theories/Model_PyShifted.v
theories/Model_PySolver.v
theories/Model_PyTemporal.v
theories/Model_PyViscosity.v
theories/Model_PyWaves.v
theories/Model_Reconstruct.v
theories/Model_Restart.v
theories/Model_Schemes.v
theories/Model_Sections.v
theories/Model_Shapes.v
theories/Model_Shuffle.v
theories/Model_Shuffler.v
theories/Model_Simple.v
theories/Model_SimpleBoundary.v
theories/Model_Simulation.v
theories/Model_Solvers.v
theories/Model_Source.v
theories/Model_Status.v
theories/Model_Taylor_cell.v
theories/Model_Temporal.v
theories/Model_Viscous.v
theories/Model_Vtk.v
theories/Model_WenoEuler.v
theories/Poly.v
theories/PolyQ.v
theories/Proof_Adjacency.v
theories/Proof_Aircraft.v
theories/Proof_Base64.v
theories/Proof_Blade_cell.v
theories/Proof_Box.v
theories/Proof_Chain.v
theories/Proof_Collinear.v
theories/Proof_Column.v
theories/Proof_DG.v
theories/Proof_DGLobatto.v
theories/Proof_Damping.v
theories/Proof_DampingMain.v
theories/Proof_Demo.v
theories/Proof_Dofs.v
theories/Proof_Driver.v
theories/Proof_DriverStorage.v
theories/Proof_Eigen.v
theories/Proof_EigenInverse.v
theories/Proof_Euler.v
theories/Proof_Exact.v
theories/Proof_Exchange.v
theories/Proof_FR.v
theories/Proof_FRCell.v
theories/Proof_FRLine.v
theories/Proof_FRMain.v
theories/Proof_FRStream.v
theories/Proof_FaceParts.v
theories/Proof_Faces.v
theories/Proof_FacesEnd.v
theories/Proof_FacesUse.v
theories/Proof_Gauss.v
theories/Proof_GaussMore.v
theories/Proof_GaussTable.v
theories/Proof_GaussVolume.v
theories/Proof_Geometry.v
theories/Proof_Integral.v
theories/Proof_L1.v
theories/Proof_Lagrange.v
theories/Proof_Mapper.v
theories/Proof_Maps.v
theories/Proof_MergeSplit.v
theories/Proof_MeshFile.v
theories/Proof_MeshFileZone.v
theories/Proof_MeshMove.v
theories/Proof_Metis.v
theories/Proof_Mirror.v
theories/Proof_MirrorExact.v
theories/Proof_NavierStokes.v
theories/Proof_Nodal.v
theories/Proof_NodalBasis.v
theories/Proof_NodalMain.v
theories/Proof_Ortho.v
theories/Proof_Overset.v
theories/Proof_Part.v
theories/Proof_PartCells.v
theories/Proof_PartFaces.v
theories/Proof_PartOnce.v
theories/Proof_Pipeline.v
theories/Proof_Projection.v
theories/Proof_PyColumn.v
theories/Proof_PyCorrect.v
theories/Proof_PyDG.v
theories/Proof_PyDetector.v
theories/Proof_PyDissipation.v
theories/Proof_PyElement.v
theories/Proof_PyEuler.v
theories/Proof_PyExact.v
theories/Proof_PyExpansion.v
theories/Proof_PyFR.v
theories/Proof_PyFilter.v
theories/Proof_PyGrid.v
theories/Proof_PyIntegrator.v
theories/Proof_PyLagrange.v
theories/Proof_PyLimiter.v
theories/Proof_PyNodal.v
theories/Proof_PyPoly.v
theories/Proof_PyPrime.v
theories/Proof_PyRiemann.v
theories/Proof_PyRoe.v
theories/Proof_PyScheme.v
theories/Proof_PyTemporal.v
theories/Proof_Ranges.v
theories/Proof_ReadBack.v
theories/Proof_Reconstruct.v
theories/Proof_Restart.v
theories/Proof_RestartFile.v
theories/Proof_RestartMain.v
theories/Proof_Rotated.v
theories/Proof_Schemes.v
theories/Proof_Sections.v
theories/Proof_Shapes.v
theories/Proof_Shuffle.v
theories/Proof_Shuffler.v
theories/Proof_Simple.v
theories/Proof_Simulation.v
theories/Proof_Solvers.v
theories/Proof_Source.v
theories/Proof_SourceMain.v
theories/Proof_TaylorGradient.v
theories/Proof_Taylor_cell.v
theories/Proof_Temporal.v
theories/Proof_Vincent.v
theories/Proof_Viscous.v
theories/Proof_ViscousMain.v
theories/Proof_Vtk.v
theories/Proof_VtkPoints.v
theories/Proof_Weno.v
theories/Proof_WriteParts.v
theories/Prop_Aircraft.v
theories/Prop_Base64.v
theories/Prop_Basis.v
theories/Prop_Collinear.v
theories/Prop_Column.v
theories/Prop_DG.v
theories/Prop_Damping.v
theories/Prop_Decorator.v
theories/Prop_Demo.v
theories/Prop_Diffusive.v
theories/Prop_Driver.v
theories/Prop_Euler.v
theories/Prop_Exact.v
theories/Prop_Gauss.v
theories/Prop_Geometry.v
theories/Prop_Mapper.v
theories/Prop_MeshFile.v
theories/Prop_MeshMove.v
theories/Prop_Metis.v
theories/Prop_Mirror.v
theories/Prop_MirrorExact.v
theories/Prop_NavierStokes.v
theories/Prop_Nodal.v
theories/Prop_Overset.v
theories/Prop_Part.v
theories/Prop_PartFaces.v
theories/Prop_Partition.v
theories/Prop_Projection.v
theories/Prop_PyCompress.v
theories/Prop_PyDetector.v
theories/Prop_PyDissipation.v
theories/Prop_PyDistance.v
theories/Prop_PyElement.v
theories/Prop_PyEuler.v
theories/Prop_PyExact.v
theories/Prop_PyExpansion.v
theories/Prop_PyFR.v
theories/Prop_PyFilter.v
theories/Prop_PyGrid.v
theories/Prop_PyIntegrator.v
theories/Prop_PyJumps.v
theories/Prop_PyLimiter.v
theories/Prop_PyMarch.v
theories/Prop_PyNodal.v
theories/Prop_PyPoly.v
theories/Prop_PyRiemann.v
theories/Prop_PyScheme.v
theories/Prop_PyShifted.v
theories/Prop_PySolver.v
theories/Prop_PyTemporal.v
theories/Prop_PyViscosity.v
theories/Prop_PyWaves.v
theories/Prop_Ranges.v
theories/Prop_Reconstruct.v
theories/Prop_Restart.v
theories/Prop_Schemes.v
theories/Prop_Sections.v
theories/Prop_Shapes.v
theories/Prop_Shuffle.v
theories/Prop_Shuffler.v
theories/Prop_Simple.v
theories/Prop_SimpleBoundary.v
theories/Prop_Simulation.v
theories/Prop_Solvers.v
theories/Prop_Source.v
theories/Prop_Status.v
theories/Prop_Temporal.v
theories/Prop_Viscous.v
theories/Prop_Vtk.v
theories/RSum.v
theories/Sample_Damping.v
theories/Sample_Driver.v
theories/Sample_Mesh.v
theories/Sample_Mirror.v
theories/Sample_MirrorExact.v
theories/Sample_Parts.v
theories/Sample_Restart.v
theories/Sample_Simulation.v
theories/Sample_Solvers.v
theories/Sample_Source.v
theories/Sample_Twin.v
theories/Sample_Viscous.v
theories/Spec_Aircraft.v
theories/Spec_Base64.v
theories/Spec_Basis.v
theories/Spec_Collinear.v
theories/Spec_Column.v
theories/Spec_DG.v
theories/Spec_Damping.v
theories/Spec_Decorator.v
theories/Spec_Demo.v
theories/Spec_Diffusive.v
theories/Spec_Driver.v
theories/Spec_Euler.v
theories/Spec_Exact.v
theories/Spec_FR.v
theories/Spec_Faces.v
theories/Spec_Gauss.v
theories/Spec_Mesh.v
theories/Spec_MeshFile.v
theories/Spec_MeshMove.v
theories/Spec_Metis.v
theories/Spec_Mirror.v
theories/Spec_NavierStokes.v
theories/Spec_Nodal.v
theories/Spec_Overset.v
theories/Spec_Part.v
theories/Spec_PartFaces.v
theories/Spec_Partition.v
theories/Spec_Projection.v
theories/Spec_PyColumn.v
theories/Spec_PyDetector.v
theories/Spec_PyDissipation.v
theories/Spec_PyElement.v
theories/Spec_PyEuler.v
theories/Spec_PyExact.v
theories/Spec_PyExpansion.v
theories/Spec_PyFR.v
theories/Spec_PyFilter.v
theories/Spec_PyGrid.v
theories/Spec_PyIntegrator.v
theories/Spec_PyLimiter.v
theories/Spec_PyPoly.v
theories/Spec_PyRiemann.v
theories/Spec_PyTemporal.v
theories/Spec_Reconstruct.v
theories/Spec_Restart.v
theories/Spec_Schemes.v
theories/Spec_Sections.v
theories/Spec_Shapes.v
theories/Spec_Shuffle.v
theories/Spec_Simple.v
theories/Spec_Simulation.v
theories/Spec_Solvers.v
theories/Spec_Source.v
theories/Spec_Temporal.v
theories/Spec_Viscous.v
theories/Spec_Vtk.v
theories/Vec3.v
