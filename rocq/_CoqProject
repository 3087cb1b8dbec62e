-Q theories Verif
theories/Tree.v
theories/Forest.v
theories/SpecForest.v
theories/TreeFacts.v
theories/ForestFacts.v
theories/LabelFacts.v
theories/RootFacts.v
theories/Examples.v
theories/Prop_Tree.v
theories/History.v
theories/PlaceFacts.v
theories/Prop_Place.v
theories/RefineFacts.v
theories/RefineFacts2.v
theories/Prop_Refine.v
theories/CoarsenFacts.v
theories/Prop_Coarsen.v
theories/Geom.v
theories/GenFacts.v
theories/SpecGeom.v
theories/IntervalFacts.v
theories/QuadGeomFacts.v
theories/BinFacts.v
theories/LeafFacts.v
theories/Prop_Bin.v
theories/Prop_Quad.v
theories/Mesh1D.v
theories/Mesh1DFacts.v
theories/Prop_1D.v
theories/Dcel.v
theories/SpecDcel.v
theories/DcelFacts.v
theories/Prop_Dcel.v
theories/GridFacts.v
theories/Prop_Grid.v
theories/Segments.v
theories/SegFacts.v
theories/Prop_Segments.v
theories/Quad.v
theories/QuadFacts.v
theories/QuadSplit.v
theories/QuadInv.v
theories/SpecQuad.v
theories/QuadNb.v
theories/QuadInit.v
theories/QuadUniq.v
theories/QuadStart.v
theories/QuadCoords.v
theories/QuadHist.v
theories/Prop_QuadMesh.v
theories/BalSets.v
theories/QuadBal.v
theories/BalLoop.v
theories/Prop_Balance.v
theories/Fem.v
theories/SpecFem.v
theories/ShapeFacts.v
theories/Prop_Shape.v
theories/Calc.v
theories/Prop_Deriv.v
theories/Prop_Inherit.v
theories/Dof.v
theories/SpecDof.v
theories/DofFacts.v
theories/DofInv.v
theories/GrowFacts.v
theories/Dof1DFacts.v
theories/Dof1DHist.v
theories/Prop_Dof1D.v
theories/DofVert.v
theories/SpecDofVert.v
theories/DofVertFacts.v
theories/DofVertHist.v
theories/Basis.v
theories/Prop_DofVert.v
theories/Solver.v
theories/SpecSolver.v
theories/SolverFacts.v
theories/SolverRun.v
theories/SolverElim.v
theories/SolverMain.v
theories/SolverSpd.v
theories/SolverRep.v
theories/Prop_Solver.v
theories/Assemble.v
theories/SpecAssemble.v
theories/AssembleFacts.v
theories/AssembleRun.v
theories/AssembleCells.v
theories/AssembleArr.v
theories/AssembleMain.v
theories/Prop_Assemble.v
theories/Quadrature.v
theories/SpecQuadrature.v
theories/QuadratureFacts.v
theories/QuadratureRules.v
theories/QuadratureMap.v
theories/QuadratureGreen.v
theories/QuadratureForm.v
theories/Prop_Quadrature.v
theories/Dof2.v
theories/SpecDof2.v
theories/SurfFacts.v
theories/Node2Facts.v
theories/VertNb.v
theories/Surf2.v
theories/Dof2Facts.v
theories/Dof2Hist.v
theories/Grid2.v
theories/Prop_Dof2.v
theories/Hang.v
theories/SpecHang.v
theories/HangRef.v
theories/HangRun.v
theories/HangGeo.v
theories/Prop_Hang.v
theories/RMat.v
theories/Spd.v
theories/SpecSpd.v
theories/SpdFacts.v
theories/SpdEig.v
theories/SpdKer.v
theories/Prop_Eig.v
theories/SpdTri.v
theories/SpdMod.v
theories/SpdChol.v
theories/Prop_Chol.v
theories/Gauss.v
theories/SpecGauss.v
theories/GaussFacts.v
theories/Prop_Sample.v
theories/GaussCond.v
theories/GaussKrig.v
theories/GaussField.v
theories/Prop_Cond.v
theories/Prop_KL.v
theories/PdFacts.v
theories/CndFacts.v
theories/CovFun.v
theories/SpecCov.v
theories/CovFacts.v
theories/CovDist.v
theories/Prop_Cov.v
theories/Nodal.v
theories/NodalFacts.v
theories/Nodal1.v
theories/SpecNodal.v
theories/Nodal1Facts.v
theories/Nodal1Main.v
theories/Nodal1Interp.v
theories/Nodal1Cell.v
theories/Nodal1More.v
theories/Nodal2v.v
theories/Prop_Nodal.v
theories/Prop_Nodal2.v
theories/Prop_Nodal3.v
theories/Prop_NodalData.v
theories/Prop_Explicit.v
theories/Prop_Nodal2v.v
theories/GroupExt.v
theories/Region.v
theories/RegionFacts.v
theories/SpecRegion.v
theories/RegionMain.v
theories/RegionMark.v
theories/Prop_Region.v
theories/Prop_RegionMark.v
theories/Prop_Tear.v
theories/BoxFacts.v
theories/Prop_Box.v
theories/RegionDof.v
theories/SpecRegionDof.v
theories/RegionDofFacts.v
theories/Prop_RegionDof.v
theories/Region1.v
theories/SpecRegion1.v
theories/Region1Facts.v
theories/Prop_Region1.v
theories/Prop_RegionDof1.v
theories/Locate.v
theories/Prop_Depth.v
theories/IntForm.v
theories/SpecIntForm.v
theories/Prop_IntForm.v
theories/IntEval.v
theories/SpecIntEval.v
theories/Prop_IntEval.v
theories/Samples.v
theories/SpecSamples.v
theories/SamplesFacts.v
theories/Prop_Samples.v
theories/EdgeGeom.v
theories/SpecEdgeGeom.v
theories/Prop_EdgeGeom.v
theories/Kernel.v
theories/SpecKernel.v
theories/Prop_Kernel.v
theories/Dirichlet1.v
theories/SpecProblem.v
theories/ProblemFacts.v
theories/ProblemMain.v
theories/Prop_Problem.v
theories/SpecExact.v
theories/ExactFacts.v
theories/ElimSolver.v
theories/Prop_Exact.v
theories/Prop_Patch.v
theories/Problem2.v
theories/SpecProblem2.v
theories/FormFacts.v
theories/Problem2Facts.v
theories/Problem2Main.v
theories/Prop_Problem2.v
theories/DofVert2.v
theories/SpecDofVert2.v
theories/DofVert2Facts.v
theories/DofVert2Hist.v
theories/Prop_Dirichlet2.v
theories/Prop_Solution2.v
theories/NodalQ.v
theories/BinGen.v
theories/SpecNodalQ.v
theories/NodalQFacts.v
theories/Prop_NodalQ.v
theories/SpecInterp2.v
theories/Poly2Facts.v
theories/Prop_Interp2.v
theories/SpecExact2.v
theories/Exact2Facts.v
theories/Prop_Exact2.v
theories/FlatFacts.v
theories/SpecPoisson2.v
theories/Prop_Poisson2.v
theories/Prop_Regular2.v
theories/Prop_Total2.v
