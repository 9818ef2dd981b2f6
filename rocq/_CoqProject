-Q theories Verif
theories/Model/AbstractMesh.v
theories/Model/ArbitrarySign.v
theories/Model/Bbox.v
theories/Model/BinaryCache.v
theories/Model/Clip.v
theories/Model/Commands.v
theories/Model/ComplementaryIndices.v
theories/Model/CrossValidate.v
theories/Model/Description.v
theories/Model/Detrend.v
theories/Model/DirectLifecycle.v
theories/Model/Directions.v
theories/Model/DisjointSets.v
theories/Model/DistanceFilter.v
theories/Model/DomainDivider.v
theories/Model/FastEvaluator.v
theories/Model/FastOperator.v
theories/Model/FieldFunctions.v
theories/Model/Fmm.v
theories/Model/Generate.v
theories/Model/Gmres.v
theories/Model/Grid.v
theories/Model/GridProblem.v
theories/Model/Helpers.v
theories/Model/HonoredPoints.v
theories/Model/IncrementalFitter.v
theories/Model/InequalityFitter.v
theories/Model/Interpolant.v
theories/Model/IntersectingFaces.v
theories/Model/Io.v
theories/Model/KdTree.v
theories/Model/Lattice.v
theories/Model/LdltPacking.v
theories/Model/Levels.v
theories/Model/LinAlg.v
theories/Model/LruCache.v
theories/Model/MeshDefects.v
theories/Model/ModelArgs.v
theories/Model/ModelFiles.v
theories/Model/MonomialBasis.v
theories/Model/MoreCommands.v
theories/Model/NormalEstimator.v
theories/Model/NormalScore.v
theories/Model/Operator.v
theories/Model/Outcome.v
theories/Model/PlaneEstimator.v
theories/Model/PointTriangle.v
theories/Model/Predicates.v
theories/Model/PrimitiveLattice.v
theories/Model/Quadric.v
theories/Model/RandomPoints.v
theories/Model/RasPreconditioner.v
theories/Model/RbfHandles.v
theories/Model/RbfModel.v
theories/Model/Rbfs.v
theories/Model/Refiner.v
theories/Model/SdfData.v
theories/Model/SeedGradient.v
theories/Model/SeedTracking.v
theories/Model/Smoother.v
theories/Model/Snapper.v
theories/Model/Solver.v
theories/Model/SolverRun.v
theories/Model/SpatialGrid.v
theories/Model/Table.v
theories/Model/Thinner.v
theories/Model/Triangulation.v
theories/Model/UnisolventPointSet.v
theories/Model/Variogram.v
theories/Model/VariogramFitting.v
theories/Model/VertexClusterer.v
theories/Model/VertexPositions.v
theories/Proofs/AbstractMesh.v
theories/Proofs/ArbitrarySeed.v
theories/Proofs/ArbitrarySign.v
theories/Proofs/Bbox.v
theories/Proofs/BinaryCache.v
theories/Proofs/BoundedFit.v
theories/Proofs/BoxPlane.v
theories/Proofs/Calculus.v
theories/Proofs/Clip.v
theories/Proofs/ClipBox.v
theories/Proofs/ClipMesh.v
theories/Proofs/ClusteredFaces.v
theories/Proofs/CoarsePoints.v
theories/Proofs/Commands.v
theories/Proofs/CompactKinds.v
theories/Proofs/CompactSupport.v
theories/Proofs/ComplementaryIndices.v
theories/Proofs/Covariance.v
theories/Proofs/CrossValidate.v
theories/Proofs/DataFit.v
theories/Proofs/DataFitParts.v
theories/Proofs/Description.v
theories/Proofs/Detrend.v
theories/Proofs/Differences.v
theories/Proofs/DirectLifecycle.v
theories/Proofs/Directions.v
theories/Proofs/DirectionsCheck.v
theories/Proofs/DisjointSets.v
theories/Proofs/DistanceFilter.v
theories/Proofs/DomainDivider.v
theories/Proofs/DomainWrites.v
theories/Proofs/Domination.v
theories/Proofs/Elimination.v
theories/Proofs/FastEvaluator.v
theories/Proofs/FastOperator.v
theories/Proofs/FieldFunctions.v
theories/Proofs/Fitted.v
theories/Proofs/FittedGradient.v
theories/Proofs/FittedMoves.v
theories/Proofs/Fmm.v
theories/Proofs/FmmFailure.v
theories/Proofs/FmmSearch.v
theories/Proofs/FmmSymmetric.v
theories/Proofs/Generate.v
theories/Proofs/Gmres.v
theories/Proofs/GmresMain.v
theories/Proofs/GmresState.v
theories/Proofs/Grid.v
theories/Proofs/GridProblem.v
theories/Proofs/Helpers.v
theories/Proofs/Hermite.v
theories/Proofs/HermiteSystem.v
theories/Proofs/HermiteTerm.v
theories/Proofs/HonoredPoints.v
theories/Proofs/HonoredScan.v
theories/Proofs/HonoredTwice.v
theories/Proofs/IncrementalFitter.v
theories/Proofs/InequalityFitter.v
theories/Proofs/Interpolant.v
theories/Proofs/IntersectingFaces.v
theories/Proofs/Io.v
theories/Proofs/IoPrefix.v
theories/Proofs/Isolation.v
theories/Proofs/KdTree.v
theories/Proofs/LatticeFill.v
theories/Proofs/LatticeGeometry.v
theories/Proofs/LatticeLayers.v
theories/Proofs/LatticeMesh.v
theories/Proofs/LatticeOrient.v
theories/Proofs/LatticeRanges.v
theories/Proofs/LatticeSimplex.v
theories/Proofs/LatticeSurface.v
theories/Proofs/LatticeTets.v
theories/Proofs/LatticeVertices.v
theories/Proofs/LdltPacking.v
theories/Proofs/Levels.v
theories/Proofs/LevelsSweep.v
theories/Proofs/LinAlg.v
theories/Proofs/LruCache.v
theories/Proofs/MeshDefects.v
theories/Proofs/MeshEditing.v
theories/Proofs/MeshFan.v
theories/Proofs/MeshHistory.v
theories/Proofs/MeshSingular.v
theories/Proofs/ModelArgs.v
theories/Proofs/ModelFiles.v
theories/Proofs/MonomialBasis.v
theories/Proofs/MoreCommands.v
theories/Proofs/NormalEstimator.v
theories/Proofs/NormalOrientation.v
theories/Proofs/NormalScore.v
theories/Proofs/OneLevel.v
theories/Proofs/Operator.v
theories/Proofs/Orthonormalize.v
theories/Proofs/Pivots.v
theories/Proofs/PlaneEstimator.v
theories/Proofs/PointTriangle.v
theories/Proofs/PositiveDefinite.v
theories/Proofs/PositiveKinds.v
theories/Proofs/PositiveSystem.v
theories/Proofs/Predicates.v
theories/Proofs/PrimitiveLattice.v
theories/Proofs/Quadric.v
theories/Proofs/RandomPoints.v
theories/Proofs/RasPreconditioner.v
theories/Proofs/RbfFacts.v
theories/Proofs/RbfHandles.v
theories/Proofs/RbfModel.v
theories/Proofs/Rbfs.v
theories/Proofs/Refiner.v
theories/Proofs/SdfData.v
theories/Proofs/SeedGradient.v
theories/Proofs/SeedTracking.v
theories/Proofs/Smoother.v
theories/Proofs/SmootherBend.v
theories/Proofs/Snapper.v
theories/Proofs/SnapperPatches.v
theories/Proofs/SnapperTotal.v
theories/Proofs/Solver.v
theories/Proofs/SolverRun.v
theories/Proofs/SpatialGrid.v
theories/Proofs/SphereMoments.v
theories/Proofs/Spheroidal.v
theories/Proofs/SpheroidalStep.v
theories/Proofs/Table.v
theories/Proofs/Thinner.v
theories/Proofs/ThinnerStar.v
theories/Proofs/TriangleCases.v
theories/Proofs/TriangleIntersect.v
theories/Proofs/Triangulation.v
theories/Proofs/TriangulationEars.v
theories/Proofs/TurningBands.v
theories/Proofs/UnisolventPointSet.v
theories/Proofs/Variogram.v
theories/Proofs/VariogramFitting.v
theories/Proofs/VertexClusterer.v
theories/Proofs/VertexPositions.v
theories/Proofs/VertexQuotient.v
theories/Props/AbstractMesh.v
theories/Props/ArbitrarySign.v
theories/Props/Bbox.v
theories/Props/BinaryCache.v
theories/Props/BoundedFit.v
theories/Props/Clip.v
theories/Props/Commands.v
theories/Props/CompactKinds.v
theories/Props/ComplementaryIndices.v
theories/Props/Covariance.v
theories/Props/CrossValidate.v
theories/Props/DataFit.v
theories/Props/Description.v
theories/Props/Detrend.v
theories/Props/DirectLifecycle.v
theories/Props/Directions.v
theories/Props/DisjointSets.v
theories/Props/DistanceFilter.v
theories/Props/DomainDivider.v
theories/Props/FastEvaluator.v
theories/Props/FastOperator.v
theories/Props/FieldFunctions.v
theories/Props/Fitted.v
theories/Props/Fmm.v
theories/Props/Generate.v
theories/Props/Gmres.v
theories/Props/Grid.v
theories/Props/GridProblem.v
theories/Props/Helpers.v
theories/Props/Hermite.v
theories/Props/HonoredPoints.v
theories/Props/IncrementalFitter.v
theories/Props/InequalityFitter.v
theories/Props/Interpolant.v
theories/Props/IntersectingFaces.v
theories/Props/Io.v
theories/Props/KdTree.v
theories/Props/Lattice.v
theories/Props/LdltPacking.v
theories/Props/Levels.v
theories/Props/LevelsSweep.v
theories/Props/LruCache.v
theories/Props/MeshDefects.v
theories/Props/ModelArgs.v
theories/Props/ModelFiles.v
theories/Props/MonomialBasis.v
theories/Props/MoreCommands.v
theories/Props/NormalEstimator.v
theories/Props/NormalScore.v
theories/Props/Operator.v
theories/Props/PlaneEstimator.v
theories/Props/PointTriangle.v
theories/Props/PositiveDefinite.v
theories/Props/Predicates.v
theories/Props/PrimitiveLattice.v
theories/Props/Quadric.v
theories/Props/RandomPoints.v
theories/Props/RasPreconditioner.v
theories/Props/RbfHandles.v
theories/Props/RbfModel.v
theories/Props/Rbfs.v
theories/Props/Refiner.v
theories/Props/SdfData.v
theories/Props/SeedGradient.v
theories/Props/SeedTracking.v
theories/Props/Smoother.v
theories/Props/Snapper.v
theories/Props/Solver.v
theories/Props/SolverRun.v
theories/Props/SpatialGrid.v
theories/Props/Spheroidal.v
theories/Props/Table.v
theories/Props/Thinner.v
theories/Props/Triangulation.v
theories/Props/UnisolventPointSet.v
theories/Props/Variogram.v
theories/Props/VariogramFitting.v
theories/Props/VertexClusterer.v
theories/Props/VertexPositions.v
theories/Spec/AbstractMesh.v
theories/Spec/ArbitrarySign.v
theories/Spec/Bbox.v
theories/Spec/BinaryCache.v
theories/Spec/BoundedFit.v
theories/Spec/Clip.v
theories/Spec/Commands.v
theories/Spec/ComplementaryIndices.v
theories/Spec/CrossValidate.v
theories/Spec/DataFit.v
theories/Spec/Description.v
theories/Spec/Detrend.v
theories/Spec/DirectLifecycle.v
theories/Spec/Directions.v
theories/Spec/DisjointSets.v
theories/Spec/DistanceFilter.v
theories/Spec/DomainDivider.v
theories/Spec/FastEvaluator.v
theories/Spec/FastOperator.v
theories/Spec/FieldFunctions.v
theories/Spec/Fitted.v
theories/Spec/Fmm.v
theories/Spec/Generate.v
theories/Spec/Gmres.v
theories/Spec/Grid.v
theories/Spec/GridProblem.v
theories/Spec/Helpers.v
theories/Spec/Hermite.v
theories/Spec/HonoredPoints.v
theories/Spec/IncrementalFitter.v
theories/Spec/InequalityFitter.v
theories/Spec/Interpolant.v
theories/Spec/IntersectingFaces.v
theories/Spec/Io.v
theories/Spec/KdTree.v
theories/Spec/Lattice.v
theories/Spec/Levels.v
theories/Spec/LruCache.v
theories/Spec/MeshDefects.v
theories/Spec/ModelArgs.v
theories/Spec/ModelFiles.v
theories/Spec/MonomialBasis.v
theories/Spec/MoreCommands.v
theories/Spec/NormalEstimator.v
theories/Spec/NormalScore.v
theories/Spec/Operator.v
theories/Spec/PlaneEstimator.v
theories/Spec/PointTriangle.v
theories/Spec/PositiveDefinite.v
theories/Spec/Predicates.v
theories/Spec/PrimitiveLattice.v
theories/Spec/Quadric.v
theories/Spec/RandomPoints.v
theories/Spec/RasPreconditioner.v
theories/Spec/RbfHandles.v
theories/Spec/RbfModel.v
theories/Spec/Rbfs.v
theories/Spec/Refiner.v
theories/Spec/SdfData.v
theories/Spec/SeedGradient.v
theories/Spec/SeedTracking.v
theories/Spec/Smoother.v
theories/Spec/Snapper.v
theories/Spec/Solver.v
theories/Spec/SolverRun.v
theories/Spec/SpatialGrid.v
theories/Spec/Table.v
theories/Spec/Thinner.v
theories/Spec/Triangulation.v
theories/Spec/UnisolventPointSet.v
theories/Spec/Variogram.v
theories/Spec/VariogramFitting.v
theories/Spec/VertexClusterer.v
theories/Spec/VertexPositions.v
