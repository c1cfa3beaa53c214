-Q theories Verif

theories/Base.v
theories/ModArith.v
theories/MultiIndex.v
theories/MultiIndexFacts.v
theories/MultiCapFacts.v
theories/MultiIndexObj.v
theories/MultiIndexCache.v
theories/Prop_MultiIndex.v
theories/Permutations.v
theories/PermFacts.v
theories/CycleFacts.v
theories/PermEnum.v
theories/PermMisc.v
theories/SetTheory.v
theories/Prop_Permutations.v
theories/Simplicial.v
theories/Orient.v
theories/ChainFacts.v
theories/SimplicialFacts.v
theories/SimplicialFacts2.v
theories/TriMeshFacts.v
theories/Prop_Simplicial.v
theories/LocalToGlobal.v
theories/LocalToGlobalFacts.v
theories/LocalToGlobalSim.v
theories/LocalToGlobalCont.v
theories/LocalToGlobalProps.v
theories/Prop_LocalToGlobal.v
theories/Fld.v
theories/CodeGen.v
theories/CodeGenFacts.v
theories/LinSolve.v
theories/MultiCoef.v
theories/MultiCoefFacts.v
theories/LagrangeCache.v
theories/Poly.v
theories/Unisolv.v
theories/PolyFacts.v
theories/LagFacts.v
theories/PolyEval.v
theories/PolyOps.v
theories/PolyOpsB.v
theories/PolyDeriv.v
theories/PolyObj.v
theories/PolyPow.v
theories/FldInst.v
theories/PolyCalls.v
theories/Prop_Poly.v
theories/IntegralCache.v
theories/Integrate.v
theories/SimplexInt.v
theories/SimplexPos.v
theories/IntFacts.v
theories/IntReal.v
theories/IntPos.v
theories/ExNum.v
theories/Prop_Integral.v
theories/WordCount.v
theories/Prop_MultiCoef.v
theories/HasInt.v
theories/QHom.v
theories/Gram.v
theories/Bases.v
theories/DualOne.v
theories/BasesFacts.v
theories/DerivFacts.v
theories/BasesCalls.v
theories/BasesMore.v
theories/BasesReal.v
theories/Prop_Bases.v
theories/Aabb.v
theories/AabbFacts.v
theories/KdTree.v
theories/KdFacts.v
theories/KdProps.v
theories/KdMesh.v
theories/Prop_Aabb.v
theories/Prop_KdTree.v
theories/Mesh.v
theories/MeshFacts.v
theories/MeshNum.v
theories/MeshGeo.v
theories/MeshVerts.v
theories/MeshProps.v
theories/Prop_Mesh.v
theories/Det.v
theories/Linalg.v
theories/VecFacts.v
theories/SimplexGeo.v
theories/SimplexFacts.v
theories/GramSchmidt.v
theories/SimplexMetric.v
theories/SimplexInside.v
theories/SimplexVolume.v
theories/SimplexCenters.v
theories/SimplexEquilateral.v
theories/SimplexSigned.v
theories/SimplexUnit.v
theories/Prop_Simplex.v
theories/AffineFacts.v
theories/Prop_Affine.v
theories/PolySimplex.v
theories/SubstFacts.v
theories/PolySimplexFacts.v
theories/PolySimplexCalls.v
theories/PolySimplexMul.v
theories/Prop_PolySimplex.v
theories/Baldoni.v
theories/HomogInt.v
theories/PolySimplexInt.v
theories/SimplexIntReal.v
theories/Prop_PolySimplexInt.v
theories/FaceFacts.v
theories/FaceValues.v
theories/PiecewisePoly.v
theories/PiecewiseMap.v
theories/PiecewiseFacts.v
theories/PiecewiseOps.v
theories/PiecewiseOps2.v
theories/PiecewiseOps3.v
theories/PiecewiseCall.v
theories/PiecewiseWeak.v
theories/PiecewiseBases.v
theories/PiecewiseFix.v
theories/Prop_Piecewise.v
theories/Quadrature.v
theories/QuadFacts.v
theories/QuadReal.v
theories/Prop_Quadrature.v
theories/RVec.v
theories/Angle.v
theories/AngleFacts.v
theories/Prop_Angle.v
theories/Rotation.v
theories/RotFacts.v
theories/Prop_Rotation.v
theories/Triangle.v
theories/TriFacts.v
theories/Prop_Triangle.v
theories/Basis.v
theories/BasisFacts.v
theories/Prop_Basis.v
theories/FiniteDiff.v
theories/FiniteDiffFacts.v
theories/Prop_FiniteDiff.v
theories/Sampling.v
theories/SamplingFacts.v
theories/Prop_Sampling.v
theories/PolyEqual.v
theories/ZeroCount.v
theories/PolyEqualFacts.v
theories/Prop_PolyEqual.v
theories/MeshNormals.v
theories/MeshNormalsFacts.v
theories/Prop_MeshNormals.v
theories/DerivArray.v
theories/Prop_DerivArray.v
theories/PointCloud.v
theories/PointCloudFacts.v
theories/Prop_PointCloud.v
theories/Prop_PrincipalAxis.v
theories/StrUtils.v
theories/Prop_StrUtils.v
theories/NumStr.v
theories/Prop_NumStr.v
theories/CodeWriter.v
theories/Prop_CodeWriter.v
theories/Latex.v
theories/LatexRead.v
theories/LatexFacts.v
theories/Prop_Latex.v
theories/MidpointInt.v
theories/MidpointGrid.v
theories/MidpointSums.v
theories/Midpoint.v
theories/MidpointFacts.v
theories/Prop_Midpoint.v
theories/SimplexCont.v
theories/Adaptive.v
theories/AdaptiveFacts.v
theories/Prop_Adaptive.v
theories/LatexCompact.v
theories/Prop_LatexCompact.v
theories/LagrangeText.v
theories/Prop_LatexLagrange.v
theories/Repr.v
theories/Prop_Repr.v
theories/Counts.v
theories/Prop_Counts.v
theories/Degenerate.v
theories/DegenFacts.v
theories/Prop_Degenerate.v
theories/Identifier.v
theories/Prop_Identifier.v
theories/Keys.v
theories/Prop_Keys.v
theories/SourceFiles.v
theories/Prop_SourceFiles.v
theories/GenNames.v
theories/Prop_GenNames.v
theories/CodeStr.v
theories/Prop_CodeStr.v
