-Q theories Verif
theories/Base.v
theories/Spec.v
theories/LinAlg.v
theories/Cone.v
theories/Bits.v
theories/FmeCore.v
theories/ListUtil.v
theories/Gauss.v
theories/FmePure.v
theories/FmeFacets.v
theories/FmeReduce.v
theories/FmePrepare.v
theories/FmeCorrect.v
theories/PropertiesFme.v
theories/BitsetModel.v
theories/BitsetProofs.v
theories/PopcountProofs.v
theories/ArithModel.v
theories/MatrixModel.v
theories/FmeModel.v
theories/Refine.v
theories/MatrixRefine.v
theories/FmeRefine.v
theories/SafeIntModel.v
theories/SafeIntProofs.v
theories/IntTypes.v
theories/FmeTheorems.v
theories/Span.v
theories/DimTheorems.v
theories/NormTheorems.v
theories/HeuristicTheorems.v
theories/Samples.v
theories/BitsetTheorems.v
theories/PropertiesBits.v
theories/PropertiesInt.v
theories/ClassesModel.v
theories/RotationModel.v
theories/Adjacency.v
theories/RotatePure.v
theories/RotateRefine.v
theories/Climb.v
theories/NormalForm.v
theories/RotationTheorems.v
theories/ThreeFacets.v
theories/PropertiesRotation.v
theories/ListModel.v
theories/ListProofs.v
theories/ListProtocol.v
theories/ListTheorems.v
theories/ListExec.v
theories/PropertiesList.v
theories/ClassesProofs.v
theories/ApplyTheorems.v
theories/OrbitTheorems.v
theories/PropertiesMaps.v
theories/MapModel.v
theories/MapProofs.v
theories/MapNormalize.v
theories/PropertiesNormalize.v
theories/BigIntModel.v
theories/BigIntLimbs.v
theories/BigIntProofs.v
theories/BigIntMul.v
theories/BigIntDiv.v
theories/BigIntShift.v
theories/BigArith.v
theories/Param.v
theories/TypeOrder.v
theories/PropertiesBig.v
theories/PropertiesShift.v
theories/VertexTheorems.v
theories/PropertiesVertex.v
theories/RowLcm.v
theories/PropertiesLcm.v
theories/Rank.v
theories/ValidityModel.v
theories/ValidityProofs.v
theories/PropertiesValidity.v
theories/SortModel.v
theories/SortProofs.v
theories/PropertiesSort.v
theories/StreamModel.v
theories/CliModel.v
theories/StreamProofs.v
theories/PropertiesCli.v
theories/InputModel.v
theories/InputProofs.v
theories/InputTotal.v
theories/IntLcm.v
theories/VertexInput.v
theories/PropertiesVertices.v
theories/ConstraintModel.v
theories/ConstraintInput.v
theories/ConstraintSection.v
theories/PropertiesConstraints.v
theories/OutputModel.v
theories/OutputProofs.v
theories/PropertiesOutput.v
theories/Hull.v
theories/Corners.v
theories/PropertiesProgram.v
theories/FileModel.v
theories/MapInput.v
theories/MapImages.v
theories/Expand.v
theories/ExpandMaps.v
theories/FileProofs.v
theories/HullSame.v
theories/FileInput.v
theories/PropertiesFile.v
theories/SystemFile.v
theories/KnownFile.v
theories/PropertiesSystem.v
theories/CommModel.v
theories/CommProofs.v
theories/PropertiesComm.v
theories/MpiModel.v
theories/MpiProofs.v
theories/PropertiesMpi.v
theories/Symmetry.v
theories/AdModel.v
theories/TypedModel.v
theories/TypedAdModel.v
theories/VertexAdModel.v
theories/MainModel.v
theories/SafeClasses.v
theories/SafeFacets.v
theories/ModeDetection.v
theories/PropertiesMain.v
theories/ListKnown.v
theories/OrbitExact.v
theories/AdTheorems.v
theories/AdRun.v
theories/PropertiesAd.v
theories/VertexSymmetry.v
theories/VertexImages.v
theories/PropertiesReduced.v
theories/PropertiesMapFile.v
theories/PropertiesRoundTrip.v
theories/TypedProofs.v
theories/InputRange.v
theories/PropertiesInf.v
theories/PropertiesTypes.v
theories/VertexGraph.v
theories/VertexEdge.v
theories/VertexAd.v
theories/VertexAdExact.v
theories/PropertiesVertexAd.v
theories/PropertiesMainAd.v
theories/PropertiesKnown.v
theories/Checked.v
theories/CheckedFile.v
theories/PropertiesCheck.v
theories/PropertiesExpand.v
theories/PropertiesExpandSystem.v
theories/ListRuns.v
theories/TypedAdProofs.v
theories/PropertiesTypesAd.v
theories/Lines.v
theories/PropertiesLines.v
theories/LineEdge.v
theories/LineGraph.v
theories/LineAd.v
theories/PropertiesLinesAd.v
theories/PropertiesLinesMain.v
theories/PropertiesReducedAgain.v
theories/PropertiesReducedFacets.v
theories/GaussSame.v
theories/ConeSame.v
theories/PropertiesSame.v
theories/PropertiesSameAd.v
theories/PropertiesResume.v
theories/PropertiesResumeVertices.v
theories/Coordinates.v
theories/PropertiesCoordinates.v
theories/PropertiesCoordinatesFile.v
theories/PropertiesImages.v
theories/PropertiesTerms.v
