-Q theories Verif
theories/AdvecProgModel.v
theories/AdvecProgProps.v
theories/AdvecProgSpec.v
theories/AdvecRunModel.v
theories/AdvecRunProofs.v
theories/AdvecRunProps.v
theories/AdvecRunSpec.v
theories/Base.v
theories/BlitzModel.v
theories/BlitzProofs.v
theories/BlitzProps.v
theories/BlitzSpec.v
theories/BuildMeshModel.v
theories/BuildMeshProofs.v
theories/BuildMeshProps.v
theories/BuildMeshSpec.v
theories/BurgersRunModel.v
theories/BurgersRunProofs.v
theories/BurgersRunProps.v
theories/BurgersRunSpec.v
theories/CscAlgProofs.v
theories/CscDenseProofs.v
theories/CscHistModel.v
theories/CscHistProofs.v
theories/CscHistSpec.v
theories/CscModel.v
theories/CscProofs.v
theories/CscProps.v
theories/CscSpec.v
theories/CsvIoProofs.v
theories/CsvModel.v
theories/CsvProofs.v
theories/CsvProps.v
theories/CsvReadProofs.v
theories/CsvSpec.v
theories/CubBadProofs.v
theories/CubCheck.v
theories/CubFacts.v
theories/CubMeshModel.v
theories/CubMeshProofs.v
theories/CubMeshProps.v
theories/CubMeshSpec.v
theories/CubModel.v
theories/CubProofs.v
theories/CubProps.v
theories/CubSpec.v
theories/CubTable.v
theories/CurvedRunModel.v
theories/CurvedRunProofs.v
theories/CurvedRunProps.v
theories/CurvedRunSpec.v
theories/CurvedSwBuiltProofs.v
theories/CurvedSwFactProofs.v
theories/CurvedSwModel.v
theories/CurvedSwProofs.v
theories/CurvedSwProps.v
theories/CurvedSwSpec.v
theories/DblProofs.v
theories/DeformModel.v
theories/DeformProofs.v
theories/DeformProps.v
theories/DeformSpec.v
theories/DenseModel.v
theories/DenseProofs.v
theories/DenseProps.v
theories/DenseSpec.v
theories/DictModel.v
theories/DictProps.v
theories/DictSpec.v
theories/FoldProofs.v
theories/GaussFaceModel.v
theories/GaussFaceProofs.v
theories/GaussFaceProps.v
theories/GaussFaceSpec.v
theories/GaussPoissonModel.v
theories/GaussPoissonProofs.v
theories/GaussPoissonProps.v
theories/GaussPoissonSpec.v
theories/GaussRuleProofs.v
theories/GllProofs.v
theories/GllProps.v
theories/GmresExactProofs.v
theories/GmresMath.v
theories/GmresMemProofs.v
theories/GmresMemProps.v
theories/GmresMemSpec.v
theories/GmresModel.v
theories/GmresPrintModel.v
theories/GmresPrintProps.v
theories/GmresPrintSpec.v
theories/GmresProofs.v
theories/GmresProps.v
theories/GmresSpec.v
theories/GreenProofs.v
theories/HeatModel.v
theories/HeatProofs.v
theories/HeatProps.v
theories/HeatSpec.v
theories/InsGridProofs.v
theories/InsModel.v
theories/InsProofs.v
theories/InsProps.v
theories/InsRunModel.v
theories/InsRunProofs.v
theories/InsSpec.v
theories/InterpProps.v
theories/JacobiExactProofs.v
theories/JacobiModel.v
theories/JacobiOrthProofs.v
theories/JacobiProofs.v
theories/JacobiProps.v
theories/JacobiQuadProofs.v
theories/JacobiSpec.v
theories/LUModel.v
theories/LUProofs.v
theories/LUProps.v
theories/LUSpec.v
theories/LiftUniqueProps.v
theories/LinSolve.v
theories/Line1DBurgersProofs.v
theories/Line1DModel.v
theories/Line1DProofs.v
theories/Line1DProps.v
theories/Line1DSpec.v
theories/Loops.v
theories/Maps2DModel.v
theories/Maps2DProofs.v
theories/Maps2DProps.v
theories/Maps2DSpec.v
theories/MeshEdgeProofs.v
theories/MeshFileProofs.v
theories/MeshFileSpec.v
theories/MeshGeoProofs.v
theories/MeshModel.v
theories/MeshProofs.v
theories/MeshProps.v
theories/MeshSpec.v
theories/MgrModel.v
theories/MgrProofs.v
theories/MgrProps.v
theories/MgrSpec.v
theories/NamelistModel.v
theories/NamelistProofs.v
theories/NamelistProps.v
theories/NamelistSpec.v
theories/Nodes1DExactProofs.v
theories/Nodes1DModel.v
theories/Nodes1DProofs.v
theories/Nodes1DProps.v
theories/Nodes1DSpec.v
theories/Nodes1DTotalProofs.v
theories/Nodes1DTotalProps.v
theories/Nodes1DTotalSpec.v
theories/Num.v
theories/NumpyModel.v
theories/NumpyOpProofs.v
theories/NumpyProofs.v
theories/NumpyProps.v
theories/NumpySpec.v
theories/PathModel.v
theories/PathProofs.v
theories/PathProps.v
theories/PathSpec.v
theories/PeriodicModel.v
theories/PeriodicProofs.v
theories/PeriodicProps.v
theories/PeriodicSpec.v
theories/Poisson1DProofs.v
theories/Poisson1DProps.v
theories/Poisson1DRunModel.v
theories/Poisson1DRunProofs.v
theories/Poisson1DRunProps.v
theories/Poisson1DRunSpec.v
theories/Poisson1DSpec.v
theories/Poisson2dModel.v
theories/Poisson2dProofs.v
theories/Poisson2dProps.v
theories/Poisson2dRunModel.v
theories/Poisson2dRunProofs.v
theories/Poisson2dRunProps.v
theories/Poisson2dSpec.v
theories/PoissonBlockProofs.v
theories/PoissonCoerciveProofs.v
theories/PoissonCoerciveProps.v
theories/PoissonEnergySpec.v
theories/PoissonExactProofs.v
theories/PoissonFormProofs.v
theories/PoissonLoadSpec.v
theories/PoissonModel.v
theories/PoissonProofs.v
theories/PoissonProps.v
theories/PoissonQuadProofs.v
theories/PoissonQuadProps.v
theories/PoissonQuadSpec.v
theories/PoissonRhsModel.v
theories/PoissonRhsProofs.v
theories/PoissonRhsProps.v
theories/PoissonSpec.v
theories/PoissonTripletProofs.v
theories/PySwModel.v
theories/PySwProofs.v
theories/PySwProps.v
theories/PySwRunProofs.v
theories/PySwSpec.v
theories/QuadBalProofs.v
theories/QuadBasisProofs.v
theories/QuadConsProofs.v
theories/QuadElemProofs.v
theories/QuadFiltProofs.v
theories/QuadGeoProofs.v
theories/QuadGradProofs.v
theories/QuadGradProps.v
theories/QuadInterpProofs.v
theories/QuadMapsProofs.v
theories/QuadMapsProps.v
theories/QuadModel.v
theories/QuadNodesProofs.v
theories/QuadOpProofs.v
theories/QuadProps.v
theories/QuadRunModel.v
theories/QuadRunProofs.v
theories/QuadRunProps.v
theories/QuadRunSpec.v
theories/QuadSetup.v
theories/QuadSpec.v
theories/QuadSplitProps.v
theories/QuadVolProofs.v
theories/QuadVolProps.v
theories/QuadVolSpec.v
theories/QuadWitness.v
theories/RKModel.v
theories/RKProofs.v
theories/RKProps.v
theories/RKSpec.v
theories/ReconModel.v
theories/ReconProps.v
theories/SemGridProofs.v
theories/SemModel.v
theories/SemProofs.v
theories/SemProps.v
theories/SplitModel.v
theories/SplitProofs.v
theories/SplitProps.v
theories/SplitSpec.v
theories/Sw2dRunModel.v
theories/Sw2dRunProps.v
theories/SwDepthProofs.v
theories/SwDtProofs.v
theories/SwModel.v
theories/SwProofs.v
theories/SwProps.v
theories/SwRunProofs.v
theories/SwSchemeProofs.v
theories/SwScriptModel.v
theories/SwScriptProofs.v
theories/SwScriptProps.v
theories/SwScriptSpec.v
theories/SwSetupModel.v
theories/SwSetupProofs.v
theories/SwSetupProps.v
theories/SwSetupSpec.v
theories/SwSimpleRunModel.v
theories/SwSimpleRunProps.v
theories/SwSpec.v
theories/SwStepModel.v
theories/SwStepProofs.v
theories/SwStepProps.v
theories/SwStepSpec.v
theories/SwVolProofs.v
theories/TraceProofs.v
theories/TriBasisProofs.v
theories/TriDGProofs.v
theories/TriDGSpec.v
theories/TriElemProofs.v
theories/TriFaceProofs.v
theories/TriFilterProofs.v
theories/TriGeoProofs.v
theories/TriGeoSpec.v
theories/TriLiftProofs.v
theories/TriMapsProofs.v
theories/TriMapsProps.v
theories/TriMaskProofs.v
theories/TriModel.v
theories/TriNodesProofs.v
theories/TriOpProofs.v
theories/TriProofs.v
theories/TriProps.v
theories/TriSetup.v
theories/TriSpec.v
theories/TriWitness.v
theories/TripletModel.v
theories/TripletProofs.v
theories/TripletProps.v
theories/TripletSpec.v
theories/UniqueProofs.v
