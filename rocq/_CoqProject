-Q theories Verif
theories/Model/Py.v
theories/Model/IsMember.v
theories/Model/Config.v
theories/Spec/ConfigSpec.v
theories/Proof/IsMemberProof.v
theories/Proof/ConfigProof.v
theories/Props/ConfigProps.v
theories/Model/NP.v
theories/Proof/NPLib.v
theories/Model/Compare.v
theories/Spec/CompareSpec.v
theories/Proof/CompareProof.v
theories/Props/CompareProps.v
theories/Model/Dict.v
theories/Spec/DictSpec.v
theories/Proof/DictProof.v
theories/Props/DictProps.v
theories/Props/LaProps.v
theories/Model/Linalg.v
theories/Model/La.v
theories/Spec/MatSpec.v
theories/Spec/LinalgSpec.v
theories/Proof/MatLib.v
theories/Proof/LaBasic.v
theories/Spec/OrthSpec.v
theories/Proof/OrthLib.v
theories/Proof/OrthProof.v
theories/Proof/Decomp.v
theories/Proof/LinalgSat.v
theories/Model/NP3.v
theories/Model/Gen.v
theories/Spec/GenSpec.v
theories/Proof/NP3Lib.v
theories/Proof/GenProof.v
theories/Proof/SortProof.v
theories/Props/GenProps.v
theories/Model/EllGeom.v
theories/Spec/EllSpec.v
theories/Proof/EllLib.v
theories/Proof/EllGeomProof.v
theories/Props/EllGeomProps.v
theories/Model/Core.v
theories/Model/Ellipsoid.v
theories/Model/Hyperplane.v
theories/Spec/EllipsoidSpec.v
theories/Spec/HypSpec.v
theories/Proof/RankLib.v
theories/Proof/EllipsoidProof.v
theories/Proof/EllScalProof.v
theories/Proof/EllScalEx.v
theories/Proof/CoreProof.v
theories/Proof/CoreEx.v
theories/Props/EllipsoidProps.v
theories/Props/CoreProps.v
theories/Proof/RegProof.v
theories/Proof/MinksumProof.v
theories/Proof/MinkIaProof.v
theories/Proof/OpsEx.v
theories/Proof/PolarProof.v
theories/Proof/PolarEx.v
theories/Proof/HypProof.v
theories/Proof/HypOps.v
theories/Proof/HypEx.v
theories/Props/EllOpsProps.v
theories/Props/HypProps.v
theories/Model/Tri.v
theories/Model/Sphere.v
theories/Spec/TriSpec.v
theories/Spec/SphereSpec.v
theories/Proof/TriMap.v
theories/Proof/TriStep.v
theories/Proof/TriRefine.v
theories/Proof/TriFull.v
theories/Proof/TriLoop.v
theories/Proof/TriShrink.v
theories/Proof/TriTop.v
theories/Proof/TriVerts.v
theories/Proof/TriRun.v
theories/Proof/TriDec.v
theories/Proof/TriEx.v
theories/Proof/SphereProof.v
theories/Proof/Icosa.v
theories/Proof/SphereExt.v
theories/Proof/SphereEx.v
theories/Props/SphereProps.v
theories/Props/TriProps.v
theories/Model/TriEq.v
theories/Spec/TriEqSpec.v
theories/Proof/TriFace.v
theories/Proof/TriFace2.v
theories/Proof/TriEqual.v
theories/Proof/TubeProof.v
theories/Props/TriEqProps.v
theories/Model/SpherePart.v
theories/Spec/PartSpec.v
theories/Proof/PartProof.v
theories/Proof/SphereFan.v
theories/Proof/SphereFan2.v
theories/Proof/SphereIco.v
theories/Proof/SphereIco2.v
theories/Proof/PartProof2.v
theories/Proof/PartSep.v
theories/Proof/PartEx.v
theories/Props/PartProps.v
theories/Model/EllEq.v
theories/Spec/EllEqSpec.v
theories/Proof/EllEqProof.v
theories/Proof/EllEqEx.v
theories/Props/EllEqProps.v
theories/Model/Throw.v
theories/Spec/ThrowSpec.v
theories/Proof/ThrowProof.v
theories/Props/ThrowProps.v
theories/Model/EllHeap.v
theories/Spec/EllHeapSpec.v
theories/Proof/EllHeapProof.v
theories/Proof/ProjProof.v
theories/Proof/ProjEx.v
theories/Props/EllHeapProps.v
theories/Model/Sym.v
theories/Spec/SymSpec.v
theories/Proof/SymProof.v
theories/Props/SymProps.v
theories/Model/Sup.v
theories/Spec/SupSpec.v
theories/Proof/SupProof.v
theories/Props/SupProps.v
theories/Model/Boundary.v
theories/Spec/BoundarySpec.v
theories/Proof/BoundaryProof.v
theories/Proof/BoundaryEx.v
theories/Props/BoundaryProps.v
theories/Model/SupDiff.v
theories/Spec/SupDiffSpec.v
theories/Proof/SupDiffProof.v
theories/Proof/SupDiff3.v
theories/Proof/SupDiffCheck.v
theories/Proof/SupDiffEx.v
theories/Props/SupDiffProps.v
theories/Model/GetProp.v
theories/Spec/GetPropSpec.v
theories/Proof/GetPropProof.v
theories/Props/GetPropProps.v
theories/Model/Fusion.v
theories/Spec/FusionSpec.v
theories/Proof/FusionProof.v
theories/Props/FusionProps.v
theories/Proof/PolarDirect.v
theories/Props/PolarDirectProps.v
theories/Model/Grid.v
theories/Spec/GridSpec.v
theories/Proof/GridProof.v
theories/Props/GridProps.v
theories/Spec/RhoSpec.v
theories/Proof/RhoProof.v
theories/Props/RhoProps.v
theories/Model/CalcDiff.v
theories/Spec/CalcDiffSpec.v
theories/Proof/CalcDiffProof.v
theories/Props/CalcDiffProps.v
theories/Proof/HypDictProof.v
theories/Props/HypDictProps.v
theories/Model/Buffers.v
theories/Spec/BufferSpec.v
theories/Proof/BufferProof.v
theories/Props/BufferProps.v
theories/Spec/LawSpec.v
theories/Proof/LawProof.v
theories/Proof/LawEx.v
theories/Props/LawProps.v
theories/Spec/StackLawSpec.v
theories/Proof/StackLawProof.v
theories/Props/StackLawProps.v
theories/Model/TypeCheck.v
theories/Spec/TypeCheckSpec.v
theories/Proof/TypeCheckProof.v
theories/Props/TypeCheckProps.v
theories/Model/Logging.v
theories/Spec/LoggingSpec.v
theories/Proof/LoggingProof.v
theories/Props/LoggingProps.v
theories/Proof/OrderProof.v
theories/Props/OrderProps.v
theories/Proof/OrthLawProof.v
theories/Props/OrthLawProps.v
theories/Proof/SqrtLawProof.v
theories/Props/SqrtLawProps.v
theories/Model/Operators.v
theories/Proof/OperatorsProof.v
theories/Props/OperatorsProps.v
theories/Proof/MonoProof.v
theories/Props/MonoProps.v
theories/Proof/SandwichProof.v
theories/Props/SandwichProps.v
theories/Proof/PolarLawProof.v
theories/Props/PolarLawProps.v
theories/Proof/ParallelLawProof.v
theories/Props/ParallelLawProps.v
theories/Proof/ContainsLawProof.v
theories/Props/ContainsLawProps.v
theories/Proof/InternalLawProof.v
theories/Props/InternalLawProps.v
