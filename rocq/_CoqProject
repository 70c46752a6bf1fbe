-Q theories Verif
theories/Mem.v
theories/MemLemmas.v
theories/DequeModel.v
theories/DequeSpec.v
theories/DequeProofs.v
theories/DequeProofs2.v
theories/DequeProofs3.v
theories/DequeProps.v
theories/SmallModel.v
theories/SmallSpec.v
theories/SmallProofs.v
theories/SmallProofs2.v
theories/SmallProps.v
theories/UniqueModel.v
theories/UniqueSpec.v
theories/UniqueProofs.v
theories/UniqueProps.v
theories/ArithModel.v
theories/ArithSpec.v
theories/ArithProofs.v
theories/ArithProps.v
theories/WordModel.v
theories/RandModel.v
theories/RandSpec.v
theories/WordLemmas.v
theories/BelowProofs.v
theories/LcgProofs.v
theories/XoshiroProofs.v
theories/RandProofs.v
theories/MTProofs.v
theories/RandProofs2.v
theories/RandProps.v
theories/HashModel.v
theories/HashSpec.v
theories/HashProofs.v
theories/HashProps.v
theories/GridModel.v
theories/GridSpec.v
theories/GridProofs.v
theories/GridProps.v
theories/LayoutModel.v
theories/LayoutProofs.v
theories/LayoutProps.v
theories/RasterModel.v
theories/RasterSpec.v
theories/RasterProofs.v
theories/RasterProofs2.v
theories/RasterProps.v
theories/Ord.v
theories/RectModel.v
theories/RectSpec.v
theories/RectProofs.v
theories/RectArithModel.v
theories/RectArithProofs.v
theories/RectIntProofs.v
theories/RectProps.v
theories/PermModel.v
theories/PermSpec.v
theories/PermProofs.v
theories/PermCycleProofs.v
theories/PermSignProofs.v
theories/PermCacheProofs.v
theories/PermProps.v
theories/Fld.v
theories/FldLemmas.v
theories/LinSpec.v
theories/PluModel.v
theories/PluProofs.v
theories/SolveProofs.v
theories/DetProofs.v
theories/DetInvModel.v
theories/DetInvProofs.v
theories/InvRawProofs.v
theories/PluProps.v
theories/DetInvProps.v
theories/RFld.v
theories/RLinSpec.v
theories/CholModel.v
theories/CholProofs.v
theories/CholProps.v
theories/OrthoModel.v
theories/OrthoProofs.v
theories/NullProofs.v
theories/OrthoProps.v
theories/MulModel.v
theories/MulSpec.v
theories/MulProofs.v
theories/MulTransMore.v
theories/MulProps.v
theories/Vec3Model.v
theories/QuatModel.v
theories/GeoSpec.v
theories/QuatProofs.v
theories/QuatProps.v
theories/Vec2Model.v
theories/Vec3Proofs.v
theories/Vec3Props.v
theories/AffineModel.v
theories/AffineSpec.v
theories/AffineProofs.v
theories/AffineRotProofs.v
theories/AffineProps.v
theories/DualModel.v
theories/DualSpec.v
theories/DualProofs.v
theories/DualDefProofs.v
theories/DualProps.v
theories/PerlinModel.v
theories/PerlinSpec.v
theories/PerlinProofs.v
theories/PerlinDiffProofs.v
theories/PerlinHashProofs.v
theories/PerlinProps.v
theories/VecNModel.v
theories/VecNSpec.v
theories/VecNProofs.v
theories/VecNProps.v
theories/RayModel.v
theories/RaySpec.v
theories/RayProofs.v
theories/RayXfProofs.v
theories/RayProps.v
theories/RealUtilModel.v
theories/RealUtilSpec.v
theories/RealUtilProofs.v
theories/RealUtilProps.v
theories/BasisModel.v
theories/BasisSpec.v
theories/BasisProofs.v
theories/BasisProps.v
theories/PathModel.v
theories/PathSpec.v
theories/PathProofs.v
theories/PathProps.v
theories/ZonalModel.v
theories/ZonalSpec.v
theories/ZonalProofs.v
theories/ZonalProps.v
theories/ShModel.v
theories/ShSpec.v
theories/ShProofs.v
theories/ShFnProofs.v
theories/ShFn2Proofs.v
theories/ShProps.v
theories/ShapeSpec.v
theories/ShapeProofs.v
theories/SphereModel.v
theories/SphereProofs.v
theories/SphereProps.v
theories/PlaneModel.v
theories/PlaneProofs.v
theories/PlaneProps.v
theories/CapsuleModel.v
theories/CapsuleProofs.v
theories/CapsuleProps.v
theories/CylinderModel.v
theories/CylinderProofs.v
theories/CylinderProps.v
theories/SolidSpec.v
theories/SolidProofs.v
theories/SolidModel.v
theories/DilatedProofs.v
theories/DefaultsProps.v
theories/DilatedProps.v
theories/ExtrudedModel.v
theories/ExtrudedProofs.v
theories/ExtrudedProps.v
theories/FrustumModel.v
theories/FrustumProofs.v
theories/FrustumProps.v
theories/OrientedModel.v
theories/OrientedSpec.v
theories/OrientedProofs.v
theories/OrientedProps.v
theories/SimplexModel.v
theories/SimplexSpec.v
theories/SimplexProofs.v
theories/SimplexProps.v
theories/SimplexProjModel.v
theories/SimplexProjSpec.v
theories/SimplexProjProofs.v
theories/SimplexProjProps.v
theories/GjkModel.v
theories/GjkSpec.v
theories/GjkProofs.v
theories/GjkProps.v
theories/SatModel.v
theories/SatSpec.v
theories/SatProofs.v
theories/SatProps.v
theories/SamplerModel.v
theories/SamplerSpec.v
theories/SamplerProofs.v
theories/SamplerProps.v
theories/TreeModel.v
theories/TreeSpec.v
theories/TreeProofs.v
theories/TreeInv.v
theories/TreeOps.v
theories/TreeSplit.v
theories/TreeErase.v
theories/TreeFacts.v
theories/TreeMore.v
theories/TreeProps.v
theories/LatticeModel.v
theories/LatticeSpec.v
theories/LatticeProofs.v
theories/LatticeProps.v
theories/FlatMore.v
theories/FlatModel.v
theories/FlatSpec.v
theories/FlatProofs.v
theories/FlatProps.v
theories/FmaModel.v
theories/FmaSpec.v
theories/FmaProofs.v
theories/FmaProps.v
theories/ShareModel.v
theories/ShareSpec.v
theories/ShareProofs.v
theories/ShareSteps.v
theories/ShareMore.v
theories/ShareProps.v
theories/FquadModel.v
theories/FquadSpec.v
theories/FquadProofs.v
theories/FquadMore.v
theories/FquadProps.v
theories/FvecModel.v
theories/FvecSpec.v
theories/FvecProofs.v
theories/FvecMore.v
theories/FvecAcc.v
theories/FvecProps.v
theories/FutilModel.v
theories/FutilSpec.v
theories/FutilProofs.v
theories/FutilMore.v
theories/FutilProps.v
theories/FrandModel.v
theories/FrandSpec.v
theories/FrandProofs.v
theories/FrandProps.v
theories/FconvModel.v
theories/FconvSpec.v
theories/FconvProofs.v
theories/FconvProps.v
theories/PerlinInitModel.v
theories/PerlinInitProofs.v
theories/PerlinInitProps.v
theories/MiterModel.v
theories/MiterSpec.v
theories/MiterProofs.v
theories/MiterProps.v
theories/FmtxModel.v
theories/FmtxSpec.v
theories/FmtxProofs.v
theories/FmtxProps.v
theories/FmtxMore.v
theories/FmtxWit.v
theories/FboxMore.v
theories/FboxWit.v
theories/FboxModel.v
theories/FboxSpec.v
theories/FboxProofs.v
theories/FboxProps.v
theories/IboxModel.v
theories/IboxSpec.v
theories/IboxProofs.v
theories/IboxProps.v
theories/IdxModel.v
theories/IdxSpec.v
theories/IdxProofs.v
theories/IdxMore.v
theories/IdxProps.v
theories/FqnModel.v
theories/FqnSpec.v
theories/FqnProofs.v
theories/FqnProps.v
theories/FsphModel.v
theories/FsphProofs.v
theories/FsphMore.v
theories/FsphWit.v
theories/FsphProps.v
theories/FsrModel.v
theories/FsrSpec.v
theories/FsrProofs.v
theories/FsrMore.v
theories/FsrWit.v
theories/FsrProps.v
theories/FinvModel.v
theories/FinvSpec.v
theories/FinvProofs.v
theories/FinvMore.v
theories/FinvWit.v
theories/FinvProps.v
theories/FcholModel.v
theories/FcholSpec.v
theories/FcholProofs.v
theories/FcholMore.v
theories/FcholWit.v
theories/FcholProps.v
theories/FsolveModel.v
theories/FsolveSpec.v
theories/FsolveProofs.v
theories/FsolveMore.v
theories/FsolveWit.v
theories/FsolveProps.v
theories/FpluModel.v
theories/FpluSpec.v
theories/FpluProofs.v
theories/FpluMore.v
theories/FpluWit.v
theories/FpluProps.v
theories/FlsysModel.v
theories/FlsysSpec.v
theories/FlsysProofs.v
theories/FlsysWit.v
theories/FlsysProps.v
theories/FlupModel.v
theories/FlupProofs.v
theories/FlupWit.v
theories/FlupProps.v
theories/FinvnModel.v
theories/FinvnSpec.v
theories/FinvnProofs.v
theories/FinvnWit.v
theories/FinvnProps.v
theories/ForthModel.v
theories/ForthSpec.v
theories/ForthProofs.v
theories/ForthWit.v
theories/ForthProps.v
theories/FnullModel.v
theories/FnullSpec.v
theories/FnullProofs.v
theories/FnullWit.v
theories/FnullProps.v
theories/FprojModel.v
theories/FprojSpec.v
theories/FprojProofs.v
theories/FprojWit.v
theories/FprojProps.v
theories/FgsModel.v
theories/FgsSpec.v
theories/FgsProofs.v
theories/FgsWit.v
theories/FgsProps.v
theories/FonModel.v
theories/FonProofs.v
theories/FonProps.v
theories/FsubModel.v
theories/FsubProofs.v
theories/FsubProps.v
