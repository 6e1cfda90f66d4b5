-Q theories Verif

theories/AdjModel.v
theories/AdjProofs.v
theories/AdjThms.v
theories/BatchEx.v
theories/BatchExpCor.v
theories/BatchExport.v
theories/BatchNormModel.v
theories/BatchNormProofs.v
theories/BatchThms.v
theories/BiasCor.v
theories/BiasThms.v
theories/BlocksCor.v
theories/BlocksEx.v
theories/BlocksFwd.v
theories/BlocksInfo.v
theories/BlocksModel.v
theories/BlocksPlan.v
theories/BlocksProofs.v
theories/BlocksThms.v
theories/BlocksValue.v
theories/BranchProofs.v
theories/CGProofs.v
theories/CGThms.v
theories/CacheModel.v
theories/CacheProofs.v
theories/CacheThms.v
theories/CharModel.v
theories/CharProofs.v
theories/CharRestrict.v
theories/CharThms.v
theories/CnnEx.v
theories/CnnModel.v
theories/CnnProofs.v
theories/CnnThms.v
theories/CompleteCor.v
theories/CompleteEx.v
theories/CompleteLinear.v
theories/CompletePlanar.v
theories/CompleteThms.v
theories/ConcatThms.v
theories/ConvThms.v
theories/DeltaModel.v
theories/DeltaProofs.v
theories/DeltaThms.v
theories/DisEx.v
theories/DisModel.v
theories/DisProofs.v
theories/DisThms.v
theories/DropoutModel.v
theories/DropoutProofs.v
theories/EndoProofs.v
theories/ExhaustProofs.v
theories/ExportCor.v
theories/ExportEx.v
theories/ExportModel.v
theories/ExportThms.v
theories/FNormModel.v
theories/FNormProofs.v
theories/FieldMapEx.v
theories/FieldMapModel.v
theories/FieldMapProofs.v
theories/FieldMapThms.v
theories/FieldModel.v
theories/FieldNormEx.v
theories/FieldNormThms.v
theories/FieldProofs.v
theories/FieldThms.v
theories/FinGroupModel.v
theories/FinGroupProofs.v
theories/FourierCor.v
theories/FourierEnd.v
theories/FourierEqv.v
theories/FourierEx.v
theories/FourierFin.v
theories/FourierModel.v
theories/FourierProofs.v
theories/FourierThms.v
theories/GNormCor.v
theories/GNormEx.v
theories/GNormExport.v
theories/GNormProofs.v
theories/GNormRun.v
theories/GNormThms.v
theories/GSpaceEx.v
theories/GSpaceModel.v
theories/GSpaceProofs.v
theories/GSpaceThms.v
theories/Gated1Thms.v
theories/Gated3Thms.v
theories/GatedThms.v
theories/GenModel.v
theories/GenProofs.v
theories/GenSame.v
theories/GenThms.v
theories/GridModel.v
theories/GridProofs.v
theories/GridThms.v
theories/GroupedModel.v
theories/GroupedProofs.v
theories/HeModel.v
theories/HeProofs.v
theories/HomCor.v
theories/HomEx.v
theories/HomModel.v
theories/HomPlanar.v
theories/HomProofs.v
theories/HomRun.v
theories/HomSharp.v
theories/HomSpCor.v
theories/HomSpModel.v
theories/HomSpProofs.v
theories/HomSpThms.v
theories/HomThms.v
theories/IGatedEx.v
theories/IGatedModel.v
theories/IGatedProofs.v
theories/IGatedThms.v
theories/IIDCor.v
theories/IIDEx.v
theories/IIDExport.v
theories/IIDThms.v
theories/INormThms.v
theories/ImageEx.v
theories/ImageModel.v
theories/ImageProofs.v
theories/IndBNCor.v
theories/IndBNEx.v
theories/IndBNModel.v
theories/IndBNThms.v
theories/IndEx.v
theories/IndFinModel.v
theories/IndModel.v
theories/IndPlanar.v
theories/IndProofs.v
theories/IndThms.v
theories/InnerBNCor.v
theories/InnerBNThms.v
theories/IrrIdModel.v
theories/IrrIdProofs.v
theories/IrrepModel.v
theories/IrrepProofs.v
theories/IrrepThms.v
theories/KernelCor.v
theories/KernelEx.v
theories/KernelModel.v
theories/KernelPlanar.v
theories/KernelPoint.v
theories/KernelProofs.v
theories/KernelRThms.v
theories/KernelSThms.v
theories/KernelThms.v
theories/KeyedProofs.v
theories/LabelThms.v
theories/LayerModel.v
theories/LibList.v
theories/LibMat.v
theories/LibMatS.v
theories/LibPy.v
theories/LibRes.v
theories/LibTrig.v
theories/LinearModel.v
theories/MaskThms.v
theories/MergeThms.v
theories/ModeThms.v
theories/NMaxEx.v
theories/NMaxModel.v
theories/NMaxProofs.v
theories/NMaxThms.v
theories/NamedProofs.v
theories/NestModel.v
theories/NestProofs.v
theories/NetEx.v
theories/NetModel.v
theories/NetMult.v
theories/NetPar.v
theories/NetProofs.v
theories/NetRef.v
theories/NetThms.v
theories/NonlinModel.v
theories/NonlinProofs.v
theories/NormBNCor.v
theories/NormBNThms.v
theories/NormThms.v
theories/OctaEx.v
theories/OctaIrrep1.v
theories/OctaIrrep2.v
theories/OctaIrrep3.v
theories/OctaIrrep4.v
theories/OctaIrrepEx.v
theories/OctaIrrepModel.v
theories/OctaModel.v
theories/OctaProofs.v
theories/OctaSub.v
theories/OctaThms.v
theories/PAdj.v
theories/PBatch.v
theories/PBlocks.v
theories/PCache.v
theories/PChar.v
theories/PCnn.v
theories/PCombModel.v
theories/PCombProofs.v
theories/PComplete.v
theories/PDelta.v
theories/PDis.v
theories/PDropout.v
theories/PExport.v
theories/PField.v
theories/PFieldMap.v
theories/PFieldNorm.v
theories/PFinGroup.v
theories/PFourier.v
theories/PGNorm.v
theories/PGSpace.v
theories/PGen.v
theories/PGrid.v
theories/PHe.v
theories/PHom.v
theories/PHomSp.v
theories/PIGated.v
theories/PIID.v
theories/PImage.v
theories/PIndBN.v
theories/PIrrId.v
theories/PIrrep.v
theories/PKernel.v
theories/PLayer.v
theories/PNMax.v
theories/PNet.v
theories/PNonlin.v
theories/POcta.v
theories/POctaIrrep.v
theories/PPComb.v
theories/PParam.v
theories/PPick.v
theories/PPointConv.v
theories/PPolar.v
theories/PPool.v
theories/PProd.v
theories/PProdIrrep.v
theories/PRdConv.v
theories/PReg.v
theories/PRep.v
theories/PSPool.v
theories/PSampler.v
theories/PSeq.v
theories/PShape.v
theories/PSpace.v
theories/PSpaceO3.v
theories/PSphere.v
theories/PState.v
theories/PTensor.v
theories/PTransposed.v
theories/PUp.v
theories/ParamModel.v
theories/ParamProofs.v
theories/ParamThms.v
theories/PickModel.v
theories/PickProofs.v
theories/PlanarModel.v
theories/PlanarProofs.v
theories/PointConvCor.v
theories/PointConvEquiv.v
theories/PointConvEx.v
theories/PointConvModel.v
theories/PointConvParams.v
theories/PointConvPlane.v
theories/PointConvProofs.v
theories/PointConvThms.v
theories/PolarAttrThms.v
theories/PolarAttrs.v
theories/PolarCor.v
theories/PolarModel.v
theories/PolarProofs.v
theories/PolarThms.v
theories/PoolCor.v
theories/PoolModel.v
theories/PoolProofs.v
theories/PoolThms.v
theories/ProdIrrepCor.v
theories/ProdIrrepDis.v
theories/ProdIrrepEx.v
theories/ProdIrrepFin.v
theories/ProdIrrepModel.v
theories/ProdIrrepProofs.v
theories/ProdIrrepThms.v
theories/ProdModel.v
theories/ProdProofs.v
theories/RdConvCor.v
theories/RdConvEx.v
theories/RdConvModel.v
theories/RdConvPlane.v
theories/RdConvProofs.v
theories/RdConvThms.v
theories/RegModel.v
theories/RegProofs.v
theories/RegThms.v
theories/RepModel.v
theories/RepProofs.v
theories/RepThms.v
theories/RestrictProofs.v
theories/RestrictThms.v
theories/SPoolBlur.v
theories/SPoolCor.v
theories/SPoolEx.v
theories/SPoolModel.v
theories/SPoolProofs.v
theories/SPoolThms.v
theories/SamplerCor.v
theories/SamplerEx.v
theories/SamplerModel.v
theories/SamplerProofs.v
theories/SamplerThms.v
theories/SchurCor.v
theories/SchurFin.v
theories/SchurInd.v
theories/SchurProofs.v
theories/SchurThms.v
theories/SeqModel.v
theories/SeqThms.v
theories/ShapeCor.v
theories/ShapeModel.v
theories/ShapeThms.v
theories/SpaceComb.v
theories/SpaceEx.v
theories/SpaceModel.v
theories/SpaceO3Comb.v
theories/SpaceO3Cone.v
theories/SpaceO3Ex.v
theories/SpaceO3Model.v
theories/SpaceO3Proofs.v
theories/SpaceO3Thms.v
theories/SpaceProofs.v
theories/SpaceSub.v
theories/SpaceThms.v
theories/SpaceTol.v
theories/SpecAdj.v
theories/SpecBatch.v
theories/SpecBlocks.v
theories/SpecCache.v
theories/SpecChar.v
theories/SpecCnn.v
theories/SpecComplete.v
theories/SpecDelta.v
theories/SpecDis.v
theories/SpecDropout.v
theories/SpecFNorm.v
theories/SpecField.v
theories/SpecFieldMap.v
theories/SpecFinGroup.v
theories/SpecFourier.v
theories/SpecGSpace.v
theories/SpecGen.v
theories/SpecGrid.v
theories/SpecGroup.v
theories/SpecHe.v
theories/SpecHom.v
theories/SpecHomSp.v
theories/SpecIGated.v
theories/SpecImage.v
theories/SpecInd.v
theories/SpecIndBN.v
theories/SpecIrrId.v
theories/SpecIrrep.v
theories/SpecKernel.v
theories/SpecLayer.v
theories/SpecLinear.v
theories/SpecNMax.v
theories/SpecNest.v
theories/SpecNet.v
theories/SpecNonlin.v
theories/SpecOcta.v
theories/SpecOctaIrrep.v
theories/SpecPComb.v
theories/SpecParam.v
theories/SpecPick.v
theories/SpecPlanar.v
theories/SpecPointConv.v
theories/SpecPolar.v
theories/SpecPool.v
theories/SpecProd.v
theories/SpecProdIrrep.v
theories/SpecRdConv.v
theories/SpecReg.v
theories/SpecRep.v
theories/SpecRepr.v
theories/SpecSPool.v
theories/SpecSampler.v
theories/SpecSchur.v
theories/SpecSeq.v
theories/SpecShape.v
theories/SpecSpace.v
theories/SpecSpaceO3.v
theories/SpecSphere.v
theories/SpecTensor.v
theories/SpecTensorMod.v
theories/SpecUp.v
theories/SphereEx.v
theories/SphereFrame.v
theories/SphereGrid.v
theories/SphereHealpix.v
theories/SphereModel.v
theories/SphereProofs.v
theories/SphereThms.v
theories/SplitThms.v
theories/StateCor.v
theories/StateEx.v
theories/StateThms.v
theories/TensorCor.v
theories/TensorEx.v
theories/TensorModComp.v
theories/TensorModCor.v
theories/TensorModModel.v
theories/TensorModThms.v
theories/TensorModel.v
theories/TensorProofs.v
theories/TensorThms.v
theories/TransposedEx.v
theories/TransposedModel.v
theories/TransposedThms.v
theories/UpEx.v
theories/UpModel.v
theories/UpProofs.v
theories/UpThms.v
theories/VFieldThms.v
