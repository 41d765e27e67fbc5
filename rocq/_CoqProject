-Q theories Verif
theories/Base.v
theories/GeometryModel.v
theories/GeometrySpec.v
theories/GeometryProofs.v
theories/OwnerProofs.v
theories/FullLxProofs.v
theories/FullLxMain.v
theories/LabelProofs.v
theories/NeighProofs.v
theories/GeoMiscModel.v
theories/GeoMiscProofs.v
theories/Geometry_final.v
theories/GeoOpp.v
theories/Prop_Geometry.v
theories/HaloModel.v
theories/HaloProofs.v
theories/EdgeProofs.v
theories/EoModel.v
theories/EoProofs.v
theories/EoProofs2.v
theories/EoHalo.v
theories/Eo_final.v
theories/Prop_Halo.v
theories/GridModel.v
theories/GridSpec.v
theories/GridProofs.v
theories/GridMain.v
theories/Prop_Grid.v
theories/AllToAllModel.v
theories/AllToAllSpec.v
theories/AllToAllProofs.v
theories/AllToAllExch.v
theories/AllToAllMain.v
theories/AllToAllSetup.v
theories/AllToAllRemap.v
theories/IldgModel.v
theories/IldgProofs.v
theories/RemapMain.v
theories/LocdMain.v
theories/TopoMain.v
theories/Prop_Remap.v
theories/ParModel.v
theories/ParSpec.v
theories/ParProofs.v
theories/ReduceModel.v
theories/ReduceSpec.v
theories/ReduceProofs.v
theories/ReduceMain.v
theories/Prop_Parallel.v
theories/BytesModel.v
theories/BytesSpec.v
theories/BytesProofs.v
theories/ChecksumModel.v
theories/ChecksumSpec.v
theories/ChecksumProofs.v
theories/ChecksumMain.v
theories/IldgFileModel.v
theories/IldgFileSpec.v
theories/IldgFileProofs.v
theories/ChecksumTextModel.v
theories/ChecksumTextProofs.v
theories/VectorFileModel.v
theories/VectorFileSpec.v
theories/VectorFileProofs.v
theories/VectorFileMain.v
theories/VectorFileFinal.v
theories/Prop_IO.v
theories/Ran2Model.v
theories/Ran2Proofs.v
theories/Ran2TextModel.v
theories/Ran2TextProofs.v
theories/Ran2Main.v
theories/SitmoModel.v
theories/SitmoProofs.v
theories/SitmoMain.v
theories/Prop_Random.v
theories/ExtremeModel.v
theories/ExtremeSpec.v
theories/ExtremeProofs.v
theories/MemModel.v
theories/MemSpec.v
theories/MemProofs.v
theories/MemMain.v
theories/VectModel.v
theories/VectSpec.v
theories/VectProofs.v
theories/VectMain.v
theories/Prop_Memory.v
theories/InputModel.v
theories/InputSpec.v
theories/InputUse.v
theories/InputProofs.v
theories/InputMain.v
theories/InputExamples.v
theories/Prop_Input.v
theories/MathModel.v
theories/MathProofs.v
theories/Prop_Math.v
theories/DetModel.v
theories/DetProofs.v
theories/Prop_Det.v
theories/TextModel.v
theories/TextProofs.v
theories/LockModel.v
theories/LockProofs.v
theories/Prop_Text.v
theories/MetaModel.v
theories/MetaSpec.v
theories/MetaProofs.v
theories/Prop_Meta.v
theories/GatherModel.v
theories/GatherProofs.v
theories/GatherSpec.v
theories/Prop_Gather.v
theories/ShiftModel.v
theories/ShiftProofs.v
theories/ShiftMain.v
theories/Prop_Shift.v
theories/FieldModel.v
theories/FieldSpec.v
theories/FieldProofs.v
theories/FieldStorage.v
theories/FieldRefute.v
theories/FieldAlgModel.v
theories/FieldAlgSpec.v
theories/FieldAlgProofs.v
theories/FieldAlgEnds.v
theories/Prop_Field.v
theories/CplxModel.v
theories/CplxSpec.v
theories/CplxProofs.v
theories/CplxStores.v
theories/MatModel.v
theories/MatSpec.v
theories/MatProofs.v
theories/MatRun.v
theories/MatProofs2.v
theories/MatProofs3.v
theories/MatProofs4.v
theories/CplxExtra.v
theories/MatInverse.v
theories/MatAlg.v
theories/MatUnit.v
theories/MatUnit2.v
theories/MatAlgoModel.v
theories/MatSu2.v
theories/MatCool.v
theories/MatCool2.v
theories/MatCool3.v
theories/MatQuad.v
theories/ExpModel.v
theories/ExpSpec.v
theories/ExpProofs.v
theories/ExpAlg.v
theories/ExpVal.v
theories/ExpTrig.v
theories/ExpMain.v
theories/ExpSmall.v
theories/MatEnds.v
theories/MatMore.v
theories/Prop_Cplx.v
theories/Prop_Su3.v
theories/EvolveModel.v
theories/EvolveSpec.v
theories/EvolveProofs.v
theories/EvolveMain.v
theories/EvolveEnd.v
theories/EvolveCase.v
theories/Prop_Hmc.v
theories/DiracModel.v
theories/DiracSpec.v
theories/DiracProofs.v
theories/SpinModel.v
theories/SpinSpec.v
theories/SpinProofs.v
theories/SpinProofs2.v
theories/ParLoop.v
theories/SpinProofs3.v
theories/SpinProofs4.v
theories/Prop_Dirac.v
theories/StagModel.v
theories/StagSpec.v
theories/StagProofs.v
theories/StagProofs2.v
theories/StagProofs3.v
theories/StagAlg.v
theories/StagAlg2.v
theories/StagGeo.v
theories/Prop_Stag.v
theories/CgModel.v
theories/CgSpec.v
theories/CgAlg.v
theories/CgProofs.v
theories/CgmProofs.v
theories/CgmProofs2.v
theories/Prop_Cg.v
theories/CgStagModel.v
theories/CgStagSpec.v
theories/CgStagProofs.v
theories/CgStagProofs2.v
theories/Prop_CgStag.v
theories/TmModel.v
theories/TmSpec.v
theories/TmProofs.v
theories/TmAlg.v
theories/TmAlg2.v
theories/TmEo.v
theories/TmSolveModel.v
theories/TmSolveProofs.v
theories/TmSolveProofs2.v
theories/TmSolveProofs3.v
theories/TmGeo.v
theories/Prop_Tm.v
theories/Prop_TmSolve.v
theories/FftModel.v
theories/FftSpec.v
theories/FftAlg.v
theories/FftLocd.v
theories/FftProofs.v
theories/FftInv.v
theories/TopoCorrProofs.v
theories/Prop_Fft.v
theories/StapleModel.v
theories/StapleSpec.v
theories/StapleProofs.v
theories/StapleMain.v
theories/StapleFinal.v
theories/Prop_Staple.v
theories/GaugeModel.v
theories/GaugeSpec.v
theories/GaugeProofs.v
theories/GaugeAlg.v
theories/GaugeForce.v
theories/GaugeExist.v
theories/Prop_Gauge.v
theories/ArbModel.v
theories/ArbSpec.v
theories/ArbRec.v
theories/ArbComm.v
theories/ArbInd.v
theories/ArbMain.v
theories/ArbFinal.v
theories/Prop_Arb.v
theories/GfixSpec.v
theories/GfixModel.v
theories/GfixProofs.v
theories/GfixAlg.v
theories/GfixMain.v
theories/GfixStep.v
theories/GfixExist.v
theories/Prop_Gfix.v
theories/UnitSpec.v
theories/UnitModel.v
theories/UnitAlg.v
theories/UnitDet.v
theories/UnitProofs.v
theories/UnitMain.v
theories/UnitPolar.v
theories/Prop_Unit.v
theories/GfdModel.v
theories/GfdProofs.v
theories/OvrModel.v
theories/Prop_Gfd.v
theories/AdaModel.v
theories/Prop_Ada.v
theories/BackModel.v
theories/BackSpec.v
theories/BackProofs.v
theories/Prop_Bound.v
theories/BackFieldSpec.v
theories/BackEo.v
theories/BackField.v
theories/Prop_Back.v
theories/SmoothModel.v
theories/Prop_Smooth.v
theories/FreeTmModel.v
theories/FreeTmSpec.v
theories/FreeTmProofs.v
theories/Prop_FreeTm.v
theories/FreeTmShell.v
theories/Prop_Shell.v
theories/GluonModel.v
theories/GluonSpec.v
theories/GluonProofs.v
theories/GluonStore.v
theories/Prop_Gluon.v
theories/Prop_Gluon2.v
theories/CovModel.v
theories/CovSpec.v
theories/CovProofs.v
theories/CovAlg.v
theories/Prop_Cov.v
theories/VertexModel.v
theories/VertexSpec.v
theories/VertexProofs.v
theories/VertexAlg.v
theories/Prop_Vertex.v
