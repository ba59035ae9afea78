-Q theories Verif
theories/Linalg.v
theories/Spec.v
theories/SpecFacts.v
theories/ModelCommon.v
theories/ModelEigen.v
theories/ModelRotation.v
theories/CommonFacts.v
theories/ConvFacts.v
theories/RVFacts.v
theories/Windows.v
theories/RotFacts.v
theories/UniqueFacts.v
theories/MetricFacts.v
theories/EulerFacts.v
theories/EqFacts.v
theories/SetFacts.v
theories/ModelQuaternion.v
theories/ModelDebug.v
theories/QuatDebugFacts.v
theories/ModelHistory.v
theories/SpecHistory.v
theories/HistoryFacts.v
theories/Claims1.v
theories/Claims2.v
theories/Claims3.v
theories/Prop1.v
theories/Prop2.v
theories/Prop3.v
theories/SpecDiff.v
theories/ModelDiff.v
theories/DerivFacts.v
theories/DiffFacts.v
theories/DiffFacts2.v
theories/JacFacts.v
theories/Claims4.v
theories/Prop4.v
theories/ModelPose.v
theories/SpecPose.v
theories/Claims5.v
theories/Prop5.v
theories/ModelVector.v
theories/Claims6.v
theories/Prop6.v
theories/ModelPhys.v
theories/SpecPhys.v
theories/Claims7.v
theories/Prop7.v
theories/SpecMat.v
theories/ModelLinalg.v
theories/MatFacts.v
theories/Claims8.v
theories/Prop8.v
theories/FloatModel.v
theories/FloatFacts.v
theories/FloatModulo.v
theories/PiBounds.v
theories/FloatWrap.v
theories/Claims9.v
theories/Prop9.v
theories/Claims10.v
theories/Prop10.v
theories/SpecClose.v
theories/CloseFacts.v
theories/NearUnit.v
theories/EulerNear.v
theories/RoundTrip.v
theories/TotalFacts.v
theories/TotalFacts2.v
theories/Claims11.v
theories/Prop11.v
theories/Claims12.v
theories/Prop12.v
theories/MixedEq.v
theories/Claims13.v
theories/Prop13.v
theories/ModelDebug2.v
theories/DebugFacts.v
theories/Claims14.v
theories/Prop14.v
theories/SpecAccess.v
theories/ModelAccess.v
theories/AccessFacts.v
theories/Claims15.v
theories/Prop15.v
theories/FloatModel2.v
theories/SpecFloatQ.v
theories/FloatQFacts.v
theories/FloatQProd.v
theories/FloatQHist.v
theories/FloatQRot.v
theories/FloatMHist.v
theories/FloatCast.v
theories/Claims16.v
theories/Prop16.v
theories/SpecRates.v
theories/ModelRates.v
theories/SpecDcall.v
theories/Claims17.v
theories/Prop17.v
theories/FloatModel3.v
theories/SpecLibm.v
theories/SpecBuild.v
theories/FloatBuild.v
theories/FloatBuild2.v
theories/FloatBuild3.v
theories/FloatBuild4.v
theories/Claims18.v
theories/Prop18.v
theories/FloatModel4.v
theories/SpecExt.v
theories/FloatExt.v
theories/FloatExt2.v
theories/FloatExt3.v
theories/FloatExt4.v
theories/FloatExt5.v
theories/FloatExt6.v
theories/Claims19.v
theories/Prop19.v
theories/FloatModel5.v
theories/SpecPoseF.v
theories/FloatPose.v
theories/FloatPose2.v
theories/FloatModel6.v
theories/FloatMat.v
theories/Claims20.v
theories/Claims21.v
theories/Prop20.v
theories/Prop21.v
theories/FloatModel7.v
theories/SpecSix.v
theories/FloatSix.v
theories/FloatFix.v
theories/FloatOHist.v
theories/SpecTrip.v
theories/Claims22.v
theories/Claims23.v
theories/Prop22.v
theories/Prop23.v
theories/FloatModel8.v
theories/SpecBox.v
theories/FloatBox.v
theories/Claims24.v
theories/Prop24.v
theories/FloatModel9.v
theories/SpecUnique.v
theories/FloatUnique.v
theories/Claims25.v
theories/Prop25.v
theories/SpecEqual.v
theories/FloatEq.v
theories/Claims26.v
theories/Prop26.v
theories/FloatModel10.v
theories/SpecVecF.v
theories/FloatVec.v
theories/FloatVec2.v
theories/FloatVec3.v
theories/FloatVec4.v
theories/Claims27.v
theories/Prop27.v
theories/Claims28.v
theories/Prop28.v
theories/FloatModel11.v
theories/SpecDebugF.v
theories/FloatDebug.v
theories/FloatDebug2.v
theories/FloatDebug3.v
theories/Claims29.v
theories/Prop29.v
theories/FloatModel12.v
theories/FloatDiff.v
theories/FloatDiff2.v
theories/FloatDiff3.v
theories/Claims30.v
theories/Prop30.v
theories/FloatModel13.v
theories/SpecTwo.v
theories/FloatTwo.v
theories/FloatTwo2.v
theories/FloatTwo3.v
theories/Claims31.v
theories/Prop31.v
theories/FloatModel14.v
theories/FloatJac.v
theories/FloatJac2.v
theories/FloatJac3.v
theories/Claims32.v
theories/Prop32.v
theories/FloatModel15.v
theories/SpecSecond.v
theories/FloatSecond.v
theories/FloatSecond2.v
theories/Claims33.v
theories/Prop33.v
theories/FloatModel16.v
theories/FloatInv.v
theories/FloatInv2.v
theories/Claims34.v
theories/Prop34.v
theories/MotionFacts.v
theories/SpecMotion.v
theories/Claims35.v
theories/Prop35.v
theories/FloatModel17.v
theories/RandomFacts.v
theories/Claims36.v
theories/Prop36.v
theories/FloatModel18.v
theories/SpecPoseSix.v
theories/Claims37.v
theories/Claims38.v
theories/Prop37.v
theories/Prop38.v
theories/FloatModel19.v
theories/SpecPinv.v
theories/PinvFacts.v
theories/Claims39.v
theories/FloatModel20.v
theories/Claims40.v
theories/Prop39.v
theories/Prop40.v
theories/FloatModel21.v
theories/SpecXcast.v
theories/FloatXcast.v
theories/FloatXcast2.v
theories/Claims41.v
theories/Prop41.v
