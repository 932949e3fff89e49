-Q theories Verif

theories/Base.v
theories/ModelCore.v
theories/ModelTraits.v
theories/SpecCore.v
theories/ProofCore.v
theories/ProofMatch.v
theories/ProofTraits.v
theories/ExCore.v
theories/ProofCore2.v
theories/PropCore.v
theories/ModelScope.v
theories/SpecScope.v
theories/ProofScope1.v
theories/ProofScope2.v
theories/ProofScope3.v
theories/ProofScope4.v
theories/PropScope.v
theories/ModelRegistry.v
theories/SpecRegistry.v
theories/ProofRegistry1.v
theories/ProofRegistry2.v
theories/PropRegistry.v
theories/Dec.v
theories/ModelError.v
theories/PropError.v
theories/ModelFnOwn.v
theories/PropFnOwn.v
theories/ModelClean.v
theories/PropClean.v
theories/ModelConfig.v
theories/SpecConfig.v
theories/PropConfig.v
theories/PropNode.v
theories/ModelJson.v
theories/SpecJson.v
theories/ProofJson1.v
theories/ProofJson2.v
theories/ProofJson3.v
theories/ProofJson4.v
theories/ModelJsonW.v
theories/ModelJsonT.v
theories/ProofJson5.v
theories/ProofJson6.v
theories/ProofJson7.v
theories/ProofJson8.v
theories/ProofJson9.v
theories/ProofJson10.v
theories/PropJsonStr.v
theories/PropJsonTok.v
theories/SpecJsonT.v
theories/ProofJsonT1.v
theories/ProofJsonT2.v
theories/ProofJsonT3.v
theories/ProofJsonT4.v
theories/ProofJsonT5.v
theories/SpecJsonA.v
theories/ProofJsonA1.v
theories/ProofJsonA2.v
theories/ProofJsonA3.v
theories/PropJsonDoc.v
theories/ProofJsonP1.v
theories/ProofJsonP2.v
theories/PropJsonCut.v
theories/ModelValue.v
theories/SpecValue.v
theories/ProofValue.v
theories/PropValue.v
theories/ModelPlumb.v
theories/SpecPlumb.v
theories/ProofPlumb.v
theories/ProofPlumb2.v
theories/ProofPlumb3.v
theories/ProofPlumb4.v
theories/PropPlumb.v
theories/ModelSig.v
theories/PropSig.v
theories/ProofJsonA4.v
theories/ProofJsonA5.v
theories/ProofJsonA6.v
theories/ProofJsonA7.v
theories/ProofJsonA8.v
theories/ProofJsonA9.v
theories/PropJsonAcc.v
theories/ModelValOwn.v
theories/PropValOwn.v
theories/ModelCont.v
theories/SpecCont.v
theories/ProofCont.v
theories/ProofCont2.v
theories/PropCont.v
theories/ProofMap.v
theories/PropMap.v
theories/ModelCall.v
theories/SpecCall.v
theories/PropCall.v
theories/PropPrint.v
theories/PropParent.v
theories/ModelLoad.v
theories/SpecLoad.v
theories/ProofLoad.v
theories/ProofLoad2.v
theories/ProofLoad3.v
theories/PropLoad.v
theories/ModelPtr.v
theories/SpecPtr.v
theories/ProofPtr.v
theories/ProofPtr2.v
theories/ProofPtr3.v
theories/ProofPtr4.v
theories/PropPtr.v
theories/ModelPlain.v
theories/SpecPlain.v
theories/ProofPlain.v
theories/ProofPlain2.v
theories/PropPlain.v
theories/ModelOps.v
theories/SpecOps.v
theories/ProofOps.v
theories/PropOps.v
theories/SpecWorld.v
theories/ProofWorld.v
theories/ProofWorld2.v
theories/PropWorld.v
theories/SpecJsonPos.v
theories/ProofJsonPos.v
theories/PropJsonPos.v
theories/ModelJsonG.v
theories/SpecJsonG.v
theories/ProofJsonG.v
theories/PropJsonGen.v
theories/SpecDouble.v
theories/ModelDouble.v
theories/ProofDouble1.v
theories/ProofDouble2.v
theories/ProofDouble3.v
theories/PropDouble.v
theories/SpecCodec.v
theories/ModelCodec.v
theories/ProofCodec1.v
theories/ProofCodec2.v
theories/ProofCodec3.v
theories/ProofCodec4.v
theories/PropCodec.v
theories/SpecInit.v
theories/ModelInit.v
theories/ProofInit.v
theories/PropInit.v
theories/ModelGlobal.v
theories/SpecGlobal.v
theories/ProofGlobal.v
theories/PropGlobal.v
theories/ModelUMap.v
theories/SpecUMap.v
theories/ProofUMap.v
theories/ProofUMap2.v
theories/PropUMap.v
theories/ModelDump.v
theories/SpecDump.v
theories/ProofDump.v
theories/ProofDump2.v
theories/ProofDump3.v
theories/ProofDump4.v
theories/PropDump.v
theories/PropJsonNl.v
theories/PropJsonNoUB.v
theories/ProofJsonB1.v
theories/ProofJsonB2.v
theories/ProofJsonB3.v
theories/PropJsonAcc2.v
theories/ModelJsonH.v
theories/SpecJsonH.v
theories/ProofJsonH1.v
theories/ProofJsonH2.v
theories/ProofJsonH3.v
theories/PropJsonGraph.v
theories/ModelLoadX.v
theories/ProofLoadX.v
theories/ProofLoadX2.v
theories/PropLoadX.v
theories/ModelJsonS.v
theories/SpecJsonS.v
theories/ProofJsonS1.v
theories/ProofJsonS2.v
theories/ProofJsonS3.v
theories/PropJsonStack.v
theories/ModelJsonL.v
theories/SpecJsonL.v
theories/ProofJsonL1.v
theories/ProofJsonL2.v
theories/ProofJsonL3.v
theories/ProofJsonL4.v
theories/PropJsonLife.v
theories/ModelJsonMsg.v
theories/SpecJsonMsg.v
theories/ProofJsonMsg1.v
theories/PropJsonMsg.v
theories/PropJsonMsgTok.v
theories/PropJsonOpts.v
theories/PropJsonVoid.v
theories/ModelConfigStore.v
theories/SpecConfigStore.v
theories/ProofConfigStore.v
theories/PropConfigStore.v
theories/PropConfigKey.v
theories/ModelPath.v
theories/SpecPath.v
theories/ProofPath.v
theories/PropPath.v
theories/ModelCfgJson.v
theories/SpecCfgJson.v
theories/ProofCfgJson.v
theories/PropCfgJson.v
theories/ModelMembers.v
theories/PropMembers.v
